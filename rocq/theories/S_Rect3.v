(** * Specifications for segments and polylines against a rectangle *)

From Coq Require Import Reals List.
From Verif Require Import Num M_LP M_Seg S_Geom S_Seg S_Circle S_Poly S_FRect S_Inter M_FRect.
Import ListNotations.
Local Open Scope R_scope.

(** The four corners in turn. *)
Definition rectPts (r : frect R) : list (pt R) :=
  [r1 r; mkPt (px (r1 r)) (py (r2 r)); r2 r; mkPt (px (r2 r)) (py (r1 r))].
(** A segment in general position with respect to every side of a rectangle. *)
Definition genPosR (th : thrs R) (r : frect R) (A B : pt R) : Prop :=
  forall e, In e (sides true (rectPts r)) -> genPos th e (A, B).
(** No side of one rectangle is on the line of a side of the other or closer than [d] to it. *)
Definition apartR (d : R) (r o : frect R) : Prop :=
  (forall a b, In a [px (r1 r); px (r2 r)] -> In b [px (r1 o); px (r2 o)] -> d <= Rabs (a - b)) /\
  (forall a b, In a [py (r1 r); py (r2 r)] -> In b [py (r1 o); py (r2 o)] -> d <= Rabs (a - b)).
