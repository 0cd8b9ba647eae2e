(** * Four points in general position *)

From Coq Require Import Reals List.
From Verif Require Import Num M_LP S_Geom.
Import ListNotations.
Local Open Scope R_scope.

(** No three of the four points are aligned. *)
Definition general (p1 p2 p3 p4 : pt R) : Prop :=
  cross3 p1 p2 p3 <> 0 /\ cross3 p1 p2 p4 <> 0 /\ cross3 p1 p3 p4 <> 0 /\ cross3 p2 p3 p4 <> 0.
