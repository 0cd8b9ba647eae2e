(** * Specifications for the intersections of a rectangle with lines and circles *)

From Coq Require Import Reals List.
From Verif Require Import Num M_LP M_FRect S_Geom S_FRect.
Import ListNotations.
Local Open Scope R_scope.

(** The border of a rectangle: the points of the closed rectangle on one of its four lines. *)
Definition onBorder (r : frect R) (p : pt R) : Prop :=
  inR r p /\ (px p = px (r1 r) \/ px p = px (r2 r) \/ py p = py (r1 r) \/ py p = py (r2 r)).
(** Corners. *)
Definition isCorner (r : frect R) (p : pt R) : Prop :=
  (px p = px (r1 r) \/ px p = px (r2 r)) /\ (py p = py (r1 r) \/ py p = py (r2 r)).
(** Width and height at least nullDistance and above epsilon, as demanded by the segments of the sides and
    their lines. *)
Definition bigR (th : thrs R) (r : frect R) : Prop :=
  (nullDistance th <= px (r2 r) - px (r1 r) /\ nullDistance th <= py (r2 r) - py (r1 r)) /\
  (dblEpsilon th < px (r2 r) - px (r1 r) /\ dblEpsilon th < py (r2 r) - py (r1 r)).
(** A unit line is exactly parallel to an axis, or makes with both an angle of at least nullAngleValue. *)
Definition axisClear (th : thrs R) (l : line R) : Prop :=
  (la l = 0 \/ nullAngleValue th <= acos (Rabs (lb l))) /\ (lb l = 0 \/ nullAngleValue th <= acos (Rabs (la l))).
(** A unit line goes through a corner, or passes it at nullDistance or more. *)
Definition cornerClear (th : thrs R) (r : frect R) (l : line R) : Prop :=
  forall e, isCorner r e -> onL l e \/ nullDistance th <= Rabs (la l * px e + lb l * py e + lc l).
(** A line does not contain a side: it contains no two corners of one side. *)
Definition noSide (r : frect R) (l : line R) : Prop :=
  forall e f, isCorner r e -> isCorner r f -> onL l e -> onL l f -> e <> f -> px e <> px f /\ py e <> py f.
(** Strictly increasing lists of points. *)
Fixpoint incrL (l : list (pt R)) : Prop :=
  match l with
  | a :: l' => (forall b, In b l' -> lexlt a b) /\ incrL l'
  | [] => True
  end.
