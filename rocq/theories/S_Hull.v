(** * Specification: convex hulls *)

From Coq Require Import Reals List.
From Verif Require Import Num M_LP S_Geom.
Import ListNotations.
Local Open Scope R_scope.
Implicit Types (p q r : pt R) (pts : list (pt R)).

(** The function u.x + v.y + w: its sign tells the sides of a line. *)
Definition aff (u v w : R) p : R := u * px p + v * py p + w.
(** [q] is above [p0], or at the same height and to the right. *)
Definition hullDir p0 q : Prop := py p0 < py q \/ (py q = py p0 /\ px p0 < px q).
(** The lowest point, the leftmost one if there are several. *)
Definition isPivot pts p0 : Prop := In p0 pts /\ forall q, In q pts -> q <> p0 -> hullDir p0 q.
(** No two other points are aligned with the pivot. *)
Definition noTie pts : Prop := forall p0, isPivot pts p0 -> forall q r, In q pts -> In r pts -> q <> p0 -> r <> p0 -> q <> r -> cross3 p0 q r <> 0.
(** Three points are aligned, or clearly not (twice the area of the triangle is at least 1e-15). *)
Definition sepDet pts : Prop := forall p q r, In p pts -> In q pts -> In r pts -> cross3 p q r = 0 \/ / 1000000000000000 <= Rabs (cross3 p q r).
(** The polygon [h] is the boundary of the smallest convex set holding [pts]: its vertices are among the
    points, every point is on the left of (or on) every edge, and every half-plane that holds the vertices holds
    the points. *)
Definition isHull pts h : Prop :=
  incl h pts /\ NoDup h /\ (3 <= length h)%nat /\
  (forall a b p, In (a, b) (combine h (tl h ++ firstn 1 h)) -> In p pts -> 0 <= cross3 a b p) /\
  (forall u v w, (forall q, In q h -> 0 <= aff u v w q) -> forall p, In p pts -> 0 <= aff u v w p).
