(** * Specification: squares and extreme points *)

From Coq Require Import Reals List.
From Verif Require Import Num M_LP S_Geom.
Import ListNotations.
Local Open Scope R_scope.

(** a b c d is a square: four equal sides, not null, and a right angle. *)
Definition isSquare (a b c d : pt R) : Prop :=
  0 < edist a b /\ edist b c = edist a b /\ edist c d = edist a b /\ edist d a = edist a b /\
  (px b - px a) * (px d - px a) + (py b - py a) * (py d - py a) = 0.

(** Extreme points of a list, ties going to the smallest other coordinate. *)
Definition leftmost (pts : list (pt R)) (p : pt R) : Prop :=
  In p pts /\ forall q, In q pts -> px p < px q \/ (px q = px p /\ py p <= py q).
Definition rightmost (pts : list (pt R)) (p : pt R) : Prop :=
  In p pts /\ forall q, In q pts -> px q < px p \/ (px q = px p /\ py p <= py q).
Definition topmost (pts : list (pt R)) (p : pt R) : Prop :=
  In p pts /\ forall q, In q pts -> py q < py p \/ (py q = py p /\ px p <= px q).
Definition bottommost (pts : list (pt R)) (p : pt R) : Prop :=
  In p pts /\ forall q, In q pts -> py p < py q \/ (py q = py p /\ px p <= px q).

(** The end of the segment LQ, turned by a right angle (s = 1 or -1) and moved to start at t. *)
Definition turned (L Q t : pt R) (s : R) : pt R :=
  mkPt (px t - s * (py Q - py L)) (py t + s * (px Q - px L)).
(** The one of the two that is closest to L (any of them if they are equally close). *)
Definition closest (L Q t g : pt R) : Prop :=
  exists s, (s = 1 \/ s = -1) /\ g = turned L Q t s /\ edist g L <= edist (turned L Q t (- s)) L.
(** p and q are at least the distance threshold apart along the direction of g bo. *)
Definition farAlong th (g bo p q : pt R) : Prop :=
  nullDistance th * edist g bo <= Rabs ((px p - px q) * (px bo - px g) + (py p - py q) * (py bo - py g)).
