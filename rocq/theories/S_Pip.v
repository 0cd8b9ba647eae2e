(** * Specification: inside of a polygon *)

From Coq Require Import Reals List.
From Verif Require Import Num M_LP S_Geom S_Poly.
Import ListNotations.
Local Open Scope R_scope.
Implicit Types (p q r v : pt R) (e : pt R * pt R) (pts : list (pt R)).

(** [n] elements of the list satisfy [P]. *)
Inductive countP {A} (P : A -> Prop) : list A -> nat -> Prop :=
| count_nil : countP P [] 0
| count_yes x l n : P x -> countP P l n -> countP P (x :: l) (S n)
| count_no x l n : ~ P x -> countP P l n -> countP P (x :: l) n.

(** The half-line that starts at [p] and goes to the right crosses the side [e] (a vertex at the level of [p]
    counts as being below it). *)
Definition crossR p e : Prop :=
  (py (fst e) <= py p < py (snd e) \/ py (snd e) <= py p < py (fst e)) /\
  px p < px (fst e) + (py p - py (fst e)) * (px (snd e) - px (fst e)) / (py (snd e) - py (fst e)).

(** Even-odd rule. *)
Definition insideEO pts p : Prop := exists n, countP (crossR p) (cyc pts) n /\ Nat.Odd n.

(** The segment [pr] has a point on the side [e]. *)
Definition meetsSide p r e : Prop := exists q, onSeg (fst e) (snd e) q /\ onSeg p r q.

(** [p] is on no side. *)
Definition offSides pts p : Prop := forall e, In e (cyc pts) -> ~ onSeg (fst e) (snd e) p.
(** No side is reduced to a point. *)
Definition noNullSide pts : Prop := forall e, In e (cyc pts) -> fst e <> snd e.

(** [p] is not in the interior of the bounding box of the vertices. *)
Definition outBox pts p : Prop :=
  (forall v, In v pts -> px p <= px v) \/ (forall v, In v pts -> px v <= px p) \/
  (forall v, In v pts -> py p <= py v) \/ (forall v, In v pts -> py v <= py p).

(** A polygon with distinct vertices that has, for each side, all its other vertices strictly on the left. *)
Definition convexCCW pts : Prop :=
  (3 <= length pts)%nat /\ NoDup pts /\ (forall e v, In e (cyc pts) -> In v pts -> v = fst e \/ v = snd e \/ 0 < cross3 (fst e) (snd e) v).
(** The point is strictly on the left of each side. *)
Definition leftOfAll pts p : Prop := forall e, In e (cyc pts) -> 0 < cross3 (fst e) (snd e) p.

(** ** What the function of the library needs *)

(** The five points outside the extended bounding box that the function uses, one after the other. *)
Definition refPt (x1 y1 x2 y2 : R) (k : nat) : pt R := mkPt (2 * x1 - x2) (2 * y1 - y2 + 3 * (y2 - y1) / 2 ^ (k + 1)).

(** The point is at nullDistance at least of the line of each side, and each side is seen from the point
    at a line angle of nullAngleValue at least: the lines from the point to the ends of the side make such an
    angle with the side. *)
Definition clearOf (th : thrs R) pts p : Prop := forall e, In e (cyc pts) ->
  nullDistance th * edist (fst e) (snd e) <= Rabs (cross3 (fst e) (snd e) p) /\
  forall v, v = fst e \/ v = snd e -> sin (nullAngleValue th) * (edist p v * edist (fst e) (snd e)) <= Rabs (cross3 (fst e) (snd e) p).

(** All vertices are at nullDistance at least of the segment [pr]. *)
Definition freeRef (th : thrs R) pts p r : Prop := forall v x, In v pts -> onSeg p r x -> nullDistance th <= edist v x.
