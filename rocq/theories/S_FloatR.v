(** * Rounding of binary64 results (specification side) *)

From Coq Require Import Reals ZArith Floats List.
From Verif Require Import Num M_LP S_Geom S_Poly S_Float S_FloatZ.
Local Open Scope R_scope.

(** [r] is finite, and no finite double is nearer to the real number [Y]. *)
Definition nearestD (r : float) (Y : R) : Prop :=
  fin r /\ forall z, fin z -> Rabs (toR r - Y) <= Rabs (toR z - Y).

(** Half the distance between 1 and the next double. *)
Definition ulp1 : R := / 2 ^ 53.
(** [r] is finite, with a relative error of at most [k] times [ulp1]. *)
Definition relErr (k : R) (r : float) (Y : R) : Prop := fin r /\ Rabs (toR r - Y) <= k * ulp1 * Rabs Y.

(** Far from the overflow: both coordinates are finite and not above 2^500. *)
Definition moderate (p : pt float) : Prop := finP p /\ Rabs (toR (px p)) <= 2 ^ 500 /\ Rabs (toR (py p)) <= 2 ^ 500.

(** The sum of the two products in the determinant of [pq] and [pr], without sign. *)
Definition detSize (p q r : pt R) : R := Rabs ((px q - px p) * (py r - py p)) + Rabs ((py q - py p) * (px r - px p)).
(** Three points in general position: the determinant exceeds 2^-51 times that sum, and 2e-15. *)
Definition clearTurn (p q r : pt R) : Prop := / 2 ^ 51 * detSize p q r + 2 / 10 ^ 15 <= Rabs (cross3 p q r).
(** All triples of distinct points. *)
Definition clearAll (pts : list (pt float)) : Prop :=
  forall p q r, In p pts -> In q pts -> In r pts -> p <> q -> q <> r -> p <> r -> clearTurn (toRp p) (toRp q) (toRp r).
(** The sign only. *)
Definition clearSign (p q r : pt R) : Prop := / 2 ^ 51 * detSize p q r + / 2 ^ 1000 <= Rabs (cross3 p q r).

(** Zero, or far from the underflow. *)
Definition away (x : R) : Prop := x = 0 \/ / 2 ^ 500 <= Rabs x.
(** The terms of the shoelace sum, without sign. *)
Definition areaSize (pts : list (pt R)) : R := sumOver (fun e => Rabs (px (fst e) * py (snd e)) + Rabs (py (fst e) * px (snd e))) (cyc pts).
