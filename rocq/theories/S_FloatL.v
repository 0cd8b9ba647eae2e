(** * Lines through two points in binary64 (specification side) *)

From Coq Require Import Reals ZArith Floats.
From Verif Require Import Num M_LP S_Geom S_Float S_FloatZ S_FloatR.
Local Open Scope R_scope.

(** Finite, both coordinates at most [M] in absolute value. *)
Definition inBox (M : R) (p : pt float) : Prop := finP p /\ Rabs (toR (px p)) <= M /\ Rabs (toR (py p)) <= M.
(** Zero or at least 2^-100: no underflow in the products below. *)
Definition notTiny (x : R) : Prop := x = 0 \/ / 2 ^ 100 <= Rabs x.
Definition notTinyP (p q : pt float) : Prop := notTiny (toR (px p) - toR (px q)) /\ notTiny (toR (py p) - toR (py q)).
(** Thresholds: finite, 0 <= epsilon < nullDistance (true of the default ones). *)
Definition thrF (th : thrs float) : Prop :=
  fin (nullDistance th) /\ fin (dblEpsilon th) /\ fin (nullDenom th) /\ 0 <= toR (dblEpsilon th) < toR (nullDistance th).
(** The line [pq] is exactly horizontal, or not nearly so (the normalisation of a line whose first coefficient
    is below [nullDenom] changes the line, see C04). *)
Definition clearSlope (th : thrs float) (p q : pt float) : Prop :=
  toR (py p) = toR (py q) \/ (toR (nullDenom th) + 9 * ulp1) * edist (toRp p) (toRp q) <= Rabs (toR (py p) - toR (py q)).
(** Distance from [r] to the line through [p] and [q]. *)
Definition distLine (p q r : pt R) : R := Rabs (cross3 p q r) / edist p q.
(** Error bound: coordinates up to [M], points at distance [D]. *)
Definition lineErr (M D : R) : R := (5 * (M * M / D) + 90 * M) * ulp1.
(** Two points a line can be built from, at a distance of at least [d]. *)
Definition linePair (th : thrs float) (M d : R) (p q : pt float) : Prop :=
  inBox M p /\ inBox M q /\ notTinyP p q /\ clearSlope th p q /\ 0 < d <= edist (toRp p) (toRp q).
