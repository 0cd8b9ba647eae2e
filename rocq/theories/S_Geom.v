(** * Specification vocabulary: plane geometry over the reals

    Nothing here refers to the model functions; only to the records that hold
    coordinates. *)

From Coq Require Import Reals.
From Verif Require Import Num M_LP.
Local Open Scope R_scope.

(** A point is on a line. *)
Definition onL (l : line R) (p : pt R) : Prop := la l * px p + lb l * py p + lc l = 0.
(** A homogeneous triple is on a line. *)
Definition onLH (l : line R) (p : hpt R) : Prop := la l * h0 p + lb l * h1 p + lc l * h2 p = 0.
(** The coefficients describe a line. *)
Definition proper (l : line R) : Prop := la l <> 0 \/ lb l <> 0.
(** Unit normal. *)
Definition unitL (l : line R) : Prop := la l * la l + lb l * lb l = 1.
(** Same set of points. *)
Definition sameLine (l m : line R) : Prop := forall p, onL l p <-> onL m p.
(** Euclidean distance. *)
Definition edist (p q : pt R) : R := sqrt (Rsqr (px p - px q) + Rsqr (py p - py q)).
(** Orthogonal / parallel directions. *)
Definition orthoL (l m : line R) : Prop := la l * la m + lb l * lb m = 0.
Definition paraL (l m : line R) : Prop := la l * lb m - lb l * la m = 0.
(** Twice the signed area of the triangle p q r. *)
Definition cross3 (p q r : pt R) : R :=
  (px q - px p) * (py r - py p) - (py q - py p) * (px r - px p).
(** Point on the segment pq. *)
Definition onSeg (p q r : pt R) : Prop :=
  exists t, 0 <= t <= 1 /\ px r = px p + t * (px q - px p) /\ py r = py p + t * (py q - py p).
(** Lexicographic order. *)
Definition lexlt (p q : pt R) : Prop := px p < px q \/ (px p = px q /\ py p < py q).

(** Longest side of a triangle; a triangle is thin at scale d when two vertices are closer than d
    or its smallest altitude (|cross| / longest side) is below d. *)
Definition maxSide (p q r : pt R) : R := Rmax (edist p q) (Rmax (edist q r) (edist p r)).
Definition thinTriangle (d : R) (p q r : pt R) : Prop :=
  edist p q < d \/ edist q r < d \/ edist p r < d \/ Rabs (cross3 p q r) < d * maxSide p q r.

(** ** The sign-fix zone

    homog2d.hpp:8796-8805 negates b and c, but not a, when 0 < |a| < nullDenom and b < 0: the stored
    line is then a different one.  The predicates below exclude that zone. *)

(** The join of p and q is exactly horizontal, or not within nullDenom of horizontal. *)
Definition dirOK (th : thrs R) (p q : pt R) : Prop :=
  py p = py q \/ (nullDenom th * edist p q <= Rabs (py p - py q)).
(** The orthogonal direction of a (unit) line is not in the zone. *)
Definition orthOK (th : thrs R) (l : line R) : Prop := lb l = 0 \/ (nullDenom th <= Rabs (lb l)).
(** What every line constructor leaves in a Line2d (lemma lnorm_stored). *)
Definition storedL (th : thrs R) (l : line R) : Prop :=
  unitL l /\ 0 <= la l /\ (la l < nullDenom th -> 0 <= lb l).
