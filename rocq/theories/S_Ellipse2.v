(** * Specification: axes and oriented box of an ellipse *)

From Coq Require Import Reals.
From Verif Require Import Num M_LP S_Geom S_Ellipse.
Local Open Scope R_scope.
Implicit Types (p q : pt R) (l : line R).

(** Mirror image of a point by a line with unit normal. *)
Definition mirror l p : pt R :=
  let d := la l * px p + lb l * py p + lc l in mkPt (px p - 2 * d * la l) (py p - 2 * d * lb l).
(** Scalar product of pq and pr. *)
Definition dot3 p q r : R := (px q - px p) * (px r - px p) + (py q - py p) * (py r - py p).
(** [p] is in the rectangle of origin [o] and sides [oa], [ob]. *)
Definition inRectO (o a b p : pt R) : Prop := 0 <= dot3 o a p <= dot3 o a a /\ 0 <= dot3 o b p <= dot3 o b b.
Definition midPt p q : pt R := mkPt ((px p + px q) / 2) ((py p + py q) / 2).
(** Restriction on the angle: the axes are parallel to the coordinate axes, or clearly not. *)
Definition axisOK (th : thrs R) (a b t : R) : Prop :=
  sin t = 0 \/ a = b \/
  (nullDenom th <= Rabs (2 * (b * b - a * a) * sin t * cos t) /\ nullDenom th <= Rabs (sin t) /\ nullDenom th <= Rabs (cos t)).
