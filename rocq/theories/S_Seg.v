(** * Specification vocabulary: segments and circles over the reals *)

From Coq Require Import Reals.
From Verif Require Import Num M_LP M_Seg S_Geom.
Local Open Scope R_scope.

(** The join of p and q is exactly vertical, or not within nullDenom of vertical: its orthogonal
    direction is outside the sign-fix zone (see S_Geom, [dirOK] and [orthOK]). *)
Definition vertOK (th : thrs R) (p q : pt R) : Prop :=
  px p = px q \/ (nullDenom th * edist p q <= Rabs (px p - px q)).

(** The point at parameter t on the line pq. *)
Definition along (p q : pt R) (t : R) : pt R :=
  mkPt (px p + t * (px q - px p)) (py p + t * (py q - py p)).

(** Translated point; the segment s translated by v. *)
Definition moved (p : pt R) (x y : R) : pt R := mkPt (px p + x) (py p + y).

(** The points of a segment object. *)
Definition segHas (s : seg R) (p : pt R) : Prop := onSeg (sA s) (sB s) p.

(** A segment object whose end points compare different, as left by every constructor. *)
Definition okSeg (th : thrs R) (s : seg R) : Prop :=
  nullDistance th <= edist (sA s) (sB s) /\ dblEpsilon th < edist (sA s) (sB s).

(** The circle of centre c and radius r. *)
Definition onCircle (c : pt R) (r : R) (p : pt R) : Prop := edist c p = r.
