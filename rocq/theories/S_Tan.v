(** * Specification of the common tangents of two circles *)

From Coq Require Import Reals.
From Verif Require Import Num M_LP M_Seg M_Circle S_Geom S_Seg.
Local Open Scope R_scope.

(** The line ab touches the first circle in a and the second one in b, both circles on the same side: the radii have the same
    direction n, orthogonal to ab. *)
Definition extTangent (c d : circle R) (a b : pt R) : Prop :=
  exists nx ny, nx * nx + ny * ny = 1 /\ a = moved (cc c) (cr c * nx) (cr c * ny) /\ b = moved (cc d) (cr d * nx) (cr d * ny) /\
    nx * (px b - px a) + ny * (py b - py a) = 0.
(** The ends of a segment object, in any order. *)
Definition hasEnds (s : seg R) (a b : pt R) : Prop := (sA s = a /\ sB s = b) \/ (sA s = b /\ sB s = a).
(** Two points that make a segment without rounding: not too close, not nearly parallel to an axis (exactly is fine). *)
Definition clearPair (th : thrs R) (a b : pt R) : Prop :=
  nullDistance th <= edist a b /\ dblEpsilon th < edist a b /\ dirOK th a b /\ vertOK th a b.
