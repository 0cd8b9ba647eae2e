(** * Specification vocabulary: discs over the reals *)

From Coq Require Import Reals List.
Import ListNotations.
From Verif Require Import Num M_LP M_Circle S_Geom S_Seg.
Local Open Scope R_scope.

(** The closed disc of a circle contains a point; the point is on its edge; it is strictly inside. *)
Definition inDisc (c : circle R) (p : pt R) : Prop := edist (cc c) p <= cr c.
Definition onEdge (c : circle R) (p : pt R) : Prop := edist (cc c) p = cr c.
Definition inOpen (c : circle R) (p : pt R) : Prop := edist (cc c) p < cr c.

(** c is the minimum enclosing circle of the points: it contains them, and every circle that
    contains them has a radius at least as large. *)
Definition isMEC (pts : list (pt R)) (c : circle R) : Prop :=
  (forall p, In p pts -> inDisc c p) /\
  (forall d, 0 <= cr d -> (forall p, In p pts -> inDisc d p) -> cr c <= cr d).

(** Every pair of different points of the list has a direction outside the sign-fix zone of C04. *)
Definition zoneFreePts (th : thrs R) (pts : list (pt R)) : Prop :=
  forall p q, In p pts -> In q pts -> dirOK th p q /\ vertOK th p q.

(** p is at least nullDistance away from the edge of c. *)
Definition far (th : thrs R) (c : circle R) (p : pt R) : Prop := nullDistance th <= Rabs (edist (cc c) p - cr c).

(** The angle at vertex a of the triangle a, b, m is clearly not flat for the threshold nu (the cosine
    is at most 1 - nu^2/2 in absolute value). *)
Definition wideAt (nu : R) (a b m : pt R) : Prop :=
  Rabs ((px b - px a) * (px m - px a) + (py b - py a) * (py m - py a)) <= (1 - nu * nu / 2) * (edist a b * edist a m).

(** The histories of C72: everything except writes to the radius and containers rejected by an
    exception; the points handed over are outside the sign-fix zone. *)
Definition safeOp (th : thrs R) (op : cop R) : Prop :=
  match op with
  | CSet _ _ | CMove _ | CTranslate _ _ | CSet2 _ _ => True
  | CRadius _ => False
  | CSet3 p q r => zoneFreePts th [p; q; r]
  | CSetPts rnd pts => zoneFreePts th pts /\ exists c, fst (cSetPts th false rnd pts) = Ok c
  end.
