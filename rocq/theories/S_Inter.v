(** * Specifications for the intersections of polylines *)

From Coq Require Import Reals List.
From Verif Require Import Num M_LP M_Seg S_Geom S_Seg S_Circle S_Poly.
Import ListNotations.
Local Open Scope R_scope.

(** A point of a polyline. *)
Definition onPoly (closed : bool) (pts : list (pt R)) (q : pt R) : Prop :=
  exists e, In e (sides closed pts) /\ onSeg (fst e) (snd e) q.
(** The sides are at least nullDistance long, with a direction outside the sign-fix zone of C04. *)
Definition okPoly (th : thrs R) (closed : bool) (pts : list (pt R)) : Prop :=
  forall e, In e (sides closed pts) -> okSeg th (mkSeg (fst e) (snd e)) /\ dirOK th (fst e) (snd e).
(** The sides are at least nullDistance long. *)
Definition widePoly (th : thrs R) (closed : bool) (pts : list (pt R)) : Prop :=
  forall e, In e (sides closed pts) -> okSeg th (mkSeg (fst e) (snd e)).
(** p is on the line through A and B, or at a distance of at least nullDistance of it. *)
Definition onOrOff (th : thrs R) (A B p : pt R) : Prop :=
  cross3 A B p = 0 \/ nullDistance th * edist A B <= Rabs (cross3 A B p).
(** Two pairs of points have the same direction. *)
Definition sameDir (e f : pt R * pt R) : Prop :=
  (px (snd e) - px (fst e)) * (py (snd f) - py (fst f)) = (py (snd e) - py (fst e)) * (px (snd f) - px (fst f)).
(** Two sides in general position: exactly parallel or with an angle of at least nullAngleValue; the ends of
    one are on the line of the other or at nullDistance of it; the four ends are not on a line. *)
Definition genPos (th : thrs R) (e f : pt R * pt R) : Prop :=
  (sameDir e f \/ transversal th e f) /\
  (forall p, p = fst e \/ p = snd e -> onOrOff th (fst f) (snd f) p) /\
  (forall p, p = fst f \/ p = snd f -> onOrOff th (fst e) (snd e) p) /\
  ~ (cross3 (fst f) (snd f) (fst e) = 0 /\ cross3 (fst f) (snd f) (snd e) = 0) /\
  ~ (cross3 (fst e) (snd e) (fst f) = 0 /\ cross3 (fst e) (snd e) (snd f) = 0).
(** The same for a unit line and a side. *)
Definition lineAt (l : line R) (p : pt R) : R := la l * px p + lb l * py p + lc l.
Definition genPosL (th : thrs R) (l : line R) (e : pt R * pt R) : Prop :=
  (lineAt l (fst e) = lineAt l (snd e) \/
   nullAngleValue th <= acos (Rabs (la l * (py (snd e) - py (fst e)) - lb l * (px (snd e) - px (fst e))) / edist (fst e) (snd e))) /\
  (forall p, p = fst e \/ p = snd e -> onL l p \/ nullDistance th <= Rabs (lineAt l p)) /\
  ~ (onL l (fst e) /\ onL l (snd e)).
(** Sorted lists of points. *)
Fixpoint sortedL (l : list (pt R)) : Prop :=
  match l with a :: r => (forall b, In b r -> ~ lexlt b a) /\ sortedL r | [] => True end.
