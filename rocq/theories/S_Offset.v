(** * Specification of offset polygons, bisectors and tangents *)

From Coq Require Import Reals List.
Import ListNotations.
From Verif Require Import Num M_LP S_Geom S_Homogr S_Seg S_Poly.
Local Open Scope R_scope.

(** x is at the signed distance d of the directed line e (positive on the left). *)
Definition offLine (d : R) (e : pt R * pt R) (x : pt R) : Prop := cross3 (fst e) (snd e) x = d * edist (fst e) (snd e).
(** The sides are longer than the threshold and outside the sign-fix zone (C04), in both axes. *)
Definition goodSides (th : thrs R) (v : list (pt R)) : Prop :=
  okSides th v /\ forall e, In e (cyc v) -> vertOK th (fst e) (snd e).
(** Consecutive sides of the closed polygon (pairs of pairs), and what makes them different directions. *)
Definition corners (v : list (pt R)) : list ((pt R * pt R) * (pt R * pt R)) := cyc (cyc v).
Definition sharp (th : thrs R) (v : list (pt R)) : Prop := forall p q r, triple v p q r -> transversal th (p, q) (q, r).
(** The region of a clockwise convex polygon; every turn strictly to the right. *)
Definition inConvex (v : list (pt R)) (p : pt R) : Prop := forall e, In e (cyc v) -> cross3 (fst e) (snd e) p <= 0.
Definition clockwise (v : list (pt R)) : Prop := forall p q r, triple v p q r -> cross3 p q r < 0.
(** Every vertex is on the right of every side: a clockwise convex polygon. *)
Definition convexCW (v : list (pt R)) : Prop := clockwise v /\ forall p, In p v -> inConvex v p.

(** ** Bisectors *)
(** l is the bisector at p of the angle (a,p,b): it goes through p, and the reflection in l sends the ray pa
    onto the ray pb. *)
Definition bisects (l : line R) (p a b : pt R) : Prop :=
  onL l p /\ unitL l /\
  let L := edist p a in let M := edist p b in let n := la l * (px a - px p) + lb l * (py a - py p) in
  L * (px b - px p) = M * ((px a - px p) - 2 * n * la l) /\
  L * (py b - py p) = M * ((py a - py p) - 2 * n * lb l).
(** The bisector is outside the sign-fix zone of C04. *)
Definition bisOK (th : thrs R) (p a b : pt R) : Prop := forall l, bisects l p a b -> zoneFree th l.
(** The corners (previous, (vertex, next)) of a closed and of an open polyline. *)
Definition polyCorners (closed : bool) (pts : list (pt R)) (d : pt R) : list (pt R * (pt R * pt R)) :=
  if closed then combine (last pts d :: pts) (cyc pts) else combine pts (chain (tl pts)).

(** d is the distance of p to the line l. *)
Definition distTo (l : line R) (p : pt R) (d : R) : Prop := (exists q, onL l q /\ edist p q = d) /\ forall q, onL l q -> d <= edist p q.
