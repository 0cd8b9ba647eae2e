(** * Specification of minimize() *)

From Coq Require Import Reals List.
From Verif Require Import Num M_LP S_Geom S_Seg S_Poly.
Import ListNotations.
Local Open Scope R_scope.

(** b is strictly between a and c. *)
Definition straight (a b c : pt R) : Prop := a <> c /\ exists t, 0 < t < 1 /\ b = along a c t.
(** The directions of ab and bc make an angle of at least nullAngleValue. *)
Definition turning (th : thrs R) (a b c : pt R) : Prop :=
  nullAngleValue th <= acos (((px b - px a) * (px c - px b) + (py b - py a) * (py c - py b)) / (edist a b * edist b c)).
(** The triples of consecutive points with their middle in l, p before l and e after it. *)
Fixpoint trips {A} (p : A) (l : list A) (e : A) : list (A * A * A) :=
  match l with [] => [] | b :: r => (p, b, hd e r) :: trips b r e end.
(** Those of a closed polyline; of an open one, where the ends are no middles. *)
Definition corners3 (closed : bool) (pts : list (pt R)) : list (pt R * pt R * pt R) :=
  match pts with
  | [] => []
  | a :: r => if closed then trips (last pts a) pts a else trips a (removelast r) (last r a)
  end.
(** A point of the polyline. *)
Definition onPath (closed : bool) (pts : list (pt R)) (q : pt R) : Prop :=
  exists e, In e (sides closed pts) /\ onSeg (fst e) (snd e) q.
(** Length. *)
Definition pathLen (closed : bool) (pts : list (pt R)) : R := sumOver (fun e => edist (fst e) (snd e)) (sides closed pts).
(** minimize() has something clear to decide: every side is at least nullDistance long, every vertex in its range is exactly
    straight or turns by nullAngleValue. *)
Definition clearCut (th : thrs R) (closed : bool) (pts : list (pt R)) : Prop :=
  (forall e, In e (sides closed pts) -> nullDistance th <= edist (fst e) (snd e)) /\
  forall p q r, In (p, q, r) (corners3 closed pts) -> straight p q r \/ turning th p q r.
