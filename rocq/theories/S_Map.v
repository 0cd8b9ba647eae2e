(** * Specification of the images by a homography *)

From Coq Require Import Reals List.
From Verif Require Import Num M_LP M_Homogr S_Geom S_Homogr S_Poly.
Local Open Scope R_scope.

(** Third coordinate of the image of a point; it vanishes on the line sent to infinity. *)
Definition wAt (h : mat R) (p : pt R) : R := m20 h * px p + m21 h * py p + m22 h.
(** Two points on the same side of that line; a polygon on one side of it. *)
Definition sameSide (h : mat R) (p q : pt R) : Prop := 0 < wAt h p * wAt h q.
Definition oneSide (h : mat R) (pts : list (pt R)) : Prop := forall p q, In p pts -> In q pts -> sameSide h p q.
(** The segment p'q' is the image of the segment pq, as a set of points. *)
Definition segImage (h : mat R) (p q p' q' : pt R) : Prop :=
  (forall x, onSeg p q x -> exists y, isImage h x y /\ onSeg p' q' y) /\
  (forall y, onSeg p' q' y -> exists x, isImage h x y /\ onSeg p q x).
(** Consecutive points at least [d] apart. *)
Definition farChain (d : R) (l : list (pt R)) : Prop := forall e, In e (chain l) -> d <= edist (fst e) (snd e).
