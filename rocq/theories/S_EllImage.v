(** * Specification of the images of ellipses *)

From Coq Require Import Reals List.
From Verif Require Import Num M_LP M_Homogr S_Geom S_Homogr S_Ellipse S_Map.
Local Open Scope R_scope.

(** A 3x3 matrix describes the ellipse of centre (x,y), half-axes [a >= b > 0], first axis at angle [t]:
    its form is a positive multiple of that of the ellipse. *)
Definition describes (m : mat R) (x y a b t : R) : Prop :=
  0 < b <= a /\ exists k, 0 < k /\ forall p, conic m p = k * (ellForm x y a b t p - 1).
Definition anEllipse (m : mat R) : Prop := exists x y a b t, describes m x y a b t.
(** No point of the ellipse, nor of its inside, is sent to infinity. *)
Definition avoids (h : mat R) (m : mat R) : Prop := forall p, conic m p <= 0 -> wAt h p <> 0.
(** Affine map: determinant of its linear part.  Similarity of ratio [s]. *)
Definition isAffine (h : mat R) : Prop := m20 h = 0 /\ m21 h = 0.
Definition detLin (h : mat R) : R := (m00 h * m11 h - m01 h * m10 h) / (m22 h * m22 h).
Definition similar (h : mat R) (s : R) : Prop :=
  isAffine h /\ 0 < s /\ forall p q p' q', isImage h p p' -> isImage h q q' -> edist p' q' = s * edist p q.
