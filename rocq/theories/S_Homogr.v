(** * Specification vocabulary: plane transformations over the reals *)

From Coq Require Import Reals List.
From Verif Require Import Num M_LP M_Homogr S_Geom.
Import ListNotations.
Local Open Scope R_scope.

(** Textbook determinant and the line transform by the adjugate matrix: the image of the line l by m
    is the set of points q with (adj m) q on l, i.e. coefficients l . adj(m). *)
Definition det3 (m : mat R) : R :=
  m00 m * (m11 m * m22 m - m12 m * m21 m) - m01 m * (m10 m * m22 m - m12 m * m20 m)
  + m02 m * (m10 m * m21 m - m11 m * m20 m).
Definition imageLine (m : mat R) (l : line R) : line R :=
  mkL (la l * (m11 m * m22 m - m12 m * m21 m) + lb l * (m12 m * m20 m - m10 m * m22 m) + lc l * (m10 m * m21 m - m11 m * m20 m))
      (la l * (m02 m * m21 m - m01 m * m22 m) + lb l * (m00 m * m22 m - m02 m * m20 m) + lc l * (m01 m * m20 m - m00 m * m21 m))
      (la l * (m01 m * m12 m - m02 m * m11 m) + lb l * (m02 m * m10 m - m00 m * m12 m) + lc l * (m00 m * m11 m - m01 m * m10 m)).

(** A line whose normalisation is not affected by the sign-fix zone. *)
Definition zoneFree (th : thrs R) (l : line R) : Prop :=
  la l = 0 \/ nullDenom th * sqrt (la l * la l + lb l * lb l) <= Rabs (la l).

(** Euclidean image of a finite point, when it is finite. *)
Definition isImage (m : mat R) (p q : pt R) : Prop :=
  let w := m20 m * px p + m21 m * py p + m22 m in
  w <> 0 /\ px q = (m00 m * px p + m01 m * py p + m02 m) / w /\ py q = (m10 m * px p + m11 m * py p + m12 m) / w.

(** Elementary plane transformations. *)
Inductive tr : Type := Trans (dx dy : R) | Rot (t : R) | Scale (kx ky : R).
Definition trApply (p : pt R) (t : tr) : pt R :=
  match t with
  | Trans dx dy => mkPt (px p + dx) (py p + dy)
  | Rot a => mkPt (cos a * px p - sin a * py p) (sin a * px p + cos a * py p)
  | Scale kx ky => mkPt (kx * px p) (ky * py p)
  end.
Definition isRigid (t : tr) : bool := match t with Scale _ _ => false | _ => true end.

(** Operations of a history: the line product, and the operations that can modify the matrix without
    recording it in the object. *)
Definition isProduct (op : hop R) : bool := match op with OpApplyLine _ => true | _ => false end.
Definition silentOp (op : hop R) : bool :=
  match op with OpInit | OpTranspose | OpInverse | OpSet _ _ _ => true | _ => false end.
