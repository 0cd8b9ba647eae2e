(** * Specification vocabulary: OpenCV matrices, integer points, rings of points *)

From Coq Require Import ZArith QArith List.
From Verif Require Import Num M_LP M_Homogr M_SvgOut M_Interop.
Import ListNotations.

(** A 3x3 one-channel matrix of floating-point numbers. *)
Definition isHomog {T} (c : cvMat T) : Prop := cvRows c = 3%nat /\ cvCols c = 3%nat /\ cvChan c = 1%nat /\ cvTyp c <> CVother.
(** As many elements as the size says. *)
Definition wfCv {T} (c : cvMat T) : Prop := length (cvData c) = (cvRows c * cvCols c * cvChan c)%nat.
(** Integer part, towards zero. *)
Definition isTrunc (x : Q) (z : Z) : Prop := (0 <= x -> inject_Z z <= x < inject_Z (z + 1))%Q /\ (x <= 0 -> inject_Z (z - 1) < x <= inject_Z z)%Q.
Definition intRange (z : Z) : Prop := (- 2147483648 <= z <= 2147483647)%Z.
(** [z]: the integer nearest to [x], the even one if there are two. *)
Definition isNearest (x : Q) (z : Z) : Prop :=
  (inject_Z z - Qmake 1 2 <= x)%Q /\ (x <= inject_Z z + Qmake 1 2)%Q /\
  ((x == inject_Z z - Qmake 1 2)%Q \/ (x == inject_Z z + Qmake 1 2)%Q -> Z.even z = true).
