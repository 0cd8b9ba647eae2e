(** * Numbers, outcomes and thresholds

    Every model function is written once, over an abstract number type with the
    operations the C++ code uses.  [RNum] (standard reals) is the instance most
    theorems are about, [FNum] (binary64) the one used to execute the model; C_Float*.v state
    theorems about [FNum] itself. *)

From Coq Require Import Reals ZArith List Lra Lia Bool.
From Coq Require Floats Uint63.
From Verif Require FloatFuns.

(** Operations used by homog2d.hpp on its floating point type ([HOMOG2D_INUMTYPE],
    homog2d.hpp:63-84, macros [homog2d_abs], [homog2d_sqrt], ...).
    Simplification: a single number type replaces the template parameter [FPT] and
    the internal type [HOMOG2D_INUMTYPE]. *)
Class Num (T : Type) : Type := {
  nZ    : Z -> T;            (* integer literal *)
  nadd  : T -> T -> T;
  nsub  : T -> T -> T;
  nmul  : T -> T -> T;
  ndiv  : T -> T -> T;
  nopp  : T -> T;
  nabs  : T -> T;
  nsqrt : T -> T;
  nltb  : T -> T -> bool;
  nleb  : T -> T -> bool;
  neqb  : T -> T -> bool;
  nsin  : T -> T;
  ncos  : T -> T;
  nacos : T -> T;
  nasin : T -> T;
  natan : T -> T;
  natan2 : T -> T -> T;      (* first argument: y *)
  npi   : T
}.

Declare Scope num_scope.
Delimit Scope num_scope with num.
Infix "+" := nadd : num_scope.
Infix "-" := nsub : num_scope.
Infix "*" := nmul : num_scope.
Infix "/" := ndiv : num_scope.
Notation "- x" := (nopp x) : num_scope.
Infix "<?" := nltb : num_scope.
Infix "<=?" := nleb : num_scope.
Infix "=?" := neqb : num_scope.
Notation "x >? y" := (nltb y x) (at level 70, no associativity, only parsing) : num_scope.
Notation "x >=? y" := (nleb y x) (at level 70, no associativity, only parsing) : num_scope.
Notation "'#' z" := (nZ z%Z) (at level 1, format "# z") : num_scope.

(** ** Real instance *)

Definition Rltb (x y : R) : bool := if Rlt_dec x y then true else false.
Definition Rleb (x y : R) : bool := if Rle_dec x y then true else false.
Definition Reqb (x y : R) : bool := if Req_EM_T x y then true else false.

(** The usual two-argument arc tangent over the reals (not in the 8.16 library). *)
Definition Ratan2 (y x : R) : R :=
  if Rlt_dec 0 x then atan (y / x)
  else if Rlt_dec x 0 then
         if Rle_dec 0 y then (atan (y / x) + PI)%R else (atan (y / x) - PI)%R
  else if Rlt_dec 0 y then (PI / 2)%R
  else if Rlt_dec y 0 then (- (PI / 2))%R
  else 0%R.

Global Instance RNum : Num R := {|
  nZ := IZR;
  nadd := Rplus; nsub := Rminus; nmul := Rmult; ndiv := Rdiv;
  nopp := Ropp; nabs := Rabs; nsqrt := sqrt;
  nltb := Rltb; nleb := Rleb; neqb := Reqb;
  nsin := sin; ncos := cos; nacos := acos; nasin := asin; natan := atan;
  natan2 := Ratan2; npi := PI
|}.

(** ** Binary64 instance (execution only) *)


Definition FNum : Num PrimFloat.float := {|
  nZ := FloatFuns.of_Z;
  nadd := PrimFloat.add; nsub := PrimFloat.sub; nmul := PrimFloat.mul; ndiv := PrimFloat.div;
  nopp := PrimFloat.opp; nabs := PrimFloat.abs; nsqrt := PrimFloat.sqrt;
  nltb := PrimFloat.ltb; nleb := PrimFloat.leb; neqb := PrimFloat.eqb;
  nsin := FloatFuns.fsin; ncos := FloatFuns.fcos; nacos := FloatFuns.facos;
  nasin := FloatFuns.fasin; natan := FloatFuns.fatan;
  natan2 := FloatFuns.fatan2; npi := FloatFuns.fpi
|}.

(** ** Outcomes of a call *)

(** [Throw]: the code throws std::runtime_error.  [Undef]: C++ undefined behaviour, a failed
    assert, or a value that is not a real number (NaN / infinity) leaving the model. *)
Inductive res (A : Type) : Type := Ok (a : A) | Throw | Undef.
Arguments Ok {A} a. Arguments Throw {A}. Arguments Undef {A}.

Definition bind {A B} (x : res A) (f : A -> res B) : res B :=
  match x with Ok a => f a | Throw => Throw | Undef => Undef end.
Definition rmap {A B} (f : A -> B) (x : res A) : res B := bind x (fun a => Ok (f a)).
Notation "'do' x <- e ; f" := (bind e (fun x => f))
  (at level 200, x pattern, e at level 100, f at level 200, right associativity).
Definition isOk {A} (x : res A) : bool := match x with Ok _ => true | _ => false end.

Section Generic.
  Context {T : Type} {N : Num T}.
  Local Open Scope num_scope.

  (** Unguarded divisions, square roots, arc cosines: [Undef] where the real operation is not defined. *)
  Definition cdiv (x y : T) : res T := if y =? #0 then Undef else Ok (x / y).
  Definition csqrt (x : T) : res T := if x <? #0 then Undef else Ok (nsqrt x).

  (** std::hypot (used at homog2d.hpp:8786, 9143, 9175).
      Simplification: textbook formula, no overflow protection. *)
  Definition hypot (x y : T) : T := nsqrt (x * x + y * y).

  (** std::min / std::max *)
  Definition nmin (x y : T) : T := if y <? x then y else x.
  Definition nmax (x y : T) : T := if x <? y then y else x.
End Generic.

(** Thresholds, homog2d.hpp:203-222 (default values), :1227-1277 (namespace thr, static values the
    user may change).  [dblEpsilon] is std::numeric_limits<double>::epsilon() used at :8791. *)
Record thrs (T : Type) : Type := mkThr {
  nullDistance : T;
  nullOrthogDistance : T;
  nullAngleValue : T;
  nullDenom : T;
  nullDeter : T;
  dblEpsilon : T
}.
Arguments nullDistance {T}. Arguments nullOrthogDistance {T}. Arguments nullAngleValue {T}.
Arguments nullDenom {T}. Arguments nullDeter {T}. Arguments dblEpsilon {T}. Arguments mkThr {T}.

(** Default values, homog2d.hpp:203-222. *)
Definition thr0 {T} {N : Num T} : thrs T :=
  let inv (k : Z) := ndiv (nZ 1) (nZ k) in
  mkThr (inv 10000000000%Z) (inv 100000000000000%Z) (inv 1000%Z) (inv 10000000000%Z)
        (inv 1000000000000000%Z) (inv 4503599627370496%Z).

(** Well-formed thresholds: what the theorems over R assume. *)
Record thr_ok (t : thrs R) : Prop := {
  thr_dist : (0 < nullDistance t)%R;
  thr_orth : (0 < nullOrthogDistance t)%R;
  thr_angl : (0 < nullAngleValue t < PI / 2)%R;
  thr_deno : (0 < nullDenom t < 1 / 2)%R;
  thr_dete : (0 < nullDeter t)%R;
  thr_deps : (0 < dblEpsilon t < 1 / 2)%R
}.

(** ** Basic facts *)

Lemma Rltb_spec x y : Rltb x y = true <-> (x < y)%R.
Proof. unfold Rltb. destruct (Rlt_dec x y); split; intros; auto; discriminate. Qed.
Lemma Rltb_false x y : Rltb x y = false <-> (y <= x)%R.
Proof. unfold Rltb. destruct (Rlt_dec x y); split; intros; auto; try discriminate; lra. Qed.
Lemma Rleb_spec x y : Rleb x y = true <-> (x <= y)%R.
Proof. unfold Rleb. destruct (Rle_dec x y); split; intros; auto; discriminate. Qed.
Lemma Rleb_false x y : Rleb x y = false <-> (y < x)%R.
Proof. unfold Rleb. destruct (Rle_dec x y); split; intros; auto; try discriminate; lra. Qed.
Lemma Reqb_spec x y : Reqb x y = true <-> x = y.
Proof. unfold Reqb. destruct (Req_EM_T x y); split; intros; auto; discriminate. Qed.
Lemma Reqb_false x y : Reqb x y = false <-> x <> y.
Proof. unfold Reqb. destruct (Req_EM_T x y); split; intros; auto; try discriminate; contradiction. Qed.

Ltac rnum :=
  change (@nZ R RNum) with IZR in *;
  change (@nadd R RNum) with Rplus in *;
  change (@nsub R RNum) with Rminus in *;
  change (@nmul R RNum) with Rmult in *;
  change (@ndiv R RNum) with Rdiv in *;
  change (@nopp R RNum) with Ropp in *;
  change (@nabs R RNum) with Rabs in *;
  change (@nsqrt R RNum) with sqrt in *;
  change (@nltb R RNum) with Rltb in *;
  change (@nleb R RNum) with Rleb in *;
  change (@neqb R RNum) with Reqb in *;
  change (@nsin R RNum) with sin in *;
  change (@ncos R RNum) with cos in *;
  change (@nacos R RNum) with acos in *;
  change (@nasin R RNum) with asin in *;
  change (@natan R RNum) with atan in *;
  change (@natan2 R RNum) with Ratan2 in *;
  change (@npi R RNum) with PI in *; cbv beta iota in *.

(** Split the first boolean real comparison found in the goal or in a hypothesis. *)
Ltac rcase1 :=
  match goal with
  | |- context [Rltb ?a ?b] => destruct (Rltb a b) eqn:?
  | |- context [Rleb ?a ?b] => destruct (Rleb a b) eqn:?
  | |- context [Reqb ?a ?b] => destruct (Reqb a b) eqn:?
  end.
Ltac rclean :=
  repeat match goal with
  | H : Rltb _ _ = true |- _ => apply Rltb_spec in H
  | H : Rltb _ _ = false |- _ => apply Rltb_false in H
  | H : Rleb _ _ = true |- _ => apply Rleb_spec in H
  | H : Rleb _ _ = false |- _ => apply Rleb_false in H
  | H : Reqb _ _ = true |- _ => apply Reqb_spec in H
  | H : Reqb _ _ = false |- _ => apply Reqb_false in H
  end.

Lemma thr0_ok : thr_ok (thr0 (T := R)).
Proof.
  pose proof PI2_1 as HP.
  split; unfold thr0; cbn [nullDistance nullOrthogDistance nullAngleValue nullDenom nullDeter dblEpsilon];
    rnum; try lra.
Qed.

Lemma bind_ok {A B} (x : res A) (f : A -> res B) b :
  bind x f = Ok b -> exists a, x = Ok a /\ f a = Ok b.
Proof. destruct x; cbn; intros; try discriminate. eauto. Qed.
Lemma Ok_inj {A} (x y : A) : Ok x = Ok y -> x = y.
Proof. now intros [= ->]. Qed.
