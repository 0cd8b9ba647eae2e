(** * Facts on binary64 arithmetic, from the specification of the primitive floats *)

From Coq Require Import ZArith Floats Bool Lia.
From Verif Require Import Num M_LP S_Float.
Local Open Scope Z_scope.

Notation sf := Prim2SF.
Notation P := FloatOps.prec.
Notation E := FloatOps.emax.

(** ** Kinds of numbers *)

Lemma cmp_refl x : x <> S754_nan -> SFcompare x x = Some Eq.
Proof.
  intro H. destruct x as [s|s| |s m e]; try destruct s; cbn; try reflexivity; try congruence;
  rewrite Z.compare_refl, Pos.compare_cont_refl; reflexivity.
Qed.

Lemma nan_sf x : is_nan x = true <-> sf x = S754_nan.
Proof.
  unfold is_nan. rewrite FloatAxioms.eqb_spec. unfold SFeqb.
  destruct (sf x) eqn:D; rewrite <- ?D; [rewrite cmp_refl by congruence; cbn; split; congruence ..| |].
  - rewrite D. cbn. tauto.
  - rewrite cmp_refl by congruence. cbn. split; congruence.
Qed.

Lemma zero_sf x : is_zero x = true <-> exists s, sf x = S754_zero s.
Proof.
  unfold is_zero. rewrite FloatAxioms.eqb_spec. change (sf zero) with (S754_zero false).
  destruct (sf x) as [s|s| |s m e]; try destruct s; cbn; split; intro H; try (eexists; reflexivity); try reflexivity;
  first [exfalso; congruence | destruct H; congruence].
Qed.

Lemma inf_sf x : is_infinity x = true <-> exists s, sf x = S754_infinity s.
Proof.
  unfold is_infinity. rewrite FloatAxioms.eqb_spec, abs_spec. change (sf infinity) with (S754_infinity false).
  destruct (sf x) as [s|s| |s m e]; try destruct s; cbn; split; intro H; try (eexists; reflexivity); try reflexivity;
  first [exfalso; congruence | destruct H; congruence].
Qed.

(** Finite in the specification. *)
Definition finS (x : spec_float) : Prop := match x with S754_zero _ | S754_finite _ _ _ => True | _ => False end.

Lemma fin_sf x : fin x <-> finS (sf x).
Proof.
  unfold fin, is_finite. rewrite negb_true_iff, orb_false_iff, <- !not_true_iff_false, nan_sf, inf_sf.
  destruct (sf x) as [s|s| |s m e]; cbn; split; intro H; try exact I; try tauto;
  try (destruct H as [_ H]; apply H; eauto; fail); try (split; [congruence|intros [? ?]; congruence]).
Qed.

Lemma num_sf x : num x <-> sf x <> S754_nan.
Proof. unfold num. rewrite <- not_true_iff_false, nan_sf. tauto. Qed.

Lemma fin_num x : fin x -> num x.
Proof. rewrite fin_sf, num_sf. destruct (sf x); cbn; congruence. Qed.

Definition sameS (a b : spec_float) : Prop :=
  a = b \/ exists s t, a = S754_zero s /\ b = S754_zero t.
Lemma same_sf x y : same x y <-> sameS (sf x) (sf y).
Proof.
  unfold same, sameS. rewrite !zero_sf. split.
  - intros [->|[[s A] [t B]]]; [now left|right; eauto].
  - intros [A|(s & t & A & B)]; [left; now apply Prim2SF_inj|right; eauto].
Qed.
Lemma same_refl x : same x x. Proof. now left. Qed.
Lemma same_sym x y : same x y -> same y x. Proof. intros [->|[A B]]; [now left|right; auto]. Qed.
Lemma same_trans x y z : same x y -> same y z -> same x z.
Proof. intros [->|[A B]] [->|[C D]]; try (now left); right; auto. Qed.

(** ** Rounding and signs *)

Lemma round_aux_opp s m e l : SFopp (binary_round_aux P E s m e l) = binary_round_aux P E (negb s) m e l.
Proof.
  unfold binary_round_aux. destruct (shr_fexp P E m e l) as [a b].
  destruct (shr_fexp P E (round_nearest_even (shr_m a) (loc_of_shr_record a)) b loc_Exact) as [c d].
  destruct (shr_m c); try reflexivity. match goal with |- context [if ?u then _ else _] => destruct u end; reflexivity.
Qed.
Lemma round_opp s m e : SFopp (binary_round P E s m e) = binary_round P E (negb s) m e.
Proof. unfold binary_round. destruct (shl_align m e (fexp P E (Z.pos (digits2_pos m) + e))). apply round_aux_opp. Qed.

(** The opposite number, any sign on zero. *)
Definition oppS (a b : spec_float) : Prop := sameS a (SFopp b).

Lemma normalize_opp m e : oppS (binary_normalize P E (- m) e false) (binary_normalize P E m e false).
Proof.
  unfold oppS. destruct m as [|p|p]; cbn [binary_normalize Z.opp].
  - right. eexists _, _. split; reflexivity.
  - left. now rewrite round_opp.
  - left. now rewrite round_opp.
Qed.

(** ** Commutativity and antisymmetry *)

Theorem fmul_comm x y : (x * y)%float = (y * x)%float.
Proof.
  apply Prim2SF_inj. rewrite !mul_spec. destruct (sf x) as [s|s| |s m e], (sf y) as [t|t| |t n f]; cbn [SF64mul SFmul]; rewrite 1?xorb_comm; try reflexivity.
  cbn. now rewrite xorb_comm, Pos.mul_comm, Z.add_comm.
Qed.

Theorem fadd_comm x y : (x + y)%float = (y + x)%float.
Proof.
  apply Prim2SF_inj. rewrite !add_spec. unfold SF64add. destruct (sf x) as [s|s| |s m e], (sf y) as [t|t| |t n f]; cbn [SFadd]; try reflexivity.
  - now destruct s, t.
  - now destruct s, t.
  - now rewrite Z.min_comm, Z.add_comm.
Qed.

Lemma sub_opp x y : oppS (sf (x - y)%float) (sf (y - x)%float).
Proof.
  rewrite !sub_spec. unfold SF64sub. destruct (sf x) as [s|s| |s m e], (sf y) as [t|t| |t n f]; cbn [SFsub].
  - unfold oppS. destruct s, t; cbn; right; eauto.
  - left. reflexivity.
  - left. reflexivity.
  - left. reflexivity.
  - left. cbn. now rewrite negb_involutive.
  - destruct s, t; cbn; left; reflexivity.
  - left. reflexivity.
  - left. cbn. now rewrite negb_involutive.
  - left. reflexivity.
  - left. reflexivity.
  - left. reflexivity.
  - left. reflexivity.
  - left. cbn. now rewrite negb_involutive.
  - left. reflexivity.
  - left. reflexivity.
  - cbv zeta. rewrite (Z.min_comm f e).
    match goal with |- oppS (binary_normalize _ _ ?a _ _) (binary_normalize _ _ ?b _ _) => replace a with (- b) by lia end.
    apply normalize_opp.
Qed.

Lemma mul_sq x y : oppS (sf x) (sf y) -> (x * x)%float = (y * y)%float.
Proof.
  intro H. apply Prim2SF_inj. rewrite !mul_spec. unfold oppS, sameS in H.
  destruct (sf y) as [t|t| |t n f]; cbn [SFopp] in H; destruct H as [->|(a & b & -> & H)]; try discriminate;
  unfold SF64mul; cbn [SFmul]; rewrite ?xorb_nilpotent; reflexivity.
Qed.

Theorem fsub_sq x y : ((x - y) * (x - y))%float = ((y - x) * (y - x))%float.
Proof. apply mul_sq, sub_opp. Qed.

Lemma abs_opp x y : oppS (sf x) (sf y) -> abs x = abs y.
Proof.
  intro H. apply Prim2SF_inj. rewrite !abs_spec. unfold oppS, sameS in H.
  destruct (sf y) as [t|t| |t n f]; cbn [SFopp] in H; destruct H as [->|(a & b & -> & H)]; try discriminate; reflexivity.
Qed.
Theorem fsub_abs x y : abs (x - y)%float = abs (y - x)%float.
Proof. apply abs_opp, sub_opp. Qed.

(** ** Order *)

Lemma digits_size p : digits2_pos p = Pos.size p.
Proof. induction p; cbn; congruence. Qed.
Lemma digits_gt p : Z.pos p < 2 ^ Z.pos (digits2_pos p).
Proof. rewrite digits_size. rewrite <- Pos2Z.inj_pow_pos || idtac. pose proof (Pos.size_gt p). rewrite <- (Pos2Z.inj_pow 2). lia. Qed.
Lemma digits_le p : 2 ^ (Z.pos (digits2_pos p) - 1) <= Z.pos p.
Proof.
  rewrite digits_size. pose proof (Pos.size_le p) as H.
  assert (G : 2 ^ Z.pos (Pos.size p) <= 2 * Z.pos p) by (rewrite <- (Pos2Z.inj_pow 2); lia).
  replace (Z.pos (Pos.size p)) with (Z.succ (Z.pos (Pos.size p) - 1)) in G by lia. rewrite Z.pow_succ_r in G by lia. lia.
Qed.

Lemma valid_bounds m e : bounded P E m e = true ->
  -1074 <= e <= 971 /\ Z.pos m < 2 ^ 53 /\ (-1074 < e -> 2 ^ 52 <= Z.pos m).
Proof.
  unfold bounded, canonical_mantissa. rewrite andb_true_iff. intros [C B]. apply Zeq_bool_eq in C. apply Zle_bool_imp_le in B.
  unfold fexp, SpecFloat.emin in C. change P with 53 in *. change E with 1024 in *. pose proof (digits_gt m) as G. pose proof (digits_le m) as L.
  set (d := Z.pos (digits2_pos m)) in *. assert (0 < d) by (subst d; lia).
  split; [lia|]. split.
  - apply Z.lt_le_trans with (1 := G). apply Z.pow_le_mono_r; lia.
  - intro K. assert (d = 53) by lia. rewrite H0 in L. exact L.
Qed.

Lemma valid_sf x : valid_binary (sf x) = true. Proof. apply Prim2SF_valid. Qed.

Definition mag (m : positive) (e : Z) : Z := Z.pos m * 2 ^ (e + 1074).
Definition val (x : spec_float) : Z :=
  match x with
  | S754_zero _ => 0 | S754_nan => 0
  | S754_infinity s => if s then - 2 ^ 2098 else 2 ^ 2098
  | S754_finite s m e => if s then - mag m e else mag m e
  end.

Lemma mag_pos m e : -1074 <= e -> 0 < mag m e.
Proof. intro. unfold mag. apply Z.mul_pos_pos; [lia|apply Z.pow_pos_nonneg; lia]. Qed.
Lemma mag_lt m e : bounded P E m e = true -> mag m e < 2 ^ 2098.
Proof.
  intro B. destruct (valid_bounds m e B) as (b & h & l). unfold mag.
  apply Z.lt_le_trans with (2 ^ 53 * 2 ^ (e + 1074)).
  - apply Z.mul_lt_mono_pos_r; [apply Z.pow_pos_nonneg; lia|exact h].
  - rewrite <- Z.pow_add_r by lia. apply Z.pow_le_mono_r; lia.
Qed.
Lemma mag_exp m e n f : bounded P E m e = true -> bounded P E n f = true -> e < f -> mag m e < mag n f.
Proof.
  intros B C L. destruct (valid_bounds m e B) as (b & h & l), (valid_bounds n f C) as (b' & h' & l'). unfold mag.
  specialize (l' ltac:(lia)).
  apply Z.lt_le_trans with (2 ^ 53 * 2 ^ (e + 1074)).
  - apply Z.mul_lt_mono_pos_r; [apply Z.pow_pos_nonneg; lia|exact h].
  - replace (f + 1074) with (1 + (e + 1074) + (f - e - 1)) by lia.
    assert (0 <= e + 1074) by lia. set (k := e + 1074) in *. rewrite !Z.pow_add_r by lia.
    assert (0 < 2 ^ k) by (apply Z.pow_pos_nonneg; lia). assert (0 < 2 ^ (f - e - 1)) by (apply Z.pow_pos_nonneg; lia).
    change (2 ^ 53) with (2 ^ 52 * 2). change (2 ^ 1) with 2. clear h h' l.
    set (A := 2 ^ 52) in *. set (K := 2 ^ k) in *. set (F := 2 ^ (f - e - 1)) in *.
    assert (A <= Z.pos n * F) by nia. assert (A * K <= Z.pos n * F * K) by (apply Z.mul_le_mono_nonneg_r; lia). lia.
Qed.
Lemma mag_cmp m e n f : bounded P E m e = true -> bounded P E n f = true ->
  match e ?= f with Lt => Lt | Gt => Gt | Eq => Pos.compare_cont Eq m n end = (mag m e ?= mag n f).
Proof.
  intros B C. destruct (Z.compare_spec e f) as [->|H|H]; symmetry.
  - destruct (valid_bounds n f C) as (b & _). unfold mag. rewrite <- Zmult_compare_compat_r by (apply Z.lt_gt, Z.pow_pos_nonneg; lia). reflexivity.
  - apply Z.compare_lt_iff. now apply mag_exp.
  - apply Z.compare_gt_iff. now apply mag_exp.
Qed.

Lemma cmp_val x y : valid_binary x = true -> valid_binary y = true -> x <> S754_nan -> y <> S754_nan ->
  SFcompare x y = Some (val x ?= val y).
Proof.
  intros V W Nx Ny. unfold valid_binary in V, W.
  assert (I : 0 < 2 ^ 2098) by (apply Z.pow_pos_nonneg; lia).
  destruct x as [s|s| |s m e], y as [t|t| |t n f]; try congruence; cbn [SFcompare val]; f_equal;
  try (pose proof (mag_lt m e V); pose proof (mag_pos m e ltac:(apply valid_bounds in V; lia)));
  try (pose proof (mag_lt n f W); pose proof (mag_pos n f ltac:(apply valid_bounds in W; lia)));
  try set (k := 2 ^ 2098) in *;
  try (destruct s); try (destruct t); symmetry;
  try (apply Z.compare_eq_iff; lia); try (apply Z.compare_lt_iff; lia); try (apply Z.compare_gt_iff; lia).
  - rewrite Z.compare_opp, <- mag_cmp by assumption. rewrite (Z.compare_antisym e f). destruct (e ?= f); cbn; try reflexivity.
    rewrite Pos.compare_cont_antisym. reflexivity.
  - now rewrite mag_cmp.
Qed.

Lemma ltb_val x y : num x -> num y -> (x <? y)%float = (val (sf x) <? val (sf y)).
Proof.
  rewrite !num_sf. intros. rewrite FloatAxioms.ltb_spec. unfold SFltb. rewrite cmp_val by auto using valid_sf.
  unfold Z.ltb. now destruct (val (sf x) ?= val (sf y)).
Qed.
Lemma leb_val x y : num x -> num y -> (x <=? y)%float = (val (sf x) <=? val (sf y)).
Proof.
  rewrite !num_sf. intros. rewrite FloatAxioms.leb_spec. unfold SFleb. rewrite cmp_val by auto using valid_sf.
  unfold Z.leb. now destruct (val (sf x) ?= val (sf y)).
Qed.
Lemma flt_val x y : num x -> num y -> ((x <? y)%float = true <-> val (sf x) < val (sf y)).
Proof. intros. rewrite ltb_val by assumption. apply Z.ltb_lt. Qed.
Lemma flt_false x y : num x -> num y -> ((x <? y)%float = false <-> val (sf y) <= val (sf x)).
Proof. intros. rewrite ltb_val by assumption. apply Z.ltb_ge. Qed.

Lemma val_inj x y : num x -> num y -> val (sf x) = val (sf y) -> same x y.
Proof.
  intros Nx Ny V. apply same_sf. assert (C : SFcompare (sf x) (sf y) = Some Eq).
  { rewrite cmp_val by (auto using valid_sf; now apply num_sf). now rewrite V, Z.compare_refl. }
  destruct (sf x) as [s|s| |s m e], (sf y) as [t|t| |t n f]; cbn [SFcompare] in C; try destruct s; try destruct t; try congruence;
  try (right; eauto; fail); try (left; reflexivity).
  - destruct (Z.compare_spec e f); try congruence. subst. destruct (Pos.compare_cont Eq m n) eqn:D; cbn in C; try congruence.
    apply Pos.compare_eq in D. subst. now left.
  - destruct (Z.compare_spec e f); try congruence. subst. destruct (Pos.compare_cont Eq m n) eqn:D; cbn in C; try congruence.
    apply Pos.compare_eq in D. subst. now left.
Qed.
Lemma val_same x y : same x y -> val (sf x) = val (sf y).
Proof. rewrite same_sf. intros [->|(s & t & -> & ->)]; reflexivity. Qed.

(** A number minus itself is a zero. *)
Lemma sub_same x y : fin x -> same x y -> exists s, sf (x - y)%float = S754_zero s.
Proof.
  rewrite fin_sf, same_sf, sub_spec. unfold SF64sub. intros F [<-|(s & t & -> & ->)].
  - destruct (sf x) as [s|s| |s m e]; cbn in F; try tauto.
    + destruct s; cbn; eauto.
    + unfold SFsub. cbv zeta. rewrite Z.sub_diag. cbn. eauto.
  - destruct s, t; cbn; eauto.
Qed.
Lemma sq_zero x s : sf x = S754_zero s -> (x * x)%float = zero.
Proof. intro H. apply Prim2SF_inj. rewrite mul_spec, H. unfold SF64mul. cbn. now rewrite xorb_nilpotent. Qed.

(** Comparisons with NaN fail. *)
Lemma ltb_nan_l x y : is_nan x = true -> (x <? y)%float = false.
Proof. rewrite nan_sf, FloatAxioms.ltb_spec. intros ->. reflexivity. Qed.
Lemma ltb_nan_r x y : is_nan y = true -> (x <? y)%float = false.
Proof. rewrite nan_sf, FloatAxioms.ltb_spec. intros ->. now destruct (sf x) as [s|s| |s m e]. Qed.

(** ** Sign of a difference *)

Lemma shr1_nonneg r : 0 <= shr_m r -> 0 <= shr_m (shr_1 r).
Proof. destruct r as [m a b]. cbn. destruct m as [|p|p]; try destruct p; cbn; lia. Qed.
Lemma iter_nonneg p r : 0 <= shr_m r -> 0 <= shr_m (iter_pos shr_1 p r).
Proof. revert r. induction p; cbn; intros; auto using shr1_nonneg. Qed.
Lemma shr_nonneg r e n : 0 <= shr_m r -> 0 <= shr_m (fst (shr r e n)).
Proof. intro. destruct n; cbn; auto using iter_nonneg. Qed.
Lemma shr_fexp_nonneg m e l : 0 <= m -> 0 <= shr_m (fst (shr_fexp P E m e l)).
Proof. intro. unfold shr_fexp. apply shr_nonneg. destruct l as [|[]]; assumption. Qed.
Lemma even_nonneg m l : 0 <= m -> 0 <= round_nearest_even m l.
Proof. intro. destruct l as [|[]]; cbn; try lia. destruct (Z.even m); lia. Qed.

(** What rounding a number of sign [s] can give. *)
Definition signed (s : bool) (x : spec_float) : Prop :=
  x = S754_zero s \/ x = S754_infinity s \/ exists m e, x = S754_finite s m e.
Lemma round_aux_signed s m e l : 0 <= m -> signed s (binary_round_aux P E s m e l).
Proof.
  intro H. unfold binary_round_aux. pose proof (shr_fexp_nonneg m e l H) as A. destruct (shr_fexp P E m e l) as [a b]. cbn in A.
  pose proof (shr_fexp_nonneg _ b loc_Exact (even_nonneg _ (loc_of_shr_record a) A)) as B.
  destruct (shr_fexp P E (round_nearest_even (shr_m a) (loc_of_shr_record a)) b loc_Exact) as [c d]. cbn in B.
  unfold signed. destruct (shr_m c); [auto| |lia].
  match goal with |- context [if ?u then _ else _] => destruct u end; eauto.
Qed.
Lemma round_signed s m e : signed s (binary_round P E s m e).
Proof. unfold binary_round. destruct (shl_align m e (fexp P E (Z.pos (digits2_pos m) + e))). apply round_aux_signed. lia. Qed.

Lemma shl_align_val m e f : f <= e -> Z.pos (fst (shl_align m e f)) = Z.pos m * 2 ^ (e - f).
Proof.
  intro H. unfold shl_align. destruct (f - e) eqn:D; cbn [fst].
  - replace (e - f) with 0 by lia. cbn. lia.
  - lia.
  - replace (e - f) with (Z.pos p) by lia. rewrite shift_pos_correct, Z.pow_pos_fold. lia.
Qed.
Lemma align_mag m e f : -1074 <= f <= e -> Z.pos (fst (shl_align m e f)) * 2 ^ (f + 1074) = mag m e.
Proof. intro H. rewrite shl_align_val by lia. unfold mag. rewrite <- Z.mul_assoc, <- Z.pow_add_r by lia. f_equal. f_equal. lia. Qed.

Lemma condZ s a k : cond_Zopp s a * k = if s then - (a * k) else a * k.
Proof. destruct s; cbn; lia. Qed.

(** The integer rounded by the addition or subtraction of two finite numbers. *)
Lemma sub_normal s m e t n f : bounded P E m e = true -> bounded P E n f = true ->
  exists k g, -1074 <= g /\ g <= e /\ g <= f /\ SFsub P E (S754_finite s m e) (S754_finite t n f) = binary_normalize P E k g false /\
  k * 2 ^ (g + 1074) = val (S754_finite s m e) - val (S754_finite t n f).
Proof.
  intros B C. destruct (valid_bounds _ _ B) as [b _], (valid_bounds _ _ C) as [c _].
  eexists _, (Z.min e f). split; [lia|]. split; [lia|]. split; [lia|]. split; [reflexivity|].
  rewrite Z.mul_sub_distr_r, !condZ, !align_mag by lia. reflexivity.
Qed.
Lemma add_normal s m e t n f : bounded P E m e = true -> bounded P E n f = true ->
  exists k g, -1074 <= g /\ g <= e /\ g <= f /\ SFadd P E (S754_finite s m e) (S754_finite t n f) = binary_normalize P E k g false /\
  k * 2 ^ (g + 1074) = val (S754_finite s m e) + val (S754_finite t n f).
Proof.
  intros B C. destruct (valid_bounds _ _ B) as [b _], (valid_bounds _ _ C) as [c _].
  eexists _, (Z.min e f). split; [lia|]. split; [lia|]. split; [lia|]. split; [reflexivity|].
  rewrite Z.mul_add_distr_r, !condZ, !align_mag by lia. reflexivity.
Qed.

Lemma sub_sign x y : fin x -> fin y -> val (sf y) <= val (sf x) -> exists a, a = sf (x - y)%float /\ (signed false a \/ exists s, a = S754_zero s).
Proof.
  intros Fx Fy V. eexists. split; [reflexivity|]. rewrite fin_sf in Fx, Fy. rewrite sub_spec. unfold SF64sub.
  pose proof (valid_sf x) as Bx. pose proof (valid_sf y) as By. unfold signed.
  destruct (sf x) as [s|s| |s m e], (sf y) as [t|t| |t n f]; cbn in Fx, Fy; try tauto.
  - destruct s, t; cbn; eauto.
  - cbn [SFsub]. unfold val in V. cbn [valid_binary] in By. pose proof (mag_pos n f ltac:(apply valid_bounds in By; lia)). destruct t; [|lia]. cbn. eauto 7.
  - cbn [SFsub]. unfold val in V. cbn [valid_binary] in Bx. pose proof (mag_pos m e ltac:(apply valid_bounds in Bx; lia)). destruct s; [lia|]. cbn. eauto 7.
  - destruct (sub_normal s m e t n f Bx By) as (k & g & G1 & G2 & G3 & -> & K).
    assert (0 < 2 ^ (g + 1074)) by (apply Z.pow_pos_nonneg; lia).
    assert (0 <= k) by nia. destruct k as [|k|k]; [right; cbn; eauto| |lia]. left. apply (round_signed false).
Qed.
Lemma sub_ge x y : fin x -> fin y -> (y <=? x)%float = true -> (0 <=? x - y)%float = true.
Proof.
  intros Fx Fy L. rewrite leb_val in L by now apply fin_num. apply Z.leb_le in L.
  destruct (sub_sign x y Fx Fy L) as (a & A & H).
  rewrite FloatAxioms.leb_spec, <- A. change (sf 0%float) with (S754_zero false). unfold SFleb.
  destruct H as [[->|[->|(m & e & ->)]]|[s ->]]; reflexivity.
Qed.

(** ** Exact operations *)

Lemma Zdigits_log m : 0 < m -> Zdigits2 m = Z.log2 m + 1.
Proof.
  intro H. destruct m as [|p|p]; try lia. cbn [Zdigits2]. rewrite digits_size. destruct p; cbn; lia.
Qed.
Lemma shr1_double m : 0 <= m -> shr_1 (Build_shr_record (2 * m) false false) = Build_shr_record m false false.
Proof. intro H. destruct m as [|p|p]; try lia; reflexivity. Qed.
Lemma iter_exact p m : 0 <= m -> iter_pos shr_1 p (Build_shr_record (m * 2 ^ Z.pos p) false false) = Build_shr_record m false false.
Proof.
  revert m. induction p as [p IH|p IH|]; intros m H; cbn [iter_pos].
  - replace (m * 2 ^ Z.pos p~1) with (2 * (m * 2 ^ Z.pos p * 2 ^ Z.pos p)).
    + rewrite shr1_double by (pose proof (Z.pow_pos_nonneg 2 (Z.pos p)); nia).
      rewrite IH by (pose proof (Z.pow_pos_nonneg 2 (Z.pos p)); nia). now apply IH.
    + replace (Z.pos p~1) with (1 + Z.pos p + Z.pos p) by lia. rewrite !Z.pow_add_r by lia. change (2 ^ 1) with 2. ring.
  - replace (m * 2 ^ Z.pos p~0) with (m * 2 ^ Z.pos p * 2 ^ Z.pos p).
    + rewrite IH by (pose proof (Z.pow_pos_nonneg 2 (Z.pos p)); nia). now apply IH.
    + replace (Z.pos p~0) with (Z.pos p + Z.pos p) by lia. rewrite !Z.pow_add_r by lia. ring.
  - change (2 ^ 1) with 2. rewrite Z.mul_comm. now apply shr1_double.
Qed.
Lemma shr_exact m e k : 0 <= k -> 0 <= m -> shr (Build_shr_record (m * 2 ^ k) false false) (e - k) k = (Build_shr_record m false false, e).
Proof.
  intros K H. destruct k as [|p|p]; try lia; cbn [shr].
  - change (2 ^ 0) with 1. rewrite Z.mul_1_r, Z.sub_0_r. reflexivity.
  - rewrite iter_exact by assumption. f_equal. lia.
Qed.
Lemma shr_fexp_exact m e k : bounded P E m e = true -> 0 <= k ->
  shr_fexp P E (Z.pos m * 2 ^ k) (e - k) loc_Exact = (Build_shr_record (Z.pos m) false false, e).
Proof.
  intros B K. unfold shr_fexp. cbn [shr_record_of_loc].
  assert (0 < 2 ^ k) by (apply Z.pow_pos_nonneg; lia).
  rewrite Zdigits_log by nia. rewrite Z.log2_mul_pow2 by lia.
  assert (C : fexp P E (k + Z.log2 (Z.pos m) + 1 + (e - k)) = e).
  { unfold bounded, canonical_mantissa in B. apply andb_prop in B. destruct B as [B _]. apply Zeq_bool_eq in B.
    change (Z.pos (digits2_pos m)) with (Zdigits2 (Z.pos m)) in B. rewrite Zdigits_log in B by lia. etransitivity; [|exact B]. f_equal. lia. }
  rewrite C. replace (e - (e - k)) with k by lia. apply shr_exact; lia.
Qed.
Lemma round_exact s m e k : bounded P E m e = true -> 0 <= k ->
  binary_round_aux P E s (Z.pos m * 2 ^ k) (e - k) loc_Exact = S754_finite s m e.
Proof.
  intros B K. unfold binary_round_aux. rewrite shr_fexp_exact by assumption. cbn [shr_m loc_of_shr_record round_nearest_even].
  assert (G : shr_fexp P E (Z.pos m) e loc_Exact = (Build_shr_record (Z.pos m) false false, e)).
  { pose proof (shr_fexp_exact m e 0 B ltac:(lia)) as G. change (2 ^ 0) with 1 in G. now rewrite Z.mul_1_r, Z.sub_0_r in G. }
  rewrite G. cbn [shr_m]. unfold bounded in B. apply andb_prop in B. destruct B as [_ B]. now rewrite B.
Qed.

Definition oneS : spec_float := S754_finite false 4503599627370496 (-52).
Lemma sf_one : sf 1%float = oneS. Proof. reflexivity. Qed.

Lemma mul_one x : (x * 1)%float = x.
Proof.
  apply Prim2SF_inj. rewrite mul_spec, sf_one. unfold SF64mul, oneS. pose proof (valid_sf x) as B.
  destruct (sf x) as [s|s| |s m e]; cbn [SFmul]; rewrite ?xorb_false_r; try reflexivity.
  rewrite <- (round_exact s m e 52 B) by lia. f_equal.
Qed.
Lemma one_mul x : (1 * x)%float = x.
Proof. rewrite fmul_comm. apply mul_one. Qed.

Lemma div_one x : (x / 1)%float = x.
Proof.
  apply Prim2SF_inj. rewrite div_spec, sf_one. unfold SF64div, oneS. pose proof (valid_sf x) as B.
  destruct (sf x) as [s|s| |s m e]; cbn [SFdiv]; rewrite ?xorb_false_r; try reflexivity.
  unfold SFdiv_core_binary. cbv zeta. change (Zdigits2 4503599627370496) with 53.
  set (d := Zdigits2 (Z.pos m)). set (e' := Z.min (fexp P E (d + e - (53 + -52))) (e - -52)).
  assert (L : e' <= e).
  { unfold valid_binary, bounded, canonical_mantissa in B. apply andb_prop in B. destruct B as [B _]. apply Zeq_bool_eq in B.
    change (Z.pos (digits2_pos m)) with d in B. subst e'. unfold fexp in *. lia. }
  assert (Sh : match e - -52 - e' with Z0 => Z.pos m | Z.pos _ => Z.shiftl (Z.pos m) (e - -52 - e') | Z.neg _ => 0 end = (Z.pos m * 2 ^ (e - e')) * 4503599627370496).
  { destruct (e - -52 - e') eqn:D; try lia. rewrite <- D, Z.shiftl_mul_pow2 by lia.
    replace (e - -52 - e') with ((e - e') + 52) by lia. rewrite Z.pow_add_r by lia. change (2 ^ 52) with 4503599627370496. ring. }
  rewrite Sh. pose proof (Z_div_mult (Z.pos m * 2 ^ (e - e')) 4503599627370496 ltac:(lia)) as Q. pose proof (Z_mod_mult (Z.pos m * 2 ^ (e - e')) 4503599627370496) as M.
  unfold Z.div in Q. unfold Z.modulo in M. destruct (Z.div_eucl (Z.pos m * 2 ^ (e - e') * 4503599627370496) 4503599627370496) as [q r]. subst q r.
  cbn [xorb]. change (new_location 4503599627370496 0) with loc_Exact. replace e' with (e - (e - e')) at 2 by lia. apply round_exact; [exact B|lia].
Qed.

(** Adding a zero keeps the number. *)
Lemma add_zero_r x y : is_zero y = true -> same (x + y)%float x.
Proof.
  rewrite zero_sf, same_sf, add_spec. intros [t ->]. unfold SF64add, sameS.
  destruct (sf x) as [s|s| |s m e]; cbn [SFadd]; auto. destruct s, t; cbn; eauto 6.
Qed.
Lemma mul_zero_l x y : is_zero x = true -> fin y -> is_zero (x * y)%float = true.
Proof.
  rewrite !zero_sf, fin_sf, mul_spec. intros [s ->]. unfold SF64mul. destruct (sf y) as [t|t| |t n f]; cbn; try tauto; eauto.
Qed.

(** Operations on numbers that differ at most by the sign of a zero. *)
Lemma add_same x x' y y' : same x x' -> same y y' -> same (x + y)%float (x' + y')%float.
Proof.
  rewrite !same_sf, !add_spec. unfold SF64add, sameS. intros [->|(s & t & -> & ->)] [->|(s' & t' & -> & ->)]; auto.
  - destruct (sf x') as [a|a| |a m e]; cbn [SFadd]; auto. destruct a, s', t'; cbn; eauto 6.
  - destruct (sf y') as [a|a| |a m e]; cbn [SFadd]; auto. destruct a, s, t; cbn; eauto 6.
  - destruct s, t, s', t'; cbn; eauto 6.
Qed.
