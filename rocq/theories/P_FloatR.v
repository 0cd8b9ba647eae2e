(** * Rounding of binary64 operations: the result is a nearest double *)

From Coq Require Import Reals Lra ZArith Floats Bool Lia.
From Verif Require Import Num M_LP S_Float S_FloatZ P_Float P_FloatZ.
Local Open Scope Z_scope.

(** ** Powers of two *)

Definition pw (e : Z) : R := powerRZ 2 e.
Lemma pw_pos e : (0 < pw e)%R.
Proof. apply powerRZ_lt. lra. Qed.
Lemma pw_add a b : pw (a + b) = (pw a * pw b)%R.
Proof. apply powerRZ_add. lra. Qed.
Lemma pw_Z k : 0 <= k -> pw k = IZR (2 ^ k).
Proof. intro H. unfold pw. rewrite <- (Z2Nat.id k) by lia. rewrite <- pow_IZR, <- pow_powerRZ. reflexivity. Qed.
Lemma pw_le a b : a <= b -> (pw a <= pw b)%R.
Proof.
  intro H. replace b with (a + (b - a)) by lia. rewrite pw_add, (pw_Z (b - a)) by lia.
  assert (1 <= IZR (2 ^ (b - a)))%R by (apply IZR_le; pose proof (pow2_pos (b - a)); lia). pose proof (pw_pos a). nra.
Qed.
Lemma pw_lt_inv a b : (pw a < pw b)%R -> a < b.
Proof. intro H. destruct (Z_lt_ge_dec a b); [assumption|]. pose proof (pw_le b a ltac:(lia)). lra. Qed.
Lemma pw_0 : pw 0 = 1%R. Proof. reflexivity. Qed.
Lemma pw_1 : pw 1 = 2%R. Proof. change (2 * 1 = 2)%R. ring. Qed.

(** The real value; infinities stand for 2^1024 and its opposite. *)
Definition vR (x : spec_float) : R := (IZR (val x) * pw (-1074))%R.
Lemma vR_pos m e : -1074 <= e -> (IZR (mag m e) * pw (-1074) = IZR (Z.pos m) * pw e)%R.
Proof.
  intro H. unfold mag. rewrite mult_IZR, <- pw_Z by lia. rewrite Rmult_assoc, <- pw_add. f_equal. f_equal. lia.
Qed.
Lemma vR_finite s m e : -1074 <= e -> vR (S754_finite s m e) = (if s then - (IZR (Z.pos m) * pw e) else IZR (Z.pos m) * pw e)%R.
Proof. intro H. unfold vR. cbn [val]. destruct s; [rewrite opp_IZR, <- Ropp_mult_distr_l|]; now rewrite vR_pos. Qed.
Lemma vR_zero s : vR (S754_zero s) = 0%R. Proof. unfold vR. cbn [val]. ring. Qed.
Lemma vR_inf s : vR (S754_infinity s) = (if s then - pw 1024 else pw 1024)%R.
Proof.
  unfold vR. cbn [val]. assert (H : (IZR (2 ^ 2098) * pw (-1074) = pw 1024)%R) by (rewrite <- pw_Z by lia; rewrite <- pw_add; f_equal).
  destruct s; [rewrite opp_IZR, <- Ropp_mult_distr_l|]; now rewrite H.
Qed.
Lemma vR_le z : valid_binary z = true -> (vR z <= pw 1024)%R.
Proof.
  intro V. assert (H : (pw 1024 = IZR (2 ^ 2098) * pw (-1074))%R) by (rewrite <- pw_Z by lia; rewrite <- pw_add; f_equal).
  rewrite H. unfold vR. apply Rmult_le_compat_r; [left; apply pw_pos|]. apply IZR_le.
  destruct z as [s|s| |s m e]; cbn [val].
  - apply Z.pow_nonneg. lia.
  - destruct s; [|lia]. pose proof (pow2_pos 2098). lia.
  - apply Z.pow_nonneg. lia.
  - pose proof (mag_lt m e V). cbn [valid_binary] in V. pose proof (mag_pos m e ltac:(apply valid_bounds in V; lia)). destruct s; lia.
Qed.
Lemma vR_mult z f : valid_binary z = true -> (f = -1074 \/ (-1074 <= f /\ (pw (f + 52) <= vR z)%R)) -> exists n, vR z = (IZR n * pw f)%R.
Proof.
  intros V [->|[F H]]; [now exists (val z)|].
  destruct z as [s|s| |s m e].
  - exists 0. rewrite vR_zero. ring.
  - rewrite vR_inf in *. pose proof (pw_pos 1024). pose proof (pw_pos (f + 52)). destruct s; [lra|].
    assert (f + 52 <= 1024). { destruct (Z_le_gt_dec (f + 52) 1024) as [?|G]; [assumption|]. pose proof (pw_le 1025 (f + 52) ltac:(lia)) as L. change 1025 with (1024 + 1) in L. rewrite pw_add, pw_1 in L. lra. }
    exists (2 ^ (1024 - f)). rewrite <- pw_Z by lia. rewrite <- pw_add. f_equal. lia.
  - exists 0. unfold vR. cbn [val]. ring.
  - cbn [valid_binary] in V. destruct (valid_bounds m e V) as (b & h & _). rewrite vR_finite in * by lia. pose proof (pw_pos (f + 52)). pose proof (pw_pos e).
    assert (Mp : (0 < IZR (Z.pos m))%R) by (apply IZR_lt; lia). assert (Mu : (IZR (Z.pos m) < pw 53)%R) by (rewrite pw_Z by lia; now apply IZR_lt).
    destruct s; [nra|]. assert (L : (pw (f + 52) < pw (53 + e))%R) by (rewrite (pw_add 53); nra). apply pw_lt_inv in L.
    exists (Z.pos m * 2 ^ (e - f)). rewrite mult_IZR, <- pw_Z by lia. rewrite Rmult_assoc, <- pw_add. f_equal. f_equal. lia.
Qed.

(** ** A multiple of G at distance at most G/2 is a nearest multiple *)
Lemma near_mult a b G X : (0 < G -> Rabs (IZR a * G - X) <= G / 2 -> Rabs (IZR a * G - X) <= Rabs (IZR b * G - X))%R.
Proof.
  intros HG H. destruct (Z.eq_dec a b) as [->|N]; [lra|].
  assert (D : (1 <= Rabs (IZR b - IZR a))%R). { rewrite <- minus_IZR, <- abs_IZR. apply IZR_le. lia. }
  assert (T : (G <= Rabs (IZR b * G - IZR a * G))%R).
  { replace (IZR b * G - IZR a * G)%R with ((IZR b - IZR a) * G)%R by ring. rewrite Rabs_mult, (Rabs_right G) by lra. nra. }
  pose proof (Rabs_triang (IZR b * G - X) (X - IZR a * G)) as U. replace (IZR b * G - X + (X - IZR a * G))%R with (IZR b * G - IZR a * G)%R in U by ring.
  rewrite (Rabs_minus_sym X) in U. lra.
Qed.

(** ** Shifts with a sticky bit: [r] stands for V units, the mantissa counting K units *)
Definition holds (r : shr_record) (K V : Z) : Prop :=
  let D := V - shr_m r * K in
  0 <= D < K /\
  match shr_r r, shr_s r with
  | false, false => D = 0 | false, true => 0 < D /\ 2 * D < K | true, false => 2 * D = K | true, true => K < 2 * D
  end.
Lemma shr1_holds r K V : 0 < K -> 0 <= shr_m r -> holds r K V -> holds (shr_1 r) (2 * K) V.
Proof.
  destruct r as [m a b]. unfold holds. cbn [shr_m shr_r shr_s]. intros HK Hm [H1 H2].
  destruct m as [|p|p]; try lia; [|destruct p]; destruct a, b; cbn [shr_1 shr_m shr_r shr_s orb]; lia.
Qed.
Lemma iter_holds p : forall r K V, 0 < K -> 0 <= shr_m r -> holds r K V -> holds (iter_pos shr_1 p r) (K * 2 ^ Z.pos p) V.
Proof.
  induction p as [p IH|p IH|]; intros r K V HK Hm H; cbn [iter_pos]; pose proof (pow2_pos (Z.pos p)) as Q || idtac.
  - replace (K * 2 ^ Z.pos p~1) with ((2 * K * 2 ^ Z.pos p) * 2 ^ Z.pos p).
    + assert (0 < 2 ^ Z.pos p) by (apply pow2_pos; lia). apply IH; [nia|apply iter_nonneg, shr1_nonneg; assumption|]. apply IH; [lia|now apply shr1_nonneg|now apply shr1_holds].
    + replace (Z.pos p~1) with (1 + Z.pos p + Z.pos p) by lia. rewrite !Z.pow_add_r by lia. change (2 ^ 1) with 2. ring.
  - replace (K * 2 ^ Z.pos p~0) with ((K * 2 ^ Z.pos p) * 2 ^ Z.pos p).
    + assert (0 < 2 ^ Z.pos p) by (apply pow2_pos; lia). apply IH; [nia|now apply iter_nonneg|]. now apply IH.
    + replace (Z.pos p~0) with (Z.pos p + Z.pos p) by lia. rewrite !Z.pow_add_r by lia. ring.
  - change (2 ^ 1) with 2. rewrite (Z.mul_comm K). now apply shr1_holds.
Qed.
Lemma shr_holds r e n K V : 0 <= n -> 0 < K -> 0 <= shr_m r -> holds r K V ->
  exists r', shr r e n = (r', e + n) /\ 0 <= shr_m r' /\ holds r' (K * 2 ^ n) V.
Proof.
  intros Hn HK Hm H. destruct n as [|p|p]; try lia; cbn [shr].
  - exists r. rewrite Z.add_0_r. change (2 ^ 0) with 1. rewrite Z.mul_1_r. auto.
  - eexists. split; [reflexivity|]. split; [now apply iter_nonneg|now apply iter_holds].
Qed.
Lemma rne_holds r K V : 0 < K -> holds r K V ->
  let m1 := round_nearest_even (shr_m r) (loc_of_shr_record r) in shr_m r <= m1 <= shr_m r + 1 /\ - K <= 2 * (m1 * K - V) <= K.
Proof.
  destruct r as [m a b]. unfold holds. cbn [shr_m shr_r shr_s]. intros HK [H1 H2].
  destruct a, b; cbn [loc_of_shr_record round_nearest_even]; try lia. destruct (Z.even m); lia.
Qed.

Lemma shr_second m1 f : 0 <= m1 <= 2 ^ 53 -> -1074 <= f ->
  (m1 < 2 ^ 53 /\ shr_fexp P E m1 f loc_Exact = (Build_shr_record m1 false false, f)) \/
  (m1 = 2 ^ 53 /\ shr_fexp P E m1 f loc_Exact = (Build_shr_record (2 ^ 52) false false, f + 1)).
Proof.
  intros H F. destruct (Z.eq_dec m1 (2 ^ 53)) as [->|N].
  - right. split; [reflexivity|]. unfold shr_fexp. change (Zdigits2 (2 ^ 53)) with 54.
    replace (fexp P E (54 + f) - f) with 1 by (unfold fexp, SpecFloat.emin; change P with 53; change E with 1024; lia). reflexivity.
  - left. split; [lia|]. unfold shr_fexp. cbn [shr_record_of_loc]. assert (D : Zdigits2 m1 <= 53).
    { destruct (Z.eq_dec m1 0) as [->|Nz]; [cbn; lia|]. rewrite Zdigits_log by lia. assert (Z.log2 m1 < 53); [|lia]. apply Z.log2_lt_pow2; lia. }
    assert (S : fexp P E (Zdigits2 m1 + f) - f <= 0) by (unfold fexp, SpecFloat.emin; change P with 53; change E with 1024; lia).
    destruct (fexp P E (Zdigits2 m1 + f) - f); try lia; reflexivity.
Qed.

(** What rounding does: [X] is the exact value, [n.2^f] the rounded one. *)
Definition rounded (s : bool) (r : spec_float) (X : R) : Prop :=
  exists n f, -1074 <= f /\ (Rabs (IZR n * pw f - X) <= pw f / 2)%R /\ (f = -1074 \/ (pw (f + 52) <= X)%R) /\
    ((finS r /\ vR r = (if s then - (IZR n * pw f) else IZR n * pw f)%R) \/
     (r = S754_infinity s /\ (IZR n * pw f = pw 1024 \/ pw 1024 <= X)%R)).

(** With a shift to the right (or none). *)
Lemma round_shift s m e l K V : 0 <= m -> 0 < K -> holds (shr_record_of_loc m l) K V -> e <= fexp P E (Zdigits2 m + e) ->
  let f := fexp P E (Zdigits2 m + e) in let r := binary_round_aux P E s m e l in
  exists n, -1074 <= f /\ (Rabs (IZR n * pw f - IZR V / IZR K * pw e) <= pw f / 2)%R /\ (f = -1074 \/ (pw (f + 52) <= IZR m * pw e)%R) /\
    ((finS r /\ vR r = (if s then - (IZR n * pw f) else IZR n * pw f)%R) \/
     (r = S754_infinity s /\ (IZR n * pw f = pw 1024 \/ pw 1024 <= IZR m * pw e)%R)).
Proof.
  intros Hm0 HK H Le. cbv zeta. set (X := (IZR V / IZR K * pw e)%R). set (d := Zdigits2 m) in *.
  assert (Dg : (m = 0 /\ d = 0) \/ (0 < m /\ 1 <= d /\ 2 ^ (d - 1) <= m)).
  { destruct (Z.eq_dec m 0) as [->|N]; [left; split; reflexivity|right]. unfold d. rewrite Zdigits_log by lia. pose proof (Z.log2_spec m ltac:(lia)). pose proof (Z.log2_nonneg m).
    replace (Z.log2 m + 1 - 1) with (Z.log2 m) by lia. lia. }
  assert (L2 : m + 1 <= 2 ^ d).
  { destruct (Z.eq_dec m 0) as [->|N]; [cbn; lia|]. unfold d. rewrite Zdigits_log by lia. pose proof (Z.log2_spec m ltac:(lia)). replace (Z.log2 m + 1) with (Z.succ (Z.log2 m)) by lia. lia. }
  assert (D0 : 0 <= d) by lia.
  assert (RK : (0 < IZR K)%R) by now apply IZR_lt.
    set (f := fexp P E (d + e)) in *. assert (F : -1074 <= f) by (unfold f, fexp, SpecFloat.emin; change P with 53; change E with 1024; lia).
    assert (Hm : shr_m (shr_record_of_loc m l) = m) by (destruct l as [|[]]; reflexivity).
    destruct (shr_holds (shr_record_of_loc m l) e (f - e) K V) as (r' & Sr & Nr & Hr); [lia|assumption|rewrite Hm; lia|assumption|].
    replace (e + (f - e)) with f in Sr by lia.
    set (k := f - e) in *. assert (Kp : 0 < 2 ^ k) by (apply pow2_pos; lia). destruct (rne_holds r' (K * 2 ^ k) V ltac:(nia) Hr) as [R1 R2].
    assert (S1 : shr_fexp P E m e l = (r', f)) by (unfold shr_fexp; fold d; fold f; fold k; exact Sr). unfold binary_round_aux. rewrite S1. set (m1 := round_nearest_even (shr_m r') (loc_of_shr_record r')) in *.
    assert (Vb : m * K <= V < (m + 1) * K) by (destruct H as [H _]; rewrite Hm in H; lia).
    assert (M53 : shr_m r' < 2 ^ 53).
    { destruct Hr as [Hr _]. assert (A : shr_m r' * 2 ^ k < 2 ^ d).
      { assert (shr_m r' * (K * 2 ^ k) < 2 ^ d * K). { apply Z.le_lt_trans with V; [lia|]. apply Z.lt_le_trans with (1 := proj2 Vb). apply Z.mul_le_mono_nonneg_r; [lia|]. exact L2. }
        clearbody k. nia. }
      assert (B : 2 ^ d <= 2 ^ 53 * 2 ^ k). { rewrite <- Z.pow_add_r by (unfold k; lia). apply Z.pow_le_mono_r; [lia|]. unfold k, f, fexp, SpecFloat.emin. change P with 53; change E with 1024. lia. }
      clearbody k. set (A53 := 2 ^ 53) in *. clearbody A53. nia. }
    exists m1. split; [exact F|].
    assert (Xe : (IZR m1 * pw f - X = IZR (m1 * (K * 2 ^ k) - V) / IZR K * pw e)%R).
    { unfold X. rewrite minus_IZR, !mult_IZR, <- pw_Z by (unfold k; lia). replace f with (k + e) by (unfold k; lia). rewrite pw_add. field. lra. }
    assert (Ub : (- (IZR K * pw k) <= 2 * IZR (m1 * (K * 2 ^ k) - V) <= IZR K * pw k)%R).
    { rewrite (pw_Z k) by (unfold k; lia). rewrite <- !mult_IZR, <- opp_IZR. split; apply IZR_le; lia. }
    split.
    { rewrite Xe. replace f with (k + e) by (unfold k; lia). rewrite pw_add. set (w := IZR (m1 * (K * 2 ^ k) - V)) in *. clearbody w. pose proof (pw_pos e).
      assert (Q : (Rabs (w / IZR K) <= pw k / 2)%R).
      { apply Rabs_le. split; [apply Rmult_le_reg_r with (IZR K)|apply Rmult_le_reg_r with (IZR K)]; try assumption; unfold Rdiv; rewrite ?(Rmult_assoc w), ?Rinv_l by lra; lra. }
      rewrite Rabs_mult, (Rabs_right (pw e)) by lra. nra. }
    split.
    { destruct (Z.eq_dec f (-1074)) as [->|Nf]; [now left|right]. assert (Dp : 0 < m) by (destruct Dg as [[_ Dz]|?]; [exfalso; revert Nf Le; unfold f, fexp, SpecFloat.emin; change P with 53; change E with 1024; lia|lia]).
      assert (Ef : f + 52 = (d - 1) + e) by (revert Nf; unfold f, fexp, SpecFloat.emin; change P with 53; change E with 1024; lia).
      rewrite Ef, pw_add. apply Rmult_le_compat_r; [left; apply pw_pos|]. rewrite pw_Z by lia. apply IZR_le. lia. }
    assert (O : 971 < f -> (pw 1024 <= IZR m * pw e)%R).
    { intro G. assert (Dp : 0 < m) by (destruct Dg as [[_ Dz]|?]; [exfalso; revert G Le; unfold f, fexp, SpecFloat.emin; change P with 53; change E with 1024; lia|lia]).
      assert (f + 52 = (d - 1) + e) by (revert G; unfold f, fexp, SpecFloat.emin; change P with 53; change E with 1024; lia).
      apply Rle_trans with (pw (d - 1 + e)); [apply pw_le; lia|]. rewrite pw_add. apply Rmult_le_compat_r; [left; apply pw_pos|]. rewrite pw_Z by lia. apply IZR_le. lia. }
    clear Xe Ub R2. assert (M0 : 0 <= m1 <= 2 ^ 53) by lia. clear R1. clearbody m1. change (E - P) with 971.
    destruct (shr_second m1 f M0 F) as [[B ->]|[B ->]]; cbn [shr_m].
    + destruct m1 as [|q|q]; [|destruct (Z.leb_spec f 971)|lia].
      * left. split; [exact I|]. rewrite vR_zero. destruct s; ring.
      * left. split; [exact I|]. apply vR_finite. lia.
      * right. split; [reflexivity|]. right. apply O. lia.
    + change (2 ^ 52) with 4503599627370496. cbv iota. destruct (Z.leb_spec (f + 1) 971).
      * left. split; [exact I|]. rewrite vR_finite by lia. rewrite B. assert (Hp : (IZR 4503599627370496 * pw (f + 1) = IZR (2 ^ 53) * pw f)%R) by (rewrite pw_add, pw_1; change (2 ^ 53) with 9007199254740992; ring). rewrite Hp. reflexivity.
      * right. split; [reflexivity|]. destruct (Z.eq_dec f 971) as [->|Nf].
        -- left. rewrite B, <- pw_Z by lia. rewrite <- pw_add. reflexivity.
        -- right. apply O. lia.
Qed.
Lemma round_aux_rounded s m e l K V : 0 <= m -> 0 < K -> holds (shr_record_of_loc m l) K V ->
  (l = loc_Exact /\ 0 < m /\ -1074 <= e <= 971) \/ e <= fexp P E (Zdigits2 m + e) ->
  rounded s (binary_round_aux P E s m e l) (IZR V / IZR K * pw e).
Proof.
  intros Hm0 HK H C. set (X := (IZR V / IZR K * pw e)%R). set (d := Zdigits2 m) in *.
  assert (Dg : (m = 0 /\ d = 0) \/ (0 < m /\ 1 <= d /\ 2 ^ (d - 1) <= m)).
  { destruct (Z.eq_dec m 0) as [->|N]; [left; split; reflexivity|right]. unfold d. rewrite Zdigits_log by lia. pose proof (Z.log2_spec m ltac:(lia)). pose proof (Z.log2_nonneg m).
    replace (Z.log2 m + 1 - 1) with (Z.log2 m) by lia. lia. }
  assert (L2 : m + 1 <= 2 ^ d).
  { destruct (Z.eq_dec m 0) as [->|N]; [cbn; lia|]. unfold d. rewrite Zdigits_log by lia. pose proof (Z.log2_spec m ltac:(lia)). replace (Z.log2 m + 1) with (Z.succ (Z.log2 m)) by lia. lia. }
  assert (D0 : 0 <= d) by lia.
  assert (RK : (0 < IZR K)%R) by now apply IZR_lt.
  destruct (Z_le_gt_dec e (fexp P E (d + e))) as [Le|Gt].
  - assert (Lo : (IZR m * pw e <= X)%R).
    { unfold X. apply Rmult_le_compat_r; [left; apply pw_pos|]. apply Rmult_le_reg_r with (IZR K); [assumption|]. unfold Rdiv. rewrite Rmult_assoc, Rinv_l, Rmult_1_r by lra. rewrite <- mult_IZR. apply IZR_le.
      destruct H as [H _]. destruct l as [|[]]; cbn [shr_record_of_loc shr_m] in H; lia. }
    destruct (round_shift s m e l K V Hm0 HK H Le) as (n & F & A & B & C'). exists n, (fexp P E (d + e)). split; [exact F|]. split; [exact A|].
    split; [destruct B as [B|B]; [now left|right; fold d in B; lra]|]. destruct C' as [C'|[C1 [C2|C2]]]; [now left| |]; right; (split; [exact C1|]); [now left|right; lra].
  - (* exact *)
    destruct C as [(-> & Mp & Ce)|C]; [|lia]. unfold holds in H. cbn [shr_record_of_loc shr_m shr_r shr_s] in H. assert (HV : V = m * K) by lia.
    assert (HX : X = (IZR m * pw e)%R) by (unfold X; rewrite HV, mult_IZR; field; lra).
    assert (N1 : shr_fexp P E m e loc_Exact = (Build_shr_record m false false, e)).
    { unfold shr_fexp. fold d. cbn [shr_record_of_loc]. destruct (fexp P E (d + e) - e) eqn:Y; try lia; reflexivity. }
    unfold binary_round_aux. rewrite N1. cbn [shr_m loc_of_shr_record round_nearest_even]. rewrite N1. cbn [shr_m]. change (E - P) with 971.
    destruct m as [|p|p]; try lia. destruct (Z.leb_spec e 971); [|lia]. exists (Z.pos p * 2 ^ (e + 1074)), (-1074). split; [lia|].
    assert (HM : (IZR (Z.pos p * 2 ^ (e + 1074)) * pw (-1074) = X)%R) by (rewrite HX; apply vR_pos; lia).
    rewrite HM. split; [rewrite Rminus_diag_eq, Rabs_R0 by reflexivity; pose proof (pw_pos (-1074)); lra|]. split; [now left|].
    left. split; [exact I|]. rewrite vR_finite, HX by lia. reflexivity.
Qed.

Lemma opp_valid z : valid_binary z = true -> valid_binary (SFopp z) = true.
Proof. destruct z; auto. Qed.
Lemma vR_opp z : vR (SFopp z) = (- vR z)%R.
Proof. unfold vR. destruct z as [s|s| |s m e]; cbn [SFopp val]; try ring; destruct s; cbn [negb]; rewrite ?opp_IZR; ring. Qed.

(** Therefore the result is a nearest double (infinities standing for 2^1024). *)
Lemma rounded_near s r X z : rounded s r X -> valid_binary z = true ->
  (Rabs (vR r - (if s then - X else X)) <= Rabs (vR z - (if s then - X else X)))%R.
Proof.
  intros (n & f & F & H & G & Q) V.
  assert (Pz : forall w, valid_binary w = true -> (Rabs (IZR n * pw f - X) <= Rabs (vR w - X))%R).
  { intros w Vw. pose proof (pw_pos f). destruct (Z.eq_dec f (-1074)) as [E1|E1].
    - destruct (vR_mult w f Vw ltac:(now left)) as [b ->]. now apply near_mult.
    - destruct G as [G|G]; [contradiction|]. destruct (Rle_dec (pw (f + 52)) (vR w)) as [L|L].
      + destruct (vR_mult w f Vw ltac:(now right)) as [b ->]. now apply near_mult.
      + assert (N : (Rabs (IZR n * pw f - X) <= Rabs (IZR (2 ^ 52) * pw f - X))%R) by now apply near_mult.
        rewrite <- pw_Z, <- pw_add in N by lia. replace (52 + f) with (f + 52) in N by lia.
        rewrite (Rabs_left1 (pw (f + 52) - X)) in N by lra. rewrite (Rabs_left1 (vR w - X)) by lra. lra. }
  assert (Key : forall w, valid_binary w = true -> (Rabs ((if s then - vR r else vR r) - X) <= Rabs (vR w - X))%R).
  { intros w Vw. destruct Q as [[_ Q]|[Q1 Q2]].
    - replace (if s then - vR r else vR r)%R with (IZR n * pw f)%R by (rewrite Q; destruct s; ring). now apply Pz.
    - rewrite Q1, vR_inf. replace (if s then - (if s then - pw 1024 else pw 1024) else if s then - pw 1024 else pw 1024)%R with (pw 1024) by (destruct s; ring).
      destruct Q2 as [Q2|Q2]; [rewrite <- Q2; now apply Pz|]. pose proof (vR_le w Vw). rewrite !Rabs_left1 by lra. lra. }
  destruct s; [|now apply Key]. specialize (Key (SFopp z) (opp_valid z V)). rewrite vR_opp in Key.
  rewrite <- (Rabs_Ropp (vR r - _)), <- (Rabs_Ropp (vR z - _)). replace (- (vR r - - X))%R with (- vR r - X)%R by ring. replace (- (vR z - - X))%R with (- vR z - X)%R by ring. exact Key.
Qed.

(** ** The operations *)

Definition rnd (r : spec_float) (Y : R) : Prop := exists s X, rounded s r X /\ Y = (if s then - X else X)%R.

Lemma rnd_near r Y z : rnd r Y -> valid_binary z = true -> (Rabs (vR r - Y) <= Rabs (vR z - Y))%R.
Proof. intros (s & X & H & ->) V. now apply rounded_near. Qed.
Lemma rnd_num r Y : rnd r Y -> r <> S754_nan.
Proof. intros (s & X & (n & f & _ & _ & _ & [[H _]|[-> _]]) & _); [intros ->; exact H|discriminate]. Qed.

(** Error of one operation: relative 2^-53, or absolute 2^-1075. *)
Lemma rnd_err r Y : rnd r Y -> finS r -> (Rabs (vR r - Y) <= Rabs Y * pw (-53) \/ Rabs (vR r - Y) <= pw (-1075))%R.
Proof.
  intros (s & X & (n & f & F & H & G & Q) & ->) Fr. destruct Q as [[_ Q]|[-> _]]; [|destruct Fr].
  assert (A : Rabs (vR r - (if s then - X else X)) = Rabs (IZR n * pw f - X)).
  { rewrite Q. destruct s; [|reflexivity]. rewrite <- Rabs_Ropp. f_equal. ring. }
  rewrite A. destruct G as [->|G].
  - right. change (-1075) with (-1074 + -1). rewrite pw_add. change (pw (-1)) with (/ (2 * 1))%R. lra.
  - left. assert (B : Rabs (if s then - X else X) = X) by (pose proof (pw_pos (f + 52)); destruct s; [rewrite Rabs_Ropp|]; apply Rabs_right; lra). rewrite B.
    apply Rle_trans with (1 := H). rewrite pw_add in G. change (pw f / 2)%R with (pw f * / 2)%R. replace (/ 2)%R with (pw 52 * pw (-53))%R; [|rewrite <- pw_add; change (52 + -53) with (-1); change (pw (-1)) with (/ (2 * 1))%R; field].
    pose proof (pw_pos (-53)). nra.
Qed.
(** No overflow below 2^1023. *)
Lemma rnd_fin r Y : rnd r Y -> (Rabs Y <= pw 1023)%R -> finS r.
Proof.
  intros (s & X & H & ->) B. pose proof (rounded_near s r X (S754_finite s 4503599627370496 971) H eq_refl) as N.
  destruct H as (n & f & _ & _ & _ & [[Q _]|[Q _]]); [exact Q|]. exfalso. rewrite Q, vR_inf, vR_finite in N by lia.
  assert (K : (IZR 4503599627370496 * pw 971 = pw 1023)%R) by (change 4503599627370496 with (2 ^ 52); rewrite <- pw_Z by lia; rewrite <- pw_add; reflexivity).
  rewrite K in N. assert (T : (pw 1024 = 2 * pw 1023)%R) by (change 1024 with (1 + 1023); rewrite pw_add, pw_1; reflexivity). rewrite T in N. pose proof (pw_pos 1023) as Pp. set (w := pw 1023) in *. clearbody w.
  assert (XB : (- w <= X <= w)%R) by (destruct s; [rewrite Rabs_Ropp in B|]; revert B; unfold Rabs; destruct (Rcase_abs X); lra).
  revert N. destruct s; unfold Rabs; destruct (Rcase_abs _), (Rcase_abs _); lra.
Qed.

Lemma exact_rnd z : valid_binary z = true -> finS z -> rnd z (vR z).
Proof.
  intros V F. assert (A : forall (n : Z) (s : bool), (if s then - IZR n else IZR n)%R = IZR (val z) -> rounded s z (IZR n * pw (-1074))%R).
  { intros n s Hn. exists n, (-1074). split; [lia|]. split; [rewrite Rminus_diag_eq, Rabs_R0 by reflexivity; pose proof (pw_pos (-1074)); lra|]. split; [now left|]. left. split; [exact F|].
    unfold vR. rewrite <- Hn. destruct s; ring. }
  exists false, (IZR (val z) * pw (-1074))%R. split; [apply A; reflexivity|reflexivity].
Qed.

Lemma binary_round_rnd s k g : rnd (binary_round P E s k g) ((if s then - IZR (Z.pos k) else IZR (Z.pos k)) * pw g)%R.
Proof.
  exists s, (IZR (Z.pos k) * pw g)%R. split; [|destruct s; ring].
  unfold binary_round. change (Z.pos (digits2_pos k)) with (Zdigits2 (Z.pos k)). set (f := fexp P E (Zdigits2 (Z.pos k) + g)).
  assert (T : exists m e, shl_align k g f = (m, e) /\ (IZR (Z.pos m) * pw e = IZR (Z.pos k) * pw g)%R /\ e <= f /\ fexp P E (Zdigits2 (Z.pos m) + e) = f).
  { destruct (Z_le_gt_dec g f) as [L|L].
    - exists k, g. split; [unfold shl_align; destruct (f - g) eqn:Q; try reflexivity; lia|]. auto with zarith.
    - pose proof (shl_align_val k g f ltac:(lia)) as Q. unfold shl_align in *. destruct (f - g) eqn:Y; try lia. cbn [fst] in Q. eexists _, f. split; [reflexivity|].
      rewrite Q. split; [|split; [lia|]].
      + rewrite mult_IZR, <- pw_Z by lia. rewrite Rmult_assoc, <- pw_add. f_equal. f_equal. lia.
      + pose proof (pow2_pos (g - f) ltac:(lia)). rewrite Zdigits_log by nia. rewrite log_mag by lia. transitivity (fexp P E (Zdigits2 (Z.pos k) + g)); [|reflexivity]. f_equal. rewrite (Zdigits_log (Z.pos k)) by lia. clearbody f. lia. }
  destruct T as (m & e & -> & <- & L & D).
  pose proof (round_aux_rounded s (Z.pos m) e loc_Exact 1 (Z.pos m) ltac:(lia) ltac:(lia)) as R. unfold Rdiv in R. rewrite Rinv_1, Rmult_1_r in R. apply R.
  - unfold holds. cbn [shr_record_of_loc shr_m shr_r shr_s]. lia.
  - right. rewrite D. exact L.
Qed.
Lemma normalize_rnd k g : rnd (binary_normalize P E k g false) (IZR k * pw g)%R.
Proof.
  destruct k as [|k|k]; cbn [binary_normalize].
  - replace (0 * pw g)%R with (vR (S754_zero false)) by (rewrite vR_zero; ring). apply exact_rnd; [reflexivity|exact I].
  - apply (binary_round_rnd false).
  - change (Z.neg k) with (- Z.pos k). rewrite opp_IZR. apply (binary_round_rnd true).
Qed.

Definition vF (x : float) : R := vR (sf x).
Lemma vF_toR x : fin x -> vF x = toR x.
Proof.
  rewrite fin_sf. unfold vF, toR. pose proof (valid_sf x) as B. destruct (sf x) as [s|s| |s m e]; cbn [finS]; try tauto; intros _.
  - apply vR_zero.
  - cbn [valid_binary] in B. destruct (valid_bounds m e B) as (b & _). rewrite vR_finite by lia. change (powerRZ 2 e) with (pw e). destruct s; ring.
Qed.
Lemma scaled k g V : -1074 <= g -> k * 2 ^ (g + 1074) = V -> (IZR k * pw g = IZR V * pw (-1074))%R.
Proof. intros G <-. rewrite mult_IZR, <- pw_Z by lia. rewrite Rmult_assoc, <- pw_add. f_equal. f_equal. lia. Qed.

Lemma add_rnd x y : fin x -> fin y -> rnd (sf (x + y)%float) (toR x + toR y)%R.
Proof.
  intros Fx Fy. rewrite <- !vF_toR by assumption. rewrite fin_sf in Fx, Fy. rewrite FloatAxioms.add_spec. unfold SF64add, vF.
  pose proof (valid_sf x) as Bx. pose proof (valid_sf y) as By.
  destruct (sf x) as [s|s| |s m e], (sf y) as [t|t| |t n f]; cbn [finS] in Fx, Fy; try tauto.
  - rewrite !vR_zero, Rplus_0_l. cbn [SFadd]. destruct s, t; cbn [Bool.eqb]; match goal with |- rnd ?z _ => replace 0%R with (vR z) by (apply vR_zero) end; apply exact_rnd; try reflexivity; exact I.
  - rewrite vR_zero, Rplus_0_l. cbn [SFadd]. apply exact_rnd; [exact By|exact I].
  - rewrite vR_zero, Rplus_0_r. cbn [SFadd]. apply exact_rnd; [exact Bx|exact I].
  - destruct (add_normal s m e t n f Bx By) as (k & g & G & _ & _ & -> & K). unfold vR. rewrite <- Rmult_plus_distr_r, <- plus_IZR, <- (scaled k g _ G K). apply normalize_rnd.
Qed.
Lemma sub_rnd x y : fin x -> fin y -> rnd (sf (x - y)%float) (toR x - toR y)%R.
Proof.
  intros Fx Fy. rewrite <- !vF_toR by assumption. rewrite fin_sf in Fx, Fy. rewrite FloatAxioms.sub_spec. unfold SF64sub, vF.
  pose proof (valid_sf x) as Bx. pose proof (valid_sf y) as By.
  destruct (sf x) as [s|s| |s m e], (sf y) as [t|t| |t n f]; cbn [finS] in Fx, Fy; try tauto.
  - rewrite !vR_zero, Rminus_0_r. cbn [SFsub]. destruct s, t; cbn [Bool.eqb negb]; match goal with |- rnd ?z _ => replace 0%R with (vR z) by (apply vR_zero) end; apply exact_rnd; try reflexivity; exact I.
  - rewrite vR_zero, Rminus_0_l. rewrite <- vR_opp. cbn [SFsub SFopp]. apply exact_rnd; [exact By|exact I].
  - rewrite vR_zero, Rminus_0_r. cbn [SFsub]. apply exact_rnd; [exact Bx|exact I].
  - destruct (sub_normal s m e t n f Bx By) as (k & g & G & _ & _ & -> & K). unfold vR. rewrite <- Rmult_minus_distr_r, <- minus_IZR, <- (scaled k g _ G K). apply normalize_rnd.
Qed.
Lemma signs s t a b : ((if xorb s t then - (a * b) else a * b) = (if s then - a else a) * (if t then - b else b))%R.
Proof. destruct s, t; cbn; ring. Qed.
Lemma mul_rnd x y : fin x -> fin y -> rnd (sf (x * y)%float) (toR x * toR y)%R.
Proof.
  intros Fx Fy. rewrite <- !vF_toR by assumption. rewrite fin_sf in Fx, Fy. rewrite FloatAxioms.mul_spec. unfold SF64mul, vF.
  pose proof (valid_sf x) as Bx. pose proof (valid_sf y) as By.
  destruct (sf x) as [s|s| |s m e], (sf y) as [t|t| |t n f]; cbn [finS] in Fx, Fy; try tauto; cbn [SFmul].
  - rewrite !vR_zero, Rmult_0_l. replace 0%R with (vR (S754_zero (xorb s t))) by apply vR_zero. apply exact_rnd; [reflexivity|exact I].
  - rewrite !vR_zero, Rmult_0_l. replace 0%R with (vR (S754_zero (xorb s t))) by apply vR_zero. apply exact_rnd; [reflexivity|exact I].
  - rewrite !vR_zero, Rmult_0_r. replace 0%R with (vR (S754_zero (xorb s t))) by apply vR_zero. apply exact_rnd; [reflexivity|exact I].
  - cbn [valid_binary] in Bx, By. destruct (valid_bounds m e Bx) as (b1 & h1 & l1), (valid_bounds n f By) as (b2 & h2 & l2).
    exists (xorb s t), (IZR (Z.pos m) * pw e * (IZR (Z.pos n) * pw f))%R. split; [|rewrite !vR_finite by lia; symmetry; apply signs].
    pose proof (round_aux_rounded (xorb s t) (Z.pos (m * n)) (e + f) loc_Exact 1 (Z.pos (m * n)) ltac:(lia) ltac:(lia)) as R. unfold Rdiv in R. rewrite Rinv_1, Rmult_1_r in R.
    rewrite Pos2Z.inj_mul, mult_IZR, pw_add in R. replace (IZR (Z.pos m) * pw e * (IZR (Z.pos n) * pw f))%R with (IZR (Z.pos m) * IZR (Z.pos n) * (pw e * pw f))%R by ring. rewrite Pos2Z.inj_mul. apply R.
    + unfold holds. cbn [shr_record_of_loc shr_m shr_r shr_s]. lia.
    + destruct (Z_le_gt_dec (e + f) 971) as [L|L]; [destruct (Z_le_gt_dec (-1074) (e + f))|].
      * left. split; [reflexivity|]. split; [lia|lia].
      * right. unfold fexp, SpecFloat.emin. change P with 53; change E with 1024. lia.
      * right. specialize (l1 ltac:(lia)). specialize (l2 ltac:(lia)). assert (Dd : 53 <= Zdigits2 (Z.pos m * Z.pos n)).
        { rewrite Zdigits_log by lia. assert (52 <= Z.log2 (Z.pos m * Z.pos n)); [|lia]. apply Z.log2_le_pow2; [lia|]. nia. }
        unfold fexp, SpecFloat.emin. change P with 53; change E with 1024. lia.
Qed.

Lemma fexp_mono a b : a <= b -> fexp P E a <= fexp P E b.
Proof. unfold fexp. lia. Qed.
Lemma digits_ge m k : 0 <= k -> 2 ^ k <= m -> k + 1 <= Zdigits2 m.
Proof. intros K H. pose proof (pow2_pos k K). rewrite Zdigits_log by lia. assert (k <= Z.log2 m); [|lia]. apply Z.log2_le_pow2; lia. Qed.
Lemma digits_nonneg m : 0 <= Zdigits2 m.
Proof. destruct m; cbn; lia. Qed.
Lemma location_holds q K r : 0 < K -> 0 <= r < K -> holds (shr_record_of_loc q (new_location K r)) K (q * K + r).
Proof.
  intros HK Hr. unfold new_location, new_location_even, new_location_odd. unfold holds.
  destruct (Z.even K) eqn:Ev; (destruct (Zeq_bool r 0) eqn:Z0; [apply Zeq_bool_eq in Z0; subst r; cbn [shr_record_of_loc shr_m shr_r shr_s]; lia|apply Zeq_bool_neq in Z0]).
  - destruct (Z.compare_spec (2 * r) K); cbn [shr_record_of_loc shr_m shr_r shr_s]; lia.
  - assert (Od : exists j, K = 2 * j + 1). { rewrite <- Z.negb_odd in Ev. apply negb_false_iff, Z.odd_spec in Ev. exact Ev. } destruct Od as [j Od].
    destruct (Z.compare_spec (2 * r + 1) K); cbn [shr_record_of_loc shr_m shr_r shr_s]; lia.
Qed.
Lemma div_rnd x y : fin x -> fin y -> toR y <> 0%R -> rnd (sf (x / y)%float) (toR x / toR y)%R.
Proof.
  intros Fx Fy Ny. rewrite <- !vF_toR in * by assumption. rewrite fin_sf in Fx, Fy. rewrite FloatAxioms.div_spec. unfold SF64div, vF in *.
  pose proof (valid_sf x) as Bx. pose proof (valid_sf y) as By.
  destruct (sf x) as [s|s| |s m e], (sf y) as [t|t| |t n f]; cbn [finS] in Fx, Fy; try tauto; try (exfalso; apply Ny, vR_zero); cbn [SFdiv].
  - rewrite !vR_zero. unfold Rdiv. rewrite Rmult_0_l. replace 0%R with (vR (S754_zero (xorb s t))) by apply vR_zero. apply exact_rnd; [reflexivity|exact I].
  - cbn [valid_binary] in Bx, By. destruct (valid_bounds m e Bx) as (b1 & _), (valid_bounds n f By) as (b2 & _).
    assert (Pn : (0 < IZR (Z.pos n))%R) by (apply IZR_lt; lia). pose proof (pw_pos f) as Pf. pose proof (pw_pos e) as Pe.
    exists (xorb s t), (IZR (Z.pos m) * pw e / (IZR (Z.pos n) * pw f))%R. split; [|rewrite !vR_finite by lia; destruct s, t; cbn [xorb]; field; lra].
    unfold SFdiv_core_binary. cbv zeta. set (d1 := Zdigits2 (Z.pos m)). set (d2 := Zdigits2 (Z.pos n)). set (e' := Z.min (fexp P E (d1 + e - (d2 + f))) (e - f)).
    set (sh := e - f - e'). assert (Hs : 0 <= sh) by (unfold sh, e'; lia).
    assert (Sh : match sh with Z0 => Z.pos m | Z.pos _ => Z.shiftl (Z.pos m) sh | Z.neg _ => 0 end = Z.pos m * 2 ^ sh).
    { clearbody sh. destruct sh as [|p|p]; [change (2 ^ 0) with 1; lia| |lia]. rewrite Z.shiftl_mul_pow2 by lia. reflexivity. }
    rewrite Sh. clear Sh. pose proof (pow2_pos sh Hs) as Ps. set (m' := Z.pos m * 2 ^ sh).
    pose proof (Z_div_mod m' (Z.pos n) ltac:(lia)) as Q. destruct (Z.div_eucl m' (Z.pos n)) as [q r]. destruct Q as [Q1 Q2].
    assert (Hq : 0 <= q) by (unfold m' in Q1; nia).
    replace (IZR (Z.pos m) * pw e / (IZR (Z.pos n) * pw f))%R with (IZR m' / IZR (Z.pos n) * pw e')%R.
    + apply round_aux_rounded; [exact Hq|lia| |].
      * rewrite Q1. rewrite (Z.mul_comm (Z.pos n)). apply location_holds; lia.
      * right. apply Z.le_trans with (fexp P E (d1 + e - (d2 + f))); [unfold e'; lia|]. apply fexp_mono.
        destruct (Z_le_gt_dec (d1 + sh - d2) 0) as [L|L]; [pose proof (digits_nonneg q); unfold sh in L; lia|].
        assert (D : (d1 + sh - d2 - 1) + 1 <= Zdigits2 q); [|unfold sh in D; lia].
        apply digits_ge; [lia|]. clear L. destruct (Z_le_gt_dec (2 ^ (d1 + sh - d2 - 1)) q) as [G|G]; [exact G|exfalso].
        pose proof (digits_le m) as M1. pose proof (digits_gt n) as N1. change (Z.pos (digits2_pos m)) with d1 in M1. change (Z.pos (digits2_pos n)) with d2 in N1.
        assert (d1p : 1 <= d1) by (unfold d1; cbn; lia). assert (d2p : 1 <= d2) by (unfold d2; cbn; lia).
        destruct (Z_le_gt_dec 0 (d1 + sh - d2 - 1)) as [L|L]; [|rewrite Z.pow_neg_r in G by lia; lia].
        assert (B1 : 2 ^ (d1 - 1) * 2 ^ sh <= m') by (unfold m'; nia). rewrite <- Z.pow_add_r in B1 by lia.
        assert (B2 : m' < 2 ^ (d1 + sh - d2 - 1) * 2 ^ d2) by nia. rewrite <- Z.pow_add_r in B2 by lia. replace (d1 + sh - d2 - 1 + d2) with (d1 - 1 + sh) in B2 by lia. lia.
    + unfold m'. rewrite mult_IZR, <- pw_Z by exact Hs. assert (T : (pw e = pw sh * pw e' * pw f)%R) by (rewrite <- !pw_add; f_equal; unfold sh; lia). rewrite T. field. lra.
Qed.

(** Square root. *)
Lemma div2_spec e : 2 * Z.div2 e <= e <= 2 * Z.div2 e + 1.
Proof. pose proof (Z.div2_odd e). destruct (Z.odd e); cbn [Z.b2z] in *; lia. Qed.
Lemma lt_sqrt a b : (0 <= a -> a * a < b -> a < R_sqrt.sqrt b)%R.
Proof. intros A H. rewrite <- (sqrt_square a A) at 1. apply sqrt_lt_1; nra. Qed.
Lemma sqrt_lt a b : (0 <= b -> 0 < a -> b < a * a -> R_sqrt.sqrt b < a)%R.
Proof. intros B A H. rewrite <- (sqrt_square a) by lra. apply sqrt_lt_1; nra. Qed.

Lemma sqrt_rnd x : fin x -> (0 <= toR x)%R -> rnd (sf (PrimFloat.sqrt x)) (R_sqrt.sqrt (toR x)).
Proof.
  intros Fx Nx. rewrite <- vF_toR in * by assumption. rewrite fin_sf in Fx. rewrite FloatAxioms.sqrt_spec. unfold SF64sqrt, vF in *.
  pose proof (valid_sf x) as Bx. destruct (sf x) as [s|s| |s m e]; cbn [finS] in Fx; try tauto; cbn [SFsqrt].
  - rewrite vR_zero, sqrt_0. replace 0%R with (vR (S754_zero s)) by apply vR_zero. apply exact_rnd; [reflexivity|exact I].
  - cbn [valid_binary] in Bx. destruct (valid_bounds m e Bx) as (b1 & _). rewrite vR_finite in * by lia.
    assert (Pm : (0 < IZR (Z.pos m))%R) by (apply IZR_lt; lia). pose proof (pw_pos e) as Pe. destruct s; [exfalso; nra|].
    unfold SFsqrt_core_binary. cbv zeta. set (d := Zdigits2 (Z.pos m)). set (e' := Z.min (fexp P E (Z.div2 (d + e + 1))) (Z.div2 e)).
    set (sh := e - 2 * e'). pose proof (div2_spec e) as De. pose proof (div2_spec (d + e + 1)) as Dd. assert (Hs : 0 <= sh) by (unfold sh, e'; lia).
    assert (Sh : match sh with Z0 => Z.pos m | Z.pos _ => Z.shiftl (Z.pos m) sh | Z.neg _ => 0 end = Z.pos m * 2 ^ sh).
    { clearbody sh. destruct sh as [|p|p]; [change (2 ^ 0) with 1; lia| |lia]. rewrite Z.shiftl_mul_pow2 by lia. reflexivity. }
    rewrite Sh. clear Sh. pose proof (pow2_pos sh Hs) as Ps. set (m' := Z.pos m * 2 ^ sh). assert (Mp : 0 < m') by (unfold m'; lia).
    pose proof (Z.sqrtrem_spec m' ltac:(lia)) as Q. destruct (Z.sqrtrem m') as [q r]. destruct Q as [Q1 Q2].
    assert (Hq : 0 <= q) by lia.
    (* the exact root *)
    assert (HX : (R_sqrt.sqrt (IZR (Z.pos m) * pw e) = R_sqrt.sqrt (IZR m') * pw e')%R).
    { assert (T : (IZR (Z.pos m) * pw e = IZR m' * (pw e' * pw e'))%R).
      { unfold m'. rewrite mult_IZR, <- pw_Z by exact Hs. rewrite Rmult_assoc, <- !pw_add. f_equal. f_equal. unfold sh. lia. }
      rewrite T, sqrt_mult, sqrt_square; [reflexivity|left; apply pw_pos|apply IZR_le; lia|]. pose proof (pw_pos e'). nra. }
    rewrite HX. set (rho := R_sqrt.sqrt (IZR m')).
    set (l := if Zeq_bool r 0 then loc_Exact else loc_Inexact (if Zle_bool r q then Lt else Gt)).
    set (w := if Zeq_bool r 0 then 0 else if Zle_bool r q then 1 else 3).
    assert (RQ : (IZR m' = IZR q * IZR q + IZR r)%R) by (rewrite Q1, plus_IZR, mult_IZR; reflexivity).
    assert (Q0 : (0 <= IZR q)%R) by (apply IZR_le; lia).
    assert (QQ : (0 <= IZR q * IZR q)%R) by (apply Rmult_le_pos; exact Q0).
    assert (Cell : (w = 0 /\ rho = IZR q) \/ (w = 1 /\ (IZR q < rho < IZR q + / 2)%R) \/ (w = 3 /\ (IZR q + / 2 < rho < IZR q + 1)%R)).
    { unfold w, rho. rewrite RQ. destruct (Zeq_bool r 0) eqn:Z0; [apply Zeq_bool_eq in Z0|apply Zeq_bool_neq in Z0].
      - left. split; [reflexivity|]. rewrite Z0, Rplus_0_r. apply sqrt_square. exact Q0.
      - right. assert (R0 : (1 <= IZR r)%R) by (apply IZR_le; lia). destruct (Z.leb_spec r q) as [L|L].
        + left. split; [reflexivity|]. assert (IZR r <= IZR q)%R by (apply IZR_le; lia). split; [apply lt_sqrt; lra|apply sqrt_lt; lra].
        + right. split; [reflexivity|]. assert (IZR q + 1 <= IZR r)%R by (rewrite <- plus_IZR; apply IZR_le; lia). assert (IZR r <= 2 * IZR q)%R by (rewrite <- mult_IZR; apply IZR_le; lia).
          split; [apply lt_sqrt; lra|apply sqrt_lt; lra]. }
    assert (Lh : holds (shr_record_of_loc q l) 4 (4 * q + w)).
    { unfold l, w, holds. destruct (Zeq_bool r 0); [cbn [shr_record_of_loc shr_m shr_r shr_s]; lia|]. destruct (Zle_bool r q); cbn [shr_record_of_loc shr_m shr_r shr_s]; lia. }
    assert (Fe : e' <= fexp P E (Zdigits2 q + e')).
    { apply Z.le_trans with (fexp P E (Z.div2 (d + e + 1))); [unfold e'; lia|]. apply fexp_mono.
      pose proof (digits_le m) as M1. change (Z.pos (digits2_pos m)) with d in M1. assert (dp : 1 <= d) by (unfold d; cbn; lia).
      assert (B1 : 2 ^ (d - 1) * 2 ^ sh <= m') by (unfold m'; apply Z.mul_le_mono_nonneg_r; lia). rewrite <- Z.pow_add_r in B1 by lia.
      pose proof (div2_spec (d - 1 + sh)) as Dk. set (k := Z.div2 (d - 1 + sh)) in *. assert (K0 : 0 <= k) by lia.
      assert (B2 : 2 ^ k * 2 ^ k <= m') by (rewrite <- Z.pow_add_r by lia; apply Z.le_trans with (2 := B1); apply Z.pow_le_mono_r; lia).
      assert (B3 : 2 ^ k <= q). { destruct (Z_le_gt_dec (2 ^ k) q) as [G|G]; [exact G|exfalso]. assert ((q + 1) * (q + 1) <= 2 ^ k * 2 ^ k) by (apply Z.mul_le_mono_nonneg; lia). lia. }
      pose proof (digits_ge q k K0 B3). unfold sh in Dk. lia. }
    destruct (round_shift false q e' l 4 (4 * q + w) Hq ltac:(lia) Lh Fe) as (n & F & A & B & C). set (f := fexp P E (Zdigits2 q + e')) in *.
    assert (Lo : (IZR q * pw e' <= rho * pw e')%R) by (apply Rmult_le_compat_r; [left; apply pw_pos|]; lra).
    exists false, (rho * pw e')%R. split; [|reflexivity]. exists n, f. split; [exact F|]. split.
    { (* same cell of half units *)
      set (k := f - e'). assert (Hk : 0 <= k) by (unfold k; lia). pose proof (pw_pos e') as P'. replace f with (k + e') in * by (unfold k; lia). rewrite pw_add, (pw_Z k Hk) in *.
      rewrite plus_IZR, mult_IZR in A. set (g := 2 ^ k) in *.
      assert (A' : (Rabs (IZR n * IZR g - (IZR q + IZR w / 4)) <= IZR g / 2)%R).
      { apply Rmult_le_reg_r with (pw e'); [exact P'|]. rewrite <- (Rabs_right (pw e')) at 1 by lra. rewrite <- Rabs_mult. replace ((IZR n * IZR g - (IZR q + IZR w / 4)) * pw e')%R with (IZR n * (IZR g * pw e') - (4 * IZR q + IZR w) / 4 * pw e')%R by field. lra. }
      assert (I1 : (IZR ((2 * n - 1) * g) <= 2 * IZR q + IZR w / 2 <= IZR ((2 * n + 1) * g))%R).
      { rewrite !mult_IZR, minus_IZR, plus_IZR, mult_IZR. revert A'. unfold Rabs. destruct (Rcase_abs _); lra. }
      assert (I2 : (IZR ((2 * n - 1) * g) <= 2 * rho <= IZR ((2 * n + 1) * g))%R).
      { set (a := (2 * n - 1) * g) in *. set (b := (2 * n + 1) * g) in *. clearbody a b. destruct Cell as [[W Cl]|[[W Cl]|[W Cl]]]; rewrite W in I1.
        - rewrite Cl. lra.
        - assert (a <= 2 * q). { assert (IZR a < IZR (2 * q + 1))%R by (rewrite plus_IZR, mult_IZR; lra). apply lt_IZR in H. lia. }
          assert (2 * q + 1 <= b). { assert (IZR (2 * q) < IZR b)%R by (rewrite mult_IZR; lra). apply lt_IZR in H0. lia. }
          apply IZR_le in H, H0. rewrite plus_IZR in H0. rewrite mult_IZR in H, H0. lra.
        - assert (a <= 2 * q + 1). { assert (IZR a < IZR (2 * q + 2))%R by (rewrite plus_IZR, mult_IZR; lra). apply lt_IZR in H. lia. }
          assert (2 * q + 2 <= b). { assert (IZR (2 * q + 1) < IZR b)%R by (rewrite plus_IZR, mult_IZR; lra). apply lt_IZR in H0. lia. }
          apply IZR_le in H, H0. rewrite plus_IZR in H, H0. rewrite mult_IZR in H, H0. lra. }
      rewrite !mult_IZR, minus_IZR, plus_IZR, mult_IZR in I2.
      replace (IZR n * (IZR g * pw e') - rho * pw e')%R with ((IZR n * IZR g - rho) * pw e')%R by ring. rewrite Rabs_mult, (Rabs_right (pw e')) by lra.
      replace (IZR g * pw e' / 2)%R with (IZR g / 2 * pw e')%R by field. apply Rmult_le_compat_r; [lra|]. apply Rabs_le. lra. }
    split; [destruct B as [B|B]; [now left|right; lra]|].
    destruct C as [C|[C1 [C2|C2]]]; [now left| |]; right; (split; [exact C1|]); [now left|right; lra].
Qed.
