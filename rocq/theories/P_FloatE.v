(** * Errors and order of rounded operations *)

From Coq Require Import Reals Lra ZArith Floats Bool Lia List.
From Verif Require Import Num FloatFuns M_LP S_Geom S_Float S_FloatZ S_FloatR P_Float P_FloatZ P_FloatZ2 P_FloatR.
Import ListNotations.
Local Open Scope R_scope.

Lemma pw_pow n : pw (Z.of_nat n) = 2 ^ n.
Proof. unfold pw. now rewrite <- pow_powerRZ. Qed.
Lemma pw_npow n : pw (- Z.of_nat n) = / 2 ^ n.
Proof. unfold pw. destruct n as [|n]; [cbn; field|]. change (- Z.of_nat (S n))%Z with (Z.neg (Pos.of_succ_nat n)). cbn [powerRZ]. now rewrite SuccNat2Pos.id_succ. Qed.
Lemma ulp1_pw : ulp1 = pw (-53).
Proof. unfold ulp1. now rewrite <- pw_npow. Qed.
Lemma ulp1_val : ulp1 = / 9007199254740992.
Proof. unfold ulp1. f_equal. rewrite pow_IZR. reflexivity. Qed.
Lemma ulp1_pos : 0 < ulp1 <= / 9000000000000000.
Proof. rewrite ulp1_val. lra. Qed.

Lemma toR_vR x : fin x -> vR (sf x) = toR x.
Proof. intro. now apply vF_toR. Qed.
Lemma fin_finS x : finS (sf x) -> fin x. Proof. apply fin_sf. Qed.

(** ** From [rnd] to the doubles *)

Lemma rnd_nearest r Y : rnd (sf r) Y -> Rabs Y <= 2 ^ 1023 -> nearestD r Y.
Proof.
  intros H B. rewrite <- pw_pow in B. change (Z.of_nat 1023) with 1023%Z in B.
  assert (F : fin r) by (apply fin_finS; now apply rnd_fin with Y). split; [exact F|].
  intros z Fz. rewrite <- !toR_vR by assumption. apply rnd_near; [exact H|apply valid_sf].
Qed.
Lemma rnd_err2 r Y : rnd (sf r) Y -> fin r -> Rabs (toR r - Y) <= ulp1 * Rabs Y \/ Rabs (toR r - Y) <= pw (-1075).
Proof.
  intros H F. rewrite <- toR_vR, ulp1_pw by assumption. rewrite (Rmult_comm (pw (-53))). apply rnd_err; [exact H|now apply fin_sf].
Qed.
Lemma rnd_err3 r Y : rnd (sf r) Y -> fin r -> Rabs (toR r - Y) <= ulp1 * Rabs Y + pw (-1075).
Proof.
  intros H F. pose proof (pw_pos (-1075)). pose proof ulp1_pos. pose proof (Rabs_pos Y). assert (0 <= ulp1 * Rabs Y) by (apply Rmult_le_pos; lra).
  destruct (rnd_err2 r Y H F); lra.
Qed.
(** Doubles on one side of the exact value stay on that side. *)
Lemma rnd_ge r Y z : rnd (sf r) Y -> fin r -> fin z -> toR z <= Y -> toR z <= toR r.
Proof.
  intros H F Fz L. pose proof (rnd_near _ _ (sf z) H (valid_sf z)) as N. rewrite !toR_vR in N by assumption.
  revert N. unfold Rabs. destruct (Rcase_abs _), (Rcase_abs _); lra.
Qed.
Lemma rnd_le r Y z : rnd (sf r) Y -> fin r -> fin z -> Y <= toR z -> toR r <= toR z.
Proof.
  intros H F Fz L. pose proof (rnd_near _ _ (sf z) H (valid_sf z)) as N. rewrite !toR_vR in N by assumption.
  revert N. unfold Rabs. destruct (Rcase_abs _), (Rcase_abs _); lra.
Qed.
Lemma rnd_mono r s X Y : rnd (sf r) X -> rnd (sf s) Y -> fin r -> fin s -> X < Y -> toR r <= toR s.
Proof.
  intros H K F G L. pose proof (rnd_near _ _ (sf s) H (valid_sf s)) as N. pose proof (rnd_near _ _ (sf r) K (valid_sf r)) as M. rewrite !toR_vR in N, M by assumption.
  revert N M. unfold Rabs. destruct (Rcase_abs _), (Rcase_abs _), (Rcase_abs _), (Rcase_abs _); lra.
Qed.
Lemma toR_same x y : fin x -> fin y -> (toR x = toR y <-> same x y).
Proof.
  intros Fx Fy. split; intro H.
  - apply val_inj; try now apply fin_num. rewrite <- !toR_vR in H by assumption. unfold vR in H. apply eq_IZR. apply Rmult_eq_reg_r with (pw (-1074)); [exact H|]. pose proof (pw_pos (-1074)). lra.
  - rewrite <- !toR_vR by assumption. unfold vR. now rewrite (val_same x y H).
Qed.

(** ** Sums and differences: the relative bound always holds *)

Lemma grid x : fin x -> exists n, toR x = IZR n * pw (-1074).
Proof. intro F. exists (val (sf x)). now rewrite <- toR_vR. Qed.
Lemma int_zero n : Rabs (IZR n * pw (-1074)) <= pw (-1075) -> n = 0%Z.
Proof.
  change (-1075)%Z with (-1074 + -1)%Z. rewrite pw_add. change (pw (-1)) with (/ (2 * 1)). pose proof (pw_pos (-1074)) as K. set (k := pw (-1074)) in *. clearbody k.
  rewrite Rabs_mult, (Rabs_right k) by lra. intro H. assert (Rabs (IZR n) <= / (2 * 1)) by (apply Rmult_le_reg_r with k; lra).
  rewrite <- abs_IZR in H0. assert (IZR (Z.abs n) < IZR 1) by lra. apply lt_IZR in H1. lia.
Qed.
Lemma grid_err r Y n : rnd (sf r) Y -> fin r -> Y = IZR n * pw (-1074) -> Rabs (toR r - Y) <= ulp1 * Rabs Y.
Proof.
  intros H F E. destruct (rnd_err2 r Y H F) as [A|A]; [exact A|]. destruct (grid r F) as [m M]. rewrite M, E in A.
  assert (D : IZR m * pw (-1074) - IZR n * pw (-1074) = IZR (m - n) * pw (-1074)) by (rewrite minus_IZR; ring). rewrite D in A. apply int_zero in A.
  rewrite M, E, D, A, Rmult_0_l, Rabs_R0. pose proof ulp1_pos. apply Rmult_le_pos; [lra|apply Rabs_pos].
Qed.
Lemma add_err x y : fin x -> fin y -> fin (x + y)%float -> Rabs (toR (x + y)%float - (toR x + toR y)) <= ulp1 * Rabs (toR x + toR y).
Proof.
  intros Fx Fy F. destruct (grid x Fx) as [m M], (grid y Fy) as [n N]. apply grid_err with (n := (m + n)%Z); [now apply add_rnd|exact F|]. rewrite M, N, plus_IZR. ring.
Qed.
Lemma sub_err x y : fin x -> fin y -> fin (x - y)%float -> Rabs (toR (x - y)%float - (toR x - toR y)) <= ulp1 * Rabs (toR x - toR y).
Proof.
  intros Fx Fy F. destruct (grid x Fx) as [m M], (grid y Fy) as [n N]. apply grid_err with (n := (m - n)%Z); [now apply sub_rnd|exact F|]. rewrite M, N, minus_IZR. ring.
Qed.
Lemma mul_err x y : fin x -> fin y -> fin (x * y)%float -> Rabs (toR (x * y)%float - toR x * toR y) <= ulp1 * Rabs (toR x * toR y) + pw (-1075).
Proof. intros Fx Fy F. apply rnd_err3; [now apply mul_rnd|exact F]. Qed.

(** ** No overflow *)
Lemma big_fin r Y : rnd (sf r) Y -> Rabs Y <= 2 ^ 1023 -> fin r.
Proof. intros H B. now destruct (rnd_nearest r Y H B). Qed.

(** ** The sign of a difference is exact *)
Lemma sub_sign x y : fin x -> fin y -> fin (x - y)%float -> (0 <? x - y)%float = (y <? x)%float.
Proof.
  intros Fx Fy F. assert (F0 : fin 0%float) by reflexivity. assert (T0 : toR 0%float = 0) by reflexivity.
  pose proof (sub_err x y Fx Fy F) as E. pose proof ulp1_pos as U.
  destruct (y <? x)%float eqn:L.
  - apply toR_lt in L; [|assumption|assumption]. apply toR_lt; [assumption|assumption|]. rewrite T0. rewrite (Rabs_right (toR x - toR y)) in E by lra.
    assert (ulp1 * (toR x - toR y) < 1 * (toR x - toR y)) by (apply Rmult_lt_compat_r; lra). revert E. unfold Rabs. destruct (Rcase_abs _); lra.
  - apply toR_ge in L; [|assumption|assumption]. apply toR_ge; [assumption|assumption|]. rewrite T0. rewrite (Rabs_left1 (toR x - toR y)) in E by lra.
    assert (ulp1 * - (toR x - toR y) <= 1 * - (toR x - toR y)) by (apply Rmult_le_compat_r; lra). revert E. unfold Rabs. destruct (Rcase_abs _); lra.
Qed.

(** ** Determinants *)

Lemma pw_split a b : pw (a + b) = pw a * pw b. Proof. apply pw_add. Qed.
Lemma abs_diff a b c : Rabs (a - b) <= c -> Rabs a <= Rabs b + c.
Proof. unfold Rabs. destruct (Rcase_abs _), (Rcase_abs _), (Rcase_abs _); lra. Qed.

Lemma diff_mod x y : fin x -> fin y -> Rabs (toR x) <= 2 ^ 500 -> Rabs (toR y) <= 2 ^ 500 ->
  fin (x - y)%float /\ Rabs (toR (x - y)%float - (toR x - toR y)) <= ulp1 * Rabs (toR x - toR y) /\ Rabs (toR (x - y)%float) <= 2 ^ 502.
Proof.
  intros Fx Fy Bx By. assert (B : Rabs (toR x - toR y) <= 2 * 2 ^ 500) by (pose proof (Rabs_triang (toR x) (- toR y)); rewrite Rabs_Ropp in *; unfold Rminus; lra).
  assert (K : 2 ^ 500 <= 2 ^ 1022) by (apply Rle_pow; [lra|lia]). assert (K2 : 2 ^ 502 = 4 * 2 ^ 500) by (change 502%nat with (2 + 500)%nat; rewrite pow_add; lra).
  assert (K3 : 2 ^ 1023 = 2 * 2 ^ 1022) by (change 1023%nat with (S 1022); reflexivity).
  assert (F : fin (x - y)%float) by (apply big_fin with (1 := sub_rnd x y Fx Fy); lra). pose proof (sub_err x y Fx Fy F) as E.
  split; [exact F|]. split; [exact E|]. apply abs_diff in E. pose proof ulp1_pos. pose proof (Rabs_pos (toR x - toR y)).
  assert (ulp1 * Rabs (toR x - toR y) <= 1 * Rabs (toR x - toR y)) by (apply Rmult_le_compat_r; lra). lra.
Qed.
Lemma tiny_1 : pw (-1075) <= / 2 ^ 1075. Proof. rewrite <- pw_npow. apply Rle_refl. Qed.
Lemma pow_inv_1 n : / 2 ^ n <= 1.
Proof. rewrite <- Rinv_1. apply Rinv_le_contravar; [lra|]. apply pow_R1_Rle. lra. Qed.
Lemma prod_mod x y k : fin x -> fin y -> (1 <= k <= 510)%nat -> Rabs (toR x) <= 2 ^ k -> Rabs (toR y) <= 2 ^ k ->
  fin (x * y)%float /\ Rabs (toR (x * y)%float - toR x * toR y) <= ulp1 * Rabs (toR x * toR y) + pw (-1075) /\ Rabs (toR (x * y)%float) <= 2 ^ (2 * k + 2).
Proof.
  intros Fx Fy Hk Bx By. assert (B : Rabs (toR x * toR y) <= 2 ^ k * 2 ^ k) by (rewrite Rabs_mult; apply Rmult_le_compat; try apply Rabs_pos; assumption).
  rewrite <- pow_add in B. assert (K : 2 ^ (k + k) <= 2 ^ 1023) by (apply Rle_pow; [lra|lia]).
  assert (F : fin (x * y)%float) by (apply big_fin with (1 := mul_rnd x y Fx Fy); lra). pose proof (mul_err x y Fx Fy F) as E.
  split; [exact F|]. split; [exact E|]. apply abs_diff in E. pose proof ulp1_pos. pose proof (Rabs_pos (toR x * toR y)).
  assert (ulp1 * Rabs (toR x * toR y) <= 1 * Rabs (toR x * toR y)) by (apply Rmult_le_compat_r; lra).
  assert (1 <= 2 ^ (k + k)) by (apply pow_R1_Rle; lra). pose proof tiny_1. pose proof (pow_inv_1 1075).
  assert (2 ^ (2 * k + 2) = 4 * 2 ^ (k + k)) by (replace (2 * k + 2)%nat with (2 + (k + k))%nat by lia; rewrite pow_add; lra). lra.
Qed.
(** A product of two rounded differences. *)
Lemma rel_prod u A B A0 B0 P e : 0 <= u <= / 100 -> Rabs (A - A0) <= u * Rabs A0 -> Rabs (B - B0) <= u * Rabs B0 -> Rabs (P - A * B) <= u * Rabs (A * B) + e ->
  Rabs (P - A0 * B0) <= 4 * u * Rabs (A0 * B0) + e.
Proof.
  intros U HA HB HP. pose proof (abs_diff _ _ _ HA) as GA. pose proof (abs_diff _ _ _ HB) as GB.
  set (a := Rabs A0) in *. set (b := Rabs B0) in *. assert (0 <= a) by apply Rabs_pos. assert (0 <= b) by apply Rabs_pos.
  assert (AB : Rabs (A * B - A0 * B0) <= (2 * u + u * u) * (a * b)).
  { replace (A * B - A0 * B0) with (A0 * (B - B0) + (A - A0) * B) by ring. eapply Rle_trans; [apply Rabs_triang|]. rewrite !Rabs_mult.
    fold a. assert (a * Rabs (B - B0) <= a * (u * b)) by (apply Rmult_le_compat_l; assumption).
    assert (Rabs (A - A0) * Rabs B <= u * a * (b + u * b)) by (apply Rmult_le_compat; try apply Rabs_pos; assumption). nra. }
  assert (PB : Rabs (A * B) <= (1 + u) * (1 + u) * (a * b)).
  { rewrite Rabs_mult. eapply Rle_trans; [apply Rmult_le_compat; try apply Rabs_pos; eassumption|]. right. ring. }
  replace (P - A0 * B0) with ((P - A * B) + (A * B - A0 * B0)) by ring. eapply Rle_trans; [apply Rabs_triang|].
  rewrite (Rabs_mult A0 B0). fold a b. set (w := a * b) in *. assert (0 <= w) by (apply Rmult_le_pos; assumption). clearbody w a b.
  assert (u * Rabs (A * B) <= u * ((1 + u) * (1 + u) * w)) by (apply Rmult_le_compat_l; lra).
  assert (u * ((1 + u) * (1 + u)) + (2 * u + u * u) <= 4 * u) by nra.
  assert ((u * ((1 + u) * (1 + u)) + (2 * u + u * u)) * w <= 4 * u * w) by (apply Rmult_le_compat_r; assumption). lra.
Qed.

(** fl(fl(fl(a-b) * fl(c-d)) - fl(fl(e-f) * fl(g-h))). *)
Definition fdet (a b c d e f g h : float) : float := ((a - b) * (c - d) - (e - f) * (g - h))%float.
Definition rdet (a b c d e f g h : float) : R := (toR a - toR b) * (toR c - toR d) - (toR e - toR f) * (toR g - toR h).
Definition sdet (a b c d e f g h : float) : R := Rabs ((toR a - toR b) * (toR c - toR d)) + Rabs ((toR e - toR f) * (toR g - toR h)).
Definition modest (x : float) : Prop := fin x /\ Rabs (toR x) <= 2 ^ 500.
Lemma fdet_split a b c d e f g h : modest a -> modest b -> modest c -> modest d -> modest e -> modest f -> modest g -> modest h ->
  exists P Q, fdet a b c d e f g h = (P - Q)%float /\ fin P /\ fin Q /\ fin (P - Q)%float /\
    Rabs (toR P - toR Q - rdet a b c d e f g h) <= 4 * ulp1 * sdet a b c d e f g h + 2 * pw (-1075).
Proof.
  intros [Fa Ba] [Fb Bb] [Fc Bc] [Fd Bd] [Fe Be] [Ff Bf] [Fg Bg] [Fh Bh].
  destruct (diff_mod a b) as (F1 & E1 & B1); try assumption. destruct (diff_mod c d) as (F2 & E2 & B2); try assumption.
  destruct (diff_mod e f) as (F3 & E3 & B3); try assumption. destruct (diff_mod g h) as (F4 & E4 & B4); try assumption.
  destruct (prod_mod (a - b) (c - d) 502) as (FP & EP & BP); try assumption; try lia.
  destruct (prod_mod (e - f) (g - h) 502) as (FQ & EQ & BQ); try assumption; try lia.
  exists ((a - b) * (c - d))%float, ((e - f) * (g - h))%float. split; [reflexivity|]. split; [exact FP|]. split; [exact FQ|].
  assert (U : 0 <= ulp1 <= / 100) by (pose proof ulp1_pos; lra). pose proof (rel_prod _ _ _ _ _ _ _ U E1 E2 EP) as RP. pose proof (rel_prod _ _ _ _ _ _ _ U E3 E4 EQ) as RQ.
  split.
  - apply big_fin with (1 := sub_rnd _ _ FP FQ). assert (K : 2 ^ (2 * 502 + 2) <= 2 ^ 1022) by (apply Rle_pow; [lra|lia]).
    assert (K3 : 2 ^ 1023 = 2 * 2 ^ 1022) by (change 1023%nat with (S 1022); reflexivity).
    set (P := toR ((a - b) * (c - d))) in *. set (Q := toR ((e - f) * (g - h))) in *. pose proof (Rabs_triang P (- Q)). rewrite Rabs_Ropp in *. unfold Rminus. lra.
  - unfold rdet, sdet. set (P := toR ((a - b) * (c - d))) in *. set (Q := toR ((e - f) * (g - h))) in *.
    set (p := (toR a - toR b) * (toR c - toR d)) in *. set (q := (toR e - toR f) * (toR g - toR h)) in *.
    replace (P - Q - (p - q)) with ((P - p) + - (Q - q)) by ring. eapply Rle_trans; [apply Rabs_triang|]. rewrite Rabs_Ropp. lra.
Qed.

(** The sign is right outside the band. *)
Lemma fdet_sign a b c d e f g h : modest a -> modest b -> modest c -> modest d -> modest e -> modest f -> modest g -> modest h ->
  4 * ulp1 * sdet a b c d e f g h + 2 * pw (-1075) < Rabs (rdet a b c d e f g h) ->
  (0 <? fdet a b c d e f g h)%float = Rltb 0 (rdet a b c d e f g h) /\ (fdet a b c d e f g h <? 0)%float = Rltb (rdet a b c d e f g h) 0.
Proof.
  intros Ma Mb Mc Md Me Mf Mg Mh H. destruct (fdet_split a b c d e f g h) as (P & Q & -> & FP & FQ & F & E); try assumption.
  set (D := rdet a b c d e f g h) in *. set (S := 4 * ulp1 * sdet a b c d e f g h + 2 * pw (-1075)) in *. clearbody D S.
  assert (F0 : fin 0%float) by reflexivity. assert (T0 : toR 0%float = 0) by reflexivity.
  assert (V : forall D' : R, Rabs (D' - D) <= S -> (0 < D' <-> 0 < D) /\ (D' < 0 <-> D < 0)).
  { intros D' G. revert G H. unfold Rabs. destruct (Rcase_abs _), (Rcase_abs _); lra. }
  destruct (V _ E) as [V1 V2]. pose proof (sub_err P Q FP FQ F) as G. pose proof ulp1_pos as U.
  set (v := toR (P - Q)) in *. set (w := toR P - toR Q) in *.
  assert (W : (0 < v <-> 0 < w) /\ (v < 0 <-> w < 0)).
  { destruct (Rtotal_order w 0) as [L|[L|L]].
    - rewrite (Rabs_left w) in G by assumption. assert (ulp1 * - w < 1 * - w) by (apply Rmult_lt_compat_r; lra). revert G. unfold Rabs. destruct (Rcase_abs _); lra.
    - rewrite L, Rabs_R0, Rmult_0_r in G. revert G. unfold Rabs. destruct (Rcase_abs _); lra.
    - rewrite (Rabs_right w) in G by lra. assert (ulp1 * w < 1 * w) by (apply Rmult_lt_compat_r; lra). revert G. unfold Rabs. destruct (Rcase_abs _); lra. }
  split.
  - pose proof (toR_lt 0 (P - Q) F0 F) as L. rewrite T0 in L. fold v in L. pose proof (Rltb_spec 0 D) as M. destruct (0 <? P - Q)%float, (Rltb 0 D); intuition congruence.
  - pose proof (toR_lt (P - Q) 0 F F0) as L. rewrite T0 in L. fold v in L. pose proof (Rltb_spec D 0) as M. destruct (P - Q <? 0)%float, (Rltb D 0); intuition congruence.
Qed.
(** And the size is. *)
Lemma fdet_size a b c d e f g h : modest a -> modest b -> modest c -> modest d -> modest e -> modest f -> modest g -> modest h ->
  let v := fdet a b c d e f g h in fin v /\ Rabs (toR v) >= (1 - ulp1) * (Rabs (rdet a b c d e f g h) - (4 * ulp1 * sdet a b c d e f g h + 2 * pw (-1075))).
Proof.
  intros Ma Mb Mc Md Me Mf Mg Mh. cbv zeta. destruct (fdet_split a b c d e f g h) as (P & Q & -> & FP & FQ & F & E); try assumption. split; [exact F|].
  set (D := rdet a b c d e f g h) in *. set (S := 4 * ulp1 * sdet a b c d e f g h + 2 * pw (-1075)) in *. clearbody D S.
  pose proof (sub_err P Q FP FQ F) as G. pose proof ulp1_pos as U. set (v := toR (P - Q)) in *. set (w := toR P - toR Q) in *. clearbody v w.
  assert (A : Rabs D - S <= Rabs w) by (revert E; unfold Rabs; destruct (Rcase_abs _), (Rcase_abs _), (Rcase_abs _); lra).
  assert (B : (1 - ulp1) * Rabs w <= Rabs v). { replace ((1 - ulp1) * Rabs w) with (Rabs w - ulp1 * Rabs w) by ring. revert G. generalize (ulp1 * Rabs w) as z. intro z. unfold Rabs. destruct (Rcase_abs _), (Rcase_abs _), (Rcase_abs _); lra. }
  assert ((1 - ulp1) * (Rabs D - S) <= (1 - ulp1) * Rabs w) by (apply Rmult_le_compat_l; lra). lra.
Qed.
