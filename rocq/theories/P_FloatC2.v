(** * The points computed by the intersection of two circles, in binary64 *)

From Coq Require Import Reals Lra ZArith Floats Bool Lia List.
From Verif Require Import Num FloatFuns M_LP M_Seg M_Poly M_Circle S_Geom S_Float S_FloatZ S_FloatR P_Float P_FloatZ P_FloatZ2 P_FloatR P_FloatE P_FloatE2 P_FloatX P_FloatG P_FloatC.
Import ListNotations.
Local Open Scope R_scope.

(** The quotient a = (n/2)/dd is between -t and t, so that its square is at most t^2. *)
Lemma quot_bound n2 r t k : fin n2 -> fin r -> (0 < t <= 65536)%Z -> rep k t -> 1 <= toR r -> Rabs (toR n2) <= IZR t * toR r ->
  fin (n2 / r)%float /\ Rabs (toR (n2 / r)%float) <= IZR t.
Proof.
  intros Fn Fr T Rk R1 B. assert (Tp : 1 <= IZR t <= 65536) by (split; [apply (IZR_le 1)|apply (IZR_le _ 65536)]; lia).
  pose proof (div_rnd n2 r Fn Fr ltac:(lra)) as H. assert (Q : Rabs (toR n2 / toR r) <= IZR t).
  { unfold Rdiv. rewrite Rabs_mult, (Rabs_right (/ toR r)) by (apply Rle_ge, Rlt_le, Rinv_0_lt_compat; lra). apply Rmult_le_reg_r with (toR r); [lra|]. rewrite Rmult_assoc, Rinv_l by lra. lra. }
  assert (F : fin (n2 / r)%float).
  { apply big_fin with (1 := H). apply Rle_trans with 65536; [lra|]. apply Rle_trans with (2 ^ 16); [right; rewrite pow_IZR; reflexivity|apply Rle_pow; [lra|lia]]. }
  split; [exact F|]. pose proof (rep_opp _ _ Rk) as Ro. assert (Q2 : - IZR t <= toR n2 / toR r <= IZR t) by (unfold Rabs in Q; destruct (Rcase_abs _); lra).
  apply Rabs_le. split.
  - rewrite <- opp_IZR, <- (rep_toR _ _ Ro). apply rnd_ge with (1 := H); [exact F|exact (rep_fin _ _ Ro)|]. rewrite (rep_toR _ _ Ro), opp_IZR. lra.
  - rewrite <- (rep_toR _ _ Rk). apply rnd_le with (1 := H); [exact F|exact (rep_fin _ _ Rk)|]. rewrite (rep_toR _ _ Rk). lra.
Qed.
(** The argument of the second square root is not negative. *)
Lemma arg_pos a t k : fin a -> (0 < t <= 65536)%Z -> rep k t -> Rabs (toR a) <= IZR t -> fin (k * k - a * a)%float /\ 0 <= toR (k * k - a * a)%float.
Proof.
  intros Fa T Rk B. assert (Tp : 1 <= IZR t <= 65536) by (split; [apply (IZR_le 1)|apply (IZR_le _ 65536)]; lia).
  assert (L : (t * t <= 65536 * 65536)%Z) by (apply Z.mul_le_mono_nonneg; lia). pose proof (Z.square_nonneg t) as L0. assert (Rkk := rep_mul _ _ _ _ Rk Rk ltac:(unfold lim; lia)).
  pose proof (rep_fin _ _ Rkk) as Fk. pose proof (rep_toR _ _ Rkk) as Vk. pose proof (mul_rnd a a Fa Fa) as H.
  assert (Q : 0 <= toR a * toR a <= IZR (t * t)).
  { split; [apply Rle_0_sqr|]. rewrite mult_IZR. apply Rsqr_le_abs_1. rewrite (Rabs_right (IZR t)) by lra. exact B. }
  assert (LR : IZR (t * t) <= 4294967296) by (apply (IZR_le _ 4294967296); lia).
  assert (W : 4294967296 <= 2 ^ 1023) by (apply Rle_trans with (2 ^ 32); [right; rewrite pow_IZR; reflexivity|apply Rle_pow; [lra|lia]]).
  assert (F : fin (a * a)%float) by (apply big_fin with (1 := H); rewrite Rabs_right by lra; lra).
  assert (U : toR (a * a)%float <= IZR (t * t)) by (rewrite <- Vk; apply rnd_le with (1 := H); [exact F|exact Fk|]; rewrite Vk; lra).
  assert (R0 : rep 0%float 0) by (change 0%float with (FloatFuns.of_Z 0); apply rep_ofZ; unfold lim; lia). pose proof (rep_toR _ _ R0) as V0. change (IZR 0) with 0 in V0.
  assert (U0 : 0 <= toR (a * a)%float) by (rewrite <- V0; apply rnd_ge with (1 := H); [exact F|exact (rep_fin _ _ R0)|]; rewrite V0; lra).
  pose proof (sub_rnd _ _ Fk F) as K. rewrite Vk in K. assert (Fd : fin (k * k - a * a)%float) by (apply big_fin with (1 := K); rewrite Rabs_right by lra; lra).
  split; [exact Fd|]. rewrite <- V0 at 1. apply rnd_ge with (1 := K); [exact Fd|exact (rep_fin _ _ R0)|]. rewrite V0. lra.
Qed.

(** ** Finite values of bounded size *)
Definition bd (x : float) (k : nat) : Prop := fin x /\ Rabs (toR x) <= 2 ^ k.
Lemma bd_rnd r Y k : rnd (sf r) Y -> Rabs Y <= 2 ^ k -> (k <= 1000)%nat -> bd r (S k).
Proof.
  intros H B K. assert (P1 : 1 <= 2 ^ k) by (apply pow_R1_Rle; lra).
  assert (F : fin r) by (apply big_fin with (1 := H); apply Rle_trans with (1 := B); apply Rle_pow; [lra|lia]). split; [exact F|].
  pose proof (rnd_err3 _ _ H F) as E. rewrite ulp1_val in E. pose proof tiny_pw as T. pose proof (Rabs_triang (toR r - Y) Y) as A. replace (toR r - Y + Y) with (toR r) in A by ring. cbn [pow]. lra.
Qed.
Lemma bd_le x j k : bd x j -> (j <= k)%nat -> bd x k.
Proof. intros [F B] L. split; [exact F|]. apply Rle_trans with (1 := B). apply Rle_pow; [lra|exact L]. Qed.
Lemma bd_mul x y j k : bd x j -> bd y k -> (j + k <= 1000)%nat -> bd (x * y)%float (S (j + k)).
Proof. intros [F B] [G C] L. apply bd_rnd with (1 := mul_rnd x y F G); [|exact L]. rewrite Rabs_mult, pow_add. apply Rmult_le_compat; auto using Rabs_pos. Qed.
Lemma bd_add x y k : bd x k -> bd y k -> (k <= 999)%nat -> bd (x + y)%float (S (S k)).
Proof. intros [F B] [G C] L. apply bd_rnd with (1 := add_rnd x y F G); [|lia]. pose proof (Rabs_triang (toR x) (toR y)). cbn [pow]. lra. Qed.
Lemma bd_sub x y k : bd x k -> bd y k -> (k <= 999)%nat -> bd (x - y)%float (S (S k)).
Proof. intros [F B] [G C] L. apply bd_rnd with (1 := sub_rnd x y F G); [|lia]. pose proof (Rabs_triang (toR x) (- toR y)) as A. rewrite Rabs_Ropp in A. unfold Rminus. cbn [pow]. lra. Qed.
Lemma bd_div x y k : bd x k -> fin y -> 1 <= toR y -> (k <= 1000)%nat -> bd (x / y)%float (S k).
Proof.
  intros [F B] G Y L. apply bd_rnd with (1 := div_rnd x y F G ltac:(lra)); [|exact L]. unfold Rdiv. rewrite Rabs_mult, (Rabs_right (/ toR y)) by (apply Rle_ge, Rlt_le, Rinv_0_lt_compat; lra).
  assert (I : / toR y <= 1) by (rewrite <- Rinv_1; apply Rinv_le_contravar; lra). pose proof (Rabs_pos (toR x)). apply Rle_trans with (Rabs (toR x) * 1); [apply Rmult_le_compat_l; lra|lra].
Qed.
Lemma bd_sqrt x k : bd x k -> 0 <= toR x -> (k <= 1000)%nat -> bd (PrimFloat.sqrt x) (S k).
Proof.
  intros [F B] P L. apply bd_rnd with (1 := sqrt_rnd x F P); [|exact L]. rewrite Rabs_right by (apply Rle_ge, sqrt_pos). rewrite Rabs_right in B by lra.
  assert (P1 : 1 <= 2 ^ k) by (apply pow_R1_Rle; lra). apply Rle_trans with (R_sqrt.sqrt (Rsqr (2 ^ k))); [|rewrite sqrt_Rsqr by lra; lra]. apply sqrt_le_1_alt. unfold Rsqr. nra.
Qed.
Lemma bd_rep x z k : rep x z -> (Z.abs z <= 2 ^ Z.of_nat k)%Z -> bd x k.
Proof. intros H L. split; [exact (rep_fin _ _ H)|]. rewrite (rep_toR _ _ H), <- abs_IZR. rewrite pow_IZR. now apply IZR_le. Qed.
