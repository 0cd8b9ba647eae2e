(** * Intersections of two circles with integer centers and radii, in binary64 *)

From Coq Require Import Reals Lra ZArith Floats Bool Lia List.
From Verif Require Import Num FloatFuns M_LP M_Seg M_Poly M_Circle S_Geom S_Float S_FloatZ S_FloatR P_Float P_FloatZ P_FloatZ2 P_FloatR P_FloatE P_FloatE2 P_FloatX P_FloatG.
Import ListNotations.
Local Open Scope R_scope.

Lemma eqb_split x y : (x =? y)%float = ((x <=? y)%float && negb (x <? y)%float).
Proof. rewrite FloatAxioms.eqb_spec, FloatAxioms.leb_spec, FloatAxioms.ltb_spec. unfold SFeqb, SFleb, SFltb. destruct (SFcompare (sf x) (sf y)) as [[]|]; reflexivity. Qed.
Lemma rep_eqb x y a b : rep x a -> rep y b -> (x =? y)%float = (a =? b)%Z.
Proof.
  intros A B. rewrite eqb_split, (rep_leb _ _ _ _ A B), (rep_ltb _ _ _ _ A B). destruct (Z.leb_spec a b), (Z.ltb_spec a b), (Z.eqb_spec a b); try reflexivity; lia.
Qed.

(** With n = t^2-u^2+s: n^2 + ((t+u)^2-s)(s-(t-u)^2) = 4 t^2 s. *)
Definition zN (s t u : Z) : Z := (t * t - u * u + s)%Z.
Definition zK (s t u : Z) : Z := (((t + u) * (t + u) - s) * (s - (t - u) * (t - u)))%Z.
Lemma heron s t u : (zN s t u * zN s t u + zK s t u = 4 * (t * t) * s)%Z.
Proof. unfold zN, zK. ring. Qed.
Lemma K_big s t u : (0 < t -> 0 < u -> (t - u) * (t - u) < s < (t + u) * (t + u) -> 3 * (t * u) <= zK s t u)%Z.
Proof.
  intros T U S. unfold zK. set (a := ((t + u) * (t + u) - s)%Z). set (b := (s - (t - u) * (t - u))%Z). assert (E : (a + b = 4 * (t * u))%Z) by (unfold a, b; ring).
  assert (A : (1 <= a)%Z) by (unfold a; lia). assert (B : (1 <= b)%Z) by (unfold b; lia). assert (P : (0 <= (a - 1) * (b - 1))%Z) by (apply Z.mul_nonneg_nonneg; lia).
  assert (1 <= t * u)%Z by nia. replace ((a - 1) * (b - 1))%Z with (a * b - (a + b) + 1)%Z in P by ring. lia.
Qed.
(** The half of |n| is at most t times the rounded root. *)
Lemma root_bound r s t u : rnd (sf r) (R_sqrt.sqrt (IZR s)) -> fin r -> (0 < t <= 65536)%Z -> (0 < u <= 65536)%Z -> (0 < s)%Z -> ((t - u) * (t - u) <= s <= (t + u) * (t + u))%Z ->
  Rabs (IZR (zN s t u) / 2) <= IZR t * toR r.
Proof.
  intros H F T U S0 S. assert (T1 : 1 <= IZR t <= 65536) by (split; [apply (IZR_le 1)|apply (IZR_le _ 65536)]; lia). assert (U1 : 1 <= IZR u) by (apply (IZR_le 1); lia).
  assert (S2 : (s <= 131072 * 131072)%Z) by (eapply Z.le_trans; [apply S|]; apply Z.mul_le_mono_nonneg; lia).
  set (n := zN s t u). pose proof (heron s t u) as Hn. fold n in Hn.
  assert (Tan : forall v, (0 <= v)%Z -> s = (v * v)%Z -> Rabs (IZR n / 2) <= IZR t * toR r).
  { intros v V E. assert (V2 : (v < 2 ^ 53)%Z) by nia. rewrite E in H. rewrite (root_exact _ v H F) by lia.
    rewrite <- (Rabs_right (IZR t * IZR v)) by (apply Rle_ge, Rmult_le_pos; [lra|apply IZR_le; lia]). apply Rsqr_le_abs_0. unfold Rsqr. apply IZR_eq in Hn. rewrite plus_IZR, !mult_IZR in Hn.
    assert (Kp : 0 <= IZR (zK s t u)) by (apply IZR_le; unfold zK; apply Z.mul_nonneg_nonneg; lia). assert (Es : IZR s = IZR v * IZR v) by (rewrite E; apply mult_IZR). rewrite Es in Hn. lra. }
  destruct (Z.eq_dec s ((t + u) * (t + u))) as [E|N1]; [apply (Tan (t + u)%Z); [lia|exact E]|].
  destruct (Z.eq_dec s ((t - u) * (t - u))) as [E|N2]; [apply (Tan (Z.abs (t - u))); [lia|rewrite E; symmetry; apply Z.abs_square]|].
  clear Tan. pose proof (K_big s t u ltac:(lia) ltac:(lia) ltac:(lia)) as K.
  assert (KR : 3 * (IZR t * IZR u) <= IZR (zK s t u)) by (rewrite <- mult_IZR; change 3 with (IZR 3); rewrite <- mult_IZR; now apply IZR_le).
  apply (f_equal IZR) in Hn. rewrite plus_IZR, !mult_IZR in Hn. change (IZR 4) with 4 in Hn.
  set (q := R_sqrt.sqrt (IZR s)) in *. assert (Sp : 0 <= IZR s) by (apply IZR_le; lia). assert (Q2 : q * q = IZR s) by (apply sqrt_sqrt; exact Sp).
  assert (Q0 : 1 <= q) by (unfold q; rewrite <- sqrt_1; apply sqrt_le_1_alt; apply (IZR_le 1); lia).
  assert (Q1 : q <= 131072) by (unfold q; rewrite <- (sqrt_square 131072) by lra; apply sqrt_le_1_alt; rewrite <- mult_IZR; apply IZR_le; lia).
  pose proof (rnd_err3 _ _ H F) as B. rewrite (Rabs_right q), ulp1_val in B by lra. pose proof tiny_pw as P.
  pose proof (Rle_abs (- (toR r - q))) as A. rewrite Rabs_Ropp in A.
  assert (W : q - q / 4503599627370496 <= toR r) by lra.
  apply Rle_trans with (IZR t * (q - q / 4503599627370496)); [|apply Rmult_le_compat_l; lra].
  assert (X0 : 0 <= IZR t * (q - q / 4503599627370496)) by (apply Rmult_le_pos; lra).
  rewrite <- (Rabs_right (IZR t * (q - q / 4503599627370496))) by lra. apply Rsqr_le_abs_0. unfold Rsqr.
  assert (Y : 2 * (IZR t * IZR t) * (q * q) / 4503599627370496 <= 3 / 4 * IZR t).
  { assert (Z1 : IZR t * (q * q) <= 65536 * (131072 * 131072)) by (apply Rmult_le_compat; [lra|apply Rle_0_sqr|lra|apply Rmult_le_compat; lra]).
    replace (2 * (IZR t * IZR t) * (q * q) / 4503599627370496) with (IZR t * (2 * (IZR t * (q * q)) / 4503599627370496)) by field.
    rewrite (Rmult_comm (3 / 4)). apply Rmult_le_compat_l; lra. }
  assert (TU : IZR t <= IZR t * IZR u) by (rewrite <- (Rmult_1_r (IZR t)) at 1; apply Rmult_le_compat_l; lra).
  replace (IZR t * (q - q / 4503599627370496) * (IZR t * (q - q / 4503599627370496))) with
    (IZR t * IZR t * (q * q) - 2 * (IZR t * IZR t) * (q * q) / 4503599627370496 + Rsqr (IZR t * q / 4503599627370496)) by (unfold Rsqr; field).
  pose proof (Rle_0_sqr (IZR t * q / 4503599627370496)). rewrite Q2 in *. lra.
Qed.
