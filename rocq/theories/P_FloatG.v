(** * Distances between points with integer coordinates, in binary64 *)

From Coq Require Import Reals Lra ZArith Floats Bool Lia List.
From Verif Require Import Num FloatFuns M_LP M_Seg M_Poly M_Circle S_Geom S_Float S_FloatZ S_FloatR P_Float P_FloatZ P_FloatZ2 P_FloatR P_FloatE P_FloatE2 P_FloatX.
Import ListNotations.
Local Open Scope R_scope.

Definition kG : Z := 16777216.
Definition zSq (p q : Z * Z) : Z := ((fst p - fst q) * (fst p - fst q) + (snd p - snd q) * (snd p - snd q))%Z.

Lemma gG p : within kG p -> rep (px (gpt p)) (fst p) /\ rep (py (gpt p)) (snd p).
Proof. intros [A B]. unfold gpt. cbn [px py]. split; apply rep_ofZ; unfold lim, kG in *; lia. Qed.
Lemma sq_range p q : within kG p -> within kG q -> (0 <= zSq p q < 2 ^ 52)%Z.
Proof.
  intros [A B] [C D]. unfold zSq, kG in *.
  assert (U : forall d, (- 33554432 <= d <= 33554432 -> 0 <= d * d <= 33554432 * 33554432)%Z).
  { intros d Hd. split; [apply Z.square_nonneg|]. rewrite <- (Z.abs_square d). apply Z.mul_le_mono_nonneg; lia. }
  pose proof (U (fst p - fst q)%Z ltac:(lia)). pose proof (U (snd p - snd q)%Z ltac:(lia)). lia.
Qed.
Lemma edist_zsq p q : edist (rpt p) (rpt q) = R_sqrt.sqrt (IZR (zSq p q)).
Proof. unfold edist, rpt, zSq. cbn [px py]. f_equal. rewrite plus_IZR, !mult_IZR, !minus_IZR. unfold Rsqr. reflexivity. Qed.
Lemma distG p q : within kG p -> within kG q -> let r := distPP (N := FNum) (gpt p) (gpt q) in fin r /\ rnd (sf r) (R_sqrt.sqrt (IZR (zSq p q))).
Proof.
  intros Hp Hq r. destruct (gG p Hp) as [A B], (gG q Hq) as [C D]. pose proof (sq_range p q Hp Hq) as S. destruct Hp as [P1 P2], Hq as [Q1 Q2]. unfold kG in *.
  set (dx := (fst p - fst q)%Z). set (dy := (snd p - snd q)%Z).
  assert (Rx : rep (px (gpt p) - px (gpt q))%float dx) by (apply rep_sub; auto; unfold lim; lia).
  assert (Ry : rep (py (gpt p) - py (gpt q))%float dy) by (apply rep_sub; auto; unfold lim; lia).
  assert (S0 : zSq p q = (dx * dx + dy * dy)%Z) by reflexivity. pose proof (Z.square_nonneg dx). pose proof (Z.square_nonneg dy).
  assert (Rxx := rep_mul _ _ _ _ Rx Rx ltac:(unfold lim; lia)). assert (Ryy := rep_mul _ _ _ _ Ry Ry ltac:(unfold lim; lia)).
  assert (Rs := rep_add _ _ _ _ Rxx Ryy ltac:(unfold lim; lia)). pose proof (rep_toR _ _ Rs) as V. rewrite <- S0 in V.
  pose proof (sqrt_rnd _ (rep_fin _ _ Rs) ltac:(rewrite V; apply IZR_le; lia)) as K. rewrite V in K. split; [|exact K].
  apply big_fin with (1 := K). rewrite Rabs_right by (apply Rle_ge, sqrt_pos). apply Rle_trans with (2 ^ 53); [|apply Rle_pow; [lra|lia]].
  rewrite <- (sqrt_square (2 ^ 53)) by (apply pow_le; lra). apply sqrt_le_1_alt. apply Rle_trans with (2 ^ 53); [rewrite pow_IZR; apply IZR_le; lia|]. pose proof (pow_R1_Rle 2 53 ltac:(lra)). nra.
Qed.

(** The rounded square root of an integer compares with an integer as the exact one does. *)
Lemma gap s t : (0 <= s < t * t)%Z -> (0 < t)%Z -> R_sqrt.sqrt (IZR s) <= IZR t - / (2 * IZR t).
Proof.
  intros S T. assert (T1 : 1 <= IZR t) by (apply (IZR_le 1); lia). assert (I : 0 < / (2 * IZR t) <= / 2) by (split; [apply Rinv_0_lt_compat; lra|apply Rinv_le_contravar; lra]).
  apply Rle_trans with (R_sqrt.sqrt (Rsqr (IZR t - / (2 * IZR t)))); [|rewrite sqrt_Rsqr by lra; lra]. apply sqrt_le_1_alt.
  assert (Hs : IZR s <= IZR t * IZR t - 1) by (rewrite <- mult_IZR; change 1 with (IZR 1); rewrite <- minus_IZR; apply IZR_le; lia).
  assert (E : Rsqr (IZR t - / (2 * IZR t)) = IZR t * IZR t - 1 + Rsqr (/ (2 * IZR t))) by (unfold Rsqr; field; lra). pose proof (Rle_0_sqr (/ (2 * IZR t))). lra.
Qed.
Lemma tiny_pw : 0 < pw (-1075) <= / 1152921504606846976.
Proof.
  split; [apply pw_pos|]. apply Rle_trans with (pw (-60)); [apply pw_le; lia|]. change (-60)%Z with (- Z.of_nat 60)%Z. rewrite pw_npow. right. f_equal. rewrite pow_IZR. reflexivity.
Qed.
Lemma ulp1_val : ulp1 = / 9007199254740992.
Proof. unfold ulp1. f_equal. rewrite pow_IZR. reflexivity. Qed.
Lemma root_lt r s f t : rnd (sf r) (R_sqrt.sqrt (IZR s)) -> fin r -> (0 <= s)%Z -> rep f t -> (0 < t <= 33554432)%Z -> (r <? f)%float = (s <? t * t)%Z.
Proof.
  intros H F S Rf T. pose proof (rep_toR _ _ Rf) as V. pose proof (rep_fin _ _ Rf) as Ff. assert (T1 : 1 <= IZR t) by (apply (IZR_le 1); lia). assert (T2 : IZR t <= 33554432) by (apply (IZR_le _ 33554432); lia).
  destruct (Z.ltb_spec s (t * t)) as [L|L].
  - apply toR_lt; [exact F|exact Ff|]. rewrite V. pose proof (gap s t ltac:(lia) ltac:(lia)) as G.
    assert (I : / 67108864 <= / (2 * IZR t)) by (apply Rinv_le_contravar; lra). pose proof (sqrt_pos (IZR s)) as P.
    assert (B : Rabs (toR r - R_sqrt.sqrt (IZR s)) <= ulp1 * R_sqrt.sqrt (IZR s) + pw (-1075)) by (pose proof (rnd_err3 _ _ H F) as B; rewrite (Rabs_right (R_sqrt.sqrt _)) in B by lra; exact B).
    pose proof tiny_pw as Q. pose proof ulp1_val as U. assert (W : ulp1 * R_sqrt.sqrt (IZR s) <= ulp1 * 33554432) by (apply Rmult_le_compat_l; [pose proof ulp1_pos; lra|]; pose proof (Rinv_0_lt_compat (2 * IZR t) ltac:(lra)); lra).
    rewrite U in W at 2. pose proof (Rle_abs (toR r - R_sqrt.sqrt (IZR s))). lra.
  - apply toR_ge; [exact F|exact Ff|]. rewrite V. rewrite <- V. apply rnd_ge with (1 := H); [exact F|exact Ff|]. rewrite V. rewrite <- (sqrt_square (IZR t)) by lra. apply sqrt_le_1_alt. rewrite <- mult_IZR. now apply IZR_le.
Qed.
Lemma root_err r s : rnd (sf r) (R_sqrt.sqrt (IZR s)) -> fin r -> (0 <= s < 2 ^ 52)%Z -> Rabs (toR r - R_sqrt.sqrt (IZR s)) <= / 100000000.
Proof.
  intros H F S. pose proof (rnd_err3 _ _ H F) as B. pose proof (sqrt_pos (IZR s)) as P. rewrite (Rabs_right (R_sqrt.sqrt _)) in B by lra.
  assert (L : R_sqrt.sqrt (IZR s) <= 67108864).
  { rewrite <- (sqrt_square 67108864) by lra. apply sqrt_le_1_alt. rewrite <- mult_IZR. apply IZR_le. lia. }
  pose proof tiny_pw as Q. assert (W : ulp1 * R_sqrt.sqrt (IZR s) <= ulp1 * 67108864) by (apply Rmult_le_compat_l; [pose proof ulp1_pos; lra|exact L]). rewrite ulp1_val in W at 2. lra.
Qed.
(** A perfect square: the root is exact. *)
Lemma root_exact r t : rnd (sf r) (R_sqrt.sqrt (IZR (t * t))) -> fin r -> (0 <= t < 2 ^ 53)%Z -> toR r = IZR t.
Proof.
  intros H F T. rewrite mult_IZR, sqrt_square in H by (apply IZR_le; lia). rewrite (exact_op r t 0); [rewrite pw_0; ring|rewrite pw_0, Rmult_1_r; exact H|exact F|lia|lia].
Qed.
Lemma gap_up s t : (t * t < s)%Z -> (0 < t)%Z -> IZR t + / (2 * IZR t + 1) <= R_sqrt.sqrt (IZR s).
Proof.
  intros S T. assert (T1 : 1 <= IZR t) by (apply (IZR_le 1); lia). set (g := / (2 * IZR t + 1)). assert (I : 0 < g) by (apply Rinv_0_lt_compat; lra). assert (G1 : g * (2 * IZR t + 1) = 1) by (unfold g; field; lra).
  assert (G2 : g <= 1) by nra. rewrite <- (sqrt_Rsqr (IZR t + g)) by lra. apply sqrt_le_1_alt.
  assert (Hs : IZR t * IZR t + 1 <= IZR s) by (rewrite <- mult_IZR; change 1 with (IZR 1); rewrite <- plus_IZR; apply IZR_le; lia). unfold Rsqr. nra.
Qed.
Lemma fin_abs x : fin x -> fin (PrimFloat.abs x).
Proof. rewrite !fin_sf, FloatAxioms.abs_spec. destruct (sf x); auto. Qed.
Lemma toR_abs x : toR (PrimFloat.abs x) = Rabs (toR x).
Proof.
  unfold toR. rewrite FloatAxioms.abs_spec. destruct (Prim2SF x) as [| | |s m e]; cbn [SFabs]; rewrite ?Rabs_R0; auto.
  assert (A : 0 < powerRZ 2 e) by (apply powerRZ_lt; lra). assert (B : 0 < IZR (Z.pos m)) by (apply (IZR_lt 0); lia). rewrite !Rabs_mult, (Rabs_right (powerRZ 2 e)), (Rabs_right (IZR (Z.pos m))) by lra.
  destruct s; [rewrite (Rabs_left (-1)) by lra; ring|rewrite Rabs_R1; ring].
Qed.
Lemma root_edge r s f t d : rnd (sf r) (R_sqrt.sqrt (IZR s)) -> fin r -> (t * t <= s < 2 ^ 52)%Z -> rep f t -> (0 < t <= 33554432)%Z ->
  fin d -> 0 < toR d <= / 1000000000 -> (PrimFloat.abs (r - f) <? d)%float = (s =? t * t)%Z.
Proof.
  intros H F S Rf T Fd D. pose proof (rep_toR _ _ Rf) as V. pose proof (rep_fin _ _ Rf) as Ff. assert (T1 : 1 <= IZR t) by (apply (IZR_le 1); lia). assert (T2 : IZR t <= 33554432) by (apply (IZR_le _ 33554432); lia).
  assert (L : R_sqrt.sqrt (IZR s) <= 67108864) by (rewrite <- (sqrt_square 67108864) by lra; apply sqrt_le_1_alt; rewrite <- mult_IZR; apply IZR_le; lia).
  pose proof (root_err r s H F ltac:(nia)) as E. pose proof (sqrt_pos (IZR s)) as P.
  assert (E1 : toR r <= 67108865) by (pose proof (Rle_abs (toR r - R_sqrt.sqrt (IZR s))); lra).
  assert (E2 : IZR t <= toR r) by (rewrite <- V; apply rnd_ge with (1 := H); [exact F|exact Ff|]; rewrite V, <- (sqrt_square (IZR t)) by lra; apply sqrt_le_1_alt; rewrite <- mult_IZR; apply IZR_le; lia).
  pose proof (sub_rnd r f F Ff) as K. assert (Fs : fin (r - f)%float).
  { apply big_fin with (1 := K). rewrite V, Rabs_right by lra. apply Rle_trans with (2 ^ 27); [|apply Rle_pow; [lra|lia]]. rewrite pow_IZR. change (2 ^ Z.of_nat 27)%Z with 134217728%Z. lra. }
  assert (Fa : fin (PrimFloat.abs (r - f))) by (apply fin_abs; exact Fs). assert (Va : toR (PrimFloat.abs (r - f)) = Rabs (toR (r - f)%float)) by (apply toR_abs).
  destruct (Z.eqb_spec s (t * t)) as [Q|Q].
  - apply toR_lt; [exact Fa|exact Fd|]. rewrite Va. subst s. pose proof (root_exact r t H F ltac:(lia)) as X.
    pose proof (sub_err r f F Ff Fs) as B. rewrite V, X, Rminus_eq_0, Rabs_R0, Rmult_0_r in B. rewrite Rminus_0_r in B. lra.
  - apply toR_ge; [exact Fa|exact Fd|]. rewrite Va. pose proof (gap_up s t ltac:(lia) ltac:(lia)) as G.
    assert (I : / 67108865 <= / (2 * IZR t + 1)) by (apply Rinv_le_contravar; lra).
    pose proof (rnd_err3 _ _ H F) as B. rewrite (Rabs_right (R_sqrt.sqrt _)) in B by lra. pose proof tiny_pw as Tp. rewrite ulp1_val in B.
    assert (M : / 100000000 <= toR r - IZR t) by (pose proof (Rle_abs (- (toR r - R_sqrt.sqrt (IZR s)))) as A; rewrite Rabs_Ropp in A; lra).
    pose proof (sub_err r f F Ff Fs) as C. rewrite V in C. rewrite (Rabs_right (toR r - IZR t)), ulp1_val in C by lra.
    pose proof (Rle_abs (- (toR (r - f)%float - (toR r - IZR t)))) as A. rewrite Rabs_Ropp in A. pose proof (Rle_abs (toR (r - f)%float)). lra.
Qed.
