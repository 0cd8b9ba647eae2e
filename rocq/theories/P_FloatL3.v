(** * getPointAt in binary64 (proofs) *)

From Coq Require Import Reals Lra ZArith Floats Bool Lia List.
From Verif Require Import Num FloatFuns M_LP M_Seg S_Geom S_Seg S_Float S_FloatZ S_FloatR S_FloatL P_LP P_LP2 P_Float P_FloatZ P_FloatZ2 P_FloatR P_FloatE P_FloatE2 P_FloatL P_FloatL2.
Import ListNotations.
Local Open Scope R_scope.

(** ** Distances, absolute error *)

Lemma sqrt_plus a b : 0 <= a -> 0 <= b -> R_sqrt.sqrt (a + b) <= R_sqrt.sqrt a + R_sqrt.sqrt b.
Proof.
  intros Ha Hb. pose proof (sqrt_pos a). pose proof (sqrt_pos b). rewrite <- (sqrt_square (R_sqrt.sqrt a + R_sqrt.sqrt b)) by lra. apply sqrt_le_1_alt.
  pose proof (sqrt_sqrt a Ha). pose proof (sqrt_sqrt b Hb). nra.
Qed.
Lemma sqrt_abs u t S Q D : 0 <= u <= / 100 -> 0 <= t -> 0 <= D -> Q = D * D -> 0 <= S -> Rabs (S - Q) <= 6 * u * Q + t -> Rabs (R_sqrt.sqrt S - D) <= 4 * u * D + R_sqrt.sqrt t.
Proof.
  intros U Ht HD -> HS E. assert (E1 : S - D * D <= 6 * u * (D * D) + t /\ D * D - S <= 6 * u * (D * D) + t) by (revert E; unfold Rabs; destruct (Rcase_abs _); lra). destruct E1 as [E1 E2].
  set (q := D * D) in *. assert (Pq : 0 <= q) by (unfold q; nra). pose proof (sqrt_pos S). pose proof (sqrt_pos t).
  assert (L : R_sqrt.sqrt S <= (1 + 4 * u) * D + R_sqrt.sqrt t).
  { apply Rle_trans with (R_sqrt.sqrt ((1 + 4 * u) * D * ((1 + 4 * u) * D) + t)).
    - apply sqrt_le_1_alt. replace ((1 + 4 * u) * D * ((1 + 4 * u) * D)) with ((1 + 4 * u) * (1 + 4 * u) * q) by (unfold q; ring). assert (1 + 6 * u <= (1 + 4 * u) * (1 + 4 * u)) by nra. assert ((1 + 6 * u) * q <= (1 + 4 * u) * (1 + 4 * u) * q) by (apply Rmult_le_compat_r; lra). lra.
    - eapply Rle_trans; [apply sqrt_plus; [nra|exact Ht]|]. rewrite sqrt_square by nra. lra. }
  assert (G : (1 - 4 * u) * D <= R_sqrt.sqrt S + R_sqrt.sqrt t).
  { eapply Rle_trans; [|apply sqrt_plus; assumption]. rewrite <- (sqrt_square ((1 - 4 * u) * D)) by nra. apply sqrt_le_1_alt.
    replace ((1 - 4 * u) * D * ((1 - 4 * u) * D)) with ((1 - 4 * u) * (1 - 4 * u) * q) by (unfold q; ring). assert ((1 - 4 * u) * (1 - 4 * u) <= 1 - 6 * u) by nra. assert ((1 - 4 * u) * (1 - 4 * u) * q <= (1 - 6 * u) * q) by (apply Rmult_le_compat_r; lra). lra. }
  unfold Rabs. destruct (Rcase_abs _); lra.
Qed.

Lemma sq_abs x y : modest x -> modest y -> let d := (x - y)%float in
  fin (d * d)%float /\ Rabs (toR (d * d)%float - (toR x - toR y) * (toR x - toR y)) <= 4 * ulp1 * ((toR x - toR y) * (toR x - toR y)) + eta /\ 0 <= toR (d * d)%float <= 2 ^ 1006.
Proof.
  intros [Fx Bx] [Fy By]. cbv zeta. destruct (diff_mod x y Fx Fy Bx By) as (F & E & B). set (d := (x - y)%float) in *.
  destruct (prod_mod d d 502 F F ltac:(lia) B B) as (F2 & E2 & B2). split; [exact F2|].
  pose proof (rel_prod ulp1 _ _ _ _ _ _ ltac:(pose proof ulp1_pos; lra) E E E2) as R. rewrite (Rabs_right ((toR x - toR y) * (toR x - toR y))) in R by (apply Rle_ge, Rle_0_sqr). split; [exact R|].
  split; [apply (rnd_ge (d * d)%float _ 0%float (mul_rnd _ _ F F) F2 eq_refl); change (toR 0%float) with 0; apply Rle_0_sqr|]. change (2 * 502 + 2)%nat with 1006%nat in B2. revert B2. unfold Rabs. destruct (Rcase_abs _); lra.
Qed.

Lemma dist_abs p q : moderate p -> moderate q ->
  fin (distPP (N := FNum) p q) /\ Rabs (toR (distPP (N := FNum) p q) - edist (toRp p) (toRp q)) <= 6 * ulp1 * edist (toRp p) (toRp q) + / 2 ^ 500.
Proof.
  intros [[Fx1 Fy1] [Bx1 By1]] [[Fx2 Fy2] [Bx2 By2]]. unfold distPP, hypot, edist, toRp. cbn [nsub nmul nadd nsqrt FNum px py]. unfold Rsqr.
  destruct (sq_abs (px p) (px q)) as (F1 & E1 & P1 & H1); try (split; assumption). destruct (sq_abs (py p) (py q)) as (F2 & E2 & P2 & H2); try (split; assumption).
  set (a := ((px p - px q) * (px p - px q))%float) in *. set (b := ((py p - py q) * (py p - py q))%float) in *.
  set (A := (toR (px p) - toR (px q)) * (toR (px p) - toR (px q))) in *. set (B := (toR (py p) - toR (py q)) * (toR (py p) - toR (py q))) in *.
  assert (PA : 0 <= A) by apply Rle_0_sqr. assert (PB : 0 <= B) by apply Rle_0_sqr. pose proof ulp1_pos as U. pose proof eta_small as Et.
  assert (K : 1024 * 2 ^ 1006 = 2 ^ 1016) by (change 1016%nat with (10 + 1006)%nat; rewrite pow_add; lra). assert (K2 : 2 ^ 1016 <= 2 ^ 1023) by (apply pw2_le; lia). assert (K3 : 1 <= 2 ^ 1006) by (apply pow_R1_Rle; lra).
  assert (Fs : fin (a + b)%float) by (apply big_fin with (1 := add_rnd a b F1 F2); rewrite Rabs_right by lra; lra).
  pose proof (add_err a b F1 F2 Fs) as Es. rewrite (Rabs_right (toR a + toR b)) in Es by lra. set (s := (a + b)%float) in *.
  assert (Ps : 0 <= toR s) by (apply (rnd_ge s _ 0%float (add_rnd _ _ F1 F2) Fs eq_refl); change (toR 0%float) with 0; lra).
  assert (US : ulp1 * (toR a + toR b) <= toR a + toR b) by (rewrite <- (Rmult_1_l (toR a + toR b)) at 2; apply Rmult_le_compat_r; lra).
  assert (Bs : toR s <= 2 ^ 1016) by (revert Es; unfold Rabs; destruct (Rcase_abs _); lra).
  assert (Ds : Rabs (toR s - (A + B)) <= 6 * ulp1 * (A + B) + 4 * eta).
  { assert (E3 : Rabs (toR a + toR b - (A + B)) <= 4 * ulp1 * (A + B) + 2 * eta).
    { replace (toR a + toR b - (A + B)) with ((toR a - A) + (toR b - B)) by ring. eapply Rle_trans; [apply Rabs_triang|]. lra. }
    assert (toR a + toR b <= A + B + 4 * ulp1 * (A + B) + 2 * eta) by (revert E3; unfold Rabs; destruct (Rcase_abs _); lra).
    replace (toR s - (A + B)) with ((toR s - (toR a + toR b)) + (toR a + toR b - (A + B))) by ring. eapply Rle_trans; [apply Rabs_triang|].
    assert (ulp1 * (toR a + toR b) <= ulp1 * (A + B + 4 * ulp1 * (A + B) + 2 * eta)) by (apply Rmult_le_compat_l; lra).
    assert (ulp1 * (4 * ulp1 * (A + B)) <= ulp1 * (1 * (A + B))) by (apply Rmult_le_compat_l; [lra|]; apply Rmult_le_compat_r; lra).
    assert (ulp1 * eta <= / 2 * eta) by (apply Rmult_le_compat_r; lra). lra. }
  set (D := R_sqrt.sqrt (A + B)) in *. assert (DD : D * D = A + B) by (apply sqrt_sqrt; lra). assert (PD : 0 <= D) by apply sqrt_pos.
  pose proof (sqrt_abs ulp1 (4 * eta) (toR s) (A + B) D ltac:(lra) ltac:(lra) PD (eq_sym DD) Ps Ds) as G.
  assert (T : R_sqrt.sqrt (4 * eta) <= / 2 ^ 510).
  { rewrite <- (sqrt_square (/ 2 ^ 510)) by (left; apply pinv_pos). apply sqrt_le_1_alt. rewrite pinv_mult. assert (/ 2 ^ 1073 = 4 * / 2 ^ 1075) by (change 1075%nat with (2 + 1073)%nat; rewrite pow_add, Rinv_mult; pose proof (pinv_pos 1073); lra).
    assert (/ 2 ^ 1073 <= / 2 ^ (510 + 510)) by (apply pinv; lia). lra. }
  assert (SS : 0 <= R_sqrt.sqrt (toR s) <= 2 ^ 1016).
  { split; [apply sqrt_pos|]. assert (1 <= 2 ^ 1016) by (apply pow_R1_Rle; lra). rewrite <- (sqrt_square (2 ^ 1016)) by lra. apply sqrt_le_1_alt. nra. }
  pose proof (sqrt_rnd s Fs Ps) as R. assert (Fr : fin (PrimFloat.sqrt s)) by (apply big_fin with (1 := R); rewrite Rabs_right by lra; lra).
  split; [exact Fr|]. pose proof (rnd_err3 _ _ R Fr) as Er. fold eta in Er. rewrite (Rabs_right (R_sqrt.sqrt _)) in Er by lra.
  assert (R_sqrt.sqrt (toR s) <= D + 4 * ulp1 * D + R_sqrt.sqrt (4 * eta)) by (revert G; unfold Rabs; destruct (Rcase_abs _); lra).
  assert (ulp1 * R_sqrt.sqrt (toR s) <= ulp1 * (D + 4 * ulp1 * D + R_sqrt.sqrt (4 * eta))) by (apply Rmult_le_compat_l; lra).
  assert (ulp1 * (4 * ulp1 * D) <= ulp1 * (/ 2 * D)) by (apply Rmult_le_compat_l; [lra|]; apply Rmult_le_compat_r; lra).
  pose proof (sqrt_pos (4 * eta)). assert (ulp1 * R_sqrt.sqrt (4 * eta) <= 1 * R_sqrt.sqrt (4 * eta)) by (apply Rmult_le_compat_r; lra).
  assert (J : / 2 ^ 510 = / 2 ^ 500 * / 2 ^ 10) by (rewrite pinv_mult; reflexivity). assert (/ 2 ^ 10 <= / 1000) by (apply Rinv_le_contravar; lra). pose proof (pinv_pos 500).
  assert (/ 2 ^ 500 * / 2 ^ 10 <= / 2 ^ 500 * / 1000) by (apply Rmult_le_compat_l; lra). assert (/ 2 ^ 1075 <= / 2 ^ 510) by (apply pinv; lia). assert (0 <= ulp1 * D) by (apply Rmult_le_pos; lra).
  replace (toR (PrimFloat.sqrt s) - D) with ((toR (PrimFloat.sqrt s) - R_sqrt.sqrt (toR s)) + (R_sqrt.sqrt (toR s) - D)) by ring. eapply Rle_trans; [apply Rabs_triang|]. lra.
Qed.

(** ** The two points at a given distance *)

Lemma norm_f a b al be : fin a -> fin b -> al * al + be * be = 1 -> Rabs (toR a - al) <= 82 / 10 * ulp1 -> Rabs (toR b - be) <= 82 / 10 * ulp1 ->
  let h := PrimFloat.sqrt (a * a + b * b)%float in fin h /\ Rabs (toR h - 1) <= 16 * ulp1.
Proof.
  intros Fa Fb E1 Ea Eb. cbv zeta. pose proof u_range as U. pose proof eta_ulp as N1.
  assert (A1 : Rabs al <= 1) by (assert (Rabs al * Rabs al <= 1) by (rewrite <- Rabs_mult, Rabs_right by nra; nra); pose proof (Rabs_pos al); nra).
  assert (B1 : Rabs be <= 1) by (assert (Rabs be * Rabs be <= 1) by (rewrite <- Rabs_mult, Rabs_right by nra; nra); pose proof (Rabs_pos be); nra).
  assert (Ta : Rabs (toR a) <= 2) by (pose proof (abs_diff _ _ _ Ea); lra). assert (Tb : Rabs (toR b) <= 2) by (pose proof (abs_diff _ _ _ Eb); lra).
  assert (K : 1024 <= 2 ^ 1000) by (replace 1024 with (2 ^ 10) by lra; apply pw2_le; lia).
  assert (B2 : forall a c, Rabs a <= c -> Rabs (a * a) <= c * c) by (intros x c Hx; rewrite Rabs_mult; apply Rmult_le_compat; try apply Rabs_pos; assumption).
  assert (UB : forall y, 0 <= y -> ulp1 * y <= y) by (intros y Hy; rewrite <- (Rmult_1_l y) at 2; apply Rmult_le_compat_r; lra).
  destruct (op_err _ _ (mul_rnd _ _ Fa Fa) ltac:(pose proof (B2 _ _ Ta); lra)) as [G1 S1]. destruct (op_err _ _ (mul_rnd _ _ Fb Fb) ltac:(pose proof (B2 _ _ Tb); lra)) as [G2 S2].
  set (a2 := (a * a)%float) in *. set (b2 := (b * b)%float) in *.
  assert (Z1 : Rabs (toR a2) <= 9) by (pose proof (abs_diff _ _ _ S1); pose proof (UB _ (Rabs_pos (toR a * toR a))); pose proof (B2 _ _ Ta); lra).
  assert (Z2 : Rabs (toR b2) <= 9) by (pose proof (abs_diff _ _ _ S2); pose proof (UB _ (Rabs_pos (toR b * toR b))); pose proof (B2 _ _ Tb); lra).
  assert (Z3 : Rabs (toR a2 + toR b2) <= 18) by (pose proof (Rabs_triang (toR a2) (toR b2)); lra).
  destruct (op_err _ _ (add_rnd _ _ G1 G2) ltac:(lra)) as [G3 S3]. set (ss := (a2 + b2)%float) in *.
  assert (Z4 : Rabs (toR ss) <= 37) by (pose proof (abs_diff _ _ _ S3); pose proof (UB _ (Rabs_pos (toR a2 + toR b2))); lra).
  assert (Pa2 : 0 <= toR a2) by (apply (rnd_ge a2 _ 0%float (mul_rnd _ _ Fa Fa) G1 eq_refl); change (toR 0%float) with 0; nra).
  assert (Pb2 : 0 <= toR b2) by (apply (rnd_ge b2 _ 0%float (mul_rnd _ _ Fb Fb) G2 eq_refl); change (toR 0%float) with 0; nra).
  assert (Pss : 0 <= toR ss) by (apply (rnd_ge ss _ 0%float (add_rnd _ _ G1 G2) G3 eq_refl); change (toR 0%float) with 0; lra).
  assert (Z5 : Rabs (R_sqrt.sqrt (toR ss)) <= 37).
  { rewrite Rabs_right by (apply Rle_ge, sqrt_pos). rewrite Rabs_right in Z4 by lra. rewrite <- (sqrt_square 37) by lra. apply sqrt_le_1_alt. lra. }
  destruct (op_err _ _ (sqrt_rnd _ G3 Pss) ltac:(lra)) as [G4 S4]. split; [exact G4|].
  exact (norm_err ulp1 eta al be _ _ _ _ _ _ U N1 E1 Ea Eb S1 S2 S3 Pss S4).
Qed.

(** One coordinate: x plus or minus b.(d/h). *)
Lemma coord_f x b d h be M : fin x -> fin b -> fin d -> fin h -> rangeM M -> Rabs (toR x) <= M -> Rabs be <= 1 -> Rabs (toR b - be) <= 82 / 10 * ulp1 -> 0 <= toR d <= 3 * M -> Rabs (toR h - 1) <= 16 * ulp1 ->
  let m := (b * (d / h))%float in
  (fin (x + m)%float /\ Rabs (toR (x + m)%float - (toR x + be * toR d)) <= 84 * ulp1 * M) /\ (fin (x - m)%float /\ Rabs (toR (x - m)%float - (toR x - be * toR d)) <= 84 * ulp1 * M).
Proof.
  intros Fx Fb Fd Fh RM Bx Bb Eb Hd Hh. cbv zeta. pose proof u_range as U. pose proof eta_ulp as N1. destruct (eta_M M RM) as [N2 _]. destruct RM as [ML MH]. pose proof (pinv_pos 101). assert (PM : 0 < M) by lra.
  assert (K : 1024 * 2 ^ 100 = 2 ^ 110) by (change 110%nat with (10 + 100)%nat; rewrite pow_add; lra). assert (K2 : 2 ^ 110 <= 2 ^ 1000) by (apply pw2_le; lia).
  assert (uM : 0 < ulp1 * M) by (apply Rmult_lt_0_compat; lra). assert (uMM : ulp1 * M <= / 1000000 * M) by (apply Rmult_le_compat_r; lra).
  assert (Lh : 999 / 1000 <= toR h) by (revert Hh; unfold Rabs; destruct (Rcase_abs _); lra).
  set (k := toR d / toR h). assert (Ek : k * toR h = toR d) by (unfold k; field; lra). assert (Pk : 0 <= k) by (unfold k; apply Rmult_le_pos; [lra|left; apply Rinv_0_lt_compat; lra]).
  assert (Bk : k <= 1002 / 1000 * toR d) by (assert (k * (999 / 1000) <= k * toR h) by (apply Rmult_le_compat_l; lra); lra).
  assert (Dk : Rabs (k - toR d) <= 16 * ulp1 * k).
  { rewrite <- Ek. replace (k - k * toR h) with (k * - (toR h - 1)) by ring. rewrite Rabs_mult, Rabs_Ropp, (Rabs_right k) by lra. rewrite Rmult_comm. apply Rmult_le_compat_r; lra. }
  destruct (op_err _ _ (div_rnd d h Fd Fh ltac:(lra)) ltac:(fold k; rewrite Rabs_right by lra; lra)) as [Fc Ec]. fold k in Ec. rewrite (Rabs_right k) in Ec by lra. set (c := (d / h)%float) in *.
  assert (uk : ulp1 * k <= ulp1 * (1002 / 1000 * (3 * M))) by (apply Rmult_le_compat_l; lra).
  assert (Gc : Rabs (toR c - toR d) <= 512 / 10 * (ulp1 * M)).
  { replace (toR c - toR d) with ((toR c - k) + (k - toR d)) by ring. eapply Rle_trans; [apply Rabs_triang|]. lra. }
  assert (Bc : Rabs (toR c) <= 301 / 100 * M) by (pose proof (abs_diff _ _ _ Gc) as A; rewrite (Rabs_right (toR d)) in A by lra; lra).
  assert (Gp : Rabs (toR b * toR c - be * toR d) <= 76 * (ulp1 * M)).
  { replace (toR b * toR c - be * toR d) with ((toR b - be) * toR c + be * (toR c - toR d)) by ring. eapply Rle_trans; [apply Rabs_triang|]. rewrite !Rabs_mult.
    assert (Rabs (toR b - be) * Rabs (toR c) <= 82 / 10 * ulp1 * (301 / 100 * M)) by (apply Rmult_le_compat; try apply Rabs_pos; assumption).
    assert (Rabs be * Rabs (toR c - toR d) <= 1 * (512 / 10 * (ulp1 * M))) by (apply Rmult_le_compat; try apply Rabs_pos; assumption). lra. }
  assert (Bd : Rabs (be * toR d) <= 3 * M) by (rewrite Rabs_mult, (Rabs_right (toR d)) by lra; apply Rle_trans with (1 * (3 * M)); [apply Rmult_le_compat; try apply Rabs_pos; lra|lra]).
  assert (Bp : Rabs (toR b * toR c) <= 301 / 100 * M) by (pose proof (abs_diff _ _ _ Gp); lra).
  destruct (op_err _ _ (mul_rnd b c Fb Fc) ltac:(lra)) as [Fm Em]. set (m := (b * c)%float) in *.
  assert (um : ulp1 * Rabs (toR b * toR c) <= ulp1 * (301 / 100 * M)) by (apply Rmult_le_compat_l; lra).
  assert (Gm : Rabs (toR m - be * toR d) <= 795 / 10 * (ulp1 * M)).
  { replace (toR m - be * toR d) with ((toR m - toR b * toR c) + (toR b * toR c - be * toR d)) by ring. eapply Rle_trans; [apply Rabs_triang|]. lra. }
  assert (Bm : Rabs (toR m) <= 302 / 100 * M) by (pose proof (abs_diff _ _ _ Gm); lra).
  assert (X1 : Rabs (toR x + toR m) <= 403 / 100 * M) by (pose proof (Rabs_triang (toR x) (toR m)); lra).
  assert (X2 : Rabs (toR x - toR m) <= 403 / 100 * M) by (pose proof (Rabs_triang (toR x) (- toR m)) as T; rewrite Rabs_Ropp in T; unfold Rminus; lra).
  destruct (op_err _ _ (add_rnd x m Fx Fm) ltac:(lra)) as [F1 E1]. destruct (op_err _ _ (sub_rnd x m Fx Fm) ltac:(lra)) as [F2 E2].
  assert (ulp1 * Rabs (toR x + toR m) <= ulp1 * (403 / 100 * M)) by (apply Rmult_le_compat_l; lra). assert (ulp1 * Rabs (toR x - toR m) <= ulp1 * (403 / 100 * M)) by (apply Rmult_le_compat_l; lra).
  split; (split; [assumption|]).
  - replace (toR (x + m)%float - (toR x + be * toR d)) with ((toR (x + m)%float - (toR x + toR m)) + (toR m - be * toR d)) by ring. eapply Rle_trans; [apply Rabs_triang|]. lra.
  - replace (toR (x - m)%float - (toR x - be * toR d)) with ((toR (x - m)%float - (toR x - toR m)) + - (toR m - be * toR d)) by ring. eapply Rle_trans; [apply Rabs_triang|]. rewrite Rabs_Ropp. lra.
Qed.

(** ** The choice between the two *)

Lemma edist_coord a b e : 0 <= e -> Rabs (px a - px b) <= e -> Rabs (py a - py b) <= e -> edist a b <= 3 / 2 * e.
Proof.
  intros He Hx Hy. unfold edist. rewrite <- (sqrt_square (3 / 2 * e)) by lra. apply sqrt_le_1_alt.
  assert (forall z, Rabs z <= e -> Rsqr z <= e * e) by (intros z Hz; rewrite Rsqr_abs; unfold Rsqr; apply Rmult_le_compat; try apply Rabs_pos; assumption).
  pose proof (H _ Hx). pose proof (H _ Hy). nra.
Qed.
Lemma along_ahead p q d : 0 < edist p q -> edist (along p q (d / edist p q)) q = Rabs (edist p q - d).
Proof.
  intros P. set (D := edist p q) in *. assert (ED : D * D = Rsqr (px p - px q) + Rsqr (py p - py q)) by (unfold D, edist; apply sqrt_sqrt; apply Rplus_le_le_0_compat; apply Rle_0_sqr).
  unfold edist, along. cbn [px py]. unfold Rsqr in *.
  replace (_ + _) with ((D - d) * (D - d)). { change (R_sqrt.sqrt (Rsqr (D - d)) = Rabs (D - d)). apply sqrt_Rsqr_abs. }
  set (x := px p - px q) in *. set (y := py p - py q) in *.
  replace (px p + d / D * (px q - px p) - px q) with (x * (1 - d / D)) by (unfold x; ring). replace (py p + d / D * (py q - py p) - py q) with (y * (1 - d / D)) by (unfold y; ring).
  replace (x * (1 - d / D) * (x * (1 - d / D)) + y * (1 - d / D) * (y * (1 - d / D))) with ((x * x + y * y) * ((1 - d / D) * (1 - d / D))) by ring. rewrite <- ED. field. lra.
Qed.
Lemma along_two p q t u : edist (along p q t) (along p q u) = Rabs (t - u) * edist p q.
Proof.
  unfold edist, along. cbn [px py]. rewrite <- sqrt_Rsqr_abs. rewrite <- sqrt_mult by (try apply Rle_0_sqr; apply Rplus_le_le_0_compat; apply Rle_0_sqr). f_equal. unfold Rsqr. ring.
Qed.

Lemma pick (q G B c1 c2 r : pt R) D d e k f1 f2 : edist q G = Rabs (D - d) -> edist q B = D + d -> edist B G = 2 * d -> 0 <= d -> edist c1 G <= e -> edist c2 B <= e ->
  Rabs (f1 - edist q c1) <= k -> Rabs (f2 - edist q c2) <= k -> e + k < D -> (r = c1 \/ r = c2 /\ f2 <= f1) -> edist r G <= e + 2 * (e + k).
Proof.
  intros EG EB BG Pd H1 H2 F1 F2 HD [->|[-> H]].
  - pose proof (edist_pos c1 G). pose proof (Rabs_pos (f1 - edist q c1)). lra.
  - pose proof (edist_triang q G c1) as T1. rewrite (edist_sym G c1) in T1. pose proof (edist_triang q c2 B) as T2. pose proof (edist_triang c2 B G) as T3.
    assert (X1 : f1 <= edist q c1 + k) by (revert F1; unfold Rabs; destruct (Rcase_abs _); lra). assert (X2 : edist q c2 <= f2 + k) by (revert F2; unfold Rabs; destruct (Rcase_abs _); lra).
    assert (X3 : Rabs (D - d) <= D + d /\ (d <= D -> Rabs (D - d) = D - d) /\ (D < d -> Rabs (D - d) = d - D)) by (pose proof (edist_pos c1 G); pose proof (Rabs_pos (f1 - edist q c1)); unfold Rabs; destruct (Rcase_abs _); repeat split; intros; lra). destruct X3 as (X3 & X4 & X5).
    destruct (Rle_dec d D) as [L|L]; [specialize (X4 L)|specialize (X5 ltac:(lra))]; lra.
Qed.

Lemma pointAt_f th s d M : M <= 2 ^ 100 -> inBox M (sA s) -> inBox M (sB s) -> notTinyP (sA s) (sB s) -> thrF th -> clearSlope th (sA s) (sB s) ->
  ptEq (N := FNum) th (sA s) (sB s) = false -> 512 * ulp1 * M <= edist (toRp (sA s)) (toRp (sB s)) -> lineErr M (edist (toRp (sA s)) (toRp (sB s))) < toR (nullDistance th) ->
  0 < edist (toRp (sA s)) (toRp (sB s)) -> fin d -> 0 <= toR d <= 3 * M ->
  exists r, svPointAt (N := FNum) th s d = Ok r /\ finP r /\ edist (toRp r) (along (toRp (sA s)) (toRp (sB s)) (toR d / edist (toRp (sA s)) (toRp (sB s)))) <= 512 * ulp1 * M.
Proof.
  destruct s as [p q]. cbn [sA sB]. intros HM Ip Iq T Th Hs Ne HD HL PD Fd Hd. destruct (lineOf_f th p q M HM Ip Iq T Th Hs Ne PD) as (l & El & Il).
  destruct (lineDist_of p q M l p HM Ip Iq T PD Il Ip) as [Fl Dl]. destruct (edist_pos_M p q M HM Ip Iq T PD) as [RM _].
  assert (Z : distLine (toRp p) (toRp q) (toRp p) = 0) by (unfold distLine, cross3, Rdiv; match goal with |- Rabs ?x * _ = 0 => replace x with 0 by ring end; now rewrite Rabs_R0, Rmult_0_l).
  destruct Th as (Fn & _). unfold svPointAt. change (@nZ _ FNum 0) with 0%float. cbn [nltb FNum].
  replace (d <? 0)%float with false by (symmetry; apply toR_ge; [assumption|reflexivity|]; change (toR 0%float) with 0; lra).
  unfold svLine. cbn [sA sB]. rewrite El. cbn [bind]. unfold getPoints. cbn [nltb FNum]. replace (nullDistance th <? lineDist (N := FNum) l p)%float with false by (symmetry; apply toR_ge; [assumption|assumption|]; rewrite Z in Dl; revert Dl; unfold Rabs; destruct (Rcase_abs _); lra).
  cbn [bind]. destruct Il as (Fa & Fb & Fc & s & Ss & Ea & Eb & _). set (D := edist (toRp p) (toRp q)) in *.
  set (al := s * ((toR (py p) - toR (py q)) / D)) in *. set (be := s * ((toR (px q) - toR (px p)) / D)) in *.
  assert (ED : D * D = (toR (px p) - toR (px q)) * (toR (px p) - toR (px q)) + (toR (py p) - toR (py q)) * (toR (py p) - toR (py q))).
  { unfold D, edist, toRp. cbn [px py]. unfold Rsqr. apply sqrt_sqrt. apply Rplus_le_le_0_compat; apply Rle_0_sqr. }
  assert (S2 : s * s = 1) by (destruct Ss as [->| ->]; ring).
  assert (E1 : al * al + be * be = 1).
  { unfold al, be. transitivity (s * s * (((toR (px p) - toR (px q)) * (toR (px p) - toR (px q)) + (toR (py p) - toR (py q)) * (toR (py p) - toR (py q))) / (D * D))); [field; lra|]. rewrite <- ED, S2. field. lra. }
  destruct (norm_f (la l) (lb l) al be Fa Fb E1 Ea Eb) as [Fh Eh]. set (h := PrimFloat.sqrt (la l * la l + lb l * lb l)%float) in *.
  assert (A1 : Rabs al <= 1) by (assert (Rabs al * Rabs al <= 1) by (rewrite <- Rabs_mult, Rabs_right by (apply Rle_ge, Rle_0_sqr); pose proof (Rle_0_sqr be); unfold Rsqr in *; lra); pose proof (Rabs_pos al); nra).
  assert (B1 : Rabs be <= 1) by (assert (Rabs be * Rabs be <= 1) by (rewrite <- Rabs_mult, Rabs_right by (apply Rle_ge, Rle_0_sqr); pose proof (Rle_0_sqr al); unfold Rsqr in *; lra); pose proof (Rabs_pos be); nra).
  destruct Ip as [[Fpx Fpy] [Bx By]]. destruct Iq as [[Fqx Fqy] [Cx Cy]].
  destruct (coord_f (px p) (lb l) d h be M Fpx Fb Fd Fh RM Bx B1 Eb Hd Eh) as [[Fx1 Ex1] [Fx2 Ex2]]. destruct (coord_f (py p) (la l) d h al M Fpy Fa Fd Fh RM By A1 Ea Hd Eh) as [[Fy1 Ey1] [Fy2 Ey2]].
  unfold getPoints_B2. cbn [nmul nadd nsub ndiv nsqrt FNum]. fold h. set (c := (d / h)%float) in *.
  set (p1 := mkPt (px p - lb l * c)%float (py p + la l * c)%float) in *. set (p2 := mkPt (px p + lb l * c)%float (py p - la l * c)%float) in *.
  set (G := along (toRp p) (toRp q) (toR d / D)) in *. set (B := along (toRp p) (toRp q) (- toR d / D)).
  pose proof u_range as U. pose proof RM as [ML MH]. pose proof (pinv_pos 101). assert (PM : 0 < M) by lra. assert (uM : 0 < ulp1 * M) by (apply Rmult_lt_0_compat; lra). assert (uMM : ulp1 * M <= / 1000000 * M) by (apply Rmult_le_compat_r; lra).
  assert (N : exists g b, (g = p2 /\ b = p1 \/ g = p1 /\ b = p2) /\ edist (toRp g) G <= 126 * (ulp1 * M) /\ edist (toRp b) B <= 126 * (ulp1 * M)).
  { replace (126 * (ulp1 * M)) with (3 / 2 * (84 * ulp1 * M)) by lra. assert (0 <= 84 * ulp1 * M) by lra. assert (DN : D <> 0) by lra.
    assert (X : forall a b c, Rabs (a - b) <= 84 * ulp1 * M -> b = c -> Rabs (a - c) <= 84 * ulp1 * M) by (intros a b c0 X <-; exact X).
    destruct Ss as [-> | ->]; [exists p2, p1|exists p1, p2]; (split; [auto|]); split; apply edist_coord; try assumption; unfold p1, p2, G, B, along, toRp; cbn [px py];
      (eapply X; [eassumption|unfold al, be; field; exact DN]). }
  assert (Fp1 : finP p1) by (split; assumption). assert (Fp2 : finP p2) by (split; assumption).
  destruct N as (g & b & Hgb & Hg & Hb).
  assert (EG : edist (toRp q) G = Rabs (D - toR d)) by (rewrite edist_sym; unfold G, D; apply along_ahead; exact PD).
  assert (EB : edist (toRp q) B = D + toR d).
  { rewrite edist_sym. unfold B, D. rewrite along_ahead by exact PD. fold D. rewrite Rabs_right; lra. }
  assert (BG : edist B G = 2 * toR d).
  { unfold B, G. rewrite along_two. fold D. replace (- toR d / D - toR d / D) with (- (2 * toR d / D)) by (field; lra). rewrite Rabs_Ropp, Rabs_right; [field; lra|]. apply Rle_ge, Rmult_le_pos; [lra|left; apply Rinv_0_lt_compat; lra]. }
  assert (DM : D <= 283 / 100 * M).
  { assert (Q : forall x y, Rabs x <= M -> Rabs y <= M -> (x - y) * (x - y) <= 4 * (M * M)).
    { intros x y Hx Hy. assert (Rabs (x - y) <= 2 * M) by (pose proof (Rabs_triang x (- y)) as R; rewrite Rabs_Ropp in R; unfold Rminus; lra).
      replace ((x - y) * (x - y)) with (Rabs (x - y) * Rabs (x - y)) by (rewrite <- Rabs_mult; apply Rabs_right, Rle_ge, Rle_0_sqr). pose proof (Rabs_pos (x - y)). apply Rle_trans with (2 * M * (2 * M)); [apply Rmult_le_compat; assumption|lra]. }
    pose proof (Q _ _ Bx Cx). pose proof (Q _ _ By Cy). apply Rnot_lt_le. intro L. assert (283 / 100 * M * (283 / 100 * M) < D * D) by (apply Rmult_le_0_lt_compat; lra). pose proof (Rmult_lt_0_compat _ _ PM PM). lra. }
  assert (K0 : 1024 * 2 ^ 100 = 2 ^ 110) by (change 110%nat with (10 + 100)%nat; rewrite pow_add; lra). assert (K2 : 2 ^ 110 <= 2 ^ 500) by (apply pw2_le; lia).
  assert (Mq : moderate q) by (split; [split; assumption|split; lra]).
  assert (FB : forall x be x', Rabs be <= 1 -> Rabs (toR x) <= M -> (Rabs (toR x' - (toR x + be * toR d)) <= 84 * ulp1 * M \/ Rabs (toR x' - (toR x - be * toR d)) <= 84 * ulp1 * M) -> Rabs (toR x') <= 2 ^ 500).
  { intros x z x' Hz Hx H0. assert (Y : Rabs (z * toR d) <= 3 * M) by (rewrite Rabs_mult, (Rabs_right (toR d)) by lra; apply Rle_trans with (1 * (3 * M)); [apply Rmult_le_compat; try apply Rabs_pos; lra|lra]).
    destruct H0 as [H0|H0]; pose proof (abs_diff _ _ _ H0) as V.
    - pose proof (Rabs_triang (toR x) (z * toR d)). lra.
    - pose proof (Rabs_triang (toR x) (- (z * toR d))) as W. rewrite Rabs_Ropp in W. unfold Rminus in V at 1. lra. }
  assert (M1 : moderate p1) by (split; [assumption|]; unfold p1; cbn [px py]; split; [apply (FB (px p) be)|apply (FB (py p) al)]; auto).
  assert (M2 : moderate p2) by (split; [assumption|]; unfold p2; cbn [px py]; split; [apply (FB (px p) be)|apply (FB (py p) al)]; auto).
  assert (Mg : moderate g) by (destruct Hgb as [[-> _]|[-> _]]; assumption). assert (Mb : moderate b) by (destruct Hgb as [[_ ->]|[_ ->]]; assumption).
  assert (Tiny : / 2 ^ 500 <= ulp1 * M).
  { destruct (eta_M M RM) as [_ N2]. assert (KK : / 2 ^ 500 <= / 2 ^ 200) by (apply pinv; lia). assert (UU : / 2 ^ 60 <= ulp1) by (unfold ulp1; first [apply pinv; lia | rewrite pw_neg; apply pinv; lia | lra]).
    apply Rle_trans with (/ 2 ^ 60 * / 2 ^ 101); [rewrite pinv_mult; apply pinv; lia|]. pose proof (pinv_pos 60). apply Rmult_le_compat; lra. }
  assert (DA : forall c0 H0, moderate c0 -> edist (toRp c0) H0 <= 126 * (ulp1 * M) -> edist (toRp q) H0 <= 584 / 100 * M -> fin (distPP (N := FNum) q c0) /\ Rabs (toR (distPP (N := FNum) q c0) - edist (toRp q) (toRp c0)) <= 37 * (ulp1 * M)).
  { intros c0 H0 Mc Hc Hq. destruct (dist_abs q c0 Mq Mc) as [F E]. split; [exact F|]. pose proof (edist_triang (toRp q) H0 (toRp c0)) as R. rewrite (edist_sym H0) in R.
    assert (ulp1 * edist (toRp q) (toRp c0) <= ulp1 * (6 * M)) by (apply Rmult_le_compat_l; lra). lra. }
  destruct (DA g G Mg Hg ltac:(rewrite EG; unfold Rabs; destruct (Rcase_abs _); lra)) as [Fg Dg]. destruct (DA b B Mb Hb ltac:(rewrite EB; lra)) as [Fb0 Db].
  assert (S : exists r, (if (distPP (N := FNum) q (fst (fixOrder (N := FNum) p1 p2)) <? distPP (N := FNum) q (snd (fixOrder (N := FNum) p1 p2)))%float then fst (fixOrder (N := FNum) p1 p2) else snd (fixOrder (N := FNum) p1 p2)) = r /\ (r = g \/ r = b /\ toR (distPP (N := FNum) q b) <= toR (distPP (N := FNum) q g))).
  { assert (V : fixOrder (N := FNum) p1 p2 = (g, b) \/ fixOrder (N := FNum) p1 p2 = (b, g)) by (unfold fixOrder; destruct Hgb as [[-> ->]|[-> ->]]; match goal with |- context [if ?x then _ else _] => destruct x end; auto).
    destruct V as [-> | ->]; cbn [fst snd]; eexists; (split; [reflexivity|]).
    - destruct (distPP (N := FNum) q g <? distPP (N := FNum) q b)%float eqn:Lt; [now left|right; split; [reflexivity|]]. apply Rnot_lt_le. intro L. apply toR_lt in L; try assumption. congruence.
    - destruct (distPP (N := FNum) q b <? distPP (N := FNum) q g)%float eqn:Lt; [right; split; [reflexivity|]|now left]. apply toR_lt in Lt; try assumption. lra. }
  destruct S as (r & Er & Hr). exists r. split; [f_equal; exact Er|]. split; [destruct Hr as [->|[-> _]]; destruct Hgb as [[-> ->]|[-> ->]]; assumption|].
  assert (Hr' : toRp r = toRp g \/ toRp r = toRp b /\ toR (distPP (N := FNum) q b) <= toR (distPP (N := FNum) q g)) by (destruct Hr as [->|[-> Hr]]; auto).
  pose proof (pick (toRp q) G B (toRp g) (toRp b) (toRp r) D (toR d) _ _ _ _ EG EB BG ltac:(lra) Hg Hb Dg Db ltac:(lra) Hr'). lra.
Qed.
