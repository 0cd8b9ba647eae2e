(** * Errors of distances and areas computed in binary64 *)

From Coq Require Import Reals Lra ZArith Floats Bool Lia List.
From Verif Require Import Num FloatFuns M_LP M_Seg M_Circle M_Poly S_Geom S_Poly P_LP P_Poly S_Float S_FloatZ S_FloatR P_Float P_FloatZ P_FloatZ2 P_FloatR P_FloatE.
Import ListNotations.
Local Open Scope R_scope.

(** ** Distances *)

Lemma pinv a b : (a <= b)%nat -> / 2 ^ b <= / 2 ^ a.
Proof. intro H. apply Rinv_le_contravar; [apply pow_lt; lra|]. apply Rle_pow; [lra|exact H]. Qed.
Lemma pinv_mult a b : / 2 ^ a * / 2 ^ b = / 2 ^ (a + b).
Proof. rewrite pow_add, Rinv_mult. reflexivity. Qed.
Lemma pinv_pos a : 0 < / 2 ^ a. Proof. apply Rinv_0_lt_compat, pow_lt. lra. Qed.

(** A rounded value: relative error only, when the exact one is zero or not tiny. *)
Lemma rel_err r Y : rnd (sf r) Y -> fin r -> Y = 0 \/ / 2 ^ 1021 <= Rabs Y -> Rabs (toR r - Y) <= ulp1 * Rabs Y.
Proof.
  intros H F [->|B].
  - apply grid_err with (n := 0%Z); [exact H|exact F|ring].
  - destruct (rnd_err2 r Y H F) as [A|A]; [exact A|]. pose proof tiny_1. assert (/ 2 ^ 1075 <= / 2 ^ (53 + 1021)) by (apply pinv; lia).
    rewrite <- pinv_mult in H1. fold ulp1 in H1. assert (ulp1 * / 2 ^ 1021 <= ulp1 * Rabs Y) by (apply Rmult_le_compat_l; [pose proof ulp1_pos; lra|exact B]). lra.
Qed.

(** The square of a rounded difference. *)
Lemma sq_err x y : modest x -> modest y -> away (toR x - toR y) ->
  let d := (x - y)%float in fin (d * d)%float /\ Rabs (toR (d * d)%float - (toR x - toR y) * (toR x - toR y)) <= 4 * ulp1 * ((toR x - toR y) * (toR x - toR y)) /\
  ((toR x - toR y = 0 /\ toR (d * d)%float = 0) \/ / 2 ^ 1005 <= toR (d * d)%float) /\ toR (d * d)%float <= 2 ^ 1006.
Proof.
  intros [Fx Bx] [Fy By] W. cbv zeta. destruct (diff_mod x y Fx Fy Bx By) as (Fd & Ed & Bd). set (d := (x - y)%float) in *. set (D := toR x - toR y) in *.
  destruct (prod_mod d d 502 Fd Fd ltac:(lia) Bd Bd) as (Fp & _ & Bp). pose proof ulp1_pos as U.
  assert (S : toR d * toR d = 0 \/ / 2 ^ 1004 <= Rabs (toR d * toR d)).
  { destruct W as [W|W].
    - left. rewrite W, Rabs_R0, Rmult_0_r in Ed. assert (toR d = 0); [|nra]. revert Ed. unfold Rabs. destruct (Rcase_abs _); lra.
    - right. assert (/ 2 ^ 502 <= Rabs (toR d)).
      { assert (Rabs D - ulp1 * Rabs D <= Rabs (toR d)) by (revert Ed; generalize (ulp1 * Rabs D); intro z; unfold Rabs; destruct (Rcase_abs _), (Rcase_abs _), (Rcase_abs _); lra).
        assert (/ 4 * Rabs D <= Rabs (toR d)). { assert (ulp1 * Rabs D <= / 2 * Rabs D) by (apply Rmult_le_compat_r; lra). lra. }
        assert (/ 2 ^ (2 + 500) = / 4 * / 2 ^ 500) by (rewrite <- pinv_mult; f_equal; cbn; lra). change (2 + 500)%nat with 502%nat in H1. lra. }
      rewrite Rabs_mult. change 1004%nat with (502 + 502)%nat. rewrite <- pinv_mult. pose proof (pinv_pos 502). apply Rmult_le_compat; lra. }
  assert (E1 : Rabs (toR (d * d)%float - toR d * toR d) <= ulp1 * Rabs (toR d * toR d)).
  { apply rel_err; [now apply mul_rnd|exact Fp|]. destruct S as [S|S]; [now left|right]. assert (/ 2 ^ 1021 <= / 2 ^ 1004) by (apply pinv; lia). lra. }
  split; [exact Fp|]. split.
  - assert (E2 : Rabs (toR (d * d)%float - D * D) <= 4 * ulp1 * Rabs (D * D) + 0) by (apply rel_prod with (toR d) (toR d); try assumption; lra).
    rewrite (Rabs_right (D * D)) in E2 by (apply Rle_ge, Rle_0_sqr). lra.
  - assert (Q : 0 <= toR d * toR d) by apply Rle_0_sqr. rewrite (Rabs_right (toR d * toR d)) in * by lra. split.
    + destruct S as [S|S].
      * left. split.
        -- destruct W as [W|W]; [exact W|]. exfalso. assert (Z : toR d = 0) by nra. rewrite Z, Rminus_0_l, Rabs_Ropp in Ed. pose proof (pinv_pos 500).
           assert (ulp1 * Rabs D < 1 * Rabs D) by (apply Rmult_lt_compat_r; lra). lra.
        -- rewrite S, Rmult_0_r, Rminus_0_r in E1. revert E1. unfold Rabs. destruct (Rcase_abs _); lra.
      * right. assert (ulp1 * (toR d * toR d) <= / 2 * (toR d * toR d)) by (apply Rmult_le_compat_r; lra).
        assert (/ 2 ^ (1 + 1004) = / 2 * / 2 ^ 1004) by (rewrite <- pinv_mult; f_equal; cbn; lra). change (1 + 1004)%nat with 1005%nat in H0.
        revert E1. unfold Rabs. destruct (Rcase_abs _); lra.
    + change (2 * 502 + 2)%nat with 1006%nat in Bp. revert Bp. unfold Rabs. destruct (Rcase_abs _); [|lra]. intros _. pose proof (pow_lt 2 1006 ltac:(lra)). lra.
Qed.

Lemma sqrt_between S Q D u : 0 <= u <= / 100 -> 0 <= D -> Q = D * D -> 0 <= S -> Rabs (S - Q) <= 6 * u * Q -> Rabs (R_sqrt.sqrt S - D) <= 4 * u * D.
Proof.
  intros U HD -> HS E. assert (L : R_sqrt.sqrt S <= (1 + 4 * u) * D).
  { rewrite <- (sqrt_square ((1 + 4 * u) * D)) by nra. apply sqrt_le_1_alt. assert (S - D * D <= 6 * u * (D * D)) by (revert E; unfold Rabs; destruct (Rcase_abs _); lra).
    set (q := D * D) in *. assert (0 <= q) by (unfold q; nra). replace ((1 + 4 * u) * D * ((1 + 4 * u) * D)) with ((1 + 4 * u) * (1 + 4 * u) * q) by (unfold q; ring). assert (1 + 6 * u <= (1 + 4 * u) * (1 + 4 * u)) by nra. assert ((1 + 6 * u) * q <= (1 + 4 * u) * (1 + 4 * u) * q) by (apply Rmult_le_compat_r; lra). lra. }
  assert (G : (1 - 4 * u) * D <= R_sqrt.sqrt S).
  { rewrite <- (sqrt_square ((1 - 4 * u) * D)) by nra. apply sqrt_le_1_alt. assert (D * D - S <= 6 * u * (D * D)) by (revert E; unfold Rabs; destruct (Rcase_abs _); lra).
    set (q := D * D) in *. assert (0 <= q) by (unfold q; nra). replace ((1 - 4 * u) * D * ((1 - 4 * u) * D)) with ((1 - 4 * u) * (1 - 4 * u) * q) by (unfold q; ring). assert ((1 - 4 * u) * (1 - 4 * u) <= 1 - 6 * u) by nra. assert ((1 - 4 * u) * (1 - 4 * u) * q <= (1 - 6 * u) * q) by (apply Rmult_le_compat_r; lra). lra. }
  unfold Rabs. destruct (Rcase_abs _); lra.
Qed.

Lemma dist_err p q : moderate p -> moderate q -> away (toR (px p) - toR (px q)) -> away (toR (py p) - toR (py q)) ->
  relErr 6 (sqDist (N := FNum) p q) (edist (toRp p) (toRp q) * edist (toRp p) (toRp q)) /\ relErr 6 (distPP (N := FNum) p q) (edist (toRp p) (toRp q)).
Proof.
  intros [[Fx1 Fy1] [Bx1 By1]] [[Fx2 Fy2] [Bx2 By2]] Wx Wy. unfold sqDist, distPP, hypot, edist, toRp. cbn [nsub nmul nadd nsqrt FNum px py]. unfold Rsqr.
  destruct (sq_err (px p) (px q)) as (F1 & E1 & L1 & H1); try (split; assumption); [assumption|]. destruct (sq_err (py p) (py q)) as (F2 & E2 & L2 & H2); try (split; assumption); [assumption|].
  set (a := ((px p - px q) * (px p - px q))%float) in *. set (b := ((py p - py q) * (py p - py q))%float) in *.
  set (A := (toR (px p) - toR (px q)) * (toR (px p) - toR (px q))) in *. set (B := (toR (py p) - toR (py q)) * (toR (py p) - toR (py q))) in *.
  assert (PA : 0 <= A) by apply Rle_0_sqr. assert (PB : 0 <= B) by apply Rle_0_sqr. pose proof ulp1_pos as U.
  assert (Pa : 0 <= toR a) by (destruct L1 as [[_ L]|L]; [lra|pose proof (pinv_pos 1005); lra]). assert (Pb : 0 <= toR b) by (destruct L2 as [[_ L]|L]; [lra|pose proof (pinv_pos 1005); lra]).
  assert (K : 2 ^ 1006 <= 2 ^ 1020) by (apply Rle_pow; [lra|lia]). assert (K2 : 2 ^ 1020 <= 2 ^ 1023) by (apply Rle_pow; [lra|lia]).
  assert (K3 : 2 ^ 1023 = 2 * 2 ^ 1022) by (change 1023%nat with (S 1022); reflexivity). assert (K4 : 2 ^ 1020 <= 2 ^ 1022) by (apply Rle_pow; [lra|lia]).
  assert (Fs : fin (a + b)%float) by (apply big_fin with (1 := add_rnd a b F1 F2); rewrite Rabs_right by lra; lra).
  pose proof (add_err a b F1 F2 Fs) as Es. rewrite (Rabs_right (toR a + toR b)) in Es by lra. set (s := (a + b)%float) in *.
  assert (Ps : 0 <= toR s).
  { assert (ulp1 * (toR a + toR b) <= 1 * (toR a + toR b)) by (apply Rmult_le_compat_r; lra). revert Es. unfold Rabs. destruct (Rcase_abs _); lra. }
  assert (Ds : Rabs (toR s - (A + B)) <= 6 * ulp1 * (A + B)).
  { assert (E3 : Rabs (toR a + toR b - (A + B)) <= 4 * ulp1 * (A + B)).
    { replace (toR a + toR b - (A + B)) with ((toR a - A) + (toR b - B)) by ring. eapply Rle_trans; [apply Rabs_triang|]. lra. }
    assert (toR a + toR b <= A + B + 4 * ulp1 * (A + B)) by (revert E3; unfold Rabs; destruct (Rcase_abs _); lra).
    replace (toR s - (A + B)) with ((toR s - (toR a + toR b)) + (toR a + toR b - (A + B))) by ring. eapply Rle_trans; [apply Rabs_triang|].
    assert (ulp1 * (toR a + toR b) <= ulp1 * (A + B + 4 * ulp1 * (A + B))) by (apply Rmult_le_compat_l; lra).
    assert (ulp1 * (4 * ulp1 * (A + B)) <= ulp1 * (1 * (A + B))) by (apply Rmult_le_compat_l; [lra|]; apply Rmult_le_compat_r; lra). lra. }
  set (D := R_sqrt.sqrt (A + B)) in *. assert (DD : D * D = A + B) by (apply sqrt_sqrt; lra). assert (PD : 0 <= D) by apply sqrt_pos.
  split; [split; [exact Fs|]; rewrite DD, (Rabs_right (A + B)) by lra; exact Ds|].
  pose proof (sqrt_rnd s Fs Ps) as R. assert (Fr : fin (PrimFloat.sqrt s)).
  { apply big_fin with (1 := R). rewrite Rabs_right by (apply Rle_ge, sqrt_pos).
    assert (toR s <= 2 ^ 1023). { assert (ulp1 * (toR a + toR b) <= 1 * (toR a + toR b)) by (apply Rmult_le_compat_r; lra). assert (2 ^ 1023 = 8 * 2 ^ 1020) by (change 1023%nat with (3 + 1020)%nat; rewrite pow_add; lra). revert Es. unfold Rabs. destruct (Rcase_abs _); lra. }
    assert (1 <= 2 ^ 1023) by (apply pow_R1_Rle; lra). apply Rle_trans with (R_sqrt.sqrt (2 ^ 1023 * 2 ^ 1023)); [apply sqrt_le_1_alt; nra|]. rewrite sqrt_square; lra. }
  assert (Er : Rabs (toR (PrimFloat.sqrt s) - R_sqrt.sqrt (toR s)) <= ulp1 * R_sqrt.sqrt (toR s)).
  { rewrite <- (Rabs_right (R_sqrt.sqrt (toR s))) at 2 by (apply Rle_ge, sqrt_pos). apply rel_err; [exact R|exact Fr|]. rewrite (Rabs_right (R_sqrt.sqrt _)) by (apply Rle_ge, sqrt_pos).
    destruct (Req_dec (toR s) 0) as [Z|Z]; [left; rewrite Z; apply sqrt_0|right].
    assert (Lo : / 2 ^ 1006 <= toR s).
    { assert (/ 2 ^ 1005 <= toR a + toR b). { destruct L1 as [[_ L1]|L1]; [|lra]. destruct L2 as [[_ L2]|L2]; [|lra]. exfalso. apply Z. rewrite L1, L2, Rplus_0_r, Rmult_0_r, Rminus_0_r in Es. revert Es. unfold Rabs. destruct (Rcase_abs _); lra. }
      assert (/ 2 ^ (1 + 1005) = / 2 * / 2 ^ 1005) by (rewrite <- pinv_mult; f_equal; cbn; lra). change (1 + 1005)%nat with 1006%nat in H0.
      assert (ulp1 * (toR a + toR b) <= / 2 * (toR a + toR b)) by (apply Rmult_le_compat_r; lra). revert Es. unfold Rabs. destruct (Rcase_abs _); lra. }
    assert (/ 2 ^ 1021 <= / 2 ^ 503) by (apply pinv; lia). assert (/ 2 ^ 503 <= R_sqrt.sqrt (toR s)); [|lra].
    rewrite <- (sqrt_square (/ 2 ^ 503)) by (left; apply pinv_pos). apply sqrt_le_1_alt. rewrite pinv_mult. exact Lo. }
  pose proof (sqrt_between (toR s) (A + B) D ulp1 ltac:(lra) PD (eq_sym DD) Ps Ds) as G.
  split; [exact Fr|]. rewrite (Rabs_right D) by lra.
  assert (R_sqrt.sqrt (toR s) <= D + 4 * ulp1 * D) by (revert G; unfold Rabs; destruct (Rcase_abs _); lra).
  replace (toR (PrimFloat.sqrt s) - D) with ((toR (PrimFloat.sqrt s) - R_sqrt.sqrt (toR s)) + (R_sqrt.sqrt (toR s) - D)) by ring. eapply Rle_trans; [apply Rabs_triang|].
  assert (ulp1 * R_sqrt.sqrt (toR s) <= ulp1 * (D + 4 * ulp1 * D)) by (apply Rmult_le_compat_l; lra).
  assert (ulp1 * (4 * ulp1 * D) <= ulp1 * (1 * D)) by (apply Rmult_le_compat_l; [lra|]; apply Rmult_le_compat_r; lra). lra.
Qed.

(** ** Areas *)

(** One rounded addition in a running sum. *)
Lemma sum_step u g a A N t T m s (op : R) : 0 <= u <= / 100 -> 1 + u <= g -> 0 <= N -> Rabs (a - A) <= (g - 1) * N -> Rabs A <= N -> Rabs (t - T) <= u * m -> Rabs T <= m -> op = 1 \/ op = -1 ->
  Rabs (s - (a + op * t)) <= u * Rabs (a + op * t) ->
  Rabs (s - (A + op * T)) <= (g * (1 + u) - 1) * (N + m) /\ Rabs (A + op * T) <= N + m /\ Rabs (a + op * t) <= g * (N + m).
Proof.
  intros U G HN Ha HA Ht HT Hop Hs. assert (Hm : 0 <= m) by (pose proof (Rabs_pos T); lra).
  assert (Oa : forall x, Rabs (op * x) = Rabs x) by (intro x; rewrite Rabs_mult; destruct Hop as [->| ->]; [rewrite Rabs_R1|rewrite (Rabs_left (-1)) by lra]; ring).
  pose proof (abs_diff _ _ _ Ha) as Ba. pose proof (abs_diff _ _ _ Ht) as Bt.
  assert (S : Rabs (a + op * t) <= g * N + (1 + u) * m).
  { eapply Rle_trans; [apply Rabs_triang|]. rewrite Oa. lra. }
  assert (M : (1 + u) * m <= g * m) by (apply Rmult_le_compat_r; lra).
  split; [|split; [eapply Rle_trans; [apply Rabs_triang|]; rewrite Oa; lra|lra]].
  replace (s - (A + op * T)) with ((s - (a + op * t)) + ((a - A) + op * (t - T))) by ring. eapply Rle_trans; [apply Rabs_triang|]. eapply Rle_trans; [apply Rplus_le_compat_l, Rabs_triang|]. rewrite Oa.
  assert (u * Rabs (a + op * t) <= u * (g * N + (1 + u) * m)) by (apply Rmult_le_compat_l; lra).
  assert (((1 + u) * (1 + u) - 1) * m <= (g * (1 + u) - 1) * m) by (apply Rmult_le_compat_r; [assumption|]; assert ((1 + u) * (1 + u) <= g * (1 + u)) by (apply Rmult_le_compat_r; lra); lra).
  replace ((g * (1 + u) - 1) * (N + m)) with ((g * (1 + u) - 1) * N + (g * (1 + u) - 1) * m) by ring. lra.
Qed.

Definition edgeR (e : pt float * pt float) : pt R * pt R := (toRp (fst e), toRp (snd e)).
Definition msz (e : pt R * pt R) : R := Rabs (px (fst e) * py (snd e)) + Rabs (py (fst e) * px (snd e)) + 2 * / 2 ^ 1022.
Definition stepF (a : float) (e : pt float * pt float) : float := (a + px (fst e) * py (snd e) - py (fst e) * px (snd e))%float.
Definition stepR (a : R) (e : pt R * pt R) : R := a + px (fst e) * py (snd e) - py (fst e) * px (snd e).

Lemma prod_step x y : modest x -> modest y -> fin (x * y)%float /\ Rabs (toR (x * y)%float - toR x * toR y) <= ulp1 * (Rabs (toR x * toR y) + / 2 ^ 1022).
Proof.
  intros [Fx Bx] [Fy By]. destruct (prod_mod x y 500 Fx Fy ltac:(lia) Bx By) as (F & E & _). split; [exact F|].
  rewrite Rmult_plus_distr_l. unfold ulp1 at 2. rewrite pinv_mult. pose proof tiny_1. change (53 + 1022)%nat with 1075%nat. lra.
Qed.
Lemma msz_pos e : 0 <= msz e.
Proof. unfold msz. pose proof (pinv_pos 1022). pose proof (Rabs_pos (px (fst e) * py (snd e))). pose proof (Rabs_pos (py (fst e) * px (snd e))). lra. Qed.
Lemma sum_pos (es : list (pt R * pt R)) : 0 <= sumOver msz es.
Proof. induction es as [|e es IH]; cbn [sumOver]; [lra|]. pose proof (msz_pos e). lra. Qed.

Lemma area_fold es : Forall (fun e => moderate (fst e) /\ moderate (snd e)) es -> forall a A N k, (1 <= k)%nat -> fin a -> Rabs (toR a - A) <= ((1 + ulp1) ^ k - 1) * N -> Rabs A <= N -> 
  N + sumOver msz (map edgeR es) <= 2 ^ 1020 -> (1 + ulp1) ^ (k + 2 * length es) <= 2 ->
  fin (fold_left stepF es a) /\ Rabs (toR (fold_left stepF es a) - fold_left stepR (map edgeR es) A) <= ((1 + ulp1) ^ (k + 2 * length es) - 1) * (N + sumOver msz (map edgeR es)) /\
  Rabs (fold_left stepR (map edgeR es) A) <= N + sumOver msz (map edgeR es).
Proof.
  intro F. pose proof ulp1_pos as U. assert (U' : 0 <= ulp1 <= / 100) by lra. induction F as [|e es [M1 M2] F IH]; intros a A N k K Fa Ha HA HB HG; cbn [fold_left map sumOver length] in *.
  { rewrite Rplus_0_r, Nat.mul_0_r, Nat.add_0_r. auto. }
  destruct (prod_step (px (fst e)) (py (snd e))) as [F1 E1]; [destruct M1 as [[? ?] [? ?]]; now split|destruct M2 as [[? ?] [? ?]]; now split|].
  destruct (prod_step (py (fst e)) (px (snd e))) as [F2 E2]; [destruct M1 as [[? ?] [? ?]]; now split|destruct M2 as [[? ?] [? ?]]; now split|].
  set (t1 := (px (fst e) * py (snd e))%float) in *. set (t2 := (py (fst e) * px (snd e))%float) in *.
  set (T1 := toR (px (fst e)) * toR (py (snd e))) in *. set (T2 := toR (py (fst e)) * toR (px (snd e))) in *.
  set (h := / 2 ^ 1022) in *. assert (Ph : 0 < h) by apply pinv_pos.
  assert (Me : msz (edgeR e) = (Rabs T1 + h) + (Rabs T2 + h)) by (unfold msz, edgeR, toRp; cbn [fst snd px py]; fold T1 T2 h; ring).
  pose proof (sum_pos (map edgeR es)) as Sp. pose proof (Rabs_pos T1) as Q1. pose proof (Rabs_pos T2) as Q2. pose proof (Rabs_pos A) as QA.
  set (g := (1 + ulp1) ^ k) in *. assert (G1 : 1 + ulp1 <= g) by (unfold g; replace (1 + ulp1) with ((1 + ulp1) ^ 1) at 1 by ring; apply Rle_pow; [lra|lia]).
  assert (G2 : (1 + ulp1) ^ (k + 2) <= 2) by (eapply Rle_trans; [|exact HG]; apply Rle_pow; [lra|lia]).
  assert (G3 : (1 + ulp1) ^ (k + 2) = g * (1 + ulp1) * (1 + ulp1)) by (rewrite pow_add; unfold g; ring).
  assert (G4 : g <= g * (1 + ulp1)) by (rewrite <- (Rmult_1_r g) at 1; apply Rmult_le_compat_l; lra).
  assert (G5 : g * (1 + ulp1) <= g * (1 + ulp1) * (1 + ulp1)) by (rewrite <- (Rmult_1_r (g * (1 + ulp1))) at 1; apply Rmult_le_compat_l; lra).
  assert (K3 : 2 ^ 1023 = 8 * 2 ^ 1020) by (change 1023%nat with (3 + 1020)%nat; rewrite pow_add; lra).
  (* first addition *)
  assert (Z0 : Rabs (toR a + 1 * toR t1 - (toR a + 1 * toR t1)) <= ulp1 * Rabs (toR a + 1 * toR t1)) by (rewrite Rminus_diag_eq, Rabs_R0 by reflexivity; apply Rmult_le_pos; [lra|apply Rabs_pos]).
  destruct (sum_step ulp1 g (toR a) A N (toR t1) T1 (Rabs T1 + h) (toR a + 1 * toR t1) 1 U' G1 ltac:(lra) Ha HA E1 ltac:(lra) ltac:(now left) Z0) as (_ & _ & B1).
  assert (C1 : g * (N + (Rabs T1 + h)) <= 2 * 2 ^ 1020) by (apply Rmult_le_compat; lra).
  assert (Fs : fin (a + t1)%float) by (apply big_fin with (1 := add_rnd a t1 Fa F1); rewrite <- (Rmult_1_l (toR t1)); lra).
  pose proof (add_err a t1 Fa F1 Fs) as Es. rewrite <- (Rmult_1_l (toR t1)) in Es.
  destruct (sum_step ulp1 g (toR a) A N (toR t1) T1 (Rabs T1 + h) (toR (a + t1)%float) 1 U' G1 ltac:(lra) Ha HA E1 ltac:(lra) ltac:(now left) Es) as (R1 & R2 & _).
  (* second one *)
  set (s := (a + t1)%float) in *. set (N1 := N + (Rabs T1 + h)) in *. set (g1 := g * (1 + ulp1)) in *. rewrite Rmult_1_l in R1, R2.
  assert (Z1 : Rabs (toR s + -1 * toR t2 - (toR s + -1 * toR t2)) <= ulp1 * Rabs (toR s + -1 * toR t2)) by (rewrite Rminus_diag_eq, Rabs_R0 by reflexivity; apply Rmult_le_pos; [lra|apply Rabs_pos]).
  destruct (sum_step ulp1 g1 (toR s) (A + T1) N1 (toR t2) T2 (Rabs T2 + h) (toR s + -1 * toR t2) (-1) U' ltac:(lra) ltac:(unfold N1; lra) R1 R2 E2 ltac:(lra) ltac:(now right) Z1) as (_ & _ & B2).
  assert (C2 : g1 * (N1 + (Rabs T2 + h)) <= 2 * 2 ^ 1020) by (apply Rmult_le_compat; unfold N1; lra).
  assert (Os : toR s - toR t2 = toR s + -1 * toR t2) by ring.
  assert (Fr : fin (s - t2)%float) by (apply big_fin with (1 := sub_rnd s t2 Fs F2); rewrite Os; lra).
  pose proof (sub_err s t2 Fs F2 Fr) as Er. rewrite Os in Er.
  destruct (sum_step ulp1 g1 (toR s) (A + T1) N1 (toR t2) T2 (Rabs T2 + h) (toR (s - t2)%float) (-1) U' ltac:(lra) ltac:(unfold N1; lra) R1 R2 E2 ltac:(lra) ltac:(now right) Er) as (R3 & R4 & _).
  assert (Ns : N1 + (Rabs T2 + h) = N + msz (edgeR e)) by (rewrite Me; unfold N1; ring). rewrite Ns in *.
  assert (Sr : A + T1 + -1 * T2 = stepR A (edgeR e)) by (unfold stepR, edgeR, toRp; cbn [fst snd px py]; fold T1 T2; ring). rewrite Sr in *.
  change (s - t2)%float with (stepF a e) in *.
  destruct (IH (stepF a e) (stepR A (edgeR e)) (N + msz (edgeR e)) (k + 2)%nat) as (I1 & I2 & I3); try assumption.
  - lia.
  - rewrite G3. exact R3.
  - lra.
  - replace (k + 2 + 2 * length es)%nat with (k + 2 * S (length es))%nat by lia. exact HG.
  - replace (k + 2 + 2 * length es)%nat with (k + 2 * S (length es))%nat in I2 by lia. rewrite <- Rplus_assoc. auto.
Qed.

Lemma pow_growth k : INR k * ulp1 <= / 2 -> (1 + ulp1) ^ k <= 1 + 2 * INR k * ulp1.
Proof.
  pose proof ulp1_pos as U. induction k as [|k IH]; intro H; [cbn; lra|]. rewrite S_INR in *. assert (I : (1 + ulp1) ^ k <= 1 + 2 * INR k * ulp1) by (apply IH; lra). cbn [pow]. pose proof (pos_INR k).
  apply Rle_trans with ((1 + ulp1) * (1 + 2 * INR k * ulp1)); [apply Rmult_le_compat_l; lra|].
  assert (INR k * ulp1 <= / 2) by lra. assert (ulp1 * (INR k * ulp1) <= ulp1 * / 2) by (apply Rmult_le_compat_l; lra). lra.
Qed.

Lemma cyc_in {A} (l : list A) e : In e (cyc l) -> In (fst e) l /\ In (snd e) l.
Proof.
  destruct l as [|a r]; [intros []|]. cbn [cyc]. destruct e as [x y]. intro H. split; [apply in_combine_l in H; exact H|]. apply in_combine_r in H. apply in_app_or in H. destruct H as [H|[<-|[]]]; [now right|now left].
Qed.

Lemma msz_sum es : sumOver msz es = sumOver (fun e : pt R * pt R => Rabs (px (fst e) * py (snd e)) + Rabs (py (fst e) * px (snd e))) es + INR (length es) * (2 * / 2 ^ 1022).
Proof. induction es as [|e es IH]; cbn [sumOver length]; [cbn [INR]; ring|]. rewrite IH, S_INR. unfold msz. ring. Qed.

Lemma area_err l : l <> [] -> (Z.of_nat (length l) <= 100000)%Z -> Forall moderate l ->
  fin (signedArea (N := FNum) l) /\
  Rabs (toR (signedArea (N := FNum) l) - signedArea (map toRp l)) <= (2 * INR (length l) + 3) * ulp1 * (areaSize (map toRp l) + INR (length l) * / 2 ^ 1021).
Proof.
  intros Nn L F. pose proof ulp1_pos as U. rewrite signedArea_sum.
  assert (EF : signedArea (N := FNum) l = (fold_left stepF (cyc l) 0 / 2)%float).
  { pose proof (loop_cyc l (pt00 (N := FNum)) (fun area p1 p2 => (area + px p1 * py p2 - py p1 * px p2)%float) 0%float) as H.
    change (fold_left stepF (cyc l) 0%float) with (fold_left (fun s e => (s + px (fst e) * py (snd e) - py (fst e) * px (snd e))%float) (cyc l) 0%float). rewrite <- H. reflexivity. }
  rewrite EF. clear EF.
  assert (ER : sumOver cr2 (cyc (map toRp l)) = fold_left stepR (map edgeR (cyc l)) 0).
  { rewrite cyc_map. fold edgeR. transitivity (fold_left (fun s e => s + cr2 e) (map edgeR (cyc l)) 0); [rewrite fold_sumOver; ring|].
    generalize (map edgeR (cyc l)) 0. intros m. induction m as [|e m IH]; intros s; [reflexivity|]. cbn [fold_left]. rewrite <- IH. f_equal. unfold cr2, stepR. ring. }
  rewrite ER. clear ER. set (n := length l) in *.
  assert (Hn : INR n <= 100000) by (rewrite INR_IZR_INZ; apply IZR_le; exact L).
  assert (Hn1 : 1 <= INR n) by (replace 1 with (INR 1) by reflexivity; apply le_INR; destruct l; [congruence|cbn in n; subst n; cbn; lia]).
  assert (Pk : INR (1 + 2 * n) = 2 * INR n + 1) by (rewrite plus_INR, mult_INR; cbn; ring).
  assert (Gr : (1 + ulp1) ^ (1 + 2 * n) <= 1 + 2 * (2 * INR n + 1) * ulp1).
  { rewrite <- Pk. apply pow_growth. rewrite Pk. assert ((2 * INR n + 1) * ulp1 <= 300000 * / 9000000000000000) by (apply Rmult_le_compat; lra). lra. }
  assert (Sm : sumOver msz (map edgeR (cyc l)) = areaSize (map toRp l) + INR n * / 2 ^ 1021).
  { rewrite msz_sum, map_length, cyc_length. unfold areaSize. rewrite cyc_map. fold edgeR. f_equal. fold n.
    assert (2 * / 2 ^ 1022 = / 2 ^ 1021) by (change 1022%nat with (S 1021); cbn [pow]; field; apply pow_nonzero; lra). rewrite H. reflexivity. }
  set (N := sumOver msz (map edgeR (cyc l))) in *.
  assert (Fe : Forall (fun e => moderate (fst e) /\ moderate (snd e)) (cyc l)).
  { rewrite Forall_forall in F |- *. intros e I. apply cyc_in in I. destruct I. auto. }
  assert (NB : N <= 2 ^ 1020).
  { apply Rle_trans with (INR n * 2 ^ 1002).
    - unfold N, n. rewrite <- (cyc_length l). clear -Fe. induction Fe as [|e es [M1 M2] F IH]; cbn [map sumOver length]; [cbn [INR]; lra|]. rewrite S_INR.
      assert (msz (edgeR e) <= 2 ^ 1002); [|lra]. unfold msz, edgeR, toRp. cbn [fst snd px py]. rewrite !Rabs_mult. destruct M1 as (_ & X1 & Y1), M2 as (_ & X2 & Y2).
      assert (T : 2 ^ 1002 = 4 * (2 ^ 500 * 2 ^ 500)) by (rewrite <- pow_add; change 1002%nat with (2 + (500 + 500))%nat; rewrite pow_add; lra).
      assert (Rabs (toR (px (fst e))) * Rabs (toR (py (snd e))) <= 2 ^ 500 * 2 ^ 500) by (apply Rmult_le_compat; try apply Rabs_pos; assumption).
      assert (Rabs (toR (py (fst e))) * Rabs (toR (px (snd e))) <= 2 ^ 500 * 2 ^ 500) by (apply Rmult_le_compat; try apply Rabs_pos; assumption).
      assert (1 <= 2 ^ 500 * 2 ^ 500) by (rewrite <- pow_add; apply pow_R1_Rle; lra). pose proof (pow_inv_1 1022). lra.
    - assert (2 ^ 1020 = 262144 * 2 ^ 1002) by (change 1020%nat with (18 + 1002)%nat; rewrite pow_add; f_equal; lra). rewrite H. apply Rmult_le_compat_r; [left; apply pow_lt; lra|lra]. }
  assert (PN : 0 <= N) by apply sum_pos.
  destruct (area_fold (cyc l) Fe 0%float 0 0 1) as (Ff & Ef & Bf).
  - lia.
  - reflexivity.
  - change (toR 0%float) with 0. rewrite Rminus_0_r, Rabs_R0. lra.
  - rewrite Rabs_R0. lra.
  - fold N. lra.
  - rewrite cyc_length. fold n. assert ((2 * INR n + 1) * ulp1 <= 300000 * / 9000000000000000) by (apply Rmult_le_compat; lra). lra.
  - fold N in Ef, Bf. rewrite cyc_length, Rplus_0_l in *. fold n in Ef. set (a := fold_left stepF (cyc l) 0%float) in *. set (A := fold_left stepR (map edgeR (cyc l)) 0) in *.
    assert (E : Rabs (toR a - A) <= 2 * (2 * INR n + 1) * ulp1 * N).
    { eapply Rle_trans; [exact Ef|]. apply Rmult_le_compat_r; lra. }
    assert (T2 : toR 2%float = 2). { unfold toR. assert (X : Prim2SF 2%float = S754_finite false 4503599627370496 (-51)) by (vm_compute; reflexivity). rewrite X. fold (pw (-51)). change (-51)%Z with (- Z.of_nat 51)%Z. rewrite pw_npow. assert (Y : 2 ^ 51 = 2251799813685248) by (rewrite pow_IZR; reflexivity). rewrite Y. lra. }
    assert (Ba : Rabs (toR a) <= 2 * N).
    { apply abs_diff in E. assert (2 * (2 * INR n + 1) * ulp1 <= 600000 * / 9000000000000000) by (apply Rmult_le_compat; lra). assert (2 * (2 * INR n + 1) * ulp1 * N <= 1 * N) by (apply Rmult_le_compat_r; lra). lra. }
    assert (R : rnd (sf (a / 2)%float) (toR a / 2)) by (rewrite <- T2; apply div_rnd; [exact Ff|reflexivity|rewrite T2; lra]).
    assert (Ha : Rabs (toR a / 2) <= N) by (unfold Rdiv; rewrite Rabs_mult, (Rabs_right (/ 2)) by lra; lra).
    assert (Fd : fin (a / 2)%float) by (apply big_fin with (1 := R); assert (2 ^ 1020 <= 2 ^ 1023) by (apply Rle_pow; [lra|lia]); lra).
    split; [exact Fd|]. pose proof (rnd_err3 _ _ R Fd) as E3. rewrite <- Sm.
    assert (Et : pw (-1075) <= ulp1 * N).
    { pose proof tiny_1. assert (/ 2 ^ 1075 <= ulp1 * / 2 ^ 1021) by (unfold ulp1; rewrite pinv_mult; apply pinv; lia). assert (0 <= areaSize (map toRp l)).
      { unfold areaSize. generalize (cyc (map toRp l)). intro m. induction m as [|e m IH]; cbn [sumOver]; [lra|]. pose proof (Rabs_pos (px (fst e) * py (snd e))). pose proof (Rabs_pos (py (fst e) * px (snd e))). lra. }
      assert (/ 2 ^ 1021 <= N) by (rewrite Sm; pose proof (pinv_pos 1021); assert (1 * / 2 ^ 1021 <= INR n * / 2 ^ 1021) by (apply Rmult_le_compat_r; lra); lra).
      assert (ulp1 * / 2 ^ 1021 <= ulp1 * N) by (apply Rmult_le_compat_l; lra). lra. }
    assert (ulp1 * Rabs (toR a / 2) <= ulp1 * N) by (apply Rmult_le_compat_l; lra).
    replace (toR (a / 2)%float - A / 2) with ((toR (a / 2)%float - toR a / 2) + / 2 * (toR a - A)) by field. eapply Rle_trans; [apply Rabs_triang|]. rewrite (Rabs_mult (/ 2)), (Rabs_right (/ 2)) by lra.
    replace ((2 * INR n + 3) * ulp1 * N) with (ulp1 * N + ulp1 * N + (2 * INR n + 1) * ulp1 * N) by ring. lra.
Qed.
