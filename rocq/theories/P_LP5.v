(** * Evaluation lemmas for points and lines, used by the concrete cases *)

From Coq Require Import Reals ZArith List Bool Lra Lia Psatz.
From Verif Require Import Num M_LP S_Geom P_LP P_LP2 P_LP3 P_LP4.
Local Open Scope R_scope.
Implicit Types (th : thrs R) (l m : line R) (p q r : pt R).

Lemma lnorm_eval th a b c s : thr_ok th -> dblEpsilon th < s -> s * s = a * a + b * b ->
  nullDenom th * s <= a -> lnorm th (mkL a b c) = Ok (mkL (a / s) (b / s) (c / s)).
Proof.
  intros Hth Hs Hq Ha. pose proof (thr_deps th Hth). pose proof (thr_deno th Hth).
  unfold lnorm; cbn [la lb lc]. rewrite (hypot_val a b s) by lra. rnum.
  rewrite (proj2 (Rleb_false _ _)) by lra. cbn [la lb lc].
  assert (D : nullDenom th <= a / s).
  { apply Rmult_le_reg_r with s; [lra|]. unfold Rdiv. rewrite Rmult_assoc, Rinv_l; lra. }
  rewrite (proj2 (Rltb_false (a / s) 0)) by lra. cbn [la lb lc].
  rewrite (proj2 (Rltb_false (Rabs _) _)); auto. rewrite Rabs_right; lra.
Qed.
Lemma lnorm_eval_neg th a b c s : thr_ok th -> dblEpsilon th < s -> s * s = a * a + b * b ->
  nullDenom th * s <= - a -> lnorm th (mkL a b c) = Ok (mkL (- a / s) (- b / s) (- c / s)).
Proof.
  intros Hth Hs Hq Ha. pose proof (lnorm_eval th (- a) (- b) (- c) s Hth Hs ltac:(lra) Ha) as H.
  eapply (lnorm_scale th _ _ (-1)) in H; auto; try lra.
  - rewrite <- H. f_equal. unfold scaleL; cbn [la lb lc]. f_equal; ring.
  - cbn [la lb]. rewrite hypot_opp, (hypot_val a b s), (Rabs_left (-1)); try lra. pose proof (thr_deps th Hth). lra.
Qed.
Lemma lnorm_eval_h th b c : thr_ok th -> dblEpsilon th < Rabs b -> lnorm th (mkL 0 b c) = Ok (mkL 0 1 (c / b)).
Proof.
  intros Hth Hs. pose proof (thr_deps th Hth). pose proof (thr_deno th Hth).
  unfold lnorm; cbn [la lb lc].
  rewrite (hypot_val 0 b (Rabs b)); [|apply Rabs_pos|rewrite <- Rabs_mult, Rabs_right; [ring|apply Rle_ge, sqp]].
  rnum. rewrite (proj2 (Rleb_false _ _)) by lra. cbn [la lb lc].
  replace (0 / Rabs b) with 0 by (unfold Rdiv; ring).
  rewrite (proj2 (Rltb_false 0 0)) by lra. cbn [la lb lc].
  rewrite Rabs_R0, (proj2 (Rltb_spec 0 (nullDenom th))) by lra.
  revert Hs. unfold Rabs. destruct (Rcase_abs b); intros.
  - replace (b / - b) with (-1) by (field; lra). rewrite (proj2 (Rltb_spec (-1) 0)) by lra.
    f_equal. f_equal; [ring|field; lra].
  - replace (b / b) with 1 by (field; lra). rewrite (proj2 (Rltb_false 1 0)) by lra. reflexivity.
Qed.

Lemma acos_big x d : 0 <= d <= 1 -> -1 <= x <= 1 - d * d / 2 -> d <= acos x.
Proof.
  intros Hd Hx. apply Rnot_lt_le. intros C.
  assert (B : 1 - d * d / 2 <= cos d).
  { destruct (pre_cos_bound d 0) as [H _]; try lra.
    eapply Rle_trans; [|exact H]. unfold cos_approx, cos_term. cbn. lra. }
  pose proof (acos_bound x) as Ha. pose proof PI2_1 as HP.
  assert (cos d < cos (acos x)) by (apply cos_decreasing_1; lra).
  rewrite cos_acos in H by nra. lra.
Qed.
(** A sufficient condition for "not parallel" on stored lines. *)
Lemma notParallel_eval th l m : thr_ok th -> unitL l -> unitL m -> nullAngleValue th <= 1 ->
  Rabs (la l * la m + lb l * lb m) <= 1 - nullAngleValue th * nullAngleValue th / 2 ->
  isParallel th l m = false.
Proof.
  intros Hth Hl Hm H1 H. unfold isParallel. apply Rltb_false.
  rewrite lineAngle_acos by (apply unit_proper; auto).
  rewrite cosL_eq, (hypot_unit _ _ Hl), (hypot_unit _ _ Hm).
  replace (1 * 1) with 1 by ring. rewrite div1. pose proof (thr_angl th Hth).
  apply acos_big; [lra|]. pose proof (Rabs_pos (la l * la m + lb l * lb m)). lra.
Qed.

Lemma dirOK_eval p q : py p = py q \/ edist p q <= 10000000000 * Rabs (py p - py q) -> dirOK thr0 p q.
Proof. unfold dirOK, thr0; cbn [nullDenom]; rnum. intros [H|H]; [auto|right; lra]. Qed.

(** Join and meet are dual. *)
Lemma join_meet th p q r l m x : thr_ok th -> dirOK th p q -> dirOK th p r ->
  lineOf th p q = Ok l -> lineOf th p r = Ok m -> meet th l m = Ok x -> x = p.
Proof.
  intros Hth D1 D2 H1 H2 Hx.
  destruct (lineOf_on _ _ _ _ Hth H1 D1) as [A1 _]. destruct (lineOf_on _ _ _ _ Hth H2 D2) as [A2 _].
  destruct (lineOf_proper _ _ _ _ Hth H1) as [U1 _]. destruct (lineOf_proper _ _ _ _ Hth H2) as [U2 _].
  symmetry. apply (meet_unique th l m x p); auto using unit_proper.
Qed.
