(** * Proofs about points and lines: order, distances, angles, meets, joins *)

From Coq Require Import Reals ZArith List Bool Lra Lia Psatz.
From Verif Require Import Num M_LP S_Geom P_LP.
Local Open Scope R_scope.
Implicit Types (th : thrs R) (l m : line R) (p q r : pt R).

(** ** Order *)

Lemma ptLt_spec p q : ptLt p q = true <-> lexlt p q.
Proof.
  unfold ptLt, lexlt; rnum.
  repeat rcase1; rclean; split; intros; auto; try discriminate; try lra.
Qed.
Lemma ptLt_false p q : ptLt p q = false <-> ~ lexlt p q.
Proof. rewrite <- ptLt_spec. destruct (ptLt p q); split; intros; auto; try discriminate. now contradiction H. Qed.
Lemma lexlt_irrefl p : ~ lexlt p p.
Proof. unfold lexlt. lra. Qed.
Lemma lexlt_trans p q r : lexlt p q -> lexlt q r -> lexlt p r.
Proof. unfold lexlt. lra. Qed.
Lemma lexlt_total p q : lexlt p q \/ p = q \/ lexlt q p.
Proof.
  destruct p as [x y], q as [u v]; unfold lexlt; cbn [px py].
  destruct (Rtotal_order x u) as [?|[?|?]]; [lra| |lra].
  destruct (Rtotal_order y v) as [?|[?|?]]; [lra| |lra].
  right; left. congruence.
Qed.
Lemma fixOrder_spec p q a b : fixOrder p q = (a, b) ->
  ~ lexlt b a /\ ((a = p /\ b = q) \/ (a = q /\ b = p)).
Proof.
  unfold fixOrder. destruct (ptLt p q) eqn:E; cbn [negb]; intros [= <- <-].
  - apply ptLt_spec in E. split; auto. intros C. apply (lexlt_irrefl p). eapply lexlt_trans; eauto.
  - apply ptLt_false in E. auto.
Qed.
Lemma fixOrder_lt p q a b : p <> q -> fixOrder p q = (a, b) -> lexlt a b.
Proof.
  intros Hn H. apply fixOrder_spec in H. destruct H as [H [[-> ->]|[-> ->]]].
  - destruct (lexlt_total p q) as [|[|]]; tauto.
  - destruct (lexlt_total p q) as [|[|]]; try tauto.
Qed.
Lemma fixOrder_sym p q : fixOrder p q = fixOrder q p.
Proof.
  unfold fixOrder. destruct (lexlt_total p q) as [H|[->|H]].
  - rewrite (proj2 (ptLt_spec p q) H). assert (ptLt q p = false) as ->; [|reflexivity].
    apply ptLt_false. intros C. apply (lexlt_irrefl p). eapply lexlt_trans; eauto.
  - reflexivity.
  - rewrite (proj2 (ptLt_spec q p) H). assert (ptLt p q = false) as ->; [|reflexivity].
    apply ptLt_false. intros C. apply (lexlt_irrefl p). eapply lexlt_trans; eauto.
Qed.
Lemma fixOrder_id p q : lexlt p q -> fixOrder p q = (p, q).
Proof. intros H. unfold fixOrder. now rewrite (proj2 (ptLt_spec p q) H). Qed.

(** ** Equality of points *)

Lemma ptEq_spec th p q : ptEq th p q = true <-> edist p q < nullDistance th.
Proof. unfold ptEq. rewrite distPP_edist. apply Rltb_spec. Qed.
Lemma ptEq_false th p q : ptEq th p q = false <-> nullDistance th <= edist p q.
Proof. unfold ptEq. rewrite distPP_edist. apply Rltb_false. Qed.
Lemma ptEq_refl th p : thr_ok th -> ptEq th p p = true.
Proof. intros H. apply ptEq_spec. rewrite edist_refl. apply (thr_dist th H). Qed.
Lemma ptEq_sym th p q : ptEq th p q = ptEq th q p.
Proof. unfold ptEq. now rewrite !distPP_edist, edist_sym. Qed.
Lemma ptEq_neq th p q : thr_ok th -> ptEq th p q = false -> p <> q.
Proof. intros H E ->. rewrite ptEq_refl in E; auto. discriminate. Qed.

(** ** Cauchy-Schwarz and triangle inequality *)

Lemma cauchy a b x y : Rabs (a * x + b * y) <= hypot a b * hypot x y.
Proof.
  apply Rsqr_incr_0_var; [|apply Rmult_le_pos; apply hypot_nonneg].
  rewrite <- Rsqr_abs. unfold Rsqr.
  replace (hypot a b * hypot x y * (hypot a b * hypot x y)) with ((hypot a b * hypot a b) * (hypot x y * hypot x y)) by ring.
  rewrite !hypot_sq.
  pose proof (sqp (a * y - b * x)). lra.
Qed.

Lemma edist_hypot p q : edist p q = hypot (px p - px q) (py p - py q).
Proof. reflexivity. Qed.

Lemma hypot_triang a b x y : hypot (a + x) (b + y) <= hypot a b + hypot x y.
Proof.
  pose proof (hypot_nonneg a b). pose proof (hypot_nonneg x y).
  apply Rsqr_incr_0_var; [|lra]. unfold Rsqr.
  replace ((hypot a b + hypot x y) * (hypot a b + hypot x y))
    with (hypot a b * hypot a b + hypot x y * hypot x y + 2 * (hypot a b * hypot x y)) by ring.
  rewrite !hypot_sq. pose proof (cauchy a b x y). pose proof (Rle_abs (a * x + b * y)). lra.
Qed.
Lemma edist_triang p q r : edist p r <= edist p q + edist q r.
Proof.
  rewrite !edist_hypot.
  replace (px p - px r) with ((px p - px q) + (px q - px r)) by ring.
  replace (py p - py r) with ((py p - py q) + (py q - py r)) by ring.
  apply hypot_triang.
Qed.

(** ** Distance from a point to a line *)

Lemma proper_hypot l : proper l -> 0 < hypot (la l) (lb l).
Proof. apply hypot_pos. Qed.
Lemma unit_proper l : unitL l -> proper l.
Proof.
  unfold unitL, proper. intros H. destruct (Req_dec (la l) 0) as [E|]; auto.
  right. intros E'. rewrite E, E' in H. lra.
Qed.

Lemma lineDist_lower l p q : proper l -> onL l q -> lineDist l p <= edist p q.
Proof.
  intros Hp Hq. pose proof (proper_hypot l Hp). unfold lineDist; rnum.
  apply Rmult_le_reg_r with (hypot (la l) (lb l)); auto.
  unfold Rdiv. rewrite Rmult_assoc, Rinv_l, Rmult_1_r by lra.
  replace (la l * px p + lb l * py p + lc l) with (la l * (px p - px q) + lb l * (py p - py q))
    by (unfold onL in Hq; lra).
  rewrite edist_hypot, (Rmult_comm (hypot (px p - px q) _)). apply cauchy.
Qed.

Definition proj l p : pt R :=
  let d := (la l * px p + lb l * py p + lc l) / (la l * la l + lb l * lb l) in
  mkPt (px p - la l * d) (py p - lb l * d).

Lemma proper_sq l : proper l -> 0 < la l * la l + lb l * lb l.
Proof. intros H. rewrite <- hypot_sq. pose proof (proper_hypot l H). now apply Rmult_lt_0_compat. Qed.

Lemma proj_on l p : proper l -> onL l (proj l p).
Proof. intros H. apply proper_sq in H. unfold onL, proj; cbn [px py]. field. lra. Qed.

Lemma proj_dist l p : proper l -> edist p (proj l p) = lineDist l p.
Proof.
  intros H. rewrite edist_hypot. unfold proj, lineDist; cbn [px py]. rnum.
  set (d := la l * px p + lb l * py p + lc l).
  pose proof (proper_hypot l H) as Hh. pose proof (proper_sq l H) as Hs.
  set (n := la l * la l + lb l * lb l) in *.
  replace (px p - (px p - la l * (d / n))) with ((d / n) * la l) by ring.
  replace (py p - (py p - lb l * (d / n))) with ((d / n) * lb l) by ring.
  rewrite hypot_scale. unfold Rdiv at 1. rewrite Rabs_mult.
  rewrite (Rabs_right (/ n)) by (apply Rle_ge, Rlt_le, Rinv_0_lt_compat; lra).
  unfold n at 1. rewrite <- hypot_sq. field. lra.
Qed.

Lemma lineDist_nonneg l p : proper l -> 0 <= lineDist l p.
Proof.
  intros H. unfold lineDist; rnum. apply Rmult_le_pos; [apply Rabs_pos|].
  apply Rlt_le, Rinv_0_lt_compat. now apply proper_hypot.
Qed.
Lemma lineDist_zero l p : proper l -> (lineDist l p = 0 <-> onL l p).
Proof.
  intros H. pose proof (proper_hypot l H). unfold lineDist, onL; rnum. split.
  - intros E. apply Rmult_integral in E. destruct E as [E|E].
    + destruct (Req_dec (la l * px p + lb l * py p + lc l) 0); auto. apply Rabs_no_R0 in H1. tauto.
    + pose proof (Rinv_0_lt_compat _ H0). lra.
  - intros ->. rewrite Rabs_R0. unfold Rdiv. ring.
Qed.
Lemma lineDist_unit l p : unitL l -> lineDist l p = Rabs (la l * px p + lb l * py p + lc l).
Proof. intros H. unfold lineDist. rewrite (hypot_unit _ _ H). rnum. apply div1. Qed.

(** ** Angles *)

Definition cosL l m : R :=
  Rabs ((la l * la m + lb l * lb m) / sqrt ((la l * la l + lb l * lb l) * (la m * la m + lb m * lb m))).

Lemma cosL_eq l m : cosL l m = Rabs (la l * la m + lb l * lb m) / (hypot (la l) (lb l) * hypot (la m) (lb m)).
Proof.
  unfold cosL. rewrite sqrt_mult_alt by (pose proof (sqp (la l)); pose proof (sqp (lb l)); lra).
  change (sqrt (la l * la l + lb l * lb l)) with (hypot (la l) (lb l)).
  change (sqrt (la m * la m + lb m * lb m)) with (hypot (la m) (lb m)).
  unfold Rdiv. rewrite Rabs_mult. f_equal.
  pose proof (hypot_nonneg (la l) (lb l)) as H1. pose proof (hypot_nonneg (la m) (lb m)) as H2.
  pose proof (Rmult_le_pos _ _ H1 H2) as H3.
  destruct H3 as [H3|H3].
  - apply Rabs_right. apply Rle_ge, Rlt_le, Rinv_0_lt_compat. lra.
  - rewrite <- H3. rewrite Rinv_0. apply Rabs_R0.
Qed.
Lemma cosL_range l m : proper l -> proper m -> 0 <= cosL l m <= 1.
Proof.
  intros Hl Hm. split; [apply Rabs_pos|]. rewrite cosL_eq.
  pose proof (proper_hypot l Hl). pose proof (proper_hypot m Hm).
  assert (0 < hypot (la l) (lb l) * hypot (la m) (lb m)) by now apply Rmult_lt_0_compat.
  apply Rmult_le_reg_r with (hypot (la l) (lb l) * hypot (la m) (lb m)); auto.
  unfold Rdiv. rewrite Rmult_assoc, Rinv_l, Rmult_1_r, Rmult_1_l by lra. apply cauchy.
Qed.
(** The clamp to 1 is never active in exact arithmetic. *)
Lemma lineAngle_acos l m : proper l -> proper m -> lineAngle l m = acos (cosL l m).
Proof.
  intros Hl Hm. pose proof (cosL_range l m Hl Hm) as Hr. unfold lineAngle; rnum.
  change (Rabs _) with (cosL l m).
  destruct (Rltb 1 (cosL l m)) eqn:E; rclean; [lra|reflexivity].
Qed.
Lemma cosL_sym l m : cosL l m = cosL m l.
Proof.
  unfold cosL. rewrite (Rmult_comm (la l) (la m)), (Rmult_comm (lb l) (lb m)).
  now rewrite (Rmult_comm (la l * la l + lb l * lb l)).
Qed.
Lemma lineAngle_sym l m : proper l -> proper m -> lineAngle l m = lineAngle m l.
Proof. intros. rewrite !lineAngle_acos by auto. now rewrite cosL_sym. Qed.

Lemma acos_le_pi2 x : 0 <= x <= 1 -> 0 <= acos x <= PI / 2.
Proof.
  intros H. pose proof (acos_bound x). split; [lra|].
  apply Rnot_lt_le. intros C.
  pose proof (cos_acos x ltac:(lra)) as E.
  assert (cos (acos x) < 0); [|lra]. apply cos_lt_0; pose proof PI_RGT_0; lra.
Qed.
Lemma lineAngle_range l m : proper l -> proper m -> 0 <= lineAngle l m <= PI / 2.
Proof. intros. rewrite lineAngle_acos by auto. apply acos_le_pi2. now apply cosL_range. Qed.

Lemma cosL_sq l m : proper l -> proper m ->
  cosL l m * cosL l m * ((la l * la l + lb l * lb l) * (la m * la m + lb m * lb m))
  = (la l * la m + lb l * lb m) * (la l * la m + lb l * lb m).
Proof.
  intros Hl Hm. rewrite cosL_eq, <- !hypot_sq.
  pose proof (proper_hypot l Hl). pose proof (proper_hypot m Hm).
  set (u := hypot (la l) (lb l)) in *. set (v := hypot (la m) (lb m)) in *.
  replace (Rabs (la l * la m + lb l * lb m) / (u * v) * (Rabs (la l * la m + lb l * lb m) / (u * v)) * (u * u * (v * v)))
   with (Rabs (la l * la m + lb l * lb m) * Rabs (la l * la m + lb l * lb m)) by (field; lra).
  symmetry. apply Rsqr_abs.
Qed.
Lemma cosL_para l m : proper l -> proper m -> (paraL l m <-> cosL l m = 1).
Proof.
  intros Hl Hm. pose proof (cosL_sq l m Hl Hm) as E. pose proof (cosL_range l m Hl Hm) as Hr.
  pose proof (proper_sq l Hl). pose proof (proper_sq m Hm).
  assert (P0 : 0 < (la l * la l + lb l * lb l) * (la m * la m + lb m * lb m)) by now apply Rmult_lt_0_compat.
  assert (L : (la l * la m + lb l * lb m) * (la l * la m + lb l * lb m)
          + (la l * lb m - lb l * la m) * (la l * lb m - lb l * la m)
          = (la l * la l + lb l * lb l) * (la m * la m + lb m * lb m)) by ring.
  unfold paraL. split; intros H1.
  - rewrite H1 in L. rewrite <- E in L.
    set (n := (la l * la l + lb l * lb l) * (la m * la m + lb m * lb m)) in *.
    assert ((cosL l m * cosL l m - 1) * n = 0) by lra.
    apply Rmult_integral in H2. destruct H2; [|lra]. nra.
  - rewrite H1 in E. rewrite <- E in L.
    assert (Z : (la l * lb m - lb l * la m) * (la l * lb m - lb l * la m) = 0) by lra.
    apply Rmult_integral in Z. tauto.
Qed.
Lemma lineAngle_para l m : proper l -> proper m -> (lineAngle l m = 0 <-> paraL l m).
Proof.
  intros Hl Hm. rewrite lineAngle_acos by auto. rewrite cosL_para by auto.
  pose proof (cosL_range l m Hl Hm). split; intros E.
  - rewrite <- (cos_acos (cosL l m)) by lra. rewrite E. apply cos_0.
  - rewrite E. apply acos_1.
Qed.
Lemma lineAngle_ortho l m : proper l -> proper m -> (lineAngle l m = PI / 2 <-> orthoL l m).
Proof.
  intros Hl Hm. rewrite lineAngle_acos by auto. pose proof (cosL_range l m Hl Hm).
  pose proof (cosL_sq l m Hl Hm) as E.
  pose proof (proper_sq l Hl). pose proof (proper_sq m Hm).
  assert (P0 : 0 < (la l * la l + lb l * lb l) * (la m * la m + lb m * lb m)) by now apply Rmult_lt_0_compat.
  unfold orthoL. split; intros E1.
  - assert (cosL l m = 0) by (rewrite <- (cos_acos (cosL l m)) by lra; rewrite E1; apply cos_PI2).
    rewrite H2 in E. assert (Z : (la l * la m + lb l * lb m) * (la l * la m + lb l * lb m) = 0) by lra.
    apply Rmult_integral in Z. tauto.
  - assert (cosL l m = 0); [|rewrite H2; apply acos_0].
    unfold cosL. rewrite E1. unfold Rdiv. rewrite Rmult_0_l. apply Rabs_R0.
Qed.

Lemma isParallel_sym th l m : proper l -> proper m -> isParallel th l m = isParallel th m l.
Proof. intros. unfold isParallel. now rewrite lineAngle_sym. Qed.
Lemma isParallel_para th l m : thr_ok th -> proper l -> proper m -> paraL l m -> isParallel th l m = true.
Proof.
  intros Hth Hl Hm H. unfold isParallel. apply Rltb_spec.
  rewrite (proj2 (lineAngle_para l m Hl Hm) H). apply (thr_angl th Hth).
Qed.
Lemma notParallel_cross th l m : thr_ok th -> proper l -> proper m -> isParallel th l m = false ->
  la l * lb m - lb l * la m <> 0.
Proof. intros Hth Hl Hm H C. rewrite (isParallel_para th l m) in H; auto. discriminate. Qed.

(** ** Intersection of lines *)

Lemma meet_inv th l m q : thr_ok th -> proper l -> proper m -> meet th l m = Ok q ->
  la l * lb m - lb l * la m <> 0 /\
  px q = (lb l * lc m - lc l * lb m) / (la l * lb m - lb l * la m) /\
  py q = (lc l * la m - la l * lc m) / (la l * lb m - lb l * la m).
Proof.
  intros Hth Hl Hm H. unfold meet, meetH in H.
  destruct (isParallel th l m) eqn:E; [discriminate|].
  pose proof (notParallel_cross th l m Hth Hl Hm E) as Hc.
  cbn [bind] in H. unfold ptOfH, crossLL in H. cbn [h0 h1 h2] in H. rnum.
  destruct (Reqb _ 0) eqn:E0; [discriminate|]. injection H as <-. auto.
Qed.
Lemma meet_total th l m : thr_ok th -> proper l -> proper m ->
  isParallel th l m = false -> exists q, meet th l m = Ok q.
Proof.
  intros Hth Hl Hm E. unfold meet, meetH. rewrite E. cbn [bind].
  unfold ptOfH, crossLL. cbn [h0 h1 h2]. rnum.
  destruct (Reqb _ 0) eqn:E0; rclean; eauto. exfalso.
  now apply (notParallel_cross th l m Hth Hl Hm E).
Qed.
Lemma meet_on th l m q : thr_ok th -> proper l -> proper m -> meet th l m = Ok q -> onL l q /\ onL m q.
Proof.
  intros Hth Hl Hm H. destruct (meet_inv th l m q Hth Hl Hm H) as (Hc & Hx & Hy).
  unfold onL. rewrite Hx, Hy. split; field; auto.
Qed.
Lemma cross_unique l m p q : la l * lb m - lb l * la m <> 0 -> onL l p -> onL m p -> onL l q -> onL m q -> p = q.
Proof.
  unfold onL. intros Hc A B C D. destruct p as [x y], q as [u v]; cbn [px py] in *.
  assert (E1 : la l * (x - u) + lb l * (y - v) = 0) by lra.
  assert (E2 : la m * (x - u) + lb m * (y - v) = 0) by lra.
  assert (F1 : (la l * lb m - lb l * la m) * (x - u) = 0).
  { replace ((la l * lb m - lb l * la m) * (x - u))
      with (lb m * (la l * (x - u) + lb l * (y - v)) - lb l * (la m * (x - u) + lb m * (y - v))) by ring.
    rewrite E1, E2. ring. }
  assert (F2 : (la l * lb m - lb l * la m) * (y - v) = 0).
  { replace ((la l * lb m - lb l * la m) * (y - v))
      with (la l * (la m * (x - u) + lb m * (y - v)) - la m * (la l * (x - u) + lb l * (y - v))) by ring.
    rewrite E1, E2. ring. }
  apply Rmult_integral in F1. apply Rmult_integral in F2.
  destruct F1; [tauto|]. destruct F2; [tauto|]. f_equal; lra.
Qed.
Lemma meet_unique th l m q r : thr_ok th -> proper l -> proper m -> meet th l m = Ok q ->
  onL l r -> onL m r -> r = q.
Proof.
  intros Hth Hl Hm H A B. destruct (meet_on th l m q Hth Hl Hm H).
  destruct (meet_inv th l m q Hth Hl Hm H) as [Hc _].
  eapply cross_unique; eauto.
Qed.
Lemma meet_sym th l m : thr_ok th -> proper l -> proper m -> meet th l m = meet th m l.
Proof.
  intros Hth Hl Hm. destruct (isParallel th l m) eqn:E.
  - unfold meet, meetH. rewrite (isParallel_sym th m l) by auto. now rewrite E.
  - destruct (meet_total th l m Hth Hl Hm E) as [q Hq].
    destruct (meet_total th m l Hth Hm Hl) as [q' Hq']; [now rewrite isParallel_sym|].
    rewrite Hq, Hq'. f_equal. symmetry.
    destruct (meet_on th m l q' Hth Hm Hl Hq').
    apply (meet_unique th l m q q'); auto.
Qed.

(** ** Line through two points *)

Lemma lineOf_inv th p q l : lineOf th p q = Ok l ->
  nullDistance th <= edist p q /\
  lnorm th (mkL (py p - py q) (px q - px p) (px p * py q - py p * px q)) = Ok l.
Proof.
  unfold lineOf. destruct (ptEq th p q) eqn:E; [discriminate|]. intros H. split; [now apply ptEq_false|].
  rewrite <- H. f_equal. unfold crossPP, hOfPt; cbn [h0 h1 h2]; rnum. f_equal; ring.
Qed.
Lemma lineOf_hypot p q : hypot (py p - py q) (px q - px p) = edist p q.
Proof. rewrite edist_hypot. unfold hypot; rnum. f_equal. ring. Qed.
Lemma lineOf_proper th p q l : thr_ok th -> lineOf th p q = Ok l -> unitL l /\ 0 <= la l.
Proof. intros Hth H. apply lineOf_inv in H. destruct H as [_ H]. now apply lnorm_unit in H. Qed.


Lemma lineOf_same th p q l : thr_ok th -> lineOf th p q = Ok l -> dirOK th p q ->
  sameLine l (mkL (py p - py q) (px q - px p) (px p * py q - py p * px q)).
Proof.
  intros Hth H Hd. apply lineOf_inv in H. destruct H as [_ H].
  apply (lnorm_same _ _ _ Hth H). cbn [la lb]. rewrite lineOf_hypot.
  destruct Hd as [E|E]; [left; lra|right; exact E].
Qed.
Lemma lineOf_on th p q l : thr_ok th -> lineOf th p q = Ok l -> dirOK th p q -> onL l p /\ onL l q.
Proof.
  intros Hth H Hd. pose proof (lineOf_same th p q l Hth H Hd) as S.
  split; apply S; unfold onL; cbn [la lb lc]; ring.
Qed.
Lemma lineOf_total th p q : thr_ok th -> nullDistance th <= edist p q -> dblEpsilon th < edist p q ->
  exists l, lineOf th p q = Ok l.
Proof.
  intros Hth H He. unfold lineOf. rewrite (proj2 (ptEq_false th p q) H).
  apply lnorm_ok. unfold crossPP, hOfPt; cbn [h0 h1 h2 la lb]; rnum.
  replace (py p * 1 - 1 * py q) with (py p - py q) by ring.
  replace (1 * px q - px p * 1) with (px q - px p) by ring.
  now rewrite lineOf_hypot.
Qed.
