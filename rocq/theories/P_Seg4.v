(** * Lemmas about segments: angles, orthogonal points, segment/line, examples *)

From Coq Require Import Reals ZArith List Bool Lra Psatz.
From Verif Require Import Num M_LP M_Seg S_Geom S_Seg P_LP P_LP2 P_LP3 P_LP4 P_LP5 P_Seg P_Seg2 P_Seg3.
Import ListNotations.
Local Open Scope R_scope.
Implicit Types (p q r a b A B : pt R) (s : seg R) (l : line R) (th : thrs R).

(** ** atan2 *)
Lemma cos_atan_hyp x y : 0 < x -> cos (atan (y / x)) = x / hypot x y /\ sin (atan (y / x)) = y / hypot x y.
Proof.
  intros Hx. set (t := atan (y / x)).
  assert (B : - PI / 2 < t < PI / 2) by apply atan_bound.
  assert (C : 0 < cos t) by (apply cos_gt_0; lra).
  assert (T : tan t = y / x) by apply tan_atan. unfold tan in T.
  assert (S : sin t * x = y * cos t). { apply (Rmult_eq_reg_r (/ cos t)); [|apply Rinv_neq_0_compat; lra].
    replace (sin t * x * / cos t) with (sin t / cos t * x) by (field; lra). rewrite T. field. lra. }
  pose proof (sin2_cos2 t) as E. unfold Rsqr in E.
  assert (H : hypot x y * cos t = x).
  { assert (P : 0 < hypot x y) by (apply hypot_pos; left; lra). pose proof (hypot_sq x y) as Q.
    assert (K : (hypot x y * cos t) * (hypot x y * cos t) = x * x).
    { replace (hypot x y * cos t * (hypot x y * cos t)) with ((hypot x y * hypot x y) * (cos t * cos t)) by ring.
      rewrite Q. replace ((x * x + y * y) * (cos t * cos t)) with (x * x * (cos t * cos t) + (y * cos t) * (y * cos t)) by ring.
      rewrite <- S. replace (x * x * (cos t * cos t) + sin t * x * (sin t * x)) with (x * x * (sin t * sin t + cos t * cos t)) by ring.
      rewrite E. ring. }
    assert (0 < hypot x y * cos t) by (apply Rmult_lt_0_compat; auto).
    assert (K' : (hypot x y * cos t - x) * (hypot x y * cos t + x) = 0) by lra.
    apply Rmult_integral in K'. lra. }
  assert (P : 0 < hypot x y) by (apply hypot_pos; left; lra).
  split.
  - apply (Rmult_eq_reg_l (hypot x y)); [|lra]. rewrite H. field. lra.
  - apply (Rmult_eq_reg_r x); [|lra]. rewrite S. apply (Rmult_eq_reg_l (hypot x y)); [|lra].
    replace (hypot x y * (y * cos t)) with (y * (hypot x y * cos t)) by ring. rewrite H. field. lra.
Qed.
Lemma hypot_neg1 x y : hypot (- x) y = hypot x y.
Proof. unfold hypot; rnum. f_equal. ring. Qed.
Lemma Ratan2_spec x y : x <> 0 \/ y <> 0 ->
  cos (Ratan2 y x) = x / hypot x y /\ sin (Ratan2 y x) = y / hypot x y /\ - PI < Ratan2 y x <= PI.
Proof.
  intros H. pose proof PI_RGT_0 as PP. unfold Ratan2. pose proof (atan_bound (y / x)) as AB.
  destruct (Rlt_dec 0 x).
  { destruct (cos_atan_hyp x y r). repeat split; auto; lra. }
  destruct (Rlt_dec x 0).
  { destruct (cos_atan_hyp (- x) (- y) ltac:(lra)) as [C S]. rewrite hypot_opp in *.
    replace (- y / - x) with (y / x) in * by (field; lra).
    assert (Hp : 0 < hypot x y) by (apply hypot_pos; left; lra).
    destruct (Rle_dec 0 y).
    - rewrite neg_cos, neg_sin, C, S. repeat split; try (field; lra); try lra.
      assert (y / x <= 0). { replace (y / x) with (- (y / - x)) by (field; lra).
        assert (0 <= y / - x) by (apply Rmult_le_pos; [lra|apply Rlt_le, Rinv_0_lt_compat; lra]). lra. }
      assert (atan (y / x) <= 0). { destruct (Req_dec (y / x) 0) as [E|E]; [rewrite E, atan_0; lra|].
        rewrite <- atan_0. apply Rlt_le, atan_increasing. lra. } lra.
    - assert (0 < y / x). { replace (y / x) with ((- y) / - x) by (field; lra). apply Rdiv_lt_0_compat; lra. }
      assert (0 < atan (y / x)). { rewrite <- atan_0. apply atan_increasing. auto. }
      replace (atan (y / x) - PI) with (- (- atan (y / x) + PI)) by ring.
      rewrite cos_neg, sin_neg, neg_cos, neg_sin, cos_neg, sin_neg, C, S.
      repeat split; try (field; lra); lra. }
  assert (Hx : x = 0) by lra. subst x.
  destruct (Rlt_dec 0 y); [|destruct (Rlt_dec y 0)].
  - rewrite cos_PI2, sin_PI2, (hypot_val 0 y y) by lra. repeat split; try (field; lra); lra.
  - rewrite cos_neg, sin_neg, cos_PI2, sin_PI2, (hypot_val 0 y (- y)) by lra. repeat split; try (field; lra); lra.
  - exfalso. lra.
Qed.
Lemma svAngleO_spec s s' : sA s <> sB s -> sA s' <> sB s' ->
  let t := svAngleO s s' in
  let (x, y) := svVector s in let (x', y') := svVector s' in
  let k := edist (sA s') (sB s') / edist (sA s) (sB s) in
  0 < k /\ x' = k * (x * cos t - y * sin t) /\ y' = k * (x * sin t + y * cos t) /\ - PI < t <= PI.
Proof.
  intros H H'. cbv zeta. unfold svAngleO, svVector; rnum.
  pose proof (edist_neq _ _ H) as L. pose proof (edist_neq _ _ H') as L'.
  pose proof (edist_sq (sA s) (sB s)) as S. pose proof (edist_sq (sA s') (sB s')) as S'.
  set (x := px (sB s) - px (sA s)) in *. set (y := py (sB s) - py (sA s)) in *.
  set (x' := px (sB s') - px (sA s')) in *. set (y' := py (sB s') - py (sA s')) in *.
  set (l := edist (sA s) (sB s)) in *. set (l' := edist (sA s') (sB s')) in *.
  assert (E : l * l = x * x + y * y) by (rewrite S; unfold x, y; ring).
  assert (E' : l' * l' = x' * x' + y' * y') by (rewrite S'; unfold x', y'; ring).
  set (D := x * x' + y * y'). set (C := x * y' - y * x').
  assert (Hyp : hypot D C = l * l').
  { apply hypot_val. { apply Rmult_le_pos; lra. }
    replace (l * l' * (l * l')) with ((l * l) * (l' * l')) by ring. rewrite E, E'. unfold D, C. ring. }
  assert (HP : 0 < l * l') by (apply Rmult_lt_0_compat; auto).
  destruct (Ratan2_spec D C) as (Co & Si & B).
  { destruct (Req_dec D 0) as [Z|]; [|now left]. right. intros Z'. rewrite Z, Z' in Hyp.
    rewrite (hypot_val 0 0 0) in Hyp by lra. lra. }
  rewrite Hyp in *. split. { apply Rdiv_lt_0_compat; auto. }
  split; [|split; [|auto]]; rewrite Co, Si.
  - assert (Q : x * D - y * C = (l * l) * x') by (rewrite E; unfold D, C; ring).
    replace (l' / l * (x * (D / (l * l')) - y * (C / (l * l')))) with ((x * D - y * C) / (l * l)) by (field; lra).
    rewrite Q. field. lra.
  - assert (Q : x * C + y * D = (l * l) * y') by (rewrite E; unfold D, C; ring).
    replace (l' / l * (x * (C / (l * l')) + y * (D / (l * l')))) with ((x * C + y * D) / (l * l)) by (field; lra).
    rewrite Q. field. lra.
Qed.

(** ** Orthogonal points *)
Lemma svOrthogPts_spec s : exists a b c d, svOrthogPts s = [a; b; c; d] /\
  (forall e, In e [(sA s, a); (sA s, b); (sB s, c); (sB s, d)] ->
     edist (fst e) (snd e) = edist (sA s) (sB s) /\
     (px (snd e) - px (fst e)) * (px (sB s) - px (sA s)) + (py (snd e) - py (fst e)) * (py (sB s) - py (sA s)) = 0) /\
  svCenter (mkSeg a b) = sA s /\ svCenter (mkSeg c d) = sB s /\
  px b - px a = px c - px d /\ py b - py a = py c - py d.
Proof.
  unfold svOrthogPts; rnum. do 4 eexists. split; [reflexivity|]. split.
  - intros e He. repeat (destruct He as [<- | He]; [|]); try contradiction; cbn [fst snd]; (split;
      [apply edist_val; [apply edist_pos|]; rewrite edist_sq; cbn [px py]; ring|cbn [px py]; ring]).
  - unfold svCenter; cbn [sA sB px py]; rnum. repeat split; try (apply pt_eq; cbn [px py]; field); ring.
Qed.

(** ** Segment/line *)
Lemma segInterLine_sound th s l p : thr_ok th -> unitL l -> dirOK th (sA s) (sB s) ->
  segInterLine th s l = Ok (Some p) ->
  onL l p /\ cross3 (sA s) (sB s) p = 0 /\ exists x, segHas s x /\ edist p x < nullDistance th / 2.
Proof.
  intros Hth U D. unfold segInterLine. intros H.
  apply bind_ok in H. destruct H as (l2 & E2 & H).
  destruct (isParallel th l l2) eqn:Ep; [discriminate|]. apply bind_ok in H. destruct H as (q & Eq & H). rnum.
  unfold svLength in H. change (@distPP R RNum) with edist in H.
  destruct (Rltb _ _) eqn:C1 in H; [|discriminate]. injection H as ->. rclean.
  destruct (lineOf_proper th _ _ _ Hth E2) as [U2 _].
  destruct (meet_on th l l2 p Hth (unit_proper _ U) (unit_proper _ U2) Eq) as [O1 O2].
  pose proof (line_cross0 th s l2 p Hth E2 D O2) as Z2. split; auto. split; auto.
  destruct (lineOf_inv _ _ _ _ E2) as [N2 _]. pose proof (thr_dist th Hth) as T.
  apply near_seg; auto.
  - intros E. rewrite E, edist_refl in N2. lra.
  - apply Rle_lt_trans with (2 := C1). apply RRle_abs.
Qed.
Lemma segInterLine_complete th s p l l' : thr_ok th -> unitL l -> dirOK th (sA s) (sB s) ->
  svLine th s = Ok l' -> isParallel th l l' = false -> segHas s p -> onL l p -> segInterLine th s l = Ok (Some p).
Proof.
  intros Hth U D E2 Ep H H'. unfold segInterLine. rewrite E2. cbn [bind]. rewrite Ep.
  destruct (lineOf_proper th _ _ _ Hth E2) as [U2 _].
  destruct (meet_total th l l' Hth (unit_proper _ U) (unit_proper _ U2) Ep) as (q & Em). rewrite Em. cbn [bind].
  assert (p = q).
  { eapply (meet_unique th l l'); eauto using unit_proper, seg_on_line. }
  subst q. unfold svLength. change (@distPP R RNum) with edist. rnum. pose proof (thr_dist th Hth) as T.
  rewrite (onSeg_dist _ _ _ H). rewrite Rminus_diag_eq, Rabs_R0 by reflexivity.
  rewrite (proj2 (Rltb_spec 0 _) T). reflexivity.
Qed.

(** ** A concrete segment for the examples: (1,2)-(4,6), length 5 *)
Definition xS : seg R := mkSeg (mkPt 1 2) (mkPt 4 6).
Lemma xS_len : edist (sA xS) (sB xS) = 5.
Proof. apply edist_val; cbn [sA sB xS px py]; lra. Qed.
Lemma xS_ok : okSeg thr0 xS /\ dirOK thr0 (sA xS) (sB xS) /\ vertOK thr0 (sA xS) (sB xS) /\ lexlt (sA xS) (sB xS).
Proof.
  unfold okSeg, dirOK, vertOK. rewrite xS_len. unfold thr0; cbn [nullDistance dblEpsilon nullDenom]; rnum.
  cbn [sA sB xS px py]. repeat split; try lra.
  - right. rewrite Rabs_left; lra.
  - right. rewrite Rabs_left; lra.
  - left. cbn [px]. lra.
Qed.
Definition xS2 : seg R := mkSeg (mkPt 1 6) (mkPt 4 2).
Lemma xS2_len : edist (sA xS2) (sB xS2) = 5.
Proof. apply edist_val; cbn [sA sB xS2 px py]; lra. Qed.
Lemma xS2_ok : okSeg thr0 xS2 /\ dirOK thr0 (sA xS2) (sB xS2).
Proof.
  unfold okSeg, dirOK. rewrite xS2_len. unfold thr0; cbn [nullDistance dblEpsilon nullDenom]; rnum.
  cbn [sA sB xS2 px py]. repeat split; try lra.
  right. rewrite Rabs_right; lra.
Qed.
Lemma xS_line : svLine thr0 xS = Ok (mkL (4 / 5) (- (3 / 5)) (2 / 5)).
Proof.
  unfold svLine, lineOf. rewrite (proj2 (ptEq_false thr0 _ _)) by apply xS_ok.
  pose proof (lnorm_eval_neg thr0 (-4) 3 (-2) 5 thr0_ok) as E.
  replace (crossPP (hOfPt (sA xS)) (hOfPt (sB xS))) with (mkL (-4) 3 (-2)).
  - rewrite E; [f_equal; f_equal; field| | |]; unfold thr0; cbn [dblEpsilon nullDenom]; rnum; lra.
  - unfold crossPP, hOfPt; cbn [h0 h1 h2 sA sB xS px py]; rnum. f_equal; ring.
Qed.
Lemma xS2_line : svLine thr0 xS2 = Ok (mkL (4 / 5) (3 / 5) (- (22 / 5))).
Proof.
  unfold svLine, lineOf. rewrite (proj2 (ptEq_false thr0 _ _)) by apply xS2_ok.
  pose proof (lnorm_eval thr0 4 3 (-22) 5 thr0_ok) as E.
  replace (crossPP (hOfPt (sA xS2)) (hOfPt (sB xS2))) with (mkL 4 3 (-22)).
  - rewrite E; [f_equal; f_equal; field| | |]; unfold thr0; cbn [dblEpsilon nullDenom]; rnum; lra.
  - unfold crossPP, hOfPt; cbn [h0 h1 h2 sA sB xS2 px py]; rnum. f_equal; ring.
Qed.
Lemma xS_notpar : isParallel thr0 (mkL (4 / 5) (- (3 / 5)) (2 / 5)) (mkL (4 / 5) (3 / 5) (- (22 / 5))) = false.
Proof.
  apply notParallel_eval; auto using thr0_ok; try (unfold unitL; cbn [la lb]; lra).
  - unfold thr0; cbn [nullAngleValue]; rnum; lra.
  - cbn [la lb]. unfold thr0; cbn [nullAngleValue]; rnum. rewrite Rabs_right; lra.
Qed.
