(** * C135, C136: common tangents of two circles *)

From Coq Require Import Reals Lra Psatz List Bool.
From Verif Require Import Num M_LP M_Homogr M_Seg M_Circle M_Offset S_Geom S_Homogr S_Seg P_LP P_LP2 P_LP3 P_LP4 P_Homogr3 P_Seg P_Seg2 P_Seg3 P_Poly7 S_Tan P_Tan.
Import ListNotations.
Local Open Scope R_scope.

Lemma ext_sym c d a b : extTangent c d a b <-> extTangent d c b a.
Proof. split; intros (x & y & U & A & B & O); exists x, y; repeat split; auto; lra. Qed.
Lemma ends_sym s a b : hasEnds s a b -> hasEnds s b a.
Proof. intros [H|H]; [right|left]; tauto. Qed.

(** The first circle is the bigger one. *)
Lemma tan_big th c d : thr_ok th -> nullDeter th <= 1 -> 0 < cr d -> cr d + nullDistance th <= cr c -> cr c - cr d < edist (cc c) (cc d) ->
  clearPair th (cc c) (cc d) -> (forall a b, extTangent c d a b -> clearPair th a b) ->
  exists r1 r2 a1 b1 a2 b2, (tanSegs th c d = Ok (r1, r2) /\ tanSegs th d c = Ok (r1, r2)) /\ hasEnds r1 a1 b1 /\ hasEnds r2 a2 b2 /\
    (forall a b, extTangent c d a b <-> (a = a1 /\ b = b1) \/ (a = a2 /\ b = b2)) /\ a1 <> a2.
Proof.
  intros Ht HD Rd Rc Hh CC CT. pose proof (thr_dist th Ht) as T. set (h := edist (cc c) (cc d)) in *. set (q := (cr c - cr d) / h).
  assert (0 < h) as H0 by lra. assert (cc c <> cc d) as HN by (intros E; unfold h in H0; rewrite E, edist_refl in H0; lra).
  assert (0 < q < 1) as Q.
  { unfold q. split; [apply Rdiv_lt_0_compat; lra|]. apply (Rmult_lt_reg_r h); auto. replace ((cr c - cr d) / h * h) with (cr c - cr d) by (field; lra). lra. }
  assert (QH : q * h = cr c - cr d) by (unfold q; field; lra).
  set (t := asin q). assert (sin t = q) as ST by (apply sin_asin; lra).
  assert (0 < cos t) as CO. { unfold t. rewrite cos_asin by lra. apply sqrt_lt_R0. unfold Rsqr. nra. }
  assert (SC : q * q + cos t * cos t = 1) by (pose proof (sin2_cos2 t) as X; unfold Rsqr in X; rewrite ST in X; exact X).
  destruct (lineOf_total th (cc c) (cc d) Ht) as (l0 & E0); try apply CC.
  pose proof (fun g G => CT _ _ (tan_ext c d q (cos t) HN QH SC g G)) as CL.
  assert (EE : forall g : R, g * g = 1 -> g * sin (g * t) = q /\ cos (g * t) = cos t).
  { intros g G. assert (g = 1 \/ g = -1) as [-> | ->].
    - assert ((g - 1) * (g + 1) = 0) as Z by lra. apply Rmult_integral in Z. destruct Z; [left|right]; lra.
    - rewrite !Rmult_1_l. auto.
    - replace (-1 * t) with (- t) by ring. rewrite sin_neg, cos_neg. split; [lra|auto]. }
  assert (ONE : forall g, g * g = 1 -> exists l p s u v cu cv du dv w, getRotatedLine th l0 (cc d) (g * t) = Ok l /\ nearestPoint th l (cc d) (h * cos t) (cc c) = Ok p /\
    svNew th KSeg p (cc d) = Ok s /\ svParallelSegs th KSeg s (cr d) = Ok (u, v) /\ svDist u (cc c) = Ok (du, cu) /\ svDist v (cc c) = Ok (dv, cv) /\
    (du < dv /\ w = v \/ dv < du /\ w = u) /\ hasEnds w (tanA c d q (cos t) g) (tanB c d q (cos t) g)).
  { intros g G. destruct (EE g G) as [E1 E2].
    pose proof (one_tangent th c d l0 g (g * t) Ht HD E0 (proj1 (proj2 (proj2 CC))) HN) as K. rewrite E1, E2 in K. apply K; auto. lra. }
  destruct (ONE 1 ltac:(lra)) as (l1 & p1 & s1 & u1 & v1 & cu1 & cv1 & du1 & dv1 & w1 & A1 & A2 & A3 & A4 & A5 & A6 & A7 & A8).
  destruct (ONE (-1) ltac:(lra)) as (l2 & p2 & s2 & u2 & v2 & cu2 & cv2 & du2 & dv2 & w2 & B1 & B2 & B3 & B4 & B5 & B6 & B7 & B8).
  rewrite Rmult_1_l in A1. replace (-1 * t) with (- t) in B1 by ring.
  exists w1, w2, (tanA c d q (cos t) 1), (tanB c d q (cos t) 1), (tanA c d q (cos t) (-1)), (tanB c d q (cos t) (-1)).
  split; [|split; [exact A8|split; [exact B8|split]]].
  - assert (CAS : casin q = Ok t). { unfold casin. rnum. rewrite (proj2 (Rltb_false q (Ropp 1))) by lra. rewrite (proj2 (Rltb_false 1 q)) by lra. reflexivity. }
    assert (CDV : cdiv (cr c - cr d) h = Ok q). { unfold cdiv. rnum. rewrite (proj2 (Reqb_false h 0)) by lra. reflexivity. }
    assert (PICK : (if (fst (du1, cu1) <? fst (dv1, cv1))%num then v1 else u1) = w1).
    { cbn [fst]. rnum. destruct A7 as [[L ->]|[L ->]]; [rewrite (proj2 (Rltb_spec _ _)) by lra|rewrite (proj2 (Rltb_false _ _)) by lra]; reflexivity. }
    assert (PICK2 : (if (fst (dv2, cv2) <? fst (du2, cu2))%num then u2 else v2) = w2).
    { cbn [fst]. rnum. destruct B7 as [[L ->]|[L ->]]; [rewrite (proj2 (Rltb_false _ _)) by lra|rewrite (proj2 (Rltb_spec _ _)) by lra]; reflexivity. }
    split; unfold tanSegs, cEq; rnum; rewrite ?(proj2 (Reqb_false (cr c) (cr d))), ?(proj2 (Reqb_false (cr d) (cr c))) by lra; cbn [negb];
      rewrite (proj2 (Rltb_false _ (nullDistance th))) by (rewrite ?(Rabs_minus_sym (cr d)), Rabs_right; lra).
    + rewrite (proj2 (Rltb_false (cr c) (cr d))) by lra. change (distPP (cc c) (cc d)) with h. rewrite CDV. cbn [bind]. rewrite CAS. cbn [bind]. rewrite E0. cbn [bind]. rewrite A1. cbn [bind]. rewrite B1. cbn [bind]. rewrite A2. cbn [bind]. rewrite B2. cbn [bind].
      rewrite A3. cbn [bind]. rewrite B3. cbn [bind]. rewrite A4. cbn [bind]. rewrite A5. cbn [bind]. rewrite A6. cbn [bind]. rewrite B4. cbn [bind]. rewrite B6. cbn [bind]. rewrite B5. cbn [bind].
      f_equal. f_equal; [exact PICK|exact PICK2].
    + rewrite (proj2 (Rltb_spec (cr d) (cr c))) by lra. change (distPP (cc c) (cc d)) with h. rewrite CDV. cbn [bind]. rewrite CAS. cbn [bind]. rewrite E0. cbn [bind]. rewrite A1. cbn [bind]. rewrite B1. cbn [bind]. rewrite A2. cbn [bind]. rewrite B2. cbn [bind].
      rewrite A3. cbn [bind]. rewrite B3. cbn [bind]. rewrite A4. cbn [bind]. rewrite A5. cbn [bind]. rewrite A6. cbn [bind]. rewrite B4. cbn [bind]. rewrite B6. cbn [bind]. rewrite B5. cbn [bind].
      f_equal. f_equal; [exact PICK|exact PICK2].
  - intros a b. split; [apply (ext_two c d q (cos t) HN QH SC)|].
    intros [[-> ->]|[-> ->]]; apply tan_ext; auto; lra.
  - apply (tan_neq c d q (cos t) HN CO). lra.
Qed.
(** Circles of the same radius. *)
Lemma tan_same th c d : thr_ok th -> 0 < cr c -> cr c = cr d -> clearPair th (cc c) (cc d) ->
  exists r1 r2 a1 b1 a2 b2, tanSegs th c d = Ok (r1, r2) /\ hasEnds r1 a1 b1 /\ hasEnds r2 a2 b2 /\
    (forall a b, extTangent c d a b <-> (a = a1 /\ b = b1) \/ (a = a2 /\ b = b2)) /\ a1 <> a2.
Proof.
  intros Ht Rc E CC. pose proof (thr_dist th Ht) as T.
  assert (0 < edist (cc c) (cc d)) as H0 by (destruct CC; lra). assert (cc c <> cc d) as HN by (intros X; rewrite X, edist_refl in H0; lra).
  assert (HS : 0 * edist (cc c) (cc d) = cr c - cr d) by lra. assert (SC : 0 * 0 + 1 * 1 = 1) by lra.
  destruct (svNew_ends th _ _ Ht CC) as (s & ES & HE & L).
  set (nx := fst (nrm c d 0 1 1)). set (ny := snd (nrm c d 0 1 1)).
  assert (NM : nrm c d 0 1 (-1) = (- nx, - ny)) by (unfold nx, ny, nrm; cbn [fst snd]; f_equal; field; lra).
  destruct (parallels th s _ _ nx ny (cr c) Ht HE L CC) as (u & v & EP & e & He & Hu & Hv); auto.
  { apply nrm_unit; auto. lra. }
  { pose proof (nrm_dot c d 0 1 HN HS 1) as D. fold nx ny in D. lra. }
  assert (A1 : forall e, moved (cc c) (e * nx) (e * ny) = if Req_EM_T e (cr c) then tanA c d 0 1 1 else moved (cc c) (e * nx) (e * ny)) by (intros x; destruct (Req_EM_T x (cr c)); subst; reflexivity).
  assert (TA : tanA c d 0 1 (-1) = moved (cc c) (- cr c * nx) (- cr c * ny)) by (unfold tanA; rewrite NM; cbn [fst snd]; apply pt_eq; unfold moved; cbn [px py]; ring).
  assert (TB : tanB c d 0 1 (-1) = moved (cc d) (- cr c * nx) (- cr c * ny)) by (unfold tanB; rewrite NM, <- E; cbn [fst snd]; apply pt_eq; unfold moved; cbn [px py]; ring).
  assert (TA1 : tanA c d 0 1 1 = moved (cc c) (cr c * nx) (cr c * ny)) by reflexivity.
  assert (TB1 : tanB c d 0 1 1 = moved (cc d) (cr c * nx) (cr c * ny)) by (unfold tanB; rewrite <- E; reflexivity).
  assert (EQ : tanSegs th c d = Ok (u, v)).
  { unfold tanSegs, cEq. rnum. rewrite (proj2 (Reqb_spec (cr c) (cr d)) E). cbn [negb]. rewrite (proj2 (ptEq_false th _ _)) by apply CC. cbn [negb].
    rewrite (proj2 (Rltb_spec _ (nullDistance th))) by (rewrite E, Rminus_diag_eq, Rabs_R0; auto; lra). rewrite ES. cbn [bind]. exact EP. }
  assert (IFF : forall a b, extTangent c d a b <-> (a = tanA c d 0 1 1 /\ b = tanB c d 0 1 1) \/ (a = tanA c d 0 1 (-1) /\ b = tanB c d 0 1 (-1))).
  { intros a b. split; [apply (ext_two c d 0 1 HN HS); lra|]. intros [[-> ->]|[-> ->]]; apply tan_ext; auto; lra. }
  pose proof (tan_neq c d 0 1 HN ltac:(lra) Rc) as NQ. clear A1. destruct He as [-> | ->].
  - exists u, v, (tanA c d 0 1 1), (tanB c d 0 1 1), (tanA c d 0 1 (-1)), (tanB c d 0 1 (-1)). rewrite TA1, TB1, TA, TB in *. repeat (split; auto); apply IFF; auto.
  - rewrite Ropp_involutive in Hv. exists u, v, (tanA c d 0 1 (-1)), (tanB c d 0 1 (-1)), (tanA c d 0 1 1), (tanB c d 0 1 1). rewrite TA1, TB1, TA, TB in *.
    split; auto. split; auto. split; auto. split; [|congruence]. intros a b. rewrite IFF. tauto.
Qed.

(** ** C135: the two segments are exactly the two external common tangents *)
Theorem C135_exact : forall th c d, thr_ok th -> nullDeter th <= 1 -> 0 < cr c -> 0 < cr d -> (cr c = cr d \/ nullDistance th <= Rabs (cr c - cr d)) ->
  Rabs (cr c - cr d) < edist (cc c) (cc d) -> clearPair th (cc c) (cc d) -> (forall a b, extTangent c d a b -> clearPair th a b) ->
  exists r1 r2 a1 b1 a2 b2, tanSegs th c d = Ok (r1, r2) /\ hasEnds r1 a1 b1 /\ hasEnds r2 a2 b2 /\
    (forall a b, extTangent c d a b <-> (a = a1 /\ b = b1) \/ (a = a2 /\ b = b2)) /\ a1 <> a2.
Proof.
  intros th c d Ht HD Rc Rd SEP H CC CT. pose proof (thr_dist th Ht) as T. destruct (Rtotal_order (cr c) (cr d)) as [L|[E|L]].
  - destruct SEP as [SEP|SEP]; [lra|]. rewrite Rabs_left in SEP, H by lra.
    destruct (tan_big th d c Ht HD Rc) as (r1 & r2 & a1 & b1 & a2 & b2 & [_ E] & E1 & E2 & F & N); try lra.
    { rewrite edist_sym. lra. } { now apply clear_sym. } { intros a b X. apply clear_sym, CT, ext_sym, X. }
    exists r1, r2, b1, a1, b2, a2. split; auto. split; [now apply ends_sym|]. split; [now apply ends_sym|]. split; [intros a b; rewrite ext_sym, F; tauto|].
    intros EB. assert (X1 : extTangent d c a1 b1) by (apply F; auto). assert (X2 : extTangent d c a2 b2) by (apply F; auto).
    apply N. destruct X1 as (x & y & U & -> & B1 & _). destruct X2 as (x' & y' & U' & -> & B2 & _). rewrite B1, B2 in EB. unfold moved in EB. injection EB as P1 P2.
    assert (x = x') by (apply (Rmult_eq_reg_l (cr c)); lra). assert (y = y') by (apply (Rmult_eq_reg_l (cr c)); lra). subst. reflexivity.
  - apply tan_same; auto.
  - destruct SEP as [SEP|SEP]; [lra|]. rewrite Rabs_right in SEP, H by lra.
    destruct (tan_big th c d Ht HD Rd) as (r1 & r2 & a1 & b1 & a2 & b2 & [E _] & K); try lra; auto.
    exists r1, r2, a1, b1, a2, b2. split; auto.
Qed.
Print Assumptions C135_exact.
(** What "tangent" means: the ends are on the circles, every other point of the line is outside both. *)
Theorem C135_touches : forall c d a b, 0 < cr c -> 0 < cr d -> extTangent c d a b ->
  edist (cc c) a = cr c /\ edist (cc d) b = cr d /\
  (forall k, a <> b -> k <> 0 -> cr c < edist (cc c) (along a b k)) /\ (forall k, a <> b -> k <> 1 -> cr d < edist (cc d) (along a b k)).
Proof.
  intros c d a b Rc Rd (x & y & U & -> & -> & O).
  set (a := moved (cc c) (cr c * x) (cr c * y)) in *. set (b := moved (cc d) (cr d * x) (cr d * y)) in *.
  assert (EA : forall k, edist (cc c) (along a b k) * edist (cc c) (along a b k) = cr c * cr c + k * k * (edist a b * edist a b)).
  { intros k. rewrite !edist_sq. unfold along; cbn [px py].
    transitivity (cr c * cr c * (x * x + y * y) + 2 * k * cr c * (x * (px b - px a) + y * (py b - py a)) + k * k * ((px a - px b) * (px a - px b) + (py a - py b) * (py a - py b))).
    - unfold a at 1 3 5 7. unfold moved; cbn [px py]. fold a. ring_simplify. unfold a, moved; cbn [px py]. ring.
    - rewrite U, O. ring. }
  assert (EB : forall k, edist (cc d) (along a b k) * edist (cc d) (along a b k) = cr d * cr d + (k - 1) * (k - 1) * (edist a b * edist a b)).
  { intros k. rewrite !edist_sq. unfold along; cbn [px py].
    transitivity (cr d * cr d * (x * x + y * y) + 2 * (k - 1) * cr d * (x * (px b - px a) + y * (py b - py a)) + (k - 1) * (k - 1) * ((px a - px b) * (px a - px b) + (py a - py b) * (py a - py b))).
    - unfold b, moved; cbn [px py]. ring.
    - rewrite U, O. ring. }
  assert (G : forall e r k, 0 <= e -> 0 < r -> a <> b -> k <> 0 -> e * e = r * r + k * k * (edist a b * edist a b) -> r < e).
  { intros e r k P R N K E. pose proof (edist_neq _ _ N). assert (0 < k * k) by exact (Rsqr_pos_lt k K). assert (0 < k * k * (edist a b * edist a b)) by (apply Rmult_lt_0_compat; [lra|apply Rmult_lt_0_compat; lra]). apply Rnot_le_lt. intros C. assert (e * e <= r * r) by (apply Rmult_le_compat; lra). lra. }
  split; [|split; [|split]].
  - apply edist_val; [lra|]. unfold a, moved; cbn [px py]. transitivity (cr c * cr c * (x * x + y * y)); [rewrite U; ring|ring].
  - apply edist_val; [lra|]. unfold b, moved; cbn [px py]. transitivity (cr d * cr d * (x * x + y * y)); [rewrite U; ring|ring].
  - intros k N K. apply (G _ _ k (edist_pos _ _) Rc N K (EA k)).
  - intros k N K. apply (G _ _ (k - 1) (edist_pos _ _) Rd N ltac:(lra) (EB k)).
Qed.
Print Assumptions C135_touches.
(** Circles of radius 4 and 1, centres at distance 5: tangents of length 4. *)
Definition cA4 : circle R := mkC (mkPt 0 0) 4.
Definition cB1 : circle R := mkC (mkPt 5 0) 1.
Lemma ex_two a b : extTangent cA4 cB1 a b -> (a = mkPt (12 / 5) (- (16 / 5)) /\ b = mkPt (28 / 5) (- (4 / 5))) \/ (a = mkPt (12 / 5) (16 / 5) /\ b = mkPt (28 / 5) (4 / 5)).
Proof.
  assert (H5 : edist (cc cA4) (cc cB1) = 5) by (apply edist_val; cbn; lra).
  intros H. destruct (ext_two cA4 cB1 (3 / 5) (4 / 5)) with (a := a) (b := b) as [[-> ->]|[-> ->]]; auto.
  - intros E. injection E. lra.
  - rewrite H5. cbn. lra.
  - lra.
  - left. unfold tanA, tanB, nrm, moved. rewrite H5. cbn [cA4 cB1 cc cr px py fst snd]. split; f_equal; field.
  - right. unfold tanA, tanB, nrm, moved. rewrite H5. cbn [cA4 cB1 cc cr px py fst snd]. split; f_equal; field.
Qed.
Example C135_ex : exists r1 r2 a1 b1 a2 b2, tanSegs thr0 cA4 cB1 = Ok (r1, r2) /\ hasEnds r1 a1 b1 /\ hasEnds r2 a2 b2 /\
    (forall a b, extTangent cA4 cB1 a b <-> (a = a1 /\ b = b1) \/ (a = a2 /\ b = b2)) /\ a1 <> a2.
Proof.
  pose proof thr0_small as (T & _). assert (H5 : edist (cc cA4) (cc cB1) = 5) by (apply edist_val; cbn; lra).
  apply C135_exact; auto using thr0_ok.
  - unfold thr0. cbn [nullDeter]. rnum. lra.
  - cbn. lra.
  - cbn. lra.
  - right. cbn [cA4 cB1 cr]. rewrite Rabs_right by lra. lra.
  - rewrite H5. cbn [cA4 cB1 cr]. rewrite Rabs_right by lra. lra.
  - unfold clearPair. rewrite H5. split; [lra|]. split; [unfold thr0; cbn [dblEpsilon]; rnum; lra|]. split; [left; reflexivity|right].
    rewrite H5. cbn [cA4 cB1 cc px]. rewrite Rabs_left by lra. unfold thr0. cbn [nullDenom]. rnum. lra.
  - intros a b H. assert (E4 : edist a b = 4) by (destruct (ex_two a b H) as [[-> ->]|[-> ->]]; apply edist_val; cbn [px py]; lra).
    unfold clearPair, dirOK, vertOK. rewrite E4. split; [lra|]. split; [unfold thr0; cbn [dblEpsilon]; rnum; lra|].
    destruct (ex_two a b H) as [[-> ->]|[-> ->]]; cbn [px py]; (split; right; unfold thr0; cbn [nullDenom]; rnum); unfold Rabs; destruct (Rcase_abs _); lra.
Qed.

(** ** C136: any two different circles *)
(** Full claim: getTanSegs gives two tangents or throws.  False: one circle inside the other makes it compute asin of a number
    above 1 (not a number in C++, [Undef] here); nothing is thrown. *)
Theorem C136_refuted : exists c d, 0 < cr c /\ 0 < cr d /\ cEq thr0 c d = false /\ tanSegs thr0 c d = Undef.
Proof.
  exists (mkC (mkPt 0 0) 5), (mkC (mkPt 1 0) 1). cbn [cr]. split; [lra|]. split; [lra|].
  assert (CE : cEq thr0 (mkC (mkPt 0 0) 5) (mkC (mkPt 1 0) 1) = false) by (unfold cEq; cbn [cr]; rnum; rewrite (proj2 (Reqb_false 5 1)) by lra; reflexivity).
  split; auto. unfold tanSegs. rewrite CE. cbn [cr cc]. rnum. pose proof thr0_small as (T & _).
  rewrite (proj2 (Rltb_false (Rabs (5 - 1)) _)) by (rewrite Rabs_right; lra). rewrite (proj2 (Rltb_false 5 1)) by lra. cbn [cc cr].
  assert (distPP (mkPt 0 0) (mkPt 1 0) = 1) as ->. { change (edist (mkPt 0 0) (mkPt 1 0) = 1). apply edist_val; cbn; lra. }
  unfold cdiv. rnum. rewrite (proj2 (Reqb_false 1 0)) by lra. cbn [bind]. unfold casin. rnum.
  rewrite (proj2 (Rltb_spec 1 ((5 - 1) / 1))) by lra. rewrite orb_true_r. reflexivity.
Qed.
Print Assumptions C136_refuted.
(** Such a pair has no common tangent at all, and is detected by no test. *)
Theorem C136_none : forall c d a b, extTangent c d a b -> Rabs (cr c - cr d) <= edist (cc c) (cc d).
Proof.
  intros c d a b (x & y & U & -> & -> & O). unfold moved in O; cbn [px py] in O.
  set (ax := px (cc c) - px (cc d)). set (ay := py (cc c) - py (cc d)). set (k := cr c - cr d).
  assert (x * ax + y * ay = - k) as D by (assert (x * ax + y * ay = - k * (x * x + y * y)) as D by (unfold ax, ay, k in *; lra); rewrite D, U; ring).
  pose proof (edist_sq (cc c) (cc d)) as S. fold ax ay in S. pose proof (edist_pos (cc c) (cc d)).
  assert (k * k <= edist (cc c) (cc d) * edist (cc c) (cc d)) as Q.
  { rewrite S. apply (Rle_trans _ ((x * ax + y * ay) * (x * ax + y * ay) + (x * ay - y * ax) * (x * ay - y * ax))).
    - pose proof (Rle_0_sqr (x * ay - y * ax)) as P. unfold Rsqr in P. rewrite D. lra.
    - right. transitivity ((x * x + y * y) * (ax * ax + ay * ay)); [ring|rewrite U; ring]. }
  apply Rsqr_le_abs_0 in Q. rewrite (Rabs_right (edist _ _)) in Q by lra. exact Q.
Qed.
Print Assumptions C136_none.
