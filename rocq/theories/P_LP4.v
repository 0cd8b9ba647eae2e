(** * Proofs about points and lines: collinearity test and counter-examples *)

From Coq Require Import Reals ZArith List Bool Lra Lia Psatz Permutation.
From Verif Require Import Num M_LP S_Geom P_LP P_LP2 P_LP3.
Import ListNotations.
Local Open Scope R_scope.
Implicit Types (th : thrs R) (l m : line R) (p q r : pt R).

Lemma dirOK_sym th p q : dirOK th p q -> dirOK th q p.
Proof.
  unfold dirOK. rewrite (edist_sym q p), (Rabs_minus_sym (py q)). intros [H|H]; auto.
Qed.
Lemma Rmax_le3 a x y z : x <= a -> y <= a -> z <= a -> (x = a \/ y = a \/ z = a) ->
  Rmax x (Rmax y z) = a.
Proof.
  intros Hx Hy Hz H. apply Rle_antisym.
  - repeat apply Rmax_lub; auto.
  - destruct H as [<-|[<-|<-]].
    + apply Rmax_l.
    + eapply Rle_trans; [apply Rmax_l|apply Rmax_r].
    + eapply Rle_trans; [apply Rmax_r|apply Rmax_r].
Qed.


Lemma areCollinear_char th p q r : thr_ok th -> dblEpsilon th < nullDistance th ->
  dirOK th p q -> dirOK th q r -> dirOK th p r ->
  exists b, areCollinear th p q r = Ok b /\ (b = true <-> thinTriangle (nullDistance th) p q r).
Proof.
  intros Hth Hde Dpq Dqr Dpr. unfold areCollinear, thinTriangle.
  destruct (ptEq th p q) eqn:E1; cbn [orb].
  { apply ptEq_spec in E1. exists true. tauto. }
  destruct (ptEq th q r) eqn:E2; cbn [orb].
  { apply ptEq_spec in E2. exists true. tauto. }
  destruct (ptEq th p r) eqn:E3; cbn [orb].
  { apply ptEq_spec in E3. exists true. tauto. }
  apply ptEq_false in E1. apply ptEq_false in E2. apply ptEq_false in E3.
  destruct (getLargestDistancePoints p q r) as [[a b] c] eqn:EL.
  destruct (largest_spec _ _ _ _ _ _ EL) as (Hord & Hcase). clear EL.
  pose proof (cross3_perm p q r) as (X1 & X2 & X3 & X4 & X5).
  pose proof (dirOK_sym _ _ _ Dpq) as Dqp. pose proof (dirOK_sym _ _ _ Dqr) as Drq.
  pose proof (dirOK_sym _ _ _ Dpr) as Drp.
  assert (K : dirOK th a b /\ edist a b = maxSide p q r /\ Rabs (cross3 a b c) = Rabs (cross3 p q r)
              /\ nullDistance th <= edist a b).
  { unfold maxSide.
    destruct Hcase as [H|[H|[H|[H|[H|H]]]]]; injection H as -> -> ->;
      rewrite ?(edist_sym q p), ?(edist_sym r p), ?(edist_sym r q) in *;
      rewrite ?X1, ?X2, ?X3, ?X4, ?X5, ?Rabs_Ropp;
      repeat split; auto; symmetry; apply Rmax_le3; lra || tauto. }
  destruct K as (Dab & EM & EC & Hab).
  destruct (lineOf_total th a b Hth Hab) as [l Hl]; [lra|]. rewrite Hl. cbn [bind].
  eexists; split; [reflexivity|].
  rewrite (lineOf_dist th a b l c Hth Hl Dab), EM, EC. rewrite EM in Hab. rnum.
  pose proof (thr_dist th Hth). rewrite Rltb_spec.
  assert (Hm : 0 < maxSide p q r) by lra. split.
  - intros Hlt. right; right; right.
    apply (Rmult_lt_compat_r _ _ _ Hm) in Hlt. unfold Rdiv in Hlt.
    rewrite Rmult_assoc, Rinv_l in Hlt; lra.
  - intros [C|[C|[C|C]]]; try lra.
    apply (Rmult_lt_reg_r (maxSide p q r)); auto. unfold Rdiv. rewrite Rmult_assoc, Rinv_l; lra.
Qed.

Lemma perm3 (p q r p' q' r' : pt R) : Permutation [p; q; r] [p'; q'; r'] ->
  (p', q', r') = (p, q, r) \/ (p', q', r') = (q, p, r) \/ (p', q', r') = (p, r, q)
  \/ (p', q', r') = (q, r, p) \/ (p', q', r') = (r, p, q) \/ (p', q', r') = (r, q, p).
Proof.
  intros HP.
  assert (Hin : In p' [p; q; r]) by (apply (Permutation_in p' (Permutation_sym HP)); left; auto).
  destruct Hin as [<-|[<-|[<-|[]]]].
  - apply Permutation_cons_inv in HP. apply Permutation_length_2 in HP. destruct HP as [[-> ->]|[-> ->]]; tauto.
  - assert (HQ : Permutation [q; p; r] [q; q'; r']) by (eapply Permutation_trans; [apply perm_swap|exact HP]).
    apply Permutation_cons_inv in HQ. apply Permutation_length_2 in HQ. destruct HQ as [[-> ->]|[-> ->]]; tauto.
  - assert (HQ : Permutation [r; p; q] [r; q'; r']).
    { eapply Permutation_trans; [|exact HP]. apply (Permutation_cons_append [p; q] r). }
    apply Permutation_cons_inv in HQ. apply Permutation_length_2 in HQ. destruct HQ as [[-> ->]|[-> ->]]; tauto.
Qed.
Lemma maxSide_perm p q r : maxSide q p r = maxSide p q r /\ maxSide p r q = maxSide p q r
  /\ maxSide q r p = maxSide p q r /\ maxSide r p q = maxSide p q r /\ maxSide r q p = maxSide p q r.
Proof.
  unfold maxSide. rewrite ?(edist_sym q p), ?(edist_sym r p), ?(edist_sym r q).
  generalize (edist p q), (edist q r), (edist p r). intros x y z.
  unfold Rmax; repeat split; repeat destruct Rle_dec; lra.
Qed.
Lemma thinTriangle_perm d p q r p' q' r' : Permutation [p; q; r] [p'; q'; r'] ->
  thinTriangle d p q r -> thinTriangle d p' q' r'.
Proof.
  intros HP. apply perm3 in HP.
  pose proof (cross3_perm p q r) as (X1 & X2 & X3 & X4 & X5).
  pose proof (maxSide_perm p q r) as (Y1 & Y2 & Y3 & Y4 & Y5). unfold thinTriangle.
  destruct HP as [H|[H|[H|[H|[H|H]]]]]; injection H as -> -> ->;
    rewrite ?X1, ?X2, ?X3, ?X4, ?X5, ?Y1, ?Y2, ?Y3, ?Y4, ?Y5, ?Rabs_Ropp,
            ?(edist_sym q p), ?(edist_sym r p), ?(edist_sym r q); tauto.
Qed.
Lemma areCollinear_perm th p q r p' q' r' : thr_ok th -> dblEpsilon th < nullDistance th ->
  dirOK th p q -> dirOK th q r -> dirOK th p r ->
  Permutation [p; q; r] [p'; q'; r'] -> areCollinear th p' q' r' = areCollinear th p q r.
Proof.
  intros Hth Hde D1 D2 D3 HP.
  destruct (areCollinear_char th p q r) as (b & Hb & Hbt); auto.
  assert (D' : dirOK th p' q' /\ dirOK th q' r' /\ dirOK th p' r').
  { apply perm3 in HP. destruct HP as [H|[H|[H|[H|[H|H]]]]]; injection H as -> -> ->;
      repeat split; auto using dirOK_sym. }
  destruct D' as (D1' & D2' & D3').
  destruct (areCollinear_char th p' q' r') as (b' & Hb' & Hbt'); auto.
  rewrite Hb, Hb'. f_equal.
  assert (thinTriangle (nullDistance th) p q r <-> thinTriangle (nullDistance th) p' q' r').
  { split; apply thinTriangle_perm; auto. now apply Permutation_sym. }
  destruct b, b'; auto; exfalso; intuition discriminate.
Qed.

(** ** Counter-examples (default thresholds, exact rational coordinates) *)

Lemma edist_val p q d : 0 <= d -> d * d = (px p - px q) * (px p - px q) + (py p - py q) * (py p - py q) ->
  edist p q = d.
Proof. intros Hd H. unfold edist, Rsqr. rewrite <- H. now apply sqrt_square. Qed.
Lemma hypot_val a b d : 0 <= d -> d * d = a * a + b * b -> hypot a b = d.
Proof. intros Hd H. unfold hypot; rnum. rewrite <- H. now apply sqrt_square. Qed.

(** A unit vector (wb,wa) with a very small second component: 2N/(N²+1), (N²-1)/(N²+1), N = 10^11. *)
Definition wa : R := 200000000000 / 10000000000000000000001.
Definition wb : R := 9999999999999999999999 / 10000000000000000000001.
Lemma wab : wa * wa + wb * wb = 1. Proof. unfold wa, wb. lra. Qed.
Lemma wa_bd : 1 / 100000000000 < wa < 1 / 10000000000. Proof. unfold wa. lra. Qed.
Lemma wb_bd : 9 / 10 < wb < 1. Proof. unfold wb. lra. Qed.
Definition wO : pt R := mkPt 0 0.
Definition wQ : pt R := mkPt (1000000 * wb) (1000000 * wa).
Definition wM : pt R := mkPt (500000 * wb) (500000 * wa).
Definition wL : line R := mkL wa wb 0.
Ltac wbd := pose proof wa_bd; pose proof wb_bd; pose proof wab.

Lemma edist_wOQ : edist wO wQ = 1000000.
Proof. wbd. apply edist_val; [lra|]. cbn [px py wO wQ]. lra. Qed.
Lemma edist_wOM : edist wO wM = 500000.
Proof. wbd. apply edist_val; [lra|]. cbn [px py wO wM]. lra. Qed.
Lemma edist_wQM : edist wQ wM = 500000.
Proof. wbd. apply edist_val; [lra|]. cbn [px py wQ wM]. lra. Qed.

Lemma lnorm_w k c : 1 <= k -> lnorm thr0 (mkL (- (k * wa)) (k * wb) (k * c)) = Ok (mkL wa wb c).
Proof.
  intros Hk. wbd. unfold lnorm; cbn [la lb lc]. rnum.
  rewrite (hypot_val _ _ k) by nra.
  rewrite (proj2 (Rleb_false _ _)). 2:{ unfold thr0; cbn [dblEpsilon]; rnum; lra. }
  replace (- (k * wa) / k) with (- wa) by (field; lra).
  replace (k * wb / k) with wb by (field; lra).
  replace (k * c / k) with c by (field; lra). cbn [la lb lc].
  rewrite (proj2 (Rltb_spec (- wa) 0)) by lra. cbn [la lb lc].
  rewrite (proj2 (Rltb_spec (Rabs _) _)).
  2:{ rewrite Ropp_involutive, Rabs_right by lra. unfold thr0; cbn [nullDenom]; rnum; lra. }
  rewrite (proj2 (Rltb_spec (- wb) 0)) by lra. now rewrite !Ropp_involutive.
Qed.
Lemma lineOf_wOQ : lineOf thr0 wO wQ = Ok wL.
Proof.
  unfold lineOf. rewrite (proj2 (ptEq_false _ _ _)).
  2:{ rewrite edist_wOQ. unfold thr0; cbn [nullDistance]; rnum. lra. }
  unfold wL. rewrite <- (lnorm_w 1000000) by lra. f_equal.
  unfold crossPP, hOfPt, wO, wQ; cbn [px py h0 h1 h2]; rnum. f_equal; ring.
Qed.
Lemma wL_unit : unitL wL. Proof. unfold unitL; cbn [la lb wL]. apply wab. Qed.
Lemma wL_dist : lineDist wL wQ > / 100000.
Proof.
  wbd. rewrite lineDist_unit by apply wL_unit. unfold wL, wQ; cbn [la lb lc px py].
  rewrite Rabs_right; nra.
Qed.

Lemma areCollinear_bad : cross3 wO wM wQ = 0 /\ areCollinear thr0 wO wM wQ = Ok false.
Proof.
  wbd. split. { unfold cross3, wO, wM, wQ; cbn [px py]; ring. }
  assert (T : nullDistance (thr0 (T := R)) <= 500000).
  { unfold thr0; cbn [nullDistance]; rnum; lra. }
  unfold areCollinear.
  rewrite (proj2 (ptEq_false thr0 wO wM)) by (rewrite edist_wOM; lra).
  rewrite (proj2 (ptEq_false thr0 wM wQ)) by (rewrite edist_sym, edist_wQM; lra).
  rewrite (proj2 (ptEq_false thr0 wO wQ)) by (rewrite edist_wOQ; lra).
  cbn [orb]. unfold getLargestDistancePoints.
  assert (S1 : sqDist wO wM = 500000 * 500000) by (rewrite sqDist_edist, edist_wOM; ring).
  assert (S2 : sqDist wO wQ = 1000000 * 1000000) by (rewrite sqDist_edist, edist_wOQ; ring).
  assert (S3 : sqDist wM wQ = 500000 * 500000) by (rewrite sqDist_edist, edist_sym, edist_wQM; ring).
  rewrite S1, S2, S3. rnum. clear S1 S2 S3 T.
  rewrite (proj2 (Rltb_false (1000000 * 1000000) (500000 * 500000))) by lra.
  rewrite (proj2 (Rltb_spec (500000 * 500000) (1000000 * 1000000))) by lra.
  rewrite (proj2 (Rltb_false (500000 * 500000) (500000 * 500000))) by lra.
  assert (HL : lineOf thr0 wQ wO = Ok wL).
  { pose proof lineOf_wOQ as H2. unfold lineOf in *. rewrite ptEq_sym. destruct (ptEq thr0 wO wQ); [discriminate|].
    assert (E : crossPP (hOfPt wQ) (hOfPt wO) = scaleL (-1) (crossPP (hOfPt wO) (hOfPt wQ))).
    { unfold crossPP, scaleL, hOfPt; cbn [la lb lc h0 h1 h2]; rnum. f_equal; ring. }
    rewrite E. eapply lnorm_scale; eauto; [apply thr0_ok|lra|].
    unfold crossPP, hOfPt, wO, wQ; cbn [px py la lb h0 h1 h2]; rnum.
    rewrite (Rabs_left (-1)) by lra.
    rewrite (hypot_val _ _ 1000000); [|lra|nra].
    unfold thr0; cbn [dblEpsilon]; rnum; lra. }
  rewrite HL. cbn [bind]. f_equal. rnum. apply Rltb_false.
  rewrite lineDist_unit by apply wL_unit. unfold wL, wM; cbn [la lb lc px py].
  rewrite Rabs_right by nra. unfold thr0; cbn [nullDistance]; rnum. nra.
Qed.

(** Orthogonal line: same defect for almost vertical lines. *)
Definition wV : line R := mkL wb wa 0.
Definition wVo : line R := mkL wa wb (1000000 * wa).
Lemma wVo_unit : unitL wVo. Proof. unfold unitL; cbn [la lb wVo]. apply wab. Qed.
Lemma wVo_eq : getOrthogLine thr0 wV (mkPt 1000000 0) = Ok wVo.
Proof.
  assert (N1 : lnorm thr0 (mkL (- wa) wb (1000000 * wa)) = Ok wVo).
  { unfold wVo. rewrite <- (lnorm_w 1) by lra. f_equal. f_equal; ring. }
  assert (N2 : lnorm thr0 wVo = Ok wVo) by (eapply lnorm_idem; eauto; apply thr0_ok).
  unfold getOrthogLine, lineSet3. unfold wV at 1 2 3 4; cbn [la lb px py]; rnum.
  replace (wa * 1000000 - wb * 0) with (1000000 * wa) by ring.
  rewrite N1. cbn [bind]. exact N2.
Qed.

(** A bound on acos near 1, through the third order bound of cos. *)
Lemma acos_small x d : 0 < d <= 1 -> 1 - d * d / 2 + d * d * d * d / 24 < x -> x <= 1 -> acos x < d.
Proof.
  intros Hd Hx Hx1. apply Rnot_le_lt. intros C.
  assert (B : cos d <= 1 - d * d / 2 + d * d * d * d / 24).
  { destruct (pre_cos_bound d 0) as [_ H]; try lra.
    eapply Rle_trans; [exact H|]. unfold cos_approx, cos_term. cbn. lra. }
  assert (x0 : -1 <= x) by nra.
  pose proof (acos_bound x) as Ha. pose proof PI2_1 as HP.
  assert (cos (acos x) <= cos d) by (apply cos_decr_1; lra).
  rewrite cos_acos in H by lra. lra.
Qed.

(** A unit vector (eb,ea) with ea = 2N/(N²+1), N = 10^6. *)
Definition ea : R := 2000000 / 1000000000001.
Definition eb : R := 999999999999 / 1000000000001.
Lemma eab : ea * ea + eb * eb = 1. Proof. unfold ea, eb. lra. Qed.
Definition eL1 : line R := mkL ea (- eb) 5.
Definition eL2 : line R := mkL ea eb 5.
Lemma eL1_unit : unitL eL1. Proof. unfold unitL, eL1; cbn [la lb]. pose proof eab. lra. Qed.
Lemma eL2_unit : unitL eL2. Proof. unfold unitL, eL2; cbn [la lb]. pose proof eab. lra. Qed.
Lemma eL_stored : storedL thr0 eL1 /\ storedL thr0 eL2.
Proof.
  split; (split; [apply eL1_unit || apply eL2_unit|]);
  unfold eL1, eL2, ea, eb, thr0; cbn [la lb nullDenom]; rnum; split; lra.
Qed.
Lemma eL_equal : lineEq thr0 eL1 eL2 = true.
Proof.
  unfold lineEq, isParallel.
  assert (A : lineAngle eL1 eL2 < nullAngleValue (thr0 (T := R))).
  { rewrite lineAngle_acos; try (apply unit_proper; apply eL1_unit || apply eL2_unit).
    rewrite cosL_eq, (hypot_unit _ _ eL1_unit), (hypot_unit _ _ eL2_unit).
    replace (1 * 1) with 1 by ring. rewrite div1.
    unfold eL1, eL2; cbn [la lb].
    rewrite Rabs_left by (unfold ea, eb; lra).
    apply acos_small; unfold thr0, ea, eb; cbn [nullAngleValue]; rnum; lra. }
  rnum. rewrite (proj2 (Rltb_spec _ _)) by exact A. cbn [negb].
  rewrite (proj2 (Rltb_false _ _)); auto.
  unfold eL1, eL2; cbn [lc]. rewrite Rminus_diag_eq, Rabs_R0 by auto. apply Rlt_le, (thr_dist _ thr0_ok).
Qed.
(** Point (0,~5) of the first line is ~10 away from the second. *)
Definition eP : pt R := mkPt 0 (5 * 1000000000001 / 999999999999).
Lemma eP_on : onL eL1 eP. Proof. unfold onL, eL1, eP, ea, eb; cbn [la lb lc px py]; lra. Qed.
Lemma eP_far : 9 < lineDist eL2 eP.
Proof.
  rewrite lineDist_unit by apply eL2_unit. unfold eL2, eP; cbn [la lb lc px py].
  rewrite Rabs_right; unfold ea, eb; lra.
Qed.

(** What line equality does guarantee: close coefficients when both normals are on the same side. *)
Lemma lineEq_inv th l m : proper l -> proper m -> lineEq th l m = true ->
  cos (nullAngleValue th) <= cosL l m \/ nullAngleValue th > PI \/ nullAngleValue th < 0.
Proof.
  intros Hl Hm H. unfold lineEq, isParallel in H.
  destruct (lineAngle l m <? nullAngleValue th)%num eqn:E; [|discriminate]. apply Rltb_spec in E.
  rewrite lineAngle_acos in E by auto.
  destruct (Rlt_dec (nullAngleValue th) 0); [auto|]. destruct (Rlt_dec PI (nullAngleValue th)); [lra|].
  left. pose proof (cosL_range l m Hl Hm). rewrite <- (cos_acos (cosL l m)) by lra.
  pose proof (acos_bound (cosL l m)). apply Rlt_le, cos_decreasing_1; lra.
Qed.

(** Point equality is not transitive. *)
Definition tP k : pt R := mkPt (k * (6 / 100000000000)) 0.
Lemma edist_tP a b : a <= b -> edist (tP a) (tP b) = (b - a) * (6 / 100000000000).
Proof. intros H. apply edist_val; [lra|]. cbn [px py tP]. ring. Qed.
Lemma tP_nontrans : ptEq thr0 (tP 0) (tP 1) = true /\ ptEq thr0 (tP 1) (tP 2) = true /\ ptEq thr0 (tP 0) (tP 2) = false.
Proof.
  rewrite !ptEq_spec, ptEq_false, !edist_tP by lra. unfold thr0; cbn [nullDistance]; rnum. lra.
Qed.
