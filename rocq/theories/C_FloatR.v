(** * Properties C196 to C201: rounding of general doubles

    The model functions at [FNum] (Coq's primitive binary64 floats; std::hypot is sqrt(x*x+y*y), see
    [hypot] in Num.v) against the exact results on the real numbers the doubles stand for ([toR]). *)

From Coq Require Import Reals Lra ZArith Floats Bool Lia List.
From Verif Require Import Num FloatFuns M_LP M_Seg M_Circle M_Poly M_FRect M_Hull M_Misc M_Homogr M_Map S_Geom S_Poly S_Hull P_LP P_Poly P_Poly3 S_Float S_FloatZ S_FloatR P_Float P_FloatZ P_FloatZ2 P_FloatR P_FloatE P_FloatE2 P_FloatH C_Poly C_Hull C_Float C_FloatZ.
Import ListNotations.
Local Open Scope R_scope.

(** ** C196: translations and dimensions are correctly rounded *)

Lemma near_sum x y : fin x -> fin y -> Rabs (toR x + toR y) <= 2 ^ 1023 -> nearestD (x + y)%float (toR x + toR y) /\ relErr 1 (x + y)%float (toR x + toR y).
Proof.
  intros Fx Fy B. pose proof (rnd_nearest _ _ (add_rnd x y Fx Fy) B) as N. split; [exact N|]. destruct N as [F _]. split; [exact F|]. rewrite Rmult_1_l. now apply add_err.
Qed.
Lemma near_diff x y : fin x -> fin y -> Rabs (toR x - toR y) <= 2 ^ 1023 -> nearestD (x - y)%float (toR x - toR y) /\ relErr 1 (x - y)%float (toR x - toR y).
Proof.
  intros Fx Fy B. pose proof (rnd_nearest _ _ (sub_rnd x y Fx Fy) B) as N. split; [exact N|]. destruct N as [F _]. split; [exact F|]. rewrite Rmult_1_l. now apply sub_err.
Qed.

(** Each coordinate is the double nearest to the exact sum; the relative error is at most 2^-53, for
    subnormal numbers too. *)
Theorem C196_translate : forall (p : pt float) (dx dy : float), finP p -> fin dx -> fin dy ->
  Rabs (toR (px p) + toR dx) <= 2 ^ 1023 -> Rabs (toR (py p) + toR dy) <= 2 ^ 1023 ->
  let q := ptTranslate (N := FNum) p dx dy in
  nearestD (px q) (toR (px p) + toR dx) /\ relErr 1 (px q) (toR (px p) + toR dx) /\
  nearestD (py q) (toR (py p) + toR dy) /\ relErr 1 (py q) (toR (py p) + toR dy).
Proof.
  intros p dx dy [Fx Fy] Dx Dy Bx By. cbv zeta. unfold ptTranslate. cbn [nadd FNum px py].
  destruct (near_sum _ _ Fx Dx Bx), (near_sum _ _ Fy Dy By). auto.
Qed.
Print Assumptions C196_translate.

(** The same with the homography of the translation. *)
Theorem C196_homography : forall (o : hobj float) (p : pt float) (dx dy : float), finP p -> fin dx -> fin dy ->
  Rabs (toR (px p) + toR dx) <= 2 ^ 1023 -> Rabs (toR (py p) + toR dy) <= 2 ^ 1023 ->
  exists q, hPt (N := FNum) (hm (hSetTranslation (N := FNum) o dx dy)) p = Ok q /\
  nearestD (px q) (toR (px p) + toR dx) /\ nearestD (py q) (toR (py p) + toR dy).
Proof.
  intros o p dx dy Fp Dx Dy Bx By. pose proof (C191_translation o dx dy p Fp) as H. destruct (hPt _ p) as [q| |]; cbn [alike] in H; try tauto. exists q. split; [reflexivity|].
  destruct (C196_translate p dx dy Fp Dx Dy Bx By) as ([F1 N1] & _ & [F2 N2] & _). destruct H as [S1 S2].
  assert (K : forall a b Y, same a b -> fin b -> (forall z, fin z -> Rabs (toR b - Y) <= Rabs (toR z - Y)) -> nearestD a Y).
  { intros a b Y [->|[A B]] F N; [now split|]. assert (Fa : fin a) by (apply fin_sf; apply zero_sf in A; destruct A as [s ->]; exact I). split; [exact Fa|].
    intros z Fz. assert (toR a = toR b) as -> by (apply toR_same; try assumption; now right). now apply N. }
  split; eapply K; eassumption.
Qed.
Print Assumptions C196_homography.

Theorem C196_dimensions : forall r : frect float, finP (r1 r) -> finP (r2 r) ->
  Rabs (toR (px (r2 r)) - toR (px (r1 r))) <= 2 ^ 1023 -> Rabs (toR (py (r2 r)) - toR (py (r1 r))) <= 2 ^ 1023 ->
  nearestD (frWidth (N := FNum) r) (toR (px (r2 r)) - toR (px (r1 r))) /\ relErr 1 (frWidth (N := FNum) r) (toR (px (r2 r)) - toR (px (r1 r))) /\
  nearestD (frHeight (N := FNum) r) (toR (py (r2 r)) - toR (py (r1 r))) /\ relErr 1 (frHeight (N := FNum) r) (toR (py (r2 r)) - toR (py (r1 r))).
Proof.
  intros r [A B] [C D] Bx By. unfold frWidth, frHeight. cbn [nsub FNum]. destruct (near_diff _ _ C A Bx), (near_diff _ _ D B By). auto.
Qed.
Print Assumptions C196_dimensions.

(** The exact sum of the doubles 0.1 and 0.2 is not a double. *)
Lemma small_val x s m k : Prim2SF x = S754_finite s m (Z.neg k) -> Rabs (toR x) <= IZR (Z.pos m).
Proof.
  intro E. unfold toR. rewrite E. rewrite !Rabs_mult. assert (A : Rabs (if s then -1 else 1) = 1) by (destruct s; [rewrite Rabs_left; lra|apply Rabs_R1]). rewrite A, Rmult_1_l.
  rewrite (Rabs_right (IZR (Z.pos m))) by (apply Rle_ge, IZR_le; lia). rewrite <- (Rmult_1_r (IZR (Z.pos m))) at 2. apply Rmult_le_compat_l; [apply IZR_le; lia|].
  assert (pw (Z.neg k) <= pw 0) by (apply pw_le; lia). rewrite pw_0 in H. pose proof (pw_pos (Z.neg k)). unfold pw in *. rewrite Rabs_right by lra. exact H.
Qed.
Lemma small_b x s m k : Prim2SF x = S754_finite s m (Z.neg k) -> (Z.pos m < 2 ^ 53)%Z -> Rabs (toR x) <= 2 ^ 53.
Proof. intros E L. apply small_val in E. rewrite pow_IZR. change (2 ^ Z.of_nat 53)%Z with (2 ^ 53)%Z. apply IZR_lt in L. lra. Qed.

Example C196_ex : let p := mkPt 0.1%float (-7.25)%float in finP p /\ fin 0.2%float /\ fin 1e-3%float /\
  Rabs (toR (px p) + toR 0.2%float) <= 2 ^ 1023 /\ Rabs (toR (py p) + toR 1e-3%float) <= 2 ^ 1023 /\
  ptTranslate (N := FNum) p 0.2%float 1e-3%float = mkPt 0x1.3333333333334p-2%float (-0x1.cfef9db22d0e5p2)%float.
Proof.
  cbv zeta. split; [split; reflexivity|]. split; [reflexivity|]. split; [reflexivity|].
  assert (K : 2 * 2 ^ 53 <= 2 ^ 1023) by (change (2 * 2 ^ 53) with (2 ^ 54); apply Rle_pow; [lra|lia]).
  split; [|split].
  - eapply Rle_trans; [apply Rabs_triang|]. cbn [px]. assert (Rabs (toR 0.1%float) <= 2 ^ 53) by (eapply small_b; [vm_compute; reflexivity|reflexivity]). assert (Rabs (toR 0.2%float) <= 2 ^ 53) by (eapply small_b; [vm_compute; reflexivity|reflexivity]). lra.
  - eapply Rle_trans; [apply Rabs_triang|]. cbn [py]. assert (Rabs (toR (-7.25)%float) <= 2 ^ 53) by (eapply small_b; [vm_compute; reflexivity|reflexivity]). assert (Rabs (toR 1e-3%float) <= 2 ^ 53) by (eapply small_b; [vm_compute; reflexivity|reflexivity]). lra.
  - vm_compute. reflexivity.
Qed.

(** ** C197: translations keep the order of coordinates *)

Lemma add_mono x y d : fin x -> fin y -> fin d -> fin (x + d)%float -> fin (y + d)%float -> toR x <= toR y -> toR (x + d)%float <= toR (y + d)%float.
Proof.
  intros Fx Fy Fd F1 F2 [L|L].
  - apply (rnd_mono _ _ (toR x + toR d) (toR y + toR d)); try assumption; [now apply add_rnd|now apply add_rnd|lra].
  - apply toR_same in L; try assumption. right. apply toR_same; try assumption. apply add_same; [exact L|apply same_refl].
Qed.

(** All doubles such that nothing overflows.  A point that is not outside a rectangle is not outside the
    translated rectangle, whose corners stay in order. *)
Theorem C197_rectangle : forall (r : frect float) (p : pt float) (dx dy : float), finP (r1 r) -> finP (r2 r) -> finP p -> fin dx -> fin dy ->
  let r' := frTranslate (N := FNum) r dx dy in let p' := ptTranslate (N := FNum) p dx dy in
  finP (r1 r') -> finP (r2 r') -> finP p' ->
  (toR (px (r1 r)) <= toR (px p) <= toR (px (r2 r)) /\ toR (py (r1 r)) <= toR (py p) <= toR (py (r2 r))) ->
  (toR (px (r1 r')) <= toR (px p') <= toR (px (r2 r')) /\ toR (py (r1 r')) <= toR (py p') <= toR (py (r2 r'))).
Proof.
  intros r p dx dy [A B] [C D] [X Y] Dx Dy. cbv zeta. unfold frTranslate, ptTranslate. cbn [r1 r2 px py nadd FNum].
  intros [A1 B1] [C1 D1] [X1 Y1] [[H1 H2] [H3 H4]]. cbn [px py] in *. split; split; now apply add_mono.
Qed.
Print Assumptions C197_rectangle.

(** The bounding box of the translated points is the translated bounding box: the same doubles (zeros may
    differ in sign). *)
Theorem C197_box : forall th (pts : list (pt float)) (dx dy : float) a b a' b', Forall finP pts -> fin dx -> fin dy ->
  Forall (fun q => finP (ptTranslate (N := FNum) q dx dy)) pts ->
  bbPoints (N := FNum) th pts = Ok (a, b) -> bbPoints (N := FNum) th (map (fun q => ptTranslate (N := FNum) q dx dy) pts) = Ok (a', b') ->
  sameP a' (ptTranslate (N := FNum) a dx dy) /\ sameP b' (ptTranslate (N := FNum) b dx dy).
Proof.
  intros th pts dx dy a b a' b' F Dx Dy F' H H'. destruct (C195_box th pts a b F H) as (Fa & Fb & Hin & (q1 & I1 & E1) & (q2 & I2 & E2) & (q3 & I3 & E3) & (q4 & I4 & E4)).
  assert (F2 : Forall finP (map (fun q => ptTranslate (N := FNum) q dx dy) pts)) by (rewrite Forall_map; exact F').
  destruct (C195_box th _ a' b' F2 H') as (Fa' & Fb' & Hin' & (q1' & I1' & E1') & (q2' & I2' & E2') & (q3' & I3' & E3') & (q4' & I4' & E4')).
  rewrite Forall_forall in F, F'.
  assert (T : forall q, In q pts -> finP q /\ finP (ptTranslate (N := FNum) q dx dy) /\ In (ptTranslate (N := FNum) q dx dy) (map (fun q => ptTranslate (N := FNum) q dx dy) pts)).
  { intros q I. split; [now apply F|]. split; [now apply F'|]. exact (in_map (fun q => ptTranslate (N := FNum) q dx dy) pts q I). }
  assert (S : forall q', In q' (map (fun q => ptTranslate (N := FNum) q dx dy) pts) -> exists q, In q pts /\ q' = ptTranslate (N := FNum) q dx dy).
  { intros q' I. apply in_map_iff in I. destruct I as (q & <- & I). now exists q. }
  destruct Fa as [Fax Fay], Fb as [Fbx Fby], Fa' as [Fax' Fay'], Fb' as [Fbx' Fby'].
  split; split; cbn [ptTranslate px py nadd FNum].
  - destruct (T q1 I1) as ([X1 _] & [X2 _] & X3). cbn [ptTranslate px nadd FNum] in X2. rewrite E1. apply toR_same; try assumption. destruct (S q1' I1') as (w & Iw & ->). destruct (T w Iw) as ([W1 _] & [W2 _] & _). cbn [ptTranslate px nadd FNum] in *.
    apply Rle_antisym; [apply (proj1 (Hin' _ X3))|]. rewrite E1'. apply add_mono; try assumption. rewrite <- E1. apply (proj1 (Hin w Iw)).
  - destruct (T q3 I3) as ([_ X1] & [_ X2] & X3). cbn [ptTranslate py nadd FNum] in X2. rewrite E3. apply toR_same; try assumption. destruct (S q3' I3') as (w & Iw & ->). destruct (T w Iw) as ([_ W1] & [_ W2] & _). cbn [ptTranslate py nadd FNum] in *.
    apply Rle_antisym; [apply (proj2 (Hin' _ X3))|]. rewrite E3'. apply add_mono; try assumption. rewrite <- E3. apply (proj2 (Hin w Iw)).
  - destruct (T q2 I2) as ([X1 _] & [X2 _] & X3). cbn [ptTranslate px nadd FNum] in X2. rewrite E2. apply toR_same; try assumption. destruct (S q2' I2') as (w & Iw & ->). destruct (T w Iw) as ([W1 _] & [W2 _] & _). cbn [ptTranslate px nadd FNum] in *.
    apply Rle_antisym; [|apply (proj1 (Hin' _ X3))]. rewrite E2'. apply add_mono; try assumption. rewrite <- E2. apply (proj1 (Hin w Iw)).
  - destruct (T q4 I4) as ([_ X1] & [_ X2] & X3). cbn [ptTranslate py nadd FNum] in X2. rewrite E4. apply toR_same; try assumption. destruct (S q4' I4') as (w & Iw & ->). destruct (T w Iw) as ([_ W1] & [_ W2] & _). cbn [ptTranslate py nadd FNum] in *.
    apply Rle_antisym; [|apply (proj2 (Hin' _ X3))]. rewrite E4'. apply add_mono; try assumption. rewrite <- E4. apply (proj2 (Hin w Iw)).
Qed.
Print Assumptions C197_box.

Local Open Scope float_scope.
Definition pts3 : list (pt float) := [mkPt 0.1 7; mkPt (-2.5) 1e-3; mkPt 1e17 (-4)].
Example C197_ex : Forall finP pts3 /\ Forall (fun q => finP (ptTranslate (N := FNum) q 0.3 1e9)) pts3 /\
  bbPoints (N := FNum) (thr0 (N := FNum)) pts3 = Ok (mkPt (-2.5) (-4), mkPt 1e17 7) /\
  bbPoints (N := FNum) (thr0 (N := FNum)) (map (fun q => ptTranslate (N := FNum) q 0.3 1e9) pts3) = Ok (mkPt (-2.2) 999999996, mkPt 1e17 1000000007).
Proof. split; [repeat constructor|]. split; [repeat constructor|]. split; vm_compute; reflexivity. Qed.

(** ** C198: what translations do not keep *)

(** Full statement: a point inside a rectangle is inside the translated rectangle, for moderate values. *)
Theorem C198_inside_refuted : exists (r : frect float) p dx dy, frSet (N := FNum) (thr0 (N := FNum)) (r1 r) (r2 r) = Ok r /\ finP p /\ fin dx /\ fin dy /\
  ptInRect (N := FNum) p r = true /\ ptInRect (N := FNum) (ptTranslate (N := FNum) p dx dy) (frTranslate (N := FNum) r dx dy) = false.
Proof.
  exists (mkR (mkPt 0 0) (mkPt 4 4)), (mkPt 1e-17 1), 1, 0. split; [vm_compute; reflexivity|]. split; [split; reflexivity|]. repeat split; vm_compute; reflexivity.
Qed.
Print Assumptions C198_inside_refuted.

(** Full statement: the ends of a segment are stored in order, and a translated segment equals the segment built
    from the translated points.  The translation does not put the ends in order again (homog2d.hpp:4996-5002);
    when the two abscissas become equal, the order of the ordinates decides. *)
Theorem C198_segment_refuted : exists (p q : pt float) s dx dy t, finP p /\ finP q /\ fin dx /\ fin dy /\
  svNew (N := FNum) (thr0 (N := FNum)) KSeg p q = Ok s /\
  svNew (N := FNum) (thr0 (N := FNum)) KSeg (ptTranslate (N := FNum) p dx dy) (ptTranslate (N := FNum) q dx dy) = Ok t /\
  ptLt (N := FNum) (sB (svTranslate (N := FNum) s dx dy)) (sA (svTranslate (N := FNum) s dx dy)) = true /\
  svEq (N := FNum) (thr0 (N := FNum)) (svTranslate (N := FNum) s dx dy) t = false.
Proof.
  exists (mkPt 0 5), (mkPt 1e-17 0), (mkSeg (mkPt 0 5) (mkPt 1e-17 0)), 1, 0, (mkSeg (mkPt 1 0) (mkPt 1 5)).
  split; [split; reflexivity|]. split; [split; reflexivity|]. repeat split; vm_compute; reflexivity.
Qed.
Print Assumptions C198_segment_refuted.

(** Full statement: moving an object there and back gives the object again. *)
Theorem C198_back_refuted : exists (p : pt float) dx dy, finP p /\ fin dx /\ fin dy /\
  ptEq (N := FNum) (thr0 (N := FNum)) (ptTranslate (N := FNum) (ptTranslate (N := FNum) p dx dy) (- dx) (- dy)) p = false.
Proof. exists (mkPt 0.1 0), 1e9, 0. split; [split; reflexivity|]. repeat split; vm_compute; reflexivity. Qed.
Print Assumptions C198_back_refuted.
Local Close Scope float_scope.

(** ** C199: distances *)

(** The distance between two points has a relative error of at most 6.2^-53, unless a difference of coordinates
    is below 2^-500 (the square underflows) or a coordinate is above 2^500. *)
Theorem C199_distance : forall p q : pt float, moderate p -> moderate q -> away (toR (px p) - toR (px q)) -> away (toR (py p) - toR (py q)) ->
  relErr 6 (distPP (N := FNum) p q) (edist (toRp p) (toRp q)) /\ relErr 6 (svLength (N := FNum) (mkSeg p q)) (edist (toRp p) (toRp q)).
Proof. intros p q A B C D. destruct (dist_err p q A B C D) as [_ H]. split; exact H. Qed.
Print Assumptions C199_distance.

(** Thus two points are said to be equal exactly if their distance is below the threshold, but in a band of that width. *)
Theorem C199_equal : forall (th : thrs float) (p q : pt float), moderate p -> moderate q -> away (toR (px p) - toR (px q)) -> away (toR (py p) - toR (py q)) -> fin (nullDistance th) ->
  let d := edist (toRp p) (toRp q) in
  (d * (1 + 6 * ulp1) < toR (nullDistance th) -> ptEq (N := FNum) th p q = true) /\
  (toR (nullDistance th) <= d * (1 - 6 * ulp1) -> ptEq (N := FNum) th p q = false).
Proof.
  intros th p q A B C D Ft. cbv zeta. destruct (dist_err p q A B C D) as [_ [F E]]. unfold ptEq. cbn [nltb FNum].
  assert (Pd : 0 <= edist (toRp p) (toRp q)) by apply sqrt_pos. rewrite (Rabs_right (edist _ _)) in E by lra. pose proof ulp1_pos.
  set (d := edist (toRp p) (toRp q)) in *. split; intro H1.
  - apply toR_lt; try assumption. revert E. unfold Rabs. destruct (Rcase_abs _); lra.
  - apply toR_ge; try assumption. revert E. unfold Rabs. destruct (Rcase_abs _); lra.
Qed.
Print Assumptions C199_equal.

Lemma int_toR k : (- lim < k < lim)%Z -> toR (FloatFuns.of_Z k) = IZR k.
Proof. intro H. now apply rep_toR, rep_ofZ. Qed.
Lemma int_fin k : (- lim < k < lim)%Z -> fin (FloatFuns.of_Z k).
Proof. intro H. now apply rep_fin with k, rep_ofZ. Qed.
Lemma pow53_500 : IZR lim <= 2 ^ 500.
Proof. apply Rle_trans with (2 ^ 53); [rewrite pow_IZR; apply Rle_refl|apply Rle_pow; [lra|lia]]. Qed.
Lemma int_moderate c : within (lim - 1) c -> moderate (gpt c).
Proof.
  intros [A B]. pose proof pow53_500 as K. assert (H : forall k, (- (lim - 1) <= k <= lim - 1)%Z -> Rabs (toR (FloatFuns.of_Z k)) <= 2 ^ 500).
  { intros k L. rewrite int_toR by lia. apply Rle_trans with (IZR lim); [|exact K]. rewrite <- abs_IZR. apply IZR_le. lia. }
  split; [split; apply int_fin; lia|]. split; now apply H.
Qed.
Lemma int_away a b : away (IZR a - IZR b).
Proof.
  unfold away. rewrite <- minus_IZR. destruct (Z.eq_dec (a - b) 0) as [->|N]; [now left|right]. rewrite <- abs_IZR. apply Rle_trans with 1; [apply pow_inv_1|]. apply (IZR_le 1). lia.
Qed.
(** The distance is the square root of 2: never exact. *)
Example C199_ex : let p := gpt (0, 0)%Z in let q := gpt (1, 1)%Z in moderate p /\ moderate q /\ away (toR (px p) - toR (px q)) /\ away (toR (py p) - toR (py q)) /\
  distPP (N := FNum) p q = 0x1.6a09e667f3bcdp0%float.
Proof.
  cbv zeta. split; [apply int_moderate; split; cbn; unfold lim; lia|]. split; [apply int_moderate; split; cbn; unfold lim; lia|].
  split; [cbn [gpt px fst]; rewrite !int_toR by (unfold lim; lia); apply int_away|]. split; [cbn [gpt py snd]; rewrite !int_toR by (unfold lim; lia); apply int_away|]. vm_compute. reflexivity.
Qed.

(** ** C200: hulls and convexity of points with any double coordinates *)

(** No three points nearly aligned ([clearAll]: the determinant exceeds 2^-51 of its terms, and 2e-15): the points
    selected by the computation in doubles are the exact hull. *)
Theorem C200_hull : forall l : list (pt float), (4 <= length l)%nat -> Forall moderate l -> NoDup (map toRp l) -> clearAll l ->
  exists h, hullPts (N := FNum) l = Ok h /\ incl h l /\ isHull (map toRp l) (map toRp h) /\ isPivot (map toRp l) (hd pt00 (map toRp h)).
Proof.
  intros l L F Nd C. pose proof (hull_f l L F Nd C) as S. assert (Nd' : NoDup l) by (now apply NoDup_map_inv with (f := toRp)).
  assert (Cl : forall p q r, In p (map toRp l) -> In q (map toRp l) -> In r (map toRp l) -> p <> q -> q <> r -> p <> r -> clearTurn p q r).
  { intros p q r Ip Iq Ir Npq Nqr Npr. apply in_map_iff in Ip, Iq, Ir. destruct Ip as (a & <- & Ia), Iq as (b & <- & Ib), Ir as (c & <- & Ic). apply C; auto; congruence. }
  assert (Big : forall p q r, clearTurn p q r -> / 1000000000000000 <= Rabs (cross3 p q r)).
  { intros p q r H. unfold clearTurn in H. rewrite ten15 in H. assert (0 <= detSize p q r) by (unfold detSize; apply Rplus_le_le_0_compat; apply Rabs_pos).
    assert (0 <= / 2 ^ 51 * detSize p q r) by (apply Rmult_le_pos; [left; apply pinv_pos|assumption]). lra. }
  destruct (C100_hull (map toRp l)) as (b & Hb & H1 & H2).
  - now rewrite map_length.
  - exact Nd.
  - intros p0 [I0 _] q r Iq Ir Nq Nr Nqr Z. specialize (Big _ _ _ (Cl p0 q r I0 Iq Ir (not_eq_sym Nq) Nqr (not_eq_sym Nr))). rewrite Z, Rabs_R0 in Big. lra.
  - intros p q r Ip Iq Ir. assert (Dc : forall x y : pt R, x = y \/ x <> y).
    { intros [x1 y1] [x2 y2]. destruct (Req_dec x1 x2) as [->|N]; [|right; congruence]. destruct (Req_dec y1 y2) as [->|N]; [now left|right; congruence]. }
    destruct (Dc p q) as [->|Npq]; [left; unfold cross3; ring|]. destruct (Dc q r) as [->|Nqr]; [left; unfold cross3; ring|]. destruct (Dc p r) as [->|Npr]; [left; unfold cross3; ring|].
    right. apply Big, Cl; assumption.
  - rewrite Hb in S. destruct (hullPts (N := FNum) l) as [a| |]; [|destruct S|destruct S]. destruct S as [-> I]. exists a. auto.
Qed.
Print Assumptions C200_hull.

(** isConvex: the loop over the turns takes the exact decision if no turn is nearly flat. *)
Lemma cross_f l i : Forall moderate l -> (i < length l)%nat ->
  (forall p q r, triple (map toRp l) p q r -> clearSign q r p) -> (2 <= length l)%nat ->
  (0 <? plCross (N := FNum) l i)%float = Rltb 0 (plCross (N := RNum) (map toRp l) i).
Proof.
  intros F Hi C L. rewrite Forall_forall in F. unfold plCross. rewrite map_length. cbv zeta. rewrite !nth_toRp.
  assert (Lp : (prevIdx (length l) i < length l)%nat) by (unfold prevIdx; destruct (i =? 0)%nat eqn:E; [lia|apply Nat.eqb_neq in E; lia]).
  assert (Ln : (nextIdx (length l) i < length l)%nat) by (unfold nextIdx; destruct (i =? length l - 1)%nat eqn:E; [lia|apply Nat.eqb_neq in E; lia]).
  assert (T : triple (map toRp l) (toRp (nth (prevIdx (length l) i) l (pt00 (N := FNum)))) (toRp (nth i l (pt00 (N := FNum)))) (toRp (nth (nextIdx (length l) i) l (pt00 (N := FNum))))).
  { apply triple_index; [now rewrite map_length|]. exists i. rewrite map_length, !nth_toRp. auto. }
  specialize (C _ _ _ T).
  set (p0 := nth (prevIdx (length l) i) l (pt00 (N := FNum))) in *. set (p1 := nth i l (pt00 (N := FNum))) in *. set (p2 := nth (nextIdx (length l) i) l (pt00 (N := FNum))) in *.
  assert (M0 : moderate p0) by (apply F, nth_In, Lp). assert (M1 : moderate p1) by (apply F, nth_In, Hi). assert (M2 : moderate p2) by (apply F, nth_In, Ln).
  cbn [nsub nmul FNum RNum toRp px py].
  pose proof (fdet_sign (px p1) (px p0) (py p2) (py p1) (py p1) (py p0) (px p2) (px p1) (mod_x _ M1) (mod_x _ M0) (mod_y _ M2) (mod_y _ M1) (mod_y _ M1) (mod_y _ M0) (mod_x _ M2) (mod_x _ M1)) as H.
  unfold fdet in H. unfold rdet in H.
  assert (E2 : sdet (px p1) (px p0) (py p2) (py p1) (py p1) (py p0) (px p2) (px p1) = detSize (toRp p1) (toRp p2) (toRp p0)).
  { unfold sdet, detSize, toRp. cbn [px py]. rewrite Rplus_comm. f_equal; rewrite <- Rabs_Ropp; f_equal; ring. }
  assert (E1 : (toR (px p1) - toR (px p0)) * (toR (py p2) - toR (py p1)) - (toR (py p1) - toR (py p0)) * (toR (px p2) - toR (px p1)) = cross3 (toRp p1) (toRp p2) (toRp p0)) by (unfold cross3, toRp; cbn [px py]; ring).
  apply H. rewrite E1, E2, four_ulp. unfold clearSign in C. pose proof tiny_1. pose proof (pinv_pos 1075).
  assert (/ 2 ^ 1000 = / 2 ^ 998 * / 4) by (change 1000%nat with (998 + 2)%nat; rewrite <- pinv_mult; f_equal; cbn; lra).
  assert (/ 2 ^ 1075 <= / 2 ^ 1002) by (apply pinv; lia). assert (/ 2 ^ 1002 = / 2 ^ 1000 * / 4) by (change 1002%nat with (1000 + 2)%nat; rewrite <- pinv_mult; f_equal; cbn; lra).
  pose proof (pinv_pos 1000). lra.
Qed.
Theorem C200_convex : forall l : list (pt float), (2 <= length l)%nat -> Forall moderate l -> (forall p q r, triple (map toRp l) p q r -> clearSign q r p) ->
  (convexLoop (N := FNum) l 0 (seq 0 (length l)) = true <->
   (forall p q r, triple (map toRp l) p q r -> 0 < cross3 p q r) \/ (forall p q r, triple (map toRp l) p q r -> cross3 p q r < 0)).
Proof.
  intros l L F C. assert (E : forall idx s, (forall i, In i idx -> (i < length l)%nat) -> convexLoop (N := FNum) l s idx = convexLoop (N := RNum) (map toRp l) s idx).
  { induction idx as [|i idx IH]; intros s H; [reflexivity|]. cbn [convexLoop].
    assert (D : @nltb _ FNum (@nZ _ FNum 0) (plCross (N := FNum) l i) = @nltb _ RNum (@nZ _ RNum 0) (plCross (map toRp l) i)) by (apply cross_f; auto; apply H; now left).
    rewrite D. assert (H' : forall i, In i idx -> (i < length l)%nat) by (intros; apply H; now right). destruct (@nltb _ RNum _ _); rewrite !IH by exact H'; reflexivity. }
  rewrite E by (intros i I; apply in_seq in I; lia). rewrite <- (map_length toRp l) at 1. rewrite convex_turns by now rewrite map_length.
  split; (intros [H|H]; [now left|right]); intros p q r T; [|specialize (H p q r T); lra].
  specialize (H p q r T). specialize (C p q r T). assert (X : cross3 q r p = cross3 p q r) by (unfold cross3; ring). unfold clearSign in C. rewrite X in C.
  assert (0 <= detSize q r p) by (unfold detSize; apply Rplus_le_le_0_compat; apply Rabs_pos). assert (0 <= / 2 ^ 51 * detSize q r p) by (apply Rmult_le_pos; [left; apply pinv_pos|assumption]).
  pose proof (pinv_pos 1000). destruct H as [H|H]; [exact H|]. rewrite H, Rabs_R0 in C. lra.
Qed.
Print Assumptions C200_convex.

(** Points whose coordinates are not exact. *)
Definition quad : list (pt float) := [mkPt 4.1 6.9; mkPt 0.1 0.2; mkPt 5.3 0.7; mkPt 0.6 3.3]%float.
Lemma val_frac x m k : Prim2SF x = S754_finite false m (Z.neg k) -> toR x = IZR (Z.pos m) * / IZR (2 ^ Z.pos k).
Proof.
  intro E. unfold toR. rewrite E, Rmult_1_l. f_equal. change (powerRZ 2 (Z.neg k)) with (/ 2 ^ Pos.to_nat k). f_equal. rewrite pow_IZR. now rewrite positive_nat_Z.
Qed.
Lemma quad_val : exists a b c d e f g h, map toRp quad = [mkPt a b; mkPt c d; mkPt e f; mkPt g h] /\
  4.09 <= a <= 4.11 /\ 6.89 <= b <= 6.91 /\ 0.09 <= c <= 0.11 /\ 0.19 <= d <= 0.21 /\ 5.29 <= e <= 5.31 /\ 0.69 <= f <= 0.71 /\ 0.59 <= g <= 0.61 /\ 3.29 <= h <= 3.31.
Proof.
  exists (toR 4.1%float), (toR 6.9%float), (toR 0.1%float), (toR 0.2%float), (toR 5.3%float), (toR 0.7%float), (toR 0.6%float), (toR 3.3%float). split; [reflexivity|].
  repeat match goal with |- _ /\ _ => split end;
  match goal with |- context [toR ?x] => let E := fresh in assert (E : exists m k, Prim2SF x = S754_finite false m (Z.neg k) /\ True) by (eexists; eexists; split; [vm_compute; reflexivity|exact I]);
    let y := eval vm_compute in (Prim2SF x) in match y with S754_finite _ ?m (Z.neg ?k) => rewrite (val_frac x m k ltac:(vm_compute; reflexivity)) end end;
  match goal with |- context [IZR (2 ^ ?k)] => let z := eval vm_compute in (2 ^ k)%Z in change (2 ^ k)%Z with z end; lra.
Qed.
Lemma quad_clear p q r : -10 <= px p <= 10 -> -10 <= py p <= 10 -> -10 <= px q <= 10 -> -10 <= py q <= 10 -> -10 <= px r <= 10 -> -10 <= py r <= 10 ->
  1 <= cross3 p q r \/ cross3 p q r <= -1 -> clearTurn p q r /\ clearSign p q r.
Proof.
  intros A B C D G H K. assert (S : detSize p q r <= 1000).
  { unfold detSize. rewrite !Rabs_mult. assert (T : forall x y, -10 <= x <= 10 -> -10 <= y <= 10 -> Rabs (x - y) <= 20) by (intros x y ? ?; unfold Rabs; destruct (Rcase_abs _); lra).
    assert (Rabs (px q - px p) * Rabs (py r - py p) <= 20 * 20) by (apply Rmult_le_compat; try apply Rabs_pos; now apply T).
    assert (Rabs (py q - py p) * Rabs (px r - px p) <= 20 * 20) by (apply Rmult_le_compat; try apply Rabs_pos; now apply T). lra. }
  assert (V : 1 <= Rabs (cross3 p q r)) by (unfold Rabs; destruct (Rcase_abs _); lra).
  assert (W : / 2 ^ 51 <= / 2 ^ 12) by (apply pinv; lia). assert (X : / 2 ^ 1000 <= / 2 ^ 12) by (apply pinv; lia). assert (Y : 2 ^ 12 = 4096) by (rewrite pow_IZR; reflexivity). rewrite Y in W, X.
  assert (Z : / 2 ^ 51 * detSize p q r <= / 4096 * 1000) by (apply Rmult_le_compat; [left; apply pinv_pos|unfold detSize; apply Rplus_le_le_0_compat; apply Rabs_pos|exact W|exact S]).
  unfold clearTurn, clearSign. rewrite ten15. lra.
Qed.
Lemma quad_all p q r : In p (map toRp quad) -> In q (map toRp quad) -> In r (map toRp quad) -> p <> q -> q <> r -> p <> r -> clearTurn p q r /\ clearSign p q r.
Proof.
  destruct quad_val as (a & b & c & d & e & f & g & h & -> & A & B & C & D & G & H & K & M).
  assert (S : forall p q r, cross3 p q r = cross3 q r p /\ cross3 p q r = - cross3 q p r) by (intros; unfold cross3; split; ring).
  set (p1 := mkPt a b). set (p2 := mkPt c d). set (p3 := mkPt e f). set (p4 := mkPt g h).
  assert (X1 : 1 <= cross3 p2 p3 p1) by (unfold cross3, p1, p2, p3; cbn [px py]; nra).
  assert (X2 : 1 <= cross3 p2 p3 p4) by (unfold cross3, p4, p2, p3; cbn [px py]; nra).
  assert (X3 : 1 <= cross3 p2 p1 p4) by (unfold cross3, p1, p2, p4; cbn [px py]; nra).
  assert (X4 : 1 <= cross3 p3 p1 p4) by (unfold cross3, p1, p3, p4; cbn [px py]; nra).
  intros Ip Iq Ir N1 N2 N3. cbn [In] in Ip, Iq, Ir.
  assert (Rg : forall x : pt R, p1 = x \/ p2 = x \/ p3 = x \/ p4 = x \/ False -> -10 <= px x <= 10 /\ -10 <= py x <= 10) by (intros x [<-|[<-|[<-|[<-|[]]]]]; unfold p1, p2, p3, p4; cbn [px py]; lra).
  destruct (Rg p Ip), (Rg q Iq), (Rg r Ir). apply quad_clear; try assumption. clear Rg.
  destruct Ip as [<-|[<-|[<-|[<-|[]]]]], Iq as [<-|[<-|[<-|[<-|[]]]]]; try congruence; destruct Ir as [<-|[<-|[<-|[<-|[]]]]]; try congruence;
  match goal with |- 1 <= cross3 ?x ?y ?z \/ _ => destruct (S x y z), (S y z x), (S z x y), (S y x z), (S x z y), (S z y x) end; first [left; lra|right; lra].
Qed.
Example C200_ex : (4 <= length quad)%nat /\ Forall moderate quad /\ NoDup (map toRp quad) /\ clearAll quad /\ (forall p q r, triple (map toRp quad) p q r -> clearSign q r p) /\
  hullPts (N := FNum) quad = Ok [mkPt 0.1 0.2; mkPt 5.3 0.7; mkPt 4.1 6.9; mkPt 0.6 3.3]%float /\ convexLoop (N := FNum) quad 0 (seq 0 (length quad)) = false.
Proof.
  split; [cbn; lia|]. assert (Nd : NoDup (map toRp quad)).
  { destruct quad_val as (a & b & c & d & e & f & g & h & -> & A & B & C & D & G & H & K & M). repeat (apply NoDup_cons; [cbn [In]; intro J; repeat (destruct J as [J|J]; [injection J; intros; lra|]); exact J|]). apply NoDup_nil. }
  split.
  { assert (T : forall x s m k, Prim2SF x = S754_finite s m (Z.neg k) -> (Z.pos m < 2 ^ 53)%Z -> Rabs (toR x) <= 2 ^ 500) by (intros x s m k E L; apply Rle_trans with (2 ^ 53); [eapply small_b; eassumption|apply Rle_pow; [lra|lia]]).
    repeat (apply Forall_cons; [split; [split; reflexivity|split; cbn [px py]; (eapply T; [vm_compute; reflexivity|reflexivity])]|]). apply Forall_nil. }
  split; [exact Nd|]. split.
  { intros p q r Ip Iq Ir N1 N2 N3. assert (J : forall x y, In x quad -> In y quad -> x <> y -> toRp x <> toRp y).
    { intros x y Ix Iy N E. destruct (In_nth _ _ (pt00 (N := FNum)) Ix) as (i & Li & <-), (In_nth _ _ (pt00 (N := FNum)) Iy) as (j & Lj & <-). rewrite <- !nth_toRp in E. apply N. f_equal. apply (proj1 (NoDup_nth (map toRp quad) pt00) Nd); rewrite ?map_length; assumption. }
    apply quad_all; try (now apply in_map); now apply J. }
  split.
  { intros p q r T. apply triple_index in T; [|cbn; lia]. destruct T as (i & Hi & -> & -> & ->). rewrite map_length in *. change (length quad) with 4%nat in *.
    assert (Lp : (prevIdx 4 i < 4)%nat /\ (nextIdx 4 i < 4)%nat /\ i <> nextIdx 4 i /\ nextIdx 4 i <> prevIdx 4 i /\ i <> prevIdx 4 i) by (destruct i as [|[|[|[|?]]]]; cbn; lia). destruct Lp as (L1 & L2 & L3 & L4 & L5).
    apply quad_all; try (apply nth_In; cbn; lia); intro E; apply (proj1 (NoDup_nth (map toRp quad) pt00) Nd) in E; auto; cbn; lia. }
  split; vm_compute; reflexivity.
Qed.

(** ** C201: areas *)

(** The signed area (shoelace sum) of a polygon: the error is below (2n+3).2^-53 times the sum of the absolute
    values of the terms (plus the effect of the underflow, n.2^-1021). *)
Theorem C201_area : forall (l : list (pt float)) (o : pt R), l <> [] -> (Z.of_nat (length l) <= 100000)%Z -> Forall moderate l ->
  fin (signedArea (N := FNum) l) /\
  Rabs (toR (signedArea (N := FNum) l) - fanArea o (map toRp l)) <= (2 * INR (length l) + 3) * ulp1 * (areaSize (map toRp l) + INR (length l) * / 2 ^ 1021).
Proof. intros l o A B C. rewrite <- signedArea_fan. now apply area_err. Qed.
Print Assumptions C201_area.

(** Therefore the orientation given by its sign is right when the area exceeds that bound. *)
Theorem C201_sign : forall (l : list (pt float)) (o : pt R), l <> [] -> (Z.of_nat (length l) <= 100000)%Z -> Forall moderate l ->
  (2 * INR (length l) + 3) * ulp1 * (areaSize (map toRp l) + INR (length l) * / 2 ^ 1021) < Rabs (fanArea o (map toRp l)) ->
  ((0 <? signedArea (N := FNum) l)%float = true <-> 0 < fanArea o (map toRp l)).
Proof.
  intros l o A B C H. destruct (C201_area l o A B C) as [F E]. set (s := signedArea (N := FNum) l) in *. rewrite (toR_lt 0 s) by (try assumption; reflexivity). change (toR 0%float) with 0.
  set (X := fanArea o (map toRp l)) in *. revert E H. generalize ((2 * INR (length l) + 3) * ulp1 * (areaSize (map toRp l) + INR (length l) * / 2 ^ 1021)). intros e. unfold Rabs. destruct (Rcase_abs _), (Rcase_abs _); lra.
Qed.
Print Assumptions C201_sign.
Example C201_ex : quad <> [] /\ (Z.of_nat (length quad) <= 100000)%Z /\ Forall moderate quad /\ (signedArea (N := FNum) quad =? 3.41)%float = true.
Proof. split; [discriminate|]. split; [cbn; lia|]. split; [apply C200_ex|]. vm_compute. reflexivity. Qed.
