(** * Properties of areas, lengths, translations and selections *)

From Coq Require Import Reals Lra Lia List Bool Arith.
From Verif Require Import Num M_LP M_Homogr M_Seg M_Circle M_FRect M_Poly M_Misc S_Geom S_Seg S_Circle S_FRect S_Poly S_Extra P_LP P_LP2 P_LP4 P_Seg P_Circle P_Poly P_Poly3 P_Poly6 P_Poly7 P_FRect C_FRect.
Import ListNotations.
Local Open Scope R_scope.

Lemma sumOver_const {A} (f : A -> R) k l : (forall x, In x l -> f x = k) -> sumOver f l = INR (length l) * k.
Proof.
  induction l as [|a l IH]; intros H; [cbn; lra|]. cbn [sumOver length]. rewrite S_INR, (H a) by now left. rewrite IH by (intros x X; apply H; now right). ring.
Qed.
Lemma x_cos_sin x : 0 <= x <= PI / 2 -> x * cos x <= sin x.
Proof.
  intros [H H']. destruct (Req_dec x 0) as [->|N]; [rewrite sin_0; lra|].
  destruct (MVT_cor2 (fun t => sin t - t * cos t) (fun t => t * sin t) 0 x) as (c & E & C); [lra| |].
  - intros t _. replace (t * sin t) with (cos t - (1 * cos t + t * - sin t)) by ring.
    apply (derivable_pt_lim_minus sin (fun t => t * cos t)); [apply derivable_pt_lim_sin|].
    apply (derivable_pt_lim_mult (fun t => t) cos); [apply derivable_pt_lim_id|apply derivable_pt_lim_cos].
  - rewrite sin_0, Rmult_0_l in E. assert (0 <= sin c) by (apply sin_ge_0; lra). assert (0 <= c * sin c * (x - 0)) by (apply Rmult_le_pos; [apply Rmult_le_pos; lra|lra]). lra.
Qed.
Lemma ngon_sides o rad n e : (3 <= n)%nat -> In e (cyc (ngon o rad n)) -> exists a b,
  fst e = mkPt (px o + rad * cos a) (py o + rad * sin a) /\ snd e = mkPt (px o + rad * cos b) (py o + rad * sin b) /\
  cos (b - a) = cos (2 * (PI / INR n)) /\ sin (b - a) = sin (2 * (PI / INR n)).
Proof.
  intros L H. destruct (half_angle n L) as (A & B & C & D & E). assert (3 <= INR n) as LN by (apply le_INR in L; cbn in L; lra).
  unfold ngon in H. rewrite cyc_map in H. apply in_map_iff in H. destruct H as ([i j] & <- & H).
  destruct (In_nth _ _ (0%nat, 0%nat) H) as (k & Hk & Ek). rewrite cyc_length, seq_length in Hk.
  rewrite nth_cyc in Ek by (now rewrite seq_length). rewrite seq_length in Ek. injection Ek as Ei Ej.
  rewrite seq_nth in Ei by auto. rewrite seq_nth in Ej by (now apply nextIdx_bound). cbn [Nat.add] in *. subst i j. cbn [fst snd].
  exists (2 * PI * INR k / INR n), (2 * PI * INR (nextIdx n k) / INR n). split; [reflexivity|]. split; [reflexivity|].
  unfold nextIdx. destruct (Nat.eqb_spec k (n - 1)) as [->|N].
  - rewrite minus_INR by lia. cbn [INR]. replace (2 * PI * 0 / INR n - 2 * PI * (INR n - 1) / INR n) with (2 * (PI / INR n) + 2 * INR 1 * PI - 4 * PI) by (cbn [INR]; field; lra).
    replace (2 * (PI / INR n) + 2 * INR 1 * PI - 4 * PI) with (- (2 * PI - 2 * (PI / INR n))) by (cbn [INR]; ring). rewrite cos_neg, sin_neg.
    replace (2 * PI - 2 * (PI / INR n)) with (- (2 * (PI / INR n)) + 2 * INR 1 * PI) by (cbn [INR]; ring). rewrite cos_period, sin_period, cos_neg, sin_neg. split; ring.
  - rewrite plus_INR. cbn [INR]. replace (2 * PI * (INR k + 1) / INR n - 2 * PI * INR k / INR n) with (2 * (PI / INR n)) by (field; lra). auto.
Qed.
Lemma ngon_area o rad n : (3 <= n)%nat -> fanArea o (ngon o rad n) = INR n * (rad * rad * (sin (PI / INR n) * cos (PI / INR n))).
Proof.
  intros L. unfold fanArea. rewrite (sumOver_const _ (2 * (rad * rad * (sin (PI / INR n) * cos (PI / INR n))))).
  - rewrite cyc_length. unfold ngon. rewrite map_length, seq_length. field.
  - intros e I. destruct (ngon_sides o rad n e L I) as (a & b & -> & -> & _ & S). rewrite sin_2a, sin_minus in S. unfold tri2, cross3. cbn [px py].
    transitivity (rad * rad * (sin b * cos a - cos b * sin a)); [ring|]. rewrite S. ring.
Qed.
Lemma ngon_perimeter o rad n : (3 <= n)%nat -> 0 <= rad -> perimeter (ngon o rad n) = INR n * (2 * rad * sin (PI / INR n)).
Proof.
  intros L Hr. destruct (half_angle n L) as (A & B & C & D & E). unfold perimeter. rewrite (sumOver_const _ (2 * rad * sin (PI / INR n))).
  - rewrite cyc_length. unfold ngon. now rewrite map_length, seq_length.
  - intros e I. destruct (ngon_sides o rad n e L I) as (a & b & -> & -> & CO & _). rewrite cos_2a_sin, cos_minus in CO.
    apply edist_val; [apply Rmult_le_pos; lra|]. cbn [px py]. pose proof (sin2_cos2 a) as Sa. pose proof (sin2_cos2 b) as Sb. unfold Rsqr in Sa, Sb.
    transitivity (2 * rad * rad * (1 - (cos b * cos a + sin b * sin a))); [rewrite CO; ring|].
    transitivity (rad * rad * ((sin a * sin a + cos a * cos a) + (sin b * sin b + cos b * cos b) - 2 * (cos b * cos a + sin b * sin a))); [rewrite Sa, Sb; ring|ring].
Qed.

(** ** C126 *)
(** Area and length of a circle are between those of the inscribed and the circumscribed regular polygon,
    for every number of vertices. *)
Theorem C126_area : forall c n, 0 <= cr c -> (3 <= n)%nat ->
  fanArea (cc c) (ngon (cc c) (cr c) n) <= cArea c <= fanArea (cc c) (ngon (cc c) (cr c / cos (PI / INR n)) n).
Proof.
  intros c n Hr L. destruct (half_angle n L) as (A & B & C & D & E). assert (3 <= INR n) as LN by (apply le_INR in L; cbn in L; lra). pose proof PI_RGT_0.
  rewrite !ngon_area by auto. unfold cArea. rnum. set (x := PI / INR n) in *. assert (INR n * x = PI) as NX by (unfold x; field; lra).
  assert (0 <= cr c * cr c) as RR by (apply Rle_0_sqr).
  assert (sin x <= x) as S1 by (left; apply sin_lt_x; auto). pose proof (x_cos_sin x ltac:(lra)) as S2. pose proof (COS_bound x) as CB.
  split.
  - replace (cr c * cr c * PI) with (INR n * (cr c * cr c * x)) by (rewrite <- NX; ring). apply Rmult_le_compat_l; [lra|]. apply Rmult_le_compat_l; auto. nra.
  - replace (INR n * (cr c / cos x * (cr c / cos x) * (sin x * cos x))) with (INR n * (cr c * cr c * (sin x / cos x))) by (field; lra).
    replace (cr c * cr c * PI) with (INR n * (cr c * cr c * x)) by (rewrite <- NX; ring). apply Rmult_le_compat_l; [lra|]. apply Rmult_le_compat_l; auto.
    apply (Rmult_le_reg_r (cos x)); [lra|]. unfold Rdiv. rewrite Rmult_assoc, Rinv_l, Rmult_1_r by lra. exact S2.
Qed.
Theorem C126_length : forall c n, 0 <= cr c -> (3 <= n)%nat ->
  perimeter (ngon (cc c) (cr c) n) <= cLength c <= perimeter (ngon (cc c) (cr c / cos (PI / INR n)) n).
Proof.
  intros c n Hr L. destruct (half_angle n L) as (A & B & C & D & E). assert (3 <= INR n) as LN by (apply le_INR in L; cbn in L; lra). pose proof PI_RGT_0.
  rewrite !ngon_perimeter; auto; [|apply Rmult_le_pos; [auto|left; apply Rinv_0_lt_compat; lra]]. unfold cLength. rnum. set (x := PI / INR n) in *. assert (INR n * x = PI) as NX by (unfold x; field; lra).
  assert (sin x <= x) as S1 by (left; apply sin_lt_x; auto). pose proof (x_cos_sin x ltac:(lra)) as S2.
  split.
  - replace (cr c * PI * 2) with (INR n * (2 * cr c * x)) by (rewrite <- NX; ring). apply Rmult_le_compat_l; [lra|]. apply Rmult_le_compat_l; [lra|auto].
  - replace (INR n * (2 * (cr c / cos x) * sin x)) with (INR n * (2 * cr c * (sin x / cos x))) by (field; lra).
    replace (cr c * PI * 2) with (INR n * (2 * cr c * x)) by (rewrite <- NX; ring). apply Rmult_le_compat_l; [lra|]. apply Rmult_le_compat_l; [lra|].
    apply (Rmult_le_reg_r (cos x)); [lra|]. unfold Rdiv. rewrite Rmult_assoc, Rinv_l, Rmult_1_r by lra. exact S2.
Qed.
(** Translation and moveTo keep the radius and move the edge. *)
Theorem C126_translate : forall c dx dy p, onEdge c p <-> onEdge (cTranslate c dx dy) (mkPt (px p + dx) (py p + dy)).
Proof.
  intros c dx dy p. unfold onEdge, cTranslate, ptTranslate, edist. cbn [cc cr px py]. rnum.
  replace (px (cc c) + dx - (px p + dx)) with (px (cc c) - px p) by ring. replace (py (cc c) + dy - (py p + dy)) with (py (cc c) - py p) by ring. tauto.
Qed.
Theorem C126_moveTo : forall (c : circle R) p, cc (cMoveTo c p) = p /\ cMoveTo c p = cTranslate c (px p - px (cc c)) (py p - py (cc c)).
Proof.
  intros c p. split; [reflexivity|]. unfold cMoveTo, cTranslate, ptTranslate. rnum. f_equal. destruct p as [x y]. cbn [px py]. f_equal; ring.
Qed.
(** The unit circle and the hexagon: 3 times the root of 3 over 2 and 6, against pi and 2 pi. *)
Example C126_ex : 0 <= cr (mkC (mkPt 1 2) 1) /\ perimeter (ngon (mkPt 1 2) 1 6) = 6 /\ cLength (mkC (mkPt 1 2) 1) = 2 * PI.
Proof.
  split; [cbn; lra|]. split; [|unfold cLength; rnum; cbn [cr]; ring]. rewrite ngon_perimeter by (lia || lra). replace (INR 6) with 6 by (cbn; lra). rewrite sin_PI6. lra.
Qed.
Print Assumptions C126_area. Print Assumptions C126_length. Print Assumptions C126_translate. Print Assumptions C126_moveTo.

(** ** C127 *)
(** Area and length of a rectangle are those of the polygon of its four corners. *)
Theorem C127_area : forall r o, wfR r -> frArea r = Rabs (fanArea o (fr4Pts r)).
Proof.
  intros r o W. rewrite <- Rabs_Ropp. unfold fanArea, tri2, cross3, frArea, frHeight, frWidth, fr4Pts. cbn [cyc combine app sumOver fst snd px py]. rnum. destruct W as [W1 W2].
  rewrite Rabs_right; [field|].
  apply Rle_ge. replace (- _) with ((px (r2 r) - px (r1 r)) * (py (r2 r) - py (r1 r))) by field. apply Rmult_le_pos; lra.
Qed.
Theorem C127_length : forall r, wfR r -> frLength r = perimeter (fr4Pts r).
Proof.
  intros r [W1 W2]. unfold perimeter, frLength, frHeight, frWidth, fr4Pts. cbn [cyc combine app sumOver fst snd]. rnum.
  rewrite (edist_val (r1 r) (mkPt (px (r1 r)) (py (r2 r))) (py (r2 r) - py (r1 r))) by (cbn [px py]; lra).
  rewrite (edist_val (mkPt (px (r1 r)) (py (r2 r))) (r2 r) (px (r2 r) - px (r1 r))) by (cbn [px py]; lra).
  rewrite (edist_val (r2 r) (mkPt (px (r2 r)) (py (r1 r))) (py (r2 r) - py (r1 r))) by (cbn [px py]; lra).
  rewrite (edist_val (mkPt (px (r2 r)) (py (r1 r))) (r1 r) (px (r2 r) - px (r1 r))) by (cbn [px py]; lra). ring.
Qed.
(** The four corners are the points of the rectangle that are not strictly between two others of it. *)
Theorem C127_corners : forall r p, wfR r -> (In p (fr4Pts r) <-> inR r p /\ forall a b, inR r a -> inR r b -> px a + px b = 2 * px p -> py a + py b = 2 * py p -> a = p /\ b = p).
Proof.
  intros r p [W1 W2]. unfold inR. split.
  - intros I. assert ((px p = px (r1 r) \/ px p = px (r2 r)) /\ (py p = py (r1 r) \/ py p = py (r2 r))) as [X Y].
    { unfold fr4Pts in I. cbn [In] in I. destruct I as [<-|[<-|[<-|[<-|[]]]]]; cbn [px py]; auto. }
    split; [lra|]. intros [ax ay] [bx by_] A B E1 E2. destruct p as [x y]. cbn [px py] in *. assert (ax = x /\ ay = y /\ bx = x /\ by_ = y) as (-> & -> & -> & ->) by lra. auto.
  - intros [B H]. destruct p as [x y]. cbn [px py] in *.
    assert (x = px (r1 r) \/ x = px (r2 r)) as X.
    { destruct (Req_dec x (px (r1 r))) as [?|N1]; [auto|]. destruct (Req_dec x (px (r2 r))) as [?|N2]; [auto|]. exfalso.
      set (d := Rmin (x - px (r1 r)) (px (r2 r) - x)). pose proof (Rmin_l (x - px (r1 r)) (px (r2 r) - x)). pose proof (Rmin_r (x - px (r1 r)) (px (r2 r) - x)). fold d in H0, H1.
      assert (0 < d) by (unfold d; apply Rmin_pos; lra). destruct (H (mkPt (x - d) y) (mkPt (x + d) y)) as [E _]; cbn [px py]; try lra. injection E. lra. }
    assert (y = py (r1 r) \/ y = py (r2 r)) as Y.
    { destruct (Req_dec y (py (r1 r))) as [?|N1]; [auto|]. destruct (Req_dec y (py (r2 r))) as [?|N2]; [auto|]. exfalso.
      set (d := Rmin (y - py (r1 r)) (py (r2 r) - y)). pose proof (Rmin_l (y - py (r1 r)) (py (r2 r) - y)). pose proof (Rmin_r (y - py (r1 r)) (py (r2 r) - y)). fold d in H0, H1.
      assert (0 < d) by (unfold d; apply Rmin_pos; lra). destruct (H (mkPt x (y - d)) (mkPt x (y + d))) as [E _]; cbn [px py]; try lra. injection E. lra. }
    unfold fr4Pts. cbn [In]. destruct r as [[x1 y1] [x2 y2]]. cbn [r1 r2 px py] in *. destruct X as [-> | ->], Y as [-> | ->]; auto.
Qed.
Example C127_ex : wfR (mkR (mkPt 1 2) (mkPt 5 5)) /\ frArea (mkR (mkPt 1 2) (mkPt 5 5)) = 12 /\ frLength (mkR (mkPt 1 2) (mkPt 5 5)) = 14.
Proof. unfold wfR, frArea, frLength, frHeight, frWidth. cbn [r1 r2 px py]. rnum. lra. Qed.
Print Assumptions C127_area. Print Assumptions C127_length. Print Assumptions C127_corners.

(** ** C128 *)
(** moveTo puts the first point on the given one and keeps all differences of points; an empty polyline
    throws. *)
Theorem C128_moveTo : forall pl p, plPts pl <> [] -> exists pl', plMoveTo pl p = Ok pl' /\ length (plPts pl') = length (plPts pl) /\ nth 0 (plPts pl') pt00 = p /\
  forall i j, (i < length (plPts pl))%nat -> (j < length (plPts pl))%nat ->
    px (nth i (plPts pl') pt00) - px (nth j (plPts pl') pt00) = px (nth i (plPts pl) pt00) - px (nth j (plPts pl) pt00) /\
    py (nth i (plPts pl') pt00) - py (nth j (plPts pl') pt00) = py (nth i (plPts pl) pt00) - py (nth j (plPts pl) pt00).
Proof.
  intros pl p NE. unfold plMoveTo. destruct (plPts pl) as [|p0 r] eqn:E; [contradiction|]. eexists. split; [reflexivity|]. unfold plTranslate. cbn [plPts]. rewrite E.
  set (f := fun q => ptTranslate q (px p - px p0)%num (py p - py p0)%num).
  assert (forall i, (i < length (p0 :: r))%nat -> nth i (map f (p0 :: r)) pt00 = f (nth i (p0 :: r) pt00)) as NT.
  { intros i I. rewrite (nth_indep _ pt00 (f pt00)) by (now rewrite map_length). apply map_nth. }
  split; [apply map_length|]. split.
  - rewrite NT by (cbn; lia). unfold f, ptTranslate. cbn [nth]. rnum. destruct p as [x y]. cbn [px py]. f_equal; ring.
  - intros i j I J. rewrite !NT by auto. unfold f, ptTranslate. cbn [px py]. rnum. split; ring.
Qed.
Theorem C128_empty : forall pl (p : pt R), plPts pl = [] -> plMoveTo pl p = Throw.
Proof. intros pl p E. unfold plMoveTo. now rewrite E. Qed.
(** The valid cached values stay valid: a move changes neither length nor area. *)
Theorem C128_cache : forall pl p pl', plMoveTo (N := RNum) pl p = Ok pl' ->
  perimeter (plPts pl') = perimeter (plPts pl) /\ signedArea (plPts pl') = signedArea (plPts pl) /\
  plLen pl' = plLen pl /\ plArea pl' = plArea pl /\ plSimple pl' = plSimple pl.
Proof.
  intros pl p pl' H. unfold plMoveTo in H. destruct (plPts pl) as [|p0 r] eqn:E; [discriminate|]. injection H as <-. unfold plTranslate. cbn [plPts plLen plArea plSimple].
  rewrite E. set (pts := p0 :: r). set (x := (px p - px p0)%num). set (y := (py p - py p0)%num). split; [|split; [|auto]].
  - unfold perimeter. rewrite cyc_map, sumOver_map. apply sumOver_ext. intros [a b] _. cbn [fst snd]. unfold edist, ptTranslate. cbn [px py]. rnum. f_equal. f_equal; f_equal; ring.
  - rewrite !signedArea_sum. f_equal. rewrite cyc_map, sumOver_map.
    rewrite (sumOver_ext _ (fun e => cr2 e + ((x * py (snd e) - y * px (snd e)) - (x * py (fst e) - y * px (fst e))))).
    + rewrite sumOver_plus. rewrite (sumOver_ext (fun e => (x * py (snd e) - y * px (snd e)) - (x * py (fst e) - y * px (fst e))) (fun e => (x * py (snd e) - y * px (snd e)) + - 1 * (x * py (fst e) - y * px (fst e)))) by (intros; ring).
      rewrite sumOver_plus, sumOver_scal.
      assert (sumOver (fun e => x * py (snd e) - y * px (snd e)) (cyc pts) = sumOver (fun e => x * py (fst e) - y * px (fst e)) (cyc pts)) as ->.
      { rewrite <- (sumOver_map (fun q => x * py q - y * px q) snd), <- (sumOver_map (fun q => x * py q - y * px q) fst). apply sumOver_perm. rewrite map_fst_cyc. unfold pts. rewrite map_snd_cyc. apply Permutation.Permutation_sym, Permutation.Permutation_cons_append. }
      ring.
    + intros [a b] _. unfold cr2, ptTranslate. cbn [fst snd px py]. unfold x, y. rnum. ring.
Qed.
Example C128_ex : plMoveTo (plFresh box4) (mkPt 1 1) = Ok (plFresh (map (fun p => mkPt (px p + 1) (py p + 1)) box4)).
Proof. unfold plMoveTo, plFresh, box4, plTranslate, ptTranslate. cbn [plPts map px py plNorm plLen plArea plSimple plCent]. rnum. repeat f_equal; ring. Qed.
Print Assumptions C128_moveTo. Print Assumptions C128_empty. Print Assumptions C128_cache.

(** ** C129 *)
Lemma filter_picked {A} (P : A -> Prop) f l : (forall x, f x = true <-> P x) -> picked P (filter f l) l.
Proof.
  intros H. induction l as [|x l IH]; [constructor|]. cbn [filter]. destruct (f x) eqn:E; constructor; auto; [now apply H|]. intros C. apply H in C. congruence.
Qed.
Theorem C129_circle : forall pts c, picked (fun p => edist p (cc c) < cr c) (ptsInCircle pts c) pts.
Proof. intros pts c. apply filter_picked. intros p. unfold ptInCircle. rnum. rewrite Rltb_spec, distPP_edist. tauto. Qed.
Theorem C129_rectangle : forall pts r, picked (inRO r) (ptsInRect pts r) pts.
Proof. intros pts r. apply filter_picked. intros p. apply C74_point_inside. Qed.
Example C129_ex : ptsInCircle [mkPt 0 0; mkPt 5 0; mkPt 1 1] (mkC (mkPt 1 0) 2) = [mkPt 0 0; mkPt 1 1].
Proof.
  pose proof (C129_circle [mkPt 0 0; mkPt 5 0; mkPt 1 1] (mkC (mkPt 1 0) 2)) as H. cbn [cc cr] in H.
  assert (edist (mkPt 0 0) (mkPt 1 0) = 1) as E1 by (apply edist_val; cbn [px py]; lra). assert (edist (mkPt 5 0) (mkPt 1 0) = 4) as E2 by (apply edist_val; cbn [px py]; lra).
  assert (edist (mkPt 1 1) (mkPt 1 0) = 1) as E3 by (apply edist_val; cbn [px py]; lra).
  revert H. generalize (ptsInCircle [mkPt 0 0; mkPt 5 0; mkPt 1 1] (mkC (mkPt 1 0) 2)). intros out H.
  inversion H as [|x1 l1 m1 P1 H1 X1|x1 l1 m1 P1 H1 X1]; subst; [|rewrite E1 in P1; lra]. inversion H1 as [|x2 l2 m2 P2 H2 X2|x2 l2 m2 P2 H2 X2]; subst; [rewrite E2 in P2; lra|].
  inversion H2 as [|x3 l3 m3 P3 H3 X3|x3 l3 m3 P3 H3 X3]; subst; [|rewrite E3 in P3; lra]. inversion H3; subst. reflexivity.
Qed.
Print Assumptions C129_circle. Print Assumptions C129_rectangle.
