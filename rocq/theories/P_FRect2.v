(** * Rectangles: construction, rotation, circles, IoU, containment *)

From Coq Require Import Reals Lra Lia List Bool Arith ZArith.
From Verif Require Import Num M_LP M_Seg M_Circle M_Poly M_FRect S_Geom S_Seg S_Circle S_Poly S_FRect P_LP P_LP2 P_LP4 P_Seg P_Seg2 P_Circle P_BB P_Grid P_Grid2 P_Grid3 P_FRect.
Import ListNotations.
Local Open Scope R_scope.

Lemma frCenter_spec th p w h : thr_ok th -> nullOrthogDistance th <= w -> nullOrthogDistance th <= h ->
  exists r, frCenter th p w h = Ok r /\ frGetCenter r = p /\ frWidth r = w /\ frHeight r = h.
Proof.
  intros Ht W H. pose proof (thr_orth _ Ht). unfold frCenter. rnum.
  rewrite frSet_ok; cbn [px py]; [| rewrite Rabs_left1; lra | rewrite Rabs_left1; lra].
  eexists. split; [reflexivity|]. rewrite !Rmin_left, !Rmax_right by lra.
  unfold frGetCenter, frWidth, frHeight. cbn [r1 r2 px py]. rnum.
  split; [destruct p; cbn; f_equal; field|]. split; field.
Qed.

Lemma iou_overlap th r o : thr_rect th -> wfR r -> wfR o -> sepR (nullDistance th) r o -> overlap r o ->
  exists z, intersectArea th r o = Ok (Some z) /\ wfR z /\ (forall p, inR z p <-> inR r p /\ inR o p) /\
    iou th r o = Ok (areaR z / (areaR r + areaR o - areaR z)) /\
    0 < areaR z <= areaR r /\ areaR z <= areaR o.
Proof.
  intros Ht Wr Wo S O. destruct (unionArea_spec th r o Ht Wr Wo S O) as (u & z & pl & U & I & A & _).
  destruct (intersectArea_spec th r o Ht Wr Wo S) as (x & I1 & _ & I3). rewrite I in I1. apply Ok_inj in I1. subst x.
  destruct I3 as (Wz & Iz & _). exists z.
  pose proof (areaR_mono z r Wz Wr (fun p h => proj1 (proj1 (Iz p) h))) as M1.
  pose proof (areaR_mono z o Wz Wo (fun p h => proj2 (proj1 (Iz p) h))) as M2.
  do 3 (split; [auto|]). split; [|lra].
  unfold iou. rewrite I. cbn [bind]. rewrite U. cbn [bind]. rewrite A. cbn [bind]. unfold cdiv. rnum.
  replace (Reqb _ 0) with false by (symmetry; apply Reqb_false; lra).
  unfold frArea, frHeight, frWidth, areaR. rnum. f_equal. f_equal. ring.
Qed.

Lemma areaR_full z r : wfR z -> wfR r -> (forall p, inR z p -> inR r p) -> areaR z = areaR r -> z = r.
Proof.
  intros [A B] [C E] H Q. pose proof (H (r1 z)) as H1. pose proof (H (r2 z)) as H2. unfold inR, areaR in *.
  set (w := px (r2 z) - px (r1 z)) in *. set (W := px (r2 r) - px (r1 r)) in *.
  set (h := py (r2 z) - py (r1 z)) in *. set (G := py (r2 r) - py (r1 r)) in *.
  assert (0 < w <= W /\ 0 < h <= G) as ((P1 & P2) & Q1 & Q2) by (unfold w, W, h, G; lra).
  assert (w = W).
  { destruct (Req_dec w W) as [|N]; auto. exfalso. assert (w * h < W * h) by (apply Rmult_lt_compat_r; lra).
    assert (W * h <= W * G) by (apply Rmult_le_compat_l; lra). lra. }
  assert (h = G).
  { destruct (Req_dec h G) as [|N]; auto. exfalso. assert (w * h < w * G) by (apply Rmult_lt_compat_l; lra).
    assert (w * G <= W * G) by (apply Rmult_le_compat_r; lra). lra. }
  unfold w, W, h, G in *. destruct z as [[a b] [c e]], r as [[a' b'] [c' e']]. cbn [r1 r2 px py] in *.
  assert (a = a') by lra. assert (b = b') by lra. assert (c = c') by lra. assert (e = e') by lra. congruence.
Qed.
Lemma overlap_refl r : wfR r -> overlap r r.
Proof. intros W. eexists. split; apply wf_mid; auto. Qed.

Lemma iou_spec th r o : thr_rect th -> wfR r -> wfR o -> sepR (nullDistance th) r o ->
  exists v, iou th r o = Ok v /\ iou th o r = Ok v /\ 0 <= v <= 1 /\ (v = 1 <-> r = o) /\ (v = 0 <-> ~ overlap r o).
Proof.
  intros Ht Wr Wo S.
  assert (S' : sepR (nullDistance th) o r).
  { destruct S as [Sx Sy]. split; intros a b Ia Ib; [apply Sx|apply Sy]; cbn in *; tauto. }
  destruct (intersectArea_spec th r o Ht Wr Wo S) as ([z|] & I1 & I2 & I3).
  - destruct I3 as (Wz & Iz & Oz).
    assert (overlap r o) as O by (eexists; apply Oz, wf_mid; auto).
    assert (overlap o r) as O' by (destruct O as (p & ? & ?); exists p; auto).
    destruct (iou_overlap th r o Ht Wr Wo S O) as (z1 & J1 & _ & _ & V1 & B1 & B2).
    rewrite I1 in J1. apply Ok_inj in J1. assert (z1 = z) by congruence. subst z1.
    destruct (iou_overlap th o r Ht Wo Wr S' O') as (z2 & J2 & _ & _ & V2 & _).
    rewrite I2 in J2. apply Ok_inj in J2. assert (z2 = z) by congruence. subst z2.
    set (Z := areaR z) in *. set (A := areaR r) in *. set (B := areaR o) in *.
    exists (Z / (A + B - Z)). split; [auto|]. split; [rewrite V2; do 2 f_equal; ring|].
    assert (0 < A + B - Z) as P by lra.
    assert (Z / (A + B - Z) * (A + B - Z) = Z) as Q by (field; lra).
    assert (0 < Z / (A + B - Z)) by (apply Rdiv_lt_0_compat; lra).
    split. { split; [lra|]. apply Rmult_le_reg_r with (A + B - Z); auto. lra. }
    split; [|split; [intros; lra|tauto]].
    split.
    + intros E. rewrite E in Q. assert (Z = A /\ Z = B) as [EA EB] by lra.
      rewrite <- (areaR_full z r), <- (areaR_full z o); auto; intros p h; apply Iz in h; tauto.
    + intros <-. assert (z = r) as <-; [|unfold Z, A, B; field; fold B; lra].
      apply inR_eq; auto. intros p. rewrite Iz. tauto.
  - exists 0. unfold iou. rewrite I1, I2. cbn [bind]. do 2 (split; [reflexivity|]). split; [lra|]. split; [|tauto].
    split; [lra|]. intros <-. exfalso. apply I3. now apply overlap_refl.
Qed.

(** ** Rotations *)
Lemma turned_eq k p : ptRotate k p = turned k p.
Proof. destruct k; reflexivity. Qed.
Lemma rectRot_in k r p : inR r p <-> inR (rectRot k r) (turned k p).
Proof. unfold inR. destruct k; cbn [rectRot turned r1 r2 px py]; lra. Qed.
Lemma rectRot_inv r : rectRot RotCW (rectRot RotCCW r) = r /\ rectRot RotCCW (rectRot RotCW r) = r /\
  rectRot RotFull (rectRot RotFull r) = r /\ rectRot RotV (rectRot RotV r) = r /\ rectRot RotH (rectRot RotH r) = r /\
  rectRot RotCCW (rectRot RotCCW r) = rectRot RotFull r /\ rectRot RotCW (rectRot RotCW r) = rectRot RotFull r.
Proof.
  destruct r as [[a b] [c e]]. cbn [rectRot r1 r2 px py]. rewrite !Ropp_involutive. repeat split; reflexivity.
Qed.

(** ** Containment *)
Lemma ptInRect_spec p r : ptInRect p r = true <-> inRO r p.
Proof.
  unfold ptInRect, inRO. rnum. repeat rcase1; rclean; cbn [andb]; split; intros; try lra; try discriminate; auto;
    repeat (rcase1; rclean; cbn [andb] in *); try lra; try discriminate; auto.
Qed.
Lemma frInRect_spec r o : wfR r -> (frInRect r o = true <-> forall p, inR r p -> inRO o p).
Proof.
  intros [A B]. unfold frInRect. rewrite forallb_forall. split.
  - intros H p I. assert (H1 := H (r1 r) (or_introl eq_refl)). assert (H2 := H (r2 r) (or_intror (or_intror (or_introl eq_refl)))).
    rewrite ptInRect_spec in H1, H2. unfold inRO, inR in *. lra.
  - intros H p I. apply ptInRect_spec, H. unfold fr4Pts in I. unfold inR. destruct I as [<-|[<-|[<-|[<-|[]]]]]; cbn; lra.
Qed.

(** ** Diagonals, extension, circles *)
Lemma frExtended_spec th r : thr_ok th -> okR th r -> exists x, frExtended th r = Ok x /\
  frGetCenter x = frGetCenter r /\ frWidth x = 3 * frWidth r /\ frHeight x = 3 * frHeight r.
Proof.
  intros Ht (A & B & C). pose proof (thr_orth _ Ht) as O. unfold frExtended, frSet4. rnum.
  rewrite frSet_ok; cbn [px py]; [|rewrite Rabs_left1; lra|rewrite Rabs_left1; lra].
  eexists. split; [reflexivity|]. rewrite !Rmin_left, !Rmax_right by lra.
  unfold frGetCenter, frWidth, frHeight. cbn [r1 r2 px py]. rnum. split; [f_equal; field|]. split; ring.
Qed.
Lemma ptEq_far th p q : nullDistance th <= edist p q -> ptEq th p q = false.
Proof. apply ptEq_false. Qed.
Lemma edist_diag r : edist (mkPt (px (r1 r)) (py (r2 r))) (mkPt (px (r2 r)) (py (r1 r))) = edist (r1 r) (r2 r).
Proof. unfold edist, Rsqr. f_equal. cbn [px py]. ring. Qed.
Lemma frDiagonals_spec th r : thr_ok th -> okR th r -> exists a b, frDiagonals th r = Ok (a, b) /\
  svCenter a = frGetCenter r /\ svCenter b = frGetCenter r /\ svLength a = svLength b /\
  svLength a * svLength a = frWidth r * frWidth r + frHeight r * frHeight r.
Proof.
  intros Ht Ho. pose proof (okR_wf th r Ht Ho) as [W1 W2]. destruct Ho as (A & B & C). unfold frDiagonals, svNew.
  rewrite (ptEq_far th (r1 r) (r2 r)) by auto. cbn [bind]. rewrite ptEq_far by (now rewrite edist_diag). cbn [bind].
  eexists _, _. split; [reflexivity|].
  unfold segOrder, fixOrder. cbn [sA sB].
  rewrite (proj2 (ptLt_spec (r1 r) (r2 r))) by (left; auto). cbn [negb].
  rewrite (proj2 (ptLt_spec (mkPt (px (r1 r)) (py (r2 r))) (mkPt (px (r2 r)) (py (r1 r))))) by (left; auto). cbn [negb].
  unfold svCenter, frGetCenter, svLength. cbn [sA sB px py]. rnum. change (@distPP R RNum) with edist.
  split; [f_equal; field|]. split; [f_equal; field|]. rewrite edist_diag. split; [auto|].
  rewrite edist_sq. unfold frWidth, frHeight. rnum. ring.
Qed.

Lemma frBounding_spec th r : thr_ok th -> wfR r -> 2 * nullDistance th <= edist (r1 r) (r2 r) ->
  exists c, frBoundingCircle th r = Ok c /\ cc c = frGetCenter r /\ cr c = edist (r1 r) (r2 r) / 2 /\
    (forall p, In p (fr4Pts r) -> onEdge c p) /\ (forall p, inR r p -> inDisc c p).
Proof.
  intros Ht [A B] C. pose proof (thr_dist _ Ht) as D.
  assert (Q : edist (frGetCenter r) (r1 r) = edist (r1 r) (r2 r) / 2).
  { apply edist_val; [pose proof (edist_pos (r1 r) (r2 r)); lra|].
    replace (edist (r1 r) (r2 r) / 2 * (edist (r1 r) (r2 r) / 2)) with (edist (r1 r) (r2 r) * edist (r1 r) (r2 r) / 4) by field.
    rewrite edist_sq. unfold frGetCenter. cbn [px py]. rnum. field. }
  unfold frBoundingCircle, cNew. change (@distPP R RNum) with edist. rewrite Q.
  replace (radiusOk th false _) with true.
  2:{ symmetry. unfold radiusOk. rnum. rewrite Rabs_right by lra. 
      replace (Rltb (edist (r1 r) (r2 r) / 2) (nullDistance th)) with false by (symmetry; apply Rltb_false; lra).
      replace (Rltb (edist (r1 r) (r2 r) / 2) 0) with false by (symmetry; apply Rltb_false; lra). reflexivity. }
  eexists. split; [reflexivity|]. cbn [cc cr]. do 2 (split; [auto|]).
  assert (E4 : forall p, In p (fr4Pts r) -> edist (frGetCenter r) p = edist (r1 r) (r2 r) / 2).
  { intros p I. apply edist_val; [lra|].
    replace (edist (r1 r) (r2 r) / 2 * (edist (r1 r) (r2 r) / 2)) with (edist (r1 r) (r2 r) * edist (r1 r) (r2 r) / 4) by field.
    rewrite edist_sq. destruct I as [<-|[<-|[<-|[<-|[]]]]]; unfold frGetCenter; cbn [px py]; rnum; field. }
  split; [intros p I; unfold onEdge; cbn; auto|].
  intros p I. unfold inDisc. cbn [cc cr]. rewrite <- Q.
  apply Rsqr_incr_0_var; [|apply edist_pos]. unfold Rsqr. rewrite !edist_sq.
  unfold inR, frGetCenter in *. cbn [px py]. rnum.
  assert (S1 : Rsqr ((px (r1 r) + px (r2 r)) * (1 / 2) - px p) <= Rsqr ((px (r1 r) + px (r2 r)) * (1 / 2) - px (r1 r)))
    by (apply Rsqr_le_abs_1; rewrite (Rabs_right (_ - px (r1 r))) by lra; apply Rabs_le; lra).
  assert (S2 : Rsqr ((py (r1 r) + py (r2 r)) * (1 / 2) - py p) <= Rsqr ((py (r1 r) + py (r2 r)) * (1 / 2) - py (r1 r)))
    by (apply Rsqr_le_abs_1; rewrite (Rabs_right (_ - py (r1 r))) by lra; apply Rabs_le; lra).
  unfold Rsqr in S1, S2. lra.
Qed.

Lemma svDist_eq s p d : sA s <> sB s -> (exists x, segHas s x /\ edist p x = d) -> (forall y, segHas s y -> d <= edist p y) ->
  exists c, svDist s p = Ok (d, c).
Proof.
  intros N (x & Hx & Ex) H. destruct (svDist_spec s p N) as (d' & c & x' & E & Hx' & Ex' & M & _).
  exists c. rewrite E. do 2 f_equal. apply Rle_antisym; [rewrite <- Ex; auto|rewrite <- Ex'; auto].
Qed.

Definition sidesOf (r : frect R) : list (seg R) :=
  [mkSeg (r1 r) (mkPt (px (r1 r)) (py (r2 r))); mkSeg (mkPt (px (r1 r)) (py (r2 r))) (r2 r);
   mkSeg (mkPt (px (r2 r)) (py (r1 r))) (r2 r); mkSeg (r1 r) (mkPt (px (r2 r)) (py (r1 r)))].
Lemma pt_eta (p : pt R) : mkPt (px p) (py p) = p. Proof. now destruct p. Qed.
Lemma frSegs_eq th r : thr_ok th -> nullDistance th <= px (r2 r) - px (r1 r) -> nullDistance th <= py (r2 r) - py (r1 r) ->
  frSegs th r = Ok (sidesOf r).
Proof.
  intros Ht W H. pose proof (thr_dist _ Ht) as D. destruct r as [[a b] [c e]]. cbn [r1 r2 px py] in *.
  unfold frSegs, fr4Pts, sidesOf. cbn [r1 r2 px py].
  unfold svNew, segOrder, fixOrder.
  rewrite !ptEq_far; [|rewrite edist_h, Rabs_right; lra|rewrite edist_v, Rabs_right; lra|rewrite edist_h, Rabs_left1; lra|rewrite edist_v, Rabs_left1; lra].
  cbn [bind sA sB].
  rewrite (proj2 (ptLt_spec (mkPt a b) (mkPt a e))) by (right; cbn; lra).
  rewrite (proj2 (ptLt_spec (mkPt a e) (mkPt c e))) by (left; cbn; lra).
  rewrite (proj2 (ptLt_false (mkPt c e) (mkPt c b))) by (unfold lexlt; cbn; lra).
  rewrite (proj2 (ptLt_false (mkPt c b) (mkPt a b))) by (unfold lexlt; cbn; lra).
  reflexivity.
Qed.

Lemma frInscribed_spec th r : thr_ok th -> nullDistance th <= px (r2 r) - px (r1 r) -> nullDistance th <= py (r2 r) - py (r1 r) ->
  exists c, frInscribedCircle th r = Ok c /\ cc c = frGetCenter r /\ cr c = Rmin (frWidth r) (frHeight r) / 2 /\
    (forall p, inDisc c p -> inR r p).
Proof.
  intros Ht W H. pose proof (thr_dist _ Ht) as D. unfold frInscribedCircle. rewrite frSegs_eq by auto. cbn [bind sidesOf].
  remember (frGetCenter r) as m eqn:Em.
  assert (Mx : px m = (px (r1 r) + px (r2 r)) / 2) by (subst m; unfold frGetCenter; cbn [px py]; rnum; field).
  assert (My : py m = (py (r1 r) + py (r2 r)) / 2) by (subst m; unfold frGetCenter; cbn [px py]; rnum; field).
  clear Em. destruct (svDist_eq (mkSeg (r1 r) (mkPt (px (r1 r)) (py (r2 r)))) m (frWidth r / 2)) as (c0 & E0).
  { cbn. intros E. rewrite <- (pt_eta (r1 r)) in E. injection E. lra. }
  { exists (mkPt (px (r1 r)) (py m)). split.
    - exists (1 / 2). cbn [sA sB px py]. rewrite My. split; [lra|]. split; field.
    - rewrite <- (pt_eta m), edist_h, Mx, Rabs_right by lra. unfold frWidth. rnum. field. }
  { intros y (t & T & Ex & Ey). cbn [sA sB px py] in Ex. destruct (edist_coord m y) as [C _].
    eapply Rle_trans; [|exact C]. rewrite Rabs_right; unfold frWidth; rnum; lra. }
  destruct (svDist_eq (mkSeg (mkPt (px (r1 r)) (py (r2 r))) (r2 r)) m (frHeight r / 2)) as (c1 & E1).
  { cbn. intros E. rewrite <- (pt_eta (r2 r)) in E at 2. injection E. lra. }
  { exists (mkPt (px m) (py (r2 r))). split.
    - exists (1 / 2). cbn [sA sB px py]. rewrite Mx. split; [lra|]. split; field.
    - rewrite <- (pt_eta m), edist_v, My. cbn [px py]. rewrite Rabs_left1 by lra. unfold frHeight. rnum. field. }
  { intros y (t & T & Ex & Ey). cbn [sA sB px py] in Ey. destruct (edist_coord m y) as [_ C].
    eapply Rle_trans; [|exact C]. rewrite Rabs_left1; unfold frHeight; rnum; lra. }
  rewrite E0. cbn [bind]. rewrite E1. cbn [bind].
  eexists. split; [reflexivity|]. cbn [cc cr].
  assert (nmin (frWidth r / 2) (frHeight r / 2) = Rmin (frWidth r) (frHeight r) / 2) as ->.
  { unfold nmin, Rmin. rnum. rcase1; rclean; destruct (Rle_dec (frWidth r) (frHeight r)); lra. }
  do 2 (split; [auto|]). intros p I. unfold inDisc in I. cbn [cc cr] in I.
  destruct (edist_coord m p) as [C1 C2].
  assert (Rmin (frWidth r) (frHeight r) <= frWidth r) by apply Rmin_l.
  assert (Rmin (frWidth r) (frHeight r) <= frHeight r) by apply Rmin_r.
  assert (Rabs (px m - px p) <= frWidth r / 2) as B1 by lra. assert (Rabs (py m - py p) <= frHeight r / 2) as B2 by lra.
  apply Rabs_le_both in B1, B2. unfold frWidth, frHeight in *. rnum. unfold inR. lra.
Qed.

(** ** Rectangles that touch: the table walk leaves the table, or the polygon crosses itself *)
Definition zgrid (k : nat) : R := IZR (Z.of_nat k).
Lemma zgrid_gaps d : d <= 1 -> gaps d zgrid.
Proof. intros H k. unfold zgrid. rewrite Nat2Z.inj_succ, succ_IZR. lra. Qed.
Lemma thr0_rect : thr_rect thr0.
Proof. split; [apply thr0_ok|]. unfold thr0. cbn [nullDistance nullOrthogDistance dblEpsilon]. rnum. lra. Qed.
Lemma thr0_dist : nullDistance (thr0 (T := R)) <= 1.
Proof. unfold thr0. cbn [nullDistance]. rnum. lra. Qed.

Lemma union_touch_undef : unionArea thr0 (mkR (mkPt 0 0) (mkPt 1 1)) (mkR (mkPt 0 1) (mkPt 1 2)) = Undef.
Proof.
  assert (G := zgrid_gaps _ thr0_dist).
  pose proof (emb_union thr0 zgrid zgrid thr0_rect G G ((0, 0), (1, 1))%nat ((0, 1), (1, 2))%nat Undef eq_refl eq_refl) as E.
  apply E. vm_compute. reflexivity.
Qed.
Lemma union_corner : exists u pl, unionArea thr0 (mkR (mkPt 0 0) (mkPt 1 1)) (mkR (mkPt 1 1) (mkPt 2 2)) = Ok u /\
  plAreaOf thr0 true u = Ok (0, pl).
Proof.
  assert (G := zgrid_gaps _ thr0_dist).
  pose proof (emb_union thr0 zgrid zgrid thr0_rect G G ((0, 0), (1, 1))%nat ((1, 1), (2, 2))%nat (Ok [(0, 0); (0, 1); (1, 1); (1, 2); (2, 2); (2, 1); (1, 1); (1, 0)]%nat) eq_refl eq_refl eq_refl) as E.
  destruct (plAreaOf_fresh thr0 (map (emb zgrid zgrid) [(0, 0); (0, 1); (1, 1); (1, 2); (2, 2); (2, 1); (1, 1); (1, 0)]%nat) false) as (pl & A).
  { cbn. lia. }
  { apply (emb_simple thr0 zgrid zgrid thr0_rect G G); [cbn; lia|]. vm_compute. reflexivity. }
  eexists _, pl. split; [exact E|]. exact A.
Qed.

Lemma edist_h_gen p (x : R) : edist p (mkPt (px p + x) (py p)) = Rabs (px p - (px p + x)).
Proof. rewrite <- (pt_eta p) at 1. apply edist_h. Qed.
Lemma edist_v_gen p (y : R) : edist p (mkPt (px p) (py p + y)) = Rabs (py p - (py p + y)).
Proof. rewrite <- (pt_eta p) at 1. apply edist_v. Qed.
