(** * Images of collections of objects *)

From Coq Require Import Reals Lra Lia List Bool ZArith.
From Verif Require Import Num P_Homogr2 M_LP M_Homogr M_Seg M_Circle M_Poly M_FRect M_Ellipse M_Map M_Variant S_Geom S_Homogr S_Circle S_FRect S_Misc S_Seg S_Poly S_Ellipse S_Map S_EllImage S_Variant P_LP P_LP2 P_Homogr P_BB P_Seg P_Poly P_Poly2 P_Poly5 P_Poly7 P_Ellipse P_Ellipse2 P_EllImage P_Grid P_Map C_Poly C_Map.
Import ListNotations.
Local Open Scope R_scope.

Lemma pd_describes m : symM m -> anEllipse m -> pd m.
Proof. intros S (x & y & a & b & t & D). destruct (describes_init _ _ _ _ _ _ S D) as (k & Hk & ->). destruct D as (Hab & _). now apply init_pd. Qed.
Lemma pd_an m : pd m -> anEllipse m.
Proof. intros P. destruct (normal_form m P) as (x & y & a & b & t & k & Hab & Hk & ->). exists x, y, a, b, t. now apply init_describes. Qed.
Lemma params_ok_big th e r : symM (em e) -> anEllipse (em e) -> ellParams th e = Ok r -> bigMat th (em e).
Proof.
  intros S A H. destruct (pd_describes _ S A) as (_ & _ & D & _). unfold d2 in D. unfold ellParams in H. rnum. cbv zeta in H. destruct (Rltb _ _) eqn:E in H; [discriminate|]. apply Rltb_false in E.
  unfold bigMat. replace (2 * m01 (em e) * (2 * m01 (em e)) - 4 * m00 (em e) * m11 (em e)) with (- (4 * (m00 (em e) * m11 (em e) - m01 (em e) * m01 (em e)))) in E by ring.
  rewrite Rabs_Ropp, Rabs_right in E by lra. exact E.
Qed.
Lemma area_value th e x a0 b0 c d t : thr_ok th -> symM (em e) -> describes (em e) c d a0 b0 t -> ellArea th e = Ok x -> x = PI * a0 * b0.
Proof.
  intros Ht S D H. unfold ellArea in H. apply bind_ok in H. destruct H as (r & P & H).
  assert (anEllipse (em e)) as A by (do 5 eexists; exact D). destruct (params_big th e _ _ _ _ _ Ht S D (params_ok_big _ _ _ S A P)) as (u & Q). rewrite Q in P. apply Ok_inj in P. subst r. apply Ok_inj in H. now rewrite <- H.
Qed.
Lemma length_value th e x a0 b0 c d t : thr_ok th -> symM (em e) -> describes (em e) c d a0 b0 t -> ellLength th e = Ok x ->
  let h := ((a0 - b0) * (a0 - b0)) / ((a0 + b0) * (a0 + b0)) in x = (a0 + b0) * PI * (1 + 3 * h / (10 + sqrt (4 - 3 * h))).
Proof.
  intros Ht S D H. unfold ellLength in H. apply bind_ok in H. destruct H as (r & P & H).
  assert (anEllipse (em e)) as A by (do 5 eexists; exact D). destruct (params_big th e _ _ _ _ _ Ht S D (params_ok_big _ _ _ S A P)) as (u & Q). rewrite Q in P. apply Ok_inj in P. subst r.
  cbn [ea eb] in H. rnum. cbv zeta in *. destruct D as (Hab & _).
  assert (0 < (a0 + b0) * (a0 + b0)) as N by (apply Rmult_lt_0_compat; lra). rewrite cdiv_ok in H by lra. cbn [bind] in H.
  set (h := _ / _) in *. assert (0 <= h <= 1) as Hh.
  { unfold h. split; [apply Rmult_le_pos; [apply sqpos|apply Rlt_le, Rinv_0_lt_compat; auto]|]. apply (Rmult_le_reg_r ((a0 + b0) * (a0 + b0))); auto. unfold Rdiv. rewrite Rmult_assoc, Rinv_l by lra. rewrite Rmult_1_l, Rmult_1_r. assert (0 <= a0 * b0) by (apply Rmult_le_pos; lra). lra. }
  rewrite csqrt_ok in H by lra. cbn [bind] in H. pose proof (sqrt_pos (4 - 3 * h)). rewrite cdiv_ok in H by lra. cbn [bind] in H. apply Ok_inj in H. now rewrite <- H.
Qed.
Lemma circle_describes c : 0 < cr c -> symM (em (ellOfCircle c)) /\ describes (em (ellOfCircle c)) (px (cc c)) (py (cc c)) (cr c) (cr c) 0.
Proof.
  intros H. unfold ellOfCircle. cbn [em]. split; [apply init_sym|]. change (@nZ R RNum 0) with 0.
  rewrite <- (scaleM_1 (ellInit (px (cc c)) (py (cc c)) (cr c) (cr c) 0)). apply init_describes; lra.
Qed.

(** ** Affine maps of polygons *)
Definition affOf (h : mat R) : aff := mkA (m00 h / m22 h) (m01 h / m22 h) (m10 h / m22 h) (m11 h / m22 h) (m02 h / m22 h) (m12 h / m22 h).
Lemma affOf_im h p q : isAffine h -> isImage h p q -> q = affine (affOf h) p.
Proof.
  intros (A & B) (W & X & Y). rewrite A, B in *. replace (0 * px p + 0 * py p + m22 h) with (m22 h) in * by ring. destruct q as [x y]. cbn [px py] in *. subst. unfold affine, affOf. cbn [aa ab ac ad ae af]. f_equal; field; auto.
Qed.
Lemma affOf_det h : m22 h <> 0 -> affDet (affOf h) = detLin h.
Proof. intros W. unfold affDet, affOf, detLin. cbn [aa ab ac ad]. field. auto. Qed.
Lemma hPoly_aff th h pts pl : isAffine h -> hPoly th h pts = Ok pl -> pl = plFresh (map (affine (affOf h)) pts).
Proof.
  intros A H. destruct (hPoly_inv _ _ _ _ H) as (qs & -> & F & _). f_equal. clear H. induction F as [|p q l k I F IH]; [reflexivity|]. cbn [map]. f_equal; auto. now apply affOf_im.
Qed.
Lemma affOf_dist h s p q : m22 h <> 0 -> similar h s -> edist (affine (affOf h) p) (affine (affOf h) q) = s * edist p q.
Proof.
  intros W ((A & B) & Ps & H). apply H; (split; [rewrite A, B; lra|]); unfold affine, affOf; cbn [aa ab ac ad ae af px py]; rewrite A, B; split; field; lra.
Qed.
Lemma sides_map {A B} (f : A -> B) closed l : sides closed (map f l) = map (fun e => (f (fst e), f (snd e))) (sides closed l).
Proof.
  assert (forall l m, combine (map f l) (map f m) = map (fun e => (f (fst e), f (snd e))) (combine l m)) as G.
  { clear. induction l as [|a l IH]; intros [|b m]; cbn; auto. now rewrite IH. }
  destruct closed; unfold sides, cyc, chain.
  - destruct l as [|a l]; [reflexivity|]. cbn [map]. change [f a] with (map f [a]). rewrite <- map_app. change (f a :: map f l) with (map f (a :: l)). apply G.
  - destruct l as [|a l]; [reflexivity|]. cbn [tl map]. change (f a :: map f l) with (map f (a :: l)). apply G.
Qed.
Lemma length_map_sim th closed h s pts x y : m22 h <> 0 -> similar h s ->
  lengthCalc th closed pts = Ok x -> lengthCalc th closed (map (affine (affOf h)) pts) = Ok y -> y = s * x.
Proof.
  intros W Hs H H'. destruct (lengthCalc_cases th closed pts) as [(L & E)|[(L & F & E)|(L & _ & E)]]; rewrite E in H; try discriminate; apply Ok_inj in H; subst x;
  destruct (lengthCalc_cases th closed (map (affine (affOf h)) pts)) as [(L' & E')|[(L' & F' & E')|(L' & _ & E')]]; rewrite E' in H'; try discriminate; apply Ok_inj in H'; subst y; rewrite map_length in L'; try lia; [lra|].
  rewrite sides_map, sumOver_map, <- sumOver_scal. apply sumOver_ext. intros e _. cbn [fst snd]. now apply affOf_dist.
Qed.

(** ** One object *)
Lemma transform_matrix th o v r o' : transform th o v = (r, o') -> hm o' = hm (T := R) o.
Proof.
  destruct v; cbn [transform]; try (intros H; inversion H; reflexivity).
  unfold hApplyLine. destruct (hmt o) as [m|] eqn:E; cbn [hasChanged hmt].
  - destruct (hasChanged o) eqn:C; [|rewrite E; intros H; inversion H; reflexivity]. destruct (hInverse th (hCopy o)) as [[u| |] hi]; intros H; inversion H; reflexivity.
  - destruct (hInverse th _) as [[u| |] hi]; intros H; inversion H; reflexivity.
Qed.
Lemma transform_size th o v v' o' : transform th o v = (Ok v', o') -> vSize v' = vSize (T := R) v /\ vType v' = imageType (vType v).
Proof.
  destruct v; cbn [transform]; intros H.
  - inversion H as [[H1 H2]]. apply bind_ok in H1. destruct H1 as (r & _ & E). apply Ok_inj in E. subst. auto.
  - inversion H as [[H1 H2]]. apply bind_ok in H1. destruct H1 as (r & _ & E). apply Ok_inj in E. subst. auto.
  - inversion H. auto.
  - destruct (hApplyLine th o l) as [r o1]. inversion H as [[H1 H2]]. apply bind_ok in H1. destruct H1 as (r' & _ & E). apply Ok_inj in E. subst. auto.
  - inversion H as [[H1 H2]]. apply bind_ok in H1. destruct H1 as (r & _ & E). apply Ok_inj in E. subst. auto.
  - inversion H as [[H1 H2]]. apply bind_ok in H1. destruct H1 as (r & _ & E). apply Ok_inj in E. subst. auto.
  - inversion H as [[H1 H2]]. apply bind_ok in H1. destruct H1 as (pl & P & E). apply Ok_inj in E. subst. unfold hRect in P. destruct (hPoly_inv _ _ _ _ P) as (qs & -> & F & _). cbn [vSize vType imageType plPts plFresh]. split; auto. now rewrite <- (Forall2_len _ _ _ F).
  - inversion H as [[H1 H2]]. apply bind_ok in H1. destruct H1 as (pl' & P & E). apply Ok_inj in E. subst. destruct (hPoly_inv _ _ _ _ P) as (qs & -> & F & _). cbn [vSize vType imageType plPts plFresh]. split; auto. now rewrite <- (Forall2_len _ _ _ F).
  - inversion H as [[H1 H2]]. apply bind_ok in H1. destruct H1 as (pl' & P & E). apply Ok_inj in E. subst. destruct (hPoly_inv _ _ _ _ P) as (qs & -> & F & _). cbn [vSize vType imageType plPts plFresh]. split; auto. now rewrite <- (Forall2_len _ _ _ F).
Qed.
Lemma ell_image_ok th h e e' : thr_ok th -> isAffine h -> symM (em e) -> anEllipse (em e) -> hEll th h e = Ok e' ->
  m22 h <> 0 /\ symM (em e') /\ anEllipse (em e').
Proof.
  intros Ht Ha S A H. destruct (affine_inv th h e e' Ht Ha S H) as (_ & W & _). split; auto. split; [eapply hEll_sym; eauto|].
  apply pd_an. apply (image_pd th h e e' Ht); auto; [now apply pd_describes|now apply affine_avoids].
Qed.
Lemma valid_image th o v v' o' : thr_ok th -> isAffine (hm o) -> validV v -> transform th o v = (Ok v', o') -> validV v'.
Proof.
  intros Ht Ha V. destruct v; cbn [transform]; intros H.
  - inversion H as [[H1 H2]]. apply bind_ok in H1. destruct H1 as (r & _ & E). apply Ok_inj in E. subst. exact I.
  - inversion H as [[H1 H2]]. apply bind_ok in H1. destruct H1 as (r & _ & E). apply Ok_inj in E. subst. exact I.
  - inversion H. exact I.
  - destruct (hApplyLine th o l) as [r o1]. inversion H as [[H1 H2]]. apply bind_ok in H1. destruct H1 as (r' & _ & E). apply Ok_inj in E. subst. exact I.
  - inversion H as [[H1 H2]]. apply bind_ok in H1. destruct H1 as (r & P & E). apply Ok_inj in E. subst. unfold hCircle in P. destruct (circle_describes c V) as (S & D).
    assert (anEllipse (em (ellOfCircle c))) as A by (do 5 eexists; exact D). destruct (ell_image_ok _ _ _ _ Ht Ha S A P) as (_ & S' & A'). split; auto.
  - inversion H as [[H1 H2]]. apply bind_ok in H1. destruct H1 as (r & P & E). apply Ok_inj in E. subst. destruct V as (S & A). destruct (ell_image_ok _ _ _ _ Ht Ha S A P) as (_ & S' & A'). split; auto.
  - inversion H as [[H1 H2]]. apply bind_ok in H1. destruct H1 as (pl & P & E). apply Ok_inj in E. subst. unfold hRect in P. destruct (hPoly_inv _ _ _ _ P) as (qs & -> & F & _). reflexivity.
  - inversion H as [[H1 H2]]. apply bind_ok in H1. destruct H1 as (pl' & P & E). apply Ok_inj in E. subst. destruct (hPoly_inv _ _ _ _ P) as (qs & -> & F & _). reflexivity.
  - inversion H as [[H1 H2]]. apply bind_ok in H1. destruct H1 as (pl' & P & E). apply Ok_inj in E. subst. destruct (hPoly_inv _ _ _ _ P) as (qs & -> & F & _). reflexivity.
Qed.
Lemma val_bind {A B} (r : res (A * B)) : (do (x, _) <- r; Ok x) = val r.
Proof. destruct r as [[x y]| |]; reflexivity. Qed.
Lemma area_one th o v v' o' x x' : thr_ok th -> isAffine (hm o) -> validV v -> transform th o v = (Ok v', o') -> simpleV th v -> simpleV th v' ->
  vArea th v = Ok x -> vArea th v' = Ok x' -> x' = Rabs (detLin (hm o)) * x.
Proof.
  intros Ht Ha V H S S' A A'. destruct v; cbn [transform] in H; cbn [vArea] in A.
  - inversion H as [[H1 H2]]. apply bind_ok in H1. destruct H1 as (r & _ & E). apply Ok_inj in E. subst. cbn [vArea] in A'. apply Ok_inj in A, A'. subst. rnum. ring.
  - inversion H as [[H1 H2]]. apply bind_ok in H1. destruct H1 as (r & _ & E). apply Ok_inj in E. subst. cbn [vArea] in A'. apply Ok_inj in A, A'. subst. rnum. ring.
  - inversion H. subst. cbn [vArea] in A'. apply Ok_inj in A, A'. subst. rnum. ring.
  - destruct (hApplyLine th o l) as [r o1]. inversion H as [[H1 H2]]. apply bind_ok in H1. destruct H1 as (r' & _ & E). apply Ok_inj in E. subst. cbn [vArea] in A'. apply Ok_inj in A, A'. subst. rnum. ring.
  - inversion H as [[H1 H2]]. apply bind_ok in H1. destruct H1 as (e' & P & E). apply Ok_inj in E. subst. cbn [vArea] in A'. unfold hCircle in P. destruct (circle_describes c V) as (Sy & D).
    assert (anEllipse (em (ellOfCircle c))) as An by (do 5 eexists; exact D). destruct (ell_image_ok _ _ _ _ Ht Ha Sy An P) as (_ & Sy' & (x0 & y0 & a0 & b0 & t0 & D')).
    rewrite (area_value th e' x' _ _ _ _ _ Ht Sy' D' A'). pose proof (area_affine _ _ _ _ _ _ _ _ _ _ _ _ _ _ Ht Ha Sy P D D') as Q. rewrite Rmult_assoc, Q. apply Ok_inj in A. subst x. unfold cArea. rnum. ring.
  - inversion H as [[H1 H2]]. apply bind_ok in H1. destruct H1 as (e' & P & E). apply Ok_inj in E. subst. cbn [vArea] in A'. destruct V as (Sy & (x1 & y1 & a1 & b1 & t1 & D)).
    assert (anEllipse (em e)) as An by (do 5 eexists; exact D). destruct (ell_image_ok _ _ _ _ Ht Ha Sy An P) as (_ & Sy' & (x0 & y0 & a0 & b0 & t0 & D')).
    rewrite (area_value th e' x' _ _ _ _ _ Ht Sy' D' A'), (area_value th e x _ _ _ _ _ Ht Sy D A). pose proof (area_affine _ _ _ _ _ _ _ _ _ _ _ _ _ _ Ht Ha Sy P D D') as Q. rewrite Rmult_assoc, Q. ring.
  - inversion H as [[H1 H2]]. apply bind_ok in H1. destruct H1 as (pl & P & E). apply Ok_inj in E. subst. cbn [vArea simpleV] in A', S'. rewrite val_bind in A'. unfold hRect in P.
    assert (m22 (hm o') <> 0) as W. { destruct (hPoly_inv _ _ _ _ P) as (qs & _ & F & _). inversion F as [|? ? ? ? I0]. destruct I0 as (I0 & _). destruct Ha as (A0 & A1). rewrite A0, A1 in I0. intros Z. apply I0. rewrite Z. ring. }
    pose proof (hPoly_aff _ _ _ _ Ha P) as E. subst pl. rewrite val_area, S' in A'. cbn [bind] in A'. apply Ok_inj in A'. rewrite signedArea_affine, Rabs_mult, affOf_det in A' by auto. rewrite <- A'. f_equal.
    apply Ok_inj in A. subst x. destruct V as (V1 & V2). unfold frArea, frHeight, frWidth. rnum. rewrite <- (Rabs_right ((py (r2 r) - py (r1 r)) * (px (r2 r) - px (r1 r)))) by (apply Rle_ge, Rmult_le_pos; lra).
    rewrite <- Rabs_Ropp. f_equal. rewrite signedArea_sum. cbn [fr4Pts cyc app combine sumOver cr2 fst snd px py]. unfold cr2. cbn [fst snd px py]. field.
  - inversion H as [[H1 H2]]. apply bind_ok in H1. destruct H1 as (pl' & P & E). apply Ok_inj in E. subst. cbn [vArea simpleV validV] in *. rewrite val_bind in A, A'. pose proof (hPoly_aff _ _ _ _ Ha P) as E. subst pl'.
    destruct (plPts pl) as [|p0 ps] eqn:Ep.
    { exfalso. rewrite V in S. cbn in S. discriminate. }
    assert (m22 (hm o') <> 0) as W. { destruct (hPoly_inv _ _ _ _ P) as (qs & _ & F & _). inversion F as [|? ? ? ? I0]. destruct I0 as (I0 & _). destruct Ha as (A0 & A1). rewrite A0, A1 in I0. intros Z. apply I0. rewrite Z. ring. }
    rewrite <- affOf_det by auto. rewrite <- Ep in *. rewrite V in A, S. eapply C51_affine; [exact S|exact S'|exact A|exact A'].
  - inversion H as [[H1 H2]]. apply bind_ok in H1. destruct H1 as (pl' & P & E). apply Ok_inj in E. subst. cbn [vArea] in *. rewrite val_bind in A, A'.
    assert (forall q, val (plAreaOf th false q) = Ok 0) as Z. { intros q. unfold plAreaOf, plIsSimple. destruct (_ <? 3)%nat; reflexivity. }
    rewrite Z in A, A'. apply Ok_inj in A, A'. subst. ring.
Qed.
Lemma length_one th o s v v' o' x x' : thr_ok th -> similar (hm o) s -> validV v -> transform th o v = (Ok v', o') ->
  vLength th v = Ok x -> vLength th v' = Ok x' -> x' = s * x.
Proof.
  intros Ht Hs V H A A'. pose proof Hs as (Ha & Ps & Hd). destruct v; cbn [transform] in H; cbn [vLength] in A.
  - inversion H as [[H1 H2]]. apply bind_ok in H1. destruct H1 as (r & P & E). apply Ok_inj in E. subst. cbn [vLength] in A'. apply Ok_inj in A, A'. subst.
    destruct (C115_outcome th (hm o') KSeg s0 Ht) as (T1 & T2 & _). assert (exists p q, isImage (hm o') (sA s0) p /\ isImage (hm o') (sB s0) q) as (p & q & Ip & Iq).
    { unfold hSeg in P. apply bind_ok in P. destruct P as (p & Ip & P). apply bind_ok in P. destruct P as (q & Iq & P). apply hPt_image in Ip, Iq. eauto. }
    destruct (Rle_lt_dec (nullDistance th) (edist p q)) as [L|L]; [|rewrite (T2 p q) in P; auto; discriminate]. destruct (T1 p q Ip Iq L) as (r' & P' & C & _). rewrite P' in P. apply Ok_inj in P. subst r'.
    unfold svLength. destruct C as [->|(_ & ->)]; cbn [sA sB]; rewrite (distPP_edist (sA s0)); [rewrite (distPP_edist p q)|rewrite (distPP_edist q p), (edist_sym q p)]; apply Hd; auto.
  - inversion H as [[H1 H2]]. apply bind_ok in H1. destruct H1 as (r & P & E). apply Ok_inj in E. subst. cbn [vLength] in A'. apply Ok_inj in A, A'. subst.
    destruct (C115_outcome th (hm o') KOSeg s0 Ht) as (T1 & T2 & _). assert (exists p q, isImage (hm o') (sA s0) p /\ isImage (hm o') (sB s0) q) as (p & q & Ip & Iq).
    { unfold hSeg in P. apply bind_ok in P. destruct P as (p & Ip & P). apply bind_ok in P. destruct P as (q & Iq & P). apply hPt_image in Ip, Iq. eauto. }
    destruct (Rle_lt_dec (nullDistance th) (edist p q)) as [L|L]; [|rewrite (T2 p q) in P; auto; discriminate]. destruct (T1 p q Ip Iq L) as (r' & P' & C & _). rewrite P' in P. apply Ok_inj in P. subst r'.
    unfold svLength. destruct C as [->|(_ & ->)]; cbn [sA sB]; rewrite (distPP_edist (sA s0)); [rewrite (distPP_edist p q)|rewrite (distPP_edist q p), (edist_sym q p)]; apply Hd; auto.
  - inversion H. subst. cbn [vLength] in A'. apply Ok_inj in A, A'. subst. rnum. ring.
  - discriminate.
  - inversion H as [[H1 H2]]. apply bind_ok in H1. destruct H1 as (e' & P & E). apply Ok_inj in E. subst. cbn [vLength] in A'. unfold hCircle in P. destruct (circle_describes c V) as (Sy & D).
    assert (anEllipse (em (ellOfCircle c))) as An by (do 5 eexists; exact D). destruct (ell_image_ok _ _ _ _ Ht Ha Sy An P) as (_ & Sy' & (x0 & y0 & a0 & b0 & t0 & D')).
    pose proof (length_value th e' x' _ _ _ _ _ Ht Sy' D' A') as Q. destruct (axes_similar _ _ _ _ _ _ _ _ _ _ _ _ _ _ _ Ht Hs Sy P D D') as (-> & ->). cbv zeta in Q. rewrite Q.
    apply Ok_inj in A. subst x. unfold cLength. rnum. assert (0 < s * cr c) by (apply Rmult_lt_0_compat; auto).
    replace ((s * cr c - s * cr c) * (s * cr c - s * cr c) / ((s * cr c + s * cr c) * (s * cr c + s * cr c))) with 0 by (field; lra).
    replace (3 * 0 / (10 + sqrt (4 - 3 * 0))) with 0 by (pose proof (sqrt_pos (4 - 3 * 0)); field; lra). ring.
  - inversion H as [[H1 H2]]. apply bind_ok in H1. destruct H1 as (e' & P & E). apply Ok_inj in E. subst. cbn [vLength] in A'. destruct V as (Sy & (x1 & y1 & a1 & b1 & t1 & D)).
    assert (anEllipse (em e)) as An by (do 5 eexists; exact D). destruct (ell_image_ok _ _ _ _ Ht Ha Sy An P) as (_ & Sy' & (x0 & y0 & a0 & b0 & t0 & D')).
    pose proof (length_value th e' x' _ _ _ _ _ Ht Sy' D' A') as Q. pose proof (length_value th e x _ _ _ _ _ Ht Sy D A) as Q0. destruct (axes_similar _ _ _ _ _ _ _ _ _ _ _ _ _ _ _ Ht Hs Sy P D D') as (-> & ->). cbv zeta in Q, Q0. rewrite Q, Q0.
    destruct D as (Hab & _). replace ((s * a1 - s * b1) * (s * a1 - s * b1) / ((s * a1 + s * b1) * (s * a1 + s * b1))) with ((a1 - b1) * (a1 - b1) / ((a1 + b1) * (a1 + b1))) by (assert (0 < s * a1 + s * b1) by (replace (s * a1 + s * b1) with (s * (a1 + b1)) by ring; apply Rmult_lt_0_compat; lra); field; repeat split; lra). ring.
  - inversion H as [[H1 H2]]. apply bind_ok in H1. destruct H1 as (pl & P & E). apply Ok_inj in E. subst. cbn [vLength] in A'. rewrite val_bind in A'. unfold hRect in P.
    assert (m22 (hm o') <> 0) as W. { destruct (hPoly_inv _ _ _ _ P) as (qs & _ & F & _). inversion F as [|? ? ? ? I0]. destruct I0 as (I0 & _). destruct Ha as (A0 & A1). rewrite A0, A1 in I0. intros Z. apply I0. rewrite Z. ring. }
    pose proof (hPoly_aff _ _ _ _ Ha P) as E. subst pl. unfold plLength in A'. cbn [plLen plPts plFresh] in A'. unfold val in A'. apply bind_ok in A'. destruct A' as (w & A' & E). apply Ok_inj in E. apply bind_ok in A'. destruct A' as (z & A' & E'). apply Ok_inj in E'. subst w. cbn [fst] in E. subst z.
    destruct (lengthCalc_cases th true (map (affine (affOf (hm o'))) (fr4Pts r))) as [(L' & E')|[(L' & F' & E')|(L' & _ & E')]]; rewrite E' in A'; try discriminate; [exfalso; cbn in L'; lia|].
    apply Ok_inj in A'. rewrite <- A', sides_map, sumOver_map. rewrite (sumOver_ext _ (fun e => s * edist (fst e) (snd e))) by (intros e _; cbn [fst snd]; now apply affOf_dist). rewrite sumOver_scal. f_equal.
    apply Ok_inj in A. subst x. destruct V as (V1 & V2). unfold frLength, frHeight, frWidth. rnum. cbn [fr4Pts sides cyc app combine sumOver fst snd].
    destruct r as [[ax ay] [bx by_]]. cbn [r1 r2 px py] in *.
    rewrite (edist_v ax ay by_), (edist_v bx by_ ay), (edist_h ax bx by_), (edist_h bx ax ay).
    rewrite (Rabs_left (ay - by_)), (Rabs_left (ax - bx)), (Rabs_right (by_ - ay)), (Rabs_right (bx - ax)) by lra. ring.
  - inversion H as [[H1 H2]]. apply bind_ok in H1. destruct H1 as (pl' & P & E). apply Ok_inj in E. subst. cbn [vLength validV] in *. rewrite val_bind in A, A'. pose proof (hPoly_aff _ _ _ _ Ha P) as E. subst pl'. rewrite V in A.
    unfold plLength in A, A'. cbn [plLen plPts plFresh] in A, A'. unfold val in A, A'. apply bind_ok in A'. destruct A' as (w & A' & E). apply Ok_inj in E. apply bind_ok in A'. destruct A' as (z & A' & E'). apply Ok_inj in E'. subst w. cbn [fst] in E. subst z.
    apply bind_ok in A. destruct A as (w & A & E). apply Ok_inj in E. apply bind_ok in A. destruct A as (z & A & E'). apply Ok_inj in E'. subst w. cbn [fst] in E. subst z.
    destruct (plPts pl) as [|p0 ps] eqn:Ep. { cbn in A, A'. apply Ok_inj in A, A'. subst. rnum. ring. }
    assert (m22 (hm o') <> 0) as W. { destruct (hPoly_inv _ _ _ _ P) as (qs & _ & F & _). inversion F as [|? ? ? ? I0]. destruct I0 as (I0 & _). destruct Ha as (A0 & A1). rewrite A0, A1 in I0. intros Z. apply I0. rewrite Z. ring. }
    rewrite <- Ep in *. eapply length_map_sim; eauto.
  - inversion H as [[H1 H2]]. apply bind_ok in H1. destruct H1 as (pl' & P & E). apply Ok_inj in E. subst. cbn [vLength validV] in *. rewrite val_bind in A, A'. pose proof (hPoly_aff _ _ _ _ Ha P) as E. subst pl'. rewrite V in A.
    unfold plLength in A, A'. cbn [plLen plPts plFresh] in A, A'. unfold val in A, A'. apply bind_ok in A'. destruct A' as (w & A' & E). apply Ok_inj in E. apply bind_ok in A'. destruct A' as (z & A' & E'). apply Ok_inj in E'. subst w. cbn [fst] in E. subst z.
    apply bind_ok in A. destruct A as (w & A & E). apply Ok_inj in E. apply bind_ok in A. destruct A as (z & A & E'). apply Ok_inj in E'. subst w. cbn [fst] in E. subst z.
    destruct (plPts pl) as [|p0 ps] eqn:Ep. { cbn in A, A'. apply Ok_inj in A, A'. subst. rnum. ring. }
    assert (m22 (hm o') <> 0) as W. { destruct (hPoly_inv _ _ _ _ P) as (qs & _ & F & _). inversion F as [|? ? ? ? I0]. destruct I0 as (I0 & _). destruct Ha as (A0 & A1). rewrite A0, A1 in I0. intros Z. apply I0. rewrite Z. ring. }
    rewrite <- Ep in *. eapply length_map_sim; eauto.
Qed.

(** ** Collections *)
Lemma all_each th l : forall o l' o', transformAll (T := R) th o l = (Ok l', o') ->
  hm o' = hm o /\ Forall2 (fun v v' => exists oi oj, hm oi = hm o /\ transform th oi v = (Ok v', oj)) l l'.
Proof.
  induction l as [|v l IH]; cbn [transformAll]; intros o l' o' H.
  - inversion H. subst. split; auto.
  - destruct (transform th o v) as [r o1] eqn:E. pose proof (transform_matrix _ _ _ _ _ E) as M. destruct r as [v'| |]; try discriminate.
    destruct (transformAll th o1 l) as [r o2] eqn:E2. inversion H as [[H1 H2]]. subst o2. apply bind_ok in H1. destruct H1 as (ls & -> & L). apply Ok_inj in L. subst l'.
    destruct (IH _ _ _ E2) as (M2 & F). split; [congruence|]. apply Forall2_cons.
    + exists o, o1. auto.
    + clear -F M. induction F as [|x y l l' (oi & oj & A & B) F IH]; [apply Forall2_nil|]. apply Forall2_cons; auto. exists oi, oj. split; auto. congruence.
Qed.
Lemma transform_copy th o o0 v : coherent th o -> coherent th o0 -> hm o = hm o0 -> fst (transform th o v) = fst (transform th o0 v) /\ coherent th (snd (transform th o v)).
Proof.
  intros C C' E. destruct v; cbn [transform]; try (split; [unfold hApplyPt; rewrite ?E; reflexivity|exact C]).
  destruct (hApplyLine_fresh th o l C) as (A & B & _), (hApplyLine_fresh th o0 l C') as (A' & _).
  destruct (hApplyLine th o l) as [r1 o1], (hApplyLine th o0 l) as [r2 o2]. cbn [fst snd] in *. split; auto. now rewrite A, A', E.
Qed.
Lemma all_copy th o0 l : coherent th o0 -> forall o, coherent th o -> hm o = hm o0 -> fst (transformAll th o l) = mapM (fun v => fst (transform th o0 v)) l.
Proof.
  intros C0. induction l as [|v l IH]; intros o C E0; cbn [transformAll mapM]; [auto|]. destruct (transform_copy th o o0 v C C0 E0) as (A & B). rewrite <- A.
  destruct (transform th o v) as [r o1] eqn:E. pose proof (transform_matrix _ _ _ _ _ E) as M. cbn [fst snd] in *. destruct r as [v'| |]; cbn [bind fst snd]; auto.
  rewrite <- (IH o1 B) by congruence. destruct (transformAll th o1 l) as [r o2]. reflexivity.
Qed.
