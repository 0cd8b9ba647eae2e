(** * Properties C180, C181: collections of objects of several types *)

From Coq Require Import Reals ZArith List Bool Lra Lia.
From Verif Require Import Num P_Homogr2 P_Seg P_Seg2 P_Seg3 P_Poly3 P_Poly4 P_Poly6 M_LP M_Homogr M_Seg M_Circle M_Poly M_FRect M_Ellipse M_Map M_Variant S_Geom S_Homogr S_Circle S_FRect S_Misc S_Seg S_Poly S_Ellipse S_Map S_EllImage S_Variant P_LP P_LP2 P_LP4 P_Homogr P_BB P_Poly P_Poly2 P_Poly5 P_Poly7 P_Ellipse P_Ellipse2 P_EllImage P_Grid P_Map P_Variant C_Poly C_Map C_Ellipse C_Ellipse3.
Import ListNotations.
Local Open Scope R_scope.

(** ** C180 *)
Theorem C180_types : forall th o l l' o', transformAll th o l = (Ok l', o') ->
  hm (T := R) o' = hm o /\ map vSize l' = map vSize l /\ map vType l' = map (fun v => imageType (vType v)) l.
Proof.
  intros th o l l' o' H. destruct (all_each _ _ _ _ _ H) as (E & F). split; auto. clear -F.
  induction F as [|v v' l l' (oi & oj & _ & T) F IH]; [auto|]. destruct (transform_size _ _ _ _ _ T) as (S & K). destruct IH as (I1 & I2). cbn [map]. rewrite S, K, I1, I2. auto.
Qed.
(** The images do not depend on the order: each is the one a fresh copy of the homography gives. *)
Theorem C180_independent : forall th o l, coherent th o ->
  fst (transformAll th o l) = mapM (fun v => fst (transform th (hCopy o) v)) l.
Proof.
  intros th o l C. apply (all_copy th (hCopy o) l); auto. left. reflexivity.
Qed.
Theorem C180_valid : forall th o l l' o', thr_ok th -> isAffine (hm o) -> Forall validV l -> transformAll th o l = (Ok l', o') -> Forall validV l'.
Proof.
  intros th o l l' o' Ht Ha V H. destruct (all_each _ _ _ _ _ H) as (_ & F). clear H. induction F as [|v v' l l' (oi & oj & E & T) F IH]; [apply Forall_nil|]. inversion V. subst.
  apply Forall_cons; auto. apply (valid_image th oi v v' oj); auto. now rewrite E.
Qed.
Theorem C180_area : forall th o l l' o' xs xs', thr_ok th -> isAffine (hm o) -> Forall validV l -> transformAll th o l = (Ok l', o') ->
  Forall (simpleV th) l -> Forall (simpleV th) l' -> mapM (vArea th) l = Ok xs -> mapM (vArea th) l' = Ok xs' ->
  xs' = map (Rmult (Rabs (detLin (hm o)))) xs.
Proof.
  intros th o l l' o' xs xs' Ht Ha V H S S' A A'. destruct (all_each _ _ _ _ _ H) as (_ & F). clear H. revert xs xs' A A'.
  induction F as [|v v' l l' (oi & oj & E & T) F IH]; cbn [mapM]; intros xs xs' A A'; [apply Ok_inj in A, A'; now subst|].
  inversion V. inversion S. inversion S'. subst. apply bind_ok in A, A'. destruct A as (x & X & A), A' as (x' & X' & A'). apply bind_ok in A, A'. destruct A as (ys & Y & A), A' as (ys' & Y' & A').
  apply Ok_inj in A, A'. subst. cbn [map]. f_equal; auto. rewrite <- E. apply (area_one th oi v v' oj); auto. now rewrite E.
Qed.
Theorem C180_length : forall th o s l l' o' xs xs', thr_ok th -> similar (hm o) s -> Forall validV l -> transformAll th o l = (Ok l', o') ->
  mapM (vLength th) l = Ok xs -> mapM (vLength th) l' = Ok xs' -> xs' = map (Rmult s) xs.
Proof.
  intros th o s l l' o' xs xs' Ht Hs V H A A'. destruct (all_each _ _ _ _ _ H) as (_ & F). clear H. revert xs xs' A A'.
  induction F as [|v v' l l' (oi & oj & E & T) F IH]; cbn [mapM]; intros xs xs' A A'; [apply Ok_inj in A, A'; now subst|].
  inversion V. subst. apply bind_ok in A, A'. destruct A as (x & X & A), A' as (x' & X' & A'). apply bind_ok in A, A'. destruct A as (ys & Y & A), A' as (ys' & Y' & A').
  apply Ok_inj in A, A'. subst. cbn [map]. f_equal; auto. apply (length_one th oi s v v' oj); auto. now rewrite E.
Qed.
(** ** C181 *)
(** The type of an oriented segment is lost, even by the identity. *)
Definition ident : hobj R := mkHobj (mkM 1 0 0 0 1 0 0 0 1) true true None.
Lemma im_ident p : isImage (mkM 1 0 0 0 1 0 0 0 1) p p.
Proof. unfold isImage. cbn [m00 m01 m02 m10 m11 m12 m20 m21 m22]. split; [lra|]. split; field. Qed.
Theorem C181_oriented_refuted : exists o v v' o', hm o = mkM 1 0 0 0 1 0 0 0 1 /\ transform thr0 o v = (Ok v', o') /\ vType (T := R) v = TOSegment /\ vType v' = TSegment.
Proof.
  destruct (C115_outcome thr0 (hm ident) KOSeg (mkSeg (mkPt 0 0) (mkPt 3 0)) thr0_ok) as (T1 & _).
  destruct (T1 (mkPt 0 0) (mkPt 3 0)) as (r & E & _); [apply im_ident|apply im_ident|rewrite edist_h, Rabs_left by lra; pose proof thr0_small; lra|].
  exists ident, (VOSeg (mkSeg (mkPt 0 0) (mkPt 3 0))), (VSeg r), ident. split; [reflexivity|]. cbn [transform]. rewrite E. auto.
Qed.
(** A rectangle, a circle and a segment, turned and enlarged twice. *)
Definition turnO : hobj R := mkHobj turn2 false true None.
Definition coll : list (vobj R) := [VRect (mkR (mkPt 0 0) (mkPt 4 3)); VCircle (mkC (mkPt 1 1) 2); VSeg (mkSeg (mkPt 0 0) (mkPt 3 0))].
Definition turned4 : list (pt R) := [mkPt 5 1; mkPt (-1) 1; mkPt (-1) 9; mkPt 5 9].
Lemma turn2_im x y x' y' : x' = 5 - 2 * y -> y' = 2 * x + 1 -> isImage turn2 (mkPt x y) (mkPt x' y').
Proof. intros -> ->. unfold isImage, turn2. cbn [m00 m01 m02 m10 m11 m12 m20 m21 m22 px py]. split; [lra|]. split; field. Qed.
Lemma turned4_ok : okSides thr0 turned4.
Proof. intros e. cbn [cyc turned4 app combine In]. intros [<-|[<-|[<-|[<-|[]]]]]; cbn [fst snd]; [side_ok 6|side_ok 8|side_ok 6|side_ok 8]. Qed.
Lemma turned4_far : farChain (nullDistance (@thr0 R RNum)) turned4.
Proof. intros e I. apply (turned4_ok e). cbn [cyc chain turned4 tl app combine In] in I |- *. unfold chain in I; cbn in I. tauto. Qed.
Lemma turned4_simple : simpleCalc thr0 turned4 = Ok true.
Proof.
  apply simple_true; [apply thr0_ok|cbn; lia|apply okSides_wide, turned4_ok|]. intros e f N.
  destruct (nonAdj_in _ _ _ N) as [Ie If]. apply meets_gap; [apply thr0_ok|now apply (okSides_dir _ _ turned4_ok)|now apply (okSides_dir _ _ turned4_ok)|].
  clear Ie If. destruct (nonAdj_index _ _ _ N) as (i & j & H & H' & -> & ->). cbn [length turned4] in H, H'. unfold turned4.
  assert (i = 0 /\ j = 2 \/ i = 1 /\ j = 3)%nat as [[-> ->]|[-> ->]] by lia; [first [do 3 right; gap; fail|do 2 right; left; gap; fail|right; left; gap; fail|left; gap; fail|idtac]|first [do 3 right; gap; fail|do 2 right; left; gap; fail|right; left; gap; fail|left; gap; fail|idtac]].
Qed.
Definition turnedC : ell R := mkE (mkM 1 0 (-3) 0 1 (-3) (-3) (-3) 2) false.
Lemma inv_turn2 : matInverse thr0 turn2 = Ok (mkM 0 (1 / 2) (- 1 / 2) (- 1 / 2) 0 (5 / 2) 0 0 1).
Proof.
  unfold matInverse. change (@determ R RNum turn2) with (det3 turn2). assert (det3 turn2 = 4) as E by (unfold det3, turn2; cbn [m00 m01 m02 m10 m11 m12 m20 m21 m22]; field).
  rewrite E. rnum. rewrite Rabs_right by lra. rewrite (proj2 (Rltb_false _ _)) by (unfold thr0; cbn [nullDeter]; rnum; lra). f_equal.
  unfold turn2, adjugate, matMap, det2. matval; rnum; field.
Qed.
Lemma turned_circle : hCircle thr0 turn2 (mkC (mkPt 1 1) 2) = Ok turnedC.
Proof.
  unfold hCircle, hEll. rewrite inv_turn2. cbn [bind]. unfold ellOfCircle, turnedC. cbn [em cc cr px py]. do 2 f_equal. unfold ellInit, matMul, matTranspose. rnum. rewrite sin_0, cos_0. matval; field.
Qed.
Lemma turnedC_par : exists u, ellParams thr0 turnedC = Ok (mkPar 3 3 u (sin u) (cos u) 4 4 (4 * 4) (4 * 4)).
Proof.
  apply (params_big thr0 turnedC 3 3 4 4 0 thr0_ok); [repeat split| |].
  - split; [lra|]. exists 16. split; [lra|]. intros p. unfold conic, quadH, ellForm, Rsqr, turnedC. cbn [em m00 m01 m02 m10 m11 m12 m20 m21 m22 h0 h1 h2]. rewrite sin_0, cos_0. field.
  - unfold bigMat, turnedC. cbn [em m00 m01 m11]. unfold thr0. cbn [nullDenom]. rnum. lra.
Qed.
Example C180_ex : Forall validV coll /\ similar (hm turnO) 2 /\ coherent thr0 turnO /\ exists l', transformAll thr0 turnO coll = (Ok l', turnO) /\ Forall (simpleV thr0) coll /\ Forall (simpleV thr0) l' /\
  (exists xs, mapM (vArea thr0) l' = Ok xs) /\ exists xs, mapM (vLength thr0) l' = Ok xs.
Proof.
  split; [|split; [|split]].
  - apply Forall_cons; [cbn; lra|]. apply Forall_cons; [cbn; lra|]. apply Forall_cons; [exact I|apply Forall_nil].
  - apply C179_ex.
  - left. reflexivity.
  - pose proof turned_circle as E. destruct turnedC_par as (u & U).
    assert (hRect thr0 turn2 (mkR (mkPt 0 0) (mkPt 4 3)) = Ok (plFresh turned4)) as P.
    { unfold hRect. apply hPoly_far; [|apply turned4_far]. unfold turned4, fr4Pts. cbn [r1 r2 px py].
      constructor; [|constructor; [|constructor; [|constructor; [|constructor]]]]; apply turn2_im; lra. }
    destruct (C115_outcome thr0 turn2 KSeg (mkSeg (mkPt 0 0) (mkPt 3 0)) thr0_ok) as (T1 & _).
    destruct (T1 (mkPt 5 1) (mkPt 5 7)) as (r & Q & _); [apply turn2_im; lra|apply turn2_im; lra|rewrite edist_v, Rabs_left by lra; pose proof thr0_small; lra|].
    exists [VCPoly (plFresh turned4); VEll turnedC; VSeg r]. split; [|split; [|split; [|split]]].
    + unfold coll, turnO. cbn [transformAll transform hm]. rewrite P. cbn [bind]. rewrite E. cbn [bind]. rewrite Q. reflexivity.
    + repeat (apply Forall_cons; [exact I|]). apply Forall_nil.
    + apply Forall_cons; [|repeat (apply Forall_cons; [exact I|]); apply Forall_nil]. cbn [simpleV]. rewrite val_isSimple by (cbn; lia). apply turned4_simple.
    + cbn [mapM vArea]. rewrite val_bind, val_area, val_isSimple, turned4_simple by (cbn; lia). unfold ellArea. rewrite U. cbn [bind]. eauto.
    + cbn [mapM vLength]. unfold plLength. cbn [plLen plPts plFresh]. destruct (lengthCalc_cases thr0 true turned4) as [(L & _)|[(_ & _ & K)|(_ & (e & I & L) & _)]].
      * exfalso. cbn in L. lia.
      * rewrite K. cbn [bind]. unfold ellLength. rewrite U. cbn [bind M_Ellipse.ea M_Ellipse.eb]. rnum. rewrite cdiv_ok by lra. cbn [bind]. replace ((4 - 4) * (4 - 4) / ((4 + 4) * (4 + 4))) with 0 by field.
        rewrite csqrt_ok by lra. cbn [bind]. pose proof (sqrt_pos (4 - 3 * 0)). rewrite cdiv_ok by lra. cbn [bind]. eauto.
      * exfalso. apply (Rlt_not_le _ _ L). exact (proj1 (okSides_wide _ _ turned4_ok e I)).
Qed.
Print Assumptions C180_types. Print Assumptions C180_independent. Print Assumptions C180_valid. Print Assumptions C180_area. Print Assumptions C180_length. Print Assumptions C181_oriented_refuted.
