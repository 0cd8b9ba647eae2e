(** * Properties of the images of segments, polylines and rectangles by a homography *)

From Coq Require Import Reals Lra Lia List Bool Arith.
From Verif Require Import Num M_LP M_Homogr M_Seg M_Poly M_FRect M_Map S_Geom S_Homogr S_Seg S_Poly S_Map P_LP P_LP2 P_Homogr P_Seg P_Seg2 P_Seg3 P_Poly P_Poly2 P_Poly3 P_Poly4 P_Poly5 P_Poly6 P_Poly7 P_LP4 P_Map C_Poly.
Import ListNotations.
Local Open Scope R_scope.

(** ** C115 *)
(** The three outcomes of the product. *)
Theorem C115_outcome : forall th h k s, thr_ok th ->
  (forall p q, isImage h (sA s) p -> isImage h (sB s) q -> nullDistance th <= edist p q ->
     exists r, hSeg th h k s = Ok r /\ (r = mkSeg p q \/ (k = KSeg /\ r = mkSeg q p)) /\ (k = KSeg -> lexlt (sA r) (sB r))) /\
  (forall p q, isImage h (sA s) p -> isImage h (sB s) q -> edist p q < nullDistance th -> hSeg th h k s = Throw) /\
  (wAt h (sA s) = 0 \/ wAt h (sB s) = 0 -> hSeg th h k s = Undef).
Proof.
  intros th h k s Hth. unfold hSeg. split; [|split].
  - intros p q P Q D. apply hPt_image in P, Q. rewrite P, Q. cbn [bind]. destruct k.
    + destruct (svNew th KSeg p q) as [r| |] eqn:E.
      * destruct (svNew_inv _ _ _ _ _ Hth E) as (_ & N & L & C). cbn [bind svConvert]. exists r. unfold segOrder. rewrite fixOrder_id by auto. cbn. destruct r; cbn in *.
        split; [reflexivity|]. split; [|auto]. destruct C as [C|C]; [left|right]; auto.
      * unfold svNew in E. rewrite (proj2 (ptEq_false th p q) D) in E. discriminate.
      * unfold svNew in E. rewrite (proj2 (ptEq_false th p q) D) in E. discriminate.
    + rewrite svNew_ok by auto. cbn [bind svConvert]. eexists. split; [reflexivity|]. split; [auto|discriminate].
  - intros p q P Q D. apply hPt_image in P, Q. rewrite P, Q. cbn [bind]. unfold svNew. now rewrite (proj2 (ptEq_spec th p q) D).
  - assert (forall p, wAt h p = 0 -> hPt h p = Undef) as U.
    { intros p W. destruct (hPt h p) as [q| |] eqn:E; [|exfalso|reflexivity].
      - apply hPt_image in E. destruct E as [E _]. exfalso. apply E, W.
      - unfold hPt, ptOfH, cdiv in E. revert E. cbn [bind]. repeat (match goal with |- context [if ?b then _ else _] => destruct b end; cbn [bind]; try discriminate). }
    intros [W|W]; [now rewrite U|]. rewrite (U (sB s)) by auto. destruct (Req_dec (wAt h (sA s)) 0) as [Z|Z]; [now rewrite U|].
    destruct (image_ex h (sA s) Z) as (p & P). apply hPt_image in P. now rewrite P.
Qed.
(** If the ends are on the same side of the line sent to infinity, the result is the image of the segment
    as a set of points. *)
Theorem C115_points : forall th h k s r, thr_ok th -> hSeg th h k s = Ok r -> sameSide h (sA s) (sB s) ->
  segImage h (sA s) (sB s) (sA r) (sB r).
Proof.
  intros th h k s r Hth H S. unfold hSeg in H.
  destruct (hPt h (sA s)) as [p| |] eqn:P; try discriminate. destruct (hPt h (sB s)) as [q| |] eqn:Q; try discriminate.
  assert (hSeg th h k s = Ok r) as H' by (unfold hSeg; rewrite P, Q; exact H). cbn [bind] in H.
  apply hPt_image in P, Q. pose proof (seg_image h _ _ _ _ P Q S) as I.
  destruct (Rlt_le_dec (edist p q) (nullDistance th)) as [D|D].
  - destruct (C115_outcome th h k s Hth) as (_ & T & _). rewrite (T p q) in H'; auto. discriminate.
  - destruct (C115_outcome th h k s Hth) as (T & _ & _). destruct (T p q P Q D) as (r' & E & C & _). rewrite E in H'. injection H' as <-.
    destruct C as [->|(_ & ->)]; cbn [sA sB]; [exact I|].
    assert (forall y, onSeg q p y <-> onSeg p q y) as SW.
    { intros y; split; intros (t & B & X & Y); exists (1 - t); (split; [lra|split; lra]). }
    destruct I as [I1 I2]. split.
    + intros x X. destruct (I1 x X) as (y & A & B). exists y. split; auto. now apply SW.
    + intros y Y. apply I2. now apply SW.
Qed.
(** The oriented segment (0,0) (4,2) by a projective map. *)
Definition projH : mat R := mkM 2 0 0 0 2 0 (1 / 4) 0 1.
Lemma projH_im x y : 1 + x / 4 <> 0 -> isImage projH (mkPt x y) (mkPt (2 * x / (1 + x / 4)) (2 * y / (1 + x / 4))).
Proof.
  intros H. unfold isImage, projH. cbn [m00 m01 m02 m10 m11 m12 m20 m21 m22 px py]. replace (1 / 4 * x + 0 * y + 1) with (1 + x / 4) by field.
  split; [auto|]. split; f_equal; ring.
Qed.
Lemma imv h p q q' : isImage h p q -> px q = px q' -> py q = py q' -> isImage h p q'.
Proof. intros I X Y. destruct q as [a b], q' as [c d]. cbn in X, Y. now subst. Qed.
Example C115_ex : hSeg thr0 projH KOSeg (mkSeg (mkPt 0 0) (mkPt 4 2)) = Ok (mkSeg (mkPt 0 0) (mkPt 4 2)) /\ sameSide projH (mkPt 0 0) (mkPt 4 2) /\
  isImage projH (mkPt 2 1) (mkPt (8 / 3) (4 / 3)).
Proof.
  assert (isImage projH (mkPt 0 0) (mkPt 0 0)) as A by (apply (imv _ _ _ _ (projH_im 0 0 ltac:(lra))); cbn [px py]; lra).
  assert (isImage projH (mkPt 4 2) (mkPt 4 2)) as B by (apply (imv _ _ _ _ (projH_im 4 2 ltac:(lra))); cbn [px py]; lra).
  split; [|split].
  - destruct (C115_outcome thr0 projH KOSeg (mkSeg (mkPt 0 0) (mkPt 4 2)) thr0_ok) as (T & _ & _).
    destruct (T _ _ A B) as (r & E & [->|[C _]] & _); [|exact E|discriminate].
    pose proof (edist_ge_x (mkPt 0 0) (mkPt 4 2)) as G. cbn [px py] in G. rewrite Rabs_left in G by lra. pose proof thr0_small. lra.
  - unfold sameSide, wAt, projH. cbn [px py m20 m21 m22]. lra.
  - apply (imv _ _ _ _ (projH_im 2 1 ltac:(lra))); cbn [px py]; lra.
Qed.
Print Assumptions C115_outcome. Print Assumptions C115_points.

(** ** C116 *)
(** Without that hypothesis: a segment that crosses the line sent to infinity.  Nothing is reported, and the
    result joins the two images on the wrong side. *)
Lemma gapx (p q : pt R) : 1 <= Rabs (px p - px q) -> nullDistance (@thr0 R RNum) <= edist p q.
Proof. intros H. pose proof (edist_ge_x p q). pose proof thr0_small. lra. Qed.
Theorem C116_crossing_refuted : exists h s r, det3 h <> 0 /\ hSeg thr0 h KSeg s = Ok r /\ lexlt (sA s) (sB s) /\ ~ segImage h (sA s) (sB s) (sA r) (sB r).
Proof.
  exists projH, (mkSeg (mkPt (-8) 0) (mkPt 4 1)), (mkSeg (mkPt 4 1) (mkPt 16 0)).
  assert (isImage projH (mkPt (-8) 0) (mkPt 16 0)) as A by (apply (imv _ _ _ _ (projH_im (-8) 0 ltac:(lra))); cbn [px py]; lra).
  assert (isImage projH (mkPt 4 1) (mkPt 4 1)) as B by (apply (imv _ _ _ _ (projH_im 4 1 ltac:(lra))); cbn [px py]; lra).
  split; [unfold det3, projH; cbn; lra|]. split; [|split; [left; cbn; lra|]].
  - destruct (C115_outcome thr0 projH KSeg (mkSeg (mkPt (-8) 0) (mkPt 4 1)) thr0_ok) as (T & _ & _).
    destruct (T _ _ A B) as (r & E & C & L); [apply gapx; cbn [px py]; rewrite Rabs_right; lra|]. specialize (L eq_refl).
    destruct C as [->|[_ ->]]; [|exact E]. exfalso. destruct L as [L|[L _]]; cbn in L; lra.
  - cbn [sA sB]. intros I. apply (seg_not_image projH (mkPt (-8) 0) (mkPt 4 1) (mkPt 16 0) (mkPt 4 1)); auto.
    + unfold wAt, projH. cbn. lra.
    + assert (forall y, onSeg (mkPt 16 0) (mkPt 4 1) y <-> onSeg (mkPt 4 1) (mkPt 16 0) y) as SW.
      { intros y; split; intros (t & W & X & Y); exists (1 - t); cbn [px py] in *; (split; [lra|split; lra]). }
      destruct I as [I1 I2]. split.
      * intros x X. destruct (I1 x X) as (y & Q & S). exists y. split; auto. now apply SW.
      * intros y Y. apply I2. now apply SW.
Qed.
(** The image of an oriented segment is given the type of a plain segment without being put in order: it
    is not equal to the plain segment with the same ends. *)
Theorem C116_order_refuted : exists h s r t, hSeg thr0 h KOSeg s = Ok r /\ svNew thr0 KSeg (sA r) (sB r) = Ok t /\ svEq thr0 r t = false.
Proof.
  exists projH, (mkSeg (mkPt 4 1) (mkPt 0 0)), (mkSeg (mkPt 4 1) (mkPt 0 0)), (mkSeg (mkPt 0 0) (mkPt 4 1)).
  assert (isImage projH (mkPt 0 0) (mkPt 0 0)) as A by (apply (imv _ _ _ _ (projH_im 0 0 ltac:(lra))); cbn [px py]; lra).
  assert (isImage projH (mkPt 4 1) (mkPt 4 1)) as B by (apply (imv _ _ _ _ (projH_im 4 1 ltac:(lra))); cbn [px py]; lra).
  assert (nullDistance (@thr0 R RNum) <= edist (mkPt 4 1) (mkPt 0 0)) as D by (apply gapx; cbn [px py]; rewrite Rabs_right; lra).
  split; [|split].
  - destruct (C115_outcome thr0 projH KOSeg (mkSeg (mkPt 4 1) (mkPt 0 0)) thr0_ok) as (T & _ & _).
    destruct (T _ _ B A D) as (r & E & [->|[C _]] & _); [exact E|discriminate].
  - cbn [sA sB]. rewrite svNew_sym. apply svNew_ok_seg; [now rewrite edist_sym|]. left. cbn. lra.
  - unfold svEq. cbn [sA sB]. now rewrite (proj2 (ptEq_false thr0 _ _) D).
Qed.
Print Assumptions C116_crossing_refuted. Print Assumptions C116_order_refuted.

(** ** C117 *)
Theorem C117_outcome : forall th h pts qs, Forall2 (isImage h) pts qs ->
  (farChain (nullDistance th) qs -> hPoly th h pts = Ok (plFresh qs)) /\
  (~ farChain (nullDistance th) qs -> hPoly th h pts = Throw).
Proof.
  intros th h pts qs I. split; [now apply hPoly_far|]. intros N. destruct (far_dec (nullDistance th) (chain qs)) as [F|(e & E & F)]; [now elim N|].
  now apply hPoly_near with qs e.
Qed.
(** One point per point, in the same order; the cached values of the result are unset. *)
Theorem C117_vertices : forall th h pts pl, hPoly th h pts = Ok pl ->
  Forall2 (isImage h) pts (plPts pl) /\ farChain (nullDistance th) (plPts pl) /\ plLen pl = None /\ plArea pl = None.
Proof. intros th h pts pl H. destruct (hPoly_inv _ _ _ _ H) as (qs & -> & F & C). auto. Qed.
(** Each side becomes the image of the side, as a set of points. *)
Theorem C117_sides : forall th h closed pts pl, hPoly th h pts = Ok pl -> oneSide h pts ->
  Forall2 (fun e f => segImage h (fst e) (snd e) (fst f) (snd f)) (sides closed pts) (sides closed (plPts pl)).
Proof.
  intros th h closed pts pl H S. destruct (hPoly_inv _ _ _ _ H) as (qs & -> & F & _). cbn [plPts plFresh].
  assert (forall l m a b, (forall p q, In p l -> In q a -> sameSide h p q) -> Forall2 (isImage h) l m -> Forall2 (isImage h) a b ->
    Forall2 (fun e f => segImage h (fst e) (snd e) (fst f) (snd f)) (combine l a) (combine m b)) as G.
  { clear. intros l m a b S L. revert a b S. induction L as [|p p' l m P L IH]; intros a b S A; [constructor|].
    destruct A as [|q q' a b Q A]; [constructor|]. cbn [combine]. constructor; [cbn [fst snd]; apply seg_image; auto; apply S; now left|].
    apply IH; auto. intros x y X Y. apply S; now right. }
  destruct closed; cbn [sides]; unfold chain, cyc.
  - destruct F as [|p p' l m P L]; [constructor|]. apply G; [|now constructor|now apply Forall2_app2; auto].
    intros x y X Y. apply S; auto. apply in_app_or in Y. destruct Y as [Y|[<-|[]]]; [now right|now left].
  - apply G; auto; [|destruct F; cbn [tl]; auto]. intros x y X Y. apply S; auto. destruct pts; [destruct Y|now right].
Qed.
(** Images by a product, and by an inverse. *)
Theorem C117_product : forall th o1 o2 o pts pl pl' pl2, thr_ok th -> hMul th o1 o2 = Ok o ->
  hPoly th (hm o2) pts = Ok pl -> hPoly th (hm o1) (plPts pl) = Ok pl' -> hPoly th (hm o) pts = Ok pl2 -> pl2 = pl'.
Proof.
  intros th o1 o2 o pts pl pl' pl2 Hth M H1 H2 H3.
  destruct (hPoly_inv _ _ _ _ H1) as (a & -> & A & _). destruct (hPoly_inv _ _ _ _ H2) as (b & -> & B & _). destruct (hPoly_inv _ _ _ _ H3) as (c & -> & C & _).
  cbn [plPts plFresh] in B. f_equal. clear H1 H2 H3. revert b c B C. induction A as [|p p' l m P A IH]; intros b c B C; inversion B; subst; inversion C; subst; [reflexivity|].
  f_equal; [|auto]. apply (image_unique (hm o) p); auto.
  match goal with I : isImage (hm o1) p' ?y |- isImage (hm o) p ?y => rename I into I1 end.
  apply ptOfH_image in P, I1. apply ptOfH_image. pose proof (hMul_compose th o1 o2 o (hOfPt p) Hth M) as E. unfold hApplyPt in E.
  rewrite E. destruct (ptOfH_inv _ _ P) as [N ->]. rewrite matMulH_scaleH, ptOfH_scale; auto.
Qed.
Theorem C117_inverse : forall th o o' pts pl, thr_ok th -> hInverse th o = (Ok tt, o') -> farChain (nullDistance th) pts ->
  hPoly th (hm o) pts = Ok pl -> hPoly th (hm o') (plPts pl) = Ok (plFresh pts).
Proof.
  intros th o o' pts pl Hth I S H. destruct (hPoly_inv _ _ _ _ H) as (a & -> & A & _). cbn [plPts plFresh]. apply hPoly_far; auto.
  clear S H. induction A; constructor; auto. now apply (inverse_image th o o').
Qed.
(** Containers of points: the images in order, whatever the distances. *)
Theorem C117_container : forall h pts qs, hPts h pts = Ok qs <-> Forall2 (isImage h) pts qs.
Proof.
  intros h pts qs. split.
  - intros H. apply mapM_inv in H. induction H as [|p q l m E H IH]; constructor; auto. now apply hPt_image.
  - intros H. unfold hPts. induction H as [|p q l m P H IH]; [reflexivity|]. apply hPt_image in P. cbn [mapM]. rewrite P, IH. reflexivity.
Qed.
Definition quad4 : list (pt R) := [mkPt 0 0; mkPt 4 0; mkPt 4 3; mkPt 0 6].
Lemma quad4_im : Forall2 (isImage projH) box4 quad4.
Proof.
  constructor; [|constructor; [|constructor; [|constructor; [|constructor]]]]; [apply (imv _ _ _ _ (projH_im 0 0 ltac:(lra)))|apply (imv _ _ _ _ (projH_im 4 0 ltac:(lra)))|
    apply (imv _ _ _ _ (projH_im 4 3 ltac:(lra)))|apply (imv _ _ _ _ (projH_im 0 3 ltac:(lra)))]; cbn [px py]; lra.
Qed.
Lemma quad4_ok : okSides thr0 quad4.
Proof. intros e. cbn [cyc quad4 app combine In]. intros [<-|[<-|[<-|[<-|[]]]]]; cbn [fst snd]; [side_ok 4|side_ok 3|side_ok 5|side_ok 6]. Qed.
Lemma quad4_far : farChain (nullDistance (@thr0 R RNum)) quad4.
Proof. intros e I. apply (quad4_ok e). cbn [cyc chain quad4 tl app combine In] in I |- *. unfold chain in I; cbn in I. tauto. Qed.
Lemma quad4_one : oneSide projH box4.
Proof. intros p q P Q. unfold box4 in *. cbn [In] in P, Q. unfold sameSide, wAt, projH. cbn [m20 m21 m22].
  destruct P as [<-|[<-|[<-|[<-|[]]]]]; destruct Q as [<-|[<-|[<-|[<-|[]]]]]; cbn [px py]; lra. Qed.
Lemma quad4_simple : simpleCalc thr0 quad4 = Ok true.
Proof.
  apply simple_true; [apply thr0_ok|cbn; lia|apply okSides_wide, quad4_ok|]. intros e f N.
  destruct (nonAdj_in _ _ _ N) as [Ie If]. apply meets_gap; [apply thr0_ok|now apply (okSides_dir _ _ quad4_ok)|now apply (okSides_dir _ _ quad4_ok)|].
  clear Ie If. destruct (nonAdj_index _ _ _ N) as (i & j & H & H' & -> & ->). cbn [length quad4] in H, H'. unfold quad4.
  assert (i = 0 /\ j = 2 \/ i = 1 /\ j = 3)%nat as [[-> ->]|[-> ->]] by lia; [do 2 right; left; gap|do 1 right; left; gap].
Qed.
Example C117_ex : hPoly thr0 projH box4 = Ok (plFresh quad4) /\ oneSide projH box4 /\ farChain (nullDistance (@thr0 R RNum)) box4.
Proof.
  split; [apply hPoly_far; [apply quad4_im|apply quad4_far]|]. split; [apply quad4_one|].
  intros e I. apply (box4_ok e). cbn [cyc chain box4 tl app combine In] in I |- *. unfold chain in I; cbn in I. tauto.
Qed.
Print Assumptions C117_outcome. Print Assumptions C117_vertices. Print Assumptions C117_sides. Print Assumptions C117_product. Print Assumptions C117_inverse. Print Assumptions C117_container.

(** ** C118 *)
(** Turns: the sign of each turn is multiplied by the same sign, that of the determinant and of the side. *)
Theorem C118_turns : forall th h pts pl, hPoly th h pts = Ok pl -> oneSide h pts -> det3 h <> 0 -> exists s : R, s <> 0 /\
  forall p' q' r', triple (plPts pl) p' q' r' -> exists p q r k, triple pts p q r /\ isImage h p p' /\ isImage h q q' /\ isImage h r r' /\
    0 < k /\ cross3 p' q' r' = s * k * cross3 p q r.
Proof.
  intros th h pts pl H S D. destruct (hPoly_inv _ _ _ _ H) as (qs & -> & F & _). cbn [plPts plFresh].
  destruct (turn_sign h pts S D) as (s & N & T). exists s. split; auto.
  intros p' q' r' TR. destruct (triple_image _ _ _ _ _ F TR) as (p & q & r & TT & P & Q & R). destruct (triple_in _ _ _ _ TT) as (IP & IQ & IR).
  destruct (T p q r p' q' r') as (k & K & E); auto. exists p, q, r, k. auto 8.
Qed.
(** A convex polygon on one side of the line sent to infinity keeps convex, and conversely, when both polygons
    are simple and no three consecutive vertices are aligned. *)
Theorem C118_convex : forall th h pts pl, hPoly th h pts = Ok pl -> oneSide h pts -> det3 h <> 0 -> (3 <= length pts)%nat ->
  val (plIsSimple th true (plFresh pts)) = Ok true -> val (plIsSimple th true pl) = Ok true ->
  (forall p q r, triple pts p q r -> cross3 p q r <> 0) ->
  val (plIsConvex th true pl) = val (plIsConvex th true (plFresh pts)).
Proof.
  intros th h pts pl H S D L S1 S2 NC. destruct (turn_sign h pts S D) as (s & Ns & T).
  destruct (hPoly_inv _ _ _ _ H) as (qs & -> & F & _). assert (length pts = length qs) as LE by (clear -F; induction F; cbn; auto).
  assert (forall p q r p' q' r', triple pts p q r -> isImage h p p' -> isImage h q q' -> isImage h r r' ->
    (0 < s -> (0 < cross3 p' q' r' <-> 0 < cross3 p q r)) /\ (s < 0 -> (0 < cross3 p' q' r' <-> cross3 p q r < 0)) /\ cross3 p' q' r' <> 0) as T'.
  { intros p q r p' q' r' TT P Q R. destruct (triple_in _ _ _ _ TT) as (IP & IQ & IR). destruct (T p q r p' q' r') as (k & K & E); auto. rewrite E.
    specialize (NC _ _ _ TT). split; [|split].
    - intros X. assert (0 < s * k) by now apply Rmult_lt_0_compat. split; intros; [|now apply Rmult_lt_0_compat]. apply (Rmult_lt_reg_l (s * k)); lra.
    - intros X. assert (0 < - s * k) by (apply Rmult_lt_0_compat; lra). split; intros; [|assert (0 < (- s * k) * - cross3 p q r) by (apply Rmult_lt_0_compat; lra); lra].
      assert (0 < - cross3 p q r); [|lra]. apply (Rmult_lt_reg_l (- s * k)); lra.
    - repeat apply Rmult_integral_contrapositive_currified; auto. lra. }
  assert (forall P : pt R -> pt R -> pt R -> Prop, (forall p q r, triple qs p q r -> P p q r) <-> (forall p q r p' q' r', triple pts p q r -> isImage h p p' -> isImage h q q' -> isImage h r r' -> triple qs p' q' r' -> P p' q' r')) as TQ.
  { intros P. split; intros X; [intros; now apply X|]. intros p' q' r' TR. destruct (triple_image _ _ _ _ _ F TR) as (p & q & r & TT & A & B & C). now apply (X p q r). }
  assert (val (plIsConvex th true (plFresh qs)) = Ok true <-> val (plIsConvex th true (plFresh pts)) = Ok true) as E.
  { rewrite !C77_turns by lia. rewrite S1, S2, LE.
    assert (forall p q r, triple pts p q r -> exists p' q' r', triple qs p' q' r' /\ isImage h p p' /\ isImage h q q' /\ isImage h r r') as UP by (intros p q r TT; now apply triple_image_l with pts).
    assert (forall p' q' r', triple qs p' q' r' -> exists p q r, triple pts p q r /\ isImage h p p' /\ isImage h q q' /\ isImage h r r') as DN by (intros p q r TT; now apply triple_image with qs).
    clear TQ. destruct (Rtotal_order s 0) as [X|[X|X]]; [|contradiction|].
    - split; (intros (_ & [Y|[Y|Y]]); (split; [reflexivity|]); [now left|right; right|right; left]).
      + intros p q r TT. destruct (UP _ _ _ TT) as (p' & q' & r' & TR & A & B & C). destruct (T' _ _ _ _ _ _ TT A B C) as (_ & G & _). left. apply G; auto.
      + intros p q r TT. destruct (UP _ _ _ TT) as (p' & q' & r' & TR & A & B & C). destruct (T' _ _ _ _ _ _ TT A B C) as (_ & G & NZ). specialize (G X). specialize (Y _ _ _ TR). pose proof (NC _ _ _ TT).
        destruct (Rtotal_order (cross3 p q r) 0) as [Z|[Z|Z]]; [apply G in Z; lra|contradiction|auto].
      + intros p' q' r' TR. destruct (DN _ _ _ TR) as (p & q & r & TT & A & B & C). destruct (T' _ _ _ _ _ _ TT A B C) as (_ & G & NZ). specialize (G X). specialize (Y _ _ _ TT).
        destruct (Rlt_le_dec 0 (cross3 p' q' r')) as [Z|Z]; [apply G in Z; lra|auto].
      + intros p' q' r' TR. destruct (DN _ _ _ TR) as (p & q & r & TT & A & B & C). destruct (T' _ _ _ _ _ _ TT A B C) as (_ & G & NZ). specialize (G X). specialize (Y _ _ _ TT). pose proof (NC _ _ _ TT).
        apply G. lra.
    - split; (intros (_ & [Y|[Y|Y]]); (split; [reflexivity|]); [now left|right; left|right; right]).
      + intros p q r TT. destruct (UP _ _ _ TT) as (p' & q' & r' & TR & A & B & C). destruct (T' _ _ _ _ _ _ TT A B C) as (G & _ & _). apply G; auto.
      + intros p q r TT. destruct (UP _ _ _ TT) as (p' & q' & r' & TR & A & B & C). destruct (T' _ _ _ _ _ _ TT A B C) as (G & _ & NZ). specialize (G X). specialize (Y _ _ _ TR).
        destruct (Rlt_le_dec 0 (cross3 p q r)) as [Z|Z]; [apply G in Z; lra|auto].
      + intros p' q' r' TR. destruct (DN _ _ _ TR) as (p & q & r & TT & A & B & C). destruct (T' _ _ _ _ _ _ TT A B C) as (G & _ & NZ). apply G; auto.
      + intros p' q' r' TR. destruct (DN _ _ _ TR) as (p & q & r & TT & A & B & C). destruct (T' _ _ _ _ _ _ TT A B C) as (G & _ & NZ). specialize (G X). specialize (Y _ _ _ TT).
        destruct (Rlt_le_dec 0 (cross3 p' q' r')) as [Z|Z]; [apply G in Z; lra|auto]. }
  rewrite !val_convex, S1, S2 in *. cbn [bind] in *. destruct (true && _) in E |- *; destruct (true && _) in E |- *; auto; exfalso; [destruct E as [E _]; now specialize (E eq_refl)|destruct E as [_ E]; now specialize (E eq_refl)].
Qed.
(** Affine maps: the result is the polygon of the images, area and centroid follow. *)
Definition affM (m : aff) : mat R := mkM (aa m) (ab m) (ae m) (ac m) (ad m) (af m) 0 0 1.
Lemma affM_im m p q : isImage (affM m) p q <-> q = affine m p.
Proof.
  assert (isImage (affM m) p (affine m p)) as A.
  { unfold isImage, affM, affine. cbn [m00 m01 m02 m10 m11 m12 m20 m21 m22 px py]. replace (0 * px p + 0 * py p + 1) with 1 by ring. split; [lra|]. split; field. }
  split; [intros I; now apply (image_unique (affM m) p)|now intros ->].
Qed.
Theorem C118_affine : forall th m pts pl, hPoly th (affM m) pts = Ok pl ->
  plPts pl = map (affine m) pts /\
  (forall a a', val (plIsSimple th true (plFresh pts)) = Ok true -> val (plIsSimple th true pl) = Ok true ->
     val (plAreaOf th true (plFresh pts)) = Ok a -> val (plAreaOf th true pl) = Ok a' -> a' = Rabs (affDet m) * a) /\
  (forall c, affDet m <> 0 -> val (plIsSimple th true pl) = Ok true -> val (plCentroid th true (plFresh pts)) = Ok c -> val (plCentroid th true pl) = Ok (affine m c)).
Proof.
  intros th m pts pl H. destruct (hPoly_inv _ _ _ _ H) as (qs & -> & F & _).
  assert (qs = map (affine m) pts) as ->. { clear H. induction F as [|p q l k I F IH]; [reflexivity|]. apply affM_im in I. cbn [map]. now subst. }
  split; [reflexivity|]. split; [intros a a'; apply C51_affine|intros c; apply C52_affine].
Qed.
(** Rectangles: the corners in the order of the library, and the area of the image by an affine map. *)
Theorem C118_rectangle : forall th h r pl, hRect th h r = Ok pl ->
  Forall2 (isImage h) [r1 r; mkPt (px (r1 r)) (py (r2 r)); r2 r; mkPt (px (r2 r)) (py (r1 r))] (plPts pl) /\
  (forall m a, h = affM m -> val (plIsSimple th true pl) = Ok true -> val (plAreaOf th true pl) = Ok a ->
     a = Rabs (affDet m) * Rabs ((px (r2 r) - px (r1 r)) * (py (r2 r) - py (r1 r)))).
Proof.
  intros th h r pl H. split; [apply (C117_vertices th h _ pl H)|]. intros m a -> S A. unfold hRect in H.
  destruct (C118_affine th m _ pl H) as (E & _). destruct (hPoly_inv _ _ _ _ H) as (qs & -> & _). cbn [plPts plFresh] in E. subst qs.
  rewrite val_area, S in A. cbn [bind] in A. apply Ok_inj in A. rewrite signedArea_affine, Rabs_mult in A. rewrite <- A. f_equal.
  rewrite <- Rabs_Ropp. f_equal. rewrite signedArea_sum. cbn [fr4Pts cyc app combine sumOver cr2 fst snd px py]. unfold cr2. cbn [fst snd px py]. field.
Qed.
Lemma quad4_turns p q r : triple quad4 p q r -> 0 < cross3 p q r.
Proof.
  revert p q r. apply (turn_triples quad4 (fun p q r => 0 < cross3 p q r)); [cbn; lia|]. cbn [quad4 length]. intros i I.
  do 4 (destruct i as [|i]; [unfold cross3; cbn; lra|]). lia.
Qed.
Example C118_ex : hPoly thr0 projH box4 = Ok (plFresh quad4) /\ oneSide projH box4 /\ det3 projH <> 0 /\
  val (plIsSimple thr0 true (plFresh box4)) = Ok true /\ val (plIsSimple thr0 true (plFresh quad4)) = Ok true /\
  (forall p q r, triple box4 p q r -> cross3 p q r <> 0) /\ val (plIsConvex thr0 true (plFresh quad4)) = Ok true.
Proof.
  assert (val (plIsSimple thr0 true (plFresh quad4)) = Ok true) as S by (rewrite val_isSimple by (cbn; lia); apply quad4_simple).
  split; [apply C117_ex|]. split; [apply quad4_one|]. split; [unfold det3, projH; cbn; lra|].
  split; [rewrite val_isSimple by (cbn; lia); apply box4_simple|]. split; [exact S|].
  split; [intros p q r T; rewrite (box4_turns _ _ _ T); lra|].
  apply C77_turns; [cbn; lia|]. split; [exact S|]. right. left. exact quad4_turns.
Qed.
Print Assumptions C118_turns. Print Assumptions C118_convex. Print Assumptions C118_affine. Print Assumptions C118_rectangle.

(** ** C119 *)
(** The image of a valid closed polyline is not checked for equality of its first and last points: the
    result is a polyline that the setter would have refused, and asking for its segments throws. *)
Theorem C119_refuted : exists h pts pl, det3 h <> 0 /\ plSet thr0 pts = Ok (plFresh pts) /\ hPoly thr0 h pts = Ok pl /\
  plSet thr0 (plPts pl) = Throw /\ plSegs thr0 true KSeg (plPts pl) = Throw.
Proof.
  pose (d := nullDistance (@thr0 R RNum)). assert (0 < d <= 1 / 1000) as Hd by (pose proof thr0_small; pose proof (thr_dist _ thr0_ok); unfold d; lra).
  pose (a := mkA (1 / 4) 0 0 (1 / 4) 0 0).
  pose (pts := [mkPt 0 0; mkPt 8 0; mkPt 0 (2 * d)]).
  assert (forall x y : R, affine a (mkPt x y) = mkPt (x / 4) (y / 4)) as AF by (intros; unfold affine, a; cbn [aa ab ac ad ae af px py]; f_equal; field).
  assert (map (affine a) pts = [mkPt (0 / 4) (0 / 4); mkPt (8 / 4) (0 / 4); mkPt (0 / 4) (2 * d / 4)]) as E by (unfold pts; cbn [map]; now rewrite !AF).
  exists (affM a), pts, (plFresh (map (affine a) pts)).
  assert (In (mkPt (0 / 4) (2 * d / 4), mkPt (0 / 4) (0 / 4)) (cyc (map (affine a) pts))) as IN by (rewrite E; cbn; auto).
  assert (edist (mkPt (0 / 4) (2 * d / 4)) (mkPt (0 / 4) (0 / 4)) = d / 2) as DD by (apply edist_val; cbn [px py]; [lra|field]).
  split; [unfold det3, affM, a; cbn; lra|]. split; [|split; [|split]].
  - apply plSet_ok; [cbn; lia|]. fold d. intros e I. unfold pts in I. cbn [cyc app combine In] in I. destruct I as [<-|[<-|[<-|[]]]]; cbn [fst snd].
    + pose proof (edist_ge_x (mkPt 0 0) (mkPt 8 0)) as G. cbn [px] in G. rewrite Rabs_left in G by lra. lra.
    + pose proof (edist_ge_x (mkPt 8 0) (mkPt 0 (2 * d))) as G. cbn [px] in G. rewrite Rabs_right in G by lra. lra.
    + pose proof (edist_ge_y (mkPt 0 (2 * d)) (mkPt 0 0)) as G. cbn [py] in G. rewrite Rabs_right in G by lra. lra.
  - apply hPoly_far.
    + generalize pts. intros l. induction l; constructor; auto. now apply affM_im.
    + fold d. rewrite E. intros e I. unfold chain in I. cbn [tl combine In] in I. destruct I as [<-|[<-|[]]]; cbn [fst snd].
      * pose proof (edist_ge_x (mkPt (0 / 4) (0 / 4)) (mkPt (8 / 4) (0 / 4))) as G. cbn [px] in G. rewrite Rabs_left in G by lra. lra.
      * pose proof (edist_ge_x (mkPt (8 / 4) (0 / 4)) (mkPt (0 / 4) (2 * d / 4))) as G. cbn [px] in G. rewrite Rabs_right in G by lra. lra.
  - apply plSet_throw. right. eexists. split; [rewrite E; cbn; lia|]. split; [exact IN|]. cbn [fst snd]. rewrite DD. fold d. lra.
  - eapply plSegs_throw; [cbn [plPts plFresh]; rewrite E; cbn; lia|exact IN|]. cbn [fst snd]. rewrite DD. fold d. lra.
Qed.
Print Assumptions C119_refuted.
