(** * Properties C49-C56, C76-C81: polylines *)

From Coq Require Import Reals ZArith List Bool Lra Lia Arith.
From Verif Require Import Num M_LP M_Seg M_Poly M_FRect S_Geom S_Seg S_Poly S_FRect P_LP P_LP2 P_LP4 P_Seg P_Seg3 P_BB P_Poly P_Poly2 P_Poly3 P_Poly4 P_Poly5 P_Poly6 P_Poly7.
Import ListNotations.
Local Open Scope R_scope.

(** ** C49 *)
Definition longSides (th : thrs R) closed (pts : list (pt R)) : Prop :=
  forall e, In e (sides closed pts) -> nullDistance th <= edist (fst e) (snd e).

Theorem C49_segs : forall th closed pts, (2 <= length pts)%nat -> longSides th closed pts ->
  plSegs th closed KOSeg pts = Ok (map (fun e => mkSeg (fst e) (snd e)) (sides closed pts)) /\
  exists ss, plSegs th closed KSeg pts = Ok ss /\
    Forall2 (fun e s => (s = mkSeg (fst e) (snd e) \/ s = mkSeg (snd e) (fst e)) /\ ~ lexlt (sB s) (sA s)) (sides closed pts) ss.
Proof.
  intros th closed pts L H. split; [apply (plSegs_ok th closed KOSeg pts L H)|]. exists (map sd (sides closed pts)). split; [apply (plSegs_ok th closed KSeg pts L H)|].
  induction (sides closed pts) as [|e l IH]; constructor; auto. split; [apply sd_cases|].
  unfold sd, segOrder, fixOrder. cbn [sA sB]. destruct (ptLt (fst e) (snd e)) eqn:E; cbn [negb sA sB].
  - apply ptLt_spec in E. intros X. exact (lexlt_irrefl _ (lexlt_trans _ _ _ E X)).
  - intros X. apply ptLt_spec in X. congruence.
Qed.
Theorem C49_count : forall th closed k pts ss, plSegs th closed k pts = Ok ss ->
  length ss = plNbSegs closed pts /\ ((length pts < 2)%nat -> ss = []) /\
  ((2 <= length pts)%nat -> length ss = if closed then length pts else (length pts - 1)%nat).
Proof.
  intros th closed k pts ss H. unfold plNbSegs. destruct (Nat.ltb_spec (length pts) 2).
  - rewrite plSegs_small in H by auto. injection H as <-. repeat split; auto. lia.
  - assert (length ss = if closed then length pts else (length pts - 1)%nat); [|repeat split; auto; lia].
    rewrite plSegs_eq in H by auto. apply mapM_inv in H. rewrite <- (Forall2_len _ _ _ H), sides_length by auto.
    unfold plNbSegs. destruct (Nat.ltb_spec (length pts) 2); [lia|reflexivity].
Qed.
Theorem C49_index : forall th closed k pts ss i, plSegs th closed k pts = Ok ss ->
  plSegment th closed k pts i = if (i <? length ss)%nat then Ok (nth i ss (mkSeg pt00 pt00)) else Throw.
Proof.
  intros th closed k pts ss i H. destruct (C49_count _ _ _ _ _ H) as (E & _). rewrite E. destruct (Nat.ltb_spec i (plNbSegs closed pts)) as [I|I].
  - assert (2 <= length pts)%nat as L by (unfold plNbSegs in I; destruct (Nat.ltb_spec (length pts) 2); [lia|lia]).
    rewrite plSegment_eq by auto. rewrite plSegs_eq in H by auto. apply mapM_inv in H.
    apply (Forall2_nth _ _ _ i (pt00, pt00) (mkSeg pt00 pt00)) in H; [exact H|]. now rewrite sides_length.
  - unfold plSegment. now destruct (Nat.leb_spec (plNbSegs closed pts) i); [|lia].
Qed.
Theorem C49_short_side : forall th closed k pts e, (2 <= length pts)%nat -> In e (sides closed pts) ->
  edist (fst e) (snd e) < nullDistance th -> plSegs th closed k pts = Throw.
Proof. exact plSegs_throw. Qed.
Theorem C49_length : forall th closed pts, longSides th closed pts ->
  val (plLength th closed (plFresh pts)) = Ok (sumOver (fun e => edist (fst e) (snd e)) (sides closed pts)).
Proof.
  intros th closed pts H. unfold plLength. cbn [plLen plFresh plPts]. destruct (Nat.lt_ge_cases (length pts) 2) as [L|L].
  - unfold lengthCalc. rewrite plSegs_small by auto. cbn [bind val fst fold_left]. f_equal. destruct pts as [|p [|q r]]; [destruct closed; reflexivity| |cbn in L; lia].
    destruct closed; [|reflexivity]. change (0 = edist p p + 0). rewrite edist_refl. lra.
  - rewrite lengthCalc_ok by auto. reflexivity.
Qed.
Example C49_ex : longSides thr0 true box4 /\ val (plLength thr0 true (plFresh box4)) = Ok 14 /\ plNbSegs false box4 = 3%nat /\
  val (plLength thr0 false (plFresh box4)) = Ok 11.
Proof.
  assert (longSides thr0 true box4) as A by (intros e I; destruct (box4_ok e I) as [[H _] _]; exact H).
  assert (longSides thr0 false box4) as B.
  { intros e I. apply A. cbn in I |- *. destruct I as [<-|[<-|[<-|[]]]]; auto. }
  assert (edist (mkPt 0 0) (mkPt 4 0) = 4 /\ edist (mkPt 4 0) (mkPt 4 3) = 3 /\ edist (mkPt 4 3) (mkPt 0 3) = 4 /\ edist (mkPt 0 3) (mkPt 0 0) = 3) as (E1 & E2 & E3 & E4)
    by (repeat split; apply edist_val; cbn [px py]; lra).
  split; [auto|]. split; [rewrite C49_length by auto; cbn [sides cyc box4 app combine sumOver fst snd]; rewrite E1, E2, E3, E4; f_equal; lra|].
  split; [reflexivity|]. rewrite C49_length by auto. unfold sides, chain, box4. cbn [tl app combine sumOver fst snd]. rewrite E1, E2, E3; f_equal; lra.
Qed.
Print Assumptions C49_segs. Print Assumptions C49_count. Print Assumptions C49_index. Print Assumptions C49_short_side. Print Assumptions C49_length.

(** ** C50 *)
(** Set a triangle, ask for the centroid, translate: the centroid is the one of the old place. *)
Theorem C50_refuted : exists ops pl c c', plRun thr0 true plEmpty ops = Some pl /\ val (plCentroid thr0 true pl) = Ok c /\
  val (plCentroid thr0 true (plFresh (plPts pl))) = Ok c' /\ c <> c'.
Proof.
  set (m := map (fun p : pt R => moved p 10 0) tri3).
  exists [PSet tri3; PCentroid; PTranslate 10 0], (mkPl m false None None (Some true) (Some (mkPt 1 1))), (mkPt 1 1), (mkPt 11 1).
  assert (plSet thr0 tri3 = Ok (plFresh tri3)) as S.
  { apply plSet_ok; [cbn; lia|]. intros e I. rewrite <- tri3_moved0 in I. apply moved3 in I. pose proof thr0_small. lra. }
  assert (simpleCalc thr0 tri3 = Ok true) as T by (rewrite <- tri3_moved0; apply moved3_simple).
  assert (centroidCalc tri3 = Ok (mkPt 1 1)) as C by (rewrite <- tri3_moved0, centroid3; do 2 f_equal; ring).
  split; [|split; [reflexivity|split]].
  - unfold plRun, plStep, keepPl0, keepPl. rewrite S. unfold plCentroid, plIsSimple.
    cbn [plFresh plPts plSimple plCent length tri3 Nat.ltb Nat.leb negb]. unfold tri3 in T, C |- *. rewrite T. cbn [bind plCent plPts negb]. rewrite C. reflexivity.
  - rewrite val_centroid, val_isSimple by (cbn; lia). cbn [plPts]. unfold m. rewrite moved3_simple. cbn [bind]. rewrite centroid3. do 2 f_equal; ring.
  - intros E. injection E. lra.
Qed.
(** ** C151: positive part of C50 *)
(** length() never is stale. *)
Theorem C151_length : forall th closed ops pl, thr_ok th -> plRun th closed plEmpty ops = Some pl ->
  val (plLength th closed pl) = val (plLength th closed (plFresh (plPts pl))).
Proof.
  intros th closed ops pl Hth H. apply (okCache_length th closed false false).
  apply (okCache_run th closed false false ops plEmpty pl Hth (okCache_fresh _ _ _ _ _)); auto; discriminate.
Qed.
(** area(), isSimple() and isConvex() are not stale as long as the polygon keeps sides of a usable
    length and direction. *)
Theorem C151_shape : forall th closed ops pl, thr_ok th ->
  (forall k q, plRun th closed plEmpty (firstn k ops) = Some q -> okSides th (plPts q)) ->
  plRun th closed plEmpty ops = Some pl ->
  val (plAreaOf th closed pl) = val (plAreaOf th closed (plFresh (plPts pl))) /\
  val (plIsSimple th closed pl) = val (plIsSimple th closed (plFresh (plPts pl))) /\
  val (plIsConvex th closed pl) = val (plIsConvex th closed (plFresh (plPts pl))).
Proof.
  intros th closed ops pl Hth HO H.
  assert (okCache th closed true false pl) as O by (apply (okCache_run th closed true false ops plEmpty pl Hth (okCache_fresh _ _ _ _ _)); auto; discriminate).
  split; [|split]; [apply okCache_area with false|apply okCache_isSimple with false|apply okCache_convex with false]; auto.
Qed.
(** centroid() is not stale if in addition the object is neither translated nor moved. *)
Theorem C151_centroid : forall th closed ops pl, thr_ok th -> forallb noMove ops = true ->
  (forall k q, plRun th closed plEmpty (firstn k ops) = Some q -> okSides th (plPts q)) ->
  plRun th closed plEmpty ops = Some pl ->
  val (plCentroid th closed pl) = val (plCentroid th closed (plFresh (plPts pl))).
Proof.
  intros th closed ops pl Hth HN HO H. apply okCache_centroid.
  apply (okCache_run th closed true true ops plEmpty pl Hth (okCache_fresh _ _ _ _ _)); auto.
Qed.
Example C151_ex : exists pl, plRun thr0 true plEmpty [PSet box4; PSimple; PArea; PTranslate 1 2] = Some pl /\ plArea pl = Some 12 /\
  forall k q, plRun thr0 true plEmpty (firstn k [PSet box4; PSimple; PArea; PTranslate 1 2]) = Some q -> okSides thr0 (plPts q).
Proof.
  assert (plSet thr0 box4 = Ok (plFresh box4)) as S.
  { apply plSet_ok; [cbn; lia|]. intros e I. destruct (box4_ok e I) as [[H _] _]. exact H. }
  pose proof box4_simple as T.
  assert (Rabs (signedArea box4) = 12) as A.
  { rewrite signedArea_sum. unfold cr2. cbn [cyc box4 app combine sumOver fst snd px py]. rewrite Rabs_right; lra. }
  assert (plIsSimple thr0 true (plFresh box4) = Ok (true, mkPl box4 false None None (Some true) None)) as B.
  { unfold plIsSimple. cbn [plFresh plPts plSimple length box4 Nat.ltb Nat.leb negb]. unfold box4 in T |- *. rewrite T. reflexivity. }
  assert (plAreaOf thr0 true (mkPl box4 false None None (Some true) None) = Ok (12, mkPl box4 false None (Some 12) (Some true) None)) as D.
  { unfold plAreaOf, plIsSimple. cbn [plPts plSimple length box4 Nat.ltb Nat.leb negb bind plArea plLen plNorm plCent]. rewrite <- A. reflexivity. }
  exists (plTranslate (mkPl box4 false None (Some 12) (Some true) None) 1 2).
  split; [unfold plRun, plStep, keepPl, keepPl0; rewrite S, B, D; reflexivity|]. split; [reflexivity|].
  assert (okSides thr0 (map (fun p => moved p 1 2) box4)) as M.
  { intros e I. rewrite cyc_map in I. apply in_map_iff in I. destruct I as (x & <- & I). destruct (box4_ok x I) as [[H1 H2] H3]. cbn [fst snd sA sB] in *.
    assert (edist (moved (fst x) 1 2) (moved (snd x) 1 2) = edist (fst x) (snd x)) as E by apply edist_moved.
    split; [split; cbn [sA sB]; rewrite E; auto|]. unfold dirOK in *. rewrite E. unfold moved. cbn [px py].
    replace (py (fst x) + 2 - (py (snd x) + 2)) with (py (fst x) - py (snd x)) by ring. destruct H3; [left; lra|now right]. }
  intros k q. assert (firstn k [PSet box4; PSimple; PArea; PTranslate 1 2] = firstn (Nat.min k 4) [PSet box4; PSimple; PArea; PTranslate 1 2]) as ->.
  { destruct (Nat.le_gt_cases k 4); [now rewrite Nat.min_l|]. rewrite Nat.min_r by lia. rewrite !firstn_all2; auto; cbn [length]; lia. }
  pose proof (Nat.le_min_r k 4) as K. destruct (Nat.min k 4) as [|[|[|[|[|z]]]]]; [| | | | |lia]; cbn [firstn]; unfold plRun, plStep, keepPl, keepPl0; rewrite ?S, ?B, ?D;
    intros E; injection E as <-; cbn [plPts plEmpty plFresh plTranslate]; auto using box4_ok.
  intros e [].
Qed.
Print Assumptions C50_refuted. Print Assumptions C151_length. Print Assumptions C151_shape. Print Assumptions C151_centroid.

(** ** C51 *)
Theorem C51_value : forall th pts b, (3 <= length pts)%nat -> val (plIsSimple th true (plFresh pts)) = Ok b ->
  exists a, val (plAreaOf th true (plFresh pts)) = Ok a /\ 0 <= a /\ (b = false -> a = 0) /\ (b = true -> forall o, a = Rabs (fanArea o pts)).
Proof.
  intros th pts b L H. rewrite val_area, H. cbn [bind]. exists (if b then Rabs (signedArea pts) else 0). split; [reflexivity|].
  split; [destruct b; [apply Rabs_pos|lra]|]. split; intros ->; [reflexivity|]. intros o. now rewrite <- (signedArea_fan o).
Qed.
Theorem C51_translation : forall th pts x y, thr_ok th -> okSides th pts ->
  val (plAreaOf th true (plFresh (map (fun p => moved p x y) pts))) = val (plAreaOf th true (plFresh pts)).
Proof. intros th pts x y Hth O. rewrite !val_area, isSimple_moved by auto. destruct (val _); cbn [bind]; auto. now rewrite signedArea_moved. Qed.
Theorem C51_cycle : forall th pts pts', thr_ok th -> wide th pts -> sameCycle pts pts' ->
  val (plAreaOf th true (plFresh pts')) = val (plAreaOf th true (plFresh pts)).
Proof. intros th pts pts' Hth W S. rewrite !val_area, (isSimple_cycle th pts pts') by auto. destruct (val _); cbn [bind]; auto. now rewrite (area_cycle pts pts'). Qed.
Theorem C51_affine : forall th pts m a a', val (plIsSimple th true (plFresh pts)) = Ok true -> val (plIsSimple th true (plFresh (map (affine m) pts))) = Ok true ->
  val (plAreaOf th true (plFresh pts)) = Ok a -> val (plAreaOf th true (plFresh (map (affine m) pts))) = Ok a' -> a' = Rabs (affDet m) * a.
Proof.
  intros th pts m a a' S S'. rewrite !val_area, S, S'. cbn [bind]. rewrite signedArea_affine. intros E E'. apply Ok_inj in E, E'. subst.
  apply Rabs_mult.
Qed.
Example C51_ex : okSides thr0 box4 /\ sameCycle box4 [mkPt 4 0; mkPt 0 0; mkPt 0 3; mkPt 4 3] /\ val (plIsSimple thr0 true (plFresh box4)) = Ok true /\
  val (plAreaOf thr0 true (plFresh box4)) = Ok 12.
Proof.
  split; [apply box4_ok|]. split; [|split].
  - right. exists [mkPt 0 3; mkPt 4 3], [mkPt 4 0; mkPt 0 0]. auto.
  - rewrite val_isSimple by (cbn; lia). apply box4_simple.
  - rewrite val_area, val_isSimple, box4_simple by (cbn; lia). cbn [bind]. rewrite signedArea_sum. unfold cr2. cbn [cyc box4 app combine sumOver fst snd px py].
    f_equal. rewrite Rabs_right; lra.
Qed.
Print Assumptions C51_value. Print Assumptions C51_translation. Print Assumptions C51_cycle. Print Assumptions C51_affine.

(** ** C52 *)
Theorem C52_translation : forall th pts x y c, thr_ok th -> okSides th pts -> val (plCentroid th true (plFresh pts)) = Ok c ->
  val (plCentroid th true (plFresh (map (fun p => moved p x y) pts))) = Ok (moved c x y).
Proof.
  intros th pts x y c Hth O. rewrite !val_centroid, isSimple_moved by auto. destruct (val _) as [[|]| |]; cbn [bind]; try discriminate. apply centroid_moved.
Qed.
Theorem C52_cycle : forall th pts pts', thr_ok th -> wide th pts -> sameCycle pts pts' ->
  val (plCentroid th true (plFresh pts')) = val (plCentroid th true (plFresh pts)).
Proof.
  intros th pts pts' Hth W S. rewrite !val_centroid, (isSimple_cycle th pts pts') by auto. destruct (val _) as [[|]| |]; cbn [bind]; auto. now apply centroid_cycle.
Qed.
Theorem C52_affine : forall th pts m c, affDet m <> 0 -> val (plIsSimple th true (plFresh (map (affine m) pts))) = Ok true ->
  val (plCentroid th true (plFresh pts)) = Ok c -> val (plCentroid th true (plFresh (map (affine m) pts))) = Ok (affine m c).
Proof.
  intros th pts m c D S. rewrite !val_centroid, S. clear S. destruct (val _) as [[|]| |]; cbn [bind]; try discriminate. now apply centroid_affine.
Qed.
(** It is the barycenter of the triangles of a fan around any point, weighted by their signed areas. *)
Theorem C52_barycenter : forall th pts c o, val (plCentroid th true (plFresh pts)) = Ok c -> fanArea o pts <> 0 /\
  px c * sumOver (fun e => tri2 o (fst e) (snd e)) (cyc pts) =
    sumOver (fun e => tri2 o (fst e) (snd e) * ((px o + px (fst e) + px (snd e)) / 3)) (cyc pts) /\
  py c * sumOver (fun e => tri2 o (fst e) (snd e)) (cyc pts) =
    sumOver (fun e => tri2 o (fst e) (snd e) * ((py o + py (fst e) + py (snd e)) / 3)) (cyc pts).
Proof.
  intros th pts c o. rewrite val_centroid. destruct (val _) as [[|]| |]; cbn [bind]; try discriminate. apply centroid_fan.
Qed.
Example C52_ex : okSides thr0 box4 /\ val (plCentroid thr0 true (plFresh box4)) = Ok (mkPt 2 (3 / 2)).
Proof.
  split; [apply box4_ok|]. rewrite val_centroid, val_isSimple, box4_simple by (cbn; lia). cbn [bind].
  assert (signedArea box4 = 12) as A by (rewrite signedArea_sum; unfold cr2; cbn [cyc box4 app combine sumOver fst snd px py]; lra).
  rewrite centroidCalc_sum by (rewrite A; lra). rewrite A. unfold cx, cy, cr2. cbn [cyc box4 app combine sumOver fst snd px py]. do 2 f_equal; lra.
Qed.
Print Assumptions C52_translation. Print Assumptions C52_cycle. Print Assumptions C52_affine. Print Assumptions C52_barycenter.

(** ** C53, C54, C76 *)
Definition spk : list (pt R) := [mkPt 0 0; mkPt 1 0; mkPt 3 1; mkPt 2 0].
Definition spk' : list (pt R) := [mkPt 0 0; mkPt 2 0; mkPt 3 1; mkPt 1 0].
(** The smallest vertex is the tip of a spike (both sides leave it in the same direction): the polygon
    and its reversal are different. *)
Theorem C53_refuted : exists pts pts', NoDup pts /\ sameCycle pts pts' /\
  plSet thr0 pts = Ok (plFresh pts) /\ plSet thr0 pts' = Ok (plFresh pts') /\
  exists a b, plEq thr0 true (plFresh pts) (plFresh pts') = Ok (false, a, b).
Proof.
  exists spk, spk'.
  assert (forall e, In e (cyc spk) \/ In e (cyc spk') -> 1 <= edist (fst e) (snd e)) as D.
  { intros e [I|I]; cbn [cyc spk spk' app combine In] in I; destruct I as [<-|[<-|[<-|[<-|[]]]]]; cbn [fst snd];
      (eapply Rle_trans; [|apply edist_ge_x]); cbn [px]; unfold Rabs; destruct (Rcase_abs _); lra. }
  assert (normPts true spk = Ok spk) as N.
  { unfold spk. change (normPts true ([] ++ mkPt 0 0 :: [mkPt 1 0; mkPt 3 1; mkPt 2 0]) = Ok spk). rewrite normPts_canon.
    - cbn [app hd last]. unfold cross3; cbn [px py]. destruct (Rltb _ 0) eqn:X; [apply Rltb_spec in X; exfalso; lra|reflexivity].
    - cbn [app In]. intros x [<-|[<-|[<-|[]]]]; left; cbn; lra.
    - discriminate. }
  assert (normPts true spk' = Ok spk') as N'.
  { unfold spk'. change (normPts true ([] ++ mkPt 0 0 :: [mkPt 2 0; mkPt 3 1; mkPt 1 0]) = Ok spk'). rewrite normPts_canon.
    - cbn [app hd last]. unfold cross3; cbn [px py]. destruct (Rltb _ 0) eqn:X; [apply Rltb_spec in X; exfalso; lra|reflexivity].
    - cbn [app In]. intros x [<-|[<-|[<-|[]]]]; left; cbn; lra.
    - discriminate. }
  pose proof thr0_small as T.
  split; [unfold spk; repeat constructor; cbn [In]; intros H; repeat (destruct H as [H|H]; [injection H; intros; lra|]); contradiction|].
  split; [right; exists [mkPt 2 0; mkPt 3 1; mkPt 1 0], [mkPt 0 0]; auto|].
  split; [apply plSet_ok; [cbn; lia|intros e I; specialize (D e (or_introl I)); lra]|].
  split; [apply plSet_ok; [cbn; lia|intros e I; specialize (D e (or_intror I)); lra]|].
  rewrite (plEq_fresh thr0 true spk spk' spk spk') by (auto; cbn; lia). do 2 eexists. repeat f_equal.
  cbn [spk spk' combine forallb fst snd]. rewrite (proj2 (ptEq_false thr0 (mkPt 2 0) (mkPt 1 0))), andb_false_r; [reflexivity|].
  assert (edist (mkPt 2 0) (mkPt 1 0) = 1) as -> by (apply edist_val; cbn; lra). lra.
Qed.
Print Assumptions C53_refuted.

Theorem C54_refuted : exists pts pts' a b, sameCycle pts pts' /\ plEq thr0 true (plFresh pts) (plFresh pts') = Ok (true, a, b) /\ plPts a <> pts.
Proof.
  set (l := [mkPt 1 0; mkPt 1 1; mkPt 0 0 : pt R]). set (c := [mkPt 0 0; mkPt 1 1; mkPt 1 0 : pt R]).
  assert (normPts true l = Ok c) as N.
  { change (normPts true ([mkPt 1 0; mkPt 1 1] ++ mkPt 0 0 :: []) = Ok c). rewrite normPts_canon.
    - cbn [app hd last]. unfold cross3; cbn [px py]. destruct (Rltb _ 0) eqn:X; [reflexivity|apply Rltb_false in X; exfalso; lra].
    - cbn [app In]. intros x [<-|[<-|[]]]; left; cbn; lra.
    - discriminate. }
  exists l, l, (mkPl c true None None None None), (mkPl c true None None None None).
  split; [left; apply shifted_refl|]. split; [|intros E; injection E; lra].
  rewrite (plEq_fresh thr0 true l l c c) by (auto; cbn; lia). rewrite forallb_self by apply thr0_ok. reflexivity.
Qed.
(** ** C152: positive part of C54 *)
(** What is kept: the points, up to a cyclic shift and a reversal. *)
Theorem C152_points : forall th closed pl pl2 r a b, plEq th closed pl pl2 = Ok (r, a, b) ->
  if closed then sameCycle (plPts pl) (plPts a) /\ sameCycle (plPts pl2) (plPts b)
  else (plPts a = plPts pl \/ plPts a = rev (plPts pl)) /\ (plPts b = plPts pl2 \/ plPts b = rev (plPts pl2)).
Proof.
  intros th closed pl pl2 r a b. unfold plEq.
  assert (forall p q, plNormalize closed p = Ok q -> if closed then sameCycle (plPts p) (plPts q) else plPts q = plPts p \/ plPts q = rev (plPts p)) as N.
  { intros p q. assert (if closed then sameCycle (plPts p) (plPts p) else plPts p = plPts p \/ plPts p = rev (plPts p)) as I
      by (destruct closed; [left; apply shifted_refl|now left]).
    assert (plNormalize closed p = Ok p \/ plNormalize closed p = bind (normPts closed (plPts p)) (fun v => Ok (mkPl v true (plLen p) (plArea p) (plSimple p) (plCent p)))) as [E|E].
    { unfold plNormalize. destruct (plPts p); auto. destruct (plNorm p); auto. }
    - rewrite E. intros H. injection H as <-. exact I.
    - rewrite E. intros H. apply bind_ok in H. destruct H as (v & V & H). injection H as <-. cbn [plPts]. apply normPts_cycle in V. exact V. }
  destruct (negb _).
  - intros H. injection H as _ <- <-. destruct closed; [split; left; apply shifted_refl|split; now left].
  - intros H. apply bind_ok in H. destruct H as (p & P & H). apply bind_ok in H. destruct H as (q & Q & H). injection H as _ <- <-.
    apply N in P. apply N in Q. destruct closed; auto.
Qed.
Example C152_ex : exists r a b, plEq thr0 true (plFresh box4) (plFresh (rev box4)) = Ok (r, a, b).
Proof.
  destruct (normPts_ok true box4) as (c & C); [cbn; lia|]. destruct (normPts_ok true (rev box4)) as (c' & C'); [cbn; lia|].
  rewrite (plEq_fresh thr0 true box4 (rev box4) c c') by (auto; cbn; lia). eauto.
Qed.
Print Assumptions C54_refuted. Print Assumptions C152_points.

Theorem C76_closed : forall th pts pts', thr_ok th -> NoDup pts -> (3 <= length pts)%nat -> noSpike pts -> sameCycle pts pts' ->
  exists a b, plEq th true (plFresh pts) (plFresh pts') = Ok (true, a, b) /\ plPts a = plPts b.
Proof.
  intros th pts pts' Hth ND L NS S. destruct (norm_same_closed pts pts' ND L NS S) as (c & C & C'). pose proof (sameCycle_len _ _ S).
  rewrite (plEq_fresh th true pts pts' c c) by (auto; lia). rewrite forallb_self by auto. eauto.
Qed.
Theorem C76_open : forall th pts, thr_ok th -> (2 <= length pts)%nat -> hd pt00 pts <> last pts pt00 ->
  exists a b, plEq th false (plFresh pts) (plFresh (rev pts)) = Ok (true, a, b) /\ plPts a = plPts b.
Proof.
  intros th pts Hth L H. destruct (normPts_ok false pts L) as (c & C). pose proof (norm_same_open pts H) as E. rewrite C in E.
  rewrite (plEq_fresh th false pts (rev pts) c c) by (auto; now rewrite rev_length). rewrite forallb_self by auto. eauto.
Qed.
(** Conversely, equal polylines have the same points one by one, up to the tolerance, in some order of
    the same polygon (chain). *)
Theorem C76_sound : forall th closed pts pts' a b, (2 <= length pts)%nat ->
  plEq th closed (plFresh pts) (plFresh pts') = Ok (true, a, b) -> exists c c', near th c' c /\
  if closed then sameCycle pts c /\ sameCycle pts' c' else (c = pts \/ c = rev pts) /\ (c' = pts' \/ c' = rev pts').
Proof.
  intros th closed pts pts' a b L H. assert (length pts = length pts') as E.
  { unfold plEq in H. cbn [plPts plFresh] in H. destruct (Nat.eqb_spec (length pts) (length pts')); auto. discriminate. }
  destruct (normPts_ok closed pts L) as (c & C). destruct (normPts_ok closed pts') as (c' & C'); [lia|].
  rewrite (plEq_fresh th closed pts pts' c c' E C C' L) in H. injection H as H _ _.
  apply normPts_cycle in C. apply normPts_cycle in C'. exists c, c'. split.
  - apply forallb_near; auto. destruct closed.
    + apply sameCycle_len in C. apply sameCycle_len in C'. lia.
    + destruct C as [->| ->], C' as [->| ->]; rewrite ?rev_length; lia.
  - destruct closed; auto.
Qed.
Example C76_ex : NoDup box4 /\ noSpike box4 /\ sameCycle box4 [mkPt 4 0; mkPt 0 0; mkPt 0 3; mkPt 4 3] /\ hd pt00 box4 <> last box4 pt00.
Proof.
  split; [apply box4_nodup|]. split; [apply box4_nospike|]. split; [right; exists [mkPt 0 3; mkPt 4 3], [mkPt 4 0; mkPt 0 0]; auto|].
  cbn. intros E. injection E. lra.
Qed.
Print Assumptions C76_closed. Print Assumptions C76_open. Print Assumptions C76_sound.

(** ** C55, C77 *)
(** A rectangle with one more vertex in the middle of a side, in the two orientations. *)
Theorem C55_refuted : exists pts, okSides thr0 pts /\ val (plIsConvex thr0 true (plFresh pts)) = Ok false /\
  val (plIsConvex thr0 true (plFresh (rev pts))) = Ok true.
Proof.
  exists box5. split; [apply box5_ok|].
  assert (val (plIsSimple thr0 true (plFresh (rev box5))) = Ok true) as S.
  { rewrite (isSimple_cycle thr0 box5) by (apply thr0_ok || apply okSides_wide, box5_ok || (right; apply shifted_refl)).
    rewrite val_isSimple by (cbn; lia). apply box5_simple. }
  split.
  - rewrite val_convex, val_isSimple, box5_simple by (cbn; lia). cbn [bind andb length box5 Nat.eqb orb]. f_equal. apply not_true_is_false. intros C.
    apply (convex_turns box5) in C; [|cbn; lia]. destruct C as [C|C].
    + specialize (C (mkPt 0 0) (mkPt 2 0) (mkPt 4 0)). unfold cross3 in C. cbn [px py] in C.
      assert (triple box5 (mkPt 0 0) (mkPt 2 0) (mkPt 4 0)) as T by (exists [], [mkPt 4 3; mkPt 0 3; mkPt 0 0; mkPt 2 0; mkPt 4 0; mkPt 4 3; mkPt 0 3]; reflexivity).
      apply C in T. lra.
    + specialize (C (mkPt 2 0) (mkPt 4 0) (mkPt 4 3)). unfold cross3 in C. cbn [px py] in C.
      assert (triple box5 (mkPt 2 0) (mkPt 4 0) (mkPt 4 3)) as T by (exists [mkPt 0 0], [mkPt 0 3; mkPt 0 0; mkPt 2 0; mkPt 4 0; mkPt 4 3; mkPt 0 3]; reflexivity).
      apply C in T. lra.
  - rewrite val_convex, S. cbn [bind andb]. f_equal. apply orb_true_intro. right. apply (convex_turns (rev box5)); [cbn; lia|]. right.
    apply (turn_triples (rev box5) (fun p q r => cross3 p q r <= 0)); [cbn; lia|]. intros i I. cbn [box5 rev app length] in *.
    do 5 (destruct i as [|i]; [unfold cross3; cbn; lra|]). lia.
Qed.
Print Assumptions C55_refuted.

Theorem C77_turns : forall th pts, (3 <= length pts)%nat ->
  (val (plIsConvex th true (plFresh pts)) = Ok true <->
   val (plIsSimple th true (plFresh pts)) = Ok true /\
   (length pts = 3%nat \/ (forall p q r, triple pts p q r -> 0 < cross3 p q r) \/ (forall p q r, triple pts p q r -> cross3 p q r <= 0))).
Proof.
  intros th pts L. rewrite val_convex. rewrite <- convex_turns by lia. destruct (val _) as [[|]| |]; cbn [bind andb]; split; intros H; try discriminate; try (now destruct H).
  - injection H as H. apply orb_prop in H. rewrite Nat.eqb_eq in H. auto.
  - destruct H as [_ [H|H]]; [rewrite (proj2 (Nat.eqb_eq _ _) H); reflexivity|rewrite H; f_equal; apply orb_true_r].
Qed.
Theorem C77_cycle : forall th pts pts', thr_ok th -> wide th pts -> (3 <= length pts)%nat -> (forall p q r, triple pts p q r -> cross3 p q r <> 0) ->
  sameCycle pts pts' -> val (plIsConvex th true (plFresh pts')) = val (plIsConvex th true (plFresh pts)).
Proof.
  intros th pts pts' Hth W L NC S. pose proof (sameCycle_len _ _ S) as LE. rewrite !val_convex, (isSimple_cycle th pts pts') by auto.
  assert (convexLoop pts' 0 (seq 0 (length pts')) = convexLoop pts 0 (seq 0 (length pts))) as E.
  { assert (forall a b : list (pt R), (2 <= length a)%nat -> shifted a b -> convexLoop b 0 (seq 0 (length b)) = convexLoop a 0 (seq 0 (length a))) as SH.
    { intros a b La Sab. pose proof (shifted_len _ _ Sab) as Lb. apply eq_true_iff_eq. rewrite !convex_turns by lia.
      assert (forall p q r, triple a p q r <-> triple b p q r) as TT by (intros; split; apply triple_shift; auto using shifted_sym; lia).
      split; (intros [H|H]; [left|right]); intros p q r T; apply H; now apply TT. }
    destruct S as [S|S].
    - apply SH; auto. lia.
    - rewrite (SH (rev pts) pts') by (rewrite ?rev_length; auto; lia). apply convex_rev; auto. lia. }
  rewrite E, <- LE. reflexivity.
Qed.
Example C77_ex : wide thr0 box4 /\ (forall p q r, triple box4 p q r -> cross3 p q r <> 0) /\ val (plIsConvex thr0 true (plFresh box4)) = Ok true.
Proof.
  split; [apply okSides_wide, box4_ok|]. split; [intros p q r T; rewrite (box4_turns _ _ _ T); lra|].
  apply C77_turns; [cbn; lia|]. split; [rewrite val_isSimple by (cbn; lia); apply box4_simple|]. right. left. intros p q r T. rewrite (box4_turns _ _ _ T). lra.
Qed.
Print Assumptions C77_turns. Print Assumptions C77_cycle.

(** ** C56 *)
Theorem C56_box : forall th pts r, thr_ok th -> plBB th pts = Ok r ->
  (forall p, In p pts -> inR r p) /\ (forall o, (forall p, In p pts -> inR o p) -> forall p, inR r p -> inR o p) /\ wfR r.
Proof.
  intros th pts r Hth H. destruct (plBB_inv th pts r Hth H) as (W & B & _). split; [apply B|]. split; auto. intros o. now apply isBox_least.
Qed.
Theorem C56_total : forall th pts, thr_ok th -> (2 <= length pts)%nat ->
  (exists p q, In p pts /\ In q pts /\ nullDistance th <= Rabs (px p - px q) /\ nullOrthogDistance th <= Rabs (px p - px q)) ->
  (exists p q, In p pts /\ In q pts /\ nullOrthogDistance th <= Rabs (py p - py q)) -> exists r, plBB th pts = Ok r.
Proof.
  intros th pts Hth L (p & q & Ip & Iq & D & O) (p' & q' & Ip' & Iq' & O'). destruct pts as [|a l]; [cbn in L; lia|].
  destruct (minOf_spec px a l) as [A1 B1]. destruct (minOf_spec py a l) as [A2 B2]. destruct (maxOf_spec px a l) as [A3 B3]. destruct (maxOf_spec py a l) as [A4 B4].
  exists (mkR (mkPt (minOf px a l) (minOf py a l)) (mkPt (maxOf px a l) (maxOf py a l))).
  pose proof (A1 p Ip). pose proof (A1 q Iq). pose proof (A3 p Ip). pose proof (A3 q Iq).
  pose proof (A2 p' Ip'). pose proof (A2 q' Iq'). pose proof (A4 p' Ip'). pose proof (A4 q' Iq').
  assert (nullDistance th <= maxOf px a l - minOf px a l /\ nullOrthogDistance th <= maxOf px a l - minOf px a l) as [D1 O1] by (unfold Rabs in *; destruct (Rcase_abs (px p - px q)); lra).
  assert (nullOrthogDistance th <= maxOf py a l - minOf py a l) as O2 by (unfold Rabs in *; destruct (Rcase_abs (py p' - py q')); lra).
  apply plBB_ok; auto.
  - split; [intros x I; unfold inR; cbn [r1 r2 px py]; auto|]. cbn [r1 r2 px py].
    split; [destruct B1 as (x & I & E); exists x; auto|]. split; [destruct B3 as (x & I & E); exists x; auto|]. split; [destruct B2 as (x & I & E); exists x; auto|destruct B4 as (x & I & E); exists x; auto].
  - cbn [r1 r2]. rewrite edist_sym. eapply Rle_trans; [|apply edist_ge_x]. cbn [px]. eapply Rle_trans; [|apply Rle_abs]. lra.
Qed.
Example C56_ex : plBB thr0 dart = Ok (mkR (mkPt 0 0) (mkPt 4 6)).
Proof.
  assert (nullOrthogDistance (thr0 (T := R)) <= 1) by (unfold thr0; cbn [nullOrthogDistance]; rnum; lra). pose proof thr0_small.
  apply plBB_ok; [apply thr0_ok|cbn; lia| | | |]; cbn [r1 r2 px py]; try lra.
  - split; [intros p; cbn [dart In]; intros [<-|[<-|[<-|[<-|[]]]]]; unfold inR; cbn; lra|].
    cbn [r1 r2 px py dart In]. split; [exists (mkPt 0 0); auto|]. split; [exists (mkPt 4 0); auto|]. split; [exists (mkPt 0 0); auto|exists (mkPt 4 6); auto].
  - eapply Rle_trans; [|apply edist_ge_x]. cbn [px]. unfold Rabs. destruct (Rcase_abs _); lra.
Qed.
Print Assumptions C56_box. Print Assumptions C56_total.

(** ** C78 *)
Theorem C78_sound : forall th pts, thr_ok th -> (3 <= length pts)%nat -> okSides th pts -> val (plIsSimple th true (plFresh pts)) = Ok false ->
  exists e f p, nonAdj pts e f /\ cross3 (fst e) (snd e) p = 0 /\ cross3 (fst f) (snd f) p = 0 /\
    (exists x, onSeg (fst e) (snd e) x /\ edist p x < nullDistance th / 2) /\ (exists x, onSeg (fst f) (snd f) x /\ edist p x < nullDistance th / 2).
Proof.
  intros th pts Hth L O H. rewrite val_isSimple in H by auto. apply simple_spec in H; auto using okSides_wide.
  destruct H as (e & f & N & p & M). exists e, f, p. split; auto. destruct (nonAdj_in _ _ _ N) as [Ie If].
  pose proof (okSides_dir _ _ O e Ie) as De. pose proof (okSides_dir _ _ O f If) as Df.
  destruct (segInterSeg_sound th _ _ p Hth (sd_dirOK th e De) (sd_dirOK th f Df) M) as (X & Y & C & C').
  assert (forall g q, cross3 (sA (sd g)) (sB (sd g)) q = 0 -> cross3 (fst g) (snd g) q = 0) as CC.
  { intros g q. destruct (sd_cases g) as [->| ->]; cbn [sA sB]; auto. unfold cross3. lra. }
  assert (forall g q, segHas (sd g) q -> onSeg (fst g) (snd g) q) as HH.
  { intros g q. unfold segHas. destruct (sd_cases g) as [->| ->]; cbn [sA sB]; auto. intros; now apply onSeg_sym. }
  do 2 (split; [now apply CC|]). destruct X as (x & X & DX), Y as (y & Y & DY). split; [exists x|exists y]; auto.
Qed.
Theorem C78_complete : forall th pts e f x, thr_ok th -> (3 <= length pts)%nat -> okSides th pts -> nonAdj pts e f ->
  transversal th e f -> endsApart th e f -> onSeg (fst e) (snd e) x -> onSeg (fst f) (snd f) x -> val (plIsSimple th true (plFresh pts)) = Ok false.
Proof.
  intros th pts e f x Hth L O N T A H H'. rewrite val_isSimple by auto. apply simple_spec; auto using okSides_wide. exists e, f. split; auto. exists x.
  destruct (nonAdj_in _ _ _ N) as [Ie If]. destruct (O e Ie) as [Oe De]. destruct (O f If) as [Of Df]. now apply meets_complete.
Qed.
Theorem C78_total : forall th pts, thr_ok th -> okSides th pts -> exists b, val (plIsSimple th true (plFresh pts)) = Ok b.
Proof.
  intros th pts Hth O. destruct (Nat.lt_ge_cases (length pts) 3); [rewrite val_isSimple_small by auto; eauto|].
  rewrite val_isSimple, simpleCalc_eq by (auto using okSides_wide). eauto.
Qed.
Theorem C78_cycle : forall th pts pts', thr_ok th -> wide th pts -> sameCycle pts pts' ->
  val (plIsSimple th true (plFresh pts')) = val (plIsSimple th true (plFresh pts)).
Proof. intros. now apply isSimple_cycle. Qed.
Theorem C78_translation : forall th pts x y, thr_ok th -> okSides th pts ->
  val (plIsSimple th true (plFresh (map (fun p => moved p x y) pts))) = val (plIsSimple th true (plFresh pts)).
Proof. intros. now apply isSimple_moved. Qed.
(** A bow tie: the sides (0,0)-(4,3) and (4,0)-(0,3) cross. *)
Definition bow : list (pt R) := [mkPt 0 0; mkPt 4 3; mkPt 4 0; mkPt 0 3].
Lemma bow_ok : okSides thr0 bow.
Proof. intros e. cbn [cyc bow app combine In]. intros [<-|[<-|[<-|[<-|[]]]]]; cbn [fst snd]; [side_ok 5|side_ok 3|side_ok 5|side_ok 3]. Qed.
Example C78_ex : okSides thr0 bow /\ val (plIsSimple thr0 true (plFresh bow)) = Ok false /\ okSides thr0 box4 /\ val (plIsSimple thr0 true (plFresh box4)) = Ok true.
Proof.
  split; [apply bow_ok|]. split; [|split; [apply box4_ok|rewrite val_isSimple by (cbn; lia); apply box4_simple]].
  assert (edist (mkPt 0 0) (mkPt 4 3) = 5 /\ edist (mkPt 4 0) (mkPt 0 3) = 5) as [E E'] by (split; apply edist_val; cbn [px py]; lra).
  assert (nullAngleValue (thr0 (T := R)) <= 1) as NA by (unfold thr0; cbn [nullAngleValue]; rnum; lra).
  apply (C78_complete thr0 bow (mkPt 0 0, mkPt 4 3) (mkPt 4 0, mkPt 0 3) (mkPt 2 (3 / 2))); [apply thr0_ok|cbn; lia|apply bow_ok| | | | |].
  - exists [], [(mkPt 4 3, mkPt 4 0)], [(mkPt 0 3, mkPt 0 0)]. repeat split; discriminate.
  - unfold transversal. cbn [fst snd px py]. rewrite E, E'. replace (Rabs _) with 7 by (rewrite Rabs_left; lra).
    pose proof PI_RGT_0. pose proof PI2_3_2. apply Rle_trans with (PI / 3); [lra|]. apply acos_ge; rewrite ?cos_PI3; lra.
  - intros p q Ip Iq. pose proof thr0_small. cbn [fst snd In] in Ip, Iq.
    destruct Ip as [<-|[<-|[]]], Iq as [<-|[<-|[]]]; first [eapply Rle_trans; [|apply edist_ge_x]; cbn [px]; unfold Rabs; destruct (Rcase_abs _); lra|eapply Rle_trans; [|apply edist_ge_y]; cbn [py]; unfold Rabs; destruct (Rcase_abs _); lra].
  - exists (1 / 2). cbn [fst snd px py]. lra.
  - exists (1 / 2). cbn [fst snd px py]. lra.
Qed.
Print Assumptions C78_sound. Print Assumptions C78_complete. Print Assumptions C78_total. Print Assumptions C78_cycle. Print Assumptions C78_translation.

(** ** C79 *)
(** The four extreme points: the coordinate is extreme; among the points that reach it, the other
    coordinate is the smallest; the index is the first one of that point. *)
Definition isFirst (pts : list (pt R)) (i : nat) : Prop :=
  (i < length pts)%nat /\ forall j, (j < i)%nat -> nth j pts pt00 <> nth i pts pt00.
Theorem C79_extreme : forall (pts : list (pt R)), pts <> [] ->
  (exists i, extremePoint ltBm pts = Ok (nth i pts pt00, i) /\ isFirst pts i /\
     forall q, In q pts -> py (nth i pts pt00) < py q \/ (py q = py (nth i pts pt00) /\ px (nth i pts pt00) <= px q)) /\
  (exists i, extremePoint ltTm pts = Ok (nth i pts pt00, i) /\ isFirst pts i /\
     forall q, In q pts -> py q < py (nth i pts pt00) \/ (py q = py (nth i pts pt00) /\ px (nth i pts pt00) <= px q)) /\
  (exists i, extremePoint ltLm pts = Ok (nth i pts pt00, i) /\ isFirst pts i /\
     forall q, In q pts -> px (nth i pts pt00) < px q \/ (px q = px (nth i pts pt00) /\ py (nth i pts pt00) <= py q)) /\
  (exists i, extremePoint ltRm pts = Ok (nth i pts pt00, i) /\ isFirst pts i /\
     forall q, In q pts -> px q < px (nth i pts pt00) \/ (px q = px (nth i pts pt00) /\ py (nth i pts pt00) <= py q)).
Proof.
  intros pts N. split; [|split; [|split]].
  - destruct (extreme_key ltBm keyB pts) as (i & I & E & H & F); auto; [intros; apply lt_keys|]. exists i. split; auto. split.
    + split; auto. intros j J X. specialize (F j J). rewrite X in F. now apply lexlt_irrefl in F.
    + intros q J. specialize (H q J). unfold lexlt, keyB in H. cbn [px py] in H. set (p := nth i pts pt00) in *. destruct (Rtotal_order (py p) (py q)) as [?|[?|?]]; [now left| |exfalso; apply H; lra].
      right. split; auto. destruct (Rle_dec (px p) (px q)); auto. exfalso. apply H. right. lra.
  - destruct (extreme_key ltTm keyT pts) as (i & I & E & H & F); auto; [intros; apply lt_keys|]. exists i. split; auto. split.
    + split; auto. intros j J X. specialize (F j J). rewrite X in F. now apply lexlt_irrefl in F.
    + intros q J. specialize (H q J). unfold lexlt, keyT in H. cbn [px py] in H. set (p := nth i pts pt00) in *. destruct (Rtotal_order (py q) (py p)) as [?|[?|?]]; [now left| |exfalso; apply H; lra].
      right. split; auto. destruct (Rle_dec (px p) (px q)); auto. exfalso. apply H. right. lra.
  - destruct (extreme_key ltLm keyL pts) as (i & I & E & H & F); auto; [intros; apply lt_keys|]. exists i. split; auto. split.
    + split; auto. intros j J X. specialize (F j J). rewrite X in F. now apply lexlt_irrefl in F.
    + intros q J. specialize (H q J). unfold lexlt, keyL in H. cbn [px py] in H. set (p := nth i pts pt00) in *. destruct (Rtotal_order (px p) (px q)) as [?|[?|?]]; [now left| |exfalso; apply H; lra].
      right. split; auto. destruct (Rle_dec (py p) (py q)); auto. exfalso. apply H. right. lra.
  - destruct (extreme_key ltRm keyR pts) as (i & I & E & H & F); auto; [intros; apply lt_keys|]. exists i. split; auto. split.
    + split; auto. intros j J X. specialize (F j J). rewrite X in F. now apply lexlt_irrefl in F.
    + intros q J. specialize (H q J). unfold lexlt, keyR in H. cbn [px py] in H. set (p := nth i pts pt00) in *. destruct (Rtotal_order (px q) (px p)) as [?|[?|?]]; [now left| |exfalso; apply H; lra].
      right. split; auto. destruct (Rle_dec (py p) (py q)); auto. exfalso. apply H. right. lra.
Qed.
Example C79_ex : dart <> [] /\ extremePoint ltRm dart = Ok (mkPt 4 0, 1%nat).
Proof.
  split; [discriminate|]. destruct (C79_extreme dart) as (_ & _ & _ & i & E & [I F] & H); [discriminate|]. rewrite E.
  cbn [dart length] in I. destruct i as [|[|[|[|i]]]]; [| | | |lia]; cbn [dart nth] in *; try reflexivity; exfalso.
  - specialize (H (mkPt 4 0)). cbn in H. assert (4 < 0 \/ 4 = 0 /\ 0 <= 0) by auto. lra.
  - specialize (H (mkPt 4 0)). cbn in H. assert (4 < 4 \/ 4 = 4 /\ 6 <= 0) by auto. lra.
  - specialize (H (mkPt 4 0)). cbn in H. assert (4 < 3 \/ 4 = 3 /\ 2 <= 0) by auto. lra.
Qed.
Print Assumptions C79_extreme.

(** ** C80 *)
Theorem C80_regular : forall th rad n, thr_ok th -> (3 <= n)%nat -> 0 < rad ->
  nullDistance th <= 2 * rad * sin (PI / INR n) -> dblEpsilon th < 2 * rad * sin (PI / INR n) -> dblEpsilon th < rad * cos (PI / INR n) ->
  nullDenom th <= sin (PI / INR n) ->
  exists pts d r, plRCP th rad n = Ok (plFresh pts, d, r) /\ length pts = n /\
    (forall i, (i < n)%nat -> nth i pts pt00 = mkPt (rad * cos (2 * PI * INR i / INR n)) (rad * sin (2 * PI * INR i / INR n))) /\
    (forall p, In p pts -> edist (mkPt 0 0) p = rad) /\
    (forall e, In e (cyc pts) -> edist (fst e) (snd e) = d /\ edist (mkPt 0 0) (mkPt ((px (fst e) + px (snd e)) / 2) ((py (fst e) + py (snd e)) / 2)) = r).
Proof.
  intros th rad n Hth L Hr A B C D. exists (map (rcpPoint rad n) (seq 0 n)), (2 * rad * sin (PI / INR n)), (rad * cos (PI / INR n)).
  assert (3 <= INR n) as NN by (apply le_INR in L; cbn in L; lra).
  split; [now apply rcp_ok|]. split; [now rewrite map_length, seq_length|]. split; [|split].
  - intros i I. rewrite (nth_indep _ pt00 (rcpPoint rad n 0)) by (rewrite map_length, seq_length; auto). rewrite map_nth, seq_nth by auto. cbn [Nat.add]. rewrite rcp_circ. unfold circPt.
    replace (2 * (PI / INR n) * INR i) with (2 * PI * INR i / INR n) by (field; lra). f_equal; ring.
  - intros p J. apply in_map_iff in J. destruct J as (i & <- & _). rewrite rcp_circ. apply circ_norm. lra.
  - intros e I. split; [now apply rcp_sides|now apply rcp_mid].
Qed.
Theorem C80_rejects : forall th rad n, (n < 3)%nat \/ rad <= 0 -> plRCP th rad n = Throw.
Proof.
  intros th rad n H. unfold plRCP. destruct (Nat.ltb_spec n 3); [reflexivity|]. destruct H as [H|H]; [lia|]. rnum. rcase1; [reflexivity|rclean; exfalso; lra].
Qed.
Example C80_ex : nullDistance thr0 <= 2 * 1 * sin (PI / INR 6) /\ dblEpsilon thr0 < 2 * 1 * sin (PI / INR 6) /\ dblEpsilon thr0 < 1 * cos (PI / INR 6) /\ nullDenom thr0 <= sin (PI / INR 6).
Proof.
  replace (INR 6) with 6 by (cbn; lra). rewrite sin_PI6. destruct (half_angle 6) as (_ & _ & _ & C & _); [lia|]. replace (INR 6) with 6 in C by (cbn; lra). pose proof thr0_small. lra.
Qed.
Print Assumptions C80_regular. Print Assumptions C80_rejects.

(** ** C81 *)
Theorem C81_parallelogram : forall th p1 p2 p3, thr_ok th -> okSeg th (mkSeg p1 p2) -> okSeg th (mkSeg p3 p2) -> dirOK th p1 p2 -> dirOK th p3 p2 ->
  transversal th (p1, p2) (p3, p2) ->
  exists p4, plParallelogram th p1 p2 p3 = Ok (plFresh [p1; p2; p3; p4]) /\
    px p2 - px p1 = px p3 - px p4 /\ py p2 - py p1 = py p3 - py p4 /\ px p4 - px p1 = px p3 - px p2 /\ py p4 - py p1 = py p3 - py p2.
Proof.
  intros th p1 p2 p3 Hth [A B] [A' B'] D D' T. cbn [sA sB] in *.
  destruct (lineOf_total th p1 p2) as (l & El); auto. destruct (lineOf_total th p3 p2) as (l' & El'); auto.
  exists (mkPt (px p1 + px p3 - px p2) (py p1 + py p3 - py p2)). split; [|cbn [px py]; repeat split; ring].
  apply (parallelogram_ok th p1 p2 p3 l l'); auto. apply (transversal_notpar th (p1, p2) (p3, p2)); auto.
Qed.
Theorem C81_rejects : forall th p1 p2 p3, edist p1 p2 < nullDistance th \/ (nullDistance th <= edist p1 p2 /\ edist p3 p2 < nullDistance th) ->
  forall pl, plParallelogram th p1 p2 p3 <> Ok pl.
Proof.
  intros th p1 p2 p3 H pl E. unfold plParallelogram in E.
  apply bind_ok in E. destruct E as (l & El & E). apply bind_ok in E. destruct E as (l' & El' & _). apply lineOf_inv in El. apply lineOf_inv in El'. lra.
Qed.
Example C81_ex : okSeg thr0 (mkSeg (mkPt 0 0) (mkPt 4 3)) /\ dirOK thr0 (mkPt 0 0) (mkPt 4 3) /\ okSeg thr0 (mkSeg (mkPt 8 0) (mkPt 4 3)) /\ dirOK thr0 (mkPt 8 0) (mkPt 4 3) /\
  transversal thr0 (mkPt 0 0, mkPt 4 3) (mkPt 8 0, mkPt 4 3).
Proof.
  assert (edist (mkPt 0 0) (mkPt 4 3) = 5 /\ edist (mkPt 8 0) (mkPt 4 3) = 5) as [E E'] by (split; apply edist_val; cbn [px py]; lra).
  pose proof thr0_small as TS. assert (nullAngleValue (thr0 (T := R)) <= 1) as NA by (unfold thr0; cbn [nullAngleValue]; rnum; lra).
  unfold okSeg, dirOK, transversal. cbn [sA sB fst snd px py]. rewrite E, E'.
  split; [lra|]. split; [right; rewrite Rabs_left; lra|]. split; [lra|]. split; [right; rewrite Rabs_left; lra|].
  replace (Rabs _) with 7 by (rewrite Rabs_left; lra).
  pose proof PI_RGT_0. pose proof PI2_3_2. apply Rle_trans with (PI / 3); [lra|]. apply acos_ge; rewrite ?cos_PI3; lra.
Qed.
Print Assumptions C81_parallelogram. Print Assumptions C81_rejects.
