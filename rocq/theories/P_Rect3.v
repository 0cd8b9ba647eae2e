(** * Segments and polylines against a rectangle *)

From Coq Require Import Reals Lra Psatz List Lia Bool.
From Verif Require Import Num M_LP M_Seg M_Circle M_Poly M_FRect M_Inter S_Geom S_Seg S_Circle S_Poly S_FRect S_Rect2 S_Inter S_Rect3
  P_LP P_LP2 P_LP3 P_LP4 P_Seg P_Seg2 P_Seg3 P_Seg4 P_BB P_Grid P_Grid2 P_Grid3 P_FRect P_FRect2 P_Poly P_Poly2 P_Poly4 P_Poly7 P_Rect2 P_Inter.
Import ListNotations.
Local Open Scope R_scope.

(** ** The loop *)
Lemma segLoop th s (segs : list (seg R)) (P : seg R -> pt R -> Prop) : thr_ok th ->
  (forall rs, In rs segs -> exists it, segInterSeg th rs s = Ok it /\ forall q, it = Some q <-> P rs q) ->
  (forall a b q, (exists x, In x segs /\ P x a) -> (exists x, In x segs /\ P x b) -> (exists x, In x segs /\ P x q) -> a <> b -> q = a \/ q = b) ->
  (forall a b, (exists x, In x segs /\ P x a) -> (exists x, In x segs /\ P x b) -> edist a b < nullDistance th -> a = b) ->
  forall rest fin out, segs = fin ++ rest -> (length out <= 1)%nat -> (forall q, In q out <-> exists x, In x fin /\ P x q) ->
  exists out', frInterSegLoop th rest s out = Ok out' /\ NoDup out' /\ (length out' <= 2)%nat /\ forall q, In q out' <-> exists x, In x segs /\ P x q.
Proof.
  intros Ht H1 H2 H3. induction rest as [|rs rest IH]; intros fin out ES L1 HO.
  - exists out. cbn. rewrite app_nil_r in ES. subst segs. split; [reflexivity|]. split; [|split; [lia|exact HO]].
    destruct out as [|a [|]]; [constructor|constructor; [auto|constructor]|cbn in L1; lia].
  - cbn [frInterSegLoop]. assert (In rs segs) as Irs by (rewrite ES; apply in_app_iff; right; now left).
    destruct (H1 rs Irs) as (it & Ei & Hit). rewrite Ei. cbn [bind].
    assert (ES' : segs = (fin ++ [rs]) ++ rest) by (rewrite ES, <- app_assoc; reflexivity).
    destruct it as [p|].
    2: { apply (IH (fin ++ [rs]) out); auto. intros q. rewrite HO. split; intros (x & I & Ps).
         - exists x. rewrite in_app_iff. auto.
         - apply in_app_iff in I. destruct I as [I|[<-|[]]]; [eauto|]. apply Hit in Ps. discriminate. }
    assert (P rs p) as Pp by (now apply Hit). assert (Hp : forall q, P rs q -> q = p) by (intros q Q; apply Hit in Q; congruence).
    assert (incl fin segs) as IF by (intros x X; rewrite ES, in_app_iff; auto).
    destruct out as [|a [|]]; [| |cbn in L1; lia].
    + cbn [app length Nat.eqb]. apply (IH (fin ++ [rs]) [p]); auto. intros q. split.
      * intros [<-|[]]. exists rs. rewrite in_app_iff. cbn. auto.
      * intros (x & I & Ps). apply in_app_iff in I. destruct I as [I|[<-|[]]]; [|left; symmetry; auto]. exfalso. apply (proj2 (HO q)). eauto.
    + assert (exists x, In x fin /\ P x a) as (s0 & I0 & P0) by (apply HO; now left).
      destruct (ptEq th a p) eqn:EB.
      * cbn [length Nat.eqb]. apply (IH (fin ++ [rs]) [a]); auto.
        assert (a = p) as EA by (apply ptEq_spec in EB; apply H3; eauto).
        intros q. split.
        -- intros I. apply HO in I. destruct I as (x & I & Ps). exists x. rewrite in_app_iff. auto.
        -- intros (x & I & Ps). apply in_app_iff in I. destruct I as [I|[<-|[]]]; [apply HO; eauto|]. left. rewrite (Hp q Ps). auto.
      * assert (a <> p) as NA.
        { intros ->. rewrite (proj2 (ptEq_spec th p p)) in EB; [discriminate|]. rewrite edist_refl. apply thr_dist; auto. }
        cbn [app length Nat.eqb]. exists [a; p]. split; auto. split; [|split; [cbn; lia|]].
        -- constructor; [intros [E|[]]; congruence|constructor; [auto|constructor]].
        -- intros q. split.
           ++ intros [<-|[<-|[]]]; eauto.
           ++ intros Q. destruct (H2 a p q) as [->| ->]; cbn; auto; eauto.
Qed.

(** ** The sides of a rectangle as pairs of points *)
Lemma rectSides r : sides true (rectPts r) = [(r1 r, mkPt (px (r1 r)) (py (r2 r))); (mkPt (px (r1 r)) (py (r2 r)), r2 r);
  (r2 r, mkPt (px (r2 r)) (py (r1 r))); (mkPt (px (r2 r)) (py (r1 r)), r1 r)].
Proof. reflexivity. Qed.
Lemma sidesOf_pair r s : In s (sidesOf r) -> exists e, In e (sides true (rectPts r)) /\ endsAre s e.
Proof.
  rewrite rectSides. unfold sidesOf, endsAre. cbn [In]. intros [<-|[<-|[<-|[<-|[]]]]]; cbn [sA sB]; eexists.
  - split; [left; reflexivity|left; split; reflexivity].
  - split; [right; left; reflexivity|left; split; reflexivity].
  - split; [right; right; left; reflexivity|right; split; reflexivity].
  - split; [right; right; right; left; reflexivity|right; split; reflexivity].
Qed.
Lemma pair_sidesOf r e : In e (sides true (rectPts r)) -> exists s, In s (sidesOf r) /\ endsAre s e.
Proof.
  rewrite rectSides. unfold sidesOf, endsAre. cbn [In]. intros [<-|[<-|[<-|[<-|[]]]]]; cbn [fst snd]; eexists.
  - split; [left; reflexivity|left; split; reflexivity].
  - split; [right; left; reflexivity|left; split; reflexivity].
  - split; [right; right; left; reflexivity|right; split; reflexivity].
  - split; [right; right; right; left; reflexivity|right; split; reflexivity].
Qed.
Lemma rect_onPoly r q : wfR r -> onPoly true (rectPts r) q <-> onBorder r q.
Proof.
  intros W. split.
  - intros (e & I & H). destruct (pair_sidesOf r e I) as (s & J & E). apply (side_has r s); auto. now apply (ends_has s e).
  - intros B. destruct (border_side r q W B) as (s & I & H). destruct (sidesOf_pair r s I) as (e & J & E). exists e. split; auto. now apply (ends_has s e).
Qed.
Lemma rect_okPoly th r : thr_ok th -> bigR th r -> okPoly th true (rectPts r).
Proof.
  intros Ht G e I. destruct (pair_sidesOf r e I) as (s & J & E). pose proof (thr_angl th Ht) as TA.
  destruct (P_Rect2.side_line th r s (mkL 1 0 0) Ht G) as (Os & Ds & _); auto; [unfold unitL; cbn; ring| |].
  { unfold axisClear. cbn [la lb]. split; [right; rewrite Rabs_R0, acos_0; lra|now left]. }
  destruct E as [[A B]|[A B]]; unfold okSeg in *; cbn [sA sB]; rewrite A, B in *; auto. split; [now rewrite edist_sym|now apply dirOK_sym].
Qed.
Lemma corner_pair r c c' : isCorner r c -> isCorner r c' -> c <> c' -> (px c = px c' \/ py c = py c') ->
  exists e, In e (sides true (rectPts r)) /\ ((c = fst e /\ c' = snd e) \/ (c = snd e /\ c' = fst e)).
Proof.
  rewrite rectSides. destruct r as [[a b] [u v]], c as [x y], c' as [x' y']. unfold isCorner. cbn [px py r1 r2].
  intros [X Y] [X' Y'] NE S.
  assert ((x = x' /\ y = b /\ y' = v) \/ (x = x' /\ y = v /\ y' = b) \/ (y = y' /\ x = a /\ x' = u) \/ (y = y' /\ x = u /\ x' = a)) as Q.
  { destruct S as [<-|<-].
    - destruct Y as [->| ->], Y' as [->| ->]; try (exfalso; apply NE; reflexivity); tauto.
    - destruct X as [->| ->], X' as [->| ->]; try (exfalso; apply NE; reflexivity); tauto. }
  destruct Q as [(<- & -> & ->)|[(<- & -> & ->)|[(<- & -> & ->)|(<- & -> & ->)]]].
  - destruct X as [->| ->]; eexists; (split; [cbn [In]|]); [left; reflexivity|left; auto|right; right; left; reflexivity|right; auto].
  - destruct X as [->| ->]; eexists; (split; [cbn [In]|]); [left; reflexivity|right; auto|right; right; left; reflexivity|left; auto].
  - destruct Y as [->| ->]; eexists; (split; [cbn [In]|]); [right; right; right; left; reflexivity|right; auto|right; left; reflexivity|left; auto].
  - destruct Y as [->| ->]; eexists; (split; [cbn [In]|]); [right; right; right; left; reflexivity|left; auto|right; left; reflexivity|right; auto].
Qed.
Lemma corner_some r c : isCorner r c -> exists e, In e (sides true (rectPts r)) /\ c = fst e.
Proof.
  rewrite rectSides. destruct r as [[a b] [u v]], c as [x y]. unfold isCorner. cbn [px py r1 r2]. intros [[->| ->] [->| ->]]; eexists; (split; [cbn [In]|]).
  - left; reflexivity.
  - reflexivity.
  - right; left; reflexivity.
  - reflexivity.
  - right; right; right; left; reflexivity.
  - reflexivity.
  - right; right; left; reflexivity.
  - reflexivity.
Qed.

(** ** The line of a segment in general position *)
Lemma genPosR_line th r s l : thr_ok th -> okSeg th s -> dirOK th (sA s) (sB s) -> genPosR th r (sA s) (sB s) -> svLine th s = Ok l ->
  unitL l /\ cornerClear th r l /\ noSide r l.
Proof.
  intros Ht Os Ds G E. destruct (lineOf_proper th _ _ _ Ht E) as [U _]. split; auto.
  assert (endsAre s (sA s, sB s)) as EE by (left; auto).
  destruct (line_of_pair th s (sA s, sB s) l Ht EE) as (k & Hk & _ & _ & Hl); auto. cbn [fst snd] in *.
  assert (Pe : 0 < edist (sA s) (sB s)) by (pose proof (thr_dist th Ht); unfold okSeg in Os; destruct Os; lra).
  assert (k <> 0) as K0 by (intros ->; rewrite Rabs_R0, Rmult_0_l in Hk; lra).
  assert (ON : forall p, onL l p <-> cross3 (sA s) (sB s) p = 0).
  { intros p. specialize (Hl p). unfold lineAt in Hl. unfold onL. rewrite Hl. split; intros Q; [apply Rmult_integral in Q; tauto|rewrite Q; ring]. }
  split.
  - intros c C. destruct (corner_some r c C) as (e & I & ->). destruct (G e I) as (_ & B & _). destruct (B (fst e)) as [Q|Q]; auto; cbn [fst snd] in Q.
    + left. now apply ON.
    + right. specialize (Hl (fst e)). unfold lineAt in Hl. rewrite Hl, Rabs_mult. 
      apply Rle_trans with (Rabs k * (nullDistance th * edist (sA s) (sB s))); [right; rewrite (Rmult_comm (nullDistance th)), <- Rmult_assoc, Hk; ring|].
      apply Rmult_le_compat_l; [apply Rabs_pos|exact Q].
  - intros c c' C C' Oc Oc' NE.
    assert (~ (px c = px c' \/ py c = py c')) as X; [|tauto]. intros S. destruct (corner_pair r c c' C C' NE S) as (e & I & Q).
    destruct (G e I) as (_ & _ & _ & N & _). cbn [fst snd] in N. apply N. apply ON in Oc, Oc'. destruct Q as [[<- <-]|[<- <-]]; auto.
Qed.

(** Two common points of the line and the border are nullDistance apart. *)
Lemma legs a b e : (px a - px e) * (px b - px e) + (py a - py e) * (py b - py e) = 0 -> edist a e <= edist a b.
Proof.
  intros H. unfold edist. apply sqrt_le_1_alt.
  pose proof (Rle_0_sqr (px b - px e)) as X. pose proof (Rle_0_sqr (py b - py e)) as Y. unfold Rsqr in *. nra.
Qed.
Lemma border_apart th r l a b : thr_ok th -> bigR th r -> unitL l -> cornerClear th r l -> noSide r l ->
  onL l a -> onL l b -> onBorder r a -> onBorder r b -> edist a b < nullDistance th -> a = b.
Proof.
  intros Ht G U C N Oa Ob Ba Bb D. assert (wfR r) as W by (pose proof (thr_dist th Ht); destruct G as [[] _]; split; lra).
  destruct G as [[G1 G2] _]. pose proof (edist_ge_x a b) as DX. pose proof (edist_ge_y a b) as DY.
  assert (Rabs (px a - px b) < nullDistance th) as DX' by lra. assert (Rabs (py a - py b) < nullDistance th) as DY' by lra. clear DX DY. apply Rabs_def2 in DX', DY'.
  assert (K : forall p q, onL l p -> onL l q -> (px p = px (r1 r) \/ px p = px (r2 r)) -> (py q = py (r1 r) \/ py q = py (r2 r)) -> edist p q < nullDistance th -> p = q).
  { intros p q Op Oq Xp Yq Dpq. set (e := mkPt (px p) (py q)). assert (isCorner r e) as Ce by (split; auto).
    assert (edist p e <= edist p q) as Le by (apply legs; unfold e; cbn [px py]; ring).
    assert (onL l e) as Oe.
    { destruct (C e Ce) as [|F]; auto. exfalso. pose proof (lineDist_lower l e p (unit_proper _ U) Op) as LD. rewrite lineDist_unit, edist_sym in LD by auto. lra. }
    transitivity e; [apply (noSide_v r l); auto|apply (noSide_h r l); auto]. }
  destruct Ba as [[A1 A2] A3], Bb as [[B1 B2] B3].
  assert (VA : (px a = px (r1 r) \/ px a = px (r2 r)) \/ (py a = py (r1 r) \/ py a = py (r2 r))) by tauto.
  assert (VB : (px b = px (r1 r) \/ px b = px (r2 r)) \/ (py b = py (r1 r) \/ py b = py (r2 r))) by tauto.
  destruct VA as [VA|VA], VB as [VB|VB].
  - apply (noSide_v r l); auto. destruct VA as [VA|VA], VB as [VB|VB]; lra.
  - apply K; auto.
  - symmetry. apply K; auto. now rewrite edist_sym.
  - apply (noSide_h r l); auto. destruct VA as [VA|VA], VB as [VB|VB]; lra.
Qed.

Theorem frInterSeg_exact th r s : thr_ok th -> bigR th r -> okSeg th s -> dirOK th (sA s) (sB s) -> genPosR th r (sA s) (sB s) ->
  exists out, frInterSeg th r s = Ok out /\ NoDup out /\ (length out <= 2)%nat /\ forall q, In q out <-> segHas s q /\ onBorder r q.
Proof.
  intros Ht G Os Ds GP. pose proof (thr_dist th Ht) as T0. assert (wfR r) as W by (destruct G as [[] _]; split; lra).
  destruct (svLine_ok th s Ht Os) as (l & E). destruct (genPosR_line th r s l Ht Os Ds GP E) as (U & C & N).
  unfold frInterSeg. rewrite frSegs_eq by (destruct G as [[] _]; auto). cbn [bind].
  set (P := fun x q => segHas s q /\ segHas x q).
  assert (HB : forall q, (exists x, In x (sidesOf r) /\ P x q) <-> segHas s q /\ onBorder r q).
  { intros q. split.
    - intros (x & I & O & H). split; auto. eapply side_has; eauto.
    - intros [O B]. destruct (border_side r q W B) as (x & I & H). exists x. split; auto. split; auto. }
  assert (HL : forall q, segHas s q -> onL l q) by (intros q; apply (seg_on_line th s); auto).
  destruct (segLoop th s (sidesOf r) P Ht) with (rest := sidesOf r) (fin := @nil (seg R)) (out := @nil (pt R)) as (out & Eo & ND & L & H).
  - intros x I. destruct (sidesOf_pair r x I) as (e & J & EE). destruct (rect_okPoly th r Ht G e J) as [Oe De].
    destruct (side_side th x s e (sA s, sB s) Ht EE) as (it & Ei & Hi); auto.
    + left; auto.
    + exists it. split; auto. intros q. rewrite Hi. unfold P. rewrite (ends_has x e) by auto. unfold segHas. cbn [fst snd]. tauto.
  - intros a b q Ha Hb Hq. apply HB in Ha, Hb, Hq. apply (border_two r l); try (apply HL); try tauto. apply unit_proper, U.
  - intros a b Ha Hb. apply HB in Ha, Hb. apply (border_apart th r l); try (apply HL); tauto.
  - reflexivity.
  - cbn; lia.
  - cbn. intros q. split; [tauto|intros (x & [] & _)].
  - exists out. repeat split; auto; try (apply HB, H; auto); intros; try (apply H, HB; tauto).
Qed.

(** ** The order of the end points *)
Lemma genPos_swap th e f : genPos th e f -> genPos th e (snd f, fst f).
Proof.
  intros (A & B & C & D & E). assert (S : forall p, cross3 (snd f) (fst f) p = - cross3 (fst f) (snd f) p) by (intros p; unfold cross3; ring).
  unfold genPos. cbn [fst snd]. split; [|split; [|split; [|split]]].
  - destruct A as [A|A]; [left; unfold S_Inter.sameDir in *; cbn [fst snd]; lra|right]. unfold transversal in *. cbn [fst snd].
    rewrite (edist_sym (snd f)). eapply Rle_trans; [exact A|right]. f_equal. f_equal. 
    match goal with |- Rabs ?a = Rabs ?b => replace a with (- b) by ring; apply Rabs_Ropp end.
  - intros p P. unfold onOrOff. rewrite S, Rabs_Ropp, edist_sym. destruct (B p P) as [Q|Q]; [left; lra|right; exact Q].
  - intros p P. apply C. tauto.
  - rewrite !S. intros [X Y]. apply D. lra.
  - tauto.
Qed.
Lemma genPosR_sd th r e : genPosR th r (fst e) (snd e) -> genPosR th r (sA (sd e)) (sB (sd e)).
Proof.
  intros G. destruct (sd_ends0 e) as [[-> ->]|[-> ->]]; auto. intros f I. apply (genPos_swap th f (fst e, snd e)). now apply G.
Qed.
Theorem plInterRect_exact th closed pts r : thr_ok th -> bigR th r -> okPoly th closed pts ->
  (forall e, In e (sides closed pts) -> genPosR th r (fst e) (snd e)) ->
  exists out, plInterRect th closed pts r = Ok out /\ forall q, In q out <-> onPoly closed pts q /\ onBorder r q.
Proof.
  intros Ht G O GP. set (P := fun (e : pt R * pt R) q => onSeg (fst e) (snd e) q /\ onBorder r q).
  destruct (plInter_each th closed pts (fun x => bind (frInterSeg th r x) (fun v => Ok (interGet v))) (fun e o => forall q, In q o <-> P e q)) as (v & E & F); auto using ok_wide.
  - intros e I. destruct (O e I) as [O1 D]. destruct (frInterSeg_exact th r (sd e)) as (o & Eo & _ & _ & H); auto using genPosR_sd, sd_ok, sd_dirOK.
    rewrite Eo. cbn [bind]. eexists. split; [reflexivity|]. intros q. rewrite interGet_in, H, sd_has. reflexivity.
  - exists (concat v). split; [exact E|]. intros q. rewrite (concat_in P (sides closed pts)).
    + unfold P, onPoly. split; [intros (e & I & A & B); eauto|intros [(e & I & A) B]; eauto].
    + exact F.
Qed.

(** ** Two rectangles *)
Lemma interLoop th (o : frect R) (P : seg R -> pt R -> Prop) segs acc :
  (forall s, In s segs -> exists v, frInterSeg th o s = Ok v /\ (length v <= 2)%nat /\ forall q, In q v <-> P s q) -> incrL acc ->
  exists out, frInterLoop th segs o acc = Ok out /\ incrL out /\ forall q, In q out <-> In q acc \/ exists s, In s segs /\ P s q.
Proof.
  revert acc. induction segs as [|s segs IH]; intros acc H Ha.
  - exists acc. cbn. split; auto. split; auto. intros q. split; auto. intros [|(s & [] & _)]; auto.
  - cbn [frInterLoop]. destruct (H s (or_introl eq_refl)) as (v & E & Lv & Hv). rewrite E. cbn [bind].
    rewrite firstn_all2 by exact Lv.
    destruct (IH (fold_left (fun a p => setInsert p a) v acc)) as (out & Eo & Io & Ho); [intros; apply H; now right|now apply fold_incr|].
    exists out. split; auto. split; auto. intros q. rewrite Ho, fold_insert_in, Hv. split.
    + intros [[A|A]|(s' & I & A)]; auto; right; eexists; (split; [|exact A]); cbn; auto.
    + intros [A|(s' & [<-|I] & A)]; auto. right. eauto.
Qed.
Lemma apart_ne th a b : 0 < nullDistance th -> nullDistance th <= Rabs (a - b) -> a <> b.
Proof. intros T A ->. replace (b - b) with 0 in A by ring. rewrite Rabs_R0 in A. lra. Qed.
(** A pair of points on a vertical or horizontal line. *)
Lemma genPos_vv th a b c x y z : thr_ok th -> 0 < nullDistance th -> b <> c -> y <> z -> nullDistance th <= Rabs (a - x) ->
  genPos th (mkPt a b, mkPt a c) (mkPt x y, mkPt x z).
Proof.
  intros Ht T N N' A. pose proof (apart_ne th a x T A) as NE. unfold genPos, S_Inter.sameDir, onOrOff, cross3. cbn [fst snd px py].
  assert (K : forall u v s t w, edist (mkPt u v) (mkPt u s) = Rabs (v - s) /\ nullDistance th <= Rabs (t - u) -> (u - u) * (w - v) - (s - v) * (t - u) = 0 \/ nullDistance th * edist (mkPt u v) (mkPt u s) <= Rabs ((u - u) * (w - v) - (s - v) * (t - u))).
  { intros u v s t w [-> Q]. right. replace ((u - u) * (w - v) - (s - v) * (t - u)) with ((v - s) * (t - u)) by ring. rewrite Rabs_mult, Rmult_comm. apply Rmult_le_compat_l; [apply Rabs_pos|exact Q]. }
  split; [left; ring|]. split; [|split; [|split]].
  - intros p [->| ->]; cbn [px py]; apply K; split; auto using edist_v.
  - intros p [->| ->]; cbn [px py]; apply K; (split; [auto using edist_v|now rewrite Rabs_minus_sym]).
  - intros [X _]. ring_simplify in X. apply NE. assert ((z - y) * (a - x) = 0) as Q by lra. apply Rmult_integral in Q. destruct Q; lra.
  - intros [X _]. apply NE. assert ((c - b) * (x - a) = 0) as Q by lra. apply Rmult_integral in Q. destruct Q; lra.
Qed.
Lemma genPos_hh th a b c x y z : thr_ok th -> 0 < nullDistance th -> b <> c -> y <> z -> nullDistance th <= Rabs (a - x) ->
  genPos th (mkPt b a, mkPt c a) (mkPt y x, mkPt z x).
Proof.
  intros Ht T N N' A. pose proof (apart_ne th a x T A) as NE. unfold genPos, S_Inter.sameDir, onOrOff, cross3. cbn [fst snd px py].
  assert (K : forall u v s t w, edist (mkPt v u) (mkPt s u) = Rabs (v - s) /\ nullDistance th <= Rabs (t - u) -> (s - v) * (t - u) - (u - u) * (w - v) = 0 \/ nullDistance th * edist (mkPt v u) (mkPt s u) <= Rabs ((s - v) * (t - u) - (u - u) * (w - v))).
  { intros u v s t w [-> Q]. right. replace ((s - v) * (t - u) - (u - u) * (w - v)) with ((s - v) * (t - u)) by ring. rewrite Rabs_mult, Rmult_comm, (Rabs_minus_sym s). apply Rmult_le_compat_l; [apply Rabs_pos|exact Q]. }
  split; [left; ring|]. split; [|split; [|split]].
  - intros p [->| ->]; cbn [px py]; apply K; split; auto using edist_h.
  - intros p [->| ->]; cbn [px py]; apply K; (split; [auto using edist_h|now rewrite Rabs_minus_sym]).
  - intros [X _]. apply NE. assert ((z - y) * (a - x) = 0) as Q by lra. apply Rmult_integral in Q. destruct Q; lra.
  - intros [X _]. apply NE. assert ((c - b) * (x - a) = 0) as Q by lra. apply Rmult_integral in Q. destruct Q; lra.
Qed.
Lemma genPos_vh th a b c x y z : thr_ok th -> 0 < nullDistance th -> b <> c -> x <> z ->
  nullDistance th <= Rabs (b - y) -> nullDistance th <= Rabs (c - y) -> nullDistance th <= Rabs (a - x) -> nullDistance th <= Rabs (a - z) ->
  genPos th (mkPt a b, mkPt a c) (mkPt x y, mkPt z y).
Proof.
  intros Ht T N N' B1 B2 A1 A2. pose proof (apart_ne th _ _ T B1) as NB. pose proof (apart_ne th _ _ T A1) as NA. pose proof (thr_angl th Ht) as TA.
  unfold genPos, transversal, onOrOff, cross3. cbn [fst snd px py].
  split; [|split; [|split; [|split]]].
  - right. replace ((a - a) * (z - x) + (c - b) * (y - y)) with 0 by ring. rewrite Rabs_R0. unfold Rdiv. rewrite Rmult_0_l, acos_0. lra.
  - intros p [->| ->]; cbn [px py]; right; rewrite edist_h, (Rabs_minus_sym x).
    + replace ((z - x) * (b - y) - (y - y) * (a - x)) with ((z - x) * (b - y)) by ring. rewrite Rabs_mult, Rmult_comm. apply Rmult_le_compat_l; [apply Rabs_pos|exact B1].
    + replace ((z - x) * (c - y) - (y - y) * (a - x)) with ((z - x) * (c - y)) by ring. rewrite Rabs_mult, Rmult_comm. apply Rmult_le_compat_l; [apply Rabs_pos|exact B2].
  - intros p [->| ->]; cbn [px py]; right; rewrite edist_v.
    + replace ((a - a) * (y - b) - (c - b) * (x - a)) with ((b - c) * (x - a)) by ring. rewrite Rabs_mult, Rmult_comm, (Rabs_minus_sym x). apply Rmult_le_compat_l; [apply Rabs_pos|exact A1].
    + replace ((a - a) * (y - b) - (c - b) * (z - a)) with ((b - c) * (z - a)) by ring. rewrite Rabs_mult, Rmult_comm, (Rabs_minus_sym z). apply Rmult_le_compat_l; [apply Rabs_pos|exact A2].
  - intros [X _]. apply NB. assert ((z - x) * (b - y) = 0) as Q by lra. apply Rmult_integral in Q. destruct Q; lra.
  - intros [X _]. apply NA. assert ((c - b) * (x - a) = 0) as Q by lra. apply Rmult_integral in Q. destruct Q; lra.
Qed.
(** The sides of a rectangle as pairs of coordinates. *)
Lemma rectSides_inv r e : In e (sides true (rectPts r)) ->
  (exists x y y', In x [px (r1 r); px (r2 r)] /\ ((y = py (r1 r) /\ y' = py (r2 r)) \/ (y = py (r2 r) /\ y' = py (r1 r))) /\ e = (mkPt x y, mkPt x y')) \/
  (exists y x x', In y [py (r1 r); py (r2 r)] /\ ((x = px (r1 r) /\ x' = px (r2 r)) \/ (x = px (r2 r) /\ x' = px (r1 r))) /\ e = (mkPt x y, mkPt x' y)).
Proof.
  rewrite rectSides. destruct r as [[a b] [c d]]. cbn [r1 r2 px py In]. intros [<-|[<-|[<-|[<-|[]]]]]; [left|right|left|right]; do 3 eexists; (split; [|split; [|reflexivity]]); auto.
Qed.
Lemma apart_genPos th r o e f : thr_ok th -> wfR r -> wfR o -> apartR (nullDistance th) r o ->
  In e (sides true (rectPts r)) -> In f (sides true (rectPts o)) -> genPos th e f.
Proof.
  intros Ht [Wr Wr'] [Wo Wo'] [AX AY] I J. pose proof (thr_dist th Ht) as T.
  apply rectSides_inv in I, J. destruct I as [(a & b & c & Ia & Ib & ->)|(a & b & c & Ia & Ib & ->)], J as [(x & y & z & Jx & Jy & ->)|(x & y & z & Jx & Jy & ->)].
  - apply genPos_vv; auto; destruct Ib as [[-> ->]|[-> ->]], Jy as [[-> ->]|[-> ->]]; lra.
  - apply genPos_vh; auto; destruct Ib as [[-> ->]|[-> ->]], Jy as [[-> ->]|[-> ->]]; try lra; try (apply AX; cbn; auto; fail); apply AY; cbn; auto.
  - apply genPos_sym. apply genPos_vh; auto; destruct Ib as [[-> ->]|[-> ->]], Jy as [[-> ->]|[-> ->]]; try lra; rewrite Rabs_minus_sym; try (apply AX; cbn; auto; fail); apply AY; cbn; auto.
  - apply genPos_hh; auto; destruct Ib as [[-> ->]|[-> ->]], Jy as [[-> ->]|[-> ->]]; lra.
Qed.
Theorem frInterRect_exact th r o : thr_ok th -> bigR th r -> bigR th o -> apartR (nullDistance th) r o ->
  exists out, frInterRect th r o = Ok out /\ incrL out /\ forall q, In q out <-> onBorder r q /\ onBorder o q.
Proof.
  intros Ht Gr Go A. pose proof (thr_dist th Ht) as T0. assert (wfR r) as Wr by (destruct Gr as [[] _]; split; lra). assert (wfR o) as Wo by (destruct Go as [[] _]; split; lra).
  unfold frInterRect. assert (frEq th r o = false) as ->.
  { unfold frEq. destruct (ptEq th (r1 r) (r1 o)) eqn:Q; [exfalso|reflexivity]. apply ptEq_spec in Q. pose proof (edist_ge_x (r1 r) (r1 o)) as X.
    destruct A as [AX _]. specialize (AX (px (r1 r)) (px (r1 o)) (or_introl eq_refl) (or_introl eq_refl)). lra. }
  rewrite frSegs_eq by (destruct Gr as [[] _]; auto). cbn [bind].
  destruct (interLoop th o (fun s q => segHas s q /\ onBorder o q) (sidesOf r) []) as (out & E & Io & Ho).
  - intros s I. destruct (sidesOf_pair r s I) as (e & J & EE). destruct (rect_okPoly th r Ht Gr e J) as [Oe De].
    destruct (frInterSeg_exact th o s Ht Go (ends_ok th s e EE Oe) (ends_dirOK th s e EE De)) as (v & Ev & _ & Lv & Hv); [|eauto].
    intros f K. destruct EE as [[-> ->]|[-> ->]].
    + destruct e as [e1 e2]. cbn [fst snd]. apply genPos_sym. apply (apart_genPos th r o); auto.
    + apply (genPos_swap th f e). apply genPos_sym. apply (apart_genPos th r o); auto.
  - exact Logic.I.
  - exists out. split; auto. split; auto. intros q. rewrite Ho. split.
    + intros [[]|(s & I & H & H')]. split; auto. eapply side_has; eauto.
    + intros [H B]. right. destruct (border_side r q Wr H) as (s & I & H'). eauto.
Qed.
