(** * C137: circle inside a polygon *)

From Coq Require Import Reals Lra Psatz List Bool Arith Lia.
From Verif Require Import Num M_LP M_Seg M_Circle M_Poly M_FRect M_Pip S_Geom S_Seg S_Circle S_Poly S_FRect S_Pip P_LP P_LP2 P_LP4 P_Seg P_Seg2 P_Circle P_Circle3 P_Poly P_Poly4 P_Poly5 P_Poly7 P_Pip P_Pip2 P_Pip3 C_Pip.
Import ListNotations.
Local Open Scope R_scope.

(** A segment with one end inside the circle (or on it) and the other one outside crosses the circle. *)
Lemma crosses_circle c a b : edist (cc c) a <= cr c -> cr c <= edist (cc c) b -> exists q, onSeg a b q /\ onEdge c q.
Proof.
  intros A B. assert (0 <= cr c) as R0 by (pose proof (edist_pos (cc c) a); lra).
  set (f := fun t => (px (cc c) - (px a + t * (px b - px a))) * (px (cc c) - (px a + t * (px b - px a))) + (py (cc c) - (py a + t * (py b - py a))) * (py (cc c) - (py a + t * (py b - py a))) - cr c * cr c).
  assert (E : forall t, f t = edist (cc c) (along a b t) * edist (cc c) (along a b t) - cr c * cr c) by (intros t; rewrite edist_sq; reflexivity).
  assert (CF : continuity f) by (unfold f; reg).
  assert (F0 : f 0 <= 0) by (rewrite E, along_0; pose proof (edist_pos (cc c) a); nra).
  assert (F1 : 0 <= f 1) by (rewrite E, along_1; pose proof (edist_pos (cc c) b); nra).
  destruct (IVT_cor f 0 1 CF) as (t & T & Z); [lra|nra|].
  exists (along a b t). split; [apply onSeg_along; eauto|]. unfold onEdge. apply edist_val; auto. rewrite E in Z. rewrite <- edist_sq. lra.
Qed.
Lemma pt_dec (p q : pt R) : p = q \/ p <> q.
Proof. destruct (Req_dec (px p) (px q)), (Req_dec (py p) (py q)); [left; now apply pt_eq|right..]; congruence. Qed.
(** No side meets the circle and the first vertex is not inside it: no side meets the disc. *)
Lemma disc_free pts c : (forall e q, In e (cyc pts) -> onSeg (fst e) (snd e) q -> ~ onEdge c q) -> pts <> [] -> cr c <= edist (cc c) (hd pt00 pts) ->
  forall e q, In e (cyc pts) -> onSeg (fst e) (snd e) q -> cr c < edist (cc c) q.
Proof.
  intros NE NP H0. destruct pts as [|a r]; [congruence|]. cbn [hd] in H0. set (g := fun v => if Rle_dec (edist (cc c) v) (cr c) then true else false).
  assert (A0 : cr c < edist (cc c) a).
  { destruct (Rlt_dec (cr c) (edist (cc c) a)); auto. exfalso. destruct (cyc_fst_in (a :: r) a) as (w & W); [now left|]. apply (NE (a, w) a W); [|unfold onEdge; lra].
    cbn [fst snd]. apply onSeg_along. exists 0. split; [lra|now rewrite along_0]. }
  assert (GA : forall v, In v (a :: r) -> cr c <= edist (cc c) v).
  { intros v I. destruct (Rle_dec (cr c) (edist (cc c) v)) as [|N]; auto. exfalso.
    destruct (cyc_change g (a :: r) v a I) as (e & Ie & D); [now left|unfold g; destruct (Rle_dec (edist (cc c) v) (cr c)); auto; lra|unfold g; destruct (Rle_dec (edist (cc c) a) (cr c)); auto; lra|].
    unfold g in D. destruct (Rle_dec (edist (cc c) (fst e)) (cr c)) as [P|P], (Rle_dec (edist (cc c) (snd e)) (cr c)) as [Q|Q]; try congruence.
    - destruct (crosses_circle c (fst e) (snd e) P ltac:(lra)) as (q & O & E). exact (NE e q Ie O E).
    - destruct (crosses_circle c (snd e) (fst e) Q ltac:(lra)) as (q & O & E). apply (NE e q Ie); auto. now apply onSeg_sym. }
  intros e q I O. destruct (cyc_in _ _ I) as [_ I2]. destruct (Rlt_dec (cr c) (edist (cc c) q)); auto. exfalso.
  destruct (crosses_circle c q (snd e)) as (q' & O' & E'); [lra|now apply GA|]. apply (NE e q' I); auto.
  apply onSeg_along in O. destruct O as (t & T & ->). apply onSeg_along in O'. destruct O' as (u & U & ->). apply onSeg_along. exists (t + u * (1 - t)). split; [nra|].
  unfold along; cbn [px py]; f_equal; ring.
Qed.

(** ** C137: the answer is true exactly when the whole disc is inside, clear of the sides *)
Theorem C137_exact : forall th pts x1 y1 x2 y2 c b, thr_ok th -> okSides th pts -> isBox pts (mkR (mkPt x1 y1) (mkPt x2 y2)) ->
  nullDistance th <= x2 - x1 -> nullDistance th <= y2 - y1 -> dblEpsilon th < x2 - x1 -> val (plIsSimple th true (plFresh pts)) = Ok true ->
  seen th pts x1 y1 x2 y2 (cc c) -> 0 <= cr c -> (forall v, In v pts -> far th c v) ->
  cInPoly th true c (plFresh pts) = Ok b ->
  (b = true <-> forall x, edist (cc c) x <= cr c -> insideEO pts x /\ offSides pts x).
Proof.
  intros th pts x1 y1 x2 y2 c b Ht Os B W H We Sm [CA DA] Rc FA E. pose proof (thr_dist th Ht) as TD.
  destruct (fresh_simple _ _ Sm) as (pl & Es). pose proof (simple_len _ _ _ Es) as L3.
  destruct (clear_off th pts (cc c) Ht (okSides_wide _ _ Os) CA) as [NN Of].
  assert (NP : pts <> []) by (intros ->; cbn in L3; lia).
  unfold cInPoly in E. rewrite Es in E. cbn [bind negb plFresh plPts] in E.
  assert (HD : nth 0 pts pt00 = hd pt00 pts) by (now destruct pts). rewrite HD in E.
  assert (HI : In (hd pt00 pts) pts) by (destruct pts; [congruence|now left]).
  assert (V0 : forall v, In v pts -> exists e, In e (cyc pts) /\ onSeg (fst e) (snd e) v).
  { intros v I. destruct (cyc_fst_in pts v I) as (w & Iw). exists (v, w). split; auto. cbn [fst snd]. apply onSeg_along. exists 0. split; [lra|now rewrite along_0]. }
  destruct (ptInCircle (hd pt00 pts) c) eqn:EP.
  { apply ptInCircle_spec in EP. apply Ok_inj in E. subst b. split; [discriminate|]. intros K. exfalso.
    destruct (K (hd pt00 pts)) as [_ O]; [unfold inOpen in EP; lra|]. destruct (V0 _ HI) as (e & I & S). exact (O e I S). }
  assert (H0 : cr c <= edist (cc c) (hd pt00 pts)) by (apply Rnot_lt_le; intros C; apply ptInCircle_spec in C; congruence). clear EP.
  apply bind_ok in E. destruct E as (bc & Ec & E).
  pose proof (C105_even_odd th pts x1 y1 x2 y2 (cc c) bc Ht Os B W H We Sm CA DA Ec) as IC.
  destruct bc; cbn [negb] in E.
  2: { apply Ok_inj in E. subst b. split; [discriminate|]. intros K. exfalso. destruct (K (cc c)) as [I _]; [rewrite edist_refl; lra|]. apply IC in I. discriminate. }
  rewrite (sd_map th pts) in E by (try lia; now apply okSides_wide). cbn [bind] in E.
  assert (SX : forall e, In e (cyc pts) -> exists v, segCircle th (sd e) c = Ok v /\ forall q, In q v <-> onSeg (fst e) (snd e) q /\ onEdge c q).
  { intros e I. destruct (Os e I) as [Oe De]. destruct (cyc_in _ _ I) as [I1 I2]. pose proof (sideOf_sd e) as SD.
    destruct (segCircle_ok th (sd e) c Ht (sideOf_ok th _ _ SD Oe)) as (v & Ev). exists v. split; auto. intros q.
    rewrite (segCircle_exact th (sd e) c v q Ht (sideOf_ok th _ _ SD Oe) (sideOf_dir th _ _ SD De) Rc); auto.
    - rewrite (sideOf_has _ _ _ SD). tauto.
    - destruct SD as [-> | ->]; cbn [sA sB]; auto.
    - destruct SD as [-> | ->]; cbn [sA sB]; auto. }
  set (g := fun e => match segCircle th (sd e) c with Ok v => negb (length v =? 0)%nat | _ => false end).
  rewrite (countM_map _ sd g) in E.
  2: { intros e I. destruct (SX e I) as (v & Ev & _). unfold g. rewrite Ev. reflexivity. }
  cbn [bind] in E. apply Ok_inj in E. subst b. rewrite Nat.eqb_eq. split.
  - intros Z. assert (NE : forall e q, In e (cyc pts) -> onSeg (fst e) (snd e) q -> ~ onEdge c q).
    { intros e q I O Q. destruct (SX e I) as (v & Ev & Iv). assert (In q v) as IQ by (apply Iv; auto).
      assert (In e (filter g (cyc pts))) as IF by (apply filter_In; split; auto; unfold g; rewrite Ev; destruct v; [destruct IQ|reflexivity]).
      destruct (filter g (cyc pts)); [destruct IF|discriminate]. }
    pose proof (disc_free pts c NE NP H0) as DF.
    intros x Hx. assert (OX : offSides pts x) by (intros e I O; specialize (DF e x I O); lra). split; auto.
    destruct (pt_dec (cc c) x) as [<-|NX]; [now apply IC|].
    apply (C104_connected pts (cc c) x NN Of OX NX); [| |now apply IC].
    + intros e I (q & Q1 & Q2). specialize (DF e q I Q1). apply onSeg_along in Q2. destruct Q2 as (t & T & ->). rewrite edist_along in DF. rewrite Rabs_right in DF by lra. pose proof (edist_pos (cc c) x). nra.
    + intros v I O. destruct (V0 v I) as (e & Ie & Se). specialize (DF e v Ie Se). apply onSeg_along in O. destruct O as (t & T & ->). rewrite edist_along in DF. rewrite Rabs_right in DF by lra. pose proof (edist_pos (cc c) x). nra.
  - intros K. destruct (filter g (cyc pts)) as [|e l] eqn:EF; auto. exfalso.
    assert (In e (filter g (cyc pts))) as I by (rewrite EF; now left). apply filter_In in I. destruct I as [I G]. destruct (SX e I) as (v & Ev & Iv). unfold g in G. rewrite Ev in G.
    destruct v as [|q v]; [discriminate|]. destruct (proj1 (Iv q) ltac:(now left)) as [O Q]. destruct (K q) as [_ X]; [rewrite Q; lra|]. exact (X e I O).
Qed.
(** It answers whenever the point-in-polygon test of the centre does. *)
Theorem C137_answers : forall th pts c b0, thr_ok th -> okSides th pts -> val (plIsSimple th true (plFresh pts)) = Ok true ->
  ptInPolyB th true (plFresh pts) (cc c) = Ok b0 -> exists b, cInPoly th true c (plFresh pts) = Ok b.
Proof.
  intros th pts c b0 Ht Os Sm E0. destruct (fresh_simple _ _ Sm) as (pl & Es). pose proof (simple_len _ _ _ Es) as L3.
  unfold cInPoly. rewrite Es. cbn [bind negb]. destruct (ptInCircle _ c); [eauto|]. rewrite E0. cbn [bind]. destruct b0; cbn [negb]; [|eauto].
  cbn [plFresh plPts]. rewrite (sd_map th pts) by (try lia; now apply okSides_wide). cbn [bind].
  rewrite (countM_map _ sd (fun e => match segCircle th (sd e) c with Ok v => negb (length v =? 0)%nat | _ => false end)); [cbn [bind]; eauto|].
  intros e I. destruct (segCircle_ok th (sd e) c Ht (sideOf_ok th _ _ (sideOf_sd e) (proj1 (Os e I)))) as (v & ->). reflexivity.
Qed.
Definition cIn : circle R := mkC (mkPt 1 3) (1 / 2).
Example C137_ex : seen thr0 ell 0 0 4 4 (cc cIn) /\ (forall v, In v ell -> far thr0 cIn v) /\ cInPoly thr0 true cIn (plFresh ell) = Ok true.
Proof.
  pose proof thr0_small as TS. destruct C105_ex as (_ & _ & _ & CL & D & _ & E0).
  assert (F : forall v, In v ell -> far thr0 cIn v).
  { intros v I. unfold far, cIn. cbn [cc cr]. assert (1 <= edist (mkPt 1 3) v). 
    { cbn [ell In] in I. destruct I as [<-|[<-|[<-|[<-|[<-|[<-|[]]]]]]]; first [eapply Rle_trans; [|apply edist_ge_x]; cbn [px py]; absval|eapply Rle_trans; [|apply edist_ge_y]; cbn [px py]; absval]. }
    rewrite Rabs_right by lra. lra. }
  split; [split; auto|]. split; auto.
  destruct (C137_answers thr0 ell cIn true thr0_ok ell_ok ell_simple E0) as (b & E). rewrite E. f_equal.
  apply (C137_exact thr0 ell 0 0 4 4 cIn b thr0_ok ell_ok ell_box); try lra; auto using ell_simple; [split; auto|cbn; lra|].
  assert (NS : forall e x, In e (cyc ell) -> onSeg (fst e) (snd e) x -> 1 / 2 <= px x <= 3 / 2 -> 5 / 2 <= py x <= 7 / 2 -> False).
  { intros e x I O X Y. apply onSeg_along in O. destruct O as (t & T & ->). cbn [cyc ell app combine In] in I.
    destruct I as [<-|[<-|[<-|[<-|[<-|[<-|[]]]]]]]; unfold along in X, Y; cbn [fst snd px py] in X, Y; lra. }
  assert (BX : forall x, edist (cc cIn) x <= cr cIn -> (1 / 2 <= px x <= 3 / 2 /\ 5 / 2 <= py x <= 7 / 2)).
  { intros x X. pose proof (edist_ge_x (cc cIn) x) as A. pose proof (edist_ge_y (cc cIn) x) as B. cbn [cIn cc cr px py] in X, A, B. split; split_Rabs; lra. }
  intros x X. destruct (BX x X) as [Bx By]. assert (OX : offSides ell x) by (intros e I O; exact (NS e x I O Bx By)). split; auto.
  destruct C104_ex as (NN & OF & II & _). destruct (pt_dec (mkPt 1 3) x) as [<-|NX]; auto.
  assert (SB : forall q, onSeg (mkPt 1 3) x q -> 1 / 2 <= px q <= 3 / 2 /\ 5 / 2 <= py q <= 7 / 2).
  { intros q O. apply onSeg_along in O. destruct O as (t & T & ->). unfold along. cbn [px py]. nra. }
  apply (C104_connected ell (mkPt 1 3) x NN OF OX NX); auto.
  - intros e I (q & Q1 & Q2). destruct (SB q Q2). eapply NS; eauto.
  - intros v I O. destruct (SB v O) as [A B]. cbn [ell In] in I. destruct I as [<-|[<-|[<-|[<-|[<-|[<-|[]]]]]]]; cbn [px py] in A, B; lra.
Qed.
Print Assumptions C137_exact. Print Assumptions C137_answers.
