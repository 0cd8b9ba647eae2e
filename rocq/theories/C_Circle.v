(** * Properties C42, C44-C48, C70-C72: circles *)

From Coq Require Import Reals ZArith List Bool Lra Lia.
From Verif Require Import Num M_LP M_Seg M_Circle S_Geom S_Seg S_Circle P_LP P_LP2 P_LP3 P_LP4 P_LP5 P_Seg P_Seg2 P_Seg3 P_Seg4 P_Circle P_Circle2 P_Circle3 P_Circle4.
Import ListNotations.
Local Open Scope R_scope.

(** An obtuse triangle with sides 8, 5, 5, used in several examples. *)
Definition tA : pt R := mkPt (-4) 0.
Definition tB : pt R := mkPt 4 0.
Definition tC : pt R := mkPt 0 3.
Lemma tAB : edist tA tB = 8. Proof. apply edist_val; cbn [tA tB px py]; lra. Qed.
Lemma tAC : edist tA tC = 5. Proof. apply edist_val; cbn [tA tC px py]; lra. Qed.
Lemma tBC : edist tB tC = 5. Proof. apply edist_val; cbn [tB tC px py]; lra. Qed.
Lemma t_zone : zoneFreePts thr0 [tA; tB; tC].
Proof.
  intros p q Hp Hq. unfold dirOK, vertOK, thr0; cbn [nullDenom]; rnum.
  destruct Hp as [<-|[<-|[<-|[]]]]; destruct Hq as [<-|[<-|[<-|[]]]];
    try (split; left; reflexivity); try rewrite (edist_sym tB tA); try rewrite (edist_sym tC tA); try rewrite (edist_sym tC tB);
    rewrite ?tAB, ?tAC, ?tBC; cbn [tA tB tC px py]; split; try (left; reflexivity); right;
    match goal with |- _ <= Rabs ?x => first [rewrite (Rabs_right x) by lra | rewrite (Rabs_left x) by lra]; lra end.
Qed.
Lemma t_circle : exists c, cSet3 thr0 tA tB tC = Ok c.
Proof.
  assert (Hd : nullDistance (thr0 (T := R)) = 1 / 10000000000) by (unfold thr0; cbn [nullDistance]; rnum; reflexivity).
  assert (Ha : nullAngleValue (thr0 (T := R)) = 1 / 1000) by (unfold thr0; cbn [nullAngleValue]; rnum; reflexivity).
  apply cSet3_total; auto using thr0_ok, t_zone.
  - unfold thr0; cbn [nullDistance dblEpsilon]; rnum; lra.
  - rewrite Ha. lra.
  - unfold thinTriangle, maxSide. rewrite tAB, tBC, tAC, Hd. unfold cross3. cbn [tA tB tC px py].
    rewrite (Rmax_left 5 5), (Rmax_left 8 5), Rabs_right by lra. lra.
  - unfold wideAt. rewrite tAB, tAC, Ha. cbn [tA tB tC px py]. rewrite Rabs_right; lra.
  - unfold wideAt. rewrite (edist_sym tB tA), tAB, tBC, Ha. cbn [tA tB tC px py]. rewrite Rabs_right; lra.
  - unfold wideAt. rewrite (edist_sym tC tA), (edist_sym tC tB), tAC, tBC, Ha. cbn [tA tB tC px py]. rewrite Rabs_left; lra.
Qed.

(** ** C42 *)
Theorem C42_two_points : forall th p q, thr_ok th ->
  (edist p q < nullDistance th -> cSet2 th p q = Throw) /\
  (nullDistance th <= edist p q -> exists c, cSet2 th p q = Ok c /\ onEdge c p /\ onEdge c q /\ edist p q = 2 * cr c).
Proof.
  intros th p q Hth. pose proof (cSet2_spec th p q Hth) as E. destruct (Rlt_dec (edist p q) (nullDistance th)) as [L|L].
  - split; [auto|lra].
  - split; [lra|]. intros _. eexists. split; [exact E|]. destruct (cSet2_inv th p q _ Hth E) as (_ & A & B & C & _).
    split; [exact A|]. split; [exact B|]. cbn [cr]. lra.
Qed.
Theorem C42_three_points : forall th p q r c, thr_ok th -> zoneFreePts th [p; q; r] ->
  cSet3 th p q r = Ok c -> onEdge c p /\ onEdge c q /\ onEdge c r.
Proof.
  intros th p q r c Hth Z H.
  assert (Zp : forall u v, In u [p; q; r] -> In v [p; q; r] -> dirOK th u v /\ vertOK th u v) by exact Z.
  apply (cSet3_spec th p q r c Hth H); apply Zp; cbn; tauto.
Qed.
Theorem C42_exists : forall th p q r, thr_ok th -> dblEpsilon th < nullDistance th -> nullAngleValue th <= 1 ->
  zoneFreePts th [p; q; r] -> ~ thinTriangle (nullDistance th) p q r ->
  wideAt (nullAngleValue th) p q r -> wideAt (nullAngleValue th) q p r -> wideAt (nullAngleValue th) r p q ->
  exists c, cSet3 th p q r = Ok c.
Proof. exact cSet3_total. Qed.
Print Assumptions C42_two_points.
Print Assumptions C42_three_points.
Print Assumptions C42_exists.
Example C42_ex : exists c, cSet3 thr0 tA tB tC = Ok c /\ cc c = mkPt 0 (-7 / 6) /\ cr c = 25 / 6.
Proof.
  destruct t_circle as (c & E). exists c. split; [exact E|].
  destruct (C42_three_points thr0 tA tB tC c thr0_ok t_zone E) as (A & B & C). pose proof (cSet3_pos _ _ _ _ _ E) as P.
  apply onEdge_sq in A; auto. apply onEdge_sq in B; auto. apply onEdge_sq in C; auto. cbn [tA tB tC px py] in *.
  assert (X : px (cc c) = 0) by lra. rewrite X in *. assert (Y : py (cc c) = -7 / 6) by lra.
  split; [apply pt_eq; auto|]. rewrite Y in *. apply Rsqr_inj; [lra|lra|]. unfold Rsqr. lra.
Qed.

(** ** C44 *)
Theorem C44_sound : forall th c d l q, thr_ok th -> 0 <= cr c -> 0 <= cr d ->
  circleCircle th c d = Ok l -> In q l -> onEdge c q /\ onEdge d q.
Proof. exact circleCircle_sound. Qed.
Theorem C44_complete : forall th c d p, thr_ok th -> 0 <= cr c -> 0 <= cr d -> cEq th c d = false -> onEdge c p -> onEdge d p ->
  exists l q, circleCircle th c d = Ok l /\ In q l /\ (q = p \/ edist q p < nullDistance th).
Proof. exact circleCircle_complete. Qed.
Theorem C44_none : forall th c d, thr_ok th -> 0 <= cr c -> 0 <= cr d ->
  (circleCircle th c d = Ok [] <->
   cEq th c d = true \/ cr c + cr d < edist (cc c) (cc d) \/ edist (cc c) (cc d) < Rabs (cr c - cr d)).
Proof. exact circleCircle_empty. Qed.
Theorem C44_never_undefined : forall th c d, thr_ok th -> exists l, circleCircle th c d = Ok l /\ (length l <= 2)%nat.
Proof.
  intros th c d Hth. rewrite circleCircle_eval by auto. repeat match goal with |- context [if ?b then _ else _] => destruct b end;
    eexists; (split; [reflexivity|]); cbn [length]; lia.
Qed.
Theorem C44_symmetric : forall th c d p q, thr_ok th -> circleCircle th c d = Ok [p; q] -> circleCircle th d c = Ok [q; p].
Proof. exact circleCircle_sym. Qed.
Print Assumptions C44_sound.
Print Assumptions C44_complete.
Print Assumptions C44_none.
Print Assumptions C44_never_undefined.
Print Assumptions C44_symmetric.
(** Circles of radius 5 around (0,0) and (6,0): common points (3,4) and (3,-4). *)
Example C44_ex : let c := mkC (mkPt 0 0) 5 in let d := mkC (mkPt 6 0) 5 in
  onEdge c (mkPt 3 4) /\ onEdge d (mkPt 3 4) /\ circleCircle thr0 c d = Ok [mkPt 3 4; mkPt 3 (-4)].
Proof.
  cbv zeta. assert (D : interD (mkC (mkPt 0 0) 5) (mkC (mkPt 6 0) 5) = 6) by (apply edist_val; cbn [cc px py]; lra).
  assert (A : interA (mkC (mkPt 0 0) 5) (mkC (mkPt 6 0) 5) = 3) by (unfold interA; rewrite D; cbn [cr]; field).
  assert (Hh : interH (mkC (mkPt 0 0) 5) (mkC (mkPt 6 0) 5) = 4).
  { unfold interH. rewrite A. cbn [cr]. replace (5 * 5 - 3 * 3) with (4 * 4) by ring. apply sqrt_square. lra. }
  split; [apply edist_val; cbn [cc cr px py]; lra|]. split; [apply edist_val; cbn [cc cr px py]; lra|].
  rewrite circleCircle_eval by apply thr0_ok.
  assert (E : cEq thr0 (mkC (mkPt 0 0) 5) (mkC (mkPt 6 0) 5) = false).
  { unfold cEq. cbn [cc cr]. rnum. unfold Reqb. destruct (Req_EM_T 5 5); [|lra]. cbn [negb].
    rewrite (proj2 (ptEq_false thr0 _ _)); [reflexivity|]. change (edist (mkPt 0 0) (mkPt 6 0)) with (interD (mkC (mkPt 0 0) 5) (mkC (mkPt 6 0) 5)).
    rewrite D. unfold thr0; cbn [nullDistance]; rnum; lra. }
  rewrite E, D. cbn [cr]. destruct (Rlt_dec _ _); [lra|]. destruct (Rlt_dec _ _); [lra|].
  unfold interP. rewrite D, A, Hh. cbn [cc px py].
  replace (mkPt ((6 - 0) * 3 / 6 + 0 + 1 * ((0 - 0) * 4 / 6)) ((0 - 0) * 3 / 6 + 0 - 1 * ((0 - 6) * 4 / 6))) with (mkPt 3 4) by (f_equal; field).
  replace (mkPt ((6 - 0) * 3 / 6 + 0 + -1 * ((0 - 0) * 4 / 6)) ((0 - 0) * 3 / 6 + 0 - -1 * ((0 - 6) * 4 / 6))) with (mkPt 3 (-4)) by (f_equal; field).
  rewrite (proj2 (ptEq_false thr0 _ _)); [reflexivity|].
  rewrite (edist_val _ _ 8); [unfold thr0; cbn [nullDistance]; rnum; lra|lra|cbn [px py]; lra].
Qed.

(** ** C45 *)
(** Full statement: [forall th s c out q, ... segCircle th s c = Ok out -> segHas s q -> onEdge c q -> In q out].
    It fails for a segment that starts outside, crosses the circle and ends on the edge. *)
Theorem C45_refuted : exists s c q, okSeg thr0 s /\ dirOK thr0 (sA s) (sB s) /\ 0 < cr c /\ segHas s q /\ onEdge c q /\
  forall out, segCircle thr0 s c = Ok out -> ~ In q out.
Proof.
  exists (mkSeg (mkPt (-3) 0) (mkPt 1 0)), (mkC (mkPt 0 0) 1), (mkPt (-1) 0).
  assert (L : edist (mkPt (-3) 0) (mkPt 1 0) = 4) by (apply edist_val; cbn [px py]; lra).
  cbn [sA sB cc cr]. split; [|split; [|split; [|split; [|split]]]].
  - unfold okSeg; cbn [sA sB]. rewrite L. unfold thr0; cbn [nullDistance dblEpsilon]; rnum; lra.
  - left. reflexivity.
  - lra.
  - apply onSeg_along. exists (1 / 2). split; [lra|]. cbn [sA sB]. apply pt_eq; cbn [along px py]; lra.
  - apply edist_val; cbn [cc cr px py]; lra.
  - intros out H I. unfold segCircle in H. cbn [sA sB] in H.
    pose proof (ptLabel_spec thr0 (mkPt (-3) 0) (mkC (mkPt 0 0) 1) thr0_ok) as LA.
    pose proof (ptLabel_spec thr0 (mkPt 1 0) (mkC (mkPt 0 0) 1) thr0_ok) as LB. cbn [cc cr] in LA, LB.
    rewrite (edist_val (mkPt 0 0) (mkPt (-3) 0) 3) in LA by (cbn [px py]; lra).
    rewrite (edist_val (mkPt 0 0) (mkPt 1 0) 1) in LB by (cbn [px py]; lra).
    assert (T : nullDistance (thr0 (T := R)) = 1 / 10000000000) by (unfold thr0; cbn [nullDistance]; rnum; reflexivity). rewrite T in *.
    destruct (ptLabel thr0 (mkPt (-3) 0) _); try (exfalso; lra). destruct (ptLabel thr0 (mkPt 1 0) _); try (exfalso; lra).
    destruct (svLine _ _) as [l| |]; try discriminate. cbn [bind] in H. destruct (lineCircle l _ _) as [[p1 p2]|]; injection H as <-.
    + destruct I as [I|[]]. injection I as I. lra.
    + destruct I.
Qed.
(** ** C149: positive part of C45 *)
(** Proved instead: every reported point is within nullDistance of the circle and within half of it
    of the segment.  Missing: completeness when an end is close to the circle (refuted above);
    C70 gives the exact result for the other segments. *)
Theorem C149_sound : forall th s c out q, thr_ok th -> okSeg th s -> dirOK th (sA s) (sB s) -> 0 <= cr c ->
  segCircle th s c = Ok out -> In q out ->
  Rabs (edist (cc c) q - cr c) < nullDistance th /\ exists x, segHas s x /\ edist q x < nullDistance th / 2.
Proof. exact segCircle_sound. Qed.
Print Assumptions C45_refuted.
Print Assumptions C149_sound.

(** ** C70 *)
Theorem C70_exact : forall th s c, thr_ok th -> okSeg th s -> dirOK th (sA s) (sB s) -> 0 <= cr c ->
  far th c (sA s) -> far th c (sB s) ->
  exists out, segCircle th s c = Ok out /\ forall q, In q out <-> segHas s q /\ onEdge c q.
Proof.
  intros th s c Hth Hs D Rc FA FB. destruct (segCircle_ok th s c Hth Hs) as (out & E). exists out. split; [exact E|].
  intros q. now apply (segCircle_exact th).
Qed.
Print Assumptions C70_exact.
(** (1,2)-(4,6) against the circle of centre (1,2) and radius 2: one end is the centre, the other outside. *)
Example C70_ex : far thr0 (mkC (mkPt 1 2) 2) (sA xS) /\ far thr0 (mkC (mkPt 1 2) 2) (sB xS) /\
  segHas xS (mkPt (11 / 5) (18 / 5)) /\ onEdge (mkC (mkPt 1 2) 2) (mkPt (11 / 5) (18 / 5)).
Proof.
  assert (T : nullDistance (thr0 (T := R)) = 1 / 10000000000) by (unfold thr0; cbn [nullDistance]; rnum; reflexivity).
  unfold far. rewrite T. cbn [cc cr xS sA sB]. split; [|split; [|split]].
  - rewrite edist_refl. rewrite Rabs_left; lra.
  - rewrite (edist_val _ _ 5) by (cbn [px py]; lra). rewrite Rabs_right; lra.
  - apply onSeg_along. exists (2 / 5). split; [lra|]. apply pt_eq; cbn [xS sA sB along px py]; lra.
  - apply edist_val; cbn [cc cr px py]; lra.
Qed.

(** ** C46 *)
Theorem C46_inclusion : forall c d, 0 <= cr c -> (cInCircle c d = true <-> forall p, inDisc c p -> inOpen d p).
Proof. intros c d Rc. split; [intros H p; apply cInCircle_incl; auto|apply cInCircle_conv; auto]. Qed.
Theorem C46_transitive : forall c d e, cInCircle c d = true -> cInCircle d e = true -> cInCircle c e = true.
Proof. intros c d e. rewrite !cInCircle_spec. intros A B. pose proof (edist_triang (cc c) (cc d) (cc e)). pose proof (edist_pos (cc c) (cc d)). pose proof (edist_pos (cc d) (cc e)). lra. Qed.
Theorem C46_rectangle : forall c p q, 0 <= cr c ->
  (cInRect c p q = true <-> forall x, inDisc c x -> px p < px x < px q /\ py p < py x < py q).
Proof. exact cInRect_incl. Qed.
Print Assumptions C46_inclusion.
Print Assumptions C46_transitive.
Print Assumptions C46_rectangle.
Example C46_ex : cInCircle (mkC (mkPt 3 4) 2) (mkC (mkPt 0 0) 8) = true /\ cInCircle (mkC (mkPt 3 4) 3) (mkC (mkPt 0 0) 8) = false /\
  cInRect (mkC (mkPt 3 4) 2) (mkPt 0 0) (mkPt 6 7) = true.
Proof.
  assert (L : edist (mkPt 3 4) (mkPt 0 0) = 5) by (apply edist_val; cbn [px py]; lra).
  split; [apply cInCircle_spec; cbn [cc cr]; lra|]. split.
  - destruct (cInCircle _ _) eqn:E; auto. apply cInCircle_spec in E. cbn [cc cr] in E. lra.
  - apply cInRect_spec. cbn [cc cr px py]. lra.
Qed.

(** ** C47 *)
(** Full statement: [forall th ops, let c := fst (cRun th (cDefault, false) ops) in nullDistance th <= cr c].
    It fails in three ways: set(rad) does not check its argument; an exception thrown while building
    the minimum enclosing circle leaves the check disabled for every later circle; and a circle built
    from two points at distance d, nullDistance <= d < 2 nullDistance, has a radius below nullDistance. *)
Theorem C47_refuted : exists ops, cr (fst (cRun thr0 (cDefault, false) ops)) < 0.
Proof. exists [CRadius (-1)]. cbn [cRun fold_left cStep fst cSetRadius cr]. lra. Qed.
Theorem C47_exception_refuted : forall rnd (p : pt R),
  let st := cRun thr0 (cDefault, false) [CSetPts rnd [p; p; p; p]; CSet p 0] in
  cr (fst st) = 0 /\ snd st = true.
Proof.
  intros rnd p. cbn zeta.
  assert (F : exists r, cSetPts thr0 false rnd [p; p; p; p] = (r, true)).
  { unfold cSetPts. cbn [length]. destruct (welzl thr0 rnd 4 [p; p; p; p] [] 0) as [[[c0 P'] k']| |] eqn:W; try (eexists; reflexivity).
    exfalso. destruct (welzl_apart thr0 rnd 4 thr0_ok [p; p; p; p] [] 0%nat c0 P' k' (le_n _) W) as [_ A].
    destruct (A ltac:(cbn; lia)) as (u & v & Hu & Hv & Huv). cbn [firstn app In] in Hu, Hv.
    assert (u = p) by intuition congruence. assert (v = p) by intuition congruence. subst u v. rewrite edist_refl in Huv. pose proof (thr_dist _ thr0_ok). lra. }
  destruct F as (r & F). cbn [cRun fold_left cStep]. rewrite F. cbn [cStep fst snd].
  unfold cNew. rewrite (radiusOk_true thr0 0) by lra. cbn [cr]. auto.
Qed.
Theorem C47_two_points_refuted : exists p q c, cSet2 thr0 p q = Ok c /\ cr c < nullDistance thr0.
Proof.
  assert (K : forall e, 0 < e -> nullDistance thr0 = e -> exists p q c, cSet2 thr0 p q = Ok c /\ cr c < e).
  { intros e T Ee. exists (mkPt 0 0), (mkPt (3 / 2 * e) 0). eexists.
    assert (L : edist (mkPt 0 0) (mkPt (3 / 2 * e) 0) = 3 / 2 * e) by (clear Ee; apply edist_val; cbn [px py]; [lra|field]).
    rewrite cSet2_spec by apply thr0_ok. rewrite L, Ee. clear Ee. destruct (Rlt_dec _ _); [exfalso; lra|]. split; [reflexivity|]. cbn [cr]. lra. }
  apply (K _ (thr_dist _ thr0_ok) eq_refl).
Qed.
Print Assumptions C47_refuted.
Print Assumptions C47_exception_refuted.
Print Assumptions C47_two_points_refuted.

(** ** C72 *)
Theorem C72_radius : forall th ops c, thr_ok th -> nullDistance th / 2 <= cr c -> Forall (safeOp th) ops ->
  let st := cRun th (c, false) ops in nullDistance th / 2 <= cr (fst st) /\ snd st = false.
Proof.
  intros th ops c Hth Hc H. destruct (cRun_big th ops Hth H c Hc) as (c' & E & B). cbn zeta. rewrite E. auto.
Qed.
Print Assumptions C72_radius.
Example C72_ex : nullDistance thr0 / 2 <= cr (cDefault (T := R)) /\
  Forall (safeOp thr0) [CSet3 tA tB tC; CTranslate 3 4; CSet tA (-2); CSet2 tA tA; CMove tB; CSetPts (fun _ => O) [tA; tB; tC]].
Proof.
  split. { unfold cDefault, thr0; cbn [cr nullDistance]; rnum; lra. }
  destruct t_circle as (c & E).
  repeat (apply Forall_cons; [cbn [safeOp]; try exact I|]); try apply Forall_nil.
  - exact t_zone.
  - split; [exact t_zone|]. exists c. exact E.
Qed.

(** ** C48 *)
(** Full statement: [forall th rnd flag pts c, fst (cSetPts th flag rnd pts) = Ok c -> isMEC pts c].
    A container of three points is handed to the three-point constructor, which gives the
    circumscribed circle. *)
Theorem C48_refuted : exists pts, length pts = 3%nat /\ zoneFreePts thr0 pts /\
  forall rnd flag, exists c, fst (cSetPts thr0 flag rnd pts) = Ok c /\ ~ isMEC pts c.
Proof.
  exists [tA; tB; tC]. split; [reflexivity|]. split; [exact t_zone|]. intros rnd flag.
  destruct C42_ex as (c & E & Ec & Er). exists c. split; [exact E|]. intros [_ M].
  specialize (M (mkC (mkPt 0 0) 4)). cbn [cr] in M.
  assert (cr c <= 4); [|lra]. apply M; [lra|].
  intros p Hp. apply inDisc_sq; cbn [cc cr]; [lra|]. destruct Hp as [<-|[<-|[<-|[]]]]; cbn [tA tB tC px py]; lra.
Qed.
(** ** C150: positive part of C48 *)
(** Proved instead: every size except 3, for every sequence of random numbers. Missing: size 3. *)
Theorem C150_mec : forall th flag rnd pts c, thr_ok th -> length pts <> 3%nat -> zoneFreePts th pts ->
  fst (cSetPts th flag rnd pts) = Ok c -> isMEC pts c.
Proof. exact cSetPts_mec. Qed.
Print Assumptions C48_refuted.
Print Assumptions C150_mec.

(** ** C71 *)
Theorem C71_mec : forall th flag rnd pts c, thr_ok th -> (4 <= length pts)%nat -> zoneFreePts th pts ->
  fst (cSetPts th flag rnd pts) = Ok c -> isMEC pts c /\ forall d, isMEC pts d -> 0 <= cr d -> cr d = cr c.
Proof.
  intros th flag rnd pts c Hth Hn Hz H. assert (M : isMEC pts c) by (apply (cSetPts_mec th flag rnd); auto; lia).
  split; [exact M|]. intros d D Hd. destruct M as [M1 M2]. destruct D as [D1 D2]. apply Rle_antisym.
  - apply D2; auto. destruct pts as [|p pts]; [cbn in Hn; lia|]. pose proof (M1 p (or_introl eq_refl)) as K. unfold inDisc in K.
    pose proof (edist_pos (cc c) p). lra.
  - apply M2; auto.
Qed.
Theorem C71_random_independent : forall th f1 f2 rnd1 rnd2 pts c1 c2, thr_ok th -> (4 <= length pts)%nat -> zoneFreePts th pts ->
  fst (cSetPts th f1 rnd1 pts) = Ok c1 -> fst (cSetPts th f2 rnd2 pts) = Ok c2 -> cr c1 = cr c2.
Proof.
  intros th f1 f2 rnd1 rnd2 pts c1 c2 Hth Hn Hz H1 H2.
  destruct (C71_mec th f1 rnd1 pts c1 Hth Hn Hz H1) as [M1 _]. destruct (C71_mec th f2 rnd2 pts c2 Hth Hn Hz H2) as [M2 U].
  apply U; auto. destruct M1 as [M1 _]. destruct pts as [|p pts]; [cbn in Hn; lia|]. pose proof (M1 p (or_introl eq_refl)) as K. unfold inDisc in K.
  pose proof (edist_pos (cc c1) p). lra.
Qed.
Print Assumptions C71_mec.
Print Assumptions C71_random_independent.
(** A run: the points (-4,0), (4,0), (0,3), (0,-3), with a constant sequence of random numbers. *)
Definition tD : pt R := mkPt 0 (-3).
Lemma in_eval p (c : circle R) d : edist p (cc c) = d -> ptInCircle p c = Rltb d (cr c).
Proof. intros <-. reflexivity. Qed.
Example C71_ex : fst (cSetPts thr0 false (fun _ => 11%nat) [tA; tB; tC; tD]) = Ok (mkC (mkPt 0 0) 4).
Proof.
  assert (N0 : forall p q, edist p (cc (mkC q 0)) = edist p q) by reflexivity.
  assert (E2 : cSet2 thr0 tB tA = Ok (mkC (mkPt 0 0) 4)).
  { rewrite cSet2_spec by apply thr0_ok. rewrite (edist_sym tB tA), tAB. destruct (Rlt_dec _ _) as [L|L].
    - exfalso. revert L. unfold thr0; cbn [nullDistance]; rnum; lra.
    - do 2 f_equal; [apply pt_eq; cbn [tA tB px py]|]; lra. }
  assert (R0 : forall p, cNew thr0 true p 0 = Ok (mkC p 0)) by (intros; unfold cNew; rewrite radiusOk_true by lra; reflexivity).
  assert (IC : ptInCircle tC (mkC (mkPt 0 0) 4) = true).
  { apply ptInCircle_spec. unfold inOpen; cbn [cc cr]. rewrite (edist_val _ _ 3); cbn [tC px py]; lra. }
  assert (ID : ptInCircle tD (mkC (mkPt 0 0) 4) = true).
  { apply ptInCircle_spec. unfold inOpen; cbn [cc cr]. rewrite (edist_val _ _ 3); cbn [tD px py]; lra. }
  assert (Z : forall p q, ptInCircle p (mkC q 0) = false) by (intros; apply not_in_zero; reflexivity).
  unfold cSetPts. cbn [length welzl Nat.eqb]. 
  change (Nat.modulo 11 4) with 3%nat. change (Nat.modulo 11 3) with 2%nat. change (Nat.modulo 11 2) with 1%nat. change (Nat.modulo 11 1) with 0%nat.
  cbn [nth swapNth setNth firstn skipn app minCircleTrivial bind length Nat.eqb welzl].
  change (@nZ R RNum 0) with 0. rewrite !R0. cbn [bind]. rewrite !Z. cbn [bind]. 
  repeat (change (Nat.modulo 11 1) with 0%nat; cbn [nth swapNth setNth firstn skipn app minCircleTrivial bind length Nat.eqb welzl]; 
    rewrite ?R0; cbn [bind]; rewrite ?Z; cbn [bind]; rewrite ?E2; cbn [bind]; rewrite ?IC; cbn [bind]; rewrite ?ID; cbn [bind]).
  unfold cNew. cbn [cc cr]. rewrite radiusOk_true by lra. reflexivity.
Qed.
