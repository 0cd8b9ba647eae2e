(** * Properties C25-C35, C67-C69: segments *)

From Coq Require Import Reals ZArith List Bool Lra.
From Verif Require Import Num M_LP M_Seg S_Geom S_Seg P_LP P_LP2 P_LP3 P_LP4 P_LP5 P_Seg P_Seg2 P_Seg3 P_Seg4.
Import ListNotations.
Local Open Scope R_scope.

(** ** C25 *)
Theorem C25_distance : forall s p, sA s <> sB s ->
  exists d c x, svDist s p = Ok (d, c) /\ segHas s x /\ edist p x = d /\
    (forall y, segHas s y -> d <= edist p y) /\
    let dot a b := (px p - px a) * (px b - px a) + (py p - py a) * (py b - py a) in
    (c = (-1)%Z /\ x = sA s /\ dot (sA s) (sB s) < 0 \/
     c = 1%Z /\ x = sB s /\ dot (sB s) (sA s) < 0 \/
     c = 0%Z /\ 0 <= dot (sA s) (sB s) /\ 0 <= dot (sB s) (sA s) /\
       (px p - px x) * (px (sB s) - px (sA s)) + (py p - py x) * (py (sB s) - py (sA s)) = 0).
Proof. exact svDist_spec. Qed.
Print Assumptions C25_distance.
Example C25_ex : sA xS <> sB xS.
Proof. intros H. pose proof xS_len as L. rewrite H, edist_refl in L. lra. Qed.

(** ** C26 *)
Theorem C26_order : forall th ops s0, thr_ok th ->
  (s0 = svDefault \/ exists p q, svNew th KSeg p q = Ok s0) ->
  let s := segRun th KSeg s0 ops in lexlt (sA s) (sB s).
Proof.
  intros th ops s0 Hth H. apply segRun_inv; auto. destruct H as [-> | (p & q & H)].
  - left. cbn; lra.
  - destruct (svNew_inv _ _ _ _ _ Hth H) as (_ & _ & K & _). exact K.
Qed.
Print Assumptions C26_order.
Theorem C26_commutative : forall th p q, svNew th KSeg p q = svNew th KSeg q p.
Proof. intros. apply svNew_sym. Qed.
Print Assumptions C26_commutative.
Example C26_ex : let s := segRun thr0 KSeg svDefault [SSet (mkPt 4 6) (mkPt 1 2); STranslate (-7) 3; SMoveTo (mkPt 0 0)] in
  s = mkSeg (mkPt 0 0) (mkPt 3 4).
Proof.
  cbn [segRun fold_left segStep]. unfold svSet. rewrite svNew_sym, svNew_ok_seg.
  - unfold svTranslate, ptTranslate, svMoveTo; cbn [sA sB px py]; rnum. f_equal. f_equal; ring.
  - apply xS_ok.
  - apply xS_ok.
Qed.

(** ** C27 *)
Theorem C27_refuted : exists p q so ss, svNew thr0 KOSeg p q = Ok so /\ svNew thr0 KSeg p q = Ok ss /\
  svEq thr0 (svConvert KSeg KOSeg so) ss = false.
Proof.
  destruct xS_ok as ((H1 & _) & _ & _ & H4).
  exists (sB xS), (sA xS), (mkSeg (sB xS) (sA xS)), xS. split; [|split].
  - apply svNew_ok. rewrite edist_sym. exact H1.
  - rewrite svNew_sym. apply svNew_ok_seg; auto.
  - unfold svConvert, svEq; cbn [sA sB xS]. rewrite (proj2 (ptEq_false thr0 _ _)); [reflexivity|].
    rewrite edist_sym. exact H1.
Qed.
Print Assumptions C27_refuted.
(** ** C148: positive part of C27 *)
Theorem C148_ordered : forall th p q so ss, thr_ok th -> svNew th KOSeg p q = Ok so ->
  svNew th KSeg p q = Ok ss -> lexlt p q -> svConvert KSeg KOSeg so = ss.
Proof.
  intros th p q so ss Hth Ho Hs L. destruct (svNew_inv _ _ _ _ _ Hth Ho) as (D & _ & ->).
  rewrite (svNew_ok_seg th p q D L) in Hs. injection Hs as <-. reflexivity.
Qed.
Print Assumptions C148_ordered.
Example C148_ex : lexlt (mkPt 1 2) (mkPt 1 3).
Proof. right. cbn; lra. Qed.

(** ** C28 *)
Theorem C28_split : forall th k s, thr_ok th -> (k = KSeg -> lexlt (sA s) (sB s)) ->
  (svSplit th k s = Throw <-> edist (sA s) (sB s) / 2 < nullDistance th) /\
  forall s1 s2, svSplit th k s = Ok (s1, s2) ->
    sA s1 = sA s /\ sB s1 = sA s2 /\ sB s2 = sB s /\
    edist (sA s1) (sB s1) = edist (sA s) (sB s) / 2 /\ edist (sA s2) (sB s2) = edist (sA s) (sB s) / 2.
Proof.
  intros th k s Hth O. split; [apply svSplit_throw|]. intros s1 s2 H.
  destruct (Rlt_le_dec (edist (sA s) (sB s) / 2) (nullDistance th)) as [L|L].
  { apply (svSplit_throw th k s) in L. rewrite L in H. discriminate. }
  rewrite (svSplit_ok th k s O L) in H. injection H as <- <-. cbn [sA sB].
  destruct (edist_half (sA s) (sB s)) as [E1 E2]. auto.
Qed.
Print Assumptions C28_split.
Theorem C28_split_at : forall th s d, thr_ok th -> okSeg th s -> dirOK th (sA s) (sB s) ->
  nullDistance th <= d -> nullDistance th <= edist (sA s) (sB s) - d ->
  exists m, svSplitAt th s d = Ok (mkSeg (sA s) m, mkSeg m (sB s)) /\ segHas s m /\
    edist (sA s) m = d /\ edist m (sB s) = edist (sA s) (sB s) - d.
Proof. exact svSplitAt_spec. Qed.
Print Assumptions C28_split_at.
Theorem C28_split_at_range : forall th s d, d <= 0 \/ edist (sA s) (sB s) <= d -> svSplitAt th s d = Throw.
Proof.
  intros th s d H. unfold svSplitAt, svLength. change (@distPP R RNum) with edist. rnum.
  destruct (Rleb d 0) eqn:E1; auto. destruct (Rleb _ d) eqn:E2; auto. rclean. exfalso. destruct H; lra.
Qed.
Print Assumptions C28_split_at_range.
Example C28_ex : okSeg thr0 xS /\ dirOK thr0 (sA xS) (sB xS) /\ nullDistance thr0 <= 2 /\
  nullDistance thr0 <= edist (sA xS) (sB xS) - 2 /\ (KSeg = KSeg -> lexlt (sA xS) (sB xS)).
Proof.
  destruct xS_ok as (A & B & _ & C). rewrite xS_len. repeat split; auto; try apply A; unfold thr0; cbn [nullDistance]; rnum; lra.
Qed.

(** ** C29 *)
Theorem C29_point_at : forall th s d, thr_ok th -> okSeg th s -> dirOK th (sA s) (sB s) ->
  svPointAt th s d = if Rlt_dec d 0 then Throw else Ok (along (sA s) (sB s) (d / edist (sA s) (sB s))).
Proof.
  intros th s d Hth Hs D. destruct (Rlt_dec d 0) as [L|L].
  - unfold svPointAt. rnum. rewrite (proj2 (Rltb_spec d 0) L). reflexivity.
  - apply (svPointAt_spec th s d Hth Hs D). lra.
Qed.
Print Assumptions C29_point_at.
Example C29_ex : svPointAt thr0 xS 10 = Ok (mkPt 7 10).
Proof.
  rewrite C29_point_at by (apply thr0_ok || apply xS_ok). destruct (Rlt_dec 10 0); [lra|]. rewrite xS_len.
  unfold along; cbn [sA sB xS px py]. f_equal. f_equal; field.
Qed.

(** ** C30 *)
Theorem C30_side : forall th s p, ptEq th p (sA s) = false -> ptEq th p (sB s) = false ->
  exists sd, svPointSide th s p = Ok sd /\
    (sd = SideLeft <-> 0 < cross3 (sA s) (sB s) p) /\ (sd = SideRight <-> cross3 (sA s) (sB s) p < 0) /\
    (sd = SideNeither <-> cross3 (sA s) (sB s) p = 0).
Proof. exact svPointSide_spec. Qed.
Print Assumptions C30_side.
Theorem C30_reversed : forall th A B p sd, svPointSide th (mkSeg A B) p = Ok sd ->
  svPointSide th (mkSeg B A) p = Ok (match sd with SideLeft => SideRight | SideRight => SideLeft | _ => SideNeither end).
Proof. exact svPointSide_rev. Qed.
Print Assumptions C30_reversed.
Example C30_ex : ptEq thr0 (mkPt 0 9) (sA xS) = false /\ ptEq thr0 (mkPt 0 9) (sB xS) = false /\
  0 < cross3 (sA xS) (sB xS) (mkPt 0 9).
Proof.
  assert (F : forall x y x' y', 1 <= (x - x') * (x - x') + (y - y') * (y - y') -> ptEq thr0 (mkPt x y) (mkPt x' y') = false).
  { intros x y x' y' H. apply ptEq_false. pose proof (edist_sq (mkPt x y) (mkPt x' y')) as E. cbn [px py] in E.
    pose proof (edist_pos (mkPt x y) (mkPt x' y')). unfold thr0; cbn [nullDistance]; rnum. nra. }
  split; [|split].
  - apply F. lra.
  - apply F. lra.
  - unfold cross3; cbn [sA sB xS px py]; lra.
Qed.

(** ** C31 *)
Theorem C31_refuted : exists (s : seg R) r s', svNeg s = (r, s') /\ s' <> s.
Proof.
  exists xS, (mkSeg (sB xS) (sA xS)), (mkSeg (sB xS) (sA xS)). split; [reflexivity|].
  unfold xS; cbn [sA sB]. intros H. injection H. intros. lra.
Qed.
Print Assumptions C31_refuted.
(** The returned object is the reversed segment; the operand has become that object too. *)
Theorem C31_result_partial : forall s : seg R, svNeg s = (mkSeg (sB s) (sA s), mkSeg (sB s) (sA s)).
Proof. reflexivity. Qed.
Print Assumptions C31_result_partial.

(** ** C32 *)
Theorem C32_sound : forall th s s' p, thr_ok th -> dirOK th (sA s) (sB s) -> dirOK th (sA s') (sB s') ->
  segInterSeg th s s' = Ok (Some p) ->
  (exists x, segHas s x /\ edist p x < nullDistance th / 2) /\ (exists x, segHas s' x /\ edist p x < nullDistance th / 2) /\
  cross3 (sA s) (sB s) p = 0 /\ cross3 (sA s') (sB s') p = 0.
Proof. exact segInterSeg_sound. Qed.
Print Assumptions C32_sound.
Theorem C32_complete : forall th s s' p l l', thr_ok th -> dirOK th (sA s) (sB s) -> dirOK th (sA s') (sB s') ->
  svLine th s = Ok l -> svLine th s' = Ok l' -> isParallel th l l' = false -> svEq th s s' = false ->
  segHas s p -> segHas s' p -> segInterSeg th s s' = Ok (Some p).
Proof. exact segInterSeg_complete. Qed.
Print Assumptions C32_complete.
Theorem C32_symmetric : forall th s s', thr_ok th -> okSeg th s -> okSeg th s' -> segInterSeg th s s' = segInterSeg th s' s.
Proof. exact segInterSeg_sym. Qed.
Print Assumptions C32_symmetric.
Example C32_ex : segInterSeg thr0 xS xS2 = Ok (Some (mkPt (5 / 2) 4)).
Proof.
  destruct xS_ok as (A & B & _). destruct xS2_ok as (A2 & B2).
  apply (C32_complete thr0 xS xS2 _ _ _ thr0_ok B B2 xS_line xS2_line xS_notpar).
  - unfold svEq. rewrite (proj2 (ptEq_false thr0 (sA xS) (sA xS2))); [reflexivity|].
    cbn [sA xS xS2]. rewrite (edist_val _ _ 4) by (cbn [px py]; lra). unfold thr0; cbn [nullDistance]; rnum; lra.
  - exists (1 / 2). cbn [sA sB xS px py]. lra.
  - exists (1 / 2). cbn [sA sB xS2 px py]. lra.
Qed.

(** ** C33 *)
Theorem C33_extended : forall th s, thr_ok th -> okSeg th s -> dirOK th (sA s) (sB s) -> lexlt (sA s) (sB s) ->
  exists s', svExtended th s = Ok s' /\ segHas s' (sA s) /\ segHas s' (sB s) /\
    edist (sA s') (sB s') = 3 * edist (sA s) (sB s) /\
    px (sA s') + px (sB s') = px (sA s) + px (sB s) /\ py (sA s') + py (sB s') = py (sA s) + py (sB s).
Proof.
  intros th s Hth Hs D O. eexists. split; [exact (svExtended_spec th s Hth Hs D O)|]. unfold segHas; cbn [sA sB].
  split; [|split; [|split]].
  - exists (1 / 3). split; [lra|]. unfold along; cbn [px py]. split; field.
  - exists (2 / 3). split; [lra|]. unfold along; cbn [px py]. split; field.
  - apply edist_val. { pose proof (edist_pos (sA s) (sB s)). lra. }
    replace (3 * edist (sA s) (sB s) * (3 * edist (sA s) (sB s))) with (9 * (edist (sA s) (sB s) * edist (sA s) (sB s))) by ring.
    rewrite edist_sq. unfold along; cbn [px py]. ring.
  - unfold along; cbn [px py]. split; ring.
Qed.
Print Assumptions C33_extended.
Example C33_ex : svExtended thr0 xS = Ok (mkSeg (mkPt (-2) (-2)) (mkPt 7 10)).
Proof.
  destruct xS_ok as (A & B & _ & C). rewrite (svExtended_spec thr0 xS thr0_ok A B C).
  unfold along; cbn [sA sB xS px py]. f_equal. f_equal; f_equal; ring.
Qed.

(** ** C34 *)
Theorem C34_parallel_oriented : forall th s d, thr_ok th -> okSeg th s -> dirOK th (sA s) (sB s) -> vertOK th (sA s) (sB s) ->
  nullDistance th <= d ->
  exists x y s1 s2, svParallelSegs th KOSeg s d = Ok (s1, s2) /\
    s1 = mkSeg (moved (sA s) x y) (moved (sB s) x y) /\ s2 = mkSeg (moved (sA s) (- x) (- y)) (moved (sB s) (- x) (- y)) /\
    x * (px (sB s) - px (sA s)) + y * (py (sB s) - py (sA s)) = 0 /\ x * x + y * y = d * d /\
    0 < cross3 (sA s) (sB s) (sA s1) /\ cross3 (sA s) (sB s) (sA s2) < 0.
Proof.
  intros th s d Hth Hs D V Hd. pose proof (svParallelSegs_o th s d Hth Hs D V Hd) as E.
  pose proof (okSeg_neq th s Hth Hs) as Hn. pose proof (leftN_unit _ _ Hn) as U. pose proof (fun e => leftN_cross _ _ e Hn) as C.
  assert (Or : let '(nx, ny) := leftN (sA s) (sB s) in nx * (px (sB s) - px (sA s)) + ny * (py (sB s) - py (sA s)) = 0).
  { unfold leftN. pose proof (edist_neq _ _ Hn). field. lra. }
  pose proof (edist_neq _ _ Hn) as L. pose proof (thr_dist th Hth) as T.
  destruct (leftN (sA s) (sB s)) as [nx ny]. exists (d * nx), (d * ny). do 2 eexists. split; [exact E|].
  split; [reflexivity|]. split. { f_equal; f_equal; ring. }
  split. { replace (d * nx * (px (sB s) - px (sA s)) + d * ny * (py (sB s) - py (sA s)))
             with (d * (nx * (px (sB s) - px (sA s)) + ny * (py (sB s) - py (sA s)))) by ring. rewrite Or. ring. }
  split. { replace (d * nx * (d * nx) + d * ny * (d * ny)) with (d * d * (nx * nx + ny * ny)) by ring. rewrite U. ring. }
  cbn [sA sB]. rewrite !C.
  assert (0 < d * edist (sA s) (sB s)) by (apply Rmult_lt_0_compat; lra). lra.
Qed.
Print Assumptions C34_parallel_oriented.
Theorem C34_parallel : forall th s d, thr_ok th -> okSeg th s -> dirOK th (sA s) (sB s) -> vertOK th (sA s) (sB s) ->
  lexlt (sA s) (sB s) -> 0 < d ->
  exists x y, svParallelSegs th KSeg s d =
      Ok (mkSeg (moved (sA s) x y) (moved (sB s) x y), mkSeg (moved (sA s) (- x) (- y)) (moved (sB s) (- x) (- y))) /\
    x * (px (sB s) - px (sA s)) + y * (py (sB s) - py (sA s)) = 0 /\ x * x + y * y = d * d.
Proof.
  intros th s d Hth Hs D V O Hd. pose proof (svParallelSegs_s th s d Hth Hs D V O Hd) as E.
  pose proof (okSeg_neq th s Hth Hs) as Hn. pose proof (leftN_unit _ _ Hn) as U.
  assert (Or : let '(nx, ny) := leftN (sA s) (sB s) in nx * (px (sB s) - px (sA s)) + ny * (py (sB s) - py (sA s)) = 0).
  { unfold leftN. pose proof (edist_neq _ _ Hn). field. lra. }
  destruct (leftN (sA s) (sB s)) as [nx ny]. destruct E as (e & He & E). exists (e * nx), (e * ny).
  split. { rewrite E. do 3 f_equal; f_equal; ring. }
  split. { replace (e * nx * (px (sB s) - px (sA s)) + e * ny * (py (sB s) - py (sA s)))
             with (e * (nx * (px (sB s) - px (sA s)) + ny * (py (sB s) - py (sA s)))) by ring. rewrite Or. ring. }
  replace (e * nx * (e * nx) + e * ny * (e * ny)) with (e * e * (nx * nx + ny * ny)) by ring. rewrite U.
  destruct He as [-> | ->]; ring.
Qed.
Print Assumptions C34_parallel.
Example C34_ex : okSeg thr0 xS /\ dirOK thr0 (sA xS) (sB xS) /\ vertOK thr0 (sA xS) (sB xS) /\
  lexlt (sA xS) (sB xS) /\ nullDistance thr0 <= 10.
Proof. destruct xS_ok as (A & B & C & D). repeat split; auto; try apply A. unfold thr0; cbn [nullDistance]; rnum; lra. Qed.

(** ** C35 *)
Theorem C35_bisector : forall th s, thr_ok th -> okSeg th s -> dirOK th (sA s) (sB s) -> vertOK th (sA s) (sB s) ->
  exists l, svBisector th s = Ok l /\ unitL l /\ forall p, onL l p <-> edist p (sA s) = edist p (sB s).
Proof. exact svBisector_spec. Qed.
Print Assumptions C35_bisector.
Example C35_ex : okSeg thr0 xS /\ dirOK thr0 (sA xS) (sB xS) /\ vertOK thr0 (sA xS) (sB xS).
Proof. destruct xS_ok as (A & B & C & D). auto. Qed.

(** ** C67 *)
Theorem C67_sound : forall th s l p, thr_ok th -> unitL l -> dirOK th (sA s) (sB s) ->
  segInterLine th s l = Ok (Some p) ->
  onL l p /\ cross3 (sA s) (sB s) p = 0 /\ exists x, segHas s x /\ edist p x < nullDistance th / 2.
Proof. exact segInterLine_sound. Qed.
Print Assumptions C67_sound.
Theorem C67_complete : forall th s p l l', thr_ok th -> unitL l -> dirOK th (sA s) (sB s) ->
  svLine th s = Ok l' -> isParallel th l l' = false -> segHas s p -> onL l p -> segInterLine th s l = Ok (Some p).
Proof. exact segInterLine_complete. Qed.
Print Assumptions C67_complete.
Example C67_ex : segInterLine thr0 xS2 (mkL (4 / 5) (- (3 / 5)) (2 / 5)) = Ok (Some (mkPt (5 / 2) 4)).
Proof.
  destruct xS2_ok as (A2 & B2). refine (C67_complete thr0 xS2 _ _ _ thr0_ok _ B2 xS2_line xS_notpar _ _).
  - unfold unitL; cbn [la lb]; lra.
  - exists (1 / 2). cbn [sA sB xS2 px py]. lra.
  - unfold onL; cbn [la lb lc px py]; lra.
Qed.

(** ** C68 *)
Theorem C68_oriented_angle : forall s s', sA s <> sB s -> sA s' <> sB s' ->
  let t := svAngleO s s' in
  let x := px (sB s) - px (sA s) in let y := py (sB s) - py (sA s) in
  let x' := px (sB s') - px (sA s') in let y' := py (sB s') - py (sA s') in
  let k := edist (sA s') (sB s') / edist (sA s) (sB s) in
  0 < k /\ x' = k * (x * cos t - y * sin t) /\ y' = k * (x * sin t + y * cos t) /\ - PI < t <= PI.
Proof. intros s s' H H'. exact (svAngleO_spec s s' H H'). Qed.
Print Assumptions C68_oriented_angle.
Example C68_ex : sA xS <> sB xS /\ sA xS2 <> sB xS2.
Proof.
  split; intros H.
  - pose proof xS_len as L. rewrite H, edist_refl in L. lra.
  - pose proof xS2_len as L. rewrite H, edist_refl in L. lra.
Qed.

(** ** C69 *)
Theorem C69_orthogonal_points : forall s : seg R, exists a b c d, svOrthogPts s = [a; b; c; d] /\
  (forall e, In e [(sA s, a); (sA s, b); (sB s, c); (sB s, d)] ->
     edist (fst e) (snd e) = edist (sA s) (sB s) /\
     (px (snd e) - px (fst e)) * (px (sB s) - px (sA s)) + (py (snd e) - py (fst e)) * (py (sB s) - py (sA s)) = 0) /\
  mkPt ((px a + px b) / 2) ((py a + py b) / 2) = sA s /\ mkPt ((px c + px d) / 2) ((py c + py d) / 2) = sB s /\
  px b - px a = px c - px d /\ py b - py a = py c - py d.
Proof. exact svOrthogPts_spec. Qed.
Print Assumptions C69_orthogonal_points.
Example C69_ex : svOrthogPts (mkSeg (mkPt 0 0) (mkPt 2 1)) = [mkPt 1 (-2); mkPt (-1) 2; mkPt 1 3; mkPt 3 (-1)].
Proof. unfold svOrthogPts; cbn [sA sB px py]; rnum. repeat f_equal; ring. Qed.

(** ** C43 *)
Theorem C43_none : forall l (c : pt R) (r : R), proper l -> 0 <= r -> (lineCircle l c r = None <-> r < lineDist l c).
Proof. exact lineCircle_none. Qed.
Print Assumptions C43_none.
Theorem C43_points : forall l (c : pt R) (r : R) a b, proper l -> 0 <= r -> lineCircle l c r = Some (a, b) ->
  (a = b \/ lexlt a b) /\ forall p, (p = a \/ p = b) <-> (onL l p /\ onCircle c r p).
Proof.
  intros l c r a b Hl Hr H. destruct (lineCircle_some l c r a b Hl Hr H) as (O & _ & _ & A & B & CA & CB & U).
  split.
  - destruct a as [ax ay], b as [bx by_]. unfold lexlt in *; cbn [px py] in *.
    destruct (Rtotal_order ax bx) as [L|[L|L]].
    + right; left; exact L.
    + subst. destruct (Rtotal_order ay by_) as [M|[M|M]].
      * right; right; auto.
      * left; subst; reflexivity.
      * exfalso; apply O; right; auto.
    + exfalso; apply O; left; exact L.
  - intros p. split; [intros [-> | ->]; auto|]. intros [P Q]. auto.
Qed.
Print Assumptions C43_points.
Example C43_ex : lineCircle (mkL (3 / 5) (4 / 5) (-5)) (mkPt 3 4) 5 = Some (mkPt (-1) 7, mkPt 7 1).
Proof.
  unfold lineCircle; cbn [la lb lc px py]; rnum.
  replace (3 * (3 / 5) + 4 * (4 / 5) + -5) with 0 by field.
  replace (3 / 5 * (3 / 5) + 4 / 5 * (4 / 5)) with 1 by field. rewrite sqrt_1, Rabs_R0.
  replace (5 * 5 - 0 / 1 * (0 / 1)) with 25 by field. replace (25 / 1) with (5 * 5) by field. rewrite sqrt_square by lra.
  rewrite (proj2 (Rltb_false 5 (0 / 1))) by lra.
  replace (mkPt (- (3 / 5) * 0 / 1 + 5 * (4 / 5) + 3) (- (4 / 5) * 0 / 1 - 5 * (3 / 5) + 4)) with (mkPt 7 1) by (f_equal; field).
  replace (mkPt (- (3 / 5) * 0 / 1 - 5 * (4 / 5) + 3) (- (4 / 5) * 0 / 1 + 5 * (3 / 5) + 4)) with (mkPt (-1) 7) by (f_equal; field).
  rewrite fixOrder_sym. f_equal. apply fixOrder_id. left; cbn [px]; lra.
Qed.
