(** * Properties C01-C03, C05-C11, C19: homographies *)

From Coq Require Import Reals ZArith List Bool Lra.
From Verif Require Import Num M_LP M_Homogr S_Geom S_Homogr P_LP P_LP2 P_LP3 P_LP4 P_LP5 P_Homogr P_Homogr2 P_Homogr3.
Import ListNotations.
Local Open Scope R_scope.

(** A homography with a non trivial last row, for the examples. *)
Definition exM : mat R := mkM 2 0 1 0 1 0 1 0 1.
Definition exO : hobj R := mkHobj exM true true None.
Definition exOi : hobj R := mkHobj (mkM (1 / 2) 0 (- (1 / 2)) 0 (1 / 2) 0 (- (1 / 2)) 0 1) true true None.
Example ex_inverse : hOfMat thr0 exM = Ok exO /\ hInverse thr0 exO = (Ok tt, exOi).
Proof.
  assert (T : nullDenom (thr0 (T := R)) < 1 /\ nullDeter (thr0 (T := R)) < 1).
  { unfold thr0; cbn [nullDenom nullDeter]; rnum; lra. }
  split.
  - unfold hOfMat, hNormalize; cbn [hm hmt].
    destruct (matNormalize_ok thr0 exM thr0_ok) as [E _]. { cbn [exM m22]. rewrite Rabs_R1. lra. }
    rewrite E. cbn [bind]. unfold exO. do 2 f_equal. apply mat_eq; unfold scaleM, exM; munf; field.
  - assert (D : determ exM = 1) by (unfold exM; munf; ring).
    unfold hInverse, matInverse, exO; cbn [hm]. rewrite D. rnum.
    rewrite Rabs_R1, (proj2 (Rltb_false _ _)) by lra. unfold hNormalize; cbn [hm hmt].
    set (mi := matMap _ _). assert (Em : mi = mkM 1 0 (-1) 0 1 0 (-1) 0 2).
    { unfold mi, exM. apply mat_eq; munf; field. }
    rewrite Em. destruct (matNormalize_ok thr0 (mkM 1 0 (-1) 0 1 0 (-1) 0 2) thr0_ok) as [E _].
    { cbn [m22]. rewrite Rabs_right by lra. lra. }
    rewrite E. cbn [bind]. unfold exOi. do 2 f_equal. apply mat_eq; unfold scaleM; munf; field.
Qed.

(** ** C01 *)

(** On stored triples: the product with the inverted object gives back the Euclidean point, even when
    the intermediate image is at infinity; on Euclidean points: q is the image of p by H exactly when p
    is the image of q by the inverted object. *)
Theorem C01_inverse_round_trip : forall th o o', thr_ok th -> hInverse th o = (Ok tt, o') ->
  (forall h p, ptOfH h = Ok p ->
     ptOfH (hApplyPt o' (hApplyPt o h)) = Ok p /\ ptOfH (hApplyPt o (hApplyPt o' h)) = Ok p) /\
  (forall p q, isImage (hm o) p q <-> isImage (hm o') q p) /\
  (forall p q, isImage (hm o) p q <-> ptOfH (hApplyPt o (hOfPt p)) = Ok q).
Proof.
  intros th o o' Hth H. split; [|split].
  - intros h p Hp. exact (inverse_round_trip th o o' h p Hth H Hp).
  - intros p q. exact (inverse_image th o o' p q Hth H).
  - intros p q. symmetry. exact (ptOfH_image (hm o) p q).
Qed.
Print Assumptions C01_inverse_round_trip.
Example C01_ex : hInverse thr0 exO = (Ok tt, exOi) /\ isImage (hm exO) (mkPt 1 4) (mkPt (3 / 2) 2).
Proof.
  split; [apply ex_inverse|]. unfold isImage, exO, exM; cbn [hm m00 m01 m02 m10 m11 m12 m20 m21 m22 px py].
  repeat split; lra.
Qed.
(** When inverse() throws. *)
Theorem C01_inverse_throws : forall th o, thr_ok th -> fst (hInverse th o) = Throw <->
  (Rabs (det3 (hm o)) < nullDeter th \/
   (nullDeter th <= Rabs (det3 (hm o)) /\
    Rabs ((m00 (hm o) * m11 (hm o) - m01 (hm o) * m10 (hm o)) / det3 (hm o)) < nullDenom th)).
Proof. exact hInverse_throw. Qed.
Print Assumptions C01_inverse_throws.

(** ** C02 *)
Theorem C02_product_composes : forall th a b c, thr_ok th -> hMul th a b = Ok c ->
  forall h, ptOfH (hApplyPt c h) = ptOfH (hApplyPt a (hApplyPt b h)).
Proof. intros th a b c Hth H h. exact (hMul_compose th a b c h Hth H). Qed.
Print Assumptions C02_product_composes.
Theorem C02_product_assoc : forall th x y z xy yz r1 r2, thr_ok th ->
  hMul th x y = Ok xy -> hMul th xy z = Ok r1 -> hMul th y z = Ok yz -> hMul th x yz = Ok r2 -> hm r1 = hm r2.
Proof. exact hMul_assoc. Qed.
Print Assumptions C02_product_assoc.
Example C02_ex : exists c, hMul thr0 exO exO = Ok c /\ hm c = mkM (5 / 2) 0 (3 / 2) 0 (1 / 2) 0 (3 / 2) 0 1.
Proof.
  unfold hMul, hNormalize; cbn [hm hmt].
  assert (Em : matMul (hm exO) (hm exO) = mkM 5 0 3 0 1 0 3 0 2) by (unfold exO, exM; apply mat_eq; cbn [hm]; munf; ring).
  rewrite Em. destruct (matNormalize_ok thr0 (mkM 5 0 3 0 1 0 3 0 2) thr0_ok) as [E _].
  { cbn [m22]. rewrite Rabs_right by lra. unfold thr0; cbn [nullDenom]; rnum; lra. }
  rewrite E. cbn [bind]. eexists; split; [reflexivity|]. cbn [hm]. apply mat_eq; unfold scaleM; munf; field.
Qed.

(** ** C03 *)

(** Full statement: no zoneFree hypothesis.  False: a mirror image loses incidence. *)
Theorem C03_refuted : exists o l p q l', storedL thr0 l /\ onL l p /\ isImage (hm o) p q /\
  fst (hApplyLine thr0 (hCopy o) l) = Ok l' /\ lineDist l' q > / 100000.
Proof.
  destruct mirror_bad as (A & B & C & D).
  exists (mkHobj mirrorM true true None), wL, (mkPt (1000000 * wb) (- (1000000 * wa))), wQ, wL.
  repeat (split; [assumption|]). split; [|exact wL_dist]. now rewrite freshLine_copy.
Qed.
Print Assumptions C03_refuted.
(** ** C138: incidence is kept when the image line is outside the sign-fix zone (positive part of C03) *)
Theorem C138_incidence : forall th o l l', thr_ok th ->
  fst (hApplyLine th (hCopy o) l) = Ok l' -> zoneFree th (imageLine (hm o) l) ->
  (forall h, onLH l' (hApplyPt o h) <-> onLH l h) /\
  (forall p q, isImage (hm o) p q -> (onL l' q <-> onL l p)).
Proof.
  intros th o l l' Hth H Z. rewrite freshLine_copy in H. split.
  - intros h. exact (freshLine_incidence th (hm o) l l' h Hth H Z).
  - intros p q Hq. exact (freshLine_image th (hm o) l l' p q Hth H Z Hq).
Qed.
Print Assumptions C138_incidence.
Theorem C138_join : forall th o p q p' q' l l' k, thr_ok th ->
  lineOf th p q = Ok l -> dirOK th p q ->
  fst (hApplyLine th (hCopy o) l) = Ok l' -> zoneFree th (imageLine (hm o) l) ->
  isImage (hm o) p p' -> isImage (hm o) q q' -> lineOf th p' q' = Ok k -> dirOK th p' q' -> sameLine l' k.
Proof.
  intros th o p q p' q' l l' k Hth A B C. rewrite freshLine_copy in C.
  exact (image_of_join th (hm o) p q p' q' l l' k Hth A B C).
Qed.
Print Assumptions C138_join.
Example C138_ex : fst (hApplyLine thr0 (hCopy exO) l10) = Ok (mkL 1 0 (-1)) /\ zoneFree thr0 (imageLine (hm exO) l10).
Proof.
  split.
  - rewrite freshLine_copy. unfold freshLine. rewrite (freshHmt_copy thr0 exO).
    destruct ex_inverse as [_ E]. change (hCopy exO) with exO. rewrite E. cbn [fst snd bind].
    match goal with |- lnorm _ ?l = _ => replace l with (mkL (1 / 2) 0 (-1 / 2)) end.
    + rewrite (lnorm_eval thr0 (1 / 2) 0 (-1 / 2) (1 / 2) thr0_ok); unfold thr0; cbn [dblEpsilon nullDenom]; rnum; try lra. do 2 f_equal; field.
    + unfold exOi, l10. cbn [hm]. unfold matTranspose, matMulL. cbn [m00 m01 m02 m10 m11 m12 m20 m21 m22 la lb lc]. rnum. f_equal; lra.
  - right. unfold imageLine, exO, exM, l10; cbn [hm m00 m01 m02 m10 m11 m12 m20 m21 m22 la lb lc].
    match goal with |- _ <= Rabs ?a => replace a with 1 by ring end.
    match goal with |- _ * sqrt ?a <= _ => replace a with 1 by ring end. rewrite sqrt_1, Rabs_R1. unfold thr0; cbn [nullDenom]; rnum; lra.
Qed.

(** ** C05 *)

(** Full statement: for every history, the line product gives what a fresh copy of the object gives.
    False: H*line, then set(), then H*line. *)
Theorem C05_refuted : exists ops l l1 l2,
  fst (hApplyLine thr0 (hRun thr0 hNew ops) l) = Ok l1 /\
  fst (hApplyLine thr0 (hCopy (hRun thr0 hNew ops)) l) = Ok l2 /\ forall p, ~ (onL l1 p /\ onL l2 p).
Proof.
  exists staleOps, l10, (mkL 1 0 0), (mkL 1 0 (-5)). destruct stale_witness as [A B].
  split; [exact A|]. split; [exact B|]. intros p. unfold onL; cbn [la lb lc]. lra.
Qed.
Print Assumptions C05_refuted.
(** ** C140: positive part of C05 *)
(** Proved: anything before the first line product, then no silent modification. *)
Theorem C140_fresh : forall th pre post l, existsb isProduct pre = false -> existsb silentOp post = false ->
  let o := hRun th hNew (pre ++ post) in
  fst (hApplyLine th o l) = fst (hApplyLine th (hCopy o) l).
Proof. exact simple_history. Qed.
Print Assumptions C140_fresh.
(** More precisely: the product is right whenever no silent modification is pending. *)
Theorem C140_fresh_general : forall th ops l, noStaleUse th hNew false false (ops ++ [OpApplyLine l]) ->
  fst (hApplyLine th (hRun th hNew ops) l) = fst (hApplyLine th (hCopy (hRun th hNew ops)) l).
Proof.
  intros th ops l H. rewrite freshLine_copy. apply (history_fresh th ops hNew false false l); auto.
  split; [reflexivity|]. intros _. left; reflexivity.
Qed.
Print Assumptions C140_fresh_general.
Example C140_ex : let pre := [OpSet 0 2 5; OpTranspose; OpSetRotation 1] in
  let post := [OpApplyLine l10; OpAddTranslation 1 2; OpApplyLine l10; OpAssign exM] in
  existsb isProduct pre = false /\ existsb silentOp post = false.
Proof. split; reflexivity. Qed.

(** ** C06 *)
Theorem C06_chain : forall th ts, thr_ok th -> exists o, chain th hNew ts = Ok o /\
  forall p, ptOfH (hApplyPt o (hOfPt p)) = Ok (fold_left trApply ts p).
Proof.
  intros th ts Hth. destruct (chain_new th ts Hth) as (o & A & _ & B). exists o. auto.
Qed.
Print Assumptions C06_chain.
Example C06_ex : fold_left trApply [Trans 1 0; Scale 2 3; Trans 0 5] (mkPt 1 1) = mkPt 4 8.
Proof. cbn [fold_left trApply px py]. f_equal; ring. Qed.

(** ** C07 *)
Theorem C07_isometry : forall th ts o, thr_ok th -> forallb isRigid ts = true -> chain th hNew ts = Ok o ->
  forall p q r p' q' r', ptOfH (hApplyPt o (hOfPt p)) = Ok p' -> ptOfH (hApplyPt o (hOfPt q)) = Ok q' ->
    ptOfH (hApplyPt o (hOfPt r)) = Ok r' -> edist p' q' = edist p q /\ cross3 p' q' r' = cross3 p q r.
Proof.
  intros th ts o Hth Hr Ho p q r p' q' r' A B C. destruct (chain_new th ts Hth) as (o1 & E & _ & K).
  rewrite Ho in E. injection E as <-. rewrite K in A, B, C.
  injection A as <-. injection B as <-. injection C as <-. exact (rigid_chain ts p q r Hr).
Qed.
Print Assumptions C07_isometry.
Example C07_ex : exists o, forallb isRigid [Trans 3 4; Rot 1; Trans (-3) 2] = true /\
  chain thr0 hNew [Trans 3 4; Rot 1; Trans (-3) 2] = Ok o.
Proof. destruct (C06_chain thr0 [Trans 3 4; Rot 1; Trans (-3) 2] thr0_ok) as (o & H & _). exists o. auto. Qed.

(** ** C08 *)
(** ** C141: positive part of C08 *)
Theorem C141_scale : forall th m k a b, thr_ok th -> k <> 0 ->
  hOfMat th m = Ok a -> hOfMat th (matMap (fun e => k * e) m) = Ok b -> hEq th a b = Ok (true, a, b).
Proof. exact hEq_scale. Qed.
Print Assumptions C141_scale.
Theorem C141_sym : forall th (a b : hobj R) r a' b', hEq th a b = Ok (r, a', b') -> hEq th b a = Ok (r, b', a').
Proof. exact hEq_sym. Qed.
Print Assumptions C141_sym.
(** Not for every history: an object whose elements have been multiplied by 2 with set() maps every
    point like the identity, but does not compare equal to it. *)
Theorem C08_history_refuted : exists ops, let o := hRun thr0 hNew ops in
  (forall h, ptOfH (hApplyPt o h) = ptOfH (hApplyPt hNew h)) /\ hEq thr0 o hNew = Ok (false, o, hNew).
Proof. exists [OpSet 0 0 2; OpSet 1 1 2; OpSet 2 2 2]. exact doubled_neq. Qed.
Print Assumptions C08_history_refuted.
Example C141_ex : exists b, hOfMat thr0 exM = Ok exO /\ hOfMat thr0 (matMap (fun e => -3 * e) exM) = Ok b.
Proof.
  eexists. split; [apply ex_inverse|]. unfold hOfMat, hNormalize; cbn [hm hmt].
  destruct (matNormalize_ok thr0 (matMap (fun e => -3 * e) exM) thr0_ok) as [E _].
  { unfold exM, matMap; cbn [m22]. rewrite Rabs_left by lra. unfold thr0; cbn [nullDenom]; rnum; lra. }
  rewrite E. cbn [bind]. reflexivity.
Qed.

(** ** C09 *)
Theorem C09_double_inverse : forall th o o1 o2, thr_ok th ->
  hInverse th o = (Ok tt, o1) -> hInverse th o1 = (Ok tt, o2) ->
  m22 (hm o) <> 0 /\ hm o2 = matMap (fun e => / m22 (hm o) * e) (hm o).
Proof. exact double_inverse. Qed.
Print Assumptions C09_double_inverse.
Theorem C09_double_transpose : forall o : hobj R, hm (hTranspose (hTranspose o)) = hm o.
Proof. exact double_transpose. Qed.
Print Assumptions C09_double_transpose.
Example C09_ex : exists o2, hInverse thr0 exO = (Ok tt, exOi) /\ hInverse thr0 exOi = (Ok tt, o2).
Proof.
  destruct ex_inverse as [_ A]. destruct (hInverse thr0 exOi) as [r o2] eqn:E. exists o2. split; auto.
  destruct r as [[]| |]; auto; exfalso.
  - assert (F : fst (hInverse thr0 exOi) = Throw) by now rewrite E.
    apply (hInverse_throw thr0 exOi thr0_ok) in F. revert F.
    assert (D : det3 (hm exOi) = 1 / 8) by (unfold exOi, det3; cbn [hm m00 m01 m02 m10 m11 m12 m20 m21 m22]; field).
    rewrite D. unfold exOi; cbn [hm m00 m01 m10 m11]. unfold thr0; cbn [nullDeter nullDenom]; rnum.
    rewrite !Rabs_right by lra. lra.
  - revert E. unfold hInverse, matInverse. destruct (_ <? _)%num; [discriminate|].
    unfold hNormalize, matNormalize. destruct (_ <? _)%num; cbn [bind]; discriminate.
Qed.

(** ** C10 *)
Theorem C10_refuted : exists m o, hOfMat thr0 m = Ok o /\ det3 (hm o) = 1 /\
  fst (hInverse thr0 o) = Throw /\ hm (snd (hInverse thr0 o)) <> hm o.
Proof.
  exists badM. destruct badM_inv as (o & A & B & C & D & E). exists o. repeat (split; [assumption|]).
  rewrite E, B. unfold badM. intros H. injection H. intros. lra.
Qed.
Print Assumptions C10_refuted.
(** ** C142: positive part of C10 *)
(** It holds when the reason is a (numerically) null determinant. *)
Theorem C142_singular : forall th o, Rabs (det3 (hm o)) < nullDeter th -> hInverse th o = (Throw, o).
Proof. exact hInverse_singular. Qed.
Print Assumptions C142_singular.
Example C142_ex : Rabs (det3 (mkM 1 2 3 2 4 6 1 0 1)) < nullDeter thr0.
Proof.
  unfold det3; cbn [m00 m01 m02 m10 m11 m12 m20 m21 m22].
  replace (1 * (4 * 1 - 6 * 0) - 2 * (2 * 1 - 6 * 1) + 3 * (2 * 0 - 4 * 1)) with 0 by ring.
  rewrite Rabs_R0. unfold thr0; cbn [nullDeter]; rnum; lra.
Qed.

(** ** C11 *)

(** Two threads computing the same product: one schedule makes the first one fail. *)
Theorem C11_race_refuted : exists sched l,
  tResult (schedRun thr0 (hNew, [(l, PTestNull); (l, PTestNull)]) sched) 0 = Some Throw /\
  fst (hApplyLine thr0 hNew l) = Ok l.
Proof. exists badSchedule, l10. exact race_witness. Qed.
Print Assumptions C11_race_refuted.
(** ** C143: positive part of C11 *)
(** Once the cache is filled, any number of threads under any schedule get the sequential result
    (each needs three steps), and the object does not change. *)
Theorem C143_primed : forall th o mi ls sched, hmt o = Some mi -> hasChanged o = false ->
  let st := schedRun th (o, map (fun l => (l, PTestNull)) ls) sched in
  fst st = o /\
  forall i l, nth_error ls i = Some l ->
    (forall r, tResult st i = Some r -> r = fst (hApplyLine th o l)) /\
    ((3 <= count_occ Nat.eq_dec sched i)%nat -> tResult st i = Some (fst (hApplyLine th o l))).
Proof.
  intros th o mi ls sched Hm Hc st. destruct (primed_inv th o mi ls sched Hm Hc) as (A & _ & B). fold st in A, B.
  split; auto. intros i l Hi. destruct (B i l Hi) as (pc & E & G).
  assert (S : fst (hApplyLine th o l) = lnorm th (matMulL mi l)).
  { unfold hApplyLine. rewrite Hm, Hc, Hm. reflexivity. }
  rewrite S. unfold tResult. rewrite E. split.
  - intros r Hr. destruct pc; try discriminate. injection Hr as <-. apply G.
  - intros H3. destruct pc; cbn [tGood] in G; try contradiction;
      try (rewrite G in H3; repeat match goal with K : (_ <= _)%nat |- _ => inversion K; clear K end; fail).
    destruct G as [-> _]. reflexivity.
Qed.
Print Assumptions C143_primed.
Example C143_ex : let o := snd (hApplyLine thr0 hNew l10) in exists mi, hmt o = Some mi /\ hasChanged o = false.
Proof.
  cbv zeta. destruct race_witness as [_ S]. revert S. unfold hApplyLine, hNew, hInit; cbn [hmt hasChanged].
  destruct (hInverse thr0 _) as [[[]| |] hi]; cbn [fst snd]; try discriminate. intros _. eexists. split; reflexivity.
Qed.

(** ** C19 *)
Theorem C19_refuted : exists l p t l', storedL thr0 l /\ onL l p /\ getRotatedLine thr0 l p t = Ok l' /\
  lineDist l' p > / 100000.
Proof.
  exists rL, (mkPt 1000000 0), rT, wVo. split; [|split; [|split; [exact rotated_bad|]]].
  - split; [unfold unitL, rL; cbn [la lb]; lra|]. unfold rL, thr0; cbn [la lb nullDenom]; rnum. split; lra.
  - unfold onL, rL; cbn [la lb lc px py]. lra.
  - wbd. rewrite lineDist_unit by apply wVo_unit. unfold wVo; cbn [la lb lc px py]. rewrite Rabs_right; lra.
Qed.
Print Assumptions C19_refuted.
(** ** C145: positive part of C19 *)
Theorem C145_rotated : forall th l p t, thr_ok th -> nullDeter th <= 1 -> unitL l -> onL l p ->
  zoneFree th (mkL (cos t * la l - sin t * lb l) (sin t * la l + cos t * lb l) 0) ->
  exists l', getRotatedLine th l p t = Ok l' /\ onL l' p /\ unitL l' /\
    exists s, (s = 1 \/ s = -1) /\
      la l' = s * (cos t * la l - sin t * lb l) /\ lb l' = s * (sin t * la l + cos t * lb l).
Proof. exact getRotatedLine_spec. Qed.
Print Assumptions C145_rotated.
Example C145_ex : unitL (mkL 0 1 (-2)) /\ onL (mkL 0 1 (-2)) (mkPt 7 2) /\
  zoneFree thr0 (mkL (cos (PI / 2) * 0 - sin (PI / 2) * 1) (sin (PI / 2) * 0 + cos (PI / 2) * 1) 0).
Proof.
  split; [unfold unitL; cbn [la lb]; ring|]. split; [unfold onL; cbn [la lb lc px py]; ring|].
  rewrite cos_PI2, sin_PI2. right. cbn [la lb].
  replace ((0 * 0 - 1 * 1) * (0 * 0 - 1 * 1) + (1 * 0 + 0 * 1) * (1 * 0 + 0 * 1)) with 1 by ring.
  rewrite sqrt_1, Rabs_left by lra. unfold thr0; cbn [nullDenom]; rnum; lra.
Qed.
