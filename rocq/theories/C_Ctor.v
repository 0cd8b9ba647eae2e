(** * Properties C217 to C224: constructors and setters of lines and points, intersection results, sides of a rectangle *)

From Coq Require Import Reals Lra ZArith Bool Lia List Permutation.
From Verif Require Import Num M_LP M_Seg M_FRect M_Inter M_Ctor S_Geom P_LP P_LP2 P_LP3 P_LP4 P_LP5 P_Seg P_FRect2 P_Inter P_Grid.
Import ListNotations.
Local Open Scope R_scope.

(** ** C217: the line through the origin and one point *)

Lemma lnorm_opp th a b c : thr_ok th -> lnorm th (mkL (- a) (- b) (- c)) = lnorm th (mkL a b c).
Proof.
  intro Ht. assert (Hy : hypot (- a) (- b) = hypot a b) by (unfold hypot; rnum; f_equal; ring).
  destruct (lnorm th (mkL a b c)) as [l| |] eqn:E.
  - pose proof (lnorm_inv th _ _ Ht E) as (Hs & _). cbn [la lb] in Hs. replace (mkL (- a) (- b) (- c)) with (scaleL (-1) (mkL a b c)) by (unfold scaleL; cbn [la lb lc]; f_equal; ring).
    apply lnorm_scale; [exact Ht|lra|exact E|]. cbn [la lb]. rewrite (Rabs_left (-1)) by lra. lra.
  - apply lnorm_throw in E. apply lnorm_throw. cbn [la lb] in *. rewrite Hy. exact E.
  - now apply lnorm_not_undef in E.
Qed.
Lemma lineOfPt_eq th h : lineOfPt th h = lnorm th (mkL (h1 h) (- h0 h) 0).
Proof. unfold lineOfPt, crossPP. cbn [h0 h1 h2]. rnum. f_equal. f_equal; ring. Qed.

(** Two numbers, or the point with these coordinates: the same line, or an exception in both cases. *)
Theorem C217_numbers : forall th x y, thr_ok th -> lineOf2 th x y = lineOfPt th (hOfPt (mkPt x y)).
Proof.
  intros th x y Ht. rewrite lineOfPt_eq. unfold lineOf2, pnorm, hOfPt. cbn [h0 h1 h2 px py]. rnum. pose proof (thr_deno th Ht) as D.
  destruct (Rltb x 0); cbn [h0 h1 h2].
  - rewrite Rabs_Ropp, Rabs_R1. destruct (Rltb 1 (nullDenom th)) eqn:E; [apply Rltb_spec in E; lra|]. cbn [andb bind]. unfold crossPP. cbn [h0 h1 h2]. rnum. f_equal. f_equal; ring.
  - rewrite Rabs_right by lra. destruct (Rltb 1 (nullDenom th)) eqn:E; [apply Rltb_spec in E; lra|]. cbn [andb bind]. unfold crossPP. cbn [h0 h1 h2]. rnum. rewrite <- lnorm_opp by exact Ht. f_equal. f_equal; ring.
Qed.
Print Assumptions C217_numbers.

(** For any stored triple (a point at infinity too): it throws exactly if the two first values are null up to machine
    epsilon; the line goes through the origin, and holds every multiple of these values unless it is in the sign-fix zone. *)
Theorem C217_through : forall th h, thr_ok th ->
  (lineOfPt th h = Throw <-> sqrt (h0 h * h0 h + h1 h * h1 h) <= dblEpsilon th) /\
  (forall l, lineOfPt th h = Ok l -> onL l (mkPt 0 0) /\ unitL l /\
     (h1 h = 0 \/ nullDenom th * sqrt (h0 h * h0 h + h1 h * h1 h) <= Rabs (h1 h) -> forall p, onL l p <-> px p * h1 h = py p * h0 h)).
Proof.
  intros th h Ht. rewrite lineOfPt_eq. assert (Hy : hypot (h1 h) (- h0 h) = sqrt (h0 h * h0 h + h1 h * h1 h)) by (unfold hypot; rnum; f_equal; ring). split.
  - rewrite lnorm_throw. cbn [la lb]. now rewrite Hy.
  - intros l E. destruct (lnorm_inv th _ _ Ht E) as (Hs & _ & U & _ & _ & K). cbn [la lb lc] in *.
    split; [|split; [exact U|]].
    + unfold onL. cbn [px py]. destruct K as [(k & _ & _ & ->)|(_ & K)]; [unfold scaleL; cbn [la lb lc]; ring|].
      assert (lc l = 0); [|lra]. assert (F : lnorm th (mkL (h1 h) (- h0 h) 0) = Ok l) by exact E. unfold lnorm in F. cbn [la lb lc] in F. rnum. destruct (Rleb _ _); [discriminate|].
      cbn [la lb lc] in F. destruct (Rltb (h1 h / _) 0); cbn [la lb lc] in F; (destruct (Rltb (Rabs _) _); [destruct (Rltb _ 0)|]); injection F as <-; cbn [lc]; unfold Rdiv; ring.
    + intros Z p. rewrite <- Hy in Z. rewrite (lnorm_same th _ _ Ht E Z p). unfold onL. cbn [la lb lc]. split; intro; lra.
Qed.
Print Assumptions C217_through.

(** It is the line built from the origin and the point, when these are not equal. *)
Theorem C217_pair : forall th p, thr_ok th -> nullDistance th <= edist (mkPt 0 0) p ->
  lineOf th (mkPt 0 0) p = lineOfPt th (hOfPt p) /\ lineOf4 th 0 0 (px p) (py p) = lineOfPt th (hOfPt p).
Proof.
  intros th [x y] Ht D. assert (E : lineOf th (mkPt 0 0) (mkPt x y) = lineOfPt th (hOfPt (mkPt x y))).
  { unfold lineOf. rewrite (proj2 (ptEq_false th _ _) D). rewrite lineOfPt_eq. unfold crossPP, hOfPt. cbn [h0 h1 h2 px py]. rnum. rewrite <- lnorm_opp by exact Ht. f_equal. f_equal; ring. }
  split; [exact E|]. unfold lineOf4. cbn [px py]. exact E.
Qed.
Print Assumptions C217_pair.
Example C217_ex : thr_ok thr0 /\ nullDistance thr0 <= edist (mkPt 0 0) (mkPt (-3) 4) /\ lineOf2 thr0 (-3) 4 = Ok (mkL (4 / 5) (3 / 5) 0) /\ 
  lineOfPt thr0 (mkH (-3) 4 0) = Ok (mkL (4 / 5) (3 / 5) 0).
Proof.
  pose proof thr0_ok as Ht. split; [exact Ht|]. assert (L : lnorm thr0 (mkL 4 (- -3) 0) = Ok (mkL (4 / 5) (3 / 5) 0)).
  { rewrite (lnorm_eval thr0 _ _ _ 5 Ht); unfold thr0; cbn [dblEpsilon nullDenom]; rnum; try lra. f_equal. f_equal; field. }
  split.
  - assert (E : edist (mkPt 0 0) (mkPt (-3) 4) = 5) by (unfold edist, Rsqr; cbn [px py]; replace ((0 - -3) * (0 - -3) + (0 - 4) * (0 - 4)) with (5 * 5) by ring; apply sqrt_square; lra).
    rewrite E. unfold thr0. cbn [nullDistance]. rnum. lra.
  - split; [rewrite C217_numbers by exact Ht; rewrite lineOfPt_eq; exact L|]. rewrite lineOfPt_eq. exact L.
Qed.

(** ** C218: the checks of the two constructors differ *)

(** Full statement: Line2d(pt) and Line2d(Point2d(0,0),pt) build the same line or both throw.  False: the first one does
    not check that the point is not the origin, as far as the distance threshold is concerned. *)
Theorem C218_refuted : exists p l, lineOfPt thr0 (hOfPt p) = Ok l /\ lineOf thr0 (mkPt 0 0) p = Throw /\ px p <> 0.
Proof.
  exists (mkPt (1 / 1000000000000) 0), (mkL 0 1 0). pose proof thr0_ok as Ht. split; [|split; [|cbn [px]; lra]].
  - rewrite lineOfPt_eq. unfold hOfPt. cbn [h0 h1 px py]. rewrite lnorm_eval_h; [f_equal; f_equal; field|exact Ht|]. rewrite Rabs_left by lra. unfold thr0. cbn [dblEpsilon]. rnum. lra.
  - unfold lineOf. rewrite (proj2 (ptEq_spec thr0 _ _)); [reflexivity|]. unfold edist, Rsqr. cbn [px py].
    replace ((0 - 1 / 1000000000000) * (0 - 1 / 1000000000000) + (0 - 0) * (0 - 0)) with (1 / 1000000000000 * (1 / 1000000000000)) by ring. rewrite sqrt_square by lra.
    unfold thr0. cbn [nullDistance]. rnum. lra.
Qed.
Print Assumptions C218_refuted.

(** ** C219: lines and points from vectors *)
Theorem C219_vectors : forall T (N : Num T) (th : thrs T) (v : list T),
  ((length v < 3)%nat <-> lineOfVec th v = Undef) /\ ((length v < 3)%nat <-> pointOfVec th v = Undef) /\
  forall d, (3 <= length v)%nat -> lineOfVec th v = lineSet3 th (nth 0 v d) (nth 1 v d) (nth 2 v d) /\ pointOfVec th v = pointSet3 th (nth 0 v d) (nth 1 v d) (nth 2 v d).
Proof.
  intros T N th v. assert (NL : forall a b c, lineSet3 th a b c <> Undef) by (intros a b c; unfold lineSet3, lnorm; destruct (_ <=? _)%num; discriminate).
  assert (NP : forall a b c, pointSet3 th a b c <> Undef) by (intros a b c; unfold pointSet3, pnorm; destruct (_ && _); discriminate).
  destruct v as [|a [|b [|c v]]]; cbn [length lineOfVec pointOfVec]; try (repeat split; intros; try reflexivity; lia).
  split; [split; [lia|intro H; now apply NL in H]|]. split; [split; [lia|intro H; now apply NP in H]|]. intros d _. split; reflexivity.
Qed.
Print Assumptions C219_vectors.
Example C219_ex : lineOfVec thr0 [0; 2; -6; 7] = Ok (mkL 0 1 (-3)) /\ lineOfVec thr0 [0; 2] = Undef.
Proof. split; [|reflexivity]. cbn [lineOfVec]. unfold lineSet3. rewrite lnorm_eval_h; [f_equal; f_equal; field|exact thr0_ok|]. rewrite Rabs_right by lra. unfold thr0. cbn [dblEpsilon]. rnum. lra. Qed.

(** ** C220: objects after a failed set() *)

(** Full statement: after any history of calls (exceptions caught) a line object is a line, a point object a point.
    False: set(0,0,1) throws but leaves these values in the line, set(0,0,0) in the point. *)
Theorem C220_line_refuted : exists ops, fst (lRun thr0 ops) = false /\ ~ proper (snd (lRun thr0 ops)) /\ forall p, lineDistU (snd (lRun thr0 ops)) p = Undef.
Proof.
  exists [LSet 1 2 3; LSet 0 0 1]. assert (E : lRun thr0 [LSet 1 2 3; LSet 0 0 1] = (false, mkL 0 0 1)).
  { unfold lRun. cbn [fold_left lStep]. unfold lineSetSt at 1. rewrite (proj2 (lnorm_throw thr0 (mkL 0 0 1))); [reflexivity|]. cbn [la lb]. unfold hypot. rnum. replace (0 * 0 + 0 * 0) with 0 by ring. rewrite sqrt_0. unfold thr0. cbn [dblEpsilon]. rnum. lra. }
  rewrite E. cbn [fst snd]. split; [reflexivity|]. split; [intros [H|H]; apply H; reflexivity|]. intro p. unfold lineDistU. cbn [la lb]. unfold hypot. rnum. replace (0 * 0 + 0 * 0) with 0 by ring. rewrite sqrt_0.
  rewrite (proj2 (Reqb_spec 0 0) eq_refl). reflexivity.
Qed.
Print Assumptions C220_line_refuted.
Theorem C220_point_refuted : exists ops, snd (ptRun thr0 ops) = mkH 0 0 0 /\ ptOfH (snd (ptRun thr0 ops)) = Undef.
Proof.
  exists [PtSet2 3 4; PtSet3 0 0 0]. assert (E : ptRun thr0 [PtSet2 3 4; PtSet3 0 0 0] = (false, mkH 0 0 0)).
  { unfold ptRun. cbn [fold_left ptStep]. unfold pointSetSt at 1. unfold pnorm. cbn [h0 h1 h2]. rnum. rewrite (proj2 (Rltb_false 0 0)) by lra. cbn [h0 h1 h2]. rewrite Rabs_R0.
    assert (Z : Rltb 0 (nullDenom thr0) = true) by (apply Rltb_spec; unfold thr0; cbn [nullDenom]; rnum; lra). assert (Y : Rltb 0 (nullOrthogDistance thr0) = true) by (apply Rltb_spec; unfold thr0; cbn [nullOrthogDistance]; rnum; lra).
    rewrite Z, Y. reflexivity. }
  rewrite E. cbn [snd]. split; [reflexivity|]. unfold ptOfH. cbn [h2]. rnum. now rewrite (proj2 (Reqb_spec 0 0) eq_refl).
Qed.
Print Assumptions C220_point_refuted.

(** ** C221: the safe histories *)

(** When the last call returned, whatever failed before, the object is a normalised line; when it threw, the object holds
    the values given. *)
Theorem C221_line : forall th ops, thr_ok th -> (forall l, In (LAssign l) ops -> storedL th l) ->
  (fst (lRun th ops) = true -> storedL th (snd (lRun th ops)) /\ forall p, exists d, lineDistU (snd (lRun th ops)) p = Ok d) /\
  (fst (lRun th ops) = false -> exists pre a b c, ops = pre ++ [LSet a b c] /\ snd (lRun th ops) = mkL a b c /\ lineSet3 th a b c = Throw).
Proof.
  intros th ops Ht Ha. assert (S : (fst (lRun th ops) = true -> storedL th (snd (lRun th ops))) /\
    (fst (lRun th ops) = false -> exists pre a b c, ops = pre ++ [LSet a b c] /\ snd (lRun th ops) = mkL a b c /\ lineSet3 th a b c = Throw)).
  { destruct ops as [|op ops] using rev_ind.
    - split; [intros _|discriminate]. unfold lRun, lineDefault, storedL, unitL. cbn [fold_left snd la lb lc]. rnum. lra.
    - clear IHops. unfold lRun. rewrite fold_left_app. cbn [fold_left]. destruct op as [a b c|l]; cbn [lStep].
      + unfold lineSetSt. destruct (lnorm th (mkL a b c)) as [l| |] eqn:E; cbn [fst snd].
        * split; [intros _|discriminate]. now apply lnorm_stored with (mkL a b c).
        * split; [discriminate|intros _]. exists ops, a, b, c. split; [reflexivity|]. split; [reflexivity|exact E].
        * now apply lnorm_not_undef in E.
      + cbn [fst snd]. split; [intros _|discriminate]. apply Ha. apply in_or_app. right. now left. }
  destruct S as [S1 S2]. split; [|exact S2]. intro H. split; [now apply S1|]. intro p. unfold lineDistU. destruct (S1 H) as [U _]. unfold unitL in U.
  assert (E : hypot (la (snd (lRun th ops))) (lb (snd (lRun th ops))) = 1) by (unfold hypot; rnum; rewrite U; apply sqrt_1). rewrite E. rnum.
  destruct (Reqb 1 0) eqn:Z; [apply Reqb_spec in Z; lra|]. eexists. reflexivity.
Qed.
Print Assumptions C221_line.

(** The same for points: when the last call returned, the values are not all null (up to the thresholds) and the first
    one is not negative; set(x,y) never fails and gives that point. *)
Definition realH (th : thrs R) (h : hpt R) : Prop :=
  0 <= h0 h /\ (nullDenom th <= Rabs (h2 h) \/ nullOrthogDistance th <= h0 h \/ nullOrthogDistance th <= Rabs (h1 h)).
Lemma pnorm_real th h h' : pnorm th h = Ok h' -> realH th h'.
Proof.
  unfold pnorm. rnum. set (g := if Rltb (h0 h) 0 then _ else h). assert (P : 0 <= h0 g).
  { unfold g. destruct (Rltb (h0 h) 0) eqn:E; [apply Rltb_spec in E; cbn [h0]; lra|now apply Rltb_false in E]. }
  clearbody g. destruct (Rltb (Rabs (h2 g)) (nullDenom th)) eqn:A; cbn [andb].
  - destruct (Rltb (h0 g) (nullOrthogDistance th)) eqn:B; cbn [andb].
    + destruct (Rltb (Rabs (h1 g)) (nullOrthogDistance th)) eqn:C; [discriminate|]. intro H. injection H as <-. split; [exact P|]. apply Rltb_false in C. tauto.
    + intro H. injection H as <-. split; [exact P|]. apply Rltb_false in B. tauto.
  - intro H. injection H as <-. split; [exact P|]. apply Rltb_false in A. tauto.
Qed.
Theorem C221_point : forall th ops, thr_ok th -> (forall h, In (PtAssign h) ops -> realH th h) ->
  (fst (ptRun th ops) = true -> realH th (snd (ptRun th ops))) /\
  (forall x y, fst (ptRun th (ops ++ [PtSet2 x y])) = true /\ ptOfH (snd (ptRun th (ops ++ [PtSet2 x y]))) = Ok (mkPt x y)).
Proof.
  intros th ops Ht Ha. pose proof (thr_deno th Ht) as D. split.
  - destruct ops as [|op ops] using rev_ind.
    + intros _. unfold ptRun, pointDefault, realH. cbn [fold_left snd h0 h1 h2]. rnum. rewrite Rabs_R1. lra.
    + clear IHops. unfold ptRun. rewrite fold_left_app. cbn [fold_left].
      assert (Q : forall a b c, fst (pointSetSt th a b c) = true -> realH th (snd (pointSetSt th a b c))).
      { intros a b c. unfold pointSetSt. destruct (pnorm th (mkH a b c)) as [h| |] eqn:E; cbn [fst snd]; try discriminate. intros _. now apply pnorm_real with (mkH a b c). }
      destruct op as [a b c|x y|h]; cbn [ptStep]; [apply Q|apply Q|]. cbn [fst snd]. intros _. apply Ha. apply in_or_app. right. now left.
  - intros x y. unfold ptRun. rewrite fold_left_app. cbn [fold_left ptStep]. unfold pointSetSt, pnorm. cbn [h0 h1 h2]. rnum.
    destruct (Rltb x 0); cbn [h0 h1 h2].
    + rewrite Rabs_Ropp, Rabs_R1. destruct (Rltb 1 (nullDenom th)) eqn:E; [apply Rltb_spec in E; lra|]. cbn [andb fst snd]. split; [reflexivity|]. unfold ptOfH. cbn [h0 h1 h2]. rnum.
      destruct (Reqb (Ropp 1) 0) eqn:Z; [apply Reqb_spec in Z; lra|]. f_equal. f_equal; field.
    + rewrite Rabs_right by lra. destruct (Rltb 1 (nullDenom th)) eqn:E; [apply Rltb_spec in E; lra|]. cbn [andb fst snd]. split; [reflexivity|]. unfold ptOfH. cbn [h0 h1 h2]. rnum.
      destruct (Reqb 1 0) eqn:Z; [apply Reqb_spec in Z; lra|]. f_equal. f_equal; field.
Qed.
Print Assumptions C221_point.
(** A failure, then a success. *)
Example C221_ex : fst (lRun thr0 [LSet 0 0 1; LSet 0 2 (-6)]) = true /\ snd (lRun thr0 [LSet 0 0 1; LSet 0 2 (-6)]) = mkL 0 1 (-3) /\ fst (lRun thr0 [LSet 0 0 1]) = false.
Proof.
  assert (A : lnorm thr0 (mkL 0 2 (-6)) = Ok (mkL 0 1 (-3))) by (rewrite lnorm_eval_h; [f_equal; f_equal; field|exact thr0_ok|rewrite Rabs_right by lra; unfold thr0; cbn [dblEpsilon]; rnum; lra]).
  unfold lRun. cbn [fold_left lStep]. unfold lineSetSt at 1 2. rewrite A. cbn [fst snd]. split; [reflexivity|]. split; [reflexivity|].
  unfold lineSetSt. rewrite (proj2 (lnorm_throw thr0 (mkL 0 0 1))); [reflexivity|]. cbn [la lb]. unfold hypot. rnum. replace (0 * 0 + 0 * 0) with 0 by ring. rewrite sqrt_0. unfold thr0. cbn [dblEpsilon]. rnum. lra.
Qed.

(** ** C222, C223: converting intersection results to another number type *)

(** Full statement: the converted object has as many points as the original one.  False: when there is no intersection the
    converting constructor of the two-point result throws. *)
Theorem C222_refuted : exists (cvt : pt R -> pt R) i, (forall j, int2Convert cvt i <> Ok j) /\ int2Size i = 0%nat.
Proof. exists (fun p => p), None. split; [intros j H; discriminate|reflexivity]. Qed.
Print Assumptions C222_refuted.

Theorem C223_convert : forall (cvt : pt R -> pt R),
  (forall p q, int2Convert cvt (Some (p, q)) = Ok (Some (cvt p, cvt q))) /\
  (forall v : list (pt R), intMSize (intMConvert cvt v) = intMSize v /\ intMBool (intMConvert cvt v) = intMBool v /\ Permutation (interGet (intMConvert cvt v)) (map cvt v)).
Proof.
  intro cvt. split; [reflexivity|]. intro v. unfold intMConvert, intMSize, intMBool. pose proof (interGet_perm v) as P. rewrite map_length. split; [symmetry; now apply Permutation_length|]. split.
  - apply Permutation_length in P. destruct (interGet v), v; try reflexivity; cbn [map length] in *; try discriminate; lia.
  - rewrite <- interGet_perm. apply Permutation_map. now symmetry.
Qed.
Print Assumptions C223_convert.
Theorem C223_bool : forall v : list (pt R), (intMBool v = true <-> v <> []) /\ intMSize v = length v /\ forall pp : int2 (T := R), (int2Size pp = 2%nat <-> pp <> None).
Proof.
  intro v. split; [destruct v; split; intro H; [discriminate|now elim H|discriminate|reflexivity]|]. split; [reflexivity|]. intros [pp|]; split; intro H; [discriminate|reflexivity|discriminate|now elim H].
Qed.
Print Assumptions C223_bool.
(** Coordinates rounded to integers: the order of the points changes, their number does not. *)
Example C223_ex : let cvt := fun p : pt R => mkPt 0 (py p) in intMConvert cvt [mkPt (1 / 4) 1; mkPt 0 2] = [mkPt 0 2; mkPt 0 1] /\ intMSize (intMConvert cvt [mkPt (1 / 4) 1; mkPt 0 2]) = 2%nat.
Proof.
  cbv zeta. assert (E : interGet [mkPt (1 / 4) 1; mkPt 0 2] = [mkPt 0 2; mkPt (1 / 4) 1]).
  { unfold interGet. cbn [fold_right sortInsert]. rewrite (proj2 (ptLt_spec (mkPt 0 2) (mkPt (1 / 4) 1))); [reflexivity|]. left. cbn [px]. lra. }
  unfold intMConvert, intMSize. rewrite E. split; reflexivity.
Qed.

(** ** C224: the two main segments of a rectangle *)

(** The left and top sides, the longest one first. *)
Theorem C224_sides : forall th r, thr_ok th -> nullDistance th <= px (r2 r) - px (r1 r) -> nullDistance th <= py (r2 r) - py (r1 r) ->
  let q := mkPt (px (r1 r)) (py (r2 r)) in let left := mkSeg (r1 r) q in let top := mkSeg q (r2 r) in
  exists a b, frPairSegs th r = Ok (a, b) /\ svLength b <= svLength a /\ (a = left /\ b = top \/ a = top /\ b = left) /\
    svLength left = frHeight r /\ svLength top = frWidth r.
Proof.
  intros th [[a b] [c e]] Ht W H. cbn [r1 r2 px py] in *. cbv zeta. pose proof (thr_dist _ Ht) as D. unfold frPairSegs. cbn [r1 r2 px py]. unfold svNew, segOrder, fixOrder.
  rewrite !ptEq_far; [|rewrite edist_h, Rabs_left1; lra|rewrite edist_v, Rabs_left1; lra]. cbn [bind sA sB].
  rewrite (proj2 (ptLt_spec (mkPt a b) (mkPt a e))) by (right; cbn; lra). rewrite (proj2 (ptLt_spec (mkPt a e) (mkPt c e))) by (left; cbn; lra). cbn [negb].
  assert (L1 : svLength (mkSeg (mkPt a b) (mkPt a e)) = e - b) by (unfold svLength; cbn [sA sB]; rewrite distPP_edist, edist_v, Rabs_left1; lra).
  assert (L2 : svLength (mkSeg (mkPt a e) (mkPt c e)) = c - a) by (unfold svLength; cbn [sA sB]; rewrite distPP_edist, edist_h, Rabs_left1; lra).
  rewrite L1, L2. rnum. destruct (Rltb (e - b) (c - a)) eqn:E.
  - apply Rltb_spec in E. eexists. eexists. split; [reflexivity|]. rewrite L1, L2. split; [lra|]. split; [now right|]. split; reflexivity.
  - apply Rltb_false in E. eexists. eexists. split; [reflexivity|]. rewrite L1, L2. split; [lra|]. split; [now left|]. split; reflexivity.
Qed.
Print Assumptions C224_sides.
Example C224_ex : thr_ok thr0 /\ let r := mkR (mkPt 0 0) (mkPt 4 3) in nullDistance thr0 <= px (r2 r) - px (r1 r) /\ nullDistance thr0 <= py (r2 r) - py (r1 r) /\ frHeight r < frWidth r.
Proof. split; [exact thr0_ok|]. cbv zeta. unfold frHeight, frWidth. cbn [r1 r2 px py]. rnum. unfold thr0. cbn [nullDistance]. rnum. lra. Qed.
