(** * Properties C04, C12-C18, C20-C24: points and lines *)

From Coq Require Import Reals ZArith List Bool Lra Permutation.
From Coq Require Floats.
From Verif Require Import Num M_LP S_Geom P_LP P_LP2 P_LP3 P_LP4 P_LP5.
Import ListNotations.
Local Open Scope R_scope.

(** Concrete data for the non-vacuity examples: a 3-4-5 triangle. *)
Definition eO : pt R := mkPt 0 0.
Definition eA : pt R := mkPt 3 4.
Definition eB : pt R := mkPt 3 0.
Definition eLOA : line R := mkL (4 / 5) (- (3 / 5)) 0.
Example ex_OA : lineOf thr0 eO eA = Ok eLOA /\ dirOK thr0 eO eA /\ lineOf thr0 eO eB = Ok (mkL 0 1 0) /\ dirOK thr0 eO eB.
Proof.
  assert (D : edist eO eA = 5) by (apply edist_val; [lra|cbn [px py eO eA]; lra]).
  assert (D2 : edist eO eB = 3) by (apply edist_val; [lra|cbn [px py eO eB]; lra]).
  repeat split.
  - unfold lineOf. rewrite (proj2 (ptEq_false thr0 eO eA)) by (rewrite D; unfold thr0; cbn [nullDistance]; rnum; lra).
    unfold crossPP, hOfPt, eO, eA; cbn [px py h0 h1 h2]; rnum.
    rewrite (lnorm_eval_neg thr0 _ _ _ 5 thr0_ok); unfold thr0; cbn [dblEpsilon nullDenom]; rnum; try lra.
    f_equal. unfold eLOA. f_equal; field.
  - apply dirOK_eval. right. rewrite D. cbn [py eO eA]. rewrite Rabs_left; lra.
  - unfold lineOf. rewrite (proj2 (ptEq_false thr0 eO eB)) by (rewrite D2; unfold thr0; cbn [nullDistance]; rnum; lra).
    unfold crossPP, hOfPt, eO, eB; cbn [px py h0 h1 h2]; rnum.
    replace (0 * 1 - 1 * 0) with 0 by ring. rewrite (lnorm_eval_h thr0 _ _ thr0_ok).
    + f_equal. f_equal. field.
    + rewrite Rabs_right by lra. unfold thr0; cbn [dblEpsilon]; rnum; lra.
  - apply dirOK_eval. left. reflexivity.
Qed.

(** ** C04: a line built from two points passes through both *)

(** Full statement: for all p q l, lineOf th p q = Ok l -> onL l p /\ onL l q.  It is false: *)
Theorem C04_refuted :
  exists p q l, edist p q >= 1 /\ lineOf thr0 p q = Ok l /\ lineDist l q > / 100000.
Proof.
  exists wO, wQ, wL. split; [rewrite edist_wOQ; lra|]. split; [exact lineOf_wOQ|exact wL_dist].
Qed.
Print Assumptions C04_refuted.

(** ** C139: positive part of C04 *)
(** It holds outside the sign-fix zone: the stored line is the set of points collinear with p and q;
    and the constructor only throws for points closer than the thresholds. *)
Theorem C139_line_through : forall th p q, thr_ok th -> dirOK th p q ->
  (forall l, lineOf th p q = Ok l -> onL l p /\ onL l q /\ unitL l /\ forall r, onL l r <-> cross3 p q r = 0) /\
  (nullDistance th <= edist p q -> dblEpsilon th < edist p q -> exists l, lineOf th p q = Ok l) /\
  lineOf th p q <> Undef.
Proof.
  intros th p q Hth Hd. split; [|split].
  - intros l H. destruct (lineOf_on th p q l Hth H Hd) as [A B]. split; [exact A|]. split; [exact B|].
    split; [apply (lineOf_proper th p q l Hth H)|].
    intros r. rewrite (lineOf_same th p q l Hth H Hd r). unfold onL; cbn [la lb lc].
    rewrite <- cross3_line_raw. reflexivity.
  - intros. now apply lineOf_total.
  - unfold lineOf. destruct (ptEq th p q); [discriminate|apply lnorm_not_undef].
Qed.
Print Assumptions C139_line_through.
Example C139_ex : lineOf thr0 eO eA = Ok eLOA /\ dirOK thr0 eO eA /\ onL eLOA eA.
Proof.
  destruct ex_OA as (H & D & _). repeat split; auto.
  destruct (C139_line_through thr0 eO eA thr0_ok D) as [K _]. destruct (K _ H) as (_ & G & _). exact G.
Qed.

(** ** C12: the stored representation of a line is canonical *)
Theorem C12_line_canonical : forall th l l', thr_ok th -> lnorm th l = Ok l' ->
  unitL l' /\ storedL th l' /\ lnorm th l' = Ok l' /\
  forall k, k <> 0 -> dblEpsilon th < Rabs k * hypot (la l) (lb l) ->
    lnorm th (mkL (k * la l) (k * lb l) (k * lc l)) = Ok l'.
Proof.
  intros th l l' Hth H. split; [apply (lnorm_unit th l l' Hth H)|].
  split; [exact (lnorm_stored th l l' Hth H)|]. split; [exact (lnorm_idem th l l' Hth H)|].
  intros k Hk Hs. exact (lnorm_scale th l l' k Hth Hk H Hs).
Qed.
Print Assumptions C12_line_canonical.
(** Which triples are rejected: exactly those whose (a,b) is null up to machine epsilon. *)
Theorem C12_line_rejected : forall th l, lnorm th l = Throw <-> hypot (la l) (lb l) <= dblEpsilon th.
Proof. exact lnorm_throw. Qed.
Print Assumptions C12_line_rejected.
Example C12_ex : lnorm thr0 (mkL 4 (-3) 10) = Ok (mkL (4 / 5) (- (3 / 5)) 2) /\
  lnorm thr0 (mkL (-2 * 4) (-2 * -3) (-2 * 10)) = Ok (mkL (4 / 5) (- (3 / 5)) 2).
Proof.
  assert (H : lnorm thr0 (mkL 4 (-3) 10) = Ok (mkL (4 / 5) (- (3 / 5)) 2)).
  { rewrite (lnorm_eval thr0 _ _ _ 5 thr0_ok); unfold thr0; cbn [dblEpsilon nullDenom]; rnum; try lra.
    f_equal. f_equal; field. }
  split; [exact H|]. destruct (C12_line_canonical thr0 _ _ thr0_ok H) as (_ & _ & _ & K).
  apply (K (-2)); [lra|]. cbn [la lb]. rewrite (hypot_val _ _ 5) by lra. rewrite Rabs_left by lra.
  unfold thr0; cbn [dblEpsilon]; rnum; lra.
Qed.

(** ** C13: line/point distance is the minimum distance *)
Theorem C13_dist_is_min : forall l p, proper l ->
  (forall q, onL l q -> lineDist l p <= edist p q) /\ (exists q, onL l q /\ edist p q = lineDist l p).
Proof.
  intros l p Hl. split.
  - intros q Hq. exact (lineDist_lower l p q Hl Hq).
  - exists (proj l p). split; [exact (proj_on l p Hl)|exact (proj_dist l p Hl)].
Qed.
Print Assumptions C13_dist_is_min.
Example C13_ex : proper (mkL 4 (-3) 10) /\ lineDist (mkL 4 (-3) 10) (mkPt 0 0) = 2.
Proof.
  split; [left; cbn [la]; lra|]. unfold lineDist; cbn [la lb lc px py]. rewrite (hypot_val _ _ 5) by lra. rnum.
  rewrite Rabs_right; lra.
Qed.

(** ** C14: the angle between lines *)
Theorem C14_angle : forall l m, proper l -> proper m ->
  0 <= lineAngle l m <= PI / 2 /\ lineAngle l m = lineAngle m l /\
  (lineAngle l m = 0 <-> paraL l m) /\ (lineAngle l m = PI / 2 <-> orthoL l m).
Proof.
  intros l m Hl Hm. split; [exact (lineAngle_range l m Hl Hm)|]. split; [exact (lineAngle_sym l m Hl Hm)|].
  split; [exact (lineAngle_para l m Hl Hm)|exact (lineAngle_ortho l m Hl Hm)].
Qed.
Print Assumptions C14_angle.
Theorem C14_parallel_relation : forall th l m, thr_ok th -> proper l -> proper m ->
  isParallel th l l = true /\ isParallel th l m = isParallel th m l /\
  (paraL l m -> isParallel th l m = true) /\ (orthoL l m -> isParallel th l m = false).
Proof.
  intros th l m Hth Hl Hm. split; [|split; [|split]].
  - apply isParallel_para; auto. unfold paraL; ring.
  - apply isParallel_sym; auto.
  - intros; apply isParallel_para; auto.
  - intros Ho. unfold isParallel. apply Rltb_false.
    rewrite (proj2 (lineAngle_ortho l m Hl Hm) Ho). pose proof (thr_angl th Hth). rnum. lra.
Qed.
Print Assumptions C14_parallel_relation.
Example C14_ex : lineAngle (mkL 3 4 1) (mkL (-4) 3 7) = PI / 2 /\ lineAngle (mkL 3 4 1) (mkL (-6) (-8) 7) = 0.
Proof.
  split.
  - apply (C14_angle (mkL 3 4 1) (mkL (-4) 3 7)); try (left; cbn [la]; lra). unfold orthoL; cbn [la lb]; lra.
  - apply (C14_angle (mkL 3 4 1) (mkL (-6) (-8) 7)); try (left; cbn [la]; lra). unfold paraL; cbn [la lb]; lra.
Qed.

(** ** C15: lines that compare equal are the same line *)
Theorem C15_refuted : exists l m p, storedL thr0 l /\ storedL thr0 m /\
  lineEq thr0 l m = true /\ onL l p /\ edist p (mkPt 0 0) < 6 /\ forall q, onL m q -> edist p q > 9.
Proof.
  exists eL1, eL2, eP. split; [apply eL_stored|]. split; [apply eL_stored|].
  split; [exact eL_equal|]. split; [exact eP_on|]. split.
  - rewrite (edist_val eP (mkPt 0 0) (5 * 1000000000001 / 999999999999)); [lra|lra|]. cbn [px py eP]. lra.
  - intros q Hq. pose proof (lineDist_lower eL2 eP q (unit_proper _ eL2_unit) Hq). pose proof eP_far. lra.
Qed.
Print Assumptions C15_refuted.

(** ** C16: intersection of two lines *)
Theorem C16_meet : forall th l m, thr_ok th -> proper l -> proper m ->
  (forall q, meet th l m = Ok q -> onL l q /\ onL m q /\ forall r, onL l r -> onL m r -> r = q) /\
  meet th l m = meet th m l /\
  (meet th l m = Throw <-> isParallel th l m = true) /\ meet th l m <> Undef.
Proof.
  intros th l m Hth Hl Hm. split; [|split; [|split]].
  - intros q H. destruct (meet_on th l m q Hth Hl Hm H). repeat split; auto.
    intros r A B. exact (meet_unique th l m q r Hth Hl Hm H A B).
  - exact (meet_sym th l m Hth Hl Hm).
  - destruct (isParallel th l m) eqn:E; split; intros H; try discriminate; auto.
    + unfold meet, meetH. now rewrite E.
    + destruct (meet_total th l m Hth Hl Hm E) as [q Hq]. congruence.
  - destruct (isParallel th l m) eqn:E.
    + unfold meet, meetH. rewrite E. discriminate.
    + destruct (meet_total th l m Hth Hl Hm E) as [q Hq]. rewrite Hq. discriminate.
Qed.
Print Assumptions C16_meet.
Example C16_ex : meet thr0 eLOA (mkL 0 1 (-4)) = Ok (mkPt 3 4).
Proof.
  assert (U1 : unitL eLOA) by (unfold unitL, eLOA; cbn [la lb]; lra).
  assert (U2 : unitL (mkL 0 1 (-4))) by (unfold unitL; cbn [la lb]; lra).
  destruct (meet_total thr0 eLOA (mkL 0 1 (-4)) thr0_ok) as [q Hq]; try (apply unit_proper; auto).
  - apply notParallel_eval; auto using thr0_ok; unfold thr0, eLOA; cbn [nullAngleValue la lb]; rnum; try lra.
    rewrite Rabs_left; lra.
  - rewrite Hq. f_equal. symmetry. apply (meet_unique thr0 eLOA (mkL 0 1 (-4)) q); auto using thr0_ok, unit_proper.
    + unfold onL, eLOA; cbn [la lb lc px py]; lra.
    + unfold onL; cbn [la lb lc px py]; lra.
Qed.

(** ** C17: join and meet are dual *)
Theorem C17_join_meet : forall th p q r l m x, thr_ok th -> dirOK th p q -> dirOK th p r ->
  lineOf th p q = Ok l -> lineOf th p r = Ok m -> meet th l m = Ok x -> x = p.
Proof. exact join_meet. Qed.
Print Assumptions C17_join_meet.
Example C17_ex : exists x, lineOf thr0 eO eA = Ok eLOA /\ lineOf thr0 eO eB = Ok (mkL 0 1 0) /\
  dirOK thr0 eO eA /\ dirOK thr0 eO eB /\ meet thr0 eLOA (mkL 0 1 0) = Ok x.
Proof.
  destruct ex_OA as (A & B & C & D).
  destruct (meet_total thr0 eLOA (mkL 0 1 0) thr0_ok) as [q Hq].
  - apply unit_proper. unfold unitL, eLOA; cbn [la lb]; lra.
  - apply unit_proper. unfold unitL; cbn [la lb]; lra.
  - apply notParallel_eval; auto using thr0_ok; unfold unitL, thr0, eLOA; cbn [nullAngleValue la lb]; rnum; try lra.
    rewrite Rabs_left; lra.
  - exists q. auto.
Qed.

(** ** C18: orthogonal and parallel lines *)

(** Full statement for getOrthogLine: for every stored line, the result passes through p and is
    orthogonal.  False for almost vertical lines: *)
Theorem C18_orthog_refuted : exists l p o, storedL thr0 l /\ getOrthogLine thr0 l p = Ok o /\
  lineDist o p > / 100000.
Proof.
  exists wV, (mkPt 1000000 0), wVo. split; [|split; [exact wVo_eq|]].
  - wbd. split; [unfold unitL, wV; cbn [la lb]; lra|]. unfold wV, thr0; cbn [la lb nullDenom]; rnum. split; lra.
  - wbd. rewrite lineDist_unit by apply wVo_unit. unfold wVo; cbn [la lb lc px py]. rewrite Rabs_right; lra.
Qed.
Print Assumptions C18_orthog_refuted.
(** ** C144: positive part of C18 *)
Theorem C144_orthog : forall th l p, thr_ok th -> unitL l -> orthOK th l ->
  exists o, getOrthogLine th l p = Ok o /\ onL o p /\ orthoL l o /\ unitL o.
Proof.
  intros th l p Hth Hu Hz. destruct (getOrthogLine_total th l p Hth Hu) as [o Ho].
  exists o. destruct (getOrthogLine_same th l p o Hth Hu Hz Ho) as (_ & A & B & C). auto.
Qed.
Print Assumptions C144_orthog.
Theorem C144_parallel : forall th l p, thr_ok th -> storedL th l ->
  exists m, getParallelLine th l p = Ok m /\ onL m p /\ paraL l m /\ unitL m.
Proof.
  intros th l p Hth Hs. eexists. split; [exact (getParallelLine_ok th l p Hth Hs)|].
  destruct Hs as [Hu _]. unfold onL, paraL, unitL in *; cbn [la lb lc]. repeat split; lra.
Qed.
Print Assumptions C144_parallel.
Theorem C144_parallel_pair : forall l d p, unitL l ->
  (onL (fst (getParallelLines l d)) p \/ onL (snd (getParallelLines l d)) p) <-> lineDist l p = Rabs d.
Proof. exact getParallelLines_dist. Qed.
Print Assumptions C144_parallel_pair.
Example C144_ex : storedL thr0 eLOA /\ orthOK thr0 eLOA /\ exists o, getOrthogLine thr0 eLOA eA = Ok o /\ onL o eA /\ orthoL eLOA o.
Proof.
  assert (S : storedL thr0 eLOA).
  { split; [unfold unitL, eLOA; cbn [la lb]; lra|]. unfold eLOA, thr0; cbn [la lb nullDenom]; rnum; split; lra. }
  assert (O : orthOK thr0 eLOA).
  { right. unfold eLOA, thr0; cbn [lb nullDenom]; rnum. rewrite Rabs_left; lra. }
  repeat split; try apply S; auto.
  destruct (C144_orthog thr0 eLOA eA thr0_ok (proj1 S) O) as (o & H). exists o. tauto.
Qed.

(** ** C20: orthogonal segment *)
Theorem C20_orthog_segment : forall th l p, thr_ok th -> unitL l -> orthOK th l -> nullDistance th <= lineDist l p ->
  exists a, getOrthogSegment th l p = Ok (a, p) /\ onL l a /\ edist a p = lineDist l p /\
    (forall q, onL l q -> edist a p <= edist q p).
Proof.
  intros th l p Hth Hu Hz Hd. destruct (getOrthogSegment_total th l p Hth Hu Hz Hd) as [a Ha].
  exists a. destruct (getOrthogSegment_spec th l p a p Hth Hu Hz Ha) as (_ & A & _ & B).
  repeat split; auto. intros q Hq. rewrite B, (edist_sym q p).
  exact (lineDist_lower l p q (unit_proper l Hu) Hq).
Qed.
Print Assumptions C20_orthog_segment.
Example C20_ex : unitL eLOA /\ orthOK thr0 eLOA /\ nullDistance thr0 <= lineDist eLOA eB /\ lineDist eLOA eB = 12 / 5.
Proof.
  assert (U : unitL eLOA) by (unfold unitL, eLOA; cbn [la lb]; lra).
  assert (D : lineDist eLOA eB = 12 / 5).
  { rewrite lineDist_unit by exact U. unfold eLOA, eB; cbn [la lb lc px py]. rewrite Rabs_right; lra. }
  repeat split; auto.
  - right. unfold eLOA, thr0; cbn [lb nullDenom]; rnum. rewrite Rabs_left; lra.
  - rewrite D. unfold thr0; cbn [nullDistance]; rnum; lra.
Qed.

(** ** C21: points at a given distance along a line *)
Theorem C21_points_at_distance : forall th l p d, thr_ok th -> proper l -> onL l p ->
  exists a b, getPoints th l p d = Ok (a, b) /\ onL l a /\ onL l b /\
    edist p a = Rabs d /\ edist p b = Rabs d /\ ~ lexlt b a /\
    px a + px b = 2 * px p /\ py a + py b = 2 * py p.
Proof.
  intros th l p d Hth Hl Hp. pose proof (getPoints_on_ok th l p d Hth Hl Hp) as H.
  destruct (getPoints_B2 p d l) as [a b]. exists a, b.
  destruct (getPoints_spec th l p d a b Hl Hp H) as (A & B & C & D & E & F & G). auto 10.
Qed.
Print Assumptions C21_points_at_distance.
(** getPoint / getCoord *)
Theorem C21_point_given_coord : forall th l gx v q, thr_ok th -> getPoint th l gx v = Ok q ->
  onL l q /\ (if gx then px q = v else py q = v).
Proof. exact getPoint_on. Qed.
Print Assumptions C21_point_given_coord.
Example C21_ex : proper eLOA /\ onL eLOA eA /\ getPoint thr0 eLOA true 6 = Ok (mkPt 6 8).
Proof.
  repeat split.
  - apply unit_proper. unfold unitL, eLOA; cbn [la lb]; lra.
  - unfold onL, eLOA, eA; cbn [la lb lc px py]; lra.
  - unfold getPoint, getCoord, eLOA; cbn [la lb lc]; rnum.
    rewrite (proj2 (Rltb_false _ _)).
    + cbn [bind]. f_equal. f_equal. field.
    + unfold thr0; cbn [nullDenom]; rnum. rewrite Rabs_left; lra.
Qed.

(** ** C22: order on points *)
Theorem C22_strict_total_order : forall p q r : pt R,
  ptLt p p = false /\ (ptLt p q = true -> ptLt q r = true -> ptLt p r = true) /\
  (ptLt p q = true \/ p = q \/ ptLt q p = true) /\
  (ptLt p q = true -> ptLt q p = false).
Proof.
  intros p q r. rewrite !ptLt_spec, !ptLt_false. split; [apply lexlt_irrefl|]. split; [apply lexlt_trans|].
  split; [apply lexlt_total|]. intros A B. exact (lexlt_irrefl p (lexlt_trans _ _ _ A B)).
Qed.
Print Assumptions C22_strict_total_order.
Theorem C22_fix_order : forall p q a b : pt R, fixOrder p q = (a, b) ->
  ~ lexlt b a /\ ((a = p /\ b = q) \/ (a = q /\ b = p)) /\ fixOrder a b = (a, b) /\ fixOrder q p = (a, b).
Proof.
  intros p q a b H. destruct (fixOrder_spec p q a b H) as [A B]. repeat split; auto.
  - destruct (lexlt_total a b) as [C|[->|C]].
    + now apply fixOrder_id.
    + unfold fixOrder. destruct (negb _); reflexivity.
    + contradiction.
  - now rewrite fixOrder_sym.
Qed.
Print Assumptions C22_fix_order.
Example C22_ex : ptLt (mkPt 1 5) (mkPt 2 0) = true /\ ptLt (mkPt 2 0) (mkPt 2 1) = true.
Proof. rewrite !ptLt_spec. unfold lexlt; cbn [px py]. split; lra. Qed.

(** ** C23: point equality *)
Theorem C23_transitive_refuted : exists p q r, ptEq thr0 p q = true /\ ptEq thr0 q r = true /\ ptEq thr0 p r = false.
Proof. exists (tP 0), (tP 1), (tP 2). exact tP_nontrans. Qed.
Print Assumptions C23_transitive_refuted.
(** ** C146: positive part of C23 *)
(** What holds: reflexive, symmetric, and tolerance-transitive (the distances add up). *)
Theorem C146_tolerance : forall th p q r, thr_ok th ->
  ptEq th p p = true /\ ptEq th p q = ptEq th q p /\
  (ptEq th p q = true -> ptEq th q r = true -> edist p r < 2 * nullDistance th).
Proof.
  intros th p q r Hth. split; [exact (ptEq_refl th p Hth)|]. split; [exact (ptEq_sym th p q)|].
  rewrite !ptEq_spec. intros A B. pose proof (edist_triang p q r). lra.
Qed.
Print Assumptions C146_tolerance.
Example C146_ex : ptEq thr0 (tP 0) (tP 1) = true /\ tP 0 <> tP 1.
Proof. split; [apply tP_nontrans|]. unfold tP. intros H. injection H. intros. lra. Qed.
(** On binary64: a point at infinity is not equal to itself (its coordinates are not finite). *)
Section C23_float.
  Import Floats.
  Local Existing Instance FNum.
  (** Same computation as [ptEq] on the quotients getX()/getY(). *)
  Definition ptEqH (th : thrs float) (a b : hpt float) : bool :=
    ptEq th (mkPt (ndiv (h0 a) (h2 a)) (ndiv (h1 a) (h2 a))) (mkPt (ndiv (h0 b) (h2 b)) (ndiv (h1 b) (h2 b))).
  Example C23_infinity_not_reflexive : ptEqH thr0 (mkH 1 2 0)%float (mkH 1 2 0)%float = false.
  Proof. vm_compute. reflexivity. Qed.
End C23_float.

(** ** C24: collinearity test *)

(** Full statement: for every triple, areCollinear is order-independent and true exactly for thin
    triangles.  The second clause is false in the sign-fix zone, even for exactly aligned points: *)
Theorem C24_refuted : exists p q r, cross3 p q r = 0 /\ areCollinear thr0 p q r = Ok false.
Proof. exists wO, wM, wQ. exact areCollinear_bad. Qed.
Print Assumptions C24_refuted.
(** ** C147: positive part of C24 *)
Theorem C147_collinear : forall th p q r, thr_ok th -> dblEpsilon th < nullDistance th ->
  dirOK th p q -> dirOK th q r -> dirOK th p r ->
  exists b, (forall p' q' r', Permutation [p; q; r] [p'; q'; r'] -> areCollinear th p' q' r' = Ok b) /\
            (b = true <-> thinTriangle (nullDistance th) p q r).
Proof.
  intros th p q r Hth Hde D1 D2 D3. destruct (areCollinear_char th p q r) as (b & Hb & Hc); auto.
  exists b. split; auto. intros p' q' r' HP. rewrite <- Hb. now apply areCollinear_perm.
Qed.
Print Assumptions C147_collinear.
Example C147_ex : dblEpsilon (thr0 (T := R)) < nullDistance thr0 /\ dirOK thr0 eO eA /\ dirOK thr0 eA eB /\ dirOK thr0 eO eB
  /\ ~ thinTriangle (nullDistance thr0) eO eA eB.
Proof.
  assert (D : edist eO eA = 5) by (apply edist_val; [lra|cbn [px py eO eA]; lra]).
  assert (D2 : edist eO eB = 3) by (apply edist_val; [lra|cbn [px py eO eB]; lra]).
  assert (D3 : edist eA eB = 4) by (apply edist_val; [lra|cbn [px py eA eB]; lra]).
  repeat split; try apply ex_OA.
  - unfold thr0; cbn [dblEpsilon nullDistance]; rnum; lra.
  - apply dirOK_eval. right. rewrite D3. cbn [py eA eB]. rewrite Rabs_right; lra.
  - unfold thinTriangle, maxSide, thr0. rewrite D, D2, D3. unfold cross3, eO, eA, eB; cbn [px py nullDistance]; rnum.
    rewrite Rabs_left by lra. rewrite (Rmax_left 4 3), (Rmax_left 5 4) by lra. lra.
Qed.
