(** * Proofs about points and lines: constructions, collinearity, counter-examples *)

From Coq Require Import Reals ZArith List Bool Lra Lia Psatz.
From Verif Require Import Num M_LP S_Geom P_LP P_LP2.
Local Open Scope R_scope.
Implicit Types (th : thrs R) (l m : line R) (p q r : pt R).


Lemma lnorm_stored th l l' : thr_ok th -> lnorm th l = Ok l' -> storedL th l'.
Proof. intros Hth H. destruct (lnorm_inv th l l' Hth H) as (_ & _ & Hu & Hp & Hb & _). split; auto. Qed.

(** A stored line is unchanged by normalisation, whatever its third value. *)
Lemma lnorm_fix th l c : thr_ok th -> storedL th l -> lnorm th (mkL (la l) (lb l) c) = Ok (mkL (la l) (lb l) c).
Proof.
  intros Hth (Hu & Hp & Hb). unfold lnorm. cbn [la lb lc]. rewrite (hypot_unit _ _ Hu). rnum.
  pose proof (thr_deps th Hth).
  destruct (Rleb 1 (dblEpsilon th)) eqn:E; rclean; [lra|]. cbn [la lb lc]. rewrite !div1.
  destruct (Rltb (la l) 0) eqn:Ea; rclean; [lra|]. cbn [la lb lc].
  destruct (Rltb (Rabs (la l)) (nullDenom th)) eqn:Ed; rclean; auto.
  rewrite Rabs_right in Ed by lra. specialize (Hb Ed).
  destruct (Rltb (lb l) 0) eqn:Eb; rclean; [lra|auto].
Qed.

Lemma getParallelLine_ok th l p : thr_ok th -> storedL th l ->
  getParallelLine th l p = Ok (mkL (la l) (lb l) (- la l * px p - lb l * py p)).
Proof. intros. unfold getParallelLine. now apply lnorm_fix. Qed.

Lemma getParallelLines_dist l d p : unitL l ->
  let (l1, l2) := getParallelLines l d in
  (onL l1 p \/ onL l2 p) <-> lineDist l p = Rabs d.
Proof.
  intros Hu. unfold getParallelLines. rewrite lineDist_unit by auto. unfold onL; cbn [la lb lc]. rnum.
  set (e := la l * px p + lb l * py p). split.
  - intros [H|H].
    + replace (e + lc l) with (- d) by lra. apply Rabs_Ropp.
    + replace (e + lc l) with d by lra. reflexivity.
  - intros H. unfold Rabs in H. destruct (Rcase_abs (e + lc l)), (Rcase_abs d); lra.
Qed.

(** Orthogonal line *)
Lemma getOrthogLine_lnorm th l p o : thr_ok th -> getOrthogLine th l p = Ok o ->
  lnorm th (mkL (- lb l) (la l) (lb l * px p - la l * py p)) = Ok o.
Proof.
  intros Hth H. unfold getOrthogLine, lineSet3 in H. apply bind_ok in H. destruct H as (o1 & H1 & H2). rnum.
  pose proof (lnorm_idem th _ _ Hth H1) as H3. congruence.
Qed.
Lemma getOrthogLine_total th l p : thr_ok th -> unitL l -> exists o, getOrthogLine th l p = Ok o.
Proof.
  intros Hth Hu. unfold getOrthogLine, lineSet3; rnum.
  destruct (lnorm_ok th (mkL (- lb l) (la l) (lb l * px p - la l * py p))) as [o Ho].
  { cbn [la lb]. rewrite hypot_unit; [apply (thr_deps th) in Hth; lra|]. unfold unitL in Hu. lra. }
  rewrite Ho. cbn [bind]. exists o. now apply lnorm_idem in Ho.
Qed.
Lemma getOrthogLine_same th l p o : thr_ok th -> unitL l -> orthOK th l -> getOrthogLine th l p = Ok o ->
  sameLine o (mkL (- lb l) (la l) (lb l * px p - la l * py p)) /\ orthoL l o /\ onL o p /\ unitL o.
Proof.
  intros Hth Hu Hz H. apply getOrthogLine_lnorm in H; auto.
  assert (Hh : hypot (- lb l) (la l) = 1) by (apply hypot_unit; unfold unitL in Hu; lra).
  assert (Hs : sameLine o (mkL (- lb l) (la l) (lb l * px p - la l * py p))).
  { apply (lnorm_same _ _ _ Hth H). cbn [la lb]. rewrite Hh, Rabs_Ropp.
    destruct Hz; [left; lra|right; lra]. }
  split; auto. pose proof (lnorm_unit _ _ _ Hth H) as [Ho _]. split; [|split; auto].
  - destruct (lnorm_inv _ _ _ Hth H) as (_ & Ha & _ & _ & _ & [(k & _ & _ & ->)|(Hf & k & _ & Hk & _)]).
    + unfold orthoL, scaleL; cbn [la lb]. ring.
    + exfalso. cbn [la lb] in Ha. rewrite Hh, Rabs_Ropp, div1 in Ha.
      destruct Hz as [E|E]; [rewrite E, Rabs_R0 in Ha; lra|lra].
  - apply Hs. unfold onL; cbn [la lb lc]. ring.
Qed.

(** The perpendicular through p meets a unit line at the orthogonal projection. *)
Lemma ortho_notpar th l o : thr_ok th -> unitL l -> unitL o -> orthoL l o -> isParallel th l o = false.
Proof.
  intros Hth Hl Ho H. unfold isParallel. apply Rltb_false.
  rewrite (proj2 (lineAngle_ortho l o (unit_proper _ Hl) (unit_proper _ Ho)) H).
  pose proof (thr_angl th Hth). rnum. lra.
Qed.

Lemma getOrthogSegment_spec th l p a b : thr_ok th -> unitL l -> orthOK th l ->
  getOrthogSegment th l p = Ok (a, b) ->
  b = p /\ onL l a /\ a = proj l p /\ edist a b = lineDist l p.
Proof.
  intros Hth Hu Hz H. unfold getOrthogSegment in H.
  destruct (_ <? nullDistance th)%num eqn:E0; [discriminate|].
  unfold getParallelLines in H. cbv beta iota zeta in H.
  set (pl := if (_ <? nullDistance th)%num then _ else _) in H.
  assert (Hpl : unitL pl /\ la pl = la l /\ lb pl = lb l).
  { unfold pl. match goal with |- context [if ?b then _ else _] => destruct b end; split; auto. }
  destruct Hpl as (Hup & Hpa & Hpb). clearbody pl.
  apply bind_ok in H. destruct H as (o & Ho & H).
  apply bind_ok in H. destruct H as (p2 & Hm & H).
  destruct (ptEq th p2 p) eqn:Epp; [discriminate|]. injection H as <- <-.
  assert (Hzp : orthOK th pl) by (unfold orthOK in *; rewrite Hpb; auto).
  destruct (getOrthogLine_same th pl p o Hth Hup Hzp Ho) as (Hs & Horth & Hop & Huo).
  assert (Horth' : orthoL l o) by (unfold orthoL in *; rewrite Hpa, Hpb in Horth; auto).
  pose proof (unit_proper _ Hu) as Hpl. pose proof (unit_proper _ Huo) as Hpo.
  destruct (meet_on th l o p2 Hth Hpl Hpo Hm) as [M1 M2].
  assert (P2 : onL o (proj l p)).
  { apply Hs. unfold onL, proj; cbn [la lb lc px py]. rewrite Hpa, Hpb. ring. }
  assert (p2 = proj l p).
  { symmetry. apply (meet_unique th l o p2 (proj l p)); auto. now apply proj_on. }
  subst p2. repeat split; auto. rewrite edist_sym. now apply proj_dist.
Qed.
Lemma getOrthogSegment_total th l p : thr_ok th -> unitL l -> orthOK th l ->
  nullDistance th <= lineDist l p -> exists a, getOrthogSegment th l p = Ok (a, p).
Proof.
  intros Hth Hu Hz Hd. unfold getOrthogSegment.
  destruct (_ <? nullDistance th)%num eqn:E0; [apply Rltb_spec in E0; lra|].
  unfold getParallelLines. cbv beta iota zeta.
  set (pl := if (_ <? nullDistance th)%num then _ else _).
  assert (Hpl : unitL pl /\ la pl = la l /\ lb pl = lb l).
  { unfold pl. match goal with |- context [if ?b then _ else _] => destruct b end; split; auto. }
  destruct Hpl as (Hup & Hpa & Hpb). clearbody pl.
  destruct (getOrthogLine_total th pl p Hth Hup) as [o Ho]. rewrite Ho. cbn [bind].
  assert (Hzp : orthOK th pl) by (unfold orthOK in *; rewrite Hpb; auto).
  destruct (getOrthogLine_same th pl p o Hth Hup Hzp Ho) as (Hs & Horth & Hop & Huo).
  assert (Horth' : orthoL l o) by (unfold orthoL in *; rewrite Hpa, Hpb in Horth; auto).
  pose proof (unit_proper _ Hu) as Hpl. pose proof (unit_proper _ Huo) as Hpo.
  destruct (meet_total th l o Hth Hpl Hpo) as [p2 Hm]; [now apply ortho_notpar|].
  rewrite Hm. cbn [bind].
  destruct (meet_on th l o p2 Hth Hpl Hpo Hm) as [M1 M2].
  assert (P2 : onL o (proj l p)).
  { apply Hs. unfold onL, proj; cbn [la lb lc px py]. rewrite Hpa, Hpb. ring. }
  assert (proj l p = p2).
  { apply (meet_unique th l o p2 (proj l p)); auto. now apply proj_on. }
  subst p2. rewrite (proj2 (ptEq_false th (proj l p) p)); eauto.
  rewrite edist_sym, proj_dist; auto.
Qed.

(** Points at a given distance *)
Lemma getPoints_B2_spec p d l a b : proper l -> getPoints_B2 p d l = (a, b) ->
  let n := hypot (la l) (lb l) in
  let u := mkPt (px p - lb l * (d / n)) (py p + la l * (d / n)) in
  let v := mkPt (px p + lb l * (d / n)) (py p - la l * (d / n)) in
  ~ lexlt b a /\ ((a = u /\ b = v) \/ (a = v /\ b = u)).
Proof. intros Hl H n u v. unfold getPoints_B2 in H. apply fixOrder_spec in H. exact H. Qed.
Lemma getPoints_spec th l p d a b : proper l -> onL l p -> getPoints th l p d = Ok (a, b) ->
  onL l a /\ onL l b /\ edist p a = Rabs d /\ edist p b = Rabs d
  /\ px a + px b = 2 * px p /\ py a + py b = 2 * py p /\ ~ lexlt b a.
Proof.
  intros Hl Hp H. unfold getPoints in H. destruct (_ <? _)%num; [discriminate|]. injection H as H.
  apply (getPoints_B2_spec p d l a b Hl) in H. cbv zeta in H.
  pose proof (proper_hypot l Hl) as Hn. set (n := hypot (la l) (lb l)) in *.
  assert (D1 : forall s : R, s * s = 1 -> edist p (mkPt (px p + s * lb l * (d / n)) (py p - s * la l * (d / n))) = Rabs d).
  { intros s Hs. rewrite edist_hypot; cbn [px py].
    replace (px p - (px p + s * lb l * (d / n))) with ((- s * (d / n)) * lb l) by ring.
    replace (py p - (py p - s * la l * (d / n))) with ((- s * (d / n)) * - la l) by ring.
    rewrite hypot_scale. replace (hypot (lb l) (- la l)) with n.
    2:{ unfold n, hypot; rnum. f_equal. ring. }
    rewrite Rabs_mult, Rabs_Ropp. assert (Rabs s = 1) as ->.
    { unfold Rabs. destruct (Rcase_abs s); nra. }
    unfold Rdiv. rewrite Rabs_mult, (Rabs_right (/ n)) by (apply Rle_ge, Rlt_le, Rinv_0_lt_compat; lra).
    field. lra. }
  assert (A : edist p (mkPt (px p - lb l * (d / n)) (py p + la l * (d / n))) = Rabs d).
  { rewrite <- (D1 (-1) ltac:(lra)). f_equal. f_equal; ring. }
  assert (B : edist p (mkPt (px p + lb l * (d / n)) (py p - la l * (d / n))) = Rabs d).
  { rewrite <- (D1 1 ltac:(lra)). f_equal. f_equal; ring. }
  clear D1. unfold onL in *. destruct H as [Ho [[-> ->]|[-> ->]]]; cbn [px py] in *;
    repeat split; auto; try lra.
Qed.
Lemma getPoints_on_ok th l p d : thr_ok th -> proper l -> onL l p -> getPoints th l p d = Ok (getPoints_B2 p d l).
Proof.
  intros Hth Hl Hp. unfold getPoints.
  assert (E : (nullDistance th <? lineDist l p)%num = false); [|now rewrite E].
  apply Rltb_false. rewrite (proj2 (lineDist_zero l p Hl) Hp). apply Rlt_le, (thr_dist th Hth).
Qed.

(** getCoord / getPoint *)
Lemma getPoint_on th l gx v q : thr_ok th -> getPoint th l gx v = Ok q ->
  onL l q /\ (if gx then px q = v else py q = v).
Proof.
  intros Hth H. unfold getPoint, getCoord in H. pose proof (thr_deno th Hth) as Hd.
  destruct (_ <? nullDenom th)%num eqn:E; [discriminate|]. apply Rltb_false in E.
  unfold onL. destruct gx; cbn [bind] in H; injection H as <-; cbn [px py]; rnum; split; auto.
  - assert (lb l <> 0). { intros C. rewrite C, Rabs_R0 in E. lra. } field. auto.
  - assert (la l <> 0). { intros C. rewrite C, Rabs_R0 in E. lra. } field. auto.
Qed.

(** side *)
Lemma side_spec th p l : thr_ok th -> unitL l ->
  (side th p l = 0%Z <-> lineDist l p < nullDistance th) /\
  (side th p l = 1%Z <-> nullDistance th <= la l * px p + lb l * py p + lc l) /\
  (side th p l = (-1)%Z <-> la l * px p + lb l * py p + lc l <= - nullDistance th).
Proof.
  intros Hth Hu. rewrite lineDist_unit by auto. pose proof (thr_dist th Hth). unfold side; rnum.
  set (d := la l * px p + lb l * py p + lc l).
  destruct (Rltb (Rabs d) (nullDistance th)) eqn:E; rclean.
  - revert E. unfold Rabs. destruct (Rcase_abs d); intros; repeat split; intros; try discriminate; try lra.
  - destruct (Rltb d 0) eqn:E1; rclean; revert E; unfold Rabs; destruct (Rcase_abs d); intros;
      repeat split; intros; try discriminate; try lra.
Qed.

(** ** Collinearity *)

Lemma sqDist_edist p q : sqDist p q = edist p q * edist p q.
Proof. rewrite edist_sq. reflexivity. Qed.
Lemma sqDist_le p q r s : sqDist p q <= sqDist r s -> edist p q <= edist r s.
Proof.
  rewrite !sqDist_edist. intros H. apply Rsqr_incr_0_var; [exact H|apply edist_pos].
Qed.

(** The three sides in the order computed by the code. *)
Lemma largest_spec p1 p2 p3 a b c : getLargestDistancePoints p1 p2 p3 = (a, b, c) ->
  edist b c <= edist a c <= edist a b /\
  ((a, b, c) = (p1, p2, p3) \/ (a, b, c) = (p2, p1, p3) \/ (a, b, c) = (p2, p3, p1)
   \/ (a, b, c) = (p1, p3, p2) \/ (a, b, c) = (p3, p1, p2) \/ (a, b, c) = (p3, p2, p1)).
Proof.
  unfold getLargestDistancePoints; rnum.
  assert (S : forall p q, sqDist p q = sqDist q p) by (intros; unfold sqDist; rnum; ring).
  repeat rcase1; rclean; intros [= <- <- <-];
  (split; [split; apply sqDist_le; rewrite ?(S p3 p1), ?(S p3 p2), ?(S p2 p1); lra|tauto]).
Qed.

Lemma cross3_line_raw p q r :
  (py p - py q) * px r + (px q - px p) * py r + (px p * py q - py p * px q) = cross3 p q r.
Proof. unfold cross3. ring. Qed.

(** Distance of a third point to the stored line, when the direction is not in the sign-fix zone. *)
Lemma lineOf_dist th p q l r : thr_ok th -> lineOf th p q = Ok l -> dirOK th p q ->
  lineDist l r = Rabs (cross3 p q r) / edist p q.
Proof.
  intros Hth H Hd. apply lineOf_inv in H. destruct H as [Hdist H].
  destruct (lnorm_inv _ _ _ Hth H) as (Hs & Ha & Hu & _ & _ & [(k & Hk & Hk2 & ->)|(Hf & _)]).
  - rewrite lineDist_unit by auto. unfold scaleL; cbn [la lb lc].
    replace (k * (py p - py q) * px r + k * (px q - px p) * py r + k * (px p * py q - py p * px q))
      with (k * cross3 p q r) by (unfold cross3; ring).
    rewrite Rabs_mult, Hk2. cbn [la lb]. rewrite lineOf_hypot. unfold Rdiv. ring.
  - exfalso. cbn [la lb] in *. rewrite lineOf_hypot in *. pose proof (thr_deps th Hth).
    rewrite Ha in Hf. destruct Hd as [E|E].
    + replace (py p - py q) with 0 in Hf by lra. rewrite Rabs_R0 in Hf. unfold Rdiv in Hf. lra.
    + assert (nullDenom th <= Rabs (py p - py q) / edist p q); [|lra].
      apply Rmult_le_reg_r with (edist p q); [lra|]. unfold Rdiv. rewrite Rmult_assoc, Rinv_l by lra. lra.
Qed.
Lemma cross3_perm p q r : cross3 q p r = - cross3 p q r /\ cross3 p r q = - cross3 p q r
  /\ cross3 q r p = cross3 p q r /\ cross3 r p q = cross3 p q r /\ cross3 r q p = - cross3 p q r.
Proof. unfold cross3. repeat split; ring. Qed.

