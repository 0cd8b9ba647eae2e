(** * C166: shape of the marks drawn for points *)

From Coq Require Import String Ascii.
From Coq Require Import Reals ZArith QArith Qreals List Bool Arith Lia Lra Psatz.
From Verif Require Import Num M_LP M_Fmt M_Draw M_SvgOut S_Geom S_Xml S_SvgOut P_Seg P_SvgOut.
Import ListNotations.
Local Open Scope R_scope.

(** ** Specification *)
Definition R2 (p : qpt) : pt R := mkPt (Q2R (fst p)) (Q2R (snd p)).
(** Points of a mark of half-width [d] around [c], or [h] for the ones at 45 degrees:
    plus sign, times sign, star, diamond, square. *)
Definition plusAt (c : pt R) (d : R) (q : pt R) : Prop :=
  (px q = px c /\ Rabs (py q - py c) <= d) \/ (py q = py c /\ Rabs (px q - px c) <= d).
Definition timesAt (c : pt R) (h : R) (q : pt R) : Prop := Rabs (px q - px c) = Rabs (py q - py c) /\ Rabs (px q - px c) <= h.
Definition diamondAt (c : pt R) (d : R) (q : pt R) : Prop := Rabs (px q - px c) + Rabs (py q - py c) = d.
Definition squareAt (c : pt R) (h : R) (q : pt R) : Prop := Rmax (Rabs (px q - px c)) (Rabs (py q - py c)) = h.
Definition markAt (style : Z) (c : pt R) (d h : R) (q : pt R) : Prop :=
  match style with
  | 0 => plusAt c d q
  | 1 => timesAt c h q
  | 2 => plusAt c d q \/ timesAt c h q
  | 3 => diamondAt c d q
  | 4 => squareAt c h q
  | _ => False
  end%Z.
(** Points of a list of segments. *)
Definition onSegs (l : list (qpt * qpt)) (q : pt R) : Prop := exists s, In s l /\ onSeg (R2 (fst s)) (R2 (snd s)) q.

(** ** Proofs *)
Lemma order_onSeg a b q : onSeg (R2 (fst (qOrder a b))) (R2 (snd (qOrder a b))) q <-> onSeg (R2 a) (R2 b) q.
Proof. unfold qOrder. destruct (qLt a b); cbn [fst snd]; [tauto|apply onSeg_sym]. Qed.
Lemma R2_move p dx dy : R2 (qMove p dx dy) = mkPt (Q2R (fst p) + IZR dx) (Q2R (snd p) + IZR dy).
Proof.
  assert (E : forall x n, Q2R (Qred (x + inject_Z n)) = Q2R x + IZR n).
  { intros x n. rewrite (Qeq_eqR _ _ (Qred_correct _)), Q2R_plus. f_equal. unfold Q2R, inject_Z. cbn. lra. }
  unfold R2, qMove. cbn [fst snd]. now rewrite !E.
Qed.
(** Segments given by the ends' offsets from the center. *)
Lemma seg_x x y a b e f q : a < e -> onSeg (mkPt (x + a) (y + b)) (mkPt (x + e) (y + f)) q <->
  a <= px q - x <= e /\ (py q - y - b) * (e - a) = (px q - x - a) * (f - b).
Proof.
  intros L. split.
  - intros (t & T & X & Y). cbn [px py] in *. rewrite X, Y. split; [nra|ring].
  - intros (A & B). exists ((px q - x - a) / (e - a)). cbn [px py]. split; [split; [apply Rle_mult_inv_pos; lra|apply Rmult_le_reg_r with (e - a); [lra|]; unfold Rdiv; rewrite Rmult_assoc, Rinv_l by lra; lra]|].
    split; [field; lra|]. apply Rmult_eq_reg_r with (e - a); [|lra]. replace ((y + b + (px q - x - a) / (e - a) * (y + f - (y + b))) * (e - a)) with ((y + b) * (e - a) + (px q - x - a) * (f - b)) by (field; lra). rewrite <- B. ring.
Qed.
Lemma seg_y x y a b e f q : b < f -> onSeg (mkPt (x + a) (y + b)) (mkPt (x + e) (y + f)) q <->
  b <= py q - y <= f /\ (px q - x - a) * (f - b) = (py q - y - b) * (e - a).
Proof.
  intros L. pose proof (seg_x y x b a f e (mkPt (py q) (px q)) L) as H. cbn [px py] in H. rewrite <- H.
  split; intros (t & T & X & Y); exists t; cbn [px py] in *; auto.
Qed.
Lemma seg_0 x y q : onSeg (mkPt (x + 0) (y + 0)) (mkPt (x + 0) (y + 0)) q <-> px q = x /\ py q = y.
Proof.
  split; [intros (t & T & X & Y); cbn [px py] in *; split; lra|]. intros [X Y]. exists 0. cbn [px py]. rewrite X, Y. split; [lra|]. split; ring.
Qed.
Ltac rabs := unfold Rabs in *; repeat destruct (Rcase_abs _); lra.
Ltac rmax := unfold Rmax in *; repeat destruct (Rle_dec _ _); rabs.
Lemma onSegs_order l q : onSegs (map (fun s => qOrder (fst s) (snd s)) l) q <-> onSegs l q.
Proof.
  split.
  - intros (s & I & O). apply in_map_iff in I as (t & <- & I). exists t. split; auto. now apply order_onSeg.
  - intros (s & I & O). exists (qOrder (fst s) (snd s)). split; [apply in_map_iff; eauto|]. now apply order_onSeg.
Qed.
Lemma onSegs_cons s l q : onSegs (s :: l) q <-> onSeg (R2 (fst s)) (R2 (snd s)) q \/ onSegs l q.
Proof. split; [intros (t & [<-|I] & O); [now left|right; exists t; auto]|intros [O|(t & I & O)]; [exists s|exists t]; split; auto; [now left|now right]]. Qed.
Lemma onSegs_nil q : onSegs [] q <-> False.
Proof. split; [intros (t & [] & _)|tauto]. Qed.
Section Shapes.
  Variables (v : dpv) (p : qpt).
  Hypothesis D : (0 <= dPtDelta v)%Z.
  Let d := IZR (dPtDelta v).
  Let h := IZR ((7 * dPtDelta v + 5) / 10).
  Lemma plus_shape q : onSegs (markSegs v KPlus false p) q <-> plusAt (R2 p) d q.
  Proof.
    change (markSegs v KPlus false p) with (map (fun s => qOrder (fst s) (snd s)) [(qMove p (- dPtDelta v) 0, qMove p (dPtDelta v) 0); (qMove p 0 (- dPtDelta v), qMove p 0 (dPtDelta v))]).
    rewrite onSegs_order, !onSegs_cons, onSegs_nil. cbn [fst snd]. rewrite !R2_move, !opp_IZR. fold d. unfold plusAt. cbn [R2 px py].
    assert (0 <= d) by now apply IZR_le. set (x := Q2R (fst p)). set (y := Q2R (snd p)). destruct (Req_dec d 0) as [->|N].
    - rewrite Ropp_0, !seg_0. split; [intros [[A B]|[[A B]|[]]]; left; split; auto; rabs|]. intros [[A B]|[A B]]; left; split; auto; rabs.
    - rewrite seg_x, seg_y by lra. split; [intros [[A B]|[[A B]|[]]]; [right|left]; split; try rabs; nra|]. intros [[A B]|[A B]]; [right; left|left]; split; try rabs; rewrite A; ring.
  Qed.

  Lemma h_pos : 0 <= h.
  Proof. apply IZR_le. apply Z.div_pos; lia. Qed.
  Notation H2 := ((7 * dPtDelta v + 5) / 10)%Z.
  Lemma times_shape q : onSegs (markSegs v KTimes false p) q <-> timesAt (R2 p) h q.
  Proof.
    change (markSegs v KTimes false p) with (map (fun s => qOrder (fst s) (snd s)) [(qMove p (- H2) H2, qMove p H2 (- H2)); (qMove p H2 H2, qMove p (- H2) (- H2))]).
    rewrite onSegs_order, !onSegs_cons, onSegs_nil. cbn [fst snd]. rewrite !R2_move, !opp_IZR. fold h. unfold timesAt. cbn [R2 px py].
    pose proof h_pos. set (x := Q2R (fst p)). set (y := Q2R (snd p)). rewrite (onSeg_sym (mkPt (x + h) (y + h))). destruct (Req_dec h 0) as [->|N].
    - rewrite Ropp_0, !seg_0. split; [intros [[A B]|[[A B]|[]]]; rewrite A, B; split; rabs|]. intros [A B]; left; split; rabs.
    - rewrite !seg_x by lra. split.
      + intros [[A B]|[[A B]|[]]]; [assert (py q - y = - (px q - x)) by (apply (Rmult_eq_reg_r (2 * h)); lra)|assert (py q - y = px q - x) by (apply (Rmult_eq_reg_r (2 * h)); lra)]; split; rabs.
      + intros [A B]. assert (py q - y = - (px q - x) \/ py q - y = px q - x) as [E|E]; [unfold Rabs in A; repeat destruct (Rcase_abs _); lra|left|right; left]; (split; [rabs|]); rewrite E; ring.
  Qed.
  Lemma diamond_shape q : onSegs (markSegs v KPlus true p) q <-> diamondAt (R2 p) d q.
  Proof.
    change (markSegs v KPlus true p) with (map (fun s => qOrder (fst s) (snd s))
      [(qMove p (- dPtDelta v) 0, qMove p 0 (- dPtDelta v)); (qMove p 0 (- dPtDelta v), qMove p (dPtDelta v) 0); (qMove p (dPtDelta v) 0, qMove p 0 (dPtDelta v)); (qMove p (- dPtDelta v) 0, qMove p 0 (dPtDelta v))]).
    rewrite onSegs_order, !onSegs_cons, onSegs_nil. cbn [fst snd]. rewrite !R2_move, !opp_IZR. fold d. unfold diamondAt. cbn [R2 px py].
    assert (0 <= d) by now apply IZR_le. set (x := Q2R (fst p)). set (y := Q2R (snd p)). rewrite (onSeg_sym (mkPt (x + d) (y + 0))). destruct (Req_dec d 0) as [->|N].
    - rewrite Ropp_0, !seg_0. split; [intros O; assert (px q = x /\ py q = y) as [A B] by tauto; rewrite A, B; rabs|]. intros A; left; split; rabs.
    - rewrite !seg_x by lra. split.
      + intros [[A B]|[[A B]|[[A B]|[[A B]|[]]]]];
          [assert (py q - y = - d - (px q - x)) by (apply (Rmult_eq_reg_r d); lra)|assert (py q - y = - d + (px q - x)) by (apply (Rmult_eq_reg_r d); lra)
          |assert (py q - y = d - (px q - x)) by (apply (Rmult_eq_reg_r d); lra)|assert (py q - y = d + (px q - x)) by (apply (Rmult_eq_reg_r d); lra)]; rabs.
      + intros A. unfold Rabs in A. repeat destruct (Rcase_abs _).
        * left. split; [lra|]. replace (py q - y) with (- d - (px q - x)) by lra. ring.
        * right; right; right; left. split; [lra|]. replace (py q - y) with (d + (px q - x)) by lra. ring.
        * right; left. split; [lra|]. replace (py q - y) with (- d + (px q - x)) by lra. ring.
        * right; right; left. split; [lra|]. replace (py q - y) with (d - (px q - x)) by lra. ring.
  Qed.
  Lemma square_shape q : onSegs (markSegs v KSquare true p) q <-> squareAt (R2 p) h q.
  Proof.
    change (markSegs v KSquare true p) with (map (fun s => qOrder (fst s) (snd s))
      [(qMove p (- H2) H2, qMove p H2 H2); (qMove p H2 H2, qMove p H2 (- H2)); (qMove p H2 (- H2), qMove p (- H2) (- H2)); (qMove p (- H2) H2, qMove p (- H2) (- H2))]).
    rewrite onSegs_order, !onSegs_cons, onSegs_nil. cbn [fst snd]. rewrite !R2_move, !opp_IZR. fold h. unfold squareAt. cbn [R2 px py].
    pose proof h_pos. set (x := Q2R (fst p)). set (y := Q2R (snd p)).
    rewrite (onSeg_sym (mkPt (x + h) (y + h)) (mkPt (x + h) (y + - h))), (onSeg_sym (mkPt (x + h) (y + - h)) (mkPt (x + - h) (y + - h))), (onSeg_sym (mkPt (x + - h) (y + h)) (mkPt (x + - h) (y + - h))).
    destruct (Req_dec h 0) as [->|N].
    - rewrite Ropp_0, !seg_0. split; [intros O; assert (px q = x /\ py q = y) as [A B] by tauto; rewrite A, B; rmax|]. intros A; left; split; rmax.
    - rewrite (seg_x x y (- h) h h h), (seg_x x y (- h) (- h) h (- h)), (seg_y x y h (- h) h h), (seg_y x y (- h) (- h) (- h) h) by lra. split.
      + intros [[A B]|[[A B]|[[A B]|[[A B]|[]]]]];
          [assert (py q - y = h) by (apply (Rmult_eq_reg_r h); lra)|assert (px q - x = h) by (apply (Rmult_eq_reg_r h); lra)
          |assert (py q - y = - h) by (apply (Rmult_eq_reg_r h); lra)|assert (px q - x = - h) by (apply (Rmult_eq_reg_r h); lra)]; rmax.
      + intros A. assert (py q - y = h /\ Rabs (px q - x) <= h \/ px q - x = h /\ Rabs (py q - y) <= h \/ py q - y = - h /\ Rabs (px q - x) <= h \/ px q - x = - h /\ Rabs (py q - y) <= h) as [[E F]|[[E F]|[[E F]|[E F]]]].
        { unfold Rmax in A. destruct (Rle_dec _ _) as [L|L]; [assert (py q - y = h \/ py q - y = - h) as [E|E] by (unfold Rabs in A; destruct (Rcase_abs (py q - y)); [right|left]; lra)|assert (px q - x = h \/ px q - x = - h) as [E|E] by (unfold Rabs in A; destruct (Rcase_abs (px q - x)); [right|left]; lra)]; intuition lra. }
        * left. split; [rabs|]. rewrite E. ring.
        * right; left. split; [rabs|]. rewrite E. ring.
        * right; right; left. split; [rabs|]. rewrite E. ring.
        * right; right; right; left. split; [rabs|]. rewrite E. ring.
  Qed.
End Shapes.

(** ** C166 *)
Lemma onSegs_app a b q : onSegs (a ++ b) q <-> onSegs a q \/ onSegs b q.
Proof. unfold onSegs. setoid_rewrite in_app_iff. firstorder. Qed.
Lemma half_width v : Rabs (IZR ((7 * dPtDelta v + 5) / 10) - 7 / 10 * IZR (dPtDelta v)) <= 1 / 2.
Proof.
  pose proof (Z.div_mod (7 * dPtDelta v + 5) 10 ltac:(lia)) as E. pose proof (Z.mod_pos_bound (7 * dPtDelta v + 5) 10 ltac:(lia)) as [B C].
  apply (f_equal IZR) in E. rewrite !plus_IZR, !mult_IZR in E. apply IZR_le in B. assert (C9 : ((7 * dPtDelta v + 5) mod 10 <= 9)%Z) by lia. apply IZR_le in C9. apply Rabs_le. lra.
Qed.
Theorem C166_mark cols rows v l p : holdsAttrs v l -> colorOK (dColor v) -> (0 <= dPtDelta v)%Z -> inImage cols rows p = true -> (0 <= dStyle v <= 4)%Z ->
  exists segs h, Rabs (h - 7 / 10 * IZR (dPtDelta v)) <= 1 / 2 /\
    xread (drawFile cols rows [(v, DrPoint p)]) = Some (svgRoot cols rows (map (fun s => lineNode v l (fst s) (snd s)) segs)) /\
    forall q, onSegs segs q <-> markAt (dStyle v) (R2 p) (IZR (dPtDelta v)) h q.
Proof.
  intros H C D I S. pose proof (file_tree cols rows [mkItem v l (DrPoint p)]) as E. cbn [map iPar iDraw flat_map] in E. rewrite app_nil_r in E. unfold itemNodes in E. cbn [iPar iAttrs iDraw] in E.
  assert (O : Forall itemOK [mkItem v l (DrPoint p)]) by (constructor; [split; [exact H|split; [exact C|exact Logic.I]]|constructor]). specialize (E O). unfold pointNodes in E. rewrite I in E. unfold markNodes in E.
  assert (K : (dStyle v = 0 \/ dStyle v = 1 \/ dStyle v = 2 \/ dStyle v = 3 \/ dStyle v = 4)%Z) by lia.
  destruct K as [K|[K|[K|[K|K]]]]; rewrite K in *; [| |rewrite <- map_app in E| |]; eexists; exists (IZR ((7 * dPtDelta v + 5) / 10)); (split; [apply half_width|]); (split; [exact E|]); intros q; cbn [markAt].
  - now apply plus_shape.
  - now apply times_shape.
  - rewrite onSegs_app, plus_shape, times_shape by auto. tauto.
  - now apply diamond_shape.
  - now apply square_shape.
Qed.
Theorem C166_outside cols rows v l p : holdsAttrs v l -> colorOK (dColor v) ->
  ~ (0 <= fst p < inject_Z cols /\ 0 <= snd p < inject_Z rows)%Q -> xread (drawFile cols rows [(v, DrPoint p)]) = Some (svgRoot cols rows []).
Proof.
  intros H C N. pose proof (file_tree cols rows [mkItem v l (DrPoint p)]) as E. cbn [map iPar iDraw flat_map] in E. rewrite app_nil_r in E. unfold itemNodes in E. cbn [iPar iAttrs iDraw] in E.
  unfold pointNodes in E. destruct (inImage cols rows p) eqn:I.
  - exfalso. apply N. unfold inImage in I. rewrite !andb_true_iff, !negb_true_iff in I. destruct I as [[[A B] G] F]. apply Qle_bool_iff in A, G.
    assert (X : forall a b, Qle_bool a b = false -> (b < a)%Q) by (intros a b X; apply Qnot_le_lt; intros Y; apply Qle_bool_iff in Y; congruence). auto.
  - apply E. constructor; [split; [exact H|split; [exact C|exact Logic.I]]|constructor].
Qed.
Example C166_ex : holdsAttrs dpFactory [] /\ colorOK (dColor dpFactory) /\ (0 <= dPtDelta dpFactory)%Z /\ inImage 100 100 (3, 4)%Q = true /\ (0 <= dStyle dpFactory <= 4)%Z.
Proof. split; [now apply holds_none|]. split; [apply factory_color|]. vm_compute. repeat split; congruence. Qed.
Print Assumptions C166_mark. Print Assumptions C166_outside.
