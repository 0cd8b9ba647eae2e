(** * Bounding boxes of point sets *)

From Coq Require Import Reals Lra Lia List Bool Arith.
From Verif Require Import Num M_LP M_Seg M_Circle M_Poly M_FRect S_Geom S_FRect P_LP P_LP2 P_Circle.
Import ListNotations.
Local Open Scope R_scope.

Lemma minOf_spec (f : pt R -> R) p l :
  (forall q, In q (p :: l) -> minOf f p l <= f q) /\ exists q, In q (p :: l) /\ minOf f p l = f q.
Proof.
  unfold minOf.
  assert (forall l m, let x := fold_left (fun m q => if @nltb R RNum (f q) m then f q else m) l m in
    x <= m /\ (forall q, In q l -> x <= f q) /\ (x = m \/ exists q, In q l /\ x = f q)) as G.
  { clear. induction l as [|q l IH]; intros m; cbn [fold_left].
    - split; [lra|]. split; [easy|now left].
    - rnum. specialize (IH (if Rltb (f q) m then f q else m)). cbv zeta in *. destruct IH as (A & B & C).
      destruct (Rltb (f q) m) eqn:E; rclean.
      + split; [lra|]. split; [intros x [<-|I]; auto|]. right. destruct C as [C|(x & I & C)].
        * exists q. split; [now left|auto].
        * exists x. split; [now right|auto].
      + split; [lra|]. split; [intros x [<-|I]; [lra|auto]|]. destruct C as [C|(x & I & C)].
        * now left.
        * right. exists x. split; [now right|auto]. }
  destruct (G l (f p)) as (A & B & C). split.
  - intros q [<-|I]; auto.
  - destruct C as [C|(x & I & C)]; [exists p; split; [now left|auto]|exists x; split; [now right|auto]].
Qed.
Lemma maxOf_spec (f : pt R -> R) p l :
  (forall q, In q (p :: l) -> f q <= maxOf f p l) /\ exists q, In q (p :: l) /\ maxOf f p l = f q.
Proof.
  unfold maxOf.
  assert (forall l m, let x := fold_left (fun m q => if @nltb R RNum (f q) m then m else f q) l m in
    m <= x /\ (forall q, In q l -> f q <= x) /\ (x = m \/ exists q, In q l /\ x = f q)) as G.
  { clear. induction l as [|q l IH]; intros m; cbn [fold_left].
    - split; [lra|]. split; [easy|now left].
    - rnum. specialize (IH (if Rltb (f q) m then m else f q)). cbv zeta in *. destruct IH as (A & B & C).
      destruct (Rltb (f q) m) eqn:E; rclean.
      + split; [lra|]. split; [intros x [<-|I]; [lra|auto]|]. destruct C as [C|(x & I & C)].
        * now left.
        * right. exists x. split; [now right|auto].
      + split; [lra|]. split; [intros x [<-|I]; auto|]. right. destruct C as [C|(x & I & C)].
        * exists q. split; [now left|auto].
        * exists x. split; [now right|auto]. }
  destruct (G l (f p)) as (A & B & C). split.
  - intros q [<-|I]; auto.
  - destruct C as [C|(x & I & C)]; [exists p; split; [now left|auto]|exists x; split; [now right|auto]].
Qed.
Lemma minOf_val (f : pt R -> R) p l m : (forall q, In q (p :: l) -> m <= f q) -> (exists q, In q (p :: l) /\ f q = m) ->
  minOf f p l = m.
Proof.
  intros H (q & I & E). destruct (minOf_spec f p l) as [A (x & Ix & B)]. apply Rle_antisym.
  - rewrite <- E. auto.
  - rewrite B. auto.
Qed.
Lemma maxOf_val (f : pt R -> R) p l m : (forall q, In q (p :: l) -> f q <= m) -> (exists q, In q (p :: l) /\ f q = m) ->
  maxOf f p l = m.
Proof.
  intros H (q & I & E). destruct (maxOf_spec f p l) as [A (x & Ix & B)]. apply Rle_antisym.
  - rewrite B. auto.
  - rewrite <- E. auto.
Qed.

Lemma shareCoord_false th p q : shareCoord th p q = false <->
  nullOrthogDistance th <= Rabs (px p - px q) /\ nullOrthogDistance th <= Rabs (py p - py q).
Proof. unfold shareCoord. rnum. rewrite orb_false_iff, !Rltb_false. tauto. Qed.

(** Rectangle from two points. *)
Lemma frSet_ok th p q : nullOrthogDistance th <= Rabs (px p - px q) -> nullOrthogDistance th <= Rabs (py p - py q) ->
  frSet th p q = Ok (mkR (mkPt (Rmin (px p) (px q)) (Rmin (py p) (py q))) (mkPt (Rmax (px p) (px q)) (Rmax (py p) (py q)))).
Proof.
  intros A B. unfold frSet. rewrite (proj2 (shareCoord_false th p q)) by auto. f_equal.
  assert (forall a b : R, nmin a b = Rmin a b) as E.
  { intros a b. unfold nmin. rnum. unfold Rmin. rcase1; rclean; destruct (Rle_dec a b); lra. }
  assert (forall a b : R, nmax a b = Rmax a b) as F.
  { intros a b. unfold nmax. rnum. unfold Rmax. rcase1; rclean; destruct (Rle_dec a b); lra. }
  now rewrite !E, !F.
Qed.
Lemma frSet_throw th p q : Rabs (px p - px q) < nullOrthogDistance th \/ Rabs (py p - py q) < nullOrthogDistance th ->
  frSet th p q = Throw.
Proof.
  intros H. unfold frSet. destruct (shareCoord th p q) eqn:E; auto. apply shareCoord_false in E. lra.
Qed.

Lemma plBB_inv th pts r : thr_ok th -> plBB th pts = Ok r ->
  wfR r /\ isBox pts r /\ nullOrthogDistance th <= px (r2 r) - px (r1 r) /\ nullOrthogDistance th <= py (r2 r) - py (r1 r).
Proof.
  intros Ht. pose proof (thr_orth _ Ht) as O. unfold plBB. destruct (length pts <? 2)%nat; [discriminate|].
  destruct pts as [|p l]; [discriminate|]. unfold bbPoints.
  destruct (minOf_spec px p l) as [A1 (a1 & I1 & B1)]. destruct (minOf_spec py p l) as [A2 (a2 & I2 & B2)].
  destruct (maxOf_spec px p l) as [A3 (a3 & I3 & B3)]. destruct (maxOf_spec py p l) as [A4 (a4 & I4 & B4)].
  set (x1 := minOf px p l) in *. set (y1 := minOf py p l) in *. set (x2 := maxOf px p l) in *. set (y2 := maxOf py p l) in *.
  pose proof (A1 p (or_introl eq_refl)). pose proof (A2 p (or_introl eq_refl)).
  pose proof (A3 p (or_introl eq_refl)). pose proof (A4 p (or_introl eq_refl)).
  destruct (_ <? _)%num; [discriminate|]. destruct (shareCoord th _ _) eqn:S; [discriminate|]. cbn [bind].
  rewrite S. apply shareCoord_false in S. cbn [px py] in S. destruct S as [S1 S2].
  rewrite frSet_ok by auto. intros E. apply Ok_inj in E. subst r. cbn [px py r1 r2].
  rewrite Rabs_left1 in S1, S2 by lra.
  rewrite !Rmin_left, !Rmax_right by lra. unfold wfR, isBox, inR. cbn [px py r1 r2].
  split; [lra|]. split; [|lra]. split; [intros q I; specialize (A1 q I); specialize (A2 q I); specialize (A3 q I); specialize (A4 q I); lra|].
  split; [exists a1; auto|]. split; [exists a3; auto|]. split; [exists a2; auto|]. exists a4; auto.
Qed.

Lemma plBB_ok th pts r : thr_ok th -> (2 <= length pts)%nat -> isBox pts r ->
  nullOrthogDistance th <= px (r2 r) - px (r1 r) -> nullOrthogDistance th <= py (r2 r) - py (r1 r) ->
  nullDistance th <= edist (r1 r) (r2 r) -> plBB th pts = Ok r.
Proof.
  intros Ht L (In_ & X1 & X2 & Y1 & Y2) W H Dg. pose proof (thr_orth _ Ht) as O. unfold plBB.
  replace (length pts <? 2)%nat with false by (symmetry; apply Nat.ltb_ge; lia).
  destruct pts as [|p l]; [cbn in L; lia|]. unfold bbPoints.
  assert (forall q, In q (p :: l) -> px (r1 r) <= px q <= px (r2 r) /\ py (r1 r) <= py q <= py (r2 r)) as J by apply In_.
  rewrite (minOf_val px p l (px (r1 r))), (minOf_val py p l (py (r1 r))), (maxOf_val px p l (px (r2 r))), (maxOf_val py p l (py (r2 r)));
    auto; try (intros q I; apply J in I; lra).
  assert (mkPt (px (r1 r)) (py (r1 r)) = r1 r /\ mkPt (px (r2 r)) (py (r2 r)) = r2 r) as [-> ->]
    by (destruct r as [[? ?] [? ?]]; auto).
  change (@distPP R RNum) with edist. rnum.
  replace (Rltb (edist (r1 r) (r2 r)) (nullDistance th)) with false by (symmetry; apply Rltb_false; lra).
  assert (shareCoord th (r1 r) (r2 r) = false) as S.
  { apply shareCoord_false. rewrite !Rabs_left1 by lra. lra. }
  rewrite S. cbn [bind]. rewrite S. rewrite frSet_ok by (rewrite Rabs_left1; lra).
  rewrite !Rmin_left, !Rmax_right by lra. destruct r as [[? ?] [? ?]]; reflexivity.
Qed.

(** A box is unique, and is the smallest rectangle that contains the points. *)
Lemma isBox_unique pts r o : isBox pts r -> isBox pts o -> r = o.
Proof.
  intros (A & (p1 & I1 & E1) & (p2 & I2 & E2) & (p3 & I3 & E3) & (p4 & I4 & E4))
         (B & (q1 & J1 & F1) & (q2 & J2 & F2) & (q3 & J3 & F3) & (q4 & J4 & F4)).
  pose proof (A q1 J1). pose proof (A q2 J2). pose proof (A q3 J3). pose proof (A q4 J4).
  pose proof (B p1 I1). pose proof (B p2 I2). pose proof (B p3 I3). pose proof (B p4 I4).
  unfold inR in *. destruct r as [[a b] [c e]], o as [[a' b'] [c' e']]. cbn [r1 r2 px py] in *.
  assert (a = a') by lra. assert (b = b') by lra. assert (c = c') by lra. assert (e = e') by lra. congruence.
Qed.
Lemma isBox_least pts r o : isBox pts r -> (forall p, In p pts -> inR o p) -> forall p, inR r p -> inR o p.
Proof.
  intros (A & (p1 & I1 & E1) & (p2 & I2 & E2) & (p3 & I3 & E3) & (p4 & I4 & E4)) B p I.
  pose proof (B p1 I1). pose proof (B p2 I2). pose proof (B p3 I3). pose proof (B p4 I4).
  unfold inR in *. lra.
Qed.

(** The box of the image by a quarter turn or a mirror. *)
Definition rectRot (k : rot) (r : frect R) : frect R :=
  match k with
  | RotCCW => mkR (mkPt (- py (r2 r)) (px (r1 r))) (mkPt (- py (r1 r)) (px (r2 r)))
  | RotCW => mkR (mkPt (py (r1 r)) (- px (r2 r))) (mkPt (py (r2 r)) (- px (r1 r)))
  | RotFull => mkR (mkPt (- px (r2 r)) (- py (r2 r))) (mkPt (- px (r1 r)) (- py (r1 r)))
  | RotV => mkR (mkPt (- px (r2 r)) (py (r1 r))) (mkPt (- px (r1 r)) (py (r2 r)))
  | RotH => mkR (mkPt (px (r1 r)) (- py (r2 r))) (mkPt (px (r2 r)) (- py (r1 r)))
  end.
Lemma okR_wf th r : thr_ok th -> okR th r -> wfR r.
Proof. intros Ht (A & B & _). pose proof (thr_orth _ Ht). unfold wfR. lra. Qed.
Lemma fr4_box r : wfR r -> isBox (fr4Pts r) r.
Proof.
  intros [A B]. unfold isBox, fr4Pts. cbn [In]. split.
  - intros p [<-|[<-|[<-|[<-|[]]]]]; unfold inR; cbn; lra.
  - repeat split; [exists (r1 r)|exists (r2 r)|exists (r1 r)|exists (r2 r)]; auto.
Qed.
Lemma rot_box k pts r : isBox pts r -> isBox (map (ptRotate k) pts) (rectRot k r).
Proof.
  intros (A & (p1 & I1 & E1) & (p2 & I2 & E2) & (p3 & I3 & E3) & (p4 & I4 & E4)). unfold isBox. split.
  - intros p H. apply in_map_iff in H. destruct H as (q & <- & I). apply A in I. unfold inR in *.
    destruct k; cbn [rectRot ptRotate r1 r2 px py]; rnum; lra.
  - destruct k; cbn [rectRot r1 r2 px py]; repeat split;
      first [ exists (ptRotate RotCCW p1); split; [now apply in_map|cbn [ptRotate px py]; rnum; lra]
            | exists (ptRotate RotCCW p2); split; [now apply in_map|cbn [ptRotate px py]; rnum; lra]
            | exists (ptRotate RotCCW p3); split; [now apply in_map|cbn [ptRotate px py]; rnum; lra]
            | exists (ptRotate RotCCW p4); split; [now apply in_map|cbn [ptRotate px py]; rnum; lra]
            | exists (ptRotate RotCW p1); split; [now apply in_map|cbn [ptRotate px py]; rnum; lra]
            | exists (ptRotate RotCW p2); split; [now apply in_map|cbn [ptRotate px py]; rnum; lra]
            | exists (ptRotate RotCW p3); split; [now apply in_map|cbn [ptRotate px py]; rnum; lra]
            | exists (ptRotate RotCW p4); split; [now apply in_map|cbn [ptRotate px py]; rnum; lra]
            | exists (ptRotate RotFull p1); split; [now apply in_map|cbn [ptRotate px py]; rnum; lra]
            | exists (ptRotate RotFull p2); split; [now apply in_map|cbn [ptRotate px py]; rnum; lra]
            | exists (ptRotate RotFull p3); split; [now apply in_map|cbn [ptRotate px py]; rnum; lra]
            | exists (ptRotate RotFull p4); split; [now apply in_map|cbn [ptRotate px py]; rnum; lra]
            | exists (ptRotate RotV p1); split; [now apply in_map|cbn [ptRotate px py]; rnum; lra]
            | exists (ptRotate RotV p2); split; [now apply in_map|cbn [ptRotate px py]; rnum; lra]
            | exists (ptRotate RotV p3); split; [now apply in_map|cbn [ptRotate px py]; rnum; lra]
            | exists (ptRotate RotV p4); split; [now apply in_map|cbn [ptRotate px py]; rnum; lra]
            | exists (ptRotate RotH p1); split; [now apply in_map|cbn [ptRotate px py]; rnum; lra]
            | exists (ptRotate RotH p2); split; [now apply in_map|cbn [ptRotate px py]; rnum; lra]
            | exists (ptRotate RotH p3); split; [now apply in_map|cbn [ptRotate px py]; rnum; lra]
            | exists (ptRotate RotH p4); split; [now apply in_map|cbn [ptRotate px py]; rnum; lra] ].
Qed.
Lemma rectRot_ok th k r : okR th r -> okR th (rectRot k r).
Proof.
  intros (A & B & C).
  assert (edist (r1 (rectRot k r)) (r2 (rectRot k r)) = edist (r1 r) (r2 r)) as E.
  { unfold edist, Rsqr. f_equal. destruct k; cbn [rectRot r1 r2 px py]; ring. }
  unfold okR. rewrite E. destruct k; cbn [rectRot r1 r2 px py]; lra.
Qed.
Lemma frRotate_eq th k r : thr_ok th -> okR th r -> frRotate th r k = Ok (rectRot k r).
Proof.
  intros Ht Ho. destruct (rectRot_ok th k r Ho) as (A & B & C). unfold frRotate, plRotate, plOfRect. cbn [plPts plFresh].
  apply plBB_ok; auto; try (cbn; lia). apply rot_box, fr4_box. eapply okR_wf; eauto.
Qed.
Lemma frTranslate_ok th r dx dy : okR th r -> okR th (frTranslate r dx dy).
Proof.
  intros (A & B & C). unfold okR, frTranslate, ptTranslate. cbn [r1 r2 px py]. rnum.
  assert (edist (mkPt (px (r1 r) + dx) (py (r1 r) + dy)) (mkPt (px (r2 r) + dx) (py (r2 r) + dy)) = edist (r1 r) (r2 r)) as ->.
  { unfold edist, Rsqr. f_equal. cbn [px py]. ring. }
  lra.
Qed.
Lemma frRotateAt_eq th k r p : thr_ok th -> okR th r ->
  frRotateAt th r k p = Ok (frTranslate (rectRot k (frTranslate r (- px p) (- py p))) (px p) (py p)).
Proof. intros Ht Ho. unfold frRotateAt. rnum. rewrite frRotate_eq; auto. now apply frTranslate_ok. Qed.
