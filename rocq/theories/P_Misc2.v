(** * Lemmas on nearest points, duplicates and bounding boxes *)

From Coq Require Import Reals Lra Lia List Bool Arith ZArith.
From Verif Require Import Num M_LP M_Seg M_Circle M_Poly M_FRect M_Misc S_Geom S_Seg S_Circle S_Poly S_FRect S_Misc P_LP P_LP2 P_Seg P_BB P_Poly P_Poly2 P_Poly7 P_Misc.
Import ListNotations.
Local Open Scope R_scope.

Lemma find_spec th far q pts : (2 <= length pts)%nat ->
  (valid th q pts 0 \/ valid th q pts 1 \/ far = true /\ exists i, (i < length pts)%nat /\ valid th q pts i) ->
  exists r, findPoint th far q pts = Ok r /\ (r < length pts)%nat /\ valid th q pts r /\
    forall j, (j < length pts)%nat -> valid th q pts j -> fkey far q pts r <= fkey far q pts j /\ ((j < r)%nat -> fkey far q pts r < fkey far q pts j).
Proof.
  intros L H. unfold findPoint. rewrite (proj2 (Nat.ltb_ge _ 2)) by lia.
  assert (ptEq th (nth 0 pts pt00) q = true -> ~ valid th q pts 0) as V0.
  { intros E V. unfold valid in V. rewrite edist_sym in V. apply ptEq_false in V. congruence. }
  destruct (ptEq th (nth 0 pts pt00) q) eqn:E.
  - specialize (V0 eq_refl). pose proof (find_from th far q pts 1 ltac:(lia)) as F. cbv zeta in F.
    set (r := fst (fold_left _ _ _)) in *. exists r. destruct F as (F1 & F2 & F3 & F4 & F5). split; auto. split; [lia|].
    assert (valid th q pts r) as Vr.
    { destruct F1 as [F1|]; auto. destruct (Rle_dec (nullDistance th) (edist q (nth 1 pts pt00))) as [V1|V1]; [now rewrite F1|].
      destruct H as [H|[H|[-> (i & Li & Vi)]]]; [contradiction|contradiction|].
      destruct i as [|[|i]]; [contradiction|contradiction|]. specialize (F4 (S (S i)) ltac:(lia) Vi). rewrite F1 in F4.
      apply fkey_le in F4. unfold valid in Vi. lra. }
    split; auto. intros j J Vj. destruct j as [|j]; [contradiction|]. split.
    + destruct j; auto. apply F4; auto. lia.
    + intros Jr. apply F5; auto. lia.
  - assert (valid th q pts 0) as Z by (unfold valid; rewrite edist_sym; now apply ptEq_false).
    pose proof (find_from th far q pts 0 ltac:(lia)) as F. cbv zeta in F.
    set (r := fst (fold_left _ _ _)) in *. exists r. destruct F as (F1 & F2 & F3 & F4 & F5). split; auto. split; [lia|].
    split; [destruct F1 as [->|]; auto|]. intros j J Vj. split.
    + destruct j; auto. apply F4; auto. lia.
    + intros Jr. apply F5; auto. lia.
Qed.

Lemma nfStep_split th q pts l : forall mx mn, fold_left (nfStep th q pts) l (mx, mn) =
  (fold_left (fpStep th true q pts) l mx, fold_left (fpStep th false q pts) l mn).
Proof.
  induction l as [|i l IH]; intros mx mn; [reflexivity|]. cbn [fold_left]. rewrite <- IH. f_equal.
  unfold nfStep, fpStep. destruct (negb _); auto.
Qed.
Lemma ptEq_comm th p q : @ptEq R RNum th p q = ptEq th q p.
Proof. apply eq_true_iff_eq. rewrite <- !not_false_iff_true, !ptEq_false. now rewrite (edist_sym p q). Qed.
Lemma nearFar_eq th q pts : findNearFar th q pts = (do a <- findPoint th false q pts; do b <- findPoint th true q pts; Ok (a, b)).
Proof.
  unfold findNearFar, findPoint. destruct (length pts <? 2)%nat; auto. rewrite (ptEq_comm th q).
  destruct (ptEq th (nth 0 pts pt00) q); rewrite nfStep_split; reflexivity.
Qed.

(** ** Duplicates *)
Lemma purge_runs th pts : 0 < nullDistance th -> exactDupes th pts -> pts <> [] -> exists runs,
  pts = unruns runs /\ purgeLoop th pts = map fst runs /\ (forall i, (S i < length runs)%nat -> fst (nth i runs (pt00, 0%nat)) <> fst (nth (S i) runs (pt00, 0%nat))).
Proof.
  intros Hd. induction pts as [|p [|q r] IH]; intros X NE; [congruence| |].
  - exists [(p, 0%nat)]. repeat split. cbn. lia.
  - destruct IH as (runs & E & P & D); [intros a b A B; apply X; now right|congruence|].
    destruct runs as [|[a n] runs]; [discriminate|]. assert (a = q) as -> by (cbn in E; congruence).
    change (purgeLoop th (p :: q :: r)) with (if negb (ptEq th p q) then p :: purgeLoop th (q :: r) else purgeLoop th (q :: r)).
    destruct (ptEq th p q) eqn:Q; cbn [negb].
    + destruct (X p q) as [->|F]; [now left|right; now left| |apply ptEq_false in F; congruence].
      exists ((q, S n) :: runs). split; [rewrite E; reflexivity|]. split; [rewrite P; reflexivity|].
      intros i I. specialize (D i I). destruct i; [|exact D]. cbn in *. exact D.
    + exists ((p, 0%nat) :: (q, n) :: runs). split; [rewrite E; reflexivity|]. split; [rewrite P; reflexivity|].
      intros i I. destruct i as [|i]; [|apply (D i); cbn in *; lia]. cbn. intros ->. apply ptEq_false in Q. rewrite edist_refl in Q. lra.
Qed.
(** Without any hypothesis: the last point is kept, and no point is invented. *)
Lemma purge_last th pts d : last (purgeLoop th pts) d = last pts d.
Proof.
  induction pts as [|p [|q r] IH]; auto.
  change (purgeLoop th (p :: q :: r)) with (if negb (ptEq th p q) then p :: purgeLoop th (q :: r) else purgeLoop th (q :: r)).
  change (last (p :: q :: r) d) with (last (q :: r) d). destruct (negb _); [|exact IH]. rewrite <- IH.
  assert (purgeLoop th (q :: r) <> []) as NE.
  { clear. revert q. induction r as [|s r IH]; intros q; [discriminate|]. cbn [purgeLoop]. destruct (negb _); [discriminate|]. apply IH. }
  destruct (purgeLoop th (q :: r)); [congruence|reflexivity].
Qed.
Lemma purge_in th pts p : In p (purgeLoop th pts) -> In p pts.
Proof.
  induction pts as [|a [|b r] IH]; auto.
  change (purgeLoop th (a :: b :: r)) with (if negb (ptEq th a b) then a :: purgeLoop th (b :: r) else purgeLoop th (b :: r)).
  destruct (negb _); [intros [<-|I]|intros I]; [now left|right|right]; auto.
Qed.

(** ** Boxes *)
Definition covers (o : frect R) (P : pt R -> Prop) : Prop := forall p, P p -> inR o p.
Lemma smallestBox_same P Q r : (forall o, covers o P <-> covers o Q) -> smallestBox P r -> smallestBox Q r.
Proof. intros H [A B]. split; [apply H; exact A|]. intros o C. apply B, H. exact C. Qed.
Lemma smallestBox_unique P r o : wfR r -> wfR o -> smallestBox P r -> smallestBox P o -> r = o.
Proof.
  intros Wr Wo [A B] [C D]. specialize (B _ C). specialize (D _ A). clear A C.
  assert (inR r (r1 r) /\ inR r (r2 r) /\ inR o (r1 o) /\ inR o (r2 o)) as (a & b & c & d) by (unfold inR, wfR in *; lra).
  apply B in a, b. apply D in c, d. unfold inR in *. destruct r as [[? ?] [? ?]], o as [[? ?] [? ?]]. cbn in *. f_equal; f_equal; lra.
Qed.
Lemma isBox_smallest pts r : isBox pts r -> smallestBox (fun p => In p pts) r.
Proof. intros H. split; [apply H|]. intros o. now apply isBox_least. Qed.
Lemma bbRect_plBB th pts : (2 <= length pts)%nat -> bbRect th pts = plBB th pts.
Proof.
  intros L. unfold bbRect, plBB. rewrite (proj2 (Nat.ltb_ge _ 2)) by lia. destruct (bbPoints th pts) as [[a b]| |]; auto. cbn [bind].
  unfold frSet. destruct (shareCoord th a b); auto.
Qed.
Lemma bbRect_box th pts r : thr_ok th -> (2 <= length pts)%nat -> bbRect th pts = Ok r -> wfR r /\ isBox pts r.
Proof. intros Ht L. rewrite bbRect_plBB by auto. intros H. apply plBB_inv in H; tauto. Qed.
Lemma bbRect_ok th pts r : thr_ok th -> (2 <= length pts)%nat -> isBox pts r -> okR th r -> bbRect th pts = Ok r.
Proof. intros Ht L B (X & Y & Z). rewrite bbRect_plBB by auto. now apply plBB_ok. Qed.
Lemma box_exists (pts : list (pt R)) : pts <> [] -> exists r, isBox pts r.
Proof.
  destruct pts as [|p l]; [congruence|]. intros _.
  destruct (minOf_spec px p l) as [A (a & Ia & Ea)]. destruct (minOf_spec py p l) as [B (b & Ib & Eb)].
  destruct (maxOf_spec px p l) as [C (c & Ic & Ec)]. destruct (maxOf_spec py p l) as [D (d & Id & Ed)].
  exists (mkR (mkPt (minOf px p l) (minOf py p l)) (mkPt (maxOf px p l) (maxOf py p l))). unfold isBox, inR. cbn [r1 r2 px py].
  repeat split; eauto; auto.
Qed.
(** When the result is not a rectangle, it is an exception, and the box is too small. *)
Lemma bbRect_throw th pts : thr_ok th -> (2 <= length pts)%nat -> (forall r, bbRect th pts <> Ok r) ->
  bbRect th pts = Throw /\ exists r, isBox pts r /\ ~ okR th r.
Proof.
  intros Ht L H. destruct (box_exists pts) as (r & B); [destruct pts; [cbn in L; lia|discriminate]|]. split.
  - unfold bbRect, bbPoints, frSet in *. destruct pts as [|p l]; [cbn in L; lia|]. destruct (_ <? _)%num; auto. destruct (shareCoord _ _ _) eqn:S; auto.
    cbn [bind] in *. rewrite S in *. exfalso. eapply H. reflexivity.
  - exists r. split; auto. intros O. apply (H r). now apply bbRect_ok.
Qed.
(** The order of the points is of no importance. *)
Lemma bbRect_perm th l m : thr_ok th -> (2 <= length l)%nat -> (2 <= length m)%nat -> (forall p, In p l <-> In p m) -> bbRect th l = bbRect th m.
Proof.
  intros Ht L M H.
  assert (forall r, isBox l r <-> isBox m r) as I.
  { assert (forall l m : list (pt R), (forall p, In p l <-> In p m) -> forall r, isBox l r -> isBox m r) as Q.
    { clear. intros l m H r (A & (p1 & I1 & E1) & (p2 & I2 & E2) & (p3 & I3 & E3) & (p4 & I4 & E4)). split; [intros p I; apply A, H, I|].
      split; [exists p1|split; [exists p2|split; [exists p3|exists p4]]]; split; auto; apply H; auto. }
    intros r. split; apply Q; auto. intros p. symmetry. auto. }
  assert (forall l m, (2 <= length l)%nat -> (2 <= length m)%nat -> (forall r, isBox l r <-> isBox m r) -> forall r, bbRect th l = Ok r -> bbRect th m = Ok r) as Q.
  { clear -Ht. intros l m L M I r E. assert (okR th r) as O.
    { rewrite bbRect_plBB in E by auto. pose proof (plBB_inv _ _ _ Ht E) as (W & B & X & Y). split; auto. split; auto.
      unfold plBB in E. rewrite (proj2 (Nat.ltb_ge _ 2)) in E by lia. destruct l as [|p l]; [cbn in L; lia|]. unfold bbPoints in E.
      destruct (_ <? _)%num eqn:D; [discriminate|]. rewrite distPP_edist in D. cbn [nltb RNum] in D. apply Rltb_false in D.
      destruct (shareCoord _ _ _) eqn:S; [discriminate|]. cbn [bind] in E. rewrite S in E.
      apply shareCoord_false in S. rewrite frSet_ok in E by tauto. apply Ok_inj in E.
      assert (isBox (p :: l) (mkR (mkPt (minOf px p l) (minOf py p l)) (mkPt (maxOf px p l) (maxOf py p l)))) as B'.
      { destruct (minOf_spec px p l) as [A1 (a & Ia & Ea)]. destruct (minOf_spec py p l) as [B1 (b & Ib & Eb)].
        destruct (maxOf_spec px p l) as [C1 (c & Ic & Ec)]. destruct (maxOf_spec py p l) as [D1 (d & Id & Ed)].
        unfold isBox, inR. cbn [r1 r2 px py]. repeat split; eauto; auto. }
      rewrite (isBox_unique _ _ _ B B'). exact D. }
    rewrite bbRect_plBB in E by auto. apply plBB_inv in E; auto. apply bbRect_ok; auto. apply I. tauto. }
  destruct (bbRect th l) as [r| |] eqn:E.
  - symmetry. exact (Q l m L M I r E).
  - destruct (bbRect th m) as [r| |] eqn:F; auto.
    + apply (Q m l) in F; auto; [congruence|]. intros r'. symmetry. auto.
    + destruct (bbRect_throw th m Ht M) as [X _]; [|congruence]. intros r. congruence.
  - destruct (bbRect_throw th l Ht L) as [X _]; [|congruence]. intros r. congruence.
Qed.

Lemma bbPoints_box th l u v : bbPoints th l = Ok (u, v) -> isBox l (mkR u v).
Proof.
  unfold bbPoints. destruct l as [|p l]; [discriminate|]. destruct (_ <? _)%num; [discriminate|]. destruct (shareCoord _ _ _); [discriminate|].
  intros E. injection E as <- <-.
  destruct (minOf_spec px p l) as [A1 (a & Ia & Ea)]. destruct (minOf_spec py p l) as [B1 (b & Ib & Eb)].
  destruct (maxOf_spec px p l) as [C1 (c & Ic & Ec)]. destruct (maxOf_spec py p l) as [D1 (d & Id & Ed)].
  unfold isBox, inR. cbn [r1 r2 px py]. repeat split; eauto; auto.
Qed.
Lemma cBB_eq th c r : 0 <= cr c -> cBB th c = Ok r ->
  r = mkR (mkPt (px (cc c) - cr c) (py (cc c) - cr c)) (mkPt (px (cc c) + cr c) (py (cc c) + cr c)).
Proof.
  intros P. unfold cBB, frSet4. rnum. destruct (Rlt_dec (Rabs (px (cc c) - cr c - (px (cc c) + cr c))) (nullOrthogDistance th)) as [X|X];
    [rewrite frSet_throw by (cbn [px py]; lra); discriminate|].
  destruct (Rlt_dec (Rabs (py (cc c) - cr c - (py (cc c) + cr c))) (nullOrthogDistance th)) as [Y|Y];
    [rewrite frSet_throw by (cbn [px py]; lra); discriminate|].
  rewrite frSet_ok by (cbn [px py]; lra). intros E. apply Ok_inj in E. rewrite <- E. cbn [px py].
  rewrite !Rmin_left, !Rmax_right by lra. reflexivity.
Qed.
Lemma pair_covers th o u v : solid o -> pointPair th o = Ok (u, v) -> forall x, (inR x u /\ inR x v) <-> covers x (onPrim o).
Proof.
  intros So E x. unfold covers. destruct o as [p|s|c|r|b l|l]; cbn [onPrim solid pointPair] in *; try discriminate.
  - injection E as <- <-. split; [intros [H _] q ->; auto|]. intros H. split; now apply H.
  - injection E as <- <-. split.
    + intros [A B] q (t & T & X & Y). unfold inR in *. rewrite X, Y.
      assert (forall lo hi a b, lo <= a <= hi -> lo <= b <= hi -> lo <= a + t * (b - a) <= hi) as G.
      { clear -T. intros lo hi a b A B. replace (a + t * (b - a)) with ((1 - t) * a + t * b) by ring.
        assert (0 <= 1 - t) by lra. assert ((1 - t) * lo <= (1 - t) * a) by (apply Rmult_le_compat_l; lra). assert ((1 - t) * a <= (1 - t) * hi) by (apply Rmult_le_compat_l; lra).
        assert (t * lo <= t * b) by (apply Rmult_le_compat_l; lra). assert (t * b <= t * hi) by (apply Rmult_le_compat_l; lra). lra. }
      split; apply G; lra.
    + intros H. split; apply H; [exists 0|exists 1]; repeat split; lra.
  - destruct (cBB th c) as [r| |] eqn:C; try discriminate. cbn [bind] in E. apply cBB_eq in C; auto. subst r. cbn [r1 r2] in E. injection E as <- <-. split.
    + intros [A B] q H. pose proof (edist_ge_x (cc c) q) as X. pose proof (edist_ge_y (cc c) q) as Y. unfold inR in *. cbn [px py] in *.
      apply Rabs_le_inv in X || idtac. unfold Rabs in X, Y. destruct (Rcase_abs _), (Rcase_abs _); lra.
    + intros H.
      assert (forall dx dy, dx * dx + dy * dy = cr c * cr c -> inR x (mkPt (px (cc c) + dx) (py (cc c) + dy))) as G.
      { intros dx dy Q. apply H. unfold edist, Rsqr. cbn [px py]. replace (_ + _) with (cr c * cr c) by (rewrite <- Q; ring). rewrite sqrt_square; lra. }
      pose proof (G (cr c) 0 ltac:(ring)) as G1. pose proof (G (- cr c) 0 ltac:(ring)) as G2. pose proof (G 0 (cr c) ltac:(ring)) as G3. pose proof (G 0 (- cr c) ltac:(ring)) as G4.
      unfold inR in *. cbn [px py] in *. lra.
  - injection E as <- <-. split.
    + intros [A B] q H. unfold inR in *. lra.
    + intros H. split; apply H; unfold inR; lra.
  - assert (l = [u; v] \/ isBox l (mkR u v)) as [->|B].
    { destruct l as [|p [|q [|z l]]]; try discriminate; [right|left|right]; try (now apply (bbPoints_box th)). now injection E as <- <-. }
    + split; [intros [A B] p [<-|[<-|[]]]; auto|]. intros H. split; apply H; cbn; auto.
    + split.
      * intros [A B'] p I. apply B in I. unfold inR in *. cbn [r1 r2] in I. lra.
      * intros H. pose proof (isBox_least _ _ _ B H) as L. destruct l as [|p l]; [congruence|].
        pose proof (proj1 B p (or_introl eq_refl)) as Ip. unfold inR in Ip. cbn in Ip.
        split; apply L; unfold inR; cbn; lra.
Qed.
Lemma bbTwo_eq th a b : solid a -> solid b -> bbTwo th a b = (do u <- pointPair th a; do v <- pointPair th b; bbPairs th u v).
Proof.
  intros A B. unfold bbTwo. rewrite andb_false_r. cbn [andb].
  replace (primSize b =? 0)%nat with false; [now rewrite andb_false_r|].
  destruct b as [| | | |? [|? ?]|]; cbn in *; auto; tauto.
Qed.
Lemma bbTwo_smallest th a b r : thr_ok th -> solid a -> solid b -> bbTwo th a b = Ok r -> wfR r /\ smallestBox (fun p => onPrim a p \/ onPrim b p) r.
Proof.
  intros Ht A B. rewrite bbTwo_eq by auto. destruct (pointPair th a) as [[u1 u2]| |] eqn:U; try discriminate.
  destruct (pointPair th b) as [[v1 v2]| |] eqn:V; try discriminate. cbn [bind fst snd]. unfold bbPairs. cbn [fst snd]. intros E.
  apply bbRect_box in E; [|auto|cbn; lia]. destruct E as [W E]. split; auto. apply isBox_smallest in E.
  eapply smallestBox_same; [|exact E]. intros o. pose proof (pair_covers _ _ _ _ A U o) as CA. pose proof (pair_covers _ _ _ _ B V o) as CB. unfold covers in *. split.
  - intros H p [P|P]; revert p P; [apply CA|apply CB]; split; apply H; cbn; auto.
  - intros H p P. destruct CA as [_ CA]. destruct CB as [_ CB]. destruct CA as [? ?]; [auto|]. destruct CB as [? ?]; [auto|].
    destruct P as [<-|[<-|[<-|[<-|[]]]]]; auto.
Qed.
Lemma pp_not_undef th o : pointPair th o <> Undef.
Proof.
  assert (forall p l, bbPoints th (p :: l) <> Undef) as H.
  { intros p l. unfold bbPoints. repeat match goal with |- context [if ?x then _ else _] => destruct x end; discriminate. }
  destruct o as [p|s|c|r|b [|p [|q [|z l]]]|l]; cbn [pointPair]; try discriminate; auto.
  unfold cBB, frSet4, frSet. destruct (shareCoord _ _ _); discriminate.
Qed.
Lemma bbTwo_sym th a b : thr_ok th -> solid a -> solid b -> bbTwo th a b = bbTwo th b a.
Proof.
  intros Ht A B. rewrite !bbTwo_eq by auto. pose proof (pp_not_undef th a). pose proof (pp_not_undef th b).
  destruct (pointPair th a) as [[u1 u2]| |], (pointPair th b) as [[v1 v2]| |]; try congruence; auto. cbn [bind]. unfold bbPairs. cbn [fst snd].
  apply bbRect_perm; auto; try (cbn; lia). intros p. cbn. tauto.
Qed.
(** Containers. *)
Lemma flat2_in {A} (f g : A -> pt R) l p : In p (flat_map (fun s => [f s; g s]) l) <-> exists s, In s l /\ (p = f s \/ p = g s).
Proof. rewrite in_flat_map. split; intros (s & I & H); exists s; split; auto; cbn in *; intuition. Qed.
Lemma flat2_len {A} (f g : A -> pt R) l : l <> [] -> (2 <= length (flat_map (fun s => [f s; g s]) l))%nat.
Proof. destruct l; [congruence|]. cbn. lia. Qed.
Lemma variantPts_ok th l : forall pp, (forall o, In o l -> exists u, pointPair th o = Ok u) ->
  forall p, In p (variantPts th pp l) <-> exists o u, In o l /\ pointPair th o = Ok u /\ (p = fst u \/ p = snd u).
Proof.
  induction l as [|o l IH]; intros pp H p; cbn [variantPts].
  - split; [intros []|]. intros (o & u & [] & _).
  - destruct (H o (or_introl eq_refl)) as (u & U). rewrite U. cbn [In]. rewrite IH by (intros; apply H; now right). split.
    + intros [<-|[<-|(o' & u' & I & E & P)]]; [exists o, u; auto|exists o, u; auto|exists o', u'; auto].
    + intros (o' & u' & [<-|I] & E & P); [|right; right; exists o', u'; auto]. rewrite U in E. injection E as <-. destruct P as [->| ->]; auto.
Qed.
