(** * Proofs about circles: Welzl's algorithm as coded *)

From Coq Require Import Reals ZArith List Bool Lra Lia Permutation.
From Verif Require Import Num M_LP M_Seg M_Circle S_Geom S_Seg S_Circle P_LP P_LP2 P_LP3 P_LP4 P_LP5 P_Seg P_Seg2 P_Circle.
Import ListNotations.
Local Open Scope R_scope.
Implicit Types (p q a b : pt R) (th : thrs R).

Lemma cSet2_inv th p q c : thr_ok th -> cSet2 th p q = Ok c ->
  p <> q /\ onEdge c p /\ onEdge c q /\ cr c = edist p q / 2 /\ nullDistance th / 2 <= cr c.
Proof.
  intros Hth H. rewrite cSet2_spec in H by auto.
  destruct (Rlt_dec (edist p q) (nullDistance th)) as [L|L]; [discriminate|]. apply Ok_inj in H. subst c.
  unfold onEdge; cbn [cc cr]. pose proof (thr_dist th Hth). pose proof (edist_pos p q). apply Rnot_lt_le in L.
  split; [|split; [|split; [|split]]]; try lra.
  - intros E. subst q. rewrite edist_refl in L. lra.
  - apply edist_val; [lra|]. replace (edist p q / 2 * (edist p q / 2)) with (edist p q * edist p q / 4) by field.
    rewrite edist_sq. cbn [px py]. field.
  - apply edist_val; [lra|]. replace (edist p q / 2 * (edist p q / 2)) with (edist p q * edist p q / 4) by field.
    rewrite edist_sq. cbn [px py]. field.
Qed.

Lemma not_valid (c : circle R) p P : onEdge c p -> In p P -> isValidCircle c P = false.
Proof.
  intros E I. unfold isValidCircle. destruct (forallb _ P) eqn:F; auto. exfalso.
  rewrite forallb_forall in F. specialize (F p I). apply ptInCircle_spec in F. unfold inOpen, onEdge in *. lra.
Qed.

Lemma cSet3_pos th p q r c : cSet3 th p q r = Ok c -> 0 <= cr c.
Proof.
  unfold cSet3. destruct (areCollinear th p q r) as [[|]| |]; try discriminate. cbn [bind].
  destruct (getLargestDistancePoints p q r) as [[x y] m].
  destruct (svNew th KSeg x y) as [s1| |]; try discriminate.
  destruct (svNew th KSeg x m) as [s2| |]; try discriminate. cbn [bind].
  destruct (svBisector th s1) as [l1| |]; try discriminate.
  destruct (svBisector th s2) as [l2| |]; try discriminate. cbn [bind].
  destruct (isParallel th l1 l2); try discriminate.
  destruct (meet th l1 l2) as [o| |]; try discriminate. cbn [bind]. intros H. apply Ok_inj in H. subst c. cbn [cr].
  change (@distPP R RNum) with edist. apply edist_pos.
Qed.

Lemma trivial3 th x y z c : thr_ok th -> zoneFreePts th [x; y; z] -> minCircleTrivial th [x; y; z] = Ok c ->
  x <> y /\ y <> z /\ x <> z /\ 0 <= cr c /\ onEdge c x /\ onEdge c y /\ onEdge c z.
Proof.
  intros Hth Hz H. cbn [minCircleTrivial] in H.
  destruct (cSet2 th x y) as [c1| |] eqn:E1; try discriminate. cbn [bind] in H.
  destruct (cSet2_inv th x y c1 Hth E1) as (N1 & A1 & _).
  rewrite (not_valid c1 x) in H by (auto; now left).
  destruct (cSet2 th x z) as [c2| |] eqn:E2; try discriminate. cbn [bind] in H.
  destruct (cSet2_inv th x z c2 Hth E2) as (N2 & A2 & _).
  rewrite (not_valid c2 x) in H by (auto; now left).
  destruct (cSet2 th y z) as [c3| |] eqn:E3; try discriminate. cbn [bind] in H.
  destruct (cSet2_inv th y z c3 Hth E3) as (N3 & A3 & _).
  rewrite (not_valid c3 y) in H by (auto; right; now left).
  assert (Z : forall u v, In u [x; y; z] -> In v [x; y; z] -> dirOK th u v /\ vertOK th u v) by exact Hz.
  destruct (cSet3_spec th x y z c Hth H) as (B1 & B2 & B3); try (apply Z; cbn; tauto).
  pose proof (cSet3_pos _ _ _ _ _ H). tauto.
Qed.

Lemma radiusOk_true th (r : R) : 0 <= r -> radiusOk th true r = true.
Proof.
  intros H. unfold radiusOk. rnum. rewrite andb_false_r. cbn [negb andb].
  rewrite (proj2 (Rltb_false r 0)) by lra. reflexivity.
Qed.
Lemma radiusOk_nocheck th (r : R) : radiusOk th true r = true -> 0 <= r.
Proof.
  unfold radiusOk. rnum. rewrite andb_false_r. cbn [negb andb]. intros H. apply negb_true_iff in H. now apply Rltb_false in H.
Qed.

Lemma trivial_best th B L c : thr_ok th -> zoneFreePts th B -> minCircleTrivial th B = Ok c ->
  L = [] \/ length B = 3%nat -> (exists e, feas L B e) -> best L B c.
Proof.
  intros Hth Hz H HL (e & Fe).
  destruct B as [|x [|y [|z [|w B]]]].
  - destruct HL as [-> |]; [|discriminate]. cbn [minCircleTrivial] in H. unfold cNew in H.
    rewrite radiusOk_true in H by (rnum; lra). apply Ok_inj in H. subst c.
    split; [split; [cbn [cr]; rnum; lra|split; intros ? []]|]. intros d [Hd _]. cbn [cr]; rnum; lra.
  - destruct HL as [-> |]; [|discriminate]. cbn [minCircleTrivial] in H. unfold cNew in H.
    rewrite radiusOk_true in H by (rnum; lra). apply Ok_inj in H. subst c.
    split; [split; [cbn [cr]; rnum; lra|split; [intros ? []|]]|].
    + intros u [<-|[]]. unfold onEdge; cbn [cc cr]. apply edist_refl.
    + intros d [Hd _]. cbn [cr]; rnum; lra.
  - destruct HL as [-> |]; [|discriminate]. cbn [minCircleTrivial] in H.
    destruct (cSet2_inv th x y c Hth H) as (N & A & B & C & D). pose proof (thr_dist th Hth).
    split; [split; [lra|split; [intros ? []|]]|].
    + intros u [<-|[<-|[]]]; auto.
    + intros d (Hd & _ & HB). pose proof (HB x (or_introl eq_refl)) as Hx. pose proof (HB y (or_intror (or_introl eq_refl))) as Hy.
      unfold onEdge in *. pose proof (edist_triang x (cc d) y) as T. rewrite (edist_sym x (cc d)) in T. lra.
  - destruct (trivial3 th x y z c Hth Hz H) as (N1 & N2 & N3 & C0 & A1 & A2 & A3).
    assert (U : forall d, feas L [x; y; z] d -> d = c).
    { intros d (Hd & _ & HB). apply (circ3_unique d c x y z); auto; apply HB; cbn; tauto. }
    rewrite <- (U e Fe). split; auto. intros d Fd. rewrite (U e Fe), (U d Fd). lra.
  - discriminate.
Qed.

(** ** List operations of the algorithm *)

Lemma swap_lt {A} (d : A) (l : list A) i j : (i < j < length l)%nat ->
  exists X x Y y Z, l = X ++ x :: Y ++ y :: Z /\ length X = i /\ length (X ++ x :: Y) = j /\
    nth i l d = x /\ nth j l d = y /\ swapNth d l i j = X ++ y :: Y ++ x :: Z.
Proof.
  intros H. destruct (nth_split l d (n := j)) as (W & Z & E & LW); [lia|].
  set (y := nth j l d) in *.
  destruct (nth_split W d (n := i)) as (X & Y & E2 & LX); [lia|].
  assert (Ex : nth i l d = nth i W d) by (rewrite E, app_nth1 by lia; reflexivity).
  set (x := nth i W d) in *.
  exists X, x, Y, y, Z.
  assert (E3 : l = X ++ x :: Y ++ y :: Z) by (rewrite E, E2, <- app_assoc; reflexivity).
  split; [exact E3|]. split; [exact LX|]. split; [now rewrite <- E2|]. split; [exact Ex|]. split; [reflexivity|].
  unfold swapNth. fold y. rewrite Ex. unfold setNth.
  assert (F1 : firstn i l = X) by (rewrite E3, firstn_app, <- LX, Nat.sub_diag, firstn_all; cbn; now rewrite app_nil_r).
  assert (S1 : skipn (S i) l = Y ++ y :: Z).
  { rewrite E3. replace (X ++ x :: Y ++ y :: Z) with ((X ++ [x]) ++ Y ++ y :: Z) by now rewrite <- app_assoc.
    rewrite skipn_app. replace (S i) with (length (X ++ [x])) by (rewrite app_length; cbn; lia).
    rewrite skipn_all, Nat.sub_diag. reflexivity. }
  rewrite F1, S1.
  assert (LJ : j = length (X ++ y :: Y)) by (rewrite <- LW, E2, !app_length; cbn; reflexivity).
  replace (X ++ y :: Y ++ y :: Z) with ((X ++ y :: Y) ++ y :: Z) by now rewrite <- app_assoc.
  rewrite firstn_app, LJ, Nat.sub_diag, firstn_all. rewrite firstn_O, app_nil_r.
  replace ((X ++ y :: Y) ++ y :: Z) with (((X ++ y :: Y) ++ [y]) ++ Z) by now rewrite <- app_assoc.
  rewrite skipn_app. replace (S (length (X ++ y :: Y))) with (length ((X ++ y :: Y) ++ [y])) by (rewrite app_length; cbn; lia).
  rewrite skipn_all, Nat.sub_diag. cbn. now rewrite <- app_assoc.
Qed.

Lemma swap_same {A} (d : A) (l : list A) i : (i < length l)%nat -> swapNth d l i i = l.
Proof.
  intros H. unfold swapNth. assert (E : forall l, (i < length l)%nat -> setNth l i (nth i l d) = l).
  { clear l H. intros l H. unfold setNth. destruct (nth_split l d H) as (X & Y & E & L).
    set (x := nth i l d) in *. clearbody x. subst l i. rewrite firstn_app, Nat.sub_diag, firstn_all. rewrite firstn_O, app_nil_r.
    replace (X ++ x :: Y) with ((X ++ [x]) ++ Y) by now rewrite <- app_assoc.
    rewrite skipn_app. replace (S (length X)) with (length (X ++ [x])) by (rewrite app_length; cbn; lia).
    rewrite skipn_all, Nat.sub_diag. cbn. now rewrite <- app_assoc. }
  rewrite (E l H). now apply E.
Qed.

Lemma swap_spec {A} (d : A) (l : list A) i m : (i <= m < length l)%nat ->
  let l1 := swapNth d l i m in
  Permutation (nth i l d :: firstn m l1) (firstn (S m) l) /\ length l1 = length l /\
  skipn m l1 = nth i l d :: skipn (S m) l.
Proof.
  intros H. cbv zeta. destruct (Nat.eq_dec i m) as [->|Hn].
  - rewrite swap_same by lia. destruct (nth_split l d (n := m)) as (X & Y & E & L); [lia|].
    set (x := nth m l d) in *. clearbody x. subst l m. split; [|split; [reflexivity|]].
    + rewrite firstn_app, Nat.sub_diag, firstn_all. rewrite firstn_O, app_nil_r.
      replace (X ++ x :: Y) with ((X ++ [x]) ++ Y) by now rewrite <- app_assoc.
      rewrite firstn_app. replace (S (length X)) with (length (X ++ [x])) by (rewrite app_length; cbn; lia).
      rewrite firstn_all, Nat.sub_diag. rewrite firstn_O, app_nil_r. apply Permutation_cons_append.
    + rewrite skipn_app, skipn_all, Nat.sub_diag, skipn_O, app_nil_l.
      replace (X ++ x :: Y) with ((X ++ [x]) ++ Y) by now rewrite <- app_assoc.
      rewrite skipn_app. replace (S (length X)) with (length (X ++ [x])) by (rewrite app_length; cbn; lia).
      rewrite skipn_all, Nat.sub_diag. reflexivity.
  - destruct (swap_lt d l i m) as (X & x & Y & y & Z & E & LX & LM & Nx & Ny & S); [lia|].
    rewrite S, Nx. clear S Nx Ny.
    assert (LM' : m = length (X ++ y :: Y)) by (rewrite <- LM, !app_length; reflexivity).
    assert (LS : S m = length (X ++ x :: Y ++ [y])) by (rewrite <- LM, !app_length; cbn; rewrite app_length; cbn; lia).
    split; [|split].
    + replace (X ++ y :: Y ++ x :: Z) with ((X ++ y :: Y) ++ x :: Z) by now rewrite <- app_assoc.
      rewrite LM' at 1. rewrite firstn_app, Nat.sub_diag, firstn_all. rewrite firstn_O, app_nil_r.
      rewrite E, LS. replace (X ++ x :: Y ++ y :: Z) with ((X ++ x :: Y ++ [y]) ++ Z) by (rewrite <- app_assoc; cbn; now rewrite <- app_assoc).
      rewrite firstn_app, Nat.sub_diag, firstn_all. rewrite firstn_O, app_nil_r.
      rewrite <- (Permutation_middle X (Y ++ [y]) x). constructor.
      apply Permutation_app_head. change (y :: Y) with ([y] ++ Y). apply Permutation_app_comm.
    + rewrite E, !app_length; cbn. rewrite !app_length; cbn. lia.
    + replace (X ++ y :: Y ++ x :: Z) with ((X ++ y :: Y) ++ x :: Z) by now rewrite <- app_assoc.
      rewrite LM' at 1. rewrite skipn_app, skipn_all, Nat.sub_diag, skipn_O, app_nil_l. f_equal.
      rewrite E, LS. replace (X ++ x :: Y ++ y :: Z) with ((X ++ x :: Y ++ [y]) ++ Z) by (rewrite <- app_assoc; cbn; now rewrite <- app_assoc).
      rewrite skipn_app, skipn_all, Nat.sub_diag. reflexivity.
Qed.

Lemma firstn_S_skip {A} (l : list A) m x t : skipn m l = x :: t -> firstn (S m) l = firstn m l ++ [x] /\ skipn (S m) l = t.
Proof.
  revert l. induction m as [|m IH]; intros l H.
  - cbn in H. subst l. auto.
  - destruct l as [|y l]; [discriminate|]. cbn [skipn] in H. destruct (IH l H) as [A1 A2].
    split; [|exact A2]. cbn [firstn app]. cbn [firstn] in A1. now rewrite A1.
Qed.

Lemma best_ext L L' B c : (forall x, In x L <-> In x L') -> best L B c -> best L' B c.
Proof.
  intros E [[H0 [HL HB]] Hm]. split.
  - split; auto. split; auto. intros x Hx. apply HL. now apply E.
  - intros e (He & HeL & HeB). apply Hm. split; auto. split; auto. intros x Hx. apply HeL. now apply E.
Qed.
Lemma feas_ext L L' B : (forall x, In x L <-> In x L') -> (exists e, feas L B e) -> exists e, feas L' B e.
Proof. intros E (e & He & HeL & HeB). exists e. split; auto. split; auto. intros x Hx. apply HeL. now apply E. Qed.

Lemma welzl_spec th rnd n : thr_ok th -> forall P B k c P' k', (n <= length P)%nat ->
  zoneFreePts th (firstn n P ++ B) -> welzl th rnd n P B k = Ok (c, P', k') ->
  length P' = length P /\ Permutation (firstn n P') (firstn n P) /\ skipn n P' = skipn n P /\
  ((exists e, feas (firstn n P) B e) -> best (firstn n P) B c).
Proof.
  intros Hth. induction n as [|m IH]; intros P B k c P' k' Hn Hz H.
  - cbn [welzl] in H. destruct (minCircleTrivial th B) as [c0| |] eqn:E; try discriminate. cbn [bind] in H.
    apply Ok_inj in H. injection H as <- <- <-. do 3 (split; [auto|]). intros Hf. cbn [firstn] in *.
    apply (trivial_best th B [] c0 Hth Hz E); auto.
  - cbn [welzl] in H. destruct (Nat.eqb (length B) 3) eqn:E3.
    + apply Nat.eqb_eq in E3. destruct (minCircleTrivial th B) as [c0| |] eqn:E; try discriminate. cbn [bind] in H.
      apply Ok_inj in H. injection H as <- <- <-. do 3 (split; [auto|]). intros Hf.
      apply (trivial_best th B _ c0 Hth); auto. intros u v Hu Hv; apply Hz; apply in_or_app; now right.
    + clear E3. cbv zeta in H. set (idx := Nat.modulo (rnd k) (S m)) in *.
      assert (Hi : (idx <= m)%nat). { pose proof (Nat.mod_upper_bound (rnd k) (S m)). unfold idx. lia. }
      clearbody idx. set (d0 := mkPt (nZ 0) (nZ 0)) in *.
      destruct (swap_spec d0 P idx m) as (S1 & S2 & S3); [lia|]. cbv zeta in S1, S2, S3.
      set (p := nth idx P d0) in *. set (P1 := swapNth d0 P idx m) in *. clearbody P1 p.
      destruct (welzl th rnd m P1 B (S k)) as [[[d P2] k2]| |] eqn:W1; try discriminate. cbn [bind] in H.
      assert (ZB : forall Q, Permutation (firstn m Q) (firstn m P1) -> zoneFreePts th (firstn m Q ++ B) /\ zoneFreePts th (firstn m Q ++ B ++ [p])).
      { intros Q HQ.
        assert (I1 : forall u, In u (firstn m Q) -> In u (firstn (S m) P)).
        { intros u Hu. apply (Permutation_in _ S1). right. apply (Permutation_in _ HQ). exact Hu. }
        assert (I2 : In p (firstn (S m) P)) by (apply (Permutation_in _ S1); now left).
        split; intros u v Hu Hv; apply Hz; repeat match goal with
          | H : In _ (_ ++ _) |- _ => apply in_app_or in H; destruct H
          | H : In _ [_] |- _ => destruct H as [<-|[]] end; apply in_or_app; auto. }
      destruct (ZB P1 (Permutation_refl _)) as [Z1 Z1'].
      destruct (IH P1 B (S k) d P2 k2 ltac:(lia) Z1 W1) as (L2 & Pm2 & Sk2 & Bd).
      assert (Ein : forall x, In x (p :: firstn m P1) <-> In x (firstn (S m) P)).
      { intros x. split; intros Hx; [exact (Permutation_in _ S1 Hx)|exact (Permutation_in _ (Permutation_sym S1) Hx)]. }
      assert (Sub : (exists e, feas (firstn (S m) P) B e) -> exists e, feas (firstn m P1) B e).
      { intros (e & He & HeL & HeB). exists e. split; auto. split; auto. intros x Hx. apply HeL. apply Ein. now right. }
      assert (Fin : forall Q, length Q = length P1 -> Permutation (firstn m Q) (firstn m P1) -> skipn m Q = skipn m P1 ->
        length Q = length P /\ Permutation (firstn (S m) Q) (firstn (S m) P) /\ skipn (S m) Q = skipn (S m) P).
      { intros Q LQ PQ SQ. rewrite S3 in SQ. destruct (firstn_S_skip _ _ _ _ SQ) as [F1 F2].
        split; [congruence|]. split; [|exact F2]. rewrite F1, <- S1. rewrite <- Permutation_cons_append. now constructor. }
      destruct (ptInCircle p d) eqn:EI.
      * apply Ok_inj in H. injection H as <- <- <-.
        destruct (Fin P2 L2 Pm2 Sk2) as (Q1 & Q2 & Q3). split; [auto|]. split; [auto|]. split; [auto|].
        intros Hf. destruct (Bd (Sub Hf)) as [[D0 [DL DB]] Dm]. split.
        { split; auto. split; auto. intros x Hx. apply Ein in Hx. destruct Hx as [<-|Hx]; auto.
          apply ptInCircle_spec in EI. unfold inOpen, inDisc in *. lra. }
        intros e (He & HeL & HeB). apply Dm. split; auto. split; auto. intros x Hx. apply HeL. apply Ein. now right.
      * apply ptInCircle_false in EI.
        destruct (ZB P2 Pm2) as [_ Z2].
        destruct (IH P2 (B ++ [p]) k2 c P' k' ltac:(lia) Z2 H) as (L3 & Pm3 & Sk3 & Bc).
        destruct (Fin P' ltac:(congruence) ltac:(now rewrite Pm3, Pm2) ltac:(congruence)) as (Q1 & Q2 & Q3).
        split; [auto|]. split; [auto|]. split; [auto|].
        intros Hf. pose proof (Bd (Sub Hf)) as Bd'.
        assert (Hf' : exists e, feas (p :: firstn m P1) B e).
        { revert Hf. apply feas_ext. intros x. symmetry. apply Ein. }
        pose proof (feas_next _ _ _ _ Bd' EI Hf') as Fn.
        assert (E2 : forall x, In x (firstn m P1) <-> In x (firstn m P2)).
        { intros x. split; apply Permutation_in; auto. now apply Permutation_sym. }
        apply (best_ext _ _ _ _ Ein). apply (best_step _ _ _ d c Bd' EI); auto.
        apply (best_ext (firstn m P2)). { intros x. symmetry. apply E2. }
        apply Bc. revert Fn. apply feas_ext. exact E2.
Qed.

Lemma feas_exists (L : list (pt R)) : exists e, feas L [] e.
Proof.
  assert (H : exists r, 0 <= r /\ forall x, In x L -> edist (mkPt 0 0) x <= r).
  { induction L as [|a L (r & H0 & H)].
    - exists 0. split; [lra|]. intros ? [].
    - exists (Rmax r (edist (mkPt 0 0) a)). split; [apply Rle_trans with r; auto; apply Rmax_l|].
      intros x [<-|Hx]; [apply Rmax_r|]. apply Rle_trans with r; auto. apply Rmax_l. }
  destruct H as (r & H0 & H). exists (mkC (mkPt 0 0) r). split; [exact H0|]. split; [exact H|]. intros ? [].
Qed.

Lemma cSetPts_mec th flag rnd pts c : thr_ok th -> length pts <> 3%nat -> zoneFreePts th pts ->
  fst (cSetPts th flag rnd pts) = Ok c -> isMEC pts c.
Proof.
  intros Hth Hn Hz H. destruct pts as [|p1 [|p2 [|p3 [|p4 pts]]]]; try discriminate; try (exfalso; apply Hn; reflexivity).
  - cbn [cSetPts fst] in H. destruct (cSet2_inv th p1 p2 c Hth H) as (N & A & B & C & D).
    split.
    + intros x [<-|[<-|[]]]; unfold inDisc, onEdge in *; lra.
    + intros d Hd HI. pose proof (HI p1 (or_introl eq_refl)) as X. pose proof (HI p2 (or_intror (or_introl eq_refl))) as Y.
      unfold inDisc in *. pose proof (edist_triang p1 (cc d) p2) as T. rewrite (edist_sym p1 (cc d)) in T. lra.
  - set (L := p1 :: p2 :: p3 :: p4 :: pts) in *. unfold cSetPts in H. fold L in H.
    change (fst (match (do (c0, _, _) <- welzl th rnd (length L) L [] 0; cNew th true (cc c0) (cr c0)) with
        | Ok c1 => (Ok c1, false) | Throw => (Throw, true) | Undef => (Undef, true) end) = Ok c) in H.
    destruct (welzl th rnd (length L) L [] 0) as [[[c0 P'] k']| |] eqn:W; try discriminate. cbn [bind] in H.
    unfold cNew in H. destruct (radiusOk th true (cr c0)) eqn:R0; try discriminate. cbn [fst] in H. apply Ok_inj in H.
    assert (c = c0) by (subst c; destruct c0; reflexivity). subst c0. clear H.
    destruct (welzl_spec th rnd (length L) Hth L [] 0%nat c P' k' (le_n _)) as (_ & _ & _ & Bt); auto.
    { rewrite app_nil_r, firstn_all. exact Hz. }
    rewrite firstn_all in Bt. destruct (Bt (feas_exists L)) as [[F0 [FL _]] Fm]. split; auto.
    intros d Hd HI. apply Fm. split; auto. split; auto. intros ? [].
Qed.
