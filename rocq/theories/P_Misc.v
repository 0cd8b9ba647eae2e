(** * Lemmas on searches, duplicates and bounding boxes *)

From Coq Require Import Reals Lra Lia List Bool Arith ZArith Sorting.Sorted.
From Verif Require Import Num M_LP M_Seg M_Circle M_Poly M_FRect M_Misc S_Geom S_Seg S_Circle S_Poly S_FRect S_Misc P_LP P_LP2 P_Seg P_BB P_Poly P_Poly2 P_Poly7.
Import ListNotations.
Local Open Scope R_scope.

(** ** First minimum in a list *)
Definition amStep {A} (k : A -> R) (st : R * A) (x : A) : R * A := if Rltb (k x) (fst st) then (k x, x) else st.
Lemma argmin {A} (k : A -> R) xs : forall x0, exists m, fold_left (amStep k) xs (k x0, x0) = (k m, m) /\
  exists u v, x0 :: xs = u ++ m :: v /\ (forall y, In y u -> k m < k y) /\ (forall y, In y v -> k m <= k y).
Proof.
  induction xs as [|x xs IH]; intros x0.
  - exists x0. split; auto. exists [], []. repeat split; intros y [].
  - cbn [fold_left]. unfold amStep at 2. cbn [fst]. destruct (Rltb (k x) (k x0)) eqn:E.
    + apply Rltb_spec in E. destruct (IH x) as (m & M & u & v & Eq & U & V). exists m. split; auto. exists (x0 :: u), v. split; [cbn; now rewrite Eq|].
      split; auto. intros y [<-|I]; auto. destruct u as [|a u]; [injection Eq as -> _; lra|]. injection Eq as <- _. specialize (U x (or_introl eq_refl)). lra.
    + apply Rltb_false in E. destruct (IH x0) as (m & M & u & v & Eq & U & V). exists m. split; auto.
      destruct u as [|a u].
      * injection Eq as -> ->. exists [], (x :: v). split; auto. split; [intros y []|]. intros y [<-|I]; auto.
      * injection Eq as <- Eq. exists (x0 :: x :: u), v. split; [cbn; now rewrite Eq|]. split; auto.
        specialize (U x0 (or_introl eq_refl)) as U0. intros y [<-|[<-|I]]; auto; [lra|]. apply U. now right.
Qed.
Lemma argmin_le {A} (k : A -> R) x0 xs m u v : x0 :: xs = u ++ m :: v -> (forall y, In y u -> k m < k y) -> (forall y, In y v -> k m <= k y) ->
  forall y, In y (x0 :: xs) -> k m <= k y.
Proof. intros E U V y I. rewrite E in I. apply in_app_or in I. destruct I as [I|[<-|I]]; auto; [apply U in I|]; lra. Qed.

(** ** Nested loops *)
Lemma fold_nested {A B S} (f : A -> S -> B -> S) (l : list B) m : forall s,
  fold_left (fun st i => fold_left (f i) l st) m s = fold_left (fun st x => f (fst x) st (snd x)) (list_prod m l) s.
Proof.
  induction m as [|a m IH]; intros s; [reflexivity|]. cbn [fold_left list_prod]. rewrite fold_left_app, IH. f_equal.
  clear. revert s. induction l as [|b l IH]; intros s; [reflexivity|]. cbn [fold_left map]. apply IH.
Qed.
Definition lex (a b : nat * nat) : Prop := (fst a < fst b)%nat \/ (fst a = fst b /\ (snd a < snd b)%nat).
Lemma prod_sorted n m : forall s t, StronglySorted lex (list_prod (seq s n) (seq t m)).
Proof.
  assert (forall a t, StronglySorted lex (map (fun y => (a, y)) (seq t m))) as H1.
  { intros a. induction m as [|k IH]; intros t; cbn [seq map]; constructor; auto.
    rewrite Forall_forall. intros x I. apply in_map_iff in I. destruct I as (y & <- & I). apply in_seq in I. right. cbn. lia. }
  assert (forall l l' : list (nat * nat), StronglySorted lex l -> StronglySorted lex l' -> (forall x y, In x l -> In y l' -> lex x y) -> StronglySorted lex (l ++ l')) as H2.
  { induction l as [|x l IH]; intros l' S S' H; auto. cbn. inversion S as [|? ? S1 S2]; subst. constructor.
    - apply IH; auto. intros; apply H; auto. now right.
    - rewrite Forall_forall in *. intros y I. apply in_app_or in I. destruct I as [I|I]; auto. apply H; auto. now left. }
  induction n as [|n IH]; intros s t; cbn [seq list_prod]; [constructor|]. apply H2; auto.
  intros x y I J. apply in_map_iff in I. destruct I as (b & <- & _). apply in_prod_iff with (l := seq (S s) n) (l' := seq t m) in J || (destruct y; apply in_prod_iff in J).
  destruct J as [J _]. apply in_seq in J. left. cbn. lia.
Qed.
Lemma sorted_split l u m v : StronglySorted lex l -> l = u ++ m :: v -> forall y, In y v -> lex m y.
Proof.
  revert u. induction l as [|x l IH]; intros u S E y I; [now destruct u|].
  inversion S as [|? ? S1 S2]; subst. destruct u as [|a u]; injection E as -> E; [subst|eauto]. rewrite Forall_forall in S2. auto.
Qed.

Lemma closest_spec a b : a <> [] -> b <> [] -> exists d i j, closestPoints a b = Ok (d, i, j) /\
  (i < length a)%nat /\ (j < length b)%nat /\ d = edist (nth i a pt00) (nth j b pt00) /\
  (forall p q, In p a -> In q b -> d <= edist p q) /\
  (forall i' j', (i' < length a)%nat -> (j' < length b)%nat -> lex (i', j') (i, j) -> d < edist (nth i' a pt00) (nth j' b pt00)).
Proof.
  intros Na Nb. set (k := fun x : nat * nat => edist (nth (fst x) a pt00) (nth (snd x) b pt00)).
  set (L := list_prod (seq 0 (length a)) (seq 0 (length b))).
  assert (forall x, In x L <-> (fst x < length a)%nat /\ (snd x < length b)%nat) as IL.
  { intros [x y]. unfold L. rewrite in_prod_iff, !in_seq. cbn. lia. }
  assert (0 < length a)%nat as La by (destruct a; [congruence|cbn; lia]). assert (0 < length b)%nat as Lb by (destruct b; [congruence|cbn; lia]).
  destruct (argmin k L (0, 0)%nat) as (m & M & u & v & E & U & V).
  assert (closestPoints a b = Ok (k m, fst m, snd m)) as C.
  { transitivity (Ok (fold_left (fun st i => fold_left (cpStep a b i) (seq 0 (length b)) st) (seq 0 (length a)) (k (0, 0)%nat, 0%nat, 0%nat))).
    - unfold closestPoints, k. destruct a as [|p a]; [congruence|]. destruct b as [|q b]; [congruence|]. rewrite distPP_edist. reflexivity.
    - f_equal. rewrite fold_nested. fold L.
      assert (forall st : R * (nat * nat), fold_left (fun s x => cpStep a b (fst x) s (snd x)) L (fst st, fst (snd st), snd (snd st)) =
        let r := fold_left (amStep k) L st in (fst r, fst (snd r), snd (snd r))) as F.
      { clear. induction L as [|x L IH]; intros st; [reflexivity|]. cbn [fold_left].
        assert (cpStep a b (fst x) (fst st, fst (snd st), snd (snd st)) (snd x) = (fst (amStep k st x), fst (snd (amStep k st x)), snd (snd (amStep k st x)))) as ->.
        { unfold cpStep, amStep. cbn [fst]. rewrite distPP_edist. unfold k. rnum. destruct (Rltb _ _); destruct x; reflexivity. }
        apply IH. }
      specialize (F (k (0, 0)%nat, (0, 0)%nat)). cbn [fst snd] in F. rewrite F, M. reflexivity. }
  pose proof (argmin_le k _ _ m u v E U V) as LE.
  assert (In m L) as Im.
  { assert (In m ((0, 0)%nat :: L)) as [<-|I] by (rewrite E; apply in_or_app; right; now left); auto. apply IL. cbn. lia. }
  exists (k m), (fst m), (snd m). split; auto. apply IL in Im as [I J]. split; auto. split; auto. split; [reflexivity|]. split.
  - intros p q P Q. apply (In_nth _ _ pt00) in P. apply (In_nth _ _ pt00) in Q. destruct P as (i & Hi & <-), Q as (j & Hj & <-).
    apply (LE (i, j)). right. apply IL. cbn. lia.
  - intros i' j' Hi Hj X. change (k m < k (i', j')). apply U.
    assert (In (i', j') (u ++ m :: v)) as I' by (rewrite <- E; right; apply IL; cbn; lia).
    apply in_app_or in I'. destruct I' as [I'|[I'|I']]; auto; exfalso.
    + subst m. unfold lex in X. cbn in X. lia.
    + destruct u as [|z u].
      * injection E as E0 _. rewrite <- E0 in X. unfold lex in X. cbn in X. lia.
      * injection E as _ E. apply (sorted_split L u m v (prod_sorted _ _ _ _) E) in I'. unfold lex in *. cbn in *. lia.
Qed.

(** ** Nearest and farthest point *)
Lemma sqDist_edist p q : sqDist p q = edist p q * edist p q.
Proof. rewrite edist_sq. unfold sqDist. rnum. reflexivity. Qed.
Lemma sq_lt a b : 0 <= a -> 0 <= b -> a * a < b * b <-> a < b.
Proof. intros A B. split; intros H; [apply Rsqr_incrst_0|apply Rsqr_incrst_1]; auto. Qed.
Definition valid (th : thrs R) (q : pt R) (pts : list (pt R)) (i : nat) : Prop := nullDistance th <= edist q (nth i pts pt00).
Definition validB (th : thrs R) q (pts : list (pt R)) (i : nat) : bool := negb (ptEq th q (nth i pts pt00)).
Lemma validB_spec th q pts i : validB th q pts i = true <-> valid th q pts i.
Proof. unfold validB, valid. rewrite negb_true_iff. apply ptEq_false. Qed.
(** The signed squared distance: the smallest for the nearest, or for the farthest. *)
Definition fkey (far : bool) (q : pt R) (pts : list (pt R)) (i : nat) : R := let d := sqDist q (nth i pts pt00) in if far then - d else d.
Lemma fpStep_fold th far q pts l : forall i0, fst (fold_left (fpStep th far q pts) l (i0, sqDist q (nth i0 pts pt00))) =
  snd (fold_left (amStep (fkey far q pts)) (filter (validB th q pts) l) (fkey far q pts i0, i0)).
Proof.
  induction l as [|i l IH]; intros i0; [reflexivity|]. cbn [fold_left filter]. unfold fpStep at 2. fold (validB th q pts i).
  destruct (validB th q pts i) eqn:E; cbn [fold_left]; [|apply IH]. unfold amStep at 2. cbn [fst snd].
  assert ((if far then if (sqDist q (nth i pts pt00) >? sqDist q (nth i0 pts pt00))%num then (i, sqDist q (nth i pts pt00)) else (i0, sqDist q (nth i0 pts pt00))
     else if (sqDist q (nth i pts pt00) <? sqDist q (nth i0 pts pt00))%num then (i, sqDist q (nth i pts pt00)) else (i0, sqDist q (nth i0 pts pt00))) =
     (if Rltb (fkey far q pts i) (fkey far q pts i0) then (i, sqDist q (nth i pts pt00)) else (i0, sqDist q (nth i0 pts pt00)))) as ->.
  { unfold fkey. rnum. destruct far; auto.
    replace (Rltb (- sqDist q (nth i pts pt00)) (- sqDist q (nth i0 pts pt00))) with (Rltb (sqDist q (nth i0 pts pt00)) (sqDist q (nth i pts pt00))); auto.
    apply eq_true_iff_eq. rewrite !Rltb_spec. lra. }
  destruct (Rltb _ _); apply IH.
Qed.
Lemma fkey_le far q pts i j : fkey far q pts i <= fkey far q pts j <-> if far then edist q (nth j pts pt00) <= edist q (nth i pts pt00) else edist q (nth i pts pt00) <= edist q (nth j pts pt00).
Proof.
  unfold fkey. rewrite !sqDist_edist. pose proof (edist_pos q (nth i pts pt00)) as A. pose proof (edist_pos q (nth j pts pt00)) as B.
  pose proof (sq_lt _ _ A B). pose proof (sq_lt _ _ B A). destruct far; split; intros; apply Rnot_lt_le; intros X; tauto || lra.
Qed.
Lemma fkey_lt far q pts i j : fkey far q pts i < fkey far q pts j <-> if far then edist q (nth j pts pt00) < edist q (nth i pts pt00) else edist q (nth i pts pt00) < edist q (nth j pts pt00).
Proof.
  unfold fkey. rewrite !sqDist_edist. pose proof (edist_pos q (nth i pts pt00)) as A. pose proof (edist_pos q (nth j pts pt00)) as B.
  pose proof (sq_lt _ _ A B). pose proof (sq_lt _ _ B A). destruct far; split; intros; tauto || (apply H; lra) || (apply H0; lra) || (apply H0 in H1; lra) .
Qed.
Lemma seq_sorted_split s n u m v : seq s n = u ++ m :: v -> forall y, In y v -> (m < y)%nat.
Proof.
  revert s n. induction u as [|a u IH]; intros s n E y I; destruct n; try discriminate; cbn in E; injection E as -> E.
  - rewrite <- E in I. apply in_seq in I. lia.
  - eauto.
Qed.
Lemma filter_sorted_split f s n u m v : filter f (seq s n) = u ++ m :: v -> forall y, In y v -> (m < y)%nat.
Proof.
  revert s u. induction n as [|n IH]; intros s u E y I; cbn in E; [now destruct u|]. destruct (f s).
  - destruct u as [|a u]; injection E as -> E; [|eauto]. assert (In y (filter f (seq (S m) n))) as J by (rewrite E; auto). apply filter_In in J. destruct J as [J _]. apply in_seq in J. lia.
  - eauto.
Qed.
(** Result of the search that starts at [i0] and looks at the following indexes. *)
Lemma find_from th far q pts i0 : (i0 < length pts)%nat ->
  let r := fst (fold_left (fpStep th far q pts) (seq (S i0) (length pts - S i0)) (i0, sqDist q (nth i0 pts pt00))) in
  (r = i0 \/ valid th q pts r) /\ (i0 <= r < length pts)%nat /\
  fkey far q pts r <= fkey far q pts i0 /\
  (forall j, (i0 < j < length pts)%nat -> valid th q pts j -> fkey far q pts r <= fkey far q pts j) /\
  (forall j, (i0 <= j < r)%nat -> j = i0 \/ valid th q pts j -> fkey far q pts r < fkey far q pts j).
Proof.
  intros L. cbv zeta. rewrite fpStep_fold. set (l := filter (validB th q pts) (seq (S i0) (length pts - S i0))).
  assert (forall j, In j l <-> (i0 < j < length pts)%nat /\ valid th q pts j) as IL.
  { intros j. unfold l. rewrite filter_In, in_seq, validB_spec. intuition lia. }
  destruct (argmin (fkey far q pts) l i0) as (m & -> & u & v & E & U & V). cbn [snd].
  pose proof (argmin_le _ _ _ m u v E U V) as LE.
  assert (m = i0 \/ In m l) as M. { assert (In m (i0 :: l)) as [<-|I] by (rewrite E; apply in_or_app; right; now left); auto. }
  split; [destruct M as [->|M]; auto; right; now apply IL|]. split; [destruct M as [->|M]; [lia|]; apply IL in M; lia|].
  split; [apply LE; now left|]. split; [intros j J K; apply LE; right; apply IL; auto|].
  intros j J K. apply U. assert (In j (u ++ m :: v)) as I.
  { rewrite <- E. destruct K as [->|K]; [now left|]. destruct (Nat.eq_dec j i0) as [->|]; [now left|]. right. apply IL. split; auto. destruct M as [->|M]; [lia|]. apply IL in M. lia. }
  apply in_app_or in I. destruct I as [I|[<-|I]]; auto; [lia|]. exfalso. destruct u as [|a u].
  - injection E as <- E. rewrite <- E in I. apply IL in I. lia.
  - injection E as <- E. apply (filter_sorted_split _ _ _ _ _ _ E) in I. lia.
Qed.
