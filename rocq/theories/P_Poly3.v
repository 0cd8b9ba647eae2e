(** * Polylines: comparison, simple polygons, convexity *)

From Coq Require Import Reals Lra Lia List Bool Arith ZArith Permutation.
From Verif Require Import Num M_LP M_Seg M_Poly S_Geom S_Seg S_Poly P_LP P_LP2 P_LP3 P_LP4 P_Seg P_Seg2 P_Seg3 P_Poly P_Poly2.
Import ListNotations.
Local Open Scope R_scope.

(** ** Comparison *)
Lemma uniqueMin (pts : list (pt R)) : pts <> [] -> NoDup pts ->
  exists u m v, pts = u ++ m :: v /\ forall x, In x (u ++ v) -> lexlt m x.
Proof.
  intros N D. destruct (minElem_spec ptLt pt00 ptLt_irr ptLt_tr ptLt_tr2 ptLt_ntr _ N) as (B & M & _).
  set (i := minElem ptLt pts) in *. destruct (nth_split pts pt00 B) as (u & v & E & _).
  exists u, (nth i pts pt00), v. split; auto. intros x Hx.
  assert (x <> nth i pts pt00). { intros ->. rewrite E in D. apply NoDup_remove_2 in D. contradiction. }
  assert (In x pts) as I. { rewrite E. apply in_app_or in Hx. apply in_or_app. cbn. tauto. }
  destruct (In_nth _ _ pt00 I) as (j & Hj & Ej). specialize (M j Hj). rewrite Ej in M. apply ptLt_false in M.
  destruct (lexlt_total x (nth i pts pt00)) as [|[|]]; tauto.
Qed.
Lemma corner_triple (u v : list (pt R)) m : v ++ u <> [] -> triple (u ++ m :: v) (last (v ++ u) pt00) m (hd pt00 (v ++ u)).
Proof.
  intros N. unfold triple. destruct v as [|a v].
  - cbn [app] in *. pose proof (app_removelast_last pt00 N) as E. destruct u as [|b u]; [congruence|].
    exists (removelast (b :: u)), (u ++ [m]). cbn [hd]. rewrite E at 1. rewrite <- !app_assoc. reflexivity.
  - pose proof (app_removelast_last pt00 N) as E. exists (u ++ m :: removelast ((a :: v) ++ u)), v. cbn [hd app].
    transitivity (u ++ m :: ((a :: v) ++ u) ++ m :: a :: v); [now rewrite <- !app_assoc|].
    rewrite E at 1. rewrite <- !app_assoc. reflexivity.
Qed.
Lemma corner_det m a c : lexlt m a -> lexlt m c -> ~ spikeAt c m a -> cross3 a m c <> 0.
Proof.
  unfold lexlt, spikeAt, cross3. intros A C N E. apply N. clear N.
  set (x := px a - px m) in *. set (y := py a - py m) in *. set (z := px c - px m) in *. set (w := py c - py m) in *.
  assert (0 < x \/ x = 0 /\ 0 < y) as A' by (destruct A; [left|right]; unfold x, y; lra). assert (0 < z \/ z = 0 /\ 0 < w) as C' by (destruct C; [left|right]; unfold z, w; lra).
  assert (z * y - w * x = 0) as E'. { rewrite <- E. unfold x, y, z, w. ring. }
  split; [exact E'|]. clear E A C. clearbody x y z w.
  destruct A' as [A|[A A0]], C' as [C|[C C0]].
  - assert (z * (z * x + w * y) = x * (z * z + w * w)) as H.
    { replace (z * (z * x + w * y)) with (x * z * z + w * (z * y)) by ring. replace (z * y) with (w * x) by lra. ring. }
    assert (0 < x * (z * z + w * w)) by (apply Rmult_lt_0_compat; nra). rewrite <- H in H0.
    apply Rmult_lt_reg_l with z; lra.
  - rewrite C in *. assert (w * x = 0) by lra. assert (0 < w * x) by (apply Rmult_lt_0_compat; auto). lra.
  - rewrite A in *. assert (z * y = 0) by lra. assert (0 < z * y) by (apply Rmult_lt_0_compat; auto). lra.
  - rewrite A, C. assert (0 < w * y) by (apply Rmult_lt_0_compat; auto). lra.
Qed.

Lemma rev_at {A} (u v : list A) m : rev (u ++ m :: v) = rev v ++ m :: rev u.
Proof. rewrite rev_app_distr. cbn [rev]. now rewrite <- app_assoc. Qed.
(** The normal form of a polygon with a unique smallest vertex which is not the tip of a spike. *)
Lemma norm_corner u v m (w := v ++ u) : (forall x, In x (u ++ v) -> lexlt m x) -> w <> [] -> cross3 (hd pt00 w) m (last w pt00) <> 0 ->
  forall pts', sameCycle (u ++ m :: v) pts' -> normPts true pts' = normPts true (u ++ m :: v).
Proof.
  intros H N D pts' S. subst w.
  assert (forall x, In x (v ++ u) -> lexlt m x) as H' by (intros x Hx; apply H; apply in_app_or in Hx; apply in_or_app; tauto).
  rewrite normPts_canon by auto. destruct S as [S|S].
  - destruct (shifted_at _ _ _ _ S) as (u' & v' & -> & E). rewrite normPts_canon; rewrite ?E; auto.
    intros x Hx. apply H'. rewrite <- E. apply in_app_or in Hx. apply in_or_app. tauto.
  - rewrite rev_at in S. destruct (shifted_at _ _ _ _ S) as (u' & v' & -> & E). rewrite <- rev_app_distr in E.
    assert (rev (v ++ u) <> []) as N' by (intros X; apply N; rewrite <- (rev_involutive (v ++ u)), X; reflexivity).
    rewrite normPts_canon; rewrite ?E; auto.
    + rewrite hd_rev, last_rev, rev_involutive.
      assert (cross3 (last (v ++ u) pt00) m (hd pt00 (v ++ u)) = - cross3 (hd pt00 (v ++ u)) m (last (v ++ u) pt00)) as -> by (unfold cross3; ring).
      repeat rcase1; rclean; auto; lra.
    + intros x Hx. apply H', in_rev. rewrite <- E. apply in_app_or in Hx. apply in_or_app. tauto.
Qed.
Lemma normPts_ok closed pts : (2 <= length pts)%nat -> exists c, normPts closed pts = Ok c.
Proof.
  intros L. unfold normPts. destruct closed.
  - destruct (rotateL (minElem ptLt pts) pts) as [|a [|b l]] eqn:E; [eauto| |destruct (_ <? _)%num; eauto].
    exfalso. apply (f_equal (@length _)) in E. unfold rotateL in E. rewrite app_length, skipn_length, firstn_length in E. cbn [length] in E. lia.
  - destruct pts; [eauto|]. destruct (ptLt _ _); eauto.
Qed.
Lemma norm_same_closed pts pts' : NoDup pts -> (3 <= length pts)%nat -> noSpike pts -> sameCycle pts pts' ->
  exists c, normPts true pts = Ok c /\ normPts true pts' = Ok c.
Proof.
  intros D L N S. assert (pts <> []) as NE by (destruct pts; [cbn in L; lia|discriminate]).
  destruct (normPts_ok true pts) as (c & Ec); [lia|]. exists c. split; auto.
  destruct (uniqueMin pts NE D) as (u & m & v & -> & H).
  assert (v ++ u <> []) as W. { intros X. apply (f_equal (@length _)) in X. rewrite app_length in X. rewrite app_length in L. cbn [length] in *. lia. }
  assert (forall x, In x (v ++ u) -> lexlt m x) as H' by (intros x Hx; apply H; apply in_app_or in Hx; apply in_or_app; tauto).
  rewrite <- Ec. apply norm_corner; auto. apply corner_det.
  - apply H'. destruct (v ++ u); [congruence|now left].
  - apply H'. rewrite (app_removelast_last pt00 W) at 2. apply in_or_app. right. now left.
  - apply N. now apply corner_triple.
Qed.
Lemma norm_same_open pts : hd pt00 pts <> last pts pt00 -> normPts false (rev pts) = normPts false pts.
Proof.
  intros D. destruct pts as [|a r]; [cbn in D; congruence|]. unfold normPts at 2.
  assert (rev (a :: r) <> []) as N by (cbn [rev]; now destruct (rev r)).
  assert (normPts false (rev (a :: r)) = if ptLt (last (rev (a :: r)) pt00) (hd pt00 (rev (a :: r))) then Ok (rev (rev (a :: r))) else Ok (rev (a :: r))) as ->.
  { unfold normPts. destruct (rev (a :: r)) eqn:E; [congruence|]. reflexivity. }
  rewrite last_rev, hd_rev, rev_involutive. cbn [hd] in *.
  destruct (lexlt_total a (last (a :: r) pt00)) as [X|[X|X]]; [|congruence|].
  - rewrite (proj2 (ptLt_spec _ _) X). rewrite (proj2 (ptLt_false _ _)); auto. intros C. apply (lexlt_irrefl a). eapply lexlt_trans; eauto.
  - rewrite (proj2 (ptLt_spec _ _) X). rewrite (proj2 (ptLt_false _ _)); auto. intros C. apply (lexlt_irrefl a). eapply lexlt_trans; eauto.
Qed.
Lemma shifted_refl {A} (l : list A) : shifted l l. Proof. exists [], l. now rewrite app_nil_r. Qed.
Lemma rotateL_shifted {A} k (l : list A) : shifted l (rotateL k l).
Proof. exists (firstn k l), (skipn k l). split; [symmetry; apply firstn_skipn|reflexivity]. Qed.
Lemma shifted_sym {A} (l m : list A) : shifted l m -> shifted m l.
Proof. intros (u & v & -> & ->). exists v, u. auto. Qed.
Lemma shifted_perm {A} (l m : list A) : shifted l m -> Permutation l m.
Proof. intros (u & v & -> & ->). apply Permutation_app_comm. Qed.
Lemma shifted_len {A} (l m : list A) : shifted l m -> length l = length m.
Proof. intros H. apply Permutation_length. now apply shifted_perm. Qed.
Lemma shifted_step {A} (a : A) l m : shifted (a :: l) m -> m = a :: l \/ shifted (l ++ [a]) m.
Proof.
  intros (u & v & E & ->). destruct u as [|b u].
  - cbn in E. subst v. left. now rewrite app_nil_r.
  - injection E as <- ->. right. exists u, (v ++ [a]). split; now rewrite <- app_assoc.
Qed.
Lemma shifted_trans {A} (l m k : list A) : shifted l m -> shifted m k -> shifted l k.
Proof.
  intros (u & v & -> & ->). revert v. induction u as [|a u IH] using rev_ind; intros v H.
  - now rewrite app_nil_r in H.
  - replace ((u ++ [a]) ++ v) with (u ++ (a :: v)) by (now rewrite <- app_assoc). apply IH. cbn [app].
    assert (shifted (a :: v ++ u) (v ++ u ++ [a])) as S by (exists [a], (v ++ u); split; auto; now rewrite <- app_assoc).
    destruct H as (x & y & E & ->).
    (* m = v ++ u ++ [a] = x ++ y *)
    assert (y = [] \/ exists y0 b, y = y0 ++ [b]) as [->|(y0 & b & ->)] by (destruct y using rev_ind; eauto).
    + rewrite app_nil_r in E. subst x. exact S.
    + assert (v ++ u = x ++ y0 /\ a = b) as [E1 <-].
      { apply app_inj_tail. rewrite <- !app_assoc. exact E. }
      rewrite E1. exists (a :: x), y0. split; [reflexivity|]. now rewrite <- app_assoc.
Qed.
Lemma normPts_cycle closed pts c : normPts closed pts = Ok c ->
  if closed then sameCycle pts c else c = pts \/ c = rev pts.
Proof.
  unfold normPts. destruct closed.
  - destruct (rotateL (minElem ptLt pts) pts) as [|a [|b l]] eqn:E; [|discriminate|].
    + intros H. apply Ok_inj in H. subst c. left. rewrite <- E. apply rotateL_shifted.
    + rewrite <- E. destruct (_ <? _)%num; intros H; apply Ok_inj in H; subst c.
      * right. eapply shifted_trans; [|apply rotateL_shifted].
        destruct (rotateL_shifted (minElem ptLt pts) pts) as (u & v & E1 & E2). rewrite E2. rewrite E1, !rev_app_distr.
        exists (rev v), (rev u). auto.
      * left. apply rotateL_shifted.
  - destruct pts as [|a l]; [intros H; apply Ok_inj in H; auto|]. destruct (ptLt _ _); intros H; apply Ok_inj in H; auto.
Qed.
Lemma plEq_fresh th closed a b ca cb : length a = length b -> normPts closed a = Ok ca -> normPts closed b = Ok cb -> (2 <= length a)%nat ->
  plEq th closed (plFresh a) (plFresh b) =
  Ok (forallb (fun c => ptEq th (fst c) (snd c)) (combine cb ca), mkPl ca true None None None None, mkPl cb true None None None None).
Proof.
  intros L Ea Eb N. unfold plEq, plFresh. cbn [plPts]. rewrite (proj2 (Nat.eqb_eq _ _) L). cbn [negb]. unfold plNormalize. cbn [plPts plNorm plLen plArea plSimple plCent].
  destruct a as [|x a]; [cbn in N; lia|]. destruct b as [|y b]; [cbn in L; discriminate|]. rewrite Ea, Eb. reflexivity.
Qed.
Lemma forallb_self th l : thr_ok th -> forallb (fun c => ptEq th (fst c) (snd c)) (combine l l) = true.
Proof. intros Hth. induction l as [|x l IH]; [reflexivity|]. cbn [combine forallb fst snd]. rewrite IH, ptEq_refl; auto. Qed.
Lemma forallb_near th a b : length a = length b -> forallb (fun c => ptEq th (fst c) (snd c)) (combine b a) = true -> near th b a.
Proof.
  revert b. induction a as [|x a IH]; intros [|y b] L H; try discriminate; [constructor|]. cbn [combine forallb fst snd] in H. apply andb_true_iff in H.
  constructor; [now apply ptEq_spec|]. apply IH; auto. tauto.
Qed.

(** ** Turns of a closed polygon *)
Lemma nth_twice {A} (l : list A) d k : (k < 2 * length l)%nat ->
  nth k (l ++ l) d = nth (if (k <? length l)%nat then k else (k - length l)%nat) l d.
Proof. intros H. destruct (Nat.ltb_spec k (length l)); [now rewrite app_nth1|now rewrite app_nth2]. Qed.
Lemma split3 {A} (l : list A) d k : (k + 2 < length l)%nat ->
  exists u v, length u = k /\ l = u ++ nth k l d :: nth (k + 1) l d :: nth (k + 2) l d :: v.
Proof.
  revert l. induction k as [|k IH]; intros l H.
  - destruct l as [|a [|b [|c l]]]; cbn [length] in H; try lia. exists [], l. auto.
  - destruct l as [|a l]; cbn [length] in H; [lia|]. destruct (IH l) as (u & v & L & E); [lia|].
    exists (a :: u), v. split; [cbn; lia|]. cbn [nth Nat.add app]. now rewrite <- E.
Qed.
Lemma triple_index pts p q r : (2 <= length pts)%nat ->
  triple pts p q r <-> exists i, (i < length pts)%nat /\ p = nth (prevIdx (length pts) i) pts pt00 /\ q = nth i pts pt00 /\ r = nth (nextIdx (length pts) i) pts pt00.
Proof.
  intros L. set (n := length pts) in *. split.
  - intros (u & v & E).
    assert (length (pts ++ pts) = (length u + 3 + length v)%nat) as EL by (rewrite E, app_length; cbn [length]; lia).
    rewrite app_length in EL. fold n in EL. set (k := length u) in *.
    assert (p = nth k (pts ++ pts) pt00) as P by (rewrite E, app_nth2, Nat.sub_diag by (fold k; lia); reflexivity).
    assert (q = nth (k + 1) (pts ++ pts) pt00) as Q.
    { rewrite E, app_nth2 by (fold k; lia). fold k. replace (k + 1 - k)%nat with 1%nat by lia. reflexivity. }
    assert (r = nth (k + 2) (pts ++ pts) pt00) as Rr.
    { rewrite E, app_nth2 by (fold k; lia). fold k. replace (k + 2 - k)%nat with 2%nat by lia. reflexivity. }
    rewrite nth_twice in P, Q, Rr by (fold n; lia). fold n in P, Q, Rr.
    exists (if (k + 1 <? n)%nat then (k + 1)%nat else (k + 1 - n)%nat).
    unfold prevIdx, nextIdx.
    destruct (Nat.ltb_spec k n), (Nat.ltb_spec (k + 1) n), (Nat.ltb_spec (k + 2) n); try lia;
    split; try lia; rewrite P, Q, Rr; split; [|split|..]; try reflexivity; try (split; [reflexivity|]); f_equal;
    repeat match goal with |- context [(?a =? ?b)%nat] => destruct (Nat.eqb_spec a b) end; lia.
  - intros (i & Hi & -> & -> & ->). unfold triple.
    set (k := prevIdx n i). assert (k + 2 < length (pts ++ pts))%nat as K.
    { rewrite app_length. fold n. unfold k, prevIdx. destruct (Nat.eqb_spec i 0); lia. }
    destruct (split3 (pts ++ pts) pt00 k K) as (u & v & _ & E). exists u, v. rewrite E at 1.
    rewrite !nth_twice by (rewrite app_length in K; fold n; lia). fold n.
    repeat f_equal; unfold k, prevIdx, nextIdx;
    repeat match goal with |- context [(?a =? ?b)%nat] => destruct (Nat.eqb_spec a b) | |- context [(?a <? ?b)%nat] => destruct (Nat.ltb_spec a b) end; lia.
Qed.
Lemma triple_rev pts p q r : triple (rev pts) p q r <-> triple pts r q p.
Proof.
  assert (forall pts p q r, triple pts p q r -> triple (rev pts) r q p) as G.
  { intros l a b c (u & v & E). exists (rev v), (rev u). rewrite <- rev_app_distr, E, rev_app_distr. cbn [rev]. rewrite <- !app_assoc. reflexivity. }
  split; intros H; [rewrite <- (rev_involutive pts)|]; now apply G.
Qed.
Lemma triple_shift pts pts' p q r : (2 <= length pts)%nat -> shifted pts pts' -> triple pts p q r -> triple pts' p q r.
Proof.
  assert (forall a l p q r, (2 <= length (a :: l))%nat -> triple (a :: l) p q r -> triple (l ++ [a]) p q r) as G.
  { intros a l x y z L (u & v & E). destruct u as [|b u].
    - destruct l as [|b [|c l]]; [cbn in L; lia| |].
      + cbn in E. injection E as <- <- <- <-. exists [b], []. reflexivity.
      + cbn in E. injection E as <- <- <- E. 
        exists (b :: c :: l), (l ++ [a]). cbn [app]. rewrite <- !app_assoc. reflexivity.
    - injection E as <- E. exists u, (v ++ [a]).
      transitivity ((l ++ a :: l) ++ [a]); [now rewrite <- !app_assoc|]. rewrite E, <- !app_assoc. reflexivity. }
  intros L (u & v & E & ->). subst pts. revert v L. induction u as [|a u IH]; intros v L H; [now rewrite app_nil_r|].
  specialize (IH (v ++ [a])). rewrite <- app_assoc in IH. cbn [app] in IH. apply IH.
  - rewrite !app_length in *. cbn [length] in *. lia.
  - rewrite app_assoc. apply G; auto.
Qed.
Lemma plCross_turn pts i : plCross pts i = cross3 (nth (prevIdx (length pts) i) pts pt00) (nth i pts pt00) (nth (nextIdx (length pts) i) pts pt00).
Proof. unfold plCross, cross3. rnum. ring. Qed.
Lemma convexLoop_sgn pts s idx : (s = 1 \/ s = -1)%Z ->
  convexLoop pts s idx = true <-> forall i, In i idx -> ((0 < plCross pts i) <-> (s = 1)%Z).
Proof.
  intros Hs. induction idx as [|i idx IH]; [cbn; tauto|]. cbn [convexLoop]. rnum.
  replace (Z.eqb s 0) with false by (destruct Hs as [->| ->]; reflexivity).
  destruct (Rltb 0 (plCross pts i)) eqn:C; rclean.
  - destruct (Z.eqb_spec s 1) as [->|N]; cbn [negb].
    + rewrite IH. split; intros H; [intros j [<-|J]; [tauto|now apply H]|intros j J; apply H; now right].
    + split; [discriminate|]. intros H. exfalso. apply N, (H i); [now left|auto].
  - destruct (Z.eqb_spec s (-1)) as [->|N]; cbn [negb].
    + rewrite IH. split; intros H; [intros j [<-|J]; [split; [lra|discriminate]|now apply H]|intros j J; apply H; now right].
    + split; [discriminate|]. intros H. exfalso. destruct Hs as [->|Hs]; [|tauto].
      specialize (H i (or_introl eq_refl)). destruct H as [_ H]. specialize (H eq_refl). lra.
Qed.
Lemma convexLoop_spec pts idx : convexLoop pts 0 idx = true <->
  (forall i, In i idx -> 0 < plCross pts i) \/ (forall i, In i idx -> plCross pts i <= 0).
Proof.
  destruct idx as [|i idx]; [cbn; split; auto; intros _; left; tauto|]. cbn [convexLoop Z.eqb]. rnum.
  destruct (Rltb 0 (plCross pts i)) eqn:C; rclean.
  - rewrite convexLoop_sgn by auto. split.
    + intros H. left. intros j [<-|J]; auto. now apply H.
    + intros [H|H]; [|specialize (H i (or_introl eq_refl)); lra]. intros j J. split; auto. intros _. apply H. now right.
  - rewrite convexLoop_sgn by auto. split.
    + intros H. right. intros j [<-|J]; auto. destruct (Rle_dec (plCross pts j) 0); auto. exfalso.
      specialize (H j J). destruct H as [H _]. specialize (H ltac:(lra)). discriminate.
    + intros [H|H]; [specialize (H i (or_introl eq_refl)); lra|]. intros j J. specialize (H j (or_intror J)). split; [lra|discriminate].
Qed.
Lemma convex_turns pts : (2 <= length pts)%nat -> convexLoop pts 0 (seq 0 (length pts)) = true <->
  (forall p q r, triple pts p q r -> 0 < cross3 p q r) \/ (forall p q r, triple pts p q r -> cross3 p q r <= 0).
Proof.
  intros L. rewrite convexLoop_spec.
  assert (forall P : R -> Prop, (forall i, In i (seq 0 (length pts)) -> P (plCross pts i)) <-> (forall p q r, triple pts p q r -> P (cross3 p q r))) as G.
  { intros P. split; intros H.
    - intros p q r T. apply triple_index in T; auto. destruct T as (i & Hi & -> & -> & ->). rewrite <- plCross_turn. apply H, in_seq. lia.
    - intros i Hi. apply in_seq in Hi. rewrite plCross_turn. apply H, triple_index; auto. exists i. split; [lia|auto]. }
  now rewrite (G (fun x => 0 < x)), (G (fun x => x <= 0)).
Qed.
Lemma convex_rev pts : (2 <= length pts)%nat -> (forall p q r, triple pts p q r -> cross3 p q r <> 0) ->
  convexLoop (rev pts) 0 (seq 0 (length (rev pts))) = convexLoop pts 0 (seq 0 (length pts)).
Proof.
  intros L N. apply eq_true_iff_eq. rewrite !convex_turns by (rewrite ?rev_length; auto).
  assert (forall p q r, cross3 p q r = - cross3 r q p) as A by (intros; unfold cross3; ring).
  split; intros [H|H]; [right|left|right|left]; intros p q r T; rewrite A.
  - assert (0 < cross3 r q p); [|lra]. apply H. now apply triple_rev.
  - assert (cross3 r q p <= 0) by (apply H; now apply triple_rev). specialize (N p q r T). rewrite A in N. lra.
  - apply (proj1 (triple_rev _ _ _ _)) in T. specialize (H _ _ _ T). lra.
  - apply (proj1 (triple_rev _ _ _ _)) in T. specialize (H _ _ _ T). specialize (N _ _ _ T). lra.
Qed.
