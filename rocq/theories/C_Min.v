(** * C133, C134: minimize() *)

From Coq Require Import Reals Lra Psatz List Lia Bool Arith ZArith Permutation.
From Verif Require Import Num M_LP M_Homogr M_Seg M_Poly S_Geom S_Seg S_Poly P_LP P_LP2 P_LP4 P_LP5 P_Seg P_Seg4 P_Poly P_Poly3 P_Poly7 P_Rect2 S_Extra S_Min P_Min.
Import ListNotations.
Local Open Scope R_scope.

Lemma filter_picked' {A} (P : A -> Prop) f l : (forall x, f x = true <-> P x) -> picked P (filter f l) l.
Proof.
  intros H. induction l as [|x l IH]; [constructor|]. cbn [filter]. destruct (f x) eqn:E; constructor; auto; [now apply H|]. intros C. apply H in C. congruence.
Qed.
Definition mid3 (t : pt R * pt R * pt R) : pt R := snd (fst t).
Definition bent (t : pt R * pt R * pt R) : Prop := ~ straight (fst (fst t)) (snd (fst t)) (snd t).
Lemma kf_picked p l e : exists T, picked bent T (trips p l e) /\ kf strb p l e = map mid3 T.
Proof.
  exists (filter (fun t => negb (strb (fst (fst t)) (snd (fst t)) (snd t))) (trips p l e)). split; [|apply kf_trips].
  apply filter_picked'. intros [[x y] z]. unfold bent. cbn [fst snd]. rewrite <- strb_spec. destruct (strb x y z); cbn; split; congruence.
Qed.
Lemma last_d {A} (l : list A) d : last (d :: l) d = last l d.
Proof. apply last_cons. Qed.

(** ** C133: minimize() removes the straight vertices and nothing else *)
Theorem C133_open : forall th pl, thr_ok th -> (3 <= length (plPts pl))%nat -> clearCut th false (plPts pl) ->
  exists pl', plMinimize th false pl = Ok pl' /\
    (exists T, picked bent T (corners3 false (plPts pl)) /\ plPts pl' = hd pt00 (plPts pl) :: map mid3 T ++ [last (plPts pl) pt00]) /\
    pathLen false (plPts pl') = pathLen false (plPts pl) /\
    (forall q, onPath false (plPts pl') q <-> onPath false (plPts pl) q) /\
    (forall x y z, In (x, y, z) (corners3 false (plPts pl')) -> turning th x y z).
Proof.
  intros th pl Ht L CC. destruct (plPts pl) as [|a r] eqn:E; [cbn in L; lia|].
  assert (r <> []) as NR by (intros ->; cbn in L; lia). destruct (exists_last NR) as (m & e & ->).
  assert (m <> []) as NM by (intros ->; cbn in L; lia).
  rewrite <- E in CC. destruct (minimize_open th pl a m e Ht E NM CC) as (pl' & Em & Ep). rewrite E in CC. destruct CC as [CL CT].
  assert (corners3 false (a :: m ++ [e]) = trips a m e) as C3 by (unfold corners3; rewrite removelast_last, last_app1; reflexivity). rewrite C3 in *.
  assert (NE : forall x y, In (x, y) (chain (a :: m ++ [e])) -> x <> y) by (intros x y I; apply (neq_far th); auto; exact (CL (x, y) I)).
  exists pl'. split; auto. rewrite Ep. split; [|split; [|split]].
  - destruct (kf_picked a m e) as (T & P & EK). exists T. split; auto. rewrite EK. cbn [hd]. rewrite last_cons, last_app1. reflexivity.
  - unfold pathLen. cbn [sides]. rewrite (kf_sum (fun e => edist (fst e) (snd e)) straight_len m a a e NE (sdir_refl _ _)). rewrite (chain_hd a m e). reflexivity.
  - intros q. unfold onPath. cbn [sides]. rewrite (kf_pts q m a a e NE (sdir_refl _ _)). rewrite (chain_hd a m e). split.
    + intros [H|(s & I & H)]; [exists (a, hd e m); split; auto; now left|exists s; split; auto; now right].
    + intros (s & [<-|I] & H); eauto.
  - intros x y z. assert (corners3 false (a :: kf strb a m e ++ [e]) = trips a (kf strb a m e) e) as -> by (unfold corners3; rewrite removelast_last, last_app1; reflexivity).
    apply (kf_turns th m a a e NE CT (sdir_refl _ _)).
Qed.
Print Assumptions C133_open.

Theorem C133_closed : forall th pl, thr_ok th -> (3 <= length (plPts pl))%nat -> clearCut th true (plPts pl) ->
  exists pl', plMinimize th true pl = Ok pl' /\ (2 <= length (plPts pl'))%nat /\
    (exists T, picked bent T (corners3 true (plPts pl)) /\ plPts pl' = map mid3 T) /\
    pathLen true (plPts pl') = pathLen true (plPts pl) /\ (forall o, fanArea o (plPts pl') = fanArea o (plPts pl)) /\
    (forall q, onPath true (plPts pl') q <-> onPath true (plPts pl) q) /\
    (forall x y z, In (x, y, z) (corners3 true (plPts pl')) -> turning th x y z).
Proof.
  intros th pl Ht L CC. destruct (minimize_closed th pl Ht L CC) as (pl' & u & b & v & Em & EU & Ep & GB & EK).
  destruct CC as [CL CT]. set (w := v ++ u) in *.
  assert (PR : Permutation (cyc (plPts pl)) (chain (b :: w ++ [b]))).
  { rewrite <- cyc_chain. apply cyc_shift. exists u, (b :: v). split; auto. }
  assert (CL' : forall s, In s (chain (b :: w ++ [b])) -> nullDistance th <= edist (fst s) (snd s)) by (intros s I; apply CL; eapply Permutation_in; [symmetry; exact PR|exact I]).
  assert (NE : forall x y, In (x, y) (chain (b :: w ++ [b])) -> x <> y) by (intros x y I; apply (neq_far th); auto; exact (CL' (x, y) I)).
  assert (SUM : forall f, (forall a b c, straight a b c -> f (a, c) = f (a, b) + f (b, c)) -> sumOver f (cyc (plPts pl')) = sumOver f (cyc (plPts pl))).
  { intros f HF. rewrite (sumOver_perm f _ _ PR), Ep, cyc_chain, (kf_sum f HF w b b b NE (sdir_refl _ _)), (chain_hd b w b). reflexivity. }
  assert (CT' : forall x y z, In (x, y, z) (trips b w b) \/ (x, y, z) = (last w b, b, hd b w) -> straight x y z \/ turning th x y z).
  { intros x y z I. apply CT. destruct (plPts pl) as [|a r] eqn:E; [destruct u; discriminate|].
    assert (a = hd b u) as HA by (destruct u; cbn [app] in EU; injection EU; auto).
    assert (last (a :: r) a = last v b) as LV.
    { rewrite EU. clear. revert a. induction u as [|c u IH]; intros a; [cbn [app]; apply last_cons|]. cbn [app]. destruct (u ++ b :: v) eqn:Q; [destruct u; discriminate|]. apply (IH a). }
    unfold corners3. rewrite LV, EU, trips_app. cbn [hd trips]. apply in_app_iff. unfold w in I. rewrite trips_app in I. 
    assert (last (v ++ u) b = last u (last v b)) as LW by (clear; revert b; induction v as [|c v IH]; intros b; [reflexivity|]; cbn [app]; now rewrite !last_cons, IH).
    assert (hd b (v ++ u) = hd a v) as HW by (rewrite HA; destruct v; reflexivity).
    destruct I as [I|I].
    - apply in_app_iff in I. rewrite <- HA in I. destruct I as [I|I]; [right; now right|now left].
    - right. left. rewrite I, LW, HW. reflexivity. }
  exists pl'. split; auto. split; [|split; [|split; [|split; [|split]]]].
  - rewrite Ep. destruct (kf strb b w b) as [|c X] eqn:EX; [|cbn; lia]. exfalso.
    pose proof (kf_sum (fun e => edist (fst e) (snd e)) straight_len w b b b NE (sdir_refl _ _)) as K. rewrite EX in K. cbn [app chain tl combine sumOver fst snd] in K. rewrite edist_refl in K.
    assert (0 < edist b (hd b w)) by (apply edist_neq, NE; rewrite chain_hd; now left).
    assert (0 <= sumOver (fun e => edist (fst e) (snd e)) (chain (w ++ [b]))) by (apply sumOver_nonneg; intros; apply edist_pos). lra.
  - destruct (kf_picked (last (plPts pl) pt00) (plPts pl) (hd pt00 (plPts pl))) as (T & P & E'). exists T. rewrite <- E'. split; auto.
    destruct (plPts pl) as [|a r] eqn:E; [destruct u; discriminate|]. unfold corners3. cbn [hd] in P. now rewrite !last_cons in *.
  - unfold pathLen. cbn [sides]. apply SUM. exact straight_len.
  - intros o. unfold fanArea. f_equal. apply SUM. intros x y z. apply straight_tri.
  - intros q. unfold onPath. cbn [sides]. assert (forall P : pt R * pt R -> Prop, (exists e, In e (cyc (plPts pl)) /\ P e) <-> exists e, In e (chain (b :: w ++ [b])) /\ P e) as PX.
    { intros P. split; intros (s & I & H); exists s; (split; [|exact H]); [exact (Permutation_in s PR I)|exact (Permutation_in s (Permutation_sym PR) I)]. }
    rewrite PX, Ep, cyc_chain, (kf_pts q w b b b NE (sdir_refl _ _)), (chain_hd b w b). split.
    + intros [H|(s & I & H)]; [exists (b, hd b w); split; auto; now left|exists s; split; auto; now right].
    + intros (s & [<-|I] & H); eauto.
  - rewrite Ep. intros x y z I. unfold corners3 in I. cbn [trips] in I. destruct I as [I|I].
    + injection I as <- <- <-. change (match kf strb b w b with [] => b | _ :: _ => last (kf strb b w b) b end) with (last (b :: kf strb b w b) b). rewrite last_cons.
      destruct (CT' (last w b) b (hd b w) (or_intror eq_refl)) as [C|T]; [apply strb_spec in C; congruence|].
      apply (turning_ext th (last w b) b (hd b w)); auto.
      * apply NE, chain_last.
      * apply NE. rewrite chain_hd. now left.
      * apply kf_prev, sdir_refl.
      * apply kf_next, sdir_refl.
    + refine (kf_turns th w b b b NE _ (sdir_refl _ _) x y z I). intros x' y' z' I'. apply CT'. now left.
Qed.
Print Assumptions C133_closed.
(** The square of side 2 with the middles of two of its sides: minimize gives the square. *)
Definition sq6 : list (pt R) := [mkPt 0 0; mkPt 1 0; mkPt 2 0; mkPt 2 2; mkPt 1 2; mkPt 0 2].
Lemma right_turn th a b c : thr_ok th -> dotd a b c = 0 -> turning th a b c.
Proof. intros Ht H. unfold turning, dotd in *. rewrite H. unfold Rdiv. rewrite Rmult_0_l, acos_0. pose proof (thr_angl th Ht). lra. Qed.
Lemma sq6_clear : clearCut thr0 true sq6.
Proof.
  pose proof thr0_small as (T & _). split.
  - intros e I. cbn [sides cyc sq6 app combine In] in I.
    repeat (destruct I as [<-|I]; [cbn [fst snd]; match goal with |- _ <= edist ?p ?q => first [assert (edist p q = 1) as -> by (apply edist_val; cbn [px py]; lra)|assert (edist p q = 2) as -> by (apply edist_val; cbn [px py]; lra)]; lra end|]). destruct I.
  - intros p q r I. cbn [corners3 sq6 last trips hd In] in I.
    repeat (destruct I as [E|I]; [injection E as <- <- <-; first [right; apply right_turn; [apply thr0_ok|unfold dotd; cbn [px py]; lra]|left; split; [intros X; injection X; lra|exists (1 / 2); split; [lra|apply pt_eq; cbn; lra]]]|]). destruct I.
Qed.
Example C133_ex : exists pl', plMinimize thr0 true (plFresh sq6) = Ok pl' /\ plPts pl' = [mkPt 0 0; mkPt 2 0; mkPt 2 2; mkPt 0 2].
Proof.
  destruct (C133_closed thr0 (plFresh sq6) thr0_ok) as (pl' & E & _ & (T & P & EP) & _); [cbn; lia|apply sq6_clear|].
  exists pl'. split; auto. rewrite EP. cbn [plPts plFresh corners3 sq6 last trips hd] in P.
  assert (N : forall a b c, dotd a b c = 0 -> ~ straight a b c).
  { intros a b c Z H. apply strb_spec in H. unfold strb in H. apply andb_true_iff in H. destruct H as [_ H]. apply Rltb_spec in H. lra. }
  assert (PI1 : forall x m T, picked bent T (x :: m) -> bent x -> exists T', T = x :: T' /\ picked bent T' m) by (intros x m X H B; inversion H; subst; [eauto|contradiction]).
  assert (PI2 : forall x m T, picked bent T (x :: m) -> ~ bent x -> picked bent T m) by (intros x m X H B; inversion H; subst; [contradiction|auto]).
  apply PI1 in P; [destruct P as (T1 & -> & P)|apply N; unfold dotd; cbn; lra].
  apply PI2 in P; [|intros B; apply B; split; [intros X; injection X; lra|exists (1 / 2); split; [lra|apply pt_eq; cbn; lra]]].
  apply PI1 in P; [destruct P as (T2 & -> & P)|apply N; unfold dotd; cbn; lra].
  apply PI1 in P; [destruct P as (T3 & -> & P)|apply N; unfold dotd; cbn; lra].
  apply PI2 in P; [|intros B; apply B; split; [intros X; injection X; lra|exists (1 / 2); split; [lra|apply pt_eq; cbn; lra]]].
  apply PI1 in P; [destruct P as (T4 & -> & P)|apply N; unfold dotd; cbn; lra].
  inversion P. reflexivity.
Qed.
Example C133_open_ex : clearCut thr0 false [mkPt 0 0; mkPt 1 0; mkPt 2 0; mkPt 2 5].
Proof.
  pose proof thr0_small as (T & _). split.
  - intros e I. cbn [sides chain tl combine In] in I.
    repeat (destruct I as [<-|I]; [cbn [fst snd]; match goal with |- _ <= edist ?p ?q => first [assert (edist p q = 1) as -> by (apply edist_val; cbn [px py]; lra)|assert (edist p q = 5) as -> by (apply edist_val; cbn [px py]; lra)]; lra end|]). destruct I.
  - intros p q r I. cbn [corners3 last removelast trips hd In] in I.
    repeat (destruct I as [E|I]; [injection E as <- <- <-; first [right; apply right_turn; [apply thr0_ok|unfold dotd; cbn [px py]; lra]|left; split; [intros X; injection X; lra|exists (1 / 2); split; [lra|apply pt_eq; cbn; lra]]]|]). destruct I.
Qed.

(** ** C134: minimize() keeps the shape *)
(** Full claim: no vertex of the original polyline is farther than a given bound from the result.  False: each vertex is
    compared with its two neighbours only, so that a long smooth curve is removed as a whole. *)
Definition par (k : nat) : pt R := mkPt (INR k * (INR k - 1) / 4000) (INR k).
Definition parabola (n : nat) : list (pt R) := map par (seq 0 (1 + (n + 1))).
Lemma kf_all {A} (g : A -> A -> A -> bool) l : forall p e, (forall x y z, In (x, y, z) (trips p l e) -> g x y z = true) -> kf g p l e = [].
Proof.
  induction l as [|b r IH]; intros p e H; [reflexivity|]. cbn [kf]. rewrite (H p b (hd e r)) by now left. apply IH. intros x y z I. apply H. now right.
Qed.
Lemma trips_map {A} (f : nat -> A) n : forall i x y z, In (x, y, z) (trips (f i) (map f (seq (S i) n)) (f (S i + n)%nat)) -> exists j, x = f j /\ y = f (S j) /\ z = f (S (S j)).
Proof.
  induction n as [|n IH]; intros i x y z I; [destruct I|]. cbn [seq map trips] in I. destruct I as [I|I].
  - injection I as <- <- <-. exists i. split; auto. split; auto. destruct n as [|n]; cbn [seq map hd]; auto. f_equal. lia.
  - apply (IH (S i)). replace (S (S i) + n)%nat with (S i + S n)%nat by lia. exact I.
Qed.
Lemma atan_lip u v : u <= v -> 0 <= atan v - atan u <= v - u.
Proof.
  intros H. destruct (Req_dec u v) as [->|N]; [lra|]. destruct (MVT_cor2 atan (fun x => / (1 + x ^ 2)) u v) as (c & E & _); [lra|intros; apply derivable_pt_lim_atan|].
  assert (0 < / (1 + c ^ 2) <= 1) as B.
  { pose proof (pow2_ge_0 c). split; [apply Rinv_0_lt_compat; lra|]. rewrite <- Rinv_1. apply Rinv_le_contravar; lra. }
  rewrite E. assert (0 < v - u) by lra. nra.
Qed.
Lemma par_mid j : midTest thr0 (par j) (par (S j)) (par (S (S j))) = true.
Proof.
  unfold midTest. apply Rltb_spec. unfold par. cbn [px py]. rewrite !S_INR. set (x := INR j).
  replace (x + 1 + 1 - (x + 1)) with 1 by ring. replace (x + 1 - x) with 1 by ring. unfold Ratan2. destruct (Rlt_dec 0 1); [|lra].
  pose proof (atan_lip (((x + 1) * (x + 1 - 1) / 4000 - x * (x - 1) / 4000) / 1) (((x + 1 + 1) * (x + 1 + 1 - 1) / 4000 - (x + 1) * (x + 1 - 1) / 4000) / 1)) as L.
  rewrite Rabs_right; [|apply Rle_ge, L; lra]. eapply Rle_lt_trans; [apply L; lra|]. unfold thr0. cbn [nullAngleValue]. rnum. lra.
Qed.
Lemma chain_map {A} (f : nat -> A) n : forall i s, In s (chain (map f (seq i n))) -> exists j, s = (f j, f (S j)).
Proof.
  induction n as [|n IH]; intros i s I; [destruct I|]. destruct n as [|n]; [destruct I|]. cbn [seq map] in I. rewrite chain_cons2 in I.
  destruct I as [<-|I]; [eauto|]. apply (IH (S i)). exact I.
Qed.
Lemma parabola_split n : parabola n = par 0 :: map par (seq 1 n) ++ [par (S n)].
Proof. unfold parabola. rewrite seq_app, map_app. cbn [seq map app]. rewrite Nat.add_0_l, seq_app, map_app. reflexivity. Qed.
Lemma seq_snoc n : (1 <= n)%nat -> map par (seq 1 n) = map par (seq 1 (n - 1)) ++ [par n].
Proof. intros H. replace n with ((n - 1) + 1)%nat at 1 by lia. rewrite seq_app, map_app. cbn [seq map]. do 3 f_equal. lia. Qed.
Lemma parabola_min closed n : INR n = 3999 -> exists pl', plMinimize thr0 closed (plFresh (parabola n)) = Ok pl' /\ plPts pl' = [par 0; par (S n)].
Proof.
  intros N2. assert (N1 : INR (S n) = 4000) by (rewrite S_INR; lra). assert (1 <= n)%nat as LE by (destruct n; [cbn in N2; lra|lia]).
  assert (HD : forall d, hd d (map par (seq 1 n) ++ [par (S n)]) = par 1) by (intros d; destruct n; [lia|reflexivity]).
  assert (K0 : forall k, kf (midTest thr0) (par 0) (map par (seq 1 n)) (par (S n)) ++ k = k).
  { intros k. rewrite kf_all; [reflexivity|]. intros x y z I. destruct (trips_map par n 0 x y z I) as (j & -> & -> & ->). apply par_mid. }
  assert (LN : length (parabola n) = (n + 2)%nat) by (unfold parabola; rewrite map_length, seq_length; lia).
  apply minimize_keep; cbn [plPts plFresh].
  - rewrite parabola_split. discriminate.
  - rewrite LN. lia.
  - destruct closed.
    + pose proof (keepFrom_kf (midTest thr0) (plIsMiddle thr0 (parabola n)) (parabola n) (parabola n) [] [] []) as K. cbn [app] in K. rewrite app_nil_r in K. specialize (K eq_refl).
      change (length (@nil (pt R))) with 0%nat in K. rewrite Nat.add_0_l in K. unfold rmOf in K. unfold plKeep. rewrite K by (intros i _; apply isMiddle_test). clear K. cbn [plKeepFrom]. rewrite app_nil_r.
      rewrite parabola_split. rewrite last_cons, last_app1. cbn [kf hd]. rewrite HD.
      replace (midTest thr0 (par (S n)) (par 0) (par 1)) with false.
      2: { symmetry. unfold midTest. apply Rltb_false. unfold par. cbn [px py]. rewrite N1. change (INR 1) with 1. change (INR 0) with 0.
           replace (1 * (1 - 1) / 4000 - 0 * (0 - 1) / 4000) with 0 by field. replace (0 * (0 - 1) / 4000 - 4000 * (4000 - 1) / 4000) with (-3999) by field. replace (1 - 0) with 1 by ring. replace (0 - 4000) with (-4000) by ring.
           unfold Ratan2. destruct (Rlt_dec 0 1); [|lra]. destruct (Rlt_dec 0 (-4000)); [lra|]. destruct (Rlt_dec (-4000) 0); [|lra]. destruct (Rle_dec 0 (-3999)); [lra|].
           pose proof (atan_bound (-3999 / -4000)). pose proof PI2_1. replace (0 / 1) with 0 by field. rewrite atan_0. eapply Rle_trans; [|apply Rle_abs]. unfold thr0. cbn [nullAngleValue]. rnum. lra. }
      f_equal. rewrite kf_app. cbn [hd]. rewrite K0. cbn [kf hd].
      replace (last (map par (seq 1 n)) (par 0)) with (par n) by (now rewrite seq_snoc, last_app1).
      replace (midTest thr0 (par n) (par (S n)) (par 0)) with false; [reflexivity|].
      symmetry. unfold midTest. apply Rltb_false. unfold par. cbn [px py]. rewrite N1, N2. change (INR 0) with 0.
      replace (0 * (0 - 1) / 4000 - 4000 * (4000 - 1) / 4000) with (-3999) by field. replace (4000 * (4000 - 1) / 4000 - 3999 * (3999 - 1) / 4000) with (3999 / 2000) by field. replace (4000 - 3999) with 1 by ring. replace (0 - 4000) with (-4000) by ring.
      unfold Ratan2. destruct (Rlt_dec 0 1); [|lra]. destruct (Rlt_dec 0 (-4000)); [lra|]. destruct (Rlt_dec (-4000) 0); [|lra]. destruct (Rle_dec 0 (-3999)); [lra|].
      destruct (atan_lip (-3999 / -4000) (3999 / 2000 / 1)) as [L _]; [lra|]. pose proof PI2_1. rewrite <- Rabs_Ropp. eapply Rle_trans; [|apply Rle_abs]. unfold thr0. cbn [nullAngleValue]. rnum. lra.
    + rewrite LN. replace (n + 2 - 2)%nat with n by lia. unfold plKeep.
      pose proof (keepFrom_kf (midTest thr0) (plIsMiddle thr0 (parabola n)) (parabola n) (map par (seq 1 n)) [par 0] [par (S n)] [par (S n)]) as K.
      specialize (K (parabola_split n)). rewrite map_length, seq_length in K. unfold rmOf in K. change (length [par 0]) with 1%nat in K.
      rewrite parabola_split at 2. rewrite keepFrom_head by (intros j J; apply filter_In in J; destruct J as [J _]; apply in_seq in J; lia). f_equal.
      rewrite K by (intros i _; apply isMiddle_test). clear K.
      cbn [last]. rewrite K0. apply keep_nil.
  - exists (par 0), [par (S n)]. split; auto. intros s [<-|[]]. cbn [fst snd]. pose proof thr0_small as (T & _). pose proof (edist_ge_y (par 0) (par (S n))) as G. unfold par in G at 1 2. cbn [py] in G.
    rewrite N1 in G. change (INR 0) with 0 in G. rewrite Rabs_left in G by lra. lra.
Qed.
Lemma parabola_far n k : INR n = 3999 -> INR k = 2000 -> (forall s, In s (chain (parabola n)) -> 1 <= edist (fst s) (snd s)) /\ In (par k) (parabola n) /\
  forall closed, exists pl', plMinimize thr0 closed (plFresh (parabola n)) = Ok pl' /\ length (plPts pl') = 2%nat /\ forall x, onPath closed (plPts pl') x -> 700 <= edist (par k) x.
Proof.
  intros N0 N2. assert (N1 : INR (S n) = 4000) by (rewrite S_INR; lra). split; [|split].
  - intros s I. destruct (chain_map par _ _ _ I) as (j & ->). cbn [fst snd]. eapply Rle_trans; [|apply edist_ge_y]. unfold par. cbn [py]. rewrite S_INR.
    replace (INR j - (INR j + 1)) with (-1) by ring. rewrite Rabs_left; lra.
  - apply in_map, in_seq. assert (k < n)%nat by (apply INR_lt; lra). lia.
  - intros closed. destruct (parabola_min closed n N0) as (pl' & E & P). exists pl'. split; auto. rewrite P. split; auto.
    assert (G : forall x, onSeg (par 0) (par (S n)) x \/ onSeg (par (S n)) (par 0) x -> 700 <= edist (par k) x).
    { intros x H. assert (-1 <= px x - py x <= 0) as B.
      { destruct H as [(t & T & X & Y)|(t & T & X & Y)]; rewrite X, Y; unfold par; cbn [px py]; rewrite N1; change (INR 0) with 0; lra. }
      pose proof (edist_sq (par k) x) as Q. pose proof (edist_pos (par k) x) as P0. set (d := edist (par k) x) in *. unfold par in Q. cbn [px py] in Q. rewrite N2 in Q.
      set (dx := 2000 * (2000 - 1) / 4000 - px x) in Q. set (dy := 2000 - py x) in Q.
      assert (dy - dx >= 999) as D by (unfold dx, dy; lra). apply Rnot_lt_le. intros C. assert (d * d < 700 * 700) as C2 by nra.
      pose proof (Rle_0_sqr (dx + dy)) as S. unfold Rsqr in S. nra. }
    intros x (e & I & H). apply G. destruct closed; cbn [sides cyc chain tl app combine In] in I.
    + destruct I as [<-|[<-|[]]]; cbn [fst snd] in H; auto.
    + destruct I as [<-|[]]; cbn [fst snd] in H; auto.
Qed.
Theorem C134_refuted : exists pts q, (forall s, In s (chain pts) -> 1 <= edist (fst s) (snd s)) /\ In q pts /\ forall closed, exists pl', plMinimize thr0 closed (plFresh pts) = Ok pl' /\ length (plPts pl') = 2%nat /\
  forall x, onPath closed (plPts pl') x -> 700 <= edist q x.
Proof.
  assert (exists n, INR n = 3999) as (n & N) by (exists (Z.to_nat 3999); rewrite INR_IZR_INZ, Z2Nat.id; [reflexivity|lia]).
  assert (exists k, INR k = 2000) as (k & K) by (exists (Z.to_nat 2000); rewrite INR_IZR_INZ, Z2Nat.id; [reflexivity|lia]).
  exists (parabola n), (par k). exact (parabola_far n k N K).
Qed.
Print Assumptions C134_refuted.
