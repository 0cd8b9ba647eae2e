(** * Proofs about offset polygons *)

From Coq Require Import Reals Lra Lia List Bool Arith.
From Verif Require Import Num M_LP M_Homogr M_Seg M_Circle M_Poly M_Offset S_Geom S_Seg S_Poly S_Offset P_LP P_LP2 P_LP3 P_LP4 P_Seg P_Seg2 P_Seg3 P_Poly P_Poly2 P_Poly3 P_Poly5 P_Poly7.
Import ListNotations.
Local Open Scope R_scope.

(** ** One vertex *)
Lemma side_at A B d x (n := leftN A B) : A <> B ->
  cross3 (moved A (d * fst n) (d * snd n)) (moved B (d * fst n) (d * snd n)) x = cross3 A B x - d * edist A B.
Proof.
  intros H. pose proof (edist_neq A B H). pose proof (edist_sq A B) as S. unfold n, leftN, cross3, moved. cbn [px py fst snd].
  set (L := edist A B) in *.
  match goal with |- ?l = ?r => transitivity ((px B - px A) * (py x - py A) - (py B - py A) * (px x - px A) -
    d * (((px A - px B) * (px A - px B) + (py A - py B) * (py A - py B)) / L)) end; [field; lra|]. rewrite <- S. field. lra.
Qed.
Lemma dirOK_moved th A B x y : dirOK th A B -> dirOK th (moved A x y) (moved B x y).
Proof. unfold dirOK. rewrite edist_moved. unfold moved. cbn [py]. replace (py A + y - (py B + y)) with (py A - py B) by ring. intros [H|H]; [left; lra|right; auto]. Qed.
Lemma transversal_moved th A B C D x y z t : transversal th (A, B) (C, D) -> transversal th (moved A x y, moved B x y) (moved C z t, moved D z t).
Proof.
  unfold transversal. cbn [fst snd]. rewrite !edist_moved. unfold moved. cbn [px py]. intros H. eapply Rle_trans; [exact H|right]. do 3 f_equal. ring.
Qed.
Lemma line_cross th A B l x : thr_ok th -> lineOf th A B = Ok l -> dirOK th A B -> (onL l x <-> cross3 A B x = 0).
Proof.
  intros Hth H D. pose proof (lineOf_same th A B l Hth H D) as S. rewrite (S x). unfold onL, cross3. cbn [la lb lc]. split; intros; lra.
Qed.
Lemma offset_vertex th split dist p1 e f : thr_ok th -> okSeg th (mkSeg (fst e) (snd e)) -> okSeg th (mkSeg (fst f) (snd f)) ->
  dirOK th (fst e) (snd e) -> dirOK th (fst f) (snd f) -> vertOK th (fst e) (snd e) -> vertOK th (fst f) (snd f) -> transversal th e f ->
  nullDistance th <= Rabs dist -> split = false \/ dist < 0 ->
  exists q, offsetVertex th split dist p1 (mkSeg (fst e) (snd e)) (mkSeg (fst f) (snd f)) = Ok [q] /\ offLine dist e q /\ offLine dist f q.
Proof.
  intros Hth O1 O2 D1 D2 V1 V2 T L SP. destruct e as [A B], f as [C D]. cbn [fst snd] in *.
  pose proof (okSeg_neq th _ Hth O1) as N1. pose proof (okSeg_neq th _ Hth O2) as N2. cbn [sA sB] in N1, N2.
  pose proof (svParallelSegs_o th _ (Rabs dist) Hth O1 D1 V1 L) as P1. pose proof (svParallelSegs_o th _ (Rabs dist) Hth O2 D2 V2 L) as P2. cbn [sA sB] in P1, P2.
  pose proof (side_at A B dist) as S1. pose proof (side_at C D dist) as S2.
  destruct (leftN A B) as [n1 n2]. destruct (leftN C D) as [m1 m2]. cbn [fst snd] in S1, S2.
  unfold offsetVertex. change (@nabs R RNum dist) with (Rabs dist). rewrite P1, P2. cbn [bind].
  assert ((if (dist <? #0)%num then mkSeg (moved A (- Rabs dist * n1) (- Rabs dist * n2)) (moved B (- Rabs dist * n1) (- Rabs dist * n2))
           else mkSeg (moved A (Rabs dist * n1) (Rabs dist * n2)) (moved B (Rabs dist * n1) (Rabs dist * n2))) =
          mkSeg (moved A (dist * n1) (dist * n2)) (moved B (dist * n1) (dist * n2))) as ->.
  { rnum. destruct (Rltb dist 0) eqn:E; rclean; [rewrite Rabs_left by auto; now rewrite Ropp_involutive|rewrite Rabs_right by lra; reflexivity]. }
  assert ((if (dist <? #0)%num then mkSeg (moved C (- Rabs dist * m1) (- Rabs dist * m2)) (moved D (- Rabs dist * m1) (- Rabs dist * m2))
           else mkSeg (moved C (Rabs dist * m1) (Rabs dist * m2)) (moved D (Rabs dist * m1) (Rabs dist * m2))) =
          mkSeg (moved C (dist * m1) (dist * m2)) (moved D (dist * m1) (dist * m2))) as ->.
  { rnum. destruct (Rltb dist 0) eqn:E; rclean; [rewrite Rabs_left by auto; now rewrite Ropp_involutive|rewrite Rabs_right by lra; reflexivity]. }
  unfold svLine. cbn [sA sB].
  assert (forall X Y x y, okSeg th (mkSeg X Y) -> exists l, lineOf th (moved X x y) (moved Y x y) = Ok l) as LT.
  { intros X Y x y [H1 H2]. cbn [sA sB] in *. apply lineOf_total; auto; rewrite edist_moved; auto. }
  destruct (LT A B (dist * n1) (dist * n2) O1) as (l & El). destruct (LT C D (dist * m1) (dist * m2) O2) as (m & Em). rewrite El, Em. cbn [bind].
  assert (isParallel th l m = false) as NP.
  { eapply (transversal_notpar th (moved A (dist * n1) (dist * n2), moved B (dist * n1) (dist * n2)) (moved C (dist * m1) (dist * m2), moved D (dist * m1) (dist * m2))); cbn [fst snd]; eauto using dirOK_moved, transversal_moved. }
  rewrite NP. destruct (lineOf_proper th _ _ _ Hth El) as [U1 _]. destruct (lineOf_proper th _ _ _ Hth Em) as [U2 _].
  destruct (meet_total th l m Hth (unit_proper _ U1) (unit_proper _ U2) NP) as (q & Q). rewrite Q. cbn [bind].
  exists q. split.
  - destruct SP as [->|SP]; [reflexivity|]. rnum. rewrite (proj2 (Rltb_spec dist 0) SP), !orb_true_r. reflexivity.
  - destruct (meet_on th l m q Hth (unit_proper _ U1) (unit_proper _ U2) Q) as [Q1 Q2].
    rewrite (line_cross th _ _ l q Hth El (dirOK_moved _ _ _ _ _ D1)) in Q1. rewrite (line_cross th _ _ m q Hth Em (dirOK_moved _ _ _ _ _ D2)) in Q2.
    rewrite S1 in Q1 by auto. rewrite S2 in Q2 by auto. unfold offLine. cbn [fst snd]. split; lra.
Qed.

(** ** Consecutive sides *)
Lemma next_lt n i : (i < n)%nat -> (nextIdx n i < n)%nat.
Proof. intros H. unfold nextIdx. destruct (Nat.eqb_spec i (n - 1)); lia. Qed.
Lemma cyc_cyc_link {A} (l : list A) c : In c (cyc (cyc l)) -> In (fst c) (cyc l) /\ In (snd c) (cyc l) /\ snd (fst c) = fst (snd c).
Proof.
  intros I. destruct l as [|d l0]; [destruct I|]. set (l := d :: l0) in *. rewrite <- (cyc_index (cyc l) (d, d)) in I. apply in_map_iff in I. destruct I as (i & <- & I). rewrite cyc_length in I |- *. apply in_seq in I.
  pose proof (next_lt (length l) i ltac:(lia)). cbn [fst snd]. split; [apply nth_In; rewrite cyc_length; lia|]. split; [apply nth_In; rewrite cyc_length; lia|].
  rewrite !nth_cyc by lia. reflexivity.
Qed.
Lemma cyc_cyc_triple (v : list (pt R)) c : (2 <= length v)%nat -> In c (cyc (cyc v)) -> triple v (fst (fst c)) (snd (fst c)) (snd (snd c)).
Proof.
  intros L I. rewrite <- (cyc_index (cyc v) (pt00, pt00)) in I. apply in_map_iff in I. destruct I as (i & <- & I). rewrite cyc_length in I |- *. apply in_seq in I.
  pose proof (next_lt (length v) i ltac:(lia)). apply triple_index; auto. exists (nextIdx (length v) i). split; auto. cbn [fst snd]. rewrite !nth_cyc by lia. cbn [fst snd].
  split; [|auto]. f_equal. unfold prevIdx, nextIdx. destruct (Nat.eqb_spec i (length v - 1)); [rewrite Nat.eqb_refl; lia|]. destruct (Nat.eqb_spec (i + 1) 0); lia.
Qed.
Lemma sharp_corner th v c : (2 <= length v)%nat -> sharp th v -> In c (corners v) -> transversal th (fst c) (snd c).
Proof.
  intros L S I. destruct (cyc_cyc_link v c I) as (_ & _ & E). pose proof (S _ _ _ (cyc_cyc_triple v c L I)) as T. destruct c as [[a b] [b' d]]. cbn [fst snd] in *. now subst b'.
Qed.

(** ** The loop *)
Lemma at_ok {A} (l : list A) i d : (i < length l)%nat -> at_ l i = Ok (nth i l d).
Proof. intros H. unfold at_. now rewrite (nth_error_nth' l d H). Qed.
Lemma offset_loop th split dist pts os d n : forall cur, length os = length pts -> (cur + n = length pts)%nat ->
  offsetLoop th split dist pts os n cur (nth cur os d) =
  bind (mapM (fun i => offsetVertex (N := RNum) th split dist (nth (nextIdx (length pts) i) pts pt00) (nth i os d) (nth (nextIdx (length pts) i) os d)) (seq cur n))
       (fun vs => Ok (concat vs)).
Proof.
  induction n as [|n IH]; intros cur L E; [reflexivity|]. cbn [offsetLoop seq mapM].
  change (if (cur =? length pts - 1)%nat then 0%nat else S cur) with (if (cur =? length pts - 1)%nat then 0%nat else S cur).
  assert ((if (cur =? length pts - 1)%nat then 0%nat else S cur) = nextIdx (length pts) cur) as -> by (unfold nextIdx; destruct (_ =? _)%nat; lia).
  assert (nextIdx (length pts) cur < length pts)%nat as I by (unfold nextIdx; destruct (Nat.eqb_spec cur (length pts - 1)); lia).
  rewrite plPoint_ok by auto. cbn [bind]. rewrite (at_ok os _ d) by lia. cbn [bind].
  destruct (offsetVertex _ _ _ _ _ _) as [v| |]; cbn [bind]; auto.
  destruct n as [|n].
  - cbn [offsetLoop seq mapM bind concat]. reflexivity.
  - replace (nth (nextIdx (length pts) cur) os d) with (nth (S cur) os d).
    + rewrite IH by lia. destruct (mapM _ _) as [vs| |]; reflexivity.
    + f_equal. unfold nextIdx. destruct (Nat.eqb_spec cur (length pts - 1)); lia.
Qed.
Lemma mapM_single {A B C} (P : C -> B -> Prop) (f : A -> res (list B)) (g : A -> C) l : (forall x, In x l -> exists q, f x = Ok [q] /\ P (g x) q) ->
  exists qs, mapM f l = Ok (map (fun q => [q]) qs) /\ Forall2 P (map g l) qs.
Proof.
  induction l as [|a l IH]; intros H; [exists []; split; [reflexivity|constructor]|].
  destruct (H a (or_introl eq_refl)) as (q & E & Q). destruct IH as (qs & E' & F); [intros x X; apply H; now right|].
  exists (q :: qs). cbn [mapM]. rewrite E, E'. cbn [bind map]. split; [reflexivity|]. now constructor.
Qed.
Lemma concat_single {A} (l : list A) : concat (map (fun q => [q]) l) = l.
Proof. induction l; cbn; congruence. Qed.
Lemma offset_list th split dist v : thr_ok th -> (3 <= length v)%nat -> goodSides th v -> sharp th v -> nullDistance th <= Rabs dist -> split = false \/ dist < 0 ->
  exists os qs, plSegs th true KOSeg v = Ok os /\ at_ os 0 = Ok (nth 0 os (mkSeg pt00 pt00)) /\
    offsetLoop th split dist v os (length v) 0 (nth 0 os (mkSeg pt00 pt00)) = Ok qs /\
    Forall2 (fun c q => offLine dist (fst c) q /\ offLine dist (snd c) q) (corners v) qs.
Proof.
  intros Hth L [OS VS] SH HD SP.
  assert (plSegs th true KOSeg v = Ok (map (fun e => mkSeg (fst e) (snd e)) (cyc v))) as E.
  { rewrite (plSegs_ok th true KOSeg v); [reflexivity|lia|]. intros e I. apply (OS e I). }
  set (os := map (fun e => mkSeg (fst e) (snd e)) (cyc v)) in *. exists os.
  assert (length os = length v) as LO by (unfold os; rewrite map_length; apply cyc_length).
  assert (forall i, (i < length v)%nat -> In ((nth i (cyc v) (pt00, pt00)), nth (nextIdx (length v) i) (cyc v) (pt00, pt00)) (corners v)) as IC.
  { intros i I. unfold corners. rewrite <- (cyc_index (cyc v) (pt00, pt00)). apply in_map_iff. exists i. rewrite cyc_length. split; auto. apply in_seq. lia. }
  destruct (mapM_single (fun c q => offLine dist (fst c) q /\ offLine dist (snd c) q)
    (fun i => offsetVertex (N := RNum) th split dist (nth (nextIdx (length v) i) v pt00) (nth i os (mkSeg pt00 pt00)) (nth (nextIdx (length v) i) os (mkSeg pt00 pt00)))
    (fun i => (nth i (cyc v) (pt00, pt00), nth (nextIdx (length v) i) (cyc v) (pt00, pt00))) (seq 0 (length v))) as (qs & EM & F).
  { intros i I. apply in_seq in I. assert (nextIdx (length v) i < length v)%nat as NI by (unfold nextIdx; destruct (Nat.eqb_spec i (length v - 1)); lia).
    assert (forall j, nth j os (mkSeg pt00 pt00) = mkSeg (fst (nth j (cyc v) (pt00, pt00))) (snd (nth j (cyc v) (pt00, pt00)))) as NT.
    { intros j. unfold os. exact (map_nth (fun e => mkSeg (fst e) (snd e)) (cyc v) (pt00, pt00) j). }
    rewrite !NT. cbn [fst snd].
    assert (forall j, (j < length v)%nat -> In (nth j (cyc v) (pt00, pt00)) (cyc v)) as IN by (intros j J; apply nth_In; now rewrite cyc_length).
    pose proof (IN i ltac:(lia)) as I1. pose proof (IN _ NI) as I2.
    destruct (OS _ I1) as [A1 B1]. destruct (OS _ I2) as [A2 B2].
    apply offset_vertex; auto. apply (sharp_corner th v _ ltac:(lia) SH (IC i ltac:(lia))). }
  exists qs. split; [exact E|]. split; [apply at_ok; lia|]. split.
  - rewrite (offset_loop th split dist v os (mkSeg pt00 pt00) (length v) 0) by lia. rewrite EM. cbn [bind]. now rewrite concat_single.
  - unfold corners. rewrite <- (cyc_index (cyc v) (pt00, pt00)), cyc_length. exact F.
Qed.

(** ** Normalisation *)
Lemma transversal_sym th e f : transversal th e f -> transversal th f e.
Proof. unfold transversal. intros H. eapply Rle_trans; [exact H|right]. f_equal. f_equal; [f_equal; ring|ring]. Qed.
Lemma transversal_rev th e f : transversal th e f -> transversal th (snd e, fst e) (snd f, fst f).
Proof. unfold transversal. cbn [fst snd]. rewrite (edist_sym (snd e)), (edist_sym (snd f)). intros H. eapply Rle_trans; [exact H|right]. do 3 f_equal. ring. Qed.
Lemma sharp_cycle th l m : (2 <= length l)%nat -> sameCycle l m -> sharp th l -> sharp th m.
Proof.
  intros L [S|S] H p q r T.
  - apply H. apply (triple_shift m l); auto using shifted_sym. rewrite <- (shifted_len _ _ S). auto.
  - assert (triple l r q p) as T'. { apply triple_rev, (triple_shift m (rev l)); auto using shifted_sym. rewrite <- (shifted_len _ _ S), rev_length. auto. }
    apply H in T'. apply transversal_sym, transversal_rev in T'. exact T'.
Qed.
Lemma cycle_sides {A} (l m : list A) e : sameCycle l m -> In e (cyc m) -> In e (cyc l) \/ In (snd e, fst e) (cyc l).
Proof.
  intros [S|S] I; apply cyc_shift in S.
  - left. eapply Permutation.Permutation_in; [apply Permutation.Permutation_sym, S|exact I].
  - right. pose proof (Permutation.Permutation_in _ (Permutation.Permutation_sym S) I) as J. apply (Permutation.Permutation_in _ (cyc_rev l)) in J. apply in_map_iff in J.
    destruct J as ([a b] & <- & J). exact J.
Qed.
Lemma goodSides_cycle th l m : sameCycle l m -> goodSides th l -> goodSides th m.
Proof.
  intros S [O V]. split; intros e I; (destruct (cycle_sides l m e S I) as [J|J]; [auto|]).
  - destruct (O _ J) as [[A B] D]. unfold okSeg, dirOK in *. cbn [fst snd sA sB] in *. rewrite (edist_sym (fst e)). split; [split; auto|]. destruct D as [D|D]; [left; auto|right]. rewrite Rabs_minus_sym. exact D.
  - apply V in J. unfold vertOK in *. cbn [fst snd] in J. rewrite (edist_sym (fst e)). destruct J as [D|D]; [left; auto|right]. rewrite Rabs_minus_sym. exact D.
Qed.
Lemma sameCycle_length {A} (l m : list A) : sameCycle l m -> length l = length m.
Proof. intros [S|S]; apply shifted_len in S; [auto|now rewrite rev_length in S]. Qed.
(** The normalised polygon turns right at its first vertex. *)
Lemma norm_turn pts v : (3 <= length pts)%nat -> normPts true pts = Ok v -> exists p q r, triple v p q r /\ cross3 p q r <= 0.
Proof.
  intros L H. pose proof (normPts_cycle true pts v H) as C. apply sameCycle_length in C as LC.
  unfold normPts in H. destruct (rotateL (minElem ptLt pts) pts) as [|b [|a w]] eqn:E; [| |].
  - apply Ok_inj in H. subst v. cbn in LC. lia.
  - discriminate.
  - assert (triple (b :: a :: w) (last (b :: a :: w) pt00) b a) as T.
    { pose proof (corner_triple [] (a :: w) b) as G. cbn [app] in G. rewrite app_nil_r in G. apply G. discriminate. }
    rnum. destruct (Rltb _ 0) eqn:D; rclean; apply Ok_inj in H; subst v.
    + exists a, b, (last (b :: a :: w) pt00). split; [|unfold cross3; lra].
      assert (length (b :: a :: w) = length pts) as LE by (rewrite <- E; symmetry; apply shifted_len, rotateL_shifted).
      apply (triple_shift (rev (b :: a :: w))); [rewrite rev_length; lia|apply rotateL_shifted|]. now apply triple_rev.
    + exists (last (b :: a :: w) pt00), b, a. split; auto. unfold cross3. lra.
Qed.

(** ** The whole function *)
Lemma plOffset_eq th split pts dist v : thr_ok th -> (3 <= length pts)%nat -> val (plIsSimple th true (plFresh pts)) = Ok true ->
  normPts true pts = Ok v -> nullDistance th <= Rabs dist ->
  plOffset th true split (plFresh pts) dist =
  do os <- plSegs th true KOSeg v; do s1 <- at_ os 0%nat; do q <- offsetLoop th split dist v os (length v) 0 s1;
  do out <- plSet th q; Ok (out, mkPl v true None None (Some true) None).
Proof.
  intros Hth L S NV D. unfold plOffset. unfold plIsSimple in *. cbn [plPts plFresh plSimple plNorm plLen plArea plCent negb] in *.
  assert ((length pts <? 3)%nat = false) as L3 by (apply Nat.ltb_ge; lia). rewrite L3 in *.
  destruct (simpleCalc th pts) as [b| |]; cbn [bind val fst] in *; try discriminate. injection S as ->.
  change (@nabs R RNum dist) with (Rabs dist). rnum. rewrite (proj2 (Rltb_false _ _) D). cbn [orb negb].
  unfold plNormalize. cbn [plPts plNorm plLen plArea plSimple plCent]. destruct pts as [|a pts]; [cbn in L; lia|]. rewrite NV. cbn [bind plPts]. reflexivity.
Qed.
Theorem offset_poly th split pts dist : thr_ok th -> (3 <= length pts)%nat -> val (plIsSimple th true (plFresh pts)) = Ok true ->
  goodSides th pts -> sharp th pts -> nullDistance th <= Rabs dist -> split = false \/ dist < 0 ->
  exists v qs, sameCycle pts v /\ normPts true pts = Ok v /\ Forall2 (fun c q => offLine dist (fst c) q /\ offLine dist (snd c) q) (corners v) qs /\
    plOffset th true split (plFresh pts) dist = do out <- plSet th qs; Ok (out, mkPl v true None None (Some true) None).
Proof.
  intros Hth L S G SH D SP. destruct (normPts_ok true pts) as (v & NV); [lia|]. pose proof (normPts_cycle true pts v NV) as C. cbn beta iota in C.
  pose proof (sameCycle_length _ _ C) as LE.
  destruct (offset_list th split dist v) as (os & qs & E1 & E2 & E3 & F); auto; [lia|eapply goodSides_cycle; eauto|eapply sharp_cycle; eauto; lia|].
  exists v, qs. do 3 (split; [assumption|]). rewrite (plOffset_eq th split pts dist v) by auto. rewrite E1. cbn [bind]. rewrite E2. cbn [bind]. rewrite E3. reflexivity.
Qed.
