(** * Polylines: cached values *)

From Coq Require Import Reals Lra Lia List Bool Arith ZArith Permutation.
From Verif Require Import Num M_LP M_Seg M_Poly S_Geom S_Seg S_Poly P_LP P_LP2 P_LP3 P_LP4 P_Seg P_Seg2 P_Seg3 P_Poly P_Poly2 P_Poly3 P_Poly4.
Import ListNotations.
Local Open Scope R_scope.

Lemma chain_rev {A} (l : list A) : chain (rev l) = rev (map (fun e => (snd e, fst e)) (chain l)).
Proof.
  destruct l as [|a l]; [reflexivity|]. revert a. induction l as [|b l IH]; intros a; [reflexivity|].
  assert (chain (a :: b :: l) = (a, b) :: chain (b :: l)) as -> by reflexivity. cbn [map fst snd].
  change (rev ((b, a) :: map (fun e => (snd e, fst e)) (chain (b :: l)))) with (rev (map (fun e => (snd e, fst e)) (chain (b :: l))) ++ [(b, a)]).
  rewrite <- IH. change (rev (a :: b :: l)) with ((rev l ++ [b]) ++ [a]). change (rev (b :: l)) with (rev l ++ [b]).
  clear. generalize (rev l). intros m. unfold chain. destruct m as [|c m]; [reflexivity|]. cbn [tl app].
  revert c. induction m as [|d m IH]; intros c; [reflexivity|]. cbn [app combine]. f_equal. apply IH.
Qed.
Lemma chain_map {A B} (f : A -> B) l : chain (map f l) = map (fun e => (f (fst e), f (snd e))) (chain l).
Proof.
  unfold chain. replace (tl (map f l)) with (map f (tl l)) by (destruct l; reflexivity). generalize (tl l).
  induction l as [|x l IH]; intros [|y m]; cbn; auto. now rewrite IH.
Qed.
Lemma sides_map {A B} (f : A -> B) closed l : sides closed (map f l) = map (fun e => (f (fst e), f (snd e))) (sides closed l).
Proof. destruct closed; [apply cyc_map|apply chain_map]. Qed.
(** Sides of the normal form. *)
Lemma sides_norm closed pts c : normPts closed pts = Ok c ->
  length c = length pts /\ (Permutation (sides closed c) (sides closed pts) \/ Permutation (sides closed c) (map (fun e => (snd e, fst e)) (sides closed pts))).
Proof.
  intros H. apply normPts_cycle in H. destruct closed; cbn [sides].
  - split; [symmetry; now apply sameCycle_len|]. destruct H as [S|S].
    + left. symmetry. now apply cyc_shift.
    + right. rewrite <- (cyc_shift _ _ S). apply cyc_rev.
  - destruct H as [->| ->]; [auto|]. split; [apply rev_length|]. right. rewrite chain_rev. symmetry. apply Permutation_rev.
Qed.
Lemma lengthCalc_cases th closed pts :
  (length pts < 2)%nat /\ lengthCalc th closed pts = Ok 0 \/
  (2 <= length pts)%nat /\ (forall e, In e (sides closed pts) -> nullDistance th <= edist (fst e) (snd e)) /\
    lengthCalc th closed pts = Ok (sumOver (fun e => edist (fst e) (snd e)) (sides closed pts)) \/
  (2 <= length pts)%nat /\ (exists e, In e (sides closed pts) /\ edist (fst e) (snd e) < nullDistance th) /\ lengthCalc th closed pts = Throw.
Proof.
  destruct (Nat.lt_ge_cases (length pts) 2) as [L|L].
  - left. split; auto. unfold lengthCalc. rewrite plSegs_small by auto. reflexivity.
  - right. destruct (Forall_Exists_dec (fun e => nullDistance th <= edist (fst e) (snd e))) with (l := sides closed pts) as [F|F].
    + intros e. apply Rle_dec.
    + left. rewrite Forall_forall in F. split; auto. split; auto. apply lengthCalc_ok; auto.
    + right. rewrite Exists_exists in F. destruct F as (e & I & N). assert (edist (fst e) (snd e) < nullDistance th) by lra. split; auto. split; [eauto|].
      unfold lengthCalc. erewrite plSegs_throw; eauto.
Qed.
Lemma lengthCalc_moved th closed pts x y : lengthCalc th closed (map (fun p => moved p x y) pts) = lengthCalc th closed pts.
Proof.
  assert (forall e : pt R * pt R, edist (fst (moved (fst e) x y, moved (snd e) x y)) (snd (moved (fst e) x y, moved (snd e) x y)) = edist (fst e) (snd e)) as EM
    by (intros; cbn [fst snd]; apply edist_moved).
  destruct (lengthCalc_cases th closed pts) as [(L & ->)|[(L & F & ->)|(L & (e & I & N) & ->)]].
  - unfold lengthCalc. rewrite plSegs_small by (now rewrite map_length). reflexivity.
  - rewrite lengthCalc_ok; rewrite ?map_length; auto.
    + rewrite sides_map, sumOver_map. f_equal. apply sumOver_ext. intros; apply EM.
    + intros e He. rewrite sides_map in He. apply in_map_iff in He. destruct He as (f & <- & I). rewrite EM. auto.
  - unfold lengthCalc. rewrite (plSegs_throw th closed KSeg _ (moved (fst e) x y, moved (snd e) x y)); [reflexivity| | |].
    + now rewrite map_length.
    + rewrite sides_map. apply in_map_iff. eauto.
    + rewrite EM. auto.
Qed.
Lemma lengthCalc_norm th closed pts c : normPts closed pts = Ok c -> lengthCalc th closed c = lengthCalc th closed pts.
Proof.
  intros H. destruct (sides_norm _ _ _ H) as (L & P). set (sw := fun e : pt R * pt R => (snd e, fst e)).
  assert (forall e, In e (sides closed c) -> exists f, In f (sides closed pts) /\ edist (fst e) (snd e) = edist (fst f) (snd f)) as Q1.
  { intros e He. destruct P as [P|P]; apply (Permutation_in e P) in He; [eauto|].
    apply in_map_iff in He. destruct He as (f & <- & I). exists f. split; auto. cbn [fst snd]. apply edist_sym. }
  assert (forall e, In e (sides closed pts) -> exists f, In f (sides closed c) /\ edist (fst e) (snd e) = edist (fst f) (snd f)) as Q2.
  { intros e He. destruct P as [P|P].
    - exists e. split; auto. eapply Permutation_in; [apply Permutation_sym; exact P|auto].
    - exists (snd e, fst e). split; [|cbn [fst snd]; apply edist_sym]. eapply Permutation_in; [apply Permutation_sym; exact P|]. apply in_map_iff. eauto. }
  destruct (lengthCalc_cases th closed pts) as [(L' & ->)|[(L' & F & ->)|(L' & (e & I & N) & ->)]].
  - unfold lengthCalc. rewrite plSegs_small by lia. reflexivity.
  - rewrite lengthCalc_ok; [|intros e He; destruct (Q1 e He) as (f & I & ->); auto|lia]. f_equal. destruct P as [P|P].
    + now apply sumOver_perm.
    + rewrite (sumOver_perm _ _ _ P), sumOver_map. apply sumOver_ext. intros. cbn [fst snd]. apply edist_sym.
  - destruct (Q2 e I) as (f & If & Ef). unfold lengthCalc. rewrite (plSegs_throw th closed KSeg c f); [reflexivity|lia|auto|now rewrite <- Ef].
Qed.
Lemma moved_affine x y p : moved p x y = affine (mkA 1 0 0 1 x y) p.
Proof. unfold moved, affine; cbn. f_equal; ring. Qed.
Lemma signedArea_moved pts x y : signedArea (map (fun p => moved p x y) pts) = signedArea pts.
Proof.
  rewrite (map_ext _ (affine (mkA 1 0 0 1 x y)) (moved_affine x y)), signedArea_affine. unfold affDet; cbn. ring.
Qed.
Lemma centroid_moved pts x y c : centroidCalc pts = Ok c -> centroidCalc (map (fun p => moved p x y) pts) = Ok (moved c x y).
Proof.
  intros H. rewrite (map_ext _ (affine (mkA 1 0 0 1 x y)) (moved_affine x y)), moved_affine. apply centroid_affine; auto. unfold affDet; cbn. lra.
Qed.
Lemma area_cycle pts c : sameCycle pts c -> Rabs (signedArea c) = Rabs (signedArea pts).
Proof.
  intros [S|S]; rewrite (signedArea_shift _ _ S); auto. rewrite signedArea_rev. apply Rabs_Ropp.
Qed.
Lemma centroid_cycle pts c : sameCycle pts c -> centroidCalc c = centroidCalc pts.
Proof. intros [S|S]; rewrite (centroid_shift _ _ S); auto. apply centroid_rev. Qed.
Lemma okSides_wide th pts : okSides th pts -> wide th pts.
Proof. intros H e I. now destruct (H e I). Qed.
Lemma okSides_dir th pts : okSides th pts -> forall e, In e (cyc pts) -> dirOK th (fst e) (snd e).
Proof. intros H e I. now destruct (H e I). Qed.

(** ** Caches *)
Record okCache (th : thrs R) (closed smp cent : bool) (pl : poly R) : Prop := mkOkC {
  ocLen : forall v, plLen pl = Some v -> lengthCalc th closed (plPts pl) = Ok v;
  ocArea : forall v, plArea pl = Some v -> v = Rabs (signedArea (plPts pl));
  ocSimple : smp = true -> forall b, plSimple pl = Some b -> closed = true /\ (3 <= length (plPts pl))%nat /\ simpleCalc th (plPts pl) = Ok b;
  ocCent : cent = true -> forall c, plCent pl = Some c -> centroidCalc (plPts pl) = Ok c
}.
Lemma okCache_fresh th closed smp cent pts : okCache th closed smp cent (plFresh pts).
Proof. constructor; cbn; intros; discriminate. Qed.

Lemma okCache_translate th closed smp pl dx dy : thr_ok th -> okCache th closed smp false pl -> (smp = true -> closed = true -> okSides th (plPts pl)) ->
  okCache th closed smp false (plTranslate pl dx dy).
Proof.
  intros Hth [A B C _] S. unfold plTranslate. change (map (fun p => ptTranslate p dx dy) (plPts pl)) with (map (fun p => moved p dx dy) (plPts pl)).
  constructor; cbn [plLen plArea plSimple plCent plPts].
  - intros v H. rewrite lengthCalc_moved. auto.
  - intros v H. rewrite signedArea_moved. auto.
  - intros SM b H. destruct (C SM b H) as (-> & L & E). rewrite map_length. split; auto. split; auto. rewrite simple_moved; auto using okSides_wide. apply okSides_dir; auto.
  - discriminate.
Qed.
Lemma okCache_simple th closed smp cent pl b pl' : okCache th closed smp cent pl -> plIsSimple th closed pl = Ok (b, pl') ->
  okCache th closed smp cent pl' /\ plPts pl' = plPts pl.
Proof.
  intros K. unfold plIsSimple. destruct (Nat.ltb_spec (length (plPts pl)) 3); [intros E; apply Ok_inj in E; now injection E as <- <-|].
  destruct closed; cbn [negb]; [|intros E; apply Ok_inj in E; now injection E as <- <-].
  destruct (plSimple pl) eqn:P; [intros E; apply Ok_inj in E; now injection E as <- <-|].
  destruct (simpleCalc th (plPts pl)) eqn:S; cbn [bind]; try discriminate. intros E; apply Ok_inj in E; injection E as <- <-. split; auto.
  destruct K as [A B C D]. constructor; cbn [plLen plArea plSimple plCent plPts]; auto. intros _ x X. injection X as <-. auto.
Qed.
Lemma okCache_norm th closed smp cent pl pl' : thr_ok th -> okCache th closed smp cent pl -> (smp = true -> closed = true -> okSides th (plPts pl)) -> plNormalize closed pl = Ok pl' ->
  okCache th closed smp cent pl'.
Proof.
  intros Hth K S. unfold plNormalize. destruct (plPts pl) as [|p l] eqn:EP; [intros E; apply Ok_inj in E; now subst|]. rewrite <- EP in *. clear EP p l.
  destruct (plNorm pl); [intros E; apply Ok_inj in E; now subst|]. destruct (normPts closed (plPts pl)) as [c| |] eqn:EN; cbn [bind]; try discriminate.
  intros E. apply Ok_inj in E. subst pl'. destruct K as [A B C D].
  pose proof (normPts_cycle _ _ _ EN) as CY. destruct (sides_norm _ _ _ EN) as [L _].
  constructor; cbn [plLen plArea plSimple plCent plPts].
  - intros v H. rewrite (lengthCalc_norm th closed _ _ EN). auto.
  - intros v H. rewrite (B v H). destruct closed; [symmetry; now apply area_cycle|].
    destruct CY as [->| ->]; auto. now rewrite signedArea_rev, Rabs_Ropp.
  - intros SM b H. destruct (C SM b H) as (-> & L3 & E). split; auto. split; [lia|]. rewrite (simple_cycle th (plPts pl)); auto using okSides_wide.
  - intros X v H. rewrite <- (D X v H). destruct closed; [now apply centroid_cycle|]. destruct CY as [->| ->]; auto. apply centroid_rev.
Qed.
Lemma plAddAll_fresh th pts : forall pl pl', plAddAll th pl pts = Ok pl' -> pl' = pl \/ exists l, pl' = plFresh l.
Proof.
  induction pts as [|p pts IH]; intros pl pl' H; cbn [plAddAll] in H; [apply Ok_inj in H; auto|].
  apply bind_ok in H. destruct H as (pl1 & E & H). apply IH in H. right. destruct H as [->|H]; auto.
  unfold plAddPoint in E. destruct (plPts pl); [apply Ok_inj in E; eauto|]. destruct (ptEq _ _ _); [discriminate|]. apply Ok_inj in E. eauto.
Qed.
Lemma plSet_fresh th pts pl : plSet th pts = Ok pl -> pl = plFresh pts.
Proof. unfold plSet. destruct (_ =? _)%nat; [discriminate|]. destruct (_ && _); [discriminate|]. intros H. now apply Ok_inj in H. Qed.
Lemma okCache_step th closed smp cent pl op pl' : thr_ok th -> okCache th closed smp cent pl -> (smp = true -> closed = true -> okSides th (plPts pl)) ->
  (cent = true -> noMove op = true) -> plStep th closed pl op = Some pl' -> okCache th closed smp cent pl'.
Proof.
  intros Hth K S M H. unfold plStep in H. destruct op.
  - destruct (plSet th pts) eqn:E; cbn [keepPl0] in H; try discriminate; injection H as <-; auto. apply plSet_fresh in E. subst. apply okCache_fresh.
  - injection H as <-. apply okCache_fresh.
  - injection H as <-. destruct cent; [specialize (M eq_refl); discriminate|]. now apply okCache_translate.
  - destruct cent; [specialize (M eq_refl); discriminate|]. unfold plMoveTo in H. destruct (plPts pl) eqn:E; cbn [keepPl0] in H; injection H as <-; auto.
    apply okCache_translate; auto. now rewrite E.
  - injection H as <-. apply okCache_fresh.
  - injection H as <-. unfold plRotateAt, plRotate, plTranslate. cbn. apply okCache_fresh.
  - unfold plMinimize in H. destruct (_ <? 3)%nat; [injection H as <-; auto|]. destruct (filter _ _); [injection H as <-; auto|].
    destruct (plAddAll th plEmpty _) eqn:E; cbn [keepPl0] in H; try discriminate; injection H as <-; auto.
    destruct (plAddAll_fresh _ _ _ _ E) as [->|(l' & ->)]; apply okCache_fresh.
  - injection H as <-. apply okCache_fresh.
  - destruct (plParallelogram th p q r) eqn:E; cbn [keepPl0] in H; try discriminate; injection H as <-; auto.
    unfold plParallelogram in E. repeat (apply bind_ok in E; destruct E as (? & _ & E)). apply plSet_fresh in E. subst. apply okCache_fresh.
  - destruct (plRCP th rad n) as [[[r a] b]| |] eqn:E; cbn [keepPl0 bind] in H; try discriminate; injection H as <-; auto.
    unfold plRCP in E. destruct (_ <? _)%nat; [discriminate|]. destruct (_ <=? _)%num; [discriminate|]. cbn zeta in E.
    apply bind_ok in E. destruct E as (? & _ & E). apply bind_ok in E. destruct E as (? & _ & E). apply bind_ok in E. destruct E as (o & _ & E).
    destruct o; [|discriminate]. apply bind_ok in E. destruct E as (z & E1 & E). apply Ok_inj in E. injection E as <- _ _. apply plSet_fresh in E1. subst. apply okCache_fresh.
  - unfold plLength in H. destruct (plLen pl) eqn:P; [injection H as <-; auto|]. destruct (lengthCalc th closed (plPts pl)) eqn:E; cbn [keepPl bind] in H; try discriminate; injection H as <-; auto.
    destruct K as [A B C D]. constructor; cbn [plLen plArea plSimple plCent plPts]; auto. intros v X. injection X as <-. auto.
  - unfold plAreaOf in H. destruct (plIsSimple th closed pl) as [[b pl1]| |] eqn:E; cbn [bind] in H; [|injection H as <-; auto|discriminate].
    destruct (okCache_simple _ _ _ _ _ _ _ K E) as [K' EP]. destruct (negb b); [injection H as <-; auto|]. destruct (plArea pl1) eqn:P; [injection H as <-; auto|].
    cbn [keepPl] in H. injection H as <-. destruct K' as [A B C D]. constructor; cbn [plLen plArea plSimple plCent plPts]; auto. intros v X. injection X as <-. reflexivity.
  - destruct (plIsSimple th closed pl) as [[b pl1]| |] eqn:E; cbn [keepPl] in H; try discriminate; injection H as <-; auto. now destruct (okCache_simple _ _ _ _ _ _ _ K E).
  - unfold plIsConvex in H. destruct (plIsSimple th closed pl) as [[b pl1]| |] eqn:E; cbn [bind] in H; [|injection H as <-; auto|discriminate].
    destruct (okCache_simple _ _ _ _ _ _ _ K E) as [K' _]. destruct (negb b); [injection H as <-; auto|]. destruct (_ =? _)%nat; injection H as <-; auto.
  - unfold plCentroid in H. destruct (plIsSimple th closed pl) as [[b pl1]| |] eqn:E; cbn [bind] in H; [|injection H as <-; auto|discriminate].
    destruct (okCache_simple _ _ _ _ _ _ _ K E) as [K' _]. destruct (negb b); [injection H as <-; auto|]. destruct (plCent pl1) eqn:P; [injection H as <-; auto|].
    destruct (centroidCalc (plPts pl1)) eqn:EC; cbn [bind keepPl] in H; try discriminate; [|injection H as <-; auto].
    injection H as <-. destruct K' as [A B C D]. constructor; cbn [plLen plArea plSimple plCent plPts]; auto. intros _ c X. injection X as <-. auto.
  - unfold plEq in H. destruct (negb _); [cbn [bind keepPl] in H; injection H as <-; auto|].
    destruct (plNormalize closed pl) as [a| |] eqn:E; cbn [bind] in H; [|injection H as <-; auto|discriminate].
    destruct (plNormalize closed other) as [b| |] eqn:E'; cbn [bind keepPl] in H; [|injection H as <-; auto|discriminate].
    injection H as <-. eapply okCache_norm; eauto.
Qed.
Lemma okCache_run th closed smp cent ops : forall pl pl', thr_ok th -> okCache th closed smp cent pl ->
  (smp = true -> closed = true -> forall k q, plRun th closed pl (firstn k ops) = Some q -> okSides th (plPts q)) ->
  (cent = true -> forallb noMove ops = true) ->
  plRun th closed pl ops = Some pl' -> okCache th closed smp cent pl'.
Proof.
  induction ops as [|op ops IH]; intros pl pl' Hth K S M H; cbn [plRun] in H; [injection H as <-; auto|].
  destruct (plStep th closed pl op) as [pl1|] eqn:E; [|discriminate].
  assert (okCache th closed smp cent pl1) as K1.
  { apply (okCache_step th closed smp cent pl op pl1); auto. - intros SM C. apply (S SM C 0%nat). reflexivity. - intros C. specialize (M C). cbn in M. apply andb_true_iff in M. tauto. }
  apply (IH pl1 pl'); auto.
  - intros SM C k q Hq. apply (S SM C (Datatypes.S k) q). cbn [firstn plRun]. rewrite E. exact Hq.
  - intros C. specialize (M C). cbn in M. apply andb_true_iff in M. tauto.
Qed.

(** What the queries answer. *)
Lemma okCache_length th closed smp cent pl : okCache th closed smp cent pl -> val (plLength th closed pl) = val (plLength th closed (plFresh (plPts pl))).
Proof.
  intros K. unfold plLength. cbn [plLen plFresh plPts]. destruct (plLen pl) eqn:E.
  - rewrite (ocLen _ _ _ _ _ K _ E). reflexivity.
  - destruct (lengthCalc th closed (plPts pl)); reflexivity.
Qed.
Lemma okCache_isSimple th closed cent pl : okCache th closed true cent pl -> val (plIsSimple th closed pl) = val (plIsSimple th closed (plFresh (plPts pl))).
Proof.
  intros K. unfold plIsSimple. cbn [plSimple plFresh plPts]. destruct (_ <? 3)%nat; [reflexivity|]. destruct closed; [|reflexivity]. cbn [negb].
  destruct (plSimple pl) eqn:E.
  - destruct (ocSimple _ _ _ _ _ K eq_refl _ E) as (_ & _ & ->). reflexivity.
  - destruct (simpleCalc th (plPts pl)); reflexivity.
Qed.
Lemma isSimple_agree th closed pl :
  match plIsSimple th closed pl with
  | Ok (b, p1) => plPts p1 = plPts pl /\ plArea p1 = plArea pl /\ plCent p1 = plCent pl
  | _ => True
  end.
Proof.
  unfold plIsSimple. destruct (_ <? 3)%nat; [auto|]. destruct closed; cbn [negb]; auto. destruct (plSimple pl); auto. destruct (simpleCalc th (plPts pl)); cbn [bind]; auto.
Qed.
Lemma okCache_area th closed cent pl : okCache th closed true cent pl -> val (plAreaOf th closed pl) = val (plAreaOf th closed (plFresh (plPts pl))).
Proof.
  intros K. pose proof (okCache_isSimple _ _ _ _ K) as S. unfold plAreaOf.
  pose proof (isSimple_agree th closed pl) as G1. pose proof (isSimple_agree th closed (plFresh (plPts pl))) as G2.
  destruct (plIsSimple th closed pl) as [[b p1]| |], (plIsSimple th closed (plFresh (plPts pl))) as [[b' p2]| |]; cbn [bind val fst] in *; try discriminate; auto.
  apply Ok_inj in S. subst b'. destruct (negb b); [reflexivity|]. destruct G1 as (E1 & E2 & _), G2 as (F1 & F2 & _). rewrite E2, F2, E1, F1. cbn [plArea plFresh plPts].
  destruct (plArea pl) eqn:E; [|reflexivity]. rewrite (ocArea _ _ _ _ _ K _ E). reflexivity.
Qed.
Lemma okCache_convex th closed cent pl : okCache th closed true cent pl -> val (plIsConvex th closed pl) = val (plIsConvex th closed (plFresh (plPts pl))).
Proof.
  intros K. pose proof (okCache_isSimple _ _ _ _ K) as S. unfold plIsConvex.
  pose proof (isSimple_agree th closed pl) as G1. pose proof (isSimple_agree th closed (plFresh (plPts pl))) as G2.
  destruct (plIsSimple th closed pl) as [[b p1]| |], (plIsSimple th closed (plFresh (plPts pl))) as [[b' p2]| |]; cbn [bind val fst] in *; try discriminate; auto.
  apply Ok_inj in S. subst b'. destruct (negb b); [reflexivity|]. destruct G1 as (E1 & _), G2 as (F1 & _). rewrite E1, F1. cbn [plFresh plPts].
  destruct (_ =? 3)%nat; reflexivity.
Qed.
Lemma okCache_centroid th closed pl : okCache th closed true true pl -> val (plCentroid th closed pl) = val (plCentroid th closed (plFresh (plPts pl))).
Proof.
  intros K. pose proof (okCache_isSimple _ _ _ _ K) as S. unfold plCentroid.
  pose proof (isSimple_agree th closed pl) as G1. pose proof (isSimple_agree th closed (plFresh (plPts pl))) as G2.
  destruct (plIsSimple th closed pl) as [[b p1]| |], (plIsSimple th closed (plFresh (plPts pl))) as [[b' p2]| |]; cbn [bind val fst] in *; try discriminate; auto.
  apply Ok_inj in S. subst b'. destruct (negb b); [reflexivity|]. destruct G1 as (E1 & _ & E2), G2 as (F1 & _ & F2). rewrite E2, F2, E1, F1. cbn [plCent plFresh plPts].
  destruct (plCent pl) eqn:E.
  - rewrite (ocCent _ _ _ _ _ K eq_refl _ E). reflexivity.
  - destruct (centroidCalc (plPts pl)); reflexivity.
Qed.
