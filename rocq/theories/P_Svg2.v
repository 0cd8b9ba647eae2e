(** * Proofs about the import of SVG strings: paths *)

From Coq Require Import String Ascii.
From Coq Require Import Reals ZArith List Bool Arith Lia Lra.
From Verif Require Import Num M_LP M_Poly M_Misc M_Svg S_Geom P_LP2 S_Svg P_Svg.
Import ListNotations.
Local Open Scope R_scope.

Notation pst := (pstate (T := R)).
(** Pending values are stored. *)
Definition settle (st : pst) : res pst := match pVals st with [] => Ok st | _ => storeValues (N := RNum) st end.
(** [s0] is [st] with the pending values stored. *)
Definition ready (st s0 : pst) : Prop :=
  settle st = Ok s0 /\ pVals s0 = [] /\ pMode s0 = pMode st /\ (pVals st = [] \/ length (pVals st) = cNb (pMode st)).

Lemma elem_num n (st : pst) : numOK n -> pathElem (N := RNum) (numText n) st =
  (do st1 <- (if (length (pVals st) =? cNb (pMode st))%nat then storeValues (N := RNum) st else Ok st);
   Ok (mkPS (pMode st1) (pDone st1) (pCur st1) (pVals st1 ++ [numVal n]) (pPrev st1))).
Proof.
  intros H. pose proof (numText_all n H) as A. unfold pathElem. rewrite (stod_num n H).
  destruct (numText n) as [|c [|d r]]; try reflexivity. apply allC_cons in A as [A _]. rewrite A. reflexivity.
Qed.
Lemma elem_cmd c m (st s0 : pst) : isDigitC c = false -> settle st = Ok s0 -> getCommand c = Ok m -> pathAllowed (cChar m) = true ->
  pathElem (N := RNum) (String c EmptyString) st =
  Ok (match isNewPolyline m, pCur s0 with
      | true, _ :: _ => mkPS m (pDone s0 ++ [pCur s0]) [] (pVals s0) (pPrev s0)
      | _, _ => mkPS m (pDone s0) (pCur s0) (pVals s0) (pPrev s0)
      end).
Proof.
  intros D S G P. unfold pathElem. rewrite D. unfold settle in S.
  replace (match pVals st with [] => Ok st | _ => storeValues (N := RNum) st end) with (Ok s0). cbn [negb bind]. rewrite G. cbn [bind]. rewrite P. cbn [negb].
  destruct (isNewPolyline m); [|reflexivity]. destruct (pCur s0); reflexivity.
Qed.
Lemma first_value n (st s0 : pst) : ready st s0 -> (1 <= cNb (pMode s0))%nat -> numOK n ->
  feed [WNum n] st = Ok (mkPS (pMode s0) (pDone s0) (pCur s0) [numVal n] (pPrev s0)).
Proof.
  intros (S & V & M & L) C H. cbn [feed wordText]. rewrite (elem_num n st H). unfold settle in S. destruct (pVals st) as [|v vs] eqn:E.
  - injection S as ->. destruct (Nat.eqb_spec (length (@nil R)) (cNb (pMode s0))) as [X|X]; [cbn in X; lia|].
    cbn [bind]. rewrite E. reflexivity.
  - destruct L as [L|L]; [discriminate|]. rewrite L, Nat.eqb_refl, S. cbn [bind]. rewrite V. reflexivity.
Qed.
Lemma second_value n m d c v pr : (2 <= cNb m)%nat -> numOK n ->
  feed [WNum n] (mkPS m d c [v] pr) = Ok (mkPS m d c [v; numVal n] pr).
Proof.
  intros C H. cbn [feed wordText]. rewrite (elem_num n _ H). cbn [pVals pMode length]. destruct (Nat.eqb_spec 1 (cNb m)); [lia|]. reflexivity.
Qed.
Lemma ready_new m d c vs pr p : vs <> [] -> length vs = cNb m -> generateNewPoint (N := RNum) m pr vs = Ok p ->
  ready (mkPS m d c vs pr) (mkPS m d (c ++ [p]) [] p).
Proof.
  intros NE L G. unfold ready, settle, storeValues. cbn [pVals pMode pPrev pDone pCur]. rewrite L, Nat.eqb_refl, G. cbn [negb bind].
  destruct vs; [congruence|]. auto.
Qed.

(** The drawing state agrees with the state of the parser. *)
Definition simA (s0 : pst) (k : pen) : Prop := pDone s0 = map fst (pSubs k) /\ pCur s0 = pHere k /\ pPrev s0 = pAt k /\ pHere k <> [].

Lemma lineTo_cur k p : pHere k <> [] -> lineTo k p = mkPen (pSubs k) (pHere k ++ [p]) p (pHome k).
Proof. unfold lineTo. destruct (pHere k); [congruence|reflexivity]. Qed.
Definition point2 (rel : bool) (pr : pt R) (a : num * num) : pt R :=
  if rel then mkPt (px pr + numVal (fst a)) (py pr + numVal (snd a)) else mkPt (numVal (fst a)) (numVal (snd a)).
Lemma gen2 m pr a : cChar m = "M"%char \/ cChar m = "L"%char ->
  generateNewPoint (N := RNum) m pr [numVal (fst a); numVal (snd a)] = Ok (point2 (negb (cAbs m)) pr a).
Proof. intros H. unfold generateNewPoint, point2. destruct H as [-> | ->]; cbn [existsb Ascii.eqb Bool.eqb orb]; destruct (cAbs m); reflexivity. Qed.
Lemma group2 (st s0 : pst) a : ready st s0 -> cNb (pMode s0) = 2%nat -> (cChar (pMode s0) = "M"%char \/ cChar (pMode s0) = "L"%char) -> pairOK a ->
  exists st1, feed [WNum (fst a); WNum (snd a)] st = Ok st1 /\
    ready st1 (mkPS (pMode s0) (pDone s0) (pCur s0 ++ [point2 (negb (cAbs (pMode s0))) (pPrev s0) a]) [] (point2 (negb (cAbs (pMode s0))) (pPrev s0) a)).
Proof.
  intros R C L [A B]. change [WNum (fst a); WNum (snd a)] with ([WNum (fst a)] ++ [WNum (snd a)])%list. rewrite feed_app.
  rewrite (first_value (fst a) st s0 R) by (auto; lia). cbn [bind]. rewrite second_value by (auto; lia).
  eexists. split; [reflexivity|]. apply ready_new; [discriminate|now rewrite C|]. now apply gen2.
Qed.
Lemma groups2 l : forall (st s0 : pst) k, Forall pairOK l -> ready st s0 -> cNb (pMode s0) = 2%nat -> (cChar (pMode s0) = "M"%char \/ cChar (pMode s0) = "L"%char) ->
  simA s0 k -> exists st1 s1, feed (flat_map (fun a => [WNum (fst a); WNum (snd a)]) l) st = Ok st1 /\ ready st1 s1 /\ pMode s1 = pMode s0 /\
    simA s1 (drawLines (negb (cAbs (pMode s0))) k l).
Proof.
  induction l as [|a l IH]; intros st s0 k W R C L S; [exists st, s0; auto|].
  inversion W as [|? ? W1 W2]; subst. destruct (group2 st s0 a R C L W1) as (st1 & F & R1).
  cbn [flat_map]. rewrite feed_app, F. cbn [bind].
  destruct S as (S1 & S2 & S3 & S4).
  edestruct (IH st1 _ (lineTo k (target (negb (cAbs (pMode s0))) k a)) W2 R1 C L) as (st2 & s2 & F2 & R2 & M2 & A2).
  - unfold simA. cbn [pDone pCur pPrev]. rewrite lineTo_cur by auto. cbn [pSubs pHere pAt].
    replace (target (negb (cAbs (pMode s0))) k a) with (point2 (negb (cAbs (pMode s0))) (pPrev s0) a) by (unfold point2, target; now rewrite S3).
    rewrite S1, S2. repeat split; auto. destruct (pHere k); discriminate.
  - exists st2, s2. cbn [pMode] in *. auto.
Qed.
Lemma groups1 (ax : bool) l : forall (st s0 : pst) k, Forall numOK l -> ready st s0 -> cNb (pMode s0) = 1%nat -> cChar (pMode s0) = (if ax then "H" else "V")%char ->
  simA s0 k -> exists st1 s1, feed (map WNum l) st = Ok st1 /\ ready st1 s1 /\ pMode s1 = pMode s0 /\
    simA s1 (fold_left (fun s a => lineTo s ((if ax then targetX else targetY) (negb (cAbs (pMode s0))) s a)) l k).
Proof.
  induction l as [|a l IH]; intros st s0 k W R C L S; [exists st, s0; auto|].
  inversion W as [|? ? W1 W2]; subst. change (map WNum (a :: l)) with ([WNum a] ++ map WNum l)%list. rewrite feed_app, (first_value a st s0 R) by (auto; lia).
  cbn [bind]. destruct S as (S1 & S2 & S3 & S4).
  set (p := (if ax then targetX else targetY) (negb (cAbs (pMode s0))) k a).
  assert (generateNewPoint (N := RNum) (pMode s0) (pPrev s0) [numVal a] = Ok p) as G.
  { unfold generateNewPoint, p, targetX, targetY. rewrite L, S3. destruct ax; cbn [existsb Ascii.eqb Bool.eqb orb]; destruct (cAbs (pMode s0)); cbn [negb];
      repeat f_equal; unfold nadd, RNum; lra. }
  assert ([numVal a] <> []) as NE by discriminate.
  edestruct (IH _ _ (lineTo k p) W2 (ready_new (pMode s0) (pDone s0) (pCur s0) [numVal a] (pPrev s0) p NE (eq_sym C) G) C L) as (st2 & s2 & F2 & R2 & M2 & A2).
  - unfold simA. cbn [pDone pCur pPrev]. rewrite lineTo_cur by auto. cbn [pSubs pHere pAt]. rewrite S1, S2. repeat split; auto. destruct (pHere k); discriminate.
  - exists st2, s2. cbn [pMode] in *. auto.
Qed.

(** A state before a moveto. *)
Definition simM (s0 : pst) (k : pen) : Prop := pDone s0 = map fst (pSubs k) /\ pCur s0 = pHere k.
Lemma penUp_fst k : map fst (penUp k) = match pHere k with [] => map fst (pSubs k) | l => (map fst (pSubs k) ++ [l])%list end.
Proof. unfold penUp. destruct (pHere k); [reflexivity|]. now rewrite map_app. Qed.
Lemma run_move rel l (st s0 : pst) k : cmdOK (PMove rel l) -> ready st s0 -> simM s0 k -> (rel = false \/ pPrev s0 = pAt k) ->
  exists st1 s1, feed (words (PMove rel l)) st = Ok st1 /\ ready st1 s1 /\ simA s1 (draw k (PMove rel l)) /\ cChar (pMode s1) = "M"%char.
Proof.
  intros [NE W] (S & V & M & L) [D C] P. cbn [words feed]. set (m := mkCmd (negb rel) "M"%char 2).
  assert (exists d, pathElem (N := RNum) (wordText (letter rel "M" "m")) st = Ok (mkPS m d [] [] (pPrev s0)) /\ d = map fst (penUp k)) as (d & E & Ed).
  { unfold letter. replace (wordText (WCmd (if rel then "m" else "M")%char)) with (String (if rel then "m" else "M")%char "") by reflexivity.
    rewrite (elem_cmd _ m st s0); [|destruct rel; reflexivity|auto|destruct rel; reflexivity|reflexivity].
    rewrite V, C, penUp_fst, D. change (isNewPolyline m) with true. cbn iota. destruct (pHere k) eqn:E; eexists; split; try reflexivity. }
  rewrite E. cbn [bind]. destruct l as [|a l]; [congruence|]. inversion W as [|? ? W1 W2]; subst.
  cbn [flat_map]. rewrite feed_app.
  assert (ready (mkPS m (map fst (penUp k)) [] [] (pPrev s0)) (mkPS m (map fst (penUp k)) [] [] (pPrev s0))) as R0 by (unfold ready, settle; cbn; auto).
  destruct (group2 _ _ a R0 eq_refl (or_introl eq_refl) W1) as (st1 & F & R1). rewrite F. cbn [bind]. cbn [pMode pDone pCur pPrev app] in R1.
  assert (point2 (negb (cAbs m)) (pPrev s0) a = target rel k a) as PE.
  { unfold point2, target, m. cbn [cAbs]. rewrite negb_involutive. destruct rel; [|reflexivity]. destruct P as [P|P]; [discriminate|]. now rewrite P. }
  rewrite PE in R1.
  edestruct (groups2 l _ _ (moveTo k (target rel k a)) W2 R1 eq_refl (or_introl eq_refl)) as (st2 & s2 & F2 & R2 & M2 & A2).
  - unfold simA, moveTo. cbn. repeat split. discriminate.
  - exists st2, s2. cbn [pMode cAbs m] in *. rewrite negb_involutive in A2. cbn [draw]. rewrite M2. auto.
Qed.
Lemma run_line rel l (st s0 : pst) k : cmdOK (PLine rel l) -> ready st s0 -> simA s0 k ->
  exists st1 s1, feed (words (PLine rel l)) st = Ok st1 /\ ready st1 s1 /\ simA s1 (draw k (PLine rel l)) /\ cChar (pMode s1) = "L"%char.
Proof.
  intros [NE W] (S & V & M & L) A. cbn [words feed]. set (m := mkCmd (negb rel) "L"%char 2).
  unfold letter. change (wordText (WCmd (if rel then "l" else "L")%char)) with (String (if rel then "l" else "L")%char "").
  rewrite (elem_cmd _ m st s0); [|destruct rel; reflexivity|auto|destruct rel; reflexivity|reflexivity].
  change (isNewPolyline m) with false. cbn iota. cbn [bind]. rewrite V.
  edestruct (groups2 l (mkPS m (pDone s0) (pCur s0) [] (pPrev s0)) (mkPS m (pDone s0) (pCur s0) [] (pPrev s0)) k W) as (st2 & s2 & F2 & R2 & M2 & A2);
    [unfold ready, settle; cbn; auto|reflexivity|now right|exact A|].
  exists st2, s2. cbn [pMode cAbs m] in *. rewrite negb_involutive in A2. rewrite M2. auto.
Qed.
Lemma run_hv (ax rel : bool) l (st s0 : pst) k : l <> [] -> Forall numOK l -> ready st s0 -> simA s0 k -> let c := if ax then PHor rel l else PVer rel l in
  exists st1 s1, feed (words c) st = Ok st1 /\ ready st1 s1 /\ simA s1 (draw k c) /\ cChar (pMode s1) <> "Z"%char.
Proof.
  intros NE W (S & V & M & L) A. cbn zeta. set (m := mkCmd (negb rel) (if ax then "H" else "V")%char 1).
  edestruct (groups1 ax l (mkPS m (pDone s0) (pCur s0) [] (pPrev s0)) (mkPS m (pDone s0) (pCur s0) [] (pPrev s0)) k W) as (st2 & s2 & F2 & R2 & M2 & A2);
    [unfold ready, settle; cbn; auto|reflexivity|reflexivity|exact A|].
  exists st2, s2. cbn [pMode cAbs m] in *. rewrite negb_involutive in A2. rewrite M2.
  assert (feed (words (if ax then PHor rel l else PVer rel l)) st = feed (map WNum l) (mkPS m (pDone s0) (pCur s0) [] (pPrev s0))) as E.
  { replace (words (if ax then PHor rel l else PVer rel l)) with (WCmd (if rel then (if ax then "h" else "v") else (if ax then "H" else "V"))%char :: map WNum l)
      by (destruct ax, rel; reflexivity).
    cbn [feed]. change (wordText (WCmd ?c)) with (String c ""). unfold wordText.
    rewrite (elem_cmd _ m st s0); [|destruct rel, ax; reflexivity|auto|destruct rel, ax; reflexivity|destruct ax; reflexivity].
    replace (isNewPolyline m) with false by (destruct ax; reflexivity). cbn iota. cbn [bind]. now rewrite V. }
  rewrite E. split; [exact F2|]. split; [exact R2|]. split; [destruct ax; exact A2|]. cbn. destruct ax; discriminate.
Qed.
Lemma run_close rel (st s0 : pst) k : ready st s0 -> simA s0 k ->
  exists st1, feed (words (PClose rel)) st = Ok st1 /\ ready st1 st1 /\ simM st1 (draw k (PClose rel)) /\ pHere (draw k (PClose rel)) = [] /\ cChar (pMode st1) = "Z"%char.
Proof.
  intros (S & V & M & L) (A1 & A2 & A3 & A4). cbn [words feed]. set (m := mkCmd (negb rel) "Z"%char 0).
  unfold letter, wordText. rewrite (elem_cmd _ m st s0); [|destruct rel; reflexivity|auto|destruct rel; reflexivity|reflexivity].
  change (isNewPolyline m) with true. cbn iota. cbn [bind]. rewrite V, A1, A2. destruct (pHere k) as [|x y] eqn:E; [congruence|].
  eexists. split; [reflexivity|]. unfold ready, settle, simM, draw, closeTo. cbn. rewrite E, map_app. auto 10.
Qed.

(** States between two commands. *)
Definition between (st : pst) (k : pen) : Prop := exists s0, ready st s0 /\ simA s0 k /\ cChar (pMode s0) <> "Z"%char.
Definition closed (st : pst) (k : pen) : Prop := ready st st /\ simM st k /\ pHere k = [] /\ cChar (pMode st) = "Z"%char.
Lemma run_all l : forall (st : pst) k, Forall cmdOK l -> resumes l ->
  (between st k \/ closed st k /\ (l = [] \/ exists a r, l = PMove false a :: r) \/
   (exists s0, ready st s0 /\ simM s0 k /\ pPrev s0 = pAt k) /\ exists rel a r, l = PMove rel a :: r) ->
  exists st1, feed (flat_map words l) st = Ok st1 /\
    match rev l with
    | [] => st1 = st
    | PClose _ :: _ => closed st1 (fold_left draw l k)
    | _ => between st1 (fold_left draw l k)
    end.
Proof.
  induction l as [|c l IH]; intros st k W RS H; [exists st; split; reflexivity|].
  pose proof (Forall_inv W) as W1. pose proof (Forall_inv_tail W) as W2.
  assert (resumes l) as RS2 by (destruct c; try exact RS; destruct l as [|[[] ?|? ?|? ?|? ?|?] ?]; try (exact I); try contradiction; exact RS).
  assert (exists st1, feed (words c) st = Ok st1 /\ if isClose c then closed st1 (draw k c) else between st1 (draw k c)) as (st1 & F & B).
  { destruct H as [(s0 & R0 & A0 & _)|[[(R0 & S0 & _) [H|(a & r & H)]]|[(s0 & R0 & S0 & P0) (rel & a & r & H)]]].
    - destruct c as [rel a|rel a|rel a|rel a|rel]; cbn [isClose].
      + destruct (run_move rel a st s0 k W1 R0) as (st1 & s1 & F & R1 & A1 & C1); [split; apply A0|right; apply A0|]. exists st1. split; auto. exists s1. repeat split; auto; try apply A1; try apply R1. now rewrite C1.
      + destruct (run_line rel a st s0 k W1 R0 A0) as (st1 & s1 & F & R1 & A1 & C1). exists st1. split; auto. exists s1. split; auto. split; auto. now rewrite C1.
      + destruct W1 as [W1 W1']. destruct (run_hv true rel a st s0 k W1 W1' R0 A0) as (st1 & s1 & F & R1 & A1 & C1). exists st1. split; auto. exists s1. auto.
      + destruct W1 as [W1 W1']. destruct (run_hv false rel a st s0 k W1 W1' R0 A0) as (st1 & s1 & F & R1 & A1 & C1). exists st1. split; auto. exists s1. auto.
      + destruct (run_close rel st s0 k R0 A0) as (st1 & F & R1 & A1 & E1 & C1). exists st1. split; auto. split; auto.
    - discriminate.
    - injection H as -> <-. destruct (run_move false a st st k W1 R0 S0) as (st1 & s1 & F & R1 & A1 & C1); [now left|]. exists st1. split; auto. exists s1. split; auto. split; auto. now rewrite C1.
    - injection H as -> <-. destruct (run_move rel a st s0 k W1 R0 S0) as (st1 & s1 & F & R1 & A1 & C1); [now right|]. exists st1. split; auto. exists s1. split; auto. split; auto. now rewrite C1. }
  cbn [flat_map fold_left]. rewrite feed_app, F. cbn [bind].
  destruct (IH st1 (draw k c) W2 RS2) as (st2 & F2 & B2).
  { destruct c; cbn [isClose] in B; try (left; exact B). right. left. split; auto. destruct l as [|[[] ?|? ?|? ?|? ?|?] ?]; try contradiction; [now left|right; eauto]. }
  exists st2. split; auto. cbn [rev]. destruct l as [|x l0]; [cbn in *; subst st2; destruct c; exact B|]. clear -B2.
  assert (rev (x :: l0) <> []) as NE by (cbn; intros E; apply app_eq_nil in E as [_ E]; discriminate). destruct (rev (x :: l0)) as [|y z]; [congruence|]. exact B2.
Qed.

(** ** Removal of duplicates *)
Lemma thin_purge th p l : thinned (nullDistance th) (p :: l) (purgeLoop (N := RNum) th (p :: l)).
Proof.
  revert p. induction l as [|q r IH]; intros p; [constructor|].
  change (purgeLoop th (p :: q :: r)) with (if negb (ptEq th p q) then p :: purgeLoop th (q :: r) else purgeLoop th (q :: r)).
  destruct (ptEq th p q) eqn:E; cbn [negb].
  - apply thin_drop; auto. now apply ptEq_spec.
  - apply thin_keep; auto. now apply ptEq_false.
Qed.
Lemma thin_ne d l o : thinned d l o -> o <> [].
Proof. induction 1; auto; discriminate. Qed.
Lemma thin_apart d l o : apart d l -> thinned d l o -> o = l.
Proof.
  intros A H. induction H as [|p q r o D H IH|p q r o D H IH]; [reflexivity| |].
  - destruct A as [_ A]. now rewrite (IH A).
  - destruct A as [A _]. lra.
Qed.
Lemma mapM_purge th (f : list (pt R) -> res (list (pt R))) l : (forall v, v <> [] -> f v = purgeDupes th v) -> Forall (fun v => v <> []) l ->
  exists o, mapM f l = Ok o /\ Forall2 (thinned (nullDistance th)) l o.
Proof.
  intros Hf W. induction W as [|v l Hv W (o & E & F)]; [exists []; split; [reflexivity|constructor]|].
  cbn [mapM]. rewrite (Hf v Hv). destruct v as [|p v]; [congruence|]. cbn [purgeDupes bind]. rewrite E. cbn [bind].
  eexists. split; [reflexivity|]. constructor; auto. apply thin_purge.
Qed.

(** Completed subpaths are not empty. *)
Lemma draw_ne l : forall k, Forall (fun v => fst v <> []) (pSubs k) -> Forall (fun v => fst v <> []) (pSubs (fold_left draw l k)).
Proof.
  assert (forall k, Forall (fun v => fst v <> []) (pSubs k) -> Forall (fun v => fst v <> []) (penUp k)) as PU.
  { intros k H. unfold penUp. destruct (pHere k) eqn:E; auto. apply Forall_app. split; auto. constructor; auto. discriminate. }
  assert (forall (X : Type) (f : pen -> X -> pt R) (a : list X) k, Forall (fun v => fst v <> []) (pSubs k) -> Forall (fun v => fst v <> []) (pSubs (fold_left (fun s x => lineTo s (f s x)) a k))) as FL.
  { intros X f a. induction a as [|x a IH]; intros k H; auto. cbn [fold_left]. apply IH. exact H. }
  induction l as [|c l IH]; intros k H; auto. cbn [fold_left]. apply IH. destruct c as [rel [|a r]|rel a|rel a|rel a|rel]; cbn [draw]; auto.
  - apply FL. cbn. now apply PU.
  - now apply FL.
  - cbn. apply Forall_app. split; auto. constructor; auto. cbn. destruct (pHere k); discriminate.
Qed.

Theorem path_ok th l s : pathOK l -> resumes l -> writes l s ->
  exists vs, parsePath (N := RNum) th s = Ok (vs, isClose (last l (PClose false))) /\ Forall2 (thinned (nullDistance th)) (map fst (subpaths l)) vs.
Proof.
  intros [W (rel & a & r & E)] RS (ws & Ew & SP & ->).
  assert (Forall wordOK (map snd ws)) as WO.
  { rewrite Ew. apply Forall_forall. intros w I. apply in_flat_map in I as (c & Ic & I). rewrite Forall_forall in W. specialize (W c Ic).
    assert (forall l0 : list (num * num), Forall pairOK l0 -> In w (flat_map (fun a => [WNum (fst a); WNum (snd a)]) l0) -> wordOK w) as X2.
    { intros l0 H I0. apply in_flat_map in I0 as (y & Iy & [<-|[<-|[]]]); rewrite Forall_forall in H; apply (H y Iy). }
    assert (forall l0 : list num, Forall numOK l0 -> In w (map WNum l0) -> wordOK w) as X1.
    { intros l0 H I0. apply in_map_iff in I0 as (y & <- & Iy). rewrite Forall_forall in H. apply (H y Iy). }
    destruct c as [rl q|rl q|rl q|rl q|rl]; cbn [words cmdOK] in *; (destruct I as [<-|I]; [destruct rl; (split; [reflexivity|split; discriminate])|]); [exact (X2 q (proj2 W) I)|exact (X2 q (proj2 W) I)|exact (X1 q (proj2 W) I)|exact (X1 q (proj2 W) I)|destruct I]. }
  assert (ws <> []) as NE by (intros ->; rewrite E in Ew; discriminate).
  unfold parsePath. pose proof (text_ne ws NE WO) as TN. destruct (text ws) as [|c0 t0] eqn:Et; [congruence|]. rewrite <- Et. clear TN Et c0 t0.
  rewrite pathLoop_feed by (auto; now apply text_len). rewrite Ew.
  destruct (run_all l (ps0 (N := RNum)) pen0 W RS) as (st & F & B).
  { right. right. split; [|eauto]. exists (ps0 (N := RNum)). repeat split; auto. }
  rewrite F. cbn [bind]. unfold pathEnd.
  assert (rev l <> []) as NL by (intros X; apply (f_equal (@rev _)) in X; rewrite rev_involutive in X; subst l; discriminate).
  assert (last l (PClose false) = hd (PClose false) (rev l)) as LH.
  { clear -NL. rewrite <- (rev_involutive l) at 1. destruct (rev l) as [|x y]; [congruence|]. cbn. apply last_last. }
  pose proof (draw_ne l pen0 (Forall_nil _)) as DN. unfold subpaths. set (k := fold_left draw l pen0) in *.
  assert (Forall (fun v => v <> []) (map fst (pSubs k))) as DN2 by (clear -DN; induction DN; cbn; constructor; auto).
  set (f := fun v : list (pt R) => match v with [] => Ok [] | _ => purgeDupes th v end).
  destruct (mapM_purge th f _ ltac:(intros [|? ?] Hv; [congruence|reflexivity]) DN2) as (o & Eo & Fo).
  rewrite LH. destruct (rev l) as [|c rl] eqn:Er; [congruence|]. cbn [hd].
  destruct (isClose c) eqn:Ec.
  - destruct c; try discriminate. destruct B as (R0 & (S1 & S2) & S3 & S4). exists o. split.
    + destruct R0 as (R0 & _). unfold settle in R0. replace (match pVals st with [] => Ok st | _ => storeValues (N := RNum) st end) with (Ok st).
      cbn [bind]. rewrite S1. fold f. rewrite Eo. cbn [bind]. rewrite S2, S3, S4. reflexivity.
    + rewrite penUp_fst, S3. exact Fo.
  - assert (between st k) as (s0 & R0 & (S1 & S2 & S3 & S4) & S5) by (destruct c; try discriminate; exact B).
    destruct (pHere k) as [|p v] eqn:Eh; [congruence|]. exists (o ++ [purgeLoop (N := RNum) th (p :: v)]). split.
    + destruct R0 as (R0 & _). unfold settle in R0. replace (match pVals st with [] => Ok st | _ => storeValues (N := RNum) st end) with (Ok s0).
      cbn [bind]. rewrite S1. fold f. rewrite Eo. cbn [bind]. rewrite S2. cbn [purgeDupes bind].
      replace (Ascii.eqb (cChar (pMode s0)) "Z") with false by (symmetry; now apply Ascii.eqb_neq).
      pose proof (thin_ne _ _ _ (thin_purge th p v)) as TP. destruct (purgeLoop th (p :: v)); [congruence|reflexivity].
    + rewrite penUp_fst, Eh. apply Forall2_app; auto. constructor; auto. apply thin_purge.
Qed.
