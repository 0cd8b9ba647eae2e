(** * Proofs about the import of SVG strings: every string *)

From Coq Require Import String Ascii.
From Coq Require Import Reals ZArith List Bool Arith Lia Lra.
From Verif Require Import Num M_LP M_Poly M_Misc M_Svg S_Geom S_Svg P_Svg P_Svg2.
Import ListNotations.
Local Open Scope R_scope.

Lemma skipSep_split s : exists b, s = (b ++ skipSep s)%string /\ sepOnly b /\ match skipSep s with EmptyString => True | String c _ => c <> " "%char /\ c <> ","%char end.
Proof.
  induction s as [|c s (b & E & B & N)]; [exists EmptyString; repeat split; intros c []|].
  cbn [skipSep]. destruct (Ascii.eqb c " " || Ascii.eqb c ",") eqn:X.
  - exists (String c b). split; [cbn; congruence|]. split; auto. intros d [<-|I]; [|now apply B].
    apply orb_true_iff in X as [X|X]; apply Ascii.eqb_eq in X; auto.
  - exists EmptyString. split; [reflexivity|]. split; [intros d []|]. apply orb_false_iff in X as [X Y]. split; now apply Ascii.eqb_neq.
Qed.
Lemma takeDigits_split s : s = (fst (takeDigits s) ++ snd (takeDigits s))%string /\ allC isDigitC (fst (takeDigits s)).
Proof.
  induction s as [|c s [E A]]; [split; [reflexivity|intros c []]|]. cbn [takeDigits]. destruct (isDigitC c) eqn:D.
  - destruct (takeDigits s) as [x y]. cbn [fst snd] in *. split; [cbn; congruence|]. apply allC_cons. auto.
  - split; [reflexivity|intros d []].
Qed.
(** What an element may be. *)
Lemma nextElem_split s : s <> EmptyString -> exists b, s = (b ++ fst (getNextElem s) ++ snd (getNextElem s))%string /\ sepOnly b /\
  (String.length (snd (getNextElem s)) < String.length s)%nat /\
  ((fst (getNextElem s) = EmptyString /\ snd (getNextElem s) = EmptyString /\ b <> EmptyString) \/
   (exists c, fst (getNextElem s) = String c EmptyString /\ letterOK c) \/
   (fst (getNextElem s) <> EmptyString /\ allC isDigitC (fst (getNextElem s)))).
Proof.
  intros NE. destruct (skipSep_split s) as (b & E & B & N). exists b. unfold getNextElem. destruct (skipSep s) as [|c r] eqn:K.
  - cbn [fst snd append]. rewrite sapp_nil in *. repeat split; auto; [destruct s; [congruence|cbn; lia]|]. left. repeat split; auto. congruence.
  - destruct (isDigitC c) eqn:D; cbn [negb].
    + destruct (takeDigits_split (String c r)) as [T A]. set (x := fst (takeDigits (String c r))) in *. set (y := snd (takeDigits (String c r))) in *.
      assert (x <> EmptyString) as NX. { unfold x. cbn [takeDigits]. rewrite D. destruct (takeDigits r). discriminate. }
      split; [congruence|]. split; auto. split; [rewrite E, T, !slen_app; destruct x; [congruence|cbn; lia]|]. right. right. auto.
    + cbn [fst snd]. split; [exact E|]. split; auto. split; [rewrite E, slen_app; cbn; lia|]. right. left. exists c. repeat split; auto; tauto.
Qed.

(** ** Numbers never leave the model *)
Lemma spanDigits_suffix s : allC isDigitC s -> allC isDigitC (snd (spanDigits s)).
Proof.
  induction s as [|c s IH]; intros A; auto. apply allC_cons in A as [A1 A2]. cbn [spanDigits]. destruct (digitVal c).
  - destruct (spanDigits s). auto.
  - apply allC_cons. auto.
Qed.
Lemma stodU_def neg s : allC isDigitC s -> stodU (N := RNum) neg s <> Undef.
Proof.
  intros A. unfold stodU. pose proof (spanDigits_suffix s A) as A2. destruct (spanDigits s) as [ip r]. cbn [snd] in A2.
  set (q := match r with EmptyString => _ | String c q => _ end). destruct q as [fp r2].
  destruct (ip ++ fp)%list.
  - destruct r as [|c r]; [discriminate|]. apply allC_cons in A2 as [A2 _]. destruct (existsb _ _) eqn:X; [|discriminate].
    apply existsb_exists in X as (d & I & X). apply Ascii.eqb_eq in X. subst d. destruct I as [<-|[<-|[<-|[<-|[]]]]]; discriminate.
  - destruct ip as [|[|?|?] [|? ?]]; try discriminate. destruct fp; [|discriminate]. destruct r as [|c r]; [discriminate|]. apply allC_cons in A2 as [A2 _].
    destruct (existsb (Ascii.eqb c) ["x"; "X"]%char) eqn:X; [|discriminate].
    apply existsb_exists in X as (d & I & X). apply Ascii.eqb_eq in X. subst d. destruct I as [<-|[<-|[]]]; discriminate.
Qed.
Lemma stod_def s : allC isDigitC s -> stod (N := RNum) s <> Undef.
Proof.
  induction s as [|c s IH]; intros A; [discriminate|]. pose proof A as A0. apply allC_cons in A as [A1 A2]. cbn [stod].
  destruct (existsb _ _); auto. destruct (Ascii.eqb c "-"); [now apply stodU_def|]. destruct (Ascii.eqb c "+"); now apply stodU_def.
Qed.

(** ** Commands *)
Definition modeOK (m : pathCmd) : Prop :=
  ((cChar m = "M"%char \/ cChar m = "L"%char) /\ cNb m = 2%nat) \/ ((cChar m = "H"%char \/ cChar m = "V"%char) /\ cNb m = 1%nat) \/ (cChar m = "Z"%char /\ cNb m = 0%nat).
Lemma ascii_all (P : ascii -> bool) : forallb P (map ascii_of_nat (seq 0 256)) = true -> forall c, P c = true.
Proof.
  intros H c. rewrite forallb_forall in H. apply H. rewrite <- (ascii_nat_embedding c). apply in_map, in_seq. pose proof (nat_ascii_bounded c). lia.
Qed.
(** Letters of the commands handled. *)
Definition drawLetter (c : ascii) : bool := existsb (Ascii.eqb c) ["M"; "L"; "H"; "V"; "Z"; "m"; "l"; "h"; "v"; "z"]%char.
Definition modeB (m : pathCmd) : bool :=
  existsb (fun x => Ascii.eqb (cChar m) (fst x) && (cNb m =? snd x)%nat) [("M", 2); ("L", 2); ("H", 1); ("V", 1); ("Z", 0)]%char%nat.
Lemma modeB_ok m : modeB m = true -> modeOK m.
Proof.
  unfold modeB, modeOK. cbn [existsb fst snd]. rewrite !orb_true_iff, !andb_true_iff, !Ascii.eqb_eq, !Nat.eqb_eq. intuition congruence.
Qed.
Lemma getCommand_all c : getCommand c <> Undef /\ forall m, getCommand c = Ok m -> pathAllowed (cChar m) = true ->
  modeOK m /\ drawLetter c = true /\ (cChar m = "Z"%char -> c = "Z"%char \/ c = "z"%char).
Proof.
  pose proof (ascii_all (fun c => match getCommand c with Undef => false | Throw => true
    | Ok m => negb (pathAllowed (cChar m)) || modeB m && drawLetter c && (negb (Ascii.eqb (cChar m) "Z") || Ascii.eqb c "Z" || Ascii.eqb c "z") end)
    ltac:(vm_compute; reflexivity) c) as H. cbn beta in H.
  split; [intros E; rewrite E in H; discriminate|]. intros m E P. rewrite E, P in H. cbn [negb orb] in H.
  apply andb_true_iff in H as [H H2]. apply andb_true_iff in H as [H H1]. split; [now apply modeB_ok|]. split; auto.
  intros Z. rewrite Z in H2. cbn [negb orb] in H2. apply orb_true_iff in H2 as [H2|H2]; apply Ascii.eqb_eq in H2; auto.
Qed.

(** ** Invariant of the loop *)
Definition inv (st : pst) : Prop := modeOK (pMode st) /\ (length (pVals st) <= cNb (pMode st))%nat.
Lemma store_def st : inv st -> pVals st <> [] -> storeValues (N := RNum) st <> Undef /\ forall s1, storeValues (N := RNum) st = Ok s1 -> pMode s1 = pMode st /\ pVals s1 = [].
Proof.
  intros [M L] NE. unfold storeValues. destruct (Nat.eqb_spec (length (pVals st)) (cNb (pMode st))) as [E|E]; cbn [negb]; [|split; discriminate].
  assert (exists p, generateNewPoint (N := RNum) (pMode st) (pPrev st) (pVals st) = Ok p) as (p & G).
  { unfold generateNewPoint. destruct (pVals st) as [|a [|b [|c q]]]; [congruence| | |]; destruct M as [[[M|M] K]|[[[M|M] K]|[M K]]]; rewrite K in E; cbn [length] in E; try lia;
      rewrite M; cbn; eexists; reflexivity. }
  rewrite G. cbn [bind]. split; [discriminate|]. intros s1 H. injection H as <-. auto.
Qed.
Lemma settle_def st : inv st -> settle st <> Undef /\ forall s1, settle st = Ok s1 -> pMode s1 = pMode st /\ pVals s1 = [].
Proof.
  intros I. unfold settle. destruct (pVals st) eqn:E.
  - split; [discriminate|]. intros s1 H. injection H as <-. auto.
  - apply store_def; auto. congruence.
Qed.
Lemma elem_letter c (st : pst) : letterOK c -> inv st -> pathElem (N := RNum) (String c EmptyString) st <> Undef /\
  forall s1, pathElem (N := RNum) (String c EmptyString) st = Ok s1 -> inv s1 /\ drawLetter c = true /\ (cChar (pMode s1) = "Z"%char -> c = "Z"%char \/ c = "z"%char).
Proof.
  intros (D & _) I. unfold pathElem. rewrite D. cbn [negb]. destruct (settle_def st I) as [S1 S2]. unfold settle in *.
  destruct (match pVals st with [] => Ok st | _ => storeValues (N := RNum) st end) as [s0| |]; cbn [bind]; [|split; discriminate|congruence].
  destruct (S2 s0 eq_refl) as [M0 V0]. destruct (getCommand_all c) as [G1 G2]. destruct (getCommand c) as [m| |]; cbn [bind]; [|split; discriminate|congruence].
  destruct (pathAllowed (cChar m)) eqn:P; cbn [negb]; [|split; discriminate]. destruct (G2 m eq_refl P) as (G3 & G4 & G5).
  assert (forall d cur, inv (mkPS m d cur (pVals s0) (pPrev s0))) as I1 by (intros; split; cbn; [exact G3|rewrite V0; cbn; lia]).
  split; [destruct (isNewPolyline m); [destruct (pCur s0)|]; discriminate|]. intros s1 H.
  destruct (isNewPolyline m); [destruct (pCur s0)|]; injection H as <-; auto.
Qed.
Lemma elem_value e (st : pst) : (e = EmptyString \/ allC isDigitC e) -> inv st -> cChar (pMode st) <> "Z"%char -> pathElem (N := RNum) e st <> Undef /\
  forall s1, pathElem (N := RNum) e st = Ok s1 -> inv s1 /\ pMode s1 = pMode st.
Proof.
  intros A I NZ.
  assert (pathElem (N := RNum) e st = (do st1 <- (if (length (pVals st) =? cNb (pMode st))%nat then storeValues (N := RNum) st else Ok st);
    do v <- stod (N := RNum) e; Ok (mkPS (pMode st1) (pDone st1) (pCur st1) (pVals st1 ++ [v]) (pPrev st1)))) as ->.
  { destruct e as [|c [|d r]]; try reflexivity. destruct A as [A|A]; [discriminate|]. apply allC_cons in A as [A _]. unfold pathElem. now rewrite A. }
  assert (stod (N := RNum) e <> Undef) as SD by (destruct A as [->|A]; [discriminate|now apply stod_def]).
  destruct I as [M L].
  assert (1 <= cNb (pMode st))%nat as N1 by (destruct M as [[_ M]|[[_ M]|[M _]]]; [lia|lia|congruence]).
  destruct (Nat.eqb_spec (length (pVals st)) (cNb (pMode st))) as [E|E].
  - destruct (store_def st (conj M L)) as [S1 S2]; [intros X; rewrite X in E; cbn in E; lia|].
    destruct (storeValues st) as [s0| |]; cbn [bind]; [|split; discriminate|congruence]. destruct (S2 s0 eq_refl) as [M0 V0].
    destruct (stod e); cbn [bind]; [|split; discriminate|congruence]. split; [discriminate|]. intros s1 H. injection H as <-.
    unfold inv. cbn [pMode pVals]. rewrite V0, M0. cbn. auto.
  - cbn [bind]. destruct (stod e); cbn [bind]; [|split; discriminate|congruence]. split; [discriminate|]. intros s1 H. injection H as <-.
    unfold inv. cbn [pMode pVals]. rewrite app_length. cbn. split; auto. split; auto. lia.
Qed.

Lemma digitC_num c : isDigitC c = true -> numChar c.
Proof.
  unfold isDigitC, digitVal. intros H. destruct ((48 <=? nat_of_ascii c) && (nat_of_ascii c <=? 57))%nat eqn:E.
  - apply andb_true_iff in E as [E1 E2]. apply Nat.leb_le in E1. apply Nat.leb_le in E2. left. exists (nat_of_ascii c - 48)%nat. split; [lia|].
    unfold digitText. replace (48 + (nat_of_ascii c - 48))%nat with (nat_of_ascii c) by lia. now rewrite ascii_nat_embedding.
  - right. apply orb_true_iff in H as [H|H]; apply Ascii.eqb_eq in H; auto.
Qed.

Theorem loop_def n : forall s a (st : pst), s <> EmptyString -> (String.length s <= n)%nat -> inv st ->
  (cChar (pMode st) = "Z"%char -> exists a' z, a = (a' ++ String z EmptyString)%string /\ (z = "Z"%char \/ z = "z"%char)) ->
  (pathLoop (N := RNum) n s st = Undef -> valueAfterZ (a ++ s)) /\ (forall s1, pathLoop (N := RNum) n s st = Ok s1 -> inv s1).
Proof.
  induction n as [|n IH]; intros s a st NE LE I Z; [destruct s; [congruence|cbn in LE; lia]|].
  cbn [pathLoop]. destruct (nextElem_split s NE) as (b & E & B & LT & C). destruct (getNextElem s) as [e r]. cbn [fst snd] in *.
  assert (forall s1, inv s1 -> (cChar (pMode s1) = "Z"%char -> exists a' z, e = String z EmptyString /\ a' = EmptyString /\ (z = "Z"%char \/ z = "z"%char)) ->
    (match r with EmptyString => Ok s1 | _ => pathLoop (N := RNum) n r s1 end = Undef -> valueAfterZ (a ++ s)) /\
    (forall s2, match r with EmptyString => Ok s1 | _ => pathLoop (N := RNum) n r s1 end = Ok s2 -> inv s2)) as STEP.
  { intros s1 I1 Z1. destruct r as [|c q] eqn:Er; [split; [discriminate|intros s2 H; injection H as <-; auto]|].
    assert (a ++ s = (a ++ b ++ e) ++ String c q)%string as Es by (rewrite E, !sapp_assoc; reflexivity). rewrite Es. apply IH; auto; [discriminate|lia|].
    intros Zc. destruct (Z1 Zc) as (a' & z & -> & -> & Hz). exists (a ++ b)%string, z. split; auto. now rewrite sapp_assoc. }
  destruct (ascii_dec (cChar (pMode st)) "Z"%char) as [Zc|Zc].
  - destruct C as [(E1 & E2 & E3)|[(c & -> & LO)|(E1 & E2)]].
    + split; [|subst e; cbn; unfold storeValues; destruct I as [M L]; intros s1;
        assert (cNb (pMode st) = 0%nat) as K0 by (destruct M as [[[M|M] _]|[[[M|M] _]|[_ M]]]; congruence); rewrite K0 in *; destruct (pVals st); [|cbn in L; lia]; cbn;
        unfold generateNewPoint; rewrite Zc; cbn; discriminate].
      intros _. destruct (Z Zc) as (a' & z & -> & Hz). exists a', z, b, EmptyString. subst e r. split; [rewrite sapp_assoc; cbn; now rewrite E|]. auto.
    + destruct (elem_letter c st LO I) as [L1 L2]. destruct (pathElem (String c "") st) as [s1| |]; cbn [bind]; [|split; discriminate|congruence].
      destruct (L2 s1 eq_refl) as (L3 & _ & L4). apply STEP; auto. intros H. exists EmptyString, c. auto.
    + split.
      * intros _. destruct (Z Zc) as (a' & z & -> & Hz). destruct e as [|x e]; [congruence|]. apply allC_cons in E2 as [E2 _].
        exists a', z, b, (String x e ++ r)%string. split; [rewrite sapp_assoc; cbn; now rewrite E|]. split; auto. split; auto. right. exists x, (e ++ r)%string. split; [reflexivity|now apply digitC_num].
      * intros s1. assert (pathElem (N := RNum) e st = Undef) as ->; [|discriminate].
        destruct I as [M L]. assert (cNb (pMode st) = 0%nat) as K0 by (destruct M as [[[M|M] _]|[[[M|M] _]|[_ M]]]; congruence).
        rewrite K0 in *. destruct (pVals st) eqn:V; [|cbn in L; lia].
        unfold pathElem. replace (length (pVals st) =? cNb (pMode st))%nat with true by (rewrite V, K0; reflexivity).
        unfold storeValues, generateNewPoint. rewrite V, K0, Zc. cbn. destruct e as [|x [|y e]]; try reflexivity. apply allC_cons in E2 as [E2 _]. now rewrite E2.
  - assert ((exists c, e = String c EmptyString /\ letterOK c) \/ (e = EmptyString \/ allC isDigitC e)) as C2 by (destruct C as [(? & _)|[?|(_ & ?)]]; auto).
    destruct C2 as [(c & -> & LO)|C2].
    + destruct (elem_letter c st LO I) as [L1 L2]. destruct (pathElem (String c "") st) as [s1| |]; cbn [bind]; [|split; discriminate|congruence].
      destruct (L2 s1 eq_refl) as (L3 & _ & L4). apply STEP; auto. intros H. exists EmptyString, c. auto.
    + destruct (elem_value e st C2 I Zc) as [L1 L2]. destruct (pathElem e st) as [s1| |]; cbn [bind]; [|split; discriminate|congruence].
      destruct (L2 s1 eq_refl) as (L3 & L4). apply STEP; auto. intros H. congruence.
Qed.
Lemma mapM_def {A B} (f : A -> res B) l : (forall x, f x <> Undef) -> mapM f l <> Undef.
Proof.
  intros H. induction l as [|x l IH]; [discriminate|]. cbn [mapM]. specialize (H x). destruct (f x); cbn [bind]; [|discriminate|congruence].
  destruct (mapM f l); cbn [bind]; congruence.
Qed.
Theorem path_def th s : parsePath (N := RNum) th s = Undef -> valueAfterZ s.
Proof.
  intros H. unfold parsePath in H. destruct s as [|c s]; [discriminate|].
  destruct (loop_def (String.length (String c s)) (String c s) EmptyString (ps0 (N := RNum))) as [L1 L2]; [discriminate|lia|split; cbn; [left; auto|lia]|discriminate|].
  destruct (pathLoop (String.length (String c s)) (String c s) ps0) as [st| |]; [|discriminate|exact (L1 eq_refl)]. cbn [bind] in H.
  exfalso. unfold pathEnd in H. destruct (settle_def st (L2 st eq_refl)) as [S _]. unfold settle in S.
  destruct (match pVals st with [] => Ok st | _ => storeValues (N := RNum) st end) as [s0| |]; [|discriminate|congruence]. cbn [bind] in H.
  set (f := fun v : list (pt R) => match v with [] => Ok [] | _ => purgeDupes th v end) in H.
  assert (forall v, f v <> Undef) as FD by (intros [|? ?]; discriminate).
  pose proof (mapM_def f (pDone s0) FD) as M. destruct (mapM f (pDone s0)); [|discriminate|congruence]. cbn [bind] in H.
  pose proof (FD (pCur s0)) as FC. unfold f in FC. destruct (match pCur s0 with [] => Ok [] | _ => purgeDupes th (pCur s0) end); [discriminate|discriminate|congruence].
Qed.

(** ** Characters of the strings accepted *)
Definition charOK (c : ascii) : bool := isDigitC c || drawLetter c || Ascii.eqb c " " || Ascii.eqb c ",".
Lemma loop_chars n : forall s (st : pst), s <> EmptyString -> inv st -> forall s1, pathLoop (N := RNum) n s st = Ok s1 -> allC charOK s.
Proof.
  induction n as [|n IH]; intros s st NE I s1 H; [discriminate|].
  cbn [pathLoop] in H. destruct (nextElem_split s NE) as (b & E & B & LT & C). destruct (getNextElem s) as [e r]. cbn [fst snd] in *.
  assert (allC charOK b) as CB. { intros c Ic. destruct (B c Ic) as [-> | ->]; reflexivity. }
  assert (allC isDigitC e -> allC charOK e) as CD. { intros A c Ic. unfold charOK. rewrite (A c Ic). reflexivity. }
  destruct (pathElem e st) as [s0| |] eqn:PE; cbn [bind] in H; try discriminate.
  assert (allC charOK e /\ inv s0) as [CE I0].
  { destruct C as [(-> & _)|[(c & -> & LO)|(_ & A)]].
    - destruct (ascii_dec (cChar (pMode st)) "Z"%char) as [Zc|Zc].
      + exfalso. destruct I as [M L]. assert (cNb (pMode st) = 0%nat) as K0 by (destruct M as [[[M|M] _]|[[[M|M] _]|[_ M]]]; congruence).
        revert PE. cbn. unfold storeValues. rewrite K0 in *. destruct (pVals st); [|cbn in L; lia]. cbn. unfold generateNewPoint. rewrite Zc. cbn. discriminate.
      + split; [intros c []|]. apply (elem_value EmptyString st (or_introl eq_refl) I Zc). exact PE.
    - destruct (elem_letter c st LO I) as [_ L2]. destruct (L2 s0 PE) as (L3 & L4 & _). split; auto. apply allC_cons. split; [|intros d []].
      unfold charOK. rewrite L4, orb_true_r. reflexivity.
    - split; auto. destruct (ascii_dec (cChar (pMode st)) "Z"%char) as [Zc|Zc].
      + exfalso. destruct I as [M L]. assert (cNb (pMode st) = 0%nat) as K0 by (destruct M as [[[M|M] _]|[[[M|M] _]|[_ M]]]; congruence).
        assert (pathElem (N := RNum) e st = Undef) as X; [|congruence]. rewrite K0 in *. destruct (pVals st) eqn:V; [|cbn in L; lia].
        unfold pathElem. replace (length (pVals st) =? cNb (pMode st))%nat with true by (rewrite V, K0; reflexivity).
        unfold storeValues, generateNewPoint. rewrite V, K0, Zc. cbn. destruct e as [|x [|y e]]; try reflexivity. apply allC_cons in A as [A _]. now rewrite A.
      + apply (elem_value e st (or_intror A) I Zc). exact PE. }
  rewrite E. apply allC_app. split; auto. apply allC_app. split; auto.
  destruct r as [|c r]; [intros d []|]. apply (IH (String c r) s0 (fun X => ltac:(discriminate X)) I0 s1 H).
Qed.
Theorem path_chars th s v : parsePath (N := RNum) th s = Ok v -> s <> EmptyString /\ allC charOK s.
Proof.
  intros H. unfold parsePath in H. destruct s as [|c s]; [discriminate|]. split; [discriminate|].
  destruct (pathLoop (String.length (String c s)) (String c s) ps0) as [st| |] eqn:E; try discriminate.
  eapply (loop_chars _ (String c s) _ (fun X => ltac:(discriminate X))); [|exact E]. split; cbn; [left; auto|lia].
Qed.

(** ** Lists of points *)
Lemma tokGo_app d cur a r : ~ In d (list_ascii_of_string a) -> tokGo d cur (a ++ String d r) = (cur ++ a)%string :: tokGo d EmptyString r.
Proof.
  revert cur. induction a as [|c a IH]; intros cur N.
  - cbn [append tokGo]. rewrite Ascii.eqb_refl, sapp_nil. reflexivity.
  - cbn [append tokGo]. destruct (Ascii.eqb_spec c d) as [->|NE]; [exfalso; apply N; now left|]. rewrite IH by (intros H; apply N; now right).
    rewrite sapp_assoc. reflexivity.
Qed.
Lemma tokGo_last d cur a : ~ In d (list_ascii_of_string a) -> (cur ++ a <> "")%string -> tokGo d cur a = [(cur ++ a)%string].
Proof.
  revert cur. induction a as [|c a IH]; intros cur N NE.
  - cbn [tokGo]. rewrite sapp_nil in *. destruct cur; [congruence|reflexivity].
  - cbn [tokGo]. destruct (Ascii.eqb_spec c d) as [->|ND]; [exfalso; apply N; now left|]. rewrite IH; [|intros H; apply N; now right|rewrite sapp_assoc; destruct cur; discriminate].
    rewrite sapp_assoc. reflexivity.
Qed.
Lemma num_no n c : numOK n -> isDigitC c = false -> ~ In c (list_ascii_of_string (numText n)).
Proof. intros H D I. rewrite (numText_all n H c I) in D. discriminate. Qed.
Lemma parsePoint_ok a : pairOK a -> parsePoint (N := RNum) (numText (fst a) ++ "," ++ numText (snd a)) = Ok (ptOf a).
Proof.
  intros [A B]. unfold parsePoint, tokenize. cbn [append]. rewrite tokGo_app by (now apply num_no). rewrite tokGo_last; [|now apply num_no|cbn [append]; now apply numText_ne].
  cbn [append]. rewrite !stod_num by auto. reflexivity.
Qed.
Theorem points_ok l : Forall pairOK l -> parsePoints (N := RNum) (pointsText l) = Ok (map ptOf l).
Proof.
  intros W. unfold parsePoints, tokenize. induction W as [|a l Ha W IH]; [reflexivity|].
  assert (~ In " "%char (list_ascii_of_string (numText (fst a) ++ "," ++ numText (snd a)))) as NS.
  { intros I. rewrite las_app in I. apply in_app_or in I as [I|I]; [revert I; apply num_no; [apply Ha|reflexivity]|]. cbn in I. destruct I as [I|I]; [discriminate|]. revert I; apply num_no; [apply Ha|reflexivity]. }
  destruct l as [|b l].
  - cbn [pointsText]. rewrite tokGo_last; [|auto|destruct (numText (fst a)); discriminate]. cbn [append mapM map]. rewrite parsePoint_ok by auto. reflexivity.
  - change (pointsText (a :: b :: l)) with (numText (fst a) ++ "," ++ numText (snd a) ++ " " ++ pointsText (b :: l))%string.
    replace (numText (fst a) ++ "," ++ numText (snd a) ++ " " ++ pointsText (b :: l))%string with
      ((numText (fst a) ++ "," ++ numText (snd a)) ++ String " " (pointsText (b :: l)))%string by (rewrite !sapp_assoc; reflexivity).
    rewrite tokGo_app by auto. cbn [append]. change (mapM ?f (?x :: ?y)) with (do u <- f x; do v <- mapM f y; Ok (u :: v)).
    change ((numText (fst a) ++ String "," (numText (snd a)))%string) with (numText (fst a) ++ "," ++ numText (snd a))%string. rewrite parsePoint_ok by auto. cbn [bind].
    rewrite IH. reflexivity.
Qed.
