(** * Proofs about the import of SVG strings: numbers and words *)

From Coq Require Import String Ascii.
From Coq Require Import Reals ZArith List Bool Arith Lia Lra.
From Verif Require Import Num M_LP M_Poly M_Misc M_Svg S_Geom P_LP2 S_Svg.
Import ListNotations.
Local Open Scope R_scope.

Lemma sapp_assoc (a b c : string) : ((a ++ b) ++ c = a ++ b ++ c)%string.
Proof. induction a; cbn; congruence. Qed.
Lemma sapp_nil (a : string) : (a ++ "" = a)%string.
Proof. induction a; cbn; congruence. Qed.
Lemma sapp_cons (c : ascii) (a b : string) : (String c a ++ b = String c (a ++ b))%string.
Proof. reflexivity. Qed.
Lemma slen_app (a b : string) : (String.length (a ++ b) = String.length a + String.length b)%nat.
Proof. induction a; cbn; congruence. Qed.

(** ** Digits *)
Lemma digitVal_text d : (d < 10)%nat -> digitVal (digitText d) = Some (Z.of_nat d).
Proof. intros H. do 10 (destruct d as [|d]; [reflexivity|]). lia. Qed.
Lemma digitC_text d : (d < 10)%nat -> isDigitC (digitText d) = true.
Proof. intros H. unfold isDigitC. now rewrite digitVal_text. Qed.
(** Characters of a string. *)
Definition allC (f : ascii -> bool) (s : string) : Prop := forall c, In c (list_ascii_of_string s) -> f c = true.
Lemma allC_cons f c s : allC f (String c s) <-> f c = true /\ allC f s.
Proof. unfold allC. cbn. split; [intros H; split; auto|intros [A B] d [<-|H]; auto]. Qed.
Lemma las_app a b : list_ascii_of_string (a ++ b) = (list_ascii_of_string a ++ list_ascii_of_string b)%list.
Proof. induction a; cbn; congruence. Qed.
Lemma allC_app f a b : allC f (a ++ b) <-> allC f a /\ allC f b.
Proof. unfold allC. rewrite las_app. split; [intros H; split; intros c I; apply H, in_or_app; auto|intros [A B] c I; apply in_app_or in I as [I|I]; auto]. Qed.
Lemma digitsText_all l : digitsOK l -> allC isDigitC (digitsText l).
Proof. intros H. induction H; [intros c []|]. cbn [digitsText]. apply allC_cons. split; auto. now apply digitC_text. Qed.
Lemma numText_all n : numOK n -> allC isDigitC (numText n).
Proof.
  intros [A B]. unfold numText. apply allC_app. split; [destruct (nneg n); [intros c [<-|[]]; reflexivity|intros c []]|].
  apply allC_app. split; [now apply digitsText_all|]. destruct (nfrac n) as [f|]; [|intros c []].
  cbn [append]. apply allC_cons. split; [reflexivity|]. apply digitsText_all, B.
Qed.
Lemma numText_ne n : numOK n -> numText n <> EmptyString.
Proof.
  intros [A B]. unfold numText. destruct (nneg n); [discriminate|]. cbn [append]. destruct (nint n); [|discriminate]. cbn [digitsText append].
  destruct (nfrac n); [discriminate|congruence].
Qed.

(** What stops a run of digits. *)
Definition stops (f : ascii -> bool) (s : string) : Prop := match s with EmptyString => True | String c _ => f c = false end.
Lemma takeDigits_all s r : allC isDigitC s -> stops isDigitC r -> takeDigits (s ++ r) = (s, r).
Proof.
  intros A S. induction s as [|c s IH].
  - cbn [append]. destruct r as [|c r]; [reflexivity|]. cbn [takeDigits stops] in *. now rewrite S.
  - apply allC_cons in A as [A1 A2]. cbn [append takeDigits]. rewrite A1, (IH A2). reflexivity.
Qed.
Lemma spanDigits_text l r : digitsOK l -> match r with EmptyString => True | String c _ => digitVal c = None end ->
  spanDigits (digitsText l ++ r) = (map Z.of_nat l, r).
Proof.
  intros A S. induction A as [|d l Hd A IH].
  - cbn [digitsText append map]. destruct r as [|c r]; [reflexivity|]. cbn [spanDigits]. now rewrite S.
  - cbn [digitsText append spanDigits map]. rewrite (digitVal_text _ Hd), IH. reflexivity.
Qed.
Lemma digitsZ_app a b : digitsZ (a ++ b) = (digitsZ a * 10 ^ Z.of_nat (length b) + digitsZ b)%Z.
Proof.
  unfold digitsZ. rewrite fold_left_app. generalize (fold_left (fun a d => 10 * a + d)%Z a 0%Z). intros z.
  induction b as [|d b IH] using rev_ind; [cbn; lia|]. rewrite !fold_left_app, app_length. cbn [fold_left length].
  rewrite IH, Nat.add_1_r, Nat2Z.inj_succ, Z.pow_succ_r by lia. lia.
Qed.
Lemma digitsZ_cons d l : digitsZ (d :: l) = (d * 10 ^ Z.of_nat (length l) + digitsZ l)%Z.
Proof. change (d :: l) with ([d] ++ l)%list. rewrite digitsZ_app. f_equal. Qed.
Lemma pow10 n : IZR (10 ^ Z.of_nat n) = 10 ^ n.
Proof. rewrite <- pow_IZR. reflexivity. Qed.
Lemma intVal_Z l : IZR (digitsZ (map Z.of_nat l)) = intVal l.
Proof.
  unfold digitsZ, intVal. rewrite <- (fold_left_rev_right _ l 0), <- (fold_left_rev_right _ (map Z.of_nat l) 0%Z), <- map_rev.
  induction (rev l) as [|d r IH]; [reflexivity|]. cbn [map fold_right]. rewrite plus_IZR, mult_IZR, IH, <- INR_IZR_INZ. reflexivity.
Qed.
Lemma fracVal_Z l : IZR (digitsZ (map Z.of_nat l)) / 10 ^ length l = fracVal l.
Proof.
  induction l as [|d l IH]; [cbn; lra|]. cbn [map fracVal length]. rewrite digitsZ_cons, map_length, plus_IZR, mult_IZR, pow10, <- INR_IZR_INZ, <- IH.
  assert (10 ^ length l <> 0) by (apply pow_nonzero; lra). cbn [pow]. field. auto.
Qed.
Lemma scale10_neg m n : scale10 (N := RNum) m (0 - Z.of_nat n) = IZR m / 10 ^ n.
Proof.
  unfold scale10. destruct n as [|n].
  - cbn - [IZR]. rewrite Z.mul_1_r. cbn [pow]. change (nZ m) with (IZR m). field.
  - replace (0 <=? 0 - Z.of_nat (S n))%Z with false by (symmetry; apply Z.leb_gt; lia).
    replace (- (0 - Z.of_nat (S n)))%Z with (Z.of_nat (S n)) by lia. change (ndiv (nZ m) (nZ (10 ^ Z.of_nat (S n)))) with (IZR m / IZR (10 ^ Z.of_nat (S n))).
    now rewrite pow10.
Qed.
Lemma stodU_ok neg i f : digitsOK i -> match f with None => i <> [] | Some f => digitsOK f /\ (i <> [] \/ f <> []) end ->
  stodU (N := RNum) neg (digitsText i ++ match f with None => "" | Some f => "." ++ digitsText f end) =
  Ok ((if neg then -1 else 1) * (intVal i + match f with None => 0 | Some f => fracVal f end)).
Proof.
  intros Hi Hf. unfold stodU. rewrite spanDigits_text; [|auto|destruct f; [reflexivity|exact I]].
  assert (forall m, scale10 (N := RNum) m 0 = IZR m) as S0.
  { intros m. unfold scale10. cbn - [IZR]. now rewrite Z.mul_1_r. }
  assert (forall z : Z, IZR (if neg then - z else z)%Z = (if neg then -1 else 1) * IZR z) as SG.
  { intros z. destruct neg; [rewrite opp_IZR|]; lra. }
  destruct f as [f|].
  - destruct Hf as [Hf NE]. cbn [append]. replace (Ascii.eqb "." ".")%char with true by reflexivity.
    replace (spanDigits (digitsText f)) with (map Z.of_nat f, EmptyString) by (rewrite <- (sapp_nil (digitsText f)); symmetry; now apply spanDigits_text).
    assert (map Z.of_nat i ++ map Z.of_nat f <> [])%list as NE2 by (destruct i; [destruct f; [tauto|discriminate]|discriminate]).
    assert (Ok (scale10 (N := RNum) (if neg then - digitsZ (map Z.of_nat i ++ map Z.of_nat f) else digitsZ (map Z.of_nat i ++ map Z.of_nat f))%Z
      (0 - Z.of_nat (length (map Z.of_nat f)))) = Ok ((if neg then -1 else 1) * (intVal i + fracVal f))) as G.
    { f_equal. rewrite scale10_neg, SG, digitsZ_app, plus_IZR, mult_IZR, pow10, map_length, intVal_Z, <- (fracVal_Z f).
      assert (10 ^ length f <> 0) by (apply pow_nonzero; lra). field. auto. }
    destruct (map Z.of_nat i ++ map Z.of_nat f)%list eqn:E; [congruence|]. rewrite <- E in *. clear E. clear NE2.
    destruct (map Z.of_nat i) as [|[|?|?] [|? ?]]; try exact G. destruct (map Z.of_nat f); exact G.
  - cbn [append]. cbn [length Z.of_nat]. rewrite app_nil_r.
    assert (Ok (scale10 (N := RNum) (if neg then - digitsZ (map Z.of_nat i) else digitsZ (map Z.of_nat i))%Z 0) = Ok ((if neg then -1 else 1) * (intVal i + 0))) as G.
    { f_equal. rewrite S0, SG, intVal_Z. lra. }
    destruct i as [|d i]; [congruence|]. cbn [map] in *.
    destruct (Z.of_nat d); try exact G. destruct (map Z.of_nat i); exact G.
Qed.
Theorem stod_num n : numOK n -> stod (N := RNum) (numText n) = Ok (numVal n).
Proof.
  intros [A B]. unfold numText, numVal. pose proof (stodU_ok (nneg n) (nint n) (nfrac n) A B) as G. destruct (nneg n).
  - exact G.
  - cbn [append]. rewrite <- G. clear G. destruct (nint n) as [|d i].
    + cbn [digitsText append]. destruct (nfrac n); [reflexivity|congruence].
    + inversion A as [|? ? Hd]; subst. cbn [digitsText append stod].
      do 10 (destruct d as [|d]; [reflexivity|]). lia.
Qed.

(** ** Words *)
Lemma skipSep_text s r : match r with EmptyString => True | String c _ => Ascii.eqb c " " || Ascii.eqb c "," = false end%char ->
  skipSep (sepText s ++ r) = r.
Proof.
  intros H. induction s as [|[] s IH]; [|exact IH|exact IH]. cbn [sepText fold_right append].
  destruct r as [|c r]; [reflexivity|]. cbn [skipSep]. now rewrite H.
Qed.
Lemma digit_notsep c : isDigitC c = true -> Ascii.eqb c " " || Ascii.eqb c "," = false%char.
Proof.
  intros H. destruct (Ascii.eqb_spec c " "%char) as [->|_]; [discriminate|]. destruct (Ascii.eqb_spec c ","%char) as [->|_]; [discriminate|reflexivity].
Qed.
(** A command letter is neither a separator nor part of a number. *)
Definition letterOK (c : ascii) : Prop := isDigitC c = false /\ c <> " "%char /\ c <> ","%char.
Definition wordOK (w : word) : Prop := match w with WCmd c => letterOK c | WNum n => numOK n end.
Lemma nextElem s w r : wordOK w -> (match w with WCmd _ => True | WNum _ => stops isDigitC r end) ->
  getNextElem (sepText s ++ wordText w ++ r) = (wordText w, r).
Proof.
  intros W S. unfold getNextElem. destruct w as [c|n]; cbn [wordText wordOK] in *.
  - destruct W as (W1 & W2 & W3). rewrite skipSep_text.
    + cbn [append]. now rewrite W1.
    + cbn [append]. destruct (Ascii.eqb_spec c " "%char); [congruence|]. destruct (Ascii.eqb_spec c ","%char); [congruence|reflexivity].
  - pose proof (numText_all n W) as A. pose proof (numText_ne n W) as NE. pose proof (takeDigits_all (numText n) r A S) as TD.
    destruct (numText n) as [|c q] eqn:E; [congruence|]. apply allC_cons in A as [A1 A2]. rewrite skipSep_text.
    + cbn [append] in *. rewrite A1. exact TD.
    + cbn [append]. now apply digit_notsep.
Qed.
Lemma word_ne w : wordOK w -> wordText w <> EmptyString.
Proof. destruct w; [discriminate|apply numText_ne]. Qed.
Lemma sep_stops s r : s <> [] -> stops isDigitC (sepText s ++ r).
Proof. destruct s as [|[] s]; [congruence| |]; reflexivity. Qed.
Lemma text_ne l : l <> [] -> Forall wordOK (map snd l) -> text l <> EmptyString.
Proof.
  destruct l as [|[s w] l]; [congruence|]. intros _ H. inversion H; subst. cbn [text]. destruct s as [|[] s]; [|discriminate|discriminate].
  cbn [sepText fold_right append]. pose proof (word_ne w H2) as E. cbn [snd] in E. destruct (wordText w); [congruence|discriminate].
Qed.

Section Feed.
  Notation pstate := (pstate (T := R)).
  Notation pathElem := (pathElem (N := RNum)).
  Notation pathLoop := (pathLoop (N := RNum)).
  Fixpoint feed (l : list word) (st : pstate) : res pstate :=
    match l with [] => Ok st | w :: r => do st1 <- pathElem (wordText w) st; feed r st1 end.
  Lemma feed_app a b st : feed (a ++ b) st = (do s <- feed a st; feed b s).
  Proof. revert st. induction a as [|w a IH]; intros st; [reflexivity|]. cbn [app feed]. destruct (pathElem _ st); cbn [bind]; auto. Qed.
  Lemma pathLoop_feed l : forall n st, l <> [] -> Forall wordOK (map snd l) -> spaced l -> (length l <= n)%nat ->
    pathLoop n (text l) st = feed (map snd l) st.
  Proof.
    induction l as [|[s w] l IH]; intros n st NE W SP LE; [congruence|]. destruct n as [|n]; [cbn in LE; lia|].
    inversion W as [|? ? W1 W2]; subst. cbn [snd] in W1. cbn [text map snd feed M_Svg.pathLoop].
    rewrite nextElem; [|auto|].
    - destruct (pathElem (wordText w) st); cbn [bind]; auto. destruct l as [|x l]; [reflexivity|].
      pose proof (text_ne (x :: l) ltac:(discriminate) W2) as TN. rewrite <- IH with (n := n); auto; [|discriminate| |cbn in *; lia].
      + destruct (text (x :: l)); [congruence|reflexivity].
      + destruct w, x as [? []]; cbn [spaced] in SP; tauto.
    - destruct w as [|m]; [exact I|]. destruct l as [|[s2 [c|k]] l]; [exact I| |].
      + inversion W2 as [|? ? W3 W4]; subst. cbn [snd wordOK] in W3. cbn [text wordText]. destruct s2 as [|[] ?]; try reflexivity. cbn. apply W3.
      + cbn [text]. apply sep_stops. now destruct SP.
  Qed.
  Lemma text_len l : Forall wordOK (map snd l) -> (length l <= String.length (text l))%nat.
  Proof.
    induction l as [|[s w] l IH]; intros H; [cbn; lia|]. inversion H as [|? ? A B]; subst. cbn [text length snd] in *. specialize (IH B).
    pose proof (word_ne w A) as NE. rewrite !slen_app. destruct (wordText w); [congruence|]. cbn [String.length]. lia.
  Qed.
End Feed.
