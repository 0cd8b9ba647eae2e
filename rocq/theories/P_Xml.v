(** * Proofs: the XML reader on pieces of text *)

From Coq Require Import String Ascii List Bool Arith Lia.
From Verif Require Import S_Xml.
Import ListNotations.
Local Open Scope string_scope.

Lemma app_as (a b c : string) : (a ++ b) ++ c = a ++ (b ++ c).
Proof. induction a as [|x a IH]; [reflexivity|]. cbn. now rewrite IH. Qed.
Lemma app_em (a : string) : a ++ "" = a.
Proof. induction a as [|x a IH]; [reflexivity|]. cbn. now rewrite IH. Qed.
Lemma snoc_app a c s : snoc a c ++ s = a ++ String c s.
Proof. unfold snoc. rewrite app_as. reflexivity. Qed.
Lemma allS_app f a b : allS f (a ++ b) = allS f a && allS f b.
Proof. induction a as [|x a IH]; [reflexivity|]. cbn. rewrite IH. apply andb_assoc. Qed.
Lemma allS_imp f g s : (forall c, f c = true -> g c = true) -> allS f s = true -> allS g s = true.
Proof. intros H. induction s as [|c s IH]; [reflexivity|]. cbn. intros A. apply andb_prop in A as [A B]. rewrite (H _ A), (IH B). reflexivity. Qed.
Lemma xrun_app s : forall st t, xrun st (s ++ t) = match xrun st s with Some u => xrun u t | None => None end.
Proof. induction s as [|c s IH]; intros st t; [reflexivity|]. cbn [append xrun]. destruct (xstep st c); [apply IH|reflexivity]. Qed.

Lemma run_tag s : forall acc stk k, acc <> "" -> allS isName s = true -> xrun (mkX (MTag acc) stk k) s = Some (mkX (MTag (acc ++ s)) stk k).
Proof.
  induction s as [|c s IH]; intros acc stk k NE A; [rewrite app_em; reflexivity|]. cbn [allS] in A. apply andb_prop in A as [A B].
  cbn [xrun]. unfold xstep. cbn [xm xstk xkids]. destruct acc as [|a acc]; [congruence|]. rewrite A. rewrite IH; auto; [rewrite snoc_app; reflexivity|discriminate].
Qed.
Lemma run_close s : forall acc stk k, allS isName s = true -> xrun (mkX (MClose acc) stk k) s = Some (mkX (MClose (acc ++ s)) stk k).
Proof.
  induction s as [|c s IH]; intros acc stk k A; [rewrite app_em; reflexivity|]. cbn [allS] in A. apply andb_prop in A as [A B].
  cbn [xrun]. unfold xstep. cbn [xm xstk xkids]. rewrite A. rewrite IH; auto. now rewrite snoc_app.
Qed.
Lemma run_attr n l s : forall acc stk k, allS isName s = true -> xrun (mkX (MAttr n l acc) stk k) s = Some (mkX (MAttr n l (acc ++ s)) stk k).
Proof.
  induction s as [|c s IH]; intros acc stk k A; [rewrite app_em; reflexivity|]. cbn [allS] in A. apply andb_prop in A as [A B].
  cbn [xrun]. unfold xstep. cbn [xm xstk xkids]. rewrite A. rewrite IH; auto. now rewrite snoc_app.
Qed.
Lemma run_val n l a s : forall acc stk k, valueOK s = true -> xrun (mkX (MVal n l a """" acc) stk k) s = Some (mkX (MVal n l a """" (acc ++ s)) stk k).
Proof.
  induction s as [|c s IH]; intros acc stk k A; [rewrite app_em; reflexivity|]. unfold valueOK in A. cbn [allS] in A. apply andb_prop in A as [A B]. apply andb_prop in A as [A1 A2].
  cbn [xrun]. unfold xstep. cbn [xm xstk xkids]. apply negb_true_iff in A1, A2. rewrite A1, A2. rewrite IH; auto. now rewrite snoc_app.
Qed.
Lemma markup_lt c : isMarkup c = false -> Ascii.eqb c "<" = false.
Proof. unfold isMarkup. cbn [existsb]. intros H. apply orb_false_iff in H. tauto. Qed.
Lemma run_text s : forall acc stk k, textOK s = true -> xrun (mkX (MText acc) stk k) s = Some (mkX (MText (acc ++ s)) stk k).
Proof.
  induction s as [|c s IH]; intros acc stk k A; [rewrite app_em; reflexivity|]. unfold textOK in A. cbn [allS] in A. apply andb_prop in A as [A B]. apply negb_true_iff in A.
  cbn [xrun]. unfold xstep. cbn [xm xstk xkids]. rewrite A, (markup_lt _ A). rewrite IH; auto. now rewrite snoc_app.
Qed.
Lemma name0_space c : isName0 c = true -> isSpace c = false.
Proof. destruct c as [[] [] [] [] [] [] [] []]; vm_compute; congruence. Qed.
Lemma name0_slash c : isName0 c = true -> Ascii.eqb c "/" = false.
Proof. destruct c as [[] [] [] [] [] [] [] []]; vm_compute; congruence. Qed.
Lemma not_in_existsb a (l : list (string * string)) : ~ In a (map fst l) -> existsb (String.eqb a) (map fst l) = false.
Proof.
  intros H. apply not_true_is_false. intros E. apply existsb_exists in E as (x & I & Q). apply String.eqb_eq in Q. now subst x.
Qed.
(** One attribute. *)
Definition attrCore (a v : string) : string := a ++ "=""" ++ v ++ """".
Lemma attr_run n l a v stk k : nameOK a = true -> valueOK v = true -> ~ In a (map fst l) ->
  xrun (mkX (MIn n l) stk k) (attrCore a v) = Some (mkX (MAft n (l ++ [(a, v)])) stk k).
Proof.
  intros A V NI. unfold attrCore. destruct a as [|c a]; [discriminate|]. cbn [nameOK] in A. apply andb_prop in A as [A1 A2].
  cbn [append xrun]. unfold xstep at 1. cbn [xm xstk xkids]. rewrite (name0_space _ A1), A1. rewrite xrun_app, run_attr by auto. rewrite snoc_app. cbn [append].
  cbn [xrun]. unfold xstep at 1. cbn [xm xstk xkids]. replace (isName "=") with false by reflexivity. cbn iota. replace (Ascii.eqb "=" "=") with true by reflexivity. cbn iota.
  rewrite not_in_existsb by auto. unfold xstep at 1. cbn [xm xstk xkids]. replace (Ascii.eqb """" """") with true by reflexivity. cbn [orb].
  rewrite xrun_app, run_val by auto. cbn [append xrun]. unfold xstep. cbn [xm xstk xkids]. replace (Ascii.eqb """" """") with true by reflexivity. reflexivity.
Qed.
(** Attributes, each followed by a space. *)
Fixpoint attrsText (l : list (string * string)) : string :=
  match l with [] => "" | (a, v) :: r => attrCore a v ++ " " ++ attrsText r end.
Lemma attrsText_app a b : attrsText (a ++ b) = attrsText a ++ attrsText b.
Proof. induction a as [|[x y] a IH]; [reflexivity|]. cbn [app attrsText]. now rewrite IH, !app_as. Qed.
Lemma attrs_run n l : forall l0 stk k, attrsOK (l0 ++ l) -> xrun (mkX (MIn n l0) stk k) (attrsText l) = Some (mkX (MIn n (l0 ++ l)) stk k).
Proof.
  induction l as [|[a v] l IH]; intros l0 stk k [D F]; [rewrite app_nil_r; reflexivity|]. cbn [attrsText].
  assert (E : (l0 ++ (a, v) :: l = (l0 ++ [(a, v)]) ++ l)%list) by now rewrite <- app_assoc.
  rewrite xrun_app, attr_run; [| | |].
  - cbn [append xrun]. unfold xstep at 1. cbn [xm xstk xkids]. replace (isSpace " ") with true by reflexivity. cbn iota. rewrite IH; [now rewrite E|]. rewrite <- E. split; auto.
  - rewrite Forall_forall in F. apply (F (a, v)). apply in_or_app. right. now left.
  - rewrite Forall_forall in F. apply (F (a, v)). apply in_or_app. right. now left.
  - rewrite map_app in D. cbn [map fst] in D. apply NoDup_remove_2 in D. intros I. apply D. apply in_or_app. now left.
Qed.
Lemma attrsOK_split a b : attrsOK (a ++ b) -> attrsOK a.
Proof. intros [D F]. apply Forall_app in F as [F _]. rewrite map_app in D. split; auto. clear F. induction (map fst a) as [|x m IH]; [constructor|]. cbn [app] in D. inversion D; subst. constructor; [intros I; apply H1, in_or_app; now left|auto]. Qed.

(** ** Fragments: texts that stand for a list of nodes *)
Definition frag (s : string) (f : list xnode) : Prop := forall w stk k, blank w = true ->
  exists w', blank w' = true /\ xrun (mkX (MText w) stk k) s = Some (mkX (MText w') stk (rev f ++ k)).
Definition eol : string := String "010" "".
Lemma frag_nil : frag "" [].
Proof. intros w stk k B. exists w. auto. Qed.
Lemma frag_app s t f g : frag s f -> frag t g -> frag (s ++ t) (f ++ g).
Proof.
  intros S T w stk k B. destruct (S w stk k B) as (w1 & B1 & E1). destruct (T w1 stk (rev f ++ k)%list B1) as (w2 & B2 & E2). exists w2. split; auto.
  rewrite xrun_app, E1, E2. now rewrite rev_app_distr, app_assoc.
Qed.
Lemma run_blank w s stk k : blank s = true -> xrun (mkX (MText w) stk k) s = Some (mkX (MText (w ++ s)) stk k).
Proof. intros B. apply run_text. revert B. apply allS_imp. intros c. destruct c as [[] [] [] [] [] [] [] []]; vm_compute; congruence. Qed.
Lemma frag_blank s : blank s = true -> frag s [].
Proof. intros B w stk k W. exists (w ++ s). split; [|now apply run_blank]. unfold blank in *. rewrite allS_app, W, B. reflexivity. Qed.
(** Start of a tag. *)
Lemma run_lt w stk k : blank w = true -> xrun (mkX (MText w) stk k) "<" = Some (mkX (MTag "") stk k).
Proof. intros B. cbn. unfold flush. now rewrite B. Qed.
Lemma run_open0 w stk k n : blank w = true -> nameOK n = true -> xrun (mkX (MText w) stk k) ("<" ++ n) = Some (mkX (MTag n) stk k).
Proof.
  intros B N. rewrite xrun_app, run_lt by auto. destruct n as [|c n]; [discriminate|]. cbn [nameOK] in N. apply andb_prop in N as [N1 N2]. cbn [xrun]. unfold xstep. cbn [xm xstk xkids].
  rewrite (name0_slash _ N1), N1. rewrite run_tag; [reflexivity|discriminate|auto].
Qed.
Lemma run_open w stk k n : blank w = true -> nameOK n = true -> xrun (mkX (MText w) stk k) ("<" ++ n ++ " ") = Some (mkX (MIn n []) stk k).
Proof.
  intros B N. rewrite <- app_as, xrun_app, run_open0 by auto. destruct n as [|c n]; [discriminate|]. reflexivity.
Qed.
(** Empty element. *)
Lemma frag_elem n l : nameOK n = true -> attrsOK l -> frag ("<" ++ n ++ " " ++ attrsText l ++ "/>" ++ eol) [XElem n l []].
Proof.
  intros N A w stk k B. exists eol. split; [reflexivity|]. rewrite <- (app_as n), <- app_as, xrun_app, run_open by auto. rewrite xrun_app, attrs_run by exact A. reflexivity.
Qed.
(** The same, without a space after the last attribute. *)
Lemma attrs_last n l a v stk k : attrsOK (l ++ [(a, v)]) -> xrun (mkX (MIn n []) stk k) (attrsText l ++ attrCore a v) = Some (mkX (MAft n (l ++ [(a, v)])) stk k).
Proof.
  intros A. pose proof A as [D F]. rewrite xrun_app, attrs_run by (cbn [app]; eapply attrsOK_split; eauto). cbn [app]. apply attr_run.
  - rewrite Forall_forall in F. apply (F (a, v)). apply in_or_app. right. now left.
  - rewrite Forall_forall in F. apply (F (a, v)). apply in_or_app. right. now left.
  - rewrite map_app in D. cbn [map fst] in D. apply NoDup_remove_2 in D. now rewrite app_nil_r in D.
Qed.
Lemma frag_elem1 n l a v : nameOK n = true -> attrsOK (l ++ [(a, v)]) -> frag ("<" ++ n ++ " " ++ attrsText l ++ attrCore a v ++ "/>" ++ eol) [XElem n (l ++ [(a, v)]) []].
Proof.
  intros N A w stk k B. exists eol. split; [reflexivity|]. rewrite <- (app_as n), <- app_as, xrun_app, run_open by auto.
  rewrite <- (app_as (attrsText l)), xrun_app, attrs_last by auto. reflexivity.
Qed.
(** Element with content. *)
Lemma run_end w n l stk k f : blank w = true -> nameOK n = true -> xrun (mkX (MText w) ((n, l, k) :: stk) f) ("</" ++ n ++ ">" ++ eol) = Some (mkX (MText eol) stk (XElem n l (rev f) :: k)).
Proof.
  intros B N. change ("</" ++ n ++ ">" ++ eol) with ("<" ++ "/" ++ n ++ ">" ++ eol). rewrite xrun_app, run_lt by auto.
  change (xrun (mkX (MTag "") ((n, l, k) :: stk) f) ("/" ++ n ++ ">" ++ eol)) with (xrun (mkX (MClose "") ((n, l, k) :: stk) f) (n ++ ">" ++ eol)).
  assert (allS isName n = true) as NA. { destruct n as [|c n]; [reflexivity|]. cbn [nameOK allS] in *. apply andb_prop in N as [N1 N2]. rewrite N2, andb_true_r. unfold isName. now rewrite N1. }
  rewrite xrun_app, run_close by auto. cbn [append]. cbn [xrun]. unfold xstep at 1. cbn [xm xstk xkids]. replace (isName ">") with false by reflexivity. cbn iota. replace (Ascii.eqb ">" ">") with true by reflexivity. cbn iota.
  rewrite String.eqb_refl. reflexivity.
Qed.
Lemma frag_open0 n s f : nameOK n = true -> frag s f -> frag ("<" ++ n ++ ">" ++ s ++ "</" ++ n ++ ">" ++ eol) [XElem n [] f].
Proof.
  intros N S w stk k B. exists eol. split; [reflexivity|]. rewrite <- app_as, xrun_app, run_open0 by auto.
  change (">" ++ s ++ "</" ++ n ++ ">" ++ eol) with (String ">" (s ++ ("</" ++ n ++ ">" ++ eol))). cbn [xrun].
  replace (xstep (mkX (MTag n) stk k) ">") with (Some (mkX (MText "") ((n, [], k) :: stk) [])) by (destruct n; [discriminate|reflexivity]).
  rewrite xrun_app. destruct (S "" ((n, [], k) :: stk) [] eq_refl) as (w1 & B1 & ->). rewrite app_nil_r, run_end by auto. now rewrite rev_involutive.
Qed.
(** Element with attributes and text. *)
Definition textNode (t : string) : list xnode := if blank t then [] else [XText t].
Lemma run_endt w n l stk k : textOK w = true -> nameOK n = true -> xrun (mkX (MText w) ((n, l, k) :: stk) []) ("</" ++ n ++ ">" ++ eol) = Some (mkX (MText eol) stk (XElem n l (textNode w) :: k)).
Proof.
  intros T N. assert (E : xrun (mkX (MText w) ((n, l, k) :: stk) []) ("</" ++ n ++ ">" ++ eol) = xrun (mkX (MText "") ((n, l, k) :: stk) (textNode w)) ("</" ++ n ++ ">" ++ eol)).
  { change ("</" ++ n ++ ">" ++ eol) with (String "<" ("/" ++ n ++ ">" ++ eol)). cbn [xrun]. unfold xstep at 1 2. cbn [xm xstk xkids]. replace (Ascii.eqb "<" "<") with true by reflexivity. cbn iota. unfold flush, textNode. destruct (blank w); reflexivity. }
  rewrite E, run_end by auto. unfold textNode. destruct (blank w); reflexivity.
Qed.
Lemma frag_textelem n l a v t : nameOK n = true -> attrsOK (l ++ [(a, v)]) -> textOK t = true ->
  frag ("<" ++ n ++ " " ++ attrsText l ++ attrCore a v ++ ">" ++ t ++ "</" ++ n ++ ">" ++ eol) [XElem n (l ++ [(a, v)]) (textNode t)].
Proof.
  intros N A T w stk k B. exists eol. split; [reflexivity|]. rewrite <- (app_as n), <- app_as, xrun_app, run_open by auto.
  rewrite <- (app_as (attrsText l)), xrun_app, attrs_last by auto. change (">" ++ t ++ "</" ++ n ++ ">" ++ eol) with (String ">" (t ++ ("</" ++ n ++ ">" ++ eol))). cbn [xrun].
  change (xstep (mkX (MAft n (l ++ [(a, v)])) stk k) ">") with (Some (mkX (MText "") ((n, (l ++ [(a, v)])%list, k) :: stk) [])).
  cbv iota beta. rewrite xrun_app, run_text by auto. cbn [append]. rewrite run_endt by auto. reflexivity.
Qed.
(** Element with attributes and content. *)
Lemma frag_openA n l a v s f : nameOK n = true -> attrsOK (l ++ [(a, v)]) -> frag s f ->
  frag ("<" ++ n ++ " " ++ attrsText l ++ attrCore a v ++ ">" ++ s ++ "</" ++ n ++ ">" ++ eol) [XElem n (l ++ [(a, v)]) f].
Proof.
  intros N A S w stk k B. exists eol. split; [reflexivity|]. rewrite <- (app_as n), <- app_as, xrun_app, run_open by auto.
  rewrite <- (app_as (attrsText l)), xrun_app, attrs_last by auto. change (">" ++ s ++ "</" ++ n ++ ">" ++ eol) with (String ">" (s ++ ("</" ++ n ++ ">" ++ eol))). cbn [xrun].
  change (xstep (mkX (MAft n (l ++ [(a, v)])) stk k) ">") with (Some (mkX (MText "") ((n, (l ++ [(a, v)])%list, k) :: stk) [])).
  cbv iota beta. rewrite xrun_app. destruct (S "" ((n, (l ++ [(a, v)])%list, k) :: stk) [] eq_refl) as (w1 & B1 & ->). rewrite app_nil_r, run_end by auto. now rewrite rev_involutive.
Qed.
Lemma frag_read s n l k : frag s [XElem n l k] -> xread s = Some (XElem n l k).
Proof. intros F. unfold xread. destruct (F "" [] [] eq_refl) as (w & B & ->). cbn [rev app]. now rewrite B. Qed.
