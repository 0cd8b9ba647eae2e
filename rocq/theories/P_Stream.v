(** * Lemmas on the texts of the stream operators *)

From Coq Require Import String Ascii.
From Coq Require Import Reals ZArith QArith Qreals List Bool Lia Lra.
From Verif Require Import Num M_Svg M_Fmt M_Stream S_Xml S_SvgIn S_Stream P_Fmt P_Xml P_SvgOut P_SvgIn.
Import ListNotations.
Local Open Scope string_scope.

Definition noC (c : ascii) (s : string) : Prop := allS (fun d => negb (Ascii.eqb d c)) s = true.
Lemma noC_app c a b : noC c a -> noC c b -> noC c (a ++ b).
Proof. unfold noC. intros A B. now rewrite allS_app, A, B. Qed.
Lemma allS_impl (f g : ascii -> bool) s : (forall c, f c = true -> g c = true) -> allS f s = true -> allS g s = true.
Proof. intros H. induction s as [|c s IH]; [reflexivity|]. cbn [allS]. rewrite !andb_true_iff. intros [A B]. auto. Qed.
Lemma noC_num c s : numC c = false -> allS numC s = true -> noC c s.
Proof. intros N. apply allS_impl. intros d D. apply negb_true_iff. destruct (Ascii.eqb_spec d c); congruence. Qed.
Lemma noC_fmt c x : numC c = false -> noC c (fmt x).
Proof. intros N. apply noC_num; auto. apply fmt_numC. Qed.
Lemma noC_fmtInt c x : numC c = false -> noC c (fmtInt x).
Proof. intros N. apply noC_num; auto. apply fmtInt_numC. Qed.
Ltac noc := repeat first [assumption | apply noC_fmt; reflexivity | apply noC_fmtInt; reflexivity | reflexivity | apply noC_app].

Lemma upTo_app c s r : noC c s -> upTo c (s ++ String c r) = Some (s, r).
Proof.
  unfold noC. induction s as [|d s IH]; cbn [append upTo allS].
  - now rewrite Ascii.eqb_refl.
  - rewrite andb_true_iff, negb_true_iff. intros [D H]. now rewrite D, IH.
Qed.
Lemma after_app p s : after p (p ++ s) = Some s.
Proof. induction p as [|c p IH]; [reflexivity|]. cbn [append after]. now rewrite Ascii.eqb_refl. Qed.
Lemma fields_app c s r : noC c s -> fields c (s ++ String c r) = s :: fields c r.
Proof.
  unfold noC. induction s as [|d s IH]; cbn [append fields allS].
  - now rewrite Ascii.eqb_refl.
  - rewrite andb_true_iff, negb_true_iff. intros [D H]. now rewrite D, IH.
Qed.
Lemma fields_one c s : noC c s -> fields c s = [s].
Proof.
  unfold noC. induction s as [|d s IH]; [reflexivity|]. cbn [fields allS].
  rewrite andb_true_iff, negb_true_iff. intros [D H]. now rewrite D, IH.
Qed.
Lemma sapp_assoc (a b c : string) : (a ++ b) ++ c = a ++ b ++ c.
Proof. induction a as [|d a IH]; [reflexivity|]. cbn [append]. now rewrite IH. Qed.
Lemma sapp_nil (a : string) : a ++ "" = a.
Proof. induction a as [|d a IH]; [reflexivity|]. cbn [append]. now rewrite IH. Qed.

Lemma readPt_show p r : readPt (showPt p ++ r) = Some (ptMap fmt p, r).
Proof.
  destruct p as [x y|a b c]; unfold readPt, showPt, show3.
  - replace (("[" ++ fmt x ++ "," ++ fmt y ++ "]") ++ r) with ("[" ++ ((fmt x ++ "," ++ fmt y) ++ String "]" r)) by (rewrite !sapp_assoc; reflexivity).
    rewrite after_app, upTo_app by noc. change ("," ++ fmt y) with (String "," (fmt y)). rewrite fields_app, fields_one by noc. reflexivity.
  - replace (("[" ++ fmt a ++ "," ++ fmt b ++ "," ++ fmt c ++ "]") ++ r) with ("[" ++ ((fmt a ++ "," ++ fmt b ++ "," ++ fmt c) ++ String "]" r)) by (rewrite !sapp_assoc; reflexivity).
    rewrite after_app, upTo_app by noc. change ("," ++ fmt b ++ "," ++ fmt c) with (String "," (fmt b ++ String "," (fmt c))). rewrite !fields_app, fields_one by noc. reflexivity.
Qed.
Lemma readPt_only p : onlyPt (readPt (showPt p)) = Some (ptMap fmt p).
Proof. rewrite <- (sapp_nil (showPt p)), readPt_show. reflexivity. Qed.
Lemma showPt_ne p : exists s, showPt p = String "[" s.
Proof. destruct p; eexists; reflexivity. Qed.
Lemma readPts_show l : forall f, (String.length (showPts l) <= f)%nat -> readPts f (showPts l) = Some (map (ptMap fmt) l).
Proof.
  induction l as [|p l IH]; intros f F; [destruct f; reflexivity|]. cbn [showPts map] in *. destruct f as [|f].
  - destruct (showPt_ne p) as (s & E). rewrite E in F. cbn in F. lia.
  - transitivity (got (p, r) <- readPt (showPt p ++ "-" ++ showPts l); got r1 <- after "-" r; got l <- readPts f r1; Some (p :: l)).
    { destruct (showPt_ne p) as (s & ->). reflexivity. }
    rewrite readPt_show, after_app, IH; [reflexivity|].
    assert (forall a b, String.length (a ++ b) = String.length a + String.length b)%nat as L by (induction a as [|c a IHa]; intros b; cbn; [reflexivity|now rewrite IHa]).
    rewrite !L in F. cbn in F. lia.
Qed.
Lemma readPoly_show k l : readPoly k (match l with [] => "empty" | _ => showPts l end) = Some (TPoly k (map (ptMap fmt) l)).
Proof.
  unfold readPoly. destruct l as [|p l]; [reflexivity|].
  assert (String.eqb (showPts (p :: l)) "empty" = false) as -> by (cbn [showPts]; destruct (showPt_ne p) as (s & ->); reflexivity).
  rewrite readPts_show by lia. reflexivity.
Qed.

Lemma words_sp n s : words (spaces n ++ s) = words s.
Proof. induction n as [|n IH]; [reflexivity|]. cbn [spaces]. rewrite sapp_assoc. unfold words in *. cbn [append fields]. rewrite Ascii.eqb_refl. cbn [filter String.eqb negb]. exact IH. Qed.
Lemma words_app s r : noC " " s -> s <> "" -> words (s ++ String " " r) = s :: words r.
Proof. intros N E. unfold words. rewrite fields_app by auto. cbn [filter]. destruct (String.eqb_spec s ""); [contradiction|reflexivity]. Qed.
Lemma words_fmt x r : words (setw6 (fmt x) ++ String " " r) = fmt x :: words r.
Proof. unfold setw6. rewrite sapp_assoc, words_sp, words_app; auto; [noc|apply fmt_numC]. Qed.
Definition rowText (r : Q * Q * Q) : string := let '(a, b, c) := r in "| " ++ setw6 (fmt a) ++ " " ++ setw6 (fmt b) ++ " " ++ setw6 (fmt c) ++ " " ++ " |".
Lemma row_words r : row3 (words (rowText r)) = Some (trMap fmt r).
Proof.
  destruct r as [[a b] c]. unfold rowText.
  change ("| " ++ setw6 (fmt a) ++ " " ++ setw6 (fmt b) ++ " " ++ setw6 (fmt c) ++ " " ++ " |") with ("|" ++ String " " (setw6 (fmt a) ++ String " " (setw6 (fmt b) ++ String " " (setw6 (fmt c) ++ String " " " |")))).
  rewrite words_app by (noc || discriminate). rewrite !words_fmt. reflexivity.
Qed.
Lemma showRow_text r s : showRow r ++ s = rowText r ++ String "010" s.
Proof. destruct r as [[a b] c]. unfold showRow, rowText, lf. rewrite !sapp_assoc. reflexivity. Qed.
Lemma noC_spaces n : noC "010" (spaces n).
Proof. induction n as [|n IH]; [reflexivity|]. cbn [spaces]. noc. Qed.
Lemma noC_setw x : noC "010" (setw6 (fmt x)).
Proof. unfold setw6. apply noC_app; [apply noC_spaces|noc]. Qed.
Lemma noC_row r : noC "010" (rowText r).
Proof. destruct r as [[a b] c]. unfold rowText. pose proof (noC_setw a). pose proof (noC_setw b). pose proof (noC_setw c). noc. Qed.
Lemma readRows_show k a b c : readRows k (showRow a ++ showRow b ++ showRow c) = Some (TMat k (trMap fmt a) (trMap fmt b) (trMap fmt c)).
Proof.
  unfold readRows. rewrite <- (sapp_nil (showRow c)). rewrite !showRow_text, !fields_app by apply noC_row. cbn [fields]. now rewrite !row_words.
Qed.

Lemma upTo_f c x r : numC c = false -> upTo c (fmt x ++ String c r) = Some (fmt x, r).
Proof. intros N. apply upTo_app. now apply noC_fmt. Qed.
Theorem readText_show o : readText (showObj o) = Some (objMap fmt (asPoint o)).
Proof.
  destruct o as [p|a b c|k p q|p q|c r|k l|x y d a b|k p q|k r1 r2 r3]; cbn [asPoint objMap].
  - destruct (showPt_ne p) as (s & E). pose proof (readPt_show p "") as G. rewrite sapp_nil in G. unfold showObj, readText. rewrite E in *. cbn -[readPt]. rewrite G. reflexivity.
  - pose proof (readPt_show (TInf a b c) "") as G. rewrite sapp_nil in G. unfold showObj, readText. cbn [showPt] in G. destruct (showPt_ne (TInf a b c)) as (s & E). cbn [showPt] in E. rewrite E in *. cbn -[readPt]. rewrite G. reflexivity.
  - unfold showObj. set (t := (if k then "=>" else "-") ++ showPt q). pose proof (readPt_show p t) as G. destruct (showPt_ne p) as (s & E). unfold readText. rewrite E in *. cbn -[readPt append]. cbn [append after Ascii.eqb Bool.eqb]. cbn [append] in G. rewrite G.
    subst t. destruct k; cbn [append String.eqb]; cbn -[readPt onlyPt]; rewrite readPt_only; reflexivity.
  - unfold showObj, readText. rewrite after_app, readPt_show, after_app, readPt_only. reflexivity.
  - unfold showObj, readText. cbn [after append Ascii.eqb Bool.eqb]. rewrite readPt_show. cbn [after append Ascii.eqb Bool.eqb]. reflexivity.
  - unfold showObj, readText. destruct k; cbn [after append Ascii.eqb Bool.eqb]; apply readPoly_show.
  - unfold showObj, readText. cbn [after append Ascii.eqb Bool.eqb]. rewrite upTo_f by reflexivity. rewrite upTo_f by reflexivity. cbn [after Ascii.eqb Bool.eqb]. rewrite upTo_f by reflexivity. cbn [after Ascii.eqb Bool.eqb]. rewrite upTo_f by reflexivity. cbn [after Ascii.eqb Bool.eqb]. rewrite upTo_f by reflexivity. reflexivity.
  - unfold showObj, readText. destruct k; cbn [after append upTo Ascii.eqb Bool.eqb]; rewrite readPt_show; cbn [after append Ascii.eqb Bool.eqb]; rewrite readPt_only; reflexivity.
  - unfold showObj, readText. pose proof (readRows_show k r1 r2 r3) as G. destruct k.
    + rewrite sapp_assoc. unfold lf. cbn [after append Ascii.eqb Bool.eqb]. exact G.
    + cbn [append]. assert (exists s, showRow r1 ++ showRow r2 ++ showRow r3 = String "|" s) as (s & E) by (destruct r1 as [[u v] w]; eexists; reflexivity).
      rewrite E in *. cbn [after Ascii.eqb Bool.eqb]. exact G.
Qed.

Lemma ptMap_map {T U V} (f : T -> U) (g : U -> V) p : ptMap g (ptMap f p) = ptMap (fun x => g (f x)) p.
Proof. destruct p; reflexivity. Qed.
Lemma objMap_map {T U V} (f : T -> U) (g : U -> V) o : objMap g (objMap f o) = objMap (fun x => g (f x)) o.
Proof. destruct o as [p|a b c|k p q|p q|c r|k l|x y d a b|k p q|k [[? ?] ?] [[? ?] ?] [[? ?] ?]]; cbn [objMap trMap]; rewrite ?ptMap_map; auto. f_equal. rewrite map_map. apply map_ext. intros p. apply ptMap_map. Qed.
Lemma ptNums_map {T U} (f : T -> U) p : ptNums (ptMap f p) = map f (ptNums p).
Proof. destruct p; reflexivity. Qed.
Lemma nums_map {T U} (f : T -> U) o : nums (objMap f o) = map f (nums o).
Proof.
  destruct o as [p|a b c|k p q|p q|c r|k l|x y d a b|k p q|k [[? ?] ?] [[? ?] ?] [[? ?] ?]]; cbn [nums objMap trMap]; rewrite ?map_app, ?ptNums_map; auto.
  induction l as [|p l IH]; [reflexivity|]. cbn [flat_map map]. rewrite map_app, ptNums_map. now rewrite IH.
Qed.
Lemma writes_fmt o : writes (objMap fmt o) o.
Proof.
  split; [unfold shape; apply objMap_map|]. rewrite nums_map. induction (nums o) as [|x l IH]; cbn [map]; constructor; auto.
  destruct (rd0_ok x) as [E C]. exists (rd0 x). unfold number. now rewrite E.
Qed.

Lemma noC_pt p : noC "010" (showPt p).
Proof. destruct p; unfold showPt, show3; noc. Qed.
Lemma noC_pts l : noC "010" (showPts l).
Proof. induction l as [|p l IH]; [reflexivity|]. cbn [showPts]. pose proof (noC_pt p). noc. Qed.
Lemma noC_obj o : oneLine o -> noC "010" (showObj o).
Proof.
  destruct o as [p|a b c|k p q|p q|c r|k l|x y d a b|k p q|k r1 r2 r3]; cbn [oneLine showObj]; intros H; try contradiction; unfold show3; try (pose proof (noC_pt p)); try (pose proof (noC_pt q)); try (pose proof (noC_pt c)); try destruct k; noc;
  (destruct l as [|p l]; [reflexivity|apply noC_pts]).
Qed.
Lemma fields_lines (l : list string) : Forall (noC "010") l -> fields "010" (String.concat "" (map (fun s => s ++ lf) l)) = (l ++ [""])%list.
Proof.
  induction 1 as [|s l H _ IH]; [reflexivity|]. cbn [map app].
  assert (forall a r, String.concat "" (a :: r) = a ++ String.concat "" r) as C by (intros a [|b r]; cbn; rewrite ?sapp_nil; reflexivity).
  rewrite C, sapp_assoc. unfold lf at 1. cbn [append]. rewrite fields_app by auto. now rewrite IH.
Qed.
Theorem readAll_show l : Forall oneLine l -> readAll (showAll l) = Some (fmtInt (Z.of_nat (List.length l)), map (fun o => objMap fmt (asPoint o)) l).
Proof.
  intros H. unfold readAll, showAll. rewrite after_app. unfold lf at 1. cbn [append]. rewrite upTo_app by noc.
  rewrite <- (map_map showObj (fun s => s ++ lf)), fields_lines by (apply Forall_map; revert H; apply Forall_impl; apply noC_obj). rewrite removelast_last.
  assert (mapO readText (map showObj l) = Some (map (fun o => objMap fmt (asPoint o)) l)) as ->.
  { clear H. induction l as [|o l IH]; [reflexivity|]. cbn [map mapO]. now rewrite readText_show, IH. }
  reflexivity.
Qed.
