(** * Proofs: the SVG text written is a well formed document *)

From Coq Require Import String Ascii.
From Coq Require Import ZArith QArith List Bool Arith Lia Permutation.
From Verif Require Import Num M_LP M_Svg M_Fmt M_Draw M_SvgOut S_Svg S_Xml S_SvgOut P_Svg P_Xml P_Fmt.
Import ListNotations.
Local Open Scope string_scope.

(** ** Characters of numbers *)
Definition numC (c : ascii) : bool := between 48 57 (code c) || existsb (Ascii.eqb c) ["."; "-"; "+"; "e"]%char.
Lemma numC_value s : allS numC s = true -> valueOK s = true.
Proof. apply allS_imp. intros c. destruct c as [[] [] [] [] [] [] [] []]; vm_compute; congruence. Qed.
Lemma digChar_numC d : (0 <= d < 10)%Z -> numC (digChar d) = true.
Proof.
  intros H. assert (d = 0 \/ d = 1 \/ d = 2 \/ d = 3 \/ d = 4 \/ d = 5 \/ d = 6 \/ d = 7 \/ d = 8 \/ d = 9)%Z as K by lia.
  repeat (destruct K as [->|K]; [reflexivity|]). subst. reflexivity.
Qed.
Lemma digText_numC l : digOK l -> allS numC (digText l) = true.
Proof. intros H. induction H; [reflexivity|]. cbn [digText allS]. rewrite digChar_numC by auto. auto. Qed.
Lemma natText_numC k n : (0 <= n)%Z -> allS numC (natText k n) = true /\ natText k n <> "".
Proof. intros H. destruct (natText_span k n H) as (l & A & _ & B & ->). split; [now apply digText_numC|]. destruct l; [congruence|discriminate]. Qed.
Lemma fracText_numC l : digOK l -> allS numC (fracText l) = true.
Proof. intros H. destruct l; [reflexivity|]. apply (digText_numC _ H). Qed.
Lemma sigText_numC m e : (0 <= m < 10 ^ 6)%Z -> allS numC (sigText m e) = true /\ sigText m e <> "".
Proof.
  intros M. destruct (sigText_shape m e M) as (ip & fp & x & A & NE & B & -> & _). split.
  - rewrite !allS_app, digText_numC, fracText_numC by auto. destruct x as [x|]; [|reflexivity]. unfold expText. rewrite !allS_app. rewrite (proj1 (natText_numC 2 (Z.abs x) ltac:(lia))). destruct (x <? 0)%Z; reflexivity.
  - destruct ip; [congruence|discriminate].
Qed.
Lemma fmtPos_numC a b : (0 < a)%Z -> (0 < b)%Z -> allS numC (fmtPos a b) = true /\ fmtPos a b <> "".
Proof. intros A B. unfold fmtPos. destruct (sig6 a b) as [m e] eqn:E. destruct (sig6_spec a b m e A B E) as (M & _). apply sigText_numC. lia. Qed.
Lemma fmt_numC x : allS numC (fmt x) = true /\ fmt x <> "".
Proof.
  unfold fmt. destruct (Qnum x) as [|p|p]; [split; [reflexivity|discriminate]|apply fmtPos_numC; lia|].
  destruct (fmtPos_numC (Z.pos p) (Z.pos (Qden x))) as [A _]; try lia. split; [|discriminate]. cbn [allS]. now rewrite A.
Qed.
Lemma fmtInt_numC n : allS numC (fmtInt n) = true /\ fmtInt n <> "".
Proof.
  unfold fmtInt. destruct (Z.ltb_spec n 0); [|now apply natText_numC]. destruct (natText_numC 1 (- n)) as [A _]; [lia|]. split; [|discriminate]. cbn [allS]. now rewrite A.
Qed.
Lemma fmt_val x : valueOK (fmt x) = true. Proof. apply numC_value, fmt_numC. Qed.
Lemma fmtInt_val n : valueOK (fmtInt n) = true. Proof. apply numC_value, fmtInt_numC. Qed.
Lemma val_app a b : valueOK (a ++ b) = valueOK a && valueOK b. Proof. apply allS_app. Qed.
Lemma rgb_val c : valueOK (rgbText c) = true.
Proof. unfold rgbText. rewrite !val_app, !fmtInt_val. reflexivity. Qed.
Lemma hexChar_val d s : (0 <= d < 16)%Z -> valueOK (String (hexChar d) s) = valueOK s.
Proof.
  intros H. assert (d = 0 \/ d = 1 \/ d = 2 \/ d = 3 \/ d = 4 \/ d = 5 \/ d = 6 \/ d = 7 \/ d = 8 \/ d = 9 \/ d = 10 \/ d = 11 \/ d = 12 \/ d = 13 \/ d = 14 \/ d = 15)%Z as K by lia.
  repeat (destruct K as [->|K]; [reflexivity|]). subst. reflexivity.
Qed.
Lemma hex2_val n : (0 <= n < 256)%Z -> valueOK (hex2 n) = true.
Proof. intros H. unfold hex2. pose proof (Z.mod_pos_bound n 16 ltac:(lia)). pose proof (Z.div_mod n 16 ltac:(lia)). rewrite !hexChar_val by lia. reflexivity. Qed.

(** ** User attributes *)
Lemma attrText_ne a : attrText a <> "".
Proof. unfold attrText. destruct (fst a); discriminate. Qed.
Lemma join_text l : l <> [] -> joinAttrs l ++ " " = attrsText l.
Proof.
  induction l as [|[a v] l IH]; intros H; [congruence|]. destruct l as [|b l]; [reflexivity|]. change (joinAttrs ((a, v) :: b :: l)) with (attrText (a, v) ++ " " ++ joinAttrs (b :: l)).
  rewrite !app_as, IH by discriminate. reflexivity.
Qed.
Lemma join_ne l : l <> [] -> joinAttrs l <> "".
Proof.
  destruct l as [|a [|b l]]; intros H; [congruence|apply attrText_ne|]. change (joinAttrs (a :: b :: l)) with (attrText a ++ " " ++ joinAttrs (b :: l)).
  pose proof (attrText_ne a). destruct (attrText a); [congruence|discriminate].
Qed.
Lemma attrString_text v l : dAttr v = joinAttrs l -> attrString v = attrsText l.
Proof.
  intros H. unfold attrString. rewrite H. destruct l as [|a l]; [reflexivity|]. rewrite <- join_text by discriminate. pose proof (join_ne (a :: l) ltac:(discriminate)). destruct (joinAttrs (a :: l)); [congruence|reflexivity].
Qed.
Lemma strPrefix_app a s : strPrefix a (a ++ s) = true.
Proof. induction a as [|c a IH]; [reflexivity|]. cbn. now rewrite Ascii.eqb_refl, IH. Qed.
Lemma strFind_app a p s : strFind a (p ++ a ++ s) = true.
Proof.
  induction p as [|c p IH].
  - cbn [append]. pose proof (strPrefix_app a s) as P. destruct (a ++ s); cbn [strFind]; now rewrite P.
  - cbn [append strFind]. rewrite IH. apply orb_true_r.
Qed.
Lemma fill_found l : In "fill" (map fst l) -> strFind "fill=" (joinAttrs l) = true.
Proof.
  intros H. assert (exists p s, joinAttrs l = p ++ "fill=" ++ s) as (p & s & ->); [|apply strFind_app].
  induction l as [|[a v] l IH]; [destruct H|]. destruct H as [H|H].
  - cbn in H. subst a. exists "". destruct l as [|b l]; eexists; [reflexivity|]. change (joinAttrs (("fill", v) :: b :: l)) with (("fill" ++ "=""" ++ v ++ """") ++ " " ++ joinAttrs (b :: l)). rewrite !app_as. reflexivity.
  - destruct (IH H) as (p & s & E). destruct l as [|b l]; [destruct H|]. change (joinAttrs ((a, v) :: b :: l)) with (attrText (a, v) ++ " " ++ joinAttrs (b :: l)). rewrite E.
    exists (attrText (a, v) ++ " " ++ p), s. now rewrite !app_as.
Qed.
Lemma fillText_text v : fillText v = attrsText (fillAttrs v).
Proof. unfold fillText, fillAttrs. destruct (holdsFill v); reflexivity. Qed.
Lemma strokeText_text v : strokeText v = attrsText (strokeAttrs v).
Proof. unfold strokeText, strokeAttrs. cbn [attrsText]. unfold attrCore. rewrite !app_as. reflexivity. Qed.
Lemma fill_once v l : dAttr v = joinAttrs l -> In "fill" (map fst l) -> fillAttrs v = [].
Proof.
  intros E I. unfold fillAttrs, holdsFill. rewrite E. pose proof (fill_found l I) as F. destruct (joinAttrs l); [discriminate|]. now rewrite F.
Qed.
Lemma NoDup_mid {A} (a f u b : list A) : NoDup (a ++ b) -> NoDup (f ++ u) -> (forall x, In x (f ++ u) -> ~ In x (a ++ b)) -> NoDup (a ++ f ++ u ++ b).
Proof.
  intros D1 D2 H. assert (P : NoDup ((a ++ b) ++ (f ++ u))).
  { clear - D1 D2 H. induction (a ++ b)%list as [|x m IH]; [exact D2|]. cbn [app]. inversion D1; subst. constructor.
    - intros I. apply in_app_or in I as [I|I]; [auto|]. apply (H x I). now left.
    - apply IH; auto. intros y I J. apply (H y I). now right. }
  refine (Permutation_NoDup _ P). rewrite <- app_assoc. apply Permutation_app_head. rewrite (app_assoc f u b). apply Permutation_app_comm.
Qed.
Lemma attrs_user v l a b : holdsAttrs v l -> NoDup (map fst (a ++ b)) -> (forall x, In x (map fst (a ++ b)) -> In x reserved) ->
  Forall (fun a => nameOK (fst a) = true /\ valueOK (snd a) = true) (a ++ b) -> attrsOK (a ++ fillAttrs v ++ l ++ b) /\ attrsOK (a ++ l ++ b).
Proof.
  intros (E & [D F] & R) N I O. apply Forall_app in O as [O1 O2]. rewrite map_app in N.
  assert (FI : NoDup (map fst (fillAttrs v ++ l)) /\ forall x, In x (map fst (fillAttrs v)) -> ~ In x reserved).
  { assert (K : forall x, In x (map fst (fillAttrs v)) -> x = "fill") by (unfold fillAttrs; destruct (holdsFill v); [intros x []|intros x [H|[]]; auto]). split.
    - destruct (in_dec string_dec "fill" (map fst l)) as [J|J]; [now rewrite (fill_once v l E J)|]. rewrite map_app. unfold fillAttrs. destruct (holdsFill v); [exact D|]. constructor; auto.
    - intros x H. rewrite (K x H). cbv. intuition discriminate. }
  destruct FI as [FI1 FI2]. assert (FO : Forall (fun a => nameOK (fst a) = true /\ valueOK (snd a) = true) (fillAttrs v)) by (unfold fillAttrs; destruct (holdsFill v); repeat constructor).
  rewrite map_app in FI1, I. split; split.
  - rewrite !map_app. apply NoDup_mid; auto. intros x H J. apply I in J. apply in_app_or in H as [H|H]; [now apply (FI2 x H)|now apply (R x H)].
  - repeat (apply Forall_app; split; auto).
  - rewrite !map_app. apply (NoDup_mid _ [] _ _); auto. intros x H J. apply I in J. now apply (R x H).
  - repeat (apply Forall_app; split; auto).
Qed.
Ltac nodup := cbn [map fst app strokeAttrs]; repeat constructor; cbn; intuition discriminate.
Ltac inres := cbn [map fst app strokeAttrs]; let x := fresh in let H := fresh in intros x H; cbn in H; cbn; intuition.
Ltac valok := cbn [app strokeAttrs]; repeat (constructor; [split; [reflexivity|cbn [snd]; auto using fmt_val, fmtInt_val, rgb_val]|]); try constructor.

(** ** Elements *)
Lemma frag_circle v l c r : holdsAttrs v l -> frag (drawCircle v c r) [circleNode v l c r].
Proof.
  intros H. assert (E : drawCircle v c r = "<" ++ "circle" ++ " " ++ attrsText (([("cx", fmt (fst c)); ("cy", fmt (snd c)); ("r", fmt r)] ++ strokeAttrs v) ++ fillAttrs v ++ l ++ []) ++ "/>" ++ eol).
  { unfold drawCircle. rewrite (attrString_text v l), strokeText_text, fillText_text by apply H. rewrite app_nil_r, !attrsText_app. cbn [attrsText]. unfold attrCore. rewrite !app_as. reflexivity. }
  rewrite E. apply frag_elem; [reflexivity|]. apply (attrs_user v l _ []); auto; rewrite app_nil_r; [nodup|inres|valok].
Qed.
Lemma frag_rect v l p w h : holdsAttrs v l -> frag (drawRect v p w h) [rectNode v l p w h].
Proof.
  intros H. assert (E : drawRect v p w h = "<" ++ "rect" ++ " " ++ attrsText (([("x", fmt (fst p)); ("y", fmt (snd p)); ("width", fmt w); ("height", fmt h)] ++ strokeAttrs v) ++ fillAttrs v ++ l ++ []) ++ "/>" ++ eol).
  { unfold drawRect. rewrite (attrString_text v l), strokeText_text, fillText_text by apply H. rewrite app_nil_r, !attrsText_app. cbn [attrsText]. unfold attrCore. rewrite !app_as. reflexivity. }
  rewrite E. apply frag_elem; [reflexivity|]. apply (attrs_user v l _ []); auto; rewrite app_nil_r; [nodup|inres|valok].
Qed.
Lemma frag_ellipse v l c rx ry deg : holdsAttrs v l -> frag (drawEllipse v c rx ry deg) [ellipseNode v l c rx ry deg].
Proof.
  intros H. set (rot := "rotate(" ++ fmt deg ++ "," ++ fmt (fst c) ++ "," ++ fmt (snd c) ++ ")").
  assert (E : drawEllipse v c rx ry deg = "<" ++ "ellipse" ++ " " ++ attrsText (([("cx", fmt (fst c)); ("cy", fmt (snd c)); ("rx", fmt rx); ("ry", fmt ry)] ++ strokeAttrs v) ++ fillAttrs v ++ l ++ [("transform", rot)]) ++ "/>" ++ eol).
  { unfold drawEllipse. rewrite (attrString_text v l), strokeText_text, fillText_text by apply H. rewrite !attrsText_app. cbn [attrsText]. unfold attrCore, rot. rewrite !app_as. reflexivity. }
  rewrite E. apply frag_elem; [reflexivity|]. apply (attrs_user v l _ [("transform", rot)]); auto; [nodup|inres|]. valok. unfold rot. rewrite !val_app, !fmt_val. reflexivity.
Qed.
Lemma frag_line v l a p q : holdsAttrs v l -> a = attrsText l -> frag (drawSvgSeg v a p q) [lineNode v l p q].
Proof.
  intros H ->. assert (E : drawSvgSeg v (attrsText l) p q = "<" ++ "line" ++ " " ++ attrsText ([("x1", fmt (fst p)); ("y1", fmt (snd p)); ("x2", fmt (fst q)); ("y2", fmt (snd q))] ++ strokeAttrs v ++ l) ++ "/>" ++ eol).
  { unfold drawSvgSeg. rewrite strokeText_text. rewrite !attrsText_app. cbn [attrsText]. unfold attrCore. rewrite !app_as. reflexivity. }
  rewrite E. apply frag_elem; [reflexivity|]. rewrite app_assoc, <- (app_nil_r l). apply (attrs_user v l _ []); auto; rewrite app_nil_r; [nodup|inres|valok].
Qed.
Lemma frag_bare v l p q : holdsAttrs v l -> frag (drawBare v p q) [lineNode v l p q].
Proof. intros H. exact (frag_line v l (attrString v) p q H (attrString_text v l (proj1 H))). Qed.
Lemma frag_hide v l p q : holdsAttrs v l -> frag (drawBare (hidePts v) p q) [lineNode v l p q].
Proof.
  intros H. replace (drawBare (hidePts v) p q) with (drawBare v p q); [now apply frag_bare|]. destruct v. reflexivity.
Qed.
Lemma frag_mark v l k diag p : holdsAttrs v l -> frag (drawMark v k diag p) (markNodes v l k diag p).
Proof.
  intros H. assert (G : forall x y, frag (let (s, t) := qOrder x y in drawBare (hidePts v) s t) [lineNode v l (fst (qOrder x y)) (snd (qOrder x y))]).
  { intros x y. destruct (qOrder x y). now apply frag_hide. }
  unfold drawMark, markNodes, markSegs. destruct (markPts k (dPtDelta v) p) as [|a [|b [|c [|d [|]]]]]; try apply frag_nil. cbv zeta.
  assert (G2 : forall a b c d, frag ((let (s, t) := qOrder a b in drawBare (hidePts v) s t) ++ (let (s, t) := qOrder c d in drawBare (hidePts v) s t)) (map (fun s => lineNode v l (fst s) (snd s)) [qOrder a b; qOrder c d])) by (intros; apply (frag_app _ _ [_] [_]); apply G).
  assert (G4 : forall a b c d e f g h, frag ((let (s, t) := qOrder a b in drawBare (hidePts v) s t) ++ (let (s, t) := qOrder c d in drawBare (hidePts v) s t) ++ (let (s, t) := qOrder e f in drawBare (hidePts v) s t) ++ (let (s, t) := qOrder g h in drawBare (hidePts v) s t))
    (map (fun s => lineNode v l (fst s) (snd s)) [qOrder a b; qOrder c d; qOrder e f; qOrder g h])) by (intros; apply (frag_app _ _ [_] [_; _; _]); [apply G|]; apply (frag_app _ _ [_] [_; _]); [apply G|apply G2]).
  destruct diag; [apply G4|]. destruct k; [apply G2|apply G2|apply G4].
Qed.
Lemma frag_point cols rows v l p : holdsAttrs v l -> frag (drawPoint cols rows v p) (pointNodes cols rows v l p).
Proof.
  intros H. unfold drawPoint, pointNodes, inImage. cbv zeta.
  destruct (Qle_bool 0 (fst p)), (Qle_bool (inject_Z cols) (fst p)), (Qle_bool 0 (snd p)), (Qle_bool (inject_Z rows) (snd p)); cbn [negb orb andb]; try apply frag_nil.
  destruct (dStyle v) as [|[[[?|?|]|[?|?|]|]|[[?|?|]|[?|?|]|]|]|?]; try apply frag_nil; try (now apply frag_mark); try (now apply frag_circle).
  apply frag_app; now apply frag_mark.
Qed.
Lemma nl_eol : nl = eol. Proof. reflexivity. Qed.
Lemma frag_group s f : frag s f -> frag ("<g>" ++ s ++ "</g>" ++ nl) [XElem "g" [] f] /\ frag ("<g>" ++ nl ++ s ++ "</g>" ++ nl) [XElem "g" [] f].
Proof.
  intros F. split; [apply (frag_open0 "g" s f eq_refl F)|]. pose proof (frag_open0 "g" (nl ++ s) f eq_refl) as G. rewrite (app_as nl) in G. apply G. apply (frag_app nl s []); auto. now apply frag_blank.
Qed.
Lemma frag_segment cols rows v l p q : holdsAttrs v l -> frag (drawSegment cols rows v p q) [segmentNode cols rows v l p q].
Proof.
  intros H. unfold drawSegment, segmentNode. destruct (dShowPts v); [|now apply frag_bare]. rewrite <- (app_as (drawBare v p q)). apply frag_group.
  apply (frag_app _ _ [_]); [now apply frag_bare|]. apply frag_app; now apply frag_point.
Qed.
Lemma holds_none v : holdsAttrs v [] <-> dAttr v = "".
Proof. split; [intros [H _]; exact H|]. intros H. split; [exact H|]. split; [split; constructor|]. intros a []. Qed.
Lemma frag_oseg v l p q arrows : holdsAttrs v l -> frag (drawOSegment v p q arrows) [osegNode v l p q arrows].
Proof.
  intros H. unfold drawOSegment, osegNode. rewrite <- (app_as (drawBare v p q)). apply frag_group. apply (frag_app _ _ [_]); [now apply frag_bare|].
  induction arrows as [|a arrows IH]; [apply frag_nil|]. cbn [fold_right map]. apply (frag_app _ _ [_]); auto.
  set (v0 := mkDp (dColor v) (dThick v) 0 0 0 0 false false false false 0 ""). change (frag (drawSvgSeg v0 "" (fst a) (snd a)) [lineNode v0 [] (fst a) (snd a)]). exact (frag_line v0 [] "" (fst a) (snd a) (proj2 (holds_none v0) eq_refl) eq_refl).
Qed.
Lemma frag_text v t p : colorOK (dColor v) -> textOK t = true -> frag (drawText v t p) [textElem v t p].
Proof.
  intros (C1 & C2 & C3) T. set (col := "#" ++ hex2 (colR (dColor v)) ++ hex2 (colG (dColor v)) ++ hex2 (colB (dColor v))).
  assert (E : drawText v t p = "<" ++ "text" ++ " " ++ attrsText [("x", fmt (fst p)); ("y", fmt (snd p)); ("font-size", fmtInt (dFont v) ++ "px")] ++ attrCore "fill" col ++ ">" ++ t ++ "</" ++ "text" ++ ">" ++ eol).
  { unfold drawText, col. cbn [attrsText]. unfold attrCore. rewrite !app_as. reflexivity. }
  rewrite E. apply (frag_textelem "text" [("x", fmt (fst p)); ("y", fmt (snd p)); ("font-size", fmtInt (dFont v) ++ "px")] "fill" col); auto. split; [nodup|]. valok.
  - rewrite val_app, fmtInt_val. reflexivity.
  - unfold col. rewrite !val_app, !hex2_val by auto. reflexivity.
Qed.
Lemma numC_text s : allS numC s = true -> textOK s = true.
Proof. apply allS_imp. intros c. destruct c as [[] [] [] [] [] [] [] []]; vm_compute; congruence. Qed.
Lemma numC_blank s : allS numC s = true -> s <> "" -> blank s = false.
Proof. destruct s as [|c s]; [congruence|]. intros A _. cbn [allS blank] in *. apply andb_prop in A as [A _]. unfold blank. cbn [allS]. assert (isSpace c = false) as ->; [|reflexivity]. revert A. destruct c as [[] [] [] [] [] [] [] []]; vm_compute; congruence. Qed.
Lemma frag_index i p : frag (drawIndex i p) [indexElem i p].
Proof.
  assert (E : drawIndex i p = "<" ++ "text" ++ " " ++ attrsText [("x", fmtInt (qTrunc (fst p))); ("y", fmtInt (qTrunc (snd p)))] ++ attrCore "class" "txt1" ++ ">" ++ fmtInt (Z.of_nat i) ++ "</" ++ "text" ++ ">" ++ eol).
  { unfold drawIndex. cbn [attrsText]. unfold attrCore. rewrite !app_as. reflexivity. }
  destruct (fmtInt_numC (Z.of_nat i)) as [A B]. rewrite E. unfold indexElem. replace [XText (fmtInt (Z.of_nat i))] with (textNode (fmtInt (Z.of_nat i))) by (unfold textNode; now rewrite numC_blank).
  apply (frag_textelem "text" [("x", fmtInt (qTrunc (fst p))); ("y", fmtInt (qTrunc (snd p)))] "class" "txt1"); auto; [split; [nodup|valok]|now apply numC_text].
Qed.
Lemma points_val l : valueOK (pointsAttr l) = true.
Proof. induction l as [|p l IH]; [reflexivity|]. cbn [pointsAttr]. rewrite !val_app, !fmt_val, IH. reflexivity. Qed.
Lemma frag_polynode v l (closed : bool) pts : holdsAttrs v l ->
  frag ("<" ++ (if closed then "polygon" else "polyline") ++ " " ++ strokeText v ++ fillText v ++ attrString v ++ "points=""" ++ pointsAttr pts ++ """/>" ++ nl) [polyNode v l closed pts].
Proof.
  intros H. rewrite (attrString_text v l), strokeText_text, fillText_text by apply H. set (n := if closed then "polygon" else "polyline").
  assert (E : "<" ++ n ++ " " ++ attrsText (strokeAttrs v) ++ attrsText (fillAttrs v) ++ attrsText l ++ "points=""" ++ pointsAttr pts ++ """/>" ++ nl =
    "<" ++ n ++ " " ++ attrsText (strokeAttrs v ++ fillAttrs v ++ l) ++ attrCore "points" (pointsAttr pts) ++ "/>" ++ eol).
  { rewrite !attrsText_app. unfold attrCore. rewrite !app_as. reflexivity. }
  rewrite E. unfold polyNode. fold n. replace (strokeAttrs v ++ fillAttrs v ++ l ++ [("points", pointsAttr pts)])%list with ((strokeAttrs v ++ fillAttrs v ++ l) ++ [("points", pointsAttr pts)])%list by (now rewrite <- !app_assoc).
  apply frag_elem1; [unfold n; destruct closed; reflexivity|]. rewrite <- !app_assoc. apply (attrs_user v l _ [_]); auto; [nodup|inres|]. valok. apply points_val.
Qed.
Lemma factory_color : colorOK (dColor dpFactory).
Proof. cbv. intuition congruence. Qed.
Lemma frag_poly cols rows v l closed pts angles : holdsAttrs v l -> Forall (fun t => textOK t = true) angles ->
  frag (drawPoly cols rows v closed pts angles) (polyNodes cols rows v l closed pts angles).
Proof.
  intros H A. unfold drawPoly, polyNodes. destruct pts as [|p [|q pts]]; try apply frag_nil. set (L := p :: q :: pts). replace (length L <? 2)%nat with false by reflexivity. cbv zeta.
  assert (F1 : frag (if dShowIdx v then "<g>" ++ nl ++ drawIndexes 0 L ++ "</g>" ++ nl else "") (if dShowIdx v then [XElem "g" [] (indexElems 0 L)] else [])).
  { destruct (dShowIdx v); [|apply frag_nil]. apply frag_group. generalize 0%nat. generalize L. intros M. induction M as [|x M IH]; intros i; [apply frag_nil|]. apply (frag_app _ _ [_]); [apply frag_index|apply IH]. }
  assert (F2 : frag (if dShowPts v then "<g>" ++ nl ++ drawPoints cols rows v L ++ "</g>" ++ nl else "") (if dShowPts v then [XElem "g" [] (flat_map (pointNodes cols rows v l) L)] else [])).
  { destruct (dShowPts v); [|apply frag_nil]. apply frag_group. generalize L. intros M. induction M as [|x M IH]; [apply frag_nil|]. cbn [drawPoints flat_map]. apply frag_app; [now apply frag_point|apply IH]. }
  assert (F3 : frag (if dShowAng v then drawAngles angles (tl L) else "") (if dShowAng v then angleElems angles (tl L) else [])).
  { destruct (dShowAng v); [|apply frag_nil]. generalize (tl L). clear - A. induction A as [|t angles T A IH]; intros [|x m]; [apply frag_nil|apply frag_nil|apply frag_nil|]. change (angleElems (t :: angles) (x :: m)) with ([textElem dpFactory t x] ++ angleElems angles m)%list. cbn [drawAngles]. apply frag_app; [apply frag_text; [apply factory_color|auto]|apply IH]. }
  pose proof (frag_polynode v l closed L H) as F0. pose proof (frag_app _ _ _ _ F0 (frag_app _ _ _ _ F1 (frag_app _ _ _ _ F2 F3))) as F. clear F0 F1 F2 F3. cbn [app] in F.
  change (match L with [] | [_] => [] | _ => ?x end) with x. unfold L at 4 6 8. fold L. destruct (dShowIdx v || dShowPts v)%bool.
  - apply frag_group in F as [_ F]. rewrite !app_as in *. exact F.
  - rewrite app_em. exact F.
Qed.
Theorem frag_item cols rows i : itemOK i -> frag (drawOne cols rows (iPar i, iDraw i)) (itemNodes cols rows i).
Proof.
  intros (H & C & T). unfold drawOne, itemNodes. cbn [fst snd]. destruct (iDraw i).
  - now apply frag_circle.
  - now apply frag_ellipse.
  - now apply frag_rect.
  - now apply frag_segment.
  - now apply frag_oseg.
  - now apply frag_point.
  - now apply frag_poly.
  - now apply frag_text.
Qed.
Theorem file_tree cols rows l : Forall itemOK l ->
  xread (drawFile cols rows (map (fun i => (iPar i, iDraw i)) l)) = Some (svgRoot cols rows (flat_map (itemNodes cols rows) l)).
Proof.
  intros H. assert (B : frag (drawAll cols rows (map (fun i => (iPar i, iDraw i)) l)) (flat_map (itemNodes cols rows) l)).
  { induction H; [apply frag_nil|]. cbn [map drawAll flat_map]. apply frag_app; auto. now apply frag_item. }
  apply frag_read. unfold drawFile, svgFile. set (body := drawAll _ _ _) in *. clearbody body.
  set (css := "<style>" ++ nl ++ ".txt1 { font: bold 12px sans-serif; };" ++ nl ++ "</style>" ++ nl).
  assert (CF : frag css [XElem "style" [] [XText cssText]]).
  { intros w stk k W. exists eol. split; [reflexivity|]. change css with ("<" ++ "style>" ++ nl ++ ".txt1 { font: bold 12px sans-serif; };" ++ nl ++ "</style>" ++ nl). rewrite xrun_app, run_lt by auto. reflexivity. }
  set (A := [("version", "1.1"); ("width", fmtInt cols); ("height", fmtInt rows); ("style", "background-color:white;")]).
  assert (E : "<svg version=""1.1"" width=""" ++ fmtInt cols ++ """ height=""" ++ fmtInt rows ++ """ style=""background-color:white;"" xmlns=""http://www.w3.org/2000/svg"">" ++ nl ++
    "<style>" ++ nl ++ ".txt1 { font: bold 12px sans-serif; };" ++ nl ++ "</style>" ++ nl ++ body ++ "</svg>" ++ nl =
    "<" ++ "svg" ++ " " ++ attrsText A ++ attrCore "xmlns" "http://www.w3.org/2000/svg" ++ ">" ++ (nl ++ css ++ body) ++ "</" ++ "svg" ++ ">" ++ eol).
  { unfold css, A. cbn [attrsText]. unfold attrCore. rewrite !app_as. reflexivity. }
  rewrite E. apply (frag_openA "svg" A); [reflexivity| |].
  - split; [nodup|]. unfold A. valok.
  - apply (frag_app nl _ [] _); [now apply frag_blank|]. apply (frag_app css body [_]); auto.
Qed.
