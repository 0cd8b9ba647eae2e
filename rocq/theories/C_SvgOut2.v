(** * C175-C176: filling, colours and indexes in the SVG file *)

From Coq Require Import String Ascii.
From Coq Require Import Reals ZArith QArith Qreals Qround List Bool Arith Lia Lra.
From Verif Require Import Num M_LP M_Seg M_Circle M_Poly M_FRect M_Ellipse M_Svg M_Fmt M_Draw M_SvgOut M_SvgIn
  S_Geom S_Svg S_Xml S_SvgOut S_SvgIn S_SvgOut2 P_LP P_Xml P_SvgOut P_SvgIn C_SvgOut.
Import ListNotations.
Local Open Scope R_scope.

(** ** C175: filling and colours *)
Definition fillOK (l a : list (string * string)) : Prop :=
  NoDup (map fst a) /\ (forall f, In ("fill"%string, f) l -> In ("fill"%string, f) a) /\ (l = [] -> In ("fill"%string, "none"%string) a).
Definition strokeOK (c : color) (a : list (string * string)) : Prop :=
  exists r g b, In ("stroke", "rgb(" ++ r ++ "," ++ g ++ "," ++ b ++ ")")%string a /\
    stod (N := RNum) r = Ok (IZR (colR c)) /\ stod (N := RNum) g = Ok (IZR (colG c)) /\ stod (N := RNum) b = Ok (IZR (colB c)).
Definition elemOK (v : dpv) (l : list (string * string)) (e : string * list (string * string) * list xnode) : Prop :=
  let '(n, a, k) := e in
  (In n shapes -> fillOK l a) /\ (In n ("line" :: shapes)%string -> strokeOK (dColor v) a).
Lemma stroke_user v : strokeOK (dColor v) (strokeAttrs v).
Proof.
  exists (fmtInt (colR (dColor v))), (fmtInt (colG (dColor v))), (fmtInt (colB (dColor v))). rewrite !fmtInt_read. split; [now left|auto].
Qed.
Lemma stroke_in v a b c : strokeOK (dColor v) b -> strokeOK (dColor v) (a ++ b ++ c).
Proof. intros (x & y & z & I & H). exists x, y, z. split; auto. apply in_app_iff. right. apply in_app_iff. now left. Qed.
Lemma fill_user v l a b : holdsAttrs v l -> attrsOK (a ++ fillAttrs v ++ l ++ b) -> fillOK l (a ++ fillAttrs v ++ l ++ b).
Proof.
  intros H [D _]. split; [exact D|]. split.
  - intros f I. rewrite !in_app_iff. auto.
  - intros ->. rewrite !in_app_iff. right. left. destruct H as (A & _). unfold fillAttrs, holdsFill. rewrite A. now left.
Qed.
Definition allOK v l (ns : list xnode) : Prop := Forall (elemOK v l) (flat_map elems ns).
Lemma all_app v l a b : allOK v l a -> allOK v l b -> allOK v l (a ++ b).
Proof. unfold allOK. rewrite flat_map_app. intros. apply Forall_app. auto. Qed.
Lemma all_cons v l x b : allOK v l [x] -> allOK v l b -> allOK v l (x :: b).
Proof. apply (all_app v l [x]). Qed.
Lemma all_leaf v l n a : elemOK v l (n, a, []) -> allOK v l [XElem n a []].
Proof. intros H. constructor; [exact H|constructor]. Qed.
Lemma all_other v l n a k : ~ In n ("line" :: shapes)%string -> allOK v l k -> allOK v l [XElem n a k].
Proof.
  intros N H. unfold allOK. cbn [flat_map elems]. rewrite app_nil_r. constructor; [|exact H]. split; intros I; exfalso; apply N; auto. now right.
Qed.
Ltac noshape := apply all_other; [cbn; intuition discriminate|].
Lemma all_circle v l c r : holdsAttrs v l -> allOK v l [circleNode v l c r].
Proof.
  intros H. apply all_leaf. split; intros _.
  - apply fill_user; auto. apply (attrs_user v l _ []); auto; rewrite app_nil_r; [nodup|inres|valok].
  - rewrite <- app_assoc. apply stroke_in, stroke_user.
Qed.
Lemma all_rect v l p w h : holdsAttrs v l -> allOK v l [rectNode v l p w h].
Proof.
  intros H. apply all_leaf. split; intros _.
  - apply fill_user; auto. apply (attrs_user v l _ []); auto; rewrite app_nil_r; [nodup|inres|valok].
  - rewrite <- app_assoc. apply stroke_in, stroke_user.
Qed.
Lemma all_ellipse v l c rx ry deg : holdsAttrs v l -> allOK v l [ellipseNode v l c rx ry deg].
Proof.
  intros H. apply all_leaf. split; intros _.
  - apply fill_user; auto. apply (attrs_user v l _ [_]); auto; [nodup|inres|]. valok. rewrite !val_app, !fmt_val. reflexivity.
  - rewrite <- app_assoc. apply stroke_in, stroke_user.
Qed.
Lemma all_poly v l closed pts : holdsAttrs v l -> allOK v l [polyNode v l closed pts].
Proof.
  intros H. apply all_leaf. split; intros _.
  - apply (fill_user v l (strokeAttrs v)); auto. apply (attrs_user v l _ [_]); auto; [nodup|inres|]. valok. apply points_val.
  - apply (stroke_in v []), stroke_user.
Qed.
Lemma all_line v l m p q : allOK v l [lineNode v m p q].
Proof.
  apply all_leaf. split; [intros I; exfalso; cbn in I; intuition discriminate|]. intros _. apply stroke_in, stroke_user.
Qed.
Lemma all_mark v l k diag p : allOK v l (markNodes v l k diag p).
Proof.
  unfold markNodes. induction (markSegs v k diag p) as [|s m IH]; [constructor|]. cbn [map]. apply all_cons; [apply all_line|exact IH].
Qed.
Lemma all_point cols rows v l p : holdsAttrs v l -> allOK v l (pointNodes cols rows v l p).
Proof.
  intros H. unfold pointNodes. destruct (inImage cols rows p); [|constructor].
  destruct (dStyle v) as [|[[[?|?|]|[?|?|]|]|[[?|?|]|[?|?|]|]|]|?]; try apply Forall_nil; try apply all_mark; try (now apply all_circle).
  apply all_app; apply all_mark.
Qed.
Lemma all_texts v l u angles pts : allOK v l (map (fun a => textElem u (fst a) (snd a)) (combine angles pts)).
Proof.
  revert pts. induction angles as [|t m IH]; intros [|p pts]; try apply Forall_nil. cbn [combine map]. apply all_cons; [|apply IH]. noshape. unfold charData. destruct (blank _); constructor.
Qed.
Lemma all_indexes v l i pts : allOK v l (indexElems i pts).
Proof. revert i. induction pts as [|p pts IH]; intros i; [constructor|]. cbn [indexElems]. apply all_cons; [|apply IH]. noshape. constructor. Qed.
Lemma all_item cols rows v l d : itemOK (mkItem v l d) -> allOK v l (itemNodes cols rows (mkItem v l d)).
Proof.
  intros (H & _ & T). cbn [iPar iAttrs iDraw] in *. unfold itemNodes. cbn [iPar iAttrs iDraw]. destruct d.
  - now apply all_circle.
  - now apply all_ellipse.
  - now apply all_rect.
  - unfold segmentNode. destruct (dShowPts v); [|apply all_line]. noshape. apply all_cons; [apply all_line|]. apply all_app; now apply all_point.
  - unfold osegNode. noshape. apply all_cons; [apply all_line|]. induction arrows as [|a m IH]; [constructor|]. cbn [map]. apply all_cons; [apply all_line|exact IH].
  - now apply all_point.
  - assert (allOK v l (polyNode v l closed l0 :: (if dShowIdx v then [XElem "g" [] (indexElems 0 l0)] else []) ++
      (if dShowPts v then [XElem "g" [] (flat_map (pointNodes cols rows v l) l0)] else []) ++ (if dShowAng v then angleElems angles (tl l0) else []))) as P.
    { apply all_cons; [now apply all_poly|]. apply all_app; [|apply all_app].
      - destruct (dShowIdx v); [|constructor]. noshape. apply all_indexes.
      - destruct (dShowPts v); [|constructor]. noshape. induction l0 as [|p m IH]; [constructor|]. cbn [flat_map]. apply all_app; [now apply all_point|exact IH].
      - destruct (dShowAng v); [|constructor]. apply all_texts. }
    unfold polyNodes. destruct l0 as [|p [|q m]]; try apply Forall_nil. destruct (dShowIdx v || dShowPts v)%bool; [|exact P]. noshape. exact P.
  - noshape. unfold charData. destruct (blank _); constructor.
Qed.
(** Every element that can be filled has the user's "fill", or "none" if no attribute is given, and no attribute twice. *)
Theorem C159_fill cols rows v l d : itemOK (mkItem v l d) ->
  exists x, xread (drawFile cols rows [(v, d)]) = Some x /\ forall n a k, In (n, a, k) (elems x) -> In n shapes -> fillOK l a.
Proof.
  intros O. eexists. split; [apply (file_tree cols rows [mkItem v l d]); now constructor|]. cbn [flat_map]. rewrite app_nil_r.
  intros n a k I S. cbn [svgRoot elems flat_map] in I. destruct I as [I|I]; [injection I as <- <- <-; cbn in S; intuition discriminate|].
  cbn [app] in I. destruct I as [I|I]; [injection I as <- <- <-; cbn in S; intuition discriminate|].
  pose proof (all_item cols rows v l d O) as A. unfold allOK in A. rewrite Forall_forall in A. now apply (A _ I).
Qed.
Theorem C175_stroke cols rows v l d : itemOK (mkItem v l d) ->
  exists x, xread (drawFile cols rows [(v, d)]) = Some x /\ forall n a k, In (n, a, k) (elems x) -> In n ("line" :: shapes)%string -> strokeOK (dColor v) a.
Proof.
  intros O. eexists. split; [apply (file_tree cols rows [mkItem v l d]); now constructor|]. cbn [flat_map]. rewrite app_nil_r.
  intros n a k I S. cbn [svgRoot elems flat_map] in I. destruct I as [I|I]; [injection I as <- <- <-; cbn in S; intuition discriminate|].
  cbn [app] in I. destruct I as [I|I]; [injection I as <- <- <-; cbn in S; intuition discriminate|].
  pose proof (all_item cols rows v l d O) as A. unfold allOK in A. rewrite Forall_forall in A. now apply (A _ I).
Qed.

(** Colour of a text. *)
Lemma hex_char d : (0 <= d < 16)%Z -> hexDigit (hexChar d) = Some d.
Proof.
  intros H. assert (exists n, (n < 16)%nat /\ d = Z.of_nat n) as (n & L & ->) by (exists (Z.to_nat d); lia).
  do 16 (destruct n as [|n]; [reflexivity|]). lia.
Qed.
Lemma hex2_read n acc s : (0 <= n < 256)%Z -> hexRead acc (hex2 n ++ s)%string = hexRead (256 * acc + n) s.
Proof.
  intros H. unfold hex2. cbn [append hexRead]. rewrite !hex_char; [|apply Z.mod_pos_bound; lia|split; [apply Z.div_pos; lia|apply Z.div_lt_upper_bound; lia]].
  f_equal. pose proof (Z_div_mod_eq_full n 16). lia.
Qed.
Theorem C175_text cols rows v l t p : itemOK (mkItem v l (DrText t p)) ->
  exists a k s, xread (drawFile cols rows [(v, DrText t p)]) = Some (svgRoot cols rows [XElem "text" a k]) /\ In ("fill", "#" ++ s)%string a /\ String.length s = 6%nat /\ hexRead 0 s = Some (65536 * colR (dColor v) + 256 * colG (dColor v) + colB (dColor v))%Z.
Proof.
  intros O. pose proof O as (_ & (C1 & C2 & C3) & _). cbn [iPar] in *. eexists _, _, (hex2 (colR (dColor v)) ++ hex2 (colG (dColor v)) ++ hex2 (colB (dColor v)))%string.
  split; [apply (file_tree cols rows [mkItem v l (DrText t p)]); now constructor|]. split; [cbn; auto 6|]. split; [reflexivity|].
  rewrite !hex2_read by auto. rewrite <- (app_em (hex2 (colB (dColor v)))), hex2_read by auto. cbn [hexRead]. f_equal. lia.
Qed.
Example C175_ex : itemOK (mkItem parShow userAttrs (DrText "hello" (10, 20)%Q)) /\ hex2 255 = "ff"%string /\ hexRead 0 "ff0010" = Some (65536 * 255 + 256 * 0 + 16)%Z.
Proof. destruct holds_show. split; [split; [assumption|split; [unfold colorOK; cbn; lia|reflexivity]]|]. split; reflexivity. Qed.

(** ** C176: indexes of the points, and size of the image *)
Lemma trunc_ok (x : Q) : isTrunc (Q2R x) (qTrunc x).
Proof.
  destruct x as [n d]. unfold isTrunc, qTrunc, Q2R. cbn [Qnum Qden]. set (D := Z.pos d). assert (HD : (0 < D)%Z) by reflexivity.
  assert (D0 : 0 < IZR D) by (apply IZR_lt; exact HD). assert (E : IZR n * / IZR D * IZR D = IZR n) by (field; lra).
  pose proof (Z.quot_rem' n D) as Q.
  split; intros S.
  - assert (0 <= n)%Z as N by (apply le_IZR; rewrite <- E; apply Rmult_le_pos; lra).
    destruct (Z.rem_bound_pos n D N HD) as [B1 B2]. assert (H1 : (D * (n ÷ D) <= n)%Z) by lia. assert (H2 : (n < D * (n ÷ D) + D)%Z) by lia.
    apply IZR_le in H1. apply IZR_lt in H2. rewrite plus_IZR in H2. rewrite mult_IZR in *. split; apply (Rmult_le_reg_r (IZR D)) || apply (Rmult_lt_reg_r (IZR D)); lra.
  - assert (n <= 0)%Z as N by (apply le_IZR; rewrite <- E; replace 0 with (0 * IZR D) by ring; apply Rmult_le_compat_r; lra).
    assert (B : (- D < Z.rem n D <= 0)%Z). { pose proof (Z.rem_bound_pos (- n) D ltac:(lia) HD) as B. rewrite Z.rem_opp_l in B by lia. lia. }
    assert (H1 : (n <= D * (n ÷ D))%Z) by lia. assert (H2 : (D * (n ÷ D) < n + D)%Z) by lia.
    apply IZR_le in H1. apply IZR_lt in H2. rewrite plus_IZR in H2. rewrite mult_IZR in *. split; apply (Rmult_le_reg_r (IZR D)) || apply (Rmult_lt_reg_r (IZR D)); lra.
Qed.
(** A text shows number [i] at the point [p] without fractional parts. *)
Definition showsAt (ip : nat * qpt) (t : string * string * string) : Prop :=
  let '(x, y, s) := t in
  exists a b, stod (N := RNum) x = Ok (IZR a) /\ isTrunc (Q2R (fst (snd ip))) a /\ stod (N := RNum) y = Ok (IZR b) /\ isTrunc (Q2R (snd (snd ip))) b /\
    stod (N := RNum) s = Ok (INR (fst ip)).
Definition allIdx (ns : list xnode) : list (string * string * string) := flat_map idxOf (flat_map elems ns).
Lemma idx_app a b : allIdx (a ++ b) = allIdx a ++ allIdx b.
Proof. unfold allIdx. now rewrite !flat_map_app. Qed.
Lemma idx_cons x b : allIdx (x :: b) = allIdx [x] ++ allIdx b.
Proof. apply (idx_app [x]). Qed.
Lemma idx_elem n a k : n <> "text"%string -> allIdx [XElem n a k] = allIdx k.
Proof.
  intros N. unfold allIdx. cbn [flat_map elems]. rewrite app_nil_r. cbn [flat_map].
  replace (idxOf (n, a, k)) with (@nil (string * string * string)); [reflexivity|]. symmetry. unfold idxOf.
  destruct (String.eqb n "text") eqn:E; [apply String.eqb_eq in E; contradiction|]. clear N. revert E.
  repeat (match goal with |- context [match ?s with EmptyString => _ | String _ _ => _ end] => destruct s as [|[[] [] [] [] [] [] [] []] ?]; try reflexivity end; cbn). intros; discriminate.
Qed.
Lemma idx_mark v l k diag p : allIdx (markNodes v l k diag p) = [].
Proof. unfold markNodes. induction (markSegs v k diag p) as [|s m IH]; [reflexivity|]. cbn [map]. rewrite idx_cons, IH. reflexivity. Qed.
Lemma idx_point cols rows v l p : allIdx (pointNodes cols rows v l p) = [].
Proof.
  unfold pointNodes. destruct (inImage cols rows p); [|reflexivity].
  destruct (dStyle v) as [|[[[?|?|]|[?|?|]|]|[[?|?|]|[?|?|]|]|]|?]; try reflexivity; try apply idx_mark.
Qed.
Lemma idx_points cols rows v l pts : allIdx (flat_map (pointNodes cols rows v l) pts) = [].
Proof. induction pts as [|y m IH]; [reflexivity|]. cbn [flat_map]. now rewrite idx_app, idx_point, IH. Qed.
Lemma idx_texts u angles pts : allIdx (map (fun a => textElem u (fst a) (snd a)) (combine angles pts)) = [].
Proof.
  revert pts. induction angles as [|t m IH]; intros [|p pts]; try reflexivity. cbn [combine map]. rewrite idx_cons, IH, app_nil_r. unfold allIdx, textElem, charData. cbn [fst snd].
  destruct (blank t); reflexivity.
Qed.
Lemma idx_indexes i pts : Forall2 showsAt (combine (seq i (length pts)) pts) (allIdx (indexElems i pts)).
Proof.
  revert i. induction pts as [|p pts IH]; intros i; [constructor|]. cbn [indexElems length seq combine]. rewrite idx_cons.
  change (allIdx [indexElem i p]) with [(fmtInt (qTrunc (fst p)), fmtInt (qTrunc (snd p)), fmtInt (Z.of_nat i))]. cbn [app]. constructor; [|apply IH].
  exists (qTrunc (fst p)), (qTrunc (snd p)). cbn [fst snd]. rewrite !fmtInt_read, INR_IZR_INZ. auto using trunc_ok.
Qed.
Theorem C176_indexes cols rows v l closed pts angles : itemOK (mkItem v l (DrPoly closed pts angles)) -> (2 <= length pts)%nat ->
  exists x, xread (drawFile cols rows [(v, DrPoly closed pts angles)]) = Some x /\
    if dShowIdx v then Forall2 showsAt (combine (seq 0 (length pts)) pts) (idxTexts x) else idxTexts x = [].
Proof.
  intros O L. eexists. split; [apply (file_tree cols rows [mkItem v l (DrPoly closed pts angles)]); now constructor|].
  cbn [flat_map]. rewrite app_nil_r.
  assert (E : idxTexts (svgRoot cols rows (itemNodes cols rows (mkItem v l (DrPoly closed pts angles)))) = if dShowIdx v then allIdx (indexElems 0 pts) else []).
  { transitivity (allIdx (itemNodes cols rows (mkItem v l (DrPoly closed pts angles)))); [reflexivity|]. unfold itemNodes. cbn [iPar iAttrs iDraw]. unfold polyNodes.
    destruct pts as [|p [|q m]]; [cbn in L; lia|cbn in L; lia|]. set (P := p :: q :: m) in *.
    assert (A : allIdx (polyNode v l closed P :: (if dShowIdx v then [XElem "g" [] (indexElems 0 P)] else []) ++
      (if dShowPts v then [XElem "g" [] (flat_map (pointNodes cols rows v l) P)] else []) ++ (if dShowAng v then angleElems angles (tl P) else [])) = if dShowIdx v then allIdx (indexElems 0 P) else []).
    { rewrite idx_cons. unfold polyNode. rewrite idx_elem by (destruct closed; discriminate). cbn [app allIdx flat_map]. change (flat_map idxOf (flat_map elems ?z)) with (allIdx z). rewrite !idx_app.
      replace (allIdx (if dShowPts v then _ else [])) with (@nil (string * string * string)).
      2: { destruct (dShowPts v); [|reflexivity]. rewrite idx_elem by discriminate. now rewrite idx_points. }
      replace (allIdx (if dShowAng v then _ else [])) with (@nil (string * string * string)) by (destruct (dShowAng v); [symmetry; apply idx_texts|reflexivity]).
      rewrite !app_nil_r. destruct (dShowIdx v); [|reflexivity]. now rewrite idx_elem by discriminate. }
    destruct (dShowIdx v || dShowPts v)%bool; [rewrite idx_elem by discriminate|]; exact A. }
  rewrite E. destruct (dShowIdx v); [apply idx_indexes|reflexivity].
Qed.
Example C176_ex : itemOK (mkItem parShow userAttrs (DrPoly true [(1, 1); (20, 3); (Qmake (-15) 2, 12)]%Q ["12.5"; "33"]%string)) /\ dShowIdx parShow = true /\ qTrunc (Qmake (-15) 2) = (-7)%Z.
Proof. split; [|split; reflexivity]. destruct holds_show. split; [assumption|split; [unfold colorOK; cbn; lia|cbn; repeat constructor]]. Qed.

(** The size is only returned if the root element gives both values. *)
Lemma size_both l : forall w h r, sizeGo (N := RNum) l w h = Ok r ->
  (w = -1 -> In "width"%string (map fst l)) /\ (h = -1 -> In "height"%string (map fst l)).
Proof.
  induction l as [|[a s] l IH]; intros w h r E.
  - cbn [sizeGo] in E. split; intros ->; exfalso; destruct (_ || _)%bool eqn:B in E; try discriminate; apply orb_false_iff in B; destruct B as [B1 B2]; revert B1 B2; rnum; intros B1 B2; [apply Reqb_false in B1; apply B1; lra|apply Reqb_false in B2; apply B2; lra].
  - cbn [sizeGo] in E. cbn [map fst In]. destruct (String.eqb_spec a "width") as [EW|NW], (String.eqb_spec a "height") as [EH|NH]; try congruence.
    + apply bind_ok in E. destruct E as (w2 & _ & E). cbn [bind] in E. apply IH in E. tauto.
    + cbn [bind] in E. apply bind_ok in E. destruct E as (h2 & _ & E). apply IH in E. tauto.
    + cbn [bind] in E. apply IH in E. tauto.
Qed.
Theorem C176_size n l k r : getImgSize (N := RNum) (XElem n l k) = Ok r -> In "width"%string (map fst l) /\ In "height"%string (map fst l).
Proof. intros E. apply size_both in E. destruct E as [A B]. split; [apply A|apply B]; rnum; lra. Qed.
Print Assumptions C159_fill. Print Assumptions C175_stroke. Print Assumptions C175_text. Print Assumptions C176_indexes. Print Assumptions C176_size.
