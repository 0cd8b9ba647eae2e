(** * Proofs: reading back the SVG text written *)

From Coq Require Import String Ascii.
From Coq Require Import Reals ZArith QArith Qreals List Bool Arith Lia Lra.
From Verif Require Import Num M_LP M_Seg M_Circle M_Poly M_FRect M_Misc M_Ellipse M_Svg M_Fmt M_Draw M_SvgOut M_SvgIn
  S_Geom S_Svg S_Xml S_SvgOut S_SvgIn S_Ellipse P_LP P_LP2 P_BB P_Poly7 P_Svg P_Svg3 P_Svg4 P_Xml P_Fmt P_SvgOut.
Import ListNotations.
Local Open Scope R_scope.

(** ** Numbers *)
Definition rd0 (x : Q) : R := match stod (N := RNum) (fmt x) with Ok v => v | _ => 0 end.
Lemma rd0_ok x : stod (N := RNum) (fmt x) = Ok (rd0 x) /\ closeTo6 (rd0 x) (Q2R x).
Proof.
  unfold rd0. destruct (stod_fmt x) as (v & E & A & B). rewrite E. split; auto. split; auto. intros (k & j & K & X). now apply (B k j).
Qed.
Lemma allS_in f s c : allS f s = true -> In c (list_ascii_of_string s) -> f c = true.
Proof. induction s as [|x s IH]; [intros _ []|]. cbn [allS]. intros A [<-|I]; apply andb_prop in A; tauto. Qed.
Lemma fmt_no x c : numC c = false -> ~ In c (list_ascii_of_string (fmt x)).
Proof. intros N I. apply (allS_in numC) in I; [congruence|]. apply fmt_numC. Qed.
Lemma fmtInt_read n : stod (N := RNum) (fmtInt n) = Ok (IZR n).
Proof.
  assert (G : forall (neg : bool) m, (0 <= m)%Z -> stod (N := RNum) (if neg then String "-" (natText 1 m) else natText 1 m) = Ok ((if neg then -1 else 1) * IZR m)).
  { intros neg m M. destruct (natText_span 1 m M) as (l & L1 & L2 & L3 & ->). pose proof (stodU_text neg l [] None L3 L1 ltac:(constructor)) as S. cbn [fracText append length Z.of_nat] in S. rewrite sapp_nil, app_nil_r, L2 in S.
    change (0 - 0)%Z with 0%Z in S. rewrite p10_0, Rmult_1_r in S. destruct neg; [exact S|]. rewrite <- S. destruct l as [|d l]; [congruence|]. inversion L3; subst. cbn [digText]. now apply stod_dig. }
  unfold fmtInt. destruct (Z.ltb_spec n 0).
  - rewrite (G true (- n)%Z) by lia. rewrite opp_IZR. f_equal. ring.
  - rewrite (G false n) by lia. f_equal. ring.
Qed.

Lemma plSet_apart th (m : list (pt R)) : (2 <= length m)%nat -> apart (nullDistance th) m ->
  (forall p q, hd_error m = Some p -> hd_error (rev m) = Some q -> nullDistance th <= edist p q) -> dropLastIfFirst th m = Ok m /\ plSet th m = Ok (plFresh m).
Proof.
  intros L A F. destruct m as [|a m]; [cbn in L; lia|]. assert (E : exists q, hd_error (rev (a :: m)) = Some q /\ last (a :: m) pt00 = q).
  { destruct (@exists_last _ (a :: m)) as (l & q & E); [discriminate|]. rewrite E, rev_app_distr, last_last. exists q. auto. }
  destruct E as (q & E1 & E2). assert (NE : ptEq th a q = false) by (apply ptEq_false; now apply F).
  assert (NC : forall m : list (pt R), apart (nullDistance th) m -> noConsecEq th m = true).
  { clear. induction m as [|p m IH]; intros A; [reflexivity|]. destruct m as [|q m]; [reflexivity|]. destruct A as [A1 A2]. cbn [noConsecEq]. rewrite (proj2 (ptEq_false th p q) A1). exact (IH A2). }
  split.
  - unfold dropLastIfFirst. now rewrite E2, NE.
  - unfold plSet. replace (length (a :: m) =? 1)%nat with false by (symmetry; apply Nat.eqb_neq; lia). unfold plCheck. rewrite (NC _ A), E2. cbn [hd]. rewrite NE. cbn [negb andb]. now rewrite andb_false_r.
Qed.

Section Read.
  Variable rd : Q -> R.
  Hypothesis RD : forall x, stod (N := RNum) (fmt x) = Ok (rd x).
  Notation P := (rdPt rd).
  Lemma parsePoint_fmt p : parsePoint (N := RNum) (fmt (fst p) ++ "," ++ fmt (snd p)) = Ok (P p).
  Proof.
    unfold parsePoint, tokenize. cbn [append]. rewrite tokGo_app by (now apply fmt_no). rewrite tokGo_last; [|now apply fmt_no|cbn [append]; apply fmt_numC].
    cbn [append]. rewrite !RD. reflexivity.
  Qed.
  Lemma points_fmt l : parsePoints (N := RNum) (pointsAttr l) = Ok (map P l).
  Proof.
    unfold parsePoints, tokenize. induction l as [|p l IH]; [reflexivity|]. cbn [pointsAttr].
    replace (fmt (fst p) ++ "," ++ fmt (snd p) ++ " " ++ pointsAttr l)%string with ((fmt (fst p) ++ "," ++ fmt (snd p)) ++ String " " (pointsAttr l))%string by (rewrite !sapp_assoc; reflexivity).
    rewrite tokGo_app.
    - change ("" ++ ?a)%string with a. change (mapM ?f (?x :: ?y)) with (do u <- f x; do v <- mapM f y; Ok (u :: v)). rewrite parsePoint_fmt. cbn [bind]. rewrite IH. reflexivity.
    - intros I. rewrite las_app in I. apply in_app_or in I as [I|I]; [revert I; now apply fmt_no|]. cbn in I. destruct I as [I|I]; [discriminate|]. revert I. now apply fmt_no.
  Qed.
  Lemma rotate_fmt a c : ellipseRotate (N := RNum) ("rotate(" ++ fmt a ++ "," ++ fmt (fst c) ++ "," ++ fmt (snd c) ++ ")") = Ok (P c, rd a * PI / 180).
  Proof.
    unfold ellipseRotate. set (b := (fmt a ++ "," ++ fmt (fst c) ++ "," ++ fmt (snd c))%string).
    assert (tokenize ("rotate(" ++ fmt a ++ "," ++ fmt (fst c) ++ "," ++ fmt (snd c) ++ ")") "(" = ["rotate"%string; (b ++ ")")%string]) as ->.
    { replace ("rotate(" ++ fmt a ++ "," ++ fmt (fst c) ++ "," ++ fmt (snd c) ++ ")")%string with ("rotate" ++ String "(" (b ++ ")"))%string
        by (unfold b; rewrite !sapp_assoc; reflexivity).
      unfold tokenize. rewrite tokGo_app by (cbn; intuition discriminate). cbn [append]. f_equal. rewrite tokGo_last; [reflexivity| |cbn [append]; destruct b; discriminate].
      unfold b. rewrite !las_app. intros I. repeat (apply in_app_or in I as [I|I]); try (revert I; apply fmt_no; reflexivity); cbn in I; intuition discriminate. }
    rewrite String.eqb_refl, slen_app. replace (String.length b + String.length ")" - 1)%nat with (String.length b) by (cbn; lia). rewrite substring_all.
    unfold tokenize, b. cbn [append]. rewrite tokGo_app by (apply fmt_no; auto). rewrite tokGo_app by (apply fmt_no; auto).
    rewrite tokGo_last; [|apply fmt_no; auto|cbn [append]; apply fmt_numC]. cbn [append]. rewrite !RD. reflexivity.
  Qed.

  (** ** Trees *)
  Variables (th : thrs R) (nc : bool).
  Hypothesis TH : thr_ok th.
  Hypothesis TD : nullDeter th <= 1.
  Notation visit := (visit (N := RNum) th nc).
  Fixpoint visitL (k : list xnode) : res (list (sobj R)) :=
    match k with [] => Ok [] | y :: r => do b <- visit y; do c <- visitL r; Ok (b ++ c)%list end.
  Lemma visit_elem n l k : visit (XElem n l k) = do a <- visitL k; do b <- visitExit (N := RNum) th nc n l; Ok (a ++ b)%list.
  Proof. reflexivity. Qed.
  Lemma visitL_app a b x y : visitL a = Ok x -> visitL b = Ok y -> visitL (a ++ b) = Ok (x ++ y)%list.
  Proof.
    revert x. induction a as [|n a IH]; intros x A B.
    - cbn in A. apply Ok_inj in A. now subst x.
    - cbn [app visitL] in *. apply bind_ok in A as (u & U & A). apply bind_ok in A as (w & W & A). apply Ok_inj in A. subst x. rewrite U. cbn [bind]. rewrite (IH w W B). cbn [bind]. now rewrite app_assoc.
  Qed.
  Lemma visitL_one n o : visit n = Ok o -> visitL [n] = Ok o.
  Proof. intros H. cbn [visitL]. rewrite H. cbn [bind]. now rewrite app_nil_r. Qed.
  Lemma visitL_group k o : visitL k = Ok o -> visit (XElem "g" [] k) = Ok o.
  Proof. intros H. rewrite visit_elem, H. cbn. now rewrite app_nil_r. Qed.
  Lemma attrOf_skip n l r : ~ In n (map fst l) -> attrOf n (l ++ r) = attrOf n r.
  Proof.
    intros H. induction l as [|[a v] l IH]; [reflexivity|]. cbn [app attrOf]. destruct (String.eqb_spec a n) as [->|NE]; [exfalso; apply H; now left|]. apply IH. intros I. apply H. now right.
  Qed.
  Lemma attrOf_user v l n s : holdsAttrs v l -> In n reserved -> attrOf n (fillAttrs v ++ l ++ [(n, s)]) = Some s.
  Proof.
    intros (_ & _ & R) I. rewrite attrOf_skip.
    - rewrite attrOf_skip by (intros J; now apply (R n J)). cbn [attrOf]. now rewrite String.eqb_refl.
    - unfold fillAttrs. destruct (holdsFill v); [intros []|]. cbn [map fst]. intros [<-|[]]. cbv in I. intuition discriminate.
  Qed.
  Lemma visit_text n l t : visit (XElem "text" l (charData t)) = Ok [] /\ visit (XElem "text" l [XText n]) = Ok [].
  Proof. split; [unfold charData; destruct (blank t)|]; reflexivity. Qed.
  Lemma visit_item cols rows i : holdsAttrs (iPar i) (iAttrs i) -> itemValid rd th i -> exists o, visitL (itemNodes cols rows i) = Ok o /\ itemReads rd i o.
  Proof.
    intros H V. destruct i as [v l d]. cbn [iPar iAttrs] in H. unfold itemValid in V. cbn [iPar iDraw] in V. unfold itemNodes, itemReads. cbn [iPar iAttrs iDraw]. destruct d as [c r|c rx ry deg|p w h|p q|p q arr|p|closed pts angles|t p].
    - eexists. split; [|reflexivity]. apply visitL_one. unfold circleNode. rewrite visit_elem. cbn [visitL bind app]. unfold visitExit, getAttribValue, getAttribString. cbn [String.eqb Ascii.eqb Bool.eqb attrOf app fst snd bind].
      rewrite !RD. cbn [bind]. unfold cNew, radiusOk. pose proof (thr_dist th TH). rnum. rewrite Rabs_right by lra. rewrite (proj2 (Rltb_false (rd r) (nullDistance th))) by lra. rewrite (proj2 (Rltb_false (rd r) 0)) by lra. reflexivity.
    - destruct (svgEllipse_rot th (rd (fst c)) (rd (snd c)) (rd rx) (rd ry) _ _ _ TH TD V (rotate_fmt deg c)) as (e & E & C). exists [SoEll e]. split; [|eauto].
      apply visitL_one. unfold ellipseNode. rewrite visit_elem. cbn [visitL bind app]. unfold visitExit, getAttribValue, getAttribString. cbn [String.eqb Ascii.eqb Bool.eqb attrOf app fst snd bind strokeAttrs].
      rewrite !RD. cbn [bind]. rewrite (attrOf_user v l) by (auto; cbn; tauto). cbn [bind]. rewrite E. reflexivity.
    - eexists. split; [|reflexivity]. apply visitL_one. unfold rectNode. rewrite visit_elem. cbn [visitL bind app]. unfold visitExit, getAttribValue, getAttribString. cbn [String.eqb Ascii.eqb Bool.eqb attrOf app fst snd bind].
      rewrite !RD. cbn [bind]. unfold frSet4, frSet. pose proof (thr_orth th TH) as TO. destruct V as [V1 V2].
      rewrite (proj2 (shareCoord_false th _ _)); [|cbn [px py]; rnum; split; [rewrite Rabs_left1|rewrite Rabs_left1]; lra]. cbn [bind px py]. unfold nmin, nmax. rnum.
      rewrite (proj2 (Rltb_false (rd (fst p) + rd w) (rd (fst p)))), (proj2 (Rltb_false (rd (snd p) + rd h) (rd (snd p)))), (proj2 (Rltb_spec (rd (fst p)) (rd (fst p) + rd w))), (proj2 (Rltb_spec (rd (snd p)) (rd (snd p) + rd h))) by lra. reflexivity.
    - destruct V as (S & B & D). eexists. split; [|reflexivity]. apply visitL_one. unfold segmentNode. rewrite S. unfold lineNode. rewrite visit_elem. cbn [visitL bind app]. unfold visitExit, getAttribValue, getAttribString. cbn [String.eqb Ascii.eqb Bool.eqb attrOf app fst snd bind].
      rewrite !RD. cbn [bind]. fold (P p) (P q). unfold svNew. rewrite (proj2 (ptEq_false th _ _) D). unfold segOrder, fixOrder, ptLt. cbn [sA sB bind]. rnum.
      destruct B as [B|[B1 B2]].
      + rewrite (proj2 (Rltb_spec (px (P p)) (px (P q)))) by lra. reflexivity.
      + rewrite (proj2 (Rltb_false (px (P p)) (px (P q)))) by lra. rewrite (proj2 (Rltb_false (px (P q)) (px (P p)))) by lra. rewrite (proj2 (Rltb_spec (py (P p)) (py (P q)))) by lra. reflexivity.
    - destruct V.
    - destruct V.
    - destruct V as (S & L & A & FL). eexists. split; [|reflexivity].
      assert (PN : visit (polyNode v l closed pts) = Ok [SoPoly closed (plFresh (map P pts))]).
      { unfold polyNode. rewrite visit_elem. cbn [visitL bind app].
        assert (SP : svgPolygon (N := RNum) th (pointsAttr pts) = Ok (plFresh (map P pts))).
        { unfold svgPolygon, importSvgPoints. rewrite points_fmt. cbn [bind]. destruct (plSet_apart th (map P pts)) as [D1 D2]; [now rewrite map_length|exact A| |now rewrite D1].
          intros a b Ha Hb. rewrite <- map_rev in Hb. destruct pts as [|x pts]; [discriminate|]. destruct (rev (x :: pts)) as [|y r] eqn:E; [discriminate|]. cbn in Ha, Hb. injection Ha as <-. injection Hb as <-. now apply (FL x y). }
        assert (AT : attrOf "points" (strokeAttrs v ++ fillAttrs v ++ l ++ [("points"%string, pointsAttr pts)]) = Some (pointsAttr pts)).
        { unfold strokeAttrs. cbn [app attrOf String.eqb Ascii.eqb Bool.eqb]. apply attrOf_user; auto. cbn. tauto. }
        unfold visitExit, getAttribString. rewrite AT. destruct closed; cbn [String.eqb Ascii.eqb Bool.eqb bind]; rewrite SP; reflexivity. }
      unfold polyNodes. rewrite S. destruct pts as [|p [|q pts]]; [cbn in L; lia|cbn in L; lia|]. set (L0 := p :: q :: pts) in *.
      assert (T1 : forall i m, visitL (indexElems i m) = Ok []) by (intros i m; revert i; induction m as [|x m IH]; intros i; [reflexivity|]; cbn [indexElems visitL]; unfold indexElem; rewrite (proj2 (visit_text _ _ "")); cbn [bind]; now rewrite IH).
      assert (T2 : forall a m, visitL (angleElems a m) = Ok []).
      { intros a m. unfold angleElems. induction (combine a m) as [|x k IH]; [reflexivity|]. cbn [map visitL]. unfold textElem at 1. rewrite (proj1 (visit_text "" _ _)). cbn [bind]. rewrite IH. reflexivity. }
      assert (K : visitL (polyNode v l closed L0 :: ((if dShowIdx v then [XElem "g" [] (indexElems 0 L0)] else []) ++ [] ++ (if dShowAng v then angleElems angles (tl L0) else []))%list) = Ok [SoPoly closed (plFresh (map P L0))]).
      { change (polyNode v l closed L0 :: ?r) with ([polyNode v l closed L0] ++ r)%list. rewrite <- (app_nil_r [SoPoly _ _]). apply visitL_app; [now apply visitL_one|]. apply (visitL_app _ _ [] []).
        - destruct (dShowIdx v); [|reflexivity]. apply visitL_one, visitL_group, T1.
        - destruct (dShowAng v); [apply T2|reflexivity]. }
      cbn zeta. unfold L0 at 1. destruct (dShowIdx v || false)%bool; [now apply visitL_one, visitL_group|exact K].
    - eexists. split; [|reflexivity]. apply visitL_one. unfold textElem. apply (proj1 (visit_text "" _ _)).
  Qed.
End Read.

Theorem import_items rd th nc cols rows l : (forall x, stod (N := RNum) (fmt x) = Ok (rd x)) -> thr_ok th -> nullDeter th <= 1 ->
  Forall itemOK l -> Forall (itemValid rd th) l ->
  exists o, importSvg (N := RNum) th nc (drawFile cols rows (map (fun i => (iPar i, iDraw i)) l)) = Ok (concat o) /\ Forall2 (itemReads rd) l o.
Proof.
  intros RD TH TD O V. unfold importSvg. rewrite file_tree by auto.
  assert (G : exists o, visitL th nc (flat_map (itemNodes cols rows) l) = Ok (concat o) /\ Forall2 (itemReads rd) l o).
  { induction O as [|i l I O IH]; [exists []; split; [reflexivity|constructor]|]. inversion V; subst. destruct IH as (o & E & F); auto.
    destruct (visit_item rd RD th nc TH TD cols rows i) as (a & Ea & Fa); [apply I|auto|]. exists (a :: o). split; [|constructor; auto]. cbn [flat_map concat]. now apply visitL_app. }
  destruct G as (o & E & F). exists o. split; auto. unfold svgRoot. rewrite visit_elem. cbn [visitL]. change (visit th nc (XElem "style" [] [XText cssText])) with (@Ok (list (sobj R)) []). cbn [bind app].
  rewrite E. cbn. now rewrite app_nil_r.
Qed.
Theorem size_read cols rows kids : (0 <= cols)%Z -> (0 <= rows)%Z -> getImgSize (N := RNum) (svgRoot cols rows kids) = Ok (IZR cols, IZR rows).
Proof.
  intros C W. unfold getImgSize, svgRoot. cbn [sizeGo String.eqb Ascii.eqb Bool.eqb bind]. rewrite !fmtInt_read. cbn [bind]. apply IZR_le in C, W. rnum.
  rewrite (proj2 (Reqb_false (IZR cols) (- (1)))) by lra. rewrite (proj2 (Reqb_false (IZR rows) (- (1)))) by lra. reflexivity.
Qed.
