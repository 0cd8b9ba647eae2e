(** * C157-C162: SVG text written, and reading it back *)

From Coq Require Import String Ascii.
From Coq Require Import Floats Reals ZArith QArith Qreals List Bool Arith Lia Lra.
From Verif Require Import Num M_LP M_Seg M_Circle M_Poly M_FRect M_Ellipse M_Svg M_Fmt M_Draw M_SvgOut M_SvgIn
  S_Geom S_Svg S_Xml S_SvgOut S_SvgIn P_LP P_SvgOut P_SvgIn.
Import ListNotations.
Local Open Scope R_scope.

(** ** C157: numbers *)
Theorem C157_number (x : Q) : exists v, stod (N := RNum) (fmt x) = Ok v /\ closeTo6 v (Q2R x).
Proof. exists (rd0 x). apply rd0_ok. Qed.
Theorem C157_integer (n : Z) : stod (N := RNum) (fmtInt n) = Ok (IZR n).
Proof. apply fmtInt_read. Qed.
Theorem C157_chars (x : Q) : fmt x <> ""%string /\ forall c, In c (list_ascii_of_string (fmt x)) -> In c (list_ascii_of_string "0123456789+-.e").
Proof.
  split; [apply fmt_numC|]. intros c I. apply (allS_in numC) in I; [|apply fmt_numC]. revert I. clear.
  destruct c as [[] [] [] [] [] [] [] []]; cbn; intros H; try discriminate; tauto.
Qed.
Example C157_ex : map fmt [0; (Qmake 1 3); (Qmake (-12345678) 1); (Qmake 1 100000); (Qmake 5 2)]%Q = ["0"; "0.333333"; "-1.23457e+07"; "1e-05"; "2.5"]%string /\ sixDigits (Q2R ((Qmake 5 2))).
Proof.
  split; [vm_compute; reflexivity|]. exists 25%Z, (-1)%Z. split; [cbn; lia|]. unfold Q2R. cbn. change (Pos.to_nat 1) with 1%nat. lra.
Qed.

(** ** C158: seven digits *)
Theorem C158_refuted : exists x : Q, exists v, Qden x = 1%positive /\ stod (N := RNum) (fmt x) = Ok v /\ v <> Q2R x.
Proof.
  exists (Qmake 1234567 1)%Q. assert (E : fmt (Qmake 1234567 1) = fmt (Qmake 1234570 1)) by (vm_compute; reflexivity). rewrite E.
  destruct (C157_number (Qmake 1234570 1)) as (v & S & _ & X). exists v. split; [reflexivity|]. split; auto. rewrite X; [unfold Q2R; cbn; intros D; lra|].
  exists 123457%Z, 1%Z. split; [cbn; lia|]. unfold Q2R. cbn. change (Pos.to_nat 1) with 1%nat. lra.
Qed.

(** ** C159: the document *)
Theorem C159_document cols rows l : Forall itemOK l ->
  xread (drawFile cols rows (map (fun i => (iPar i, iDraw i)) l)) = Some (svgRoot cols rows (flat_map (itemNodes cols rows) l)).
Proof. apply file_tree. Qed.
Theorem C159_size cols rows l : (0 <= cols)%Z -> (0 <= rows)%Z -> Forall itemOK l ->
  exists x, xread (drawFile cols rows (map (fun i => (iPar i, iDraw i)) l)) = Some x /\ getImgSize (N := RNum) x = Ok (IZR cols, IZR rows).
Proof. intros C R O. eexists. split; [now apply file_tree|]. now apply size_read. Qed.
(** A program drawing one object of each kind, with user attributes, indexes and points shown. *)
Definition parShow : dpv := mkDp (mkCol 255 0 16) 2 4 1 5 3 false true true true 20 "fill=""red"" opacity=""0.5""".
Definition parPlain : dpv := mkDp (mkCol 0 0 200) 1 4 1 5 0 false false false false 20 "opacity=""0.5""".
Definition userAttrs : list (string * string) := [("fill", "red"); ("opacity", "0.5")]%string.
Definition userAttrs1 : list (string * string) := [("opacity", "0.5")]%string.
Lemma holds_show : holdsAttrs parShow userAttrs /\ holdsAttrs parPlain userAttrs1.
Proof.
  split; (split; [reflexivity|]); (split; [split; [cbn; repeat constructor; cbn; intuition discriminate|repeat constructor]|]); cbn; intuition (subst; cbn in *; intuition discriminate).
Qed.
Definition sample : list item :=
  [mkItem parShow userAttrs (DrPoly true [(1, 1); (20, 3); ((Qmake 15 2), 12)]%Q ["12.5"; "33"]%string);
   mkItem parShow userAttrs (DrSegment (2, 3)%Q (50, 60)%Q);
   mkItem parShow userAttrs (DrPoint (7, 8)%Q);
   mkItem parPlain userAttrs1 (DrCircle (10, 20)%Q (Qmake 5 2));
   mkItem parPlain userAttrs1 (DrText "hello" (10, 20)%Q)].
Example C159_ex : Forall itemOK sample /\ length (flat_map (itemNodes 100 100) sample) = 8%nat.
Proof.
  split; [|vm_compute; reflexivity]. destruct holds_show. unfold sample.
  repeat (apply Forall_cons; [split; [assumption|split; [unfold colorOK; cbn; lia|cbn; repeat constructor]]|]). constructor.
Qed.

(** ** C160: round trip *)
Theorem C160_import : exists rd : Q -> R, (forall x, closeTo6 (rd x) (Q2R x)) /\
  forall th nc cols rows l, thr_ok th -> nullDeter th <= 1 -> Forall itemOK l -> Forall (itemValid rd th) l ->
  exists o, importSvg (N := RNum) th nc (drawFile cols rows (map (fun i => (iPar i, iDraw i)) l)) = Ok (concat o) /\ Forall2 (itemReads rd) l o.
Proof.
  exists rd0. split; [apply rd0_ok|]. intros. apply import_items; auto. apply rd0_ok.
Qed.
(** Numbers written for a drawing. *)
Definition ptNums (p : qpt) : list Q := [fst p; snd p].
Definition itemNums (i : item) : list Q :=
  match iDraw i with
  | DrCircle c r => r :: ptNums c
  | DrEllipse c rx ry deg => rx :: ry :: deg :: ptNums c
  | DrRect p w h => w :: h :: ptNums p
  | DrSegment p q => ptNums p ++ ptNums q
  | DrPoly _ l _ => flat_map ptNums l
  | _ => []
  end.
Lemma pts_agree (f g : Q -> R) l : (forall x, In x (flat_map ptNums l) -> f x = g x) -> map (rdPt f) l = map (rdPt g) l.
Proof.
  intros H. induction l as [|p l IH]; [reflexivity|]. cbn [map]. rewrite IH by (intros; apply H; cbn; tauto). f_equal. unfold rdPt. rewrite !H by (cbn; tauto). reflexivity.
Qed.
Lemma valid_agree (f g : Q -> R) th i : (forall x, In x (itemNums i) -> f x = g x) -> itemValid f th i -> itemValid g th i.
Proof.
  unfold itemNums, itemValid. destruct (iDraw i) as [c r|c rx ry deg|p w h|p q|p q arr|p|closed pts angles|t p]; intros H V; auto.
  - rewrite <- H; auto. cbn; tauto.
  - rewrite <- !H; auto; cbn; tauto.
  - rewrite <- !H; auto; cbn; tauto.
  - pose proof (pts_agree f g [p; q]) as E. cbn [map flat_map] in E. rewrite app_nil_r in E. specialize (E H). injection E as E1 E2 E3 E4. unfold rdPt in *. rewrite <- E1, <- E2, <- E3, <- E4. exact V.
  - destruct V as (S & L & A & F). rewrite <- (pts_agree f g) by exact H. repeat split; auto. intros p q Hp Hq.
    assert (I : forall x, In x pts -> rdPt g x = rdPt f x).
    { intros x X. unfold rdPt. rewrite !H; auto; apply in_flat_map; exists x; cbn; tauto. }
    rewrite (I p), (I q); [now apply F| |].
    + destruct (rev pts) as [|y r] eqn:E; [discriminate|]. injection Hq as ->. apply in_rev. rewrite E. now left.
    + destruct pts; [discriminate|]. injection Hp as ->. now left.
Qed.
Lemma reads_agree (f g : Q -> R) i o : (forall x, In x (itemNums i) -> f x = g x) -> itemReads f i o -> itemReads g i o.
Proof.
  unfold itemNums, itemReads. destruct (iDraw i) as [c r|c rx ry deg|p w h|p q|p q arr|p|closed pts angles|t p]; intros H V; auto.
  - rewrite V. unfold rdPt. rewrite !H by (cbn; tauto). reflexivity.
  - destruct V as (e & E & C). exists e. split; auto. intros p. rewrite C, !H by (cbn; tauto). reflexivity.
  - rewrite V. unfold rdPt. rewrite !H by (cbn; tauto). reflexivity.
  - rewrite V. unfold rdPt. rewrite !H by (cbn; tauto). reflexivity.
  - rewrite V. now rewrite (pts_agree f g).
Qed.
Theorem C160_exact th nc cols rows l : thr_ok th -> nullDeter th <= 1 -> Forall itemOK l -> Forall (itemValid Q2R th) l ->
  (forall i x, In i l -> In x (itemNums i) -> sixDigits (Q2R x)) ->
  exists o, importSvg (N := RNum) th nc (drawFile cols rows (map (fun i => (iPar i, iDraw i)) l)) = Ok (concat o) /\ Forall2 (itemReads Q2R) l o.
Proof.
  intros TH TD O V S. assert (E : forall i x, In i l -> In x (itemNums i) -> rd0 x = Q2R x) by (intros i x I X; apply rd0_ok; eauto).
  destruct (import_items rd0 th nc cols rows l) as (o & A & B); auto.
  - intros; apply rd0_ok.
  - apply Forall_forall. intros i I. rewrite Forall_forall in V. apply (valid_agree Q2R); auto. intros x X. symmetry. eauto.
  - exists o. split; auto. clear - B E. induction B as [|i k l o H B IH]; constructor.
    + apply (reads_agree rd0); auto. intros x X. apply (E i); auto. now left.
    + apply IH. intros j x I X. apply (E j); auto. now right.
Qed.
Definition sample2 : list item :=
  [mkItem parPlain userAttrs1 (DrCircle (10, 20)%Q (Qmake 5 2));
   mkItem parPlain userAttrs1 (DrRect (1, 2)%Q 30 40);
   mkItem parPlain userAttrs1 (DrSegment (1, 2)%Q (1, 7)%Q);
   mkItem parPlain userAttrs1 (DrPoly true [(0, 0); (20, 0); (0, 12)]%Q []);
   mkItem parPlain userAttrs1 (DrPoly false [(0, 0); (20, 0); (0, 12)]%Q []);
   mkItem parPlain userAttrs1 (DrEllipse (10, 20)%Q 5 4 30);
   mkItem parPlain userAttrs1 (DrText "hello" (10, 20)%Q)].
Lemma six_int n d : (Z.abs n < 10 ^ 6)%Z -> d = 1%positive -> sixDigits (Q2R (Qmake n d)).
Proof. intros H ->. exists n, 0%Z. split; auto. unfold Q2R. cbn. lra. Qed.
Lemma edist_far (p q : pt R) d : (d <= Rabs (px p - px q) \/ d <= Rabs (py p - py q)) -> d <= edist p q.
Proof.
  intros H. unfold edist. apply Rle_trans with (Rmax (Rabs (px p - px q)) (Rabs (py p - py q))); [destruct H as [H|H]; (eapply Rle_trans; [exact H|]); [apply Rmax_l|apply Rmax_r]|].
  apply Rmax_lub; rewrite <- sqrt_Rsqr_abs; apply sqrt_le_1_alt; pose proof (Rle_0_sqr (px p - px q)); pose proof (Rle_0_sqr (py p - py q)); lra.
Qed.
Ltac far := apply edist_far; unfold rdPt, Q2R; cbn [px py fst snd Qnum Qden inject_Z]; solve [left; unfold Rabs; destruct (Rcase_abs _); lra|right; unfold Rabs; destruct (Rcase_abs _); lra].
Example C160_ex : Forall itemOK sample2 /\ Forall (itemValid Q2R thr0) sample2 /\ (forall i x, In i sample2 -> In x (itemNums i) -> sixDigits (Q2R x)).
Proof.
  split; [|split].
  - destruct holds_show. unfold sample2. repeat (apply Forall_cons; [split; [assumption|split; [unfold colorOK; cbn; lia|cbn; repeat constructor]]|]). constructor.
  - assert (T : nullDistance (thr0 (N := RNum)) <= 1 /\ nullOrthogDistance (thr0 (N := RNum)) <= 1) by (unfold thr0; cbn; rnum; lra).
    destruct T as (T1 & T2). unfold sample2. repeat apply Forall_cons; try constructor; unfold itemValid; cbn [iDraw iPar].
    all: try (unfold Q2R; cbn [Qnum Qden inject_Z]; lra).
    all: try reflexivity.
    + split; [right; unfold rdPt, Q2R; cbn [px py fst snd Qnum Qden]; lra|far].
    + split; [cbn; lia|]. split; [cbn [map apart]; repeat split; far|]. intros p q P Q. cbn in P, Q. injection P as <-. injection Q as <-. far.
    + split; [cbn; lia|]. split; [cbn [map apart]; repeat split; far|]. intros p q P Q. cbn in P, Q. injection P as <-. injection Q as <-. far.
  - intros i x I X. unfold sample2 in I. cbn [In] in I.
    assert (F : sixDigits (Q2R (Qmake 5 2))) by apply C157_ex.
    repeat (destruct I as [<-|I]); [..|destruct I]; cbn in X; repeat (destruct X as [<-|X]); try destruct X; try exact F; apply six_int; solve [reflexivity|cbn; lia].
Qed.

(** ** C161: an open polyline that comes back to its first point *)
Definition fp (c : Z * Z) : pt float := mkPt (@nZ _ FNum (fst c)) (@nZ _ FNum (snd c)).
Definition qp (c : Z * Z) : qpt := (inject_Z (fst c), inject_Z (snd c)).
Theorem C161_refuted : exists l : list (Z * Z), plAddAll (N := FNum) (thr0 (N := FNum)) plEmpty (map fp l) = Ok (plFresh (map fp l)) /\
  importSvg (N := FNum) (thr0 (N := FNum)) false (drawFile 100 100 [(dpFactory, DrPoly false (map qp l) [])]) = Ok [SoPoly false (plFresh (map fp (removelast l)))] /\
  length l = 4%nat.
Proof. exists [(0, 0); (10, 0); (10, 10); (0, 0)]%Z. vm_compute. auto. Qed.

(** ** C162: points told apart by the library, written alike *)
Theorem C162_refuted : exists l : list (Z * Z), plSet (N := FNum) (thr0 (N := FNum)) (map fp l) = Ok (plFresh (map fp l)) /\
  importSvg (N := FNum) (thr0 (N := FNum)) false (drawFile 100 100 [(dpFactory, DrPoly true (map qp l) [])]) = Throw.
Proof. exists [(1000001, 0); (1000002, 0); (0, 5)]%Z. vm_compute. auto. Qed.

(** ** C163: any text, any attributes *)
Theorem C163_text_refuted : exists t, xread (drawFile 100 100 [(dpFactory, DrText t (0, 0)%Q)]) = None.
Proof. exists "a<b"%string. vm_compute. reflexivity. Qed.
Theorem C163_attr_refuted : exists v l, dAttr v = joinAttrs l /\ attrsOK l /\ xread (drawFile 100 100 [(v, DrCircle (10, 10)%Q 5)]) = None.
Proof.
  exists (mkDp (mkCol 0 0 0) 1 4 1 5 0 false false false false 20 "stroke=""red"""), [("stroke", "red")]%string.
  split; [reflexivity|]. split; [|vm_compute; reflexivity]. split; [cbn; repeat constructor; cbn; intuition discriminate|repeat constructor].
Qed.

(** ** C164: no filling by default *)
Theorem C164_refuted : exists v l, holdsAttrs v l /\ ~ In "fill"%string (map fst l) /\
  forall cols rows, exists a k, (exists css, xread (drawFile cols rows [(v, DrCircle (10, 10)%Q 5)]) = Some (XElem "svg" css [XElem "style" [] [XText cssText]; XElem "circle" a k])) /\ ~ In "fill"%string (map fst a).
Proof.
  set (v := mkDp (mkCol 0 0 0) 1 4 1 5 0 false false false false 20 "data-fill=""x"""). set (l := [("data-fill", "x")]%string). exists v, l.
  assert (H : holdsAttrs v l).
  { split; [reflexivity|]. split; [split; [cbn; repeat constructor; cbn; intuition discriminate|repeat constructor]|]. cbn. intros a [<-|[]]. cbn. intuition discriminate. }
  split; [exact H|]. split; [cbn; intuition discriminate|]. intros cols rows.
  pose proof (file_tree cols rows [mkItem v l (DrCircle (10, 10)%Q 5)]) as E. eexists _, _. split; [eexists; apply E; constructor; [split; [exact H|split; [unfold colorOK; cbn; lia|exact I]]|constructor]|].
  cbn. intuition discriminate.
Qed.

(** ** C165: an ellipse without a rotation *)
Theorem C165_refuted : exists s x y, xread s = Some (XElem "svg" [] [x; y]) /\
  visit (N := FNum) (thr0 (N := FNum)) false x = Ok [SoCircle (mkC (fp (1, 2)%Z) (@nZ _ FNum 3))] /\
  y = XElem "ellipse" [("cx", "5"); ("cy", "6"); ("rx", "4"); ("ry", "2")]%string [] /\
  importSvg (N := FNum) (thr0 (N := FNum)) false s = Throw.
Proof.
  exists "<svg><circle cx=""1"" cy=""2"" r=""3""/><ellipse cx=""5"" cy=""6"" rx=""4"" ry=""2""/></svg>"%string. eexists _, _. split; [vm_compute; reflexivity|]. split; [vm_compute; reflexivity|]. split; [reflexivity|]. vm_compute. reflexivity.
Qed.

Print Assumptions C157_number. Print Assumptions C157_chars. Print Assumptions C158_refuted. Print Assumptions C159_document. Print Assumptions C159_size.
Print Assumptions C160_import. Print Assumptions C160_exact. Print Assumptions C161_refuted. Print Assumptions C162_refuted.
Print Assumptions C163_text_refuted. Print Assumptions C163_attr_refuted. Print Assumptions C164_refuted. Print Assumptions C165_refuted.
