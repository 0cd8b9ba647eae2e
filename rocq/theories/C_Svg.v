(** * Properties C65, C108-C114: import of SVG strings *)

From Coq Require Import String Ascii.
From Coq Require Import Reals Lra Lia List Bool Arith ZArith.
From Verif Require Import Num M_LP M_Homogr M_Poly M_Misc M_Svg S_Geom P_LP P_LP2 P_Poly6 P_Poly7 S_Svg P_Svg P_Svg2 P_Svg3 P_Svg4 S_Ellipse M_Ellipse.
Import ListNotations.
Local Open Scope R_scope.

(** Numbers of the examples: integers. *)
Definition int (neg : bool) (l : list nat) : num := mkNum neg l None.
Definition pr (x y : nat) : num * num := (int false [x], int false [y]).
Ltac numok := repeat match goal with
  | |- _ /\ _ => split | |- Forall _ _ => constructor | |- pairOK _ => split | |- numOK _ => unfold numOK; cbn | |- digitsOK _ => repeat constructor
  | |- cmdOK _ => cbn | |- _ <> _ => discriminate | |- (_ < _)%nat => lia | |- True => exact I end.
Lemma lt_dist d p q : d <= Rabs (px p - px q) \/ d <= Rabs (py p - py q) -> d <= edist p q.
Proof. intros [H|H]; [pose proof (edist_ge_x p q)|pose proof (edist_ge_y p q)]; lra. Qed.
Ltac absv := unfold Rabs; destruct (Rcase_abs _); lra.
Ltac far := apply lt_dist; cbn [px py thr0 nullDistance ndiv nZ RNum]; first [left; absv|right; absv].
Ltac val := unfold ptOf, numVal, intVal, fracVal; cbn [fst snd nneg nint nfrac fold_left fracVal]; repeat rewrite ?S_INR; cbn [INR].
Ltac ptseq := repeat match goal with |- @eq R _ _ => first [reflexivity|lra] | |- _ => f_equal end.

(** ** C65 *)
(** Points written with absolute M and L commands, one point each, and Z if closed. *)
Definition canon (a : num * num) (l : list (num * num)) (z : bool) : list pcmd :=
  (PMove false [a] :: map (fun b => PLine false [b]) l ++ (if z then [PClose false] else []))%list.
(** The same, with the letter M only. *)
Definition compact (a : num * num) (l : list (num * num)) (z : bool) : list pcmd :=
  (PMove false (a :: l) :: (if z then [PClose false] else []))%list.
Lemma draw_lines l : forall k, pHere k <> [] -> drawLines false k l = mkPen (pSubs k) (pHere k ++ map ptOf l) (last (map ptOf l) (pAt k)) (pHome k).
Proof.
  induction l as [|a l IH]; intros k H; [cbn; rewrite app_nil_r; destruct k; reflexivity|].
  cbn [drawLines fold_left]. change (fold_left _ l ?x) with (drawLines false x l). rewrite lineTo_cur by auto. rewrite IH by (cbn; destruct (pHere k); discriminate).
  cbn [pSubs pHere pAt pHome map]. rewrite <- app_assoc. f_equal. cbn [last]. destruct (map ptOf l) as [|y z] eqn:E; [reflexivity|]. clear. revert y. induction z as [|w z IH]; intros y; [reflexivity|]. cbn in *. apply IH.
Qed.
Lemma draw_plines l : forall k, fold_left draw (map (fun b => PLine false [b]) l) k = drawLines false k l.
Proof. induction l as [|a l IH]; intros k; [reflexivity|]. cbn [map fold_left draw]. rewrite IH. reflexivity. Qed.
Lemma canon_subs a l z : subpaths (canon a l z) = [(map ptOf (a :: l), z)] /\ subpaths (compact a l z) = [(map ptOf (a :: l), z)].
Proof.
  assert (forall k : pen, pSubs k = [] -> pHere k <> [] -> penUp (fold_left draw (if z then [PClose false] else []) k) = [(pHere k, z)]) as G.
  { intros k K1 K2. unfold penUp. destruct z; cbn; rewrite K1; destruct (pHere k) eqn:E; try congruence; rewrite ?E; reflexivity. }
  unfold subpaths, canon, compact. cbn [fold_left draw]. rewrite fold_left_app, draw_plines. cbn [drawLines fold_left].
  change (fold_left (fun s b => lineTo s (target false s b)) l ?x) with (drawLines false x l).
  split; (rewrite draw_lines by discriminate; rewrite G; [reflexivity|reflexivity|discriminate]).
Qed.
Lemma resumes_canon a l z : resumes (canon a l z) /\ resumes (compact a l z).
Proof. split; [|destruct z; exact I]. unfold canon. cbn [resumes]. induction l as [|b l IH]; [destruct z; exact I|exact IH]. Qed.
Lemma last_canon a l z : isClose (last (canon a l z) (PClose false)) = z /\ isClose (last (compact a l z) (PClose false)) = z.
Proof.
  split; [|destruct z; reflexivity]. unfold canon. destruct z.
  - rewrite app_comm_cons, last_last. reflexivity.
  - rewrite app_nil_r. assert (forall c, isClose c = false -> isClose (last (c :: map (fun b => PLine false [b]) l) (PClose false)) = false) as G; [|now apply G].
    induction l as [|b l IH]; intros c H; [exact H|]. exact (IH (PLine false [b]) eq_refl).
Qed.
Theorem C65_round_trip : forall th a l z s, Forall pairOK (a :: l) -> apart (nullDistance th) (map ptOf (a :: l)) ->
  writes (canon a l z) s \/ writes (compact a l z) s -> parsePath (N := RNum) th s = Ok ([map ptOf (a :: l)], z).
Proof.
  intros th a l z s W A H.
  assert (exists c, writes c s /\ pathOK c /\ resumes c /\ isClose (last c (PClose false)) = z /\ subpaths c = [(map ptOf (a :: l), z)]) as (c & H1 & H2 & H3 & H4 & H5).
  { destruct H as [H|H]; [exists (canon a l z)|exists (compact a l z)]; (split; [exact H|split; [split; [|eexists _, _, _; reflexivity]|split; [apply resumes_canon|split; [apply last_canon|apply canon_subs]]]]).
    - unfold canon. constructor; [split; [discriminate|constructor; [exact (Forall_inv W)|constructor]]|]. apply Forall_app. split; [|destruct z; repeat constructor].
      apply Forall_inv_tail in W. clear -W. induction W; cbn [map]; constructor; auto. cbn. split; [discriminate|]. constructor; auto.
    - unfold compact. constructor; [split; [discriminate|exact W]|]. destruct z; repeat constructor. }
  destruct (path_ok th c s H2 H3 H1) as (vs & E & F). rewrite E, H4, H5 in *. cbn [map fst] in F.
  inversion F as [|? v ? r T0 F2]; subst. inversion F2; subst. rewrite (thin_apart _ _ _ A T0). reflexivity.
Qed.
(** The object stored: a polyline with these points, closed exactly if the path ends with Z. *)
Theorem C65_stored : forall th a l z s, Forall pairOK (a :: l) -> l <> [] -> apart (nullDistance th) (map ptOf (a :: l)) ->
  nullDistance th <= edist (ptOf a) (last (map ptOf l) (ptOf a)) ->
  writes (canon a l z) s \/ writes (compact a l z) s -> svgPath (N := RNum) th s = Ok [(z, plFresh (map ptOf (a :: l)))].
Proof.
  intros th a l z s W NE A FL H. unfold svgPath. rewrite (C65_round_trip th a l z s W A H). cbn [svgStore].
  assert (last (map ptOf (a :: l)) pt00 = last (map ptOf l) (ptOf a)) as EL.
  { destruct l as [|b l]; [congruence|]. cbn [map]. generalize (map ptOf l) (ptOf b). clear. intros m. induction m as [|x m IH]; intros y; [reflexivity|]. cbn in *. apply IH. }
  assert (ptEq th (ptOf a) (last (map ptOf l) (ptOf a)) = false) as E by now apply ptEq_false.
  assert (dropLastIfFirst th (map ptOf (a :: l)) = Ok (map ptOf (a :: l))) as ->. { cbn [map dropLastIfFirst]. change (ptOf a :: map ptOf l) with (map ptOf (a :: l)). rewrite EL, E. reflexivity. }
  cbn [bind]. assert (plSet th (map ptOf (a :: l)) = Ok (plFresh (map ptOf (a :: l)))) as ->; [|reflexivity].
  unfold plSet. destruct l as [|b l]; [congruence|]. cbn [map length]. cbn [Nat.eqb Nat.ltb Nat.leb]. cbn [andb].
  change (ptOf a :: ptOf b :: map ptOf l) with (map ptOf (a :: b :: l)). unfold plCheck. rewrite EL. cbn [map hd]. cbn [map] in E. rewrite E.
  assert (forall m : list (pt R), apart (nullDistance th) m -> noConsecEq th m = true) as NC.
  { clear. induction m as [|p m IH]; intros A; [reflexivity|]. destruct m as [|q m]; [reflexivity|]. destruct A as [A1 A2]. cbn [noConsecEq]. rewrite (proj2 (ptEq_false th p q) A1). exact (IH A2). }
  cbn [map] in A. rewrite (NC _ A). reflexivity.
Qed.
(** A text: "M1.5,2 L-3,4 L0.25,-7 Z". *)
Definition n15 : num := mkNum false [1%nat] (Some [5%nat]).
Definition n025 : num := mkNum false [0%nat] (Some [2; 5]%nat).
Example C65_ex : let a := (n15, int false [2%nat]) in let l := [(int true [3%nat], int false [4%nat]); (n025, int true [7%nat])] in
  Forall pairOK (a :: l) /\ apart (nullDistance thr0) (map ptOf (a :: l)) /\ writes (canon a l true) "M1.5,2 L-3,4 L0.25,-7 Z" /\
  map ptOf (a :: l) = [mkPt (3 / 2) 2; mkPt (-3) 4; mkPt (1 / 4) (-7)] /\ nullDistance thr0 <= edist (ptOf a) (last (map ptOf l) (ptOf a)).
Proof.
  cbn zeta. assert (map ptOf [(n15, int false [2%nat]); (int true [3%nat], int false [4%nat]); (n025, int true [7%nat])] = [mkPt (3 / 2) 2; mkPt (-3) 4; mkPt (1 / 4) (-7)]) as E.
  { cbn [map]. unfold n15, n025, int. val. ptseq. }
  split; [numok; cbn; numok; right; discriminate|]. rewrite E. split; [cbn [apart]; repeat split; far|]. split.
  - exists [([], WCmd "M"); ([], WNum n15); ([Comma], WNum (int false [2%nat])); ([Space], WCmd "L"); ([], WNum (int true [3%nat])); ([Comma], WNum (int false [4%nat]));
      ([Space], WCmd "L"); ([], WNum n025); ([Comma], WNum (int true [7%nat])); ([Space], WCmd "Z")]%char. repeat split; discriminate.
  - split; [reflexivity|]. cbn [map last]. unfold n15, n025, int. val. far.
Qed.
Print Assumptions C65_round_trip. Print Assumptions C65_stored.

(** ** C108 *)
Theorem C108_semantics : forall th l s, pathOK l -> resumes l -> writes l s ->
  exists vs, parsePath (N := RNum) th s = Ok (vs, isClose (last l (PClose false))) /\ Forall2 (thinned (nullDistance th)) (map fst (subpaths l)) vs.
Proof. exact path_ok. Qed.
Theorem C108_exact : forall th l s, pathOK l -> resumes l -> writes l s -> Forall (fun v => apart (nullDistance th) (fst v)) (subpaths l) ->
  parsePath (N := RNum) th s = Ok (map fst (subpaths l), isClose (last l (PClose false))).
Proof.
  intros th l s P R W A. destruct (path_ok th l s P R W) as (vs & E & F). rewrite E. f_equal. f_equal. clear -A F.
  revert vs F. induction A as [|v m A1 A IH]; intros vs F; [inversion F; reflexivity|]. cbn [map] in *. inversion F as [|? w ? r T0 F2]; subst.
  rewrite (thin_apart _ _ _ A1 T0). f_equal. now apply IH.
Qed.
(** "m 1 2 3 4 H9v-5zM7,7l1 1": relative moveto with an implied lineto, horizontal and vertical lines. *)
Definition path1 : list pcmd := [PMove true [pr 1 2; pr 3 4]; PHor false [int false [9%nat]]; PVer true [int true [5%nat]]; PClose true; PMove false [pr 7 7]; PLine true [pr 1 1]].
Example C108_ex : pathOK path1 /\ resumes path1 /\ writes path1 "m 1 2 3 4 H9v-5zM7,7l1 1" /\
  subpaths path1 = [([mkPt 1 2; mkPt 4 6; mkPt 9 6; mkPt 9 1], true); ([mkPt 7 7; mkPt 8 8], false)] /\ Forall (fun v => apart (nullDistance thr0) (fst v)) (subpaths path1).
Proof.
  assert (subpaths path1 = [([mkPt 1 2; mkPt 4 6; mkPt 9 6; mkPt 9 1], true); ([mkPt 7 7; mkPt 8 8], false)]) as E.
  { unfold subpaths, path1, pr, int. cbn -[INR numVal Rplus]. unfold targetX, targetY. cbn -[INR numVal Rplus]. val. ptseq. }
  split; [split; [unfold path1, pr, int; numok; cbn; numok|unfold path1; eauto]|]. split; [exact I|]. split.
  - exists [([], WCmd "m"); ([Space], WNum (int false [1%nat])); ([Space], WNum (int false [2%nat])); ([Space], WNum (int false [3%nat])); ([Space], WNum (int false [4%nat]));
      ([Space], WCmd "H"); ([], WNum (int false [9%nat])); ([], WCmd "v"); ([], WNum (int true [5%nat])); ([], WCmd "z"); ([], WCmd "M"); ([], WNum (int false [7%nat])); ([Comma], WNum (int false [7%nat]));
      ([], WCmd "l"); ([], WNum (int false [1%nat])); ([Space], WNum (int false [1%nat]))]%char. repeat split; discriminate.
  - split; auto. rewrite E. constructor; [|constructor; [|constructor]]; cbn [fst apart]; repeat split; far.
Qed.
Print Assumptions C108_semantics. Print Assumptions C108_exact.

(** ** C109 *)
(** Full statement: for every path [l] that starts with a moveto and every text [s] of it in the SVG grammar, the
    result is the list of the subpaths of [l], each with its own "closed" flag.  It fails in several ways. *)
(** After Z, a relative command starts from the last point drawn, not from the start of the subpath; and
    the start of the new subpath is lost: "M0 0L5 0 5 5Zl1 1". *)
Definition path2 : list pcmd := [PMove false [pr 0 0]; PLine false [pr 5 0; pr 5 5]; PClose false; PLine true [pr 1 1]].
Theorem C109_after_close_refuted : exists l s vs, pathOK l /\ writes l s /\ parsePath (N := RNum) thr0 s = Ok (vs, false) /\
  map fst (subpaths l) = [[mkPt 0 0; mkPt 5 0; mkPt 5 5]; [mkPt 0 0; mkPt 1 1]] /\ vs = [[mkPt 0 0; mkPt 5 0; mkPt 5 5]; [mkPt 6 6]].
Proof.
  exists path2, "M0 0L5 0 5 5Zl1 1"%string, [[mkPt 0 0; mkPt 5 0; mkPt 5 5]; [mkPt 6 6]]. split; [split; [unfold path2, pr, int; numok; cbn; numok|unfold path2; eauto]|]. split.
  { exists [([], WCmd "M"); ([], WNum (int false [0%nat])); ([Space], WNum (int false [0%nat])); ([], WCmd "L"); ([], WNum (int false [5%nat])); ([Space], WNum (int false [0%nat]));
      ([Space], WNum (int false [5%nat])); ([Space], WNum (int false [5%nat])); ([], WCmd "Z"); ([], WCmd "l"); ([], WNum (int false [1%nat])); ([Space], WNum (int false [1%nat]))]%char. repeat split; discriminate. }
  split; [|split; [|reflexivity]].
  - unfold parsePath. assert (pathLoop (N := RNum) (String.length "M0 0L5 0 5 5Zl1 1") "M0 0L5 0 5 5Zl1 1" ps0 =
      Ok (mkPS (mkCmd false "L"%char 2) [[mkPt 0 0; mkPt 5 0; mkPt 5 5]] [] [1; 1] (mkPt 5 5))) as -> by reflexivity.
    cbn [bind]. unfold pathEnd, storeValues, generateNewPoint. cbn -[ptEq thr0 IZR Rplus]. rewrite !(proj2 (ptEq_false _ _ _)) by far. cbn -[IZR Rplus]. rnum. ptseq.
  - unfold subpaths, path2, pr, int. cbn -[INR numVal Rplus]. val. ptseq.
Qed.
(** One flag for the whole path: the first triangle is closed, but both objects are stored as open. *)
Definition path3 : list pcmd := [PMove false [pr 0 0; pr 5 0; pr 5 5]; PClose false; PMove false [pr 7 7; pr 8 8]].
Theorem C109_flag_refuted : exists l s vs, pathOK l /\ resumes l /\ writes l s /\ parsePath (N := RNum) thr0 s = Ok (vs, false) /\ map fst (subpaths l) = vs /\
  map snd (subpaths l) = [true; false].
Proof.
  exists path3, "M0 0 5 0 5 5ZM7 7 8 8"%string, (map fst (subpaths path3)).
  assert (subpaths path3 = [([mkPt 0 0; mkPt 5 0; mkPt 5 5], true); ([mkPt 7 7; mkPt 8 8], false)]) as E.
  { unfold subpaths, path3, pr, int. cbn -[INR numVal Rplus]. val. ptseq. }
  assert (pathOK path3) as P by (split; [unfold path3, pr, int; numok; cbn; numok|unfold path3; eauto]).
  assert (writes path3 "M0 0 5 0 5 5ZM7 7 8 8") as W.
  { exists [([], WCmd "M"); ([], WNum (int false [0%nat])); ([Space], WNum (int false [0%nat])); ([Space], WNum (int false [5%nat])); ([Space], WNum (int false [0%nat]));
      ([Space], WNum (int false [5%nat])); ([Space], WNum (int false [5%nat])); ([], WCmd "Z"); ([], WCmd "M"); ([], WNum (int false [7%nat])); ([Space], WNum (int false [7%nat]));
      ([Space], WNum (int false [8%nat])); ([Space], WNum (int false [8%nat]))]%char. repeat split; discriminate. }
  split; auto. split; [exact I|]. split; auto. split; [|rewrite E; auto].
  apply (C108_exact thr0 path3 _ P I W). rewrite E. constructor; [|constructor; [|constructor]]; cbn [fst apart]; repeat split; far.
Qed.
(** Texts in the SVG grammar that are refused, misread, or stop the program: a final space, a final space
    after Z (failed assertion), a coordinate after Z, a line break, an exponent, a plus sign; and "1-2" for
    the two numbers 1 and -2. *)
Theorem C109_text_refuted : parsePath (N := RNum) thr0 "M1 2 3 4 " = Throw /\ parsePath (N := RNum) thr0 "M0 0L5 0 5 5Z " = Undef /\ parsePath (N := RNum) thr0 "M0 0L5 0 5 5Z7 7" = Undef /\
  parsePath (N := RNum) thr0 (String "M" (String "010" "1 2")) = Throw /\ parsePath (N := RNum) thr0 "M1e1 2" = Throw /\ parsePath (N := RNum) thr0 "M+1 2" = Throw /\
  parsePath (N := RNum) thr0 "M1-2L3 4" = Throw /\ parsePath (N := RNum) thr0 "M1-2 7-3" = Ok ([[mkPt 1 7]], false).
Proof. repeat split. Qed.
Print Assumptions C109_after_close_refuted. Print Assumptions C109_flag_refuted. Print Assumptions C109_text_refuted.

(** ** C110 *)
(** Every string: the parser stops; it leaves its defined behaviour only on a number, or on final separators,
    after a Z. *)
Theorem C110_defined : forall th s, parsePath (N := RNum) th s = Undef -> valueAfterZ s.
Proof. exact path_def. Qed.
(** Strings accepted hold the characters of numbers, separators and the commands handled, nothing else. *)
Theorem C110_characters : forall th s v c, parsePath (N := RNum) th s = Ok v -> In c (list_ascii_of_string s) ->
  numChar c \/ c = " "%char \/ c = ","%char \/ In c ["M"; "L"; "H"; "V"; "Z"; "m"; "l"; "h"; "v"; "z"]%char.
Proof.
  intros th s v c H I. destruct (path_chars th s v H) as [_ A]. specialize (A c I). unfold charOK in A.
  apply orb_true_iff in A as [A|A]; [apply orb_true_iff in A as [A|A]; [apply orb_true_iff in A as [A|A]|]|].
  - left. now apply digitC_num.
  - right. right. right. unfold drawLetter in A. apply existsb_exists in A as (d & Id & E). apply Ascii.eqb_eq in E. now subst d.
  - right. left. now apply Ascii.eqb_eq.
  - right. right. left. now apply Ascii.eqb_eq.
Qed.
Theorem C110_empty : forall th, parsePath (N := RNum) th "" = Throw.
Proof. reflexivity. Qed.
Example C110_ex : ~ valueAfterZ "10 20 m 1 2 3 4z" /\ valueAfterZ "M0 0L5 0 5 5Z " /\ parsePath (N := RNum) thr0 "M0 0L5 0 5 5Z " = Undef /\
  parsePath (N := RNum) thr0 "M10 20 C 30" = Throw /\ parsePath (N := RNum) thr0 "10 20 30" = Throw.
Proof.
  split.
  - intros (a & z & b & c & E & Hz & B & C). apply (f_equal list_ascii_of_string) in E. rewrite las_app in E. cbn in E. rewrite las_app in E.
    remember (list_ascii_of_string a) as la. remember (list_ascii_of_string b) as lb. remember (list_ascii_of_string c) as lc.
    do 16 (destruct la as [|? la]; [injection E as E0 E; subst z; destruct Hz; discriminate||(symmetry in E; apply app_eq_nil in E as [E1 E2])|injection E as _ E]).
    + subst lb lc. destruct C as [[-> NE]|(x & r & -> & _)]; [|discriminate]. destruct b; [congruence|discriminate].
    + destruct la; discriminate.
  - split; [|repeat split]. exists "M0 0L5 0 5 5"%string, "Z"%char, " "%string, EmptyString. split; [reflexivity|]. split; [now left|]. split; [intros c [<-|[]]; now left|]. left. split; [reflexivity|discriminate].
Qed.
(** The unit tests of the repository (misc/homog2d_test.cpp:4193-4250), in real numbers. *)
Example C110_tests : pathLoop (N := RNum) 16 "10 20 m 1 2 3 4z" ps0 = Ok (mkPS (mkCmd false "Z"%char 0) [[mkPt 10 20]; [mkPt (10 + 1) (20 + 2); mkPt (10 + 1 + 3) (20 + 2 + 4)]] [] [] (mkPt (10 + 1 + 3) (20 + 2 + 4))) /\
  pathLoop (N := RNum) 13 "10 20 H 30 40" ps0 = Ok (mkPS (mkCmd true "H"%char 1) [] [mkPt 10 20; mkPt 30 20] [40] (mkPt 30 20)).
Proof. repeat split. Qed.
Print Assumptions C110_defined. Print Assumptions C110_characters. Print Assumptions C110_empty.

(** ** C111 *)
Theorem C111_points : forall l, Forall pairOK l -> parsePoints (N := RNum) (pointsText l) = Ok (map ptOf l).
Proof. exact points_ok. Qed.
(** The last point is removed exactly when it is the first one again. *)
Theorem C111_import : forall th a l, Forall pairOK (a :: l) ->
  (nullDistance th <= edist (ptOf a) (last (map ptOf l) (ptOf a)) -> importSvgPoints (N := RNum) th (pointsText (a :: l)) = Ok (map ptOf (a :: l))) /\
  (edist (ptOf a) (last (map ptOf l) (ptOf a)) < nullDistance th -> importSvgPoints (N := RNum) th (pointsText (a :: l)) = Ok (removelast (map ptOf (a :: l)))).
Proof.
  intros th a l W. unfold importSvgPoints. rewrite points_ok by auto. cbn [bind map dropLastIfFirst].
  assert (last (ptOf a :: map ptOf l) pt00 = last (map ptOf l) (ptOf a)) as ->.
  { destruct (map ptOf l) as [|y m]; [reflexivity|]. clear. revert y. induction m as [|x m IH]; intros y; [reflexivity|]. cbn in *. apply IH. }
  split; intros H.
  - now rewrite (proj2 (ptEq_false _ _ _) H).
  - now rewrite (proj2 (ptEq_spec _ _ _) H).
Qed.
Example C111_ex : Forall pairOK [pr 0 0; pr 5 0; pr 5 5; pr 0 0] /\ pointsText [pr 0 0; pr 5 0; pr 5 5; pr 0 0] = "0,0 5,0 5,5 0,0"%string /\
  edist (ptOf (pr 0 0)) (last (map ptOf [pr 5 0; pr 5 5; pr 0 0]) (ptOf (pr 0 0))) < nullDistance thr0.
Proof. split; [unfold pr, int; numok; cbn; numok|]. split; [reflexivity|]. cbn [last map]. rewrite edist_refl. cbn [thr0 nullDistance ndiv nZ RNum]. lra. Qed.
Print Assumptions C111_points. Print Assumptions C111_import.

(** ** C112 *)
(** Full statement: the points of every list in the SVG grammar are read.  An empty attribute is undefined
    behaviour (front() of an empty vector); two spaces, or a comma between points, are refused. *)
Theorem C112_refuted : importSvgPoints (N := RNum) thr0 "" = Undef /\ parsePoints (N := RNum) "0,0  5,5" = Throw /\ parsePoints (N := RNum) "0,0,5,5" = Throw /\ parsePoints (N := RNum) "0 0 5 5" = Throw.
Proof. repeat split. Qed.
Print Assumptions C112_refuted.

(** ** C113 *)
(** An ellipse with the half-axis along x the longer one is turned by the angle of the attribute about its
    own centre. *)
Theorem C113_ellipse : forall th x y rx ry a u v, thr_ok th -> nullDeter th <= 1 -> 0 < ry <= rx -> numOK a -> numOK u -> numOK v ->
  exists e, svgEllipse (N := RNum) th x y rx ry (rotateText a u v) = Ok e /\
    forall p, conic (em e) p = rx * rx * (ry * ry) * (ellForm x y rx ry (numVal a * PI / 180) p - 1).
Proof. exact svgEllipse_ok. Qed.
Example C113_ex : rotateText (int false [3; 0]%nat) (int false [1%nat]) (int false [2%nat]) = "rotate(30,1,2)"%string /\ numVal (int false [3; 0]%nat) = 30 /\
  numOK (int false [3; 0]%nat) /\ nullDeter (@thr0 R RNum) <= 1.
Proof. split; [reflexivity|]. split; [unfold int; val; lra|]. split; [unfold int; numok; cbn; numok|]. cbn. lra. Qed.
Print Assumptions C113_ellipse.

(** ** C114 *)
(** Full statement: the ellipse with half-axes rx (along x) and ry (along y) turned by the angle about the
    pivot of the attribute.  The pivot is read and ignored: (0,2), the image of the centre (2,0) by the
    quarter turn about the origin, is not inside. *)
Theorem C114_pivot_refuted : exists e, svgEllipse (N := RNum) thr0 2 0 1 1 (rotateText (int false [9; 0]%nat) (int false [0%nat]) (int false [0%nat])) = Ok e /\
  ellForm 2 0 1 1 0 (mkPt 2 0) < 1 /\ 0 < conic (em e) (mkPt (cos (PI / 2) * 2 - sin (PI / 2) * 0) (sin (PI / 2) * 2 + cos (PI / 2) * 0)).
Proof.
  destruct (svgEllipse_ok thr0 2 0 1 1 (int false [9; 0]%nat) (int false [0%nat]) (int false [0%nat]) thr0_ok) as (e & E & C);
    [cbn; lra|lra|unfold int; numok; cbn; numok|unfold int; numok; cbn; numok|unfold int; numok; cbn; numok|].
  exists e. split; auto. split.
  - unfold ellForm, Rsqr. cbn [px py]. rewrite cos_0, sin_0. lra.
  - rewrite C. replace (numVal (int false [9; 0]%nat) * PI / 180) with (PI / 2) by (unfold int; val; field). rewrite cos_PI2, sin_PI2.
    unfold ellForm, Rsqr. cbn [px py]. rewrite cos_PI2, sin_PI2. lra.
Qed.
(** A tall ellipse is stored as a wide one: rx = 1, ry = 2, no rotation; (0,3/2) is outside the result. *)
Theorem C114_tall_refuted : exists e, svgEllipse (N := RNum) thr0 0 0 1 2 (rotateText (int false [0%nat]) (int false [0%nat]) (int false [0%nat])) = Ok e /\
  ellForm 0 0 1 2 0 (mkPt 0 (3 / 2)) < 1 /\ 0 < conic (em e) (mkPt 0 (3 / 2)).
Proof.
  rewrite svgEllipse_tall by lra.
  destruct (svgEllipse_ok thr0 0 0 2 1 (int false [0%nat]) (int false [0%nat]) (int false [0%nat]) thr0_ok) as (e & E & C);
    [cbn; lra|lra|unfold int; numok; cbn; numok|unfold int; numok; cbn; numok|unfold int; numok; cbn; numok|].
  exists e. split; auto. split.
  - unfold ellForm, Rsqr. cbn [px py]. rewrite cos_0, sin_0. lra.
  - rewrite C. replace (numVal (int false [0%nat]) * PI / 180) with 0 by (unfold int; val; field).
    unfold ellForm, Rsqr. cbn [px py]. rewrite cos_0, sin_0. lra.
Qed.
Print Assumptions C114_pivot_refuted. Print Assumptions C114_tall_refuted.
