(** * Properties C204-C210: conversions from and to OpenCV and Boost Geometry types *)

From Coq Require Import Reals Lra ZArith QArith List Bool Arith Lia.
From Verif Require Import Num M_LP M_Seg M_Poly M_Homogr M_FRect M_SvgOut M_Interop S_Geom S_Homogr S_Interop P_LP P_LP2 P_LP3 P_LP5 P_Homogr P_Homogr2 P_Homogr3 P_Poly P_BB.
Import ListNotations.
Local Open Scope R_scope.

(** ** C204: homographies and cv::Mat *)

Lemma nine {A} (l : list A) : length l = 9%nat -> exists a b c d e f g h i, l = [a; b; c; d; e; f; g; h; i].
Proof. intros H. do 10 (destruct l as [|? l]; try discriminate). do 9 eexists. reflexivity. Qed.
Lemma fill9 {T} (m : mat T) a b c d e f g h i : cvFill m 0 [a; b; c; d; e; f; g; h; i] = Ok (mkM a b c d e f g h i).
Proof. reflexivity. Qed.

Theorem C204_accept : forall T (o : hobj T) c, wfCv c ->
  (isHomog c -> exists o', hAssignCv o c = Ok o' /\ forall r k d, (r < 3)%nat -> (k < 3)%nat -> matGet (hm o') r k = Ok (nth (3 * r + k) (cvData c) d)) /\
  (~ isHomog c -> hAssignCv o c = Throw).
Proof.
  intros T o [r k n t l] W. unfold wfCv, isHomog, hAssignCv in *. cbn [cvRows cvCols cvChan cvTyp cvData] in *. split.
  - intros (-> & -> & -> & Ht). destruct (nine l W) as (a & b & c & d & e & f & g & h & i & ->). exists (mkHobj (mkM a b c d e f g h i) (isNorm o) (hasChanged o) (hmt o)).
    split; [destruct t; try reflexivity; now elim Ht|]. cbn [hm]. intros r k z Hr Hk. do 3 (destruct r as [|r]; [do 3 (destruct k as [|k]; [reflexivity|]); lia|]). lia.
  - intros H. destruct (r =? 3)%nat eqn:E1; [|reflexivity]. destruct (k =? 3)%nat eqn:E2; [|reflexivity]. destruct (n =? 1)%nat eqn:E3; [|reflexivity]. cbn [andb negb].
    apply Nat.eqb_eq in E1, E2, E3. destruct t; try reflexivity; elim H; repeat split; try assumption; discriminate.
Qed.
Print Assumptions C204_accept.

(** Writing to a cv::Mat and reading back: the same transformation of points and lines. *)
Theorem C204_roundtrip : forall T (N : Num T) (o : hobj T), exists c o', hCopyTo (fun x => x) o CV64 = Ok c /\ hOfCv c = Ok o' /\ hm o' = hm o /\
  (forall h, hApplyPt o' h = hApplyPt o h) /\ forall th l, fst (hApplyLine th o' l) = fst (hApplyLine th (hCopy o) l).
Proof.
  intros T N [m n ch t]. exists (mkCv 3 3 1 CV64 [m00 m; m01 m; m02 m; m10 m; m11 m; m12 m; m20 m; m21 m; m22 m]), (mkHobj m false true None).
  split; [reflexivity|]. split; [destruct m; reflexivity|]. split; [reflexivity|]. split; [reflexivity|].
  intros th l. unfold hCopy. cbn [hm isNorm]. unfold hApplyLine, hCopy. cbn [hmt hasChanged hm isNorm]. unfold hInverse. cbn [hm hasChanged hmt].
  destruct (matInverse th m) as [a| |]; cbn [hNormalize hm hmt]; try reflexivity. unfold hNormalize. cbn [hm hmt]. destruct (matNormalize th a); reflexivity.
Qed.
Print Assumptions C204_roundtrip.

(** copyTo() stores each element converted to the type asked for; other types raise an exception. *)
Theorem C204_copy : forall T (cvt : T -> T) (o : hobj T) (t : cvType), (t = CVother -> hCopyTo cvt o t = Throw) /\
  (t <> CVother -> exists c, hCopyTo cvt o t = Ok c /\ isHomog c /\ wfCv c /\ cvTyp c = t /\
     forall r k x d, (r < 3)%nat -> (k < 3)%nat -> matGet (hm o) r k = Ok x -> nth (3 * r + k) (cvData c) d = cvt x).
Proof.
  intros T cvt [m n ch mt] t. split; [intros ->; reflexivity|]. intro Ht.
  exists (mkCv 3 3 1 t (map cvt [m00 m; m01 m; m02 m; m10 m; m11 m; m12 m; m20 m; m21 m; m22 m])).
  split; [destruct t; try reflexivity; now elim Ht|]. split; [repeat split; exact Ht|]. split; [reflexivity|]. split; [reflexivity|].
  cbn [hm cvData map]. intros r k x d Hr Hk. do 3 (destruct r as [|r]; [do 3 (destruct k as [|k]; [intro E; injection E as <-; reflexivity|]); lia|]). lia.
Qed.
Print Assumptions C204_copy.
Example C204_copy_ex : exists c, hCopyTo (fun x => x + x) (mkHobj (mkM 1 2 3 4 5 6 7 8 9) true false None) CV32 = Ok c /\ nth 5 (cvData c) 0 = 6 + 6.
Proof. eexists. split; [reflexivity|]. reflexivity. Qed.
Example C204_ex : isHomog (mkCv 3 3 1 CV32 [1; 2; 3; 4; 5; 6; 7; 8; 9]) /\ wfCv (mkCv 3 3 1 CV32 [1; 2; 3; 4; 5; 6; 7; 8; 9]) /\
  (forall o : hobj R, hAssignCv o (mkCv 3 4 1 CV32 []) = Throw) /\ matGet (mkM 1 2 3 4 5 6 7 8 9) 1 2 = Ok 6.
Proof. repeat split; try discriminate; reflexivity. Qed.

(** ** C205: a homography in use is not updated properly by the assignment of a cv::Mat *)

Definition shift5 : cvMat R := mkCv 3 3 1 CV64 [1; 0; 5; 0; 1; 0; 0; 0; 1].
(** Full statement: after the assignment, H*line is what a fresh copy of the object gives.  False: H*line, then H = mat,
    then H*line again: the inverse computed for the previous matrix is used. *)
Theorem C205_stale_refuted : exists ops c o l l1 l2, isHomog c /\ hAssignCv (hRun thr0 hNew ops) c = Ok o /\
  fst (hApplyLine thr0 o l) = Ok l1 /\ fst (hApplyLine thr0 (hCopy o) l) = Ok l2 /\ forall p, ~ (onL l1 p /\ onL l2 p).
Proof.
  pose proof stale_witness as [A B]. exists [OpApplyLine l10], shift5, (hRun thr0 hNew staleOps), l10, (mkL 1 0 0), (mkL 1 0 (-5)).
  split; [repeat split; discriminate|]. split; [|split; [exact A|split; [exact B|intros p; unfold onL; cbn [la lb lc]; lra]]].
  change (hRun thr0 hNew staleOps) with (hStep thr0 (hRun thr0 hNew [OpApplyLine l10]) (OpSet 0 2 5)).
  assert (E : hm (hRun thr0 hNew [OpApplyLine l10]) = mkM 1 0 0 0 1 0 0 0 1).
  { unfold hRun. cbn [fold_left]. change (hStep thr0 hNew (OpApplyLine l10)) with (snd (hApplyLine thr0 hNew l10)).
    destruct (hApplyLine_fresh thr0 hNew l10) as (_ & _ & E); [left; reflexivity|]. rewrite E. reflexivity. }
  destruct (hRun thr0 hNew [OpApplyLine l10]) as [m n c t]. cbn [hm] in E. subst m. reflexivity.
Qed.
Print Assumptions C205_stale_refuted.

(** Full statement: operator== is true of two objects that transform every point alike.  False after the assignment of
    a multiple of the identity to a default-constructed object: the object is still flagged as normalised. *)
Theorem C205_equality_refuted : exists c o, isHomog c /\ hAssignCv hNew c = Ok o /\
  (forall h, ptOfH (hApplyPt o h) = ptOfH (hApplyPt hNew h)) /\ exists a b, hEq thr0 o hNew = Ok (false, a, b).
Proof.
  exists (mkCv 3 3 1 CV64 [2; 0; 0; 0; 2; 0; 0; 0; 2]), (mkHobj (mkM 2 0 0 0 2 0 0 0 2) true true None). split; [repeat split; discriminate|]. split; [reflexivity|].
  pose proof doubled_neq as D. rewrite doubled_hm in D. destruct D as [D1 D2]. split; [exact D1|]. eexists _, _. exact D2.
Qed.
Print Assumptions C205_equality_refuted.

(** ** C206: positive part *)

(** Right when no line has been transformed before; *)
Theorem C206_first_use : forall th pre c o l, existsb isProduct pre = false -> hAssignCv (hRun th hNew pre) c = Ok o ->
  fst (hApplyLine th o l) = fst (hApplyLine th (hCopy o) l).
Proof.
  intros th pre c o l Hp H. rewrite freshLine_copy. apply (hApplyLine_fresh th o l). left.
  assert (E : hmt (hRun th hNew pre) = None).
  { clear H. assert (G : forall ops o0, existsb isProduct ops = false -> histInv th o0 false false -> histInv th (hRun th o0 ops) false false).
    { induction ops as [|op ops IH]; intros o0 Hx H0; [exact H0|]. cbn [existsb] in Hx. apply orb_false_iff in Hx. destruct Hx as [Hx1 Hx2].
      unfold hRun. cbn [fold_left]. apply (IH _ Hx2). assert (Hop : forall l0, op <> OpApplyLine l0) by (intros l0 ->; discriminate).
      pose proof (hStep_inv th o0 op false false Hop H0) as K. cbn [orb andb] in K. destruct (tracked th o0 op); exact K. }
    apply (G pre hNew Hp); [|reflexivity]. split; [reflexivity|intros _; now left]. }
  unfold hAssignCv in H. repeat (match type of H with (if ?x then _ else _) = _ => destruct x end; try discriminate). destruct (cvTyp c); try discriminate;
    (destruct (cvFill _ 0 (cvData c)); try discriminate; cbn [bind] in H; injection H as <-; exact E).
Qed.
Print Assumptions C206_first_use.

(** and whenever normalize() is called after the assignment, which keeps the transformation. *)
Theorem C206_normalize : forall th o c o1 o2 l, thr_ok th -> hAssignCv o c = Ok o1 -> hNormalize th o1 = Ok o2 ->
  fst (hApplyLine th o2 l) = fst (hApplyLine th (hCopy o2) l) /\ forall h, ptOfH (hApplyPt o2 h) = ptOfH (hApplyPt o1 h).
Proof.
  intros th o c o1 o2 l Hth _ Hn. split.
  - rewrite freshLine_copy. apply (hApplyLine_fresh th o2 l). right; left. unfold hNormalize in Hn. destruct (matNormalize th (hm o1)); try discriminate. cbn [bind] in Hn. injection Hn as <-. reflexivity.
  - intros h. unfold hNormalize in Hn. destruct (matNormalize th (hm o1)) as [m| |] eqn:E; try discriminate. cbn [bind] in Hn. injection Hn as <-.
    destruct (matNormalize_inv th _ _ Hth E) as (-> & H22 & _). unfold hApplyPt. cbn [hm]. now rewrite matMulH_scale, ptOfH_scale by (apply Rinv_neq_0_compat; assumption).
Qed.
Print Assumptions C206_normalize.
Example C206_ex : existsb isProduct [OpSetScale 2 3; OpInverse] = false /\ exists o, hAssignCv (hRun thr0 hNew [OpSetScale 2 3]) shift5 = Ok o /\ hm o = mkM 1 0 5 0 1 0 0 0 1 /\ exists o2, hNormalize thr0 o = Ok o2.
Proof.
  split; [reflexivity|]. exists (mkHobj (mkM 1 0 5 0 1 0 0 0 1) true true None). split; [reflexivity|]. split; [reflexivity|]. unfold hNormalize. cbn [hm].
  destruct (matNormalize_ok thr0 (mkM 1 0 5 0 1 0 0 0 1) thr0_ok) as [E _]; [cbn [m22]; rewrite Rabs_R1; unfold thr0; cbn [nullDenom]; rnum; lra|]. rewrite E. cbn [bind]. eexists. reflexivity.
Qed.

(** ** C207: getCvPtd() and getCvPtf() *)

(** Full statement: the free functions documented as returning a point of doubles (floats) give the coordinates of the
    point.  False: the member functions they call return an integer point. *)
Theorem C207_double_refuted : exists p q, getCvPtd p = Ok q /\ ~ (fst q == fst p)%Q /\ ~ (snd q == snd p)%Q.
Proof. exists (Qmake 1 2, Qmake 7 2), (inject_Z 0, inject_Z 4). split; [reflexivity|]. split; discriminate. Qed.
Print Assumptions C207_double_refuted.
Theorem C207_float_refuted : forall r32, (r32 (Qmake 1 2) == Qmake 1 2)%Q -> exists q, getCvPtf r32 (Qmake 1 2, Qmake 1 2) = Ok q /\ ~ (fst q == Qmake 1 2)%Q.
Proof.
  intros r32 H. exists (inject_Z 0, inject_Z 0). split; [|discriminate]. unfold getCvPtf, asInts. cbn [fst snd].
  assert (E : qRound (r32 (Qmake 1 2)) = 0%Z); [|now rewrite E].
  revert H. generalize (r32 (Qmake 1 2)). intros [n d] H. unfold Qeq in H. cbn [Qnum Qden] in H. unfold qRound. cbn [Qnum Qden].
  assert (E : (n / Z.pos d = 0)%Z) by (apply Z.div_small; lia). rewrite E. replace (2 * (n - 0 * Z.pos d) ?= Z.pos d)%Z with Eq; [reflexivity|]. symmetry. apply Z.compare_eq_iff. lia.
Qed.
Print Assumptions C207_float_refuted.

(** ** C208: what the conversions of points do give *)

Lemma trunc_spec x : isTrunc x (qTrunc x).
Proof.
  destruct x as [n d]. unfold isTrunc, qTrunc, Qle, Qlt. cbn [Qnum Qden inject_Z]. rewrite !Z.mul_1_r. cbn [Z.mul].
  pose proof (Z.quot_rem' n (Z.pos d)) as E. split; intros H.
  - pose proof (Z.rem_bound_pos n (Z.pos d) ltac:(lia) ltac:(lia)). nia.
  - pose proof (Z.rem_bound_pos (- n) (Z.pos d) ltac:(lia) ltac:(lia)) as B. rewrite Z.rem_opp_l in B by lia. nia.
Qed.
(** getCvPti() truncates towards zero; *)
Theorem C208_integer : forall p, (forall z, getCvPti p = Ok z -> isTrunc (fst p) (fst z) /\ isTrunc (snd p) (snd z)) /\
  ((exists z, getCvPti p = Ok z) <-> intRange (qTrunc (fst p)) /\ intRange (qTrunc (snd p))).
Proof.
  intros [x y]. unfold getCvPti, asInts, asInt, intRange. cbn [fst snd]. split.
  - intros z. destruct (_ && _); try discriminate. cbn [bind]. destruct (_ && _); try discriminate. cbn [bind]. intros H. injection H as <-. split; apply trunc_spec.
  - split.
    + intros [z H]. destruct ((_ <=? qTrunc x)%Z && _) eqn:E1; try discriminate. cbn [bind] in H. destruct ((_ <=? qTrunc y)%Z && _) eqn:E2; try discriminate.
      apply andb_true_iff in E1, E2. lia.
    + intros [H1 H2]. replace ((_ <=? qTrunc x)%Z && _) with true by (symmetry; apply andb_true_iff; lia). cbn [bind]. replace ((_ <=? qTrunc y)%Z && _) with true by (symmetry; apply andb_true_iff; lia). eexists. reflexivity.
Qed.
Print Assumptions C208_integer.

Lemma round_int z : qRound (inject_Z z) = z.
Proof. unfold qRound, inject_Z. cbn [Qnum Qden]. rewrite Z.div_1_r. replace (2 * (z - z * 1))%Z with 0%Z by lia. reflexivity. Qed.
Lemma trunc_int z : qTrunc (inject_Z z) = z.
Proof. unfold qTrunc, inject_Z. cbn [Qnum Qden]. apply Z.quot_1_r. Qed.
(** the three functions agree and lose nothing on points with integer coordinates; *)
Theorem C208_integers : forall r32 z, intRange (fst z) -> intRange (snd z) -> (forall k, intRange k -> r32 (inject_Z k) = inject_Z k) ->
  getCvPti (ptOfCv z) = Ok z /\ getCvPtd (ptOfCv z) = Ok (ptOfCv z) /\ getCvPtf r32 (ptOfCv z) = Ok (ptOfCv z).
Proof.
  intros r32 [x y] Hx Hy R. unfold getCvPti, getCvPtd, getCvPtf, asInts, ptOfCv, asInt. cbn [fst snd] in *. rewrite !R by assumption. rewrite !round_int, !trunc_int. unfold intRange in *.
  replace ((_ <=? x)%Z && _) with true by (symmetry; apply andb_true_iff; lia). cbn [bind]. replace ((_ <=? y)%Z && _) with true by (symmetry; apply andb_true_iff; lia). repeat split.
Qed.
Print Assumptions C208_integers.
Lemma round_spec x : isNearest x (qRound x).
Proof.
  destruct x as [n d]. unfold isNearest, qRound, Qle, Qeq. cbn [Qnum Qden inject_Z Qminus Qplus Qopp].
  pose proof (Z.div_mod n (Z.pos d) ltac:(lia)) as E. pose proof (Z.mod_pos_bound n (Z.pos d) ltac:(lia)) as B.
  set (f := (n / Z.pos d)%Z) in *. set (r := (n mod Z.pos d)%Z) in *. replace (n - f * Z.pos d)%Z with r by lia. clearbody f r. rewrite E. rewrite ?Pos.mul_1_l, ?Pos.mul_1_r.
  destruct (Z.compare_spec (2 * r) (Z.pos d)) as [C|C|C]; [destruct (Z.even f) eqn:V|..].
  - repeat split; try nia. intros _. exact V.
  - repeat split; try nia. intros _. rewrite Z.even_add, V. reflexivity.
  - repeat split; try nia.
  - repeat split; try nia.
Qed.
(** otherwise getCvPtd() gives the nearest integers, ties to even; *)
Theorem C208_nearest : forall p q, getCvPtd p = Ok q -> exists x y, q = (inject_Z x, inject_Z y) /\ isNearest (fst p) x /\ isNearest (snd p) y.
Proof.
  intros [a b] q. unfold getCvPtd, asInts, asInt. cbn [fst snd]. intro H. destruct (_ && _); try discriminate. cbn [bind] in H. destruct (_ && _); try discriminate. cbn [bind] in H.
  injection H as <-. exists (qRound a), (qRound b). split; [reflexivity|]. split; apply round_spec.
Qed.
Print Assumptions C208_nearest.
(** getPt() loses nothing, and getPts() converts each point, in order. *)
Theorem C208_points : forall A (f : qpt -> A) l p, getPt2d p = p /\ length (getPtsOf f l) = length l /\ (forall i, (i < length l)%nat -> nth_error (getPtsOf f l) i = option_map f (nth_error l i)).
Proof. intros A f l p. split; [reflexivity|]. split; [apply map_length|]. intros i Hi. unfold getPtsOf. apply nth_error_map. Qed.
Print Assumptions C208_points.
(** The rectangle of an image has its size. *)
Theorem C208_rectangle : forall th (c : cvMat R), nullOrthogDistance th <= 1 ->
  (cvCols c = 0%nat \/ cvRows c = 0%nat -> frOfCv th c = Throw) /\
  (cvCols c <> 0%nat -> cvRows c <> 0%nat -> exists r, frOfCv th c = Ok r /\ r1 r = mkPt 0 0 /\ frWidth r = INR (cvCols c) /\ frHeight r = INR (cvRows c)).
Proof.
  intros th [rows cols n t d] Hn. unfold frOfCv. cbn [cvCols cvRows]. split.
  - intros [-> | ->]; [reflexivity|]. now rewrite orb_true_r.
  - intros Hc Hr. rewrite (proj2 (Nat.eqb_neq cols 0) Hc), (proj2 (Nat.eqb_neq rows 0) Hr). cbn [orb].
    assert (L : forall k, k <> 0%nat -> 1 <= INR k) by (intros k Hk; change 1 with (INR 1); apply le_INR; lia). pose proof (L _ Hc). pose proof (L _ Hr).
    rnum. rewrite <- !INR_IZR_INZ. rewrite frSet_ok; cbn [px py]; try (rewrite Rabs_left1; lra).
    eexists. split; [reflexivity|]. unfold frWidth, frHeight. cbn [r1 r2 px py]. rnum. rewrite !Rmin_left, !Rmax_right by lra. split; [reflexivity|]. split; lra.
Qed.
Print Assumptions C208_rectangle.
Example C208_ex : getCvPti (Qmake 17 10, Qmake (-17) 10) = Ok (1, -1)%Z /\ getCvPtd (Qmake 17 10, Qmake (-17) 10) = Ok (inject_Z 2, inject_Z (-2)) /\ nullOrthogDistance (thr0 (T := R)) <= 1.
Proof. repeat split. unfold thr0. cbn [nullOrthogDistance]. rnum. lra. Qed.

(** ** C209: polylines from boost polygons *)

(** A closed ring (last point repeating the first one) gives the closed polyline of its other points, and cannot give
    an open one; a ring whose points can build a polyline gives that polyline. *)
Theorem C209_closed : forall T (N : Num T) th f rest l, ptEq th f l = true -> plCheck th (f :: rest) = true -> rest <> [] ->
  plOfBoost th true (f :: rest ++ [l]) = plSet th (f :: rest) /\ plOfBoost th false (f :: rest ++ [l]) = Throw.
Proof.
  intros T N th f rest l E C Hr. unfold plOfBoost. rewrite app_comm_cons, last_last, E. cbn [andb negb]. split; [|reflexivity]. rewrite removelast_last. unfold plSet. rewrite C.
  destruct rest; [now elim Hr|]. reflexivity.
Qed.
Print Assumptions C209_closed.
Theorem C209_unclosed : forall T (N : Num T) th closed f rest, plCheck th (f :: rest) = true -> rest <> [] -> plOfBoost th closed (f :: rest) = plSet th (f :: rest).
Proof.
  intros T N th closed f rest C Hr. unfold plOfBoost, plSet. rewrite C. unfold plCheck in C. apply andb_true_iff in C. destruct C as [_ C]. cbn [hd] in C.
  assert (L : last (f :: rest) f = last (f :: rest) pt00) by (destruct rest as [|x r]; [now elim Hr|]; cbn [last]; clear; revert x; induction r as [|y r IH]; intros x; [reflexivity|]; apply (IH y)).
  rewrite L. apply negb_true_iff in C. rewrite C. cbn [andb]. destruct rest; [now elim Hr|]. reflexivity.
Qed.
Print Assumptions C209_unclosed.

(** ** C210: no check of the ring *)

(** Full statement: a polyline built from a boost polygon is one that set() accepts.  False: contiguous identical points
    are kept, and a ring of one point gives an empty polyline. *)
Theorem C210_refuted : exists outer pl, plOfBoost (thr0 (T := R)) true outer = Ok pl /\ plSet thr0 (plPts pl) = Throw /\ plSegs thr0 true KSeg (plPts pl) = Throw.
Proof.
  set (a := mkPt 0 0). set (b := mkPt 5 0). set (c := mkPt 5 5). exists [a; b; b; c; a], (plFresh [a; b; b; c]).
  assert (E : forall p, ptEq thr0 p p = true) by (intros p; apply ptEq_refl; apply thr0_ok).
  assert (B : ptEq thr0 a b = false).
  { apply ptEq_false. unfold edist, a, b. cbn [px py]. replace (Rsqr (0 - 5) + Rsqr (0 - 0)) with (Rsqr 5) by (unfold Rsqr; ring). rewrite sqrt_Rsqr by lra. unfold thr0. cbn [nullDistance]. rnum. lra. }
  split; [|split].
  - unfold plOfBoost. cbn [last]. now rewrite E.
  - unfold plSet. cbn [plPts plFresh length Nat.eqb Nat.ltb Nat.leb andb]. unfold plCheck. cbn [noConsecEq]. rewrite E. cbn [negb andb]. now rewrite andb_false_r.
  - unfold plSegs. cbn [plPts plFresh length Nat.ltb Nat.leb seq Nat.sub mapM Nat.add]. unfold plPoint. cbn [nth_error bind Nat.add length Nat.ltb Nat.leb nth]. unfold svNew. rewrite B, E. reflexivity.
Qed.
Print Assumptions C210_refuted.
Theorem C210_single_refuted : exists outer, length outer = 1%nat /\ plOfBoost (thr0 (T := R)) true outer = Ok (plFresh []) /\ plSet (thr0 (T := R)) outer = Throw.
Proof. exists [mkPt 1 2]. split; [reflexivity|]. split; [|reflexivity]. unfold plOfBoost. cbn [last]. now rewrite (ptEq_refl thr0 _ thr0_ok). Qed.
Print Assumptions C210_single_refuted.
Example C209_ex : let a := mkPt 0 0 in let b := mkPt 5 0 in let c := mkPt 5 12 in
  plCheck (thr0 (T := R)) [a; b; c] = true /\ ptEq (thr0 (T := R)) a a = true /\ plOfBoost thr0 true [a; b; c; a] = Ok (plFresh [a; b; c]).
Proof.
  cbv zeta. assert (E : ptEq thr0 (mkPt 0 0) (mkPt 0 0) = true) by apply (ptEq_refl thr0 _ thr0_ok).
  assert (D : forall x y u v d, 1 <= d -> d * d = (x - u) * (x - u) + (y - v) * (y - v) -> ptEq thr0 (mkPt x y) (mkPt u v) = false).
  { intros x y u v d Hd H. apply ptEq_false. unfold edist. cbn [px py]. unfold Rsqr. rewrite <- H, sqrt_square by lra. unfold thr0. cbn [nullDistance]. rnum. lra. }
  split; [|split; [exact E|unfold plOfBoost; cbn [last]; now rewrite E]].
  unfold plCheck. cbn [noConsecEq hd last]. rewrite (D 0 0 5 0 5), (D 5 0 5 12 12), (D 0 0 5 12 13) by lra. reflexivity.
Qed.
