(** * Properties C182, C183: ellipses in the build with HOMOG2D_OPTIMIZE_SPEED *)

From Coq Require Import Reals ZArith List Bool Lra Lia.
From Verif Require Import Num M_LP M_Homogr M_Seg M_Circle M_Poly M_FRect S_Geom S_Homogr S_Circle S_FRect S_Misc S_Ellipse P_LP P_LP2 P_LP4 P_Homogr P_BB P_Poly7 P_Ellipse P_Ellipse2 M_Ellipse M_EllOpt S_EllOpt P_EllOpt C_Ellipse.
Import ListNotations.
Local Open Scope R_scope.

(** ** C182 *)
(** After any calls the getters give the parameters the ellipse was built with, at its present centre, whatever
    its size and its angle; and the matrix describes that ellipse. *)
Theorem C182_state : forall th x y a b t ops, thr_ok th -> 0 < b <= a ->
  exists o, fold_left (oStep th) ops (Ok (oNew x y a b t)) = Ok o /\
    oCenter th o = Ok (centreAfter ops (mkPt x y), o) /\ oMajMin th o = Ok (a, b, o) /\ oAngle th o = Ok (t, o) /\ oArea th o = Ok (PI * a * b, o) /\
    exists k, k <> 0 /\ forall p, conic (em (oe o)) p = k * (ellForm (px (centreAfter ops (mkPt x y))) (py (centreAfter ops (mkPt x y))) a b t p - 1).
Proof.
  intros th x y a b t ops Ht Hab. rewrite oNew_ge by lra. destruct (good_run th a b t ops Ht _ _ (good_init false (mkPt x y) a b t)) as (o & R & G).
  exists o. split; [exact R|]. pose proof (good_params th _ _ _ _ _ G) as P. unfold oCenter, oMajMin, oAngle, oArea. rewrite P. cbn [bind parOf ex0 ey0 ea eb eth].
  split; [now destruct (centreAfter ops (mkPt x y))|]. split; [reflexivity|]. split; [reflexivity|]. split; [reflexivity|].
  destruct G as (_ & _ & k & K & M). assert (0 < a * a * (b * b)) by (repeat apply Rmult_lt_0_compat; lra). exists (k * (a * a * (b * b))). split; [apply Rmult_integral_contrapositive_currified; lra|].
  intros p. rewrite M, conic_scale, conic_init by lra. ring.
Qed.
Theorem C182_inside : forall th x y a b t ops p, thr_ok th -> 0 < b <= a ->
  exists o v, fold_left (oStep th) ops (Ok (oNew x y a b t)) = Ok o /\ oInside th o p = Ok (v, o) /\
    (v = true <-> ellForm (px (centreAfter ops (mkPt x y))) (py (centreAfter ops (mkPt x y))) a b t p < 1).
Proof.
  intros th x y a b t ops p Ht Hab. rewrite oNew_ge by lra. destruct (good_run th a b t ops Ht _ _ (good_init false (mkPt x y) a b t)) as (o & R & G).
  pose proof (good_params th _ _ _ _ _ G) as P. assert (0 < a * a /\ 0 < b * b) as [Pa Pb] by (split; apply Rmult_lt_0_compat; lra).
  exists o. unfold oInside. rewrite P. cbn [bind parOf ex0 ey0 esin ecos ea2 eb2]. rnum. rewrite !cdiv_ok by lra. cbn [bind].
  eexists. split; [exact R|]. split; [reflexivity|]. rewrite Rltb_spec. unfold ellForm, Rsqr.
  match goal with |- ?l < 1 <-> ?r < 1 => replace r with l; [reflexivity|] end. field. lra.
Qed.
Theorem C182_box : forall th x y a b t ops, thr_ok th -> 0 < b <= a -> nullOrthogDistance th <= 2 * b ->
  exists o r, fold_left (oStep th) ops (Ok (oNew x y a b t)) = Ok o /\ oBB th o = Ok (r, o) /\
    smallestBox (fun p => ellForm (px (centreAfter ops (mkPt x y))) (py (centreAfter ops (mkPt x y))) a b t p <= 1) r.
Proof.
  intros th x y a b t ops Ht Hab Hb. rewrite oNew_ge by lra. destruct (good_run th a b t ops Ht _ _ (good_init false (mkPt x y) a b t)) as (o & R & G).
  pose proof (good_params th _ _ _ _ _ G) as P. set (c := centreAfter ops (mkPt x y)) in *.
  pose proof (ell_box (px c) (py c) a b t Hab) as Bx. pose proof (vx_ge a b t Hab) as Gx. pose proof (vy_ge a b t Hab) as Gy. assert (0 < b * b) by (apply Rmult_lt_0_compat; lra).
  exists o. unfold oBB. rewrite P. cbn [bind parOf ex0 ey0 esin ecos ea2 eb2]. rnum.
  rewrite !csqrt_ok by lra. cbn [bind]. set (vx := a * a * cos t * cos t + b * b * sin t * sin t) in *. set (vy := a * a * sin t * sin t + b * b * cos t * cos t) in *.
  assert (b <= sqrt vx) as Sx by (rewrite <- (sqrt_square b) by lra; apply sqrt_le_1_alt; lra). assert (b <= sqrt vy) as Sy by (rewrite <- (sqrt_square b) by lra; apply sqrt_le_1_alt; lra).
  rewrite frSet_ok by (cbn [px py]; rewrite Rabs_left; lra). cbn [px py bind]. rewrite !Rmin_left, !Rmax_right by lra.
  eexists. split; [exact R|]. split; [reflexivity|]. exact Bx.
Qed.
(** The larger value is the first half-axis, however they are given. *)
Theorem C182_exchange : forall x y a b t, oNew x y a b t = oNew (N := RNum) x y b a t.
Proof. exact oNew_exchange. Qed.
(** An image: the first call computes what the default build computes, the later ones give the same. *)
Theorem C182_image : forall th h o o', oImage th h o = Ok o' -> hEll th h (oe o) = Ok (oe o') /\
  (ellParams th (oe o') = Throw -> oParams th o' = Throw) /\
  forall r, ellParams th (oe o') = Ok r -> exists o2, oParams th o' = Ok (r, o2) /\ oParams th o2 = Ok (r, o2) /\ oe o2 = oe o'.
Proof.
  intros th h o o' H. unfold oImage in H. apply bind_ok in H. destruct H as (e & H & E). apply Ok_inj in E. subst o'. cbn [oOfMat oe]. split; [exact H|].
  unfold oParams. cbn [oOfMat oChg oe oPar]. split; [intros ->; reflexivity|]. intros r ->. cbn [bind]. eexists. split; [reflexivity|]. auto.
Qed.
(** Where the default build is right both builds agree: same matrix, same centre, same half-axes. *)
Theorem C182_agree : forall th x y a b t ops, thr_ok th -> bigEnough th a b -> angleOK th a b t -> ~ In OCmp ops ->
  exists o e, fold_left (oStep th) ops (Ok (oNew x y a b t)) = Ok o /\ fold_left (dStep th) ops (Ok (ellNew x y a b t)) = Ok e /\ oe o = e /\
    ellCenter th e = Ok (centreAfter ops (mkPt x y)) /\ ellMajMin th e = Ok (a, b).
Proof.
  intros th x y a b t ops Ht [Hab Hd] Ho. rewrite oNew_ge, ellNew_ge by lra.
  assert (forall ops c, ~ In OCmp ops -> exists o, fold_left (oStep th) ops (Ok (oInit false (px c) (py c) a b t)) = Ok o /\
    fold_left (dStep th) ops (Ok (mkE (ellInit (px c) (py c) a b t) false)) = Ok (oe o) /\ oe o = mkE (ellInit (px (centreAfter ops c)) (py (centreAfter ops c)) a b t) false) as Q.
  { clear ops. induction ops as [|op ops IH]; intros c Hn; [eexists; split; [reflexivity|]; split; reflexivity|]. cbn [fold_left].
    destruct (params_same th (px c) (py c) a b t false Ht Hab Hd Ho) as (u & P & E).
    assert (oStep th (Ok (oInit false (px c) (py c) a b t)) op = Ok (oInit false (px (centreStep c op)) (py (centreStep c op)) a b t)) as ->.
    { unfold oStep. cbn [bind]. destruct op; try reflexivity. exfalso. apply Hn. now left. }
    assert (dStep th (Ok (mkE (ellInit (px c) (py c) a b t) false)) op = Ok (mkE (ellInit (px (centreStep c op)) (py (centreStep c op)) a b t) false)) as ->.
    { unfold dStep. cbn [bind]. destruct op as [dx dy|x1 y1| |]; unfold ellTranslate, ellMoveTo; try rewrite P; cbn [bind ex0 ey0 ea eb eth eNorm centreStep px py]; try rewrite E; try reflexivity.
      exfalso. apply Hn. now left. }
    apply IH. intros I. apply Hn. now right. }
  intros Hn. destruct (Q ops (mkPt x y) Hn) as (o & F1 & F2 & E). exists o, (oe o). split; [exact F1|]. split; [exact F2|]. split; [reflexivity|].
  rewrite E. set (c := centreAfter ops (mkPt x y)). destruct (params_fresh th (px c) (py c) a b t false Ht Hab Hd) as (u & P & _).
  unfold ellCenter, ellMajMin. rewrite P. cbn [bind ex0 ey0 ea eb]. split; [now destruct c|reflexivity].
Qed.
Example C182_ex : 0 < 1 / 1000 <= 2 / 1000 /\ centreAfter [OTrans 1 2; OCmp; OMove 5 6; OGet; OTrans (-1) 0] (mkPt 3 3) = mkPt 4 6 /\ bigEnough thr0 2 1 /\ angleOK thr0 2 1 (PI / 4) /\
  (exists o', oImage thr0 projM (oNew 0 0 1 1 0) = Ok o').
Proof.
  split; [lra|]. split; [unfold centreAfter; cbn; f_equal; lra|]. destruct C87_ex as (B & _ & _ & A). split; [exact B|]. split; [exact A|].
  destruct C63_ex as (e' & E & _). rewrite ellNew_ge in E by lra. rewrite oNew_ge by lra. unfold oImage. cbn [oInit oe]. rewrite E. eexists. reflexivity.
Qed.
Print Assumptions C182_state. Print Assumptions C182_inside. Print Assumptions C182_box. Print Assumptions C182_exchange. Print Assumptions C182_image. Print Assumptions C182_agree.

(** ** C183 *)
(** The option changes results: the angle of a vertical ellipse, *)
Theorem C183_angle_refuted : exists x y a b t v w o, 0 < b < a /\ ellAngle thr0 (ellNew x y a b t) = Ok v /\ oAngle thr0 (oNew x y a b t) = Ok (w, o) /\ sin (v - w) <> 0.
Proof.
  exists 0, 0, 2, 1, (PI / 2), 90, (PI / 2), (oInit false 0 0 2 1 (PI / 2)). split; [lra|]. split; [|split].
  - rewrite ellNew_ge by lra. unfold ellAngle. rewrite vert_params. reflexivity.
  - rewrite oNew_ge by lra. reflexivity.
  - rewrite sin_minus, cos_PI2, sin_PI2. pose proof cos90. lra.
Qed.
(** whether a small ellipse has a centre, *)
Theorem C183_small_refuted : exists x y a b t c o, 0 < b <= a /\ ellCenter thr0 (ellNew x y a b t) = Throw /\ oCenter thr0 (oNew x y a b t) = Ok (c, o).
Proof.
  exists 0, 0, (1 / 1000), (1 / 1000), 0, (mkPt 0 0), (oInit false 0 0 (1 / 1000) (1 / 1000) 0). split; [lra|]. split.
  - rewrite ellNew_ge by lra. unfold ellCenter, ellParams. cbn [em].
    unfold ellInit. cbn [m00 m01 m02 m11 m12 m22]. rnum. rewrite sin_0, cos_0. rewrite (proj2 (Rltb_spec _ _)); [reflexivity|].
    match goal with |- Rabs ?x < _ => replace x with (- (4 / 1000000000000)) by field end.
    rewrite Rabs_Ropp, Rabs_right by lra. unfold thr0. cbn [nullDenom]. rnum. lra.
  - rewrite oNew_ge by lra. reflexivity.
Qed.
(** the half-axes after a comparison, *)
Theorem C183_compare_refuted : exists x y a b t e o o', 0 < b < a /\ ellNormalize thr0 (ellNew x y a b t) = Ok e /\ oNormalize thr0 (oNew x y a b t) = Ok o /\ oe o = e /\
  ellMajMin thr0 e = Ok (b, a) /\ oMajMin thr0 o = Ok (a, b, o').
Proof.
  exists 0, 0, 2, 1, 0. set (e := mkE (scaleM (- / 4) (ellInit 0 0 2 1 0)) true).
  assert (ellNormalize thr0 (ellNew 0 0 2 1 0) = Ok e) as E.
  { pose proof default_eq as D. unfold ellEqSelf, ellDefault in D. rnum. apply bind_ok in D. destruct D as (e1 & D & H). injection H as _ H. fold e in H. rewrite <- H. exact D. }
  exists e, (mkEO e false (parOf (mkPt 0 0) 2 1 0)), (mkEO e false (parOf (mkPt 0 0) 2 1 0)). split; [lra|]. split; [exact E|]. split; [|split; [reflexivity|split]].
  - rewrite ellNew_ge in E by lra. rewrite oNew_ge by lra. unfold oNormalize. cbn [oInit oe]. rewrite E. reflexivity.
  - destruct (params_scaled 0 0 2 1 0 (- / 4)) with (th := @thr0 R RNum) as (u & P & _); [lra|lra|unfold thr0; cbn [nullDenom]; rnum; lra|].
    unfold ellMajMin. rewrite (ellParams_flag thr0 _ (mkE (scaleM (- / 4) (ellInit 0 0 2 1 0)) false)) by reflexivity. rewrite P.
    destruct (Rlt_dec 0 (- / 4)); [lra|]. reflexivity.
  - reflexivity.
Qed.
(** and a coefficient written through the public base class, which leaves the cached parameters as they were:
    the ellipse of half-axes 4 and 2 is reported with half-axes 2 and 1. *)
Theorem C183_stale_refuted : exists x y a b t r c v o, ellMajMin thr0 (ellSet r c v (ellNew x y a b t)) = Ok (4, 2) /\
  oe (oSet r c v (oNew x y a b t)) = ellSet r c v (ellNew x y a b t) /\ oMajMin thr0 (oSet r c v (oNew x y a b t)) = Ok (2, 1, o).
Proof.
  exists 0, 0, 2, 1, 0, 2%nat, 2%nat, (-16), (oSet 2 2 (-16) (oInit false 0 0 2 1 0)). rewrite ellNew_ge, oNew_ge by lra. split; [|split; reflexivity].
  destruct (params_scaled 0 0 4 2 0 (/ 4)) with (th := @thr0 R RNum) as (u & P & _); [lra|lra|unfold thr0; cbn [nullDenom]; rnum; lra|].
  unfold ellMajMin. rewrite (ellParams_flag thr0 _ (mkE (scaleM (/ 4) (ellInit 0 0 4 2 0)) false)).
  - rewrite P. destruct (Rlt_dec 0 (/ 4)); [|lra]. reflexivity.
  - cbn [ellSet em setCoeff]. unfold scaleM, matMap, setCoeff, ellInit. cbn -[sin cos Rmult Rplus Rminus Rdiv Ropp Rinv]. rnum. rewrite sin_0, cos_0. f_equal; field.
Qed.
Print Assumptions C183_angle_refuted. Print Assumptions C183_small_refuted. Print Assumptions C183_compare_refuted. Print Assumptions C183_stale_refuted.
