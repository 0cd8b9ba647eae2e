(** * Properties C62, C63, C87-C95: ellipses *)

From Coq Require Import Reals ZArith List Bool Lra Lia.
From Verif Require Import Num M_LP M_Homogr M_Seg M_Circle M_Poly M_FRect S_Geom S_Homogr S_Circle S_FRect S_Misc S_Ellipse P_LP P_LP2 P_LP4 P_Homogr P_BB P_Poly7 P_Ellipse P_Ellipse2 M_Ellipse.
Import ListNotations.
Local Open Scope R_scope.

(** ** C62 *)
(** The angle reported for a vertical major axis is 90, which is not the given angle modulo a half turn. *)
Theorem C62_vertical_refuted : exists x y a b t v, 0 < b < a /\ ellAngle thr0 (ellNew x y a b t) = Ok v /\ sin (v - t) <> 0.
Proof.
  exists 0, 0, 2, 1, (PI / 2), 90. split; [lra|]. split.
  - rewrite ellNew_ge by lra. unfold ellAngle. rewrite vert_params. reflexivity.
  - rewrite sin_minus, cos_PI2, sin_PI2. pose proof cos90. lra.
Qed.
(** A small ellipse has no centre. *)
Theorem C62_small_refuted : exists x y a b t, 0 < b <= a /\ ellCenter thr0 (ellNew x y a b t) = Throw.
Proof.
  exists 0, 0, (1 / 1000), (1 / 1000), 0. split; [lra|]. rewrite ellNew_ge by lra. unfold ellCenter, ellParams. cbn [em].
  unfold ellInit. cbn [m00 m01 m02 m11 m12 m22]. rnum. rewrite sin_0, cos_0. rewrite (proj2 (Rltb_spec _ _)); [reflexivity|].
  match goal with |- Rabs ?x < _ => replace x with (- (4 / 1000000000000)) by field end.
  rewrite Rabs_Ropp, Rabs_right by lra. unfold thr0. cbn [nullDenom]. rnum. lra.
Qed.
Print Assumptions C62_vertical_refuted. Print Assumptions C62_small_refuted.

(** ** C87 *)
Definition bigEnough (th : thrs R) (a b : R) : Prop := 0 < b <= a /\ nullDenom th <= 4 * (a * a) * (b * b).
Theorem C87_center_axes : forall th x y a b t, thr_ok th -> bigEnough th a b ->
  ellCenter th (ellNew x y a b t) = Ok (mkPt x y) /\ ellMajMin th (ellNew x y a b t) = Ok (a, b) /\
  ellArea th (ellNew x y a b t) = Ok (PI * a * b).
Proof.
  intros th x y a b t Ht [Hab Hd]. rewrite ellNew_ge by lra. destruct (params_fresh th x y a b t false Ht Hab Hd) as (u & P & _).
  unfold ellCenter, ellMajMin, ellArea. rewrite P. auto.
Qed.
Theorem C87_angle : forall th x y a b t, thr_ok th -> bigEnough th a b -> - (PI / 2) < t < PI / 2 ->
  t = 0 \/ nullDenom th <= Rabs (2 * (b * b - a * a) * sin t * cos t) -> ellAngle th (ellNew x y a b t) = Ok t.
Proof.
  intros th x y a b t Ht [Hab Hd] Hr Ho. rewrite ellNew_ge by lra. destruct (params_fresh th x y a b t false Ht Hab Hd) as (u & P & E).
  unfold ellAngle. rewrite P. cbn [bind eth]. f_equal. rewrite E. unfold coefB. destruct Ho as [->|Ho].
  - rewrite sin_0, cos_0. replace (2 * (b * b - a * a) * 0 * 1) with 0 by ring. rewrite Rabs_R0. rewrite (proj2 (Rltb_spec _ _)) by (pose proof (thr_deno _ Ht); lra).
    assert (b * b <= a * a) by (apply Rmult_le_compat; lra). now rewrite (proj2 (Rltb_false _ _)) by lra.
  - rewrite (proj2 (Rltb_false _ _)) by lra. now apply atan_tan.
Qed.
(** Any angle: the reported parameters describe the same ellipse. *)
Theorem C87_same_ellipse : forall th x y a b t, thr_ok th -> bigEnough th a b -> angleOK th a b t ->
  exists u, ellAngle th (ellNew x y a b t) = Ok u /\ forall p, ellForm x y a b u p = ellForm x y a b t p.
Proof.
  intros th x y a b t Ht [Hab Hd] Ho. rewrite ellNew_ge by lra. destruct (params_same th x y a b t false Ht Hab Hd Ho) as (u & P & E).
  exists u. unfold ellAngle. rewrite P. split; auto. intros p. now apply ellForm_same.
Qed.
Theorem C87_exchange : forall x y a b t, ellNew x y a b t = ellNew (N := RNum) x y b a t.
Proof.
  intros. unfold ellNew. rnum. destruct (Rltb a b) eqn:E, (Rltb b a) eqn:F; auto; rclean; try lra. replace b with a by lra. reflexivity.
Qed.
Lemma sc_third : sin (PI / 6) = 1 / 2 /\ cos (PI / 6) = sqrt 3 / 2.
Proof. split; [apply sin_PI6|apply cos_PI6]. Qed.
Example C87_ex : bigEnough thr0 2 1 /\ - (PI / 2) < PI / 4 < PI / 2 /\ nullDenom thr0 <= Rabs (2 * (1 * 1 - 2 * 2) * sin (PI / 4) * cos (PI / 4)) /\ angleOK thr0 2 1 (PI / 4).
Proof.
  assert (nullDenom (thr0 (T := R)) <= 1) as D by (pose proof (thr_deno _ thr0_ok); lra).
  assert (sin (PI / 4) * cos (PI / 4) = 1 / 2) as E.
  { rewrite sin_PI4, cos_PI4. assert (0 < sqrt 2) as S by (apply sqrt_lt_R0; lra). assert (sqrt 2 * sqrt 2 = 2) as Q by (apply sqrt_sqrt; lra).
    transitivity (1 / (sqrt 2 * sqrt 2)); [field; lra|]. rewrite Q. reflexivity. }
  assert (nullDenom thr0 <= Rabs (2 * (1 * 1 - 2 * 2) * sin (PI / 4) * cos (PI / 4))) as H.
  { rewrite Rmult_assoc, E. rewrite Rabs_left; lra. }
  split; [unfold bigEnough; lra|]. split; [pose proof PI_RGT_0; lra|]. split; auto. right. right. exact H.
Qed.
Print Assumptions C87_center_axes. Print Assumptions C87_angle. Print Assumptions C87_same_ellipse. Print Assumptions C87_exchange.

(** ** C63 *)
(** The matrix of an ellipse describes it. *)
Theorem C63_matrix : forall x y a b t p, 0 < b <= a -> conic (em (ellNew x y a b t)) p = a * a * (b * b) * (ellForm x y a b t p - 1).
Proof. intros x y a b t p H. rewrite ellNew_ge by lra. cbn [em]. apply conic_init; lra. Qed.
Theorem C63_incidence : forall th h e e' p q, thr_ok th -> hEll th h e = Ok e' -> isImage h p q ->
  (conic (em e') q = 0 <-> conic (em e) p = 0) /\ (conic (em e') q < 0 <-> conic (em e) p < 0).
Proof.
  intros th h e e' p q Ht H I. destruct (hEll_conic th h e e' p q Ht H I) as [W E]. apply Rsqr_pos_lt in W. unfold Rsqr in W.
  rewrite <- E. set (k := _ * _) in *. clearbody k. split; split; intros Z.
  - rewrite Z. ring.
  - apply Rmult_integral in Z. lra.
  - rewrite <- (Rmult_0_r k). now apply Rmult_lt_compat_l.
  - apply (Rmult_lt_reg_l k); auto. now rewrite Rmult_0_r.
Qed.
Theorem C63_defined : forall th h (e : ell R), thr_ok th -> (nullDeter th <= Rabs (det3 h) <-> exists e', hEll th h e = Ok e').
Proof.
  intros th h e Ht. unfold hEll, matInverse. change (@determ R RNum h) with (det3 h). rnum. destruct (Rltb _ _) eqn:E; rclean; split; intros H; try lra; auto.
  - destruct H as (e' & H). discriminate.
  - eexists. reflexivity.
Qed.
(** Affine transformations send the centre to the centre. *)
Theorem C63_center_affine : forall th h e e' c c', thr_ok th -> symM (em e) -> m20 h = 0 -> m21 h = 0 -> hEll th h e = Ok e' ->
  ellCenter th e = Ok c -> ellCenter th e' = Ok c' -> isImage h c c'.
Proof. exact hEll_centre_affine. Qed.
Theorem C63_symmetric_matrix : forall th x y a b t, symM (em (ellNew x y a b t)) /\ (forall c, symM (em (ellOfCircle c))) /\
  forall h e e', hEll th h e = Ok e' -> symM (em e) -> symM (em e').
Proof.
  intros th x y a b t. split; [|split].
  - unfold ellNew. destruct (_ <? _)%num; apply init_sym.
  - intros c. apply init_sym.
  - intros h e e'. apply hEll_sym.
Qed.
(** A projective map that is not affine does not send the centre to the centre. *)
Definition projM : mat R := mkM 1 0 0 0 1 0 (1 / 2) 0 1.
Example C63_ex : exists e', hEll thr0 projM (ellNew 0 0 1 1 0) = Ok e' /\ isImage projM (mkPt 1 0) (mkPt (2 / 3) 0) /\
  conic (em (ellNew 0 0 1 1 0)) (mkPt 1 0) = 0.
Proof.
  destruct (proj1 (C63_defined thr0 projM (ellNew 0 0 1 1 0) thr0_ok)) as (e' & E).
  { unfold det3, projM. cbn [m00 m01 m02 m10 m11 m12 m20 m21 m22]. replace (_ + _) with 1 by ring. rewrite Rabs_R1. unfold thr0. cbn [nullDeter]. rnum. lra. }
  exists e'. split; auto. split.
  - unfold isImage, projM. cbn [m00 m01 m02 m10 m11 m12 m20 m21 m22 px py]. repeat split; lra.
  - rewrite C63_matrix by lra. unfold ellForm, Rsqr. cbn [px py]. rewrite sin_0, cos_0. field.
Qed.
Example C63_ex2 : m20 (mkM 2 1 5 0 3 7 0 0 1) = 0 /\ (exists e', hEll thr0 (mkM 2 1 5 0 3 7 0 0 1) (ellNew 1 2 2 1 0) = Ok e') /\ ellCenter thr0 (ellNew 1 2 2 1 0) = Ok (mkPt 1 2).
Proof.
  split; [reflexivity|]. split.
  - apply (C63_defined thr0 _ _ thr0_ok). unfold det3. cbn [m00 m01 m02 m10 m11 m12 m20 m21 m22]. replace (_ + _) with 6 by ring. rewrite Rabs_right by lra. unfold thr0. cbn [nullDeter]. rnum. lra.
  - apply (C87_center_axes thr0 1 2 2 1 0 thr0_ok). split; [lra|]. pose proof (thr_deno _ thr0_ok). lra.
Qed.
Print Assumptions C63_matrix. Print Assumptions C63_incidence. Print Assumptions C63_defined. Print Assumptions C63_center_affine. Print Assumptions C63_symmetric_matrix.

(** ** C88 *)
Theorem C88_box : forall th x y a b t, thr_ok th -> bigEnough th a b -> angleOK th a b t -> nullOrthogDistance th <= 2 * b ->
  exists r, ellBB th (ellNew x y a b t) = Ok r /\ smallestBox (fun p => ellForm x y a b t p <= 1) r.
Proof.
  intros th x y a b t Ht [Hab Hd] Ho Hb. rewrite ellNew_ge by lra. destruct (params_same th x y a b t false Ht Hab Hd Ho) as (u & P & E).
  pose proof (ell_box x y a b u Hab) as Bx. pose proof (vx_ge a b u Hab) as Gx. pose proof (vy_ge a b u Hab) as Gy. assert (0 < b * b) by (apply Rmult_lt_0_compat; lra).
  unfold ellBB. rewrite P. cbn [bind ex0 ey0 eth esin ecos ea eb ea2 eb2]. rnum.
  rewrite !csqrt_ok by lra. cbn [bind]. set (vx := a * a * cos u * cos u + b * b * sin u * sin u) in *. set (vy := a * a * sin u * sin u + b * b * cos u * cos u) in *.
  assert (b <= sqrt vx) as Sx by (rewrite <- (sqrt_square b) by lra; apply sqrt_le_1_alt; lra). assert (b <= sqrt vy) as Sy by (rewrite <- (sqrt_square b) by lra; apply sqrt_le_1_alt; lra).
  rewrite frSet_ok by (cbn [px py]; rewrite Rabs_left; lra). cbn [px py]. rewrite !Rmin_left, !Rmax_right by lra.
  eexists. split; [reflexivity|]. destruct Bx as [B1 B2]. split.
  - intros p Hp. apply B1. rewrite (ellForm_same x y a b t u) by auto. exact Hp.
  - intros o Ho'. apply B2. intros p Hp. apply Ho'. rewrite <- (ellForm_same x y a b t u) by auto. exact Hp.
Qed.
Theorem C95_box_refuted : exists x y a b t r p, 0 < b < a /\ ellBB thr0 (ellNew x y a b t) = Ok r /\ ellForm x y a b t p <= 1 /\ ~ inR r p.
Proof.
  pose proof cos90 as C. pose proof (sc1 90) as S. assert (0 < cos 90 * cos 90) as C2 by (apply Rsqr_pos_lt; lra). assert (0 <= sin 90 * sin 90) as S2 by apply Rle_0_sqr.
  set (vx := 4 * cos 90 * cos 90 + 1 * sin 90 * sin 90). set (vy := 4 * sin 90 * sin 90 + 1 * cos 90 * cos 90).
  assert (1 <= vx) as Vx by (unfold vx; lra). assert (1 <= vy < 4) as Vy by (unfold vy; lra).
  assert (1 <= sqrt vx) as Sx by (rewrite <- sqrt_1; apply sqrt_le_1_alt; lra). assert (1 <= sqrt vy) as Sy by (rewrite <- sqrt_1; apply sqrt_le_1_alt; lra).
  assert (sqrt vy < 2) as Sy2 by (rewrite <- (sqrt_square 2) by lra; apply sqrt_lt_1_alt; lra).
  assert (nullOrthogDistance (thr0 (T := R)) <= 1) by (unfold thr0; cbn [nullOrthogDistance]; rnum; lra).
  exists 0, 0, 2, 1, (PI / 2), (mkR (mkPt (0 - sqrt vx) (0 - sqrt vy)) (mkPt (0 + sqrt vx) (0 + sqrt vy))), (mkPt 0 2). split; [lra|]. split; [|split].
  - rewrite ellNew_ge by lra. unfold ellBB. rewrite vert_params. cbn [bind ex0 ey0 eth esin ecos ea eb ea2 eb2]. rnum. fold vx vy.
    rewrite !csqrt_ok by lra. cbn [bind]. rewrite frSet_ok by (cbn [px py]; rewrite Rabs_left; lra). cbn [px py]. rewrite !Rmin_left, !Rmax_right by lra. reflexivity.
  - unfold ellForm, Rsqr. cbn [px py]. rewrite sin_PI2, cos_PI2. lra.
  - unfold inR. cbn [r1 r2 px py]. lra.
Qed.
Example C88_ex : bigEnough thr0 2 1 /\ angleOK thr0 2 1 (PI / 4) /\ nullOrthogDistance thr0 <= 2 * 1.
Proof. destruct C87_ex as (A & _ & _ & B). split; auto. split; auto. unfold thr0; cbn [nullOrthogDistance]; rnum; lra. Qed.
Print Assumptions C88_box. Print Assumptions C95_box_refuted.

(** ** C89 *)
Theorem C89_inside : forall th x y a b t p, thr_ok th -> bigEnough th a b -> angleOK th a b t ->
  exists v, ellInside th (ellNew x y a b t) p = Ok v /\ (v = true <-> ellForm x y a b t p < 1).
Proof.
  intros th x y a b t p Ht [Hab Hd] Ho. rewrite ellNew_ge by lra. destruct (params_same th x y a b t false Ht Hab Hd Ho) as (u & P & E).
  assert (0 < a * a /\ 0 < b * b) as [Pa Pb] by (split; apply Rmult_lt_0_compat; lra).
  unfold ellInside. rewrite P. cbn [bind ex0 ey0 eth esin ecos ea eb ea2 eb2]. rnum. rewrite !cdiv_ok by lra. cbn [bind].
  eexists. split; [reflexivity|]. rewrite Rltb_spec, <- (ellForm_same x y a b t u) by auto. unfold ellForm, Rsqr.
  match goal with |- ?l < 1 <-> ?r < 1 => replace r with l; [reflexivity|] end. field. lra.
Qed.
Theorem C95_inside_refuted : exists x y a b t p, 0 < b < a /\ ellForm x y a b t p < 1 /\ ellInside thr0 (ellNew x y a b t) p = Ok false.
Proof.
  pose proof cos90 as C. pose proof (sc1 90) as S. assert (0 < cos 90 * cos 90) as C2 by (apply Rsqr_pos_lt; lra).
  set (k := 1 + 3 * (cos 90 * cos 90)). set (z := sqrt (4 / k)). assert (1 < k) as K by (unfold k; lra).
  assert (0 < 4 / k) as P4 by (apply Rdiv_lt_0_compat; lra). assert (z * z = 4 / k) as Z by (apply sqrt_sqrt; lra).
  exists 0, 0, 2, 1, (PI / 2), (mkPt 0 z). split; [lra|]. split.
  - unfold ellForm, Rsqr. cbn [px py]. rewrite sin_PI2, cos_PI2. replace (_ + _) with (z * z / 4) by field. rewrite Z.
    replace (4 / k / 4) with (/ k) by (field; lra). rewrite <- Rinv_1. apply Rinv_lt_contravar; lra.
  - rewrite ellNew_ge by lra. unfold ellInside. rewrite vert_params. cbn [bind ex0 ey0 eth esin ecos ea eb ea2 eb2 px py]. rnum. rewrite !cdiv_ok by lra. cbn [bind].
    rewrite (proj2 (Rltb_false _ _)); [reflexivity|].
    replace (_ + _) with (z * z / 4 * (sin 90 * sin 90 + cos 90 * cos 90 + 3 * (cos 90 * cos 90))) by field. rewrite S. fold k. rewrite Z.
    replace (4 / k / 4 * k) with 1 by (field; lra). lra.
Qed.
Print Assumptions C89_inside. Print Assumptions C95_inside_refuted.

(** ** C90 *)
(** A sequence of translations and moves. *)
Inductive emove : Type := ETrans (dx dy : R) | EMove (x y : R).
Definition eStep (th : thrs R) (e : res (ell R)) (o : emove) : res (ell R) :=
  do e <- e; match o with ETrans dx dy => ellTranslate th e dx dy | EMove x y => ellMoveTo th e x y end.
Definition cStepE (c : pt R) (o : emove) : pt R := match o with ETrans dx dy => mkPt (px c + dx) (py c + dy) | EMove x y => mkPt x y end.
Theorem C90_moves : forall th x y a b t ops, thr_ok th -> bigEnough th a b -> angleOK th a b t ->
  exists e, fold_left (eStep th) ops (Ok (ellNew x y a b t)) = Ok e /\
    forall p, conic (em e) p = a * a * (b * b) * (ellForm (px (fold_left cStepE ops (mkPt x y))) (py (fold_left cStepE ops (mkPt x y))) a b t p - 1).
Proof.
  intros th x y a b t ops Ht [Hab Hd] Ho. rewrite ellNew_ge by lra.
  assert (forall ops c f, exists e, fold_left (eStep th) ops (Ok (mkE (ellInit (px c) (py c) a b t) f)) = Ok e /\
    em e = ellInit (px (fold_left cStepE ops c)) (py (fold_left cStepE ops c)) a b t) as G.
  { clear ops. induction ops as [|o ops IH]; intros c f; [eexists; split; reflexivity|]. cbn [fold_left].
    destruct (params_same th (px c) (py c) a b t f Ht Hab Hd Ho) as (u & P & E).
    assert (eStep th (Ok (mkE (ellInit (px c) (py c) a b t) f)) o = Ok (mkE (ellInit (px (cStepE c o)) (py (cStepE c o)) a b t) f)) as ->.
    { unfold eStep. cbn [bind]. destruct o as [dx dy|x1 y1]; unfold ellTranslate, ellMoveTo; rewrite P; cbn [bind ex0 ey0 ea eb eth eNorm cStepE px py]; rewrite E; reflexivity. }
    apply IH. }
  destruct (G ops (mkPt x y) false) as (e & F & M). exists e. split; auto. intros p. rewrite M. apply conic_init; lra.
Qed.
Theorem C95_translate_refuted : exists x y a b t e p, 0 < b < a /\ ellTranslate thr0 (ellNew x y a b t) 0 0 = Ok e /\
  ellForm x y a b t p = 1 /\ conic (em e) p <> 0.
Proof.
  pose proof cos90 as C. pose proof (sc1 90) as S. assert (0 < cos 90 * cos 90) as C2 by (apply Rsqr_pos_lt; lra).
  exists 0, 0, 2, 1, (PI / 2). eexists. exists (mkPt 0 2). split; [lra|]. split; [|split].
  - rewrite ellNew_ge by lra. unfold ellTranslate. rewrite vert_params. reflexivity.
  - unfold ellForm, Rsqr. cbn [px py]. rewrite sin_PI2, cos_PI2. lra.
  - cbn [em ex0 ey0 ea eb eth]. rewrite conic_init by lra. unfold ellForm, Rsqr. cbn [px py]. rnum.
    replace (_ * _) with (4 * (sin 90 * sin 90 + cos 90 * cos 90 - 1) + 12 * (cos 90 * cos 90)) by field. rewrite S. lra.
Qed.
Print Assumptions C90_moves. Print Assumptions C95_translate_refuted.

(** ** C91 *)
Theorem C91_from_circle : forall th c, thr_ok th -> bigEnough th (cr c) (cr c) ->
  ellCenter th (ellOfCircle c) = Ok (cc c) /\ ellMajMin th (ellOfCircle c) = Ok (cr c, cr c) /\ ellAngle th (ellOfCircle c) = Ok 0 /\
  ellArea th (ellOfCircle c) = Ok (PI * cr c * cr c) /\ ellLength th (ellOfCircle c) = Ok (2 * PI * cr c) /\
  forall p, (conic (em (ellOfCircle c)) p < 0 <-> edist (cc c) p < cr c) /\ (conic (em (ellOfCircle c)) p = 0 <-> edist (cc c) p = cr c).
Proof.
  intros th c Ht [Hab Hd]. unfold ellOfCircle. rnum. destruct (params_fresh th (px (cc c)) (py (cc c)) (cr c) (cr c) 0 false Ht Hab Hd) as (u & P & E).
  assert (u = 0) as ->.
  { rewrite E. unfold coefB. rewrite sin_0, cos_0. replace (2 * (cr c * cr c - cr c * cr c) * 0 * 1) with 0 by ring. rewrite Rabs_R0.
    rewrite (proj2 (Rltb_spec _ _)) by (pose proof (thr_deno _ Ht); lra). now rewrite (proj2 (Rltb_false _ _)) by lra. }
  unfold ellCenter, ellMajMin, ellAngle, ellArea, ellLength. rewrite P. cbn [bind ex0 ey0 eth esin ecos ea eb ea2 eb2]. rnum.
  split; [destruct c as [[? ?] ?]; reflexivity|]. do 3 (split; [reflexivity|]). split.
  - replace (cr c - cr c) with 0 by ring. rewrite cdiv_ok by (apply Rgt_not_eq, Rmult_lt_0_compat; lra). cbn [bind].
    replace (0 * 0 / ((cr c + cr c) * (cr c + cr c))) with 0 by (field; lra). rewrite (csqrt_sq 2) by lra. cbn [bind]. rewrite cdiv_ok by lra. cbn [bind]. f_equal. field.
  - intros p. cbn [em]. rewrite conic_init by lra. pose proof (edist_pos (cc c) p) as Pd. pose proof (edist_sq (cc c) p) as Q.
    assert (0 < cr c * cr c) as Pr by (apply Rmult_lt_0_compat; lra).
    replace (cr c * cr c * (cr c * cr c) * _) with (cr c * cr c * (edist (cc c) p * edist (cc c) p - cr c * cr c)).
    2:{ rewrite Q. unfold ellForm, Rsqr. rewrite sin_0, cos_0. field. lra. }
    replace (edist (cc c) p * edist (cc c) p - cr c * cr c) with ((edist (cc c) p - cr c) * (edist (cc c) p + cr c)) by ring.
    set (d := edist (cc c) p) in *. clearbody d. split; split; intros H.
    + apply Rnot_le_lt. intros L. assert (0 <= cr c * cr c * ((d - cr c) * (d + cr c))); [|lra]. apply Rmult_le_pos; [lra|]. apply Rmult_le_pos; lra.
    + assert (0 < cr c * cr c * ((cr c - d) * (d + cr c))); [|lra]. apply Rmult_lt_0_compat; [lra|]. apply Rmult_lt_0_compat; lra.
    + apply Rmult_integral in H. destruct H as [H|H]; [lra|]. apply Rmult_integral in H. lra.
    + rewrite H. ring.
Qed.
Theorem C91_is_circle : forall x y a b t thres, 0 < b <= a -> 0 < thres ->
  (ellIsCircle (ellNew x y a b t) thres = true -> (a * a - b * b) * (a * a - b * b) < 2 * thres * thres) /\
  (a * a - b * b < thres -> ellIsCircle (ellNew x y a b t) thres = true).
Proof.
  intros x y a b t thres Hab Hp. rewrite ellNew_ge by lra. pose proof (diffAC a b t) as Q. cbv zeta in Q.
  unfold ellIsCircle. cbn [em]. unfold ellInit. cbn [m00 m01 m11]. rnum.
  set (d := a * a * (sin t * sin t) + b * b * (cos t * cos t) - (a * a * (cos t * cos t) + b * b * (sin t * sin t))) in *.
  set (B := 2 * (b * b - a * a) * sin t * cos t) in *.
  assert (Rabs (B / 2) * 2 = Rabs B) as E. { unfold Rdiv. rewrite Rabs_mult, (Rabs_right (/ 2)) by lra. field. } rewrite E.
  assert (forall z, z * z = Rabs z * Rabs z) as Sq by (intros z; rewrite <- Rabs_mult; symmetry; apply Rabs_right, Rle_ge, Rle_0_sqr).
  split.
  - destruct (Rltb (Rabs d) thres) eqn:E1; [|discriminate]. destruct (Rltb (Rabs B) thres) eqn:E2; [|discriminate]. intros _. rclean.
    rewrite <- Q, (Sq d), (Sq B). pose proof (Rabs_pos d). pose proof (Rabs_pos B).
    assert (Rabs d * Rabs d <= Rabs d * thres) by (apply Rmult_le_compat_l; lra). assert (Rabs B * Rabs B <= Rabs B * thres) by (apply Rmult_le_compat_l; lra).
    assert (Rabs d * thres < thres * thres) by (apply Rmult_lt_compat_r; lra). assert (Rabs B * thres < thres * thres) by (apply Rmult_lt_compat_r; lra). lra.
  - intros H. assert (b * b <= a * a) by (apply Rmult_le_compat; lra).
    assert (forall z, z * z <= (a * a - b * b) * (a * a - b * b) -> Rabs z < thres) as G.
    { intros z Hz. rewrite (Sq z) in Hz. apply Rnot_le_lt. intros L. assert (thres * thres <= Rabs z * Rabs z) by (apply Rmult_le_compat; lra).
      assert ((a * a - b * b) * (a * a - b * b) <= (a * a - b * b) * thres) by (apply Rmult_le_compat_l; lra). assert ((a * a - b * b) * thres < thres * thres) by (apply Rmult_lt_compat_r; lra). lra. }
    pose proof (Rle_0_sqr d) as Pd. pose proof (Rle_0_sqr B) as PB. unfold Rsqr in Pd, PB.
    rewrite (proj2 (Rltb_spec _ _)) by (apply G; lra). now rewrite (proj2 (Rltb_spec _ _)) by (apply G; lra).
Qed.
Example C91_ex : bigEnough thr0 (cr (mkC (mkPt 1 2) 3)) (cr (mkC (mkPt 1 2) 3)).
Proof. unfold bigEnough. cbn [cr]. pose proof (thr_deno _ thr0_ok). lra. Qed.
Print Assumptions C91_from_circle. Print Assumptions C91_is_circle.

(** ** C92 *)
(** An ellipse through the origin cannot be compared, not even with itself. *)
Theorem C92_throws_refuted : exists x y a b t, 0 < b < a /\ ellEqSelf thr0 (ellNew x y a b t) = Throw.
Proof.
  exists 2, 0, 2, 1, 0. split; [lra|]. rewrite ellNew_ge by lra. unfold ellEqSelf, ellNormalize. cbn [eNorm em].
  replace (matNormalize thr0 (ellInit 2 0 2 1 0)) with (@Throw (mat R)); [reflexivity|]. symmetry. apply matNormalize_throw.
  unfold ellInit. cbn [m22]. rnum. rewrite sin_0, cos_0. match goal with |- Rabs ?x < _ => replace x with 0 by ring end. rewrite Rabs_R0. apply (thr_deno _ thr0_ok).
Qed.
(** The comparison of an ellipse that holds the origin exchanges its half-axes. *)
Lemma default_eq : ellEqSelf thr0 (ellDefault (T := R)) = Ok (true, mkE (scaleM (- / 4) (ellInit 0 0 2 1 0)) true).
Proof.
  unfold ellEqSelf, ellNormalize, ellDefault. rnum. rewrite ellNew_ge by lra. cbn [eNorm em].
  assert (m22 (ellInit 0 0 2 1 0) = -4) as F by (unfold ellInit; cbn [m22]; rnum; rewrite sin_0, cos_0; ring).
  destruct (matNormalize_ok thr0 (ellInit 0 0 2 1 0) thr0_ok) as [E _]; [rewrite F, Rabs_left by lra; pose proof (thr_deno _ thr0_ok); lra|].
  rewrite E, F. cbn [bind em]. replace (/ -4) with (- / 4) by field. f_equal. f_equal.
  unfold matClose. rnum. rewrite !Rminus_eq_0, Rabs_R0. rewrite (proj2 (Rleb_false _ _)); [reflexivity|]. apply (thr_dete _ thr0_ok).
Qed.
Theorem C92_exchanges_refuted : exists x y a b t e, 0 < b < a /\ ellMajMin thr0 (ellNew x y a b t) = Ok (a, b) /\
  ellEqSelf thr0 (ellNew x y a b t) = Ok (true, e) /\ ellMajMin thr0 e = Ok (b, a).
Proof.
  pose proof (thr_deno _ thr0_ok) as Dn.
  exists 0, 0, 2, 1, 0, (mkE (scaleM (- / 4) (ellInit 0 0 2 1 0)) true). split; [lra|]. split; [|split].
  - apply C87_center_axes; [exact thr0_ok|]. unfold bigEnough. lra.
  - exact default_eq.
  - destruct (params_scaled 0 0 2 1 0 (- / 4)) with (th := @thr0 R RNum) as (u & P & _); [lra|lra|unfold thr0; cbn [nullDenom]; rnum; lra|].
    unfold ellMajMin. rewrite (ellParams_flag thr0 _ (mkE (scaleM (- / 4) (ellInit 0 0 2 1 0)) false)) by reflexivity. rewrite P.
    destruct (Rlt_dec 0 (- / 4)); [lra|]. reflexivity.
Qed.
(** A translation after a comparison leaves the flag: the ellipse differs from the same one freshly built. *)
Theorem C92_flag_refuted : exists e1 e2 e3 f r, ellEqSelf thr0 (ellNew 5 0 2 1 0) = Ok (true, e1) /\ ellTranslate thr0 e1 1 0 = Ok e2 /\
  em e2 = em (ellNew 6 0 2 1 0) /\ ellEq thr0 e2 (ellNew 6 0 2 1 0) = Ok (r, e3, f) /\ r = false.
Proof.
  pose proof (thr_deno _ thr0_ok) as Dn.
  assert (forall x, m22 (ellInit x 0 2 1 0) = x * x - 4) as F by (intros x; unfold ellInit; cbn [m22]; rnum; rewrite sin_0, cos_0; ring).
  rewrite !ellNew_ge by lra.
  destruct (matNormalize_ok thr0 (ellInit 5 0 2 1 0) thr0_ok) as [E5 _]; [rewrite F, Rabs_right; lra|].
  destruct (matNormalize_ok thr0 (ellInit 6 0 2 1 0) thr0_ok) as [E6 _]; [rewrite F, Rabs_right; lra|].
  rewrite F in E5, E6.
  exists (mkE (scaleM (/ (5 * 5 - 4)) (ellInit 5 0 2 1 0)) true), (mkE (ellInit 6 0 2 1 0) true), (mkE (ellInit 6 0 2 1 0) true), (mkE (scaleM (/ (6 * 6 - 4)) (ellInit 6 0 2 1 0)) true), false.
  split; [|split; [|split; [|split]]]; auto.
  - unfold ellEqSelf, ellNormalize. cbn [eNorm em]. rewrite E5. cbn [bind em]. f_equal. f_equal.
    unfold matClose. rnum. rewrite !Rminus_eq_0, Rabs_R0. rewrite (proj2 (Rleb_false _ _)); [reflexivity|]. apply (thr_dete _ thr0_ok).
  - destruct (params_scaled 5 0 2 1 0 (/ (5 * 5 - 4))) with (th := @thr0 R RNum) as (u & P & Eu); [lra|lra| |].
    { unfold thr0. cbn [nullDenom]. rnum. lra. }
    unfold ellTranslate. rewrite (ellParams_flag thr0 _ (mkE (scaleM (/ (5 * 5 - 4)) (ellInit 5 0 2 1 0)) false)) by reflexivity. rewrite P.
    cbn [bind ex0 ey0 ea eb eth eNorm]. destruct (Rlt_dec 0 (/ (5 * 5 - 4))); [|lra]. rewrite sin_0, cos_0 in Eu.
    replace (/ (5 * 5 - 4) * (2 * (1 * 1 - 2 * 2) * 0 * 1)) with 0 in Eu by ring. rewrite Rabs_R0 in Eu. rewrite (proj2 (Rltb_spec _ _)) in Eu by lra.
    rewrite (proj2 (Rltb_false _ _)) in Eu by lra. subst u. rnum. repeat f_equal; lra.
  - unfold ellEq, ellNormalize. cbn [eNorm em]. rewrite E6. cbn [bind em]. f_equal. f_equal. f_equal.
    unfold matClose. apply negb_false_iff. rewrite !orb_true_iff. right. rnum. apply Rleb_spec. cbn [scaleM matMap m22]. rewrite F. rewrite Rabs_right by lra.
    unfold thr0. cbn [nullDeter]. rnum. lra.
Qed.
Print Assumptions C92_throws_refuted. Print Assumptions C92_exchanges_refuted. Print Assumptions C92_flag_refuted.

(** ** C93 *)
(** When the origin is outside, the normalisation made by the comparison keeps centre and half-axes, and the form up to a positive factor. *)
Theorem C93_normalised : forall th x y a b t e, thr_ok th -> 0 < b <= a -> ellNormalize th (ellNew x y a b t) = Ok e ->
  let F := conic (em (ellNew x y a b t)) (mkPt 0 0) in
  F <> 0 /\ (forall p, F * conic (em e) p = conic (em (ellNew x y a b t)) p) /\
  (0 < F -> nullDenom th * (F * F) <= 4 * (a * a) * (b * b) -> ellCenter th e = Ok (mkPt x y) /\ ellMajMin th e = Ok (a, b)).
Proof.
  intros th x y a b t e Ht Hab H. rewrite ellNew_ge in * by lra. unfold ellNormalize in H. cbn [eNorm em] in *. apply bind_ok in H. destruct H as (m & M & H). apply Ok_inj in H. subst e.
  apply matNormalize_inv in M; auto. destruct M as (-> & N & L). cbn [em].
  assert (conic (ellInit x y a b t) (mkPt 0 0) = m22 (ellInit x y a b t)) as -> by (unfold conic, quadH; cbn [px py h0 h1 h2]; ring). cbv zeta.
  split; auto. split; [intros p; rewrite conic_scale; field; auto|]. intros P Hd. set (F := m22 (ellInit x y a b t)) in *.
  assert (0 < / F) as PF by (apply Rinv_0_lt_compat; auto).
  destruct (params_scaled x y a b t (/ F) Hab ltac:(lra) th) as (u & Q & _).
  { apply (Rmult_le_reg_r (F * F)); [apply Rmult_lt_0_compat; auto|]. replace (/ F * / F * (4 * (a * a) * (b * b)) * (F * F)) with (4 * (a * a) * (b * b)) by (field; auto). lra. }
  unfold ellCenter, ellMajMin. rewrite (ellParams_flag th _ (mkE (scaleM (/ F) (ellInit x y a b t)) false)) by reflexivity. rewrite Q.
  destruct (Rlt_dec 0 (/ F)); [|lra]. auto.
Qed.
Theorem C93_reflexive : forall th x y a b t, thr_ok th -> nullDenom th <= Rabs (conic (em (ellNew x y a b t)) (mkPt 0 0)) ->
  exists e, ellEqSelf th (ellNew x y a b t) = Ok (true, e).
Proof.
  intros th x y a b t Ht H. unfold ellEqSelf, ellNormalize. replace (eNorm (ellNew x y a b t)) with false by (unfold ellNew; destruct (_ <? _)%num; reflexivity).
  assert (conic (em (ellNew x y a b t)) (mkPt 0 0) = m22 (em (ellNew x y a b t))) as E by (unfold conic, quadH; cbn [px py h0 h1 h2]; ring). rewrite E in H.
  destruct (matNormalize_ok th _ Ht H) as [M _]. rewrite M. cbn [bind em]. eexists. f_equal. f_equal.
  unfold matClose. rnum. rewrite !Rminus_eq_0, Rabs_R0. rewrite (proj2 (Rleb_false _ _)); [reflexivity|]. apply (thr_dete _ Ht).
Qed.
(** An answer true means proportional matrices up to the tolerance: the forms, scaled to 1 at the origin, differ by little. *)
Theorem C93_meaning : forall th e f e' f', thr_ok th -> ellEq th e f = Ok (true, e', f') -> forall p,
  Rabs (conic (em e') p - conic (em f') p) <= nullDeter th * (Rsqr (Rabs (px p) + Rabs (py p) + 1)).
Proof.
  intros th e f e' f' Ht H p. unfold ellEq in H. apply bind_ok in H. destruct H as (e1 & _ & H). apply bind_ok in H. destruct H as (f1 & _ & H). injection H as C <- <-.
  unfold matClose in C. apply negb_true_iff in C. rewrite !orb_false_iff in C. rnum. rewrite !Rleb_false in C. destruct C as ((((((((C1 & C2) & C3) & C4) & C5) & C6) & C7) & C8) & C9).
  set (m := em e1) in *. set (q := em f1) in *. unfold conic, quadH, Rsqr. cbn [h0 h1 h2]. set (x := px p). set (y := py p).
  assert (forall d v, Rabs d < nullDeter th -> Rabs (d * v) <= nullDeter th * Rabs v) as G.
  { intros d v Hd. rewrite Rabs_mult. apply Rmult_le_compat_r; [apply Rabs_pos|lra]. }
  match goal with |- Rabs ?z <= _ => replace z with ((m00 m - m00 q) * (x * x) + (m01 m - m01 q) * (x * y) + (m02 m - m02 q) * x + (m10 m - m10 q) * (x * y) + (m11 m - m11 q) * (y * y) + (m12 m - m12 q) * y + (m20 m - m20 q) * x + (m21 m - m21 q) * y + (m22 m - m22 q) * 1) by ring end.
  pose proof (G _ (x * x) C1) as G1. pose proof (G _ (x * y) C2) as G2. pose proof (G _ x C3) as G3. pose proof (G _ (x * y) C4) as G4. pose proof (G _ (y * y) C5) as G5.
  pose proof (G _ y C6) as G6. pose proof (G _ x C7) as G7. pose proof (G _ y C8) as G8. pose proof (G _ 1 C9) as G9.
  rewrite (Rabs_mult x x) in G1. rewrite (Rabs_mult x y) in G2, G4. rewrite (Rabs_mult y y) in G5. rewrite Rabs_R1 in G9.
  assert (forall u v U V, Rabs u <= U -> Rabs v <= V -> Rabs (u + v) <= U + V) as Tr by (intros; eapply Rle_trans; [apply Rabs_triang|lra]).
  eapply Rle_trans; [repeat (eapply Tr; [|eassumption]); eassumption|]. apply Req_le. ring.
Qed.
Example C93_ex : nullDenom thr0 <= Rabs (conic (em (ellNew 5 0 2 1 0)) (mkPt 0 0)) /\ nullDenom thr0 * (21 * 21) <= 4 * (2 * 2) * (1 * 1).
Proof.
  rewrite C63_matrix by lra. unfold ellForm, Rsqr. cbn [px py]. rewrite sin_0, cos_0. replace (_ * _) with 21 by field. rewrite Rabs_right by lra.
  unfold thr0. cbn [nullDenom]. rnum. lra.
Qed.
Print Assumptions C93_normalised. Print Assumptions C93_reflexive. Print Assumptions C93_meaning.

(** ** C94 *)
(** The perimeter lies between those of the inscribed and of the circumscribed circle. *)
Theorem C94_perimeter : forall th x y a b t, thr_ok th -> bigEnough th a b ->
  exists v, ellLength th (ellNew x y a b t) = Ok v /\ PI * (a + b) <= v /\ 2 * PI * b <= v <= 2 * PI * a /\ (a = b -> v = 2 * PI * a).
Proof.
  intros th x y a b t Ht [Hab Hd]. rewrite ellNew_ge by lra. destruct (params_fresh th x y a b t false Ht Hab Hd) as (u & P & _).
  unfold ellLength. rewrite P. cbn [bind ea eb]. rnum. assert (0 < (a + b) * (a + b)) as Ps by (apply Rmult_lt_0_compat; lra).
  rewrite cdiv_ok by lra. cbn [bind]. set (h := (a - b) * (a - b) / ((a + b) * (a + b))).
  assert (h * (a + b) * (a + b) = (a - b) * (a - b)) as Eh by (unfold h; field; lra).
  assert (0 <= h <= 1) as Hh.
  { assert (0 <= (a - b) * (a - b)) by apply Rle_0_sqr. assert (0 <= a * b) by (apply Rmult_le_pos; lra). split.
    - apply (Rmult_le_reg_r ((a + b) * (a + b))); auto. lra.
    - apply (Rmult_le_reg_r ((a + b) * (a + b))); auto. lra. }
  rewrite csqrt_ok by lra. cbn [bind]. set (q := sqrt (4 - 3 * h)). assert (1 <= q) as Q by (rewrite <- sqrt_1; apply sqrt_le_1_alt; lra).
  rewrite cdiv_ok by lra. cbn [bind]. eexists. split; [reflexivity|]. set (k := 3 * h / (10 + q)).
  assert (k * (10 + q) = 3 * h) as Ek by (unfold k; field; lra). pose proof PI_RGT_0 as Pi.
  assert (0 <= k) as K0. { apply (Rmult_le_reg_r (10 + q)); lra. }
  assert (11 * k <= 3 * h) as K1. { assert (0 <= k * (q - 1)) by (apply Rmult_le_pos; lra). lra. }
  assert ((a + b) * k <= a - b) as U.
  { assert ((a + b) * h <= a - b). { apply (Rmult_le_reg_r (a + b)); [lra|]. replace ((a + b) * h * (a + b)) with (h * (a + b) * (a + b)) by ring. rewrite Eh. apply Rmult_le_compat_l; lra. }
    assert ((a + b) * (11 * k) <= (a + b) * (3 * h)) by (apply Rmult_le_compat_l; lra). lra. }
  assert (0 <= (a + b) * k) by (apply Rmult_le_pos; lra).
  replace ((a + b) * PI * (1 + k)) with (PI * (a + b + (a + b) * k)) by ring.
  split; [apply Rmult_le_compat_l; lra|]. split; [split|].
  - replace (2 * PI * b) with (PI * (2 * b)) by ring. apply Rmult_le_compat_l; lra.
  - replace (2 * PI * a) with (PI * (2 * a)) by ring. apply Rmult_le_compat_l; lra.
  - intros <-. replace ((a + a) * k) with 0 by lra. ring.
Qed.
Print Assumptions C94_perimeter.
