(** * Properties C177-C179: images of ellipses *)

From Coq Require Import Reals ZArith List Bool Lra Lia.
From Verif Require Import Num M_LP M_Homogr M_Seg M_Circle M_Poly M_FRect M_Ellipse M_Map S_Geom S_Homogr S_Circle S_FRect S_Misc S_Ellipse S_Map S_EllImage P_LP P_LP2 P_LP4 P_Homogr P_BB P_Poly7 P_Ellipse P_Ellipse2 P_EllImage M_Variant S_Variant P_Variant C_Ellipse.
Import ListNotations.
Local Open Scope R_scope.

(** ** C177 *)
(** If no point of the ellipse or of its inside goes to infinity, the image is an ellipse, and it bounds the image of the
    inside. *)
Theorem C177_image : forall th h e e', thr_ok th -> symM (em e) -> anEllipse (em e) -> avoids h (em e) -> hEll th h e = Ok e' ->
  symM (em e') /\ anEllipse (em e') /\
  forall x y a b t x' y' a' b' t', describes (em e) x y a b t -> describes (em e') x' y' a' b' t' -> forall p q, isImage h p q ->
    (ellForm x' y' a' b' t' q = 1 <-> ellForm x y a b t p = 1) /\ (ellForm x' y' a' b' t' q < 1 <-> ellForm x y a b t p < 1).
Proof.
  intros th h e e' Ht S A Av H. pose proof (hEll_sym _ _ _ _ H S) as S'. split; auto. split.
  - apply pd_an. apply (image_pd th h e e' Ht); auto. now apply pd_describes.
  - intros x y a b t x' y' a' b' t' (_ & k & K & D) (_ & k' & K' & D') p q I. destruct (C63_incidence th h e e' p q Ht H I) as (C1 & C2). rewrite D, D' in C1, C2.
    set (f := ellForm x y a b t p) in *. set (f' := ellForm x' y' a' b' t' q) in *. clearbody f f'.
    assert (forall k f, 0 < k -> (k * (f - 1) = 0 <-> f = 1) /\ (k * (f - 1) < 0 <-> f < 1)) as G.
    { clear. intros k f K. split; split; intros H.
      - apply Rmult_integral in H. lra.
      - subst. ring.
      - destruct (Rlt_le_dec f 1) as [|L]; auto. assert (0 <= k * (f - 1)) by (apply Rmult_le_pos; lra). lra.
      - rewrite <- (Rmult_0_r k). apply Rmult_lt_compat_l; lra. }
    destruct (G k f K) as (G1 & G2), (G k' f' K') as (G1' & G2'). rewrite <- G1, <- G2, <- G1', <- G2'. auto.
Qed.
(** What the library reports about any ellipse given by its matrix, an image in particular. *)
Theorem C177_reported : forall th e x y a b t, thr_ok th -> symM (em e) -> describes (em e) x y a b t -> bigMat th (em e) ->
  ellCenter th e = Ok (mkPt x y) /\ ellMajMin th e = Ok (a, b) /\ ellArea th e = Ok (PI * a * b).
Proof.
  intros th e x y a b t Ht S D Hb. destruct (params_big th e x y a b t Ht S D Hb) as (u & P). unfold ellCenter, ellMajMin, ellArea. rewrite P. auto.
Qed.
Theorem C177_figure : forall th e x y a b t, thr_ok th -> symM (em e) -> describes (em e) x y a b t -> bigMat th (em e) -> axisMat th (em e) ->
  (exists u, ellAngle th e = Ok u /\ forall p, ellForm x y a b u p = ellForm x y a b t p) /\
  (forall p, exists v, ellInside th e p = Ok v /\ (v = true <-> ellForm x y a b t p < 1)) /\
  (nullOrthogDistance th <= 2 * b -> exists r, ellBB th e = Ok r /\ smallestBox (fun p => ellForm x y a b t p <= 1) r).
Proof.
  intros th e x y a b t Ht S D Hb Hx. destruct (params_mat th e x y a b t Ht S D Hb Hx) as (u & P & E). destruct D as (Hab & _). split; [|split].
  - exists u. unfold ellAngle. rewrite P. auto.
  - intros p. assert (0 < a * a /\ 0 < b * b) as [Pa Pb] by (split; apply Rmult_lt_0_compat; lra).
    unfold ellInside. rewrite P. cbn [bind ex0 ey0 eth esin ecos ea eb ea2 eb2]. rnum. rewrite !cdiv_ok by lra. cbn [bind].
    eexists. split; [reflexivity|]. rewrite Rltb_spec, <- E. unfold ellForm, Rsqr.
    match goal with |- ?l < 1 <-> ?r < 1 => replace r with l; [reflexivity|] end. field. lra.
  - intros Ho. pose proof (ell_box x y a b u Hab) as Bx. pose proof (vx_ge a b u Hab) as Gx. pose proof (vy_ge a b u Hab) as Gy. assert (0 < b * b) by (apply Rmult_lt_0_compat; lra).
    unfold ellBB. rewrite P. cbn [bind ex0 ey0 eth esin ecos ea eb ea2 eb2]. rnum.
    rewrite !csqrt_ok by lra. cbn [bind]. set (vx := a * a * cos u * cos u + b * b * sin u * sin u) in *. set (vy := a * a * sin u * sin u + b * b * cos u * cos u) in *.
    assert (b <= sqrt vx) as Sx by (rewrite <- (sqrt_square b) by lra; apply sqrt_le_1_alt; lra). assert (b <= sqrt vy) as Sy by (rewrite <- (sqrt_square b) by lra; apply sqrt_le_1_alt; lra).
    rewrite frSet_ok by (cbn [px py]; rewrite Rabs_left; lra). cbn [px py]. rewrite !Rmin_left, !Rmax_right by lra.
    eexists. split; [reflexivity|]. destruct Bx as [B1 B2]. split.
    + intros p Hp. apply B1. rewrite E. exact Hp.
    + intros o Ho'. apply B2. intros p Hp. apply Ho'. rewrite <- E. exact Hp.
Qed.
(** The unit circle, by (x,y) -> (x,y) / (1 + 3x/5): an ellipse of centre (-15/16,0) and half-axes 25/16 and 5/4. *)
Definition proj5 : mat R := mkM 1 0 0 0 1 0 (3 / 5) 0 1.
Definition img5 : ell R := mkE (mkM (16 / 25) 0 (3 / 5) 0 1 0 (3 / 5) 0 (-1)) false.
Ltac matval := apply mat_eq; cbn [m00 m01 m02 m10 m11 m12 m20 m21 m22].
Lemma inv5 : matInverse thr0 proj5 = Ok (mkM 1 0 0 0 1 0 (- 3 / 5) 0 1).
Proof.
  unfold matInverse. change (@determ R RNum proj5) with (det3 proj5). assert (det3 proj5 = 1) as E by (unfold det3, proj5; cbn [m00 m01 m02 m10 m11 m12 m20 m21 m22]; field).
  rewrite E. rnum. rewrite Rabs_R1. rewrite (proj2 (Rltb_false _ _)) by (unfold thr0; cbn [nullDeter]; rnum; lra). f_equal.
  unfold proj5, adjugate, matMap, det2. matval; rnum; field.
Qed.
Lemma ell11 : em (ellNew 0 0 1 1 0) = mkM 1 0 0 0 1 0 0 0 (-1).
Proof. rewrite ellNew_ge by lra. cbn [em]. unfold ellInit. rnum. rewrite sin_0, cos_0. matval; field. Qed.
Example C177_ex : symM (em (ellNew 0 0 1 1 0)) /\ describes (em (ellNew 0 0 1 1 0)) 0 0 1 1 0 /\ avoids proj5 (em (ellNew 0 0 1 1 0)) /\
  hEll thr0 proj5 (ellNew 0 0 1 1 0) = Ok img5 /\ describes (em img5) (- 15 / 16) 0 (25 / 16) (5 / 4) 0 /\ bigMat thr0 (em img5) /\ axisMat thr0 (em img5).
Proof.
  rewrite ell11. split; [repeat split|]. split; [|split; [|split; [|split; [|split]]]].
  - split; [lra|]. exists 1. split; [lra|]. intros p. unfold conic, quadH, ellForm, Rsqr. cbn [m00 m01 m02 m10 m11 m12 m20 m21 m22 h0 h1 h2]. rewrite sin_0, cos_0. field.
  - intros p. unfold conic, quadH, wAt, proj5. cbn [m00 m01 m02 m10 m11 m12 m20 m21 m22 h0 h1 h2]. intros L Z. assert (px p = - 5 / 3) as E by lra. rewrite E in L. pose proof (Rle_0_sqr (py p)) as Y. unfold Rsqr in Y. lra.
  - unfold hEll. rewrite inv5. cbn [bind]. rewrite ell11. unfold img5. do 2 f_equal. unfold matMul, matTranspose. matval; rnum; field.
  - split; [lra|]. exists (25 / 16). split; [lra|]. intros p. unfold conic, quadH, ellForm, Rsqr, img5. cbn [em m00 m01 m02 m10 m11 m12 m20 m21 m22 h0 h1 h2]. rewrite sin_0, cos_0. field.
  - unfold bigMat, img5. cbn [em m00 m01 m11]. unfold thr0. cbn [nullDenom]. rnum. lra.
  - left. unfold img5. cbn [em m00 m01 m11]. lra.
Qed.
Print Assumptions C177_image. Print Assumptions C177_reported. Print Assumptions C177_figure.

(** ** C178 *)
(** A circle that meets the line sent to infinity: the product succeeds, its result is typed as an ellipse, is none, and its
    half-axes are square roots of negative numbers. *)
Theorem C178_crossing_refuted : exists h c e', det3 h <> 0 /\ 0 < cr c /\ hCircle thr0 h c = Ok e' /\ ~ anEllipse (em e') /\ ellMajMin thr0 e' = Undef.
Proof.
  assert (em (ellOfCircle (mkC (mkPt 0 0) 3)) = mkM 9 0 0 0 9 0 0 0 (-81)) as E3.
  { unfold ellOfCircle. cbn [em cc cr px py]. unfold ellInit. rnum. rewrite sin_0, cos_0. matval; field. }
  exists proj5, (mkC (mkPt 0 0) 3), (mkE (mkM (9 - 81 * 9 / 25) 0 (81 * 3 / 5) 0 9 0 (81 * 3 / 5) 0 (-81)) false).
  split; [unfold det3, proj5; cbn [m00 m01 m02 m10 m11 m12 m20 m21 m22]; lra|]. split; [cbn; lra|]. split; [|split].
  - unfold hCircle, hEll. rewrite inv5. cbn [bind]. rewrite E3. do 2 f_equal. unfold matMul, matTranspose. matval; rnum; field.
  - intros A. apply pd_describes in A; [|repeat split]. destruct A as (_ & P & _). cbn [em m00] in P. lra.
  - unfold ellMajMin, ellParams. cbn [em m00 m01 m02 m10 m11 m12 m20 m21 m22]. rnum.
    match goal with |- context [Rltb (Rabs ?d) _] => set (dn := d) end. assert (dn = 18144 / 25) as Ed by (unfold dn; field). rewrite Ed.
    rewrite (Rabs_right (18144 / 25)) by lra. rewrite (proj2 (Rltb_false _ _)) by (unfold thr0; cbn [nullDenom]; rnum; lra).
    rewrite (csqrt_sq (729 / 25)) by (lra || field). cbn [bind]. rewrite csqrt_ok by lra. cbn [bind].
    unfold csqrt. rnum. rewrite (proj2 (Rltb_spec _ _)) by lra. reflexivity.
Qed.
Print Assumptions C178_crossing_refuted.

(** ** C179 *)
Theorem C179_area : forall th h e e' x x', thr_ok th -> isAffine h -> symM (em e) -> anEllipse (em e) -> hEll th h e = Ok e' ->
  ellArea th e = Ok x -> ellArea th e' = Ok x' -> x' = Rabs (detLin h) * x.
Proof.
  intros th h e e' x x' Ht Ha Sy An P A A'. destruct (ell_image_ok _ _ _ _ Ht Ha Sy An P) as (_ & Sy' & (x0 & y0 & a0 & b0 & t0 & D')). destruct An as (x1 & y1 & a1 & b1 & t1 & D).
  rewrite (area_value th e' x' _ _ _ _ _ Ht Sy' D' A'), (area_value th e x _ _ _ _ _ Ht Sy D A). pose proof (area_affine _ _ _ _ _ _ _ _ _ _ _ _ _ _ Ht Ha Sy P D D') as Q. rewrite Rmult_assoc, Q. ring.
Qed.
Theorem C179_similar : forall th h s e e' a b a' b', thr_ok th -> similar h s -> symM (em e) -> anEllipse (em e) -> hEll th h e = Ok e' ->
  ellMajMin th e = Ok (a, b) -> ellMajMin th e' = Ok (a', b') -> a' = s * a /\ b' = s * b.
Proof.
  intros th h s e e' a b a' b' Ht Hs Sy An P A A'. pose proof Hs as (Ha & _). destruct (ell_image_ok _ _ _ _ Ht Ha Sy An P) as (_ & Sy' & An').
  unfold ellMajMin in A, A'. apply bind_ok in A, A'. destruct A as (r & R & A), A' as (r' & R' & A'). pose proof (params_ok_big _ _ _ Sy An R) as B. pose proof (params_ok_big _ _ _ Sy' An' R') as B'.
  destruct An as (x1 & y1 & a1 & b1 & t1 & D), An' as (x0 & y0 & a0 & b0 & t0 & D').
  destruct (params_big th e _ _ _ _ _ Ht Sy D B) as (u & U). destruct (params_big th e' _ _ _ _ _ Ht Sy' D' B') as (u' & U'). rewrite U in R. rewrite U' in R'. apply Ok_inj in R, R'. subst r r'. apply Ok_inj in A, A'. cbn [ea eb] in A, A'. inversion A. inversion A'. subst.
  exact (axes_similar _ _ _ _ _ _ _ _ _ _ _ _ _ _ _ Ht Hs Sy P D D').
Qed.
Theorem C179_length : forall th h s e e' x x', thr_ok th -> similar h s -> symM (em e) -> anEllipse (em e) -> hEll th h e = Ok e' ->
  ellLength th e = Ok x -> ellLength th e' = Ok x' -> x' = s * x.
Proof.
  intros th h s e e' x x' Ht Hs Sy An P A A'. refine (length_one th (mkHobj h false true None) s (VEll e) (VEll e') (mkHobj h false true None) x x' Ht Hs (conj Sy An) _ A A'). cbn [transform hm]. now rewrite P.
Qed.
(** A quarter of turn, enlarged twice, of an ellipse of half-axes 2 and 1. *)
Definition turn2 : mat R := mkM 0 (-2) 5 2 0 1 0 0 1.
Example C179_ex : similar turn2 2 /\ detLin turn2 = 4 /\ symM (em (ellNew 1 2 2 1 0)) /\ anEllipse (em (ellNew 1 2 2 1 0)) /\ (exists e', hEll thr0 turn2 (ellNew 1 2 2 1 0) = Ok e') /\
  ellMajMin thr0 (ellNew 1 2 2 1 0) = Ok (2, 1).
Proof.
  split; [|split; [|split; [|split; [|split]]]].
  - split; [split; reflexivity|]. split; [lra|]. intros p q p' q' (W & X & Y) (W' & X' & Y'). unfold turn2 in *. cbn [m00 m01 m02 m10 m11 m12 m20 m21 m22] in *.
    assert (px p' = - 2 * py p + 5) as E1 by (rewrite X; field). assert (py p' = 2 * px p + 1) as E2 by (rewrite Y; field).
    assert (px q' = - 2 * py q + 5) as E3 by (rewrite X'; field). assert (py q' = 2 * px q + 1) as E4 by (rewrite Y'; field).
    unfold edist. rewrite E1, E2, E3, E4. transitivity (sqrt (2 * 2) * sqrt ((px p - px q)² + (py p - py q)²)); [|rewrite sqrt_square by lra; reflexivity]. rewrite <- sqrt_mult_alt by lra. f_equal. unfold Rsqr. ring.
  - unfold detLin, turn2. cbn [m00 m01 m10 m11 m22]. field.
  - rewrite ellNew_ge by lra. apply init_sym.
  - rewrite ellNew_ge by lra. cbn [em]. exists 1, 2, 2, 1, 0. rewrite <- (scaleM_1 (ellInit 1 2 2 1 0)). apply init_describes; lra.
  - apply (C63_defined thr0 _ _ thr0_ok). unfold det3, turn2. cbn [m00 m01 m02 m10 m11 m12 m20 m21 m22]. replace (_ + _) with 4 by ring. rewrite Rabs_right by lra. unfold thr0. cbn [nullDeter]. rnum. lra.
  - apply (C87_center_axes thr0 1 2 2 1 0 thr0_ok). split; [lra|]. pose proof (thr_deno _ thr0_ok). lra.
Qed.
Print Assumptions C179_area. Print Assumptions C179_similar. Print Assumptions C179_length.
