(** * Lemmas on the images and on the centre of ellipses *)

From Coq Require Import Reals Lra Lia List Bool ZArith.
From Verif Require Import Num M_LP M_Homogr M_Seg M_Circle M_Poly M_FRect M_Ellipse S_Geom S_Homogr S_Circle S_FRect S_Misc S_Ellipse P_LP P_LP2 P_Homogr P_BB P_Poly7 P_Ellipse.
Import ListNotations.
Local Open Scope R_scope.

Lemma quad_congr m q h : quadH (matMul (matMul (matTranspose m) q) m) h = quadH q (matMulH m h).
Proof. unfold quadH, matMul, matTranspose, matMulH. cbn [m00 m01 m02 m10 m11 m12 m20 m21 m22 h0 h1 h2]. rnum. ring. Qed.
Lemma quad_scaleH q k h : quadH q (scaleH k h) = k * k * quadH q h.
Proof. unfold quadH, scaleH. cbn [h0 h1 h2]. ring. Qed.
Lemma scaleH_1 h : scaleH 1 h = h.
Proof. destruct h. unfold scaleH. cbn. f_equal; ring. Qed.
Lemma inverse_mul th m mi h : thr_ok th -> matInverse th m = Ok mi -> matMulH mi (matMulH m h) = h.
Proof.
  intros Ht H. apply matInverse_inv in H; auto. destruct H as [D ->]. rewrite matMulH_scale, adj_mul, scaleH_scaleH.
  rewrite Rinv_l by auto. apply scaleH_1.
Qed.
Lemma hEll_quad th h e e' v : thr_ok th -> hEll th h e = Ok e' -> quadH (em e') (matMulH h v) = quadH (em e) v.
Proof.
  intros Ht H. unfold hEll in H. apply bind_ok in H. destruct H as (hi & E & H). apply Ok_inj in H. subst e'. cbn [em].
  rewrite quad_congr. now rewrite (inverse_mul th h hi).
Qed.
Lemma image_scale h p q : isImage h p q -> let w := m20 h * px p + m21 h * py p + m22 h in
  w <> 0 /\ matMulH h (mkH (px p) (py p) 1) = scaleH w (mkH (px q) (py q) 1).
Proof.
  intros (W & X & Y). cbv zeta. split; auto. unfold matMulH, scaleH. cbn [h0 h1 h2]. rnum. apply hpt_eq; cbn [h0 h1 h2]; [rewrite X|rewrite Y|]; field; auto.
Qed.
Lemma hEll_conic th h e e' p q : thr_ok th -> hEll th h e = Ok e' -> isImage h p q ->
  let w := m20 h * px p + m21 h * py p + m22 h in w <> 0 /\ w * w * conic (em e') q = conic (em e) p.
Proof.
  intros Ht H I. cbv zeta. destruct (image_scale h p q I) as [W S]. split; auto.
  unfold conic. rewrite <- (hEll_quad th h e e' (mkH (px p) (py p) 1) Ht H), S, quad_scaleH. reflexivity.
Qed.

(** ** Centre *)
Definition symM (m : mat R) : Prop := m10 m = m01 m /\ m20 m = m02 m /\ m21 m = m12 m.
Lemma init_sym x y a b t : symM (ellInit x y a b t).
Proof. repeat split. Qed.
Lemma hEll_sym th h e e' : hEll th h e = Ok e' -> symM (em e) -> symM (em e').
Proof.
  intros H (A & B & C). unfold hEll in H. apply bind_ok in H. destruct H as (hi & E & H). apply Ok_inj in H. subst e'. cbn [em].
  unfold symM, matMul, matTranspose. cbn [m00 m01 m02 m10 m11 m12 m20 m21 m22]. rnum. rewrite A, B, C. repeat split; ring.
Qed.
(** The centre is the point at which the gradient of the form vanishes. *)
Definition isCentre (m : mat R) (c : pt R) : Prop :=
  m00 m * px c + m01 m * py c + m02 m = 0 /\ m10 m * px c + m11 m * py c + m12 m = 0.
Lemma ellCenter_grad th e c : thr_ok th -> symM (em e) -> ellCenter th e = Ok c -> isCentre (em e) c /\ m01 (em e) * m01 (em e) - m00 (em e) * m11 (em e) <> 0.
Proof.
  intros Ht (S1 & S2 & S3) H. unfold ellCenter in H. apply bind_ok in H. destruct H as (r & H & E). apply Ok_inj in E. subst c.
  unfold ellParams in H. rnum. set (m := em e) in *. cbv zeta in H.
  destruct (Rltb _ _) eqn:D in H; [discriminate|]. apply Rltb_false in D. pose proof (thr_deno _ Ht).
  apply bind_ok in H. destruct H as (sq & _ & H). apply bind_ok in H. destruct H as (ra & _ & H). apply bind_ok in H. destruct H as (rb & _ & H).
  apply Ok_inj in H. subst r. cbn [ex0 ey0]. unfold isCentre. rewrite S1. cbn [px py].
  assert (m01 m * m01 m - m00 m * m11 m <> 0) as N.
  { intros Z. replace (2 * m01 m * (2 * m01 m) - 4 * m00 m * m11 m) with (4 * (m01 m * m01 m - m00 m * m11 m)) in D by ring. rewrite Z, Rmult_0_r, Rabs_R0 in D. lra. }
  assert (2 * m01 m * (2 * m01 m) - 4 * m00 m * m11 m <> 0) as N'.
  { intros Z. apply N. lra. }
  split; [|auto]. split; field; auto.
Qed.
Lemma centre_unique m c d : m01 m * m10 m - m00 m * m11 m <> 0 -> isCentre m c -> isCentre m d -> c = d.
Proof.
  intros N [A B] [A' B']. assert (m00 m * (px c - px d) + m01 m * (py c - py d) = 0) as U by lra. assert (m10 m * (px c - px d) + m11 m * (py c - py d) = 0) as V by lra.
  destruct c as [cx cy], d as [dx dy]. cbn [px py] in *.
  assert ((m01 m * m10 m - m00 m * m11 m) * (cx - dx) = 0) as X.
  { replace ((m01 m * m10 m - m00 m * m11 m) * (cx - dx)) with (m01 m * (m10 m * (cx - dx) + m11 m * (cy - dy)) - m11 m * (m00 m * (cx - dx) + m01 m * (cy - dy))) by ring. rewrite U, V. ring. }
  assert ((m01 m * m10 m - m00 m * m11 m) * (cy - dy) = 0) as Y.
  { replace ((m01 m * m10 m - m00 m * m11 m) * (cy - dy)) with (m10 m * (m00 m * (cx - dx) + m01 m * (cy - dy)) - m00 m * (m10 m * (cx - dx) + m11 m * (cy - dy))) by ring. rewrite U, V. ring. }
  apply Rmult_integral in X. apply Rmult_integral in Y. destruct X as [X|X]; [contradiction|]. destruct Y as [Y|Y]; [contradiction|]. f_equal; lra.
Qed.
(** Linear form of the transformed matrix. *)
Lemma congr_lin m q h : matMulH (matMul (matMul (matTranspose m) q) m) h = matMulH (matTranspose m) (matMulH q (matMulH m h)).
Proof. now rewrite !matMulH_mul. Qed.
Lemma hEll_centre_affine th h e e' c c' : thr_ok th -> symM (em e) -> m20 h = 0 -> m21 h = 0 -> hEll th h e = Ok e' ->
  ellCenter th e = Ok c -> ellCenter th e' = Ok c' -> isImage h c c'.
Proof.
  intros Ht S A0 A1 H C C'. pose proof (hEll_sym _ _ _ _ H S) as S'.
  destruct (ellCenter_grad _ _ _ Ht S C) as [G N]. destruct (ellCenter_grad _ _ _ Ht S' C') as [G' N'].
  unfold hEll in H. apply bind_ok in H. destruct H as (hi & E & H). apply Ok_inj in H. pose proof (inverse_mul th h hi) as I.
  pose proof (matInverse_inv _ _ _ Ht E) as [D Ei].
  assert (m22 h <> 0) as W. { intros Z. apply D. unfold det3. rewrite A0, A1, Z. ring. }
  set (q := mkPt ((m00 h * px c + m01 h * py c + m02 h) / m22 h) ((m10 h * px c + m11 h * py c + m12 h) / m22 h)).
  assert (isImage h c q) as Im. { unfold isImage. rewrite A0, A1. replace (0 * px c + 0 * py c + m22 h) with (m22 h) by ring. auto. }
  assert (isCentre (em e') q) as Cq.
  { destruct (image_scale h c q Im) as [W' Sc]. rewrite A0, A1 in W', Sc. replace (0 * px c + 0 * py c + m22 h) with (m22 h) in * by ring.
    assert (matMulH (em e') (matMulH h (mkH (px c) (py c) 1)) = matMulH (matTranspose hi) (matMulH (em e) (mkH (px c) (py c) 1))) as L.
    { subst e'. cbn [em]. rewrite congr_lin, I by auto. reflexivity. }
    rewrite Sc, matMulH_scaleH in L.
    assert (m20 hi = 0 /\ m21 hi = 0) as [Z0 Z1]. { rewrite Ei. unfold scaleM, matMap, adjugate, det2. cbn [m20 m21]. rnum. rewrite A0, A1. split; ring. }
    destruct G as [G1 G2].
    assert (h0 (matMulH (em e) (mkH (px c) (py c) 1)) = 0) as F0 by (unfold matMulH; cbn [h0 h1 h2]; rnum; lra).
    assert (h1 (matMulH (em e) (mkH (px c) (py c) 1)) = 0) as F1 by (unfold matMulH; cbn [h0 h1 h2]; rnum; lra).
    pose proof (f_equal h0 L) as L0. pose proof (f_equal h1 L) as L1. unfold matMulH at 2 in L0. unfold matMulH at 2 in L1.
    unfold matTranspose, scaleH in L0, L1. cbn [h0 h1 h2 m00 m01 m02 m10 m11 m12 m20 m21 m22] in L0, L1. rewrite F0, F1, Z0 in L0. rewrite F0, F1, Z1 in L1.
    rnum. rewrite !Rmult_0_r, !Rmult_0_l, !Rplus_0_r in L0, L1. apply Rmult_integral in L0. apply Rmult_integral in L1. 
    destruct L0 as [L0|L0]; [contradiction|]. destruct L1 as [L1|L1]; [contradiction|].
    unfold matMulH in L0, L1. cbn [h0 h1 h2] in L0, L1. rnum. split; lra. }
  replace c' with q; auto. eapply centre_unique; [|exact Cq|exact G']. destruct S' as (S1 & _). rewrite S1. exact N'.
Qed.
