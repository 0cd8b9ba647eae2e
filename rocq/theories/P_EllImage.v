(** * Normal form of the matrices of ellipses, and their images *)

From Coq Require Import Reals Lra Lia List Bool ZArith.
From Verif Require Import Num M_LP M_Homogr M_Seg M_Circle M_Poly M_FRect M_Ellipse S_Geom S_Homogr S_Circle S_FRect S_Misc S_Ellipse S_Map S_EllImage P_LP P_LP2 P_Homogr P_BB P_Poly7 P_Ellipse P_Ellipse2.
Import ListNotations.
Local Open Scope R_scope.

Lemma sqpos x : 0 <= x * x. Proof. apply Rle_0_sqr. Qed.

(** ** Principal axes *)
Lemma eigen A C B : let S := sqrt ((A - C) * (A - C) + 4 * (B * B)) in
  let l1 := (A + C + S) / 2 in let l2 := (A + C - S) / 2 in
  exists t, l1 * (sin t * sin t) + l2 * (cos t * cos t) = A /\ l1 * (cos t * cos t) + l2 * (sin t * sin t) = C /\ (l2 - l1) * (sin t * cos t) = B.
Proof.
  intros S l1 l2. assert (0 <= (A - C) * (A - C) + 4 * (B * B)) as P by (pose proof (sqpos (A - C)); pose proof (sqpos B); lra).
  assert (S * S = (A - C) * (A - C) + 4 * (B * B)) as Q by (apply sqrt_sqrt; exact P). assert (0 <= S) as N by apply sqrt_pos. clearbody S.
  destruct (Req_dec B 0) as [->|HB].
  - destruct (Rle_lt_dec A C) as [H|H].
    + assert (S = C - A) as E. { apply Rsqr_inj; unfold Rsqr; lra. }
      exists 0. rewrite sin_0, cos_0. unfold l1, l2. rewrite E. repeat split; field.
    + assert (S = A - C) as E. { apply Rsqr_inj; unfold Rsqr; lra. }
      exists (PI / 2). rewrite sin_PI2, cos_PI2. unfold l1, l2. rewrite E. repeat split; field.
  - set (t := atan ((C - A - S) / (2 * B))). exists t. pose proof (tan_atan ((C - A - S) / (2 * B))) as E. fold t in E.
    assert (cos t <> 0) as Hu. { apply Rgt_not_eq, cos_gt_0; unfold t; pose proof (atan_bound ((C - A - S) / (2 * B))); lra. }
    unfold tan in E. pose proof (sc1 t) as T. set (s := sin t) in *. set (c := cos t) in *. clearbody s c.
    assert (2 * B * s = (C - A - S) * c) as X. { replace s with (s / c * c) by (field; auto). rewrite E. field. auto. }
    assert (S <> 0) as SN. { intros Z. rewrite Z in Q. assert (0 < B * B) by (apply Rsqr_pos_lt in HB; exact HB). pose proof (sqpos (A - C)). lra. }
    (* c² (4B² + (C-A-S)²) = 4B² *)
    assert (c * c * (2 * S * (S - (C - A))) = (S - (A - C)) * (S + (A - C))) as Y.
    { transitivity (4 * (B * B) * (s * s + c * c)); [|rewrite T; lra].
      replace (4 * (B * B) * (s * s + c * c)) with ((2 * B * s) * (2 * B * s) + 4 * (B * B) * (c * c)) by ring. rewrite X.
      replace (4 * (B * B)) with (S * S - (A - C) * (A - C)) by lra. ring. }
    assert (S + (A - C) <> 0) as M.
    { intros Z. assert (4 * (B * B) = 0) as Z2. { replace (4 * (B * B)) with ((S + (A - C)) * (S - (A - C))) by lra. rewrite Z. ring. } apply HB. assert (B * B = 0) as Z3 by lra. apply Rmult_integral in Z3. tauto. }
    assert (2 * S * (c * c) = S - (A - C)) as Y2.
    { apply (Rmult_eq_reg_r (S + (A - C))); auto. rewrite <- Y. ring. }
    assert (s * s = 1 - c * c) as T2 by lra.
    unfold l1, l2. split; [|split].
    + rewrite T2. lra.
    + rewrite T2. lra.
    + assert (B * ((A + C - S) / 2 - (A + C + S) / 2) * (s * c) = B * B) as G; [|apply (Rmult_eq_reg_l B); auto; rewrite <- G; ring].
      replace (B * ((A + C - S) / 2 - (A + C + S) / 2) * (s * c)) with (- S * c / 2 * (2 * B * s)) by field. rewrite X.
      replace (- S * c / 2 * ((C - A - S) * c)) with ((2 * S * (c * c)) * (S + (A - C)) / 4) by field. rewrite Y2. lra.
Qed.

(** ** Normal form *)
Definition d2 (m : mat R) : R := m00 m * m11 m - m01 m * m01 m.
Definition pd (m : mat R) : Prop := symM m /\ 0 < m00 m /\ 0 < d2 m /\ det3 m < 0.

Lemma mat_eq (m n : mat R) : m00 m = m00 n -> m01 m = m01 n -> m02 m = m02 n -> m10 m = m10 n -> m11 m = m11 n -> m12 m = m12 n ->
  m20 m = m20 n -> m21 m = m21 n -> m22 m = m22 n -> m = n.
Proof. destruct m, n; cbn; intros; subst; reflexivity. Qed.

Lemma normal_form m : pd m -> exists x y a b t k, 0 < b <= a /\ 0 < k /\ m = scaleM k (ellInit x y a b t).
Proof.
  intros ((S1 & S2 & S3) & P & D & D3). unfold d2 in D.
  destruct (eigen (m00 m) (m11 m) (m01 m)) as (t & E1 & E2 & E3). set (S := sqrt _) in *.
  assert (S * S = (m00 m - m11 m) * (m00 m - m11 m) + 4 * (m01 m * m01 m)) as Q.
  { apply sqrt_sqrt. pose proof (sqpos (m00 m - m11 m)); pose proof (sqpos (m01 m)); lra. } assert (0 <= S) as N by apply sqrt_pos. clearbody S.
  set (l1 := (m00 m + m11 m + S) / 2) in *. set (l2 := (m00 m + m11 m - S) / 2) in *.
  assert (l1 * l2 = m00 m * m11 m - m01 m * m01 m) as L. { unfold l1, l2. replace ((m00 m + m11 m + S) / 2 * ((m00 m + m11 m - S) / 2)) with (((m00 m + m11 m) * (m00 m + m11 m) - S * S) / 4) by field. rewrite Q. field. }
  assert (0 < m11 m) as P1. { apply (Rmult_lt_reg_l (m00 m)); auto. pose proof (sqpos (m01 m)). lra. }
  assert (0 < l1) as L1 by (unfold l1; lra). assert (0 < l2) as L2. { apply (Rmult_lt_reg_l l1); auto. lra. }
  assert (l2 <= l1) as L12 by (unfold l1, l2; lra). rewrite <- L in D.
  set (K := - det3 m / (l1 * l2)). assert (0 < K) as PK by (apply Rdiv_lt_0_compat; lra).
  exists ((m01 m * m12 m - m11 m * m02 m) / (l1 * l2)), ((m01 m * m02 m - m00 m * m12 m) / (l1 * l2)), (sqrt (K / l2)), (sqrt (K / l1)), t, (l1 * l2 / K).
  assert (0 < K / l2 /\ 0 < K / l1) as [Q2 Q1] by (split; apply Rdiv_lt_0_compat; auto).
  assert (sqrt (K / l2) * sqrt (K / l2) = K / l2) as A2 by (apply sqrt_sqrt; lra). assert (sqrt (K / l1) * sqrt (K / l1) = K / l1) as B2 by (apply sqrt_sqrt; lra).
  split; [split|split].
  - apply sqrt_lt_R0; auto.
  - apply sqrt_le_1_alt. apply Rmult_le_compat_l; [lra|]. apply Rinv_le_contravar; auto.
  - apply Rdiv_lt_0_compat; auto.
  - set (a := sqrt (K / l2)) in *. set (b := sqrt (K / l1)) in *. clearbody a b.
    assert (l1 * l2 / K * (a * a * (sin t * sin t) + b * b * (cos t * cos t)) = m00 m) as F0.
    { rewrite A2, B2, <- E1. field. lra. }
    assert (l1 * l2 / K * (a * a * (cos t * cos t) + b * b * (sin t * sin t)) = m11 m) as F1.
    { rewrite A2, B2, <- E2. field. lra. }
    assert (l1 * l2 / K * (2 * (b * b - a * a) * sin t * cos t) = 2 * m01 m) as F2.
    { rewrite A2, B2, <- E3. field. lra. }
    assert (l1 * l2 / K * (a * a * (b * b)) = K) as F3.
    { rewrite A2, B2. field. lra. }
    set (k := l1 * l2 / K) in *.
    set (cA := a * a * (sin t * sin t) + b * b * (cos t * cos t)) in *. set (cC := a * a * (cos t * cos t) + b * b * (sin t * sin t)) in *. set (cB := 2 * (b * b - a * a) * sin t * cos t) in *.
    assert (K = - det3 m / (m00 m * m11 m - m01 m * m01 m)) as EK by (unfold K; rewrite L; reflexivity).
    set (x := (m01 m * m12 m - m11 m * m02 m) / (l1 * l2)). set (y := (m01 m * m02 m - m00 m * m12 m) / (l1 * l2)).
    assert (m00 m * x + m01 m * y = - m02 m) as C1. { unfold x, y. rewrite L in *. field. lra. }
    assert (m01 m * x + m11 m * y = - m12 m) as C2. { unfold x, y. rewrite L in *. field. lra. }
    assert (m22 m = m00 m * x * x + 2 * m01 m * x * y + m11 m * y * y - K) as C3.
    { rewrite EK. unfold x, y, det3. rewrite S1, S2, S3, L. rewrite L in D. field. lra. }
    assert (k * (cB / 2) = m01 m) as F2' by lra.
    assert (k * ((-2 * cA * x - cB * y) / 2) = m02 m) as G1. { replace (k * ((-2 * cA * x - cB * y) / 2)) with (- ((k * cA) * x + (k * (cB / 2)) * y)) by field. rewrite F0, F2'. lra. }
    assert (k * ((- cB * x - 2 * cC * y) / 2) = m12 m) as G2. { replace (k * ((- cB * x - 2 * cC * y) / 2)) with (- ((k * (cB / 2)) * x + (k * cC) * y)) by field. rewrite F1, F2'. lra. }
    assert (k * (cA * x * x + cB * x * y + cC * y * y - a * a * (b * b)) = m22 m) as G3.
    { replace (k * (cA * x * x + cB * x * y + cC * y * y - a * a * (b * b))) with ((k * cA) * x * x + 2 * (k * (cB / 2)) * x * y + (k * cC) * y * y - k * (a * a * (b * b))) by field. rewrite F0, F1, F2', F3. lra. }
    apply mat_eq; unfold scaleM, matMap, ellInit; cbn [m00 m01 m02 m10 m11 m12 m20 m21 m22]; rnum; change (-2) with (-2); fold cA; fold cB; fold cC; symmetry; try rewrite S1; try rewrite S2; try rewrite S3; assumption.
Qed.

Lemma init_inv x y a b t k : d2 (scaleM k (ellInit x y a b t)) = k * k * (a * a * (b * b)) /\
  det3 (scaleM k (ellInit x y a b t)) = - (k * (k * k)) * (a * a * (b * b) * (a * a * (b * b))) /\
  m00 (scaleM k (ellInit x y a b t)) + m11 (scaleM k (ellInit x y a b t)) = k * (a * a + b * b).
Proof.
  pose proof (sc1 t) as T. pose proof (disc a b t) as Q. cbv zeta in Q. unfold d2, det3, scaleM, matMap, ellInit. cbn [m00 m01 m02 m10 m11 m12 m20 m21 m22]. rnum.
  set (s := sin t) in *. set (c := cos t) in *. set (B := 2 * (b * b - a * a) * s * c) in *. set (A := a * a * (s * s) + b * b * (c * c)) in *. set (C := a * a * (c * c) + b * b * (s * s)) in *.
  assert (A * C - B * B / 4 = a * a * (b * b)) as W by lra.
  split; [|split].
  - transitivity (k * k * (A * C - B * B / 4)); [field|]. now rewrite W.
  - transitivity (- (k * (k * k)) * (a * a * (b * b) * (A * C - B * B / 4))); [field|]. now rewrite W.
  - unfold A, C. replace (a * a + b * b) with ((a * a + b * b) * (s * s + c * c)) by (rewrite T; ring). ring.
Qed.
Lemma init_pd x y a b t k : 0 < b <= a -> 0 < k -> pd (scaleM k (ellInit x y a b t)).
Proof.
  intros Hab Hk. destruct (init_inv x y a b t k) as (I2 & I3 & It).
  assert (0 < a * a /\ 0 < b * b) as [Pa Pb] by (split; apply Rmult_lt_0_compat; lra).
  assert (0 < a * a * (b * b)) as Pq by (apply Rmult_lt_0_compat; auto). assert (0 < k * k) as Pk by (apply Rmult_lt_0_compat; auto).
  split; [|split; [|split]].
  - unfold symM, scaleM, matMap, ellInit. cbn [m01 m02 m10 m12 m20 m21]. repeat split; reflexivity.
  - unfold scaleM, matMap, ellInit. cbn [m00]. rnum. apply Rmult_lt_0_compat; auto. pose proof (sc1 t) as T. pose proof (sqpos (sin t)). pose proof (sqpos (cos t)).
    assert (b * b <= a * a) by (apply Rmult_le_compat; lra).
    assert (b * b * (sin t * sin t) <= a * a * (sin t * sin t)) by (apply Rmult_le_compat_r; lra).
    assert (b * b * (sin t * sin t + cos t * cos t) = b * b) by (rewrite T; ring). lra.
  - rewrite I2. apply Rmult_lt_0_compat; auto.
  - rewrite I3. assert (0 < k * (k * k) * (a * a * (b * b) * (a * a * (b * b)))); [|lra]. repeat apply Rmult_lt_0_compat; lra.
Qed.
Lemma sym_conic m n : symM m -> symM n -> (forall p, conic m p = conic n p) -> m = n.
Proof.
  intros (A & B & C) (A' & B' & C') H.
  pose proof (H (mkPt 0 0)) as H0. pose proof (H (mkPt 1 0)) as H1. pose proof (H (mkPt (-1) 0)) as H2. pose proof (H (mkPt 0 1)) as H3. pose proof (H (mkPt 0 (-1))) as H4. pose proof (H (mkPt 1 1)) as H5.
  unfold conic, quadH in *. cbn [px py h0 h1 h2] in *. rewrite ?A, ?B, ?C, ?A', ?B', ?C' in *. apply mat_eq; lra.
Qed.
Lemma describes_init m x y a b t : symM m -> describes m x y a b t -> exists k, 0 < k /\ m = scaleM k (ellInit x y a b t).
Proof.
  intros S (Hab & k & Hk & H). assert (0 < a * a * (b * b)) as Pq by (repeat apply Rmult_lt_0_compat; lra).
  exists (k / (a * a * (b * b))). split; [apply Rdiv_lt_0_compat; auto|]. apply sym_conic; auto.
  - unfold symM, scaleM, matMap, ellInit. cbn [m01 m02 m10 m12 m20 m21]. repeat split; reflexivity.
  - intros p. rewrite H, conic_scale, conic_init by lra. field. lra.
Qed.
Lemma init_describes x y a b t k : 0 < b <= a -> 0 < k -> describes (scaleM k (ellInit x y a b t)) x y a b t.
Proof.
  intros Hab Hk. assert (0 < a * a * (b * b)) as Pq by (repeat apply Rmult_lt_0_compat; lra). split; auto. exists (k * (a * a * (b * b))).
  split; [apply Rmult_lt_0_compat; auto|]. intros p. rewrite conic_scale, conic_init by lra. ring.
Qed.

(** ** Images *)
Lemma det3_congr m q : det3 (matMul (matMul (matTranspose m) q) m) = det3 m * det3 m * det3 q.
Proof. unfold det3, matMul, matTranspose. cbn [m00 m01 m02 m10 m11 m12 m20 m21 m22]. rnum. ring. Qed.
Lemma inv_mul2 th m mi v : thr_ok th -> matInverse th m = Ok mi -> matMulH m (matMulH mi v) = v.
Proof.
  intros Ht H. apply matInverse_inv in H; auto. destruct H as [D ->]. destruct v as [u v w]. unfold matMulH, scaleM, matMap, adjugate, det2. cbn [m00 m01 m02 m10 m11 m12 m20 m21 m22 h0 h1 h2]. rnum.
  apply hpt_eq; cbn [h0 h1 h2]; unfold det3 in *; field; auto.
Qed.
Lemma pd_plane m u v : pd m -> u <> 0 \/ v <> 0 -> 0 < quadH m (mkH u v 0).
Proof.
  intros ((S1 & _) & P & D & _) H. unfold d2 in D. unfold quadH. cbn [h0 h1 h2]. rewrite S1. set (A := m00 m) in *. set (B := m01 m) in *. set (C := m11 m) in *.
  apply (Rmult_lt_reg_l A); auto. rewrite Rmult_0_r.
  replace (A * _) with ((A * u + B * v) * (A * u + B * v) + (A * C - B * B) * (v * v)) by ring.
  pose proof (sqpos (A * u + B * v)) as Q. destruct (Req_dec v 0) as [->|V].
  - destruct H as [H|H]; [|lra]. replace (A * u + B * 0) with (A * u) by ring. assert (A * u <> 0) as N by (apply Rmult_integral_contrapositive; lra). apply Rsqr_pos_lt in N. unfold Rsqr in N. lra.
  - apply Rsqr_pos_lt in V. unfold Rsqr in V. assert (0 < (A * C - B * B) * (v * v)) by (apply Rmult_lt_0_compat; auto). lra.
Qed.
Lemma image_pd th h e e' : thr_ok th -> pd (em e) -> avoids h (em e) -> hEll th h e = Ok e' -> pd (em e').
Proof.
  intros Ht Pd Av H. pose proof (hEll_sym _ _ _ _ H (proj1 Pd)) as S'. pose proof (hEll_quad th h e e') as _.
  unfold hEll in H. apply bind_ok in H. destruct H as (hi & E & H). apply Ok_inj in H.
  pose proof (inv_mul2 th h hi) as I2. pose proof (inverse_mul th h hi) as I1.
  assert (forall u v, u <> 0 \/ v <> 0 -> 0 < quadH (em e') (mkH u v 0)) as G.
  { intros u v N. subst e'. cbn [em]. rewrite quad_congr. pose proof (I2 (mkH u v 0) Ht E) as W. set (w := matMulH hi (mkH u v 0)) in *.
    destruct (Req_dec (h2 w) 0) as [Z|Z].
    - destruct w as [X Y W2]. cbn [h2] in Z. subst W2. apply pd_plane; auto. destruct (Req_dec X 0) as [->|]; [|auto]. destruct (Req_dec Y 0) as [->|]; [|auto].
      exfalso. unfold matMulH in W. cbn [h0 h1 h2] in W. revert W. rnum. rewrite !Rmult_0_r, !Rplus_0_r. intros W. inversion W. subst. lra.
    - set (p := mkPt (h0 w / h2 w) (h1 w / h2 w)). assert (w = scaleH (h2 w) (mkH (px p) (py p) 1)) as Ew.
      { unfold scaleH, p. cbn [px py]. destruct w as [X Y W2]. cbn [h0 h1 h2] in *. apply hpt_eq; cbn [h0 h1 h2]; field; auto. }
      assert (wAt h p = 0) as W0.
      { assert (h2 (matMulH h w) = 0) as V by (rewrite W; reflexivity). unfold matMulH in V. cbn [h2] in V. revert V. rnum. intros V. unfold wAt, p. cbn [px py].
        apply (Rmult_eq_reg_r (h2 w)); auto. rewrite Rmult_0_l, <- V. field. auto. }
      rewrite Ew, quad_scaleH. assert (0 < conic (em e) p) as C. { apply Rnot_le_lt. intros L. exact (Av p L W0). }
      unfold conic in C. apply Rsqr_pos_lt in Z. unfold Rsqr in Z. apply Rmult_lt_0_compat; auto. }
  destruct S' as (S1 & S2 & S3). pose proof (G 1 0 ltac:(lra)) as G0. unfold quadH in G0. cbn [h0 h1 h2] in G0. assert (0 < m00 (em e')) as P0 by lra.
  split; [|split; [|split]]; auto.
  - repeat split; auto.
  - pose proof (G (- m01 (em e')) (m00 (em e')) ltac:(lra)) as G1. unfold quadH in G1. cbn [h0 h1 h2] in G1. rewrite S1 in G1. unfold d2.
    apply (Rmult_lt_reg_l (m00 (em e'))); auto. lra.
  - subst e'. cbn [em]. rewrite det3_congr. destruct Pd as (_ & _ & _ & D3).
    assert (det3 hi <> 0) as N. { apply matInverse_inv in E; auto. destruct E as [D ->]. intros Z.
      assert (det3 (scaleM (/ det3 h) (adjugate h)) * (det3 h) = 1) as W.
      { unfold det3, scaleM, matMap, adjugate, det2. cbn [m00 m01 m02 m10 m11 m12 m20 m21 m22]. rnum. unfold det3 in D. field. auto. }
      rewrite Z in W. lra. }
    apply Rsqr_pos_lt in N. unfold Rsqr in N. set (k := det3 hi * det3 hi) in *. replace (k * det3 (em e)) with (- (k * - det3 (em e))) by ring.
    assert (0 < k * - det3 (em e)) by (apply Rmult_lt_0_compat; lra). lra.
Qed.

(** ** Parameters computed from the matrix of an ellipse *)
Definition bigMat (th : thrs R) (m : mat R) : Prop := nullDenom th <= 4 * (m00 m * m11 m - m01 m * m01 m).
Definition axisMat (th : thrs R) (m : mat R) : Prop := (m01 m = 0 /\ m00 m <= m11 m) \/ nullDenom th <= Rabs (2 * m01 m).

Lemma params_big th e x y a b t : thr_ok th -> symM (em e) -> describes (em e) x y a b t -> bigMat th (em e) -> exists u,
  ellParams th e = Ok (mkPar x y u (sin u) (cos u) a b (a * a) (b * b)).
Proof.
  intros Ht S D Hb. pose proof D as (Hab & _). destruct (describes_init _ _ _ _ _ _ S D) as (k & Hk & E).
  rewrite (ellParams_flag th e (mkE (scaleM k (ellInit x y a b t)) false)) by (rewrite E; reflexivity).
  unfold bigMat in Hb. change (m00 (em e) * m11 (em e) - m01 (em e) * m01 (em e)) with (d2 (em e)) in Hb. rewrite E in Hb. destruct (init_inv x y a b t k) as (I2 & _). rewrite I2 in Hb.
  destruct (params_scaled x y a b t k Hab ltac:(lra) th ltac:(lra)) as (u & P & _). destruct (Rlt_dec 0 k); [|lra]. exists u. exact P.
Qed.
Lemma params_mat th e x y a b t : thr_ok th -> symM (em e) -> describes (em e) x y a b t -> bigMat th (em e) -> axisMat th (em e) -> exists u,
  ellParams th e = Ok (mkPar x y u (sin u) (cos u) a b (a * a) (b * b)) /\ forall p, ellForm x y a b u p = ellForm x y a b t p.
Proof.
  intros Ht S D Hb Hx. pose proof D as (Hab & _). destruct (describes_init _ _ _ _ _ _ S D) as (k & Hk & E).
  rewrite (ellParams_flag th e (mkE (scaleM k (ellInit x y a b t)) false)) by (rewrite E; reflexivity).
  unfold bigMat in Hb. change (m00 (em e) * m11 (em e) - m01 (em e) * m01 (em e)) with (d2 (em e)) in Hb. rewrite E in Hb. destruct (init_inv x y a b t k) as (I2 & _). rewrite I2 in Hb.
  destruct (params_scaled x y a b t k Hab ltac:(lra) th ltac:(lra)) as (u & P & Eu). destruct (Rlt_dec 0 k); [|lra]. exists u. split; [exact P|].
  intros p. apply ellForm_same; auto. pose proof (thr_deno _ Ht) as Dn. pose proof (sc1 t) as T. assert (b * b <= a * a) as Pab by (apply Rmult_le_compat; lra).
  rewrite (Rabs_right k) in Eu by lra. fold (coefB a b t) in Eu.
  assert (2 * m01 (em e) = k * coefB a b t) as EB. { rewrite E. unfold coefB. apply mB. }
  assert (m00 (em e) = k * (a * a * (sin t * sin t) + b * b * (cos t * cos t))) as EA by (rewrite E; reflexivity).
  assert (m11 (em e) = k * (a * a * (cos t * cos t) + b * b * (sin t * sin t))) as EC by (rewrite E; reflexivity).
  destruct Hx as [[Z L]|L].
  - assert (coefB a b t = 0) as B0. { rewrite Z in EB. assert (k * coefB a b t = 0) as K0 by lra. apply Rmult_integral in K0. lra. }
    rewrite EA, EC in L. rewrite B0, Rmult_0_r, Rabs_R0 in Eu. rewrite (proj2 (Rltb_spec 0 (nullDenom th))) in Eu by lra. rewrite (proj2 (Rltb_false _ _)) in Eu by lra. subst u.
    apply Rmult_le_reg_l in L; auto.
    assert (a * a = b * b \/ sin t = 0) as O.
    { unfold coefB in B0. destruct (Req_dec (a * a) (b * b)) as [|N]; [now left|right].
      assert (sin t * cos t = 0) as SC. { apply (Rmult_eq_reg_l (2 * (b * b - a * a))); [|lra]. rewrite Rmult_0_r, <- B0. ring. }
      apply Rmult_integral in SC. destruct SC as [SC|SC]; auto. rewrite SC in T, L. assert (sin t * sin t = 1) as S1 by lra. rewrite S1 in L. lra. }
    apply ellInit_sc; unfold coefB; rewrite sin_0, cos_0.
    + destruct O as [O|O]; [rewrite O|rewrite O in *]; [replace (b * b * (sin t * sin t) + b * b * (cos t * cos t)) with (b * b * (sin t * sin t + cos t * cos t)) by ring; rewrite T; ring|]. replace (cos t * cos t) with 1 by lra. ring.
    + destruct O as [O|O]; [rewrite O|rewrite O in *]; [replace (b * b * (cos t * cos t) + b * b * (sin t * sin t)) with (b * b * (sin t * sin t + cos t * cos t)) by ring; rewrite T; ring|]. replace (cos t * cos t) with 1 by lra. ring.
    + unfold coefB in B0. rewrite B0. ring.
  - rewrite EB in L. rewrite (proj2 (Rltb_false _ _)) in Eu by auto.
    assert (coefB a b t <> 0) as B0. { intros Z. rewrite Z, Rmult_0_r, Rabs_R0 in L. lra. }
    assert (u = atan (tan t)) as ->. { rewrite Eu. f_equal. rewrite <- (tan_B a b t) by auto. field. split; [auto|lra]. }
    assert (cos t <> 0) as C0. { intros C. apply B0. unfold coefB. rewrite C. ring. }
    destruct (atan_tan_sc t C0) as (E1 & E2 & E3). apply ellInit_sc; rewrite ?E1, ?E2; auto. unfold coefB. rewrite !Rmult_assoc, E3. reflexivity.
Qed.

(** ** Affine maps *)
Lemma d2_congr m q : m20 m = 0 -> m21 m = 0 -> m10 q = m01 q ->
  let z := m00 m * m11 m - m01 m * m10 m in d2 (matMul (matMul (matTranspose m) q) m) = z * z * d2 q.
Proof. intros A B S z. unfold z, d2, matMul, matTranspose. cbn [m00 m01 m02 m10 m11 m12 m20 m21 m22]. rnum. rewrite A, B, S. ring. Qed.
Lemma affine_inv th h e e' : thr_ok th -> isAffine h -> symM (em e) -> hEll th h e = Ok e' ->
  let l := m00 h * m11 h - m01 h * m10 h in let w := m22 h in l <> 0 /\ w <> 0 /\
  d2 (em e) = l * l * d2 (em e') /\ det3 (em e) = l * l * (w * w) * det3 (em e').
Proof.
  intros Ht (A0 & A1) (S1 & S2 & S3) H l w. unfold hEll in H. apply bind_ok in H. destruct H as (hi & E & H). apply Ok_inj in H. apply matInverse_inv in E; auto. destruct E as [D ->].
  assert (det3 h = l * w) as Dh by (unfold det3, l, w; rewrite A0, A1; ring).
  assert (l <> 0) as L by (intros Z; apply D; rewrite Dh, Z; ring). assert (w <> 0) as W by (intros Z; apply D; rewrite Dh, Z; ring).
  split; auto. split; auto. subst e'. cbn [em]. split.
  - rewrite d2_congr by (auto; unfold scaleM, matMap, adjugate, det2; cbn [m20 m21]; rnum; rewrite A0, A1; ring).
    assert ((m00 (scaleM (/ det3 h) (adjugate h)) * m11 (scaleM (/ det3 h) (adjugate h)) - m01 (scaleM (/ det3 h) (adjugate h)) * m10 (scaleM (/ det3 h) (adjugate h))) * l = 1) as X.
    { unfold scaleM, matMap, adjugate, det2. cbn [m00 m01 m10 m11]. rnum. rewrite Dh, A0, A1. fold w. unfold l in *. clearbody w. field. auto. }
    set (z := m00 (scaleM (/ det3 h) (adjugate h)) * m11 (scaleM (/ det3 h) (adjugate h)) - m01 (scaleM (/ det3 h) (adjugate h)) * m10 (scaleM (/ det3 h) (adjugate h))) in *. clearbody z. replace (l * l * (z * z * d2 (em e))) with ((z * l) * (z * l) * d2 (em e)) by ring. rewrite X. ring.
  - rewrite det3_congr. assert (det3 (scaleM (/ det3 h) (adjugate h)) * (l * w) = 1) as X.
    { rewrite <- Dh. unfold det3 at 1. unfold scaleM, matMap, adjugate, det2. cbn [m00 m01 m02 m10 m11 m12 m20 m21 m22]. rnum. unfold det3 in *. field. auto. }
    replace (l * l * (w * w) * (det3 (scaleM (/ det3 h) (adjugate h)) * det3 (scaleM (/ det3 h) (adjugate h)) * det3 (em e))) with
      ((det3 (scaleM (/ det3 h) (adjugate h)) * (l * w)) * (det3 (scaleM (/ det3 h) (adjugate h)) * (l * w)) * det3 (em e)) by ring. rewrite X. ring.
Qed.
Lemma affine_avoids h m : isAffine h -> m22 h <> 0 -> avoids h m.
Proof. intros (A & B) W p _. unfold wAt. rewrite A, B. lra. Qed.
Lemma area_affine th h e e' x y a b t x' y' a' b' t' : thr_ok th -> isAffine h -> symM (em e) -> hEll th h e = Ok e' ->
  describes (em e) x y a b t -> describes (em e') x' y' a' b' t' -> a' * b' = Rabs (detLin h) * (a * b).
Proof.
  intros Ht Ha S H D D'. pose proof (hEll_sym _ _ _ _ H S) as S'. destruct (affine_inv th h e e' Ht Ha S H) as (L & W & I2 & I3).
  destruct (describes_init _ _ _ _ _ _ S D) as (k & Hk & E). destruct (describes_init _ _ _ _ _ _ S' D') as (k' & Hk' & E'). destruct D as (Hab & _). destruct D' as (Hab' & _).
  unfold detLin. set (l := m00 h * m11 h - m01 h * m10 h) in *. set (w := m22 h) in *.
  rewrite E, E' in I2, I3. destruct (init_inv x y a b t k) as (J2 & J3 & _). destruct (init_inv x' y' a' b' t' k') as (K2 & K3 & _). rewrite J2, K2 in I2. rewrite J3, K3 in I3.
  assert (0 < a * b /\ 0 < a' * b') as [Q Q'] by (split; apply Rmult_lt_0_compat; lra).
  set (q := a * b) in *. set (q' := a' * b') in *. replace (a * a * (b * b)) with (q * q) in * by (unfold q; ring). replace (a' * a' * (b' * b')) with (q' * q') in * by (unfold q'; ring). clearbody l w q q'.
  assert (0 < l * l) as PL by (apply Rsqr_pos_lt in L; exact L). assert (0 < w * w) as PW by (apply Rsqr_pos_lt in W; exact W).
  assert (0 < k * (k * k) * (q * q * (q * q))) as P3 by (repeat apply Rmult_lt_0_compat; auto).
  assert (k * k * (q * q) <> 0) as P2 by (apply Rgt_not_eq; repeat apply Rmult_lt_0_compat; auto).
  (* k q² = w² k' q'² *)
  assert (k * (q * q) = w * w * (k' * (q' * q'))) as K.
  { apply (Rmult_eq_reg_l (k * k * (q * q))); auto. rewrite I2 at 2. lra. }
  assert (k * q = Rabs l * (k' * q')) as M.
  { apply Rsqr_inj; unfold Rsqr.
    - apply Rlt_le, Rmult_lt_0_compat; auto.
    - apply Rmult_le_pos; [apply Rabs_pos|]. apply Rlt_le, Rmult_lt_0_compat; auto.
    - replace (Rabs l * (k' * q') * (Rabs l * (k' * q'))) with (Rabs l * Rabs l * (k' * k' * (q' * q'))) by ring.
      rewrite <- Rabs_mult, (Rabs_right (l * l)) by lra. lra. }
  replace (l / (w * w)) with (l * / (w * w)) by reflexivity. rewrite Rabs_mult, (Rabs_right (/ (w * w))) by (apply Rle_ge, Rlt_le, Rinv_0_lt_compat; auto).
  apply (Rmult_eq_reg_l (w * w * (k' * q'))); [|apply Rgt_not_eq, Rmult_lt_0_compat; [auto|]; apply Rmult_lt_0_compat; auto].
  replace (w * w * (k' * q') * q') with (w * w * (k' * (q' * q'))) by ring. rewrite <- K.
  replace (w * w * (k' * q') * (Rabs l * / (w * w) * q)) with (Rabs l * (k' * q') * q) by (field; auto). rewrite <- M. ring.
Qed.

(** ** Similarities *)
Lemma similar_cols h s : m22 h <> 0 -> similar h s -> let v := s * s * (m22 h * m22 h) in
  m00 h * m00 h + m10 h * m10 h = v /\ m01 h * m01 h + m11 h * m11 h = v /\ m00 h * m01 h + m10 h * m11 h = 0.
Proof.
  intros W ((A0 & A1) & Hs & H) v.
  assert (forall x y, isImage h (mkPt x y) (mkPt ((m00 h * x + m01 h * y + m02 h) / m22 h) ((m10 h * x + m11 h * y + m12 h) / m22 h))) as I.
  { intros x y. unfold isImage. cbn [px py]. rewrite A0, A1. replace (0 * x + 0 * y + m22 h) with (m22 h) by ring. auto. }
  assert (forall x y, (m00 h * x + m01 h * y) * (m00 h * x + m01 h * y) + (m10 h * x + m11 h * y) * (m10 h * x + m11 h * y) = v * (x * x + y * y)) as G.
  { intros x y. pose proof (H _ _ _ _ (I x y) (I 0 0)) as E.
    assert (edist (mkPt ((m00 h * x + m01 h * y + m02 h) / m22 h) ((m10 h * x + m11 h * y + m12 h) / m22 h)) (mkPt ((m00 h * 0 + m01 h * 0 + m02 h) / m22 h) ((m10 h * 0 + m11 h * 0 + m12 h) / m22 h)) *
            edist (mkPt ((m00 h * x + m01 h * y + m02 h) / m22 h) ((m10 h * x + m11 h * y + m12 h) / m22 h)) (mkPt ((m00 h * 0 + m01 h * 0 + m02 h) / m22 h) ((m10 h * 0 + m11 h * 0 + m12 h) / m22 h)) =
            s * s * (edist (mkPt x y) (mkPt 0 0) * edist (mkPt x y) (mkPt 0 0))) as E2 by (rewrite E; ring).
    rewrite !edist_sq in E2. cbn [px py] in E2. unfold v. apply (Rmult_eq_reg_r (/ (m22 h * m22 h))); [|apply Rinv_neq_0_compat, Rmult_integral_contrapositive; auto].
    transitivity (s * s * ((x - 0) * (x - 0) + (y - 0) * (y - 0))); [|field; auto]. rewrite <- E2. field. auto. }
  pose proof (G 1 0) as G1. pose proof (G 0 1) as G2. pose proof (G 1 1) as G3. repeat split; lra.
Qed.
Lemma cols_rows (a b c d v : R) : 0 < v -> a * a + c * c = v -> b * b + d * d = v -> a * b + c * d = 0 ->
  a * a + b * b = v /\ c * c + d * d = v /\ a * c + b * d = 0 /\ (a * d - b * c) * (a * d - b * c) = v * v.
Proof.
  intros V E1 E2 E3. assert ((a * d - b * c) * (a * d - b * c) = v * v) as L.
  { transitivity ((a * a + c * c) * (b * b + d * d) - (a * b + c * d) * (a * b + c * d)); [ring|]. rewrite E1, E2, E3. ring. }
  set (l := a * d - b * c) in *.
  assert (l * a = v * d) as F1. { rewrite <- E1. unfold l. replace ((a * d - b * c) * a) with (a * a * d - (a * b) * c) by ring. replace (a * b) with (- (c * d)) by lra. ring. }
  assert (l * b = - (v * c)) as F2. { rewrite <- E2. unfold l. replace ((a * d - b * c) * b) with ((a * b) * d - b * b * c) by ring. replace (a * b) with (- (c * d)) by lra. ring. }
  assert (v * v * (a * a + b * b) = v * v * (c * c + d * d)) as F.
  { rewrite <- L at 1. replace (l * l * (a * a + b * b)) with ((l * a) * (l * a) + (l * b) * (l * b)) by ring. rewrite F1, F2. ring. }
  assert (v * v <> 0) as N by (apply Rgt_not_eq, Rmult_lt_0_compat; auto). apply Rmult_eq_reg_l in F; auto.
  assert (v * (a * c + b * d) = 0) as F3. { replace (v * (a * c + b * d)) with (a * (v * c) + b * (v * d)) by ring. rewrite <- F1. replace (v * c) with (- (l * b)) by lra. ring. }
  apply Rmult_integral in F3. repeat split; lra.
Qed.
Lemma axes_similar th h s e e' x y a b t x' y' a' b' t' : thr_ok th -> similar h s -> symM (em e) -> hEll th h e = Ok e' ->
  describes (em e) x y a b t -> describes (em e') x' y' a' b' t' -> a' = s * a /\ b' = s * b.
Proof.
  intros Ht Hs S H D D'. pose proof (hEll_sym _ _ _ _ H S) as S'. pose proof Hs as (Ha & Ps & _).
  pose proof (area_affine th h e e' x y a b t x' y' a' b' t' Ht Ha S H D D') as Ar.
  destruct (affine_inv th h e e' Ht Ha S H) as (L & W & I2 & I3). destruct (similar_cols h s W Hs) as (C1 & C2 & C3).
  assert (0 < m22 h * m22 h) as PW by (apply Rsqr_pos_lt in W; exact W). assert (0 < s * s) as Ps2 by (apply Rmult_lt_0_compat; auto).
  assert (0 < s * s * (m22 h * m22 h)) as PV by (apply Rmult_lt_0_compat; auto).
  destruct (cols_rows (m00 h) (m01 h) (m10 h) (m11 h) _ PV C1 C2 C3) as (R1 & R2 & R3 & RL).
  assert (m00 (em e) + m11 (em e) = s * s * (m22 h * m22 h) * (m00 (em e') + m11 (em e'))) as Tr.
  { pose proof (hEll_quad th h e e' (mkH 1 0 0) Ht H) as Q1. pose proof (hEll_quad th h e e' (mkH 0 1 0) Ht H) as Q2. destruct Ha as (A0 & A1). destruct S' as (S1 & S2 & S3).
    unfold quadH, matMulH in Q1, Q2. cbn [h0 h1 h2] in Q1, Q2. revert Q1 Q2. rnum. rewrite A0, A1, S1, S2, S3. intros Q1 Q2.
    set (A := m00 (em e')) in *. set (B := m01 (em e')) in *. set (C := m11 (em e')) in *.
    transitivity (A * (m00 h * m00 h + m01 h * m01 h) + 2 * B * (m00 h * m10 h + m01 h * m11 h) + C * (m10 h * m10 h + m11 h * m11 h)); [|rewrite R1, R2, R3; ring]. lra. }
  assert (Rabs (detLin h) = s * s) as Dl.
  { unfold detLin. apply Rsqr_inj; [apply Rabs_pos|lra|]. rewrite <- Rsqr_abs. unfold Rsqr. set (l := m00 h * m11 h - m01 h * m10 h) in *.
    replace (l / (m22 h * m22 h) * (l / (m22 h * m22 h))) with (l * l / (m22 h * m22 h * (m22 h * m22 h))) by (field; auto). rewrite RL. field. auto. }
  rewrite Dl in Ar.
  destruct (describes_init _ _ _ _ _ _ S D) as (k & Hk & E). destruct (describes_init _ _ _ _ _ _ S' D') as (k' & Hk' & E'). destruct D as (Hab & _). destruct D' as (Hab' & _).
  rewrite E, E' in I2, I3, Tr. destruct (init_inv x y a b t k) as (J2 & J3 & J1). destruct (init_inv x' y' a' b' t' k') as (K2 & K3 & K1). rewrite J1, K1 in Tr. rewrite J2, K2, RL in I2.
  set (v := s * s * (m22 h * m22 h)) in *. assert (0 < a * b) as Q by (apply Rmult_lt_0_compat; lra).
  (* k = v s² k' *)
  assert (k = v * (s * s) * k') as Ek.
  { assert (k * k * (a * a * (b * b)) = v * (s * s) * k' * (v * (s * s) * k') * (a * a * (b * b))) as X.
    { rewrite I2. replace (a' * a' * (b' * b')) with ((a' * b') * (a' * b')) by ring. rewrite Ar. ring. }
    apply Rmult_eq_reg_r in X; [|apply Rgt_not_eq; replace (a * a * (b * b)) with (a * b * (a * b)) by ring; apply Rmult_lt_0_compat; auto].
    apply Rsqr_inj; [lra| |exact X]. apply Rlt_le, Rmult_lt_0_compat; auto. apply Rmult_lt_0_compat; auto. }
  assert (a' * a' + b' * b' = s * s * (a * a + b * b)) as Sm.
  { rewrite Ek in Tr. apply (Rmult_eq_reg_l (v * k')); [|apply Rgt_not_eq, Rmult_lt_0_compat; auto]. lra. }
  assert (a' + b' = s * (a + b)) as E1.
  { apply Rsqr_inj; unfold Rsqr; [lra|apply Rmult_le_pos; lra|]. transitivity (a' * a' + b' * b' + 2 * (a' * b')); [ring|]. rewrite Sm, Ar. ring. }
  assert (a' - b' = s * (a - b)) as E2.
  { apply Rsqr_inj; unfold Rsqr; [lra|apply Rmult_le_pos; lra|]. transitivity (a' * a' + b' * b' - 2 * (a' * b')); [ring|]. rewrite Sm, Ar. ring. }
  lra.
Qed.
