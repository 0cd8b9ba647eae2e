(** * Lemmas on ellipses *)

From Coq Require Import Reals Lra Lia List Bool ZArith Machin.
From Verif Require Import Num M_LP M_Homogr M_Seg M_Circle M_Poly M_FRect M_Ellipse S_Geom S_Homogr S_Circle S_FRect S_Misc S_Ellipse P_LP P_LP2 P_Homogr P_BB P_Poly7.
Import ListNotations.
Local Open Scope R_scope.

Lemma sc1 t : sin t * sin t + cos t * cos t = 1.
Proof. exact (sin2_cos2 t). Qed.
Lemma csqrt_ok x : 0 <= x -> csqrt x = Ok (sqrt x).
Proof. intros H. unfold csqrt. rnum. destruct (Rltb x 0) eqn:E; auto. apply Rltb_spec in E. lra. Qed.
Lemma csqrt_sq y x : 0 <= y -> x = y * y -> csqrt x = Ok y.
Proof. intros H ->. rewrite csqrt_ok by (apply Rmult_le_pos; auto). now rewrite sqrt_square. Qed.
Lemma cdiv_ok x y : y <> 0 -> @cdiv R RNum x y = Ok (x / y).
Proof. intros H. unfold cdiv. rnum. destruct (Reqb y 0) eqn:E; auto. apply Reqb_spec in E. contradiction. Qed.

(** The quadratic form of the matrix of an ellipse. *)
Lemma conic_init x0 y0 a b t p : a <> 0 -> b <> 0 -> conic (ellInit x0 y0 a b t) p = a * a * (b * b) * (ellForm x0 y0 a b t p - 1).
Proof.
  intros A B. unfold conic, quadH, ellInit, ellForm, Rsqr. cbn [m00 m01 m02 m10 m11 m12 m20 m21 m22 h0 h1 h2]. rnum.
  field. auto.
Qed.
(** Scaled matrix of an ellipse. *)
Lemma conic_scale k m p : conic (scaleM k m) p = k * conic m p.
Proof. unfold conic, quadH, scaleM, matMap. cbn. ring. Qed.

Section Params.
  Variables (x0 y0 a b t k : R).
  Hypotheses (Ha : 0 < b <= a) (Hk : k <> 0).
  Let m := scaleM k (ellInit x0 y0 a b t).
  Let s := sin t. Let c := cos t.
  Let A := a * a * (s * s) + b * b * (c * c).
  Let B := 2 * (b * b - a * a) * s * c.
  Let C := a * a * (c * c) + b * b * (s * s).
  Lemma S1 : s * s = 1 - c * c.
  Proof. pose proof (sc1 t). unfold s, c. lra. Qed.
  Lemma mA : m00 m = k * A. Proof. reflexivity. Qed.
  Lemma mC : m11 m = k * C. Proof. reflexivity. Qed.
  Lemma mB : 2 * m01 m = k * B. Proof. unfold m, scaleM, matMap, ellInit. cbn [m01]. rnum. unfold B, s, c. field. Qed.
  Lemma mD : 2 * m02 m = k * (-2 * A * x0 - B * y0).
  Proof. unfold m, scaleM, matMap, ellInit. cbn [m02]. rnum. fold s c. fold A. fold B. field. Qed.
  Lemma mE' : 2 * m12 m = k * (- B * x0 - 2 * C * y0).
  Proof. unfold m, scaleM, matMap, ellInit. cbn [m12]. rnum. fold s c. fold B. fold C. field. Qed.
  Lemma mF : m22 m = k * (A * x0 * x0 + B * x0 * y0 + C * y0 * y0 - a * a * (b * b)). Proof. reflexivity. Qed.
  Lemma disc : B * B - 4 * A * C = - (4 * (a * a) * (b * b)).
  Proof. unfold A, B, C. pose proof S1 as S. clearbody s c. clear -S.
    replace ((2 * (b * b - a * a) * s * c) * (2 * (b * b - a * a) * s * c) - 4 * (a * a * (s * s) + b * b * (c * c)) * (a * a * (c * c) + b * b * (s * s)))
      with (- (4 * (a * a) * (b * b)) * ((s * s + c * c) * (s * s + c * c))) by ring. rewrite S. ring. Qed.
  Lemma sumAC : A + C = a * a + b * b.
  Proof. unfold A, C. pose proof S1 as S. rewrite S. ring. Qed.
  Lemma diffAC : (A - C) * (A - C) + B * B = (a * a - b * b) * (a * a - b * b).
  Proof. pose proof disc as D. pose proof sumAC as S. replace ((A - C) * (A - C) + B * B) with ((A + C) * (A + C) + (B * B - 4 * A * C)) by ring. rewrite D, S. ring. Qed.

  (** Parameters computed from the scaled matrix: when the factor is negative, the half-axes are exchanged. *)
  Lemma params_scaled th : nullDenom th <= k * k * (4 * (a * a) * (b * b)) ->
    exists th', ellParams th (mkE m false) =
      Ok (mkPar x0 y0 th' (sin th') (cos th') (if Rlt_dec 0 k then a else b) (if Rlt_dec 0 k then b else a)
            (if Rlt_dec 0 k then a * a else b * b) (if Rlt_dec 0 k then b * b else a * a)) /\
      th' = (if Rltb (Rabs (k * B)) (nullDenom th) then (if Rltb (k * C) (k * A) then 90 else 0)
             else atan ((k * C - k * A - Rabs k * (a * a - b * b)) / (k * B))).
  Proof.
    intros Hd. unfold ellParams. cbn [em]. rnum. rewrite mA, mC, mB, mD, mE', mF. cbv zeta.
    pose proof disc as D. pose proof sumAC as S. pose proof diffAC as Q.
    assert (0 < a * a /\ 0 < b * b) as [Pa Pb] by (split; apply Rmult_lt_0_compat; lra).
    assert (b * b <= a * a) as Pab by (apply Rmult_le_compat; lra).
    assert (0 < a * a * (b * b)) as Pq by (apply Rmult_lt_0_compat; auto).
    assert (0 < k * k) as Pk by (apply Rsqr_pos_lt in Hk; exact Hk).
    replace (k * B * (k * B) - 4 * (k * A) * (k * C)) with (- (k * k * (4 * (a * a) * (b * b)))) by (replace (k * B * (k * B) - 4 * (k * A) * (k * C)) with (k * k * (B * B - 4 * A * C)) by ring; rewrite D; ring).
    set (dn := k * k * (4 * (a * a) * (b * b))) in *.
    assert (0 < dn) as Pd by (unfold dn; apply Rmult_lt_0_compat; auto; lra).
    rewrite (proj2 (Rltb_false _ _)) by (rewrite Rabs_Ropp, Rabs_right; lra).
    rewrite (csqrt_sq (Rabs k * (a * a - b * b))).
    2:{ apply Rmult_le_pos; [apply Rabs_pos|lra]. }
    2:{ replace (Rabs k * (a * a - b * b) * (Rabs k * (a * a - b * b))) with (Rabs k * Rabs k * ((a * a - b * b) * (a * a - b * b))) by ring.
        rewrite <- Q. rewrite <- Rabs_mult, (Rabs_right (k * k)) by lra. ring. }
    cbn [bind].
    assert (2 * (k * A * (k * (- B * x0 - 2 * C * y0)) * (k * (- B * x0 - 2 * C * y0)) +
              k * C * (k * (-2 * A * x0 - B * y0)) * (k * (-2 * A * x0 - B * y0)) -
              k * B * (k * (-2 * A * x0 - B * y0)) * (k * (- B * x0 - 2 * C * y0)) +
              - dn * (k * (A * x0 * x0 + B * x0 * y0 + C * y0 * y0 - a * a * (b * b)))) = k * (k * k) * (8 * (a * a * (b * b)) * (a * a * (b * b)))) as Cm.
    { unfold dn. replace (4 * (a * a) * (b * b)) with (- (B * B - 4 * A * C)) by lra.
      replace (2 * (k * A * (k * (- B * x0 - 2 * C * y0)) * (k * (- B * x0 - 2 * C * y0)) +
              k * C * (k * (-2 * A * x0 - B * y0)) * (k * (-2 * A * x0 - B * y0)) -
              k * B * (k * (-2 * A * x0 - B * y0)) * (k * (- B * x0 - 2 * C * y0)) +
              - (k * k * - (B * B - 4 * A * C)) * (k * (A * x0 * x0 + B * x0 * y0 + C * y0 * y0 - a * a * (b * b)))))
        with (k * (k * k) * (2 * (- (B * B - 4 * A * C)) * (a * a * (b * b)))) by ring. rewrite D. ring. }
    rewrite Cm.
    assert ((2 * (k * C) * (k * (-2 * A * x0 - B * y0)) - k * B * (k * (- B * x0 - 2 * C * y0))) / - dn = x0) as ->.
    { replace (2 * (k * C) * (k * (-2 * A * x0 - B * y0)) - k * B * (k * (- B * x0 - 2 * C * y0))) with (k * k * (B * B - 4 * A * C) * x0) by ring.
      rewrite D. unfold dn. field. lra. }
    assert ((2 * (k * A) * (k * (- B * x0 - 2 * C * y0)) - k * B * (k * (-2 * A * x0 - B * y0))) / - dn = y0) as ->.
    { replace (2 * (k * A) * (k * (- B * x0 - 2 * C * y0)) - k * B * (k * (-2 * A * x0 - B * y0))) with (k * k * (B * B - 4 * A * C) * y0) by ring.
      rewrite D. unfold dn. field. lra. }
    assert (k * A + k * C = k * (a * a + b * b)) as S' by (rewrite <- S; ring). rewrite S'.
    assert (0 <= k * k * (4 * (a * a * a) * (b * b)) /\ 0 <= k * k * (4 * (a * a) * (b * b * b))) as [N1 N2].
    { split; (apply Rmult_le_pos; [lra|]); repeat apply Rmult_le_pos; lra. }
    assert (- (k * k * (4 * (a * a * a) * (b * b))) / - dn = a) as Ea by (unfold dn; field; lra).
    assert (- (k * k * (4 * (a * a) * (b * b * b))) / - dn = b) as Eb by (unfold dn; field; lra).
    destruct (Rlt_dec 0 k) as [K|K].
    - rewrite (Rabs_right k) by lra.
      rewrite (csqrt_sq (k * k * (4 * (a * a * a) * (b * b)))); [|auto|ring]. cbn [bind].
      rewrite (csqrt_sq (k * k * (4 * (a * a) * (b * b * b)))); [|auto|ring]. cbn [bind]. rewrite Ea, Eb.
      eexists. split; reflexivity.
    - rewrite (Rabs_left k) by lra.
      rewrite (csqrt_sq (k * k * (4 * (a * a) * (b * b * b)))); [|auto|ring]. cbn [bind].
      rewrite (csqrt_sq (k * k * (4 * (a * a * a) * (b * b)))); [|auto|ring]. cbn [bind]. rewrite Ea, Eb.
      eexists. split; reflexivity.
  Qed.
End Params.

Lemma scaleM_1 m : scaleM 1 m = m.
Proof. destruct m. unfold scaleM, matMap. cbn. f_equal; ring. Qed.
Lemma ellParams_flag th e f : em e = em f -> ellParams th e = ellParams th f.
Proof. unfold ellParams. now intros ->. Qed.

(** The coefficient of xy, and the angles that are recovered from the matrix (up to a half turn). *)
Definition coefB (a b t : R) : R := 2 * (b * b - a * a) * sin t * cos t.
Definition angleOK (th : thrs R) (a b t : R) : Prop := sin t = 0 \/ a = b \/ nullDenom th <= Rabs (coefB a b t).

Lemma tan_B a b t : coefB a b t <> 0 ->
  (a * a * (cos t * cos t) + b * b * (sin t * sin t) - (a * a * (sin t * sin t) + b * b * (cos t * cos t)) - (a * a - b * b)) / coefB a b t = tan t.
Proof.
  intros H. unfold coefB, tan in *. pose proof (sc1 t) as S.
  assert (cos t <> 0) by (intros E; apply H; rewrite E; ring). assert (sin t <> 0) by (intros E; apply H; rewrite E; ring).
  assert (b * b - a * a <> 0) by (intros E; apply H; rewrite E; ring).
  replace (a * a * (cos t * cos t) + b * b * (sin t * sin t) - (a * a * (sin t * sin t) + b * b * (cos t * cos t)) - (a * a - b * b))
    with ((b * b - a * a) * (2 * (sin t * sin t))) by (replace (cos t * cos t) with (1 - sin t * sin t) by lra; ring).
  field. auto.
Qed.
Lemma atan_tan_sc t : cos t <> 0 -> let u := atan (tan t) in
  cos u * cos u = cos t * cos t /\ sin u * sin u = sin t * sin t /\ sin u * cos u = sin t * cos t.
Proof.
  intros H u. pose proof (tan_atan (tan t)) as E. fold u in E.
  assert (cos u <> 0) as Hu. { apply Rgt_not_eq, cos_gt_0; unfold u; pose proof (atan_bound (tan t)); lra. }
  unfold tan in E. pose proof (sc1 t) as S. pose proof (sc1 u) as Su.
  assert (sin u * cos t = sin t * cos u) as X. { replace (sin u) with (sin u / cos u * cos u) by (field; auto). rewrite E. field; auto. }
  assert (cos u * cos u = cos t * cos t) as Cc.
  { assert (cos u * cos u * (cos t * cos t + sin t * sin t) = cos t * cos t * (cos u * cos u + sin u * sin u)) as Y.
    { replace (cos u * cos u * (cos t * cos t + sin t * sin t)) with (cos u * cos u * (cos t * cos t) + (sin t * cos u) * (sin t * cos u)) by ring. rewrite <- X. ring. }
    replace (cos t * cos t + sin t * sin t) with 1 in Y by lra. replace (cos u * cos u + sin u * sin u) with 1 in Y by lra. lra. }
  split; auto. split; [lra|].
  apply (Rmult_eq_reg_r (cos t * cos t)); [|intros Z; apply Rmult_integral in Z; tauto].
  replace (sin u * cos u * (cos t * cos t)) with ((sin u * cos t) * (cos u * cos t)) by ring. rewrite X.
  replace (sin t * cos u * (cos u * cos t)) with (sin t * cos t * (cos u * cos u)) by ring. rewrite Cc. reflexivity.
Qed.
Lemma ellInit_sc a b t u : a * a * (sin u * sin u) + b * b * (cos u * cos u) = a * a * (sin t * sin t) + b * b * (cos t * cos t) ->
  a * a * (cos u * cos u) + b * b * (sin u * sin u) = a * a * (cos t * cos t) + b * b * (sin t * sin t) ->
  coefB a b u = coefB a b t -> forall x y, ellInit x y a b u = ellInit x y a b t.
Proof. intros E1 E2 E3 x y. unfold ellInit. rnum. unfold coefB in E3. rewrite E1, E2, E3. reflexivity. Qed.

(** Parameters of an ellipse as constructed. *)
Lemma params_fresh th x0 y0 a b t f : thr_ok th -> 0 < b <= a -> nullDenom th <= 4 * (a * a) * (b * b) -> exists th',
  ellParams th (mkE (ellInit x0 y0 a b t) f) = Ok (mkPar x0 y0 th' (sin th') (cos th') a b (a * a) (b * b)) /\
  th' = (if Rltb (Rabs (coefB a b t)) (nullDenom th)
         then (if Rltb (a * a * (cos t * cos t) + b * b * (sin t * sin t)) (a * a * (sin t * sin t) + b * b * (cos t * cos t)) then 90 else 0)
         else atan (tan t)).
Proof.
  intros Ht Hab Hd. destruct (params_scaled x0 y0 a b t 1 Hab ltac:(lra) th ltac:(lra)) as (u & P & E).
  destruct (Rlt_dec 0 1); [|lra]. rewrite scaleM_1 in P. rewrite (ellParams_flag th _ (mkE (ellInit x0 y0 a b t) false)) by reflexivity.
  exists u. split; auto. rewrite E. rewrite !Rmult_1_l, Rabs_R1, Rmult_1_l. unfold coefB.
  destruct (Rltb (Rabs (2 * (b * b - a * a) * sin t * cos t)) (nullDenom th)) eqn:X; auto. apply Rltb_false in X.
  f_equal. rewrite <- (tan_B a b t); [reflexivity|]. unfold coefB. intros Z. rewrite Z, Rabs_R0 in X. pose proof (thr_deno _ Ht). lra.
Qed.
Lemma params_same th x0 y0 a b t f : thr_ok th -> 0 < b <= a -> nullDenom th <= 4 * (a * a) * (b * b) -> angleOK th a b t -> exists u,
  ellParams th (mkE (ellInit x0 y0 a b t) f) = Ok (mkPar x0 y0 u (sin u) (cos u) a b (a * a) (b * b)) /\
  forall x y, ellInit x y a b u = ellInit x y a b t.
Proof.
  intros Ht Hab Hd Ho. destruct (params_fresh th x0 y0 a b t f Ht Hab Hd) as (u & P & E). exists u. split; auto.
  pose proof (thr_deno _ Ht) as Dn. pose proof (sc1 t) as S.
  assert (b * b <= a * a) as Pab by (apply Rmult_le_compat; lra).
  destruct Ho as [Z|[Z|Z]].
  - assert (coefB a b t = 0) as B0 by (unfold coefB; rewrite Z; ring). rewrite B0, Rabs_R0 in E.
    rewrite (proj2 (Rltb_spec 0 (nullDenom th))) in E by lra. rewrite Z in *.
    replace (cos t * cos t) with 1 in E by lra. rewrite (proj2 (Rltb_false _ _)) in E by lra. subst u.
    apply ellInit_sc; unfold coefB; rewrite ?sin_0, ?cos_0, ?Z; try ring; replace (cos t * cos t) with 1 by lra; ring.
  - subst a. apply ellInit_sc; unfold coefB; [| |ring]; pose proof (sc1 u) as Su.
    + replace (b * b * (sin u * sin u) + b * b * (cos u * cos u)) with (b * b * (sin u * sin u + cos u * cos u)) by ring. rewrite Su.
      replace (b * b * (sin t * sin t) + b * b * (cos t * cos t)) with (b * b * (sin t * sin t + cos t * cos t)) by ring. now rewrite S.
    + replace (b * b * (cos u * cos u) + b * b * (sin u * sin u)) with (b * b * (sin u * sin u + cos u * cos u)) by ring. rewrite Su.
      replace (b * b * (cos t * cos t) + b * b * (sin t * sin t)) with (b * b * (sin t * sin t + cos t * cos t)) by ring. now rewrite S.
  - rewrite (proj2 (Rltb_false _ _)) in E by auto. subst u.
    assert (cos t <> 0) as C0. { intros C. unfold coefB in Z. rewrite C, Rmult_0_r, Rabs_R0 in Z. lra. }
    destruct (atan_tan_sc t C0) as (E1 & E2 & E3). apply ellInit_sc; rewrite ?E1, ?E2; auto.
    unfold coefB. rewrite !Rmult_assoc, E3. reflexivity.
Qed.
Lemma ellForm_same x0 y0 a b t u p : 0 < b <= a -> ellInit x0 y0 a b u = ellInit x0 y0 a b t -> ellForm x0 y0 a b u p = ellForm x0 y0 a b t p.
Proof.
  intros H E. pose proof (conic_init x0 y0 a b t p ltac:(lra) ltac:(lra)) as A. rewrite <- E, conic_init in A by lra.
  apply Rmult_eq_reg_l in A; [lra|]. assert (0 < a * a * (b * b)); [|lra]. repeat apply Rmult_lt_0_compat; lra.
Qed.

(** ** Angle of 90 radians *)
Lemma PI_bounds : 311 / 100 < PI < 315 / 100.
Proof.
  pose proof (PI_2_3_7_ineq 1) as [A B]. cbn [Nat.mul Nat.add sum_f_R0 tg_alt] in A, B. unfold PI_2_3_7_tg, tg_alt, Ratan_seq in A, B. cbn in A, B. lra.
Qed.
Lemma cos90 : cos 90 < 0.
Proof.
  pose proof PI_bounds. replace 90 with (90 - 28 * PI + 2 * INR 14 * PI) by (cbn [INR]; ring). rewrite cos_period. apply cos_lt_0; lra.
Qed.
Lemma sin90 : 0 < sin 90.
Proof.
  pose proof PI_bounds. replace 90 with (90 - 28 * PI + 2 * INR 14 * PI) by (cbn [INR]; ring). rewrite sin_period. apply sin_gt_0; lra.
Qed.

(** The vertical ellipse used as a counter-example. *)
Lemma vert_params f : ellParams thr0 (mkE (ellInit 0 0 2 1 (PI / 2)) f) = Ok (mkPar 0 0 90 (sin 90) (cos 90) 2 1 4 1).
Proof.
  destruct (params_fresh thr0 0 0 2 1 (PI / 2) f thr0_ok ltac:(lra)) as (u & P & E).
  { pose proof (thr_deno _ thr0_ok). lra. }
  rewrite P. unfold coefB in E. rewrite cos_PI2, sin_PI2, Rmult_0_r, Rabs_R0 in E.
  rewrite (proj2 (Rltb_spec _ _)) in E by (pose proof (thr_deno _ thr0_ok); lra). rewrite (proj2 (Rltb_spec _ _)) in E by lra. subst u. repeat f_equal; lra.
Qed.
Lemma ellNew_ge x y a b t : b <= a -> ellNew x y a b t = mkE (ellInit x y a b t) false.
Proof. intros H. unfold ellNew. rnum. now rewrite (proj2 (Rltb_false a b)) by lra. Qed.

(** ** Bounding box *)
Lemma quad_bound u v r s : u * u + v * v <= 1 -> (u * r + v * s) * (u * r + v * s) <= r * r + s * s.
Proof.
  intros H. assert (0 <= (u * s - v * r) * (u * s - v * r)) as Q by (apply Rle_0_sqr).
  replace ((u * r + v * s) * (u * r + v * s)) with ((u * u + v * v) * (r * r + s * s) - (u * s - v * r) * (u * s - v * r)) by ring.
  assert (0 <= r * r + s * s) by (pose proof (Rle_0_sqr r); pose proof (Rle_0_sqr s); unfold Rsqr in *; lra).
  assert ((u * u + v * v) * (r * r + s * s) <= 1 * (r * r + s * s)) by (apply Rmult_le_compat_r; lra). lra.
Qed.
Lemma abs_le_sqrt x y : x * x <= y -> - sqrt y <= x <= sqrt y.
Proof.
  intros H. assert (0 <= y) by (pose proof (Rle_0_sqr x); unfold Rsqr in *; lra).
  assert (Rabs x <= sqrt y) as A by (rewrite <- sqrt_Rsqr_abs; apply sqrt_le_1_alt; exact H).
  unfold Rabs in A. destruct (Rcase_abs x); lra.
Qed.
Section Box.
  Variables (x0 y0 a b t : R).
  Hypothesis (Hab : 0 < b <= a).
  Let vx := a * a * cos t * cos t + b * b * sin t * sin t.
  Let vy := a * a * sin t * sin t + b * b * cos t * cos t.
  Lemma vx_ge : b * b <= vx.
  Proof.
    unfold vx. pose proof (sc1 t). assert (b * b <= a * a) by (apply Rmult_le_compat; lra). assert (0 <= cos t * cos t) by apply Rle_0_sqr.
    replace (a * a * cos t * cos t + b * b * sin t * sin t) with (b * b + (a * a - b * b) * (cos t * cos t)) by (replace (b * b * sin t * sin t) with (b * b * (1 - cos t * cos t)) by (replace (1 - cos t * cos t) with (sin t * sin t) by lra; ring); ring).
    assert (0 <= (a * a - b * b) * (cos t * cos t)) by (apply Rmult_le_pos; lra). lra.
  Qed.
  Lemma vy_ge : b * b <= vy.
  Proof.
    unfold vy. pose proof (sc1 t). assert (b * b <= a * a) by (apply Rmult_le_compat; lra). assert (0 <= sin t * sin t) by apply Rle_0_sqr.
    replace (a * a * sin t * sin t + b * b * cos t * cos t) with (b * b + (a * a - b * b) * (sin t * sin t)) by (replace (b * b * cos t * cos t) with (b * b * (1 - sin t * sin t)) by (replace (1 - sin t * sin t) with (cos t * cos t) by lra; ring); ring).
    assert (0 <= (a * a - b * b) * (sin t * sin t)) by (apply Rmult_le_pos; lra). lra.
  Qed.
  Let box := mkR (mkPt (x0 - sqrt vx) (y0 - sqrt vy)) (mkPt (x0 + sqrt vx) (y0 + sqrt vy)).
  Lemma ell_in_box p : ellForm x0 y0 a b t p <= 1 -> inR box p.
  Proof.
    unfold ellForm, Rsqr. intros H. pose proof (sc1 t) as S.
    set (u := ((px p - x0) * cos t + (py p - y0) * sin t) / a) in *. set (v := ((py p - y0) * cos t - (px p - x0) * sin t) / b) in *.
    assert (px p - x0 = u * (a * cos t) + v * - (b * sin t)) as X.
    { unfold u, v. transitivity ((px p - x0) * (sin t * sin t + cos t * cos t)); [rewrite S; ring|]. field. lra. }
    assert (py p - y0 = u * (a * sin t) + v * (b * cos t)) as Y.
    { unfold u, v. transitivity ((py p - y0) * (sin t * sin t + cos t * cos t)); [rewrite S; ring|]. field. lra. }
    pose proof (abs_le_sqrt _ _ (quad_bound u v (a * cos t) (- (b * sin t)) H)) as BX. pose proof (abs_le_sqrt _ _ (quad_bound u v (a * sin t) (b * cos t) H)) as BY.
    rewrite <- X in BX. rewrite <- Y in BY.
    replace (a * cos t * (a * cos t) + - (b * sin t) * - (b * sin t)) with vx in BX by (unfold vx; ring).
    replace (a * sin t * (a * sin t) + b * cos t * (b * cos t)) with vy in BY by (unfold vy; ring).
    unfold inR, box. cbn [r1 r2 px py]. lra.
  Qed.
  (** The point with parameters (u,v) in the axes. *)
  Let at_ u v := mkPt (x0 + u * (a * cos t) - v * (b * sin t)) (y0 + u * (a * sin t) + v * (b * cos t)).
  Lemma at_on u v : u * u + v * v = 1 -> ellForm x0 y0 a b t (at_ u v) <= 1.
  Proof.
    intros H. unfold ellForm, at_, Rsqr. cbn [px py]. pose proof (sc1 t) as S.
    replace (((x0 + u * (a * cos t) - v * (b * sin t) - x0) * cos t + (y0 + u * (a * sin t) + v * (b * cos t) - y0) * sin t) / a) with (u * (sin t * sin t + cos t * cos t)) by (field; lra).
    replace (((y0 + u * (a * sin t) + v * (b * cos t) - y0) * cos t - (x0 + u * (a * cos t) - v * (b * sin t) - x0) * sin t) / b) with (v * (sin t * sin t + cos t * cos t)) by (field; lra).
    rewrite S. lra.
  Qed.
  Lemma ell_box_small o : (forall p, ellForm x0 y0 a b t p <= 1 -> inR o p) -> forall p, inR box p -> inR o p.
  Proof.
    intros H p Hp. pose proof vx_ge as Gx. pose proof vy_ge as Gy. assert (0 < b * b) as Pb by (apply Rmult_lt_0_compat; lra).
    assert (0 < sqrt vx) as Sx by (apply sqrt_lt_R0; lra). assert (0 < sqrt vy) as Sy by (apply sqrt_lt_R0; lra).
    assert (sqrt vx * sqrt vx = vx) as Qx by (apply sqrt_sqrt; lra). assert (sqrt vy * sqrt vy = vy) as Qy by (apply sqrt_sqrt; lra).
    assert (a * cos t / sqrt vx * (a * cos t / sqrt vx) + - (b * sin t) / sqrt vx * (- (b * sin t) / sqrt vx) = 1) as Ux.
    { transitivity (vx / (sqrt vx * sqrt vx)); [unfold vx; field; fold vx; lra|]. rewrite Qx. field. lra. }
    assert (a * sin t / sqrt vy * (a * sin t / sqrt vy) + b * cos t / sqrt vy * (b * cos t / sqrt vy) = 1) as Uy.
    { transitivity (vy / (sqrt vy * sqrt vy)); [unfold vy; field; fold vy; lra|]. rewrite Qy. field. lra. }
    assert (forall u v, u * u + v * v = 1 -> - u * - u + - v * - v = 1) as Neg by (intros; lra).
    pose proof (H _ (at_on _ _ Ux)) as R1. pose proof (H _ (at_on _ _ (Neg _ _ Ux))) as L1.
    pose proof (H _ (at_on _ _ Uy)) as T1. pose proof (H _ (at_on _ _ (Neg _ _ Uy))) as B1.
    unfold inR, at_ in R1, L1, T1, B1. cbn [px py] in R1, L1, T1, B1.
    assert (a * cos t / sqrt vx * (a * cos t) - - (b * sin t) / sqrt vx * (b * sin t) = sqrt vx) as EX.
    { transitivity (vx / sqrt vx); [unfold vx; field; fold vx; lra|]. rewrite <- Qx at 1. field. lra. }
    assert (a * sin t / sqrt vy * (a * sin t) + b * cos t / sqrt vy * (b * cos t) = sqrt vy) as EY.
    { transitivity (vy / sqrt vy); [unfold vy; field; fold vy; lra|]. rewrite <- Qy at 1. field. lra. }
    unfold inR, box in *. cbn [r1 r2 px py] in *. lra.
  Qed.
  Lemma ell_box : smallestBox (fun p => ellForm x0 y0 a b t p <= 1) box.
  Proof. split; [exact ell_in_box|]. exact ell_box_small. Qed.
End Box.
