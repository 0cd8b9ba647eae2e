(** * Lines through two points in binary64: construction (proofs) *)

From Coq Require Import Reals Lra ZArith Floats Bool Lia List.
From Verif Require Import Num FloatFuns M_LP M_Seg S_Geom S_Float S_FloatZ S_FloatR S_FloatL P_Float P_FloatZ P_FloatZ2 P_FloatR P_FloatE P_FloatE2 P_FloatL.
Import ListNotations.
Local Open Scope R_scope.

Lemma leb_neg x y : fin x -> fin y -> (x <=? y)%float = negb (y <? x)%float.
Proof. intros Fx Fy. rewrite leb_val, ltb_val by (now apply fin_num). apply Z.leb_antisym. Qed.
Lemma hyp_dist p q : PrimFloat.sqrt ((py p - py q) * (py p - py q) + (px q - px p) * (px q - px p))%float = distPP (N := FNum) p q.
Proof. unfold distPP, hypot. cbn [nsub nmul nadd nsqrt FNum]. rewrite fadd_comm. rewrite (mul_sq (px q - px p)%float (px p - px q)%float) by apply sub_opp. reflexivity. Qed.

Lemma tiny_away x : notTiny x -> away x.
Proof. intros [->|H]; [now left|right]. apply Rle_trans with (2 := H). apply pinv. lia. Qed.
Lemma box_mod M p : M <= 2 ^ 100 -> inBox M p -> moderate p.
Proof. intros H [F [A B]]. assert (2 ^ 100 <= 2 ^ 500) by (apply pw2_le; lia). split; [exact F|]. split; lra. Qed.

Lemma edist_pos_M p q M : M <= 2 ^ 100 -> inBox M p -> inBox M q -> notTinyP p q -> 0 < edist (toRp p) (toRp q) -> rangeM M /\ / 2 ^ 100 <= edist (toRp p) (toRp q).
Proof.
  intros HM [_ [A B]] [_ [C D]] [Tx Ty] P. assert (HH : forall x y, Rabs x <= M -> Rabs y <= M -> / 2 ^ 100 <= Rabs (x - y) -> / 2 ^ 101 <= M).
  { intros x y Hx Hy H. pose proof (Rabs_triang x (- y)) as T. rewrite Rabs_Ropp in T. replace (x + - y) with (x - y) in T by ring.
    assert (E : / 2 ^ 101 = / 2 ^ 100 * / 2 ^ 1) by (rewrite pinv_mult; reflexivity). rewrite pow_1 in E. lra. }
  assert (G : forall x y, R_sqrt.sqrt (Rsqr x + Rsqr y) >= Rabs x /\ R_sqrt.sqrt (Rsqr x + Rsqr y) >= Rabs y).
  { intros x y. rewrite <- !sqrt_Rsqr_abs. pose proof (Rle_0_sqr x). pose proof (Rle_0_sqr y). split; apply Rle_ge, sqrt_le_1_alt; lra. }
  destruct (G (toR (px p) - toR (px q)) (toR (py p) - toR (py q))) as [G1 G2]. unfold edist, toRp in *. cbn [px py] in *.
  destruct Tx as [Zx|Tx].
  - destruct Ty as [Zy|Ty].
    + rewrite Zx, Zy in P. unfold Rsqr in P. rewrite !Rmult_0_l, Rplus_0_l, sqrt_0 in P. lra.
    + split; [|lra]. split; [|exact HM]. now apply HH with (toR (py p)) (toR (py q)).
  - split; [|lra]. split; [|exact HM]. now apply HH with (toR (px p)) (toR (px q)).
Qed.

(** The coefficients of the line through two points, up to their common sign. *)
Definition lineBnd (M D : R) : R := (42 / 10 * (M * M / D) + 108 / 10 * M) * ulp1.
Definition isLineOf (p q : pt float) (M : R) (l : line float) : Prop :=
  let D := edist (toRp p) (toRp q) in
  fin (la l) /\ fin (lb l) /\ fin (lc l) /\ exists s, (s = 1 \/ s = -1) /\
  Rabs (toR (la l) - s * ((toR (py p) - toR (py q)) / D)) <= 82 / 10 * ulp1 /\
  Rabs (toR (lb l) - s * ((toR (px q) - toR (px p)) / D)) <= 82 / 10 * ulp1 /\
  Rabs (toR (lc l) - s * ((toR (px p) * toR (py q) - toR (py p) * toR (px q)) / D)) <= lineBnd M D.

Lemma det_le M x1 y1 x2 y2 D : 0 < D -> D * D = (x1 - x2) * (x1 - x2) + (y1 - y2) * (y1 - y2) -> Rabs x1 <= M -> Rabs y1 <= M -> Rabs ((x1 * y2 - y1 * x2) / D) <= 3 / 2 * M.
Proof.
  intros PD E Bx By. set (A := y1 - y2) in *. set (B := x2 - x1). replace (x1 * y2 - y1 * x2) with (- (A * x1 + B * y1)) by (unfold A, B; ring).
  assert (E2 : D * D = A * A + B * B) by (rewrite E; unfold B; ring). clearbody A B.
  unfold Rdiv. rewrite Rabs_mult, Rabs_Ropp, (Rabs_right (/ D)) by (left; now apply Rinv_0_lt_compat). apply Rmult_le_reg_r with D; [exact PD|]. rewrite Rmult_assoc, Rinv_l, Rmult_1_r by lra.
  pose proof (Rabs_pos A) as PA. pose proof (Rabs_pos B) as PB. assert (E3 : D * D = Rabs A * Rabs A + Rabs B * Rabs B) by (rewrite <- !Rabs_mult, !Rabs_right by nra; exact E2).
  assert (L : Rabs A + Rabs B <= 3 / 2 * D).
  { pose proof (Rle_0_sqr (Rabs A - Rabs B)) as Q. unfold Rsqr in Q. assert ((Rabs A + Rabs B) * (Rabs A + Rabs B) <= 2 * (D * D)) by lra. nra. }
  assert (PM : 0 <= M) by (apply Rle_trans with (2 := Bx); apply Rabs_pos).
  eapply Rle_trans; [apply Rabs_triang|]. rewrite !Rabs_mult. assert (Rabs A * Rabs x1 <= Rabs A * M) by (apply Rmult_le_compat_l; lra). assert (Rabs B * Rabs y1 <= Rabs B * M) by (apply Rmult_le_compat_l; lra).
  assert ((Rabs A + Rabs B) * M <= 3 / 2 * D * M) by (apply Rmult_le_compat_r; lra). lra.
Qed.

Lemma lineOf_f th p q M : M <= 2 ^ 100 -> inBox M p -> inBox M q -> notTinyP p q -> thrF th -> clearSlope th p q -> ptEq (N := FNum) th p q = false ->
  0 < edist (toRp p) (toRp q) -> exists l, lineOf (N := FNum) th p q = Ok l /\ isLineOf p q M l.
Proof.
  intros HM Ip Iq T (Fd & Fe & Fn & He) Hs Ne PD. destruct (edist_pos_M p q M HM Ip Iq T PD) as [RM DL].
  pose proof (box_mod M p HM Ip) as Mp. pose proof (box_mod M q HM Iq) as Mq. destruct T as [Tx Ty].
  destruct (dist_err p q Mp Mq (tiny_away _ Tx) (tiny_away _ Ty)) as [_ [Fs Es]]. 
  set (D := edist (toRp p) (toRp q)) in *. rewrite (Rabs_right D) in Es by lra.
  assert (ED : D * D = (toR (px p) - toR (px q)) * (toR (px p) - toR (px q)) + (toR (py p) - toR (py q)) * (toR (py p) - toR (py q))).
  { unfold D, edist, toRp. cbn [px py]. unfold Rsqr. apply sqrt_sqrt. apply Rplus_le_le_0_compat; apply Rle_0_sqr. }
  unfold lineOf. rewrite Ne. unfold ptEq in Ne. cbn [nltb FNum] in Ne. unfold crossPP, hOfPt, lnorm, hypot. cbn [h0 h1 h2 la lb lc nsub nmul nadd nsqrt nleb nltb nabs nopp ndiv FNum].
  change (@nZ _ FNum 1) with 1%float. change (@nZ _ FNum 0) with 0%float. rewrite !mul_one, !one_mul, hyp_dist. set (sq := distPP (N := FNum) p q) in *.
  destruct Ip as [[Fx1 Fy1] [Bx1 By1]], Iq as [[Fx2 Fy2] [Bx2 By2]].
  assert (Lsq : toR (dblEpsilon th) < toR sq).
  { apply Rlt_le_trans with (toR (nullDistance th)); [lra|]. apply toR_ge in Ne; try assumption. }
  assert (H : (sq <=? dblEpsilon th)%float = false) by (rewrite leb_neg by assumption; apply negb_false_iff; now apply toR_lt). rewrite H. clear H.
  pose proof u_range as U. pose proof eta_ulp as N1. destruct (eta_M M RM) as [N2 N3]. destruct RM as [ML _]. pose proof (pinv_pos 101) as P101. assert (PM : 0 < M) by lra.
  assert (K0 : 1 <= 2 ^ 100) by (apply pow_R1_Rle; lra). assert (K1 : 2 ^ 100 * 2 ^ 100 = 2 ^ 200) by (rewrite <- pow_add; reflexivity). assert (K2 : 1024 * 2 ^ 400 = 2 ^ 410) by (change 410%nat with (10 + 400)%nat; rewrite pow_add; lra).
  assert (K3 : 2 ^ 410 <= 2 ^ 1000) by (apply pw2_le; lia). assert (K4 : 2 ^ 200 <= 2 ^ 400) by (apply pw2_le; lia). assert (K5 : 2 ^ 200 * 2 ^ 100 = 2 ^ 300) by (rewrite <- pow_add; reflexivity). assert (K6 : 2 ^ 300 <= 2 ^ 400) by (apply pw2_le; lia). assert (K7 : 2 ^ 100 <= 2 ^ 200) by (apply pw2_le; lia).
  assert (UB : forall y, 0 <= y -> ulp1 * y <= y) by (intros y Hy; rewrite <- (Rmult_1_l y) at 2; apply Rmult_le_compat_r; lra).
  assert (MM : 0 < M * M <= 2 ^ 200) by (split; [apply Rmult_lt_0_compat; lra|rewrite <- K1; apply Rmult_le_compat; lra]).
  assert (iD : 0 < / D <= 2 ^ 100) by (split; [now apply Rinv_0_lt_compat|]; rewrite <- (Rinv_inv (2 ^ 100)); apply Rinv_le_contravar; [apply pinv_pos|exact DL]).
  assert (S1 : 999 / 1000 * D <= toR sq) by (assert (6 * ulp1 * D <= / 1000 * D) by (apply Rmult_le_compat_r; lra); revert Es; unfold Rabs; destruct (Rcase_abs _); lra).
  assert (iS : 0 < / toR sq <= 2 * / D).
  { split; [apply Rinv_0_lt_compat; lra|]. replace (2 * / D) with (/ (D / 2)) by (field; lra). apply Rinv_le_contravar; lra. }
  assert (Dif : forall x y, fin x -> fin y -> Rabs (toR x) <= M -> Rabs (toR y) <= M -> fin (x - y)%float /\ Rabs (toR (x - y)%float - (toR x - toR y)) <= ulp1 * Rabs (toR x - toR y) /\ Rabs (toR (x - y)%float) <= 4 * M).
  { intros x y Fx Fy Bx By. assert (2 ^ 100 <= 2 ^ 500) by (apply pw2_le; lia). destruct (diff_mod x y Fx Fy ltac:(lra) ltac:(lra)) as (F & E & _). split; [exact F|]. split; [exact E|].
    pose proof (abs_diff _ _ _ E). pose proof (Rabs_triang (toR x) (- toR y)) as T. rewrite Rabs_Ropp in T. replace (toR x + - toR y) with (toR x - toR y) in T by ring. pose proof (UB _ (Rabs_pos (toR x - toR y))). lra. }
  destruct (Dif _ _ Fy1 Fy2 By1 By2) as (Fa & Ea & Ba). destruct (Dif _ _ Fx2 Fx1 Bx2 Bx1) as (Fb & Eb & Bb). clear Dif.
  set (a := (py p - py q)%float) in *. set (b := (px q - px p)%float) in *.
  assert (Pr : forall x y, fin x -> fin y -> Rabs (toR x) <= M -> Rabs (toR y) <= M -> fin (x * y)%float /\ Rabs (toR (x * y)%float - toR x * toR y) <= 1001 / 1000 * (ulp1 * (M * M)) /\ Rabs (toR (x * y)%float) <= 3 * (M * M)).
  { intros x y Fx Fy Bx By. assert (B : Rabs (toR x * toR y) <= M * M) by (rewrite Rabs_mult; apply Rmult_le_compat; try apply Rabs_pos; assumption).
    destruct (op_err _ _ (mul_rnd x y Fx Fy) ltac:(lra)) as [F E]. assert (ulp1 * Rabs (toR x * toR y) <= ulp1 * (M * M)) by (apply Rmult_le_compat_l; lra). pose proof (UB (M * M) ltac:(lra)). pose proof (abs_diff _ _ _ E). split; [exact F|]. split; lra. }
  destruct (Pr _ _ Fx1 Fy2 Bx1 By2) as (Fp & Ep & Bp). destruct (Pr _ _ Fy1 Fx2 By1 Bx2) as (Fq & Eq & Bq). clear Pr.
  set (P := (px p * py q)%float) in *. set (Q := (py p * px q)%float) in *.
  assert (BPQ : Rabs (toR P - toR Q) <= 6 * (M * M)) by (pose proof (Rabs_triang (toR P) (- toR Q)) as T; rewrite Rabs_Ropp in T; unfold Rminus; lra).
  destruct (op_err _ _ (sub_rnd P Q Fp Fq) ltac:(lra)) as [Fc Ec]. set (c := (P - Q)%float) in *.
  set (C := toR (px p) * toR (py q) - toR (py p) * toR (px q)).
  assert (BC : Rabs C <= 2 * (M * M)).
  { unfold C, Rminus. eapply Rle_trans; [apply Rabs_triang|]. rewrite Rabs_Ropp, !Rabs_mult. assert (Rabs (toR (px p)) * Rabs (toR (py q)) <= M * M) by (apply Rmult_le_compat; try apply Rabs_pos; assumption). assert (Rabs (toR (py p)) * Rabs (toR (px q)) <= M * M) by (apply Rmult_le_compat; try apply Rabs_pos; assumption). lra. }
  assert (EPQ : Rabs (toR P - toR Q - C) <= 2002 / 1000 * (ulp1 * (M * M))).
  { replace (toR P - toR Q - C) with ((toR P - toR (px p) * toR (py q)) + - (toR Q - toR (py p) * toR (px q))) by (unfold C; ring). eapply Rle_trans; [apply Rabs_triang|]. rewrite Rabs_Ropp. lra. }
  assert (EC : Rabs (toR c - C) <= 41 / 10 * (ulp1 * (M * M))).
  { replace (toR c - C) with ((toR c - (toR P - toR Q)) + (toR P - toR Q - C)) by ring. eapply Rle_trans; [apply Rabs_triang|].
    assert (Rabs (toR P - toR Q) <= 2 * (M * M) + 2002 / 1000 * (ulp1 * (M * M))) by (pose proof (abs_diff _ _ _ EPQ); lra).
    assert (ulp1 * Rabs (toR P - toR Q) <= ulp1 * (2 * (M * M) + 2002 / 1000 * (ulp1 * (M * M)))) by (apply Rmult_le_compat_l; lra).
    assert (ulp1 * (ulp1 * (M * M)) <= / 1000000 * (ulp1 * (M * M))) by (apply Rmult_le_compat_r; [apply Rmult_le_pos; lra|lra]). assert (0 <= ulp1 * (M * M)) by (apply Rmult_le_pos; lra). lra. }
  assert (Bc : Rabs (toR c) <= 7 * (M * M)) by (pose proof (abs_diff _ _ _ EC); pose proof (UB (M * M) ltac:(lra)); lra).
  assert (QB : forall x k, Rabs (toR x) <= k -> k <= 7 * 2 ^ 200 -> Rabs (toR x / toR sq) <= 2 ^ 1000).
  { intros x k Hx Hk. unfold Rdiv. rewrite Rabs_mult, (Rabs_right (/ toR sq)) by lra. assert (Rabs (toR x) * / toR sq <= 7 * 2 ^ 200 * (2 * 2 ^ 100)) by (apply Rmult_le_compat; try apply Rabs_pos; lra). lra. }
  destruct (op_err _ _ (div_rnd a sq Fa Fs ltac:(lra)) ltac:(apply (QB a (4 * M)); lra)) as [Fa' Qa].
  destruct (op_err _ _ (div_rnd b sq Fb Fs ltac:(lra)) ltac:(apply (QB b (4 * M)); lra)) as [Fb' Qb].
  destruct (op_err _ _ (div_rnd c sq Fc Fs ltac:(lra)) ltac:(apply (QB c (7 * (M * M))); lra)) as [Fc' Qc].
  set (A := toR (py p) - toR (py q)) in *. set (B := toR (px q) - toR (px p)) in *.
  pose proof (quot_err ulp1 eta _ _ D _ _ _ ltac:(lra) PD ltac:(lra) Ea Es Qa) as Ga. pose proof (quot_err ulp1 eta _ _ D _ _ _ ltac:(lra) PD ltac:(lra) Eb Es Qb) as Gb. pose proof (quot_err ulp1 eta _ _ D _ _ _ ltac:(lra) PD ltac:(lra) EC Es Qc) as Gc.
  assert (nA : Rabs (A / D) <= 1 /\ Rabs (B / D) <= 1).
  { assert (NN : forall x y, D * D = x * x + y * y -> Rabs (x / D) <= 1).
    { intros x y E. unfold Rdiv. rewrite Rabs_mult, (Rabs_right (/ D)) by lra. apply Rmult_le_reg_r with D; [exact PD|]. rewrite Rmult_assoc, Rinv_l, Rmult_1_r, Rmult_1_l by lra. apply Rsqr_incr_0_var; [|lra]. unfold Rsqr. rewrite <- Rabs_mult, Rabs_right by nra. nra. }
    split; [apply NN with B|apply NN with A]; rewrite ED; unfold A, B; ring. }
  destruct nA as [nA nB]. pose proof (det_le M _ _ _ _ D PD ED Bx1 By1) as nC. fold C in nC.
  assert (iA : ulp1 * Rabs A / D = ulp1 * Rabs (A / D)) by (unfold Rdiv; rewrite Rabs_mult, (Rabs_right (/ D)) by lra; ring).
  assert (iB : ulp1 * Rabs B / D = ulp1 * Rabs (B / D)) by (unfold Rdiv; rewrite Rabs_mult, (Rabs_right (/ D)) by lra; ring).
  rewrite iA in Ga. rewrite iB in Gb. assert (ulp1 * Rabs (A / D) <= ulp1 * 1) by (apply Rmult_le_compat_l; lra). assert (ulp1 * Rabs (B / D) <= ulp1 * 1) by (apply Rmult_le_compat_l; lra).
  assert (iC : 41 / 10 * (ulp1 * (M * M)) / D = 41 / 10 * ulp1 * (M * M / D)) by (field; lra). rewrite iC in Gc.
  assert (uC : ulp1 * Rabs (C / D) <= ulp1 * (3 / 2 * M)) by (apply Rmult_le_compat_l; lra).
  assert (pMD : 0 <= ulp1 * (M * M / D)) by (apply Rmult_le_pos; [lra|apply Rmult_le_pos; lra]).
  assert (Wa : Rabs (toR (a / sq)%float - A / D) <= 82 / 10 * ulp1) by lra. assert (Wb : Rabs (toR (b / sq)%float - B / D) <= 82 / 10 * ulp1) by lra.
  assert (Wc : Rabs (toR (c / sq)%float - C / D) <= lineBnd M D) by (unfold lineBnd; lra). clear Ga Gb Gc.
  set (a' := (a / sq)%float) in *. set (b' := (b / sq)%float) in *. set (c' := (c / sq)%float) in *.
  assert (Neg : forall x y e, fin x -> Rabs (toR x - y) <= e -> fin (- x)%float /\ Rabs (toR (- x)%float - -1 * y) <= e).
  { intros x y e Fx E. destruct (neg_toR x Fx) as [F ->]. split; [exact F|]. replace (- toR x - -1 * y) with (- (toR x - y)) by ring. now rewrite Rabs_Ropp. }
  (* the line after the first change of sign *)
  assert (St : forall l2 : line float, (exists s, (s = 1 \/ s = -1) /\ fin (la l2) /\ fin (lb l2) /\ fin (lc l2) /\ Rabs (toR (la l2) - s * (A / D)) <= 82 / 10 * ulp1 /\ Rabs (toR (lb l2) - s * (B / D)) <= 82 / 10 * ulp1 /\ Rabs (toR (lc l2) - s * (C / D)) <= lineBnd M D) ->
     (A = 0 -> toR (la l2) = 0) ->
     exists l, Ok (if (abs (la l2) <? nullDenom th)%float then if (lb l2 <? 0)%float then mkL (la l2) (- lb l2)%float (- lc l2)%float else l2 else l2) = Ok l /\ isLineOf p q M l).
  { intros l2 (s & Hss & F1 & F2 & F3 & G1 & G2 & G3) Z.
    assert (I2 : isLineOf p q M l2) by (split; [exact F1|]; split; [exact F2|]; split; [exact F3|]; exists s; fold D A B C; auto).
    destruct (abs (la l2) <? nullDenom th)%float eqn:Hn; [|eexists; split; [reflexivity|exact I2]]. destruct (lb l2 <? 0)%float; [|eexists; split; [reflexivity|exact I2]].
    assert (A0 : A = 0).
    { destruct Hs as [Hs|Hs]; [unfold A; lra|]. exfalso. fold D A in Hs. destruct (abs_toR _ F1) as [F4 E4]. apply toR_lt in Hn; try assumption. rewrite E4 in Hn.
      assert (V : Rabs (A / D) <= Rabs (toR (la l2)) + 82 / 10 * ulp1).
      { rewrite Rabs_minus_sym in G1. pose proof (abs_diff _ _ _ G1) as V. rewrite Rabs_mult in V. replace (Rabs s) with 1 in V; [lra|]. destruct Hss as [->| ->]; [now rewrite Rabs_R1|rewrite Rabs_left; lra]. }
      assert (toR (nullDenom th) + 9 * ulp1 <= Rabs (A / D)); [|lra]. unfold Rdiv. rewrite Rabs_mult, (Rabs_right (/ D)) by lra. apply Rmult_le_reg_r with D; [exact PD|]. rewrite (Rmult_assoc (Rabs A)), Rinv_l, Rmult_1_r by lra. exact Hs. }
    destruct (Neg _ _ _ F2 G2) as [F5 G5]. destruct (Neg _ _ _ F3 G3) as [F6 G6].
    eexists. split; [reflexivity|]. split; [exact F1|]. split; [exact F5|]. split; [exact F6|]. exists (-1 * s). cbn [la lb lc]. fold D A B C. split; [destruct Hss as [->| ->]; [right|left]; lra|].
    split; [|split; [rewrite Rmult_assoc; exact G5|rewrite Rmult_assoc; exact G6]]. rewrite (Z A0), A0. unfold Rdiv. rewrite Rmult_0_l, Rmult_0_r, Rminus_0_r, Rabs_R0. lra. }
  assert (Z0 : A = 0 -> toR a' = 0).
  { intro A0. assert (Ta : toR a = 0) by (rewrite A0, Rabs_R0, Rmult_0_r, Rminus_0_r in Ea; revert Ea; unfold Rabs; destruct (Rcase_abs _); lra).
    assert (R0 : rnd (sf a') 0) by (replace 0 with (toR a / toR sq) by (rewrite Ta; unfold Rdiv; ring); apply div_rnd; [exact Fa|exact Fs|lra]).
    pose proof (rel_err a' 0 R0 Fa' (or_introl eq_refl)) as E. rewrite Rabs_R0, Rmult_0_r, Rminus_0_r in E. revert E; unfold Rabs; destruct (Rcase_abs _); lra. }
  apply St.
  - destruct (a' <? 0)%float.
    + destruct (Neg _ _ _ Fa' Wa) as [F1 G1]. destruct (Neg _ _ _ Fb' Wb) as [F2 G2]. destruct (Neg _ _ _ Fc' Wc) as [F3 G3]. exists (-1). cbn [la lb lc]. repeat (split; [tauto|]). exact G3.
    + exists 1. cbn [la lb lc]. rewrite !Rmult_1_l. repeat (split; [tauto|]). exact Wc.
  - intro A0. destruct (a' <? 0)%float; cbn [la]; [destruct (neg_toR a' Fa') as [_ ->]; rewrite Z0 by assumption; ring|now apply Z0].
Qed.

(** Computed distance of any point of the box to that line. *)
Lemma lineDist_of p q M l r : M <= 2 ^ 100 -> inBox M p -> inBox M q -> notTinyP p q -> 0 < edist (toRp p) (toRp q) -> isLineOf p q M l -> inBox M r ->
  fin (lineDist (N := FNum) l r) /\ Rabs (toR (lineDist (N := FNum) l r) - distLine (toRp p) (toRp q) (toRp r)) <= lineErr M (edist (toRp p) (toRp q)).
Proof.
  intros HM Ip Iq T PD (Fa & Fb & Fc & s & Hs & Ea & Eb & Ec) [Fr [Bx By]]. destruct (edist_pos_M p q M HM Ip Iq T PD) as [RM DL]. set (D := edist (toRp p) (toRp q)) in *.
  assert (ED : D * D = (toR (px p) - toR (px q)) * (toR (px p) - toR (px q)) + (toR (py p) - toR (py q)) * (toR (py p) - toR (py q))).
  { unfold D, edist, toRp. cbn [px py]. unfold Rsqr. apply sqrt_sqrt. apply Rplus_le_le_0_compat; apply Rle_0_sqr. }
  destruct Ip as [_ [Bx1 By1]]. pose proof (det_le M _ _ _ _ D PD ED Bx1 By1) as nC.
  assert (ss : s * s = 1) by (destruct Hs as [->| ->]; ring). assert (as1 : Rabs s = 1) by (destruct Hs as [->| ->]; [apply Rabs_R1|rewrite Rabs_left; lra]).
  pose proof u_range as U. destruct RM as [ML MH]. pose proof (pinv_pos 101). assert (PM : 0 < M) by lra.
  assert (Hw : lineBnd M D <= 2 ^ 400).
  { unfold lineBnd. assert (iD : 0 < / D <= 2 ^ 100) by (split; [now apply Rinv_0_lt_compat|]; rewrite <- (Rinv_inv (2 ^ 100)); apply Rinv_le_contravar; [apply pinv_pos|exact DL]).
    assert (K1 : 2 ^ 100 * 2 ^ 100 = 2 ^ 200) by (rewrite <- pow_add; reflexivity). assert (K5 : 2 ^ 200 * 2 ^ 100 = 2 ^ 300) by (rewrite <- pow_add; reflexivity). assert (K6 : 2 ^ 300 <= 2 ^ 400) by (apply pw2_le; lia). assert (K7 : 2 ^ 100 <= 2 ^ 300) by (apply pw2_le; lia).
    assert (MM : 0 < M * M <= 2 ^ 200) by (split; [apply Rmult_lt_0_compat; lra|rewrite <- K1; apply Rmult_le_compat; lra]).
    assert (M * M / D <= 2 ^ 300) by (rewrite <- K5; apply Rmult_le_compat; lra). assert (0 <= M * M / D) by (apply Rmult_le_pos; lra).
    set (X := M * M / D) in *. clearbody X. assert ((42 / 10 * X + 108 / 10 * M) * ulp1 <= (42 / 10 * X + 108 / 10 * M) * / 1000000) by (apply Rmult_le_compat_l; lra). lra. }
  pose proof (fun e1 e2 => lineDist_f l r _ _ _ M (lineBnd M D) Fa Fb Fc Fr (conj ML MH) Hw e1 e2 Ea Eb Ec Bx By) as L. destruct L as [F E].
  - replace (s * ((toR (py p) - toR (py q)) / D) * (s * ((toR (py p) - toR (py q)) / D)) + s * ((toR (px q) - toR (px p)) / D) * (s * ((toR (px q) - toR (px p)) / D)))
      with (s * s * ((toR (px p) - toR (px q)) * (toR (px p) - toR (px q)) + (toR (py p) - toR (py q)) * (toR (py p) - toR (py q))) / (D * D)) by (field; lra). rewrite ss, <- ED. field. lra.
  - rewrite Rabs_mult, as1, Rmult_1_l. exact nC.
  - split; [exact F|].
    replace (Rabs (s * ((toR (py p) - toR (py q)) / D) * toR (px r) + s * ((toR (px q) - toR (px p)) / D) * toR (py r) + s * ((toR (px p) * toR (py q) - toR (py p) * toR (px q)) / D))) with (distLine (toRp p) (toRp q) (toRp r)) in E.
    + apply Rle_trans with (1 := E). unfold lineErr, lineBnd. assert (0 < ulp1 * M) by (apply Rmult_lt_0_compat; lra). assert (0 <= ulp1 * (M * M / D)) by (apply Rmult_le_pos; [lra|]; apply Rmult_le_pos; [nra|left; now apply Rinv_0_lt_compat]). lra.
    + unfold distLine, cross3, toRp. cbn [px py]. fold (toRp p) (toRp q). fold D.
      replace (s * ((toR (py p) - toR (py q)) / D) * toR (px r) + s * ((toR (px q) - toR (px p)) / D) * toR (py r) + s * ((toR (px p) * toR (py q) - toR (py p) * toR (px q)) / D)) with (s * ((toR (px q) - toR (px p)) * (toR (py r) - toR (py p)) - (toR (py q) - toR (py p)) * (toR (px r) - toR (px p))) * / D) by (field; lra).
      rewrite !Rabs_mult, as1, Rmult_1_l, (Rabs_right (/ D)) by (left; now apply Rinv_0_lt_compat). reflexivity.
Qed.
