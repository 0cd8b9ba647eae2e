(** * Proofs about points and lines *)

From Coq Require Import Reals ZArith List Bool Lra Lia Psatz.
From Verif Require Import Num M_LP S_Geom.
Local Open Scope R_scope.
Implicit Types (th : thrs R) (l m : line R) (p q r : pt R).

Lemma sqp x : 0 <= x * x.
Proof. apply Rle_0_sqr. Qed.
Lemma sum_sq_zero x y : x * x + y * y = 0 -> x = 0 /\ y = 0.
Proof. intros H. pose proof (sqp x). pose proof (sqp y). split; apply Rsqr_0_uniq; unfold Rsqr; lra. Qed.
Lemma div1 x : x / 1 = x.
Proof. field. Qed.
Lemma hypot_sq a b : hypot a b * hypot a b = a * a + b * b.
Proof. unfold hypot; rnum. apply sqrt_sqrt. nra. Qed.
Lemma hypot_nonneg a b : 0 <= hypot a b.
Proof. unfold hypot; rnum. apply sqrt_pos. Qed.
Lemma hypot_pos a b : a <> 0 \/ b <> 0 -> 0 < hypot a b.
Proof.
  intros H. unfold hypot; rnum. apply sqrt_lt_R0.
  assert (0 <= a * a) by nra. assert (0 <= b * b) by nra.
  destruct H as [H|H]; [assert (0 < a * a) by nra|assert (0 < b * b) by nra]; lra.
Qed.
Lemma hypot_scale k a b : hypot (k * a) (k * b) = Rabs k * hypot a b.
Proof.
  unfold hypot; rnum. rewrite <- (sqrt_Rsqr_abs k), <- sqrt_mult_alt by apply Rle_0_sqr.
  f_equal. unfold Rsqr. ring.
Qed.
Lemma hypot_opp a b : hypot (- a) (- b) = hypot a b.
Proof. unfold hypot; rnum. f_equal; ring. Qed.
Lemma hypot_zero a b : hypot a b = 0 -> a = 0 /\ b = 0.
Proof.
  intros H. pose proof (hypot_sq a b) as E. rewrite H in E.
  assert (0 <= a * a) by nra. assert (0 <= b * b) by nra. split; nra.
Qed.
Lemma hypot_unit a b : a * a + b * b = 1 -> hypot a b = 1.
Proof. intros H. unfold hypot; rnum. rewrite H. apply sqrt_1. Qed.
Lemma distPP_edist p q : distPP p q = edist p q.
Proof. reflexivity. Qed.
Lemma edist_sym p q : edist p q = edist q p.
Proof. unfold edist, Rsqr. f_equal. ring. Qed.
Lemma edist_pos p q : 0 <= edist p q.
Proof. apply sqrt_pos. Qed.
Lemma edist_refl p : edist p p = 0.
Proof. unfold edist, Rsqr. rewrite <- sqrt_0. f_equal. ring. Qed.
Lemma edist_zero p q : edist p q = 0 -> p = q.
Proof.
  destruct p as [x y], q as [u v]; unfold edist; cbn; intros H.
  apply sqrt_eq_0 in H; [|apply Rplus_le_le_0_compat; apply Rle_0_sqr]. unfold Rsqr in H.
  apply sum_sq_zero in H. destruct H.
  f_equal; lra.
Qed.
Lemma edist_sq p q : edist p q * edist p q = (px p - px q) * (px p - px q) + (py p - py q) * (py p - py q).
Proof. unfold edist. apply sqrt_sqrt. apply Rplus_le_le_0_compat; apply Rle_0_sqr. Qed.

(** ** Line normalisation *)

Definition scaleL (k : R) (l : line R) : line R := mkL (k * la l) (k * lb l) (k * lc l).

Lemma lnorm_inv th l l' : thr_ok th -> lnorm th l = Ok l' ->
  let s := hypot (la l) (lb l) in
  dblEpsilon th < s /\ la l' = Rabs (la l) / s /\ unitL l' /\ 0 <= la l'
  /\ (la l' < nullDenom th -> 0 <= lb l')
  /\ ((exists k, k <> 0 /\ Rabs k = / s /\ l' = scaleL k l)
      \/ (0 < la l' < nullDenom th /\ exists k, k <> 0 /\ Rabs k = / s /\ k * lb l < 0 /\
            l' = mkL (k * la l) (- (k * lb l)) (- (k * lc l)))).
Proof.
  intros Hth H s. unfold lnorm in H. fold s in H. rnum.
  destruct (Rleb s (dblEpsilon th)) eqn:E; [discriminate|].
  rclean. cbn [la lb lc] in H.
  pose proof (thr_deps th Hth). pose proof (thr_deno th Hth).
  assert (Hs : 0 < s) by lra.
  assert (Hss : s * s = la l * la l + lb l * lb l) by apply hypot_sq.
  assert (Hu : (la l / s) * (la l / s) + (lb l / s) * (lb l / s) = 1).
  { replace ((la l / s) * (la l / s) + (lb l / s) * (lb l / s)) with ((la l * la l + lb l * lb l) / (s * s)) by (field; lra).
    rewrite <- Hss. field. lra. }
  assert (Hinv : 0 < / s) by (apply Rinv_0_lt_compat; lra).
  assert (Hk1 : Rabs (/ s) = / s) by (apply Rabs_right; lra).
  assert (Hk2 : Rabs (- / s) = / s) by (rewrite Rabs_Ropp; auto).
  split; [exact E|].
  destruct (Rltb (la l / s) 0) eqn:Ea; rclean; cbn [la lb lc] in H.
  - assert (Hla : la l < 0).
    { apply Rnot_le_lt. intros C. assert (0 <= la l / s) by (unfold Rdiv; nra). lra. }
    assert (Habs : Rabs (la l) / s = - (la l / s)) by (rewrite Rabs_left by lra; field; lra).
    assert (Hpos : 0 < - (la l / s)) by lra.
    destruct (Rltb (Rabs (- (la l / s))) (nullDenom th)) eqn:Ed; rclean.
    + rewrite Rabs_right in Ed by lra.
      destruct (Rltb (- (lb l / s)) 0) eqn:Eb; rclean; injection H as <-; unfold unitL, scaleL; cbn [la lb lc].
      * repeat split; try lra.
        right. split; [lra|]. exists (- / s). repeat split; auto; try lra.
        all: first [ f_equal; field; lra | unfold Rdiv in *; lra ].
      * repeat split; try lra. left. exists (- / s). repeat split; auto; try lra. f_equal; field; lra.
    + injection H as <-; unfold unitL, scaleL; cbn [la lb lc].
      rewrite Rabs_right in Ed by lra.
      repeat split; try lra. left. exists (- / s). repeat split; auto; try lra. f_equal; field; lra.
  - assert (Hla : 0 <= la l).
    { apply Rnot_lt_le. intros C. assert (la l / s < 0) by (unfold Rdiv; nra). lra. }
    assert (Habs : Rabs (la l) / s = la l / s) by (rewrite Rabs_right by lra; field; lra).
    destruct (Rltb (Rabs (la l / s)) (nullDenom th)) eqn:Ed; rclean.
    + rewrite Rabs_right in Ed by lra.
      destruct (Rltb (lb l / s) 0) eqn:Eb; rclean; injection H as <-; unfold unitL, scaleL; cbn [la lb lc].
      * repeat split; try lra.
        destruct (Req_dec (la l) 0) as [Z|NZ].
        { left. exists (- / s). repeat split; auto; try lra. rewrite Z. f_equal; field; lra. }
        right. split.
        { split; [|lra]. unfold Rdiv. nra. }
        exists (/ s). repeat split; auto; try lra.
        all: first [ f_equal; field; lra | unfold Rdiv in *; lra ].
      * repeat split; try lra. left. exists (/ s). repeat split; auto; try lra. f_equal; field; lra.
    + injection H as <-; unfold unitL, scaleL; cbn [la lb lc].
      rewrite Rabs_right in Ed by lra.
      repeat split; try lra. left. exists (/ s). repeat split; auto; try lra. f_equal; field; lra.
Qed.

Lemma lnorm_throw th l : lnorm th l = Throw <-> hypot (la l) (lb l) <= dblEpsilon th.
Proof.
  unfold lnorm; rnum. destruct (Rleb _ _) eqn:E; rclean; split; intros; auto; try discriminate.
  lra.
Qed.
Lemma lnorm_not_undef th l : lnorm th l <> Undef.
Proof. unfold lnorm. destruct (_ <=? _)%num; discriminate. Qed.
Lemma lnorm_ok th l : dblEpsilon th < hypot (la l) (lb l) -> exists l', lnorm th l = Ok l'.
Proof.
  intros H. destruct (lnorm th l) eqn:E; eauto.
  - apply lnorm_throw in E. lra.
  - now apply lnorm_not_undef in E.
Qed.

Lemma scale_sameLine k l : k <> 0 -> sameLine (scaleL k l) l.
Proof.
  intros Hk p. unfold onL, scaleL; cbn [la lb lc].
  replace (k * la l * px p + k * lb l * py p + k * lc l) with (k * (la l * px p + lb l * py p + lc l)) by ring.
  split; intros H.
  - apply Rmult_integral in H. tauto.
  - rewrite H; ring.
Qed.

(** Outside the zone 0 < |a| < nullDenom the stored line is the same point set. *)
Lemma lnorm_same th l l' : thr_ok th -> lnorm th l = Ok l' ->
  la l = 0 \/ nullDenom th * hypot (la l) (lb l) <= Rabs (la l) -> sameLine l' l.
Proof.
  intros Hth H Hz. destruct (lnorm_inv th l l' Hth H) as (Hs & Ha & _ & _ & _ & [(k & Hk & _ & ->)|[Hf _]]).
  - now apply scale_sameLine.
  - exfalso. pose proof (thr_deps th Hth). set (s := hypot (la l) (lb l)) in *.
    rewrite Ha in Hf. destruct Hz as [Z|Z].
    + rewrite Z, Rabs_R0 in Hf. unfold Rdiv in Hf. rewrite Rmult_0_l in Hf. lra.
    + assert (nullDenom th <= Rabs (la l) / s).
      { apply Rmult_le_reg_r with s; [lra|]. unfold Rdiv. rewrite Rmult_assoc, Rinv_l by lra. lra. }
      lra.
Qed.

Lemma mkL_eta l : mkL (la l) (lb l) (lc l) = l.
Proof. destruct l; reflexivity. Qed.

Lemma lnorm_scale th l l' k : thr_ok th -> k <> 0 -> lnorm th l = Ok l' ->
  dblEpsilon th < Rabs k * hypot (la l) (lb l) -> lnorm th (scaleL k l) = Ok l'.
Proof.
  intros Hth Hk H Hs. unfold lnorm in *. cbn [la lb lc scaleL].
  rewrite hypot_scale. rnum.
  set (s := hypot (la l) (lb l)) in *.
  destruct (Rleb s (dblEpsilon th)) eqn:E; [discriminate|].
  destruct (Rleb (Rabs k * s) (dblEpsilon th)) eqn:E'; rclean; [lra|].
  cbn [la lb lc] in *. rewrite <- H; clear H. f_equal.
  pose proof (thr_deps th Hth). assert (0 < s) by lra.
  assert (Hd : forall x, k * x / (Rabs k * s) = x / s \/ k * x / (Rabs k * s) = - (x / s)) by
   (intros x; unfold Rabs; destruct (Rcase_abs k); [right|left]; field; lra).
  assert (HK : (forall x, k * x / (Rabs k * s) = x / s) \/ (forall x, k * x / (Rabs k * s) = - (x / s))).
  { unfold Rabs; destruct (Rcase_abs k); [right|left]; intros; field; lra. }
  assert (Hab : la l / s = 0 -> lb l / s <> 0).
  { intros A B. assert (A' : la l = 0) by (apply (Rmult_eq_reg_r (/ s)); [unfold Rdiv in A; lra|apply Rinv_neq_0_compat; lra]).
    assert (B' : lb l = 0) by (apply (Rmult_eq_reg_r (/ s)); [unfold Rdiv in B; lra|apply Rinv_neq_0_compat; lra]).
    assert (Q : s * s = la l * la l + lb l * lb l) by apply hypot_sq. clearbody s. rewrite A', B' in Q.
    assert (0 < s * s) by (apply Rmult_lt_0_compat; lra). lra. }
  destruct HK as [HK|HK]; rewrite !HK; [reflexivity|].
  set (a := la l / s) in *; set (b := lb l / s) in *; set (c := lc l / s) in *. clearbody a b c. clear Hd HK.
  pose proof (thr_deno th Hth).
  destruct (Rtotal_order a 0) as [L|[Z|G]].
  - rewrite (proj2 (Rltb_spec a 0) L), (proj2 (Rltb_false (- a) 0)) by lra. reflexivity.
  - subst a. rewrite Ropp_0, (proj2 (Rltb_false 0 0)) by lra. cbn [la lb lc].
    rewrite Rabs_R0, (proj2 (Rltb_spec 0 (nullDenom th))) by lra.
    specialize (Hab eq_refl).
    destruct (Rltb b 0) eqn:B1; destruct (Rltb (- b) 0) eqn:B2; rclean; try (f_equal; ring); try (exfalso; lra).
  - rewrite (proj2 (Rltb_false a 0)), (proj2 (Rltb_spec (- a) 0)) by lra. cbn [la lb lc].
    rewrite !Ropp_involutive. reflexivity.
Qed.

Lemma lnorm_unit th l l' : thr_ok th -> lnorm th l = Ok l' -> unitL l' /\ 0 <= la l'.
Proof. intros Hth H. destruct (lnorm_inv th l l' Hth H) as (_ & _ & Hu & Hp & _). auto. Qed.

Lemma lnorm_idem th l l' : thr_ok th -> lnorm th l = Ok l' -> lnorm th l' = Ok l'.
Proof.
  intros Hth H. destruct (lnorm_inv th l l' Hth H) as (_ & _ & Hu & Hp & Hb & _).
  unfold lnorm. rewrite (hypot_unit _ _ Hu). rnum. pose proof (thr_deps th Hth).
  destruct (Rleb 1 (dblEpsilon th)) eqn:E; rclean; [lra|]. cbn [la lb lc].
  rewrite !div1.
  destruct (Rltb (la l') 0) eqn:Ea; rclean; [lra|]. cbn [la lb lc].
  destruct (Rltb (Rabs (la l')) (nullDenom th)) eqn:Ed; rclean.
  - rewrite Rabs_right in Ed by lra. specialize (Hb Ed).
    destruct (Rltb (lb l') 0) eqn:Eb; rclean; [lra|]. now rewrite mkL_eta.
  - now rewrite mkL_eta.
Qed.
