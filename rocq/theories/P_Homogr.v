(** * Proofs about matrices and homographies *)

From Coq Require Import Reals ZArith List Bool Lra Lia Psatz.
From Verif Require Import Num M_LP M_Homogr S_Geom S_Homogr P_LP P_LP2 P_LP3.
Import ListNotations.
Local Open Scope R_scope.
Implicit Types (th : thrs R) (l : line R) (p q : pt R) (h u v : hpt R) (m a b : mat R) (o c : hobj R).

Ltac munf := unfold matMulH, matMulL, matMul, matMap, matTranspose, adjugate, determ, det2, matEye, det3 in *;
  cbn [m00 m01 m02 m10 m11 m12 m20 m21 m22 h0 h1 h2 la lb lc] in *; rnum.

Lemma determ_det3 m : determ m = det3 m.
Proof. munf. ring. Qed.
Definition scaleM (k : R) m : mat R := matMap (fun e => k * e) m.
Definition scaleH (k : R) h : hpt R := mkH (k * h0 h) (k * h1 h) (k * h2 h).

Lemma mat_eq m a : m00 m = m00 a -> m01 m = m01 a -> m02 m = m02 a -> m10 m = m10 a -> m11 m = m11 a ->
  m12 m = m12 a -> m20 m = m20 a -> m21 m = m21 a -> m22 m = m22 a -> m = a.
Proof. destruct m, a; cbn; intros; subst; reflexivity. Qed.
Lemma hpt_eq u v : h0 u = h0 v -> h1 u = h1 v -> h2 u = h2 v -> u = v.
Proof. destruct u, v; cbn; intros; subst; reflexivity. Qed.

Lemma matMulH_mul a b h : matMulH (matMul a b) h = matMulH a (matMulH b h).
Proof. apply hpt_eq; munf; ring. Qed.
Lemma matMul_assoc a b (c : mat R) : matMul (matMul a b) c = matMul a (matMul b c).
Proof. apply mat_eq; munf; ring. Qed.
Lemma matMulH_scale k m h : matMulH (scaleM k m) h = scaleH k (matMulH m h).
Proof. apply hpt_eq; unfold scaleM, scaleH; munf; ring. Qed.
Lemma matMulH_scaleH k m h : matMulH m (scaleH k h) = scaleH k (matMulH m h).
Proof. apply hpt_eq; unfold scaleH; munf; ring. Qed.
Lemma matMulH_eye h : matMulH matEye h = h.
Proof. apply hpt_eq; munf; ring. Qed.
Lemma adj_mul m h : matMulH (adjugate m) (matMulH m h) = scaleH (det3 m) h.
Proof. apply hpt_eq; unfold scaleH; munf; ring. Qed.
Lemma mul_adj m h : matMulH m (matMulH (adjugate m) h) = scaleH (det3 m) h.
Proof. apply hpt_eq; unfold scaleH; munf; ring. Qed.

Lemma ptOfH_scale k h : k <> 0 -> ptOfH (scaleH k h) = ptOfH h.
Proof.
  intros Hk. unfold ptOfH, scaleH; cbn [h0 h1 h2]; rnum.
  destruct (Reqb (h2 h) 0) eqn:E; rclean.
  - rewrite E, Rmult_0_r. now rewrite (proj2 (Reqb_spec 0 0) eq_refl).
  - rewrite (proj2 (Reqb_false (k * h2 h) 0)).
    + f_equal. f_equal; field; auto.
    + apply Rmult_integral_contrapositive_currified; auto.
Qed.
Lemma ptOfH_inv h p : ptOfH h = Ok p -> h2 h <> 0 /\ h = scaleH (h2 h) (hOfPt p).
Proof.
  unfold ptOfH; rnum. destruct (Reqb (h2 h) 0) eqn:E; [discriminate|]; rclean. intros [= <-].
  split; auto. apply hpt_eq; unfold scaleH, hOfPt; cbn [h0 h1 h2 px py]; rnum; field; auto.
Qed.
Lemma ptOfH_of p : ptOfH (hOfPt p) = Ok p.
Proof.
  unfold ptOfH, hOfPt; cbn [h0 h1 h2]; rnum. rewrite (proj2 (Reqb_false 1 0)) by lra.
  f_equal. destruct p as [x y]; cbn [px py]. f_equal; field.
Qed.
Lemma ptOfH_image m p q : ptOfH (matMulH m (hOfPt p)) = Ok q <-> isImage m p q.
Proof.
  unfold ptOfH, isImage, hOfPt; munf. rewrite !Rmult_1_r.
  destruct (Reqb _ 0) eqn:E; rclean.
  - split; [discriminate|]. intros [H _]. contradiction.
  - split.
    + intros [= <-]. cbn [px py]. auto.
    + intros (_ & A & B). destruct q as [x y]; cbn [px py] in *. now subst.
Qed.

(** Normalisation divides by the (2,2) element. *)
Lemma matNormalize_ok th m : thr_ok th -> nullDenom th <= Rabs (m22 m) ->
  matNormalize th m = Ok (scaleM (/ m22 m) m) /\ m22 m <> 0.
Proof.
  intros Hth H. pose proof (thr_deno th Hth).
  assert (m22 m <> 0). { intros C. rewrite C, Rabs_R0 in H. lra. } split; auto.
  unfold matNormalize; rnum. rewrite (proj2 (Rltb_false _ _) H).
  cbn [m22 matMap]. replace (m22 m / m22 m) with 1 by (field; auto).
  rewrite (proj2 (Rltb_false 1 0)) by lra.
  f_equal. unfold scaleM. apply mat_eq; munf; field; auto.
Qed.
Lemma matNormalize_inv th m a : thr_ok th -> matNormalize th m = Ok a ->
  a = scaleM (/ m22 m) m /\ m22 m <> 0 /\ nullDenom th <= Rabs (m22 m).
Proof.
  intros Hth H. destruct (Rlt_dec (Rabs (m22 m)) (nullDenom th)) as [L|L].
  - unfold matNormalize in H; rnum. rewrite (proj2 (Rltb_spec _ _) L) in H. discriminate.
  - apply Rnot_lt_le in L. destruct (matNormalize_ok th m Hth L) as [E N]. rewrite E in H.
    injection H as <-. auto.
Qed.
Lemma matNormalize_throw th m : matNormalize th m = Throw <-> Rabs (m22 m) < nullDenom th.
Proof.
  unfold matNormalize; rnum. destruct (Rltb _ _) eqn:E; rclean; split; intros; auto; try discriminate; lra.
Qed.

Lemma matInverse_inv th m a : thr_ok th -> matInverse th m = Ok a ->
  det3 m <> 0 /\ a = scaleM (/ det3 m) (adjugate m).
Proof.
  intros Hth. unfold matInverse. rewrite determ_det3. rnum. destruct (Rltb _ _) eqn:E; [discriminate|].
  rclean. intros [= <-]. pose proof (thr_dete th Hth).
  assert (det3 m <> 0). { intros C. rewrite C, Rabs_R0 in E. lra. } split; auto.
  unfold scaleM, matMap. apply mat_eq; cbn [m00 m01 m02 m10 m11 m12 m20 m21 m22]; unfold Rdiv; apply Rmult_comm.
Qed.

(** The matrix of an inverted homography is a non-zero multiple of the adjugate. *)
Lemma hInverse_inv th o o' : thr_ok th -> hInverse th o = (Ok tt, o') ->
  exists k, k <> 0 /\ det3 (hm o) <> 0 /\ hm o' = scaleM k (adjugate (hm o)) /\ m22 (hm o') = 1
            /\ hasChanged o' = true /\ isNorm o' = true /\ hmt o' = hmt o.
Proof.
  intros Hth H. unfold hInverse in H.
  destruct (matInverse th (hm o)) as [mi| |] eqn:E; try discriminate.
  destruct (matInverse_inv th _ _ Hth E) as [Hd Hmi].
  unfold hNormalize in H. cbn [hm hmt] in H.
  destruct (matNormalize th mi) as [mn| |] eqn:En; cbn [bind] in H; try discriminate.
  injection H as <-. destruct (matNormalize_inv th _ _ Hth En) as (Hmn & H22 & _).
  exists (/ m22 mi * / det3 (hm o)).
  split; [|split; [|split; [|split]]]; cbn [hm hasChanged isNorm hmt]; auto.
  - apply Rmult_integral_contrapositive_currified; apply Rinv_neq_0_compat; auto.
  - rewrite Hmn. rewrite Hmi at 2. apply mat_eq; unfold scaleM, matMap; cbn [m00 m01 m02 m10 m11 m12 m20 m21 m22]; ring.
  - rewrite Hmn. unfold scaleM, matMap; cbn [m22]. field; auto.
Qed.
Lemma scaleH_scaleH k j h : scaleH k (scaleH j h) = scaleH (k * j) h.
Proof. apply hpt_eq; unfold scaleH; cbn [h0 h1 h2]; ring. Qed.

Lemma inverse_round_trip th o o' h p : thr_ok th -> hInverse th o = (Ok tt, o') -> ptOfH h = Ok p ->
  ptOfH (hApplyPt o' (hApplyPt o h)) = Ok p /\ ptOfH (hApplyPt o (hApplyPt o' h)) = Ok p.
Proof.
  intros Hth H Hp. destruct (hInverse_inv th o o' Hth H) as (k & Hk & Hd & E & _).
  unfold hApplyPt. rewrite E, !matMulH_scale, !matMulH_scaleH, adj_mul, mul_adj, !scaleH_scaleH.
  rewrite !ptOfH_scale; auto; apply Rmult_integral_contrapositive_currified; auto.
Qed.
Lemma inverse_image th o o' p q : thr_ok th -> hInverse th o = (Ok tt, o') ->
  (isImage (hm o) p q <-> isImage (hm o') q p).
Proof.
  intros Hth H. rewrite <- !ptOfH_image. split; intros A.
  - destruct (ptOfH_inv _ _ A) as [N E].
    destruct (inverse_round_trip th o o' (hOfPt p) p Hth H (ptOfH_of p)) as [B _].
    unfold hApplyPt in B. rewrite E, matMulH_scaleH, ptOfH_scale in B; auto.
  - destruct (ptOfH_inv _ _ A) as [N E].
    destruct (inverse_round_trip th o o' (hOfPt q) q Hth H (ptOfH_of q)) as [_ B].
    unfold hApplyPt in B. rewrite E, matMulH_scaleH, ptOfH_scale in B; auto.
Qed.

(** ** Product *)
Lemma hMul_inv th o o2 c : thr_ok th -> hMul th o o2 = Ok c ->
  m22 (matMul (hm o) (hm o2)) <> 0 /\ hm c = scaleM (/ m22 (matMul (hm o) (hm o2))) (matMul (hm o) (hm o2))
  /\ isNorm c = true /\ hasChanged c = true /\ hmt c = None.
Proof.
  intros Hth H. unfold hMul, hNormalize in H. cbn [hm hmt] in H.
  destruct (matNormalize th _) as [mn| |] eqn:En; cbn [bind] in H; try discriminate.
  injection H as <-. destruct (matNormalize_inv th _ _ Hth En) as (-> & H22 & _). auto.
Qed.
Lemma hMul_compose th o o2 c h : thr_ok th -> hMul th o o2 = Ok c ->
  ptOfH (hApplyPt c h) = ptOfH (hApplyPt o (hApplyPt o2 h)).
Proof.
  intros Hth H. destruct (hMul_inv th o o2 c Hth H) as (N & E & _).
  unfold hApplyPt. rewrite E, matMulH_scale, ptOfH_scale by (apply Rinv_neq_0_compat; auto).
  now rewrite matMulH_mul.
Qed.
Lemma scaleM_mul_l k a b : matMul (scaleM k a) b = scaleM k (matMul a b).
Proof. apply mat_eq; unfold scaleM; munf; ring. Qed.
Lemma scaleM_mul_r k a b : matMul a (scaleM k b) = scaleM k (matMul a b).
Proof. apply mat_eq; unfold scaleM; munf; ring. Qed.
Lemma scaleM_norm k m : k <> 0 -> m22 m <> 0 -> scaleM (/ m22 (scaleM k m)) (scaleM k m) = scaleM (/ m22 m) m.
Proof.
  intros. apply mat_eq; unfold scaleM, matMap; cbn [m00 m01 m02 m10 m11 m12 m20 m21 m22]; field; auto.
Qed.
Lemma m22_scale k m : m22 (scaleM k m) = k * m22 m. Proof. reflexivity. Qed.
Lemma hMul_assoc th x y z xy yz r1 r2 : thr_ok th ->
  hMul th x y = Ok xy -> hMul th xy z = Ok r1 -> hMul th y z = Ok yz -> hMul th x yz = Ok r2 -> hm r1 = hm r2.
Proof.
  intros Hth A B C D.
  destruct (hMul_inv _ _ _ _ Hth A) as (N1 & E1 & _). destruct (hMul_inv _ _ _ _ Hth B) as (N2 & E2 & _).
  destruct (hMul_inv _ _ _ _ Hth C) as (N3 & E3 & _). destruct (hMul_inv _ _ _ _ Hth D) as (N4 & E4 & _).
  rewrite E1, scaleM_mul_l in E2, N2. rewrite E3, scaleM_mul_r in E4, N4.
  rewrite m22_scale in N2, N4.
  rewrite E2, E4, !scaleM_norm; auto; try (apply Rinv_neq_0_compat; auto).
  - now rewrite matMul_assoc.
  - intros Z. apply N4. rewrite Z. ring.
  - intros Z. apply N2. rewrite Z. ring.
Qed.

(** ** Transposed inverse and lines *)

(** The matrix the code multiplies lines with, recomputed from the current matrix. *)
Definition freshHmt th m : res (mat R) :=
  match hInverse th (mkHobj m false true None) with
  | (Ok _, hi) => Ok (matTranspose (hm hi)) | (Throw, _) => Throw | (Undef, _) => Undef end.
Lemma freshHmt_inv th m mi : thr_ok th -> freshHmt th m = Ok mi ->
  exists k, k <> 0 /\ det3 m <> 0 /\ forall l, matMulL mi l = scaleL k (imageLine m l).
Proof.
  intros Hth H. unfold freshHmt in H.
  destruct (hInverse th _) as [[[]| |] hi] eqn:E; try discriminate. injection H as <-.
  destruct (hInverse_inv th _ _ Hth E) as (k & Hk & Hd & Em & _). cbn [hm] in *.
  exists k. repeat split; auto. intros l. rewrite Em. unfold scaleM, scaleL, imageLine; munf. f_equal; ring.
Qed.
Lemma imageLine_incidence m l h : onLH (imageLine m l) (matMulH m h) <-> det3 m * (la l * h0 h + lb l * h1 h + lc l * h2 h) = 0.
Proof.
  unfold onLH, imageLine; munf.
  match goal with |- ?a = 0 <-> ?b = 0 => replace a with b by ring end. tauto.
Qed.

Lemma onLH_scale k l h : k <> 0 -> (onLH (scaleL k l) h <-> onLH l h).
Proof.
  intros Hk. unfold onLH, scaleL; cbn [la lb lc].
  replace (k * la l * h0 h + k * lb l * h1 h + k * lc l * h2 h) with (k * (la l * h0 h + lb l * h1 h + lc l * h2 h)) by ring.
  split; [intros H; apply Rmult_integral in H; tauto|intros ->; ring].
Qed.
Lemma hypot_sqrt x y : hypot x y = sqrt (x * x + y * y). Proof. reflexivity. Qed.
Lemma zoneFree_scale th k l : k <> 0 -> zoneFree th l -> zoneFree th (scaleL k l).
Proof.
  intros Hk [H|H]; [left|right]; unfold scaleL; cbn [la lb].
  - rewrite H. ring.
  - rewrite <- hypot_sqrt, hypot_scale, Rabs_mult. rewrite <- hypot_sqrt in H.
    pose proof (Rabs_pos k). nra.
Qed.
Lemma lnorm_onLH th l l' h : thr_ok th -> lnorm th l = Ok l' -> zoneFree th l -> (onLH l' h <-> onLH l h).
Proof.
  intros Hth H Z. destruct (lnorm_inv th l l' Hth H) as (Hs & Ha & Hu & Hp & Hb & [(k & Hk & Hk2 & ->)|(Hf & _)]).
  - now apply onLH_scale.
  - exfalso. pose proof (thr_deps th Hth). pose proof (thr_deno th Hth).
    unfold zoneFree in Z. rewrite <- hypot_sqrt in Z. rewrite Ha in Hf.
    destruct Z as [Z|Z].
    + rewrite Z, Rabs_R0 in Hf. unfold Rdiv in Hf. lra.
    + assert (nullDenom th <= Rabs (la l) / hypot (la l) (lb l)); [|lra].
      apply Rmult_le_reg_r with (hypot (la l) (lb l)); [lra|].
      unfold Rdiv. rewrite Rmult_assoc, Rinv_l by lra. lra.
Qed.
