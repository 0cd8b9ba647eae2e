(** * The intersection of two circles with integer centers and radii, step by step, in binary64 *)

From Coq Require Import Reals Lra ZArith Floats Bool Lia List.
From Verif Require Import Num FloatFuns M_LP M_Seg M_Poly M_FRect M_Circle S_Geom S_Float S_FloatZ S_FloatR P_LP P_Float P_FloatZ P_FloatZ2 P_FloatR P_FloatE P_FloatE2 P_FloatX P_FloatG C_FloatR C_FloatL C_FloatG P_FloatC P_FloatC2.
Import ListNotations.
Local Open Scope R_scope.


Lemma rnd_val r Y z : rnd (sf r) Y -> fin r -> fin z -> Y = toR z -> toR r = toR z.
Proof. intros H F G E. apply Rle_antisym; [apply rnd_le with (1 := H)|apply rnd_ge with (1 := H)]; auto; lra. Qed.
Lemma zero_fin : fin 0%float /\ toR 0%float = 0.
Proof. assert (R0 : rep 0%float 0) by (change 0%float with (FloatFuns.of_Z 0); apply rep_ofZ; unfold lim; lia). split; [exact (rep_fin _ _ R0)|exact (rep_toR _ _ R0)]. Qed.
Lemma rnd_0 r Y : rnd (sf r) Y -> fin r -> Y = 0 -> toR r = 0.
Proof. intros H F E. destruct zero_fin as [G V]. rewrite <- V. apply rnd_val with (1 := H); auto; lra. Qed.

Lemma low r Y m : rnd (sf r) Y -> fin r -> 0 <= m <= Y -> m - m / 9007199254740992 - / 1152921504606846976 <= toR r.
Proof.
  intros H F M. pose proof (rnd_err3 _ _ H F) as E. rewrite ulp1_val, (Rabs_right Y) in E by lra. pose proof tiny_pw as P. pose proof (Rle_abs (- (toR r - Y))) as A. rewrite Rabs_Ropp in A. lra.
Qed.
Lemma sq_pos x k : bd x k -> (k + k <= 900)%nat -> bd (x * x)%float (S (k + k)) /\ 0 <= toR (x * x)%float /\ (29 / 10000 <= Rabs (toR x) -> 8 / 1000000 <= toR (x * x)%float).
Proof.
  intros B K. pose proof (bd_mul x x k k B B ltac:(lia)) as M. destruct B as [F B]. split; [exact M|]. destruct M as [G _]. destruct zero_fin as [F0 V0]. pose proof (mul_rnd x x F F) as H.
  split; [rewrite <- V0; apply rnd_ge with (1 := H); auto; rewrite V0; apply Rle_0_sqr|]. intros L. pose proof (low _ _ (841 / 100000000) H G) as W.
  assert (Q : 841 / 100000000 <= toR x * toR x) by (replace (841 / 100000000) with (29 / 10000 * (29 / 10000)) by field; apply Rsqr_le_abs_1; rewrite (Rabs_right (29 / 10000)) by lra; exact L). lra.
Qed.
Lemma hyp_far x y k : bd x k -> bd y k -> (k <= 400)%nat -> 29 / 10000 <= Rabs (toR x) \/ 29 / 10000 <= Rabs (toR y) ->
  fin (PrimFloat.sqrt (x * x + y * y)%float) /\ / 500 <= toR (PrimFloat.sqrt (x * x + y * y)%float).
Proof.
  intros X Y K O. destruct (sq_pos x k X ltac:(lia)) as (A & A0 & A1), (sq_pos y k Y ltac:(lia)) as (B & B0 & B1). pose proof (bd_add _ _ _ A B ltac:(lia)) as M.
  assert (S : 8 / 1000000 <= toR (x * x)%float + toR (y * y)%float) by (destruct O as [O|O]; [specialize (A1 O)|specialize (B1 O)]; lra).
  pose proof (low _ _ (8 / 1000000) (add_rnd _ _ (proj1 A) (proj1 B)) (proj1 M) ltac:(lra)) as L.
  pose proof (bd_sqrt _ _ M ltac:(lra) ltac:(lia)) as Q. split; [exact (proj1 Q)|]. pose proof (sqrt_rnd _ (proj1 M) ltac:(lra)) as H.
  pose proof (low _ _ (22 / 10000) H (proj1 Q)) as W. assert (V : 22 / 10000 <= R_sqrt.sqrt (toR (x * x + y * y)%float)); [|lra].
  rewrite <- (sqrt_Rsqr (22 / 10000)) by lra. apply sqrt_le_1_alt. unfold Rsqr. lra.
Qed.
Lemma hyp_same x y : fin x -> fin y -> toR x = 0 -> toR y = 0 -> fin (PrimFloat.sqrt (x * x + y * y)%float) /\ toR (PrimFloat.sqrt (x * x + y * y)%float) = 0.
Proof.
  intros F G X Y. assert (Z1 : Rabs 0 <= 2 ^ 1023) by (rewrite Rabs_R0; apply pow_le; lra).
  pose proof (mul_rnd x x F F) as A. rewrite X, Rmult_0_l in A. pose proof (big_fin _ _ A Z1) as FA. pose proof (rnd_0 _ _ A FA eq_refl) as VA.
  pose proof (mul_rnd y y G G) as B. rewrite Y, Rmult_0_l in B. pose proof (big_fin _ _ B Z1) as FB. pose proof (rnd_0 _ _ B FB eq_refl) as VB.
  pose proof (add_rnd _ _ FA FB) as C. rewrite VA, VB, Rplus_0_l in C. pose proof (big_fin _ _ C Z1) as FC. pose proof (rnd_0 _ _ C FC eq_refl) as VC.
  pose proof (sqrt_rnd _ FC ltac:(lra)) as D. rewrite VC, sqrt_0 in D. pose proof (big_fin _ _ D Z1) as FD. split; [exact FD|exact (rnd_0 _ _ D FD eq_refl)].
Qed.

Lemma lowA r Y m : rnd (sf r) Y -> fin r -> 0 <= m <= Rabs Y -> m - m / 9007199254740992 - / 1152921504606846976 <= Rabs (toR r).
Proof.
  intros H F M. pose proof (rnd_err3 _ _ H F) as E. rewrite ulp1_val in E. pose proof tiny_pw as P. pose proof (Rabs_triang (toR r) (- (toR r - Y))) as A. rewrite Rabs_Ropp in A. replace (toR r + - (toR r - Y)) with Y in A by ring. lra.
Qed.
Lemma ratio t u : (0 < t <= 65536)%Z -> (0 < u <= 65536)%Z -> ((t + u) * (t + u) <= 65539 * (t * u))%Z.
Proof.
  intros T U. assert (W : forall a b, (0 < a <= b -> b <= 65536 -> (a + b) * (a + b) <= 65539 * (a * b))%Z).
  { intros a b A B. assert (a * a <= a * b)%Z by (apply Z.mul_le_mono_nonneg_l; lia). assert (b * b <= 65536 * b)%Z by (apply Z.mul_le_mono_nonneg_r; lia). assert (1 * b <= a * b)%Z by (apply Z.mul_le_mono_nonneg_r; lia). lia. }
  destruct (Z_le_gt_dec t u) as [L|L]; [apply W; lia|]. pose proof (W u t ltac:(lia) ltac:(lia)). lia.
Qed.

Section Circles.
  Context (th : thrs float) (c d : Z * Z) (t u : Z).
  Hypothesis Hc : within 16777216 c.
  Hypothesis Hd : within 16777216 d.
  Hypothesis T : (0 < t <= 65536)%Z.
  Hypothesis U : (0 < u <= 65536)%Z.
  Hypothesis Ft : fin (nullDistance th).
  Hypothesis Tt : 0 < toR (nullDistance th) <= 1.
  Let s := zSq c d.
  Let dx := (fst c - fst d)%Z.
  Let dy := (snd c - snd d)%Z.
  Let r1 := FloatFuns.of_Z t.
  Let r2 := FloatFuns.of_Z u.
  Let d2 : float := ((px (gpt c) - px (gpt d)) * (px (gpt c) - px (gpt d)) + (py (gpt c) - py (gpt d)) * (py (gpt c) - py (gpt d)))%float.
  Let dd := PrimFloat.sqrt d2.

  Lemma r1_rep : rep r1 t. Proof. apply rep_ofZ. unfold lim. lia. Qed.
  Lemma r2_rep : rep r2 u. Proof. apply rep_ofZ. unfold lim. lia. Qed.
  Lemma prods : (0 <= t * t <= 4294967296 /\ 0 <= u * u <= 4294967296 /\ 0 <= t * u <= 4294967296)%Z.
  Proof. repeat split; try (apply Z.mul_nonneg_nonneg; lia); change 4294967296%Z with (65536 * 65536)%Z; apply Z.mul_le_mono_nonneg; lia. Qed.
  Lemma d2_rep : rep d2 s.
  Proof.
    destruct (gG c Hc) as [A B], (gG d Hd) as [C D]. pose proof (sq_range c d Hc Hd) as S. destruct Hc as [P1 P2], Hd as [Q1 Q2].
    assert (Rx : rep (px (gpt c) - px (gpt d))%float dx) by (apply rep_sub; auto; unfold lim; lia).
    assert (Ry : rep (py (gpt c) - py (gpt d))%float dy) by (apply rep_sub; auto; unfold lim; lia).
    pose proof (Z.square_nonneg dx). pose proof (Z.square_nonneg dy). assert (S0 : zSq c d = (dx * dx + dy * dy)%Z) by reflexivity.
    assert (Rxx := rep_mul _ _ _ _ Rx Rx ltac:(unfold lim; lia)). assert (Ryy := rep_mul _ _ _ _ Ry Ry ltac:(unfold lim; lia)).
    exact (rep_add _ _ _ _ Rxx Ryy ltac:(unfold lim; lia)).
  Qed.
  Lemma eq_case : cEq (N := FNum) th (gC c t) (gC d u) = true <-> c = d /\ t = u.
  Proof.
    unfold cEq, gC. cbn [cc cr neqb FNum]. fold r1 r2. rewrite (rep_eqb _ _ _ _ r1_rep r2_rep). pose proof (C234_equal th c d Hc Hd Ft Tt) as E.
    destruct (Z.eqb_spec t u) as [Q|Q]; cbn [negb]; [|split; [discriminate|tauto]]. destruct (ptEq (N := FNum) th (gpt c) (gpt d)); cbn [negb]; split; try tauto; try discriminate.
  Qed.
  Lemma two_rep : rep (FloatFuns.of_Z 2) 2. Proof. apply rep_ofZ. unfold lim. lia. Qed.
  Lemma mid_rep : rep (FloatFuns.of_Z 2 * r1 * r2)%float (2 * t * u).
  Proof. pose proof prods. apply rep_mul; [apply rep_mul; [exact two_rep|exact r1_rep|]|exact r2_rep|]; unfold lim; lia. Qed.
  Lemma sum_rep : rep (r1 * r1 + r2 * r2)%float (t * t + u * u).
  Proof. pose proof prods. apply rep_add; [apply rep_mul; [exact r1_rep|exact r1_rep|]|apply rep_mul; [exact r2_rep|exact r2_rep|]|]; unfold lim; lia. Qed.
  Lemma far_case : (r1 * r1 + r2 * r2 + FloatFuns.of_Z 2 * r1 * r2 <? d2)%float = ((t + u) * (t + u) <? s)%Z.
  Proof.
    pose proof prods. replace ((t + u) * (t + u))%Z with (t * t + u * u + 2 * t * u)%Z by ring. apply rep_ltb; [|exact d2_rep]. apply rep_add; [exact sum_rep|exact mid_rep|unfold lim; lia].
  Qed.
  Lemma in_case : (d2 <? r1 * r1 + r2 * r2 - FloatFuns.of_Z 2 * r1 * r2)%float = (s <? (t - u) * (t - u))%Z.
  Proof.
    pose proof prods. replace ((t - u) * (t - u))%Z with (t * t + u * u - 2 * t * u)%Z by ring. apply rep_ltb; [exact d2_rep|]. apply rep_sub; [exact sum_rep|exact mid_rep|unfold lim; lia].
  Qed.

  Lemma none_out : (c = d /\ t = u) \/ ((t + u) * (t + u) < s)%Z \/ (s < (t - u) * (t - u))%Z -> circleCircle (N := FNum) th (gC c t) (gC d u) = Ok [].
  Proof.
    intros O. unfold circleCircle. destruct (cEq (N := FNum) th (gC c t) (gC d u)) eqn:E; [reflexivity|].
    unfold gC. cbn [cc cr nadd nsub nmul ndiv nsqrt nltb nZ FNum]. fold r1 r2. fold d2. rewrite far_case, in_case. destruct O as [O|[O|O]].
    - apply eq_case in O. rewrite O in E. discriminate.
    - destruct (Z.ltb_spec ((t + u) * (t + u)) s) as [_|L]; [reflexivity|lia].
    - destruct (Z.ltb_spec ((t + u) * (t + u)) s) as [_|_]; [reflexivity|]. destruct (Z.ltb_spec s ((t - u) * (t - u))) as [_|L]; [reflexivity|lia].
  Qed.

  Hypothesis S0 : (0 < s)%Z.
  Hypothesis S1 : ((t - u) * (t - u) <= s <= (t + u) * (t + u))%Z.
  Lemma s_max : (s <= 17179869184)%Z.
  Proof. eapply Z.le_trans; [apply S1|]. change 17179869184%Z with (131072 * 131072)%Z. apply Z.mul_le_mono_nonneg; lia. Qed.
  Lemma dd_rnd : fin dd /\ rnd (sf dd) (R_sqrt.sqrt (IZR s)).
  Proof. exact (distG c d Hc Hd). Qed.
  Lemma dd_ge1 : 1 <= toR dd.
  Proof.
    destruct dd_rnd as [F H]. assert (R1 : rep (FloatFuns.of_Z 1) 1) by (apply rep_ofZ; unfold lim; lia). pose proof (rep_toR _ _ R1) as V. change (IZR 1) with 1 in V.
    rewrite <- V at 1. apply rnd_ge with (1 := H); [exact F|exact (rep_fin _ _ R1)|]. rewrite V, <- sqrt_1. apply sqrt_le_1_alt. apply (IZR_le 1). lia.
  Qed.
  Lemma num_rep : rep (r1 * r1 - r2 * r2 + d2)%float (zN s t u).
  Proof.
    pose proof prods. pose proof s_max. unfold zN. apply rep_add; [apply rep_sub; [apply rep_mul; [exact r1_rep|exact r1_rep|]|apply rep_mul; [exact r2_rep|exact r2_rep|]|]|exact d2_rep|]; unfold lim; lia.
  Qed.
  Let a := ((r1 * r1 - r2 * r2 + d2) / FloatFuns.of_Z 2 / dd)%float.
  Lemma a_bound : fin a /\ Rabs (toR a) <= IZR t.
  Proof.
    destruct dd_rnd as [F H]. destruct (half_toR _ _ num_rep) as [Fn Vn]. change 2%float with (FloatFuns.of_Z 2) in *.
    apply quot_bound with (k := r1); [exact Fn|exact F|exact T|exact r1_rep|exact dd_ge1|]. rewrite Vn. apply (root_bound dd s t u); assumption.
  Qed.
  Lemma arg_ok : fin (r1 * r1 - a * a)%float /\ 0 <= toR (r1 * r1 - a * a)%float.
  Proof. destruct a_bound as [F B]. exact (arg_pos a t r1 F T r1_rep B). Qed.

  Let h := PrimFloat.sqrt (r1 * r1 - a * a)%float.
  Let ex := px (gpt c).
  Let ey := py (gpt c).
  Let fx := px (gpt d).
  Let fy := py (gpt d).
  Let x0 := ((fx - ex) * a / dd + ex)%float.
  Let y0 := ((fy - ey) * a / dd + ey)%float.
  Let vx := ((ey - fy) * h / dd)%float.
  Let vy := ((ex - fx) * h / dd)%float.
  Let p3 : pt float := mkPt (x0 + vx)%float (y0 - vy)%float.
  Let p4 : pt float := mkPt (x0 - vx)%float (y0 + vy)%float.

  Lemma run : ~ (c = d /\ t = u) -> circleCircle (N := FNum) th (gC c t) (gC d u) = Ok (p3 :: if negb (ptEq (N := FNum) th p3 p4) then [p4] else []).
  Proof.
    intros N. unfold circleCircle. destruct (cEq (N := FNum) th (gC c t) (gC d u)) eqn:E; [apply eq_case in E; contradiction|].
    unfold gC. cbn [cc cr nadd nsub nmul ndiv nsqrt nltb nZ FNum]. fold r1 r2. fold d2.
    rewrite far_case, in_case. destruct (Z.ltb_spec ((t + u) * (t + u)) s) as [L|_]; [lia|]. destruct (Z.ltb_spec s ((t - u) * (t - u))) as [L|_]; [lia|].
    fold dd. unfold cdiv, csqrt. cbn [neqb ndiv nltb nZ FNum]. change (FloatFuns.of_Z 0) with 0%float.
    destruct dd_rnd as [Fd Hdd]. pose proof dd_ge1 as G. rewrite (eqb_zero dd Fd) by lra. cbn [bind]. fold a. destruct arg_ok as [Fg Vg]. destruct zero_fin as [F0 V0].
    assert (W : (r1 * r1 - a * a <? 0)%float = false) by (apply toR_ge; [exact Fg|exact F0|]; rewrite V0; exact Vg). rewrite W. reflexivity.
  Qed.
  Lemma dx_small : (Z.abs dx <= 131072 /\ Z.abs dy <= 131072)%Z.
  Proof.
    pose proof s_max as M. assert (E : s = (dx * dx + dy * dy)%Z) by reflexivity. pose proof (Z.square_nonneg dx). pose proof (Z.square_nonneg dy).
    split; apply Z.square_le_simpl_nonneg; [lia|rewrite Z.abs_square; lia|lia|rewrite Z.abs_square; lia].
  Qed.
  Lemma dif_rep : rep (fx - ex)%float (- dx) /\ rep (fy - ey)%float (- dy) /\ rep (ey - fy)%float dy /\ rep (ex - fx)%float dx.
  Proof.
    destruct (gG c Hc) as [A B], (gG d Hd) as [C D]. pose proof dx_small as M. unfold ex, ey, fx, fy, dx, dy in *.
    replace (- (fst c - fst d))%Z with (fst d - fst c)%Z by ring. replace (- (snd c - snd d))%Z with (snd d - snd c)%Z by ring.
    split; [|split; [|split]]; apply rep_sub; auto; unfold lim; lia.
  Qed.
  Lemma a_bd : bd a 16.
  Proof. destruct a_bound as [F B]. split; [exact F|]. apply Rle_trans with (1 := B). rewrite pow_IZR. apply IZR_le. change (2 ^ Z.of_nat 16)%Z with 65536%Z. lia. Qed.
  Lemma h_bd : bd h 16 /\ rnd (sf h) (R_sqrt.sqrt (toR (r1 * r1 - a * a)%float)) /\ 0 <= toR h.
  Proof.
    destruct arg_ok as [F P]. pose proof (sqrt_rnd _ F P) as H. fold h in H. pose proof prods as Q. pose proof a_bd as A.
    assert (Rk := rep_mul _ _ _ _ r1_rep r1_rep ltac:(unfold lim; lia)). pose proof (rep_toR _ _ Rk) as Vk. destruct (sq_pos a 16 A ltac:(lia)) as (M & M0 & _).
    assert (L : toR (r1 * r1 - a * a)%float <= IZR (t * t)) by (rewrite <- Vk; apply rnd_le with (1 := sub_rnd _ _ (rep_fin _ _ Rk) (proj1 M)); [exact F|exact (rep_fin _ _ Rk)|lra]).
    assert (Sq : R_sqrt.sqrt (toR (r1 * r1 - a * a)%float) <= IZR t) by (rewrite <- (sqrt_square (IZR t)) by (apply IZR_le; lia); apply sqrt_le_1_alt; rewrite <- mult_IZR; exact L).
    pose proof (sqrt_pos (toR (r1 * r1 - a * a)%float)) as Sp. assert (T2 : IZR t <= 65536) by (apply (IZR_le _ 65536); lia). assert (P16 : 65536 <= 2 ^ 16) by (right; rewrite pow_IZR; reflexivity).
    assert (Fh : fin h) by (apply big_fin with (1 := H); rewrite Rabs_right by lra; apply Rle_trans with (2 ^ 16); [lra|apply Rle_pow; [lra|lia]]). destruct zero_fin as [F0 V0].
    assert (H0 : 0 <= toR h) by (rewrite <- V0; apply rnd_ge with (1 := H); auto; lra).
    split; [|split; [exact H|exact H0]]. split; [exact Fh|]. rewrite Rabs_right by lra. apply Rle_trans with (IZR t); [|lra]. rewrite <- (rep_toR _ _ r1_rep). apply rnd_le with (1 := H); [exact Fh|exact (rep_fin _ _ r1_rep)|]. rewrite (rep_toR _ _ r1_rep). exact Sq.
  Qed.
  Lemma base_bd : bd x0 37 /\ bd y0 37 /\ bd vx 35 /\ bd vy 35.
  Proof.
    destruct dif_rep as (A & B & C & D). pose proof dx_small as [M1 M2]. pose proof a_bd as Ba. destruct h_bd as [Bh _]. destruct dd_rnd as [Fd _]. pose proof dd_ge1 as G.
    destruct (gG c Hc) as [Gx Gy]. destruct Hc as [P1 P2]. assert (W : forall f z, rep f z -> (Z.abs z <= 131072)%Z -> bd f 17) by (intros f z R L; apply bd_rep with (1 := R); change (2 ^ Z.of_nat 17)%Z with 131072%Z; exact L).
    assert (V : forall f z, rep f z -> (Z.abs z <= 16777216)%Z -> bd f 35) by (intros f z R L; apply bd_le with (j := 24%nat); [apply bd_rep with (1 := R); change (2 ^ Z.of_nat 24)%Z with 16777216%Z; exact L|lia]).
    split; [|split; [|split]].
    - apply (bd_add _ _ 35); [apply (bd_div _ _ 34); auto; [apply (bd_mul _ _ 17 16); auto; [apply (W _ _ A); lia|lia]|lia]|apply (V _ _ Gx); lia|lia].
    - apply (bd_add _ _ 35); [apply (bd_div _ _ 34); auto; [apply (bd_mul _ _ 17 16); auto; [apply (W _ _ B); lia|lia]|lia]|apply (V _ _ Gy); lia|lia].
    - apply (bd_div _ _ 34); auto; [apply (bd_mul _ _ 17 16); auto; [apply (W _ _ C); lia|lia]|lia].
    - apply (bd_div _ _ 34); auto; [apply (bd_mul _ _ 17 16); auto; [apply (W _ _ D); lia|lia]|lia].
  Qed.
  Lemma pts_bd : bd (px p3) 39 /\ bd (py p3) 39 /\ bd (px p4) 39 /\ bd (py p4) 39.
  Proof.
    destruct base_bd as (A & B & C & D). apply bd_le with (k := 37%nat) in C; [|lia]. apply bd_le with (k := 37%nat) in D; [|lia]. unfold p3, p4. cbn [px py].
    split; [apply bd_add|split; [apply bd_sub|split; [apply bd_sub|apply bd_add]]]; auto; lia.
  Qed.
  Lemma pts_fin : finP p3 /\ finP p4.
  Proof. destruct pts_bd as ([A _] & [B _] & [C _] & [D _]). split; split; assumption. Qed.
  (** Circles that touch: the two points are the same. *)
  Lemma tan_a : s = ((t + u) * (t + u))%Z \/ s = ((t - u) * (t - u))%Z -> toR (a * a)%float = IZR (t * t).
  Proof.
    intros O. assert (K : zK s t u = 0%Z) by (unfold zK; destruct O as [->| ->]; ring). pose proof (heron s t u) as Hn. rewrite K, Z.add_0_r in Hn.
    assert (V : exists v, (0 < v < 2 ^ 53)%Z /\ s = (v * v)%Z).
    { destruct O as [E|E]; [exists (t + u)%Z; split; [lia|exact E]|exists (Z.abs (t - u)); split; [|rewrite E; symmetry; apply Z.abs_square]].
      split; [|lia]. assert (t - u <> 0)%Z by (intro Z0; rewrite Z0 in E; lia). lia. }
    destruct V as (v & V & E). destruct dd_rnd as [F H]. rewrite E in H. pose proof (root_exact _ v H F ltac:(lia)) as Vd. assert (Vp : 0 < IZR v) by (apply IZR_lt; lia).
    set (n := zN s t u) in *. assert (N2 : (n = 2 * t * v \/ n = - (2 * t * v))%Z).
    { assert (Q : ((n - 2 * t * v) * (n + 2 * t * v) = 0)%Z) by (replace ((n - 2 * t * v) * (n + 2 * t * v))%Z with (n * n - 4 * (t * t) * (v * v))%Z by ring; rewrite <- E; lia). apply Z.mul_eq_0 in Q. lia. }
    destruct (half_toR _ _ num_rep) as [Fn Vn]. change 2%float with (FloatFuns.of_Z 2) in *. fold n in Vn. pose proof (div_rnd _ dd Fn F ltac:(lra)) as Ha. fold a in Ha. rewrite Vn, Vd in Ha. destruct a_bound as [Fa _].
    assert (Rk := r1_rep). pose proof (rep_opp _ _ Rk) as Ro. assert (A2 : toR a * toR a = IZR (t * t)).
    { rewrite mult_IZR. destruct N2 as [Q|Q]; rewrite Q in Ha.
      - assert (X : toR a = toR r1) by (apply rnd_val with (1 := Ha); auto; [exact (rep_fin _ _ Rk)|]; rewrite (rep_toR _ _ Rk), !mult_IZR; change (IZR 2) with 2; field; lra). rewrite X, (rep_toR _ _ Rk). reflexivity.
      - assert (X : toR a = toR (- r1)%float) by (apply rnd_val with (1 := Ha); auto; [exact (rep_fin _ _ Ro)|]; rewrite (rep_toR _ _ Ro), !opp_IZR, !mult_IZR; change (IZR 2) with 2; field; lra). rewrite X, (rep_toR _ _ Ro), opp_IZR. ring. }
    pose proof prods as Q. assert (Rkk := rep_mul _ _ _ _ r1_rep r1_rep ltac:(unfold lim; lia)). destruct (sq_pos a 16 a_bd ltac:(lia)) as ([Fm _] & _).
    rewrite <- (rep_toR _ _ Rkk). apply rnd_val with (1 := mul_rnd a a Fa Fa); [exact Fm|exact (rep_fin _ _ Rkk)|]. rewrite (rep_toR _ _ Rkk). exact A2.
  Qed.
  Lemma tan_one : s = ((t + u) * (t + u))%Z \/ s = ((t - u) * (t - u))%Z -> ptEq (N := FNum) th p3 p4 = true.
  Proof.
    intros O. pose proof (tan_a O) as A. pose proof prods as Q. assert (Rkk := rep_mul _ _ _ _ r1_rep r1_rep ltac:(unfold lim; lia)). destruct (sq_pos a 16 a_bd ltac:(lia)) as ([Fm _] & _). destruct arg_ok as [Fg _].
    assert (G0 : toR (r1 * r1 - a * a)%float = 0) by (apply rnd_0 with (1 := sub_rnd _ _ (rep_fin _ _ Rkk) Fm); [exact Fg|rewrite (rep_toR _ _ Rkk), A; lra]).
    destruct h_bd as ([Fh _] & Hh & _). rewrite G0, sqrt_0 in Hh. pose proof (rnd_0 _ _ Hh Fh eq_refl) as H0. destruct dd_rnd as [Fd _]. pose proof dd_ge1 as D1. destruct dif_rep as (_ & _ & C & D).
    destruct base_bd as ([Fx _] & [Fy _] & [Fvx _] & [Fvy _]). destruct pts_fin as [[F3x F3y] [F4x F4y]]. assert (Z1 : Rabs 0 <= 2 ^ 1023) by (rewrite Rabs_R0; apply pow_le; lra).
    assert (Z2 : forall f, fin f -> fin (f * h / dd)%float -> toR (f * h / dd)%float = 0).
    { intros f Ff Fq. pose proof (mul_rnd f h Ff Fh) as M. rewrite H0, Rmult_0_r in M. pose proof (big_fin _ _ M Z1) as FM. pose proof (rnd_0 _ _ M FM eq_refl) as VM.
      pose proof (div_rnd _ dd FM Fd ltac:(lra)) as K. rewrite VM in K. apply rnd_0 with (1 := K); [exact Fq|]. unfold Rdiv. ring. }
    pose proof (Z2 _ (rep_fin _ _ C) Fvx) as Vx. pose proof (Z2 _ (rep_fin _ _ D) Fvy) as Vy. fold vx in Vx. fold vy in Vy.
    assert (E1 : toR (px p3) = toR x0) by (apply rnd_val with (1 := add_rnd _ _ Fx Fvx); auto; lra). assert (E2 : toR (px p4) = toR x0) by (apply rnd_val with (1 := sub_rnd _ _ Fx Fvx); auto; lra).
    assert (E3 : toR (py p3) = toR y0) by (apply rnd_val with (1 := sub_rnd _ _ Fy Fvy); auto; lra). assert (E4 : toR (py p4) = toR y0) by (apply rnd_val with (1 := add_rnd _ _ Fy Fvy); auto; lra).
    pose proof (sub_rnd _ _ F3x F4x) as Kx. rewrite E1, E2, Rminus_eq_0 in Kx. pose proof (sub_rnd _ _ F3y F4y) as Ky. rewrite E3, E4, Rminus_eq_0 in Ky.
    pose proof (big_fin _ _ Kx Z1) as Gx. pose proof (big_fin _ _ Ky Z1) as Gy. destruct (hyp_same _ _ Gx Gy (rnd_0 _ _ Kx Gx eq_refl) (rnd_0 _ _ Ky Gy eq_refl)) as [Fr Vr].
    unfold ptEq, distPP, hypot. cbn [nltb nsub nmul nadd nsqrt FNum]. apply toR_lt; [exact Fr|exact Ft|]. rewrite Vr. lra.
  Qed.
  Lemma one_out : ~ (c = d /\ t = u) -> s = ((t + u) * (t + u))%Z \/ s = ((t - u) * (t - u))%Z -> exists p, circleCircle (N := FNum) th (gC c t) (gC d u) = Ok [p] /\ finP p.
  Proof. intros N O. rewrite (run N), (tan_one O). exists p3. split; [reflexivity|exact (proj1 pts_fin)]. Qed.

  (** Circles that cross: the two points are not equal. *)
  Lemma dd_near : R_sqrt.sqrt (IZR s) * (1 - / 4503599627370496) <= toR dd <= R_sqrt.sqrt (IZR s) * (1 + / 4503599627370496) /\ 1 <= R_sqrt.sqrt (IZR s) <= 131072.
  Proof.
    destruct dd_rnd as [F H]. pose proof s_max as M. set (q := R_sqrt.sqrt (IZR s)) in *.
    assert (Q0 : 1 <= q) by (unfold q; rewrite <- sqrt_1; apply sqrt_le_1_alt; apply (IZR_le 1); lia).
    assert (Q1 : q <= 131072) by (unfold q; rewrite <- (sqrt_square 131072) by lra; apply sqrt_le_1_alt; rewrite <- mult_IZR; apply IZR_le; lia).
    pose proof (rnd_err3 _ _ H F) as B. rewrite (Rabs_right q), ulp1_val in B by lra. pose proof tiny_pw as P.
    pose proof (Rle_abs (- (toR dd - q))) as A. rewrite Rabs_Ropp in A. pose proof (Rle_abs (toR dd - q)). split; [|lra]. split; lra.
  Qed.
  Hypothesis S2 : ((t - u) * (t - u) < s < (t + u) * (t + u))%Z.
  Lemma a_low : toR (a * a)%float <= IZR (t * t) - 75 / 10000000.
  Proof.
    destruct dd_near as [[D1 D2] [Q0 Q1]]. destruct dd_rnd as [Fd _]. pose proof dd_ge1 as G. set (q := R_sqrt.sqrt (IZR s)) in *. set (D := toR dd) in *.
    assert (Sp : 0 < IZR s) by (apply IZR_lt; lia). assert (Q2 : q * q = IZR s) by (apply sqrt_sqrt; lra).
    destruct (half_toR _ _ num_rep) as [Fn Vn]. change 2%float with (FloatFuns.of_Z 2) in *. set (n := zN s t u) in *. pose proof (heron s t u) as Hn. fold n in Hn.
    pose proof (K_big s t u ltac:(lia) ltac:(lia) S2) as K. pose proof (ratio t u T U) as Rt. assert (Kz : (3 * s <= 65539 * zK s t u)%Z) by lia.
    apply IZR_le in Kz. rewrite !mult_IZR in Kz. change (IZR 3) with 3 in Kz. change (IZR 65539) with 65539 in Kz. apply (f_equal IZR) in Hn. rewrite plus_IZR, !mult_IZR in Hn. change (IZR 4) with 4 in Hn.
    assert (T1 : 1 <= IZR t <= 65536) by (split; [apply (IZR_le 1)|apply (IZR_le _ 65536)]; lia).
    set (B := Rabs (IZR n) / (2 * q)). assert (B0 : 0 <= B) by (unfold B, Rdiv; apply Rmult_le_pos; [apply Rabs_pos|apply Rlt_le, Rinv_0_lt_compat; lra]).
    assert (B2 : B * B <= IZR t * IZR t - 3 / 262156).
    { assert (E : B * B = IZR n * IZR n / (4 * (q * q))).
      { unfold B. replace (IZR n * IZR n) with (Rabs (IZR n) * Rabs (IZR n)) by (rewrite <- Rabs_mult; apply Rabs_right, Rle_ge, Rle_0_sqr). field. lra. }
      rewrite E, Q2. apply Rmult_le_reg_r with (4 * IZR s); [lra|]. unfold Rdiv at 1. rewrite Rmult_assoc, Rinv_l by lra. lra. }
    assert (B1 : B <= 65536). { apply Rsqr_incr_0_var; [|lra]. unfold Rsqr. assert (IZR t * IZR t <= 65536 * 65536) by (apply Rmult_le_compat; lra). lra. }
    pose proof (div_rnd _ dd Fn Fd ltac:(fold D; lra)) as Ha. fold a in Ha. fold D in Ha. rewrite Vn in Ha. destruct a_bound as [Fa Ba].
    assert (Y : Rabs (IZR n / 2 / D) <= B + B / 4000000000000000).
    { assert (E : Rabs (IZR n / 2 / D) = B * (q / D)). { unfold B, Rdiv. rewrite !Rabs_mult, (Rabs_right (/ 2)), (Rabs_right (/ D)) by (first [lra|apply Rle_ge, Rlt_le, Rinv_0_lt_compat; lra]). field. lra. }
      rewrite E. replace (B + B / 4000000000000000) with (B * (1 + / 4000000000000000)) by field. apply Rmult_le_compat_l; [exact B0|]. apply Rmult_le_reg_r with D; [lra|]. unfold Rdiv. rewrite Rmult_assoc, Rinv_l by lra. lra. }
    pose proof (rnd_err3 _ _ Ha Fa) as E. rewrite ulp1_val in E. pose proof tiny_pw as Tp. pose proof (Rabs_triang (toR a - IZR n / 2 / D) (IZR n / 2 / D)) as A. replace (toR a - IZR n / 2 / D + IZR n / 2 / D) with (toR a) in A by ring.
    assert (A1 : Rabs (toR a) <= B + 25 / 1000000000000) by lra.
    assert (A2 : toR a * toR a <= B * B + 33 / 10000000).
    { replace (toR a * toR a) with (Rabs (toR a) * Rabs (toR a)) by (rewrite <- Rabs_mult; apply Rabs_right, Rle_ge, Rle_0_sqr). pose proof (Rabs_pos (toR a)).
      apply Rle_trans with ((B + 25 / 1000000000000) * (B + 25 / 1000000000000)); [apply Rmult_le_compat; lra|]. lra. }
    destruct (sq_pos a 16 a_bd ltac:(lia)) as ([Fm _] & _). pose proof (rnd_err3 _ _ (mul_rnd a a Fa Fa) Fm) as C. rewrite ulp1_val in C. pose proof (Rle_0_sqr (toR a)) as Z0. unfold Rsqr in Z0.
    rewrite (Rabs_right (toR a * toR a)) in C by lra. pose proof (Rle_abs (toR (a * a)%float - toR a * toR a)). assert (IZR t * IZR t <= 65536 * 65536) by (apply Rmult_le_compat; lra). rewrite mult_IZR. lra.
  Qed.
  Lemma h_low : 26 / 10000 <= toR h.
  Proof.
    pose proof a_low as L. pose proof prods as Q. assert (Rkk := rep_mul _ _ _ _ r1_rep r1_rep ltac:(unfold lim; lia)). destruct (sq_pos a 16 a_bd ltac:(lia)) as ([Fm _] & _). destruct arg_ok as [Fg _].
    pose proof (low _ _ (75 / 10000000) (sub_rnd _ _ (rep_fin _ _ Rkk) Fm) Fg ltac:(rewrite (rep_toR _ _ Rkk); lra)) as G. destruct h_bd as ([Fh _] & Hh & _).
    pose proof (low _ _ (27 / 10000) Hh Fh) as W. assert (27 / 10000 <= R_sqrt.sqrt (toR (r1 * r1 - a * a)%float)); [|lra]. rewrite <- (sqrt_Rsqr (27 / 10000)) by lra. apply sqrt_le_1_alt. unfold Rsqr. lra.
  Qed.
  Lemma v_low f z : rep f z -> (s <= 2 * (z * z))%Z -> fin (f * h)%float -> fin (f * h / dd)%float -> 17 / 10000 <= Rabs (toR (f * h / dd)%float).
  Proof.
    intros Rf Z Fm Fq. destruct dd_near as [[_ D2] [Q0 Q1]]. destruct dd_rnd as [Fd _]. pose proof dd_ge1 as G. set (q := R_sqrt.sqrt (IZR s)) in *. set (D := toR dd) in *. pose proof h_low as Hl. destruct h_bd as ([Fh _] & _).
    assert (Qz : 7 / 10 * D <= Rabs (IZR z)).
    { apply Rle_trans with (705 / 1000 * q); [lra|]. rewrite <- (Rabs_right (705 / 1000 * q)) by lra. apply Rsqr_le_abs_0. unfold Rsqr. assert (Sp : 0 <= IZR s) by (apply IZR_le; lia).
      assert (Q2 : q * q = IZR s) by (apply sqrt_sqrt; lra). apply IZR_le in Z. rewrite !mult_IZR in Z. change (IZR 2) with 2 in Z. replace (705 / 1000 * q * (705 / 1000 * q)) with (705 / 1000 * (705 / 1000) * (q * q)) by ring. rewrite Q2. lra. }
    pose proof (lowA _ _ (182 / 100000 * D) (mul_rnd f h (rep_fin _ _ Rf) Fh) Fm) as M. rewrite (rep_toR _ _ Rf), Rabs_mult, (Rabs_right (toR h)) in M by lra.
    assert (M2 : 182 / 100000 * D <= Rabs (IZR z) * toR h). { apply Rle_trans with (7 / 10 * D * (26 / 10000)); [lra|]. apply Rmult_le_compat; lra. }
    assert (M3 : 18 / 10000 * D <= Rabs (toR (f * h)%float)) by lra.
    pose proof (lowA _ _ (18 / 10000) (div_rnd _ dd Fm Fd ltac:(fold D; lra)) Fq) as W. fold D in W. unfold Rdiv in W at 2. 
    assert (V : 18 / 10000 <= Rabs (toR (f * h)%float / D)); [|lra]. unfold Rdiv at 2. rewrite Rabs_mult, (Rabs_right (/ D)) by (apply Rle_ge, Rlt_le, Rinv_0_lt_compat; lra). apply Rmult_le_reg_r with D; [lra|]. rewrite Rmult_assoc, Rinv_l by lra. lra.
  Qed.
  Lemma apart x v : bd x 37 -> bd v 35 -> 17 / 10000 <= Rabs (toR v) -> bd (x + v - (x - v))%float 41 -> bd (x - v - (x + v))%float 41 ->
    29 / 10000 <= Rabs (toR (x + v - (x - v))%float) /\ 29 / 10000 <= Rabs (toR (x - v - (x + v))%float).
  Proof.
    intros X V L [F1 _] [F2 _]. assert (V7 : bd v 37) by (apply bd_le with (1 := V); lia). pose proof (bd_add _ _ _ X V7 ltac:(lia)) as A. pose proof (bd_sub _ _ _ X V7 ltac:(lia)) as B. destruct X as [Fx Bx], V7 as [Fv Bv].
    assert (P : 2 ^ 37 <= 137438953472) by (right; rewrite pow_IZR; reflexivity). pose proof tiny_pw as Tp.
    pose proof (rnd_err3 _ _ (add_rnd _ _ Fx Fv) (proj1 A)) as E1. pose proof (rnd_err3 _ _ (sub_rnd _ _ Fx Fv) (proj1 B)) as E2. rewrite ulp1_val in E1, E2.
    pose proof (Rabs_triang (toR x) (toR v)) as T1. pose proof (Rabs_triang (toR x) (- toR v)) as T2. rewrite Rabs_Ropp in T2. fold (toR x - toR v) in T2.
    set (p := toR (x + v)%float) in *. set (m := toR (x - v)%float) in *. assert (W1 : Rabs (p - (toR x + toR v)) <= 4 / 100000) by lra. assert (W2 : Rabs (m - (toR x - toR v)) <= 4 / 100000) by lra.
    assert (W : 33 / 10000 <= Rabs (p - m)).
    { pose proof (Rabs_triang (p - m) (- (p - (toR x + toR v)) + (m - (toR x - toR v)))) as A1. pose proof (Rabs_triang (- (p - (toR x + toR v))) (m - (toR x - toR v))) as A2. rewrite Rabs_Ropp in A2.
      replace (p - m + (- (p - (toR x + toR v)) + (m - (toR x - toR v)))) with (2 * toR v) in A1 by ring. rewrite Rabs_mult, (Rabs_right 2) in A1 by lra. lra. }
    pose proof (lowA _ _ (33 / 10000) (sub_rnd _ _ (proj1 A) (proj1 B)) F1 ltac:(fold p m; lra)) as L1. pose proof (lowA _ _ (33 / 10000) (sub_rnd _ _ (proj1 B) (proj1 A)) F2 ltac:(fold p m; rewrite Rabs_minus_sym; lra)) as L2. lra.
  Qed.
  Lemma cross_two : toR (nullDistance th) <= / 500 -> ptEq (N := FNum) th p3 p4 = false.
  Proof.
    intros Th. destruct base_bd as (Bx & By & Bvx & Bvy). destruct pts_bd as (A & B & C & D). destruct dif_rep as (_ & _ & Rx & Ry). destruct h_bd as (Bh & _). pose proof dx_small as [M1 M2].
    assert (Px := bd_sub _ _ _ A C ltac:(lia)). assert (Py := bd_sub _ _ _ B D ltac:(lia)).
    assert (Dz : forall f z, rep f z -> (Z.abs z <= 131072)%Z -> fin (f * h)%float) by (intros f z R L; apply (bd_mul f h 17 16); [apply bd_rep with (1 := R); change (2 ^ Z.of_nat 17)%Z with 131072%Z; exact L|exact Bh|lia]).
    assert (O : 29 / 10000 <= Rabs (toR (px p3 - px p4)%float) \/ 29 / 10000 <= Rabs (toR (py p3 - py p4)%float)).
    { assert (E : s = (dx * dx + dy * dy)%Z) by reflexivity. assert (B37 : bd vx 37 /\ bd vy 37) by (split; [apply bd_le with (1 := Bvx); lia|apply bd_le with (1 := Bvy); lia]). destruct B37 as [Wx Wy].
      destruct (Z_le_gt_dec s (2 * (dy * dy))) as [L|L].
      - left. apply (apart x0 vx); auto; [apply (v_low _ dy); auto; [apply (Dz _ _ Rx); lia|exact (proj1 Bvx)]|].
        apply (bd_sub _ _ 39); [apply (bd_sub _ _ 37); auto; lia|apply (bd_add _ _ 37); auto; lia|lia].
      - right. apply (apart y0 vy); auto; [apply (v_low _ dx); auto; [lia|apply (Dz _ _ Ry); lia|exact (proj1 Bvy)]|].
        apply (bd_sub _ _ 39); [apply (bd_add _ _ 37); auto; lia|apply (bd_sub _ _ 37); auto; lia|lia]. }
    destruct (hyp_far _ _ _ Px Py ltac:(lia) O) as [F V]. unfold ptEq, distPP, hypot. cbn [nltb nsub nmul nadd nsqrt FNum]. apply toR_ge; [exact F|exact Ft|]. lra.
  Qed.
  Lemma two_out : ~ (c = d /\ t = u) -> toR (nullDistance th) <= / 500 -> exists p q, circleCircle (N := FNum) th (gC c t) (gC d u) = Ok [p; q] /\ finP p /\ finP q.
  Proof. intros N L. rewrite (run N), (cross_two L). exists p3, p4. split; [reflexivity|exact pts_fin]. Qed.
End Circles.
