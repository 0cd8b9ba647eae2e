(** * Properties C234 and C235: points and circles with integer coordinates, in binary64 *)

From Coq Require Import Reals Lra ZArith Floats Bool Lia List.
From Verif Require Import Num FloatFuns M_LP M_Seg M_Poly M_FRect M_Circle S_Geom S_Float S_FloatZ S_FloatR P_LP P_Float P_FloatZ P_FloatZ2 P_FloatR P_FloatE P_FloatE2 P_FloatX P_FloatG C_FloatR C_FloatL.
Import ListNotations.
Local Open Scope R_scope.

(** ** C234: distances between points with integer coordinates *)

(** The distance computed is the double nearest to the exact one; an integer distance is found exactly. *)
Theorem C234_distance : forall p q : Z * Z, within 16777216 p -> within 16777216 q ->
  nearestD (distPP (N := FNum) (gpt p) (gpt q)) (edist (rpt p) (rpt q)) /\
  (forall t : Z, (0 <= t)%Z -> edist (rpt p) (rpt q) = IZR t -> toR (distPP (N := FNum) (gpt p) (gpt q)) = IZR t).
Proof.
  intros p q Hp Hq. destruct (distG p q Hp Hq) as [F H]. pose proof (sq_range p q Hp Hq) as S. rewrite edist_zsq.
  assert (L : R_sqrt.sqrt (IZR (zSq p q)) <= 67108864) by (rewrite <- (sqrt_square 67108864) by lra; apply sqrt_le_1_alt; rewrite <- mult_IZR; apply IZR_le; lia).
  pose proof (sqrt_pos (IZR (zSq p q))) as P. split.
  - apply rnd_nearest; [exact H|]. rewrite Rabs_right by lra. apply Rle_trans with (2 ^ 27); [|apply Rle_pow; [lra|lia]]. rewrite pow_IZR. change (2 ^ Z.of_nat 27)%Z with 134217728%Z. lra.
  - intros t T E. assert (Q : zSq p q = (t * t)%Z).
    { apply eq_IZR. rewrite mult_IZR, <- E. symmetry. apply sqrt_sqrt. apply IZR_le. lia. }
    rewrite Q in H. apply (root_exact _ t H F). split; [exact T|]. rewrite E in L. apply le_IZR in L. lia.
Qed.
Print Assumptions C234_distance.

(** Two such points are equal for operator == exactly if they are the same, with any threshold up to 1. *)
Theorem C234_equal : forall (th : thrs float) (p q : Z * Z), within 16777216 p -> within 16777216 q -> fin (nullDistance th) -> 0 < toR (nullDistance th) <= 1 ->
  (ptEq (N := FNum) th (gpt p) (gpt q) = true <-> p = q).
Proof.
  intros th p q Hp Hq Ft T. destruct (distG p q Hp Hq) as [F H]. pose proof (sq_range p q Hp Hq) as S. unfold ptEq. cbn [nltb FNum]. rewrite toR_lt by assumption. split.
  - intros L. assert (Z0 : zSq p q = 0%Z).
    { destruct (Z_le_gt_dec (zSq p q) 0) as [|G]; [lia|]. exfalso. assert (R1 : rep (FloatFuns.of_Z 1) 1) by (apply rep_ofZ; unfold lim; lia).
      pose proof (rnd_ge _ _ _ H F (rep_fin _ _ R1)) as K. rewrite (rep_toR _ _ R1) in K. apply Rlt_not_le in L. apply L. apply Rle_trans with 1; [lra|]. apply K.
      rewrite <- sqrt_1. apply sqrt_le_1_alt. apply IZR_le. lia. }
    unfold zSq in Z0. pose proof (Z.square_nonneg (fst p - fst q)). pose proof (Z.square_nonneg (snd p - snd q)).
    assert (A : ((fst p - fst q) * (fst p - fst q) = 0)%Z) by lia. assert (B : ((snd p - snd q) * (snd p - snd q) = 0)%Z) by lia.
    apply Z.mul_eq_0 in A. apply Z.mul_eq_0 in B. destruct p, q. cbn [fst snd] in *. f_equal; lia.
  - intros <-. assert (Z0 : zSq p p = (0 * 0)%Z) by (unfold zSq; rewrite !Z.sub_diag; reflexivity). rewrite Z0 in H. rewrite (root_exact _ 0 H F) by lia. lra.
Qed.
Print Assumptions C234_equal.
Example C234_ex : within 16777216 (3, -5)%Z /\ within 16777216 (-9, 0)%Z /\ distPP (N := FNum) (gpt (3, -5)%Z) (gpt (-9, 0)%Z) = 13%float /\
  fin (nullDistance (thr0 (N := FNum))) /\ 0 < toR (nullDistance (thr0 (N := FNum))) <= 1.
Proof.
  split; [split; cbn [fst snd]; lia|]. split; [split; cbn [fst snd]; lia|]. split; [vm_compute; reflexivity|]. destruct nullD_toR as [F B]. split; [exact F|lra].
Qed.

(** ** C235: circles with integer centers and radii *)

Definition gC (c : Z * Z) (t : Z) : circle float := mkC (gpt c) (FloatFuns.of_Z t).

(** A point with integer coordinates is found inside, on the edge, or outside exactly as it is, although its distance to the
    center is rounded, with any threshold up to 10^-9. *)
Theorem C235_point : forall (th : thrs float) (p c : Z * Z) (t : Z), within 16777216 p -> within 16777216 c -> (0 < t <= 33554432)%Z ->
  fin (nullDistance th) -> 0 < toR (nullDistance th) <= / 1000000000 ->
  (ptInCircle (N := FNum) (gpt p) (gC c t) = true <-> edist (rpt p) (rpt c) < IZR t) /\
  (ptLabel (N := FNum) th (gpt p) (gC c t) = TagInside <-> edist (rpt p) (rpt c) < IZR t) /\
  (ptLabel (N := FNum) th (gpt p) (gC c t) = TagOnEdge <-> edist (rpt p) (rpt c) = IZR t) /\
  (ptLabel (N := FNum) th (gpt p) (gC c t) = TagOutside <-> IZR t < edist (rpt p) (rpt c)).
Proof.
  intros th p c t Hp Hc T Ft D. destruct (distG p c Hp Hc) as [F H]. pose proof (sq_range p c Hp Hc) as S. rewrite edist_zsq.
  assert (Rt : rep (FloatFuns.of_Z t) t) by (apply rep_ofZ; unfold lim; lia). assert (T1 : 1 <= IZR t) by (apply (IZR_le 1); lia).
  pose proof (sqrt_square (IZR t) ltac:(lra)) as Q. rewrite <- mult_IZR in Q.
  assert (C : R_sqrt.sqrt (IZR (zSq p c)) < IZR t <-> (zSq p c < t * t)%Z).
  { rewrite <- Q. split; [intros L; apply sqrt_lt_0_alt in L; now apply lt_IZR|intros L; apply sqrt_lt_1_alt; split; [apply IZR_le; lia|now apply IZR_lt]]. }
  assert (C2 : IZR t < R_sqrt.sqrt (IZR (zSq p c)) <-> (t * t < zSq p c)%Z).
  { rewrite <- Q. split; [intros L; apply sqrt_lt_0_alt in L; now apply lt_IZR|intros L; apply sqrt_lt_1_alt; split; [apply IZR_le; apply Z.square_nonneg|now apply IZR_lt]]. }
  assert (I : ptInCircle (N := FNum) (gpt p) (gC c t) = (zSq p c <? t * t)%Z) by (unfold ptInCircle, gC; cbn [cc cr nltb FNum]; apply root_lt; auto; lia).
  assert (E : (t * t <= zSq p c)%Z -> nltb (Num := FNum) (nabs (Num := FNum) (nsub (Num := FNum) (distPP (N := FNum) (gpt p) (cc (gC c t))) (cr (gC c t)))) (nullDistance th) = (zSq p c =? t * t)%Z).
  { intros L. unfold gC. cbn [cc cr nltb nabs nsub FNum]. apply root_edge; auto; lia. }
  unfold ptLabel. rewrite I. split; [rewrite C; apply Z.ltb_lt|].
  destruct (Z.ltb_spec (zSq p c) (t * t)) as [L|L].
  - assert (R_sqrt.sqrt (IZR (zSq p c)) < IZR t) by now apply C. split; [tauto|]. split; split; intro X; try discriminate; lra.
  - assert (N1 : ~ R_sqrt.sqrt (IZR (zSq p c)) < IZR t) by (rewrite C; lia). rewrite (E L). destruct (Z.eqb_spec (zSq p c) (t * t)) as [Y|Y].
    + assert (N2 : ~ IZR t < R_sqrt.sqrt (IZR (zSq p c))) by (rewrite C2; lia). split; [split; intro X; [discriminate|tauto]|]. split; split; intro X; try discriminate; try reflexivity; try tauto; lra.
    + assert (N2 : IZR t < R_sqrt.sqrt (IZR (zSq p c))) by (apply C2; lia). split; [split; intro X; [discriminate|tauto]|]. split; split; intro X; try discriminate; try reflexivity; try tauto; lra.
Qed.
Print Assumptions C235_point.

(** A circle is found inside another one, or inside a rectangle, exactly if it is. *)
Theorem C235_circle : forall (c d : Z * Z) (t u : Z), within 16777216 c -> within 16777216 d -> (0 < t <= 33554432)%Z -> (0 < u <= 33554432)%Z ->
  (cInCircle (N := FNum) (gC c t) (gC d u) = true <-> edist (rpt c) (rpt d) + IZR t < IZR u).
Proof.
  intros c d t u Hc Hd T U. destruct (distG c d Hc Hd) as [F H]. pose proof (sq_range c d Hc Hd) as S. rewrite edist_zsq. unfold cInCircle, gC. cbn [cc cr nltb nadd FNum].
  set (r := distPP (N := FNum) (gpt c) (gpt d)) in *. set (s := zSq c d) in *.
  assert (Rt : rep (FloatFuns.of_Z t) t) by (apply rep_ofZ; unfold lim; lia). assert (Ru : rep (FloatFuns.of_Z u) u) by (apply rep_ofZ; unfold lim; lia).
  assert (Rd : rep (FloatFuns.of_Z (u - t)) (u - t)) by (apply rep_ofZ; unfold lim; lia).
  assert (T1 : 1 <= IZR t <= 33554432) by (split; [apply (IZR_le 1)|apply (IZR_le _ 33554432)]; lia). assert (U1 : 1 <= IZR u <= 33554432) by (split; [apply (IZR_le 1)|apply (IZR_le _ 33554432)]; lia).
  pose proof (root_err r s H F S) as B. pose proof (sqrt_pos (IZR s)) as P.
  assert (L : R_sqrt.sqrt (IZR s) <= 67108864) by (rewrite <- (sqrt_square 67108864) by lra; apply sqrt_le_1_alt; rewrite <- mult_IZR; apply IZR_le; lia).
  assert (B1 : toR r <= 67108865) by (pose proof (Rle_abs (toR r - R_sqrt.sqrt (IZR s))); lra).
  assert (B0 : 0 <= toR r).
  { assert (R0 : rep (FloatFuns.of_Z 0) 0) by (apply rep_ofZ; unfold lim; lia). pose proof (rnd_ge _ _ _ H F (rep_fin _ _ R0)) as K. rewrite (rep_toR _ _ R0) in K. apply K. lra. }
  pose proof (add_rnd _ _ (rep_fin _ _ Rt) F) as K. rewrite (rep_toR _ _ Rt) in K.
  assert (Fs : fin (FloatFuns.of_Z t + r)%float).
  { apply big_fin with (1 := K). rewrite Rabs_right by lra. apply Rle_trans with (2 ^ 27); [|apply Rle_pow; [lra|lia]]. rewrite pow_IZR. change (2 ^ Z.of_nat 27)%Z with 134217728%Z. lra. }
  rewrite toR_lt by (auto; apply (rep_fin _ _ Ru)). rewrite (rep_toR _ _ Ru). split.
  - intros Y. apply Rnot_le_lt. intros G. apply Rlt_not_le in Y. apply Y. rewrite <- (rep_toR _ _ Ru). apply rnd_ge with (1 := K); [exact Fs|apply (rep_fin _ _ Ru)|]. rewrite (rep_toR _ _ Ru).
    pose proof (rnd_ge _ _ _ H F (rep_fin _ _ Rd)) as X. rewrite (rep_toR _ _ Rd), minus_IZR in X. assert (IZR u - IZR t <= toR r) by (apply X; lra). lra.
  - intros Y. assert (G0 : (0 < u - t)%Z) by (apply lt_IZR; rewrite minus_IZR; lra).
    assert (G1 : (s < (u - t) * (u - t))%Z).
    { apply lt_IZR. rewrite mult_IZR, minus_IZR. apply sqrt_lt_0_alt. rewrite sqrt_square by lra. lra. }
    pose proof (gap s (u - t) ltac:(lia) G0) as G. rewrite minus_IZR in G.
    assert (V1 : 1 <= IZR u - IZR t) by (rewrite <- minus_IZR; apply (IZR_le 1); lia).
    assert (I : / 67108864 <= / (2 * (IZR u - IZR t))) by (apply Rinv_le_contravar; lra).
    pose proof (rnd_err3 _ _ H F) as E1. rewrite (Rabs_right (R_sqrt.sqrt _)), ulp1_val in E1 by lra. pose proof tiny_pw as Q.
    pose proof (rnd_err3 _ _ K Fs) as E2. rewrite (Rabs_right (IZR t + toR r)), ulp1_val in E2 by lra.
    pose proof (Rle_abs (toR r - R_sqrt.sqrt (IZR s))). pose proof (Rle_abs (toR (FloatFuns.of_Z t + r)%float - (IZR t + toR r))). lra.
Qed.
Print Assumptions C235_circle.
Theorem C235_rect : forall (c p q : Z * Z) (t : Z), within 16777216 c -> within 16777216 p -> within 16777216 q -> (0 < t <= 33554432)%Z ->
  (cInRect (N := FNum) (gC c t) (gpt p) (gpt q) = true <-> (fst p < fst c - t /\ fst c + t < fst q /\ snd p < snd c - t /\ snd c + t < snd q)%Z).
Proof.
  intros c p q t Hc Hp Hq T. assert (Rt : rep (FloatFuns.of_Z t) t) by (apply rep_ofZ; unfold lim; lia).
  destruct (gG c Hc) as [Cx Cy], (gG p Hp) as [Px Py], (gG q Hq) as [Qx Qy]. destruct Hc as [A1 A2]. cbn [fst snd] in *.
  unfold cInRect, gC. cbn [cc cr]. cbn [nltb nadd nsub FNum].
  rewrite (rep_ltb _ _ _ _ (rep_add _ _ _ _ Cx Rt ltac:(unfold lim; lia)) Qx), (rep_ltb _ _ _ _ Px (rep_sub _ _ _ _ Cx Rt ltac:(unfold lim; lia))).
  rewrite (rep_ltb _ _ _ _ (rep_add _ _ _ _ Cy Rt ltac:(unfold lim; lia)) Qy), (rep_ltb _ _ _ _ Py (rep_sub _ _ _ _ Cy Rt ltac:(unfold lim; lia))).
  destruct (Z.ltb_spec (fst c + t) (fst q)), (Z.ltb_spec (fst p) (fst c - t)), (Z.ltb_spec (snd c + t) (snd q)), (Z.ltb_spec (snd p) (snd c - t)); split; intro X; try discriminate; try reflexivity; lia.
Qed.
Print Assumptions C235_rect.
Example C235_ex : within 16777216 (16777216, -7)%Z /\ within 16777216 (16777213, -3)%Z /\ ptLabel (N := FNum) (thr0 (N := FNum)) (gpt (16777216, -7)%Z) (gC (16777213, -3)%Z 5) = TagOnEdge /\
  ptLabel (N := FNum) (thr0 (N := FNum)) (gpt (15000000, 0)%Z) (gC (0, 1)%Z 15000000) = TagOutside /\
  fin (nullDistance (thr0 (N := FNum))) /\ 0 < toR (nullDistance (thr0 (N := FNum))) <= / 1000000000.
Proof.
  split; [split; cbn [fst snd]; lia|]. split; [split; cbn [fst snd]; lia|]. split; [vm_compute; reflexivity|]. split; [vm_compute; reflexivity|]. destruct nullD_toR as [F B]. split; [exact F|lra].
Qed.
