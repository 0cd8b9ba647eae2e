(** * Nearest, farthest and closest points with integer coordinates: binary64 and exact arithmetic agree *)

From Coq Require Import Reals Lra ZArith Floats Bool Lia List Arith.
From Verif Require Import Num FloatFuns M_LP M_Seg M_Poly M_Circle M_Misc S_Geom S_Float S_FloatZ S_FloatR P_LP P_LP2 P_Poly7 P_Float P_FloatZ P_FloatZ2 P_FloatR P_FloatE P_FloatE2 P_FloatX P_FloatG C_FloatG.
Import ListNotations.
Local Open Scope R_scope.

Lemma zero_fin' : fin 0%float /\ toR 0%float = 0.
Proof. assert (R0 : rep 0%float 0) by (change 0%float with (FloatFuns.of_Z 0); apply rep_ofZ; unfold lim; lia). split; [exact (rep_fin _ _ R0)|exact (rep_toR _ _ R0)]. Qed.
Lemma zsq_0 p q : zSq p q = 0%Z -> p = q.
Proof.
  unfold zSq. intros G. pose proof (Z.square_nonneg (fst p - fst q)). pose proof (Z.square_nonneg (snd p - snd q)).
  assert (X : ((fst p - fst q) * (fst p - fst q) = 0)%Z) by lia. assert (Y : ((snd p - snd q) * (snd p - snd q) = 0)%Z) by lia. apply Z.mul_eq_0 in X. apply Z.mul_eq_0 in Y. destruct p, q. cbn [fst snd] in *. f_equal; lia.
Qed.
Lemma zsq_nonneg p q : (0 <= zSq p q)%Z.
Proof. unfold zSq. pose proof (Z.square_nonneg (fst p - fst q)). pose proof (Z.square_nonneg (snd p - snd q)). lia. Qed.
Lemma dist_int p q : p = q \/ 1 <= edist (rpt p) (rpt q).
Proof.
  destruct (Z_le_gt_dec (zSq p q) 0) as [L|G]; [left; apply zsq_0; pose proof (zsq_nonneg p q); lia|right]. rewrite edist_zsq, <- sqrt_1. apply sqrt_le_1_alt. apply (IZR_le 1). lia.
Qed.
Lemma ptEq_int p q : ptEq (N := RNum) (thr0 (N := RNum)) (rpt p) (rpt q) = true <-> p = q.
Proof.
  rewrite ptEq_spec. pose proof thr0_small as T. pose proof (thr_dist _ thr0_ok) as T0. split; [intros L; destruct (dist_int p q) as [E|E]; [exact E|lra]|]. intros ->. rewrite edist_refl. exact T0.
Qed.

Section Find.
  Context (th : thrs float) (far : bool) (q : Z * Z) (l : list (Z * Z)).
  Hypothesis Hq : within 16777216 q.
  Hypothesis Hl : Forall (within 16777216) l.
  Hypothesis Ft : fin (nullDistance th).
  Hypothesis Tt : 0 < toR (nullDistance th) <= 1.
  Let thR := thr0 (N := RNum).

  Lemma nthw i : within 16777216 (nth i l zz). Proof. apply nth_within; [lia|exact Hl]. Qed.
  Lemma eq_same i : ptEq (N := FNum) th (gpt q) (gpt (nth i l zz)) = ptEq (N := RNum) thR (rpt q) (rpt (nth i l zz)).
  Proof. apply eq_iff_eq_true. rewrite (C234_equal th q _ Hq (nthw i) Ft Tt). unfold thR. rewrite ptEq_int. reflexivity. Qed.
  Lemma eq_same2 i : ptEq (N := FNum) th (gpt (nth i l zz)) (gpt q) = ptEq (N := RNum) thR (rpt (nth i l zz)) (rpt q).
  Proof. apply eq_iff_eq_true. rewrite (C234_equal th _ q (nthw i) Hq Ft Tt). unfold thR. rewrite ptEq_int. reflexivity. Qed.
  Lemma sq_rep p p' : within 16777216 p -> within 16777216 p' -> rep (sqDist (N := FNum) (gpt p) (gpt p')) (zSq p p').
  Proof.
    intros Hp Hp'. destruct (gG p Hp) as [A B], (gG p' Hp') as [C D]. pose proof (sq_range p p' Hp Hp') as S. destruct Hp as [P1 P2], Hp' as [Q1 Q2]. unfold sqDist. cbn [nsub nmul nadd FNum].
    set (dx := (fst p - fst p')%Z). set (dy := (snd p - snd p')%Z). pose proof (Z.square_nonneg dx). pose proof (Z.square_nonneg dy). assert (S0 : zSq p p' = (dx * dx + dy * dy)%Z) by reflexivity.
    assert (Rx : rep (px (gpt p) - px (gpt p'))%float dx) by (apply rep_sub; auto; unfold lim; lia). assert (Ry : rep (py (gpt p) - py (gpt p'))%float dy) by (apply rep_sub; auto; unfold lim; lia).
    assert (Rxx := rep_mul _ _ _ _ Rx Rx ltac:(unfold lim; lia)). assert (Ryy := rep_mul _ _ _ _ Ry Ry ltac:(unfold lim; lia)). exact (rep_add _ _ _ _ Rxx Ryy ltac:(unfold lim; lia)).
  Qed.
  Lemma sq_real p p' : sqDist (N := RNum) (rpt p) (rpt p') = IZR (zSq p p').
  Proof. unfold sqDist, rpt, zSq. cbn [nsub nmul nadd RNum px py]. rewrite plus_IZR, !mult_IZR, !minus_IZR. reflexivity. Qed.

  Definition agree (a : nat * float) (b : nat * R) : Prop := fst a = fst b /\ exists z, rep (snd a) z /\ snd b = IZR z.
  Lemma step_agree a b i : agree a b -> agree (fpStep (N := FNum) th far (gpt q) (map gpt l) a i) (fpStep (N := RNum) thR far (rpt q) (map rpt l) b i).
  Proof.
    intros (E & z & Rz & Vz). unfold fpStep. rewrite nth_g, nth_r, (eq_same i). destruct (negb _); [|split; eauto].
    pose proof (sq_rep q (nth i l zz) Hq (nthw i)) as R. pose proof (sq_real q (nth i l zz)) as V. set (s := zSq q (nth i l zz)) in *. cbn [nltb FNum RNum]. rewrite V, Vz, !Rltb_Z, (rep_ltb _ _ _ _ Rz R), (rep_ltb _ _ _ _ R Rz).
    destruct far; [destruct (z <? s)%Z|destruct (s <? z)%Z]; split; cbn [fst snd]; eauto.
  Qed.
  Lemma fold_agree idx : forall a b, agree a b -> fst (fold_left (fpStep (N := FNum) th far (gpt q) (map gpt l)) idx a) = fst (fold_left (fpStep (N := RNum) thR far (rpt q) (map rpt l)) idx b).
  Proof. induction idx as [|i idx IH]; intros a b A; cbn [fold_left]; [apply A|]. apply IH. now apply step_agree. Qed.
  Lemma find_same : findPoint (N := FNum) th far (gpt q) (map gpt l) = findPoint (N := RNum) thR far (rpt q) (map rpt l).
  Proof.
    unfold findPoint. rewrite !map_length. destruct (length l <? 2)%nat; [reflexivity|]. cbv zeta. rewrite !nth_g, !nth_r, (eq_same2 0).
    destruct (ptEq thR _ _); f_equal; apply fold_agree; split; cbn [fst snd]; auto; eexists; (split; [apply sq_rep; [exact Hq|apply nthw]|apply sq_real]).
  Qed.

  Definition agree2 (a : (nat * float) * (nat * float)) (b : (nat * R) * (nat * R)) : Prop := agree (fst a) (fst b) /\ agree (snd a) (snd b).
  Lemma step_agree2 a b i : agree2 a b -> agree2 (nfStep (N := FNum) th (gpt q) (map gpt l) a i) (nfStep (N := RNum) thR (rpt q) (map rpt l) b i).
  Proof.
    destruct a as [[m1 f1] [n1 g1]], b as [[m2 f2] [n2 g2]]. intros [(E & z & Rz & Vz) (E' & w & Rw & Vw)]. cbn [fst snd] in *. subst m2 n2 f2 g2. unfold nfStep. rewrite nth_g, nth_r, (eq_same i).
    destruct (negb _); [|split; split; cbn [fst snd]; eauto].
    pose proof (sq_rep q (nth i l zz) Hq (nthw i)) as R. pose proof (sq_real q (nth i l zz)) as V. set (s := zSq q (nth i l zz)) in *. cbn [nltb FNum RNum fst snd]. rewrite V, !Rltb_Z, (rep_ltb _ _ _ _ Rz R), (rep_ltb _ _ _ _ R Rw).
    destruct (z <? s)%Z, (s <? w)%Z; split; split; cbn [fst snd]; eauto.
  Qed.
  Lemma fold_agree2 idx : forall a b, agree2 a b -> agree2 (fold_left (nfStep (N := FNum) th (gpt q) (map gpt l)) idx a) (fold_left (nfStep (N := RNum) thR (rpt q) (map rpt l)) idx b).
  Proof. induction idx as [|i idx IH]; intros a b A; cbn [fold_left]; [exact A|]. apply IH. now apply step_agree2. Qed.
  Lemma both_same : findNearFar (N := FNum) th (gpt q) (map gpt l) = findNearFar (N := RNum) thR (rpt q) (map rpt l).
  Proof.
    unfold findNearFar. rewrite !map_length. destruct (length l <? 2)%nat; [reflexivity|]. cbv zeta. rewrite !nth_g, !nth_r, (eq_same 0).
    assert (A : forall i, agree (i, sqDist (N := FNum) (gpt q) (gpt (nth i l zz))) (i, sqDist (N := RNum) (rpt q) (rpt (nth i l zz)))) by (intro i; split; [reflexivity|]; eexists; (split; [apply sq_rep; [exact Hq|apply nthw]|apply sq_real])).
    destruct (ptEq thR _ _).
    - destruct (fold_agree2 (seq 2 (length l - 2)) (_, _) (_, _) (conj (A 1%nat) (A 1%nat))) as [[X _] [Y _]]. f_equal. f_equal; [exact Y|exact X].
    - destruct (fold_agree2 (seq 1 (length l - 1)) (_, _) (_, _) (conj (A 0%nat) (A 0%nat))) as [[X _] [Y _]]. f_equal. f_equal; [exact Y|exact X].
  Qed.
End Find.

(** ** Closest points of two sets: the rounded square roots compare as the integers do *)
Lemma root_cmp r r' s s' : rnd (sf r) (R_sqrt.sqrt (IZR s)) -> rnd (sf r') (R_sqrt.sqrt (IZR s')) -> fin r -> fin r' -> (0 <= s < s')%Z -> (s' <= 2 ^ 50)%Z -> toR r < toR r'.
Proof.
  intros H H' F F' S M. assert (M' : (s' <= 1125899906842624)%Z) by exact M. clear M. assert (S1 : IZR s + 1 <= IZR s') by (rewrite <- (plus_IZR s 1); apply IZR_le; lia). assert (S0 : 0 <= IZR s) by (apply IZR_le; lia).
  assert (M2 : IZR s' <= 1125899906842624) by (apply (IZR_le _ 1125899906842624); exact M').
  set (a := R_sqrt.sqrt (IZR s)) in *. set (b := R_sqrt.sqrt (IZR s')) in *. assert (A2 : a * a = IZR s) by (apply sqrt_sqrt; lra). assert (B2 : b * b = IZR s') by (apply sqrt_sqrt; lra).
  assert (A0 : 0 <= a) by apply sqrt_pos. assert (B1 : 1 <= b) by (unfold b; rewrite <- sqrt_1; apply sqrt_le_1_alt; lra). assert (AB : a < b) by (apply sqrt_lt_1_alt; lra).
  assert (G : 1 <= (b - a) * (2 * b)). { apply Rle_trans with ((b - a) * (b + a)); [lra|]. apply Rmult_le_compat_l; lra. }
  pose proof (rnd_err3 _ _ H F) as E. pose proof (rnd_err3 _ _ H' F') as E'. rewrite ulp1_val, (Rabs_right a) in E by lra. rewrite ulp1_val, (Rabs_right b) in E' by lra. pose proof tiny_pw as P.
  pose proof (Rle_abs (toR r - a)) as L. pose proof (Rle_abs (- (toR r' - b))) as L'. rewrite Rabs_Ropp in L'.
  assert (K : 2 * b / 9007199254740992 + 2 * / 1152921504606846976 < b - a); [|lra].
  apply Rmult_lt_reg_r with (2 * b); [lra|]. assert (b <= 33554432) by (unfold b; rewrite <- (sqrt_square 33554432) by lra; apply sqrt_le_1_alt; lra). lra.
Qed.
Lemma dist_sqrt p q : distPP (N := FNum) (gpt p) (gpt q) = PrimFloat.sqrt (sqDist (N := FNum) (gpt p) (gpt q)).
Proof. reflexivity. Qed.
Lemma root_same x y z : rep x z -> rep y z -> (0 <= z)%Z -> fin (PrimFloat.sqrt x) -> fin (PrimFloat.sqrt y) -> toR (PrimFloat.sqrt x) = toR (PrimFloat.sqrt y).
Proof.
  intros X Y Z0 Fx Fy. destruct (rep_same x y z X Y) as [E|[A B]]; [now rewrite E|].
  assert (V : forall f, is_zero f = true -> rep f z -> IZR z = 0).
  { intros f W R. rewrite <- (rep_toR _ _ R). destruct zero_fin' as [F0 V0]. rewrite <- V0. apply toR_same; [exact (rep_fin _ _ R)|exact F0|]. right. split; [exact W|reflexivity]. }
  assert (Hz : forall f, is_zero f = true -> rep f z -> fin (PrimFloat.sqrt f) -> toR (PrimFloat.sqrt f) = 0).
  { intros f W R Ff. pose proof (V f W R) as V0. pose proof (sqrt_rnd f (rep_fin _ _ R)) as H. rewrite (rep_toR _ _ R), V0, sqrt_0 in H. specialize (H (Rle_refl 0)).
    destruct zero_fin' as [F0 V1]. apply Rle_antisym; rewrite <- V1; [apply rnd_le with (1 := H)|apply rnd_ge with (1 := H)]; auto; lra. }
  now rewrite (Hz x A X Fx), (Hz y B Y Fy).
Qed.

Section Closest.
  Context (a b : list (Z * Z)).
  Hypothesis Ha : Forall (within 8388608) a.
  Hypothesis Hb : Forall (within 8388608) b.
  Let D i j := zSq (nth i a zz) (nth j b zz).

  Lemma wide p : within 8388608 p -> within 16777216 p. Proof. intros [A B]. split; lia. Qed.
  Lemma D_range i j : (0 <= D i j <= 2 ^ 50)%Z.
  Proof.
    split; [apply zsq_nonneg|]. destruct (nth_within 8388608 a i ltac:(lia) Ha) as [A B], (nth_within 8388608 b j ltac:(lia) Hb) as [A' B']. unfold D, zSq.
    assert (W : forall x y, (- 8388608 <= x <= 8388608 -> - 8388608 <= y <= 8388608 -> (x - y) * (x - y) <= 2 ^ 48)%Z).
    { intros x y X Y. rewrite <- (Z.abs_square (x - y)). change (2 ^ 48)%Z with (16777216 * 16777216)%Z. apply Z.mul_le_mono_nonneg; lia. }
    pose proof (W _ _ A A'). pose proof (W _ _ B B'). lia.
  Qed.
  Lemma D_dist i j : let r := distPP (N := FNum) (gpt (nth i a zz)) (gpt (nth j b zz)) in fin r /\ rnd (sf r) (R_sqrt.sqrt (IZR (D i j))).
  Proof. apply distG; apply wide; apply nth_within; auto; lia. Qed.
  Lemma D_lt i j i' j' : (distPP (N := FNum) (gpt (nth i a zz)) (gpt (nth j b zz)) <? distPP (N := FNum) (gpt (nth i' a zz)) (gpt (nth j' b zz)))%float = (D i j <? D i' j')%Z.
  Proof.
    destruct (D_dist i j) as [F H], (D_dist i' j') as [F' H']. pose proof (D_range i j) as R1. pose proof (D_range i' j') as R2. destruct (Z.ltb_spec (D i j) (D i' j')) as [L|L].
    - apply toR_lt; auto. apply (root_cmp _ _ (D i j) (D i' j')); auto; lia.
    - apply toR_ge; auto. destruct (Z.eq_dec (D i j) (D i' j')) as [E|N]; [right|apply Rlt_le; apply (root_cmp _ _ (D i' j') (D i j)); auto; lia].
      symmetry. rewrite !dist_sqrt in *. apply root_same with (z := D i j); auto; [|rewrite E|lia]; apply sq_rep; apply wide; apply nth_within; auto; lia.
  Qed.
  Lemma D_real i j i' j' : Rltb (edist (rpt (nth i a zz)) (rpt (nth j b zz))) (edist (rpt (nth i' a zz)) (rpt (nth j' b zz))) = (D i j <? D i' j')%Z.
  Proof.
    rewrite !edist_zsq. fold (D i j) (D i' j'). pose proof (D_range i j) as R1. pose proof (D_range i' j') as R2. destruct (Z.ltb_spec (D i j) (D i' j')) as [L|L].
    - apply Rltb_spec. apply sqrt_lt_1_alt. split; [apply IZR_le; lia|now apply IZR_lt].
    - apply Rltb_false. apply sqrt_le_1_alt. now apply IZR_le.
  Qed.
  Definition agreeC (x : cpState (T := float)) (y : cpState (T := R)) : Prop :=
    exists i j, x = (distPP (N := FNum) (gpt (nth i a zz)) (gpt (nth j b zz)), i, j) /\ y = (edist (rpt (nth i a zz)) (rpt (nth j b zz)), i, j).
  Lemma stepC i x y j : agreeC x y -> agreeC (cpStep (N := FNum) (map gpt a) (map gpt b) i x j) (cpStep (N := RNum) (map rpt a) (map rpt b) i y j).
  Proof.
    intros (i' & j' & -> & ->). unfold cpStep. rewrite !nth_g, !nth_r. cbn [fst snd nltb FNum RNum]. change (@distPP R RNum) with edist. rewrite D_lt, D_real.
    destruct (D i j <? D i' j')%Z; [exists i, j|exists i', j']; split; reflexivity.
  Qed.
  Lemma foldC i idx : forall x y, agreeC x y -> agreeC (fold_left (cpStep (N := FNum) (map gpt a) (map gpt b) i) idx x) (fold_left (cpStep (N := RNum) (map rpt a) (map rpt b) i) idx y).
  Proof. induction idx as [|j idx IH]; intros x y A; cbn [fold_left]; [exact A|]. apply IH. now apply stepC. Qed.
  Lemma foldCC n idx : forall x y, agreeC x y -> agreeC (fold_left (fun st i => fold_left (cpStep (N := FNum) (map gpt a) (map gpt b) i) (seq 0 n) st) idx x) (fold_left (fun st i => fold_left (cpStep (N := RNum) (map rpt a) (map rpt b) i) (seq 0 n) st) idx y).
  Proof. induction idx as [|j idx IH]; intros x y A; cbn [fold_left]; [exact A|]. apply IH. now apply foldC. Qed.
  Lemma closest_same : a <> [] -> b <> [] -> exists x y, closestPoints (N := FNum) (map gpt a) (map gpt b) = Ok x /\ closestPoints (N := RNum) (map rpt a) (map rpt b) = Ok y /\ agreeC x y.
  Proof.
    intros A B. pose proof (foldCC (length b) (seq 0 (length a)) (distPP (N := FNum) (gpt (nth 0 a zz)) (gpt (nth 0 b zz)), 0%nat, 0%nat) (edist (rpt (nth 0 a zz)) (rpt (nth 0 b zz)), 0%nat, 0%nat)) as K.
    specialize (K ltac:(exists 0%nat, 0%nat; split; reflexivity)).
    assert (E1 : forall T (M : Num T) (x y : list (pt T)), x <> [] -> y <> [] -> closestPoints x y = Ok (fold_left (fun st i => fold_left (cpStep x y i) (seq 0 (length y)) st) (seq 0 (length x)) (distPP (nth 0 x pt00) (nth 0 y pt00), 0%nat, 0%nat)))
      by (intros T M [|x0 x] [|y0 y] X Y; [tauto|tauto|tauto|reflexivity]).
    assert (N : forall T (f : Z * Z -> T) l, l <> [] -> map f l <> []) by (intros T f [|? ?] X Y; [tauto|discriminate]).
    eexists. eexists. rewrite (E1 _ FNum), (E1 _ RNum) by auto. split; [reflexivity|]. split; [reflexivity|]. rewrite !map_length, !nth_g, !nth_r. change (@distPP R RNum) with edist. exact K.
  Qed.
End Closest.
