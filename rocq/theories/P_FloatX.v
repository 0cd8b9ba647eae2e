(** * Operations of binary64 that are exact *)

From Coq Require Import Reals Lra ZArith Floats Bool Lia List.
From Verif Require Import Num FloatFuns M_LP M_Seg M_Poly S_Geom S_Poly P_Poly S_Float S_FloatZ S_FloatR P_Float P_FloatZ P_FloatZ2 P_FloatR P_FloatE.
Import ListNotations.
Local Open Scope R_scope.

(** A value with at most 53 bits is not changed by the rounding. *)
Lemma rnd_exact r n e : rnd r (IZR n * pw e) -> finS r -> (Z.abs n < 2 ^ 53)%Z -> (-1074 <= e)%Z -> vR r = IZR n * pw e.
Proof.
  intros (s & X & (m & f & F & H & G & Q) & E) Fr B He. destruct Q as [[_ Q]|[Q _]]; [|rewrite Q in Fr; destruct Fr].
  assert (Hn : exists n', X = IZR n' * pw e /\ Z.abs n' = Z.abs n).
  { destruct s; [exists (- n)%Z|exists n]; (split; [rewrite ?opp_IZR; lra|lia]). }
  destruct Hn as (n' & -> & A).
  assert (L : (f <= e)%Z).
  { destruct G as [->|G]; [exact He|]. pose proof (pw_pos e) as Pe. assert (G2 : pw (f + 52) < pw (e + 53)).
    { eapply Rle_lt_trans; [exact G|]. rewrite (Z.add_comm e), pw_add, (pw_Z 53) by lia. apply Rmult_lt_compat_r; [exact Pe|]. apply IZR_lt. lia. }
    apply pw_lt_inv in G2. lia. }
  assert (D : IZR n' * pw e = IZR (n' * 2 ^ (e - f)) * pw f).
  { rewrite mult_IZR, <- pw_Z by lia. rewrite Rmult_assoc, <- pw_add. do 2 f_equal. lia. }
  rewrite D in H. pose proof (pw_pos f) as Pf.
  assert (M : m = (n' * 2 ^ (e - f))%Z).
  { assert (K : Rabs (IZR (m - n' * 2 ^ (e - f))) < 1).
    { rewrite minus_IZR. apply Rmult_lt_reg_r with (pw f); [exact Pf|]. rewrite <- (Rabs_right (pw f)) at 1 by lra. rewrite <- Rabs_mult. rewrite Rmult_minus_distr_r. lra. }
    rewrite <- abs_IZR in K. change 1 with (IZR 1) in K. apply lt_IZR in K. lia. }
  rewrite Q, E, D, M. destruct s; reflexivity.
Qed.
Lemma exact_op r n e : rnd (sf r) (IZR n * pw e) -> fin r -> (Z.abs n < 2 ^ 53)%Z -> (-1074 <= e)%Z -> toR r = IZR n * pw e.
Proof. intros H F B He. rewrite <- toR_vR by exact F. apply rnd_exact; [exact H|now apply fin_sf|exact B|exact He]. Qed.

(** A finite double has at most 53 bits. *)
Lemma bits x : fin x -> exists n e, toR x = IZR n * pw e /\ (Z.abs n < 2 ^ 53)%Z /\ (-1074 <= e)%Z.
Proof.
  intro F. rewrite <- (toR_vR x F). apply fin_sf in F. pose proof (valid_sf x) as V. destruct (sf x) as [s|s| |s m e]; cbn [finS] in F; try tauto.
  - exists 0%Z, 0%Z. rewrite vR_zero. split; [ring|lia].
  - cbn [valid_binary] in V. destruct (valid_bounds m e V) as (b & h & _). rewrite vR_finite by lia.
    exists (if s then - Z.pos m else Z.pos m)%Z, e. split; [destruct s; [rewrite opp_IZR; ring|reflexivity]|]. split; [|lia]. destruct s; lia.
Qed.
Lemma below n e y k : (Z.abs k < 2 ^ 53)%Z -> y = IZR k * pw e -> Rabs (IZR n * pw e) <= Rabs y -> (Z.abs n < 2 ^ 53)%Z.
Proof.
  intros K -> H. pose proof (pw_pos e) as Pe. rewrite !Rabs_mult, (Rabs_right (pw e)) in H by lra. apply Rmult_le_reg_r in H; [|exact Pe]. rewrite <- !abs_IZR in H. apply le_IZR in H. lia.
Qed.

(** Sterbenz: the difference of two doubles, neither more than twice the other, is exact. *)
Lemma sterbenz x y : fin x -> fin y -> toR y / 2 <= toR x <= 2 * toR y -> fin (x - y)%float /\ toR (x - y)%float = toR x - toR y.
Proof.
  intros Fx Fy [H1 H2]. assert (Py : 0 <= toR y) by lra. assert (Px : 0 <= toR x) by lra. pose proof (sub_rnd x y Fx Fy) as R.
  destruct (bits x Fx) as (n & e & Ex & Bn & Le), (bits y Fy) as (m & f & Ey & Bm & Lf).
  assert (Kx : Rabs (toR x - toR y) <= Rabs (toR x)) by (rewrite (Rabs_right (toR x)) by lra; apply Rabs_le; lra).
  assert (Ky : Rabs (toR x - toR y) <= Rabs (toR y)) by (rewrite (Rabs_right (toR y)) by lra; apply Rabs_le; lra).
  pose proof (vR_le _ (valid_sf x)) as Mx. pose proof (vR_le _ (valid_sf y)) as My. rewrite toR_vR in Mx, My by assumption. change 1024%Z with (1 + 1023)%Z in Mx, My. rewrite pw_add, pw_1 in Mx, My.
  assert (F : fin (x - y)%float) by (apply fin_finS; apply (rnd_fin _ _ R); apply Rabs_le; lra). split; [exact F|].
  destruct (Z_le_gt_dec e f) as [L|L].
  - assert (D : toR x - toR y = IZR (n - m * 2 ^ (f - e)) * pw e) by (rewrite Ex, Ey, minus_IZR, mult_IZR, <- pw_Z by lia; rewrite Rmult_minus_distr_r, Rmult_assoc, <- pw_add; do 3 f_equal; lia).
    rewrite D in *. apply exact_op; [exact R|exact F| |exact Le]. now apply (below _ e (toR x) n).
  - assert (D : toR x - toR y = IZR (n * 2 ^ (e - f) - m) * pw f) by (rewrite Ex, Ey, minus_IZR, mult_IZR, <- pw_Z by lia; rewrite Rmult_minus_distr_r, Rmult_assoc, <- pw_add; do 3 f_equal; lia).
    rewrite D in *. apply exact_op; [exact R|exact F| |exact Lf]. now apply (below _ f (toR y) m).
Qed.

(** Half of a double that is null or not tiny is exact. *)
Lemma half_exact x : fin x -> toR x = 0 \/ / 2 ^ 1021 <= Rabs (toR x) -> fin (x / 2)%float /\ toR (x / 2)%float = toR x / 2.
Proof.
  intros F A. assert (F2 : fin 2%float) by reflexivity. assert (V2 : toR 2%float = 2) by (rewrite (rep_toR 2%float 2); [reflexivity|apply (rep_ofZ 2); unfold lim; lia]).
  pose proof (div_rnd x 2%float F F2 ltac:(lra)) as R. rewrite V2 in R. pose proof (vR_le _ (valid_sf x)) as Mx. rewrite toR_vR in Mx by assumption.
  assert (Mn : - pw 1024 <= toR x). { pose proof (vR_le _ (opp_valid _ (valid_sf x))) as Q. rewrite vR_opp, toR_vR in Q by assumption. lra. }
  change 1024%Z with (1 + 1023)%Z in Mx, Mn. rewrite pw_add, pw_1 in Mx, Mn.
  assert (Fh : fin (x / 2)%float) by (apply fin_finS; apply (rnd_fin _ _ R); apply Rabs_le; lra). split; [exact Fh|].
  destruct (bits x F) as (n & e & Ex & Bn & Le). destruct A as [A|A].
  - rewrite A. replace (0 / 2) with (IZR 0 * pw 0) by field. apply exact_op; [|exact Fh|lia|lia]. replace (IZR 0 * pw 0) with (toR x / 2) by (rewrite A; field). exact R.
  - assert (L : (-1074 < e)%Z).
    { destruct (Z.eq_dec e (-1074)) as [->|?]; [exfalso|lia]. rewrite Ex, Rabs_mult, (Rabs_right (pw (-1074))) in A by (pose proof (pw_pos (-1074)); lra).
      rewrite <- abs_IZR in A. rewrite <- pw_npow in A. change (- Z.of_nat 1021)%Z with (53 + -1074)%Z in A. rewrite pw_add, (pw_Z 53) in A by lia. apply Rmult_le_reg_r in A; [|apply pw_pos]. apply le_IZR in A. lia. }
    assert (D : toR x / 2 = IZR n * pw (e - 1)). { rewrite Ex. replace (pw e) with (pw ((e - 1) + 1)) by (f_equal; lia). rewrite pw_add, pw_1. field. }
    rewrite D in *. apply exact_op; [exact R|exact Fh|exact Bn|lia].
Qed.
Lemma two_toR : fin 2%float /\ toR 2%float = 2.
Proof. split; [reflexivity|]. rewrite (rep_toR 2%float 2); [reflexivity|apply (rep_ofZ 2); unfold lim; lia]. Qed.
Lemma double_exact z : fin z -> Rabs (toR z) <= 2 ^ 1022 -> fin (2 * z)%float /\ toR (2 * z)%float = 2 * toR z.
Proof.
  intros F B. destruct two_toR as [F2 V2]. pose proof (mul_rnd 2%float z F2 F) as R. rewrite V2 in R.
  assert (Fd : fin (2 * z)%float). { apply (big_fin _ _ R). rewrite Rabs_mult, (Rabs_right 2) by lra. replace (2 ^ 1023) with (2 * 2 ^ 1022) by (rewrite (tech_pow_Rmult 2 1022); reflexivity). lra. }
  split; [exact Fd|]. destruct (bits z F) as (n & e & Ez & Bn & Le). assert (D : 2 * toR z = IZR n * pw (e + 1)) by (rewrite Ez, pw_add, pw_1; ring).
  rewrite D in *. apply exact_op; [exact R|exact Fd|exact Bn|lia].
Qed.

Lemma mean_sum x y : fin x -> fin y -> Rabs (toR x + toR y) <= 2 ^ 1000 -> toR x + toR y = 0 \/ / 2 ^ 1020 <= Rabs (toR x + toR y) ->
  fin (x + y)%float /\ (toR (x + y)%float = 0 \/ / 2 ^ 1021 <= Rabs (toR (x + y)%float)).
Proof.
  intros Fx Fy B A. pose proof (add_rnd x y Fx Fy) as R. assert (P0 : 0 < 2 ^ 1000) by (apply pow_lt; lra). assert (P1 : 2 ^ 1000 <= 2 ^ 1022) by (apply Rle_pow; [lra|lia]). assert (P2 : 2 ^ 1022 <= 2 ^ 1023) by (apply Rle_pow; [lra|lia]).
  assert (P3 : 2 * 2 ^ 1000 <= 2 ^ 1022). { replace (2 * 2 ^ 1000) with (2 ^ 1001) by (symmetry; rewrite (tech_pow_Rmult 2 1000); reflexivity). apply Rle_pow; [lra|lia]. }
  assert (Q1 : / 2 ^ 1021 = / 2 * / 2 ^ 1020). { rewrite <- Rinv_mult. reflexivity. }
  assert (Q0 : 0 < / 2 ^ 1020) by (apply Rinv_0_lt_compat, pow_lt; lra).
  set (p1000 := 2 ^ 1000) in *. set (p1022 := 2 ^ 1022) in *. set (p1023 := 2 ^ 1023) in *. set (q1020 := / 2 ^ 1020) in *.
  assert (F : fin (x + y)%float) by (apply (big_fin _ _ R); fold p1023; lra). pose proof (add_err x y Fx Fy F) as Er. pose proof ulp1_pos as U. set (s := (x + y)%float) in *. set (Y := toR x + toR y) in *. clearbody s Y.
  assert (PY : 0 <= Rabs Y) by apply Rabs_pos. assert (UY : 0 <= ulp1 * Rabs Y) by (apply Rmult_le_pos; lra). assert (UY2 : ulp1 * Rabs Y <= / 100 * Rabs Y) by (apply Rmult_le_compat_r; lra).
  assert (As : toR s = 0 \/ / 2 ^ 1021 <= Rabs (toR s)).
  { destruct A as [A|A]; [left|right].
    - rewrite A in *. rewrite Rabs_R0 in *. rewrite Rmult_0_r in Er. pose proof (Rabs_pos (toR s - 0)). assert (Z : Rabs (toR s - 0) = 0) by lra. destruct (Req_dec (toR s) 0) as [?|N]; [assumption|]. exfalso. apply (Rabs_no_R0 (toR s - 0)); [lra|exact Z].
    - rewrite Q1. pose proof (Rabs_triang_inv Y (toR s)) as T. rewrite (Rabs_minus_sym Y) in T. lra. }
  split; [exact F|exact As].
Qed.
(** Halving after the rounded sum gives the double nearest to the exact mean. *)
Lemma mean_near x y : fin x -> fin y -> Rabs (toR x + toR y) <= 2 ^ 1000 -> toR x + toR y = 0 \/ / 2 ^ 1020 <= Rabs (toR x + toR y) ->
  nearestD ((x + y) / 2)%float ((toR x + toR y) / 2).
Proof.
  intros Fx Fy B A. pose proof (add_rnd x y Fx Fy) as R. assert (P0 : 0 < 2 ^ 1000) by (apply pow_lt; lra). assert (P1 : 2 ^ 1000 <= 2 ^ 1022) by (apply Rle_pow; [lra|lia]). assert (P2 : 2 ^ 1022 <= 2 ^ 1023) by (apply Rle_pow; [lra|lia]).
  assert (P3 : 2 * 2 ^ 1000 <= 2 ^ 1022). { replace (2 * 2 ^ 1000) with (2 ^ 1001) by (symmetry; rewrite (tech_pow_Rmult 2 1000); reflexivity). apply Rle_pow; [lra|lia]. }
  assert (Q1 : / 2 ^ 1021 = / 2 * / 2 ^ 1020). { rewrite <- Rinv_mult. reflexivity. }
  assert (Q0 : 0 < / 2 ^ 1020) by (apply Rinv_0_lt_compat, pow_lt; lra).
  set (p1000 := 2 ^ 1000) in *. set (p1022 := 2 ^ 1022) in *. set (p1023 := 2 ^ 1023) in *. set (q1020 := / 2 ^ 1020) in *.
  assert (F : fin (x + y)%float) by (apply (big_fin _ _ R); fold p1023; lra). pose proof (add_err x y Fx Fy F) as Er. pose proof ulp1_pos as U. set (s := (x + y)%float) in *. set (Y := toR x + toR y) in *. clearbody s Y.
  assert (PY : 0 <= Rabs Y) by apply Rabs_pos. assert (UY : 0 <= ulp1 * Rabs Y) by (apply Rmult_le_pos; lra). assert (UY2 : ulp1 * Rabs Y <= / 100 * Rabs Y) by (apply Rmult_le_compat_r; lra).
  assert (As : toR s = 0 \/ / 2 ^ 1021 <= Rabs (toR s)).
  { destruct A as [A|A]; [left|right].
    - rewrite A in *. rewrite Rabs_R0 in *. rewrite Rmult_0_r in Er. pose proof (Rabs_pos (toR s - 0)). assert (Z : Rabs (toR s - 0) = 0) by lra. destruct (Req_dec (toR s) 0) as [?|N]; [assumption|]. exfalso. apply (Rabs_no_R0 (toR s - 0)); [lra|exact Z].
    - rewrite Q1. pose proof (Rabs_triang_inv Y (toR s)) as T. rewrite (Rabs_minus_sym Y) in T. lra. }
  destruct (half_exact s F As) as [Fh Vh]. split; [exact Fh|]. intros z Fz. rewrite Vh.
  destruct (Rle_dec (Rabs (toR z)) p1022) as [L|L].
  - destruct (double_exact z Fz L) as [Fd Vd]. pose proof (rnd_near _ _ (sf (2 * z)%float) R (valid_sf _)) as N. rewrite !toR_vR, Vd in N by assumption.
    replace (toR s / 2 - Y / 2) with (/ 2 * (toR s - Y)) by field. replace (toR z - Y / 2) with (/ 2 * (2 * toR z - Y)) by field. rewrite !Rabs_mult. apply Rmult_le_compat_l; [apply Rabs_pos|exact N].
  - replace (toR s / 2 - Y / 2) with (/ 2 * (toR s - Y)) by field. rewrite Rabs_mult, (Rabs_right (/ 2)) by lra. pose proof (Rabs_triang_inv (toR z) (Y / 2)) as T. assert (Y2 : Rabs (Y / 2) = Rabs Y * / 2) by (unfold Rdiv; rewrite Rabs_mult, (Rabs_right (/ 2)) by lra; reflexivity). lra.
Qed.

(** ** Centroids of integer points *)

Definition zCent (l : list (Z * Z)) (f : Z * Z -> Z) : list nat -> Z -> Z :=
  fold_left (fun c i => let p := nth i l zz in let q := nth (nextIdx (length l) i) l zz in c + (f p + f q) * (fst p * snd q - fst q * snd p))%Z.

Lemma cent_bound a b c k : (0 <= k -> - k <= a <= k -> - k <= b <= k -> - (2 * (k * k)) <= c <= 2 * (k * k) -> - (4 * (k * k * k)) <= (a + b) * c <= 4 * (k * k * k))%Z.
Proof.
  intros K A B C. assert (M : (Z.abs ((a + b) * c) <= (2 * k) * (2 * (k * k)))%Z) by (rewrite Z.abs_mul; apply Z.mul_le_mono_nonneg; lia).
  replace (2 * k * (2 * (k * k)))%Z with (4 * (k * k * k))%Z in M by ring. lia.
Qed.

Section Cent.
  Local Open Scope Z_scope.
  Lemma cent_steps k l n : 2 <= k -> Forall (within k) l -> 4 * (k * k * k) * Z.of_nat n < lim -> (1 <= n)%nat ->
    forall idx x y a b, rep x a -> rep y b -> let w := 4 * (k * k * k) * (Z.of_nat n - Z.of_nat (length idx)) in - w <= a <= w -> - w <= b <= w -> (length idx <= n)%nat ->
    let r := fold_left (fun c i => let p1 := nth i (map gpt l) (pt00 (N := FNum)) in let p2 := nth (nextIdx (length l) i) (map gpt l) (pt00 (N := FNum)) in
        let prod := (px p1 * py p2 - px p2 * py p1)%float in ((fst c + (px p1 + px p2) * prod)%float, (snd c + (py p1 + py p2) * prod)%float)) idx (x, y) in
    rep (fst r) (zCent l fst idx a) /\ rep (snd r) (zCent l snd idx b).
  Proof.
    intros K F L Hn. induction idx as [|i idx IH]; intros x y a b Ra Rb w Ba Bb H; [split; assumption|]. cbv zeta. cbn [fold_left zCent]. rewrite !nth_g. cbn [fst snd].
    set (p := nth i l zz). set (q := nth (nextIdx (length l) i) l zz).
    assert (K3 : k <= k * k * k) by nia. assert (K4 : 2 * (k * k) <= k * k * k) by nia. assert (KL : 4 * (k * k * k) < lim) by nia.
    assert (Wp : within k p) by (apply nth_within; [lia|assumption]). assert (Wq : within k q) by (apply nth_within; [lia|assumption]).
    assert (Rx : forall c, within k c -> rep (px (gpt c)) (fst c)) by (intros c [W _]; apply rep_ofZ; lia).
    assert (Ry : forall c, within k c -> rep (py (gpt c)) (snd c)) by (intros c [_ W]; apply rep_ofZ; lia).
    pose proof (prod_bound (fst p) (snd q) k ltac:(lia) ltac:(apply Wp) ltac:(apply Wq)) as U. pose proof (prod_bound (fst q) (snd p) k ltac:(lia) ltac:(apply Wq) ltac:(apply Wp)) as V.
    set (c := fst p * snd q - fst q * snd p). assert (Bc : - (2 * (k * k)) <= c <= 2 * (k * k)) by (unfold c; lia).
    pose proof (cent_bound (fst p) (fst q) c k ltac:(lia) ltac:(apply Wp) ltac:(apply Wq) Bc) as Cx. pose proof (cent_bound (snd p) (snd q) c k ltac:(lia) ltac:(apply Wp) ltac:(apply Wq) Bc) as Cy.
    unfold w in *. cbn [length] in *.
    assert (S1 : 4 * (k * k * k) * (Z.of_nat n - Z.of_nat (length idx)) = 4 * (k * k * k) * (Z.of_nat n - Z.of_nat (S (length idx))) + 4 * (k * k * k)) by lia.
    assert (T : 4 * (k * k * k) * (Z.of_nat n - Z.of_nat (length idx)) <= 4 * (k * k * k) * Z.of_nat n) by (apply Z.mul_le_mono_nonneg_l; lia).
    assert (Rc : rep (px (gpt p) * py (gpt q) - px (gpt q) * py (gpt p))%float c).
    { apply rep_sub; [apply rep_mul; [now apply Rx|now apply Ry|lia]|apply rep_mul; [now apply Rx|now apply Ry|lia]|unfold c in Bc; lia]. }
    destruct Wp as [Wp1 Wp2], Wq as [Wq1 Wq2].
    assert (Sx : rep (px (gpt p) + px (gpt q))%float (fst p + fst q)) by (apply rep_add; [apply Rx; now split|apply Rx; now split|lia]).
    assert (Sy : rep (py (gpt p) + py (gpt q))%float (snd p + snd q)) by (apply rep_add; [apply Ry; now split|apply Ry; now split|lia]).
    set (k3 := 4 * (k * k * k)) in *. set (w0 := k3 * (Z.of_nat n - Z.of_nat (S (length idx)))) in *. set (w1 := k3 * (Z.of_nat n - Z.of_nat (length idx))) in *. set (wn := k3 * Z.of_nat n) in *.
    assert (Px : rep ((px (gpt p) + px (gpt q)) * (px (gpt p) * py (gpt q) - px (gpt q) * py (gpt p)))%float ((fst p + fst q) * c)) by (apply rep_mul; [exact Sx|exact Rc|lia]).
    assert (Py : rep ((py (gpt p) + py (gpt q)) * (px (gpt p) * py (gpt q) - px (gpt q) * py (gpt p)))%float ((snd p + snd q) * c)) by (apply rep_mul; [exact Sy|exact Rc|lia]).
    apply IH; [apply rep_add; [exact Ra|exact Px|lia]|apply rep_add; [exact Rb|exact Py|lia]|fold w1; lia|fold w1; lia|lia].
  Qed.
End Cent.

Lemma cent_real l : forall idx a b,
  fold_left (fun c i => let p1 := nth i (map rpt l) (pt00 (N := RNum)) in let p2 := nth (nextIdx (length l) i) (map rpt l) (pt00 (N := RNum)) in
      let prod := px p1 * py p2 - px p2 * py p1 in (fst c + (px p1 + px p2) * prod, snd c + (py p1 + py p2) * prod)) idx (IZR a, IZR b) = (IZR (zCent l fst idx a), IZR (zCent l snd idx b)).
Proof.
  induction idx as [|i idx IH]; intros a b; [reflexivity|]. set (p := nth i l zz). set (q := nth (nextIdx (length l) i) l zz). set (c := (fst p * snd q - fst q * snd p)%Z).
  change (zCent l fst (i :: idx) a) with (zCent l fst idx (a + (fst p + fst q) * c)%Z). change (zCent l snd (i :: idx) b) with (zCent l snd idx (b + (snd p + snd q) * c)%Z).
  rewrite <- IH. cbn [fold_left]. cbv zeta. f_equal. rewrite !nth_r. fold p q. cbn [px py rpt fst snd]. unfold c. now rewrite !plus_IZR, !mult_IZR, !plus_IZR, !minus_IZR, !mult_IZR.
Qed.
Lemma cent_r l : zArea l <> 0%Z ->
  centroidCalc (N := RNum) (map rpt l) = Ok (mkPt (IZR (zCent l fst (seq 0 (length l)) 0) / IZR (3 * zArea l)) (IZR (zCent l snd (seq 0 (length l)) 0) / IZR (3 * zArea l))).
Proof.
  intro N. unfold centroidCalc. cbv zeta. rewrite area_r. rewrite map_length. pose proof (cent_real l (seq 0 (length l)) 0 0) as E. cbv zeta in E. cbn [nadd nsub nmul ndiv nZ RNum]. rewrite E.
  replace (6 * (IZR (zArea l) / 2)) with (IZR (3 * zArea l)) by (rewrite mult_IZR; field). unfold cdiv. cbn [neqb RNum nZ ndiv].
  assert (Z : Reqb (IZR (3 * zArea l)) 0 = false). { destruct (Reqb (IZR (3 * zArea l)) 0) eqn:Q; [|reflexivity]. apply Reqb_spec in Q. apply (eq_IZR _ 0) in Q. lia. }
  rewrite Z. reflexivity.
Qed.

Lemma eqb_zero x : fin x -> toR x <> 0 -> (x =? 0)%float = false.
Proof.
  intros F N. rewrite FloatAxioms.eqb_spec. change (sf 0%float) with (S754_zero false). rewrite <- toR_vR in N by exact F. apply fin_sf in F.
  destruct (sf x) as [s|s| |s m e]; cbn [finS] in F; [rewrite vR_zero in N; tauto|destruct F|destruct F|destruct s; reflexivity].
Qed.
Lemma eqb_zero2 x : fin x -> toR x = 0 -> (x =? 0)%float = true.
Proof.
  intros F N. rewrite FloatAxioms.eqb_spec. change (sf 0%float) with (S754_zero false). rewrite <- toR_vR in N by exact F. apply fin_sf in F. pose proof (valid_sf x) as V.
  destruct (sf x) as [s|s| |s m e]; cbn [finS] in F; [destruct s; reflexivity|destruct F|destruct F|]. exfalso. cbn [valid_binary] in V. destruct (valid_bounds m e V) as (b & _). rewrite vR_finite in N by lia.
  pose proof (pw_pos e). assert (0 < IZR (Z.pos m)) by (apply IZR_lt; lia). assert (0 < IZR (Z.pos m) * pw e) by now apply Rmult_lt_0_compat. destruct s; lra.
Qed.

Lemma six_area k l : (2 <= k)%Z -> l <> [] -> Forall (within k) l -> (4 * (k * k * k) * Z.of_nat (length l) < lim)%Z ->
  fin (6 * signedArea (N := FNum) (map gpt l))%float /\ toR (6 * signedArea (N := FNum) (map gpt l))%float = IZR (3 * zArea l) /\ (Z.abs (zArea l) <= 2 * k * k * Z.of_nat (length l))%Z.
Proof.
  intros K Nl F L. assert (Ln : (1 <= Z.of_nat (length l))%Z) by (destruct l; [tauto|cbn [length]; lia]). assert (K2 : (k * 1 <= k * k)%Z) by (apply Z.mul_le_mono_nonneg_l; lia). assert (K3 : (k * k * 2 <= k * k * k)%Z) by (apply Z.mul_le_mono_nonneg_l; lia).
  assert (KL1 : (4 * (k * k * k) * 1 <= 4 * (k * k * k) * Z.of_nat (length l))%Z) by (apply Z.mul_le_mono_nonneg_l; lia). assert (KL : (k < lim)%Z) by lia.
  assert (L2 : (8 * (k * k) * Z.of_nat (length l) < lim)%Z). { apply Z.le_lt_trans with (2 := L). apply Z.mul_le_mono_nonneg_r; lia. }
  assert (B : (Z.abs (zArea l) <= 2 * k * k * Z.of_nat (length l))%Z).
  { unfold zArea. set (n := length l) in *. assert (G : forall idx z, (Z.abs z <= 2 * k * k * (Z.of_nat n - Z.of_nat (length idx)))%Z -> (Z.abs (fold_left (fun a i => (a + fst (nth i l zz) * snd (nth (nextIdx n i) l zz) - snd (nth i l zz) * fst (nth (nextIdx n i) l zz))%Z) idx z) <= 2 * k * k * Z.of_nat n)%Z).
    { induction idx as [|i idx IH]; intros z Hz; cbn [fold_left length] in *; [lia|]. apply IH. set (p := nth i l zz). set (q := nth (nextIdx n i) l zz).
      assert (Wp : within k p) by (apply nth_within; [lia|assumption]). assert (Wq : within k q) by (apply nth_within; [lia|assumption]).
      pose proof (prod_bound (fst p) (snd q) k ltac:(lia) ltac:(apply Wp) ltac:(apply Wq)). pose proof (prod_bound (snd p) (fst q) k ltac:(lia) ltac:(apply Wp) ltac:(apply Wq)).
      replace (2 * k * k * (Z.of_nat n - Z.of_nat (length idx)))%Z with (2 * k * k * (Z.of_nat n - Z.of_nat (S (length idx))) + 2 * (k * k))%Z by lia. lia. }
    apply G. rewrite seq_length. lia. }
  destruct (area_g k l ltac:(lia) F ltac:(lia)) as [Fa Va]. assert (R6 : rep 6%float 6) by (apply (rep_ofZ 6); unfold lim; lia). pose proof (mul_rnd 6%float _ (rep_fin _ _ R6) Fa) as R. rewrite (rep_toR _ _ R6), Va in R.
  assert (D : IZR 6 * (IZR (zArea l) / 2) = IZR (3 * zArea l) * pw 0) by (rewrite mult_IZR, pw_0; field). rewrite D in R. assert (Bz : (Z.abs (3 * zArea l) < 2 ^ 53)%Z) by (unfold lim in *; lia).
  assert (F6 : fin (6 * signedArea (N := FNum) (map gpt l))%float).
  { apply (big_fin _ _ R). rewrite pw_0, Rmult_1_r, <- abs_IZR. apply Rle_trans with (IZR (2 ^ 53)); [apply IZR_le; lia|]. rewrite <- pw_Z by lia. change 53%Z with (Z.of_nat 53). rewrite pw_pow. apply Rle_pow; [lra|lia]. }
  split; [exact F6|]. split; [|exact B]. rewrite <- (Rmult_1_r (IZR (3 * zArea l))), <- pw_0. apply exact_op; [exact R|exact F6|exact Bz|lia].
Qed.
Lemma cent_size k l : (2 <= k)%Z -> Forall (within k) l -> (4 * (k * k * k) * Z.of_nat (length l) < lim)%Z ->
  (Z.abs (zCent l fst (seq 0 (length l)) 0) < lim)%Z /\ (Z.abs (zCent l snd (seq 0 (length l)) 0) < lim)%Z.
Proof.
  intros K F L. set (n := length l) in *.
  assert (G : forall f, (forall c, within k c -> - k <= f c <= k)%Z -> forall idx z, (Z.abs z <= 4 * (k * k * k) * (Z.of_nat n - Z.of_nat (length idx)))%Z -> (Z.abs (zCent l f idx z) <= 4 * (k * k * k) * Z.of_nat n)%Z).
  { intros f Hf. induction idx as [|i idx IH]; intros z Hz; [cbn [length zCent fold_left] in *; lia|]. set (p := nth i l zz). set (q := nth (nextIdx n i) l zz). set (c := (fst p * snd q - fst q * snd p)%Z).
    change (zCent l f (i :: idx) z) with (zCent l f idx (z + (f p + f q) * c)%Z). apply IH.
    assert (Wp : within k p) by (apply nth_within; [lia|assumption]). assert (Wq : within k q) by (apply nth_within; [lia|assumption]).
    pose proof (prod_bound (fst p) (snd q) k ltac:(lia) ltac:(apply Wp) ltac:(apply Wq)) as U. pose proof (prod_bound (fst q) (snd p) k ltac:(lia) ltac:(apply Wq) ltac:(apply Wp)) as V.
    pose proof (cent_bound (f p) (f q) c k ltac:(lia) (Hf p Wp) (Hf q Wq) ltac:(unfold c; lia)) as C. cbn [length] in Hz.
    replace (4 * (k * k * k) * (Z.of_nat n - Z.of_nat (length idx)))%Z with (4 * (k * k * k) * (Z.of_nat n - Z.of_nat (S (length idx))) + 4 * (k * k * k))%Z by lia. lia. }
  split; (eapply Z.le_lt_trans; [apply G; [intros c W; apply W|rewrite seq_length; lia]|exact L]).
Qed.

(** The product by 1/2 gives the same double. *)
Lemma half_mul x : fin x -> toR x = 0 \/ / 2 ^ 1021 <= Rabs (toR x) -> fin (x * (1 / 2))%float /\ toR (x * (1 / 2))%float = toR x / 2.
Proof.
  intros F A. destruct (half_toR 1%float 1 ltac:(apply (rep_ofZ 1); unfold lim; lia)) as [F2 V2]. pose proof (mul_rnd x (1 / 2)%float F F2) as R. rewrite V2 in R.
  destruct (half_exact x F A) as [Fd Vd]. replace (toR x * (1 / 2)) with (toR (x / 2)%float) in R by (rewrite Vd; field). rewrite <- Vd. set (h := (x / 2)%float) in *. set (g := (x * (1 / 2))%float) in *. clearbody g h.
  pose proof (rnd_near _ _ (sf h) R (valid_sf h)) as N. rewrite (toR_vR h Fd) in N. replace (toR h - toR h) with 0 in N by ring. rewrite Rabs_R0 in N.
  destruct (bits h Fd) as (n & e & Eh & Bn & Le). assert (Vg : vR (sf g) = toR h). { pose proof (Rabs_pos (vR (sf g) - toR h)) as Q. destruct (Req_dec (vR (sf g)) (toR h)) as [?|Nq]; [assumption|]. exfalso. apply (Rabs_no_R0 (vR (sf g) - toR h)); lra. }
  assert (Fg : fin g). { apply fin_finS. apply (rnd_fin _ _ R). pose proof (vR_le _ (valid_sf x)) as Mx. pose proof (vR_le _ (opp_valid _ (valid_sf x))) as Mn. rewrite vR_opp in Mn. rewrite toR_vR in Mx, Mn by exact F. change 1024%Z with (1 + 1023)%Z in Mx, Mn. rewrite pw_add, pw_1 in Mx, Mn. apply Rabs_le. lra. }
  split; [exact Fg|]. rewrite <- Vg. symmetry. now apply toR_vR.
Qed.
Lemma mean_near2 x y : fin x -> fin y -> Rabs (toR x + toR y) <= 2 ^ 1000 -> toR x + toR y = 0 \/ / 2 ^ 1020 <= Rabs (toR x + toR y) ->
  nearestD ((x + y) * (1 / 2))%float ((toR x + toR y) / 2) /\ toR ((x + y) * (1 / 2))%float = toR ((x + y) / 2)%float.
Proof.
  intros Fx Fy B A. pose proof (mean_near x y Fx Fy B A) as [_ N]. pose proof (mean_sum x y Fx Fy B A) as [F As].
  destruct (half_mul _ F As) as [F1 V1], (half_exact _ F As) as [F2 V2]. split; [split; [exact F1|]|congruence]. intros z Fz. rewrite V1, <- V2. now apply N.
Qed.
