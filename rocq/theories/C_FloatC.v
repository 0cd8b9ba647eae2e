(** * Properties C236 and C237: intersections of two circles in binary64 *)

From Coq Require Import Reals Lra ZArith Floats Bool Lia List.
From Verif Require Import Num FloatFuns M_LP M_Seg M_Poly M_FRect M_Circle S_Geom S_Float S_FloatZ S_FloatR P_LP P_Float P_FloatZ P_FloatZ2 P_FloatR P_FloatE P_FloatE2 P_FloatX P_FloatG C_FloatR C_FloatL C_FloatG P_FloatC P_FloatC2 P_FloatC3.
Import ListNotations.
Local Open Scope R_scope.

(** ** C236: the intersection of two circles is always defined *)

(** Full statement: [forall th c d, 0 < cr c -> 0 < cr d -> circleCircle th c d <> Undef].  Two circles of radius 0.1 with centers (0,0) and (0.2,0)
    touch; the rounded square of a is larger than that of the radius, and the code takes the square root of a negative number. *)
Theorem C236_refuted : exists c d : circle float, (0 <? cr c)%float = true /\ (0 <? cr d)%float = true /\ circleCircle (N := FNum) (thr0 (N := FNum)) c d = Undef.
Proof. exists (mkC (mkPt 0 0) 0.1)%float, (mkC (mkPt 0.2 0) 0.1)%float. split; [reflexivity|]. split; [reflexivity|]. vm_compute. reflexivity. Qed.
Print Assumptions C236_refuted.


(** ** C237: circles with integer centers and radii *)

(** The number of points found is the exact one: none for equal, distant or nested circles, one for circles that touch, from the outside or from
    the inside, and two for circles that cross.  All coordinates computed are finite. *)
Theorem C237_count : forall (th : thrs float) (c d : Z * Z) (t u : Z), within 16777216 c -> within 16777216 d -> (0 < t <= 65536)%Z -> (0 < u <= 65536)%Z ->
  fin (nullDistance th) -> 0 < toR (nullDistance th) <= / 500 ->
  let v := circleCircle (N := FNum) th (gC c t) (gC d u) in
  let dist := edist (rpt c) (rpt d) in
  ((c = d /\ t = u) \/ IZR t + IZR u < dist \/ dist < Rabs (IZR t - IZR u) -> v = Ok []) /\
  (~ (c = d /\ t = u) -> dist = IZR t + IZR u \/ dist = Rabs (IZR t - IZR u) -> exists p, v = Ok [p] /\ finP p) /\
  (Rabs (IZR t - IZR u) < dist < IZR t + IZR u -> exists p q, v = Ok [p; q] /\ finP p /\ finP q).
Proof.
  intros th c d t u Hc Hd T U Ft Tt v dist. pose proof (sq_range c d Hc Hd) as S. assert (E : dist = R_sqrt.sqrt (IZR (zSq c d))) by apply edist_zsq. assert (Sp : 0 <= IZR (zSq c d)) by (apply IZR_le; lia).
  assert (D0 : 0 <= dist) by (rewrite E; apply sqrt_pos). assert (D2 : dist * dist = IZR (zSq c d)) by (rewrite E; apply sqrt_sqrt; exact Sp).
  assert (T1 : 1 <= IZR t) by (apply (IZR_le 1); lia). assert (U1 : 1 <= IZR u) by (apply (IZR_le 1); lia).
  assert (A2 : Rabs (IZR t - IZR u) * Rabs (IZR t - IZR u) = IZR ((t - u) * (t - u))) by (rewrite <- Rabs_mult, Rabs_right by (apply Rle_ge, Rle_0_sqr); rewrite mult_IZR, minus_IZR; reflexivity).
  assert (B2 : (IZR t + IZR u) * (IZR t + IZR u) = IZR ((t + u) * (t + u))) by (rewrite mult_IZR, plus_IZR; reflexivity). pose proof (Rabs_pos (IZR t - IZR u)) as A0.
  assert (L : forall x y, 0 <= x < y -> x * x < y * y) by (intros x y X; apply Rmult_le_0_lt_compat; lra).
  assert (Pz : (0 < t * u)%Z) by (apply Z.mul_pos_pos; lia). assert (W : ((t - u) * (t - u) < (t + u) * (t + u))%Z) by lia.
  assert (Sm : (c = d \/ 0 < zSq c d)%Z).
  { unfold zSq. pose proof (Z.square_nonneg (fst c - fst d)). pose proof (Z.square_nonneg (snd c - snd d)). destruct (Z_le_gt_dec (zSq c d) 0) as [G|G]; [left|right; unfold zSq in G; lia]. unfold zSq in G.
    assert (X : ((fst c - fst d) * (fst c - fst d) = 0)%Z) by lia. assert (Y : ((snd c - snd d) * (snd c - snd d) = 0)%Z) by lia. apply Z.mul_eq_0 in X. apply Z.mul_eq_0 in Y. destruct c, d. cbn [fst snd] in *. f_equal; lia. }
  assert (S0 : c = d -> zSq c d = 0%Z) by (intros ->; unfold zSq; rewrite !Z.sub_diag; reflexivity).
  split; [|split].
  - intros O. apply none_out; try assumption; [lra|]. destruct O as [O|[O|O]]; [left; exact O|right; left|right; right]; apply lt_IZR; rewrite <- D2; [rewrite <- B2|rewrite <- A2]; apply L; lra.
  - intros N O. assert (Q : zSq c d = ((t + u) * (t + u))%Z \/ zSq c d = ((t - u) * (t - u))%Z) by (destruct O as [O|O]; [left|right]; apply eq_IZR; rewrite <- D2, O; assumption).
    assert (P : (0 < zSq c d)%Z).
    { destruct Sm as [G|G]; [|exact G]. pose proof (S0 G) as Z0. assert (K : (t - u <> 0)%Z) by (intro K; apply N; split; [exact G|lia]). exfalso. rewrite Z0 in Q. destruct Q as [Q|Q]; [lia|]. symmetry in Q. apply Z.mul_eq_0 in Q. lia. }
    apply one_out; try assumption; [lra|lia].
  - intros [O1 O2]. assert (Q : ((t - u) * (t - u) < zSq c d < (t + u) * (t + u))%Z) by (split; apply lt_IZR; rewrite <- D2; [rewrite <- A2|rewrite <- B2]; apply L; lra).
    pose proof (Z.square_nonneg (t - u)). apply two_out; try assumption; [lra|lia|lia| |lra]. intros [G _]. rewrite (S0 G) in Q. lia.
Qed.
Print Assumptions C237_count.
Example C237_ex : within 16777216 (-3, 2)%Z /\ within 16777216 (5, 8)%Z /\ (0 < 6 <= 65536)%Z /\ (0 < 4 <= 65536)%Z /\ edist (rpt (-3, 2)%Z) (rpt (5, 8)%Z) = IZR 6 + IZR 4 /\
  fin (nullDistance (thr0 (N := FNum))) /\ 0 < toR (nullDistance (thr0 (N := FNum))) <= / 500 /\
  (exists p, circleCircle (N := FNum) (thr0 (N := FNum)) (gC (-3, 2)%Z 6%Z) (gC (5, 8)%Z 4%Z) = Ok [p]) /\
  (exists p q, circleCircle (N := FNum) (thr0 (N := FNum)) (gC (-3, 2)%Z 65536%Z) (gC (65532, 3)%Z 1%Z) = Ok [p; q]) /\
  circleCircle (N := FNum) (thr0 (N := FNum)) (gC (-3, 2)%Z 6%Z) (gC (5, 8)%Z 3%Z) = Ok [].
Proof.
  split; [split; cbn [fst snd]; lia|]. split; [split; cbn [fst snd]; lia|]. split; [lia|]. split; [lia|]. split.
  { rewrite edist_zsq. change (zSq (-3, 2)%Z (5, 8)%Z) with (10 * 10)%Z. rewrite mult_IZR, sqrt_square by lra. lra. }
  destruct nullD_toR as [F B]. split; [exact F|]. split; [lra|]. split; [eexists; vm_compute; reflexivity|]. split; [eexists; eexists; vm_compute; reflexivity|vm_compute; reflexivity].
Qed.
