(** * Lemmas on the drawing of a line *)

From Coq Require Import Reals ZArith List Bool Lra Lia.
From Verif Require Import Num M_LP M_Seg M_FRect M_Inter S_Geom S_Seg S_FRect S_Rect2 P_LP P_LP2 P_LP4 P_Seg P_BB P_FRect P_FRect2 P_Poly7 P_Rect2 M_LineDraw.
Import ListNotations.
Local Open Scope R_scope.

(** A point of the border between two points of the rectangle. *)
Lemma middleR r l a b m t : wfR r -> noSide r l -> onL l a -> onL l b -> inR r a -> inR r b -> onBorder r m ->
  0 < t < 1 -> px m = px a + t * (px b - px a) -> py m = py a + t * (py b - py a) -> a = b.
Proof.
  intros W N Oa Ob [A1 A2] [B1 B2] [_ M] T X Y.
  assert ((1 - t) * (px a - px (r1 r)) + t * (px b - px (r1 r)) = px m - px (r1 r)) as E1 by (rewrite X; ring).
  assert ((1 - t) * (px (r2 r) - px a) + t * (px (r2 r) - px b) = px (r2 r) - px m) as E2 by (rewrite X; ring).
  assert ((1 - t) * (py a - py (r1 r)) + t * (py b - py (r1 r)) = py m - py (r1 r)) as E3 by (rewrite Y; ring).
  assert ((1 - t) * (py (r2 r) - py a) + t * (py (r2 r) - py b) = py (r2 r) - py m) as E4 by (rewrite Y; ring).
  assert (Z : forall u v, 0 <= u -> 0 <= v -> (1 - t) * u + t * v = 0 -> u = 0 /\ v = 0) by (intros u v; nra).
  destruct M as [M|[M|[M|M]]].
  - destruct (Z (px a - px (r1 r)) (px b - px (r1 r))); try lra. apply (noSide_v r l); auto; lra.
  - destruct (Z (px (r2 r) - px a) (px (r2 r) - px b)); try lra. apply (noSide_v r l); auto; lra.
  - destruct (Z (py a - py (r1 r)) (py b - py (r1 r))); try lra. apply (noSide_h r l); auto; lra.
  - destruct (Z (py (r2 r) - py a) (py (r2 r) - py b)); try lra. apply (noSide_h r l); auto; lra.
Qed.
Lemma onL_cross l a b q : proper l -> onL l a -> onL l b -> onL l q -> cross3 a b q = 0.
Proof.
  unfold cross3, onL. intros P Oa Ob Oq. destruct P as [P|P].
  - apply Rmult_eq_reg_l with (la l); auto. transitivity ((py q - py a) * (la l * (px b - px a) + lb l * (py b - py a)) - (py b - py a) * (la l * (px q - px a) + lb l * (py q - py a))); [ring|].
    replace (la l * (px b - px a) + lb l * (py b - py a)) with 0 by lra. replace (la l * (px q - px a) + lb l * (py q - py a)) with 0 by lra. ring.
  - apply Rmult_eq_reg_l with (lb l); auto. transitivity ((px b - px a) * (la l * (px q - px a) + lb l * (py q - py a)) - (px q - px a) * (la l * (px b - px a) + lb l * (py b - py a))); [ring|].
    replace (la l * (px b - px a) + lb l * (py b - py a)) with 0 by lra. replace (la l * (px q - px a) + lb l * (py q - py a)) with 0 by lra. ring.
Qed.
Lemma onSeg_onL l a b q : onL l a -> onL l b -> onSeg a b q -> onL l q.
Proof.
  intros A B (t & _ & X & Y). unfold onL in *. rewrite X, Y.
  transitivity ((1 - t) * (la l * px a + lb l * py a + lc l) + t * (la l * px b + lb l * py b + lc l)); [ring|]. rewrite A, B. ring.
Qed.
Lemma onSeg_inR r a b q : inR r a -> inR r b -> onSeg a b q -> inR r q.
Proof. intros [A1 A2] [B1 B2] (t & T & X & Y). unfold inR. rewrite X, Y. split; split; nra. Qed.

(** The part of the line in the rectangle, between its two points on the border. *)
Lemma chord r l p q z : wfR r -> noSide r l -> proper l -> onL l p -> onL l q -> onBorder r p -> onBorder r q -> p <> q ->
  (onSeg p q z <-> onL l z /\ inR r z).
Proof.
  intros W N P Op Oq Bp Bq NE. split.
  - intros H. split; [exact (onSeg_onL l p q z Op Oq H)|]. exact (onSeg_inR r p q z (proj1 Bp) (proj1 Bq) H).
  - intros [Oz Iz]. destruct (line_param p q z NE (onL_cross l p q z P Op Oq Oz)) as (t & E).
    assert (px z = px p + t * (px q - px p)) as X by (rewrite E; reflexivity). assert (py z = py p + t * (py q - py p)) as Y by (rewrite E; reflexivity).
    exists t. split; [|auto]. split; apply Rnot_lt_le; intros L.
    + assert (z = q) as EQ; [|rewrite EQ in X, Y; apply NE; assert ((1 - t) * (px q - px p) = 0) as Z1 by lra; assert ((1 - t) * (py q - py p) = 0) as Z2 by lra; apply Rmult_integral in Z1; apply Rmult_integral in Z2; apply pt_eq; lra].
      destruct Bq. apply (middleR r l z q p (- t / (1 - t))); auto.
      * split; [apply Rdiv_lt_0_compat; lra|]. apply Rmult_lt_reg_r with (1 - t); [lra|]. unfold Rdiv. rewrite Rmult_assoc, Rinv_l by lra. lra.
      * rewrite X. field. lra.
      * rewrite Y. field. lra.
    + assert (p = z) as EQ; [|rewrite <- EQ in X, Y; apply NE; assert (t * (px q - px p) = 0) as Z1 by lra; assert (t * (py q - py p) = 0) as Z2 by lra; apply Rmult_integral in Z1; apply Rmult_integral in Z2; apply pt_eq; lra].
      destruct Bp. apply (middleR r l p z q (1 / t)); auto.
      * split; [apply Rdiv_lt_0_compat; lra|]. apply Rmult_lt_reg_r with t; [lra|]. unfold Rdiv. rewrite Rmult_assoc, Rinv_l by lra. lra.
      * rewrite X. field. lra.
      * rewrite Y. field. lra.
Qed.

(** From an inner point every direction leaves the rectangle. *)
Lemma exit1 u lo hi d : lo < u < hi -> d <> 0 -> exists t, 0 < t /\ (u + t * d = lo \/ u + t * d = hi) /\ forall s, 0 <= s <= t -> lo <= u + s * d <= hi.
Proof.
  intros B D. destruct (Rlt_dec 0 d) as [P|P].
  - exists ((hi - u) / d). assert (0 < (hi - u) / d) as Q by (apply Rdiv_lt_0_compat; lra). assert ((hi - u) / d * d = hi - u) as E by (field; lra).
    split; [lra|]. split; [right; lra|]. intros s [S1 S2]. split; [nra|]. assert (s * d <= (hi - u) / d * d) by (apply Rmult_le_compat_r; lra). lra.
  - exists ((u - lo) / - d). assert (0 < (u - lo) / - d) as Q by (apply Rdiv_lt_0_compat; lra). assert ((u - lo) / - d * d = lo - u) as E by (field; lra).
    split; [lra|]. split; [left; lra|]. intros s [S1 S2]. split; [|nra]. assert (s * - d <= (u - lo) / - d * - d) by (apply Rmult_le_compat_r; lra). lra.
Qed.
Lemma exitR r z dx dy : inRO r z -> dx <> 0 \/ dy <> 0 -> exists t, 0 < t /\ onBorder r (mkPt (px z + t * dx) (py z + t * dy)).
Proof.
  intros [X Y] D. unfold onBorder, inR. cbn [px py]. destruct (Req_dec dx 0) as [Dx|Dx].
  - subst dx. destruct (exit1 (py z) _ _ dy Y) as (t & T & E & K); [lra|]. exists t. specialize (K t ltac:(lra)). rewrite Rmult_0_r, Rplus_0_r. split; auto. split; [split; [lra|exact K]|]. tauto.
  - destruct (exit1 (px z) _ _ dx X Dx) as (t & T & E & K). destruct (Req_dec dy 0) as [Dy|Dy].
    + subst dy. exists t. specialize (K t ltac:(lra)). rewrite Rmult_0_r, Rplus_0_r. split; auto. split; [split; [exact K|lra]|]. tauto.
    + destruct (exit1 (py z) _ _ dy Y Dy) as (s & S & F & L). destruct (Rle_dec t s) as [H|H].
      * exists t. split; auto. split; [split; [apply K; lra|apply L; lra]|]. tauto.
      * exists s. split; auto. split; [split; [apply K; lra|apply L; lra]|]. tauto.
Qed.
Lemma inner_two r l z : inRO r z -> onL l z -> unitL l -> exists a b, a <> b /\ onL l a /\ onL l b /\ onBorder r a /\ onBorder r b.
Proof.
  intros I O U. unfold unitL in U. assert (lb l <> 0 \/ - la l <> 0) as D by (destruct (Req_dec (lb l) 0) as [E|]; [right; intros F; assert (la l = 0) as G by lra; rewrite E, G in U; lra|auto]).
  destruct (exitR r z (lb l) (- la l) I D) as (t & T & B). destruct (exitR r z (- lb l) (la l) I) as (s & S & C); [lra|].
  do 2 eexists. split; [|split; [|split; [|split; [exact B|exact C]]]].
  - intros E. injection E as E1 E2. assert ((t + s) * lb l = 0) as F1 by lra. assert ((t + s) * la l = 0) as F2 by lra. apply Rmult_integral in F1. apply Rmult_integral in F2. destruct F1; [lra|]. destruct F2; [lra|]. lra.
  - unfold onL in *. cbn [px py]. lra.
  - unfold onL in *. cbn [px py]. lra.
Qed.

(** The two points are apart. *)
Lemma corner_apart th r l p q x y : thr_ok th -> bigR th r -> unitL l -> cornerClear th r l -> noSide r l ->
  onL l p -> onL l q -> onBorder r p -> onBorder r q -> p <> q -> isCorner r (mkPt x y) -> px p = x -> py q = y -> nullDistance th <= edist p q.
Proof.
  intros Ht G U CC N Op Oq Bp Bq NE C X Y. assert (wfR r) as W by (destruct G as [[] _]; pose proof (thr_dist th Ht); split; lra).
  destruct (CC _ C) as [O|O].
  - exfalso. apply NE. destruct C as [C1 C2]. cbn [px py] in C1, C2. transitivity (mkPt x y).
    + apply (noSide_v r l); auto. cbn [px]. rewrite X. exact C1.
    + symmetry. apply (noSide_h r l); auto. cbn [py]. rewrite Y. exact C2.
  - pose proof (lineDist_lower l (mkPt x y) p (unit_proper _ U) Op) as LD. rewrite lineDist_unit in LD by auto. cbn [px py] in O, LD.
    apply (Rle_trans _ _ _ O). apply (Rle_trans _ _ _ LD). unfold edist. apply sqrt_le_1_alt. cbn [px py]. rewrite X, Y. pose proof (Rle_0_sqr (x - px q)) as S1. unfold Rsqr in *. lra.
Qed.
Lemma border_apart th r l p q : thr_ok th -> bigR th r -> unitL l -> cornerClear th r l -> noSide r l ->
  onL l p -> onL l q -> onBorder r p -> onBorder r q -> p <> q -> nullDistance th <= edist p q.
Proof.
  intros Ht G U CC N Op Oq Bp Bq NE. assert (wfR r) as W by (destruct G as [[] _]; pose proof (thr_dist th Ht); split; lra).
  pose proof (edist_ge_x p q) as DX. pose proof (edist_ge_y p q) as DY. pose proof G as [[G1 G2] _].
  assert (px p = px q -> (px p = px (r1 r) \/ px p = px (r2 r)) -> False) as SV by (intros E F; apply NE; now apply (noSide_v r l)).
  assert (py p = py q -> (py p = py (r1 r) \/ py p = py (r2 r)) -> False) as SH by (intros E F; apply NE; now apply (noSide_h r l)).
  assert (Dp := proj2 Bp). assert (Dq := proj2 Bq).
  assert ((px p = px (r1 r) \/ px p = px (r2 r)) \/ (py p = py (r1 r) \/ py p = py (r2 r))) as [P|P] by tauto;
  assert ((px q = px (r1 r) \/ px q = px (r2 r)) \/ (py q = py (r1 r) \/ py q = py (r2 r))) as [Q|Q] by tauto.
  - unfold Rabs in *. destruct (Rcase_abs (px p - px q)); destruct P as [P|P], Q as [Q|Q]; rewrite P, Q in *; try lra; exfalso; auto.
  - apply (corner_apart th r l p q (px p) (py q)); auto. split; auto.
  - rewrite edist_sym. apply (corner_apart th r l q p (px q) (py p)); auto. split; auto.
  - unfold Rabs in *. destruct (Rcase_abs (py p - py q)); destruct P as [P|P], Q as [Q|Q]; rewrite P, Q in *; try lra; exfalso; auto.
Qed.

Lemma interGet_two (p q : pt R) : exists a b, interGet [p; q] = [a; b] /\ ((a = p /\ b = q) \/ (a = q /\ b = p)).
Proof. unfold interGet. cbn [fold_right sortInsert]. destruct (ptLt q p); do 2 eexists; split; try reflexivity; auto. Qed.
Lemma svNew_has th p q : nullDistance th <= edist p q -> exists s, svNew th KSeg p q = Ok s /\ forall z, segHas s z <-> onSeg p q z.
Proof.
  intros D. unfold svNew. rewrite ptEq_far by auto. eexists. split; [reflexivity|]. intros z. unfold segHas, segOrder, fixOrder. cbn [sA sB].
  destruct (ptLt p q); cbn [negb sA sB]; [reflexivity|apply onSeg_sym].
Qed.
