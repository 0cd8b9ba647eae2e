(** * Properties of bisector lines and of the distance of parallel lines *)

From Coq Require Import Reals Lra Lia List Bool Arith.
From Verif Require Import Num M_LP M_Homogr M_Seg M_Poly M_Offset S_Geom S_Homogr S_Seg S_Poly S_Offset P_LP P_LP2 P_LP4 P_Seg P_Seg2 P_Poly P_Poly7 P_Bisector.
Import ListNotations.
Local Open Scope R_scope.

(** ** C123 *)
(** One line for each corner, the bisector of the corner. *)
Theorem C123_bisectors : forall th closed pts, thr_ok th -> nullDeter th <= 1 -> (3 <= length pts)%nat ->
  (forall a p b, In (a, (p, b)) (polyCorners closed pts pt00) ->
     nullDistance th <= edist p a /\ dblEpsilon th < edist p a /\ nullDistance th <= edist p b /\ dirOK th p a /\ bisOK th p a b) ->
  exists ls, plBisectorLines th closed pts = Ok ls /\ length ls = (if closed then length pts else length pts - 2)%nat /\
    Forall2 (fun c l => bisects l (fst (snd c)) (fst c) (snd (snd c))) (polyCorners closed pts pt00) ls.
Proof.
  intros th closed pts Hth HD L H. destruct (bis_lines th closed pts Hth HD L) as (ls & E & F).
  { intros [a [p b]] I. exact (H a p b I). }
  exists ls. do 2 (split; [auto|]); [|exact F]. rewrite <- (Forall2_len _ _ _ F). unfold polyCorners, chain. destruct closed.
  - rewrite combine_length, cyc_length. cbn [length]. lia.
  - destruct pts as [|p0 [|p1 r]]; try (cbn in L; lia). cbn [tl]. rewrite !combine_length. cbn [length]. lia.
Qed.
(** Every point of such a line is as far from both sides, on the inner side of both or the outer side of both. *)
Theorem C123_equidistant : forall l p a b x, p <> a -> p <> b -> bisects l p a b -> onL l x ->
  cross3 p a x / edist p a = - (cross3 p b x / edist p b).
Proof.
  intros l p a b x Na Nb (O & U & X & Y) OX. pose proof (edist_neq _ _ Na) as La. pose proof (edist_neq _ _ Nb) as Lb.
  apply (Rmult_eq_reg_r (edist p a * edist p b)); [|apply Rmult_integral_contrapositive; split; lra].
  replace (cross3 p a x / edist p a * (edist p a * edist p b)) with (edist p b * cross3 p a x) by (field; lra).
  replace (- (cross3 p b x / edist p b) * (edist p a * edist p b)) with (- ((edist p a * (px b - px p)) * (py x - py p) - (edist p a * (py b - py p)) * (px x - px p))) by (unfold cross3; field; lra).
  rewrite X, Y. unfold cross3, onL in *. unfold unitL in U.
  set (u := px a - px p) in *. set (v := py a - py p) in *. set (z := px x - px p). set (w := py x - py p).
  assert (la l * z + lb l * w = 0) as Z by (unfold z, w; lra).
  (* u w - v z, with (z,w) orthogonal to the unit vector n, is the opposite for the mirror image *)
  assert (2 * (u * w - v * z) = 2 * (la l * u + lb l * v) * (la l * w - lb l * z)) as K.
  { transitivity (2 * ((la l * la l + lb l * lb l) * (u * w - v * z))); [rewrite U; ring|].
    transitivity (2 * ((la l * u + lb l * v) * (la l * w - lb l * z) - (la l * v - lb l * u) * (la l * z + lb l * w))); [ring|rewrite Z; ring]. }
  replace (edist p b * (u - 2 * (la l * u + lb l * v) * la l) * w - edist p b * (v - 2 * (la l * u + lb l * v) * lb l) * z) with
    (edist p b * ((u * w - v * z) - 2 * (la l * u + lb l * v) * (la l * w - lb l * z))) by ring.
  rewrite <- K. ring.
Qed.
(** Less than 3 points: an exception. *)
Theorem C123_small : forall th closed pts, (length pts < 3)%nat -> plBisectorLines (N := RNum) th closed pts = Throw.
Proof. intros th closed [|a [|b [|c r]]] L; try reflexivity. cbn in L. lia. Qed.

(** The rectangle 4 x 3 (its bisectors at 45 degrees, the corner (0,0) shown). *)
Lemma bis_diag l p a b k : 0 < k -> bisects l p a b -> edist p a = k * edist p b ->
  0 < edist p b -> la l * (px a - px p + k * (px b - px p)) + lb l * (py a - py p + k * (py b - py p)) = 0.
Proof.
  intros K (O & U & X & Y) E P. rewrite E in X, Y. unfold unitL in U.
  set (n := la l * (px a - px p) + lb l * (py a - py p)) in *.
  assert (k * (px b - px p) = px a - px p - 2 * n * la l) as X' by (apply (Rmult_eq_reg_l (edist p b)); lra).
  assert (k * (py b - py p) = py a - py p - 2 * n * lb l) as Y' by (apply (Rmult_eq_reg_l (edist p b)); lra).
  rewrite X', Y'. transitivity (2 * n - 2 * n * (la l * la l + lb l * lb l)); [unfold n; ring|rewrite U; ring].
Qed.
Lemma diag_zone th l : thr_ok th -> unitL l -> la l = lb l \/ la l = - lb l -> zoneFree th l.
Proof.
  intros Hth U H. right. unfold unitL in U. rewrite U, sqrt_1, Rmult_1_r. pose proof (thr_deno th Hth) as D.
  assert (la l * la l = / 2) as S by (destruct H as [H|H]; rewrite H in U |- *; lra).
  apply Rnot_lt_le. intros C. assert (Rabs (la l) * Rabs (la l) = / 2) by (rewrite <- Rabs_mult, Rabs_right; lra). pose proof (Rabs_pos (la l)). nra.
Qed.
Lemma box4_corner c : In c (polyCorners true box4 pt00) -> cornerOK thr0 c.
Proof.
  pose proof thr0_small. unfold polyCorners, box4. cbn [last cyc combine app In].
  assert (edist (mkPt 0 0) (mkPt 4 0) = 4) as E1 by (apply edist_val; cbn [px py]; lra). assert (edist (mkPt 4 0) (mkPt 4 3) = 3) as E2 by (apply edist_val; cbn [px py]; lra).
  assert (edist (mkPt 4 3) (mkPt 0 3) = 4) as E3 by (apply edist_val; cbn [px py]; lra). assert (edist (mkPt 0 3) (mkPt 0 0) = 3) as E4 by (apply edist_val; cbn [px py]; lra).
  intros [<-|[<-|[<-|[<-|[]]]]]; unfold cornerOK, dirOK; cbn [px py].
  - rewrite (edist_sym (mkPt 0 0) (mkPt 0 3)), E4, E1. split; [lra|]. split; [lra|]. split; [lra|]. split; [right; rewrite Rabs_left; lra|].
    intros l B. apply (bis_diag _ _ _ _ (3 / 4)) in B as Q; [|lra|rewrite (edist_sym (mkPt 0 0) (mkPt 0 3)), E4, E1; lra|rewrite E1; lra]. cbn [px py] in Q.
    apply diag_zone; [apply thr0_ok|apply B|right; lra].
  - rewrite (edist_sym (mkPt 4 0) (mkPt 0 0)), E1, E2. split; [lra|]. split; [lra|]. split; [lra|]. split; [left; reflexivity|].
    intros l B. apply (bis_diag _ _ _ _ (4 / 3)) in B as Q; [|lra|rewrite (edist_sym (mkPt 4 0) (mkPt 0 0)), E1, E2; lra|rewrite E2; lra]. cbn [px py] in Q.
    apply diag_zone; [apply thr0_ok|apply B|left; lra].
  - rewrite (edist_sym (mkPt 4 3) (mkPt 4 0)), E2, E3. split; [lra|]. split; [lra|]. split; [lra|]. split; [right; rewrite Rabs_right; lra|].
    intros l B. apply (bis_diag _ _ _ _ (3 / 4)) in B as Q; [|lra|rewrite (edist_sym (mkPt 4 3) (mkPt 4 0)), E2, E3; lra|rewrite E3; lra]. cbn [px py] in Q.
    apply diag_zone; [apply thr0_ok|apply B|right; lra].
  - rewrite (edist_sym (mkPt 0 3) (mkPt 4 3)), E3, E4. split; [lra|]. split; [lra|]. split; [lra|]. split; [left; reflexivity|].
    intros l B. apply (bis_diag _ _ _ _ (4 / 3)) in B as Q; [|lra|rewrite (edist_sym (mkPt 0 3) (mkPt 4 3)), E3, E4; lra|rewrite E4; lra]. cbn [px py] in Q.
    apply diag_zone; [apply thr0_ok|apply B|left; lra].
Qed.
Example C123_ex : exists l1 l2 l3 l4, plBisectorLines thr0 true box4 = Ok [l1; l2; l3; l4] /\ onL l1 (mkPt 0 0) /\ onL l1 (mkPt 2 2) /\ onL l2 (mkPt 4 0) /\ onL l2 (mkPt 1 3).
Proof.
  destruct (C123_bisectors thr0 true box4) as (ls & E & _ & F); [apply thr0_ok|unfold thr0; cbn [nullDeter]; rnum; lra|cbn; lia| |].
  { intros a p b I. exact (box4_corner _ I). }
  unfold polyCorners, box4 in F. cbn [last cyc combine app] in F.
  repeat match goal with H : Forall2 _ (_ :: _) ?l |- _ => inversion H; clear H; subst | H : Forall2 _ [] ?l |- _ => inversion H; clear H; subst end. cbn [fst snd] in *.
  do 4 eexists. split; [exact E|].
  match goal with A : bisects ?l1 (mkPt 0 0) _ _, B : bisects ?l2 (mkPt 4 0) _ _ |- _ => rename A into B1; rename B into B2 end.
  assert (edist (mkPt 0 0) (mkPt 4 0) = 4) as E1 by (apply edist_val; cbn [px py]; lra). assert (edist (mkPt 4 0) (mkPt 4 3) = 3) as E2 by (apply edist_val; cbn [px py]; lra).
  assert (edist (mkPt 4 0) (mkPt 0 0) = 4) as E1' by (apply edist_val; cbn [px py]; lra). assert (edist (mkPt 0 0) (mkPt 0 3) = 3) as E4 by (apply edist_val; cbn [px py]; lra).
  apply (bis_diag _ _ _ _ (3 / 4)) in B1 as Q1; [|lra|rewrite E4, E1; lra|rewrite E1; lra].
  apply (bis_diag _ _ _ _ (4 / 3)) in B2 as Q2; [|lra|rewrite E1', E2; lra|rewrite E2; lra].
  destruct B1 as (O1 & _), B2 as (O2 & _). unfold onL in *. cbn [px py] in *. lra.
Qed.
Print Assumptions C123_bisectors. Print Assumptions C123_equidistant. Print Assumptions C123_small.

(** ** C124 *)
(** Lines with the same unit normal: the distance of every point of one to the other. *)
Lemma para_dist th l m : thr_ok th -> unitL l -> unitL m -> la l = la m -> lb l = lb m ->
  exists d, parallelDistance th l m = Ok d /\ (forall p, onL l p -> distTo m p d) /\ (forall p, onL m p -> distTo l p d).
Proof.
  intros Hth U V A B. unfold parallelDistance.
  rewrite isParallel_para; auto using unit_proper; [|unfold paraL; rewrite A, B; ring].
  unfold unitL in U, V. cbn [negb]. unfold csqrt, cdiv. rnum.
  assert (0 <= la l * la m) as P1 by (rewrite A; apply Rle_0_sqr). assert (0 <= lb l * lb m) as P2 by (rewrite B; apply Rle_0_sqr).
  rewrite (proj2 (Rltb_false _ _) P1), (proj2 (Rltb_false _ _) P2). cbn [bind]. rewrite !sqrt_sqrt by auto.
  assert (la l * la m + lb l * lb m = 1) as E by (rewrite A, B; exact V). rewrite E. rewrite (proj2 (Rltb_false 1 0)) by lra. cbn [bind]. rewrite sqrt_1.
  destruct (Reqb 1 0) eqn:Z; [apply Reqb_spec in Z; lra|]. exists (Rabs (lc l - lc m) / 1). split; [reflexivity|].
  replace (Rabs (lc l - lc m) / 1) with (Rabs (lc l - lc m)) by field.
  assert (forall l m, unitL m -> la l = la m -> lb l = lb m -> forall p, onL l p -> distTo m p (Rabs (lc l - lc m))) as G.
  { clear. intros l m U A B p O. unfold onL in O.
    assert (lineDist m p = Rabs (lc l - lc m)) as D by (rewrite lineDist_unit by auto; rewrite <- A, <- B, Rabs_minus_sym; f_equal; lra).
    split; [|intros q Q; rewrite <- D; apply lineDist_lower; auto using unit_proper].
    unfold unitL in U. exists (mkPt (px p + (lc l - lc m) * la m) (py p + (lc l - lc m) * lb m)). split.
    - unfold onL. cbn [px py]. transitivity (la m * px p + lb m * py p + (lc l - lc m) * (la m * la m + lb m * lb m) + lc m); [ring|]. rewrite U, <- A, <- B. lra.
    - apply edist_val; [apply Rabs_pos|]. cbn [px py]. rewrite <- Rabs_mult, Rabs_right by (apply Rle_ge, Rle_0_sqr).
      transitivity ((lc l - lc m) * (lc l - lc m) * (la m * la m + lb m * lb m)); [rewrite U; ring|ring]. }
  split; [now apply G|]. rewrite Rabs_minus_sym. apply G; auto.
Qed.
(** Two lines through points with exactly the same direction. *)
Theorem C124_distance : forall th p q r s l m, thr_ok th -> dirOK th p q -> dirOK th r s ->
  (px q - px p) * (py s - py r) - (py q - py p) * (px s - px r) = 0 -> lineOf th p q = Ok l -> lineOf th r s = Ok m ->
  exists d, parallelDistance th l m = Ok d /\ parallelDistance th m l = Ok d /\ (forall x, onL l x -> distTo m x d) /\ (forall x, onL m x -> distTo l x d).
Proof.
  intros th p q r s l m Hth D1 D2 X El Em.
  destruct (lineOf_scaled th p q l Hth El D1) as (k & K & Kk & El'). destruct (lineOf_scaled th r s m Hth Em D2) as (k' & K' & Kk' & Em').
  pose proof (rawL_unit k p q Kk) as U. pose proof (rawL_unit k' r s Kk') as V. rewrite <- El' in U. rewrite <- Em' in V.
  assert (la l * lb m - lb l * la m = 0) as PA.
  { rewrite El', Em'. unfold scaleL, rawL. cbn [la lb]. transitivity (k * k' * ((px q - px p) * (py s - py r) - (py q - py p) * (px s - px r))); [ring|rewrite X; ring]. }
  destruct (lineOf_inv th p q l El) as [_ Hl]. destruct (lineOf_inv th r s m Em) as [_ Hm].
  destruct (lnorm_inv th _ _ Hth Hl) as (_ & _ & _ & P1 & P2 & _). destruct (lnorm_inv th _ _ Hth Hm) as (_ & _ & _ & Q1 & Q2 & _).
  unfold unitL in *. pose proof (thr_deno th Hth) as TD.
  assert (la l = la m /\ lb l = lb m) as [A B].
  { set (a := la l) in *. set (b := lb l) in *. set (a' := la m) in *. set (b' := lb m) in *.
    assert ((a * a' + b * b') * (a * a' + b * b') = 1) as C.
    { transitivity ((a * a + b * b) * (a' * a' + b' * b') - (a * b' - b * a') * (a * b' - b * a')); [ring|]. rewrite U, V, PA. ring. }
    assert (a * a' + b * b' = 1 \/ a * a' + b * b' = -1) as [C1|C1] by (assert ((a * a' + b * b' - 1) * (a * a' + b * b' + 1) = 0) as C2 by lra; apply Rmult_integral in C2; lra).
    - assert ((a - a') * (a - a') + (b - b') * (b - b') = 0) as Z by lra.
      assert (a - a' = 0 /\ b - b' = 0) as [Z1 Z2] by (pose proof (Rle_0_sqr (a - a')); pose proof (Rle_0_sqr (b - b')); unfold Rsqr in *; split; apply Rsqr_0_uniq; unfold Rsqr; lra). lra.
    - assert ((a + a') * (a + a') + (b + b') * (b + b') = 0) as Z by lra.
      assert (a + a' = 0 /\ b + b' = 0) as [Z1 Z2] by (pose proof (Rle_0_sqr (a + a')); pose proof (Rle_0_sqr (b + b')); unfold Rsqr in *; split; apply Rsqr_0_uniq; unfold Rsqr; lra).
      assert (a = 0) by lra. assert (a' = 0) by lra. specialize (P2 ltac:(lra)). specialize (Q2 ltac:(lra)). assert (b = 0) by lra. assert (a * a + b * b = 0) by (rewrite H, H1; ring). lra. }
  destruct (para_dist th l m Hth U V A B) as (d & E & F & G). destruct (para_dist th m l Hth V U (eq_sym A) (eq_sym B)) as (d' & E' & F' & G').
  exists d. split; [auto|]. split; [|split; auto]. rewrite E'. f_equal. destruct (lineOf_on th p q l Hth El D1) as [O _].
  destruct (F p O) as [(x & X1 & X2) X3]. destruct (G' p O) as [(y & Y1 & Y2) Y3]. specialize (X3 y Y1). specialize (Y3 x X1). lra.
Qed.
(** Lines that are not parallel: an exception. *)
Theorem C124_not_parallel : forall th l m, isParallel (N := RNum) th l m = false -> parallelDistance th l m = Throw.
Proof. intros th l m H. unfold parallelDistance. now rewrite H. Qed.
Example C124_ex : exists l m d, lineOf thr0 (mkPt 0 0) (mkPt 4 3) = Ok l /\ lineOf thr0 (mkPt 9 8) (mkPt 1 2) = Ok m /\ parallelDistance thr0 l m = Ok d /\ d = 1.
Proof.
  pose proof thr0_small.
  assert (edist (mkPt 0 0) (mkPt 4 3) = 5) as E1 by (apply edist_val; cbn [px py]; lra). assert (edist (mkPt 9 8) (mkPt 1 2) = 10) as E2 by (apply edist_val; cbn [px py]; lra).
  destruct (lineOf_total thr0 (mkPt 0 0) (mkPt 4 3) thr0_ok) as (l & El); [lra|lra|]. destruct (lineOf_total thr0 (mkPt 9 8) (mkPt 1 2) thr0_ok) as (m & Em); [lra|lra|].
  assert (dirOK thr0 (mkPt 0 0) (mkPt 4 3)) as D1 by (right; rewrite E1; cbn [py]; rewrite Rabs_left; lra).
  assert (dirOK thr0 (mkPt 9 8) (mkPt 1 2)) as D2 by (right; rewrite E2; cbn [py]; rewrite Rabs_right; lra).
  destruct (C124_distance thr0 _ _ _ _ l m thr0_ok D1 D2) as (d & E & _ & _ & G); auto; [cbn [px py]; lra|].
  exists l, m, d. do 3 (split; [auto|]).
  destruct (lineOf_on _ _ _ _ thr0_ok El D1) as [O1 O2]. destruct (lineOf_on _ _ _ _ thr0_ok Em D2) as [O3 O4].
  (* the point (1,2) of m and the point (1.6,1.2) of l *)
  destruct (G _ O4) as [(x & X1 & X2) X3].
  assert (onL l (mkPt (8 / 5) (6 / 5))) as OF by (unfold onL in *; cbn [px py] in *; lra).
  apply X3 in OF. rewrite (edist_val _ _ 1) in OF; [|lra|cbn [px py]; lra].
  pose proof (edist_sq (mkPt 1 2) x) as S. cbn [px py] in S. pose proof (edist_pos (mkPt 1 2) x).
  assert (3 * px x = 4 * py x) as LX.
  { destruct (lineOf_scaled thr0 _ _ l thr0_ok El D1) as (k & K & _ & ->). unfold onL, scaleL, rawL in X1. cbn [la lb lc px py] in X1.
    apply (Rmult_eq_reg_l k); lra. }
  assert (1 <= edist (mkPt 1 2) x * edist (mkPt 1 2) x); [|nra]. rewrite S. assert (px x = 4 / 3 * py x) as -> by lra.
  assert (0 <= (5 * py x - 6) * (5 * py x - 6)) by apply Rle_0_sqr. lra.
Qed.
Print Assumptions C124_distance. Print Assumptions C124_not_parallel.

(** ** C125 *)
(** Lines that are accepted as parallel, both through points at unit distance: the geometric mean of the
    second coefficients, of opposite signs, is the root of a negative number. *)
Theorem C125_refuted : exists th p q r s l m, thr_ok th /\ dirOK th p q /\ dirOK th r s /\ lineOf th p q = Ok l /\ lineOf th r s = Ok m /\
  isParallel th l m = true /\ parallelDistance th l m = Undef.
Proof.
  pose proof thr0_small. set (t := 1 / 100000).
  assert (edist (mkPt 0 0) (mkPt (2 * t) (1 - t * t)) = 1 + t * t) as E1 by (apply edist_val; cbn [px py]; unfold t; lra).
  assert (edist (mkPt 1 0) (mkPt (1 - 2 * t) (1 - t * t)) = 1 + t * t) as E2 by (apply edist_val; cbn [px py]; unfold t; lra).
  destruct (lineOf_total thr0 (mkPt 0 0) (mkPt (2 * t) (1 - t * t)) thr0_ok) as (l & El); [rewrite E1; unfold t; lra|rewrite E1; unfold t; lra|].
  destruct (lineOf_total thr0 (mkPt 1 0) (mkPt (1 - 2 * t) (1 - t * t)) thr0_ok) as (m & Em); [rewrite E2; unfold t; lra|rewrite E2; unfold t; lra|].
  assert (dirOK thr0 (mkPt 0 0) (mkPt (2 * t) (1 - t * t))) as D1 by (right; rewrite E1; cbn [py]; rewrite Rabs_left; unfold t; lra).
  assert (dirOK thr0 (mkPt 1 0) (mkPt (1 - 2 * t) (1 - t * t))) as D2 by (right; rewrite E2; cbn [py]; rewrite Rabs_left; unfold t; lra).
  do 7 eexists. split; [apply thr0_ok|]. split; [exact D1|]. split; [exact D2|]. split; [exact El|]. split; [exact Em|].
  destruct (lineOf_scaled thr0 _ _ l thr0_ok El D1) as (k & K & Kk & El'). destruct (lineOf_scaled thr0 _ _ m thr0_ok Em D2) as (k' & K' & Kk' & Em').
  pose proof (rawL_unit _ _ _ Kk) as U. pose proof (rawL_unit _ _ _ Kk') as V. rewrite <- El' in U. rewrite <- Em' in V.
  destruct (lineOf_inv _ _ _ l El) as [_ Hl]. destruct (lineOf_inv _ _ _ m Em) as [_ Hm].
  destruct (lnorm_inv _ _ _ thr0_ok Hl) as (_ & _ & _ & P1 & _). destruct (lnorm_inv _ _ _ thr0_ok Hm) as (_ & _ & _ & Q1 & _).
  rewrite E1 in Kk. rewrite E2 in Kk'.
  assert (la l = k * (- (1 - t * t)) /\ lb l = k * (2 * t)) as [A1 B1] by (rewrite El'; unfold scaleL, rawL; cbn [la lb px py]; split; ring).
  assert (la m = k' * (- (1 - t * t)) /\ lb m = k' * (- (2 * t))) as [A2 B2] by (rewrite Em'; unfold scaleL, rawL; cbn [la lb px py]; split; ring).
  assert (k < 0) as NK by (apply Rnot_le_lt; intros C; unfold t in *; nra). assert (k' < 0) as NK' by (apply Rnot_le_lt; intros C; unfold t in *; nra).
  rewrite Rabs_left in Kk by auto. rewrite Rabs_left in Kk' by auto.
  assert (isParallel thr0 l m = true) as IP.
  { unfold isParallel. rnum. apply Rltb_spec. rewrite lineAngle_acos by auto using unit_proper. apply acos_small.
    - unfold thr0. cbn [nullAngleValue]. rnum. lra.
    - unfold cosL. unfold unitL in U, V. rewrite U, V, Rmult_1_l, sqrt_1. replace ((la l * la m + lb l * lb m) / 1) with (la l * la m + lb l * lb m) by field.
      eapply Rlt_le_trans; [|apply Rle_abs]. rewrite A1, A2, B1, B2.
      assert (k * k' * ((1 + t * t) * (1 + t * t)) = 1) as KK by (transitivity ((- k * (1 + t * t)) * (- k' * (1 + t * t))); [ring|rewrite Kk, Kk'; ring]).
      unfold thr0. cbn [nullAngleValue]. rnum. unfold t in *. lra.
    - apply cosL_range; auto using unit_proper. }
  split; [exact IP|]. unfold parallelDistance. rewrite IP. cbn [negb]. unfold csqrt, cdiv. rnum.
  assert (0 <= la l * la m) as S1 by (apply Rmult_le_pos; auto). rewrite (proj2 (Rltb_false _ _) S1). cbn [bind].
  assert (lb l * lb m < 0) as S2. { rewrite B1, B2. assert (0 < k * k') by nra. unfold t. lra. }
  rewrite (proj2 (Rltb_spec _ _) S2). reflexivity.
Qed.
Print Assumptions C125_refuted.
