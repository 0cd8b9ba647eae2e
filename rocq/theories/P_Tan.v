(** * Proofs: common tangents of two circles *)

From Coq Require Import Reals Lra Psatz List Bool.
From Verif Require Import Num M_LP M_Homogr M_Seg M_Circle M_Offset S_Geom S_Homogr S_Seg P_LP P_LP2 P_LP3 P_LP4 P_Homogr P_Homogr3 P_Seg P_Seg2 P_Seg3 P_FRect2 S_Tan.
Import ListNotations.
Local Open Scope R_scope.

(** A pair of points with its difference moved. *)
Lemma clear_moved th a b x y : clearPair th a b -> clearPair th (moved a x y) (moved b x y).
Proof.
  unfold clearPair, dirOK, vertOK. rewrite edist_moved. unfold moved; cbn [px py].
  replace (py a + y - (py b + y)) with (py a - py b) by ring. replace (px a + x - (px b + x)) with (px a - px b) by ring.
  intros (P & Q & [D|D] & [V|V]); repeat split; auto; solve [left; lra|right; lra].
Qed.
Lemma clear_sym th a b : clearPair th a b -> clearPair th b a.
Proof.
  unfold clearPair, dirOK, vertOK. rewrite (edist_sym b a), (Rabs_minus_sym (py b)), (Rabs_minus_sym (px b)).
  intros (P & Q & [D|D] & [V|V]); repeat split; auto; solve [left; lra|right; lra].
Qed.
Lemma ends_clear th s a b : hasEnds s a b -> clearPair th a b -> clearPair th (sA s) (sB s).
Proof. intros [[-> ->]|[-> ->]] H; auto. now apply clear_sym. Qed.
Lemma svNew_ends th a b : thr_ok th -> clearPair th a b -> exists s, svNew th KSeg a b = Ok s /\ hasEnds s a b /\ lexlt (sA s) (sB s).
Proof.
  intros Ht (C & _). destruct (svNew th KSeg a b) as [s| |] eqn:E.
  - exists s. split; auto. destruct (svNew_inv _ _ _ _ _ Ht E) as (_ & _ & L & [-> | ->]); split; auto; [left|right]; auto.
  - unfold svNew in E. rewrite (proj2 (ptEq_false th a b) C) in E. discriminate.
  - unfold svNew in E. destruct (ptEq th a b); discriminate.
Qed.

(** The two parallels of a segment of ends a, b: one on each side, n a unit normal. *)
Lemma parallels th s a b nx ny d : thr_ok th -> hasEnds s a b -> lexlt (sA s) (sB s) -> clearPair th a b ->
  nx * nx + ny * ny = 1 -> nx * (px b - px a) + ny * (py b - py a) = 0 -> 0 < d ->
  exists u v, svParallelSegs th KSeg s d = Ok (u, v) /\ exists e, (e = d \/ e = - d) /\
    hasEnds u (moved a (e * nx) (e * ny)) (moved b (e * nx) (e * ny)) /\ hasEnds v (moved a (- e * nx) (- e * ny)) (moved b (- e * nx) (- e * ny)).
Proof.
  intros Ht HE L C U O Hd. pose proof (ends_clear th s a b HE C) as CS.
  assert (okSeg th s) as OS by (split; apply CS).
  pose proof (svParallelSegs_s th s d Ht OS (proj1 (proj2 (proj2 CS))) (proj2 (proj2 (proj2 CS))) L Hd) as K.
  pose proof (okSeg_neq th s Ht OS) as NE. pose proof (leftN_unit _ _ NE) as UN.
  assert (ON : let '(x, y) := leftN (sA s) (sB s) in x * (px b - px a) + y * (py b - py a) = 0).
  { pose proof (edist_neq _ _ NE). unfold leftN. destruct HE as [[EA EB]|[EA EB]]; rewrite <- EA, <- EB; field; lra. }
  destruct (leftN (sA s) (sB s)) as [mx my]. destruct K as (e & He & K). 
  assert (exists k, (k = 1 \/ k = -1) /\ mx = k * nx /\ my = k * ny) as (k & Hk & -> & ->).
  { assert (a <> b) as NAB by (destruct HE as [[<- <-]|[<- <-]]; auto).
    set (wx := px b - px a) in *. set (wy := py b - py a) in *.
    assert (0 < wx * wx + wy * wy) as W. { pose proof (edist_neq _ _ NAB). pose proof (edist_sq a b). unfold wx, wy. nra. }
    assert (mx * ny - my * nx = 0) as CR.
    { assert ((mx * ny - my * nx) * (wx * wx + wy * wy) = 0) as Z; [|apply Rmult_integral in Z; destruct Z; lra].
      transitivity ((mx * wx + my * wy) * (ny * wx - nx * wy) - (nx * wx + ny * wy) * (my * wx - mx * wy)); [ring|rewrite O, ON; ring]. }
    exists (mx * nx + my * ny). split; [|split].
    - assert ((mx * nx + my * ny) * (mx * nx + my * ny) = 1) as Q.
      { transitivity ((mx * mx + my * my) * (nx * nx + ny * ny) - (mx * ny - my * nx) * (mx * ny - my * nx)); [ring|rewrite UN, U, CR; ring]. }
      set (z := mx * nx + my * ny) in *. assert ((z - 1) * (z + 1) = 0) as Z by lra. apply Rmult_integral in Z. destruct Z; [left|right]; lra.
    - transitivity (mx * (nx * nx + ny * ny)); [rewrite U; ring|]. transitivity ((mx * nx + my * ny) * nx + ny * (mx * ny - my * nx)); [ring|rewrite CR; ring].
    - transitivity (my * (nx * nx + ny * ny)); [rewrite U; ring|]. transitivity ((mx * nx + my * ny) * ny - nx * (mx * ny - my * nx)); [ring|rewrite CR; ring]. }
  eexists _, _. split; [exact K|]. exists (e * k). split.
  { destruct He as [-> | ->], Hk as [-> | ->]; [left|right|right|left]; ring. }
  replace (e * (k * nx)) with (e * k * nx) by ring. replace (e * (k * ny)) with (e * k * ny) by ring.
  replace (- e * (k * nx)) with (- (e * k) * nx) by ring. replace (- e * (k * ny)) with (- (e * k) * ny) by ring.
  destruct HE as [[-> ->]|[-> ->]]; split; [left|left|right|right]; split; reflexivity.
Qed.

(** Distance of A to a segment of ends x, y when x is its projection. *)
Lemma dist_foot s x y A d : hasEnds s x y -> x <> y -> edist A x = d -> (px x - px A) * (px y - px x) + (py x - py A) * (py y - py x) = 0 ->
  exists c, svDist s A = Ok (d, c).
Proof.
  intros HE N D O. apply svDist_eq.
  - destruct HE as [[-> ->]|[-> ->]]; auto.
  - exists x. split; auto. unfold segHas. destruct HE as [[-> ->]|[-> ->]]; [exists 0|exists 1]; split; try lra; split; ring.
  - assert (G : forall t z, px z = px x + t * (px y - px x) -> py z = py x + t * (py y - py x) -> d <= edist A z).
    { intros t z X Y. pose proof (edist_sq A z) as S. pose proof (edist_sq A x) as S0. rewrite D in S0. pose proof (edist_pos A z). rewrite X, Y in S.
      assert (edist A z * edist A z = d * d + t * t * ((px y - px x) * (px y - px x) + (py y - py x) * (py y - py x))) as E by (rewrite S, S0; transitivity ((px A - px x) * (px A - px x) + (py A - py x) * (py A - py x) + 2 * t * ((px x - px A) * (px y - px x) + (py x - py A) * (py y - py x)) + t * t * ((px y - px x) * (px y - px x) + (py y - py x) * (py y - py x))); [ring|rewrite O; ring]).
      assert (0 <= t * t * ((px y - px x) * (px y - px x) + (py y - py x) * (py y - py x))) by (pose proof (Rle_0_sqr t) as Q1; pose proof (Rle_0_sqr (px y - px x)) as Q2; pose proof (Rle_0_sqr (py y - py x)) as Q3; unfold Rsqr in *; apply Rmult_le_pos; lra).
      assert (0 <= d) by (rewrite <- D; apply edist_pos). nra. }
    intros z (t & T & X & Y). destruct HE as [[EA EB]|[EA EB]]; rewrite EA, EB in X, Y; [apply (G t)|apply (G (1 - t))]; auto; rewrite ?X, ?Y; ring.
Qed.

(** Second half of the computation: parallels of the segment from B to P, then the farthest of A. *)
Lemma far_parallel th a b nx ny ra rb : thr_ok th -> clearPair th a b -> nx * nx + ny * ny = 1 -> nx * (px b - px a) + ny * (py b - py a) = 0 ->
  0 < rb < ra ->
  let A := moved a (- ra * nx) (- ra * ny) in let B := moved b (- rb * nx) (- rb * ny) in let P := moved a (- rb * nx) (- rb * ny) in
  exists s u v cu cv du dv w, svNew th KSeg P B = Ok s /\ svParallelSegs th KSeg s rb = Ok (u, v) /\ svDist u A = Ok (du, cu) /\ svDist v A = Ok (dv, cv) /\
    (du < dv /\ w = v \/ dv < du /\ w = u) /\ hasEnds w a b.
Proof.
  intros Ht C U O R A B P. assert (clearPair th P B) as CP by (apply clear_moved; auto).
  destruct (svNew_ends th P B Ht CP) as (s & ES & HE & L).
  destruct (parallels th s P B nx ny rb Ht HE L CP U) as (u & v & EP & e & He & Hu & Hv).
  { unfold P, B, moved; cbn [px py]. lra. }
  { lra. }
  assert (a <> b) as NAB. { intros ->. destruct C as (C & _). rewrite edist_refl in C. pose proof (thr_dist th Ht). lra. }
  assert (DF : forall f x, hasEnds x (moved P (f * nx) (f * ny)) (moved B (f * nx) (f * ny)) -> exists c, svDist x A = Ok (Rabs (ra - rb + f), c)).
  { intros f x H. apply (dist_foot x _ _ A _ H).
    - intros E. apply NAB. unfold moved, P, B, moved in E; cbn [px py] in E. injection E as E1 E2. apply pt_eq; lra.
    - apply edist_val; [apply Rabs_pos|]. rewrite <- Rabs_mult, Rabs_right by (pose proof (Rle_0_sqr (ra - rb + f)) as Q; unfold Rsqr in Q; lra).
      unfold A, P, moved; cbn [px py]. transitivity ((ra - rb + f) * (ra - rb + f) * (nx * nx + ny * ny)); [rewrite U; ring|ring].
    - unfold A, P, B, moved; cbn [px py]. transitivity ((ra - rb + f) * (nx * (px b - px a) + ny * (py b - py a))); [ring|rewrite O; ring]. }
  assert (HW : forall x, hasEnds x (moved P (rb * nx) (rb * ny)) (moved B (rb * nx) (rb * ny)) -> hasEnds x a b).
  { intros x H. replace a with (moved P (rb * nx) (rb * ny)) by (apply pt_eq; unfold P, moved; cbn [px py]; ring).
    replace b with (moved B (rb * nx) (rb * ny)) by (apply pt_eq; unfold B, moved; cbn [px py]; ring). exact H. }
  assert (LT : Rabs (ra - rb + - rb) < Rabs (ra - rb + rb)) by (rewrite (Rabs_right (ra - rb + rb)) by lra; unfold Rabs; destruct (Rcase_abs _); lra).
  destruct (DF e u Hu) as (cu & Eu). destruct (DF (- e) v Hv) as (cv & Ev).
  destruct He as [-> | ->].
  - exists s, u, v, cu, cv, (Rabs (ra - rb + rb)), (Rabs (ra - rb + - rb)), u. split; [exact ES|]. split; [exact EP|]. split; [exact Eu|]. split; [exact Ev|]. split; [right; auto|auto].
  - rewrite Ropp_involutive in Hv, Ev. exists s, u, v, cu, cv, (Rabs (ra - rb + - rb)), (Rabs (ra - rb + rb)), v. split; [exact ES|]. split; [exact EP|]. split; [exact Eu|]. split; [exact Ev|]. split; [left; auto|auto].
Qed.

(** First half: the rotated line, and the point of it at distance h cos t on the side of A. *)
Lemma rotated_point th A B l0 t : thr_ok th -> nullDeter th <= 1 -> lineOf th A B = Ok l0 -> dirOK th A B -> 0 < cos t ->
  let h := edist A B in
  let wx := cos t * (px A - px B) - sin t * (py A - py B) in let wy := sin t * (px A - px B) + cos t * (py A - py B) in
  (wy = 0 \/ nullDenom th * h <= Rabs wy) ->
  exists l, getRotatedLine th l0 B t = Ok l /\ nearestPoint th l B (h * cos t) A = Ok (moved B (cos t * wx) (cos t * wy)).
Proof.
  intros Ht HD E0 D CT h wx wy Z. destruct (lineOf_proper th _ _ _ Ht E0) as [U _]. destruct (lineOf_on th _ _ _ Ht E0 D) as [OA OB].
  assert (A <> B) as NE. { intros ->. unfold lineOf in E0. rewrite (proj2 (ptEq_spec th B B)) in E0; [discriminate|rewrite edist_refl; apply (thr_dist th Ht)]. }
  pose proof (edist_neq _ _ NE) as Hh. fold h in Hh. pose proof (edist_sq A B) as HS. fold h in HS.
  set (ax := px A - px B) in *. set (ay := py A - py B) in *.
  (* the normal of l0 *)
  assert (la l0 * ax + lb l0 * ay = 0) as OR by (unfold onL, ax, ay in *; lra).
  assert (exists k, (k = 1 \/ k = -1) /\ h * la l0 = - k * ay /\ h * lb l0 = k * ax) as (k & Hk & K1 & K2).
  { unfold unitL in U. exists ((lb l0 * ax - la l0 * ay) / h). 
    assert ((lb l0 * ax - la l0 * ay) * (lb l0 * ax - la l0 * ay) = h * h) as Q.
    { transitivity ((la l0 * la l0 + lb l0 * lb l0) * (ax * ax + ay * ay) - (la l0 * ax + lb l0 * ay) * (la l0 * ax + lb l0 * ay)); [ring|rewrite U, OR, <- HS; ring]. }
    split; [|split].
    - set (z := lb l0 * ax - la l0 * ay) in *. assert ((z - h) * (z + h) = 0) as Z' by lra. apply Rmult_integral in Z'. destruct Z' as [Z'|Z']; [left|right]; (replace z with (h * (z / h)) in Z' by (field; lra)); [apply (Rmult_eq_reg_l h); lra|apply (Rmult_eq_reg_l h); lra].
    - apply (Rmult_eq_reg_l h); [|lra]. replace (h * (- ((lb l0 * ax - la l0 * ay) / h) * ay)) with (- (lb l0 * ax - la l0 * ay) * ay) by (field; lra).
      transitivity ((h * h) * la l0); [ring|]. rewrite HS. transitivity ((ax * ax + ay * ay) * la l0 - ax * (la l0 * ax + lb l0 * ay)); [rewrite OR; ring|ring].
    - apply (Rmult_eq_reg_l h); [|lra]. replace (h * ((lb l0 * ax - la l0 * ay) / h * ax)) with ((lb l0 * ax - la l0 * ay) * ax) by (field; lra).
      transitivity ((h * h) * lb l0); [ring|]. rewrite HS. transitivity ((ax * ax + ay * ay) * lb l0 - ay * (la l0 * ax + lb l0 * ay)); [rewrite OR; ring|ring]. }
  assert (W1 : h * (cos t * la l0 - sin t * lb l0) = - k * wy) by (unfold wy; transitivity (cos t * (h * la l0) - sin t * (h * lb l0)); [ring|rewrite K1, K2; ring]).
  assert (W2 : h * (sin t * la l0 + cos t * lb l0) = k * wx) by (unfold wx; transitivity (sin t * (h * la l0) + cos t * (h * lb l0)); [ring|rewrite K1, K2; ring]).
  pose proof (sin2_cos2 t) as SC. unfold Rsqr in SC.
  destruct (getRotatedLine_spec th l0 B t Ht HD U OB) as (l & El & OL & UL & s & Hs & La & Lb).
  { unfold zoneFree. cbn [la lb].
    replace ((cos t * la l0 - sin t * lb l0) * (cos t * la l0 - sin t * lb l0) + (sin t * la l0 + cos t * lb l0) * (sin t * la l0 + cos t * lb l0)) with 1
      by (unfold unitL in U; transitivity ((sin t * sin t + cos t * cos t) * (la l0 * la l0 + lb l0 * lb l0)); [rewrite SC, U; ring|ring]).
    rewrite sqrt_1, Rmult_1_r. destruct Z as [Z|Z]; [left|right].
    - rewrite Z in W1. apply (Rmult_eq_reg_l h); lra.
    - apply (Rmult_le_reg_r h); [auto|]. eapply Rle_trans; [exact Z|]. rewrite <- (Rabs_right h) at 1 by lra. rewrite <- Rabs_mult, Rmult_comm, W1.
      rewrite Rabs_mult. assert (Rabs (- k) = 1) as -> by (rewrite Rabs_Ropp; destruct Hk as [-> | ->]; [apply Rabs_R1|rewrite Rabs_left; lra]). lra. }
  exists l. split; auto. unfold nearestPoint. rewrite (getPoints_on_ok th l B _ Ht (unit_proper _ UL) OL). cbn [bind].
  destruct (getPoints_B2 B (h * cos t) l) as [a b] eqn:EG. apply (getPoints_B2_spec B _ l a b (unit_proper _ UL)) in EG. cbv zeta in EG.
  rewrite (hypot_unit _ _ UL) in EG. replace (h * cos t / 1) with (h * cos t) in EG by field.
  assert (PL : forall f, edist (moved B (f * wx) (f * wy)) A * edist (moved B (f * wx) (f * wy)) A = h * h * (1 - 2 * f * cos t + f * f)).
  { intros f. rewrite edist_sq. unfold moved; cbn [px py].
    transitivity ((f * wx - ax) * (f * wx - ax) + (f * wy - ay) * (f * wy - ay)); [unfold ax, ay; ring|]. unfold wx, wy.
    transitivity ((ax * ax + ay * ay) * (f * f * (sin t * sin t + cos t * cos t) - 2 * f * cos t + 1)); [ring|rewrite SC, <- HS; ring]. }
  pose proof (PL (cos t)) as P1. pose proof (PL (- cos t)) as P2.
  set (Q := moved B (cos t * wx) (cos t * wy)) in *. set (Q' := moved B (- cos t * wx) (- cos t * wy)) in *.
  assert (LTQ : edist Q A < edist Q' A).
  { pose proof (edist_pos Q A). pose proof (edist_pos Q' A). assert (0 < h * h * (cos t * cos t)) by (repeat apply Rmult_lt_0_compat; lra). nra. }
  assert (exists m, (m = 1 \/ m = -1) /\ lb l * (h * cos t) = m * (cos t * wx) /\ la l * (h * cos t) = - m * (cos t * wy)) as (m & Hm & M1 & M2).
  { exists (s * k). split; [destruct Hs as [-> | ->], Hk as [-> | ->]; [left|right|right|left]; ring|]. rewrite La, Lb. split.
    - transitivity (s * cos t * (h * (sin t * la l0 + cos t * lb l0))); [ring|rewrite W2; ring].
    - transitivity (s * cos t * (h * (cos t * la l0 - sin t * lb l0))); [ring|rewrite W1; ring]. }
  rewrite M1, M2 in EG.
  assert ((a = Q /\ b = Q') \/ (a = Q' /\ b = Q)) as AB.
  { destruct EG as [_ EG]. destruct Hm as [-> | ->], EG as [[-> ->]|[-> ->]]; [right|left|left|right]; split; apply pt_eq; unfold Q, Q', moved; cbn [px py]; ring. }
  change (distPP b A) with (edist b A). change (distPP a A) with (edist a A). f_equal. rnum.
  destruct AB as [[-> ->]|[-> ->]].
  - rewrite (proj2 (Rltb_false _ _)); auto. lra.
  - rewrite (proj2 (Rltb_spec _ _)); auto.
Qed.

(** ** The two solutions *)
Section Two.
  Variables (c d : circle R) (s cs : R).
  Hypothesis (HN : cc c <> cc d) (HS : s * edist (cc c) (cc d) = cr c - cr d) (HC : 0 < cs) (SC : s * s + cs * cs = 1).
  Let h := edist (cc c) (cc d).
  Let ax := px (cc c) - px (cc d).
  Let ay := py (cc c) - py (cc d).
  Definition nrm (g : R) : R * R := ((- s * ax - g * cs * ay) / h, (g * cs * ax - s * ay) / h).
  Definition tanA (g : R) : pt R := moved (cc c) (cr c * fst (nrm g)) (cr c * snd (nrm g)).
  Definition tanB (g : R) : pt R := moved (cc d) (cr d * fst (nrm g)) (cr d * snd (nrm g)).
  Lemma hpos : 0 < h. Proof. apply edist_neq. exact HN. Qed.
  Lemma hsq : h * h = ax * ax + ay * ay. Proof. apply edist_sq. Qed.
  Lemma nrm_unit g : g * g = 1 -> fst (nrm g) * fst (nrm g) + snd (nrm g) * snd (nrm g) = 1.
  Proof.
    intros G. pose proof hpos as H. unfold nrm; cbn [fst snd].
    replace ((- s * ax - g * cs * ay) / h * ((- s * ax - g * cs * ay) / h) + (g * cs * ax - s * ay) / h * ((g * cs * ax - s * ay) / h)) with
      ((s * s + g * g * (cs * cs)) * (ax * ax + ay * ay) / (h * h)) by (field; lra).
    rewrite G, <- hsq, Rmult_1_l, SC. field. lra.
  Qed.
  Lemma nrm_dot g : fst (nrm g) * ax + snd (nrm g) * ay = - (cr c - cr d).
  Proof.
    pose proof hpos as H. unfold nrm; cbn [fst snd].
    replace ((- s * ax - g * cs * ay) / h * ax + (g * cs * ax - s * ay) / h * ay) with (- s * ((ax * ax + ay * ay) / h)) by (field; lra).
    rewrite <- hsq. rewrite <- HS. fold h. field. lra.
  Qed.
  Lemma tan_orth g : g * g = 1 -> fst (nrm g) * (px (tanB g) - px (tanA g)) + snd (nrm g) * (py (tanB g) - py (tanA g)) = 0.
  Proof.
    intros G. pose proof (nrm_unit g G) as U. pose proof (nrm_dot g) as D. unfold tanA, tanB, moved; cbn [px py].
    set (x := fst (nrm g)) in *. set (y := snd (nrm g)) in *.
    transitivity (- (x * ax + y * ay) + (cr d - cr c) * (x * x + y * y)); [unfold ax, ay; ring|rewrite D, U; ring].
  Qed.
  Lemma tan_ext g : g * g = 1 -> extTangent c d (tanA g) (tanB g).
  Proof. intros G. exists (fst (nrm g)), (snd (nrm g)). split; [now apply nrm_unit|]. split; [reflexivity|]. split; [reflexivity|now apply tan_orth]. Qed.
  Lemma ext_two a b : extTangent c d a b -> (a = tanA 1 /\ b = tanB 1) \/ (a = tanA (-1) /\ b = tanB (-1)).
  Proof.
    intros (x & y & U & -> & -> & O). pose proof hpos as H. unfold moved in O; cbn [px py] in O.
    assert (x * ax + y * ay = - s * h) as D.
    { assert (x * ax + y * ay = - (cr c - cr d) * (x * x + y * y)) as D by (unfold ax, ay in *; lra). rewrite D, U, <- HS. fold h. ring. }
    set (e := y * ax - x * ay). assert (e * e = (cs * h) * (cs * h)) as E.
    { unfold e. transitivity ((x * x + y * y) * (ax * ax + ay * ay) - (x * ax + y * ay) * (x * ax + y * ay)); [ring|rewrite U, D, <- hsq].
      replace (1 * (h * h) - - s * h * (- s * h)) with ((1 - s * s) * (h * h)) by ring. replace (1 - s * s) with (cs * cs) by lra. ring. }
    assert (NX : forall g, e = g * (cs * h) -> x = fst (nrm g) /\ y = snd (nrm g)).
    { intros g G. unfold nrm; cbn [fst snd]. split; apply (Rmult_eq_reg_r (h * h)); try nra.
      - replace ((- s * ax - g * cs * ay) / h * (h * h)) with (- s * h * ax - g * (cs * h) * ay) by (field; lra). rewrite <- D, <- G, hsq. unfold e. ring.
      - replace ((g * cs * ax - s * ay) / h * (h * h)) with (g * (cs * h) * ax + - s * h * ay) by (field; lra). rewrite <- D, <- G, hsq. unfold e. ring. }
    assert ((e - cs * h) * (e + cs * h) = 0) as Z by lra. apply Rmult_integral in Z. destruct Z as [Z|Z].
    - left. destruct (NX 1) as [-> ->]; [lra|]. split; reflexivity.
    - right. destruct (NX (-1)) as [-> ->]; [lra|]. split; reflexivity.
  Qed.
  Lemma tan_diff g : px (tanA g) - px (tanB g) = cs * (cs * ax - g * s * ay) /\ py (tanA g) - py (tanB g) = cs * (g * s * ax + cs * ay).
  Proof.
    pose proof hpos as H. unfold tanA, tanB, moved, nrm; cbn [px py fst snd]. fold ax ay.
    split.
    - transitivity (ax + (cr c - cr d) * ((- s * ax - g * cs * ay) / h)); [unfold ax; ring|]. rewrite <- HS. fold h.
      replace (s * h * ((- s * ax - g * cs * ay) / h)) with (- (s * s) * ax - g * s * cs * ay) by (field; lra). transitivity ((s * s + cs * cs) * ax - (s * s) * ax - g * s * cs * ay); [rewrite SC; ring|ring].
    - transitivity (ay + (cr c - cr d) * ((g * cs * ax - s * ay) / h)); [unfold ay; ring|]. rewrite <- HS. fold h.
      replace (s * h * ((g * cs * ax - s * ay) / h)) with (- (s * s) * ay + g * s * cs * ax) by (field; lra). transitivity ((s * s + cs * cs) * ay - (s * s) * ay + g * s * cs * ax); [rewrite SC; ring|ring].
  Qed.
  Lemma tan_len g : g * g = 1 -> edist (tanA g) (tanB g) = cs * h.
  Proof.
    intros G. pose proof hpos as H. destruct (tan_diff g) as [X Y]. apply edist_val; [apply Rmult_le_pos; lra|]. rewrite X, Y. symmetry.
    transitivity (cs * cs * ((cs * cs + g * g * (s * s)) * (ax * ax + ay * ay))); [ring|]. rewrite G, <- hsq. replace (cs * cs + 1 * (s * s)) with 1 by lra. ring.
  Qed.
  Lemma tan_neq : 0 < cr c -> tanA 1 <> tanA (-1).
  Proof.
    intros R E. unfold tanA, moved, nrm in E; cbn [fst snd] in E. injection E as E1 E2. pose proof hpos as H.
    assert (ay = 0) as Y.
    { assert (cr c * ((- s * ax - 1 * cs * ay) / h) = cr c * ((- s * ax - -1 * cs * ay) / h)) as Q by lra. apply Rmult_eq_reg_l in Q; [|lra].
      apply (f_equal (fun z => z * h)) in Q. replace ((- s * ax - 1 * cs * ay) / h * h) with (- s * ax - 1 * cs * ay) in Q by (field; lra). replace ((- s * ax - -1 * cs * ay) / h * h) with (- s * ax - -1 * cs * ay) in Q by (field; lra).
      assert (cs * ay = 0) as Z by lra. apply Rmult_integral in Z. destruct Z; lra. }
    assert (ax = 0) as X.
    { assert (cr c * ((1 * cs * ax - s * ay) / h) = cr c * ((-1 * cs * ax - s * ay) / h)) as Q by lra. apply Rmult_eq_reg_l in Q; [|lra].
      apply (f_equal (fun z => z * h)) in Q. replace ((1 * cs * ax - s * ay) / h * h) with (1 * cs * ax - s * ay) in Q by (field; lra). replace ((-1 * cs * ax - s * ay) / h * h) with (-1 * cs * ax - s * ay) in Q by (field; lra).
      assert (cs * ax = 0) as Z by lra. apply Rmult_integral in Z. destruct Z; lra. }
    apply HN. unfold ax, ay in *. apply pt_eq; lra.
  Qed.
End Two.

(** One of the two tangents, as computed. *)
Lemma one_tangent th c d l0 g t : thr_ok th -> nullDeter th <= 1 -> lineOf th (cc c) (cc d) = Ok l0 -> dirOK th (cc c) (cc d) -> cc c <> cc d -> 0 < cr d < cr c ->
  g * g = 1 -> 0 < cos t -> g * sin t * edist (cc c) (cc d) = cr c - cr d ->
  clearPair th (tanA c d (g * sin t) (cos t) g) (tanB c d (g * sin t) (cos t) g) ->
  exists l p s u v cu cv du dv w, getRotatedLine th l0 (cc d) t = Ok l /\ nearestPoint th l (cc d) (edist (cc c) (cc d) * cos t) (cc c) = Ok p /\
    svNew th KSeg p (cc d) = Ok s /\ svParallelSegs th KSeg s (cr d) = Ok (u, v) /\ svDist u (cc c) = Ok (du, cu) /\ svDist v (cc c) = Ok (dv, cv) /\
    (du < dv /\ w = v \/ dv < du /\ w = u) /\ hasEnds w (tanA c d (g * sin t) (cos t) g) (tanB c d (g * sin t) (cos t) g).
Proof.
  intros Ht HD E0 D HN R G CT HS CP.
  assert (SC : g * sin t * (g * sin t) + cos t * cos t = 1) by (pose proof (sin2_cos2 t) as Q; unfold Rsqr in Q; transitivity (g * g * (sin t * sin t) + cos t * cos t); [ring|rewrite G; lra]).
  set (s := g * sin t) in *. set (cs := cos t) in *.
  destruct (tan_diff c d s cs HN HS SC g) as [X Y]. pose proof (tan_len c d s cs HN HS CT SC g G) as LN.
  pose proof (nrm_unit c d s cs HN SC g G) as U. pose proof (tan_orth c d s cs HN HS SC g G) as O.
  assert (GS : g * s = sin t) by (unfold s; transitivity (g * g * sin t); [ring|rewrite G; ring]).
  set (h := edist (cc c) (cc d)) in *. assert (0 < h) as Hh by (apply edist_neq; auto).
  destruct (rotated_point th (cc c) (cc d) l0 t Ht HD E0 D CT) as (l & El & Ep).
  { fold h cs. rewrite GS in Y. destruct CP as (_ & _ & [D'|D'] & _).
    - left. assert (cs * (sin t * (px (cc c) - px (cc d)) + cs * (py (cc c) - py (cc d))) = 0) as Z by lra. apply Rmult_integral in Z. destruct Z; lra.
    - right. rewrite LN, Y, Rabs_mult, (Rabs_right cs) in D' by lra. apply (Rmult_le_reg_l cs); [auto|]. lra. }
  fold h cs in Ep.
  pose proof (far_parallel th _ _ _ _ (cr c) (cr d) Ht CP U O R) as F. cbv zeta in F.
  set (a := tanA c d s cs g) in *. set (b := tanB c d s cs g) in *. set (nx := fst (nrm c d s cs g)) in *. set (ny := snd (nrm c d s cs g)) in *.
  assert (EA : moved a (- cr c * nx) (- cr c * ny) = cc c) by (apply pt_eq; unfold a, tanA, moved; cbn [px py]; unfold nx, ny; ring).
  assert (EB : moved b (- cr d * nx) (- cr d * ny) = cc d) by (apply pt_eq; unfold b, tanB, moved; cbn [px py]; unfold nx, ny; ring).
  assert (EP : moved a (- cr d * nx) (- cr d * ny) = moved (cc d) (cs * (cs * (px (cc c) - px (cc d)) - sin t * (py (cc c) - py (cc d)))) (cs * (sin t * (px (cc c) - px (cc d)) + cs * (py (cc c) - py (cc d))))).
  { rewrite GS in X, Y. apply pt_eq; unfold moved; cbn [px py]; [replace (cs * (cs * (px (cc c) - px (cc d)) - sin t * (py (cc c) - py (cc d)))) with (px a - px b) by lra|rewrite <- Y]; rewrite <- EB; unfold moved; cbn [px py]; ring. }
  rewrite EA, EB, EP in F. destruct F as (sg & u & v & cu & cv & du & dv & w & F).
  exists l, (moved (cc d) (cs * (cs * (px (cc c) - px (cc d)) - sin t * (py (cc c) - py (cc d)))) (cs * (sin t * (px (cc c) - px (cc d)) + cs * (py (cc c) - py (cc d))))), sg, u, v, cu, cv, du, dv, w.
  split; auto. 
Qed.
