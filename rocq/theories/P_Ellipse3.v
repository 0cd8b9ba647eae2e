(** * Lemmas on the axes and the oriented box of an ellipse *)

From Coq Require Import Reals Lra Lia List Bool ZArith.
From Verif Require Import Num M_LP M_Homogr M_Seg M_Circle M_Poly M_FRect S_Geom S_Homogr S_Circle S_FRect S_Misc S_Ellipse S_Ellipse2 P_LP P_LP2 P_LP3 P_LP4 P_Ellipse M_Ellipse.
Import ListNotations.
Local Open Scope R_scope.

Lemma axis_params th x y a b t f : thr_ok th -> 0 < b <= a -> nullDenom th <= 4 * (a * a) * (b * b) -> axisOK th a b t -> exists u,
  ellParams th (mkE (ellInit x y a b t) f) = Ok (mkPar x y u (sin u) (cos u) a b (a * a) (b * b)) /\
  (forall p, ellForm x y a b t p = ellForm x y a b u p) /\
  (sin u = 0 \/ nullDenom th <= Rabs (sin u)) /\ (cos u = 0 \/ nullDenom th <= Rabs (cos u)).
Proof.
  intros Ht Hab Hd Ho. assert (angleOK th a b t) as Ao by (unfold axisOK, angleOK, coefB in *; intuition).
  destruct (params_same th x y a b t f Ht Hab Hd Ao) as (u & P & Q). exists u. split; auto. split; [intros p; symmetry; apply ellForm_same; auto|].
  destruct (params_fresh th x y a b t f Ht Hab Hd) as (u' & P' & E). rewrite P in P'. apply Ok_inj in P'. injection P' as <- _ _.
  pose proof (thr_deno _ Ht) as Dn. assert (b * b <= a * a) as Pab by (apply Rmult_le_compat; lra).
  assert (u = 0 -> (sin u = 0 \/ nullDenom th <= Rabs (sin u)) /\ (cos u = 0 \/ nullDenom th <= Rabs (cos u))) as Z0.
  { intros ->. rewrite sin_0, cos_0, Rabs_R1. lra. }
  destruct Ho as [Z|[Z|(Z & Zs & Zc)]].
  - apply Z0. assert (coefB a b t = 0) as B0 by (unfold coefB; rewrite Z; ring). rewrite B0, Rabs_R0 in E.
    rewrite (proj2 (Rltb_spec 0 (nullDenom th))) in E by lra. pose proof (sc1 t) as S. rewrite Z in *.
    replace (cos t * cos t) with 1 in E by lra. rewrite (proj2 (Rltb_false _ _)) in E by lra. exact E.
  - apply Z0. subst a. assert (coefB b b t = 0) as B0 by (unfold coefB; ring). rewrite B0, Rabs_R0 in E.
    rewrite (proj2 (Rltb_spec 0 (nullDenom th))) in E by lra. rewrite (proj2 (Rltb_false _ _)) in E; auto.
    pose proof (sc1 t). set (s2 := sin t * sin t) in *. set (c2 := cos t * cos t) in *. lra.
  - change (2 * (b * b - a * a) * sin t * cos t) with (coefB a b t) in Z. rewrite (proj2 (Rltb_false _ _)) in E by auto.
    assert (cos t <> 0) as C0. { intros C. rewrite C, Rabs_R0 in Zc. lra. }
    destruct (atan_tan_sc t C0) as (E1 & E2 & _). rewrite <- E in E1, E2. split; right.
    + replace (Rabs (sin u)) with (Rabs (sin t)); auto. apply Rsqr_eq_abs_0. unfold Rsqr. auto.
    + replace (Rabs (cos u)) with (Rabs (cos t)); auto. apply Rsqr_eq_abs_0. unfold Rsqr. auto.
Qed.

(** The main axis as a line. *)
Lemma main_axis th x y a u : thr_ok th -> 0 < a -> nullDistance th <= a -> dblEpsilon th < a ->
  (sin u = 0 \/ nullDenom th <= Rabs (sin u)) ->
  exists l s, lineOf th (mkPt (x + cos u * a) (y + sin u * a)) (mkPt x y) = Ok l /\ s * s = 1 /\ l = mkL (s * sin u) (- s * cos u) (- (s * sin u * x - s * cos u * y)) /\ unitL l.
Proof.
  intros Ht Ha Hn He Hs. set (pA := mkPt (x + cos u * a) (y + sin u * a)). set (p0 := mkPt x y). pose proof (sc1 u) as S.
  assert (edist pA p0 = a) as D. { apply edist_val; [lra|]. unfold pA, p0. cbn [px py].
    replace ((x + cos u * a - x) * (x + cos u * a - x) + (y + sin u * a - y) * (y + sin u * a - y)) with (a * a * (sin u * sin u + cos u * cos u)) by ring. rewrite S. ring. }
  destruct (lineOf_total th pA p0) as [l L]; auto; [lra|lra|]. assert (dirOK th pA p0) as Do.
  { unfold dirOK. rewrite D. unfold pA, p0. cbn [py]. replace (y + sin u * a - y) with (sin u * a) by ring. destruct Hs as [->|Hs]; [left; ring|right].
    rewrite Rabs_mult, (Rabs_right a) by lra. apply Rmult_le_compat_r; lra. }
  destruct (lineOf_on th pA p0 l Ht L Do) as [OA O0]. destruct (lineOf_proper th pA p0 l Ht L) as [U _].
  unfold onL, pA, p0 in OA, O0. cbn [px py] in OA, O0. destruct l as [A B C]. unfold unitL in U. cbn [la lb lc] in *.
  assert (A * cos u + B * sin u = 0) as Z. { apply (Rmult_eq_reg_r a); [|lra]. lra. }
  set (s := A * sin u - B * cos u). assert (A = s * sin u) as EA. { unfold s. replace ((A * sin u - B * cos u) * sin u) with (A * (sin u * sin u) - cos u * (B * sin u)) by ring. replace (B * sin u) with (- (A * cos u)) by lra.
    replace (A * (sin u * sin u) - cos u * - (A * cos u)) with (A * (sin u * sin u + cos u * cos u)) by ring. rewrite S. ring. }
  assert (B = - s * cos u) as EB. { unfold s. replace (- (A * sin u - B * cos u) * cos u) with (B * (cos u * cos u) - sin u * (A * cos u)) by ring. replace (A * cos u) with (- (B * sin u)) by lra.
    replace (B * (cos u * cos u) - sin u * - (B * sin u)) with (B * (sin u * sin u + cos u * cos u)) by ring. rewrite S. ring. }
  exists (mkL A B C), s. split; auto. split; [|split; [|exact U]].
  - transitivity (s * s * (sin u * sin u + cos u * cos u)); [rewrite S; ring|]. rewrite <- U. rewrite EA at 1 2. rewrite EB at 1 2. ring.
  - rewrite <- EA, <- EB. f_equal. replace (s * cos u) with (- B) by lra. lra.
Qed.
Lemma ortho_axis th l p o u s : thr_ok th -> s * s = 1 -> (cos u = 0 \/ nullDenom th <= Rabs (cos u)) -> la l = s * sin u -> lb l = - s * cos u -> unitL l ->
  getOrthogLine th l p = Ok o -> unitL o /\ orthoL l o /\ forall q, onL o q <-> (px q - px p) * cos u + (py q - py p) * sin u = 0.
Proof.
  intros Ht Hs Hc Ea Eb U E. assert (orthOK th l) as Oo. { unfold orthOK. rewrite Eb. destruct Hc as [->|Hc]; [left; ring|right].
    rewrite Rabs_mult, Rabs_Ropp. replace (Rabs s) with 1; [lra|]. unfold Rabs. destruct (Rcase_abs s); nra. }
  destruct (getOrthogLine_same th l p o Ht U Oo E) as (A & B & C & D). split; [auto|]. split; [auto|].
  intros q. rewrite (A q). unfold onL. cbn [la lb lc]. rewrite Ea, Eb. split; intros H.
  - apply (Rmult_eq_reg_l s); [|intros Z; rewrite Z in Hs; lra]. lra.
  - transitivity (s * ((px q - px p) * cos u + (py q - py p) * sin u)); [ring|]. rewrite H. ring.
Qed.

(** ** Coordinates along the axes *)
Definition cX (x y u : R) (p : pt R) : R := (px p - x) * cos u + (py p - y) * sin u.
Definition cY (x y u : R) (p : pt R) : R := (py p - y) * cos u - (px p - x) * sin u.
Definition cP (x y u al be : R) : pt R := mkPt (x + al * cos u - be * sin u) (y + al * sin u + be * cos u).
Lemma cP_coord x y u al be : cX x y u (cP x y u al be) = al /\ cY x y u (cP x y u al be) = be.
Proof.
  pose proof (sc1 u) as S. unfold cX, cY, cP. cbn [px py]. split.
  - transitivity (al * (sin u * sin u + cos u * cos u)); [ring|rewrite S; ring].
  - transitivity (be * (sin u * sin u + cos u * cos u)); [ring|rewrite S; ring].
Qed.
Lemma cP_of x y u p : p = cP x y u (cX x y u p) (cY x y u p).
Proof.
  pose proof (sc1 u) as S. unfold cX, cY, cP. destruct p as [a b]. cbn [px py]. f_equal.
  - transitivity (x + (a - x) * (sin u * sin u + cos u * cos u)); [rewrite S; ring|ring].
  - transitivity (y + (b - y) * (sin u * sin u + cos u * cos u)); [rewrite S; ring|ring].
Qed.
Lemma cP_sq x y u p : (px p - x) * (px p - x) + (py p - y) * (py p - y) = cX x y u p * cX x y u p + cY x y u p * cY x y u p.
Proof. pose proof (sc1 u) as S. unfold cX, cY. set (dx := px p - x). set (dy := py p - y). transitivity ((dx * dx + dy * dy) * (sin u * sin u + cos u * cos u)); [rewrite S; ring|ring]. Qed.
Lemma ellForm_c x y a b u p : ellForm x y a b u p = Rsqr (cX x y u p / a) + Rsqr (cY x y u p / b).
Proof. reflexivity. Qed.
Lemma dot_cP x y u a1 b1 a2 b2 a3 b3 : dot3 (cP x y u a1 b1) (cP x y u a2 b2) (cP x y u a3 b3) = (a2 - a1) * (a3 - a1) + (b2 - b1) * (b3 - b1).
Proof.
  unfold dot3, cP. cbn [px py]. pose proof (sc1 u) as S. transitivity (((a2 - a1) * (a3 - a1) + (b2 - b1) * (b3 - b1)) * (sin u * sin u + cos u * cos u)); [ring|rewrite S; ring].
Qed.
Lemma edist_cP x y u a1 b1 a2 b2 d : 0 <= d -> d * d = (a2 - a1) * (a2 - a1) + (b2 - b1) * (b2 - b1) -> edist (cP x y u a1 b1) (cP x y u a2 b2) = d.
Proof.
  intros H E. apply edist_val; auto. unfold cP. cbn [px py]. rewrite E. pose proof (sc1 u) as S.
  transitivity (((a2 - a1) * (a2 - a1) + (b2 - b1) * (b2 - b1)) * (sin u * sin u + cos u * cos u)); [rewrite S; ring|ring].
Qed.
Lemma mid_cP x y u a1 b1 a2 b2 : midPt (cP x y u a1 b1) (cP x y u a2 b2) = cP x y u ((a1 + a2) / 2) ((b1 + b2) / 2).
Proof. unfold midPt, cP. cbn [px py]. f_equal; field. Qed.
Lemma form_cP x y a b u al be : ellForm x y a b u (cP x y u al be) = Rsqr (al / a) + Rsqr (be / b).
Proof. rewrite ellForm_c. destruct (cP_coord x y u al be) as [-> ->]. reflexivity. Qed.

(** ** The axes *)
Lemma axes_ok th x y a b t f : thr_ok th -> 0 < b <= a -> nullDenom th <= 4 * (a * a) * (b * b) -> axisOK th a b t -> nullDistance th <= a -> dblEpsilon th < a ->
  exists u s r lH lV, ellAxisLines th (mkE (ellInit x y a b t) f) = Ok (lH, lV) /\ (forall p, ellForm x y a b t p = ellForm x y a b u p) /\
    s * s = 1 /\ r * r = 1 /\ unitL lH /\ unitL lV /\
    (forall p, la lH * px p + lb lH * py p + lc lH = - s * cY x y u p) /\ la lH = s * sin u /\ lb lH = - s * cos u /\
    (forall p, la lV * px p + lb lV * py p + lc lV = r * cX x y u p) /\ la lV = r * cos u /\ lb lV = r * sin u.
Proof.
  intros Ht Hab Hd Ho Hn He. destruct (axis_params th x y a b t f Ht Hab Hd Ho) as (u & P & Q & Ss & Sc).
  destruct (main_axis th x y a u Ht ltac:(lra) Hn He Ss) as (l & s & L & S1 & El & U).
  destruct (getOrthogLine_total th l (mkPt x y) Ht U) as [o O]. assert (la l = s * sin u) as Ea by (rewrite El; auto). assert (lb l = - s * cos u) as Eb by (rewrite El; auto).
  destruct (ortho_axis th l (mkPt x y) o u s Ht S1 Sc Ea Eb U O) as (Uo & Or & Oq).
  pose proof (sc1 u) as S. unfold orthoL in Or. rewrite Ea, Eb in Or.
  assert (sin u * la o - cos u * lb o = 0) as Z. { apply (Rmult_eq_reg_l s); [|intros X; rewrite X in S1; lra]. lra. }
  set (r := la o * cos u + lb o * sin u).
  assert (la o = r * cos u) as Ra. { unfold r. replace ((la o * cos u + lb o * sin u) * cos u) with (la o * (cos u * cos u) + sin u * (cos u * lb o)) by ring. replace (cos u * lb o) with (sin u * la o) by lra.
    transitivity (la o * (sin u * sin u + cos u * cos u)); [rewrite S; ring|ring]. }
  assert (lb o = r * sin u) as Rb. { unfold r. replace ((la o * cos u + lb o * sin u) * sin u) with (cos u * (sin u * la o) + lb o * (sin u * sin u)) by ring. replace (sin u * la o) with (cos u * lb o) by lra.
    transitivity (lb o * (sin u * sin u + cos u * cos u)); [rewrite S; ring|ring]. }
  assert (onL o (mkPt x y)) as Oc. { apply Oq. cbn [px py]. ring. }
  exists u, s, r, l, o. split.
  { unfold ellAxisLines. rewrite P. cbn [bind ex0 ey0 eth esin ecos M_Ellipse.ea]. rnum. rewrite L. cbn [bind]. rewrite O. reflexivity. }
  split; auto. split; auto. split. { unfold unitL in Uo. rewrite Ra, Rb in Uo. transitivity (r * r * (sin u * sin u + cos u * cos u)); [rewrite S; ring|]. rewrite <- Uo. ring. }
  split; auto. split; auto. split. { intros p. rewrite El. cbn [la lb lc]. unfold cY. ring. }
  split; auto. split; auto. split; [|split; auto].
  intros p. unfold onL in Oc. cbn [px py] in Oc. replace (lc o) with (- (la o * x + lb o * y)) by lra. rewrite Ra, Rb. unfold cX. ring.
Qed.
