(** * Properties C102, C103: axes and oriented box of an ellipse *)

From Coq Require Import Reals ZArith List Bool Lra Lia.
From Verif Require Import Num M_LP M_Homogr M_Seg M_Circle M_Poly M_FRect S_Geom S_Homogr S_Circle S_FRect S_Misc S_Ellipse S_Ellipse2 P_LP P_LP2 P_LP3 P_LP4 P_Ellipse P_Ellipse3 C_Ellipse M_Ellipse.
Import ListNotations.
Local Open Scope R_scope.

(** ** C102 *)
Theorem C102_axis_lines : forall th x y a b t, thr_ok th -> bigEnough th a b -> axisOK th a b t -> nullDistance th <= a -> dblEpsilon th < a ->
  exists lH lV, ellAxisLines th (ellNew x y a b t) = Ok (lH, lV) /\ unitL lH /\ unitL lV /\ orthoL lH lV /\ onL lH (mkPt x y) /\ onL lV (mkPt x y) /\
    (forall p, ellForm x y a b t (mirror lH p) = ellForm x y a b t p) /\ (forall p, ellForm x y a b t (mirror lV p) = ellForm x y a b t p) /\
    (forall p, onL lH p -> ellForm x y a b t p = 1 -> edist (mkPt x y) p = a) /\ (forall p, onL lV p -> ellForm x y a b t p = 1 -> edist (mkPt x y) p = b).
Proof.
  intros th x y a b t Ht [Hab Hd] Ho Hn He. rewrite ellNew_ge by lra. destruct (axes_ok th x y a b t false Ht Hab Hd Ho Hn He) as (u & s & r & lH & lV & E & Q & S1 & R1 & UH & UV & FH & Ha & Hb & FV & Va & Vb).
  pose proof (sc1 u) as S. assert (s <> 0) as S0 by (intros X; rewrite X in S1; lra). assert (r <> 0) as R0 by (intros X; rewrite X in R1; lra).
  exists lH, lV. split; auto. split; auto. split; auto. split; [unfold orthoL; rewrite Ha, Hb, Va, Vb; ring|].
  split; [unfold onL; rewrite FH; unfold cY; cbn [px py]; ring|]. split; [unfold onL; rewrite FV; unfold cX; cbn [px py]; ring|].
  assert (forall p, cX x y u (mirror lH p) = cX x y u p /\ cY x y u (mirror lH p) = - cY x y u p) as MH.
  { intros p. unfold mirror. rewrite FH, Ha, Hb. set (k := cY x y u p). unfold cX, cY. cbn [px py]. split.
    - ring.
    - transitivity ((py p - y) * cos u - (px p - x) * sin u - 2 * k * (s * s) * (sin u * sin u + cos u * cos u)); [ring|]. rewrite S, S1. unfold k, cY. ring. }
  assert (forall p, cX x y u (mirror lV p) = - cX x y u p /\ cY x y u (mirror lV p) = cY x y u p) as MV.
  { intros p. unfold mirror. rewrite FV, Va, Vb. set (k := cX x y u p). unfold cX, cY. cbn [px py]. split.
    - transitivity ((px p - x) * cos u + (py p - y) * sin u - 2 * k * (r * r) * (sin u * sin u + cos u * cos u)); [ring|]. rewrite S, R1. unfold k, cX. ring.
    - ring. }
  split; [|split; [|split]].
  - intros p. rewrite !Q, !ellForm_c. destruct (MH p) as [-> ->]. f_equal. unfold Rsqr, Rdiv. ring.
  - intros p. rewrite !Q, !ellForm_c. destruct (MV p) as [-> ->]. f_equal. unfold Rsqr, Rdiv. ring.
  - intros p L F. unfold onL in L. rewrite FH in L. assert (cY x y u p = 0) as Z by (apply (Rmult_eq_reg_l (- s)); lra). rewrite Q, ellForm_c, Z in F.
    rewrite edist_sym. apply edist_val; [lra|]. cbn [px py]. rewrite (cP_sq x y u), Z.
    transitivity (a * a * (Rsqr (cX x y u p / a) + Rsqr (0 / b))); [rewrite F; ring|unfold Rsqr; field; lra].
  - intros p L F. unfold onL in L. rewrite FV in L. assert (cX x y u p = 0) as Z by (apply (Rmult_eq_reg_l r); lra). rewrite Q, ellForm_c, Z in F.
    rewrite edist_sym. apply edist_val; [lra|]. cbn [px py]. rewrite (cP_sq x y u), Z.
    transitivity (b * b * (Rsqr (0 / a) + Rsqr (cY x y u p / b))); [rewrite F; ring|unfold Rsqr; field; lra].
Qed.
Lemma quarter : sin (PI / 4) * cos (PI / 4) = 1 / 2 /\ 1 / 2 <= sin (PI / 4) /\ 1 / 2 <= cos (PI / 4).
Proof.
  assert (0 < sqrt 2) as S by (apply sqrt_lt_R0; lra). assert (sqrt 2 * sqrt 2 = 2) as Q by (apply sqrt_sqrt; lra).
  assert (1 / sqrt 2 = sqrt 2 / 2) as E by (apply (Rmult_eq_reg_r (sqrt 2)); [replace (1 / sqrt 2 * sqrt 2) with 1 by (field; lra); lra|lra]). assert (1 <= sqrt 2) by nra.
  rewrite sin_PI4, cos_PI4, E. split; [transitivity (sqrt 2 * sqrt 2 / 4); [field|lra]|lra].
Qed.
Example C102_ex : bigEnough thr0 2 1 /\ axisOK thr0 2 1 (PI / 4) /\ nullDistance (thr0 (T := R)) <= 2 /\ dblEpsilon (thr0 (T := R)) < 2.
Proof.
  pose proof (thr_deno _ thr0_ok) as D. pose proof (thr_deps _ thr0_ok) as F. destruct quarter as (Q & Qs & Qc).
  split; [unfold bigEnough; lra|]. split; [|split; [unfold thr0; cbn [nullDistance]; rnum; lra|lra]].
  right. right. split; [|split].
  - rewrite Rmult_assoc, Q. rewrite Rabs_left; lra.
  - rewrite Rabs_right; lra.
  - rewrite Rabs_right; lra.
Qed.
Print Assumptions C102_axis_lines.

(** ** C103 *)
Theorem C103_oriented_box : forall th x y a b t, thr_ok th -> bigEnough th a b -> axisOK th a b t -> nullDistance th <= 2 * b -> nullDistance th <= a -> dblEpsilon th < a ->
  exists p1 p2 p3 p4, ellOBB th (ellNew x y a b t) = Ok (plFresh [p1; p2; p3; p4]) /\
    dot3 p1 p2 p4 = 0 /\ dot3 p3 p2 p4 = 0 /\ dot3 p2 p1 p3 = 0 /\ midPt p1 p3 = mkPt x y /\ midPt p2 p4 = mkPt x y /\ edist p1 p2 = 2 * b /\ edist p2 p3 = 2 * a /\
    (forall p, ellForm x y a b t p <= 1 -> inRectO p1 p2 p4 p) /\
    ellForm x y a b t (midPt p1 p2) = 1 /\ ellForm x y a b t (midPt p2 p3) = 1 /\ ellForm x y a b t (midPt p3 p4) = 1 /\ ellForm x y a b t (midPt p4 p1) = 1.
Proof.
  intros th x y a b t Ht [Hab Hd] Ho Hb Hn He. rewrite ellNew_ge by lra. destruct (axis_params th x y a b t false Ht Hab Hd Ho) as (u & P & Q & Ss & Sc).
  destruct (main_axis th x y a u Ht ltac:(lra) Hn He Ss) as (l & s & L & S1 & El & U). pose proof (sc1 u) as S. assert (s <> 0) as S0 by (intros X; rewrite X in S1; lra).
  assert (la l = s * sin u) as Ea by (rewrite El; auto). assert (lb l = - s * cos u) as Eb by (rewrite El; auto).
  assert (onL l (mkPt x y)) as Oc by (rewrite El; unfold onL; cbn [la lb lc px py]; ring).
  set (pA := mkPt (x + cos u * a) (y + sin u * a)) in *. set (pB := cP x y u (- a) 0).
  assert (pA = cP x y u a 0) as EA by (unfold pA, cP; f_equal; ring).
  assert (exists q1 q2, getPoints th l (mkPt x y) a = Ok (q1, q2) /\ (if ptEq th q1 pA then q2 else q1) = pB) as (q1 & q2 & G & EB).
  { rewrite (getPoints_on_ok th l (mkPt x y) a Ht (unit_proper _ U) Oc). destruct (getPoints_B2 (mkPt x y) a l) as [q1 q2] eqn:G. exists q1, q2. split; auto.
    apply getPoints_B2_spec in G; [|apply unit_proper; auto]. cbv zeta in G. rewrite (hypot_unit _ _ U) in G. destruct G as [_ G]. cbn [px py] in G. rewrite Ea, Eb in G.
    assert (ptEq th pB pA = false) as NB. { apply ptEq_false. rewrite EA. unfold pB. rewrite (edist_cP x y u (- a) 0 a 0 (2 * a)); [lra|lra|ring]. }
    assert (forall q, q = pA -> ptEq th q pA = true) as YA by (intros q ->; apply ptEq_refl; auto).
    assert (s = 1 \/ s = - 1) as [-> | ->]. { assert ((s - 1) * (s + 1) = 0) as X by lra. apply Rmult_integral in X. destruct X; [left|right]; lra. }
    - destruct G as [[-> ->]|[-> ->]].
      + rewrite YA; [unfold pB, cP|unfold pA]; f_equal; field.
      + replace (mkPt (x + - (1) * cos u * (a / 1)) (y - 1 * sin u * (a / 1))) with pB by (unfold pB, cP; f_equal; field). now rewrite NB.
    - destruct G as [[-> ->]|[-> ->]].
      + replace (mkPt (x - - -1 * cos u * (a / 1)) (y + -1 * sin u * (a / 1))) with pB by (unfold pB, cP; f_equal; field). now rewrite NB.
      + rewrite YA; [unfold pB, cP|unfold pA]; f_equal; field. }
  destruct (getOrthogLine_total th l pA Ht U) as [v1 V1]. destruct (getOrthogLine_total th l pB Ht U) as [v2 V2].
  destruct (ortho_axis th l pA v1 u s Ht S1 Sc Ea Eb U V1) as (U1 & O1 & W1). destruct (ortho_axis th l pB v2 u s Ht S1 Sc Ea Eb U V2) as (U2 & O2 & W2).
  assert (forall q, onL v1 q <-> cX x y u q = a) as X1. { intros q. rewrite W1, EA. unfold cX, cP. cbn [px py]. replace ((px q - (x + a * cos u - 0 * sin u)) * cos u + (py q - (y + a * sin u + 0 * cos u)) * sin u) with ((px q - x) * cos u + (py q - y) * sin u - a * (sin u * sin u + cos u * cos u)) by ring. rewrite S. lra. }
  assert (forall q, onL v2 q <-> cX x y u q = - a) as X2. { intros q. rewrite W2. unfold pB, cX, cP. cbn [px py]. replace ((px q - (x + - a * cos u - 0 * sin u)) * cos u + (py q - (y + - a * sin u + 0 * cos u)) * sin u) with ((px q - x) * cos u + (py q - y) * sin u + a * (sin u * sin u + cos u * cos u)) by ring. rewrite S. lra. }
  assert (forall d q, onL (mkL (la l) (lb l) (lc l + d)) q <-> cY x y u q = s * d) as YY.
  { intros d q. rewrite El. unfold onL, cY. cbn [la lb lc]. set (k := (py q - y) * cos u - (px q - x) * sin u).
    replace (s * sin u * px q + - s * cos u * py q + (- (s * sin u * x - s * cos u * y) + d)) with (d - s * k) by (unfold k; ring). split; intros H.
    - replace d with (s * k) by lra. rewrite <- Rmult_assoc, S1. ring.
    - rewrite H, <- Rmult_assoc, S1. ring. }
  assert (forall d v k, unitL v -> orthoL l v -> (forall q, onL v q <-> cX x y u q = k) -> meet th (mkL (la l) (lb l) (lc l + d)) v = Ok (cP x y u k (s * d))) as MM.
  { intros d v k Uv Ov Hv. assert (unitL (mkL (la l) (lb l) (lc l + d))) as Ul by exact U. assert (orthoL (mkL (la l) (lb l) (lc l + d)) v) as Ol by exact Ov.
    destruct (meet_total th _ v Ht (unit_proper _ Ul) (unit_proper _ Uv) (ortho_notpar th _ v Ht Ul Uv Ol)) as [q M]. rewrite M. f_equal.
    destruct (meet_on th _ v q Ht (unit_proper _ Ul) (unit_proper _ Uv) M) as [M1 M2]. apply YY in M1. apply Hv in M2. rewrite (cP_of x y u q). congruence. }
  set (p1 := cP x y u a (s * b)). set (p2 := cP x y u a (s * - b)). set (p3 := cP x y u (- a) (s * - b)). set (p4 := cP x y u (- a) (s * b)).
  assert (forall k, s * k * (s * k) = k * k) as SS by (intros k; transitivity (s * s * (k * k)); [ring|rewrite S1; ring]).
  assert (edist p1 p2 = 2 * b) as D12. { apply edist_cP; [lra|]. transitivity (s * (2 * b) * (s * (2 * b))); [symmetry; apply SS|ring]. }
  assert (edist p2 p3 = 2 * a) as D23. { apply edist_cP; [lra|]. ring. }
  assert (edist p3 p4 = 2 * b) as D34. { apply edist_cP; [lra|]. transitivity (s * (2 * b) * (s * (2 * b))); [symmetry; apply SS|ring]. }
  exists p1, p2, p3, p4. split.
  { unfold ellOBB. rewrite P. cbn [bind ex0 ey0 eth esin ecos M_Ellipse.ea M_Ellipse.eb]. rnum. fold pA. rewrite L. cbn [bind]. rewrite G. cbn [bind]. rewrite EB.
    unfold getParallelLines. rewrite V1, V2. cbn [bind]. rnum. replace (lc l - b) with (lc l + - b) by ring.
    rewrite (MM b v1 a U1 O1 X1), (MM (- b) v1 a U1 O1 X1). cbn [bind]. rewrite (MM (- b) v2 (- a) U2 O2 X2), (MM b v2 (- a) U2 O2 X2). cbn [bind].
    fold p1 p2 p3 p4. cbn [plAddAll plAddPoint plFresh plPts app last bind].
    rewrite (proj2 (ptEq_false th p2 p1)) by (rewrite edist_sym, D12; lra). cbn [bind plAddPoint plFresh plPts app last].
    rewrite (proj2 (ptEq_false th p3 p2)) by (rewrite edist_sym, D23; lra). cbn [bind plAddPoint plFresh plPts app last].
    rewrite (proj2 (ptEq_false th p4 p3)) by (rewrite edist_sym, D34; lra). reflexivity. }
  assert (forall k, Rsqr (s * k / b) = Rsqr (k / b)) as SQ. { intros k. unfold Rsqr. transitivity (s * k * (s * k) / (b * b)); [field; lra|]. rewrite SS. field. lra. }
  assert (cP x y u 0 0 = mkPt x y) as C0 by (unfold cP; f_equal; ring).
  split; [unfold p1, p2, p4; rewrite dot_cP; ring|]. split; [unfold p3, p2, p4; rewrite dot_cP; ring|]. split; [unfold p1, p2, p3; rewrite dot_cP; ring|].
  split; [unfold p1, p3; rewrite mid_cP, <- C0; f_equal; field|]. split; [unfold p2, p4; rewrite mid_cP, <- C0; f_equal; field|]. split; auto. split; auto. split.
  - intros p F. rewrite Q, ellForm_c in F. set (X := cX x y u p) in *. set (Y := cY x y u p) in *. rewrite (cP_of x y u p). fold X Y.
    assert (Rsqr (X / a) <= 1 /\ Rsqr (Y / b) <= 1) as [FX FY]. { pose proof (Rle_0_sqr (X / a)). pose proof (Rle_0_sqr (Y / b)). lra. }
    assert (- a <= X <= a) as BX. { rewrite <- Rsqr_1 in FX. apply Rsqr_le_abs_0 in FX. rewrite Rabs_R1 in FX. unfold Rabs in FX. replace X with (X / a * a) by (field; lra). destruct (Rcase_abs (X / a)); nra. }
    assert (- b <= Y <= b) as BY. { rewrite <- Rsqr_1 in FY. apply Rsqr_le_abs_0 in FY. rewrite Rabs_R1 in FY. unfold Rabs in FY. replace Y with (Y / b * b) by (field; lra). destruct (Rcase_abs (Y / b)); nra. }
    unfold inRectO, p1, p2, p4. rewrite !dot_cP.
    assert (forall k, (s * - b - s * b) * (k - s * b) = 2 * b * (b - s * k)) as E1 by (intros k; transitivity (- (2 * b * (s * k)) + 2 * b * b * (s * s)); [ring|rewrite S1; ring]).
    rewrite !E1. replace (s * (s * - b)) with (- b) by (transitivity (- b * (s * s)); [rewrite S1; ring|ring]).
    replace (a - a) with 0 by ring. replace (s * b - s * b) with 0 by ring. rewrite !Rmult_0_l, !Rplus_0_l, !Rplus_0_r.
    assert (- b <= s * Y <= b) as BsY. { assert ((s - 1) * (s + 1) = 0) as X' by lra. apply Rmult_integral in X'. destruct X'; [replace s with 1 by lra|replace s with (-1) by lra]; lra. }
    split; split; try (apply Rmult_le_pos; lra); try nra.
  - rewrite !Q. unfold p1, p2, p3, p4. rewrite !mid_cP, !form_cP.
    replace ((s * b + s * - b) / 2) with 0 by field. replace ((s * - b + s * b) / 2) with 0 by field. replace ((a + - a) / 2) with 0 by field. replace ((- a + a) / 2) with 0 by field.
    replace ((s * - b + s * - b) / 2) with (s * - b) by field. replace ((s * b + s * b) / 2) with (s * b) by field. rewrite !SQ. unfold Rsqr. repeat split; field; lra.
Qed.
Example C103_ex : bigEnough thr0 2 1 /\ axisOK thr0 2 1 (PI / 4) /\ nullDistance (thr0 (T := R)) <= 2 * 1 /\ dblEpsilon (thr0 (T := R)) < 2.
Proof. destruct C102_ex as (A & B & C & D). repeat split; auto; try apply A; lra. Qed.
Print Assumptions C103_oriented_box.
