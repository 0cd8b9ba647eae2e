(** * Lines through two points in binary64 (proofs) *)

From Coq Require Import Reals Lra ZArith Floats Bool Lia List.
From Verif Require Import Num FloatFuns M_LP M_Seg S_Geom S_Float S_FloatZ S_FloatR P_Float P_FloatZ P_FloatZ2 P_FloatR P_FloatE P_FloatE2.
Import ListNotations.
Local Open Scope R_scope.

Definition eta : R := pw (-1075).
Lemma eta_small : 0 < eta <= / 2 ^ 1075.
Proof. unfold eta. split; [apply pw_pos|apply tiny_1]. Qed.
Lemma op_err r Y : rnd (sf r) Y -> Rabs Y <= 2 ^ 1000 -> fin r /\ Rabs (toR r - Y) <= ulp1 * Rabs Y + eta.
Proof.
  intros H B. assert (F : fin r) by (apply big_fin with (1 := H); apply Rle_trans with (1 := B); apply Rle_pow; [lra|lia]). split; [exact F|]. now apply rnd_err3.
Qed.

Lemma neg_toR x : fin x -> fin (- x)%float /\ toR (- x)%float = - toR x.
Proof.
  intro F. assert (G : fin (- x)%float) by (apply fin_sf; rewrite FloatAxioms.opp_spec; apply fin_sf in F; destruct (sf x); exact F). split; [exact G|].
  rewrite <- !toR_vR by assumption. rewrite FloatAxioms.opp_spec. apply vR_opp.
Qed.
Lemma abs_toR x : fin x -> fin (abs x) /\ toR (abs x) = Rabs (toR x).
Proof.
  intro F. assert (G : fin (abs x)) by (apply fin_sf; rewrite FloatAxioms.abs_spec; apply fin_sf in F; destruct (sf x); exact F). split; [exact G|].
  rewrite <- !toR_vR by assumption. rewrite FloatAxioms.abs_spec. unfold vR. rewrite Rabs_mult, (Rabs_right (pw (-1074))) by (left; apply pw_pos). f_equal. rewrite <- abs_IZR. f_equal.
  apply fin_sf in F. destruct (sf x) as [s|s| |s m e]; cbn [SFabs val]; try reflexivity; try contradiction.
  assert (0 <= mag m e)%Z by (unfold mag; apply Z.mul_nonneg_nonneg; [lia|apply Z.pow_nonneg; lia]). destruct s; lia.
Qed.

(** ** Error propagation *)

Lemma Rabs_tri3 a b c : Rabs (a + b + c) <= Rabs a + Rabs b + Rabs c.
Proof. pose proof (Rabs_triang (a + b) c). pose proof (Rabs_triang a b). lra. Qed.

(** A rounded quotient of two approximations. *)
Lemma quot_err u n A a D s e r : 0 <= u <= / 1000000 -> 0 < D -> 0 <= n -> Rabs (a - A) <= e -> Rabs (s - D) <= 6 * u * D -> Rabs (r - a / s) <= u * Rabs (a / s) + n ->
  Rabs (r - A / D) <= 101 / 100 * (e / D) + 71 / 10 * u * Rabs (A / D) + n.
Proof.
  intros U HD Hn HA HS HR. assert (Ls : 999 / 1000 * D <= s).
  { assert (6 * u * D <= / 1000 * D) by (apply Rmult_le_compat_r; lra). revert HS. unfold Rabs. destruct (Rcase_abs _); lra. }
  assert (Ps : 0 < s) by lra. set (k := a / s) in *. set (al := A / D) in *. assert (Ek : k * s = a) by (unfold k; field; lra). assert (Ea : al * D = A) by (unfold al; field; lra).
  assert (He : 0 <= e) by (apply Rle_trans with (2 := HA); apply Rabs_pos).
  set (q := e / D). assert (Eq : q * D = e) by (unfold q; field; lra). assert (Pq : 0 <= q) by (unfold q; apply Rmult_le_pos; [exact He|left; now apply Rinv_0_lt_compat]).
  pose proof (Rabs_pos al) as Pal. assert (Pm : 0 <= q + 6 * u * Rabs al) by (assert (0 <= 6 * u * Rabs al) by (apply Rmult_le_pos; lra); lra).
  assert (Z : Rabs (k - al) <= 1002 / 1000 * (q + 6 * u * Rabs al)).
  { assert (Z1 : Rabs (k - al) * s <= (q + 6 * u * Rabs al) * D).
    { rewrite <- (Rabs_right s) at 1 by lra. rewrite <- Rabs_mult. replace ((k - al) * s) with ((a - A) + al * (D - s)) by (rewrite <- Ek, <- Ea; ring).
      eapply Rle_trans; [apply Rabs_triang|]. rewrite Rabs_mult, (Rabs_minus_sym D s). assert (Rabs al * Rabs (s - D) <= Rabs al * (6 * u * D)) by (apply Rmult_le_compat_l; lra). lra. }
    assert (Z2 : Rabs (k - al) * (999 / 1000 * D) <= Rabs (k - al) * s) by (apply Rmult_le_compat_l; [apply Rabs_pos|lra]).
    assert (Z3 : Rabs (k - al) * (999 / 1000) <= q + 6 * u * Rabs al) by (apply Rmult_le_reg_r with D; lra). lra. }
  assert (Gk : Rabs k <= Rabs al + Rabs (k - al)) by (replace k with (al + (k - al)) at 1 by ring; apply Rabs_triang).
  replace (r - al) with ((r - k) + (k - al)) by ring. eapply Rle_trans; [apply Rabs_triang|].
  assert (u * Rabs k <= u * (Rabs al + Rabs (k - al))) by (apply Rmult_le_compat_l; lra).
  assert (u * Rabs (k - al) <= / 1000000 * Rabs (k - al)) by (apply Rmult_le_compat_r; [apply Rabs_pos|lra]).
  assert (0 <= u * Rabs al) by (apply Rmult_le_pos; lra). lra.
Qed.

(** Value of a line equation at a point, from rounded coefficients; [w] is the error on the constant. *)
Lemma value_err u n al be ga a b c x y M w t1 t2 s1 s2 : 0 < u <= / 1000000 -> 0 < M -> 0 <= n <= u / 1000 -> n <= u * M / 1000 ->
  Rabs al <= 1 -> Rabs be <= 1 -> Rabs ga <= 3 / 2 * M -> Rabs (al * x + be * y) <= 3 / 2 * M -> Rabs x <= M -> Rabs y <= M ->
  Rabs (a - al) <= 82 / 10 * u -> Rabs (b - be) <= 82 / 10 * u -> Rabs (c - ga) <= w ->
  Rabs (t1 - a * x) <= u * Rabs (a * x) + n -> Rabs (t2 - b * y) <= u * Rabs (b * y) + n ->
  Rabs (s1 - (t1 + t2)) <= u * Rabs (t1 + t2) + n -> Rabs (s2 - (s1 + c)) <= u * Rabs (s1 + c) + n ->
  Rabs (s2 - (al * x + be * y + ga)) <= 24 * u * M + 101 / 100 * w.
Proof.
  intros U HM Hn HnM A1 B1 G1 V1 X1 Y1 Ea Eb Ec T1 T2 S1 S2.
  assert (uM : 0 < u * M) by (apply Rmult_lt_0_compat; lra).
  assert (uuM : u * (u * M) <= / 1000000 * (u * M)) by (apply Rmult_le_compat_r; lra).
  assert (P : forall al a x t, Rabs al <= 1 -> Rabs x <= M -> Rabs (a - al) <= 82 / 10 * u -> Rabs (t - a * x) <= u * Rabs (a * x) + n -> Rabs (t - al * x) <= 93 / 10 * (u * M)).
  { clear - U HM Hn HnM uM uuM. intros al a x t A1 X1 Ea T.
    assert (D : Rabs (a * x - al * x) <= 82 / 10 * (u * M)).
    { replace (a * x - al * x) with ((a - al) * x) by ring. rewrite Rabs_mult. apply Rle_trans with (82 / 10 * u * M); [apply Rmult_le_compat; try apply Rabs_pos; assumption|lra]. }
    assert (Z : Rabs (al * x) <= M) by (rewrite Rabs_mult; apply Rle_trans with (1 * M); [apply Rmult_le_compat; try apply Rabs_pos; assumption|lra]).
    assert (Rabs (a * x) <= M + 82 / 10 * (u * M)) by (pose proof (abs_diff _ _ _ D); lra).
    assert (u * Rabs (a * x) <= u * (M + 82 / 10 * (u * M))) by (apply Rmult_le_compat_l; lra).
    replace (t - al * x) with ((t - a * x) + (a * x - al * x)) by ring. eapply Rle_trans; [apply Rabs_triang|]. lra. }
  pose proof (P _ _ _ _ A1 X1 Ea T1) as Q1. pose proof (P _ _ _ _ B1 Y1 Eb T2) as Q2. clear P T1 T2 Ea Eb.
  set (v := al * x + be * y) in *.
  assert (Q3 : Rabs (t1 + t2 - v) <= 186 / 10 * (u * M)).
  { replace (t1 + t2 - v) with ((t1 - al * x) + (t2 - be * y)) by (unfold v; ring). eapply Rle_trans; [apply Rabs_triang|]. lra. }
  assert (Rabs (t1 + t2) <= 2 * M) by (pose proof (abs_diff _ _ _ Q3); assert (u * M <= / 1000000 * M) by (apply Rmult_le_compat_r; lra); lra).
  assert (u * Rabs (t1 + t2) <= u * (2 * M)) by (apply Rmult_le_compat_l; lra).
  assert (Q4 : Rabs (s1 - v) <= 207 / 10 * (u * M)).
  { replace (s1 - v) with ((s1 - (t1 + t2)) + (t1 + t2 - v)) by ring. eapply Rle_trans; [apply Rabs_triang|]. lra. }
  assert (Q5 : Rabs (s1 + c - (v + ga)) <= 207 / 10 * (u * M) + w).
  { replace (s1 + c - (v + ga)) with ((s1 - v) + (c - ga)) by ring. eapply Rle_trans; [apply Rabs_triang|]. lra. }
  assert (Pw : 0 <= w) by (apply Rle_trans with (2 := Ec); apply Rabs_pos).
  assert (Q6 : Rabs (s1 + c) <= 3 * M + (207 / 10 * (u * M) + w)) by (pose proof (abs_diff _ _ _ Q5); pose proof (Rabs_triang v ga); lra).
  assert (u * Rabs (s1 + c) <= u * (3 * M + (207 / 10 * (u * M) + w))) by (apply Rmult_le_compat_l; lra).
  assert (u * w <= / 1000000 * w) by (apply Rmult_le_compat_r; lra).
  replace (s2 - (v + ga)) with ((s2 - (s1 + c)) + (s1 + c - (v + ga))) by ring. eapply Rle_trans; [apply Rabs_triang|]. lra.
Qed.

(** The norm of the rounded coefficients. *)
Lemma norm_err u n al be a b A B s r : 0 < u <= / 1000000 -> 0 <= n <= u / 1000 -> al * al + be * be = 1 -> Rabs (a - al) <= 82 / 10 * u -> Rabs (b - be) <= 82 / 10 * u ->
  Rabs (A - a * a) <= u * Rabs (a * a) + n -> Rabs (B - b * b) <= u * Rabs (b * b) + n -> Rabs (s - (A + B)) <= u * Rabs (A + B) + n -> 0 <= s ->
  Rabs (r - R_sqrt.sqrt s) <= u * Rabs (R_sqrt.sqrt s) + n -> Rabs (r - 1) <= 16 * u.
Proof.
  intros U Hn E1 Ea Eb EA EB Es Ps Er.
  assert (uu : u * u <= / 1000000 * u) by (apply Rmult_le_compat_r; lra).
  assert (L : Rabs al + Rabs be <= 142 / 100).
  { assert (Rabs al * Rabs al + Rabs be * Rabs be = 1) by (rewrite <- !Rabs_mult, !Rabs_right by nra; exact E1). pose proof (Rabs_pos al). pose proof (Rabs_pos be). pose proof (Rle_0_sqr (Rabs al - Rabs be)) as Q. unfold Rsqr in Q. assert ((Rabs al + Rabs be) * (Rabs al + Rabs be) <= 2) by lra. nra. }
  assert (P : forall al a A, Rabs al <= 142 / 100 -> Rabs (a - al) <= 82 / 10 * u -> Rabs (A - a * a) <= u * Rabs (a * a) + n -> Rabs (A - al * al) <= 165 / 10 * u * Rabs al + u * (al * al) + u / 100).
  { clear - U Hn uu. intros al a A L Ea EA. set (d := a - al) in *. replace a with (al + d) in * by (unfold d; ring). clearbody d.
    assert (D2 : Rabs d * Rabs d <= 82 / 10 * u * (82 / 10 * u)) by (apply Rmult_le_compat; try apply Rabs_pos; assumption).
    assert (D : Rabs ((al + d) * (al + d) - al * al) <= 164 / 10 * u * Rabs al + 70 * (u * u)).
    { replace ((al + d) * (al + d) - al * al) with (2 * al * d + d * d) by ring. eapply Rle_trans; [apply Rabs_triang|]. rewrite !Rabs_mult, (Rabs_right 2) by lra.
      assert (Rabs al * Rabs d <= Rabs al * (82 / 10 * u)) by (apply Rmult_le_compat_l; [apply Rabs_pos|assumption]). assert (0 <= u * u) by (apply Rmult_le_pos; lra). lra. }
    pose proof (Rle_0_sqr (al + d)) as Q. unfold Rsqr in Q. rewrite (Rabs_right ((al + d) * (al + d))) in EA by lra.
    assert (Q2 : (al + d) * (al + d) <= al * al + (164 / 10 * u * Rabs al + 70 * (u * u))) by (revert D; unfold Rabs at 1; destruct (Rcase_abs _); lra).
    assert (u * ((al + d) * (al + d)) <= u * (al * al + (164 / 10 * u * Rabs al + 70 * (u * u)))) by (apply Rmult_le_compat_l; lra).
    assert (u * u * Rabs al <= / 1000000 * u * Rabs al) by (apply Rmult_le_compat_r; [apply Rabs_pos|lra]).
    assert (u * (u * u) <= / 1000000 * (u * u)) by (apply Rmult_le_compat_r; nra). assert (0 <= u * Rabs al) by (apply Rmult_le_pos; [lra|apply Rabs_pos]).
    replace (A - al * al) with ((A - (al + d) * (al + d)) + ((al + d) * (al + d) - al * al)) by ring. eapply Rle_trans; [apply Rabs_triang|]. lra. }
  pose proof (Rabs_pos al). pose proof (Rabs_pos be).
  pose proof (P al a A ltac:(lra) Ea EA) as QA. pose proof (P be b B ltac:(lra) Eb EB) as QB. clear P.
  assert (Q : Rabs (A + B - 1) <= 245 / 10 * u).
  { rewrite <- E1. replace (A + B - (al * al + be * be)) with ((A - al * al) + (B - be * be)) by ring. eapply Rle_trans; [apply Rabs_triang|].
    assert (165 / 10 * u * (Rabs al + Rabs be) <= 165 / 10 * u * (142 / 100)) by (apply Rmult_le_compat_l; lra). nra. }
  assert (Rabs (A + B) <= 11 / 10) by (pose proof (abs_diff _ _ _ Q); rewrite Rabs_R1 in *; lra).
  assert (u * Rabs (A + B) <= u * (11 / 10)) by (apply Rmult_le_compat_l; lra).
  assert (Q2 : Rabs (s - 1) <= 257 / 10 * u).
  { replace (s - 1) with ((s - (A + B)) + (A + B - 1)) by ring. eapply Rle_trans; [apply Rabs_triang|]. lra. }
  assert (Q3 : Rabs (R_sqrt.sqrt s - 1) <= 13 * u).
  { assert (s - 1 <= 257 / 10 * u /\ 1 - s <= 257 / 10 * u) by (revert Q2; unfold Rabs; destruct (Rcase_abs _); lra).
    assert (R_sqrt.sqrt s <= 1 + 13 * u) by (rewrite <- (sqrt_square (1 + 13 * u)) by lra; apply sqrt_le_1_alt; nra).
    assert (1 - 13 * u <= R_sqrt.sqrt s) by (rewrite <- (sqrt_square (1 - 13 * u)) by lra; apply sqrt_le_1_alt; nra).
    unfold Rabs; destruct (Rcase_abs _); lra. }
  assert (Rabs (R_sqrt.sqrt s) <= 11 / 10) by (pose proof (abs_diff _ _ _ Q3); rewrite Rabs_R1 in *; lra).
  assert (u * Rabs (R_sqrt.sqrt s) <= u * (11 / 10)) by (apply Rmult_le_compat_l; lra).
  replace (r - 1) with ((r - R_sqrt.sqrt s) + (R_sqrt.sqrt s - 1)) by ring. eapply Rle_trans; [apply Rabs_triang|]. lra.
Qed.

(** The final quotient. *)
Lemma final_err u n v s2 h r M e : 0 < u <= / 1000000 -> 0 < M -> 0 <= n <= u * M / 1000 -> Rabs v <= 3 * M -> Rabs (s2 - v) <= e -> Rabs (h - 1) <= 16 * u ->
  Rabs (r - Rabs s2 / h) <= u * Rabs (Rabs s2 / h) + n -> Rabs (r - Rabs v) <= 52 * u * M + 101 / 100 * e.
Proof.
  intros U HM Hn V S H R. assert (Pe : 0 <= e) by (apply Rle_trans with (2 := S); apply Rabs_pos).
  assert (uM : 0 < u * M) by (apply Rmult_lt_0_compat; lra). assert (uuM : u * (u * M) <= / 1000000 * (u * M)) by (apply Rmult_le_compat_r; lra). assert (ue : u * e <= / 1000000 * e) by (apply Rmult_le_compat_r; lra).
  assert (Hh : 999 / 1000 <= h) by (revert H; unfold Rabs; destruct (Rcase_abs _); lra).
  assert (S1 : Rabs s2 <= Rabs v + e) by (pose proof (abs_diff _ _ _ S); lra).
  assert (S2 : Rabs v <= Rabs s2 + e) by (rewrite Rabs_minus_sym in S; pose proof (abs_diff _ _ _ S); lra).
  set (k := Rabs s2 / h) in *. assert (Ek : k * h = Rabs s2) by (unfold k; field; lra).
  assert (Pk : 0 <= k) by (unfold k; apply Rmult_le_pos; [apply Rabs_pos|left; apply Rinv_0_lt_compat; lra]).
  assert (Bk : k <= 1002 / 1000 * Rabs s2) by (assert (k * (999 / 1000) <= k * h) by (apply Rmult_le_compat_l; lra); pose proof (Rabs_pos s2); lra).
  assert (Dk : Rabs (k - Rabs s2) <= 16 * u * k).
  { replace (k - Rabs s2) with (k * (1 - h)) by (rewrite <- Ek; ring). rewrite Rabs_mult, (Rabs_right k), (Rabs_minus_sym 1 h) by lra. rewrite Rmult_comm. apply Rmult_le_compat_r; lra. }
  rewrite (Rabs_right k) in R by lra.
  assert (17 * u * k <= 17 * u * (1002 / 1000 * (3 * M + e))) by (apply Rmult_le_compat_l; lra).
  assert (Rabs (Rabs s2 - Rabs v) <= e) by (unfold Rabs at 1; destruct (Rcase_abs _); lra).
  replace (r - Rabs v) with ((r - k) + ((k - Rabs s2) + (Rabs s2 - Rabs v))) by ring. eapply Rle_trans; [apply Rabs_triang|]. eapply Rle_trans; [apply Rplus_le_compat_l, Rabs_triang|].
  assert (0 <= u * e) by (apply Rmult_le_pos; lra). lra.
Qed.

(** ** The doubles *)

Lemma pw2_le a b : (a <= b)%nat -> 2 ^ a <= 2 ^ b. Proof. intro H. apply Rle_pow; [lra|exact H]. Qed.
(** [M] in the range where neither overflow nor underflow matters. *)
Definition rangeM (M : R) : Prop := / 2 ^ 101 <= M <= 2 ^ 100.
Lemma u_range : 0 < ulp1 <= / 1000000. Proof. pose proof ulp1_pos. lra. Qed.
Lemma eta_ulp : 0 <= eta <= ulp1 / 1000.
Proof.
  pose proof eta_small. assert (/ 2 ^ 1075 <= / 2 ^ 63) by (apply pinv; lia). assert (E : / 2 ^ 63 = ulp1 * / 2 ^ 10) by (unfold ulp1; rewrite pinv_mult; reflexivity).
  pose proof ulp1_pos. assert (/ 2 ^ 10 <= / 1000) by (apply Rinv_le_contravar; lra). assert (ulp1 * / 2 ^ 10 <= ulp1 * / 1000) by (apply Rmult_le_compat_l; lra). lra.
Qed.
Lemma eta_M M : rangeM M -> eta <= ulp1 * M / 1000 /\ eta <= ulp1 * (M * M) / 1000.
Proof.
  intros [L _]. pose proof eta_small. pose proof ulp1_pos as U. pose proof (pinv_pos 101) as P.
  assert (E : / 2 ^ 265 = ulp1 * (/ 2 ^ 101 * / 2 ^ 101) * / 2 ^ 10) by (unfold ulp1; rewrite !pinv_mult; reflexivity).
  assert (E2 : / 2 ^ 164 = ulp1 * / 2 ^ 101 * / 2 ^ 10) by (unfold ulp1; rewrite !pinv_mult; reflexivity).
  assert (/ 2 ^ 1075 <= / 2 ^ 265) by (apply pinv; lia). assert (/ 2 ^ 1075 <= / 2 ^ 164) by (apply pinv; lia).
  assert (T : / 2 ^ 10 <= / 1000) by (apply Rinv_le_contravar; lra). pose proof (pinv_pos 10) as P10.
  assert (A1 : ulp1 * / 2 ^ 101 <= ulp1 * M) by (apply Rmult_le_compat_l; lra).
  assert (A2 : ulp1 * (/ 2 ^ 101 * / 2 ^ 101) <= ulp1 * (M * M)) by (apply Rmult_le_compat_l; [lra|]; apply Rmult_le_compat; lra).
  set (i := / 2 ^ 101) in *. set (j := / 2 ^ 10) in *. clearbody i j.
  assert (0 <= ulp1 * i) by (apply Rmult_le_pos; lra). assert (0 <= ulp1 * (i * i)) by (apply Rmult_le_pos; [lra|apply Rmult_le_pos; lra]).
  assert (ulp1 * i * j <= ulp1 * M * / 1000) by (apply Rmult_le_compat; lra). assert (ulp1 * (i * i) * j <= ulp1 * (M * M) * / 1000) by (apply Rmult_le_compat; lra). lra.
Qed.

(** Computed distance to a line with unit normal (al,be) known by rounded coefficients. *)
Lemma lineDist_f (l : line float) (r : pt float) al be ga M w : fin (la l) -> fin (lb l) -> fin (lc l) -> finP r -> rangeM M -> w <= 2 ^ 400 ->
  al * al + be * be = 1 -> Rabs ga <= 3 / 2 * M -> Rabs (toR (la l) - al) <= 82 / 10 * ulp1 -> Rabs (toR (lb l) - be) <= 82 / 10 * ulp1 -> Rabs (toR (lc l) - ga) <= w ->
  Rabs (toR (px r)) <= M -> Rabs (toR (py r)) <= M ->
  fin (lineDist (N := FNum) l r) /\ Rabs (toR (lineDist (N := FNum) l r) - Rabs (al * toR (px r) + be * toR (py r) + ga)) <= 77 * ulp1 * M + 104 / 100 * w.
Proof.
  intros Fa Fb Fc [Fx Fy] HM Hw E1 G Ea Eb Ec Bx By. pose proof u_range as U. pose proof eta_ulp as N1. destruct (eta_M M HM) as [N2 _]. destruct HM as [ML MH]. pose proof (pinv_pos 101) as P101.
  assert (PM : 0 < M) by lra. pose proof (Rabs_pos al) as Pal. pose proof (Rabs_pos be) as Pbe.
  assert (L : Rabs al + Rabs be <= 142 / 100).
  { assert (Rabs al * Rabs al + Rabs be * Rabs be = 1) by (rewrite <- !Rabs_mult, !Rabs_right by nra; exact E1). pose proof (Rle_0_sqr (Rabs al - Rabs be)) as Q. unfold Rsqr in Q. assert ((Rabs al + Rabs be) * (Rabs al + Rabs be) <= 2) by lra. nra. }
  assert (A1 : Rabs al <= 1) by (assert (Rabs al * Rabs al <= 1) by (rewrite <- Rabs_mult, Rabs_right by nra; nra); nra).
  assert (B1 : Rabs be <= 1) by (assert (Rabs be * Rabs be <= 1) by (rewrite <- Rabs_mult, Rabs_right by nra; nra); nra).
  assert (V : Rabs (al * toR (px r) + be * toR (py r)) <= 3 / 2 * M).
  { eapply Rle_trans; [apply Rabs_triang|]. rewrite !Rabs_mult. assert (Rabs al * Rabs (toR (px r)) <= Rabs al * M) by (apply Rmult_le_compat_l; lra). assert (Rabs be * Rabs (toR (py r)) <= Rabs be * M) by (apply Rmult_le_compat_l; lra).
    assert ((Rabs al + Rabs be) * M <= 142 / 100 * M) by (apply Rmult_le_compat_r; lra). lra. }
  assert (K1 : 2 ^ 100 <= 2 ^ 400) by (apply pw2_le; lia). assert (K0 : 1 <= 2 ^ 100) by (apply pow_R1_Rle; lra).
  assert (K2 : 1024 * 2 ^ 400 = 2 ^ 410) by (change 410%nat with (10 + 400)%nat; rewrite pow_add; lra). assert (K3 : 2 ^ 410 <= 2 ^ 1000) by (apply pw2_le; lia).
  assert (Ta : Rabs (toR (la l)) <= 2) by (pose proof (abs_diff _ _ _ Ea); lra). assert (Tb : Rabs (toR (lb l)) <= 2) by (pose proof (abs_diff _ _ _ Eb); lra).
  assert (Tc : Rabs (toR (lc l)) <= 2 * M + w) by (pose proof (abs_diff _ _ _ Ec); lra). assert (Pw : 0 <= w) by (apply Rle_trans with (2 := Ec); apply Rabs_pos).
  assert (BM : forall a b c, Rabs a <= c -> Rabs b <= M -> 0 <= c -> Rabs (a * b) <= c * M) by (intros a b c Ha Hb Hc; rewrite Rabs_mult; apply Rmult_le_compat; try apply Rabs_pos; assumption).
  assert (B2 : forall a c, Rabs a <= c -> Rabs (a * a) <= c * c) by (intros a c Ha; rewrite Rabs_mult; apply Rmult_le_compat; try apply Rabs_pos; assumption).
  assert (UB : forall y, 0 <= y -> ulp1 * y <= y) by (intros y Hy; rewrite <- (Rmult_1_l y) at 2; apply Rmult_le_compat_r; lra).
  pose proof (UB M ltac:(lra)) as UM.
  pose proof (BM _ _ _ Ta Bx ltac:(lra)) as X1. pose proof (BM _ _ _ Tb By ltac:(lra)) as X2.
  destruct (op_err _ _ (mul_rnd _ _ Fa Fx) ltac:(lra)) as [F1 T1]. destruct (op_err _ _ (mul_rnd _ _ Fb Fy) ltac:(lra)) as [F2 T2].
  set (t1 := (la l * px r)%float) in *. set (t2 := (lb l * py r)%float) in *.
  assert (Y1 : Rabs (toR t1) <= 5 * M) by (pose proof (abs_diff _ _ _ T1); pose proof (UB _ (Rabs_pos (toR (la l) * toR (px r)))); lra).
  assert (Y2 : Rabs (toR t2) <= 5 * M) by (pose proof (abs_diff _ _ _ T2); pose proof (UB _ (Rabs_pos (toR (lb l) * toR (py r)))); lra).
  assert (X3 : Rabs (toR t1 + toR t2) <= 10 * M) by (pose proof (Rabs_triang (toR t1) (toR t2)); lra).
  destruct (op_err _ _ (add_rnd _ _ F1 F2) ltac:(lra)) as [F3 T3]. set (s1 := (t1 + t2)%float) in *.
  assert (Y3 : Rabs (toR s1) <= 21 * M) by (pose proof (abs_diff _ _ _ T3); pose proof (UB _ (Rabs_pos (toR t1 + toR t2))); lra).
  assert (X4 : Rabs (toR s1 + toR (lc l)) <= 23 * M + w) by (pose proof (Rabs_triang (toR s1) (toR (lc l))); lra).
  destruct (op_err _ _ (add_rnd _ _ F3 Fc) ltac:(lra)) as [F4 T4]. set (s2 := (s1 + lc l)%float) in *.
  assert (Y4 : Rabs (toR s2) <= 47 * M + 2 * w) by (pose proof (abs_diff _ _ _ T4); pose proof (UB _ (Rabs_pos (toR s1 + toR (lc l)))); lra).
  pose proof (value_err ulp1 eta al be ga _ _ _ _ _ M w _ _ _ _ U PM N1 N2 A1 B1 G V Bx By Ea Eb Ec T1 T2 T3 T4) as VE.
  destruct (op_err _ _ (mul_rnd _ _ Fa Fa) ltac:(pose proof (B2 _ _ Ta); lra)) as [G1 S1]. destruct (op_err _ _ (mul_rnd _ _ Fb Fb) ltac:(pose proof (B2 _ _ Tb); lra)) as [G2 S2].
  set (a2 := (la l * la l)%float) in *. set (b2 := (lb l * lb l)%float) in *.
  assert (Z1 : Rabs (toR a2) <= 9) by (pose proof (abs_diff _ _ _ S1); pose proof (UB _ (Rabs_pos (toR (la l) * toR (la l)))); pose proof (B2 _ _ Ta); lra).
  assert (Z2 : Rabs (toR b2) <= 9) by (pose proof (abs_diff _ _ _ S2); pose proof (UB _ (Rabs_pos (toR (lb l) * toR (lb l)))); pose proof (B2 _ _ Tb); lra).
  assert (Z3 : Rabs (toR a2 + toR b2) <= 18) by (pose proof (Rabs_triang (toR a2) (toR b2)); lra).
  destruct (op_err _ _ (add_rnd _ _ G1 G2) ltac:(lra)) as [G3 S3]. set (ss := (a2 + b2)%float) in *.
  assert (Z4 : Rabs (toR ss) <= 37) by (pose proof (abs_diff _ _ _ S3); pose proof (UB _ (Rabs_pos (toR a2 + toR b2))); lra).
  assert (Pa2 : 0 <= toR a2) by (apply (rnd_ge a2 _ 0%float (mul_rnd _ _ Fa Fa) G1 eq_refl); change (toR 0%float) with 0; nra).
  assert (Pb2 : 0 <= toR b2) by (apply (rnd_ge b2 _ 0%float (mul_rnd _ _ Fb Fb) G2 eq_refl); change (toR 0%float) with 0; nra).
  assert (Pss : 0 <= toR ss) by (apply (rnd_ge ss _ 0%float (add_rnd _ _ G1 G2) G3 eq_refl); change (toR 0%float) with 0; lra).
  assert (Z5 : Rabs (R_sqrt.sqrt (toR ss)) <= 37).
  { rewrite Rabs_right by (apply Rle_ge, sqrt_pos). rewrite Rabs_right in Z4 by lra. rewrite <- (sqrt_square 37) by lra. apply sqrt_le_1_alt. lra. }
  destruct (op_err _ _ (sqrt_rnd _ G3 Pss) ltac:(lra)) as [G4 S4]. set (h := PrimFloat.sqrt ss) in *.
  pose proof (norm_err ulp1 eta al be _ _ _ _ _ _ U N1 E1 Ea Eb S1 S2 S3 Pss S4) as NE.
  assert (Hh : 9 / 10 <= toR h) by (revert NE; unfold Rabs; destruct (Rcase_abs _); lra).
  destruct (abs_toR s2 F4) as [F5 E5].
  assert (X6 : Rabs (toR (abs s2) / toR h) <= 53 * M + 3 * w).
  { rewrite E5. unfold Rdiv. rewrite Rabs_mult, Rabs_Rabsolu, Rabs_inv, (Rabs_right (toR h)) by lra.
    assert (/ toR h <= 10 / 9) by (replace (10 / 9) with (/ (9 / 10)) by lra; apply Rinv_le_contravar; lra). assert (0 < / toR h) by (apply Rinv_0_lt_compat; lra).
    assert (Rabs (toR s2) * / toR h <= (47 * M + 2 * w) * (10 / 9)) by (apply Rmult_le_compat; try apply Rabs_pos; lra). lra. }
  destruct (op_err _ _ (div_rnd _ _ F5 G4 ltac:(lra)) ltac:(lra)) as [F6 T6].
  assert (Vv : Rabs (al * toR (px r) + be * toR (py r) + ga) <= 3 * M) by (pose proof (Rabs_triang (al * toR (px r) + be * toR (py r)) ga); lra).
  unfold lineDist, hypot. cbn [nabs ndiv nmul nadd nsqrt FNum]. fold t1 t2 s1 s2 a2 b2 ss h.
  split; [exact F6|]. rewrite E5 in T6. pose proof (final_err ulp1 eta _ _ _ _ M _ U PM ltac:(lra) Vv VE NE T6) as R.
  assert (0 < ulp1 * M) by (apply Rmult_lt_0_compat; lra). lra.
Qed.
