(** * Properties C214 to C216: lengths, rectangles and circles in binary64

    The model functions at [FNum] against the exact results on the real numbers the doubles stand for. *)

From Coq Require Import Reals Lra ZArith Floats Bool Lia List.
From Verif Require Import Num FloatFuns M_LP M_Seg M_Circle M_Poly M_FRect S_Geom S_Poly P_LP P_LP2 P_Poly P_Poly2 S_Float S_FloatZ S_FloatR P_Float P_FloatZ P_FloatZ2 P_FloatR P_FloatE P_FloatE2 P_FloatP C_Float C_FloatZ C_FloatR C_FloatL.
Import ListNotations.
Local Open Scope R_scope.

(** ** C214: length of a polyline *)

(** length() of an open or closed polyline does not throw and its relative error is at most (2n+7).2^-53. *)
Theorem C214_length : forall (th : thrs float) (closed : bool) (l : list (pt float)),
  (2 <= length l)%nat -> (Z.of_nat (length l) <= 100000)%Z -> fin (nullDistance th) ->
  (forall p q, In (p, q) (sides closed l) -> moderate p /\ moderate q /\ away (toR (px p) - toR (px q)) /\ away (toR (py p) - toR (py q)) /\
     toR (nullDistance th) <= edist (toRp p) (toRp q) * (1 - 6 * ulp1)) ->
  exists v pl, plLength (N := FNum) th closed (plFresh l) = Ok (v, pl) /\ plPts pl = l /\
    relErr (2 * INR (length l) + 7) v (sumOver (fun e => edist (fst e) (snd e)) (sides closed (map toRp l))).
Proof.
  intros th closed l L2 Ln Ft H. destruct (length_err th closed l L2 Ln Ft) as (v & Ev & R).
  { intros [p q] I. destruct (H p q I) as (A & B & C & D & E). split; [|exact E]. exact (conj A (conj B (conj C D))). }
  unfold plLength, plFresh. cbn [plLen plPts]. rewrite Ev. cbn [bind]. eexists. eexists. split; [reflexivity|]. split; [reflexivity|exact R].
Qed.
Print Assumptions C214_length.

Lemma quad_sides p q : In p quad -> In q quad -> p <> q -> moderate p /\ moderate q /\ away (toR (px p) - toR (px q)) /\ away (toR (py p) - toR (py q)) /\
  / 10 <= edist (toRp p) (toRp q).
Proof.
  intros Ip Iq N. destruct C200_ex as (_ & M & _). rewrite Forall_forall in M. split; [now apply M|]. split; [now apply M|].
  assert (G : forall x y : R, / 4 <= x - y \/ x - y <= - / 4 -> away (x - y)).
  { intros x y D. right. apply Rle_trans with (/ 2 ^ 2); [apply pinv; lia|]. assert (2 ^ 2 = 4) by lra. rewrite H. unfold Rabs. destruct (Rcase_abs _); lra. }
  assert (K : (/ 4 <= toR (px p) - toR (px q) \/ toR (px p) - toR (px q) <= - / 4) /\ (/ 4 <= toR (py p) - toR (py q) \/ toR (py p) - toR (py q) <= - / 4)).
  { destruct quad_val as (a & b & c & d & e & f & g & h & E & B). cbn [map quad] in E. injection E as E1 E2 E3 E4 E5 E6 E7 E8.
    cbn [In quad] in Ip, Iq. decompose [or] Ip; try contradiction; decompose [or] Iq; try contradiction; subst p; subst q; try (now exfalso; apply N);
      cbn [px py]; rewrite ?E1, ?E2, ?E3, ?E4, ?E5, ?E6, ?E7, ?E8; split; lra. }
  destruct K as [K1 K2]. split; [now apply G|]. split; [now apply G|]. unfold edist, toRp, Rsqr. cbn [px py].
  rewrite <- (sqrt_square (/ 10)) by lra. apply sqrt_le_1_alt. set (u := toR (px p) - toR (px q)) in *. set (w := toR (py p) - toR (py q)) in *. assert (0 <= w * w) by apply Rle_0_sqr. nra.
Qed.
Lemma quad_thr p q : / 10 <= edist p q -> toR (nullDistance (thr0 (N := FNum))) <= edist p q * (1 - 6 * ulp1).
Proof.
  intro H. destruct nullD_toR as [_ B]. pose proof ulp1_pos as U. apply Rle_trans with (/ 10 * (1 - 6 * ulp1)); [lra|]. apply Rmult_le_compat_r; lra.
Qed.
(** A quadrilateral whose perimeter is not a double. *)
Example C214_ex : (2 <= length quad)%nat /\ (Z.of_nat (length quad) <= 100000)%Z /\ fin (nullDistance (thr0 (N := FNum))) /\
  (forall p q, In (p, q) (sides true quad) -> moderate p /\ moderate q /\ away (toR (px p) - toR (px q)) /\ away (toR (py p) - toR (py q)) /\
     toR (nullDistance (thr0 (N := FNum))) <= edist (toRp p) (toRp q) * (1 - 6 * ulp1)) /\
  match plLength (N := FNum) (thr0 (N := FNum)) true (plFresh quad) with Ok (v, _) => (v =? 23.419363309654948)%float | _ => false end = true.
Proof.
  split; [cbn; lia|]. split; [cbn; lia|]. split; [reflexivity|]. split; [|vm_compute; reflexivity].
  intros p q I. assert (In p quad /\ In q quad /\ p <> q) as (A & B & C).
  { assert (X : forall a b : pt float, Prim2SF (px a) <> Prim2SF (px b) -> a <> b) by (intros a b E ->; now apply E).
    cbn [sides cyc quad app combine In] in I. decompose [or] I; try contradiction; injection H as <- <- || injection H0 as <- <-; (split; [cbn [quad In]; tauto|]; split; [cbn [quad In]; tauto|]; apply X; vm_compute; discriminate). }
  destruct (quad_sides p q A B C) as (M1 & M2 & W1 & W2 & D). repeat (split; [assumption|]). now apply quad_thr.
Qed.

(** ** C215: area and length of a flat rectangle *)

Lemma chain_rel u a X x z : 0 <= X -> 0 <= a -> 0 <= u -> Rabs (x - X) <= a * X -> Rabs (z - x) <= u * Rabs x -> Rabs (z - X) <= (a + u + a * u) * X.
Proof.
  intros HX Ha Hu H1 H2. pose proof (abs_diff _ _ _ H1) as B. rewrite (Rabs_right X) in B by lra. assert (u * Rabs x <= u * (X + a * X)) by (now apply Rmult_le_compat_l).
  replace (z - X) with ((z - x) + (x - X)) by ring. eapply Rle_trans; [apply Rabs_triang|]. lra.
Qed.
Lemma twice_err x : fin x -> Rabs (toR x) <= 2 ^ 1000 -> fin (2 * x)%float /\ Rabs (toR (2 * x)%float - 2 * toR x) <= ulp1 * Rabs (2 * toR x).
Proof.
  intros F B. assert (F2 : fin 2%float) by reflexivity. assert (T2 : toR 2%float = 2) by (apply (int_toR 2); unfold lim; lia).
  pose proof (mul_rnd 2%float x F2 F) as H. rewrite T2 in H. assert (K : 2 * 2 ^ 1000 <= 2 ^ 1023) by (change (2 * 2 ^ 1000) with (2 ^ 1001); apply Rle_pow; [lra|lia]).
  assert (Fr : fin (2 * x)%float) by (apply big_fin with (1 := H); rewrite Rabs_mult, (Rabs_right 2) by lra; lra). split; [exact Fr|].
  destruct (grid x F) as [n Hn]. apply grid_err with (n := (2 * n)%Z); [exact H|exact Fr|]. rewrite Hn, mult_IZR. ring.
Qed.

(** The corners are in order: width and height are not negative. *)
Theorem C215_length : forall r : frect float, moderate (r1 r) -> moderate (r2 r) ->
  let W := toR (px (r2 r)) - toR (px (r1 r)) in let H := toR (py (r2 r)) - toR (py (r1 r)) in 0 <= W -> 0 <= H ->
  relErr 4 (frLength (N := FNum) r) (2 * (W + H)).
Proof.
  intros r [[Fx1 Fy1] [Bx1 By1]] [[Fx2 Fy2] [Bx2 By2]] W H PW PH. unfold frLength, frWidth, frHeight. cbn [nadd nmul nsub FNum]. change (@nZ _ FNum 2) with 2%float.
  destruct (diff_mod _ _ Fx2 Fx1 Bx2 Bx1) as (Fw & Ew & Bw), (diff_mod _ _ Fy2 Fy1 By2 By1) as (Fh & Eh & Bh). fold W in Ew. fold H in Eh.
  set (w := (px (r2 r) - px (r1 r))%float) in *. set (h := (py (r2 r) - py (r1 r))%float) in *. pose proof ulp1_pos as U. rewrite (Rabs_right W) in Ew by lra; rewrite (Rabs_right H) in Eh by lra.
  assert (K : 2 ^ 502 <= 2 ^ 1000) by (apply Rle_pow; [lra|lia]). destruct (twice_err w Fw ltac:(lra)) as [Fw2 Ew2], (twice_err h Fh ltac:(lra)) as [Fh2 Eh2].
  assert (Cw : Rabs (toR (2 * w)%float - 2 * W) <= (ulp1 + ulp1 + ulp1 * ulp1) * (2 * W)).
  { apply chain_rel with (2 * toR w); try lra. replace (2 * toR w - 2 * W) with (2 * (toR w - W)) by ring. rewrite Rabs_mult, (Rabs_right 2); lra. }
  assert (Ch : Rabs (toR (2 * h)%float - 2 * H) <= (ulp1 + ulp1 + ulp1 * ulp1) * (2 * H)).
  { apply chain_rel with (2 * toR h); try lra. replace (2 * toR h - 2 * H) with (2 * (toR h - H)) by ring. rewrite Rabs_mult, (Rabs_right 2); lra. }
  set (a := (2 * w)%float) in *. set (b := (2 * h)%float) in *.
  assert (Q : ulp1 * ulp1 <= ulp1 * / 100) by (apply Rmult_le_compat_l; lra).
  assert (C2 : Rabs (toR b + toR a - 2 * (W + H)) <= (ulp1 + ulp1 + ulp1 * ulp1) * (2 * (W + H))).
  { replace (toR b + toR a - 2 * (W + H)) with ((toR b - 2 * H) + (toR a - 2 * W)) by ring. eapply Rle_trans; [apply Rabs_triang|]. lra. }
  assert (Bs : Rabs (toR b + toR a) <= 2 ^ 1023).
  { eapply Rle_trans; [apply Rabs_triang|]. pose proof (abs_diff _ _ _ Ew2) as X. pose proof (abs_diff _ _ _ Eh2) as Y. rewrite Rabs_mult, (Rabs_right 2) in X, Y by lra.
    assert (K2 : 2 ^ 1023 = 8 * 2 ^ 1020) by (change 1023%nat with (3 + 1020)%nat; rewrite pow_add; lra). assert (2 ^ 502 <= 2 ^ 1020) by (apply Rle_pow; [lra|lia]).
    assert (ulp1 * (2 * Rabs (toR w)) <= 1 * (2 * Rabs (toR w))) by (apply Rmult_le_compat_r; [pose proof (Rabs_pos (toR w))|]; lra). assert (ulp1 * (2 * Rabs (toR h)) <= 1 * (2 * Rabs (toR h))) by (apply Rmult_le_compat_r; [pose proof (Rabs_pos (toR h))|]; lra). lra. }
  assert (Fs : fin (b + a)%float) by (apply big_fin with (1 := add_rnd b a Fh2 Fw2); exact Bs). split; [exact Fs|]. pose proof (add_err b a Fh2 Fw2 Fs) as Es.
  rewrite (Rabs_right (2 * (W + H))) by lra. eapply Rle_trans; [apply (chain_rel ulp1 (ulp1 + ulp1 + ulp1 * ulp1) _ (toR b + toR a)); try assumption; try lra|].
  - assert (0 <= ulp1 * ulp1) by (apply Rmult_le_pos; lra). lra.
  - apply Rmult_le_compat_r; [lra|]. assert (ulp1 * ulp1 * ulp1 <= ulp1 * / 100 * 1) by (apply Rmult_le_compat; try lra; apply Rmult_le_pos; lra). lra.
Qed.
Print Assumptions C215_length.

Theorem C215_area : forall r : frect float, moderate (r1 r) -> moderate (r2 r) ->
  let W := toR (px (r2 r)) - toR (px (r1 r)) in let H := toR (py (r2 r)) - toR (py (r1 r)) in away W -> away H ->
  relErr 4 (frArea (N := FNum) r) (W * H).
Proof.
  intros r [[Fx1 Fy1] [Bx1 By1]] [[Fx2 Fy2] [Bx2 By2]] W H AW AH. unfold frArea, frWidth, frHeight. cbn [nadd nmul nsub FNum].
  destruct (diff_mod _ _ Fx2 Fx1 Bx2 Bx1) as (Fw & Ew & Bw), (diff_mod _ _ Fy2 Fy1 By2 By1) as (Fh & Eh & Bh). fold W in Ew. fold H in Eh.
  set (w := (px (r2 r) - px (r1 r))%float) in *. set (h := (py (r2 r) - py (r1 r))%float) in *. pose proof ulp1_pos as U.
  destruct (prod_mod h w 502 Fh Fw ltac:(lia) Bh Bw) as (Fp & _ & _). split; [exact Fp|].
  assert (L : forall d D, Rabs (toR d - D) <= ulp1 * Rabs D -> away D -> toR d = 0 \/ / 2 ^ 502 <= Rabs (toR d)).
  { intros d D Ed [E|E].
    - left. rewrite E, Rabs_R0, Rmult_0_r in Ed. revert Ed. unfold Rabs. destruct (Rcase_abs _); lra.
    - right. assert (Rabs D - ulp1 * Rabs D <= Rabs (toR d)) by (revert Ed; generalize (ulp1 * Rabs D); intro z; unfold Rabs; destruct (Rcase_abs _), (Rcase_abs _), (Rcase_abs _); lra).
      assert (ulp1 * Rabs D <= / 2 * Rabs D) by (apply Rmult_le_compat_r; lra).
      assert (K : / 2 ^ (2 + 500) = / 4 * / 2 ^ 500) by (rewrite <- pinv_mult; f_equal; cbn; lra). change (2 + 500)%nat with 502%nat in K. pose proof (pinv_pos 500). lra. }
  assert (S : toR h * toR w = 0 \/ / 2 ^ 1021 <= Rabs (toR h * toR w)).
  { destruct (L h H Eh AH) as [Z|Z]; [left; rewrite Z; ring|]. destruct (L w W Ew AW) as [Y|Y]; [left; rewrite Y; ring|]. right. rewrite Rabs_mult.
    apply Rle_trans with (/ 2 ^ 502 * / 2 ^ 502); [rewrite pinv_mult; apply pinv; lia|]. pose proof (pinv_pos 502). apply Rmult_le_compat; lra. }
  pose proof (rel_err _ _ (mul_rnd h w Fh Fw) Fp S) as E1. rewrite (Rmult_comm W H).
  assert (E2 : Rabs (toR (h * w)%float - H * W) <= 4 * ulp1 * Rabs (H * W) + 0) by (apply rel_prod with (toR h) (toR w); try assumption; lra). lra.
Qed.
Print Assumptions C215_area.

Lemma quad_1 : moderate (mkPt 0.1 0.2)%float /\ moderate (mkPt 5.3 0.7)%float /\ moderate (mkPt 4.1 6.9)%float.
Proof. destruct C200_ex as (_ & M & _). rewrite Forall_forall in M. repeat split; apply M; cbn [quad In]; tauto. Qed.
(** Neither the area nor the perimeter of the rectangle (0.1, 0.2)-(4.1, 6.9) is the one of the exact numbers. *)
Example C215_ex : let r := mkR (mkPt 0.1%float 0.2%float) (mkPt 4.1%float 6.9%float) in
  moderate (r1 r) /\ moderate (r2 r) /\ 0 <= toR (px (r2 r)) - toR (px (r1 r)) /\ 0 <= toR (py (r2 r)) - toR (py (r1 r)) /\
  away (toR (px (r2 r)) - toR (px (r1 r))) /\ away (toR (py (r2 r)) - toR (py (r1 r))) /\
  (frArea (N := FNum) r =? 26.8)%float = false /\ (frLength (N := FNum) r =? 21.4)%float = true.
Proof.
  cbv zeta. cbn [r1 r2]. destruct quad_1 as (M1 & _ & M2). split; [exact M1|]. split; [exact M2|]. cbn [px py].
  assert (I1 : In (mkPt 4.1 6.9)%float quad) by (cbn [quad In]; tauto). assert (I2 : In (mkPt 0.1 0.2)%float quad) by (cbn [quad In]; tauto).
  assert (Ne : mkPt 4.1%float 6.9%float <> mkPt 0.1%float 0.2%float) by (intro E; apply (f_equal (fun p => Prim2SF (px p))) in E; vm_compute in E; discriminate).
  destruct (quad_sides _ _ I1 I2 Ne) as (_ & _ & W1 & W2 & _). cbn [px py] in W1, W2.
  destruct quad_val as (a & b & c & d & e & f & g & h & E & B). cbn [map quad] in E. injection E as E1 E2 E3 E4 E5 E6 E7 E8.
  split; [rewrite E1, E3; lra|]. split; [rewrite E2, E4; lra|]. split; [exact W1|]. split; [exact W2|]. split; vm_compute; reflexivity.
Qed.

(** ** C216: points and circles inside circles *)

(** A point said to be inside is inside the circle enlarged by 7.2^-53, relatively; one said not to be is not inside the
    circle shrunk as much. *)
Theorem C216_point : forall (p : pt float) (c : circle float), moderate p -> moderate (cc c) -> fin (cr c) ->
  away (toR (px p) - toR (px (cc c))) -> away (toR (py p) - toR (py (cc c))) ->
  let d := edist (toRp p) (toRp (cc c)) in
  (ptInCircle (N := FNum) p c = true -> d < toR (cr c) * (1 + 7 * ulp1)) /\
  (ptInCircle (N := FNum) p c = false -> toR (cr c) * (1 - 7 * ulp1) <= d).
Proof.
  intros p [o r] Mp Mo Fr Wx Wy. cbn [cc cr] in *. cbv zeta. destruct (dist_err p o Mp Mo Wx Wy) as [_ [Fd E]]. pose proof (edist_bound p o Mp Mo) as [Pd _]. pose proof ulp1_pos as U.
  rewrite (Rabs_right (edist _ _)) in E by lra. unfold ptInCircle. cbn [cc cr nltb FNum]. set (d := edist (toRp p) (toRp o)) in *. set (t := distPP (N := FNum) p o) in *.
  assert (Q : ulp1 * ulp1 <= ulp1 * / 1000) by (apply Rmult_le_compat_l; lra). assert (Q0 : 0 <= ulp1 * ulp1) by (apply Rmult_le_pos; lra). split; intro H.
  - apply toR_lt in H; [|exact Fd|exact Fr]. assert (B : d * (1 - 6 * ulp1) < toR r) by (revert E; unfold Rabs; destruct (Rcase_abs _); lra).
    assert (d * (1 - 6 * ulp1) * (1 + 7 * ulp1) < toR r * (1 + 7 * ulp1)) by (apply Rmult_lt_compat_r; lra).
    assert (d * 1 <= d * ((1 - 6 * ulp1) * (1 + 7 * ulp1))) by (apply Rmult_le_compat_l; [exact Pd|]; lra). lra.
  - apply toR_ge in H; [|exact Fd|exact Fr]. assert (B : toR r <= d * (1 + 6 * ulp1)) by (revert E; unfold Rabs; destruct (Rcase_abs _); lra).
    assert (toR r * (1 - 7 * ulp1) <= d * (1 + 6 * ulp1) * (1 - 7 * ulp1)) by (apply Rmult_le_compat_r; lra).
    assert (d * ((1 + 6 * ulp1) * (1 - 7 * ulp1)) <= d * 1) by (apply Rmult_le_compat_l; [exact Pd|]; lra). lra.
Qed.
Print Assumptions C216_point.

Lemma far_point (o o2 : pt R) (r : R) : 0 <= r -> exists q, edist q o = r /\ edist q o2 = r + edist o o2.
Proof.
  intro Hr. destruct o as [x y], o2 as [a b]. destruct (Req_dec (edist (mkPt x y) (mkPt a b)) 0) as [Z|Z].
  - exists (mkPt (x + r) y). unfold edist in *. cbn [px py] in *. unfold Rsqr in *.
    assert (x = a /\ y = b) as [-> ->]. { apply sqrt_eq_0 in Z; [|apply Rplus_le_le_0_compat; apply Rle_0_sqr]. destruct (Rplus_sqr_eq_0 (x - a) (y - b) Z); split; lra. }
    replace ((a + r - a) * (a + r - a) + (b - b) * (b - b)) with (r * r) by ring. replace ((a - a) * (a - a) + (b - b) * (b - b)) with 0 by ring. rewrite sqrt_square, sqrt_0 by assumption. lra.
  - assert (P : 0 < edist (mkPt x y) (mkPt a b)) by (pose proof (sqrt_pos (Rsqr (x - a) + Rsqr (y - b))); unfold edist in *; cbn [px py] in *; lra).
    set (D := edist (mkPt x y) (mkPt a b)) in *. assert (DD : D * D = (x - a) * (x - a) + (y - b) * (y - b)) by (unfold D, edist; cbn [px py]; rewrite sqrt_sqrt; [reflexivity|apply Rplus_le_le_0_compat; apply Rle_0_sqr]).
    exists (mkPt (x + r / D * (x - a)) (y + r / D * (y - b))). unfold edist. cbn [px py]. unfold Rsqr.
    assert (K : r / D * D = r) by (field; lra). split.
    + replace ((x + r / D * (x - a) - x) * (x + r / D * (x - a) - x) + (y + r / D * (y - b) - y) * (y + r / D * (y - b) - y)) with (r * r); [now apply sqrt_square|].
      replace (r * r) with ((r / D * D) * (r / D * D)) by (now rewrite K). replace (r / D * D * (r / D * D)) with (r / D * (r / D) * (D * D)) by ring. rewrite DD. ring.
    + replace ((x + r / D * (x - a) - a) * (x + r / D * (x - a) - a) + (y + r / D * (y - b) - b) * (y + r / D * (y - b) - b)) with ((r + D) * (r + D)); [apply sqrt_square; lra|].
      replace (r + D) with ((r / D + 1) * D) by (rewrite Rmult_plus_distr_r, K; ring). replace ((r / D + 1) * D * ((r / D + 1) * D)) with ((r / D + 1) * (r / D + 1) * (D * D)) by ring. rewrite DD. ring.
Qed.

(** A circle said to be inside another one: all the points of the disk are inside the other one enlarged by 9.2^-53,
    relatively; otherwise one of them is not inside the other one shrunk as much. *)
Theorem C216_circle : forall c c2 : circle float, moderate (cc c) -> moderate (cc c2) -> fin (cr c) -> fin (cr c2) -> 0 <= toR (cr c) <= 2 ^ 1000 ->
  away (toR (px (cc c)) - toR (px (cc c2))) -> away (toR (py (cc c)) - toR (py (cc c2))) ->
  (cInCircle (N := FNum) c c2 = true -> forall q, edist q (toRp (cc c)) <= toR (cr c) -> edist q (toRp (cc c2)) < toR (cr c2) * (1 + 9 * ulp1)) /\
  (cInCircle (N := FNum) c c2 = false -> exists q, edist q (toRp (cc c)) <= toR (cr c) /\ toR (cr c2) * (1 - 9 * ulp1) <= edist q (toRp (cc c2))).
Proof.
  intros [o r] [o2 s] Mp Mo Fr Fs [Pr Br] Wx Wy. cbn [cc cr] in *. destruct (dist_err o o2 Mp Mo Wx Wy) as [_ [Fd E]]. pose proof (edist_bound o o2 Mp Mo) as [Pd Bd]. pose proof ulp1_pos as U.
  rewrite (Rabs_right (edist _ _)) in E by lra. unfold cInCircle. cbn [cc cr nltb nadd FNum]. set (d := edist (toRp o) (toRp o2)) in *. set (t := distPP (N := FNum) o o2) in *.
  assert (Q : ulp1 * ulp1 <= ulp1 * / 1000) by (apply Rmult_le_compat_l; lra). assert (Q0 : 0 <= ulp1 * ulp1) by (apply Rmult_le_pos; lra).
  assert (E1 : Rabs (toR r + toR t - (toR r + d)) <= 6 * ulp1 * (toR r + d)).
  { replace (toR r + toR t - (toR r + d)) with (toR t - d) by ring. eapply Rle_trans; [exact E|]. apply Rmult_le_compat_l; lra. }
  pose proof (abs_diff _ _ _ E1) as B1. rewrite (Rabs_right (toR r + d)) in B1 by lra.
  assert (Fa : fin (r + t)%float).
  { apply big_fin with (1 := add_rnd r t Fr Fd). assert (6 * ulp1 * (toR r + d) <= 1 * (toR r + d)) by (apply Rmult_le_compat_r; lra).
    assert (2 ^ 502 <= 2 ^ 1000) by (apply Rle_pow; [lra|lia]). assert (2 ^ 1000 * 4 = 2 ^ 1002) by (change 1002%nat with (1000 + 2)%nat; rewrite pow_add; lra). assert (2 ^ 1002 <= 2 ^ 1023) by (apply Rle_pow; [lra|lia]). lra. }
  pose proof (add_err r t Fr Fd Fa) as Ea.
  assert (E2 : Rabs (toR (r + t)%float - (toR r + d)) <= (6 * ulp1 + ulp1 + 6 * ulp1 * ulp1) * (toR r + d)) by (apply chain_rel with (toR r + toR t); try assumption; lra).
  set (S := toR r + d) in *. assert (PS : 0 <= S) by (unfold S; lra).
  assert (E3 : Rabs (toR (r + t)%float - S) <= 8 * ulp1 * S) by (eapply Rle_trans; [exact E2|]; apply Rmult_le_compat_r; [exact PS|]; lra). clear E1 E2 Ea B1.
  split; intro H.
  - apply toR_lt in H; [|exact Fa|exact Fs]. assert (B : S * (1 - 8 * ulp1) < toR s) by (revert E3; unfold Rabs; destruct (Rcase_abs _); lra).
    assert (S * (1 - 8 * ulp1) * (1 + 9 * ulp1) < toR s * (1 + 9 * ulp1)) by (apply Rmult_lt_compat_r; lra).
    assert (S * 1 <= S * ((1 - 8 * ulp1) * (1 + 9 * ulp1))) by (apply Rmult_le_compat_l; [exact PS|]; lra).
    intros q Hq. pose proof (edist_triang q (toRp o) (toRp o2)). fold d in H2. unfold S in *. lra.
  - apply toR_ge in H; [|exact Fa|exact Fs]. assert (B : toR s <= S * (1 + 8 * ulp1)) by (revert E3; unfold Rabs; destruct (Rcase_abs _); lra).
    assert (toR s * (1 - 9 * ulp1) <= S * (1 + 8 * ulp1) * (1 - 9 * ulp1)) by (apply Rmult_le_compat_r; lra).
    assert (S * ((1 + 8 * ulp1) * (1 - 9 * ulp1)) <= S * 1) by (apply Rmult_le_compat_l; [exact PS|]; lra).
    destruct (far_point (toRp o) (toRp o2) (toR r) Pr) as (q & Q1 & Q2). exists q. split; [lra|]. rewrite Q2. fold d. unfold S in *. lra.
Qed.
Print Assumptions C216_circle.

(** A point and a circle inside, a circle that is not. *)
Example C216_ex : let p := mkPt 0.1%float 0.2%float in let o := mkPt 4.1%float 6.9%float in let q := mkPt 5.3%float 0.7%float in
  moderate p /\ moderate o /\ away (toR (px p) - toR (px o)) /\ away (toR (py p) - toR (py o)) /\
  ptInCircle (N := FNum) p (mkC o 8%float) = true /\ ptInCircle (N := FNum) p (mkC o 7.8%float) = false /\
  cInCircle (N := FNum) (mkC p 0.5%float) (mkC o 8.4%float) = true /\ cInCircle (N := FNum) (mkC p 0.5%float) (mkC o 8.3%float) = false /\ 0 <= toR 0.5%float <= 2 ^ 1000.
Proof.
  cbv zeta. destruct quad_1 as (M1 & _ & M2). split; [exact M1|]. split; [exact M2|].
  assert (I1 : In (mkPt 4.1%float 6.9%float) quad) by (cbn [quad In]; tauto). assert (I2 : In (mkPt 0.1%float 0.2%float) quad) by (cbn [quad In]; tauto).
  assert (Ne : mkPt 0.1%float 0.2%float <> mkPt 4.1%float 6.9%float) by (intro E; apply (f_equal (fun p => Prim2SF (px p))) in E; vm_compute in E; discriminate).
  destruct (quad_sides _ _ I2 I1 Ne) as (_ & _ & W1 & W2 & _). split; [exact W1|]. split; [exact W2|].
  do 4 (split; [vm_compute; reflexivity|]). assert (T : toR 0.5%float = / 2).
  { unfold toR. assert (E : Prim2SF 0.5%float = S754_finite false 4503599627370496 (-53)) by (vm_compute; reflexivity). rewrite E. fold (pw (-53)). change (-53)%Z with (- Z.of_nat 53)%Z. rewrite pw_npow.
    assert (K : 2 ^ 53 = 9007199254740992) by (rewrite pow_IZR; reflexivity). rewrite K. lra. }
  rewrite T. assert (1 <= 2 ^ 1000) by (apply pow_R1_Rle; lra). lra.
Qed.
