(** * Lemmas about segments: lines, circles, intersections *)

From Coq Require Import Reals ZArith List Bool Lra Psatz.
From Verif Require Import Num M_LP M_Seg S_Geom S_Seg P_LP P_LP2 P_LP3 P_LP4 P_LP5 P_Seg.
Import ListNotations.
Local Open Scope R_scope.
Implicit Types (p q r a b A B : pt R) (s : seg R) (l : line R) (th : thrs R).

Definition rawL p q : line R := mkL (py p - py q) (px q - px p) (px p * py q - py p * px q).
Lemma lineOf_scaled th p q l : thr_ok th -> lineOf th p q = Ok l -> dirOK th p q ->
  exists k, k <> 0 /\ Rabs k * edist p q = 1 /\ l = scaleL k (rawL p q).
Proof.
  intros Hth H D. destruct (lineOf_inv th p q l H) as [Hd Hl]. pose proof (thr_dist th Hth) as T.
  destruct (lnorm_inv th _ _ Hth Hl) as (Hs & Hla & _ & _ & _ & K). cbv zeta in *. cbn [la lb] in *.
  rewrite lineOf_hypot in *.
  destruct K as [(k & Hk & Ek & E)|(Z & _)].
  - exists k. split; auto. split; auto. rewrite Ek. field. lra.
  - exfalso. destruct D as [D|D].
    + rewrite Hla in Z. replace (py p - py q) with 0 in Z by lra. rewrite Rabs_R0 in Z. unfold Rdiv in Z. lra.
    + rewrite Hla in Z. destruct Z as [_ Z]. apply (Rmult_lt_compat_r (edist p q)) in Z; [|lra].
      unfold Rdiv in Z. rewrite Rmult_assoc, Rinv_l in Z by lra. lra.
Qed.
Lemma absk k L : 0 < L -> Rabs k * L = 1 -> k = / L \/ k = - / L.
Proof.
  intros HL H. assert (E : Rabs k = / L) by (field_simplify_eq; lra).
  unfold Rabs in E. destruct (Rcase_abs k); lra.
Qed.
Lemma okSeg_neq th s : thr_ok th -> okSeg th s -> sA s <> sB s.
Proof. intros Hth [H _] E. rewrite E, edist_refl in H. pose proof (thr_dist th Hth). lra. Qed.
Lemma svLine_ok th s : thr_ok th -> okSeg th s -> exists l, svLine th s = Ok l.
Proof. intros Hth [A B]. apply lineOf_total; auto. Qed.
Lemma rawL_unit k p q : Rabs k * edist p q = 1 -> unitL (scaleL k (rawL p q)).
Proof.
  intros H. unfold unitL, scaleL, rawL; cbn [la lb].
  assert (E : (Rabs k * edist p q) * (Rabs k * edist p q) = 1) by (rewrite H; ring).
  replace ((Rabs k * edist p q) * (Rabs k * edist p q)) with ((Rabs k * Rabs k) * (edist p q * edist p q)) in E by ring.
  rewrite edist_sq, <- Rabs_mult, (Rabs_right (k * k)) in E by (pose proof (sqp k); lra). rewrite <- E. ring.
Qed.
Lemma lineOf_vert th p q l : thr_ok th -> lineOf th p q = Ok l -> dirOK th p q -> vertOK th p q -> orthOK th l.
Proof.
  intros Hth H D V. destruct (lineOf_scaled th p q l Hth H D) as (k & Hk & Ek & ->).
  destruct V as [V|V]; [left|right]; unfold scaleL, rawL; cbn [lb].
  - rewrite V. ring.
  - rewrite Rabs_mult, Rabs_minus_sym. 
    assert (0 <= Rabs k) by apply Rabs_pos.
    replace (nullDenom th) with (Rabs k * (nullDenom th * edist p q)).
    + apply Rmult_le_compat_l; auto.
    + replace (Rabs k * (nullDenom th * edist p q)) with ((Rabs k * edist p q) * nullDenom th) by ring. rewrite Ek. ring.
Qed.
Lemma along_lex p q t u : lexlt p q -> t < u -> lexlt (along p q t) (along p q u).
Proof.
  unfold lexlt, along; cbn [px py]. intros [H|[H H']] L; [left|right].
  - nra.
  - split; [rewrite H; ring|]. nra.
Qed.
Lemma along_0 p q : along p q 0 = p.
Proof. apply pt_eq; unfold along; cbn [px py]; ring. Qed.
Lemma along_1 p q : along p q 1 = q.
Proof. apply pt_eq; unfold along; cbn [px py]; ring. Qed.
Lemma along_inj p q t u : p <> q -> along p q t = along p q u -> t = u.
Proof.
  intros Hn E. assert (Ex : px (along p q t) = px (along p q u)) by now rewrite E.
  assert (Ey : py (along p q t) = py (along p q u)) by now rewrite E. unfold along in *; cbn [px py] in *.
  destruct (Req_dec (px q - px p) 0) as [Z|Z].
  - destruct (Req_dec (py q - py p) 0) as [Z'|Z'].
    + exfalso. apply Hn. apply pt_eq; lra.
    + apply (Rmult_eq_reg_r (py q - py p)); auto. lra.
  - apply (Rmult_eq_reg_r (px q - px p)); auto. lra.
Qed.

(** ** Split *)
Lemma edist_half p q : let m := along p q (1 / 2) in edist p m = edist p q / 2 /\ edist m q = edist p q / 2.
Proof.
  cbv zeta. split.
  - rewrite edist_along, Rabs_right by lra. lra.
  - rewrite edist_sym, edist_along2, Rabs_right by lra. lra.
Qed.
Lemma svCenter_along s : svCenter s = along (sA s) (sB s) (1 / 2).
Proof. apply pt_eq; unfold svCenter, along; cbn [px py]; rnum; field. Qed.
Lemma svSplit_throw th k s : svSplit th k s = Throw <-> svLength s / 2 < nullDistance th.
Proof.
  unfold svLength. rewrite distPP_edist. unfold svSplit. rewrite svCenter_along. destruct (edist_half (sA s) (sB s)) as [E1 E2].
  cbv zeta in *. unfold svNew. destruct (ptEq th (sA s) _) eqn:P1.
  - apply ptEq_spec in P1. rewrite E1 in P1. cbn [bind]. tauto.
  - apply ptEq_false in P1. rewrite E1 in P1. cbn [bind].
    rewrite (proj2 (ptEq_false th _ _)) by (rewrite E2; auto). cbn [bind].
    split; [discriminate|lra].
Qed.
Lemma svSplit_ok th k s : (k = KSeg -> lexlt (sA s) (sB s)) -> nullDistance th <= svLength s / 2 ->
  svSplit th k s = Ok (mkSeg (sA s) (along (sA s) (sB s) (1 / 2)), mkSeg (along (sA s) (sB s) (1 / 2)) (sB s)).
Proof.
  intros O H. unfold svLength in H. rewrite distPP_edist in H. unfold svSplit. rewrite svCenter_along.
  destruct (edist_half (sA s) (sB s)) as [E1 E2]. cbv zeta in *.
  destruct k.
  - specialize (O eq_refl). rewrite svNew_ok_seg; [|lra|].
    + cbn [bind]. rewrite svNew_ok_seg; [reflexivity|lra|].
      pose proof (along_lex _ _ (1 / 2) 1 O ltac:(lra)) as K. now rewrite along_1 in K.
    + pose proof (along_lex _ _ 0 (1 / 2) O ltac:(lra)) as K. now rewrite along_0 in K.
  - rewrite svNew_ok by lra. cbn [bind]. rewrite svNew_ok by lra. reflexivity.
Qed.

(** ** Point at a distance *)
Lemma svPointAt_spec th s d : thr_ok th -> okSeg th s -> dirOK th (sA s) (sB s) -> 0 <= d ->
  svPointAt th s d = Ok (along (sA s) (sB s) (d / svLength s)).
Proof.
  intros Hth Hs D Hd. unfold svPointAt. rnum. rewrite (proj2 (Rltb_false d 0)) by lra.
  destruct (svLine_ok th s Hth Hs) as (l & El). rewrite El. cbn [bind]. unfold svLine in El.
  destruct (lineOf_proper th _ _ _ Hth El) as [U _]. destruct (lineOf_on th _ _ _ Hth El D) as [O1 O2].
  rewrite (getPoints_on_ok th l (sA s) d Hth (unit_proper l U) O1). cbn [bind].
  unfold svLength. change (@distPP R RNum) with edist.
  destruct (getPoints_B2 (sA s) d l) as [u v] eqn:E. cbn [fst snd].
  destruct (getPoints_B2_spec _ _ _ _ _ (unit_proper l U) E) as [_ K]. cbv zeta in K.
  rewrite (hypot_unit _ _ U), !div1 in K.
  destruct (lineOf_scaled th _ _ _ Hth El D) as (k & Hk & Ek & ->).
  set (L := edist (sA s) (sB s)) in *. destruct Hs as [HL _]. fold L in HL. pose proof (thr_dist th Hth) as T.
  assert (HL' : 0 < L) by lra.
  assert (C : (u = along (sA s) (sB s) (d / L) /\ v = along (sA s) (sB s) (- (d / L))) \/
              (v = along (sA s) (sB s) (d / L) /\ u = along (sA s) (sB s) (- (d / L)))).
  { unfold scaleL, rawL in K; cbn [la lb] in K.
    destruct (absk k L HL' Ek) as [-> | ->]; destruct K as [[-> ->]|[-> ->]]; [right|left|left|right];
      split; apply pt_eq; unfold along; cbn [px py]; field; lra. }
  assert (D1 : edist (sB s) (along (sA s) (sB s) (d / L)) = Rabs (L - d)).
  { rewrite edist_along2. fold L. rewrite <- (Rabs_right L) at 2 by lra. rewrite <- Rabs_mult. f_equal. field. lra. }
  assert (D2 : edist (sB s) (along (sA s) (sB s) (- (d / L))) = L + d).
  { rewrite edist_along2. fold L. rewrite <- (Rabs_right L) at 2 by lra. rewrite <- Rabs_mult.
    rewrite Rabs_right; [field; lra|]. replace ((1 - - (d / L)) * L) with (L + d) by (field; lra). lra. }
  destruct (Req_dec d 0) as [-> | Z].
  { destruct C as [[-> ->]|[-> ->]]; match goal with |- Ok (if ?b then _ else _) = _ => destruct b end; auto;
      f_equal; f_equal; field; lra. }
  assert (Q : Rabs (L - d) < L + d). { unfold Rabs. destruct (Rcase_abs (L - d)); lra. }
  destruct C as [[-> ->]|[-> ->]]; rewrite D1, D2; rnum.
  - rewrite (proj2 (Rltb_spec _ _) Q). reflexivity.
  - rewrite (proj2 (Rltb_false _ _)) by lra. reflexivity.
Qed.
Lemma svSplitAt_spec th s d : thr_ok th -> okSeg th s -> dirOK th (sA s) (sB s) ->
  nullDistance th <= d -> nullDistance th <= svLength s - d ->
  exists m, svSplitAt th s d = Ok (mkSeg (sA s) m, mkSeg m (sB s)) /\ segHas s m /\
    edist (sA s) m = d /\ edist m (sB s) = svLength s - d.
Proof.
  intros Hth Hs D Hd Hd'. pose proof (thr_dist th Hth) as T. unfold svSplitAt. rnum.
  rewrite (proj2 (Rleb_false d 0)) by lra. rewrite (proj2 (Rleb_false (svLength s) d)) by lra.
  rewrite svPointAt_spec by (auto; lra). cbn [bind]. set (L := svLength s) in *.
  assert (EL : edist (sA s) (sB s) = L) by reflexivity.
  assert (B : 0 < d / L < 1).
  { split; [apply Rdiv_lt_0_compat; lra|]. apply (Rmult_lt_reg_r L); [lra|]. unfold Rdiv. rewrite Rmult_assoc, Rinv_l; lra. }
  assert (E1 : edist (sA s) (along (sA s) (sB s) (d / L)) = d).
  { rewrite edist_along, EL, Rabs_right by lra. field. lra. }
  assert (E2 : edist (along (sA s) (sB s) (d / L)) (sB s) = L - d).
  { rewrite edist_sym, edist_along2, EL, Rabs_right by lra. field. lra. }
  exists (along (sA s) (sB s) (d / L)). rewrite svNew_ok by lra. cbn [bind]. rewrite svNew_ok by lra.
  split; auto. split; auto. apply onSeg_along. exists (d / L). split; auto. lra.
Qed.

(** ** Side *)
Lemma nsign_spec x : match nsign x with 0%Z => x = 0 | Zneg _ => x < 0 | Zpos _ => 0 < x end.
Proof. unfold nsign; rnum. destruct (Rltb 0 x) eqn:E1, (Rltb x 0) eqn:E2; rclean; cbn; lra. Qed.
Lemma crossV_cross3 A B p : crossV (mkSeg A p) (mkSeg A B) = - cross3 A B p.
Proof. unfold crossV, svVector, cross3; cbn [sA sB]; rnum. ring. Qed.
Lemma svPointSide_spec th s p : ptEq th p (sA s) = false -> ptEq th p (sB s) = false ->
  exists sd, svPointSide th s p = Ok sd /\
    (sd = SideLeft <-> 0 < cross3 (sA s) (sB s) p) /\ (sd = SideRight <-> cross3 (sA s) (sB s) p < 0) /\
    (sd = SideNeither <-> cross3 (sA s) (sB s) p = 0).
Proof.
  intros H1 H2. unfold svPointSide. rewrite H1, H2. cbn [orb]. unfold svNew. rewrite ptEq_sym, H1. cbn [bind].
  eexists. split; [reflexivity|]. destruct s as [A B]; cbn [sA sB]. rewrite crossV_cross3.
  pose proof (nsign_spec (- cross3 A B p)) as K.
  destruct (nsign (- cross3 A B p)); (split; [|split]); split; intros; try discriminate; try reflexivity; lra.
Qed.
Lemma svPointSide_rev th A B p sd : svPointSide th (mkSeg A B) p = Ok sd ->
  svPointSide th (mkSeg B A) p = Ok (match sd with SideLeft => SideRight | SideRight => SideLeft | _ => SideNeither end).
Proof.
  destruct (ptEq th p A) eqn:E1.
  { unfold svPointSide; cbn [sA sB]. rewrite E1. rewrite !orb_true_r. cbn [orb]. now intros [= <-]. }
  destruct (ptEq th p B) eqn:E2.
  { unfold svPointSide; cbn [sA sB]. rewrite E2. rewrite !orb_true_r. cbn [orb]. now intros [= <-]. }
  destruct (svPointSide_spec th (mkSeg A B) p E1 E2) as (sd1 & H1 & L1 & R1 & N1).
  destruct (svPointSide_spec th (mkSeg B A) p E2 E1) as (sd2 & H2 & L2 & R2 & N2).
  cbn [sA sB] in *. rewrite H1. intros [= <-]. rewrite H2. f_equal.
  destruct (cross3_perm A B p) as (P & _). rewrite P in *.
  destruct sd1; [apply R2|apply L2|apply N2].
  - pose proof (proj1 L1 eq_refl). lra.
  - pose proof (proj1 R1 eq_refl). lra.
  - pose proof (proj1 N1 eq_refl). lra.
Qed.

(** ** Bisector *)
Lemma edist_eq_sq p q r : edist p q = edist p r <->
  (px p - px q) * (px p - px q) + (py p - py q) * (py p - py q)
  = (px p - px r) * (px p - px r) + (py p - py r) * (py p - py r).
Proof.
  rewrite <- !edist_sq. pose proof (edist_pos p q). pose proof (edist_pos p r). split; intros E; [now rewrite E|].
  assert (K : (edist p q - edist p r) * (edist p q + edist p r) = 0) by lra.
  apply Rmult_integral in K. lra.
Qed.
Lemma svBisector_spec th s : thr_ok th -> okSeg th s -> dirOK th (sA s) (sB s) -> vertOK th (sA s) (sB s) ->
  exists l, svBisector th s = Ok l /\ unitL l /\ forall p, onL l p <-> edist p (sA s) = edist p (sB s).
Proof.
  intros Hth Hs D V. unfold svBisector. destruct (svLine_ok th s Hth Hs) as (l & El). rewrite El. cbn [bind].
  unfold svLine in El. destruct (lineOf_proper th _ _ _ Hth El) as [U _].
  pose proof (lineOf_vert _ _ _ _ Hth El D V) as OO.
  destruct (getOrthogLine_total th l (svCenter s) Hth U) as (o & Eo). exists o. split; auto.
  destruct (getOrthogLine_same th l _ o Hth U OO Eo) as (Sm & _ & _ & Uo). split; auto.
  intros p. rewrite (Sm p), edist_eq_sq. destruct (lineOf_scaled th _ _ _ Hth El D) as (k & Hk & _ & ->).
  unfold onL, scaleL, rawL, svCenter; cbn [la lb lc px py]; rnum.
  set (X := (px p - px (sA s)) * (px p - px (sA s)) + (py p - py (sA s)) * (py p - py (sA s))).
  set (Y := (px p - px (sB s)) * (px p - px (sB s)) + (py p - py (sB s)) * (py p - py (sB s))).
  match goal with |- ?e = 0 <-> _ => replace e with (k * (Y - X) / 2) by (unfold X, Y; field) end.
  split; intros E.
  - assert (K : k * (Y - X) = 0) by lra. apply Rmult_integral in K. lra.
  - rewrite E. lra.
Qed.

(** ** Line and circle *)
Lemma lineCircle_none l (c : pt R) (r : R) : proper l -> 0 <= r -> (lineCircle l c r = None <-> r < lineDist l c).
Proof.
  intros Hl Hr. unfold lineCircle, lineDist; rnum. unfold hypot; rnum.
  replace (px c * la l + py c * lb l + lc l) with (la l * px c + lb l * py c + lc l) by ring.
  destruct (Rltb r _) eqn:E; rclean; split; intros; try discriminate; auto; lra.
Qed.
Lemma lineCircle_some l (c : pt R) (r : R) a b : proper l -> 0 <= r -> lineCircle l c r = Some (a, b) ->
  ~ lexlt b a /\ px a + px b = 2 * px (proj l c) /\ py a + py b = 2 * py (proj l c) /\
  onL l a /\ onL l b /\ onCircle c r a /\ onCircle c r b /\
  forall p, onL l p -> onCircle c r p -> p = a \/ p = b.
Proof.
  intros Hl Hr. unfold lineCircle, proj; rnum. cbv zeta.
  pose proof (proper_sq l Hl) as P. set (S := la l * la l + lb l * lb l) in *.
  set (cp := px c * la l + py c * lb l + lc l).
  destruct (Rltb r (Rabs cp / sqrt S)) eqn:E; [discriminate|]. rclean.
  assert (Q0 : 0 < sqrt S) by now apply sqrt_lt_R0.
  assert (Qs : sqrt S * sqrt S = S) by (apply sqrt_sqrt; lra).
  set (d0 := Rabs cp / sqrt S) in *.
  assert (D0 : d0 * d0 = cp * cp / S).
  { unfold d0. replace (Rabs cp / sqrt S * (Rabs cp / sqrt S)) with ((Rabs cp * Rabs cp) / (sqrt S * sqrt S)) by (field; lra).
    rewrite Qs, <- Rabs_mult, Rabs_right; [reflexivity|]. pose proof (sqp cp). lra. }
  assert (D0p : 0 <= d0).
  { unfold d0. apply Rmult_le_pos; [apply Rabs_pos|]. apply Rlt_le, Rinv_0_lt_compat; auto. }
  set (M := (r * r - d0 * d0) / S). assert (HM : 0 <= M).
  { unfold M. apply Rmult_le_pos; [nra|]. apply Rlt_le, Rinv_0_lt_compat; auto. }
  set (m := sqrt M). assert (Hm : m * m = M) by (apply sqrt_sqrt; auto).
  assert (HmS : m * m * S = r * r - cp * cp / S). { rewrite Hm, <- D0. unfold M. field. lra. }
  clearbody m. clear Hm HM M.
  intros H. injection H as H. destruct (fixOrder_spec _ _ _ _ H) as [O K]. split; auto.
  set (u := mkPt (- la l * cp / S + m * lb l + px c) (- lb l * cp / S - m * la l + py c)) in *.
  set (v := mkPt (- la l * cp / S - m * lb l + px c) (- lb l * cp / S + m * la l + py c)) in *.
  assert (G : forall t, t * t = m * m -> onL l (mkPt (- la l * cp / S + t * lb l + px c) (- lb l * cp / S - t * la l + py c)) /\
     onCircle c r (mkPt (- la l * cp / S + t * lb l + px c) (- lb l * cp / S - t * la l + py c))).
  { intros t Ht. split.
    - unfold onL; cbn [px py]. 
      replace (la l * (- la l * cp / S + t * lb l + px c) + lb l * (- lb l * cp / S - t * la l + py c) + lc l)
        with (cp - (la l * la l + lb l * lb l) * cp / S) by (unfold cp; field; lra).
      fold S. field. lra.
    - unfold onCircle. apply edist_val; auto. cbn [px py].
      replace (r * r) with (t * t * S + cp * cp / S) by (rewrite Ht, HmS; ring).
      replace (cp * cp / S) with ((la l * la l + lb l * lb l) * (cp * cp / (S * S))) by (fold S; field; lra).
      unfold S at 1. field. lra. }
  assert (Eu : u = mkPt (- la l * cp / S + m * lb l + px c) (- lb l * cp / S - m * la l + py c)) by reflexivity.
  assert (Ev : v = mkPt (- la l * cp / S + (- m) * lb l + px c) (- lb l * cp / S - (- m) * la l + py c)).
  { apply pt_eq; unfold v; cbn [px py]; ring. }
  destruct (G m eq_refl) as [Gu1 Gu2]. destruct (G (- m)) as [Gv1 Gv2]; [ring|]. rewrite <- Eu in *. rewrite <- Ev in *.
  assert (Sx : px u + px v = 2 * (px c - la l * ((la l * px c + lb l * py c + lc l) / S))).
  { unfold u, v; cbn [px py]. unfold cp. field. lra. }
  assert (Sy : py u + py v = 2 * (py c - lb l * ((la l * px c + lb l * py c + lc l) / S))).
  { unfold u, v; cbn [px py]. unfold cp. field. lra. }
  assert (C : forall p, onL l p -> onCircle c r p -> p = u \/ p = v).
  { intros p Hp Hc. unfold onL in Hp. unfold onCircle in Hc.
    assert (E2 : edist c p * edist c p = r * r) by (rewrite Hc; ring). rewrite edist_sq in E2.
    set (x := px p - px c). set (y := py p - py c).
    assert (L1 : la l * x + lb l * y = - cp) by (unfold x, y, cp; lra).
    assert (C1 : x * x + y * y = r * r) by (rewrite <- E2; unfold x, y; ring).
    set (k := (lb l * x - la l * y) / S).
    assert (X : x = - la l * cp / S + k * lb l).
    { unfold k. replace cp with (- (la l * x + lb l * y)) by lra. unfold S. field. fold S. lra. }
    assert (Y : y = - lb l * cp / S - k * la l).
    { unfold k. replace cp with (- (la l * x + lb l * y)) by lra. unfold S. field. fold S. lra. }
    assert (Kk : k * k * S = m * m * S).
    { rewrite HmS, <- C1. unfold k. replace (cp * cp) with ((la l * x + lb l * y) * (la l * x + lb l * y)) by (rewrite L1; ring).
      unfold S. field. fold S. lra. }
    assert (Km : (k - m) * (k + m) = 0). { apply (Rmult_eq_reg_r S); [|lra]. lra. }
    apply Rmult_integral in Km. destruct Km as [Km|Km]; [left|right]; apply pt_eq; unfold u, v; cbn [px py].
    - replace m with k by lra. unfold x in X. lra.
    - replace m with k by lra. unfold y in Y. lra.
    - replace m with (- k) by lra. unfold x in X. lra.
    - replace m with (- k) by lra. unfold y in Y. lra. }
  cbn [px py]. destruct K as [[-> ->]|[-> ->]]; repeat (split; [first [assumption|lra]|]).
  - exact C.
  - intros p H1 H2. destruct (C p H1 H2); auto.
Qed.
