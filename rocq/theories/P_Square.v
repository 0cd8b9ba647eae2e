(** * Proofs about the construction of a square *)

From Coq Require Import Reals List Lra Lia Bool.
From Verif Require Import Num M_LP M_Seg M_Poly M_Square S_Geom S_Seg S_Square P_LP P_LP2 P_LP3 P_LP4 P_LP5 P_Seg P_Seg2 C_Poly.
Import ListNotations.
Local Open Scope R_scope.

(** Extreme points are unique, and the model finds them *)
Lemma leftmost_uniq pts p q : leftmost pts p -> leftmost pts q -> p = q.
Proof. intros [I H] [J K]. specialize (H q J). specialize (K p I). apply pt_eq; lra. Qed.
Lemma rightmost_uniq pts p q : rightmost pts p -> rightmost pts q -> p = q.
Proof. intros [I H] [J K]. specialize (H q J). specialize (K p I). apply pt_eq; lra. Qed.
Lemma topmost_uniq pts p q : topmost pts p -> topmost pts q -> p = q.
Proof. intros [I H] [J K]. specialize (H q J). specialize (K p I). apply pt_eq; lra. Qed.
Lemma bottommost_uniq pts p q : bottommost pts p -> bottommost pts q -> p = q.
Proof. intros [I H] [J K]. specialize (H q J). specialize (K p I). apply pt_eq; lra. Qed.

Lemma extremes_found (pts : list (pt R)) : pts <> [] ->
  (exists p i, extremePoint ltLm pts = Ok (p, i) /\ leftmost pts p) /\ (exists p i, extremePoint ltRm pts = Ok (p, i) /\ rightmost pts p) /\
  (exists p i, extremePoint ltTm pts = Ok (p, i) /\ topmost pts p) /\ (exists p i, extremePoint ltBm pts = Ok (p, i) /\ bottommost pts p).
Proof.
  intros Nn. destruct (C79_extreme pts Nn) as ((i1 & E1 & [J1 _] & H1) & (i2 & E2 & [J2 _] & H2) & (i3 & E3 & [J3 _] & H3) & (i4 & E4 & [J4 _] & H4)).
  repeat split; eexists; eexists; (split; [eassumption|]); (split; [apply nth_In; assumption|assumption]).
Qed.

(** The two candidates *)
Lemma turned_of (L Q t e : pt R) : L <> Q -> (px e - px t) * (px Q - px L) + (py e - py t) * (py Q - py L) = 0 -> edist t e = edist L Q ->
  exists s, (s = 1 \/ s = -1) /\ e = turned L Q t s.
Proof.
  intros Ne O D. assert (D2 : edist t e * edist t e = edist L Q * edist L Q) by now rewrite D. rewrite !edist_sq in D2.
  set (dx := px Q - px L) in *. set (dy := py Q - py L) in *. set (ex := px e - px t) in *. set (ey := py e - py t) in *.
  assert (P : 0 < dx * dx + dy * dy).
  { pose proof (Rle_0_sqr dx). pose proof (Rle_0_sqr dy). unfold Rsqr in *. destruct (Req_dec (dx * dx + dy * dy) 0) as [Z|Z]; [|lra].
    exfalso. apply Ne. destruct (sum_sq_zero _ _ Z). apply pt_eq; unfold dx, dy in *; lra. }
  assert (D3 : ex * ex + ey * ey = dx * dx + dy * dy) by (unfold ex, ey, dx, dy; lra).
  set (k := (ey * dx - ex * dy) / (dx * dx + dy * dy)).
  assert (K : k * (dx * dx + dy * dy) = ey * dx - ex * dy) by (unfold k; field; lra).
  assert (X : ex = - k * dy).
  { apply Rmult_eq_reg_r with (dx * dx + dy * dy); [|lra]. replace (- k * dy * (dx * dx + dy * dy)) with (- dy * (k * (dx * dx + dy * dy))) by ring. rewrite K.
    replace (ex * (dx * dx + dy * dy)) with (dx * (ex * dx + ey * dy) - dy * (ey * dx - ex * dy)) by ring. rewrite O. ring. }
  assert (Y : ey = k * dx).
  { apply Rmult_eq_reg_r with (dx * dx + dy * dy); [|lra]. replace (k * dx * (dx * dx + dy * dy)) with (dx * (k * (dx * dx + dy * dy))) by ring. rewrite K.
    replace (ey * (dx * dx + dy * dy)) with (dy * (ex * dx + ey * dy) + dx * (ey * dx - ex * dy)) by ring. rewrite O. ring. }
  assert (KK : k * k = 1).
  { apply Rmult_eq_reg_r with (dx * dx + dy * dy); [|lra]. assert (Z : ex * ex + ey * ey = k * k * (dx * dx + dy * dy)) by (rewrite X, Y; ring). lra. }
  exists k. split.
  - assert ((k - 1) * (k + 1) = 0) as M by lra. apply Rmult_integral in M. lra.
  - unfold turned. fold dx dy. apply pt_eq; cbn [px py]; unfold ex, ey in *; lra.
Qed.

Lemma svNew_pts th (p q : pt R) s : svNew th KSeg p q = Ok s -> ptEq th p q = false /\ ((sA s = p /\ sB s = q) \/ (sA s = q /\ sB s = p)).
Proof.
  unfold svNew. destruct (ptEq th p q); [discriminate|]. intros E. split; auto. injection E as <-. unfold segOrder. cbn [sA sB].
  destruct (fixOrder p q) as [a b] eqn:F. cbn [sA sB]. apply fixOrder_spec in F. tauto.
Qed.

Lemma candidates_inv th L Q t c : thr_ok th -> dirOK th L Q -> vertOK th L Q -> bsCandidates th L Q t = Ok c ->
  L <> Q /\ exists s, (s = 1 \/ s = -1) /\ fst c = turned L Q t s /\ snd c = turned L Q t (- s).
Proof.
  intros Ht D V E. unfold bsCandidates in E. apply bind_ok in E. destruct E as (s1 & E1 & E). apply bind_ok in E. destruct E as (l & E2 & E).
  apply bind_ok in E. destruct E as (o & E3 & E). apply svNew_pts in E1. destruct E1 as [Nq Ab].
  assert (Ne : L <> Q) by (apply (ptEq_neq th); auto). split; auto. unfold svLine in E2.
  assert (DV : dirOK th (sA s1) (sB s1) /\ vertOK th (sA s1) (sB s1)).
  { destruct Ab as [[-> ->]|[-> ->]]; auto. split; [now apply dirOK_sym|]. unfold vertOK in *. rewrite edist_sym, Rabs_minus_sym. destruct V; [left; lra|now right]. }
  destruct DV as [D' V']. destruct (lineOf_proper th _ _ _ Ht E2) as [U _]. pose proof (lineOf_vert _ _ _ _ Ht E2 D' V') as OO.
  destruct (getOrthogLine_same th l t o Ht U OO E3) as (Sm & Or & On & Uo).
  destruct c as [a b]. destruct (getPoints_spec th o t _ a b (unit_proper _ Uo) On E) as (A1 & B1 & A2 & B2 & X & Y & _).
  assert (Len : svLength s1 = edist L Q).
  { unfold svLength. rewrite distPP_edist. destruct Ab as [[-> ->]|[-> ->]]; auto. apply edist_sym. }
  rewrite Len, Rabs_right in A2 by (apply Rle_ge, edist_pos).
  assert (Oa : (px a - px t) * (px Q - px L) + (py a - py t) * (py Q - py L) = 0).
  { apply Sm in A1. destruct (lineOf_on th _ _ _ Ht E2 D') as [P P0]. unfold onL in *. cbn [la lb lc] in A1.
    destruct (lineOf_scaled th _ _ _ Ht E2 D') as (k & Hk & _ & El). rewrite El in A1. unfold scaleL, rawL in A1. cbn [la lb lc] in A1.
    destruct Ab as [[EA EB]|[EA EB]]; rewrite EA, EB in A1; apply Rmult_eq_reg_l with k; auto; lra. }
  destruct (turned_of L Q t a Ne Oa A2) as (s & Hs & Ea). exists s. cbn [fst snd]. split; auto. split; auto.
  apply pt_eq; rewrite Ea in X, Y; unfold turned in *; cbn [px py] in *; lra.
Qed.
Lemma candidates_good th L Q t c : thr_ok th -> dirOK th L Q -> vertOK th L Q -> bsCandidates th L Q t = Ok c -> closest L Q t (bsGood L c).
Proof.
  intros Ht D V E. destruct (candidates_inv th L Q t c Ht D V E) as (_ & s & Hs & A & B). unfold bsGood. cbv zeta. rewrite A, B. rewrite (distPP_edist (turned L Q t s)), (distPP_edist (turned L Q t (- s))).
  destruct (_ <? _)%num eqn:C.
  - apply Rltb_spec in C. exists (- s). split; [lra|]. split; auto. rewrite Ropp_involutive. lra.
  - apply Rltb_false in C. exists s. repeat split; auto.
Qed.

(** The four corners, in the frame of the bottom line *)
Definition nd (a b : R) (p q : pt R) : R := a * (px p - px q) + b * (py p - py q).
Lemma decomp a b x y u v : a * a + b * b = 1 -> a * x + b * y = u -> - b * x + a * y = v -> x = a * u - b * v /\ y = b * u + a * v.
Proof.
  intros U A B. split.
  - replace (a * u - b * v) with ((a * a + b * b) * x) by (rewrite <- A, <- B; ring). rewrite U. ring.
  - replace (b * u + a * v) with ((a * a + b * b) * y) by (rewrite <- A, <- B; ring). rewrite U. ring.
Qed.

(** Facts about the lines built from the bottom line. *)
Lemma orth_facts th g b l p o : thr_ok th -> dirOK th g b -> vertOK th g b -> lineOf th g b = Ok l -> getOrthogLine th l p = Ok o ->
  unitL o /\ orthoL l o /\ orthOK th o /\ (forall x, onL o x <-> nd (- lb l) (la l) x p = 0) /\ (forall x, onL l x <-> nd (la l) (lb l) x b = 0).
Proof.
  intros Ht D V El Eo. destruct (lineOf_proper th _ _ _ Ht El) as [U _]. pose proof (lineOf_vert _ _ _ _ Ht El D V) as OO.
  destruct (lineOf_on th _ _ _ Ht El D) as [P Q]. destruct (getOrthogLine_same th l p o Ht U OO Eo) as (Sm & Or & On & Uo).
  assert (SO : forall x, onL o x <-> nd (- lb l) (la l) x p = 0).
  { intros x. rewrite (Sm x). unfold onL, nd. cbn [la lb lc]. split; intros; lra. }
  split; auto. split; auto. split; [|split; auto].
  - (* |lb o| = |la l| *)
    assert (B2 : lb o * lb o = la l * la l).
    { unfold orthoL, unitL in *. destruct (Req_dec (la l) 0) as [Z|Z].
      - rewrite Z in *. assert (lb l * lb o = 0) as M by lra. apply Rmult_integral in M. destruct M as [M|M]; [rewrite M in U; lra|rewrite M; ring].
      - assert (A : la o = - (lb l * lb o) / la l) by (apply Rmult_eq_reg_l with (la l); auto; field_simplify; auto; lra).
        rewrite A in Uo. apply (f_equal (fun z => z * (la l * la l))) in Uo. field_simplify in Uo; auto.
        replace (la l * la l) with ((lb l * lb l + la l * la l) * (lb o * lb o)); [replace (lb l * lb l + la l * la l) with 1 by lra; ring|]. lra. }
    assert (BA : Rabs (lb o) = Rabs (la l)) by (apply Rsqr_eq_abs_0; exact B2).
    destruct (lineOf_scaled th _ _ _ Ht El D) as (k & Hk & Ek & E). destruct D as [D|D].
    + left. rewrite E in BA. unfold scaleL, rawL in BA. cbn [la lb] in BA. rewrite D in BA. replace (k * (py b - py b)) with 0 in BA by ring.
      rewrite Rabs_R0 in BA. destruct (Req_dec (lb o) 0); auto. apply Rabs_no_R0 in H. contradiction.
    + right. rewrite BA, E. unfold scaleL, rawL. cbn [la lb]. rewrite Rabs_mult.
      replace (nullDenom th) with (Rabs k * (nullDenom th * edist g b)).
      * apply Rmult_le_compat_l; [apply Rabs_pos|exact D].
      * replace (Rabs k * (nullDenom th * edist g b)) with ((Rabs k * edist g b) * nullDenom th) by ring. rewrite Ek. ring.
  - intros x. unfold onL, nd in *. split; intros; lra.
Qed.

(** Two points differing by a multiple of the direction of a line that is clear of the zone. *)
Lemma dirOK_para th g b p q l : thr_ok th -> dirOK th g b -> lineOf th g b = Ok l -> nd (la l) (lb l) p q = 0 -> dirOK th p q.
Proof.
  intros Ht D El N0. destruct (lineOf_scaled th _ _ _ Ht El D) as (k & Hk & Ek & E). rewrite E in N0. unfold nd, scaleL, rawL in N0. cbn [la lb] in N0.
  assert (C : (py g - py b) * (px p - px q) = (px g - px b) * (py p - py q)) by (apply Rmult_eq_reg_l with k; auto; lra). clear N0 E.
  assert (P : 0 < edist g b).
  { pose proof (edist_pos g b). destruct (Req_dec (edist g b) 0) as [Z|Z]; [rewrite Z in Ek; lra|lra]. }
  destruct D as [D|D].
  - left. rewrite D in C. assert ((px g - px b) * (py p - py q) = 0) as M by lra. apply Rmult_integral in M. destruct M as [M|M]; [|lra].
    exfalso. pose proof (edist_sq g b) as S. rewrite M, D in S. assert (edist g b * edist g b = 0) as Z by lra. apply Rmult_integral in Z. lra.
  - right.
    (* |py p - py q| * |gb| = |py g - py b| * |pq| *)
    assert (X : Rabs (py p - py q) * edist g b = Rabs (py g - py b) * edist p q).
    { pose proof (edist_sq g b) as S1. pose proof (edist_sq p q) as S2. pose proof (edist_pos p q).
      assert (Rsqr (Rabs (py p - py q) * edist g b) = Rsqr (Rabs (py g - py b) * edist p q)) as Z.
      { rewrite !Rsqr_mult, <- !Rsqr_abs. unfold Rsqr. rewrite S1, S2.
        replace ((py p - py q) * (py p - py q) * ((px g - px b) * (px g - px b) + (py g - py b) * (py g - py b)))
          with (((px g - px b) * (py p - py q)) * ((px g - px b) * (py p - py q)) + (py p - py q) * (py p - py q) * ((py g - py b) * (py g - py b))) by ring.
        rewrite <- C. ring. }
      apply Rsqr_inj in Z; auto; apply Rmult_le_pos; auto using Rabs_pos, Rlt_le. }
    apply Rmult_le_reg_r with (edist g b); auto. rewrite X. replace (nullDenom th * edist p q * edist g b) with ((nullDenom th * edist g b) * edist p q) by ring.
    apply Rmult_le_compat_r; auto. apply edist_pos.
Qed.

Definition cornerEqs (a b : R) (L Q t bo g : pt R) (p1 p2 p3 p4 : pt R) : Prop :=
  a * a + b * b = 1 /\ nd a b g bo = 0 /\
  nd a b p1 bo = 0 /\ nd (- b) a p1 L = 0 /\ nd (- b) a p2 L = 0 /\ nd a b p2 t = 0 /\
  nd (- b) a p3 Q = 0 /\ nd a b p3 t = 0 /\ nd (- b) a p4 Q = 0 /\ nd a b p4 bo = 0.

Lemma corners_inv th L Q t b g v : thr_ok th -> dirOK th g b -> vertOK th g b -> bsCorners th L Q t b g = Ok v ->
  exists a1 b1 p1 p2 p3 p4, v = [p1; p2; p3; p4] /\ cornerEqs a1 b1 L Q t b g p1 p2 p3 p4.
Proof.
  intros Ht D V E. unfold bsCorners in E.
  apply bind_ok in E. destruct E as (l & El & E). apply bind_ok in E. destruct E as (lL & ELL & E). apply bind_ok in E. destruct E as (lR & ELR & E).
  apply bind_ok in E. destruct E as (p1 & M1 & E). apply bind_ok in E. destruct E as (p4 & M4 & E). apply bind_ok in E. destruct E as ([f u] & Es & E).
  apply bind_ok in E. destruct E as (lT & ET & E). apply bind_ok in E. destruct E as (p2 & M2 & E). apply bind_ok in E. destruct E as (p3 & M3 & E).
  injection E as <-. cbn [fst snd] in ET.
  destruct (lineOf_proper th _ _ _ Ht El) as [U _].
  destruct (orth_facts th g b l L lL Ht D V El ELL) as (UL & OL & OKL & SL & S0). destruct (orth_facts th g b l Q lR Ht D V El ELR) as (UR & OR & OKR & SR & _).
  destruct (getOrthogSegment_spec th lL t f u Ht UL OKL Es) as (-> & Of & Ef & _).
  assert (F0 : nd (la l) (lb l) f t = 0).
  { rewrite Ef. unfold nd, proj. cbn [px py]. unfold orthoL in OL.
    set (k := _ / _). replace (la l * (px t - la lL * k - px t) + lb l * (py t - lb lL * k - py t)) with (- k * (la l * la lL + lb l * lb lL)) by ring. rewrite OL. ring. }
  pose proof (dirOK_para th g b f t l Ht D El F0) as DT. destruct (lineOf_proper th _ _ _ Ht ET) as [UT _].
  assert (ST : forall x, onL lT x <-> nd (la l) (lb l) x t = 0).
  { intros x. destruct (lineOf_scaled th _ _ _ Ht ET DT) as (k & Hk & Ek & E). rewrite E. unfold onL, scaleL, rawL. cbn [la lb lc].
    (* f - t is a multiple of (-lb l, la l) *)
    destruct (decomp (la l) (lb l) (px f - px t) (py f - py t) 0 (- lb l * (px f - px t) + la l * (py f - py t)) U F0 eq_refl) as [X Y].
    set (w := - lb l * (px f - px t) + la l * (py f - py t)) in *.
    assert (W : w <> 0). { intros W. rewrite W in X, Y. assert (edist f t = 0) as Z by (replace f with t by (apply pt_eq; lra); apply edist_refl). rewrite Z in Ek. lra. }
    replace (k * (py f - py t) * px x + k * (px t - px f) * py x + k * (px f * py t - py f * px t)) with (k * ((py f - py t) * (px x - px t) - (px f - px t) * (py x - py t))) by ring.
    rewrite X, Y. unfold nd.
    replace (k * ((lb l * 0 + la l * w) * (px x - px t) - (la l * 0 - lb l * w) * (py x - py t))) with ((k * w) * (la l * (px x - px t) + lb l * (py x - py t))) by ring.
    split; intros Z; [|rewrite Z; ring]. apply Rmult_integral in Z. destruct Z as [Z|Z]; auto. apply Rmult_integral in Z. lra. }
  exists (la l), (lb l), p1, p2, p3, p4. split; auto. destruct (lineOf_on th _ _ _ Ht El D) as [Og Ob].
  destruct (meet_on th _ _ _ Ht (unit_proper _ UL) (unit_proper _ U) M1) as [A1 A2]. destruct (meet_on th _ _ _ Ht (unit_proper _ UR) (unit_proper _ U) M4) as [B1 B2].
  destruct (meet_on th _ _ _ Ht (unit_proper _ UL) (unit_proper _ UT) M2) as [C1 C2]. destruct (meet_on th _ _ _ Ht (unit_proper _ UR) (unit_proper _ UT) M3) as [D1 D2].
  apply SL in A1, C1. apply SR in B1, D1. apply S0 in A2, B2, Og. apply ST in C2, D2. unfold cornerEqs. repeat split; auto.
Qed.

(** The corners form a square *)
Lemma corners_solved a b L Q t bo g p1 p2 p3 p4 s : cornerEqs a b L Q t bo g p1 p2 p3 p4 -> g = turned L Q t s ->
  let w := nd (- b) a Q L in
  px p2 = px p1 + a * (s * w) /\ py p2 = py p1 + b * (s * w) /\ px p4 = px p1 - b * w /\ py p4 = py p1 + a * w /\
  px p3 = px p2 - b * w /\ py p3 = py p2 + a * w.
Proof.
  intros (U & G & A1 & A2 & B1 & B2 & C1 & C2 & D1 & D2) E w. unfold turned in E. rewrite E in G. unfold nd in *. cbn [px py] in G.
  assert (H : a * (px p2 - px p1) + b * (py p2 - py p1) = s * w) by (unfold w; lra).
  assert (H0 : - b * (px p2 - px p1) + a * (py p2 - py p1) = 0) by lra.
  assert (K : a * (px p4 - px p1) + b * (py p4 - py p1) = 0) by lra.
  assert (K0 : - b * (px p4 - px p1) + a * (py p4 - py p1) = w) by (unfold w; lra).
  assert (M : a * (px p3 - px p2) + b * (py p3 - py p2) = 0) by lra.
  assert (M0 : - b * (px p3 - px p2) + a * (py p3 - py p2) = w) by (unfold w; lra).
  destruct (decomp _ _ _ _ _ _ U H H0). destruct (decomp _ _ _ _ _ _ U K K0). destruct (decomp _ _ _ _ _ _ U M M0). repeat split; lra.
Qed.

Lemma corners_square a b L Q t bo g p1 p2 p3 p4 s : (s = 1 \/ s = -1) -> cornerEqs a b L Q t bo g p1 p2 p3 p4 -> g = turned L Q t s ->
  p1 <> p2 -> isSquare p1 p2 p3 p4 /\ cross3 p1 p4 bo = 0 /\ cross3 p1 p4 g = 0 /\ cross3 p1 p2 L = 0 /\ cross3 p2 p3 t = 0 /\ cross3 p3 p4 Q = 0.
Proof.
  intros Hs CE E Ne. destruct (corners_solved _ _ _ _ _ _ _ _ _ _ _ s CE E) as (X2 & Y2 & X4 & Y4 & X3 & Y3). set (w := nd (- b) a Q L) in *.
  destruct CE as (U & G & A1 & A2 & B1 & B2 & C1 & C2 & D1 & D2). assert (SS : s * s = 1) by (destruct Hs as [-> | ->]; lra).
  assert (ED : forall p q, (px p - px q) * (px p - px q) + (py p - py q) * (py p - py q) = w * w -> edist p q = Rabs w).
  { intros p q H. apply edist_val; [apply Rabs_pos|]. rewrite H. unfold Rabs. destruct (Rcase_abs w); ring. }
  assert (WW : w * w = w * w * (a * a + b * b)) by (rewrite U; ring).
  assert (E12 : edist p1 p2 = Rabs w). { apply ED. rewrite X2, Y2, WW. replace (w * w * (a * a + b * b)) with ((s * s) * (w * w * (a * a + b * b))) by (rewrite SS; ring). ring. }
  assert (E23 : edist p2 p3 = Rabs w) by (apply ED; rewrite X3, Y3, WW; ring).
  assert (E34 : edist p3 p4 = Rabs w).
  { apply ED. rewrite X3, Y3, X4, Y4, X2, Y2, WW. replace (w * w * (a * a + b * b)) with ((s * s) * (w * w * (a * a + b * b))) by (rewrite SS; ring). ring. }
  assert (E41 : edist p4 p1 = Rabs w) by (apply ED; rewrite X4, Y4, WW; ring).
  unfold isSquare. rewrite E12, E23, E34, E41. repeat split; auto.
  - rewrite <- E12. pose proof (edist_pos p1 p2). destruct (Req_dec (edist p1 p2) 0) as [Z|Z]; [|lra]. now apply edist_zero in Z.
  - rewrite X2, Y2, X4, Y4. ring.
  - unfold cross3. rewrite X4, Y4. unfold nd in A1. replace (_ - _) with (w * (a * (px p1 - px bo) + b * (py p1 - py bo))) by ring. rewrite A1. ring.
  - unfold cross3. rewrite X4, Y4. unfold nd in A1, G. replace (_ - _) with (w * ((a * (px p1 - px bo) + b * (py p1 - py bo)) - (a * (px g - px bo) + b * (py g - py bo)))) by ring. rewrite A1, G. ring.
  - unfold cross3. rewrite X2, Y2. unfold nd in A2. replace (_ - _) with (- (s * w) * (- b * (px p1 - px L) + a * (py p1 - py L))) by ring. rewrite A2. ring.
  - unfold cross3. rewrite X3, Y3. unfold nd in B2. replace (_ - _) with (w * (a * (px p2 - px t) + b * (py p2 - py t))) by ring. rewrite B2. ring.
  - unfold cross3. rewrite X3, Y3, X4, Y4, X2, Y2. unfold nd in D1. rewrite X4, Y4 in D1. 
    replace (_ - _) with ((s * w) * (- b * (px p1 - b * w - px Q) + a * (py p1 + a * w - py Q))) by ring. rewrite D1. ring.
Qed.

(** ** When the construction succeeds *)
Lemma ortho_unit l o : unitL l -> unitL o -> orthoL l o -> exists e, (e = 1 \/ e = -1) /\ la o = - e * lb l /\ lb o = e * la l.
Proof.
  intros U Uo O. unfold unitL, orthoL in *. set (e := - lb l * la o + la l * lb o).
  destruct (decomp (la l) (lb l) (la o) (lb o) 0 e U O eq_refl) as [X Y]. exists e. split; [|lra].
  assert (W : la o * la o + lb o * lb o = e * e * (la l * la l + lb l * lb l)) by (rewrite X, Y; ring).
  assert (e * e = 1) as Z by (rewrite U in W; lra).
  assert ((e - 1) * (e + 1) = 0) as M by lra. apply Rmult_integral in M. lra.
Qed.
(** Component along the bottom line, from the two points of that line. *)
Lemma comp_abs a b (g bo p q : pt R) : a * a + b * b = 1 -> nd a b g bo = 0 ->
  Rabs (nd (- b) a p q) * edist g bo = Rabs ((px p - px q) * (px bo - px g) + (py p - py q) * (py bo - py g)).
Proof.
  intros U G. unfold nd in G. set (c := - b * (px g - px bo) + a * (py g - py bo)).
  destruct (decomp a b (px g - px bo) (py g - py bo) 0 c U G eq_refl) as [X Y].
  assert (E : edist g bo = Rabs c).
  { apply edist_val; [apply Rabs_pos|]. rewrite X, Y. replace (Rabs c * Rabs c) with (c * c) by (unfold Rabs; destruct (Rcase_abs c); ring).
    replace (c * c) with (c * c * (a * a + b * b)) by (rewrite U; ring). ring. }
  rewrite E, <- Rabs_mult. replace (px bo - px g) with (- (px g - px bo)) by ring. replace (py bo - py g) with (- (py g - py bo)) by ring. rewrite X, Y.
  unfold nd. rewrite <- Rabs_Ropp. f_equal. ring.
Qed.

Lemma corners_total th L Q t b g : thr_ok th -> dblEpsilon th < nullDistance th -> dirOK th g b -> vertOK th g b ->
  nullDistance th <= edist g b -> farAlong th g b t L -> exists v, bsCorners th L Q t b g = Ok v.
Proof.
  intros Ht Te D V Gb Far. unfold bsCorners. pose proof (thr_dist th Ht) as Tp.
  destruct (lineOf_total th g b Ht Gb ltac:(lra)) as [l El]. rewrite El. cbn [bind]. destruct (lineOf_proper th _ _ _ Ht El) as [U _].
  destruct (getOrthogLine_total th l L Ht U) as [lL ELL]. rewrite ELL. cbn [bind]. destruct (getOrthogLine_total th l Q Ht U) as [lR ELR]. rewrite ELR. cbn [bind].
  destruct (orth_facts th g b l L lL Ht D V El ELL) as (UL & OL & OKL & SL & S0). destruct (orth_facts th g b l Q lR Ht D V El ELR) as (UR & OR & OKR & SR & _).
  assert (OL' : orthoL lL l) by (unfold orthoL in *; lra). assert (OR' : orthoL lR l) by (unfold orthoL in *; lra).
  destruct (meet_total th lL l Ht (unit_proper _ UL) (unit_proper _ U) (ortho_notpar th _ _ Ht UL U OL')) as [p1 ->]. cbn [bind].
  destruct (meet_total th lR l Ht (unit_proper _ UR) (unit_proper _ U) (ortho_notpar th _ _ Ht UR U OR')) as [p4 ->]. cbn [bind].
  destruct (ortho_unit l lL U UL OL) as (e & He & EA & EB). destruct (ortho_unit l lR U UR OR) as (e' & He' & EA' & EB').
  assert (DL : nullDistance th <= lineDist lL t).
  { rewrite lineDist_unit by auto. assert (OnL : onL lL L) by (apply SL; unfold nd; ring).
    replace (la lL * px t + lb lL * py t + lc lL) with (e * nd (- lb l) (la l) t L).
    2:{ unfold onL in OnL. unfold nd. rewrite EA, EB in *. lra. }
    rewrite Rabs_mult. replace (Rabs e) with 1 by (destruct He as [-> | ->]; [rewrite Rabs_R1|rewrite Rabs_left by lra]; lra). rewrite Rmult_1_l.
    destruct (lineOf_on th _ _ _ Ht El D) as [Og _]. apply S0 in Og. pose proof (comp_abs (la l) (lb l) g b t L U Og) as C. unfold farAlong in Far. rewrite <- C in Far.
    apply Rmult_le_reg_r with (edist g b); auto. lra. }
  destruct (getOrthogSegment_total th lL t Ht UL OKL DL) as [f Es]. rewrite Es. cbn [bind fst snd].
  destruct (getOrthogSegment_spec th lL t f t Ht UL OKL Es) as (_ & Of & Ef & Ed).
  destruct (lineOf_total th f t Ht ltac:(lra) ltac:(lra)) as [lT ET]. rewrite ET. cbn [bind]. destruct (lineOf_proper th _ _ _ Ht ET) as [UT _].
  assert (F0 : nd (la l) (lb l) f t = 0).
  { rewrite Ef. unfold nd, proj. cbn [px py]. unfold orthoL in OL.
    set (k := _ / _). replace (la l * (px t - la lL * k - px t) + lb l * (py t - lb lL * k - py t)) with (- k * (la l * la lL + lb l * lb lL)) by ring. rewrite OL. ring. }
  pose proof (dirOK_para th g b f t l Ht D El F0) as DT. destruct (lineOf_scaled th _ _ _ Ht ET DT) as (k & Hk & Ek & E).
  assert (OT : orthoL lL lT).
  { rewrite E. unfold orthoL, scaleL, rawL. cbn [la lb]. rewrite Ef. unfold proj. cbn [px py]. ring. }
  assert (OT' : orthoL lR lT).
  { unfold orthoL in *. rewrite EA, EB in OT. rewrite EA', EB'. destruct He as [-> | ->], He' as [-> | ->]; lra. }
  destruct (meet_total th lL lT Ht (unit_proper _ UL) (unit_proper _ UT) (ortho_notpar th _ _ Ht UL UT OT)) as [p2 ->]. cbn [bind].
  destruct (meet_total th lR lT Ht (unit_proper _ UR) (unit_proper _ UT) (ortho_notpar th _ _ Ht UR UT OT')) as [p3 ->]. cbn [bind]. eauto.
Qed.

Lemma candidates_total th L Q t : thr_ok th -> dblEpsilon th < nullDistance th -> dirOK th L Q -> vertOK th L Q -> nullDistance th <= edist L Q ->
  exists c, bsCandidates th L Q t = Ok c.
Proof.
  intros Ht Te D V G. unfold bsCandidates, svNew. rewrite (proj2 (ptEq_false th L Q) G). cbn [bind]. unfold svLine, segOrder. cbn [sA sB].
  destruct (fixOrder L Q) as [a b] eqn:F. cbn [sA sB]. apply fixOrder_spec in F.
  assert (X : dirOK th a b /\ vertOK th a b /\ edist a b = edist L Q).
  { destruct F as [_ [[-> ->]|[-> ->]]]; auto. split; [now apply dirOK_sym|]. split; [|apply edist_sym]. unfold vertOK in *. rewrite edist_sym, Rabs_minus_sym. destruct V; [left; lra|now right]. }
  destruct X as (D' & V' & E'). destruct (lineOf_total th a b Ht ltac:(lra) ltac:(lra)) as [l El]. rewrite El. cbn [bind].
  destruct (lineOf_proper th _ _ _ Ht El) as [U _]. pose proof (lineOf_vert _ _ _ _ Ht El D' V') as OO.
  destruct (getOrthogLine_total th l t Ht U) as [o Eo]. rewrite Eo. cbn [bind]. destruct (getOrthogLine_same th l t o Ht U OO Eo) as (_ & _ & On & Uo).
  rewrite (getPoints_on_ok th o t _ Ht (unit_proper _ Uo) On). eauto.
Qed.

(** The top-most point on the left line: no top line. *)
Lemma corners_throw th L Q b g : thr_ok th -> dblEpsilon th < nullDistance th -> dirOK th g b -> vertOK th g b ->
  nullDistance th <= edist g b -> bsCorners th L Q L b g = Throw.
Proof.
  intros Ht Te D V Gb. unfold bsCorners. pose proof (thr_dist th Ht) as Tp.
  destruct (lineOf_total th g b Ht Gb ltac:(lra)) as [l El]. rewrite El. cbn [bind]. destruct (lineOf_proper th _ _ _ Ht El) as [U _].
  destruct (getOrthogLine_total th l L Ht U) as [lL ELL]. rewrite ELL. cbn [bind]. destruct (getOrthogLine_total th l Q Ht U) as [lR ELR]. rewrite ELR. cbn [bind].
  destruct (orth_facts th g b l L lL Ht D V El ELL) as (UL & OL & OKL & SL & S0). destruct (orth_facts th g b l Q lR Ht D V El ELR) as (UR & OR & OKR & SR & _).
  assert (OL' : orthoL lL l) by (unfold orthoL in *; lra). assert (OR' : orthoL lR l) by (unfold orthoL in *; lra).
  destruct (meet_total th lL l Ht (unit_proper _ UL) (unit_proper _ U) (ortho_notpar th _ _ Ht UL U OL')) as [p1 ->]. cbn [bind].
  destruct (meet_total th lR l Ht (unit_proper _ UR) (unit_proper _ U) (ortho_notpar th _ _ Ht UR U OR')) as [p4 ->]. cbn [bind].
  assert (OnL : onL lL L) by (apply SL; unfold nd; ring). unfold getOrthogSegment.
  rewrite (proj2 (lineDist_zero lL L (unit_proper _ UL)) OnL). assert (Lt : (0 <? nullDistance th)%num = true) by (apply Rltb_spec; lra). rewrite Lt. reflexivity.
Qed.
