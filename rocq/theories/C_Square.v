(** * Properties of the construction of a square from four points *)

From Coq Require Import Reals List Lra Lia Bool.
From Verif Require Import Num M_LP M_Seg M_Poly M_Square S_Geom S_Seg S_Poly S_Square P_LP P_LP2 P_LP3 P_LP4 P_LP5 P_Seg P_Seg2 P_Poly7 P_Square C_LP C_Pip.
Import ListNotations.
Local Open Scope R_scope.

Lemma buildSquare_inv th p0 p1 p2 p3 L Q t b pl : thr_ok th -> let pts := [p0; p1; p2; p3] in
  leftmost pts L -> rightmost pts Q -> topmost pts t -> bottommost pts b -> dirOK th L Q -> vertOK th L Q ->
  (forall g, closest L Q t g -> dirOK th g b /\ vertOK th g b) -> buildSquare th pts = Ok pl ->
  exists a1 b1 g q1 q2 q3 q4, plPts pl = [q1; q2; q3; q4] /\ closest L Q t g /\ cornerEqs a1 b1 L Q t b g q1 q2 q3 q4 /\ q1 <> q2.
Proof.
  intros Ht pts HL HQ HT HB D V C E. unfold buildSquare, pts in E. apply bind_ok in E. destruct E as (u & _ & E).
  destruct (extremes_found pts) as ((eL & iL & E1 & X1) & (eR & iR & E2 & X2) & (eT & iT & E3 & X3) & (eB & iB & E4 & X4)); [discriminate|].
  fold pts in E. rewrite E1, E2, E3, E4 in E. cbn [bind fst] in E.
  rewrite (leftmost_uniq _ _ _ X1 HL), (rightmost_uniq _ _ _ X2 HQ), (topmost_uniq _ _ _ X3 HT), (bottommost_uniq _ _ _ X4 HB) in E.
  apply bind_ok in E. destruct E as (c & Ec & E). apply bind_ok in E. destruct E as (v & Ev & E).
  pose proof (candidates_good th L Q t c Ht D V Ec) as G. destruct (C _ G) as [Dg Vg].
  destruct (corners_inv th L Q t b _ v Ht Dg Vg Ev) as (a1 & b1 & q1 & q2 & q3 & q4 & -> & CE).
  exists a1, b1, (bsGood L c), q1, q2, q3, q4. unfold plSet in E. cbn [length Nat.eqb Nat.ltb Nat.leb andb] in E.
  destruct (plCheck th _) eqn:P; [|discriminate]. cbn [negb] in E. injection E as <-. cbn [plFresh plPts]. repeat split; auto; try apply CE.
  unfold plCheck in P. cbn [noConsecEq] in P. apply andb_prop in P. destruct P as [P _]. apply andb_prop in P. destruct P as [P _]. apply negb_true_iff in P.
  now apply (ptEq_neq th).
Qed.

(** ** C211: the result is a square, each side on the line of the right extreme point *)
Theorem C211_square : forall th p0 p1 p2 p3 L Q t b pl, thr_ok th -> let pts := [p0; p1; p2; p3] in
  leftmost pts L -> rightmost pts Q -> topmost pts t -> bottommost pts b -> dirOK th L Q -> vertOK th L Q ->
  (forall g, closest L Q t g -> dirOK th g b /\ vertOK th g b) -> buildSquare th pts = Ok pl ->
  exists q1 q2 q3 q4 g, plPts pl = [q1; q2; q3; q4] /\ isSquare q1 q2 q3 q4 /\
    cross3 q1 q2 L = 0 /\ cross3 q2 q3 t = 0 /\ cross3 q3 q4 Q = 0 /\ cross3 q1 q4 b = 0 /\ closest L Q t g /\ cross3 q1 q4 g = 0.
Proof.
  intros th p0 p1 p2 p3 L Q t b pl Ht pts HL HQ HT HB D V C E.
  destruct (buildSquare_inv th p0 p1 p2 p3 L Q t b pl Ht HL HQ HT HB D V C E) as (a1 & b1 & g & q1 & q2 & q3 & q4 & Ep & G & CE & Ne).
  exists q1, q2, q3, q4, g. pose proof G as G0. destruct G as (s & Hs & Eg & _).
  destruct (corners_square a1 b1 L Q t b g q1 q2 q3 q4 s Hs CE Eg Ne) as (A & B & B' & C1 & C2 & C3). repeat split; auto; apply A.
Qed.
Print Assumptions C211_square.

(** The construction succeeds when the points are far enough apart. *)
Theorem C211_builds : forall th p0 p1 p2 p3 L Q t b, thr_ok th -> dblEpsilon th < nullDistance th -> let pts := [p0; p1; p2; p3] in
  leftmost pts L -> rightmost pts Q -> topmost pts t -> bottommost pts b -> (forall p q, In p pts -> In q pts -> dirOK th p q) -> vertOK th L Q ->
  ~ thinTriangle (nullDistance th) p0 p1 p2 -> ~ thinTriangle (nullDistance th) p1 p2 p3 -> ~ thinTriangle (nullDistance th) p1 p0 p3 -> ~ thinTriangle (nullDistance th) p0 p2 p3 ->
  nullDistance th <= edist L Q ->
  (forall g, closest L Q t g -> dirOK th g b /\ vertOK th g b /\ nullDistance th <= edist g b /\ farAlong th g b t L /\ farAlong th g b Q L) ->
  exists pl, buildSquare th pts = Ok pl.
Proof.
  intros th p0 p1 p2 p3 L Q t b Ht Te pts HL HQ HT HB D V N1 N2 N3 N4 LQ C.
  assert (Col : forall p q r, In p pts -> In q pts -> In r pts -> ~ thinTriangle (nullDistance th) p q r -> areCollinear th p q r = Ok false).
  { intros p q r Ip Iq Ir N. destruct (areCollinear_char th p q r Ht Te) as (x & -> & X); auto. destruct x; auto. exfalso. tauto. }
  destruct (extremes_found pts) as ((eL & iL & E1 & X1) & (eR & iR & E2 & X2) & (eT & iT & E3 & X3) & (eB & iB & E4 & X4)); [discriminate|].
  assert (I0 : In p0 pts) by (cbn; auto). assert (I1 : In p1 pts) by (cbn; auto). assert (I2 : In p2 pts) by (cbn; auto). assert (I3 : In p3 pts) by (cbn; auto).
  unfold buildSquare. unfold pts at 1. rewrite !Col by auto. cbn [noneTrue bind]. fold pts. rewrite E1, E2, E3, E4. cbn [bind fst].
  rewrite (leftmost_uniq _ _ _ X1 HL), (rightmost_uniq _ _ _ X2 HQ), (topmost_uniq _ _ _ X3 HT), (bottommost_uniq _ _ _ X4 HB).
  assert (DLQ : dirOK th L Q) by (apply D; [apply HL|apply HQ]).
  destruct (candidates_total th L Q t Ht Te DLQ V LQ) as [c Ec]. rewrite Ec. cbn [bind].
  pose proof (candidates_good th L Q t c Ht DLQ V Ec) as G. destruct (C _ G) as (Dg & Vg & Gb & F1 & F2).
  destruct (corners_total th L Q t b _ Ht Te Dg Vg Gb F1) as [v Ev]. rewrite Ev. cbn [bind].
  destruct (corners_inv th L Q t b _ v Ht Dg Vg Ev) as (a1 & b1 & q1 & q2 & q3 & q4 & -> & CE).
  pose proof G as G0. destruct G0 as (s & Hs & Eg & _). destruct (corners_solved _ _ _ _ _ _ _ _ _ _ _ s CE Eg) as (Y2 & Z2 & Y4 & Z4 & Y3 & Z3).
  assert (W : nullDistance th <= Rabs (nd (- b1) a1 Q L)).
  { destruct CE as (U & Og & _). pose proof (comp_abs a1 b1 _ b Q L U Og) as K. unfold farAlong in F2. rewrite <- K in F2. pose proof (thr_dist th Ht).
    apply Rmult_le_reg_r with (edist (bsGood L c) b); lra. }
  set (w := nd (- b1) a1 Q L) in *. destruct CE as (U & _). assert (SS : s * s = 1) by (destruct Hs as [-> | ->]; lra).
  assert (ED : forall p q, (px p - px q) * (px p - px q) + (py p - py q) * (py p - py q) = w * w * (a1 * a1 + b1 * b1) -> ptEq th p q = false).
  { intros p q H. apply ptEq_false. rewrite (edist_val p q (Rabs w)); auto; [apply Rabs_pos|]. rewrite H, U. unfold Rabs. destruct (Rcase_abs w); ring. }
  assert (P12 : ptEq th q1 q2 = false).
  { apply ED. rewrite Y2, Z2. replace (w * w * (a1 * a1 + b1 * b1)) with ((s * s) * (w * w * (a1 * a1 + b1 * b1))) by (rewrite SS; ring). ring. }
  assert (P23 : ptEq th q2 q3 = false) by (apply ED; rewrite Y3, Z3; ring).
  assert (P34 : ptEq th q3 q4 = false).
  { apply ED. rewrite Y3, Z3, Y4, Z4, Y2, Z2. replace (w * w * (a1 * a1 + b1 * b1)) with ((s * s) * (w * w * (a1 * a1 + b1 * b1))) by (rewrite SS; ring). ring. }
  assert (P14 : ptEq th q1 q4 = false) by (apply ED; rewrite Y4, Z4; ring).
  unfold plSet, plCheck. cbn [length Nat.eqb Nat.ltb Nat.leb andb noConsecEq hd last]. rewrite P12, P23, P34, P14. cbn [negb andb]. eauto.
Qed.
Print Assumptions C211_builds.

(** With four different extreme points, every given point is on the line of a side. *)
Theorem C211_all : forall th p0 p1 p2 p3 L Q t b pl, thr_ok th -> let pts := [p0; p1; p2; p3] in
  leftmost pts L -> rightmost pts Q -> topmost pts t -> bottommost pts b -> NoDup [L; Q; t; b] -> dirOK th L Q -> vertOK th L Q ->
  (forall g, closest L Q t g -> dirOK th g b /\ vertOK th g b) -> buildSquare th pts = Ok pl ->
  forall p, In p pts -> exists e, In e (cyc (plPts pl)) /\ cross3 (fst e) (snd e) p = 0.
Proof.
  intros th p0 p1 p2 p3 L Q t b pl Ht pts HL HQ HT HB ND D V C E p I.
  destruct (C211_square th p0 p1 p2 p3 L Q t b pl Ht HL HQ HT HB D V C E) as (q1 & q2 & q3 & q4 & g & -> & _ & A1 & A2 & A3 & A4 & _).
  assert (IN : In p [L; Q; t; b]).
  { apply (NoDup_length_incl ND (l' := pts)); auto. intros x [<-|[<-|[<-|[<-|[]]]]]; [apply HL|apply HQ|apply HT|apply HB]. }
  cbn [cyc combine app]. destruct IN as [<-|[<-|[<-|[<-|[]]]]].
  - exists (q1, q2). split; [cbn; auto|exact A1].
  - exists (q3, q4). split; [cbn; auto|exact A3].
  - exists (q2, q3). split; [cbn; auto|exact A2].
  - exists (q4, q1). split; [cbn; auto|]. cbn [fst snd]. unfold cross3 in *. lra.
Qed.
Print Assumptions C211_all.

(** Examples *)
Lemma notthin_num p q r : 1 <= Rabs (cross3 p q r) -> (forall a b, (a = p /\ b = q) \/ (a = q /\ b = r) \/ (a = p /\ b = r) ->
  Rabs (px a - px b) <= 9 /\ Rabs (py a - py b) <= 9 /\ (1 <= Rabs (px a - px b) \/ 1 <= Rabs (py a - py b))) -> ~ thinTriangle (nullDistance thr0) p q r.
Proof.
  intros C H. pose proof thr0_small as (T1 & _). pose proof (thr_dist thr0 thr0_ok) as Tp.
  assert (K : forall a b, (a = p /\ b = q) \/ (a = q /\ b = r) \/ (a = p /\ b = r) -> 1 <= edist a b <= 18).
  { intros a b I. destruct (H a b I) as (X & Y & Z). pose proof (edist_le_sum a b). pose proof (edist_ge_x a b). pose proof (edist_ge_y a b). lra. }
  pose proof (K p q ltac:(tauto)). pose proof (K q r ltac:(tauto)). pose proof (K p r ltac:(tauto)).
  assert (M : maxSide p q r <= 18) by (unfold maxSide; repeat apply Rmax_lub; lra).
  assert (M0 : 0 <= maxSide p q r) by (unfold maxSide; eapply Rle_trans; [|apply Rmax_l]; lra).
  unfold thinTriangle. intros [A|[A|[A|A]]]; try lra. nra.
Qed.
Lemma vert_num th p q : nullDenom th <= 1 / 1000 -> (Rabs (px p - px q) + Rabs (py p - py q)) / 1000 <= Rabs (px p - px q) -> vertOK th p q.
Proof. intros D H. right. pose proof (edist_le_sum p q). pose proof (edist_pos p q). nra. Qed.

Lemma closest_num y g : y = 0 \/ y = 1 -> closest (mkPt 0 y) (mkPt 4 (y + 1)) (mkPt 1 4) g -> g = mkPt 2 0.
Proof.
  intros Hy (s & [-> | ->] & -> & H).
  - exfalso. pose proof (edist_ge_y (turned (mkPt 0 y) (mkPt 4 (y + 1)) (mkPt 1 4) 1) (mkPt 0 y)) as A.
    pose proof (edist_le_sum (turned (mkPt 0 y) (mkPt 4 (y + 1)) (mkPt 1 4) (- (1))) (mkPt 0 y)) as B.
    unfold turned in *. cbn [px py] in *. assert (7 <= Rabs (4 + 1 * (4 - 0) - y)) by (destruct Hy as [-> | ->]; absval).
    assert (Rabs (1 - - (1) * (y + 1 - y) - 0) <= 2) by (destruct Hy as [-> | ->]; absval). assert (Rabs (4 + - (1) * (4 - 0) - y) <= 1) by (destruct Hy as [-> | ->]; absval). lra.
  - unfold turned. apply pt_eq; cbn [px py]; ring.
Qed.
Lemma corners_num a b y xb q1 q2 q3 q4 : xb <> 2 -> cornerEqs a b (mkPt 0 y) (mkPt 4 (y + 1)) (mkPt 1 4) (mkPt xb 0) (mkPt 2 0) q1 q2 q3 q4 ->
  [q1; q2; q3; q4] = [mkPt 0 0; mkPt 0 4; mkPt 4 4; mkPt 4 0].
Proof.
  intros Nx (U & G & A1 & A2 & B1 & B2 & C1 & C2 & D1 & D2). unfold nd in *. cbn [px py] in *.
  assert (a = 0) as ->. { assert (a * (2 - xb) = 0) as M by lra. apply Rmult_integral in M. lra. }
  assert (Hb : b <> 0) by (intros ->; lra).
  assert (forall z, b * z = 0 -> z = 0) as Z by (intros z H; apply Rmult_integral in H; tauto).
  assert (Q1 : py q1 - 0 = 0) by (apply Z; lra). assert (Q1' : px q1 - 0 = 0) by (apply Z; lra). assert (Q2 : py q2 - 4 = 0) by (apply Z; lra). assert (Q2' : px q2 - 0 = 0) by (apply Z; lra).
  assert (Q3 : py q3 - 4 = 0) by (apply Z; lra). assert (Q3' : px q3 - 4 = 0) by (apply Z; lra). assert (Q4 : py q4 - 0 = 0) by (apply Z; lra). assert (Q4' : px q4 - 4 = 0) by (apply Z; lra).
  repeat f_equal; apply pt_eq; cbn [px py]; lra.
Qed.

Ltac dirnum := apply dir_num; [apply thr0_small|cbn [px py]; absval].
Ltac vertnum := apply vert_num; [apply thr0_small|cbn [px py]; absval].
Ltac thinnum := apply notthin_num; [unfold cross3; cbn [px py]; absval|intros ? ? [[-> ->]|[[-> ->]|[-> ->]]]; cbn [px py]; repeat split; try absval; first [left; absval|right; absval]].

Lemma eps0 : dblEpsilon (thr0 (T := R)) < nullDistance thr0.
Proof. unfold thr0; cbn [dblEpsilon nullDistance]; rnum; lra. Qed.

Definition sqPts : list (pt R) := [mkPt 0 1; mkPt 3 0; mkPt 4 2; mkPt 1 4].
Lemma sqPts_ext : leftmost sqPts (mkPt 0 1) /\ rightmost sqPts (mkPt 4 2) /\ topmost sqPts (mkPt 1 4) /\ bottommost sqPts (mkPt 3 0).
Proof.
  unfold leftmost, rightmost, topmost, bottommost, sqPts. repeat split; try (cbn; auto; fail); intros q [<-|[<-|[<-|[<-|[]]]]]; cbn [px py]; lra.
Qed.
Lemma sqPts_dir p q : In p sqPts -> In q sqPts -> dirOK thr0 p q.
Proof.
  intros [<-|[<-|[<-|[<-|[]]]]] [<-|[<-|[<-|[<-|[]]]]]; first [left; reflexivity|dirnum].
Qed.
(** The square (0,0)-(4,4) for four points on its sides. *)
Example C211_ex : leftmost sqPts (mkPt 0 1) /\ rightmost sqPts (mkPt 4 2) /\ topmost sqPts (mkPt 1 4) /\ bottommost sqPts (mkPt 3 0) /\
  NoDup [mkPt 0 1; mkPt 4 2; mkPt 1 4; mkPt 3 0] /\ dirOK thr0 (mkPt 0 1) (mkPt 4 2) /\ vertOK thr0 (mkPt 0 1) (mkPt 4 2) /\
  (forall g, closest (mkPt 0 1) (mkPt 4 2) (mkPt 1 4) g -> dirOK thr0 g (mkPt 3 0) /\ vertOK thr0 g (mkPt 3 0)) /\
  exists pl, buildSquare thr0 sqPts = Ok pl /\ plPts pl = [mkPt 0 0; mkPt 0 4; mkPt 4 4; mkPt 4 0].
Proof.
  destruct sqPts_ext as (HL & HQ & HT & HB). pose proof eps0 as Te.
  assert (D : dirOK thr0 (mkPt 0 1) (mkPt 4 2)) by dirnum. assert (V : vertOK thr0 (mkPt 0 1) (mkPt 4 2)) by vertnum.
  assert (G : forall g, closest (mkPt 0 1) (mkPt 4 2) (mkPt 1 4) g -> g = mkPt 2 0).
  { intros g C. apply (closest_num 1); [now right|]. replace (1 + 1) with 2 by ring. exact C. }
  assert (DV : dirOK thr0 (mkPt 2 0) (mkPt 3 0) /\ vertOK thr0 (mkPt 2 0) (mkPt 3 0)) by (split; [left; reflexivity|vertnum]).
  assert (Len : edist (mkPt 2 0) (mkPt 3 0) = 1) by (apply edist_val; cbn [px py]; lra). pose proof thr0_small as (T1 & _).
  split; [exact HL|]. split; [exact HQ|]. split; [exact HT|]. split; [exact HB|]. split.
  { repeat (constructor; [cbn [In]; intros Z; repeat destruct Z as [Z|Z]; try (injection Z; intros; lra); contradiction|]). constructor. }
  split; [exact D|]. split; [exact V|]. split; [intros g C; rewrite (G g C); exact DV|].
  destruct (C211_builds thr0 (mkPt 0 1) (mkPt 3 0) (mkPt 4 2) (mkPt 1 4) (mkPt 0 1) (mkPt 4 2) (mkPt 1 4) (mkPt 3 0) thr0_ok Te HL HQ HT HB sqPts_dir V) as [pl E].
  1-4: thinnum.
  - pose proof (edist_ge_x (mkPt 0 1) (mkPt 4 2)) as X. cbn [px] in X. rewrite Rabs_left in X by lra. lra.
  - intros g C. rewrite (G g C). split; [apply DV|]. split; [apply DV|]. rewrite Len. split; [lra|]. unfold farAlong. rewrite Len. cbn [px py]. split; absval.
  - exists pl. split; auto.
    destruct (buildSquare_inv thr0 (mkPt 0 1) (mkPt 3 0) (mkPt 4 2) (mkPt 1 4) (mkPt 0 1) (mkPt 4 2) (mkPt 1 4) (mkPt 3 0) pl thr0_ok HL HQ HT HB D V) as (a & b & g & q1 & q2 & q3 & q4 & -> & C & CE & _); auto.
    { intros g C. rewrite (G g C). exact DV. }
    rewrite (G g C) in CE. apply (corners_num a b 1 3 q1 q2 q3 q4); [lra|]. replace (1 + 1) with 2 by ring. exact CE.
Qed.

(** ** C212: all four points on the sides — refuted when a point is extreme in two directions *)
Definition sqBad : list (pt R) := [mkPt 0 0; mkPt 2 2; mkPt 4 1; mkPt 1 4].
Lemma sqBad_ext : leftmost sqBad (mkPt 0 0) /\ rightmost sqBad (mkPt 4 1) /\ topmost sqBad (mkPt 1 4) /\ bottommost sqBad (mkPt 0 0).
Proof.
  unfold leftmost, rightmost, topmost, bottommost, sqBad. repeat split; try (cbn; auto; fail); intros q [<-|[<-|[<-|[<-|[]]]]]; cbn [px py]; lra.
Qed.
Lemma sqBad_dir p q : In p sqBad -> In q sqBad -> dirOK thr0 p q.
Proof.
  intros [<-|[<-|[<-|[<-|[]]]]] [<-|[<-|[<-|[<-|[]]]]]; first [left; reflexivity|dirnum].
Qed.
Theorem C212_refuted : exists pts pl p, buildSquare thr0 pts = Ok pl /\ plPts pl = [mkPt 0 0; mkPt 0 4; mkPt 4 4; mkPt 4 0] /\ In p pts /\
  forall e, In e (cyc (plPts pl)) -> cross3 (fst e) (snd e) p <> 0.
Proof.
  destruct sqBad_ext as (HL & HQ & HT & HB). pose proof eps0 as Te.
  assert (D : dirOK thr0 (mkPt 0 0) (mkPt 4 1)) by dirnum. assert (V : vertOK thr0 (mkPt 0 0) (mkPt 4 1)) by vertnum.
  assert (G : forall g, closest (mkPt 0 0) (mkPt 4 1) (mkPt 1 4) g -> g = mkPt 2 0).
  { intros g C. apply (closest_num 0); [now left|]. replace (0 + 1) with 1 by ring. exact C. }
  assert (DV : dirOK thr0 (mkPt 2 0) (mkPt 0 0) /\ vertOK thr0 (mkPt 2 0) (mkPt 0 0)) by (split; [left; reflexivity|vertnum]).
  assert (Len : edist (mkPt 2 0) (mkPt 0 0) = 2) by (apply edist_val; cbn [px py]; lra). pose proof thr0_small as (T1 & _).
  destruct (C211_builds thr0 (mkPt 0 0) (mkPt 2 2) (mkPt 4 1) (mkPt 1 4) (mkPt 0 0) (mkPt 4 1) (mkPt 1 4) (mkPt 0 0) thr0_ok Te HL HQ HT HB sqBad_dir V) as [pl E].
  1-4: thinnum.
  - pose proof (edist_ge_x (mkPt 0 0) (mkPt 4 1)) as X. cbn [px] in X. rewrite Rabs_left in X by lra. lra.
  - intros g C. rewrite (G g C). split; [apply DV|]. split; [apply DV|]. rewrite Len. split; [lra|]. unfold farAlong. rewrite Len. cbn [px py]. split; absval.
  - exists sqBad, pl, (mkPt 2 2). split; [exact E|].
    assert (P : plPts pl = [mkPt 0 0; mkPt 0 4; mkPt 4 4; mkPt 4 0]).
    { destruct (buildSquare_inv thr0 (mkPt 0 0) (mkPt 2 2) (mkPt 4 1) (mkPt 1 4) (mkPt 0 0) (mkPt 4 1) (mkPt 1 4) (mkPt 0 0) pl thr0_ok HL HQ HT HB D V) as (a & b & g & q1 & q2 & q3 & q4 & -> & C & CE & _); auto.
      { intros g C. rewrite (G g C). exact DV. }
      rewrite (G g C) in CE. apply (corners_num a b 0 0 q1 q2 q3 q4); [lra|]. replace (0 + 1) with 1 by ring. exact CE. }
    split; [exact P|]. split; [cbn; auto|]. rewrite P. cbn [cyc combine app]. intros e [<-|[<-|[<-|[<-|[]]]]]; unfold cross3; cbn [fst snd px py]; lra.
Qed.
Print Assumptions C212_refuted.

(** ** C213: a square for every four points, no three of them aligned — refuted: it throws when the
    left-most point is also the top-most one *)
Definition sqThrow : list (pt R) := [mkPt 0 4; mkPt 1 0; mkPt 4 1; mkPt 3 3].
Theorem C213_refuted : exists p0 p1 p2 p3, ~ thinTriangle (1 / 10000000000) p0 p1 p2 /\ ~ thinTriangle (1 / 10000000000) p1 p2 p3 /\
  ~ thinTriangle (1 / 10000000000) p0 p1 p3 /\ ~ thinTriangle (1 / 10000000000) p0 p2 p3 /\ buildSquare thr0 [p0; p1; p2; p3] = Throw.
Proof.
  pose proof eps0 as Te. exists (mkPt 0 4), (mkPt 1 0), (mkPt 4 1), (mkPt 3 3).
  assert (TE : nullDistance (thr0 (T := R)) = 1 / 10000000000) by (unfold thr0; cbn [nullDistance]; rnum; lra). rewrite <- TE.
  split; [thinnum|]. split; [thinnum|]. split; [thinnum|]. split; [thinnum|].
  assert (Dir : forall p q, In p sqThrow -> In q sqThrow -> dirOK thr0 p q).
  { intros p q [<-|[<-|[<-|[<-|[]]]]] [<-|[<-|[<-|[<-|[]]]]]; first [left; reflexivity|dirnum]. }
  assert (Col : forall p q r, In p sqThrow -> In q sqThrow -> In r sqThrow -> ~ thinTriangle (nullDistance thr0) p q r -> areCollinear thr0 p q r = Ok false).
  { intros p q r Ip Iq Ir N. destruct (areCollinear_char thr0 p q r thr0_ok Te) as (x & -> & X); auto. destruct x; auto. exfalso. tauto. }
  destruct (extremes_found sqThrow) as ((eL & iL & E1 & X1) & (eR & iR & E2 & X2) & (eT & iT & E3 & X3) & (eB & iB & E4 & X4)); [discriminate|].
  assert (HL : leftmost sqThrow (mkPt 0 4)) by (split; [cbn; auto|]; intros q [<-|[<-|[<-|[<-|[]]]]]; cbn [px py]; lra).
  assert (HQ : rightmost sqThrow (mkPt 4 1)) by (split; [cbn; auto|]; intros q [<-|[<-|[<-|[<-|[]]]]]; cbn [px py]; lra).
  assert (HT : topmost sqThrow (mkPt 0 4)) by (split; [cbn; auto|]; intros q [<-|[<-|[<-|[<-|[]]]]]; cbn [px py]; lra).
  assert (HB : bottommost sqThrow (mkPt 1 0)) by (split; [cbn; auto|]; intros q [<-|[<-|[<-|[<-|[]]]]]; cbn [px py]; lra).
  assert (K1 : areCollinear thr0 (mkPt 0 4) (mkPt 1 0) (mkPt 4 1) = Ok false) by (apply Col; [cbn; auto|cbn; auto|cbn; auto|thinnum]).
  assert (K2 : areCollinear thr0 (mkPt 1 0) (mkPt 4 1) (mkPt 3 3) = Ok false) by (apply Col; [cbn; auto|cbn; auto|cbn; auto|thinnum]).
  assert (K3 : areCollinear thr0 (mkPt 1 0) (mkPt 0 4) (mkPt 3 3) = Ok false) by (apply Col; [cbn; auto|cbn; auto|cbn; auto|thinnum]).
  assert (K4 : areCollinear thr0 (mkPt 0 4) (mkPt 4 1) (mkPt 3 3) = Ok false) by (apply Col; [cbn; auto|cbn; auto|cbn; auto|thinnum]).
  unfold buildSquare. fold sqThrow. rewrite K1, K2, K3, K4.
  cbn [noneTrue bind]. rewrite E1, E2, E3, E4. cbn [bind fst].
  rewrite (leftmost_uniq _ _ _ X1 HL), (rightmost_uniq _ _ _ X2 HQ), (topmost_uniq _ _ _ X3 HT), (bottommost_uniq _ _ _ X4 HB).
  assert (D : dirOK thr0 (mkPt 0 4) (mkPt 4 1)) by dirnum. assert (V : vertOK thr0 (mkPt 0 4) (mkPt 4 1)) by vertnum. pose proof thr0_small as (T1 & _).
  destruct (candidates_total thr0 (mkPt 0 4) (mkPt 4 1) (mkPt 0 4) thr0_ok Te D V) as [c Ec].
  { pose proof (edist_ge_x (mkPt 0 4) (mkPt 4 1)) as X. cbn [px] in X. rewrite Rabs_left in X by lra. lra. }
  rewrite Ec. cbn [bind]. pose proof (candidates_good _ _ _ _ _ thr0_ok D V Ec) as (s & Hs & Eg & _).
  assert (H : bsGood (mkPt 0 4) c = mkPt 3 8 \/ bsGood (mkPt 0 4) c = mkPt (-3) 0).
  { rewrite Eg. unfold turned. destruct Hs as [-> | ->]; [left|right]; apply pt_eq; cbn [px py]; ring. }
  rewrite corners_throw; auto using thr0_ok.
  - destruct H as [-> | ->]; [dirnum|left; reflexivity].
  - destruct H as [-> | ->]; vertnum.
  - pose proof (edist_ge_x (bsGood (mkPt 0 4) c) (mkPt 1 0)) as X. cbn [px] in X. destruct H as [K|K]; rewrite K in *; cbn [px] in X; [rewrite Rabs_right in X by lra|rewrite Rabs_left in X by lra]; lra.
Qed.
Print Assumptions C213_refuted.
