(** * C130-C132: lines and circles against a rectangle *)

From Coq Require Import Reals Lra Psatz List Lia Bool.
From Verif Require Import Num M_LP M_Homogr M_Seg M_Circle M_FRect S_Geom S_Seg S_Circle S_FRect P_LP P_LP2 P_LP4 P_LP5 P_Seg P_Seg2 P_Circle3 P_FRect P_FRect2 P_Poly7 S_Rect2 P_Rect2.
Import ListNotations.
Local Open Scope R_scope.

(** ** C130: line against rectangle *)
Theorem C130_exact : forall th r l, thr_ok th -> bigR th r -> unitL l -> axisClear th l -> cornerClear th r l -> noSide r l ->
  exists out, frInterLine th r l = Ok out /\ NoDup out /\ (length out <= 2)%nat /\ forall q, In q out <-> onL l q /\ onBorder r q.
Proof. exact frInterLine_exact. Qed.
Print Assumptions C130_exact.
(** A line that contains a side: the two ends of that side. *)
Theorem C130_side : forall th r l, thr_ok th -> bigR th r -> unitL l -> ~ noSide r l -> (la l = 0 \/ lb l = 0) ->
  exists p q, frInterLine th r l = Ok [p; q] /\ p <> q /\ forall e, isCorner r e /\ onL l e <-> e = p \/ e = q.
Proof.
  intros th r l Ht G U NS AX. pose proof (thr_dist th Ht) as T0. assert (wfR r) as [W1 W2] by (destruct G as [[] _]; split; lra). unfold unitL in U. destruct AX as [L0|L0].
  - assert (lb l <> 0) as LB by (intros Z; rewrite L0, Z in U; lra).
    assert (exists y, (y = py (r1 r) \/ y = py (r2 r)) /\ onL l (mkPt 0 y)) as (y & Y & O).
    { destruct (Req_dec (lb l * py (r1 r) + lc l) 0) as [Z|Z]; [exists (py (r1 r)); unfold onL; rewrite L0; cbn; split; [auto|lra]|].
      destruct (Req_dec (lb l * py (r2 r) + lc l) 0) as [Z'|Z']; [exists (py (r2 r)); unfold onL; rewrite L0; cbn; split; [auto|lra]|].
      exfalso. apply NS. intros e f [_ Ce] _ O _ _. unfold onL in O. rewrite L0 in O. destruct Ce as [E|E]; rewrite E in O; lra. }
    exists (mkPt (px (r1 r)) y), (mkPt (px (r2 r)) y). split; [now apply frInterLine_hside|]. split; [intros E; injection E; lra|].
    intros e. unfold isCorner, onL in *. cbn [px py] in O. rewrite L0 in *. split.
    + intros [[X _] E]. assert (py e = y) as Ey by (apply Rmult_eq_reg_l with (lb l); auto; lra). destruct X as [X|X]; [left|right]; apply pt_eq; auto.
    + intros [->| ->]; cbn [px py]; split; auto; lra.
  - assert (la l <> 0) as LB by (intros Z; rewrite L0, Z in U; lra).
    assert (exists x, (x = px (r1 r) \/ x = px (r2 r)) /\ onL l (mkPt x 0)) as (x & Y & O).
    { destruct (Req_dec (la l * px (r1 r) + lc l) 0) as [Z|Z]; [exists (px (r1 r)); unfold onL; rewrite L0; cbn; split; [auto|lra]|].
      destruct (Req_dec (la l * px (r2 r) + lc l) 0) as [Z'|Z']; [exists (px (r2 r)); unfold onL; rewrite L0; cbn; split; [auto|lra]|].
      exfalso. apply NS. intros e f [Ce _] _ O _ _. unfold onL in O. rewrite L0 in O. destruct Ce as [E|E]; rewrite E in O; lra. }
    exists (mkPt x (py (r2 r))), (mkPt x (py (r1 r))). split; [now apply frInterLine_vside|]. split; [intros E; injection E; lra|].
    intros e. unfold isCorner, onL in *. cbn [px py] in O. rewrite L0 in *. split.
    + intros [[_ X] E]. assert (px e = x) as Ey by (apply Rmult_eq_reg_l with (la l); auto; lra). destruct X as [X|X]; [right|left]; apply pt_eq; auto.
    + intros [->| ->]; cbn [px py]; split; auto; lra.
Qed.
Print Assumptions C130_side.

(** The rectangle (0,0)-(4,3) and the line of normal (3,-4)/5 through (0,-1): it meets the border at (4/3,0) and (4,2). *)
Definition r43 : frect R := mkR (mkPt 0 0) (mkPt 4 3).
Definition l34 : line R := mkL (3 / 5) (- (4 / 5)) (- (4 / 5)).
Lemma r43_big : bigR thr0 r43.
Proof. pose proof thr0_small. unfold bigR, r43. cbn [r1 r2 px py]. lra. Qed.
Lemma angle0 : nullAngleValue (thr0 (T := R)) = 1 / 1000.
Proof. unfold thr0. cbn [nullAngleValue]. rnum. lra. Qed.
Lemma l34_ok : unitL l34 /\ axisClear thr0 l34 /\ cornerClear thr0 r43 l34 /\ noSide r43 l34.
Proof.
  pose proof thr0_small as (T & _). split; [unfold unitL; cbn; lra|]. split; [|split].
  - unfold axisClear. cbn [la lb l34]. rewrite angle0. split; right; apply acos_big; try lra; [rewrite Rabs_left|rewrite Rabs_right]; lra.
  - intros e [C1 C2]. right. cbn [la lb lc l34]. destruct C1 as [C1|C1], C2 as [C2|C2]; rewrite C1, C2; cbn [r43 r1 r2 px py]; unfold Rabs; destruct (Rcase_abs _); lra.
  - intros e f C _ O. exfalso. destruct C as [C1 C2]. unfold onL in O. cbn [la lb lc l34] in O. destruct C1 as [C1|C1], C2 as [C2|C2]; rewrite C1, C2 in O; cbn [r43 r1 r2 px py] in O; lra.
Qed.
Example C130_ex : exists out, frInterLine thr0 r43 l34 = Ok out /\ (length out <= 2)%nat /\ In (mkPt (4 / 3) 0) out /\ In (mkPt 4 2) out.
Proof.
  destruct l34_ok as (A & B & C & D). destruct (C130_exact thr0 r43 l34 thr0_ok r43_big A B C D) as (out & E & _ & L & H).
  exists out. split; auto. split; auto. split; apply H; (split; [unfold onL; cbn; lra|]); unfold onBorder, inR; cbn; lra.
Qed.
Example C130_side_ex : let l := mkL 0 1 (-3) in unitL l /\ ~ noSide r43 l /\ (la l = 0 \/ lb l = 0).
Proof.
  cbn zeta. split; [unfold unitL; cbn; lra|]. split; [|cbn; auto]. intros N.
  destruct (N (mkPt 0 3) (mkPt 4 3)) as [_ F]; try (unfold isCorner; cbn; lra); try (unfold onL; cbn; lra); [intros E; injection E; lra|]. apply F. reflexivity.
Qed.

(** ** C131: every line that crosses the interior meets the border *)
(** Full claim: if a line goes through a point strictly inside the rectangle, at least one intersection point is
    returned.  False: a line closer than nullAngleValue to a side's direction counts as parallel to it. *)
Definition rLong : frect R := mkR (mkPt 0 0) (mkPt 10000 1).
Definition lSlow : line R := mkL (8000 / 16000001) (- (15999999 / 16000001)) (15999999 / 32000002 - 16000000 / 16000001).
Theorem C131_refuted : exists (r : frect R) l p, bigR thr0 r /\ unitL l /\ inRO r p /\ onL l p /\ frInterLine thr0 r l = Ok [].
Proof.
  exists rLong, lSlow, (mkPt 2000 (1 / 2)). pose proof thr0_small as (T & T' & _). assert (unitL lSlow) as U by (unfold unitL; cbn; lra).
  assert (bigR thr0 rLong) as G by (unfold bigR, rLong; cbn; lra).
  split; auto. split; auto. split; [unfold inRO; cbn; lra|]. split; [unfold onL; cbn; lra|].
  assert (HH : forall s, In s (sidesOf rLong) -> py (sA s) = py (sB s) -> segInterLine thr0 s lSlow = Ok None).
  { intros s I E. destruct (sides_lines thr0 rLong s thr0_ok G I) as (l' & El & U' & _ & Z). apply (parallel_none thr0 s _ l' El).
    unfold isParallel. rewrite lineAngle_acos by auto using unit_proper. apply Rltb_spec. rewrite cosL_unit by auto. unfold unitL in U'. rewrite Z in * by auto.
    rewrite Rmult_0_r, Rplus_0_l, Rabs_mult. assert (Rabs (lb l') = 1) as -> by (rewrite <- (Rabs_R1); apply Rsqr_eq_abs_0; unfold Rsqr; lra). rewrite Rmult_1_r.
    pose proof angle0 as A0. cbn [nullAngleValue] in A0 |- *. rewrite A0. cbn [lb lSlow]. rewrite Rabs_left by lra. apply acos_small; lra. }
  assert (HV : forall s, In s (sidesOf rLong) -> px (sA s) = px (sB s) -> segInterLine thr0 s lSlow = Ok None).
  { intros s I E. destruct (sides_lines thr0 rLong s thr0_ok G I) as (l' & El & U' & Z & _). specialize (Z E).
    destruct (side_line thr0 rLong s (mkL 1 0 0) thr0_ok G) as (Os & Ds & _); auto; [unfold unitL; cbn; ring| |].
    { unfold axisClear. cbn [la lb]. pose proof (thr_angl thr0 thr0_ok). split; [right; rewrite Rabs_R0, acos_0; lra|now left]. }
    destruct (side_meet thr0 s lSlow l' thr0_ok U Os Ds El) as (it & Ei & H).
    - right. unfold isParallel. rewrite lineAngle_acos by auto using unit_proper. apply Rltb_false. rewrite cosL_unit by auto. unfold unitL in U'. rewrite Z in *.
      rewrite Rmult_0_r, Rplus_0_r, Rabs_mult. assert (Rabs (la l') = 1) as -> by (rewrite <- (Rabs_R1); apply Rsqr_eq_abs_0; unfold Rsqr; lra). rewrite Rmult_1_r.
      pose proof angle0 as A0. cbn [nullAngleValue] in A0 |- *. rewrite A0. cbn [la lSlow]. rewrite Rabs_right by lra. apply acos_big; lra.
    - intros e He. right. pose proof (side_corner rLong s e I He) as [C1 C2]. cbn [la lb lc lSlow]. destruct C1 as [C1|C1], C2 as [C2|C2]; rewrite C1, C2; cbn [rLong r1 r2 px py]; unfold Rabs; destruct (Rcase_abs _); lra.
    - intros [O _]. pose proof (side_corner rLong s (sA s) I (or_introl eq_refl)) as [C1 C2]. unfold onL in O. cbn [la lb lc lSlow] in O.
      destruct C1 as [C1|C1], C2 as [C2|C2]; rewrite C1, C2 in O; cbn [rLong r1 r2 px py] in O; lra.
    - rewrite Ei. f_equal. destruct it as [q|]; auto. exfalso. destruct (proj1 (H q) eq_refl) as [O S].
      apply sides_inv in I. destruct I as [(x & X & ->)|(y & Y & ->)]; [|cbn in E; lra]. unfold segHas in S. cbn [sA sB] in S. apply onSeg_v in S; [|cbn; lra]. destruct S as [Sx Sy].
      unfold onL in O. rewrite Sx in O. cbn [la lb lc lSlow rLong r1 r2 px py] in *. destruct X as [->| ->]; lra. }
  unfold frInterLine. rewrite frSegs_eq by (apply thr0_ok || apply G). cbn [bind sidesOf frInterLineLoop rLong r1 r2 px py] in *.
  rewrite HV by (cbn; auto). cbn [bind]. rewrite HH by (cbn; auto). cbn [bind]. rewrite HV by (cbn; auto). cbn [bind]. rewrite HH by (cbn; auto 6). reflexivity.
Qed.
Print Assumptions C131_refuted.

(** ** C132: circle against rectangle *)
Theorem C132_exact : forall th r c, thr_ok th -> bigR th r -> 0 <= cr c -> (forall e, isCorner r e -> far th c e) ->
  exists out, frInterCircle th r c = Ok out /\ incrL out /\ forall q, In q out <-> onEdge c q /\ onBorder r q.
Proof. exact frInterCircle_exact. Qed.
Print Assumptions C132_exact.
(** The circle of centre (2,1) and radius 5/2 cuts the sides of (0,0)-(4,3) at four points, among them (0,5/2) and (7/2,3). *)
Example C132_ex : exists out, frInterCircle thr0 r43 (mkC (mkPt 2 1) (5 / 2)) = Ok out /\ In (mkPt 0 (5 / 2)) out /\ In (mkPt (7 / 2) 3) out /\ (forall e, isCorner r43 e -> far thr0 (mkC (mkPt 2 1) (5 / 2)) e).
Proof.
  pose proof thr0_small as (T & T' & _).
  assert (F : forall e, isCorner r43 e -> far thr0 (mkC (mkPt 2 1) (5 / 2)) e).
  { intros e [C1 C2]. unfold far. cbn [cc cr]. assert (edist (mkPt 2 1) e * edist (mkPt 2 1) e = 5 \/ edist (mkPt 2 1) e * edist (mkPt 2 1) e = 8) as Q.
    { rewrite edist_sq. cbn [px py]. destruct C1 as [C1|C1], C2 as [C2|C2]; rewrite C1, C2; cbn [r43 r1 r2 px py]; lra. }
    pose proof (edist_pos (mkPt 2 1) e) as P. destruct Q as [Q|Q]; unfold Rabs; destruct (Rcase_abs _); nra. }
  destruct (C132_exact thr0 r43 (mkC (mkPt 2 1) (5 / 2)) thr0_ok r43_big) as (out & E & _ & H); [cbn; lra|exact F|].
  exists out. split; auto. split; [|split; [|exact F]]; apply H; unfold onEdge, onBorder, inR; cbn [cc cr r43 r1 r2 px py]; (split; [apply edist_val; cbn [px py]; lra|lra]).
Qed.
