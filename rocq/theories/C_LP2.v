(** * Properties C96, C97: normalisation and moves of points; side of a line *)

From Coq Require Import Reals ZArith List Bool Lra Lia.
From Verif Require Import Num M_LP S_Geom P_LP P_LP2 P_LP3.
Import ListNotations.
Local Open Scope R_scope.

(** ** C96 *)
(** Two triples that stand for the same point (at infinity or not). *)
Definition sameH (h k : hpt R) : Prop := exists s, s <> 0 /\ h0 k = s * h0 h /\ h1 k = s * h1 h /\ h2 k = s * h2 h.
Theorem C96_set3 : forall th a b c, thr_ok th ->
  (pointSet3 th a b c = Throw /\ Rabs c < nullDenom th /\ Rabs a < nullOrthogDistance th /\ Rabs b < nullOrthogDistance th) \/
  (exists h, pointSet3 th a b c = Ok h /\ sameH (mkH a b c) h /\ 0 <= h0 h /\
     (c <> 0 -> ptOfH h = Ok (mkPt (a / c) (b / c))) /\ (hIsInf th h = true <-> Rabs c < nullDenom th)).
Proof.
  intros th a b c Ht. unfold pointSet3, pnorm. cbn [h0 h1 h2]. rnum.
  set (k := if Rltb a 0 then mkH (- a) (- b) (- c) else mkH a b c).
  assert (sameH (mkH a b c) k /\ 0 <= h0 k /\ h0 k = Rabs a /\ Rabs (h1 k) = Rabs b /\ Rabs (h2 k) = Rabs c) as (S & P & A & B & C).
  { unfold k. destruct (Rltb a 0) eqn:E; rclean; cbn [h0 h1 h2].
    - split; [exists (-1); cbn [h0 h1 h2]; repeat split; lra|]. split; [lra|]. rewrite !Rabs_Ropp. split; auto. rewrite Rabs_left; lra.
    - split; [exists 1; cbn [h0 h1 h2]; repeat split; lra|]. split; [lra|]. split; auto. rewrite Rabs_right; lra. }
  destruct (Rltb (Rabs (h2 k)) (nullDenom th) && (Rltb (h0 k) (nullOrthogDistance th) && Rltb (Rabs (h1 k)) (nullOrthogDistance th))) eqn:E.
  - left. rewrite !andb_true_iff, !Rltb_spec, A, B, C in E. tauto.
  - right. exists k. split; auto. split; auto. split; auto. split.
    + intros N. destruct S as (s & Ns & S0 & S1 & S2). cbn [h0 h1 h2] in *. unfold ptOfH. rnum. destruct (Reqb (h2 k) 0) eqn:Z.
      * apply Reqb_spec in Z. rewrite Z in S2. symmetry in S2. apply Rmult_integral in S2. tauto.
      * rewrite S0, S1, S2. f_equal. f_equal; field; auto.
    + unfold hIsInf. rnum. now rewrite Rltb_spec, C.
Qed.
(** A point object and the operations that change it. *)
Inductive pop : Type := PSet (x y : R) | PTrans (dx dy : R) | PMove (x y : R).
Definition pStep (th : thrs R) (r : res (hpt R)) (o : pop) : res (hpt R) :=
  do h <- r; match o with PSet x y => hset2 th x y | PTrans dx dy => htranslate th h dx dy | PMove x y => Ok (hOfPt (mkPt x y)) end.
Definition pSpec (p : pt R) (o : pop) : pt R :=
  match o with PSet x y => mkPt x y | PTrans dx dy => mkPt (px p + dx) (py p + dy) | PMove x y => mkPt x y end.
Lemma pnorm1 th x y : thr_ok th -> exists h, pnorm th (mkH x y 1) = Ok h /\ h2 h <> 0 /\ ptOfH h = Ok (mkPt x y).
Proof.
  intros Ht. destruct (C96_set3 th x y 1 Ht) as [(_ & C & _)|(h & E & S & _ & V & _)].
  - rewrite Rabs_R1 in C. pose proof (thr_deno _ Ht). lra.
  - exists h. split; auto. split.
    + destruct S as (s & Ns & _ & _ & S2). cbn [h2] in S2. rewrite S2. lra.
    + rewrite V by lra. f_equal. f_equal; field.
Qed.
Theorem C96_history : forall th ops x y, thr_ok th ->
  exists h, fold_left (pStep th) ops (Ok (hOfPt (mkPt x y))) = Ok h /\ ptOfH h = Ok (fold_left pSpec ops (mkPt x y)).
Proof.
  intros th ops x y Ht.
  assert (forall ops h p, h2 h <> 0 -> ptOfH h = Ok p -> exists k, fold_left (pStep th) ops (Ok h) = Ok k /\ ptOfH k = Ok (fold_left pSpec ops p)) as G.
  { clear ops. intros ops. induction ops as [|o ops IH]; intros h p N V; [exists h; auto|]. cbn [fold_left].
    assert (exists k, pStep th (Ok h) o = Ok k /\ h2 k <> 0 /\ ptOfH k = Ok (pSpec p o)) as (k & E & Nk & Vk).
    { unfold pStep. cbn [bind]. destruct o as [a b|a b|a b]; cbn [pSpec].
      - unfold hset2. rnum. now apply pnorm1.
      - unfold htranslate. revert V. unfold ptOfH at 1. rnum. destruct (Reqb (h2 h) 0) eqn:Z; [discriminate|]. intros V. apply Ok_inj in V. subst p. cbn [px py]. now apply pnorm1.
      - eexists. split; [reflexivity|]. cbn [hOfPt h2]. rnum. split; [lra|]. unfold ptOfH, hOfPt. cbn [h0 h1 h2 px py]. rnum.
        destruct (Reqb 1 0) eqn:Z; [apply Reqb_spec in Z; lra|]. f_equal. f_equal; field. }
    rewrite E. now apply IH. }
  apply G; unfold hOfPt; cbn [h0 h1 h2 px py]; rnum; [lra|]. unfold ptOfH. cbn [h0 h1 h2]. rnum. destruct (Reqb 1 0) eqn:Z; [apply Reqb_spec in Z; lra|]. f_equal. f_equal; field.
Qed.
Example C96_ex : ptOfH (mkH 6 (-4) (-2)) = Ok (mkPt (-3) 2) /\ pointSet3 thr0 (-6) 4 2 = Ok (mkH 6 (-4) (-2)) /\ pointSet3 thr0 0 0 0 = Throw.
Proof.
  split; [|split].
  - unfold ptOfH. cbn [h0 h1 h2]. rnum. destruct (Reqb (-2) 0) eqn:Z; [apply Reqb_spec in Z; lra|]. f_equal. f_equal; field.
  - unfold pointSet3, pnorm. cbn [h0 h1 h2]. rnum. rewrite (proj2 (Rltb_spec (-6) 0)) by lra. cbn [h0 h1 h2]. rewrite (Rabs_left (- (2))) by lra.
    rewrite (proj2 (Rltb_false _ _)) by (pose proof (thr_deno _ thr0_ok); lra). cbn [andb]. f_equal. f_equal; lra.
  - destruct (C96_set3 thr0 0 0 0 thr0_ok) as [[E _]|(h & E & _)]; auto. exfalso. revert E. unfold pointSet3, pnorm. cbn [h0 h1 h2]. rnum.
    rewrite (proj2 (Rltb_false 0 0)) by lra. cbn [h0 h1 h2]. rewrite Rabs_R0. rewrite !(proj2 (Rltb_spec _ _)) by (apply (thr_deno _ thr0_ok) || apply (thr_orth _ thr0_ok)). discriminate.
Qed.
Print Assumptions C96_set3. Print Assumptions C96_history.

(** ** C97 *)
(** side() is 0 near the line, is constant along a segment whose ends are on the same side, and a segment with ends on different sides meets the line. *)
Theorem C97_zero : forall th p l, thr_ok th -> unitL l -> (side th p l = 0%Z <-> lineDist l p < nullDistance th).
Proof. intros th p l Ht U. apply (proj1 (side_spec th p l Ht U)). Qed.
Definition atS (p q : pt R) (t : R) : pt R := mkPt (px p + t * (px q - px p)) (py p + t * (py q - py p)).
Theorem C97_same_side : forall th p q l t, thr_ok th -> unitL l -> side th p l = side th q l -> side th p l <> 0%Z -> 0 <= t <= 1 ->
  side th (atS p q t) l = side th p l.
Proof.
  intros th p q l t Ht U E N H. destruct (side_spec th p l Ht U) as (Z1 & P1 & M1). destruct (side_spec th q l Ht U) as (Z2 & P2 & M2). destruct (side_spec th (atS p q t) l Ht U) as (Z3 & P3 & M3).
  unfold atS in *. cbn [px py] in *. set (u := la l * px p + lb l * py p + lc l) in *. set (v := la l * px q + lb l * py q + lc l) in *.
  replace (la l * (px p + t * (px q - px p)) + lb l * (py p + t * (py q - py p)) + lc l) with ((1 - t) * u + t * v) in * by (unfold u, v; ring).
  assert (side th p l = 1%Z \/ side th p l = (-1)%Z) as [S|S] by (revert N; clear; unfold side; destruct (_ <? _)%num; [tauto|]; destruct (_ <? _)%num; auto); rewrite S in *.
  - apply P3. assert (nullDistance th <= u) by tauto. assert (nullDistance th <= v) by (apply P2; auto).
    assert ((1 - t) * nullDistance th <= (1 - t) * u) by (apply Rmult_le_compat_l; lra). assert (t * nullDistance th <= t * v) by (apply Rmult_le_compat_l; lra). lra.
  - apply M3. assert (u <= - nullDistance th) by tauto. assert (v <= - nullDistance th) by (apply M2; auto).
    assert ((1 - t) * u <= (1 - t) * - nullDistance th) by (apply Rmult_le_compat_l; lra). assert (t * v <= t * - nullDistance th) by (apply Rmult_le_compat_l; lra). lra.
Qed.
Theorem C97_other_side : forall th p q l, thr_ok th -> unitL l -> (side th p l * side th q l = -1)%Z -> exists t, 0 < t < 1 /\ onL l (atS p q t).
Proof.
  intros th p q l Ht U E. destruct (side_spec th p l Ht U) as (Z1 & P1 & M1). destruct (side_spec th q l Ht U) as (Z2 & P2 & M2). pose proof (thr_dist _ Ht) as D.
  set (u := la l * px p + lb l * py p + lc l) in *. set (v := la l * px q + lb l * py q + lc l) in *.
  assert (forall r, side th r l = 0%Z \/ side th r l = 1%Z \/ side th r l = (-1)%Z) as S by (intros r; unfold side; destruct (_ <? _)%num; auto; destruct (_ <? _)%num; auto).
  assert (u < 0 < v \/ v < 0 < u) as X.
  { destruct (S p) as [A|[A|A]], (S q) as [B|[B|B]]; rewrite A, B in E; try lia; [right|left].
    - assert (nullDistance th <= u) by tauto. assert (v <= - nullDistance th) by tauto. lra.
    - assert (u <= - nullDistance th) by tauto. assert (nullDistance th <= v) by tauto. lra. }
  exists (u / (u - v)). split.
  - destruct X as [X|X].
    + replace (u / (u - v)) with (- u / (v - u)) by (field; lra). split; [apply Rdiv_lt_0_compat; lra|]. apply (Rmult_lt_reg_r (v - u)); [lra|]. unfold Rdiv. rewrite Rmult_assoc, Rinv_l by lra. lra.
    + split; [apply Rdiv_lt_0_compat; lra|]. apply (Rmult_lt_reg_r (u - v)); [lra|]. unfold Rdiv. rewrite Rmult_assoc, Rinv_l by lra. lra.
  - unfold onL, atS. cbn [px py]. set (t := u / (u - v)). replace (_ + lc l) with ((1 - t) * u + t * v) by (unfold u, v; ring). unfold t. field. lra.
Qed.
(** Which side is positive: for a line a*x+b*y+c=0, the one (a,b) points to. *)
Theorem C97_positive_side : forall th p l k, thr_ok th -> unitL l -> onL l p -> nullDistance th <= k ->
  side th (mkPt (px p + k * la l) (py p + k * lb l)) l = 1%Z /\ side th (mkPt (px p - k * la l) (py p - k * lb l)) l = (-1)%Z.
Proof.
  intros th p l k Ht U O K. unfold onL in O. unfold unitL in U. split.
  - apply (proj1 (proj2 (side_spec th _ l Ht U))). cbn [px py]. replace (_ + lc l) with (la l * px p + lb l * py p + lc l + k * (la l * la l + lb l * lb l)) by ring. rewrite O, U. lra.
  - apply (proj2 (proj2 (side_spec th _ l Ht U))). cbn [px py]. replace (_ + lc l) with (la l * px p + lb l * py p + lc l - k * (la l * la l + lb l * lb l)) by ring. rewrite O, U. lra.
Qed.
Example C97_ex : unitL (mkL (3 / 5) (4 / 5) (-5)) /\ side thr0 (mkPt 0 0) (mkL (3 / 5) (4 / 5) (-5)) = (-1)%Z /\ side thr0 (mkPt 5 5) (mkL (3 / 5) (4 / 5) (-5)) = 1%Z.
Proof.
  assert (unitL (mkL (3 / 5) (4 / 5) (-5))) as U by (unfold unitL; cbn [la lb]; field).
  assert (nullDistance thr0 <= 1) as D by (unfold thr0; cbn [nullDistance]; rnum; lra).
  split; auto. split.
  - apply (proj2 (proj2 (side_spec thr0 _ _ thr0_ok U))). cbn [px py la lb lc]. lra.
  - apply (proj1 (proj2 (side_spec thr0 _ _ thr0_ok U))). cbn [px py la lb lc]. lra.
Qed.
Print Assumptions C97_zero. Print Assumptions C97_same_side. Print Assumptions C97_other_side. Print Assumptions C97_positive_side.
