(** * Intersection and union of rectangles *)

From Coq Require Import Reals Lra Lia List Bool Arith ZArith.
From Verif Require Import Num M_LP M_Seg M_Circle M_Poly M_FRect S_Geom S_Poly S_FRect P_LP P_LP2 P_Seg P_Circle P_Grid P_Grid2 P_Grid3.
Import ListNotations.
Local Open Scope R_scope.

Lemma on_grid d r o : 0 < d -> wfR r -> wfR o -> sepR d r o ->
  exists X Y ir io, gaps d X /\ gaps d Y /\ in4 ir /\ in4 io /\ iProper ir = true /\ iProper io = true /\
    r = embR X Y ir /\ o = embR X Y io.
Proof.
  intros D [Wr1 Wr2] [Wo1 Wo2] [Sx Sy].
  destruct (grid_exists d _ D Sx) as (X & GX & IX). destruct (grid_exists d _ D Sy) as (Y & GY & IY).
  destruct (IX (px (r1 r))) as (i1 & L1 & E1); [cbn; auto|]. destruct (IX (px (r2 r))) as (i2 & L2 & E2); [cbn; auto|].
  destruct (IX (px (r1 o))) as (i3 & L3 & E3); [cbn; auto|]. destruct (IX (px (r2 o))) as (i4 & L4 & E4); [cbn; auto|].
  destruct (IY (py (r1 r))) as (j1 & M1 & F1); [cbn; auto|]. destruct (IY (py (r2 r))) as (j2 & M2 & F2); [cbn; auto|].
  destruct (IY (py (r1 o))) as (j3 & M3 & F3); [cbn; auto|]. destruct (IY (py (r2 o))) as (j4 & M4 & F4); [cbn; auto|].
  cbn [length] in *.
  assert (mono : forall Z a b, gaps d Z -> Z a < Z b -> (a <? b)%nat = true).
  { intros Z a b GZ L. rewrite <- (gaps_ltb d Z a b D GZ). now apply Rltb_spec. }
  exists X, Y, ((i1, j1), (i2, j2)), ((i3, j3), (i4, j4)).
  split; [auto|]. split; [auto|]. split; [unfold in4; cbn [fst snd]; lia|]. split; [unfold in4; cbn [fst snd]; lia|].
  split. { unfold iProper. cbn [fst snd]. rewrite (mono X i1 i2), (mono Y j1 j2); auto; lra. }
  split. { unfold iProper. cbn [fst snd]. rewrite (mono X i3 i4), (mono Y j3 j4); auto; lra. }
  unfold embR, emb. cbn [fst snd]. destruct r as [[a b] [c e]], o as [[a' b'] [c' e']]. cbn in *. now subst.
Qed.

Section OnGrid.
  Variables (d : R) (X Y : nat -> R).
  Hypothesis D : 0 < d.
  Hypothesis HX : gaps d X.
  Hypothesis HY : gaps d Y.

  Lemma gle Z a b : gaps d Z -> (Z a <= Z b <-> (a <= b)%nat).
  Proof.
    intros GZ. pose proof (gaps_ltb d Z b a D GZ) as E. split; intros H.
    - destruct (Nat.ltb_spec b a) as [L|L]; auto. apply Rltb_spec in E. lra.
    - apply Nat.ltb_ge in H. rewrite H in E. apply Rltb_false in E. lra.
  Qed.
  Lemma glt Z a b : gaps d Z -> (Z a < Z b <-> (a < b)%nat).
  Proof. intros GZ. pose proof (gle Z b a GZ). split; intros H1; [apply Nat.nle_gt|apply Rnot_le_lt]; intros H2; apply H in H2; [lra|lia]. Qed.

  Lemma gmax_le Z a b x : gaps d Z -> (Z (Nat.max a b) <= x <-> Z a <= x /\ Z b <= x).
  Proof.
    intros GZ. destruct (Nat.max_spec a b) as [[L ->]|[L ->]].
    - apply (glt Z _ _ GZ) in L. split; [intros; split; lra|tauto].
    - apply (gle Z _ _ GZ) in L. split; [intros; split; lra|tauto].
  Qed.
  Lemma gmin_le Z a b x : gaps d Z -> (x <= Z (Nat.min a b) <-> x <= Z a /\ x <= Z b).
  Proof.
    intros GZ. destruct (Nat.min_spec a b) as [[L ->]|[L ->]].
    - apply (glt Z _ _ GZ) in L. split; [intros; split; lra|tauto].
    - apply (gle Z _ _ GZ) in L. split; [intros; split; lra|tauto].
  Qed.
  Lemma gmax_lt Z a b x : gaps d Z -> (Z (Nat.max a b) < x <-> Z a < x /\ Z b < x).
  Proof.
    intros GZ. destruct (Nat.max_spec a b) as [[L ->]|[L ->]].
    - apply (glt Z _ _ GZ) in L. split; [intros; split; lra|tauto].
    - apply (gle Z _ _ GZ) in L. split; [intros; split; lra|tauto].
  Qed.
  Lemma gmin_lt Z a b x : gaps d Z -> (x < Z (Nat.min a b) <-> x < Z a /\ x < Z b).
  Proof.
    intros GZ. destruct (Nat.min_spec a b) as [[L ->]|[L ->]].
    - apply (glt Z _ _ GZ) in L. split; [intros; split; lra|tauto].
    - apply (gle Z _ _ GZ) in L. split; [intros; split; lra|tauto].
  Qed.

  Lemma common_in r o p : inR (embR X Y (iCommon r o)) p <-> inR (embR X Y r) p /\ inR (embR X Y o) p.
  Proof.
    unfold inR, embR, emb, iCommon. cbn [r1 r2 px py fst snd].
    rewrite !(gmax_le X), !(gmax_le Y), !(gmin_le X), !(gmin_le Y) by auto. tauto.
  Qed.
  Lemma common_inO r o p : inRO (embR X Y (iCommon r o)) p <-> inRO (embR X Y r) p /\ inRO (embR X Y o) p.
  Proof.
    unfold inRO, embR, emb, iCommon. cbn [r1 r2 px py fst snd].
    rewrite !(gmax_lt X), !(gmax_lt Y), !(gmin_lt X), !(gmin_lt Y) by auto. tauto.
  Qed.
  Lemma proper_wf r : iProper r = true <-> wfR (embR X Y r).
  Proof.
    unfold iProper, wfR, embR, emb. cbn [r1 r2 px py fst snd]. rewrite andb_true_iff, !Nat.ltb_lt.
    now rewrite (glt X), (glt Y).
  Qed.
  Lemma overlap_proper r o : iOverlap r o = iProper (iCommon r o).
  Proof. reflexivity. Qed.
  Lemma wf_mid r : wfR r -> inRO r (mkPt ((px (r1 r) + px (r2 r)) / 2) ((py (r1 r) + py (r2 r)) / 2)).
  Proof. unfold wfR, inRO. cbn [px py]. lra. Qed.
  Lemma inRO_wf r p : inRO r p -> wfR r.
  Proof. unfold wfR, inRO. lra. Qed.
  Lemma overlap_spec r o : iOverlap r o = true <-> overlap (embR X Y r) (embR X Y o).
  Proof.
    rewrite overlap_proper, proper_wf. split.
    - intros W. eexists. apply common_inO. now apply wf_mid.
    - intros [p H]. apply common_inO in H. eapply inRO_wf; eauto.
  Qed.
End OnGrid.

Lemma iCommon_sym r o : iCommon r o = iCommon o r.
Proof. unfold iCommon. f_equal; f_equal; auto using Nat.max_comm, Nat.min_comm. Qed.
Lemma iOverlap_sym r o : iOverlap r o = iOverlap o r.
Proof. now rewrite !overlap_proper, iCommon_sym. Qed.

Lemma intersectArea_spec th r o : thr_rect th -> wfR r -> wfR o -> sepR (nullDistance th) r o ->
  exists x, intersectArea th r o = Ok x /\ intersectArea th o r = Ok x /\
    match x with
    | Some z => wfR z /\ (forall p, inR z p <-> inR r p /\ inR o p) /\ (forall p, inRO z p <-> inRO r p /\ inRO o p)
    | None => ~ overlap r o
    end.
Proof.
  intros Ht Wr Wo S. assert (D : 0 < nullDistance th) by apply (proj1 Ht).
  destruct (on_grid _ r o D Wr Wo S) as (X & Y & a & b & GX & GY & Ia & Ib & Pa & Pb & -> & ->).
  exists (option_map (embR X Y) (if iOverlap a b then Some (iCommon a b) else None)).
  rewrite !emb_intersect, !iIntersect_spec by auto. rewrite (iOverlap_sym b a), (iCommon_sym b a).
  split; [reflexivity|]. split; [reflexivity|].
  destruct (iOverlap a b) eqn:O; cbn [option_map].
  - split; [|split; intros p].
    + eapply proper_wf; eauto.
    + eapply common_in; eauto.
    + eapply common_inO; eauto.
  - intros H. apply (overlap_spec _ X Y D GX GY) in H. congruence.
Qed.

(** A region determines a rectangle. *)
Lemma inR_eq r o : wfR r -> wfR o -> (forall p, inR r p <-> inR o p) -> r = o.
Proof.
  intros [A B] [C E] H.
  pose proof (proj1 (H (r1 r))) as H1. pose proof (proj1 (H (r2 r))) as H2.
  pose proof (proj2 (H (r1 o))) as H3. pose proof (proj2 (H (r2 o))) as H4. unfold inR in *.
  destruct r as [[a b] [c e]], o as [[a' b'] [c' e']]. cbn in *.
  assert (a = a') by lra. assert (b = b') by lra. assert (c = c') by lra. assert (e = e') by lra. now subst.
Qed.
Lemma intersect_area r o z : (forall p, inR z p <-> inR r p /\ inR o p) -> wfR z ->
  areaR z = (Rmin (px (r2 r)) (px (r2 o)) - Rmax (px (r1 r)) (px (r1 o))) *
            (Rmin (py (r2 r)) (py (r2 o)) - Rmax (py (r1 r)) (py (r1 o))).
Proof.
  intros H W.
  set (x := mkR (mkPt (Rmax (px (r1 r)) (px (r1 o))) (Rmax (py (r1 r)) (py (r1 o))))
                (mkPt (Rmin (px (r2 r)) (px (r2 o))) (Rmin (py (r2 r)) (py (r2 o))))).
  assert (forall p, inR x p <-> inR z p) as Q.
  { intros p. rewrite H. unfold inR, x. cbn [r1 r2 px py].
    pose proof (Rmax_l (px (r1 r)) (px (r1 o))). pose proof (Rmax_r (px (r1 r)) (px (r1 o))).
    pose proof (Rmax_l (py (r1 r)) (py (r1 o))). pose proof (Rmax_r (py (r1 r)) (py (r1 o))).
    pose proof (Rmin_l (px (r2 r)) (px (r2 o))). pose proof (Rmin_r (px (r2 r)) (px (r2 o))).
    pose proof (Rmin_l (py (r2 r)) (py (r2 o))). pose proof (Rmin_r (py (r2 r)) (py (r2 o))).
    split; [intros; lra|]. intros [P1 P2]. repeat split; try (apply Rmax_lub); try (apply Rmin_glb); lra. }
  assert (wfR x) as Wx.
  { assert (inR x (mkPt (px (r1 z)) (py (r1 z)))) by (apply Q; unfold inR, wfR in *; cbn; lra).
    assert (inR x (mkPt (px (r2 z)) (py (r2 z)))) by (apply Q; unfold inR, wfR in *; cbn; lra).
    unfold inR, wfR in *. cbn [px py] in *. lra. }
  rewrite <- (inR_eq x z Wx W Q). unfold areaR, x. cbn [r1 r2 px py]. reflexivity.
Qed.

(** ** Union *)

Lemma fold_left_opp_ext {A} (f g : R -> A -> R) (l : list A) : (forall s x, In x l -> f s x = g s x) ->
  forall s, fold_left f l s = fold_left g l s.
Proof.
  induction l as [|x l IH]; intros H s; [reflexivity|]. cbn [fold_left]. rewrite H by (now left). apply IH.
  intros; apply H; now right.
Qed.

Lemma fold_bev X Y (f : nat -> bform) l s : fold_left (fun s i => s + bev X Y (f i)) l s = s + bev X Y (flat_map f l).
Proof.
  revert s. induction l as [|i l IH]; intros s; [cbn; ring|]. cbn [fold_left flat_map]. rewrite IH, bev_app. ring.
Qed.
Lemma signedArea_emb X Y pts : signedArea (map (emb X Y) pts) = bev X Y (bPoly pts) / 2.
Proof.
  unfold signedArea. rewrite map_length. rnum. f_equal. unfold bPoly.
  match goal with |- _ = bev X Y (flat_map ?f _) => rewrite (fold_left_opp_ext _ (fun s i => s + bev X Y (f i))) end.
  - rewrite fold_bev. ring.
  - intros s i I. apply in_seq in I. rewrite !nth_emb by (try apply nextIdx_lt; lia). cbv zeta. cbn [bev].
    unfold emb. cbn [px py]. ring.
Qed.

Lemma bRect_ev X Y k r : bev X Y (bRect k r) = IZR k * areaR (embR X Y r).
Proof.
  destruct r as [[a b] [c e]]. unfold areaR, embR, emb. cbn [bRect bev r1 r2 px py fst snd]. rewrite !opp_IZR. ring.
Qed.
Lemma bUnion_ev X Y k r o : iOverlap r o = true ->
  bev X Y (bUnion k r o) = 2 * IZR k * (areaR (embR X Y r) + areaR (embR X Y o) - areaR (embR X Y (iCommon r o))).
Proof. intros O. unfold bUnion. rewrite O, !bev_app, !bRect_ev, !mult_IZR. ring. Qed.

(** Number of grid values not above [x]. *)
Fixpoint countLe (Z : nat -> R) (x : R) (n : nat) : nat :=
  match n with O => 0 | S k => if Rle_dec (Z k) x then S k else countLe Z x k end.
Lemma countLe_le Z x n : (countLe Z x n <= n)%nat.
Proof. induction n; cbn; [lia|]. destruct (Rle_dec _ _); lia. Qed.
Lemma countLe_spec d Z x n k : 0 < d -> gaps d Z -> (k < n)%nat -> (Z k <= x <-> (k < countLe Z x n)%nat).
Proof.
  intros D G. induction n as [|n IH]; [lia|]. intros L. cbn [countLe]. destruct (Rle_dec (Z n) x) as [A|A].
  - split; [lia|]. intros _. assert (k <= n)%nat as L' by lia. apply (proj2 (gle d D Z k n G)) in L'. lra.
  - destruct (Nat.eq_dec k n) as [->|N].
    + split; [tauto|]. pose proof (countLe_le Z x n). lia.
    + apply IH. lia.
Qed.

Lemma cyc_map {A B} (f : A -> B) l : cyc (map f l) = map (fun e => (f (fst e), f (snd e))) (cyc l).
Proof.
  destruct l as [|a r]; [reflexivity|]. cbn [map cyc].
  replace (map f r ++ [f a]) with (map f (r ++ [a])) by (now rewrite map_app).
  change (f a :: map f r) with (map f (a :: r)).
  generalize (a :: r) (r ++ [a]). clear. intros l. induction l as [|x l IH]; intros [|y m]; cbn; auto. now rewrite IH.
Qed.
Lemma cyc_in {A} (l : list A) e : In e (cyc l) -> In (fst e) l /\ In (snd e) l.
Proof.
  destruct l as [|a r]; [easy|]. cbn [cyc]. destruct e as [x y]. intros H. split.
  - now apply in_combine_l in H.
  - apply in_combine_r in H. apply in_app_or in H. cbn in *. intuition.
Qed.

Section Cells.
  Variables (d : R) (X Y : nat -> R).
  Hypothesis D : 0 < d.
  Hypothesis HX : gaps d X.
  Hypothesis HY : gaps d Y.
  Definition cellOf (q : pt R) : nat * nat := (countLe X (px q) 4, countLe Y (py q) 4).

  Lemma cell_lt (Z : nat -> R) x k : gaps d Z -> (k < 4)%nat ->
    (if Rlt_dec x (Z k) then true else false) = (countLe Z x 4 <=? k)%nat.
  Proof.
    intros G L. pose proof (countLe_spec d Z x 4 k D G L) as S.
    destruct (Rlt_dec x (Z k)), (Nat.leb_spec (countLe Z x 4) k); auto.
    - apply S in H. lra.
    - assert (Z k <= x) by lra. apply S in H0. lia.
  Qed.
  Lemma rayCross_emb q a b : ((fst a =? fst b) || (snd a =? snd b))%nat = true ->
    (fst a < 4)%nat -> (snd a < 4)%nat -> (snd b < 4)%nat ->
    rayCross q (emb X Y a, emb X Y b) = iCross (cellOf q) (a, b).
  Proof.
    intros A L1 L2 L3. unfold rayCross, iCross, emb, cellOf. cbn [px py fst snd].
    rewrite !(cell_lt Y) by auto. apply orb_prop in A. destruct A as [A|A]; apply Nat.eqb_eq in A; rewrite <- A.
    - replace (X (fst a) + _) with (X (fst a)) by (unfold Rdiv; ring). now rewrite (cell_lt X).
    - now rewrite xorb_nilpotent.
  Qed.
  Lemma evenOdd_emb q pts : axisPairs pts = true -> pts4 pts = true ->
    evenOdd (map (emb X Y) pts) q = iEvenOdd pts (cellOf q).
  Proof.
    intros A P. unfold evenOdd, iEvenOdd. rewrite cyc_map.
    unfold axisPairs in A. unfold pts4 in P. rewrite forallb_forall in A, P.
    assert (forall l b, (forall e, In e l -> In e (cyc pts)) ->
      fold_left (fun b e => xorb b (rayCross q e)) (map (fun e => (emb X Y (fst e), emb X Y (snd e))) l) b =
      fold_left (fun b e => xorb b (iCross (cellOf q) e)) l b) as G.
    { induction l as [|e l IH]; intros b H; [reflexivity|]. cbn [map fold_left].
      assert (In e (cyc pts)) as I by (apply H; now left). specialize (A e I). apply cyc_in in I. destruct I as [I1 I2].
      apply P in I1, I2. rewrite andb_true_iff, !Nat.ltb_lt in I1, I2.
      rewrite rayCross_emb by tauto. rewrite <- surjective_pairing. apply IH. intros; apply H; now right. }
    apply G. auto.
  Qed.
  Lemma cell_in r q : in4 r -> (iCell r (cellOf q) = true <-> inRH (embR X Y r) q).
  Proof.
    intros (A & B & C & E). unfold iCell, cellOf, inRH, embR, emb. cbn [r1 r2 px py fst snd].
    rewrite !andb_true_iff, !Nat.ltb_lt. rewrite <- !(cell_lt X), <- !(cell_lt Y) by auto.
    rewrite <- (countLe_spec d X), <- (countLe_spec d Y) by auto.
    destruct (Rlt_dec (px q) _), (Rlt_dec (py q) _); intuition; discriminate.
  Qed.
  Lemma cell_cells q : In (cellOf q) cells.
  Proof.
    unfold cellOf, cells. apply in_flat_map. exists (countLe X (px q) 4). split.
    - pose proof (countLe_le X (px q) 4). cbn [In]. lia.
    - apply in_map_iff. exists (countLe Y (py q) 4). split; auto. pose proof (countLe_le Y (py q) 4). cbn [In]. lia.
  Qed.
End Cells.

Lemma areaR_mono z r : wfR z -> wfR r -> (forall p, inR z p -> inR r p) -> 0 < areaR z <= areaR r.
Proof.
  intros [A B] [C E] H. pose proof (H (r1 z)) as H1. pose proof (H (r2 z)) as H2. unfold inR, areaR in *.
  assert (0 < px (r2 z) - px (r1 z) <= px (r2 r) - px (r1 r)) as [P1 P2] by lra.
  assert (0 < py (r2 z) - py (r1 z) <= py (r2 r) - py (r1 r)) as [Q1 Q2] by lra.
  split; [now apply Rmult_lt_0_compat|]. apply Rmult_le_compat; lra.
Qed.

Lemma plAreaOf_fresh th pts b : (3 <= length pts)%nat -> simpleCalc th pts = Ok b ->
  exists pl, plAreaOf th true (plFresh pts) = Ok (if b then Rabs (signedArea pts) else 0, pl).
Proof.
  intros L S. unfold plAreaOf, plIsSimple. cbn [plPts plFresh plSimple plNorm plLen plArea plCent].
  replace (length pts <? 3)%nat with false by (symmetry; apply Nat.ltb_ge; lia). rewrite S. cbn [negb bind].
  destruct b; cbn [negb]; cbn [plArea plPts]; eauto.
Qed.

Lemma unionArea_spec th r o : thr_rect th -> wfR r -> wfR o -> sepR (nullDistance th) r o -> overlap r o ->
  exists u z pl, unionArea th r o = Ok u /\ intersectArea th r o = Ok (Some z) /\
    plAreaOf th true u = Ok (areaR r + areaR o - areaR z, pl) /\
    (forall q, evenOdd (plPts u) q = true <-> inRH r q \/ inRH o q).
Proof.
  intros Ht Wr Wo S Ov. assert (D : 0 < nullDistance th) by apply (proj1 Ht).
  destruct (intersectArea_spec th r o Ht Wr Wo S) as (x & I1 & I2 & I3).
  destruct x as [z|]; [|tauto]. destruct I3 as (Wz & Iz & _).
  destruct (on_grid _ r o D Wr Wo S) as (X & Y & a & b & GX & GY & Ia & Ib & Pa & Pb & -> & ->).
  assert (iOverlap a b = true) as O by (now apply (overlap_spec _ X Y D GX GY)).
  assert (z = embR X Y (iCommon a b)) as ->.
  { rewrite emb_intersect, iIntersect_spec, O in I1 by auto. unfold resMap in I1. cbn [bind option_map] in I1.
    apply Ok_inj in I1. congruence. }
  pose proof (allR_pairs _ unionCheck_all a b Ia Ib Pa Pb) as U. unfold unionCheck in U. rewrite O in U.
  destruct (iUnion a b) as [[l| |]|] eqn:EU; try discriminate.
  rewrite !andb_true_iff in U. destruct U as [[[[[U1 U2] U3] U4] U5] U6].
  destruct (iSimple l) as [[|]| |] eqn:ES; try discriminate.
  apply Nat.leb_le in U1.
  pose proof (emb_union th X Y Ht GX GY a b _ Pa Pb EU) as EQ. unfold resMap in EQ. cbn [bind] in EQ.
  destruct (plAreaOf_fresh th (map (emb X Y) l) true) as (pl & AR).
  { now rewrite map_length. } { apply emb_simple; auto. lia. }
  exists (plFresh (map (emb X Y) l)), (embR X Y (iCommon a b)), pl.
  split; [auto|]. split; [auto|]. split.
  - rewrite AR. do 2 f_equal. rewrite signedArea_emb.
    pose proof (areaR_mono _ _ Wz Wr (fun p h => proj1 (proj1 (Iz p) h))) as M1.
    pose proof (areaR_mono _ _ Wo Wo (fun p h => h)) as M2.
    apply orb_prop in U3. destruct U3 as [U3|U3]; apply (bEq_spec X Y) in U3; rewrite U3, bUnion_ev by auto.
    + rewrite Rabs_right; lra.
    + rewrite Rabs_left1; lra.
  - intros q. cbn [plPts plFresh]. rewrite (evenOdd_emb _ X Y D GX GY) by auto.
    rewrite forallb_forall in U6. specialize (U6 _ (cell_cells X Y q)). apply eqb_prop in U6. rewrite U6.
    rewrite orb_true_iff, (cell_in _ X Y D GX GY), (cell_in _ X Y D GX GY) by auto. reflexivity.
Qed.
