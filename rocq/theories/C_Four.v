(** * C153, C154: homography from four pairs of points *)

From Coq Require Import Reals Lra Psatz List Bool Arith Lia.
From Verif Require Import Num M_LP M_Homogr M_Four S_Geom S_Homogr S_Four P_Four.
Import ListNotations.
Local Open Scope R_scope.

Definition matOf (x : list R) (k : R) : mat R :=
  mkM (nth 0 x 0) (nth 1 x 0) (nth 2 x 0) (nth 3 x 0) (nth 4 x 0) (nth 5 x 0) (nth 6 x 0) (nth 7 x 0) k.
Definition listOf (m : mat R) : list R := [m00 m; m01 m; m02 m; m10 m; m11 m; m12 m; m20 m; m21 m].
Lemma eight (x : list R) : length x = 8%nat -> exists a b c d e f g h, x = [a; b; c; d; e; f; g; h].
Proof.
  destruct x as [|a [|b [|c [|d [|e [|f [|g [|h [|? ?]]]]]]]]]; cbn; intros L; try discriminate. now exists a, b, c, d, e, f, g, h.
Qed.
(** The two equations of a pair of points. *)
Lemma dots p q x : length x = 8%nat ->
  dot (fst (nth 0 (rowsOf p q) ([], 0))) x = aX (matOf x 0) p - px q * aW (matOf x 0) p /\
  dot (fst (nth 1 (rowsOf p q) ([], 0))) x = aY (matOf x 0) p - py q * aW (matOf x 0) p.
Proof.
  intros L. destruct (eight x L) as (a & b & c & d & e & f & g & h & ->). cbn. unfold aX, aY, aW. cbn. rnum. split; ring.
Qed.
Lemma sat_pair p q x : length x = 8%nat -> (forall r, In r (rowsOf p q) -> sat r x) <-> aX (matOf x 1) p = px q * aW (matOf x 1) p /\ aY (matOf x 1) p = py q * aW (matOf x 1) p.
Proof.
  intros L. destruct (dots p q x L) as [A B]. unfold sat.
  assert (EX : aX (matOf x 1) p = aX (matOf x 0) p /\ aY (matOf x 1) p = aY (matOf x 0) p /\ aW (matOf x 1) p = aW (matOf x 0) p + 1) by (unfold aX, aY, aW, matOf; cbn; repeat split; ring).
  destruct EX as (-> & -> & ->). split.
  - intros H. pose proof (H _ (or_introl eq_refl)) as H1. pose proof (H _ (or_intror (or_introl eq_refl))) as H2. cbn [rowsOf nth fst snd] in *. rewrite A in H1. rewrite B in H2. lra.
  - intros [H1 H2] r [<-|[<-|[]]]; cbn [rowsOf nth fst snd] in *; [rewrite A|rewrite B]; lra.
Qed.
Lemma ker_pair p q z : length z = 8%nat -> (forall r, In r (rowsOf p q) -> dot (fst r) z = 0) <-> aX (matOf z 0) p = px q * aW (matOf z 0) p /\ aY (matOf z 0) p = py q * aW (matOf z 0) p.
Proof.
  intros L. destruct (dots p q z L) as [A B]. split.
  - intros H. pose proof (H _ (or_introl eq_refl)) as H1. pose proof (H _ (or_intror (or_introl eq_refl))) as H2. cbn [rowsOf nth fst snd] in *. rewrite A in H1. rewrite B in H2. lra.
  - intros [H1 H2] r [<-|[<-|[]]]; cbn [rowsOf nth fst snd] in *; [rewrite A|rewrite B]; lra.
Qed.
Lemma in_system p1 p2 p3 p4 q1 q2 q3 q4 (P : @row R -> Prop) : (forall r, In r (system [p1; p2; p3; p4] [q1; q2; q3; q4]) -> P r) <->
  (forall r, In r (rowsOf p1 q1) -> P r) /\ (forall r, In r (rowsOf p2 q2) -> P r) /\ (forall r, In r (rowsOf p3 q3) -> P r) /\ (forall r, In r (rowsOf p4 q4) -> P r).
Proof.
  unfold system. cbn [combine flat_map fst snd]. rewrite app_nil_r. split.
  - intros H. repeat split; intros r I; apply H; rewrite !in_app_iff; auto.
  - intros (A & B & C & D) r I. rewrite !in_app_iff in I. intuition.
Qed.
Lemma system_len p1 p2 p3 p4 q1 q2 q3 q4 : length (system [p1; p2; p3; p4] [q1; q2; q3; q4]) = 8%nat.
Proof. reflexivity. Qed.
Lemma system_width p1 p2 p3 p4 q1 q2 q3 q4 r : In r (system [p1; p2; p3; p4] [q1; q2; q3; q4]) -> length (fst r) = 8%nat.
Proof. revert r. apply in_system. repeat split; intros r [<-|[<-|[]]]; reflexivity. Qed.
Lemma set_matOf x : length x = 8%nat -> exists o, (do o <- setAll 0 x (@hNew R _); hSet o 2 2 (@nZ R _ 1)) = Ok o /\ hm o = matOf x 1.
Proof.
  intros L. destruct (eight x L) as (a & b & c & d & e & f & g & h & ->). generalize (@hNew R _). intros o.
  exists (mkHobj (mkM a b c d e f g h 1) (isNorm o) (hasChanged o) (hmt o)). split; [|reflexivity].
  destruct o as [[v0 v1 v2 v3 v4 v5 v6 v7 v8] n ch t].
  assert (H : setAll 0 [a; b; c; d; e; f; g; h] (mkHobj (mkM v0 v1 v2 v3 v4 v5 v6 v7 v8) n ch t) = Ok (mkHobj (mkM a b c d e f g h v8) n ch t)).
  { vm_compute. reflexivity. }
  rewrite H. reflexivity.
Qed.
Lemma four_ok o p1 p2 p3 p4 q1 q2 q3 q4 x : solve 8 (system [p1; p2; p3; p4] [q1; q2; q3; q4]) = Some x -> length x = 8%nat ->
  exists o', fourPoints o [p1; p2; p3; p4] [q1; q2; q3; q4] = Ok o' /\ hm o' = matOf x 1.
Proof.
  intros E L. destruct (set_matOf x L) as (h & H1 & H2). unfold fourPoints, fourEigen. rewrite E. cbn [length Nat.eqb negb]. rewrite H1. cbn [bind]. eexists. split; [reflexivity|]. exact H2.
Qed.
Lemma four_inv o p1 p2 p3 p4 q1 q2 q3 q4 o' : fourPoints o [p1; p2; p3; p4] [q1; q2; q3; q4] = Ok o' ->
  exists x, solve 8 (system [p1; p2; p3; p4] [q1; q2; q3; q4]) = Some x /\ length x = 8%nat /\ hm o' = matOf x 1.
Proof.
  intros E. destruct (solve 8 (system [p1; p2; p3; p4] [q1; q2; q3; q4])) as [x|] eqn:S.
  - destruct (solve_sound 8 _ x (system_len _ _ _ _ _ _ _ _) (system_width _ _ _ _ _ _ _ _) S) as [L _]. destruct (four_ok o _ _ _ _ _ _ _ _ x S L) as (o2 & E2 & H2).
    rewrite E in E2. apply Ok_inj in E2. subst o2. exists x. auto.
  - unfold fourPoints, fourEigen in E. rewrite S in E. discriminate.
Qed.
(** Images, without division. *)
Lemma image_iff m p q : isImage m p q <-> aW m p <> 0 /\ aX m p = px q * aW m p /\ aY m p = py q * aW m p.
Proof.
  unfold isImage, aX, aY, aW. cbv zeta. split; intros (A & B & C); split; auto; rewrite B, C || rewrite B, C.
  - split; field; auto.
  - split; field; auto.
Qed.
Lemma same_of K G p q : isImage G p q -> aX K p = px q * aW K p -> aY K p = py q * aW K p -> same4 K G (aW K p / aW G p) p.
Proof.
  intros I A B. apply image_iff in I. destruct I as (W & X & Y). unfold same4. rewrite A, B, X, Y. repeat split; field; auto.
Qed.

(** ** Specification-level facts *)
(** A non null matrix which multiplies four points in general position into multiples of four others in
    general position, multiplies none by zero. *)
Lemma weights K p1 p2 p3 p4 q1 q2 q3 q4 : general p1 p2 p3 p4 -> general q1 q2 q3 q4 -> m22 K <> 0 ->
  (forall p q, In (p, q) [(p1, q1); (p2, q2); (p3, q3); (p4, q4)] -> aX K p = px q * aW K p /\ aY K p = py q * aW K p) ->
  aW K p1 <> 0 /\ aW K p2 <> 0 /\ aW K p3 <> 0 /\ aW K p4 <> 0.
Proof.
  intros (P1 & P2 & P3 & P4) (Q1 & Q2 & Q3 & Q4) K22 H.
  destruct (H p1 q1) as [X1 Y1]; [cbn; auto|]. destruct (H p2 q2) as [X2 Y2]; [cbn; auto|]. destruct (H p3 q3) as [X3 Y3]; [cbn; auto|]. destruct (H p4 q4) as [X4 Y4]; [cbn; auto|]. clear H.
  set (w1 := aW K p1) in *. set (w2 := aW K p2) in *. set (w3 := aW K p3) in *. set (w4 := aW K p4) in *.
  set (d1 := cross3 p2 p3 p4) in *. set (d2 := cross3 p1 p3 p4) in *. set (d3 := cross3 p1 p2 p4) in *. set (d4 := cross3 p1 p2 p3) in *.
  assert (RW : d1 * w1 - d2 * w2 + d3 * w3 - d4 * w4 = 0) by (unfold d1, d2, d3, d4, w1, w2, w3, w4, aW, cross3; ring).
  assert (RX : d1 * (px q1 * w1) - d2 * (px q2 * w2) + d3 * (px q3 * w3) - d4 * (px q4 * w4) = 0) by (rewrite <- X1, <- X2, <- X3, <- X4; unfold d1, d2, d3, d4, aX, cross3; ring).
  assert (RY : d1 * (py q1 * w1) - d2 * (py q2 * w2) + d3 * (py q3 * w3) - d4 * (py q4 * w4) = 0) by (rewrite <- Y1, <- Y2, <- Y3, <- Y4; unfold d1, d2, d3, d4, aY, cross3; ring).
  (* the four weights are proportional to the cross products of the images *)
  assert (NZ : ~ (w1 = 0 /\ w2 = 0 /\ w3 = 0)).
  { intros (Z1 & Z2 & Z3). destruct (ker_row p1 p2 p3 (m20 K) (m21 K) (m22 K)) as (_ & _ & ?); auto. }
  set (e1 := cross3 q2 q3 q4) in *. set (e2 := cross3 q1 q3 q4) in *. set (e3 := cross3 q1 q2 q4) in *. set (e4 := cross3 q1 q2 q3) in *.
  set (u1 := d1 * w1) in *. set (u2 := - d2 * w2). set (u3 := d3 * w3) in *. set (u4 := - d4 * w4).
  assert (SW : u1 + u2 + u3 + u4 = 0) by (unfold u2, u4; lra).
  assert (SX : px q1 * u1 + px q2 * u2 + px q3 * u3 + px q4 * u4 = 0) by (unfold u1, u2, u3, u4; lra).
  assert (SY : py q1 * u1 + py q2 * u2 + py q3 * u3 + py q4 * u4 = 0) by (unfold u1, u2, u3, u4; lra).
  assert (D14 : u1 * e4 = - u4 * e1).
  { enough (u1 * e4 + u4 * e1 = 0) by lra.
    replace (u1 * e4 + u4 * e1) with ((u1 + u2 + u3 + u4) * (px q2 * py q3 - py q2 * px q3) + (px q1 * u1 + px q2 * u2 + px q3 * u3 + px q4 * u4) * (py q2 - py q3) + (py q1 * u1 + py q2 * u2 + py q3 * u3 + py q4 * u4) * (px q3 - px q2)) by (unfold e4, e1, cross3; ring).
    rewrite SW, SX, SY. ring. }
  assert (D24 : u2 * e4 = u4 * e2).
  { enough (u2 * e4 - u4 * e2 = 0) by lra.
    replace (u2 * e4 - u4 * e2) with ((u1 + u2 + u3 + u4) * (px q3 * py q1 - py q3 * px q1) + (px q1 * u1 + px q2 * u2 + px q3 * u3 + px q4 * u4) * (py q3 - py q1) + (py q1 * u1 + py q2 * u2 + py q3 * u3 + py q4 * u4) * (px q1 - px q3)) by (unfold e4, e2, cross3; ring).
    rewrite SW, SX, SY. ring. }
  assert (D34 : u3 * e4 = - u4 * e3).
  { enough (u3 * e4 + u4 * e3 = 0) by lra.
    replace (u3 * e4 + u4 * e3) with ((u1 + u2 + u3 + u4) * (px q1 * py q2 - py q1 * px q2) + (px q1 * u1 + px q2 * u2 + px q3 * u3 + px q4 * u4) * (py q1 - py q2) + (py q1 * u1 + py q2 * u2 + py q3 * u3 + py q4 * u4) * (px q2 - px q1)) by (unfold e4, e3, cross3; ring).
    rewrite SW, SX, SY. ring. }
  assert (U4 : u4 <> 0).
  { intros Z. rewrite Z in D14, D24, D34. apply NZ.
    assert (Z1 : u1 = 0) by (apply (zero_of e4); auto; lra). assert (Z2 : u2 = 0) by (apply (zero_of e4); auto; lra). assert (Z3 : u3 = 0) by (apply (zero_of e4); auto; lra).
    repeat split; [apply (zero_of d1)|apply (zero_of d2)|apply (zero_of d3)]; auto; unfold u1, u2, u3 in *; lra. }
  assert (MZ : forall a b, a <> 0 -> b <> 0 -> a * b <> 0) by (intros; apply Rmult_integral_contrapositive; auto).
  repeat split; intros Z.
  - apply (MZ u4 e1 U4 Q4). replace (u4 * e1) with (- (u1 * e4)) by lra. unfold u1. rewrite Z. ring.
  - apply (MZ u4 e2 U4 Q3). rewrite <- D24. unfold u2. rewrite Z. ring.
  - apply (MZ u4 e3 U4 Q2). replace (u4 * e3) with (- (u3 * e4)) by lra. unfold u3. rewrite Z. ring.
  - apply U4. unfold u4. rewrite Z. ring.
Qed.

(** ** C153 *)
(** The matrix that is returned sends each source point to its destination. *)
Theorem C153_maps o p1 p2 p3 p4 q1 q2 q3 q4 o' : general p1 p2 p3 p4 -> general q1 q2 q3 q4 ->
  fourPoints o [p1; p2; p3; p4] [q1; q2; q3; q4] = Ok o' ->
  isImage (hm o') p1 q1 /\ isImage (hm o') p2 q2 /\ isImage (hm o') p3 q3 /\ isImage (hm o') p4 q4 /\ m22 (hm o') = 1.
Proof.
  intros GP GQ E. destruct (four_inv _ _ _ _ _ _ _ _ _ _ E) as (x & S & L & ->).
  destruct (solve_sound 8 _ x (system_len _ _ _ _ _ _ _ _) (system_width _ _ _ _ _ _ _ _) S) as [_ A].
  apply (in_system p1 p2 p3 p4 q1 q2 q3 q4 (fun r => sat r x)) in A. destruct A as (A1 & A2 & A3 & A4).
  apply (sat_pair _ _ _ L) in A1, A2, A3, A4.
  destruct (weights (matOf x 1) p1 p2 p3 p4 q1 q2 q3 q4 GP GQ) as (W1 & W2 & W3 & W4); [cbn; lra| |].
  { intros p q [I|[I|[I|[I|[]]]]]; injection I as <- <-; auto. }
  rewrite !image_iff. repeat split; tauto.
Qed.
Lemma mat_eq (a b c d e f g h i a' b' c' d' e' f' g' h' i' : R) : a = a' -> b = b' -> c = c' -> d = d' -> e = e' -> f = f' -> g = g' -> h = h' -> i = i' ->
  mkM a b c d e f g h i = mkM a' b' c' d' e' f' g' h' i'.
Proof. intros. subst. reflexivity. Qed.
(** If some invertible matrix sends the source points to the destination points, and does not send the
    origin to infinity, it is returned, divided by its last element. *)
Theorem C153_recovers o G p1 p2 p3 p4 q1 q2 q3 q4 : general p1 p2 p3 p4 -> det3 G <> 0 -> m22 G <> 0 ->
  isImage G p1 q1 -> isImage G p2 q2 -> isImage G p3 q3 -> isImage G p4 q4 ->
  exists o', fourPoints o [p1; p2; p3; p4] [q1; q2; q3; q4] = Ok o' /\ hm o' = matMap (fun v => v / m22 G) G.
Proof.
  intros GP D G22 I1 I2 I3 I4. set (rows := system [p1; p2; p3; p4] [q1; q2; q3; q4]).
  assert (REG : regular 8 rows).
  { intros z Lz Hz. apply (in_system p1 p2 p3 p4 q1 q2 q3 q4 (fun r => dot (fst r) z = 0)) in Hz. destruct Hz as (H1 & H2 & H3 & H4).
    apply (ker_pair _ _ _ Lz) in H1, H2, H3, H4.
    pose proof (multiple (matOf z 0) G p1 p2 p3 p4 _ _ _ _ D GP (same_of _ _ _ _ I1 (proj1 H1) (proj2 H1)) (same_of _ _ _ _ I2 (proj1 H2) (proj2 H2)) (same_of _ _ _ _ I3 (proj1 H3) (proj2 H3)) (same_of _ _ _ _ I4 (proj1 H4) (proj2 H4))) as M.
    set (l := aW (matOf z 0) p4 / aW G p4) in *. clearbody l. destruct (eight z Lz) as (a & b & c & d & e & f & g & h & ->). cbn in M. destruct M as (A & B & C & A' & B' & C' & A2 & B2 & C2).
    assert (l = 0) by (apply (zero_of (m22 G)); auto; lra). subst l. cbn. rewrite A, B, C, A', B', C', A2, B2. rewrite !Rmult_0_l. reflexivity. }
  destruct (solve_total 8 rows (system_len _ _ _ _ _ _ _ _) (system_width _ _ _ _ _ _ _ _) REG) as (x & S).
  destruct (solve_sound 8 rows x (system_len _ _ _ _ _ _ _ _) (system_width _ _ _ _ _ _ _ _) S) as [L A].
  destruct (four_ok o p1 p2 p3 p4 q1 q2 q3 q4 x S L) as (o' & E & H). exists o'. split; [exact E|]. rewrite H.
  apply (in_system p1 p2 p3 p4 q1 q2 q3 q4 (fun r => sat r x)) in A. destruct A as (A1 & A2 & A3 & A4).
  apply (sat_pair _ _ _ L) in A1, A2, A3, A4.
  pose proof (multiple (matOf x 1) G p1 p2 p3 p4 _ _ _ _ D GP (same_of _ _ _ _ I1 (proj1 A1) (proj2 A1)) (same_of _ _ _ _ I2 (proj1 A2) (proj2 A2)) (same_of _ _ _ _ I3 (proj1 A3) (proj2 A3)) (same_of _ _ _ _ I4 (proj1 A4) (proj2 A4))) as M.
  set (l := aW (matOf x 1) p4 / aW G p4) in *. clearbody l. destruct (eight x L) as (a & b & c & d & e & f & g & h & ->). cbn in M. destruct M as (M0 & M1 & M2 & M3 & M4 & M5 & M6 & M7 & M8).
  assert (l = / m22 G) as ->. { apply (Rmult_eq_reg_r (m22 G)); auto. rewrite <- M8. field; auto. }
  unfold matOf, matMap. cbn [nth]. apply mat_eq; rewrite ?M0, ?M1, ?M2, ?M3, ?M4, ?M5, ?M6, ?M7; field; auto.
Qed.
(** The lists must have four elements. *)
Theorem C153_sizes (o : hobj R) src dst : length src <> 4%nat \/ length dst <> 4%nat -> fourPoints o src dst = Throw.
Proof.
  intros H. unfold fourPoints. destruct (length src =? 4)%nat eqn:A; cbn [negb]; [|reflexivity]. destruct (length dst =? 4)%nat eqn:B; cbn [negb]; [|reflexivity].
  apply Nat.eqb_eq in A, B. tauto.
Qed.
(** A projective transformation recovered from the corners of the unit square. *)
Example C153_ex o : exists o', fourPoints o [mkPt 0 0; mkPt 1 0; mkPt 1 1; mkPt 0 1] [mkPt 0 0; mkPt (2/3) 0; mkPt (2/3) (1/3); mkPt 0 (1/2)] = Ok o' /\
  hm o' = mkM 1 0 0 0 (1/2) 0 (1/2) 0 1.
Proof.
  destruct (C153_recovers o (mkM 2 0 0 0 1 0 1 0 2) (mkPt 0 0) (mkPt 1 0) (mkPt 1 1) (mkPt 0 1) (mkPt 0 0) (mkPt (2/3) 0) (mkPt (2/3) (1/3)) (mkPt 0 (1/2))) as (o' & E & H).
  1-7: unfold general, cross3, det3, isImage; cbn; repeat split; lra.
  exists o'. split; [exact E|]. rewrite H. unfold matMap. cbn. apply mat_eq; lra.
Qed.
Print Assumptions C153_maps. Print Assumptions C153_recovers. Print Assumptions C153_sizes.

(** ** C154 *)
(** Claim: if an invertible matrix sends four points in general position to four points in general
    position, some matrix doing so is returned.  False when the origin is sent to infinity: the last
    element is fixed to 1, and the system is singular. *)
Definition exG : mat R := mkM 1 0 1 0 1 1 1 1 0.
Theorem C154_origin_refuted : exists p1 p2 p3 p4 q1 q2 q3 q4, general p1 p2 p3 p4 /\ general q1 q2 q3 q4 /\ det3 exG <> 0 /\
  isImage exG p1 q1 /\ isImage exG p2 q2 /\ isImage exG p3 q3 /\ isImage exG p4 q4 /\
  forall o, fourPoints o [p1; p2; p3; p4] [q1; q2; q3; q4] = Undef.
Proof.
  exists (mkPt 1 0), (mkPt 2 0), (mkPt 0 1), (mkPt 1 1), (mkPt 2 1), (mkPt (3/2) (1/2)), (mkPt 1 2), (mkPt 1 1).
  split; [unfold general, cross3; cbn; repeat split; lra|]. split; [unfold general, cross3; cbn; repeat split; lra|]. split; [unfold det3; cbn; lra|].
  do 4 (split; [unfold isImage; cbn; repeat split; lra|]).
  intros o. set (p1 := mkPt 1 0). set (p2 := mkPt 2 0). set (p3 := mkPt 0 1). set (p4 := mkPt 1 1). set (q1 := mkPt 2 1). set (q2 := mkPt (3/2) (1/2)). set (q3 := mkPt 1 2).
  unfold fourPoints, fourEigen. destruct (solve 8 (system [p1; p2; p3; p4] [q1; q2; q3; p4])) as [x|] eqn:S; [|reflexivity]. exfalso.
  pose proof (solve_regular 8 _ x (system_len _ _ _ _ _ _ _ _) (system_width _ _ _ _ _ _ _ _) S (listOf exG) eq_refl) as R0.
  assert (K : forall r, In r (system [p1; p2; p3; p4] [q1; q2; q3; p4]) -> dot (fst r) (listOf exG) = 0).
  { apply (in_system p1 p2 p3 p4 q1 q2 q3 p4 (fun r => dot (fst r) (listOf exG) = 0)). repeat split; apply ker_pair; try reflexivity; unfold aX, aY, aW; cbn; lra. }
  specialize (R0 K). cbn in R0. injection R0. lra.
Qed.
Print Assumptions C154_origin_refuted.
