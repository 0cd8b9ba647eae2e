(** * Proofs about circles: construction, inclusion, minimum enclosing circle *)

From Coq Require Import Reals ZArith List Bool Lra Lia Permutation.
From Verif Require Import Num M_LP M_Seg M_Circle S_Geom S_Seg S_Circle P_LP P_LP2 P_LP3 P_LP4 P_LP5 P_Seg P_Seg2.
Import ListNotations.
Local Open Scope R_scope.
Implicit Types (p q a b : pt R) (th : thrs R).

Lemma vertOK_sym th p q : vertOK th p q -> vertOK th q p.
Proof. unfold vertOK. rewrite (edist_sym q p), (Rabs_minus_sym (px q)). intros [H|H]; auto. Qed.

(** ** Construction from 2 and 3 points *)

Lemma cSet2_spec th p q : thr_ok th ->
  cSet2 th p q = if Rlt_dec (edist p q) (nullDistance th) then Throw
                 else Ok (mkC (mkPt ((px p + px q) / 2) ((py p + py q) / 2)) (edist p q / 2)).
Proof.
  intros Hth. unfold cSet2. destruct (Rlt_dec (edist p q) (nullDistance th)) as [L|L].
  - rewrite (proj2 (ptEq_spec th p q) L). reflexivity.
  - apply Rnot_lt_le in L. pose proof (proj2 (ptEq_false th p q) L) as E. rewrite E.
    unfold svNew. rewrite E. cbn [bind]. unfold segOrder; cbn [sA sB].
    destruct (fixOrder p q) as [u v] eqn:F. apply fixOrder_spec in F. destruct F as [_ [[-> ->]|[-> ->]]].
    + unfold svCenter, svLength; cbn [sA sB]; change (@distPP R RNum) with edist; rnum. reflexivity.
    + unfold svCenter, svLength; cbn [sA sB]; change (@distPP R RNum) with edist; rnum.
      rewrite (Rplus_comm (px q)), (Rplus_comm (py q)), (edist_sym q p). reflexivity.
Qed.

Lemma bisector_ok th p q s l : thr_ok th -> svNew th KSeg p q = Ok s -> svBisector th s = Ok l ->
  dirOK th p q -> vertOK th p q -> unitL l /\ forall x, onL l x <-> edist x p = edist x q.
Proof.
  intros Hth Hs Hl D V. destruct (svNew_inv _ _ _ _ _ Hth Hs) as (E & Hn & _ & S).
  assert (K : okSeg th s /\ dirOK th (sA s) (sB s) /\ vertOK th (sA s) (sB s)).
  { unfold svBisector, svLine in Hl. destruct (lineOf th (sA s) (sB s)) as [l0| |] eqn:El; try discriminate.
    destruct (lineOf_inv _ _ _ _ El) as [_ Hn0]. destruct (lnorm_inv _ _ _ Hth Hn0) as (He & _).
    cbn [la lb] in He. rewrite lineOf_hypot in He.
    destruct S as [-> | ->]; cbn [sA sB] in *; (split; [split; cbn [sA sB]|split]); auto.
    - now rewrite edist_sym.
    - now apply dirOK_sym.
    - now apply vertOK_sym. }
  destruct K as (K1 & K2 & K3). destruct (svBisector_spec th s Hth K1 K2 K3) as (l' & El & U & O).
  rewrite El in Hl. apply Ok_inj in Hl. subst l'. split; auto. intros x. rewrite O.
  destruct S as [-> | ->]; cbn [sA sB]; [reflexivity|]. split; intros; now symmetry.
Qed.

Lemma cSet3_spec th p q r c : thr_ok th -> cSet3 th p q r = Ok c ->
  dirOK th p q -> dirOK th q r -> dirOK th p r -> vertOK th p q -> vertOK th q r -> vertOK th p r ->
  onEdge c p /\ onEdge c q /\ onEdge c r.
Proof.
  intros Hth H D1 D2 D3 V1 V2 V3. unfold cSet3 in H.
  destruct (areCollinear th p q r) as [[|]| |]; try discriminate. cbn [bind] in H.
  destruct (getLargestDistancePoints p q r) as [[a b] m] eqn:G. apply largest_spec in G. destruct G as [_ G].
  destruct (svNew th KSeg a b) as [s1| |] eqn:E1; try discriminate.
  destruct (svNew th KSeg a m) as [s2| |] eqn:E2; try discriminate. cbn [bind] in H.
  destruct (svBisector th s1) as [l1| |] eqn:B1; try discriminate.
  destruct (svBisector th s2) as [l2| |] eqn:B2; try discriminate. cbn [bind] in H.
  destruct (isParallel th l1 l2); try discriminate.
  destruct (meet th l1 l2) as [o| |] eqn:M; try discriminate. cbn [bind] in H. apply Ok_inj in H. subst c.
  unfold onEdge; cbn [cc cr]. change (@distPP R RNum) with edist.
  assert (D : dirOK th a b /\ dirOK th a m /\ vertOK th a b /\ vertOK th a m).
  { repeat match goal with H : _ \/ _ |- _ => destruct H end;
    match goal with H : (_, _, _) = _ |- _ => injection H as -> -> -> end; repeat split; auto using dirOK_sym, vertOK_sym. }
  destruct D as (Da & Db & Va & Vb).
  destruct (bisector_ok th a b s1 l1 Hth E1 B1 Da Va) as [U1 O1].
  destruct (bisector_ok th a m s2 l2 Hth E2 B2 Db Vb) as [U2 O2].
  destruct (meet_on th l1 l2 o Hth (unit_proper _ U1) (unit_proper _ U2) M) as [M1 M2].
  apply O1 in M1. apply O2 in M2.
  repeat match goal with H : _ \/ _ |- _ => destruct H end;
    match goal with H : (_, _, _) = _ |- _ => injection H as -> -> -> end; repeat split; congruence.
Qed.

(** ** Inclusion *)

Lemma ptInCircle_spec p (c : circle R) : ptInCircle p c = true <-> inOpen c p.
Proof.
  unfold ptInCircle, inOpen. change (@distPP R RNum) with edist. rnum. rewrite Rltb_spec, edist_sym. reflexivity.
Qed.
Lemma ptInCircle_false p (c : circle R) : ptInCircle p c = false <-> cr c <= edist (cc c) p.
Proof.
  unfold ptInCircle. change (@distPP R RNum) with edist. rnum. rewrite Rltb_false, edist_sym. reflexivity.
Qed.

Lemma cInCircle_spec (c d : circle R) : cInCircle c d = true <-> cr c + edist (cc c) (cc d) < cr d.
Proof. unfold cInCircle. change (@distPP R RNum) with edist. rnum. apply Rltb_spec. Qed.

Lemma cInCircle_incl (c d : circle R) p : cInCircle c d = true -> inDisc c p -> inOpen d p.
Proof.
  rewrite cInCircle_spec. unfold inDisc, inOpen. intros H I.
  pose proof (edist_triang (cc d) (cc c) p) as T. rewrite (edist_sym (cc d) (cc c)) in T. lra.
Qed.

(** The converse: a disc of non-negative radius whose points are all strictly inside d. *)
Lemma cInCircle_conv (c d : circle R) : 0 <= cr c -> (forall p, inDisc c p -> inOpen d p) -> cInCircle c d = true.
Proof.
  intros Hr H. rewrite cInCircle_spec.
  destruct (Req_dec (edist (cc d) (cc c)) 0) as [Z|Z].
  - pose proof (edist_zero _ _ Z) as E.
    specialize (H (mkPt (px (cc c) + cr c) (py (cc c)))). unfold inDisc, inOpen in H. rewrite E in *.
    assert (V : edist (cc c) (mkPt (px (cc c) + cr c) (py (cc c))) = cr c) by (apply edist_val; cbn [px py]; [lra|ring]).
    rewrite V in H. rewrite edist_refl. specialize (H (Rle_refl _)). lra.
  - pose proof (edist_pos (cc d) (cc c)). assert (P : 0 < edist (cc d) (cc c)) by lra.
    set (L := edist (cc d) (cc c)) in *. rewrite (edist_sym (cc c)). fold L.
    specialize (H (along (cc d) (cc c) ((L + cr c) / L))). unfold inDisc, inOpen in H.
    rewrite edist_along2, edist_along in H. fold L in H.
    replace (1 - (L + cr c) / L) with (- (cr c / L)) in H by (field; lra).
    assert (0 <= cr c / L) by (apply Rmult_le_pos; [lra|]; left; now apply Rinv_0_lt_compat).
    assert (E1 : cr c / L * L = cr c) by (field; lra).
    assert (E2 : (L + cr c) / L * L = L + cr c) by (field; lra).
    rewrite Rabs_Ropp, Rabs_right, E1 in H by lra.
    rewrite Rabs_right, E2 in H. 2:{ apply Rle_ge. apply Rmult_le_pos; [lra|]. left; now apply Rinv_0_lt_compat. }
    specialize (H (Rle_refl _)). lra.
Qed.

Lemma Rabs_le_both x y : Rabs x <= y -> - y <= x <= y.
Proof. intros H. pose proof (Rle_abs x). pose proof (Rle_abs (- x)). rewrite Rabs_Ropp in *. lra. Qed.
Lemma edist_coord p q : Rabs (px p - px q) <= edist p q /\ Rabs (py p - py q) <= edist p q.
Proof.
  pose proof (edist_pos p q) as P. pose proof (edist_sq p q) as S.
  assert (X := sqp (px p - px q)). assert (Y := sqp (py p - py q)).
  split; apply Rsqr_incr_0_var; auto; rewrite <- Rsqr_abs; unfold Rsqr; lra.
Qed.

Lemma cInRect_spec (c : circle R) p q : cInRect c p q = true <->
  px p < px (cc c) - cr c /\ px (cc c) + cr c < px q /\ py p < py (cc c) - cr c /\ py (cc c) + cr c < py q.
Proof.
  unfold cInRect; rnum. repeat rcase1; rclean; split; intros H; try discriminate; try tauto; exfalso; lra.
Qed.

Lemma cInRect_incl (c : circle R) p q : 0 <= cr c ->
  (cInRect c p q = true <-> forall x, inDisc c x -> px p < px x < px q /\ py p < py x < py q).
Proof.
  intros Hr. rewrite cInRect_spec. split.
  - intros H x I. destruct (edist_coord (cc c) x) as [A B]. unfold inDisc in I.
    apply (fun H => Rle_trans _ _ _ H I) in A. apply (fun H => Rle_trans _ _ _ H I) in B.
    apply Rabs_le_both in A. apply Rabs_le_both in B. lra.
  - intros H.
    assert (V : forall dx dy, (dx * dx + dy * dy = cr c * cr c) -> inDisc c (mkPt (px (cc c) + dx) (py (cc c) + dy))).
    { intros dx dy E. unfold inDisc. rewrite (edist_val _ _ (cr c)); [lra|lra|]. cbn [px py]. rewrite <- E. ring. }
    pose proof (H _ (V (cr c) 0 ltac:(ring))) as H1. pose proof (H _ (V (- cr c) 0 ltac:(ring))) as H2.
    pose proof (H _ (V 0 (cr c) ltac:(ring))) as H3. pose proof (H _ (V 0 (- cr c) ltac:(ring))) as H4.
    cbn [px py] in *. lra.
Qed.

(** ** Minimum enclosing circle: pencil of two discs *)

Lemma inDisc_sq (c : circle R) p : 0 <= cr c ->
  (inDisc c p <-> (px (cc c) - px p) * (px (cc c) - px p) + (py (cc c) - py p) * (py (cc c) - py p) <= cr c * cr c).
Proof.
  intros Hr. unfold inDisc. rewrite <- edist_sq. pose proof (edist_pos (cc c) p).
  split; intros H1.
  - apply Rmult_le_compat; auto.
  - apply Rsqr_incr_0_var; auto.
Qed.
Lemma onEdge_sq (c : circle R) p : 0 <= cr c ->
  (onEdge c p <-> (px (cc c) - px p) * (px (cc c) - px p) + (py (cc c) - py p) * (py (cc c) - py p) = cr c * cr c).
Proof.
  intros Hr. unfold onEdge. rewrite <- edist_sq. pose proof (edist_pos (cc c) p).
  split; intros H1; [now rewrite H1|]. apply Rsqr_inj; auto.
Qed.

(** d contains the points of L and has the points of R on its edge; if p is in e but not strictly inside d,
    a disc of the pencil of d and e has p on its edge and is not larger than the larger one. *)
Lemma pencil (d e : circle R) p : 0 <= cr d -> cr d <= cr e -> inDisc e p -> cr d <= edist (cc d) p ->
  exists f, 0 <= cr f <= cr e /\ onEdge f p /\
    (forall x, inDisc d x -> inDisc e x -> inDisc f x) /\ (forall x, onEdge d x -> onEdge e x -> onEdge f x).
Proof.
  intros Hd Hde He Hp.
  destruct (Req_dec (edist (cc d) p) (cr d)) as [E0|E0].
  { exists d. repeat split; auto. }
  assert (He0 : 0 <= cr e) by lra.
  apply (inDisc_sq e p He0) in He.
  assert (Hp2 : cr d * cr d < (px (cc d) - px p) * (px (cc d) - px p) + (py (cc d) - py p) * (py (cc d) - py p)).
  { rewrite <- edist_sq. apply Rmult_le_0_lt_compat; lra. }
  destruct d as [[xd yd] rd], e as [[xe ye] re], p as [x y]. cbn [cc cr px py] in *.
  set (F := (xd - x) * (xd - x) + (yd - y) * (yd - y) - rd * rd) in *.
  set (G := re * re - ((xe - x) * (xe - x) + (ye - y) * (ye - y))) in *.
  assert (PF : 0 < F) by (unfold F; lra). assert (PG : 0 <= G) by (unfold G; lra).
  set (t := F / (F + G)).
  assert (T0 : 0 <= t) by (apply Rmult_le_pos; [lra|left; apply Rinv_0_lt_compat; lra]).
  assert (Te : (1 - t) * F = t * G) by (unfold t; field; lra).
  assert (T1 : t <= 1). { destruct (Rle_lt_dec t 1); auto. exfalso. assert ((1 - t) * F < 0) by nra. assert (0 <= t * G) by (apply Rmult_le_pos; lra). lra. }
  clearbody t.
  set (xf := (1 - t) * xd + t * xe). set (yf := (1 - t) * yd + t * ye).
  set (r2 := (1 - t) * (rd * rd) + t * (re * re) - t * (1 - t) * ((xd - xe) * (xd - xe) + (yd - ye) * (yd - ye))).
  assert (Pow : forall u v, (xf - u) * (xf - u) + (yf - v) * (yf - v) - r2
     = (1 - t) * ((xd - u) * (xd - u) + (yd - v) * (yd - v) - rd * rd) + t * ((xe - u) * (xe - u) + (ye - v) * (ye - v) - re * re))
    by (intros; unfold xf, yf, r2; ring).
  assert (R2p : 0 <= r2).
  { specialize (Pow x y). fold F in Pow.
    assert ((xe - x) * (xe - x) + (ye - y) * (ye - y) - re * re = - G) as EG by (unfold G; ring). rewrite EG in Pow.
    assert (A := sqp (xf - x)). assert (B := sqp (yf - y)). lra. }
  assert (R2le : r2 <= re * re).
  { assert (rd * rd <= re * re) by (apply Rmult_le_compat; lra).
    assert ((1 - t) * (rd * rd) <= (1 - t) * (re * re)) by (apply Rmult_le_compat_l; lra).
    assert (0 <= t * (1 - t) * ((xd - xe) * (xd - xe) + (yd - ye) * (yd - ye))).
    { apply Rmult_le_pos; [apply Rmult_le_pos; lra|]. assert (A := sqp (xd - xe)). assert (B := sqp (yd - ye)). lra. }
    unfold r2. lra. }
  exists (mkC (mkPt xf yf) (sqrt r2)). cbn [cc cr].
  assert (S2 : sqrt r2 * sqrt r2 = r2) by now apply sqrt_sqrt.
  pose proof (sqrt_pos r2) as SP.
  split; [|split; [|split]].
  - split; auto. rewrite <- (sqrt_square re) by auto. apply sqrt_le_1_alt. exact R2le.
  - apply onEdge_sq; cbn [cc cr px py]; auto. rewrite S2. specialize (Pow x y). fold F in Pow.
    assert ((xe - x) * (xe - x) + (ye - y) * (ye - y) - re * re = - G) as EG by (unfold G; ring). rewrite EG in Pow. lra.
  - intros [u v] A B. apply inDisc_sq in A; auto. apply inDisc_sq in B; auto. apply inDisc_sq; cbn [cc cr px py] in *; auto.
    rewrite S2. specialize (Pow u v).
    assert (0 <= (1 - t) * (rd * rd - ((xd - u) * (xd - u) + (yd - v) * (yd - v)))) by (apply Rmult_le_pos; lra).
    assert (0 <= t * (re * re - ((xe - u) * (xe - u) + (ye - v) * (ye - v)))) by (apply Rmult_le_pos; lra). lra.
  - intros [u v] A B. apply onEdge_sq in A; auto. apply onEdge_sq in B; auto. apply onEdge_sq; cbn [cc cr px py] in *; auto.
    rewrite S2. specialize (Pow u v). rewrite A, B in Pow. lra.
Qed.

(** Feasible: contains the points of L, has those of B on its edge. *)
Definition feas (L B : list (pt R)) (c : circle R) : Prop :=
  0 <= cr c /\ (forall x, In x L -> inDisc c x) /\ (forall x, In x B -> onEdge c x).
Definition best (L B : list (pt R)) (c : circle R) : Prop :=
  feas L B c /\ forall e, feas L B e -> cr c <= cr e.

Lemma best_step L B p d c : best L B d -> cr d <= edist (cc d) p -> best L (B ++ [p]) c ->
  (exists e, feas (p :: L) B e) -> best (p :: L) B c.
Proof.
  intros [[Hd0 [HdL HdB]] Hdm] Hp [[Hc0 [HcL HcB]] Hcm] _. split.
  - split; auto. split.
    + intros x [<-|Hx]; auto. unfold inDisc. rewrite HcB; [lra|]. apply in_or_app; right; now left.
    + intros x Hx. apply HcB. apply in_or_app; now left.
  - intros e (He0 & HeL & HeB).
    assert (F1 : feas L B e) by (split; [auto|split; auto; intros; apply HeL; now right]).
    destruct (pencil d e p Hd0 (Hdm e F1) (HeL p (or_introl eq_refl)) Hp) as (f & Hf & Ep & Fi & Fe).
    apply Rle_trans with (cr f); [|apply Hf]. apply Hcm. split; [apply Hf|]. split.
    + intros x Hx. apply Fi; auto. apply HeL; now right.
    + intros x Hx. apply in_app_or in Hx. destruct Hx as [Hx|[<-|[]]]; auto.
Qed.

Lemma feas_next L B p d : best L B d -> cr d <= edist (cc d) p -> (exists e, feas (p :: L) B e) ->
  exists e, feas L (B ++ [p]) e.
Proof.
  intros [[Hd0 [HdL HdB]] Hdm] Hp (e & He0 & HeL & HeB).
  assert (F1 : feas L B e) by (split; [auto|split; auto; intros; apply HeL; now right]).
  destruct (pencil d e p Hd0 (Hdm e F1) (HeL p (or_introl eq_refl)) Hp) as (f & Hf & Ep & Fi & Fe).
  exists f. split; [apply Hf|]. split.
  - intros x Hx. apply Fi; auto. apply HeL; now right.
  - intros x Hx. apply in_app_or in Hx. destruct Hx as [Hx|[<-|[]]]; auto.
Qed.

(** Two circles through three points that are not aligned are the same. *)
Lemma circ3_unique (c d : circle R) p q r : 0 <= cr c -> 0 <= cr d -> p <> q -> q <> r -> p <> r ->
  onEdge c p -> onEdge c q -> onEdge c r -> onEdge d p -> onEdge d q -> onEdge d r -> c = d.
Proof.
  intros Hc Hd N1 N2 N3 A1 A2 A3 B1 B2 B3.
  apply onEdge_sq in A1; auto. apply onEdge_sq in A2; auto. apply onEdge_sq in A3; auto.
  apply onEdge_sq in B1; auto. apply onEdge_sq in B2; auto. apply onEdge_sq in B3; auto.
  destruct c as [[cx cy] rc], d as [[dx dy] rd], p as [px_ py_], q as [qx qy], r as [rx ry].
  cbn [cc cr px py] in *.
  (* (c - d) is orthogonal to q - p and r - p *)
  assert (O1 : (cx - dx) * (qx - px_) + (cy - dy) * (qy - py_) = 0) by lra.
  assert (O2 : (cx - dx) * (rx - px_) + (cy - dy) * (ry - py_) = 0) by lra.
  assert (X : (qx - px_) * (ry - py_) - (qy - py_) * (rx - px_) <> 0).
  { intros Z.
    (* aligned points at the same distance from c: r - p = t (q - p) with t = 0 or 1 *)
    destruct (line_param (mkPt px_ py_) (mkPt qx qy) (mkPt rx ry)) as (t & Et).
    { exact N1. } { unfold cross3; cbn [px py]. exact Z. }
    unfold along in Et; cbn [px py] in Et. injection Et as Ex Ey.
    set (ux := qx - px_) in *. set (uy := qy - py_) in *.
    assert (Q1 : ux * ux + uy * uy = 2 * ((cx - px_) * ux + (cy - py_) * uy)).
    { unfold ux, uy. lra. }
    assert (Q2 : t * t * (ux * ux + uy * uy) = 2 * t * ((cx - px_) * ux + (cy - py_) * uy)).
    { rewrite Ex, Ey in A3. lra. }
    assert (Q3 : t * (t - 1) * (ux * ux + uy * uy) = 0).
    { replace (t * (t - 1) * (ux * ux + uy * uy)) with (t * t * (ux * ux + uy * uy) - t * (ux * ux + uy * uy)) by ring.
      rewrite Q2, Q1. ring. }
    apply Rmult_integral in Q3. destruct Q3 as [Q3|Q3].
    - apply Rmult_integral in Q3. destruct Q3 as [Q3|Q3].
      + apply N3. rewrite Q3 in *. f_equal; lra.
      + apply N2. assert (t = 1) by lra. subst t. unfold ux, uy in *. f_equal; lra.
    - apply sum_sq_zero in Q3. destruct Q3. apply N1. unfold ux, uy in *. f_equal; lra. }
  assert (Zx : cx - dx = 0).
  { apply (Rmult_eq_reg_r ((qx - px_) * (ry - py_) - (qy - py_) * (rx - px_))); auto.
    replace ((cx - dx) * ((qx - px_) * (ry - py_) - (qy - py_) * (rx - px_)))
      with ((ry - py_) * ((cx - dx) * (qx - px_) + (cy - dy) * (qy - py_)) - (qy - py_) * ((cx - dx) * (rx - px_) + (cy - dy) * (ry - py_))) by ring.
    rewrite O1, O2. ring. }
  assert (Zy : cy - dy = 0).
  { apply (Rmult_eq_reg_r ((qx - px_) * (ry - py_) - (qy - py_) * (rx - px_))); auto.
    replace ((cy - dy) * ((qx - px_) * (ry - py_) - (qy - py_) * (rx - px_)))
      with ((qx - px_) * ((cx - dx) * (rx - px_) + (cy - dy) * (ry - py_)) - (rx - px_) * ((cx - dx) * (qx - px_) + (cy - dy) * (qy - py_))) by ring.
    rewrite O1, O2. ring. }
  assert (cx = dx) by lra. assert (cy = dy) by lra. subst dx dy.
  assert (rc = rd) by (apply Rsqr_inj; auto; unfold Rsqr; lra). now subst.
Qed.
