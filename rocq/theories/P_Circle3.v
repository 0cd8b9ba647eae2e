(** * Proofs about circles: intersections and histories *)

From Coq Require Import Reals ZArith List Bool Lra Lia Permutation.
From Verif Require Import Num M_LP M_Seg M_Circle S_Geom S_Seg S_Circle P_LP P_LP2 P_LP3 P_LP4 P_LP5 P_Seg P_Seg2 P_Seg3 P_Circle P_Circle2.
Import ListNotations.
Local Open Scope R_scope.
Implicit Types (p q a b : pt R) (th : thrs R) (s : seg R).

(** ** Circle / circle *)

Lemma cEq_sym th (c d : circle R) : cEq th c d = cEq th d c.
Proof.
  unfold cEq. rewrite (ptEq_sym th (cc c)). rnum.
  unfold Reqb. destruct (Req_EM_T (cr c) (cr d)), (Req_EM_T (cr d) (cr c)); auto; exfalso; lra.
Qed.

Definition interD (c d : circle R) : R := edist (cc c) (cc d).
Definition interA (c d : circle R) : R := (cr c * cr c - cr d * cr d + interD c d * interD c d) / 2 / interD c d.
Definition interH (c d : circle R) : R := sqrt (cr c * cr c - interA c d * interA c d).
Definition interP (c d : circle R) (e : R) : pt R :=
  let D := interD c d in
  mkPt ((px (cc d) - px (cc c)) * interA c d / D + px (cc c) + e * ((py (cc c) - py (cc d)) * interH c d / D))
       ((py (cc d) - py (cc c)) * interA c d / D + py (cc c) - e * ((px (cc c) - px (cc d)) * interH c d / D)).

Lemma circle_pos th (c d : circle R) : thr_ok th -> cEq th c d = false ->
  cr c * cr c + cr d * cr d - 2 * cr c * cr d <= interD c d * interD c d -> 0 < interD c d.
Proof.
  intros Hth E H. pose proof (edist_pos (cc c) (cc d)) as P. fold (interD c d) in P.
  destruct (Req_dec (interD c d) 0) as [Z|Z]; [exfalso|lra].
  rewrite Z in H. assert (S : (cr c - cr d) * (cr c - cr d) <= 0) by lra.
  assert (cr c = cr d). { pose proof (sqp (cr c - cr d)). assert ((cr c - cr d) * (cr c - cr d) = 0) by lra. apply Rmult_integral in H1. lra. }
  apply edist_zero in Z. unfold cEq in E. rnum. rewrite H0, Z in E. unfold Reqb in E.
  destruct (Req_EM_T (cr d) (cr d)) as [_|n]; [|now apply n]. cbn [negb] in E. rewrite (ptEq_refl th _ Hth) in E. discriminate.
Qed.

Lemma interH_sq (c d : circle R) : 0 < interD c d ->
  cr c * cr c + cr d * cr d - 2 * cr c * cr d <= interD c d * interD c d ->
  interD c d * interD c d <= cr c * cr c + cr d * cr d + 2 * cr c * cr d ->
  0 <= cr c * cr c - interA c d * interA c d.
Proof.
  intros P L U. unfold interA. set (D := interD c d) in *.
  replace (cr c * cr c - (cr c * cr c - cr d * cr d + D * D) / 2 / D * ((cr c * cr c - cr d * cr d + D * D) / 2 / D))
    with ((cr c * cr c + cr d * cr d + 2 * cr c * cr d - D * D) * (D * D - (cr c * cr c + cr d * cr d - 2 * cr c * cr d)) * / (4 * (D * D))) by (field; lra).
  apply Rmult_le_pos; [apply Rmult_le_pos; lra|]. left. apply Rinv_0_lt_compat. assert (0 < D * D) by now apply Rmult_lt_0_compat. lra.
Qed.

Lemma circleCircle_eval th (c d : circle R) : thr_ok th -> circleCircle th c d =
  if cEq th c d then Ok []
  else if Rlt_dec (cr c * cr c + cr d * cr d + 2 * cr c * cr d) (interD c d * interD c d) then Ok []
  else if Rlt_dec (interD c d * interD c d) (cr c * cr c + cr d * cr d - 2 * cr c * cr d) then Ok []
  else Ok (interP c d 1 :: if negb (ptEq th (interP c d 1) (interP c d (-1))) then [interP c d (-1)] else []).
Proof.
  intros Hth. unfold circleCircle. destruct (cEq th c d) eqn:E; auto. cbv zeta. rnum.
  assert (ED : (px (cc c) - px (cc d)) * (px (cc c) - px (cc d)) + (py (cc c) - py (cc d)) * (py (cc c) - py (cc d)) = interD c d * interD c d)
    by (unfold interD; now rewrite edist_sq).
  rewrite ED. unfold Rltb at 1 2.
  destruct (Rlt_dec (cr c * cr c + cr d * cr d + 2 * cr c * cr d) (interD c d * interD c d)) as [|U]; auto.
  destruct (Rlt_dec (interD c d * interD c d) (cr c * cr c + cr d * cr d - 2 * cr c * cr d)) as [|L]; auto.
  apply Rnot_lt_le in U. apply Rnot_lt_le in L.
  pose proof (circle_pos th c d Hth E L) as P. rewrite sqrt_square by lra.
  unfold cdiv. rnum. unfold Reqb at 1. destruct (Req_EM_T (interD c d) 0) as [Z|_]; [lra|]. cbn [bind].
  change ((cr c * cr c - cr d * cr d + interD c d * interD c d) / 2 / interD c d) with (interA c d).
  pose proof (interH_sq c d P L U) as HS. unfold csqrt. rnum. rewrite (proj2 (Rltb_false _ _) HS). cbn [bind].
  change (sqrt (cr c * cr c - interA c d * interA c d)) with (interH c d).
  assert (E3 : mkPt ((px (cc d) - px (cc c)) * interA c d / interD c d + px (cc c) + (py (cc c) - py (cc d)) * interH c d / interD c d)
                    ((py (cc d) - py (cc c)) * interA c d / interD c d + py (cc c) - (px (cc c) - px (cc d)) * interH c d / interD c d) = interP c d 1)
    by (unfold interP; f_equal; ring).
  assert (E4 : mkPt ((px (cc d) - px (cc c)) * interA c d / interD c d + px (cc c) - (py (cc c) - py (cc d)) * interH c d / interD c d)
                    ((py (cc d) - py (cc c)) * interA c d / interD c d + py (cc c) + (px (cc c) - px (cc d)) * interH c d / interD c d) = interP c d (-1))
    by (unfold interP; f_equal; ring).
  rewrite E3, E4. reflexivity.
Qed.

Section Two.
  Variables (c d : circle R).
  Hypothesis (Rc : 0 <= cr c) (Rd : 0 <= cr d) (P : 0 < interD c d).
  Let D := interD c d.
  Let ux := (px (cc d) - px (cc c)) / D.
  Let uy := (py (cc d) - py (cc c)) / D.
  Lemma uu : ux * ux + uy * uy = 1.
  Proof.
    assert (E : D * D = (px (cc d) - px (cc c)) * (px (cc d) - px (cc c)) + (py (cc d) - py (cc c)) * (py (cc d) - py (cc c))).
    { unfold D, interD. rewrite edist_sq. ring. }
    unfold ux, uy.
    replace ((px (cc d) - px (cc c)) / D * ((px (cc d) - px (cc c)) / D) + (py (cc d) - py (cc c)) / D * ((py (cc d) - py (cc c)) / D))
      with (((px (cc d) - px (cc c)) * (px (cc d) - px (cc c)) + (py (cc d) - py (cc c)) * (py (cc d) - py (cc c))) / (D * D))
      by (field; unfold D; lra).
    rewrite <- E. field. unfold D. lra.
  Qed.
  Lemma cdx : px (cc d) = px (cc c) + D * ux.
  Proof. unfold ux. field. unfold D. lra. Qed.
  Lemma cdy : py (cc d) = py (cc c) + D * uy.
  Proof. unfold uy. field. unfold D. lra. Qed.
  Lemma interP_u e : interP c d e = mkPt (px (cc c) + interA c d * ux - e * (interH c d * uy)) (py (cc c) + interA c d * uy + e * (interH c d * ux)).
  Proof. unfold interP, ux, uy. fold D. f_equal; field; unfold D; lra. Qed.

  Lemma interP_on e : e * e = 1 -> 0 <= cr c * cr c - interA c d * interA c d -> onEdge c (interP c d e) /\ onEdge d (interP c d e).
  Proof.
    intros He HS. pose proof (sqrt_sqrt _ HS) as SQ. change (sqrt (cr c * cr c - interA c d * interA c d)) with (interH c d) in SQ.
    rewrite interP_u. pose proof uu as U. set (A := interA c d) in *. set (h := interH c d) in *.
    assert (EA : 2 * D * A = cr c * cr c - cr d * cr d + D * D) by (unfold A, interA; fold D; field; unfold D; lra).
    clearbody A h. split; apply onEdge_sq; cbn [px py]; auto.
    - replace ((px (cc c) - (px (cc c) + A * ux - e * (h * uy))) * (px (cc c) - (px (cc c) + A * ux - e * (h * uy)))
               + (py (cc c) - (py (cc c) + A * uy + e * (h * ux))) * (py (cc c) - (py (cc c) + A * uy + e * (h * ux))))
        with ((A * A + e * e * (h * h)) * (ux * ux + uy * uy)) by ring.
      rewrite U, He, SQ. ring.
    - rewrite cdx, cdy.
      replace ((px (cc c) + D * ux - (px (cc c) + A * ux - e * (h * uy))) * (px (cc c) + D * ux - (px (cc c) + A * ux - e * (h * uy)))
               + (py (cc c) + D * uy - (py (cc c) + A * uy + e * (h * ux))) * (py (cc c) + D * uy - (py (cc c) + A * uy + e * (h * ux))))
        with (((D - A) * (D - A) + e * e * (h * h)) * (ux * ux + uy * uy)) by ring.
      rewrite U, He, SQ. lra.
  Qed.

  Lemma interP_all p : onEdge c p -> onEdge d p -> p = interP c d 1 \/ p = interP c d (-1).
  Proof.
    intros E1 E2. apply onEdge_sq in E1; auto. apply onEdge_sq in E2; auto. rewrite cdx, cdy in E2.
    pose proof uu as U. rewrite !interP_u.
    set (X := px p - px (cc c)). set (Y := py p - py (cc c)).
    set (al := X * ux + Y * uy). set (be := Y * ux - X * uy).
    assert (EX : X = al * ux - be * uy).
    { unfold al, be. replace ((X * ux + Y * uy) * ux - (Y * ux - X * uy) * uy) with (X * (ux * ux + uy * uy)) by ring. rewrite U. ring. }
    assert (EY : Y = al * uy + be * ux).
    { unfold al, be. replace ((X * ux + Y * uy) * uy + (Y * ux - X * uy) * ux) with (Y * (ux * ux + uy * uy)) by ring. rewrite U. ring. }
    assert (N1 : X * X + Y * Y = cr c * cr c) by (unfold X, Y; lra).
    assert (N2 : X * X + Y * Y - 2 * D * al + D * D * (ux * ux + uy * uy) = cr d * cr d).
    { rewrite <- E2. unfold al, X, Y. ring. }
    rewrite U in N2.
    assert (EA : al = interA c d).
    { unfold interA. fold D. rewrite <- N1. replace (cr d * cr d) with (X * X + Y * Y - 2 * D * al + D * D * 1) by exact N2. field. unfold D; lra. }
    assert (N3 : al * al + be * be = cr c * cr c).
    { rewrite <- N1, EX, EY. replace ((al * ux - be * uy) * (al * ux - be * uy) + (al * uy + be * ux) * (al * uy + be * ux))
        with ((al * al + be * be) * (ux * ux + uy * uy)) by ring. rewrite U. ring. }
    rewrite EA in N3.
    assert (HH : interH c d = Rabs be).
    { unfold interH. replace (cr c * cr c - interA c d * interA c d) with (be * be) by lra. apply sqrt_Rsqr_abs. }
    assert (PX : px p = px (cc c) + X) by (unfold X; ring). assert (PY : py p = py (cc c) + Y) by (unfold Y; ring).
    destruct (Rle_lt_dec 0 be) as [Hb|Hb].
    - left. rewrite HH, Rabs_right by lra. rewrite <- EA. destruct p as [x y]; cbn [px py] in *. rewrite PX, PY, EX, EY. f_equal; ring.
    - right. rewrite HH, Rabs_left by lra. rewrite <- EA. destruct p as [x y]; cbn [px py] in *. rewrite PX, PY, EX, EY. f_equal; ring.
  Qed.
End Two.

Lemma circleCircle_sound th (c d : circle R) l q : thr_ok th -> 0 <= cr c -> 0 <= cr d -> circleCircle th c d = Ok l -> In q l ->
  onEdge c q /\ onEdge d q.
Proof.
  intros Hth Rc Rd H I. rewrite circleCircle_eval in H by auto. destruct (cEq th c d) eqn:E; [injection H as <-; destruct I|].
  destruct (Rlt_dec _ _) as [|U]; [injection H as <-; destruct I|].
  destruct (Rlt_dec _ _) as [|L]; [injection H as <-; destruct I|].
  apply Rnot_lt_le in U. apply Rnot_lt_le in L. pose proof (circle_pos th c d Hth E L) as P.
  pose proof (interH_sq c d P L U) as HS. injection H as <-.
  destruct I as [<-|I]. { apply interP_on; auto; lra. }
  destruct (negb _); [destruct I as [<-|[]]|destruct I]. apply interP_on; auto; lra.
Qed.

Lemma circleCircle_complete th (c d : circle R) p : thr_ok th -> 0 <= cr c -> 0 <= cr d -> cEq th c d = false ->
  onEdge c p -> onEdge d p -> exists l q, circleCircle th c d = Ok l /\ In q l /\ (q = p \/ edist q p < nullDistance th).
Proof.
  intros Hth Rc Rd E A B. rewrite circleCircle_eval by auto. rewrite E.
  assert (T1 : interD c d <= cr c + cr d).
  { unfold interD, onEdge in *. pose proof (edist_triang (cc c) p (cc d)) as T. rewrite (edist_sym p) in T. lra. }
  assert (T2 : Rabs (cr c - cr d) <= interD c d).
  { unfold interD, onEdge in *. pose proof (edist_triang (cc c) (cc d) p) as T. pose proof (edist_triang (cc d) (cc c) p) as T'.
    rewrite (edist_sym (cc d) (cc c)) in T'. apply Rabs_le. lra. }
  pose proof (edist_pos (cc c) (cc d)) as P0. fold (interD c d) in P0.
  destruct (Rlt_dec _ _) as [U|U].
  { exfalso. assert (interD c d * interD c d <= (cr c + cr d) * (cr c + cr d)) by (apply Rmult_le_compat; lra). lra. }
  destruct (Rlt_dec _ _) as [L|L].
  { exfalso. assert (Rabs (cr c - cr d) * Rabs (cr c - cr d) <= interD c d * interD c d) by (apply Rmult_le_compat; auto using Rabs_pos).
    rewrite <- Rabs_mult, (Rabs_right ((cr c - cr d) * (cr c - cr d))) in H by (apply Rle_ge, sqp). lra. }
  apply Rnot_lt_le in U. apply Rnot_lt_le in L. pose proof (circle_pos th c d Hth E L) as P.
  eexists. destruct (interP_all c d Rc Rd P p A B) as [-> | ->].
  - exists (interP c d 1). split; [reflexivity|]. split; [now left|now left].
  - destruct (ptEq th (interP c d 1) (interP c d (-1))) eqn:Q; cbn [negb].
    + exists (interP c d 1). split; [reflexivity|]. split; [now left|]. right. now apply ptEq_spec in Q.
    + exists (interP c d (-1)). split; [reflexivity|]. split; [right; now left|now left].
Qed.

Lemma circleCircle_empty th (c d : circle R) : thr_ok th -> 0 <= cr c -> 0 <= cr d ->
  (circleCircle th c d = Ok [] <-> cEq th c d = true \/ cr c + cr d < interD c d \/ interD c d < Rabs (cr c - cr d)).
Proof.
  intros Hth Rc Rd. rewrite circleCircle_eval by auto. destruct (cEq th c d); [tauto|].
  pose proof (edist_pos (cc c) (cc d)) as P0. fold (interD c d) in P0.
  destruct (Rlt_dec _ _) as [U|U]; [split; auto; intros _|].
  { right; left. apply Rsqr_incrst_0; auto; unfold Rsqr; lra. }
  assert (U' : interD c d <= cr c + cr d).
  { apply Rnot_lt_le. intros C. apply U. assert ((cr c + cr d) * (cr c + cr d) < interD c d * interD c d) by (apply Rmult_le_0_lt_compat; lra). lra. }
  assert (AA : Rabs (cr c - cr d) * Rabs (cr c - cr d) = (cr c - cr d) * (cr c - cr d)).
  { rewrite <- Rabs_mult. apply Rabs_right. apply Rle_ge, sqp. }
  destruct (Rlt_dec _ _) as [L|L]; [split; auto; intros _|].
  { right; right. apply Rsqr_incrst_0; auto using Rabs_pos. unfold Rsqr. rewrite AA. lra. }
  split; [discriminate|]. intros [|[H|H]]; [discriminate|lra|]. exfalso. apply L.
  assert (interD c d * interD c d < Rabs (cr c - cr d) * Rabs (cr c - cr d)) by (apply Rmult_le_0_lt_compat; lra). lra.
Qed.

Lemma interP_swap (c d : circle R) e : 0 < interD c d -> interP d c e = interP c d (- e).
Proof.
  intros P. assert (ED : interD d c = interD c d) by (unfold interD; apply edist_sym).
  assert (EA : interA d c = interD c d - interA c d) by (unfold interA; rewrite ED; field; lra).
  assert (EH : interH d c = interH c d).
  { unfold interH. f_equal. rewrite EA. unfold interA. field. lra. }
  unfold interP. rewrite ED, EH, EA. f_equal; field; lra.
Qed.

Lemma circleCircle_sym th (c d : circle R) p q : thr_ok th ->
  circleCircle th c d = Ok [p; q] -> circleCircle th d c = Ok [q; p].
Proof.
  intros Hth H. rewrite circleCircle_eval in * by auto. rewrite (cEq_sym th d c).
  destruct (cEq th c d) eqn:E; [discriminate|].
  assert (ED : interD d c = interD c d) by (unfold interD; apply edist_sym). rewrite ED.
  replace (cr d * cr d + cr c * cr c + 2 * cr d * cr c) with (cr c * cr c + cr d * cr d + 2 * cr c * cr d) by ring.
  replace (cr d * cr d + cr c * cr c - 2 * cr d * cr c) with (cr c * cr c + cr d * cr d - 2 * cr c * cr d) by ring.
  destruct (Rlt_dec _ _) as [|U]; [discriminate|]. destruct (Rlt_dec _ _) as [|L]; [discriminate|].
  apply Rnot_lt_le in L. pose proof (circle_pos th c d Hth E L) as P.
  rewrite !(interP_swap c d) by auto. replace (- -1) with 1 by ring.
  replace (interP c d (- (1))) with (interP c d (-1)) by (f_equal; ring).
  rewrite (ptEq_sym th (interP c d (-1))). destruct (ptEq th (interP c d 1) (interP c d (-1))); cbn [negb] in *; [discriminate|].
  injection H as <- <-. reflexivity.
Qed.

(** ** Segment / circle *)

Lemma svLine_proper th s l : thr_ok th -> svLine th s = Ok l -> proper l.
Proof. intros Hth H. unfold svLine in H. apply unit_proper. exact (proj1 (lineOf_proper _ _ _ _ Hth H)). Qed.

(** The two points found on the supporting line, as parameters along the segment. *)
Lemma roots th s l (c : circle R) p1 p2 : thr_ok th -> okSeg th s -> dirOK th (sA s) (sB s) -> svLine th s = Ok l -> 0 <= cr c ->
  lineCircle l (cc c) (cr c) = Some (p1, p2) ->
  exists t1 t2, p1 = along (sA s) (sB s) t1 /\ p2 = along (sA s) (sB s) t2 /\
    forall t, edist (cc c) (along (sA s) (sB s) t) * edist (cc c) (along (sA s) (sB s) t) - cr c * cr c
              = edist (sA s) (sB s) * edist (sA s) (sB s) * ((t - t1) * (t - t2)).
Proof.
  intros Hth Hs D El Rc H. pose proof (svLine_proper _ _ _ Hth El) as Pl.
  assert (Hn : sA s <> sB s) by (eapply okSeg_neq; eauto).
  destruct (lineCircle_some _ _ _ _ _ Pl Rc H) as (_ & SX & SY & O1 & O2 & C1 & C2 & _).
  destruct (line_param _ _ _ Hn (line_cross0 th s l p1 Hth El D O1)) as (t1 & E1).
  destruct (line_param _ _ _ Hn (line_cross0 th s l p2 Hth El D O2)) as (t2 & E2).
  exists t1, t2. split; [exact E1|]. split; [exact E2|]. intros t.
  pose proof (along_on_line th s l 0 Hth El D) as OA. pose proof (along_on_line th s l 1 Hth El D) as OB.
  unfold onL, onLH in OA, OB. cbn [along px py] in OA, OB.
  assert (C1' : edist (cc c) p1 * edist (cc c) p1 = cr c * cr c) by (unfold onCircle in C1; now rewrite C1).
  subst p1 p2. rewrite edist_sq in *. rewrite edist_sq. cbn [along px py] in *. unfold proj in SX, SY. cbn [px py] in SX, SY.
  set (ax := px (sA s)) in *. set (ay := py (sA s)) in *. set (bx := px (sB s)) in *. set (by_ := py (sB s)) in *.
  set (x := px (cc c)) in *. set (y := py (cc c)) in *.
  fold ax ay bx by_.
  assert (V : la l * (bx - ax) + lb l * (by_ - ay) = 0) by lra.
  clear OA OB Hs D El H C1 C2 Hn.
  (* the middle of the two parameters is the foot of the perpendicular *)
  assert (M : (ax - x) * (bx - ax) + (ay - y) * (by_ - ay) + (t1 + t2) / 2 * ((bx - ax) * (bx - ax) + (by_ - ay) * (by_ - ay)) = 0).
  { match type of SX with _ = 2 * ?Q => set (X := Q) in * end. match type of SY with _ = 2 * ?Q => set (Y := Q) in * end.
    assert (EX : ax + (t1 + t2) / 2 * (bx - ax) = X) by lra. assert (EY : ay + (t1 + t2) / 2 * (by_ - ay) = Y) by lra.
    transitivity ((X - x) * (bx - ax) + (Y - y) * (by_ - ay)). { rewrite <- EX, <- EY. ring. }
    unfold X, Y. match goal with |- (x - _ * ?k - x) * _ + _ = _ =>
      transitivity (- k * (la l * (bx - ax) + lb l * (by_ - ay))); [ring | rewrite V; ring] end. }
  assert (Z : (x - (ax + t1 * (bx - ax))) * (x - (ax + t1 * (bx - ax))) + (y - (ay + t1 * (by_ - ay))) * (y - (ay + t1 * (by_ - ay))) = cr c * cr c) by exact C1'.
  rewrite <- Z.
  match goal with |- ?L = ?R0 => enough (L - R0 = 0) by lra end.
  match type of M with ?Q = 0 => transitivity (2 * (t - t1) * Q); [field | rewrite M; ring] end.
Qed.

Lemma ptLabel_spec th p (c : circle R) : thr_ok th ->
  match ptLabel th p c with
  | TagInside => edist (cc c) p < cr c
  | TagOnEdge => cr c <= edist (cc c) p < cr c + nullDistance th
  | TagOutside => cr c + nullDistance th <= edist (cc c) p
  end.
Proof.
  intros Hth. pose proof (thr_dist th Hth). unfold ptLabel. destruct (ptInCircle p c) eqn:E.
  - now apply ptInCircle_spec.
  - apply ptInCircle_false in E. unfold inOpen in E. change (@distPP R RNum) with edist. rnum. rewrite (edist_sym p).
    apply Rnot_lt_le in E || apply Rle_ge in E || idtac. rewrite Rabs_right by lra. destruct (Rltb _ _) eqn:F; rclean; lra.
Qed.

Lemma sq_lt (x y : R) : 0 <= x -> x < y -> 0 < y * y - x * x.
Proof. intros. assert (x * x < y * y) by (apply Rmult_le_0_lt_compat; lra). lra. Qed.
Lemma pos_factor (k x : R) : 0 < k -> 0 < k * x -> 0 < x.
Proof. intros K H. destruct (Rle_lt_dec x 0); auto. exfalso. pose proof (Rmult_le_compat_l k x 0 ltac:(lra) r). lra. Qed.
Lemma neg_factor (k x : R) : 0 < k -> k * x < 0 -> x < 0.
Proof. intros K H. destruct (Rle_lt_dec 0 x); auto. exfalso. pose proof (Rmult_le_pos k x ltac:(lra) r). lra. Qed.
Lemma pos_prod (x y : R) : 0 < x * y -> (0 < x /\ 0 < y) \/ (x < 0 /\ y < 0).
Proof.
  intros H. destruct (Rtotal_order x 0) as [A|[A|A]]; destruct (Rtotal_order y 0) as [B|[B|B]]; subst; try lra; exfalso.
  - pose proof (Rmult_lt_0_compat (- x) y). lra.
  - pose proof (Rmult_lt_0_compat x (- y)). lra.
Qed.
Lemma neg_prod (x y : R) : x * y < 0 -> (0 < x /\ y < 0) \/ (x < 0 /\ 0 < y).
Proof.
  intros H. destruct (Rtotal_order x 0) as [A|[A|A]]; destruct (Rtotal_order y 0) as [B|[B|B]]; subst; try lra; exfalso.
  - pose proof (Rmult_lt_0_compat (- x) (- y)). lra.
  - pose proof (Rmult_lt_0_compat x y). lra.
Qed.

Section SegCircle.
  Variables (th : thrs R) (s : seg R) (c : circle R) (l : line R).
  Hypothesis (Hth : thr_ok th) (Hs : okSeg th s) (D : dirOK th (sA s) (sB s)) (El : svLine th s = Ok l) (Rc : 0 <= cr c).
  Notation A := (sA s). Notation B := (sB s). Notation L := (edist (sA s) (sB s)).
  Notation e := (nullDistance th).

  Lemma scL : 0 < L.
  Proof. apply edist_neq. eapply okSeg_neq; eauto. Qed.
  Lemma sce : 0 < e.
  Proof. apply thr_dist; auto. Qed.

  (** d1 + d2 - length for the point at parameter t, and what the threshold test says about t. *)
  Lemma near_in t : 0 <= t <= 1 -> Rabs (edist A (along A B t) + edist B (along A B t) - L) < e.
  Proof.
    intros Ht. rewrite edist_along, edist_along2. rewrite (Rabs_right t), (Rabs_right (1 - t)) by lra.
    replace (t * L + (1 - t) * L - L) with 0 by ring. rewrite Rabs_R0. apply sce.
  Qed.
  Lemma near_out t : Rabs (edist A (along A B t) + edist B (along A B t) - L) < e ->
    (0 <= t <= 1) \/ (t < 0 /\ edist A (along A B t) < e / 2) \/ (1 < t /\ edist B (along A B t) < e / 2).
  Proof.
    intros H. pose proof scL as PL. rewrite edist_along, edist_along2 in *. 
    destruct (Rlt_dec t 0) as [T|T]; [right; left; split; auto|].
    - rewrite (Rabs_left t), (Rabs_right (1 - t)) in * by lra. apply Rabs_def2 in H. lra.
    - destruct (Rlt_dec 1 t) as [T'|T']; [right; right; split; auto|left; lra].
      rewrite (Rabs_right t), (Rabs_left (1 - t)) in * by lra. apply Rabs_def2 in H. lra.
  Qed.
  Lemma near_x t : Rabs (edist A (along A B t) + edist B (along A B t) - L) < e ->
    exists x, segHas s x /\ edist (along A B t) x < e / 2.
  Proof.
    intros H. pose proof sce. destruct (near_out t H) as [Ht|[[Ht Hd]|[Ht Hd]]].
    - exists (along A B t). split; [apply onSeg_along; exists t; auto|]. rewrite edist_refl. lra.
    - exists A. split; [apply onSeg_along; exists 0; split; [lra|now rewrite along_0]|]. now rewrite edist_sym.
    - exists B. split; [apply onSeg_along; exists 1; split; [lra|now rewrite along_1]|]. now rewrite edist_sym.
  Qed.
  Lemma in_x t : 0 <= t <= 1 -> exists x, segHas s x /\ edist (along A B t) x < e / 2.
  Proof. intros Ht. apply near_x. now apply near_in. Qed.

  Section Roots.
    Variables (t1 t2 : R).
    Hypothesis (F : forall t, edist (cc c) (along A B t) * edist (cc c) (along A B t) - cr c * cr c = L * L * ((t - t1) * (t - t2))).
    Lemma F0 : edist (cc c) A * edist (cc c) A - cr c * cr c = L * L * (t1 * t2).
    Proof. pose proof (F 0) as H. rewrite along_0 in H. rewrite H. ring. Qed.
    Lemma F1 : edist (cc c) B * edist (cc c) B - cr c * cr c = L * L * ((1 - t1) * (1 - t2)).
    Proof. pose proof (F 1) as H. rewrite along_1 in H. exact H. Qed.
    Lemma root_on t : t = t1 \/ t = t2 -> edist (cc c) (along A B t) = cr c.
    Proof.
      intros H. pose proof (F t) as G. assert (Z : (t - t1) * (t - t2) = 0) by (destruct H; subst; ring). rewrite Z in G.
      apply Rsqr_inj; auto using edist_pos. unfold Rsqr. lra.
    Qed.
    Lemma on_root t : edist (cc c) (along A B t) = cr c -> t = t1 \/ t = t2.
    Proof.
      intros H. pose proof (F t) as G. rewrite H in G. pose proof scL as PL.
      assert (Z : (t - t1) * (t - t2) = 0). { apply Rmult_eq_reg_l with (L * L); [lra|]. assert (0 < L * L) by now apply Rmult_lt_0_compat. lra. }
      apply Rmult_integral in Z. lra.
    Qed.
    Lemma LL : 0 < L * L.
    Proof. pose proof scL. now apply Rmult_lt_0_compat. Qed.
    Lemma out0 : cr c < edist (cc c) A -> 0 < t1 * t2.
    Proof. intros H. apply (pos_factor (L * L)); [apply LL|]. rewrite <- F0. now apply sq_lt. Qed.
    Lemma out1 : cr c < edist (cc c) B -> 0 < (1 - t1) * (1 - t2).
    Proof. intros H. apply (pos_factor (L * L)); [apply LL|]. rewrite <- F1. now apply sq_lt. Qed.
    Lemma inn0 : edist (cc c) A < cr c -> t1 * t2 < 0.
    Proof. intros H. apply (neg_factor (L * L)); [apply LL|]. rewrite <- F0. pose proof (sq_lt _ _ (edist_pos (cc c) A) H). lra. Qed.
    Lemma inn1 : edist (cc c) B < cr c -> (1 - t1) * (1 - t2) < 0.
    Proof. intros H. apply (neg_factor (L * L)); [apply LL|]. rewrite <- F1. pose proof (sq_lt _ _ (edist_pos (cc c) B) H). lra. Qed.

    (** An end that is not within nullDistance of the circle is not within nullDistance of a root. *)
    Lemma far_root p t : (t = t1 \/ t = t2) -> edist p (along A B t) < e / 2 -> e <= Rabs (edist (cc c) p - cr c) -> False.
    Proof.
      intros Ht Hd Hp. pose proof (root_on t Ht) as Hr. pose proof sce.
      pose proof (edist_triang (cc c) p (along A B t)). pose proof (edist_triang (cc c) (along A B t) p).
      rewrite (edist_sym (along A B t) p) in *. assert (Rabs (edist (cc c) p - cr c) <= e / 2) by (apply Rabs_le; lra). lra.
    Qed.
  End Roots.
End SegCircle.

Lemma segCircle_ok th s (c : circle R) : thr_ok th -> okSeg th s -> exists out, segCircle th s c = Ok out.
Proof.
  intros Hth Hs. unfold segCircle. destruct (svLine_ok th s Hth Hs) as (l & El). rewrite El. cbn [bind].
  destruct (ptLabel th (sA s) c), (ptLabel th (sB s) c); try (eexists; reflexivity);
    destruct (lineCircle l (cc c) (cr c)) as [[p1 p2]|]; try (eexists; reflexivity);
    match goal with |- exists o, (if ?b then _ else _) = _ => destruct b end; eexists; reflexivity.
Qed.

Lemma segCircle_sound th s (c : circle R) out q : thr_ok th -> okSeg th s -> dirOK th (sA s) (sB s) -> 0 <= cr c ->
  segCircle th s c = Ok out -> In q out ->
  Rabs (edist (cc c) q - cr c) < nullDistance th /\ exists x, segHas s x /\ edist q x < nullDistance th / 2.
Proof.
  intros Hth Hs D Rc H I. pose proof (thr_dist th Hth) as He. unfold segCircle in H.
  destruct (svLine_ok th s Hth Hs) as (l & El). rewrite El in H. cbn [bind] in H.
  pose proof (ptLabel_spec th (sA s) c Hth) as LA. pose proof (ptLabel_spec th (sB s) c Hth) as LB.
  assert (HA : segHas s (sA s)) by (apply onSeg_along; exists 0; split; [lra|now rewrite along_0]).
  assert (HB : segHas s (sB s)) by (apply onSeg_along; exists 1; split; [lra|now rewrite along_1]).
  destruct (lineCircle l (cc c) (cr c)) as [[p1 p2]|] eqn:E;
    [|destruct (ptLabel th (sA s) c), (ptLabel th (sB s) c); injection H as <-; destruct I].
  destruct (roots th s l c p1 p2 Hth Hs D El Rc E) as (t1 & t2 & -> & -> & F).
  change (@distPP R RNum) with edist in H. unfold svLength in H. change (@distPP R RNum) with edist in H.
  assert (edge1 : forall t, t = t1 \/ t = t2 -> Rabs (edist (cc c) (along (sA s) (sB s) t) - cr c) < nullDistance th).
  { intros t Ht. rewrite (root_on s c Rc t1 t2 F t Ht). rewrite Rminus_diag_eq by auto. now rewrite Rabs_R0. }
  assert (ends : forall p, cr c <= edist (cc c) p < cr c + nullDistance th -> segHas s p ->
     Rabs (edist (cc c) p - cr c) < nullDistance th /\ exists x, segHas s x /\ edist p x < nullDistance th / 2).
  { intros p Hp Sp. split; [rewrite Rabs_right; lra|]. exists p. rewrite edist_refl. split; auto. lra. }
  assert (mixed : forall q, (edist (cc c) (sA s) < cr c /\ cr c < edist (cc c) (sB s)) \/ (cr c < edist (cc c) (sA s) /\ edist (cc c) (sB s) < cr c) ->
     (if Rltb (Rabs (edist (sA s) (along (sA s) (sB s) t1) + edist (sB s) (along (sA s) (sB s) t1) - edist (sA s) (sB s))) (nullDistance th)
      then Ok [along (sA s) (sB s) t1] else Ok [along (sA s) (sB s) t2]) = Ok out -> In q out ->
     Rabs (edist (cc c) q - cr c) < nullDistance th /\ exists x, segHas s x /\ edist q x < nullDistance th / 2).
  { intros r Hm G J. destruct (Rltb _ _) eqn:N; injection G as <-; destruct J as [<-|[]]; rclean.
    - split; [apply edge1; auto|]. now apply near_x.
    - split; [apply edge1; auto|]. apply in_x; auto.
      assert (N' : ~ (0 <= t1 <= 1)). { intros T. pose proof (near_in th s Hth t1 T). lra. }
      destruct Hm as [[Ha Hb]|[Ha Hb]].
      + pose proof (inn0 th s c Hth Hs t1 t2 F Ha) as X. pose proof (out1 th s c Hth Hs Rc t1 t2 F Hb) as Y.
        destruct (neg_prod _ _ X), (pos_prod _ _ Y); lra.
      + pose proof (out0 th s c Hth Hs Rc t1 t2 F Ha) as X. pose proof (inn1 th s c Hth Hs t1 t2 F Hb) as Y.
        destruct (pos_prod _ _ X), (neg_prod _ _ Y); lra. }
  destruct (ptLabel th (sA s) c), (ptLabel th (sB s) c); cbn [app] in H; rnum.
  - injection H as <-. destruct I.
  - apply (mixed q); auto. lra.
  - injection H as <-. destruct I as [<-|[]]. auto.
  - apply (mixed q); auto. lra.
  - destruct (Rleb _ _) eqn:N; injection H as <-; [destruct I|]. apply Rleb_false in N.
    pose proof (out0 th s c Hth Hs Rc t1 t2 F ltac:(lra)) as X. pose proof (out1 th s c Hth Hs Rc t1 t2 F ltac:(lra)) as Y.
    assert (T : 0 <= t1 <= 1 /\ 0 <= t2 <= 1).
    { destruct (near_out th s Hth Hs t1 N) as [T|[[T Td]|[T Td]]].
      - destruct (pos_prod _ _ X), (pos_prod _ _ Y); lra.
      - exfalso. eapply (far_root th s c Hth Rc t1 t2 F (sA s) t1); eauto. rewrite Rabs_right; lra.
      - exfalso. eapply (far_root th s c Hth Rc t1 t2 F (sB s) t1); eauto. rewrite Rabs_right; lra. }
    destruct I as [<-|[<-|[]]]; (split; [apply edge1; auto|apply in_x; tauto]).
  - injection H as <-. destruct I as [<-|[]]. auto.
  - injection H as <-. destruct I as [<-|[]]. auto.
  - injection H as <-. destruct I as [<-|[]]. auto.
  - injection H as <-. destruct I as [<-|[<-|[]]]; auto.
Qed.

Lemma far_tag th p (c : circle R) : thr_ok th -> far th c p -> ptLabel th p c <> TagOnEdge.
Proof.
  intros Hth F. pose proof (ptLabel_spec th p c Hth) as S. destruct (ptLabel th p c); try discriminate.
  exfalso. unfold far in F. rewrite Rabs_right in F; lra.
Qed.

Lemma disc_convex (c : circle R) p q t : 0 <= t <= 1 -> edist (cc c) p < cr c -> edist (cc c) q < cr c -> edist (cc c) (along p q t) < cr c.
Proof.
  intros Ht Hp Hq. pose proof (edist_pos (cc c) p). pose proof (edist_pos (cc c) q). pose proof (edist_pos (cc c) (along p q t)).
  apply Rsqr_incrst_0; try lra. unfold Rsqr. rewrite edist_sq. cbn [along px py].
  pose proof (sq_lt _ _ H Hp) as Sp. pose proof (sq_lt _ _ H0 Hq) as Sq. rewrite edist_sq in Sp, Sq.
  set (u := px (cc c) - px p) in *. set (v := py (cc c) - py p) in *. set (u' := px (cc c) - px q) in *. set (v' := py (cc c) - py q) in *.
  replace (px (cc c) - (px p + t * (px q - px p))) with ((1 - t) * u + t * u') by (unfold u, u'; ring).
  replace (py (cc c) - (py p + t * (py q - py p))) with ((1 - t) * v + t * v') by (unfold v, v'; ring).
  assert (T : 0 <= t * (1 - t)) by (apply Rmult_le_pos; lra).
  pose proof (Rmult_le_pos _ _ T (sqp (u - u'))) as K1. pose proof (Rmult_le_pos _ _ T (sqp (v - v'))) as K2.
  set (r2 := cr c * cr c) in *.
  assert (W : (1 - t) * (u * u + v * v) + t * (u' * u' + v' * v') < r2).
  { destruct (Req_dec t 0) as [->|Nt]; [lra|].
    assert (t * (u' * u' + v' * v') < t * r2) by (apply Rmult_lt_compat_l; lra).
    assert ((1 - t) * (u * u + v * v) <= (1 - t) * r2) by (apply Rmult_le_compat_l; lra). lra. }
  replace (((1 - t) * u + t * u') * ((1 - t) * u + t * u') + ((1 - t) * v + t * v') * ((1 - t) * v + t * v'))
    with ((1 - t) * (u * u + v * v) + t * (u' * u' + v' * v') - t * (1 - t) * ((u - u') * (u - u')) - t * (1 - t) * ((v - v') * (v - v'))) by ring.
  lra.
Qed.

Lemma segCircle_exact th s (c : circle R) out q : thr_ok th -> okSeg th s -> dirOK th (sA s) (sB s) -> 0 <= cr c ->
  far th c (sA s) -> far th c (sB s) -> segCircle th s c = Ok out ->
  (In q out <-> segHas s q /\ onEdge c q).
Proof.
  intros Hth Hs D Rc FA FB H. pose proof (thr_dist th Hth) as He. unfold segCircle in H.
  destruct (svLine_ok th s Hth Hs) as (l & El). rewrite El in H. cbn [bind] in H.
  pose proof (ptLabel_spec th (sA s) c Hth) as LA. pose proof (ptLabel_spec th (sB s) c Hth) as LB.
  pose proof (far_tag th _ _ Hth FA) as NA. pose proof (far_tag th _ _ Hth FB) as NB.
  pose proof (svLine_proper _ _ _ Hth El) as Pl.
  destruct (lineCircle l (cc c) (cr c)) as [[p1 p2]|] eqn:E.
  2: { assert (out = []) as -> by (destruct (ptLabel th (sA s) c), (ptLabel th (sB s) c); congruence).
       split; [intros []|]. intros [Sq Oq]. exfalso. apply lineCircle_none in E; auto.
       pose proof (seg_on_line th s l q Hth El D Sq) as Ol.
       pose proof (lineDist_lower l (cc c) q Pl Ol) as M. unfold onEdge in Oq. lra. }
  destruct (roots th s l c p1 p2 Hth Hs D El Rc E) as (t1 & t2 & -> & -> & F).
  change (@distPP R RNum) with edist in H. unfold svLength in H. change (@distPP R RNum) with edist in H.
  assert (SP : segHas s q /\ onEdge c q <-> (q = along (sA s) (sB s) t1 /\ 0 <= t1 <= 1) \/ (q = along (sA s) (sB s) t2 /\ 0 <= t2 <= 1)).
  { split.
    - intros [Sq Oq]. apply onSeg_along in Sq. destruct Sq as (t & Ht & ->).
      destruct (on_root th s c Hth Hs t1 t2 F t Oq) as [-> | ->]; auto.
    - intros [[-> Ht]|[-> Ht]]; (split; [apply onSeg_along; eexists; split; [|reflexivity]; auto|apply (root_on s c Rc t1 t2 F); auto]). }
  rewrite SP. clear SP.
  assert (mixed : (edist (cc c) (sA s) < cr c /\ cr c < edist (cc c) (sB s)) \/ (cr c < edist (cc c) (sA s) /\ edist (cc c) (sB s) < cr c) ->
     (if Rltb (Rabs (edist (sA s) (along (sA s) (sB s) t1) + edist (sB s) (along (sA s) (sB s) t1) - edist (sA s) (sB s))) (nullDistance th)
      then Ok [along (sA s) (sB s) t1] else Ok [along (sA s) (sB s) t2]) = Ok out ->
     (In q out <-> (q = along (sA s) (sB s) t1 /\ 0 <= t1 <= 1) \/ (q = along (sA s) (sB s) t2 /\ 0 <= t2 <= 1))).
  { intros Hm G.
    assert (X : (0 <= t1 <= 1 /\ ~ (0 <= t2 <= 1)) \/ (~ (0 <= t1 <= 1) /\ 0 <= t2 <= 1)).
    { destruct Hm as [[Ha Hb]|[Ha Hb]].
      + pose proof (inn0 th s c Hth Hs t1 t2 F Ha) as X. pose proof (out1 th s c Hth Hs Rc t1 t2 F Hb) as Y.
        destruct (neg_prod _ _ X), (pos_prod _ _ Y); lra.
      + pose proof (out0 th s c Hth Hs Rc t1 t2 F Ha) as X. pose proof (inn1 th s c Hth Hs t1 t2 F Hb) as Y.
        destruct (pos_prod _ _ X), (neg_prod _ _ Y); lra. }
    destruct (Rltb _ _) eqn:N; injection G as <-; rclean.
    - assert (T : 0 <= t1 <= 1).
      { destruct (near_out th s Hth Hs t1 N) as [T|[[T Td]|[T Td]]]; auto; exfalso.
        - eapply (far_root th s c Hth Rc t1 t2 F (sA s) t1); eauto.
        - eapply (far_root th s c Hth Rc t1 t2 F (sB s) t1); eauto. }
      cbn [In]. destruct X as [[_ X]|[X _]]; [|tauto]. split; [intros [<-|[]]; left; auto|].
      intros [[-> _]|[_ Y]]; [left; auto|tauto].
    - assert (T : ~ (0 <= t1 <= 1)). { intros T. pose proof (near_in th s Hth t1 T). lra. }
      cbn [In]. destruct X as [[X _]|[_ X]]; [tauto|]. split; [intros [<-|[]]; right; auto|].
      intros [[_ Y]|[-> _]]; [tauto|left; auto]. }
  destruct (ptLabel th (sA s) c), (ptLabel th (sB s) c); cbn [app] in H; rnum; try congruence.
  - injection H as <-. split; [intros []|].
    intros K. exfalso.
    assert (exists t, 0 <= t <= 1 /\ (t = t1 \/ t = t2)) as (t & Ht & Ht') by (destruct K as [[_ T]|[_ T]]; eexists; split; eauto).
    pose proof (root_on s c Rc t1 t2 F t Ht'). pose proof (disc_convex c _ _ t Ht LA LB). lra.
  - apply mixed; auto. lra.
  - apply mixed; auto. lra.
  - pose proof (out0 th s c Hth Hs Rc t1 t2 F ltac:(lra)) as X. pose proof (out1 th s c Hth Hs Rc t1 t2 F ltac:(lra)) as Y.
    destruct (Rleb _ _) eqn:N; injection H as <-.
    + apply Rleb_spec in N || idtac. rclean.
      assert (T : ~ (0 <= t1 <= 1)). { intros T. pose proof (near_in th s Hth t1 T). lra. }
      assert (T2 : ~ (0 <= t2 <= 1)). { intros T2. apply T. destruct (pos_prod _ _ X), (pos_prod _ _ Y); lra. }
      split; [intros []|tauto].
    + apply Rleb_false in N.
      assert (T : 0 <= t1 <= 1).
      { destruct (near_out th s Hth Hs t1 N) as [T|[[T Td]|[T Td]]]; auto; exfalso.
        - eapply (far_root th s c Hth Rc t1 t2 F (sA s) t1); eauto.
        - eapply (far_root th s c Hth Rc t1 t2 F (sB s) t1); eauto. }
      assert (T2 : 0 <= t2 <= 1) by (destruct (pos_prod _ _ X), (pos_prod _ _ Y); lra).
      cbn [In]. split; [intros [<-|[<-|[]]]; auto|]. intros [[-> _]|[-> _]]; auto.
Qed.
