(** * Proofs about circles: radius of the objects over histories, witnesses *)

From Coq Require Import Reals ZArith List Bool Lra Lia Permutation.
From Verif Require Import Num M_LP M_Seg M_Circle S_Geom S_Seg S_Circle P_LP P_LP2 P_LP3 P_LP4 P_LP5 P_Seg P_Seg2 P_Seg3 P_Circle P_Circle2 P_Circle3.
Import ListNotations.
Local Open Scope R_scope.
Implicit Types (p q a b : pt R) (th : thrs R) (s : seg R).

Lemma cSet3_apart th p q r c : thr_ok th -> cSet3 th p q r = Ok c ->
  exists u v, In u [p; q; r] /\ In v [p; q; r] /\ nullDistance th <= edist u v.
Proof.
  intros Hth. unfold cSet3. destruct (areCollinear th p q r) as [[|]| |]; try discriminate. cbn [bind].
  destruct (getLargestDistancePoints p q r) as [[x y] m] eqn:G.
  destruct (svNew th KSeg x y) as [s1| |] eqn:E; try discriminate. intros _.
  destruct (svNew_inv _ _ _ _ _ Hth E) as (A & _). destruct (largest_spec _ _ _ _ _ _ G) as (_ & K).
  exists x, y. repeat destruct K as [K|K]; injection K as -> -> ->; cbn [In]; tauto.
Qed.
Lemma trivial_apart th B c : thr_ok th -> minCircleTrivial th B = Ok c -> (2 <= length B)%nat ->
  exists u v, In u B /\ In v B /\ nullDistance th <= edist u v.
Proof.
  intros Hth H Hl. destruct B as [|x [|y [|z [|w B]]]]; cbn [length] in Hl; try lia; try discriminate.
  - cbn [minCircleTrivial] in H. destruct (cSet2_inv _ _ _ _ Hth H) as (_ & _ & _ & A & A'). exists x, y. cbn [In]. split; [auto|]. split; [auto|]. lra.
  - cbn [minCircleTrivial] in H. destruct (cSet2 th x y) as [c1| |] eqn:E; try discriminate.
    destruct (cSet2_inv _ _ _ _ Hth E) as (_ & _ & _ & A & A'). exists x, y. cbn [In]. split; [auto|]. split; [auto|]. lra.
Qed.
Lemma trivial_zero th B c : minCircleTrivial th B = Ok c -> (length B <= 1)%nat -> cr c = 0.
Proof.
  intros H Hl. destruct B as [|x [|y B]]; cbn [length] in Hl; try lia; cbn [minCircleTrivial] in H; unfold cNew in H;
    (destruct (radiusOk _ _ _); [|discriminate]); apply Ok_inj in H; subst c; reflexivity.
Qed.
Lemma not_in_zero p (d : circle R) : cr d = 0 -> ptInCircle p d = false.
Proof.
  intros Z. destruct (ptInCircle p d) eqn:E; auto. apply ptInCircle_spec in E. unfold inOpen in E. pose proof (edist_pos (cc d) p). lra.
Qed.

Lemma welzl_perm th rnd n : forall P B k c P' k', (n <= length P)%nat -> welzl th rnd n P B k = Ok (c, P', k') ->
  length P' = length P /\ Permutation (firstn n P') (firstn n P) /\ skipn n P' = skipn n P.
Proof.
  induction n as [|m IH]; intros P B k c P' k' Hn H.
  - cbn [welzl] in H. destruct (minCircleTrivial th B) as [c0| |] eqn:E; try discriminate. cbn [bind] in H.
    apply Ok_inj in H. injection H as <- <- <-. auto.
  - cbn [welzl] in H. destruct (Nat.eqb (length B) 3).
    + destruct (minCircleTrivial th B) as [c0| |] eqn:E; try discriminate. cbn [bind] in H.
      apply Ok_inj in H. injection H as <- <- <-. auto.
    + cbv zeta in H. set (idx := Nat.modulo (rnd k) (S m)) in *.
      assert (Hi : (idx <= m)%nat). { pose proof (Nat.mod_upper_bound (rnd k) (S m)). unfold idx. lia. }
      clearbody idx. set (d0 := mkPt (nZ 0) (nZ 0)) in *.
      destruct (swap_spec d0 P idx m) as (S1 & S2 & S3); [lia|]. cbv zeta in S1, S2, S3.
      set (p := nth idx P d0) in *. set (P1 := swapNth d0 P idx m) in *. clearbody P1 p.
      destruct (welzl th rnd m P1 B (S k)) as [[[d P2] k2]| |] eqn:W1; try discriminate. cbn [bind] in H.
      destruct (IH P1 B (S k) d P2 k2 ltac:(lia) W1) as (L2 & Pm2 & Sk2).
      assert (Fin : forall Q, length Q = length P1 -> Permutation (firstn m Q) (firstn m P1) -> skipn m Q = skipn m P1 ->
        length Q = length P /\ Permutation (firstn (S m) Q) (firstn (S m) P) /\ skipn (S m) Q = skipn (S m) P).
      { intros Q LQ PQ SQ. rewrite S3 in SQ. destruct (firstn_S_skip _ _ _ _ SQ) as [F1 F2].
        split; [congruence|]. split; [|exact F2]. rewrite F1, <- S1. rewrite <- Permutation_cons_append. now constructor. }
      destruct (ptInCircle p d) eqn:EI.
      * apply Ok_inj in H. injection H as <- <- <-. now apply Fin.
      * destruct (IH P2 (B ++ [p]) k2 c P' k' ltac:(lia) H) as (L3 & Pm3 & Sk3).
        apply Fin; [congruence| |congruence]. now rewrite Pm3, Pm2.
Qed.

(** A run of p_WelzlHelper that returns has seen two points at least nullDistance apart, unless at
    most one point is involved (and then the radius is 0). *)
Lemma welzl_apart th rnd n : thr_ok th -> forall P B k c P' k', (n <= length P)%nat -> welzl th rnd n P B k = Ok (c, P', k') ->
  ((n + length B <= 1)%nat -> cr c = 0) /\
  ((2 <= n + length B)%nat -> exists u v, In u (firstn n P ++ B) /\ In v (firstn n P ++ B) /\ nullDistance th <= edist u v).
Proof.
  intros Hth. induction n as [|m IH]; intros P B k c P' k' Hn H.
  - cbn [welzl] in H. destruct (minCircleTrivial th B) as [c0| |] eqn:E; try discriminate. cbn [bind] in H.
    apply Ok_inj in H. injection H as <- <- <-. split; intros L.
    + now apply (trivial_zero th B).
    + rewrite firstn_O, app_nil_l. now apply (trivial_apart th B c0).
  - cbn [welzl] in H. destruct (Nat.eqb (length B) 3) eqn:E3.
    + apply Nat.eqb_eq in E3. destruct (minCircleTrivial th B) as [c0| |] eqn:E; try discriminate. cbn [bind] in H.
      apply Ok_inj in H. injection H as <- <- <-. split; [intros L; lia|intros _].
      destruct (trivial_apart th B c0 Hth E ltac:(lia)) as (u & v & Hu & Hv & Huv). exists u, v.
      split; [apply in_or_app; auto|]. split; [apply in_or_app; auto|auto].
    + clear E3. cbv zeta in H. set (idx := Nat.modulo (rnd k) (S m)) in *.
      assert (Hi : (idx <= m)%nat). { pose proof (Nat.mod_upper_bound (rnd k) (S m)). unfold idx. lia. }
      clearbody idx. set (d0 := mkPt (nZ 0) (nZ 0)) in *.
      destruct (swap_spec d0 P idx m) as (S1 & S2 & S3); [lia|]. cbv zeta in S1, S2, S3.
      set (p := nth idx P d0) in *. set (P1 := swapNth d0 P idx m) in *. clearbody P1 p.
      destruct (welzl th rnd m P1 B (S k)) as [[[d P2] k2]| |] eqn:W1; try discriminate. cbn [bind] in H.
      destruct (welzl_perm th rnd m P1 B (S k) d P2 k2 ltac:(lia) W1) as (L2 & Pm2 & Sk2).
      destruct (IH P1 B (S k) d P2 k2 ltac:(lia) W1) as [Z1 A1].
      assert (Ip : In p (firstn (S m) P)) by (apply (Permutation_in _ S1); now left).
      assert (I1 : forall u, In u (firstn m P1) -> In u (firstn (S m) P)) by (intros u Hu; apply (Permutation_in _ S1); now right).
      assert (I2 : forall u, In u (firstn m P2) -> In u (firstn (S m) P)) by (intros u Hu; apply I1; apply (Permutation_in _ Pm2); auto).
      assert (ex1 : (2 <= m + length B)%nat -> exists u v, In u (firstn (S m) P ++ B) /\ In v (firstn (S m) P ++ B) /\ nullDistance th <= edist u v).
      { intros Hm. destruct (A1 Hm) as (u & v & Hu & Hv & Huv). exists u, v.
        apply in_app_or in Hu. apply in_app_or in Hv.
        split; [apply in_or_app; destruct Hu; auto|]. split; [apply in_or_app; destruct Hv; auto|auto]. }
      destruct (le_lt_dec 2 (m + length B)) as [Hm|Hm]; [split; [lia|auto]|].
      assert (Zd : cr d = 0) by (apply Z1; lia). rewrite (not_in_zero p d Zd) in H.
      destruct (IH P2 (B ++ [p]) k2 c P' k' ltac:(lia) H) as [Z2 A2]. rewrite app_length in Z2, A2. cbn [length] in Z2, A2.
      split; [intros; apply Z2; lia|]. intros Hm2. destruct (A2 ltac:(lia)) as (u & v & Hu & Hv & Huv). exists u, v.
      assert (Q : forall w, In w (firstn m P2 ++ B ++ [p]) -> In w (firstn (S m) P ++ B)).
      { intros w Hw. apply in_or_app. apply in_app_or in Hw. destruct Hw as [Hw|Hw]; auto. apply in_app_or in Hw.
        destruct Hw as [Hw|[<-|[]]]; auto. }
      auto.
Qed.

Lemma mec_radius pts c u v : isMEC pts c -> In u pts -> In v pts -> edist u v / 2 <= cr c.
Proof.
  intros [I _] Hu Hv. pose proof (I u Hu) as A. pose proof (I v Hv) as B. unfold inDisc in *.
  pose proof (edist_triang u (cc c) v) as T. rewrite (edist_sym u (cc c)) in T. lra.
Qed.

Lemma cSetPts_flag th rnd pts c : fst (cSetPts th false rnd pts) = Ok c -> snd (cSetPts th false rnd pts) = false.
Proof.
  destruct pts as [|p1 [|p2 [|p3 [|p4 pts]]]]; try reflexivity. unfold cSetPts.
  destruct (do (c0, _, _) <- _; _) as [c1| |]; cbn [fst snd]; intros; auto; discriminate.
Qed.

Lemma cSetPts_big th rnd pts c : thr_ok th -> zoneFreePts th pts -> fst (cSetPts th false rnd pts) = Ok c -> nullDistance th / 2 <= cr c.
Proof.
  intros Hth Hz H. destruct (Nat.eq_dec (length pts) 3) as [E3|N3].
  - destruct pts as [|p1 [|p2 [|p3 [|p4 pts]]]]; try discriminate. cbn [cSetPts fst] in H.
    assert (Z : forall u v, In u [p1; p2; p3] -> In v [p1; p2; p3] -> dirOK th u v /\ vertOK th u v) by exact Hz.
    destruct (cSet3_spec th p1 p2 p3 c Hth H) as (B1 & B2 & B3); try (apply Z; cbn; tauto).
    destruct (cSet3_apart th p1 p2 p3 c Hth H) as (u & v & Hu & Hv & Huv).
    assert (Eu : forall w, In w [p1; p2; p3] -> edist (cc c) w = cr c) by (intros w [<-|[<-|[<-|[]]]]; auto).
    pose proof (edist_triang u (cc c) v) as T. rewrite (edist_sym u (cc c)) in T. rewrite !Eu in T by auto. lra.
  - pose proof (cSetPts_mec th false rnd pts c Hth N3 Hz H) as M.
    assert (exists u v, In u pts /\ In v pts /\ nullDistance th <= edist u v) as (u & v & Hu & Hv & Huv).
    { destruct pts as [|p1 [|p2 [|p3 [|p4 pts]]]]; try discriminate; try (exfalso; apply N3; reflexivity).
      - cbn [cSetPts fst] in H. destruct (cSet2_inv th p1 p2 c Hth H) as (_ & _ & _ & A & B).
        exists p1, p2. cbn [In]. split; [auto|]. split; [auto|]. lra.
      - set (L := p1 :: p2 :: p3 :: p4 :: pts) in *. unfold cSetPts in H. fold L in H.
        change (fst (match (do (c0, _, _) <- welzl th rnd (length L) L [] 0; cNew th true (cc c0) (cr c0)) with
          | Ok c1 => (Ok c1, false) | Throw => (Throw, true) | Undef => (Undef, true) end) = Ok c) in H.
        destruct (welzl th rnd (length L) L [] 0) as [[[c0 P'] k']| |] eqn:W; try discriminate.
        destruct (welzl_apart th rnd (length L) Hth L [] 0%nat c0 P' k' (le_n _) W) as [_ A].
        rewrite firstn_all, app_nil_r in A. apply A. unfold L. cbn [length]. lia. }
    pose proof (mec_radius pts c u v M Hu Hv). lra.
Qed.

Lemma cNew_big th p (r : R) c : thr_ok th -> cNew th false p r = Ok c -> nullDistance th <= cr c.
Proof.
  intros Hth H. unfold cNew, radiusOk in H. rnum. destruct (Rltb (Rabs r) (nullDistance th)) eqn:E; [discriminate|].
  destruct (Rltb r 0) eqn:F; [discriminate|]. cbn [andb negb] in H. apply Ok_inj in H. subst c. cbn [cr]. rclean.
  rewrite Rabs_right in E by lra. lra.
Qed.

Lemma cStep_big th c op : thr_ok th -> safeOp th op -> nullDistance th / 2 <= cr c ->
  exists c', cStep th (c, false) op = (c', false) /\ nullDistance th / 2 <= cr c'.
Proof.
  intros Hth Hs Hr. pose proof (thr_dist th Hth). destruct op as [p r|r|p|dx dy|p q|p q r|rnd pts]; cbn [safeOp] in Hs; try tauto; cbn [cStep].
  - eexists. split; [reflexivity|]. destruct (cNew th false p r) as [c'| |] eqn:E; auto. pose proof (cNew_big _ _ _ _ Hth E). lra.
  - eexists. split; [reflexivity|]. exact Hr.
  - eexists. split; [reflexivity|]. exact Hr.
  - eexists. split; [reflexivity|]. destruct (cSet2 th p q) as [c'| |] eqn:E; auto. destruct (cSet2_inv _ _ _ _ Hth E) as (_ & _ & _ & _ & A). exact A.
  - eexists. split; [reflexivity|]. destruct (cSet3 th p q r) as [c'| |] eqn:E; auto.
    apply (cSetPts_big th (fun _ => O) [p; q; r] c' Hth Hs). exact E.
  - destruct Hs as [Hz [c' E]]. pose proof (cSetPts_flag _ _ _ _ E) as F. destruct (cSetPts th false rnd pts) as [r0 f0] eqn:G.
    cbn [fst snd] in E, F. subst r0 f0. exists c'. split; [reflexivity|]. apply (cSetPts_big th rnd pts c' Hth Hz). now rewrite G.
Qed.

Lemma cRun_big th ops : thr_ok th -> Forall (safeOp th) ops -> forall c, nullDistance th / 2 <= cr c ->
  exists c', cRun th (c, false) ops = (c', false) /\ nullDistance th / 2 <= cr c'.
Proof.
  intros Hth H. induction H as [|op ops Hop _ IH]; intros c Hc.
  - exists c. split; [reflexivity|auto].
  - destruct (cStep_big th c op Hth Hop Hc) as (c1 & E1 & H1). destruct (IH c1 H1) as (c2 & E2 & H2).
    exists c2. split; [|auto]. unfold cRun in *. cbn [fold_left]. now rewrite E1.
Qed.

(** ** The circle through three points exists *)

Lemma equi_dir l a b : unitL l -> a <> b -> (forall x, onL l x <-> edist x a = edist x b) ->
  exists k, la l = k * (px b - px a) /\ lb l = k * (py b - py a) /\ Rabs k * edist a b = 1.
Proof.
  intros U N H. pose proof (edist_neq a b N) as P. pose proof (edist_sq a b) as Sq.
  set (dx := px b - px a). set (dy := py b - py a).
  assert (S : edist a b * edist a b = dx * dx + dy * dy) by (rewrite Sq; unfold dx, dy; ring).
  assert (S0 : 0 < dx * dx + dy * dy) by (rewrite <- S; now apply Rmult_lt_0_compat).
  assert (M1 : onL l (mkPt ((px a + px b) / 2) ((py a + py b) / 2))).
  { apply H. apply edist_eq_sq. cbn [px py]. field. }
  assert (M2 : onL l (mkPt ((px a + px b) / 2 - dy) ((py a + py b) / 2 + dx))).
  { apply H. apply edist_eq_sq. cbn [px py]. unfold dx, dy. field. }
  unfold onL, onLH in M1, M2. cbn [px py] in M1, M2.
  assert (Z : lb l * dx = la l * dy) by lra. clear M1 M2 H.
  exists ((la l * dx + lb l * dy) / (dx * dx + dy * dy)).
  assert (E1 : la l = (la l * dx + lb l * dy) / (dx * dx + dy * dy) * dx).
  { apply Rmult_eq_reg_r with (dx * dx + dy * dy); [|lra].
    transitivity ((la l * dx + lb l * dy) * dx); [|field; lra].
    replace (la l * (dx * dx + dy * dy)) with (la l * dx * dx + (la l * dy) * dy) by ring. rewrite <- Z. ring. }
  assert (E2 : lb l = (la l * dx + lb l * dy) / (dx * dx + dy * dy) * dy).
  { apply Rmult_eq_reg_r with (dx * dx + dy * dy); [|lra].
    transitivity ((la l * dx + lb l * dy) * dy); [|field; lra].
    replace (lb l * (dx * dx + dy * dy)) with ((lb l * dx) * dx + lb l * dy * dy) by ring. rewrite Z. ring. }
  split; [exact E1|]. split; [exact E2|].
  set (k := (la l * dx + lb l * dy) / (dx * dx + dy * dy)) in *. clearbody k.
  apply Rsqr_inj; [apply Rmult_le_pos; [apply Rabs_pos|lra]|lra|]. unfold Rsqr.
  replace (Rabs k * edist a b * (Rabs k * edist a b)) with (Rabs k * Rabs k * (edist a b * edist a b)) by ring.
  rewrite S, <- Rabs_mult, (Rabs_right (k * k)) by (apply Rle_ge, sqp).
  unfold unitL in U. rewrite E1, E2 in U. lra.
Qed.

Lemma bisectors_notpar th a b m l1 l2 : thr_ok th -> nullAngleValue th <= 1 -> a <> b -> a <> m -> unitL l1 -> unitL l2 ->
  (forall x, onL l1 x <-> edist x a = edist x b) -> (forall x, onL l2 x <-> edist x a = edist x m) ->
  wideAt (nullAngleValue th) a b m -> isParallel th l1 l2 = false.
Proof.
  intros Hth Hn N1 N2 U1 U2 H1 H2 W. apply notParallel_eval; auto.
  destruct (equi_dir l1 a b U1 N1 H1) as (k1 & A1 & B1 & K1). destruct (equi_dir l2 a m U2 N2 H2) as (k2 & A2 & B2 & K2).
  rewrite A1, A2, B1, B2.
  replace (k1 * (px b - px a) * (k2 * (px m - px a)) + k1 * (py b - py a) * (k2 * (py m - py a)))
    with ((k1 * k2) * ((px b - px a) * (px m - px a) + (py b - py a) * (py m - py a))) by ring.
  rewrite !Rabs_mult. unfold wideAt in W.
  apply Rmult_le_compat_l with (r := Rabs k1 * Rabs k2) in W; [|apply Rmult_le_pos; apply Rabs_pos].
  eapply Rle_trans; [exact W|].
  replace (Rabs k1 * Rabs k2 * ((1 - nullAngleValue th * nullAngleValue th / 2) * (edist a b * edist a m)))
    with ((1 - nullAngleValue th * nullAngleValue th / 2) * ((Rabs k1 * edist a b) * (Rabs k2 * edist a m))) by ring.
  rewrite K1, K2. lra.
Qed.

Lemma svNew_seg_ok th p q : thr_ok th -> dblEpsilon th < nullDistance th -> nullDistance th <= edist p q -> dirOK th p q -> vertOK th p q ->
  exists s l, svNew th KSeg p q = Ok s /\ svBisector th s = Ok l.
Proof.
  intros Hth Hd H D V. unfold svNew. rewrite (proj2 (ptEq_false th p q) H). eexists.
  assert (K : exists l, svBisector th (segOrder (mkSeg p q)) = Ok l).
  { unfold segOrder. cbn [sA sB]. destruct (fixOrder p q) as [u v] eqn:F. apply fixOrder_spec in F. destruct F as [_ F].
    destruct (svBisector_spec th (mkSeg u v) Hth) as (l & El & _); [| | |exists l; exact El].
    - unfold okSeg; cbn [sA sB]. destruct F as [[-> ->]|[-> ->]]; [|rewrite edist_sym]; lra.
    - destruct F as [[-> ->]|[-> ->]]; cbn [sA sB]; auto using dirOK_sym.
    - destruct F as [[-> ->]|[-> ->]]; cbn [sA sB]; auto using vertOK_sym. }
  destruct K as (l & El). exists l. split; [reflexivity|exact El].
Qed.

Lemma cSet3_total th p q r : thr_ok th -> dblEpsilon th < nullDistance th -> nullAngleValue th <= 1 -> zoneFreePts th [p; q; r] ->
  ~ thinTriangle (nullDistance th) p q r ->
  wideAt (nullAngleValue th) p q r -> wideAt (nullAngleValue th) q p r -> wideAt (nullAngleValue th) r p q ->
  exists c, cSet3 th p q r = Ok c.
Proof.
  intros Hth Hd Hn Z T W1 W2 W3. unfold cSet3.
  assert (Zp : forall u v, In u [p; q; r] -> In v [p; q; r] -> dirOK th u v /\ vertOK th u v) by exact Z.
  destruct (areCollinear_char th p q r Hth Hd) as (b & Eb & Hb); try (apply Zp; cbn; tauto).
  rewrite Eb. cbn [bind]. destruct b; [exfalso; apply T; now apply Hb|].
  destruct (getLargestDistancePoints p q r) as [[a b] m] eqn:G. apply largest_spec in G. destruct G as [_ G].
  assert (Dd : forall u v, edist u v < nullDistance th \/ nullDistance th <= edist u v) by (intros; lra).
  assert (Wc : forall x y z, wideAt (nullAngleValue th) x y z -> wideAt (nullAngleValue th) x z y).
  { intros x y z H. unfold wideAt in *. rewrite (Rmult_comm (edist x z)).
    match goal with |- Rabs ?X <= _ => match type of H with Rabs ?Y <= _ => replace X with Y by ring end end. exact H. }
  assert (F : In a [p; q; r] /\ In b [p; q; r] /\ In m [p; q; r] /\ nullDistance th <= edist a b /\ nullDistance th <= edist a m
              /\ wideAt (nullAngleValue th) a b m).
  { unfold thinTriangle in T.
    assert (nullDistance th <= edist p q /\ nullDistance th <= edist q r /\ nullDistance th <= edist p r) as (T1 & T2 & T3).
    { destruct (Dd p q), (Dd q r), (Dd p r); tauto. }
    pose proof (edist_sym p q). pose proof (edist_sym q r). pose proof (edist_sym p r).
    repeat destruct G as [G|G]; injection G as -> -> ->; cbn [In]; repeat split; auto; lra. }
  destruct F as (Ia & Ib & Im & D1 & D2 & W). destruct (Zp a b Ia Ib) as [Z1 Z2]. destruct (Zp a m Ia Im) as [Z3 Z4].
  destruct (svNew_seg_ok th a b Hth Hd D1 Z1 Z2) as (s1 & l1 & S1 & L1). destruct (svNew_seg_ok th a m Hth Hd D2 Z3 Z4) as (s2 & l2 & S2 & L2).
  rewrite S1, S2. cbn [bind]. rewrite L1, L2. cbn [bind].
  destruct (bisector_ok th a b s1 l1 Hth S1 L1 Z1 Z2) as [U1 H1]. destruct (bisector_ok th a m s2 l2 Hth S2 L2 Z3 Z4) as [U2 H2].
  pose proof (thr_dist th Hth).
  assert (N : isParallel th l1 l2 = false).
  { apply (bisectors_notpar th a b m); auto; intros E; subst; rewrite edist_refl in *; lra || idtac. }
  rewrite N. destruct (meet_total th l1 l2 Hth (unit_proper _ U1) (unit_proper _ U2) N) as (o & ->). cbn [bind]. eexists. reflexivity.
Qed.
