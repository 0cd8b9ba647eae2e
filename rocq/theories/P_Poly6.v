(** * Polylines: extreme points, parallelograms, regular polygons *)

From Coq Require Import Reals Lra Lia List Bool Arith ZArith Permutation.
From Verif Require Import Num M_LP M_Seg M_Poly S_Geom S_Seg S_Poly P_LP P_LP2 P_LP3 P_LP4 P_Seg P_Seg2 P_Seg3 P_Seg4 P_Poly P_Poly2 P_Poly3 P_Poly4 P_Poly5.
Import ListNotations.
Local Open Scope R_scope.

(** ** Extreme points *)
Definition keyB (p : pt R) := mkPt (py p) (px p).
Definition keyT (p : pt R) := mkPt (- py p) (px p).
Definition keyL (p : pt R) := mkPt (px p) (py p).
Definition keyR (p : pt R) := mkPt (- px p) (py p).
Lemma lt_keys p q : ltBm p q = ptLt (keyB p) (keyB q) /\ ltTm p q = ptLt (keyT p) (keyT q) /\
  ltLm p q = ptLt (keyL p) (keyL q) /\ ltRm p q = ptLt (keyR p) (keyR q).
Proof.
  unfold ltBm, ltTm, ltLm, ltRm, keyB, keyT, keyL, keyR.
  repeat split; apply eq_true_iff_eq; rewrite ptLt_spec; unfold lexlt; cbn [px py]; rnum; repeat rcase1; rclean;
    split; intros H; auto; try discriminate; try (left; lra); try (right; lra); destruct H as [H|H]; lra.
Qed.
Lemma minElem_ext {A} (f g : A -> A -> bool) l : (forall a b, f a b = g a b) -> minElem f l = minElem g l.
Proof.
  intros E. destruct l as [|x l]; [reflexivity|]. cbn [minElem]. generalize 0%nat at 1 3. generalize 1%nat. revert x.
  induction l as [|y l IH]; intros x i b; [reflexivity|]. cbn [minElemFrom]. rewrite E. destruct (g y x); apply IH.
Qed.
Lemma extreme_key (lt : pt R -> pt R -> bool) key pts : (forall p q, lt p q = ptLt (key p) (key q)) -> pts <> [] ->
  exists i, (i < length pts)%nat /\ extremePoint lt pts = Ok (nth i pts pt00, i) /\
    (forall q, In q pts -> ~ lexlt (key q) (key (nth i pts pt00))) /\
    (forall j, (j < i)%nat -> lexlt (key (nth i pts pt00)) (key (nth j pts pt00))).
Proof.
  intros K N.
  destruct (minElem_spec (fun p q => ptLt (key p) (key q)) pt00 (fun a => ptLt_irr _) (fun a b c => ptLt_tr _ _ _)
             (fun a b c => ptLt_tr2 _ _ _) (fun a b c => ptLt_ntr _ _ _) pts N) as (B & M & F).
  exists (minElem (fun p q => ptLt (key p) (key q)) pts). split; [auto|]. split; [|split].
  - unfold extremePoint. destruct pts; [congruence|]. now rewrite (minElem_ext _ _ _ K).
  - intros q Hq. destruct (In_nth _ _ pt00 Hq) as (j & Hj & <-). apply ptLt_false. auto.
  - intros j Hj. apply ptLt_spec. auto.
Qed.

(** ** Input check *)
Lemma noConsecEq_spec th pts : noConsecEq th pts = true <-> forall e, In e (chain pts) -> nullDistance th <= edist (fst e) (snd e).
Proof.
  induction pts as [|p [|q r] IH]; [cbn; tauto|cbn; tauto|].
  change (noConsecEq th (p :: q :: r)) with (negb (ptEq th p q) && noConsecEq th (q :: r)).
  change (chain (p :: q :: r)) with ((p, q) :: chain (q :: r)).
  rewrite andb_true_iff, negb_true_iff, ptEq_false, IH. split.
  - intros [A B] e [<-|I]; auto.
  - intros H. split; [apply (H (p, q)); now left|]. intros e I. apply H. now right.
Qed.
Lemma plCheck_spec th pts : pts <> [] -> plCheck th pts = true <-> forall e, In e (cyc pts) -> nullDistance th <= edist (fst e) (snd e).
Proof.
  intros N. unfold plCheck. rewrite andb_true_iff, noConsecEq_spec, negb_true_iff, ptEq_false, (cyc_chain pts pt00 N). split.
  - intros [A B] e I. apply in_app_or in I. destruct I as [I|[<-|[]]]; auto. cbn [fst snd]. now rewrite edist_sym.
  - intros H. split; [intros e I; apply H, in_or_app; auto|]. rewrite edist_sym. apply (H (last pts pt00, hd pt00 pts)), in_or_app. right. now left.
Qed.
Lemma plSet_ok th pts : (2 <= length pts)%nat -> (forall e, In e (cyc pts) -> nullDistance th <= edist (fst e) (snd e)) ->
  plSet th pts = Ok (plFresh pts).
Proof.
  intros L H. assert (pts <> []) by (destruct pts; [cbn in L; lia|discriminate]). unfold plSet.
  destruct (Nat.eqb_spec (length pts) 1); [lia|]. rewrite (proj2 (plCheck_spec th pts H0) H). now rewrite andb_false_r.
Qed.
Lemma plSet_inv th pts pl : plSet th pts = Ok pl -> pl = plFresh pts /\ length pts <> 1%nat /\
  (forall e, In e (cyc pts) -> nullDistance th <= edist (fst e) (snd e)).
Proof.
  unfold plSet. destruct (Nat.eqb_spec (length pts) 1); [discriminate|]. destruct ((1 <? length pts)%nat && negb (plCheck th pts)) eqn:E; [discriminate|].
  intros H. apply Ok_inj in H. split; auto. split; auto. destruct pts as [|p r]; [cbn; tauto|]. apply plCheck_spec; [discriminate|].
  destruct (Nat.ltb_spec 1 (length (p :: r))); [|cbn [length] in *; lia]. cbn [andb] in E. now apply negb_false_iff in E.
Qed.
Lemma plSet_throw th pts : length pts = 1%nat \/ (exists e, (2 <= length pts)%nat /\ In e (cyc pts) /\ edist (fst e) (snd e) < nullDistance th) -> plSet th pts = Throw.
Proof.
  intros [H|(e & L & I & H)]; unfold plSet; [now rewrite H|]. destruct (_ =? _)%nat; [reflexivity|].
  destruct (Nat.ltb_spec 1 (length pts)); [|lia]. cbn [andb]. destruct (plCheck th pts) eqn:E; [|reflexivity].
  rewrite plCheck_spec in E by (destruct pts; [cbn in L; lia|discriminate]). specialize (E e I). lra.
Qed.

(** ** Parallelogram *)
Lemma parallelogram_ok th p1 p2 p3 l l' : thr_ok th -> dirOK th p1 p2 -> dirOK th p3 p2 ->
  lineOf th p1 p2 = Ok l -> lineOf th p3 p2 = Ok l' -> isParallel th l l' = false ->
  plParallelogram th p1 p2 p3 = Ok (plFresh [p1; p2; p3; mkPt (px p1 + px p3 - px p2) (py p1 + py p3 - py p2)]).
Proof.
  intros Hth D D' E E' NP. unfold plParallelogram. rewrite E, E'. cbn [bind].
  destruct (lineOf_inv _ _ _ _ E) as [L1 N1]. destruct (lineOf_inv _ _ _ _ E') as [L2 N2].
  rewrite !getParallelLine_ok by eauto using lnorm_stored. cbn [bind].
  set (m := mkL (la l) (lb l) _). set (m' := mkL (la l') (lb l') _).
  destruct (lineOf_proper th _ _ _ Hth E) as [U1 _]. destruct (lineOf_proper th _ _ _ Hth E') as [U2 _].
  assert (proper m) as Pm by exact (unit_proper _ U1). assert (proper m') as Pm' by exact (unit_proper _ U2).
  destruct (meet_total th m m' Hth Pm Pm' NP) as (q & Em). rewrite Em. cbn [bind].
  destruct (lineOf_on th _ _ _ Hth E D) as [A1 A2]. destruct (lineOf_on th _ _ _ Hth E' D') as [B1 B2].
  set (p4 := mkPt (px p1 + px p3 - px p2) (py p1 + py p3 - py p2)).
  assert (p4 = q) as <-.
  { apply (meet_unique th m m' q); auto; unfold onL, m, m', p4 in *; cbn [la lb lc px py] in *; rnum; lra. }
  apply plSet_ok; [cbn; lia|].
  assert (edist p3 p4 = edist p1 p2) as D34 by (unfold edist, p4; cbn [px py]; f_equal; unfold Rsqr; ring).
  assert (edist p4 p1 = edist p3 p2) as D41 by (unfold edist, p4; cbn [px py]; f_equal; unfold Rsqr; ring).
  intros e. cbn [cyc app combine In]. intros [<-|[<-|[<-|[<-|[]]]]]; cbn [fst snd]; rewrite ?D34, ?D41; auto. now rewrite edist_sym.
Qed.

(** ** Regular polygons *)
Lemma lnorm_raw th l l' : thr_ok th -> lnorm th l = Ok l' -> la l = 0 \/ nullDenom th * hypot (la l) (lb l) <= Rabs (la l) ->
  exists k, k <> 0 /\ l' = scaleL k l.
Proof.
  intros Hth H Hz. destruct (lnorm_inv th l l' Hth H) as (Hs & Ha & _ & _ & _ & [(k & Hk & _ & ->)|[Hf _]]); [eauto|].
  exfalso. pose proof (thr_deps th Hth). set (s := hypot (la l) (lb l)) in *.
  rewrite Ha in Hf. destruct Hz as [Z|Z].
  - rewrite Z, Rabs_R0 in Hf. unfold Rdiv in Hf. rewrite Rmult_0_l in Hf. lra.
  - destruct Hf as [_ Hf]. apply (Rmult_lt_compat_r s) in Hf; [|lra]. unfold Rdiv in Hf. rewrite Rmult_assoc, Rinv_l in Hf by lra. lra.
Qed.
Definition circPt (rad a : R) : pt R := mkPt (cos a * rad) (sin a * rad).
Lemma circ_dist rad a b : 0 <= rad -> 0 <= sin ((b - a) / 2) -> edist (circPt rad a) (circPt rad b) = 2 * rad * sin ((b - a) / 2).
Proof.
  intros Hr Hs. apply edist_val; [apply Rmult_le_pos; lra|]. unfold circPt; cbn [px py].
  assert (cos (b - a) = 1 - 2 * sin ((b - a) / 2) * sin ((b - a) / 2)) as C.
  { replace (b - a) with (2 * ((b - a) / 2)) at 1 by field. now rewrite cos_2a_sin. }
  assert (sin ((b - a) / 2) * sin ((b - a) / 2) = (1 - cos (b - a)) / 2) as C2 by (rewrite C; field).
  replace (2 * rad * sin ((b - a) / 2) * (2 * rad * sin ((b - a) / 2))) with (4 * rad * rad * (sin ((b - a) / 2) * sin ((b - a) / 2))) by ring.
  rewrite C2, cos_minus. pose proof (sin2_cos2 a) as A1. pose proof (sin2_cos2 b) as A2. unfold Rsqr in *.
  transitivity (rad * rad * ((sin a * sin a + cos a * cos a) + (sin b * sin b + cos b * cos b) - 2 * (cos b * cos a + sin b * sin a))); [rewrite A1, A2; field|ring].
Qed.
Lemma circ_norm rad a : 0 <= rad -> edist (mkPt 0 0) (circPt rad a) = rad.
Proof.
  intros Hr. apply edist_val; auto. unfold circPt; cbn [px py]. pose proof (sin2_cos2 a) as A. unfold Rsqr in A.
  transitivity (rad * rad * (sin a * sin a + cos a * cos a)); [rewrite A; ring|ring].
Qed.

Lemma rcp_circ rad n i : rcpPoint rad n i = circPt rad (2 * (PI / INR n) * INR i).
Proof.
  unfold rcpPoint, circPt. cbn zeta. rnum. rewrite <- !INR_IZR_INZ.
  replace (2 * PI / INR n * INR i) with (2 * (PI / INR n) * INR i) by (unfold Rdiv; ring). reflexivity.
Qed.
Lemma half_angle n : (3 <= n)%nat -> 0 < PI / INR n /\ PI / INR n <= PI / 3 /\ 0 < sin (PI / INR n) /\ 1 / 2 <= cos (PI / INR n) /\ 2 * (PI / INR n) * INR n = 2 * PI.
Proof.
  intros L. pose proof PI_RGT_0 as P. assert (3 <= INR n) as N by (apply le_INR in L; cbn in L; lra).
  assert (0 < PI / INR n) as A by (apply Rdiv_lt_0_compat; lra).
  assert (PI / INR n <= PI / 3) as B. { apply Rmult_le_compat_l; [lra|]. apply Rinv_le_contravar; lra. }
  split; [auto|]. split; [auto|]. split; [apply sin_gt_0; lra|]. split.
  - rewrite <- cos_PI3. apply cos_decr_1; lra.
  - field. lra.
Qed.
Lemma rcp_sides rad n e : (3 <= n)%nat -> 0 < rad -> In e (cyc (map (rcpPoint rad n) (seq 0 n))) ->
  edist (fst e) (snd e) = 2 * rad * sin (PI / INR n).
Proof.
  intros L Hr H. destruct (half_angle n L) as (A & B & C & D & E). rewrite cyc_map in H. apply in_map_iff in H. destruct H as ([i j] & <- & H).
  destruct (In_nth _ _ (0%nat, 0%nat) H) as (k & Hk & Ek). rewrite cyc_length, seq_length in Hk.
  rewrite nth_cyc in Ek by (now rewrite seq_length). rewrite seq_length in Ek. injection Ek as Ei Ej.
  rewrite seq_nth in Ei by auto. rewrite seq_nth in Ej by (now apply nextIdx_bound). cbn [Nat.add] in *. subst i j. cbn [fst snd].
  rewrite !rcp_circ. unfold nextIdx. destruct (Nat.eqb_spec k (n - 1)) as [->|N].
  - rewrite edist_sym. rewrite minus_INR by lia. cbn [INR].
    assert ((2 * (PI / INR n) * (INR n - 1) - 2 * (PI / INR n) * 0) / 2 = PI - PI / INR n) as X. { rewrite Rmult_minus_distr_l, E. field. assert (3 <= INR n) by (apply le_INR in L; cbn in L; lra). lra. }
    rewrite circ_dist; rewrite ?X, ?sin_PI_x; auto; lra.
  - rewrite plus_INR. cbn [INR].
    assert ((2 * (PI / INR n) * (INR k + 1) - 2 * (PI / INR n) * INR k) / 2 = PI / INR n) as X by (unfold Rdiv; field; assert (3 <= INR n) by (apply le_INR in L; cbn in L; lra); lra).
    rewrite circ_dist; rewrite ?X; auto; lra.
Qed.
Lemma rcp_ok th rad n : thr_ok th -> (3 <= n)%nat -> 0 < rad ->
  nullDistance th <= 2 * rad * sin (PI / INR n) -> dblEpsilon th < 2 * rad * sin (PI / INR n) -> dblEpsilon th < rad * cos (PI / INR n) ->
  nullDenom th <= sin (PI / INR n) ->
  plRCP th rad n = Ok (plFresh (map (rcpPoint rad n) (seq 0 n)), 2 * rad * sin (PI / INR n), rad * cos (PI / INR n)).
Proof.
  intros Hth L Hr HD HE HC HS. pose proof (thr_deno th Hth) as HN. destruct (half_angle n L) as (A & B & C & D & E). set (h := PI / INR n) in *.
  unfold plRCP. destruct (Nat.ltb_spec n 3); [lia|]. rnum. rewrite (proj2 (Rleb_false rad 0)) by lra. cbn zeta.
  assert (rcpPoint rad n 0 = mkPt rad 0) as R0. { rewrite rcp_circ. unfold circPt. cbn [INR]. rewrite Rmult_0_r, cos_0, sin_0. f_equal; ring. }
  assert (rcpPoint rad n 1 = circPt rad (2 * h)) as R1. { rewrite rcp_circ. fold h. cbn [INR]. now rewrite Rmult_1_r. }
  set (P0 := mkPt rad 0) in *. set (P1 := circPt rad (2 * h)) in *. rewrite R1.
  assert (edist P0 P1 = 2 * rad * sin h) as D01.
  { rewrite <- R0, rcp_circ. cbn [INR]. rewrite Rmult_0_r. unfold P1. assert ((2 * h - 0) / 2 = h) as X by field. rewrite circ_dist; rewrite ?X; auto; lra. }
  assert (nullDistance th <= edist P0 P1) as ND by (rewrite D01; exact HD).
  rewrite (svNew_ok_any th KSeg P0 P1 ND). cbn [bind].
  assert (S := sd_cases (P0, P1)). unfold sd in S. cbn [fst snd] in S. set (sg := segOrder (mkSeg P0 P1)) in *.
  assert (sin (2 * h) = 2 * sin h * cos h) as S2 by apply sin_2a.
  assert (cos (2 * h) = 2 * cos h * cos h - 1) as C2 by (rewrite cos_2a_cos; ring).
  set (c := circPt (rad * cos h) h).
  assert (svCenter sg = c) as Ec.
  { unfold svCenter, c, circPt, P0, P1 in *. destruct S as [->| ->]; cbn [sA sB px py]; rnum; unfold circPt; cbn [px py]; rewrite S2, C2; f_equal; field. }
  rewrite Ec. unfold lineFromOrigin.
  assert (crossPP (hOfPt c) (hOfPt pt00) = mkL (py c) (- px c) 0) as EX. { unfold crossPP, hOfPt, pt00; cbn [h0 h1 h2 px py]; rnum. f_equal; ring. }
  rewrite EX.
  assert (0 < rad * cos h) as RC by (apply Rmult_lt_0_compat; lra).
  assert (hypot (py c) (- px c) = rad * cos h) as HY.
  { apply hypot_val; [lra|]. unfold c, circPt; cbn [px py]. pose proof (sin2_cos2 h) as Q. unfold Rsqr in Q.
    transitivity (rad * cos h * (rad * cos h) * (sin h * sin h + cos h * cos h)); [rewrite Q; ring|ring]. }
  destruct (lnorm_ok th (mkL (py c) (- px c) 0)) as (li & Eli); [cbn [la lb]; rewrite HY; exact HC|]. rewrite Eli. cbn [bind].
  assert (nullDenom th > 0) as DN by (pose proof (thr_deno th Hth); lra).
  destruct (lnorm_raw th _ li Hth Eli) as (k & Hk & Ek).
  { right. cbn [la lb]. rewrite HY. unfold c, circPt; cbn [px py]. rewrite Rabs_right; [|apply Rle_ge, Rmult_le_pos; lra]. apply Rmult_le_compat_r; lra. }
  destruct (lnorm_unit th _ _ Hth Eli) as [Uli _].
  assert (okSeg th sg) as OK. { assert (O : okSeg th (mkSeg P0 P1)) by (split; cbn [sA sB]; [exact ND|rewrite D01; exact HE]). exact (sd_ok th (P0, P1) O). }
  assert (dirOK th P0 P1) as DI.
  { right. rewrite D01. unfold P0, P1, circPt; cbn [px py]. rewrite S2. rewrite Rabs_left1.
    - assert (0 <= 2 * rad * sin h * (cos h - nullDenom th)) by (apply Rmult_le_pos; [apply Rmult_le_pos|]; lra). lra.
    - assert (0 <= 2 * sin h * cos h * rad) by (repeat apply Rmult_le_pos; lra). lra. }
  assert (dirOK th (sA sg) (sB sg)) as DSG by (exact (sd_dirOK th (P0, P1) DI)).
  destruct (svLine_ok th sg Hth OK) as (l2 & E2). destruct (lineOf_inv _ _ _ _ E2) as [_ E2'].
  destruct (lnorm_raw th _ l2 Hth E2') as (k2 & Hk2 & Ek2).
  { cbn [la lb]. rewrite lineOf_hypot. destruct DSG as [Z|Z]; [left; lra|right; auto]. }
  destruct (lineOf_proper th _ _ _ Hth E2) as [U2 _].
  assert (orthoL li l2) as OR.
  { unfold orthoL. rewrite Ek, Ek2. unfold scaleL; cbn [la lb].
    assert (py c * (py (sA sg) - py (sB sg)) + - px c * (px (sB sg) - px (sA sg)) = 0) as Z.
    { rewrite <- Ec. unfold svCenter. cbn [px py]. rnum.
      transitivity (((px (sA sg) * px (sA sg) + py (sA sg) * py (sA sg)) - (px (sB sg) * px (sB sg) + py (sB sg) * py (sB sg))) / 2); [field|].
      pose proof (sin2_cos2 (2 * h)) as Q. unfold Rsqr in Q.
      assert (cos (2 * h) * rad * (cos (2 * h) * rad) + sin (2 * h) * rad * (sin (2 * h) * rad) = rad * rad) as Q'.
      { transitivity (rad * rad * (sin (2 * h) * sin (2 * h) + cos (2 * h) * cos (2 * h))); [ring|rewrite Q; ring]. }
      destruct S as [->| ->]; cbn [sA sB]; unfold P0, P1, circPt; cbn [px py]; rewrite Q'; field. }
    transitivity (k * k2 * (py c * (py (sA sg) - py (sB sg)) + - px c * (px (sB sg) - px (sA sg)))); [ring|rewrite Z; ring]. }
  assert (segHas sg c) as HAS.
  { exists (1 / 2). split; [lra|]. rewrite <- Ec. unfold svCenter; cbn [px py]; rnum. split; field. }
  assert (onL li c) as ON. { unfold onL. rewrite Ek. unfold scaleL; cbn [la lb lc]. ring. }
  rewrite (segInterLine_complete th sg c li l2); auto; [|now apply ortho_notpar]. cbn [bind].
  rewrite plSet_ok; [|rewrite map_length, seq_length; lia|].
  2:{ intros e I. rewrite (rcp_sides rad n e L Hr I). exact HD. }
  cbn [bind]. f_equal. f_equal; [f_equal|].
  - assert (forall i, (i < n)%nat -> nth i (map (rcpPoint rad n) (seq 0 n)) pt00 = rcpPoint rad n i) as NT.
    { intros i Hi. rewrite (nth_indep _ _ (rcpPoint rad n 0)) by (now rewrite map_length, seq_length). rewrite map_nth, seq_nth by auto. reflexivity. }
    rewrite !NT by lia. rewrite R0, R1, distPP_edist. exact D01.
  - rewrite distPP_edist. apply circ_norm. lra.
Qed.
