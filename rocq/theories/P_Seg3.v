(** * Lemmas about segments: parallel segments, extension, intersection *)

From Coq Require Import Reals ZArith List Bool Lra Psatz.
From Verif Require Import Num M_LP M_Seg S_Geom S_Seg P_LP P_LP2 P_LP3 P_LP4 P_LP5 P_Seg P_Seg2.
Import ListNotations.
Local Open Scope R_scope.
Implicit Types (p q r a b A B : pt R) (s : seg R) (l : line R) (th : thrs R).

(** ** Parallel segments *)
Lemma edist_moved p q x y : edist (moved p x y) (moved q x y) = edist p q.
Proof. unfold edist, moved; cbn [px py]. f_equal. unfold Rsqr. ring. Qed.
Lemma edist_moved1 p x y : edist p (moved p x y) = hypot x y.
Proof. rewrite edist_hypot. unfold moved; cbn [px py]. rewrite <- hypot_opp. f_equal; ring. Qed.
Lemma foot th l lo p d q : thr_ok th -> unitL l -> orthOK th l -> onL l p -> getOrthogLine th l p = Ok lo ->
  meet th lo (mkL (la l) (lb l) (lc l + d)) = Ok q -> q = moved p (- d * la l) (- d * lb l).
Proof.
  intros Hth U OO Hp Ho Hm. destruct (getOrthogLine_same th l p lo Hth U OO Ho) as (Sm & Or & On & Uo).
  symmetry. eapply (meet_unique th lo (mkL (la l) (lb l) (lc l + d))); eauto.
  - now apply unit_proper.
  - apply unit_proper. exact U.
  - apply (proj2 (Sm _)). unfold onL, moved; cbn [la lb lc px py]. ring.
  - unfold onL, unitL, moved in *; cbn [la lb lc px py].
    replace (la l * (px p + - d * la l) + lb l * (py p + - d * lb l) + (lc l + d))
      with (la l * px p + lb l * py p + lc l + d * (1 - (la l * la l + lb l * lb l))) by ring.
    rewrite Hp, U. ring.
Qed.
Lemma foot_ok th l lo p d : thr_ok th -> unitL l -> orthOK th l -> onL l p -> getOrthogLine th l p = Ok lo ->
  meet th lo (mkL (la l) (lb l) (lc l + d)) = Ok (moved p (- d * la l) (- d * lb l)).
Proof.
  intros Hth U OO Hp Ho. destruct (getOrthogLine_same th l p lo Hth U OO Ho) as (Sm & Or & On & Uo).
  assert (U' : unitL (mkL (la l) (lb l) (lc l + d))) by exact U.
  destruct (meet_total th lo (mkL (la l) (lb l) (lc l + d)) Hth) as (q & E).
  - now apply unit_proper.
  - now apply unit_proper.
  - apply ortho_notpar; auto. unfold orthoL in *; cbn [la lb]. lra.
  - rewrite E. f_equal. eapply foot; eauto.
Qed.

(** Left unit normal of AB. *)
Definition leftN A B : R * R := ((py A - py B) / edist A B, (px B - px A) / edist A B).

Lemma parallel_pts th s l d : thr_ok th -> okSeg th s -> dirOK th (sA s) (sB s) -> vertOK th (sA s) (sB s) ->
  svLine th s = Ok l -> 0 < d ->
  exists lo1 lo2, getOrthogLine th l (sA s) = Ok lo1 /\ getOrthogLine th l (sB s) = Ok lo2 /\
    let '(nx, ny) := leftN (sA s) (sB s) in
    exists e, (e = d \/ e = - d) /\ (e = d <-> 0 < e) /\
      meet th lo1 (mkL (la l) (lb l) (lc l - d)) = Ok (moved (sA s) (e * nx) (e * ny)) /\
      meet th lo2 (mkL (la l) (lb l) (lc l - d)) = Ok (moved (sB s) (e * nx) (e * ny)) /\
      meet th lo1 (mkL (la l) (lb l) (lc l + d)) = Ok (moved (sA s) (- e * nx) (- e * ny)) /\
      meet th lo2 (mkL (la l) (lb l) (lc l + d)) = Ok (moved (sB s) (- e * nx) (- e * ny)).
Proof.
  intros Hth Hs D V El Hd. unfold svLine in El. destruct (lineOf_proper th _ _ _ Hth El) as [U _].
  destruct (lineOf_on th _ _ _ Hth El D) as [O1 O2]. pose proof (lineOf_vert _ _ _ _ Hth El D V) as OO.
  destruct (getOrthogLine_total th l (sA s) Hth U) as (lo1 & E1). destruct (getOrthogLine_total th l (sB s) Hth U) as (lo2 & E2).
  exists lo1, lo2. split; auto. split; auto. unfold leftN.
  destruct (lineOf_scaled th _ _ _ Hth El D) as (k & Hk & Ek & Hl).
  destruct Hs as [HL _]. pose proof (thr_dist th Hth) as T. set (L := edist (sA s) (sB s)) in *.
  assert (HL' : 0 < L) by lra. pose proof (absk k L HL' Ek) as AK.
  pose proof (foot_ok th l lo1 (sA s) d Hth U OO O1 E1) as F1. pose proof (foot_ok th l lo2 (sB s) d Hth U OO O2 E2) as F2.
  pose proof (foot_ok th l lo1 (sA s) (- d) Hth U OO O1 E1) as F3. pose proof (foot_ok th l lo2 (sB s) (- d) Hth U OO O2 E2) as F4.
  change (lc l + - d) with (lc l - d) in *.
  destruct AK as [-> | ->]; [exists d|exists (- d)]; (split; [auto|]); (split; [split; intros; lra|]);
    rewrite F1, F2, F3, F4; rewrite Hl; unfold scaleL, rawL; cbn [la lb];
    repeat split; f_equal; apply pt_eq; unfold moved; cbn [px py]; field; lra.
Qed.
Lemma leftN_unit A B : A <> B -> let '(nx, ny) := leftN A B in nx * nx + ny * ny = 1.
Proof.
  intros H. unfold leftN. pose proof (edist_neq A B H). pose proof (edist_sq A B) as S.
  set (L := edist A B) in *.
  replace ((py A - py B) / L * ((py A - py B) / L) + (px B - px A) / L * ((px B - px A) / L))
    with (((px A - px B) * (px A - px B) + (py A - py B) * (py A - py B)) / (L * L)) by (field; lra).
  rewrite <- S. field. lra.
Qed.
Lemma leftN_cross A B e : A <> B -> let '(nx, ny) := leftN A B in
  cross3 A B (moved A (e * nx) (e * ny)) = e * edist A B.
Proof.
  intros H. unfold leftN, cross3, moved; cbn [px py]. pose proof (edist_neq A B H). pose proof (edist_sq A B) as S.
  set (L := edist A B) in *.
  replace ((px B - px A) * (py A + e * ((px B - px A) / L) - py A) - (py B - py A) * (px A + e * ((py A - py B) / L) - px A))
    with (e * (((px A - px B) * (px A - px B) + (py A - py B) * (py A - py B)) / L)) by (field; lra).
  rewrite <- S. field. lra.
Qed.
Lemma leftN_dist2 A B e : A <> B -> let '(nx, ny) := leftN A B in
  edist B (moved A (e * nx) (e * ny)) * edist B (moved A (e * nx) (e * ny)) = edist A B * edist A B + e * e.
Proof.
  intros H. pose proof (leftN_unit A B H) as U. unfold leftN in *. rewrite edist_sq. unfold moved; cbn [px py].
  pose proof (edist_neq A B H). pose proof (edist_sq A B) as S. set (L := edist A B) in *. rewrite S.
  set (nx := (py A - py B) / L) in *. set (ny := (px B - px A) / L) in *.
  assert (X : nx * (px B - px A) + ny * (py B - py A) = 0) by (unfold nx, ny; field; lra).
  replace ((px B - (px A + e * nx)) * (px B - (px A + e * nx)) + (py B - (py A + e * ny)) * (py B - (py A + e * ny)))
    with ((px A - px B) * (px A - px B) + (py A - py B) * (py A - py B)
          - 2 * e * (nx * (px B - px A) + ny * (py B - py A)) + e * e * (nx * nx + ny * ny)) by ring.
  rewrite X, U. ring.
Qed.
Lemma svParallelSegs_o th s d : thr_ok th -> okSeg th s -> dirOK th (sA s) (sB s) -> vertOK th (sA s) (sB s) ->
  nullDistance th <= d ->
  let '(nx, ny) := leftN (sA s) (sB s) in
  svParallelSegs th KOSeg s d =
    Ok (mkSeg (moved (sA s) (d * nx) (d * ny)) (moved (sB s) (d * nx) (d * ny)),
        mkSeg (moved (sA s) (- d * nx) (- d * ny)) (moved (sB s) (- d * nx) (- d * ny))).
Proof.
  intros Hth Hs D V Hd. pose proof (thr_dist th Hth) as T. pose proof (okSeg_neq th s Hth Hs) as Hn.
  destruct (svLine_ok th s Hth Hs) as (l & El).
  destruct (parallel_pts th s l d Hth Hs D V El ltac:(lra)) as (lo1 & lo2 & E1 & E2 & K).
  pose proof (leftN_unit _ _ Hn) as U. pose proof (fun e => leftN_cross _ _ e Hn) as C. pose proof (fun e => leftN_dist2 _ _ e Hn) as C2.
  destruct (leftN (sA s) (sB s)) as [nx ny]. destruct K as (e & He & Hs' & M3 & M4 & M1 & M2).
  unfold svParallelSegs. rnum. rewrite (proj2 (Rleb_false d 0)) by lra. rewrite El. cbn [bind]. unfold getParallelLines. rnum.
  rewrite E1, E2. cbn [bind]. rewrite M1, M2, M3, M4. cbn [bind].
  assert (HL : nullDistance th <= edist (sA s) (sB s)) by apply Hs.
  assert (Abs : Rabs e = d). { unfold Rabs. destruct (Rcase_abs e), He; lra. }
  destruct (svPointSide_spec th s (moved (sA s) (e * nx) (e * ny))) as (sd & Esd & SL & SR & SN).
  - apply ptEq_false. rewrite edist_sym, edist_moved1, hypot_scale, (hypot_unit _ _ U). lra.
  - apply ptEq_false. rewrite edist_sym. specialize (C2 e).
    set (g := edist (sB s) (moved (sA s) (e * nx) (e * ny))) in *. assert (0 <= g) by apply edist_pos.
    set (L := edist (sA s) (sB s)) in *. pose proof (sqp e). nra.
  - rewrite Esd. cbn [bind]. rewrite C in *.
    assert (HLp : 0 < edist (sA s) (sB s)) by lra.
    destruct He as [-> | ->].
    + assert (Q : 0 < d * edist (sA s) (sB s)) by (apply Rmult_lt_0_compat; lra).
      rewrite (proj2 SL) by auto. rewrite !svNew_ok by (rewrite edist_moved; auto). reflexivity.
    + assert (Q : - d * edist (sA s) (sB s) < 0) by nra.
      rewrite (proj2 SR) by auto. rewrite !svNew_ok by (rewrite edist_moved; auto). cbn [bind].
      rewrite !Ropp_involutive. reflexivity.
Qed.
Lemma svParallelSegs_s th s d : thr_ok th -> okSeg th s -> dirOK th (sA s) (sB s) -> vertOK th (sA s) (sB s) ->
  lexlt (sA s) (sB s) -> 0 < d ->
  let '(nx, ny) := leftN (sA s) (sB s) in exists e, (e = d \/ e = - d) /\
  svParallelSegs th KSeg s d =
    Ok (mkSeg (moved (sA s) (e * nx) (e * ny)) (moved (sB s) (e * nx) (e * ny)),
        mkSeg (moved (sA s) (- e * nx) (- e * ny)) (moved (sB s) (- e * nx) (- e * ny))).
Proof.
  intros Hth Hs D V O Hd. destruct (svLine_ok th s Hth Hs) as (l & El).
  destruct (parallel_pts th s l d Hth Hs D V El ltac:(lra)) as (lo1 & lo2 & E1 & E2 & K).
  destruct (leftN (sA s) (sB s)) as [nx ny]. destruct K as (e & He & Hs' & M3 & M4 & M1 & M2).
  exists (- e). split. { destruct He; [right|left]; lra. }
  unfold svParallelSegs. rnum. rewrite (proj2 (Rleb_false d 0)) by lra. rewrite El. cbn [bind]. unfold getParallelLines. rnum.
  rewrite E1, E2. cbn [bind]. rewrite M1, M2, M3, M4. cbn [bind].
  assert (HL : nullDistance th <= edist (sA s) (sB s)) by apply Hs.
  rewrite !svNew_ok_seg by (rewrite ?edist_moved; auto; apply lexlt_moved; auto). cbn [bind]. rewrite !Ropp_involutive. reflexivity.
Qed.

(** ** Extension *)
Lemma along_on_line th s l t : thr_ok th -> svLine th s = Ok l -> dirOK th (sA s) (sB s) -> onL l (along (sA s) (sB s) t).
Proof.
  intros Hth El D. destruct (lineOf_on th _ _ _ Hth El D) as [O1 O2]. unfold onL, along in *; cbn [px py].
  replace (la l * (px (sA s) + t * (px (sB s) - px (sA s))) + lb l * (py (sA s) + t * (py (sB s) - py (sA s))) + lc l)
    with ((1 - t) * (la l * px (sA s) + lb l * py (sA s) + lc l) + t * (la l * px (sB s) + lb l * py (sB s) + lc l)) by ring.
  rewrite O1, O2. ring.
Qed.
Lemma ext_pts th s l t : thr_ok th -> okSeg th s -> svLine th s = Ok l -> dirOK th (sA s) (sB s) -> lexlt (sA s) (sB s) ->
  lineCircle l (along (sA s) (sB s) t) (edist (sA s) (sB s)) =
    Some (along (sA s) (sB s) (t - 1), along (sA s) (sB s) (t + 1)).
Proof.
  intros Hth Hs El D O. destruct (lineOf_proper th _ _ _ Hth El) as [U _]. pose proof (unit_proper _ U) as P.
  pose proof (okSeg_neq th s Hth Hs) as Hn.
  set (L := edist (sA s) (sB s)). assert (HL : 0 <= L) by apply edist_pos.
  pose proof (along_on_line th s l t Hth El D) as Oc.
  assert (Ec : forall e, Rabs e = 1 -> onCircle (along (sA s) (sB s) t) L (along (sA s) (sB s) (t + e))).
  { intros e He. unfold onCircle. apply edist_val; auto. unfold L at 1 2. rewrite edist_sq. unfold along; cbn [px py].
    assert (E : e * e = 1). { replace (e * e) with (Rabs e * Rabs e); [rewrite He; ring|]. rewrite <- Rabs_mult. apply Rabs_right. pose proof (sqp e). lra. }
    match goal with |- ?u = ?v => replace v with ((e * e) * u) by ring end. rewrite E. ring. }
  destruct (lineCircle l (along (sA s) (sB s) t) L) as [[a b]|] eqn:E.
  - destruct (lineCircle_some _ _ _ _ _ P HL E) as (NL & _ & _ & _ & _ & _ & _ & K).
    pose proof (K _ (along_on_line th s l (t + -1) Hth El D) (Ec (-1) ltac:(rewrite Rabs_left; lra))) as K1.
    pose proof (K _ (along_on_line th s l (t + 1) Hth El D) (Ec 1 ltac:(rewrite Rabs_right; lra))) as K2.
    change (t - 1) with (t + -1).
    destruct K1 as [K1|K1], K2 as [K2|K2]; try (rewrite <- K1, <- K2; reflexivity).
    + exfalso. rewrite <- K2 in K1. apply (along_inj _ _ _ _ Hn) in K1. lra.
    + exfalso. apply NL. rewrite <- K1, <- K2. apply along_lex; auto. lra.
    + exfalso. rewrite <- K2 in K1. apply (along_inj _ _ _ _ Hn) in K1. lra.
  - exfalso. apply (lineCircle_none _ _ _ P HL) in E. rewrite (proj2 (lineDist_zero _ _ P) Oc) in E. lra.
Qed.
Lemma svExtended_spec th s : thr_ok th -> okSeg th s -> dirOK th (sA s) (sB s) -> lexlt (sA s) (sB s) ->
  svExtended th s = Ok (mkSeg (along (sA s) (sB s) (-1)) (along (sA s) (sB s) 2)).
Proof.
  intros Hth Hs D O. unfold svExtended, svConvert.
  assert (Eo : segOrder s = s). { unfold segOrder. rewrite (fixOrder_id _ _ O). destruct s; reflexivity. }
  rewrite Eo. destruct (svLine_ok th s Hth Hs) as (l & El). rewrite El. cbn [bind].
  unfold svLength. change (@distPP R RNum) with edist.
  pose proof (edist_pos (sA s) (sB s)) as HL. destruct Hs as [Hs1 Hs2].
  unfold radiusOk; rnum. rewrite (Rabs_right (edist (sA s) (sB s))) by lra.
  rewrite (proj2 (Rltb_false _ (nullDistance th))) by auto. rewrite (proj2 (Rltb_false _ 0)) by auto. cbn [andb negb].
  pose proof (ext_pts th s l 0 Hth (conj Hs1 Hs2) El D O) as X1. pose proof (ext_pts th s l 1 Hth (conj Hs1 Hs2) El D O) as X2.
  rewrite along_0 in X1. rewrite along_1 in X2. rewrite X1, X2. cbn [fst snd].
  replace (0 - 1) with (-1) by ring. replace (1 + 1) with 2 by ring.
  apply svNew_ok_seg.
  - assert (E : edist (along (sA s) (sB s) (-1)) (along (sA s) (sB s) 2) = 3 * edist (sA s) (sB s)).
    { apply edist_val; [lra|]. replace (3 * edist (sA s) (sB s) * (3 * edist (sA s) (sB s))) with (9 * (edist (sA s) (sB s) * edist (sA s) (sB s))) by ring.
      rewrite edist_sq. unfold along; cbn [px py]. ring. }
    rewrite E. lra.
  - apply along_lex; auto. lra.
Qed.

(** ** Segment/segment *)
Lemma svEq_sym th s s' : svEq th s s' = svEq th s' s.
Proof.
  unfold svEq. rewrite (ptEq_sym th (sA s')), (ptEq_sym th (sB s')).
  destruct (ptEq th (sA s) (sA s')), (ptEq th (sB s) (sB s')); reflexivity.
Qed.
Lemma line_cross0 th s l p : thr_ok th -> svLine th s = Ok l -> dirOK th (sA s) (sB s) -> onL l p -> cross3 (sA s) (sB s) p = 0.
Proof.
  intros Hth El D Hp. pose proof (lineOf_same th _ _ _ Hth El D p) as S. apply S in Hp. unfold onL in Hp; cbn [la lb lc] in Hp.
  rewrite cross3_line_raw in Hp. exact Hp.
Qed.
Lemma seg_on_line th s l p : thr_ok th -> svLine th s = Ok l -> dirOK th (sA s) (sB s) -> segHas s p -> onL l p.
Proof.
  intros Hth El D Hp. apply onSeg_along in Hp. destruct Hp as (t & _ & ->). eapply along_on_line; eauto.
Qed.
Lemma segInterSeg_sound th s s' p : thr_ok th -> dirOK th (sA s) (sB s) -> dirOK th (sA s') (sB s') ->
  segInterSeg th s s' = Ok (Some p) ->
  (exists x, segHas s x /\ edist p x < nullDistance th / 2) /\ (exists x, segHas s' x /\ edist p x < nullDistance th / 2) /\
  cross3 (sA s) (sB s) p = 0 /\ cross3 (sA s') (sB s') p = 0.
Proof.
  intros Hth D D'. unfold segInterSeg. destruct (svEq th s s'); [discriminate|]. intros H.
  apply bind_ok in H. destruct H as (l1 & E1 & H). apply bind_ok in H. destruct H as (l2 & E2 & H).
  destruct (isParallel th l1 l2) eqn:Ep; [discriminate|]. apply bind_ok in H. destruct H as (q & Eq & H). rnum.
  change (@distPP R RNum) with edist in H. unfold svLength in H. change (@distPP R RNum) with edist in H.
  destruct (Rltb _ _) eqn:C1 in H; [|discriminate]. destruct (Rltb _ _) eqn:C2 in H; [|discriminate]. injection H as ->. rclean.
  destruct (lineOf_proper th _ _ _ Hth E1) as [U1 _]. destruct (lineOf_proper th _ _ _ Hth E2) as [U2 _].
  destruct (meet_on th l1 l2 p Hth (unit_proper _ U1) (unit_proper _ U2) Eq) as [O1 O2].
  pose proof (line_cross0 th s l1 p Hth E1 D O1) as Z1. pose proof (line_cross0 th s' l2 p Hth E2 D' O2) as Z2.
  destruct (lineOf_inv _ _ _ _ E1) as [N1 _]. destruct (lineOf_inv _ _ _ _ E2) as [N2 _]. pose proof (thr_dist th Hth) as T.
  assert (Ne : forall A B, nullDistance th <= edist A B -> A <> B). { intros A B H E. rewrite E, edist_refl in H. lra. }
  split; [|split; [|auto]].
  - apply near_seg; auto. apply Rle_lt_trans with (2 := C1). apply RRle_abs.
  - apply near_seg; auto. apply Rle_lt_trans with (2 := C2). apply RRle_abs.
Qed.
Lemma segInterSeg_complete th s s' p l l' : thr_ok th -> dirOK th (sA s) (sB s) -> dirOK th (sA s') (sB s') ->
  svLine th s = Ok l -> svLine th s' = Ok l' -> isParallel th l l' = false -> svEq th s s' = false ->
  segHas s p -> segHas s' p -> segInterSeg th s s' = Ok (Some p).
Proof.
  intros Hth D D' E1 E2 Ep Eq H H'. unfold segInterSeg. rewrite Eq, E1, E2. cbn [bind]. rewrite Ep.
  destruct (lineOf_proper th _ _ _ Hth E1) as [U1 _]. destruct (lineOf_proper th _ _ _ Hth E2) as [U2 _].
  destruct (meet_total th l l' Hth (unit_proper _ U1) (unit_proper _ U2) Ep) as (q & Em). rewrite Em. cbn [bind].
  assert (p = q).
  { eapply (meet_unique th l l'); eauto using unit_proper, seg_on_line. }
  subst q. unfold svLength. change (@distPP R RNum) with edist. rnum. pose proof (thr_dist th Hth) as T.
  rewrite (onSeg_dist _ _ _ H), (onSeg_dist _ _ _ H'). rewrite !Rminus_diag_eq, Rabs_R0 by reflexivity.
  rewrite (proj2 (Rltb_spec 0 _) T). reflexivity.
Qed.
Lemma segInterSeg_sym th s s' : thr_ok th -> okSeg th s -> okSeg th s' -> segInterSeg th s s' = segInterSeg th s' s.
Proof.
  intros Hth Hs Hs'. unfold segInterSeg. rewrite (svEq_sym th s' s). destruct (svEq th s s'); auto.
  destruct (svLine_ok th s Hth Hs) as (l & El). destruct (svLine_ok th s' Hth Hs') as (l' & El').
  rewrite El, El'. cbn [bind].
  destruct (lineOf_proper th _ _ _ Hth El) as [U1 _]. destruct (lineOf_proper th _ _ _ Hth El') as [U2 _].
  rewrite (isParallel_sym th l' l), (meet_sym th l' l) by auto using unit_proper.
  destruct (isParallel th l l'); auto. destruct (meet th l l'); cbn [bind]; auto.
  match goal with |- (if ?x then if ?y then _ else _ else _) = _ => destruct x, y; reflexivity end.
Qed.
