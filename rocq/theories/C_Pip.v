(** * Properties C57, C104-C107: point, segment, rectangle and polyline inside a polygon *)

From Coq Require Import Reals Lra Lia List Bool Arith ZArith Floats.
From Verif Require Import Num M_LP M_Seg M_Circle M_Poly M_FRect M_Pip S_Geom S_Seg S_Poly S_FRect S_Pip P_LP P_LP2 P_LP3 P_LP4 P_Seg P_Seg2 P_Seg3 P_BB P_FRect P_FRect2 P_Poly P_Poly2 P_Poly4 P_Poly5 P_Poly7 P_Parity P_Pip P_Pip2 P_Pip3.
Import ListNotations.
Local Open Scope R_scope.

(** ** C57 *)

(** Full statement: the answer is the even-odd rule for every simple polygon and every point off its sides.
    An L: (1,2) is inside, on the prolongation of the side (4,2)-(2,2). *)
Definition ell : list (pt R) := [mkPt 0 0; mkPt 4 0; mkPt 4 2; mkPt 2 2; mkPt 2 4; mkPt 0 4].
Lemma ell_ok : okSides thr0 ell.
Proof. intros e. cbn [cyc ell app combine In]. intros [<-|[<-|[<-|[<-|[<-|[<-|[]]]]]]]; cbn [fst snd]; [side_ok 4|side_ok 2|side_ok 2|side_ok 2|side_ok 2|side_ok 4]. Qed.
Lemma ell_simple : val (plIsSimple thr0 true (plFresh ell)) = Ok true.
Proof.
  rewrite val_isSimple by (cbn; lia). apply simple_true; [apply thr0_ok|cbn; lia|apply okSides_wide, ell_ok|]. intros e f N.
  destruct (nonAdj_in _ _ _ N) as [Ie If]. apply meets_gap; [apply thr0_ok|now apply (okSides_dir _ _ ell_ok)|now apply (okSides_dir _ _ ell_ok)|].
  clear Ie If. destruct (nonAdj_index _ _ _ N) as (i & j & H & H' & -> & ->). cbn [length ell] in H, H'.
  assert (i = 0 /\ j = 2 \/ i = 0 /\ j = 3 \/ i = 0 /\ j = 4 \/ i = 1 /\ j = 3 \/ i = 1 /\ j = 4 \/ i = 1 /\ j = 5 \/ i = 2 /\ j = 4 \/ i = 2 /\ j = 5 \/ i = 3 /\ j = 5)%nat as K by lia.
  pose proof thr0_small. repeat (destruct K as [[-> ->]|K]); [..|destruct K as [-> ->]]; cbn [nth cyc ell app combine fst snd px py]; unfold Rmin, Rmax;
  repeat match goal with |- context [Rle_dec ?a ?b] => destruct (Rle_dec a b) end; try lra.
Qed.
Lemma ell_box : isBox ell (mkR (mkPt 0 0) (mkPt 4 4)).
Proof.
  split; [intros p; cbn [ell In]; intros [<-|[<-|[<-|[<-|[<-|[<-|[]]]]]]]; unfold inR; cbn; lra|].
  cbn [r1 r2 px py ell In]. split; [exists (mkPt 0 0); auto|]. split; [exists (mkPt 4 0); auto|]. split; [exists (mkPt 0 0); auto|exists (mkPt 2 4); cbn; auto 7].
Qed.
Theorem C57_refuted : exists pts p, okSides thr0 pts /\ val (plIsSimple thr0 true (plFresh pts)) = Ok true /\ insideEO pts p /\ offSides pts p /\
  ptInPolyB thr0 true (plFresh pts) p = Ok false.
Proof.
  exists ell, (mkPt 1 2). split; [apply ell_ok|]. split; [apply ell_simple|]. split; [|split].
  - exists 1%nat. split; [|exists 0%nat; reflexivity]. unfold ell, cyc. cbn [app combine].
    do 3 (apply count_no; [unfold crossR; cbn [fst snd px py]; lra|]). apply count_yes; [unfold crossR; cbn [fst snd px py]; lra|].
    do 2 (apply count_no; [unfold crossR; cbn [fst snd px py]; lra|]). constructor.
  - intros e I. cbn [cyc ell app combine In] in I. intros O. apply onSeg_along in O. destruct O as (t & T & E).
    destruct I as [<-|[<-|[<-|[<-|[<-|[<-|[]]]]]]]; unfold along in E; cbn [fst snd px py] in E; injection E; intros; lra.
  - destruct (fresh_simple _ _ ell_simple) as (pl & E). unfold ptInPolyB, ptInPoly. rewrite E. cbn [bind negb plFresh plPts]. pose proof thr0_small as TS.
    assert (nullOrthogDistance (thr0 (T := R)) <= 1) as TO by (unfold thr0; cbn [nullOrthogDistance]; rnum; lra).
    rewrite (plBB_ok thr0 ell (mkR (mkPt 0 0) (mkPt 4 4)) thr0_ok); [|cbn; lia|apply ell_box|cbn [r1 r2 px py]; lra|cbn [r1 r2 px py]; lra|eapply Rle_trans; [|apply edist_ge_x]; cbn [r1 r2 px]; unfold Rabs; destruct (Rcase_abs _); lra].
    cbn [bind]. rewrite (proj2 (ptInRect_spec (mkPt 1 2) _)) by (unfold inRO; cbn; lra). cbn [negb]. rewrite (sd_map thr0 ell) by (try (cbn; lia); apply okSides_wide, ell_ok). cbn [bind].
    assert (forall l e, In e l -> (forall f, In f l -> okSeg thr0 (mkSeg (fst f) (snd f)) /\ dirOK thr0 (fst f) (snd f)) -> cross3 (fst e) (snd e) (mkPt 1 2) = 0 ->
       anyM (fun s => do l <- svLine thr0 s; Ok (lineDist l (mkPt 1 2) <? nullDistance thr0)%num) (map sd l) = Ok true) as G.
    { intros l e. induction l as [|f l IH]; intros I O Z; [destruct I|]. cbn [map anyM]. destruct (O f (or_introl eq_refl)) as [Of Df].
      destruct (svLine_ok thr0 (sd f) thr0_ok (sd_ok thr0 f Of)) as (ln & El). rewrite El. cbn [bind]. rnum. destruct (Rltb (lineDist ln (mkPt 1 2)) (nullDistance thr0)) eqn:L; auto.
      apply IH; auto; [|intros; apply O; now right]. destruct I as [<-|]; auto. exfalso. apply Rltb_false in L. pose proof (thr_dist _ thr0_ok).
      unfold svLine in El. rewrite (lineOf_dist thr0 _ _ ln (mkPt 1 2) thr0_ok El) in L by (apply (sideOf_dir thr0 (sd f) f); auto; apply sideOf_sd).
      rewrite (proj2 (sideOf_cross (sd f) f (mkPt 1 2) (sideOf_sd f)) Z), Rabs_R0 in L. unfold Rdiv in L. rewrite Rmult_0_l in L. lra. }
    rewrite (G (cyc ell) (mkPt 4 2, mkPt 2 2)); [reflexivity|cbn; auto|apply ell_ok|unfold cross3; cbn [fst snd px py]; ring].
Qed.
Print Assumptions C57_refuted.
(** The function throws after five attempts when a vertex is close to each of the five reference segments:
    a comb, in doubles (coordinates times 4). *)
Definition comb : list (Z * Z) := [(0,0);(128,0);(128,128);(0,128);(32,64);(16,56);(32,48);(16,44);(32,40);(16,38);(32,36);(16,35);(32,34)]%Z.
Definition quarter (c : Z * Z) : pt float := mkPt (@ndiv _ FNum (@nZ _ FNum (fst c)) (@nZ _ FNum 4)) (@ndiv _ FNum (@nZ _ FNum (snd c)) (@nZ _ FNum 4)).
Theorem C57_throws_refuted : exists (pts : list (pt float)) (p : pt float), ptInPolyB (N := FNum) (thr0 (N := FNum)) true (plFresh pts) p = Throw /\
  (exists pl, plIsSimple (N := FNum) (thr0 (N := FNum)) true (plFresh pts) = Ok (true, pl)).
Proof. exists (map quarter comb), (quarter (64, 64)%Z). split; [vm_compute; reflexivity|]. eexists. vm_compute. reflexivity. Qed.
Print Assumptions C57_throws_refuted.
(** What the function answers for other points of the same polygon. *)
Example C57_ex : ptInPolyB (N := FNum) (thr0 (N := FNum)) true (plFresh (map quarter comb)) (quarter (80, 72)%Z) = Ok true /\ ptInPolyB (N := FNum) (thr0 (N := FNum)) true (plFresh (map quarter comb)) (quarter (100, 70)%Z) = Ok true /\
  ptInPolyB (N := FNum) (thr0 (N := FNum)) true (plFresh (map quarter comb)) (quarter (9, 43)%Z) = Ok false.
Proof. vm_compute. auto. Qed.

(** ** C104: the parity of the crossings does not depend on the half-line *)
Theorem C104_any_ray : forall pts p r n, noNullSide pts -> offSides pts p -> offSides pts r -> outBox pts r -> (forall v, In v pts -> ~ onSeg p r v) -> p <> r ->
  countP (meetsSide p r) (cyc pts) n -> (insideEO pts p <-> Nat.Odd n).
Proof.
  intros pts p r n NN Op Or B V Npr C. destruct (ray_parity pts p r NN Op Or V Npr) as [_ MS]. rewrite (countP_xsum _ (meetB p r) _ _ MS C).
  rewrite (ray_out pts p r NN Op Or B V Npr). apply insideEO_xsum.
Qed.
Theorem C104_outside : forall pts p, noNullSide pts -> offSides pts p -> outBox pts p -> ~ insideEO pts p.
Proof. intros pts p NN O B I. apply insideEO_xsum in I. rewrite (outBox_even pts p NN O B) in I. discriminate. Qed.
(** Two points of which the segment meets no side have the same status. *)
Theorem C104_connected : forall pts p q, noNullSide pts -> offSides pts p -> offSides pts q -> p <> q -> (forall e, In e (cyc pts) -> ~ meetsSide p q e) ->
  (forall v, In v pts -> ~ onSeg p q v) -> (insideEO pts p <-> insideEO pts q).
Proof.
  intros pts p q NN Op Oq Npq M V. destruct (ray_parity pts p q NN Op Oq V Npq) as [E MS].
  assert (xsum (meetB p q) (cyc pts) = false) as Z. { rewrite <- (xsum_false (cyc pts)). apply xsum_ext. intros e I. destruct (meetB p q e) eqn:X; auto. exfalso. apply (M e I). now apply MS. }
  rewrite Z, xorb_false_l in E. apply xorb_eq in E. rewrite !insideEO_xsum, E. tauto.
Qed.
Example C104_ex : noNullSide ell /\ offSides ell (mkPt 1 3) /\ insideEO ell (mkPt 1 3) /\ ~ insideEO ell (mkPt 3 3).
Proof.
  assert (noNullSide ell) as NN by (intros e I; cbn [cyc ell app combine In] in I; destruct I as [<-|[<-|[<-|[<-|[<-|[<-|[]]]]]]]; cbn [fst snd]; intros E; injection E; lra).
  split; auto. split; [|split].
  - intros e I. cbn [cyc ell app combine In] in I. intros O. apply onSeg_along in O. destruct O as (t & T & E).
    destruct I as [<-|[<-|[<-|[<-|[<-|[<-|[]]]]]]]; unfold along in E; cbn [fst snd px py] in E; injection E; intros; lra.
  - exists 1%nat. split; [|exists 0%nat; reflexivity]. unfold ell, cyc. cbn [app combine].
    do 3 (apply count_no; [unfold crossR; cbn [fst snd px py]; lra|]). apply count_yes; [unfold crossR; cbn [fst snd px py]; lra|].
    do 2 (apply count_no; [unfold crossR; cbn [fst snd px py]; lra|]). constructor.
  - intros (n & C & O). assert (countP (crossR (mkPt 3 3)) (cyc ell) 0) as C0.
    { unfold ell, cyc. cbn [app combine]. do 6 (apply count_no; [unfold crossR; cbn [fst snd px py]; lra|]). constructor. }
    rewrite (countP_fun _ _ _ _ C C0) in O. destruct O as (k & O). lia.
Qed.
Print Assumptions C104_any_ray. Print Assumptions C104_outside. Print Assumptions C104_connected.

(** ** C105: the function and the even-odd rule *)
Theorem C105_even_odd : forall th pts x1 y1 x2 y2 p b, thr_ok th -> okSides th pts -> isBox pts (mkR (mkPt x1 y1) (mkPt x2 y2)) ->
  nullDistance th <= x2 - x1 -> nullDistance th <= y2 - y1 -> dblEpsilon th < x2 - x1 ->
  val (plIsSimple th true (plFresh pts)) = Ok true -> clearOf th pts p -> (forall k, (k < 5)%nat -> dirOK th p (refPt x1 y1 x2 y2 k)) ->
  ptInPolyB th true (plFresh pts) p = Ok b -> (b = true <-> insideEO pts p).
Proof. intros th pts x1 y1 x2 y2 p b Ht Os B W H We Sm C D. apply (pip_correct th pts _ p b Ht Os B W H We Sm C D). Qed.
(** It answers exactly when one of the five reference segments is free of vertices; it throws otherwise. *)
Theorem C105_answers : forall th pts x1 y1 x2 y2 p, thr_ok th -> okSides th pts -> isBox pts (mkR (mkPt x1 y1) (mkPt x2 y2)) ->
  nullOrthogDistance th <= x2 - x1 -> nullOrthogDistance th <= y2 - y1 -> 16 * nullDistance th <= 3 * (x2 - x1) -> 16 * nullDistance th <= 3 * (y2 - y1) ->
  dblEpsilon th < x2 - x1 -> dblEpsilon th < y2 - y1 ->
  val (plIsSimple th true (plFresh pts)) = Ok true -> clearOf th pts p -> x1 < px p < x2 -> y1 < py p < y2 ->
  ((exists b, ptInPolyB th true (plFresh pts) p = Ok b) <-> exists k, (k < 5)%nat /\ freeRef th pts p (refPt x1 y1 x2 y2 k)) /\
  ptInPolyB th true (plFresh pts) p <> Undef.
Proof.
  intros th pts x1 y1 x2 y2 p Ht Os B O1 O2 W H We He Sm C Hx Hy.
  destruct (pip_answers th pts _ p Ht Os B O1 O2 W H We He Sm C) as [[F (b & E)]|[F E]]; [unfold inRO; cbn [r1 r2 px py]; lra| |]; rewrite E; (split; [|discriminate]); split; eauto.
  - intros (b & X). discriminate.
  - intros (k & Hk & Fk). exfalso. apply (F k Hk Fk).
Qed.
(** A polygon that is not simple has no inside; a point outside of the bounding box is outside. *)
Theorem C105_not_simple : forall th closed pl p pl', plIsSimple th closed pl = Ok (false, pl') -> ptInPoly th closed p pl = Ok (false, pl').
Proof. intros th closed pl p pl' E. unfold ptInPoly. rewrite E. reflexivity. Qed.
Theorem C105_outside_box : forall th pts x1 y1 x2 y2 p b, thr_ok th -> plBB th pts = Ok (mkR (mkPt x1 y1) (mkPt x2 y2)) ->
  (px p <= x1 \/ x2 <= px p \/ py p <= y1 \/ y2 <= py p) -> ptInPolyB th true (plFresh pts) p = Ok b -> b = false.
Proof.
  intros th pts x1 y1 x2 y2 p b Ht Eb O E. unfold ptInPolyB in E. apply bind_ok in E. destruct E as ([b' pl'] & E & K). apply Ok_inj in K. subst b'. unfold ptInPoly in E.
  apply bind_ok in E. destruct E as ([s pl] & _ & E). destruct s; cbn [negb] in E; [|apply Ok_inj in E; now injection E]. cbn [plFresh plPts] in E. rewrite Eb in E. cbn [bind] in E.
  destruct (ptInRect p (mkR (mkPt x1 y1) (mkPt x2 y2))) eqn:Ep; [apply ptInRect_in in Ep; cbn [r1 r2 px py] in Ep; lra|]. cbn [negb] in E. apply Ok_inj in E. now injection E.
Qed.
Lemma thr0_sin : 0 <= sin (nullAngleValue (thr0 (T := R))) <= 1 / 100.
Proof.
  assert (0 < nullAngleValue (thr0 (T := R)) <= 1 / 100) as A by (unfold thr0; cbn [nullAngleValue]; rnum; lra). pose proof PI2_3_2.
  split; [apply sin_ge_0; lra|]. eapply Rle_trans; [left; apply sin_lt_x|]; lra.
Qed.
Lemma edist_le_sum p q : edist p q <= Rabs (px p - px q) + Rabs (py p - py q).
Proof.
  pose proof (Rabs_pos (px p - px q)). pose proof (Rabs_pos (py p - py q)). apply Rsqr_incr_0_var; [|lra]. unfold Rsqr. rewrite edist_sq.
  assert (Rabs (px p - px q) * Rabs (px p - px q) = (px p - px q) * (px p - px q)) by (rewrite <- Rabs_mult, Rabs_right; [auto|apply Rle_ge, Rle_0_sqr]).
  assert (Rabs (py p - py q) * Rabs (py p - py q) = (py p - py q) * (py p - py q)) by (rewrite <- Rabs_mult, Rabs_right; [auto|apply Rle_ge, Rle_0_sqr]). nra.
Qed.
Ltac absval := unfold Rabs; repeat match goal with |- context [Rcase_abs ?x] => destruct (Rcase_abs x) end; lra.
Lemma clear_num th pts p : thr_ok th -> nullDistance th <= 1 / 1000 -> 0 <= sin (nullAngleValue th) <= 1 / 100 ->
  (forall e, In e (cyc pts) -> let L := Rabs (px (fst e) - px (snd e)) + Rabs (py (fst e) - py (snd e)) in L <= 10 /\
     (forall v, v = fst e \/ v = snd e -> Rabs (px p - px v) + Rabs (py p - py v) <= 9) /\ L * (9 / 100) <= Rabs (cross3 (fst e) (snd e) p)) -> clearOf th pts p.
Proof.
  intros Ht TD TS H e I. destruct (H e I) as (L10 & V & C). pose proof (edist_le_sum (fst e) (snd e)) as EL. pose proof (edist_pos (fst e) (snd e)) as EP. pose proof (thr_dist th Ht). split.
  - nra.
  - intros v Hv. specialize (V v Hv). pose proof (edist_le_sum p v). pose proof (edist_pos p v).
    assert (edist p v * edist (fst e) (snd e) <= 9 * edist (fst e) (snd e)) by (apply Rmult_le_compat_r; lra).
    assert (0 <= edist p v * edist (fst e) (snd e)) by (apply Rmult_le_pos; lra). nra.
Qed.
Lemma ell_clear : clearOf thr0 ell (mkPt 1 3).
Proof.
  apply clear_num; [apply thr0_ok|apply thr0_small|apply thr0_sin|]. intros e I. cbn [cyc ell app combine In] in I.
  destruct I as [<-|[<-|[<-|[<-|[<-|[<-|[]]]]]]]; cbn [fst snd px py]; (split; [absval|split; [intros v [->| ->]; cbn [px py]; absval|unfold cross3; cbn [px py]; absval]]).
Qed.
Lemma dir_num th p q : nullDenom th <= 1 / 1000 -> (Rabs (px p - px q) + Rabs (py p - py q)) / 1000 <= Rabs (py p - py q) -> dirOK th p q.
Proof. intros D H. right. pose proof (edist_le_sum p q). pose proof (edist_pos p q). nra. Qed.
Example C105_ex : okSides thr0 ell /\ isBox ell (mkR (mkPt 0 0) (mkPt 4 4)) /\ val (plIsSimple thr0 true (plFresh ell)) = Ok true /\ clearOf thr0 ell (mkPt 1 3) /\
  (forall k, (k < 5)%nat -> dirOK thr0 (mkPt 1 3) (refPt 0 0 4 4 k)) /\ freeRef thr0 ell (mkPt 1 3) (refPt 0 0 4 4 0) /\ ptInPolyB thr0 true (plFresh ell) (mkPt 1 3) = Ok true.
Proof.
  pose proof thr0_small as TS. assert (nullOrthogDistance (thr0 (T := R)) <= 1) as TO by (unfold thr0; cbn [nullOrthogDistance]; rnum; lra).
  assert (forall k, (k < 5)%nat -> dirOK thr0 (mkPt 1 3) (refPt 0 0 4 4 k)) as D.
  { intros k Hk. apply dir_num; [lra|]. unfold refPt. cbn [px py]. assert (k = 0 \/ k = 1 \/ k = 2 \/ k = 3 \/ k = 4)%nat as [->|[->|[->|[->| ->]]]] by lia; cbn; absval. }
  assert (freeRef thr0 ell (mkPt 1 3) (refPt 0 0 4 4 0)) as F.
  { intros v x Iv Ox. apply onSeg_along in Ox. destruct Ox as (t & T & ->). unfold refPt, along. cbn [px py pow Nat.add]. cbn [ell In] in Iv.
    destruct (Rlt_le_dec t (3 / 10)) as [Q|Q]; destruct Iv as [<-|[<-|[<-|[<-|[<-|[<-|[]]]]]]]; eapply Rle_trans with (r2 := 1 / 1000); try lra;
    first [eapply Rle_trans; [|apply edist_ge_x]; cbn [px py]; absval|eapply Rle_trans; [|apply edist_ge_y]; cbn [px py]; absval]. }
  do 3 (split; [auto using ell_ok, ell_box, ell_simple|]). split; [apply ell_clear|]. split; [auto|]. split; [auto|].
  destruct (C105_answers thr0 ell 0 0 4 4 (mkPt 1 3) thr0_ok ell_ok ell_box) as [[_ A] _]; try lra; cbn [px py]; try lra; auto using ell_simple, ell_clear.
  destruct A as (b & E); [exists 0%nat; split; [lia|auto]|]. rewrite E. f_equal.
  apply (C105_even_odd thr0 ell 0 0 4 4 (mkPt 1 3) b thr0_ok ell_ok ell_box); try lra; auto using ell_simple, ell_clear. apply C104_ex.
Qed.
Print Assumptions C105_even_odd. Print Assumptions C105_answers. Print Assumptions C105_not_simple. Print Assumptions C105_outside_box.

(** ** C106: convex polygons *)
Theorem C106_half_planes : forall pts p, convexCCW pts -> offSides pts p -> (insideEO pts p <-> leftOfAll pts p).
Proof. intros pts p C O. rewrite insideEO_xsum. now apply convex_inside. Qed.
Theorem C106_convex : forall th pts x1 y1 x2 y2 p b, thr_ok th -> okSides th pts -> convexCCW pts -> isBox pts (mkR (mkPt x1 y1) (mkPt x2 y2)) ->
  nullDistance th <= x2 - x1 -> nullDistance th <= y2 - y1 -> dblEpsilon th < x2 - x1 ->
  val (plIsSimple th true (plFresh pts)) = Ok true -> clearOf th pts p -> (forall k, (k < 5)%nat -> dirOK th p (refPt x1 y1 x2 y2 k)) ->
  ptInPolyB th true (plFresh pts) p = Ok b -> (b = true <-> leftOfAll pts p).
Proof.
  intros th pts x1 y1 x2 y2 p b Ht Os Cv B W H We Sm C D E. rewrite (C105_even_odd th pts x1 y1 x2 y2 p b) by auto. apply C106_half_planes; auto.
  now apply (clear_off th pts p Ht (okSides_wide _ _ Os) C).
Qed.
Lemma box4_convex : convexCCW box4.
Proof.
  split; [cbn; lia|]. split.
  - repeat constructor; cbn; intuition; match goal with H : mkPt _ _ = mkPt _ _ |- _ => injection H; intros; lra end.
  - intros e v I J. cbn [cyc box4 app combine In] in I. cbn [box4 In] in J.
    destruct I as [<-|[<-|[<-|[<-|[]]]]]; destruct J as [<-|[<-|[<-|[<-|[]]]]]; cbn [fst snd]; try (now left); try (right; now left); right; right; unfold cross3; cbn [px py]; lra.
Qed.
Lemma box4_box : isBox box4 (mkR (mkPt 0 0) (mkPt 4 3)).
Proof.
  split; [intros p; cbn [box4 In]; intros [<-|[<-|[<-|[<-|[]]]]]; unfold inR; cbn; lra|].
  cbn [r1 r2 px py box4 In]. split; [exists (mkPt 0 0); auto|]. split; [exists (mkPt 4 0); auto|]. split; [exists (mkPt 0 0); auto|exists (mkPt 4 3); auto].
Qed.
Lemma box4_simpleV : val (plIsSimple thr0 true (plFresh box4)) = Ok true.
Proof. rewrite val_isSimple by (cbn; lia). apply box4_simple. Qed.
(** The points of the examples. *)
Definition inner (x y : R) : Prop := 1 <= x <= 3 /\ 1 <= y <= 5 / 4.
Lemma box4_clear x y : inner x y -> clearOf thr0 box4 (mkPt x y).
Proof.
  intros [X Y]. apply clear_num; [apply thr0_ok|apply thr0_small|apply thr0_sin|]. intros e I. cbn [cyc box4 app combine In] in I.
  destruct I as [<-|[<-|[<-|[<-|[]]]]]; cbn [fst snd px py]; (split; [absval|split; [intros v [->| ->]; cbn [px py]; absval|unfold cross3; cbn [px py]; absval]]).
Qed.
Lemma box4_dir x y k : inner x y -> (k < 5)%nat -> dirOK thr0 (mkPt x y) (refPt 0 0 4 3 k).
Proof.
  intros [X Y] Hk. pose proof thr0_small. apply dir_num; [lra|]. unfold refPt. cbn [px py]. assert (k = 0 \/ k = 1 \/ k = 2 \/ k = 3 \/ k = 4)%nat as [->|[->|[->|[->| ->]]]] by lia; cbn; absval.
Qed.
Lemma box4_free x y : inner x y -> freeRef thr0 box4 (mkPt x y) (refPt 0 0 4 3 0).
Proof.
  intros [X Y]. pose proof thr0_small as TS. intros v z Iv Oz. apply onSeg_along in Oz. destruct Oz as (t & T & ->). unfold refPt, along. cbn [px py pow Nat.add]. cbn [box4 In] in Iv.
  set (yy := y + t * (2 * 0 - 3 + 3 * (3 - 0) / (2 * 1) - y)). assert (1 <= yy <= 3 / 2) as YY by (unfold yy; split; nra).
  destruct Iv as [<-|[<-|[<-|[<-|[]]]]]; (eapply Rle_trans with (r2 := 1 / 1000); [lra|]); eapply Rle_trans; try apply edist_ge_y; cbn [px py]; fold yy; absval.
Qed.
Lemma box4_left x y : inner x y -> leftOfAll box4 (mkPt x y).
Proof. intros [X Y] e I. cbn [cyc box4 app combine In] in I. destruct I as [<-|[<-|[<-|[<-|[]]]]]; cbn [fst snd]; unfold cross3; cbn [px py]; lra. Qed.
Lemma box4_in x y : inner x y -> ptInPolyB thr0 true (plFresh box4) (mkPt x y) = Ok true.
Proof.
  intros In_. pose proof In_ as [X Y]. pose proof thr0_small as TS. assert (nullOrthogDistance (thr0 (T := R)) <= 1) as TO by (unfold thr0; cbn [nullOrthogDistance]; rnum; lra).
  destruct (C105_answers thr0 box4 0 0 4 3 (mkPt x y) thr0_ok box4_ok box4_box) as [[_ A] _]; try lra; cbn [px py]; try lra; auto using box4_simpleV, box4_clear.
  destruct A as (b & E); [exists 0%nat; split; [lia|now apply box4_free]|]. rewrite E. f_equal.
  apply (C106_convex thr0 box4 0 0 4 3 (mkPt x y) b thr0_ok box4_ok box4_convex box4_box); try lra; auto using box4_simpleV, box4_clear, box4_dir, box4_left.
Qed.
Example C106_ex : okSides thr0 box4 /\ convexCCW box4 /\ isBox box4 (mkR (mkPt 0 0) (mkPt 4 3)) /\ val (plIsSimple thr0 true (plFresh box4)) = Ok true /\
  clearOf thr0 box4 (mkPt 1 1) /\ (forall k, (k < 5)%nat -> dirOK thr0 (mkPt 1 1) (refPt 0 0 4 3 k)) /\ ptInPolyB thr0 true (plFresh box4) (mkPt 1 1) = Ok true.
Proof.
  assert (inner 1 1) as I by (unfold inner; lra).
  split; [apply box4_ok|]. split; [apply box4_convex|]. split; [apply box4_box|]. split; [apply box4_simpleV|]. split; [now apply box4_clear|]. split; [intros; now apply box4_dir|]. now apply box4_in.
Qed.
Print Assumptions C106_half_planes. Print Assumptions C106_convex.

(** ** C107: segments, rectangles and polylines inside a convex polygon *)

(** The conditions of C106 for one point. *)
Definition seen th pts x1 y1 x2 y2 p : Prop := clearOf th pts p /\ forall k, (k < 5)%nat -> dirOK th p (refPt x1 y1 x2 y2 k).
Lemma allM_true {A} (f : A -> res bool) l : allM f l = Ok true -> forall x, In x l -> f x = Ok true.
Proof.
  induction l as [|a l IH]; [intros _ x []|]. cbn [allM]. intros E. apply bind_ok in E. destruct E as (b & Eb & E). destruct b; [|apply Ok_inj in E; discriminate].
  intros x [<-|I]; auto.
Qed.
Lemma left_convex pts a b x : leftOfAll pts a -> leftOfAll pts b -> onSeg a b x -> leftOfAll pts x.
Proof.
  intros A B O e I. specialize (A e I). specialize (B e I). apply onSeg_along in O. destruct O as (t & T & ->).
  replace (cross3 (fst e) (snd e) (along a b t)) with ((1 - t) * cross3 (fst e) (snd e) a + t * cross3 (fst e) (snd e) b) by (unfold cross3, along; cbn [px py]; ring).
  destruct (Rle_lt_dec t (1 / 2)).
  - assert (0 < (1 - t) * cross3 (fst e) (snd e) a) by (apply Rmult_lt_0_compat; lra). assert (0 <= t * cross3 (fst e) (snd e) b) by (apply Rmult_le_pos; lra). lra.
  - assert (0 <= (1 - t) * cross3 (fst e) (snd e) a) by (apply Rmult_le_pos; lra). assert (0 < t * cross3 (fst e) (snd e) b) by (apply Rmult_lt_0_compat; lra). lra.
Qed.
Lemma onSeg_between_v (a b y x : R) : a <= y <= b -> onSeg (mkPt x a) (mkPt x b) (mkPt x y).
Proof.
  intros Y. apply onSeg_along. destruct (Req_dec a b) as [->|N].
  - exists 0. split; [lra|]. unfold along. cbn [px py]. f_equal; lra.
  - exists ((y - a) / (b - a)). split; [|unfold along; cbn [px py]; f_equal; [ring|field; lra]].
    split; [apply Rmult_le_pos; [lra|left; apply Rinv_0_lt_compat; lra]|]. apply (Rmult_le_reg_r (b - a)); [lra|]. unfold Rdiv. rewrite Rmult_assoc, Rinv_l by lra. lra.
Qed.
Lemma onSeg_between_h (a b y x : R) : a <= x <= b -> onSeg (mkPt a y) (mkPt b y) (mkPt x y).
Proof.
  intros Y. apply onSeg_along. destruct (Req_dec a b) as [->|N].
  - exists 0. split; [lra|]. unfold along. cbn [px py]. f_equal; lra.
  - exists ((x - a) / (b - a)). split; [|unfold along; cbn [px py]; f_equal; [field; lra|ring]].
    split; [apply Rmult_le_pos; [lra|left; apply Rinv_0_lt_compat; lra]|]. apply (Rmult_le_reg_r (b - a)); [lra|]. unfold Rdiv. rewrite Rmult_assoc, Rinv_l by lra. lra.
Qed.
Lemma sides_in {A} closed (l : list A) (e : A * A) : In e (sides closed l) -> In (fst e) l /\ In (snd e) l.
Proof.
  destruct closed; cbn [sides]; [apply cyc_in|]. unfold chain. destruct l as [|a r]; [intros []|]. destruct e as [x y]. cbn [tl fst snd]. intros I.
  split; [eapply in_combine_l; eauto|]. right. eapply in_combine_r; eauto.
Qed.
(** A convex polygon that C106 applies to, with its bounding box. *)
Definition okConvex th pts x1 y1 x2 y2 : Prop :=
  okSides th pts /\ convexCCW pts /\ isBox pts (mkR (mkPt x1 y1) (mkPt x2 y2)) /\ nullDistance th <= x2 - x1 /\ nullDistance th <= y2 - y1 /\ dblEpsilon th < x2 - x1 /\
  val (plIsSimple th true (plFresh pts)) = Ok true.
Lemma all_left th pts x1 y1 x2 y2 l : thr_ok th -> okConvex th pts x1 y1 x2 y2 -> allM (ptInPolyB th true (plFresh pts)) l = Ok true ->
  (forall v, In v l -> seen th pts x1 y1 x2 y2 v) -> forall v, In v l -> leftOfAll pts v.
Proof.
  intros Ht (Os & Cv & B & W & H & We & Sm) A S v I. destruct (S v I) as [C D]. apply (C106_convex th pts x1 y1 x2 y2 v true); auto. now apply (allM_true _ _ A).
Qed.
Theorem C107_segment : forall th pts x1 y1 x2 y2 s, thr_ok th -> okConvex th pts x1 y1 x2 y2 -> segInPoly th s (plFresh pts) = Ok true ->
  seen th pts x1 y1 x2 y2 (sA s) -> seen th pts x1 y1 x2 y2 (sB s) -> forall x, segHas s x -> leftOfAll pts x.
Proof.
  intros th pts x1 y1 x2 y2 s Ht K0 E SA SB x Hx. unfold segInPoly in E. apply bind_ok in E. destruct E as (b & E & K). destruct b; [|apply Ok_inj in K; discriminate].
  assert (forall v, In v [sA s; sB s] -> leftOfAll pts v) as G by (eapply all_left; eauto; intros v [<-|[<-|[]]]; auto).
  apply (left_convex pts (sA s) (sB s)); auto; apply G; cbn; auto.
Qed.
Theorem C107_rectangle : forall th pts x1 y1 x2 y2 r, thr_ok th -> okConvex th pts x1 y1 x2 y2 -> frInPoly th r (plFresh pts) = Ok true ->
  (forall v, In v [r1 r; mkPt (px (r1 r)) (py (r2 r)); r2 r; mkPt (px (r2 r)) (py (r1 r))] -> seen th pts x1 y1 x2 y2 v) ->
  forall x, px (r1 r) <= px x <= px (r2 r) -> py (r1 r) <= py x <= py (r2 r) -> leftOfAll pts x.
Proof.
  intros th pts x1 y1 x2 y2 r Ht K0 E S x Hx Hy. unfold frInPoly in E. apply bind_ok in E. destruct E as (rs & _ & E). apply bind_ok in E. destruct E as (h & _ & E). destruct h; [apply Ok_inj in E; discriminate|].
  pose proof (all_left _ _ _ _ _ _ _ Ht K0 E S) as G. unfold fr4Pts in G. destruct r as [[a b] [c d]], x as [x y]. cbn [r1 r2 px py] in *.
  assert (leftOfAll pts (mkPt a y)) as L1 by (apply (left_convex pts (mkPt a b) (mkPt a d)); [apply G; cbn; auto|apply G; cbn; auto|now apply onSeg_between_v]).
  assert (leftOfAll pts (mkPt c y)) as L2 by (apply (left_convex pts (mkPt c b) (mkPt c d)); [apply G; cbn; auto|apply G; cbn; auto|now apply onSeg_between_v]).
  apply (left_convex pts _ _ (mkPt x y) L1 L2). now apply onSeg_between_h.
Qed.
Theorem C107_polyline : forall th pts x1 y1 x2 y2 closed l, thr_ok th -> okConvex th pts x1 y1 x2 y2 -> plInPoly th closed l (plFresh pts) = Ok true ->
  (forall v, In v l -> seen th pts x1 y1 x2 y2 v) -> forall e x, In e (sides closed l) -> onSeg (fst e) (snd e) x -> leftOfAll pts x.
Proof.
  intros th pts x1 y1 x2 y2 closed l Ht K0 E S e x I O. unfold plInPoly in E. destruct l as [|a l]; [destruct closed; destruct I|]. apply bind_ok in E. destruct E as (b & E & K). destruct b; [|apply Ok_inj in K; discriminate].
  pose proof (all_left _ _ _ _ _ _ _ Ht K0 E S) as G. destruct (sides_in closed (a :: l) e I) as [I1 I2]. apply (left_convex pts (fst e) (snd e)); auto.
Qed.

(** For any simple polygon, convex or not: no side that makes an angle with the segment meets it, so that all its
    points are inside. *)
Lemma sd_lex s : lexlt (sA s) (sB s) -> sd (sA s, sB s) = s.
Proof. intros L. unfold sd, segOrder, fixOrder. cbn [sA sB fst snd]. rewrite (proj2 (ptLt_spec _ _) L). now destruct s. Qed.
Lemma anyM_false {A} (f : A -> res bool) l : anyM f l = Ok false -> forall x, In x l -> f x = Ok false.
Proof.
  induction l as [|a l IH]; [intros _ x []|]. cbn [anyM]. intros E. apply bind_ok in E. destruct E as (b & Eb & E). destruct b; [apply Ok_inj in E; discriminate|].
  intros x [<-|I]; auto.
Qed.
Theorem C107_any_polygon : forall th pts x1 y1 x2 y2 s, thr_ok th -> okSides th pts -> isBox pts (mkR (mkPt x1 y1) (mkPt x2 y2)) ->
  nullDistance th <= x2 - x1 -> nullDistance th <= y2 - y1 -> dblEpsilon th < x2 - x1 -> val (plIsSimple th true (plFresh pts)) = Ok true ->
  segInPoly th s (plFresh pts) = Ok true -> seen th pts x1 y1 x2 y2 (sA s) -> seen th pts x1 y1 x2 y2 (sB s) ->
  lexlt (sA s) (sB s) -> okSeg th s -> dirOK th (sA s) (sB s) ->
  (forall e, In e (cyc pts) -> transversal th e (sA s, sB s) /\ endsApart th e (sA s, sB s)) ->
  (forall e, In e (cyc pts) -> ~ meetsSide (sA s) (sB s) e) /\ forall x, segHas s x -> insideEO pts x.
Proof.
  intros th pts x1 y1 x2 y2 s Ht Os B W H We Sm E [CA DA] [CB DB] Lx Ok_ D T. pose proof (thr_dist th Ht) as TD.
  destruct (fresh_simple _ _ Sm) as (pl & Es). pose proof (simple_len _ _ _ Es) as L3.
  unfold segInPoly in E. apply bind_ok in E. destruct E as (b & Ea & E). destruct b; cbn [negb] in E; [|apply Ok_inj in E; discriminate].
  cbn [plFresh plPts] in E. rewrite (sd_map th pts) in E by (try lia; now apply okSides_wide). cbn [bind] in E. apply bind_ok in E. destruct E as (h & Eh & E). apply Ok_inj in E. destruct h; [discriminate|].
  assert (forall e, In e (cyc pts) -> ~ meetsSide (sA s) (sB s) e) as NM.
  { intros e I (q & Q1 & Q2). destruct (T e I) as [T1 T2]. destruct (Os e I) as [Oe De].
    assert (hasInter th (sd e) s = Ok false) as F by (apply (anyM_false _ _ Eh (sd e)); now apply in_map).
    pose proof (meets_complete th e (sA s, sB s) q Ht Oe) as M. cbn [fst snd] in M. rewrite (sd_lex s Lx) in M. unfold hasInter in F. rewrite M in F; auto. discriminate. }
  split; auto. intros x Hx.
  assert (forall v, In v [sA s; sB s] -> ptInPolyB th true (plFresh pts) v = Ok true) as PA by (apply allM_true; auto).
  destruct (clear_off th pts (sA s) Ht (okSides_wide _ _ Os) CA) as [NN Of].
  assert (insideEO pts (sA s)) as IA by (apply (C105_even_odd th pts x1 y1 x2 y2 (sA s) true); auto; apply PA; cbn; auto).
  assert (forall v, In v pts -> ~ onSeg (sA s) (sB s) v) as NV.
  { intros v Iv Ov. destruct (cyc_fst_in pts v Iv) as (w & Iw). apply (NM (v, w) Iw). exists v. split; auto. cbn [fst snd]. apply onSeg_along. exists 0. split; [lra|]. unfold along. destruct v as [a c]. cbn [px py]. f_equal; ring. }
  unfold segHas in Hx. apply onSeg_along in Hx. destruct Hx as (t & Tt & ->).
  assert (forall z, onSeg (sA s) (along (sA s) (sB s) t) z -> onSeg (sA s) (sB s) z) as Sub.
  { intros z Hz. apply onSeg_along in Hz. destruct Hz as (u & Tu & ->). apply onSeg_along. exists (u * t). split; [split; [apply Rmult_le_pos; lra|nra]|]. unfold along. cbn [px py]. f_equal; ring. }
  destruct (Req_dec t 0) as [->|Nt].
  { replace (along (sA s) (sB s) 0) with (sA s); auto. unfold along. destruct (sA s) as [a c]. cbn [px py]. f_equal; ring. }
  assert (edist (sA s) (sB s) <> 0) as Nd by (destruct Ok_; lra).
  apply (C104_connected pts (sA s)); auto.
  - intros e I O. apply (NM e I). exists (along (sA s) (sB s) t). split; auto. apply onSeg_along. eauto.
  - intros X. pose proof (edist_along (sA s) (sB s) t) as Y. rewrite <- X, edist_refl in Y. symmetry in Y. apply Rmult_integral in Y. destruct Y as [Y|Y]; [|auto]. apply Rabs_no_R0 in Y; auto.
  - intros e I (q & Q1 & Q2). apply (NM e I). exists q. auto.
  - intros v Iv Ov. apply (NV v Iv). auto.
Qed.
Definition sIn : seg R := mkSeg (mkPt 1 1) (mkPt (19 / 16) (5 / 4)).
Lemma box4_okConvex : okConvex thr0 box4 0 0 4 3.
Proof. pose proof thr0_small. repeat split; try apply box4_ok; try apply box4_convex; try apply box4_box; try lra; auto; try apply box4_simpleV; now apply box4_ok. Qed.
Lemma sIn_seen : seen thr0 box4 0 0 4 3 (sA sIn) /\ seen thr0 box4 0 0 4 3 (sB sIn).
Proof. split; (split; [apply box4_clear|intros; apply box4_dir; auto]); unfold inner; lra. Qed.
Lemma sIn_trans e : In e (cyc box4) -> transversal thr0 e (sA sIn, sB sIn) /\ endsApart thr0 e (sA sIn, sB sIn).
Proof.
  intros I. pose proof thr0_small as TS. assert (edist (mkPt 1 1) (mkPt (19 / 16) (5 / 4)) = 5 / 16) as EE by (apply edist_val; cbn [px py]; lra).
  assert (nullAngleValue (thr0 (T := R)) <= 1 / 2) as NA by (unfold thr0; cbn [nullAngleValue]; rnum; lra). pose proof PI_RGT_0. pose proof PI2_3_2.
  assert (forall c, 0 <= c <= 4 / 5 -> nullAngleValue (thr0 (T := R)) <= acos c) as AC.
  { intros c C. apply Rle_trans with (PI / 6); [lra|]. apply acos_ge; [split; lra|split; lra|]. rewrite cos_PI6. assert (17 / 10 <= R_sqrt.sqrt 3); [|lra]. apply Rsqr_incr_0_var; [|apply sqrt_pos]. unfold Rsqr. rewrite sqrt_sqrt; lra. }
  split.
  - unfold transversal. cbn [fst snd sA sB sIn px py]. rewrite EE. apply AC. cbn [cyc box4 app combine In] in I.
    destruct I as [<-|[<-|[<-|[<-|[]]]]]; cbn [fst snd px py];
    [replace (edist _ _) with 4 by (symmetry; apply edist_val; cbn [px py]; lra)|replace (edist _ _) with 3 by (symmetry; apply edist_val; cbn [px py]; lra)
    |replace (edist _ _) with 4 by (symmetry; apply edist_val; cbn [px py]; lra)|replace (edist _ _) with 3 by (symmetry; apply edist_val; cbn [px py]; lra)]; absval.
  - intros p q Ip Iq. cbn [fst snd In sIn sA sB] in Ip, Iq. cbn [cyc box4 app combine In] in I.
    destruct I as [<-|[<-|[<-|[<-|[]]]]]; destruct Ip as [<-|[<-|[]]], Iq as [<-|[<-|[]]]; cbn [fst snd]; eapply Rle_trans; try apply edist_ge_x; cbn [px]; absval.
Qed.
Lemma sIn_inside : segInPoly thr0 sIn (plFresh box4) = Ok true.
Proof.
  pose proof thr0_small as TS. unfold segInPoly. cbn [allM sIn sA sB]. rewrite !box4_in by (unfold inner; lra). cbn [bind negb plFresh plPts].
  rewrite (sd_map thr0 box4) by (try (cbn; lia); apply okSides_wide, box4_ok). cbn [bind].
  assert (forall l, (forall e, In e l -> In e (cyc box4)) -> anyM (fun x => hasInter thr0 x sIn) (map sd l) = Ok false) as G; [|fold sIn; rewrite G by auto; reflexivity].
  induction l as [|e l IH]; intros S; [reflexivity|]. cbn [map anyM]. pose proof (S e (or_introl eq_refl)) as Ie. destruct (box4_ok e Ie) as [Oe De].
  assert (okSeg thr0 sIn) as Os by (split; cbn [sIn sA sB]; replace (edist _ _) with (5 / 16) by (symmetry; apply edist_val; cbn [px py]; lra); lra).
  assert (dirOK thr0 (sA sIn) (sB sIn)) as Ds by (apply dir_num; [lra|cbn [sIn sA sB px py]; absval]).
  destruct (segInterSeg_total thr0 (sd e) sIn thr0_ok (sd_ok _ _ Oe) Os) as (it & It). unfold hasInter at 1. rewrite It. cbn [bind]. destruct it as [q|]; [|apply IH; intros; apply S; now right].
  exfalso. destruct (segInterSeg_sound thr0 (sd e) sIn q thr0_ok (sd_dirOK _ _ De) Ds It) as ((x & X & DX) & (y & Y & DY) & _).
  apply (sideOf_has (sd e) e x (sideOf_sd e)) in X. apply onSeg_along in X. destruct X as (t & Tt & ->). unfold segHas in Y. apply onSeg_along in Y. destruct Y as (u & Tu & ->).
  pose proof (edist_triang (along (fst e) (snd e) t) q (along (sA sIn) (sB sIn) u)) as TR. rewrite (edist_sym (along (fst e) (snd e) t) q) in TR.
  pose proof (edist_ge_x (along (fst e) (snd e) t) (along (sA sIn) (sB sIn) u)) as GX. pose proof (edist_ge_y (along (fst e) (snd e) t) (along (sA sIn) (sB sIn) u)) as GY.
  cbn [cyc box4 app combine In] in Ie. destruct Ie as [<-|[<-|[<-|[<-|[]]]]]; unfold along in GX, GY, TR, DX, DY; cbn [fst snd sIn sA sB px py] in GX, GY, TR, DX, DY; unfold Rabs in GX, GY;
  repeat match goal with H : context [Rcase_abs ?x] |- _ => destruct (Rcase_abs x) end; lra.
Qed.
Example C107_ex : okConvex thr0 box4 0 0 4 3 /\ seen thr0 box4 0 0 4 3 (sA sIn) /\ seen thr0 box4 0 0 4 3 (sB sIn) /\ lexlt (sA sIn) (sB sIn) /\
  (forall e, In e (cyc box4) -> transversal thr0 e (sA sIn, sB sIn) /\ endsApart thr0 e (sA sIn, sB sIn)) /\ segInPoly thr0 sIn (plFresh box4) = Ok true.
Proof.
  split; [apply box4_okConvex|]. destruct sIn_seen. do 2 (split; [auto|]). split; [left; cbn [sIn sA sB px]; lra|]. split; [apply sIn_trans|apply sIn_inside].
Qed.
(** In doubles: a rectangle and a polyline inside the L, a segment that leaves it through the notch. *)
Definition whole (c : Z * Z) : pt float := mkPt (@nZ _ FNum (fst c)) (@nZ _ FNum (snd c)).
Definition ellF : poly float := plFresh (map whole [(0,0);(40,0);(40,20);(20,20);(20,40);(0,40)]%Z).
Example C107_ex2 : frInPoly (N := FNum) (thr0 (N := FNum)) (mkR (whole (3, 5)%Z) (whole (17, 31)%Z)) ellF = Ok true /\
  plInPoly (N := FNum) (thr0 (N := FNum)) false (map whole [(3, 5); (17, 6); (13, 31)]%Z) ellF = Ok true /\
  segInPoly (N := FNum) (thr0 (N := FNum)) (mkSeg (whole (7, 37)%Z) (whole (37, 11)%Z)) ellF = Ok false /\
  ptInPolyB (N := FNum) (thr0 (N := FNum)) true ellF (whole (7, 37)%Z) = Ok true /\ ptInPolyB (N := FNum) (thr0 (N := FNum)) true ellF (whole (37, 11)%Z) = Ok true.
Proof. vm_compute. auto 6. Qed.
Print Assumptions C107_segment. Print Assumptions C107_rectangle. Print Assumptions C107_polyline. Print Assumptions C107_any_polygon.
