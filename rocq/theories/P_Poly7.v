(** * Polylines: tools for concrete polygons *)

From Coq Require Import Reals Lra Lia List Bool Arith ZArith Permutation.
From Verif Require Import Num M_LP M_Seg M_Poly S_Geom S_Seg S_Poly P_LP P_LP2 P_LP3 P_LP4 P_Seg P_Seg2 P_Seg3 P_Seg4 P_Poly P_Poly2 P_Poly3 P_Poly4 P_Poly5 P_Poly6.
Import ListNotations.
Local Open Scope R_scope.

Lemma nonAdj_index (l : list (pt R)) e f : nonAdj l e f -> exists i j, (i + 2 <= j < length l)%nat /\ ~ (i = 0%nat /\ j = (length l - 1)%nat) /\
  e = nth i (cyc l) (pt00, pt00) /\ f = nth j (cyc l) (pt00, pt00).
Proof.
  intros (u & v & w & E & NV & NW). exists (length u), (length u + 1 + length v)%nat.
  assert (length v <> 0)%nat by (destruct v; [congruence|discriminate]).
  assert (length w + length u <> 0)%nat by (rewrite <- app_length; destruct (w ++ u); [congruence|discriminate]).
  assert (length l = length u + 1 + length v + 1 + length w)%nat as EL by (rewrite <- (cyc_length l), E, app_length; cbn [length]; rewrite app_length; cbn [length]; lia).
  split; [lia|]. split; [lia|]. rewrite E. rewrite (app_nth2 u), (app_nth2 u) by lia. rewrite Nat.sub_diag.
  replace (length u + 1 + length v - length u)%nat with (S (length v)) by lia. cbn [nth]. rewrite app_nth2, Nat.sub_diag by lia. auto.
Qed.
Lemma segHas_bounds s x : segHas s x ->
  Rmin (px (sA s)) (px (sB s)) <= px x <= Rmax (px (sA s)) (px (sB s)) /\ Rmin (py (sA s)) (py (sB s)) <= py x <= Rmax (py (sA s)) (py (sB s)).
Proof.
  intros (t & Ht & -> & ->). unfold Rmin, Rmax. destruct (Rle_dec (px (sA s)) (px (sB s))), (Rle_dec (py (sA s)) (py (sB s))); repeat split; nra.
Qed.
Lemma edist_ge_x p q : Rabs (px p - px q) <= edist p q.
Proof.
  unfold edist. rewrite <- sqrt_Rsqr_abs. apply sqrt_le_1_alt. pose proof (Rle_0_sqr (py p - py q)). unfold Rsqr in *. lra.
Qed.
Lemma edist_ge_y p q : Rabs (py p - py q) <= edist p q.
Proof.
  unfold edist. rewrite <- sqrt_Rsqr_abs. apply sqrt_le_1_alt. pose proof (Rle_0_sqr (px p - px q)). unfold Rsqr in *. lra.
Qed.
(** Sides separated by a vertical or horizontal band do not meet. *)
Lemma meets_gap th e f : thr_ok th -> dirOK th (fst e) (snd e) -> dirOK th (fst f) (snd f) ->
  (Rmax (px (fst e)) (px (snd e)) + nullDistance th <= Rmin (px (fst f)) (px (snd f)) \/
   Rmax (px (fst f)) (px (snd f)) + nullDistance th <= Rmin (px (fst e)) (px (snd e)) \/
   Rmax (py (fst e)) (py (snd e)) + nullDistance th <= Rmin (py (fst f)) (py (snd f)) \/
   Rmax (py (fst f)) (py (snd f)) + nullDistance th <= Rmin (py (fst e)) (py (snd e))) -> ~ meets th e f.
Proof.
  intros Hth D D' G (p & H).
  destruct (segInterSeg_sound th _ _ p Hth (sd_dirOK th e D) (sd_dirOK th f D') H) as ((x & Hx & Dx) & (y & Hy & Dy) & _).
  assert (edist x y < nullDistance th) as XY. { pose proof (edist_triang x p y). rewrite (edist_sym x p) in *. lra. }
  pose proof (edist_ge_x x y) as GX. pose proof (edist_ge_y x y) as GY.
  apply segHas_bounds in Hx. apply segHas_bounds in Hy.
  assert (forall g : pt R * pt R, Rmin (px (sA (sd g))) (px (sB (sd g))) = Rmin (px (fst g)) (px (snd g)) /\ Rmax (px (sA (sd g))) (px (sB (sd g))) = Rmax (px (fst g)) (px (snd g)) /\
     Rmin (py (sA (sd g))) (py (sB (sd g))) = Rmin (py (fst g)) (py (snd g)) /\ Rmax (py (sA (sd g))) (py (sB (sd g))) = Rmax (py (fst g)) (py (snd g))) as SD.
  { intros g. destruct (sd_cases g) as [->| ->]; cbn [sA sB]; auto. rewrite Rmin_comm, Rmax_comm, (Rmin_comm (py (snd g))), (Rmax_comm (py (snd g))). auto. }
  destruct (SD e) as (E1 & E2 & E3 & E4). destruct (SD f) as (F1 & F2 & F3 & F4). rewrite E1, E2, E3, E4 in Hx. rewrite F1, F2, F3, F4 in Hy.
  clear - G Hx Hy XY GX GY. unfold Rabs in *. destruct (Rcase_abs (px x - px y)), (Rcase_abs (py x - py y)); lra.
Qed.
Lemma meets_complete th e f x : thr_ok th -> okSeg th (mkSeg (fst e) (snd e)) -> okSeg th (mkSeg (fst f) (snd f)) ->
  dirOK th (fst e) (snd e) -> dirOK th (fst f) (snd f) -> transversal th e f -> endsApart th e f ->
  onSeg (fst e) (snd e) x -> onSeg (fst f) (snd f) x -> segInterSeg th (sd e) (sd f) = Ok (Some x).
Proof.
  intros Hth O O' D D' T A H H'.
  pose proof (sd_dirOK th e D) as De. pose proof (sd_dirOK th f D') as Df.
  destruct (svLine_ok th (sd e) Hth (sd_ok th e O)) as (l & El). destruct (svLine_ok th (sd f) Hth (sd_ok th f O')) as (l' & El').
  apply (segInterSeg_complete th (sd e) (sd f) x l l'); auto.
  - destruct (lineOf_scaled th _ _ l Hth El De) as (k & Hk & Ek & ->). destruct (lineOf_scaled th _ _ l' Hth El' Df) as (k' & Hk' & Ek' & ->).
    apply rawL_unit in Ek as U. apply rawL_unit in Ek' as U'. unfold isParallel. rnum. apply Rltb_false. rewrite lineAngle_acos by auto using unit_proper.
    unfold cosL. pose proof U as V. pose proof U' as V'. unfold unitL in V, V'. rewrite V, V', Rmult_1_l, sqrt_1.
    unfold transversal in T. eapply Rle_trans; [apply T|right]. f_equal. unfold Rdiv. rewrite Rinv_1, Rmult_1_r.
    assert (forall g : pt R * pt R, edist (sA (sd g)) (sB (sd g)) = edist (fst g) (snd g)) as SE by (intros g; destruct (sd_cases g) as [->| ->]; cbn [sA sB]; auto using edist_sym).
    rewrite SE in Ek, Ek'. assert (0 < edist (fst e) (snd e) /\ 0 < edist (fst f) (snd f)) as [Pe Pf] by (destruct O, O'; cbn [sA sB] in *; pose proof (thr_dist th Hth); lra).
    replace (/ (edist (fst e) (snd e) * edist (fst f) (snd f))) with (Rabs k * Rabs k') .
    2:{ rewrite Rinv_mult. f_equal; [apply Rmult_eq_reg_r with (edist (fst e) (snd e))|apply Rmult_eq_reg_r with (edist (fst f) (snd f))]; try lra; rewrite Rinv_l by lra; auto. }
    rewrite <- !Rabs_mult. unfold scaleL, rawL. cbn [la lb].
    destruct (sd_cases e) as [->| ->], (sd_cases f) as [->| ->]; cbn [sA sB];
      match goal with |- Rabs ?a = Rabs ?b => first [replace a with b by ring; reflexivity|replace a with (- b) by ring; apply Rabs_Ropp] end.
  - unfold svEq. destruct (ptEq th (sA (sd e)) (sA (sd f))) eqn:E; [|reflexivity]. exfalso. apply ptEq_spec in E.
    assert (nullDistance th <= edist (sA (sd e)) (sA (sd f))); [|lra].
    apply A; [destruct (sd_cases e) as [->| ->]|destruct (sd_cases f) as [->| ->]]; cbn [sA In]; auto.
  - destruct (sd_cases e) as [->| ->]; auto. apply onSeg_sym; auto.
  - destruct (sd_cases f) as [->| ->]; auto. apply onSeg_sym; auto.
Qed.
Lemma simple_true th pts : thr_ok th -> (3 <= length pts)%nat -> wide th pts -> (forall e f, nonAdj pts e f -> ~ meets th e f) -> simpleCalc th pts = Ok true.
Proof.
  intros Hth L W H. pose proof (simple_spec th pts Hth L W) as S. rewrite simpleCalc_eq in * by auto. destruct (simpleB th pts); auto.
  exfalso. destruct (proj1 S eq_refl) as (e & f & N & M). exact (H e f N M).
Qed.

(** Values of the queries on an object without cached values. *)
Lemma val_isSimple th pts : (3 <= length pts)%nat -> val (plIsSimple th true (plFresh pts)) = simpleCalc th pts.
Proof.
  intros L. unfold plIsSimple. cbn [plPts plFresh plSimple]. destruct (Nat.ltb_spec (length pts) 3); [lia|]. cbn [negb]. destruct (simpleCalc th pts); reflexivity.
Qed.
Lemma val_isSimple_small th pts : (length pts < 3)%nat -> val (plIsSimple th true (plFresh pts)) = Ok false.
Proof. intros L. unfold plIsSimple. cbn [plPts plFresh]. destruct (Nat.ltb_spec (length pts) 3); [reflexivity|lia]. Qed.
Lemma val_area th pts : val (plAreaOf th true (plFresh pts)) = bind (val (plIsSimple th true (plFresh pts))) (fun b => Ok (if b then Rabs (signedArea pts) else 0)).
Proof.
  unfold plAreaOf. pose proof (isSimple_agree th true (plFresh pts)) as G.
  destruct (plIsSimple th true (plFresh pts)) as [[b p1]| |]; [|reflexivity|reflexivity]. destruct G as (E1 & E2 & _). cbn [bind val fst]. destruct b; cbn [negb]; [|reflexivity].
  rewrite E2, E1. reflexivity.
Qed.
Lemma val_centroid th pts : val (plCentroid th true (plFresh pts)) = bind (val (plIsSimple th true (plFresh pts))) (fun b => if b then centroidCalc pts else Throw).
Proof.
  unfold plCentroid. pose proof (isSimple_agree th true (plFresh pts)) as G.
  destruct (plIsSimple th true (plFresh pts)) as [[b p1]| |]; [|reflexivity|reflexivity]. destruct G as (E1 & _ & E2). cbn [bind val fst]. destruct b; cbn [negb]; [|reflexivity].
  rewrite E2, E1. cbn [plCent plFresh plPts]. destruct (centroidCalc pts); reflexivity.
Qed.
Lemma val_convex th pts : val (plIsConvex th true (plFresh pts)) =
  bind (val (plIsSimple th true (plFresh pts))) (fun b => Ok (b && ((length pts =? 3)%nat || convexLoop pts 0 (seq 0 (length pts))))).
Proof.
  unfold plIsConvex. pose proof (isSimple_agree th true (plFresh pts)) as G.
  destruct (plIsSimple th true (plFresh pts)) as [[b p1]| |]; [|reflexivity|reflexivity]. destruct G as (E1 & _). cbn [bind val fst]. destruct b; cbn [negb andb]; [|reflexivity].
  rewrite E1. cbn [plFresh plPts]. destruct (_ =? 3)%nat; reflexivity.
Qed.
Lemma isSimple_cycle th l m : thr_ok th -> wide th l -> sameCycle l m -> val (plIsSimple th true (plFresh m)) = val (plIsSimple th true (plFresh l)).
Proof.
  intros Hth W S. pose proof (sameCycle_len _ _ S). destruct (Nat.lt_ge_cases (length l) 3).
  - rewrite !val_isSimple_small by lia. reflexivity.
  - rewrite !val_isSimple by lia. now apply simple_cycle.
Qed.
Lemma isSimple_moved th l x y : thr_ok th -> okSides th l -> val (plIsSimple th true (plFresh (map (fun p => moved p x y) l))) = val (plIsSimple th true (plFresh l)).
Proof.
  intros Hth O. destruct (Nat.lt_ge_cases (length l) 3).
  - rewrite !val_isSimple_small by (rewrite ?map_length; lia). reflexivity.
  - rewrite !val_isSimple by (rewrite ?map_length; lia). apply simple_moved; auto using okSides_wide. now apply okSides_dir.
Qed.

(** A 4x3 rectangle and the same with one more vertex in the middle of a side. *)
Definition box4 : list (pt R) := [mkPt 0 0; mkPt 4 0; mkPt 4 3; mkPt 0 3].
Definition box5 : list (pt R) := [mkPt 0 0; mkPt 2 0; mkPt 4 0; mkPt 4 3; mkPt 0 3].
(** An arrow head. *)
Definition dart : list (pt R) := [mkPt 0 0; mkPt 4 0; mkPt 4 6; mkPt 3 2].
Lemma thr0_small : nullDistance (thr0 (T := R)) <= 1 / 1000 /\ dblEpsilon (thr0 (T := R)) <= 1 / 1000 /\ nullDenom (thr0 (T := R)) <= 1 / 1000.
Proof. unfold thr0; cbn [nullDistance dblEpsilon nullDenom]; rnum. lra. Qed.
Ltac side_ok d :=
  let X := fresh in
  pose proof thr0_small as X;
  match goal with |- okSeg _ (mkSeg ?p ?q) /\ _ =>
    assert (edist p q = d) by (apply edist_val; cbn [px py]; lra) end;
  unfold okSeg, dirOK; cbn [sA sB fst snd px py] in *; match goal with E : edist _ _ = _ |- _ => rewrite !E end;
  split; [lra|first [left; lra|right; unfold Rabs; destruct (Rcase_abs _); lra]].
Lemma box4_ok : okSides thr0 box4.
Proof. intros e. cbn [cyc box4 app combine In]. intros [<-|[<-|[<-|[<-|[]]]]]; cbn [fst snd]; [side_ok 4|side_ok 3|side_ok 4|side_ok 3]. Qed.
Lemma box5_ok : okSides thr0 box5.
Proof. intros e. cbn [cyc box5 app combine In]. intros [<-|[<-|[<-|[<-|[<-|[]]]]]]; cbn [fst snd]; [side_ok 2|side_ok 2|side_ok 3|side_ok 4|side_ok 3]. Qed.
Ltac gap := pose proof thr0_small; cbn [nth cyc box4 box5 dart app combine fst snd px py]; unfold Rmin, Rmax;
  repeat match goal with |- context [Rle_dec ?a ?b] => destruct (Rle_dec a b) end; try lra.
Lemma box4_simple : simpleCalc thr0 box4 = Ok true.
Proof.
  apply simple_true; [apply thr0_ok|cbn; lia|apply okSides_wide, box4_ok|]. intros e f N.
  destruct (nonAdj_in _ _ _ N) as [Ie If]. apply meets_gap; [apply thr0_ok|now apply (okSides_dir _ _ box4_ok)|now apply (okSides_dir _ _ box4_ok)|].
  clear Ie If. destruct (nonAdj_index _ _ _ N) as (i & j & H & H' & -> & ->). cbn [length box4] in H, H'.
  assert (i = 0 /\ j = 2 \/ i = 1 /\ j = 3)%nat as [[-> ->]|[-> ->]] by lia; [do 2 right; left; gap|do 1 right; left; gap].
Qed.
Lemma box5_simple : simpleCalc thr0 box5 = Ok true.
Proof.
  apply simple_true; [apply thr0_ok|cbn; lia|apply okSides_wide, box5_ok|]. intros e f N.
  destruct (nonAdj_in _ _ _ N) as [Ie If]. apply meets_gap; [apply thr0_ok|now apply (okSides_dir _ _ box5_ok)|now apply (okSides_dir _ _ box5_ok)|].
  clear Ie If. destruct (nonAdj_index _ _ _ N) as (i & j & H & H' & -> & ->). cbn [length box5] in H, H'.
  assert (i = 0 /\ j = 2 \/ i = 0 /\ j = 3 \/ i = 1 /\ j = 3 \/ i = 1 /\ j = 4 \/ i = 2 /\ j = 4)%nat as [[-> ->]|[[-> ->]|[[-> ->]|[[-> ->]|[-> ->]]]]] by lia;
  [left; gap|do 2 right; left; gap|do 2 right; left; gap|right; left; gap|right; left; gap].
Qed.

Lemma simple_tri th p q r : thr_ok th -> wide th [p; q; r] -> simpleCalc th [p; q; r] = Ok true.
Proof.
  intros Hth W. apply simple_true; auto. intros e f N. destruct (nonAdj_index _ _ _ N) as (i & j & H & H' & _). cbn [length] in *. lia.
Qed.
(** A right triangle. *)
Definition tri3 : list (pt R) := [mkPt 0 0; mkPt 3 0; mkPt 0 3].
Lemma wide_seg th p q : nullDistance th <= edist p q -> dblEpsilon th < edist p q -> okSeg th (mkSeg p q).
Proof. intros. split; auto. Qed.
Lemma moved3 x y e : In e (cyc (map (fun p => moved p x y) tri3)) -> 1 <= edist (fst e) (snd e).
Proof.
  cbn [cyc tri3 map app combine In]. intros [<-|[<-|[<-|[]]]]; cbn [fst snd moved].
  - eapply Rle_trans; [|apply edist_ge_x]. cbn [px moved]. unfold Rabs. destruct (Rcase_abs _); lra.
  - eapply Rle_trans; [|apply edist_ge_x]. cbn [px moved]. unfold Rabs. destruct (Rcase_abs _); lra.
  - eapply Rle_trans; [|apply edist_ge_y]. cbn [py moved]. unfold Rabs. destruct (Rcase_abs _); lra.
Qed.
Lemma moved3_wide x y : wide thr0 (map (fun p => moved p x y) tri3).
Proof. intros e I. apply moved3 in I. pose proof thr0_small. apply wide_seg; lra. Qed.
Lemma moved3_simple x y : simpleCalc thr0 (map (fun p => moved p x y) tri3) = Ok true.
Proof. apply simple_tri; [apply thr0_ok|apply moved3_wide]. Qed.
Lemma tri3_moved0 : map (fun p => moved p 0 0) tri3 = tri3.
Proof. unfold tri3, moved. cbn [map px py]. repeat f_equal; ring. Qed.
Lemma centroid3 x y : centroidCalc (map (fun p => moved p x y) tri3) = Ok (mkPt (1 + x) (1 + y)).
Proof.
  assert (signedArea (map (fun p => moved p x y) tri3) = 9 / 2) as A.
  { rewrite signedArea_sum. unfold cr2. cbn [cyc tri3 map app combine sumOver fst snd px py moved]. field. }
  rewrite centroidCalc_sum by (rewrite A; lra). rewrite A. unfold cx, cy, cr2. cbn [cyc tri3 map app combine sumOver fst snd px py moved]. do 2 f_equal; field.
Qed.

Lemma mapM_inv {A B} (f : A -> res B) l m : mapM f l = Ok m -> Forall2 (fun x y => f x = Ok y) l m.
Proof.
  revert m. induction l as [|x l IH]; intros m H; cbn in H; [injection H as <-; constructor|].
  apply bind_ok in H. destruct H as (y & E & H). apply bind_ok in H. destruct H as (r & E' & H). injection H as <-. constructor; auto.
Qed.
Lemma Forall2_len {A B} (P : A -> B -> Prop) l m : Forall2 P l m -> length l = length m.
Proof. induction 1; cbn; auto. Qed.
Lemma Forall2_nth {A B} (P : A -> B -> Prop) l m i d d' : Forall2 P l m -> (i < length l)%nat -> P (nth i l d) (nth i m d').
Proof. intros F. revert i. induction F; intros i L; cbn in *; [lia|]. destruct i; auto. apply IHF. lia. Qed.
Lemma transversal_notpar th e f l l' : thr_ok th -> dirOK th (fst e) (snd e) -> dirOK th (fst f) (snd f) -> transversal th e f ->
  lineOf th (fst e) (snd e) = Ok l -> lineOf th (fst f) (snd f) = Ok l' -> isParallel th l l' = false.
Proof.
  intros Hth D D' T El El'. assert (0 < edist (fst e) (snd e) /\ 0 < edist (fst f) (snd f)) as [Pe Pf].
  { apply lineOf_inv in El. apply lineOf_inv in El'. pose proof (thr_dist th Hth). lra. }
  destruct (lineOf_scaled th _ _ l Hth El D) as (k & Hk & Ek & ->). destruct (lineOf_scaled th _ _ l' Hth El' D') as (k' & Hk' & Ek' & ->).
  apply rawL_unit in Ek as U. apply rawL_unit in Ek' as U'. unfold isParallel. rnum. apply Rltb_false. rewrite lineAngle_acos by auto using unit_proper.
  unfold cosL. pose proof U as V. pose proof U' as V'. unfold unitL in V, V'. rewrite V, V', Rmult_1_l, sqrt_1.
  unfold transversal in T. eapply Rle_trans; [apply T|right]. f_equal. unfold Rdiv. rewrite Rinv_1, Rmult_1_r.
  replace (/ (edist (fst e) (snd e) * edist (fst f) (snd f))) with (Rabs k * Rabs k').
  2:{ rewrite Rinv_mult. f_equal; [apply Rmult_eq_reg_r with (edist (fst e) (snd e))|apply Rmult_eq_reg_r with (edist (fst f) (snd f))]; try lra; rewrite Rinv_l by lra; auto. }
  rewrite <- !Rabs_mult. unfold scaleL, rawL. cbn [la lb]. f_equal. ring.
Qed.
Lemma turn_triples (pts : list (pt R)) (P : pt R -> pt R -> pt R -> Prop) : (2 <= length pts)%nat ->
  (forall i, (i < length pts)%nat -> P (nth (prevIdx (length pts) i) pts pt00) (nth i pts pt00) (nth (nextIdx (length pts) i) pts pt00)) ->
  forall p q r, triple pts p q r -> P p q r.
Proof. intros L H p q r T. apply triple_index in T; auto. destruct T as (i & I & -> & -> & ->). auto. Qed.
Lemma box4_turns p q r : triple box4 p q r -> cross3 p q r = 12.
Proof.
  revert p q r. apply (turn_triples box4 (fun p q r => cross3 p q r = 12)); [cbn; lia|]. cbn [box4 length]. intros i I.
  do 4 (destruct i as [|i]; [unfold cross3; cbn; lra|]). lia.
Qed.
Lemma box4_nospike : noSpike box4.
Proof. intros p q r T [C _]. apply box4_turns in T. unfold cross3 in *. lra. Qed.
Lemma box4_nodup : NoDup box4.
Proof. unfold box4. repeat constructor; cbn [In]; intros H; repeat (destruct H as [H|H]; [injection H; intros; lra|]); contradiction. Qed.
Lemma rcp_mid rad n e : (3 <= n)%nat -> 0 < rad -> In e (cyc (map (rcpPoint rad n) (seq 0 n))) ->
  edist (mkPt 0 0) (mkPt ((px (fst e) + px (snd e)) / 2) ((py (fst e) + py (snd e)) / 2)) = rad * cos (PI / INR n).
Proof.
  intros L Hr I. pose proof (rcp_sides rad n e L Hr I) as S. destruct (half_angle n L) as (_ & _ & _ & C & _).
  assert (forall p, In p (map (rcpPoint rad n) (seq 0 n)) -> edist (mkPt 0 0) p = rad) as ON.
  { intros p J. apply in_map_iff in J. destruct J as (i & <- & _). rewrite rcp_circ. apply circ_norm. lra. }
  assert (In (fst e) (map (rcpPoint rad n) (seq 0 n)) /\ In (snd e) (map (rcpPoint rad n) (seq 0 n))) as [I1 I2].
  { set (l := map (rcpPoint rad n) (seq 0 n)) in *. clearbody l. split.
    - rewrite <- (map_fst_cyc l). now apply in_map.
    - destruct l as [|a l]; [contradiction|]. destruct e as [u v]. cbn [cyc] in I. apply in_combine_r in I. apply in_app_or in I. cbn [snd]. destruct I as [I|[<-|[]]]; [now right|now left]. }
  apply ON in I1. apply ON in I2. pose proof (edist_sq (mkPt 0 0) (fst e)) as A. pose proof (edist_sq (mkPt 0 0) (snd e)) as B. pose proof (edist_sq (fst e) (snd e)) as D.
  rewrite I1 in A. rewrite I2 in B. rewrite S in D. cbn [px py] in A, B. pose proof (sin2_cos2 (PI / INR n)) as SC. unfold Rsqr in SC.
  apply edist_val; [apply Rmult_le_pos; lra|]. cbn [px py].
  assert (rad * rad * (sin (PI / INR n) * sin (PI / INR n) + cos (PI / INR n) * cos (PI / INR n)) = rad * rad) by (rewrite SC; ring). lra.
Qed.

Lemma acos_ge a x : 0 <= a <= PI -> -1 <= x <= 1 -> x <= cos a -> a <= acos x.
Proof.
  intros A X H. destruct (Rle_dec a (acos x)); auto. exfalso. pose proof (acos_bound x).
  assert (cos a < cos (acos x)) by (apply cos_decreasing_1; lra). rewrite cos_acos in *; lra.
Qed.
