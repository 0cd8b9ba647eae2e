(** * Properties of offset polygons *)

From Coq Require Import Reals Lra Lia List Bool Arith.
From Verif Require Import Num M_LP M_Homogr M_Seg M_Poly M_Offset S_Geom S_Seg S_Poly S_Offset P_LP P_LP2 P_LP4 P_Seg P_Poly P_Poly2 P_Poly3 P_Poly4 P_Poly6 P_Poly7 P_Offset P_Offset2.
Import ListNotations.
Local Open Scope R_scope.

(** ** C120 *)
(** v: the vertices in normal order.  Every vertex of the result is at the signed distance dist of both sides
    next to a vertex of v.  The only failure is that the polygon constructor refuses two close points. *)
Theorem C120_vertices : forall th split pts dist, thr_ok th -> (3 <= length pts)%nat -> val (plIsSimple th true (plFresh pts)) = Ok true ->
  goodSides th pts -> sharp th pts -> nullDistance th <= Rabs dist -> split = false \/ dist < 0 ->
  exists v qs, sameCycle pts v /\ normPts true pts = Ok v /\ Forall2 (fun c q => offLine dist (fst c) q /\ offLine dist (snd c) q) (corners v) qs /\
    ((forall e, In e (cyc qs) -> nullDistance th <= edist (fst e) (snd e)) ->
       plOffset th true split (plFresh pts) dist = Ok (plFresh qs, mkPl v true None None (Some true) None)) /\
    (forall e, In e (cyc qs) -> edist (fst e) (snd e) < nullDistance th -> plOffset th true split (plFresh pts) dist = Throw).
Proof.
  intros th split pts dist Hth L S G SH D SP. destruct (offset_poly th split pts dist Hth L S G SH D SP) as (v & qs & C & NV & F & E).
  exists v, qs. do 3 (split; [auto|]). rewrite E.
  assert (length qs = length pts) as LQ by (rewrite <- (Forall2_len _ _ _ F); unfold corners; rewrite !cyc_length; symmetry; now apply sameCycle_length).
  split.
  - intros H. rewrite plSet_ok; [reflexivity|lia|exact H].
  - intros e I H. destruct (plSet th qs) as [out| |] eqn:ES; cbn [bind]; [exfalso|reflexivity|exfalso].
    + destruct (plSet_inv _ _ _ ES) as (_ & _ & K). specialize (K _ I). lra.
    + unfold plSet in ES. destruct (_ =? _)%nat; [discriminate|]. destruct (_ && _); discriminate.
Qed.
(** A null distance, less than 3 points, an open polyline, a polygon that is not simple: empty result,
    no failure, and the points of the object are not touched. *)
Theorem C120_empty : forall th closed split pts dist b, val (plIsSimple th closed (plFresh pts)) = Ok b ->
  Rabs dist < nullDistance th \/ (length pts < 3)%nat \/ closed = false \/ b = false ->
  exists pl, plOffset th closed split (plFresh pts) dist = Ok (plEmpty, pl) /\ plPts pl = pts.
Proof.
  intros th closed split pts dist b V H. unfold val in V. apply bind_ok in V. destruct V as ([b' pl] & E & V). cbn in V. injection V as ->.
  unfold plOffset. rewrite E. cbn [bind].
  assert (plPts pl = pts /\ (closed = false -> b = false)) as [P O].
  { unfold plIsSimple in E. cbn [plPts plFresh plSimple] in E. destruct (_ <? _)%nat; [injection E as <- <-; auto|].
    destruct closed; cbn [negb] in E; [|injection E as <- <-; auto]. apply bind_ok in E. destruct E as (b1 & _ & E). injection E as <- <-. split; [reflexivity|discriminate]. }
  exists pl. split; [|auto]. cbn [plPts plFresh]. replace (_ || _) with true; [reflexivity|]. symmetry. rnum.
  destruct H as [H|[H|[H|H]]].
  - apply Rltb_spec in H. now rewrite H.
  - apply Nat.ltb_lt in H. rewrite H. now rewrite orb_true_r.
  - rewrite (O H). apply orb_true_r.
  - rewrite H. apply orb_true_r.
Qed.
(** The rectangle 4 x 3, at any distance, both signs. *)
Definition box4n : list (pt R) := [mkPt 0 0; mkPt 0 3; mkPt 4 3; mkPt 4 0].
Ltac rdec := repeat match goal with
  | |- context [Rltb ?a ?b] => first [replace (Rltb a b) with true by (symmetry; apply Rltb_spec; lra)|replace (Rltb a b) with false by (symmetry; apply Rltb_false; lra)]
  end; cbn [rotateL skipn firstn app].
Lemma box4_norm : normPts (N := RNum) true box4 = Ok box4n.
Proof.
  assert (rotateL (minElem (ptLt (N := RNum)) box4) box4 = box4) as H by (unfold minElem, box4; cbn [minElemFrom]; unfold ptLt; cbn [px py]; rnum; rdec; reflexivity).
  assert (rotateL (minElem (ptLt (N := RNum)) (rev box4)) (rev box4) = box4n) as H' by (unfold minElem, box4; cbn [rev app minElemFrom]; unfold ptLt; cbn [px py]; rnum; rdec; reflexivity).
  unfold normPts. rewrite H. unfold box4 at 1. cbn [last px py]. rnum. rdec. fold box4. now rewrite H'.
Qed.
Ltac vert_ok d :=
  let X := fresh in pose proof thr0_small as X;
  match goal with |- vertOK _ ?p ?q => assert (edist p q = d) by (apply edist_val; cbn [px py]; lra) end;
  unfold vertOK; cbn [px py] in *; match goal with E : edist _ _ = _ |- _ => rewrite !E end;
  first [left; lra|right; unfold Rabs; destruct (Rcase_abs _); lra].
Lemma box4_good : goodSides thr0 box4.
Proof.
  split; [apply box4_ok|]. intros e. cbn [cyc box4 app combine In]. intros [<-|[<-|[<-|[<-|[]]]]]; cbn [fst snd]; [vert_ok 4|vert_ok 3|vert_ok 4|vert_ok 3].
Qed.
Lemma ortho_transversal th e f : thr_ok th ->
  (px (snd e) - px (fst e)) * (px (snd f) - px (fst f)) + (py (snd e) - py (fst e)) * (py (snd f) - py (fst f)) = 0 -> transversal th e f.
Proof. intros Hth H. unfold transversal. rewrite H, Rabs_R0. unfold Rdiv. rewrite Rmult_0_l, acos_0. pose proof (thr_angl th Hth). lra. Qed.
Lemma box4_sharp : sharp thr0 box4.
Proof.
  intros p q r T. apply ortho_transversal; [apply thr0_ok|]. cbn [fst snd]. revert p q r T.
  apply (turn_triples box4 (fun p q r => (px q - px p) * (px r - px q) + (py q - py p) * (py r - py q) = 0)); [cbn; lia|]. cbn [box4 length]. intros i I.
  do 4 (destruct i as [|i]; [cbn; lra|]). lia.
Qed.
Lemma box4_isSimple : val (plIsSimple thr0 true (plFresh box4)) = Ok true.
Proof. rewrite val_isSimple by (cbn; lia). apply box4_simple. Qed.
Lemma pt_eq (p : pt R) x y : px p = x -> py p = y -> p = mkPt x y.
Proof. destruct p. cbn. now intros -> ->. Qed.
(** The points found, for any distance. *)
Lemma box4_offset d qs : Forall2 (fun c q => offLine d (fst c) q /\ offLine d (snd c) q) (corners box4n) qs ->
  qs = [mkPt (- d) (3 + d); mkPt (4 + d) (3 + d); mkPt (4 + d) (- d); mkPt (- d) (- d)].
Proof.
  unfold corners, box4n. cbn [cyc combine app]. intros F.
  assert (edist (mkPt 0 0) (mkPt 0 3) = 3) as E1 by (apply edist_val; cbn [px py]; lra).
  assert (edist (mkPt 0 3) (mkPt 4 3) = 4) as E2 by (apply edist_val; cbn [px py]; lra).
  assert (edist (mkPt 4 3) (mkPt 4 0) = 3) as E3 by (apply edist_val; cbn [px py]; lra).
  assert (edist (mkPt 4 0) (mkPt 0 0) = 4) as E4 by (apply edist_val; cbn [px py]; lra).
  repeat match goal with H : Forall2 _ (_ :: _) ?l |- _ => inversion H; clear H; subst | H : Forall2 _ [] ?l |- _ => inversion H; clear H; subst end.
  repeat match goal with H : _ /\ _ |- _ => destruct H end. unfold offLine, cross3 in *. cbn [fst snd px py] in *. rewrite ?E1, ?E2, ?E3, ?E4 in *.
  repeat f_equal; apply pt_eq; lra.
Qed.
Example C120_ex : exists o, plOffset thr0 true false (plFresh box4) (-1) = Ok (plFresh [mkPt 1 2; mkPt 3 2; mkPt 3 1; mkPt 1 1], o).
Proof.
  pose proof thr0_small. destruct (C120_vertices thr0 false box4 (-1)) as (v & qs & _ & NV & F & E & _);
    [apply thr0_ok|cbn; lia|apply box4_isSimple|apply box4_good|apply box4_sharp|unfold Rabs; destruct (Rcase_abs _); lra|auto|].
  rewrite box4_norm in NV. injection NV as <-. apply box4_offset in F. subst qs. eexists. rewrite E.
  - repeat f_equal; lra.
  - cbn [cyc combine app In]. intros e [<-|[<-|[<-|[<-|[]]]]]; cbn [fst snd].
    + pose proof (edist_ge_x (mkPt (- -1) (3 + -1)) (mkPt (4 + -1) (3 + -1))) as G. cbn [px py] in G. unfold Rabs in G. destruct (Rcase_abs _); lra.
    + pose proof (edist_ge_y (mkPt (4 + -1) (3 + -1)) (mkPt (4 + -1) (- -1))) as G. cbn [px py] in G. unfold Rabs in G. destruct (Rcase_abs _); lra.
    + pose proof (edist_ge_x (mkPt (4 + -1) (- -1)) (mkPt (- -1) (- -1))) as G. cbn [px py] in G. unfold Rabs in G. destruct (Rcase_abs _); lra.
    + pose proof (edist_ge_y (mkPt (- -1) (- -1)) (mkPt (- -1) (3 + -1))) as G. cbn [px py] in G. unfold Rabs in G. destruct (Rcase_abs _); lra.
Qed.
Print Assumptions C120_vertices. Print Assumptions C120_empty.

(** ** C121 *)
(** A strictly convex polygon, in either order, moved outwards by d: always a result, clockwise, each vertex
    further than d of every point of the polygon, all points of the polygon strictly inside every side. *)
Lemma cw_cycle l m : (2 <= length l)%nat -> shifted l m -> clockwise l -> clockwise m.
Proof. intros L S H p q r T. apply H. apply (triple_shift m l); auto using shifted_sym. rewrite <- (shifted_len _ _ S). auto. Qed.
Lemma shifted_rev {A} (l m : list A) : shifted l m -> shifted (rev l) (rev m).
Proof. intros (u & v & -> & ->). exists (rev v), (rev u). now rewrite !rev_app_distr. Qed.
(** The normal order is the clockwise one. *)
Lemma cw_norm pts w v : (3 <= length pts)%nat -> w = pts \/ w = rev pts -> clockwise w -> sameCycle pts v -> normPts true pts = Ok v -> shifted w v /\ clockwise v.
Proof.
  intros L H W C NV. destruct (norm_turn pts v L NV) as (p & q & r & T & X).
  assert (length v = length pts) as LV by (symmetry; now apply sameCycle_length).
  assert (shifted w v \/ shifted w (rev v)) as [K|K].
  { destruct H as [-> | ->], C as [C|C]; auto.
    - right. apply shifted_rev in C. now rewrite rev_involutive in C.
    - right. now apply shifted_rev. }
  - split; [auto|]. apply (cw_cycle w); auto. rewrite (shifted_len _ _ K). lia.
  - exfalso. assert (clockwise (rev v)) as K' by (apply (cw_cycle w); auto; rewrite (shifted_len _ _ K), rev_length; lia).
    assert (triple (rev v) r q p) as T' by (apply triple_rev; auto). apply K' in T'. unfold cross3 in *. lra.
Qed.
Theorem C121_convex : forall th pts w d, thr_ok th -> (3 <= length pts)%nat -> val (plIsSimple th true (plFresh pts)) = Ok true ->
  goodSides th pts -> sharp th pts -> nullDistance th <= d -> w = pts \/ w = rev pts -> clockwise w ->
  exists qs o, plOffset th true false (plFresh pts) d = Ok (plFresh qs, o) /\ length qs = length pts /\ clockwise qs /\
    forall p, inConvex w p -> (forall e, In e (cyc qs) -> cross3 (fst e) (snd e) p < 0) /\ (forall x, In x qs -> d <= edist x p).
Proof.
  intros th pts w d Hth L S G SH D W CW. pose proof (thr_dist th Hth) as TD.
  destruct (C120_vertices th false pts d) as (v & qs & C & NV & F & E & _); auto; [rewrite Rabs_right; lra|].
  destruct (cw_norm pts w v L W CW C NV) as (SV & CV). assert (3 <= length v)%nat as LV by (rewrite <- (sameCycle_length _ _ C); auto). assert (0 < d) as Hd by lra.
  exists qs, (mkPl v true None None (Some true) None). split; [|split; [|split]].
  - apply E. intros e I. apply (out_long d v qs Hd LV CV F e); auto. intros f J. pose proof (goodSides_cycle _ _ _ C G) as [O _]. destruct (O _ J) as [[K _] _]. exact K.
  - rewrite (qs_length d v qs F). symmetry. now apply sameCycle_length.
  - now apply (out_clockwise d v qs).
  - intros p P. assert (inConvex v p) as P' by (intros e I; apply P; eapply Permutation.Permutation_in; [apply Permutation.Permutation_sym, cyc_shift, SV|exact I]).
    split; [intros e I; now apply (out_contains d v qs Hd LV CV F e)|intros x I; now apply (out_far d v qs Hd LV CV F)].
Qed.
Example C121_ex : exists o, plOffset thr0 true false (plFresh box4) 2 = Ok (plFresh [mkPt (-2) 5; mkPt 6 5; mkPt 6 (-2); mkPt (-2) (-2)], o) /\ clockwise (rev box4) /\ inConvex (rev box4) (mkPt 1 1).
Proof.
  pose proof thr0_small. assert (clockwise (rev box4)) as CW.
  { unfold clockwise. refine (turn_triples (rev box4) (fun p q r => cross3 p q r < 0) _ _); [cbn; lia|]. cbn [box4 rev app length]. intros i I. do 4 (destruct i as [|i]; [unfold cross3; cbn; lra|]). lia. }
  destruct (offset_poly thr0 false box4 2) as (v & qs & _ & NV & F & E);
    [apply thr0_ok|cbn; lia|apply box4_isSimple|apply box4_good|apply box4_sharp|unfold Rabs; destruct (Rcase_abs _); lra|auto|].
  rewrite box4_norm in NV. injection NV as <-. apply box4_offset in F.
  destruct (C121_convex thr0 box4 (rev box4) 2) as (qs2 & o & E2 & _); [apply thr0_ok|cbn; lia|apply box4_isSimple|apply box4_good|apply box4_sharp|lra|auto|auto|].
  exists o. split; [|split; [exact CW|]].
  - rewrite E2 in E |- *. destruct (plSet thr0 qs) as [out| |] eqn:ES; cbn [bind] in E; try discriminate.
    apply plSet_inv in ES. destruct ES as [-> _]. apply Ok_inj in E. assert (plFresh qs2 = plFresh qs) as -> by congruence. rewrite F. repeat f_equal; lra.
  - unfold inConvex, cross3. cbn [rev app box4 cyc combine In]. intros e [<-|[<-|[<-|[<-|[]]]]]; cbn [fst snd px py]; lra.
Qed.
Print Assumptions C121_convex.

(** ** C122 *)
(** "On failure (for whatever reason), will return an empty CPolyline" and "If dist<0, returns the polyline
    inside the source one": neither holds, on a rectangle. *)
Theorem C122_failure_refuted : exists th pts dist, thr_ok th /\ val (plIsSimple th true (plFresh pts)) = Ok true /\ goodSides th pts /\ sharp th pts /\
  plOffset th true false (plFresh pts) dist = Throw.
Proof.
  pose proof thr0_small. exists thr0, box4, (-2). split; [apply thr0_ok|]. split; [apply box4_isSimple|]. split; [apply box4_good|]. split; [apply box4_sharp|].
  destruct (C120_vertices thr0 false box4 (-2)) as (v & qs & _ & NV & F & _ & E);
    [apply thr0_ok|cbn; lia|apply box4_isSimple|apply box4_good|apply box4_sharp|unfold Rabs; destruct (Rcase_abs _); lra|auto|].
  rewrite box4_norm in NV. injection NV as <-. apply box4_offset in F. subst qs. eapply E; [left; reflexivity|]. cbn [fst snd].
  rewrite (edist_val _ _ 0); [|lra|cbn [px py]; lra]. pose proof (thr_dist thr0 thr0_ok). lra.
Qed.
Theorem C122_inside_refuted : exists th pts dist qs o, thr_ok th /\ val (plIsSimple th true (plFresh pts)) = Ok true /\ goodSides th pts /\ sharp th pts /\ dist < 0 /\
  plOffset th true false (plFresh pts) dist = Ok (plFresh qs, o) /\ qs <> [] /\ forall p, In p qs -> 6 < Rmax (Rabs (px p - 2)) (Rabs (py p - 3 / 2)).
Proof.
  pose proof thr0_small. exists thr0, box4, (-10). 
  destruct (C120_vertices thr0 false box4 (-10)) as (v & qs & _ & NV & F & E & _);
    [apply thr0_ok|cbn; lia|apply box4_isSimple|apply box4_good|apply box4_sharp|unfold Rabs; destruct (Rcase_abs _); lra|auto|].
  rewrite box4_norm in NV. injection NV as <-. apply box4_offset in F. exists qs. eexists.
  split; [apply thr0_ok|]. split; [apply box4_isSimple|]. split; [apply box4_good|]. split; [apply box4_sharp|]. split; [lra|]. split; [|split].
  - apply E. subst qs. cbn [cyc combine app In]. intros e [<-|[<-|[<-|[<-|[]]]]]; cbn [fst snd].
    + rewrite (edist_val _ _ 16); [lra|lra|cbn [px py]; lra].
    + rewrite (edist_val _ _ 17); [lra|lra|cbn [px py]; lra].
    + rewrite (edist_val _ _ 16); [lra|lra|cbn [px py]; lra].
    + rewrite (edist_val _ _ 17); [lra|lra|cbn [px py]; lra].
  - subst qs. discriminate.
  - subst qs. cbn [In]. intros p I. eapply Rlt_le_trans; [|apply Rmax_l]. destruct I as [<-|[<-|[<-|[<-|[]]]]]; cbn [px py]; unfold Rabs; destruct (Rcase_abs _); lra.
Qed.
Print Assumptions C122_failure_refuted. Print Assumptions C122_inside_refuted.
