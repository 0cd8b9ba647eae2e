(** * Properties C59-C61, C66, C82-C86: closest points, nearest points, duplicates, bounding boxes *)

From Coq Require Import Reals ZArith List Bool Lra Lia Arith.
From Verif Require Import Num M_LP M_Seg M_Circle M_Poly M_FRect M_Misc S_Geom S_Seg S_Circle S_Poly S_FRect S_Misc P_LP P_LP2 P_Seg P_BB P_Poly P_Poly2 P_Poly7 P_Misc P_Misc2 P_LP4.
Import ListNotations.
Local Open Scope R_scope.

(** ** C59 *)
Theorem C59_closest : forall a b, a <> [] -> b <> [] -> exists d i j,
  closestPoints a b = Ok (d, i, j) /\ (i < length a)%nat /\ (j < length b)%nat /\
  cpPoints a b (d, i, j) = Ok (nth i a pt00, nth j b pt00) /\ d = edist (nth i a pt00) (nth j b pt00) /\
  (forall p q, In p a -> In q b -> d <= edist p q) /\
  (forall i' j', (i' < length a)%nat -> (j' < length b)%nat -> (i' < i)%nat \/ (i' = i /\ (j' < j)%nat) ->
    d < edist (nth i' a pt00) (nth j' b pt00)).
Proof.
  intros a b A B. destruct (closest_spec a b A B) as (d & i & j & E & I & J & D & M & F). exists d, i, j.
  do 3 (split; [assumption|]). split; [|auto]. unfold cpPoints, plPoint. cbn [fst snd].
  rewrite !(proj2 (Nat.leb_gt _ _)) by auto. reflexivity.
Qed.
Theorem C59_empty : forall a b : list (pt R), a = [] \/ b = [] -> closestPoints a b = Throw.
Proof. intros a b [->| ->]; [reflexivity|]. destruct a; reflexivity. Qed.
Theorem C59_symmetric : forall a b d i j d' i' j', closestPoints (a : list (pt R)) b = Ok (d, i, j) -> closestPoints b a = Ok (d', i', j') -> d = d'.
Proof.
  intros a b d i j d' i' j' H H'. assert (a <> [] /\ b <> []) as [A B] by (split; intros ->; [|destruct a]; discriminate).
  destruct (closest_spec a b A B) as (x & k & l & E & I & J & D & M & _). rewrite E in H. injection H as -> -> ->.
  destruct (closest_spec b a B A) as (x & k & l & E' & I' & J' & D' & M' & _). rewrite E' in H'. injection H' as -> -> ->.
  apply Rle_antisym.
  - rewrite D', edist_sym. apply M; now apply nth_In.
  - rewrite D, edist_sym. apply M'; now apply nth_In.
Qed.
Example C59_ex : closestPoints [mkPt 0 0; mkPt 3 0] [mkPt 9 0; mkPt 3 4] = Ok (4, 1%nat, 1%nat).
Proof.
  assert (edist (mkPt 0 0) (mkPt 9 0) = 9 /\ edist (mkPt 0 0) (mkPt 3 4) = 5 /\ edist (mkPt 3 0) (mkPt 9 0) = 6 /\ edist (mkPt 3 0) (mkPt 3 4) = 4) as (A & B & C & D)
    by (repeat split; apply edist_val; cbn [px py]; lra).
  unfold closestPoints. cbn [length seq fold_left]. unfold cpStep. cbn [nth fst snd]. change (@distPP R RNum) with edist. rewrite A, B, C, D. rnum.
  rewrite (proj2 (Rltb_false 9 9)) by lra. cbn [fst snd]. rewrite (proj2 (Rltb_spec 5 9)) by lra. cbn [fst snd].
  rewrite (proj2 (Rltb_false 6 5)) by lra. cbn [fst snd]. rewrite (proj2 (Rltb_spec 4 5)) by lra.
  reflexivity.
Qed.
Print Assumptions C59_closest. Print Assumptions C59_empty. Print Assumptions C59_symmetric.

(** ** C60 *)
Lemma eq00 : @ptEq R RNum thr0 (mkPt 0 0) (mkPt 0 0) = true.
Proof. apply ptEq_spec. rewrite edist_refl. apply thr_dist, thr0_ok. Qed.
Lemma ne00 x y : 1 <= x -> @ptEq R RNum thr0 (mkPt 0 0) (mkPt x y) = false.
Proof. intros H. apply ptEq_false. pose proof thr0_small. pose proof (edist_ge_x (mkPt 0 0) (mkPt x y)) as E. cbn [px py] in E. rewrite Rabs_left in E; lra. Qed.
(** A point of the container that is equal to the query is not reported as the nearest one. *)
Theorem C60_coincident_refuted : exists pts q r, (2 <= length pts)%nat /\ findPoint thr0 false q pts = Ok r /\
  exists p, In p pts /\ edist q p < edist q (nth r pts pt00).
Proof.
  exists [mkPt 0 0; mkPt 5 0], (mkPt 0 0), 1%nat. split; [cbn; lia|]. split.
  - unfold findPoint. cbn [length Nat.ltb Nat.leb nth]. rewrite eq00. reflexivity.
  - exists (mkPt 0 0). split; [now left|]. cbn [nth]. rewrite edist_refl. replace (edist _ _) with 5 by (symmetry; apply edist_val; cbn [px py]; lra). lra.
Qed.
(** With the first two points equal to the query, the second one is reported, although such points are to
    be ignored and there is another one. *)
Theorem C60_two_coincident_refuted : exists pts q r, findPoint thr0 false q pts = Ok r /\ nth r pts pt00 = q /\
  exists p, In p pts /\ nullDistance thr0 <= edist q p.
Proof.
  exists [mkPt 0 0; mkPt 0 0; mkPt 5 0], (mkPt 0 0), 1%nat. split; [|split; [reflexivity|]].
  - unfold findPoint. cbn [length Nat.ltb Nat.leb nth Nat.sub seq fold_left]. rewrite eq00. unfold fpStep, sqDist. cbn [nth snd fst px py].
    rewrite ne00 by lra. cbn [negb]. rnum. destruct (Rltb _ _) eqn:E; [apply Rltb_spec in E; lra|reflexivity].
  - exists (mkPt 5 0). split; [cbn; auto|]. apply ptEq_false, ne00. lra.
Qed.
Print Assumptions C60_coincident_refuted. Print Assumptions C60_two_coincident_refuted.

(** ** C82 *)
Definition apart (th : thrs R) (q p : pt R) : Prop := nullDistance th <= edist q p.
Theorem C82_nearest : forall th q pts, (2 <= length pts)%nat -> apart th q (nth 0 pts pt00) \/ apart th q (nth 1 pts pt00) ->
  exists r, findPoint th false q pts = Ok r /\ (r < length pts)%nat /\ apart th q (nth r pts pt00) /\
    forall j, (j < length pts)%nat -> apart th q (nth j pts pt00) ->
      edist q (nth r pts pt00) <= edist q (nth j pts pt00) /\ ((j < r)%nat -> edist q (nth r pts pt00) < edist q (nth j pts pt00)).
Proof.
  intros th q pts L H. destruct (find_spec th false q pts L) as (r & E & R & V & M); [tauto|]. exists r. do 3 (split; [assumption|]).
  intros j J A. destruct (M j J A) as [M1 M2]. split; [now apply fkey_le in M1|]. intros X. apply M2, fkey_lt in X. exact X.
Qed.
Theorem C82_farthest : forall th q pts, (2 <= length pts)%nat -> (exists p, In p pts /\ apart th q p) ->
  exists r, findPoint th true q pts = Ok r /\ (r < length pts)%nat /\
    forall j, (j < length pts)%nat ->
      edist q (nth j pts pt00) <= edist q (nth r pts pt00) /\ ((j < r)%nat -> edist q (nth j pts pt00) < edist q (nth r pts pt00)).
Proof.
  intros th q pts L (p & I & A). apply (In_nth _ _ pt00) in I. destruct I as (i & Li & Ei).
  destruct (find_spec th true q pts L) as (r & E & R & V & M); [right; right; split; auto; exists i; split; auto; unfold valid; now rewrite Ei|].
  exists r. do 2 (split; [assumption|]). intros j J. destruct (Rle_dec (nullDistance th) (edist q (nth j pts pt00))) as [X|X].
  - destruct (M j J X) as [M1 M2]. split; [now apply fkey_le in M1|]. intros Y. apply M2, fkey_lt in Y. exact Y.
  - unfold valid in V. split; [|intros _]; lra.
Qed.
Theorem C82_both : forall th q pts, findNearFar th q pts = (do a <- findPoint th false q pts; do b <- findPoint th true q pts; Ok (a, b)).
Proof. exact nearFar_eq. Qed.
Theorem C82_rejects : forall th far q (pts : list (pt R)), (length pts < 2)%nat -> findPoint th far q pts = Throw.
Proof. intros th far q pts H. unfold findPoint. now rewrite (proj2 (Nat.ltb_lt _ 2) H). Qed.
Example C82_ex : (2 <= length [mkPt 0 0; mkPt 5 0; mkPt 1 0])%nat /\ apart thr0 (mkPt 0 0) (nth 1 [mkPt 0 0; mkPt 5 0; mkPt 1 0] pt00) /\
  findPoint thr0 false (mkPt 0 0) [mkPt 0 0; mkPt 5 0; mkPt 1 0] = Ok 2%nat /\ findPoint thr0 true (mkPt 0 0) [mkPt 0 0; mkPt 5 0; mkPt 1 0] = Ok 1%nat.
Proof.
  split; [cbn; lia|]. split; [apply ptEq_false, ne00; lra|].
  split; unfold findPoint; cbn [length Nat.ltb Nat.leb nth Nat.sub seq fold_left]; rewrite eq00; unfold fpStep, sqDist; cbn [nth snd fst px py];
    rewrite ne00 by lra; cbn [negb]; rnum; (destruct (Rltb _ _) eqn:E; [apply Rltb_spec in E|apply Rltb_false in E]; try lra; reflexivity).
Qed.
Print Assumptions C82_nearest. Print Assumptions C82_farthest. Print Assumptions C82_both. Print Assumptions C82_rejects.

(** ** C61 *)
Lemma rect1_set : frSet (N := RNum) thr0 (mkPt 1 1) (mkPt 3 2) = Ok (mkR (mkPt 1 1) (mkPt 3 2)).
Proof.
  assert (nullOrthogDistance (thr0 (T := R)) <= 1) by (unfold thr0; cbn [nullOrthogDistance]; rnum; lra).
  rewrite frSet_ok by (cbn [px py]; rewrite Rabs_left; lra). cbn [px py]. rewrite !Rmin_left, !Rmax_right by lra. reflexivity.
Qed.
Theorem C61_refuted : exists a b r, bbTwo thr0 a b = Ok r /\ bbTwo (N := RNum) thr0 b a = Throw.
Proof.
  exists (ORect (mkR (mkPt 1 1) (mkPt 3 2))), (OPoly true []), (mkR (mkPt 1 1) (mkPt 3 2)). split; [|reflexivity].
  unfold bbTwo. cbn [primIsPoly primSize orb andb pointPair bind r1 r2 length Nat.eqb].
  pose proof rect1_set as H. unfold frSet in H. destruct (shareCoord _ _ _) eqn:S; [discriminate|]. unfold frSet. rewrite S. exact H.
Qed.
(** A flat polyline of three points has no point pair: the common box with a point is refused, although
    the two objects together have a positive width and height. *)
Theorem C61_flat_refuted : exists a b r, solid a /\ solid b /\ smallestBox (fun p => onPrim a p \/ onPrim b p) r /\ okR thr0 r /\
  bbTwo thr0 a b = Throw.
Proof.
  exists (OPoly false [mkPt 0 0; mkPt 1 0; mkPt 3 0]), (OPoint (mkPt 1 4)), (mkR (mkPt 0 0) (mkPt 3 4)).
  split; [discriminate|]. split; [exact I|]. split; [|split].
  - split.
    + intros p [[<-|[<-|[<-|[]]]]| ->]; unfold inR; cbn; lra.
    + intros o H p P. cbn [onPrim] in H. pose proof (H (mkPt 0 0) ltac:(cbn; auto)) as A. pose proof (H (mkPt 3 0) ltac:(cbn; auto)) as B.
      pose proof (H (mkPt 1 4) ltac:(auto)) as C. unfold inR in *. cbn in *. lra.
  - unfold okR. cbn [r1 r2 px py]. replace (edist _ _) with 5 by (symmetry; apply edist_val; cbn [px py]; lra). pose proof thr0_small. unfold thr0; cbn [nullOrthogDistance nullDistance]; rnum; lra.
  - unfold bbTwo. cbn [primIsPoly primSize orb andb pointPair bind length Nat.eqb].
    replace (bbPoints thr0 [mkPt 0 0; mkPt 1 0; mkPt 3 0]) with (@Throw (pt R * pt R)); [reflexivity|].
    unfold bbPoints. destruct (_ <? _)%num; auto.
    rewrite (minOf_val px _ _ 0), (minOf_val py _ _ 0), (maxOf_val px _ _ 3), (maxOf_val py _ _ 0); cbn [In px py];
      try (intros q [<-|[<-|[<-|[]]]]; cbn [px py]; lra); try (eexists; split; [now left|reflexivity]); try (eexists; split; [right; right; now left|reflexivity]).
    unfold shareCoord. cbn [px py]. rnum. rewrite orb_comm. replace (Rltb (Rabs (0 - 0)) _) with true; [reflexivity|].
    symmetry. apply Rltb_spec. rewrite Rminus_0_r, Rabs_R0. apply thr_orth, thr0_ok.
Qed.
Print Assumptions C61_refuted. Print Assumptions C61_flat_refuted.

(** ** C83 *)
Theorem C83_symmetric : forall th a b, thr_ok th -> solid a -> solid b -> bbTwo th a b = bbTwo th b a.
Proof. exact bbTwo_sym. Qed.
Theorem C83_smallest : forall th a b r, thr_ok th -> solid a -> solid b -> bbTwo th a b = Ok r ->
  wfR r /\ smallestBox (fun p => onPrim a p \/ onPrim b p) r.
Proof. exact bbTwo_smallest. Qed.
Theorem C83_defined : forall th a b u v r, thr_ok th -> solid a -> solid b -> pointPair th a = Ok u -> pointPair th b = Ok v ->
  wfR r -> smallestBox (fun p => onPrim a p \/ onPrim b p) r -> okR th r -> bbTwo th a b = Ok r.
Proof.
  intros th a b [u1 u2] [v1 v2] r Ht A B U V W S O. rewrite bbTwo_eq by auto. rewrite U, V. cbn [bind]. unfold bbPairs. cbn [fst snd].
  apply bbRect_ok; auto; [cbn; lia|].
  assert (smallestBox (fun p => In p [u1; v1; u2; v2]) r) as S'.
  { eapply smallestBox_same; [|exact S]. intros o. pose proof (pair_covers _ _ _ _ A U o) as CA. pose proof (pair_covers _ _ _ _ B V o) as CB. unfold covers in *. split.
    - intros H p P. destruct CA as [_ CA]. destruct CB as [_ CB]. destruct CA as [? ?]; [auto|]. destruct CB as [? ?]; [auto|]. destruct P as [<-|[<-|[<-|[<-|[]]]]]; auto.
    - intros H p [P|P]; revert p P; [apply CA|apply CB]; split; apply H; cbn; auto. }
  destruct (box_exists [u1; v1; u2; v2]) as (x & X); [discriminate|]. pose proof (isBox_smallest _ _ X) as SX.
  assert (inR x (r1 r) /\ inR x (r2 r)) as [K1 K2] by (split; apply (proj2 S' x (proj1 SX)); unfold inR, wfR in *; lra).
  replace r with x; auto. apply (smallestBox_unique (fun p => In p [u1; v1; u2; v2])); auto. unfold inR, wfR in *. lra.
Qed.
Example C83_ex : let a := OCirc (mkC (mkPt 0 0) 1) in let b := OPoint (mkPt 5 0) in
  solid a /\ solid b /\ pointPair thr0 b = Ok (mkPt 5 0, mkPt 5 0) /\ bbTwo thr0 a b = Ok (mkR (mkPt (-1) (-1)) (mkPt 5 1)).
Proof.
  cbv zeta. assert (solid (OCirc (mkC (mkPt 0 0) 1))) as S by (cbn; lra).
  assert (nullOrthogDistance (thr0 (T := R)) <= 1 /\ nullDistance (thr0 (T := R)) <= 1) as [? ?] by (unfold thr0; cbn [nullOrthogDistance nullDistance]; rnum; lra).
  split; [exact S|]. split; [exact I|]. split; [reflexivity|].
  assert (pointPair thr0 (OCirc (mkC (mkPt 0 0) 1)) = Ok (mkPt (-1) (-1), mkPt 1 1)) as P.
  { cbn [pointPair]. unfold cBB, frSet4. cbn [cc cr px py]. rnum. rewrite frSet_ok by (cbn [px py]; rewrite Rabs_left; lra). cbn [bind r1 r2 px py].
    rewrite !Rmin_left, !Rmax_right by lra. repeat f_equal; lra. }
  rewrite bbTwo_eq by (auto; exact I). rewrite P. cbn [bind pointPair]. apply bbRect_ok; [apply thr0_ok|cbn; lia| |].
  - cbn [fst snd]. split; [intros p [<-|[<-|[<-|[<-|[]]]]]; unfold inR; cbn; lra|].
    split; [exists (mkPt (-1) (-1))|split; [exists (mkPt 5 0)|split; [exists (mkPt (-1) (-1))|exists (mkPt 1 1)]]]; cbn; auto.
  - unfold okR. cbn [r1 r2 px py]. repeat split; try lra. pose proof (edist_ge_x (mkPt (-1) (-1)) (mkPt 5 1)) as E. cbn [px py] in E. rewrite Rabs_left in E; lra.
Qed.
Print Assumptions C83_symmetric. Print Assumptions C83_smallest. Print Assumptions C83_defined.

(** ** C84 *)
Theorem C84_points : forall th pts r, thr_ok th -> bbContPts th pts = Ok r -> wfR r /\ smallestBox (fun p => In p pts) r.
Proof.
  intros th pts r Ht H. assert ((2 <= length pts)%nat /\ bbRect th pts = Ok r) as [L E] by (destruct pts as [|? [|? ?]]; try discriminate; split; [cbn; lia|exact H]).
  apply bbRect_box in E; auto. split; [tauto|]. now apply isBox_smallest.
Qed.
Theorem C84_segments : forall th l r, thr_ok th -> bbContSegs th l = Ok r -> wfR r /\ smallestBox (fun p => exists s, In s l /\ onSeg (sA s) (sB s) p) r.
Proof.
  intros th l r Ht H. assert (l <> [] /\ bbRect th (flat_map (fun s => [sA s; sB s]) l) = Ok r) as [L E] by (destruct l; [discriminate|split; [discriminate|exact H]]).
  apply bbRect_box in E; auto; [|now apply flat2_len]. destruct E as [W E]. split; auto. apply isBox_smallest in E. eapply smallestBox_same; [|exact E].
  intros o. unfold covers. split.
  - intros Hp p (s & I & P). apply (proj1 (pair_covers th (OSegm s) (sA s) (sB s) ltac:(exact Logic.I) eq_refl o)); auto. split; apply Hp, flat2_in; eauto.
  - intros Hp p P. apply flat2_in in P. destruct P as (s & I & P).
    destruct (proj2 (pair_covers th (OSegm s) (sA s) (sB s) ltac:(exact Logic.I) eq_refl o)) as [A B]; [intros q Q; apply Hp; eauto|]. destruct P as [->| ->]; auto.
Qed.
Theorem C84_rectangles : forall th l r, thr_ok th -> (forall x, In x l -> wfR x) -> bbContRects th l = Ok r -> wfR r /\ smallestBox (fun p => exists x, In x l /\ inR x p) r.
Proof.
  intros th l r Ht Wl H. assert (l <> [] /\ bbRect th (flat_map (fun s => [r1 s; r2 s]) l) = Ok r) as [L E] by (destruct l; [discriminate|split; [discriminate|exact H]]).
  apply bbRect_box in E; auto; [|now apply flat2_len]. destruct E as [W E]. split; auto. apply isBox_smallest in E. eapply smallestBox_same; [|exact E].
  assert (forall x, In x l -> solid (ORect x)) as Sx by (intros x I; apply Wl in I; unfold wfR in I; cbn; lra).
  intros o. unfold covers. split.
  - intros Hp p (s & I & P). apply (proj1 (pair_covers th (ORect s) (r1 s) (r2 s) (Sx s I) eq_refl o)); auto. split; apply Hp, flat2_in; eauto.
  - intros Hp p P. apply flat2_in in P. destruct P as (s & I & P).
    destruct (proj2 (pair_covers th (ORect s) (r1 s) (r2 s) (Sx s I) eq_refl o)) as [A B]; [intros q Q; apply Hp; eauto|]. destruct P as [->| ->]; auto.
Qed.
(** Objects of several kinds, when each of them has a pair of points (no line, no empty polyline, ...). *)
Theorem C84_variants : forall th l r, thr_ok th -> (forall o, In o l -> solid o /\ exists u, pointPair th o = Ok u) ->
  bbContVariant th l = Ok r -> wfR r /\ smallestBox (fun p => exists o, In o l /\ onPrim o p) r.
Proof.
  intros th l r Ht Hl H. assert (l <> [] /\ bbRect th (variantPts th (pt00, pt00) l) = Ok r) as [L E] by (destruct l; [discriminate|split; [discriminate|exact H]]).
  pose proof (variantPts_ok th l (pt00, pt00) (fun o I => proj2 (Hl o I))) as VP.
  apply bbRect_box in E; auto; [|destruct l; [congruence|cbn; lia]]. destruct E as [W E]. split; auto. apply isBox_smallest in E. eapply smallestBox_same; [|exact E].
  intros x. unfold covers. split.
  - intros Hp p (o & I & P). destruct (Hl o I) as [So ([u v] & U)]. apply (proj1 (pair_covers th o u v So U x)); auto. split; apply Hp, VP; exists o, (u, v); auto.
  - intros Hp p P. apply VP in P. destruct P as (o & [u v] & I & U & P). destruct (Hl o I) as [So _].
    destruct (proj2 (pair_covers th o u v So U x)) as [A B]; [intros q Q; apply Hp; eauto|]. cbn in P. destruct P as [->| ->]; auto.
Qed.
Theorem C84_empty : forall th : thrs R, bbContPts th [] = Throw /\ bbContSegs th [] = Throw /\ bbContRects th [] = Throw /\ bbContVariant th [] = Throw /\ forall p, bbContPts th [p] = Throw.
Proof. repeat split. Qed.
(** The lines of a container of variants are not ignored: a default-constructed pair (the origin) is used. *)
Theorem C85_line_refuted : exists l r, bbContVariant thr0 l = Ok r /\ inR r (mkPt 0 0) /\ (exists ln, In (OLine ln) l) /\
  exists b, wfR b /\ (forall o, In o l -> forall p, onPrim o p -> inR b p) /\ ~ inR b (mkPt 0 0).
Proof.
  exists [OLine (mkL 1 0 (-1)); ORect (mkR (mkPt 1 1) (mkPt 3 2))], (mkR (mkPt 0 0) (mkPt 3 2)).
  assert (nullOrthogDistance (thr0 (T := R)) <= 1 /\ nullDistance (thr0 (T := R)) <= 1) as [? ?] by (unfold thr0; cbn [nullOrthogDistance nullDistance]; rnum; lra).
  split; [|split; [unfold inR; cbn; lra|split; [eexists; now left|]]].
  - unfold bbContVariant. cbn [variantPts pointPair fst snd r1 r2]. apply bbRect_ok; [apply thr0_ok|cbn; lia| |].
    + unfold pt00. rnum. split; [intros p [<-|[<-|[<-|[<-|[]]]]]; unfold inR; cbn; lra|].
      split; [exists (mkPt 0 0)|split; [exists (mkPt 3 2)|split; [exists (mkPt 0 0)|exists (mkPt 3 2)]]]; (split; [cbn; auto 6|reflexivity]).
    + unfold okR. cbn [r1 r2 px py]. repeat split; try lra. pose proof (edist_ge_x (mkPt 0 0) (mkPt 3 2)) as E. cbn [px py] in E. rewrite Rabs_left in E; lra.
  - exists (mkR (mkPt 1 1) (mkPt 3 2)). split; [unfold wfR; cbn; lra|]. split; [|unfold inR; cbn; lra].
    intros o [<-|[<-|[]]] p; cbn [onPrim]; tauto.
Qed.
Example C84_ex : bbContSegs thr0 [mkSeg (mkPt 0 0) (mkPt 3 0); mkSeg (mkPt 1 1) (mkPt 1 4)] = Ok (mkR (mkPt 0 0) (mkPt 3 4)).
Proof.
  assert (nullOrthogDistance (thr0 (T := R)) <= 1 /\ nullDistance (thr0 (T := R)) <= 1) as [? ?] by (unfold thr0; cbn [nullOrthogDistance nullDistance]; rnum; lra).
  unfold bbContSegs. cbn [flat_map app sA sB]. apply bbRect_ok; [apply thr0_ok|cbn; lia| |].
  - split; [intros p [<-|[<-|[<-|[<-|[]]]]]; unfold inR; cbn; lra|].
    split; [exists (mkPt 0 0)|split; [exists (mkPt 3 0)|split; [exists (mkPt 0 0)|exists (mkPt 1 4)]]]; (split; [cbn; auto 6|reflexivity]).
  - unfold okR. cbn [r1 r2 px py]. repeat split; try lra. pose proof (edist_ge_x (mkPt 0 0) (mkPt 3 4)) as E. cbn [px py] in E. rewrite Rabs_left in E; lra.
Qed.
Example C84_ex2 : solid (ORect (mkR (mkPt 1 1) (mkPt 3 2))) /\ pointPair thr0 (ORect (mkR (mkPt 1 1) (mkPt 3 2))) = Ok (mkPt 1 1, mkPt 3 2) /\ wfR (mkR (mkPt 1 1) (mkPt 3 2)).
Proof. split; [cbn; lra|]. split; [reflexivity|]. unfold wfR; cbn; lra. Qed.
Print Assumptions C84_points. Print Assumptions C84_segments. Print Assumptions C84_rectangles. Print Assumptions C84_variants. Print Assumptions C84_empty. Print Assumptions C85_line_refuted.

(** ** C66 *)
Theorem C66_refuted : exists pts out, purgeDupes thr0 pts = Ok out /\
  exists i, (S i < length out)%nat /\ ptEq thr0 (nth i out pt00) (nth (S i) out pt00) = true.
Proof.
  set (d := nullDistance (thr0 (T := R))). assert (0 < d) as D by apply thr_dist, thr0_ok.
  assert (forall a b, edist (mkPt a 0) (mkPt b 0) = Rabs (a - b)) as Ex.
  { intros a b. unfold edist, Rsqr. cbn [px py]. replace (_ + _) with (Rsqr (a - b)) by (unfold Rsqr; ring). apply sqrt_Rsqr_abs. }
  exists [mkPt 0 0; mkPt (12 / 10 * d) 0; mkPt (6 / 10 * d) 0], [mkPt 0 0; mkPt (6 / 10 * d) 0]. split.
  - unfold purgeDupes. cbn [purgeLoop].
    rewrite (proj2 (ptEq_false thr0 (mkPt 0 0) (mkPt (12 / 10 * d) 0))) by (rewrite Ex, Rabs_left; fold d; lra).
    rewrite (proj2 (ptEq_spec thr0 (mkPt (12 / 10 * d) 0) (mkPt (6 / 10 * d) 0))) by (rewrite Ex, Rabs_right; fold d; lra). reflexivity.
  - exists 0%nat. split; [cbn; lia|]. cbn [nth]. apply ptEq_spec. rewrite Ex, Rabs_left; fold d; lra.
Qed.
Print Assumptions C66_refuted.

(** ** C86 *)
Theorem C86_runs : forall th pts, 0 < nullDistance th -> exactDupes th pts -> pts <> [] -> exists runs,
  pts = unruns runs /\ purgeDupes th pts = Ok (map fst runs) /\
  forall i, (S i < length runs)%nat -> fst (nth i runs (pt00, 0%nat)) <> fst (nth (S i) runs (pt00, 0%nat)).
Proof.
  intros th pts Hd X NE. destruct (purge_runs th pts Hd X NE) as (runs & E & P & D). exists runs. split; auto. split; auto.
  unfold purgeDupes. destruct pts; [congruence|]. now rewrite P.
Qed.
Theorem C86_always : forall th pts out, purgeDupes th pts = Ok out ->
  last out (pt00 (T := R)) = last pts pt00 /\ (forall p, In p out -> In p pts) /\ out <> [].
Proof.
  intros th pts out H. unfold purgeDupes in H. destruct pts as [|p l]; [discriminate|]. apply Ok_inj in H. subst out. split; [apply purge_last|].
  split; [intros q; apply purge_in|]. revert p. induction l as [|s r IH]; intros q; [discriminate|]. cbn [purgeLoop]. destruct (negb _); [discriminate|]. apply IH.
Qed.
Example C86_ex : exactDupes thr0 [mkPt 0 0; mkPt 0 0; mkPt 5 0; mkPt 0 0] /\
  [mkPt 0 0; mkPt 0 0; mkPt 5 0; mkPt 0 0] = unruns [(mkPt 0 0, 1%nat); (mkPt 5 0, 0%nat); (mkPt 0 0, 0%nat)].
Proof.
  split; [|reflexivity]. pose proof thr0_small.
  assert (edist (mkPt 0 0) (mkPt 5 0) = 5 /\ edist (mkPt 5 0) (mkPt 0 0) = 5) as [A B] by (split; apply edist_val; cbn [px py]; lra).
  intros p q [<-|[<-|[<-|[<-|[]]]]] [<-|[<-|[<-|[<-|[]]]]]; auto; right; rewrite ?A, ?B; lra.
Qed.
Print Assumptions C86_runs. Print Assumptions C86_always.
