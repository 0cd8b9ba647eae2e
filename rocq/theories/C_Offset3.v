(** * C168: offset polygons with vertices between aligned sides *)

From Coq Require Import Reals Lra Lia List Bool Arith.
From Verif Require Import Num M_LP M_Homogr M_Seg M_Poly M_Offset S_Geom S_Seg S_Poly S_Offset P_LP P_LP2 P_LP4 P_Seg P_Seg2 P_Seg3 P_Poly P_Poly2 P_Poly3 P_Poly4 P_Poly6 P_Poly7 P_Offset P_Offset2 C_Offset.
Import ListNotations.
Local Open Scope R_scope.

(** Every corner is either sharp enough or exactly flat. *)
Definition sharpOrFlat (th : thrs R) (v : list (pt R)) : Prop := forall p q r, triple v p q r -> transversal th (p, q) (q, r) \/ cross3 p q r = 0.
(** Points of the result for a corner: one, at the distance of both sides, or none if they are aligned. *)
Definition cornerOut (th : thrs R) (dist : R) (c : (pt R * pt R) * (pt R * pt R)) (o : list (pt R)) : Prop :=
  (transversal th (fst c) (snd c) /\ exists q, o = [q] /\ offLine dist (fst c) q /\ offLine dist (snd c) q) \/
  (cross3 (fst (fst c)) (snd (fst c)) (snd (snd c)) = 0 /\ o = []).

Lemma lines_parallel th A B C D l m : thr_ok th -> dirOK th A B -> dirOK th C D -> lineOf th A B = Ok l -> lineOf th C D = Ok m ->
  (px B - px A) * (py D - py C) - (py B - py A) * (px D - px C) = 0 -> isParallel th l m = true.
Proof.
  intros Hth D1 D2 El Em X. destruct (lineOf_proper th _ _ _ Hth El) as [U1 _]. destruct (lineOf_proper th _ _ _ Hth Em) as [U2 _].
  destruct (lineOf_scaled th _ _ l Hth El D1) as (k & _ & _ & ->). destruct (lineOf_scaled th _ _ m Hth Em D2) as (k' & _ & _ & ->).
  apply isParallel_para; auto using unit_proper. unfold paraL, scaleL, rawL. cbn [la lb].
  match goal with |- ?a = 0 => replace a with (k * k' * ((px B - px A) * (py D - py C) - (py B - py A) * (px D - px C))) by ring end. rewrite X. ring.
Qed.
Lemma flat_vertex th split dist p1 e f : thr_ok th -> okSeg th (mkSeg (fst e) (snd e)) -> okSeg th (mkSeg (fst f) (snd f)) ->
  dirOK th (fst e) (snd e) -> dirOK th (fst f) (snd f) -> vertOK th (fst e) (snd e) -> vertOK th (fst f) (snd f) ->
  snd e = fst f -> cross3 (fst e) (snd e) (snd f) = 0 -> nullDistance th <= Rabs dist ->
  offsetVertex th split dist p1 (mkSeg (fst e) (snd e)) (mkSeg (fst f) (snd f)) = Ok [].
Proof.
  intros Hth O1 O2 D1 D2 V1 V2 SH X L. destruct e as [A B], f as [C D]. cbn [fst snd] in *. subst C.
  pose proof (svParallelSegs_o th _ (Rabs dist) Hth O1 D1 V1 L) as P1. pose proof (svParallelSegs_o th _ (Rabs dist) Hth O2 D2 V2 L) as P2. cbn [sA sB] in P1, P2.
  destruct (leftN A B) as [n1 n2]. destruct (leftN B D) as [m1 m2].
  unfold offsetVertex. change (@nabs R RNum dist) with (Rabs dist). rewrite P1, P2. cbn [bind].
  assert (G : forall (b : bool) X Y x y z t, okSeg th (mkSeg X Y) -> exists l u w, svLine th (if b then mkSeg (moved X x y) (moved Y x y) else mkSeg (moved X z t) (moved Y z t)) = Ok l /\ lineOf th (moved X u w) (moved Y u w) = Ok l).
  { intros b Y Z x y z t [H1 H2]. cbn [sA sB] in *. assert (K : forall u w, exists l, lineOf th (moved Y u w) (moved Z u w) = Ok l) by (intros; apply lineOf_total; auto; rewrite edist_moved; auto).
    destruct b; unfold svLine; cbn [sA sB]; [destruct (K x y) as (l & E); exists l, x, y|destruct (K z t) as (l & E); exists l, z, t]; auto. }
  match goal with |- context [svLine th (if ?b then mkSeg (moved A ?x ?y) _ else mkSeg (moved A ?z ?t) _)] => destruct (G b A B x y z t O1) as (l & u & w & E1 & E2) end.
  match goal with |- context [svLine th (if ?b then mkSeg (moved B ?x ?y) (moved D _ _) else mkSeg (moved B ?z ?t) _)] => destruct (G b B D x y z t O2) as (m & u' & w' & F1 & F2) end.
  rewrite E1. cbn [bind]. rewrite F1. cbn [bind]. rewrite (lines_parallel th (moved A u w) (moved B u w) (moved B u' w') (moved D u' w') l m); auto using dirOK_moved.
  unfold moved, cross3 in *. cbn [px py]. lra.
Qed.
Lemma sharpOrFlat_cycle th l m : (2 <= length l)%nat -> sameCycle l m -> sharpOrFlat th l -> sharpOrFlat th m.
Proof.
  intros L [S|S] H p q r T.
  - apply H. apply (triple_shift m l); auto using shifted_sym. rewrite <- (shifted_len _ _ S). auto.
  - assert (triple l r q p) as T'. { apply triple_rev, (triple_shift m (rev l)); auto using shifted_sym. rewrite <- (shifted_len _ _ S), rev_length. auto. }
    apply H in T'. destruct T' as [T'|T']; [left|right; unfold cross3 in *; lra]. apply transversal_sym, transversal_rev in T'. exact T'.
Qed.
Lemma mapM_each {A B C} (P : C -> list B -> Prop) (f : A -> res (list B)) (g : A -> C) l : (forall x, In x l -> exists q, f x = Ok q /\ P (g x) q) ->
  exists qs, mapM f l = Ok qs /\ Forall2 P (map g l) qs.
Proof.
  induction l as [|a l IH]; intros H; [exists []; split; [reflexivity|constructor]|].
  destruct (H a (or_introl eq_refl)) as (q & E & Q). destruct IH as (qs & E' & F); [intros x X; apply H; now right|].
  exists (q :: qs). cbn [mapM]. rewrite E, E'. cbn [bind map]. split; [reflexivity|]. now constructor.
Qed.
Lemma offset_each th split dist v (P : (pt R * pt R) * (pt R * pt R) -> list (pt R) -> Prop) : thr_ok th -> (3 <= length v)%nat -> goodSides th v ->
  (forall c, In c (corners v) -> exists o, offsetVertex th split dist (snd (fst c)) (mkSeg (fst (fst c)) (snd (fst c))) (mkSeg (fst (snd c)) (snd (snd c))) = Ok o /\ P c o) ->
  exists os vs, plSegs th true KOSeg v = Ok os /\ at_ os 0 = Ok (nth 0 os (mkSeg pt00 pt00)) /\
    offsetLoop th split dist v os (length v) 0 (nth 0 os (mkSeg pt00 pt00)) = Ok (concat vs) /\ Forall2 P (corners v) vs.
Proof.
  intros Hth L [OS VS] SH.
  assert (plSegs th true KOSeg v = Ok (map (fun e => mkSeg (fst e) (snd e)) (cyc v))) as E.
  { rewrite (plSegs_ok th true KOSeg v); [reflexivity|lia|]. intros e I. apply (OS e I). }
  set (os := map (fun e => mkSeg (fst e) (snd e)) (cyc v)) in *. exists os.
  assert (length os = length v) as LO by (unfold os; rewrite map_length; apply cyc_length).
  assert (forall i, (i < length v)%nat -> In ((nth i (cyc v) (pt00, pt00)), nth (nextIdx (length v) i) (cyc v) (pt00, pt00)) (corners v)) as IC.
  { intros i I. unfold corners. rewrite <- (cyc_index (cyc v) (pt00, pt00)). apply in_map_iff. exists i. rewrite cyc_length. split; auto. apply in_seq. lia. }
  destruct (mapM_each P
    (fun i => offsetVertex (N := RNum) th split dist (nth (nextIdx (length v) i) v pt00) (nth i os (mkSeg pt00 pt00)) (nth (nextIdx (length v) i) os (mkSeg pt00 pt00)))
    (fun i => (nth i (cyc v) (pt00, pt00), nth (nextIdx (length v) i) (cyc v) (pt00, pt00))) (seq 0 (length v))) as (vs & EM & F).
  { intros i I. apply in_seq in I. assert (nextIdx (length v) i < length v)%nat as NI by (unfold nextIdx; destruct (Nat.eqb_spec i (length v - 1)); lia).
    assert (forall j, nth j os (mkSeg pt00 pt00) = mkSeg (fst (nth j (cyc v) (pt00, pt00))) (snd (nth j (cyc v) (pt00, pt00)))) as NT.
    { intros j. unfold os. exact (map_nth (fun e => mkSeg (fst e) (snd e)) (cyc v) (pt00, pt00) j). }
    rewrite !NT. destruct (SH _ (IC i ltac:(lia))) as (o & EO & PO). exists o. split; [|exact PO]. rewrite <- EO. cbn [fst snd]. f_equal.
    rewrite <- (cyc_index v pt00). rewrite (nth_indep _ (pt00, pt00) (nth 0 v pt00, nth (nextIdx (length v) 0) v pt00)) by (rewrite map_length, seq_length; lia).
    rewrite (map_nth (fun i => (nth i v pt00, nth (nextIdx (length v) i) v pt00)) (seq 0 (length v)) 0%nat i). rewrite seq_nth by lia. reflexivity. }
  exists vs. split; [exact E|]. split; [apply at_ok; lia|]. split.
  - rewrite (offset_loop th split dist v os (mkSeg pt00 pt00) (length v) 0) by lia. rewrite EM. reflexivity.
  - unfold corners. rewrite <- (cyc_index (cyc v) (pt00, pt00)), cyc_length. exact F.
Qed.

(** ** C168 *)
Theorem C168_flat : forall th split pts dist, thr_ok th -> (3 <= length pts)%nat -> val (plIsSimple th true (plFresh pts)) = Ok true ->
  goodSides th pts -> sharpOrFlat th pts -> nullDistance th <= Rabs dist -> split = false \/ dist < 0 ->
  exists v os, sameCycle pts v /\ normPts true pts = Ok v /\ Forall2 (cornerOut th dist) (corners v) os /\
    plOffset th true split (plFresh pts) dist = do out <- plSet th (concat os); Ok (out, mkPl v true None None (Some true) None).
Proof.
  intros th split pts dist Hth L S G SH D SP. destruct (normPts_ok true pts) as (v & NV); [lia|]. pose proof (normPts_cycle true pts v NV) as C. cbn beta iota in C.
  pose proof (sameCycle_length _ _ C) as LE. pose proof (goodSides_cycle th _ _ C G) as Gv. assert (L2 : (2 <= length pts)%nat) by lia. pose proof (sharpOrFlat_cycle th _ _ L2 C SH) as Sv.
  destruct (offset_each th split dist v (cornerOut th dist)) as (os & vs & E1 & E2 & E3 & F); auto; [lia| |].
  - intros c I. destruct (cyc_cyc_link v c I) as (I1 & I2 & LK). pose proof (Sv _ _ _ (cyc_cyc_triple v c ltac:(lia) I)) as T. destruct Gv as [OS VS].
    destruct (OS _ I1) as [A1 B1]. destruct (OS _ I2) as [A2 B2]. pose proof (VS _ I1). pose proof (VS _ I2). destruct T as [T|T].
    + assert (TR : transversal th (fst c) (snd c)) by (destruct c as [[a b] [b' d]]; cbn [fst snd] in *; now subst b').
      destruct (offset_vertex th split dist (snd (fst c)) (fst c) (snd c)) as (q & Q & O1 & O2); auto. exists [q]. split; auto. left. eauto.
    + exists []. split; [apply flat_vertex; auto|right; auto].
  - exists v, vs. do 3 (split; [assumption|]). rewrite (plOffset_eq th split pts dist v) by auto. rewrite E1. cbn [bind]. rewrite E2. cbn [bind]. rewrite E3. reflexivity.
Qed.

(** The rectangle 4 x 3 with a fifth point on one side. *)
Lemma box5_good : goodSides thr0 box5.
Proof.
  split; [apply box5_ok|]. intros e. cbn [cyc box5 app combine In]. intros [<-|[<-|[<-|[<-|[<-|[]]]]]]; cbn [fst snd]; first [vert_ok 2|vert_ok 4|vert_ok 3].
Qed.
Lemma box5_corners : sharpOrFlat thr0 box5.
Proof.
  assert (H : forall p q r, triple box5 p q r -> (px q - px p) * (px r - px q) + (py q - py p) * (py r - py q) = 0 \/ cross3 p q r = 0).
  { apply (turn_triples box5 (fun p q r => (px q - px p) * (px r - px q) + (py q - py p) * (py r - py q) = 0 \/ cross3 p q r = 0)); [cbn; lia|]. cbn [box5 length]. intros i I.
    do 5 (destruct i as [|i]; [cbn; unfold cross3; cbn; solve [left; lra|right; lra]|]). lia. }
  intros p q r T. destruct (H p q r T) as [E|E]; [left; apply ortho_transversal; [apply thr0_ok|exact E]|right; exact E].
Qed.
Example C168_ex : val (plIsSimple thr0 true (plFresh box5)) = Ok true /\ goodSides thr0 box5 /\ sharpOrFlat thr0 box5 /\ exists p q r, triple box5 p q r /\ cross3 p q r = 0.
Proof.
  split; [rewrite val_isSimple by (cbn; lia); apply box5_simple|]. split; [apply box5_good|]. split; [apply box5_corners|].
  exists (mkPt 0 0), (mkPt 2 0), (mkPt 4 0). split; [exists []; eexists; reflexivity|unfold cross3; cbn; lra].
Qed.
Print Assumptions C168_flat.
