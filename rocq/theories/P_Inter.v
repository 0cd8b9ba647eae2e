(** * Intersections of polylines: lemmas *)

From Coq Require Import Reals Lra Psatz List Lia Bool Permutation Arith.
From Verif Require Import Num M_LP M_Seg M_Circle M_Poly M_FRect M_Inter S_Geom S_Seg S_Circle S_Poly S_Pip S_Inter
  P_LP P_LP2 P_LP3 P_LP4 P_Seg P_Seg2 P_Seg3 P_Seg4 P_Circle3 P_Poly P_Poly2 P_Poly4 P_Poly7 S_FRect S_Rect2 P_Rect2.
Import ListNotations.
Local Open Scope R_scope.

(** ** Sorting *)
Lemma sortInsert_perm (p : pt R) l : Permutation (p :: l) (sortInsert p l).
Proof.
  induction l as [|q l IH]; cbn; [reflexivity|]. destruct (ptLt q p); [|reflexivity].
  rewrite perm_swap. constructor. exact IH.
Qed.
Lemma interGet_perm (l : list (pt R)) : Permutation l (interGet l).
Proof. induction l as [|p l IH]; cbn; [reflexivity|]. rewrite <- sortInsert_perm. now constructor. Qed.
Lemma interGet_in (l : list (pt R)) q : In q (interGet l) <-> In q l.
Proof. split; apply Permutation_in; [symmetry|]; apply interGet_perm. Qed.
Lemma sortInsert_sorted (p : pt R) l : sortedL l -> sortedL (sortInsert p l).
Proof.
  induction l as [|q l IH]; cbn; [tauto|]. intros [A B]. destruct (ptLt q p) eqn:E.
  - cbn. split; [|auto]. intros b I. apply (Permutation_in b (Permutation_sym (sortInsert_perm p l))) in I. destruct I as [<-|I]; auto.
    apply ptLt_spec in E. intros L. apply (lexlt_irrefl p). now apply lexlt_trans with q.
  - apply ptLt_false in E. cbn. split; [|auto]. intros b [<-|I]; auto. intros L. apply (A b I).
    destruct (lexlt_total q p) as [X|[X|X]]; [tauto|subst; auto|]. now apply lexlt_trans with p.
Qed.
Lemma interGet_sorted (l : list (pt R)) : sortedL (interGet l).
Proof. induction l; cbn; [exact I|]. now apply sortInsert_sorted. Qed.
Lemma sorted_unique (l m : list (pt R)) : sortedL l -> sortedL m -> Permutation l m -> l = m.
Proof.
  revert m. induction l as [|a l IH]; intros m Sl Sm P.
  - apply Permutation_nil in P. now subst.
  - destruct m as [|b m]; [symmetry in P; apply Permutation_nil in P; discriminate|]. destruct Sl as [A Sl], Sm as [B Sm].
    assert (a = b) as ->.
    { destruct (lexlt_total a b) as [X|[X|X]]; auto; exfalso.
      - assert (In a (b :: m)) as [->|I] by (apply (Permutation_in a P); now left); [exact (lexlt_irrefl _ X)|exact (B a I X)].
      - assert (In b (a :: l)) as [->|I] by (apply (Permutation_in b (Permutation_sym P)); now left); [exact (lexlt_irrefl _ X)|exact (A b I X)]. }
    f_equal. apply IH; auto. now apply Permutation_cons_inv in P.
Qed.
Lemma interGet_eq (l m : list (pt R)) : Permutation l m -> interGet l = interGet m.
Proof. intros P. apply sorted_unique; auto using interGet_sorted. now rewrite <- !interGet_perm. Qed.

(** ** The sides *)
Lemma ok_wide th closed pts : okPoly th closed pts -> widePoly th closed pts.
Proof. intros O e I. now apply O. Qed.
Lemma plSegs_sd th closed pts : thr_ok th -> widePoly th closed pts -> plSegs th closed KSeg pts = Ok (map sd (sides closed pts)).
Proof.
  intros Ht O. destruct (Nat.ltb_spec (length pts) 2) as [L|L].
  - rewrite plSegs_small by auto. destruct pts as [|a [|b pts]]; [destruct closed; reflexivity| |cbn in L; lia].
    destruct closed; [|reflexivity]. exfalso. destruct (O (a, a)) as [X _]; [now left|]. cbn [fst snd sA sB] in X. rewrite edist_refl in X. pose proof (thr_dist th Ht). lra.
  - rewrite plSegs_ok; auto. intros e I. apply O in I. destruct I as [X _]. exact X.
Qed.
Lemma sd_has e q : segHas (sd e) q <-> onSeg (fst e) (snd e) q.
Proof. unfold segHas. destruct (sd_cases e) as [->| ->]; cbn [sA sB]; split; intros H; auto; now apply onSeg_sym. Qed.
Lemma sd_ends0 e : (sA (sd e) = fst e /\ sB (sd e) = snd e) \/ (sA (sd e) = snd e /\ sB (sd e) = fst e).
Proof. destruct (sd_cases e) as [->| ->]; cbn [sA sB]; auto. Qed.

(** [f] gives the points of each side, [P] says which ones. *)
Lemma plInter_each th closed pts (f : seg R -> res (list (pt R))) (P : pt R * pt R -> list (pt R) -> Prop) : thr_ok th -> widePoly th closed pts ->
  (forall e, In e (sides closed pts) -> exists o, f (sd e) = Ok o /\ P e o) ->
  exists v, plInter th closed pts f = Ok (concat v) /\ Forall2 P (sides closed pts) v.
Proof.
  intros Ht O H. unfold plInter. rewrite plSegs_sd by auto. cbn [bind]. rewrite mapM_map.
  assert (exists v, mapM (fun e => f (sd e)) (sides closed pts) = Ok v /\ Forall2 P (sides closed pts) v) as (v & -> & F).
  { clear O. induction (sides closed pts) as [|e l IH]; [exists []; split; [reflexivity|constructor]|].
    destruct (H e) as (o & E & Po); [now left|]. destruct IH as (v & Ev & F); [intros; apply H; now right|].
    exists (o :: v). cbn [mapM]. rewrite E. cbn [bind]. rewrite Ev. split; [reflexivity|now constructor]. }
  exists v. auto.
Qed.
Lemma concat_in {A B} (P : A -> B -> Prop) (l : list A) (v : list (list B)) q :
  Forall2 (fun e o => forall q, In q o <-> P e q) l v -> (In q (concat v) <-> exists e, In e l /\ P e q).
Proof.
  induction 1 as [|e o l v H F IH]; cbn; [split; [tauto|intros (e & [] & _)]|]. rewrite in_app_iff, IH, H. split.
  - intros [X|(x & I & X)]; eauto.
  - intros (x & [<-|I] & X); eauto.
Qed.

(** ** One side and a line *)
Lemma cross_lineAt l A B : lineAt l A = lineAt l B -> la l * (px B - px A) + lb l * (py B - py A) = 0.
Proof. unfold lineAt. lra. Qed.
Lemma genPosL_para th l e l' : thr_ok th -> fst e <> snd e -> onL l' (fst e) -> onL l' (snd e) -> lineAt l (fst e) = lineAt l (snd e) -> paraL l l'.
Proof.
  intros Ht NE O O' E. apply cross_lineAt in E. unfold onL in *. unfold paraL.
  assert (E' : la l' * (px (snd e) - px (fst e)) + lb l' * (py (snd e) - py (fst e)) = 0) by lra.
  set (x := px (snd e) - px (fst e)) in *. set (y := py (snd e) - py (fst e)) in *.
  assert (x * (la l * lb l' - lb l * la l') = 0) as X1.
  { transitivity (lb l' * (la l * x + lb l * y) - lb l * (la l' * x + lb l' * y)); [ring|rewrite E, E'; ring]. }
  assert (y * (la l * lb l' - lb l * la l') = 0) as X2.
  { transitivity (la l * (la l' * x + lb l' * y) - la l' * (la l * x + lb l * y)); [ring|rewrite E, E'; ring]. }
  apply Rmult_integral in X1. apply Rmult_integral in X2. destruct X1 as [X1|X1]; [|lra]. destruct X2 as [X2|X2]; [|lra].
  exfalso. apply NE. apply pt_eq; unfold x, y in *; lra.
Qed.
Lemma lineAngle_side th l e l' : thr_ok th -> unitL l -> dirOK th (fst e) (snd e) -> lineOf th (fst e) (snd e) = Ok l' ->
  nullAngleValue th <= acos (Rabs (la l * (py (snd e) - py (fst e)) - lb l * (px (snd e) - px (fst e))) / edist (fst e) (snd e)) ->
  isParallel th l l' = false.
Proof.
  intros Ht U D E H. assert (0 < edist (fst e) (snd e)) as Pe by (apply lineOf_inv in E; pose proof (thr_dist th Ht); lra).
  destruct (lineOf_scaled th _ _ l' Ht E D) as (k & Hk & Ek & ->).
  apply rawL_unit in Ek as U'. unfold isParallel. rnum. apply Rltb_false. rewrite lineAngle_acos by auto using unit_proper.
  unfold cosL. pose proof U as V. pose proof U' as V'. unfold unitL in V, V'. rewrite V, V', Rmult_1_l, sqrt_1.
  eapply Rle_trans; [exact H|right]. f_equal. unfold Rdiv. rewrite Rinv_1, Rmult_1_r.
  replace (/ edist (fst e) (snd e)) with (Rabs k) by (apply Rmult_eq_reg_r with (edist (fst e) (snd e)); [rewrite Rinv_l by lra; auto|lra]).
  rewrite <- Rabs_mult. unfold scaleL, rawL. cbn [la lb].
  match goal with |- Rabs ?a = Rabs ?b => first [replace a with b by ring; reflexivity|replace a with (- b) by ring; apply Rabs_Ropp] end.
Qed.
(** [s] is a segment object between the points of [e], in one order or the other. *)
Definition endsAre (s : seg R) (e : pt R * pt R) : Prop := (sA s = fst e /\ sB s = snd e) \/ (sA s = snd e /\ sB s = fst e).
Lemma ends_ok th s e : endsAre s e -> okSeg th (mkSeg (fst e) (snd e)) -> okSeg th s.
Proof. unfold okSeg. cbn [sA sB]. intros [[-> ->]|[-> ->]]; auto. now rewrite edist_sym. Qed.
Lemma ends_dirOK th s e : endsAre s e -> dirOK th (fst e) (snd e) -> dirOK th (sA s) (sB s).
Proof. intros [[-> ->]|[-> ->]]; auto using dirOK_sym. Qed.
Lemma ends_has s e q : endsAre s e -> segHas s q <-> onSeg (fst e) (snd e) q.
Proof. unfold segHas. intros [[-> ->]|[-> ->]]; [reflexivity|apply onSeg_sym]. Qed.
Lemma lineOf_ends th s e l' : thr_ok th -> endsAre s e -> okSeg th (mkSeg (fst e) (snd e)) -> svLine th s = Ok l' -> dirOK th (fst e) (snd e) -> onL l' (fst e) /\ onL l' (snd e).
Proof.
  intros Ht N O E D. assert (onL l' (sA s) /\ onL l' (sB s)) as [A B] by (eapply lineOf_on; eauto using ends_dirOK).
  destruct N as [[EA EB]|[EA EB]]; rewrite EA, EB in *; auto.
Qed.
Lemma side_line th l s e : thr_ok th -> endsAre s e -> unitL l -> okSeg th (mkSeg (fst e) (snd e)) -> dirOK th (fst e) (snd e) -> genPosL th l e ->
  exists it, segInterLine th s l = Ok it /\ forall q, it = Some q <-> onL l q /\ onSeg (fst e) (snd e) q.
Proof.
  intros Ht EE U O D (GA & GE & GN). pose proof (ends_ok th s e EE O) as Os. pose proof (ends_dirOK th s e EE D) as Ds.
  destruct (svLine_ok th s Ht Os) as (l' & E). destruct (lineOf_ends th s e l' Ht EE O E D) as [OA OB].
  assert (fst e <> snd e) as NE by (intros X; destruct O as [O _]; cbn [sA sB] in O; rewrite X, edist_refl in O; pose proof (thr_dist th Ht); lra).
  destruct (side_meet th s l l') as (it & Ei & H); auto.
  - destruct GA as [GA|GA]; [left; eapply (genPosL_para th); eauto|right]. unfold svLine in E.
    destruct EE as [[EA EB]|[EA EB]]; rewrite EA, EB in *.
    + eapply (lineAngle_side th l e); eauto.
    + eapply (lineAngle_side th l (snd e, fst e)); cbn [fst snd]; eauto. eapply Rle_trans; [exact GA|right]. f_equal. rewrite (edist_sym (snd e)). f_equal.
      rewrite <- Rabs_Ropp. f_equal. ring.
  - intros p X. apply GE. destruct EE as [[EA EB]|[EA EB]]; rewrite EA, EB in X; tauto.
  - destruct EE as [[EA EB]|[EA EB]]; rewrite EA, EB; tauto.
  - exists it. split; auto. intros q. rewrite H, (ends_has s e) by auto. reflexivity.
Qed.

(** ** Two sides *)
Lemma segInter_lines th s s' l l' q : thr_ok th -> svLine th s = Ok l -> svLine th s' = Ok l' -> svEq th s s' = false ->
  segInterSeg th s s' = Ok (Some q) <-> segInterLine th s l' = Ok (Some q) /\ segInterLine th s' l = Ok (Some q).
Proof.
  intros Ht E E' Q. destruct (lineOf_proper th _ _ _ Ht E) as [U _]. destruct (lineOf_proper th _ _ _ Ht E') as [U' _].
  unfold segInterSeg, segInterLine. rewrite Q, E, E'. cbn [bind]. rewrite (isParallel_sym th l' l), (meet_sym th l' l) by auto using unit_proper.
  destruct (isParallel th l l'); [split; [discriminate|intros [X _]; discriminate]|].
  destruct (meet th l l') as [m| |]; cbn [bind]; try (split; [discriminate|intros [X _]; discriminate]).
  destruct (_ <? _)%num, (_ <? _)%num; split; try discriminate; try (intros [X Y]; discriminate); auto. intros [X _]; auto.
Qed.
Lemma line_of_pair th s f l' : thr_ok th -> endsAre s f -> okSeg th (mkSeg (fst f) (snd f)) -> dirOK th (fst f) (snd f) -> svLine th s = Ok l' ->
  exists k, Rabs k * edist (fst f) (snd f) = 1 /\ la l' = k * (py (fst f) - py (snd f)) /\ lb l' = k * (px (snd f) - px (fst f)) /\ forall p, lineAt l' p = k * cross3 (fst f) (snd f) p.
Proof.
  intros Ht EE O D E. destruct (lineOf_scaled th _ _ l' Ht E (ends_dirOK th s f EE D)) as (k & Hk & Ek & ->).
  destruct EE as [[EA EB]|[EA EB]]; rewrite EA, EB in *; [exists k|exists (- k)].
  - split; [exact Ek|]. split; [reflexivity|]. split; [reflexivity|]. intros p. unfold lineAt, scaleL, rawL, cross3. cbn [la lb lc]. ring.
  - split; [now rewrite Rabs_Ropp, edist_sym|]. unfold lineAt, scaleL, rawL, cross3. cbn [la lb lc]. split; [ring|]. split; [ring|]. intros p. ring.
Qed.
Lemma genPos_line th s e f l' : thr_ok th -> endsAre s f -> okSeg th (mkSeg (fst e) (snd e)) -> okSeg th (mkSeg (fst f) (snd f)) -> dirOK th (fst f) (snd f) -> svLine th s = Ok l' ->
  (sameDir e f \/ transversal th e f) -> (forall p, p = fst e \/ p = snd e -> onOrOff th (fst f) (snd f) p) ->
  ~ (cross3 (fst f) (snd f) (fst e) = 0 /\ cross3 (fst f) (snd f) (snd e) = 0) -> genPosL th l' e.
Proof.
  intros Ht EE O O' D E GA GE GN. destruct (line_of_pair th s f l' Ht EE O' D E) as (k & Hk & Ha & Hb & Hl).
  assert (0 < edist (fst f) (snd f)) as Pf by (destruct O' as [O' _]; cbn [sA sB] in O'; pose proof (thr_dist th Ht); lra).
  assert (0 < edist (fst e) (snd e)) as Pe by (destruct O as [O _]; cbn [sA sB] in O; pose proof (thr_dist th Ht); lra).
  assert (Hk0 : Rabs k = / edist (fst f) (snd f)) by (apply Rmult_eq_reg_r with (edist (fst f) (snd f)); [rewrite Rinv_l by lra; auto|lra]).
  assert (k <> 0) as K by (intros ->; rewrite Rabs_R0 in Hk; lra).
  assert (Z : forall p, onL l' p <-> cross3 (fst f) (snd f) p = 0).
  { intros p. unfold onL. change (la l' * px p + lb l' * py p + lc l') with (lineAt l' p). rewrite Hl. split; [intros X; apply Rmult_integral in X; tauto|intros ->; ring]. }
  split; [|split].
  - destruct GA as [GA|GA].
    + left. rewrite !Hl. unfold sameDir in GA. unfold cross3. f_equal. lra.
    + right. unfold transversal in GA. eapply Rle_trans; [exact GA|right]. f_equal. unfold Rdiv. rewrite Rinv_mult, <- Hk0, Ha, Hb, (Rmult_comm (/ _)), <- Rmult_assoc, <- Rabs_mult. f_equal.
      match goal with |- Rabs ?a = Rabs ?b => first [replace a with b by ring; reflexivity|replace a with (- b) by ring; apply Rabs_Ropp] end.
  - intros p X. destruct (GE p X) as [G|G]; [left; now apply Z|right]. rewrite Hl, Rabs_mult, Hk0. apply Rmult_le_reg_l with (edist (fst f) (snd f)); auto.
    rewrite <- Rmult_assoc, Rinv_r, Rmult_1_l by lra. lra.
  - rewrite !Z. exact GN.
Qed.
Lemma genPos_sym th e f : genPos th e f -> genPos th f e.
Proof.
  intros (A & B & C & D & E). repeat split; auto. destruct A as [A|A]; [left; unfold sameDir in *; lra|right].
  unfold transversal in *. eapply Rle_trans; [exact A|right]. f_equal. f_equal; [f_equal; ring|ring].
Qed.
Lemma side_side th s s' e f : thr_ok th -> endsAre s e -> endsAre s' f -> okSeg th (mkSeg (fst e) (snd e)) -> dirOK th (fst e) (snd e) -> okSeg th (mkSeg (fst f) (snd f)) -> dirOK th (fst f) (snd f) -> genPos th e f ->
  exists it, segInterSeg th s s' = Ok it /\ forall q, it = Some q <-> onSeg (fst e) (snd e) q /\ onSeg (fst f) (snd f) q.
Proof.
  intros Ht N N' O D O' D' G. pose proof (genPos_sym _ _ _ G) as G'.
  destruct (svLine_ok th s Ht (ends_ok th s e N O)) as (l & E). destruct (svLine_ok th s' Ht (ends_ok th s' f N' O')) as (l' & E').
  destruct (lineOf_proper th _ _ _ Ht E) as [U _]. destruct (lineOf_proper th _ _ _ Ht E') as [U' _].
  assert (GL : genPosL th l' e) by (destruct G as (A & B & _ & NN & _); eapply (genPos_line th s' e f); eauto).
  assert (GL' : genPosL th l f) by (destruct G' as (A & B & _ & NN & _); eapply (genPos_line th s f e); eauto).
  destruct (side_line th l' s e Ht N U' O D GL) as (it & Ei & H). destruct (side_line th l s' f Ht N' U O' D' GL') as (it' & Ei' & H').
  assert (svEq th s s' = false) as Q.
  { destruct (svEq th s s') eqn:Q; auto. exfalso. unfold svEq in Q.
    destruct (ptEq th (sA s) (sA s')) eqn:QA; [|discriminate]. destruct (ptEq th (sB s) (sB s')) eqn:QB; [|discriminate].
    apply ptEq_spec in QA. apply ptEq_spec in QB. destruct (lineOf_ends th s' f l' Ht N' O' E' D') as [OA OB]. destruct GL as (_ & GE & GN).
    assert (forall p x, onL l' x -> edist p x < nullDistance th -> (p = fst e \/ p = snd e) -> onL l' p) as X.
    { intros p x Ox Dx Pe. destruct (GE p Pe) as [|F]; auto. exfalso. pose proof (lineDist_lower l' p x (unit_proper _ U') Ox) as LD. rewrite lineDist_unit in LD by auto. unfold lineAt in F. lra. }
    apply GN. destruct N as [[A B]|[A B]], N' as [[A' B']|[A' B']]; rewrite A, A' in QA; rewrite B, B' in QB; split; (eapply X; [|eassumption|auto]; auto). }
  destruct (segInterSeg_total th s s' Ht (ends_ok th s e N O) (ends_ok th s' f N' O')) as (r & Er). exists r. split; auto.
  intros q. pose proof (segInter_lines th _ _ l l' q Ht E E' Q) as X. rewrite Er, Ei, Ei' in X.
  assert (r = Some q <-> it = Some q /\ it' = Some q) as ->.
  { split; [intros ->; destruct (proj1 X eq_refl) as [X1 X2]; split; congruence|]. intros [-> ->]. assert (Ok r = Ok (Some q)) as Y by (apply X; auto). congruence. }
  rewrite H, H'. split.
  - intros [[A B] [C F]]. auto.
  - intros [A B]. assert (onL l' q /\ onL l q) as [L1 L2]; [|auto].
    split; [apply (seg_on_line th s'); eauto using ends_dirOK; now apply (ends_has s' f)|apply (seg_on_line th s); eauto using ends_dirOK; now apply (ends_has s e)].
Qed.

(** ** The polyline *)
Lemma sd_endsAre e : endsAre (sd e) e.
Proof. exact (sd_ends0 e). Qed.
Lemma countP_of {A B} (P : A -> B -> Prop) (l : list A) (v : list (list B)) :
  Forall2 (fun e o => (length o <= 1)%nat /\ forall q, In q o <-> P e q) l v -> countP (fun e => exists q, P e q) l (length (concat v)).
Proof.
  induction 1 as [|e o l v [L H] F IH]; cbn; [constructor|]. destruct o as [|q [|]]; [| |cbn in L; lia]; cbn.
  - apply count_no; auto. intros (q & X). apply H in X. destruct X.
  - apply count_yes; auto. exists q. apply H. now left.
Qed.
Lemma inter1_spec (r : res (option (pt R))) it (P : pt R -> Prop) : r = Ok it -> (forall q, it = Some q <-> P q) ->
  exists o, inter1 r = Ok o /\ (length o <= 1)%nat /\ forall q, In q o <-> P q.
Proof.
  intros -> H. cbn. eexists. split; [reflexivity|]. destruct it as [p|]; cbn; (split; [lia|]); intros q; rewrite <- H.
  - split; [intros [->|[]]; auto|intros E; injection E; auto].
  - split; [tauto|discriminate].
Qed.
