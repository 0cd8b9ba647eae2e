(** * C169-C172: intersections of polylines *)

From Coq Require Import Floats Reals Lra Psatz List Lia Bool Permutation Arith ZArith.
From Verif Require Import Num M_LP M_Seg M_Circle M_Poly M_FRect M_Inter S_Geom S_Seg S_Circle S_Poly S_Pip S_Inter
  P_LP P_LP2 P_LP3 P_LP4 P_LP5 P_Seg P_Seg2 P_Seg3 P_Seg4 P_Circle3 P_Circle4 P_Poly P_Poly2 P_Poly4 P_Poly7 P_Inter.
Import ListNotations.
Local Open Scope R_scope.

(** ** C169: with a line, a segment, a circle *)
Theorem C169_line th closed pts l : thr_ok th -> unitL l -> okPoly th closed pts -> (forall e, In e (sides closed pts) -> genPosL th l e) ->
  exists out, plInterLine th closed pts l = Ok out /\ (forall q, In q out <-> onPoly closed pts q /\ onL l q) /\
    countP (fun e => exists q, onSeg (fst e) (snd e) q /\ onL l q) (sides closed pts) (length out).
Proof.
  intros Ht U O G. set (P := fun (e : pt R * pt R) q => onSeg (fst e) (snd e) q /\ onL l q).
  destruct (plInter_each th closed pts (fun s => inter1 (segInterLine th s l)) (fun e o => (length o <= 1)%nat /\ forall q, In q o <-> P e q)) as (v & E & F); auto using ok_wide.
  - intros e I. destruct (O e I) as [O1 D]. destruct (side_line th l (sd e) e Ht (sd_endsAre e) U O1 D (G e I)) as (it & Ei & H).
    apply (inter1_spec _ it (P e) Ei). intros q. rewrite H. unfold P. tauto.
  - exists (concat v). split; [exact E|]. split; [|exact (countP_of P _ _ F)]. intros q. rewrite (concat_in P (sides closed pts)).
    + unfold onPoly, P. split; [intros (e & I & A & B); eauto|intros ((e & I & A) & B); eauto].
    + clear - F. induction F; constructor; auto. tauto.
Qed.
Theorem C169_segment th closed pts s : thr_ok th -> okPoly th closed pts -> okSeg th s -> dirOK th (sA s) (sB s) ->
  (forall e, In e (sides closed pts) -> genPos th e (sA s, sB s)) ->
  exists out, plInterSeg th closed pts s = Ok out /\ (forall q, In q out <-> onPoly closed pts q /\ segHas s q) /\
    countP (fun e => exists q, onSeg (fst e) (snd e) q /\ segHas s q) (sides closed pts) (length out).
Proof.
  intros Ht O Os Ds G. set (P := fun (e : pt R * pt R) q => onSeg (fst e) (snd e) q /\ segHas s q).
  destruct (plInter_each th closed pts (fun x => inter1 (segInterSeg th x s)) (fun e o => (length o <= 1)%nat /\ forall q, In q o <-> P e q)) as (v & E & F); auto using ok_wide.
  - intros e I. destruct (O e I) as [O1 D]. destruct (side_side th (sd e) s e (sA s, sB s) Ht (sd_endsAre e)) as (it & Ei & H); auto.
    + left. auto.
    + apply (inter1_spec _ it (P e) Ei). intros q. rewrite H. reflexivity.
  - exists (concat v). split; [exact E|]. split; [|exact (countP_of P _ _ F)]. intros q. rewrite (concat_in P (sides closed pts)).
    + unfold onPoly, P. split; [intros (e & I & A & B); eauto|intros ((e & I & A) & B); eauto].
    + clear - F. induction F; constructor; auto. tauto.
Qed.
Theorem C169_circle th closed pts c : thr_ok th -> okPoly th closed pts -> 0 <= cr c ->
  (forall e, In e (sides closed pts) -> far th c (fst e) /\ far th c (snd e)) ->
  exists out, plInterCircle th closed pts c = Ok out /\ forall q, In q out <-> onPoly closed pts q /\ onEdge c q.
Proof.
  intros Ht O Rc G. set (P := fun (e : pt R * pt R) q => onSeg (fst e) (snd e) q /\ onEdge c q).
  destruct (plInter_each th closed pts (fun x => bind (segCircle th x c) (fun v => Ok (interGet v))) (fun e o => forall q, In q o <-> P e q)) as (v & E & F); auto using ok_wide.
  - intros e I. destruct (O e I) as [O1 D]. destruct (G e I) as [FA FB]. pose proof (sd_ok th e O1) as Os. pose proof (sd_dirOK th e D) as Ds.
    destruct (segCircle_ok th (sd e) c Ht Os) as (o & Eo). rewrite Eo. cbn [bind]. eexists. split; [reflexivity|]. intros q. rewrite interGet_in.
    assert (FS : far th c (sA (sd e)) /\ far th c (sB (sd e))) by (destruct (sd_endsAre e) as [[-> ->]|[-> ->]]; auto). rewrite (segCircle_exact th (sd e) c o q) by (auto; apply FS). rewrite sd_has. reflexivity.
  - exists (concat v). split; [exact E|]. intros q. rewrite (concat_in P (sides closed pts)) by exact F.
    unfold onPoly, P. split; [intros (e & I & A & B); eauto|intros ((e & I & A) & B); eauto].
Qed.

(** ** C170: a line that avoids the vertices crosses a closed polyline an even number of times *)
Lemma cross_sign l e : ~ onL l (fst e) -> ~ onL l (snd e) ->
  (exists q, onSeg (fst e) (snd e) q /\ onL l q) <-> Rltb 0 (lineAt l (fst e)) <> Rltb 0 (lineAt l (snd e)).
Proof.
  intros A B. unfold onL in A, B. fold (lineAt l (fst e)) in A. fold (lineAt l (snd e)) in B. set (u := lineAt l (fst e)) in *. set (w := lineAt l (snd e)) in *.
  assert (forall t, lineAt l (along (fst e) (snd e) t) = u + t * (w - u)) as L by (intros t; unfold u, w, lineAt, along; cbn [px py]; ring).
  split.
  - intros (q & S & O). apply onSeg_along in S. destruct S as (t & T & ->). unfold onL in O. fold (lineAt l (along (fst e) (snd e) t)) in O. rewrite L in O.
    unfold Rltb. destruct (Rlt_dec 0 u), (Rlt_dec 0 w); try discriminate; intros _; nra.
  - intros N. assert (u * w < 0) as S by (unfold Rltb in N; destruct (Rlt_dec 0 u), (Rlt_dec 0 w); try congruence; nra).
    assert (w - u <> 0) as Z by (intros Z; nra). exists (along (fst e) (snd e) (- u / (w - u))). split.
    + apply onSeg_along. exists (- u / (w - u)). split; [|reflexivity].
      destruct (Rlt_dec u w).
      * split; [apply Rmult_le_pos; [nra|left; apply Rinv_0_lt_compat; lra]|apply Rmult_le_reg_r with (w - u); [lra|]; unfold Rdiv; rewrite Rmult_assoc, Rinv_l by auto; nra].
      * replace (- u / (w - u)) with (u / (u - w)) by (field; split; lra). assert (0 < u - w) by lra.
        split; [apply Rmult_le_pos; [nra|left; apply Rinv_0_lt_compat; lra]|apply Rmult_le_reg_r with (u - w); [lra|]; unfold Rdiv; rewrite Rmult_assoc, Rinv_l by lra; nra].
    + unfold onL. fold (lineAt l (along (fst e) (snd e) (- u / (w - u)))). rewrite L. field. auto.
Qed.
Lemma chain_parity (b : pt R -> bool) (P : pt R * pt R -> Prop) l : forall a z n,
  (forall e, In e (combine (a :: l) (l ++ [z])) -> P e <-> b (fst e) <> b (snd e)) ->
  countP P (combine (a :: l) (l ++ [z])) n -> Nat.odd n = xorb (b a) (b z).
Proof.
  induction l as [|c l IH]; intros a z n H C.
  - cbn in C, H. assert (HP : P (a, z) <-> b a <> b z) by (apply H; now left).
    inversion C as [|? ? ? Y D|? ? ? Y D]; subst; inversion D; subst; cbn.
    + apply HP in Y. destruct (b a), (b z); try reflexivity; congruence.
    + destruct (b a), (b z); try reflexivity; exfalso; apply Y, HP; discriminate.
  - cbn [combine app] in C, H. assert (HP : P (a, c) <-> b a <> b c) by (apply H; now left).
    inversion C as [|? ? ? Y D|? ? ? Y D]; subst.
    + specialize (IH c z _ (fun e I => H e (or_intror I)) D). apply HP in Y. rewrite Nat.odd_succ, <- Nat.negb_odd, IH. destruct (b a), (b c), (b z); try reflexivity; congruence.
    + specialize (IH c z _ (fun e I => H e (or_intror I)) D). rewrite IH. assert (b a = b c) as -> by (destruct (b a), (b c); try reflexivity; exfalso; apply Y, HP; discriminate). reflexivity.
Qed.
Theorem C170_even th pts l : thr_ok th -> unitL l -> okPoly th true pts -> (forall e, In e (sides true pts) -> genPosL th l e) ->
  (forall p, In p pts -> ~ onL l p) -> exists out, plInterLine th true pts l = Ok out /\ Nat.Even (length out).
Proof.
  intros Ht U O G V. destruct (C169_line th true pts l Ht U O G) as (out & E & _ & C). exists out. split; [exact E|].
  destruct pts as [|a r]; [inversion C; exists 0%nat; reflexivity|]. apply Nat.even_spec. rewrite <- Nat.negb_odd.
  assert (H : forall e, In e (combine (a :: r) (r ++ [a])) -> (exists q, onSeg (fst e) (snd e) q /\ onL l q) <-> Rltb 0 (lineAt l (fst e)) <> Rltb 0 (lineAt l (snd e))).
  { intros [x y] I. apply cross_sign; apply V; cbn [fst snd]; [apply in_combine_l in I; exact I|].
    apply in_combine_r in I. apply in_app_iff in I. destruct I as [I|[<-|[]]]; [now right|now left]. }
  rewrite (chain_parity (fun p => Rltb 0 (lineAt l p)) _ r a a _ H C).
  rewrite xorb_nilpotent. reflexivity.
Qed.

(** ** C171: with a polyline *)
Lemma flat_swap {A B C} (g : A -> B -> list C) (l : list A) (m : list B) :
  Permutation (flat_map (fun a => flat_map (g a) m) l) (flat_map (fun b => flat_map (fun a => g a b) l) m).
Proof.
  induction l as [|a l IH]; cbn.
  - induction m as [|b m IHm]; cbn; auto.
  - rewrite IH. clear IH. induction m as [|b m IHm]; cbn; [constructor|]. rewrite <- IHm. rewrite <- !app_assoc. apply Permutation_app_head.
    rewrite !app_assoc. apply Permutation_app_tail. apply Permutation_app_comm.
Qed.
Definition hits th (e f : pt R * pt R) : list (pt R) := match segInterSeg th (sd f) (sd e) with Ok (Some q) => [q] | _ => [] end.
Lemma plInterSeg_hits th closed pts e : thr_ok th -> widePoly th closed pts -> okSeg th (mkSeg (fst e) (snd e)) ->
  plInterSeg th closed pts (sd e) = Ok (flat_map (hits th e) (sides closed pts)).
Proof.
  intros Ht W O. destruct (plInter_each th closed pts (fun x => inter1 (segInterSeg th x (sd e))) (fun f o => o = hits th e f)) as (v & E & F); auto.
  - intros f I. destruct (segInterSeg_total th (sd f) (sd e) Ht (sd_ok th f (W f I)) (sd_ok th e O)) as (r & Er). unfold hits. rewrite Er. cbn. destruct r; eauto.
  - unfold plInterSeg. rewrite E. f_equal. rewrite flat_map_concat_map. f_equal. clear - F. induction F; cbn; congruence.
Qed.
Lemma plInterPoly_hits th c1 p1 c2 p2 : thr_ok th -> widePoly th c1 p1 -> widePoly th c2 p2 ->
  exists out, plInterPoly th c1 p1 c2 p2 = Ok out /\ Permutation out (flat_map (fun e => flat_map (hits th e) (sides c2 p2)) (sides c1 p1)).
Proof.
  intros Ht W1 W2. destruct (plInter_each th c1 p1 (fun s => bind (plInterSeg th c2 p2 s) (fun v => Ok (interGet v))) (fun e o => Permutation o (flat_map (hits th e) (sides c2 p2)))) as (v & E & F); auto.
  - intros e I. rewrite plInterSeg_hits by auto. cbn [bind]. eexists. split; [reflexivity|]. symmetry. apply interGet_perm.
  - exists (concat v). split; [exact E|]. clear - F. induction F; cbn; auto. now apply Permutation_app.
Qed.
Lemma hits_sym th e f : thr_ok th -> okSeg th (mkSeg (fst e) (snd e)) -> okSeg th (mkSeg (fst f) (snd f)) -> hits th e f = hits th f e.
Proof. intros Ht O O'. unfold hits. rewrite (segInterSeg_sym th (sd f)) by auto using sd_ok. reflexivity. Qed.
Lemma flat_map_ext_in {A B} (f g : A -> list B) l : (forall x, In x l -> f x = g x) -> flat_map f l = flat_map g l.
Proof. intros H. induction l; cbn; auto. rewrite H, IHl; auto; [intros; apply H; now right|now left]. Qed.
Theorem C171_symmetric th c1 p1 c2 p2 : thr_ok th -> widePoly th c1 p1 -> widePoly th c2 p2 ->
  exists a b, plInterPoly th c1 p1 c2 p2 = Ok a /\ plInterPoly th c2 p2 c1 p1 = Ok b /\ length a = length b /\ interGet a = interGet b.
Proof.
  intros Ht W1 W2. destruct (plInterPoly_hits th c1 p1 c2 p2 Ht W1 W2) as (a & Ea & Pa). destruct (plInterPoly_hits th c2 p2 c1 p1 Ht W2 W1) as (b & Eb & Pb).
  assert (Permutation a b) as P.
  { rewrite Pa, Pb, flat_swap. apply Permutation_refl'. apply flat_map_ext_in. intros e I. apply flat_map_ext_in. intros f J. apply hits_sym; auto. }
  exists a, b. repeat split; auto; [now apply Permutation_length|now apply interGet_eq].
Qed.
Theorem C171_exact th c1 p1 c2 p2 : thr_ok th -> okPoly th c1 p1 -> okPoly th c2 p2 ->
  (forall e f, In e (sides c1 p1) -> In f (sides c2 p2) -> genPos th e f) ->
  exists out, plInterPoly th c1 p1 c2 p2 = Ok out /\ forall q, In q out <-> onPoly c1 p1 q /\ onPoly c2 p2 q.
Proof.
  intros Ht O1 O2 G. destruct (plInterPoly_hits th c1 p1 c2 p2 Ht (ok_wide _ _ _ O1) (ok_wide _ _ _ O2)) as (a & Ea & Pa). exists a. split; [exact Ea|].
  assert (H : forall e f q, In e (sides c1 p1) -> In f (sides c2 p2) -> In q (hits th e f) <-> onSeg (fst e) (snd e) q /\ onSeg (fst f) (snd f) q).
  { intros e f q I J. destruct (O1 e I) as [Oe De]. destruct (O2 f J) as [Of Df].
    destruct (side_side th (sd f) (sd e) f e Ht (sd_endsAre f) (sd_endsAre e) Of Df Oe De) as (it & Ei & X); [apply genPos_sym; auto|].
    unfold hits. rewrite Ei. destruct it as [p|].
    - cbn. rewrite <- (and_comm (onSeg (fst f) (snd f) q)), <- X. split; [intros [->|[]]; auto|intros Y; injection Y; auto].
    - cbn. rewrite <- (and_comm (onSeg (fst f) (snd f) q)), <- X. split; [tauto|discriminate]. }
  intros q. split.
  - intros I. apply (Permutation_in q Pa) in I. apply in_flat_map in I. destruct I as (e & Ie & I). apply in_flat_map in I. destruct I as (f & If & I). apply H in I; auto.
    split; [exists e|exists f]; tauto.
  - intros [(e & Ie & Se) (f & If & Sf)]. apply (Permutation_in q (Permutation_sym Pa)). apply in_flat_map. exists e. split; auto. apply in_flat_map. exists f. split; auto. apply H; auto.
Qed.

(** ** C172: the number of points *)
Definition tri : list (pt R) := [mkPt 0 0; mkPt 6 0; mkPt 3 4].
Lemma tri_len : edist (mkPt 0 0) (mkPt 6 0) = 6 /\ edist (mkPt 6 0) (mkPt 3 4) = 5 /\ edist (mkPt 3 4) (mkPt 0 0) = 5.
Proof. repeat split; apply edist_val; cbn [px py]; lra. Qed.
Lemma tri_ok : okPoly thr0 true tri.
Proof.
  pose proof thr0_small as (T1 & T2 & T3). destruct tri_len as (A & B & C). intros e I. cbn in I. unfold okSeg, dirOK. destruct I as [<-|[<-|[<-|[]]]]; cbn [fst snd sA sB px py]; rewrite ?A, ?B, ?C.
  all: split; [split; lra|]. all: try (left; lra). all: right; unfold Rabs; destruct (Rcase_abs _); lra.
Qed.
Lemma angle_thr0 : nullAngleValue (thr0 (T := R)) = 1 / 1000.
Proof. unfold thr0. cbn [nullAngleValue]. rnum. lra. Qed.
Ltac rabs := unfold Rabs; repeat (destruct (Rcase_abs _)); lra.
Definition lMid : line R := mkL 1 0 (-3).
Definition lLow : line R := mkL 0 1 (-2).
Lemma lMid_pos : unitL lMid /\ forall e, In e (sides true tri) -> genPosL thr0 lMid e.
Proof.
  pose proof thr0_small as (T1 & _). destruct tri_len as (A & B & C). split; [unfold unitL, lMid; cbn; lra|].
  intros e I. cbn in I. unfold genPosL, onL, lineAt, lMid. cbn [la lb lc]. destruct I as [<-|[<-|[<-|[]]]]; cbn [fst snd px py]; rewrite ?A, ?B, ?C.
  all: split; [right; rewrite angle_thr0; apply acos_big; [lra|rabs]|]. all: split; [|lra].
  all: intros p [->| ->]; cbn [px py]; first [left; lra|right; rabs].
Qed.
Theorem C172_refuted : exists pts l out a b, unitL l /\ okPoly thr0 true pts /\ (forall e, In e (sides true pts) -> genPosL thr0 l e) /\
  plInterLine thr0 true pts l = Ok out /\ length out = 3%nat /\ forall q, onPoly true pts q /\ onL l q <-> q = a \/ q = b.
Proof.
  destruct lMid_pos as [U G]. destruct (C169_line thr0 true tri lMid thr0_ok U tri_ok G) as (out & E & H & C).
  exists tri, lMid, out, (mkPt 3 0), (mkPt 3 4). repeat (split; [assumption || exact tri_ok|]). split.
  - cbn [sides cyc tri combine app] in C.
    assert (X1 : exists q, onSeg (fst (mkPt 0 0, mkPt 6 0)) (snd (mkPt 0 0, mkPt 6 0)) q /\ onL lMid q) by (exists (mkPt 3 0); split; [exists (1 / 2); cbn; lra|unfold onL; cbn; lra]).
    assert (X2 : exists q, onSeg (fst (mkPt 6 0, mkPt 3 4)) (snd (mkPt 6 0, mkPt 3 4)) q /\ onL lMid q) by (exists (mkPt 3 4); split; [exists 1; cbn; lra|unfold onL; cbn; lra]).
    assert (X3 : exists q, onSeg (fst (mkPt 3 4, mkPt 0 0)) (snd (mkPt 3 4, mkPt 0 0)) q /\ onL lMid q) by (exists (mkPt 3 4); split; [exists 0; cbn; lra|unfold onL; cbn; lra]).
    remember (length out) as n eqn:En. clear - C X1 X2 X3. inversion C as [|? ? ? Y1 C1|? ? ? Y1 C1]; [|contradiction]. subst. inversion C1 as [|? ? ? Y2 C2|? ? ? Y2 C2]; [|contradiction]. subst.
    inversion C2 as [|? ? ? Y3 C3|? ? ? Y3 C3]; [|contradiction]. subst. inversion C3. reflexivity.
  - intros q. split.
    + intros [(e & I & S) O]. cbn in I. unfold onL, lMid in O. cbn [la lb lc] in O. destruct S as (t & T & Sx & Sy).
      destruct I as [<-|[<-|[<-|[]]]]; cbn [fst snd px py] in *; [left|right|right]; apply pt_eq; cbn [px py]; try lra.
      all: assert (t = 1 \/ t = 0) as [->| ->] by lra; lra.
    + intros [->| ->]; (split; [|unfold onL; cbn; lra]).
      * exists (mkPt 0 0, mkPt 6 0). split; [cbn; auto|]. exists (1 / 2). cbn. lra.
      * exists (mkPt 6 0, mkPt 3 4). split; [cbn; auto|]. exists 1. cbn. lra.
Qed.

(** ** The hypotheses are met: the triangle, a line across two sides, a circle across one, a path across two *)
Lemma lLow_pos : unitL lLow /\ (forall e, In e (sides true tri) -> genPosL thr0 lLow e) /\ (forall p, In p tri -> ~ onL lLow p).
Proof.
  pose proof thr0_small as (T1 & _). destruct tri_len as (A & B & C). split; [unfold unitL, lLow; cbn; lra|]. split.
  - intros e I. cbn in I. unfold genPosL, onL, lineAt, lLow. cbn [la lb lc]. destruct I as [<-|[<-|[<-|[]]]]; cbn [fst snd px py]; rewrite ?A, ?B, ?C.
    all: split; [first [left; lra|right; rewrite angle_thr0; apply acos_big; [lra|rabs]]|]. all: split; [|lra].
    all: intros p [->| ->]; cbn [px py]; right; rabs.
  - intros p I. cbn in I. unfold onL, lLow. destruct I as [<-|[<-|[<-|[]]]]; cbn; lra.
Qed.
Example C169_ex : exists out, plInterLine thr0 true tri lLow = Ok out /\ In (mkPt (3 / 2) 2) out /\ In (mkPt (9 / 2) 2) out.
Proof.
  destruct lLow_pos as (U & G & _). destruct (C169_line thr0 true tri lLow thr0_ok U tri_ok G) as (out & E & H & _). exists out. split; [exact E|].
  split; apply H; (split; [|unfold onL; cbn; lra]); [exists (mkPt 3 4, mkPt 0 0)|exists (mkPt 6 0, mkPt 3 4)]; (split; [cbn; auto|]); exists (1 / 2); cbn; lra.
Qed.
Example C169_circle_ex : let c := mkC (mkPt 3 0) 2 in (forall e, In e (sides true tri) -> far thr0 c (fst e) /\ far thr0 c (snd e)) /\
  exists out, plInterCircle thr0 true tri c = Ok out /\ In (mkPt 1 0) out.
Proof.
  intros c. pose proof thr0_small as (T1 & _).
  assert (F : forall e, In e (sides true tri) -> far thr0 c (fst e) /\ far thr0 c (snd e)).
  { assert (edist (mkPt 3 0) (mkPt 0 0) = 3 /\ edist (mkPt 3 0) (mkPt 6 0) = 3 /\ edist (mkPt 3 0) (mkPt 3 4) = 4) as (A & B & C) by (repeat split; apply edist_val; cbn [px py]; lra).
    intros e I. cbn in I. unfold far, c. cbn [cc cr]. destruct I as [<-|[<-|[<-|[]]]]; cbn [fst snd]; rewrite ?A, ?B, ?C; split; rabs. }
  split; [exact F|]. destruct (C169_circle thr0 true tri c thr0_ok tri_ok) as (out & E & H); [cbn; lra|exact F|]. exists out. split; [exact E|]. apply H. split.
  - exists (mkPt 0 0, mkPt 6 0). split; [cbn; auto|]. exists (1 / 6). cbn. lra.
  - unfold onEdge, c. cbn [cc cr]. apply edist_val; cbn [px py]; lra.
Qed.
Example C170_ex : exists out, plInterLine thr0 true tri lLow = Ok out /\ Nat.Even (length out) /\ (length out = 2)%nat.
Proof.
  destruct lLow_pos as (U & G & V). destruct (C170_even thr0 tri lLow thr0_ok U tri_ok G V) as (out & E & Ev). exists out. split; [exact E|]. split; [exact Ev|].
  destruct (C169_line thr0 true tri lLow thr0_ok U tri_ok G) as (out' & E' & H & C). assert (out' = out) as -> by congruence.
  assert (I : In (mkPt (3 / 2) 2) out) by (apply H; split; [exists (mkPt 3 4, mkPt 0 0); split; [cbn; auto|]; exists (1 / 2); cbn; lra|unfold onL; cbn; lra]).
  cbn [sides cyc tri combine app] in C. assert ((length out <= 3)%nat) as L.
  { clear - C. remember (length out) as n. clear Heqn. inversion C as [|? ? ? Y1 C1|? ? ? Y1 C1]; subst; inversion C1 as [|? ? ? Y2 C2|? ? ? Y2 C2]; subst; inversion C2 as [|? ? ? Y3 C3|? ? ? Y3 C3]; subst; inversion C3; subst; lia. }
  destruct Ev as (k & K). destruct out; [destruct I|]. cbn in *. lia.
Qed.
Definition path : list (pt R) := [mkPt (-1) 2; mkPt 7 2; mkPt 7 9].
Lemma path_len : edist (mkPt (-1) 2) (mkPt 7 2) = 8 /\ edist (mkPt 7 2) (mkPt 7 9) = 7.
Proof. repeat split; apply edist_val; cbn [px py]; lra. Qed.
Lemma path_ok : okPoly thr0 false path.
Proof.
  pose proof thr0_small as (T1 & T2 & T3). destruct path_len as (A & B). intros e I. cbn in I. unfold okSeg, dirOK. destruct I as [<-|[<-|[]]]; cbn [fst snd sA sB px py]; rewrite ?A, ?B.
  all: split; [split; lra|]. all: try (left; lra). all: right; rabs.
Qed.
Lemma tri_path_pos : forall e f, In e (sides true tri) -> In f (sides false path) -> genPos thr0 e f.
Proof.
  pose proof thr0_small as (T1 & _). destruct tri_len as (A & B & C). destruct path_len as (D & E). intros e f I J. cbn in I, J.
  destruct I as [<-|[<-|[<-|[]]]], J as [<-|[<-|[]]]; unfold genPos, sameDir, transversal, onOrOff, cross3; cbn [fst snd px py]; rewrite ?A, ?B, ?C, ?D, ?E.
  all: split; [first [left; lra|right; rewrite angle_thr0; apply acos_big; [lra|rabs]]|].
  all: split; [intros p [->| ->]; cbn [px py]; first [left; lra|right; rabs]|]. all: split; [intros p [->| ->]; cbn [px py]; first [left; lra|right; rabs]|]. all: lra.
Qed.
Example C171_ex : exists out, plInterPoly thr0 true tri false path = Ok out /\ In (mkPt (3 / 2) 2) out /\ ~ In (mkPt 7 2) out.
Proof.
  destruct (C171_exact thr0 true tri false path thr0_ok tri_ok path_ok tri_path_pos) as (out & E & H). exists out. split; [exact E|]. split.
  - apply H. split; [exists (mkPt 3 4, mkPt 0 0)|exists (mkPt (-1) 2, mkPt 7 2)]; (split; [cbn; auto|]); [exists (1 / 2)|exists (5 / 16)]; cbn; lra.
  - intros I. apply H in I. destruct I as [(e & I & t & T & X & Y) _]. cbn in I. destruct I as [<-|[<-|[<-|[]]]]; cbn [fst snd px py] in *; lra.
Qed.
Example C169_segment_ex : forall e, In e (sides true tri) -> genPos thr0 e (sA (mkSeg (mkPt (-1) 2) (mkPt 7 2)), sB (mkSeg (mkPt (-1) 2) (mkPt 7 2))).
Proof. intros e I. apply tri_path_pos; auto. cbn. auto. Qed.

Print Assumptions C169_line. Print Assumptions C169_segment. Print Assumptions C169_circle. Print Assumptions C170_even.
Print Assumptions C171_symmetric. Print Assumptions C171_exact. Print Assumptions C172_refuted.
