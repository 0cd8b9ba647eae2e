(** * Proofs about the images by a homography *)

From Coq Require Import Reals Lra Lia List Bool Arith.
From Verif Require Import Num M_LP M_Homogr M_Seg M_Poly M_FRect M_Map S_Geom S_Homogr S_Seg S_Poly S_Map P_LP P_LP2 P_Homogr P_Poly P_Poly2 P_Poly7.
Import ListNotations.
Local Open Scope R_scope.

Lemma hPt_image h p q : hPt (N := RNum) h p = Ok q <-> isImage h p q.
Proof. apply ptOfH_image. Qed.
Lemma image_unique h p q q' : isImage h p q -> isImage h p q' -> q = q'.
Proof. intros A B. apply hPt_image in A, B. rewrite A in B. now injection B. Qed.
Lemma same_side_sign a b : 0 < a * b -> (0 < a /\ 0 < b) \/ (a < 0 /\ b < 0).
Proof. intros H. destruct (Rtotal_order a 0) as [A|[A|A]]; [right|subst; lra|left]; split; nra. Qed.

(** ** Segments *)

Lemma weight a b t : 0 < a * b -> 0 <= t <= 1 -> let w := (1 - t) * a + t * b in w <> 0 /\ 0 <= t * b / w <= 1.
Proof.
  intros S T. cbv zeta. assert (forall a b, 0 < a -> 0 < b -> 0 < (1 - t) * a + t * b /\ 0 <= t * b / ((1 - t) * a + t * b) <= 1) as G.
  { clear S a b. intros a b A B. assert (0 < (1 - t) * a + t * b) as W by (destruct (Req_dec t 0) as [->|]; nra). split; auto.
    split; [apply Rle_mult_inv_pos; nra|]. apply (Rmult_le_reg_r ((1 - t) * a + t * b)); auto.
    unfold Rdiv. rewrite Rmult_assoc, Rinv_l by lra. nra. }
  destruct (same_side_sign _ _ S) as [[A B]|[A B]].
  - destruct (G a b A B) as [W U]. split; [lra|auto].
  - destruct (G (- a) (- b) ltac:(lra) ltac:(lra)) as [W U]. split; [nra|].
    replace (t * b / ((1 - t) * a + t * b)) with (t * - b / ((1 - t) * - a + t * - b)); auto. field. split; nra.
Qed.
Lemma image_along h p q p' q' x t : isImage h p p' -> isImage h q q' -> sameSide h p q -> 0 <= t <= 1 ->
  px x = px p + t * (px q - px p) -> py x = py p + t * (py q - py p) ->
  let u := t * wAt h q / ((1 - t) * wAt h p + t * wAt h q) in
  isImage h x (mkPt (px p' + u * (px q' - px p')) (py p' + u * (py q' - py p'))).
Proof.
  intros (Wp & Xp & Yp) (Wq & Xq & Yq) S T X Y. unfold sameSide in S. destruct (weight _ _ _ S T) as [W U]. unfold wAt in *. cbv zeta.
  unfold isImage. cbv zeta. rewrite X, Y. cbn [px py].
  assert (forall u v w : R, u * (px p + t * (px q - px p)) + v * (py p + t * (py q - py p)) + w =
    (1 - t) * (u * px p + v * py p + w) + t * (u * px q + v * py q + w)) as E by (intros; ring).
  rewrite !E, Xp, Yp, Xq, Yq. split; [exact W|].
  set (a := m20 h * px p + m21 h * py p + m22 h) in *. set (b := m20 h * px q + m21 h * py q + m22 h) in *.
  split; field; auto.
Qed.
Lemma seg_image h p q p' q' : isImage h p p' -> isImage h q q' -> sameSide h p q -> segImage h p q p' q'.
Proof.
  intros P Q S. split.
  - intros x (t & T & X & Y). eexists. split; [apply (image_along h p q p' q' x t); auto|].
    eexists. split; [apply (weight _ _ _ S T)|]. cbn [px py]. auto.
  - intros y (u & U & X & Y).
    assert (0 < wAt h q * wAt h p) as S' by (unfold sameSide in S; lra).
    destruct (weight _ _ u S' U) as [W B].
    set (t := u * wAt h p / ((1 - u) * wAt h q + u * wAt h p)) in *.
    exists (mkPt (px p + t * (px q - px p)) (py p + t * (py q - py p))). split; [|exists t; auto].
    pose proof (image_along h p q p' q' _ t P Q S B (eq_refl : px (mkPt (px p + t * (px q - px p)) (py p + t * (py q - py p))) = _) eq_refl) as I. cbv zeta in I.
    replace y with (mkPt (px p' + t * wAt h q / ((1 - t) * wAt h p + t * wAt h q) * (px q' - px p')) (py p' + t * wAt h q / ((1 - t) * wAt h p + t * wAt h q) * (py q' - py p'))); [exact I|].
    assert (wAt h p <> 0 /\ wAt h q <> 0) as [NP NQ] by (apply same_side_sign in S; lra).
    assert (t * wAt h q / ((1 - t) * wAt h p + t * wAt h q) = u) as ->.
    { unfold t. field. split; [exact W|]. intros Z. apply (Rmult_integral_contrapositive_currified _ _ NP NQ). nra. }
    destruct y as [a b]. cbn [px py] in X, Y |- *. congruence.
Qed.
Lemma seg_not_image h p q p' q' : isImage h p p' -> isImage h q q' -> wAt h p * wAt h q < 0 -> ~ segImage h p q p' q'.
Proof.
  intros P Q S [A _].
  set (t := wAt h p / (wAt h p - wAt h q)).
  assert (wAt h p - wAt h q <> 0) as D by nra.
  assert (0 <= t <= 1) as T.
  { assert (forall a b, 0 < a -> b < 0 -> 0 <= a / (a - b) <= 1) as G.
    { intros a b HA HB. split; [apply Rle_mult_inv_pos; lra|]. apply (Rmult_le_reg_r (a - b)); [lra|]. unfold Rdiv. rewrite Rmult_assoc, Rinv_l; lra. }
    unfold t. destruct (Rtotal_order (wAt h p) 0) as [L|[L|L]]; [|rewrite L in S; lra|apply G; nra].
    replace (wAt h p / (wAt h p - wAt h q)) with (- wAt h p / (- wAt h p - - wAt h q)) by (field; lra). apply G; nra. }
  destruct (A (mkPt (px p + t * (px q - px p)) (py p + t * (py q - py p)))) as (y & (W & _) & _); [exists t; auto|].
  apply W. cbn [px py].
  replace (m20 h * (px p + t * (px q - px p)) + m21 h * (py p + t * (py q - py p)) + m22 h) with ((1 - t) * wAt h p + t * wAt h q) by (unfold wAt; ring).
  unfold t. field. auto.
Qed.

(** ** Chains of points *)

Lemma hPoly_addAll th h pts : forall qs pl, Forall2 (isImage h) pts qs ->
  fold_left (fun r p => do pl <- r; do q <- hPt (N := RNum) h p; plAddPoint th pl q) pts (Ok pl) = plAddAll th pl qs.
Proof.
  assert (forall l (e : res (poly R)), (e = Throw \/ e = Undef) ->
    fold_left (fun r p => do pl <- r; do q <- hPt (N := RNum) h p; plAddPoint th pl q) l e = e) as F.
  { induction l as [|a l IH]; intros e E; [reflexivity|]. destruct E as [->| ->]; apply IH; auto. }
  induction pts as [|p pts IH]; intros qs pl H; inversion H as [|? q ? qs' I R]; subst; [reflexivity|].
  cbn [fold_left plAddAll]. apply hPt_image in I. cbn [bind]. rewrite I. cbn [bind].
  destruct (plAddPoint th pl q); cbn [bind]; [apply IH; auto|apply F; auto|apply F; auto].
Qed.
Lemma addAll_far th qs : forall l, l <> [] -> farChain (nullDistance th) (last l (mkPt 0 0) :: qs) ->
  plAddAll th (plFresh l) qs = Ok (plFresh (l ++ qs)).
Proof.
  induction qs as [|q qs IH]; intros l L H; [cbn; now rewrite app_nil_r|].
  cbn [plAddAll]. unfold plAddPoint. cbn [plPts plFresh]. destruct l as [|a l]; [easy|].
  assert (ptEq th q (last (a :: l) pt00) = false) as E.
  { apply ptEq_false. rewrite edist_sym. exact (H (_, _) (or_introl eq_refl)). }
  rewrite E. cbn [bind]. rewrite IH.
  - now rewrite <- app_assoc.
  - destruct l; easy.
  - rewrite last_last. intros e I. apply H. now right.
Qed.
Lemma addAll_near th qs : forall l e, l <> [] -> In e (chain (last l (mkPt 0 0) :: qs)) -> edist (fst e) (snd e) < nullDistance th ->
  plAddAll th (plFresh l) qs = Throw.
Proof.
  induction qs as [|q qs IH]; intros l e L I D; [destruct I|].
  cbn [plAddAll]. unfold plAddPoint. cbn [plPts plFresh]. destruct l as [|a l]; [easy|].
  destruct (ptEq th q (last (a :: l) pt00)) eqn:E; [reflexivity|]. cbn [bind].
  destruct I as [<-|I].
  - exfalso. apply ptEq_false in E. rewrite edist_sym in E. cbn [fst snd] in D. change (mkPt 0 0) with (@pt00 R RNum) in D. lra.
  - apply (IH _ e); auto; [destruct l; easy|]. rewrite last_last. exact I.
Qed.
Lemma hPoly_far th h pts qs : Forall2 (isImage h) pts qs -> farChain (nullDistance th) qs -> hPoly (N := RNum) th h pts = Ok (plFresh qs).
Proof.
  intros I F. unfold hPoly. rewrite (hPoly_addAll th h pts qs) by auto. destruct qs as [|q qs]; [reflexivity|].
  cbn [plAddAll]. unfold plAddPoint at 1. cbn [plPts plEmpty plFresh bind]. now rewrite addAll_far.
Qed.
Lemma hPoly_near th h pts qs e : Forall2 (isImage h) pts qs -> In e (chain qs) -> edist (fst e) (snd e) < nullDistance th -> hPoly (N := RNum) th h pts = Throw.
Proof.
  intros I F D. unfold hPoly. rewrite (hPoly_addAll th h pts qs) by auto. destruct qs as [|q qs]; [destruct F|].
  cbn [plAddAll]. unfold plAddPoint at 1. cbn [plPts plEmpty plFresh bind]. now apply addAll_near with e.
Qed.
Lemma far_dec d (l : list (pt R * pt R)) : (forall e, In e l -> d <= edist (fst e) (snd e)) \/ exists e, In e l /\ edist (fst e) (snd e) < d.
Proof.
  induction l as [|e l [IH|(f & I & F)]]; [left; intros ? []| |right; exists f; split; [now right|auto]].
  destruct (Rlt_le_dec (edist (fst e) (snd e)) d); [right; exists e; split; [now left|auto]|left; intros f [<-|I]; auto].
Qed.
(** Reverse direction: what a returned polyline is. *)
Lemma hPoly_inv th h pts pl : hPoly (N := RNum) th h pts = Ok pl -> exists qs, pl = plFresh qs /\ Forall2 (isImage h) pts qs /\ farChain (nullDistance th) qs.
Proof.
  intros H. assert (exists qs, Forall2 (isImage h) pts qs) as (qs & I).
  { revert H. unfold hPoly. generalize (@plEmpty R). induction pts as [|p pts IH]; intros e H; [exists []; constructor|].
    cbn [fold_left bind] in H. destruct (hPt h p) as [q| |] eqn:Q; cbn [bind] in H.
    - destruct (plAddPoint th e q) as [pl'| |] eqn:A; [| |].
      + destruct (IH _ H) as (qs & F). exists (q :: qs). constructor; auto. now apply hPt_image.
      + exfalso. clear -H. induction pts; [discriminate|auto].
      + exfalso. clear -H. induction pts; [discriminate|auto].
    - exfalso. clear -H. induction pts; [discriminate|auto].
    - exfalso. clear -H. induction pts; [discriminate|auto]. }
  destruct (far_dec (nullDistance th) (chain qs)) as [F|(e & E & F)].
  - exists qs. rewrite (hPoly_far th h pts qs I F) in H. injection H as <-. auto.
  - rewrite (hPoly_near th h pts qs e I E F) in H. discriminate.
Qed.
Lemma image_ex h p : wAt h p <> 0 -> exists q, isImage h p q.
Proof.
  intros H. exists (mkPt ((m00 h * px p + m01 h * py p + m02 h) / wAt h p) ((m10 h * px p + m11 h * py p + m12 h) / wAt h p)).
  split; [exact H|]. split; reflexivity.
Qed.
Lemma image_list h pts : (forall p, In p pts -> wAt h p <> 0) -> exists qs, Forall2 (isImage h) pts qs.
Proof.
  induction pts as [|p pts IH]; intros H; [exists []; constructor|]. destruct IH as (qs & F); [intros; apply H; now right|].
  destruct (image_ex h p) as (q & Q); [apply H; now left|]. exists (q :: qs). now constructor.
Qed.

(** ** Turns *)
Lemma turn_image h p q r p' q' r' : isImage h p p' -> isImage h q q' -> isImage h r r' ->
  cross3 p' q' r' * (wAt h p * wAt h q * wAt h r) = det3 h * cross3 p q r.
Proof.
  intros (Wp & Xp & Yp) (Wq & Xq & Yq) (Wr & Xr & Yr). unfold cross3, wAt, det3. rewrite Xp, Yp, Xq, Yq, Xr, Yr. field. auto.
Qed.
Lemma Forall2_app2 {A B} (P : A -> B -> Prop) l1 m1 l2 m2 : Forall2 P l1 m1 -> Forall2 P l2 m2 -> Forall2 P (l1 ++ l2) (m1 ++ m2).
Proof. intros H. induction H; cbn; auto. Qed.
Lemma triple_image {P : pt R -> pt R -> Prop} pts qs p' q' r' : Forall2 P pts qs -> triple qs p' q' r' -> exists p q r, triple pts p q r /\ P p p' /\ P q q' /\ P r r'.
Proof.
  intros F (u & v & E). pose proof (Forall2_app2 _ _ _ _ _ F F) as G. rewrite E in G.
  apply Forall2_app_inv_r in G. destruct G as (u0 & w0 & _ & G & EQ).
  inversion G as [|p ? l1 ? P1 G1]; subst. inversion G1 as [|q ? l2 ? P2 G2]; subst. inversion G2 as [|r ? l3 ? P3 G3]; subst.
  exists p, q, r. split; [exists u0, l3; auto|auto].
Qed.
Lemma triple_in pts p q r : triple pts p q r -> In p pts /\ In q pts /\ In r pts.
Proof.
  intros (u & v & E). assert (forall x, In x (pts ++ pts) -> In x pts) as D by (intros x I; apply in_app_or in I; tauto).
  rewrite E in D. repeat split; apply D; apply in_or_app; right; [left|right; left|right; right; left]; reflexivity.
Qed.
Lemma Forall2_flip' {A B} (P : A -> B -> Prop) l m : Forall2 P l m -> Forall2 (fun y x => P x y) m l.
Proof. intros H. induction H; auto. Qed.
Lemma turn_sign h pts : oneSide h pts -> det3 h <> 0 -> exists s : R, s <> 0 /\
  forall p q r p' q' r', In p pts -> In q pts -> In r pts -> isImage h p p' -> isImage h q q' -> isImage h r r' ->
  exists k, 0 < k /\ cross3 p' q' r' = s * k * cross3 p q r.
Proof.
  intros S D. destruct pts as [|a pts]; [exists 1; split; [lra|]; intros ? ? ? ? ? ? []|].
  assert (wAt h a <> 0) as WA by (pose proof (S a a (or_introl eq_refl) (or_introl eq_refl)) as X; unfold sameSide in X; intros Z; rewrite Z in X; lra).
  exists (det3 h * wAt h a). split; [now apply Rmult_integral_contrapositive_currified|].
  intros p q r p' q' r' IP IQ IR P Q R.
  assert (forall x, In x (a :: pts) -> 0 < wAt h a * wAt h x) as SA by (intros x X; apply S; auto; now left).
  pose proof (SA p IP) as Sp. pose proof (SA q IQ) as Sq. pose proof (SA r IR) as Sr.
  exists (/ (wAt h a * (wAt h p * wAt h q * wAt h r))).
  assert (0 < wAt h a * (wAt h p * wAt h q * wAt h r)) as K.
  { assert (0 < wAt h a * wAt h a) by nra.
    assert (0 < (wAt h a * wAt h p) * ((wAt h a * wAt h q) * (wAt h a * wAt h r))) as X by (apply Rmult_lt_0_compat; [|apply Rmult_lt_0_compat]; assumption).
    apply (Rmult_lt_reg_l (wAt h a * wAt h a)); [auto|]. rewrite Rmult_0_r. eapply Rlt_le_trans; [exact X|right; ring]. }
  split; [now apply Rinv_0_lt_compat|].
  pose proof (turn_image h p q r p' q' r' P Q R) as E.
  assert (wAt h p <> 0 /\ wAt h q <> 0 /\ wAt h r <> 0) as (NP & NQ & NR) by (repeat split; intros Z; rewrite Z in *; lra).
  apply (Rmult_eq_reg_r (wAt h p * wAt h q * wAt h r)); [|repeat apply Rmult_integral_contrapositive_currified; auto].
  rewrite E. field. auto.
Qed.
Lemma triple_image_l {P : pt R -> pt R -> Prop} pts qs p q r : Forall2 P pts qs -> triple pts p q r -> exists p' q' r', triple qs p' q' r' /\ P p p' /\ P q q' /\ P r r'.
Proof.
  intros F T. apply Forall2_flip' in F. destruct (triple_image qs pts p q r F T) as (p' & q' & r' & H). eauto 8.
Qed.
