(** * Properties C228 to C235: conversions, matrices from vectors, homographies applied to containers *)

From Coq Require Import Reals Lra ZArith Bool Lia List.
From Verif Require Import Num M_LP M_Seg M_Poly M_FRect M_Homogr M_Conv S_Geom S_Homogr S_Poly P_LP P_LP2 P_LP4 P_LP5 P_Homogr P_Homogr2 P_Homogr3 P_Poly P_Poly2 P_FRect2.
Import ListNotations.
Local Open Scope R_scope.

(** ** C228: a homography applied to a container of lines *)

(** Every line becomes what a fresh copy of the homography gives, whatever the homography was used for before, provided
    its elements were not written between two products; the homography keeps its matrix. *)
Lemma applyToLines_spec th v : forall o, coherent th o ->
  let '(e, v', o') := applyToLines th o v in
  hm o' = hm o /\ length v' = length v /\
  (e = Ok tt /\ Forall2 (fun l l' => fst (hApplyLine th (hCopy o) l) = Ok l') v v' \/
   exists pre pre' l post, v = pre ++ l :: post /\ v' = pre' ++ l :: post /\ Forall2 (fun l l' => fst (hApplyLine th (hCopy o) l) = Ok l') pre pre' /\
     (e = Throw /\ fst (hApplyLine th (hCopy o) l) = Throw \/ e = Undef /\ fst (hApplyLine th (hCopy o) l) = Undef)).
Proof.
  induction v as [|l v IH]; intros o C; cbn [applyToLines].
  - split; [reflexivity|]. split; [reflexivity|]. left. split; constructor.
  - destruct (hApplyLine_fresh th o l C) as (A & B & E). rewrite <- freshLine_copy in A.
    destruct (hApplyLine th o l) as [[l'| |] o1]; cbn [fst snd] in *.
    + specialize (IH o1 B). destruct (applyToLines th o1 v) as [[e v'] o2]. destruct IH as (I1 & I2 & I3).
      split; [congruence|]. split; [cbn [length]; congruence|].
      assert (K : forall x, fst (hApplyLine th (hCopy o1) x) = fst (hApplyLine th (hCopy o) x)) by (intros x; rewrite !freshLine_copy, E; reflexivity).
      assert (F : forall u u', Forall2 (fun l l' => fst (hApplyLine th (hCopy o1) l) = Ok l') u u' -> Forall2 (fun l l' => fst (hApplyLine th (hCopy o) l) = Ok l') u u').
      { intros u u' H. induction H as [|x y u u' P Q IQ]; constructor; [now rewrite <- K|exact IQ]. }
      destruct I3 as [(-> & I3)|(pre & pre' & l0 & post & -> & -> & I3 & I4)].
      * left. split; [reflexivity|]. constructor; [now rewrite <- A|now apply F].
      * right. exists (l :: pre), (l' :: pre'), l0, post. split; [reflexivity|]. split; [reflexivity|]. split; [constructor; [now rewrite <- A|now apply F]|].
        rewrite <- K. exact I4.
    + split; [exact E|]. split; [reflexivity|]. right. exists [], [], l, v. split; [reflexivity|]. split; [reflexivity|]. split; [constructor|]. left. now rewrite <- A.
    + split; [exact E|]. split; [reflexivity|]. right. exists [], [], l, v. split; [reflexivity|]. split; [reflexivity|]. split; [constructor|]. right. now rewrite <- A.
Qed.
Lemma history_coherent th ops : forall o primed stale l, histInv th o primed stale ->
  noStaleUse th o primed stale (ops ++ [OpApplyLine l]) -> coherent th (hRun th o ops).
Proof.
  induction ops as [|op ops IH]; intros o primed stale l HI H; cbn [app noStaleUse] in H.
  - destruct H as [-> _]. cbn [hRun fold_left]. exact (proj2 HI eq_refl).
  - change (hRun th o (op :: ops)) with (hRun th (hStep th o op) ops).
    assert (C : (exists l0, op = OpApplyLine l0) \/ ((forall l0, op <> OpApplyLine l0) /\
      noStaleUse th (hStep th o op) primed
        (if tracked th o op then false else stale || (primed && untracked th o op)) (ops ++ [OpApplyLine l]))).
    { destruct op; try (right; split; [intros; discriminate|exact H]). left; eauto. }
    destruct C as [[l0 ->]|[N C]].
    + destruct H as [-> H]. eapply IH; [|exact H]. now apply (hApply_inv th o l0 primed).
    + eapply IH; [|exact C]. now apply hStep_inv.
Qed.
Lemma simple_coherent th pre post : existsb isProduct pre = false -> existsb silentOp post = false -> coherent th (hRun th hNew (pre ++ post)).
Proof.
  intros A B. apply (history_coherent th (pre ++ post) hNew false false (mkL 1 0 0)).
  - split; [reflexivity|]. intros _. left; reflexivity.
  - rewrite <- app_assoc. apply noStale_pre; auto. now apply noStale_post.
Qed.
Theorem C228_lines : forall th pre post v, existsb isProduct pre = false -> existsb silentOp post = false ->
  let o := hRun th hNew (pre ++ post) in
  let '(e, v', o') := applyToLines th o v in
  hm o' = hm o /\ length v' = length v /\
  (e = Ok tt <-> forall l, In l v -> exists l', fst (hApplyLine th (hCopy o) l) = Ok l') /\
  (e = Ok tt -> Forall2 (fun l l' => fst (hApplyLine th (hCopy o) l) = Ok l') v v').
Proof.
  intros th pre post v A B o. pose proof (applyToLines_spec th v o (simple_coherent th pre post A B)) as S.
  destruct (applyToLines th o v) as [[e v'] o']. destruct S as (S1 & S2 & S3). split; [exact S1|]. split; [exact S2|].
  destruct S3 as [(-> & F)|(u & u' & l & w & -> & -> & F & G)].
  - split; [|intros _; exact F]. split; [|reflexivity]. intros _ l Hl. clear - F Hl. induction F as [|x y u u' P Q IQ]; [destruct Hl|]. destruct Hl as [<-|Hl]; [eauto|auto].
  - assert (K : e <> Ok tt) by (destruct G as [(-> & _)|(-> & _)]; discriminate). split; [|intros E; now elim K]. split; [intros E; now elim K|].
    intros H. destruct (H l) as (l' & E); [apply in_or_app; right; left; reflexivity|]. destruct G as [(_ & G)|(_ & G)]; congruence.
Qed.
Print Assumptions C228_lines.

(** If the homography is not invertible, or the image of a line is the line at infinity: an exception, and the elements from
    this one on are unchanged, those before are transformed. *)
Theorem C228_exception : forall th pre post v, existsb isProduct pre = false -> existsb silentOp post = false ->
  let o := hRun th hNew (pre ++ post) in
  forall v' o', applyToLines th o v = (Throw, v', o') -> exists done done' l rest, v = done ++ l :: rest /\ v' = done' ++ l :: rest /\
    Forall2 (fun l l' => fst (hApplyLine th (hCopy o) l) = Ok l') done done' /\ fst (hApplyLine th (hCopy o) l) = Throw.
Proof.
  intros th pre post v A B o v' o' E. pose proof (applyToLines_spec th v o (simple_coherent th pre post A B)) as S. rewrite E in S.
  destruct S as (_ & _ & [(D & _)|(u & u' & l & w & S1 & S2 & F & [(_ & G)|(D & _)])]); try discriminate. exists u, u', l, w. auto.
Qed.
Print Assumptions C228_exception.

(** ** C229: all or nothing *)

(** Full statement: if applyTo() throws, the container is unchanged.  False. *)
Definition w229 : mat R := mkM 1 0 0 0 1 0 1 0 1.
Lemma w229_fresh l : freshLine thr0 w229 l = lnorm thr0 (mkL (la l - lc l) (lb l) (lc l)).
Proof.
  pose proof thr0_dete as Hd.
  assert (E : determ w229 = 1) by (unfold w229; munf; ring).
  unfold freshLine, freshHmt, hInverse, matInverse, hNormalize; cbn [hm]. rewrite E. rnum.
  rewrite Rabs_R1, (proj2 (Rltb_false 1 _)) by lra. cbn [hm hmt].
  set (mi := matMap _ _).
  assert (Em : mi = mkM 1 0 0 0 1 0 (-1) 0 1) by (unfold mi, w229; apply mat_eq; munf; field).
  rewrite Em. destruct (matNormalize_ok thr0 (mkM 1 0 0 0 1 0 (-1) 0 1) thr0_ok) as [En _].
  { cbn [m22]. rewrite Rabs_R1. unfold thr0; cbn [nullDenom]; rnum; lra. }
  rewrite En. cbn [bind hm]. f_equal. unfold scaleM; munf. f_equal; field.
Qed.
Definition o229 : hobj R := hRun thr0 hNew ([] ++ [OpAssign w229]).
Theorem C229_refuted : exists v v' o', applyToLines thr0 o229 v = (Throw, v', o') /\ v' <> v /\ length v = 2%nat.
Proof.
  set (v := [mkL 1 0 (-1); mkL 1 0 1]). assert (C : coherent thr0 o229) by (apply simple_coherent; reflexivity).
  assert (Em : hm o229 = w229) by reflexivity.
  assert (E1 : fst (hApplyLine thr0 o229 (mkL 1 0 (-1))) = Ok (mkL 1 0 (-1 / 2))).
  { rewrite (proj1 (hApplyLine_fresh thr0 o229 _ C)), Em, w229_fresh. cbn [la lb lc].
    rewrite (lnorm_eval thr0 _ _ _ 2 thr0_ok); unfold thr0; cbn [dblEpsilon nullDenom]; rnum; try lra. f_equal. f_equal; field. }
  destruct (hApplyLine_fresh thr0 o229 (mkL 1 0 (-1)) C) as (_ & C1 & M1).
  assert (E2 : fst (hApplyLine thr0 (snd (hApplyLine thr0 o229 (mkL 1 0 (-1)))) (mkL 1 0 1)) = Throw).
  { rewrite (proj1 (hApplyLine_fresh thr0 _ _ C1)), M1, Em, w229_fresh. cbn [la lb lc]. apply lnorm_throw. cbn [la lb]. unfold hypot. rnum.
    replace ((1 - 1) * (1 - 1) + 0 * 0) with 0 by ring. rewrite sqrt_0. unfold thr0. cbn [dblEpsilon]. rnum. lra. }
  destruct (hApplyLine thr0 o229 (mkL 1 0 (-1))) as [r1 o1] eqn:H1. cbn [fst snd] in *. subst r1.
  destruct (hApplyLine thr0 o1 (mkL 1 0 1)) as [r2 o2] eqn:H2. cbn [fst] in E2. subst r2.
  exists v, [mkL 1 0 (-1 / 2); mkL 1 0 1], o2. split; [|split; [|reflexivity]].
  - unfold v. cbn [applyToLines]. rewrite H1, H2. reflexivity.
  - unfold v. intros K. injection K as K. lra.
Qed.
Print Assumptions C229_refuted.
Example C228_ex : existsb isProduct [OpSetTranslation 3 4] = false /\ existsb silentOp [OpApplyLine l10; OpAddTranslation 1 0] = false /\
  exists v' o', applyToLines thr0 (hRun thr0 hNew ([] ++ [OpAssign w229])) [mkL 1 0 (-1)] = (Ok tt, v', o') /\ v' = [mkL 1 0 (-1 / 2)].
Proof.
  split; [reflexivity|]. split; [reflexivity|]. fold o229. assert (C : coherent thr0 o229) by (apply simple_coherent; reflexivity).
  assert (E1 : fst (hApplyLine thr0 o229 (mkL 1 0 (-1))) = Ok (mkL 1 0 (-1 / 2))).
  { rewrite (proj1 (hApplyLine_fresh thr0 o229 _ C)). change (hm o229) with w229. rewrite w229_fresh. cbn [la lb lc].
    rewrite (lnorm_eval thr0 _ _ _ 2 thr0_ok); unfold thr0; cbn [dblEpsilon nullDenom]; rnum; try lra. f_equal. f_equal; field. }
  destruct (hApplyLine thr0 o229 (mkL 1 0 (-1))) as [r1 o1] eqn:H1. cbn [fst] in E1. subst r1. exists [mkL 1 0 (-1 / 2)], o1. split; [|reflexivity].
  cbn [applyToLines]. rewrite H1. reflexivity.
Qed.

(** ** C230: polylines from segments, closed polylines from open ones *)

(** A polyline built from a segment has its two points; the open one has its length, the closed one twice its length. *)
Theorem C230_segment : forall th s closed, thr_ok th ->
  (plOfSeg th s = Throw <-> edist (sA s) (sB s) < nullDistance th) /\
  (forall pl, plOfSeg th s = Ok pl -> plPts pl = [sA s; sB s] /\ plNbSegs closed (plPts pl) = (if closed then 2 else 1)%nat /\
     exists pl', plLength th closed pl = Ok ((if closed then 2 else 1) * edist (sA s) (sB s), pl')).
Proof.
  intros th s closed Ht. unfold plOfSeg. change (plAddPoint th plEmpty (sA s)) with (Ok (plFresh [sA s])). cbn [bind]. unfold plAddPoint. cbn [plPts plFresh last app].
  split.
  - split.
    + destruct (ptEq th (sB s) (sA s)) eqn:E; [|discriminate]. intros _. apply ptEq_spec in E. now rewrite edist_sym.
    + intros H. rewrite (proj2 (ptEq_spec th (sB s) (sA s))); [reflexivity|now rewrite edist_sym].
  - intros pl H. destruct (ptEq th (sB s) (sA s)) eqn:E; [discriminate|]. injection H as <-. apply ptEq_false in E. rewrite edist_sym in E. cbn [plPts plFresh].
    split; [reflexivity|]. split; [destruct closed; reflexivity|]. unfold plLength. cbn [plLen plFresh plPts].
    rewrite lengthCalc_ok; [|intros e He; destruct closed; cbn in He; destruct He as [<-|He]; cbn [fst snd]; [exact E|destruct He as [<-|[]]; cbn [fst snd]; now rewrite edist_sym|exact E|destruct He]|cbn [length]; lia].
    assert (V : sumOver (fun e => edist (fst e) (snd e)) (sides closed [sA s; sB s]) = (if closed then 2 else 1) * edist (sA s) (sB s))
      by (destruct closed; [cbn; rewrite (edist_sym (sB s) (sA s)); ring|cbn; ring]).
    rewrite V. cbn [bind]. eexists. reflexivity.
Qed.
Print Assumptions C230_segment.

(** Closing an open polyline keeps its points; its length grows by the distance between its last and first points. *)
Lemma sides_closed_sum (f : pt R * pt R -> R) a r : sumOver f (sides true (a :: r)) = sumOver f (sides false (a :: r)) + f (last (a :: r) a, a).
Proof.
  unfold sides, cyc, chain. cbn [tl]. assert (G : forall r x, sumOver f (combine (x :: r) (r ++ [a])) = sumOver f (combine (x :: r) r) + f (last (x :: r) a, a)).
  { clear r. induction r as [|y r IH]; intros x; [cbn; ring|]. change (combine (x :: y :: r) ((y :: r) ++ [a])) with ((x, y) :: combine (y :: r) (r ++ [a])).
    change (combine (x :: y :: r) (y :: r)) with ((x, y) :: combine (y :: r) r). cbn [sumOver]. rewrite IH. change (last (x :: y :: r) a) with (last (y :: r) a). ring. }
  apply G.
Qed.
Theorem C230_close : forall th pl c, thr_ok th -> (2 <= length (plPts pl))%nat -> plConvert th (fun x => x) pl = Ok c ->
  plPts c = plPts pl /\ exists lo lc c1 c2, plLength th false (plFresh (plPts pl)) = Ok (lo, c1) /\ plLength th true c = Ok (lc, c2) /\
    lc = lo + edist (last (plPts pl) (mkPt 0 0)) (hd (mkPt 0 0) (plPts pl)).
Proof.
  intros th pl c Ht L H. unfold plConvert in H. apply bind_ok in H. destruct H as (d & Hd & H). injection H as <-.
  assert (Hp : plPts d = plPts pl /\ plCheck th (plPts pl) = true).
  { unfold plSet in Hd. destruct (length (plPts pl) =? 1)%nat eqn:E1; [discriminate|]. assert (E2 : (1 <? length (plPts pl))%nat = true) by (apply Nat.ltb_lt; lia). rewrite E2 in Hd. cbn [andb] in Hd.
    destruct (plCheck th (plPts pl)); [|discriminate]. injection Hd as <-. split; reflexivity. }
  destruct Hp as (Hp & K). rewrite Hp. assert (M : map (ptConvert (fun x : R => x)) (plPts pl) = plPts pl) by (rewrite <- (map_id (plPts pl)) at 2; apply map_ext; now intros [x y]).
  cbn [plPts plFresh]. rewrite M. split; [reflexivity|].
  assert (S : forall closed e, In e (sides closed (plPts pl)) -> nullDistance th <= edist (fst e) (snd e)).
  { unfold plCheck in K. apply andb_true_iff in K. destruct K as [K1 K2]. apply negb_true_iff in K2. apply ptEq_false in K2. destruct (plPts pl) as [|a r]; [cbn in L; lia|].
    assert (O : forall e, In e (sides false (a :: r)) -> nullDistance th <= edist (fst e) (snd e)).
    { clear - K1. revert a K1. induction r as [|b r IH]; intros a K1 e He; [cbn in He; destruct He|]. cbn [noConsecEq] in K1. apply andb_true_iff in K1. destruct K1 as [A B].
      change (sides false (a :: b :: r)) with ((a, b) :: sides false (b :: r)) in He. destruct He as [<-|He]; [cbn [fst snd]; apply negb_true_iff in A; now apply ptEq_false in A|now apply (IH b B)]. }
    intros [|] e He; [|now apply O]. assert (G : forall r x, In e (combine (x :: r) (r ++ [a])) -> In e (combine (x :: r) r) \/ e = (last (x :: r) a, a)).
    { clear. induction r as [|y r IH]; intros x H; [cbn in H; destruct H as [<-|[]]; now right|]. change (combine (x :: y :: r) ((y :: r) ++ [a])) with ((x, y) :: combine (y :: r) (r ++ [a])) in H.
      destruct H as [<-|H]; [left; left; reflexivity|]. destruct (IH y H) as [I|I]; [left; right; exact I|right; exact I]. }
    destruct (G r a He) as [I| ->]; [now apply O|]. cbn [fst snd]. cbn [hd] in K2. rewrite edist_sym. replace (last (a :: r) a) with (last (a :: r) pt00); [exact K2|].
    clear. destruct r as [|b r]; [reflexivity|]. change (last (b :: r) pt00 = last (b :: r) a). revert b. induction r as [|c r IH]; intros b; [reflexivity|apply (IH c)]. }
  unfold plLength. cbn [plLen plFresh plPts]. rewrite !lengthCalc_ok by (auto; apply S). cbn [bind]. do 4 eexists. split; [reflexivity|]. split; [reflexivity|].
  destruct (plPts pl) as [|a r]; [cbn in L; lia|]. rewrite sides_closed_sum. cbn [hd fst snd]. f_equal. f_equal.
  clear. destruct r as [|b r]; [reflexivity|]. change (last (b :: r) a = last (b :: r) (mkPt 0 0)). revert b. induction r as [|c r IH]; intros b; [reflexivity|apply (IH c)].
Qed.
Print Assumptions C230_close.
Example C230_ex : exists pl c, plOfSeg (thr0 (T := R)) (mkSeg (mkPt 0 0) (mkPt 3 4)) = Ok pl /\ plConvert thr0 (fun x => x) (plFresh [mkPt 0 0; mkPt 3 0; mkPt 3 4]) = Ok c /\
  plPts c = [mkPt 0 0; mkPt 3 0; mkPt 3 4].
Proof.
  assert (D : forall x y u v d, 1 <= d -> d * d = (x - u) * (x - u) + (y - v) * (y - v) -> ptEq thr0 (mkPt x y) (mkPt u v) = false).
  { intros x y u v d Hd H. apply ptEq_false. unfold edist. cbn [px py]. unfold Rsqr. rewrite <- H, sqrt_square by lra. unfold thr0. cbn [nullDistance]. rnum. lra. }
  exists (plFresh [mkPt 0 0; mkPt 3 4]), (plFresh (map (ptConvert (fun x => x)) [mkPt 0 0; mkPt 3 0; mkPt 3 4])). split; [|split; [|reflexivity]].
  - unfold plOfSeg. change (plAddPoint thr0 plEmpty (sA (mkSeg (mkPt 0 0) (mkPt 3 4)))) with (Ok (plFresh [mkPt (T := R) 0 0])). cbn [bind]. unfold plAddPoint. cbn [plPts plFresh last app sB].
    now rewrite (D 3 4 0 0 5) by lra.
  - unfold plConvert, plSet. cbn [plPts plFresh length Nat.eqb Nat.ltb Nat.leb andb]. unfold plCheck. cbn [noConsecEq hd last].
    rewrite (D 0 0 3 0 3), (D 3 0 3 4 4), (D 0 0 3 4 5) by lra. reflexivity.
Qed.

(** ** C231: conversion to a narrower type *)

(** Binary32 numbers between 2^23 and 2^24 are the integers: what any rounding to binary32 does there. *)
Definition narrow (cvt : R -> R) : Prop := forall x, 8388608 <= x <= 16777216 -> exists z, cvt x = IZR z /\ Rabs (x - IZR z) <= / 2.
(** Full statement: a polyline, a segment or a rectangle converted to another numerical type is one that the constructors of
    this type accept.  False: the checks are done on the values before the conversion. *)
Lemma narrow_to cvt x : narrow cvt -> 8388608 < x < 8388608 + / 2 -> cvt x = 8388608.
Proof.
  intros H Hx. destruct (H x) as (z & -> & B); [lra|]. assert (z = 8388608%Z); [|now subst].
  assert (B1 : x - IZR z <= / 2) by (eapply Rle_trans; [apply Rle_abs|exact B]). assert (B2 : - (x - IZR z) <= / 2) by (eapply Rle_trans; [apply Rle_abs|rewrite Rabs_Ropp; exact B]).
  assert (IZR 8388607 < IZR z) by lra. assert (IZR z < IZR 8388609) by lra. apply lt_IZR in H0, H1. lia.
Qed.
Lemma w231_far x y u v d : 1 / 8 <= d -> d * d = (x - u) * (x - u) + (y - v) * (y - v) -> ptEq (thr0 (T := R)) (mkPt x y) (mkPt u v) = false.
Proof. intros Hd H. apply ptEq_false. unfold edist. cbn [px py]. unfold Rsqr. rewrite <- H, sqrt_square by lra. unfold thr0. cbn [nullDistance]. rnum. lra. Qed.
Theorem C231_refuted : forall cvt, narrow cvt ->
  (exists pl c, plSet thr0 (plPts pl) = Ok pl /\ plConvert thr0 cvt pl = Ok c /\ plSet thr0 (plPts c) = Throw /\ plSegs thr0 false KSeg (plPts c) = Throw /\ plLength thr0 false c = Throw) /\
  (exists p q s, svNew thr0 KSeg p q = Ok s /\ svLine thr0 (svConvertNum cvt KSeg s) = Throw) /\
  (exists p q r, frSet thr0 p q = Ok r /\ frSet thr0 (r1 (frConvert cvt r)) (r2 (frConvert cvt r)) = Throw).
Proof.
  intros cvt H. set (a := mkPt (8388608 + 1 / 8) (8388608 + 1 / 8)). set (b := mkPt (8388608 + 1 / 4) (8388608 + 1 / 8)). set (c := mkPt (8388608 + 1 / 8) 9000000).
  set (d := mkPt (8388608 + 1 / 4) (8388608 + 1 / 4)).
  assert (Ea : ptConvert cvt a = mkPt 8388608 8388608) by (unfold ptConvert, a; cbn [px py]; rewrite !(narrow_to cvt _ H) by lra; reflexivity).
  assert (Eb : ptConvert cvt b = mkPt 8388608 8388608) by (unfold ptConvert, b; cbn [px py]; rewrite !(narrow_to cvt _ H) by lra; reflexivity).
  assert (Ed : ptConvert cvt d = mkPt 8388608 8388608) by (unfold ptConvert, d; cbn [px py]; rewrite !(narrow_to cvt _ H) by lra; reflexivity).
  assert (Q : forall p, ptEq thr0 p p = true) by (intros p; apply ptEq_refl; apply thr0_ok).
  assert (Nab : ptEq thr0 a b = false) by (apply (w231_far _ _ _ _ (1 / 8)); lra).
  split; [|split].
  - assert (Nca : ptEq thr0 c a = false) by (apply (w231_far _ _ _ _ (9000000 - (8388608 + 1 / 8))); lra).
    assert (Ncb : ptEq thr0 c b = false).
    { apply ptEq_false. eapply Rle_trans with (9000000 - (8388608 + 1 / 8)); [unfold thr0; cbn [nullDistance]; rnum; lra|]. unfold edist, c, b. cbn [px py]. rewrite <- (sqrt_Rsqr (9000000 - (8388608 + 1 / 8))) at 1 by lra.
      apply sqrt_le_1_alt. pose proof (Rle_0_sqr (8388608 + 1 / 8 - (8388608 + 1 / 4))). lra. }
    exists (plFresh [c; a; b]), (plFresh (map (ptConvert cvt) [c; a; b])).
    assert (S : plSet thr0 [c; a; b] = Ok (plFresh [c; a; b])).
    { unfold plSet. cbn [length Nat.eqb Nat.ltb Nat.leb andb]. unfold plCheck. cbn [noConsecEq hd last]. rewrite Nca, Nab, Ncb. reflexivity. }
    cbn [plPts plFresh]. split; [exact S|]. split; [unfold plConvert; cbn [plPts plFresh]; rewrite S; reflexivity|]. cbn [map]. rewrite Ea, Eb.
    assert (G : plSegs thr0 false KSeg [ptConvert cvt c; mkPt 8388608 8388608; mkPt 8388608 8388608] = Throw).
    { apply (plSegs_throw thr0 false KSeg _ (mkPt 8388608 8388608, mkPt 8388608 8388608)); [cbn [length]; lia|right; left; reflexivity|]. cbn [fst snd]. apply ptEq_spec. apply Q. }
    split; [|split; [exact G|unfold plLength; cbn [plLen plFresh plPts]; unfold lengthCalc; rewrite G; reflexivity]].
    unfold plSet. cbn [length Nat.eqb Nat.ltb Nat.leb andb]. unfold plCheck. cbn [noConsecEq]. rewrite Q. cbn [negb andb]. now rewrite andb_false_r.
  - exists a, b, (segOrder (mkSeg a b)). split; [unfold svNew; now rewrite Nab|].
    assert (O : forall p q : pt R, segOrder (mkSeg p q) = mkSeg p q \/ segOrder (mkSeg p q) = mkSeg q p) by (intros p q; unfold segOrder, fixOrder; cbn [sA sB]; destruct (ptLt p q); auto).
    unfold svLine, svConvertNum, svConvert. destruct (O a b) as [-> | ->]; cbn [sA sB]; rewrite Ea, Eb; destruct (O (mkPt 8388608 8388608) (mkPt 8388608 8388608)) as [-> | ->]; cbn [sA sB]; unfold lineOf; now rewrite Q.
  - exists a, d, (mkR a d).
    assert (M : mkPt (nmin (px a) (px d)) (nmin (py a) (py d)) = a /\ mkPt (nmax (px a) (px d)) (nmax (py a) (py d)) = d).
    { unfold nmin, nmax, a, d. cbn [px py]. rnum. rewrite (proj2 (Rltb_false (8388608 + 1 / 4) (8388608 + 1 / 8))), (proj2 (Rltb_spec (8388608 + 1 / 8) (8388608 + 1 / 4))) by lra. split; reflexivity. }
    split.
    + unfold frSet. rewrite (proj1 M), (proj2 M). assert (S : shareCoord thr0 a d = false); [|now rewrite S].
      unfold shareCoord, a, d. cbn [px py]. rnum. rewrite !(proj2 (Rltb_false _ _)); [reflexivity|]; rewrite Rabs_left by lra; unfold thr0; cbn [nullOrthogDistance]; rnum; lra.
    + unfold frConvert. cbn [r1 r2]. rewrite Ea, Ed. unfold frSet, shareCoord. cbn [px py]. rnum. rewrite (proj2 (Rltb_spec _ _)); [reflexivity|]. rewrite Rminus_eq_0, Rabs_R0. unfold thr0; cbn [nullOrthogDistance]; rnum; lra.
Qed.
Print Assumptions C231_refuted.
Example C231_ex : narrow (fun x => IZR (Int_part (x + / 2))).
Proof.
  intros x _. exists (Int_part (x + / 2)). split; [reflexivity|]. destruct (base_Int_part (x + / 2)) as [A B]. apply Rabs_le. lra.
Qed.

(** ** C232: what conversions keep *)

(** With a conversion that is monotone and changes values by at most [d]: rectangles keep the order of their corners and
    their sizes up to [2*d]; polylines whose contiguous points are further apart than the threshold plus [4*d] stay valid. *)
Definition within (d : R) (cvt : R -> R) : Prop := (forall x y, x <= y -> cvt x <= cvt y) /\ forall x, Rabs (cvt x - x) <= d.
Theorem C232_rect : forall d cvt r, within d cvt -> px (r1 r) <= px (r2 r) -> py (r1 r) <= py (r2 r) ->
  let c := frConvert cvt r in px (r1 c) <= px (r2 c) /\ py (r1 c) <= py (r2 c) /\
  Rabs ((px (r2 c) - px (r1 c)) - (px (r2 r) - px (r1 r))) <= 2 * d /\ Rabs ((py (r2 c) - py (r1 c)) - (py (r2 r) - py (r1 r))) <= 2 * d.
Proof.
  intros d cvt [[x1 y1] [x2 y2]] (M & B) Hx Hy. cbn [frConvert ptConvert r1 r2 px py] in *.
  assert (G : forall x y, Rabs ((cvt y - cvt x) - (y - x)) <= 2 * d).
  { intros x y. replace ((cvt y - cvt x) - (y - x)) with ((cvt y - y) + - (cvt x - x)) by ring. eapply Rle_trans; [apply Rabs_triang|]. rewrite Rabs_Ropp. pose proof (B x). pose proof (B y). lra. }
  auto.
Qed.
Print Assumptions C232_rect.
Lemma cvt_edist d cvt p : within d cvt -> edist p (ptConvert cvt p) <= 2 * d.
Proof.
  intros (_ & B). destruct p as [x y]. unfold edist, ptConvert. cbn [px py]. pose proof (B x) as X. pose proof (B y) as Y. pose proof (Rabs_pos (cvt x - x)).
  apply Rle_trans with (sqrt (Rsqr (2 * d))); [|rewrite sqrt_Rsqr by lra; lra]. apply sqrt_le_1_alt.
  assert (U : forall z, Rabs (cvt z - z) <= d -> Rsqr (z - cvt z) <= Rsqr d) by (intros z Z; rewrite Rsqr_neg_minus; apply Rsqr_le_abs_1; rewrite (Rabs_right d) by lra; exact Z).
  pose proof (U x X). pose proof (U y Y). pose proof (Rle_0_sqr d). unfold Rsqr in *. lra.
Qed.
Lemma combine_sub (a : pt R) : forall r x e, In e (combine (x :: r) r) -> In e (combine (x :: r) (r ++ [a])).
Proof.
  induction r as [|b r IH]; intros x e H; [destruct H|]. change (combine (x :: b :: r) ((b :: r) ++ [a])) with ((x, b) :: combine (b :: r) (r ++ [a])).
  change (combine (x :: b :: r) (b :: r)) with ((x, b) :: combine (b :: r) r) in H. destruct H as [<-|H]; [left; reflexivity|right; now apply IH].
Qed.
Lemma combine_last (a : pt R) : forall r x, In (last (x :: r) a, a) (combine (x :: r) (r ++ [a])).
Proof.
  induction r as [|b r IH]; intros x; [left; reflexivity|].
  change (combine (x :: b :: r) ((b :: r) ++ [a])) with ((x, b) :: combine (b :: r) (r ++ [a])). right. change (last (x :: b :: r) a) with (last (b :: r) a). apply IH.
Qed.
Theorem C232_polyline : forall th d cvt pl, thr_ok th -> within d cvt -> (2 <= length (plPts pl))%nat ->
  (forall e, In e (sides true (plPts pl)) -> nullDistance th + 4 * d <= edist (fst e) (snd e)) ->
  exists c, plConvert th cvt pl = Ok c /\ plSet th (plPts c) = Ok c /\ length (plPts c) = length (plPts pl) /\
    forall i, (i < length (plPts pl))%nat -> edist (nth i (plPts pl) (mkPt 0 0)) (nth i (plPts c) (mkPt 0 0)) <= 2 * d.
Proof.
  intros th d cvt pl Ht W L S. assert (D0 : 0 <= d) by (pose proof (proj2 W 0) as B; pose proof (Rabs_pos (cvt 0 - 0)); lra).
  assert (A : forall f : pt R -> pt R, (forall p q, nullDistance th + 4 * d <= edist p q -> nullDistance th <= edist (f p) (f q)) -> plCheck th (map f (plPts pl)) = true).
  { intros f F. destruct (plPts pl) as [|a r]; [cbn in L; lia|]. unfold plCheck. apply andb_true_iff. split.
    - assert (O : forall e, In e (sides false (a :: r)) -> nullDistance th + 4 * d <= edist (fst e) (snd e)).
      { intros e He. apply S. now apply combine_sub. }
      clear S L. revert a O. induction r as [|b r IH]; intros a O; [reflexivity|]. cbn [map noConsecEq]. apply andb_true_iff. split.
      + apply negb_true_iff, ptEq_false, F. apply (O (a, b)). left. reflexivity.
      + apply (IH b). intros e He. apply O. right. exact He.
    - apply negb_true_iff, ptEq_false. cbn [map hd]. assert (Z : last (f a :: map f r) pt00 = f (last (a :: r) a)).
      { clear. destruct r as [|b r]; [reflexivity|]. change (last (map f (b :: r)) pt00 = f (last (b :: r) a)). revert b. induction r as [|c r IH]; intros b; [reflexivity|apply (IH c)]. }
      rewrite Z. apply F. rewrite edist_sym. apply (S (last (a :: r) a, a)). apply combine_last. }
  assert (K0 : plCheck th (plPts pl) = true) by (rewrite <- (map_id (plPts pl)); apply A; intros p q H; lra).
  assert (K1 : plCheck th (map (ptConvert cvt) (plPts pl)) = true).
  { apply A. intros p q H. pose proof (cvt_edist d cvt p W). pose proof (cvt_edist d cvt q W). pose proof (edist_triang p (ptConvert cvt p) q). pose proof (edist_triang (ptConvert cvt p) (ptConvert cvt q) q).
    rewrite (edist_sym (ptConvert cvt q) q) in H3. lra. }
  assert (G : forall l : list (pt R), length l = length (plPts pl) -> plCheck th l = true -> plSet th l = Ok (plFresh l)).
  { intros l Hl K. unfold plSet. rewrite Hl, K. destruct (Nat.eqb_spec (length (plPts pl)) 1); [lia|]. now rewrite andb_false_r. }
  exists (plFresh (map (ptConvert cvt) (plPts pl))). cbn [plPts plFresh]. split; [unfold plConvert; rewrite (G _ eq_refl K0); reflexivity|]. split; [apply G; [apply map_length|exact K1]|].
  split; [apply map_length|]. intros i Hi. rewrite (nth_indep (map _ _) _ (ptConvert cvt (mkPt 0 0))) by (rewrite map_length; exact Hi). rewrite map_nth. apply (cvt_edist d cvt _ W).
Qed.
Print Assumptions C232_polyline.
Example C232_ex : let cvt := fun x => IZR (Int_part (x + / 2)) in within (/ 2) cvt /\
  forall e, In e (sides true [mkPt 0 0; mkPt 5 0; mkPt 5 12]) -> nullDistance thr0 + 4 * / 2 <= edist (fst e) (snd e).
Proof.
  split; [split|].
  - intros x y H. apply IZR_le. destruct (base_Int_part (x + / 2)) as [A B], (base_Int_part (y + / 2)) as [C D].
    destruct (Z_le_gt_dec (Int_part (x + / 2)) (Int_part (y + / 2))) as [|G]; [assumption|]. apply Z.gt_lt, Zlt_le_succ, IZR_le in G. rewrite succ_IZR in G. lra.
  - intros x. destruct (base_Int_part (x + / 2)) as [A B]. apply Rabs_le. lra.
  - assert (E : forall x y u v w, 3 <= w -> w * w = (x - u) * (x - u) + (y - v) * (y - v) -> nullDistance thr0 + 4 * / 2 <= edist (mkPt x y) (mkPt u v)).
    { intros x y u v w Hw H. unfold edist. cbn [px py]. unfold Rsqr. rewrite <- H, sqrt_square by lra. unfold thr0. cbn [nullDistance]. rnum. lra. }
    intros e [<-|[<-|[<-|[]]]]; cbn [fst snd]; [apply (E _ _ _ _ 5)|apply (E _ _ _ _ 12)|apply (E _ _ _ _ 13)]; lra.
Qed.

(** ** C233: homographies from vectors of vectors *)

(** Accepted exactly if there are three rows of three values and the last value is not null up to the threshold; the
    stored matrix is, element by element, the given one divided by its last value. *)
Theorem C233_rows : forall th rows, thr_ok th ->
  ((exists o, hOfRows th rows = Ok o) <-> length rows = 3%nat /\ (forall li, In li rows -> length li = 3%nat) /\ nullDenom th <= Rabs (nth 2 (nth 2 rows []) 0)) /\
  ((forall o, hOfRows th rows <> Ok o) -> hOfRows th rows = Throw) /\
  forall o, hOfRows th rows = Ok o -> isNorm o = true /\
    forall i j, (i < 3)%nat -> (j < 3)%nat -> matGet (hm o) i j = Ok (nth j (nth i rows []) 0 / nth 2 (nth 2 rows []) 0).
Proof.
  intros th rows Ht. unfold hOfRows. destruct (Nat.eqb_spec (length rows) 3) as [L|L]; cbn [negb].
  2: { split; [split; [intros (o & E); discriminate|intros (A & _); now elim L]|]. split; [reflexivity|discriminate]. }
  destruct (forallb (fun li => (length li =? 3)%nat) rows) eqn:F; cbn [negb].
  2: { split; [split; [intros (o & E); discriminate|intros (_ & A & _)]|split; [reflexivity|discriminate]].
       exfalso. assert (forallb (fun li : list R => (length li =? 3)%nat) rows = true); [|congruence]. apply forallb_forall. intros li Hl. apply Nat.eqb_eq. now apply A. }
  assert (F' : forall li, In li rows -> length li = 3%nat) by (intros li Hl; rewrite forallb_forall in F; apply Nat.eqb_eq, F, Hl).
  set (m := mkM _ _ _ _ _ _ _ _ _). assert (E22 : m22 m = nth 2 (nth 2 rows []) 0) by reflexivity. rewrite <- E22. unfold hOfMat, hNormalize. cbn [hm].
  destruct (Rlt_le_dec (Rabs (m22 m)) (nullDenom th)) as [C|C].
  - rewrite (proj2 (matNormalize_throw th m) C). cbn [bind]. split; [split; [intros (o & E); discriminate|intros (_ & _ & A); lra]|]. split; [reflexivity|discriminate].
  - destruct (matNormalize_ok th m Ht C) as [-> Nz]. cbn [bind]. split; [split; [auto|eauto]|]. split; [intros K; now elim (K _ eq_refl)|].
    intros o E. injection E as <-. split; [reflexivity|]. intros i j Hi Hj. cbn [hm].
    destruct i as [|[|[|i]]]; try lia; (destruct j as [|[|[|j]]]; try lia); unfold scaleM, matMap, matGet; cbn [m00 m01 m02 m10 m11 m12 m20 m21 m22]; f_equal; unfold m; cbn [m00 m01 m02 m10 m11 m12 m20 m21 m22]; unfold Rdiv; rnum; ring.
Qed.
Print Assumptions C233_rows.
Example C233_ex : (exists o, hOfRows thr0 [[2; 0; 6]; [0; 2; 8]; [0; 0; 2]] = Ok o) /\ hOfRows thr0 [[1; 0]; [0; 1; 0]; [0; 0; 1]] = Throw /\ hOfRows thr0 [[1; 0; 0]; [0; 1; 0]] = Throw.
Proof.
  split; [|split; reflexivity]. apply C233_rows; [apply thr0_ok|]. split; [reflexivity|]. split; [intros li [<-|[<-|[<-|[]]]]; reflexivity|].
  cbn [nth]. rewrite Rabs_right by lra. unfold thr0. cbn [nullDenom]. rnum. lra.
Qed.
