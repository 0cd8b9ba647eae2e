(** * Proofs about homographies: line images, histories, chains, equality, threads *)

From Coq Require Import Reals ZArith List Bool Lra Lia Psatz.
From Verif Require Import Num M_LP M_Homogr S_Geom S_Homogr P_LP P_LP2 P_LP3 P_LP5 P_Homogr.
Import ListNotations.
Local Open Scope R_scope.
Implicit Types (th : thrs R) (l : line R) (p q : pt R) (h u v : hpt R) (m a b : mat R) (o c : hobj R).

(** ** Line product *)

(** Result of H*line computed from the matrix alone. *)
Definition freshLine th m l : res (line R) := do mi <- freshHmt th m; lnorm th (matMulL mi l).

Lemma hInverse_copy th o1 o2 : hm o1 = hm o2 ->
  fst (hInverse th o1) = fst (hInverse th o2) /\ hm (snd (hInverse th o1)) = hm (snd (hInverse th o2)).
Proof.
  intros E. unfold hInverse, hNormalize. rewrite E. destruct (matInverse th (hm o2)); cbn [fst snd hm hmt]; auto.
  destruct (matNormalize th a); cbn [bind fst snd hm]; auto.
Qed.
Lemma freshHmt_copy th o : freshHmt th (hm o) = match hInverse th (hCopy o) with
  | (Ok _, hi) => Ok (matTranspose (hm hi)) | (Throw, _) => Throw | (Undef, _) => Undef end.
Proof.
  unfold freshHmt. destruct (hInverse_copy th (mkHobj (hm o) false true None) (hCopy o) eq_refl) as [A B].
  destruct (hInverse th (mkHobj (hm o) false true None)) as [[?| |] ?], (hInverse th (hCopy o)) as [[?| |] ?];
    cbn [fst snd] in *; try discriminate; congruence.
Qed.

(** The cache is coherent: not allocated, or marked out of date, or right. *)
Definition coherent th o : Prop :=
  hmt o = None \/ hasChanged o = true \/ (exists mi, hmt o = Some mi /\ freshHmt th (hm o) = Ok mi).

Lemma hApplyLine_fresh th o l : coherent th o ->
  fst (hApplyLine th o l) = freshLine th (hm o) l /\ coherent th (snd (hApplyLine th o l))
  /\ hm (snd (hApplyLine th o l)) = hm o.
Proof.
  intros H. unfold hApplyLine, freshLine.
  set (o1 := match hmt o with None => _ | Some _ => o end).
  assert (H1 : hm o1 = hm o /\ coherent th o1 /\ hmt o1 <> None).
  { unfold o1. destruct (hmt o) eqn:E.
    - repeat split; auto. congruence.
    - cbn [hm hmt]. repeat split; [|discriminate]. right; left; reflexivity. }
  destruct H1 as (Em & Hc & Hn). clearbody o1. rewrite <- Em. clear H Em o.
  destruct (hasChanged o1) eqn:Eh.
  - pose proof (freshHmt_copy th o1) as F. rewrite F.
    destruct (hInverse th (hCopy o1)) as [[?| |] hi] eqn:Ei; cbn [fst snd hm bind]; repeat split; auto.
    right; right. cbn [hm hmt]. rewrite F. eauto.
  - destruct Hc as [C|[C|(mi & A & B)]]; try congruence.
    rewrite A, B. cbn [fst snd bind]. repeat split. right; right. eauto.
Qed.

(** Incidence of the images. *)
Lemma freshLine_incidence th m l l' h : thr_ok th -> freshLine th m l = Ok l' -> zoneFree th (imageLine m l) ->
  (onLH l' (matMulH m h) <-> onLH l h).
Proof.
  intros Hth H Z. unfold freshLine in H. apply bind_ok in H. destruct H as (mi & Hi & Hl).
  destruct (freshHmt_inv th m mi Hth Hi) as (k & Hk & Hd & E). rewrite E in Hl.
  rewrite (lnorm_onLH th _ _ _ Hth Hl (zoneFree_scale th k _ Hk Z)).
  rewrite (onLH_scale k _ _ Hk), imageLine_incidence. unfold onLH. split; intros A.
  - apply Rmult_integral in A. tauto.
  - rewrite A. ring.
Qed.
Lemma onLH_pt l h p : ptOfH h = Ok p -> (onLH l h <-> onL l p).
Proof.
  intros H. destruct (ptOfH_inv h p H) as [N ->]. unfold onLH, onL, scaleH, hOfPt; cbn [h0 h1 h2]; rnum.
  match goal with |- context [mkH ?a ?b ?c] => idtac | _ => idtac end.
  set (w := h2 h) in *. cbn [h0 h1 h2].
  replace (la l * (w * px p) + lb l * (w * py p) + lc l * (w * 1)) with (w * (la l * px p + lb l * py p + lc l)) by ring.
  split; [intros A; apply Rmult_integral in A; tauto|intros ->; ring].
Qed.
Lemma freshLine_image th m l l' p q : thr_ok th -> freshLine th m l = Ok l' -> zoneFree th (imageLine m l) ->
  isImage m p q -> (onL l' q <-> onL l p).
Proof.
  intros Hth H Z Hq. apply ptOfH_image in Hq.
  rewrite <- (onLH_pt l' _ q Hq), <- (onLH_pt l (hOfPt p) p (ptOfH_of p)).
  now apply (freshLine_incidence th).
Qed.
Lemma freshLine_unit th m l l' : thr_ok th -> freshLine th m l = Ok l' -> unitL l'.
Proof.
  intros Hth H. unfold freshLine in H. apply bind_ok in H. destruct H as (mi & _ & Hl). apply (lnorm_unit th _ _ Hth Hl).
Qed.

(** Two proper lines sharing two distinct points are the same set. *)
Lemma two_points_same (l k : line R) p q : proper l -> proper k -> p <> q ->
  onL l p -> onL l q -> onL k p -> onL k q -> sameLine l k.
Proof.
  intros Hl Hk Hpq A B C D.
  assert (Z : la l * lb k - lb l * la k = 0).
  { destruct (Req_dec (la l * lb k - lb l * la k) 0) as [E|E]; auto. exfalso. apply Hpq.
    apply (cross_unique l k p q E); auto. }
  assert (K : exists s, s <> 0 /\ la k = s * la l /\ lb k = s * lb l).
  { destruct (Req_dec (la l) 0) as [E|E].
    - destruct Hl as [Hl|Hl]; [contradiction|]. exists (lb k / lb l).
      rewrite E in Z. assert (la k = 0). { assert (lb l * la k = 0) by lra. apply Rmult_integral in H. tauto. }
      destruct Hk as [Hk|Hk]; [contradiction|]. repeat split.
      + unfold Rdiv. apply Rmult_integral_contrapositive_currified; auto. now apply Rinv_neq_0_compat.
      + rewrite E, H. ring.
      + field; auto.
    - exists (la k / la l). assert (lb k = la k / la l * lb l) by (apply (Rmult_eq_reg_l (la l)); auto; field_simplify; auto; lra).
      repeat split; auto; [|field; auto]. intros S. assert (la k = 0).
      { replace (la k) with (la k / la l * la l) by (field; auto). rewrite S. ring. }
      rewrite S in H. destruct Hk; lra. }
  destruct K as (s & Hs & Ea & Eb). unfold onL in *.
  assert (Ec : lc k = s * lc l) by (rewrite Ea, Eb in C; nra).
  intros r. unfold onL. rewrite Ea, Eb, Ec.
  replace (s * la l * px r + s * lb l * py r + s * lc l) with (s * (la l * px r + lb l * py r + lc l)) by ring.
  split; [intros ->; ring|intros E; apply Rmult_integral in E; tauto].
Qed.
(** The image of the join is the join of the images. *)
Lemma image_of_join th m p q p' q' l l' k : thr_ok th -> lineOf th p q = Ok l -> dirOK th p q ->
  freshLine th m l = Ok l' -> zoneFree th (imageLine m l) ->
  isImage m p p' -> isImage m q q' -> lineOf th p' q' = Ok k -> dirOK th p' q' -> sameLine l' k.
Proof.
  intros Hth Hl D Hl' Z Ip Iq Hk D'.
  destruct (lineOf_on th p q l Hth Hl D) as [A B]. destruct (lineOf_on th p' q' k Hth Hk D') as [A' B'].
  apply (two_points_same l' k p' q'); auto.
  - apply unit_proper, (freshLine_unit th m l); auto.
  - apply unit_proper, (lineOf_proper th p' q' k); auto.
  - intros E. apply lineOf_inv in Hk. destruct Hk as [Hk _]. rewrite E, edist_refl in Hk.
    pose proof (thr_dist th Hth). lra.
  - apply (freshLine_image th m l l' p p'); auto.
  - apply (freshLine_image th m l l' q q'); auto.
Qed.

(** ** Histories *)

(** Static view of a history: [primed] = a line product has happened; [stale] = the matrix has been
    modified since by an operation that does not record the change. *)
Definition untracked th o (op : hop R) : bool :=
  match op with
  | OpInit | OpTranspose | OpSet _ _ _ => true
  | OpInverse => match matInverse th (hm o) with
                 | Ok mi => negb (isOk (matNormalize th mi))
                 | _ => false
                 end
  | _ => false
  end.
(** The operation completed and recorded a change. *)
Definition tracked th o (op : hop R) : bool :=
  match op with
  | OpSetTranslation _ _ | OpSetRotation _ | OpSetScale _ _ | OpAssign _ => true
  | OpAddTranslation a b => isOk (hAddTranslation th o a b)
  | OpAddRotation a => isOk (hAddRotation th o a)
  | OpAddScale a b => isOk (hAddScale th o a b)
  | OpInverse => isOk (fst (hInverse th o))
  | OpNormalize => isOk (hNormalize th o)
  | _ => false
  end.
Fixpoint noStaleUse th o (primed stale : bool) (ops : list (hop R)) : Prop :=
  match ops with
  | [] => True
  | op :: r =>
      match op with
      | OpApplyLine _ => stale = false /\ noStaleUse th (hStep th o op) true false r
      | _ => noStaleUse th (hStep th o op) primed
               (if tracked th o op then false else stale || (primed && untracked th o op)) r
      end
  end.

Definition histInv th o (primed stale : bool) : Prop :=
  (primed = false -> hmt o = None) /\ (stale = false -> coherent th o).

Lemma hAdd_keep th o r : (r = Throw \/ r = Undef \/ exists o', r = Ok o' /\ hasChanged o' = true /\ hmt o' = hmt o) ->
  hmt (keep o r) = hmt o /\ (isOk r = true -> hasChanged (keep o r) = true) /\ (isOk r = false -> keep o r = o).
Proof.
  intros [->|[->|(o' & -> & A & B)]]; cbn [keep isOk]; auto; repeat split; auto; discriminate.
Qed.
Lemma hAdd_case o (r : res (hobj R)) :
  let x := (do y <- r; Ok (hAssign o y)) in
  x = Throw \/ x = Undef \/ exists o', x = Ok o' /\ hasChanged o' = true /\ hmt o' = hmt o.
Proof. destruct r; cbn [bind]; auto. right; right. eexists; split; eauto. Qed.
Lemma hNormalize_case th o :
  hNormalize th o = Throw \/ hNormalize th o = Undef \/
  exists o', hNormalize th o = Ok o' /\ hasChanged o' = true /\ hmt o' = hmt o.
Proof. unfold hNormalize. destruct (matNormalize th (hm o)); cbn [bind]; auto. right; right. eexists; split; eauto. Qed.

Lemma hStep_inv th o op primed stale : (forall l, op <> OpApplyLine l) -> histInv th o primed stale ->
  histInv th (hStep th o op) primed (if tracked th o op then false else stale || (primed && untracked th o op)).
Proof.
  intros Hop [Hp Hs].
  (* generic finishing arguments *)
  assert (CH : forall o', hasChanged o' = true -> hmt o' = hmt o -> histInv th o' primed
              (if tracked th o op then false else stale || (primed && untracked th o op))).
  { intros o' A B. split; [intros; rewrite B; auto|intros; right; left; auto]. }
  assert (UN : forall o', hmt o' = hmt o -> untracked th o op = true -> tracked th o op = false -> histInv th o' primed
              (if tracked th o op then false else stale || (primed && untracked th o op))).
  { intros o' A B C. rewrite B, C. split; [intros; rewrite A; auto|].
    intros S. destruct stale, primed; try discriminate. left. rewrite A. auto. }
  assert (ID : tracked th o op = false -> histInv th o primed
              (if tracked th o op then false else stale || (primed && untracked th o op))).
  { intros C. rewrite C. split; auto. intros S. apply Hs. destruct stale; auto. }
  destruct op; cbn [hStep]; try (now apply CH); try (now apply UN).
  - destruct (hAdd_keep th o _ (hAdd_case o (hMul th (hSetTranslation hNew tx ty) o))) as (A & B & C).
    fold (hAddTranslation th o tx ty) in *.
    destruct (isOk (hAddTranslation th o tx ty)) eqn:E; [apply CH; auto|].
    rewrite C by auto. apply ID. exact E.
  - destruct (hAdd_keep th o _ (hAdd_case o (hMul th (hSetRotation hNew t) o))) as (A & B & C).
    fold (hAddRotation th o t) in *.
    destruct (isOk (hAddRotation th o t)) eqn:E; [apply CH; auto|].
    rewrite C by auto. apply ID. exact E.
  - destruct (hAdd_keep th o _ (hAdd_case o (hMul th (hSetScale hNew kx ky) o))) as (A & B & C).
    fold (hAddScale th o kx ky) in *.
    destruct (isOk (hAddScale th o kx ky)) eqn:E; [apply CH; auto|].
    rewrite C by auto. apply ID. exact E.
  - (* inverse *)
    cbn [tracked untracked] in *. unfold hInverse in *.
    destruct (matInverse th (hm o)) as [mi| |]; cbn [fst snd isOk] in *; auto.
    unfold hNormalize in *; cbn [hm hmt] in *.
    destruct (matNormalize th mi); cbn [bind fst snd isOk negb] in *.
    + now apply CH.
    + now apply UN.
    + now apply UN.
  - destruct (hAdd_keep th o _ (hNormalize_case th o)) as (A & B & C).
    destruct (isOk (hNormalize th o)) eqn:E; [apply CH; auto|]. rewrite C by auto. apply ID. exact E.
  - (* set *)
    unfold hSet. destruct (matSet (hm o) r c v); cbn [bind keep]; try (now apply UN).
  - (* compare *)
    cbn [tracked] in *. destruct (hOfMat th m); cbn [bind keep]; auto.
    destruct (isNorm o); cbn [bind keep]; auto.
    destruct (hNormalize_case th o) as [->|[->|(o' & -> & A & B)]]; cbn [bind keep]; auto.
  - exfalso. now apply (Hop l).
Qed.
Lemma hApply_inv th o l primed : histInv th o primed false ->
  fst (hApplyLine th o l) = freshLine th (hm o) l /\ histInv th (hStep th o (OpApplyLine l)) true false.
Proof.
  intros [_ Hs]. destruct (hApplyLine_fresh th o l (Hs eq_refl)) as (A & B & _). split; auto.
  split; [discriminate|]. intros _. exact B.
Qed.
Lemma hRun_app th o ops ops' : hRun th o (ops ++ ops') = hRun th (hRun th o ops) ops'.
Proof. unfold hRun. apply fold_left_app. Qed.
Lemma history_fresh th ops : forall o primed stale l, histInv th o primed stale ->
  noStaleUse th o primed stale (ops ++ [OpApplyLine l]) ->
  fst (hApplyLine th (hRun th o ops) l) = freshLine th (hm (hRun th o ops)) l.
Proof.
  induction ops as [|op ops IH]; intros o primed stale l HI H; cbn [app noStaleUse] in H.
  - destruct H as [-> _]. cbn [hRun fold_left]. now apply (hApply_inv th o l primed).
  - change (hRun th o (op :: ops)) with (hRun th (hStep th o op) ops).
    assert (C : (exists l0, op = OpApplyLine l0) \/ ((forall l0, op <> OpApplyLine l0) /\
      noStaleUse th (hStep th o op) primed
        (if tracked th o op then false else stale || (primed && untracked th o op)) (ops ++ [OpApplyLine l]))).
    { destruct op; try (right; split; [intros; discriminate|exact H]). left; eauto. }
    destruct C as [[l0 ->]|[N C]].
    + destruct H as [-> H]. eapply IH; [|exact H]. now apply (hApply_inv th o l0 primed).
    + eapply IH; [|exact C]. now apply hStep_inv.
Qed.
Lemma freshLine_copy th o l : fst (hApplyLine th (hCopy o) l) = freshLine th (hm o) l.
Proof.
  destruct (hApplyLine_fresh th (hCopy o) l) as (A & _).
  - left; reflexivity.
  - exact A.
Qed.

(** ** Chains of elementary transformations *)
Definition trOp (t : tr) : hop R :=
  match t with Trans a b => OpAddTranslation a b | Rot a => OpAddRotation a | Scale a b => OpAddScale a b end.
Definition trRes th o (t : tr) : res (hobj R) :=
  match t with Trans a b => hAddTranslation th o a b | Rot a => hAddRotation th o a | Scale a b => hAddScale th o a b end.
Definition affine m : Prop := m20 m = 0 /\ m21 m = 0 /\ m22 m = 1.
Lemma affine_mk (x y z t s w : R) : affine (mkM x y z t s w 0 0 1).
Proof. unfold affine; cbn [m20 m21 m22]; auto. Qed.
Lemma affine_image m p : affine m ->
  ptOfH (matMulH m (hOfPt p)) = Ok (mkPt (m00 m * px p + m01 m * py p + m02 m) (m10 m * px p + m11 m * py p + m12 m)).
Proof.
  intros (A & B & C). apply ptOfH_image. unfold isImage. cbn [px py]. rewrite A, B, C.
  repeat split; [lra| |]; field; lra.
Qed.
Lemma trRes_ok th o t : thr_ok th -> affine (hm o) -> exists o', trRes th o t = Ok o' /\ affine (hm o') /\
  forall p q, ptOfH (matMulH (hm o) (hOfPt p)) = Ok q -> ptOfH (matMulH (hm o') (hOfPt p)) = Ok (trApply q t).
Proof.
  intros Hth Ha. pose proof (thr_deno th Hth) as Hd. destruct Ha as (A & B & C).
  assert (K : forall g, affine g -> exists o', (do y <- hMul th (mkHobj g true true None) o; Ok (hAssign o y)) = Ok o'
              /\ hm o' = matMul g (hm o) /\ affine (hm o')).
  { intros g (A' & B' & C'). unfold hMul, hNormalize; cbn [hm hmt].
    assert (E22 : m22 (matMul g (hm o)) = 1). { munf. rewrite A', B', C', C. ring. }
    destruct (matNormalize_ok th (matMul g (hm o)) Hth) as [E _]. { rewrite E22, Rabs_R1. lra. }
    rewrite E, E22. cbn [bind]. eexists; split; [reflexivity|]. unfold hAssign; cbn [hm].
    assert (S1 : scaleM (/ 1) (matMul g (hm o)) = matMul g (hm o)).
    { apply mat_eq; unfold scaleM, matMap; cbn [m00 m01 m02 m10 m11 m12 m20 m21 m22]; field. }
    rewrite S1. split; auto. repeat split; auto; munf; rewrite A', B', C', ?A, ?B; ring. }
  assert (I : forall g p q, affine g -> ptOfH (matMulH (hm o) (hOfPt p)) = Ok q ->
          ptOfH (matMulH (matMul g (hm o)) (hOfPt p)) = ptOfH (matMulH g (hOfPt q))).
  { intros g p q Hg H. destruct (ptOfH_inv _ _ H) as [Nz E]. rewrite matMulH_mul, E, matMulH_scaleH, ptOfH_scale; auto. }
  destruct t as [dx dy|t|kx ky]; cbn [trRes trApply].
  - destruct (K (mkM 1 0 dx 0 1 dy 0 0 1)) as (o' & E & Em & Ha'); [apply affine_mk|].
    exists o'. split; [exact E|]. split; auto. intros p q H. rewrite Em, (I _ _ _ (affine_mk _ _ _ _ _ _) H).
    rewrite affine_image by apply affine_mk. cbn [m00 m01 m02 m10 m11 m12]. f_equal. f_equal; ring.
  - destruct (K (mkM (cos t) (- sin t) 0 (sin t) (cos t) 0 0 0 1)) as (o' & E & Em & Ha'); [apply affine_mk|].
    exists o'. split; [exact E|]. split; auto. intros p q H. rewrite Em, (I _ _ _ (affine_mk _ _ _ _ _ _) H).
    rewrite affine_image by apply affine_mk. cbn [m00 m01 m02 m10 m11 m12]. f_equal. f_equal; ring.
  - destruct (K (mkM kx 0 0 0 ky 0 0 0 1)) as (o' & E & Em & Ha'); [apply affine_mk|].
    exists o'. split; [exact E|]. split; auto. intros p q H. rewrite Em, (I _ _ _ (affine_mk _ _ _ _ _ _) H).
    rewrite affine_image by apply affine_mk. cbn [m00 m01 m02 m10 m11 m12]. f_equal. f_equal; ring.
Qed.
(** The chain as the user writes it: an exception would propagate. *)
Definition chain th o (ts : list tr) : res (hobj R) :=
  fold_left (fun r t => do x <- r; trRes th x t) ts (Ok o).
Lemma chain_from th ts : thr_ok th -> forall o f, affine (hm o) ->
  (forall p, ptOfH (matMulH (hm o) (hOfPt p)) = Ok (f p)) ->
  exists o', chain th o ts = Ok o' /\ affine (hm o') /\
    forall p, ptOfH (hApplyPt o' (hOfPt p)) = Ok (fold_left trApply ts (f p)).
Proof.
  intros Hth. induction ts as [|t ts IH]; intros o f Ha Hf.
  - exists o. auto.
  - destruct (trRes_ok th o t Hth Ha) as (o1 & E1 & Ha1 & H1).
    destruct (IH o1 (fun p => trApply (f p) t) Ha1) as (o' & E & Ha' & H').
    { intros p. now apply H1. }
    exists o'. split; auto. unfold chain in *. cbn [fold_left bind]. rewrite E1. exact E.
Qed.
Lemma chain_new th ts : thr_ok th -> exists o', chain th hNew ts = Ok o' /\ affine (hm o') /\
  forall p, ptOfH (hApplyPt o' (hOfPt p)) = Ok (fold_left trApply ts p).
Proof.
  intros Hth. apply (chain_from th ts Hth hNew (fun p => p)); [repeat split|].
  intros p. unfold hNew, hInit; cbn [hm]. rewrite matMulH_eye. apply ptOfH_of.
Qed.

Lemma trApply_rigid t p q : isRigid t = true -> edist (trApply p t) (trApply q t) = edist p q.
Proof.
  intros H. destruct t; try discriminate; unfold edist, trApply, Rsqr; cbn [px py]; f_equal; [ring|].
  pose proof (sin2_cos2 t) as S. unfold Rsqr in S.
  transitivity ((sin t * sin t + cos t * cos t) * ((px p - px q) * (px p - px q) + (py p - py q) * (py p - py q))); [ring|].
  rewrite S. ring.
Qed.
Lemma trApply_cross t p q r : isRigid t = true -> cross3 (trApply p t) (trApply q t) (trApply r t) = cross3 p q r.
Proof.
  intros H. destruct t; try discriminate; unfold cross3, trApply; cbn [px py]; [ring|].
  pose proof (sin2_cos2 t) as S. unfold Rsqr in S.
  transitivity ((sin t * sin t + cos t * cos t) * ((px q - px p) * (py r - py p) - (py q - py p) * (px r - px p))); [ring|].
  rewrite S. ring.
Qed.
Lemma rigid_chain ts p q r : forallb isRigid ts = true ->
  edist (fold_left trApply ts p) (fold_left trApply ts q) = edist p q /\
  cross3 (fold_left trApply ts p) (fold_left trApply ts q) (fold_left trApply ts r) = cross3 p q r.
Proof.
  revert p q r. induction ts as [|t ts IH]; intros p q r H; cbn [fold_left]; auto.
  cbn [forallb] in H. apply andb_prop in H. destruct H as [A B].
  destruct (IH (trApply p t) (trApply q t) (trApply r t) B) as [E1 E2]. rewrite E1, E2.
  split; [now apply trApply_rigid|now apply trApply_cross].
Qed.

(** ** Equality *)
Lemma matClose_refl th m : thr_ok th -> matClose th m m = true.
Proof.
  intros Hth. pose proof (thr_dete th Hth). unfold matClose; rnum.
  assert (F : forall x, Rleb (nullDeter th) (Rabs (x - x)) = false).
  { intros x. apply Rleb_false. rewrite Rminus_diag_eq, Rabs_R0; auto. }
  rewrite !F. reflexivity.
Qed.
Lemma matClose_sym th a b : matClose th a b = matClose th b a.
Proof.
  unfold matClose; rnum. rewrite (Rabs_minus_sym (m00 a)), (Rabs_minus_sym (m01 a)), (Rabs_minus_sym (m02 a)),
    (Rabs_minus_sym (m10 a)), (Rabs_minus_sym (m11 a)), (Rabs_minus_sym (m12 a)),
    (Rabs_minus_sym (m20 a)), (Rabs_minus_sym (m21 a)), (Rabs_minus_sym (m22 a)). reflexivity.
Qed.
Lemma hOfMat_inv th m o : thr_ok th -> hOfMat th m = Ok o ->
  hm o = scaleM (/ m22 m) m /\ m22 m <> 0 /\ isNorm o = true /\ hmt o = None.
Proof.
  intros Hth H. unfold hOfMat, hNormalize in H; cbn [hm hmt] in H.
  destruct (matNormalize th m) as [mn| |] eqn:En; cbn [bind] in H; try discriminate.
  injection H as <-. destruct (matNormalize_inv th _ _ Hth En) as (-> & H22 & _). auto.
Qed.
Lemma hEq_scale th m k (a b : hobj R) : thr_ok th -> k <> 0 -> hOfMat th m = Ok a -> hOfMat th (scaleM k m) = Ok b ->
  hEq th a b = Ok (true, a, b).
Proof.
  intros Hth Hk A B. destruct (hOfMat_inv th _ _ Hth A) as (Ea & Na & Ia & _).
  destruct (hOfMat_inv th _ _ Hth B) as (Eb & Nb & Ib & _).
  unfold hEq. rewrite Ia, Ib. cbn [bind]. rewrite Ea, Eb, scaleM_norm by auto. now rewrite matClose_refl.
Qed.
Lemma hEq_sym th (a b : hobj R) r (a' b' : hobj R) : hEq th a b = Ok (r, a', b') -> hEq th b a = Ok (r, b', a').
Proof.
  unfold hEq. destruct (isNorm a), (isNorm b); cbn [bind].
  - intros [= <- <- <-]. now rewrite matClose_sym.
  - destruct (hNormalize th b); cbn [bind]; try discriminate. intros [= <- <- <-]. now rewrite matClose_sym.
  - destruct (hNormalize th a); cbn [bind]; try discriminate. intros [= <- <- <-]. now rewrite matClose_sym.
  - destruct (hNormalize th a), (hNormalize th b); cbn [bind]; try discriminate. intros [= <- <- <-]. now rewrite matClose_sym.
Qed.

(** ** Double inverse *)
Lemma adj_adj m : adjugate (adjugate m) = scaleM (det3 m) m.
Proof. apply mat_eq; unfold scaleM; munf; ring. Qed.
Lemma adj_scale k m : adjugate (scaleM k m) = scaleM (k * k) (adjugate m).
Proof. apply mat_eq; unfold scaleM; munf; ring. Qed.
Lemma double_inverse th o o1 o2 : thr_ok th -> hInverse th o = (Ok tt, o1) -> hInverse th o1 = (Ok tt, o2) ->
  m22 (hm o) <> 0 /\ hm o2 = scaleM (/ m22 (hm o)) (hm o).
Proof.
  intros Hth A B. destruct (hInverse_inv th o o1 Hth A) as (k1 & K1 & D1 & E1 & _).
  destruct (hInverse_inv th o1 o2 Hth B) as (k2 & K2 & D2 & E2 & N2 & _).
  rewrite E1, adj_scale, adj_adj in E2.
  assert (E : hm o2 = scaleM (k2 * (k1 * k1) * det3 (hm o)) (hm o)).
  { rewrite E2. apply mat_eq; unfold scaleM, matMap; cbn [m00 m01 m02 m10 m11 m12 m20 m21 m22]; ring. }
  clear E2. rewrite E in N2. rewrite m22_scale in N2.
  assert (m22 (hm o) <> 0). { intros Z. rewrite Z, Rmult_0_r in N2. lra. }
  split; auto. rewrite E. f_equal. apply (Rmult_eq_reg_r (m22 (hm o))); auto. rewrite N2. field; auto.
Qed.
Lemma double_transpose o : hm (hTranspose (hTranspose o)) = hm o.
Proof. apply mat_eq; reflexivity. Qed.

(** ** Failing inverse *)
Definition badM : mat R := mkM 1 1 0 1 1 1 1 0 1.
Lemma badM_inv : exists o, hOfMat thr0 badM = Ok o /\ hm o = badM /\ det3 (hm o) = 1 /\
  fst (hInverse thr0 o) = Throw /\ hm (snd (hInverse thr0 o)) = mkM 1 (-1) 1 0 1 (-1) (-1) 1 0.
Proof.
  assert (T : nullDenom (thr0 (T := R)) < 1 /\ 0 < nullDenom (thr0 (T := R)) /\ nullDeter (thr0 (T := R)) < 1).
  { unfold thr0; cbn [nullDenom nullDeter]; rnum; lra. }
  exists (mkHobj badM true true None).
  split.
  { unfold hOfMat, hNormalize; cbn [hm hmt].
    destruct (matNormalize_ok thr0 badM thr0_ok) as [E _]. { cbn [badM m22]. rewrite Rabs_R1. lra. }
    rewrite E. cbn [bind]. do 2 f_equal. apply mat_eq; unfold scaleM, badM; munf; field. }
  split; [reflexivity|].
  assert (D : determ badM = 1) by (unfold badM; munf; ring).
  split. { cbn [hm]. rewrite <- determ_det3. exact D. }
  assert (MI : matInverse thr0 badM = Ok (mkM 1 (-1) 1 0 1 (-1) (-1) 1 0)).
  { unfold matInverse. rewrite D. rnum. rewrite Rabs_R1, (proj2 (Rltb_false _ _)) by lra.
    f_equal. apply mat_eq; unfold badM; munf; field. }
  assert (MN : matNormalize thr0 (mkM 1 (-1) 1 0 1 (-1) (-1) 1 0) = Throw).
  { apply matNormalize_throw. cbn [m22]. rewrite Rabs_R0. lra. }
  unfold hInverse, hNormalize. cbn [hm hmt]. rewrite MI. cbn [hm hmt]. rewrite MN. cbn [bind fst snd hm]. auto.
Qed.
Lemma hInverse_singular th o : Rabs (det3 (hm o)) < nullDeter th -> hInverse th o = (Throw, o).
Proof.
  intros H. unfold hInverse, matInverse. rewrite determ_det3. rnum. now rewrite (proj2 (Rltb_spec _ _) H).
Qed.
(** When exactly inverse() throws. *)
Lemma hInverse_throw th o : thr_ok th -> fst (hInverse th o) = Throw <->
  (Rabs (det3 (hm o)) < nullDeter th \/
   (nullDeter th <= Rabs (det3 (hm o)) /\
    Rabs ((m00 (hm o) * m11 (hm o) - m01 (hm o) * m10 (hm o)) / det3 (hm o)) < nullDenom th)).
Proof.
  intros Hth. unfold hInverse, matInverse. rewrite determ_det3. rnum.
  destruct (Rltb (Rabs (det3 (hm o))) (nullDeter th)) eqn:E; rclean; cbn [fst].
  - tauto.
  - unfold hNormalize; cbn [hm hmt].
    set (mi := matMap _ _).
    assert (E22 : m22 mi = (m00 (hm o) * m11 (hm o) - m01 (hm o) * m10 (hm o)) / det3 (hm o)) by (unfold mi; munf; reflexivity).
    pose proof (matNormalize_throw th mi) as T. rewrite E22 in T.
    destruct (matNormalize th mi) as [x| |] eqn:En; cbn [bind fst].
    + split; [discriminate|]. intros [F|[_ F]]; [lra|]. apply T in F. discriminate.
    + split; auto. intros _. right. split; auto. now apply T.
    + exfalso. revert En. unfold matNormalize. destruct (nabs (m22 mi) <? nullDenom th)%num; discriminate.
Qed.
