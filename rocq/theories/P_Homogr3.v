(** * Proofs about homographies: counter-examples, threads, rotated lines *)

From Coq Require Import Reals ZArith List Bool Lra Lia Psatz.
From Verif Require Import Num M_LP M_Homogr S_Geom S_Homogr P_LP P_LP2 P_LP3 P_LP4 P_LP5 P_Homogr P_Homogr2.
Import ListNotations.
Local Open Scope R_scope.
Implicit Types (th : thrs R) (l : line R) (p q : pt R) (m : mat R) (o : hobj R).

(** Inverse of a matrix with last row (0,0,1) and unit determinant of the linear part. *)
Lemma freshHmt_unimod th a b c d e f : thr_ok th -> nullDeter th <= 1 -> a * e - b * d = 1 ->
  freshHmt th (mkM a b c d e f 0 0 1) = Ok (mkM e (- d) 0 (- b) a 0 (b * f - c * e) (c * d - a * f) 1).
Proof.
  intros Hth Hd D. pose proof (thr_deno th Hth).
  assert (E : determ (mkM a b c d e f 0 0 1) = 1) by (munf; lra).
  unfold freshHmt, hInverse, matInverse, hNormalize; cbn [hm]. rewrite E. rnum.
  rewrite Rabs_R1, (proj2 (Rltb_false 1 (nullDeter th))) by lra. cbn [hm hmt].
  set (mi := matMap _ _).
  assert (Em : mi = mkM e (- b) (b * f - c * e) (- d) a (c * d - a * f) 0 0 1).
  { unfold mi. apply mat_eq; munf; rewrite ?div1; lra. }
  rewrite Em. destruct (matNormalize_ok th (mkM e (- b) (b * f - c * e) (- d) a (c * d - a * f) 0 0 1) Hth) as [En _].
  { cbn [m22]. rewrite Rabs_R1. lra. }
  rewrite En. cbn [bind hm m22]. f_equal.
  apply mat_eq; unfold scaleM; munf; field.
Qed.
Lemma matEye_mk : matEye = mkM 1 0 0 0 1 0 0 0 1. Proof. reflexivity. Qed.
Lemma freshLine_eye th l : thr_ok th -> nullDeter th <= 1 -> freshLine th matEye l = lnorm th l.
Proof.
  intros Hth Hd. unfold freshLine. rewrite matEye_mk, freshHmt_unimod by (auto; ring). cbn [bind]. f_equal.
  destruct l as [x y z]. unfold matMulL; cbn [m00 m01 m02 m10 m11 m12 m20 m21 m22 la lb lc]; rnum. f_equal; ring.
Qed.
Lemma thr0_dete : nullDeter (thr0 (T := R)) <= 1.
Proof. unfold thr0; cbn [nullDeter]; rnum; lra. Qed.

(** Stale cache: H*l, then set(0,2,5), then H*l again. *)
Definition l10 : line R := mkL 1 0 0.
Lemma lnorm_l10 c : lnorm thr0 (mkL 1 0 c) = Ok (mkL 1 0 c).
Proof.
  rewrite (lnorm_eval thr0 1 0 c 1 thr0_ok); unfold thr0; cbn [dblEpsilon nullDenom]; rnum; try lra.
  now rewrite !div1.
Qed.
Definition staleOps : list (hop R) := [OpApplyLine l10; OpSet 0 2 5].
Lemma stale_witness :
  fst (hApplyLine thr0 (hRun thr0 hNew staleOps) l10) = Ok (mkL 1 0 0) /\
  fst (hApplyLine thr0 (hCopy (hRun thr0 hNew staleOps)) l10) = Ok (mkL 1 0 (-5)).
Proof.
  assert (Em : hm (hRun thr0 hNew staleOps) = mkM 1 0 5 0 1 0 0 0 1).
  { unfold staleOps, hRun. cbn [fold_left].
    change (hStep thr0 hNew (OpApplyLine l10)) with (snd (hApplyLine thr0 hNew l10)).
    destruct (hApplyLine_fresh thr0 hNew l10) as (_ & _ & E); [left; reflexivity|].
    destruct (snd (hApplyLine thr0 hNew l10)) as [m1 n1 c1 t1]. cbn [hm] in E. subst m1. reflexivity. }
  split.
  - unfold staleOps, hRun. cbn [fold_left].
    change (hStep thr0 hNew (OpApplyLine l10)) with (snd (hApplyLine thr0 hNew l10)).
    pose proof (freshHmt_unimod thr0 1 0 0 0 1 0 thr0_ok thr0_dete ltac:(lra)) as F.
    change (mkM 1 0 0 0 1 0 0 0 1) with (@matEye R RNum) in F. unfold freshHmt in F.
    assert (S : snd (hApplyLine thr0 hNew l10) =
      mkHobj matEye true false (Some (mkM 1 (- 0) 0 (- 0) 1 0 (0 * 0 - 0 * 1) (0 * 0 - 1 * 0) 1))).
    { unfold hApplyLine, hNew, hInit; cbn [hmt hm isNorm hasChanged hCopy].
      destruct (hInverse_copy thr0 (mkHobj matEye false true None) (hCopy (mkHobj matEye true true (Some matZero))) eq_refl) as [A B].
      destruct (hInverse thr0 (mkHobj matEye false true None)) as [[[]| |] hi]; try discriminate.
      destruct (hInverse thr0 (hCopy (mkHobj matEye true true (Some matZero)))) as [[[]| |] hi2]; cbn [fst snd] in *; try discriminate.
      apply Ok_inj in F. rewrite <- F, B. reflexivity. }
    rewrite S. unfold hStep, hSet, keep; cbn [matSet hm bind isNorm hasChanged hmt].
    unfold hApplyLine; cbn [hmt hasChanged]. cbn [fst]. rewrite <- (lnorm_l10 0). f_equal.
    unfold l10; munf. f_equal; ring.
  - rewrite freshLine_copy, Em. unfold freshLine.
    rewrite (freshHmt_unimod thr0 1 0 5 0 1 0 thr0_ok thr0_dete) by ring. cbn [bind].
    rewrite <- (lnorm_l10 (-5)). f_equal. unfold l10; munf. f_equal; ring.
Qed.

(** Equality after set(): all elements multiplied by 2, still flagged as normalised. *)
Definition doubled : hobj R := hRun thr0 hNew [OpSet 0 0 2; OpSet 1 1 2; OpSet 2 2 2].
Lemma doubled_hm : doubled = mkHobj (mkM 2 0 0 0 2 0 0 0 2) true true None.
Proof. reflexivity. Qed.
Lemma doubled_neq : (forall h, ptOfH (hApplyPt doubled h) = ptOfH (hApplyPt hNew h)) /\
  hEq thr0 doubled hNew = Ok (false, doubled, hNew).
Proof.
  split.
  - intros h. unfold hApplyPt. rewrite doubled_hm. cbn [hm].
    replace (mkM 2 0 0 0 2 0 0 0 2) with (scaleM 2 matEye).
    + rewrite matMulH_scale, ptOfH_scale by lra. reflexivity.
    + apply mat_eq; unfold scaleM; munf; ring.
  - unfold hEq. rewrite doubled_hm. cbn [isNorm bind]. change (isNorm hNew) with true. cbn [bind].
    assert (E : matClose thr0 (mkM 2 0 0 0 2 0 0 0 2) (hm (hNew (T := R))) = false); [|cbn [hm]; now rewrite E].
    unfold matClose, hNew, hInit, matEye; cbn [hm m00 m01 m02 m10 m11 m12 m20 m21 m22]; rnum.
    rewrite (proj2 (Rleb_spec (nullDeter thr0) (Rabs (2 - 1)))); [reflexivity|].
    rewrite Rabs_right by lra. pose proof thr0_dete. lra.
Qed.

(** ** Threads *)
Definition tResult (st : hobj R * list (line R * tpc R)) (i : nat) : option (res (line R)) :=
  match nth_error (snd st) i with Some (_, PDone r) => Some r | _ => None end.
Definition badSchedule : list nat := [0; 1; 0; 0; 0; 0; 0; 0; 1; 0]%nat.
Lemma race_witness :
  tResult (schedRun thr0 (hNew, [(l10, PTestNull); (l10, PTestNull)]) badSchedule) 0 = Some Throw
  /\ fst (hApplyLine thr0 hNew l10) = Ok l10.
Proof.
  assert (S : fst (hApplyLine thr0 hNew l10) = Ok l10).
  { destruct (hApplyLine_fresh thr0 hNew l10) as (E & _); [left; reflexivity|].
    rewrite E. change (hm (hNew (T := R))) with (@matEye R RNum).
    rewrite (freshLine_eye thr0 l10 thr0_ok thr0_dete). apply lnorm_l10. }
  split; auto.
  unfold badSchedule, schedRun. cbn [fold_left].
  unfold sched1 at 10 9 8 7 6 5. cbn [nth_error snd fst tStep upd hNew hInit hmt hasChanged isNorm hm].
  pose proof (freshHmt_copy thr0 (mkHobj matEye true true (Some matZero))) as F. cbn [hm] in F.
  rewrite matEye_mk in F at 1. rewrite (freshHmt_unimod thr0 1 0 0 0 1 0 thr0_ok thr0_dete ltac:(lra)) in F.
  unfold hCopy in F; cbn [hm isNorm] in F. unfold hCopy; cbn [hm isNorm].
  destruct (hInverse thr0 _) as [[[]| |] hi]; try discriminate.
  unfold sched1. cbn [nth_error snd fst tStep upd hmt hasChanged isNorm hm].
  unfold tResult; cbn [nth_error snd]. f_equal.
  apply lnorm_throw. unfold matZero; munf.
  rewrite (hypot_val _ _ 0) by lra. unfold thr0; cbn [dblEpsilon]; rnum; lra.
Qed.

(** Once primed: any number of threads, any schedule. *)
Lemma upd_nth {A} (xs : list A) i x j : nth_error (upd xs i x) j =
  if Nat.eqb i j then (match nth_error xs i with Some _ => Some x | None => None end) else nth_error xs j.
Proof.
  revert i j. induction xs as [|y xs IH]; intros i j; cbn [upd].
  - destruct (Nat.eqb_spec i j); destruct i, j; cbn; auto.
  - destruct i, j; cbn [nth_error Nat.eqb]; auto.
Qed.
Lemma upd_length {A} (xs : list A) i x : length (upd xs i x) = length xs.
Proof. revert i. induction xs as [|y xs IH]; intros i; destruct i; cbn; auto. Qed.
Definition tGood th (mi : mat R) l (n : nat) (pc : tpc R) : Prop :=
  match pc with
  | PTestNull => n = 0%nat
  | PTestChanged => n = 1%nat
  | PProduct => n = 2%nat
  | PDone r => r = lnorm th (matMulL mi l) /\ (3 <= n)%nat
  | _ => False
  end.
Lemma primed_inv th o mi ls s : hmt o = Some mi -> hasChanged o = false ->
  let st := schedRun th (o, map (fun l => (l, PTestNull)) ls) s in
  fst st = o /\ length (snd st) = length ls /\
  forall i l, nth_error ls i = Some l ->
    exists pc, nth_error (snd st) i = Some (l, pc) /\ tGood th mi l (count_occ Nat.eq_dec s i) pc.
Proof.
  intros Hm Hc. induction s as [|j s IH] using rev_ind; cbv zeta.
  - cbn [schedRun fold_left fst snd count_occ]. split; [|split]; auto.
    + apply map_length.
    + intros i l Hi. exists PTestNull. split; [|reflexivity]. now apply (map_nth_error (fun l => (l, PTestNull))).
  - unfold schedRun in *. rewrite fold_left_app. cbn [fold_left].
    cbv zeta in IH. set (st := fold_left (sched1 th) s _) in *. clearbody st. destruct IH as (Ho & Hlen & IH).
    assert (CO : forall i, count_occ Nat.eq_dec (s ++ [j]) i = (count_occ Nat.eq_dec s i + if Nat.eqb j i then 1 else 0)%nat).
    { intros i. rewrite count_occ_app. cbn [count_occ]. destruct (Nat.eq_dec j i), (Nat.eqb_spec j i); auto; contradiction. }
    unfold sched1. destruct (nth_error (snd st) j) as [[lj pcj]|] eqn:Ej.
    + assert (Hj : nth_error ls j = Some lj).
      { destruct (nth_error ls j) as [l'|] eqn:E.
        - destruct (IH j l' E) as (pc & A & _). rewrite Ej in A. congruence.
        - apply nth_error_None in E. rewrite <- Hlen in E. apply nth_error_None in E. congruence. }
      destruct (IH j lj Hj) as (pc & A & G). rewrite Ej in A. injection A as <-.
      assert (K : exists pc', tStep th lj (fst st) pcj = (o, pc') /\ tGood th mi lj (S (count_occ Nat.eq_dec s j)) pc').
      { rewrite Ho. destruct pcj; cbn [tGood] in G; try contradiction; cbn [tStep]; rewrite ?Hm, ?Hc.
        - exists PTestChanged. subst. cbn [tGood]. rewrite G. auto.
        - exists PProduct. cbn [tGood]. rewrite G. auto.
        - eexists. split; [reflexivity|]. cbn [tGood]. rewrite G. auto.
        - exists (PDone r). cbn [tGood]. destruct G. split; auto. }
      destruct K as (pc' & Et & G'). rewrite Et. cbn [fst snd]. split; [|split]; auto.
      * rewrite <- Hlen. apply upd_length.
      * intros i l Hi. rewrite CO, upd_nth. destruct (Nat.eqb_spec j i) as [->|N].
        -- rewrite Ej. rewrite Hj in Hi. injection Hi as <-. exists pc'. split; auto.
           replace (count_occ Nat.eq_dec s i + 1)%nat with (S (count_occ Nat.eq_dec s i)) by lia. auto.
        -- rewrite Nat.add_0_r. auto.
    + split; [|split]; auto. intros i l Hi. rewrite CO. destruct (Nat.eqb_spec j i) as [->|N].
      * destruct (IH i l Hi) as (pc & A & _). congruence.
      * rewrite Nat.add_0_r. auto.
Qed.

(** ** Rotated line *)
Lemma matMul_affine a b c d e f a' b' c' d' e' f' :
  matMul (mkM a b c d e f 0 0 1) (mkM a' b' c' d' e' f' 0 0 1) =
  mkM (a * a' + b * d') (a * b' + b * e') (a * c' + b * f' + c) (d * a' + e * d') (d * b' + e * e') (d * c' + e * f' + f) 0 0 1.
Proof. apply mat_eq; munf; ring. Qed.
Lemma getRotatedLine_raw th l p t : thr_ok th -> nullDeter th <= 1 -> proper l -> onL l p ->
  getRotatedLine th l p t =
  lnorm th (mkL (cos t * la l - sin t * lb l) (sin t * la l + cos t * lb l)
                (lc l + la l * px p + lb l * py p - (cos t * la l - sin t * lb l) * px p - (sin t * la l + cos t * lb l) * py p)).
Proof.
  intros Hth Hd Hl Hp. unfold getRotatedLine.
  assert (E0 : (nullDistance th <? lineDist l p)%num = false).
  { apply Rltb_false. rewrite (proj2 (lineDist_zero l p Hl) Hp). apply Rlt_le, (thr_dist th Hth). }
  rewrite E0. clear E0.
  set (x := px p) in *. set (y := py p) in *. pose proof (thr_deno th Hth) as Hde.
  assert (K : forall g o, affine g -> affine (hm o) -> hmt o = None -> isNorm o = true ->
     (do y <- hMul th (mkHobj g true true None) o; Ok (hAssign o y)) = Ok (mkHobj (matMul g (hm o)) true true None)).
  { intros g o (A' & B' & C') (A & B & C) Hn Hi. unfold hMul, hNormalize; cbn [hm hmt].
    assert (E22 : m22 (matMul g (hm o)) = 1). { munf. rewrite A', B', C', C. ring. }
    destruct (matNormalize_ok th (matMul g (hm o)) Hth) as [E _]. { rewrite E22, Rabs_R1. lra. }
    rewrite E, E22. cbn [bind]. unfold hAssign; cbn [hm]. rewrite Hn, Hi. f_equal. f_equal.
    apply mat_eq; unfold scaleM, matMap; cbn [m00 m01 m02 m10 m11 m12 m20 m21 m22]; field. }
  assert (AM : forall g h, affine g -> affine h -> affine (matMul g h)).
  { intros g h (A' & B' & C') (A & B & C). repeat split; munf; rewrite A', B', C', ?A, ?B, ?C; ring. }
  unfold hAddTranslation at 1. unfold hSetTranslation. rewrite K; try reflexivity; try apply affine_mk.
  cbn [bind]. unfold hAddRotation, hSetRotation.
  rewrite K; try reflexivity; try apply affine_mk; cbn [hm]; [|apply AM; apply affine_mk].
  cbn [bind]. unfold hAddTranslation, hSetTranslation.
  rewrite K; try reflexivity; try apply affine_mk; cbn [hm];
    [|apply AM; [apply affine_mk|apply AM; apply affine_mk]].
  cbn [bind].
  match goal with |- fst (hApplyLine th ?o l) = _ => destruct (hApplyLine_fresh th o l) as (E & _); [left; reflexivity|] end.
  rewrite E. cbn [hm].
  match goal with |- freshLine th ?M l = _ =>
    replace M with (mkM (cos t) (- sin t) (x - cos t * x + sin t * y) (sin t) (cos t) (y - sin t * x - cos t * y) 0 0 1) end.
  2:{ clear. unfold hNew, hInit, matEye; cbn [hm]. rnum. rewrite !matMul_affine. f_equal; ring. }
  clear K AM. pose proof (sin2_cos2 t) as S. unfold Rsqr in S.
  unfold freshLine. rewrite freshHmt_unimod by (auto; lra). cbn [bind]. f_equal. clear E. munf.
  f_equal; try ring.
  replace (- sin t * (y - sin t * x - cos t * y) - (x - cos t * x + sin t * y) * cos t)
    with ((sin t * sin t + cos t * cos t) * x - sin t * y - cos t * x) by ring.
  replace ((x - cos t * x + sin t * y) * sin t - cos t * (y - sin t * x - cos t * y))
    with ((sin t * sin t + cos t * cos t) * y + sin t * x - cos t * y) by ring.
  rewrite S. ring.
Qed.
Lemma getRotatedLine_spec th l p t : thr_ok th -> nullDeter th <= 1 -> unitL l -> onL l p ->
  zoneFree th (mkL (cos t * la l - sin t * lb l) (sin t * la l + cos t * lb l) 0) ->
  exists l', getRotatedLine th l p t = Ok l' /\ onL l' p /\ unitL l' /\
    exists s, (s = 1 \/ s = -1) /\ la l' = s * (cos t * la l - sin t * lb l) /\ lb l' = s * (sin t * la l + cos t * lb l).
Proof.
  intros Hth Hd Hu Hp Z. rewrite (getRotatedLine_raw th l p t Hth Hd (unit_proper l Hu) Hp).
  set (A := cos t * la l - sin t * lb l) in *. set (B := sin t * la l + cos t * lb l) in *.
  assert (U : A * A + B * B = 1).
  { unfold A, B. pose proof (sin2_cos2 t) as S. unfold Rsqr in S. unfold unitL in Hu.
    transitivity ((sin t * sin t + cos t * cos t) * (la l * la l + lb l * lb l)); [ring|]. rewrite S, Hu. ring. }
  set (raw := mkL A B _). assert (Hh : hypot (la raw) (lb raw) = 1) by (apply hypot_unit; exact U).
  destruct (lnorm_ok th raw) as [l' Hl']. { rewrite Hh. apply (thr_deps th) in Hth. lra. }
  exists l'. split; auto.
  assert (Zr : zoneFree th raw) by exact Z.
  split; [|split].
  - rewrite <- (onLH_pt l' (hOfPt p) p (ptOfH_of p)).
    apply (lnorm_onLH th raw l' (hOfPt p) Hth Hl' Zr).
    unfold onLH, raw, hOfPt; cbn [la lb lc h0 h1 h2]; rnum. unfold onL in Hp. lra.
  - apply (lnorm_unit th raw l' Hth Hl').
  - destruct (lnorm_inv th raw l' Hth Hl') as (_ & Ha & _ & _ & _ & [(k & Hk & Hk2 & ->)|(Hf & _)]).
    + rewrite Hh in Hk2. exists k. split; [|split; reflexivity].
      rewrite Rinv_1 in Hk2. unfold Rabs in Hk2. destruct (Rcase_abs k); [right|left]; lra.
    + exfalso. rewrite Ha, Hh in Hf. unfold zoneFree in Z. cbn [la lb] in Z.
      change (la raw) with A in Hf. rewrite div1 in Hf.
      destruct Z as [Z|Z]; [rewrite Z, Rabs_R0 in Hf; lra|]. rewrite U, sqrt_1 in Z. lra.
Qed.

(** ** Simple histories *)
Lemma noStale_pre th pre : forall o rest, existsb isProduct pre = false ->
  noStaleUse th (hRun th o pre) false false rest -> noStaleUse th o false false (pre ++ rest).
Proof.
  induction pre as [|op pre IH]; intros o rest H K; cbn [app]; auto.
  cbn [existsb] in H. apply orb_false_elim in H. destruct H as [A B].
  change (hRun th o (op :: pre)) with (hRun th (hStep th o op) pre) in K.
  destruct op; try discriminate; cbn [noStaleUse andb orb];
    match goal with |- context [if ?b then false else false] => destruct b | _ => idtac end; apply IH; auto.
Qed.
Lemma noStale_post th post l : forall o primed, existsb silentOp post = false ->
  noStaleUse th o primed false (post ++ [OpApplyLine l]).
Proof.
  induction post as [|op post IH]; intros o primed H; cbn [app].
  - cbn [noStaleUse]. auto.
  - cbn [existsb] in H. apply orb_false_elim in H. destruct H as [A B].
    destruct op; try discriminate; cbn [noStaleUse untracked orb]; rewrite ?andb_false_r;
      try match goal with |- context [if ?b then false else false] => destruct b end; auto.
Qed.
Lemma simple_history th pre post l : existsb isProduct pre = false -> existsb silentOp post = false ->
  fst (hApplyLine th (hRun th hNew (pre ++ post)) l) = fst (hApplyLine th (hCopy (hRun th hNew (pre ++ post))) l).
Proof.
  intros A B. rewrite freshLine_copy. apply (history_fresh th (pre ++ post) hNew false false l).
  - split; [reflexivity|]. intros _. left; reflexivity.
  - rewrite <- app_assoc. apply noStale_pre; auto. now apply noStale_post.
Qed.

(** ** Incidence lost in the sign-fix zone: mirror y -> -y *)
Definition mirrorM : mat R := mkM 1 0 0 0 (-1) 0 0 0 1.
Lemma mirror_fresh l : freshLine thr0 mirrorM l = lnorm thr0 (mkL (la l) (- lb l) (lc l)).
Proof.
  pose proof thr0_dete as Hd.
  assert (E : determ mirrorM = -1) by (unfold mirrorM; munf; ring).
  unfold freshLine, freshHmt, hInverse, matInverse, hNormalize; cbn [hm]. rewrite E. rnum.
  rewrite (Rabs_left (-1)), (proj2 (Rltb_false (- -1) _)) by lra. cbn [hm hmt].
  set (mi := matMap _ _).
  assert (Em : mi = mirrorM) by (unfold mi, mirrorM; apply mat_eq; munf; field).
  rewrite Em. destruct (matNormalize_ok thr0 mirrorM thr0_ok) as [En _].
  { cbn [m22 mirrorM]. rewrite Rabs_R1. unfold thr0; cbn [nullDenom]; rnum; lra. }
  rewrite En. cbn [bind hm]. f_equal. unfold scaleM, mirrorM; munf. f_equal; field.
Qed.
Lemma mirror_bad : storedL thr0 wL /\ onL wL (mkPt (1000000 * wb) (- (1000000 * wa))) /\
  isImage mirrorM (mkPt (1000000 * wb) (- (1000000 * wa))) wQ /\ freshLine thr0 mirrorM wL = Ok wL.
Proof.
  wbd. split; [|split; [|split]].
  - split; [exact wL_unit|]. unfold wL, thr0; cbn [la lb nullDenom]; rnum. split; lra.
  - unfold onL, wL; cbn [la lb lc px py]. ring.
  - unfold isImage, mirrorM, wQ; cbn [m00 m01 m02 m10 m11 m12 m20 m21 m22 px py].
    repeat split; [lra| |]; field.
  - rewrite mirror_fresh. unfold wL; cbn [la lb lc].
    pose proof (lnorm_w 1 0 ltac:(lra)) as H2.
    apply (lnorm_scale thr0 _ _ (-1) thr0_ok) in H2; [|lra|].
    + rewrite <- H2. f_equal. unfold scaleL; cbn [la lb lc]. f_equal; ring.
    + cbn [la lb]. rewrite (Rabs_left (-1)), (hypot_val _ _ 1) by lra. unfold thr0; cbn [dblEpsilon]; rnum; lra.
Qed.

(** ** Rotated line in the zone *)
Definition rT : R := - acos wa.
Lemma rT_cos : cos rT = wa.
Proof. unfold rT. rewrite cos_neg, cos_acos; auto. pose proof wa_bd. lra. Qed.
Lemma rT_sin : sin rT = - wb.
Proof.
  unfold rT. wbd. rewrite sin_neg, sin_acos by lra. f_equal. unfold Rsqr.
  replace (1 - wa * wa) with (wb * wb) by lra. apply sqrt_square. lra.
Qed.
Definition rL : line R := mkL 1 0 (-1000000).
Lemma rotated_bad : getRotatedLine thr0 rL (mkPt 1000000 0) rT = Ok wVo.
Proof.
  rewrite getRotatedLine_raw.
  - rewrite rT_cos, rT_sin. unfold rL; cbn [la lb lc px py]. unfold wVo.
    pose proof (lnorm_w 1 (1000000 * wa) ltac:(lra)) as H2. wbd.
    apply (lnorm_scale thr0 _ _ (-1) thr0_ok) in H2; [|lra|].
    + rewrite <- H2. f_equal. unfold scaleL; cbn [la lb lc]. f_equal; ring.
    + cbn [la lb]. rewrite (Rabs_left (-1)), (hypot_val _ _ 1) by lra. unfold thr0; cbn [dblEpsilon]; rnum; lra.
  - exact thr0_ok.
  - exact thr0_dete.
  - left. cbn [la rL]. lra.
  - unfold onL, rL; cbn [la lb lc px py]. ring.
Qed.
