(** * Lengths of polylines computed in binary64 *)

From Coq Require Import Reals Lra ZArith Floats Bool Lia List.
From Verif Require Import Num FloatFuns M_LP M_Seg M_Circle M_Poly S_Geom S_Poly P_LP P_Poly P_Poly2 S_Float S_FloatZ S_FloatR P_Float P_FloatZ P_FloatZ2 P_FloatR P_FloatE P_FloatE2 C_Float C_FloatR.
Import ListNotations.
Local Open Scope R_scope.

(** ** The segments of a polyline, for any number type *)

Lemma plPoint_any {T} {N : Num T} (pts : list (pt T)) i d : (i < length pts)%nat -> plPoint pts i = Ok (nth i pts d).
Proof. intros H. unfold plPoint. destruct (Nat.leb_spec (length pts) i); [lia|]. f_equal. now apply nth_indep. Qed.

Lemma plSegs_any {T} {N : Num T} (th : thrs T) closed k (pts : list (pt T)) : (2 <= length pts)%nat ->
  plSegs th closed k pts = mapM (fun e => svNew th k (fst e) (snd e)) (sides closed pts).
Proof.
  intros L. unfold plSegs. destruct (Nat.ltb_spec (length pts) 2); [lia|].
  destruct pts as [|d pts'] eqn:Ep; [cbn in L; lia|]. rewrite <- Ep in *.
  assert (mapM (fun i => bind (plPoint pts i) (fun p1 => bind (plPoint pts (i + 1)) (fun p2 => svNew th k p1 p2))) (seq 0 (length pts - 1))
          = mapM (fun e => svNew th k (fst e) (snd e)) (chain pts)) as ->.
  { rewrite <- (chain_index pts d), mapM_map. apply mapM_ext. intros i Hi. apply in_seq in Hi.
    rewrite !(plPoint_any pts _ d) by lia. reflexivity. }
  unfold sides. destruct closed.
  - rewrite (cyc_chain pts d) by (rewrite Ep; discriminate).
    rewrite mapM_app. rewrite !(plPoint_any pts _ d) by lia. cbn [bind mapM fst snd].
    destruct (mapM _ (chain pts)); cbn [bind]; auto. rewrite last_nth'.
    replace (hd d pts) with (nth 0 pts d) by (rewrite Ep; reflexivity).
    destruct (svNew th k _ _); reflexivity.
  - destruct (mapM _ (chain pts)); reflexivity.
Qed.

Lemma fixOrder_length (p q : pt float) : svLength (N := FNum) (segOrder (N := FNum) (mkSeg p q)) = distPP (N := FNum) p q.
Proof.
  unfold segOrder, fixOrder. cbn [sA sB]. destruct (ptLt (N := FNum) p q); cbn [negb]; unfold svLength; cbn [sA sB]; [reflexivity|].
  now destruct (C187_points (thr0 (N := FNum)) q p).
Qed.

(** ** The running sum *)

Definition farEnough (e : pt float * pt float) : Prop :=
  moderate (fst e) /\ moderate (snd e) /\ away (toR (px (fst e)) - toR (px (snd e))) /\ away (toR (py (fst e)) - toR (py (snd e))).
Definition lenR (e : pt R * pt R) : R := edist (fst e) (snd e).

Lemma edist_bound p q : moderate p -> moderate q -> 0 <= edist (toRp p) (toRp q) <= 2 ^ 502.
Proof.
  intros [_ [Bx1 By1]] [_ [Bx2 By2]]. unfold edist, toRp, Rsqr. cbn [px py]. split; [apply sqrt_pos|].
  assert (K : 2 ^ 502 = 4 * 2 ^ 500) by (change 502%nat with (2 + 500)%nat; rewrite pow_add; lra). set (M := 2 ^ 500) in *. rewrite K. clearbody M.
  apply Rle_trans with (R_sqrt.sqrt (4 * M * (4 * M))); [|rewrite sqrt_square; [lra|pose proof (Rabs_pos (toR (px p))); lra]]. apply sqrt_le_1_alt.
  assert (S : forall x y, Rabs x <= M -> Rabs y <= M -> (x - y) * (x - y) <= 4 * (M * M)).
  { intros x y A B. assert (- M <= x <= M) by (revert A; unfold Rabs; destruct (Rcase_abs _); lra). assert (- M <= y <= M) by (revert B; unfold Rabs; destruct (Rcase_abs _); lra).
    assert (0 <= (2 * M - (x - y)) * (2 * M + (x - y))) by (apply Rmult_le_pos; lra). lra. }
  pose proof (S _ _ Bx1 Bx2). pose proof (S _ _ By1 By2). assert (0 <= M * M) by apply Rle_0_sqr. lra.
Qed.

Lemma len_fold es : Forall farEnough es -> forall a A g, fin a -> 0 <= A -> 1 + 6 * ulp1 <= g -> Rabs (toR a - A) <= (g - 1) * A ->
  A + INR (length es) * 2 ^ 502 <= 2 ^ 1020 -> g * (1 + ulp1) ^ (length es) <= 2 ->
  let r := fold_left (fun s e => (s + distPP (N := FNum) (fst e) (snd e))%float) es a in
  let Y := A + sumOver lenR (map edgeR es) in fin r /\ Rabs (toR r - Y) <= (g * (1 + ulp1) ^ (length es) - 1) * Y.
Proof.
  pose proof ulp1_pos as U. induction 1 as [|e es (M1 & M2 & W1 & W2) _ IH]; intros a A g Fa PA G E B Gn; cbv zeta.
  - cbn [fold_left map sumOver length pow]. rewrite Rplus_0_r, Rmult_1_r. split; assumption.
  - cbn [fold_left map sumOver length] in *. rewrite S_INR in B. cbn [pow] in Gn |- *. destruct (dist_err _ _ M1 M2 W1 W2) as [_ [Ft Et]].
    pose proof (edist_bound _ _ M1 M2) as [PT BT]. rewrite (Rabs_right (edist _ _)) in Et by lra. unfold lenR at 1 3. cbn [edgeR fst snd].
    set (t := distPP (N := FNum) (fst e) (snd e)) in *. set (T := edist (toRp (fst e)) (toRp (snd e))) in *.
    assert (Pn : 1 <= (1 + ulp1) ^ length es) by (apply pow_R1_Rle; lra). assert (0 <= INR (length es) * 2 ^ 502) by (apply Rmult_le_pos; [apply pos_INR|apply pow_le; lra]).
    assert (G2 : g <= 2).
    { apply Rle_trans with (g * ((1 + ulp1) * (1 + ulp1) ^ length es)); [|exact Gn]. rewrite <- (Rmult_1_r g) at 1. apply Rmult_le_compat_l; [lra|]. apply Rle_trans with (1 * 1); [lra|]. apply Rmult_le_compat; lra. }
    assert (Eg : 6 * ulp1 * T <= (g - 1) * T) by (apply Rmult_le_compat_r; lra).
    assert (E1 : Rabs (toR a + toR t - (A + T)) <= (g - 1) * (A + T)).
    { replace (toR a + toR t - (A + T)) with ((toR a - A) + (toR t - T)) by ring. eapply Rle_trans; [apply Rabs_triang|]. lra. }
    pose proof (abs_diff _ _ _ E1) as E2. rewrite (Rabs_right (A + T)) in E2 by lra.
    assert (E3 : g * (A + T) <= 2 * (A + T)) by (apply Rmult_le_compat_r; lra).
    assert (K : 2 ^ 1023 = 8 * 2 ^ 1020) by (change 1023%nat with (3 + 1020)%nat; rewrite pow_add; lra). assert (0 < 2 ^ 1020) by (apply pow_lt; lra).
    assert (Fs : fin (a + t)%float) by (apply big_fin with (1 := add_rnd a t Fa Ft); lra).
    pose proof (add_err a t Fa Ft Fs) as Es. assert (ulp1 * Rabs (toR a + toR t) <= ulp1 * (g * (A + T))) by (apply Rmult_le_compat_l; lra).
    assert (E4 : Rabs (toR (a + t)%float - (A + T)) <= (g * (1 + ulp1) - 1) * (A + T)).
    { replace (toR (a + t)%float - (A + T)) with ((toR (a + t)%float - (toR a + toR t)) + (toR a + toR t - (A + T))) by ring. eapply Rle_trans; [apply Rabs_triang|]. lra. }
    assert (1 + 6 * ulp1 <= g * (1 + ulp1)) by (assert (g * 1 <= g * (1 + ulp1)) by (apply Rmult_le_compat_l; lra); lra).
    destruct (IH (a + t)%float (A + T) (g * (1 + ulp1)) Fs ltac:(lra) H2 E4 ltac:(lra) ltac:(rewrite Rmult_assoc; exact Gn)) as [Fr Er]. split; [exact Fr|].
    rewrite <- Rmult_assoc, <- Rplus_assoc. exact Er.
Qed.

Lemma sides_map {A B} (f : A -> B) closed l : sides closed (map f l) = map (fun e => (f (fst e), f (snd e))) (sides closed l).
Proof.
  destruct closed; cbn [sides]; [apply cyc_map|]. unfold chain. destruct l as [|a l]; [reflexivity|]. cbn [map tl].
  revert a. induction l as [|b l IH]; intro a; [reflexivity|]. cbn [map combine]. cbn [map combine] in IH. now rewrite <- IH.
Qed.
Lemma sumOver_ext {A B} (f : B -> R) (g : A -> R) (h : A -> B) l : (forall x, f (h x) = g x) -> sumOver f (map h l) = sumOver g l.
Proof. intro H. induction l as [|x l IH]; cbn [map sumOver]; [reflexivity|]. now rewrite H, IH. Qed.
Lemma sides_len_le {A} closed (l : list A) : (length (sides closed l) <= length l)%nat.
Proof. destruct closed; cbn [sides]; [rewrite cyc_length; lia|]. unfold chain. rewrite combine_length. lia. Qed.

Lemma length_err th closed l : (2 <= length l)%nat -> (Z.of_nat (length l) <= 100000)%Z -> fin (nullDistance th) ->
  (forall e, In e (sides closed l) -> farEnough e /\ toR (nullDistance th) <= edist (toRp (fst e)) (toRp (snd e)) * (1 - 6 * ulp1)) ->
  exists v, lengthCalc (N := FNum) th closed l = Ok v /\ relErr (2 * INR (length l) + 7) v (sumOver lenR (sides closed (map toRp l))).
Proof.
  intros L2 Ln Ft H. unfold lengthCalc. rewrite plSegs_any by exact L2.
  rewrite (mapM_ok _ (fun e => segOrder (N := FNum) (mkSeg (fst e) (snd e)))).
  2:{ intros e I. destruct (H e I) as [(M1 & M2 & W1 & W2) D]. unfold svNew. destruct (C199_equal th _ _ M1 M2 W1 W2 Ft) as [_ Q]. now rewrite (Q D). }
  cbn [bind]. eexists. split; [reflexivity|].
  assert (Ef : forall es a, fold_left (fun (sum : float) s => nadd (Num := FNum) sum (svLength (N := FNum) s)) (map (fun e => segOrder (N := FNum) (mkSeg (fst e) (snd e))) es) a
    = fold_left (fun s e => (s + distPP (N := FNum) (fst e) (snd e))%float) es a).
  { induction es as [|e es IH]; intro a; [reflexivity|]. cbn [map fold_left]. rewrite fixOrder_length. apply IH. }
  rewrite Ef. rewrite sides_map. change (fun e : pt float * pt float => (toRp (fst e), toRp (snd e))) with edgeR.
  assert (F : Forall farEnough (sides closed l)) by (apply Forall_forall; intros e I; now apply H).
  pose proof ulp1_pos as U. pose proof (sides_len_le closed l) as Ll. set (es := sides closed l) in *. set (n := length l) in *.
  assert (Hn : INR n <= 100000) by (rewrite INR_IZR_INZ; now apply IZR_le). assert (Hm : INR (length es) <= INR n) by (now apply le_INR).
  pose proof (pos_INR (length es)) as Pm. assert (U2 : ulp1 <= / 9000000000000000) by (unfold ulp1; apply Rinv_le_contravar; [lra|]; rewrite pow_IZR; apply IZR_le; vm_compute; discriminate).
  assert (Gw : (1 + ulp1) ^ length es <= 1 + 2 * INR (length es) * ulp1).
  { apply pow_growth. assert (INR (length es) * ulp1 <= 100000 * / 9000000000000000) by (apply Rmult_le_compat; lra). lra. }
  assert (Gn : (1 + 6 * ulp1) * (1 + ulp1) ^ length es <= 1 + (2 * INR n + 7) * ulp1).
  { apply Rle_trans with ((1 + 6 * ulp1) * (1 + 2 * INR (length es) * ulp1)); [apply Rmult_le_compat_l; lra|].
    assert (12 * INR (length es) * ulp1 <= 1). { assert (INR (length es) * ulp1 <= 100000 * / 9000000000000000) by (apply Rmult_le_compat; lra). lra. }
    assert (ulp1 * (12 * INR (length es) * ulp1) <= ulp1 * 1) by (apply Rmult_le_compat_l; lra).
    assert (INR (length es) * ulp1 <= INR n * ulp1) by (apply Rmult_le_compat_r; lra). lra. }
  assert (G2 : (1 + 6 * ulp1) * (1 + ulp1) ^ length es <= 2).
  { eapply Rle_trans; [exact Gn|]. assert ((2 * INR n + 7) * ulp1 <= 200007 * / 9000000000000000) by (apply Rmult_le_compat; lra). lra. }
  assert (Bg : 0 + INR (length es) * 2 ^ 502 <= 2 ^ 1020).
  { rewrite Rplus_0_l. apply Rle_trans with (2 ^ 20 * 2 ^ 502); [apply Rmult_le_compat_r; [apply pow_le; lra|]; assert (2 ^ 20 = 1048576) by (rewrite pow_IZR; reflexivity); lra|].
    rewrite <- pow_add. apply Rle_pow; [lra|lia]. }
  change (@nZ _ FNum 0) with 0%float.
  destruct (len_fold es F 0%float 0 (1 + 6 * ulp1) eq_refl (Rle_refl 0) (Rle_refl _)) as [Fr Er]; [change (toR 0%float) with 0; rewrite Rminus_0_r, Rabs_R0; lra|exact Bg|exact G2|].
  rewrite Rplus_0_l in Er. split; [exact Fr|]. set (Y := sumOver lenR (map edgeR es)) in *.
  assert (PY : 0 <= Y). { unfold Y. clear. induction es as [|e es IH]; cbn [map sumOver]; [lra|]. assert (0 <= lenR (edgeR e)) by apply sqrt_pos. lra. }
  rewrite (Rabs_right Y) by lra. eapply Rle_trans; [exact Er|]. apply Rmult_le_compat_r; lra.
Qed.
