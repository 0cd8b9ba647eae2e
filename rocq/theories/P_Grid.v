(** * Axis-parallel figures on a grid

    The coordinates of the figures are images of indexes by two maps X, Y whose consecutive values
    are at least nullDistance apart.  Every comparison made by the code is then decided by the
    indexes; the results below replace a run over the reals by a run over indexes. *)

From Coq Require Import Reals Lra Lia List Bool Arith.
From Verif Require Import Num M_LP M_Seg M_Circle M_Poly M_FRect S_Geom S_Seg S_FRect P_LP P_LP2 P_LP3 P_LP4 P_LP5 P_Seg P_Circle.
Import ListNotations.
Local Open Scope R_scope.

(** A strictly increasing sequence with steps of at least d. *)
Definition gaps (d : R) (X : nat -> R) : Prop := forall k, X k + d <= X (S k).

Lemma gaps_lt d X i j : 0 < d -> gaps d X -> (i < j)%nat -> X i + d <= X j.
Proof.
  intros Hd H. induction 1 as [|m Hm IH]; [apply H|]. pose proof (H m). lra.
Qed.
Lemma gaps_cmp d X i j : 0 < d -> gaps d X ->
  match Nat.compare i j with Lt => X i + d <= X j | Eq => X i = X j | Gt => X j + d <= X i end.
Proof.
  intros Hd H. destruct (Nat.compare i j) eqn:E.
  - apply Nat.compare_eq in E. now subst.
  - apply Nat.compare_lt_iff in E. now apply gaps_lt.
  - apply Nat.compare_gt_iff in E. now apply gaps_lt.
Qed.
Lemma gaps_inj d X i j : 0 < d -> gaps d X -> X i = X j -> i = j.
Proof.
  intros Hd H E. pose proof (gaps_cmp d X i j Hd H). destruct (Nat.compare i j) eqn:C; try lra.
  now apply Nat.compare_eq.
Qed.
Lemma gaps_ltb d X i j : 0 < d -> gaps d X -> Rltb (X i) (X j) = (i <? j)%nat.
Proof.
  intros Hd H. pose proof (gaps_cmp d X i j Hd H). destruct (Nat.ltb_spec i j) as [L|L].
  - apply Nat.compare_lt_iff in L. rewrite L in H0. apply Rltb_spec. lra.
  - apply Nat.compare_ge_iff in L. apply Rltb_false. destruct (Nat.compare i j); try congruence; lra.
Qed.
Lemma gaps_eqb d X i j : 0 < d -> gaps d X -> Reqb (X i) (X j) = (i =? j)%nat.
Proof.
  intros Hd H. destruct (Nat.eqb_spec i j) as [->|L]; [now apply Reqb_spec|].
  apply Reqb_false. intros E. now apply (gaps_inj d X i j) in E.
Qed.

(** Index points and index segments. *)
Definition ipt := (nat * nat)%type.
Definition iEq (a b : ipt) : bool := (fst a =? fst b)%nat && (snd a =? snd b)%nat.
Definition iLt (a b : ipt) : bool := (fst a <? fst b)%nat || ((fst a =? fst b)%nat && (snd a <? snd b)%nat).
Definition iseg := (ipt * ipt)%type.

Lemma iEq_spec a b : iEq a b = true <-> a = b.
Proof.
  unfold iEq. rewrite andb_true_iff, !Nat.eqb_eq. destruct a, b; cbn. split; [intros [-> ->]; auto | intros [= -> ->]; auto].
Qed.

(** Axis-parallel segments with ordered ends. *)
Definition iVert (s : iseg) : bool := (fst (fst s) =? fst (snd s))%nat && (snd (fst s) <? snd (snd s))%nat.
Definition iHori (s : iseg) : bool := (snd (fst s) =? snd (snd s))%nat && (fst (fst s) <? fst (snd s))%nat.
Definition iAxis (s : iseg) : bool := iVert s || iHori s.

(** Intersection on indexes. *)
Definition iInter (s t : iseg) : option ipt :=
  let cross (v h : iseg) :=
    let x := fst (fst v) in let y := snd (fst h) in
    if (fst (fst h) <=? x)%nat && (x <=? fst (snd h))%nat && (snd (fst v) <=? y)%nat && (y <=? snd (snd v))%nat
    then Some (x, y) else None in
  if iVert s then (if iVert t then None else cross s t)
  else if iVert t then cross t s else None.

Definition iNew (a b : ipt) : res iseg := if iEq a b then Throw else Ok (if iLt a b then (a, b) else (b, a)).

Section Grid.
  Variables (th : thrs R) (X Y : nat -> R).
  Hypothesis Hth : thr_rect th.
  Hypothesis HX : gaps (nullDistance th) X.
  Hypothesis HY : gaps (nullDistance th) Y.

  Notation d := (nullDistance th).
  Lemma dpos : 0 < d. Proof. apply (proj1 Hth). Qed.
  Hint Resolve dpos : core.

  Definition emb (a : ipt) : pt R := mkPt (X (fst a)) (Y (snd a)).
  Definition embS (s : iseg) : seg R := mkSeg (emb (fst s)) (emb (snd s)).

  Lemma X_ltb i j : Rltb (X i) (X j) = (i <? j)%nat. Proof. now apply (gaps_ltb d). Qed.
  Lemma Y_ltb i j : Rltb (Y i) (Y j) = (i <? j)%nat. Proof. now apply (gaps_ltb d). Qed.
  Lemma X_eqb i j : Reqb (X i) (X j) = (i =? j)%nat. Proof. now apply (gaps_eqb d). Qed.
  Lemma Y_eqb i j : Reqb (Y i) (Y j) = (i =? j)%nat. Proof. now apply (gaps_eqb d). Qed.


  Lemma X_min i j : @nmin R RNum (X i) (X j) = X (Nat.min i j).
  Proof.
    unfold nmin. rnum. rewrite X_ltb. destruct (Nat.ltb_spec j i); f_equal; lia.
  Qed.
  Lemma Y_min i j : @nmin R RNum (Y i) (Y j) = Y (Nat.min i j).
  Proof.
    unfold nmin. rnum. rewrite Y_ltb. destruct (Nat.ltb_spec j i); f_equal; lia.
  Qed.
  Lemma X_max i j : @nmax R RNum (X i) (X j) = X (Nat.max i j).
  Proof.
    unfold nmax. rnum. rewrite X_ltb. destruct (Nat.ltb_spec i j); f_equal; lia.
  Qed.
  Lemma Y_max i j : @nmax R RNum (Y i) (Y j) = Y (Nat.max i j).
  Proof.
    unfold nmax. rnum. rewrite Y_ltb. destruct (Nat.ltb_spec i j); f_equal; lia.
  Qed.

  Lemma emb_far a b : a <> b -> d <= edist (emb a) (emb b).
  Proof.
    intros H. destruct (edist_coord (emb a) (emb b)) as [A B]. destruct a as [i j], b as [k l]; cbn in A, B.
    assert (D := dpos). pose proof (gaps_cmp d X i k D HX) as CX. pose proof (gaps_cmp d Y j l D HY) as CY.
    destruct (Nat.compare i k) eqn:E.
    - apply Nat.compare_eq in E. destruct (Nat.compare j l) eqn:F.
      + apply Nat.compare_eq in F. congruence.
      + eapply Rle_trans; [|apply B]. rewrite Rabs_left1; lra.
      + eapply Rle_trans; [|apply B]. rewrite Rabs_right; lra.
    - eapply Rle_trans; [|apply A]. rewrite Rabs_left1; lra.
    - eapply Rle_trans; [|apply A]. rewrite Rabs_right; lra.
  Qed.
  Lemma emb_inj a b : emb a = emb b -> a = b.
  Proof.
    intros E. destruct (iEq a b) eqn:I; [now apply iEq_spec|]. exfalso.
    assert (a <> b) as N by (intros F; apply iEq_spec in F; congruence).
    apply emb_far in N. rewrite E, edist_refl in N. pose proof dpos. lra.
  Qed.

  Lemma emb_ptEq a b : ptEq th (emb a) (emb b) = iEq a b.
  Proof.
    destruct (iEq a b) eqn:I.
    - apply iEq_spec in I. subst. apply ptEq_spec. rewrite edist_refl. apply dpos.
    - apply ptEq_false, emb_far. intros E. apply iEq_spec in E. congruence.
  Qed.
  Lemma emb_ptLt a b : ptLt (emb a) (emb b) = iLt a b.
  Proof.
    destruct a as [i j], b as [k l]. unfold ptLt, iLt, emb. cbn [fst snd px py]. rnum.
    rewrite !X_ltb, !Y_ltb.
    destruct (Nat.ltb_spec i k), (Nat.ltb_spec k i), (Nat.eqb_spec i k), (j <? l)%nat; try lia; reflexivity.
  Qed.

  Lemma emb_svNew a b : svNew th KSeg (emb a) (emb b) = (do s <- iNew a b; Ok (embS s)).
  Proof.
    unfold svNew, iNew. rewrite emb_ptEq. destruct (iEq a b); [reflexivity|]. cbn [bind]. f_equal.
    unfold segOrder, fixOrder. cbn [sA sB]. rewrite emb_ptLt. destruct (iLt a b); reflexivity.
  Qed.

  Lemma emb_svEq s t : svEq th (embS s) (embS t) = iEq (fst s) (fst t) && iEq (snd s) (snd t).
  Proof.
    unfold svEq, embS. cbn [sA sB]. rewrite !emb_ptEq. destruct (iEq _ _), (iEq _ _); reflexivity.
  Qed.

  Lemma edist_v x y y' : edist (mkPt x y) (mkPt x y') = Rabs (y - y').
  Proof. apply edist_val; [apply Rabs_pos|]. cbn. rewrite <- Rabs_mult, Rabs_right; [ring|]. apply Rle_ge, Rle_0_sqr. Qed.
  Lemma edist_h x x' y : edist (mkPt x y) (mkPt x' y) = Rabs (x - x').
  Proof. apply edist_val; [apply Rabs_pos|]. cbn. rewrite <- Rabs_mult, Rabs_right; [ring|]. apply Rle_ge, Rle_0_sqr. Qed.

  (** Lines of axis-parallel segments. *)
  Lemma svLine_vert s : iVert s = true -> svLine th (embS s) = Ok (mkL 1 0 (- X (fst (fst s)))).
  Proof.
    destruct Hth as (Ht & O & E). destruct s as [[i j] [k l]]. unfold iVert. cbn [fst snd].
    rewrite andb_true_iff, Nat.eqb_eq, Nat.ltb_lt. intros [<- L].
    assert (G := gaps_lt d Y j l dpos HY L). pose proof dpos as D.
    unfold svLine, lineOf, embS. cbn [sA sB fst snd]. rewrite emb_ptEq.
    replace (iEq (i, j) (i, l)) with false
      by (symmetry; apply not_true_is_false; rewrite iEq_spec; intros [= F]; lia).
    unfold crossPP, hOfPt, emb. cbn [h0 h1 h2 px py fst snd]. rnum.
    rewrite (lnorm_eval_neg th _ _ _ (Y l - Y j)).
    - f_equal. f_equal; field; lra.
    - auto.
    - lra.
    - ring.
    - assert (nullDenom th * (Y l - Y j) <= 1 * (Y l - Y j)); [|lra].
      apply Rmult_le_compat_r; [lra|]. pose proof (thr_deno _ Ht). lra.
  Qed.
  Lemma svLine_hori s : iHori s = true -> svLine th (embS s) = Ok (mkL 0 1 (- Y (snd (fst s)))).
  Proof.
    destruct Hth as (Ht & O & E). destruct s as [[i j] [k l]]. unfold iHori. cbn [fst snd].
    rewrite andb_true_iff, Nat.eqb_eq, Nat.ltb_lt. intros [<- L].
    assert (G := gaps_lt d X i k dpos HX L). pose proof dpos as D.
    unfold svLine, lineOf, embS. cbn [sA sB fst snd]. rewrite emb_ptEq.
    replace (iEq (i, j) (k, j)) with false
      by (symmetry; apply not_true_is_false; rewrite iEq_spec; intros [= F]; lia).
    unfold crossPP, hOfPt, emb. cbn [h0 h1 h2 px py fst snd]. rnum.
    replace (Y j * 1 - 1 * Y j) with 0 by ring.
    rewrite lnorm_eval_h; auto.
    - f_equal. f_equal; field; lra.
    - rewrite Rabs_right; lra.
  Qed.

  Lemma vv_par x y : isParallel th (mkL 1 0 x) (mkL 1 0 y) = true.
  Proof. apply isParallel_para; [apply Hth|..]; unfold proper, paraL; cbn; lra. Qed.
  Lemma hh_par x y : isParallel th (mkL 0 1 x) (mkL 0 1 y) = true.
  Proof. apply isParallel_para; [apply Hth|..]; unfold proper, paraL; cbn; lra. Qed.
  Lemma vh_par x y : isParallel th (mkL 1 0 x) (mkL 0 1 y) = false.
  Proof. apply ortho_notpar; [apply Hth|..]; unfold unitL, orthoL; cbn; lra. Qed.
  Lemma hv_par x y : isParallel th (mkL 0 1 x) (mkL 1 0 y) = false.
  Proof. apply ortho_notpar; [apply Hth|..]; unfold unitL, orthoL; cbn; lra. Qed.
  Lemma vh_meet x y : meet th (mkL 1 0 (- x)) (mkL 0 1 (- y)) = Ok (mkPt x y).
  Proof.
    unfold meet, meetH. rewrite vh_par. cbn [bind]. unfold ptOfH, crossLL. cbn [la lb lc h0 h1 h2]. rnum.
    replace (Reqb (1 * 1 - 0 * 0) 0) with false by (symmetry; apply Reqb_false; lra).
    f_equal. f_equal; field.
  Qed.
  Lemma hv_meet x y : meet th (mkL 0 1 (- y)) (mkL 1 0 (- x)) = Ok (mkPt x y).
  Proof.
    unfold meet, meetH. rewrite hv_par. cbn [bind]. unfold ptOfH, crossLL. cbn [la lb lc h0 h1 h2]. rnum.
    replace (Reqb (0 * 0 - 1 * 1) 0) with false by (symmetry; apply Reqb_false; lra).
    f_equal. f_equal; field.
  Qed.

  (** The test "the sum of the distances is the length" on a vertical, then horizontal, segment. *)
  Lemma sum_test Z j l k : gaps d Z -> (j < l)%nat ->
    Rltb (Rabs (Rabs (Z j - Z k) + Rabs (Z l - Z k) - Rabs (Z j - Z l))) d = (j <=? k)%nat && (k <=? l)%nat.
  Proof.
    intros HZ L. pose proof dpos as D. pose proof (gaps_lt d Z j l D HZ L).
    rewrite (Rabs_left1 (Z j - Z l)) by lra.
    destruct (Nat.leb_spec j k) as [A|A]; [destruct (Nat.leb_spec k l) as [B|B]|]; cbn.
    - apply Rltb_spec. assert (Z j <= Z k). { pose proof (gaps_cmp d Z j k D HZ). destruct (Nat.compare j k) eqn:E; try lra. apply Nat.compare_gt_iff in E. lia. }
      assert (Z k <= Z l). { pose proof (gaps_cmp d Z k l D HZ). destruct (Nat.compare k l) eqn:E; try lra. apply Nat.compare_gt_iff in E. lia. }
      rewrite (Rabs_left1 (Z j - Z k)), (Rabs_right (Z l - Z k)) by lra.
      replace (_ + _ - _) with 0 by ring. rewrite Rabs_R0. lra.
    - pose proof (gaps_lt d Z l k D HZ B). apply Rltb_false.
      rewrite (Rabs_left1 (Z j - Z k)), (Rabs_left1 (Z l - Z k)) by lra. rewrite Rabs_right; lra.
    - pose proof (gaps_lt d Z k j D HZ A). apply Rltb_false.
      rewrite (Rabs_right (Z j - Z k)), (Rabs_right (Z l - Z k)) by lra. rewrite Rabs_right; lra.
  Qed.

  Lemma axis_cases s : iAxis s = true -> (iVert s = true /\ iHori s = false) \/ (iVert s = false /\ iHori s = true).
  Proof.
    unfold iAxis, iVert, iHori. destruct s as [[i j] [k l]]. cbn [fst snd].
    destruct (Nat.eqb_spec i k), (Nat.eqb_spec j l), (Nat.ltb_spec i k), (Nat.ltb_spec j l); cbn; try lia; auto; intros; discriminate.
  Qed.

  Lemma emb_segInter s t : iAxis s = true -> iAxis t = true ->
    segInterSeg th (embS s) (embS t) = Ok (option_map emb (iInter s t)).
  Proof.
    intros As At. unfold segInterSeg. rewrite emb_svEq.
    destruct (iEq (fst s) (fst t) && iEq (snd s) (snd t)) eqn:Q.
    { apply andb_prop in Q. destruct Q as [Q1 Q2]. apply iEq_spec in Q1, Q2.
      assert (s = t) by (destruct s, t; cbn in *; congruence). subst t.
      unfold iInter. destruct (iVert s) eqn:V; reflexivity. }
    clear Q. unfold iInter.
    destruct (axis_cases s As) as [[Vs Hs]|[Vs Hs]]; destruct (axis_cases t At) as [[Vt H't]|[Vt H't]]; rewrite Vs, Vt.
    - rewrite !svLine_vert by auto. cbn [bind]. now rewrite vv_par.
    - rewrite (svLine_vert s), (svLine_hori t) by auto. cbn [bind]. rewrite vh_par, vh_meet. cbn [bind].
      destruct s as [[i j] [k l]], t as [[i' j'] [k' l']]. unfold iVert, iHori in *. cbn [fst snd] in *.
      apply andb_prop in Vs, H't. destruct Vs as [V1 V2], H't as [H1 H2].
      apply Nat.eqb_eq in V1, H1. apply Nat.ltb_lt in V2, H2. subst k l'.
      unfold svLength, embS. cbn [sA sB fst snd]. change (@distPP R RNum) with edist. unfold emb. cbn [fst snd].
      rewrite !edist_v, !edist_h. rnum. rewrite (sum_test Y j l j') by auto. rewrite (sum_test X i' k' i) by auto.
      destruct (i' <=? i)%nat, (i <=? k')%nat, (j <=? j')%nat, (j' <=? l)%nat; reflexivity.
    - rewrite (svLine_hori s), (svLine_vert t) by auto. cbn [bind]. rewrite hv_par, hv_meet. cbn [bind].
      destruct s as [[i j] [k l]], t as [[i' j'] [k' l']]. unfold iVert, iHori in *. cbn [fst snd] in *.
      apply andb_prop in Vt, Hs. destruct Vt as [V1 V2], Hs as [H1 H2].
      apply Nat.eqb_eq in V1, H1. apply Nat.ltb_lt in V2, H2. subst k' l.
      unfold svLength, embS. cbn [sA sB fst snd]. change (@distPP R RNum) with edist. unfold emb. cbn [fst snd].
      rewrite !edist_v, !edist_h. rnum. rewrite (sum_test X i k i') by auto. rewrite (sum_test Y j' l' j) by auto.
      destruct (i <=? i')%nat, (i' <=? k)%nat, (j' <=? j)%nat, (j <=? l')%nat; reflexivity.
    - rewrite !svLine_hori by auto. cbn [bind]. now rewrite hh_par.
  Qed.
End Grid.
