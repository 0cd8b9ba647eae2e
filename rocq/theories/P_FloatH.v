(** * The hull of points with double coordinates *)

From Coq Require Import Reals Lra ZArith Floats Bool Lia List Permutation.
From Verif Require Import Num FloatFuns M_LP M_Seg M_Circle M_Poly M_Hull M_Misc S_Geom S_Hull P_LP P_Hull S_Float S_FloatZ S_FloatR P_Float P_FloatZ P_FloatZ2 P_FloatR P_FloatE C_FloatZ.
Import ListNotations.
Local Open Scope R_scope.

Lemma insert_ext2 f g x l : (forall b, In b l -> f x b = g x b) -> hullInsert f x l = hullInsert g x l.
Proof. intro H. induction l as [|y l IH]; cbn; [reflexivity|]. rewrite H by (now left). rewrite IH; [reflexivity|]. intros b I. apply H. now right. Qed.
Lemma sort_ext2 f g l : NoDup l -> (forall a b, In a l -> In b l -> a <> b -> f a b = g a b) -> hullSort f l = hullSort g l.
Proof.
  intros Nd H. unfold hullSort. assert (A : forall m acc, NoDup (m ++ acc) -> incl (m ++ acc) l ->
    fold_left (fun acc x => hullInsert f x acc) m acc = fold_left (fun acc x => hullInsert g x acc) m acc).
  { induction m as [|x m IH]; intros acc N I; cbn; [reflexivity|].
    rewrite (insert_ext2 f g x acc).
    - apply IH.
      + apply Permutation_NoDup with (2 := N). cbn. rewrite insert_perm. apply Permutation_middle.
      + intros y Hy. apply I. apply Permutation_in with (2 := Hy). rewrite insert_perm. symmetry. apply Permutation_middle.
    - intros b Hb. apply H; [apply I; now left|apply I; right; apply in_or_app; now right|]. intros <-. cbn in N. inversion N as [|? ? K _]. apply K. apply in_or_app. now right. }
  apply A; rewrite app_nil_r; [exact Nd|apply incl_refl].
Qed.

(** The three positions looked at are increasing. *)
Fixpoint dec (fp : list nat) : Prop := match fp with a :: ((b :: _) as r) => (b < a)%nat /\ dec r | _ => True end.
Lemma loop_ext2 {T U} {N : Num T} {M : Num U} (g : nat -> pt T) (h : nat -> pt U) v :
  (forall i j k, (i < j < k)%nat -> (k < length v)%nat -> hullOrient (g i) (g j) (g k) = hullOrient (h i) (h j) (h k)) ->
  forall fuel hull fp i1 i2 i3, dec fp -> hd i1 fp = i1 -> (i1 < i2 < i3)%nat -> (i3 < length v)%nat ->
  hullLoop g v fuel hull fp i1 i2 i3 = hullLoop h v fuel hull fp i1 i2 i3.
Proof.
  intro H. induction fuel as [|f IH]; intros hull fp i1 i2 i3 D Hd L L3; cbn [hullLoop]; [reflexivity|]. rewrite H by assumption.
  destruct (hullOrient (h i1) (h i2) (h i3) =? 1)%Z.
  - destruct fp as [|a [|k fp]]; cbn [tl]; try reflexivity. cbn in Hd. subst a. cbn in D. destruct D as [D1 D2]. apply IH; [exact D2|reflexivity|lia|exact L3].
  - destruct (i3 + 1 <? length v)%nat eqn:E; [|reflexivity]. apply Nat.ltb_lt in E. apply IH; [|reflexivity|lia|exact E].
    destruct fp as [|a fp]; cbn; [exact I|]. cbn in Hd. subst a. split; [lia|exact D].
Qed.

Lemma mod_x p : moderate p -> modest (px p). Proof. intros [[A _] [B _]]. now split. Qed.
Lemma mod_y p : moderate p -> modest (py p). Proof. intros [[_ A] [_ B]]. now split. Qed.
Lemma tiny_2 : 0 < 2 * pw (-1075) < / 10 ^ 30.
Proof.
  pose proof (pw_pos (-1075)). assert (pw (-1075) <= pw (-102)) by (apply pw_le; lia). split; [lra|].
  assert (K : pw (-102) = / 5070602400912917605986812821504). { change (-102)%Z with (- Z.of_nat 102)%Z. rewrite pw_npow. f_equal. rewrite pow_IZR. reflexivity. }
  rewrite K in H0. assert (K2 : 10 ^ 30 = 1000000000000000000000000000000) by (rewrite pow_IZR; reflexivity). rewrite K2. lra.
Qed.
Lemma four_ulp : 4 * ulp1 = / 2 ^ 51.
Proof. rewrite ulp1_val. assert (K : 2 ^ 51 = 2251799813685248) by (rewrite pow_IZR; reflexivity). rewrite K. lra. Qed.
Lemma ten15 : 10 ^ 15 = 1000000000000000. Proof. rewrite pow_IZR. reflexivity. Qed.
Lemma ten30 : 10 ^ 30 = 1000000000000000000000000000000. Proof. rewrite pow_IZR. reflexivity. Qed.
Lemma deter_toR : fin (nullDeter (thr0 (N := FNum))) /\ toR (nullDeter (thr0 (N := FNum))) <= 11 / 10 / 10 ^ 15.
Proof.
  split; [reflexivity|]. unfold toR.
  assert (E : Prim2SF (nullDeter (thr0 (N := FNum))) = S754_finite false 5070602400912918 (-102)) by (vm_compute; reflexivity). rewrite E. fold (pw (-102)).
  assert (K : pw (-102) = / 5070602400912917605986812821504) by (change (-102)%Z with (- Z.of_nat 102)%Z; rewrite pw_npow; f_equal; rewrite pow_IZR; reflexivity). rewrite K, ten15. lra.
Qed.

(** ** The two decisions *)

Lemma lt_f p0 p q : moderate p0 -> moderate p -> moderate q -> clearTurn (toRp p0) (toRp p) (toRp q) ->
  hullLt (N := FNum) p0 p q = hullLt (N := RNum) (toRp p0) (toRp p) (toRp q).
Proof.
  intros M0 M1 M2 C. unfold hullLt. cbn [nltb nsub nmul nZ FNum RNum toRp px py]. change (FloatFuns.of_Z 0) with 0%float.
  pose proof (fdet_sign (px p) (px p0) (py q) (py p0) (px q) (px p0) (py p) (py p0) (mod_x _ M1) (mod_x _ M0) (mod_y _ M2) (mod_y _ M0) (mod_x _ M2) (mod_x _ M0) (mod_y _ M1) (mod_y _ M0)) as H.
  unfold fdet, rdet, sdet in H. unfold clearTurn, detSize, cross3, toRp in C. cbn [px py] in C. rewrite (Rmult_comm (toR (py p) - toR (py p0))) in C.
  apply H. rewrite four_ulp. pose proof tiny_2. rewrite ten15 in C. rewrite ten30 in *. lra.
Qed.
Lemma orient_f p q r : moderate p -> moderate q -> moderate r -> clearTurn (toRp q) (toRp r) (toRp p) ->
  hullOrient (N := FNum) p q r = hullOrient (N := RNum) (toRp p) (toRp q) (toRp r).
Proof.
  intros M1 M2 M3 C. unfold hullOrient. cbn [nltb nsub nmul nabs nZ FNum RNum]. change (FloatFuns.of_Z 0) with 0%float.
  change (px (toRp p)) with (toR (px p)). change (px (toRp q)) with (toR (px q)). change (px (toRp r)) with (toR (px r)).
  change (py (toRp p)) with (toR (py p)). change (py (toRp q)) with (toR (py q)). change (py (toRp r)) with (toR (py r)).
  pose proof (fdet_sign (py q) (py p) (px r) (px q) (px q) (px p) (py r) (py q) (mod_y _ M2) (mod_y _ M1) (mod_x _ M3) (mod_x _ M2) (mod_x _ M2) (mod_x _ M1) (mod_y _ M3) (mod_y _ M2)) as H.
  pose proof (fdet_size (py q) (py p) (px r) (px q) (px q) (px p) (py r) (py q) (mod_y _ M2) (mod_y _ M1) (mod_x _ M3) (mod_x _ M2) (mod_x _ M2) (mod_x _ M1) (mod_y _ M3) (mod_y _ M2)) as G.
  cbv zeta in G. fold (fdet (py q) (py p) (px r) (px q) (px q) (px p) (py r) (py q)). fold (rdet (py q) (py p) (px r) (px q) (px q) (px p) (py r) (py q)).
  assert (E1 : rdet (py q) (py p) (px r) (px q) (px q) (px p) (py r) (py q) = - cross3 (toRp q) (toRp r) (toRp p)) by (unfold rdet, cross3, toRp; cbn [px py]; ring).
  assert (E2 : sdet (py q) (py p) (px r) (px q) (px q) (px p) (py r) (py q) = detSize (toRp q) (toRp r) (toRp p)).
  { unfold sdet, detSize, toRp. cbn [px py]. f_equal; rewrite <- Rabs_Ropp; f_equal; ring. }
  rewrite E1, E2, Rabs_Ropp in *. unfold clearTurn in C. set (c := cross3 _ _ _) in *. set (S := detSize _ _ _) in *. set (v := fdet _ _ _ _ _ _ _ _) in *.
  rewrite <- four_ulp in C. pose proof tiny_2 as Ty. rewrite ten15 in C. rewrite ten30 in Ty. destruct G as [Fv G]. destruct H as [H _]; [lra|]. rewrite H.
  assert (Big : (PrimFloat.abs v <? nullDeter (thr0 (N := FNum)))%float = false).
  { destruct deter_toR as [FD D]. rewrite ten15 in D.
    assert (Fa : fin (PrimFloat.abs v) /\ toR (PrimFloat.abs v) = Rabs (toR v)).
    { rewrite fin_sf. rewrite <- (toR_vR v Fv). unfold toR. rewrite FloatAxioms.abs_spec. rewrite fin_sf in Fv. pose proof (valid_sf v) as Bv. destruct (sf v) as [s|s| |s m e]; cbn [SFabs finS] in *; try tauto.
      - split; [exact I|]. now rewrite vR_zero, Rabs_R0.
      - split; [exact I|]. cbn [valid_binary] in Bv. destruct (valid_bounds m e Bv) as (b1 & _). rewrite vR_finite by lia. change (powerRZ 2 e) with (pw e).
        assert (0 < IZR (Z.pos m) * pw e) by (apply Rmult_lt_0_compat; [apply IZR_lt; lia|apply pw_pos]). destruct s; [rewrite Rabs_left by lra|rewrite Rabs_right by lra]; ring. }
    destruct Fa as [Fa Ta]. apply toR_ge; [exact Fa|exact FD|]. rewrite Ta. pose proof ulp1_pos.
    assert ((1 - ulp1) * (19 / 10000000000000000) <= (1 - ulp1) * (Rabs c - (4 * ulp1 * S + 2 * pw (-1075)))) by (apply Rmult_le_compat_l; lra). lra. }
  rewrite Big. replace (Rltb (Rabs c) (nullDeter (thr0 (N := RNum)))) with false; [reflexivity|]. symmetry. apply Rltb_false. unfold thr0. cbn [nullDeter]. cbn [ndiv nZ RNum].
  assert (0 <= S) by (unfold S, detSize; apply Rplus_le_le_0_compat; apply Rabs_pos). pose proof ulp1_pos. assert (0 <= ulp1 * S) by (apply Rmult_le_pos; lra). lra.
Qed.

(** ** The hull *)

Lemma nth_toRp l i : nth i (map toRp l) pt00 = toRp (nth i l (pt00 (N := FNum))).
Proof. assert (E : pt00 = toRp (pt00 (N := FNum))) by (unfold toRp, pt00; cbn; f_equal; reflexivity). rewrite E. apply map_nth. Qed.

Lemma order_f l : l <> [] -> Forall moderate l -> NoDup (map toRp l) -> clearAll l -> hullOrder (N := FNum) l = hullOrder (N := RNum) (map toRp l).
Proof.
  intros Nn F Nd C. unfold hullOrder. rewrite map_length.
  rewrite <- (minElem_map toRp (ltBm (N := RNum)) (ltBm (N := FNum)) finP ltBm_R l) by (apply Forall_impl with (2 := F); now intros p [A _]).
  destruct (pivot_ex (map toRp l)) as [Hp _]; [intro K; apply map_eq_nil in K; auto|]. rewrite map_length in Hp. set (piv := minElem _ _) in *.
  destruct (swap_head (length l) piv Hp) as (rest & E & P). rewrite E. f_equal.
  assert (NdI : NoDup (piv :: rest)) by (apply (Permutation_NoDup (Permutation_sym P)), seq_NoDup). inversion NdI as [|? ? N1 N2]. subst.
  assert (Lt : forall i, In i (piv :: rest) -> (i < length l)%nat) by (intros i Hi; apply (Permutation_in _ P) in Hi; apply in_seq in Hi; lia).
  rewrite Forall_forall in F. assert (Nd' : NoDup l) by (now apply NoDup_map_inv with (f := toRp)).
  apply sort_ext2; [exact N2|]. intros a b Ia Ib Nab. rewrite !nth_toRp.
  assert (La : (a < length l)%nat) by (apply Lt; now right). assert (Lb : (b < length l)%nat) by (apply Lt; now right).
  assert (In1 : In (nth piv l (pt00 (N := FNum))) l) by now apply nth_In. assert (In2 : In (nth a l (pt00 (N := FNum))) l) by now apply nth_In. assert (In3 : In (nth b l (pt00 (N := FNum))) l) by now apply nth_In.
  assert (Df : forall i j, (i < length l)%nat -> (j < length l)%nat -> i <> j -> nth i l (pt00 (N := FNum)) <> nth j l (pt00 (N := FNum))).
  { intros i j Hi Hj Nij K. apply Nij. apply (proj1 (NoDup_nth l (pt00 (N := FNum))) Nd'); assumption. }
  apply lt_f; auto. apply C; auto; apply Df; auto; intros ->; auto.
Qed.

Lemma loop_in {T} {N : Num T} (g : nat -> pt T) v : forall fuel hull fp i1 i2 i3 idx, hullLoop g v fuel hull fp i1 i2 i3 = Ok idx -> (i3 < length v)%nat -> incl hull v -> incl idx v.
Proof.
  induction fuel as [|f IH]; intros hull fp i1 i2 i3 idx; cbn [hullLoop]; [discriminate|]. intros E L I. destruct (hullOrient (g i1) (g i2) (g i3) =? 1)%Z.
  - destruct (tl fp) as [|k r]; [discriminate|]. apply IH in E; [exact E|exact L|]. destruct hull; [exact I|]. intros x Hx. apply I. now right.
  - assert (I2 : incl (nth i3 v 0%nat :: hull) v) by (intros x [<-|Hx]; [now apply nth_In|now apply I]).
    destruct (i3 + 1 <? length v)%nat eqn:Q; [apply Nat.ltb_lt in Q; now apply IH in E|]. injection E as <-. intros x Hx. apply I2. now apply in_rev.
Qed.
Lemma hull_f l : (4 <= length l)%nat -> Forall moderate l -> NoDup (map toRp l) -> clearAll l ->
  match hullPts (N := FNum) l, hullPts (N := RNum) (map toRp l) with
  | Ok a, Ok b => b = map toRp a /\ incl a l
  | Throw, Throw => True | Undef, Undef => True | _, _ => False
  end.
Proof.
  intros L F Nd C. assert (Nn : l <> []) by (destruct l; [cbn in L; lia|discriminate]).
  assert (Nn2 : map toRp l <> []) by (intro K; apply map_eq_nil in K; auto).
  unfold hullPts. rewrite (order_f l Nn F Nd C). destruct (order_weak (map toRp l) Nn2 Nd) as (P & _ & _). rewrite map_length in *. set (v := hullOrder (map toRp l)) in *. clearbody v.
  assert (Lv : length v = length l) by (apply Permutation_length in P; now rewrite seq_length in P).
  assert (Lt : forall i, (nth i v 0 < length l)%nat).
  { intro i. destruct (Nat.lt_ge_cases i (length v)) as [H|H].
    - assert (K : In (nth i v 0%nat) (seq 0 (length l))) by (apply (Permutation_in _ P); now apply nth_In). apply in_seq in K. lia.
    - rewrite nth_overflow by assumption. lia. }
  assert (Nv : NoDup v) by (apply (Permutation_NoDup (Permutation_sym P)), seq_NoDup).
  assert (Nd' : NoDup l) by (now apply NoDup_map_inv with (f := toRp)). rewrite Forall_forall in F.
  rewrite (loop_ext2 (N := FNum) (M := RNum) _ (fun i => nth (nth i v 0%nat) (map toRp l) pt00)).
  - destruct (hullLoop _ _ _ _ _ _ _ _) as [idx| |] eqn:E; cbn [bind]; try exact I. split.
    + rewrite map_map. apply map_ext. intro i. apply nth_toRp.
    + intros p Hp. apply in_map_iff in Hp. destruct Hp as (i & <- & Hi). destruct (Nat.lt_ge_cases i (length l)) as [H|H]; [now apply nth_In|].
      exfalso. assert (In i v). { apply (loop_in _ _ _ _ _ _ _ _ _ E); [lia| |exact Hi]. intros x [<-|[<-|[<-|[]]]]; apply nth_In; lia. } assert (K : In i (seq 0 (length l))) by (apply (Permutation_in _ P); assumption). apply in_seq in K. lia.
  - intros i j k Hij Hk. rewrite !nth_toRp.
    assert (Df : forall i j, (i < length v)%nat -> (j < length v)%nat -> i <> j -> nth (nth i v 0%nat) l (pt00 (N := FNum)) <> nth (nth j v 0%nat) l (pt00 (N := FNum))).
    { intros a b Ha Hb Nab K. apply Nab. apply (proj1 (NoDup_nth v 0%nat) Nv); auto. apply (proj1 (NoDup_nth l (pt00 (N := FNum))) Nd'); auto. }
    assert (In' : forall i, In (nth (nth i v 0%nat) l (pt00 (N := FNum))) l) by (intro; apply nth_In; apply Lt).
    apply orient_f; auto. apply C; auto; apply Df; lia.
  - cbn. lia.
  - reflexivity.
  - lia.
  - lia.
Qed.
