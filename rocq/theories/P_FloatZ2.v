(** * Binary64 and real evaluations of the model on integer points *)

From Coq Require Import Reals Lra ZArith Floats Bool Lia List Uint63.
From Verif Require Import Num FloatFuns M_LP M_Seg M_Circle M_Poly M_Hull P_LP S_Float S_FloatZ P_Float P_FloatZ.
Import ListNotations.
Local Open Scope Z_scope.

(** ** The value of a double *)

Lemma pow_split : powerRZ 2 (-1074) = (/ IZR (2 ^ 1074))%R.
Proof. unfold powerRZ. rewrite pow_IZR. reflexivity. Qed.
Lemma toR_val x : finS (sf x) -> toR x = (IZR (val (sf x)) * powerRZ 2 (-1074))%R.
Proof.
  unfold toR. pose proof (valid_sf x) as B. destruct (sf x) as [s|s| |s m e]; cbn [finS]; try tauto; intros _; cbn [val]; [ring|].
  cbn [valid_binary] in B. destruct (valid_bounds m e B) as (b & _).
  assert (H : (IZR (mag m e) * powerRZ 2 (-1074) = IZR (Z.pos m) * powerRZ 2 e)%R).
  { unfold mag. rewrite mult_IZR, Rmult_assoc. f_equal.
    assert (K : IZR (2 ^ (e + 1074)) = powerRZ 2 (e + 1074)).
    { rewrite <- (Z2Nat.id (e + 1074)) by lia. rewrite <- pow_IZR, <- pow_powerRZ. reflexivity. }
    rewrite K, <- powerRZ_add by lra. f_equal. lia. }
  destruct s; [rewrite opp_IZR|]; rewrite <- ?Ropp_mult_distr_l, H; ring.
Qed.
Lemma rep_toR x z : rep x z -> toR x = IZR z.
Proof.
  intros [F V]. rewrite toR_val by assumption. rewrite V, mult_IZR, Rmult_assoc, pow_split, Rinv_r, Rmult_1_r; [reflexivity|].
  apply not_0_IZR. pose proof (pow2_pos 1074). lia.
Qed.

(** ** Comparisons *)

Lemma Rltb_Z a b : Rltb (IZR a) (IZR b) = (a <? b).
Proof. destruct (Z.ltb_spec a b) as [H|H]; [apply Rltb_spec; now apply IZR_lt|apply Rltb_false; now apply IZR_le]. Qed.

(** ** Lists of points given by integers *)

Lemma minFrom_map {A B} (f : A -> B) (lt : B -> B -> bool) (lz : A -> A -> bool) (P : A -> Prop) :
  (forall a b, P a -> P b -> lt (f a) (f b) = lz a b) ->
  forall l best bi i, P best -> Forall P l -> minElemFrom lt (f best) bi i (map f l) = minElemFrom lz best bi i l.
Proof.
  intros H. induction l as [|x l IH]; intros best bi i Pb F; [reflexivity|]. inversion F; subst. cbn [map minElemFrom].
  rewrite H by assumption. destruct (lz x best); apply IH; assumption.
Qed.
Lemma minElem_map {A B} (f : A -> B) (lt : B -> B -> bool) (lz : A -> A -> bool) (P : A -> Prop) :
  (forall a b, P a -> P b -> lt (f a) (f b) = lz a b) -> forall l, Forall P l -> minElem lt (map f l) = minElem lz l.
Proof. intros H [|x l] F; [reflexivity|]. inversion F; subst. cbn [map minElem]. now apply (minFrom_map f lt lz P). Qed.

Definition zz : Z * Z := (0, 0).
Lemma nth_g l i : nth i (map gpt l) (pt00 (N := FNum)) = gpt (nth i l zz).
Proof. change (pt00 (N := FNum)) with (gpt zz). apply map_nth. Qed.
Lemma nth_r l i : nth i (map rpt l) (pt00 (N := RNum)) = rpt (nth i l zz).
Proof. change (pt00 (N := RNum)) with (rpt zz). apply map_nth. Qed.
Lemma nth_within k l i : 0 <= k -> Forall (within k) l -> within k (nth i l zz).
Proof.
  intros K F. destruct (Nat.lt_ge_cases i (length l)) as [H|H].
  - rewrite Forall_forall in F. apply F. now apply nth_In.
  - rewrite nth_overflow by assumption. unfold within, zz. cbn. lia.
Qed.

(** ** The decisions of the hull *)

Definition zBm (p q : Z * Z) : bool := if snd p <? snd q then true else if snd q <? snd p then false else fst p <? fst q.
Definition zHull (p0 p q : Z * Z) : Z := (fst p - fst p0) * (snd q - snd p0) - (fst q - fst p0) * (snd p - snd p0).
Definition zOrientV (p q r : Z * Z) : Z := (snd q - snd p) * (fst r - fst q) - (fst q - fst p) * (snd r - snd q).
Definition zOrient (p q r : Z * Z) : Z := if zOrientV p q r =? 0 then 0 else if 0 <? zOrientV p q r then 1 else -1.

Definition k25 : Z := 33554431.
Lemma k25_lim z : - k25 <= z <= k25 -> - lim < z < lim.
Proof. unfold k25, lim. lia. Qed.
Lemma gpt_x p : within k25 p -> rep (px (gpt p)) (fst p).
Proof. intros [A _]. apply rep_ofZ. now apply k25_lim. Qed.
Lemma gpt_y p : within k25 p -> rep (py (gpt p)) (snd p).
Proof. intros [_ A]. apply rep_ofZ. now apply k25_lim. Qed.

Lemma bm_g p q : within k25 p -> within k25 q -> ltBm (N := FNum) (gpt p) (gpt q) = zBm p q.
Proof.
  intros A B. unfold ltBm, zBm. cbn [nltb FNum].
  rewrite (rep_ltb _ _ _ _ (gpt_y p A) (gpt_y q B)), (rep_ltb _ _ _ _ (gpt_y q B) (gpt_y p A)), (rep_ltb _ _ _ _ (gpt_x p A) (gpt_x q B)). reflexivity.
Qed.
Lemma bm_r p q : ltBm (N := RNum) (rpt p) (rpt q) = zBm p q.
Proof. unfold ltBm, zBm, rpt. cbn [nltb RNum px py]. now rewrite !Rltb_Z. Qed.

(** Products of differences of bounded integers. *)
Lemma det_bound a b c d k : 0 <= k -> - k <= a <= k -> - k <= b <= k -> - k <= c <= k -> - k <= d <= k -> - (2 * k * k) <= a * b - c * d <= 2 * k * k.
Proof. intros. assert (- (k * k) <= a * b <= k * k) by nia. assert (- (k * k) <= c * d <= k * k) by nia. lia. Qed.
Lemma prod_bound a b k : 0 <= k -> - k <= a <= k -> - k <= b <= k -> - (k * k) <= a * b <= k * k.
Proof. intros. nia. Qed.

Lemma rep_det x y z w a b c d : rep x a -> rep y b -> rep z c -> rep w d ->
  - (2 * k25) <= a <= 2 * k25 -> - (2 * k25) <= b <= 2 * k25 -> - (2 * k25) <= c <= 2 * k25 -> - (2 * k25) <= d <= 2 * k25 ->
  rep (x * y - z * w)%float (a * b - c * d).
Proof.
  intros X Y Z W A B C D. pose proof (prod_bound a b (2 * k25) ltac:(unfold k25; lia) A B) as U. pose proof (prod_bound c d (2 * k25) ltac:(unfold k25; lia) C D) as V.
  assert (K : 2 * (2 * k25 * (2 * k25)) < lim) by reflexivity. set (h := 2 * k25 * (2 * k25)) in *. clearbody h. clear A B C D.
  assert (0 <= h) by lia.
  apply rep_sub; [apply rep_mul; [assumption|assumption|lia]|apply rep_mul; [assumption|assumption|lia]|lia].
Qed.
Lemma rep_diff x y a b : rep x a -> rep y b -> - k25 <= a <= k25 -> - k25 <= b <= k25 -> rep (x - y)%float (a - b) /\ - (2 * k25) <= a - b <= 2 * k25.
Proof.
  intros X Y A B. split; [|lia]. apply rep_sub; [assumption|assumption|]. assert (2 * k25 < lim) by reflexivity. lia.
Qed.

Lemma rep_hull p0 p q : within k25 p0 -> within k25 p -> within k25 q ->
  rep ((px (gpt p) - px (gpt p0)) * (py (gpt q) - py (gpt p0)) - (px (gpt q) - px (gpt p0)) * (py (gpt p) - py (gpt p0)))%float (zHull p0 p q).
Proof.
  intros A B C. pose proof A as [A1 A2]. pose proof B as [B1 B2]. pose proof C as [C1 C2].
  destruct (rep_diff _ _ _ _ (gpt_x p B) (gpt_x p0 A) B1 A1), (rep_diff _ _ _ _ (gpt_y q C) (gpt_y p0 A) C2 A2).
  destruct (rep_diff _ _ _ _ (gpt_x q C) (gpt_x p0 A) C1 A1), (rep_diff _ _ _ _ (gpt_y p B) (gpt_y p0 A) B2 A2).
  unfold zHull. now apply rep_det.
Qed.
Lemma lt_g p0 p q : within k25 p0 -> within k25 p -> within k25 q -> hullLt (N := FNum) (gpt p0) (gpt p) (gpt q) = (0 <? zHull p0 p q).
Proof.
  intros A B C. unfold hullLt. cbn [nltb nsub nmul nZ FNum]. apply rep_ltb; [apply rep_ofZ; unfold lim; lia|]. now apply rep_hull.
Qed.
Lemma lt_r p0 p q : hullLt (N := RNum) (rpt p0) (rpt p) (rpt q) = (0 <? zHull p0 p q).
Proof.
  unfold hullLt, rpt. cbn [nltb nsub nmul nZ RNum px py]. rewrite <- !minus_IZR, <- !mult_IZR, <- minus_IZR. apply Rltb_Z.
Qed.

Lemma rep_orient p q r : within k25 p -> within k25 q -> within k25 r ->
  rep ((py (gpt q) - py (gpt p)) * (px (gpt r) - px (gpt q)) - (px (gpt q) - px (gpt p)) * (py (gpt r) - py (gpt q)))%float (zOrientV p q r).
Proof.
  intros A B C. pose proof A as [A1 A2]. pose proof B as [B1 B2]. pose proof C as [C1 C2].
  destruct (rep_diff _ _ _ _ (gpt_y q B) (gpt_y p A) B2 A2), (rep_diff _ _ _ _ (gpt_x r C) (gpt_x q B) C1 B1).
  destruct (rep_diff _ _ _ _ (gpt_x q B) (gpt_x p A) B1 A1), (rep_diff _ _ _ _ (gpt_y r C) (gpt_y q B) C2 B2).
  unfold zOrientV. now apply rep_det.
Qed.

(** An integer is below a number between 0 and 1 only if it is not positive. *)
Lemma rep_small x z t : rep x z -> num t -> 0 < val (sf t) <= 2 ^ 1074 -> (x <? t)%float = (z <=? 0).
Proof.
  intros X T L. rewrite ltb_val by (auto; eapply rep_num; eassumption). destruct X as [_ ->]. set (K := 2 ^ 1074) in *. clearbody K.
  destruct (Z.leb_spec z 0); [apply Z.ltb_lt|apply Z.ltb_ge]; nia.
Qed.
Lemma deter_small : num (nullDeter (thr0 (N := FNum))) /\ 0 < val (sf (nullDeter (thr0 (N := FNum)))) <= 2 ^ 1074.
Proof. split; [vm_compute; reflexivity|]. split; vm_compute; congruence. Qed.

Lemma orient_g p q r : within k25 p -> within k25 q -> within k25 r -> hullOrient (N := FNum) (gpt p) (gpt q) (gpt r) = zOrient p q r.
Proof.
  intros A B C. unfold hullOrient. cbn [nltb nsub nmul nabs nZ FNum]. pose proof (rep_orient p q r A B C) as H.
  destruct deter_small as [D1 D2]. rewrite (rep_small _ _ _ (rep_abs _ _ H) D1 D2).
  rewrite (rep_ltb _ _ _ _ (rep_ofZ 0 ltac:(unfold lim; lia)) H). unfold zOrient.
  destruct (Z.leb_spec (Z.abs (zOrientV p q r)) 0), (Z.eqb_spec (zOrientV p q r) 0); try lia; reflexivity.
Qed.
Lemma orient_r p q r : hullOrient (N := RNum) (rpt p) (rpt q) (rpt r) = zOrient p q r.
Proof.
  unfold hullOrient, rpt. cbn [nltb nsub nmul nabs nZ RNum px py]. rewrite <- !minus_IZR, <- !mult_IZR, <- minus_IZR. fold (zOrientV p q r).
  rewrite <- abs_IZR, Rltb_Z. unfold zOrient.
  destruct (Z.eqb_spec (zOrientV p q r) 0) as [->|N].
  - change (Z.abs 0) with 0. replace (Rltb _ _) with true; [reflexivity|]. symmetry. apply Rltb_spec. unfold thr0. cbn [nullDeter]. cbn [ndiv nZ RNum]. lra.
  - replace (Rltb _ _) with false; [reflexivity|]. symmetry. apply Rltb_false. unfold thr0. cbn [nullDeter]. cbn [ndiv nZ RNum].
    assert (1 <= IZR (Z.abs (zOrientV p q r)))%R by (apply IZR_le; lia). lra.
Qed.

(** ** The hull *)

Definition zOrder (l : list (Z * Z)) : list nat :=
  let piv := minElem zBm l in
  match swapNth 0%nat (seq 0 (length l)) 0 piv with
  | [] => []
  | i0 :: rest => i0 :: hullSort (fun i j => 0 <? zHull (nth piv l zz) (nth i l zz) (nth j l zz)) rest
  end.
Lemma insert_ext f g x l : (forall a b, f a b = g a b) -> hullInsert f x l = hullInsert g x l.
Proof. intro H. induction l as [|y l IH]; cbn; [reflexivity|]. now rewrite H, IH. Qed.
Lemma sort_ext f g l : (forall a b, f a b = g a b) -> hullSort f l = hullSort g l.
Proof.
  intro H. unfold hullSort. generalize (@nil nat) as acc. induction l as [|x l IH]; intro acc; cbn; [reflexivity|]. now rewrite (insert_ext f g x acc H), IH.
Qed.
Lemma loop_ext {T U} {N : Num T} {M : Num U} (g : nat -> pt T) (h : nat -> pt U) v : (forall i j k, hullOrient (g i) (g j) (g k) = hullOrient (h i) (h j) (h k)) ->
  forall fuel hull fp i1 i2 i3, hullLoop g v fuel hull fp i1 i2 i3 = hullLoop h v fuel hull fp i1 i2 i3.
Proof.
  intro H. induction fuel as [|f IH]; intros; cbn [hullLoop]; [reflexivity|]. rewrite H.
  destruct (hullOrient (h i1) (h i2) (h i3) =? 1).
  - destruct (tl fp); [reflexivity|apply IH].
  - destruct (i3 + 1 <? length v)%nat; [apply IH|reflexivity].
Qed.

Lemma order_g l : Forall (within k25) l -> hullOrder (N := FNum) (map gpt l) = zOrder l.
Proof.
  intro F. unfold hullOrder, zOrder. rewrite map_length. rewrite (minElem_map gpt _ zBm (within k25) bm_g l F).
  destruct (swapNth 0%nat (seq 0 (length l)) 0 (minElem zBm l)); [reflexivity|]. f_equal. apply sort_ext. intros a b. rewrite !nth_g.
  apply lt_g; apply nth_within; try assumption; unfold k25; lia.
Qed.
Lemma order_r l : hullOrder (N := RNum) (map rpt l) = zOrder l.
Proof.
  unfold hullOrder, zOrder. rewrite map_length.
  rewrite (minElem_map rpt _ zBm (fun _ => True) (fun a b _ _ => bm_r a b) l) by (apply Forall_forall; auto).
  destruct (swapNth 0%nat (seq 0 (length l)) 0 (minElem zBm l)); [reflexivity|]. f_equal. apply sort_ext. intros a b. rewrite !nth_r. apply lt_r.
Qed.

(** Both evaluations select the same points. *)
Lemma hull_same l : Forall (within k25) l ->
  match hullPts (N := FNum) (map gpt l), hullPts (N := RNum) (map rpt l) with
  | Ok a, Ok b => exists h, a = map gpt h /\ b = map rpt h
  | Throw, Throw => True | Undef, Undef => True | _, _ => False
  end.
Proof.
  intro F. unfold hullPts. rewrite (order_g l F), order_r, !map_length.
  erewrite (loop_ext (N := FNum) (M := RNum) _ (fun i => nth (nth i (zOrder l) 0%nat) (map rpt l) pt00)).
  - destruct (hullLoop _ _ _ _ _ _ _ _) as [idx| |]; cbn [bind]; try exact I.
    exists (map (fun i => nth i l zz) idx). split; rewrite map_map; apply map_ext; intro i; [apply nth_g|apply nth_r].
  - intros i j k. rewrite !nth_g, !nth_r, orient_r. apply orient_g; apply nth_within; try assumption; unfold k25; lia.
Qed.

(** ** Halves *)

Definition twoS : spec_float := S754_finite false 4503599627370496 (-51).
Lemma div_two s m e : bounded P E m e = true -> -1074 < e ->
  bounded P E m (e - 1) = true /\ SFdiv P E (S754_finite s m e) twoS = S754_finite s m (e - 1).
Proof.
  intros B G. destruct (valid_bounds m e B) as (b & h & l). specialize (l G).
  assert (D : Zdigits2 (Z.pos m) = 53).
  { rewrite Zdigits_log by lia. assert (Z.log2 (Z.pos m) = 52); [|lia]. apply Z.log2_unique; [lia|]. split; [exact l|]. change (2 ^ Z.succ 52) with (2 ^ 53). exact h. }
  assert (B1 : bounded P E m (e - 1) = true).
  { unfold bounded, canonical_mantissa. change (Z.pos (digits2_pos m)) with (Zdigits2 (Z.pos m)). rewrite D.
    apply andb_true_intro. split; [apply Zeq_is_eq_bool; unfold fexp, SpecFloat.emin; change P with 53; change E with 1024; lia|].
    apply Zle_imp_le_bool. change P with 53; change E with 1024; lia. }
  split; [exact B1|]. unfold twoS. cbn [SFdiv]. rewrite xorb_false_r.
  unfold SFdiv_core_binary. cbv zeta. change (Zdigits2 4503599627370496) with 53. rewrite D.
  set (e' := Z.min (fexp P E (53 + e - (53 + -51))) (e - -51)).
  assert (L : e' <= e - 1). { subst e'. unfold fexp, SpecFloat.emin. change P with 53; change E with 1024. lia. }
  assert (Sh : match e - -51 - e' with Z0 => Z.pos m | Z.pos _ => Z.shiftl (Z.pos m) (e - -51 - e') | Z.neg _ => 0 end = (Z.pos m * 2 ^ (e - 1 - e')) * 4503599627370496).
  { destruct (e - -51 - e') eqn:X; try lia. rewrite <- X, Z.shiftl_mul_pow2 by lia.
    replace (e - -51 - e') with ((e - 1 - e') + 52) by lia. rewrite Z.pow_add_r by lia. change (2 ^ 52) with 4503599627370496. ring. }
  rewrite Sh. pose proof (Z_div_mult (Z.pos m * 2 ^ (e - 1 - e')) 4503599627370496 ltac:(lia)) as Q. pose proof (Z_mod_mult (Z.pos m * 2 ^ (e - 1 - e')) 4503599627370496) as M.
  unfold Z.div in Q. unfold Z.modulo in M. destruct (Z.div_eucl (Z.pos m * 2 ^ (e - 1 - e') * 4503599627370496) 4503599627370496) as [q r]. subst q r.
  change (new_location 4503599627370496 0) with loc_Exact. replace e' with ((e - 1) - (e - 1 - e')) at 2 by lia. apply round_exact; [exact B1|lia].
Qed.
Lemma rep_exp x z s m e : rep x z -> sf x = S754_finite s m e -> -1074 < e.
Proof.
  intros R X. destruct (rep_cases x z R) as [(_ & t & Y)|(t & n & f & Y & B & _ & M & Nz)]; [congruence|].
  rewrite X in Y. injection Y as <- <- <-. destruct (valid_bounds m e B) as (b & h & _). destruct (Z.eq_dec e (-1074)) as [->|?]; [|lia]. exfalso.
  unfold mag in M. change (2 ^ (-1074 + 1074)) with 1 in M. assert (K : 2 ^ 53 <= 2 ^ 1074) by (apply Z.pow_le_mono_r; lia). set (J := 2 ^ 1074) in *. clearbody J. nia.
Qed.
Lemma half_toR x z : rep x z -> fin (x / 2)%float /\ toR (x / 2)%float = (IZR z / 2)%R.
Proof.
  intro R. rewrite fin_sf. unfold toR. rewrite FloatAxioms.div_spec. change (sf 2%float) with twoS. unfold SF64div.
  destruct (rep_cases x z R) as [(-> & s & X)|(s & m & e & X & B & Zs & M & Nz)].
  - rewrite X. cbn. split; [exact I|lra].
  - pose proof (rep_toR x z R) as T. unfold toR in T. rewrite X in T |- *.
    destruct (div_two s m e B (rep_exp x z s m e R X)) as [_ ->]. split; [exact I|].
    rewrite <- T. unfold Zminus. rewrite powerRZ_add by lra. change (powerRZ 2 (- (1))) with (/ (2 * 1))%R. generalize (powerRZ 2 e) as u. generalize (IZR (Z.pos m)) as v. intros. destruct s; field.
Qed.

(** ** Areas and turns *)

Definition zArea (l : list (Z * Z)) : Z :=
  fold_left (fun a i => a + fst (nth i l zz) * snd (nth (nextIdx (length l) i) l zz) - snd (nth i l zz) * fst (nth (nextIdx (length l) i) l zz)) (seq 0 (length l)) 0.

Lemma area_steps k l n : 0 <= k -> Forall (within k) l -> 2 * k * k * Z.of_nat n < lim -> k < lim ->
  forall idx x z, rep x z -> - (2 * k * k * (Z.of_nat n - Z.of_nat (length idx))) <= z <= 2 * k * k * (Z.of_nat n - Z.of_nat (length idx)) -> (length idx <= n)%nat ->
  rep (fold_left (fun area i => let p1 := nth i (map gpt l) (pt00 (N := FNum)) in let p2 := nth (nextIdx (length l) i) (map gpt l) (pt00 (N := FNum)) in
        (area + px p1 * py p2 - py p1 * px p2)%float) idx x)
      (fold_left (fun a i => a + fst (nth i l zz) * snd (nth (nextIdx (length l) i) l zz) - snd (nth i l zz) * fst (nth (nextIdx (length l) i) l zz)) idx z).
Proof.
  intros K F L K2. induction idx as [|i idx IH]; intros x z R B H; [exact R|]. cbn [fold_left length] in *. cbv zeta. rewrite !nth_g.
  set (p := nth i l zz). set (q := nth (nextIdx (length l) i) l zz).
  assert (Wp : within k p) by now apply nth_within. assert (Wq : within k q) by now apply nth_within.
  assert (Rx : forall c, within k c -> rep (px (gpt c)) (fst c)) by (intros c [W _]; apply rep_ofZ; lia).
  assert (Ry : forall c, within k c -> rep (py (gpt c)) (snd c)) by (intros c [_ W]; apply rep_ofZ; lia).
  pose proof (prod_bound (fst p) (snd q) k K ltac:(apply Wp) ltac:(apply Wq)) as U. pose proof (prod_bound (snd p) (fst q) k K ltac:(apply Wp) ltac:(apply Wq)) as V.
  assert (S : 2 * k * k * (Z.of_nat n - Z.of_nat (length idx)) = 2 * k * k * (Z.of_nat n - Z.of_nat (Datatypes.S (length idx))) + 2 * (k * k)) by lia.
  assert (T : 2 * k * k * (Z.of_nat n - Z.of_nat (length idx)) <= 2 * k * k * Z.of_nat n) by (apply Z.mul_le_mono_nonneg_l; [nia|lia]).
  set (b0 := 2 * k * k * (Z.of_nat n - Z.of_nat (Datatypes.S (length idx)))) in *. set (b1 := 2 * k * k * (Z.of_nat n - Z.of_nat (length idx))) in *. set (bn := 2 * k * k * Z.of_nat n) in *.
  set (kk := k * k) in *. clearbody b0 b1 bn kk. apply IH; [|lia|lia].
  assert (M1 : rep (px (gpt p) * py (gpt q))%float (fst p * snd q)) by (apply rep_mul; [now apply Rx|now apply Ry|lia]).
  assert (M2 : rep (py (gpt p) * px (gpt q))%float (snd p * fst q)) by (apply rep_mul; [now apply Ry|now apply Rx|lia]).
  apply rep_sub; [apply rep_add; [exact R|exact M1|lia]|exact M2|lia].
Qed.
Lemma area_g k l : 0 <= k < lim -> Forall (within k) l -> 2 * k * k * Z.of_nat (length l) < lim ->
  fin (signedArea (N := FNum) (map gpt l)) /\ toR (signedArea (N := FNum) (map gpt l)) = (IZR (zArea l) / 2)%R.
Proof.
  intros K F L. unfold signedArea. rewrite map_length. cbn [nadd nsub nmul ndiv FNum]. change (@nZ _ FNum 2) with 2%float. apply half_toR.
  unfold zArea. apply (area_steps k l (length l)); try assumption; try lia.
  - apply (rep_ofZ 0). unfold lim. lia.
  - rewrite seq_length. lia.
  - now rewrite seq_length.
Qed.
Lemma area_r l : signedArea (N := RNum) (map rpt l) = (IZR (zArea l) / 2)%R.
Proof.
  unfold signedArea, zArea. rewrite map_length. cbn [nadd nsub nmul ndiv nZ RNum]. f_equal.
  generalize 0 as z. generalize (seq 0 (length l)) as idx. induction idx as [|i idx IH]; intro z; [reflexivity|]. cbn [fold_left]. rewrite <- IH. f_equal.
  rewrite !nth_r. cbn [px py rpt]. now rewrite minus_IZR, plus_IZR, !mult_IZR.
Qed.

Definition zCross (l : list (Z * Z)) (i : nat) : Z :=
  let n := length l in let p0 := nth (prevIdx n i) l zz in let p1 := nth i l zz in let p2 := nth (nextIdx n i) l zz in
  (fst p1 - fst p0) * (snd p2 - snd p1) - (snd p1 - snd p0) * (fst p2 - fst p1).
Lemma cross_g l i : Forall (within k25) l -> rep (plCross (N := FNum) (map gpt l) i) (zCross l i).
Proof.
  intro F. unfold plCross, zCross. rewrite map_length. cbv zeta. rewrite !nth_g. cbn [nsub nmul FNum].
  assert (W : forall i, within k25 (nth i l zz)) by (intro; apply nth_within; [unfold k25; lia|assumption]).
  set (p0 := nth (prevIdx (length l) i) l zz). set (p1 := nth i l zz). set (p2 := nth (nextIdx (length l) i) l zz).
  assert (A : within k25 p0) by apply W. assert (B : within k25 p1) by apply W. assert (C : within k25 p2) by apply W.
  pose proof A as [A1 A2]. pose proof B as [B1 B2]. pose proof C as [C1 C2].
  destruct (rep_diff _ _ _ _ (gpt_x p1 B) (gpt_x p0 A) B1 A1), (rep_diff _ _ _ _ (gpt_y p2 C) (gpt_y p1 B) C2 B2).
  destruct (rep_diff _ _ _ _ (gpt_y p1 B) (gpt_y p0 A) B2 A2), (rep_diff _ _ _ _ (gpt_x p2 C) (gpt_x p1 B) C1 B1).
  now apply rep_det.
Qed.
Lemma cross_r l i : plCross (N := RNum) (map rpt l) i = IZR (zCross l i).
Proof.
  unfold plCross, zCross. rewrite map_length. cbv zeta. rewrite !nth_r. cbn [nsub nmul RNum px py rpt]. rewrite minus_IZR, !mult_IZR, !minus_IZR. reflexivity.
Qed.
Lemma convex_same l : Forall (within k25) l -> forall idx s, convexLoop (N := FNum) (map gpt l) s idx = convexLoop (N := RNum) (map rpt l) s idx.
Proof.
  intro F. induction idx as [|i idx IH]; intro s; [reflexivity|]. cbn [convexLoop].
  assert (D : @nltb _ FNum (@nZ _ FNum 0) (plCross (N := FNum) (map gpt l) i) = @nltb _ RNum (@nZ _ RNum 0) (plCross (map rpt l) i)).
  { cbn [nltb nZ FNum RNum]. rewrite cross_r, Rltb_Z. apply rep_ltb; [apply rep_ofZ; unfold lim; lia|now apply cross_g]. }
  rewrite D. destruct (@nltb _ RNum _ _); rewrite !IH; reflexivity.
Qed.

(** ** Comparisons of all finite doubles *)

Lemma pow_pos : (0 < powerRZ 2 (-1074))%R.
Proof. rewrite pow_split. apply Rinv_0_lt_compat, IZR_lt. pose proof (pow2_pos 1074). lia. Qed.
Lemma toR_lt x y : fin x -> fin y -> ((x <? y)%float = true <-> (toR x < toR y)%R).
Proof.
  intros Fx Fy. rewrite flt_val by now apply fin_num. rewrite !toR_val by now apply fin_sf. pose proof pow_pos as K. set (k := powerRZ 2 (-1074)) in *. clearbody k.
  split; intro H.
  - apply Rmult_lt_compat_r; [exact K|now apply IZR_lt].
  - apply lt_IZR. now apply Rmult_lt_reg_r with k.
Qed.
Lemma toR_ge x y : fin x -> fin y -> ((x <? y)%float = false <-> (toR y <= toR x)%R).
Proof.
  intros Fx Fy. pose proof (toR_lt x y Fx Fy) as H. destruct (x <? y)%float.
  - split; [discriminate|]. intro L. exfalso. assert (toR x < toR y)%R by now apply H. lra.
  - split; [|reflexivity]. intros _. destruct (Rlt_dec (toR x) (toR y)) as [D|D]; [apply H in D; discriminate|lra].
Qed.
Lemma minOf_toR f l : forall m, fin m -> Forall (fun q => fin (f q)) l -> let v := fold_left (fun m q => if (f q <? m)%float then f q else m) l m in
  fin v /\ (toR v <= toR m)%R /\ Forall (fun q => (toR v <= toR (f q))%R) l /\ (v = m \/ exists q : pt float, In q l /\ v = f q).
Proof.
  induction l as [|q l IH]; intros m Fm F; cbn.
  - split; [exact Fm|]. split; [lra|]. split; [constructor|now left].
  - inversion F as [|? ? Fq Fl]. subst.
    assert (Fn : fin (if (f q <? m)%float then f q else m)) by (destruct (f q <? m)%float; assumption).
    destruct (IH _ Fn Fl) as (A & B & C & D). split; [exact A|].
    destruct (f q <? m)%float eqn:X.
    + apply toR_lt in X; [|assumption|assumption]. split; [lra|]. split; [constructor; [lra|exact C]|].
      destruct D as [->|(r & I & ->)]; right; [exists q; auto|exists r; auto].
    + apply toR_ge in X; [|assumption|assumption]. split; [lra|]. split; [constructor; [lra|exact C]|].
      destruct D as [->|(r & I & ->)]; [now left|right; exists r; auto].
Qed.
Lemma maxOf_toR f l : forall m, fin m -> Forall (fun q => fin (f q)) l -> let v := fold_left (fun m q => if (f q <? m)%float then m else f q) l m in
  fin v /\ (toR m <= toR v)%R /\ Forall (fun q => (toR (f q) <= toR v)%R) l /\ (v = m \/ exists q : pt float, In q l /\ v = f q).
Proof.
  induction l as [|q l IH]; intros m Fm F; cbn.
  - split; [exact Fm|]. split; [lra|]. split; [constructor|now left].
  - inversion F as [|? ? Fq Fl]. subst.
    assert (Fn : fin (if (f q <? m)%float then m else f q)) by (destruct (f q <? m)%float; assumption).
    destruct (IH _ Fn Fl) as (A & B & C & D). split; [exact A|].
    destruct (f q <? m)%float eqn:X.
    + apply toR_lt in X; [|assumption|assumption]. split; [lra|]. split; [constructor; [lra|exact C]|].
      destruct D as [->|(r & I & ->)]; [now left|right; exists r; auto].
    + apply toR_ge in X; [|assumption|assumption]. split; [lra|]. split; [constructor; [lra|exact C]|].
      destruct D as [->|(r & I & ->)]; right; [exists q; auto|exists r; auto].
Qed.
