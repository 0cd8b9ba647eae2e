(** * Binary64 arithmetic on integers below 2^53 is exact *)

From Coq Require Import ZArith Floats Bool Lia Uint63.
From Verif Require Import Num FloatFuns M_LP S_Float P_Float.
Local Open Scope Z_scope.

Lemma pow2_pos k : 0 <= k -> 0 < 2 ^ k.
Proof. intro. apply Z.pow_pos_nonneg; lia. Qed.

(** Rounding a number that has a canonical form gives this form. *)
Lemma log_mag a k : 0 < a -> 0 <= k -> Z.log2 (a * 2 ^ k) = k + Z.log2 a.
Proof. intros. apply Z.log2_mul_pow2; lia. Qed.
Lemma canon m e : bounded P E m e = true -> fexp P E (Zdigits2 (Z.pos m) + e) = e.
Proof. unfold bounded, canonical_mantissa. intro B. apply andb_prop in B. destruct B as [B _]. now apply Zeq_bool_eq in B. Qed.

Lemma binary_round_exact s k g m e : bounded P E m e = true -> -1074 <= g -> Z.pos k * 2 ^ (g + 1074) = mag m e ->
  binary_round P E s k g = S754_finite s m e.
Proof.
  intros B G V. destruct (valid_bounds m e B) as (b & _ & _). unfold binary_round.
  change (Z.pos (digits2_pos k)) with (Zdigits2 (Z.pos k)).
  assert (D : fexp P E (Zdigits2 (Z.pos k) + g) = e).
  { etransitivity; [|exact (canon m e B)]. f_equal. rewrite !Zdigits_log by lia.
    pose proof (f_equal Z.log2 V) as L. unfold mag in L. rewrite !log_mag in L by lia. lia. }
  rewrite D. unfold mag in V. destruct (Z_le_gt_dec g e) as [L|L].
  - assert (K : Z.pos k = Z.pos m * 2 ^ (e - g)).
    { replace (e + 1074) with (e - g + (g + 1074)) in V by lia. rewrite (Z.pow_add_r 2 (e - g)), Z.mul_assoc in V by lia.
      apply Z.mul_reg_r in V; [exact V|]. pose proof (pow2_pos (g + 1074)). lia. }
    unfold shl_align. destruct (e - g) eqn:X; try lia.
    + rewrite K. replace g with (e - 0) by lia. change (Z.pos m * 2 ^ 0) with (Z.pos m * 2 ^ 0). apply round_exact; [exact B|lia].
    + rewrite K. replace g with (e - Z.pos p) by lia. apply round_exact; [exact B|lia].
  - pose proof (shl_align_val k g e ltac:(lia)) as Q.
    assert (K : Z.pos (fst (shl_align k g e)) = Z.pos m).
    { rewrite Q. replace (g + 1074) with (g - e + (e + 1074)) in V by lia. rewrite (Z.pow_add_r 2 (g - e)), Z.mul_assoc in V by lia.
      apply Z.mul_reg_r in V; [exact V|]. pose proof (pow2_pos (e + 1074)). lia. }
    unfold shl_align in *. destruct (e - g) eqn:X; try lia. cbn [fst] in K. rewrite K.
    replace (Z.pos m) with (Z.pos m * 2 ^ 0) by (change (2 ^ 0) with 1; lia). replace e with (e - 0) at 1 by lia. apply round_exact; [exact B|lia].
Qed.

(** The float [x] is the integer [z] (either zero for 0). *)
Definition rep (x : float) (z : Z) : Prop := finS (sf x) /\ val (sf x) = z * 2 ^ 1074.
Definition lim : Z := 2 ^ 53.

Lemma canonical_of z : 0 < z < lim -> exists m e, bounded P E m e = true /\ mag m e = z * 2 ^ 1074.
Proof.
  intros [Z0 Z1]. set (d := Z.log2 z + 1). assert (D : 2 ^ (d - 1) <= z < 2 ^ d).
  { pose proof (Z.log2_spec z Z0) as H. unfold d. replace (Z.log2 z + 1 - 1) with (Z.log2 z) by lia. exact H. }
  assert (D1 : 1 <= d) by (pose proof (Z.log2_nonneg z); lia).
  assert (D2 : d <= 53). { assert (Z.log2 z < 53) by (apply Z.log2_lt_pow2; assumption). lia. }
  assert (Q : 0 < z * 2 ^ (53 - d)) by (apply Z.mul_pos_pos; [lia|apply pow2_pos; lia]).
  assert (Hq : exists m, z * 2 ^ (53 - d) = Z.pos m) by (destruct (z * 2 ^ (53 - d)) as [|m|m]; try lia; eauto).
  destruct Hq as [m Hq]. exists m, (d - 53).
  assert (Dm : Zdigits2 (Z.pos m) = 53).
  { rewrite <- Hq. rewrite Zdigits_log by exact Q. rewrite log_mag by lia. lia. }
  split.
  - unfold bounded, canonical_mantissa. change (Z.pos (digits2_pos m)) with (Zdigits2 (Z.pos m)). rewrite Dm.
    apply andb_true_intro. split; [apply Zeq_is_eq_bool; unfold fexp, SpecFloat.emin; change P with 53; change E with 1024; lia|].
    apply Zle_imp_le_bool. change P with 53; change E with 1024; lia.
  - unfold mag. rewrite <- Hq, <- Z.mul_assoc, <- Z.pow_add_r by lia. f_equal. f_equal. lia.
Qed.

Lemma normalize_rep k g z : -1074 <= g -> k * 2 ^ (g + 1074) = z * 2 ^ 1074 -> - lim < z < lim ->
  finS (binary_normalize P E k g false) /\ val (binary_normalize P E k g false) = z * 2 ^ 1074.
Proof.
  intros G V L. pose proof (pow2_pos (g + 1074) ltac:(lia)) as A. assert (B : 0 < 2 ^ 1074) by (apply pow2_pos; lia). set (T := 2 ^ 1074) in *. set (U := 2 ^ (g + 1074)) in *.
  destruct k as [|k|k]; cbn [binary_normalize].
  - split; [exact I|]. cbn [val]. lia.
  - assert (0 < z) by nia. destruct (canonical_of z ltac:(lia)) as (m & e & Bm & M). rewrite (binary_round_exact false k g m e Bm G) by (fold U; fold T in M; lia). cbn. split; [exact I|exact M].
  - assert (z < 0) by nia. destruct (canonical_of (- z) ltac:(lia)) as (m & e & Bm & M). rewrite (binary_round_exact true k g m e Bm G) by (fold U; fold T in M; lia). cbn [finS val]. split; [exact I|]. fold T in M. lia.
Qed.

(** The two shapes of an integer. *)
Lemma rep_cases x z : rep x z ->
  (z = 0 /\ exists s, sf x = S754_zero s) \/
  (exists s m e, sf x = S754_finite s m e /\ bounded P E m e = true /\ z = (if s then - Z.abs z else Z.abs z) /\ mag m e = Z.abs z * 2 ^ 1074 /\ z <> 0).
Proof.
  intros [F V]. assert (T : 0 < 2 ^ 1074) by (apply pow2_pos; lia). set (K := 2 ^ 1074) in *.
  pose proof (valid_sf x) as B. destruct (sf x) as [s|s| |s m e]; cbn [finS] in F; try tauto; cbn [val] in V.
  - left. split; [nia|eauto].
  - right. cbn [valid_binary] in B. pose proof (mag_pos m e ltac:(apply valid_bounds in B; lia)). exists s, m, e. split; [reflexivity|]. split; [exact B|].
    destruct s.
    + assert (z < 0) by nia. rewrite Z.abs_neq by lia. split; [lia|]. split; [lia|lia].
    + assert (0 < z) by nia. rewrite Z.abs_eq by lia. split; [lia|]. split; [lia|lia].
Qed.
Lemma rep_num x z : rep x z -> num x.
Proof. intros [F _]. apply num_sf. intro H. rewrite H in F. exact F. Qed.
Lemma rep_fin x z : rep x z -> fin x.
Proof. intros [F _]. now apply fin_sf. Qed.

Lemma rep_same x y z : rep x z -> rep y z -> same x y.
Proof. intros A B. apply val_inj; [now apply (rep_num x z)|now apply (rep_num y z)|]. destruct A as [_ ->], B as [_ ->]. reflexivity. Qed.

Lemma rep_add x y a b : rep x a -> rep y b -> - lim < a + b < lim -> rep (x + y)%float (a + b).
Proof.
  intros A B L. pose proof A as [FA VA]. pose proof B as [FB VB]. unfold rep. rewrite FloatAxioms.add_spec. unfold SF64add.
  pose proof (valid_sf x) as Bx. pose proof (valid_sf y) as By.
  destruct (sf x) as [s|s| |s m e] eqn:X, (sf y) as [t|t| |t n f] eqn:Y; cbn [finS] in FA, FB; try tauto.
  - cbn [SFadd]. cbn [val] in VA, VB. destruct s, t; cbn [Bool.eqb finS val]; split; try exact I; lia.
  - cbn [SFadd]. cbn [val] in VA. split; [exact I|]. rewrite VB. lia.
  - cbn [SFadd]. cbn [val] in VB. split; [exact I|]. rewrite VA. lia.
  - destruct (add_normal s m e t n f Bx By) as (k & g & G & _ & _ & -> & K). apply normalize_rep; [exact G| |exact L]. rewrite K, VA, VB. lia.
Qed.
Lemma rep_sub x y a b : rep x a -> rep y b -> - lim < a - b < lim -> rep (x - y)%float (a - b).
Proof.
  intros A B L. pose proof A as [FA VA]. pose proof B as [FB VB]. unfold rep. rewrite FloatAxioms.sub_spec. unfold SF64sub.
  pose proof (valid_sf x) as Bx. pose proof (valid_sf y) as By.
  destruct (sf x) as [s|s| |s m e] eqn:X, (sf y) as [t|t| |t n f] eqn:Y; cbn [finS] in FA, FB; try tauto.
  - cbn [SFsub]. cbn [val] in VA, VB. destruct s, t; cbn [Bool.eqb negb finS val]; split; try exact I; lia.
  - cbn [SFsub]. cbn [val] in VA, VB |- *. split; [exact I|]. destruct t; cbn [negb]; lia.
  - cbn [SFsub]. cbn [val] in VB. split; [exact I|]. rewrite VA. lia.
  - destruct (sub_normal s m e t n f Bx By) as (k & g & G & _ & _ & -> & K). apply normalize_rep; [exact G| |exact L]. rewrite K, VA, VB. lia.
Qed.
Lemma rep_opp x a : rep x a -> rep (- x)%float (- a).
Proof.
  intros [F V]. unfold rep. rewrite FloatAxioms.opp_spec. destruct (sf x) as [s|s| |s m e]; cbn [finS] in F; try tauto; cbn [SFopp finS val] in *; (split; [exact I|]).
  - lia.
  - destruct s; cbn [negb] in *; lia.
Qed.
Lemma rep_abs x a : rep x a -> rep (abs x) (Z.abs a).
Proof.
  intros H. destruct (rep_cases x a H) as [(-> & s & X)|(s & m & e & X & B & Z & M & N)]; unfold rep; rewrite FloatAxioms.abs_spec, X; cbn [SFabs finS val]; (split; [exact I|lia]).
Qed.

Lemma rep_mul x y a b : rep x a -> rep y b -> - lim < a * b < lim -> rep (x * y)%float (a * b).
Proof.
  intros A B L. unfold rep. rewrite FloatAxioms.mul_spec. unfold SF64mul.
  destruct (rep_cases x a A) as [(-> & s & X)|(s & m & e & X & Bx & Zx & Mx & Nx)]; destruct (rep_cases y b B) as [(-> & t & Y)|(t & n & f & Y & By & Zy & My & Ny)]; rewrite X, Y; cbn [SFmul].
  - split; [exact I|]. reflexivity.
  - split; [exact I|]. reflexivity.
  - rewrite Z.mul_0_r. split; [exact I|]. reflexivity.
  - assert (C : 0 < Z.abs (a * b) < lim) by (unfold lim in *; lia).
    destruct (canonical_of _ C) as (q & g & Bq & Mq).
    destruct (valid_bounds m e Bx) as (b1 & h1 & l1), (valid_bounds n f By) as (b2 & h2 & l2), (valid_bounds q g Bq) as (b3 & h3 & l3).
    assert (V : Z.pos (m * n) * 2 ^ (e + f + 2148) = Z.pos q * 2 ^ (g + 2148)).
    { unfold mag in *. replace (e + f + 2148) with ((e + 1074) + (f + 1074)) by lia. replace (g + 2148) with ((g + 1074) + 1074) by lia.
      rewrite (Z.pow_add_r 2 (e + 1074)), (Z.pow_add_r 2 (g + 1074)) by lia. rewrite Pos2Z.inj_mul.
      transitivity ((Z.pos m * 2 ^ (e + 1074)) * (Z.pos n * 2 ^ (f + 1074))); [ring|].
      transitivity ((Z.pos q * 2 ^ (g + 1074)) * 2 ^ 1074); [|ring]. rewrite Mx, My, Mq, Z.abs_mul. ring. }
    assert (e1 : -1074 < e). { destruct (Z.eq_dec e (-1074)); [|lia]. exfalso. unfold mag in Mx. rewrite e0 in Mx. change (2 ^ (-1074 + 1074)) with 1 in Mx.
      assert (2 ^ 53 <= 2 ^ 1074) by (apply Z.pow_le_mono_r; lia). set (K := 2 ^ 1074) in *. nia. }
    assert (f1 : -1074 < f). { destruct (Z.eq_dec f (-1074)); [|lia]. exfalso. unfold mag in My. rewrite e0 in My. change (2 ^ (-1074 + 1074)) with 1 in My.
      assert (2 ^ 53 <= 2 ^ 1074) by (apply Z.pow_le_mono_r; lia). set (K := 2 ^ 1074) in *. nia. }
    specialize (l1 e1). specialize (l2 f1).
    assert (G : e + f <= g).
    { destruct (Z_le_gt_dec (e + f) g) as [?|H]; [assumption|exfalso].
      assert (2 ^ (g + 2148) <= 2 ^ (e + f + 2148)) by (apply Z.pow_le_mono_r; lia). pose proof (pow2_pos (g + 2148) ltac:(lia)).
      assert (2 ^ 104 <= Z.pos (m * n)). { change (2 ^ 104) with (2 ^ 52 * 2 ^ 52). rewrite Pos2Z.inj_mul. apply Z.mul_le_mono_nonneg; lia. }
      assert (2 ^ 53 < 2 ^ 104) by (apply Z.pow_lt_mono_r; lia). set (J := 2 ^ 104) in *. nia. }
    assert (R : Z.pos (m * n) = Z.pos q * 2 ^ (g - (e + f))).
    { replace (g + 2148) with (g - (e + f) + (e + f + 2148)) in V by lia. rewrite (Z.pow_add_r 2 (g - (e + f))), Z.mul_assoc in V by lia.
      apply Z.mul_reg_r in V; [exact V|]. pose proof (pow2_pos (e + f + 2148)). lia. }
    assert (Q : binary_round_aux P E (xorb s t) (Z.pos (m * n)) (e + f) loc_Exact = S754_finite (xorb s t) q g).
    { rewrite R. replace (e + f) with (g - (g - (e + f))) at 2 by lia. apply round_exact; [exact Bq|lia]. }
    rewrite Q. cbn [finS val]. split; [exact I|].
    rewrite Z.abs_mul in Mq. rewrite Mq. clear - Zx Zy. generalize (2 ^ 1074) as K. revert Zx Zy. generalize (Z.abs a) as A, (Z.abs b) as B.
    intros A B -> -> K. destruct s, t; cbn [xorb]; ring.
Qed.

Lemma rep_ltb x y a b : rep x a -> rep y b -> (x <? y)%float = (a <? b).
Proof.
  intros A B. rewrite ltb_val by (eapply rep_num; eassumption). destruct A as [_ ->], B as [_ ->].
  assert (0 < 2 ^ 1074) by (apply pow2_pos; lia). set (K := 2 ^ 1074) in *.
  destruct (Z.ltb_spec a b); [apply Z.ltb_lt|apply Z.ltb_ge]; nia.
Qed.
Lemma rep_leb x y a b : rep x a -> rep y b -> (x <=? y)%float = (a <=? b).
Proof.
  intros A B. rewrite leb_val by (eapply rep_num; eassumption). destruct A as [_ ->], B as [_ ->].
  assert (0 < 2 ^ 1074) by (apply pow2_pos; lia). set (K := 2 ^ 1074) in *.
  destruct (Z.leb_spec a b); [apply Z.leb_le|apply Z.leb_gt]; nia.
Qed.

Lemma rep_nonneg p : Z.pos p < lim -> rep (of_uint63 (Uint63.of_Z (Z.pos p))) (Z.pos p).
Proof.
  intro H. unfold rep. rewrite of_uint63_spec. rewrite Uint63.of_Z_spec. rewrite Z.mod_small.
  - apply normalize_rep; [lia|reflexivity|unfold lim in *; lia].
  - unfold lim in H. split; [lia|]. apply Z.lt_trans with (1 := H). reflexivity.
Qed.
Lemma rep_ofZ z : - lim < z < lim -> rep (FloatFuns.of_Z z) z.
Proof.
  intro H. destruct z as [|p|p]; unfold FloatFuns.of_Z.
  - split; [exact I|reflexivity].
  - exact (rep_nonneg p (proj2 H)).
  - apply (rep_opp _ (Z.pos p)). apply rep_nonneg. destruct H as [H _]. clear - H. generalize dependent lim. intros k H. lia.
Qed.
