(** * Proofs: text of numbers *)

From Coq Require Import String Ascii.
From Coq Require Import Reals ZArith QArith Lra Lia List Bool Arith.
From Verif Require Import Num M_LP M_Svg M_Fmt S_Svg P_Svg.
Import ListNotations.
Local Open Scope R_scope.

(** ** Powers of ten *)
Definition p10 (k : Z) : R := powerRZ 10 k.
Lemma p10_pos k : 0 < p10 k.
Proof. apply powerRZ_lt. lra. Qed.
Lemma p10_add a b : p10 (a + b) = p10 a * p10 b.
Proof. apply powerRZ_add. lra. Qed.
Lemma p10_0 : p10 0 = 1. Proof. reflexivity. Qed.
Lemma p10_1 : p10 1 = 10. Proof. apply powerRZ_1. Qed.
Lemma p10_nat n : p10 (Z.of_nat n) = 10 ^ n.
Proof. unfold p10. symmetry. apply pow_powerRZ. Qed.
Lemma p10_IZR k : (0 <= k)%Z -> IZR (10 ^ k) = p10 k.
Proof. intros K. rewrite <- (Z2Nat.id k) by auto. rewrite pow10, p10_nat. reflexivity. Qed.
Lemma p10_opp k : p10 (- k) * p10 k = 1.
Proof. rewrite <- p10_add. replace (- k + k)%Z with 0%Z by lia. reflexivity. Qed.
Lemma p10_inv k : p10 (- k) = / p10 k.
Proof. pose proof (p10_pos k). apply (Rmult_eq_reg_r (p10 k)); [|lra]. rewrite p10_opp. field. lra. Qed.
Lemma p10_le a b : (a <= b)%Z -> p10 a <= p10 b.
Proof.
  intros H. replace b with (a + (b - a))%Z by lia. rewrite p10_add. rewrite <- (p10_IZR (b - a)) by lia. pose proof (p10_pos a).
  assert (1 <= IZR (10 ^ (b - a))); [|nra]. apply IZR_le. assert (0 < 10 ^ (b - a))%Z by (apply Z.pow_pos_nonneg; lia). lia.
Qed.
Lemma p10_lt_inv a b : p10 a < p10 b -> (a < b)%Z.
Proof. intros H. destruct (Z_lt_le_dec a b); auto. apply p10_le in l. lra. Qed.
Lemma scale10_R m e : scale10 (N := RNum) m e = IZR m * p10 e.
Proof.
  unfold scale10. rnum. destruct (Z.leb_spec 0 e).
  - rewrite mult_IZR, p10_IZR; auto.
  - rewrite p10_IZR by lia. rewrite p10_inv. pose proof (p10_pos e). field. lra.
Qed.

(** ** Number of digits, exponent, rounding *)
Lemma nbDigGo_spec f : forall n, (0 < n < 2 ^ (Z.of_nat f + 1))%Z -> (1 <= nbDigGo f n /\ 10 ^ (nbDigGo f n - 1) <= n < 10 ^ nbDigGo f n)%Z.
Proof.
  induction f as [|f IH]; intros n H.
  - cbn [nbDigGo]. change (2 ^ (Z.of_nat 0 + 1))%Z with 2%Z in H. lia.
  - cbn [nbDigGo]. destruct (Z.ltb_spec n 10); [change (10 ^ (1 - 1))%Z with 1%Z; lia|].
    assert (D : (n = 10 * (n / 10) + n mod 10)%Z) by (apply Z.div_mod; lia). pose proof (Z.mod_pos_bound n 10 ltac:(lia)) as B.
    destruct (IH (n / 10)%Z) as (A1 & A2 & A3).
    { split; [lia|]. replace (Z.of_nat (S f) + 1)%Z with (1 + (Z.of_nat f + 1))%Z in H by lia. rewrite Z.pow_add_r in H by lia. change (2 ^ 1)%Z with 2%Z in H. lia. }
    set (k := nbDigGo f (n / 10)) in *. split; [lia|]. replace (1 + k - 1)%Z with (1 + (k - 1))%Z by lia. rewrite !Z.pow_add_r by lia. change (10 ^ 1)%Z with 10%Z. lia.
Qed.
Lemma nbDig_spec n : (0 < n)%Z -> (1 <= nbDig n /\ 10 ^ (nbDig n - 1) <= n < 10 ^ nbDig n)%Z.
Proof.
  intros H. apply nbDigGo_spec. split; auto. rewrite Z2Nat.id by apply Z.log2_nonneg. replace (Z.log2 n + 1)%Z with (Z.succ (Z.log2 n)) by lia. now apply Z.log2_spec.
Qed.
Lemma shift10_spec a b k c d : (0 < a)%Z -> (0 < b)%Z -> shift10 a b k = (c, d) -> (0 < c)%Z /\ (0 < d)%Z /\ IZR c / IZR d = IZR a / IZR b * p10 k.
Proof.
  intros A B. unfold shift10. destruct (Z.leb_spec 0 k); intros E; injection E as <- <-.
  - split; [apply Z.mul_pos_pos; auto; apply Z.pow_pos_nonneg; lia|]. split; auto. rewrite mult_IZR, p10_IZR by auto. field. apply not_0_IZR. lia.
  - assert (0 < 10 ^ (- k))%Z by (apply Z.pow_pos_nonneg; lia). split; auto. split; [lia|]. rewrite mult_IZR, p10_IZR by lia. rewrite p10_inv. pose proof (p10_pos k). field. repeat split; first [lra | apply not_0_IZR; lia].
Qed.
Lemma quot_le (c d : Z) : (0 < d)%Z -> ((d <= c)%Z <-> 1 <= IZR c / IZR d).
Proof.
  intros D. apply IZR_lt in D. split; intros H.
  - apply IZR_le in H. apply (Rmult_le_reg_r (IZR d)); auto. replace (IZR c / IZR d * IZR d) with (IZR c) by (field; lra). lra.
  - apply le_IZR. apply (Rmult_le_compat_r (IZR d)) in H; [|lra]. replace (IZR c / IZR d * IZR d) with (IZR c) in H by (field; lra). lra.
Qed.
Lemma expo10_spec a b : (0 < a)%Z -> (0 < b)%Z -> p10 (expo10 a b) <= IZR a / IZR b < p10 (expo10 a b + 1).
Proof.
  intros A B. unfold expo10. destruct (nbDig_spec a A) as (A1 & A2 & A3). destruct (nbDig_spec b B) as (B1 & B2 & B3). set (na := nbDig a) in *. set (nb := nbDig b) in *. clearbody na nb.
  destruct (shift10 a b (- (na - nb))) as [c d] eqn:E. destruct (shift10_spec a b _ c d A B E) as (C & D & Q).
  set (x := IZR a / IZR b) in *.
  assert (IZR b > 0) as Bp by (apply Rlt_gt, IZR_lt; auto).
  assert (X1 : p10 (na - nb - 1) < x).
  { apply (Rmult_lt_reg_r (IZR b)); auto. unfold x. replace (IZR a / IZR b * IZR b) with (IZR a) by (field; lra).
    apply Rlt_le_trans with (p10 (na - nb - 1) * IZR (10 ^ nb)); [apply Rmult_lt_compat_l; [apply p10_pos|now apply IZR_lt]|]. rewrite p10_IZR, <- p10_add by lia.
    replace (na - nb - 1 + nb)%Z with (na - 1)%Z by lia. rewrite <- p10_IZR by lia. now apply IZR_le. }
  assert (X2 : x < p10 (na - nb + 1)).
  { apply (Rmult_lt_reg_r (IZR b)); auto. unfold x. replace (IZR a / IZR b * IZR b) with (IZR a) by (field; lra).
    apply Rlt_le_trans with (IZR (10 ^ na)); [now apply IZR_lt|]. rewrite p10_IZR by lia. replace na with ((na - nb + 1) + (nb - 1))%Z at 1 by lia. rewrite p10_add.
    apply Rmult_le_compat_l; [pose proof (p10_pos (na - nb + 1)); lra|]. rewrite <- p10_IZR by lia. now apply IZR_le. }
  assert (P : p10 (- (na - nb)) * p10 (na - nb) = 1) by apply p10_opp. pose proof (p10_pos (na - nb)) as Pp. pose proof (p10_pos (- (na - nb))) as Pm.
  destruct (Z.leb_spec d c) as [L|L].
  - split; auto. apply (quot_le c d D) in L. rewrite Q in L. apply (Rmult_le_compat_r (p10 (na - nb))) in L; [|lra]. rewrite Rmult_assoc, P in L. lra.
  - replace (na - nb - 1 + 1)%Z with (na - nb)%Z by lia. split; [lra|]. assert (N : ~ (1 <= IZR c / IZR d)) by (intros K; apply (quot_le c d D) in K; lia).
    rewrite Q in N. apply Rnot_le_lt in N. apply (Rmult_lt_compat_r (p10 (na - nb))) in N; auto. rewrite Rmult_assoc, P in N. lra.
Qed.
Lemma nearest_spec a b : (0 < b)%Z -> Rabs (IZR (nearest a b) - IZR a / IZR b) <= 1 / 2.
Proof.
  intros B. assert (Bp : 0 < IZR b) by (now apply IZR_lt). unfold nearest. set (q := (a / b)%Z). set (r := (a mod b)%Z).
  assert (D : IZR a = IZR b * IZR q + IZR r). { unfold q, r. rewrite <- mult_IZR, <- plus_IZR. f_equal. apply Z.div_mod. lia. }
  assert (X : IZR a / IZR b = IZR q + IZR r / IZR b) by (rewrite D; field; lra). rewrite X.
  pose proof (Z.mod_pos_bound a b B) as [R0 R1]. fold r in R0, R1. apply IZR_le in R0. apply IZR_lt in R1.
  assert (T0 : 0 <= IZR r / IZR b) by (apply Rmult_le_pos; [lra|left; now apply Rinv_0_lt_compat]).
  assert (TB : IZR r / IZR b * IZR b = IZR r) by (field; lra). set (t := IZR r / IZR b) in *. clearbody t.
  assert (U : t <= 1) by (apply (Rmult_le_reg_r (IZR b)); lra).
  destruct (Z.ltb_spec (2 * r) b) as [L|L].
  - apply IZR_lt in L. rewrite mult_IZR in L. assert (t <= 1 / 2) by (apply (Rmult_le_reg_r (IZR b)); lra). rewrite Rabs_left1; lra.
  - destruct (Z.ltb_spec b (2 * r)) as [K|K].
    + apply IZR_lt in K. rewrite mult_IZR in K. assert (1 / 2 <= t) by (apply (Rmult_le_reg_r (IZR b)); lra). rewrite plus_IZR, Rabs_right; lra.
    + assert (2 * r = b)%Z as E by lia. apply (f_equal IZR) in E. rewrite mult_IZR in E. assert (t = 1 / 2) by (apply (Rmult_eq_reg_r (IZR b)); lra).
      destruct (Z.even q); rewrite ?plus_IZR; [rewrite Rabs_left1; lra|rewrite Rabs_right; lra].
Qed.
Lemma nearest_exact a b n : (0 < b)%Z -> IZR a / IZR b = IZR n -> nearest a b = n.
Proof.
  intros B E. pose proof (nearest_spec a b B) as H. rewrite E in H. rewrite <- minus_IZR, <- abs_IZR in H.
  assert (Z.abs (nearest a b - n) < 1)%Z by (apply lt_IZR; lra). lia.
Qed.
Lemma sig6_spec a b m e : (0 < a)%Z -> (0 < b)%Z -> sig6 a b = (m, e) ->
  (10 ^ 5 <= m < 10 ^ 6)%Z /\ Rabs (IZR m * p10 (e - 5) - IZR a / IZR b) <= 5 / 10 ^ 6 * (IZR a / IZR b) /\
  forall k j, (0 < k < 10 ^ 6)%Z -> IZR a / IZR b = IZR k * p10 j -> IZR m * p10 (e - 5) = IZR a / IZR b.
Proof.
  intros A B. unfold sig6. pose proof (expo10_spec a b A B) as [X1 X2]. set (e0 := expo10 a b) in *. clearbody e0. set (x := IZR a / IZR b) in *.
  destruct (shift10 a b (5 - e0)) as [c d] eqn:E. destruct (shift10_spec a b _ c d A B E) as (C & D & Q). fold x in Q. clearbody x.
  pose proof (nearest_spec c d D) as NS. pose proof (fun n => nearest_exact c d n D) as NE. rewrite Q in NS, NE. set (y := x * p10 (5 - e0)) in *.
  assert (P : p10 (5 - e0) * p10 (e0 - 5) = 1) by (replace (5 - e0)%Z with (- (e0 - 5))%Z by lia; apply p10_opp).
  pose proof (p10_pos (5 - e0)) as P1. pose proof (p10_pos (e0 - 5)) as P2.
  assert (Y1 : IZR (10 ^ 5) <= y). { rewrite p10_IZR by lia. unfold y. replace 5%Z with (e0 + (5 - e0))%Z at 1 by lia. rewrite p10_add. apply Rmult_le_compat_r; lra. }
  assert (Y2 : y < IZR (10 ^ 6)). { rewrite p10_IZR by lia. unfold y. replace 6%Z with ((e0 + 1) + (5 - e0))%Z by lia. rewrite p10_add. apply Rmult_lt_compat_r; lra. }
  assert (XY : x = y * p10 (e0 - 5)) by (unfold y; rewrite Rmult_assoc, P; ring).
  set (n := nearest c d) in *. clearbody n.
  assert (N1 : (10 ^ 5 <= n)%Z). { apply Z.lt_pred_le. apply lt_IZR. rewrite <- Z.sub_1_r, minus_IZR. unfold Rabs in NS. destruct (Rcase_abs _); lra. }
  assert (N2 : (n <= 10 ^ 6)%Z). { apply Z.lt_succ_r. apply lt_IZR. rewrite <- Z.add_1_r, plus_IZR. unfold Rabs in NS. destruct (Rcase_abs _); lra. }
  assert (V : Rabs (IZR n * p10 (e0 - 5) - x) <= 5 / 10 ^ 6 * x).
  { rewrite XY. rewrite <- Rmult_minus_distr_r, Rabs_mult, (Rabs_right (p10 _)) by lra. rewrite <- Rmult_assoc. apply Rmult_le_compat_r; [lra|].
    change (10 ^ 5)%Z with 100000%Z in Y1. lra. }
  assert (W : forall k j, (0 < k < 10 ^ 6)%Z -> x = IZR k * p10 j -> IZR n * p10 (e0 - 5) = x).
  { intros k j K Xk. assert (L : (e0 <= j + 5)%Z).
    { enough (e0 < j + 6)%Z by lia. apply p10_lt_inv. apply Rle_lt_trans with x; [lra|]. rewrite Xk. replace (j + 6)%Z with (6 + j)%Z by lia. rewrite p10_add. apply Rmult_lt_compat_r; [apply p10_pos|].
      rewrite <- p10_IZR by lia. apply IZR_lt. lia. }
    assert (YI : y = IZR (k * 10 ^ (j + 5 - e0))). { rewrite mult_IZR, p10_IZR by lia. unfold y. rewrite Xk, Rmult_assoc, <- p10_add. do 2 f_equal. lia. }
    rewrite (NE _ YI), <- YI. lra. }
  destruct (Z.eqb_spec n (10 ^ 6)) as [Z6|Z6]; intros H; injection H as <- <-.
  - assert (EQ : IZR (10 ^ 5) * p10 (e0 + 1 - 5) = IZR n * p10 (e0 - 5)).
    { rewrite Z6. rewrite !p10_IZR by lia. rewrite <- !p10_add. f_equal. lia. }
    change (Z.pow_pos 10 5) with (10 ^ 5)%Z. rewrite EQ. split; [lia|]. auto.
  - split; [lia|]. auto.
Qed.

(** ** Digits *)
Definition digOK (l : list Z) : Prop := Forall (fun d => 0 <= d < 10)%Z l.
Lemma digText_nat l : digText l = digitsText (map Z.to_nat l).
Proof. induction l as [|d l IH]; [reflexivity|]. cbn [digText map digitsText]. now rewrite IH. Qed.
Lemma digOK_nat l : digOK l -> digitsOK (map Z.to_nat l) /\ map Z.of_nat (map Z.to_nat l) = l.
Proof.
  intros H. induction H as [|d l D H [IH1 IH2]]; [split; [constructor|reflexivity]|]. cbn [map]. split; [constructor; [lia|auto]|]. rewrite IH2. f_equal. lia.
Qed.
Definition noDig (r : string) : Prop := match r with EmptyString => True | String c _ => digitVal c = None end.
Lemma span_dig l r : digOK l -> noDig r -> spanDigits (digText l ++ r) = (l, r).
Proof. intros H R. destruct (digOK_nat l H) as [A B]. rewrite digText_nat, spanDigits_text; auto. now rewrite B. Qed.
Lemma digsGo_spec k : forall n acc, digsGo k n acc = (digs k n ++ acc)%list.
Proof.
  unfold digs. induction k as [|k IH]; intros n acc; [reflexivity|]. cbn [digsGo]. rewrite IH, (IH _ [_]), <- app_assoc. reflexivity.
Qed.
Lemma digs_S k n : digs (S k) n = (digs k (n / 10)%Z ++ [(n mod 10)%Z])%list.
Proof. unfold digs. cbn [digsGo]. now rewrite digsGo_spec. Qed.
Lemma digs_ok k : forall n, digOK (digs k n) /\ length (digs k n) = k.
Proof.
  induction k as [|k IH]; intros n; [split; [constructor|reflexivity]|]. rewrite digs_S. destruct (IH (n / 10)%Z) as [A B]. split.
  - apply Forall_app. split; auto. constructor; [|constructor]. apply Z.mod_pos_bound. lia.
  - rewrite app_length, B. cbn. lia.
Qed.
Lemma digs_Z k : forall n, (0 <= n < 10 ^ Z.of_nat k)%Z -> digitsZ (digs k n) = n.
Proof.
  induction k as [|k IH]; intros n H; [cbn in *; lia|]. rewrite digs_S, digitsZ_app. cbn [length].
  rewrite Nat2Z.inj_succ, Z.pow_succ_r in H by lia. assert (D : (n = 10 * (n / 10) + n mod 10)%Z) by (apply Z.div_mod; lia). pose proof (Z.mod_pos_bound n 10 ltac:(lia)).
  rewrite IH by lia. unfold digitsZ. cbn [fold_left]. change (10 ^ Z.of_nat 1)%Z with 10%Z. lia.
Qed.
Lemma strip_spec l : exists z, l = (strip l ++ repeat 0%Z z)%list.
Proof.
  induction l as [|d l [z IH]]; [exists 0%nat; reflexivity|]. cbn [strip]. destruct (strip l) as [|a s].
  - destruct (Z.eqb_spec d 0) as [->|D]; [exists (S z); rewrite IH at 1; reflexivity|]. exists z. rewrite IH at 1. reflexivity.
  - exists z. rewrite IH at 1. reflexivity.
Qed.
Lemma digOK_app l r : digOK (l ++ r) -> digOK l /\ digOK r.
Proof. apply Forall_app. Qed.
Lemma digitsZ_zeros z : digitsZ (repeat 0%Z z) = 0%Z.
Proof. induction z as [|z IH]; [reflexivity|]. cbn [repeat]. rewrite digitsZ_cons, IH. lia. Qed.
Lemma digitsZ_strip l : exists z, length l = (length (strip l) + z)%nat /\ digitsZ l = (digitsZ (strip l) * 10 ^ Z.of_nat z)%Z.
Proof.
  destruct (strip_spec l) as [z E]. exists z. split; rewrite E at 1; [rewrite app_length, repeat_length; reflexivity|]. rewrite digitsZ_app, digitsZ_zeros, repeat_length. lia.
Qed.

(** ** Reading a text *)
Definition expText (e : Z) : string := append "e" (append (if (e <? 0)%Z then "-" else "+") (natText 2 (Z.abs e))).
Lemma natText_span k n : (0 <= n)%Z -> exists l, l <> [] /\ digitsZ l = n /\ digOK l /\ natText k n = digText l.
Proof.
  intros H. unfold natText. set (q := Nat.max k _). exists (digs q n).
  assert (N : (n < 10 ^ nbDig n)%Z /\ (1 <= nbDig n)%Z). { destruct (Z.eq_dec n 0) as [->|]; [vm_compute; split; [reflexivity|discriminate]|]. destruct (nbDig_spec n) as (A & B & C); [lia|]. auto. }
  destruct N as [N1 N2]. destruct (digs_ok q n) as [A B]. assert (Q : (Z.to_nat (nbDig n) <= q)%nat) by (unfold q; lia).
  split; [|split; [|split; auto]].
  - intros E. rewrite E in B. cbn in B. lia.
  - apply digs_Z. split; auto. apply Z.lt_le_trans with (10 ^ nbDig n)%Z; auto. apply Z.pow_le_mono_r; lia.
Qed.
Lemma stodU_text neg ip fp e : digOK ip -> ip <> [] -> digOK fp ->
  stodU (N := RNum) neg (digText ip ++ (fracText fp ++ match e with None => EmptyString | Some e => expText e end)) =
  Ok ((if neg then -1 else 1) * (IZR (digitsZ (ip ++ fp)) * p10 (match e with None => 0 | Some e => e end - Z.of_nat (length fp)))).
Proof.
  intros I NE F. set (rest := match e with None => EmptyString | Some e => expText e end).
  assert (RN : noDig rest) by (unfold rest; destruct e; [reflexivity|exact Logic.I]).
  assert (FN : noDig (fracText fp ++ rest)) by (destruct fp; [exact RN|reflexivity]).
  unfold stodU. rewrite span_dig by auto.
  assert (R2 : match (fracText fp ++ rest)%string with
     | EmptyString => ([], (fracText fp ++ rest)%string)
     | String c q => if (c =? ".")%char then spanDigits q else ([], (fracText fp ++ rest)%string)
     end = (fp, rest)).
  { destruct fp as [|d fp].
    - cbn [fracText append]. unfold rest. destruct e; reflexivity.
    - cbn [fracText append]. change ("." =? ".")%char with true. cbv iota. now apply span_dig. }
  rewrite R2. destruct (ip ++ fp)%list as [|d0 ds0] eqn:E0; [destruct ip; [congruence|discriminate]|]. rewrite <- E0. clear E0.
  set (ex := match rest with EmptyString => 0%Z | String c q => _ end).
  assert (EX : ex = match e with None => 0%Z | Some e => e end).
  { unfold ex, rest. destruct e as [e|]; [|reflexivity]. unfold expText. cbn [append]. change (existsb (Ascii.eqb "e") ["e"; "E"]%char) with true. cbn iota.
    destruct (natText_span 2 (Z.abs e)) as (l & L1 & L2 & L3 & L4); [lia|].
    assert (SP : spanDigits (natText 2 (Z.abs e)) = (l, EmptyString)) by (rewrite L4, <- (sapp_nil (digText l)); apply span_dig; [auto|exact Logic.I]).
    destruct (Z.ltb_spec e 0); cbn [append]; [change ("-" =? "-")%char with true|change ("+" =? "-")%char with false; change ("+" =? "+")%char with true]; cbn iota; rewrite SP; destruct l; try congruence; rewrite L2; lia. }
  rewrite EX. clearbody ex. set (e' := match e with None => 0%Z | Some e => e end). clear EX.
  match goal with |- _ = ?r => set (v := r) end. assert (G : Ok (scale10 (N := RNum) (if neg then - digitsZ (ip ++ fp) else digitsZ (ip ++ fp))%Z (e' - Z.of_nat (length fp))) = v).
  { unfold v. f_equal. rewrite scale10_R. destruct neg; [rewrite opp_IZR|]; ring. }
  assert (G0 : fp = [] -> Ok (scale10 (N := RNum) (if neg then - digitsZ (ip ++ fp) else digitsZ (ip ++ fp))%Z e') = v).
  { intros Z. rewrite <- G, Z. cbn [length Z.of_nat]. now rewrite Z.sub_0_r. }
  clearbody v. clear R2 FN. destruct fp as [|f fp].
  - specialize (G0 eq_refl). cbn [fracText append]. destruct ip as [|[|?|?] [|? ?]]; try exact G; try congruence. destruct rest as [|c q] eqn:Rq; [exact G|].
    unfold rest in Rq. destruct e; [|discriminate]. unfold expText in Rq. cbn [append] in Rq. injection Rq as <- _. exact G0.
  - destruct ip as [|[|?|?] [|? ?]]; try exact G; congruence.
Qed.
Lemma stod_dig d s : (0 <= d < 10)%Z -> stod (N := RNum) (String (digChar d) s) = stodU (N := RNum) false (String (digChar d) s).
Proof.
  intros H. assert (d = 0 \/ d = 1 \/ d = 2 \/ d = 3 \/ d = 4 \/ d = 5 \/ d = 6 \/ d = 7 \/ d = 8 \/ d = 9)%Z as K by lia.
  repeat (destruct K as [->|K]; [reflexivity|]). subst. reflexivity.
Qed.
(** What a text of six digits with an exponent stands for. *)
Theorem sigText_shape m e : (0 <= m < 10 ^ 6)%Z -> exists ip fp x, digOK ip /\ ip <> [] /\ digOK fp /\
  sigText m e = (digText ip ++ (fracText fp ++ match x with None => EmptyString | Some e => expText e end))%string /\
  IZR (digitsZ (ip ++ fp)) * p10 (match x with None => 0 | Some e => e end - Z.of_nat (length fp)) = IZR m * p10 (e - 5).
Proof.
  intros M. unfold sigText. destruct (digs_ok 6 m) as [D L]. pose proof (digs_Z 6 m M) as V. set (l := digs 6 m) in *. clearbody l.
  assert (K : forall k x, (1 <= k <= 6)%nat -> let ip := firstn k l in let fp := strip (skipn k l) in
    digOK ip /\ ip <> [] /\ digOK fp /\ IZR (digitsZ (ip ++ fp)) * p10 (x - Z.of_nat (length fp)) = IZR m * p10 (x - (6 - Z.of_nat k))).
  { intros k x Hk ip fp. rewrite <- (firstn_skipn k l) in D. apply digOK_app in D as [D1 D2]. fold ip in D1.
    assert (Lk : length (skipn k l) = (6 - k)%nat) by (rewrite skipn_length; lia).
    destruct (strip_spec (skipn k l)) as [z Z]. fold fp in Z. assert (Lz : (length fp + z)%nat = (6 - k)%nat) by (rewrite <- Lk, Z, app_length, repeat_length; auto).
    split; [auto|]. split; [|split].
    - intros E. assert (length ip = k) as Li by (unfold ip; rewrite firstn_length; lia). rewrite E in Li. cbn in Li. lia.
    - rewrite Z in D2. now apply digOK_app in D2.
    - assert (Vm : (m = digitsZ (ip ++ fp) * 10 ^ Z.of_nat z)%Z). { rewrite <- V, <- (firstn_skipn k l). fold ip. rewrite Z, app_assoc, digitsZ_app, digitsZ_zeros, repeat_length. lia. }
      rewrite Vm, mult_IZR, p10_IZR by lia. rewrite Rmult_assoc, <- p10_add. do 2 f_equal. lia. }
  destruct ((-4 <=? e)%Z && (e <? 6)%Z)%bool eqn:B.
  - apply andb_prop in B as [B1 B2]. apply Z.leb_le in B1. apply Z.ltb_lt in B2. destruct (Z.leb_spec 0 e).
    + destruct (K (Z.to_nat (e + 1)) 0%Z) as (K1 & K2 & K3 & K4); [lia|]. do 2 eexists. exists None. split; [exact K1|]. split; [exact K2|]. split; [exact K3|]. split; [now rewrite sapp_nil|]. cbv beta iota. rewrite K4. do 2 f_equal. lia.
    + destruct (strip_spec l) as [z Z]. set (fp := strip l) in *. clearbody fp. exists [0%Z], (repeat 0%Z (Z.to_nat (- e - 1)) ++ fp)%list, None. split; [repeat constructor; lia|]. split; [discriminate|]. split; [|split].
      * apply Forall_app. split; [apply Forall_forall; intros y Hy; apply repeat_spec in Hy; subst; lia|]. rewrite Z in D. now apply digOK_app in D.
      * rewrite sapp_nil. reflexivity.
      * assert (Lz : (length fp + z)%nat = 6%nat) by (rewrite <- L, Z, app_length, repeat_length; auto).
        assert (Vm : (m = digitsZ fp * 10 ^ Z.of_nat z)%Z) by (rewrite <- V, Z, digitsZ_app, digitsZ_zeros, repeat_length; lia).
        rewrite app_assoc, digitsZ_app. change ([0%Z] ++ repeat 0%Z (Z.to_nat (- e - 1)))%list with (repeat 0%Z (S (Z.to_nat (- e - 1)))). rewrite digitsZ_zeros, Z.mul_0_l, Z.add_0_l, app_length, repeat_length.
        rewrite Vm, mult_IZR, p10_IZR by lia. rewrite Rmult_assoc, <- p10_add. do 2 f_equal. lia.
  - destruct (K 1%nat e) as (K1 & K2 & K3 & K4); [lia|]. do 2 eexists. exists (Some e). split; [exact K1|]. split; [exact K2|]. split; [exact K3|]. split; [reflexivity|]. cbv beta iota. rewrite K4. do 2 f_equal.
Qed.
Theorem stod_fmtPos (neg : bool) a b m e : (0 < a)%Z -> (0 < b)%Z -> sig6 a b = (m, e) ->
  stod (N := RNum) (if neg then String "-" (fmtPos a b) else fmtPos a b) = Ok ((if neg then -1 else 1) * (IZR m * p10 (e - 5))).
Proof.
  intros A B S. unfold fmtPos. rewrite S. destruct (sig6_spec a b m e A B S) as (M & _). destruct (sigText_shape m e) as (ip & fp & x & I & NE & F & T & V); [lia|].
  pose proof (stodU_text neg ip fp x I NE F) as G. rewrite <- T, V in G. destruct neg; [exact G|]. rewrite <- G.
  rewrite T. destruct ip as [|d ip]; [congruence|]. inversion I; subst. cbn [digText append]. now apply stod_dig.
Qed.
Theorem stod_fmt (x : Q) : exists v, stod (N := RNum) (fmt x) = Ok v /\ Rabs (v - Q2R x) <= 5 / 10 ^ 6 * Rabs (Q2R x) /\
  forall k j, (Z.abs k < 10 ^ 6)%Z -> Q2R x = IZR k * p10 j -> v = Q2R x.
Proof.
  destruct x as [a b]. unfold fmt, Q2R. cbn [Qnum Qden].
  assert (G : forall p, exists w, 0 < IZR (Z.pos p) * / IZR (Z.pos b) /\ (forall neg : bool, stod (N := RNum) (if neg then String "-" (fmtPos (Z.pos p) (Z.pos b)) else fmtPos (Z.pos p) (Z.pos b)) = Ok ((if neg then -1 else 1) * w)) /\
    Rabs (w - IZR (Z.pos p) * / IZR (Z.pos b)) <= 5 / 10 ^ 6 * (IZR (Z.pos p) * / IZR (Z.pos b)) /\
    forall k j, (0 < k < 10 ^ 6)%Z -> IZR (Z.pos p) * / IZR (Z.pos b) = IZR k * p10 j -> w = IZR (Z.pos p) * / IZR (Z.pos b)).
  { intros p. destruct (sig6 (Z.pos p) (Z.pos b)) as [m e] eqn:S. exists (IZR m * p10 (e - 5)). destruct (sig6_spec _ _ m e (Pos2Z.is_pos p) (Pos2Z.is_pos b) S) as (_ & V & W).
    split; [apply Rmult_lt_0_compat; [|apply Rinv_0_lt_compat]; apply IZR_lt; lia|]. split; [intros neg; now apply stod_fmtPos|]. auto. }
  destruct a as [|p|p].
  - exists 0. split; [transitivity (Ok (scale10 (N := RNum) 0 0)); [reflexivity|rewrite scale10_R, p10_0; f_equal; ring]|]. rewrite Rmult_0_l, Rminus_0_r, Rabs_R0, Rmult_0_r. split; [lra|auto].
  - destruct (G p) as (w & P & S & V & W). exists w. split; [rewrite (S false); f_equal; ring|]. rewrite (Rabs_right (_ * _)) by lra. split; auto. intros k j K E. apply (W k j); auto.
    split; [|lia]. apply lt_IZR. pose proof (p10_pos j). rewrite E in P. nra.
  - destruct (G p) as (w & P & S & V & W). exists (- w). change (Z.neg p) with (- Z.pos p)%Z. rewrite opp_IZR.
    split; [rewrite (S true); f_equal; ring|]. rewrite <- Ropp_mult_distr_l. rewrite Rabs_Ropp. rewrite (Rabs_right (_ * _)) by lra. split.
    + replace (- w - - (IZR (Z.pos p) * / IZR (Z.pos b))) with (- (w - IZR (Z.pos p) * / IZR (Z.pos b))) by ring. now rewrite Rabs_Ropp.
    + intros k j K E. rewrite (W (- k)%Z j); [reflexivity| |rewrite opp_IZR; lra]. split; [|lia]. apply lt_IZR. rewrite opp_IZR. pose proof (p10_pos j). nra.
Qed.
