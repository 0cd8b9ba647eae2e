(** * minimize() *)

From Coq Require Import Reals Lra Psatz List Lia Bool Arith Permutation.
From Verif Require Import Num M_LP M_Homogr M_Seg M_Poly S_Geom S_Seg S_Poly P_LP P_LP2 P_LP4 P_Seg P_Seg2 P_Seg3 P_Seg4 P_Circle3 P_Poly P_Poly3 P_Rect2 S_Extra S_Min.
Import ListNotations.
Local Open Scope R_scope.

(** ** The points kept, by recursion over the list *)
Section Keep.
  Context {A : Type} (g : A -> A -> A -> bool).
  Fixpoint kf (p : A) (l : list A) (e : A) : list A :=
    match l with
    | [] => []
    | b :: r => if g p b (hd e r) then kf b r e else b :: kf b r e
    end.
  Lemma kf_app p u v e : kf p (u ++ v) e = kf p u (hd e v) ++ kf (last u p) v e.
  Proof.
    revert p. induction u as [|b u IH]; intros p; [reflexivity|]. cbn [app kf]. rewrite IH.
    assert (hd e (u ++ v) = hd (hd e v) u) as -> by (destruct u; reflexivity).
    replace (last (b :: u) p) with (last u b).
    - destruct (g _ _ _); reflexivity.
    - destruct u as [|c u]; [reflexivity|]. cbn [last]. clear. revert b p c. induction u as [|d u IH]; intros; [reflexivity|]. cbn [last]. apply (IH b p d).
  Qed.
  Lemma kf_trips p l e : kf p l e = map (fun t => snd (fst t)) (filter (fun t => negb (g (fst (fst t)) (snd (fst t)) (snd t))) (trips p l e)).
  Proof.
    revert p. induction l as [|b r IH]; intros p; [reflexivity|]. cbn [kf trips filter fst snd]. rewrite IH. destruct (g _ _ _); reflexivity.
  Qed.
End Keep.

(** The index list of the code against the recursion. *)
Lemma nth_mid {A} (u : list A) x v d : nth (length u) (u ++ x :: v) d = x.
Proof. induction u; cbn; auto. Qed.
Lemma nth_lst {A} (l : list A) d : nth (length l - 1) l d = last l d.
Proof.
  induction l as [|a l IH]; [reflexivity|]. destruct l as [|b l]; [reflexivity|]. change (last (a :: b :: l) d) with (last (b :: l) d). rewrite <- IH.
  cbn [length Nat.sub]. rewrite !Nat.sub_0_r. reflexivity.
Qed.
Lemma last_app1 {A} (u : list A) x d : last (u ++ [x]) d = x.
Proof. induction u as [|a u IH]; [reflexivity|]. cbn [app]. destruct (u ++ [x]) eqn:E; [destruct u; discriminate|]. cbn [last]. exact IH. Qed.
Lemma last_dflt {A} (u : list A) d d' : u <> [] -> last u d = last u d'.
Proof. induction u as [|a u IH]; [contradiction|]. intros _. destruct u; [reflexivity|]. cbn [last]. apply IH. discriminate. Qed.

Definition rmOf (f : nat -> bool) (i n : nat) : list nat := filter f (seq i n).
Lemma rmOf_ge f i n j : In j (rmOf f i n) -> (i <= j)%nat.
Proof. intros H. apply filter_In in H. destruct H as [H _]. apply in_seq in H. lia. Qed.
Lemma keepFrom_head i rm (p : pt R) r : (forall j, In j rm -> (i < j)%nat) -> plKeepFrom i rm (p :: r) = p :: plKeepFrom (S i) rm r.
Proof. intros H. destruct rm as [|j rm]; cbn [plKeepFrom]; auto. destruct (Nat.eqb_spec j i); auto. specialize (H j (or_introl eq_refl)). lia. Qed.

(** The kept points of a middle part [l], with an arbitrary continuation. *)
Lemma keepFrom_kf (g : pt R -> pt R -> pt R -> bool) (f : nat -> bool) pts : forall l pre post k,
  pts = pre ++ l ++ post ->
  (forall i, (length pre <= i < length pre + length l)%nat -> f i = g (nth (prevIdx (length pts) i) pts pt00) (nth i pts pt00) (nth (nextIdx (length pts) i) pts pt00)) ->
  plKeepFrom (length pre) (rmOf f (length pre) (length l)) (l ++ k) =
  kf g (match pre with [] => last pts pt00 | _ => last pre pt00 end) l (match post with [] => hd pt00 pts | q :: _ => q end) ++ plKeepFrom (length pre + length l) [] k.
Proof.
  induction l as [|b r IH]; intros pre post k EP HF.
  - cbn [length rmOf seq filter app kf]. rewrite Nat.add_0_r. unfold rmOf. reflexivity.
  - assert (HB : f (length pre) = g (match pre with [] => last pts pt00 | _ => last pre pt00 end) b (hd (match post with [] => hd pt00 pts | q :: _ => q end) r)).
    { rewrite HF by (cbn [length]; lia). f_equal.
      - unfold prevIdx. destruct pre as [|a pre].
        + cbn [length Nat.eqb]. apply nth_lst.
        + replace (length (a :: pre) =? 0)%nat with false by reflexivity. rewrite EP. rewrite app_nth1 by (cbn [length]; lia). apply nth_lst.
      - rewrite EP. apply nth_mid.
      - unfold nextIdx. rewrite EP. destruct r as [|c r].
        + cbn [app hd]. rewrite app_length. cbn [length]. destruct post as [|q post].
          * replace (length pre =? _)%nat with true by (symmetry; apply Nat.eqb_eq; cbn [length]; lia). destruct pre; reflexivity.
          * replace (length pre =? _)%nat with false by (symmetry; apply Nat.eqb_neq; cbn [length]; lia).
            replace (length pre + 1)%nat with (length (pre ++ [b])) by (rewrite app_length; reflexivity). change (b :: q :: post) with ([b] ++ q :: post). rewrite app_assoc. apply nth_mid.
        + replace (length pre =? _)%nat with false by (symmetry; apply Nat.eqb_neq; rewrite !app_length; cbn [length]; lia). cbn [hd].
            replace (length pre + 1)%nat with (length (pre ++ [b])) by (rewrite app_length; reflexivity). cbn [app]. change (b :: c :: r ++ post) with ([b] ++ c :: r ++ post). rewrite app_assoc. apply nth_mid. }
    assert (EP' : pts = (pre ++ [b]) ++ r ++ post) by (rewrite EP, <- app_assoc; reflexivity).
    specialize (IH (pre ++ [b]) post k EP'). rewrite app_length in IH. cbn [length] in IH. replace (length pre + 1)%nat with (S (length pre)) in IH by lia.
    replace (match pre ++ [b] with [] => last pts pt00 | _ => last (pre ++ [b]) pt00 end) with b in IH by (rewrite last_app1; destruct pre; reflexivity).
    cbn [kf]. rewrite <- HB. unfold rmOf in *. cbn [length seq filter app]. 
    replace (length pre + S (length r))%nat with (S (length pre) + length r)%nat by lia.
    destruct (f (length pre)) eqn:E.
    + cbn [plKeepFrom]. rewrite Nat.eqb_refl. apply IH. intros i Hi. apply HF. cbn [length]. lia.
    + rewrite keepFrom_head; [|intros j Hj; apply rmOf_ge in Hj; lia]. cbn [app]. f_equal. apply IH. intros i Hi. apply HF. cbn [length]. lia.
Qed.

(** ** Directions *)
Definition sdir (p q p' q' : pt R) : Prop := exists k, 0 < k /\ px q' - px p' = k * (px q - px p) /\ py q' - py p' = k * (py q - py p).
Lemma sdir_refl p q : sdir p q p q.
Proof. exists 1. repeat split; lra. Qed.
Lemma sdir_trans a b c d e f : sdir a b c d -> sdir c d e f -> sdir a b e f.
Proof. intros (k & K & E1 & E2) (m & M & E3 & E4). exists (m * k). split; [now apply Rmult_lt_0_compat|]. rewrite E3, E4, E1, E2. split; ring. Qed.
Lemma sdir_sym a b c d : sdir a b c d -> sdir c d a b.
Proof. intros (k & K & E1 & E2). exists (/ k). split; [now apply Rinv_0_lt_compat|]. rewrite E1, E2. split; field; lra. Qed.
Lemma straight_sdir a b c : straight a b c <-> a <> b /\ sdir a b b c.
Proof.
  split.
  - intros (N & t & T & ->). unfold along. cbn [px py]. split.
    + intros E. apply N. assert (px a = px a + t * (px c - px a)) as E1 by (rewrite E at 1; reflexivity). assert (py a = py a + t * (py c - py a)) as E2 by (rewrite E at 1; reflexivity).
      assert (t * (px c - px a) = 0) as Z1 by lra. assert (t * (py c - py a) = 0) as Z2 by lra. apply Rmult_integral in Z1, Z2. apply pt_eq; lra.
    + exists ((1 - t) / t). split; [apply Rdiv_lt_0_compat; lra|]. cbn [px py]. split; field; lra.
  - intros (N & k & K & E1 & E2). split.
    + intros ->. apply N. assert ((1 + k) * (px b - px c) = 0) as Z1 by lra. assert ((1 + k) * (py b - py c) = 0) as Z2 by lra. apply Rmult_integral in Z1, Z2. apply pt_eq; lra.
    + exists (1 / (1 + k)). split.
      * split; [apply Rdiv_lt_0_compat; lra|]. apply Rmult_lt_reg_r with (1 + k); [lra|]. unfold Rdiv. rewrite Rmult_assoc, Rinv_l by lra. lra.
      * unfold along. apply pt_eq; cbn [px py]; [assert (px c - px a = (1 + k) * (px b - px a)) as -> by lra|assert (py c - py a = (1 + k) * (py b - py a)) as -> by lra]; field; lra.
Qed.
Definition dotd (a b c : pt R) : R := (px b - px a) * (px c - px b) + (py b - py a) * (py c - py b).
Definition strb (a b c : pt R) : bool := Reqb (cross3 a b c) 0 && Rltb 0 (dotd a b c).
Lemma sq_pos a b : a <> b -> 0 < (px b - px a) * (px b - px a) + (py b - py a) * (py b - py a).
Proof.
  intros N. assert (px b - px a <> 0 \/ py b - py a <> 0) as [H|H].
  { destruct (Req_dec (px b - px a) 0); auto. destruct (Req_dec (py b - py a) 0); auto. exfalso. apply N. apply pt_eq; lra. }
  - apply Rplus_lt_le_0_compat; [now apply Rlt_0_sqr|apply Rle_0_sqr].
  - apply Rplus_le_lt_0_compat; [apply Rle_0_sqr|now apply Rlt_0_sqr].
Qed.
Lemma strb_spec a b c : strb a b c = true <-> straight a b c.
Proof.
  rewrite straight_sdir. unfold strb. rewrite andb_true_iff, Rltb_spec, Reqb_spec. unfold cross3, dotd, sdir. split.
  - intros [C D]. assert (a <> b) as N by (intros ->; lra). split; auto. pose proof (sq_pos a b N) as SP. set (s := _ + _) in SP.
    exists (dotd a b c / s). unfold dotd in *. split; [now apply Rdiv_lt_0_compat|].
    split; (apply Rmult_eq_reg_r with s; [|lra]); unfold Rdiv; rewrite Rmult_assoc, (Rmult_comm _ s), <- Rmult_assoc; 
      [transitivity ((px b - px a) * ((px b - px a) * (px c - px b) + (py b - py a) * (py c - py b)) - (py b - py a) * ((px b - px a) * (py c - py a) - (py b - py a) * (px c - px a)))
      |transitivity ((py b - py a) * ((px b - px a) * (px c - px b) + (py b - py a) * (py c - py b)) + (px b - px a) * ((px b - px a) * (py c - py a) - (py b - py a) * (px c - px a)))];
      try (unfold s; ring); rewrite C; field; lra.
  - intros (N & k & K & E1 & E2). split.
    + replace (px c - px a) with ((1 + k) * (px b - px a)) by lra. replace (py c - py a) with ((1 + k) * (py b - py a)) by lra. ring.
    + rewrite E1, E2. pose proof (sq_pos a b N) as SP. replace (_ + _) with (k * ((px b - px a) * (px b - px a) + (py b - py a) * (py b - py a))) by ring. now apply Rmult_lt_0_compat.
Qed.
Lemma sdir_neq a b c d : sdir a b c d -> a <> b -> c <> d.
Proof. intros (k & K & E1 & E2) N ->. apply N. assert (k * (px b - px a) = 0) as Z1 by lra. assert (k * (py b - py a) = 0) as Z2 by lra. apply Rmult_integral in Z1, Z2. apply pt_eq; lra. Qed.
(** a, b, c with b - a in the direction of b - p. *)
Lemma straight_ext p a b c : straight p b c -> sdir p b a b -> straight a b c.
Proof.
  rewrite !straight_sdir. intros (N & S) D. split; [eapply sdir_neq; eauto|]. eapply sdir_trans; [|exact S]. now apply sdir_sym.
Qed.
Lemma sdir_sum a b c : straight a b c -> sdir b c a c.
Proof.
  rewrite straight_sdir. intros (_ & k & K & E1 & E2). exists ((1 + k) / k). split; [apply Rdiv_lt_0_compat; lra|].
  split; [replace (px c - px a) with ((1 + k) * (px b - px a)) by lra; rewrite E1|replace (py c - py a) with ((1 + k) * (py b - py a)) by lra; rewrite E2]; field; lra.
Qed.

Lemma chain_cons2 {A} (a b : A) l : chain (a :: b :: l) = (a, b) :: chain (b :: l). Proof. reflexivity. Qed.
Lemma chain_hd {A} (a : A) l e : chain (a :: l ++ [e]) = (a, hd e l) :: chain (l ++ [e]).
Proof. destruct l; reflexivity. Qed.
Notation okf := (kf strb).
Lemma kf_sum f : (forall a b c, straight a b c -> f (a, c) = f (a, b) + f (b, c)) -> forall l a p e, (forall x y, In (x, y) (chain (p :: l ++ [e])) -> x <> y) -> sdir p (hd e l) a (hd e l) ->
  sumOver f (chain (a :: okf p l e ++ [e])) = f (a, hd e l) + sumOver f (chain (l ++ [e])).
Proof.
  intros HF. induction l as [|b r IH]; intros a p e N D; [reflexivity|].
  cbn [hd] in *. assert (N' : forall x y, In (x, y) (chain (b :: r ++ [e])) -> x <> y) by (intros x y I; apply N; right; exact I).
  cbn [kf]. change ((b :: r) ++ [e]) with (b :: r ++ [e]). rewrite (chain_hd b r e). cbn [sumOver]. destruct (strb p b (hd e r)) eqn:S.
  - apply strb_spec in S. pose proof (straight_ext p a b _ S D) as S'. rewrite (IH a b e N') by (now apply sdir_sum).
    rewrite (HF a b _ S'). ring.
  - cbn [app]. rewrite chain_cons2. cbn [sumOver]. rewrite (IH b b e N') by apply sdir_refl. ring.
Qed.
Lemma kf_pts q : forall l a p e, (forall x y, In (x, y) (chain (p :: l ++ [e])) -> x <> y) -> sdir p (hd e l) a (hd e l) ->
  ((exists s, In s (chain (a :: okf p l e ++ [e])) /\ onSeg (fst s) (snd s) q) <-> onSeg a (hd e l) q \/ exists s, In s (chain (l ++ [e])) /\ onSeg (fst s) (snd s) q).
Proof.
  assert (HF : forall a b c, straight a b c -> (onSeg a c q <-> onSeg a b q \/ onSeg b c q)).
  { intros a b c (N & t & T & ->). split.
    - intros (s & Hs & X & Y). destruct (Rle_dec s t) as [L|L].
      + left. exists (s / t). split; [split; [apply Rmult_le_pos; [lra|left; apply Rinv_0_lt_compat; lra]|apply Rmult_le_reg_r with t; [lra|]; unfold Rdiv; rewrite Rmult_assoc, Rinv_l by lra; lra]|].
        unfold along. cbn [px py]. rewrite X, Y. split; field; lra.
      + right. exists ((s - t) / (1 - t)). split; [split; [apply Rmult_le_pos; [lra|left; apply Rinv_0_lt_compat; lra]|apply Rmult_le_reg_r with (1 - t); [lra|]; unfold Rdiv; rewrite Rmult_assoc, Rinv_l by lra; lra]|].
        unfold along. cbn [px py]. rewrite X, Y. split; field; lra.
    - unfold along. intros [(s & Hs & X & Y)|(s & Hs & X & Y)]; cbn [px py] in *.
      + exists (s * t). split; [nra|]. rewrite X, Y. split; ring.
      + exists (t + s * (1 - t)). split; [nra|]. rewrite X, Y. split; ring. }
  assert (CE : forall (x y : pt R) L, (exists s, In s ((x, y) :: L) /\ onSeg (fst s) (snd s) q) <-> onSeg x y q \/ exists s, In s L /\ onSeg (fst s) (snd s) q).
  { intros x y L. split; [intros (s & [<-|I] & O); eauto|]. intros [O|(s & I & O)]; [exists (x, y); split; auto; now left|exists s; split; auto; now right]. }
  induction l as [|b r IH]; intros a p e N D; [apply CE|].
  cbn [hd] in *. assert (N' : forall x y, In (x, y) (chain (b :: r ++ [e])) -> x <> y) by (intros x y I; apply N; right; exact I).
  cbn [kf]. change ((b :: r) ++ [e]) with (b :: r ++ [e]). rewrite (chain_hd b r e). destruct (strb p b (hd e r)) eqn:S.
  - apply strb_spec in S. pose proof (straight_ext p a b _ S D) as S'. rewrite (IH a b e N') by (now apply sdir_sum).
    rewrite CE, (HF a b _ S'). tauto.
  - cbn [app]. rewrite chain_cons2, CE, (IH b b e N') by apply sdir_refl. rewrite CE. tauto.
Qed.

(** Straight sums of lengths and of areas. *)
Lemma straight_len a b c : straight a b c -> edist a c = edist a b + edist b c.
Proof.
  intros (N & t & T & ->). rewrite <- (along_0 a c) at 2. rewrite <- (along_1 a c) at 5. rewrite !edist_along. rewrite Rabs_left by lra. rewrite Rabs_left by lra. ring.
Qed.
Lemma straight_tri o a b c : straight a b c -> tri2 o a c = tri2 o a b + tri2 o b c.
Proof. intros (N & t & T & ->). unfold tri2, cross3, along. cbn [px py]. ring. Qed.

(** Sides of the result and turns of the result. *)
Lemma sdir_len a b c : straight a b c -> edist b c <= edist a c /\ edist a b <= edist a c.
Proof. intros S. rewrite (straight_len a b c S). pose proof (edist_pos a b). pose proof (edist_pos b c). lra. Qed.
Lemma kf_long d : forall l a p e, 0 < d -> (forall s, In s (chain (p :: l ++ [e])) -> d <= edist (fst s) (snd s)) -> sdir p (hd e l) a (hd e l) -> d <= edist a (hd e l) ->
  forall s, In s (chain (a :: okf p l e ++ [e])) -> d <= edist (fst s) (snd s).
Proof.
  induction l as [|b r IH]; intros a p e Hd N D La s I.
  - destruct I as [<-|[]]. exact La.
  - cbn [hd] in *. assert (N' : forall s, In s (chain (b :: r ++ [e])) -> d <= edist (fst s) (snd s)) by (intros x X; apply N; right; exact X).
    cbn [kf] in I. destruct (strb p b (hd e r)) eqn:S.
    + apply strb_spec in S. pose proof (straight_ext p a b _ S D) as S'. apply (IH a b e Hd N'); auto; [now apply sdir_sum|]. pose proof (sdir_len a b _ S'). lra.
    + cbn [app] in I. rewrite chain_cons2 in I. destruct I as [<-|I]; [exact La|]. apply (IH b b e Hd N'); auto using sdir_refl.
      apply (N' (b, hd e r)). rewrite chain_hd. now left.
Qed.
Lemma kf_next : forall l p a e, sdir p (hd e l) a (hd e l) -> sdir p (hd e l) a (hd e (okf p l e)).
Proof.
  induction l as [|b r IH]; intros p a e D; [exact D|]. cbn [hd kf] in *. destruct (strb p b (hd e r)) eqn:S; [|exact D].
  apply strb_spec in S. pose proof (straight_ext p a b _ S D) as S'. eapply sdir_trans; [exact (proj2 (proj1 (straight_sdir _ _ _) S))|]. apply IH. now apply sdir_sum.
Qed.
Lemma last_cons {A} (b : A) r d : last (b :: r) d = last r b.
Proof. revert b d. induction r as [|c r IH]; intros b d; [reflexivity|]. change (last (b :: c :: r) d) with (last (c :: r) d). now rewrite !IH. Qed.
Lemma kf_prev : forall l p a e, sdir p (hd e l) a (hd e l) -> sdir (last l p) e (last (okf p l e) a) e.
Proof.
  induction l as [|b r IH]; intros p a e D; [exact D|]. cbn [hd] in D. rewrite last_cons. cbn [kf]. destruct (strb p b (hd e r)) eqn:S.
  - apply strb_spec in S. pose proof (straight_ext p a b _ S D) as S'. apply IH. now apply sdir_sum.
  - rewrite last_cons. apply IH. apply sdir_refl.
Qed.
Lemma edist_sdir a b c d : sdir a b c d -> exists k, 0 < k /\ edist c d = k * edist a b.
Proof.
  intros (k & K & E1 & E2). exists k. split; auto. apply edist_val; [apply Rmult_le_pos; [lra|apply edist_pos]|].
  transitivity (k * k * (edist a b * edist a b)); [ring|]. rewrite edist_sq. 
  replace (px c - px d) with (- (px d - px c)) by ring. replace (py c - py d) with (- (py d - py c)) by ring. rewrite E1, E2. ring.
Qed.
Lemma turning_ext th p b c a z : p <> b -> b <> c -> turning th p b c -> sdir p b a b -> sdir b c b z -> turning th a b z.
Proof.
  intros N1 N2 T D1 D2. unfold turning in *. eapply Rle_trans; [exact T|right]. f_equal.
  destruct D1 as (k & K & E1 & E2). destruct D2 as (m & M & E3 & E4).
  assert (edist a b = k * edist p b) as ->.
  { apply edist_val; [apply Rmult_le_pos; [lra|apply edist_pos]|]. transitivity (k * k * (edist p b * edist p b)); [ring|]. rewrite edist_sq.
    replace (px a - px b) with (- (px b - px a)) by ring. replace (py a - py b) with (- (py b - py a)) by ring. rewrite E1, E2. ring. }
  assert (edist b z = m * edist b c) as ->.
  { apply edist_val; [apply Rmult_le_pos; [lra|apply edist_pos]|]. transitivity (m * m * (edist b c * edist b c)); [ring|]. rewrite edist_sq.
    replace (px b - px z) with (- (px z - px b)) by ring. replace (py b - py z) with (- (py z - py b)) by ring. rewrite E3, E4. ring. }
  rewrite E1, E2, E3, E4. assert (0 < edist p b) by (now apply edist_neq). assert (0 < edist b c) by (now apply edist_neq). field. repeat split; lra.
Qed.
Lemma kf_turns th : forall l a p e, (forall x y, In (x, y) (chain (p :: l ++ [e])) -> x <> y) -> (forall x y z, In (x, y, z) (trips p l e) -> straight x y z \/ turning th x y z) ->
  sdir p (hd e l) a (hd e l) -> forall x y z, In (x, y, z) (trips a (okf p l e) e) -> turning th x y z.
Proof.
  induction l as [|b r IH]; intros a p e N H D x y z I; [destruct I|].
  cbn [hd] in *. assert (N' : forall x y, In (x, y) (chain (b :: r ++ [e])) -> x <> y) by (intros u v J; apply N; right; exact J).
  assert (H' : forall x y z, In (x, y, z) (trips b r e) -> straight x y z \/ turning th x y z) by (intros u v w J; apply H; right; exact J).
  cbn [kf] in I. destruct (strb p b (hd e r)) eqn:S.
  - apply strb_spec in S. pose proof (straight_ext p a b _ S D) as S'. apply (IH a b e N' H'); auto. now apply sdir_sum.
  - cbn [trips] in I. destruct I as [I|I]; [|apply (IH b b e N' H'); auto using sdir_refl]. injection I as <- <- <-.
    destruct (H p b (hd e r)) as [C|T]; [left; reflexivity|apply strb_spec in C; congruence|].
    apply (turning_ext th p b (hd e r)); auto.
    + apply N. now left.
    + apply N'. rewrite chain_hd. now left.
    + apply kf_next, sdir_refl.
Qed.

(** ** The test of the code *)
Lemma Ratan2_scale k y x : 0 < k -> Ratan2 (k * y) (k * x) = Ratan2 y x.
Proof.
  intros K. unfold Ratan2. 
  assert (P : forall u, 0 < k * u <-> 0 < u) by (intros u; split; intros; nra). assert (Q : forall u, k * u < 0 <-> u < 0) by (intros u; split; intros; nra).
  assert (S : forall u, 0 <= k * u <-> 0 <= u) by (intros u; split; intros; nra).
  assert (D : x <> 0 -> k * y / (k * x) = y / x) by (intros; field; lra).
  destruct (Rlt_dec 0 x) as [A|A]; [destruct (Rlt_dec 0 (k * x)) as [B|B]; [rewrite D by lra; auto|exfalso; apply B, P, A]|].
  destruct (Rlt_dec 0 (k * x)) as [B|B]; [exfalso; apply A, P, B|].
  destruct (Rlt_dec x 0) as [A'|A'].
  - destruct (Rlt_dec (k * x) 0) as [B'|B']; [|exfalso; apply B', Q, A']. rewrite D by lra.
    destruct (Rle_dec 0 y) as [Y|Y], (Rle_dec 0 (k * y)) as [Y'|Y']; auto; exfalso; [apply Y', S, Y|apply Y, S, Y'].
  - destruct (Rlt_dec (k * x) 0) as [B'|B']; [exfalso; apply A', Q, B'|].
    destruct (Rlt_dec 0 y) as [Y|Y], (Rlt_dec 0 (k * y)) as [Y'|Y']; auto; [exfalso; apply Y', P, Y|exfalso; apply Y, P, Y'|].
    destruct (Rlt_dec y 0) as [Z|Z], (Rlt_dec (k * y) 0) as [Z'|Z']; auto; exfalso; [apply Z', Q, Z|apply Z, Q, Z'].
Qed.
Definition midTest (th : thrs R) (a b c : pt R) : bool :=
  Rltb (Rabs (Ratan2 (px c - px b) (py c - py b) - Ratan2 (px b - px a) (py b - py a))) (nullAngleValue th).
Lemma midTest_spec th a b c : thr_ok th -> a <> b -> b <> c -> straight a b c \/ turning th a b c -> midTest th a b c = strb a b c.
Proof.
  intros Ht N1 N2 H. pose proof (thr_angl th Ht) as TA. unfold midTest. destruct (strb a b c) eqn:S.
  - apply strb_spec in S. apply straight_sdir in S. destruct S as (_ & k & K & E1 & E2). rewrite E1, E2, Ratan2_scale by auto. apply Rltb_spec. rewrite Rminus_diag_eq, Rabs_R0 by auto. lra.
  - destruct H as [H|H]; [apply strb_spec in H; congruence|]. apply Rltb_false. eapply Rle_trans; [exact H|].
    assert (Hv : forall p q, p <> q -> py q - py p <> 0 \/ px q - px p <> 0).
    { intros p q N. destruct (Req_dec (py q - py p) 0); auto. destruct (Req_dec (px q - px p) 0); auto. exfalso. apply N. apply pt_eq; lra. }
    destruct (Ratan2_spec _ _ (Hv a b N1)) as (C1 & S1 & B1). destruct (Ratan2_spec _ _ (Hv b c N2)) as (C2 & S2 & B2).
    assert (Hh : forall p q, hypot (py q - py p) (px q - px p) = edist p q).
    { intros p q. apply hypot_val; [apply edist_pos|]. rewrite edist_sq. ring. }
    rewrite Hh in *. assert (0 < edist a b) by (now apply edist_neq). assert (0 < edist b c) by (now apply edist_neq).
    set (u := Ratan2 (px c - px b) (py c - py b)) in *. set (v := Ratan2 (px b - px a) (py b - py a)) in *.
    assert (cos (Rabs (u - v)) = ((px b - px a) * (px c - px b) + (py b - py a) * (py c - py b)) / (edist a b * edist b c)) as CO.
    { assert (cos (Rabs (u - v)) = cos (u - v)) as -> by (unfold Rabs; destruct (Rcase_abs _); [apply cos_neg|auto]). rewrite cos_minus, C1, C2, S1, S2. field. lra. }
    rewrite <- CO. pose proof PI_RGT_0. assert (0 <= Rabs (u - v) < 2 * PI) as RB by (split; [apply Rabs_pos|unfold Rabs; destruct (Rcase_abs _); lra]).
    destruct (Rle_dec (Rabs (u - v)) PI) as [L|L].
    + rewrite acos_cos by lra. lra.
    + pose proof (acos_bound (cos (Rabs (u - v)))). lra.
Qed.

(** ** The whole function *)
Lemma addAll_ok th : forall pts pl, plPts pl <> [] -> (forall s, In s (chain (last (plPts pl) pt00 :: pts)) -> nullDistance th <= edist (fst s) (snd s)) ->
  exists pl', plAddAll th pl pts = Ok pl' /\ plPts pl' = plPts pl ++ pts.
Proof.
  induction pts as [|p r IH]; intros pl NE H.
  - exists pl. rewrite app_nil_r. auto.
  - cbn [plAddAll]. unfold plAddPoint. destruct (plPts pl) as [|a l] eqn:E; [contradiction|].
    rewrite (proj2 (ptEq_false th p (last (a :: l) pt00))).
    2: { rewrite edist_sym. apply (H (last (a :: l) pt00, p)). now left. }
    cbn [bind]. destruct (IH (plFresh ((a :: l) ++ [p]))) as (pl' & E' & P').
    + discriminate.
    + cbn [plPts plFresh]. rewrite last_app1. intros s I. apply H. right. exact I.
    + exists pl'. split; auto. rewrite P'. cbn [plPts plFresh]. now rewrite <- app_assoc.
Qed.
Lemma addAll_new th a r : (forall s, In s (chain (a :: r)) -> nullDistance th <= edist (fst s) (snd s)) ->
  exists pl', plAddAll th plEmpty (a :: r) = Ok pl' /\ plPts pl' = a :: r.
Proof.
  intros H. cbn [plAddAll]. unfold plAddPoint. cbn [plPts plEmpty bind]. destruct (addAll_ok th r (plFresh [a])) as (pl' & E & P); [discriminate|exact H|]. exists pl'. auto.
Qed.
Lemma keep_nil (pts : list (pt R)) i : plKeepFrom i [] pts = pts.
Proof. revert i. induction pts as [|p r IH]; intros i; cbn [plKeepFrom]; [auto|]. now rewrite IH. Qed.
Lemma kf_ext {A} (g h : A -> A -> A -> bool) l p e : (forall x y z, In (x, y, z) (trips p l e) -> g x y z = h x y z) -> kf g p l e = kf h p l e.
Proof.
  revert p. induction l as [|b r IH]; intros p H; [reflexivity|]. cbn [kf]. rewrite (H p b (hd e r)) by now left.
  rewrite (IH b) by (intros x y z I; apply H; right; exact I). reflexivity.
Qed.
Lemma minimize_keep th (closed : bool) pl (pts' : list (pt R)) : plPts pl <> [] -> (3 <= length (plPts pl))%nat ->
  plKeep (filter (plIsMiddle th (plPts pl)) (if closed then seq 0 (length (plPts pl)) else seq 1 (length (plPts pl) - 2))) (plPts pl) = pts' ->
  (exists a r, pts' = a :: r /\ forall s, In s (chain (a :: r)) -> nullDistance th <= edist (fst s) (snd s)) ->
  exists pl', plMinimize th closed pl = Ok pl' /\ plPts pl' = pts'.
Proof.
  intros NE L E (a & r & -> & H). unfold plMinimize. destruct (Nat.ltb_spec (length (plPts pl)) 3); [lia|].
  destruct (filter _ _) as [|j rm] eqn:EF.
  - exists pl. split; auto. rewrite <- E. unfold plKeep. now rewrite keep_nil.
  - rewrite E. destruct (addAll_new th a r H) as (pl' & E' & P'). eauto.
Qed.
(** The test at index i is the test on the triple of points. *)
Lemma isMiddle_test th (pts : list (pt R)) i : plIsMiddle (N := RNum) th pts i = midTest th (nth (prevIdx (length pts) i) pts pt00) (nth i pts pt00) (nth (nextIdx (length pts) i) pts pt00).
Proof. reflexivity. Qed.

Lemma trips_app {A} (p : A) u v e : trips p (u ++ v) e = trips p u (hd e v) ++ trips (last u p) v e.
Proof.
  revert p. induction u as [|b u IH]; intros p; [reflexivity|]. cbn [app trips]. rewrite IH, last_cons.
  assert (hd e (u ++ v) = hd (hd e v) u) as -> by (destruct u; reflexivity). reflexivity.
Qed.
Lemma trips_chain {A} (x y z : A) p l e : In (x, y, z) (trips p l e) -> In (x, y) (chain (p :: l ++ [e])) /\ In (y, z) (chain (p :: l ++ [e])).
Proof.
  revert p. induction l as [|b r IH]; intros p I; [destruct I|]. cbn [trips] in I. destruct I as [I|I].
  - injection I as <- <- <-. cbn [app]. rewrite chain_cons2, chain_hd. cbn. auto.
  - cbn [app]. rewrite chain_cons2. apply IH in I. cbn. tauto.
Qed.
Lemma cyc_chain {A} (k : A) X : cyc (k :: X) = chain (k :: X ++ [k]).
Proof.
  unfold chain. cbn [tl]. rewrite cyc_cons. change (k :: X ++ [k]) with ((k :: X) ++ [k]). 
  replace (combine ((k :: X) ++ [k]) (X ++ [k])) with (combine ((k :: X) ++ [k]) ((X ++ [k]) ++ [])) by now rewrite app_nil_r.
  rewrite combine_app' by (rewrite app_length; cbn; lia). cbn [combine]. now rewrite app_nil_r.
Qed.
Lemma chain_last {A} (l : list A) : forall c e, In (last l c, e) (chain (c :: l ++ [e])).
Proof. induction l as [|b l IH]; intros c e; [left; reflexivity|]. cbn [app]. rewrite chain_cons2, last_cons. right. apply IH. Qed.
Lemma chain_pre {A} (X : list A) e s : forall c, In s (chain (c :: X)) -> In s (chain (c :: X ++ [e])).
Proof. induction X as [|x X IH]; intros c I; [destruct I|]. cbn [app]. rewrite chain_cons2 in *. destruct I as [<-|I]; [now left|right]. now apply IH. Qed.
Lemma kf_first {A} (g : A -> A -> A -> bool) l : forall p e, kf g p l e <> [] -> exists u b v, l = u ++ b :: v /\ kf g p u b = [] /\ g (last u p) b (hd e v) = false.
Proof.
  induction l as [|b r IH]; intros p e H; [contradiction|]. cbn [kf] in H. destruct (g p b (hd e r)) eqn:E.
  - destruct (IH b e H) as (u & b' & v & -> & K & G). exists (b :: u), b', v. split; auto. split; [|now rewrite last_cons].
    cbn [kf]. assert (hd b' u = hd e (u ++ b' :: v)) as -> by (destruct u; reflexivity). now rewrite E.
  - exists [], b, r. auto.
Qed.
Lemma neq_far th (p q : pt R) : thr_ok th -> nullDistance th <= edist p q -> p <> q.
Proof. intros Ht H ->. rewrite edist_refl in H. pose proof (thr_dist th Ht). lra. Qed.

(** Open polylines. *)
Lemma minimize_open th pl a m e : thr_ok th -> plPts pl = a :: m ++ [e] -> m <> [] -> clearCut th false (plPts pl) ->
  exists pl', plMinimize th false pl = Ok pl' /\ plPts pl' = a :: okf a m e ++ [e].
Proof.
  intros Ht E NM [CL CT]. assert (corners3 false (plPts pl) = trips a m e) as C3.
  { rewrite E. unfold corners3. rewrite removelast_last, last_app1. reflexivity. }
  rewrite C3 in CT. cbn [sides] in CL. 
  assert (NE : forall x y, In (x, y) (chain (a :: m ++ [e])) -> x <> y) by (intros x y I; apply (neq_far th); auto; rewrite <- E in I; exact (CL (x, y) I)).
  apply minimize_keep.
  - rewrite E. discriminate.
  - rewrite E. cbn [length]. rewrite app_length. destruct m; [contradiction|]. cbn [length]. lia.
  - rewrite E. replace (length (a :: m ++ [e]) - 2)%nat with (length m) by (cbn [length]; rewrite app_length; cbn [length]; lia).
    unfold plKeep. rewrite keepFrom_head by (intros j J; apply filter_In in J; destruct J as [J _]; apply in_seq in J; lia). f_equal.
    pose proof (keepFrom_kf (midTest th) (plIsMiddle th (a :: m ++ [e])) (a :: m ++ [e]) m [a] [e] [e] eq_refl) as K.
    cbn [length last Nat.add] in K. unfold rmOf in K. rewrite K; [|intros i _; apply isMiddle_test]. rewrite keep_nil. f_equal.
    apply kf_ext. intros x y z I. destruct (trips_chain _ _ _ _ _ _ I) as [I1 I2]. apply midTest_spec; auto.
  - exists a, (okf a m e ++ [e]). split; auto. pose proof (thr_dist th Ht). rewrite E in CL. apply (kf_long (nullDistance th)); auto using sdir_refl.
    apply (CL (a, hd e m)). rewrite chain_hd. now left.
Qed.

(** Closed polylines: the result starts at the first kept vertex. *)
Lemma minimize_closed th pl : thr_ok th -> (3 <= length (plPts pl))%nat -> clearCut th true (plPts pl) ->
  exists pl' u b v, plMinimize th true pl = Ok pl' /\ plPts pl = u ++ b :: v /\ plPts pl' = b :: okf b (v ++ u) b /\
    strb (last (v ++ u) b) b (hd b (v ++ u)) = false /\ plPts pl' = okf (last (plPts pl) pt00) (plPts pl) (hd pt00 (plPts pl)).
Proof.
  intros Ht L [CL CT]. pose proof (thr_dist th Ht) as T0. destruct (plPts pl) as [|a w] eqn:E; [cbn in L; lia|]. 
  assert (corners3 true (a :: w) = trips (last w a) (a :: w) a) as C3 by (unfold corners3; now rewrite last_cons).
  rewrite C3 in CT. cbn [sides] in CL. rewrite cyc_chain in CL.
  assert (NE : forall x y, In (x, y) (chain (a :: w ++ [a])) -> x <> y) by (intros x y I; apply (neq_far th); auto; exact (CL (x, y) I)).
  assert (NEL : last w a <> a) by (apply NE, chain_last).
  assert (LA : last (a :: w) pt00 = last w a) by (now rewrite last_cons).
  set (out := okf (last w a) (a :: w) a).
  assert (KE : plKeep (filter (plIsMiddle th (a :: w)) (seq 0 (length (a :: w)))) (a :: w) = out).
  { pose proof (keepFrom_kf (midTest th) (plIsMiddle th (a :: w)) (a :: w) (a :: w) [] [] []) as K. cbn [app] in K. rewrite app_nil_r in K. specialize (K eq_refl).
    cbn [length Nat.add] in K. unfold rmOf in K. unfold plKeep. change (S (length w)) with (length (a :: w)) in K. rewrite K by (intros i _; apply isMiddle_test). cbn [plKeepFrom]. rewrite app_nil_r, LA. cbn [hd].
    unfold out. apply kf_ext. intros x y z I. apply midTest_spec; auto.
    - cbn [trips] in I. destruct I as [I|I]; [injection I as <- <- <-; auto|]. apply NE. now apply trips_chain in I.
    - cbn [trips] in I. destruct I as [I|I]; [injection I as <- <- <-; apply NE; rewrite chain_hd; now left|]. apply NE. now apply trips_chain in I. }
  assert (ON : out <> []).
  { intros Z. unfold out in Z. cbn [kf] in Z. assert (okf a w a = []) as Z' by (destruct (strb _ _ _); [auto|discriminate]).
    pose proof (kf_sum (fun e => edist (fst e) (snd e)) straight_len w a a a NE (sdir_refl _ _)) as K. rewrite Z' in K. cbn [app] in K.
    cbn [chain tl combine sumOver fst snd] in K. rewrite edist_refl in K.
    assert (0 < edist a (hd a w)) by (apply edist_neq, NE; rewrite chain_hd; now left).
    assert (0 <= sumOver (fun e => edist (fst e) (snd e)) (chain (w ++ [a]))) by (apply sumOver_nonneg; intros; apply edist_pos). lra. }
  destruct (kf_first strb (a :: w) (last w a) a ON) as (u & b & v & EU & KU & GB).
  assert (LV : last w a = last v b).
  { rewrite <- LA, EU. clear. induction u as [|c u IH]; [cbn [app]; apply last_cons|]. cbn [app]. destruct (u ++ b :: v) eqn:Q; [destruct u; discriminate|]. exact IH. }
  assert (HU : a = hd b u) by (destruct u; cbn [app] in EU; injection EU; auto).
  assert (OE : out = b :: okf b (v ++ u) b).
  { unfold out. rewrite EU, kf_app. cbn [hd]. rewrite KU. cbn [app kf]. rewrite GB. f_equal. rewrite kf_app. rewrite <- HU, <- LV, KU, app_nil_r. reflexivity. }
  assert (PR : Permutation (chain (a :: w ++ [a])) (chain (b :: (v ++ u) ++ [b]))).
  { rewrite <- !cyc_chain. apply cyc_shift. exists u, (b :: v). auto. }
  destruct (minimize_keep th true pl out) as (pl' & E1 & E2).
  - rewrite E. discriminate.
  - rewrite E. auto.
  - rewrite E. exact KE.
  - exists b, (okf b (v ++ u) b). split; auto. intros s I.
    assert (forall s, In s (chain (b :: okf b (v ++ u) b ++ [b])) -> nullDistance th <= edist (fst s) (snd s)) as G.
    { apply (kf_long (nullDistance th)); auto using sdir_refl.
      - intros s' I'. apply CL. eapply Permutation_in; [symmetry; exact PR|]. exact I'.
      - apply (CL (b, hd b (v ++ u))). eapply Permutation_in; [symmetry; exact PR|]. rewrite chain_hd. now left. }
    apply G. now apply chain_pre.
  - exists pl', u, b, v. split; auto. split; auto. split; [congruence|]. split.
    + rewrite <- GB. f_equal; [rewrite LV; clear; revert b; induction v as [|c v IH]; intros b; [reflexivity|]; cbn [app]; now rewrite !last_cons, IH|].
      rewrite HU. destruct v; reflexivity.
    + rewrite E2, LA. reflexivity.
Qed.
