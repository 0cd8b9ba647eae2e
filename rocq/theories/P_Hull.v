(** * Lemmas on the convex hull *)

From Coq Require Import Reals Lra Lia List Bool ZArith Arith Permutation Sorted.
From Verif Require Import Num M_LP M_Seg M_Circle M_Poly M_Hull S_Geom S_Poly S_Hull P_LP P_LP2 P_Circle2 P_Poly P_Poly2 P_Poly6.
Import ListNotations.
Local Open Scope R_scope.
Implicit Types (p q r : pt R) (pts : list (pt R)).

(** ** Relations between areas *)
Lemma cross_rot p q r : cross3 p q r = cross3 q r p.
Proof. unfold cross3. ring. Qed.
Lemma cross_swap p q r : cross3 p q r = - cross3 q p r.
Proof. unfold cross3. ring. Qed.
Lemma gp1 o a b c d : cross3 o b c * cross3 a b d = cross3 o a b * cross3 b c d + cross3 o b d * cross3 a b c.
Proof. unfold cross3. ring. Qed.
Lemma gp2 o a p q r : cross3 o p q * cross3 a q r = cross3 o q r * cross3 a p q + cross3 o a q * cross3 p q r.
Proof. unfold cross3. ring. Qed.
(** An affine function on a triangle. *)
Lemma bary o p q r u v w : cross3 o p r * aff u v w q = - cross3 p q r * aff u v w o + cross3 o q r * aff u v w p + cross3 o p q * aff u v w r.
Proof. unfold cross3, aff. ring. Qed.
Lemma cross_aff a b : exists u v w, forall p, aff u v w p = cross3 a b p.
Proof. exists (- (py b - py a)), (px b - px a), ((py b - py a) * px a - (px b - px a) * py a). intros p. unfold aff, cross3. ring. Qed.

(** ** The main loop *)
Section Loop.
  Variables (g : nat -> pt R) (v2 : list nat).
  Let n := length v2.
  Hypothesis Hsort : forall i j, (0 < i < j)%nat -> (j < n)%nat -> 0 < cross3 (g 0) (g i) (g j).
  Hypothesis Hsep : forall i j k, (i < n)%nat -> (j < n)%nat -> (k < n)%nat -> cross3 (g i) (g j) (g k) = 0 \/ / 1000000000000000 <= Rabs (cross3 (g i) (g j) (g k)).

  Lemma orient_1 i j k : (i < n)%nat -> (j < n)%nat -> (k < n)%nat -> (hullOrient (g i) (g j) (g k) = 1%Z <-> cross3 (g i) (g j) (g k) < 0).
  Proof.
    intros I J K. unfold hullOrient. rnum. set (val := _ - _). assert (val = - cross3 (g i) (g j) (g k)) as E by (unfold val, cross3; ring).
    specialize (Hsep i j k I J K). assert (nullDeter (@thr0 R RNum) = / 1000000000000000) as D by (unfold thr0; cbn [nullDeter]; rnum; lra). rewrite D. rewrite E in *. set (c := cross3 _ _ _) in *. clearbody c. rewrite Rabs_Ropp.
    destruct (Rltb (Rabs c) (/ 1000000000000000)) eqn:X; rclean.
    - destruct Hsep as [->|?]; [|lra]. split; [discriminate|lra].
    - destruct (Rltb 0 (- c)) eqn:Y; rclean; split; try discriminate; try lra; auto.
  Qed.

  (** Positions on the stack, top first: decreasing, all increasing triples turn left, and the processed
      points are in every half-plane that holds the stack and the next point. *)
  Record inv (S : list nat) (r : nat) : Prop := {
    iS : StronglySorted (fun a b => (b < a)%nat) S;
    i0 : In 0%nat S;
    iB : forall s, In s S -> (s < r)%nat;
    iT : forall a b c, In a S -> In b S -> In c S -> (a < b < c)%nat -> 0 <= cross3 (g a) (g b) (g c);
    iC : forall u v w, (forall s, In s S -> 0 <= aff u v w (g s)) -> 0 <= aff u v w (g r) -> forall j, (j < r)%nat -> 0 <= aff u v w (g j)
  }.
  Lemma inv_init : (3 < n)%nat -> inv [2; 1; 0]%nat 3.
  Proof.
    intros Hn. split.
    - repeat constructor.
    - cbn; auto.
    - cbn. intros s [<-|[<-|[<-|[]]]]; lia.
    - cbn. intros a b c [<-|[<-|[<-|[]]]] [<-|[<-|[<-|[]]]] [<-|[<-|[<-|[]]]] H; try lia. apply Rlt_le, Hsort; lia.
    - intros u v w H Hr j Hj. apply H. cbn. lia.
  Qed.
  Lemma inv_pop (q p : nat) S (r : nat) : inv (q :: p :: S) r -> (r < n)%nat -> cross3 (g p) (g q) (g r) < 0 -> inv (p :: S) r /\ S <> [].
  Proof.
    intros [A B C D E] Hr X. assert (q < r)%nat as Q by (apply C; cbn; auto). inversion A as [|? ? A1 A2]; subst. inversion A1 as [|? ? A3 A4]; subst.
    assert (p < q)%nat as P by (inversion A2; auto).
    assert (0 < p)%nat as P0. { destruct p; [|lia]. pose proof (Hsort q r). lra || (assert (0 < cross3 (g 0%nat) (g q) (g r)) by (apply Hsort; lia); lra). }
    assert (In 0%nat S) as O. { cbn in B. destruct B as [?|[?|?]]; auto; lia. }
    split; [|intros ->; contradiction]. split; auto.
    - right; auto.
    - intros s Hs. apply C. right; auto.
    - intros a b c Ha Hb Hc. apply D; right; auto.
    - intros u v w H Hrr j Hj. apply (E u v w); auto. intros s [<-|Hs]; [|auto].
      assert (0 < cross3 (g 0%nat) (g p) (g r)) as W by (apply Hsort; lia).
      apply (Rmult_le_reg_l (cross3 (g 0%nat) (g p) (g r))); auto. rewrite Rmult_0_r, (bary (g 0%nat) (g p) (g q) (g r)).
      assert (0 < cross3 (g 0%nat) (g q) (g r)) by (apply Hsort; lia). assert (0 < cross3 (g 0%nat) (g p) (g q)) by (apply Hsort; lia).
      assert (0 <= aff u v w (g 0%nat)) by (apply H; right; auto). assert (0 <= aff u v w (g p)) by (apply H; left; auto).
      assert (0 <= - cross3 (g p) (g q) (g r) * aff u v w (g 0%nat)) by (apply Rmult_le_pos; lra).
      assert (0 <= cross3 (g 0%nat) (g q) (g r) * aff u v w (g p)) by (apply Rmult_le_pos; lra).
      assert (0 <= cross3 (g 0%nat) (g p) (g q) * aff u v w (g r)) by (apply Rmult_le_pos; lra). lra.
  Qed.
  Lemma inv_push (q p : nat) S (r : nat) : inv (q :: p :: S) r -> (r < n)%nat -> 0 <= cross3 (g p) (g q) (g r) -> inv (r :: q :: p :: S) (r + 1).
  Proof.
    intros [A B C D E] Hr X. assert (q < r)%nat as Q by (apply C; cbn; auto). pose proof A as A'. inversion A' as [|? ? A1 A2]; subst. inversion A1 as [|? ? A3 A4]; subst.
    assert (p < q)%nat as P by (inversion A2; auto). rewrite Forall_forall in A2, A4.
    assert (forall a, In a (q :: p :: S) -> (0 < a < q)%nat -> 0 <= cross3 (g a) (g q) (g r)) as T1.
    { intros a Ha L. destruct (Nat.eq_dec a p) as [->|N]; auto. assert (a < p)%nat as Lp. { destruct Ha as [<-|[<-|Ha]]; try lia. now apply A4. }
      assert (0 < cross3 (g 0%nat) (g p) (g q)) as W by (apply Hsort; lia). apply (Rmult_le_reg_l (cross3 (g 0%nat) (g p) (g q))); auto. rewrite Rmult_0_r, (gp2 (g 0%nat)).
      apply Rplus_le_le_0_compat; apply Rmult_le_pos; auto.
      - apply Rlt_le, Hsort; lia.
      - apply D; cbn; auto; lia.
      - apply Rlt_le, Hsort; lia. }
    assert (forall a b, In a (q :: p :: S) -> In b (q :: p :: S) -> (a < b)%nat -> 0 <= cross3 (g a) (g b) (g r)) as T2.
    { intros a b Ha Hb L. destruct (Nat.eq_dec a 0) as [->|N0]; [pose proof (C b Hb); apply Rlt_le, Hsort; lia|].
      destruct (Nat.eq_dec b q) as [->|Nb]; [apply T1; auto; lia|].
      assert (b < q)%nat as Lb. { destruct Hb as [<-|Hb]; [lia|]. now apply A2. }
      assert (0 < cross3 (g 0%nat) (g b) (g q)) as W by (apply Hsort; lia). apply (Rmult_le_reg_l (cross3 (g 0%nat) (g b) (g q))); auto. rewrite Rmult_0_r, (gp1 (g 0%nat)).
      apply Rplus_le_le_0_compat; apply Rmult_le_pos.
      - apply Rlt_le, Hsort; lia.
      - apply T1; auto; lia.
      - apply Rlt_le, Hsort; lia.
      - apply D; cbn; auto. }
    split.
    - constructor; auto. rewrite Forall_forall. intros s Hs. now apply C.
    - right; auto.
    - intros s [<-|Hs]; [lia|]. specialize (C s Hs). lia.
    - intros a b c [<-|Ha] [<-|Hb] [<-|Hc] L; try lia; try (pose proof (C _ Ha); lia); try (pose proof (C _ Hb); lia); try (pose proof (C _ Hc); lia).
      + apply T2; auto; lia.
      + apply D; auto.
    - intros u v w H _ j Hj. destruct (Nat.eq_dec j r) as [->|N]; [apply H; left; auto|].
      apply (E u v w); [intros s Hs; apply H; right; auto|apply H; left; auto|lia].
  Qed.
  (** The loop ends normally with a stack that satisfies the invariant for all the points. *)
  Lemma loop_ok fuel (q p : nat) S (r : nat) : inv (q :: p :: S) r -> (r < n)%nat -> (2 * (n - r) + length (q :: p :: S) <= fuel)%nat ->
    exists S', hullLoop g v2 fuel (map (fun i => nth i v2 0%nat) (q :: p :: S)) (p :: S) p q r = Ok (rev (map (fun i => nth i v2 0%nat) S')) /\ inv S' n /\ (3 <= length S')%nat /\
      forall u v w, (forall s, In s S' -> 0 <= aff u v w (g s)) -> forall j, (j < n)%nat -> 0 <= aff u v w (g j).
  Proof.
    revert q p S r. induction fuel as [|f IH]; intros q p S r I Hr Hf; [cbn in Hf; lia|]. cbn [hullLoop].
    pose proof (iB _ _ I) as C. assert (q < r)%nat by (apply C; cbn; auto). assert (p < r)%nat by (apply C; cbn; auto).
    pose proof (orient_1 p q r ltac:(lia) ltac:(lia) Hr) as O. destruct (Z.eqb (hullOrient (g p) (g q) (g r)) 1) eqn:E.
    - apply Z.eqb_eq in E. apply O in E. destruct (inv_pop q p S r I Hr E) as [I' N]. destruct S as [|k S]; [contradiction|]. cbn [tl map].
      apply (IH p k S r I' Hr). cbn [length] in *. lia.
    - apply Z.eqb_neq in E. assert (0 <= cross3 (g p) (g q) (g r)) as X. { apply Rnot_lt_le. intros L. apply E, O, L. }
      pose proof (inv_push q p S r I Hr X) as I'. destruct (r + 1 <? length v2)%nat eqn:L.
      + apply Nat.ltb_lt in L. apply (IH r q (p :: S) (r + 1)%nat I'); auto. cbn [length] in *. lia.
      + apply Nat.ltb_ge in L. exists (r :: q :: p :: S). split; [reflexivity|]. assert (n = (r + 1)%nat) as -> by (unfold n in *; lia). split; [exact I'|]. split; [cbn [length]; lia|].
        intros u v w H1 j Hj. destruct (Nat.eq_dec j r) as [->|N]; [apply H1; left; auto|].
        apply (iC _ _ I u v w); [intros s Hs; apply H1; right; auto|apply H1; left; auto|lia].
  Qed.
End Loop.

(** ** Edges of an increasing list *)
Lemma edges_inc l : forall a z (x y : nat), StronglySorted lt (a :: l) -> In (x, y) (combine (a :: l) (l ++ [z])) ->
  ((x < y)%nat /\ forall s, In s (a :: l) -> (s <= x)%nat \/ (y <= s)%nat) \/ (y = z /\ forall s, In s (a :: l) -> (s <= x)%nat).
Proof.
  induction l as [|b l IH]; intros a z x y HS HI.
  - cbn in HI. destruct HI as [E|[]]. injection E as <- <-. right. split; auto. intros s [<-|[]]. lia.
  - inversion HS as [|? ? HS1 HS2]; subst. rewrite Forall_forall in HS2. cbn [app combine] in HI. destruct HI as [E|HI].
    + injection E as <- <-. left. split; [apply HS2; left; auto|]. inversion HS1 as [|? ? _ HS4]; subst. rewrite Forall_forall in HS4.
      intros s [<-|[<-|Hs]]; [lia|lia|]. apply HS4 in Hs. lia.
    + change (In (x, y) (combine (b :: l) (l ++ [z]))) in HI. destruct (IH b z x y HS1 HI) as [[L H]|[L H]].
      * left. split; auto. intros s [<-|Hs]; auto. apply in_combine_l in HI. apply HS2 in HI. lia.
      * right. split; auto. intros s [<-|Hs]; auto. apply in_combine_l in HI. apply HS2 in HI. lia.
Qed.
Lemma sorted_app {A} (R : A -> A -> Prop) l m : StronglySorted R l -> StronglySorted R m -> (forall x y, In x l -> In y m -> R x y) -> StronglySorted R (l ++ m).
Proof.
  induction l as [|a l IH]; intros Hl Hm H; [auto|]. inversion Hl as [|? ? H1 H2]; subst. cbn [app]. constructor.
  - apply IH; auto. intros x y Hx. apply H. right; auto.
  - apply Forall_app. split; auto. rewrite Forall_forall. intros y Hy. apply H; auto. left; auto.
Qed.
Lemma sorted_rev {A} (R : A -> A -> Prop) l : StronglySorted R l -> StronglySorted (fun a b => R b a) (rev l).
Proof.
  induction 1 as [|a l Hl IH H]; [constructor|]. cbn [rev]. apply sorted_app; auto; [repeat constructor|].
  intros x y Hx [<-|[]]. apply in_rev in Hx. rewrite Forall_forall in H. auto.
Qed.
Lemma sorted_nodup {A} (R : A -> A -> Prop) l : (forall x, ~ R x x) -> StronglySorted R l -> NoDup l.
Proof. intros I. induction 1 as [|a l Hl IH H]; constructor; auto. intros X. rewrite Forall_forall in H. apply (I a), H, X. Qed.
(** Two sorted lists with the same elements are the same. *)
Lemma sorted_unique {A} (R : A -> A -> Prop) : (forall x, ~ R x x) -> (forall x y, R x y -> R y x -> False) ->
  forall l m, StronglySorted R l -> StronglySorted R m -> (forall x, In x l <-> In x m) -> l = m.
Proof.
  intros I As l. induction l as [|a l IH]; intros m Hl Hm H.
  - destruct m as [|b m]; auto. exfalso. apply (H b). left; auto.
  - destruct m as [|b m]; [exfalso; apply (H a); left; auto|]. inversion Hl as [|? ? L1 L2]; subst. inversion Hm as [|? ? M1 M2]; subst.
    rewrite Forall_forall in L2, M2. assert (a = b) as <-.
    { destruct (proj1 (H a) (or_introl eq_refl)) as [E|Ha]; auto. destruct (proj2 (H b) (or_introl eq_refl)) as [E|Hb]; auto. exfalso. apply (As a b); auto. }
    f_equal. apply IH; auto. intros x. split; intros Hx.
    + destruct (proj1 (H x) (or_intror Hx)) as [<-|?]; auto. exfalso. apply (I a); auto.
    + destruct (proj2 (H x) (or_intror Hx)) as [<-|?]; auto. exfalso. apply (I a); auto.
Qed.

(** ** The sort *)
Section Sort.
  Variable lt : nat -> nat -> bool.
  Lemma insert_perm x l : Permutation (hullInsert lt x l) (x :: l).
  Proof. induction l as [|y l IH]; cbn [hullInsert]; auto. destruct (lt x y); auto. rewrite IH. apply perm_swap. Qed.
  Lemma sort_perm_acc l : forall acc, Permutation (fold_left (fun acc x => hullInsert lt x acc) l acc) (l ++ acc).
  Proof.
    induction l as [|x l IH]; intros acc; cbn [fold_left app]; auto. rewrite IH, insert_perm. symmetry. apply Permutation_middle.
  Qed.
  Lemma sort_perm l : Permutation (hullSort lt l) l.
  Proof. unfold hullSort. rewrite sort_perm_acc. now rewrite app_nil_r. Qed.
  Lemma insert_sorted x l : (forall y z, In y (x :: l) -> In z (x :: l) -> y <> z -> lt y z = true \/ lt z y = true) ->
    (forall a b c, In a (x :: l) -> In b (x :: l) -> In c (x :: l) -> lt a b = true -> lt b c = true -> lt a c = true) ->
    ~ In x l -> StronglySorted (fun a b => lt a b = true) l -> StronglySorted (fun a b => lt a b = true) (hullInsert lt x l).
  Proof.
    induction l as [|y l IH]; intros To Tr Nx HS; cbn [hullInsert]; [repeat constructor|].
    inversion HS as [|? ? H1 H2]; subst. pose proof H2 as H2'. rewrite Forall_forall in H2. destruct (lt x y) eqn:E.
    - constructor; auto. constructor; auto. rewrite Forall_forall. intros z Hz. apply (Tr x y z); cbn; auto.
    - constructor.
      + apply IH; auto.
        * intros a b Ha Hb. apply To; cbn in *; intuition.
        * intros a b c Ha Hb Hc. apply Tr; cbn in *; intuition.
        * intros X. apply Nx. right; auto.
      + rewrite Forall_forall. intros z Hz. apply (Permutation_in _ (insert_perm x l)) in Hz. destruct Hz as [<-|Hz]; [|auto].
        destruct (To x y) as [?|?]; cbn; auto; try congruence. intros ->. apply Nx. left; auto.
  Qed.
  Lemma sort_sorted l : NoDup l -> (forall y z, In y l -> In z l -> y <> z -> lt y z = true \/ lt z y = true) ->
    (forall a b c, In a l -> In b l -> In c l -> lt a b = true -> lt b c = true -> lt a c = true) ->
    StronglySorted (fun a b => lt a b = true) (hullSort lt l).
  Proof.
    intros Nd To Tr. unfold hullSort. enough (forall m acc, NoDup (m ++ acc) -> incl (m ++ acc) l -> StronglySorted (fun a b => lt a b = true) acc ->
      StronglySorted (fun a b => lt a b = true) (fold_left (fun acc x => hullInsert lt x acc) m acc)) as H.
    { apply H; [now rewrite app_nil_r|rewrite app_nil_r; apply incl_refl|constructor]. }
    induction m as [|x m IH]; intros acc Nm Hi Ha; cbn [fold_left]; auto.
    assert (Permutation (m ++ hullInsert lt x acc) ((x :: m) ++ acc)) as P. { rewrite insert_perm. symmetry. apply Permutation_middle. }
    apply IH.
    - apply (Permutation_NoDup (Permutation_sym P) Nm).
    - intros y Hy. apply Hi, (Permutation_in _ P Hy).
    - cbn [app] in Nm, Hi. inversion Nm as [|? ? N1 N2]; subst. assert (incl (x :: acc) l) as Hi'.
      { intros y [<-|Hy]; apply Hi; [left; reflexivity|right; apply in_or_app; now right]. }
      apply insert_sorted; [intros; apply To; auto|intros a b c Aa Bb Cc; apply Tr; auto|intros X; apply N1, in_or_app; auto|auto].
  Qed.
End Sort.

(** ** The order of the points *)
Lemma hullLt_spec p0 p q : hullLt p0 p q = true <-> 0 < cross3 p0 p q.
Proof. unfold hullLt, cross3. rnum. rewrite Rltb_spec. split; intros H; lra. Qed.
Lemma hull_trans p0 a b c : hullDir p0 a -> hullDir p0 b -> hullDir p0 c -> 0 < cross3 p0 a b -> 0 < cross3 p0 b c -> 0 < cross3 p0 a c.
Proof.
  unfold hullDir, cross3. intros A B C. set (xa := px a - px p0). set (ya := py a - py p0). set (xb := px b - px p0). set (yb := py b - py p0).
  set (xc := px c - px p0). set (yc := py c - py p0). intros H1 H2.
  assert (0 < ya \/ (ya = 0 /\ 0 < xa)) as A' by (unfold ya, xa; lra). assert (0 < yb \/ (yb = 0 /\ 0 < xb)) as B' by (unfold yb, xb; lra).
  assert (0 < yc \/ (yc = 0 /\ 0 < xc)) as C' by (unfold yc, xc; lra). clearbody xa ya xb yb xc yc. clear A B C.
  destruct B' as [B|[-> B]]; [|exfalso; destruct A' as [A|[-> A]]; nra].
  apply (Rmult_lt_reg_l yb); auto. rewrite Rmult_0_r. replace (yb * (xa * yc - ya * xc)) with (yc * (xa * yb - ya * xb) + ya * (xb * yc - yb * xc)) by ring.
  destruct A' as [A|[-> A]].
  - assert (0 < ya * (xb * yc - yb * xc)) by (apply Rmult_lt_0_compat; auto). assert (0 <= yc * (xa * yb - ya * xb)) by (apply Rmult_le_pos; lra). lra.
  - destruct C' as [C|[-> C]]; [|nra]. assert (0 < yc * (xa * yb - 0 * xb)) by (apply Rmult_lt_0_compat; auto). lra.
Qed.

Lemma pivot_ex pts : pts <> [] -> (minElem ltBm pts < length pts)%nat /\ isPivot pts (nth (minElem ltBm pts) pts pt00).
Proof.
  intros Hn. destruct (extreme_key ltBm keyB pts) as (i & I & E & H & _); auto; [intros; apply lt_keys|].
  assert (i = minElem ltBm pts) as ->. { unfold extremePoint in E. destruct pts; [contradiction|]. apply Ok_inj in E. injection E as _ E. auto. }
  split; auto. split; [now apply nth_In|]. intros q Hq N. specialize (H q Hq). set (p0 := nth _ pts pt00) in *. unfold hullDir.
  destruct (Rtotal_order (py p0) (py q)) as [L|[L|L]]; auto.
  - right. split; auto. destruct (Rtotal_order (px p0) (px q)) as [M|[M|M]]; auto; exfalso.
    + apply N. destruct q, p0; cbn in *; subst; auto.
    + apply H. unfold lexlt, keyB. cbn. right. split; auto; lra.
  - exfalso. apply H. unfold lexlt, keyB. cbn. lra.
Qed.
Lemma pivot_unique pts p q : isPivot pts p -> isPivot pts q -> p = q.
Proof.
  intros [A B] [C D]. destruct (Rtotal_order (py p) (py q)) as [L|[L|L]]; destruct (Rtotal_order (px p) (px q)) as [M|[M|M]];
    try (destruct p, q; cbn in *; congruence);
    exfalso; (assert (p <> q) as N by (intros ->; lra)); pose proof (B q C (not_eq_sym N)) as X; pose proof (D p A N) as Y; unfold hullDir in *; lra.
Qed.

(** [sp] is the sequence of the points in the order of the scan. *)
Definition scanSeq pts p0 (rest : list (pt R)) : Prop :=
  isPivot pts p0 /\ Permutation (p0 :: rest) pts /\ StronglySorted (fun a b => 0 < cross3 p0 a b) rest.

Lemma cross_same p0 q : cross3 p0 q q = 0. Proof. unfold cross3. ring. Qed.
Lemma sorted_map {A B} (f : A -> B) (P : B -> B -> Prop) l : StronglySorted (fun a b => P (f a) (f b)) l -> StronglySorted P (map f l).
Proof. induction 1 as [|a l Hl IH H]; cbn [map]; constructor; auto. rewrite Forall_forall in *. intros y Hy. apply in_map_iff in Hy. destruct Hy as (x & <- & Hx). auto. Qed.
Lemma sorted_impl {A} (P Q : A -> A -> Prop) l : (forall a b, P a b -> Q a b) -> StronglySorted P l -> StronglySorted Q l.
Proof. intros H. induction 1 as [|a l Hl IH H1]; constructor; auto. rewrite Forall_forall in *. auto. Qed.
Lemma map_nth_seq' pts : map (fun i => nth i pts pt00) (seq 0 (length pts)) = pts.
Proof.
  apply nth_ext with (d := pt00) (d' := pt00); [now rewrite map_length, seq_length|]. intros i Hi. rewrite map_length, seq_length in Hi.
  rewrite (nth_indep _ pt00 ((fun i => nth i pts pt00) 0%nat)) by (now rewrite map_length, seq_length). rewrite (map_nth (fun i => nth i pts pt00)), seq_nth by auto. reflexivity.
Qed.
Lemma order_ok pts : pts <> [] -> NoDup pts -> noTie pts ->
  length (hullOrder pts) = length pts /\ Permutation (hullOrder pts) (seq 0 (length pts)) /\
  exists p0 rest, map (fun i => nth i pts pt00) (hullOrder pts) = p0 :: rest /\ scanSeq pts p0 rest.
Proof.
  intros Hn Nd NT. destruct (pivot_ex pts Hn) as [Hp Pv]. unfold hullOrder. set (piv := minElem ltBm pts) in *. set (p0 := nth piv pts pt00) in *.
  assert (exists rest, swapNth 0%nat (seq 0 (length pts)) 0 piv = piv :: rest /\ Permutation (piv :: rest) (seq 0 (length pts))) as (rest & E & P).
  { destruct (Nat.eq_dec piv 0) as [Z|Z].
    - rewrite Z, swap_same by (rewrite seq_length; lia). destruct (length pts) as [|m] eqn:L; [lia|]. cbn [seq]. eexists. split; reflexivity.
    - destruct (swap_lt 0%nat (seq 0 (length pts)) 0 piv) as (X & x & Y & y & Zz & E1 & LX & LJ & Nx & Ny & E2); [rewrite seq_length; lia|].
      destruct X; [|discriminate]. rewrite E2. cbn [app] in *. rewrite seq_nth in Ny by auto. cbn in Ny. subst y. eexists. split; [reflexivity|].
      rewrite E1. change (Permutation ([piv] ++ Y ++ x :: Zz) ([x] ++ Y ++ piv :: Zz)).
      transitivity (piv :: x :: Y ++ Zz); [constructor; symmetry; apply Permutation_middle|]. rewrite perm_swap. constructor. apply Permutation_middle. }
  rewrite E. set (lt := fun i j => hullLt p0 (nth i pts pt00) (nth j pts pt00)). set (f := fun i => nth i pts pt00).
  assert (Permutation (piv :: hullSort lt rest) (seq 0 (length pts))) as P2 by (rewrite sort_perm; auto).
  split; [rewrite (Permutation_length P2); apply seq_length|]. split; auto.
  exists p0, (map f (hullSort lt rest)). split; [reflexivity|]. split; auto. split.
  - change (p0 :: map f (hullSort lt rest)) with (map f (piv :: hullSort lt rest)). rewrite P2. unfold f. now rewrite map_nth_seq'.
  - apply sorted_map. assert (NoDup (piv :: rest)) as NdI by (apply (Permutation_NoDup (Permutation_sym P)), seq_NoDup).
    inversion NdI as [|? ? N1 N2]; subst.
    assert (forall i, In i rest -> (i < length pts)%nat /\ In (f i) pts /\ f i <> p0) as R1.
    { intros i Hi. assert (i < length pts)%nat as L. { assert (In i (seq 0 (length pts))) as H by (apply (Permutation_in _ P); right; auto). apply in_seq in H. lia. }
      split; auto. split; [now apply nth_In|]. intros X. assert (i = piv) as -> by (apply (proj1 (NoDup_nth pts pt00) Nd); auto). contradiction. }
    apply (sorted_impl (fun a b => lt a b = true)); [intros a b; unfold lt; apply hullLt_spec|]. apply sort_sorted; auto.
    + intros y z Hy Hz D. destruct (R1 y Hy) as (Ly & Iy & Ny), (R1 z Hz) as (Lz & Iz & Nz). unfold lt. rewrite !hullLt_spec.
      assert (f y <> f z) as Dyz. { intros X. apply D. apply (proj1 (NoDup_nth pts pt00) Nd); auto. }
      pose proof (NT p0 Pv (f y) (f z) Iy Iz Ny Nz Dyz) as C. unfold f in *. assert (cross3 p0 (nth z pts pt00) (nth y pts pt00) = - cross3 p0 (nth y pts pt00) (nth z pts pt00)) by (unfold cross3; ring).
      destruct (Rtotal_order (cross3 p0 (nth y pts pt00) (nth z pts pt00)) 0) as [?|[?|?]]; [right; lra|contradiction|left; lra].
    + intros a b c Ha Hb Hc. unfold lt. rewrite !hullLt_spec. destruct Pv as [_ Pv]. apply hull_trans; apply Pv; apply R1; auto.
Qed.
Lemma scan_unique pts pts' p0 rest p0' rest' : NoDup pts -> Permutation pts pts' -> scanSeq pts p0 rest -> scanSeq pts' p0' rest' -> p0 = p0' /\ rest = rest'.
Proof.
  intros Nd P (A & B & C) (A' & B' & C'). assert (isPivot pts p0') as A2.
  { destruct A' as [H1 H2]. split; [apply (Permutation_in _ (Permutation_sym P) H1)|]. intros q Hq. apply H2, (Permutation_in _ P Hq). }
  pose proof (pivot_unique _ _ _ A A2). subst p0'. split; auto.
  assert (Permutation rest rest') as PR. { apply (Permutation_cons_inv (a := p0)). rewrite B, B'. exact P. }
  apply (sorted_unique (fun a b => 0 < cross3 p0 a b)); auto.
  - intros x. rewrite cross_same. lra.
  - intros x y H1 H2. unfold cross3 in *. lra.
  - intros x. split; intros H; [apply (Permutation_in _ PR H)|apply (Permutation_in _ (Permutation_sym PR) H)].
Qed.

(** ** The loop in terms of positions *)
Definition scanIdx (sp : list (pt R)) : res (list nat) := hullLoop (fun i => nth i sp pt00) (seq 0 (length sp)) (2 * length sp) [2; 1; 0]%nat [1; 0]%nat 1 2 3.
Lemma loop_map (g g' : nat -> pt R) v2 n fuel : n = length v2 -> (forall i, (i < n)%nat -> g i = g' i) -> forall H fp i1 i2 i3, (i1 < n)%nat -> (i2 < n)%nat -> (i3 < n)%nat -> Forall (fun i => (i < n)%nat) fp ->
  hullLoop g v2 fuel (map (fun i => nth i v2 0%nat) H) fp i1 i2 i3 =
  match hullLoop g' (seq 0 n) fuel H fp i1 i2 i3 with Ok l => Ok (map (fun i => nth i v2 0%nat) l) | Throw => Throw | Undef => Undef end.
Proof.
  intros Ln Hg. induction fuel as [|f IH]; intros H fp i1 i2 i3 L1 L2 L3 Hf; [reflexivity|]. cbn [hullLoop]. rewrite !Hg by auto. destruct (Z.eqb _ 1).
  - destruct fp as [|x fp]; [reflexivity|]. cbn [tl]. inversion Hf as [|? ? _ Hf2]; subst. destruct fp as [|k fp]; [reflexivity|].
    replace (tl (map (fun i => nth i v2 0%nat) H)) with (map (fun i => nth i v2 0%nat) (tl H)) by (destruct H; reflexivity). apply IH; auto. inversion Hf2; auto.
  - rewrite seq_length, <- Ln. rewrite seq_nth by auto. cbn [Nat.add]. destruct (i3 + 1 <? n)%nat eqn:E.
    + apply Nat.ltb_lt in E. change (nth i3 v2 0%nat :: map (fun i => nth i v2 0%nat) H) with (map (fun i => nth i v2 0%nat) (i3 :: H)). apply IH; auto.
    + rewrite map_rev. reflexivity.
Qed.
Lemma loop_bound (g : nat -> pt R) n fuel : forall H fp i1 i2 i3 l, (i3 < n)%nat -> Forall (fun i => (i < n)%nat) H ->
  hullLoop g (seq 0 n) fuel H fp i1 i2 i3 = Ok l -> Forall (fun i => (i < n)%nat) l.
Proof.
  induction fuel as [|f IH]; intros H fp i1 i2 i3 l L3 HH E; [discriminate|]. cbn [hullLoop] in E. destruct (Z.eqb _ 1).
  - destruct (tl fp) as [|k r]; [discriminate|]. apply IH in E; auto. destruct H; auto. inversion HH; auto.
  - rewrite seq_length in E. rewrite seq_nth in E by auto. cbn [Nat.add] in E. destruct (i3 + 1 <? n)%nat eqn:B.
    + apply Nat.ltb_lt in B. apply IH in E; auto.
    + apply Ok_inj in E. subst l. apply Forall_rev. auto.
Qed.
Lemma hullPts_scan pts : (4 <= length pts)%nat -> NoDup pts -> noTie pts -> exists p0 rest, scanSeq pts p0 rest /\
  hullPts pts = do idx <- scanIdx (p0 :: rest); Ok (map (fun i => nth i (p0 :: rest) pt00) idx).
Proof.
  intros L4 Nd NT. destruct (order_ok pts) as (Lv & Pm & p0 & rest & E & Sc); auto; [destruct pts; [cbn in L4; lia|discriminate]|].
  exists p0, rest. split; auto. unfold hullPts, scanIdx. set (v2 := hullOrder pts) in *.
  assert (length (p0 :: rest) = length pts) as Ls by (rewrite <- E, map_length; auto). rewrite Ls.
  change [nth 2 v2 0%nat; nth 1 v2 0%nat; nth 0 v2 0%nat] with (map (fun i => nth i v2 0%nat) [2; 1; 0]%nat).
  assert (forall i, (i < length pts)%nat -> nth (nth i v2 0%nat) pts pt00 = nth i (p0 :: rest) pt00) as Hg.
  { intros i Hi. rewrite <- E. rewrite <- (map_nth (fun i => nth i pts pt00) v2 0%nat i). apply nth_indep. rewrite map_length. lia. }
  rewrite (loop_map _ (fun i => nth i (p0 :: rest) pt00) v2 (length pts)); [|auto|exact Hg|lia|lia|lia|repeat constructor; lia].
  destruct (hullLoop _ (seq 0 (length pts)) _ _ _ _ _) as [l| |] eqn:EL; cbn [bind]; auto. f_equal. rewrite map_map. apply map_ext_in.
  intros i Hi. apply Hg. apply loop_bound in EL; [|lia|repeat constructor; lia]. rewrite Forall_forall in EL. auto.
Qed.

(** ** The scan itself *)
Lemma sorted_nth {A} (P : A -> A -> Prop) l d : StronglySorted P l -> forall i j, (i < j)%nat -> (j < length l)%nat -> P (nth i l d) (nth j l d).
Proof.
  induction 1 as [|a l Hl IH H]; intros i j L1 L2; [cbn in L2; lia|]. destruct j as [|j]; [lia|]. cbn in L2. destruct i as [|i].
  - cbn [nth]. rewrite Forall_forall in H. apply H, nth_In. lia.
  - cbn [nth]. apply IH; lia.
Qed.
Lemma scan_hyp pts p0 rest : scanSeq pts p0 rest -> sepDet pts ->
  let g := fun i => nth i (p0 :: rest) pt00 in let n := length (seq 0 (length (p0 :: rest))) in
  (forall i j, (0 < i < j)%nat -> (j < n)%nat -> 0 < cross3 (g 0%nat) (g i) (g j)) /\
  (forall i j k, (i < n)%nat -> (j < n)%nat -> (k < n)%nat -> cross3 (g i) (g j) (g k) = 0 \/ / 1000000000000000 <= Rabs (cross3 (g i) (g j) (g k))).
Proof.
  intros (A & B & C) Sp g n. unfold n. rewrite seq_length. split.
  - intros i j L1 L2. destruct i as [|i]; [lia|]. destruct j as [|j]; [lia|]. unfold g. cbn [nth]. cbn in L2. apply (sorted_nth (fun a b => 0 < cross3 p0 a b)); auto; lia.
  - intros i j k Li Lj Lk. apply Sp; apply (Permutation_in _ B), nth_In; auto.
Qed.
(** Positions, from the first one. *)
Lemma scan_ok pts p0 rest : (4 <= length pts)%nat -> scanSeq pts p0 rest -> sepDet pts ->
  exists l, scanIdx (p0 :: rest) = Ok (0%nat :: l) /\ StronglySorted lt (0%nat :: l) /\ (2 <= length l)%nat /\
    Forall (fun i => (i < length pts)%nat) l /\
    (forall a b c, In a (0%nat :: l) -> In b (0%nat :: l) -> In c (0%nat :: l) -> (a < b < c)%nat -> 0 <= cross3 (nth a (p0 :: rest) pt00) (nth b (p0 :: rest) pt00) (nth c (p0 :: rest) pt00)) /\
    forall u v w, (forall s, In s (0%nat :: l) -> 0 <= aff u v w (nth s (p0 :: rest) pt00)) -> forall j, (j < length pts)%nat -> 0 <= aff u v w (nth j (p0 :: rest) pt00).
Proof.
  intros L4 Sc Sp. destruct (scan_hyp _ _ _ Sc Sp) as [H1 H2]. destruct Sc as (_ & B & _). apply Permutation_length in B.
  set (g := fun i => nth i (p0 :: rest) pt00) in *. set (v2 := seq 0 (length (p0 :: rest))) in *.
  assert (length v2 = length pts) as Lv by (unfold v2; now rewrite seq_length).
  destruct (loop_ok g v2 H1 H2 (2 * length (p0 :: rest)) 2%nat 1%nat [0%nat] 3%nat) as (S & E & I & L3 & HC); [apply (inv_init g v2); auto; lia|lia|cbn [length] in *; lia|].
  assert (map (fun i => nth i v2 0%nat) [2; 1; 0]%nat = [2; 1; 0]%nat) as M. { cbn [map]. unfold v2. rewrite !seq_nth by lia. reflexivity. }
  rewrite M in E. assert (rev (map (fun i => nth i v2 0%nat) S) = rev S) as M2.
  { f_equal. rewrite <- (map_id S) at 2. apply map_ext_in. intros a Ha. pose proof (iB _ _ _ I a Ha). unfold v2. rewrite seq_nth; auto. rewrite Lv, <- B in H. exact H. }
  rewrite M2 in E. pose proof (sorted_rev _ _ (iS _ _ _ I)) as Srt. pose proof (i0 _ _ _ I) as I0. apply in_rev in I0.
  assert (forall s, In s (rev S) -> In s S) as IR by (intros s Hs; apply in_rev; auto).
  destruct (rev S) as [|z l] eqn:ER; [contradiction|]. assert (z = 0%nat) as ->.
  { destruct I0 as [?|I0]; auto. inversion Srt as [|? ? _ F]; subst. rewrite Forall_forall in F. apply F in I0. lia. }
  exists l. split; [exact E|]. split; [exact Srt|]. split.
  { assert (length (rev S) = length S) as X by apply rev_length. rewrite ER in X. cbn [length] in X. lia. }
  split. { rewrite Forall_forall. intros s Hs. rewrite <- Lv. apply (iB _ _ _ I), IR. right; auto. }
  split. { intros a b c Ha Hb Hc. apply (iT _ _ _ I); auto. }
  intros u v w H j Hj. apply (HC u v w); [|lia]. intros s Hs. apply H. rewrite <- ER. now apply -> in_rev.
Qed.

(** ** Results *)
Lemma hull_edges (pt_ : nat -> pt R) l :  StronglySorted lt (0%nat :: l) ->
  (forall a b c, In a (0%nat :: l) -> In b (0%nat :: l) -> In c (0%nat :: l) -> (a < b < c)%nat -> 0 <= cross3 (pt_ a) (pt_ b) (pt_ c)) ->
  forall x y s, In (x, y) (cyc (0%nat :: l)) -> In s (0%nat :: l) -> 0 <= cross3 (pt_ x) (pt_ y) (pt_ s).
Proof.
  intros Srt T x y s HI Hs. rewrite cyc_cons in HI. pose proof (in_combine_l _ _ _ _ HI) as Hx. assert (In y (0%nat :: l)) as Hy.
  { apply in_combine_r in HI. apply in_app_or in HI. destruct HI as [?|[<-|[]]]; [right|left]; auto. }
  assert (forall a b, cross3 a b a = 0 /\ cross3 a b b = 0 /\ cross3 a a b = 0) as Z by (intros; unfold cross3; split; [|split]; ring).
  destruct (edges_inc l 0%nat 0%nat x y Srt HI) as [[L H]|[-> H]].
  - destruct (H s Hs) as [D|D].
    + destruct (Nat.eq_dec s x) as [->|N]; [destruct (Z (pt_ x) (pt_ y)) as [-> _]; lra|]. rewrite <- cross_rot. apply T; auto; lia.
    + destruct (Nat.eq_dec s y) as [->|N]; [destruct (Z (pt_ x) (pt_ y)) as (_ & -> & _); lra|]. apply T; auto; lia.
  - destruct (Nat.eq_dec s x) as [->|N]; [destruct (Z (pt_ x) (pt_ 0%nat)) as [-> _]; lra|].
    destruct (Nat.eq_dec s 0) as [->|N0]; [destruct (Z (pt_ x) (pt_ 0%nat)) as (_ & -> & _); lra|]. rewrite cross_rot. apply T; auto. pose proof (H s Hs). lia.
Qed.
Lemma map_inj_nodup (sp : list (pt R)) l : NoDup sp -> NoDup l -> Forall (fun i => (i < length sp)%nat) l -> NoDup (map (fun i => nth i sp pt00) l).
Proof.
  intros Nd. induction 1 as [|a l Na Hl IH]; intros F; cbn [map]; [constructor|]. inversion F as [|? ? Fa Fl]; subst. constructor; auto.
  intros X. apply in_map_iff in X. destruct X as (b & E & Hb). rewrite Forall_forall in Fl. assert (b = a) as -> by (apply (proj1 (NoDup_nth sp pt00) Nd); auto). contradiction.
Qed.
Lemma hull_main pts : (4 <= length pts)%nat -> NoDup pts -> noTie pts -> sepDet pts ->
  exists p0 rest, hullPts pts = Ok (p0 :: rest) /\ isPivot pts p0 /\ (2 <= length rest)%nat /\ incl (p0 :: rest) pts /\ NoDup (p0 :: rest) /\
    StronglySorted (fun a b => 0 < cross3 p0 a b) rest /\
    (forall i j k, (i < j < k)%nat -> (k < length (p0 :: rest))%nat -> 0 <= cross3 (nth i (p0 :: rest) pt00) (nth j (p0 :: rest) pt00) (nth k (p0 :: rest) pt00)) /\
    (forall u v w, (forall q, In q (p0 :: rest) -> 0 <= aff u v w q) -> forall p, In p pts -> 0 <= aff u v w p) /\
    (forall a b p, In (a, b) (cyc (p0 :: rest)) -> In p pts -> 0 <= cross3 a b p).
Proof.
  intros L4 Nd NT Sp. destruct (hullPts_scan pts L4 Nd NT) as (p0 & all & Sc & E). destruct (scan_ok pts p0 all L4 Sc Sp) as (l & El & Srt & L2 & F & T & HC).
  rewrite El in E. cbn [bind map] in E. change (nth 0 (p0 :: all) pt00) with p0 in E. set (f := fun i => nth i (p0 :: all) pt00) in *.
  destruct Sc as (Pv & Pm & Sa). pose proof (Permutation_length Pm) as Ln.
  assert (Forall (fun i => (i < length (p0 :: all))%nat) (0%nat :: l)) as F2. { constructor; [cbn; lia|]. rewrite Ln. auto. }
  assert (forall p, In p pts -> exists j, (j < length pts)%nat /\ p = f j) as Hj.
  { intros p Hp. apply (Permutation_in _ (Permutation_sym Pm)) in Hp. destruct (In_nth _ _ pt00 Hp) as (j & L & <-). exists j. split; auto. lia. }
  assert (forall u v w, (forall q, In q (p0 :: map f l) -> 0 <= aff u v w q) -> forall p, In p pts -> 0 <= aff u v w p) as HC2.
  { intros u v w H p Hp. destruct (Hj p Hp) as (j & L & ->). apply (HC u v w); auto. intros s Hs. apply H. change (p0 :: map f l) with (map f (0%nat :: l)).
    change (nth s (p0 :: all) pt00) with (f s). now apply in_map. }
  exists p0, (map f l). split; [exact E|]. split; auto. split; [now rewrite map_length|]. split.
  { change (p0 :: map f l) with (map f (0%nat :: l)). intros q Hq. apply in_map_iff in Hq. destruct Hq as (s & <- & Hs). rewrite Forall_forall in F2.
    apply (Permutation_in _ Pm), nth_In, F2, Hs. }
  split. { change (p0 :: map f l) with (map f (0%nat :: l)). apply map_inj_nodup; auto; [apply (Permutation_NoDup (Permutation_sym Pm) Nd)|].
    apply (sorted_nodup lt); auto. intros; lia. }
  split. { apply sorted_map. inversion Srt as [|? ? S1 S2]; subst. clear - S1 S2 Sa F Ln. induction S1 as [|a l S1 IH H]; [constructor|].
    inversion S2; inversion F; subst. constructor; auto. rewrite Forall_forall in *. intros b Hb. specialize (H b Hb). assert (b < length pts)%nat by auto.
    unfold f. destruct a as [|a]; [lia|]. destruct b as [|b]; [lia|]. cbn [nth]. cbn [length] in Ln. apply (sorted_nth (fun a b => 0 < cross3 p0 a b)); auto; lia. }
  split. { intros i j k L Lk. change (p0 :: map f l) with (map f (0%nat :: l)) in *. rewrite map_length in Lk.
    assert (forall m, (m < length (0%nat :: l))%nat -> nth m (map f (0%nat :: l)) pt00 = f (nth m (0%nat :: l) 0%nat)) as N.
    { intros m Hm. rewrite <- (map_nth f). apply nth_indep. now rewrite map_length. }
    rewrite !N by lia. apply T; try (apply nth_In; lia). split; apply (sorted_nth lt); auto; lia. }
  split; auto. intros a b p He Hp. destruct (cross_aff a b) as (u & v & w & Hc). rewrite <- Hc. apply HC2; auto. intros q Hq. rewrite Hc.
  change (p0 :: map f l) with (map f (0%nat :: l)) in He, Hq. rewrite cyc_map in He. apply in_map_iff in He. destruct He as ([x y] & Ee & He). cbn [fst snd] in Ee. injection Ee as <- <-.
  apply in_map_iff in Hq. destruct Hq as (s & <- & Hs). apply (hull_edges f l); auto.
Qed.
(** The order of the input has no effect. *)
Lemma pivot_perm pts pts' p0 : Permutation pts pts' -> isPivot pts p0 -> isPivot pts' p0.
Proof.
  intros P [A B]. split; [apply (Permutation_in _ P A)|]. intros q Hq. apply B, (Permutation_in _ (Permutation_sym P) Hq).
Qed.
Lemma hull_perm pts pts' : (4 <= length pts)%nat -> NoDup pts -> noTie pts -> Permutation pts pts' -> hullPts pts = hullPts pts'.
Proof.
  intros L4 Nd NT P. destruct (hullPts_scan pts L4 Nd NT) as (p0 & rest & Sc & E).
  destruct (hullPts_scan pts') as (p0' & rest' & Sc' & E'); [now rewrite <- (Permutation_length P)|apply (Permutation_NoDup P Nd)| |].
  - intros q0 Hq q r Hq1 Hr1. pose proof (Permutation_sym P) as P'. apply NT; [apply (pivot_perm pts'); auto|apply (Permutation_in _ P' Hq1)|apply (Permutation_in _ P' Hr1)].
  - destruct (scan_unique _ _ _ _ _ _ Nd P Sc Sc') as [<- <-]. congruence.
Qed.
(** A sequence in convex position is its own hull. *)
Lemma convex_loop (g : nat -> pt R) n : (forall i j k, (i < j < k)%nat -> (k < n)%nat -> 0 <= cross3 (g i) (g j) (g k)) ->
  (forall i j k, (i < n)%nat -> (j < n)%nat -> (k < n)%nat -> cross3 (g i) (g j) (g k) = 0 \/ / 1000000000000000 <= Rabs (cross3 (g i) (g j) (g k))) ->
  forall (m fuel r : nat) fp, (r + m = n)%nat -> (0 < m)%nat -> (m <= fuel)%nat -> (2 <= r)%nat ->
  hullLoop g (seq 0 n) fuel (rev (seq 0 r)) fp (r - 2) (r - 1) r = Ok (seq 0 n).
Proof.
  intros T Sp. induction m as [|m IH]; intros fuel r fp Hr Hm Hf H2; [lia|]. destruct fuel as [|f]; [lia|]. cbn [hullLoop].
  assert (Z.eqb (hullOrient (g (r - 2)%nat) (g (r - 1)%nat) (g r)) 1 = false) as ->.
  { apply Z.eqb_neq. intros X. apply (orient_1 g (seq 0 n)) in X; rewrite ?seq_length; auto; try lia. pose proof (T (r - 2)%nat (r - 1)%nat r). assert (0 <= cross3 (g (r - 2)%nat) (g (r - 1)%nat) (g r)) by (apply T; lia). lra. }
  rewrite seq_length, seq_nth by lia. cbn [Nat.add]. assert (r :: rev (seq 0 r) = rev (seq 0 (S r))) as ER by (rewrite seq_S, rev_app_distr; reflexivity). rewrite ER.
  destruct (r + 1 <? n)%nat eqn:B.
  - apply Nat.ltb_lt in B. replace (r - 1)%nat with (r + 1 - 2)%nat by lia. replace r with (r + 1 - 1)%nat at 4 by lia. replace (S r) with (r + 1)%nat by lia. apply IH; lia.
  - apply Nat.ltb_ge in B. rewrite rev_involutive. do 2 f_equal. lia.
Qed.
Lemma hull_idem pts h : (4 <= length pts)%nat -> NoDup pts -> noTie pts -> sepDet pts -> hullPts pts = Ok h -> (4 <= length h)%nat -> hullPts h = Ok h.
Proof.
  intros L4 Nd NT Sp E Lh. destruct (hull_main pts L4 Nd NT Sp) as (p0 & rest & E1 & Pv & _ & Inc & Nh & Srt & T & _). rewrite E in E1. apply Ok_inj in E1. subst h.
  set (h := p0 :: rest) in *. assert (isPivot h p0) as Pv2. { split; [left; auto|]. intros q Hq N. apply Pv; auto. }
  assert (noTie h) as NT2. { intros q0 Hq q r Hq1 Hr1. rewrite (pivot_unique _ _ _ Hq Pv2). apply NT; auto. }
  destruct (hullPts_scan h Lh Nh NT2) as (q0 & rest' & Sc & E2).
  destruct (scan_unique h h q0 rest' p0 rest Nh (Permutation_refl _) Sc) as [-> ->]; [split; auto|].
  rewrite E2. fold h. unfold scanIdx. rewrite (convex_loop (fun i => nth i h pt00) (length h) T) with (m := (length h - 3)%nat) (r := 3%nat); try lia.
  - cbn [bind]. f_equal. apply map_nth_seq'.
  - intros i j k Li Lj Lk. apply Sp; apply Inc, nth_In; auto.
Qed.

(** ** Any set of distinct points *)
Lemma weak_trans p0 a b c : hullDir p0 a -> hullDir p0 b -> hullDir p0 c -> 0 <= cross3 p0 a b -> 0 <= cross3 p0 b c -> 0 <= cross3 p0 a c.
Proof.
  unfold hullDir, cross3. intros A B C. set (xa := px a - px p0). set (ya := py a - py p0). set (xb := px b - px p0). set (yb := py b - py p0).
  set (xc := px c - px p0). set (yc := py c - py p0). intros H1 H2.
  assert (0 < ya \/ (ya = 0 /\ 0 < xa)) as A' by (unfold ya, xa; lra). assert (0 < yb \/ (yb = 0 /\ 0 < xb)) as B' by (unfold yb, xb; lra).
  assert (0 < yc \/ (yc = 0 /\ 0 < xc)) as C' by (unfold yc, xc; lra). clearbody xa ya xb yb xc yc. clear A B C.
  destruct B' as [B|[-> B]].
  - apply (Rmult_le_reg_l yb); auto. rewrite Rmult_0_r. replace (yb * (xa * yc - ya * xc)) with (yc * (xa * yb - ya * xb) + ya * (xb * yc - yb * xc)) by ring.
    apply Rplus_le_le_0_compat; apply Rmult_le_pos; lra.
  - destruct A' as [A|[-> A]]; [exfalso; nra|]. destruct C' as [C|[-> C]]; [|lra]. assert (0 < xa * yc) by (apply Rmult_lt_0_compat; auto). lra.
Qed.
Section WeakSort.
  Variable lt : nat -> nat -> bool.
  Lemma insert_weak x l : (forall a b c, In a (x :: l) -> In b (x :: l) -> In c (x :: l) -> lt b a = false -> lt c b = false -> lt c a = false) ->
    (forall a b, lt a b = true -> lt b a = false) ->
    StronglySorted (fun a b => lt b a = false) l -> StronglySorted (fun a b => lt b a = false) (hullInsert lt x l).
  Proof.
    induction l as [|y l IH]; intros Tr As HS; cbn [hullInsert]; [repeat constructor|].
    inversion HS as [|? ? H1 H2]; subst. pose proof H2 as H2'. rewrite Forall_forall in H2. destruct (lt x y) eqn:E.
    - constructor; auto. constructor; auto. rewrite Forall_forall. intros z Hz. apply (Tr x y z); cbn; auto.
    - constructor.
      + apply IH; auto. intros a b c Ha Hb Hc. apply Tr; cbn in *; intuition.
      + rewrite Forall_forall. intros z Hz. apply (Permutation_in _ (insert_perm lt x l)) in Hz. destruct Hz as [<-|Hz]; auto.
  Qed.
  Lemma sort_weak l : (forall a b c, In a l -> In b l -> In c l -> lt b a = false -> lt c b = false -> lt c a = false) ->
    (forall a b, lt a b = true -> lt b a = false) -> StronglySorted (fun a b => lt b a = false) (hullSort lt l).
  Proof.
    intros Tr As. unfold hullSort. enough (forall m acc, incl (m ++ acc) l -> StronglySorted (fun a b => lt b a = false) acc ->
      StronglySorted (fun a b => lt b a = false) (fold_left (fun acc x => hullInsert lt x acc) m acc)) as H.
    { apply H; [rewrite app_nil_r; apply incl_refl|constructor]. }
    induction m as [|x m IH]; intros acc Hi Ha; cbn [fold_left]; auto. apply IH.
    - intros y Hy. apply Hi. apply in_app_or in Hy. cbn. destruct Hy as [Hy|Hy]; [right; apply in_or_app; auto|].
      apply (Permutation_in _ (insert_perm lt x acc)) in Hy. destruct Hy as [->|Hy]; [auto|right; apply in_or_app; auto].
    - assert (incl (x :: acc) l) as Hi'. { intros y [<-|Hy]; apply Hi; [left; reflexivity|right; apply in_or_app; now right]. }
      apply insert_weak; auto. intros a b c Aa Bb Cc. apply Tr; auto.
  Qed.
End WeakSort.
Lemma swap_head n piv : (piv < n)%nat -> exists rest, swapNth 0%nat (seq 0 n) 0 piv = piv :: rest /\ Permutation (piv :: rest) (seq 0 n).
Proof.
  intros Hp. destruct (Nat.eq_dec piv 0) as [Z|Z].
  - rewrite Z, swap_same by (rewrite seq_length; lia). destruct n as [|m] eqn:L; [lia|]. cbn [seq]. eexists. split; reflexivity.
  - destruct (swap_lt 0%nat (seq 0 n) 0 piv) as (X & x & Y & y & Zz & E1 & LX & LJ & Nx & Ny & E2); [rewrite seq_length; lia|].
    destruct X; [|discriminate]. rewrite E2. cbn [app] in *. rewrite seq_nth in Ny by auto. cbn in Ny. subst y. eexists. split; [reflexivity|].
    rewrite E1. change (Permutation ([piv] ++ Y ++ x :: Zz) ([x] ++ Y ++ piv :: Zz)).
    transitivity (piv :: x :: Y ++ Zz); [constructor; symmetry; apply Permutation_middle|]. rewrite perm_swap. constructor. apply Permutation_middle.
Qed.
Lemma order_weak pts : pts <> [] -> NoDup pts -> Permutation (hullOrder pts) (seq 0 (length pts)) /\
  isPivot pts (nth (nth 0 (hullOrder pts) 0%nat) pts pt00) /\
  forall i j, (0 < i < j)%nat -> (j < length pts)%nat ->
    0 <= cross3 (nth (nth 0 (hullOrder pts) 0%nat) pts pt00) (nth (nth i (hullOrder pts) 0%nat) pts pt00) (nth (nth j (hullOrder pts) 0%nat) pts pt00).
Proof.
  intros Hn Nd. destruct (pivot_ex pts Hn) as [Hp Pv]. unfold hullOrder. set (piv := minElem ltBm pts) in *. set (p0 := nth piv pts pt00) in *.
  destruct (swap_head (length pts) piv Hp) as (rest & E & P). rewrite E. set (lt := fun i j => hullLt p0 (nth i pts pt00) (nth j pts pt00)).
  assert (Permutation (piv :: hullSort lt rest) (seq 0 (length pts))) as P2 by (rewrite sort_perm; auto).
  split; auto. split; [exact Pv|]. intros i j L1 L2. destruct i as [|i]; [lia|]. destruct j as [|j]; [lia|]. cbn [nth].
  assert (NoDup (piv :: rest)) as NdI by (apply (Permutation_NoDup (Permutation_sym P)), seq_NoDup). inversion NdI as [|? ? N1 N2]; subst.
  assert (forall i, In i rest -> hullDir p0 (nth i pts pt00)) as R1.
  { intros k Hk. assert (k < length pts)%nat as L. { assert (In k (seq 0 (length pts))) as H by (apply (Permutation_in _ P); right; auto). apply in_seq in H. lia. }
    apply Pv; [now apply nth_In|]. intros X. assert (k = piv) as -> by (apply (proj1 (NoDup_nth pts pt00) Nd); auto). contradiction. }
  assert (forall a b, lt b a = false <-> 0 <= cross3 p0 (nth a pts pt00) (nth b pts pt00)) as Hlt.
  { intros a b. rewrite <- not_true_iff_false. unfold lt. rewrite hullLt_spec. unfold cross3. split; intros H; lra. }
  assert (StronglySorted (fun a b => lt b a = false) (hullSort lt rest)) as HS.
  { apply sort_weak.
    - intros a b c Ha Hb Hc. rewrite !Hlt. apply weak_trans; auto.
    - intros a b. rewrite Hlt. unfold lt. rewrite hullLt_spec. lra. }
  change (nth 0 (piv :: hullSort lt rest) 0%nat) with piv. apply Hlt. apply (sorted_nth (fun a b => lt b a = false)); [exact HS|lia|].
  apply Permutation_length in P2. rewrite seq_length in P2. cbn [length] in P2. lia.
Qed.
Lemma orient_neg p q r : hullOrient p q r = 1%Z -> cross3 p q r < 0.
Proof.
  unfold hullOrient. rnum. set (val := _ - _). assert (val = - cross3 p q r) as E by (unfold val, cross3; ring). rewrite E. clear E val.
  destruct (Rltb (Rabs _) _); [discriminate|]. destruct (Rltb 0 _) eqn:Y; [|discriminate]. rclean. intros _. lra.
Qed.
Lemma loop_total (g : nat -> pt R) v2 : (forall i j, (0 < i < j)%nat -> (j < length v2)%nat -> 0 <= cross3 (g 0%nat) (g i) (g j)) ->
  forall fuel (q p : nat) S (r : nat), StronglySorted (fun a b => (b < a)%nat) (q :: p :: S) -> In 0%nat (p :: S) -> (q < r)%nat -> (r < length v2)%nat ->
  (2 * (length v2 - r) + length (q :: p :: S) <= fuel)%nat ->
  exists l, hullLoop g v2 fuel (map (fun i => nth i v2 0%nat) (q :: p :: S)) (p :: S) p q r = Ok l /\ incl l v2 /\ (3 <= length l)%nat.
Proof.
  intros H. induction fuel as [|f IH]; intros q p S r Srt I0 Hq Hr Hf; [cbn in Hf; lia|]. cbn [hullLoop]. inversion Srt as [|? ? S1 S2]; subst.
  assert (p < q)%nat by (inversion S2; auto). destruct (Z.eqb (hullOrient (g p) (g q) (g r)) 1) eqn:E.
  - apply Z.eqb_eq, orient_neg in E. destruct S as [|k S].
    + destruct I0 as [->|[]]. specialize (H q r). assert (0 <= cross3 (g 0%nat) (g q) (g r)) by (apply H; lia). lra.
    + cbn [tl map]. apply (IH p k S r); auto; try lia.
      * inversion S1 as [|? ? S3 S4]; subst. inversion S4 as [|? ? K1 K2]; subst. destruct I0 as [->|I0]; [lia|auto].
      * cbn [length] in *. lia.
  - destruct (r + 1 <? length v2)%nat eqn:L.
    + apply Nat.ltb_lt in L. apply (IH r q (p :: S) (r + 1)%nat); auto; try lia; [|right; auto|cbn [length] in *; lia].
      constructor; auto. rewrite Forall_forall in *. intros s [<-|Hs]; auto. apply S2 in Hs. lia.
    + eexists. split; [reflexivity|]. split.
      * intros s Hs. apply in_rev in Hs. assert (In s (map (fun i => nth i v2 0%nat) (r :: q :: p :: S))) as Hs' by exact Hs. apply in_map_iff in Hs'.
        destruct Hs' as (k & <- & Hk). apply nth_In. destruct Hk as [<-|[<-|Hk]]; [auto|lia|]. rewrite Forall_forall in S2. apply S2 in Hk. lia.
      * rewrite rev_length. cbn [length map]. lia.
Qed.
Lemma hull_total pts : (4 <= length pts)%nat -> NoDup pts -> exists h, hullPts pts = Ok h /\ incl h pts /\ (3 <= length h)%nat.
Proof.
  intros L4 Nd. destruct (order_weak pts) as (P & _ & W); auto; [destruct pts; [cbn in L4; lia|discriminate]|]. unfold hullPts. set (v2 := hullOrder pts) in *.
  assert (length v2 = length pts) as Lv by (rewrite (Permutation_length P); apply seq_length).
  destruct (loop_total (fun i => nth (nth i v2 0%nat) pts pt00) v2) with (fuel := (2 * length pts)%nat) (q := 2%nat) (p := 1%nat) (S := [0%nat]) (r := 3%nat) as (l & E & I & L3).
  - intros i j A B. apply W; auto; lia.
  - repeat constructor.
  - cbn; auto.
  - lia.
  - lia.
  - cbn [length]. lia.
  - cbn [map] in E. rewrite E. cbn [bind]. eexists. split; [reflexivity|]. rewrite map_length. split; auto.
    intros p Hp. apply in_map_iff in Hp. destruct Hp as (i & <- & Hi). apply nth_In. apply I in Hi. apply (Permutation_in _ P) in Hi. apply in_seq in Hi. lia.
Qed.
