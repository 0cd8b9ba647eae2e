(** * Number of points common to two rectangles *)

From Coq Require Import Reals Lra Psatz List Lia Bool Permutation.
From Verif Require Import Num M_LP M_Seg M_FRect S_Geom S_Seg S_FRect S_Rect2 S_Rect3
  P_LP P_LP2 P_Seg P_BB P_FRect P_FRect2 P_Rect2 P_Poly7 P_Inter P_Rect3.
Import ListNotations.
Local Open Scope R_scope.

Lemma incr_nodup l : incrL l -> NoDup l.
Proof.
  induction l as [|a l IH]; [constructor|]. intros [H H']. constructor; auto. intros I. apply H in I. exact (lexlt_irrefl _ I).
Qed.
Lemma incr_unique l m : incrL l -> incrL m -> (forall q, In q l <-> In q m) -> l = m.
Proof.
  revert m. induction l as [|a l IH]; intros m Hl Hm E.
  - destruct m as [|b m]; auto. exfalso. apply (E b). now left.
  - destruct m as [|b m]; [exfalso; apply (E a); now left|]. destruct Hl as [A Hl], Hm as [B Hm].
    assert (a = b) as <-.
    { destruct (proj1 (E a) (or_introl eq_refl)) as [->|I]; auto. destruct (proj2 (E b) (or_introl eq_refl)) as [->|J]; auto.
      exfalso. apply (lexlt_irrefl a). eapply lexlt_trans; [apply A, J|apply B, I]. }
    f_equal. apply IH; auto. intros q. split; intros I.
    + destruct (proj1 (E q) (or_intror I)) as [<-|]; auto. exfalso. exact (lexlt_irrefl _ (A _ I)).
    + destruct (proj2 (E q) (or_intror I)) as [<-|]; auto. exfalso. exact (lexlt_irrefl _ (B _ I)).
Qed.

Lemma nodup_app {A} (l m : list A) : NoDup l -> NoDup m -> (forall q, In q l -> In q m -> False) -> NoDup (l ++ m).
Proof.
  intros L M H. induction L as [|a l N L IH]; cbn; auto. constructor.
  - intros I. apply in_app_iff in I. destruct I as [I|I]; [auto|]. apply (H a); cbn; auto.
  - apply IH. intros q I. apply H. now right.
Qed.
Definition betw (a x b : R) : bool := if Rle_dec a x then if Rle_dec x b then true else false else false.
Lemma betw_spec a x b : betw a x b = true <-> a <= x <= b.
Proof. unfold betw. destruct (Rle_dec a x), (Rle_dec x b); split; intros; try lra; try discriminate; auto. Qed.
Lemma betw_no a x b : a < b -> x < a \/ b < x -> betw a x b = false.
Proof. intros L H. unfold betw. destruct (Rle_dec a x), (Rle_dec x b); auto; lra. Qed.
Lemma betw_yes a x b : a < x < b -> betw a x b = true.
Proof. intros H. apply betw_spec. lra. Qed.

(** The four orders of the ends of two intervals. *)
Lemma orders a c x z : a < c -> x < z -> a <> x -> a <> z -> c <> x -> c <> z ->
  (betw x a z = false /\ betw x c z = false /\ betw a x c = false /\ betw a z c = false) \/
  (betw x a z = true /\ betw x c z = true /\ betw a x c = false /\ betw a z c = false) \/
  (betw x a z = false /\ betw x c z = false /\ betw a x c = true /\ betw a z c = true) \/
  (betw x a z = true /\ betw x c z = false /\ betw a x c = false /\ betw a z c = true) \/
  (betw x a z = false /\ betw x c z = true /\ betw a x c = true /\ betw a z c = false).
Proof.
  intros L M N1 N2 N3 N4. assert (a < x \/ x < a) as C1 by lra. assert (a < z \/ z < a) as C2 by lra. assert (c < x \/ x < c) as C3 by lra. assert (c < z \/ z < c) as C4 by lra.
  destruct C1, C2, C3, C4; try lra; repeat match goal with |- context [betw ?u ?v ?w] => first [rewrite (betw_yes u v w) by lra|rewrite (betw_no u v w) by lra] end; auto 8.
Qed.
Definition cross1 (r o : frect R) : list (pt R) :=
  filter (fun p => betw (px (r1 o)) (px p) (px (r2 o)) && betw (py (r1 r)) (py p) (py (r2 r)))
    [mkPt (px (r1 r)) (py (r1 o)); mkPt (px (r1 r)) (py (r2 o)); mkPt (px (r2 r)) (py (r1 o)); mkPt (px (r2 r)) (py (r2 o))].
Lemma cross1_in r o q : In q (cross1 r o) <-> ((px q = px (r1 r) \/ px q = px (r2 r)) /\ (py q = py (r1 o) \/ py q = py (r2 o))) /\
  px (r1 o) <= px q <= px (r2 o) /\ py (r1 r) <= py q <= py (r2 r).
Proof.
  unfold cross1. rewrite filter_In, andb_true_iff, !betw_spec. cbn [In]. split; intros [H H']; (split; [|tauto]); destruct q as [x y]; cbn [px py] in *.
  - repeat destruct H as [H|H]; try (injection H as <- <-); tauto.
  - destruct H as [[->| ->] [->| ->]]; tauto.
Qed.
Lemma cross1_nodup r o : wfR r -> wfR o -> NoDup (cross1 r o).
Proof.
  intros [W1 W2] [V1 V2]. apply NoDup_filter.
  repeat (constructor; [cbn; intros H; repeat destruct H as [H|H]; try (injection H; intros; lra); tauto|]). constructor.
Qed.
Lemma apart_sym d r o : apartR d r o -> apartR d o r.
Proof. intros [A B]. split; intros a b I J; rewrite Rabs_minus_sym; auto. Qed.
Theorem rect_count r o d out : wfR r -> wfR o -> 0 < d -> apartR d r o -> incrL out -> (forall q, In q out <-> onBorder r q /\ onBorder o q) ->
  length out = 0%nat \/ length out = 2%nat \/ length out = 4%nat.
Proof.
  intros Wr Wo D [AX AY] I H.
  assert (NX : forall a b, In a [px (r1 r); px (r2 r)] -> In b [px (r1 o); px (r2 o)] -> a <> b).
  { intros a b Ia Ib ->. specialize (AX b b Ia Ib). replace (b - b) with 0 in AX by ring. rewrite Rabs_R0 in AX. lra. }
  assert (NY : forall a b, In a [py (r1 r); py (r2 r)] -> In b [py (r1 o); py (r2 o)] -> a <> b).
  { intros a b Ia Ib ->. specialize (AY b b Ia Ib). replace (b - b) with 0 in AY by ring. rewrite Rabs_R0 in AY. lra. }
  assert (Permutation out (cross1 r o ++ cross1 o r)) as P.
  { apply NoDup_Permutation.
    - now apply incr_nodup.
    - apply nodup_app; auto using cross1_nodup. intros q Q Q'. apply cross1_in in Q, Q'.
      destruct Q as [[Q _] _], Q' as [[Q' _] _]. apply (NX (px q) (px q)); cbn; intuition.
    - intros q. rewrite H, in_app_iff, !cross1_in. unfold onBorder, inR. split.
      + intros [[B1 B2] [C1 C2]].
        assert ((px q = px (r1 r) \/ px q = px (r2 r)) -> (px q = px (r1 o) \/ px q = px (r2 o)) -> False) as X by (intros U V; apply (NX (px q) (px q)); cbn; intuition).
        assert ((py q = py (r1 r) \/ py q = py (r2 r)) -> (py q = py (r1 o) \/ py q = py (r2 o)) -> False) as Y by (intros U V; apply (NY (py q) (py q)); cbn; intuition).
        tauto.
      + destruct Wr, Wo. intros [[[U V] [B C]]|[[U V] [B C]]]; repeat split; try tauto; try lra; destruct U, V; lra. }
  rewrite (Permutation_length P), app_length. clear P H I out.
  destruct Wr as [Wr Wr'], Wo as [Wo Wo'].
  destruct (orders (px (r1 r)) (px (r2 r)) (px (r1 o)) (px (r2 o))) as [(X1 & X2 & X3 & X4)|[(X1 & X2 & X3 & X4)|[(X1 & X2 & X3 & X4)|[(X1 & X2 & X3 & X4)|(X1 & X2 & X3 & X4)]]]]; try lra; try (apply NX; cbn; auto);
  destruct (orders (py (r1 r)) (py (r2 r)) (py (r1 o)) (py (r2 o))) as [(Y1 & Y2 & Y3 & Y4)|[(Y1 & Y2 & Y3 & Y4)|[(Y1 & Y2 & Y3 & Y4)|[(Y1 & Y2 & Y3 & Y4)|(Y1 & Y2 & Y3 & Y4)]]]]; try lra; try (apply NY; cbn; auto);
  unfold cross1; cbn [filter px py]; rewrite ?X1, ?X2, ?X3, ?X4, ?Y1, ?Y2, ?Y3, ?Y4; cbn; auto.
Qed.
