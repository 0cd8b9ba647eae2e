(** * Properties C238 and C239: nearest, farthest and closest points with integer coordinates, in binary64 *)

From Coq Require Import Reals Lra ZArith Floats Bool Lia List Arith.
From Verif Require Import Num FloatFuns M_LP M_Seg M_Poly M_Circle M_Misc S_Geom S_Float S_FloatZ S_FloatR P_LP P_LP2 P_Poly7 P_Float P_FloatZ P_FloatZ2 P_FloatR P_FloatE P_FloatG C_FloatG C_FloatL C_Misc P_FloatN.
Import ListNotations.
Local Open Scope R_scope.

(** ** C238: nearest and farthest points *)

(** The point reported is an exactly nearest one among those different from the query, and the first of them in the container. *)
Theorem C238_nearest : forall (th : thrs float) (q : Z * Z) (l : list (Z * Z)), within 16777216 q -> Forall (within 16777216) l -> fin (nullDistance th) -> 0 < toR (nullDistance th) <= 1 ->
  (2 <= length l)%nat -> nth 0 l (0, 0)%Z <> q \/ nth 1 l (0, 0)%Z <> q ->
  exists r, findPoint (N := FNum) th false (gpt q) (map gpt l) = Ok r /\ (r < length l)%nat /\ nth r l (0, 0)%Z <> q /\
    forall j, (j < length l)%nat -> nth j l (0, 0)%Z <> q ->
      edist (rpt q) (rpt (nth r l (0, 0)%Z)) <= edist (rpt q) (rpt (nth j l (0, 0)%Z)) /\ ((j < r)%nat -> edist (rpt q) (rpt (nth r l (0, 0)%Z)) < edist (rpt q) (rpt (nth j l (0, 0)%Z))).
Proof.
  intros th q l Hq Hl Ft Tt L N. change (0, 0)%Z with zz in *. rewrite (find_same th false q l Hq Hl Ft Tt).
  assert (A : forall i, nth i l zz <> q <-> apart (thr0 (N := RNum)) (rpt q) (nth i (map rpt l) (pt00 (N := RNum)))).
  { intro i. rewrite nth_r. unfold apart. rewrite <- ptEq_false, <- not_true_iff_false, ptEq_int. split; intros X Y; apply X; congruence. }
  destruct (C82_nearest (thr0 (N := RNum)) (rpt q) (map rpt l)) as (r & E & R1 & V & M); [rewrite map_length; exact L|rewrite <- !A; exact N|]. rewrite map_length in R1.
  exists r. split; [exact E|]. split; [exact R1|]. split; [apply A; exact V|]. intros j J Nj. specialize (M j). rewrite map_length, <- A, !nth_r in M. exact (M J Nj).
Qed.
Print Assumptions C238_nearest.

(** The farthest one. *)
Theorem C238_farthest : forall (th : thrs float) (q : Z * Z) (l : list (Z * Z)), within 16777216 q -> Forall (within 16777216) l -> fin (nullDistance th) -> 0 < toR (nullDistance th) <= 1 ->
  (2 <= length l)%nat -> (exists p, In p l /\ p <> q) ->
  exists r, findPoint (N := FNum) th true (gpt q) (map gpt l) = Ok r /\ (r < length l)%nat /\
    forall j, (j < length l)%nat ->
      edist (rpt q) (rpt (nth j l (0, 0)%Z)) <= edist (rpt q) (rpt (nth r l (0, 0)%Z)) /\ ((j < r)%nat -> edist (rpt q) (rpt (nth j l (0, 0)%Z)) < edist (rpt q) (rpt (nth r l (0, 0)%Z))).
Proof.
  intros th q l Hq Hl Ft Tt L (p & I & N). change (0, 0)%Z with zz in *. rewrite (find_same th true q l Hq Hl Ft Tt).
  destruct (C82_farthest (thr0 (N := RNum)) (rpt q) (map rpt l)) as (r & E & R1 & M); [rewrite map_length; exact L| |].
  { exists (rpt p). split; [now apply in_map|]. unfold apart. rewrite <- ptEq_false, <- not_true_iff_false, ptEq_int. congruence. }
  rewrite map_length in R1. exists r. split; [exact E|]. split; [exact R1|]. intros j J. specialize (M j). rewrite map_length, !nth_r in M. exact (M J).
Qed.
Print Assumptions C238_farthest.

(** Both at once: the same points as with two searches. *)
Theorem C238_both : forall (th : thrs float) (q : Z * Z) (l : list (Z * Z)), within 16777216 q -> Forall (within 16777216) l -> fin (nullDistance th) -> 0 < toR (nullDistance th) <= 1 ->
  findNearFar (N := FNum) th (gpt q) (map gpt l) =
  (do a <- findPoint (N := FNum) th false (gpt q) (map gpt l); do b <- findPoint (N := FNum) th true (gpt q) (map gpt l); Ok (a, b)).
Proof. intros th q l Hq Hl Ft Tt. rewrite (both_same th q l Hq Hl Ft Tt), (find_same th false q l Hq Hl Ft Tt), (find_same th true q l Hq Hl Ft Tt). apply C82_both. Qed.
Print Assumptions C238_both.
Example C238_ex : let l := [(1, 1); (16777216, -5); (-3, 4); (4, -3); (1, 2)]%Z in
  within 16777216 (1, 1)%Z /\ Forall (within 16777216) l /\ fin (nullDistance (thr0 (N := FNum))) /\ 0 < toR (nullDistance (thr0 (N := FNum))) <= 1 /\ nth 1 l (0, 0)%Z <> (1, 1)%Z /\
  findPoint (N := FNum) (thr0 (N := FNum)) false (gpt (1, 1)%Z) (map gpt l) = Ok 4%nat /\ findPoint (N := FNum) (thr0 (N := FNum)) true (gpt (1, 1)%Z) (map gpt l) = Ok 1%nat.
Proof.
  cbv zeta. split; [split; cbn [fst snd]; lia|]. split; [repeat (apply Forall_cons; [split; cbn [fst snd]; lia|]); apply Forall_nil|]. destruct nullD_toR as [F B]. split; [exact F|]. split; [lra|].
  split; [cbn [nth]; congruence|]. split; vm_compute; reflexivity.
Qed.

(** ** C239: closest points of two sets *)

(** The pair reported is an exactly closest one, the first in the order of the loops; the distance reported is the double nearest to theirs. *)
Theorem C239_closest : forall a b : list (Z * Z), a <> [] -> b <> [] -> Forall (within 8388608) a -> Forall (within 8388608) b ->
  exists d i j, closestPoints (N := FNum) (map gpt a) (map gpt b) = Ok (d, i, j) /\ (i < length a)%nat /\ (j < length b)%nat /\
    nearestD d (edist (rpt (nth i a (0, 0)%Z)) (rpt (nth j b (0, 0)%Z))) /\
    (forall p q, In p a -> In q b -> edist (rpt (nth i a (0, 0)%Z)) (rpt (nth j b (0, 0)%Z)) <= edist (rpt p) (rpt q)) /\
    (forall i' j', (i' < length a)%nat -> (j' < length b)%nat -> (i' < i)%nat \/ (i' = i /\ (j' < j)%nat) ->
      edist (rpt (nth i a (0, 0)%Z)) (rpt (nth j b (0, 0)%Z)) < edist (rpt (nth i' a (0, 0)%Z)) (rpt (nth j' b (0, 0)%Z))).
Proof.
  intros a b A B Ha Hb. change (0, 0)%Z with zz. destruct (closest_same a b Ha Hb A B) as (x & y & X & Y & i & j & -> & ->).
  assert (N : forall l : list (Z * Z), l <> [] -> map rpt l <> []) by (intros [|? ?] P Q; [tauto|discriminate]).
  destruct (C59_closest (map rpt a) (map rpt b) (N a A) (N b B)) as (d & i0 & j0 & E & I & J & _ & D & M & F). rewrite E in Y. injection Y as Hd <- <-. rewrite !map_length in I, J.
  exists (distPP (N := FNum) (gpt (nth i0 a zz)) (gpt (nth j0 b zz))), i0, j0. split; [exact X|]. split; [exact I|]. split; [exact J|]. split.
  { apply C234_distance; apply wide; apply nth_within; auto; lia. }
  rewrite <- Hd. split; [intros p q P Q; apply M; now apply in_map|]. intros i' j' I' J' O. specialize (F i' j'). rewrite !map_length, !nth_r in F. exact (F I' J' O).
Qed.
Print Assumptions C239_closest.
Example C239_ex : let a := [(0, 0); (8388608, 3)]%Z in let b := [(-8388608, 0); (8388607, 8388608); (8388608, 8388607)]%Z in
  a <> [] /\ b <> [] /\ Forall (within 8388608) a /\ Forall (within 8388608) b /\ exists d, closestPoints (N := FNum) (map gpt a) (map gpt b) = Ok (d, 1%nat, 2%nat).
Proof.
  cbv zeta. split; [discriminate|]. split; [discriminate|]. split; [repeat (apply Forall_cons; [split; cbn [fst snd]; lia|]); apply Forall_nil|].
  split; [repeat (apply Forall_cons; [split; cbn [fst snd]; lia|]); apply Forall_nil|]. eexists. vm_compute. reflexivity.
Qed.
