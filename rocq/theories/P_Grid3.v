(** * Rectangles: every relative position, by enumeration of the index patterns *)

From Coq Require Import Reals Lra Lia List Bool Arith ZArith Sorted.
From Verif Require Import Num M_LP M_Seg M_Circle M_Poly M_FRect S_Geom S_Poly S_FRect P_LP P_LP2 P_Seg P_Circle P_Grid P_Grid2.
Import ListNotations.
Local Open Scope R_scope.

(** ** Separated values are on a grid *)

Definition gapList (d : R) (l : list R) : Prop := StronglySorted (fun a b => a + d <= b) l.

Fixpoint gInsert (x : R) (l : list R) : list R :=
  match l with
  | [] => [x]
  | y :: r => if Rlt_dec x y then x :: l else if Rlt_dec y x then y :: gInsert x r else l
  end.

Lemma gInsert_in x l z : In z (gInsert x l) <-> z = x \/ In z l.
Proof.
  induction l as [|y l IH]; cbn; [intuition|].
  destruct (Rlt_dec x y); cbn; [intuition|]. destruct (Rlt_dec y x); cbn.
  - rewrite IH. intuition.
  - assert (x = y) by lra. subst. intuition.
Qed.
Lemma gInsert_len x l : (length (gInsert x l) <= S (length l))%nat.
Proof.
  induction l as [|y l IH]; cbn; [lia|].
  destruct (Rlt_dec x y); cbn; [lia|]. destruct (Rlt_dec y x); cbn; lia.
Qed.
Lemma gInsert_sorted d x l : 0 < d -> gapList d l -> (forall y, In y l -> sep d x y) -> gapList d (gInsert x l).
Proof.
  intros D S. induction S as [|y l S IH F]; intros H; cbn.
  - constructor; constructor.
  - rewrite Forall_forall in F. assert (sep d x y) as Sy by (apply H; now left).
    destruct (Rlt_dec x y).
    + constructor; [constructor; auto; now apply Forall_forall|]. apply Forall_forall. intros z [<-|I].
      * destruct Sy as [|[|]]; lra.
      * specialize (F z I). destruct Sy as [|[|]]; lra.
    + destruct (Rlt_dec y x).
      * constructor; [apply IH; intros; apply H; now right|]. apply Forall_forall. intros z I. apply gInsert_in in I.
        destruct I as [->|I]; [destruct Sy as [|[|]]; lra|auto].
      * constructor; auto. now apply Forall_forall.
Qed.

Lemma gapList_exists d l : 0 < d -> (forall a b, In a l -> In b l -> sep d a b) ->
  exists s, gapList d s /\ (length s <= length l)%nat /\ (forall z, In z s <-> In z l).
Proof.
  intros D. induction l as [|x l IH]; intros H.
  - exists []. repeat split; auto. constructor.
  - destruct IH as (s & S & L & I); [intros; apply H; now right|].
    exists (gInsert x s). split; [|split].
    + apply gInsert_sorted; auto. intros y Iy. apply H; [now left|right; now apply I].
    + pose proof (gInsert_len x s). cbn. lia.
    + intros z. rewrite gInsert_in, I. cbn. intuition.
Qed.

(** Extension of a list with gaps to a sequence. *)
Definition gridSeq (d : R) (l : list R) (k : nat) : R :=
  if (k <? length l)%nat then nth k l 0 else last l 0 + d * INR (k - length l + 1).
Lemma gridSeq_gaps d l : 0 < d -> gapList d l -> gaps d (gridSeq d l).
Proof.
  intros D HS k. unfold gridSeq. destruct (Nat.ltb_spec k (length l)) as [A|A].
  - destruct (Nat.ltb_spec (S k) (length l)) as [B|B].
    + clear A. revert k B. induction HS as [|y l HS IH F]; intros k B; [cbn in B; lia|].
      destruct k as [|k].
      * cbn. rewrite Forall_forall in F. apply F. apply nth_In. cbn in B. lia.
      * apply (IH k). cbn in B. lia.
    + replace (S k) with (length l) by lia. replace (length l - length l + 1)%nat with 1%nat by lia. cbn [INR].
      destruct (@exists_last _ l) as (l' & a & ->); [intros ->; cbn in *; lia|].
      rewrite last_last. rewrite app_length in *. cbn [length] in *. rewrite app_nth2 by lia.
      replace (k - length l')%nat with 0%nat by lia. cbn. lra.
  - destruct (Nat.ltb_spec (S k) (length l)) as [B|B]; [lia|].
    replace (S k - length l + 1)%nat with (S (k - length l + 1)) by lia. rewrite S_INR. lra.
Qed.

Lemma grid_exists d l : 0 < d -> (forall a b, In a l -> In b l -> sep d a b) ->
  exists X, gaps d X /\ forall z, In z l -> exists k, (k < length l)%nat /\ X k = z.
Proof.
  intros D H. destruct (gapList_exists d l D H) as (s & S & L & I).
  exists (gridSeq d s). split; [now apply gridSeq_gaps|]. intros z Iz. apply I in Iz.
  destruct (In_nth _ _ 0 Iz) as (k & K & E). exists k. split; [lia|]. unfold gridSeq.
  apply Nat.ltb_lt in K. now rewrite K.
Qed.

(** ** The finite set of pairs of rectangles *)

Definition idx4 : list nat := [0; 1; 2; 3]%nat.
Definition allR : list irect :=
  filter iProper (flat_map (fun a => flat_map (fun b => flat_map (fun c => map (fun e => ((a, b), (c, e))) idx4) idx4) idx4) idx4).
Definition in4 (r : irect) : Prop := (fst (fst r) < 4 /\ snd (fst r) < 4 /\ fst (snd r) < 4 /\ snd (snd r) < 4)%nat.

Lemma idx4_in k : In k idx4 <-> (k < 4)%nat.
Proof. unfold idx4. cbn. lia. Qed.
Lemma allR_in r : in4 r -> iProper r = true -> In r allR.
Proof.
  destruct r as [[a b] [c e]]. unfold in4. cbn [fst snd]. intros (A & B & C & E) P.
  apply filter_In. split; auto. rewrite <- idx4_in in A, B, C, E.
  apply in_flat_map. exists a. split; auto. apply in_flat_map. exists b. split; auto.
  apply in_flat_map. exists c. split; auto. now apply (in_map (fun e => ((a, b), (c, e)))).
Qed.
Lemma allR_pairs (f : irect -> irect -> bool) :
  forallb (fun r => forallb (f r) allR) allR = true ->
  forall r o, in4 r -> in4 o -> iProper r = true -> iProper o = true -> f r o = true.
Proof.
  intros H r o A B C D. rewrite forallb_forall in H. specialize (H r (allR_in r A C)). rewrite forallb_forall in H.
  apply H. now apply allR_in.
Qed.

(** ** Intersection *)

Definition iOverlap (r o : irect) : bool :=
  (Nat.max (fst (fst r)) (fst (fst o)) <? Nat.min (fst (snd r)) (fst (snd o)))%nat &&
  (Nat.max (snd (fst r)) (snd (fst o)) <? Nat.min (snd (snd r)) (snd (snd o)))%nat.
Definition iCommon (r o : irect) : irect :=
  ((Nat.max (fst (fst r)) (fst (fst o)), Nat.max (snd (fst r)) (snd (fst o))),
   (Nat.min (fst (snd r)) (fst (snd o)), Nat.min (snd (snd r)) (snd (snd o)))).
Definition intersectCheck (r o : irect) : bool :=
  match iIntersect r o with
  | Ok (Some x) => iOverlap r o && iRectEq x (iCommon r o)
  | Ok None => negb (iOverlap r o)
  | _ => false
  end.
Lemma intersectCheck_all : forallb (fun r => forallb (intersectCheck r) allR) allR = true.
Proof. vm_compute. reflexivity. Qed.

Lemma iRectEq_spec r o : iRectEq r o = true -> r = o.
Proof.
  unfold iRectEq. intros H. apply andb_prop in H. destruct H as [A B]. apply iEq_spec in A, B.
  destruct r, o; cbn in *; congruence.
Qed.
Lemma iIntersect_spec r o : in4 r -> in4 o -> iProper r = true -> iProper o = true ->
  iIntersect r o = Ok (if iOverlap r o then Some (iCommon r o) else None).
Proof.
  intros A B C D. pose proof (allR_pairs _ intersectCheck_all r o A B C D) as H. unfold intersectCheck in H.
  destruct (iIntersect r o) as [[x|]| |]; try discriminate.
  - apply andb_prop in H. destruct H as [-> E]. apply iRectEq_spec in E. now subst.
  - destruct (iOverlap r o); [discriminate|reflexivity].
Qed.

(** ** Bilinear forms in the coordinates *)

Definition bform := list (Z * (nat * nat)).
Fixpoint bev (X Y : nat -> R) (l : bform) : R :=
  match l with [] => 0 | (c, (i, j)) :: r => IZR c * (X i * Y j) + bev X Y r end.
Fixpoint bcoef (l : bform) (i j : nat) : Z :=
  match l with
  | [] => 0%Z
  | (c, (a, b)) :: r => if (a =? i)%nat && (b =? j)%nat then Z.add c (bcoef r i j) else bcoef r i j
  end.
Definition bIn (l : bform) : bool := forallb (fun t => (fst (snd t) <? 4)%nat && (snd (snd t) <? 4)%nat) l.
Fixpoint sumN (f : nat -> R) (n : nat) : R := match n with O => 0 | S k => sumN f k + f k end.
Lemma bev_coef X Y l : bIn l = true ->
  bev X Y l = sumN (fun i => sumN (fun j => IZR (bcoef l i j) * (X i * Y j)) 4) 4.
Proof.
  induction l as [|[c [a b]] l IH]; intros H.
  - cbn. ring.
  - unfold bIn in H. cbn [forallb fst snd] in H. apply andb_prop in H. destruct H as [H1 H2]. apply andb_prop in H1. destruct H1 as [Ha Hb].
    apply (fun h => IH h) in H2. cbn [bev]. rewrite H2. clear IH H2.
    apply Nat.ltb_lt in Ha, Hb.
    do 4 (destruct a as [|a]; [do 4 (destruct b as [|b]; [cbn [sumN bcoef Nat.eqb andb]; rewrite plus_IZR; ring|]); lia|]). lia.
Qed.
Definition bEq (l m : bform) : bool :=
  bIn l && bIn m && forallb (fun i => forallb (fun j => Z.eqb (bcoef l i j) (bcoef m i j)) idx4) idx4.
Lemma bEq_spec X Y l m : bEq l m = true -> bev X Y l = bev X Y m.
Proof.
  unfold bEq. intros H. apply andb_prop in H. destruct H as [H E]. apply andb_prop in H. destruct H as [A B].
  rewrite (bev_coef _ _ l A), (bev_coef _ _ m B).
  assert (forall i j, (i < 4)%nat -> (j < 4)%nat -> bcoef l i j = bcoef m i j) as Q.
  { intros i j Hi Hj. rewrite <- idx4_in in Hi, Hj. rewrite forallb_forall in E. specialize (E i Hi).
    rewrite forallb_forall in E. now apply Z.eqb_eq, E. }
  cbn [sumN]. rewrite !Q by lia. reflexivity.
Qed.
Lemma bev_app X Y l m : bev X Y (l ++ m) = bev X Y l + bev X Y m.
Proof. induction l as [|[c [i j]] l IH]; cbn; [ring|]. rewrite IH. ring. Qed.

(** Twice the signed area of a polygon, and twice the area of a rectangle, with a factor. *)
Definition bPoly (pts : list ipt) : bform :=
  flat_map (fun i => let p1 := nth i pts (0, 0)%nat in let p2 := nth (nextIdx (length pts) i) pts (0, 0)%nat in
                     [(1%Z, (fst p1, snd p2)); ((-1)%Z, (fst p2, snd p1))]) (seq 0 (length pts)).
Definition bRect (k : Z) (r : irect) : bform :=
  let '((a, b), (c, e)) := r in [(k, (c, e)); (Z.opp k, (c, b)); (Z.opp k, (a, e)); (k, (a, b))].
Definition bUnion (k : Z) (r o : irect) : bform :=
  bRect (2 * k) r ++ bRect (2 * k) o ++ (if iOverlap r o then bRect (-2 * k) (iCommon r o) else []).

(** ** Even-odd rule on indexes *)

Definition iCross (q : nat * nat) (e : ipt * ipt) : bool :=
  let (a, b) := e in
  xorb (snd q <=? snd a)%nat (snd q <=? snd b)%nat && (fst q <=? fst a)%nat.
Definition iEvenOdd (pts : list ipt) (q : nat * nat) : bool :=
  fold_left (fun b e => xorb b (iCross q e)) (cyc pts) false.
(** The cell [q] is in the rectangle. *)
Definition iCell (r : irect) (q : nat * nat) : bool :=
  ((fst (fst r) <? fst q)%nat && (fst q <=? fst (snd r))%nat) && ((snd (fst r) <? snd q)%nat && (snd q <=? snd (snd r))%nat).
Definition cells : list (nat * nat) := flat_map (fun a => map (fun b => (a, b)) [0; 1; 2; 3; 4]%nat) [0; 1; 2; 3; 4]%nat.
Definition axisPairs (pts : list ipt) : bool :=
  forallb (fun e => ((fst (fst e) =? fst (snd e))%nat || (snd (fst e) =? snd (snd e))%nat)) (cyc pts).
Definition pts4 (pts : list ipt) : bool := forallb (fun p => (fst p <? 4)%nat && (snd p <? 4)%nat) pts.

Definition unionCheck (r o : irect) : bool :=
  if iOverlap r o then
    match iUnion r o with
    | Some (Ok l) =>
        (3 <=? length l)%nat && match iSimple l with Ok true => true | _ => false end &&
        (bEq (bPoly l) (bUnion 1 r o) || bEq (bPoly l) (bUnion (-1) r o)) &&
        axisPairs l && pts4 l &&
        forallb (fun q => eqb (iEvenOdd l q) (iCell r q || iCell o q)) cells
    | _ => false
    end
  else true.
Lemma unionCheck_all : forallb (fun r => forallb (unionCheck r) allR) allR = true.
Proof. vm_compute. reflexivity. Qed.
