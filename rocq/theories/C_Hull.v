(** * Properties: convex hull (C58, C100, C101) *)

From Coq Require Import Reals Lra Lia List Bool ZArith Arith Permutation Sorted.
From Verif Require Import Num M_LP M_Seg M_Circle M_Poly M_Hull S_Geom S_Poly S_Hull P_LP P_LP2 P_Circle2 P_Poly P_Poly2 P_Poly6 P_Hull.
Import ListNotations.
Local Open Scope R_scope.
Implicit Types (p q r : pt R) (pts : list (pt R)).

Lemma cyc_tl {A} (h : list A) : combine h (tl h ++ firstn 1 h) = cyc h.
Proof. destruct h; reflexivity. Qed.
Lemma nodup_cyc {A} (l : list A) a b : NoDup l -> (2 <= length l)%nat -> In (a, b) (cyc l) -> a <> b.
Proof.
  assert (forall m (x z : A), NoDup (x :: m) -> ~ In z m -> (m = [] -> x <> z) -> In (a, b) (combine (x :: m) (m ++ [z])) -> a <> b) as G.
  { induction m as [|y m IH]; intros x z N Z E H.
    - destruct H as [H|[]]. injection H as <- <-. auto.
    - inversion N as [|? ? N1 N2]; subst. change (In (a, b) ((x, y) :: combine (y :: m) (m ++ [z]))) in H. destruct H as [H|H].
      + injection H as <- <-. intros ->. apply N1. left; auto.
      + apply (IH y z N2); auto; [intros X; apply Z; right; auto|]. intros -> ->. apply Z. left; auto. }
  intros N L H. destruct l as [|x [|y l]]; cbn in L; try lia. rewrite cyc_cons in H. apply (G (y :: l) x x N); auto; [inversion N; auto|discriminate].
Qed.

(** ** C100 *)
Theorem C100_hull : forall pts, (4 <= length pts)%nat -> NoDup pts -> noTie pts -> sepDet pts ->
  exists h, hullPts pts = Ok h /\ isHull pts h /\ isPivot pts (hd pt00 h).
Proof.
  intros pts L Nd NT Sp. destruct (hull_main pts L Nd NT Sp) as (p0 & rest & E & Pv & L2 & I & N & _ & _ & HC & HE).
  exists (p0 :: rest). split; auto. split; auto. split; auto. split; auto. split; [cbn [length]; lia|]. split; auto.
Qed.
(** The object: no exception if the points are not too near to each other. *)
Theorem C100_object : forall th pts, (4 <= length pts)%nat -> NoDup pts -> noTie pts -> sepDet pts ->
  (forall p q, In p pts -> In q pts -> p <> q -> nullDistance th <= edist p q) ->
  exists pl, convexHull th pts = Ok pl /\ hullPts pts = Ok (plPts pl) /\ isHull pts (plPts pl).
Proof.
  intros th pts L Nd NT Sp D. destruct (C100_hull pts L Nd NT Sp) as (h & E & (I & N & L3 & HE & HC) & _). exists (plFresh h).
  split; [|split; [exact E|split; [exact I|split; auto]]].
  unfold convexHull. replace (length pts <? 4)%nat with false by (symmetry; apply Nat.ltb_ge; lia). rewrite E. cbn [bind]. apply plSet_ok; [lia|].
  intros [a b] He. cbn [fst snd]. pose proof (nodup_cyc _ _ _ N ltac:(lia) He) as Nab. destruct h as [|x h]; [contradiction|]. rewrite cyc_cons in He.
  apply D; auto; apply I; [apply in_combine_l in He; auto|]. apply in_combine_r in He. apply in_app_or in He. destruct He as [?|[<-|[]]]; [right|left]; auto.
Qed.
(** Any set of distinct points: the scan ends without undefined access, and gives points of the set. *)
Theorem C100_total : forall pts, (4 <= length pts)%nat -> NoDup pts -> exists h, hullPts pts = Ok h /\ incl h pts /\ (3 <= length h)%nat.
Proof. exact hull_total. Qed.

(** Points with integer coordinates are separated. *)
Lemma sep_int pts : (forall p, In p pts -> exists a b, p = mkPt (IZR a) (IZR b)) -> sepDet pts.
Proof.
  intros H p q r Hp Hq Hr. destruct (H p Hp) as (a & b & ->), (H q Hq) as (c & d & ->), (H r Hr) as (e & f & ->). unfold cross3. cbn [px py].
  rewrite <- !minus_IZR, <- !mult_IZR, <- !minus_IZR. set (z := ((c - a) * (f - b) - (d - b) * (e - a))%Z). destruct (Z.eq_dec z 0) as [->|N]; [auto|right].
  rewrite <- abs_IZR. assert (1 <= IZR (Z.abs z)) by (apply IZR_le; lia). lra.
Qed.
Definition hull5 : list (pt R) := [mkPt 4 5; mkPt 2 2; mkPt 1 4; mkPt 0 0; mkPt 5 1].
Lemma hull5_pivot p0 : isPivot hull5 p0 -> p0 = mkPt 0 0.
Proof.
  intros [A B]. assert (isPivot hull5 (mkPt 0 0)) as P.
  { split; [cbn; auto 8|]. unfold hull5, hullDir. intros q Hq N. cbn in Hq. destruct Hq as [<-|[<-|[<-|[<-|[<-|[]]]]]]; cbn; try lra. contradiction. }
  apply (pivot_unique hull5); auto. split; auto.
Qed.
Example C100_ex : (4 <= length hull5)%nat /\ NoDup hull5 /\ noTie hull5 /\ sepDet hull5 /\ (forall p q, In p hull5 -> In q hull5 -> p <> q -> nullDistance (@thr0 R RNum) <= edist p q).
Proof.
  assert (forall a b c d : R, a <> c -> mkPt a b <> mkPt c d) as D1 by (intros a b c d H E; injection E; auto).
  split; [cbn; lia|]. split; [|split; [|split]].
  - repeat constructor; cbn; intuition; try match goal with H : mkPt _ _ = mkPt _ _ |- _ => injection H; intros; lra end.
  - intros p0 Hp q r Hq Hr. rewrite (hull5_pivot _ Hp). unfold hull5 in *. cbn in Hq, Hr.
    destruct Hq as [<-|[<-|[<-|[<-|[<-|[]]]]]]; destruct Hr as [<-|[<-|[<-|[<-|[<-|[]]]]]]; intros A B C; try contradiction; unfold cross3; cbn [px py]; intros E; lra.
  - apply sep_int. intros p H. unfold hull5 in H. cbn in H. destruct H as [<-|[<-|[<-|[<-|[<-|[]]]]]]; [exists 4%Z, 5%Z|exists 2%Z, 2%Z|exists 1%Z, 4%Z|exists 0%Z, 0%Z|exists 5%Z, 1%Z]; reflexivity.
  - assert (nullDistance (@thr0 R RNum) <= 1) as T by (unfold thr0; cbn [nullDistance]; rnum; lra).
    intros p q Hp Hq N. apply (Rle_trans _ 1); auto. unfold edist. rewrite <- sqrt_1 at 1. apply sqrt_le_1_alt. unfold hull5 in *. cbn in Hp, Hq.
    destruct Hp as [<-|[<-|[<-|[<-|[<-|[]]]]]]; destruct Hq as [<-|[<-|[<-|[<-|[<-|[]]]]]]; try contradiction; unfold Rsqr; cbn [px py]; lra.
Qed.
(** In doubles: the inner point (2,2) is dropped. *)
Example C100_ex2 : match hullPts (N := FNum) (map (fun c => mkPt (@nZ _ FNum (fst c)) (@nZ _ FNum (snd c))) [(4,5);(2,2);(1,4);(0,0);(5,1)]%Z) with
  | Ok h => map (fun p : pt PrimFloat.float => (@nleb _ FNum (@nZ _ FNum 2) (px p), @nleb _ FNum (@nZ _ FNum 2) (py p))) h = [(false, false); (true, false); (true, true); (false, true)] | _ => False end.
Proof. vm_compute. reflexivity. Qed.
Print Assumptions C100_hull.
Print Assumptions C100_object.
Print Assumptions C100_total.

(** ** C58 *)
Definition hullTie : list (pt R) := [mkPt 0 0; mkPt 3 0; mkPt 1 0; mkPt 2 0; mkPt 0 3].
Ltac reval := repeat (cbn [px py nth]; match goal with |- context [Rltb ?a ?b] =>
  first [rewrite (proj2 (Rltb_spec a b)) by (try (unfold Rabs; destruct Rcase_abs); lra)
        |rewrite (proj2 (Rltb_false a b)) by (try (unfold Rabs; destruct Rcase_abs); lra)] end).
Lemma orient_val p q r v : cross3 p q r = v -> (1 <= v -> hullOrient p q r = (-1)%Z) /\ (v = 0 -> hullOrient p q r = 0%Z) /\ (v <= -1 -> hullOrient p q r = 1%Z).
Proof.
  intros <-. unfold hullOrient. rnum. set (val := _ - _). assert (val = - cross3 p q r) as E by (unfold val, cross3; ring). rewrite E. clear E val. set (c := cross3 p q r). clearbody c.
  assert (nullDeter (@thr0 R RNum) = / 1000000000000000) as D by (unfold thr0; cbn [nullDeter]; rnum; lra). rewrite D, Rabs_Ropp.
  split; [|split]; intros H; destruct (Rltb (Rabs c) _) eqn:X; rclean; try (revert X; unfold Rabs; destruct Rcase_abs; lra); destruct (Rltb 0 (- c)) eqn:Y; rclean; auto; lra || (subst; rewrite Rabs_R0 in X; lra).
Qed.
Lemma loop_push g v2 f hull fp i1 i2 i3 : (hullOrient (N := RNum) (g i1) (g i2) (g i3) =? 1)%Z = false -> (i3 + 1 <? length v2)%nat = true ->
  hullLoop g v2 (S f) hull fp i1 i2 i3 = hullLoop g v2 f (nth i3 v2 0%nat :: hull) (i2 :: fp) i2 i3 (i3 + 1).
Proof. intros A B. cbn [hullLoop]. now rewrite A, B. Qed.
Lemma loop_end g v2 f hull fp i1 i2 i3 : (hullOrient (N := RNum) (g i1) (g i2) (g i3) =? 1)%Z = false -> (i3 + 1 <? length v2)%nat = false ->
  hullLoop g v2 (S f) hull fp i1 i2 i3 = Ok (rev (nth i3 v2 0%nat :: hull)).
Proof. intros A B. cbn [hullLoop]. now rewrite A, B. Qed.
Lemma loop_pop g v2 f hull fp i1 i2 i3 k ks : (hullOrient (N := RNum) (g i1) (g i2) (g i3) =? 1)%Z = true -> tl fp = k :: ks ->
  hullLoop g v2 (S f) hull fp i1 i2 i3 = hullLoop g v2 f (tl hull) (tl fp) k i1 i3.
Proof. intros A B. cbn [hullLoop]. now rewrite A, B. Qed.
Ltac ori := cbn [nth Nat.add]; match goal with |- (hullOrient ?p ?q ?r =? 1)%Z = _ => 
  let H := fresh in destruct (orient_val p q r _ eq_refl) as (H & _); first [rewrite H by (unfold cross3; cbn [px py]; lra); reflexivity|clear H];
  destruct (orient_val p q r _ eq_refl) as (_ & H & _); first [rewrite H by (unfold cross3; cbn [px py]; lra); reflexivity|clear H];
  destruct (orient_val p q r _ eq_refl) as (_ & _ & H); rewrite H by (unfold cross3; cbn [px py]; lra); reflexivity end.
Lemma hullTie_run : hullPts hullTie = Ok hullTie.
Proof.
  unfold hullPts. assert (hullOrder hullTie = [0; 1; 2; 3; 4]%nat) as E.
  { assert (minElem ltBm hullTie = 0%nat) as E1. { unfold hullTie, minElem. cbn [minElemFrom]. unfold ltBm. rnum. reval. reflexivity. }
    unfold hullOrder. rewrite E1. unfold hullTie. cbn [length seq swapNth setNth firstn skipn app nth hullSort fold_left hullInsert].
    unfold hullSort. cbn [fold_left]. unfold hullLt. rnum. cbn [hullInsert]. reval. cbn [hullInsert]. reval. cbn [hullInsert]. reval. cbn [hullInsert]. reval. reflexivity. }
  rewrite E. unfold hullTie. cbn [length Nat.mul Nat.add nth]. rewrite loop_push; [|ori|reflexivity]. rewrite loop_end; [|ori|reflexivity]. reflexivity.
Qed.
Theorem C58_refuted : exists pts h, (4 <= length pts)%nat /\ NoDup pts /\ sepDet pts /\ hullPts pts = Ok h /\
  exists a b p, In (a, b) (combine h (tl h ++ firstn 1 h)) /\ In p pts /\ cross3 a b p < 0.
Proof.
  exists hullTie, hullTie. split; [cbn; lia|]. split; [|split; [|split]].
  - repeat constructor; cbn; intuition; try match goal with H : mkPt _ _ = mkPt _ _ |- _ => injection H; intros; lra end.
  - apply sep_int. intros p H. unfold hullTie in H. cbn in H. destruct H as [<-|[<-|[<-|[<-|[<-|[]]]]]]; [exists 0%Z, 0%Z|exists 3%Z, 0%Z|exists 1%Z, 0%Z|exists 2%Z, 0%Z|exists 0%Z, 3%Z]; reflexivity.
  - exact hullTie_run.
  - exists (mkPt 3 0), (mkPt 1 0), (mkPt 0 3). split; [cbn; auto|]. split; [cbn; auto 8|]. unfold cross3. cbn [px py]. lra.
Qed.
Print Assumptions C58_refuted.

(** ** C101 *)
Theorem C101_order : forall pts pts', (4 <= length pts)%nat -> NoDup pts -> noTie pts -> Permutation pts pts' -> hullPts pts = hullPts pts'.
Proof. exact hull_perm. Qed.
Theorem C101_idempotent : forall pts h, (4 <= length pts)%nat -> NoDup pts -> noTie pts -> sepDet pts -> hullPts pts = Ok h -> (4 <= length h)%nat -> hullPts h = Ok h.
Proof. exact hull_idem. Qed.
(** With fewer than four points, the points are returned as they are. *)
Theorem C101_small : forall th pts pl, (length pts < 4)%nat -> convexHull th pts = Ok pl -> plPts pl = pts.
Proof.
  intros th pts pl L. unfold convexHull. replace (length pts <? 4)%nat with true by (symmetry; apply Nat.ltb_lt; lia). intros E. apply plSet_inv in E. destruct E as [-> _]. reflexivity.
Qed.
Example C101_ex : Permutation hull5 (rev hull5) /\ hullPts hull5 = Ok [mkPt 0 0; mkPt 5 1; mkPt 4 5; mkPt 1 4].
Proof.
  split; [apply Permutation_rev|]. unfold hullPts. assert (hullOrder hull5 = [3; 4; 1; 0; 2]%nat) as E.
  { assert (minElem ltBm hull5 = 3%nat) as E1. { unfold hull5, minElem. cbn [minElemFrom]. unfold ltBm. rnum. reval. cbn [minElemFrom]. reval. cbn [minElemFrom]. reval. reflexivity. }
    unfold hullOrder. rewrite E1. unfold hull5. unfold swapNth, setNth. cbn [length seq firstn skipn app nth].
    unfold hullSort. cbn [fold_left]. unfold hullLt. rnum. cbn [hullInsert]. do 6 (reval; cbn [hullInsert]). reflexivity. }
  rewrite E. unfold hull5. cbn [length Nat.mul Nat.add nth]. erewrite loop_pop; [|ori|reflexivity]. rewrite loop_push; [|ori|reflexivity]. rewrite loop_end; [|ori|reflexivity]. reflexivity.
Qed.
Print Assumptions C101_order.
Print Assumptions C101_idempotent.
Print Assumptions C101_small.
