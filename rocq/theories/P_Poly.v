(** * Polylines: consecutive pairs, area, centroid, segments *)

From Coq Require Import Reals Lra Lia List Bool Arith Permutation.
From Verif Require Import Num M_LP M_Seg M_Poly S_Geom S_Seg S_Poly P_LP P_LP2 P_LP4 P_Seg.
Import ListNotations.
Local Open Scope R_scope.

(** ** Lists *)
Lemma combine_rev {A B} (l : list A) (m : list B) : length l = length m -> combine (rev l) (rev m) = rev (combine l m).
Proof.
  revert m. induction l as [|a l IH]; intros [|b m] H; try discriminate; [reflexivity|].
  injection H as H. cbn [rev combine]. rewrite <- (IH m H).
  assert (forall (u : list A) (v : list B) x y, length u = length v -> combine (u ++ [x]) (v ++ [y]) = combine u v ++ [(x, y)]) as G.
  { clear. induction u as [|a u IH]; intros [|b v] x y H; try discriminate; [reflexivity|]. injection H as H. cbn. now rewrite IH. }
  apply G. now rewrite !rev_length.
Qed.
Lemma combine_swap {A B} (l : list A) (m : list B) : map (fun e => (snd e, fst e)) (combine l m) = combine m l.
Proof. revert m. induction l as [|a l IH]; intros [|b m]; cbn; auto. now rewrite IH. Qed.
Lemma combine_app' {A B} (l l' : list A) (m m' : list B) : length l = length m ->
  combine (l ++ l') (m ++ m') = combine l m ++ combine l' m'.
Proof. revert m. induction l as [|a l IH]; intros [|b m] H; try discriminate; [reflexivity|]. injection H as H. cbn. now rewrite IH. Qed.

Lemma cyc_cons {A} (a : A) r : cyc (a :: r) = combine (a :: r) (r ++ [a]). Proof. reflexivity. Qed.
Lemma cyc_length {A} (l : list A) : length (cyc l) = length l.
Proof. destruct l as [|a r]; [reflexivity|]. rewrite cyc_cons, combine_length, app_length. cbn [length]. lia. Qed.
(** One step of rotation. *)
Lemma cyc_step {A} (a : A) r : exists e t, cyc (a :: r) = e :: t /\ cyc (r ++ [a]) = t ++ [e].
Proof.
  destruct r as [|b r].
  - exists (a, a), []. split; reflexivity.
  - exists (a, b), (combine (b :: r) (r ++ [a])). split; [reflexivity|].
    change ((b :: r) ++ [a]) with (b :: (r ++ [a])). rewrite cyc_cons.
    change (b :: r ++ [a]) with ((b :: r) ++ [a]). rewrite combine_app'; [reflexivity|]. rewrite app_length. cbn. lia.
Qed.
Lemma cyc_perm {A} (u v : list A) : Permutation (cyc (u ++ v)) (cyc (v ++ u)).
Proof.
  revert v. induction u as [|a u IH]; intros v.
  - now rewrite app_nil_r.
  - cbn [app]. destruct (cyc_step a (u ++ v)) as (e & t & E & F). rewrite E.
    transitivity (cyc (u ++ v ++ [a])).
    + rewrite app_assoc, F. apply Permutation_cons_append.
    + rewrite (IH (v ++ [a])), <- app_assoc. reflexivity.
Qed.
Lemma cyc_shift {A} (l m : list A) : shifted l m -> Permutation (cyc l) (cyc m).
Proof. intros (u & v & -> & ->). apply cyc_perm. Qed.
Lemma cyc_rev {A} (l : list A) : Permutation (cyc (rev l)) (map (fun e => (snd e, fst e)) (cyc l)).
Proof.
  destruct l as [|a r]; [reflexivity|]. cbn [rev].
  transitivity (cyc ([a] ++ rev r)); [apply cyc_perm|]. cbn [app]. rewrite !cyc_cons, combine_swap.
  replace (a :: rev r) with (rev (r ++ [a])) by (now rewrite rev_app_distr).
  change (rev r ++ [a]) with (rev (a :: r)). rewrite combine_rev by (rewrite app_length; cbn; lia).
  symmetry. apply Permutation_rev.
Qed.
Lemma cyc_map {A B} (f : A -> B) l : cyc (map f l) = map (fun e => (f (fst e), f (snd e))) (cyc l).
Proof.
  destruct l as [|a r]; [reflexivity|]. cbn [map cyc].
  replace (map f r ++ [f a]) with (map f (r ++ [a])) by (now rewrite map_app).
  change (f a :: map f r) with (map f (a :: r)).
  generalize (a :: r) (r ++ [a]). clear. intros l. induction l as [|x l IH]; intros [|y m]; cbn; auto. now rewrite IH.
Qed.
Lemma map_fst_cyc {A} (l : list A) : map fst (cyc l) = l.
Proof.
  destruct l as [|a r]; [reflexivity|]. rewrite cyc_cons. generalize (eq_refl (length (a :: r))).
  assert (length (a :: r) = length (r ++ [a])) as H by (rewrite app_length; cbn; lia). revert H.
  generalize (a :: r) (r ++ [a]). clear. induction l as [|x l IH]; intros [|y m] H _; cbn in *; auto; try discriminate. now rewrite IH by lia.
Qed.
Lemma map_snd_cyc {A} (a : A) r : map snd (cyc (a :: r)) = r ++ [a].
Proof.
  rewrite cyc_cons.
  assert (length (a :: r) = length (r ++ [a])) as H by (rewrite app_length; cbn; lia). revert H.
  generalize (a :: r) (r ++ [a]). clear. induction l as [|x l IH]; intros [|y m] H; cbn in *; auto; try discriminate. now rewrite IH by lia.
Qed.
Lemma snd_fst_cyc {A} (l : list A) : Permutation (map snd (cyc l)) (map fst (cyc l)).
Proof. rewrite map_fst_cyc. destruct l as [|a r]; [reflexivity|]. rewrite map_snd_cyc. symmetry. apply Permutation_cons_append. Qed.

Lemma nextIdx_bound n i : (i < n)%nat -> (nextIdx n i < n)%nat.
Proof. unfold nextIdx. destruct (Nat.eqb_spec i (n - 1)); lia. Qed.
Lemma nth_cyc {A} (l : list A) d i : (i < length l)%nat ->
  nth i (cyc l) (d, d) = (nth i l d, nth (nextIdx (length l) i) l d).
Proof.
  destruct l as [|a r]; [cbn; lia|]. intros H. rewrite cyc_cons, combine_nth by (rewrite app_length; cbn; lia). f_equal.
  unfold nextIdx. cbn [length] in *. destruct (Nat.eqb_spec i (S (length r) - 1)) as [->|N].
  - rewrite app_nth2 by lia. replace (S (length r) - 1 - length r)%nat with 0%nat by lia. reflexivity.
  - rewrite app_nth1 by lia. replace (i + 1)%nat with (S i) by lia. reflexivity.
Qed.
Lemma cyc_index {A} (l : list A) d :
  map (fun i => (nth i l d, nth (nextIdx (length l) i) l d)) (seq 0 (length l)) = cyc l.
Proof.
  apply nth_ext with (d := (d, d)) (d' := (d, d)); [now rewrite map_length, seq_length, cyc_length|].
  rewrite map_length, seq_length. intros i H. rewrite (nth_indep _ _ ((fun i => (nth i l d, nth (nextIdx (length l) i) l d)) 0%nat))
    by (now rewrite map_length, seq_length).
  rewrite (map_nth (fun i => (nth i l d, nth (nextIdx (length l) i) l d))), seq_nth by auto. cbn [Nat.add]. now rewrite nth_cyc.
Qed.
Lemma loop_cyc {A S} (l : list A) d (f : S -> A -> A -> S) s :
  fold_left (fun s i => f s (nth i l d) (nth (nextIdx (length l) i) l d)) (seq 0 (length l)) s =
  fold_left (fun s e => f s (fst e) (snd e)) (cyc l) s.
Proof.
  rewrite <- (cyc_index l d). generalize (seq 0 (length l)). intros idx. revert s.
  induction idx as [|i idx IH]; intros s; [reflexivity|]. cbn [map fold_left fst snd]. apply IH.
Qed.

(** ** Sums *)
Lemma sumOver_perm {A} (f : A -> R) l m : Permutation l m -> sumOver f l = sumOver f m.
Proof. induction 1; cbn; lra. Qed.
Lemma sumOver_map {A B} (f : B -> R) (g : A -> B) l : sumOver f (map g l) = sumOver (fun x => f (g x)) l.
Proof. induction l; cbn; congruence. Qed.
Lemma sumOver_ext {A} (f g : A -> R) l : (forall x, In x l -> f x = g x) -> sumOver f l = sumOver g l.
Proof. induction l as [|x l IH]; intros H; [reflexivity|]. cbn. rewrite H, IH; auto; [|now left]. intros; apply H; now right. Qed.
Lemma sumOver_plus {A} (f g : A -> R) l : sumOver (fun x => f x + g x) l = sumOver f l + sumOver g l.
Proof. induction l; cbn; lra. Qed.
Lemma sumOver_scal {A} (f : A -> R) k l : sumOver (fun x => k * f x) l = k * sumOver f l.
Proof. induction l as [|x l IH]; cbn; [ring|]. rewrite IH. ring. Qed.
Lemma sumOver_nonneg {A} (f : A -> R) l : (forall x, In x l -> 0 <= f x) -> 0 <= sumOver f l.
Proof. induction l as [|x l IH]; intros H; cbn; [lra|]. assert (0 <= f x) by (apply H; now left). assert (0 <= sumOver f l) by (apply IH; intros; apply H; now right). lra. Qed.
Lemma sumOver_app {A} (f : A -> R) l m : sumOver f (l ++ m) = sumOver f l + sumOver f m.
Proof. induction l; cbn; lra. Qed.
Lemma fold_sumOver {A} (f : A -> R) l s : fold_left (fun s x => s + f x) l s = s + sumOver f l.
Proof. revert s. induction l as [|x l IH]; intros s; cbn; [ring|]. rewrite IH. ring. Qed.
(** Sums of differences along a closed chain vanish. *)
Lemma telescope {A} (g : A -> R) l : sumOver (fun e => g (snd e) - g (fst e)) (cyc l) = 0.
Proof.
  assert (sumOver (fun e => g (snd e) - g (fst e)) (cyc l) = sumOver g (map snd (cyc l)) - sumOver g (map fst (cyc l))) as ->.
  { rewrite !sumOver_map. induction (cyc l); cbn; lra. }
  rewrite (sumOver_perm g _ _ (snd_fst_cyc l)). lra.
Qed.

(** ** Area *)
Definition cr2 (e : pt R * pt R) : R := px (fst e) * py (snd e) - py (fst e) * px (snd e).
Lemma signedArea_sum pts : signedArea pts = sumOver cr2 (cyc pts) / 2.
Proof.
  unfold signedArea. rnum. f_equal.
  rewrite (loop_cyc pts pt00 (fun s p1 p2 => s + px p1 * py p2 - py p1 * px p2)).
  transitivity (fold_left (fun s e => s + cr2 e) (cyc pts) 0).
  - generalize (cyc pts) 0. intros l. induction l as [|e l IH]; intros s; [reflexivity|]. cbn [fold_left]. rewrite <- IH. f_equal. unfold cr2. ring.
  - rewrite fold_sumOver. ring.
Qed.
Lemma signedArea_fan o pts : signedArea pts = fanArea o pts.
Proof.
  rewrite signedArea_sum. unfold fanArea, tri2. f_equal.
  set (g := fun q : pt R => px o * py q - py o * px q).
  rewrite (sumOver_ext cr2 (fun e => cross3 o (fst e) (snd e) + (g (snd e) - g (fst e)))).
  - rewrite sumOver_plus, (telescope g). ring.
  - intros e _. unfold cr2, cross3, g. ring.
Qed.
Lemma signedArea_shift pts pts' : shifted pts pts' -> signedArea pts' = signedArea pts.
Proof. intros H. rewrite !signedArea_sum. f_equal. apply sumOver_perm. symmetry. now apply cyc_shift. Qed.
Lemma signedArea_rev pts : signedArea (rev pts) = - signedArea pts.
Proof.
  rewrite !signedArea_sum, (sumOver_perm _ _ _ (cyc_rev pts)), sumOver_map.
  rewrite (sumOver_ext _ (fun e => -1 * cr2 e)) by (intros; unfold cr2; cbn; ring). rewrite sumOver_scal. field.
Qed.
Lemma signedArea_affine m pts : signedArea (map (affine m) pts) = affDet m * signedArea pts.
Proof.
  rewrite !signedArea_sum, cyc_map, sumOver_map.
  set (g := fun q : pt R => ae m * (ac m * px q + ad m * py q) - af m * (aa m * px q + ab m * py q)).
  rewrite (sumOver_ext _ (fun e => affDet m * cr2 e + (g (snd e) - g (fst e)))).
  - rewrite sumOver_plus, (telescope g), sumOver_scal. field.
  - intros [p q] _. unfold cr2, g, affine, affDet. cbn [fst snd px py]. ring.
Qed.

(** ** Centroid *)
Definition cx (e : pt R * pt R) : R := (px (fst e) + px (snd e)) * cr2 e.
Definition cy (e : pt R * pt R) : R := (py (fst e) + py (snd e)) * cr2 e.
Lemma centroidCalc_sum pts : signedArea pts <> 0 ->
  centroidCalc pts = Ok (mkPt (sumOver cx (cyc pts) / (6 * signedArea pts)) (sumOver cy (cyc pts) / (6 * signedArea pts))).
Proof.
  intros N. unfold centroidCalc.
  match goal with |- context [fold_left ?f (seq 0 _) _] => set (F := f) end.
  assert (fold_left F (seq 0 (length pts)) (@nZ R RNum 0, @nZ R RNum 0) = (sumOver cx (cyc pts), sumOver cy (cyc pts))) as ->.
  { unfold F.
    rewrite (loop_cyc pts pt00 (fun c p1 p2 => (fst c + (px p1 + px p2) * (px p1 * py p2 - px p2 * py p1), snd c + (py p1 + py p2) * (px p1 * py p2 - px p2 * py p1)))%num).
    rnum.
    assert (forall l a b, fold_left (fun c e => (fst c + (px (fst e) + px (snd e)) * (px (fst e) * py (snd e) - px (snd e) * py (fst e)),
                                                 snd c + (py (fst e) + py (snd e)) * (px (fst e) * py (snd e) - px (snd e) * py (fst e)))) l (a, b)
                          = (a + sumOver cx l, b + sumOver cy l)) as G.
    { induction l as [|e l IH]; intros a b; cbn [fold_left sumOver fst snd]; [f_equal; ring|]. rewrite IH. unfold cx, cy, cr2. f_equal; ring. }
    rewrite G. f_equal; ring. }
  unfold cdiv. rnum. replace (Reqb _ 0) with false by (symmetry; apply Reqb_false; lra). reflexivity.
Qed.
Lemma centroidCalc_undef pts : signedArea pts = 0 -> centroidCalc pts = Undef.
Proof.
  intros E. unfold centroidCalc. destruct (fold_left _ _ _) as [u v]. rewrite E. unfold cdiv. rnum.
  rewrite Rmult_0_r. replace (Reqb 0 0) with true by (symmetry; now apply Reqb_spec). reflexivity.
Qed.

Lemma cx_linear m pts : sumOver cx (cyc (map (affine m) pts)) =
  affDet m * (aa m * sumOver cx (cyc pts) + ab m * sumOver cy (cyc pts) + 3 * ae m * sumOver cr2 (cyc pts)).
Proof.
  rewrite cyc_map, sumOver_map.
  set (X := fun q : pt R => aa m * px q + ab m * py q). set (Y := fun q : pt R => ac m * px q + ad m * py q).
  set (g := fun q : pt R => ae m * (X q * Y q) - af m * (X q * X q) + 2 * ae m * ae m * Y q - 2 * ae m * af m * X q).
  rewrite (sumOver_ext _ (fun e => affDet m * (aa m * cx e + ab m * cy e + 3 * ae m * cr2 e) + (g (snd e) - g (fst e)))).
  - rewrite sumOver_plus, (telescope g), sumOver_scal, !sumOver_plus, !sumOver_scal. ring.
  - intros [p q] _. unfold cx, cy, cr2, g, X, Y, affine, affDet. cbn [fst snd px py]. ring.
Qed.
Lemma cy_linear m pts : sumOver cy (cyc (map (affine m) pts)) =
  affDet m * (ac m * sumOver cx (cyc pts) + ad m * sumOver cy (cyc pts) + 3 * af m * sumOver cr2 (cyc pts)).
Proof.
  rewrite cyc_map, sumOver_map.
  set (X := fun q : pt R => aa m * px q + ab m * py q). set (Y := fun q : pt R => ac m * px q + ad m * py q).
  set (g := fun q : pt R => - (af m * (X q * Y q)) + ae m * (Y q * Y q) + 2 * ae m * af m * Y q - 2 * af m * af m * X q).
  rewrite (sumOver_ext _ (fun e => affDet m * (ac m * cx e + ad m * cy e + 3 * af m * cr2 e) + (g (snd e) - g (fst e)))).
  - rewrite sumOver_plus, (telescope g), sumOver_scal, !sumOver_plus, !sumOver_scal. ring.
  - intros [p q] _. unfold cx, cy, cr2, g, X, Y, affine, affDet. cbn [fst snd px py]. ring.
Qed.
Lemma centroid_affine m pts c : affDet m <> 0 -> centroidCalc pts = Ok c -> centroidCalc (map (affine m) pts) = Ok (affine m c).
Proof.
  intros D H. destruct (Req_dec (signedArea pts) 0) as [Z|N]; [rewrite centroidCalc_undef in H; [discriminate|auto]|].
  rewrite centroidCalc_sum in H by auto. apply Ok_inj in H. subst c.
  rewrite centroidCalc_sum by (rewrite signedArea_affine; apply Rmult_integral_contrapositive; auto).
  rewrite cx_linear, cy_linear, signedArea_affine. rewrite signedArea_sum in N. rewrite signedArea_sum.
  unfold affine. cbn [px py]. set (S := sumOver cr2 (cyc pts)) in *. assert (S <> 0) by lra.
  f_equal. f_equal; field; auto.
Qed.
Lemma centroid_shift pts pts' : shifted pts pts' -> centroidCalc pts' = centroidCalc pts.
Proof.
  intros H. assert (E := signedArea_shift _ _ H). destruct (Req_dec (signedArea pts) 0) as [Z|N].
  - rewrite !centroidCalc_undef; congruence.
  - rewrite !centroidCalc_sum by congruence. rewrite E.
    now rewrite (sumOver_perm cx _ _ (cyc_shift _ _ H)), (sumOver_perm cy _ _ (cyc_shift _ _ H)).
Qed.
Lemma centroid_rev pts : centroidCalc (rev pts) = centroidCalc pts.
Proof.
  assert (E := signedArea_rev pts). destruct (Req_dec (signedArea pts) 0) as [Z|N].
  - rewrite !centroidCalc_undef; auto. rewrite E, Z. ring.
  - rewrite !centroidCalc_sum by (auto; rewrite E; lra).
    rewrite (sumOver_perm cx _ _ (cyc_rev pts)), (sumOver_perm cy _ _ (cyc_rev pts)), !sumOver_map.
    rewrite (sumOver_ext (fun x => cx (snd x, fst x)) (fun e => -1 * cx e)) by (intros; unfold cx, cr2; cbn; ring).
    rewrite (sumOver_ext (fun x => cy (snd x, fst x)) (fun e => -1 * cy e)) by (intros; unfold cy, cr2; cbn; ring).
    rewrite !sumOver_scal, E. f_equal. f_equal; field; auto.
Qed.
(** Weighted mean of the centers of the triangles of a fan around any point. *)
Lemma centroid_fan o pts c : centroidCalc pts = Ok c ->
  fanArea o pts <> 0 /\
  px c * sumOver (fun e => tri2 o (fst e) (snd e)) (cyc pts) =
    sumOver (fun e => tri2 o (fst e) (snd e) * ((px o + px (fst e) + px (snd e)) / 3)) (cyc pts) /\
  py c * sumOver (fun e => tri2 o (fst e) (snd e)) (cyc pts) =
    sumOver (fun e => tri2 o (fst e) (snd e) * ((py o + py (fst e) + py (snd e)) / 3)) (cyc pts).
Proof.
  intros H. destruct (Req_dec (signedArea pts) 0) as [Z|N]; [rewrite centroidCalc_undef in H; [discriminate|auto]|].
  rewrite centroidCalc_sum in H by auto. apply Ok_inj in H. subst c. cbn [px py].
  assert (F := signedArea_fan o pts). split; [congruence|].
  assert (sumOver (fun e => tri2 o (fst e) (snd e)) (cyc pts) = 2 * signedArea pts) as -> by (rewrite F; unfold fanArea; field).
  set (g := fun q : pt R => px o * (px q * py q) - py o * (px q * px q) + px o * px o * py q - px o * py o * px q).
  set (h := fun q : pt R => - (py o * (px q * py q)) + px o * (py q * py q) + px o * py o * py q - py o * py o * px q).
  split.
  - rewrite (sumOver_ext (fun e => tri2 o (fst e) (snd e) * ((px o + px (fst e) + px (snd e)) / 3))
              (fun e => (1 / 3) * cx e + ((-1 / 3 * g (snd e)) - (-1 / 3 * g (fst e))))).
    + rewrite sumOver_plus, sumOver_scal, (telescope (fun q => -1 / 3 * g q)). field. auto.
    + intros [p q] _. unfold tri2, cross3, cx, cr2, g. cbn [fst snd]. field.
  - rewrite (sumOver_ext (fun e => tri2 o (fst e) (snd e) * ((py o + py (fst e) + py (snd e)) / 3))
              (fun e => (1 / 3) * cy e + ((-1 / 3 * h (snd e)) - (-1 / 3 * h (fst e))))).
    + rewrite sumOver_plus, sumOver_scal, (telescope (fun q => -1 / 3 * h q)). field. auto.
    + intros [p q] _. unfold tri2, cross3, cy, cr2, h. cbn [fst snd]. field.
Qed.
