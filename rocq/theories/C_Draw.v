(** * Properties C64, C98, C99: drawing parameters *)

From Coq Require Import ZArith String Ascii List Bool Lia.
From Verif Require Import Num M_Draw.
Import ListNotations.
Local Open Scope Z_scope.

(** ** C64 *)
(** setPointSize() accepts only odd sizes, but the size of a new object is even. *)
Theorem C64_refuted : exists ops v, nth_error (wObjs (wRun wInit ops)) 0 = Some v /\ Z.even (dPtSize v) = true.
Proof. exists [ONew], dpFactory. split; reflexivity. Qed.
Print Assumptions C64_refuted.

(** ** C98 *)
(** The setters called on object [i], in order. *)
Definition ownSets (i : nat) (ops : list dop) : list dset :=
  flat_map (fun o => match o with OSet j s => if Nat.eqb i j then [s] else [] | _ => [] end) ops.
(** No call of setDefault or resetDefault. *)
Definition noDefault (ops : list dop) : Prop := forall o, In o ops -> match o with OSetDef _ | OReset => False | _ => True end.
Lemma updNth_length {A} (l : list A) i f : length (updNth l i f) = length l.
Proof. revert i. induction l; intros [|i]; cbn; auto. Qed.
Lemma updNth_nth {A} (l : list A) i j f : nth_error (updNth l i f) j = if Nat.eqb i j then option_map f (nth_error l j) else nth_error l j.
Proof.
  revert i j. induction l as [|x l IH]; intros [|i] [|j]; cbn; auto. destruct (Nat.eqb i j); reflexivity.
Qed.
Lemma wRun_app w a b : wRun w (a ++ b) = wRun (wRun w a) b.
Proof. apply fold_left_app. Qed.
(** The default value is the one stored by the last setDefault or resetDefault. *)
Theorem C98_default : forall ops later, noDefault later ->
  (forall i v, nth_error (wObjs (wRun wInit ops)) i = Some v -> wDef (wRun wInit (ops ++ OSetDef i :: later)) = v) /\
  wDef (wRun wInit (ops ++ OReset :: later)) = dpFactory /\ wDef (wRun wInit later) = dpFactory.
Proof.
  assert (forall later w, noDefault later -> wDef (wRun w later) = wDef w) as G.
  { induction later as [|o later IH]; intros w N; auto. unfold wRun in *. cbn [fold_left]. rewrite IH by (intros x Hx; apply N; right; auto).
    specialize (N o (or_introl eq_refl)). destruct o; auto; contradiction. }
  intros ops later N. split; [|split].
  - intros i v E. rewrite wRun_app. unfold wRun at 1. cbn [fold_left]. change (fold_left wStep later (wStep (wRun wInit ops) (OSetDef i))) with (wRun (wStep (wRun wInit ops) (OSetDef i)) later).
    rewrite G by auto. cbn [wStep]. rewrite E. reflexivity.
  - rewrite wRun_app. unfold wRun at 1. cbn [fold_left]. change (fold_left wStep later (wStep (wRun wInit ops) OReset)) with (wRun (wStep (wRun wInit ops) OReset) later). now rewrite G.
  - now rewrite G.
Qed.
(** A new object has the default value, and from then on depends on its own setters only. *)
Theorem C98_objects : forall ops later, let i := length (wObjs (wRun wInit ops)) in
  nth_error (wObjs (wRun wInit (ops ++ ONew :: later))) i = Some (fold_left (fun v s => dApply s v) (ownSets i later) (wDef (wRun wInit ops))).
Proof.
  assert (forall later w i v, nth_error (wObjs w) i = Some v -> nth_error (wObjs (wRun w later)) i = Some (fold_left (fun v s => dApply s v) (ownSets i later) v)) as G.
  { induction later as [|o later IH]; intros w i v E; auto. unfold wRun in *. cbn [fold_left]. unfold ownSets. cbn [flat_map]. rewrite fold_left_app. apply IH.
    destruct o as [|j s|j|]; cbn [wStep wObjs].
    - rewrite nth_error_app1; auto. apply nth_error_Some. now rewrite E.
    - rewrite updNth_nth. rewrite (Nat.eqb_sym i j). destruct (Nat.eqb j i); auto. now rewrite E.
    - destruct (nth_error (wObjs w) j); auto.
    - auto. }
  intros ops later i. rewrite wRun_app. unfold wRun at 1. cbn [fold_left]. apply (G later). cbn [wStep wObjs].
  rewrite nth_error_app2 by reflexivity. rewrite Nat.sub_diag. reflexivity.
Qed.
(** Whatever the history, the values are in range. *)
Definition inRange (v : dpv) : Prop :=
  0 <= dStyle v <= 5 /\ (dPtSize v = 4 \/ Z.odd (dPtSize v) = true) /\ Z.odd (dPtDelta v) = true /\ 0 <= dPtSize v <= 255 /\ 0 <= dPtDelta v <= 255 /\ 0 <= dThick v <= 255 /\
  1 < dFont v /\ 0 <= colR (dColor v) <= 255 /\ 0 <= colG (dColor v) <= 255 /\ 0 <= colB (dColor v) <= 255.
Lemma u8_range z : 0 <= u8 z <= 255.
Proof. unfold u8. pose proof (Z.mod_pos_bound z 256). lia. Qed.
Lemma apply_range o v : inRange v -> inRange (dApply o v).
Proof.
  intros R. destruct v. unfold dApply, dSet, inRange in *. cbn in *. destruct o; cbn; repeat match goal with |- context [u8 ?z] => lazymatch goal with _ : 0 <= u8 z <= 255 |- _ => fail | _ => pose proof (u8_range z) end end; try tauto.
  - destruct (5 <? u8 s) eqn:E; cbn; [tauto|]. apply Z.ltb_ge in E. repeat split; try tauto; lia.
  - destruct (u8 s mod 2 =? 0) eqn:E; cbn; [tauto|]. apply Z.eqb_neq in E. rewrite Zmod_odd in E. destruct (Z.odd (u8 s)) eqn:O; [|contradiction]. repeat split; try tauto; lia.
  - destruct (1 <? n) eqn:E; cbn; [|tauto]. apply Z.ltb_lt in E. repeat split; try tauto; lia.
Qed.
Theorem C98_range : forall ops, inRange (wDef (wRun wInit ops)) /\ forall v, In v (wObjs (wRun wInit ops)) -> inRange v.
Proof.
  intros ops. assert (forall w, inRange (wDef w) /\ (forall v, In v (wObjs w) -> inRange v) -> inRange (wDef (wRun w ops)) /\ forall v, In v (wObjs (wRun w ops)) -> inRange v) as G.
  { assert (inRange dpFactory) as F by (repeat split; cbn; auto; lia).
    induction ops as [|o ops IH]; intros w [D H]; auto. unfold wRun. cbn [fold_left]. apply IH. destruct o as [|i s|i|]; cbn [wStep wDef wObjs].
    - split; auto. intros v Hv. apply in_app_or in Hv. destruct Hv as [Hv|[<-|[]]]; auto.
    - split; auto. intros v Hv. apply In_nth_error in Hv. destruct Hv as (n & E). rewrite updNth_nth in E. destruct (Nat.eqb i n).
      + destruct (nth_error (wObjs w) n) eqn:X; [|discriminate]. cbn in E. injection E as <-. apply apply_range, H. eapply nth_error_In; eauto.
      + apply H. eapply nth_error_In; eauto.
    - destruct (nth_error (wObjs w) i) eqn:X; auto. cbn [wDef wObjs]. split; auto. apply H. eapply nth_error_In; eauto.
    - split; auto. }
  apply G. split; [repeat split; cbn; auto; lia|]. intros v [].
Qed.
(** What each setter writes, and that it writes nothing else; a rejected value changes nothing. *)
Theorem C98_setters : forall v,
  (forall r g b, dColor (dApply (DColor r g b) v) = mkCol (r mod 256) (g mod 256) (b mod 256)) /\
  (forall s, 0 <= s <= 5 -> dStyle (dApply (DStyle s) v) = s) /\ (forall s, 5 < s <= 255 -> dApply (DStyle s) v = v) /\
  (forall s, 0 <= s <= 255 -> Z.odd s = true -> dPtSize (dApply (DSize s) v) = s /\ dPtDelta (dApply (DSize s) v) = s) /\
  (forall s, Z.even s = true -> dApply (DSize s) v = v) /\
  (forall o, (forall s, o <> DStyle s) -> dStyle (dApply o v) = dStyle v) /\
  (forall o, (forall s, o <> DSize s) -> dPtSize (dApply o v) = dPtSize v /\ dPtDelta (dApply o v) = dPtDelta v) /\
  (forall o, (forall r g b, o <> DColor r g b) -> dColor (dApply o v) = dColor v) /\
  (forall o, (forall t, o <> DThick t) -> dThick (dApply o v) = dThick v) /\
  (forall o, (forall t, o <> DAttr t) -> dAttr (dApply o v) = dAttr v) /\
  (forall o, dLineType (dApply o v) = dLineType v).
Proof.
  intros [c t ps lt pd st en sp si sa fo at_]. unfold dApply, dSet.
  assert (forall s, 0 <= s <= 255 -> u8 s = s) as U by (intros; apply Z.mod_small; lia).
  split; [reflexivity|]. split; [|split; [|split; [|split]]].
  - intros s H. rewrite U by lia. destruct (5 <? s) eqn:E; [apply Z.ltb_lt in E; lia|reflexivity].
  - intros s H. rewrite U by lia. destruct (5 <? s) eqn:E; [reflexivity|apply Z.ltb_ge in E; lia].
  - intros s H O. rewrite U by lia. rewrite Zmod_odd, O. split; reflexivity.
  - intros s E. replace (u8 s mod 2) with 0; [reflexivity|]. unfold u8. rewrite Zmod_odd. replace (Z.odd (s mod 256)) with (Z.odd s); [now rewrite <- Z.negb_even, E|].
    rewrite (Z.div_mod s 256) at 1 by lia. rewrite Z.odd_add. replace (Z.odd (256 * (s / 256))) with false; [now destruct (Z.odd (s mod 256))|]. rewrite Z.odd_mul. reflexivity.
  - split; [|split; [|split; [|split; [|split]]]].
    all: intros o; try intros H; destruct o as [s|s|tt|r g b| |b|n|b|b|s]; try (exfalso; eapply H; reflexivity); try (split; reflexivity); try reflexivity.
    all: try (destruct (5 <? u8 s); (split; reflexivity) || reflexivity); try (destruct (u8 s mod 2 =? 0); (split; reflexivity) || reflexivity); try (destruct (1 <? n); (split; reflexivity) || reflexivity).
Qed.
Example C98_ex : let ops := [ONew; OSet 0 (DSize 7); OSetDef 0; OSet 0 (DSize 9); OSet 0 (DSize 8); ONew] in
  map dPtSize (wObjs (wRun wInit ops)) = [9; 7] /\ noDefault [OSet 0 (DSize 9); ONew].
Proof. split; [reflexivity|]. intros o [<-|[<-|[]]]; exact I. Qed.
Print Assumptions C98_default. Print Assumptions C98_objects. Print Assumptions C98_range. Print Assumptions C98_setters.

(** ** C99 *)
(** The styles follow each other in a cycle through the six of them. *)
Theorem C99_next_style : forall v, 0 <= dStyle v <= 5 ->
  0 <= nextStyle v <= 5 /\ nextStyle v = (dStyle v + 1) mod 6 /\ dApply (DStyle (nextStyle v)) v <> v.
Proof.
  intros v H. assert (nextStyle v = (dStyle v + 1) mod 6) as E.
  { unfold nextStyle, u8. destruct (dStyle v =? 5) eqn:E; [apply Z.eqb_eq in E; rewrite E; reflexivity|]. apply Z.eqb_neq in E. rewrite !Z.mod_small by lia. reflexivity. }
  pose proof (Z.mod_pos_bound (dStyle v + 1) 6 ltac:(lia)) as B. split; [lia|]. split; auto.
  intros X. apply (f_equal dStyle) in X. destruct (C98_setters v) as (_ & S & _). rewrite S in X by lia.
  destruct (Z.eq_dec (dStyle v) 5) as [Y|Y]; [rewrite Y in *; cbn in E; lia|]. rewrite Z.mod_small in E by lia. lia.
Qed.
(** holdsFill() is the presence of fill= anywhere in the attribute string. *)
Lemma prefix_spec a s : strPrefix a s = true <-> exists t, s = append a t.
Proof.
  revert s. induction a as [|x a IH]; intros s.
  - split; [intros _; exists s; reflexivity|reflexivity].
  - destruct s as [|y s].
    + split; [intros H; discriminate H|intros (t & E); discriminate E].
    + cbn [strPrefix]. rewrite andb_true_iff, IH, Ascii.eqb_eq. split.
      * intros (-> & t & ->). exists t. reflexivity.
      * intros (t & E). cbn in E. injection E as -> ->. split; auto. exists t. reflexivity.
Qed.
Lemma find_spec a s : strFind a s = true <-> exists u t, s = append u (append a t).
Proof.
  induction s as [|y s IH]; cbn [strFind]; rewrite orb_true_iff, prefix_spec.
  - split; [intros [(t & E)|E]; [exists EmptyString, t; exact E|discriminate]|]. intros (u & t & E). destruct u; [left; exists t; exact E|discriminate].
  - rewrite IH. split.
    + intros [(t & E)|(u & t & ->)]; [exists EmptyString, t; exact E|]. exists (String y u), t. reflexivity.
    + intros (u & t & E). destruct u as [|z u]; [left; exists t; exact E|]. cbn in E. injection E as -> ->. right. exists u, t. reflexivity.
Qed.
Theorem C99_holds_fill : forall v, holdsFill v = true <-> exists u t, dAttr v = append u (append "fill=" t).
Proof.
  intros v. unfold holdsFill. destruct (dAttr v) as [|c s] eqn:E; [|apply find_spec].
  split; [discriminate|]. intros (u & t & X). exfalso. destruct u; cbn in X; discriminate X.
Qed.
Theorem C99_attr_string : forall v, (attrString v = EmptyString <-> dAttr v = EmptyString) /\ (dAttr v <> EmptyString -> attrString v = append (dAttr v) " ").
Proof. intros v. unfold attrString. destruct (dAttr v); split; try tauto; try (split; discriminate); reflexivity. Qed.
Example C99_ex : holdsFill (dApply (DAttr "stroke=red fill=none") dpFactory) = true /\ holdsFill (dApply (DAttr "fill none") dpFactory) = false /\ nextStyle dpFactory = 1.
Proof. repeat split. Qed.
Print Assumptions C99_next_style. Print Assumptions C99_holds_fill. Print Assumptions C99_attr_string.
