(** * Polylines: segments, comparison, convexity *)

From Coq Require Import Reals Lra Lia List Bool Arith Permutation.
From Verif Require Import Num M_LP M_Seg M_Poly S_Geom S_Seg S_Poly P_LP P_LP2 P_LP4 P_Seg P_Poly.
Import ListNotations.
Local Open Scope R_scope.

(** ** Segments *)
Lemma mapM_map {A B C} (f : B -> res C) (g : A -> B) l : mapM f (map g l) = mapM (fun x => f (g x)) l.
Proof. induction l as [|x l IH]; [reflexivity|]. cbn. now rewrite IH. Qed.
Lemma mapM_ext {A B} (f g : A -> res B) l : (forall x, In x l -> f x = g x) -> mapM f l = mapM g l.
Proof. induction l as [|x l IH]; intros H; [reflexivity|]. cbn. rewrite H by (now left). destruct (g x); cbn; auto. rewrite IH; auto. intros; apply H; now right. Qed.
Lemma mapM_app {A B} (f : A -> res B) l m :
  mapM f (l ++ m) = bind (mapM f l) (fun a => bind (mapM f m) (fun b => Ok (a ++ b))).
Proof.
  induction l as [|x l IH]; cbn; [now destruct (mapM f m)|]. destruct (f x); cbn; auto. rewrite IH.
  destruct (mapM f l); cbn; auto. destruct (mapM f m); cbn; auto.
Qed.
Lemma mapM_ok {A B} (f : A -> res B) (g : A -> B) l : (forall x, In x l -> f x = Ok (g x)) -> mapM f l = Ok (map g l).
Proof. induction l as [|x l IH]; intros H; [reflexivity|]. cbn. rewrite H by (now left). cbn. rewrite IH; [reflexivity|]. intros; apply H; now right. Qed.
Lemma mapM_throw {A B} (f : A -> res B) l x : In x l -> f x = Throw -> (forall y, In y l -> f y <> Undef) -> mapM f l = Throw.
Proof.
  induction l as [|y l IH]; intros H E U; [contradiction|]. cbn. destruct H as [->|H]; [now rewrite E|].
  assert (Y := U y (or_introl eq_refl)). destruct (f y); cbn; try congruence.
  rewrite IH; auto. intros; apply U; now right.
Qed.

Lemma chain_length {A} (l : list A) : length (chain l) = (length l - 1)%nat.
Proof. destruct l as [|a l]; [reflexivity|]. unfold chain. rewrite combine_length. cbn [tl length]. lia. Qed.
Lemma nth_tl {A} (l : list A) d i : nth i (tl l) d = nth (S i) l d.
Proof. destruct l; [destruct i|]; reflexivity. Qed.
Lemma combine_firstn_l' {A B} (l : list A) (m : list B) : combine l m = combine (firstn (length m) l) m.
Proof. revert m. induction l as [|a l IH]; intros [|b m]; cbn; auto. now rewrite <- IH. Qed.
Lemma nth_chain {A} (l : list A) d i : (i < length l - 1)%nat -> nth i (chain l) (d, d) = (nth i l d, nth (S i) l d).
Proof.
  unfold chain. revert i. induction l as [|a l IH]; intros i H; [cbn in H; lia|].
  destruct l as [|b l]; [cbn in H; lia|]. cbn [tl combine]. destruct i as [|i]; [reflexivity|].
  cbn [nth]. cbn [tl] in IH. rewrite IH by (cbn [length] in *; lia). reflexivity.
Qed.
Lemma chain_index {A} (l : list A) d :
  map (fun i => (nth i l d, nth (i + 1) l d)) (seq 0 (length l - 1)) = chain l.
Proof.
  apply nth_ext with (d := (d, d)) (d' := (d, d)); [now rewrite map_length, seq_length, chain_length|].
  rewrite map_length, seq_length. intros i H.
  rewrite (nth_indep _ _ ((fun i => (nth i l d, nth (i + 1) l d)) 0%nat)) by (now rewrite map_length, seq_length).
  rewrite (map_nth (fun i => (nth i l d, nth (i + 1) l d))), seq_nth by auto. cbn [Nat.add]. rewrite nth_chain by auto.
  now replace (i + 1)%nat with (S i) by lia.
Qed.
Lemma cyc_chain {A} (l : list A) d : l <> [] -> cyc l = chain l ++ [(last l d, hd d l)].
Proof.
  destruct l as [|a r]; [congruence|]. intros _. rewrite cyc_cons. cbn [hd]. unfold chain. cbn [tl].
  rewrite (combine_firstn_l' (a :: r) r).
  assert (firstn (length r) (a :: r) = removelast (a :: r)) as -> by (rewrite removelast_firstn_len; reflexivity).
  assert (a :: r = removelast (a :: r) ++ [last (a :: r) d]) as E by (apply app_removelast_last; discriminate).
  rewrite E at 1. rewrite combine_app'; [reflexivity|]. rewrite removelast_firstn_len, firstn_length. cbn [length]. lia.
Qed.
Lemma plPoint_ok pts i : (i < length pts)%nat -> plPoint pts i = Ok (nth i pts pt00).
Proof. intros H. unfold plPoint. destruct (Nat.leb_spec (length pts) i); [lia|reflexivity]. Qed.
Lemma last_nth' {A} (l : list A) d : last l d = nth (length l - 1) l d.
Proof.
  induction l as [|a l IH]; [reflexivity|]. destruct l as [|b l]; [reflexivity|].
  change (last (a :: b :: l) d) with (last (b :: l) d). rewrite IH. cbn [length]. replace (S (S (length l)) - 1)%nat with (S (S (length l) - 1)) by lia. reflexivity.
Qed.
Lemma plSegs_eq th closed k pts : (2 <= length pts)%nat ->
  plSegs th closed k pts = mapM (fun e => svNew th k (fst e) (snd e)) (sides closed pts).
Proof.
  intros L. unfold plSegs. destruct (Nat.ltb_spec (length pts) 2); [lia|].
  assert (mapM (fun i => bind (plPoint pts i) (fun p1 => bind (plPoint pts (i + 1)) (fun p2 => svNew th k p1 p2))) (seq 0 (length pts - 1))
          = mapM (fun e => svNew th k (fst e) (snd e)) (chain pts)) as ->.
  { rewrite <- (chain_index pts pt00), mapM_map. apply mapM_ext. intros i Hi. apply in_seq in Hi.
    rewrite !plPoint_ok by lia. reflexivity. }
  unfold sides. destruct closed.
  - rewrite (cyc_chain pts pt00) by (destruct pts; [cbn in L; lia|discriminate]).
    rewrite mapM_app. rewrite !plPoint_ok by lia. cbn [bind mapM fst snd].
    destruct (mapM _ (chain pts)); cbn [bind]; auto. rewrite last_nth'.
    replace (hd pt00 pts) with (nth 0 pts pt00) by (destruct pts; reflexivity).
    destruct (svNew th k _ _); reflexivity.
  - destruct (mapM _ (chain pts)); reflexivity.
Qed.
Lemma plSegs_small th closed k pts : (length pts < 2)%nat -> plSegs th closed k pts = Ok [].
Proof. intros L. unfold plSegs. destruct (Nat.ltb_spec (length pts) 2); [reflexivity|lia]. Qed.
Lemma sides_length closed (pts : list (pt R)) : (2 <= length pts)%nat -> length (sides closed pts) = plNbSegs closed pts.
Proof.
  intros L. unfold plNbSegs, sides. destruct (Nat.ltb_spec (length pts) 2); [lia|].
  destruct closed; [apply cyc_length|apply chain_length].
Qed.
Lemma svNew_ok_any th k p q : nullDistance th <= edist p q ->
  svNew th k p q = Ok (match k with KSeg => segOrder (mkSeg p q) | KOSeg => mkSeg p q end).
Proof. intros H. unfold svNew. now rewrite (proj2 (ptEq_false th p q) H). Qed.
Lemma svNew_undef th k p q : svNew th k p q <> Undef.
Proof. unfold svNew. destruct (ptEq th p q); discriminate. Qed.
Lemma plSegs_ok th closed k pts : (2 <= length pts)%nat ->
  (forall e, In e (sides closed pts) -> nullDistance th <= edist (fst e) (snd e)) ->
  plSegs th closed k pts = Ok (map (fun e => match k with KSeg => segOrder (mkSeg (fst e) (snd e)) | KOSeg => mkSeg (fst e) (snd e) end) (sides closed pts)).
Proof. intros L H. rewrite plSegs_eq by auto. apply mapM_ok. intros e He. apply svNew_ok_any. auto. Qed.
Lemma plSegs_throw th closed k pts e : (2 <= length pts)%nat -> In e (sides closed pts) -> edist (fst e) (snd e) < nullDistance th ->
  plSegs th closed k pts = Throw.
Proof.
  intros L H D. rewrite plSegs_eq by auto. apply (mapM_throw _ _ e); auto using svNew_undef.
  unfold svNew. now rewrite (proj2 (ptEq_spec th _ _) D).
Qed.
Lemma sides_index closed (pts : list (pt R)) i : (i < plNbSegs closed pts)%nat ->
  nth i (sides closed pts) (pt00, pt00) =
  (nth i pts pt00, nth (if closed then (if (i + 1 =? plNbSegs closed pts)%nat then 0 else i + 1)%nat else (i + 1)%nat) pts pt00).
Proof.
  unfold plNbSegs. destruct (Nat.ltb_spec (length pts) 2); [lia|]. unfold sides. destruct closed; intros H0.
  - rewrite nth_cyc by auto. unfold nextIdx.
    destruct (Nat.eqb_spec i (length pts - 1)), (Nat.eqb_spec (i + 1) (length pts)); try lia; reflexivity.
  - rewrite nth_chain by auto. now replace (i + 1)%nat with (S i) by lia.
Qed.
Lemma plSegment_eq th closed k pts i : (i < plNbSegs closed pts)%nat ->
  plSegment th closed k pts i = let e := nth i (sides closed pts) (pt00, pt00) in svNew th k (fst e) (snd e).
Proof.
  intros H. rewrite sides_index by auto. unfold plSegment.
  destruct (Nat.leb_spec (plNbSegs closed pts) i); [lia|].
  assert (2 <= length pts)%nat. { unfold plNbSegs in H. destruct (Nat.ltb_spec (length pts) 2); lia. }
  destruct (Nat.ltb_spec (length pts) 2); [lia|]. reflexivity.
Qed.
Lemma svLength_order s : svLength (segOrder s) = edist (sA s) (sB s).
Proof.
  unfold segOrder, fixOrder. destruct (negb (ptLt (sA s) (sB s))); unfold svLength; rewrite distPP_edist; cbn [sA sB]; auto.
  apply edist_sym.
Qed.
Lemma lengthCalc_ok th closed pts : (forall e, In e (sides closed pts) -> nullDistance th <= edist (fst e) (snd e)) ->
  (2 <= length pts)%nat ->
  lengthCalc th closed pts = Ok (sumOver (fun e => edist (fst e) (snd e)) (sides closed pts)).
Proof.
  intros H L. unfold lengthCalc. rewrite plSegs_ok by auto. cbn [bind]. rnum. f_equal.
  rewrite (fold_sumOver svLength), sumOver_map. rewrite Rplus_0_l. apply sumOver_ext. intros e _. now rewrite svLength_order.
Qed.

(** ** First smallest element *)
Section MinElem.
  Context {A : Type} (lt : A -> A -> bool) (d : A).
  Hypothesis irr : forall a, lt a a = false.
  Hypothesis tr : forall a b c, lt a b = true -> lt b c = true -> lt a c = true.
  Hypothesis tr2 : forall a b c, lt a b = true -> lt c b = false -> lt a c = true.
  Hypothesis ntr : forall a b c, lt a b = false -> lt b c = false -> lt a c = false.
  Lemma minElemFrom_spec l : forall pre bi,
    (bi < length pre)%nat ->
    (forall j, (j < length pre)%nat -> lt (nth j pre d) (nth bi pre d) = false) ->
    (forall j, (j < bi)%nat -> lt (nth bi pre d) (nth j pre d) = true) ->
    let i := minElemFrom lt (nth bi pre d) bi (length pre) l in
    (i < length (pre ++ l))%nat /\
    (forall j, (j < length (pre ++ l))%nat -> lt (nth j (pre ++ l) d) (nth i (pre ++ l) d) = false) /\
    (forall j, (j < i)%nat -> lt (nth i (pre ++ l) d) (nth j (pre ++ l) d) = true).
  Proof.
    induction l as [|x l IH]; intros pre bi B M F.
    - cbn [minElemFrom]. rewrite app_nil_r. auto.
    - cbn [minElemFrom]. assert (pre ++ x :: l = (pre ++ [x]) ++ l) as E by (now rewrite <- app_assoc).
      assert (length (pre ++ [x]) = S (length pre)) as EL by (rewrite app_length; cbn; lia).
      assert (forall j, (j < length pre)%nat -> nth j (pre ++ [x]) d = nth j pre d) as E1 by (intros; now rewrite app_nth1).
      assert (nth (length pre) (pre ++ [x]) d = x) as E2 by (rewrite app_nth2 by lia; now rewrite Nat.sub_diag).
      rewrite E. destruct (lt x (nth bi pre d)) eqn:C.
      + specialize (IH (pre ++ [x]) (length pre)). rewrite E2, EL in IH. apply IH; [lia| |].
        * intros j Hj. destruct (Nat.eq_dec j (length pre)) as [->|]; [rewrite E2; apply irr|].
          rewrite E1 by lia. apply ntr with (nth bi pre d); [apply M; lia|].
          destruct (lt (nth bi pre d) x) eqn:X; auto. assert (lt x x = true) as Y by (eapply tr; eauto). rewrite irr in Y; discriminate.
        * intros j Hj. rewrite E1 by lia. apply tr2 with (nth bi pre d); [auto|]. apply M; lia.
      + specialize (IH (pre ++ [x]) bi). rewrite EL, (E1 bi B) in IH. apply IH; [lia| |].
        * intros j Hj. destruct (Nat.eq_dec j (length pre)) as [->|]; [rewrite E2; auto|]. rewrite E1 by lia. apply M; lia.
        * intros j Hj. rewrite E1 by lia. apply F; auto.
  Qed.
  Lemma minElem_spec l : l <> [] ->
    let i := minElem lt l in
    (i < length l)%nat /\
    (forall j, (j < length l)%nat -> lt (nth j l d) (nth i l d) = false) /\
    (forall j, (j < i)%nat -> lt (nth i l d) (nth j l d) = true).
  Proof.
    destruct l as [|x l]; [congruence|]. intros _. unfold minElem.
    apply (minElemFrom_spec l [x] 0%nat); cbn [length nth]; [lia| |intros; lia].
    intros j Hj. replace j with 0%nat by lia. apply irr.
  Qed.
End MinElem.

Lemma ptLt_irr p : ptLt p p = false. Proof. apply ptLt_false, lexlt_irrefl. Qed.
Lemma ptLt_tr p q r : ptLt p q = true -> ptLt q r = true -> ptLt p r = true.
Proof. rewrite !ptLt_spec. apply lexlt_trans. Qed.
Lemma ptLt_tr2 p q r : ptLt p q = true -> ptLt r q = false -> ptLt p r = true.
Proof. rewrite !ptLt_spec, ptLt_false. unfold lexlt. intros. lra. Qed.
Lemma ptLt_ntr p q r : ptLt p q = false -> ptLt q r = false -> ptLt p r = false.
Proof. rewrite !ptLt_false. unfold lexlt. intros. lra. Qed.

(** ** Normal form *)
Lemma canon (u v : list (pt R)) m : (forall x, In x (u ++ v) -> lexlt m x) ->
  rotateL (minElem ptLt (u ++ m :: v)) (u ++ m :: v) = m :: v ++ u.
Proof.
  intros H. assert (u ++ m :: v <> []) as N by (destruct u; discriminate).
  destruct (minElem_spec ptLt pt00 ptLt_irr ptLt_tr ptLt_tr2 ptLt_ntr _ N) as (B & M & _).
  set (i := minElem ptLt (u ++ m :: v)) in *.
  assert (i = length u) as ->.
  { destruct (Nat.eq_dec i (length u)) as [|D]; auto. exfalso.
    assert (In (nth i (u ++ m :: v) pt00) (u ++ v)) as I.
    { rewrite app_length in B; cbn [length] in B. destruct (Nat.lt_ge_cases i (length u)).
      - rewrite app_nth1 by auto. apply in_or_app. left. now apply nth_In.
      - rewrite app_nth2 by lia. replace (i - length u)%nat with (S (i - length u - 1)) by lia. cbn [nth].
        apply in_or_app. right. apply nth_In. lia. }
    apply H in I. assert (length u < length (u ++ m :: v))%nat as LU by (rewrite app_length; cbn; lia).
    specialize (M _ LU). rewrite app_nth2, Nat.sub_diag in M by lia. cbn [nth] in M.
    apply ptLt_false in M. auto. }
  unfold rotateL. rewrite skipn_app, skipn_all, Nat.sub_diag, firstn_app, firstn_all, Nat.sub_diag. cbn. now rewrite app_nil_r.
Qed.
Lemma last_cons_app {A} (w : list A) m d : w <> [] -> last (m :: w) d = last w d.
Proof. destruct w; [congruence|reflexivity]. Qed.
Lemma last_rev {A} (w : list A) d : last (rev w) d = hd d w.
Proof. destruct w as [|a w]; [reflexivity|]. cbn [rev hd]. apply last_last. Qed.
Lemma hd_rev {A} (w : list A) d : hd d (rev w) = last w d.
Proof. rewrite <- (rev_involutive w) at 2. now rewrite last_rev. Qed.
Lemma normPts_canon u v m : (forall x, In x (u ++ v) -> lexlt m x) -> v ++ u <> [] ->
  normPts true (u ++ m :: v) =
  Ok (if Rltb (cross3 (hd pt00 (v ++ u)) m (last (v ++ u) pt00)) 0 then m :: rev (v ++ u) else m :: v ++ u).
Proof.
  intros H N. unfold normPts. rewrite canon by auto.
  assert (forall x, In x (v ++ u) -> lexlt m x) as H' by (intros x Hx; apply H; apply in_app_or in Hx; apply in_or_app; tauto).
  destruct (v ++ u) as [|a w] eqn:E; [congruence|]. rewrite last_cons_app by discriminate.
  rnum. cbn [hd]. unfold cross3.
  match goal with |- (if Rltb ?x 0 then _ else _) = Ok (if Rltb ?y 0 then _ else _) => replace x with y by ring end.
  destruct (Rltb _ 0); [|reflexivity]. f_equal.
  change (rev (m :: a :: w)) with (rev (a :: w) ++ m :: []).
  rewrite canon; [reflexivity|]. intros x Hx. rewrite app_nil_r in Hx. apply in_rev in Hx. auto.
Qed.

Lemma shifted_at {A} (u v : list A) m l : shifted (u ++ m :: v) l -> exists u' v', l = u' ++ m :: v' /\ v' ++ u' = v ++ u.
Proof.
  intros (x & y & E & ->). revert x y E. induction u as [|a u IH] using rev_ind; intros x y E.
  - destruct x as [|b x].
    + cbn in E. exists [], v. subst y. now rewrite app_nil_r.
    + injection E as <- ->. exists y, x. split; auto. now rewrite app_nil_r.
  - assert (x = [] \/ exists x0 b, x = x0 ++ [b]) as [->|(x0 & b & ->)] by (destruct x using rev_ind; eauto).
    + cbn in E. subst y. exists (u ++ [a]), v. rewrite app_nil_r. auto.
    + (* compare positions *)
      destruct (Nat.lt_ge_cases (length (u ++ [a])) (length (x0 ++ [b]))) as [L|L].
      * assert (exists v1, x0 ++ [b] = (u ++ [a]) ++ m :: v1 /\ v = v1 ++ y) as (v1 & E1 & E2).
        { clear IH. remember (u ++ [a]) as U. remember (x0 ++ [b]) as X. clear - E L. revert X E L.
          induction U as [|c U IH]; intros X E L.
          - destruct X as [|z X]; [cbn in L; lia|]. injection E as <- ->. exists X. auto.
          - destruct X as [|z X]; [cbn in L; lia|]. injection E as <- E. destruct (IH X E) as (v1 & -> & ->); [cbn in L; lia|].
            exists v1. auto. }
        rewrite E1, E2. exists (y ++ u ++ [a]), v1. split; [now rewrite <- !app_assoc|]. now rewrite <- !app_assoc.
      * assert (exists u2, u ++ [a] = (x0 ++ [b]) ++ u2 /\ y = u2 ++ m :: v) as (u2 & E1 & E2).
        { clear IH. remember (u ++ [a]) as U. remember (x0 ++ [b]) as X. clear - E L. revert U E L.
          induction X as [|z X IH]; intros U E L.
          - exists U. auto.
          - destruct U as [|c U]; [cbn in L; lia|]. injection E as <- E. destruct (IH U E) as (u2 & -> & ->); [cbn in L; lia|].
            exists u2. auto. }
        rewrite E2, E1. exists u2, (v ++ x0 ++ [b]). split; [now rewrite <- !app_assoc|]. now rewrite <- !app_assoc.
Qed.
