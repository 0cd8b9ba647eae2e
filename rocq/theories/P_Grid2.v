(** * Rectangles on a grid: a run over the reals is a run over indexes *)

From Coq Require Import Reals Lra Lia List Bool Arith ZArith.
From Verif Require Import Num M_LP M_Seg M_Circle M_Poly M_FRect S_Geom S_Seg S_FRect P_LP P_LP2 P_LP3 P_LP5 P_Seg P_Circle P_Grid.
Import ListNotations.
Local Open Scope R_scope.

Definition irect := (ipt * ipt)%type.
Definition iProper (r : irect) : bool := (fst (fst r) <? fst (snd r))%nat && (snd (fst r) <? snd (snd r))%nat.

Definition i4Pts (r : irect) : list ipt :=
  [fst r; (fst (fst r), snd (snd r)); snd r; (fst (snd r), snd (fst r))].
Definition iSegs (r : irect) : list iseg :=
  let '((a, b), (c, d)) := r in
  [((a, b), (a, d)); ((a, d), (c, d)); ((c, b), (c, d)); ((a, b), (c, b))].
Definition iPtIn (p : ipt) (r : irect) : bool :=
  ((fst (fst r) <? fst p)%nat && (fst p <? fst (snd r))%nat) && ((snd (fst r) <? snd p)%nat && (snd p <? snd (snd r))%nat).
Definition iRectIn (r o : irect) : bool := forallb (fun p => iPtIn p o) (i4Pts r).
Definition iPtsIn (r o : irect) : list ipt := filter (fun p => iPtIn p o) (i4Pts r).
Definition iRectEq (r o : irect) : bool := iEq (fst r) (fst o) && iEq (snd r) (snd o).

Fixpoint iInterSegLoop (segs : list iseg) (s : iseg) (out : list ipt) : list ipt :=
  match segs with
  | [] => out
  | rs :: rest =>
      match iInter rs s with
      | None => iInterSegLoop rest s out
      | Some p =>
          let out' := match out with [a] => if iEq a p then out else out ++ [p] | _ => out ++ [p] end in
          if (length out' =? 2)%nat then out' else iInterSegLoop rest s out'
      end
  end.
Definition iInterSeg (r : irect) (s : iseg) : list ipt := iInterSegLoop (iSegs r) s [].
Fixpoint iSetInsert (p : ipt) (l : list ipt) : list ipt :=
  match l with
  | [] => [p]
  | q :: rest => if iLt p q then p :: l else if iLt q p then q :: iSetInsert p rest else l
  end.
Fixpoint iInterLoop (segs : list iseg) (o : irect) (acc : list ipt) : list ipt :=
  match segs with
  | [] => acc
  | rs :: rest => iInterLoop rest o (fold_left (fun a p => iSetInsert p a) (firstn 2 (iInterSeg o rs)) acc)
  end.
Definition iInterRect (r o : irect) : list ipt := if iRectEq r o then [] else iInterLoop (iSegs r) o [].

Definition iShare (p q : ipt) : bool := (fst p =? fst q)%nat || (snd p =? snd q)%nat.
Definition iSet (p q : ipt) : res irect :=
  if iShare p q then Throw
  else Ok ((Nat.min (fst p) (fst q), Nat.min (snd p) (snd q)), (Nat.max (fst p) (fst q), Nat.max (snd p) (snd q))).
Definition iOf4 (a b c d : ipt) : irect :=
  let mn (f : ipt -> nat) := Nat.min (Nat.min (Nat.min (f a) (f b)) (f c)) (f d) in
  let mx (f : ipt -> nat) := Nat.max (Nat.max (Nat.max (f a) (f b)) (f c)) (f d) in
  ((mn fst, mn snd), (mx fst, mx snd)).

Definition iIntersect (r o : irect) : res (option irect) :=
  if iRectEq r o then Ok (Some o)
  else
    match iInterRect r o with
    | [] => if iRectIn r o then Ok (Some r) else if iRectIn o r then Ok (Some o) else Ok None
    | [_] => Ok None
    | [a; _; _; d] => do x <- iSet a d; Ok (Some x)
    | [a; b; c] =>
        let xmin := Nat.min (fst a) (Nat.min (fst b) (fst c)) in
        let ymin := Nat.min (snd a) (Nat.min (snd b) (snd c)) in
        let xmax := Nat.max (fst a) (Nat.max (fst b) (fst c)) in
        let ymax := Nat.max (snd a) (Nat.max (snd b) (snd c)) in
        if negb (xmin <? xmax)%nat then Undef
        else if negb (ymin <? ymax)%nat then Undef
        else do x <- iSet (xmin, ymin) (xmax, ymax); Ok (Some x)
    | [a; b] =>
        match iPtsIn r o, iPtsIn o r with
        | [], [] => Ok None
        | [_], [_] => do x <- iSet a b; Ok (Some x)
        | [c; d], [] => Ok (Some (iOf4 a b c d))
        | [], [c; d] => Ok (Some (iOf4 a b c d))
        | _, _ => Undef
        end
    | _ => Undef
    end.

Definition resMap {A B} (f : A -> B) (x : res A) : res B := do a <- x; Ok (f a).
Lemma resMap_bind {A B C} (x : res A) (f : A -> res B) (g : B -> C) :
  resMap g (bind x f) = (do a <- x; resMap g (f a)).
Proof. destruct x; reflexivity. Qed.

(** Union: the two index tables are lists of (index, rectangle number). *)
Definition iIdxLt (a b : nat * nat) : bool :=
  if (fst a =? fst b)%nat then (snd a <? snd b)%nat else (fst a <? fst b)%nat.
Fixpoint iIdxInsert (x : nat * nat) (l : list (nat * nat)) : list (nat * nat) :=
  match l with [] => [x] | y :: rest => if iIdxLt x y then x :: l else y :: iIdxInsert x rest end.
Definition iIdxSort (l : list (nat * nat)) : list (nat * nat) := fold_right iIdxInsert [] l.
Definition iCorner (vx vy : list (nat * nat)) (row col : nat) : bool :=
  (snd (nth row vx (0, 0)) =? snd (nth col vy (0, 0)))%nat.
Definition iCoordStep (vx vy : list (nat * nat)) (acc : list ipt) (e : nat * nat) : list ipt :=
  let p := (fst (nth (fst e) vx (0, 0)%nat), fst (nth (snd e) vy (0, 0)%nat)) in
  match acc with
  | [] => [p]
  | q :: _ => if negb (iEq (last acc (0, 0)%nat) p) && negb (iEq q p) then acc ++ [p] else acc
  end.
Fixpoint iNoConsecEq (pts : list ipt) : bool :=
  match pts with
  | p :: (q :: _) as r => negb (iEq p q) && iNoConsecEq r
  | _ => true
  end.
Definition iCheck (pts : list ipt) : bool :=
  iNoConsecEq pts && negb (iEq (hd (0, 0)%nat pts) (last pts (0, 0)%nat)).
Definition iPlSet (pts : list ipt) : res (list ipt) :=
  if (length pts =? 1)%nat then Throw
  else if (1 <? length pts)%nat && negb (iCheck pts) then Throw
  else Ok pts.

(** Direction of an axis-parallel step ([None] if it is not one). *)
Definition iDir (a b : ipt) : option nat :=
  if (fst a =? fst b)%nat then
    if (snd a <? snd b)%nat then Some 0%nat else if (snd b <? snd a)%nat then Some 2%nat else None
  else if (snd a =? snd b)%nat then
    if (fst a <? fst b)%nat then Some 1%nat else Some 3%nat
  else None.
Definition sameDir (a b : option nat) : bool :=
  match a, b with Some x, Some y => (x =? y)%nat | _, _ => false end.
Definition iIsMiddle (pts : list ipt) (i : nat) : bool :=
  let n := length pts in
  let p0 := nth i pts (0, 0)%nat in
  sameDir (iDir p0 (nth (nextIdx n i) pts (0, 0)%nat)) (iDir (nth (prevIdx n i) pts (0, 0)%nat) p0).
Definition iAxisPoly (pts : list ipt) : bool :=
  forallb (fun i => match iDir (nth i pts (0, 0)%nat) (nth (nextIdx (length pts) i) pts (0, 0)%nat) with
                    | Some _ => true | None => false end) (seq 0 (length pts)).
Fixpoint iKeepFrom (i : nat) (rm : list nat) (pts : list ipt) : list ipt :=
  match pts with
  | [] => []
  | p :: r =>
      match rm with
      | j :: rm' => if (j =? i)%nat then iKeepFrom (S i) rm' r else p :: iKeepFrom (S i) rm r
      | [] => p :: iKeepFrom (S i) [] r
      end
  end.
Definition iKeep (rm : list nat) (pts : list ipt) : list ipt := iKeepFrom 0 rm pts.
Definition iAddPoint (pl : list ipt) (p : ipt) : res (list ipt) :=
  match pl with
  | [] => Ok [p]
  | _ => if iEq p (last pl (0, 0)%nat) then Throw else Ok (pl ++ [p])
  end.
Fixpoint iAddAll (pl pts : list ipt) : res (list ipt) :=
  match pts with [] => Ok pl | p :: r => do pl' <- iAddPoint pl p; iAddAll pl' r end.
Definition iMinimize (pts : list ipt) : res (list ipt) :=
  let n := length pts in
  if (n <? 3)%nat then Ok pts
  else
    let rm := filter (iIsMiddle pts) (seq 0 n) in
    match rm with [] => Ok pts | _ => iAddAll [] (iKeep rm pts) end.

(** [None]: not covered by the simulation. *)
Definition iUnion (r o : irect) : option (res (list ipt)) :=
  if iRectEq r o then Some (Ok (i4Pts o))
  else
    match iInterRect r o with
    | [] => Some (if iRectIn r o then Ok (i4Pts o) else if iRectIn o r then Ok (i4Pts r) else Ok [])
    | _ =>
        let (ra, rb) := if (fst (fst r) <? fst (fst o))%nat then (o, r) else (r, o) in
        let vx := iIdxSort [(fst (fst ra), 1); (fst (snd ra), 1); (fst (fst rb), 2); (fst (snd rb), 2)]%nat in
        let vy := iIdxSort [(snd (fst ra), 1); (snd (snd ra), 1); (snd (fst rb), 2); (snd (snd rb), 2)]%nat in
        match parseTable (iCorner vx vy) 64 0 0 DE true [] with
        | Ok vpts =>
            match iPlSet (fold_left (iCoordStep vx vy) vpts []) with
            | Ok pts => if iAxisPoly pts then Some (iMinimize pts) else None
            | Throw => Some Throw
            | Undef => None
            end
        | Throw => Some Throw
        | Undef => Some Undef
        end
    end.

(** isSimple on indexes ([None]: not covered). *)
Definition iPlSegment (pts : list ipt) (idx : nat) : res iseg :=
  if (length pts <=? idx)%nat then Throw
  else
    let nx := (if (idx + 1 =? length pts)%nat then 0 else idx + 1)%nat in
    iNew (nth idx pts (0, 0)%nat) (nth nx pts (0, 0)%nat).
Definition iSimple (pts : list ipt) : res bool :=
  let nbs := length pts in
  do has <- anyM (fun i =>
              do seg1 <- iPlSegment pts i;
              let lastone := if (i =? 0)%nat then (nbs - 1)%nat else nbs in
              anyM (fun j => do s2 <- iPlSegment pts j;
                             if iAxis s2 && iAxis seg1
                             then Ok (match iInter s2 seg1 with Some _ => true | None => false end)
                             else Undef)
                   (seq (i + 2) (lastone - (i + 2))))
            (seq 0 nbs);
  Ok (negb has).

Section Grid.
  Variables (th : thrs R) (X Y : nat -> R).
  Hypothesis Hth : thr_rect th.
  Hypothesis HX : gaps (nullDistance th) X.
  Hypothesis HY : gaps (nullDistance th) Y.
  Notation d := (nullDistance th).
  Notation emb := (emb X Y).
  Notation embS := (embS X Y).
  Local Lemma dp : 0 < d. Proof. exact (dpos th Hth). Qed.
  Local Hint Resolve dp : core.

  Definition embR (r : irect) : frect R := mkR (emb (fst r)) (emb (snd r)).

  Lemma emb_4pts r : fr4Pts (embR r) = map emb (i4Pts r).
  Proof. destruct r as [[a b] [c e]]. reflexivity. Qed.

  Lemma iNew_lt a b : iLt a b = true -> iNew a b = Ok (a, b).
  Proof.
    intros H. unfold iNew. rewrite H. destruct (iEq a b) eqn:E; auto. apply iEq_spec in E. subst.
    unfold iLt in H. rewrite !Nat.ltb_irrefl, andb_false_r in H. discriminate.
  Qed.
  Lemma iNew_gt a b : iLt b a = true -> iNew a b = Ok (b, a).
  Proof.
    intros H. unfold iNew. destruct (iEq a b) eqn:E.
    - apply iEq_spec in E. subst. unfold iLt in H. rewrite !Nat.ltb_irrefl, andb_false_r in H. discriminate.
    - destruct (iLt a b) eqn:F; auto. exfalso. revert H F. unfold iLt. destruct a as [i j], b as [k l]; cbn [fst snd].
      destruct (Nat.ltb_spec i k), (Nat.ltb_spec k i), (Nat.ltb_spec j l), (Nat.ltb_spec l j),
        (Nat.eqb_spec i k), (Nat.eqb_spec k i); try lia; intros; discriminate.
  Qed.

  Lemma iProper_spec r : iProper r = true <-> (fst (fst r) < fst (snd r))%nat /\ (snd (fst r) < snd (snd r))%nat.
  Proof. unfold iProper. now rewrite andb_true_iff, !Nat.ltb_lt. Qed.

  Lemma iSegs_axis r : iProper r = true -> Forall (fun s => iAxis s = true) (iSegs r).
  Proof.
    rewrite iProper_spec. destruct r as [[a b] [c e]]. cbn [fst snd]. intros [A B].
    repeat apply Forall_cons; auto; unfold iAxis, iVert, iHori; cbn [fst snd]; rewrite ?Nat.eqb_refl;
      apply Nat.ltb_lt in A, B; rewrite ?A, ?B; cbn; auto; now rewrite orb_true_r.
  Qed.

  Lemma emb_frSegs r : iProper r = true -> frSegs th (embR r) = Ok (map embS (iSegs r)).
  Proof.
    rewrite iProper_spec. destruct r as [[a b] [c e]]. cbn [fst snd]. intros [A B].
    unfold frSegs. rewrite emb_4pts. cbn [map i4Pts fst snd].
    rewrite !(emb_svNew th X Y Hth HX HY).
    apply Nat.ltb_lt in A, B.
    rewrite (iNew_lt (a, b) (a, e)), (iNew_lt (a, e) (c, e)), (iNew_gt (c, e) (c, b)), (iNew_gt (c, b) (a, b));
      [reflexivity|..]; unfold iLt; cbn [fst snd]; rewrite ?A, ?B, ?Nat.eqb_refl, ?Nat.ltb_irrefl; reflexivity.
  Qed.

  Lemma emb_interSegLoop segs s out : Forall (fun s => iAxis s = true) segs -> iAxis s = true ->
    frInterSegLoop th (map embS segs) (embS s) (map emb out) = Ok (map emb (iInterSegLoop segs s out)).
  Proof.
    intros F As. revert out. induction F as [|rs rest R F IH]; intros out; [reflexivity|].
    cbn [map frInterSegLoop iInterSegLoop]. rewrite emb_segInter by auto. cbn [bind].
    destruct (iInter rs s) as [p|]; cbn [option_map]; [|apply IH].
    assert ((match map emb out with [a] => if ptEq th a (emb p) then map emb out else map emb out ++ [emb p] | _ => map emb out ++ [emb p] end)
            = map emb (match out with [a] => if iEq a p then out else out ++ [p] | _ => out ++ [p] end)) as ->.
    { destruct out as [|a [|b o]]; cbn [map]; auto.
      - rewrite emb_ptEq by auto. destruct (iEq a p); reflexivity.
      - cbn [app map]. now rewrite map_app. }
    rewrite map_length. destruct (_ =? 2)%nat; auto.
  Qed.
  Lemma emb_interSeg r s : iProper r = true -> iAxis s = true ->
    frInterSeg th (embR r) (embS s) = Ok (map emb (iInterSeg r s)).
  Proof.
    intros P A. unfold frInterSeg. rewrite emb_frSegs by auto. cbn [bind].
    apply (emb_interSegLoop (iSegs r) s []); auto. now apply iSegs_axis.
  Qed.

  Lemma emb_setInsert p l : setInsert (emb p) (map emb l) = map emb (iSetInsert p l).
  Proof.
    induction l as [|q l IH]; [reflexivity|]. cbn [map setInsert iSetInsert].
    rewrite !(emb_ptLt th X Y Hth HX HY). destruct (iLt p q); [reflexivity|].
    destruct (iLt q p); [|reflexivity]. cbn [map]. now rewrite IH.
  Qed.
  Lemma emb_setFold l acc :
    fold_left (fun a p => setInsert p a) (map emb l) (map emb acc) = map emb (fold_left (fun a p => iSetInsert p a) l acc).
  Proof. revert acc. induction l as [|p l IH]; intros acc; [reflexivity|]. cbn. now rewrite emb_setInsert, IH. Qed.

  Lemma emb_interLoop segs o acc : Forall (fun s => iAxis s = true) segs -> iProper o = true ->
    frInterLoop th (map embS segs) (embR o) (map emb acc) = Ok (map emb (iInterLoop segs o acc)).
  Proof.
    intros F P. revert acc. induction F as [|rs rest A F IH]; intros acc; [reflexivity|].
    cbn [map frInterLoop iInterLoop]. rewrite emb_interSeg by auto. cbn [bind].
    now rewrite firstn_map, emb_setFold, IH.
  Qed.
  Lemma emb_rectEq r o : frEq th (embR r) (embR o) = iRectEq r o.
  Proof.
    unfold frEq, iRectEq, embR. cbn [r1 r2]. rewrite !emb_ptEq by auto.
    destruct (iEq (fst r) _), (iEq (snd r) _); reflexivity.
  Qed.
  Lemma emb_interRect r o : iProper r = true -> iProper o = true ->
    frInterRect th (embR r) (embR o) = Ok (map emb (iInterRect r o)).
  Proof.
    intros Pr Po. unfold frInterRect, iInterRect. rewrite emb_rectEq. destruct (iRectEq r o); [reflexivity|].
    rewrite emb_frSegs by auto. cbn [bind]. apply (emb_interLoop (iSegs r) o []); auto. now apply iSegs_axis.
  Qed.

  Lemma emb_ptIn p r : ptInRect (emb p) (embR r) = iPtIn p r.
  Proof.
    unfold ptInRect, iPtIn, embR, P_Grid.emb. cbn [px py r1 r2]. rnum.
    rewrite !(X_ltb th X Hth HX), !(Y_ltb th Y Hth HY). repeat destruct (_ <? _)%nat; reflexivity.
  Qed.
  Lemma emb_rectIn r o : frInRect (embR r) (embR o) = iRectIn r o.
  Proof. unfold frInRect, iRectIn. rewrite emb_4pts. cbn [map forallb i4Pts]. now rewrite !emb_ptIn. Qed.
  Lemma emb_ptsIn r o : pointsInside (embR r) (embR o) = map emb (iPtsIn r o).
  Proof.
    unfold pointsInside, iPtsIn. rewrite emb_4pts. induction (i4Pts r) as [|p l IH]; [reflexivity|].
    cbn [map filter]. rewrite emb_ptIn, IH. destruct (iPtIn p o); reflexivity.
  Qed.

  Lemma orth_lt Z i j : gaps d Z -> Rltb (Rabs (Z i - Z j)) (nullOrthogDistance th) = (i =? j)%nat.
  Proof.
    intros HZ. destruct Hth as (Ht & O & E). pose proof (gaps_cmp d Z i j dp HZ) as C. pose proof (thr_orth _ Ht).
    destruct (Nat.eqb_spec i j) as [->|N].
    - apply Rltb_spec. replace (Z j - Z j) with 0 by ring. rewrite Rabs_R0. lra.
    - apply Rltb_false. destruct (Nat.compare i j) eqn:F.
      + apply Nat.compare_eq in F. lia.
      + rewrite Rabs_left1; lra.
      + rewrite Rabs_right; lra.
  Qed.
  Lemma orth_gap Z i j : gaps d Z -> Rltb (nullOrthogDistance th) (Z j - Z i) = (i <? j)%nat.
  Proof.
    intros HZ. destruct Hth as (Ht & O & E). pose proof (gaps_cmp d Z i j dp HZ) as C. pose proof (thr_orth _ Ht).
    destruct (Nat.ltb_spec i j) as [N|N].
    - apply Nat.compare_lt_iff in N. rewrite N in C. apply Rltb_spec. lra.
    - apply Rltb_false. apply Nat.compare_ge_iff in N. destruct (Nat.compare i j); try congruence; lra.
  Qed.
  Lemma emb_share p q : shareCoord th (emb p) (emb q) = iShare p q.
  Proof. unfold shareCoord, iShare, P_Grid.emb. cbn [px py]. rnum. now rewrite !orth_lt. Qed.
  Lemma emb_set p q : frSet th (emb p) (emb q) = resMap embR (iSet p q).
  Proof.
    unfold frSet, iSet. rewrite emb_share. destruct (iShare p q); [reflexivity|].
    unfold resMap, embR, P_Grid.emb. cbn [bind px py fst snd].
    rewrite !(X_min th X Hth HX), !(Y_min th Y Hth HY), !(X_max th X Hth HX), !(Y_max th Y Hth HY). reflexivity.
  Qed.
  Lemma emb_of4 a b c e : frOf4 (emb a) (emb b) (emb c) (emb e) = embR (iOf4 a b c e).
  Proof.
    unfold frOf4, iOf4, embR, P_Grid.emb. cbn [px py fst snd].
    rewrite !(X_min th X Hth HX), !(Y_min th Y Hth HY), !(X_max th X Hth HX), !(Y_max th Y Hth HY). reflexivity.
  Qed.

  Lemma emb_intersect r o : iProper r = true -> iProper o = true ->
    intersectArea th (embR r) (embR o) = resMap (option_map embR) (iIntersect r o).
  Proof.
    intros Pr Po. unfold intersectArea, iIntersect. rewrite emb_rectEq. destruct (iRectEq r o); [reflexivity|].
    rewrite emb_interRect by auto. cbn [bind].
    destruct (iInterRect r o) as [|a [|b [|c [|e [|]]]]]; cbn [map]; try reflexivity.
    - rewrite !emb_rectIn. destruct (iRectIn r o), (iRectIn o r); reflexivity.
    - rewrite !emb_ptsIn. destruct (iPtsIn r o) as [|a1 [|a2 [|]]], (iPtsIn o r) as [|b1 [|b2 [|]]]; cbn [map]; try reflexivity.
      + rewrite emb_of4. reflexivity.
      + rewrite emb_set. destruct (iSet a b); reflexivity.
      + rewrite emb_of4. reflexivity.
    - unfold P_Grid.emb at 1 2 3 4 5 6 7 8 9 10 11 12 13 14 15 16 17 18 19 20 21 22 23 24. cbn [px py].
      rewrite !(X_min th X Hth HX), !(Y_min th Y Hth HY), !(X_max th X Hth HX), !(Y_max th Y Hth HY). rnum.
      rewrite !orth_gap by auto.
      destruct (_ <? _)%nat; cbn [negb]; [|reflexivity]. destruct (_ <? _)%nat; cbn [negb]; [|reflexivity].
      unfold frSet4. 
      match goal with |- context [frSet th (mkPt (X ?a) (Y ?b)) (mkPt (X ?c) (Y ?e))] =>
        change (frSet th (mkPt (X a) (Y b)) (mkPt (X c) (Y e))) with (frSet th (emb (a, b)) (emb (c, e))) end.
      rewrite emb_set. destruct (iSet _ _); reflexivity.
    - rewrite emb_set. destruct (iSet a e); reflexivity.
  Qed.

  (** ** Union *)
  Definition embI (Z : nat -> R) (x : nat * nat) : R * nat := (Z (fst x), snd x).

  Lemma emb_idxLt Z a b : gaps d Z -> idxLt (embI Z a) (embI Z b) = iIdxLt a b.
  Proof.
    intros HZ. unfold idxLt, iIdxLt, embI. cbn [fst snd]. rnum.
    now rewrite (gaps_eqb d Z), (gaps_ltb d Z).
  Qed.
  Lemma emb_idxInsert Z x l : gaps d Z -> idxInsert (embI Z x) (map (embI Z) l) = map (embI Z) (iIdxInsert x l).
  Proof.
    intros HZ. induction l as [|y l IH]; [reflexivity|]. cbn [map idxInsert iIdxInsert]. rewrite emb_idxLt by auto.
    destruct (iIdxLt x y); [reflexivity|]. cbn [map]. now rewrite IH.
  Qed.
  Lemma emb_idxSort Z l : gaps d Z -> idxSort (map (embI Z) l) = map (embI Z) (iIdxSort l).
  Proof.
    intros HZ. induction l as [|y l IH]; [reflexivity|].
    change (idxInsert (embI Z y) (idxSort (map (embI Z) l)) = map (embI Z) (iIdxInsert y (iIdxSort l))).
    now rewrite IH, emb_idxInsert.
  Qed.
  Lemma idxInsert_len x l : length (iIdxInsert x l) = S (length l).
  Proof. induction l as [|y l IH]; [reflexivity|]. cbn. destruct (iIdxLt x y); cbn; auto. Qed.
  Lemma idxSort_len l : length (iIdxSort l) = length l.
  Proof. induction l as [|y l IH]; [reflexivity|]. cbn. now rewrite idxInsert_len, <- IH. Qed.

  Lemma emb_corner vx vy i j : (length vx = 4)%nat -> (length vy = 4)%nat ->
    isCorner (map (embI X) vx) (map (embI Y) vy) i j = iCorner vx vy i j.
  Proof.
    intros Lx Ly. unfold isCorner, iCorner.
    assert (forall Z v k, snd (nth k (map (embI Z) v) (@nZ R RNum 0, 0%nat)) = snd (nth k v (0, 0)%nat)) as A.
    { intros Z v k. destruct (Nat.lt_ge_cases k (length v)).
      - rewrite (nth_indep _ _ (embI Z (0, 0)%nat)) by (now rewrite map_length). now rewrite map_nth.
      - rewrite !nth_overflow by (now rewrite ?map_length). reflexivity. }
    now rewrite !A.
  Qed.
  Lemma parseTable_ext c c' fuel row col dd first out : (forall i j, c i j = c' i j) ->
    parseTable c fuel row col dd first out = parseTable c' fuel row col dd first out.
  Proof.
    intros E. revert row col dd first out. induction fuel as [|f IH]; intros; [reflexivity|].
    cbn [parseTable]. rewrite E. destruct (c' row col).
    - destruct (match out with [] => false | _ => _ end); auto. destruct (moveCell _ _ _) as [[? ?]|]; auto.
    - destruct (moveCell _ _ _) as [[? ?]|]; auto.
  Qed.
  (** All the cells are in the table. *)
  Lemma parseTable_range c fuel row col dd first out v : (row < 4)%nat -> (col < 4)%nat ->
    Forall (fun e => fst e < 4 /\ snd e < 4)%nat out -> parseTable c fuel row col dd first out = Ok v ->
    Forall (fun e => fst e < 4 /\ snd e < 4)%nat v.
  Proof.
    revert row col dd first out. induction fuel as [|f IH]; intros row col dd first out Hr Hc F; [discriminate|].
    assert (MC : forall d' r' c', moveCell row col d' = Some (r', c') -> (r' < 4 /\ c' < 4)%nat).
    { intros d' r' c'. destruct d'; cbn.
      - destruct row; [discriminate|]. intros [= <- <-]. lia.
      - destruct (Nat.eqb_spec col 3); [discriminate|]. intros [= <- <-]. lia.
      - destruct (Nat.eqb_spec row 3); [discriminate|]. intros [= <- <-]. lia.
      - destruct col; [discriminate|]. intros [= <- <-]. lia. }
    assert (FA : Forall (fun e => fst e < 4 /\ snd e < 4)%nat (out ++ [(row, col)])).
    { apply Forall_app. split; auto. }
    cbn [parseTable]. destruct (c row col).
    - destruct (match out with [] => false | _ => _ end); [now intros [= <-]|].
      destruct (moveCell row col _) as [[r' c']|] eqn:M; [|discriminate]. apply MC in M. apply IH; tauto.
    - destruct (moveCell row col _) as [[r' c']|] eqn:M; [|discriminate]. apply MC in M.
      apply IH; try tauto. destruct (_ && _); auto.
  Qed.

  Lemma nth_embI Z v k : (k < length v)%nat -> fst (nth k (map (embI Z) v) (@nZ R RNum 0, 0%nat)) = Z (fst (nth k v (0, 0)%nat)).
  Proof.
    intros H. rewrite (nth_indep _ _ (embI Z (0, 0)%nat)) by (now rewrite map_length). now rewrite map_nth.
  Qed.
  Lemma last_map_emb l a : l <> [] -> last (map emb l) a = emb (last l (0, 0)%nat).
  Proof.
    intros H. destruct (exists_last H) as (l' & a' & ->). rewrite map_app. cbn [map]. now rewrite !last_last.
  Qed.
  Lemma emb_coordStep vx vy acc e : (length vx = 4)%nat -> (length vy = 4)%nat -> (fst e < 4)%nat -> (snd e < 4)%nat ->
    coordStep th (map (embI X) vx) (map (embI Y) vy) (map emb acc) e = map emb (iCoordStep vx vy acc e).
  Proof.
    intros Lx Ly A B. unfold coordStep, iCoordStep. rewrite !nth_embI by lia.
    set (p := (fst (nth (fst e) vx (0, 0)%nat), fst (nth (snd e) vy (0, 0)%nat))).
    change (mkPt (X (fst (nth (fst e) vx (0, 0)%nat))) (Y (fst (nth (snd e) vy (0, 0)%nat)))) with (emb p).
    destruct acc as [|q acc]; [reflexivity|].
    change (map emb (q :: acc)) with (emb q :: map emb acc) at 1. cbv iota.
    rewrite last_map_emb by discriminate. rewrite !emb_ptEq by auto.
    destruct (_ && _); [|reflexivity]. now rewrite map_app.
  Qed.
  Lemma emb_coordFold vx vy v acc : (length vx = 4)%nat -> (length vy = 4)%nat ->
    Forall (fun e => fst e < 4 /\ snd e < 4)%nat v ->
    fold_left (coordStep th (map (embI X) vx) (map (embI Y) vy)) v (map emb acc) = map emb (fold_left (iCoordStep vx vy) v acc).
  Proof.
    intros Lx Ly F. revert acc. induction F as [|e v [A B] F IH]; intros acc; [reflexivity|].
    cbn [fold_left]. now rewrite emb_coordStep, IH.
  Qed.

  Lemma emb_noConsec l : noConsecEq th (map emb l) = iNoConsecEq l.
  Proof.
    induction l as [|p [|q l] IH]; [reflexivity..|]. cbn [map noConsecEq iNoConsecEq] in *.
    rewrite emb_ptEq by auto. now rewrite IH.
  Qed.
  Lemma emb_plSet l : plSet th (map emb l) = resMap (fun v => plFresh (map emb v)) (iPlSet l).
  Proof.
    unfold plSet, iPlSet. rewrite map_length. destruct (length l =? 1)%nat; [reflexivity|].
    destruct l as [|p l]; [reflexivity|].
    unfold plCheck, iCheck. rewrite emb_noConsec, last_map_emb by discriminate. cbn [map hd].
    rewrite emb_ptEq by auto. destruct (_ && negb _); reflexivity.
  Qed.

  (** Angles of axis-parallel steps. *)
  Definition dirAngle (k : nat) : R := match k with O => 0 | S O => PI / 2 | S (S O) => PI | _ => - (PI / 2) end.
  Lemma Ratan2_axis a b k : iDir a b = Some k ->
    Ratan2 (X (fst b) - X (fst a)) (Y (snd b) - Y (snd a)) = dirAngle k.
  Proof.
    unfold iDir. pose proof (gaps_cmp d X (fst a) (fst b) dp HX) as CX. pose proof (gaps_cmp d Y (snd a) (snd b) dp HY) as CY.
    pose proof dp as D. unfold Ratan2.
    destruct (Nat.eqb_spec (fst a) (fst b)) as [E|N].
    - rewrite E, Nat.compare_refl in CX. destruct (Nat.ltb_spec (snd a) (snd b)) as [L|L].
      + apply Nat.compare_lt_iff in L. rewrite L in CY. intros [= <-]. cbn [dirAngle].
        replace (X (fst b) - X (fst a)) with 0 by (rewrite E; ring).
        destruct (Rlt_dec 0 (Y (snd b) - Y (snd a))); [|lra]. unfold Rdiv. now rewrite Rmult_0_l, atan_0.
      + destruct (Nat.ltb_spec (snd b) (snd a)) as [L'|L']; [|discriminate]. apply Nat.compare_gt_iff in L'. rewrite L' in CY.
        intros [= <-]. cbn [dirAngle]. replace (X (fst b) - X (fst a)) with 0 by (rewrite E; ring).
        destruct (Rlt_dec 0 (Y (snd b) - Y (snd a))); [lra|].
        destruct (Rlt_dec (Y (snd b) - Y (snd a)) 0); [|lra].
        destruct (Rle_dec 0 0); [|lra]. unfold Rdiv. rewrite Rmult_0_l, atan_0. ring.
    - destruct (Nat.eqb_spec (snd a) (snd b)) as [E|N2]; [|discriminate].
      rewrite E, Nat.compare_refl in CY. destruct (Nat.ltb_spec (fst a) (fst b)) as [L|L].
      + apply Nat.compare_lt_iff in L. rewrite L in CX. intros [= <-]. cbn [dirAngle].
        replace (Y (snd b) - Y (snd a)) with 0 by (rewrite E; ring).
        destruct (Rlt_dec 0 0); [lra|]. destruct (Rlt_dec 0 (X (fst b) - X (fst a))); lra.
      + assert (fst b < fst a)%nat as L' by lia. apply Nat.compare_gt_iff in L'. rewrite L' in CX. intros [= <-]. cbn [dirAngle].
        replace (Y (snd b) - Y (snd a)) with 0 by (rewrite E; ring).
        destruct (Rlt_dec 0 0); [lra|]. destruct (Rlt_dec 0 (X (fst b) - X (fst a))); [lra|].
        destruct (Rlt_dec (X (fst b) - X (fst a)) 0); lra.
  Qed.

  Lemma dirAngle_test j k : (j < 4)%nat -> (k < 4)%nat ->
    Rltb (Rabs (dirAngle j - dirAngle k)) (nullAngleValue th) = (j =? k)%nat.
  Proof.
    intros Hj Hk. destruct Hth as (Ht & O & E). pose proof (thr_angl _ Ht) as A. pose proof PI_RGT_0 as P.
    destruct (Nat.eqb_spec j k) as [->|N].
    - apply Rltb_spec. replace (_ - _) with 0 by ring. rewrite Rabs_R0. lra.
    - apply Rltb_false.
      do 4 (destruct j as [|j]; [do 4 (destruct k as [|k]; [try lia; cbn [dirAngle]; unfold Rabs; destruct (Rcase_abs _); lra|]); lia|]). lia.
  Qed.
  Lemma iDir_lt a b k : iDir a b = Some k -> (k < 4)%nat.
  Proof.
    unfold iDir. repeat destruct (_ =? _)%nat; repeat destruct (_ <? _)%nat; intros [= <-]; lia.
  Qed.
  Lemma nextIdx_lt n i : (i < n)%nat -> (nextIdx n i < n)%nat.
  Proof. unfold nextIdx. destruct (Nat.eqb_spec i (n - 1)); lia. Qed.
  Lemma prevIdx_lt n i : (i < n)%nat -> (prevIdx n i < n)%nat.
  Proof. unfold prevIdx. destruct (Nat.eqb_spec i 0); lia. Qed.
  Lemma next_prev n i : (i < n)%nat -> nextIdx n (prevIdx n i) = i.
  Proof.
    unfold nextIdx, prevIdx. intros H. destruct (Nat.eqb_spec i 0).
    - subst. rewrite Nat.eqb_refl. reflexivity.
    - destruct (Nat.eqb_spec (i - 1) (n - 1)); lia.
  Qed.
  Lemma nth_emb l i a : (i < length l)%nat -> nth i (map emb l) a = emb (nth i l (0, 0)%nat).
  Proof. intros H. rewrite (nth_indep _ _ (emb (0, 0)%nat)) by (now rewrite map_length). apply map_nth. Qed.
  Lemma axisPoly_dir pts i : iAxisPoly pts = true -> (i < length pts)%nat ->
    exists k, iDir (nth i pts (0, 0)%nat) (nth (nextIdx (length pts) i) pts (0, 0)%nat) = Some k.
  Proof.
    unfold iAxisPoly. rewrite forallb_forall. intros H L. specialize (H i). rewrite in_seq in H.
    destruct (iDir _ _); [eauto|]. discriminate H. lia.
  Qed.

  Lemma emb_isMiddle pts i : iAxisPoly pts = true -> (i < length pts)%nat ->
    plIsMiddle th (map emb pts) i = iIsMiddle pts i.
  Proof.
    intros A L. unfold plIsMiddle, iIsMiddle. rewrite map_length.
    rewrite !nth_emb by (auto using nextIdx_lt, prevIdx_lt).
    destruct (axisPoly_dir pts i A L) as [k Ek].
    destruct (axisPoly_dir pts (prevIdx (length pts) i) A (prevIdx_lt _ _ L)) as [k' Ek'].
    rewrite next_prev in Ek' by auto. rewrite Ek, Ek'. cbn [sameDir].
    unfold P_Grid.emb. cbn [px py]. rnum.
    rewrite (Ratan2_axis _ _ _ Ek), (Ratan2_axis _ _ _ Ek').
    apply dirAngle_test; eapply iDir_lt; eauto.
  Qed.
  Lemma filter_ext_in' {A} (f g : A -> bool) l : (forall x, In x l -> f x = g x) -> filter f l = filter g l.
  Proof. apply filter_ext_in. Qed.
  Lemma emb_addAll pts pl : plAddAll th (plFresh (map emb pl)) (map emb pts) = resMap (fun v => plFresh (map emb v)) (iAddAll pl pts).
  Proof.
    revert pl. induction pts as [|p pts IH]; intros pl; [reflexivity|].
    cbn [map plAddAll iAddAll]. unfold plAddPoint, iAddPoint. cbn [plPts plFresh].
    destruct pl as [|q pl].
    - cbn [map bind]. apply (IH [p]).
    - cbn [map]. change (emb q :: map emb pl) with (map emb (q :: pl)). rewrite last_map_emb by discriminate.
      rewrite emb_ptEq by auto. destruct (iEq _ _); [reflexivity|]. cbn [bind].
      rewrite <- IH, map_app. reflexivity.
  Qed.
  Lemma emb_keep rm pts : plKeep rm (map emb pts) = map emb (iKeep rm pts).
  Proof.
    unfold plKeep, iKeep. generalize 0%nat. revert rm. induction pts as [|p pts IH]; intros rm i; [reflexivity|].
    cbn [map plKeepFrom iKeepFrom]. destruct rm as [|j rm]; [cbn [map]; now rewrite IH|].
    destruct (j =? i)%nat; [apply IH|]. cbn [map]. now rewrite IH.
  Qed.
  Lemma emb_minimize pts : iAxisPoly pts = true ->
    plMinimize th true (plFresh (map emb pts)) = resMap (fun v => plFresh (map emb v)) (iMinimize pts).
  Proof.
    intros A. unfold plMinimize, iMinimize. cbn [plPts plFresh]. rewrite map_length.
    destruct (length pts <? 3)%nat; [reflexivity|].
    rewrite (filter_ext_in (plIsMiddle th (map emb pts)) (iIsMiddle pts)).
    - destruct (filter _ _) as [|i rm]; [reflexivity|]. rewrite emb_keep. apply (emb_addAll _ []).
    - intros i H. apply in_seq in H. apply emb_isMiddle; auto. lia.
  Qed.

  Lemma emb_union r o u : iProper r = true -> iProper o = true -> iUnion r o = Some u ->
    unionArea th (embR r) (embR o) = resMap (fun v => plFresh (map emb v)) u.
  Proof.
    intros Pr Po. unfold unionArea, iUnion. rewrite emb_rectEq. destruct (iRectEq r o).
    { intros [= <-]. unfold plOfRect. now rewrite emb_4pts. }
    rewrite emb_interRect by auto. cbn [bind].
    destruct (iInterRect r o) as [|x l].
    { cbn [map]. rewrite !emb_rectIn. intros [= <-]. unfold plOfRect. rewrite !emb_4pts.
      destruct (iRectIn r o), (iRectIn o r); reflexivity. }
    cbn [map].
    replace (@nltb R RNum (px (r1 (embR r))) (px (r1 (embR o)))) with (fst (fst r) <? fst (fst o))%nat
      by (symmetry; apply (X_ltb th X Hth HX)).
    assert (forall ra rb : irect,
      match parseTable (iCorner (iIdxSort [(fst (fst ra), 1); (fst (snd ra), 1); (fst (fst rb), 2); (fst (snd rb), 2)]%nat)
                                (iIdxSort [(snd (fst ra), 1); (snd (snd ra), 1); (snd (fst rb), 2); (snd (snd rb), 2)]%nat)) 64 0 0 DE true [] with
      | Ok vpts =>
          match iPlSet (fold_left (iCoordStep (iIdxSort [(fst (fst ra), 1); (fst (snd ra), 1); (fst (fst rb), 2); (fst (snd rb), 2)]%nat)
                                              (iIdxSort [(snd (fst ra), 1); (snd (snd ra), 1); (snd (fst rb), 2); (snd (snd rb), 2)]%nat)) vpts []) with
          | Ok pts => if iAxisPoly pts then Some (iMinimize pts) else None
          | Throw => Some Throw
          | Undef => None
          end
      | Throw => Some Throw
      | Undef => Some Undef
      end = Some u ->
      (do vpts <- parseTable (isCorner (idxSort [(px (r1 (embR ra)), 1%nat); (px (r2 (embR ra)), 1%nat); (px (r1 (embR rb)), 2%nat); (px (r2 (embR rb)), 2%nat)])
                                       (idxSort [(py (r1 (embR ra)), 1%nat); (py (r2 (embR ra)), 1%nat); (py (r1 (embR rb)), 2%nat); (py (r2 (embR rb)), 2%nat)])) 64 0 0 DE true [];
       do pl <- convertToCoord th vpts (idxSort [(px (r1 (embR ra)), 1%nat); (px (r2 (embR ra)), 1%nat); (px (r1 (embR rb)), 2%nat); (px (r2 (embR rb)), 2%nat)])
                                       (idxSort [(py (r1 (embR ra)), 1%nat); (py (r2 (embR ra)), 1%nat); (py (r1 (embR rb)), 2%nat); (py (r2 (embR rb)), 2%nat)]);
       plMinimize th true pl) = resMap (fun v => plFresh (map emb v)) u) as G.
    { clear - Hth HX HY. intros ra rb.
      set (ix := [(fst (fst ra), 1); (fst (snd ra), 1); (fst (fst rb), 2); (fst (snd rb), 2)]%nat).
      set (iy := [(snd (fst ra), 1); (snd (snd ra), 1); (snd (fst rb), 2); (snd (snd rb), 2)]%nat).
      change [(px (r1 (embR ra)), 1%nat); (px (r2 (embR ra)), 1%nat); (px (r1 (embR rb)), 2%nat); (px (r2 (embR rb)), 2%nat)] with (map (embI X) ix).
      change [(py (r1 (embR ra)), 1%nat); (py (r2 (embR ra)), 1%nat); (py (r1 (embR rb)), 2%nat); (py (r2 (embR rb)), 2%nat)] with (map (embI Y) iy).
      rewrite !emb_idxSort by auto.
      assert (length (iIdxSort ix) = 4)%nat as Lx by (rewrite idxSort_len; reflexivity).
      assert (length (iIdxSort iy) = 4)%nat as Ly by (rewrite idxSort_len; reflexivity).
      rewrite (parseTable_ext (isCorner _ _) (iCorner (iIdxSort ix) (iIdxSort iy))) by (intros; now apply emb_corner).
      destruct (parseTable _ _ _ _ _ _ _) as [v| |] eqn:PT; cbn [bind]; try (now intros [= <-]).
      assert (Forall (fun e => fst e < 4 /\ snd e < 4)%nat v) as Fv
        by (eapply parseTable_range; [| | |exact PT]; auto; lia).
      unfold convertToCoord. change (@nil (pt R)) with (map emb []). rewrite emb_coordFold by auto. rewrite emb_plSet.
      destruct (iPlSet _) as [pts| |]; cbn [bind resMap]; try (now intros [= <-]); try discriminate.
      destruct (iAxisPoly pts) eqn:AP; [|discriminate]. intros [= <-]. now apply emb_minimize. }
    destruct (fst (fst r) <? fst (fst o))%nat; apply G.
  Qed.

  (** isSimple. *)
  Lemma emb_plSegment pts i : (2 <= length pts)%nat ->
    plSegment th true KSeg (map emb pts) i = resMap embS (iPlSegment pts i).
  Proof.
    intros L. unfold plSegment, iPlSegment, plNbSegs. rewrite map_length.
    replace (length pts <? 2)%nat with false by (symmetry; apply Nat.ltb_ge; lia).
    destruct (Nat.leb_spec (length pts) i) as [G|G]; [reflexivity|].
    rewrite nth_emb by auto. rewrite nth_emb.
    - now rewrite (emb_svNew th X Y Hth HX HY).
    - destruct (Nat.eqb_spec (i + 1) (length pts)); lia.
  Qed.
  Lemma anyM_ext {A} (f g : A -> res bool) l b : (forall x c, In x l -> g x = Ok c -> f x = Ok c) ->
    anyM g l = Ok b -> anyM f l = Ok b.
  Proof.
    induction l as [|x l IH]; intros H E; [exact E|]. cbn [anyM] in *.
    destruct (g x) as [c| |] eqn:G; try discriminate. rewrite (H x c (or_introl eq_refl) G). cbn [bind] in *.
    destruct c; auto. apply IH; auto. intros y c' I. apply H. now right.
  Qed.
  Lemma emb_simple pts b : (2 <= length pts)%nat -> iSimple pts = Ok b -> simpleCalc th (map emb pts) = Ok b.
  Proof.
    intros L. unfold iSimple, simpleCalc.
    replace (plNbSegs true (map emb pts)) with (length pts)
      by (unfold plNbSegs; rewrite map_length; replace (length pts <? 2)%nat with false; auto; symmetry; apply Nat.ltb_ge; lia).
    intros H. apply bind_ok in H. destruct H as (h & H & E).
    match type of H with anyM ?g ?l = _ => match goal with |- (do _ <- anyM ?f ?l; _) = _ =>
      assert (anyM f l = Ok h) as -> end end; [|exact E].
    revert H. apply anyM_ext. intros i c _ Hi.
    apply bind_ok in Hi. destruct Hi as (s1 & S1 & Hi). rewrite emb_plSegment, S1 by auto. cbn [resMap bind].
    revert Hi. apply anyM_ext. intros j c' _ Hj.
    apply bind_ok in Hj. destruct Hj as (s2 & S2 & Hj). rewrite emb_plSegment, S2 by auto. cbn [resMap bind].
    destruct (iAxis s2) eqn:A2; cbn [andb] in Hj; [|discriminate]. destruct (iAxis s1) eqn:A1; [|discriminate].
    rewrite emb_segInter by auto. cbn [bind]. destruct (iInter s2 s1); exact Hj.
  Qed.
End Grid.
