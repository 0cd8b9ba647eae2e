(** * Model of free functions on points and objects: closest points, nearest point, bounding boxes *)

From Coq Require Import ZArith List Bool Arith.
From Verif Require Import Num M_LP M_Seg M_Circle M_Poly M_FRect.
Import ListNotations.
Local Open Scope num_scope.

(** The objects held by CommonType_, homog2d.hpp:414-426 (std::variant).  Simplification: the two kinds
    of segments are not distinguished, and ellipses are not modelled here. *)
Inductive prim (T : Type) : Type :=
| OPoint (p : pt T) | OSegm (s : seg T) | OCirc (c : circle T) | ORect (r : frect T)
| OPoly (closed : bool) (pts : list (pt T)) | OLine (l : line T).
Arguments OPoint {T}. Arguments OSegm {T}. Arguments OCirc {T}. Arguments ORect {T}. Arguments OPoly {T}. Arguments OLine {T}.

Section Misc.
  Context {T : Type} {N : Num T}.
  Implicit Types (p q : pt T) (pts : list (pt T)) (s : seg T) (th : thrs T).

  (** ** Closest points of two polylines *)

  (** priv::ClosestPoints, homog2d.hpp:10536-10587: [_minDist], [_pt1_min], [_pt2_min] (the members
      [_pt1], [_pt2] are never written). *)
  Definition cpState : Type := (T * nat * nat)%type.
  (** Body of the inner loop of getClosestPoints, homog2d.hpp:10612-10615. *)
  Definition cpStep (a b : list (pt T)) (i : nat) (st : cpState) (j : nat) : cpState :=
    let d := distPP (nth i a pt00) (nth j b pt00) in
    if d <? fst (fst st) then (d, i, j) else st.
  (** getClosestPoints, homog2d.hpp:10593-10619. *)
  Definition closestPoints (a b : list (pt T)) : res cpState :=
    match a, b with
    | [], _ | _, [] => Throw
    | p :: _, q :: _ =>
        Ok (fold_left (fun st i => fold_left (cpStep a b i) (seq 0 (length b)) st) (seq 0 (length a)) (distPP p q, 0%nat, 0%nat))
    end.
  (** getPoints, homog2d.hpp:10563-10570. *)
  Definition cpPoints (a b : list (pt T)) (st : cpState) : res (pt T * pt T) :=
    do p <- plPoint a (snd (fst st)); do q <- plPoint b (snd st); Ok (p, q).

  (** ** Nearest and farthest point *)

  (** Body of the loop of priv::findPoint, homog2d.hpp:11118-11137: [far] is F_MAX. *)
  Definition fpStep th (far : bool) q pts (st : nat * T) (i : nat) : nat * T :=
    if negb (ptEq th q (nth i pts pt00)) then
      let d := sqDist q (nth i pts pt00) in
      if far then (if d >? snd st then (i, d) else st) else (if d <? snd st then (i, d) else st)
    else st.
  (** priv::findPoint, homog2d.hpp:11086-11140; findNearestPoint, :11150-11155; findFarthestPoint, :11158-11163. *)
  Definition findPoint th (far : bool) q pts : res nat :=
    if (length pts <? 2)%nat then Throw
    else
      let n := length pts in
      if ptEq th (nth 0 pts pt00) q
      then Ok (fst (fold_left (fpStep th far q pts) (seq 2 (n - 2)) (1%nat, sqDist q (nth 1 pts pt00))))
      else Ok (fst (fold_left (fpStep th far q pts) (seq 1 (n - 1)) (0%nat, sqDist q (nth 0 pts pt00)))).
  (** findNearestFarthestPoint, homog2d.hpp:11169-11208: state (idxMax,maxDist), (idxMin,minDist). *)
  Definition nfStep th q pts (st : (nat * T) * (nat * T)) (i : nat) : (nat * T) * (nat * T) :=
    if negb (ptEq th q (nth i pts pt00)) then
      let d := sqDist q (nth i pts pt00) in
      let (mx, mn) := st in
      (if d >? snd mx then (i, d) else mx, if d <? snd mn then (i, d) else mn)
    else st.
  Definition findNearFar th q pts : res (nat * nat) :=
    if (length pts <? 2)%nat then Throw
    else
      let n := length pts in
      let st :=
        if ptEq th q (nth 0 pts pt00)
        then let d := sqDist q (nth 1 pts pt00) in fold_left (nfStep th q pts) (seq 2 (n - 2)) ((1%nat, d), (1%nat, d))
        else let d := sqDist q (nth 0 pts pt00) in fold_left (nfStep th q pts) (seq 1 (n - 1)) ((0%nat, d), (0%nat, d)) in
      Ok (fst (snd st), fst (fst st)).

  (** ** Removing duplicates *)

  (** svg::priv::purgeSetDupes, homog2d.hpp:12740-12755.  std::prev(end) and back() of an empty vector
      are undefined. *)
  Fixpoint purgeLoop th pts : list (pt T) :=
    match pts with
    | p :: ((q :: _) as r) => if negb (ptEq th p q) then p :: purgeLoop th r else purgeLoop th r
    | _ => pts
    end.
  Definition purgeDupes th pts : res (list (pt T)) :=
    match pts with [] => Undef | _ => Ok (purgeLoop th pts) end.

  (** ** Points inside an object *)

  (** getPtsInside, homog2d.hpp:11216-11236, for a circle and for a rectangle. *)
  Definition ptsInCircle pts (c : circle T) : list (pt T) := filter (fun p => ptInCircle p c) pts.
  Definition ptsInRect pts (r : frect T) : list (pt T) := filter (fun p => ptInRect p r) pts.

  (** ** Bounding boxes *)

  (** FRect_ from the pair given by getBB_Points, homog2d.hpp:10331, 5974, 5994, 10301. *)
  Definition bbRect th pts : res (frect T) := do (a, b) <- bbPoints th pts; frSet th a b.

  (** Circle_::getBB, homog2d.hpp:3319-3327. *)
  Definition cBB th (c : circle T) : res (frect T) :=
    frSet4 th (px (cc c) - cr c) (py (cc c) - cr c) (px (cc c) + cr c) (py (cc c) + cr c).

  (** size() of each class, homog2d.hpp:4061-4067, 5045, 3301, 2785, 6215. *)
  Definition primSize (o : prim T) : nat :=
    match o with OPoint _ => 1 | OSegm _ => 2 | OCirc _ => 1 | ORect _ => 4 | OPoly _ l => length l | OLine _ => 0 end%nat.
  Definition primIsPoly (o : prim T) : bool := match o with OPoly _ _ => true | _ => false end.

  (** ppair::getPointPair, homog2d.hpp:10047-10125. *)
  Definition pointPair th (o : prim T) : res (pt T * pt T) :=
    match o with
    | OPoint p => Ok (p, p)
    | OSegm s => Ok (sA s, sB s)
    | OCirc c => do r <- cBB th c; Ok (r1 r, r2 r)
    | ORect r => Ok (r1 r, r2 r)
    | OPoly _ [] => Throw
    | OPoly _ [p; q] => Ok (p, q)
    | OPoly _ l => bbPoints th l
    | OLine _ => Throw
    end.

  (** getBB(PointPair,PointPair), homog2d.hpp:10421-10427, with getMinMax, :10400-10413. *)
  Definition bbPairs th (u v : pt T * pt T) : res (frect T) := bbRect th [fst u; fst v; snd u; snd v].

  (** getBB(T1,T2), homog2d.hpp:10429-10497: at :10451 isPoly_1 is set instead of isPoly_2, which
      stays false. *)
  Definition bbTwo th (a b : prim T) : res (frect T) :=
    let isPoly1 := primIsPoly a || primIsPoly b in
    let isPoly2 := false in
    if isPoly1 && isPoly2 && ((primSize a =? 0)%nat && (primSize b =? 0)%nat) then Throw
    else if isPoly2 && (primSize a =? 0)%nat then
      do (p, q) <- pointPair th b; if shareCoord th p q then Throw else frSet th p q
    else if isPoly1 && (primSize b =? 0)%nat then
      do (p, q) <- pointPair th a; if shareCoord th p q then Throw else frSet th p q
    else
      do u <- pointPair th a; do v <- pointPair th b; bbPairs th u v.

  (** getBB of a container of points, homog2d.hpp:10324-10332; of segments, :5960-5975; of rectangles,
      :5981-5995 through :10335-10345. *)
  Definition bbContPts th pts : res (frect T) :=
    match pts with [] => Throw | [_] => Throw | _ => bbRect th pts end.
  Definition bbContSegs th (l : list (seg T)) : res (frect T) :=
    match l with [] => Throw | _ => bbRect th (flat_map (fun s => [sA s; sB s]) l) end.
  Definition bbContRects th (l : list (frect T)) : res (frect T) :=
    match l with [] => Throw | _ => bbRect th (flat_map (fun r => [r1 r; r2 r]) l) end.

  (** priv::getBB_CommonType, homog2d.hpp:10278-10302: when the computation of a pair throws (Line2d,
      empty polyline), the pair of the previous element (two default points at first) is pushed again. *)
  Fixpoint variantPts th (pp : pt T * pt T) (l : list (prim T)) : list (pt T) :=
    match l with
    | [] => []
    | o :: r =>
        let pp' := match pointPair th o with Ok u => u | _ => pp end in
        fst pp' :: snd pp' :: variantPts th pp' r
    end.
  Definition bbContVariant th (l : list (prim T)) : res (frect T) :=
    match l with [] => Throw | _ => bbRect th (variantPts th (pt00, pt00) l) end.
End Misc.
