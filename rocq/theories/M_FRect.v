(** * Model of flat rectangles (class FRect_) *)

From Coq Require Import ZArith List Bool Arith.
From Verif Require Import Num M_LP M_Seg M_Circle M_Poly.
Import ListNotations.
Local Open Scope num_scope.

(** FRect_, homog2d.hpp:2678 ([_ptR1], [_ptR2]). *)
Record frect (T : Type) : Type := mkR { r1 : pt T; r2 : pt T }.
Arguments mkR {T}. Arguments r1 {T}. Arguments r2 {T}.

(** enum class Direction, homog2d.hpp:7879; enum class Turn, :7894 ([true]: Left). *)
Inductive dirn := DN | DE | DS | DW.

Section FRect.
  Context {T : Type} {N : Num T}.
  Implicit Types (p q : pt T) (s : seg T) (l : line T) (th : thrs T) (r o : frect T).

  (** Default constructor, homog2d.hpp:2684-2687. *)
  Definition frDefault : frect T := mkR (mkPt (#0) (#0)) (mkPt (#1) (#1)).

  (** set(pa,pb), homog2d.hpp:2765-2770, and the constructors from 2 points (:2690-2700), through
      detail::getCorrectPoints, :1344-1357: nothing changes when it throws. *)
  Definition frSet th p q : res (frect T) :=
    if shareCoord th p q then Throw
    else Ok (mkR (mkPt (nmin (px p) (px q)) (nmin (py p) (py q)))
                 (mkPt (nmax (px p) (px q)) (nmax (py p) (py q)))).

  (** Constructor from center, width and height, homog2d.hpp:2704-2712. *)
  Definition frCenter th p (w h : T) : res (frect T) :=
    let half := #1 / #2 in
    frSet th (mkPt (px p - half * w) (py p - half * h)) (mkPt (px p + half * w) (py p + half * h)).

  (** Constructor from 4 values, homog2d.hpp:2716-2723 (and set, :2773-2776). *)
  Definition frSet4 th (x1 y1 x2 y2 : T) : res (frect T) := frSet th (mkPt x1 y1) (mkPt x2 y2).

  (** Private constructor from 4 points, homog2d.hpp:2735-2760 (no check). *)
  Definition frOf4 (a b c d : pt T) : frect T :=
    let mn f := nmin (nmin (nmin (f a) (f b)) (f c)) (f d) in
    let mx f := nmax (nmax (nmax (f a) (f b)) (f c)) (f d) in
    mkR (mkPt (mn px) (mn py)) (mkPt (mx px) (mx py)).

  (** height, width, area, length, homog2d.hpp:2780-2783. *)
  Definition frHeight r : T := py (r2 r) - py (r1 r).
  Definition frWidth r : T := px (r2 r) - px (r1 r).
  Definition frArea r : T := frHeight r * frWidth r.
  Definition frLength r : T := #2 * frHeight r + #2 * frWidth r.

  (** getCenter, homog2d.hpp:2808-2814. *)
  Definition frGetCenter r : pt T :=
    let half := #1 / #2 in
    mkPt ((px (r1 r) + px (r2 r)) * half) ((py (r1 r) + py (r2 r)) * half).

  (** get4Pts, homog2d.hpp:2945-2953. *)
  Definition fr4Pts r : list (pt T) :=
    [r1 r; mkPt (px (r1 r)) (py (r2 r)); r2 r; mkPt (px (r2 r)) (py (r1 r))].

  (** getSegs, homog2d.hpp:2969-2978. *)
  Definition frSegs th r : res (list (seg T)) :=
    match fr4Pts r with
    | [a; b; c; d] =>
        do s0 <- svNew th KSeg a b; do s1 <- svNew th KSeg b c;
        do s2 <- svNew th KSeg c d; do s3 <- svNew th KSeg d a;
        Ok [s0; s1; s2; s3]
    | _ => Undef
    end.

  (** getDiagonals, homog2d.hpp:2899-2910. *)
  Definition frDiagonals th r : res (seg T * seg T) :=
    do a <- svNew th KSeg (r1 r) (r2 r);
    do b <- svNew th KSeg (mkPt (px (r1 r)) (py (r2 r))) (mkPt (px (r2 r)) (py (r1 r)));
    Ok (a, b).

  (** getBoundingCircle, homog2d.hpp:2818-2822 (thr::doNotCheckRadius() is false). *)
  Definition frBoundingCircle th r : res (circle T) :=
    let m := frGetCenter r in cNew th false m (distPP m (r1 r)).

  (** getInscribedCircle, homog2d.hpp:2826-2836 (the radius is written without check). *)
  Definition frInscribedCircle th r : res (circle T) :=
    do segs <- frSegs th r;
    let m := frGetCenter r in
    match segs with
    | s0 :: s1 :: _ =>
        do (d0, _) <- svDist s0 m;
        do (d1, _) <- svDist s1 m;
        Ok (mkC m (nmin d0 d1))
    | _ => Undef
    end.

  (** translate, homog2d.hpp:2845-2851. *)
  Definition frTranslate r (dx dy : T) : frect T := mkR (ptTranslate (r1 r) dx dy) (ptTranslate (r2 r) dx dy).

  (** getExtended, homog2d.hpp:2887-2896. *)
  Definition frExtended th r : res (frect T) :=
    frSet4 th (px (r1 r) * #2 - px (r2 r)) (py (r1 r) * #2 - py (r2 r))
              (px (r2 r) * #2 - px (r1 r)) (py (r2 r) * #2 - py (r1 r)).

  (** Constructor of a closed polyline from a rectangle, homog2d.hpp:6105-6110. *)
  Definition plOfRect r : poly T := plFresh (fr4Pts r).

  (** PolylineBase::getBB, homog2d.hpp:6230-6243. *)
  Definition plBB th (pts : list (pt T)) : res (frect T) :=
    if (length pts <? 2)%nat then Throw
    else
      do (a, b) <- bbPoints th pts;
      if shareCoord th a b then Throw else frSet th a b.

  (** rotate(Rotate), homog2d.hpp:7651-7656; rotate(Rotate,refpt), :7627-7632 (when the inner call
      throws, the rectangle stays translated: the model returns [Throw]). *)
  Definition frRotate th r (k : rot) : res (frect T) := plBB th (plPts (plRotate (plOfRect r) k)).
  Definition frRotateAt th r (k : rot) p : res (frect T) :=
    do a <- frRotate th (frTranslate r (- px p) (- py p)) k;
    Ok (frTranslate a (px p) (py p)).

  (** detail::ptIsInside, homog2d.hpp:4682-4688, through LPBase::isInside(FRect), :9298-9309 (strict,
      although documented as "inside or on the edge"). *)
  Definition ptInRect p r : bool :=
    if (px p >? px (r1 r)) && (px p <? px (r2 r)) then
      if (py p >? py (r1 r)) && (py p <? py (r2 r)) then true else false
    else false.

  (** isInside(FRect), homog2d.hpp:3007-3014; p_pointsInside, :3103-3110. *)
  Definition frInRect r o : bool := forallb (fun p => ptInRect p o) (fr4Pts r).
  Definition pointsInside r o : list (pt T) := filter (fun p => ptInRect p o) (fr4Pts r).
  (** isInside(Circle), same function with LPBase::isInside(Circle). *)
  Definition frInCircle r (c : circle T) : bool := forallb (fun p => ptInCircle p c) (fr4Pts r).

  (** operator ==, homog2d.hpp:3082-3089. *)
  Definition frEq th r o : bool :=
    if negb (ptEq th (r1 r) (r1 o)) then false
    else if negb (ptEq th (r2 r) (r2 o)) then false else true.

  (** FRect/Segment intersection, homog2d.hpp:3153-3173: the points stored so far are [out]. *)
  Fixpoint frInterSegLoop th (segs : list (seg T)) s (out : list (pt T)) : res (list (pt T)) :=
    match segs with
    | [] => Ok out
    | rs :: rest =>
        do it <- segInterSeg th rs s;
        match it with
        | None => frInterSegLoop th rest s out
        | Some p =>
            let out' := match out with
                        | [a] => if ptEq th a p then out else out ++ [p]
                        | _ => out ++ [p]
                        end in
            if (length out' =? 2)%nat then Ok out' else frInterSegLoop th rest s out'
        end
    end.
  Definition frInterSeg th r s : res (list (pt T)) :=
    do segs <- frSegs th r; frInterSegLoop th segs s [].

  (** Line/FRect intersection, LPBase::impl_intersectsFRect, homog2d.hpp:9526-9554. *)
  Fixpoint frInterLineLoop th (segs : list (seg T)) l (out : list (pt T)) : res (list (pt T)) :=
    match segs with
    | [] => Ok out
    | rs :: rest =>
        do it <- segInterLine th rs l;
        match it with
        | None => frInterLineLoop th rest l out
        | Some p =>
            let store := match out with
                         | [a] => negb ((ptEq th p (sA rs) || ptEq th p (sB rs)) && ptEq th a p)
                         | _ => true
                         end in
            let out' := if store then out ++ [p] else out in
            if (length out' =? 2)%nat then Ok out' else frInterLineLoop th rest l out'
        end
    end.
  Definition frInterLine th r l : res (list (pt T)) :=
    do segs <- frSegs th r; frInterLineLoop th segs l [].

  (** std::set::insert with LPBase::operator < : the sorted sequence of elements. *)
  Fixpoint setInsert p (l : list (pt T)) : list (pt T) :=
    match l with
    | [] => [p]
    | q :: rest => if ptLt p q then p :: l else if ptLt q p then q :: setInsert p rest else l
    end.

  (** p_intersects_R_C with a rectangle, homog2d.hpp:3118-3138, and intersects(FRect), :3071-3076.
      Each segment gives at most 2 points (the assert of :3127 cannot fail, see [frInterSegLoop]). *)
  Fixpoint frInterLoop th (segs : list (seg T)) o (acc : list (pt T)) : res (list (pt T)) :=
    match segs with
    | [] => Ok acc
    | rs :: rest =>
        do v <- frInterSeg th o rs;
        frInterLoop th rest o (fold_left (fun a p => setInsert p a) (firstn 2 v) acc)
    end.
  Definition frInterRect th r o : res (list (pt T)) :=
    if frEq th r o then Ok []
    else do segs <- frSegs th r; frInterLoop th segs o [].

  (** p_intersects_R_C with a circle (IntersectM::get() sorts, so at most 2 points are kept). *)
  Fixpoint frInterCircLoop th (segs : list (seg T)) (c : circle T) (acc : list (pt T)) : res (list (pt T)) :=
    match segs with
    | [] => Ok acc
    | rs :: rest =>
        do v <- segCircle th rs c;
        frInterCircLoop th rest c (fold_left (fun a p => setInsert p a) (firstn 2 v) acc)
    end.
  Definition frInterCircle th r (c : circle T) : res (list (pt T)) :=
    do segs <- frSegs th r; frInterCircLoop th segs c [].

  (** intersectArea, homog2d.hpp:7717-7819.  A failed assert is [Undef]. *)
  Definition intersectArea th r o : res (option (frect T)) :=
    if frEq th r o then Ok (Some o)
    else
      do v <- frInterRect th r o;
      match v with
      | [] => if frInRect r o then Ok (Some r) else if frInRect o r then Ok (Some o) else Ok None
      | [_] => Ok None
      | [a; _; _; d] => do x <- frSet th a d; Ok (Some x)
      | [a; b; c] =>
          let xmin := nmin (px a) (nmin (px b) (px c)) in
          let ymin := nmin (py a) (nmin (py b) (py c)) in
          let xmax := nmax (px a) (nmax (px b) (px c)) in
          let ymax := nmax (py a) (nmax (py b) (py c)) in
          if negb (xmax - xmin >? nullOrthogDistance th) then Undef
          else if negb (ymax - ymin >? nullOrthogDistance th) then Undef
          else do x <- frSet4 th xmin ymin xmax ymax; Ok (Some x)
      | [a; b] =>
          let v1 := pointsInside r o in
          let v2 := pointsInside o r in
          match v1, v2 with
          | [], [] => Ok None
          | [_], [_] => do x <- frSet th a b; Ok (Some x)
          | [c; d], [] => Ok (Some (frOf4 a b c d))
          | [], [c; d] => Ok (Some (frOf4 a b c d))
          | _, _ => Undef
          end
      | _ => Undef
      end.

  (** ** Union *)

  (** priv::runion::Index and its operator <, homog2d.hpp:7831-7852: value and rectangle number. *)
  Definition idxLt (a b : T * nat) : bool :=
    if fst a =? fst b then (snd a <? snd b)%nat else fst a <? fst b.
  (** std::sort on an array of 4 Index (insertion sort; the four elements are pairwise different for
      [idxLt] as long as the rectangles are not flat). *)
  Fixpoint idxInsert (x : T * nat) (l : list (T * nat)) : list (T * nat) :=
    match l with [] => [x] | y :: rest => if idxLt x y then x :: l else y :: idxInsert x rest end.
  Definition idxSort (l : list (T * nat)) : list (T * nat) := fold_right idxInsert [] l.

  (** Table of homog2d.hpp:8142-8145 with Cell, :7867-7872: [isCorner vx vy row col]. *)
  Definition isCorner (vx vy : list (T * nat)) (row col : nat) : bool :=
    (snd (nth row vx (#0, 0%nat)) =? snd (nth col vy (#0, 0%nat)))%nat.

  (** turn, homog2d.hpp:7898-7912 ([left]: Turn::Left). *)
  Definition turnDir (d : dirn) (left : bool) : dirn :=
    match d with
    | DW => if left then DS else DN
    | DS => if left then DE else DW
    | DE => if left then DN else DS
    | DN => if left then DW else DE
    end.
  (** moveToNextCell, homog2d.hpp:7916-7925.  Leaving the 4x4 table is undefined behaviour: [None]. *)
  Definition moveCell (row col : nat) (d : dirn) : option (nat * nat) :=
    match d with
    | DN => match row with O => None | S k => Some (k, col) end
    | DS => if (row =? 3)%nat then None else Some (S row, col)
    | DE => if (col =? 3)%nat then None else Some (row, S col)
    | DW => match col with O => None | S k => Some (row, k) end
    end.

  (** parseTable, homog2d.hpp:7933-7968.  [fuel] bounds the number of turns of the do-while loop; the
      theorems show that 64 is never exhausted ([Undef] otherwise: the loop does not end).  The last
      moveToNextCell, after [done] is set, has no effect on the result. *)
  Fixpoint parseTable (corner : nat -> nat -> bool) (fuel row col : nat) (d : dirn) (first : bool)
           (out : list (nat * nat)) : res (list (nat * nat)) :=
    match fuel with
    | O => Undef
    | S f =>
        if corner row col then
          let isFront := match out with
                         | [] => false
                         | (a, b) :: _ => (a =? row)%nat && (b =? col)%nat && (2 <? length out)%nat
                         end in
          if isFront then Ok out
          else
            let d' := if first then d else turnDir d false in
            match moveCell row col d' with
            | None => Undef
            | Some (row', col') => parseTable corner f row' col' d' false (out ++ [(row, col)])
            end
        else
          let inner := ((row =? 2)%nat || (row =? 1)%nat) && ((col =? 2)%nat || (col =? 1)%nat) in
          let d' := if inner then turnDir d true else d in
          let out' := if inner then out ++ [(row, col)] else out in
          match moveCell row col d' with
          | None => Undef
          | Some (row', col') => parseTable corner f row' col' d' first out'
          end
    end.

  (** convertToCoord, homog2d.hpp:7994-8018. *)
  Definition coordStep th (vx vy : list (T * nat)) (acc : list (pt T)) (e : nat * nat) : list (pt T) :=
    let p := mkPt (fst (nth (fst e) vx (#0, 0%nat))) (fst (nth (snd e) vy (#0, 0%nat))) in
    match acc with
    | [] => [p]
    | q :: _ => if negb (ptEq th (last acc pt00) p) && negb (ptEq th q p) then acc ++ [p] else acc
    end.
  Definition convertToCoord th (v : list (nat * nat)) (vx vy : list (T * nat)) : res (poly T) :=
    plSet th (fold_left (coordStep th vx vy) v []).

  (** unionArea, homog2d.hpp:8089-8156. *)
  Definition unionArea th r o : res (poly T) :=
    if frEq th r o then Ok (plOfRect o)
    else
      do v <- frInterRect th r o;
      match v with
      | [] => if frInRect r o then Ok (plOfRect o) else if frInRect o r then Ok (plOfRect r) else Ok plEmpty
      | _ =>
          let (ra, rb) := if px (r1 r) <? px (r1 o) then (o, r) else (r, o) in
          let vx := idxSort [(px (r1 ra), 1%nat); (px (r2 ra), 1%nat); (px (r1 rb), 2%nat); (px (r2 rb), 2%nat)] in
          let vy := idxSort [(py (r1 ra), 1%nat); (py (r2 ra), 1%nat); (py (r1 rb), 2%nat); (py (r2 rb), 2%nat)] in
          do vpts <- parseTable (isCorner vx vy) 64 0 0 DE true [];
          do pl <- convertToCoord th vpts vx vy;
          plMinimize th true pl
      end.

  (** IoU, homog2d.hpp:9860-9866.  A null union area is a division by zero: [Undef]. *)
  Definition iou th r o : res T :=
    do ia <- intersectArea th r o;
    match ia with
    | None => Ok (#0)
    | Some x =>
        do u <- unionArea th r o;
        do (a, _) <- plAreaOf th true u;
        cdiv (frArea x) a
    end.
End FRect.
