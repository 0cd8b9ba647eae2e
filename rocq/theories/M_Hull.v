(** * Model of the convex hull (Graham scan) *)

From Coq Require Import ZArith List Bool Arith.
From Verif Require Import Num M_LP M_Seg M_Circle M_Poly.
Import ListNotations.
Local Open Scope num_scope.

Section Hull.
  Context {T : Type} {N : Num T}.
  Implicit Types (p q r : pt T) (pts : list (pt T)) (th : thrs T).

  (** Comparison used by chull::sortPoints, homog2d.hpp:11477-11486, around the pivot [p0]. *)
  Definition hullLt p0 p q : bool :=
    #0 <? (px p - px p0) * (py q - py p0) - (px q - px p0) * (py p - py p0).
  (** std::sort, homog2d.hpp:11473: insertion sort (what the usual implementation does with fewer than 16
      elements).  The order of equivalent elements is not specified by the standard. *)
  Fixpoint hullInsert (lt : nat -> nat -> bool) (x : nat) (l : list nat) : list nat :=
    match l with [] => [x] | y :: rest => if lt x y then x :: l else y :: hullInsert lt x rest end.
  Definition hullSort (lt : nat -> nat -> bool) (l : list nat) : list nat :=
    fold_left (fun acc x => hullInsert lt x acc) l [].
  (** chull::getPivotPoint, homog2d.hpp:11450-11456; chull::sortPoints, :11460-11489. *)
  Definition hullOrder pts : list nat :=
    let piv := minElem ltBm pts in
    let p0 := nth piv pts pt00 in
    match swapNth 0%nat (seq 0 (length pts)) 0 piv with
    | [] => []
    | i0 :: rest => i0 :: hullSort (fun i j => hullLt p0 (nth i pts pt00) (nth j pts pt00)) rest
    end.

  (** chull::orientation, homog2d.hpp:11502-11517: the macro HOMOG2D_THR_ZERO_DETER (:221) is used, not the
      current threshold. *)
  Definition hullOrient p q r : Z :=
    let val := (py q - py p) * (px r - px q) - (px q - px p) * (py r - py q) in
    if nabs val <? nullDeter thr0 then 0%Z else if #0 <? val then 1%Z else (-1)%Z.

  (** Main loop of convexHull, homog2d.hpp:11579-11603.  [g i] is input.at(v2[i]).  Both stacks are lists
      with the top first.  std::stack::top() of an empty stack is undefined.  [fuel] bounds the number of
      turns ([Undef] if exhausted, see the theorems). *)
  Fixpoint hullLoop (g : nat -> pt T) (v2 : list nat) (fuel : nat) (hull fp : list nat) (i1 i2 i3 : nat) : res (list nat) :=
    match fuel with
    | O => Undef
    | S f =>
        if Z.eqb (hullOrient (g i1) (g i2) (g i3)) 1 then
          match tl fp with
          | [] => Undef
          | k :: _ => hullLoop g v2 f (tl hull) (tl fp) k i1 i3
          end
        else
          let hull' := nth i3 v2 0%nat :: hull in
          if (i3 + 1 <? length v2)%nat then hullLoop g v2 f hull' (i2 :: fp) i2 i3 (i3 + 1)
          else Ok (rev hull')
    end.
  (** The points given to the constructor of the polyline, homog2d.hpp:11560-11617 (at least 4 points). *)
  Definition hullPts pts : res (list (pt T)) :=
    let v2 := hullOrder pts in
    let g i := nth (nth i v2 0%nat) pts pt00 in
    do idx <- hullLoop g v2 (2 * length pts) [nth 2 v2 0%nat; nth 1 v2 0%nat; nth 0 v2 0%nat] [1%nat; 0%nat] 1 2 3;
    Ok (map (fun i => nth i pts pt00) idx).
  (** convexHull, homog2d.hpp:11553-11620 (of a polyline: :11538-11543, 11625-11630). *)
  Definition convexHull th pts : res (poly T) :=
    if (length pts <? 4)%nat then plSet th pts else do v <- hullPts pts; plSet th v.
End Hull.
