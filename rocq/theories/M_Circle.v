(** * Model of circles (class Circle_) and of their intersections *)

From Coq Require Import ZArith List Bool.
From Verif Require Import Num M_LP M_Seg.
Import ListNotations.
Local Open Scope num_scope.

(** Circle_, homog2d.hpp:3196-3197 ([_radius], [_center]). *)
Record circle (T : Type) : Type := mkC { cc : pt T; cr : T }.
Arguments mkC {T}. Arguments cc {T}. Arguments cr {T}.

(** enum class PtTag, homog2d.hpp:8163-8166. *)
Inductive ptTag := TagInside | TagOutside | TagOnEdge.

Section Circle.
  Context {T : Type} {N : Num T}.
  Implicit Types (p q : pt T) (s : seg T) (c : circle T) (th : thrs T).

  (** Default constructor, homog2d.hpp:3204-3205. *)
  Definition cDefault : circle T := mkC (mkPt (#0) (#0)) (#1).

  (** Circle_(center,rad), homog2d.hpp:3241-3250, and set(center,rad), :3358-3362 (built aside, then
      swapped: nothing changes when it throws).  [noCheck] is the global thr::doNotCheckRadius(). *)
  Definition cNew th (noCheck : bool) p (rad : T) : res (circle T) :=
    if radiusOk th noCheck rad then Ok (mkC p rad) else Throw.

  (** set(pt1,pt2), homog2d.hpp:5572-5582. *)
  Definition cSet2 th p q : res (circle T) :=
    if ptEq th p q then Throw
    else do s <- svNew th KSeg p q; Ok (mkC (svCenter s) (svLength s / #2)).

  (** set(pt1,pt2,pt3), homog2d.hpp:5605-5627. *)
  Definition cSet3 th (p1 p2 p3 : pt T) : res (circle T) :=
    do col <- areCollinear th p1 p2 p3;
    if (col : bool) then Throw
    else
      let '(a, b, m) := getLargestDistancePoints p1 p2 p3 in
      do s1 <- svNew th KSeg a b; do s2 <- svNew th KSeg a m;
      do l1 <- svBisector th s1; do l2 <- svBisector th s2;
      if isParallel th l1 l2 then Throw
      else do o <- meet th l1 l2; Ok (mkC o (distPP o p1)).

  (** LPBase::isInside(center,radius), homog2d.hpp:4369-4382 (strict). *)
  Definition ptInCircle p c : bool := distPP p (cc c) <? cr c.

  (** priv::is_valid_circle, homog2d.hpp:5634-5643. *)
  Definition isValidCircle c (pts : list (pt T)) : bool := forallb (fun p => ptInCircle p c) pts.

  (** p_min_circle_trivial, homog2d.hpp:5655-5673; called with thr::doNotCheckRadius() set.  The
      vector has at most 3 points (the case of more than 3 is not reachable: [Undef]). *)
  Definition minCircleTrivial th (P : list (pt T)) : res (circle T) :=
    match P with
    | [] => cNew th true (mkPt (#0) (#0)) (#0)
    | [a] => cNew th true a (#0)
    | [a; b] => cSet2 th a b
    | [a; b; d] =>
        do c01 <- cSet2 th a b;
        if isValidCircle c01 P then Ok c01
        else do c02 <- cSet2 th a d;
             if isValidCircle c02 P then Ok c02
             else do c12 <- cSet2 th b d;
                  if isValidCircle c12 P then Ok c12
                  else cSet3 th a b d
    | _ => Undef
    end.

  (** std::swap( P[i], P[j] ) on a vector (indexes in range). *)
  Definition setNth {A} (l : list A) (i : nat) (x : A) : list A := firstn i l ++ x :: skipn (S i) l.
  Definition swapNth {A} (d : A) (l : list A) (i j : nat) : list A :=
    let a := nth i l d in let b := nth j l d in setNth (setNth l i b) j a.

  (** p_WelzlHelper, homog2d.hpp:5686-5716.  The vector [P] is passed by reference: the state after
      the call is returned.  std::rand() is an arbitrary sequence [rnd], with a counter [k]. *)
  Fixpoint welzl th (rnd : nat -> nat) (n : nat) (P R : list (pt T)) (k : nat) {struct n}
    : res (circle T * list (pt T) * nat) :=
    match n with
    | O => do c <- minCircleTrivial th R; Ok (c, P, k)
    | S m =>
        if Nat.eqb (length R) 3 then do c <- minCircleTrivial th R; Ok (c, P, k)
        else
          let idx := Nat.modulo (rnd k) n in
          let p := nth idx P (mkPt (#0) (#0)) in
          let P1 := swapNth (mkPt (#0) (#0)) P idx m in
          do (d, P2, k2) <- welzl th rnd m P1 R (S k);
          if ptInCircle p d then Ok (d, P2, k2)
          else welzl th rnd m P2 (R ++ [p]) k2
    end.

  (** set(container), homog2d.hpp:5737-5762.  Returns the outcome and the value of the global flag
      thr::doNotCheckRadius() afterwards ([flag] before): an exception leaves it at true. *)
  Definition cSetPts th (flag : bool) (rnd : nat -> nat) (pts : list (pt T)) : res (circle T) * bool :=
    match pts with
    | [] => (Throw, flag)
    | [_] => (Throw, flag)
    | [a; b] => (cSet2 th a b, flag)
    | [a; b; d] => (cSet3 th a b d, flag)
    | _ =>
        match (do (c, _, _) <- welzl th rnd (length pts) pts [] 0; cNew th true (cc c) (cr c)) with
        | Ok c => (Ok c, false)
        | Throw => (Throw, true)
        | Undef => (Undef, true)
        end
    end.

  (** operator ==, homog2d.hpp:3524-3531. *)
  Definition cEq th c (d : circle T) : bool :=
    if negb (cr c =? cr d) then false
    else if negb (ptEq th (cc c) (cc d)) then false else true.

  (** isInside(circle), homog2d.hpp:3441-3444. *)
  Definition cInCircle c (d : circle T) : bool := cr c + distPP (cc c) (cc d) <? cr d.

  (** implC_isInside, homog2d.hpp:3507-3518: p1, p2 the lower-left and upper-right corners. *)
  Definition cInRect c p1 p2 : bool :=
    if px (cc c) + cr c <? px p2 then
      if px (cc c) - cr c >? px p1 then
        if py (cc c) + cr c <? py p2 then
          if py (cc c) - cr c >? py p1 then true else false
        else false
      else false
    else false.

  (** translate, homog2d.hpp:3404-3409; moveTo / set(center), :3335-3338, 3420-3432; set(rad) and
      writes through radius(), :3294, 3351-3354 (no check). *)
  Definition cTranslate c (dx dy : T) : circle T := mkC (ptTranslate (cc c) dx dy) (cr c).
  Definition cMoveTo c p : circle T := mkC p (cr c).
  Definition cSetRadius c (r : T) : circle T := mkC (cc c) r.

  (** area and length, homog2d.hpp:3307-3316. *)
  Definition cArea c : T := cr c * cr c * npi.
  Definition cLength c : T := cr c * npi * #2.

  (** intersects(Circle_), homog2d.hpp:5805-5850: the points in the order they are added.  An
      undefined division or square root is [Undef]. *)
  Definition circleCircle th c (d : circle T) : res (list (pt T)) :=
    if cEq th c d then Ok []
    else
      let r1 := cr c in let r2 := cr d in
      let x1 := px (cc c) in let y1 := py (cc c) in
      let x2 := px (cc d) in let y2 := py (cc d) in
      let d2 := (x1 - x2) * (x1 - x2) + (y1 - y2) * (y1 - y2) in
      if d2 >? r1 * r1 + r2 * r2 + #2 * r1 * r2 then Ok []
      else if d2 <? r1 * r1 + r2 * r2 - #2 * r1 * r2 then Ok []
      else
        let dd := nsqrt d2 in
        do a <- cdiv ((r1 * r1 - r2 * r2 + d2) / #2) dd;
        do h <- csqrt (r1 * r1 - a * a);
        let x0 := (x2 - x1) * a / dd + x1 in
        let y0 := (y2 - y1) * a / dd + y1 in
        let p3 := mkPt (x0 + (y1 - y2) * h / dd) (y0 - (x1 - x2) * h / dd) in
        let p4 := mkPt (x0 - (y1 - y2) * h / dd) (y0 + (x1 - x2) * h / dd) in
        Ok (p3 :: if negb (ptEq th p3 p4) then [p4] else []).

  (** detail::getPtLabel, homog2d.hpp:8171-8181. *)
  Definition ptLabel th p c : ptTag :=
    if ptInCircle p c then TagInside
    else if nabs (distPP p (cc c) - cr c) <? nullDistance th then TagOnEdge
    else TagOutside.

  (** Segment/Circle intersection, homog2d.hpp:8295-8351: the points in the order they are added.
      get() on the line/circle result never throws here ([int_lc()] was tested).  The conversion
      of Inters_2 between number types is not modelled. *)
  Definition segCircle th s c : res (list (pt T)) :=
    let t1 := ptLabel th (sA s) c in
    let t2 := ptLabel th (sB s) c in
    match t1, t2 with
    | TagInside, TagInside => Ok []
    | _, _ =>
        do l <- svLine th s;
        match lineCircle l (cc c) (cr c) with
        | None => Ok []
        | Some (p1, p2) =>
            let d1 := distPP (sA s) p1 in
            let d2 := distPP (sB s) p1 in
            match t1, t2 with
            | TagInside, TagOutside | TagOutside, TagInside =>
                if nabs (d1 + d2 - svLength s) <? nullDistance th then Ok [p1] else Ok [p2]
            | TagOutside, TagOutside =>
                if nabs (d1 + d2 - svLength s) >=? nullDistance th then Ok [] else Ok [p1; p2]
            | _, _ =>
                Ok ((match t1 with TagOnEdge => [sA s] | _ => [] end)
                    ++ (match t2 with TagOnEdge => [sB s] | _ => [] end))
            end
        end
    end.

  (** ** Histories of a circle object, together with the global flag thr::doNotCheckRadius() *)

  (** The calls that modify a circle: constructor-like set(center,rad) (homog2d.hpp:3358), set(rad)
      or a write through radius() (:3294, :3351), set(center)/moveTo (:3335, :3420), translate (:3404),
      set from 2 points, 3 points or a container (:5572, :5605, :5737). *)
  Inductive cop :=
  | CSet (p : pt T) (r : T) | CRadius (r : T) | CMove (p : pt T) | CTranslate (dx dy : T)
  | CSet2 (p q : pt T) | CSet3 (p q r : pt T) | CSetPts (rnd : nat -> nat) (pts : list (pt T)).

  (** State: the object and the flag.  An exception is caught by the caller; none of the throwing
      calls has modified the object at that moment. *)
  Definition cStep th (st : circle T * bool) (op : cop) : circle T * bool :=
    let (c, flag) := st in
    let keep r := match r with Ok c' => c' | _ => c end in
    match op with
    | CSet p r => (keep (cNew th flag p r), flag)
    | CRadius r => (cSetRadius c r, flag)
    | CMove p => (cMoveTo c p, flag)
    | CTranslate dx dy => (cTranslate c dx dy, flag)
    | CSet2 p q => (keep (cSet2 th p q), flag)
    | CSet3 p q r => (keep (cSet3 th p q r), flag)
    | CSetPts rnd pts => let (r, flag') := cSetPts th flag rnd pts in (keep r, flag')
    end.
  Definition cRun th st ops := fold_left (cStep th) ops st.
End Circle.
Arguments cop T : clear implicits.
