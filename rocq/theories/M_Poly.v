(** * Model of polylines (class PolylineBase) *)

From Coq Require Import ZArith List Bool Arith.
From Verif Require Import Num M_LP M_Seg.
Import ListNotations.
Local Open Scope num_scope.

(** enum class Rotate, homog2d.hpp:913-920. *)
Inductive rot := RotCCW | RotCW | RotFull | RotV | RotH.

(** Members of PolylineBase, homog2d.hpp:6092-6094, with the four cached attributes of
    PolylineAttribs, :5878-5892 ([None]: ValueFlag::isBad(), :5858-5873). *)
Record poly (T : Type) : Type := mkPl {
  plPts : list (pt T);
  plNorm : bool;
  plLen : option T;
  plArea : option T;
  plSimple : option bool;
  plCent : option (pt T)
}.
Arguments mkPl {T}. Arguments plPts {T}. Arguments plNorm {T}. Arguments plLen {T}.
Arguments plArea {T}. Arguments plSimple {T}. Arguments plCent {T}.

(** A loop whose body may throw and that stops at the first [true] (a for loop with a break or a
    return, as at homog2d.hpp:7403-7409). *)
Fixpoint anyM {A} (f : A -> res bool) (l : list A) : res bool :=
  match l with
  | [] => Ok false
  | x :: r => do b <- f x; if (b : bool) then Ok true else anyM f r
  end.

(** A loop whose body may throw and pushes one element at each turn (as at homog2d.hpp:6008-6013). *)
Fixpoint mapM {A B} (f : A -> res B) (l : list A) : res (list B) :=
  match l with
  | [] => Ok []
  | x :: r => do y <- f x; do ys <- mapM f r; Ok (y :: ys)
  end.

(** std::min_element with a comparison [lt]: index of the first smallest element (0 if empty). *)
Fixpoint minElemFrom {A} (lt : A -> A -> bool) (best : A) (bi i : nat) (l : list A) : nat :=
  match l with
  | [] => bi
  | x :: r => if lt x best then minElemFrom lt x i (S i) r else minElemFrom lt best bi (S i) r
  end.
Definition minElem {A} (lt : A -> A -> bool) (l : list A) : nat :=
  match l with [] => 0%nat | x :: r => minElemFrom lt x 0 1 r end.

(** std::rotate( begin, begin+k, end ). *)
Definition rotateL {A} (k : nat) (l : list A) : list A := skipn k l ++ firstn k l.

Section Poly.
  Context {T : Type} {N : Num T}.
  Implicit Types (p q : pt T) (pts : list (pt T)) (th : thrs T) (pl : poly T) (closed : bool).

  (** Value used for an index out of range; no theorem depends on it ([std::vector::operator[]]
      is only called in range, see each function). *)
  Definition pt00 : pt T := mkPt (#0) (#0).

  (** A polyline whose cached values are all invalid. *)
  Definition plFresh (pts : list (pt T)) : poly T := mkPl pts false None None None None.

  (** Default constructor, homog2d.hpp:6101; clear(), :6379-6384. *)
  Definition plEmpty : poly T := plFresh [].

  (** nbSegs, homog2d.hpp:6249-6257. *)
  Definition plNbSegs closed pts : nat :=
    if (length pts <? 2)%nat then 0%nat else if closed then length pts else (length pts - 1)%nat.

  (** getPoint, homog2d.hpp:6324-6333. *)
  Definition plPoint pts (idx : nat) : res (pt T) :=
    if (length pts <=? idx)%nat then Throw else Ok (nth idx pts pt00).

  (** impl_getSegment, homog2d.hpp:6338-6353. *)
  Definition plSegment th closed (k : skind) pts (idx : nat) : res (seg T) :=
    if (plNbSegs closed pts <=? idx)%nat then Throw
    else if (length pts <? 2)%nat then Throw
    else
      let nx := if closed then (if (idx + 1 =? plNbSegs closed pts)%nat then 0 else idx + 1)%nat
                else (idx + 1)%nat in
      svNew th k (nth idx pts pt00) (nth nx pts pt00).

  (** priv::p_getSegs, homog2d.hpp:6000-6017 (getSegs() and getOSegs(), :6312-6321). *)
  Definition plSegs th closed (k : skind) pts : res (list (seg T)) :=
    let siz := length pts in
    if (siz <? 2)%nat then Ok []
    else
      do out <- mapM (fun i => do p1 <- plPoint pts i; do p2 <- plPoint pts (i + 1); svNew th k p1 p2)
                     (seq 0 (siz - 1));
      if closed
      then do p1 <- plPoint pts (siz - 1); do p2 <- plPoint pts 0;
           do s <- svNew th k p1 p2; Ok (out ++ [s])
      else Ok out.

  (** p_checkInputData, homog2d.hpp:6508-6527 (called with at least 2 points): true if accepted. *)
  Fixpoint noConsecEq th pts : bool :=
    match pts with
    | p :: (q :: _) as r => negb (ptEq th p q) && noConsecEq th r
    | _ => true
    end.
  Definition plCheck th pts : bool :=
    noConsecEq th pts && negb (ptEq th (hd pt00 pts) (last pts pt00)).

  (** set(container), homog2d.hpp:6465-6479, and the constructor from a container, :6128-6131: the
      checks come before any change. *)
  Definition plSet th pts : res (poly T) :=
    if (length pts =? 1)%nat then Throw
    else if (1 <? length pts)%nat && negb (plCheck th pts) then Throw
    else Ok (plFresh pts).

  (** p_addPoint, homog2d.hpp:6279-6291. *)
  Definition plAddPoint th pl p : res (poly T) :=
    match plPts pl with
    | [] => Ok (plFresh [p])
    | _ => if ptEq th p (last (plPts pl) pt00) then Throw else Ok (plFresh (plPts pl ++ [p]))
    end.
  (** A loop of p_addPoint on a new object, as at homog2d.hpp:7346-7361 and 9716-9719. *)
  Fixpoint plAddAll th pl pts : res (poly T) :=
    match pts with [] => Ok pl | p :: r => do pl' <- plAddPoint th pl p; plAddAll th pl' r end.

  (** Non-const getPts(), homog2d.hpp:6299-6304, followed by a modification of the vector. *)
  Definition plWrite pts : poly T := plFresh pts.

  (** ** Modifying functions *)

  (** translate, homog2d.hpp:6415-6421: the cached values are not invalidated.  Simplification:
      Euclidean coordinates (a point translate never throws, see [htranslate]). *)
  Definition plTranslate pl (dx dy : T) : poly T :=
    mkPl (map (fun p => ptTranslate p dx dy) (plPts pl)) (plNorm pl) (plLen pl) (plArea pl) (plSimple pl) (plCent pl).

  (** moveTo, homog2d.hpp:6444-6452: same remark. *)
  Definition plMoveTo pl p : res (poly T) :=
    match plPts pl with
    | [] => Throw
    | p0 :: _ => Ok (plTranslate pl (px p - px p0) (py p - py p0))
    end.

  (** One point of rotate(Rotate), homog2d.hpp:7289-7313. *)
  Definition ptRotate (r : rot) p : pt T :=
    match r with
    | RotCCW => mkPt (- py p) (px p)
    | RotCW => mkPt (py p) (- px p)
    | RotFull => mkPt (- px p) (- py p)
    | RotV => mkPt (- px p) (py p)
    | RotH => mkPt (px p) (- py p)
    end.
  (** rotate(Rotate), homog2d.hpp:7287-7314: through getPts(), so the cached values are invalidated. *)
  Definition plRotate pl (r : rot) : poly T := plFresh (map (ptRotate r) (plPts pl)).
  (** rotate(Rotate,refpt), homog2d.hpp:7269-7274. *)
  Definition plRotateAt pl (r : rot) p : poly T :=
    plTranslate (plRotate (plTranslate pl (- px p) (- py p)) r) (px p) (py p).

  (** Previous and next index of a closed polyline, homog2d.hpp:7328-7329, 7446-7448, 7504. *)
  Definition nextIdx (n i : nat) : nat := if (i =? n - 1)%nat then 0%nat else (i + 1)%nat.
  Definition prevIdx (n i : nat) : nat := if (i =? 0)%nat then (n - 1)%nat else (i - 1)%nat.

  (** Step 1 of p_minimizePL, homog2d.hpp:7327-7339: point [i] is between two segments of same angle. *)
  Definition plIsMiddle th pts (i : nat) : bool :=
    let n := length pts in
    let p0 := nth i pts pt00 in
    let pnext := nth (nextIdx n i) pts pt00 in
    let pprev := nth (prevIdx n i) pts pt00 in
    let a1 := natan2 (px pnext - px p0) (py pnext - py p0) in
    let a2 := natan2 (px p0 - px pprev) (py p0 - py pprev) in
    nabs (a1 - a2) <? nullAngleValue th.

  (** Step 2, homog2d.hpp:7344-7361: the points are copied, the running index vec_idx (here the head of
      [rm]) is advanced at each index to remove. *)
  Fixpoint plKeepFrom (i : nat) (rm : list nat) pts : list (pt T) :=
    match pts with
    | [] => []
    | p :: r =>
        match rm with
        | j :: rm' => if (j =? i)%nat then plKeepFrom (S i) rm' r else p :: plKeepFrom (S i) rm r
        | [] => p :: plKeepFrom (S i) [] r
        end
    end.
  Definition plKeep (rm : list nat) pts : list (pt T) := plKeepFrom 0 rm pts.

  (** minimize, homog2d.hpp:6406-6411, 7365-7378 (bounds) and p_minimizePL, :7320-7363.  Everything is
      built aside then swapped: nothing changes when it throws. *)
  Definition plMinimize th closed pl : res (poly T) :=
    let pts := plPts pl in
    let n := length pts in
    if (n <? 3)%nat then Ok pl
    else
      let range := if closed then seq 0 n else seq 1 (n - 2) in
      let rm := filter (plIsMiddle th pts) range in
      match rm with
      | [] => Ok pl
      | _ => plAddAll th plEmpty (plKeep rm pts)
      end.

  (** setParallelogram, homog2d.hpp:6769-6792. *)
  Definition plParallelogram th (p1 p2 p3 : pt T) : res (poly T) :=
    do li21 <- lineOf th p1 p2;
    do li23 <- lineOf th p3 p2;
    do li34 <- getParallelLine th li21 p3;
    do li14 <- getParallelLine th li23 p1;
    do p4 <- meet th li34 li14;
    plSet th [p1; p2; p3; p4].

  (** Points of the regular convex polygon, homog2d.hpp:6829-6847. *)
  Definition rcpPoint (rad : T) (n i : nat) : pt T :=
    let angle0 := #2 * npi / nZ (Z.of_nat n) in
    let angle := angle0 * nZ (Z.of_nat i) in
    mkPt (ncos angle * rad) (nsin angle * rad).
  (** Line constructor from one point: the line through the origin, homog2d.hpp:3869-3872, 4036-4045. *)
  Definition lineFromOrigin th p : res (line T) := lnorm th (crossPP (hOfPt p) (hOfPt pt00)).
  (** set(rad,n), homog2d.hpp:6802-6854: the polyline, the distance between two points, the radius of
      the inscribed circle.  A failed assert is [Undef]. *)
  Definition plRCP th (rad : T) (n : nat) : res (poly T * T * T) :=
    if (n <? 3)%nat then Throw
    else if rad <=? #0 then Throw
    else
      let pts := map (rcpPoint rad n) (seq 0 n) in
      do sg <- svNew th KSeg (mkPt rad (#0)) (rcpPoint rad n 1);
      do li <- lineFromOrigin th (svCenter sg);
      do it <- segInterLine th sg li;
      match it with
      | None => Undef
      | Some pi =>
          do pl <- plSet th pts;
          Ok (pl, distPP (nth 0 pts pt00) (nth 1 pts pt00), distPP (mkPt (#0) (#0)) pi)
      end.

  (** ** Attributes *)

  (** Body of isSimple, homog2d.hpp:7395-7413 (closed, at least 3 points). *)
  Definition simpleCalc th pts : res bool :=
    let nbs := plNbSegs true pts in
    do has <- anyM (fun i =>
                do seg1 <- plSegment th true KSeg pts i;
                let lastone := if (i =? 0)%nat then (nbs - 1)%nat else nbs in
                anyM (fun j => do s2 <- plSegment th true KSeg pts j;
                               do it <- segInterSeg th s2 seg1;
                               Ok (match it with Some _ => true | None => false end))
                     (seq (i + 2) (lastone - (i + 2))))
              (seq 0 nbs);
    Ok (negb has).

  (** isSimple, homog2d.hpp:7385-7417: value and object after the call. *)
  Definition plIsSimple th closed pl : res (bool * poly T) :=
    if (length (plPts pl) <? 3)%nat then Ok (false, pl)
    else if negb closed then Ok (false, pl)
    else match plSimple pl with
         | Some b => Ok (b, pl)
         | None =>
             do b <- simpleCalc th (plPts pl);
             Ok (b, mkPl (plPts pl) (plNorm pl) (plLen pl) (plArea pl) (Some b) (plCent pl))
         end.

  (** isConvex, homog2d.hpp:7434-7463.  The variable [sign] is 0 before the first turn. *)
  Definition plCross pts (i : nat) : T :=
    let n := length pts in
    let p0 := nth (prevIdx n i) pts pt00 in
    let p1 := nth i pts pt00 in
    let p2 := nth (nextIdx n i) pts pt00 in
    let dx1 := px p1 - px p0 in let dy1 := py p1 - py p0 in
    let dx2 := px p2 - px p1 in let dy2 := py p2 - py p1 in
    dx1 * dy2 - dy1 * dx2.
  Fixpoint convexLoop pts (sgn : Z) (idx : list nat) : bool :=
    match idx with
    | [] => true
    | i :: r =>
        let s := if #0 <? plCross pts i then 1%Z else (-1)%Z in
        if Z.eqb sgn 0 then convexLoop pts s r
        else if negb (Z.eqb sgn s) then false else convexLoop pts sgn r
    end.
  Definition plIsConvex th closed pl : res (bool * poly T) :=
    do (b, pl1) <- plIsSimple th closed pl;
    if negb b then Ok (false, pl1)
    else if (length (plPts pl1) =? 3)%nat then Ok (true, pl1)
    else Ok (convexLoop (plPts pl1) 0 (seq 0 (length (plPts pl1))), pl1).

  (** length, homog2d.hpp:7469-7479. *)
  Definition lengthCalc th closed pts : res T :=
    do segs <- plSegs th closed KSeg pts; Ok (fold_left (fun sum s => sum + svLength s) segs (#0)).
  Definition plLength th closed pl : res (T * poly T) :=
    match plLen pl with
    | Some v => Ok (v, pl)
    | None =>
        do v <- lengthCalc th closed (plPts pl);
        Ok (v, mkPl (plPts pl) (plNorm pl) (Some v) (plArea pl) (plSimple pl) (plCent pl))
    end.

  (** p_ComputeSignedArea, homog2d.hpp:7499-7511. *)
  Definition signedArea pts : T :=
    let n := length pts in
    fold_left (fun area i =>
                 let p1 := nth i pts pt00 in
                 let p2 := nth (nextIdx n i) pts pt00 in
                 area + px p1 * py p2 - py p1 * px p2) (seq 0 n) (#0) / #2.

  (** area, homog2d.hpp:7485-7493. *)
  Definition plAreaOf th closed pl : res (T * poly T) :=
    do (b, pl1) <- plIsSimple th closed pl;
    if negb b then Ok (#0, pl1)
    else match plArea pl1 with
         | Some v => Ok (v, pl1)
         | None =>
             let v := nabs (signedArea (plPts pl1)) in
             Ok (v, mkPl (plPts pl1) (plNorm pl1) (plLen pl1) (Some v) (plSimple pl1) (plCent pl1))
         end.

  (** Body of centroid, homog2d.hpp:7529-7549.  A null area is a division by zero: [Undef]. *)
  Definition centroidCalc pts : res (pt T) :=
    let n := length pts in
    let '(cx, cy) :=
      fold_left (fun c i =>
                   let p1 := nth i pts pt00 in
                   let p2 := nth (nextIdx n i) pts pt00 in
                   let prod := px p1 * py p2 - px p2 * py p1 in
                   (fst c + (px p1 + px p2) * prod, snd c + (py p1 + py p2) * prod))
                (seq 0 n) (#0, #0) in
    let sa := signedArea pts in
    do x <- cdiv cx (#6 * sa);
    do y <- cdiv cy (#6 * sa);
    Ok (mkPt x y).
  (** centroid, homog2d.hpp:7522-7553. *)
  Definition plCentroid th closed pl : res (pt T * poly T) :=
    do (b, pl1) <- plIsSimple th closed pl;
    if negb b then Throw
    else match plCent pl1 with
         | Some v => Ok (v, pl1)
         | None =>
             do v <- centroidCalc (plPts pl1);
             Ok (v, mkPl (plPts pl1) (plNorm pl1) (plLen pl1) (plArea pl1) (plSimple pl1) (Some v))
         end.

  (** ** Comparison *)

  (** Points after p_normalizePoly, homog2d.hpp:7572-7610.  _plinevec[1] of a one-point polyline is
      undefined behaviour. *)
  Definition normPts closed pts : res (list (pt T)) :=
    if closed then
      match rotateL (minElem ptLt pts) pts with
      | [] => Ok []
      | [_] => Undef
      | (ptB :: ptA :: _) as v =>
          let ptC := last v pt00 in
          let det := (px ptB - px ptA) * (py ptC - py ptA) - (px ptC - px ptA) * (py ptB - py ptA) in
          if det <? #0 then let w := rev v in Ok (rotateL (minElem ptLt w) w) else Ok v
      end
    else
      match pts with
      | [] => Ok []
      | front :: _ => if ptLt (last pts pt00) front then Ok (rev pts) else Ok pts
      end.
  Definition plNormalize closed pl : res (poly T) :=
    match plPts pl with
    | [] => Ok pl
    | _ =>
        if plNorm pl then Ok pl
        else do v <- normPts closed (plPts pl);
             Ok (mkPl v true (plLen pl) (plArea pl) (plSimple pl) (plCent pl))
    end.

  (** operator ==, homog2d.hpp:6537-6555, for two polylines of the same kind (different kinds compare
      different): result and both objects after the call. *)
  Definition plEq th closed pl (pl2 : poly T) : res (bool * poly T * poly T) :=
    if negb (length (plPts pl) =? length (plPts pl2))%nat then Ok (false, pl, pl2)
    else
      do a <- plNormalize closed pl;
      do b <- plNormalize closed pl2;
      Ok (forallb (fun c => ptEq th (fst c) (snd c)) (combine (plPts b) (plPts a)), a, b).

  (** ** Bounding box and extreme points *)

  (** shareCommonCoord, homog2d.hpp:1319-1329. *)
  Definition shareCoord th p q : bool :=
    (nabs (px p - px q) <? nullOrthogDistance th) || (nabs (py p - py q) <? nullOrthogDistance th).

  (** std::minmax_element on one coordinate, homog2d.hpp:5913-5930: the two values. *)
  Definition minOf (f : pt T -> T) p pts : T := fold_left (fun m q => if f q <? m then f q else m) pts (f p).
  Definition maxOf (f : pt T -> T) p pts : T := fold_left (fun m q => if f q <? m then m else f q) pts (f p).

  (** priv::getBB_Points, homog2d.hpp:5907-5948.  An empty container is undefined behaviour (the
      check is only there in debug mode). *)
  Definition bbPoints th pts : res (pt T * pt T) :=
    match pts with
    | [] => Undef
    | p :: r =>
        let p1 := mkPt (minOf px p r) (minOf py p r) in
        let p2 := mkPt (maxOf px p r) (maxOf py p r) in
        if distPP p1 p2 <? nullDistance th then Throw
        else if shareCoord th p1 p2 then Throw
        else Ok (p1, p2)
    end.

  (** Comparisons of getBmPoint / getTmPoint / getLmPoint / getRmPoint, homog2d.hpp:6896-6900,
      6959-6963, 7006-7010, 7047-7051. *)
  Definition ltBm p q : bool := if py p <? py q then true else if py p >? py q then false else px p <? px q.
  Definition ltTm p q : bool := if py p >? py q then true else if py p <? py q then false else px p <? px q.
  Definition ltLm p q : bool := if px p <? px q then true else if px p >? px q then false else py p <? py q.
  Definition ltRm p q : bool := if px p >? px q then true else if px p <? px q then false else py p <? py q.

  (** enum class CardDir, homog2d.hpp:922, and getExtremePoint (free function on a container),
      :7097-7109 with :6919-7059: the point and its index.  The member function of the same name
      (:7117) does not compile. *)
  Definition extremePoint (lt : pt T -> pt T -> bool) pts : res (pt T * nat) :=
    match pts with
    | [] => Throw
    | _ => let i := minElem lt pts in Ok (nth i pts pt00, i)
    end.

  (** ** Histories of one polyline object *)

  (** The calls that modify or query a polyline: set from a container (homog2d.hpp:6465), clear (:6379),
      translate (:6415), moveTo (:6444), rotate (:7287, :7269), minimize (:6406), non-const getPts() and a
      modification of the vector before any other call (:6299), setParallelogram (:6769), set(rad,n)
      (:6802), and the const functions that write the mutable members: length (:7469), area (:7485),
      isSimple (:7385), isConvex (:7434), centroid (:7522), comparison (:6537). *)
  Inductive plop :=
  | PSet (pts : list (pt T)) | PClear | PTranslate (dx dy : T) | PMoveTo (p : pt T)
  | PRotate (r : rot) | PRotateAt (r : rot) (p : pt T) | PMinimize | PWrite (pts : list (pt T))
  | PParallelogram (p q r : pt T) | PRCP (rad : T) (n : nat)
  | PLength | PArea | PSimple | PConvex | PCentroid | PCompare (other : poly T).

  (** An exception is caught by the caller: none of the throwing calls has modified the points at that
      moment.  (isSimple may already have stored its value when centroid throws; keeping the object
      unchanged instead only drops a cached value.)  An undefined behaviour stops the history: [None]. *)
  Definition keepPl {A} pl (r : res (A * poly T)) : option (poly T) :=
    match r with Ok (_, pl') => Some pl' | Throw => Some pl | Undef => None end.
  Definition keepPl0 pl (r : res (poly T)) : option (poly T) :=
    match r with Ok pl' => Some pl' | Throw => Some pl | Undef => None end.
  Definition plStep th closed (pl : poly T) (op : plop) : option (poly T) :=
    match op with
    | PSet pts => keepPl0 pl (plSet th pts)
    | PClear => Some plEmpty
    | PTranslate dx dy => Some (plTranslate pl dx dy)
    | PMoveTo p => keepPl0 pl (plMoveTo pl p)
    | PRotate r => Some (plRotate pl r)
    | PRotateAt r p => Some (plRotateAt pl r p)
    | PMinimize => keepPl0 pl (plMinimize th closed pl)
    | PWrite pts => Some (plWrite pts)
    | PParallelogram p q r => keepPl0 pl (plParallelogram th p q r)
    | PRCP rad n => keepPl0 pl (do (r, _, _) <- plRCP th rad n; Ok r)
    | PLength => keepPl pl (plLength th closed pl)
    | PArea => keepPl pl (plAreaOf th closed pl)
    | PSimple => keepPl pl (plIsSimple th closed pl)
    | PConvex => keepPl pl (plIsConvex th closed pl)
    | PCentroid => keepPl pl (plCentroid th closed pl)
    | PCompare other => keepPl pl (do (b, a, _) <- plEq th closed pl other; Ok (b, a))
    end.
  Fixpoint plRun th closed (pl : poly T) (ops : list plop) : option (poly T) :=
    match ops with
    | [] => Some pl
    | op :: r => match plStep th closed pl op with Some pl' => plRun th closed pl' r | None => None end
    end.
End Poly.
Arguments plop T : clear implicits.
