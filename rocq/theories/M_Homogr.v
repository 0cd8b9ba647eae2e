(** * Model of 3x3 matrices and homographies (classes Matrix_ and Hmatrix_) *)

From Coq Require Import ZArith List Bool.
From Verif Require Import Num M_LP.
Local Open Scope num_scope.

(** matrix_t: 3x3 array of numbers ([_mdata], homog2d.hpp:1475). *)
Record mat (T : Type) : Type := mkM {
  m00 : T; m01 : T; m02 : T;
  m10 : T; m11 : T; m12 : T;
  m20 : T; m21 : T; m22 : T }.
Arguments mkM {T}.
Arguments m00 {T}. Arguments m01 {T}. Arguments m02 {T}.
Arguments m10 {T}. Arguments m11 {T}. Arguments m12 {T}.
Arguments m20 {T}. Arguments m21 {T}. Arguments m22 {T}.

Section Matrix.
  Context {T : Type} {N : Num T}.
  Implicit Types (m a b : mat T) (th : thrs T).

  Definition matMap (f : T -> T) m : mat T :=
    mkM (f (m00 m)) (f (m01 m)) (f (m02 m)) (f (m10 m)) (f (m11 m)) (f (m12 m))
        (f (m20 m)) (f (m21 m)) (f (m22 m)).

  (** Matrix_::p_fillZero / p_fillEye, homog2d.hpp:1589-1601. *)
  Definition matZero : mat T := mkM (#0) (#0) (#0) (#0) (#0) (#0) (#0) (#0) (#0).
  Definition matEye : mat T := mkM (#1) (#0) (#0) (#0) (#1) (#0) (#0) (#0) (#1).

  (** Matrix_::value, homog2d.hpp:1507-1520 (index check macro :137-141: throws out of range). *)
  Definition matGet m (r c : nat) : res T :=
    match r, c with
    | 0, 0 => Ok (m00 m) | 0, 1 => Ok (m01 m) | 0, 2 => Ok (m02 m)
    | 1, 0 => Ok (m10 m) | 1, 1 => Ok (m11 m) | 1, 2 => Ok (m12 m)
    | 2, 0 => Ok (m20 m) | 2, 1 => Ok (m21 m) | 2, 2 => Ok (m22 m)
    | _, _ => Throw
    end.

  (** Matrix_::set, homog2d.hpp:1499-1505. *)
  Definition matSet m (r c : nat) (v : T) : res (mat T) :=
    match r, c with
    | 0, 0 => Ok (mkM v (m01 m) (m02 m) (m10 m) (m11 m) (m12 m) (m20 m) (m21 m) (m22 m))
    | 0, 1 => Ok (mkM (m00 m) v (m02 m) (m10 m) (m11 m) (m12 m) (m20 m) (m21 m) (m22 m))
    | 0, 2 => Ok (mkM (m00 m) (m01 m) v (m10 m) (m11 m) (m12 m) (m20 m) (m21 m) (m22 m))
    | 1, 0 => Ok (mkM (m00 m) (m01 m) (m02 m) v (m11 m) (m12 m) (m20 m) (m21 m) (m22 m))
    | 1, 1 => Ok (mkM (m00 m) (m01 m) (m02 m) (m10 m) v (m12 m) (m20 m) (m21 m) (m22 m))
    | 1, 2 => Ok (mkM (m00 m) (m01 m) (m02 m) (m10 m) (m11 m) v (m20 m) (m21 m) (m22 m))
    | 2, 0 => Ok (mkM (m00 m) (m01 m) (m02 m) (m10 m) (m11 m) (m12 m) v (m21 m) (m22 m))
    | 2, 1 => Ok (mkM (m00 m) (m01 m) (m02 m) (m10 m) (m11 m) (m12 m) (m20 m) v (m22 m))
    | 2, 2 => Ok (mkM (m00 m) (m01 m) (m02 m) (m10 m) (m11 m) (m12 m) (m20 m) (m21 m) v)
    | _, _ => Throw
    end.

  (** Matrix_::p_det2x2, homog2d.hpp:1625-1630: v0v1 * v6v7 - v2v3 * v4v5. *)
  Definition det2 (w x y z : T) : T := w * z - x * y.

  (** Matrix_::determ, homog2d.hpp:1526-1532. *)
  Definition determ m : T :=
    m00 m * det2 (m11 m) (m12 m) (m21 m) (m22 m)
    - m01 m * det2 (m10 m) (m12 m) (m20 m) (m22 m)
    + m02 m * det2 (m10 m) (m11 m) (m20 m) (m21 m).

  (** Matrix_::transpose, homog2d.hpp:1535-1544. *)
  Definition matTranspose m : mat T :=
    mkM (m00 m) (m10 m) (m20 m) (m01 m) (m11 m) (m21 m) (m02 m) (m12 m) (m22 m).

  (** Matrix_::p_adjugate, homog2d.hpp:1633-1651. *)
  Definition adjugate m : mat T :=
    mkM (det2 (m11 m) (m12 m) (m21 m) (m22 m))
        (- det2 (m01 m) (m02 m) (m21 m) (m22 m))
        (det2 (m01 m) (m02 m) (m11 m) (m12 m))
        (- det2 (m10 m) (m12 m) (m20 m) (m22 m))
        (det2 (m00 m) (m02 m) (m20 m) (m22 m))
        (- det2 (m00 m) (m02 m) (m10 m) (m12 m))
        (det2 (m10 m) (m11 m) (m20 m) (m21 m))
        (- det2 (m00 m) (m01 m) (m20 m) (m21 m))
        (det2 (m00 m) (m01 m) (m10 m) (m11 m)).

  (** Matrix_::inverse, homog2d.hpp:1547-1558 (the determinant test is not under NOCHECKS). *)
  Definition matInverse th m : res (mat T) :=
    let det := determ m in
    if nabs det <? nullDeter th then Throw
    else Ok (matMap (fun e => e / det) (adjugate m)).

  (** Matrix_::p_normalizeMat(2,2), homog2d.hpp:1562-1577.  p_divideBy (:1581-1587) divides in
      place in row-major order, so that the divisor (2,2) is itself modified last: all elements are
      divided by the original value.  The sign test that follows looks at e/e. *)
  Definition matNormalize th m : res (mat T) :=
    if nabs (m22 m) <? nullDenom th then Throw
    else
      let d := matMap (fun e => e / m22 m) m in
      Ok (if m22 d <? #0 then matMap (fun e => - e) d else d).

  (** detail::product 3x3, homog2d.hpp:9588-9600 and operator* :1673-1679. *)
  Definition matMul a b : mat T :=
    mkM (m00 a * m00 b + m01 a * m10 b + m02 a * m20 b)
        (m00 a * m01 b + m01 a * m11 b + m02 a * m21 b)
        (m00 a * m02 b + m01 a * m12 b + m02 a * m22 b)
        (m10 a * m00 b + m11 a * m10 b + m12 a * m20 b)
        (m10 a * m01 b + m11 a * m11 b + m12 a * m21 b)
        (m10 a * m02 b + m11 a * m12 b + m12 a * m22 b)
        (m20 a * m00 b + m21 a * m10 b + m22 a * m20 b)
        (m20 a * m01 b + m21 a * m11 b + m22 a * m21 b)
        (m20 a * m02 b + m21 a * m12 b + m22 a * m22 b).

  (** detail::product 3x3 by 3x1, homog2d.hpp:9608-9621, for points and lines. *)
  Definition matMulH m (p : hpt T) : hpt T :=
    mkH (m00 m * h0 p + m01 m * h1 p + m02 m * h2 p)
        (m10 m * h0 p + m11 m * h1 p + m12 m * h2 p)
        (m20 m * h0 p + m21 m * h1 p + m22 m * h2 p).
  Definition matMulL m (l : line T) : line T :=
    mkL (m00 m * la l + m01 m * lb l + m02 m * lc l)
        (m10 m * la l + m11 m * lb l + m12 m * lc l)
        (m20 m * la l + m21 m * lb l + m22 m * lc l).
End Matrix.

(** ** Homography objects *)

(** State of a Homogr_ object: matrix and [_isNormalized] (homog2d.hpp:1475-1476),
    [_hasChanged] (:2037) and the lazily allocated cache [_hmt] (:2038). *)
Record hobj (T : Type) : Type := mkHobj {
  hm : mat T; isNorm : bool; hasChanged : bool; hmt : option (mat T) }.
Arguments mkHobj {T}. Arguments hm {T}. Arguments isNorm {T}. Arguments hasChanged {T}. Arguments hmt {T}.

Section Homography.
  Context {T : Type} {N : Num T}.
  Implicit Types (o h : hobj T) (m : mat T) (th : thrs T).

  (** Hmatrix_::init / impl_mat_init0, homog2d.hpp:1854-1857, 2027-2031: identity, marked
      normalised; [_hasChanged] is not touched. *)
  Definition hInit o : hobj T := mkHobj matEye true (hasChanged o) (hmt o).

  (** Default constructor, homog2d.hpp:1733-1736 with member initialisers :1476, 2037-2038. *)
  Definition hNew : hobj T := hInit (mkHobj matZero false true None).

  (** Hmatrix_::normalize, homog2d.hpp:1962-1966.  The check happens before any change. *)
  Definition hNormalize th o : res (hobj T) :=
    do m <- matNormalize th (hm o); Ok (mkHobj m true true (hmt o)).

  (** Constructor from a 3x3 array, homog2d.hpp:1780-1785 (and vector, :1764-1776, sizes ok). *)
  Definition hOfMat th m : res (hobj T) := hNormalize th (mkHobj m false true None).

  (** setTranslation / setRotation / setScale, homog2d.hpp:1874-1885, 1898-1909, 1938-1949. *)
  Definition hSetTranslation o (tx ty : T) : hobj T :=
    mkHobj (mkM (#1) (#0) tx (#0) (#1) ty (#0) (#0) (#1)) true true (hmt o).
  Definition hSetRotation o (theta : T) : hobj T :=
    mkHobj (mkM (ncos theta) (- nsin theta) (#0) (nsin theta) (ncos theta) (#0) (#0) (#0) (#1))
           true true (hmt o).
  Definition hSetScale o (kx ky : T) : hobj T :=
    mkHobj (mkM kx (#0) (#0) (#0) ky (#0) (#0) (#0) (#1)) true true (hmt o).

  (** Copy-constructor, homog2d.hpp:1788-1794. *)
  Definition hCopy o : hobj T := mkHobj (hm o) (isNorm o) true None.

  (** operator=, homog2d.hpp:1807-1813: copies the matrix only, not [_isNormalized]. *)
  Definition hAssign o other : hobj T := mkHobj (hm other) (isNorm o) true (hmt o).

  (** operator*(Hmatrix_,Hmatrix_), homog2d.hpp:1971-1978. *)
  Definition hMul th o h : res (hobj T) :=
    do o' <- hNormalize th (mkHobj (matMul (hm o) (hm h)) true true None);
    Ok o'.

  (** addTranslation / addRotation / addScale, homog2d.hpp:1864-1871, 1888-1895, 1919-1928:
      *this = out * *this. *)
  Definition hAddTranslation th o (tx ty : T) : res (hobj T) :=
    do p <- hMul th (hSetTranslation hNew tx ty) o; Ok (hAssign o p).
  Definition hAddRotation th o (theta : T) : res (hobj T) :=
    do p <- hMul th (hSetRotation hNew theta) o; Ok (hAssign o p).
  Definition hAddScale th o (kx ky : T) : res (hobj T) :=
    do p <- hMul th (hSetScale hNew kx ky) o; Ok (hAssign o p).

  (** Hmatrix_::inverse, homog2d.hpp:1816-1821.  Returns the outcome and the object afterwards:
      when normalize() throws, the matrix has already been replaced (:1555-1556). *)
  Definition hInverse th o : res unit * hobj T :=
    match matInverse th (hm o) with
    | Ok mi =>
        let o1 := mkHobj mi false (hasChanged o) (hmt o) in
        match hNormalize th o1 with
        | Ok o2 => (Ok tt, o2)
        | Throw => (Throw, o1)
        | Undef => (Undef, o1)
        end
    | Throw => (Throw, o)
    | Undef => (Undef, o)
    end.

  (** transpose(), inherited from Matrix_, homog2d.hpp:1535-1544: [_hasChanged] not touched. *)
  Definition hTranspose o : hobj T := mkHobj (matTranspose (hm o)) false (hasChanged o) (hmt o).

  (** set(r,c,v), and writes through value(r,c)& or getRaw() (inherited from Matrix_),
      homog2d.hpp:1495-1520: neither [_isNormalized] nor [_hasChanged] is touched. *)
  Definition hSet o (r c : nat) (v : T) : res (hobj T) :=
    do m <- matSet (hm o) r c v; Ok (mkHobj m (isNorm o) (hasChanged o) (hmt o)).

  (** operator==, homog2d.hpp:1985-2002: may normalise both (const!) operands.  Returns the answer
      and both objects afterwards.  Aliasing (h == h) is not modelled. *)
  Definition matClose th (a b : mat T) : bool :=
    let far x y := nabs (x - y) >=? nullDeter th in
    negb (far (m00 a) (m00 b) || far (m01 a) (m01 b) || far (m02 a) (m02 b)
          || far (m10 a) (m10 b) || far (m11 a) (m11 b) || far (m12 a) (m12 b)
          || far (m20 a) (m20 b) || far (m21 a) (m21 b) || far (m22 a) (m22 b)).
  Definition hEq th o h : res (bool * hobj T * hobj T) :=
    do o' <- (if isNorm o then Ok o else hNormalize th o);
    do h' <- (if isNorm h then Ok h else hNormalize th h);
    Ok (matClose th (hm o') (hm h'), o', h').

  (** operator*(Homogr_,Point2d_), homog2d.hpp:9668-9673 (no normalisation). *)
  Definition hApplyPt o (p : hpt T) : hpt T := matMulH (hm o) p.

  (** operator*(Homogr_,Line2d_), homog2d.hpp:9678-9698: outcome and object afterwards.
      The copy [hi] has its own matrix; its inverse() normalises and may throw. *)
  Definition hApplyLine th o (l : line T) : res (line T) * hobj T :=
    let o1 := match hmt o with
              | None => mkHobj (hm o) (isNorm o) true (Some matZero)
              | Some _ => o
              end in
    if hasChanged o1 then
      match hInverse th (hCopy o1) with
      | (Ok _, hi) =>
          let mi := matTranspose (hm hi) in
          let o2 := mkHobj (hm o1) (isNorm o1) false (Some mi) in
          (lnorm th (matMulL mi l), o2)
      | (Throw, _) => (Throw, o1)
      | (Undef, _) => (Undef, o1)
      end
    else
      match hmt o1 with
      | Some mi => (lnorm th (matMulL mi l), o1)
      | None => (Undef, o1)
      end.
End Homography.

(** ** Histories of a homography object *)

(** The public mutating operations and the (const) queries. *)
Inductive hop (T : Type) : Type :=
| OpInit | OpSetTranslation (tx ty : T) | OpSetRotation (t : T) | OpSetScale (kx ky : T)
| OpAddTranslation (tx ty : T) | OpAddRotation (t : T) | OpAddScale (kx ky : T)
| OpInverse | OpTranspose | OpNormalize
| OpSet (r c : nat) (v : T)              (* set(), value()&, getRaw()& writes *)
| OpAssign (m : mat T)                   (* assignment from an object holding this matrix *)
| OpCompare (m : mat T)                  (* comparison with an object built from this matrix *)
| OpApplyLine (l : line T).
Arguments OpInit {T}. Arguments OpSetTranslation {T}. Arguments OpSetRotation {T}. Arguments OpSetScale {T}.
Arguments OpAddTranslation {T}. Arguments OpAddRotation {T}. Arguments OpAddScale {T}.
Arguments OpInverse {T}. Arguments OpTranspose {T}. Arguments OpNormalize {T}. Arguments OpSet {T}.
Arguments OpAssign {T}. Arguments OpCompare {T}. Arguments OpApplyLine {T}.

Section History.
  Context {T : Type} {N : Num T}.

  Definition keep {A} (o : A) (r : res A) : A := match r with Ok o' => o' | _ => o end.

  (** State after an operation; an exception is caught by the caller and the object kept as it is
      at that moment. *)
  Definition hStep (th : thrs T) (o : hobj T) (op : hop T) : hobj T :=
    match op with
    | OpInit => hInit o
    | OpSetTranslation tx ty => hSetTranslation o tx ty
    | OpSetRotation t => hSetRotation o t
    | OpSetScale kx ky => hSetScale o kx ky
    | OpAddTranslation tx ty => keep o (hAddTranslation th o tx ty)
    | OpAddRotation t => keep o (hAddRotation th o t)
    | OpAddScale kx ky => keep o (hAddScale th o kx ky)
    | OpInverse => snd (hInverse th o)
    | OpTranspose => hTranspose o
    | OpNormalize => keep o (hNormalize th o)
    | OpSet r c v => keep o (hSet o r c v)
    | OpAssign m => hAssign o (mkHobj m true true None)
    | OpCompare m =>
        keep o (do h <- hOfMat th m;
                do o' <- (if isNorm o then Ok o else hNormalize th o); Ok o')
    | OpApplyLine l => snd (hApplyLine th o l)
    end.
  Definition hRun (th : thrs T) (o : hobj T) (ops : list (hop T)) : hobj T :=
    fold_left (hStep th) ops o.
End History.

Section Rotated.
  Context {T : Type} {N : Num T}.
  (** LPBase::getRotatedLine, homog2d.hpp:8919-8935. *)
  Definition getRotatedLine (th : thrs T) (l : line T) (p : pt T) (theta : T) : res (line T) :=
    if lineDist l p >? nullDistance th then Throw
    else
      do o1 <- hAddTranslation th hNew (- px p) (- py p);
      do o2 <- hAddRotation th o1 theta;
      do o3 <- hAddTranslation th o2 (px p) (py p);
      fst (hApplyLine th o3 l).
End Rotated.

(** ** Two or more threads evaluating H*line on the same object *)

(** Control point of a thread inside operator*(Homogr_,Line2d_), homog2d.hpp:9678-9698; one step per
    access to the shared members [_hmt] and [_hasChanged].
    Simplification: sequentially consistent memory and atomic word/matrix accesses (in C++ the
    unsynchronised accesses are a data race, undefined behaviour); the matrix freed by the second
    allocation is not tracked. *)
Inductive tpc (T : Type) : Type :=
| PTestNull                       (* :9680 *)
| PAlloc                          (* :9682 *)
| PSetChanged                     (* :9683 *)
| PTestChanged                    (* :9686 *)
| PInvert                         (* :9688-9689, on a local copy *)
| PStore (mi : mat T)             (* :9690 *)
| PClear                          (* :9691 *)
| PProduct                        (* :9694-9697 *)
| PDone (r : res (line T)).
Arguments PTestNull {T}. Arguments PAlloc {T}. Arguments PSetChanged {T}. Arguments PTestChanged {T}.
Arguments PInvert {T}. Arguments PStore {T}. Arguments PClear {T}. Arguments PProduct {T}. Arguments PDone {T}.

Section Threads.
  Context {T : Type} {N : Num T}.
  (** One step of one thread computing H * l. *)
  Definition tStep (th : thrs T) (l : line T) (o : hobj T) (pc : tpc T) : hobj T * tpc T :=
    match pc with
    | PTestNull => (o, match hmt o with None => PAlloc | Some _ => PTestChanged end)
    | PAlloc => (mkHobj (hm o) (isNorm o) (hasChanged o) (Some matZero), PSetChanged)
    | PSetChanged => (mkHobj (hm o) (isNorm o) true (hmt o), PTestChanged)
    | PTestChanged => (o, if hasChanged o then PInvert else PProduct)
    | PInvert => (o, match hInverse th (hCopy o) with
                     | (Ok _, hi) => PStore (matTranspose (hm hi))
                     | (Throw, _) => PDone Throw
                     | (Undef, _) => PDone Undef
                     end)
    | PStore mi => (mkHobj (hm o) (isNorm o) (hasChanged o) (Some mi), PClear)
    | PClear => (mkHobj (hm o) (isNorm o) false (hmt o), PProduct)
    | PProduct => (o, PDone (match hmt o with
                             | Some mi => lnorm th (matMulL mi l)
                             | None => Undef
                             end))
    | PDone r => (o, PDone r)
    end.

  (** All threads: lines to transform and control points; a schedule is a list of thread indices. *)
  Fixpoint upd {A} (xs : list A) (i : nat) (x : A) : list A :=
    match xs, i with
    | nil, _ => nil
    | _ :: r, 0 => cons x r
    | y :: r, S j => cons y (upd r j x)
    end.
  Definition sched1 (th : thrs T) (st : hobj T * list (line T * tpc T)) (i : nat) : hobj T * list (line T * tpc T) :=
    match nth_error (snd st) i with
    | Some (l, pc) => let (o', pc') := tStep th l (fst st) pc in (o', upd (snd st) i (l, pc'))
    | None => st
    end.
  Definition schedRun (th : thrs T) (st : hobj T * list (line T * tpc T)) (s : list nat) :=
    fold_left (sched1 th) s st.
End Threads.
