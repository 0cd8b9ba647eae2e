(** * Model of conversions between polylines, of matrices built from vectors, and of homographies applied to containers *)

From Coq Require Import ZArith List Bool Arith.
From Verif Require Import Num M_LP M_Seg M_Poly M_FRect M_Homogr.
Import ListNotations.
Local Open Scope num_scope.

Section Conv.
  Context {T : Type} {N : Num T}.
  Implicit Types (th : thrs T) (o : hobj T) (l : line T).

  (** Constructor from a segment, homog2d.hpp:6112-6118, for open and closed polylines: two p_addPoint(). *)
  Definition plOfSeg th (s : seg T) : res (poly T) :=
    do a <- plAddPoint th plEmpty (sA s); plAddPoint th a (sB s).

  (** Conversion of a point to another numerical type, [cvt] being the static_cast: LPBase::p_copyFrom,
      homog2d.hpp:4025-4031 (the third value stays 1). *)
  Definition ptConvert (cvt : T -> T) (p : pt T) : pt T := mkPt (cvt (px p)) (cvt (py p)).

  (** Constructors of a polyline from another one (open to closed, or another numerical type), homog2d.hpp:6140-6154:
      set( other._plinevec ), :6465-6479, that checks the points it receives and converts them afterwards. *)
  Definition plConvert th (cvt : T -> T) (pl : poly T) : res (poly T) :=
    do c <- plSet th (plPts pl); Ok (plFresh (map (ptConvert cvt) (plPts c))).

  (** Conversion of a rectangle, homog2d.hpp:2725-2729, and of a segment to the same kind, :4936-4947: no check. *)
  Definition frConvert (cvt : T -> T) (r : frect T) : frect T := mkR (ptConvert cvt (r1 r)) (ptConvert cvt (r2 r)).
  Definition svConvertNum (cvt : T -> T) (k : skind) (s : seg T) : seg T :=
    svConvert k k (mkSeg (ptConvert cvt (sA s)) (ptConvert cvt (sB s))).

  (** Hmatrix_(vector<vector>), homog2d.hpp:1764-1776: both sizes are checked, then p_fillWith (:1604-1610) and normalize(). *)
  Definition hOfRows th (rows : list (list T)) : res (hobj T) :=
    if negb (length rows =? 3)%nat then Throw
    else if negb (forallb (fun li => length li =? 3)%nat rows) then Throw
    else let at' i j := nth j (nth i rows []) (#0) in
      hOfMat th (mkM (at' 0 0)%nat (at' 0 1)%nat (at' 0 2)%nat (at' 1 0)%nat (at' 1 1)%nat (at' 1 2)%nat (at' 2 0)%nat (at' 2 1)%nat (at' 2 2)%nat).

  (** Hmatrix_::applyTo, homog2d.hpp:9564-9582, for a container of points. *)
  Definition applyToPts o (v : list (hpt T)) : list (hpt T) := map (hApplyPt o) v.

  (** Hmatrix_::applyTo for a container of lines: outcome, container and homography (whose cache is written) afterwards.
      When an assignment throws, the elements already visited keep their new value. *)
  Fixpoint applyToLines th o (v : list (line T)) : res unit * list (line T) * hobj T :=
    match v with
    | [] => (Ok tt, [], o)
    | l :: r =>
        match hApplyLine th o l with
        | (Ok l', o') => let '(e, r', o2) := applyToLines th o' r in (e, l' :: r', o2)
        | (Throw, o') => (Throw, l :: r, o')
        | (Undef, o') => (Undef, l :: r, o')
        end
    end.
End Conv.
