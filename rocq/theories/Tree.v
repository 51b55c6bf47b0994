(** Model of the tree building code: src/Cell.cpp, src/Field.cpp, include/Bounds.h.

    Nondeterminism is kept: std::partition and std::nth_element leave the order of the
    elements unspecified, and SplitDataCore<Random> draws a random number.  The functions
    that use them are therefore modelled as relations between inputs and all possible
    outcomes. *)
From Coq Require Import Reals Lra List ZArith Bool Permutation.
From Verif Require Import Base Geometry.
Import ListNotations.
Open Scope R_scope.

(** One input object: position, weight w, position weight wpos, scalar value k,
    complex value (g1,g2) and catalog index.
    Field.cpp:182-198 builds one (CellData, WPosLeafInfo) entry per row; get_wpos 147-153. *)
Record obj := mkobj {
  opos : pos; ow : R; owpos : R; okappa : R; og1 : R; og2 : R; oidx : nat }.

(** CellData (Cell.h:67-288): mean position, total weight, number, and the sums of w*k and w*g.
    float storage of _w,_wk,_wg is modelled by R. *)
Record cdata := mkcd { dpos : pos; dw : R; dn : nat; dwk : R; dwg1 : R; dwg2 : R }.

(** A Cell (Cell.h:290-353).  [Leaf]: LeafInfo constructor (size 0, N=1);
    [ListLeaf]: ListLeafInfo constructor (size 0, N>1); [Node]: internal cell.
    The C++ leaf stores only the index/indices; the model keeps the objects themselves
    (the modelled code reads only [oidx] from them). *)
Inductive cell :=
  | Leaf (d : cdata) (o : obj)
  | ListLeaf (d : cdata) (os : list obj)
  | Node (d : cdata) (size : ext) (l r : cell).

(** Cell.h:320-328: getData, getSize, getLeft, getRight. *)
Definition getData (c : cell) : cdata :=
  match c with Leaf d _ => d | ListLeaf d _ => d | Node d _ _ _ => d end.
Definition getPos (c : cell) : pos := dpos (getData c).
Definition getW (c : cell) : R := dw (getData c).
Definition getN (c : cell) : nat := dn (getData c).
Definition getSize (c : cell) : ext :=
  match c with Node _ s _ _ => s | _ => Fin 0 end.
Definition getLeft (c : cell) : option cell :=
  match c with Node _ _ l _ => Some l | _ => None end.
Definition getRight (c : cell) : option cell :=
  match c with Node _ _ _ r => Some r | _ => None end.

(** The objects below a cell, in leaf order (getAllIndices, Cell.cpp:653-671, returns their
    indices in this order). *)
Fixpoint objs (c : cell) : list obj :=
  match c with
  | Leaf _ o => [o]
  | ListLeaf _ os => os
  | Node _ _ l r => objs l ++ objs r
  end.
Definition getAllIndices (c : cell) : list nat := map oidx (objs c).

(** Cell.cpp:617-624 *)
Fixpoint countLeaves (c : cell) : nat :=
  match c with Node _ _ l r => countLeaves l + countLeaves r | _ => 1%nat end.

(** ** Averages (Cell.cpp:89-100, 170-216) *)

(** CalculateSizeSq, Cell.cpp:89-100: largest squared distance to [cen]. *)
Fixpoint calculateSizeSq (cen : pos) (l : list obj) : R :=
  match l with
  | [] => 0
  | o :: t => Rmax (normSq (psub cen (opos o))) (calculateSizeSq cen t)
  end.

(** BuildCellData, Cell.cpp:170-200: weighted centroid (wpos weights), normalised for Sphere;
    the first position when the wpos sum is 0. *)
Definition psum (f : obj -> R) (l : list obj) : R := sumR f l.
Definition centroid (c : coord) (l : list obj) : pos :=
  let sumwp := sumR owpos l in
  if Req_EM_T sumwp 0
  then match l with [] => mkpos 0 0 0 | o :: _ => opos o end
  else normalize c (pscale (/ sumwp)
         (mkpos (sumR (fun o => owpos o * px (opos o)) l)
                (sumR (fun o => owpos o * py (opos o)) l)
                (sumR (fun o => owpos o * pz (opos o)) l))).

(** CellData of a single object, Cell.h:82-84, 139-141, 171-173. *)
Definition data1 (o : obj) : cdata :=
  mkcd (opos o) (ow o) 1 (ow o * okappa o) (ow o * og1 o) (ow o * og2 o).

(** CellData of several objects: Cell.cpp:202-206 and finishAverages 208-219 (K), 221-275
    (SimpleSum for Flat spin fields).  ParallelTransportSum (Sphere/ThreeD spin fields,
    Cell.cpp:276-395) is modelled in Spin.v: dwg1/dwg2 are only meaningful for Flat. *)
Definition dataN (c : coord) (l : list obj) : cdata :=
  mkcd (centroid c l) (sumR ow l) (length l)
       (sumR (fun o => ow o * okappa o) l)
       (sumR (fun o => ow o * og1 o) l) (sumR (fun o => ow o * og2 o) l).

(** ** Bounds.h *)

(** Bounds.h:31-74, 85-150: bounding box.  Flat is the pz=0 case of ThreeD. *)
Record bounds := mkbd { xmin : R; xmax : R; ymin : R; ymax : R; zmin : R; zmax : R }.
(** operator+= on a defined box, Bounds.h:108-123 (if / else if). *)
Definition upd_lo (lo v : R) : R := if Rlt_dec v lo then v else lo.
Definition upd_hi (lo hi v : R) : R := if Rlt_dec v lo then hi else if Rlt_dec hi v then v else hi.
Definition badd (b : bounds) (p : pos) : bounds :=
  mkbd (upd_lo (xmin b) (px p)) (upd_hi (xmin b) (xmax b) (px p))
       (upd_lo (ymin b) (py p)) (upd_hi (ymin b) (ymax b) (py p))
       (upd_lo (zmin b) (pz p)) (upd_hi (zmin b) (zmax b) (pz p)).
Definition bone (p : pos) : bounds := mkbd (px p) (px p) (py p) (py p) (pz p) (pz p).
(** The loop of SplitData, Cell.cpp:527-528. *)
Definition boundsOf (l : list obj) : bounds :=
  match l with
  | [] => mkbd 0 0 0 0 0 0
  | o :: t => fold_left (fun b o' => badd b (opos o')) t (bone (opos o))
  end.
(** getSplit, Bounds.h:133-141 (for Flat, 65-66: the zrange = 0 case). *)
Inductive dim := DX | DY | DZ.
Definition getSplit (b : bounds) : dim :=
  let xr := xmax b - xmin b in
  let yr := ymax b - ymin b in
  let zr := zmax b - zmin b in
  if Rlt_dec xr yr
  then (if Rlt_dec yr zr then DZ else DY)
  else (if Rlt_dec xr zr then DZ else DX).
(** getMiddle, Bounds.h:143-144. *)
Definition getMiddle (b : bounds) (d : dim) : R :=
  match d with
  | DX => (xmax b + xmin b) / 2
  | DY => (ymax b + ymin b) / 2
  | DZ => (zmax b + zmin b) / 2
  end.
(** Position::get(split), Position.h:61, 157. *)
Definition getDim (d : dim) (p : pos) : R :=
  match d with DX => px p | DY => py p | DZ => pz p end.

(** ** Splitting (Cell.cpp:401-554) *)

Inductive splitmethod := Middle | Median | Mean | Random.

(** Outcome of std::partition(begin,end,comp): the elements satisfying comp come first, order
    otherwise unspecified.  comp is DataCompareToValue (Cell.cpp:414-423): key < value. *)
Definition partition_out (d : dim) (v : R) (l L R : list obj) : Prop :=
  Permutation (L ++ R) l /\
  Forall (fun o => getDim d (opos o) < v) L /\
  Forall (fun o => ~ getDim d (opos o) < v) R.

(** Outcome of std::nth_element at [mid]: a permutation with everything before mid not greater
    than everything from mid on (Cell.cpp:404-412 DataCompare). *)
Definition nth_element_out (d : dim) (mid : nat) (l L R : list obj) : Prop :=
  Permutation (L ++ R) l /\ length L = mid /\
  forall a b, In a L -> In b R -> getDim d (opos a) <= getDim d (opos b).

(** select_random(lo,hi), Cell.cpp:430-441, with the random draw u in [0,1].
    (lo = hi+1 can happen: hi-lo+1 is then 0 also in unsigned arithmetic.) *)
Definition select_random (lo hi : nat) (u : R) : nat :=
  if Nat.eqb lo hi then lo
  else let m := (Z.to_nat (trunc (u * INR (hi + 1 - lo))) + lo)%nat in
       if Nat.ltb hi m then hi else m.

(** SplitDataCore<C,SM>::run, Cell.cpp:448-518.  L and R are the elements before and after the
    returned index.  Indices are relative to [start]. *)
Inductive splitCore (sm : splitmethod) (meanpos : pos) (l L R : list obj) : Prop :=
  | sc_middle : sm = Middle ->
      (let b := boundsOf l in partition_out (getSplit b) (getMiddle b (getSplit b)) l L R) ->
      splitCore sm meanpos l L R
  | sc_median : sm = Median ->
      nth_element_out (getSplit (boundsOf l)) (length l / 2) l L R ->
      splitCore sm meanpos l L R
  | sc_mean : sm = Mean ->
      (let d := getSplit (boundsOf l) in partition_out d (getDim d meanpos) l L R) ->
      splitCore sm meanpos l L R
  | sc_random u : sm = Random -> 0 <= u <= 1 ->
      (let n := length l in
       nth_element_out (getSplit (boundsOf l))
         (select_random (n - 3 * n / 5) (3 * n / 5) u) l L R) ->
      splitCore sm meanpos l L R.

(** SplitData, Cell.cpp:520-554: falls back to Median (on the already permuted range) when one
    side is empty. *)
Inductive splitData (sm : splitmethod) (meanpos : pos) (l L R : list obj) : Prop :=
  | sd_ok : splitCore sm meanpos l L R -> L <> [] -> R <> [] -> splitData sm meanpos l L R
  | sd_fallback L' R' :
      splitCore sm meanpos l L' R' -> L' = [] \/ R' = [] ->
      splitCore Median meanpos (L' ++ R') L R -> splitData sm meanpos l L R.

(** ** BuildCell (Cell.cpp:556-615) *)

(** [builds c sm minsizesq brute l t]: t is a possible result of BuildCell on the range l. *)
Inductive builds (c : coord) (sm : splitmethod) (minsizesq : R) (brute : bool)
  : list obj -> cell -> Prop :=
  | b_leaf o : builds c sm minsizesq brute [o] (Leaf (data1 o) o)
  | b_node l L R cl cr :
      (2 <= length l)%nat ->
      minsizesq < calculateSizeSq (centroid c l) l ->
      splitData sm (centroid c l) l L R ->
      builds c sm minsizesq brute L cl ->
      builds c sm minsizesq brute R cr ->
      builds c sm minsizesq brute l
        (Node (dataN c l)
              (if brute then Inf else Fin (sqrt (calculateSizeSq (centroid c l) l))) cl cr)
  | b_list l :
      (2 <= length l)%nat ->
      calculateSizeSq (centroid c l) l <= minsizesq ->
      builds c sm minsizesq brute l (ListLeaf (dataN c l) l).

(** ** Field.cpp *)

(** sizesq computed in SetupTopLevelCells, Field.cpp:43-59. *)
Definition topSizeSq (c : coord) (l : list obj) : R :=
  match l with [_] => 0 | _ => calculateSizeSq (centroid c l) l end.

(** The stop conditions, Field.cpp:61 and 68. *)
Definition topStop (c : coord) (maxsizesq : ext) (mintop maxtop : Z) (l : list obj) : Prop :=
  topSizeSq c l = 0 \/
  (match maxsizesq with Inf => True | Fin m => topSizeSq c l <= m end /\ (mintop <= 0)%Z) \/
  (maxtop <= 0)%Z.

(** SetupTopLevelCells, Field.cpp:27-81: the list of ranges of the top-level cells. *)
Inductive setupTop (c : coord) (sm : splitmethod) (maxsizesq : ext)
  : Z -> Z -> list obj -> list (list obj) -> Prop :=
  | top_stop mintop maxtop l :
      topStop c maxsizesq mintop maxtop l ->
      setupTop c sm maxsizesq mintop maxtop l [l]
  | top_split mintop maxtop l L R tl tr :
      ~ topStop c maxsizesq mintop maxtop l ->
      splitData sm (centroid c l) l L R ->
      setupTop c sm maxsizesq (mintop - 1) (maxtop - 1) L tl ->
      setupTop c sm maxsizesq (mintop - 1) (maxtop - 1) R tr ->
      setupTop c sm maxsizesq mintop maxtop l (tl ++ tr).

(** Constructor parameters of a Field (Field.h:50-51). *)
Record fparams := mkF {
  fcoord : coord; fsm : splitmethod; fminsize : R; fmaxsize : ext;
  fbrute : bool; fmintop : Z; fmaxtop : Z }.

Definition esq (e : ext) : ext := match e with Fin x => Fin (x * x) | Inf => Inf end.

(** Field<D,C>::DoBuildCells, Field.cpp:230-277: [buildField F cat cells] holds when [cells] is
    a possible value of _cells for the catalog [cat].  (The parallel loop over top-level cells
    writes disjoint entries, so it is modelled by a pointwise relation.) *)
Definition buildField (F : fparams) (cat : list obj) (cells : list cell) : Prop :=
  exists groups,
    setupTop (fcoord F) (fsm F) (esq (fmaxsize F)) (fmintop F) (fmaxtop F) cat groups /\
    Forall2 (builds (fcoord F) (fsm F) (fminsize F * fminsize F) (fbrute F)) groups cells.

(** Field constructor, Field.cpp:200-205: overall centre and size. *)
Definition fieldCenter (F : fparams) (cat : list obj) : pos := centroid (fcoord F) cat.
Definition fieldSize (F : fparams) (cat : list obj) : R :=
  sqrt (calculateSizeSq (centroid (fcoord F) cat) cat).
