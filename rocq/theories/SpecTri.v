(** Specification of the three-point sums for bin_type='LogRUV', written without reference to
    the tree code. *)
From Coq Require Import Reals List ZArith Bool.
From Verif Require Import Base Geometry Tree Spec Corr3.
Import ListNotations.
Open Scope R_scope.

(** The sides of a triangle (p1,p2,p3): d1 is opposite to point 1 and so on. *)
Definition side1 (a b c : obj) : R := euclid (opos b) (opos c).
Definition side2 (a b c : obj) : R := euclid (opos a) (opos c).
Definition side3 (a b c : obj) : R := euclid (opos a) (opos b).

(** The points are met in counter-clockwise order: in the plane, the signed area is positive; on
    the sky, as seen from the origin (x to the east is to the left), the determinant is negative. *)
Definition ccwFlat (a b c : pos) : bool :=
  Rltb 0 ((px b - px a) * (py c - py a) - (py b - py a) * (px c - px a)).
Definition ccwSky (a b c : pos) : bool :=
  Rltb (px a * (py b * pz c - pz b * py c) - py a * (px b * pz c - pz b * px c) +
        pz a * (px b * py c - py b * px c)) 0.
Definition ccwSpec (C : coord) (a b c : obj) : bool :=
  match C with
  | Flat => ccwFlat (opos a) (opos b) (opos c)
  | _ => ccwSky (opos a) (opos b) (opos c)
  end.

(** The parameters as completed by the constructor: geometric bins in r = d2, linear bins in u =
    d3/d2 and v = (d1-d2)/d3. *)
Record validRUV (P : tparams) : Prop := mkvT {
  vt_type : tbt P = LogRUV;
  vt_minsep : 0 < tminsep P;
  vt_bs : 0 < tbinsize P;
  vt_nb : (0 < tnbins P)%Z;
  vt_maxsep : tmaxsep P = tminsep P * exp (IZR (tnbins P) * tbinsize P);
  vt_minu : 0 <= tminu P;
  vt_ubs : 0 < tubinsize P;
  vt_nu : (0 < tnubins P)%Z;
  vt_maxu : tmaxu P = tminu P + IZR (tnubins P) * tubinsize P;
  vt_maxu1 : tmaxu P <= 1;
  vt_minv : 0 <= tminv P;
  vt_vbs : 0 < tvbinsize P;
  vt_nv : (0 < tnvbins P)%Z;
  vt_maxv : tmaxv P = tminv P + IZR (tnvbins P) * tvbinsize P;
  vt_maxv1 : tmaxv P <= 1 }.

(** bin_slop = 0: the slop in r, u and v. *)
Definition noSlop3 (P : tparams) : Prop := tb P = 0 /\ tbu P = 0 /\ tbv P = 0 /\ 0 <= ta P.

(** Sides x >= y >= z > 0 have their shape in the bin (kr,ku,kv). *)
Definition shapeIn (P : tparams) (kr ku kv : Z) (x y z : R) : bool :=
  Rltb 0 z && Rleb z y && Rleb y x &&
  ((0 <=? kr) && (kr <? tnbins P) && (0 <=? ku) && (ku <? tnubins P) &&
   (0 <=? kv) && (kv <? tnvbins P))%Z &&
  Rleb (tminsep P * exp (IZR kr * tbinsize P)) y &&
  Rltb y (tminsep P * exp (IZR (kr + 1) * tbinsize P)) &&
  Rleb (tminu P + IZR ku * tubinsize P) (z / y) &&
  Rltb (z / y) (tminu P + IZR (ku + 1) * tubinsize P) &&
  Rleb (tminv P + IZR kv * tvbinsize P) ((x - y) / z) &&
  Rltb ((x - y) / z) (tminv P + IZR (kv + 1) * tvbinsize P).

(** The bins of r, u, |v| and the orientation of a place k of the flattened arrays
    [nbins][nubins][2 nvbins]: v < 0 (clockwise) first. *)
Definition krOf (P : tparams) (k : Z) : Z := (k / (2 * tnvbins P) / tnubins P)%Z.
Definition kuOf (P : tparams) (k : Z) : Z := ((k / (2 * tnvbins P)) mod tnubins P)%Z.
Definition ccwOf (P : tparams) (k : Z) : bool := (tnvbins P <=? k mod (2 * tnvbins P))%Z.
Definition kvOf (P : tparams) (k : Z) : Z :=
  let j := (k mod (2 * tnvbins P))%Z in
  if ccwOf P k then (j - tnvbins P)%Z else (tnvbins P - 1 - j)%Z.

(** The labelled triangle (a,b,c), with d1 >= d2 >= d3, belongs to place k. *)
Definition selTri (P : tparams) (k : Z) (a b c : obj) : bool :=
  shapeIn P (krOf P k) (kuOf P k) (kvOf P k) (side1 a b c) (side2 a b c) (side3 a b c) &&
  Bool.eqb (ccwSpec (tcoord P) a b c) (ccwOf P k).

(** What a triangle adds to each array. *)
Definition triVal (P : tparams) (f : tfield) (a b c : obj) : R :=
  let www := ow a * ow b * ow c in
  let d1 := side1 a b c in let d2 := side2 a b c in let d3 := side3 a b c in
  match f with
  | TNtri => 1
  | TWeight => www
  | TD1 => www * d1 | TLogD1 => www * ln d1
  | TD2 => www * d2 | TLogD2 => www * ln d2
  | TD3 => www * d3 | TLogD3 => www * ln d3
  | TU => www * (d3 / d2)
  | TV => www * (if ccwSpec (tcoord P) a b c then (d1 - d2) / d3 else - ((d1 - d2) / d3))
  | TZeta => (ow a * okappa a) * (ow b * okappa b) * (ow c * okappa c)
  end.
Definition tri (P : tparams) (f : tfield) (k : Z) (a b c : obj) : R :=
  if selTri P k a b c then triVal P f a b c else 0.
(** point 1 is a; points 2 and 3 are b and c in either order *)
Definition tri1 (P : tparams) (f : tfield) (k : Z) (a b c : obj) : R :=
  tri P f k a b c + tri P f k a c b.
(** all labellings (at most one is right when no two sides are equal) *)
Definition tri6 (P : tparams) (f : tfield) (k : Z) (a b c : obj) : R :=
  tri1 P f k a b c + tri1 P f k b a c + tri1 P f k c a b.

(** Brute-force sums: over triples of rows of three catalogs; a row of the first and two
    different rows of the second; three different rows. *)
Definition sumTriples (g : obj -> obj -> obj -> R) (l1 l2 l3 : list obj) : R :=
  sumR (fun a => sumR (fun b => sumR (fun c => g a b c) l3) l2) l1.
Definition sumPairs12 (g : obj -> obj -> obj -> R) (l1 l2 : list obj) : R :=
  sumR (fun a => sumR (fun q => g a (fst q) (snd q)) (upairs l2)) l1.
Fixpoint sumTriplesU (g : obj -> obj -> obj -> R) (l : list obj) : R :=
  match l with
  | [] => 0
  | a :: t => sumR (fun q => g a (fst q) (snd q)) (upairs t) + sumTriplesU g t
  end.

(** Weights: positive for counting triangles, non-negative for the weighted sums. *)
Definition weights3 (f : tfield) (cat : list obj) : Prop :=
  forall o, In o cat -> match f with TNtri => 0 < ow o | _ => 0 <= ow o end.

(** No triangle has its two longest sides equal. *)
Definition noTie3 (l1 l2 l3 : list obj) : Prop :=
  forall a b c, In a l1 -> In b l2 -> In c l3 ->
    ~ (side1 a b c = side2 a b c /\ 0 < side3 a b c < side2 a b c).
Definition noTies (l : list obj) : Prop := noTie3 l l l.

(** Sides in decreasing order. *)
Definition maxS (a b c : obj) : R := Rmax (side1 a b c) (Rmax (side2 a b c) (side3 a b c)).
Definition minS (a b c : obj) : R := Rmin (side1 a b c) (Rmin (side2 a b c) (side3 a b c)).
Definition midS (a b c : obj) : R :=
  side1 a b c + side2 a b c + side3 a b c - maxS a b c - minS a b c.
(** What an unlabelled triangle adds when the sign of v is ignored. *)
Definition triAbs (P : tparams) (f : tfield) (kr ku kv : Z) (a b c : obj) : R :=
  let x := maxS a b c in let y := midS a b c in let z := minS a b c in
  let www := ow a * ow b * ow c in
  if shapeIn P kr ku kv x y z then
    match f with
    | TNtri => 1
    | TWeight => www
    | TD1 => www * x | TLogD1 => www * ln x
    | TD2 => www * y | TLogD2 => www * ln y
    | TD3 => www * z | TLogD3 => www * ln z
    | TU => www * (z / y)
    | TV => 0
    | TZeta => (ow a * okappa a) * (ow b * okappa b) * (ow c * okappa c)
    end
  else 0.
(** The place with the same r, u, |v| and the other orientation. *)
Definition mirror (P : tparams) (k : Z) : Z :=
  (k / (2 * tnvbins P) * (2 * tnvbins P) + (2 * tnvbins P - 1 - k mod (2 * tnvbins P)))%Z.

(** ** Motions of the catalog *)
(** The same row at another position. *)
Definition moved (M : pos -> pos) (o : obj) : obj :=
  mkobj (M (opos o)) (ow o) (owpos o) (okappa o) (og1 o) (og2 o) (oidx o).
(** A rotation (c = cos, s = sin of the angle) and a shift of the plane; a reflection. *)
Definition planeMotion (c s tx ty : R) (p : pos) : pos :=
  mkpos (c * px p - s * py p + tx) (s * px p + c * py p + ty) 0.
Definition flipY (p : pos) : pos := mkpos (px p) (- py p) 0.
Definition flatCat3 (l : list obj) : Prop := forall o, In o l -> pz (opos o) = 0.
