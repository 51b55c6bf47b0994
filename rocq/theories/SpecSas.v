(** Specification of the three-point sums for bin_type='LogSAS', written without reference to
    the tree code. *)
From Coq Require Import Reals List ZArith Bool.
From Verif Require Import Base Geometry Tree Spec Corr3 SpecTri.
Import ListNotations.
Open Scope R_scope.

(** The parameters as completed by the constructor: geometric bins in d2 and d3, linear bins in
    the angle phi between them (tminu, tmaxu, ... hold min_phi, max_phi, ...). *)
Record validSAS (P : tparams) : Prop := mkvS {
  vs_type : tbt P = LogSAS;
  vs_minsep : 0 < tminsep P;
  vs_bs : 0 < tbinsize P;
  vs_nb : (0 < tnbins P)%Z;
  vs_maxsep : tmaxsep P = tminsep P * exp (IZR (tnbins P) * tbinsize P);
  vs_minu : 0 <= tminu P;
  vs_ubs : 0 < tubinsize P;
  vs_nu : (0 < tnubins P)%Z;
  vs_maxu : tmaxu P = tminu P + IZR (tnubins P) * tubinsize P;
  vs_maxu1 : tmaxu P <= PI }.

(** bin_slop = 0. *)
Definition noSlopSAS (P : tparams) : Prop := tb P = 0 /\ tbu P = 0 /\ 0 <= ta P.

(** The angle at a of the triangle (a,b,c). *)
Definition angleAt (a b c : obj) : R :=
  let p := opos a in let q := opos b in let r := opos c in
  acos (((px q - px p) * (px r - px p) + (py q - py p) * (py r - py p) + (pz q - pz p) * (pz r - pz p)) /
        (side3 a b c * side2 a b c)).

(** The place k of the flattened array [nbins][nbins][nphi_bins] is the bin (k2,k3,kphi). *)
Definition k2Of (P : tparams) (k : Z) : Z := (k / tnubins P / tnbins P)%Z.
Definition k3Of (P : tparams) (k : Z) : Z := ((k / tnubins P) mod tnbins P)%Z.
Definition kpOf (P : tparams) (k : Z) : Z := (k mod tnubins P)%Z.
Definition logBin (P : tparams) (j : Z) (d : R) : bool :=
  Rleb (tminsep P * exp (IZR j * tbinsize P)) d && Rltb d (tminsep P * exp (IZR (j + 1) * tbinsize P)).

(** The labelled triangle (a,b,c) belongs to place k: d2 = |ac| and d3 = |ab| and the angle at a
    are in the bins, b and c differ, and a, c, b are met counter-clockwise. *)
Definition selSAS (P : tparams) (k : Z) (a b c : obj) : bool :=
  ((0 <=? k) && (k <? tnbins P * tnbins P * tnubins P))%Z &&
  Rltb 0 (side1 a b c) && logBin P (k2Of P k) (side2 a b c) && logBin P (k3Of P k) (side3 a b c) &&
  Rleb (tminu P + IZR (kpOf P k) * tubinsize P) (angleAt a b c) &&
  Rltb (angleAt a b c) (tminu P + IZR (kpOf P k + 1) * tubinsize P) &&
  ccwSpec (tcoord P) a c b.

(** What a labelled triangle adds to each array (meanu holds phi, meanv holds cos phi). *)
Definition sasVal (f : tfield) (a b c : obj) : R :=
  let www := ow a * ow b * ow c in
  let d1 := side1 a b c in let d2 := side2 a b c in let d3 := side3 a b c in
  match f with
  | TNtri => 1
  | TWeight => www
  | TD1 => www * d1 | TLogD1 => www * ln d1
  | TD2 => www * d2 | TLogD2 => www * ln d2
  | TD3 => www * d3 | TLogD3 => www * ln d3
  | TU => www * angleAt a b c
  | TV => www * cos (angleAt a b c)
  | TZeta => (ow a * okappa a) * (ow b * okappa b) * (ow c * okappa c)
  end.
Definition sas (P : tparams) (f : tfield) (k : Z) (a b c : obj) : R :=
  if selSAS P k a b c then sasVal f a b c else 0.
(** the apex is a *)
Definition sas1 (P : tparams) (f : tfield) (k : Z) (a b c : obj) : R :=
  sas P f k a b c + sas P f k a c b.
(** every corner is once the apex *)
Definition sas6 (P : tparams) (f : tfield) (k : Z) (a b c : obj) : R :=
  sas1 P f k a b c + sas1 P f k b a c + sas1 P f k c a b.

(** No three different positions lie on a line (in the plane) or on a great circle (on the sky):
    every triangle has an orientation. *)
Definition oriented (C : coord) (l : list obj) : Prop :=
  forall a b c, In a l -> In b l -> In c l ->
    0 < side1 a b c -> 0 < side2 a b c -> 0 < side3 a b c ->
    ccwSpec C a b c = true \/ ccwSpec C a c b = true.
