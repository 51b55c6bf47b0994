(** Model of the three-point "triangle" algorithm: src/Corr3.cpp (BaseCorr3::process, process3,
    process12, process111, process111Sorted, finishProcess), include/BinType.h
    (BinTypeHelper<LogRUV>, BinTypeHelper<LogSAS>) and the process calls of
    treecorr/corr3base.py.

    Simplifications: double is R (as everywhere); brute=True (cells of infinite size) is not
    modelled; of the zeta arrays only that of KKK is modelled (GGG is not); the multipole
    algorithm (bin_type LogMultipole) is not modelled; Assert only prints a message in normal
    builds (dbg.h:89) and is ignored. *)
From Coq Require Import Reals Lra List ZArith Bool Permutation.
From Verif Require Import Base Geometry Tree Traverse.
Import ListNotations.
Open Scope R_scope.

(** ** Parameters *)

(** BinType.h:35 (the 3-point bin types with a triangle algorithm). *)
Inductive bintype3 := LogRUV | LogSAS.

(** The parameters stored in BaseCorr3 (Corr3.cpp:70-124).  For LogSAS the fields minu, maxu,
    nubins, ubinsize, bu hold min_phi, max_phi, nphi_bins, phi_bin_size and their slop. *)
Record tparams := mkT {
  tmetric : metric; tcoord : coord; tbt : bintype3;
  tminsep : R; tmaxsep : R; tnbins : Z; tbinsize : R; tb : R; ta : R;
  tminu : R; tmaxu : R; tnubins : Z; tubinsize : R; tbu : R;
  tminv : R; tmaxv : R; tnvbins : Z; tvbinsize : R; tbv : R }.

(** calculateNTot: BinType.h:385-386, 812-813. *)
Definition tntot (P : tparams) : Z :=
  match tbt P with
  | LogRUV => (tnbins P * tnubins P * tnvbins P * 2)%Z
  | LogSAS => (tnbins P * tnbins P * tnubins P)%Z
  end.
Definition thalfminsep (P : tparams) : R := (1/2) * tminsep P.
(** mincosphi, maxcosphi: Corr3.cpp:92-95; the signed squares 117-121. *)
Definition maxcosphi (P : tparams) : R :=
  if Rltb (tminu P) 0 && Rltb 0 (tmaxu P) then 1 else Rmax (cos (tminu P)) (cos (tmaxu P)).
Definition mincosphi (P : tparams) : R :=
  if Rltb (tminu P) PI && Rltb PI (tmaxu P) then -1 else Rmin (cos (tminu P)) (cos (tmaxu P)).
Definition ssq (x : R) : R := if Rlt_dec x 0 then - (x * x) else x * x.

(** The template parameter [ordered] (Corr3.cpp:538-541). *)
Inductive order := O0 | O1 | O3.
Definition ordAny (O : order) : bool := match O with O0 => false | _ => true end.
Definition ord3 (O : order) : bool := match O with O3 => true | _ => false end.

(** MetricHelper::CCW: Metric.h:152-158, 204-215 (Euclidean; Arc the same on Sphere/ThreeD),
    763-772, 824-837 (Periodic, with wrapped differences). *)
Definition wrapM (M : metric) (p : pos) : pos :=
  match M with Periodic xp yp zp => wrap xp yp zp p | _ => p end.
Definition ccw (M : metric) (C : coord) (p1 p2 p3 : pos) : bool :=
  let r21 := wrapM M (psub p2 p1) in
  let r31 := wrapM M (psub p3 p1) in
  match C with
  | Flat => Rltb 0 (pz (cross r21 r31))
  | _ => Rltb (dot (cross r21 r31) p1) 0
  end.

(** A finite cell size (brute trees excluded). *)
Definition efin (e : ext) : R := match e with Fin x => x | Inf => 0 end.
Definition csize (c : cell) : R := efin (getSize c).

(** ** BinTypeHelper: the tests of process12 *)

(** tooSmallS2: BinType.h:388-393, 815-821. *)
Definition tooSmallS2 (P : tparams) (s2 : R) : bool :=
  Reqb s2 0 || Rltb s2 (thalfminsep P * tminu P).
(** tooSmallDist, tooLargeDist: BinType.h:397-410, 825-838. *)
Definition tooSmall3 (P : tparams) (rsq s : R) : bool :=
  Rltb rsq (Rsqr (tminsep P)) && Rltb s (tminsep P) && Rltb rsq (Rsqr (tminsep P - s)).
Definition tooLarge3 (P : tparams) (rsq s : R) : bool :=
  Rleb (Rsqr (tmaxsep P)) rsq && Rleb (Rsqr (tmaxsep P + s)) rsq.
(** noAllowedAngles: BinType.h:414-425, 842-870. *)
Definition noAllowedAngles (P : tparams) (O : order) (rsq s1 s2 : R) : bool :=
  match tbt P with
  | LogRUV =>
      Rltb (Rsqr (s1 + s2)) rsq &&
      Rltb (Rsqr (2 * s2 + tminu P * (s1 + s2))) (tminu P * tminu P * rsq)
  | LogSAS =>
      if Rltb (maxcosphi P) 1 && (ordAny O || Rltb s2 (thalfminsep P)) && Rltb (Rsqr s1) rsq
      then Rltb (maxcosphi P) (1 - 2 * Rsqr (s2 / (sqrt rsq - s1)))
      else false
  end.

(** ** BinTypeHelper<LogRUV> *)

(** stop111, BinType.h:429-565. *)
Definition stopRUV (P : tparams) (O : order) (d1sq d2sq d3sq s1 s2 s3 : R) : bool :=
  let minsep := tminsep P in let maxsep := tmaxsep P in
  let minu := tminu P in let maxu := tmaxu P in
  let minv := tminv P in let maxv := tmaxv P in
  let d1 := sqrt d1sq in
  let d2 := sqrt d2sq in
  let sums := s1 + s2 + s3 in
  (* lines 453-458 *)
  (Rltb d2sq (Rsqr minsep) && Rltb (s1 + s3) minsep && Rltb (s1 + s2) minsep &&
   (Reqb (s1 + s3) 0 || Rltb d2sq (Rsqr (minsep - s1 - s3))) &&
   (Reqb (s1 + s2) 0 || Rltb d3sq (Rsqr (minsep - s1 - s2)))) ||
  (* lines 465-470 *)
  (Rleb (Rsqr maxsep) d2sq &&
   (Reqb (s1 + s3) 0 || Rleb (Rsqr (maxsep + s1 + s3)) d2sq) &&
   (Reqb (s2 + s3) 0 || Rleb (Rsqr (maxsep + s2 + s3)) d1sq)) ||
  (* lines 473-494 *)
  (ord3 O && Rltb (Rsqr (d2 + 2 * s1 + s2 + s3)) d3sq) ||
  (ordAny O && Rltb (s1 + s2 + 2 * s3) d2 && Rltb d1sq (Rsqr (d2 - (s1 + s2 + 2 * s3)))) ||
  (ordAny O && Rltb (Rsqr (d1 + s1 + 2 * s2 + s3)) d3sq) ||
  (* lines 502-513 *)
  (Rltb 0 minu && Rltb d3sq (minu * minu * d2sq) && Rltb (s1 + s3) d2 &&
   Rltb (s1 + s2) (minu * (d2 - s1 - s3)) &&
   Rltb d3sq (Rsqr (minu * (d2 - s1 - s3) - s1 - s2)) &&
   Rltb d3sq (minu * minu * d1sq) && Rltb (2 * Rsqr (s2 + s3)) d1sq &&
   Rltb (2 * d3sq + 2 * Rsqr (s1 + s2 + minu * (s2 + s3))) (minu * minu * d1sq)) ||
  (* lines 521-531 *)
  (Rltb maxu 1 && Rleb (maxu * maxu * d2sq) d3sq &&
   Rleb (Rsqr (maxu * (d2 + s1 + s3) + s1 + s2)) d3sq &&
   Rltb (Rsqr (s1 + s3)) d2sq && Rltb (Rsqr (s2 + s3)) d1sq &&
   (Rltb s3 s2 || Rleb d3sq (Rsqr (d2 - s3 + s2))) &&
   (Rltb s3 s1 || Rleb (2 * d3sq + 2 * Rsqr (s3 - s1)) d1sq)) ||
  (* lines 539-545 *)
  (Rltb maxv 1 && Rltb (Rsqr ((1 + maxv) * d2 + sums + maxv * (s1 + s2))) d1sq) ||
  (* lines 554-560 *)
  (Rltb 0 minv && Rltb (Rsqr (s1 + s2)) d3sq &&
   Rltb (Rsqr ((d1sq - d2sq) / (2 * d2) + sums + minv * (s1 + s2))) (minv * minv * d3sq)) ||
  (* lines 564-566 *)
  (Reqb s2 0 && Reqb s3 0 && Reqb d1sq 0) || (Reqb s1 0 && Reqb s3 0 && Reqb d2sq 0) ||
  (Reqb s1 0 && Reqb s2 0 && Reqb d3sq 0).

(** singleBin, BinType.h:574-697.  None: the three cells may go into one bin;
    Some flags: which cells to split. *)
Definition singleRUV (P : tparams) (d1sq d2sq d3sq s1 s2 s3 : R) : option (bool * bool * bool) :=
  let b := tb P in let bu := tbu P in let bv := tbv P in
  let asq := ta P * ta P in
  let d1 := sqrt d1sq in let d2 := sqrt d2sq in let d3 := sqrt d3sq in
  (* 601-626; s1ps3 and d2split are only assigned when the tests before them fail *)
  let s1ps3 := if Rltb 0 s3 && negb (Rltb (d2 * b) s3) then s1 + s3 else 0 in
  let d2split := Rltb 0 s1ps3 && Rltb (d2 * b) s1ps3 in
  let split3 := Rltb 0 s3 &&
    (Rltb (d2 * b) s3 ||
     (d2split && Rleb s1 s3) ||
     (Rltb bu b && Rltb (Rsqr (bu * d2sq)) (Rsqr s3 * d3sq)) ||
     Rltb (asq * d2sq) (Rsqr s3) ||
     (Rltb bv b && Rltb (d2 * bv) s3)) in
  if split3 then
    let temp := 7 / 10 * Rsqr s3 * d3sq in
    Some (Rltb temp (Rsqr s1 * d2sq), Rltb temp (Rsqr s2 * d2sq), true)
  else if Rltb 0 s1 || Rltb 0 s2 then
    let split1 := Rltb 0 s1 && (d2split || Rltb (b * d2) s1 || Rltb (asq * d3sq) (Rsqr s1)) in
    let split2 := Rltb 0 s2 &&
      (Rltb (asq * d3sq) (Rsqr s2) ||
       (Rltb s3 s2 && Rltb (Rsqr (d2 - s2 + s3)) d3sq) ||
       (Rltb s1 s2 && Rltb d1sq (Rsqr (d2 + s2 - s1)))) in
    let u := d3 / d2 in
    let v := (d1 - d2) / d3 in
    let split := split1 || split2 ||
      Rltb (d2sq * (bu * bu)) (Rsqr (s1 + s2 + s1ps3 * u)) ||
      Rltb (d3sq * (bv * bv)) (Rsqr ((s1 + s2) * (1 + v))) in
    if split then Some (split1 || Rleb s2 s1, split2 || Rleb s1 s2, false) else None
  else None.

(** int(floor(x)) with the guards "k == n" -> n-1. *)
Definition floorTo (x : R) (n : Z) : Z :=
  let k := Int_part x in if (k =? n)%Z then (n - 1)%Z else k.
Definition floorGe (x : R) (n : Z) : Z :=
  let k := Int_part x in if (k >=? n)%Z then (k - 1)%Z else k.

(** What directProcess111 receives: u, v (or phi, cosphi), index. *)
(** isTriangleInRange, BinType.h:699-802. *)
Definition rangeRUV (P : tparams) (O : order) (p1 p2 p3 : pos) (d1 d2 d3 : R)
  : option (R * R * Z) :=
  let u := d3 / d2 in
  let v := (d1 - d2) / d3 in
  if ordAny O && negb (Rleb d2 d1 && Rleb d3 d2) then None else
  if Rltb d2 (tminsep P) || Rleb (tmaxsep P) d2 then None else
  if Rltb u (tminu P) || Rleb (tmaxu P) u then None else
  if Rltb v (tminv P) || Rleb (tmaxv P) v then None else
  let kr := floorTo ((ln d2 - ln (tminsep P)) / tbinsize P) (tnbins P) in
  let ku := floorGe ((u - tminu P) / tubinsize P) (tnubins P) in
  let kv0 := floorGe ((v - tminv P) / tvbinsize P) (tnvbins P) in
  let '(v', kv) := if ccw (tmetric P) (tcoord P) p1 p2 p3 then (v, (kv0 + tnvbins P)%Z)
                   else (- v, (tnvbins P - kv0 - 1)%Z) in
  let index := ((kr * tnubins P + ku) * tnvbins P * 2 + kv)%Z in
  if ((index <? 0) || (index >=? tntot P))%Z then None else Some (u, v', index).

(** ** BinTypeHelper<LogSAS> *)

(** calculateCosPhi, Metric.h:231-235, 852-856 (law of cosines; the Arc version 691-742 is not
    modelled). *)
Definition cosphiOf (d1sq d2sq d3sq : R) : R :=
  (d2sq + d3sq - d1sq) / (2 * sqrt d2sq * sqrt d3sq).

(** stop111 has three kinds of outcome: stop, go on, and go on with d2, d3 or cosphi still at
    their initial value -1. The values left in d2, d3, cosphi are returned. *)
Record sasState := mkSas { sd2 : R; sd3 : R; scos : R }.

(** cosphimax / cosphimin of BinType.h:968-1003 and 1018-1057: [sg] is 1 for the maximum angle
    and -1 for the minimum one; None is an early "return false".  Note the asymmetry of the last
    branch (line 1051 tests maxcosphisq also for the minimum). *)
Definition rotCos (sg lim limsq lim3 d2 d3 s1 s2 s3 cosphi : R) : option R :=
  let sinphi := sqrt (1 - cosphi * cosphi) in
  if Rltb 0 (s1 + s2) then
    let sindphi2 := (s1 + s2) / d3 in
    let cosdphi2sq := 1 - Rsqr sindphi2 in
    if Rltb cosdphi2sq limsq then None else
    let cosdphi2 := sqrt cosdphi2sq in
    if Rltb 0 (s1 + s3) then
      let sindphi3 := (s1 + s3) / d2 in
      let cosdphi3sq := 1 - Rsqr sindphi3 in
      if Rltb cosdphi3sq limsq then None else
      let cosdphi3 := sqrt cosdphi3sq in
      let cosdphi := cosdphi2 * cosdphi3 - sindphi3 * sindphi2 in
      if Rltb cosdphi lim then None else
      let sindphi := sindphi2 * cosdphi3 + sindphi3 * cosdphi2 in
      Some (cosphi * cosdphi - sg * (sinphi * sindphi))
    else Some (cosphi * cosdphi2 - sg * (sinphi * sindphi2))
  else if Rltb 0 (s1 + s3) then
    let sindphi3 := (s1 + s3) / d2 in
    let cosdphi3sq := 1 - Rsqr sindphi3 in
    if Rltb cosdphi3sq lim3 then None else
    Some (cosphi * sqrt cosdphi3sq - sg * (sinphi * sindphi3))
  else Some cosphi.

(** The orientation test for ordered = 3, BinType.h:915-949: true means stop. *)
Definition wrongWay (d2 d3 s1 s2 s3 cosphi : R) : bool :=
  let sindphi2 := if Rltb 0 (s1 + s2) then (s1 + s2) / d3 else 0 in
  let sindphi3 := if Rltb 0 (s1 + s3) then (s1 + s3) / d2 else 0 in
  let cosdphi2sq := 1 - Rsqr sindphi2 in
  let cosdphi3sq := 1 - Rsqr sindphi3 in
  if Rltb 0 (s1 + s2) && Rltb cosdphi2sq (Rsqr cosphi) then false else
  if Rltb 0 (s1 + s3) && Rltb cosdphi3sq (Rsqr cosphi) then false else
  if Rltb 0 sindphi2 && Rltb 0 sindphi3 &&
     Rltb (sqrt cosdphi2sq * sqrt cosdphi3sq - sindphi3 * sindphi2) (Rabs cosphi)
  then false else true.

(** stop111, BinType.h:873-1068.  None: stop. *)
Definition stopSAS (P : tparams) (O : order) (p1 p2 p3 : pos) (d1sq d2sq d3sq s1 s2 s3 : R)
  : option sasState :=
  let minsep := tminsep P in let maxsep := tmaxsep P in
  let d2 := sqrt d2sq in
  let d3 := sqrt d3sq in
  if (Rltb d2sq (Rsqr minsep) && Rltb (s1 + s3) minsep &&
      (Reqb (s1 + s3) 0 || Rltb d2sq (Rsqr (minsep - s1 - s3)))) ||
     (Rltb d3sq (Rsqr minsep) && Rltb (s1 + s2) minsep &&
      (Reqb (s1 + s2) 0 || Rltb d3sq (Rsqr (minsep - s1 - s2)))) ||
     (Rleb (Rsqr maxsep) d2sq && (Reqb (s1 + s3) 0 || Rleb (Rsqr (maxsep + s1 + s3)) d2sq)) ||
     (Rleb (Rsqr maxsep) d3sq && (Reqb (s1 + s2) 0 || Rleb (Rsqr (maxsep + s1 + s2)) d3sq)) ||
     (Reqb s2 0 && Reqb s3 0 && Reqb d1sq 0) || (Reqb s1 0 && Reqb s3 0 && Reqb d2sq 0) ||
     (Reqb s1 0 && Reqb s2 0 && Reqb d3sq 0)
  then None else
  if Rleb d3 (s1 + s2) then Some (mkSas (-1) d3 (-1)) else
  if Rleb d2 (s1 + s3) then Some (mkSas d2 d3 (-1)) else
  let cosphi := cosphiOf d1sq d2sq d3sq in
  let go := Some (mkSas d2 d3 cosphi) in
  if ord3 O && negb (ccw (tmetric P) (tcoord P) p1 p3 p2)
  then if wrongWay d2 d3 s1 s2 s3 cosphi then None else go
  else
  let s23sq := Rsqr (s2 + s3) in
  let rest := (* 1008-1066 *)
    if Rleb d1sq s23sq then go
    else if Rltb (tmaxu P) PI && Rltb cosphi (mincosphi P)
    then match rotCos (-1) (- mincosphi P) (- ssq (mincosphi P)) (ssq (maxcosphi P))
                 d2 d3 s1 s2 s3 cosphi with
         | None => go
         | Some cosphimin => if Rltb cosphimin (mincosphi P) then None else go
         end
    else go in
  if Rltb 0 (tminu P) && Rltb (maxcosphi P) cosphi
  then if Rleb d1sq s23sq &&
          Rltb (2 * d2 * d3 * maxcosphi P) (d2sq + d3sq - s23sq)
       then go
       else match rotCos 1 (maxcosphi P) (ssq (maxcosphi P)) (ssq (maxcosphi P))
                    d2 d3 s1 s2 s3 cosphi with
            | None => go
            | Some cosphimax => if Rltb (maxcosphi P) cosphimax then None else rest
            end
  else rest.

(** singleBin, BinType.h:1073-1176. *)
Definition singleSAS (P : tparams) (d1sq : R) (q : sasState) (s1 s2 s3 : R)
  : option (bool * bool * bool) :=
  let b := tb P in let a := ta P in
  let bphi := Rmin (tbu P) a in
  let d2 := sd2 q in let d3 := sd3 q in let cosphi := scos q in
  (* 1103-1125: assignments inside the || chain *)
  let r12 := Rltb 0 s1 && negb (Rltb (d2 * b) s1) && negb (Rltb (d3 * b) s1) in
  let s1ps2 := if r12 then s1 + s2 else s2 in
  let d2split := r12 && Rltb (d3 * b) (s1 + s2) in
  let r13 := r12 && negb (d2split && Rleb s2 s1) in
  let s1ps3 := if r13 then s1 + s3 else s3 in
  let d3split := r13 && Rltb (d2 * b) (s1 + s3) in
  let split1 := Rltb 0 s1 &&
    (Rltb (d2 * b) s1 || Rltb (d3 * b) s1 || (d2split && Rleb s2 s1) || (d3split && Rleb s3 s1) ||
     Rltb bphi ((1 + cosphi) * (d2 + d3) / (sqrt (1 - Rsqr cosphi) * d2 * d3) * s1)) in
  if split1 then Some (true, Rltb (7 / 10 * s1) s2, Rltb (7 / 10 * s1) s3)
  else if Rltb 0 s2 || Rltb 0 s3 then
    let ad1 := a * sqrt d1sq in
    let split2 := Rltb 0 s2 &&
      (d2split || (Reqb s1 0 && Rltb (d3 * b) s2) || Rltb ad1 s2 ||
       (Rltb ad1 (s2 + s3) && Rleb s3 s2) || Rltb (bphi * d3) s1ps2) in
    let split3 := Rltb 0 s3 &&
      (d3split || (Reqb s1 0 && Rltb (d2 * b) s3) || Rltb ad1 s3 ||
       (Rltb ad1 (s2 + s3) && Rleb s2 s3) || Rltb (bphi * d2) s1ps3) in
    if split2 || split3 then Some (false, split2 || Rleb s3 s2, split3 || Rleb s2 s3) else None
  else None.

(** isTriangleInRange, BinType.h:1180-1269: returns phi, cosphi, index. *)
Definition rangeSAS (P : tparams) (O : order) (p1 p2 p3 : pos) (d2 d3 cosphi : R)
  : option (R * R * Z) :=
  let phi := if Rltb (-1) cosphi && Rltb cosphi 1 then acos cosphi
             else if Rleb cosphi (-1) then PI else 0 in
  if Rltb d2 (tminsep P) || Rleb (tmaxsep P) d2 then None else
  if Rltb d3 (tminsep P) || Rleb (tmaxsep P) d3 then None else
  if ord3 O && negb (ccw (tmetric P) (tcoord P) p1 p3 p2) then None else
  if Rltb phi (tminu P) || Rleb (tmaxu P) phi then None else
  let kr2 := floorTo ((ln d2 - ln (tminsep P)) / tbinsize P) (tnbins P) in
  let kr3 := floorTo ((ln d3 - ln (tminsep P)) / tbinsize P) (tnbins P) in
  let kphi := floorGe ((phi - tminu P) / tubinsize P) (tnubins P) in
  let index := ((kr2 * tnbins P + kr3) * tnubins P + kphi)%Z in
  if ((index <? 0) || (index >=? tntot P))%Z then None else Some (phi, cosphi, index).

(** ** Corr3.cpp: the traversal *)

(** One call of directProcess111 (Corr3.cpp:2509-2520): the cells, the sides, u, v, index. *)
Record event3 := mkev3 {
  tc1 : cell; tc2 : cell; tc3 : cell;
  td1 : R; td2 : R; td3 : R; tu : R; tv : R; tk : Z }.

Inductive dec3 := Drop3 | Direct3 (u v : R) (k : Z) | Split3 (a b c : bool).

(** The decisions of process111Sorted, Corr3.cpp:665-722. *)
Definition decide3 (P : tparams) (O : order) (c1 c2 c3 : cell) (d1sq d2sq d3sq : R) : dec3 :=
  let s1 := csize c1 in let s2 := csize c2 in let s3 := csize c3 in
  let p1 := getPos c1 in let p2 := getPos c2 in let p3 := getPos c3 in
  match tbt P with
  | LogRUV =>
      if stopRUV P O d1sq d2sq d3sq s1 s2 s3 then Drop3 else
      match singleRUV P d1sq d2sq d3sq s1 s2 s3 with
      | Some (a, b, c) => Split3 a b c
      | None =>
          match rangeRUV P O p1 p2 p3 (sqrt d1sq) (sqrt d2sq) (sqrt d3sq) with
          | Some (u, v, k) => Direct3 u v k
          | None => Drop3
          end
      end
  | LogSAS =>
      match stopSAS P O p1 p2 p3 d1sq d2sq d3sq s1 s2 s3 with
      | None => Drop3
      | Some q =>
          match singleSAS P d1sq q s1 s2 s3 with
          | Some (a, b, c) => Split3 a b c
          | None =>
              match rangeSAS P O p1 p2 p3 (sd2 q) (sd3 q) (scos q) with
              | Some (u, v, k) => Direct3 u v k
              | None => Drop3
              end
          end
      end
  end.

(** The cells to use in place of c: its children when it is to be split. *)
Definition kids (split : bool) (c : cell) : option (list cell) :=
  if split then match c with Node _ _ l r => Some [l; r] | _ => None end else Some [c].
(** Order of the recursive calls, Corr3.cpp:733-800. *)
Definition prod3 {A} (l1 l2 l3 : list A) : list (A * A * A) :=
  flat_map (fun a => flat_map (fun b => map (fun c => (a, b, c)) l3) l2) l1.
(** The squared distance passed on: only when exactly one cell is split, the side opposite to
    it (Corr3.cpp:768-769, 789-790, 797-798); 0 means unknown. *)
Definition keep (split : bool) (dsq : R) : R := if split then dsq else 0.
Definition only1 (a b c : bool) : bool := a && negb b && negb c.

(** process111 (Corr3.cpp:529-663) with process111Sorted (665-802) inlined as [sorted].
    [fuel] bounds the recursion depth; None stands for following a null child pointer. *)
Fixpoint process111 (P : tparams) (O : order) (fuel : nat) (c1 c2 c3 : cell) (q1 q2 q3 : R)
  : option (list event3) :=
  if Reqb (getW c1) 0 || Reqb (getW c2) 0 || Reqb (getW c3) 0 then Some [] else
  let dist a b := distSq (tmetric P) (getPos a) (getPos b) in
  let d1sq := if Reqb q1 0 then dist c2 c3 else q1 in
  let d2sq := if Reqb q2 0 then dist c1 c3 else q2 in
  let d3sq := if Reqb q3 0 then dist c1 c2 else q3 in
  let sorted O c1 c2 c3 d1sq d2sq d3sq :=
    match decide3 P O c1 c2 c3 d1sq d2sq d3sq with
    | Drop3 => Some []
    | Direct3 u v k =>
        Some [mkev3 c1 c2 c3 (sqrt d1sq) (sqrt d2sq) (sqrt d3sq) u v k]
    | Split3 a b c =>
        match fuel with
        | 0%nat => None
        | S n =>
            match kids a c1, kids b c2, kids c c3 with
            | Some l1, Some l2, Some l3 =>
                oconcat (map (fun t => process111 P O n (fst (fst t)) (snd (fst t)) (snd t)
                                         (keep (only1 a b c) d1sq) (keep (only1 b a c) d2sq)
                                         (keep (only1 c a b) d3sq))
                             (prod3 l1 l2 l3))
            | _, _, _ => None
            end
        end
    end in
  match tbt P, O with
  | LogRUV, O0 => (* 569-602 *)
      if Rltb d2sq d1sq then
        if Rltb d3sq d2sq then sorted O0 c1 c2 c3 d1sq d2sq d3sq
        else if Rltb d3sq d1sq then sorted O0 c1 c3 c2 d1sq d3sq d2sq
        else sorted O0 c3 c1 c2 d3sq d1sq d2sq
      else
        if Rltb d3sq d1sq then sorted O0 c2 c1 c3 d2sq d1sq d3sq
        else if Rltb d3sq d2sq then sorted O0 c2 c3 c1 d2sq d3sq d1sq
        else sorted O0 c3 c2 c1 d3sq d2sq d1sq
  | LogSAS, O0 => (* 603-621 *)
      if negb (ccw (tmetric P) (tcoord P) (getPos c1) (getPos c3) (getPos c2)) then
        oapp (sorted O1 c1 c3 c2 d1sq d3sq d2sq)
       (oapp (sorted O1 c2 c1 c3 d2sq d1sq d3sq) (sorted O1 c3 c2 c1 d3sq d2sq d1sq))
      else
        oapp (sorted O1 c1 c2 c3 d1sq d2sq d3sq)
       (oapp (sorted O1 c3 c1 c2 d3sq d1sq d2sq) (sorted O1 c2 c3 c1 d2sq d3sq d1sq))
  | LogRUV, O1 => (* 634-644 *)
      if Rltb d3sq d2sq then sorted O1 c1 c2 c3 d1sq d2sq d3sq
      else sorted O1 c1 c3 c2 d1sq d3sq d2sq
  | LogSAS, O1 => (* 645-654 *)
      if negb (ccw (tmetric P) (tcoord P) (getPos c1) (getPos c3) (getPos c2))
      then sorted O1 c1 c3 c2 d1sq d3sq d2sq
      else sorted O1 c1 c2 c3 d1sq d2sq d3sq
  | _, O3 => sorted O3 c1 c2 c3 d1sq d2sq d3sq (* 660 *)
  end.

(** Enough fuel: every split replaces at least one cell by its children. *)
Definition fuel3 (c1 c2 c3 : cell) : nat := (depth c1 + depth c2 + depth c3)%nat.
(** A call without known distances (default arguments 0). *)
Definition run111 (P : tparams) (O : order) (c1 c2 c3 : cell) : option (list event3) :=
  process111 P O (fuel3 c1 c2 c3) c1 c2 c3 0 0 0.

(** process12, Corr3.cpp:453-527. *)
Fixpoint process12 (P : tparams) (O : order) (fuel : nat) (c1 c2 : cell) : option (list event3) :=
  if Reqb (getW c1) 0 || Reqb (getW c2) 0 then Some [] else
  if tooSmallS2 P (csize c2) then Some [] else
  let ss := effSize (tmetric P) (getPos c1) (getPos c2) (Fin (csize c1)) (Fin (csize c2)) in
  let s1 := efin (fst ss) in
  let s2 := efin (snd ss) in
  let rsq := distSq (tmetric P) (getPos c1) (getPos c2) in
  if tooSmall3 P rsq (s1 + s2) then Some [] else
  if tooLarge3 P rsq (s1 + s2) then Some [] else
  if noAllowedAngles P O rsq s1 s2 then Some [] else
  match fuel with
  | 0%nat => None
  | S n =>
      match c2 with
      | Node _ _ l2 r2 =>
          if Rltb s2 s1 then
            match c1 with
            | Node _ _ l1 r1 =>
                oapp (process12 P O n l1 l2) (oapp (process12 P O n l1 r2)
               (oapp (process12 P O n r1 l2) (oapp (process12 P O n r1 r2)
               (oapp (run111 P O l1 l2 r2) (run111 P O r1 l2 r2)))))
            | _ => None
            end
          else
            oapp (process12 P O n c1 l2) (oapp (process12 P O n c1 r2) (run111 P O c1 l2 r2))
      | _ => None
      end
  end.
Definition run12 (P : tparams) (O : order) (c1 c2 : cell) : option (list event3) :=
  process12 P O (depth c1 + depth c2) c1 c2.

(** process3, Corr3.cpp:427-451. *)
Fixpoint process3 (P : tparams) (c1 : cell) : option (list event3) :=
  if Reqb (getW c1) 0 then Some [] else
  if Rltb (csize c1) (thalfminsep P) then Some [] else
  match c1 with
  | Node _ _ l r =>
      oapp (process3 P l) (oapp (process3 P r) (oapp (run12 P O0 l r) (run12 P O0 r l)))
  | _ => None
  end.

(** Iterations of the loops over top-level cells: auto, Corr3.cpp:261-283; cross12, 343-363;
    cross, 407-427. *)
Fixpoint over2 (P : tparams) (O : order) (c1 : cell) (l : list cell) : option (list event3) :=
  match l with
  | [] => Some []
  | c2 :: t => oapp (run12 P O c1 c2)
              (oapp (oconcat (map (run111 P O c1 c2) t)) (over2 P O c1 t))
  end.
Fixpoint autoOver (P : tparams) (c1 : cell) (l : list cell) : option (list event3) :=
  match l with
  | [] => Some []
  | c2 :: t => oapp (run12 P O0 c1 c2) (oapp (run12 P O0 c2 c1)
              (oapp (oconcat (map (run111 P O0 c1 c2) t)) (autoOver P c1 t)))
  end.
Fixpoint auto3Iters (P : tparams) (cells : list cell) : list (option (list event3)) :=
  match cells with
  | [] => []
  | c1 :: t => oapp (process3 P c1) (autoOver P c1 t) :: auto3Iters P t
  end.
Definition cross12Iters (P : tparams) (O : order) (cs1 cs2 : list cell)
  : list (option (list event3)) := map (fun c1 => over2 P O c1 cs2) cs1.
Definition cross3Iters (P : tparams) (O : order) (cs1 cs2 cs3 : list cell)
  : list (option (list event3)) :=
  map (fun c1 => oconcat (map (fun c2 => oconcat (map (run111 P O c1 c2) cs3)) cs2)) cs1.

(** ** Accumulation *)

(** The output arrays: ntri, weight, meand1.., meanlogd1.., meanu, meanv, zeta (KKK). *)
Inductive tfield := TNtri | TWeight | TD1 | TLogD1 | TD2 | TLogD2 | TD3 | TLogD3 | TU | TV | TZeta.
Definition accum3 := tfield -> Z -> R.
Definition cleared3 : accum3 := fun _ _ => 0.

(** finishProcess, Corr3.cpp:2522-2548; ProcessZeta of KKK, 1661-1667. *)
Definition tval (f : tfield) (e : event3) : R :=
  let www := getW (tc1 e) * getW (tc2 e) * getW (tc3 e) in
  match f with
  | TNtri => INR (getN (tc1 e)) * INR (getN (tc2 e)) * INR (getN (tc3 e))
  | TWeight => www
  | TD1 => www * td1 e | TLogD1 => www * ln (td1 e)
  | TD2 => www * td2 e | TLogD2 => www * ln (td2 e)
  | TD3 => www * td3 e | TLogD3 => www * ln (td3 e)
  | TU => www * tu e
  | TV => www * tv e
  | TZeta => dwk (getData (tc1 e)) * dwk (getData (tc2 e)) * dwk (getData (tc3 e))
  end.
Definition finish3 (s : accum3) (e : event3) : accum3 :=
  fun f k => if (k =? tk e)%Z then s f k + tval f e else s f k.
Definition acc3Add (s t : accum3) : accum3 := fun f k => s f k + t f k.
(** A thread works on a cleared duplicate; addData under omp critical (Corr3.cpp:247-291). *)
Definition thread3 (iters : list (list event3)) : accum3 :=
  fold_left (fun s evs => fold_left finish3 evs s) iters cleared3.
Definition parallel3 (s0 : accum3) (threads : list (list (list event3))) : accum3 :=
  fold_left (fun s th => acc3Add s (thread3 th)) threads s0.

(** BaseCorr3::process, all possible final states. *)
Definition processIters (iters : list (option (list event3))) (s0 s1 : accum3) : Prop :=
  exists evs threads, map Some evs = iters /\ schedule evs threads /\ s1 = parallel3 s0 threads.

(** ** corr3base.py *)

(** _get_minmax_size, corr3base.py:2232-2262 (LogRUV, LogSAS). *)
Definition minMaxSize3 (P : tparams) : R * R :=
  match tmetric P with
  | Euclidean =>
      match tbt P with
      | LogRUV =>
          let b1 := Rmin (Rmin (ta P) (tb P)) (Rmin (tbu P) (tbv P)) in
          (tminsep P * tminu P * b1 / (2 + 3 * b1), 2 * tmaxsep P * Rmin (ta P) (tb P))
      | LogSAS =>
          let b1 := Rmin (ta P) (tb P) in
          let b2 := Rmin (ta P) (tbu P) in
          (Rmin (tminsep P * b1 / (2 + 3 * b1))
                (2 * tminsep P * tan (tminu P / 2) * b2 / (2 + 3 * b2)), tmaxsep P * b1)
      end
  | _ => (0, 0)
  end.
(** Everything a Corr3 object knows at the time of a process call. *)
Record runcfg3 := mkR3 {
  r3P : tparams; r3sm : splitmethod; r3mintop : Z; r3maxtop : Z }.
Definition field3 (R : runcfg3) : fparams :=
  let mm := minMaxSize3 (r3P R) in
  mkF (tcoord (r3P R)) (r3sm R) (fst mm) (Fin (snd mm)) false (r3mintop R) (r3maxtop R).

(** process_auto, corr3base.py:1547-1575. *)
Definition runAuto3 (R : runcfg3) (cat : list obj) (s0 s1 : accum3) : Prop :=
  exists cells, buildField (field3 R) cat cells /\
    processIters (auto3Iters (r3P R) cells) s0 s1.
(** _process_cross12, corr3base.py:1577-1606: ordered=True is O1, False is O0. *)
Definition runCross12 (R : runcfg3) (O : order) (cat1 cat2 : list obj) (s0 s1 : accum3) : Prop :=
  exists cells1 cells2, buildField (field3 R) cat1 cells1 /\ buildField (field3 R) cat2 cells2 /\
    processIters (cross12Iters (r3P R) O cells1 cells2) s0 s1.
(** process_cross, corr3base.py:1608-1658: ordered=True is O3, 1 is O1, False is O0. *)
Definition runCross3 (R : runcfg3) (O : order) (cat1 cat2 cat3 : list obj) (s0 s1 : accum3)
  : Prop :=
  exists cells1 cells2 cells3, buildField (field3 R) cat1 cells1 /\
    buildField (field3 R) cat2 cells2 /\ buildField (field3 R) cat3 cells3 /\
    processIters (cross3Iters (r3P R) O cells1 cells2 cells3) s0 s1.
