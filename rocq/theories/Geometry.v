(** Model of the geometric kernel of the C++ layer:
    include/Position.h, include/Metric.h, include/BinType.h, include/Split.h.

    Simplifications (all files): double is modelled by the real numbers R, so there is
    no rounding, overflow or NaN.  Division by zero is only written where the code
    guards it or where theorems carry a hypothesis excluding it. *)
From Coq Require Import Reals Lra List ZArith Bool.
From Verif Require Import Base.
Open Scope R_scope.

(** ** Position.h *)

(** include/Position.h:36-223.  Position<ThreeD> has x,y,z.  Position<Flat> has x,y only
    and is modelled as a position with pz = 0: all operations used below agree (dot,
    normSq, difference, sum, scaling).  The caches _normsq/_norm are not modelled. *)
Record pos := mkpos { px : R; py : R; pz : R }.

(** include/Position.h:189-196 (and 90-97) *)
Definition padd (p q : pos) : pos := mkpos (px p + px q) (py p + py q) (pz p + pz q).
Definition psub (p q : pos) : pos := mkpos (px p - px q) (py p - py q) (pz p - pz q).
Definition pscale (a : R) (p : pos) : pos := mkpos (a * px p) (a * py p) (a * pz p).
(** include/Position.h:171-172 *)
Definition dot (p q : pos) : R := px p * px q + py p * py q + pz p * pz q.
(** include/Position.h:173-178 *)
Definition cross (p q : pos) : pos :=
  mkpos (py p * pz q - pz p * py q) (pz p * px q - px p * pz q) (px p * py q - py p * px q).
(** include/Position.h:159-168 *)
Definition normSq (p : pos) : R := px p * px p + py p * py p + pz p * pz p.
Definition norm (p : pos) : R := sqrt (normSq p).

(** include/Position.h:25 *)
Inductive coord := Flat | ThreeD | Sphere.

(** include/Position.h:74, 169 (no-op) and 251-256 (Sphere) *)
Definition normalize (c : coord) (p : pos) : pos :=
  match c with
  | Sphere => if Req_EM_T (norm p) 0 then mkpos 1 0 0 else pscale (/ norm p) p
  | _ => p
  end.

(** include/Position.h:106-112, 201-209: the two while loops of [wrap], one coordinate.
    The loops get a fuel argument; [wrap1] passes enough fuel (proved in GeomFacts). *)
Fixpoint wrap_down (n : nat) (per x : R) : R :=
  match n with
  | O => x
  | S n' => if Rlt_dec (per / 2) x then wrap_down n' per (x - per) else x
  end.
Fixpoint wrap_up (n : nat) (per x : R) : R :=
  match n with
  | O => x
  | S n' => if Rlt_dec x (- per / 2) then wrap_up n' per (x + per) else x
  end.
Definition wrap_fuel (per x : R) : nat := Z.to_nat (up (Rabs x / per)).
Definition wrap1 (per x : R) : R :=
  let x1 := wrap_down (wrap_fuel per x) per x in wrap_up (wrap_fuel per x1) per x1.
Definition wrap (xp yp zp : R) (p : pos) : pos :=
  mkpos (wrap1 xp (px p)) (wrap1 yp (py p)) (wrap1 zp (pz p)).

(** ** Metric.h *)

(** include/Metric.h:28.  The Arc metric is overloaded on the coordinate system
    (Sphere: lines 603-622, ThreeD: 640-658), hence two constructors. *)
Inductive metric :=
  | Euclidean
  | Rperp
  | Rlens
  | ArcSphere
  | Arc3D
  | OldRperp
  | Periodic (xp yp zp : R).

(** Return value of MetricHelper<M>::DistSq.
    Euclidean Metric.h:142-146,196-201; OldRperp 264-307; Rperp 391-427 ; Rlens 529-542;
    Arc (Sphere) 603-617, (ThreeD) 640-658; Periodic 751-758, 811-817. *)
Definition distSq (M : metric) (p1 p2 : pos) : R :=
  match M with
  | Euclidean => normSq (psub p1 p2)
  | OldRperp =>
      let d3sq := normSq (psub p1 p2) in
      let r1sq := normSq p1 in
      let r2sq := normSq p2 in
      let rparsq := Rsqr (r1sq - r2sq) / (r1sq + r2sq + 2 * sqrt (r1sq * r2sq)) in
      Rabs (d3sq - rparsq)
  | Rperp =>
      let normLsq := normSq (pscale (1/2) (padd p1 p2)) in
      if Rlt_dec 0 normLsq then normSq (cross p1 p2) / normLsq else 4 * normSq p1
  | Rlens => normSq (cross p1 p2) / normSq p2
  | ArcSphere => Rsqr (2 * asin (norm (psub p1 p2) / 2))
  | Arc3D => Rsqr (asin (norm (cross p1 p2) / (norm p1 * norm p2)))
  | Periodic xp yp zp => normSq (wrap xp yp zp (psub p1 p2))
  end.

(** The modification of the sizes s1,s2 (passed by reference) by DistSq; same lines.
    OldRperp/Rperp: "s1 *= factor" guarded by s1 != 0 (and s1 < infinity);
    for Rperp a zero |L| makes the factor infinite. *)
Definition effSize (M : metric) (p1 p2 : pos) (s1 s2 : ext) : ext * ext :=
  match M with
  | Rlens => (s1, escale (sqrt (normSq p1 / normSq p2)) s2)
  | Arc3D => (escale (/ norm p1) s1, escale (/ norm p2) s2)
  | OldRperp =>
      let r1sq := normSq p1 in
      let r2sq := normSq p2 in
      if Rlt_dec r1sq r2sq
      then (escale (1 + 1/4 * (r2sq - r1sq) / r1sq) s1, s2)
      else (s1, escale (1 + 1/4 * (r1sq - r2sq) / r2sq) s2)
  | Rperp =>
      let normLsq := normSq (pscale (1/2) (padd p1 p2)) in
      let grow r s :=
        match s with
        | Inf => Inf
        | Fin x => if Req_EM_T x 0 then Fin x
                   else if Rlt_dec normLsq r
                        then (if Req_EM_T normLsq 0 then Inf else Fin (sqrt (r / normLsq) * x))
                        else Fin x
        end in
      (grow (normSq p2) s1, grow (normSq p1) s2)
  | _ => (s1, s2)
  end.

(** include/Metric.h:54-59 (P=1) and 84-89 (P=2, OldRperp) : calculateRPar *)
Definition calculateRPar (M : metric) (p1 p2 : pos) : R :=
  match M with
  | OldRperp => norm p2 - norm p1
  | _ => let r := psub p2 p1 in
         let L := pscale (1/2) (padd p1 p2) in
         dot r L / norm L
  end.

(** Optional limits (minrpar, maxrpar); None is the template case P=0. *)
Definition rparlim := option (R * R).

(** The s1ps2 that reaches ParHelper: Arc<ThreeD> rescales it (Metric.h:669-692). *)
Definition rparSize (M : metric) (p1 p2 : pos) (s : ext) : ext :=
  match M with
  | Arc3D => escale (Rmax (norm p1) (norm p2)) s
  | _ => s
  end.

(** include/Metric.h:61-69, 91-99 and the per-metric wrappers; P=0: lines 38-42. *)
Definition isRParOutsideRange (M : metric) (lim : rparlim) (p1 p2 : pos) (s : ext) : bool :=
  match lim with
  | None => false
  | Some (minrpar, maxrpar) =>
      let rpar := calculateRPar M p1 p2 in
      match rparSize M p1 p2 s with
      | Inf => false
      | Fin x => if Rlt_dec (rpar + x) minrpar then true
                 else if Rlt_dec maxrpar (rpar - x) then true else false
      end
  end.

(** include/Metric.h:71-78, 101-108; P=0: lines 44-48. *)
Definition isRParInsideRange (M : metric) (lim : rparlim) (p1 p2 : pos) (s : ext) : bool :=
  match lim with
  | None => true
  | Some (minrpar, maxrpar) =>
      let rpar := calculateRPar M p1 p2 in
      match rparSize M p1 p2 s with
      | Inf => false
      | Fin x => if Rlt_dec (rpar - x) minrpar then false
                 else if Rlt_dec maxrpar (rpar + x) then false else true
      end
  end.

(** metric.tooSmallDist: Metric.h:176-178, 221-223 (true); OldRperp 342-351; Rperp 459-472. *)
Definition tooSmallM (M : metric) (p1 p2 : pos) (rsq : R) (s : ext) (minsep : R) : bool :=
  match M with
  | OldRperp =>
      match s with
      | Inf => false
      | Fin x =>
          let rpar := norm p2 - norm p1 in
          let d3 := sqrt (Rsqr rpar + rsq) in
          Rltb (rsq + 2 * (d3 + Rabs rpar) * x) (minsep * minsep)
      end
  | Rperp =>
      let normLsq := normSq (pscale (1/2) (padd p1 p2)) in
      if Rlt_dec rsq normLsq then true
      else match s with
           | Inf => false
           | Fin x =>
               if Rlt_dec (4 * normLsq) (Rsqr x) then false
               else let twoL := 2 * sqrt normLsq in
                    Rltb rsq (Rsqr (minsep * (1 - x / twoL) - x))
           end
  | _ => true
  end.

(** metric.tooLargeDist: Metric.h:180-182, 225-227 (true); OldRperp 359-368; Rperp 475-486. *)
Definition tooLargeM (M : metric) (p1 p2 : pos) (rsq : R) (s : ext) (fullmaxsep : R) : bool :=
  match M with
  | OldRperp =>
      match s with
      | Inf => false
      | Fin x =>
          let rpar := norm p2 - norm p1 in
          let d3 := sqrt (Rsqr rpar + rsq) in
          Rltb (fullmaxsep * fullmaxsep) (rsq - 2 * (d3 + Rabs rpar) * x)
      end
  | Rperp =>
      let normLsq := normSq (pscale (1/2) (padd p1 p2)) in
      if Rlt_dec rsq normLsq then true
      else match s with
           | Inf => false
           | Fin x => let twoL := 2 * sqrt normLsq in
                      Rltb (Rsqr (fullmaxsep * (1 + x / twoL) + x)) rsq
           end
  | _ => true
  end.

(** ** BinType.h *)

(** include/BinType.h:35 (the 2-point bin types). *)
Inductive bintype := BLog | BLinear | BTwoD.

(** The parameters stored in BaseCorr2 (Corr2.cpp:55-81).  [nbins] is the C++ _nbins, i.e.
    the length of the output arrays (the square of the python nbins for TwoD). *)
Record bparams := mkB {
  btype : bintype;
  minsep : R; maxsep : R; nbins : Z; binsize : R;
  slop_b : R; slop_a : R }.

Definition logminsep (B : bparams) : R := ln (minsep B).
Definition halfminsep (B : bparams) : R := (1/2) * minsep B.

(** BinTypeHelper<>::calculateFullMaxSep: BinType.h:57-58, 170-171, 262-263;
    CalculateFullMaxSep Corr2.cpp:39-53. *)
Definition fullmaxsep (B : bparams) : R :=
  match btype B with BTwoD => maxsep B * sqrt 2 | _ => maxsep B end.

(** getEffectiveBSq: BinType.h:52-53, 167-168, 258-259. *)
Definition getEffectiveBSq (B : bparams) (rsq : R) : R :=
  let bsq := slop_b B * slop_b B in
  let asq := slop_a B * slop_a B in
  match btype B with
  | BLog => rsq * Rmin bsq asq
  | _ => Rmin bsq (asq * rsq)
  end.

(** isRSqInRange: BinType.h:63-68, 174-179, 267-280. *)
Definition isRSqInRange (B : bparams) (rsq : R) (p1 p2 : pos) : bool :=
  let minsepsq := minsep B * minsep B in
  let maxsepsq := maxsep B * maxsep B in
  match btype B with
  | BTwoD =>
      if Req_EM_T rsq 0 then false
      else if Rlt_dec rsq minsepsq then false
      else let d := psub p1 p2 in
           Rltb (Rmax (Rabs (px d)) (Rabs (py d))) (maxsep B)
  | _ => Rleb minsepsq rsq && Rltb rsq maxsepsq
  end.

(** tooSmallDist: BinType.h:72-78, 180-183, 282-285. *)
Definition tooSmallDist (B : bparams) (rsq : R) (s : ext) : bool :=
  let minsepsq := minsep B * minsep B in
  match s with
  | Inf => false
  | Fin x => Rltb rsq minsepsq && Rltb x (minsep B) && Rltb rsq (Rsqr (minsep B - x))
  end.

(** tooLargeDist: BinType.h:79-84, 184-187, 286-290. *)
Definition tooLargeDist (B : bparams) (rsq : R) (s : ext) : bool :=
  let maxsepsq := maxsep B * maxsep B in
  match s with
  | Inf => false
  | Fin x =>
      match btype B with
      | BTwoD => Rleb (2 * maxsepsq) rsq && Rleb (Rsqr (sqrt 2 * maxsep B + x)) rsq
      | _ => Rleb maxsepsq rsq && Rleb (Rsqr (maxsep B + x)) rsq
      end
  end.

(** calculateBinK: BinType.h:87-91, 190-194, 292-308. *)
Definition calculateBinK (B : bparams) (p1 p2 : pos) (r logr : R) : Z :=
  match btype B with
  | BLog => trunc ((logr - logminsep B) / binsize B)
  | BLinear => trunc ((r - minsep B) / binsize B)
  | BTwoD =>
      let dx := px p2 - px p1 in
      let dy := py p2 - py p1 in
      let i := trunc ((dx + maxsep B) / binsize B) in
      let j := trunc ((dy + maxsep B) / binsize B) in
      let n := trunc (2 * maxsep B / binsize B + 1/2) in
      let i := if (i =? n)%Z then (i - 1)%Z else i in
      let j := if (j =? n)%Z then (j - 1)%Z else j in
      (j * n + i)%Z
  end.

(** singleBin: BinType.h:95-151 (Log), 197-245 (Linear), 312-374 (TwoD).
    [None] models "return false"; [Some (k,r,logr)] models "return true" with the values of
    the reference arguments k, r, logr, which the caller initialises to -1, 0, 0
    (Corr2.cpp:330-331) and which are left alone on some paths. *)
Definition singleBin (B : bparams) (rsq : R) (s : ext) (p1 p2 : pos) : option (Z * R * R) :=
  let b := slop_b B in
  let bsq := b * b in
  let asq := slop_a B * slop_a B in
  match s with
  | Inf => None
  | Fin x =>
    match btype B with
    | BLog =>
        if Req_EM_T x 0 then Some ((-1)%Z, 0, 0)
        else if Rlt_dec (asq * rsq) (x * x) then None
        else if Rle_dec (x * x) (bsq * rsq) then Some ((-1)%Z, 0, 0)
        else if Rlt_dec (1/4 * Rsqr (binsize B + b) * rsq) (x * x) then None
        else
          let logr := 1/2 * ln rsq in
          let kk := (logr - logminsep B) / binsize B in
          let ik := trunc kk in
          let frackk := kk - IZR ik in
          let f := Rmin frackk (1 - frackk) in
          if Rlt_dec (Rsqr (f * binsize B + b) * rsq) (x * x) then None
          else if Rlt_dec (Rsqr (frackk * binsize B + b - x * x / rsq) * rsq) (x * x) then None
          else Some (ik, sqrt rsq, logr)
    | BLinear =>
        if Rlt_dec (asq * rsq) (Rsqr x) then None
        else if Rle_dec x b then Some ((-1)%Z, 0, 0)
        else if Rlt_dec (1/2 * (binsize B + b)) x then None
        else
          let r := sqrt rsq in
          let kk := (r - minsep B) / binsize B in
          let ik := trunc kk in
          let frackk := kk - IZR ik in
          let f := Rmin frackk (1 - frackk) in
          if Rlt_dec (f * binsize B + b) x then None
          else Some (ik, r, ln r)
    | BTwoD =>
        if Rlt_dec (asq * rsq) (Rsqr x) then None
        else if Rle_dec x b then Some ((-1)%Z, 0, 0)
        else if Rlt_dec (1/2 * (binsize B + b)) x then None
        else
          let dx := px p2 - px p1 in
          let dy := py p2 - py p1 in
          let ii := (dx + maxsep B) / binsize B in
          let jj := (dy + maxsep B) / binsize B in
          let i := trunc ii in
          let j := trunc jj in
          let mid := trunc (maxsep B / binsize B) in
          if ((i =? mid) && (j =? mid))%Z then None
          else if Rlt_dec (ii - x / binsize B) (IZR i) then None
          else if Rle_dec (IZR i + 1) (ii + x / binsize B) then None
          else if Rlt_dec (jj - x / binsize B) (IZR j) then None
          else if Rle_dec (IZR j + 1) (jj + x / binsize B) then None
          else
            let n := trunc (2 * maxsep B / binsize B + 1/2) in
            Some ((j * n + i)%Z, 0, 1/2 * ln rsq)
    end
  end.

(** do_reverse: BinType.h:43, 161, 254. *)
Definition do_reverse (B : bparams) : bool :=
  match btype B with BTwoD => true | _ => false end.

(** ** Split.h *)

(** include/Split.h:82-101 CalcSplitSq called with split1 = split2 = false; result is
    (split1, split2).  The s2 > s1 case is the recursive call with swapped arguments. *)
Definition calcSplitSq_ordered (s1 s2 : ext) (bsq : R) : bool * bool :=
  (* precondition: not (s2 > s1) *)
  if eltb (escale 2 s2) s1 then (true, false)
  else (true, match s2 with Inf => true | Fin y => Rltb (3422/10000 * bsq) (y * y) end).
Definition calcSplitSq (s1 s2 : ext) (bsq : R) : bool * bool :=
  if eltb s1 s2
  then let '(a, b) := calcSplitSq_ordered s2 s1 bsq in (b, a)
  else calcSplitSq_ordered s1 s2 bsq.
