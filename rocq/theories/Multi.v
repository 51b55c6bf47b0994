(** Model of the multipole algorithm of the three-point correlations (bin_type='LogMultipole',
    NNN and KKK): src/Corr3.cpp:816-1493 and the CalculateGn / CalculateZeta helpers,
    include/MultipoleScratch.h, and the LogMultipole parts of treecorr/corr3base.py.

    As in Traverse.v the effects of the traversal are returned as lists: [gev] is one call of
    calculateGn, [zev]/[zev2] one call of calculateZeta together with the calculateGn calls that
    went into the scratch arrays since mp.clear() (the traversal itself never reads the scratch
    arrays, and mp.duplicate() copies all of them).  [None] models dereferencing a null child, a
    failed Assert, or exhausted fuel.

    GGG, dots/debug output and the DIRECT_MULTIPOLE build option are not modelled. *)
From Coq Require Import Reals Lra List ZArith Bool.
From Verif Require Import Base Geometry Tree Traverse Spin Run Corr3.
Import ListNotations.
Open Scope R_scope.

(** The parameters: metric and the Log binning of both sides (2-point parameters, since the
    algorithm uses BinTypeHelper<Log>, Corr3.cpp:2685-2690; MetricHelper<M,0>: no rpar limits),
    coordinate system, max_n (= _nubins), brute, split method, min_top and max_top. *)
Record mparams := mkM {
  mC : cparams; mcoord : coord; mmaxn : nat; mbrute : brutemode;
  msm : splitmethod; mmintop : Z; mmaxtop : Z }.
Definition mB (P : mparams) : bparams := cbin (mC P).

(** SQR(s) > x *)
Definition sqGt (s : ext) (x : R) : bool :=
  match s with Inf => true | Fin y => Rltb x (y * y) end.
Definition emax (a b : ext) : ext :=
  match a, b with Fin x, Fin y => Fin (Rmax x y) | _, _ => Inf end.

(** One calculateGn call, Corr3.cpp:1344-1371: cells, bin, r and log(r). *)
Record gev := mkG { g1 : cell; g2 : cell; gk : Z; gr : R; glogr : R }.

(** splitC2Cells, Corr3.cpp:997-1045.  [s1] is the local variable s1: DistSq may change it
    (passed by reference), and the changed value is used for the following cells of the list. *)
Fixpoint splitC2 (P : cparams) (c1 : cell) (s1 : ext) (l : list cell) : option (list cell) :=
  match l with
  | [] => Some []
  | c2 :: t =>
      let B := cbin P in
      let M := cmetric P in
      let p1 := getPos c1 in
      let p2 := getPos c2 in
      let '(e1, e2) := effSize M p1 p2 s1 (getSize c2) in
      let rsq := distSq M p1 p2 in
      let s1ps2 := eadd e1 e2 in
      let rest := splitC2 P c1 e1 t in
      if isRParOutsideRange M (crpar P) p1 p2 s1ps2 then rest else
      if tooSmallDist B rsq s1ps2 && tooSmallM M p1 p2 rsq s1ps2 (minsep B) then rest else
      if tooLargeDist B rsq s1ps2 && tooLargeM M p1 p2 rsq s1ps2 (maxsep B) then rest else
      let split := match singleBin B rsq s1ps2 p1 p2 with Some _ => false | None => true end in
      if split && eltb e1 e2
      then match c2 with
           | Node _ _ a b => oapp (Some [a; b]) rest
           | _ => None
           end
      else oapp (Some [c2]) rest
  end.

(** Result of splitC2CellsOrCalculateGn: new list, anysplit1, calculateGn calls, return value. *)
Record gnres := mkGn { nList : list cell; nAny : bool; nEv : list gev; nMax : ext }.

(** [r + s1ps2 > thresh1] with thresh1 = oneBinLessThan(prev) = (1-bin_size)*prev
    (BinType.h:153-154); for prev = infinity thresh1 is +-infinity (or NaN for bin_size=1). *)
Definition gtThresh (B : bparams) (rtot prev : ext) : bool :=
  match prev, rtot with
  | Inf, _ => Rltb 1 (binsize B)
  | Fin m, Inf => true
  | Fin m, Fin t => Rltb ((1 - binsize B) * m) t
  end.

(** splitC2CellsOrCalculateGn, Corr3.cpp:1114-1208.  [anysplit1] is only ever set to true and
    max_remaining_r starts at 0, so both are accumulated from the end of the list. *)
Fixpoint splitGn (P : cparams) (c1 : cell) (s1 : ext) (l : list cell) (prev : ext)
  : option gnres :=
  match l with
  | [] => Some (mkGn [] false [] (Fin 0))
  | c2 :: t =>
      let B := cbin P in
      let M := cmetric P in
      let p1 := getPos c1 in
      let p2 := getPos c2 in
      let '(e1, e2) := effSize M p1 p2 s1 (getSize c2) in
      let rsq := distSq M p1 p2 in
      let s1ps2 := eadd e1 e2 in
      let rest := splitGn P c1 e1 t prev in
      if isRParOutsideRange M (crpar P) p1 p2 s1ps2 then rest else
      if tooSmallDist B rsq s1ps2 && tooSmallM M p1 p2 rsq s1ps2 (minsep B) then rest else
      if tooLargeDist B rsq s1ps2 && tooLargeM M p1 p2 rsq s1ps2 (maxsep B) then rest else
      match (if isRParInsideRange M (crpar P) p1 p2 s1ps2
             then singleBin B rsq s1ps2 p1 p2 else None) with
      | Some (k, _, lr) =>
          if isRSqInRange B rsq p1 p2
          then
            let r := sqrt rsq in
            let '(k, lr) := if (k <? 0)%Z then (calculateBinK B p1 p2 r (ln r), ln r)
                            else (k, lr) in
            match rest with
            | Some g => Some (mkGn (nList g) (nAny g) (mkG c1 c2 k r lr :: nEv g) (nMax g))
            | None => None
            end
          else rest
      | None =>
          let rtot := eadd (Fin (sqrt rsq)) s1ps2 in
          let '(split1, split2) := calcSplitSq e1 e2 (getEffectiveBSq B rsq) in
          let any := split1 && gtThresh B rtot prev in
          match (if split2 then match c2 with Node _ _ a b => Some [a; b] | _ => None end
                 else Some [c2]), rest with
          | Some new, Some g =>
              Some (mkGn (new ++ nList g) (any || nAny g) (nEv g) (emax rtot (nMax g)))
          | _, _ => None
          end
      end
  end.

(** The k of multipoleFinish, Corr3.cpp:1243-1254 and 1303-1314: the bins from this one on are
    complete when all remaining separations are at most maxr. *)
Definition zetaK (B : bparams) (p1 : pos) (maxr : R) : Z :=
  if Rlt_dec maxr (minsep B) then 0%Z
  else (calculateBinK B p1 p1 maxr (ln maxr) + 1)%Z.
(** The decision to call calculateZeta(c1, ..., k, mink_zeta) before going on. *)
Definition early (B : bparams) (p1 : pos) (maxr : ext) (mink : Z) : option Z :=
  match maxr with
  | Inf => None
  | Fin m => if Rlt_dec m (maxsep B)
             then let k := zetaK B p1 m in if (k <? mink)%Z then Some k else None
             else None
  end.

(** One call calculateZeta(c1, mp, kstart, mink_zeta); one calculateZeta(c1, ordered, mp2, mp3,
    kstart, mink_zeta). *)
Record zev := mkZ { z1 : cell; zmp : list gev; zk : Z; zmink : Z }.
Record zev2 := mkZ2 { y1 : cell; ymp2 : list gev; ymp3 : list gev; yk : Z; ymink : Z }.

(** multipoleFinish, one list: Corr3.cpp:1210-1274. *)
Fixpoint mfinish (P : cparams) (fuel : nat) (c1 : cell) (l : list cell) (mp : list gev)
    (mink : Z) (maxr : ext) : option (list zev) :=
  match splitGn P c1 (getSize c1) l maxr with
  | None => None
  | Some g =>
      let mp := mp ++ nEv g in
      match nList g with
      | [] => Some [mkZ c1 mp 0 mink]
      | _ =>
          let '(zs, mink) :=
            match early (cbin P) (getPos c1) (nMax g) mink with
            | Some k => ([mkZ c1 mp k mink], k)
            | None => ([], mink)
            end in
          match fuel with
          | O => None
          | S n =>
              oapp (Some zs)
                (if nAny g
                 then match c1 with
                      | Node _ _ a b =>
                          oapp (mfinish P n a (nList g) mp mink (nMax g))
                               (mfinish P n b (nList g) mp mink (nMax g))
                      | _ => None
                      end
                 else mfinish P n c1 (nList g) mp mink (nMax g))
          end
      end
  end.

(** multipoleFinish, two lists: Corr3.cpp:1276-1338. *)
Fixpoint mfinish2 (P : cparams) (fuel : nat) (c1 : cell) (l2 l3 : list cell)
    (mp2 mp3 : list gev) (mink : Z) (maxr2 maxr3 : ext) : option (list zev2) :=
  match splitGn P c1 (getSize c1) l2 maxr2, splitGn P c1 (getSize c1) l3 maxr3 with
  | Some g, Some h =>
      let mp2 := mp2 ++ nEv g in
      let mp3 := mp3 ++ nEv h in
      match nList g, nList h with
      | [], [] => Some [mkZ2 c1 mp2 mp3 0 mink]
      | _, _ =>
          let '(zs, mink) :=
            match early (cbin P) (getPos c1) (emax (nMax g) (nMax h)) mink with
            | Some k => ([mkZ2 c1 mp2 mp3 k mink], k)
            | None => ([], mink)
            end in
          match fuel with
          | O => None
          | S n =>
              oapp (Some zs)
                (if nAny g || nAny h
                 then match c1 with
                      | Node _ _ a b =>
                          oapp (mfinish2 P n a (nList g) (nList h) mp2 mp3 mink (nMax g) (nMax h))
                               (mfinish2 P n b (nList g) (nList h) mp2 mp3 mink (nMax g) (nMax h))
                      | _ => None
                      end
                 else mfinish2 P n c1 (nList g) (nList h) mp2 mp3 mink (nMax g) (nMax h))
          end
      end
  | _, _ => None
  end.

(** Number of cells of a tree; each step of multipoleFinish removes one, or is followed by a step
    that does. *)
Fixpoint ncells (c : cell) : nat :=
  match c with Node _ _ a b => S (ncells a + ncells b) | _ => 1%nat end.
Definition ncellsL (l : list cell) : nat := list_sum (map ncells l).

(** multipoleSplit1: Corr3.cpp:1048-1077 (one list), 1079-1112 (two lists). *)
Definition stillTooBig (P : cparams) (c1 : cell) : bool :=
  sqGt (getSize c1) (getEffectiveBSq (cbin P) (maxsep (cbin P) * maxsep (cbin P))).
Fixpoint msplit1 (P : cparams) (c1 : cell) (l : list cell) : option (list zev) :=
  match splitC2 P c1 (getSize c1) l with
  | None => None
  | Some new =>
      if stillTooBig P c1
      then match c1 with
           | Node _ _ a b => oapp (msplit1 P a new) (msplit1 P b new)
           | _ => None
           end
      else mfinish P (2 * (ncells c1 + ncellsL new)) c1 new [] (nbins (cbin P)) (Fin 0)
  end.
Fixpoint msplit2 (P : cparams) (c1 : cell) (l2 l3 : list cell) : option (list zev2) :=
  match splitC2 P c1 (getSize c1) l2, splitC2 P c1 (getSize c1) l3 with
  | Some new2, Some new3 =>
      if stillTooBig P c1
      then match c1 with
           | Node _ _ a b => oapp (msplit2 P a new2 new3) (msplit2 P b new2 new3)
           | _ => None
           end
      else mfinish2 P (2 * (ncells c1 + ncellsL new2 + ncellsL new3)) c1 new2 new3 [] []
             (nbins (cbin P)) (Fin 0) (Fin 0)
  | _, _ => None
  end.

(** ** Scratch arrays (MultipoleScratch.h) as functions of the calculateGn calls *)

(** arr[k] after clear() and [arr[k] += v] for each call. *)
Definition mpSum (v : gev -> R) (mp : list gev) (k : Z) : R :=
  sumR (fun e => if (gk e =? k)%Z then v e else 0) mp.

(** calculateSumWSq and calculateSumWKSq, Cell.cpp:138-152. *)
Definition isFin0 (s : ext) : bool := match s with Fin x => Reqb x 0 | Inf => false end.
Fixpoint sumSq (v : cdata -> R) (c : cell) : R :=
  match c with
  | Node d s a b =>
      if isFin0 s || (dn d =? 1)%nat then v d * v d else sumSq v a + sumSq v b
  | _ => v (getData c) * v (getData c)
  end.

(** ProjectHelper<C>::ExpIPhi, ProjectHelper.h:151-153 (Flat), 331-340 (Sphere), 428-436
    (ThreeD).  Flat divides by the r that the metric gave. *)
Definition expIPhi (co : coord) (p1 p2 : pos) (r : R) : cplx :=
  match co with
  | Flat => cdivr (px p2 - px p1, py p2 - py p1) r
  | _ => let z := projDir co p2 p1 in cdivr z (sqrt (safeNorm z))
  end.
Fixpoint cpow (z : cplx) (n : nat) : cplx :=
  match n with O => (1, 0) | S m => cmul (cpow z m) z end.

(** What calculateGn adds (Corr3.cpp:1352-1364): npairs, sumw, sumwr, sumwlogr and, for
    mp.ww, sumww, sumwwr, sumwwlogr; CalculateGn of NNN (1526-1540) and KKK (1697-1719): Wn[k,n],
    Gn[k,n] += w z^n, wk z^n (real and imaginary parts), sumwwkk. *)
Definition gN (e : gev) : R := INR (getN (g2 e)).
Definition gW (e : gev) : R := getW (g2 e).
Definition gWr (e : gev) : R := getW (g2 e) * gr e.
Definition gWlogr (e : gev) : R := getW (g2 e) * glogr e.
Definition gWW (e : gev) : R := sumSq dw (g2 e).
Definition gWWr (e : gev) : R := sumSq dw (g2 e) * gr e.
Definition gWWlogr (e : gev) : R := sumSq dw (g2 e) * glogr e.
Definition gKK (e : gev) : R := sumSq dwk (g2 e).
Definition gz (co : coord) (e : gev) : cplx := expIPhi co (getPos (g1 e)) (getPos (g2 e)) (gr e).
(** [wt] is dw for Wn and dwk for Gn. *)
Definition gRe (co : coord) (wt : cdata -> R) (n : nat) (e : gev) : R :=
  fst (cscale (wt (getData (g2 e))) (cpow (gz co e) n)).
Definition gIm (co : coord) (wt : cdata -> R) (n : nat) (e : gev) : R :=
  snd (cscale (wt (getData (g2 e))) (cpow (gz co e) n)).
Definition mpC (co : coord) (wt : cdata -> R) (mp : list gev) (k : Z) (n : nat) : cplx :=
  (mpSum (gRe co wt n) mp k, mpSum (gIm co wt n) mp k).

(** ** calculateZeta: the [arr[index] += value] statements *)

(** The output arrays ntri, meand2, meanlogd2, meand3, meanlogd3, weight, weight_im, zeta,
    zeta_im (flattened [nbins][nbins][2 max_n+1]). *)
Inductive mfield := MNtri | MD2 | MLogD2 | MD3 | MLogD3 | MWr | MWi | MZr | MZi.
Definition accumOf (F : Type) := F -> Z -> R.
Definition accumM := accumOf mfield.
Definition bumps := list (Z * R).

(** The integers a, a+1, ..., b-1. *)
Definition zrange (a b : Z) : list Z :=
  map (fun j => (a + Z.of_nat j)%Z) (seq 0 (Z.to_nat (b - a))).
(** A C++ for loop with explicitly advanced index variables. *)
Fixpoint forloop {S A} (n : nat) (next : S -> S) (body : S -> list A) (s : S) : list A :=
  match n with O => [] | Datatypes.S m => body s ++ forloop m next body (next s) end.

Definition nnb (P : mparams) : Z := (2 * Z.of_nat (mmaxn P) + 1)%Z.
Definition mxn (P : mparams) : Z := Z.of_nat (mmaxn P).

(** Corr3<>::calculateZeta (one catalog for points 2 and 3), Corr3.cpp:1373-1420: the part before
    CalculateZeta.  [a]: value added at i22; [b]: at i23; [c]: at i32. *)
Definition baseAuto (P : mparams) (z : zev) (a : Z -> R) (b c : Z -> Z -> R) : bumps :=
  let nb := nbins (mB P) in
  flat_map (fun k2 =>
    (((k2 * nb + k2) * nnb P + mxn P)%Z, a k2) ::
    flat_map (fun k3 => [(((k2 * nb + k3) * nnb P + mxn P)%Z, b k2 k3);
                         (((k3 * nb + k2) * nnb P + mxn P)%Z, c k2 k3)])
      (zrange (k2 + 1) nb)) (zrange (zk z) (zmink z)).

(** CalculateZeta for one catalog, Corr3.cpp:1542-1604 (NNN), 1721-1797 (KKK): the weights with
    a1 = w1, X = Wn, xx = sumww, the zeta with a1 = wk1, X = Gn, xx = sumwwkk.  [im] selects the
    imaginary part array. *)
Definition www (a1 : R) (x y : cplx) : cplx := cmul (cscale a1 x) (cconj y).
Definition part (im : bool) (z : cplx) : R := if im then snd z else fst z.
Definition zetaAuto (P : mparams) (z : zev) (a1 : R) (X : Z -> nat -> cplx) (xx : Z -> R)
    (im : bool) : bumps :=
  let nb := nbins (mB P) in
  let maxn := mmaxn P in
  let step23 := nnb P in
  let step32 := (nb * step23)%Z in
  let step22 := (step32 + step23)%Z in
  let sg := if im then -1 else 1 in
  forloop (Z.to_nat (zmink z - zk z))
    (fun s => (fst s + 1, snd s + step22)%Z)
    (fun s =>
      let '(k2, iz22) := s in
      (if im then []
       else (iz22, a1 * (cnorm (X k2 0%nat) - xx k2)) ::
            flat_map (fun n =>
              let v := a1 * (cnorm (X k2 n) - xx k2) in
              [((iz22 + Z.of_nat n)%Z, v); ((iz22 - Z.of_nat n)%Z, v)]) (seq 1 maxn))
      ++ forloop (Z.to_nat (nb - (k2 + 1)))
           (fun t => (fst (fst t) + 1, snd (fst t) + step23, snd t + step32)%Z)
           (fun t =>
             let '(k3, iz23, iz32) := t in
             let v0 := part im (www a1 (X k2 0%nat) (X k3 0%nat)) in
             (iz23, v0) :: (iz32, sg * v0) ::
             flat_map (fun n =>
               let v := part im (www a1 (X k2 n) (X k3 n)) in
               [((iz23 + Z.of_nat n)%Z, v); ((iz32 + Z.of_nat n)%Z, sg * v);
                ((iz23 - Z.of_nat n)%Z, sg * v); ((iz32 - Z.of_nat n)%Z, v)]) (seq 1 maxn))
           ((k2 + 1)%Z, (iz22 + step23)%Z, (iz22 + step32)%Z))
    (zk z, (mxn P + zk z * step22)%Z).

Definition bumpsAuto (P : mparams) (z : zev) (f : mfield) : bumps :=
  let c1 := z1 z in
  let mp := zmp z in
  let n1 := INR (getN c1) in
  let w1 := getW c1 in
  let np := mpSum gN mp in
  let sw := mpSum gW mp in
  let dist (s ss : gev -> R) (b c : Z -> Z -> R) :=
    baseAuto P z (fun k2 => w1 * (sw k2 * mpSum s mp k2 - mpSum ss mp k2)) b c in
  match f with
  | MNtri => baseAuto P z (fun k2 => n1 * np k2 * (np k2 - 1))
               (fun k2 k3 => n1 * np k2 * np k3) (fun k2 k3 => n1 * np k2 * np k3)
  | MD2 => dist gWr gWWr (fun k2 k3 => w1 * sw k3 * mpSum gWr mp k2)
                         (fun k2 k3 => w1 * sw k2 * mpSum gWr mp k3)
  | MLogD2 => dist gWlogr gWWlogr (fun k2 k3 => w1 * sw k3 * mpSum gWlogr mp k2)
                                  (fun k2 k3 => w1 * sw k2 * mpSum gWlogr mp k3)
  | MD3 => dist gWr gWWr (fun k2 k3 => w1 * sw k2 * mpSum gWr mp k3)
                         (fun k2 k3 => w1 * sw k3 * mpSum gWr mp k2)
  | MLogD3 => dist gWlogr gWWlogr (fun k2 k3 => w1 * sw k2 * mpSum gWlogr mp k3)
                                  (fun k2 k3 => w1 * sw k3 * mpSum gWlogr mp k2)
  | MWr => zetaAuto P z w1 (mpC (mcoord P) dw mp) (mpSum gWW mp) false
  | MWi => zetaAuto P z w1 (mpC (mcoord P) dw mp) (mpSum gWW mp) true
  | MZr => zetaAuto P z (dwk (getData c1)) (mpC (mcoord P) dwk mp) (mpSum gKK mp) false
  | MZi => zetaAuto P z (dwk (getData c1)) (mpC (mcoord P) dwk mp) (mpSum gKK mp) true
  end.

(** The loops of the two-list calculateZeta and CalculateZeta (Corr3.cpp:1428-1493, 1607-1655,
    1799-1853): for k2 from kstart, k3 from kstart to k3end, with a running index. *)
Definition k3end (P : mparams) (y : zev2) (k2 : Z) : Z :=
  if (k2 <? ymink y)%Z then nbins (mB P) else ymink y.
Definition loop2 (P : mparams) (y : zev2) (body : Z -> Z -> Z -> bumps) : bumps :=
  let nb := nbins (mB P) in
  let step := nnb P in
  forloop (Z.to_nat (nb - yk y))
    (fun s => let '(k2, i) := s in
      let i := (i + yk y * step)%Z in
      let i := (i + (k3end P y k2 - yk y) * step)%Z in
      ((k2 + 1)%Z, (i + (nb - k3end P y k2) * step)%Z))
    (fun s => let '(k2, i) := s in
      forloop (Z.to_nat (k3end P y k2 - yk y))
        (fun t => (fst t + 1, snd t + step)%Z)
        (fun t => body k2 (fst t) (snd t))
        (yk y, (i + yk y * step)%Z))
    (yk y, (mxn P + yk y * step * nb)%Z).

Definition bumpsCross (P : mparams) (ordered3 : bool) (y : zev2) (f : mfield) : bumps :=
  let c1 := y1 y in
  let n1 := INR (getN c1) in
  let w1 := getW c1 in
  let np2 := mpSum gN (ymp2 y) in
  let np3 := mpSum gN (ymp3 y) in
  let sw2 := mpSum gW (ymp2 y) in
  let sw3 := mpSum gW (ymp3 y) in
  let one (v : Z -> Z -> R) := loop2 P y (fun k2 k3 i => [(i, v k2 k3)]) in
  let zeta (a1 : R) (wt : cdata -> R) (im : bool) :=
    let X2 := mpC (mcoord P) wt (ymp2 y) in
    let X3 := mpC (mcoord P) wt (ymp3 y) in
    let v k2 k3 n :=
      let a := www a1 (X3 k2 n) (X2 k3 n) in
      if ordered3 then a else cadd a (www a1 (X2 k2 n) (X3 k3 n)) in
    let sg := if im then -1 else 1 in
    loop2 P y (fun k2 k3 i =>
      (i, part im (v k2 k3 0%nat)) ::
      flat_map (fun n => [((i + Z.of_nat n)%Z, part im (v k2 k3 n));
                          ((i - Z.of_nat n)%Z, sg * part im (v k2 k3 n))]) (seq 1 (mmaxn P))) in
  if ordered3
  then
    match f with
    | MNtri => one (fun k2 k3 => n1 * np3 k2 * np2 k3)
    | MD2 => one (fun k2 k3 => w1 * sw2 k3 * mpSum gWr (ymp3 y) k2)
    | MLogD2 => one (fun k2 k3 => w1 * sw2 k3 * mpSum gWlogr (ymp3 y) k2)
    | MD3 => one (fun k2 k3 => w1 * sw3 k2 * mpSum gWr (ymp2 y) k3)
    | MLogD3 => one (fun k2 k3 => w1 * sw3 k2 * mpSum gWlogr (ymp2 y) k3)
    | MWr => zeta w1 dw false | MWi => zeta w1 dw true
    | MZr => zeta (dwk (getData c1)) dwk false | MZi => zeta (dwk (getData c1)) dwk true
    end
  else
    match f with
    | MNtri => one (fun k2 k3 => n1 * (np2 k2 * np3 k3 + np3 k2 * np2 k3))
    | MD2 => one (fun k2 k3 => w1 * (sw2 k3 * mpSum gWr (ymp3 y) k2 + sw3 k3 * mpSum gWr (ymp2 y) k2))
    | MLogD2 => one (fun k2 k3 => w1 * (sw2 k3 * mpSum gWlogr (ymp3 y) k2
                                        + sw3 k3 * mpSum gWlogr (ymp2 y) k2))
    | MD3 => one (fun k2 k3 => w1 * (sw2 k2 * mpSum gWr (ymp3 y) k3 + sw3 k2 * mpSum gWr (ymp2 y) k3))
    (* Corr3.cpp:1481-1482 has mp3.sumw[k3] here, not [k2] *)
    | MLogD3 => one (fun k2 k3 => w1 * (sw2 k2 * mpSum gWlogr (ymp3 y) k3
                                        + sw3 k3 * mpSum gWlogr (ymp2 y) k3))
    | MWr => zeta w1 dw false | MWi => zeta w1 dw true
    | MZr => zeta (dwk (getData c1)) dwk false | MZi => zeta (dwk (getData c1)) dwk true
    end.

(** ** Accumulation and the parallel loop *)
Definition bump1 (a : Z -> R) (iv : Z * R) : Z -> R :=
  fun j => if (j =? fst iv)%Z then a j + snd iv else a j.
Definition applyB {E F} (bf : E -> F -> bumps) (s : accumOf F) (e : E) : accumOf F :=
  fun f => fold_left bump1 (bf e f) (s f).
Definition clearedM {F} : accumOf F := fun _ _ => 0.
Definition accMAdd {F} (s t : accumOf F) : accumOf F := fun f k => s f k + t f k.
Definition threadM {E F} (bf : E -> F -> bumps) (iters : list (list E)) : accumOf F :=
  fold_left (fun s evs => fold_left (applyB bf) evs s) iters clearedM.
Definition parallelM {E F} (bf : E -> F -> bumps) (s0 : accumOf F) (threads : list (list (list E)))
  : accumOf F := fold_left (fun s th => accMAdd s (threadM bf th)) threads s0.
(** multipole(...), Corr3.cpp:816-867, 869-927, 929-995. *)
Definition mIters {E F} (bf : E -> F -> bumps) (iters : list (option (list E)))
    (s0 s1 : accumOf F) : Prop :=
  exists evs threads, map Some evs = iters /\ schedule evs threads /\ s1 = parallelM bf s0 threads.
Definition multipoleAuto (P : mparams) (cells : list cell) : accumM -> accumM -> Prop :=
  mIters (bumpsAuto P) (map (fun c1 => msplit1 (mC P) c1 cells) cells).
Definition multipole12 (P : mparams) (cs1 cs2 : list cell) : accumM -> accumM -> Prop :=
  mIters (bumpsAuto P) (map (fun c1 => msplit1 (mC P) c1 cs2) cs1).
Definition multipole3 (P : mparams) (ordered3 : bool) (cs1 cs2 cs3 : list cell)
  : accumM -> accumM -> Prop :=
  mIters (bumpsCross P ordered3) (map (fun c1 => msplit2 (mC P) c1 cs2 cs3) cs1).

(** ** corr3base.py: the process calls *)

(** _get_minmax_size, corr3base.py:2232-2234, 2251-2258. *)
Definition minMaxSizeM (P : mparams) : R * R :=
  match cmetric (mC P) with
  | Euclidean =>
      let b1 := Rmin (slop_a (mB P)) (slop_b (mB P)) in
      (2 * minsep (mB P) * b1 / (2 + 3 * b1), maxsep (mB P) * b1)
  | _ => (0, 0)
  end.
Definition fieldM (P : mparams) (brute : bool) : fparams :=
  let mm := minMaxSizeM P in
  mkF (mcoord P) (msm P) (if brute then 0 else fst mm) (Fin (snd mm)) brute (mmintop P) (mmaxtop P).
(** brute = 3 is possible for the third catalog (corr3base.py:1653); it is not in [brutemode], so
    the third field is brute only for brute=True. *)
Definition brute3 (b : brutemode) : bool := match b with BruteBoth => true | _ => false end.

(** process_auto, corr3base.py:1547-1575, with ProcessAutob, Corr3.cpp:2692-2705. *)
Definition runMAuto (P : mparams) (cat : list obj) (s0 s1 : accumM) : Prop :=
  exists cells, buildField (fieldM P (bruteAuto (mbrute P))) cat cells /\
    multipoleAuto P cells s0 s1.
(** _process_cross12, corr3base.py:1577-1606, with ProcessCross12b, Corr3.cpp:2742-2776: for
    ordered=False first multipole(field2, field1, field2, 1), then the ordered part. *)
Definition runMCross12 (P : mparams) (ordered : bool) (cat1 cat2 : list obj) (s0 s1 : accumM)
  : Prop :=
  exists cs1 cs2, buildField (fieldM P (brute1 (mbrute P))) cat1 cs1 /\
    buildField (fieldM P (brute2 (mbrute P))) cat2 cs2 /\
    if ordered then multipole12 P cs1 cs2 s0 s1
    else exists s, multipole3 P false cs2 cs1 cs2 s0 s /\ multipole12 P cs1 cs2 s s1.
(** process_cross, corr3base.py:1607-1658, with ProcessCrossb, Corr3.cpp:2822-2845: ordered=True is
    O3, 1 is O1, False is O0. *)
Definition runMCross (P : mparams) (o : order) (cat1 cat2 cat3 : list obj) (s0 s1 : accumM)
  : Prop :=
  exists cs1 cs2 cs3, buildField (fieldM P (brute1 (mbrute P))) cat1 cs1 /\
    buildField (fieldM P (brute2 (mbrute P))) cat2 cs2 /\
    buildField (fieldM P (brute3 (mbrute P))) cat3 cs3 /\
    match o with
    | O3 => multipole3 P true cs1 cs2 cs3 s0 s1
    | O1 => multipole3 P false cs1 cs2 cs3 s0 s1
    | O0 => exists sa sb, multipole3 P false cs2 cs1 cs3 s0 sa /\
              multipole3 P false cs3 cs1 cs2 sa sb /\ multipole3 P false cs1 cs2 cs3 sb s1
    end.
