(** Model of the multipole algorithm for GGG (bin_type='LogMultipole'): the shear parts of
    calculateGn and calculateZeta in src/Corr3.cpp, of include/MultipoleScratch.h and of
    src/Cell.cpp.  The traversal is the one of Multi.v; only what is put into the scratch arrays
    and added to the output arrays is new. *)
From Coq Require Import Reals List ZArith Bool.
From Verif Require Import Base Geometry Tree Traverse Spin Run Corr3 Cplx Multi GGG.
Import ListNotations.
Open Scope R_scope.

(** calculateSumWGSq and calculateSumAbsWGSq, Cell.cpp:154-168 *)
Fixpoint sumSqC (co : coord) (sq : cplx -> cplx) (c : cell) : cplx :=
  match c with
  | Node d s a b =>
      if isFin0 s || (dn d =? 1)%nat then sq (cellWG co Spin2 c)
      else (sumSqC co sq a + sumSqC co sq b)%C
  | _ => sq (cellWG co Spin2 c)
  end.
Definition absSq (g : cplx) : cplx := (cnorm g, 0).

(** ** CalculateGn, Corr3.cpp:1980-2030 *)

(** wg after Project (or ProjectWithSq: ProjectHelper.h:76-94, 223-244, 344-369) *)
Definition gFactor (co : coord) (e : gev) : cplx :=
  expmsialpha Spin2 (projDir co (getPos (g1 e)) (getPos (g2 e))).
Definition gWG (co : coord) (e : gev) : cplx := (cellWG co Spin2 (g2 e) * gFactor co e)%C.
(** Repeated [x *= z]. *)
Fixpoint timesN (x z : cplx) (n : nat) : cplx :=
  match n with O => x | S m => (timesN x z m * z)%C end.
(** What Gn[ig+m] gains, -maxn-1 <= m <= maxn+1. *)
Definition gGn (co : coord) (m : Z) (e : gev) : cplx :=
  if (m <? 0)%Z then timesN (gWG co e) (cconj (gz co e)) (Z.to_nat (- m))
  else timesN (gWG co e) (gz co e) (Z.to_nat m).
(** What sumwwgg0, sumwwgg1, sumwwgg2 gain. *)
Definition gSq (co : coord) (e : gev) : cplx := (sumSqC co csq (g2 e) * csq (gFactor co e))%C.
Definition gS0 (co : coord) (e : gev) : cplx := (gSq co e * cconj (csq (gz co e)))%C.
Definition gS1 (co : coord) (e : gev) : cplx := (gSq co e * csq (gz co e))%C.
Definition gS2 (co : coord) (e : gev) : cplx :=
  (sumSqC co absSq (g2 e) * cconj (csq (gz co e)))%C.

(** A complex scratch array after clear() and the calculateGn calls. *)
Definition mpSumC (v : gev -> cplx) (mp : list gev) (k : Z) : cplx :=
  (mpSum (fun e => fst (v e)) mp k, mpSum (fun e => snd (v e)) mp k).
(** Gn, index k*(2*maxn+3)+maxn+1+m *)
Definition mpG (co : coord) (mp : list gev) (k m : Z) : cplx := mpSumC (gGn co m) mp k.

(** ** CalculateZeta *)

(** The values gam0, gam1, gam2, gam3. *)
Record gam4 := mk4 { q0 : cplx; q1 : cplx; q2 : cplx; q3 : cplx }.
Definition swap23 (q : gam4) : gam4 := mk4 (q0 q) (q1 q) (q3 q) (q2 q).
Definition add4 (q r : gam4) : gam4 :=
  mk4 (q0 q + q0 r)%C (q1 q + q1 r)%C (q2 q + q2 r)%C (q3 q + q3 r)%C.
(** zeta.gam0r[...] += gam0.real() and so on. *)
Definition pick4 (f : gfield) (q : gam4) : R :=
  match f with
  | Gam0r => fst (q0 q) | Gam0i => snd (q0 q) | Gam1r => fst (q1 q) | Gam1i => snd (q1 q)
  | Gam2r => fst (q2 q) | Gam2i => snd (q2 q) | Gam3r => fst (q3 q) | Gam3i => snd (q3 q)
  end.

(** k2 = k3, n = 0: Corr3.cpp:2095-2115; n > 0: 2117-2152.  [G]: the row k2 of Gn. *)
Definition diag0 (wg1 : cplx) (G : Z -> cplx) (S0 S1 S2 : cplx) : gam4 :=
  let g1G2m := (wg1 * G (-1)%Z)%C in
  let g1cG2p := (cconj wg1 * G 1%Z)%C in
  let gam2 := (g1G2m * cconj (G 1%Z) - wg1 * S2)%C in
  mk4 (g1G2m * G (-1)%Z - wg1 * S0)%C (g1cG2p * G 1%Z - cconj wg1 * S1)%C gam2 gam2.
Definition diagN (wg1 : cplx) (G : Z -> cplx) (S0 S1 S2 : cplx) (n : nat) : gam4 :=
  let n := Z.of_nat n in
  let G2pp := G (n + 1)%Z in
  let G2pm := G (n - 1)%Z in
  let G2mp := G (- n + 1)%Z in
  let G2mm := G (- n - 1)%Z in
  let g1G2mm := (wg1 * G2mm)%C in
  let g1cG2pp := (cconj wg1 * G2pp)%C in
  mk4 (g1G2mm * G2pm - wg1 * S0)%C (g1cG2pp * G2mp - cconj wg1 * S1)%C
      (cconj g1cG2pp * G2pm - wg1 * S2)%C (g1G2mm * cconj G2mp - wg1 * S2)%C.
(** k2 < k3, n = 0: 2229-2260 *)
Definition off0 (wg1 : cplx) (G2 G3 : Z -> cplx) : gam4 :=
  let g1G2m := (wg1 * G2 (-1)%Z)%C in
  let g1cG2p := (cconj wg1 * G2 1%Z)%C in
  mk4 (g1G2m * G3 (-1)%Z)%C (g1cG2p * G3 1%Z)%C (g1G2m * cconj (G3 1%Z))%C
      (cconj g1cG2p * G3 (-1)%Z)%C.
(** n > 0: gam0p .. gam3p, 2275-2287 *)
Definition offP (wg1 : cplx) (G2 G3 : Z -> cplx) (n : nat) : gam4 :=
  let n := Z.of_nat n in
  let g1G2pm := (wg1 * G2 (n - 1)%Z)%C in
  let g1cG2pp := (cconj wg1 * G2 (n + 1)%Z)%C in
  let g1G2mpc := (wg1 * cconj (G2 (- n + 1)%Z))%C in
  mk4 (g1G2pm * G3 (- n - 1)%Z)%C (g1cG2pp * G3 (- n + 1)%Z)%C
      (g1G2pm * cconj (G3 (n + 1)%Z))%C (g1G2mpc * G3 (- n - 1)%Z)%C.
(** gam0m .. gam3m, 2308-2311 *)
Definition offM (wg1 : cplx) (G2 G3 : Z -> cplx) (n : nat) : gam4 :=
  let n := Z.of_nat n in
  let g1cG2pp := (cconj wg1 * G2 (n + 1)%Z)%C in
  let g1G2mpc := (wg1 * cconj (G2 (- n + 1)%Z))%C in
  let g1G2mm := (wg1 * G2 (- n - 1)%Z)%C in
  mk4 (g1G2mm * G3 (n - 1)%Z)%C (cconj g1G2mpc * G3 (n + 1)%Z)%C
      (cconj g1cG2pp * G3 (n - 1)%Z)%C (g1G2mm * cconj (G3 (- n + 1)%Z))%C.

(** CalculateZeta, one catalog for points 2 and 3: Corr3.cpp:2032-2326. *)
Definition zetaGAuto (P : mparams) (z : zev) (wg1 : cplx) (G : Z -> Z -> cplx)
    (S0 S1 S2 : Z -> cplx) (f : gfield) : bumps :=
  let nb := nbins (mB P) in
  let maxn := mmaxn P in
  let step23 := nnb P in
  let step32 := (nb * step23)%Z in
  let step22 := (step32 + step23)%Z in
  forloop (Z.to_nat (zmink z - zk z))
    (fun s => (fst s + 1, snd s + step22)%Z)
    (fun s =>
      let '(k2, iz22) := s in
      ((iz22, pick4 f (diag0 wg1 (G k2) (S0 k2) (S1 k2) (S2 k2))) ::
       flat_map (fun n =>
         let q := diagN wg1 (G k2) (S0 k2) (S1 k2) (S2 k2) n in
         [((iz22 + Z.of_nat n)%Z, pick4 f q); ((iz22 - Z.of_nat n)%Z, pick4 f (swap23 q))])
         (seq 1 maxn))
      ++ forloop (Z.to_nat (nb - (k2 + 1)))
           (fun t => (fst (fst t) + 1, snd (fst t) + step23, snd t + step32)%Z)
           (fun t =>
             let '(k3, iz23, iz32) := t in
             let q := off0 wg1 (G k2) (G k3) in
             (iz23, pick4 f q) :: (iz32, pick4 f (swap23 q)) ::
             flat_map (fun n =>
               let p := offP wg1 (G k2) (G k3) n in
               let m := offM wg1 (G k2) (G k3) n in
               [((iz23 + Z.of_nat n)%Z, pick4 f p); ((iz32 - Z.of_nat n)%Z, pick4 f (swap23 p));
                ((iz32 + Z.of_nat n)%Z, pick4 f m); ((iz23 - Z.of_nat n)%Z, pick4 f (swap23 m))])
               (seq 1 maxn))
           ((k2 + 1)%Z, (iz22 + step23)%Z, (iz22 + step32)%Z))
    (zk z, (mxn P + zk z * step22)%Z).

(** CalculateZeta, two catalogs: 2328-2503.  The values for -n (2450-2453); n = 0 and +n are
    [off0] and [offP] with (G32, G23) for (G2, G3). *)
Definition crossM (wg1 : cplx) (G32 G23 : Z -> cplx) (n : nat) : gam4 :=
  let n := Z.of_nat n in
  let g1cG32pp := (cconj wg1 * G32 (n + 1)%Z)%C in
  let g1G32mpc := (wg1 * cconj (G32 (- n + 1)%Z))%C in
  let g1G32mm := (wg1 * G32 (- n - 1)%Z)%C in
  mk4 (g1G32mm * G23 (n - 1)%Z)%C (cconj g1G32mpc * G23 (n + 1)%Z)%C
      (g1G32mm * cconj (G23 (- n + 1)%Z))%C (cconj g1cG32pp * G23 (n - 1)%Z)%C.
Definition zetaGCross (P : mparams) (ordered3 : bool) (y : zev2) (wg1 : cplx)
    (G2 G3 : Z -> Z -> cplx) (f : gfield) : bumps :=
  let both (v : cplx -> (Z -> cplx) -> (Z -> cplx) -> gam4) k2 k3 :=
    let q := v wg1 (G3 k2) (G2 k3) in
    pick4 f (if ordered3 then q else add4 q (v wg1 (G2 k2) (G3 k3))) in
  loop2 P y (fun k2 k3 i =>
    (i, both off0 k2 k3) ::
    flat_map (fun n =>
      [((i + Z.of_nat n)%Z, both (fun w a b => offP w a b n) k2 k3);
       ((i - Z.of_nat n)%Z, both (fun w a b => crossM w a b n) k2 k3)]) (seq 1 (mmaxn P))).

(** ** The output arrays: those of Multi.v (ntri .. weight_im; zeta and zeta_im do not exist for
    GGG and nothing is added to them), and gam0r .. gam3i. *)
Inductive gmfield := GB (f : mfield) | GG (f : gfield).
Definition accumG := accumOf gmfield.
Definition bumpsAutoG (P : mparams) (z : zev) (f : gmfield) : bumps :=
  let co := mcoord P in
  match f with
  | GB MZr | GB MZi => []
  | GB f => bumpsAuto P z f
  | GG f => zetaGAuto P z (cellWG co Spin2 (z1 z)) (mpG co (zmp z)) (mpSumC (gS0 co) (zmp z))
              (mpSumC (gS1 co) (zmp z)) (mpSumC (gS2 co) (zmp z)) f
  end.
Definition bumpsCrossG (P : mparams) (ordered3 : bool) (y : zev2) (f : gmfield) : bumps :=
  let co := mcoord P in
  match f with
  | GB MZr | GB MZi => []
  | GB f => bumpsCross P ordered3 y f
  | GG f => zetaGCross P ordered3 y (cellWG co Spin2 (y1 y)) (mpG co (ymp2 y)) (mpG co (ymp3 y)) f
  end.

(** multipole(...), Corr3.cpp:816-995, and the process calls, corr3base.py:1547-1658, as in
    Multi.v. *)
Definition multipoleG12 (P : mparams) (cs1 cs2 : list cell) : accumG -> accumG -> Prop :=
  mIters (bumpsAutoG P) (map (fun c1 => msplit1 (mC P) c1 cs2) cs1).
Definition multipoleG3 (P : mparams) (ordered3 : bool) (cs1 cs2 cs3 : list cell)
  : accumG -> accumG -> Prop :=
  mIters (bumpsCrossG P ordered3) (map (fun c1 => msplit2 (mC P) c1 cs2 cs3) cs1).
Definition runGAuto (P : mparams) (cat : list obj) (s0 s1 : accumG) : Prop :=
  exists cells, buildField (fieldM P (bruteAuto (mbrute P))) cat cells /\
    multipoleG12 P cells cells s0 s1.
Definition runGCross12 (P : mparams) (ordered : bool) (cat1 cat2 : list obj) (s0 s1 : accumG)
  : Prop :=
  exists cs1 cs2, buildField (fieldM P (brute1 (mbrute P))) cat1 cs1 /\
    buildField (fieldM P (brute2 (mbrute P))) cat2 cs2 /\
    if ordered then multipoleG12 P cs1 cs2 s0 s1
    else exists s, multipoleG3 P false cs2 cs1 cs2 s0 s /\ multipoleG12 P cs1 cs2 s s1.
Definition runGCross (P : mparams) (o : order) (cat1 cat2 cat3 : list obj) (s0 s1 : accumG)
  : Prop :=
  exists cs1 cs2 cs3, buildField (fieldM P (brute1 (mbrute P))) cat1 cs1 /\
    buildField (fieldM P (brute2 (mbrute P))) cat2 cs2 /\
    buildField (fieldM P (brute3 (mbrute P))) cat3 cs3 /\
    match o with
    | O3 => multipoleG3 P true cs1 cs2 cs3 s0 s1
    | O1 => multipoleG3 P false cs1 cs2 cs3 s0 s1
    | O0 => exists sa sb, multipoleG3 P false cs2 cs1 cs3 s0 sa /\
              multipoleG3 P false cs3 cs1 cs2 sa sb /\ multipoleG3 P false cs1 cs2 cs3 sb s1
    end.
