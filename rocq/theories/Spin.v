(** Model of the complex (spin-s) fields: include/ProjectHelper.h, the spin parts of
    include/Cell.h, src/Cell.cpp (averages over a cell) and of src/Corr2.cpp (DirectHelper2).

    The traversal is the one of Traverse.v; only what finishProcess adds to the xi arrays is new.
    std::complex<double> is modelled by a pair of reals. *)
From Coq Require Import Reals Lra List ZArith Bool.
From Verif Require Import Base Geometry Tree Traverse Run.
Import ListNotations.
Open Scope R_scope.

(** ** std::complex<double> *)
Definition cplx : Type := (R * R)%type.
Definition cmul (z w : cplx) : cplx :=
  (fst z * fst w - snd z * snd w, fst z * snd w + snd z * fst w).
Definition cadd (z w : cplx) : cplx := (fst z + fst w, snd z + snd w).
Definition cconj (z : cplx) : cplx := (fst z, - snd z).
Definition cscale (a : R) (z : cplx) : cplx := (a * fst z, a * snd z).
Definition cdivr (z : cplx) (a : R) : cplx := (fst z / a, snd z / a).
(** std::norm: the square of the modulus *)
Definition cnorm (z : cplx) : R := fst z * fst z + snd z * snd z.

(** ** ProjectHelper.h *)

(** ProjectHelper.h:23-30 *)
Definition safeNorm (z : cplx) : R := if Rlt_dec 0 (cnorm z) then cnorm z else 1.

(** The data types with a complex value: ZData (spin 0), VData (1), GData (2), TData (3),
    QData (4); ProjectHelper.h:62-71. *)
Inductive spin := Spin0 | Spin1 | Spin2 | Spin3 | Spin4.

(** calculate_expmsialpha, ProjectHelper.h:32-60 *)
Definition expmsialpha (s : spin) (r : cplx) : cplx :=
  match s with
  | Spin0 => (1, 0)
  | Spin1 => cdivr (cconj r) (sqrt (safeNorm r))
  | Spin2 => cdivr (cconj (cmul r r)) (safeNorm r)
  | Spin3 => let r3 := cmul (cmul r r) r in cdivr (cconj r3) (sqrt (safeNorm r3))
  | Spin4 => let r2 := cmul r r in cdivr (cconj (cmul r2 r2)) (safeNorm r2)
  end.

(** ProjectHelper<Sphere>::calculate_direction, ProjectHelper.h:151-221 *)
Definition calcDirection (p1 p2 : pos) : cplx :=
  let z1 := pz p1 in
  let z2 := pz p2 in
  let dsq := normSq (psub p1 p2) in
  let cosA := (z1 - z2) + 1/2 * z2 * dsq in
  let sinA := py p1 * px p2 - px p1 * py p2 in
  (sinA, - cosA).

(** The direction used to project a value at p2: Flat (conversion of a Position<Flat> to complex,
    ProjectHelper.h:81, 104), Sphere (230, 254), ThreeD (351-353, 379-381; the positions are
    converted to Position<Sphere>, which normalises them). *)
Definition projDir (co : coord) (p1 p2 : pos) : cplx :=
  match co with
  | Flat => (px p2 - px p1, py p2 - py p1)
  | Sphere => calcDirection p1 p2
  | ThreeD => calcDirection (normalize Sphere p1) (normalize Sphere p2)
  end.

(** Project for one value (at p2): ProjectHelper.h:76-83, 223-231, 344-354 *)
Definition project1 (co : coord) (s : spin) (p1 p2 : pos) (z2 : cplx) : cplx :=
  cmul z2 (expmsialpha s (projDir co p1 p2)).
Definition oddSpin (s : spin) : bool := match s with Spin1 | Spin3 => true | _ => false end.
(** Project for two values: ProjectHelper.h:97-108, 246-264, 371-386 *)
Definition project2 (co : coord) (s : spin) (p1 p2 : pos) (z1 z2 : cplx) : cplx * cplx :=
  match co with
  | Flat =>
      let e := expmsialpha s (projDir Flat p1 p2) in (cmul z1 e, cmul z2 e)
  | _ =>
      let z2' := cmul z2 (expmsialpha s (projDir co p1 p2)) in
      let z1' := cmul z1 (expmsialpha s (projDir co p2 p1)) in
      ((if oddSpin s then cscale (-1) z1' else z1'), z2')
  end.

(** ** Averages over a cell *)

(** One term of ParallelTransportSum, Cell.cpp:276-322.  [cen] is the centre converted to
    Position<Sphere>; note that z1 is taken from the centre before the conversion. *)
Definition transportFactor (s : spin) (cz : R) (cen pi : pos) : cplx :=
  let z1 := cz in
  let z2 := pz pi in
  let dsq := normSq (psub cen pi) in
  if Rlt_dec dsq (/ 10 ^ 12) then (1, 0) else
  let cosA := (z1 - z2) + 1/2 * z2 * dsq in
  let sinA := py cen * px pi - px cen * py pi in
  let cosB := (z2 - z1) + 1/2 * z1 * dsq in
  let sinB := sinA in
  let cosbeta := - cosA * cosB + sinA * sinB in
  let sinbeta := sinA * cosB + cosA * sinB in
  expmsialpha s (cosbeta, sinbeta).
Definition owg (o : obj) : cplx := (ow o * og1 o, ow o * og2 o).
Definition sumC (f : obj -> cplx) (l : list obj) : cplx :=
  (sumR (fun o => fst (f o)) l, sumR (fun o => snd (f o)) l).
Definition transportSum (s : spin) (center : pos) (l : list obj) : cplx :=
  sumC (fun o => cmul (owg o) (transportFactor s (pz center) (normalize Sphere center)
                                (normalize Sphere (opos o)))) l.
(** The complex value (w times g, summed) of a cell.  A cell of one object keeps the value of the
    object (Field.cpp:53-68: finishAverages is only called for more than one object); Flat:
    SimpleSum, Cell.cpp:221-274; Sphere and ThreeD: ParallelTransportSum, 324-410. *)
Definition cellWG (co : coord) (s : spin) (c : cell) : cplx :=
  match co, objs c with
  | Flat, l => sumC owg l
  | _, [o] => owg o
  | _, l => transportSum s (getPos c) l
  end.

(** ** Accumulation *)

(** The complex xi arrays.  [SN]: xi, xi_im of NZ/NV/NG/NT/NQ (DirectHelper2<1> and <2>,
    Corr2.cpp:409-440); [SK]: KZ/KV/KG/KT/KQ (<3,KData,ZData> 462-478, <4> 514-530);
    [SP]/[SM]: xip, xip_im / xim, xim_im of ZZ/VV/GG/TT/QQ (480-512, <5> 532-570). *)
Inductive sfield := SNre | SNim | SKre | SKim | SPre | SPim | SMre | SMim.
Definition saccum : Type := sfield -> Z -> R.
Definition scleared : saccum := fun _ _ => 0.

(** the sign convention: minus for GData only, Corr2.cpp:432-436, 525-526 *)
Definition gsign (s : spin) : R := match s with Spin2 => -1 | _ => 1 end.

(** What one call adds, as a function of the positions and of the (weighted) values. *)
Definition kern (co : coord) (s : spin) (f : sfield) (p1 p2 : pos) (w1 wk1 : R) (g1 g2 : cplx) : R :=
  let g := project1 co s p1 p2 g2 in
  let '(a, b) := project2 co s p1 p2 g1 g2 in
  match f with
  | SNre => fst (cscale (gsign s * w1) g)
  | SNim => snd (cscale (gsign s * w1) g)
  | SKre => fst (cscale (gsign s * wk1) g)
  | SKim => snd (cscale (gsign s * wk1) g)
  | SPre => fst a * fst b + snd a * snd b
  | SPim => snd a * fst b - fst a * snd b
  | SMre => fst a * fst b - snd a * snd b
  | SMim => snd a * fst b + fst a * snd b
  end.
Definition evS (co : coord) (s : spin) (f : sfield) (e : event) : R :=
  kern co s f (getPos (ec1 e)) (getPos (ec2 e)) (getW (ec1 e)) (dwk (getData (ec1 e)))
    (cellWG co s (ec1 e)) (cellWG co s (ec2 e)).
(** N.. and K.. never run with R = 1 (they have no auto-correlation). *)
Definition finishSpin (co : coord) (s : spin) (a : saccum) (e : event) : saccum :=
  fun f => match f with
           | SNre | SNim | SKre | SKim => bump (a f) (ek e) (evS co s f e)
           | _ => bump2 (a f) (ek e) (ek2 e) (evS co s f e)
           end.
Definition saccAdd (a b : saccum) : saccum := fun f k => a f k + b f k.
Definition applySpin (co : coord) (s : spin) (a : saccum) (l : list event) : saccum :=
  fold_left (finishSpin co s) l a.
(** Threads, as in Traverse.v. *)
Definition threadSpin (co : coord) (s : spin) (iters : list (list event)) : saccum :=
  fold_left (applySpin co s) iters scleared.
Definition parallelSpin (co : coord) (s : spin) (a0 : saccum) (threads : list (list (list event))) : saccum :=
  fold_left (fun a th => saccAdd a (threadSpin co s th)) threads a0.

Definition processAutoS (co : coord) (s : spin) (P : cparams) (cells : list cell) (a0 a1 : saccum) : Prop :=
  exists evs threads,
    map Some evs = autoIters P cells /\ schedule evs threads /\ a1 = parallelSpin co s a0 threads.
Definition processCrossS (co : coord) (s : spin) (P : cparams) (ctr1 ctr2 : pos) (sz1 sz2 : R)
    (cells1 cells2 : list cell) (a0 a1 : saccum) : Prop :=
  if crossEarlyExit P ctr1 ctr2 sz1 sz2 then a1 = a0
  else exists evs threads,
    map Some evs = crossIters P cells1 cells2 /\ schedule evs threads /\
    a1 = parallelSpin co s a0 threads.

(** process_auto / process_cross of the python layer, as in Run.v. *)
Definition runAutoS (R : runcfg) (s : spin) (cat : list obj) (a0 a1 : saccum) : Prop :=
  exists cells, buildField (fieldParams R (bruteAuto (rbrute R))) cat cells /\
    processAutoS (rcoord R) s (rP R) cells a0 a1.
Definition runCrossS (R : runcfg) (s : spin) (cat1 cat2 : list obj) (a0 a1 : saccum) : Prop :=
  let F1 := fieldParams R (brute1 (rbrute R)) in
  let F2 := fieldParams R (brute2 (rbrute R)) in
  exists cells1 cells2, buildField F1 cat1 cells1 /\ buildField F2 cat2 cells2 /\
    processCrossS (rcoord R) s (rP R) (fieldCenter F1 cat1) (fieldCenter F2 cat2)
      (fieldSize F1 cat1) (fieldSize F2 cat2) cells1 cells2 a0 a1.
