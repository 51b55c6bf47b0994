(** Model of the three-point shear correlation GGG (triangle algorithm, bin types LogRUV and
    LogSAS): the three-cell projections of include/ProjectHelper.h, DirectHelper<GData,GData,GData>
    of src/Corr3.cpp and the gam0..gam3 arrays of treecorr/gggcorrelation.py.

    The traversal is the one of Corr3.v; only what ProcessZeta adds is new.  Not modelled: the
    multipole algorithm (ProcessMultipole, CalculateGn, CalculateZeta). *)
From Coq Require Import Reals Lra List ZArith Bool.
From Verif Require Import Base Geometry Tree Traverse Spin Corr3.
Import ListNotations.
Open Scope R_scope.

(** ** ProjectHelper.h, three cells *)

(** The direction with which the value at p is projected, given the three positions: Flat 108-123
    (from the point to the centroid), Sphere 278-289, ThreeD 395-410 (the positions are converted
    to Position<Sphere>, which normalises them; so is the centroid). *)
Definition third (p1 p2 p3 : pos) : pos := pscale (/ 3) (padd (padd p1 p2) p3).
Definition cenDir (co : coord) (p1 p2 p3 p : pos) : cplx :=
  match co with
  | Flat => let cen := third p1 p2 p3 in (px cen - px p, py cen - py p)
  | Sphere => calcDirection (normalize Sphere (third p1 p2 p3)) p
  | ThreeD =>
      let sp := normalize Sphere in
      calcDirection (sp (sp (third (sp p1) (sp p2) (sp p3)))) (sp p)
  end.
(** Project, for three values *)
Definition project3 (co : coord) (s : spin) (p1 p2 p3 : pos) (z1 z2 z3 : cplx) : cplx * cplx * cplx :=
  (cmul z1 (expmsialpha s (cenDir co p1 p2 p3 p1)),
   cmul z2 (expmsialpha s (cenDir co p1 p2 p3 p2)),
   cmul z3 (expmsialpha s (cenDir co p1 p2 p3 p3))).

(** ProjectX, Flat 125-150, Sphere 291-331.  (Used by the multipole code only.) *)
Definition projectXFlat (s : spin) (p1 p2 p3 : pos) (d2 d3 : R) (z1 z2 z3 : cplx)
  : cplx * cplx * cplx :=
  let r2 := cdivr (px p2 - px p1, py p2 - py p1) d3 in
  let r3 := cdivr (px p3 - px p1, py p3 - py p1) d2 in
  let r1 := cadd r2 r3 in
  (cmul z1 (expmsialpha s r1), cmul z2 (expmsialpha s r2), cmul z3 (expmsialpha s r3)).
Definition unitDir (p1 p2 : pos) : cplx :=
  let r := calcDirection p1 p2 in cdivr r (sqrt (safeNorm r)).
(** the three factors *)
Definition projX1 (s : spin) (p1 p2 p3 : pos) : cplx := expmsialpha s (cadd (unitDir p2 p1) (unitDir p3 p1)).
Definition projX2 (s : spin) (p1 p2 : pos) : cplx := expmsialpha s (calcDirection p1 p2).
Definition projectXSphere (s : spin) (p1 p2 p3 : pos) (z1 z2 z3 : cplx) : cplx * cplx * cplx :=
  (cmul z1 (projX1 s p1 p2 p3), cmul z2 (projX2 s p1 p2), cmul z3 (projX2 s p1 p3)).
(** ThreeD, 412-426: the call is ProjectX(p1,p2,p3,z1,z3,z3), with references: the second and the
    third value are the same variable, z2 is not changed. *)
Definition projectX3D (s : spin) (p1 p2 p3 : pos) (z1 z2 z3 : cplx) : cplx * cplx * cplx :=
  let sp := normalize Sphere in
  (cmul z1 (projX1 s (sp p1) (sp p2) (sp p3)), z2,
   cmul (cmul z3 (projX2 s (sp p1) (sp p2))) (projX2 s (sp p1) (sp p3))).

(** ** ProcessZeta, Corr3.cpp:1858-1905 *)

(** The eight arrays, gggcorrelation.py:203-213 (_z1 .. _z8) *)
Inductive gfield := Gam0r | Gam0i | Gam1r | Gam1i | Gam2r | Gam2i | Gam3r | Gam3i.
Definition gamma (f : gfield) (g1 g2 g3 : cplx) : R :=
  let g1rg2r := fst g1 * fst g2 in
  let g1rg2i := fst g1 * snd g2 in
  let g1ig2r := snd g1 * fst g2 in
  let g1ig2i := snd g1 * snd g2 in
  let g1g2r := g1rg2r - g1ig2i in
  let g1g2i := g1rg2i + g1ig2r in
  let g1cg2r := g1rg2r + g1ig2i in
  let g1cg2i := g1rg2i - g1ig2r in
  let g1g2rg3r := g1g2r * fst g3 in
  let g1g2rg3i := g1g2r * snd g3 in
  let g1g2ig3r := g1g2i * fst g3 in
  let g1g2ig3i := g1g2i * snd g3 in
  let g1cg2rg3r := g1cg2r * fst g3 in
  let g1cg2rg3i := g1cg2r * snd g3 in
  let g1cg2ig3r := g1cg2i * fst g3 in
  let g1cg2ig3i := g1cg2i * snd g3 in
  match f with
  | Gam0r => g1g2rg3r - g1g2ig3i
  | Gam0i => g1g2rg3i + g1g2ig3r
  | Gam1r => g1cg2rg3r - g1cg2ig3i
  | Gam1i => g1cg2rg3i + g1cg2ig3r
  | Gam2r => g1cg2rg3r + g1cg2ig3i
  | Gam2i => g1cg2rg3i - g1cg2ig3r
  | Gam3r => g1g2rg3r + g1g2ig3i
  | Gam3i => - g1g2rg3i + g1g2ig3r
  end.
Definition kernG (co : coord) (f : gfield) (p1 p2 p3 : pos) (g1 g2 g3 : cplx) : R :=
  let '(z1, z2, z3) := project3 co Spin2 p1 p2 p3 g1 g2 g3 in gamma f z1 z2 z3.
Definition gval (co : coord) (f : gfield) (e : event3) : R :=
  kernG co f (getPos (tc1 e)) (getPos (tc2 e)) (getPos (tc3 e))
    (cellWG co Spin2 (tc1 e)) (cellWG co Spin2 (tc2 e)) (cellWG co Spin2 (tc3 e)).

(** ** Accumulation: as in Corr3.v, for these arrays *)
Definition accumG := gfield -> Z -> R.
Definition clearedG : accumG := fun _ _ => 0.
Definition finishG (co : coord) (s : accumG) (e : event3) : accumG :=
  fun f k => if (k =? tk e)%Z then s f k + gval co f e else s f k.
(** ZetaData<GData,GData,GData>::add, Corr3.h:597-607, called by Corr3::operator+=, Corr3.cpp:2611-2614 *)
Definition accGAdd (s t : accumG) : accumG := fun f k => s f k + t f k.
Definition threadG (co : coord) (iters : list (list event3)) : accumG :=
  fold_left (fun s evs => fold_left (finishG co) evs s) iters clearedG.
Definition parallelG (co : coord) (s0 : accumG) (threads : list (list (list event3))) : accumG :=
  fold_left (fun s th => accGAdd s (threadG co th)) threads s0.
Definition processG (co : coord) (iters : list (option (list event3))) (s0 s1 : accumG) : Prop :=
  exists evs threads, map Some evs = iters /\ schedule evs threads /\ s1 = parallelG co s0 threads.

(** process_auto, process_cross12, process_cross, gggcorrelation.py:265-309; corr3base.py:1547-1658 *)
Definition runAutoG (R : runcfg3) (cat : list obj) (s0 s1 : accumG) : Prop :=
  exists cells, buildField (field3 R) cat cells /\
    processG (tcoord (r3P R)) (auto3Iters (r3P R) cells) s0 s1.
Definition runCross12G (R : runcfg3) (O : order) (cat1 cat2 : list obj) (s0 s1 : accumG) : Prop :=
  exists cells1 cells2, buildField (field3 R) cat1 cells1 /\ buildField (field3 R) cat2 cells2 /\
    processG (tcoord (r3P R)) (cross12Iters (r3P R) O cells1 cells2) s0 s1.
Definition runCross3G (R : runcfg3) (O : order) (cat1 cat2 cat3 : list obj) (s0 s1 : accumG) : Prop :=
  exists cells1 cells2 cells3, buildField (field3 R) cat1 cells1 /\
    buildField (field3 R) cat2 cells2 /\ buildField (field3 R) cat3 cells3 /\
    processG (tcoord (r3P R)) (cross3Iters (r3P R) O cells1 cells2 cells3) s0 s1.

(** _finalize, corr3base.py:1810-1875 (not LogMultipole): gam_i = sum / weight where the weight is
    not 0, the sums elsewhere (they are 0 there). *)
Definition finalizeG (w : Z -> R) (s : accumG) : accumG :=
  fun f k => if Req_EM_T (w k) 0 then s f k else s f k / w k.
