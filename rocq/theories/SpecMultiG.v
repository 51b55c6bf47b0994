(** Specification of the LogMultipole sums of GGG, independent of trees and of the algorithm. *)
From Coq Require Import Reals List ZArith Bool.
From Verif Require Import Base Geometry Tree Traverse Run Corr3 Spec SpecRun SpecSpin SpecTri SpecGGG
  GGG Multi SpecMulti MultiG.
Open Scope R_scope.

(** (cos t, sin t) *)
Definition axis (t : R) : R * R := (cos t, sin t).
(** What a triangle adds to the multipole n of natural component c (0..3: the value of corner c is
    conjugated): the shears at points 2 and 3 with respect to the sides to point 1, the shear at
    point 1 with respect to the bisector of these two sides, times exp(i n phi) with phi the angle
    at point 1 from point 2 to point 3. *)
Definition multVal (th : pos -> pos -> R) (c : nat) (im : bool) (n : Z) (p1 p2 p3 : obj) : R :=
  let t2 := th (opos p1) (opos p2) in
  let t3 := th (opos p1) (opos p3) in
  let u1 := axis ((t2 + t3) / 2) in
  let s k := if Nat.eqb c k then -1 else 1 in
  let v (f : R -> R -> R -> R -> R -> R -> R) :=
    f (shearA u1 p1) (s 1%nat * shearB u1 p1) (shearA (axis t2) p2) (s 2%nat * shearB (axis t2) p2)
      (shearA (axis t3) p3) (s 3%nat * shearB (axis t3) p3) in
  let phi := t3 - t2 in
  if im then v prodIm * cos (IZR n * phi) + v prodRe * sin (IZR n * phi)
  else v prodRe * cos (IZR n * phi) - v prodIm * sin (IZR n * phi).

(** The array of (the real or imaginary part of) component c. *)
Definition gamArr (c : nat) (im : bool) : gmfield :=
  GG (match c, im with
      | O, false => Gam0r | O, true => Gam0i
      | S O, false => Gam1r | S O, true => Gam1i
      | S (S O), false => Gam2r | S (S O), true => Gam2i
      | _, false => Gam3r | _, true => Gam3i
      end).
Definition gainsGamma (P : mparams) (th : pos -> pos -> R) (s0 s1 : accumG) (S : tsum) : Prop :=
  forall c im k2 k3 n, (c <= 3)%nat -> validEntry P k2 k3 n ->
    s1 (gamArr c im) (entry P k2 k3 n) =
    s0 (gamArr c im) (entry P k2 k3 n) + S (multVal th c im n) k2 k3.
