(** Specification of the aperture mass skewness, written without reference to the code.

    With the aperture of Crittenden et al (2002), Q(r) = r^2/(4 pi theta^4) exp(-r^2/(2 theta^2)), the
    galaxy at the position x with the complex shear gamma contributes to M = Map + i Mx at the centre y
      - Q(|x-y|) gamma e^{-2i phi} = - gamma conj(x-y)^2 / (4 pi theta^4) exp(-|x-y|^2/(2 theta^2)),
    phi the direction of x-y.  A triangle of galaxies contributes to <M M M> the integral over all
    centres y of the product of the three contributions; to <M* M M> etc. with one of them conjugated. *)
From Coq Require Import Reals List ZArith.
From Verif Require Import Base Spin Cplx.
Import ListNotations.
Open Scope R_scope.

(** ** Integrals over the plane of a polynomial times a Gaussian *)
(** A polynomial in z and conj z: the list of c z^m conj(z)^n. *)
Definition poly : Type := list (cplx * nat * nat).
Fixpoint cpow (z : cplx) (n : nat) : cplx := match n with O => c1 | S k => (z * cpow z k)%C end.
Definition peval (p : poly) (z : cplx) : cplx :=
  fold_right (fun '(c, m, n) acc => (c * cpow z m * cpow (cconj z) n + acc)%C) c0 p.
Definition pmul (p q : poly) : poly :=
  flat_map (fun '(c, m, n) => map (fun '(d, m', n') => ((c * d)%C, (m + m')%nat, (n + n')%nat)) q) p.
Definition pconj (p : poly) : poly := map (fun '(c, m, n) => (cconj c, n, m)) p.
(** The mean of a polynomial over z distributed as exp(-w|z|^2/2): the moments of a complex Gaussian,
    <z^m conj(z)^n> = 0 for m <> n and n! (2/w)^n for m = n. *)
Definition gaussMean (w : R) (p : poly) : cplx :=
  fold_right (fun '(c, m, n) acc =>
    if Nat.eqb m n then (c * cR (INR (fact n) * (2 / w) ^ n) + acc)%C else acc) c0 p.

(** ** The triangle *)
Definition vec (A : Type) : Type := (A * A * A)%type.
(** conj(x-y)^2 as a polynomial in z = y - y0 *)
Definition offset (x y0 : cplx) : poly := [((x - y0)%C, 0%nat, 0%nat); ((- c1)%C, 1%nat, 0%nat)].
Definition spinFactor (x y0 : cplx) : poly := pconj (pmul (offset x y0) (offset x y0)).
(** one of the factors conjugated: n = 1, 2, 3; none for n = 0 *)
Definition cIf (b : bool) (z : cplx) : cplx := if b then cconj z else z.
Definition pIf (b : bool) (p : poly) : poly := if b then pconj p else p.
Definition wsum (th : vec R) : R := let '(a, b, c) := th in 1 / (a * a) + 1 / (b * b) + 1 / (c * c).
Definition expo (x : vec cplx) (th : vec R) (y : cplx) : R :=
  let '(x1, x2, x3) := x in let '(a, b, c) := th in
  cnorm (x1 - y)%C / (2 * (a * a)) + cnorm (x2 - y)%C / (2 * (b * b)) + cnorm (x3 - y)%C / (2 * (c * c)).
(** V is (2 pi)^2 times the integral over the centre y.  The exponent is completed to a square,
    the Gaussian in y - y0 has the integral 2 pi / w.  (The sum over the bins is an integral over
    s ds d^2t / (2 pi), the average over the direction of the triangle is implied: hence (2 pi)^2.) *)
Definition tripleIntegral (n : nat) (x : vec cplx) (gam : vec cplx) (th : vec R) (V : cplx) : Prop :=
  let '(x1, x2, x3) := x in let '(g1, g2, g3) := gam in let '(a, b, c) := th in
  let w := wsum th in
  exists y0 Ze,
    (forall y, expo x th y = Ze + w / 2 * cnorm (y - y0)%C) /\
    V = (cR ((2 * PI) ^ 2 * (- 1 / (4 * PI * a ^ 4)) * (- 1 / (4 * PI * b ^ 4)) * (- 1 / (4 * PI * c ^ 4)) *
             exp (- Ze) * (2 * PI / w)) *
         gaussMean w (pmul (pIf (Nat.eqb n 1) (spinFactor x1 y0))
                     (pmul (pIf (Nat.eqb n 2) (spinFactor x2 y0)) (pIf (Nat.eqb n 3) (spinFactor x3 y0)))) *
         (cIf (Nat.eqb n 1) g1 * cIf (Nat.eqb n 2) g2 * cIf (Nat.eqb n 3) g3))%C.

(** ** Natural components: the shears with respect to the directions to the centroid *)
Definition centroidC (x : vec cplx) : cplx := let '(x1, x2, x3) := x in ((x1 + x2 + x3) / IZC 3)%C.
(** gamma e^{-2ia} for the direction a of q *)
Definition along (g q : cplx) : cplx := (g * csq (cconj q) / cR (cnorm q))%C.
Definition natural (n : nat) (x gam : vec cplx) : cplx :=
  let '(x1, x2, x3) := x in let '(g1, g2, g3) := gam in
  let m := centroidC x in
  (cIf (Nat.eqb n 1) (along g1 (m - x1)) * cIf (Nat.eqb n 2) (along g2 (m - x2)) * cIf (Nat.eqb n 3) (along g3 (m - x3)))%C.

(** No vertex at the centroid *)
Definition properC (x : vec cplx) : Prop :=
  let '(x1, x2, x3) := x in let m := centroidC x in (m - x1)%C <> c0 /\ (m - x2)%C <> c0 /\ (m - x3)%C <> c0.
Definition posV (th : vec R) : Prop := let '(a, b, c) := th in 0 < a /\ 0 < b /\ 0 < c.
