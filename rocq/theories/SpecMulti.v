(** Specification of the LogMultipole sums, independent of trees and of the algorithm. *)
From Coq Require Import Reals Lra List ZArith Bool.
From Verif Require Import Base Geometry Tree Traverse Run Corr3 Spec SpecRun Multi.
Import ListNotations.
Open Scope R_scope.

(** All ordered pairs of different rows of a catalog. *)
Fixpoint dpairs {A} (l : list A) : list (A * A) :=
  match l with
  | [] => []
  | x :: t => map (fun y => (x, y)) t ++ map (fun y => (y, x)) t ++ dpairs t
  end.

(** Sum of [F p1 p2 p3] over p1 in [cat1] and (p2,p3) in [l] with d2 = d(p1,p3) in bin k2 and
    d3 = d(p1,p2) in bin k3. *)
Definition triSum (B : bparams) (d : pos -> pos -> R) (k2 k3 : Z) (F : obj -> obj -> obj -> R)
    (cat1 : list obj) (l : list (obj * obj)) : R :=
  sumR (fun p1 => sumR (fun q =>
    if inBinb B k2 (d (opos p1) (opos (snd q))) && inBinb B k3 (d (opos p1) (opos (fst q)))
    then F p1 (fst q) (snd q) else 0) l) cat1.

(** Summands: number, product of weights, product of w*kappa, and the two sides. *)
Definition t_one (p1 p2 p3 : obj) : R := 1.
Definition t_www (p1 p2 p3 : obj) : R := ow p1 * ow p2 * ow p3.
Definition t_kkk (p1 p2 p3 : obj) : R :=
  (ow p1 * okappa p1) * (ow p2 * okappa p2) * (ow p3 * okappa p3).
Definition t_d2 (g : R -> R) (d : pos -> pos -> R) (p1 p2 p3 : obj) : R :=
  t_www p1 p2 p3 * g (d (opos p1) (opos p3)).
Definition t_d3 (g : R -> R) (d : pos -> pos -> R) (p1 p2 p3 : obj) : R :=
  t_www p1 p2 p3 * g (d (opos p1) (opos p2)).
(** A summand times cos or sin of n times the angle at p1 from p2 to p3; [th p q] is the
    direction of q seen from p. *)
Definition t_cos (T : obj -> obj -> obj -> R) (th : pos -> pos -> R) (n : Z) (p1 p2 p3 : obj) : R :=
  T p1 p2 p3 * cos (IZR n * (th (opos p1) (opos p3) - th (opos p1) (opos p2))).
Definition t_sin (T : obj -> obj -> obj -> R) (th : pos -> pos -> R) (n : Z) (p1 p2 p3 : obj) : R :=
  T p1 p2 p3 * sin (IZR n * (th (opos p1) (opos p3) - th (opos p1) (opos p2))).

(** [th] gives the polar angle of the displacement, for points of the plane z=0. *)
Definition polar (th : pos -> pos -> R) : Prop :=
  forall p q, pz p = 0 -> pz q = 0 ->
    px q - px p = euclid p q * cos (th p q) /\ py q - py p = euclid p q * sin (th p q).
Definition flatCat (cat : list obj) : Prop := forall o, In o cat -> pz (opos o) = 0.
(** No two rows at the same position. *)
Definition distinctPos (cat : list obj) : Prop := NoDup (map opos cat).

(** The entry of a [nbins][nbins][2 max_n+1] array for (k2, k3, n). *)
Definition entry (P : mparams) (k2 k3 n : Z) : Z :=
  ((k2 * nbins (cbin (mC P)) + k3) * (2 * Z.of_nat (mmaxn P) + 1) + Z.of_nat (mmaxn P) + n)%Z.
Definition validEntry (P : mparams) (k2 k3 n : Z) : Prop :=
  (0 <= k2 < nbins (cbin (mC P)))%Z /\ (0 <= k3 < nbins (cbin (mC P)))%Z /\
  (- Z.of_nat (mmaxn P) <= n <= Z.of_nat (mmaxn P))%Z.
(** [s1] has [v] more than [s0] in field f at (k2,k3,n). *)
Definition addsE (P : mparams) (s0 s1 : accumM) (f : mfield) (k2 k3 n : Z) (v : R) : Prop :=
  s1 f (entry P k2 k3 n) = s0 f (entry P k2 k3 n) + v.

(** [d] is the separation of the metric. *)
Definition metricSep (M : metric) (d : pos -> pos -> R) : Prop :=
  match M with
  | Euclidean => forall p q, d p q = euclid p q
  | Periodic x y z => 0 < x /\ 0 < y /\ 0 < z /\ forall p q, isPeriodicSep x y z p q (d p q)
  | _ => False
  end.
Definition validM (P : mparams) : Prop :=
  validB (cbin (mC P)) /\ btype (cbin (mC P)) = BLog /\ crpar (mC P) = None.
(** Only single positions are combined: angle_slop=0, or brute force for all catalogs. *)
Definition pointMode (P : mparams) (br : bool) : Prop := br = true \/ slop_a (cbin (mC P)) = 0.
(** ... or bin_slop=0. *)
Definition exactMode (P : mparams) (br : bool) : Prop :=
  pointMode P br \/ (slop_b (cbin (mC P)) = 0 /\ narrowLog (cbin (mC P))).
Definition bruteAll (P : mparams) : bool := match mbrute P with BruteBoth => true | _ => false end.

(** A sum over triangles: summand, bin of d2, bin of d3. *)
Definition tsum := (obj -> obj -> obj -> R) -> Z -> Z -> R.
Definition tplus (S S' : tsum) : tsum := fun T k2 k3 => S T k2 k3 + S' T k2 k3.
(** point 1 from [cat1], (point 2, point 3) from the list [l] *)
Definition tris (B : bparams) (d : pos -> pos -> R) (cat1 : list obj) (l : list (obj * obj)) : tsum :=
  fun T k2 k3 => triSum B d k2 k3 T cat1 l.
Definition trisAuto B d cat : tsum := tris B d cat (dpairs cat).
Definition bothOrders (cat2 cat3 : list obj) : list (obj * obj) := pairs cat2 cat3 ++ pairs cat3 cat2.
(** ordered=True: point 1 from cat1, the others from cat2; otherwise any point from cat1. *)
Definition tris12 B d (ordered : bool) cat1 cat2 : tsum :=
  if ordered then tris B d cat1 (dpairs cat2)
  else tplus (tris B d cat2 (bothOrders cat1 cat2)) (tris B d cat1 (dpairs cat2)).
(** ordered=True: point i from cat i; 1: point 1 from cat1; False: any order. *)
Definition tris3 B d (o : order) cat1 cat2 cat3 : tsum :=
  match o with
  | O3 => tris B d cat1 (pairs cat2 cat3)
  | O1 => tris B d cat1 (bothOrders cat2 cat3)
  | O0 => tplus (tplus (tris B d cat2 (bothOrders cat1 cat3)) (tris B d cat3 (bothOrders cat1 cat2)))
            (tris B d cat1 (bothOrders cat2 cat3))
  end.

(** What the arrays gain. *)
Definition gainsCounts (P : mparams) (s0 s1 : accumM) (S : tsum) : Prop :=
  forall k2 k3, validEntry P k2 k3 0 -> addsE P s0 s1 MNtri k2 k3 0 (S t_one k2 k3).
Definition gainsWeight0 (P : mparams) (s0 s1 : accumM) (S : tsum) : Prop :=
  forall k2 k3, validEntry P k2 k3 0 ->
    addsE P s0 s1 MWr k2 k3 0 (S t_www k2 k3) /\ addsE P s0 s1 MWi k2 k3 0 0 /\
    addsE P s0 s1 MZr k2 k3 0 (S t_kkk k2 k3) /\ addsE P s0 s1 MZi k2 k3 0 0.
(** meand2, meanlogd2, meand3; meanlogd3 *)
Definition gainsSides (P : mparams) (d : pos -> pos -> R) (s0 s1 : accumM) (S : tsum) : Prop :=
  forall k2 k3, validEntry P k2 k3 0 ->
    addsE P s0 s1 MD2 k2 k3 0 (S (t_d2 (fun x => x) d) k2 k3) /\
    addsE P s0 s1 MLogD2 k2 k3 0 (S (t_d2 ln d) k2 k3) /\
    addsE P s0 s1 MD3 k2 k3 0 (S (t_d3 (fun x => x) d) k2 k3).
Definition gainsLogD3 (P : mparams) (d : pos -> pos -> R) (s0 s1 : accumM) (S : tsum) : Prop :=
  forall k2 k3, validEntry P k2 k3 0 -> addsE P s0 s1 MLogD3 k2 k3 0 (S (t_d3 ln d) k2 k3).
Definition gainsPhases (P : mparams) (th : pos -> pos -> R) (s0 s1 : accumM) (S : tsum) : Prop :=
  forall k2 k3 n, validEntry P k2 k3 n ->
    addsE P s0 s1 MWr k2 k3 n (S (t_cos t_www th n) k2 k3) /\
    addsE P s0 s1 MWi k2 k3 n (S (t_sin t_www th n) k2 k3) /\
    addsE P s0 s1 MZr k2 k3 n (S (t_cos t_kkk th n) k2 k3) /\
    addsE P s0 s1 MZi k2 k3 n (S (t_sin t_kkk th n) k2 k3).
