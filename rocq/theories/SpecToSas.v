(** Specification of the conversion from LogMultipole to LogSAS. *)
From Coq Require Import Reals List ZArith Bool.
From Verif Require Import Base Geometry Tree Traverse Run Corr3 Spec SpecRun SpecGGG Multi SpecMulti MultiG SpecMultiG.
Import ListNotations.
Open Scope R_scope.

(** A labelled triangle (p1,(p2,p3)); sums over lists of them. *)
Definition tri := (obj * (obj * obj))%type.
Definition tsumL (T : obj -> obj -> obj -> R) (L : list tri) : R :=
  sumR (fun t => T (fst t) (fst (snd t)) (snd (snd t))) L.
(** The triangles with d2 in bin k2 and d3 in bin k3: point 1 from cat1, the other two from l. *)
Definition trisIn (B : bparams) (d : pos -> pos -> R) (k2 k3 : Z) (cat1 : list obj) (l : list (obj * obj)) : list tri :=
  filter (fun t => inBinb B k2 (d (opos (fst t)) (opos (snd (snd t)))) &&
                   inBinb B k3 (d (opos (fst t)) (opos (fst (snd t))))) (list_prod cat1 l).
Definition trisInAuto B d k2 k3 cat := trisIn B d k2 k3 cat (dpairs cat).
Definition trisIn12 B d k2 k3 (ordered : bool) cat1 cat2 :=
  if ordered then trisIn B d k2 k3 cat1 (dpairs cat2)
  else trisIn B d k2 k3 cat2 (bothOrders cat1 cat2) ++ trisIn B d k2 k3 cat1 (dpairs cat2).
Definition trisIn3 B d k2 k3 (o : order) cat1 cat2 cat3 :=
  match o with
  | O3 => trisIn B d k2 k3 cat1 (pairs cat2 cat3)
  | O1 => trisIn B d k2 k3 cat1 (bothOrders cat2 cat3)
  | O0 => (trisIn B d k2 k3 cat2 (bothOrders cat1 cat3) ++ trisIn B d k2 k3 cat3 (bothOrders cat1 cat2)) ++
          trisIn B d k2 k3 cat1 (bothOrders cat2 cat3)
  end.
(** The angle at p1 from p3 to p2. *)
Definition phiOf (th : pos -> pos -> R) (p1 p2 p3 : obj) : R :=
  th (opos p1) (opos p2) - th (opos p1) (opos p3).
(** 1 + 2 cos x + 2 cos 2x + ... + 2 cos Nx *)
Fixpoint dirichlet (N : nat) (x : R) : R :=
  match N with O => 1 | S n => dirichlet n x + 2 * cos (INR (S n) * x) end.
(** T, spread over phi. *)
Definition spread (N : nat) (th : pos -> pos -> R) (phi : R) (T : obj -> obj -> obj -> R) (p1 p2 p3 : obj) : R :=
  T p1 p2 p3 * dirichlet N (phi - phiOf th p1 p2 p3).

(** The triangle is similar, with the same orientation, to the one with sides D2 and D3 at the
    angle phi. *)
Definition similarTo (th : pos -> pos -> R) (D2 D3 phi : R) (t : tri) : Prop :=
  let '(p1, (p2, p3)) := t in
  pz (opos p1) = 0 /\ pz (opos p2) = 0 /\ pz (opos p3) = 0 /\
  exists r, 0 < r /\ euclid (opos p1) (opos p3) = r * D2 /\ euclid (opos p1) (opos p2) = r * D3 /\
    cos (phiOf th p1 p2 p3) = cos phi /\ sin (phiOf th p1 p2 p3) = sin phi.
