(** Specification of the complex correlation functions for flat coordinates, in terms of polar
    angles and the real functions cos and sin only. *)
From Coq Require Import Reals List ZArith Bool.
From Verif Require Import Base Geometry Tree Traverse Spec SpecRun.
Open Scope R_scope.

(** [isAngle p1 p2 a]: the vector from p1 to p2 has direction a. *)
Definition isAngle (p1 p2 : pos) (a : R) : Prop :=
  exists d, 0 < d /\ px p2 - px p1 = d * cos a /\ py p2 - py p1 = d * sin a.
(** [ang] gives the direction between any two different positions of the catalogs. *)
Definition anglesFor (ang : pos -> pos -> R) (cat1 cat2 : list obj) : Prop :=
  forall o1 o2, In o1 cat1 -> In o2 cat2 -> opos o1 <> opos o2 ->
    isAngle (opos o1) (opos o2) (ang (opos o1) (opos o2)).
Definition flatCat (cat : list obj) : Prop := forall o, In o cat -> pz (opos o) = 0.

(** Components of the complex value of an object with respect to the axis with direction a, for a
    field of spin n: along the axis, and at 45/s degrees. *)
Definition along (n a : R) (o : obj) : R := og1 o * cos (n * a) + og2 o * sin (n * a).
Definition crossed (n a : R) (o : obj) : R := og2 o * cos (n * a) - og1 o * sin (n * a).

(** For shear (n = 2): tangential and cross component. *)
Definition gammaT (a : R) (o : obj) : R := - (og1 o * cos (2 * a) + og2 o * sin (2 * a)).
Definition gammaX (a : R) (o : obj) : R := - (og2 o * cos (2 * a) - og1 o * sin (2 * a)).

(** A pair of objects at the same position has no direction; it contributes nothing (spin > 0). *)
Definition ifApart (o1 o2 : obj) (x : R) : R :=
  if Req_EM_T (euclid (opos o1) (opos o2)) 0 then 0 else x.
Section Values.
Variable ang : pos -> pos -> R.
Let A (o1 o2 : obj) : R := ang (opos o1) (opos o2).
Definition v_ng (o1 o2 : obj) : R := ifApart o1 o2 (ow o1 * ow o2 * gammaT (A o1 o2) o2).
Definition v_ngx (o1 o2 : obj) : R := ifApart o1 o2 (ow o1 * ow o2 * gammaX (A o1 o2) o2).
Definition v_kg (o1 o2 : obj) : R := ifApart o1 o2 (ow o1 * okappa o1 * ow o2 * gammaT (A o1 o2) o2).
Definition v_kgx (o1 o2 : obj) : R := ifApart o1 o2 (ow o1 * okappa o1 * ow o2 * gammaX (A o1 o2) o2).
Definition v_ggp (o1 o2 : obj) : R := ifApart o1 o2 (ow o1 * ow o2 *
  (gammaT (A o1 o2) o1 * gammaT (A o1 o2) o2 + gammaX (A o1 o2) o1 * gammaX (A o1 o2) o2)).
Definition v_ggpi (o1 o2 : obj) : R := ifApart o1 o2 (ow o1 * ow o2 *
  (gammaX (A o1 o2) o1 * gammaT (A o1 o2) o2 - gammaT (A o1 o2) o1 * gammaX (A o1 o2) o2)).
Definition v_ggm (o1 o2 : obj) : R := ifApart o1 o2 (ow o1 * ow o2 *
  (gammaT (A o1 o2) o1 * gammaT (A o1 o2) o2 - gammaX (A o1 o2) o1 * gammaX (A o1 o2) o2)).
Definition v_ggmi (o1 o2 : obj) : R := ifApart o1 o2 (ow o1 * ow o2 *
  (gammaX (A o1 o2) o1 * gammaT (A o1 o2) o2 + gammaT (A o1 o2) o1 * gammaX (A o1 o2) o2)).
(** Spin n other than 2: no sign convention. *)
Definition v_nz (n : R) (o1 o2 : obj) : R := ifApart o1 o2 (ow o1 * ow o2 * along n (A o1 o2) o2).
Definition v_nzx (n : R) (o1 o2 : obj) : R := ifApart o1 o2 (ow o1 * ow o2 * crossed n (A o1 o2) o2).
Definition v_zzp (n : R) (o1 o2 : obj) : R := ifApart o1 o2 (ow o1 * ow o2 *
  (along n (A o1 o2) o1 * along n (A o1 o2) o2 + crossed n (A o1 o2) o1 * crossed n (A o1 o2) o2)).
Definition v_zzm (n : R) (o1 o2 : obj) : R := ifApart o1 o2 (ow o1 * ow o2 *
  (along n (A o1 o2) o1 * along n (A o1 o2) o2 - crossed n (A o1 o2) o1 * crossed n (A o1 o2) o2)).
End Values.
