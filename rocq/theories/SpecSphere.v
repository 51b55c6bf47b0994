(** Specification of spin-s quantities on the sphere: the frame (west, north), great circles,
    rotations of the sky and parallel transport, by elementary vector geometry. *)
From Coq Require Import Reals List ZArith Bool.
From Verif Require Import Base Geometry Tree Traverse Spec SpecRun SpecSpin.
Open Scope R_scope.

Definition unitV (p : pos) : Prop := dot p p = 1.
(** distance to the polar axis: the cosine of the declination, for unit vectors *)
Definition axis (p : pos) : R := sqrt (px p * px p + py p * py p).
Definition offPole (p : pos) : Prop := 0 < px p * px p + py p * py p.
(** the point of the unit sphere in the direction of p *)
Definition sky (p : pos) : pos := pscale (/ sqrt (dot p p)) p.
(** unit vectors to the west and to the north at p *)
Definition west (p : pos) : pos := mkpos (py p / axis p) (- px p / axis p) 0.
Definition north (p : pos) : pos :=
  mkpos (- pz p * px p / axis p) (- pz p * py p / axis p) (axis p).
(** a tangent vector at p as a complex number *)
Definition comps (p v : pos) : R * R := (dot v (west p), dot v (north p)).
(** The great circle from p1 to p2 arrives at p2 (leaves p1) in the direction a, measured from west
    towards north. *)
Definition arrives (p1 p2 : pos) (a : R) : Prop :=
  exists d, 0 < d /\ comps p2 (psub p2 p1) = (d * cos a, d * sin a).
Definition leaves (p1 p2 : pos) (a : R) : Prop :=
  exists d, 0 < d /\ comps p1 (psub p2 p1) = (d * cos a, d * sin a).
Definition opposite (p : pos) : pos := pscale (-1) p.

(** Rotations of space about the origin. *)
Record rotation (M : pos -> pos) : Prop := mkRot {
  rot_add : forall p q, M (padd p q) = padd (M p) (M q);
  rot_scale : forall a p, M (pscale a p) = pscale a (M p);
  rot_dot : forall p q, dot (M p) (M q) = dot p q;
  rot_cross : forall p q, cross (M p) (M q) = M (cross p q) }.

(** [dep], [arr] give the directions of the great circles between the objects of the catalogs. *)
Definition skyAngles (dep arr : pos -> pos -> R) (cat1 cat2 : list obj) : Prop :=
  forall o1 o2, In o1 cat1 -> In o2 cat2 ->
    sky (opos o1) <> sky (opos o2) -> sky (opos o1) <> opposite (sky (opos o2)) ->
    leaves (sky (opos o1)) (sky (opos o2)) (dep (opos o1) (opos o2)) /\
    arrives (sky (opos o1)) (sky (opos o2)) (arr (opos o1) (opos o2)).
(** Two objects in the same or in opposite directions: no great circle, no contribution. *)
Definition ifSky (o1 o2 : obj) (x : R) : R :=
  if Req_EM_T (euclid (sky (opos o1)) (sky (opos o2))) 0 then 0 else
  if Req_EM_T (euclid (sky (opos o1)) (opposite (sky (opos o2)))) 0 then 0 else x.
(** Contributions of a pair of shears, by the tangential and cross components with respect to the
    great circle at each of the two objects. *)
Section Values.
Variables dep arr : pos -> pos -> R.
Let A (o1 o2 : obj) : R := dep (opos o1) (opos o2).
Let B (o1 o2 : obj) : R := arr (opos o1) (opos o2).
Definition s_ng (o1 o2 : obj) : R := ifSky o1 o2 (ow o1 * ow o2 * gammaT (B o1 o2) o2).
Definition s_ngx (o1 o2 : obj) : R := ifSky o1 o2 (ow o1 * ow o2 * gammaX (B o1 o2) o2).
Definition s_kg (o1 o2 : obj) : R := ifSky o1 o2 (ow o1 * okappa o1 * ow o2 * gammaT (B o1 o2) o2).
Definition s_kgx (o1 o2 : obj) : R := ifSky o1 o2 (ow o1 * okappa o1 * ow o2 * gammaX (B o1 o2) o2).
Definition s_ggp (o1 o2 : obj) : R := ifSky o1 o2 (ow o1 * ow o2 *
  (gammaT (A o1 o2) o1 * gammaT (B o1 o2) o2 + gammaX (A o1 o2) o1 * gammaX (B o1 o2) o2)).
Definition s_ggpi (o1 o2 : obj) : R := ifSky o1 o2 (ow o1 * ow o2 *
  (gammaX (A o1 o2) o1 * gammaT (B o1 o2) o2 - gammaT (A o1 o2) o1 * gammaX (B o1 o2) o2)).
Definition s_ggm (o1 o2 : obj) : R := ifSky o1 o2 (ow o1 * ow o2 *
  (gammaT (A o1 o2) o1 * gammaT (B o1 o2) o2 - gammaX (A o1 o2) o1 * gammaX (B o1 o2) o2)).
Definition s_ggmi (o1 o2 : obj) : R := ifSky o1 o2 (ow o1 * ow o2 *
  (gammaX (A o1 o2) o1 * gammaT (B o1 o2) o2 + gammaT (A o1 o2) o1 * gammaX (B o1 o2) o2)).
End Values.

(** Parallel transport of a tangent vector v from p to q along the great circle. *)
Definition transportVec (p q v : pos) : pos :=
  psub v (pscale (dot q v / (1 + dot p q)) (padd p q)).
(** What becomes of the direction west at p, as a complex number at q. *)
Definition frameTurn (p q : pos) : R * R := comps q (transportVec p q (west p)).
