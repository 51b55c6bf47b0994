(** Specification of the three-point shear correlation, written without reference to the code:
    the natural components with respect to the centroid of the triangle. *)
From Coq Require Import Reals List ZArith Bool.
From Verif Require Import Base Geometry Tree Spec SpecRun Corr3 SpecSpin SpecSphere SpecTri SpecSas.
Open Scope R_scope.

(** The centroid of a triangle: in the plane the mean of the corners; on the sky the direction of
    the sum of the unit vectors to the corners. *)
Definition centroidFlat (p q r : pos) : pos :=
  mkpos ((px p + px q + px r) / 3) ((py p + py q + py r) / 3) 0.
Definition centroidSky (p q r : pos) : pos := sky (padd (padd (sky p) (sky q)) (sky r)).
(** (cos a, sin a) of the direction a of a vector; (0, 0) for the vector 0. *)
Definition unit2 (v : R * R) : R * R :=
  let d := sqrt (fst v * fst v + snd v * snd v) in (fst v / d, snd v / d).
(** The direction of the line to the centroid at the corner p of the triangle (p,q,r): in the plane
    from the x axis towards the y axis, on the sky from west to north. *)
Definition axisAt (C : coord) (p q r : pos) : R * R :=
  match C with
  | Flat => let m := centroidFlat p q r in unit2 (px m - px p, py m - py p)
  | _ => let m := centroidSky p q r in unit2 (comps (sky p) (psub (sky p) m))
  end.
(** The shear times the weight of an object with respect to an axis: component along (and
    perpendicular to) it, component at 45 degrees; cos 2a and sin 2a in terms of cos a, sin a. *)
Definition shearA (u : R * R) (o : obj) : R :=
  ow o * (og1 o * (fst u * fst u - snd u * snd u) + og2 o * (2 * fst u * snd u)).
Definition shearB (u : R * R) (o : obj) : R :=
  ow o * (og2 o * (fst u * fst u - snd u * snd u) - og1 o * (2 * fst u * snd u)).

(** Real and imaginary part of (a1 + i b1) (a2 + i b2) (a3 + i b3). *)
Definition prodRe (a1 b1 a2 b2 a3 b3 : R) : R := a1 * a2 * a3 - a1 * b2 * b3 - b1 * a2 * b3 - b1 * b2 * a3.
Definition prodIm (a1 b1 a2 b2 a3 b3 : R) : R := b1 * a2 * a3 + a1 * b2 * a3 + a1 * a2 * b3 - b1 * b2 * b3.
(** Natural component number n (0..3): the value of corner n is conjugated.  [im]: imaginary part. *)
Definition gamVal (C : coord) (n : nat) (im : bool) (a b c : obj) : R :=
  let u1 := axisAt C (opos a) (opos b) (opos c) in
  let u2 := axisAt C (opos b) (opos a) (opos c) in
  let u3 := axisAt C (opos c) (opos a) (opos b) in
  let s k := if Nat.eqb n k then -1 else 1 in
  (if im then prodIm else prodRe)
    (shearA u1 a) (s 1%nat * shearB u1 a) (shearA u2 b) (s 2%nat * shearB u2 b)
    (shearA u3 c) (s 3%nat * shearB u3 c).

(** The labelled triangle (a,b,c) adds this to place k, for LogRUV and LogSAS. *)
Definition triGam (P : tparams) (n : nat) (im : bool) (k : Z) (a b c : obj) : R :=
  if (match tbt P with LogRUV => selTri P k a b c | LogSAS => selSAS P k a b c end)
  then gamVal (tcoord P) n im a b c else 0.
Definition triGam1 (P : tparams) n im k (a b c : obj) : R :=
  triGam P n im k a b c + triGam P n im k a c b.
Definition triGam6 (P : tparams) n im k (a b c : obj) : R :=
  triGam1 P n im k a b c + triGam1 P n im k b a c + triGam1 P n im k c a b.

(** On the sky: no object at a pole, no three directions adding up to 0 (the centroid and the
    frame west, north have to exist); on the sphere the positions are unit vectors. *)
Definition skyOK (C : coord) (l : list obj) : Prop :=
  match C with
  | Flat => forall o, In o l -> pz (opos o) = 0
  | _ =>
      (forall o, In o l -> offPole (opos o) /\ (C = Sphere -> unitV (opos o))) /\
      (forall a b c, In a l -> In b l -> In c l ->
         padd (padd (sky (opos a)) (sky (opos b))) (sky (opos c)) <> mkpos 0 0 0)
  end.

(** The configurations for which the sums are stated: bin_slop=0, metric Euclidean, weights not
    negative; LogRUV without triangles whose two longest sides are equal, LogSAS without three
    objects on a line (see C65, C66, C79 for what happens otherwise). *)
Definition exactAuto (P : tparams) (l : list obj) : Prop :=
  tmetric P = Euclidean /\ nonnegW l /\ skyOK (tcoord P) l /\
  ((validRUV P /\ noSlop3 P /\ tminv P = 0 /\ noTies l) \/
   (validSAS P /\ noSlopSAS P /\ tminu P = 0 /\ PI / 3 <= tmaxu P /\ oriented (tcoord P) l)).
Definition exactCross12 (P : tparams) (O : order) (l : list obj) : Prop :=
  tmetric P = Euclidean /\ nonnegW l /\ skyOK (tcoord P) l /\ O <> O3 /\
  ((validRUV P /\ noSlop3 P /\ tminv P = 0 /\ (O = O0 -> noTies l)) \/
   (validSAS P /\ noSlopSAS P /\ tminu P = 0 /\ PI / 3 <= tmaxu P /\ oriented (tcoord P) l)).
Definition exactCross (P : tparams) (O : order) (l : list obj) : Prop :=
  tmetric P = Euclidean /\ nonnegW l /\ skyOK (tcoord P) l /\
  ((validRUV P /\ noSlop3 P /\ tminv P = 0 /\ (O = O0 -> noTies l)) \/
   (validSAS P /\ noSlopSAS P /\ tminu P <= 2 * PI / 3 /\ PI / 3 <= tmaxu P /\
    (O = O3 -> tcoord P = Flat) /\ (O <> O3 -> oriented (tcoord P) l))).

(** Sum over the labellings that the order of the catalogs allows. *)
Definition byOrder (O : order) (P : tparams) n im k : obj -> obj -> obj -> R :=
  match O with O3 => triGam P n im k | O1 => triGam1 P n im k | O0 => triGam6 P n im k end.

(** The value of an object with its shear multiplied by i: all shears turned by 45 degrees. *)
Definition turn45 (o : obj) : obj :=
  mkobj (opos o) (ow o) (owpos o) (okappa o) (- og2 o) (og1 o) (oidx o).
(** The object seen in a mirror. *)
Definition mirrored (o : obj) : obj :=
  mkobj (flipY (opos o)) (ow o) (owpos o) (okappa o) (og1 o) (- og2 o) (oidx o).
(** The plane turned by t and shifted, with the shears. *)
Definition turnedBy (t tx ty : R) (o : obj) : obj :=
  mkobj (planeMotion (cos t) (sin t) tx ty (opos o)) (ow o) (owpos o) (okappa o)
    (og1 o * cos (2 * t) - og2 o * sin (2 * t)) (og1 o * sin (2 * t) + og2 o * cos (2 * t)) (oidx o).
