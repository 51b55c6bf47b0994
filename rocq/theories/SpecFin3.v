(** Specification of the finalized three-point arrays. *)
From Coq Require Import Reals List ZArith Bool.
From Verif Require Import Base Geometry SpecSphere Fin3.
Import ListNotations.
Open Scope R_scope.

(** One triangle of a bin: weight, sides, u (or phi), v, and the products to be averaged. *)
Record tri3 := mkT { g_w : R; g_d1 : R; g_d2 : R; g_d3 : R; g_u : R; g_v : R; g_z : nat -> R }.
Definition sum3 (f : tri3 -> R) (l : list tri3) : R := fold_right (fun t s => f t + s) 0 l.
Definition total (l : list tri3) : R := sum3 g_w l.
Definition wmean (f : tri3 -> R) (l : list tri3) : R := sum3 (fun t => g_w t * f t) l / total l.
(** The arrays before finalize. *)
Definition sums (nz : nat) (l : list tri3) : fbin :=
  let s f := sum3 (fun t => g_w t * f t) l in
  mkF (INR (length l)) (total l) 0 (map (fun i => s (fun t => g_z t i)) (seq 0 nz))
    (s g_d1) (s (fun t => ln (g_d1 t))) (s g_d2) (s (fun t => ln (g_d2 t)))
    (s g_d3) (s (fun t => ln (g_d3 t))) (s g_u) (s g_v).

(** The angle in [0,pi] with the given cosine. *)
Definition isAngle (t c : R) : Prop := 0 <= t <= PI /\ cos t = c.
(** The arc between two unit vectors. *)
Definition isArc (t : R) (p q : pos) : Prop := isAngle t (dot p q).
(** The part of q orthogonal to p (the direction at p towards q), and the angle at p1 of the
    spherical triangle. *)
Definition tangent (p q : pos) : pos :=
  mkpos (px q - dot p q * px p) (py q - dot p q * py p) (pz q - dot p q * pz p).
Definition isCorner (t : R) (p1 p2 p3 : pos) : Prop :=
  isAngle t (dot (tangent p1 p2) (tangent p1 p3) /
             (sqrt (dot (tangent p1 p2) (tangent p1 p2)) * sqrt (dot (tangent p1 p3) (tangent p1 p3)))).
(** A triangle with straight sides between unit vectors; phi: the angle at p1. *)
Definition chord (p q : pos) : R := sqrt (dot (psub p q) (psub p q)).
Definition chordTri (p1 p2 p3 : pos) (t : tri3) : Prop :=
  g_d1 t = chord p2 p3 /\ g_d2 t = chord p1 p3 /\ g_d3 t = chord p1 p2 /\
  isAngle (g_u t) (dot (psub p2 p1) (psub p3 p1) / (chord p1 p2 * chord p1 p3)).
