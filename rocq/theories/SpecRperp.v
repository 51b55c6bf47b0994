(** Specification of the Rperp separation (Fisher et al. 1994): the shortest distance of q from the
    line through p in the direction of the mid-point of p and q, as seen from the observer at the
    origin; equally the length of q - p without its part along that direction. *)
From Coq Require Import Reals.
From Verif Require Import Geometry Spec.
Open Scope R_scope.

Definition isRperpSep (p q : pos) (d : R) : Prop :=
  (exists t, d = euclid q (padd p (pscale t (padd p q)))) /\
  (forall t, d <= euclid q (padd p (pscale t (padd p q)))).
