(** What the kernels of the aperture statistics have to satisfy. *)
From Coq Require Import Reals Lra.
Open Scope R_scope.

(** v is the integral of f from a to b (by an antiderivative; see integral_unique) *)
Definition isIntegral (f : R -> R) (a b v : R) : Prop :=
  exists F, (forall x, a <= x <= b -> derivable_pt_lim F x (f x)) /\ v = F b - F a.
(** improper integrals: v is the limit of the integral from a to x, for x -> infinity or x -> b from below *)
Definition isIntegralInf (f : R -> R) (a v : R) : Prop :=
  forall eps, 0 < eps -> exists M, a <= M /\ forall x, M < x ->
    exists y, isIntegral f a x y /\ Rabs (y - v) < eps.
Definition isIntegralTo (f : R -> R) (a b v : R) : Prop :=
  forall eps, 0 < eps -> exists d, 0 < d /\ forall x, a <= x -> b - d < x < b ->
    exists y, isIntegral f a x y /\ Rabs (y - v) < eps.

(** Crittenden et al. (2002), Schneider et al. (2002): for a shear field which is a pure E mode
      xi_+(r) = xi_-(r) + 4 int_r^inf xi_-(t)/t dt - 12 r^2 int_r^inf xi_-(t)/t^3 dt,
    and then int s T_+ xi_+ ds = int s T_- xi_- ds for all xi_- exactly when *)
Definition ebPair (Tp Tm : R -> R) (s : R) : Prop :=
  exists G H, isIntegral (fun t => t * Tp t) 0 s G /\ isIntegral (fun t => t ^ 3 * Tp t) 0 s H /\
    Tm s = Tp s + 4 * G / s ^ 2 - 12 * H / s ^ 4.
(** The tangential shear around a lens is the mean of the surface density inside minus the density
    at r; int s T_x gamma_t ds = int s T_+ omega ds for all omega exactly when
      T_+(s) = - T_x(s) + int_s^rmax 2 T_x(t)/t dt *)
Definition aroundLens (Tx : R -> R) (t : R) : R := 2 * Tx t / t.
