(** C83: the normalised aperture statistics in the file of writeNorm. *)
From Coq Require Import Reals Lra List.
From Verif Require Import Norm.
Import ListNotations.
Open Scope R_scope.

(** Spec: [v] is the value of f and [s2] its variance to first order for independent errors: the sum of the squared partial
    derivatives times the variances. *)
Definition prop3 (f : R -> R -> R -> R) (x y z vx vy vz s2 : R) : Prop :=
  exists dx dy dz, derivable_pt_lim (fun t => f t y z) x dx /\ derivable_pt_lim (fun t => f x t z) y dy /\
    derivable_pt_lim (fun t => f x y t) z dz /\ s2 = dx * dx * vx + dy * dy * vy + dz * dz * vz.
Definition fNorm (nm nn mm : R) : R := nm * nm / (nn * mm).
Definition fRatio (_ nn mm : R) : R := nn / mm.

Lemma dlim_eq : forall f g x d d', (forall t, g t = f t) -> d = d' -> derivable_pt_lim f x d -> derivable_pt_lim g x d'.
Proof.
  intros f g x d d' H -> D e He. destruct (D e He) as [dl Hd]. exists dl. intros h H0 H1. rewrite !H. now apply Hd.
Qed.
Lemma dlim_inv : forall c x, x <> 0 -> derivable_pt_lim (fun t => c / t) x (- c / (x * x)).
Proof.
  intros c x Hx.
  apply (dlim_eq (div_fct (fct_cte c) id) _ x ((0 * id x - 1 * fct_cte c x) / Rsqr (id x))).
  - intros t. reflexivity.
  - unfold id, Rsqr, fct_cte. field. exact Hx.
  - apply derivable_pt_lim_div; [apply derivable_pt_lim_const|apply derivable_pt_lim_id|exact Hx].
Qed.
Lemma dlim_sq : forall c x, derivable_pt_lim (fun t => t * t * c) x (2 * x * c).
Proof.
  intros c x. apply (dlim_eq (mult_real_fct c (mult_fct id id)) _ x (c * (1 * id x + id x * 1))).
  - intros t. unfold mult_real_fct, mult_fct, id. ring.
  - unfold id. ring.
  - apply derivable_pt_lim_scal. apply derivable_pt_lim_mult; apply derivable_pt_lim_id.
Qed.
Lemma dlim_lin : forall c x, derivable_pt_lim (fun t => t * c) x c.
Proof.
  intros c x. apply (dlim_eq (mult_real_fct c id) _ x (c * 1)).
  - intros t. unfold mult_real_fct, id. ring.
  - ring.
  - apply derivable_pt_lim_scal. apply derivable_pt_lim_id.
Qed.
Lemma odiv_ok : forall a b, b <> 0 -> odiv a b = Some (a / b).
Proof. intros a b H. unfold odiv. now destruct (Req_EM_T b 0). Qed.

(** The two ratios with the variances of first-order error propagation. *)
Theorem C83_norm : forall r a, a_nmap a <> 0 -> a_nsq a <> 0 -> a_mapsq a <> 0 -> exists s1 s2,
  normRow r a = [Some r; Some (a_nmap a); Some (a_nmx a); Some (sqrt (a_vnmap a)); Some (a_nsq a); Some (sqrt (a_vnsq a));
    Some (a_mapsq a); Some (sqrt (a_vmapsq a)); Some (fNorm (a_nmap a) (a_nsq a) (a_mapsq a)); Some (sqrt s1);
    Some (fRatio (a_nmap a) (a_nsq a) (a_mapsq a)); Some (sqrt s2)] /\
  prop3 fNorm (a_nmap a) (a_nsq a) (a_mapsq a) (a_vnmap a) (a_vnsq a) (a_vmapsq a) s1 /\
  prop3 fRatio (a_nmap a) (a_nsq a) (a_mapsq a) (a_vnmap a) (a_vnsq a) (a_vmapsq a) s2.
Proof.
  intros r [x nx vx y vy z vz] Hx Hy Hz. cbn [a_nmap a_nsq a_mapsq a_nmx a_vnmap a_vnsq a_vmapsq] in *.
  assert (Hyz : y * z <> 0) by now apply Rmult_integral_contrapositive_currified.
  exists (fNorm x y z ^ 2 * (4 * vx / x ^ 2 + vy / y ^ 2 + vz / z ^ 2)), (fRatio x y z ^ 2 * (vy / y ^ 2 + vz / z ^ 2)).
  split; [|split].
  - unfold normRow, nmnorm, varnmnorm, nnnorm, varnnnorm, nmnorm, nnnorm.
    cbn [a_nmap a_nsq a_mapsq a_nmx a_vnmap a_vnsq a_vmapsq].
    rewrite !odiv_ok by (try assumption; now apply pow_nonzero). cbn [option_map obin]. unfold fNorm, fRatio.
    replace (x ^ 2 / (y * z)) with (x * x / (y * z)) by (field; auto). reflexivity.
  - exists (2 * x * / (y * z)), (- (x * x / z) / (y * y)), (- (x * x / y) / (z * z)). repeat split.
    + apply (dlim_sq (/ (y * z))).
    + eapply dlim_eq; [|reflexivity|apply (dlim_inv (x * x / z) y Hy)]. intros t. cbv beta. unfold fNorm, Rdiv.
      rewrite Rinv_mult. ring.
    + eapply dlim_eq; [|reflexivity|apply (dlim_inv (x * x / y) z Hz)]. intros t. cbv beta. unfold fNorm, Rdiv.
      rewrite Rinv_mult. ring.
    + unfold fNorm. field. auto.
  - exists 0, (/ z), (- y / (z * z)). repeat split.
    + apply derivable_pt_lim_const.
    + apply (dlim_lin (/ z)).
    + apply (dlim_inv y z Hz).
    + unfold fRatio. field. auto.
Qed.
(** A common calibration factor of the shears drops out of NMap_norm and sig_norm. *)
Theorem C83_norm_scale : forall a c, c <> 0 ->
  let b := mkAp (c * a_nmap a) (c * a_nmx a) (c ^ 2 * a_vnmap a) (a_nsq a) (a_vnsq a) (c ^ 2 * a_mapsq a) (c ^ 4 * a_vmapsq a) in
  nmnorm b = nmnorm a /\ varnmnorm b = varnmnorm a.
Proof.
  intros [x nx vx y vy z vz] c Hc. cbv zeta. cbn [a_nmap a_nsq a_mapsq a_nmx a_vnmap a_vnsq a_vmapsq].
  assert (S : forall k u v, k <> 0 -> odiv (k * u) (k * v) = odiv u v).
  { intros k u v Hk. unfold odiv. destruct (Req_EM_T v 0) as [->|Hv].
    - rewrite Rmult_0_r. now destruct (Req_EM_T 0 0).
    - destruct (Req_EM_T (k * v) 0) as [E|E]; [apply Rmult_integral in E; tauto|]. f_equal. field. auto. }
  assert (C2 : c ^ 2 <> 0) by now apply pow_nonzero. assert (C4 : c ^ 4 <> 0) by now apply pow_nonzero.
  assert (E1 : odiv ((c * x) ^ 2) (y * (c ^ 2 * z)) = odiv (x ^ 2) (y * z)).
  { rewrite <- (S (c ^ 2) (x ^ 2) (y * z) C2). f_equal; ring. }
  split; unfold varnmnorm, nmnorm; cbn [a_nmap a_nsq a_mapsq a_nmx a_vnmap a_vnsq a_vmapsq]; rewrite E1; [reflexivity|].
  f_equal. f_equal.
  - f_equal. rewrite <- (S (c ^ 2) (4 * vx) (x ^ 2) C2). f_equal; ring.
  - rewrite <- (S (c ^ 4) vz (z ^ 2) C4). f_equal; ring.
Qed.
Example C83_norm_example : let a := mkAp 2 0 1 4 1 1 1 in
  a_nmap a <> 0 /\ a_nsq a <> 0 /\ a_mapsq a <> 0 /\ nmnorm a = Some 1 /\ nnnorm a = Some 4.
Proof.
  cbv zeta. cbn. repeat split; try lra; unfold nmnorm, nnnorm; cbn [a_nmap a_nsq a_mapsq]; rewrite odiv_ok by lra; f_equal; lra.
Qed.
(** ** Refuted: the variance where NMap is 0.  The ratio and its first-order variance are 0 there; sig_norm is not a number. *)
Theorem C83_norm_zero_refuted : exists a s, a_nsq a <> 0 /\ a_mapsq a <> 0 /\ nmnorm a = Some 0 /\
  prop3 fNorm (a_nmap a) (a_nsq a) (a_mapsq a) (a_vnmap a) (a_vnsq a) (a_vmapsq a) s /\ s = 0 /\ varnmnorm a = None.
Proof.
  exists (mkAp 0 0 1 4 1 1 1), 0. cbn [a_nmap a_nsq a_mapsq a_nmx a_vnmap a_vnsq a_vmapsq].
  split; [lra|]. split; [lra|]. split; [|split; [|split; [reflexivity|]]].
  - unfold nmnorm. cbn [a_nmap a_nsq a_mapsq]. rewrite odiv_ok by lra. f_equal. field.
  - exists 0, 0, 0. repeat split; [ | | | lra].
    + apply (dlim_eq (fun t => t * t * / (4 * 1)) _ 0 (2 * 0 * / (4 * 1))); [reflexivity|ring|apply dlim_sq].
    + eapply dlim_eq; [|reflexivity|apply (derivable_pt_lim_const 0)]. intros t. unfold fNorm, fct_cte, Rdiv. ring.
    + eapply dlim_eq; [|reflexivity|apply (derivable_pt_lim_const 0)]. intros t. unfold fNorm, fct_cte, Rdiv. ring.
  - unfold varnmnorm, odiv. cbn [a_nmap]. replace (0 ^ 2) with 0 by ring. destruct (Req_EM_T 0 0) as [_|N]; [|now elim N].
    cbn. now destruct (option_map _ _).
Qed.
