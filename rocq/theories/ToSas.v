(** Model of toSAS: treecorr/corr3base.py:1941-2031, nnncorrelation.py:418-424,
    kkkcorrelation.py:315-328, gggcorrelation.py:441-537.  Each pair (k2,k3) is treated separately,
    as in the code. *)
From Coq Require Import Reals List ZArith Bool.
From Verif Require Import Base Spin Cplx.
Import ListNotations.
Open Scope R_scope.

(** exp(i t) *)
Definition cexpi (t : R) : cplx := (cos t, sin t).
Definition csumL {A} (f : A -> cplx) (l : list A) : cplx := fold_right (fun x s => (f x + s)%C) (0, 0) l.
(** |z| *)
Definition cabs (z : cplx) : R := sqrt (cnorm z).

(** n1d = -max_n .. max_n, corr3base.py:681 *)
Definition n1d (maxn : nat) : list Z := map (fun i => (Z.of_nat i - Z.of_nat maxn)%Z) (seq 0 (2 * maxn + 1)).
(** The phi bins of the target: min_phi, max_phi (radians), nphi_bins. *)
Record grid := mkG { gmin : R; gmax : R; gnum : nat }.
(** phi_bin_size (line 559) and phi1d (lines 670-672) *)
Definition gsize (g : grid) : R := (gmax g - gmin g) / INR (gnum g).
Definition phi1d (g : grid) (j : nat) : R := INR j * gsize g + (gmin g + 1 / 2 * gsize g).
Definition phis (g : grid) : list nat := seq 0 (gnum g).

(** (self.weight.dot(expiphi)) for one (k2,k3); V: the array as a function of n. *)
Definition dotExp (maxn : nat) (V : Z -> cplx) (phi : R) : cplx :=
  csumL (fun n => V n * cexpi (IZR n * phi))%C (n1d maxn).
(** Line 1999 *)
Definition ftRe (maxn : nat) (g : grid) (V : Z -> cplx) (j : nat) : R :=
  fst (dotExp maxn V (phi1d g j)) / (2 * PI) * gsize g.

(** The row of a LogMultipole object for (k2,k3): weight, ntri, meand2, meanlogd2, meand3, meanlogd3
    (after _finalize the last five do not depend on n). *)
Record mrow := mkM { m_w : Z -> cplx; m_ntri : R; m_d2 : R; m_ld2 : R; m_d3 : R; m_ld3 : R }.
(** A bin of the LogSAS object. *)
Record sbin := mkS { s_w : R; s_ntri : R; s_d1 : R; s_ld1 : R; s_d2 : R; s_ld2 : R; s_d3 : R; s_ld3 : R; s_phi : R }.

(** Lines 2006-2009: ratio *)
Definition sasRatio (maxn : nat) (g : grid) (r : mrow) : R :=
  let phi_frac := (gmax g - gmin g) / (2 * PI) in
  let denom := sumR (ftRe maxn g (m_w r)) (phis g) in
  let denom := if Req_EM_T denom 0 then 1 else denom in
  m_ntri r / denom * phi_frac.
(** Lines 1978-2010; pu: _phi_units *)
Definition toSas (maxn : nat) (g : grid) (pu : R) (r : mrow) (j : nat) : sbin :=
  let w := ftRe maxn g (m_w r) j in
  let phi := phi1d g j in
  let d1 := sqrt (m_d2 r * m_d2 r + m_d3 r * m_d3 r - 2 * m_d2 r * m_d3 r * cos phi) in
  mkS w (w * sasRatio maxn g r) d1 (ln d1) (m_d2 r) (m_ld2 r) (m_d3 r) (m_ld3 r) (phi / pu).
(** Lines 2012-2025: an item of results with the weights W. *)
Definition toSasRes (maxn : nat) (g : grid) (pu : R) (r : mrow) (W : Z -> cplx) (j : nat) : sbin :=
  let s := toSas maxn g pu r j in
  let w := ftRe maxn g W j in
  mkS w (w * sasRatio maxn g r) (s_d1 s * w) (s_ld1 s * w) (s_d2 s * w) (s_ld2 s * w) (s_d3 s * w)
    (s_ld3 s * w) (s_phi s * w).

(** _z1[mask] /= weightr[mask] *)
Definition maskDiv (x w : R) : R := if Req_EM_T w 0 then x else x / w.
(** kkkcorrelation.py:319-326 *)
Definition toSasK (maxn : nat) (g : grid) (r : mrow) (Z : Z -> cplx) (j : nat) : R :=
  maskDiv (ftRe maxn g Z j) (ftRe maxn g (m_w r) j).

(** ** gggcorrelation.py:446-537 *)
Definition ftC (maxn : nat) (g : grid) (V : Z -> cplx) (j : nat) : cplx :=
  cscale (gsize g) (cscale (/ (2 * PI)) (dotExp maxn V (phi1d g j))).
Definition maskDivC (x : cplx) (w : R) : cplx := if Req_EM_T w 0 then x else cscale (/ w) x.
(** Lines 473-479 *)
Definition vS (d2 : R) : cplx := cR d2.
Definition vT (d3 phi : R) : cplx := cscale d3 (cexpi phi).
Definition vU (t : cplx) : cplx := cscale (1 / 2) (c1 + cscale (/ cabs t) t)%C.
(** Lines 496-501: (x conj(q))**2, divided by its absolute value *)
Definition phase (x q : cplx) : cplx :=
  let z := csq (x * cconj q)%C in cscale (/ cabs z) z.
(** Lines 504-507; c = 0..3; meanphi * _phi_units is the phi of the bin *)
Definition gamPhase (c : nat) (d2 d3 phi : R) : cplx :=
  let s := vS d2 in
  let t := vT d3 phi in
  let u := vU t in
  let q1 := cscale (/ 3) (s + t)%C in
  let q2 := (q1 - t)%C in
  let q3 := (q1 - s)%C in
  let cj (k : nat) (z : cplx) := if Nat.eqb c k then cconj z else z in
  (cj 1%nat (phase u q1) * cj 2%nat (phase t q2) * cj 3%nat (phase s q3))%C.
(** gam0 .. gam3, from the arrays of the LogMultipole object *)
Definition toSasG (maxn : nat) (g : grid) (pu : R) (r : mrow) (c : nat) (V : Z -> cplx) (j : nat) : cplx :=
  let s := toSas maxn g pu r j in
  (maskDivC (ftC maxn g V j) (s_w s) * gamPhase c (s_d2 s) (s_d3 s) (s_phi s * pu))%C.
(** An item of results. *)
Definition toSasGRes (maxn : nat) (g : grid) (pu : R) (r : mrow) (c : nat) (V : Z -> cplx) (j : nat) : cplx :=
  let s := toSas maxn g pu r j in
  (ftC maxn g V j * gamPhase c (s_d2 s) (s_d3 s) (s_phi s * pu))%C.
