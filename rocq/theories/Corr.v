(** Model of the python-level correlation object (treecorr/corr2base.py, nncorrelation.py):
    adding, finalizing, summing stored results. *)
From Coq Require Import Reals Lra List ZArith Bool.
From Verif Require Import Base Geometry Tree Traverse.
Import ListNotations.
Open Scope R_scope.

(** The arrays plus tot (tot exists only for NN: nncorrelation.py:108; for the other classes the
    field is unused). *)
Record corr := mkK { kacc : accum; ktot : R }.
Definition kclear : corr := mkK cleared 0.

(** The bin indices of the arrays. *)
Definition bins (B : bparams) : list Z := map Z.of_nat (seq 0 (Z.to_nat (nbins B))).

(** nonzero, corr2base.py:714-718: np.any(self.npairs). *)
Definition anyPairs (B : bparams) (s : accum) : bool :=
  existsb (fun k => negb (Reqb (a_npairs s k) 0)) (bins B).

(** __iadd__, corr2base.py:1202-1227 (the part after the compatibility checks) and
    nncorrelation.py:220-230.  The checks raise TypeError/ValueError when the class, nbins,
    min_sep or max_sep differ; objects with equal binning pass them. *)
Definition kadd (B : bparams) (s t : corr) : corr :=
  mkK (if anyPairs B (kacc t) then accAdd (kacc s) (kacc t) else kacc s) (ktot s + ktot t).

(** NNCorrelation._sum, nncorrelation.py:232-248.  (_nonzero is the cached value of nonzero.) *)
Definition accSum (l : list accum) : accum :=
  mkacc (fun k => sumR (fun s => a_npairs s k) l) (fun k => sumR (fun s => a_weight s k) l)
        (fun k => sumR (fun s => a_meanr s k) l) (fun k => sumR (fun s => a_meanlogr s k) l)
        (fun k => sumR (fun s => a_xi_nk s k) l) (fun k => sumR (fun s => a_xi_kk s k) l).
Definition ksum (B : bparams) (l : list corr) : corr :=
  let tot := sumR ktot l in
  let others := filter (fun c => anyPairs B (kacc c)) l in
  match others with
  | [] => mkK cleared tot
  | _ => mkK (accSum (map kacc others)) tot
  end.

(** Nominal bin centres, corr2base.py:374-398 (Log) and 402-424 (Linear).  linspace(0, n*b, n,
    endpoint=False)[k] = k*b. *)
Definition logrOf (B : bparams) (k : Z) : R :=
  match btype B with
  | BLog => IZR k * binsize B + (ln (minsep B) + 1/2 * binsize B)
  | _ => ln (minsep B + IZR k * ((maxsep B - minsep B) / IZR (nbins B)) + 1/2 * binsize B)
  end.
Definition rnomOf (B : bparams) (k : Z) : R :=
  match btype B with
  | BLog => exp (logrOf B k)
  | _ => minsep B + IZR k * ((maxsep B - minsep B) / IZR (nbins B)) + 1/2 * binsize B
  end.
Definition leftEdge (B : bparams) (k : Z) : R :=
  match btype B with BLog => rnomOf B k / exp (1/2 * binsize B) | _ => rnomOf B k - 1/2 * binsize B end.
Definition rightEdge (B : bparams) (k : Z) : R :=
  match btype B with BLog => rnomOf B k * exp (1/2 * binsize B) | _ => rnomOf B k + 1/2 * binsize B end.

(** _finalize, corr2base.py:1167-1187, for flat or 3d coordinates without sep_units
    (_apply_units, 1400-1407, is then the identity). *)
Definition finalMeanr (B : bparams) (s : accum) (k : Z) : R :=
  if Req_EM_T (a_weight s k) 0 then rnomOf B k else a_meanr s k / a_weight s k.
Definition finalMeanlogr (B : bparams) (s : accum) (k : Z) : R :=
  if Req_EM_T (a_weight s k) 0 then logrOf B k else a_meanlogr s k / a_weight s k.
Definition finalXi (x : Z -> R) (s : accum) (k : Z) : R :=
  if Req_EM_T (a_weight s k) 0 then x k else x k / a_weight s k.

(** ** NN.calculateXi, nncorrelation.py:286-439 (the estimate; the error estimate is not
    modelled).  None models the ValueError for tot=0. *)
Definition calculateXi (dd : corr) (rr : corr) (dr rd : option corr) : option (Z -> R) :=
  let bad o := match o with Some c => Reqb (ktot c) 0 | None => false end in
  if Reqb (ktot rr) 0 || bad dr || bad rd then None else
  let f (c : corr) := ktot dd / ktot c in
  let w (c : corr) := a_weight (kacc c) in
  Some (fun k =>
    let denom := w rr k * f rr in
    let num :=
      match dr, rd with
      | None, None => w dd k - denom
      | None, Some rd => w dd k - 2 * w rd k * f rd + denom
      | Some dr, None => w dd k - 2 * w dr k * f dr + denom
      | Some dr, Some rd => w dd k - w dr k * f dr - w rd k * f rd + denom
      end in
    num / (if Req_EM_T (w rr k) 0 then 1 else denom)).
