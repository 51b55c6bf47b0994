(** Model of the shot-noise variances: Corr2.process (treecorr/corr2base.py:1130-1190), finalize of the
    classes with scalar and complex fields, _cov_shot (corr2base.py:2079-2094), the properties varxi,
    KKKCorrelation.finalize (treecorr/kkkcorrelation.py:246-271) and the numbers NNCorrelation.calculateXi sets for it (treecorr/nncorrelation.py:262-264, 325-391).
    Simplifications: exact real numbers; one bin at a time, except for _mean_weight. *)
From Coq Require Import Reals List ZArith Bool.
From Verif Require Import Base Tree Traverse Catalog Corr3.
Import ListNotations.
Open Scope R_scope.

(** _finalize, corr2base.py:1167-1176: the sums are divided by the weight unless it is 0. *)
Definition divW (w x : R) : R := if Req_EM_T w 0 then x else x / w.
(** _cov_shot, corr2base.py:2088-2092: getWeight, with the entries other than 0 replaced by _var_num / w. *)
Definition covShot (num w : R) : R := if Req_EM_T w 0 then w else num / w.
(** varxi (kkcorrelation.py:158-164 and the like): 0 if _var_num is 0. *)
Definition varxiOf (num w : R) : R := if Req_EM_T num 0 then 0 else covShot num w.
(** _var_num: kkcorrelation.py:156, nkcorrelation.py:151 (nzcorrelation.py:70), zzcorrelation.py:110,
    kzcorrelation.py:56. *)
Definition numKK (vark1 vark2 : R) : R := vark1 * vark2.
Definition numNK (vark : R) : R := vark.
Definition numZZ (varz1 varz2 : R) : R := 2 * varz1 * varz2.
Definition numKZ (vark varz : R) : R := vark * varz.

(** The columns w, k of a catalog for calculateVarK; [t] is nontrivial_w. *)
Definition kcat (t : bool) (cat : list obj) : vcat := mkv t (map (fun o => (ow o, okappa o)) cat).
(** process: varK of the catalogs (the option vark of the Catalog, catalog.py:1027-1030, if given). *)
Definition varK (opt : option R) (t : bool) (cat : list obj) : R :=
  match opt with Some v => v | None => calculateVar [kcat t cat] end.
(** (xi, varxi) in bin k after process. *)
Definition resKK (v1 v2 : R) (s : accum) (k : Z) : R * R :=
  (divW (a_weight s k) (a_xi_kk s k), varxiOf (numKK v1 v2) (a_weight s k)).
Definition resNK (v : R) (s : accum) (k : Z) : R * R :=
  (divW (a_weight s k) (a_xi_nk s k), varxiOf (numNK v) (a_weight s k)).

(** KKKCorrelation.finalize, kkkcorrelation.py:255-269: the factor 2 for LogSAS and LogMultipole; (zeta, varzeta). *)
Definition numKKK (sas : bool) (vark1 vark2 vark3 : R) : R :=
  if sas then 2 * (vark1 * vark2 * vark3) else vark1 * vark2 * vark3.
Definition resKKK (sas : bool) (v1 v2 v3 : R) (s : accum3) (k : Z) : R * R :=
  (divW (s TWeight k) (s TZeta k), varxiOf (numKKK sas v1 v2 v3) (s TWeight k)).

(** ** NN: an object has tot and, for each bin, (npairs, weight). *)
Record nnc := mkNNC { n_tot : R; n_bins : list (R * R) }.
Definition avg (f : R * R -> R) (l : list (R * R)) : R := sumR f l / INR (length l).
(** _mean_weight, nncorrelation.py:262-264. *)
Definition meanWeight (c : nnc) : R :=
  if Req_EM_T (avg fst (n_bins c)) 0 then 1 else avg snd (n_bins c) / avg fst (n_bins c).
(** calculateXi, nncorrelation.py:325-391: _var_num and _rr_weight of a bin with RR weight w; None: ValueError. *)
Definition nnShot (dd rr : nnc) (dr rd : option nnc) (w : R) : option (R * R) :=
  if Req_EM_T (n_tot rr) 0 then None
  else
    let f c := n_tot dd / n_tot c in
    let term c := f c * meanWeight c / meanWeight dd in
    let fac := match dr, rd with
      | None, None => Some (1 + term rr)
      | None, Some d => if Req_EM_T (n_tot d) 0 then None else Some (1 + 2 * f d * meanWeight d / meanWeight dd + term rr)
      | Some d, None => if Req_EM_T (n_tot d) 0 then None else Some (1 + 2 * f d * meanWeight d / meanWeight dd + term rr)
      | Some d, Some e => if Req_EM_T (n_tot d) 0 then None else if Req_EM_T (n_tot e) 0 then None else
                          Some (1 + term d + term e + term rr)
      end in
    match fac with
    | None => None
    | Some x => Some (meanWeight dd * (x * x), w * f rr)
    end.
Definition varxiNN (dd rr : nnc) (dr rd : option nnc) (w : R) : option R :=
  match nnShot dd rr dr rd w with None => None | Some (num, rw) => Some (covShot num rw) end.
