(** Model of the values in the file of NGCorrelation.writeNorm, ngcorrelation.py:382-408, at one radius R.
    The aperture statistics nmap, nmx, nsq, mapsq and their variances (Aper.v) are arguments.
    A column with a division by 0 (inf or nan in numpy) is None. *)
From Coq Require Import Reals List.
Import ListNotations.
Open Scope R_scope.

Record ap := mkAp { a_nmap : R; a_nmx : R; a_vnmap : R; a_nsq : R; a_vnsq : R; a_mapsq : R; a_vmapsq : R }.
Definition odiv (a b : R) : option R := if Req_EM_T b 0 then None else Some (a / b).
Definition obin (f : R -> R -> R) (x y : option R) : option R :=
  match x, y with Some a, Some b => Some (f a b) | _, _ => None end.
(** 389-392 *)
Definition nmnorm (a : ap) : option R := odiv (a_nmap a ^ 2) (a_nsq a * a_mapsq a).
Definition varnmnorm (a : ap) : option R :=
  obin Rmult (option_map (fun x => x ^ 2) (nmnorm a))
    (obin Rplus (obin Rplus (odiv (4 * a_vnmap a) (a_nmap a ^ 2)) (odiv (a_vnsq a) (a_nsq a ^ 2)))
       (odiv (a_vmapsq a) (a_mapsq a ^ 2))).
Definition nnnorm (a : ap) : option R := odiv (a_nsq a) (a_mapsq a).
Definition varnnnorm (a : ap) : option R :=
  obin Rmult (option_map (fun x => x ^ 2) (nnnorm a))
    (obin Rplus (odiv (a_vnsq a) (a_nsq a ^ 2)) (odiv (a_vmapsq a) (a_mapsq a ^ 2))).
(** 400-404: R, NMap, NMx, sig_nmap, Napsq, sig_napsq, Mapsq, sig_mapsq, NMap_norm, sig_norm, Nsq_Mapsq, sig_nn_mm *)
Definition normRow (r : R) (a : ap) : list (option R) :=
  [Some r; Some (a_nmap a); Some (a_nmx a); Some (sqrt (a_vnmap a)); Some (a_nsq a); Some (sqrt (a_vnsq a));
   Some (a_mapsq a); Some (sqrt (a_vmapsq a)); nmnorm a; option_map sqrt (varnmnorm a); nnnorm a; option_map sqrt (varnnnorm a)].
