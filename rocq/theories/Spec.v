(** Specifications, written without reference to the tree code: bins, brute-force sums. *)
From Coq Require Import Reals Lra List ZArith Bool.
From Verif Require Import Base Geometry Tree.
Import ListNotations.
Open Scope R_scope.

(** Ordinary distance in space, written out. *)
Definition euclid (p q : pos) : R :=
  sqrt ((px p - px q) ^ 2 + (py p - py q) ^ 2 + (pz p - pz q) ^ 2).

(** Bin edges.  Log: edges are geometric; Linear: arithmetic. (TwoD is specified by pixels.) *)
Definition edge (B : bparams) (k : Z) : R :=
  match btype B with
  | BLog => minsep B * exp (IZR k * binsize B)
  | BLinear => minsep B + IZR k * binsize B
  | BTwoD => - maxsep B + IZR k * binsize B
  end.

(** Separation d is in bin k: the bins 0..nbins-1 are half-open intervals. *)
Definition inBin (B : bparams) (k : Z) (d : R) : Prop :=
  (0 <= k < nbins B)%Z /\ edge B k <= d < edge B (k + 1).
Definition inBinb (B : bparams) (k : Z) (d : R) : bool :=
  (0 <=? k)%Z && (k <? nbins B)%Z && Rleb (edge B k) d && Rltb d (edge B (k + 1)).

(** Parameters as completed by the python constructor (C26): positive bin size, at least one
    bin, max_sep the last edge, non-negative slops. *)
Record validB (B : bparams) : Prop := mkvB {
  vb_not2d : btype B <> BTwoD;
  vb_binsize : 0 < binsize B;
  vb_nbins : (0 < nbins B)%Z;
  vb_minsep : match btype B with BLog => 0 < minsep B | _ => 0 <= minsep B end;
  vb_maxsep : maxsep B = edge B (nbins B);
  vb_b : 0 <= slop_b B;
  vb_a : 0 <= slop_a B }.

(** Log binning only: a cell pair never has (s1+s2)/r above 0.54 when it is dropped into a bin
    by the look-ahead test.  True for angle_slop <= 0.54 or bin_size*(1+bin_slop) <= 1.08;
    it is needed, see C01_log_wide_bins_refuted. *)
Definition narrowLog (B : bparams) : Prop :=
  btype B = BLog -> slop_a B <= 54/100 \/ binsize B + slop_b B <= 108/100.

(** Brute-force sum over ordered pairs of two catalogs. *)
Definition sumPairs (sel : obj -> obj -> bool) (v : obj -> obj -> R) (cat1 cat2 : list obj) : R :=
  sumR (fun oo => if sel (fst oo) (snd oo) then v (fst oo) (snd oo) else 0) (pairs cat1 cat2).
(** Brute-force sum over unordered pairs of different rows of one catalog. *)
Definition sumUPairs (sel : obj -> obj -> bool) (v : obj -> obj -> R) (cat : list obj) : R :=
  sumR (fun oo => if sel (fst oo) (snd oo) then v (fst oo) (snd oo) else 0) (upairs cat).

(** The values that are summed. *)
Definition v_one (o1 o2 : obj) : R := 1.
Definition v_ww (o1 o2 : obj) : R := ow o1 * ow o2.
Definition v_nk (o1 o2 : obj) : R := ow o1 * (ow o2 * okappa o2).
Definition v_kk (o1 o2 : obj) : R := (ow o1 * okappa o1) * (ow o2 * okappa o2).

(** Slop around an edge t: multiplicative for Log, additive for Linear, with b =
    bin_slop*bin_size. *)
Definition slopLo (B : bparams) (t : R) : R :=
  match btype B with BLog => t * (1 - slop_b B) | _ => t - slop_b B end.
Definition slopHi (B : bparams) (t : R) : R :=
  match btype B with BLog => t * exp (slop_b B) | _ => t + slop_b B end.
