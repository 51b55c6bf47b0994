(** Specification of what a run must add to the arrays, in terms of the catalogs only. *)
From Coq Require Import Reals List ZArith Bool.
From Verif Require Import Base Geometry Tree Traverse Spec.
Import ListNotations.
Open Scope R_scope.

(** Bin k of every array grew by the brute-force sum over all pairs (o1 of cat1, o2 of cat2)
    selected by [sel]: number of pairs, sum of w1*w2, sum of w1*(w2*k2) (NK), sum of
    (w1*k1)*(w2*k2) (KK). *)
Definition addsCross (sel : obj -> obj -> bool) (cat1 cat2 : list obj) (s0 s1 : accum) (k : Z) : Prop :=
  a_npairs s1 k = a_npairs s0 k + sumPairs sel v_one cat1 cat2 /\
  a_weight s1 k = a_weight s0 k + sumPairs sel v_ww cat1 cat2 /\
  a_xi_nk s1 k = a_xi_nk s0 k + sumPairs sel v_nk cat1 cat2 /\
  a_xi_kk s1 k = a_xi_kk s0 k + sumPairs sel v_kk cat1 cat2.

(** The same for an auto-correlation: each unordered pair of rows once (NK has no auto). *)
Definition addsAuto (sel : obj -> obj -> bool) (cat : list obj) (s0 s1 : accum) (k : Z) : Prop :=
  a_npairs s1 k = a_npairs s0 k + sumUPairs sel v_one cat /\
  a_weight s1 k = a_weight s0 k + sumUPairs sel v_ww cat /\
  a_xi_kk s1 k = a_xi_kk s0 k + sumUPairs sel v_kk cat.

(** meanr and meanlogr (before normalisation): sums of w1*w2*d and w1*w2*log d. *)
Definition addsMeanCross (d : pos -> pos -> R) (sel : obj -> obj -> bool) (cat1 cat2 : list obj)
    (s0 s1 : accum) (k : Z) : Prop :=
  a_meanr s1 k = a_meanr s0 k +
    sumPairs sel (fun o1 o2 => v_ww o1 o2 * d (opos o1) (opos o2)) cat1 cat2 /\
  a_meanlogr s1 k = a_meanlogr s0 k +
    sumPairs sel (fun o1 o2 => v_ww o1 o2 * ln (d (opos o1) (opos o2))) cat1 cat2.
Definition addsMeanAuto (d : pos -> pos -> R) (sel : obj -> obj -> bool) (cat : list obj)
    (s0 s1 : accum) (k : Z) : Prop :=
  a_meanr s1 k = a_meanr s0 k +
    sumUPairs sel (fun o1 o2 => v_ww o1 o2 * d (opos o1) (opos o2)) cat /\
  a_meanlogr s1 k = a_meanlogr s0 k +
    sumUPairs sel (fun o1 o2 => v_ww o1 o2 * ln (d (opos o1) (opos o2))) cat.

(** A pair is counted in bin k when its separation d is in bin k. *)
Definition selBin (B : bparams) (d : pos -> pos -> R) (k : Z) (o1 o2 : obj) : bool :=
  inBinb B k (d (opos o1) (opos o2)).

(** Periodic separation: the smallest distance between p and an image of q. *)
Definition image (xp yp zp : R) (i j k : Z) (q : pos) : pos :=
  mkpos (px q + IZR i * xp) (py q + IZR j * yp) (pz q + IZR k * zp).
Definition isPeriodicSep (xp yp zp : R) (p q : pos) (d : R) : Prop :=
  (exists i j k, d = euclid p (image xp yp zp i j k q)) /\
  (forall i j k, d <= euclid p (image xp yp zp i j k q)).

(** Rlens separation: the distance of the lens p1 from the line of sight to the source p2
    (the line through the observer at the origin and p2). *)
Definition isRlensSep (p1 p2 : pos) (d : R) : Prop :=
  (exists t, d = euclid p1 (pscale t p2)) /\ (forall t, d <= euclid p1 (pscale t p2)).

Definition posW (cat : list obj) : Prop := forall o, In o cat -> 0 < ow o.
Definition nonnegW (cat : list obj) : Prop := forall o, In o cat -> 0 <= ow o.
(** No pair has a separation exactly equal to the upper edge of a bin (needed for Linear binning
    only; see C01_linear_edge_refuted). *)
Definition offEdges (B : bparams) (d : pos -> pos -> R) (cat1 cat2 : list obj) : Prop :=
  btype B = BLinear ->
  forall o1 o2 j, (1 <= j <= nbins B)%Z -> In o1 cat1 -> In o2 cat2 -> d (opos o1) (opos o2) <> edge B j.
(** No pair has a separation exactly equal to min_sep (needed for auto-correlations only). *)
Definition offMinSep (B : bparams) (d : pos -> pos -> R) (cat : list obj) : Prop :=
  forall o1 o2, In (o1, o2) (upairs cat) -> d (opos o1) (opos o2) <> minsep B.

(** Accounting of a run.  [counted] lists every pair of objects that was accumulated together with
    the bin it was put in, [dropped] the pairs that were rejected; together they are exactly the
    list [l] of all pairs (with multiplicity), and the arrays grew by exactly the counted pairs.
    [Cnt] and [Drp] are conditions on the counted and on the dropped pairs. *)
Definition inBinSum (v : obj -> obj -> R) (k : Z) (counted : list (obj * obj * Z)) : R :=
  sumR (fun c => if (k =? snd c)%Z then v (fst (fst c)) (snd (fst c)) else 0) counted.
Definition accounts (l : list (obj * obj)) (Cnt : obj -> obj -> Z -> Prop) (Drp : obj -> obj -> Prop)
    (s0 s1 : accum) : Prop :=
  exists counted dropped,
    Permutation.Permutation l (map fst counted ++ dropped) /\
    (forall o1 o2 k, In (o1, o2, k) counted -> Cnt o1 o2 k) /\
    (forall o1 o2, In (o1, o2) dropped -> Drp o1 o2) /\
    forall k,
      a_npairs s1 k = a_npairs s0 k + inBinSum v_one k counted /\
      a_weight s1 k = a_weight s0 k + inBinSum v_ww k counted /\
      a_xi_nk s1 k = a_xi_nk s0 k + inBinSum v_nk k counted /\
      a_xi_kk s1 k = a_xi_kk s0 k + inBinSum v_kk k counted.
(** For an auto-correlation the pairs are the unordered pairs of rows; which member of a pair
    comes first is not specified (the catalog may be re-ordered). *)
Definition accountsAuto (cat : list obj) (Cnt : obj -> obj -> Z -> Prop) (Drp : obj -> obj -> Prop)
    (s0 s1 : accum) : Prop :=
  exists cat', Permutation.Permutation cat' cat /\ accounts (upairs cat') Cnt Drp s0 s1.

(** A counted pair lies within the slop (plus [e]) of the edges of its bin; a dropped pair lies
    outside of the range, or inside by less than the slop (plus [e]). *)
Definition cntSlop (B : bparams) (d : pos -> pos -> R) (e : R) (o1 o2 : obj) (k : Z) : Prop :=
  (0 <= k < nbins B)%Z /\
  slopLo B (edge B k) - e <= d (opos o1) (opos o2) <= slopHi B (edge B (k + 1)) + e.
Definition drpSlop (B : bparams) (d : pos -> pos -> R) (e : R) (o1 o2 : obj) : Prop :=
  d (opos o1) (opos o2) <= slopHi B (minsep B) + e \/
  slopLo B (maxsep B) - e <= d (opos o1) (opos o2).


(** The additional slack due to grouping objects closer than min_size (Euclidean metric). *)
Definition groupSlack (B : bparams) : R :=
  match btype B with BLog => slop_b B * minsep B | _ => slop_b B end.
