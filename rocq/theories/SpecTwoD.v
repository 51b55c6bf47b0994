(** Specification for bin_type='TwoD': pixels of the plane of separation vectors. *)
From Coq Require Import Reals List ZArith Bool.
From Verif Require Import Base Geometry Tree Traverse Spec.
Import ListNotations.
Open Scope R_scope.

Definition sepX (o1 o2 : obj) : R := px (opos o2) - px (opos o1).
Definition sepY (o1 o2 : obj) : R := py (opos o2) - py (opos o1).

(** Parameters as completed by the constructor: n x n square pixels covering
    [-max_sep, max_sep] in both directions, numbered row by row. *)
Record valid2D (B : bparams) (n : Z) : Prop := mkv2 {
  v2_type : btype B = BTwoD;
  v2_n : (0 < n)%Z;
  v2_max : 0 < maxsep B;
  v2_size : binsize B * IZR n = 2 * maxsep B;
  v2_nbins : nbins B = (n * n)%Z;
  v2_min : 0 <= minsep B;
  v2_b : 0 <= slop_b B;
  v2_a : 0 <= slop_a B }.

(** (dx,dy) is in pixel (i,j), that is k = j n + i, up to a margin e. *)
Definition inPixel (B : bparams) (n : Z) (k : Z) (e dx dy : R) : Prop :=
  exists i j, (0 <= i < n)%Z /\ (0 <= j < n)%Z /\ k = (j * n + i)%Z /\
    edge B i - e <= dx < edge B (i + 1) + e /\ edge B j - e <= dy < edge B (j + 1) + e.

(** A pair is counted in pixel k: its separation vector is in the pixel, inside the open square, and the
    two objects are not at the same place (nor closer than min_sep). *)
Definition selPixel (B : bparams) (n : Z) (k : Z) (o1 o2 : obj) : bool :=
  let dx := sepX o1 o2 in let dy := sepY o1 o2 in
  let i := (k mod n)%Z in let j := (k / n)%Z in
  (0 <=? k)%Z && (k <? n * n)%Z &&
  Rleb (edge B i) dx && Rltb dx (edge B (i + 1)) && Rleb (edge B j) dy && Rltb dy (edge B (j + 1)) &&
  Rltb (Rabs dx) (maxsep B) && Rltb (Rabs dy) (maxsep B) &&
  Rltb 0 (euclid (opos o1) (opos o2)) && Rleb (minsep B) (euclid (opos o1) (opos o2)).

(** Both orders of every unordered pair of rows. *)
Definition sumBoth (sel : obj -> obj -> bool) (v : obj -> obj -> R) (cat : list obj) : R :=
  sumR (fun oo => (if sel (fst oo) (snd oo) then v (fst oo) (snd oo) else 0) +
                  (if sel (snd oo) (fst oo) then v (snd oo) (fst oo) else 0)) (upairs cat).

Definition flatCat (cat : list obj) : Prop := forall o, In o cat -> pz (opos o) = 0.
(** No separation vector lies on a line of the grid (pairs at the same place excepted). *)
Definition offGrid (B : bparams) (n : Z) (o1 o2 : obj) : Prop :=
  euclid (opos o1) (opos o2) <> 0 ->
  forall i, (0 <= i <= n)%Z -> sepX o1 o2 <> edge B i /\ sepY o1 o2 <> edge B i.
Definition offBorder (B : bparams) (o1 o2 : obj) : Prop :=
  sepX o1 o2 <> - maxsep B /\ sepY o1 o2 <> - maxsep B.
