(** Model of Corr3._finalize and Corr3._apply_units (treecorr/corr3base.py:1810-1874, 2194-2230). *)
From Coq Require Import Reals List ZArith Bool.
From Verif Require Import Base.
Import ListNotations.
Open Scope R_scope.

Inductive btype3 := LogRUV | LogSAS | LogMultipole.
(** The entries of one bin: before _finalize the sums, after it the means.  [f_z]: _z1 .. _z8 (those
    that exist); [f_u] is meanu, also called meanphi for LogSAS; LogSAS and LogMultipole do not use
    [f_v]. *)
Record fbin := mkF {
  f_ntri : R; f_w : R; f_wi : R; f_z : list R;
  f_d1 : R; f_ld1 : R; f_d2 : R; f_ld2 : R; f_d3 : R; f_ld3 : R; f_u : R; f_v : R }.
(** The nominal values of a bin (corr3base.py:636-702): LogRUV uses rnom and logr as [n_d2] and
    [n_ld2], and u, v; LogSAS d2nom, d3nom, logd2, logd3, phi (in radians); LogMultipole the first
    four of these. *)
Record nom3 := mkN { n_d2 : R; n_ld2 : R; n_d3 : R; n_ld3 : R; n_u : R; n_v : R }.
(** coords = 'spherical' and metric = 'Euclidean'; _sep_units; _phi_units *)
Record fcfg := mkFc { sphEuc : bool; sepU : R; phiU : R }.

Definition isRUV (b : btype3) : bool := match b with LogRUV => true | _ => false end.
Definition isSAS (b : btype3) : bool := match b with LogSAS => true | _ => false end.
Definition isMul (b : btype3) : bool := match b with LogMultipole => true | _ => false end.

(** Lines 1814-1834: the divisions by weightr. *)
Definition divW (b : btype3) (s : fbin) : fbin :=
  let w := f_w s in
  let nm := negb (isMul b) in
  let on (c : bool) (x : R) := if c then x / w else x in
  mkF (f_ntri s) w (f_wi s) (if nm then map (fun z => z / w) (f_z s) else f_z s)
    (on nm (f_d1 s)) (on nm (f_ld1 s)) (f_d2 s / w) (f_ld2 s / w) (f_d3 s / w) (f_ld3 s / w)
    (on nm (f_u s)) (on (isRUV b) (f_v s)).

(** 2 arcsin(L/2), and its logarithm from the logarithm of L (lines 2213-2220). *)
Definition chordArc (x : R) : R := 2 * asin (x / 2).
Definition chordArcLog (x : R) : R := ln (2 * asin (exp x / 2)).
(** Lines 2204-2210.  The arguments are the mean values before the conversion of the distances. *)
Definition fixPhi (phi d2 d3 : R) : R :=
  let c := (cos phi - 1 / 4 * d2 * d3) / sqrt ((1 - d2 * d2 / 4) * (1 - d3 * d3 / 4)) in
  let c := if Rlt_dec c (-1) then -1 else c in
  let c := if Rlt_dec 1 c then 1 else c in
  acos c.
(** _apply_units: 2194-2230 *)
Definition applyUnits (b : btype3) (c : fcfg) (s : fbin) : fbin :=
  let s :=
    if sphEuc c then
      mkF (f_ntri s) (f_w s) (f_wi s) (f_z s)
        (if isMul b then f_d1 s else chordArc (f_d1 s))
        (if isMul b then f_ld1 s else chordArcLog (f_ld1 s))
        (chordArc (f_d2 s)) (chordArcLog (f_ld2 s)) (chordArc (f_d3 s)) (chordArcLog (f_ld3 s))
        (if isSAS b then fixPhi (f_u s) (f_d2 s) (f_d3 s) else f_u s) (f_v s)
    else s in
  let lu := ln (sepU c) in
  mkF (f_ntri s) (f_w s) (f_wi s) (f_z s)
    (if isMul b then f_d1 s else f_d1 s / sepU c) (if isMul b then f_ld1 s else f_ld1 s - lu)
    (f_d2 s / sepU c) (f_ld2 s - lu) (f_d3 s / sepU c) (f_ld3 s - lu)
    (if isSAS b then f_u s / phiU c else f_u s) (f_v s).
(** Lines 1840-1863: bins with weightr == 0. *)
Definition nominal (b : btype3) (n : nom3) (s : fbin) : fbin :=
  match b with
  | LogRUV =>
      let d2 := n_d2 n in
      let d3 := n_u n * d2 in
      let d1 := Rabs (n_v n) * d3 + d2 in
      mkF (f_ntri s) (f_w s) (f_wi s) (f_z s) d1 (ln d1) d2 (n_ld2 n) d3 (ln d3) (n_u n) (n_v n)
  | LogSAS =>
      let d1 := sqrt (n_d2 n * n_d2 n + n_d3 n * n_d3 n - 2 * n_d2 n * n_d3 n * cos (n_u n)) in
      mkF (f_ntri s) (f_w s) (f_wi s) (f_z s) d1 (ln d1) (n_d2 n) (n_ld2 n) (n_d3 n) (n_ld3 n)
        (n_u n) (f_v s)
  | LogMultipole =>
      mkF (f_ntri s) (f_w s) (f_wi s) (f_z s) 0 0 (n_d2 n) (n_ld2 n) (n_d3 n) (n_ld3 n) 0 (f_v s)
  end.
(** _finalize for one bin, lines 1810-1863. *)
Definition finalizeBin (b : btype3) (c : fcfg) (n : nom3) (s : fbin) : fbin :=
  if Req_EM_T (f_w s) 0 then nominal b n s else applyUnits b c (divW b s).

(** Lines 1865-1874, for one pair (k2,k3): index n = -max_n .. max_n. *)
Definition finalizeMul (c : fcfg) (nm : nom3) (row : Z -> fbin) : Z -> fbin :=
  let r := fun n => finalizeBin LogMultipole c nm (row n) in
  let m := r 0%Z in
  fun n => let s := r n in
    mkF (f_ntri m) (f_w s) (f_wi s) (f_z s) (f_d1 s) (f_ld1 s) (f_d2 m) (f_ld2 m) (f_d3 m) (f_ld3 m)
      (f_u s) (f_v s).
