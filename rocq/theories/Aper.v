(** Model of the aperture statistics computed from a correlation function:
    treecorr/ggcorrelation.py calculateMapSq, calculateGamSq; treecorr/ngcorrelation.py
    calculateNMap; treecorr/nncorrelation.py calculateNapSq.

    The matrix products over the bins are sums over the list of bin numbers; the loop over the
    array R is left out: each function is for one value R of that array.  Logging and the writing
    of the columns (writeMapSq etc.) are not modelled. *)
From Coq Require Import Reals Lra List ZArith.
From Verif Require Import Base Spin.
Import ListNotations.
Open Scope R_scope.

(** m2_uform; another string raises ValueError (ggcorrelation.py:188-191). *)
Inductive uform := Crittenden | Schneider.

(** ** The kernels, as functions of s = meanr / R *)

(** Tp, ggcorrelation.py:199-211 (before the factor ssq); nncorrelation.py:782-792 is the same code. *)
Definition kTp (u : uform) (s : R) : R :=
  let ssq := s * s in
  match u with
  | Crittenden => (32 + ssq * (-16 + ssq)) / 128 * exp (- ssq / 4)
  | Schneider =>
      if Rlt_dec s 2 then
        12 / (5 * PI) * (2 - 15 * ssq) * acos (s / 2) +
        1 / (100 * PI) * s * sqrt (4 - ssq) *
          (120 + ssq * (2320 + ssq * (-754 + ssq * (132 - 9 * ssq))))
      else 0
  end.
(** Tm, ggcorrelation.py:203, 212 *)
Definition kTm (u : uform) (s : R) : R :=
  let ssq := s * s in
  match u with
  | Crittenden => ssq * ssq / 128 * exp (- ssq / 4)
  | Schneider =>
      if Rlt_dec s 2 then 3 / (70 * PI) * s * ssq * Rpower (4 - ssq) (7 / 2) else 0
  end.
(** Tx, ngcorrelation.py:257-267 *)
Definition kTx (u : uform) (s : R) : R :=
  let ssq := s * s in
  match u with
  | Crittenden => ssq * (12 - ssq) / 128 * exp (- ssq / 4)
  | Schneider =>
      if Rlt_dec s 2 then
        (196 + ssq * (-74 + ssq * (14 - ssq))) * (-3 / (40 * PI) * s * ssq * sqrt (4 - s * s)) +
        18 / PI * ssq * acos (s / 2)
      else 0
  end.
(** Sp and Sm, ggcorrelation.py:284-289, 300-303; both contain the factor ssq. *)
Definition kSp (s : R) : R :=
  let ssq := s * s in
  if Rlt_dec s 2 then 1 / PI * ssq * (4 * acos (s / 2) - s * sqrt (4 - ssq)) else 0.
Definition kSm (s : R) : R :=
  let ssq := s * s in
  if Rlt_dec s 2 then
    1 / (ssq * PI) * (s * sqrt (4 - ssq) * (6 - ssq) - 8 * (3 - ssq) * asin (s / 2))
  else 4 * (ssq - 3) / ssq.

(** ** The arrays the functions use *)
Record ggres := mkGG {
  gg_bins : list Z; gg_bs : R; gg_meanr : Z -> R;
  gg_xip : Z -> R; gg_xipi : Z -> R; gg_xim : Z -> R; gg_ximi : Z -> R;
  gg_varp : Z -> R; gg_varm : Z -> R }.
(** M.dot(x), for one row *)
Definition dotA (bins : list Z) (row x : Z -> R) : R := sumR (fun k => row k * x k) bins.

Record mapres := mkMap { m_map : R; m_mapi : R; m_mx : R; m_mxi : R; m_var : R }.
(** calculateMapSq, ggcorrelation.py:192-232 (bin_type = 'Log'; others raise ValueError) *)
Definition calculateMapSq (u : uform) (g : ggres) (Rap : R) : mapres :=
  let s k := (1 / Rap) * gg_meanr g k in
  let Tp k := kTp u (s k) * (s k * s k) in
  let Tm k := kTm u (s k) * (s k * s k) in
  let d := dotA (gg_bins g) in
  let Tpxip := d Tp (gg_xip g) in
  let Tmxim := d Tm (gg_xim g) in
  let Tpxipi := d Tp (gg_xipi g) in
  let Tmximi := d Tm (gg_ximi g) in
  let var := d (fun k => Tp k ^ 2) (gg_varp g) + d (fun k => Tm k ^ 2) (gg_varm g) in
  mkMap ((Tpxip + Tmxim) * (1 / 2) * gg_bs g) ((Tpxipi + Tmximi) * (1 / 2) * gg_bs g)
        ((Tpxip - Tmxim) * (1 / 2) * gg_bs g) ((Tpxipi - Tmximi) * (1 / 2) * gg_bs g)
        (var * (1 / 4 * gg_bs g ^ 2)).

Record gamres := mkGam { g_sq : R; g_var : R; g_e : R; g_b : R; g_vare : R }.
(** calculateGamSq with eb=True, ggcorrelation.py:279-312 *)
Definition calculateGamSq (g : ggres) (Rap : R) : gamres :=
  let s k := (1 / Rap) * gg_meanr g k in
  let Sp k := kSp (s k) in
  let Sm k := kSm (s k) in
  let d := dotA (gg_bins g) in
  let Spxip := d Sp (gg_xip g) in
  let Smxim := d Sm (gg_xim g) in
  mkGam (Spxip * gg_bs g) (d (fun k => Sp k ^ 2) (gg_varp g) * gg_bs g ^ 2)
        ((Spxip + Smxim) * (1 / 2) * gg_bs g) ((Spxip - Smxim) * (1 / 2) * gg_bs g)
        ((d (fun k => Sp k ^ 2) (gg_varp g) + d (fun k => Sm k ^ 2) (gg_varm g)) * (1 / 4 * gg_bs g ^ 2)).

(** calculateNMap, ngcorrelation.py:252-283: xi, xi_im, varxi are the results of calculateXi *)
Definition calculateNMap (u : uform) (bins : list Z) (bs : R) (meanr xi xi_im varxi : Z -> R) (Rap : R)
  : R * R * R :=
  let s k := (1 / Rap) * meanr k in
  let Tx k := kTx u (s k) * (s k * s k) in
  (dotA bins Tx xi * bs, dotA bins Tx xi_im * bs, dotA bins (fun k => Tx k ^ 2) varxi * bs ^ 2).
(** calculateNapSq, nncorrelation.py:777-803 *)
Definition calculateNapSq (u : uform) (bins : list Z) (bs : R) (meanr xi varxi : Z -> R) (Rap : R) : R * R :=
  let s k := (1 / Rap) * meanr k in
  let Tp k := kTp u (s k) * (s k * s k) in
  (dotA bins Tp xi * bs, dotA bins (fun k => Tp k ^ 2) varxi * bs ^ 2).

(** ** From the sums: BaseZZCorrelation.finalize, zzcorrelation.py:98-110, corr2base.py:1172-1187:
    meanr and the four arrays divided by the weight where it is not 0. *)
Definition finGG (bins : list Z) (bs : R) (rnom w sumr : Z -> R) (a : saccum) (varp varm : Z -> R) : ggres :=
  let over x k := if Req_EM_T (w k) 0 then x k else x k / w k in
  mkGG bins bs (fun k => if Req_EM_T (w k) 0 then rnom k else sumr k / w k)
    (over (a SPre)) (over (a SPim)) (over (a SMre)) (over (a SMim)) varp varm.
