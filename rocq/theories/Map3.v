(** Model of the aperture mass skewness: treecorr/gggcorrelation.py _calculateT, calculateMap3.

    The arrays over the bins (ravel()ed) are functions of the place, the matrix products over the
    bins sums over the list of places; the loop over the array R is left out: the function is for one
    value R of that array.  Logging and writeMap3 are not modelled. *)
From Coq Require Import Reals Lra List ZArith.
From Verif Require Import Base Spin Cplx Corr3.
Import ListNotations.
Open Scope R_scope.

Record tvals := mkT { T0 : cplx; T1 : cplx; T2 : cplx; T3 : cplx }.

(** _calculateT, the branch k1 = k2 = k3 = 1, gggcorrelation.py:720-742 *)
Definition calcTone (q1 q2 q3 : cplx) (a1 a2 a3 : R) (b1 b2 b3 : cplx) : tvals :=
  let a123 := a1 * a2 * a3 in
  let expfactor := - exp (- (a1 + a2 + a3) / 2) in
  mkT (cR (expfactor * a123 / 24))
    (cR expfactor * (cR (a123 / 24) - b1 / IZC 9 + (csq b1 + cR (2 * a2 * a3) * b1) / cR (a123 * 27)))%C
    (cR expfactor * (cR (a123 / 24) - b2 / IZC 9 + (csq b2 + cR (2 * a1 * a3) * b2) / cR (a123 * 27)))%C
    (cR expfactor * (cR (a123 / 24) - b3 / IZC 9 + (csq b3 + cR (2 * a1 * a2) * b3) / cR (a123 * 27)))%C.
(** the other branch, 744-794 *)
Definition calcTgen (q1 q2 q3 : cplx) (a1 a2 a3 : R) (b1 b2 b3 : cplx) (k1 k2 k3 : R) : tvals :=
  let a123 := a1 * a2 * a3 in
  let Theta2 := sqrt ((k1 * k1 * (k2 * k2) + k1 * k1 * (k3 * k3) + k2 * k2 * (k3 * k3)) / 3) in
  let k1sq := k1 * k1 / Theta2 in
  let k2sq := k2 * k2 / Theta2 in
  let k3sq := k3 * k3 / Theta2 in
  let Theta4 := Theta2 * Theta2 in
  let Theta6 := Theta4 * Theta2 in
  let S := k1sq * k2sq * k3sq in
  let Zx := ((2 * k2sq + 2 * k3sq - k1sq) * a1 + (2 * k3sq + 2 * k1sq - k2sq) * a2 +
            (2 * k1sq + 2 * k2sq - k3sq) * a3) / (6 * Theta2) in
  let expfactor := - S * exp (- Zx) / Theta4 in
  let f1 := (cR ((k2sq + k3sq) / 2) + cR (k2sq - k3sq) * (q2 - q3) / (IZC 6 * q1))%C in
  let f2 := (cR ((k3sq + k1sq) / 2) + cR (k3sq - k1sq) * (q3 - q1) / (IZC 6 * q2))%C in
  let f3 := (cR ((k1sq + k2sq) / 2) + cR (k1sq - k2sq) * (q1 - q2) / (IZC 6 * q3))%C in
  let f1c := cconj f1 in let f2c := cconj f2 in let f3c := cconj f3 in
  let g1 := (cR (k2sq * k3sq) + cR ((k3sq - k2sq) * k1sq) * (q2 - q3) / (IZC 3 * q1))%C in
  let g2 := (cR (k3sq * k1sq) + cR ((k1sq - k3sq) * k2sq) * (q3 - q1) / (IZC 3 * q2))%C in
  let g3 := (cR (k1sq * k2sq) + cR ((k2sq - k1sq) * k3sq) * (q1 - q2) / (IZC 3 * q3))%C in
  let g1c := cconj g1 in let g2c := cconj g2 in let g3c := cconj g3 in
  mkT
    (cR (expfactor * a123) * csq f1c * csq f2c * csq f3c / cR (24 * Theta6))%C
    (cR expfactor * (
       cR a123 * csq f1 * csq f2c * csq f3c / cR (24 * Theta6) -
       b1 * f1 * f2c * f3c * g1c / cR (9 * Theta4) +
       (csq b1 * csq g1c + cR (2 * k2sq * k3sq * a2 * a3) * b1 * f2c * f3c) / cR (a123 * 27 * Theta2)))%C
    (cR expfactor * (
       cR a123 * csq f1c * csq f2 * csq f3c / cR (24 * Theta6) -
       b2 * f1c * f2 * f3c * g2c / cR (9 * Theta4) +
       (csq b2 * csq g2c + cR (2 * k1sq * k3sq * a1 * a3) * b2 * f1c * f3c) / cR (a123 * 27 * Theta2)))%C
    (cR expfactor * (
       cR a123 * csq f1c * csq f2c * csq f3 / cR (24 * Theta6) -
       b3 * f1c * f2c * f3 * g3c / cR (9 * Theta4) +
       (csq b3 * csq g3c + cR (2 * k1sq * k2sq * a1 * a2) * b3 * f1c * f2c) / cR (a123 * 27 * Theta2)))%C.
(** _calculateT, gggcorrelation.py:701-796 *)
Definition allOne (k1 k2 k3 : R) : bool :=
  if Req_EM_T k1 1 then if Req_EM_T k2 1 then if Req_EM_T k3 1 then true else false else false else false.
Definition calcT (s t : cplx) (k1 k2 k3 : R) : tvals :=
  let q1 := ((s + t) / IZC 3)%C in
  let q2 := (q1 - t)%C in
  let q3 := (q1 - s)%C in
  let a1 := cnorm q1 in let a2 := cnorm q2 in let a3 := cnorm q3 in
  let b1 := (csq (cconj q1) * q2 * q3)%C in
  let b2 := (csq (cconj q2) * q1 * q3)%C in
  let b3 := (csq (cconj q3) * q1 * q2)%C in
  if allOne k1 k2 k3 then calcTone q1 q2 q3 a1 a2 a3 b1 b2 b3
  else calcTgen q1 q2 q3 a1 a2 a3 b1 b2 b3 k1 k2 k3.

(** ** calculateMap3 *)
(** The arrays of a finalized GGGCorrelation; [g3_u] holds meanphi for LogSAS. *)
Record g3res := mkG3 {
  g3_bt : bintype3; g3_bins : list Z; g3_bs : R; g3_ubs : R; g3_vbs : R; g3_phiunits : R;
  g3_d1 : Z -> R; g3_d2 : Z -> R; g3_d3 : Z -> R; g3_u : Z -> R; g3_v : Z -> R;
  g3_gam0 : Z -> cplx; g3_gam1 : Z -> cplx; g3_gam2 : Z -> cplx; g3_gam3 : Z -> cplx;
  g3_var0 : Z -> R; g3_var1 : Z -> R; g3_var2 : Z -> R; g3_var3 : Z -> R }.

(** tx, gggcorrelation.py:885; the check, 889; 898-902 *)
Definition txRaw (d3 u v : R) : R := d3 * (1/2 * u * (1 - v ^ 2) - Rabs v).
Definition badTri (d3 u v : R) : bool :=
  let tx := txRaw d3 u v in
  if Rle_dec tx (- d3) then true else if Rle_dec d3 tx then true else false.
Definition tRUV (d3 u v : R) : cplx :=
  let tx := if badTri d3 u v then 0 else txRaw d3 u v in
  let ty := sqrt (d3 ^ 2 - tx ^ 2) in
  (tx, if Rlt_dec 0 v then - ty else ty).
(** 904-905 *)
Definition tSAS (d3 phi : R) : cplx := (d3 * cos phi, d3 * sin phi).

(** s and t of a place, in units of R; 867-905 *)
Definition sOf (g : g3res) (Rap : R) (k : Z) : R := 1 / Rap * g3_d2 g k.
Definition tOf (g : g3res) (Rap : R) (k : Z) : cplx :=
  match g3_bt g with
  | LogRUV => tRUV (1 / Rap * g3_d3 g k) (g3_u g k) (g3_v g k)
  | LogSAS => tSAS (1 / Rap * g3_d3 g k) (g3_u g k * g3_phiunits g)
  end.
(** d2t and sds, 910-942 *)
Definition d2tOf (g : g3res) (Rap : R) (k : Z) : R :=
  let d3 := 1 / Rap * g3_d3 g k in
  match g3_bt g with
  | LogRUV =>
      let d1 := 1 / Rap * g3_d1 g k in
      let jac := if badTri d3 (g3_u g k) (g3_v g k) then 0 else Rabs (d3 * d3 * d1 / snd (tOf g Rap k)) in
      jac * g3_ubs g * g3_vbs g / (2 * PI)
  | LogSAS => d3 ^ 2 * g3_bs g * g3_ubs g / (2 * PI)
  end.
Definition sdsOf (g : g3res) (Rap : R) (k : Z) : R := sOf g Rap k * sOf g Rap k * g3_bs g.
(** T0..T3 after the multiplication, 908, 946-949 (994-998, 1022-1026 for the other permutations) *)
Definition tArr (g : g3res) (Rap : R) (k1 k2 k3 : R) (k : Z) : tvals :=
  let T := calcT (cR (sOf g Rap k)) (tOf g Rap k) k1 k2 k3 in
  let m z := (z * cR (sdsOf g Rap k * d2tOf g Rap k))%C in
  mkT (m (T0 T)) (m (T1 T)) (m (T2 T)) (m (T3 T)).
Definition csumB (f : Z -> cplx) (l : list Z) : cplx := fold_right (fun k acc => (f k + acc)%C) c0 l.
Definition cdot (g : g3res) (row gam : Z -> cplx) : cplx := csumB (fun k => (row k * gam k)%C) (g3_bins g).

(** The four moments, and the rows the variance is made of *)
Record m3 := mkM3 { mmm : cplx; mcmm : cplx; mmcm : cplx; mmmc : cplx;
                    v0 : Z -> cplx; v1 : Z -> cplx; v2 : Z -> cplx; v3 : Z -> cplx }.
Definition csc (n : Z) (z : cplx) : cplx := (z * IZC n)%C.
(** one pass: T0.dot(gam0) etc. added to mmm and to the three accumulators named in the loop *)
Record pass := mkPass { d0 : cplx; dd1 : cplx; dd2 : cplx; dd3 : cplx; rows : Z -> tvals }.
Definition onePass (g : g3res) (Rap k1 k2 k3 : R) : pass :=
  let T := tArr g Rap k1 k2 k3 in
  mkPass (cdot g (fun k => T0 (T k)) (g3_gam0 g)) (cdot g (fun k => T1 (T k)) (g3_gam1 g))
         (cdot g (fun k => T2 (T k)) (g3_gam2 g)) (cdot g (fun k => T3 (T k)) (g3_gam3 g)) T.
Definition addRow (v : Z -> cplx) (r : Z -> cplx) : Z -> cplx := fun k => (v k + r k)%C.
(** which accumulator a value is added to *)
Inductive slot := Smcmm | Smmcm | Smmmc.
Definition addTo (s : slot) (x : cplx) (m : m3) : m3 :=
  match s with
  | Smcmm => mkM3 (mmm m) (mcmm m + x)%C (mmcm m) (mmmc m) (v0 m) (v1 m) (v2 m) (v3 m)
  | Smmcm => mkM3 (mmm m) (mcmm m) (mmcm m + x)%C (mmmc m) (v0 m) (v1 m) (v2 m) (v3 m)
  | Smmmc => mkM3 (mmm m) (mcmm m) (mmcm m) (mmmc m + x)%C (v0 m) (v1 m) (v2 m) (v3 m)
  end.
(** 994-1008, 1022-1034 *)
Definition addPass (g : g3res) (Rap : R) (m : m3) (p : R * R * R * (slot * slot * slot)) : m3 :=
  let '(k1, k2, k3, (s1, s2, s3)) := p in
  let P := onePass g Rap k1 k2 k3 in
  let m' := mkM3 (mmm m + d0 P)%C (mcmm m) (mmcm m) (mmmc m)
    (addRow (v0 m) (fun k => T0 (rows P k))) (addRow (v1 m) (fun k => T1 (rows P k)))
    (addRow (v2 m) (fun k => T2 (rows P k))) (addRow (v3 m) (fun k => T3 (rows P k))) in
  addTo s3 (dd3 P) (addTo s2 (dd2 P) (addTo s1 (dd1 P) m')).
(** 951-1034 *)
Definition moments (g : g3res) (Rap k2 k3 : R) : m3 :=
  let P := onePass g Rap 1 k2 k3 in
  let T := rows P in
  let m0 := mkM3 (d0 P) (dd1 P) (dd2 P) (dd3 P)
    (fun k => T0 (T k)) (fun k => T1 (T k)) (fun k => T2 (T k)) (fun k => T3 (T k)) in
  let both1 := if Req_EM_T k2 1 then if Req_EM_T k3 1 then true else false else false in
  let sc n (v : Z -> cplx) k := csc n (v k) in
  match g3_bt g with
  | LogRUV =>
      if both1 then
        let x := csc 2 (mcmm m0 + mmcm m0 + mmmc m0)%C in
        mkM3 (csc 6 (mmm m0)) x x x (sc 6%Z (v0 m0)) (sc 6%Z (v1 m0)) (sc 6%Z (v2 m0)) (sc 6%Z (v3 m0))
      else
        fold_left (addPass g Rap)
          [ (1, k3, k2, (Smcmm, Smmmc, Smmcm)); (k2, 1, k3, (Smmcm, Smcmm, Smmmc));
            (k2, k3, 1, (Smmcm, Smmmc, Smcmm)); (k3, 1, k2, (Smmmc, Smcmm, Smmcm));
            (k3, k2, 1, (Smmmc, Smmcm, Smcmm)) ] m0
  | LogSAS =>
      if both1 then
        let x := (mmcm m0 + mmmc m0)%C in
        mkM3 (csc 2 (mmm m0)) (csc 2 (mcmm m0)) x x (sc 2%Z (v0 m0)) (sc 2%Z (v1 m0)) (sc 2%Z (v2 m0)) (sc 2%Z (v3 m0))
      else addPass g Rap m0 (1, k3, k2, (Smcmm, Smmmc, Smmcm))
  end.
(** 1036-1056 *)
Record map3res := mkMap3 {
  map3 : R; mapmapmx : R; mapmxmap : R; mxmapmap : R; mxmxmap : R; mxmapmx : R; mapmxmx : R; mx3 : R; varmap3 : R }.
Definition eight (mmm mcmm mmcm mmmc : cplx) (var : R) : map3res :=
  mkMap3 (1/4 * fst (mcmm + mmcm + mmmc + mmm)%C)
    (1/4 * snd (mcmm + mmcm - mmmc + mmm)%C)
    (1/4 * snd (mcmm - mmcm + mmmc + mmm)%C)
    (1/4 * snd (- mcmm + mmcm + mmmc + mmm)%C)
    (1/4 * fst (mcmm + mmcm - mmmc - mmm)%C)
    (1/4 * fst (mcmm - mmcm + mmmc - mmm)%C)
    (1/4 * fst (- mcmm + mmcm + mmmc - mmm)%C)
    (1/4 * snd (mcmm + mmcm + mmmc - mmm)%C) var.
Definition varDot (g : g3res) (v : Z -> cplx) (vargam : Z -> R) : R :=
  sumR (fun k => cnorm (v k / IZC 4)%C * vargam k) (g3_bins g).
(** 798-1056 *)
Definition calculateMap3 (g : g3res) (Rap k2 k3 : R) : map3res :=
  let m := moments g Rap k2 k3 in
  eight (mmm m) (mcmm m) (mmcm m) (mmmc m)
    (varDot g (v0 m) (g3_var0 g) + varDot g (v1 m) (g3_var1 g) + varDot g (v2 m) (g3_var2 g) + varDot g (v3 m) (g3_var3 g)).
