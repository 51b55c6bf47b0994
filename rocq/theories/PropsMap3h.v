(** C84: the weight of a place is the volume of its bin in s and t.  C83: the lens statistics as sums. *)
From Coq Require Import Reals Lra Lia List ZArith.
From Verif Require Import Base Spin Cplx Corr3 Aper Map3 SumFacts PropsMap3b PropsMap3c PropsMap3f.
Import ListNotations.
Open Scope R_scope.

(** The partial derivatives of a point (x, y) of the plane. *)
Definition jacobianAt (t : R -> R -> cplx) (a b det : R) : Prop := exists xa xb ya yb,
  derivable_pt_lim (fun z => fst (t z b)) a xa /\ derivable_pt_lim (fun z => fst (t a z)) b xb /\
  derivable_pt_lim (fun z => snd (t z b)) a ya /\ derivable_pt_lim (fun z => snd (t a z)) b yb /\
  det = xa * yb - xb * ya.
(** LogRUV: the means are those of a triangle with s = d2/R, u = d3/d2 and |v| = (d1-d2)/d3. *)
Theorem C84_weight g Rap k :
  let s := 1 / Rap * g3_d2 g k in let u := g3_u g k in let v := g3_v g k in
  g3_bt g = LogRUV -> Rap <> 0 -> 0 < s -> 0 < u -> v <> 0 ->
  g3_d3 g k = g3_d2 g k * u -> g3_d1 g k = g3_d2 g k + g3_d3 g k * Rabs v -> badTri (s * u) u v = false ->
  exists det, jacobianAt (fun u v => tRUV (s * u) u v) u v det /\
    weightOf g Rap k = s * (s * g3_bs g) * (Rabs det * g3_ubs g * g3_vbs g) / (2 * PI).
Proof.
  intros s u v HB HR Hs Hu Hv E3 E1 Hb.
  destruct (C84_jacobian s u v Hs Hu Hv Hb) as (xu & xv & yu & yv & D1 & D2 & D3 & D4 & HJ).
  exists (xu * yv - xv * yu). split; [exists xu, xv, yu, yv; auto|].
  assert (ES : 1 / Rap * g3_d3 g k = s * u) by (rewrite E3; unfold s, u; ring).
  assert (ED : 1 / Rap * g3_d1 g k = s + s * u * Rabs v) by (rewrite E1, E3; unfold s, u; ring).
  unfold weightOf, sdsOf, sOf, d2tOf, tOf. rewrite HB, ED, ES. fold s u v. rewrite Hb, HJ. unfold Rdiv. ring.
Qed.
Theorem C84_weight_sas g Rap k :
  let s := 1 / Rap * g3_d2 g k in let d3 := 1 / Rap * g3_d3 g k in let phi := g3_u g k * g3_phiunits g in
  g3_bt g = LogSAS -> 0 < d3 ->
  exists det, jacobianAt (fun L p => tSAS (exp L) p) (ln d3) phi det /\
    weightOf g Rap k = s * (s * g3_bs g) * (det * g3_bs g * g3_ubs g) / (2 * PI).
Proof.
  intros s d3 phi HB Hd.
  destruct (C84_jacobian_sas (ln d3) phi) as (xl & xp & yl & yp & D1 & D2 & D3 & D4 & HJ).
  exists (xl * yp - xp * yl). split; [exists xl, xp, yl, yp; auto|].
  rewrite HJ, exp_ln by auto. unfold weightOf, sdsOf, sOf, d2tOf. rewrite HB. fold s d3. unfold Rdiv. ring.
Qed.
Example C84_weight_example :
  let g := mkG3 LogRUV [0%Z] (1/10) (1/20) (1/30) 1 (fun _ => 5) (fun _ => 4) (fun _ => 3) (fun _ => 3/4) (fun _ => 1/3)
    (fun _ => c1) (fun _ => c1) (fun _ => c1) (fun _ => c1) (fun _ => 1) (fun _ => 1) (fun _ => 1) (fun _ => 1) in
  g3_d3 g 0 = g3_d2 g 0 * g3_u g 0 /\ g3_d1 g 0 = g3_d2 g 0 + g3_d3 g 0 * Rabs (g3_v g 0) /\
  badTri (1 / 1 * g3_d2 g 0 * g3_u g 0) (g3_u g 0) (g3_v g 0) = false.
Proof.
  cbn [g3_d3 g3_d2 g3_u g3_d1 g3_v]. rewrite (Rabs_right (1/3)) by lra. repeat split; try lra.
  unfold badTri, txRaw. rewrite (Rabs_right (1/3)) by lra. repeat destruct Rle_dec; auto; exfalso; lra.
Qed.

(** C83: <N Map> and <Nap^2> as sums over the bins with ds = s bin_size. *)
Definition lensSum (bins : list Z) (bs Rap : R) (meanr : Z -> R) (F : R -> Z -> R) : R :=
  sumR (fun k => let s := meanr k / Rap in s * F s k * (s * bs)) bins.
Theorem C83_lens_sums u bins bs meanr xi xii v Rap : Rap <> 0 ->
  fst (fst (calculateNMap u bins bs meanr xi xii v Rap)) = lensSum bins bs Rap meanr (fun s k => kTx u s * xi k) /\
  snd (fst (calculateNMap u bins bs meanr xi xii v Rap)) = lensSum bins bs Rap meanr (fun s k => kTx u s * xii k) /\
  fst (calculateNapSq u bins bs meanr xi v Rap) = lensSum bins bs Rap meanr (fun s k => kTp u s * xi k).
Proof.
  intro HR. unfold calculateNMap, calculateNapSq, lensSum, dotA. cbn [fst snd].
  assert (E : forall k, 1 / Rap * meanr k = meanr k / Rap) by (intro; field; auto).
  repeat split; rewrite <- sumR_scal_r; apply sumR_ext; intros k _; cbv zeta; rewrite !E; field; auto.
Qed.
(** The docstring of calculateNapSq has r dr/(2 R^2): the returned value is twice that. *)
Theorem C83_nap_documented_refuted : exists u bins bs meanr xi v Rap, 0 < Rap /\ 0 < bs /\
  fst (calculateNapSq u bins bs meanr xi v Rap) <> lensSum bins bs Rap meanr (fun s k => kTp u s * xi k / 2).
Proof.
  exists Crittenden, [0%Z], (1/10), (fun _ => 1), (fun _ => 1), (fun _ => 0), 1.
  split; [lra|]. split; [lra|].
  destruct (C83_lens_sums Crittenden [0%Z] (1/10) (fun _ => 1) (fun _ => 1) (fun _ => 1) (fun _ => 0) 1 ltac:(lra)) as [_ [_ ->]].
  unfold lensSum. cbn [sumR]. cbv zeta. replace (1/1) with 1 by field. unfold kTp.
  assert (H := exp_pos (- (1 * 1) / 4)). cbn. nra.
Qed.
