(** C84: the variance of the mixed combinations; symmetries of calculateMap3; examples. *)
From Coq Require Import Reals Lra Lia List ZArith Bool.
From Verif Require Import Base Spin SpinFacts Cplx Corr3 SumFacts Map3 SpecMap3 Map3Facts PropsMap3 PropsMap3b PropsMap3c PropsMap3d.
Import ListNotations.
Open Scope R_scope.

(** ** "the estimated variance (which is equal for each)": not that of the mixed combinations *)
(** one right-angled triangle, d2 = d3 = 1, in a LogSAS bin; only gam2 has an error *)
Definition rightG : g3res := mkG3 LogSAS [0%Z] 1 1 1 1 (fun _ => sqrt 2) (fun _ => 1) (fun _ => 1) (fun _ => PI / 2) (fun _ => 0)
  (fun _ => c0) (fun _ => c0) (fun _ => c0) (fun _ => c0) (fun _ => 0) (fun _ => 0) (fun _ => 1) (fun _ => 0).
Lemma right_s : sOf rightG 1 0 = 1. Proof. unfold sOf. cbn. field. Qed.
Lemma right_t : tOf rightG 1 0 = ci. Proof. unfold tOf, tSAS. cbn. rewrite !Rmult_1_r, cos_PI2, sin_PI2. unfold ci. f_equal; field. Qed.
Lemma right_w : weightOf rightG 1 0 = 1 / (2 * PI).
Proof. unfold weightOf, sdsOf, d2tOf. rewrite right_s. cbn [g3_bt g3_bs g3_ubs g3_d3 rightG]. unfold Rdiv. rewrite Rinv_1. ring. Qed.
Lemma norm_cR x z : cnorm (cR x * z)%C = x * x * cnorm z.
Proof. unfold cnorm, cR, cmul. cbn [fst snd]. ring. Qed.
Lemma right_T2 : snd (T2 (calcT c1 ci 1 1 1)) <> 0.
Proof.
  unfold calcT, allOne. destruct (Req_EM_T 1 1) as [_|N]; [|exfalso; auto].
  set (q1 := ((c1 + ci) / IZC 3)%C).
  assert (E1 : q1 = (1/3, 1/3)) by (unfold q1, cdiv, IZC; rewrite <- cR_inv; cx; field).
  assert (E2 : (q1 - ci)%C = (1/3, -2/3)) by (rewrite E1; cx; field).
  assert (E3 : (q1 - c1)%C = (-2/3, 1/3)) by (rewrite E1; cx; field).
  rewrite E2, E3, E1. clear. unfold calcTone. cbn [T2].
  set (e := exp _). assert (HE : 0 < e) by apply exp_pos.
  assert (N1 : cnorm (1/3, 1/3) = 2/9) by (unfold cnorm; cbn; field).
  assert (N2 : cnorm (1/3, -2/3) = 5/9) by (unfold cnorm; cbn; field).
  assert (N3 : cnorm (-2/3, 1/3) = 5/9) by (unfold cnorm; cbn; field).
  rewrite N1, N2, N3.
  assert (B : cmul (cmul (csq (cconj (1/3, -2/3))) (1/3, 1/3)) (-2/3, 1/3) = (13/81, -9/81)) by (cx; field).
  rewrite B. unfold cdiv, IZC. rewrite <- !cR_inv. unfold cR, csq, cadd, csub, cmul. cbn [fst snd].
  match goal with |- ?x <> 0 => replace x with (- e * (- 14256 / 656100)) by field end. nra.
Qed.
Theorem C84_mixed_refuted : exists g Rap k2 k3, NoDup (g3_bins g) /\ 0 < Rap /\
  propagated mapmapmx g Rap k2 k3 <> varmap3 (calculateMap3 g Rap k2 k3).
Proof.
  exists rightG, 1, 1, 1. assert (ND : NoDup (g3_bins rightG)) by (repeat constructor; intros []).
  assert (IN : In 0%Z (g3_bins rightG)) by (left; auto).
  split; [auto|]. split; [lra|].
  assert (Z0 : forall z, mapmapmx (calculateMap3 (withGam rightG (impulse 2 0 z)) 1 1 1) = 0).
  { intro z. unfold calculateMap3, eight. cbn [mapmapmx]. set (m := moments _ 1 1 1).
    change (mcmm m) with (momN m 1). change (mmcm m) with (momN m 2). change (mmmc m) with (momN m 3). change (mmm m) with (momN m 0).
    unfold m. rewrite !impulse_moment by (auto; lia). unfold psum. cbn -[Tw cmul cadd csub].
    unfold Tw, aper. match goal with |- context [cmul ?a z] => set (x := cmul a z) end. unfold cadd, csub, c0, IZC, cR. cbn [fst snd]. field. }
  assert (P : propagated mapmapmx rightG 1 1 1 = 0).
  { unfold propagated. cbn [g3_bins rightG sumR map fold_right]. unfold sumR. cbn [map fold_right]. rewrite !Z0. cbn [varN g3_var0 g3_var1 g3_var2 g3_var3 rightG]. ring. }
  rewrite P, <- (C84_variance map3) by auto.
  assert (V : propagated map3 rightG 1 1 1 = cnorm (cR (1/2) * (T2 (calcT c1 ci 1 1 1) * cR (1 / (2 * PI))))%C).
  { rewrite (C84_variance map3) by auto. unfold calculateMap3, eight. cbn [varmap3]. unfold varDot. cbn [g3_bins rightG g3_var0 g3_var1 g3_var2 g3_var3].
    unfold sumR. cbn [map fold_right]. change (v2 (moments rightG 1 1 1) 0%Z) with (rowN (moments rightG 1 1 1) 2 0%Z).
    rewrite rows_spec by lia. unfold psum. cbn [perms g3_bt rightG fold_right]. unfold Tw, aper. rewrite right_s, right_t, right_w. cbn [Tn].
    change (cR 1) with c1. match goal with |- context [cmul (T2 ?a) ?b] => set (x := cmul (T2 a) b) end.
    replace ((x + (x + c0)) / IZC 4)%C with (cR (1/2) * x)%C by (rewrite cR_div; change (cR 1) with (IZC 1); change (cR 2) with (IZC 2); field). ring. }
  rewrite V, norm_cR. assert (T := right_T2). set (t := T2 _) in *.
  replace (t * cR (1 / (2 * PI)))%C with (cR (1 / (2 * PI)) * t)%C by ring. rewrite norm_cR.
  assert (0 < 1 / (2 * PI)) by (apply Rdiv_lt_0_compat; [lra|]; assert (X := PI_RGT_0); lra).
  assert (0 < cnorm t) by (unfold cnorm; nra). assert (0 < 1 / (2 * PI) * (1 / (2 * PI)) * cnorm t) by (apply Rmult_lt_0_compat; auto; apply Rmult_lt_0_compat; auto).
  lra.
Qed.

(** ** The order of the apertures *)
Definition vrow (g : g3res) (Rap k2 k3 : R) (n : nat) : R := varDot g (fun k => psum (g3_bt g) (fun p => Tw g Rap k2 k3 p n k)) (varN g n).
Lemma varDot_ext g v v' vg : (forall k, v k = v' k) -> varDot g v vg = varDot g v' vg.
Proof. intro H. apply sumR_ext. intros k _. rewrite H. auto. Qed.
Lemma calc_spec g Rap k2 k3 : calculateMap3 g Rap k2 k3 =
  eight (momentSpec g Rap k2 k3 0) (momentSpec g Rap k2 k3 1) (momentSpec g Rap k2 k3 2) (momentSpec g Rap k2 k3 3)
    (vrow g Rap k2 k3 0 + vrow g Rap k2 k3 1 + vrow g Rap k2 k3 2 + vrow g Rap k2 k3 3).
Proof.
  rewrite <- !C84_perms by lia. unfold calculateMap3. cbn [momN]. f_equal. unfold vrow. f_equal; [f_equal; [f_equal|]|]; apply varDot_ext; intro k.
  - apply (rows_spec g Rap k2 k3 0 k). lia.
  - apply (rows_spec g Rap k2 k3 1 k). lia.
  - apply (rows_spec g Rap k2 k3 2 k). lia.
  - apply (rows_spec g Rap k2 k3 3 k). lia.
Qed.
Definition swap23 (r : map3res) : map3res :=
  mkMap3 (map3 r) (mapmxmap r) (mapmapmx r) (mxmapmap r) (mxmapmx r) (mxmxmap r) (mapmxmx r) (mx3 r) (varmap3 r).
Definition swap12 (r : map3res) : map3res :=
  mkMap3 (map3 r) (mapmapmx r) (mxmapmap r) (mapmxmap r) (mxmxmap r) (mapmxmx r) (mxmapmx r) (mx3 r) (varmap3 r).
Lemma eight_23 a b c d v : eight a b d c v = swap23 (eight a b c d v).
Proof. unfold eight, swap23. cbn. unfold cadd, csub, copp. cbn [fst snd]. f_equal; ring. Qed.
Lemma eight_12 a b c d v : eight a c b d v = swap12 (eight a b c d v).
Proof. unfold eight, swap12. cbn. unfold cadd, csub, copp. cbn [fst snd]. f_equal; ring. Qed.
Theorem C84_swap g Rap k2 k3 : calculateMap3 g Rap k3 k2 = swap23 (calculateMap3 g Rap k2 k3).
Proof.
  rewrite !calc_spec, <- eight_23.
  assert (M : forall j j', (j, j') = (0, 0)%nat \/ (j, j') = (1, 1)%nat \/ (j, j') = (2, 3)%nat \/ (j, j') = (3, 2)%nat ->
    momentSpec g Rap k3 k2 j = momentSpec g Rap k2 k3 j').
  { intros j j' H. unfold momentSpec.
    repeat destruct H as [H|H]; injection H as -> ->; destruct (g3_bt g); cbn -[calcT csumB Tn gamN]; ring. }
  rewrite (M 0 0)%nat, (M 1 1)%nat, (M 2 3)%nat, (M 3 2)%nat by auto.
  assert (V : forall n, vrow g Rap k3 k2 n = vrow g Rap k2 k3 n).
  { intro n. apply varDot_ext. intro k. unfold psum, Tw. destruct (g3_bt g); cbn -[calcT Tn]; ring. }
  rewrite !V. reflexivity.
Qed.

(** ** The unit of R *)
Lemma calcT_scale n x s t k1 k2 k3 : 0 < x -> 0 < k1 -> 0 < k2 -> 0 < k3 ->
  Tn n (calcT s t k1 k2 k3) = (cR (x ^ 4) * Tn n (calcT (cR x * s) (cR x * t) (x * k1) (x * k2) (x * k3)))%C.
Proof.
  intros Hx P1 P2 P3. assert (N : cR x <> c0) by (apply cR_0; lra). rewrite !calcT_gen.
  set (q1 := ((s + t) / IZC 3)%C). set (q2 := (q1 - t)%C). set (q3 := (q1 - s)%C).
  replace ((cR x * s + cR x * t) / IZC 3)%C with (cR x * q1)%C by (unfold q1; field).
  replace (cR x * q1 - cR x * t)%C with (cR x * q2)%C by (unfold q2; ring).
  replace (cR x * q1 - cR x * s)%C with (cR x * q3)%C by (unfold q3; ring).
  rewrite !norm_cR.
  assert (B : forall a b c, (csq (cconj (cR x * a)) * (cR x * b) * (cR x * c) = cR (x ^ 4) * (csq (cconj a) * b * c))%C).
  { intros a b c. rewrite conj_mul, conj_R. unfold csq. replace (x ^ 4) with (x * x * x * x) by ring. rewrite !cR_mul. ring. }
  rewrite !B. generalize (csq (cconj q1) * q2 * q3)%C (csq (cconj q2) * q1 * q3)%C (csq (cconj q3) * q1 * q2)%C.
  intros b1 b2 b3. generalize (cnorm q1) (cnorm q2) (cnorm q3). intros a1 a2 a3.
  unfold calcTgen.
  destruct (theta_facts k1 k2 k3 P1 P2 P3) as [HT _]. set (h := sqrt ((k1 * k1 * (k2 * k2) + _ + _) / 3)) in *.
  assert (Eh : sqrt ((x * k1 * (x * k1) * (x * k2 * (x * k2)) + x * k1 * (x * k1) * (x * k3 * (x * k3)) + x * k2 * (x * k2) * (x * k3 * (x * k3))) / 3) = x * x * h).
  { replace ((x * k1 * (x * k1) * (x * k2 * (x * k2)) + x * k1 * (x * k1) * (x * k3 * (x * k3)) + x * k2 * (x * k2) * (x * k3 * (x * k3))) / 3)
      with ((x * x * (x * x)) * ((k1 * k1 * (k2 * k2) + k1 * k1 * (k3 * k3) + k2 * k2 * (k3 * k3)) / 3)) by field.
    rewrite sqrt_mult_alt by nra. fold h. rewrite sqrt_square by nra. ring. }
  rewrite Eh.
  replace (x * k1 * (x * k1) / (x * x * h)) with (k1 * k1 / h) by (field; lra).
  replace (x * k2 * (x * k2) / (x * x * h)) with (k2 * k2 / h) by (field; lra).
  replace (x * k3 * (x * k3) / (x * x * h)) with (k3 * k3 / h) by (field; lra).
  set (u1 := k1 * k1 / h). set (u2 := k2 * k2 / h). set (u3 := k3 * k3 / h).
  replace (((2 * u2 + 2 * u3 - u1) * (x * x * a1) + (2 * u3 + 2 * u1 - u2) * (x * x * a2) + (2 * u1 + 2 * u2 - u3) * (x * x * a3)) / (6 * (x * x * h)))
    with (((2 * u2 + 2 * u3 - u1) * a1 + (2 * u3 + 2 * u1 - u2) * a2 + (2 * u1 + 2 * u2 - u3) * a3) / (6 * h)) by (field; lra).
  set (e := exp _).
  replace (cR x * q2 - cR x * q3)%C with (cR x * (q2 - q3))%C by ring.
  replace (cR x * q3 - cR x * q1)%C with (cR x * (q3 - q1))%C by ring.
  replace (cR x * q1 - cR x * q2)%C with (cR x * (q1 - q2))%C by ring.
  assert (QT : forall y z q n, (cR y * (cR x * z) / (IZC n * (cR x * q)) = cR y * z / (IZC n * q))%C).
  { intros y z q m. replace (cR y * (cR x * z))%C with (cR x * (cR y * z))%C by ring. apply quot_turn; auto. }
  rewrite !QT. clear QT B Eh. cbv zeta.
  set (f1 := (cR ((u2 + u3) / 2) + _)%C). set (f2 := (cR ((u3 + u1) / 2) + _)%C). set (f3 := (cR ((u1 + u2) / 2) + _)%C).
  set (g1 := (cR (u2 * u3) + _)%C). set (g2 := (cR (u3 * u1) + _)%C). set (g3 := (cR (u1 * u2) + _)%C).
  replace (- (u1 * u2 * u3) * e / (x * x * h * (x * x * h))) with (/ x ^ 4 * (- (u1 * u2 * u3) * e / (h * h))) by (field; lra).
  set (E := - (u1 * u2 * u3) * e / (h * h)).
  replace (24 * (x * x * h * (x * x * h) * (x * x * h))) with (x ^ 6 * (24 * (h * h * h))) by ring.
  replace (9 * (x * x * h * (x * x * h))) with (x ^ 4 * (9 * (h * h))) by ring.
  replace (x * x * a1 * (x * x * a2) * (x * x * a3) * 27 * (x * x * h)) with (x ^ 8 * (a1 * a2 * a3 * 27 * h)) by ring.
  replace (x * x * a1 * (x * x * a2) * (x * x * a3)) with (x ^ 6 * (a1 * a2 * a3)) by ring.
  replace (2 * u2 * u3 * (x * x * a2) * (x * x * a3)) with (x ^ 4 * (2 * u2 * u3 * a2 * a3)) by ring.
  replace (2 * u1 * u3 * (x * x * a1) * (x * x * a3)) with (x ^ 4 * (2 * u1 * u3 * a1 * a3)) by ring.
  replace (2 * u1 * u2 * (x * x * a1) * (x * x * a2)) with (x ^ 4 * (2 * u1 * u2 * a1 * a2)) by ring.
  replace (/ x ^ 4 * E * (x ^ 6 * (a1 * a2 * a3))) with (x * x * (E * (a1 * a2 * a3))) by (field; lra).
  assert (X4 : cR (x ^ 4) = (cR x * cR x * cR x * cR x)%C) by (rewrite <- !cR_mul; f_equal; ring).
  assert (X6 : cR (x ^ 6) = (cR x * cR x * cR x * cR x * cR x * cR x)%C) by (rewrite <- !cR_mul; f_equal; ring).
  assert (X8 : cR (x ^ 8) = (cR x * cR x * cR x * cR x * cR x * cR x * cR x * cR x)%C) by (rewrite <- !cR_mul; f_equal; ring).
  rewrite !(cR_mul (x ^ 6)), !(cR_mul (x ^ 4)), !(cR_mul (x ^ 8)), !(cR_mul (/ x ^ 4)), !(cR_mul (x * x)), (cR_mul x x).
  rewrite cR_inv. unfold cdiv. rewrite !inv_mul by (apply cR_0; apply pow_nonzero; lra).
  rewrite X4, X6, X8. generalize (cinv (cR (24 * (h * h * h)))) (cinv (cR (9 * (h * h)))) (cinv (cR (a1 * a2 * a3 * 27 * h))).
  intros D1 D2 D3. unfold csq.
  destruct n as [|[|[|n]]]; cbn [Tn T0 T1 T2 T3]; field; auto.
Qed.
Lemma bad_scale y d3 u v : 0 < y -> badTri (y * d3) u v = badTri d3 u v.
Proof.
  intro Hy. unfold badTri, txRaw. rewrite !Rmult_assoc.
  set (e := d3 * (1 / 2 * (u * (1 - v ^ 2)) - Rabs v)). repeat destruct Rle_dec; auto; exfalso; nra.
Qed.
Lemma tRUV_scale y d3 u v : 0 < y -> tRUV (y * d3) u v = (cR y * tRUV d3 u v)%C.
Proof.
  intro Hy. unfold tRUV. rewrite bad_scale by auto. set (tx := if badTri d3 u v then 0 else txRaw d3 u v).
  replace (if badTri d3 u v then 0 else txRaw (y * d3) u v) with (y * tx).
  2:{ unfold tx, txRaw. destruct badTri; ring. }
  replace ((y * d3) ^ 2 - (y * tx) ^ 2) with ((y * y) * (d3 ^ 2 - tx ^ 2)) by ring.
  rewrite sqrt_mult_alt, sqrt_square by nra. cx; [ring|]. destruct Rlt_dec; ring.
Qed.
Lemma tOf_scale g c Rap k : 0 < c -> 0 < Rap -> tOf g Rap k = (cR c * tOf g (c * Rap) k)%C.
Proof.
  intros Hc HR. unfold tOf. assert (E : 1 / Rap * g3_d3 g k = c * (1 / (c * Rap) * g3_d3 g k)) by (field; lra).
  rewrite E. destruct (g3_bt g); [apply tRUV_scale; auto|]. unfold tSAS. cx; ring.
Qed.
Lemma weight_scale g c Rap k : 0 < c -> 0 < Rap -> weightOf g Rap k = c ^ 4 * weightOf g (c * Rap) k.
Proof.
  intros Hc HR. unfold weightOf, sdsOf, sOf, d2tOf. rewrite (tOf_scale g c Rap k Hc HR).
  assert (E : 1 / Rap = c * (1 / (c * Rap))) by (field; lra). rewrite E.
  set (y := 1 / (c * Rap)). assert (HP := PI_RGT_0). destruct (g3_bt g).
  - assert (EB : badTri (c * y * g3_d3 g k) (g3_u g k) (g3_v g k) = badTri (y * g3_d3 g k) (g3_u g k) (g3_v g k)).
    { rewrite Rmult_assoc. apply bad_scale; auto. }
    rewrite EB. destruct (badTri (y * g3_d3 g k) (g3_u g k) (g3_v g k)); [field; lra|].
    set (ty := tOf g (c * Rap) k).
    assert (ES : snd (cR c * ty)%C = c * snd ty) by (unfold cmul, cR; cbn [fst snd]; ring). rewrite ES.
    assert (EA : Rabs (c * y * g3_d3 g k * (c * y * g3_d3 g k) * (c * y * g3_d1 g k) / (c * snd ty)) =
      c * c * Rabs (y * g3_d3 g k * (y * g3_d3 g k) * (y * g3_d1 g k) / snd ty)).
    { rewrite <- (Rabs_right (c * c)) by nra. rewrite <- Rabs_mult. f_equal. unfold Rdiv. rewrite Rinv_mult. generalize (/ snd ty). intro z. field. lra. }
    rewrite EA. field. lra.
  - field. lra.
Qed.
Lemma dotN_scale g c Rap k1 k2 k3 n : 0 < c -> 0 < Rap -> 0 < k1 -> 0 < k2 -> 0 < k3 ->
  forall k, (Tn n (calcT (cR (sOf g (c * Rap) k)) (tOf g (c * Rap) k) k1 k2 k3) * cR (weightOf g (c * Rap) k))%C =
            (Tn n (calcT (cR (sOf g Rap k)) (tOf g Rap k) (c * k1) (c * k2) (c * k3)) * cR (weightOf g Rap k))%C.
Proof.
  intros Hc HR P1 P2 P3 k. rewrite (tOf_scale g c Rap k), (weight_scale g c Rap k) by auto.
  assert (ES : sOf g Rap k = c * sOf g (c * Rap) k) by (unfold sOf; field; lra). rewrite ES, cR_mul.
  rewrite (calcT_scale n c (cR (sOf g (c * Rap) k)) (tOf g (c * Rap) k) k1 k2 k3) by auto. rewrite cR_mul. ring.
Qed.
(** Taking the second aperture for R: the same values with the first two of the three exchanged. *)
Theorem C84_first g Rap k2 k3 : g3_bt g = LogRUV -> 0 < Rap -> 0 < k2 -> 0 < k3 ->
  calculateMap3 g (k2 * Rap) (1 / k2) (k3 / k2) = swap12 (calculateMap3 g Rap k2 k3).
Proof.
  intros HB HR P2 P3. rewrite !calc_spec, <- eight_12.
  assert (Q2 : 0 < 1 / k2) by (apply Rdiv_lt_0_compat; lra). assert (Q3 : 0 < k3 / k2) by (apply Rdiv_lt_0_compat; lra).
  assert (A : forall p1 p2 p3 n k, Tw g (k2 * Rap) (1 / k2) (k3 / k2) (p1, p2, p3) n k =
    (Tn n (calcT (cR (sOf g Rap k)) (tOf g Rap k) (k2 * aper (1/k2) (k3/k2) p1) (k2 * aper (1/k2) (k3/k2) p2) (k2 * aper (1/k2) (k3/k2) p3)) * cR (weightOf g Rap k))%C).
  { intros. unfold Tw. apply dotN_scale; auto; unfold aper; destruct p1 as [|[|[|]]], p2 as [|[|[|]]], p3 as [|[|[|]]]; lra. }
  assert (B : forall p1 p2 p3 n k, Tw g Rap k2 k3 (p1, p2, p3) n k =
    (Tn n (calcT (cR (sOf g Rap k)) (tOf g Rap k) (aper k2 k3 p1) (aper k2 k3 p2) (aper k2 k3 p3)) * cR (weightOf g Rap k))%C) by reflexivity.
  assert (E1 : k2 * aper (1/k2) (k3/k2) 1 = aper k2 k3 2) by (cbn; ring).
  assert (E2 : k2 * aper (1/k2) (k3/k2) 2 = aper k2 k3 1) by (cbn; field; lra).
  assert (E3 : k2 * aper (1/k2) (k3/k2) 3 = aper k2 k3 3) by (cbn; field; lra).
  assert (C : forall p1 p2 p3 n l, csumB (fun k => Tw g (k2 * Rap) (1 / k2) (k3 / k2) (p1, p2, p3) n k * gamN g n k)%C l =
    csumB (fun k => (Tn n (calcT (cR (sOf g Rap k)) (tOf g Rap k) (k2 * aper (1/k2) (k3/k2) p1) (k2 * aper (1/k2) (k3/k2) p2) (k2 * aper (1/k2) (k3/k2) p3)) * cR (weightOf g Rap k)) * gamN g n k)%C l).
  { intros. apply csumB_ext. intros. rewrite A. auto. }
  assert (D : forall p1 p2 p3 n l, csumB (fun k => Tw g Rap k2 k3 (p1, p2, p3) n k * gamN g n k)%C l =
    csumB (fun k => (Tn n (calcT (cR (sOf g Rap k)) (tOf g Rap k) (aper k2 k3 p1) (aper k2 k3 p2) (aper k2 k3 p3)) * cR (weightOf g Rap k)) * gamN g n k)%C l) by reflexivity.
  assert (M : forall j j', (j, j') = (0, 0)%nat \/ (j, j') = (1, 2)%nat \/ (j, j') = (2, 1)%nat \/ (j, j') = (3, 3)%nat ->
    momentSpec g (k2 * Rap) (1/k2) (k3/k2) j = momentSpec g Rap k2 k3 j').
  { intros j j' H. rewrite !mom_psum, HB. unfold psum.
    repeat destruct H as [H|H]; injection H as -> ->; cbn -[csumB Tw aper gamN]; rewrite !C, !D, E1, E2, E3; ring. }
  rewrite (M 0 0)%nat, (M 1 2)%nat, (M 2 1)%nat, (M 3 3)%nat by auto.
  assert (V : forall n, vrow g (k2 * Rap) (1/k2) (k3/k2) n = vrow g Rap k2 k3 n).
  { intro n. apply varDot_ext. intro k. rewrite HB. unfold psum. cbn -[Tw]. rewrite !A, !B, E1, E2, E3. ring. }
  rewrite !V. reflexivity.
Qed.

(** ** All shears turned by 45 degrees *)
Definition turnedGam (g : g3res) : g3res := withGam g (fun n k => if Nat.eqb n 0 then (- ci * gamN g 0 k)%C else (ci * gamN g n k)%C).
Definition turnedRes (r : map3res) : map3res :=
  mkMap3 (- mx3 r) (mxmxmap r) (mxmapmx r) (mapmxmx r) (- mapmapmx r) (- mapmxmap r) (- mxmapmap r) (map3 r) (varmap3 r).
Lemma csumB_scal c f l : csumB (fun k => c * f k)%C l = (c * csumB f l)%C.
Proof. induction l as [|k l IH]; cbn -[cmul cadd]; [ring|]. fold (csumB f l). fold (csumB (fun k => c * f k)%C l). rewrite IH. ring. Qed.
Lemma psum_scal bt c f : psum bt (fun p => c * f p)%C = (c * psum bt f)%C.
Proof. unfold psum. induction (perms bt) as [|k l IH]; cbn -[cmul cadd]; [ring|]. rewrite IH. ring. Qed.
Theorem C84_turn45 g Rap k2 k3 : calculateMap3 (turnedGam g) Rap k2 k3 = turnedRes (calculateMap3 g Rap k2 k3).
Proof.
  rewrite !calc_spec.
  assert (M : forall j, (j <= 3)%nat -> momentSpec (turnedGam g) Rap k2 k3 j = ((if Nat.eqb j 0 then - ci else ci) * momentSpec g Rap k2 k3 j)%C).
  { intros j Hj. rewrite !mom_psum, <- psum_scal. apply psum_ext. intros p Hp. rewrite <- csumB_scal. apply csumB_ext. intros k Hk.
    assert (V : (vertexOf p j <= 3)%nat /\ Nat.eqb (vertexOf p j) 0 = Nat.eqb j 0).
    { cbn [g3_bt turnedGam withGam] in Hp. destruct (g3_bt g); cbn in Hp; (destruct j as [|[|[|[|]]]]; [..|lia]);
        repeat (destruct Hp as [<-|Hp]; [cbn; split; [lia|reflexivity]|]); destruct Hp. }
    destruct V as [V1 V2]. change (Tw (turnedGam g)) with (Tw g). rewrite <- V2. set (n := vertexOf p j) in *.
    destruct n as [|[|[|[|n]]]]; try lia; cbn [Nat.eqb gamN turnedGam withGam g3_gam0 g3_gam1 g3_gam2 g3_gam3]; ring. }
  rewrite !M by lia. cbn [Nat.eqb].
  change (vrow (turnedGam g)) with (vrow g).
  generalize (momentSpec g Rap k2 k3 0) (momentSpec g Rap k2 k3 1) (momentSpec g Rap k2 k3 2) (momentSpec g Rap k2 k3 3).
  intros a b c d. unfold eight, turnedRes, ci. cbn -[vrow]. unfold cadd, csub, copp, cmul. cbn [fst snd]. f_equal; ring.
Qed.
