(** C84: the triangle that calculateMap3 builds from the means of a bin, and the Jacobians. *)
From Coq Require Import Reals Lra Lia List ZArith Bool.
From Verif Require Import Base Geometry Tree Spec GeomFacts Spin SpinFacts Cplx Corr3 SpecTri SpecSas SpecGGG
  Map3 SpecMap3 Map3Facts PropsMap3.
Import ListNotations.
Open Scope R_scope.

(** ** T does not change when the triangle is turned *)
Lemma norm_mul z w : cnorm (z * w)%C = cnorm z * cnorm w.
Proof. unfold cnorm, cmul. cbn [fst snd]. ring. Qed.
Lemma norm1_inv r : cnorm r = 1 -> (r * cconj r)%C = IZC 1.
Proof. intro H. rewrite <- cR_norm, H. reflexivity. Qed.
Lemma unit_n0 r : cnorm r = 1 -> r <> c0.
Proof. intros H ->. unfold cnorm in H. cbn in H. lra. Qed.
Lemma inv_mul r z : r <> c0 -> cinv (r * z)%C = (cinv r * cinv z)%C.
Proof.
  intro N. assert (HP := cnorm_pos r N). unfold cinv. rewrite norm_mul. cx; destruct (Req_dec (cnorm z) 0) as [E|E].
  all: try (field; split; lra).
  all: rewrite E, Rmult_0_r; unfold Rdiv; rewrite Rinv_0; ring.
Qed.
Lemma quot_turn r z q (n : Z) : r <> c0 -> ((r * z) / (IZC n * (r * q)) = z / (IZC n * q))%C.
Proof.
  intro N. replace (IZC n * (r * q))%C with (r * (IZC n * q))%C by ring. unfold cdiv. rewrite inv_mul by auto.
  generalize (cinv (IZC n * q)%C). intro D. field. auto.
Qed.
Theorem C84_turned r s t k1 k2 k3 : cnorm r = 1 -> calcT (r * s)%C (r * t)%C k1 k2 k3 = calcT s t k1 k2 k3.
Proof.
  intro Hr. assert (N := unit_n0 _ Hr). rewrite !calcT_gen.
  set (q1 := ((s + t) / IZC 3)%C). set (q2 := (q1 - t)%C). set (q3 := (q1 - s)%C).
  replace ((r * s + r * t) / IZC 3)%C with (r * q1)%C by (unfold q1; field).
  replace (r * q1 - r * t)%C with (r * q2)%C by (unfold q2; ring).
  replace (r * q1 - r * s)%C with (r * q3)%C by (unfold q3; ring).
  rewrite !norm_mul, Hr, !Rmult_1_l.
  assert (B : forall a b c, (csq (cconj (r * a)) * (r * b) * (r * c) = csq (cconj a) * b * c)%C).
  { intros a b c. rewrite conj_mul. unfold csq.
    transitivity ((r * cconj r) * (r * cconj r) * (cconj a * cconj a * b * c))%C; [ring|]. rewrite (norm1_inv _ Hr). ring. }
  rewrite !B. unfold calcTgen.
  replace (r * q2 - r * q3)%C with (r * (q2 - q3))%C by ring.
  replace (r * q3 - r * q1)%C with (r * (q3 - q1))%C by ring.
  replace (r * q1 - r * q2)%C with (r * (q1 - q2))%C by ring.
  assert (QT : forall x z q n, (cR x * (r * z) / (IZC n * (r * q)) = cR x * z / (IZC n * q))%C).
  { intros x z q n. replace (cR x * (r * z))%C with (r * (cR x * z))%C by ring. apply quot_turn; auto. }
  rewrite !QT. reflexivity.
Qed.

(** ** The triangle of a place *)
(** position and weighted shear of an object in the plane, as complex numbers *)
Definition posC (o : obj) : cplx := (px (opos o), py (opos o)).
Definition shearC (o : obj) : cplx := (ow o * og1 o, ow o * og2 o).
Definition triC (a b c : obj) : vec cplx := (posC a, posC b, posC c).
Definition scaleV (x : R) (v : vec cplx) : vec cplx := let '(a, b, c) := v in ((cR x * a)%C, (cR x * b)%C, (cR x * c)%C).
Definition flatTri (a b c : obj) : Prop := pz (opos a) = 0 /\ pz (opos b) = 0 /\ pz (opos c) = 0.
(** twice the signed area *)
Definition area2 (a b c : obj) : R :=
  (px (opos b) - px (opos a)) * (py (opos c) - py (opos a)) - (py (opos b) - py (opos a)) * (px (opos c) - px (opos a)).

Lemma along_unit g q : q <> c0 ->
  let u := unit2 q in along g q = (fst g * (fst u * fst u - snd u * snd u) + snd g * (2 * fst u * snd u),
                                   snd g * (fst u * fst u - snd u * snd u) - fst g * (2 * fst u * snd u)).
Proof.
  intros N u. assert (HP := cnorm_pos q N). unfold u, unit2. cbn [fst snd].
  assert (HS : sqrt (fst q * fst q + snd q * snd q) * sqrt (fst q * fst q + snd q * snd q) = cnorm q) by (apply sqrt_sqrt; unfold cnorm in *; lra).
  assert (HS0 : 0 < sqrt (fst q * fst q + snd q * snd q)) by (apply sqrt_lt_R0; unfold cnorm in *; lra).
  set (d := sqrt (fst q * fst q + snd q * snd q)) in *.
  assert (A : fst q / d * (fst q / d) = fst q * fst q / cnorm q) by (rewrite <- HS; field; lra).
  assert (B : snd q / d * (snd q / d) = snd q * snd q / cnorm q) by (rewrite <- HS; field; lra).
  assert (C : 2 * (fst q / d) * (snd q / d) = 2 * fst q * snd q / cnorm q) by (rewrite <- HS; field; lra).
  rewrite A, B, C. unfold along, cdiv. rewrite <- cR_inv. cx; field; lra.
Qed.
Lemma gamVal_natural n a b c : properC (triC a b c) ->
  (gamVal Flat n false a b c, gamVal Flat n true a b c) = natural n (triC a b c) (shearC a, shearC b, shearC c).
Proof.
  intros [M1 [M2 M3]]. unfold triC in *. set (m := centroidC (posC a, posC b, posC c)) in *.
  unfold natural. fold m. rewrite (along_unit _ _ M1), (along_unit _ _ M2), (along_unit _ _ M3).
  assert (Em : m = ((px (opos a) + px (opos b) + px (opos c)) / 3, (py (opos a) + py (opos b) + py (opos c)) / 3)).
  { unfold m, centroidC, cdiv, IZC. rewrite <- cR_inv. unfold posC. cx; field. }
  assert (U1 : axisAt Flat (opos a) (opos b) (opos c) = unit2 (m - posC a)%C) by (rewrite Em; reflexivity).
  assert (U2 : axisAt Flat (opos b) (opos a) (opos c) = unit2 (m - posC b)%C).
  { rewrite Em. unfold axisAt, centroidFlat, posC, csub. cbn [px py fst snd]. f_equal. f_equal; field. }
  assert (U3 : axisAt Flat (opos c) (opos a) (opos b) = unit2 (m - posC c)%C).
  { rewrite Em. unfold axisAt, centroidFlat, posC, csub. cbn [px py fst snd]. f_equal. f_equal; field. }
  unfold gamVal. rewrite U1, U2, U3. generalize (unit2 (m - posC a)%C) (unit2 (m - posC b)%C) (unit2 (m - posC c)%C).
  intros u1 u2 u3. unfold prodRe, prodIm, shearA, shearB, shearC. cbn [fst snd].
  destruct (Nat.eqb n 1), (Nat.eqb n 2), (Nat.eqb n 3); unfold cIf; cx; ring.
Qed.
Lemma natural_scale n x v gam : 0 < x -> natural n (scaleV x v) gam = natural n v gam.
Proof.
  intro Hx. destruct v as [[a b] c], gam as [[g1 g2] g3]. unfold scaleV, natural.
  set (m := centroidC (a, b, c)).
  assert (Em : centroidC ((cR x * a)%C, (cR x * b)%C, (cR x * c)%C) = (cR x * m)%C) by (unfold m, centroidC; field).
  rewrite Em.
  assert (A : forall g q, along g (cR x * q)%C = along g q).
  { intros g q. assert (N : cR x <> c0) by (apply cR_0; lra). unfold along. rewrite norm_mul.
    assert (E : cnorm (cR x) = x * x) by (unfold cnorm, cR; cbn [fst snd]; ring). rewrite E, !cR_mul, conj_mul, conj_R.
    unfold csq. transitivity ((cR x * cR x) * (g * (cconj q * cconj q)) / ((cR x * cR x) * cR (cnorm q)))%C; [f_equal; ring|].
    unfold cdiv. rewrite inv_mul by (apply cmul_n0; auto). rewrite !inv_mul by auto. generalize (cinv (cR (cnorm q))). intro D. field. auto. }
  replace (cR x * m - cR x * a)%C with (cR x * (m - a))%C by ring.
  replace (cR x * m - cR x * b)%C with (cR x * (m - b))%C by ring.
  replace (cR x * m - cR x * c)%C with (cR x * (m - c))%C by ring. rewrite !A. reflexivity.
Qed.

Section tri.
Variables (a b c : obj).
Hypothesis HF : flatTri a b c.
Hypothesis HA : area2 a b c <> 0.
Let xb := px (opos b) - px (opos a). Let yb := py (opos b) - py (opos a).
Let xc := px (opos c) - px (opos a). Let yc := py (opos c) - py (opos a).
Let D1 := side1 a b c. Let D2 := side2 a b c. Let D3 := side3 a b c.
Let area_is : area2 a b c = xb * yc - yb * xc. Proof. reflexivity. Qed.
Lemma sq_pos u v : u * v <> 0 -> 0 < u * u. Proof. intro H. destruct (Req_dec u 0) as [->|N]; [exfalso; apply H; ring|nra]. Qed.
Lemma side_sq : D2 * D2 = xc * xc + yc * yc /\ D3 * D3 = xb * xb + yb * yb /\
  D1 * D1 = D2 * D2 + D3 * D3 - 2 * (xb * xc + yb * yc) /\ 0 < D1 /\ 0 < D2 /\ 0 < D3.
Proof.
  destruct HF as [Za [Zb Zc]].
  assert (E2 : D2 * D2 = xc * xc + yc * yc).
  { unfold D2, side2, euclid, xc, yc. rewrite sqrt_sqrt by (repeat apply Rplus_le_le_0_compat; try apply Rle_0_sqr; apply Rle_0_sqr || apply pow2_ge_0). rewrite Za, Zc; ring. }
  assert (E3 : D3 * D3 = xb * xb + yb * yb).
  { unfold D3, side3, euclid, xb, yb. rewrite sqrt_sqrt by (repeat apply Rplus_le_le_0_compat; try apply Rle_0_sqr; apply Rle_0_sqr || apply pow2_ge_0). rewrite Za, Zb; ring. }
  assert (E1 : D1 * D1 = (xb - xc) * (xb - xc) + (yb - yc) * (yb - yc)).
  { unfold D1, side1, euclid, xb, yb, xc, yc. rewrite sqrt_sqrt by (repeat apply Rplus_le_le_0_compat; try apply Rle_0_sqr; apply Rle_0_sqr || apply pow2_ge_0). rewrite Zb, Zc; ring. }
  assert (P : forall u v w z, u * z - v * w <> 0 -> 0 < u * u + v * v).
  { intros u v w z H. destruct (Req_dec u 0) as [->|N]; [|nra]. destruct (Req_dec v 0) as [->|N]; [|nra]. exfalso; apply H; ring. }
  assert (P1 : 0 < (xb - xc) * (xb - xc) + (yb - yc) * (yb - yc)).
  { apply (P (xb - xc) (yb - yc) xb yb). intro H. apply HA. rewrite area_is. nra. }
  assert (P2 : 0 < xc * xc + yc * yc). { apply (P xc yc xb yb). intro H. apply HA. rewrite area_is. nra. }
  assert (P3 : 0 < xb * xb + yb * yb). { apply (P xb yb xc yc). intro H. apply HA. rewrite area_is. nra. }
  assert (N1 : 0 <= D1) by apply sqrt_pos. assert (N2 : 0 <= D2) by apply sqrt_pos. assert (N3 : 0 <= D3) by apply sqrt_pos.
  repeat split; auto; try nra.
Qed.
(** the triangle turned so that side 2 lies along the x axis *)
Definition turnC : cplx := (xc / D2, yc / D2).
Definition tauC : cplx := ((xb * xc + yb * yc) / D2, (yb * xc - xb * yc) / D2).
Lemma turn_unit : cnorm turnC = 1.
Proof.
  destruct side_sq as [E2 [_ [_ [_ [H2 _]]]]]. unfold cnorm, turnC. cbn [fst snd].
  apply (Rmult_eq_reg_r (D2 * D2)); [|nra]. rewrite E2 at 2. field. lra.
Qed.
Lemma turn_c : (posC c - posC a)%C = (turnC * cR D2)%C.
Proof. destruct side_sq as [_ [_ [_ [_ [H2 _]]]]]. unfold turnC, posC. cx; fold xc yc; field; lra. Qed.
Lemma turn_b : (posC b - posC a)%C = (turnC * tauC)%C.
Proof.
  destruct side_sq as [E2 [_ [_ [_ [H2 _]]]]]. unfold turnC, tauC, posC. cx; fold xb yb; apply (Rmult_eq_reg_r (D2 * D2)); try nra.
  - transitivity (xb * (xc * xc + yc * yc)); [rewrite <- E2; ring|field; lra].
  - transitivity (yb * (xc * xc + yc * yc)); [rewrite <- E2; ring|field; lra].
Qed.
Lemma tau_norm : fst tauC * fst tauC + snd tauC * snd tauC = D3 * D3.
Proof.
  destruct side_sq as [E2 [E3 [_ [_ [H2 _]]]]]. unfold tauC. cbn [fst snd]. apply (Rmult_eq_reg_r (D2 * D2)); [|nra].
  transitivity ((xb * xb + yb * yb) * (xc * xc + yc * yc)); [field; lra|]. rewrite <- E2, <- E3. ring.
Qed.
Lemma tau_snd : snd tauC = - area2 a b c / D2.
Proof. rewrite area_is. unfold tauC. cbn [snd]. f_equal. ring. Qed.
Lemma proper_tri : properC (triC a b c).
Proof.
  unfold properC, triC. set (m := centroidC _).
  assert (Em : m = ((px (opos a) + px (opos b) + px (opos c)) / 3, (py (opos a) + py (opos b) + py (opos c)) / 3)).
  { unfold m, centroidC, cdiv, IZC. rewrite <- cR_inv. unfold posC. cx; field. }
  rewrite Em. unfold posC.
  repeat split; intro H; apply HA; assert (H1 := f_equal fst H); assert (H2 := f_equal snd H); cbn in H1, H2;
    unfold area2.
  - assert (px (opos b) - px (opos a) = - (px (opos c) - px (opos a))) by lra.
    assert (py (opos b) - py (opos a) = - (py (opos c) - py (opos a))) by lra. rewrite H0, H3. ring.
  - assert (px (opos c) = 2 * px (opos b) - px (opos a)) by lra.
    assert (py (opos c) = 2 * py (opos b) - py (opos a)) by lra. rewrite H0, H3. ring.
  - assert (px (opos b) = 2 * px (opos c) - px (opos a)) by lra.
    assert (py (opos b) = 2 * py (opos c) - py (opos a)) by lra. rewrite H0, H3. ring.
Qed.
(** LogRUV *)
Lemma tRUV_is x u v : 0 < x -> u = D3 / D2 -> Rabs v = (D1 - D2) / D3 -> (0 < v <-> 0 < area2 a b c) ->
  badTri (x * D3) u v = false /\ tRUV (x * D3) u v = (cR x * tauC)%C.
Proof.
  intros Hx Hu Hv Hs. destruct side_sq as [E2 [E3 [E1 [H1 [H2 H3]]]]].
  assert (TX : txRaw (x * D3) u v = x * fst tauC).
  { unfold txRaw. assert (v ^ 2 = ((D1 - D2) / D3) ^ 2) by (rewrite <- Hv, pow2_abs; auto). rewrite H, Hv, Hu.
    unfold tauC. cbn [fst]. apply (Rmult_eq_reg_r (2 * D2)); [|lra].
    transitivity (x * (D2 * D2 + D3 * D3 - D1 * D1)); [field; lra|]. rewrite E1. field. lra. }
  assert (TN := tau_norm). assert (TS := tau_snd).
  assert (NS : snd tauC <> 0).
  { rewrite TS. intro H. apply HA. apply (f_equal (fun z => - z * D2)) in H. rewrite Ropp_0, Rmult_0_l in H. rewrite <- H. field. lra. }
  assert (LT : - D3 < fst tauC < D3) by (split; nra).
  assert (NB : badTri (x * D3) u v = false).
  { unfold badTri. rewrite TX. destruct Rle_dec; [exfalso; nra|]. destruct Rle_dec; [exfalso; nra|]. reflexivity. }
  split; auto. unfold tRUV. rewrite NB, TX.
  assert (SQ : sqrt ((x * D3) ^ 2 - (x * fst tauC) ^ 2) = x * Rabs (snd tauC)).
  { replace ((x * D3) ^ 2 - (x * fst tauC) ^ 2) with (Rsqr (x * snd tauC)) by (unfold Rsqr; nra).
    rewrite sqrt_Rsqr_abs, Rabs_mult, (Rabs_right x) by lra. reflexivity. }
  rewrite SQ. cx; [ring|].
  destruct (Rlt_dec 0 v) as [Hp|Hn].
  - apply Hs in Hp. assert (snd tauC < 0).
    { rewrite TS. unfold Rdiv. rewrite <- Ropp_mult_distr_l. apply Ropp_lt_gt_0_contravar. apply Rmult_lt_0_compat; [lra|]. apply Rinv_0_lt_compat; lra. }
    rewrite Rabs_left by lra. ring.
  - assert (0 < snd tauC).
    { assert (area2 a b c < 0). { destruct (Rtotal_order (area2 a b c) 0) as [|[|]]; auto; [contradiction|]. exfalso. apply Hn. apply Hs. auto. }
      rewrite TS. apply Rmult_lt_0_compat; [lra|]. apply Rinv_0_lt_compat; lra. }
    rewrite Rabs_right by lra. ring.
Qed.
(** LogSAS *)
Lemma tSAS_is x : ccwSpec Flat a c b = true -> tSAS (x * D3) (angleAt a b c) = (cR x * tauC)%C.
Proof.
  intro Hc. destruct side_sq as [E2 [E3 [E1 [H1 [H2 H3]]]]]. destruct HF as [Za [Zb Zc]].
  assert (TN := tau_norm). assert (TS := tau_snd).
  assert (HN : area2 a b c < 0).
  { unfold ccwSpec, ccwFlat, Rltb in Hc. destruct Rlt_dec as [H|]; [|discriminate]. unfold area2. lra. }
  assert (SP : 0 < snd tauC). { rewrite TS. apply Rmult_lt_0_compat; [lra|]. apply Rinv_0_lt_compat; lra. }
  assert (EA : angleAt a b c = acos (fst tauC / D3)).
  { unfold angleAt. fold xb yb xc yc D2 D3. rewrite Za, Zb, Zc. f_equal. unfold tauC. cbn [fst]. field. lra. }
  assert (B : -1 <= fst tauC / D3 <= 1).
  { assert (- D3 <= fst tauC <= D3) by (split; nra). split; apply (Rmult_le_reg_r D3); auto; unfold Rdiv; rewrite Rmult_assoc, Rinv_l; lra. }
  unfold tSAS. rewrite EA, cos_acos, sin_acos by auto.
  assert (SQ : sqrt (1 - Rsqr (fst tauC / D3)) = snd tauC / D3).
  { replace (1 - Rsqr (fst tauC / D3)) with (Rsqr (snd tauC / D3)).
    - apply sqrt_Rsqr. apply Rlt_le. apply Rdiv_lt_0_compat; auto.
    - unfold Rsqr. apply (Rmult_eq_reg_r (D3 * D3)); [|nra].
      transitivity (snd tauC * snd tauC); [field; lra|].
      transitivity (D3 * D3 - fst tauC * fst tauC); [lra|]. field. lra. }
  rewrite SQ. cx; field; lra.
Qed.

(** T times the natural component, with s and t as built, is the integral for the actual triangle. *)
Lemma place_T n x k1 k2 k3 : 0 < x -> (n <= 3)%nat -> posV (k1, k2, k3) ->
  tripleIntegral n (scaleV x (triC a b c)) (shearC a, shearC b, shearC c) (k1, k2, k3)
    (Tn n (calcT (cR (x * D2)) (cR x * tauC)%C k1 k2 k3) * (gamVal Flat n false a b c, gamVal Flat n true a b c))%C.
Proof.
  intros Hx Hn HP. rewrite gamVal_natural by apply proper_tri.
  rewrite <- (natural_scale n x) by auto.
  rewrite <- (C84_turned turnC) by apply turn_unit.
  replace (turnC * cR (x * D2))%C with (cR x * posC c - cR x * posC a)%C.
  2:{ transitivity (cR x * (posC c - posC a))%C; [ring|]. rewrite turn_c, cR_mul. ring. }
  replace (turnC * (cR x * tauC))%C with (cR x * posC b - cR x * posC a)%C.
  2:{ transitivity (cR x * (posC b - posC a))%C; [ring|]. rewrite turn_b. ring. }
  unfold triC, scaleV. apply C84_T; auto.
  destruct proper_tri as [M1 [M2 M3]].
  assert (N : cR x <> c0) by (apply cR_0; lra).
  unfold properC. set (m := centroidC (posC a, posC b, posC c)) in *.
  assert (Em : centroidC ((cR x * posC a)%C, (cR x * posC b)%C, (cR x * posC c)%C) = (cR x * m)%C) by (unfold m, centroidC; field).
  rewrite Em. 
  assert (S : forall q, (m - q)%C <> c0 -> (cR x * m - cR x * q)%C <> c0).
  { intros q Hq. replace (cR x * m - cR x * q)%C with (cR x * (m - q))%C by ring. apply cmul_n0; auto. }
  auto.
Qed.
End tri.

(** The place k of a LogRUV correlation whose means are the sides, u and v of the triangle (a,b,c) *)
Definition placeRUV (g : g3res) (k : Z) (a b c : obj) : Prop :=
  g3_bt g = LogRUV /\ g3_d1 g k = side1 a b c /\ g3_d2 g k = side2 a b c /\ g3_d3 g k = side3 a b c /\
  g3_u g k = side3 a b c / side2 a b c /\ Rabs (g3_v g k) = (side1 a b c - side2 a b c) / side3 a b c /\
  (0 < g3_v g k <-> ccwSpec Flat a b c = true).
Definition placeSAS (g : g3res) (k : Z) (a b c : obj) : Prop :=
  g3_bt g = LogSAS /\ g3_d2 g k = side2 a b c /\ g3_d3 g k = side3 a b c /\
  g3_u g k * g3_phiunits g = angleAt a b c /\ ccwSpec Flat a c b = true.
Theorem C84_triangle g k a b c n Rap k1 k2 k3 : 0 < Rap -> (n <= 3)%nat -> posV (k1, k2, k3) ->
  flatTri a b c -> area2 a b c <> 0 -> placeRUV g k a b c \/ placeSAS g k a b c ->
  tripleIntegral n (scaleV (1 / Rap) (triC a b c)) (shearC a, shearC b, shearC c) (k1, k2, k3)
    (Tn n (calcT (cR (sOf g Rap k)) (tOf g Rap k) k1 k2 k3) * (gamVal Flat n false a b c, gamVal Flat n true a b c))%C.
Proof.
  intros HR Hn HP HF HA H. assert (Hx : 0 < 1 / Rap) by (apply Rdiv_lt_0_compat; lra).
  assert (P := place_T a b c HF HA n (1 / Rap) k1 k2 k3 Hx Hn HP).
  unfold sOf, tOf. destruct H as [[B [_ [E2 [E3 [Eu [Ev Es]]]]]]|[B [E2 [E3 [Eu Es]]]]]; rewrite B, E2, E3.
  - destruct (tRUV_is a b c HF HA (1 / Rap) (g3_u g k) (g3_v g k) Hx Eu Ev) as [_ ->]; auto.
    rewrite Es. unfold ccwSpec, ccwFlat, Rltb. fold (area2 a b c). destruct Rlt_dec; split; intro; auto; try discriminate; contradiction.
  - rewrite Eu, (tSAS_is a b c HF HA (1 / Rap) Es). auto.
Qed.
