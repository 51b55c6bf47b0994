(** Lemmas about the T functions. *)
From Coq Require Import Reals Lra Lia List ZArith.
From Verif Require Import Base Spin SpinFacts Cplx Corr3 Map3 SpecMap3.
Import ListNotations.
Open Scope R_scope.

(** ** The Gaussian in the centre *)
Lemma square_1d K1 K2 K3 q1 q2 q3 z : 0 < K1 -> 0 < K2 -> 0 < K3 ->
  K1 * K2 + K1 * K3 + K2 * K3 = 3 -> q1 + q2 + q3 = 0 ->
  (q1 + z) ^ 2 / K1 + (q2 + z) ^ 2 / K2 + (q3 + z) ^ 2 / K3 =
  ((2 * K2 + 2 * K3 - K1) * q1 ^ 2 + (2 * K3 + 2 * K1 - K2) * q2 ^ 2 + (2 * K1 + 2 * K2 - K3) * q3 ^ 2) / 3 +
  3 / (K1 * K2 * K3) * (z + (q1 * (K2 * K3) + q2 * (K1 * K3) + q3 * (K1 * K2)) / 3) ^ 2.
Proof.
  intros H1 H2 H3 HK Hq. replace q1 with (- q2 - q3) by lra.
  assert (E : K1 = (3 - K2 * K3) / (K2 + K3)). { apply (Rmult_eq_reg_r (K2 + K3)); [|lra]. field_simplify; lra. }
  assert (H4 : K2 + K3 <> 0) by lra. assert (H5 : 3 - K2 * K3 <> 0) by nra.
  rewrite E. field. repeat split; lra.
Qed.

(** ** The algebra over the complex numbers *)
Section alg.
Variables (q1 q2 q3 K1 K2 K3 : cplx).
Hypothesis Hq : (q1 + q2 + q3 = c0)%C.
Hypothesis HK : (K1 * K2 + K1 * K3 + K2 * K3 = IZC 3)%C.
Definition Ysh : cplx := (- ((q1 * (K2 * K3) + q2 * (K1 * K3) + q3 * (K1 * K2)) / IZC 3))%C.
Lemma q1_is : q1 = (- q2 - q3)%C.
Proof. transitivity (q1 + q2 + q3 - q2 - q3)%C; [ring|]. rewrite Hq. ring. Qed.
Lemma three_q x : x = ((K1 * K2 + K1 * K3 + K2 * K3) * x / IZC 3)%C.
Proof. rewrite HK. field. Qed.
Lemma p1_f : q1 <> c0 ->
  (q1 + Ysh = K1 * q1 * ((K2 + K3) / IZC 2 + (K2 - K3) * (q2 - q3) / (IZC 6 * q1)))%C.
Proof.
  intro N. unfold Ysh. rewrite (three_q q1) at 1.
  transitivity (K1 * (q1 * ((K2 + K3) / IZC 2) + (K2 - K3) * (q2 - q3) / IZC 6))%C.
  - rewrite q1_is. field.
  - field. auto.
Qed.
Lemma p23_g : q1 <> c0 ->
  ((q2 + Ysh) + (q3 + Ysh) = - (q1 * (K2 * K3 + (K3 - K2) * K1 * (q2 - q3) / (IZC 3 * q1))))%C.
Proof.
  intro N. unfold Ysh. rewrite (three_q q2) at 1. rewrite (three_q q3) at 2.
  transitivity (- (q1 * (K2 * K3) + (K3 - K2) * K1 * (q2 - q3) / IZC 3))%C.
  - rewrite q1_is. field.
  - field. auto.
Qed.
End alg.

(** ** The means *)
Lemma mom w n : cR (INR (fact n) * (2 / w) ^ n) = (cR (INR (fact n)) * cpow (cR (2 / w)) n)%C.
Proof.
  rewrite cR_mul. f_equal. induction n as [|n IH]; [reflexivity|]. cbn [cpow pow]. rewrite cR_mul, IH. reflexivity.
Qed.
Lemma fact_1 : cR (INR (fact 1)) = IZC 1. Proof. unfold IZC. f_equal. Qed.
Lemma fact_0 : cR (INR (fact 0)) = IZC 1. Proof. unfold IZC. f_equal. Qed.
Lemma fact_2 : cR (INR (fact 2)) = IZC 2. Proof. unfold IZC. f_equal. Qed.
Ltac poly_mean w :=
  unfold spinFactor, pIf, offset, pmul, pconj;
  cbn [Nat.eqb map flat_map app Nat.add gaussMean fold_right];
  unfold gaussMean; cbn [Nat.eqb fold_right]; rewrite ?mom, ?fact_0, ?fact_1, ?fact_2; cbn [cpow];
  cpush; change c1 with (IZC 1).
Definition mean1 (w : R) (p q r : cplx) : cplx :=
  (csq p * csq q * csq r + cR (2 / w) * (IZC 4 * (p * q * r * (q + r))) +
   IZC 2 * csq (cR (2 / w)) * (csq (q + r) + IZC 2 * (q * r)))%C.
Lemma mean_n0 w x1 x2 x3 y0 :
  gaussMean w (pmul (pIf false (spinFactor x1 y0)) (pmul (pIf false (spinFactor x2 y0)) (pIf false (spinFactor x3 y0)))) =
  (csq (cconj (x1 - y0)) * csq (cconj (x2 - y0)) * csq (cconj (x3 - y0)))%C.
Proof. poly_mean w. ring. Qed.
Lemma mean_n1 w x1 x2 x3 y0 :
  gaussMean w (pmul (pIf true (spinFactor x1 y0)) (pmul (pIf false (spinFactor x2 y0)) (pIf false (spinFactor x3 y0)))) =
  mean1 w (x1 - y0)%C (cconj (x2 - y0)%C) (cconj (x3 - y0)%C).
Proof. poly_mean w. unfold mean1. cpush. ring. Qed.
Lemma mean_n2 w x1 x2 x3 y0 :
  gaussMean w (pmul (pIf false (spinFactor x1 y0)) (pmul (pIf true (spinFactor x2 y0)) (pIf false (spinFactor x3 y0)))) =
  mean1 w (x2 - y0)%C (cconj (x1 - y0)%C) (cconj (x3 - y0)%C).
Proof. poly_mean w. unfold mean1. cpush. ring. Qed.
Lemma mean_n3 w x1 x2 x3 y0 :
  gaussMean w (pmul (pIf false (spinFactor x1 y0)) (pmul (pIf false (spinFactor x2 y0)) (pIf true (spinFactor x3 y0)))) =
  mean1 w (x3 - y0)%C (cconj (x1 - y0)%C) (cconj (x2 - y0)%C).
Proof. poly_mean w. unfold mean1. cpush. ring. Qed.

(** ** The code's T functions *)
Section gen.
Variables (q1 q2 q3 : cplx) (K1 K2 K3 h E w : R) (p1 p2 p3 : cplx).
Hypotheses (N1 : q1 <> c0) (N2 : q2 <> c0) (N3 : q3 <> c0).
Hypotheses (H1 : 0 < K1) (H2 : 0 < K2) (H3 : 0 < K3) (Hh : 0 < h).
Hypothesis Hw : w = 3 / (K1 * K2 * K3 * h).
Let a1 := cnorm q1. Let a2 := cnorm q2. Let a3 := cnorm q3.
Let b1 := (csq (cconj q1) * q2 * q3)%C.
Let b2 := (csq (cconj q2) * q1 * q3)%C.
Let b3 := (csq (cconj q3) * q1 * q2)%C.
Let a123 := a1 * a2 * a3.
Let ef := - (K1 * K2 * K3) * E / (h * h).
Lemma gen_T0 f1c f2c f3c :
  f1c = (cconj p1 / (cR K1 * cconj q1))%C -> f2c = (cconj p2 / (cR K2 * cconj q2))%C -> f3c = (cconj p3 / (cR K3 * cconj q3))%C ->
  forall g1 g2 g3,
  (cR (ef * a123) * csq f1c * csq f2c * csq f3c / cR (24 * (h * h * h)) *
   (along g1 q1 * along g2 q2 * along g3 q3))%C =
  (cR ((2 * PI) ^ 2 * (- 1 / (4 * PI * (K1 * h) ^ 2)) * (- 1 / (4 * PI * (K2 * h) ^ 2)) * (- 1 / (4 * PI * (K3 * h) ^ 2)) *
       E * (2 * PI / w)) * (csq (- cconj p1) * csq (- cconj p2) * csq (- cconj p3)) * (g1 * g2 * g3))%C.
Proof.
  intros -> -> -> g1 g2 g3. subst w. unfold along, ef, a123, a1, a2, a3. cbn [pow]. rewrite !Rmult_1_r.
  assert (C1 := conj_0 _ N1). assert (C2 := conj_0 _ N2). assert (C3 := conj_0 _ N3).
  assert (HP := PI_RGT_0).
  assert (R1 : cR K1 <> c0) by (apply cR_0; lra). assert (R2 : cR K2 <> c0) by (apply cR_0; lra).
  assert (R3 : cR K3 <> c0) by (apply cR_0; lra). assert (R4 : cR h <> c0) by (apply cR_0; lra).
  assert (R5 : cR PI <> c0) by (apply cR_0; lra).
  cpush. rewrite !cR_norm. field. repeat split; auto.
Qed.
Lemma gen_T1 f1 f2c f3c g1c :
  f1 = (p1 / (cR K1 * q1))%C -> f2c = (cconj p2 / (cR K2 * cconj q2))%C -> f3c = (cconj p3 / (cR K3 * cconj q3))%C ->
  g1c = (- ((cconj p2 + cconj p3) / cconj q1))%C ->
  forall g1 g2 g3,
  (cR ef * (cR a123 * csq f1 * csq f2c * csq f3c / cR (24 * (h * h * h)) - b1 * f1 * f2c * f3c * g1c / cR (9 * (h * h)) +
       (csq b1 * csq g1c + cR (2 * K2 * K3 * a2 * a3) * b1 * f2c * f3c) / cR (a123 * 27 * h)) *
   (cconj (along g1 q1) * along g2 q2 * along g3 q3))%C =
  (cR ((2 * PI) ^ 2 * (- 1 / (4 * PI * (K1 * h) ^ 2)) * (- 1 / (4 * PI * (K2 * h) ^ 2)) * (- 1 / (4 * PI * (K3 * h) ^ 2)) *
       E * (2 * PI / w)) * mean1 w (- p1) (- cconj p2) (- cconj p3) * (cconj g1 * g2 * g3))%C.
Proof.
  intros -> -> -> -> g1 g2 g3. subst w. unfold along, ef, mean1, b1, a123, a1, a2, a3. cbn [pow]. rewrite !Rmult_1_r.
  assert (C1 := conj_0 _ N1). assert (C2 := conj_0 _ N2). assert (C3 := conj_0 _ N3).
  assert (HP := PI_RGT_0).
  assert (R1 : cR K1 <> c0) by (apply cR_0; lra). assert (R2 : cR K2 <> c0) by (apply cR_0; lra).
  assert (R3 : cR K3 <> c0) by (apply cR_0; lra). assert (R4 : cR h <> c0) by (apply cR_0; lra).
  assert (R5 : cR PI <> c0) by (apply cR_0; lra).
  cpush. rewrite !cR_norm. cpush. field. repeat split; auto.
Qed.
Lemma gen_T2 f1c f2 f3c g2c :
  f1c = (cconj p1 / (cR K1 * cconj q1))%C -> f2 = (p2 / (cR K2 * q2))%C -> f3c = (cconj p3 / (cR K3 * cconj q3))%C ->
  g2c = (- ((cconj p1 + cconj p3) / cconj q2))%C ->
  forall g1 g2 g3,
  (cR ef * (cR a123 * csq f1c * csq f2 * csq f3c / cR (24 * (h * h * h)) - b2 * f1c * f2 * f3c * g2c / cR (9 * (h * h)) +
       (csq b2 * csq g2c + cR (2 * K1 * K3 * a1 * a3) * b2 * f1c * f3c) / cR (a123 * 27 * h)) *
   (along g1 q1 * cconj (along g2 q2) * along g3 q3))%C =
  (cR ((2 * PI) ^ 2 * (- 1 / (4 * PI * (K1 * h) ^ 2)) * (- 1 / (4 * PI * (K2 * h) ^ 2)) * (- 1 / (4 * PI * (K3 * h) ^ 2)) *
       E * (2 * PI / w)) * mean1 w (- p2) (- cconj p1) (- cconj p3) * (g1 * cconj g2 * g3))%C.
Proof.
  intros -> -> -> -> g1 g2 g3. subst w. unfold along, ef, mean1, b2, a123, a1, a2, a3. cbn [pow]. rewrite !Rmult_1_r.
  assert (C1 := conj_0 _ N1). assert (C2 := conj_0 _ N2). assert (C3 := conj_0 _ N3).
  assert (HP := PI_RGT_0).
  assert (R1 : cR K1 <> c0) by (apply cR_0; lra). assert (R2 : cR K2 <> c0) by (apply cR_0; lra).
  assert (R3 : cR K3 <> c0) by (apply cR_0; lra). assert (R4 : cR h <> c0) by (apply cR_0; lra).
  assert (R5 : cR PI <> c0) by (apply cR_0; lra).
  cpush. rewrite !cR_norm. cpush. field. repeat split; auto.
Qed.
Lemma gen_T3 f1c f2c f3 g3c :
  f1c = (cconj p1 / (cR K1 * cconj q1))%C -> f2c = (cconj p2 / (cR K2 * cconj q2))%C -> f3 = (p3 / (cR K3 * q3))%C ->
  g3c = (- ((cconj p1 + cconj p2) / cconj q3))%C ->
  forall g1 g2 g3,
  (cR ef * (cR a123 * csq f1c * csq f2c * csq f3 / cR (24 * (h * h * h)) - b3 * f1c * f2c * f3 * g3c / cR (9 * (h * h)) +
       (csq b3 * csq g3c + cR (2 * K1 * K2 * a1 * a2) * b3 * f1c * f2c) / cR (a123 * 27 * h)) *
   (along g1 q1 * along g2 q2 * cconj (along g3 q3)))%C =
  (cR ((2 * PI) ^ 2 * (- 1 / (4 * PI * (K1 * h) ^ 2)) * (- 1 / (4 * PI * (K2 * h) ^ 2)) * (- 1 / (4 * PI * (K3 * h) ^ 2)) *
       E * (2 * PI / w)) * mean1 w (- p3) (- cconj p1) (- cconj p2) * (g1 * g2 * cconj g3))%C.
Proof.
  intros -> -> -> -> g1 g2 g3. subst w. unfold along, ef, mean1, b3, a123, a1, a2, a3. cbn [pow]. rewrite !Rmult_1_r.
  assert (C1 := conj_0 _ N1). assert (C2 := conj_0 _ N2). assert (C3 := conj_0 _ N3).
  assert (HP := PI_RGT_0).
  assert (R1 : cR K1 <> c0) by (apply cR_0; lra). assert (R2 : cR K2 <> c0) by (apply cR_0; lra).
  assert (R3 : cR K3 <> c0) by (apply cR_0; lra). assert (R4 : cR h <> c0) by (apply cR_0; lra).
  assert (R5 : cR PI <> c0) by (apply cR_0; lra).
  cpush. rewrite !cR_norm. cpush. field. repeat split; auto.
Qed.
End gen.

(** ** Putting it together *)
Lemma along_def g q : along g q = (g * csq (cconj q) / cR (cnorm q))%C.
Proof. reflexivity. Qed.
Lemma theta_facts k1 k2 k3 : 0 < k1 -> 0 < k2 -> 0 < k3 ->
  let h := sqrt ((k1 * k1 * (k2 * k2) + k1 * k1 * (k3 * k3) + k2 * k2 * (k3 * k3)) / 3) in
  0 < h /\ (k1 * k1 / h) * (k2 * k2 / h) + (k1 * k1 / h) * (k3 * k3 / h) + (k2 * k2 / h) * (k3 * k3 / h) = 3 /\
  0 < k1 * k1 / h /\ 0 < k2 * k2 / h /\ 0 < k3 * k3 / h.
Proof.
  intros H1 H2 H3 h.
  assert (P1 : 0 < k1 * k1) by nra. assert (P2 : 0 < k2 * k2) by nra. assert (P3 : 0 < k3 * k3) by nra.
  assert (PA : 0 < k1 * k1 * (k2 * k2)) by (apply Rmult_lt_0_compat; auto).
  assert (PB : 0 < k1 * k1 * (k3 * k3)) by (apply Rmult_lt_0_compat; auto).
  assert (PC : 0 < k2 * k2 * (k3 * k3)) by (apply Rmult_lt_0_compat; auto).
  assert (Hh : 0 < h) by (apply sqrt_lt_R0; lra).
  assert (HS : h * h = (k1 * k1 * (k2 * k2) + k1 * k1 * (k3 * k3) + k2 * k2 * (k3 * k3)) / 3) by (apply sqrt_sqrt; lra).
  split; auto. split; [|repeat split; apply Rdiv_lt_0_compat; auto].
  apply (Rmult_eq_reg_r (h * h)); [|nra]. rewrite HS at 2. field. lra.
Qed.
