(** C84: the T functions of the aperture mass skewness. *)
From Coq Require Import Reals Lra Lia List ZArith.
From Verif Require Import Base Spin SpinFacts Cplx Corr3 Map3 SpecMap3 Map3Facts.
Import ListNotations.
Open Scope R_scope.

Definition Tn (n : nat) (T : tvals) : cplx :=
  match n with 0%nat => T0 T | 1%nat => T1 T | 2%nat => T2 T | _ => T3 T end.

(** ** The two branches agree for k1 = k2 = k3 = 1 *)
Lemma one_gen q1 q2 q3 b1 b2 b3 :
  let a1 := cnorm q1 in let a2 := cnorm q2 in let a3 := cnorm q3 in
  calcTone q1 q2 q3 a1 a2 a3 b1 b2 b3 = calcTgen q1 q2 q3 a1 a2 a3 b1 b2 b3 1 1 1.
Proof.
  intros a1 a2 a3.
  assert (E : sqrt ((1 * 1 * (1 * 1) + 1 * 1 * (1 * 1) + 1 * 1 * (1 * 1)) / 3) = 1).
  { replace ((1 * 1 * (1 * 1) + 1 * 1 * (1 * 1) + 1 * 1 * (1 * 1)) / 3) with 1 by field. apply sqrt_1. }
  unfold calcTone, calcTgen. rewrite E. cbv zeta.
  replace (1 * 1 / 1) with 1 by field.
  replace (((2 * 1 + 2 * 1 - 1) * a1 + (2 * 1 + 2 * 1 - 1) * a2 + (2 * 1 + 2 * 1 - 1) * a3) / (6 * 1)) with ((a1 + a2 + a3) / 2) by field.
  replace (- (a1 + a2 + a3) / 2) with (- ((a1 + a2 + a3) / 2)) by field.
  set (e := exp _). replace (- (1 * 1 * 1) * e / (1 * 1)) with (- e) by field.
  replace (1 - 1) with 0 by ring.
  assert (F : forall z y : cplx, (cR ((1 + 1) / 2) + cR 0 * z / y = IZC 1)%C).
  { intros z y. replace ((1 + 1) / 2) with 1 by field. unfold cdiv. change (cR 1) with (IZC 1). change (cR 0) with (IZC 0). ring. }
  assert (G : forall z y : cplx, (cR (1 * 1) + cR (0 * 1) * z / y = IZC 1)%C).
  { intros z y. rewrite Rmult_0_l, Rmult_1_r. unfold cdiv. change (cR 1) with (IZC 1). change (cR 0) with (IZC 0). ring. }
  rewrite !F, !G, !conj_Z. replace (a1 * a2 * a3 * 27 * 1) with (a1 * a2 * a3 * 27) by ring.
  replace (24 * (1 * 1 * 1)) with 24 by ring. replace (9 * (1 * 1)) with 9 by ring.
  unfold cdiv. set (D := cinv (cR (a1 * a2 * a3 * 27))). change (cR 24) with (IZC 24). change (cR 9) with (IZC 9).
  assert (E24 : forall x, cR (x / 24) = (cR x * cinv (IZC 24))%C) by (intro x; rewrite cR_div; reflexivity).
  rewrite !E24. unfold csq. rewrite !cR_mul, cR_opp. change (cR 2) with (IZC 2). change (cR 1) with (IZC 1).
  f_equal; ring.
Qed.

Lemma calcT_gen s t k1 k2 k3 :
  let q1 := ((s + t) / IZC 3)%C in let q2 := (q1 - t)%C in let q3 := (q1 - s)%C in
  calcT s t k1 k2 k3 = calcTgen q1 q2 q3 (cnorm q1) (cnorm q2) (cnorm q3)
    (csq (cconj q1) * q2 * q3)%C (csq (cconj q2) * q1 * q3)%C (csq (cconj q3) * q1 * q2)%C k1 k2 k3.
Proof.
  intros q1 q2 q3. unfold calcT, allOne. fold q1 q2 q3.
  destruct (Req_EM_T k1 1) as [->|]; auto. destruct (Req_EM_T k2 1) as [->|]; auto.
  destruct (Req_EM_T k3 1) as [->|]; auto. apply one_gen.
Qed.
(** Theorem: the branch for equal apertures is the general one with k1 = k2 = k3 = 1. *)
Theorem C84_branches q1 q2 q3 b1 b2 b3 :
  calcTone q1 q2 q3 (cnorm q1) (cnorm q2) (cnorm q3) b1 b2 b3 =
  calcTgen q1 q2 q3 (cnorm q1) (cnorm q2) (cnorm q3) b1 b2 b3 1 1 1.
Proof. apply one_gen. Qed.

(** ** T_n times the natural component is the integral over the centres of the apertures *)
Theorem C84_T n x1 x2 x3 gam k1 k2 k3 : (n <= 3)%nat ->
  properC (x1, x2, x3) -> posV (k1, k2, k3) ->
  tripleIntegral n (x1, x2, x3) gam (k1, k2, k3)
    (Tn n (calcT (x3 - x1) (x2 - x1) k1 k2 k3) * natural n (x1, x2, x3) gam)%C.
Proof.
  intros Hn [M1 [M2 M3]] [P1 [P2 P3]]. destruct gam as [[g1 g2] g3].
  set (m := centroidC (x1, x2, x3)) in *.
  rewrite calcT_gen.
  assert (Q1 : (((x3 - x1) + (x2 - x1)) / IZC 3 = m - x1)%C) by (unfold m, centroidC; field).
  assert (Q2 : (((x3 - x1) + (x2 - x1)) / IZC 3 - (x2 - x1) = m - x2)%C) by (rewrite Q1; ring).
  assert (Q3 : (((x3 - x1) + (x2 - x1)) / IZC 3 - (x3 - x1) = m - x3)%C) by (rewrite Q1; ring).
  rewrite Q2, Q3, Q1. clear Q1 Q2 Q3.
  set (q1 := (m - x1)%C) in *. set (q2 := (m - x2)%C) in *. set (q3 := (m - x3)%C) in *.
  assert (Hq : (q1 + q2 + q3 = c0)%C) by (unfold q1, q2, q3, m, centroidC; field).
  destruct (theta_facts k1 k2 k3 P1 P2 P3) as [Hh [HK [HK1 [HK2 HK3]]]].
  unfold calcTgen. set (h := sqrt _) in *.
  set (K1 := k1 * k1 / h) in *. set (K2 := k2 * k2 / h) in *. set (K3 := k3 * k3 / h) in *.
  assert (S1 : k1 * k1 = K1 * h) by (unfold K1; field; lra).
  assert (S2 : k2 * k2 = K2 * h) by (unfold K2; field; lra).
  assert (S3 : k3 * k3 = K3 * h) by (unfold K3; field; lra).
  assert (HKc : (cR K1 * cR K2 + cR K1 * cR K3 + cR K2 * cR K3 = IZC 3)%C).
  { rewrite <- !cR_mul, <- !cR_add, HK. reflexivity. }
  set (Y := Ysh q1 q2 q3 (cR K1) (cR K2) (cR K3)).
  assert (w3 : wsum (k1, k2, k3) = 3 / (K1 * K2 * K3 * h)).
  { unfold wsum. rewrite S1, S2, S3, <- HK. field. repeat split; lra. }
  set (Ze := ((2 * K2 + 2 * K3 - K1) * cnorm q1 + (2 * K3 + 2 * K1 - K2) * cnorm q2 + (2 * K1 + 2 * K2 - K3) * cnorm q3) / (6 * h)).
  set (p1 := (q1 + Y)%C). set (p2 := (q2 + Y)%C). set (p3 := (q3 + Y)%C).
  assert (Hp1 := p1_f q1 q2 q3 _ _ _ Hq HKc M1).
  assert (Hq' : (q2 + q3 + q1 = c0)%C) by (rewrite <- Hq; ring).
  assert (Hq'' : (q3 + q1 + q2 = c0)%C) by (rewrite <- Hq; ring).
  assert (HKc' : (cR K2 * cR K3 + cR K2 * cR K1 + cR K3 * cR K1 = IZC 3)%C) by (rewrite <- HKc; ring).
  assert (HKc'' : (cR K3 * cR K1 + cR K3 * cR K2 + cR K1 * cR K2 = IZC 3)%C) by (rewrite <- HKc; ring).
  assert (Y2 : Ysh q2 q3 q1 (cR K2) (cR K3) (cR K1) = Y) by (unfold Y, Ysh; do 2 f_equal; ring).
  assert (Y3 : Ysh q3 q1 q2 (cR K3) (cR K1) (cR K2) = Y) by (unfold Y, Ysh; do 2 f_equal; ring).
  assert (Hp2 := p1_f q2 q3 q1 _ _ _ Hq' HKc' M2).
  assert (Hp3 := p1_f q3 q1 q2 _ _ _ Hq'' HKc'' M3).
  assert (Hg1 := p23_g q1 q2 q3 _ _ _ Hq HKc M1).
  assert (Hg2 := p23_g q2 q3 q1 _ _ _ Hq' HKc' M2).
  assert (Hg3 := p23_g q3 q1 q2 _ _ _ Hq'' HKc'' M3).
  rewrite ?Y2, ?Y3 in *. fold Y in Hp1, Hg1. fold p1 p2 p3 in Hp1, Hp2, Hp3, Hg1, Hg2, Hg3.

  assert (R1 : cR K1 <> c0) by (apply cR_0; lra). assert (R2 : cR K2 <> c0) by (apply cR_0; lra).
  assert (R3 : cR K3 <> c0) by (apply cR_0; lra).
  assert (F1 : (cR ((K2 + K3) / 2) + cR (K2 - K3) * (q2 - q3) / (IZC 6 * q1) = p1 / (cR K1 * q1))%C).
  { rewrite Hp1. cpush. field. auto. }
  assert (F2 : (cR ((K3 + K1) / 2) + cR (K3 - K1) * (q3 - q1) / (IZC 6 * q2) = p2 / (cR K2 * q2))%C).
  { rewrite Hp2. cpush. field. auto. }
  assert (F3 : (cR ((K1 + K2) / 2) + cR (K1 - K2) * (q1 - q2) / (IZC 6 * q3) = p3 / (cR K3 * q3))%C).
  { rewrite Hp3. cpush. field. auto. }
  assert (G1 : (cR (K2 * K3) + cR ((K3 - K2) * K1) * (q2 - q3) / (IZC 3 * q1) = - ((p2 + p3) / q1))%C).
  { rewrite Hg1. cpush. field. auto. }
  assert (G2 : (cR (K3 * K1) + cR ((K1 - K3) * K2) * (q3 - q1) / (IZC 3 * q2) = - ((p1 + p3) / q2))%C).
  { replace (p1 + p3)%C with (p3 + p1)%C by ring. rewrite Hg2. cpush. field. auto. }
  assert (G3 : (cR (K1 * K2) + cR ((K2 - K1) * K3) * (q1 - q2) / (IZC 3 * q3) = - ((p1 + p2) / q3))%C).
  { rewrite Hg3. cpush. field. auto. }
  rewrite F1, F2, F3, G1, G2, G3. unfold Tn. cbn [T0 T1 T2 T3].
  assert (X1 : (x1 - (m + Y) = - p1)%C) by (unfold p1, q1; ring).
  assert (X2 : (x2 - (m + Y) = - p2)%C) by (unfold p2, q2; ring).
  assert (X3 : (x3 - (m + Y) = - p3)%C) by (unfold p3, q3; ring).
  unfold tripleIntegral. exists (m + Y)%C, Ze. split.
  - intro y. unfold expo. rewrite S1, S2, S3, w3.
    assert (D : forall (c : cplx -> R), (forall a b, c (a + b)%C = c a + c b) -> (forall a b, c (a - b)%C = c a - c b) ->
      (forall r a, c (cR r * a)%C = r * c a) -> c c0 = 0 ->
      c (x1 - y)%C ^ 2 / K1 + c (x2 - y)%C ^ 2 / K2 + c (x3 - y)%C ^ 2 / K3 =
      ((2 * K2 + 2 * K3 - K1) * c q1 ^ 2 + (2 * K3 + 2 * K1 - K2) * c q2 ^ 2 + (2 * K1 + 2 * K2 - K3) * c q3 ^ 2) / 3 +
      3 / (K1 * K2 * K3) * c (y - (m + Y))%C ^ 2).
    { intros c ca cs cr cz.
      assert (Hc : c q1 + c q2 + c q3 = 0) by (rewrite <- !ca, Hq; auto).
      assert (Q := square_1d K1 K2 K3 (c q1) (c q2) (c q3) (c y - c m) HK1 HK2 HK3 HK Hc).
      assert (EY : c Y = - ((c q1 * (K2 * K3) + c q2 * (K1 * K3) + c q3 * (K1 * K2)) / 3)).
      { unfold Y, Ysh. replace (- ((q1 * (cR K2 * cR K3) + q2 * (cR K1 * cR K3) + q3 * (cR K1 * cR K2)) / IZC 3))%C with
          (cR (- 1 / 3) * (cR (K2 * K3) * q1 + cR (K1 * K3) * q2 + cR (K1 * K2) * q3))%C by (cpush; field).
        rewrite !cr, !ca, !cr. field. }
      rewrite (cs y (m + Y)%C), ca, EY. replace (c y - (c m + - ((c q1 * (K2 * K3) + c q2 * (K1 * K3) + c q3 * (K1 * K2)) / 3)))
        with (c y - c m + (c q1 * (K2 * K3) + c q2 * (K1 * K3) + c q3 * (K1 * K2)) / 3) by ring.
      rewrite <- Q.
      assert (E1 : c q1 = c m - c x1) by apply cs. assert (E2 : c q2 = c m - c x2) by apply cs.
      assert (E3 : c q3 = c m - c x3) by apply cs. rewrite E1, E2, E3, !cs. field. lra. }
    assert (D1 := D fst (fun _ _ => eq_refl) (fun _ _ => eq_refl)). assert (D2 := D snd (fun _ _ => eq_refl) (fun _ _ => eq_refl)).
    clear D. assert (D1' := D1 ltac:(intros; cbn; ring) eq_refl). assert (D2' := D2 ltac:(intros; cbn; ring) eq_refl). clear D1 D2.
    unfold Ze, cnorm.
    apply (Rmult_eq_reg_r (2 * h)); [|lra].
    transitivity ((fst (x1 - y)%C ^ 2 / K1 + fst (x2 - y)%C ^ 2 / K2 + fst (x3 - y)%C ^ 2 / K3) +
      (snd (x1 - y)%C ^ 2 / K1 + snd (x2 - y)%C ^ 2 / K2 + snd (x3 - y)%C ^ 2 / K3)); [field; repeat split; lra|].
    rewrite D1', D2'. field. repeat split; lra.
  - replace (k1 ^ 4) with ((K1 * h) ^ 2) by (rewrite <- S1; ring).
    replace (k2 ^ 4) with ((K2 * h) ^ 2) by (rewrite <- S2; ring).
    replace (k3 ^ 4) with ((K3 * h) ^ 2) by (rewrite <- S3; ring).
    unfold natural. fold m q1 q2 q3.
    assert (c1f : cconj (p1 / (cR K1 * q1))%C = (cconj p1 / (cR K1 * cconj q1))%C) by (cpush; reflexivity).
    assert (c2f : cconj (p2 / (cR K2 * q2))%C = (cconj p2 / (cR K2 * cconj q2))%C) by (cpush; reflexivity).
    assert (c3f : cconj (p3 / (cR K3 * q3))%C = (cconj p3 / (cR K3 * cconj q3))%C) by (cpush; reflexivity).
    assert (cg : forall a b q, cconj (- ((a + b) / q))%C = (- ((cconj a + cconj b) / cconj q))%C) by (intros; cpush; reflexivity).
    destruct n as [|[|[|[|n]]]]; [| | | |lia]; cbn [Nat.eqb cIf].
    + rewrite mean_n0, X1, X2, X3, !conj_opp.
      apply (gen_T0 q1 q2 q3 K1 K2 K3 h (exp (- Ze)) (wsum (k1, k2, k3)) p1 p2 p3); auto; cpush; reflexivity.
    + rewrite mean_n1, X1, X2, X3, !conj_opp.
      apply (gen_T1 q1 q2 q3 K1 K2 K3 h (exp (- Ze)) (wsum (k1, k2, k3)) p1 p2 p3); auto; cpush; reflexivity.
    + rewrite mean_n2, X1, X2, X3, !conj_opp.
      apply (gen_T2 q1 q2 q3 K1 K2 K3 h (exp (- Ze)) (wsum (k1, k2, k3)) p1 p2 p3); auto; cpush; reflexivity.
    + rewrite mean_n3, X1, X2, X3, !conj_opp.
      apply (gen_T3 q1 q2 q3 K1 K2 K3 h (exp (- Ze)) (wsum (k1, k2, k3)) p1 p2 p3); auto; cpush; reflexivity.
Qed.
