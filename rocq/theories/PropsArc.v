(** C14: the Arc metric: great-circle angles, and what pruning with chord sizes does to them. *)
From Coq Require Import Reals Lra Lia List ZArith Bool Permutation Psatz.
From Verif Require Import Base Geometry Tree Traverse Run Spec SpecRun GeomFacts SumFacts TreeFacts
  BinFacts TravFacts Exact MetricFacts Cover Lift Runs Account Examples PropsCount PropsRun Near PropsNear PropsSampler PropsRefuted PropsRpar.
Import ListNotations.
Open Scope R_scope.

(** ** Specification *)
(** The angle between two directions. *)
Definition angle (p q : pos) : R := acos (dot p q / (norm p * norm q)).
(** How much longer an arc is than its chord of length s; than the sine s. *)
Definition arcExcess (s : R) : R := 2 * asin (s / 2) - s.
Definition sinExcess (t : R) : R := asin t - t.

(** ** Angles *)
Lemma acos_le x y : -1 <= x <= 1 -> -1 <= y <= 1 -> x <= y -> acos y <= acos x.
Proof.
  intros Hx Hy H. destruct (Rle_lt_dec (acos y) (acos x)) as [|L]; auto. exfalso.
  pose proof (acos_bound x). pose proof (acos_bound y).
  pose proof (cos_decreasing_1 (acos x) (acos y) ltac:(lra) ltac:(lra) ltac:(lra) ltac:(lra) L) as K.
  rewrite !cos_acos in K by auto. lra.
Qed.
Lemma asin_nonneg x : 0 <= x <= 1 -> 0 <= asin x.
Proof.
  intro H. rewrite asin_acos by lra. pose proof (acos_le 0 x ltac:(lra) ltac:(lra) ltac:(lra)) as K. rewrite acos_0 in K. lra.
Qed.
Lemma dot_sym p q : dot p q = dot q p.
Proof. unfold dot; ring. Qed.
Lemma unit_dot p q : norm p = 1 -> norm q = 1 -> -1 <= dot p q <= 1.
Proof. intros H1 H2. pose proof (cauchy_schwarz p q) as H. rewrite H1, H2 in H. apply Rabs_bounds in H. lra. Qed.
Lemma unit_triangle p q r : norm p = 1 -> norm q = 1 -> norm r = 1 ->
  acos (dot p r) <= acos (dot p q) + acos (dot q r).
Proof.
  intros Hp Hq Hr. pose proof (unit_dot p q Hp Hq) as Ha. pose proof (unit_dot q r Hq Hr) as Hb.
  pose proof (unit_dot p r Hp Hr) as Hc. set (a := dot p q) in *. set (b := dot q r) in *.
  pose proof (acos_bound a) as Aa. pose proof (acos_bound b) as Ab. pose proof (acos_bound (dot p r)) as Ac.
  destruct (Rle_lt_dec (acos a + acos b) PI) as [L|]; [|lra].
  assert (E : cos (acos a + acos b) = a * b - sqrt (1 - Rsqr a) * sqrt (1 - Rsqr b)).
  { rewrite cos_plus, !cos_acos, !sin_acos by auto. reflexivity. }
  set (u := psub p (pscale a q)). set (v := psub r (pscale b q)).
  assert (Np : normSq p = 1) by (rewrite <- norm_sq, Hp; ring).
  assert (Nq : normSq q = 1) by (rewrite <- norm_sq, Hq; ring).
  assert (Nr : normSq r = 1) by (rewrite <- norm_sq, Hr; ring).
  assert (Nu : norm u = sqrt (1 - Rsqr a)).
  { unfold norm. f_equal. transitivity (normSq p - 2 * a * dot p q + a * a * normSq q);
      [unfold u, normSq, psub, pscale, dot; simpl; ring|]. rewrite Np, Nq. fold a. unfold Rsqr. ring. }
  assert (Nv : norm v = sqrt (1 - Rsqr b)).
  { unfold norm. f_equal. transitivity (normSq r - 2 * b * dot q r + b * b * normSq q);
      [unfold v, normSq, psub, pscale, dot; simpl; ring|]. rewrite Nr, Nq. fold b. unfold Rsqr. ring. }
  assert (Duv : dot u v = dot p r - a * b).
  { transitivity (dot p r - b * dot p q - a * dot q r + a * b * normSq q);
      [unfold u, v, normSq, psub, pscale, dot; simpl; ring|]. rewrite Nq. fold a b. ring. }
  pose proof (cauchy_schwarz u v) as CS. rewrite Nu, Nv, Duv in CS. apply Rabs_bounds in CS.
  rewrite <- (acos_cos (acos a + acos b)) by lra. apply acos_le; auto.
  - pose proof (COS_bound (acos a + acos b)). lra.
  - rewrite E. lra.
Qed.
Definition unitOf (p : pos) : pos := pscale (/ norm p) p.
Lemma unitOf_norm p : norm p <> 0 -> norm (unitOf p) = 1.
Proof.
  intro H. pose proof (norm_nonneg p). unfold unitOf. rewrite norm_pscale; [field; auto|]. apply Rlt_le, Rinv_0_lt_compat. lra.
Qed.
Lemma angle_unitOf p q : norm p <> 0 -> norm q <> 0 -> angle p q = acos (dot (unitOf p) (unitOf q)).
Proof. intros. unfold angle. f_equal. unfold unitOf, dot, pscale; simpl. field. auto. Qed.
Lemma angle_unit p q : norm p = 1 -> norm q = 1 -> angle p q = acos (dot p q).
Proof. intros H1 H2. unfold angle. rewrite H1, H2. f_equal. field. Qed.
Lemma angle_sym p q : angle p q = angle q p.
Proof. unfold angle. rewrite dot_sym, (Rmult_comm (norm p)). auto. Qed.
Lemma angle_triangle p q r : norm p <> 0 -> norm q <> 0 -> norm r <> 0 -> angle p r <= angle p q + angle q r.
Proof. intros. rewrite !angle_unitOf by auto. apply unit_triangle; apply unitOf_norm; auto. Qed.
Lemma angle_lip c1 c2 q1 q2 : norm c1 <> 0 -> norm c2 <> 0 -> norm q1 <> 0 -> norm q2 <> 0 ->
  Rabs (angle q1 q2 - angle c1 c2) <= angle c1 q1 + angle c2 q2.
Proof.
  intros. apply Rabs_le.
  pose proof (angle_triangle q1 c1 q2 ltac:(auto) ltac:(auto) ltac:(auto)). pose proof (angle_triangle c1 c2 q2 ltac:(auto) ltac:(auto) ltac:(auto)).
  pose proof (angle_triangle c1 q1 c2 ltac:(auto) ltac:(auto) ltac:(auto)). pose proof (angle_triangle q1 q2 c2 ltac:(auto) ltac:(auto) ltac:(auto)).
  rewrite (angle_sym q1 c1) in *. rewrite (angle_sym q2 c2) in *. lra.
Qed.
Lemma angle_bound p q : 0 <= angle p q <= PI.
Proof. apply acos_bound. Qed.

(** Chords *)
Lemma chord_angle p q : norm p = 1 -> norm q = 1 -> 2 * asin (norm (psub p q) / 2) = angle p q.
Proof.
  intros Hp Hq. rewrite angle_unit by auto. pose proof (unit_dot p q Hp Hq) as HB.
  set (t := acos (dot p q)). pose proof (acos_bound (dot p q)) as AB. fold t in AB.
  assert (CT : cos t = dot p q) by (apply cos_acos; auto).
  assert (E : norm (psub p q) = chord t).
  { pose proof (unit_dist p q Hp Hq) as U. pose proof (chord_sq t) as C. rewrite CT in C.
    rewrite <- norm_sq in U. pose proof (chord_nonneg t AB). pose proof (norm_nonneg (psub p q)).
    apply Rsqr_inj; auto. unfold Rsqr. lra. }
  rewrite E. unfold chord. replace (2 * sin (t / 2) / 2) with (sin (t / 2)) by field.
  rewrite asin_sin by lra. field.
Qed.
Lemma sin_lip a b : b <= a -> sin a - sin b <= a - b.
Proof.
  intro H. rewrite form4. destruct (Req_dec a b) as [->|Hne].
  - replace ((b - b) / 2) with 0 by field. rewrite sin_0. lra.
  - pose proof (sin_lt_x ((a - b) / 2) ltac:(lra)) as S.
    destruct (Rle_lt_dec ((a - b) / 2) 1) as [L|L].
    + assert (0 <= sin ((a - b) / 2)) by (apply sin_ge_0; pose proof PI2_1; lra).
      pose proof (COS_bound ((a + b) / 2)). nra.
    + pose proof (SIN_bound ((a - b) / 2)). pose proof (COS_bound ((a + b) / 2)). nra.
Qed.
Lemma asin_le x y : -1 <= x -> x <= y -> y <= 1 -> asin x <= asin y.
Proof. intros. rewrite !asin_acos by lra. pose proof (acos_le x y ltac:(lra) ltac:(lra) ltac:(lra)). lra. Qed.
Lemma sinExcess_mono x y : 0 <= x -> x <= y -> y <= 1 -> sinExcess x <= sinExcess y.
Proof.
  intros Hx Hxy Hy. unfold sinExcess. pose proof (asin_le x y ltac:(lra) Hxy Hy) as H.
  pose proof (sin_lip _ _ H) as L. rewrite !sin_asin in L by lra. lra.
Qed.
Lemma sinExcess_nonneg x : 0 <= x <= 1 -> 0 <= sinExcess x.
Proof. intro H. pose proof (sinExcess_mono 0 x ltac:(lra) ltac:(lra) ltac:(lra)) as K. unfold sinExcess at 1 in K. rewrite asin_0 in K. lra. Qed.
Lemma arcExcess_sin s : arcExcess s = 2 * sinExcess (s / 2).
Proof. unfold arcExcess, sinExcess. field. Qed.
Lemma pdist_unit_le2 p q : norm p = 1 -> norm q = 1 -> pdist p q <= 2.
Proof.
  intros H1 H2. unfold pdist. pose proof (norm_triangle p (pscale (-1) q)) as H. rewrite norm_neg, H1, H2 in H.
  replace (psub p q) with (padd p (pscale (-1) q)) by (unfold padd, psub, pscale; simpl; f_equal; ring). lra.
Qed.
Lemma angle_chord_excess p q S : norm p = 1 -> norm q = 1 -> pdist p q <= S -> S <= 2 ->
  angle p q <= pdist p q + arcExcess S.
Proof.
  intros H1 H2 HS HS2. rewrite <- chord_angle by auto. change (norm (psub p q)) with (pdist p q).
  pose proof (pdist_nonneg p q). pose proof (sinExcess_mono (pdist p q / 2) (S / 2) ltac:(lra) ltac:(lra) ltac:(lra)) as K.
  rewrite arcExcess_sin. unfold sinExcess in *. lra.
Qed.
(** Angle subtended by a displacement *)
Lemma angle_shift c o : norm c <> 0 -> norm o <> 0 -> pdist c o < norm c -> angle c o <= asin (pdist c o / norm c).
Proof.
  intros Hc Ho Hd. pose proof (norm_nonneg c). pose proof (norm_nonneg o). pose proof (pdist_nonneg c o) as HD.
  set (d := pdist c o) in *. set (C := norm c) in *. set (O := norm o) in *.
  assert (Ht : 0 <= d / C < 1).
  { split; [unfold Rdiv; apply Rmult_le_pos; auto; apply Rlt_le, Rinv_0_lt_compat; lra|].
    apply Rmult_lt_reg_r with C; [lra|]. unfold Rdiv. rewrite Rmult_assoc, Rinv_l by auto. lra. }
  assert (E : dot c o = (O * O + C * C - d * d) / 2).
  { unfold O, C, d, pdist. rewrite !norm_sq. unfold normSq, dot, psub; simpl. field. }
  set (w := sqrt (1 - Rsqr (d / C))).
  assert (Hw : w * w = 1 - Rsqr (d / C)) by (apply sqrt_sqrt; unfold Rsqr; nra).
  assert (Hw0 : 0 <= w) by apply sqrt_pos.
  assert (HCw : C * w * (C * w) = C * C - d * d).
  { replace (C * w * (C * w)) with (C * C * (w * w)) by ring. rewrite Hw. unfold Rsqr. field. auto. }
  assert (L : w <= dot c o / (C * O)).
  { apply Rmult_le_reg_r with (C * O); [nra|]. unfold Rdiv. rewrite Rmult_assoc, Rinv_l by nra. rewrite E.
    pose proof (Rle_0_sqr (O - C * w)) as Q. unfold Rsqr in Q. nra. }
  assert (Hb : -1 <= dot c o / (C * O) <= 1).
  { pose proof (cauchy_schwarz c o) as CS. fold C O in CS. apply Rabs_bounds in CS.
    assert (0 < / (C * O)) by (apply Rinv_0_lt_compat; nra).
    assert (C * O * / (C * O) = 1) by (apply Rinv_r; nra). unfold Rdiv. nra. }
  unfold angle. fold C O. rewrite <- (acos_cos (asin (d / C))).
  - apply acos_le; auto; [apply COS_bound|]. rewrite cos_asin by lra. exact L.
  - pose proof (asin_nonneg (d / C) ltac:(lra)). pose proof (asin_bound (d / C)). lra.
Qed.
Lemma norm_cross_sq p q : normSq (cross p q) = normSq p * normSq q - dot p q * dot p q.
Proof. unfold normSq, cross, dot; simpl; ring. Qed.

(** ** The distance *)
Lemma mdist_arc_sphere p q : norm p = 1 -> norm q = 1 -> mdist ArcSphere p q = angle p q.
Proof.
  intros Hp Hq. unfold mdist, distSq. rewrite (chord_angle p q Hp Hq). apply sqrt_Rsqr. apply angle_bound.
Qed.
Lemma sin_angle p q : norm p <> 0 -> norm q <> 0 -> norm (cross p q) / (norm p * norm q) = sin (angle p q).
Proof.
  intros Hp Hq. pose proof (norm_nonneg p). pose proof (norm_nonneg q).
  assert (Hpq : 0 < norm p * norm q) by nra.
  pose proof (cauchy_schwarz p q) as CS. apply Rabs_bounds in CS.
  assert (Hi : 0 < / (norm p * norm q)) by (apply Rinv_0_lt_compat; auto).
  assert (Hb : -1 <= dot p q / (norm p * norm q) <= 1).
  { assert (norm p * norm q * / (norm p * norm q) = 1) by (apply Rinv_r; lra). unfold Rdiv. nra. }
  unfold angle. rewrite sin_acos by auto.
  apply Rsqr_inj; [|apply sqrt_pos|].
  - unfold Rdiv. apply Rmult_le_pos; [apply norm_nonneg|lra].
  - rewrite Rsqr_sqrt by (unfold Rsqr; nra). unfold Rsqr.
    replace (norm (cross p q) / (norm p * norm q) * (norm (cross p q) / (norm p * norm q)))
      with (norm (cross p q) * norm (cross p q) / (norm p * norm p * (norm q * norm q))) by (field; auto).
    rewrite !norm_sq, norm_cross_sq.
    replace (dot p q / (norm p * norm q) * (dot p q / (norm p * norm q))) with (dot p q * dot p q / (norm p * norm p * (norm q * norm q))) by (field; auto).
    rewrite !norm_sq. field. rewrite <- !norm_sq. split; nra.
Qed.
Lemma mdist_arc_3d p q : norm p <> 0 -> norm q <> 0 -> mdist Arc3D p q = Rmin (angle p q) (PI - angle p q).
Proof.
  intros Hp Hq. unfold mdist, distSq. rewrite sin_angle by auto. set (t := angle p q).
  pose proof (angle_bound p q) as Ht. fold t in Ht.
  destruct (Rle_lt_dec t (PI / 2)).
  - rewrite asin_sin by lra. rewrite sqrt_Rsqr by lra. rewrite Rmin_left; lra.
  - replace (sin t) with (sin (PI - t)) by (rewrite sin_PI_x; auto). rewrite asin_sin by lra. rewrite sqrt_Rsqr by lra. rewrite Rmin_right; lra.
Qed.
Lemma angle_acute p q : norm p <> 0 -> norm q <> 0 -> 0 <= dot p q -> angle p q <= PI / 2.
Proof.
  intros Hp Hq Hd. pose proof (norm_nonneg p). pose proof (norm_nonneg q).
  assert (Hpq : 0 < norm p * norm q) by nra.
  pose proof (cauchy_schwarz p q) as CS. apply Rabs_bounds in CS.
  assert (Hi : 0 < / (norm p * norm q)) by (apply Rinv_0_lt_compat; auto).
  assert (norm p * norm q * / (norm p * norm q) = 1) by (apply Rinv_r; lra).
  unfold angle. rewrite <- acos_0. apply acos_le; unfold Rdiv; nra.
Qed.

(** ** Accounting *)
Lemma accounts_impl l (C C' : obj -> obj -> Z -> Prop) (D D' : obj -> obj -> Prop) s0 s1 :
  (forall o1 o2 k, In (o1, o2) l -> C o1 o2 k -> C' o1 o2 k) -> (forall o1 o2, In (o1, o2) l -> D o1 o2 -> D' o1 o2) ->
  accounts l C D s0 s1 -> accounts l C' D' s0 s1.
Proof.
  intros HC HD [cnt [drp [H1 [H2 [H3 H4]]]]]. exists cnt, drp. split; [auto|split; [|split; auto]].
  - intros o1 o2 k Hi. apply HC; auto. eapply Permutation_in; [symmetry; exact H1|]. apply in_or_app. left.
    change (o1, o2) with (fst (o1, o2, k)). apply in_map; auto.
  - intros o1 o2 Hi. apply HD; auto. eapply Permutation_in; [symmetry; exact H1|]. apply in_or_app; auto.
Qed.
Definition arcScale (M : metric) (p : pos) : R := match M with Arc3D => / norm p | _ => 1 end.
(** Where the centres of the cells are, and how far the members of a cell are from its centre. *)
Definition arcCentres (Q : runcfg) (cat : list obj) (e : R) (C : pos -> Prop) : Prop :=
  (forall p, C p -> norm p <> 0) /\ (forall o, In o cat -> norm (opos o) <> 0) /\
  (forall p o, C p -> In o cat -> angle p (opos o) <= arcScale (cmetric (rP Q)) p * pdist p (opos o) + e) /\
  (forall b, C (fieldCenter (fieldParams Q b) cat)) /\
  (forall b cells c, buildField (fieldParams Q b) cat cells -> inTops cells c -> C (getPos c)).
Definition isArc (M : metric) : Prop := M = ArcSphere \/ M = Arc3D.
Lemma arc_eff M p1 p2 s1 s2 : isArc M ->
  effSize M p1 p2 (Fin s1) (Fin s2) = (Fin (arcScale M p1 * s1), Fin (arcScale M p2 * s2)).
Proof. intros [->| ->]; cbn; rewrite ?Rmult_1_l; auto. Qed.
Lemma arcScale_nonneg M p : 0 <= arcScale M p.
Proof.
  destruct M; cbn; try lra. pose proof (norm_nonneg p). destruct (Req_dec (norm p) 0) as [->|]; [rewrite Rinv_0; lra|].
  apply Rlt_le, Rinv_0_lt_compat. lra.
Qed.
Section ArcRun.
Variables (Q : runcfg) (cat1 cat2 : list obj) (e1 e2 : R) (C1 C2 : pos -> Prop).
Hypothesis HM : isArc (cmetric (rP Q)).
Hypothesis Hr : crpar (rP Q) = None.
Hypothesis HB : validB (cbin (rP Q)).
Hypothesis HN : narrowLog (cbin (rP Q)).
Hypothesis HC1 : arcCentres Q cat1 e1 C1.
Hypothesis HC2 : arcCentres Q cat2 e2 C2.
Hypothesis HdC : forall p q, C1 p -> C2 q -> mdist (cmetric (rP Q)) p q = angle p q.
Hypothesis HdO : forall o1 o2, In o1 cat1 -> In o2 cat2 -> mdist (cmetric (rP Q)) (opos o1) (opos o2) = angle (opos o1) (opos o2).
Lemma arc_lip p q o1 o2 s1 s2 : C1 p -> C2 q -> In o1 cat1 -> In o2 cat2 ->
  pdist p (opos o1) <= s1 -> pdist q (opos o2) <= s2 ->
  Rabs (mdist (cmetric (rP Q)) (opos o1) (opos o2) - mdist (cmetric (rP Q)) p q)
   <= arcScale (cmetric (rP Q)) p * s1 + arcScale (cmetric (rP Q)) q * s2 + (e1 + e2).
Proof.
  intros Hp Hq I1 I2 D1 D2. destruct HC1 as [N1 [O1 [L1 _]]]. destruct HC2 as [N2 [O2 [L2 _]]].
  rewrite (HdC p q), HdO by auto. pose proof (angle_lip p q (opos o1) (opos o2) (N1 p Hp) (N2 q Hq) (O1 o1 I1) (O2 o2 I2)) as L.
  specialize (L1 p o1 Hp I1). specialize (L2 q o2 Hq I2).
  pose proof (arcScale_nonneg (cmetric (rP Q)) p). pose proof (arcScale_nonneg (cmetric (rP Q)) q).
  pose proof (Rmult_le_compat_l _ _ _ H D1). pose proof (Rmult_le_compat_l _ _ _ H0 D2). lra.
Qed.
Lemma arc_min0 : fst (getMinMaxSize (rP Q)) = 0.
Proof. apply minsize_metric. destruct HM as [->| ->]; discriminate. Qed.
Lemma arc_pairsOK b1 b2 cells1 cells2 : buildField (fieldParams Q b1) cat1 cells1 -> buildField (fieldParams Q b2) cat2 cells2 ->
  pairsOK (rP Q) (e1 + e2) (inTops cells1) (inTops cells2).
Proof.
  intros B1 B2 a b Ha Hb x o1 o2 Hx I1 I2. split; [|congruence].
  destruct (effSum_fin _ _ _ _ Hx) as [s1 [s2 [E1 E2]]].
  unfold effSum in Hx. rewrite E1, E2, arc_eff in Hx by auto. cbn in Hx. injection Hx; intros; subst x.
  assert (W1 := run_wf Q b1 cat1 cells1 HB B1). assert (W2 := run_wf Q b2 cat2 cells2 HB B2).
  rewrite arc_min0 in W1, W2.
  assert (K1 := member_within 0 a o1 s1 ltac:(lra) (inTops_wf _ _ _ W1 Ha) I1 E1).
  assert (K2 := member_within 0 b o2 s2 ltac:(lra) (inTops_wf _ _ _ W2 Hb) I2 E2).
  apply arc_lip; try lra.
  - destruct HC1 as [_ [_ [_ [_ H]]]]. eauto.
  - destruct HC2 as [_ [_ [_ [_ H]]]]. eauto.
  - eapply inTops_obj_cat; eauto.
  - eapply inTops_obj_cat; eauto.
Qed.
Lemma arc_cross s0 s1 : posW cat1 -> posW cat2 -> 0 <= e1 -> 0 <= e2 -> runCross Q cat1 cat2 s0 s1 ->
  accounts (pairs cat1 cat2) (cntSlop (cbin (rP Q)) angle (e1 + e2)) (drpSlop (cbin (rP Q)) angle (e1 + e2)) s0 s1.
Proof.
  intros Hw1 Hw2 He1 He2 H.
  assert (K := runCross_slop Q (e1 + e2) cat1 cat2 s0 s1 HB HN Hr Hw1 Hw2 ltac:(lra)).
  assert (X : accounts (pairs cat1 cat2) (cntSlop (cbin (rP Q)) (mdist (cmetric (rP Q))) (e1 + e2))
                (drpSlop (cbin (rP Q)) (mdist (cmetric (rP Q))) (e1 + e2)) s0 s1).
  { apply K; auto. intros F1 F2 cells1 cells2 -> -> B1 B2. split; [eapply arc_pairsOK; eauto|].
    intros HX o1 o2 I1 I2.
    set (F1 := fieldParams Q (brute1 (rbrute Q))) in *. set (F2 := fieldParams Q (brute2 (rbrute Q))) in *.
    destruct (earlyExit_sound (rP Q) (fieldCenter F1 cat1) (fieldCenter F2 cat2) (fieldSize F1 cat1) (fieldSize F2 cat2)
      (opos o1) (opos o2) (e1 + e2) HB (fieldSize_nonneg _ _) (fieldSize_nonneg _ _)) as [Y|Y]; auto.
    - intros x Hx. rewrite arc_eff in Hx by auto. cbn in Hx. injection Hx; intros; subst x. split; [|congruence].
      apply arc_lip; auto.
      + destruct HC1 as [_ [_ [_ [Y _]]]]. apply Y.
      + destruct HC2 as [_ [_ [_ [Y _]]]]. apply Y.
      + apply fieldSize_bound; auto.
      + apply fieldSize_bound; auto.
    - exfalso. apply Y. rewrite Hr. exact I. }
  revert X. apply accounts_impl; unfold cntSlop, drpSlop; intros o1 o2; intros; apply in_pairs in H0 as [I1 I2];
    rewrite <- HdO by auto; auto.
Qed.
End ArcRun.
Lemma arc_auto Q cat e C s0 s1 :
  isArc (cmetric (rP Q)) -> crpar (rP Q) = None -> validB (cbin (rP Q)) -> narrowLog (cbin (rP Q)) ->
  arcCentres Q cat e C -> (forall p q, C p -> C q -> mdist (cmetric (rP Q)) p q = angle p q) ->
  (forall o1 o2, In o1 cat -> In o2 cat -> mdist (cmetric (rP Q)) (opos o1) (opos o2) = angle (opos o1) (opos o2)) ->
  (forall p, C p -> arcScale (cmetric (rP Q)) p <= 1) ->
  posW cat -> 0 <= e -> runAuto Q cat s0 s1 ->
  accountsAuto cat (cntSlop (cbin (rP Q)) angle (e + e)) (drpSlop (cbin (rP Q)) angle (e + e)) s0 s1.
Proof.
  intros HM Hr HB HN HC HdC HdO HSc Hw He H.
  assert (K := runAuto_slop Q (e + e) cat s0 s1 HB HN Hr Hw ltac:(lra)).
  assert (X : accountsAuto cat (cntSlop (cbin (rP Q)) (mdist (cmetric (rP Q))) (e + e))
                (drpSlop (cbin (rP Q)) (mdist (cmetric (rP Q))) (e + e)) s0 s1).
  { apply K; auto. intros F cells -> B. split.
    - exact (arc_pairsOK Q cat cat e e C C HM Hr HB HC HC HdC HdO _ _ cells cells B B).
    - intros c o1 o2 Hc Hs I1 I2.
      destruct (getSize c) as [x|] eqn:E; [|discriminate]. cbn in Hs. apply Rleb_true in Hs. unfold halfminsep in Hs.
      assert (W := run_wf Q _ cat cells HB B). rewrite (arc_min0 Q HM) in W.
      assert (K1 := member_within 0 c o1 x ltac:(lra) (inTops_wf _ _ _ W Hc) I1 E).
      assert (K2 := member_within 0 c o2 x ltac:(lra) (inTops_wf _ _ _ W Hc) I2 E).
      assert (J1 := inTops_obj_cat _ _ _ _ _ B Hc I1). assert (J2 := inTops_obj_cat _ _ _ _ _ B Hc I2).
      rewrite HdO by auto. destruct HC as [N [O [L [_ HCc]]]].
      assert (Cc := HCc _ _ _ B Hc).
      pose proof (angle_triangle (opos o1) (getPos c) (opos o2) (O o1 J1) (N _ Cc) (O o2 J2)) as T. rewrite (angle_sym (opos o1) (getPos c)) in T.
      pose proof (L _ _ Cc J1). pose proof (L _ _ Cc J2). pose proof (HSc _ Cc). pose proof (arcScale_nonneg (cmetric (rP Q)) (getPos c)).
      pose proof (pdist_nonneg (getPos c) (opos o1)). pose proof (pdist_nonneg (getPos c) (opos o2)).
      pose proof (Rmult_le_compat_r _ _ _ H4 H2). pose proof (Rmult_le_compat_r _ _ _ H5 H2). lra. }
  destruct X as [cat' [HP X]]. exists cat'. split; auto.
  revert X. apply accounts_impl; unfold cntSlop, drpSlop; intros o1 o2; intros;
    (assert (I12 : In o1 cat /\ In o2 cat) by
      (destruct (in_upairs_perm _ _ _ _ HP H0) as [Y|Y]; apply in_upairs in Y; tauto));
    destruct I12; rewrite <- HdO by auto; auto.
Qed.

(** With bin_slop = 0 and no pair within the excess e of a bin edge, the result is the exact count. *)
Definition offAllEdges (B : bparams) (e : R) (l : list (obj * obj)) : Prop :=
  forall o1 o2 j, In (o1, o2) l -> (0 <= j <= nbins B)%Z -> e < Rabs (angle (opos o1) (opos o2) - edge B j).
Lemma off_sel B e l o1 o2 k j : validB B -> slop_b B = 0 -> offAllEdges B e l -> In (o1, o2) l ->
  cntSlop B angle e o1 o2 j -> selBin B angle k o1 o2 = (k =? j)%Z.
Proof.
  intros HB Hb HO Hi [Hj HL].
  assert (SL : slopLo B (edge B j) = edge B j) by (unfold slopLo; rewrite Hb; destruct (btype B); ring).
  assert (SH : slopHi B (edge B (j + 1)) = edge B (j + 1)) by (unfold slopHi; rewrite Hb, exp_0; destruct (btype B); ring).
  rewrite SL, SH in HL.
  pose proof (HO o1 o2 j Hi ltac:(lia)) as K1. pose proof (HO o1 o2 (j + 1)%Z Hi ltac:(lia)) as K2.
  set (a := angle (opos o1) (opos o2)) in *.
  assert (In1 : edge B j <= a < edge B (j + 1)).
  { split; [destruct (Rle_lt_dec (edge B j) a) as [|L]; auto; exfalso; rewrite Rabs_left in K1 by lra; lra|].
    destruct (Rlt_le_dec a (edge B (j + 1))) as [|L]; auto. exfalso. rewrite Rabs_right in K2 by lra. lra. }
  assert (IB : inBin B j a) by (split; [lia|lra]).
  unfold selBin. fold a. destruct (inBinb B k a) eqn:E.
  - apply inBinb_true in E. symmetry. apply Z.eqb_eq. eapply inBin_unique; eauto.
  - symmetry. apply Z.eqb_neq. intros ->. apply inBinb_true in IB. congruence.
Qed.
Lemma off_drop B e l o1 o2 k : validB B -> slop_b B = 0 -> offAllEdges B e l -> In (o1, o2) l ->
  drpSlop B angle e o1 o2 -> selBin B angle k o1 o2 = false.
Proof.
  intros HB Hb HO Hi HL. pose proof (vb_nbins _ HB).
  assert (SL : slopLo B (maxsep B) = maxsep B) by (unfold slopLo; rewrite Hb; destruct (btype B); ring).
  assert (SH : slopHi B (minsep B) = minsep B) by (unfold slopHi; rewrite Hb, exp_0; destruct (btype B); ring).
  unfold drpSlop in HL. rewrite SL, SH in HL.
  pose proof (HO o1 o2 0%Z Hi ltac:(lia)) as K1. pose proof (HO o1 o2 (nbins B) Hi ltac:(lia)) as K2.
  rewrite edge_0 in K1 by auto. rewrite edge_n in K2 by auto.
  unfold selBin. set (a := angle (opos o1) (opos o2)) in *. destruct (inBinb B k a) eqn:E; auto. exfalso.
  apply inBinb_true in E. apply inBin_range in E; auto.
  destruct HL; [rewrite Rabs_right in K1 by lra|rewrite Rabs_left in K2 by lra]; lra.
Qed.
Lemma exact_cross B e cat1 cat2 s0 s1 :
  validB B -> slop_b B = 0 -> offAllEdges B e (pairs cat1 cat2) ->
  accounts (pairs cat1 cat2) (cntSlop B angle e) (drpSlop B angle e) s0 s1 ->
  forall k, addsCross (selBin B angle k) cat1 cat2 s0 s1 k.
Proof.
  intros HB Hb HO HA k. apply (accounts_sum _ _ _ (selBin B angle k) k) in HA.
  - exact HA.
  - intros. eapply off_sel; eauto.
  - intros. eapply off_drop; eauto.
Qed.
Lemma exact_auto B e cat s0 s1 :
  validB B -> slop_b B = 0 -> offAllEdges B e (upairs cat) ->
  accountsAuto cat (cntSlop B angle e) (drpSlop B angle e) s0 s1 ->
  forall k, addsAuto (selBin B angle k) cat s0 s1 k.
Proof.
  intros HB Hb HO [cat' [HP HA]] k.
  assert (HO' : offAllEdges B e (upairs cat')).
  { intros o1 o2 j Hi Hj. destruct (in_upairs_perm _ _ _ _ HP Hi) as [Hi'|Hi']; [auto|]. rewrite angle_sym. auto. }
  apply (accounts_sum _ _ _ (selBin B angle k) k) in HA.
  - cbv zeta in HA. destruct HA as [A1 [A2 [_ A4]]].
    assert (E : forall v, (forall o1 o2, v o1 o2 = v o2 o1) ->
      sumR (fun p => if selBin B angle k (fst p) (snd p) then v (fst p) (snd p) else 0) (upairs cat') =
      sumUPairs (selBin B angle k) v cat).
    { intros v Hv. unfold sumUPairs. apply sumR_upairs_perm; auto. intros x y. cbn [fst snd]. unfold selBin. rewrite angle_sym, Hv. auto. }
    unfold addsAuto. rewrite A1, A2, A4, !E; auto; intros; unfold v_one, v_ww, v_kk; ring.
  - intros. eapply off_sel; eauto.
  - intros. eapply off_drop; eauto.
Qed.

(** ** Spherical coordinates *)
(** Every position of the catalog is on the unit sphere, and no two objects are further apart
    than a chord S < sqrt 2 (an angle of 90 degrees). *)
Definition onSphere (cat : list obj) : Prop := forall o, In o cat -> norm (opos o) = 1.
Definition withinChord (S : R) (cat : list obj) : Prop :=
  forall o1 o2, In o1 cat -> In o2 cat -> pdist (opos o1) (opos o2) <= S.
Lemma cells_centroid_any F cat cells c : cat <> [] -> buildField F cat cells -> inTops cells c ->
  exists l, partOf l cat /\ (getPos c = centroid (fcoord F) l \/ exists o, In o l /\ getPos c = opos o).
Proof.
  intros Hne [g [Hg Hf]] [t [Ht Hs]].
  assert (exists x, In x g /\ builds (fcoord F) (fsm F) (fminsize F * fminsize F) (fbrute F) x t) as [x [Hx Hb]].
  { clear Hg. induction Hf; simpl in *; [tauto|]. destruct Ht as [<-|Ht]; [eauto|].
    destruct IHHf as [z [? ?]]; eauto. }
  destruct (builds_sub_part _ _ _ _ _ _ Hb c Hs) as [l [Hp Hl]].
  exists l. split.
  - eapply partOf_trans; eauto. eapply setupTop_part; eauto.
  - destruct Hl; auto. right. exists o. split; [left; auto|reflexivity].
Qed.
Lemma centroid_unit l : l <> [] -> onSphere l -> norm (centroid Sphere l) = 1.
Proof.
  intros Hl Hu. unfold centroid. destruct (Req_EM_T _ _) as [E|E].
  - destruct l; [congruence|]. apply Hu. left; auto.
  - cbn [normalize]. destruct (Req_EM_T _ 0) as [Z|Z].
    + unfold norm, normSq; cbn. replace (1 * 1 + 0 * 0 + 0 * 0) with 1 by ring. apply sqrt_1.
    + apply unitOf_norm; auto.
Qed.
Lemma sphere_centre S cat l o : 0 <= S -> S * S < 2 -> onSphere cat -> withinChord S cat -> nonnegWpos cat ->
  partOf l cat -> In o cat -> pdist (centroid Sphere l) (opos o) <= S.
Proof.
  intros HS0 HS Hu Hw Hn Hp Ho. apply centroid_in; auto; try apply Hp.
  - split; [intros x Hx; apply Hn; eapply partOf_in; eauto|]. split; [apply Hu; auto|]. split; [lra|].
    intros x Hx. apply Hu. eapply partOf_in; eauto.
  - intros x Hx. apply Hw; auto. eapply partOf_in; eauto.
Qed.
Definition sphereCase (Q : runcfg) (S : R) (cat : list obj) : Prop :=
  cmetric (rP Q) = ArcSphere /\ rcoord Q = Sphere /\ cat <> [] /\ posW cat /\ nonnegWpos cat /\
  onSphere cat /\ withinChord S cat /\ 0 <= S /\ S * S < 2.
Lemma S_le2 S : 0 <= S -> S * S < 2 -> S <= 2.
Proof. intros. nra. Qed.
Lemma arcExcess_nonneg S : 0 <= S <= 2 -> 0 <= arcExcess S.
Proof. intro H. rewrite arcExcess_sin. pose proof (sinExcess_nonneg (S / 2) ltac:(lra)). lra. Qed.
Lemma sphere_centres Q S cat : sphereCase Q S cat ->
  arcCentres Q cat (arcExcess S) (fun p => norm p = 1 /\ forall o, In o cat -> pdist p (opos o) <= S).
Proof.
  intros [HM [Hco [Hne [Hw [Hn [Hu [HW [HS0 HS]]]]]]]]. pose proof (S_le2 S HS0 HS).
  assert (HP : forall l, partOf l cat -> onSphere l) by (intros l Hl o Ho; apply Hu; eapply partOf_in; eauto).
  split; [intros p [-> _]; lra|]. split; [intros o Ho; rewrite Hu; auto; lra|]. split; [|split].
  - intros p o [Np Dp] Ho. rewrite HM. cbn [arcScale]. rewrite Rmult_1_l. apply angle_chord_excess; auto.
  - intro b. unfold fieldCenter. cbn [fcoord fieldParams]. rewrite Hco. split.
    + apply centroid_unit; auto.
    + intros o Ho. apply (sphere_centre S cat); auto. apply PropsRpar.partOf_refl; auto.
  - intros b cells c B Hc. destruct (cells_centroid_any _ _ _ _ Hne B Hc) as [l [Hl [->|[o' [Ho' ->]]]]].
    + cbn [fcoord fieldParams]. rewrite Hco. split; [apply centroid_unit; auto; apply Hl|].
      intros o Ho. apply (sphere_centre S cat); auto.
    + assert (In o' cat) by (eapply partOf_in; eauto). split; auto.
Qed.
Theorem C14_sphere_distance p q : norm p = 1 -> norm q = 1 -> mdist ArcSphere p q = acos (dot p q).
Proof. intros. rewrite mdist_arc_sphere, angle_unit; auto. Qed.
(** Cross-correlations on the sphere: binning by angle, within the slop plus the excess of arcs over
    chords of the size of the catalogs. *)
Theorem C14_sphere_cross Q S1 S2 cat1 cat2 s0 s1 :
  sphereCase Q S1 cat1 -> sphereCase Q S2 cat2 -> crpar (rP Q) = None -> validB (cbin (rP Q)) -> narrowLog (cbin (rP Q)) ->
  runCross Q cat1 cat2 s0 s1 ->
  accounts (pairs cat1 cat2) (cntSlop (cbin (rP Q)) angle (arcExcess S1 + arcExcess S2))
    (drpSlop (cbin (rP Q)) angle (arcExcess S1 + arcExcess S2)) s0 s1 /\
  (slop_b (cbin (rP Q)) = 0 -> offAllEdges (cbin (rP Q)) (arcExcess S1 + arcExcess S2) (pairs cat1 cat2) ->
   forall k, addsCross (selBin (cbin (rP Q)) angle k) cat1 cat2 s0 s1 k).
Proof.
  intros H1 H2 Hr HB HN H.
  assert (ACC : accounts (pairs cat1 cat2) (cntSlop (cbin (rP Q)) angle (arcExcess S1 + arcExcess S2))
    (drpSlop (cbin (rP Q)) angle (arcExcess S1 + arcExcess S2)) s0 s1).
  { assert (A1 := sphere_centres _ _ _ H1). assert (A2 := sphere_centres _ _ _ H2).
    destruct H1 as [HM [_ [_ [W1 [_ [U1 [_ [P1 R1]]]]]]]]. destruct H2 as [_ [_ [_ [W2 [_ [U2 [_ [P2 R2]]]]]]]].
    refine (arc_cross Q cat1 cat2 _ _ _ _ _ Hr HB HN A1 A2 _ _ s0 s1 W1 W2 _ _ H).
    - left; auto.
    - intros p q [Np _] [Nq _]. rewrite HM. apply mdist_arc_sphere; auto.
    - intros o1 o2 I1 I2. rewrite HM. apply mdist_arc_sphere; auto.
    - apply arcExcess_nonneg. split; auto using S_le2.
    - apply arcExcess_nonneg. split; auto using S_le2. }
  split; auto. intros Hb HO. apply (exact_cross _ _ _ _ _ _ HB Hb HO ACC).
Qed.
Theorem C14_sphere_auto Q S cat s0 s1 :
  sphereCase Q S cat -> crpar (rP Q) = None -> validB (cbin (rP Q)) -> narrowLog (cbin (rP Q)) ->
  runAuto Q cat s0 s1 ->
  accountsAuto cat (cntSlop (cbin (rP Q)) angle (2 * arcExcess S)) (drpSlop (cbin (rP Q)) angle (2 * arcExcess S)) s0 s1 /\
  (slop_b (cbin (rP Q)) = 0 -> offAllEdges (cbin (rP Q)) (2 * arcExcess S) (upairs cat) ->
   forall k, addsAuto (selBin (cbin (rP Q)) angle k) cat s0 s1 k).
Proof.
  intros H1 Hr HB HN H.
  assert (ACC : accountsAuto cat (cntSlop (cbin (rP Q)) angle (2 * arcExcess S)) (drpSlop (cbin (rP Q)) angle (2 * arcExcess S)) s0 s1).
  { assert (A1 := sphere_centres _ _ _ H1).
    destruct H1 as [HM [_ [_ [W1 [_ [U1 [_ [P1 R1]]]]]]]].
    replace (2 * arcExcess S) with (arcExcess S + arcExcess S) by ring.
    refine (arc_auto Q cat _ _ s0 s1 _ Hr HB HN A1 _ _ _ W1 _ H).
    - left; auto.
    - intros p q [Np _] [Nq _]. rewrite HM. apply mdist_arc_sphere; auto.
    - intros o1 o2 I1 I2. rewrite HM. apply mdist_arc_sphere; auto.
    - intros p _. rewrite HM. cbn. lra.
    - apply arcExcess_nonneg. split; auto using S_le2. }
  split; auto. intros Hb HO. apply (exact_auto _ _ _ _ _ HB Hb HO ACC).
Qed.

(** ** 3-d coordinates *)
Theorem C14_3d_distance p q : norm p <> 0 -> norm q <> 0 -> 0 <= dot p q ->
  mdist Arc3D p q = acos (dot p q / (norm p * norm q)).
Proof.
  intros Hp Hq Hd. rewrite mdist_arc_3d by auto. pose proof (angle_acute p q Hp Hq Hd). pose proof (angle_bound p q).
  unfold angle in *. apply Rmin_left. lra.
Qed.
(** For obtuse angles the reported distance is the supplement. *)
Theorem C14_3d_obtuse_refuted : exists p q, norm p <> 0 /\ norm q <> 0 /\ angle p q = PI /\ mdist Arc3D p q = 0.
Proof.
  exists (mkpos 1 0 0), (mkpos (-1) 0 0).
  assert (N1 : norm (mkpos 1 0 0) = 1).
  { unfold norm, normSq; cbn. replace (1 * 1 + 0 * 0 + 0 * 0) with 1 by ring. apply sqrt_1. }
  assert (N2 : norm (mkpos (-1) 0 0) = 1).
  { unfold norm, normSq; cbn. replace (-1 * -1 + 0 * 0 + 0 * 0) with 1 by ring. apply sqrt_1. }
  assert (E : angle (mkpos 1 0 0) (mkpos (-1) 0 0) = PI).
  { unfold angle. rewrite N1, N2. unfold dot; cbn. replace ((1 * -1 + 0 * 0 + 0 * 0) / (1 * 1)) with (-1) by field.
    replace (-1) with (cos PI) by apply cos_PI. apply acos_cos. pose proof PI_RGT_0. lra. }
  split; [lra|split; [lra|split; auto]]. rewrite mdist_arc_3d by lra. rewrite E. unfold Rmin; destruct Rle_dec; pose proof PI_RGT_0; lra.
Qed.
Definition threeDCase (Q : runcfg) (n : pos) (D Delta : R) (cat1 cat2 : list obj) : Prop :=
  cmetric (rP Q) = Arc3D /\ rcoord Q <> Sphere /\ cat1 <> [] /\ cat2 <> [] /\ posW cat1 /\ posW cat2 /\
  nonnegWpos cat1 /\ nonnegWpos cat2 /\ norm n = 1 /\ beyond n D cat1 /\ beyond n D cat2 /\
  within Delta cat1 cat2 /\ Delta < D.
Lemma beyond_norm n D p : norm n = 1 -> D <= dot p n -> D <= norm p.
Proof. intros Hn H. pose proof (cauchy_schwarz p n) as C. rewrite Hn, Rmult_1_r in C. pose proof (Rle_abs (dot p n)). lra. Qed.
Lemma near_acute p q D : 0 < D -> D <= norm p -> D <= norm q -> pdist p q < D -> 0 <= dot p q.
Proof.
  intros HD Hp Hq H. pose proof (pdist_nonneg p q).
  assert (E : dot p q = (norm p * norm p + norm q * norm q - pdist p q * pdist p q) / 2).
  { unfold pdist. rewrite !norm_sq. unfold normSq, dot, psub; simpl. field. }
  rewrite E. nra.
Qed.
Definition partCentre (c : coord) (cat : list obj) (p : pos) : Prop := exists l, partOf l cat /\ p = centroid c l.
Lemma centroid_ball c l p r : c <> Sphere -> l <> [] -> nonnegWpos l -> 0 <= r ->
  (forall o, In o l -> pdist (opos o) p <= r) -> pdist (centroid c l) p <= r.
Proof. intros Hc Hl Hn Hr H. apply centroid_in; auto. split; auto. destruct c; auto. congruence. Qed.
Lemma within_sym d cat1 cat2 : within d cat1 cat2 -> within d cat2 cat1.
Proof. intros H o1 o2 I1 I2. apply H; apply in_or_app; apply in_app_or in I1, I2; tauto. Qed.
Lemma within_nonneg d cat1 cat2 : cat1 <> [] -> within d cat1 cat2 -> 0 <= d.
Proof.
  intros Hne H. destruct cat1 as [|o l]; [congruence|].
  pose proof (H o o ltac:(left; auto) ltac:(left; auto)) as K. rewrite pdist_refl in K. auto.
Qed.
Lemma nonnegWpos_part l cat : partOf l cat -> nonnegWpos cat -> nonnegWpos l.
Proof. intros Hl H o Ho. apply H. eapply partOf_in; eauto. Qed.
Lemma three_centres Q n D Delta cat cat' : threeDCase Q n D Delta cat cat' ->
  arcCentres Q cat (sinExcess (Delta / D)) (partCentre (rcoord Q) cat).
Proof.
  intros [HM [Hco [Hne [_ [_ [_ [Hw [_ [Hn [HB1 [_ [HWi HD]]]]]]]]]]]].
  assert (HDe := within_nonneg _ _ _ Hne HWi).
  assert (NC : forall p, partCentre (rcoord Q) cat p -> D <= norm p).
  { intros p [l [Hl ->]]. apply (beyond_norm n); auto. apply mean_beyond; auto; [apply Hl|eapply nonnegWpos_part; eauto|].
    intros o Ho. apply HB1. eapply partOf_in; eauto. }
  assert (NO : forall o, In o cat -> D <= norm (opos o)).
  { intros o Ho. apply (beyond_norm n); auto. }
  split; [intros p Hp; specialize (NC p Hp); lra|]. split; [intros o Ho; specialize (NO o Ho); lra|]. split; [|split].
  - intros p o Hp Ho. rewrite HM. cbn [arcScale]. pose proof (NC p Hp) as N1. pose proof (NO o Ho) as N2.
    assert (K : pdist p (opos o) <= Delta).
    { destruct Hp as [l [Hl ->]]. apply centroid_ball; auto; [apply Hl|eapply nonnegWpos_part; eauto|].
      intros x Hx. apply HWi; apply in_or_app; left; auto. eapply partOf_in; eauto. }
    eapply Rle_trans; [apply angle_shift; lra|]. pose proof (pdist_nonneg p (opos o)).
    set (d := pdist p (opos o)) in *. set (N := norm p) in *.
    assert (X : d / N <= Delta / D).
    { unfold Rdiv. apply Rmult_le_compat; auto; [apply Rlt_le, Rinv_0_lt_compat; lra|apply Rinv_le_contravar; lra]. }
    assert (Y : 0 <= d / N) by (unfold Rdiv; apply Rmult_le_pos; auto; apply Rlt_le, Rinv_0_lt_compat; lra).
    assert (Z : Delta / D <= 1).
    { apply Rmult_le_reg_r with D; [lra|]. unfold Rdiv. rewrite Rmult_assoc, Rinv_l by lra. lra. }
    pose proof (sinExcess_mono (d / N) (Delta / D) Y X Z) as M. unfold sinExcess at 1 in M.
    replace (/ N * d) with (d / N) by (unfold Rdiv; ring). lra.
  - intro b. exists cat. split; [apply PropsRpar.partOf_refl; auto|reflexivity].
  - intros b cells c B Hc. destruct (cells_centroid (fieldParams Q b) cat cells c) as [l [Hl ->]]; auto. exists l; auto.
Qed.
Lemma centres_acute c n D Delta cat1 cat2 p q : c <> Sphere -> norm n = 1 -> 0 < D -> beyond n D cat1 -> beyond n D cat2 ->
  nonnegWpos cat1 -> nonnegWpos cat2 -> within Delta cat1 cat2 -> Delta < D ->
  partCentre c cat1 p -> partCentre c cat2 q -> norm p <> 0 /\ norm q <> 0 /\ 0 <= dot p q.
Proof.
  intros Hc Hn HD B1 B2 W1 W2 HWi HDD [l1 [L1 ->]] [l2 [L2 ->]].
  assert (HDe : 0 <= Delta).
  { apply (within_nonneg Delta l1 []); [apply L1|]. intros o1 o2 I1 I2. rewrite app_nil_r in *. apply HWi; apply in_or_app; left; eapply partOf_in; eauto. }
  assert (N1 : D <= norm (centroid c l1)).
  { apply (beyond_norm n); auto. apply mean_beyond; auto; [apply L1|eapply nonnegWpos_part; eauto|]. intros o Ho. apply B1. eapply partOf_in; eauto. }
  assert (N2 : D <= norm (centroid c l2)).
  { apply (beyond_norm n); auto. apply mean_beyond; auto; [apply L2|eapply nonnegWpos_part; eauto|]. intros o Ho. apply B2. eapply partOf_in; eauto. }
  split; [lra|]. split; [lra|]. apply (near_acute _ _ D); auto.
  apply Rle_lt_trans with Delta; auto. apply centroid_ball; auto; [apply L1|eapply nonnegWpos_part; eauto|].
  intros o Ho. rewrite pdist_sym. apply centroid_ball; auto; [apply L2|eapply nonnegWpos_part; eauto|].
  intros o' Ho'. apply HWi; apply in_or_app; [right|left]; eapply partOf_in; eauto.
Qed.
Lemma ratio_unit Delta D : 0 <= Delta < D -> 0 <= Delta / D <= 1.
Proof.
  intros H. split; [unfold Rdiv; apply Rmult_le_pos; try lra; apply Rlt_le, Rinv_0_lt_compat; lra|].
  apply Rmult_le_reg_r with D; [lra|]. unfold Rdiv. rewrite Rmult_assoc, Rinv_l by lra. lra.
Qed.
(** Cross-correlations with 3-d positions at least D away from the observer and at most Delta < D
    from each other: binning by the angle on the sky, within the slop plus 2 (asin t - t), t = Delta/D. *)
Theorem C14_3d_cross Q n D Delta cat1 cat2 s0 s1 :
  threeDCase Q n D Delta cat1 cat2 -> crpar (rP Q) = None -> validB (cbin (rP Q)) -> narrowLog (cbin (rP Q)) ->
  runCross Q cat1 cat2 s0 s1 ->
  accounts (pairs cat1 cat2) (cntSlop (cbin (rP Q)) angle (2 * sinExcess (Delta / D)))
    (drpSlop (cbin (rP Q)) angle (2 * sinExcess (Delta / D))) s0 s1 /\
  (slop_b (cbin (rP Q)) = 0 -> offAllEdges (cbin (rP Q)) (2 * sinExcess (Delta / D)) (pairs cat1 cat2) ->
   forall k, addsCross (selBin (cbin (rP Q)) angle k) cat1 cat2 s0 s1 k).
Proof.
  intros H1 Hr HB HN H.
  assert (ACC : accounts (pairs cat1 cat2) (cntSlop (cbin (rP Q)) angle (2 * sinExcess (Delta / D)))
    (drpSlop (cbin (rP Q)) angle (2 * sinExcess (Delta / D))) s0 s1).
  { assert (A1 := three_centres _ _ _ _ _ _ H1).
    destruct H1 as [HM [Hco [Hn1 [Hn2 [P1 [P2 [W1 [W2 [Hn [B1 [B2 [HWi HD]]]]]]]]]]]].
    assert (A2 : arcCentres Q cat2 (sinExcess (Delta / D)) (partCentre (rcoord Q) cat2)).
    { apply (three_centres Q n D Delta cat2 cat1). repeat (split; auto). apply within_sym; auto. }
    assert (HDe := within_nonneg _ _ _ Hn1 HWi).
    replace (2 * sinExcess (Delta / D)) with (sinExcess (Delta / D) + sinExcess (Delta / D)) by ring.
    refine (arc_cross Q cat1 cat2 _ _ _ _ _ Hr HB HN A1 A2 _ _ s0 s1 P1 P2 _ _ H).
    - right; auto.
    - intros p q Hp Hq. rewrite HM. destruct (centres_acute _ n D Delta cat1 cat2 p q Hco Hn ltac:(lra) B1 B2 W1 W2 HWi HD Hp Hq) as [X [Y Z]].
      apply C14_3d_distance; auto.
    - intros o1 o2 I1 I2. rewrite HM. pose proof (beyond_norm n D _ Hn (B1 o1 I1)). pose proof (beyond_norm n D _ Hn (B2 o2 I2)).
      apply C14_3d_distance; try lra. apply (near_acute _ _ D); try lra. eapply Rle_lt_trans; [apply HWi; apply in_or_app; auto|lra].
    - apply sinExcess_nonneg, ratio_unit; lra.
    - apply sinExcess_nonneg, ratio_unit; lra. }
  split; auto. intros Hb HO. apply (exact_cross _ _ _ _ _ _ HB Hb HO ACC).
Qed.
(** Auto-correlations need in addition D >= 1: the recursion stops at cells of (3-d) size below
    min_sep/2 although min_sep is an angle (C14_3d_auto_refuted). *)
Theorem C14_3d_auto Q n D Delta cat s0 s1 :
  threeDCase Q n D Delta cat cat -> 1 <= D -> crpar (rP Q) = None -> validB (cbin (rP Q)) -> narrowLog (cbin (rP Q)) ->
  runAuto Q cat s0 s1 ->
  accountsAuto cat (cntSlop (cbin (rP Q)) angle (2 * sinExcess (Delta / D)))
    (drpSlop (cbin (rP Q)) angle (2 * sinExcess (Delta / D))) s0 s1 /\
  (slop_b (cbin (rP Q)) = 0 -> offAllEdges (cbin (rP Q)) (2 * sinExcess (Delta / D)) (upairs cat) ->
   forall k, addsAuto (selBin (cbin (rP Q)) angle k) cat s0 s1 k).
Proof.
  intros H1 HD1 Hr HB HN H.
  assert (ACC : accountsAuto cat (cntSlop (cbin (rP Q)) angle (2 * sinExcess (Delta / D)))
    (drpSlop (cbin (rP Q)) angle (2 * sinExcess (Delta / D))) s0 s1).
  { assert (A1 := three_centres _ _ _ _ _ _ H1).
    destruct H1 as [HM [Hco [Hn1 [_ [P1 [_ [W1 [_ [Hn [B1 [_ [HWi HD]]]]]]]]]]]].
    assert (HDe := within_nonneg _ _ _ Hn1 HWi).
    replace (2 * sinExcess (Delta / D)) with (sinExcess (Delta / D) + sinExcess (Delta / D)) by ring.
    refine (arc_auto Q cat _ _ s0 s1 _ Hr HB HN A1 _ _ _ P1 _ H).
    - right; auto.
    - intros p q Hp Hq. rewrite HM. destruct (centres_acute _ n D Delta cat cat p q Hco Hn ltac:(lra) B1 B1 W1 W1 HWi HD Hp Hq) as [X [Y Z]].
      apply C14_3d_distance; auto.
    - intros o1 o2 I1 I2. rewrite HM. pose proof (beyond_norm n D _ Hn (B1 o1 I1)). pose proof (beyond_norm n D _ Hn (B1 o2 I2)).
      apply C14_3d_distance; try lra. apply (near_acute _ _ D); try lra. eapply Rle_lt_trans; [apply HWi; apply in_or_app; auto|lra].
    - intros p [l [Hl ->]]. rewrite HM. cbn [arcScale].
      assert (D <= norm (centroid (rcoord Q) l)).
      { apply (beyond_norm n); auto. apply mean_beyond; auto; [apply Hl|eapply nonnegWpos_part; eauto|]. intros o Ho. apply B1. eapply partOf_in; eauto. }
      rewrite <- Rinv_1. apply Rinv_le_contravar; lra.
    - apply sinExcess_nonneg, ratio_unit; lra. }
  split; auto. intros Hb HO. apply (exact_auto _ _ _ _ _ HB Hb HO ACC).
Qed.

(** ** Concrete cases: directions r (cos t, sin t, 0) *)
Definition dirObj (r t w : R) (i : nat) : obj := mkobj (mkpos (r * cos t) (r * sin t) 0) w 1 2 0 0 i.
Lemma dir_norm r t : 0 <= r -> norm (mkpos (r * cos t) (r * sin t) 0) = r.
Proof.
  intro H. unfold norm, normSq. cbn [px py pz].
  replace (_ + _ + 0 * 0) with (r * r * (Rsqr (sin t) + Rsqr (cos t))) by (unfold Rsqr; ring).
  rewrite sin2_cos2, Rmult_1_r. apply sqrt_square; auto.
Qed.
Lemma cos_abs x : cos (Rabs x) = cos x.
Proof. unfold Rabs. destruct Rcase_abs; auto. apply cos_neg. Qed.
Lemma dir_angle r r' a b : 0 < r -> 0 < r' -> Rabs (a - b) <= PI ->
  angle (mkpos (r * cos a) (r * sin a) 0) (mkpos (r' * cos b) (r' * sin b) 0) = Rabs (a - b).
Proof.
  intros H H' HP. unfold angle. rewrite !dir_norm by lra. unfold dot. cbn [px py pz].
  replace (_ / (r * r')) with (cos (a - b)) by (rewrite cos_minus; field; lra).
  rewrite <- cos_abs. apply acos_cos. pose proof (Rabs_pos (a - b)). lra.
Qed.
Lemma sin_sq_pos x : 0 <= x -> Rsqr (sin x) <= Rsqr x.
Proof.
  intro H. pose proof (sin_lip x 0 H) as L. rewrite sin_0 in L. pose proof (SIN_bound x). pose proof PI2_3_2.
  destruct (Rle_lt_dec x 1).
  - pose proof (sin_ge_0 x H ltac:(lra)). unfold Rsqr. nra.
  - unfold Rsqr. nra.
Qed.
Lemma sin_abs_le x : Rsqr (sin x) <= Rsqr x.
Proof.
  destruct (Rle_lt_dec 0 x) as [H|H]; [apply sin_sq_pos; auto|].
  pose proof (sin_sq_pos (- x) ltac:(lra)) as L. rewrite sin_neg, <- !Rsqr_neg in L. auto.
Qed.
Lemma dir_pdist_sq r a b : normSq (psub (mkpos (r * cos a) (r * sin a) 0) (mkpos (r * cos b) (r * sin b) 0)) = 4 * r * r * Rsqr (sin ((a - b) / 2)).
Proof.
  unfold normSq, psub. cbn [px py pz].
  transitivity (r * r * ((Rsqr (sin a) + Rsqr (cos a)) + (Rsqr (sin b) + Rsqr (cos b)) - 2 * cos (a - b))).
  - rewrite cos_minus. unfold Rsqr. ring.
  - rewrite !sin2_cos2. replace (a - b) with (2 * ((a - b) / 2)) at 1 by field. rewrite cos_2a_sin. unfold Rsqr. ring.
Qed.
Lemma dir_pdist r a b : 0 <= r -> pdist (mkpos (r * cos a) (r * sin a) 0) (mkpos (r * cos b) (r * sin b) 0) <= r * Rabs (a - b).
Proof.
  intro H. unfold pdist. apply normSq_le; [apply Rmult_le_pos; auto; apply Rabs_pos|]. rewrite dir_pdist_sq.
  pose proof (sin_abs_le ((a - b) / 2)) as S.
  replace (r * Rabs (a - b) * (r * Rabs (a - b))) with (4 * r * r * Rsqr ((a - b) / 2)).
  - apply Rmult_le_compat_l; auto. nra.
  - transitivity (r * r * Rsqr (a - b)); [unfold Rsqr; field|]. rewrite Rsqr_abs. unfold Rsqr. ring.
Qed.
Lemma PI_3 : 3 < PI. Proof. pose proof PI2_3_2. lra. Qed.
Lemma sin_low a : 0 <= a <= PI -> a - a * a * a / 6 <= sin a.
Proof.
  intro H. destruct (sin_bound a 0 ltac:(lra) ltac:(lra)) as [L _].
  unfold sin_approx, sin_term in L. cbn in L. lra.
Qed.
Lemma sin_high a : 0 <= a <= PI -> sin a <= a - a * a * a / 6 + a * a * a * a * a / 120.
Proof.
  intro H. destruct (sin_bound a 0 ltac:(lra) ltac:(lra)) as [_ L].
  unfold sin_approx, sin_term in L. cbn in L. lra.
Qed.
Lemma cos_low a : 1 - a * a / 2 <= cos a.
Proof.
  replace a with (2 * (a / 2)) at 3 by field. rewrite cos_2a_sin. pose proof (sin_abs_le (a / 2)) as S. unfold Rsqr in S. lra.
Qed.
(** asin x <= y when x <= sin y *)
Lemma asin_bound_by x y : -1 <= x -> 0 <= y <= 1 -> x <= y - y * y * y / 6 -> asin x <= y.
Proof.
  intros H1 H2 H3. pose proof PI_3. pose proof (sin_low y ltac:(lra)) as L. pose proof (SIN_bound y).
  rewrite <- (asin_sin y) by lra. apply asin_le; lra.
Qed.
Lemma arcExcess_by S y : 0 <= S -> 0 <= y <= 1 -> S / 2 <= y - y * y * y / 6 -> arcExcess S <= 2 * y - S.
Proof. intros. unfold arcExcess. pose proof (asin_bound_by (S / 2) y ltac:(lra) ltac:(lra) ltac:(lra)). lra. Qed.

(** Directions 0, 1/10 and 3/2, 5/2 (radians), bins [1,2) and [2,3). *)
Definition spRun : runcfg := mkR (mkC ArcSphere None exB) Sphere Mean BruteNo 0 10.
Definition spCat1 : list obj := [dirObj 1 0 1 0; dirObj 1 (1/10) 2 1].
Definition spCat2 : list obj := [dirObj 1 (3/2) 1 0; dirObj 1 (5/2) 3 1].
Definition spCatA : list obj := [dirObj 1 0 1 0; dirObj 1 (3/2) 2 1].
Ltac members H := repeat destruct H as [<-|H]; try contradiction.
Ltac pmembers H := repeat destruct H as [H|H]; try contradiction; injection H; intros; subst.
Lemma dir_within r S cat : 0 <= r -> (forall o, In o cat -> exists t, opos o = mkpos (r * cos t) (r * sin t) 0) ->
  (forall o1 o2 a b, In o1 cat -> In o2 cat -> opos o1 = mkpos (r * cos a) (r * sin a) 0 -> opos o2 = mkpos (r * cos b) (r * sin b) 0 -> r * Rabs (a - b) <= S) ->
  withinChord S cat.
Proof.
  intros Hr H1 H2 o1 o2 I1 I2. destruct (H1 o1 I1) as [a E1]. destruct (H1 o2 I2) as [b E2]. specialize (H2 o1 o2 a b I1 I2 E1 E2).
  rewrite E1, E2. pose proof (dir_pdist r a b Hr). lra.
Qed.
Lemma sp_case1 : sphereCase spRun (1/10) spCat1.
Proof.
  split; [reflexivity|]. split; [reflexivity|]. split; [discriminate|].
  split; [intros o H; members H; cbn; lra|]. split; [intros o H; members H; cbn; lra|].
  split; [intros o H; members H; cbn [opos dirObj]; apply dir_norm; lra|]. split; [|lra].
  intros o1 o2 H1 H2. members H1; members H2; cbn [opos dirObj];
    (eapply Rle_trans; [apply dir_pdist; lra|]); rabs.
Qed.
Lemma sp_case2 : sphereCase spRun 1 spCat2.
Proof.
  split; [reflexivity|]. split; [reflexivity|]. split; [discriminate|].
  split; [intros o H; members H; cbn; lra|]. split; [intros o H; members H; cbn; lra|].
  split; [intros o H; members H; cbn [opos dirObj]; apply dir_norm; lra|]. split; [|lra].
  intros o1 o2 H1 H2. members H1; members H2; cbn [opos dirObj];
    (eapply Rle_trans; [apply dir_pdist; lra|]); rabs.
Qed.
Lemma sp_caseA : sphereCase spRun (69/50) spCatA.
Proof.
  split; [reflexivity|]. split; [reflexivity|]. split; [discriminate|].
  split; [intros o H; members H; cbn; lra|]. split; [intros o H; members H; cbn; lra|].
  split; [intros o H; members H; cbn [opos dirObj]; apply dir_norm; lra|]. split; [|lra].
  assert (K : forall a b, Rabs (a - b) = 3/2 -> pdist (mkpos (1 * cos a) (1 * sin a) 0) (mkpos (1 * cos b) (1 * sin b) 0) <= 69/50).
  { intros a b E. unfold pdist. apply normSq_le; [lra|]. rewrite dir_pdist_sq.
    assert (X : Rsqr (sin ((a - b) / 2)) = Rsqr (sin (3/4))).
    { assert (D : (a - b) / 2 = 3/4 \/ (a - b) / 2 = - (3/4)) by (revert E; unfold Rabs; destruct Rcase_abs; intros; [right|left]; lra).
      destruct D as [-> | ->]; auto. rewrite sin_neg, <- Rsqr_neg. auto. }
    rewrite X. pose proof PI_3. pose proof (sin_high (3/4) ltac:(lra)). pose proof (sin_low (3/4) ltac:(lra)). unfold Rsqr. nra. }
  intros o1 o2 H1 H2. members H1; members H2; cbn [opos dirObj]; try solve [apply K; rabs];
    (eapply Rle_trans; [apply dir_pdist; lra|]); rabs.
Qed.
Lemma exB_edges j : (0 <= j <= 2)%Z -> edge exB j = 1 \/ edge exB j = 2 \/ edge exB j = 3.
Proof. intro H. rewrite exB_edge. assert (D : (j = 0 \/ j = 1 \/ j = 2)%Z) by lia. destruct D as [->|[->| ->]]; cbn; lra. Qed.
Ltac dirs := cbn [opos dirObj]; rewrite ?dir_angle by (try lra; pose proof PI_3; rabs).
Ltac evdir := unfold selBin; cbn [fst snd]; dirs; rewrite ?exB_in by lia; unfold v_one, v_ww, aconst; cbn [ow dirObj];
  repeat match goal with |- context [Rabs ?x] => first [rewrite (Rabs_left x) by lra | rewrite (Rabs_right x) by lra] end;
  unfold Rleb, Rltb; repeat (first [destruct Rle_dec|destruct Rlt_dec]; try (exfalso; lra); cbn [andb]); cbn; lra.
Example C14_sphere_example : exists s1 s2,
  sphereCase spRun (1/10) spCat1 /\ sphereCase spRun 1 spCat2 /\ sphereCase spRun (69/50) spCatA /\
  crpar (rP spRun) = None /\ validB exB /\ narrowLog exB /\ slop_b exB = 0 /\
  runCross spRun spCat1 spCat2 cleared s1 /\ runAuto spRun spCatA cleared s2 /\
  offAllEdges exB (arcExcess (1/10) + arcExcess 1) (pairs spCat1 spCat2) /\
  offAllEdges exB (2 * arcExcess (69/50)) (upairs spCatA) /\
  a_npairs s1 0 = 2 /\ a_weight s1 1 = 9 /\ a_npairs s2 0 = 1 /\ a_npairs s2 1 = 0.
Proof.
  destruct (runCross_exists spRun spCat1 spCat2 cleared exB_valid ltac:(discriminate) ltac:(discriminate)) as [s1 HR].
  destruct (runAuto_exists spRun spCatA cleared exB_valid ltac:(discriminate)) as [s2 HA].
  exists s1, s2. pose proof sp_case1 as P1. pose proof sp_case2 as P2. pose proof sp_caseA as PA.
  pose proof (arcExcess_by (1/10) (53/1000) ltac:(lra) ltac:(lra) ltac:(lra)) as E1.
  pose proof (arcExcess_by 1 (53/100) ltac:(lra) ltac:(lra) ltac:(lra)) as E2.
  pose proof (arcExcess_by (69/50) (77/100) ltac:(lra) ltac:(lra) ltac:(lra)) as E3.
  assert (O1 : offAllEdges exB (arcExcess (1/10) + arcExcess 1) (pairs spCat1 spCat2)).
  { intros o1 o2 j Hi Hj. apply in_pairs in Hi as [H1 H2]. destruct (exB_edges j Hj) as [->|[->| ->]];
    members H1; members H2; dirs; rabs. }
  assert (O2 : offAllEdges exB (2 * arcExcess (69/50)) (upairs spCatA)).
  { intros o1 o2 j Hi Hj. cbn in Hi. destruct (exB_edges j Hj) as [->|[->| ->]]; pmembers Hi; dirs; rabs. }
  destruct (C14_sphere_cross spRun _ _ _ _ _ _ P1 P2 eq_refl exB_valid exB_narrow HR) as [_ X].
  destruct (C14_sphere_auto spRun _ _ _ _ PA eq_refl exB_valid exB_narrow HA) as [_ Y].
  specialize (X eq_refl O1). specialize (Y eq_refl O2).
  repeat (split; [first [assumption|reflexivity|apply exB_valid|apply exB_narrow]|]).
  split; [|split; [|split]].
  - rewrite (proj1 (X 0%Z)). unfold sumPairs, pairs, spCat1, spCat2. cbn [map app flat_map list_prod sumR cleared a_npairs spRun rP cbin]. evdir.
  - rewrite (proj1 (proj2 (X 1%Z))). unfold sumPairs, pairs, spCat1, spCat2. cbn [map app flat_map list_prod sumR cleared a_weight spRun rP cbin]. evdir.
  - rewrite (proj1 (Y 0%Z)). unfold sumUPairs, spCatA. cbn [upairs map app sumR cleared a_npairs spRun rP cbin]. evdir.
  - rewrite (proj1 (Y 1%Z)). unfold sumUPairs, spCatA. cbn [upairs map app sumR cleared a_npairs spRun rP cbin]. evdir.
Qed.

(** 3-d positions at distance 10, directions 0, 15/100, 27/100; bins [1/10,2/10) and [2/10,3/10). *)
Definition tdB : bparams := mkB BLinear (1/10) (3/10) 2 (1/10) 0 1.
Lemma tdB_valid : validB tdB.
Proof. constructor; simpl; try lra; try lia; try discriminate. unfold edge; simpl; lra. Qed.
Lemma tdB_narrow : narrowLog tdB. Proof. intro H; discriminate. Qed.
Definition tdRun : runcfg := mkR (mkC Arc3D None tdB) ThreeD Mean BruteNo 0 10.
Definition tdCat1 : list obj := [dirObj 10 0 1 0].
Definition tdCat2 : list obj := [dirObj 10 (15/100) 2 0; dirObj 10 (27/100) 1 1].
Definition tdCatA : list obj := [dirObj 10 0 1 0; dirObj 10 (15/100) 2 0; dirObj 10 (27/100) 1 1].
Lemma td_all o : In o tdCatA -> exists t, opos o = mkpos (10 * cos t) (10 * sin t) 0 /\ 0 <= t <= 27/100.
Proof. intro H. members H; eexists; (split; [reflexivity|lra]). Qed.
Lemma td_in o : In o (tdCat1 ++ tdCat2) -> In o tdCatA. Proof. auto. Qed.
Lemma td_beyond o : In o tdCatA -> 96/10 <= dot (opos o) xAxis.
Proof.
  intro H. destruct (td_all o H) as [t [-> Ht]]. unfold dot, xAxis. cbn [px py pz]. pose proof (cos_low t). nra.
Qed.
Lemma td_within o1 o2 : In o1 tdCatA -> In o2 tdCatA -> pdist (opos o1) (opos o2) <= 27/10.
Proof.
  intros H1 H2. destruct (td_all o1 H1) as [t [-> Ht]]. destruct (td_all o2 H2) as [t' [-> Ht']].
  eapply Rle_trans; [apply dir_pdist; lra|]. rabs.
Qed.
Lemma td_case : threeDCase tdRun xAxis (96/10) (27/10) tdCat1 tdCat2.
Proof.
  split; [reflexivity|]. split; [discriminate|]. split; [discriminate|]. split; [discriminate|].
  split; [intros o H; members H; cbn; lra|]. split; [intros o H; members H; cbn; lra|].
  split; [intros o H; members H; cbn; lra|]. split; [intros o H; members H; cbn; lra|].
  split; [unfold xAxis; rewrite norm_x; rabs|].
  split; [intros o H; apply td_beyond; apply td_in, in_or_app; auto|].
  split; [intros o H; apply td_beyond; apply td_in, in_or_app; auto|].
  split; [intros o1 o2 H1 H2; apply td_within; auto|lra].
Qed.
Lemma td_caseA : threeDCase tdRun xAxis (96/10) (27/10) tdCatA tdCatA.
Proof.
  split; [reflexivity|]. split; [discriminate|]. split; [discriminate|]. split; [discriminate|].
  split; [intros o H; members H; cbn; lra|]. split; [intros o H; members H; cbn; lra|].
  split; [intros o H; members H; cbn; lra|]. split; [intros o H; members H; cbn; lra|].
  split; [unfold xAxis; rewrite norm_x; rabs|].
  split; [intros o H; apply td_beyond; auto|].
  split; [intros o H; apply td_beyond; auto|].
  split; [intros o1 o2 H1 H2; apply in_app_or in H1, H2; apply td_within; tauto|lra].
Qed.
Lemma tdB_edges j : (0 <= j <= 2)%Z -> edge tdB j = 1/10 \/ edge tdB j = 2/10 \/ edge tdB j = 3/10.
Proof. intro H. unfold edge, tdB. cbn. assert (D : (j = 0 \/ j = 1 \/ j = 2)%Z) by lia. destruct D as [->|[->| ->]]; cbn; lra. Qed.
Lemma tdB_in k d : (k = 0 \/ k = 1)%Z -> inBinb tdB k d = Rleb (1/10 + IZR k / 10) d && Rltb d (2/10 + IZR k / 10).
Proof. intros [-> | ->]; unfold inBinb, edge; cbn; f_equal; f_equal; lra. Qed.
Ltac evdir3 := unfold selBin; cbn [fst snd]; dirs; rewrite ?tdB_in by lia; unfold v_one, v_ww, aconst; cbn [ow dirObj];
  repeat match goal with |- context [Rabs ?x] => first [rewrite (Rabs_left x) by lra | rewrite (Rabs_right x) by lra] end;
  unfold Rleb, Rltb; repeat (first [destruct Rle_dec|destruct Rlt_dec]; try (exfalso; lra); cbn [andb]); cbn; lra.
Example C14_3d_example : exists s1 s2,
  threeDCase tdRun xAxis (96/10) (27/10) tdCat1 tdCat2 /\ threeDCase tdRun xAxis (96/10) (27/10) tdCatA tdCatA /\
  crpar (rP tdRun) = None /\ validB tdB /\ narrowLog tdB /\ slop_b tdB = 0 /\
  runCross tdRun tdCat1 tdCat2 cleared s1 /\ runAuto tdRun tdCatA cleared s2 /\
  offAllEdges tdB (2 * sinExcess ((27/10) / (96/10))) (pairs tdCat1 tdCat2) /\
  offAllEdges tdB (2 * sinExcess ((27/10) / (96/10))) (upairs tdCatA) /\
  a_npairs s1 0 = 1 /\ a_npairs s1 1 = 1 /\ a_npairs s2 0 = 2 /\ a_npairs s2 1 = 1.
Proof.
  destruct (runCross_exists tdRun tdCat1 tdCat2 cleared tdB_valid ltac:(discriminate) ltac:(discriminate)) as [s1 HR].
  destruct (runAuto_exists tdRun tdCatA cleared tdB_valid ltac:(discriminate)) as [s2 HA].
  exists s1, s2. pose proof td_case as P1. pose proof td_caseA as PA.
  assert (E1 : sinExcess (27/10 / (96/10)) <= 1/200).
  { unfold sinExcess. pose proof (asin_bound_by ((27/10) / (96/10)) (286/1000) ltac:(lra) ltac:(lra) ltac:(lra)). lra. }
  assert (O1 : offAllEdges tdB (2 * sinExcess ((27/10) / (96/10))) (pairs tdCat1 tdCat2)).
  { intros o1 o2 j Hi Hj. apply in_pairs in Hi as [H1 H2]. destruct (tdB_edges j Hj) as [->|[->| ->]];
    members H1; members H2; dirs; rabs. }
  assert (O2 : offAllEdges tdB (2 * sinExcess ((27/10) / (96/10))) (upairs tdCatA)).
  { intros o1 o2 j Hi Hj. cbn in Hi. destruct (tdB_edges j Hj) as [->|[->| ->]]; pmembers Hi; dirs; rabs. }
  destruct (C14_3d_cross tdRun _ _ _ _ _ _ _ P1 eq_refl tdB_valid tdB_narrow HR) as [_ X].
  destruct (C14_3d_auto tdRun _ _ _ _ _ _ PA ltac:(lra) eq_refl tdB_valid tdB_narrow HA) as [_ Y].
  specialize (X eq_refl O1). specialize (Y eq_refl O2).
  repeat (split; [first [assumption|reflexivity|apply tdB_valid|apply tdB_narrow]|]).
  split; [|split; [|split]].
  - rewrite (proj1 (X 0%Z)). unfold sumPairs, pairs, tdCat1, tdCat2. cbn [map app flat_map list_prod sumR cleared a_npairs tdRun rP cbin]. evdir3.
  - rewrite (proj1 (X 1%Z)). unfold sumPairs, pairs, tdCat1, tdCat2. cbn [map app flat_map list_prod sumR cleared a_npairs tdRun rP cbin]. evdir3.
  - rewrite (proj1 (Y 0%Z)). unfold sumUPairs, tdCatA. cbn [upairs map app sumR cleared a_npairs tdRun rP cbin]. evdir3.
  - rewrite (proj1 (Y 1%Z)). unfold sumUPairs, tdCatA. cbn [upairs map app sumR cleared a_npairs tdRun rP cbin]. evdir3.
Qed.

(** ** Where the binning is wrong *)
(** Sphere: directions -60 and 60 degrees against 120 degrees, max_sep = pi/2 - 1/2.  The centre of the first
    catalog is 120 degrees away and its (chord) size is 1 < pi/3, so the whole catalog is judged to
    be beyond max_sep, although the angle between 60 and 120 degrees is pi/3 < max_sep.  Any brute setting. *)
Definition arB : bparams := mkB BLinear (1/4) (PI / 2 - 1/2) 1 (PI / 2 - 3/4) 0 1.
Lemma arB_valid : validB arB.
Proof. pose proof PI_3. constructor; cbn; try lra; try lia; try discriminate. Qed.
Definition arCat1 : list obj := [dirObj 1 (- (PI / 3)) 1 0; dirObj 1 (PI / 3) 1 1].
Definition arCat2 : list obj := [dirObj 1 (2 * (PI / 3)) 1 0].
Lemma ar_cen1 : centroid Sphere arCat1 = mkpos 1 0 0.
Proof.
  unfold centroid, arCat1. cbn [sumR dirObj owpos opos px py pz]. destruct (Req_EM_T _ 0); [lra|].
  unfold pscale. cbn [px py pz]. rewrite cos_neg, sin_neg, cos_PI3.
  replace (mkpos _ _ _) with (mkpos (1/2) 0 0) by (f_equal; field).
  cbn [normalize]. rewrite norm_x, Rabs_pos_eq by lra. destruct Req_EM_T; [lra|].
  unfold pscale; cbn. f_equal; field.
Qed.
Lemma sin2PI3 : sin (2 * (PI / 3)) = sqrt 3 / 2.
Proof. replace (2 * (PI / 3)) with (PI - PI / 3) by field. rewrite sin_PI_x. apply sin_PI3. Qed.
Lemma cos2PI3 : cos (2 * (PI / 3)) = - 1 / 2.
Proof. exact cos_2PI3. Qed.
Lemma ar_cen2 : centroid Sphere arCat2 = mkpos (1 * cos (2 * (PI / 3))) (1 * sin (2 * (PI / 3))) 0.
Proof.
  unfold centroid, arCat2. cbn [sumR dirObj owpos opos px py pz]. destruct (Req_EM_T _ 0); [lra|].
  unfold pscale. cbn [px py pz]. set (x := 1 * cos _). set (y := 1 * sin _).
  replace (mkpos _ _ _) with (mkpos x y 0) by (f_equal; field).
  cbn [normalize]. assert (E : norm (mkpos x y 0) = 1) by (apply dir_norm; lra). rewrite E. destruct Req_EM_T; [lra|].
  unfold pscale; cbn. f_equal; field.
Qed.
Lemma sqrt3_sq : sqrt 3 * sqrt 3 = 3. Proof. apply sqrt_sqrt. lra. Qed.
Lemma ar_size1 : calculateSizeSq (centroid Sphere arCat1) arCat1 = 1.
Proof.
  rewrite ar_cen1. unfold arCat1, calculateSizeSq. cbn. unfold normSq, psub. cbn [opos dirObj px py pz].
  rewrite cos_neg, sin_neg, cos_PI3, sin_PI3. pose proof sqrt3_sq. unfold Rmax. repeat destruct Rle_dec; nra.
Qed.
Lemma ar_size2 : calculateSizeSq (centroid Sphere arCat2) arCat2 = 0.
Proof.
  rewrite ar_cen2. unfold arCat2, calculateSizeSq. cbn. unfold normSq, psub. cbn [opos dirObj px py pz].
  unfold Rmax. repeat destruct Rle_dec; nra.
Qed.
Theorem C14_sphere_refuted : forall br, exists Q cat1 cat2 s1,
  cmetric (rP Q) = ArcSphere /\ crpar (rP Q) = None /\ rcoord Q = Sphere /\ rbrute Q = br /\
  validB (cbin (rP Q)) /\ slop_b (cbin (rP Q)) = 0 /\ narrowLog (cbin (rP Q)) /\ posW cat1 /\ posW cat2 /\
  onSphere cat1 /\ onSphere cat2 /\
  runCross Q cat1 cat2 cleared s1 /\
  a_npairs s1 0%Z = 0 /\ sumPairs (selBin (cbin (rP Q)) angle 0) v_one cat1 cat2 = 1.
Proof.
  intro br. set (Q := mkR (mkC ArcSphere None arB) Sphere Mean br 0 10). pose proof PI_3 as HPI.
  destruct (runCross_exists Q arCat1 arCat2 cleared arB_valid ltac:(discriminate) ltac:(discriminate)) as [s1 HR].
  exists Q, arCat1, arCat2, s1. do 4 (split; [reflexivity|]). split; [apply arB_valid|].
  split; [reflexivity|]. split; [intro H; discriminate|].
  split; [intros o H; members H; cbn; lra|]. split; [intros o H; members H; cbn; lra|].
  split; [intros o H; members H; apply dir_norm; lra|]. split; [intros o H; members H; apply dir_norm; lra|].
  split; auto. split.
  - destruct HR as [cells1 [cells2 [_ [_ H]]]]. unfold processCross in H.
    match type of H with if ?c then _ else _ => assert (EX : c = true) end.
    { unfold crossEarlyExit, fieldCenter, fieldSize. cbn [fieldParams fcoord Q rcoord rP cmetric crpar cbin].
      rewrite ar_size1, ar_size2, ar_cen1, ar_cen2, sqrt_0, sqrt_1. cbn [effSize eadd].
      assert (HD : mdist ArcSphere (mkpos 1 0 0) (mkpos (1 * cos (2 * (PI / 3))) (1 * sin (2 * (PI / 3))) 0) = 2 * (PI / 3)).
      { rewrite mdist_arc_sphere; [|rewrite norm_x; rabs|apply dir_norm; lra].
        replace (mkpos 1 0 0) with (mkpos (1 * cos 0) (1 * sin 0) 0) by (rewrite cos_0, sin_0; f_equal; ring).
        rewrite dir_angle by (try lra; rabs). rabs. }
      assert (HQ : distSq ArcSphere (mkpos 1 0 0) (mkpos (1 * cos (2 * (PI / 3))) (1 * sin (2 * (PI / 3))) 0) = 2 * (PI / 3) * (2 * (PI / 3))).
      { revert HD. set (q := mkpos (1 * cos _) _ _). intro HD. assert (HS : mdist ArcSphere (mkpos 1 0 0) q * mdist ArcSphere (mkpos 1 0 0) q = distSq ArcSphere (mkpos 1 0 0) q)
          by (unfold mdist; rewrite sqrt_sqrt; auto; apply Rle_0_sqr).
        rewrite <- HS, HD. reflexivity. }
      rewrite HQ. cbn [isRParOutsideRange tooSmallM tooLargeM orb andb].
      assert (TL : tooLargeDist arB (2 * (PI / 3) * (2 * (PI / 3))) (Fin (1 + 0)) = true).
      { unfold tooLargeDist. cbn [btype arB maxsep]. rewrite !Rleb_t; auto; unfold Rsqr; nra. }
      rewrite TL. apply orb_true_r. }
    rewrite EX in H. subst s1. reflexivity.
  - unfold sumPairs, arCat1, arCat2. unfold pairs. cbn [map app sumR fst snd flat_map list_prod].
    assert (E : forall d, inBinb (cbin (rP Q)) 0 d = Rleb (1/4) d && Rltb d (PI / 2 - 1/2)).
    { intro d. unfold inBinb, edge. cbn. f_equal; f_equal; lra. }
    unfold selBin. rewrite !E. cbn [opos dirObj]. rewrite !dir_angle by (try lra; rabs).
    repeat match goal with |- context [Rabs ?x] => rewrite (Rabs_left x) by lra end.
    unfold Rleb, Rltb, v_one.
    repeat (first [destruct Rle_dec|destruct Rlt_dec]; try (exfalso; lra); cbn [andb]); lra.
Qed.

(** 3-d, auto-correlation: two objects 1/10 away from the observer and 90 degrees apart.  Their cell has size
    0.07 < min_sep / 2 although min_sep = 1 is an angle, so the pair is never looked at. *)
Definition atB : bparams := mkB BLinear 1 3 1 2 0 1.
Lemma atB_valid : validB atB.
Proof. constructor; cbn; try lra; try lia; try discriminate. Qed.
Definition atQ : runcfg := mkR (mkC Arc3D None atB) ThreeD Mean BruteNo 0 0.
Definition atCat : list obj := [mkobj (mkpos (1/10) 0 0) 1 1 2 0 0 0; mkobj (mkpos 0 (1/10) 0) 1 1 2 0 0 1].
Lemma at_cen : centroid ThreeD atCat = mkpos (1/20) (1/20) 0. Proof. unfold atCat. cen. Qed.
Lemma at_size : calculateSizeSq (centroid ThreeD atCat) atCat = 1/200. Proof. rewrite at_cen. unfold atCat. siz. Qed.
Lemma at_angle : angle (mkpos (1/10) 0 0) (mkpos 0 (1/10) 0) = PI / 2.
Proof. unfold angle, dot. cbn [px py pz]. replace (_ / _) with 0; [apply acos_0|]. unfold Rdiv. ring. Qed.
Theorem C14_3d_auto_refuted : exists Q cat s1,
  cmetric (rP Q) = Arc3D /\ crpar (rP Q) = None /\ rcoord Q = ThreeD /\
  validB (cbin (rP Q)) /\ slop_b (cbin (rP Q)) = 0 /\ narrowLog (cbin (rP Q)) /\ posW cat /\
  (forall o1 o2, In o1 cat -> In o2 cat -> mdist Arc3D (opos o1) (opos o2) = angle (opos o1) (opos o2)) /\
  runAuto Q cat cleared s1 /\
  a_npairs s1 0%Z = 0 /\ sumUPairs (selBin (cbin (rP Q)) angle 0) v_one cat = 1.
Proof.
  destruct (runAuto_exists atQ atCat cleared atB_valid ltac:(discriminate)) as [s1 HR].
  exists atQ, atCat, s1. do 3 (split; [reflexivity|]). split; [apply atB_valid|].
  split; [reflexivity|]. split; [intro H; discriminate|].
  split; [intros o H; members H; cbn; lra|]. split; [|split; auto; split].
  - assert (N1 : norm (mkpos (1/10) 0 0) = 1/10) by (rewrite norm_x; rabs).
    assert (N2 : norm (mkpos 0 (1/10) 0) = 1/10).
    { unfold norm, normSq. cbn. replace (0 * 0 + 1/10 * (1/10) + 0 * 0) with (1/10 * (1/10)) by ring. apply sqrt_square. lra. }
    intros o1 o2 H1 H2. members H1; members H2; cbn [opos]; apply C14_3d_distance; rewrite ?N1, ?N2; unfold dot; cbn; lra.
  - destruct HR as [cells [B [evs [threads [HE [HSch ->]]]]]].
    assert (HG : exists c, cells = [c] /\ getSize c <> Inf /\ eleb_fin (getSize c) (1/2) = true).
    { destruct B as [g [Hg Hf]]. unfold fieldParams in Hg, Hf. cbn [fcoord fsm fminsize fmaxsize fmintop fmaxtop fbrute atQ rcoord rsm rmintop rmaxtop rbrute bruteAuto] in Hg, Hf.
      assert (g = [atCat]) as ->.
      { inversion Hg; subst; auto. exfalso. match goal with X : ~ topStop _ _ _ _ _ |- _ => apply X end. right; right. lia. }
      inversion Hf as [|x c l' l'' Hb Hnil E1 E2]; subst. inversion Hnil; subst. exists c. split; auto.
      inversion Hb; subst.
      - split; [discriminate|]. cbn [getSize]. rewrite at_size. unfold eleb_fin. apply Rleb_t.
        replace (1/2) with (sqrt (1/2 * (1/2))) by (apply sqrt_square; lra). apply sqrt_le_1; lra.
      - split; [discriminate|]. cbn. apply Rleb_t. lra. }
    destruct HG as [c [-> [_ HS]]].
    assert (HI : autoIters (rP atQ) [c] = [Some []]).
    { cbn [autoIters]. unfold autoIter. cbn [map oconcat].
      assert (E : process2 (rP atQ) c = Some []).
      { change (halfminsep (cbin (rP atQ))) with (1/2 * 1). 
        assert (E2 : eleb_fin (getSize c) (halfminsep (cbin (rP atQ))) = true).
        { replace (halfminsep (cbin (rP atQ))) with (1/2); auto. unfold halfminsep; cbn; lra. }
        destruct c; unfold process2; fold process2; destruct Req_EM_T; auto; rewrite E2; auto. }
      rewrite E. reflexivity. }
    rewrite HI in HE. destruct evs as [|e [|e' evs]]; try discriminate. injection HE; intros; subst e.
    rewrite (schedule_get FNpairs cleared [[]] threads 0 HSch : a_npairs _ _ = _). cbn. unfold aconst. lra.
  - unfold sumUPairs, atCat. cbn [upairs map app sumR fst snd].
    assert (E : forall d, inBinb (cbin (rP atQ)) 0 d = Rleb 1 d && Rltb d 3).
    { intro d. unfold inBinb, edge. cbn. f_equal; f_equal; lra. }
    unfold selBin. rewrite !E. cbn [opos]. rewrite at_angle. pose proof PI_3. pose proof PI_4.
    rewrite Rleb_t, Rltb_t by lra. cbn. unfold v_one. lra.
Qed.
