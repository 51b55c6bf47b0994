(** Angles of triangles and what moving their corners does to them. *)
From Coq Require Import Reals Lra Lia List ZArith Bool Psatz.
From Verif Require Import Base Geometry Tree Traverse Spec GeomFacts Corr3 TriStop PropsArc.
Open Scope R_scope.

Lemma cos_le_inv x y : 0 <= x <= PI -> 0 <= y <= PI -> cos x <= cos y -> y <= x.
Proof.
  intros Hx Hy H. destruct (Rle_lt_dec y x); auto. exfalso.
  pose proof (cos_decreasing_1 x y ltac:(lra) ltac:(lra) ltac:(lra) ltac:(lra) r). lra.
Qed.
Lemma cos_lt_inv x y : 0 <= x <= PI -> 0 <= y <= PI -> cos x < cos y -> y < x.
Proof.
  intros Hx Hy H. destruct (Rlt_le_dec y x) as [|L]; auto. exfalso.
  destruct (Req_dec x y) as [->|N]; [lra|].
  pose proof (cos_decreasing_1 x y ltac:(lra) ltac:(lra) ltac:(lra) ltac:(lra) ltac:(lra)). lra.
Qed.
Lemma cos_le x y : 0 <= x -> y <= PI -> x <= y -> cos y <= cos x.
Proof.
  intros Hx Hy H. destruct (Req_dec x y) as [->|N]; [lra|].
  pose proof (cos_decreasing_1 x y ltac:(lra) ltac:(lra) ltac:(lra) ltac:(lra) ltac:(lra)). lra.
Qed.

Lemma angle_move u u' s : pdist u u' <= s -> s < norm u -> 0 < norm u' /\ angle u u' <= asin (s / norm u).
Proof.
  intros H1 H2. pose proof (norm_nonneg u). pose proof (pdist_nonneg u u').
  assert (N' : 0 < norm u').
  { pose proof (norm_triangle u' (psub u u')) as T. change (norm (psub u u')) with (pdist u u') in T.
    replace (padd u' (psub u u')) with u in T by (destruct u; unfold padd, psub; simpl; f_equal; ring). lra. }
  split; auto. eapply Rle_trans; [apply angle_shift; lra|].
  assert (0 < / norm u) by (apply Rinv_0_lt_compat; lra).
  assert (pdist u u' / norm u <= s / norm u) by (apply Rmult_le_compat_r; lra).
  assert (0 <= pdist u u' / norm u) by (apply Rmult_le_pos; lra).
  assert (s / norm u < 1) by (apply Rmult_lt_reg_r with (norm u); [lra|]; unfold Rdiv; rewrite Rmult_assoc, Rinv_l; lra).
  apply asin_le; lra.
Qed.

(** The angle at p1. *)
Definition phiOf (p1 p2 p3 : pos) : R := angle (psub p2 p1) (psub p3 p1).

Lemma pdist_psub p q : norm (psub q p) = pdist p q.
Proof. rewrite pdist_sym. auto. Qed.
Lemma cosphi_dot p1 p2 p3 : 0 < pdist p1 p2 -> 0 < pdist p1 p3 ->
  cosphiOf (pdist p2 p3 * pdist p2 p3) (pdist p1 p3 * pdist p1 p3) (pdist p1 p2 * pdist p1 p2) =
  dot (psub p2 p1) (psub p3 p1) / (norm (psub p2 p1) * norm (psub p3 p1)).
Proof.
  intros H3 H2. unfold cosphiOf. rewrite !sqrt_square by apply pdist_nonneg. rewrite !pdist_psub.
  assert (E : pdist p1 p3 * pdist p1 p3 + pdist p1 p2 * pdist p1 p2 - pdist p2 p3 * pdist p2 p3 =
              2 * dot (psub p2 p1) (psub p3 p1)).
  { unfold pdist. rewrite !norm_sq. unfold normSq, dot, psub; simpl. ring. }
  rewrite E. field. lra.
Qed.
Lemma cos_bound_dot u v : 0 < norm u -> 0 < norm v -> -1 <= dot u v / (norm u * norm v) <= 1.
Proof.
  intros Hu Hv. pose proof (cauchy_schwarz u v) as C. apply Rabs_le_inv in C.
  assert (0 < norm u * norm v) by (apply Rmult_lt_0_compat; auto).
  assert (E : dot u v = dot u v / (norm u * norm v) * (norm u * norm v)) by (field; lra).
  split; apply Rmult_le_reg_r with (norm u * norm v); auto; rewrite <- E; lra.
Qed.
Lemma cosphi_cos p1 p2 p3 : 0 < pdist p1 p2 -> 0 < pdist p1 p3 ->
  cosphiOf (pdist p2 p3 * pdist p2 p3) (pdist p1 p3 * pdist p1 p3) (pdist p1 p2 * pdist p1 p2) =
  cos (phiOf p1 p2 p3).
Proof.
  intros H3 H2. rewrite cosphi_dot by auto. unfold phiOf, angle. rewrite cos_acos; auto.
  apply cos_bound_dot; rewrite pdist_psub; auto.
Qed.
Lemma phiOf_bound p1 p2 p3 : 0 <= phiOf p1 p2 p3 <= PI.
Proof. apply angle_bound. Qed.
Lemma phiOf_sym p1 p2 p3 : phiOf p1 p2 p3 = phiOf p1 p3 p2.
Proof. apply angle_sym. Qed.
Lemma sqrt1_cos x : 0 <= x <= PI -> sqrt (1 - cos x * cos x) = sin x.
Proof.
  intro H. pose proof (sin2_cos2 x) as E. unfold Rsqr in E.
  replace (1 - cos x * cos x) with (sin x * sin x) by lra. apply sqrt_square. apply sin_ge_0; lra.
Qed.

(** How much the angle can change. *)
Section Move.
Variables p1 p2 p3 q1 q2 q3 : pos.
Variables s1 s2 s3 : R.
Hypothesis B1 : pdist p1 q1 <= s1.
Hypothesis B2 : pdist p2 q2 <= s2.
Hypothesis B3 : pdist p3 q3 <= s3.
Hypothesis L3 : s1 + s2 < pdist p1 p2.
Hypothesis L2 : s1 + s3 < pdist p1 p3.
Definition dphi2 := asin ((s1 + s2) / pdist p1 p2).
Definition dphi3 := asin ((s1 + s3) / pdist p1 p3).

Lemma psub_move a b a' b' x y : pdist a a' <= x -> pdist b b' <= y -> pdist (psub b a) (psub b' a') <= x + y.
Proof.
  intros H1 H2. unfold pdist in *.
  pose proof (norm_triangle (psub b b') (psub a' a)) as T.
  rewrite (pdist_sym a a' : norm (psub a a') = norm (psub a' a)) in H1.
  replace (psub (psub b a) (psub b' a')) with (padd (psub b b') (psub a' a))
    by (unfold padd, psub; simpl; f_equal; ring). lra.
Qed.
Lemma s_nn : 0 <= s1 /\ 0 <= s2 /\ 0 <= s3.
Proof.
  pose proof (pdist_nonneg p1 q1). pose proof (pdist_nonneg p2 q2). pose proof (pdist_nonneg p3 q3). lra.
Qed.
Lemma quot_range s d : 0 <= s -> s < d -> 0 <= s / d < 1.
Proof.
  intros H1 H2. assert (0 < / d) by (apply Rinv_0_lt_compat; lra). split; [apply Rmult_le_pos; lra|].
  apply Rmult_lt_reg_r with d; [lra|]. unfold Rdiv. rewrite Rmult_assoc, Rinv_l; lra.
Qed.
Lemma dphi2_range : 0 <= dphi2 <= PI / 2.
Proof.
  destruct s_nn as [N1 [N2 N3]]. pose proof (quot_range (s1 + s2) (pdist p1 p2) ltac:(lra) L3) as Q.
  unfold dphi2. split; [apply asin_nonneg; lra|]. apply asin_bound.
Qed.
Lemma dphi3_range : 0 <= dphi3 <= PI / 2.
Proof.
  destruct s_nn as [N1 [N2 N3]]. pose proof (quot_range (s1 + s3) (pdist p1 p3) ltac:(lra) L2) as Q.
  unfold dphi3. split; [apply asin_nonneg; lra|]. apply asin_bound.
Qed.
Lemma sin_dphi2 : sin dphi2 = (s1 + s2) / pdist p1 p2.
Proof.
  destruct s_nn as [N1 [N2 N3]]. pose proof (quot_range (s1 + s2) (pdist p1 p2) ltac:(lra) L3) as Q.
  apply sin_asin; lra.
Qed.
Lemma sin_dphi3 : sin dphi3 = (s1 + s3) / pdist p1 p3.
Proof.
  destruct s_nn as [N1 [N2 N3]]. pose proof (quot_range (s1 + s3) (pdist p1 p3) ltac:(lra) L2) as Q.
  apply sin_asin; lra.
Qed.
Lemma side_pos : 0 < pdist q1 q2 /\ 0 < pdist q1 q3.
Proof.
  destruct (angle_move (psub p2 p1) (psub q2 q1) (s1 + s2)) as [K2 _].
  { apply psub_move; auto. } { rewrite pdist_psub; auto. }
  destruct (angle_move (psub p3 p1) (psub q3 q1) (s1 + s3)) as [K3 _].
  { apply psub_move; auto. } { rewrite pdist_psub; auto. }
  rewrite pdist_psub in K2, K3. auto.
Qed.
Lemma phi_move : Rabs (phiOf q1 q2 q3 - phiOf p1 p2 p3) <= dphi2 + dphi3.
Proof.
  destruct s_nn as [N1 [N2 N3]].
  destruct (angle_move (psub p2 p1) (psub q2 q1) (s1 + s2)) as [K2 A2].
  { apply psub_move; auto. } { rewrite pdist_psub; auto. }
  destruct (angle_move (psub p3 p1) (psub q3 q1) (s1 + s3)) as [K3 A3].
  { apply psub_move; auto. } { rewrite pdist_psub; auto. }
  rewrite pdist_psub in A2, A3.
  eapply Rle_trans; [apply angle_lip|]; try (solve [lra | rewrite pdist_psub; lra]).
  unfold dphi2, dphi3. lra.
Qed.
End Move.

(** ** Orientation in the plane *)
Definition cross2 (u v : pos) : R := px u * py v - py u * px v.
Definition dot2 (u v : pos) : R := px u * px v + py u * py v.
(** u' is u turned by t (|t| <= asin (s/|u|)) and rescaled. *)
Lemma turn u u' s : pz u = 0 -> pz u' = 0 -> pdist u u' <= s -> s < norm u ->
  exists t, Rabs t <= asin (s / norm u) /\
    cross2 u u' = norm u * norm u' * sin t /\ dot2 u u' = norm u * norm u' * cos t.
Proof.
  intros Z Z' H1 H2. destruct (angle_move u u' s H1 H2) as [N' A]. pose proof (pdist_nonneg u u').
  assert (Nu : 0 < norm u) by lra.
  set (a := angle u u') in *. pose proof (angle_bound u u') as AB. fold a in AB.
  assert (C : cos a = dot u u' / (norm u * norm u')).
  { unfold a, angle. rewrite cos_acos; auto. apply cos_bound_dot; auto. }
  assert (D : dot2 u u' = norm u * norm u' * cos a).
  { rewrite C. unfold dot2, dot. rewrite Z, Z'. field. lra. }
  assert (NN : 0 < norm u * norm u') by (apply Rmult_lt_0_compat; auto).
  assert (S : cross2 u u' * cross2 u u' = (norm u * norm u' * sin a) * (norm u * norm u' * sin a)).
  { pose proof (sin2_cos2 a) as E. unfold Rsqr in E.
    assert (Q : (norm u * norm u') * (norm u * norm u') = cross2 u u' * cross2 u u' + dot2 u u' * dot2 u u').
    { replace (norm u * norm u' * (norm u * norm u')) with ((norm u * norm u) * (norm u' * norm u')) by ring.
      rewrite !norm_sq. unfold normSq, cross2, dot2. rewrite Z, Z'. ring. }
    rewrite D in Q.
    replace (cross2 u u' * cross2 u u') with
      ((norm u * norm u') * (norm u * norm u') - (norm u * norm u' * cos a) * (norm u * norm u' * cos a)) by lra.
    replace (norm u * norm u' * sin a * (norm u * norm u' * sin a)) with
      ((norm u * norm u') * (norm u * norm u') * (sin a * sin a)) by ring.
    replace (sin a * sin a) with (1 - cos a * cos a) by lra. ring. }
  assert (SA : 0 <= sin a) by (apply sin_ge_0; lra).
  destruct (Rle_lt_dec 0 (cross2 u u')) as [L|L].
  - exists a. split; [rewrite Rabs_right; lra|]. split; auto.
    apply Rsqr_inj; auto. apply Rmult_le_pos; lra.
  - exists (- a). split; [rewrite Rabs_Ropp, Rabs_right; lra|]. rewrite sin_neg, cos_neg. split; auto.
    assert (K : - cross2 u u' = norm u * norm u' * sin a); [|lra].
    apply Rsqr_inj; [lra|apply Rmult_le_pos; lra|]. unfold Rsqr. lra.
Qed.
Lemma cross2_turn u v u' v' al be : 0 < norm u -> 0 < norm v -> pz u = 0 -> pz v = 0 ->
  cross2 u u' = norm u * norm u' * sin al -> dot2 u u' = norm u * norm u' * cos al ->
  cross2 v v' = norm v * norm v' * sin be -> dot2 v v' = norm v * norm v' * cos be ->
  norm u * norm v * cross2 u' v' = norm u' * norm v' *
    (cross2 u v * cos (be - al) + dot2 u v * sin (be - al)).
Proof.
  intros Nu Nv Zu Zv E1 E2 E3 E4.
  (* u' = (dot2 u u' * u + cross2 u u' * perp u) / |u|^2 *)
  assert (Qu : norm u * norm u = px u * px u + py u * py u) by (rewrite norm_sq; unfold normSq; rewrite Zu; ring).
  assert (Qv : norm v * norm v = px v * px v + py v * py v) by (rewrite norm_sq; unfold normSq; rewrite Zv; ring).
  assert (X : (norm u * norm u) * (norm v * norm v) * cross2 u' v' =
    (dot2 u u' * dot2 v v' + cross2 u u' * cross2 v v') * cross2 u v +
    (dot2 u u' * cross2 v v' - cross2 u u' * dot2 v v') * dot2 u v).
  { rewrite Qu, Qv. unfold cross2, dot2. ring. }
  rewrite E1, E2, E3, E4 in X. rewrite cos_minus, sin_minus.
  apply Rmult_eq_reg_l with (norm u * norm v); [|nra].
  replace (norm u * norm v * (norm u * norm v * cross2 u' v')) with
    ((norm u * norm u) * (norm v * norm v) * cross2 u' v') by ring.
  rewrite X. ring.
Qed.

(** A clockwise triangle (1,3,2) stays so when the two sides turn by less than the distance of phi
    to 0 and pi. *)
Section Orient.
Variables p1 p2 p3 q1 q2 q3 : pos.
Variables s1 s2 s3 : R.
Hypothesis B1 : pdist p1 q1 <= s1.
Hypothesis B2 : pdist p2 q2 <= s2.
Hypothesis B3 : pdist p3 q3 <= s3.
Hypothesis L3 : s1 + s2 < pdist p1 p2.
Hypothesis L2 : s1 + s3 < pdist p1 p3.
Hypothesis Z1 : pz p1 = 0. Hypothesis Z2 : pz p2 = 0. Hypothesis Z3 : pz p3 = 0.
Hypothesis Y1 : pz q1 = 0. Hypothesis Y2 : pz q2 = 0. Hypothesis Y3 : pz q3 = 0.
Lemma orient_keep : cross2 (psub p3 p1) (psub p2 p1) <= 0 ->
  Rabs (cos (phiOf p1 p2 p3)) <= cos (dphi2 p1 p2 s1 s2 + dphi3 p1 p3 s1 s3) ->
  cross2 (psub q3 q1) (psub q2 q1) <= 0.
Proof.
  intros HC HD.
  set (u := psub p3 p1) in *. set (v := psub p2 p1) in *.
  pose proof (pdist_nonneg p1 q1). pose proof (pdist_nonneg p2 q2). pose proof (pdist_nonneg p3 q3).
  assert (Nu : norm u = pdist p1 p3) by apply pdist_psub.
  assert (Nv : norm v = pdist p1 p2) by apply pdist_psub.
  assert (Zu : pz u = 0) by (unfold u, psub; simpl; lra).
  assert (Zv : pz v = 0) by (unfold v, psub; simpl; lra).
  destruct (turn u (psub q3 q1) (s1 + s3)) as [al [A1 [A2 A3]]]; auto;
    [unfold psub; simpl; lra|apply psub_move; auto|lra|].
  destruct (turn v (psub q2 q1) (s1 + s2)) as [be [E1 [E2 E3]]]; auto;
    [unfold psub; simpl; lra|apply psub_move; auto|lra|].
  rewrite Nu in A1. rewrite Nv in E1.
  pose proof (cross2_turn u v (psub q3 q1) (psub q2 q1) al be ltac:(lra) ltac:(lra) Zu Zv A2 A3 E2 E3) as T.
  set (ph := phiOf p1 p2 p3) in *.
  pose proof (phiOf_bound p1 p2 p3) as PB. fold ph in PB.
  pose proof (dphi2_range p1 p2 p3 q1 q2 q3 s1 s2 s3 B1 B2 B3 L3) as R2.
  pose proof (dphi3_range p1 p2 p3 q1 q2 q3 s1 s2 s3 B1 B2 B3 L2) as R3.
  unfold dphi2, dphi3 in *. set (d2 := asin ((s1 + s2) / pdist p1 p2)) in *.
  set (d3 := asin ((s1 + s3) / pdist p1 p3)) in *.
  apply Rabs_le_inv in HD.
  assert (D1 : d2 + d3 <= ph) by (apply cos_le_inv; lra).
  assert (D2 : d2 + d3 <= PI - ph).
  { apply cos_le_inv; try lra. rewrite Rtrigo_facts.cos_pi_minus. lra. }
  assert (CP : dot2 u v = norm u * norm v * cos ph).
  { unfold ph, phiOf, angle. fold u v. rewrite cos_acos by (apply cos_bound_dot; lra).
    unfold dot2, dot. rewrite Zu, Zv. field. lra. }
  assert (SP : cross2 u v = - (norm u * norm v * sin ph)).
  { assert (SA : 0 <= sin ph) by (apply sin_ge_0; lra).
    assert (NN : 0 < norm u * norm v) by (apply Rmult_lt_0_compat; lra).
    assert (Q : (norm u * norm v) * (norm u * norm v) = cross2 u v * cross2 u v + dot2 u v * dot2 u v).
    { replace (norm u * norm v * (norm u * norm v)) with ((norm u * norm u) * (norm v * norm v)) by ring.
      rewrite !norm_sq. unfold normSq, cross2, dot2. rewrite Zu, Zv. ring. }
    rewrite CP in Q. pose proof (sin2_cos2 ph) as E. unfold Rsqr in E.
    assert (K : - cross2 u v = norm u * norm v * sin ph); [|lra].
    apply Rsqr_inj; [lra|apply Rmult_le_pos; lra|]. unfold Rsqr.
    replace (norm u * norm v * sin ph * (norm u * norm v * sin ph)) with
      ((norm u * norm v) * (norm u * norm v) * (sin ph * sin ph)) by ring.
    replace (sin ph * sin ph) with (1 - cos ph * cos ph) by lra. lra. }
  rewrite CP, SP in T.
  replace (- (norm u * norm v * sin ph) * cos (be - al) + norm u * norm v * cos ph * sin (be - al))
    with (norm u * norm v * sin (be - al - ph)) in T by (rewrite (sin_minus (be - al) ph); ring).
  apply Rabs_le_inv in A1, E1.
  assert (S : sin (be - al - ph) <= 0).
  { assert (0 <= sin (- (be - al - ph))) by (apply sin_ge_0; lra). rewrite sin_neg in *. lra. }
  assert (NN : 0 < norm u * norm v) by (apply Rmult_lt_0_compat; lra).
  assert (0 <= norm (psub q3 q1) * norm (psub q2 q1)) by (apply Rmult_le_pos; apply norm_nonneg).
  apply Rmult_le_reg_l with (norm u * norm v); auto. rewrite T, Rmult_0_r.
  assert (norm u * norm v * sin (be - al - ph) <= 0) by nra. nra.
Qed.
End Orient.
