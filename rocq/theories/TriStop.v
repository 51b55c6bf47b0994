(** Soundness of the three-point stop tests for bin_type='LogRUV'. *)
From Coq Require Import Reals Lra Lia List ZArith Bool Psatz.
From Verif Require Import Base Geometry Tree Traverse Spec GeomFacts Corr3.
Import ListNotations.
Open Scope R_scope.

(** Three sides, longest first, form a triangle that is to be counted. *)
Definition inR (P : tparams) (d1 d2 d3 : R) : Prop :=
  0 < d3 <= d2 /\ d2 <= d1 /\ tminsep P <= d2 < tmaxsep P /\
  tminu P * d2 <= d3 < tmaxu P * d2 /\ tminv P * d3 <= d1 - d2 < tmaxv P * d3.

(** None of the labellings that [O] allows is to be counted. *)
Definition bad (P : tparams) (O : order) (d1 d2 d3 : R) : Prop :=
  match O with
  | O3 => ~ inR P d1 d2 d3
  | O1 => ~ inR P d1 d2 d3 /\ ~ inR P d1 d3 d2
  | O0 => ~ inR P d1 d2 d3 /\ ~ inR P d1 d3 d2 /\ ~ inR P d2 d1 d3 /\ ~ inR P d2 d3 d1 /\
          ~ inR P d3 d1 d2 /\ ~ inR P d3 d2 d1
  end.
Definition pre3 (O : order) (d1 d2 d3 : R) : Prop :=
  match O with O0 => d2 <= d1 /\ d3 <= d2 | O1 => d3 <= d2 | O3 => True end.

Ltac btrue :=
  repeat match goal with
  | H : _ || _ = true |- _ => apply orb_true_iff in H; destruct H
  | H : _ && _ = true |- _ => apply andb_true_iff in H; destruct H
  | H : Rltb _ _ = true |- _ => apply Rltb_true in H
  | H : Rleb _ _ = true |- _ => apply Rleb_true in H
  | H : Rltb _ _ = false |- _ => apply Rltb_false in H
  | H : Rleb _ _ = false |- _ => apply Rleb_false in H
  | H : _ || _ = false |- _ => apply orb_false_iff in H; destruct H
  end.
Lemma Reqb_true x y : Reqb x y = true -> x = y.
Proof. unfold Reqb. destruct Req_EM_T; auto; discriminate. Qed.
Lemma Reqb_false x y : Reqb x y = false -> x <> y.
Proof. unfold Reqb. destruct Req_EM_T; auto; discriminate. Qed.

Lemma Rabs_le_inv x a : Rabs x <= a -> - a <= x <= a.
Proof. unfold Rabs. destruct Rcase_abs; lra. Qed.
Lemma sq_lt_inv x y : 0 <= y -> x * x < y * y -> x < y.
Proof. intros. destruct (Rlt_dec x y); auto. exfalso. nra. Qed.
Lemma sq_le_inv x y : 0 <= y -> x * x <= y * y -> x <= y.
Proof. intros. destruct (Rle_dec x y); auto. exfalso. nra. Qed.

Section Stop.
Variable P : tparams.
Hypothesis Hminsep : 0 < tminsep P.
Hypothesis Hminu : 0 <= tminu P.
Hypothesis Hmaxu : 0 <= tmaxu P <= 1.
Hypothesis Hminmaxu : tminu P <= 1.
Hypothesis Hmaxv : 0 <= tmaxv P.

Variables d1 d2 d3 s1 s2 s3 e1 e2 e3 : R.
Hypothesis D1 : 0 <= d1. Hypothesis D2 : 0 <= d2. Hypothesis D3 : 0 <= d3.
Hypothesis S1 : 0 <= s1. Hypothesis S2 : 0 <= s2. Hypothesis S3 : 0 <= s3.
Hypothesis E1 : 0 <= e1. Hypothesis E2 : 0 <= e2. Hypothesis E3 : 0 <= e3.
(** the sides of a triangle of objects against those of the centres *)
Hypothesis L1 : Rabs (e1 - d1) <= s2 + s3.
Hypothesis L2 : Rabs (e2 - d2) <= s1 + s3.
Hypothesis L3 : Rabs (e3 - d3) <= s1 + s2.

Lemma L1' : d1 - s2 - s3 <= e1 <= d1 + s2 + s3.
Proof. pose proof L1 as H. apply Rabs_le_inv in H. lra. Qed.
Lemma L2' : d2 - s1 - s3 <= e2 <= d2 + s1 + s3.
Proof. pose proof L2 as H. apply Rabs_le_inv in H. lra. Qed.
Lemma L3' : d3 - s1 - s2 <= e3 <= d3 + s1 + s2.
Proof. pose proof L3 as H. apply Rabs_le_inv in H. lra. Qed.

Lemma bad_min O : pre3 O d1 d2 d3 -> e2 < tminsep P -> (O <> O3 -> e3 < tminsep P) ->
  bad P O e1 e2 e3.
Proof.
  intros HO H2 H3. unfold bad, inR.
  destruct O; [specialize (H3 ltac:(discriminate))|specialize (H3 ltac:(discriminate))|]; lra.
Qed.
Lemma bad_max O : pre3 O d1 d2 d3 -> tmaxsep P <= e2 -> (O = O0 -> tmaxsep P <= e1) ->
  bad P O e1 e2 e3.
Proof.
  intros HO H2 H3. unfold bad, inR.
  destruct O; [specialize (H3 eq_refl)| |]; lra.
Qed.

Lemma stop_minsep O : pre3 O d1 d2 d3 ->
  d2 * d2 < Rsqr (tminsep P) -> s1 + s3 < tminsep P -> s1 + s2 < tminsep P ->
  (s1 + s3 = 0 \/ d2 * d2 < Rsqr (tminsep P - s1 - s3)) ->
  (s1 + s2 = 0 \/ d3 * d3 < Rsqr (tminsep P - s1 - s2)) -> bad P O e1 e2 e3.
Proof.
  unfold Rsqr. intros HO A1 A2 A3 A4 A5. pose proof L2'. pose proof L3'.
  assert (d2 < tminsep P) by (apply sq_lt_inv; lra).
  apply bad_min; auto.
  - destruct A4 as [A4|A4]; [lra|]. apply sq_lt_inv in A4; lra.
  - intro N. destruct A5 as [A5|A5]; [destruct O; simpl in HO; try congruence; lra|].
    apply sq_lt_inv in A5; lra.
Qed.
Lemma stop_maxsep O : pre3 O d1 d2 d3 -> 0 <= tmaxsep P ->
  Rsqr (tmaxsep P) <= d2 * d2 ->
  (s1 + s3 = 0 \/ Rsqr (tmaxsep P + s1 + s3) <= d2 * d2) ->
  (s2 + s3 = 0 \/ Rsqr (tmaxsep P + s2 + s3) <= d1 * d1) -> bad P O e1 e2 e3.
Proof.
  unfold Rsqr. intros HO Hm A1 A2 A3. pose proof L2'. pose proof L1'.
  assert (tmaxsep P <= d2) by (apply sq_le_inv; lra).
  apply bad_max; auto.
  - destruct A2 as [A2|A2]; [lra|]. apply sq_le_inv in A2; lra.
  - intros ->. simpl in HO. destruct A3 as [A3|A3]; [lra|]. apply sq_le_inv in A3; lra.
Qed.

Lemma bad_u O : pre3 O d1 d2 d3 -> e3 < tminu P * e2 -> (O = O0 -> e3 < tminu P * e1) ->
  bad P O e1 e2 e3.
Proof.
  intros HO H2 H3.
  assert (H2' : e3 < e2) by nra.
  unfold bad, inR. destruct O; [specialize (H3 eq_refl); assert (e3 < e1) by nra| |]; lra.
Qed.
Lemma stop_minu O : pre3 O d1 d2 d3 ->
  d3 * d3 < tminu P * tminu P * (d2 * d2) -> s1 + s3 < d2 ->
  s1 + s2 < tminu P * (d2 - s1 - s3) ->
  d3 * d3 < Rsqr (tminu P * (d2 - s1 - s3) - s1 - s2) ->
  d3 * d3 < tminu P * tminu P * (d1 * d1) -> 2 * Rsqr (s2 + s3) < d1 * d1 ->
  2 * (d3 * d3) + 2 * Rsqr (s1 + s2 + tminu P * (s2 + s3)) < tminu P * tminu P * (d1 * d1) ->
  bad P O e1 e2 e3.
Proof.
  unfold Rsqr. intros HO A1 A2 A3 A4 A5 A6 A7. pose proof L1'. pose proof L2'. pose proof L3'.
  set (m := tminu P) in *.
  apply bad_u; auto; fold m.
  - apply sq_lt_inv in A4; [|lra].
    assert (m * (d2 - s1 - s3) <= m * e2) by (apply Rmult_le_compat_l; lra). lra.
  - intros _. set (t := s1 + s2 + m * (s2 + s3)) in *.
    assert (0 <= m * (s2 + s3)) by (apply Rmult_le_pos; lra).
    assert (0 <= m * d1) by (apply Rmult_le_pos; lra).
    assert (d3 + t < m * d1).
    { apply sq_lt_inv; auto. assert (0 <= (d3 - t) * (d3 - t)) by apply Rle_0_sqr.
      replace (m * d1 * (m * d1)) with (m * m * (d1 * d1)) by ring. lra. }
    assert (m * (d1 - s2 - s3) <= m * e1) by (apply Rmult_le_compat_l; lra).
    unfold t in *. lra.
Qed.

Lemma stop_maxu O : pre3 O d1 d2 d3 ->
  Rsqr (tmaxu P * (d2 + s1 + s3) + s1 + s2) <= d3 * d3 ->
  (s3 < s2 \/ (d3 * d3 <= Rsqr (d2 - s3 + s2))) ->
  (s3 < s1 \/ (2 * (d3 * d3) + 2 * Rsqr (s3 - s1) <= d1 * d1)) ->
  s1 + s3 < d2 -> bad P O e1 e2 e3.
Proof.
  unfold Rsqr. intros HO A1 A2 A3 A4. pose proof L1'. pose proof L2'. pose proof L3'.
  set (m := tmaxu P) in *.
  assert (B : m * (d2 + s1 + s3) + s1 + s2 <= d3) by (apply sq_le_inv; lra).
  assert (F3 : m * e2 <= e3).
  { assert (m * e2 <= m * (d2 + s1 + s3)) by (apply Rmult_le_compat_l; lra). lra. }
  assert (F2 : O <> O3 -> m * e3 <= e2).
  { intro N. assert (d3 <= d2) by (destruct O; simpl in HO; congruence || lra).
    destruct (Rlt_dec s3 s2) as [Hs|Hs].
    - assert (m * e3 <= m * (d3 + s1 + s2)) by (apply Rmult_le_compat_l; lra).
      assert (m * (s2 - s3) <= s2 - s3) by nra.
      assert (m * d3 <= m * d2) by (apply Rmult_le_compat_l; lra). lra.
    - destruct A2 as [A2|A2]; [lra|]. apply sq_le_inv in A2; [|lra].
      assert (m * e3 <= m * (d3 + s1 + s2)) by (apply Rmult_le_compat_l; lra).
      assert (m * d3 <= m * (d2 - s3 + s2)) by (apply Rmult_le_compat_l; lra).
      assert (0 <= m * (s3 - s2)) by (apply Rmult_le_pos; lra). lra. }
  assert (F1 : O = O0 -> m * e2 <= e1).
  { intros ->. simpl in HO.
    assert (m * e2 <= m * (d2 + s1 + s3)) by (apply Rmult_le_compat_l; lra).
    destruct (Rlt_dec s3 s1) as [Hs|Hs]; [lra|].
    destruct A3 as [A3|A3]; [lra|].
    assert (d3 + (s3 - s1) <= d1).
    { apply sq_le_inv; auto. assert (0 <= (d3 - (s3 - s1)) * (d3 - (s3 - s1))) by apply Rle_0_sqr.
      lra. }
    lra. }
  unfold bad, inR. fold m. destruct O.
  - specialize (F2 ltac:(discriminate)). specialize (F1 eq_refl).
    assert (e2 <= e3 -> m * e2 <= m * e3) by (intro; apply Rmult_le_compat_l; lra).
    assert (e1 <= e3 -> m * e1 <= m * e3) by (intro; apply Rmult_le_compat_l; lra).
    assert (e1 <= e2 -> m * e1 <= m * e2) by (intro; apply Rmult_le_compat_l; lra).
    assert (e3 <= e2 -> m * e3 <= m * e2) by (intro; apply Rmult_le_compat_l; lra).
    repeat split; intros HH; lra.
  - specialize (F2 ltac:(discriminate)). lra.
  - lra.
Qed.

Lemma stop_zero O : (s2 + s3 = 0 /\ d1 = 0) \/ (s1 + s3 = 0 /\ d2 = 0) \/ (s1 + s2 = 0 /\ d3 = 0) ->
  bad P O e1 e2 e3.
Proof.
  pose proof L1'. pose proof L2'. pose proof L3'. unfold bad, inR. destruct O; lra.
Qed.
Lemma stop_order O : ordAny O = true -> e1 < e2 \/ e1 < e3 -> bad P O e1 e2 e3.
Proof. intros HO H. destruct O; simpl in HO; try discriminate; unfold bad, inR; lra. Qed.

(** All clauses except those on v. *)
Lemma stopRUV_sound O : pre3 O d1 d2 d3 -> 0 <= tmaxsep P -> tminv P <= 0 ->
  (tmaxv P < 1 -> (1 + tmaxv P) * d2 + (s1 + s2 + s3) + tmaxv P * (s1 + s2) < d1 ->
   bad P O e1 e2 e3) ->
  stopRUV P O (d1 * d1) (d2 * d2) (d3 * d3) s1 s2 s3 = true -> bad P O e1 e2 e3.
Proof.
  intros HO Hms Hmv Hv H. unfold stopRUV in H. rewrite !sqrt_square in H by auto.
  pose proof L1'. pose proof L2'. pose proof L3'.
  repeat (apply orb_true_iff in H; destruct H as [H|H]).
  - apply andb_true_iff in H as [H A5]. apply andb_true_iff in H as [H A4]. btrue.
    all: repeat match goal with A : Reqb _ _ = true |- _ => apply Reqb_true in A end.
    all: apply stop_minsep; auto.
  - apply andb_true_iff in H as [H A5]. apply andb_true_iff in H as [H A4]. btrue.
    all: repeat match goal with A : Reqb _ _ = true |- _ => apply Reqb_true in A end.
    all: apply stop_maxsep; auto.
  - btrue. destruct O; try discriminate. simpl. unfold inR. unfold Rsqr in *.
    apply sq_lt_inv in H3; lra.
  - btrue. apply stop_order; auto. left. unfold Rsqr in *. apply sq_lt_inv in H3; lra.
  - btrue. apply stop_order; auto. right. unfold Rsqr in *. apply sq_lt_inv in H3; lra.
  - btrue. apply stop_minu; auto.
  - assert (forall a b c, a = true -> (b || c) = true -> (a && (b || c)) = true) by
      (intros; subst; auto).
    apply andb_true_iff in H as [H B2]. apply andb_true_iff in H as [H B1].
    apply andb_true_iff in H as [H B0]. apply andb_true_iff in H as [H B0'].
    apply andb_true_iff in H as [H A1]. clear H.
    apply Rleb_true in A1. apply Rltb_true in B0'. unfold Rsqr in B0'.
    apply sq_lt_inv in B0'; auto.
    apply stop_maxu; auto.
    + apply orb_true_iff in B1 as [B|B]; [left; apply Rltb_true; auto|right; apply Rleb_true; auto].
    + apply orb_true_iff in B2 as [B|B]; [left; apply Rltb_true; auto|right; apply Rleb_true; auto].
  - btrue. apply Hv; auto. unfold Rsqr in *. apply sq_lt_inv; auto.
  - btrue. lra.
  - btrue. apply Reqb_true in H, H3, H4. apply stop_zero. left. nra.
  - btrue. apply Reqb_true in H, H3, H4. apply stop_zero. right; left. nra.
  - btrue. apply Reqb_true in H, H3, H4. apply stop_zero. right; right. nra.
Qed.
End Stop.

(** ** Ptolemy's inequality *)
Definition inv3 (x : pos) : pos := pscale (/ normSq x) x.
Lemma inv3_dist x y : 0 < norm x -> 0 < norm y ->
  norm (psub (inv3 x) (inv3 y)) = norm (psub x y) / (norm x * norm y).
Proof.
  intros Hx Hy. unfold norm at 1 2. 
  assert (Nx : 0 < normSq x) by (unfold norm in Hx; apply sqrt_lt_0_alt; rewrite sqrt_0; auto).
  assert (Ny : 0 < normSq y) by (unfold norm in Hy; apply sqrt_lt_0_alt; rewrite sqrt_0; auto).
  assert (E : normSq (psub (inv3 x) (inv3 y)) = normSq (psub x y) / (normSq x * normSq y)).
  { unfold inv3, normSq, psub, pscale in *; simpl in *. field. lra. }
  rewrite E. unfold norm. rewrite <- sqrt_mult by lra. rewrite sqrt_div; [auto| |].
  - apply normSq_nonneg.
  - apply Rmult_lt_0_compat; auto.
Qed.
Lemma norm_nn p : 0 <= norm p. Proof. apply sqrt_pos. Qed.
Lemma norm0 p : norm p = 0 -> p = mkpos 0 0 0.
Proof.
  intro H. unfold norm in H. apply sqrt_eq_0 in H; [|apply normSq_nonneg].
  destruct p as [x y z]. unfold normSq in H; simpl in H. 
  assert (x = 0) by nra. assert (y = 0) by nra. assert (z = 0) by nra. subst; auto.
Qed.
Lemma pdist_norm p q : pdist p q = norm (psub p q).
Proof. reflexivity. Qed.
Lemma ptolemy0 a b p : norm b * norm (psub p a) <= norm a * norm (psub p b) + norm p * norm (psub b a).
Proof.
  pose proof (norm_nn a). pose proof (norm_nn b). pose proof (norm_nn p).
  destruct (Req_dec (norm b) 0) as [Zb|Zb].
  { rewrite Zb. pose proof (norm_nn (psub p b)). pose proof (norm_nn (psub b a)). nra. }
  destruct (Req_dec (norm a) 0) as [Za|Za].
  { rewrite Za. apply norm0 in Za. subst a.
    assert (E : forall q, psub q (mkpos 0 0 0) = q) by (intros [? ? ?]; unfold psub; simpl; f_equal; ring).
    rewrite !E. nra. }
  destruct (Req_dec (norm p) 0) as [Zp|Zp].
  { rewrite Zp. apply norm0 in Zp. subst p.
    assert (E : forall q, norm (psub (mkpos 0 0 0) q) = norm q).
    { intros [? ? ?]. unfold norm. f_equal. unfold normSq, psub; simpl; ring. }
    rewrite !E. nra. }
  assert (T := pdist_triangle (inv3 p) (inv3 b) (inv3 a)). rewrite !pdist_norm in T.
  rewrite !inv3_dist in T by lra.
  assert (0 < norm a * norm b * norm p) by (repeat apply Rmult_lt_0_compat; lra).
  apply Rmult_le_compat_l with (r := norm a * norm b * norm p) in T; [|lra].
  replace (norm a * norm b * norm p * (norm (psub p a) / (norm p * norm a)))
    with (norm b * norm (psub p a)) in T by (field; lra).
  replace (norm a * norm b * norm p *
    (norm (psub p b) / (norm p * norm b) + norm (psub b a) / (norm b * norm a)))
    with (norm a * norm (psub p b) + norm p * norm (psub b a)) in T by (field; lra).
  auto.
Qed.
Lemma ptolemy q a b p :
  pdist q b * pdist p a <= pdist q a * pdist p b + pdist q p * pdist b a.
Proof.
  pose proof (ptolemy0 (psub a q) (psub b q) (psub p q)) as H.
  assert (E : forall x y, norm (psub (psub x q) (psub y q)) = pdist x y).
  { intros x y. unfold pdist, norm. f_equal. unfold normSq, psub; simpl; ring. }
  assert (F : forall x, norm (psub x q) = pdist q x).
  { intros x. unfold pdist, norm. f_equal. unfold normSq, psub; simpl; ring. }
  rewrite !E, !F in H. auto.
Qed.

(** If v < m for the triangle (a, b, p), replacing p by q changes the sides by little enough. *)
Lemma ptolemy_v m a b p q : 0 <= m -> 0 < pdist a p ->
  pdist b p <= pdist a p + m * pdist a b -> pdist a b <= pdist a p ->
  pdist b q <= (1 + m) * pdist a q + pdist q p.
Proof.
  intros Hm Hp H1 H2. pose proof (ptolemy q a b p) as H.
  rewrite (pdist_sym q b), (pdist_sym p a), (pdist_sym q a), (pdist_sym p b), (pdist_sym b a) in H.
  pose proof (pdist_nonneg a q). pose proof (pdist_nonneg q p). pose proof (pdist_nonneg a b).
  apply Rmult_le_reg_r with (r := pdist a p); auto.
  assert (pdist a q * pdist b p <= pdist a q * (pdist a p + m * pdist a b))
    by (apply Rmult_le_compat_l; auto).
  assert (pdist q p * pdist a b <= pdist q p * pdist a p) by (apply Rmult_le_compat_l; auto).
  assert (pdist a q * (m * pdist a b) <= pdist a q * (m * pdist a p)).
  { apply Rmult_le_compat_l; auto. apply Rmult_le_compat_l; auto. }
  lra.
Qed.

(** The max_v test, for Euclidean distances. *)
Lemma stop_maxv P O p1 p2 p3 q1 q2 q3 s1 s2 s3 :
  0 <= tmaxv P -> pre3 O (pdist p2 p3) (pdist p1 p3) (pdist p1 p2) ->
  pdist p1 q1 <= s1 -> pdist p2 q2 <= s2 -> pdist p3 q3 <= s3 ->
  (1 + tmaxv P) * pdist p1 p3 + (s1 + s2 + s3) + tmaxv P * (s1 + s2) < pdist p2 p3 ->
  bad P O (pdist q2 q3) (pdist q1 q3) (pdist q1 q2).
Proof.
  intros Hm HO S1 S2 S3 H. set (m := tmaxv P) in *.
  pose proof (pdist_nonneg p1 q1). pose proof (pdist_nonneg p2 q2). pose proof (pdist_nonneg p3 q3).
  pose proof (pdist_triangle p2 q2 p3). pose proof (pdist_triangle q1 p1 p3).
  pose proof (pdist_triangle q1 p1 p2). pose proof (pdist_triangle p3 q3 p2).
  rewrite (pdist_sym q1 p1) in *. rewrite (pdist_sym q3 p2) in *.
  rewrite (pdist_sym p3 p2) in *.
  assert (A : forall t, 0 <= t <= m -> 0 < pdist q1 q3 -> pdist q2 q3 <= pdist q1 q3 + t * pdist q1 q2 ->
              pdist q1 q2 <= pdist q1 q3 -> False).
  { intros t Ht Hp H1' H2'. pose proof (ptolemy_v t q1 q2 q3 p3 ltac:(lra) Hp H1' H2').
    assert ((1 + t) * pdist q1 p3 <= (1 + m) * (pdist p1 p3 + s1)).
    { pose proof (pdist_nonneg q1 p3). apply Rmult_le_compat; lra. }
    assert (0 <= m * s2) by (apply Rmult_le_pos; lra). lra. }
  assert (B : O <> O3 -> forall t, 0 <= t <= m -> 0 < pdist q1 q2 ->
              pdist q2 q3 <= pdist q1 q2 + t * pdist q1 q3 -> pdist q1 q3 <= pdist q1 q2 -> False).
  { intros N t Ht Hp H1' H2'. rewrite (pdist_sym q2 q3) in H1'.
    pose proof (ptolemy_v t q1 q3 q2 p2 ltac:(lra) Hp H1' H2').
    assert (pdist p1 p2 <= pdist p1 p3) by (destruct O; simpl in HO; congruence || lra).
    rewrite (pdist_sym q3 p2) in *.
    assert ((1 + t) * pdist q1 p2 <= (1 + m) * (pdist p1 p3 + s1)).
    { pose proof (pdist_nonneg q1 p2). apply Rmult_le_compat; lra. }
    assert (0 <= m * s2) by (apply Rmult_le_pos; lra). lra. }
  assert (C1 : ~ inR P (pdist q2 q3) (pdist q1 q3) (pdist q1 q2)).
  { unfold inR. intro I. apply (A m); fold m in I; lra. }
  destruct O; simpl; auto.
  - specialize (B ltac:(discriminate)).
    split; auto. split; [|split; [|split; [|split]]]; unfold inR; fold m; intro I.
    + apply (B m); lra.
    + apply (A 0); lra.
    + apply (A 0); lra.
    + apply (B 0); lra.
    + apply (B 0); lra.
  - specialize (B ltac:(discriminate)). split; auto. unfold inR; fold m; intro I. apply (B m); lra.
Qed.
