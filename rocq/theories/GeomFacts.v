(** Facts about the geometric kernel: triangle inequality, metrics, pruning tests. *)
From Coq Require Import Reals Lra Lia List ZArith Bool Psatz.
From Verif Require Import Base Geometry.
Open Scope R_scope.

Lemma Rltb_true x y : Rltb x y = true <-> x < y.
Proof. unfold Rltb; destruct (Rlt_dec x y); split; auto; discriminate. Qed.
Lemma Rltb_false x y : Rltb x y = false <-> y <= x.
Proof. unfold Rltb; destruct (Rlt_dec x y); split; intros; auto; try discriminate; lra. Qed.
Lemma Rleb_true x y : Rleb x y = true <-> x <= y.
Proof. unfold Rleb; destruct (Rle_dec x y); split; auto; discriminate. Qed.
Lemma Rleb_false x y : Rleb x y = false <-> y < x.
Proof. unfold Rleb; destruct (Rle_dec x y); split; intros; auto; try discriminate; lra. Qed.

(** ** Norms *)
Lemma normSq_nonneg p : 0 <= normSq p.
Proof. unfold normSq; nra. Qed.
Lemma norm_nonneg p : 0 <= norm p.
Proof. apply sqrt_pos. Qed.
Lemma norm_sq p : norm p * norm p = normSq p.
Proof. apply sqrt_sqrt, normSq_nonneg. Qed.
Lemma normSq_le p s : 0 <= s -> (norm p <= s <-> normSq p <= s * s).
Proof.
  intros Hs; rewrite <- norm_sq; pose proof (norm_nonneg p); split; intro; nra.
Qed.

Lemma sqrt_le_sq x y : 0 <= y -> x <= y * y -> sqrt x <= y.
Proof.
  intros Hy H. replace y with (sqrt (y * y)) by (apply sqrt_square; auto).
  apply sqrt_le_1_alt; auto.
Qed.
Lemma sqrt_lt_sq x y : 0 <= x -> 0 < y -> x < y * y -> sqrt x < y.
Proof.
  intros Hx Hy H. replace y with (sqrt (y * y)) by (apply sqrt_square; lra).
  apply sqrt_lt_1_alt; lra.
Qed.
Lemma le_sqrt_sq x y : 0 <= y -> y * y <= x -> y <= sqrt x.
Proof.
  intros Hy H. replace y with (sqrt (y * y)) by (apply sqrt_square; auto).
  apply sqrt_le_1_alt; auto.
Qed.
Lemma lt_sqrt_sq x y : 0 <= y -> y * y < x -> y < sqrt x.
Proof.
  intros Hy H. replace y with (sqrt (y * y)) by (apply sqrt_square; auto).
  apply sqrt_lt_1_alt; nra.
Qed.

Lemma cauchy_schwarz p q : Rabs (dot p q) <= norm p * norm q.
Proof.
  rewrite <- (Rabs_pos_eq (norm p * norm q)).
  2:{ apply Rmult_le_pos; apply norm_nonneg. }
  apply Rsqr_le_abs_0. unfold Rsqr.
  replace (norm p * norm q * (norm p * norm q)) with (normSq p * normSq q)
    by (rewrite <- !norm_sq; ring).
  unfold dot, normSq. destruct p as [a b c], q as [x y z]; simpl.
  assert (0 <= (a*y-b*x)*(a*y-b*x) + (a*z-c*x)*(a*z-c*x) + (b*z-c*y)*(b*z-c*y)).
  { pose proof (Rle_0_sqr (a*y-b*x)). pose proof (Rle_0_sqr (a*z-c*x)).
    pose proof (Rle_0_sqr (b*z-c*y)). unfold Rsqr in *. lra. }
  lra.
Qed.

Lemma norm_triangle p q : norm (padd p q) <= norm p + norm q.
Proof.
  apply normSq_le. { pose proof (norm_nonneg p); pose proof (norm_nonneg q); lra. }
  pose proof (cauchy_schwarz p q). pose proof (Rle_abs (dot p q)).
  replace (normSq (padd p q)) with (normSq p + normSq q + 2 * dot p q)
    by (unfold normSq, dot, padd; simpl; ring).
  rewrite <- !norm_sq. nra.
Qed.

Lemma norm_neg p : norm (pscale (-1) p) = norm p.
Proof. unfold norm, normSq, pscale; simpl; f_equal; ring. Qed.

Definition pdist (p q : pos) : R := norm (psub p q).
Lemma pdist_sym p q : pdist p q = pdist q p.
Proof. unfold pdist, norm, normSq, psub; simpl; f_equal; ring. Qed.
Lemma pdist_triangle p q r : pdist p r <= pdist p q + pdist q r.
Proof.
  unfold pdist. replace (psub p r) with (padd (psub p q) (psub q r)).
  - apply norm_triangle.
  - unfold padd, psub; simpl; f_equal; ring.
Qed.
Lemma pdist_nonneg p q : 0 <= pdist p q.
Proof. apply norm_nonneg. Qed.
Lemma normSq_0 p : normSq p = 0 -> p = mkpos 0 0 0.
Proof.
  destruct p as [a b c]; unfold normSq; simpl; intro H.
  assert (a = 0) by nra. assert (b = 0) by nra. assert (c = 0) by nra. subst; auto.
Qed.
Lemma pdist_0 p q : pdist p q = 0 -> p = q.
Proof.
  unfold pdist; intro H.
  assert (H' : normSq (psub p q) = 0) by (rewrite <- norm_sq, H; ring).
  apply normSq_0 in H'. destruct p, q; unfold psub in H'; simpl in H'.
  injection H'; intros. f_equal; lra.
Qed.
Lemma pdist_refl p : pdist p p = 0.
Proof.
  unfold pdist, norm. replace (normSq (psub p p)) with 0
    by (unfold normSq, psub; simpl; ring). apply sqrt_0.
Qed.

(** Moving both end points by at most s1, s2 changes the distance by at most s1+s2. *)
Lemma pdist_lip p1 p2 q1 q2 s1 s2 :
  pdist p1 q1 <= s1 -> pdist p2 q2 <= s2 ->
  Rabs (pdist q1 q2 - pdist p1 p2) <= s1 + s2.
Proof.
  intros H1 H2. apply Rabs_le.
  pose proof (pdist_triangle q1 p1 q2). pose proof (pdist_triangle p1 p2 q2).
  pose proof (pdist_triangle p1 q1 p2). pose proof (pdist_triangle q1 q2 p2).
  rewrite (pdist_sym q1 p1) in *. rewrite (pdist_sym q2 p2) in *.
  split; lra.
Qed.

(** ** The metric as a distance *)
Definition mdist (M : metric) (p1 p2 : pos) : R := sqrt (distSq M p1 p2).

Lemma mdist_euclid p q : mdist Euclidean p q = pdist p q.
Proof. reflexivity. Qed.

(** ** trunc *)
Lemma Int_part_spec x : IZR (Int_part x) <= x < IZR (Int_part x) + 1.
Proof. destruct (base_Int_part x); lra. Qed.

Lemma Int_part_unique x z : IZR z <= x < IZR z + 1 -> Int_part x = z.
Proof.
  intros [H1 H2]. pose proof (Int_part_spec x) as [H3 H4].
  assert (H5 : IZR (Int_part x) < IZR (z + 1)) by (rewrite plus_IZR; lra).
  assert (H6 : IZR z < IZR (Int_part x + 1)) by (rewrite plus_IZR; lra).
  apply lt_IZR in H5. apply lt_IZR in H6. lia.
Qed.

Lemma trunc_nonneg x : 0 <= x -> IZR (trunc x) <= x < IZR (trunc x) + 1 /\ (0 <= trunc x)%Z.
Proof.
  intro H. unfold trunc. destruct (Rle_dec 0 x); [|lra].
  pose proof (Int_part_spec x) as [H1 H2]. split; [lra|].
  assert (-1 < IZR (Int_part x)) by lra.
  assert (IZR (-1) < IZR (Int_part x)) by (simpl; lra).
  apply lt_IZR in H3. lia.
Qed.
Lemma trunc_unique x z : (0 <= z)%Z -> IZR z <= x < IZR z + 1 -> trunc x = z.
Proof.
  intros Hz H. apply IZR_le in Hz. unfold trunc. destruct (Rle_dec 0 x); [|lra].
  apply Int_part_unique; auto.
Qed.
Lemma trunc_neg x : x < 0 -> x <= IZR (trunc x) < x + 1 /\ (trunc x <= 0)%Z.
Proof.
  intro H. unfold trunc. destruct (Rle_dec 0 x); [lra|].
  pose proof (Int_part_spec (-x)) as [H1 H2]. rewrite opp_IZR. split; [lra|].
  assert (IZR (-1) < IZR (Int_part (-x))) by (simpl; lra).
  apply lt_IZR in H0. lia.
Qed.
