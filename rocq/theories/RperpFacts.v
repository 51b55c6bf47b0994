(** Lipschitz property of the Rperp metric (include/Metric.h:382-494): when the two points move by at
    most s1 and s2, the separation changes by at most the sum of the sizes that DistSq returns. *)
From Coq Require Import Reals Lra Lia List ZArith Bool Psatz.
From Verif Require Import Base Geometry Tree Traverse Run Spec GeomFacts TreeFacts TravFacts Exact MetricFacts.
Import ListNotations.
Open Scope R_scope.

Lemma dot_norm_le p q : Rabs (dot p q) <= norm p * norm q.
Proof.
  pose proof (lagrange p q) as H. pose proof (normSq_nonneg (cross p q)).
  pose proof (norm_nonneg p). pose proof (norm_nonneg q).
  rewrite <- (Rabs_pos_eq (norm p * norm q)) by nra.
  apply Rsqr_le_abs_0. unfold Rsqr.
  replace (norm p * norm q * (norm p * norm q)) with ((norm p * norm p) * (norm q * norm q)) by ring.
  rewrite !norm_sq. lra.
Qed.

(** Separation vector without its part along the mean line of sight. *)
Lemma rperp_w p q : exists mu w, w = padd (psub q p) (pscale mu (padd p q)) /\
  dot w (padd p q) = 0 /\ norm w = mdist Rperp p q.
Proof.
  set (S := padd p q). unfold mdist, distSq.
  assert (HL : normSq (pscale (1/2) (padd p q)) = normSq S / 4)
    by (unfold S, normSq, pscale; simpl; field).
  rewrite HL. pose proof (normSq_nonneg S) as HS.
  destruct (Rlt_dec 0 (normSq S / 4)) as [HP|HP].
  - exists (- (dot (psub q p) S / normSq S)).
    eexists; split; [reflexivity|]. split.
    + replace (dot (padd (psub q p) (pscale (- (dot (psub q p) S / normSq S)) S)) S) with
        (dot (psub q p) S - dot (psub q p) S / normSq S * normSq S)
        by (unfold dot, padd, pscale, normSq; simpl; ring).
      field. lra.
    + unfold norm. f_equal.
      assert (HC : normSq (cross p q) * 4 = normSq (psub q p) * normSq S - dot (psub q p) S * dot (psub q p) S)
        by (unfold S, normSq, cross, dot, psub, padd; simpl; ring).
      replace (normSq (padd (psub q p) (pscale (- (dot (psub q p) S / normSq S)) S))) with
        (normSq (psub q p) - 2 * (dot (psub q p) S / normSq S) * dot (psub q p) S +
         (dot (psub q p) S / normSq S) * (dot (psub q p) S / normSq S) * normSq S)
        by (unfold dot, padd, pscale, normSq; simpl; ring).
      replace (normSq (cross p q)) with ((normSq (psub q p) * normSq S - dot (psub q p) S * dot (psub q p) S) / 4)
        by lra.
      field. lra.
  - assert (HZ : S = mkpos 0 0 0) by (apply normSq_0; lra).
    exists 0, (psub q p). split.
    { unfold padd, pscale, psub; simpl. f_equal; ring. }
    split.
    { rewrite HZ. unfold dot; simpl; ring. }
    unfold norm. f_equal. unfold S, padd in HZ. injection HZ; intros Hz Hy Hx.
    unfold normSq, psub; simpl. replace (px q) with (- px p) by lra.
    replace (py q) with (- py p) by lra. replace (pz q) with (- pz p) by lra. ring.
Qed.

Lemma rp_core h c s X B : 0 <= h -> c * c + s * s = 1 -> X * X + h * h * (s * s) <= B * B -> 0 <= B ->
  h - Rabs (h * c - X) <= B.
Proof.
  intros Hh Hcs HX HB. set (d := Rabs (h * c - X)).
  assert (Hd : 0 <= d) by apply Rabs_pos.
  assert (Hdd : d * d = (h * c - X) * (h * c - X)).
  { unfold d. rewrite <- Rabs_mult. apply Rabs_pos_eq. apply (Rle_0_sqr (h * c - X)). }
  destruct (Rle_dec (h - d) B) as [|HN]; auto. exfalso. apply Rnot_le_lt in HN.
  set (S0 := sqrt (X * X + h * h * (s * s))).
  assert (HS0 : 0 <= S0) by apply sqrt_pos.
  assert (HSS : S0 * S0 = X * X + h * h * (s * s)) by (apply sqrt_sqrt; nra).
  assert (HSB : S0 <= B) by (apply Rsqr_incr_0_var; unfold Rsqr; nra).
  assert (HCS : h * s * s + X * c <= S0).
  { apply Rle_trans with (Rabs (h * s * s + X * c)); [apply Rle_abs|].
    rewrite <- (Rabs_pos_eq S0) by auto. apply Rsqr_le_abs_0. unfold Rsqr. rewrite HSS.
    assert (HI : (h * s * s + X * c) * (h * s * s + X * c) + (h * s * c - X * s) * (h * s * c - X * s) =
       (X * X + h * h * (s * s)) * (c * c + s * s)) by ring.
    rewrite Hcs in HI. nra. }
  assert (H1 : d * d < (h - S0) * (h - S0)) by nra.
  assert (Hh' : 0 < h) by lra.
  assert (H2 : h * h * (c * c) = h * h - h * h * (s * s)) by (replace (c * c) with (1 - s * s) by lra; ring).
  rewrite Hdd in H1.
  assert (h * S0 < h * (h * s * s + X * c)) by nra.
  nra.
Qed.

Lemma sumsq_nonneg x y : 0 <= x * x + y * y.
Proof. nra. Qed.

(** Planar triangle inequality, in the form needed below. *)
Lemma minkowski a1 a2 m t s1 s2 : Rabs a1 <= s1 -> Rabs a2 <= s2 ->
  ((1 - m) * a1 - (1 + m) * a2) * ((1 - m) * a1 - (1 + m) * a2) + (t * (a1 + a2)) * (t * (a1 + a2)) <=
  (s1 * sqrt ((1 - m) * (1 - m) + t * t) + s2 * sqrt ((1 + m) * (1 + m) + t * t)) *
  (s1 * sqrt ((1 - m) * (1 - m) + t * t) + s2 * sqrt ((1 + m) * (1 + m) + t * t)).
Proof.
  intros H1 H2.
  pose proof (norm_triangle (pscale a1 (mkpos (1 - m) t 0)) (pscale a2 (mkpos (- (1 + m)) t 0))) as HT.
  rewrite !norm_scale in HT.
  assert (E1 : norm (mkpos (1 - m) t 0) = sqrt ((1 - m) * (1 - m) + t * t))
    by (unfold norm, normSq; simpl; f_equal; ring).
  assert (E2 : norm (mkpos (- (1 + m)) t 0) = sqrt ((1 + m) * (1 + m) + t * t))
    by (unfold norm, normSq; simpl; f_equal; ring).
  rewrite E1, E2 in HT.
  set (n := norm _) in HT.
  assert (Hn : n * n = ((1 - m) * a1 - (1 + m) * a2) * ((1 - m) * a1 - (1 + m) * a2) + (t * (a1 + a2)) * (t * (a1 + a2))).
  { unfold n. rewrite norm_sq. unfold normSq, padd, pscale; simpl. ring. }
  rewrite <- Hn. pose proof (norm_nonneg (padd (pscale a1 (mkpos (1 - m) t 0)) (pscale a2 (mkpos (- (1 + m)) t 0)))) as Hn0.
  fold n in Hn0.
  pose proof (sqrt_pos ((1 - m) * (1 - m) + t * t)). pose proof (sqrt_pos ((1 + m) * (1 + m) + t * t)).
  set (r1 := sqrt ((1 - m) * (1 - m) + t * t)) in *. set (r2 := sqrt ((1 + m) * (1 + m) + t * t)) in *.
  assert (n <= s1 * r1 + s2 * r2) by nra.
  nra.
Qed.

Lemma dot_add_l a b c : dot (padd a b) c = dot a c + dot b c.
Proof. unfold dot, padd; simpl; ring. Qed.
Lemma dot_add_r a b c : dot c (padd a b) = dot c a + dot c b.
Proof. unfold dot, padd; simpl; ring. Qed.
Lemma dot_scale_l k a c : dot (pscale k a) c = k * dot a c.
Proof. unfold dot, pscale; simpl; ring. Qed.
Lemma dot_scale_r k a c : dot c (pscale k a) = k * dot c a.
Proof. unfold dot, pscale; simpl; ring. Qed.
Lemma dot_comm a b : dot a b = dot b a.
Proof. unfold dot; ring. Qed.
Lemma dot_self a : dot a a = norm a * norm a.
Proof. rewrite norm_sq. unfold dot, normSq; ring. Qed.

(** The bound with the factors |p2|/|L| and |p1|/|L|. *)
Lemma rperp_lip p1 p2 q1 q2 s1 s2 :
  pdist p1 q1 <= s1 -> pdist p2 q2 <= s2 -> 0 < normSq (padd p1 p2) ->
  Rabs (mdist Rperp q1 q2 - mdist Rperp p1 p2) <=
  s1 * (2 * norm p2 / norm (padd p1 p2)) + s2 * (2 * norm p1 / norm (padd p1 p2)).
Proof.
  intros H1 H2 HS.
  set (D := mdist Rperp p1 p2). set (D' := mdist Rperp q1 q2).
  destruct (rperp_w p1 p2) as [m [w [Hw [Hwo Hwn]]]]. fold D in Hwn.
  destruct (rperp_w q1 q2) as [m' [w' [Hw' [Hwo' Hwn']]]]. fold D' in Hwn'.
  set (S := padd p1 p2) in *. set (S' := padd q1 q2) in *.
  set (e1 := psub q1 p1). set (e2 := psub q2 p2).
  assert (He1 : norm e1 <= s1) by (rewrite pdist_sym in H1; exact H1).
  assert (He2 : norm e2 <= s2) by (rewrite pdist_sym in H2; exact H2).
  set (e := padd (pscale (1 + m) e2) (pscale (- (1 - m)) e1)).
  set (sg := norm S).
  assert (Hsg : 0 < sg) by (unfold sg, norm; apply sqrt_lt_R0; auto).
  assert (HD : 0 <= D) by (rewrite <- Hwn; apply norm_nonneg).
  assert (HD' : 0 <= D') by (rewrite <- Hwn'; apply norm_nonneg).
  assert (Hr' : padd (psub q2 q1) (pscale m S') = padd w e).
  { rewrite Hw. unfold e, e1, e2, S, S', padd, psub, pscale; simpl. f_equal; ring. }
  assert (HSS' : S' = padd S (padd e1 e2)).
  { unfold S, S', e1, e2, padd, psub; simpl. f_equal; ring. }
  set (t := D / sg).
  (* the norms of p1, p2 *)
  assert (HSsq : normSq S = sg * sg) by (unfold sg; rewrite norm_sq; auto).
  assert (Hwsq : normSq w = D * D) by (rewrite <- Hwn, norm_sq; auto).
  assert (HWo : dot w S = 0) by auto.
  assert (Hn2 : 2 * norm p2 / sg = sqrt ((1 - m) * (1 - m) + t * t)).
  { assert (E : 4 * normSq p2 = (1 - m) * (1 - m) * normSq S + 2 * (1 - m) * dot w S + normSq w).
    { rewrite Hw. unfold S, normSq, dot, padd, psub, pscale; simpl. ring. }
    rewrite HWo, HSsq, Hwsq in E.
    symmetry. apply sqrt_lem_1.
    - apply sumsq_nonneg.
    - pose proof (norm_nonneg p2). unfold Rdiv. apply Rmult_le_pos; [lra|]. left; apply Rinv_0_lt_compat; auto.
    - unfold t. replace (2 * norm p2 / sg * (2 * norm p2 / sg)) with (4 * (norm p2 * norm p2) / (sg * sg)) by (field; lra).
      rewrite norm_sq, E. field. lra. }
  assert (Hn1 : 2 * norm p1 / sg = sqrt ((1 + m) * (1 + m) + t * t)).
  { assert (E : 4 * normSq p1 = (1 + m) * (1 + m) * normSq S - 2 * (1 + m) * dot w S + normSq w).
    { rewrite Hw. unfold S, normSq, dot, padd, psub, pscale; simpl. ring. }
    rewrite HWo, HSsq, Hwsq in E.
    symmetry. apply sqrt_lem_1.
    - apply sumsq_nonneg.
    - pose proof (norm_nonneg p1). unfold Rdiv. apply Rmult_le_pos; [lra|]. left; apply Rinv_0_lt_compat; auto.
    - unfold t. replace (2 * norm p1 / sg * (2 * norm p1 / sg)) with (4 * (norm p1 * norm p1) / (sg * sg)) by (field; lra).
      rewrite norm_sq, E. field. lra. }
  rewrite Hn1, Hn2.
  set (B := s1 * sqrt ((1 - m) * (1 - m) + t * t) + s2 * sqrt ((1 + m) * (1 + m) + t * t)).
  assert (Hs1 : 0 <= s1) by (pose proof (norm_nonneg e1); lra).
  assert (Hs2 : 0 <= s2) by (pose proof (norm_nonneg e2); lra).
  assert (HB : 0 <= B).
  { unfold B. pose proof (sqrt_pos ((1 - m) * (1 - m) + t * t)). pose proof (sqrt_pos ((1 + m) * (1 + m) + t * t)). nra. }
  assert (HeB : norm e <= B).
  { unfold e. eapply Rle_trans; [apply norm_triangle|]. rewrite !norm_scale, Rabs_Ropp.
    assert (Q : forall x, Rabs x <= sqrt (x * x + t * t)).
    { intro x. rewrite <- sqrt_Rsqr_abs. apply sqrt_le_1_alt. unfold Rsqr. nra. }
    pose proof (Q (1 - m)). pose proof (Q (1 + m)). pose proof (Rabs_pos (1 - m)). pose proof (Rabs_pos (1 + m)).
    pose proof (norm_nonneg e1). pose proof (norm_nonneg e2). unfold B.
    assert (Rabs (1 - m) * norm e1 <= s1 * sqrt ((1 - m) * (1 - m) + t * t)).
    { rewrite Rmult_comm. apply Rmult_le_compat; auto. }
    assert (Rabs (1 + m) * norm e2 <= s2 * sqrt ((1 + m) * (1 + m) + t * t)).
    { rewrite Rmult_comm. apply Rmult_le_compat; auto. }
    lra. }
  (* separations seen along a direction orthogonal to the sum of the positions *)
  assert (Hproj : forall u, dot u S' = 0 -> dot u w' = dot u (padd w e)).
  { intros u Hu. rewrite <- Hr', Hw', !dot_add_r, !dot_scale_r, Hu. ring. }
  apply Rabs_le. split.
  2:{ (* upper bound *)
    assert (HH : D' * D' <= D' * (D + B)).
    { rewrite <- Hwn' at 1 2. rewrite <- dot_self. rewrite (Hproj w') by auto.
      rewrite dot_add_r.
      pose proof (dot_norm_le w' w) as A1. pose proof (dot_norm_le w' e) as A2.
      pose proof (Rle_abs (dot w' w)). pose proof (Rle_abs (dot w' e)).
      rewrite Hwn' in *. rewrite Hwn in *. nra. }
    destruct HD' as [HD'|<-]; [|lra].
    apply Rmult_le_reg_l in HH; auto. lra. }
  (* lower bound *)
  destruct HD as [HD|HD]; [|rewrite <- HD; lra].
  set (a := dot S' w / D). set (b := dot S' S / sg).
  assert (HU : exists u c s, norm u = 1 /\ dot u S' = 0 /\ dot u w = c * D /\ dot u S = - s * sg /\ c * c + s * s = 1).
  { destruct (Req_dec (a * a + b * b) 0) as [HZ|HZ].
    - assert (Ha : a = 0) by nra. assert (Hb : b = 0) by nra.
      exists (pscale (/ D) w), 1, 0. repeat split.
      + rewrite norm_scale, Hwn, Rabs_pos_eq by (left; apply Rinv_0_lt_compat; auto). field; lra.
      + rewrite dot_scale_l, dot_comm. unfold a in Ha. rewrite <- Ha. field. lra.
      + rewrite dot_scale_l, dot_self, Hwn. field; lra.
      + rewrite dot_scale_l, HWo. ring.
      + ring.
    - set (N := sqrt (a * a + b * b)).
      assert (HNN : N * N = a * a + b * b) by (apply sqrt_sqrt; nra).
      assert (HN : 0 < N) by (apply sqrt_lt_R0; nra).
      exists (padd (pscale (b / N / D) w) (pscale (- (a / N / sg)) S)), (b / N), (a / N).
      assert (HC : b / N * (b / N) + a / N * (a / N) = 1).
      { replace (b / N * (b / N) + a / N * (a / N)) with ((a * a + b * b) / (N * N)) by (field; lra).
        rewrite HNN. field. auto. }
      repeat split; auto.
      + unfold norm. rewrite <- sqrt_1. f_equal.
        replace (normSq (padd (pscale (b / N / D) w) (pscale (- (a / N / sg)) S))) with
          ((b / N / D) * (b / N / D) * normSq w - 2 * (b / N / D) * (a / N / sg) * dot w S
           + (a / N / sg) * (a / N / sg) * normSq S) by (unfold normSq, dot, padd, pscale; simpl; ring).
        rewrite HWo, Hwsq, HSsq, <- HC. field. lra.
      + rewrite dot_add_l, !dot_scale_l, (dot_comm w), (dot_comm S).
        replace (dot S' w) with (a * D) by (unfold a; field; lra).
        replace (dot S' S) with (b * sg) by (unfold b; field; lra). field. lra.
      + rewrite dot_add_l, !dot_scale_l, dot_self, Hwn, (dot_comm S), HWo. field. lra.
      + rewrite dot_add_l, !dot_scale_l, dot_self, HWo. fold sg. field. lra. }
  destruct HU as [u [c [s [Hu1 [Hu2 [Hu3 [Hu4 Hcs]]]]]]].
  set (a1 := dot u e1). set (a2 := dot u e2).
  assert (Ha1 : Rabs a1 <= s1).
  { eapply Rle_trans; [apply dot_norm_le|]. rewrite Hu1. lra. }
  assert (Ha2 : Rabs a2 <= s2).
  { eapply Rle_trans; [apply dot_norm_le|]. rewrite Hu1. lra. }
  assert (Has : a1 + a2 = s * sg).
  { rewrite HSS', !dot_add_r, Hu4 in Hu2. unfold a1, a2. lra. }
  set (X := (1 - m) * a1 - (1 + m) * a2).
  assert (HDX : Rabs (D * c - X) <= D').
  { replace (D * c - X) with (dot u w').
    - eapply Rle_trans; [apply dot_norm_le|]. rewrite Hu1, Hwn'. lra.
    - rewrite Hproj by auto. unfold e. rewrite !dot_add_r, !dot_scale_r, Hu3. fold a1 a2. unfold X. ring. }
  pose proof (minkowski a1 a2 m t s1 s2 Ha1 Ha2) as HM. fold X B in HM.
  replace (t * (a1 + a2)) with (D * s) in HM by (rewrite Has; unfold t; field; lra).
  pose proof (rp_core D c s X B ltac:(lra) Hcs ltac:(nra) HB). lra.
Qed.

Lemma rperp_le_pdist p q : mdist Rperp p q <= pdist p q.
Proof.
  destruct (rperp_w p q) as [m [w [Hw [Ho Hn]]]].
  rewrite <- Hn, pdist_sym. unfold pdist.
  assert (HE : norm w * norm w <= norm w * norm (psub q p)).
  { rewrite <- dot_self. rewrite Hw at 2. rewrite dot_add_r, dot_scale_r, Ho, Rmult_0_r, Rplus_0_r.
    pose proof (dot_norm_le w (psub q p)) as A. pose proof (Rle_abs (dot w (psub q p))). lra. }
  destruct (norm_nonneg w) as [H|H].
  - apply Rmult_le_reg_l in HE; auto.
  - rewrite <- H. apply norm_nonneg.
Qed.

(** In terms of the sizes returned by DistSq; every position is allowed. *)
Definition lipW (M : metric) : Prop :=
  forall p1 p2 q1 q2 s1 s2 x, pdist p1 q1 <= s1 -> pdist p2 q2 <= s2 ->
  eadd (fst (effSize M p1 p2 (Fin s1) (Fin s2))) (snd (effSize M p1 p2 (Fin s1) (Fin s2))) = Fin x ->
  Rabs (mdist M q1 q2 - mdist M p1 p2) <= x.

Lemma lipW_rperp : lipW Rperp.
Proof.
  intros p1 p2 q1 q2 s1 s2 x H1 H2.
  assert (Hs1 : 0 <= s1) by (pose proof (pdist_nonneg p1 q1); lra).
  assert (Hs2 : 0 <= s2) by (pose proof (pdist_nonneg p2 q2); lra).
  cbn [effSize fst snd].
  assert (HL : normSq (pscale (1/2) (padd p1 p2)) = normSq (padd p1 p2) / 4)
    by (unfold normSq, pscale; simpl; field).
  rewrite HL. pose proof (normSq_nonneg (padd p1 p2)) as HS0.
  set (S := padd p1 p2) in *.
  destruct (Rle_lt_or_eq_dec 0 _ HS0) as [HS|HS].
  - pose proof (rperp_lip p1 p2 q1 q2 s1 s2 H1 H2 HS) as HB. fold S in HB.
    assert (Hsg : 0 < norm S) by (apply sqrt_lt_R0; auto).
    assert (HG : forall p s, 0 <= s ->
      exists y, match (if Req_EM_T s 0 then Fin s else
         if Rlt_dec (normSq S / 4) (normSq p)
         then if Req_EM_T (normSq S / 4) 0 then Inf else Fin (sqrt (normSq p / (normSq S / 4)) * s) else Fin s) with
         | z => z = Fin y end /\ s * (2 * norm p / norm S) <= y).
    { intros p s Hs.
      assert (HR : sqrt (normSq p / (normSq S / 4)) = 2 * norm p / norm S).
      { pose proof (norm_nonneg p). apply sqrt_lem_1.
        - pose proof (normSq_nonneg p). apply Rmult_le_pos; auto. left. apply Rinv_0_lt_compat. lra.
        - apply Rmult_le_pos; [lra|]. left. apply Rinv_0_lt_compat. auto.
        - rewrite <- !norm_sq. field. lra. }
      destruct Req_EM_T as [->|Hs0]; [exists 0; split; auto; lra|].
      destruct Rlt_dec as [Hl|Hl].
      - destruct Req_EM_T; [lra|]. eexists; split; [reflexivity|]. rewrite HR. lra.
      - exists s. split; auto. rewrite <- (Rmult_1_r s) at 2. apply Rmult_le_compat_l; auto.
        rewrite <- HR, <- sqrt_1. apply sqrt_le_1_alt.
        apply Rmult_le_reg_r with (normSq S / 4); [lra|].
        unfold Rdiv at 1. rewrite Rmult_assoc, Rinv_l by lra. lra. }
    destruct (HG p2 s1 Hs1) as [y1 [E1 G1]]. destruct (HG p1 s2 Hs2) as [y2 [E2 G2]].
    cbv beta zeta in E1, E2. rewrite E1, E2. simpl. intro HX. injection HX; intros; subst x. lra.
  - assert (Hr : normSq p1 = normSq p2).
    { symmetry in HS. apply normSq_0 in HS. unfold S, padd in HS. injection HS; intros Hz Hy Hx.
      unfold normSq. replace (px p1) with (- px p2) by lra. replace (py p1) with (- py p2) by lra.
      replace (pz p1) with (- pz p2) by lra. ring. }
    rewrite <- HS, Hr. pose proof (normSq_nonneg p2) as Hp2.
    destruct (Rle_lt_or_eq_dec 0 _ Hp2) as [Hp|Hp].
    + (* antipodal: no finite size unless both cells are points *)
      destruct (Req_EM_T s1 0) as [->|].
      * destruct (Req_EM_T s2 0) as [->|].
        -- simpl. intro HX. injection HX; intros; subst x.
           assert (q1 = p1) by (symmetry; apply pdist_0; pose proof (pdist_nonneg p1 q1); lra).
           assert (q2 = p2) by (symmetry; apply pdist_0; pose proof (pdist_nonneg p2 q2); lra).
           subst. rewrite Rminus_diag_eq by auto. rewrite Rabs_R0. lra.
        -- destruct Rlt_dec; [|lra]. destruct Req_EM_T; [|lra]. simpl. discriminate.
      * destruct Rlt_dec; [|lra]. destruct Req_EM_T; [|lra]. simpl. discriminate.
    + (* both cells at the observer *)
      assert (P1 : p1 = mkpos 0 0 0) by (apply normSq_0; lra).
      assert (P2 : p2 = mkpos 0 0 0) by (apply normSq_0; lra).
      destruct (Rlt_dec (0 / 4) (normSq p2)) as [Hl|Hl]; [lra|].
      assert (HX : eadd (if Req_EM_T s1 0 then Fin s1 else Fin s1) (if Req_EM_T s2 0 then Fin s2 else Fin s2) = Fin (s1 + s2))
        by (destruct Req_EM_T, Req_EM_T; auto).
      rewrite HX. intro HY. injection HY; intros; subst x.
      pose proof (rperp_le_pdist q1 q2) as A. pose proof (rperp_le_pdist p1 p2) as A'.
      pose proof (mdist_nonneg Rperp q1 q2). pose proof (mdist_nonneg Rperp p1 p2).
      assert (E12 : p1 = p2) by congruence. clear P1 P2. subst p2.
      assert (Z : pdist p1 p1 = 0).
      { unfold pdist, norm. rewrite <- sqrt_0. f_equal. unfold normSq, psub; simpl; ring. }
      pose proof (pdist_triangle q1 p1 q2) as T. pose proof (pdist_sym q1 p1) as Y.
      assert (mdist Rperp p1 p1 = 0) by lra. rewrite Rabs_pos_eq by lra. lra.
Qed.
