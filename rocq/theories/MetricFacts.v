(** Lipschitz property of the metrics: how much the separation of two points can differ from
    the separation of the cell centres. *)
From Coq Require Import Reals Lra Lia List ZArith Bool Psatz.
From Verif Require Import Base Geometry Tree Traverse Spec GeomFacts SumFacts TreeFacts BinFacts TravFacts Exact.
Import ListNotations.
Open Scope R_scope.

(** D1, D2 restrict the cell centres. *)
Definition lipM (M : metric) (D1 D2 : pos -> Prop) : Prop :=
  forall p1 p2 q1 q2 s1 s2, D1 p1 -> D2 p2 -> pdist p1 q1 <= s1 -> pdist p2 q2 <= s2 ->
  exists e1 e2, effSize M p1 p2 (Fin s1) (Fin s2) = (Fin e1, Fin e2) /\
    Rabs (mdist M q1 q2 - mdist M p1 p2) <= e1 + e2.
Definition anyPos (p : pos) : Prop := True.

Lemma lip_euclid : lipM Euclidean anyPos anyPos.
Proof.
  intros p1 p2 q1 q2 s1 s2 _ _ H1 H2. exists s1, s2. split; auto.
  apply pdist_lip; auto.
Qed.

(** ** Periodic *)
Lemma wrap_down_spec n per x : 0 < per ->
  exists j : Z, (0 <= j)%Z /\ wrap_down n per x = x - IZR j * per /\
    (x <= per / 2 + INR n * per -> wrap_down n per x <= per / 2) /\
    (- per / 2 <= x -> - per / 2 <= wrap_down n per x) /\
    (x <= per / 2 -> wrap_down n per x = x).
Proof.
  intro Hp. revert x; induction n as [|n IH]; intro x.
  - exists 0%Z. simpl. repeat split; try lia; lra.
  - cbn [wrap_down]. destruct (Rlt_dec (per / 2) x).
    + destruct (IH (x - per)) as [j [Hj [H1 [H2 [H3 H4]]]]]. exists (j + 1)%Z.
      rewrite plus_IZR. split; [lia|]. split; [rewrite H1; simpl; ring|].
      split; [|split].
      * intro. apply H2. rewrite S_INR in H. lra.
      * intro. apply H3. lra.
      * intro; lra.
    + exists 0%Z. simpl (IZR 0). repeat split; try lia; lra.
Qed.
Lemma wrap_up_spec n per x : 0 < per ->
  exists j : Z, (0 <= j)%Z /\ wrap_up n per x = x + IZR j * per /\
    (- per / 2 - INR n * per <= x -> - per / 2 <= wrap_up n per x) /\
    (x <= per / 2 -> wrap_up n per x <= per / 2).
Proof.
  intro Hp. revert x; induction n as [|n IH]; intro x.
  - exists 0%Z. simpl. repeat split; try lia; lra.
  - cbn [wrap_up]. destruct (Rlt_dec x (- per / 2)).
    + destruct (IH (x + per)) as [j [Hj [H1 [H2 H3]]]]. exists (j + 1)%Z.
      rewrite plus_IZR. split; [lia|]. split; [rewrite H1; simpl; ring|].
      split.
      * intro. apply H2. rewrite S_INR in H. lra.
      * intro. apply H3. lra.
    + exists 0%Z. simpl (IZR 0). repeat split; try lia; lra.
Qed.

Lemma wrap_fuel_enough per x : 0 < per -> Rabs x <= INR (wrap_fuel per x) * per.
Proof.
  intro Hp. unfold wrap_fuel.
  pose proof (Rabs_pos x).
  destruct (archimed (Rabs x / per)) as [H1 H2].
  assert (0 <= Rabs x / per) by (apply Rmult_le_pos; auto; left; apply Rinv_0_lt_compat; auto).
  assert (Hup : (0 < up (Rabs x / per))%Z) by (apply lt_IZR; simpl; lra).
  rewrite INR_IZR_INZ, Z2Nat.id by lia.
  apply Rmult_gt_compat_r with (r := per) in H1; auto.
  unfold Rdiv in H1 at 2. rewrite Rmult_assoc, Rinv_l in H1 by lra. lra.
Qed.

(** The loops leave a value in [-per/2, per/2] that differs from x by a multiple of per. *)
Lemma wrap1_spec per x : 0 < per ->
  (exists j : Z, wrap1 per x = x + IZR j * per) /\ - per / 2 <= wrap1 per x <= per / 2.
Proof.
  intro Hp. unfold wrap1.
  destruct (wrap_down_spec (wrap_fuel per x) per x Hp) as [j [Hj [H1 [H2 [H3 H4]]]]].
  set (x1 := wrap_down (wrap_fuel per x) per x) in *.
  destruct (wrap_up_spec (wrap_fuel per x1) per x1 Hp) as [j' [Hj' [H1' [H2' H3']]]].
  pose proof (wrap_fuel_enough per x Hp). pose proof (wrap_fuel_enough per x1 Hp).
  pose proof (Rle_abs x). pose proof (Rle_abs (- x1)). rewrite Rabs_Ropp in *.
  split.
  - exists (j' - j)%Z. rewrite H1', minus_IZR, H1. ring.
  - split; [apply H2'; lra|apply H3', H2; lra].
Qed.

(** |wrap1 x| is the smallest absolute value in the class of x. *)
Lemma wrap1_min per x (j : Z) : 0 < per -> Rabs (wrap1 per x) <= Rabs (x + IZR j * per).
Proof.
  intro Hp. destruct (wrap1_spec per x Hp) as [[i Hi] Hr].
  set (y := wrap1 per x) in *.
  replace (x + IZR j * per) with (y + IZR (j - i) * per) by (rewrite Hi, minus_IZR; ring).
  destruct (Z.eq_dec (j - i) 0) as [Hz|Hz].
  - rewrite Hz. simpl. right; f_equal; ring.
  - assert (Hc : IZR (j - i) <= -1 \/ 1 <= IZR (j - i)).
    { destruct (Z_lt_le_dec (j - i) 0).
      - left. assert (Hl : (j - i <= -1)%Z) by lia. apply IZR_le in Hl. auto.
      - right. assert (Hl : (1 <= j - i)%Z) by lia. apply IZR_le in Hl. auto. }
    assert (Habs : Rabs y <= per / 2) by (apply Rabs_le; lra).
    destruct Hc.
    + apply Rle_trans with (1 := Habs). rewrite Rabs_left1; nra.
    + apply Rle_trans with (1 := Habs). rewrite Rabs_pos_eq; nra.
Qed.

Definition shift (xp yp zp : R) (i j k : Z) (p : pos) : pos :=
  mkpos (px p + IZR i * xp) (py p + IZR j * yp) (pz p + IZR k * zp).

Lemma wrap_is_shift xp yp zp p : 0 < xp -> 0 < yp -> 0 < zp ->
  exists i j k, wrap xp yp zp p = shift xp yp zp i j k p.
Proof.
  intros. destruct (wrap1_spec xp (px p)) as [[i Hi] _]; auto.
  destruct (wrap1_spec yp (py p)) as [[j Hj] _]; auto.
  destruct (wrap1_spec zp (pz p)) as [[k Hk] _]; auto.
  exists i, j, k. unfold wrap, shift. congruence.
Qed.
Lemma wrap_min xp yp zp p i j k : 0 < xp -> 0 < yp -> 0 < zp ->
  norm (wrap xp yp zp p) <= norm (shift xp yp zp i j k p).
Proof.
  intros Hx Hy Hz. apply sqrt_le_1_alt. unfold normSq, wrap, shift; cbn [px py pz].
  assert (HQ : forall a b, Rabs a <= Rabs b -> a * a <= b * b).
  { intros a b H. apply Rsqr_le_abs_1 in H. exact H. }
  pose proof (HQ _ _ (wrap1_min xp (px p) i Hx)).
  pose proof (HQ _ _ (wrap1_min yp (py p) j Hy)).
  pose proof (HQ _ _ (wrap1_min zp (pz p) k Hz)). lra.
Qed.

Lemma lip_periodic xp yp zp : 0 < xp -> 0 < yp -> 0 < zp -> lipM (Periodic xp yp zp) anyPos anyPos.
Proof.
  intros Hx Hy Hz p1 p2 q1 q2 s1 s2 _ _ H1 H2. exists s1, s2. split; auto.
  assert (HH : forall a1 a2 b1 b2, pdist a1 b1 <= s1 -> pdist a2 b2 <= s2 ->
     norm (wrap xp yp zp (psub b1 b2)) <= norm (wrap xp yp zp (psub a1 a2)) + (s1 + s2)).
  { intros a1 a2 b1 b2 G1 G2.
    destruct (wrap_is_shift xp yp zp (psub a1 a2)) as [i [j [k Hs]]]; auto.
    apply Rle_trans with (1 := wrap_min xp yp zp (psub b1 b2) i j k Hx Hy Hz).
    rewrite Hs.
    replace (shift xp yp zp i j k (psub b1 b2)) with
      (padd (shift xp yp zp i j k (psub a1 a2)) (padd (psub b1 a1) (psub a2 b2)))
      by (unfold padd, psub, shift; simpl; f_equal; ring).
    eapply Rle_trans; [apply norm_triangle|]. apply Rplus_le_compat_l.
    eapply Rle_trans; [apply norm_triangle|].
    change (norm (psub b1 a1)) with (pdist b1 a1). change (norm (psub a2 b2)) with (pdist a2 b2).
    rewrite (pdist_sym b1 a1). lra. }
  apply Rabs_le. unfold mdist. simpl distSq.
  change (sqrt (normSq ?p)) with (norm p).
  pose proof (HH p1 p2 q1 q2 H1 H2).
  pose proof (HH q1 q2 p1 p2 ltac:(rewrite pdist_sym; auto) ltac:(rewrite pdist_sym; auto)).
  lra.
Qed.

(** ** Rlens *)
Lemma cross_add_l p q r : cross (padd p q) r = padd (cross p r) (cross q r).
Proof. unfold cross, padd; simpl; f_equal; ring. Qed.
Lemma cross_add_r p q r : cross r (padd p q) = padd (cross r p) (cross r q).
Proof. unfold cross, padd; simpl; f_equal; ring. Qed.
Lemma cross_scale_r a p q : cross p (pscale a q) = pscale a (cross p q).
Proof. unfold cross, pscale; simpl; f_equal; ring. Qed.
Lemma norm_scale a p : norm (pscale a p) = Rabs a * norm p.
Proof.
  unfold norm. replace (normSq (pscale a p)) with (Rsqr a * normSq p)
    by (unfold normSq, pscale, Rsqr; simpl; ring).
  rewrite sqrt_mult; [|apply Rle_0_sqr|apply normSq_nonneg]. rewrite sqrt_Rsqr_abs. auto.
Qed.
Lemma lagrange p q : normSq (cross p q) + dot p q * dot p q = normSq p * normSq q.
Proof. unfold normSq, cross, dot; simpl; ring. Qed.
Lemma norm_cross_le p q : norm (cross p q) <= norm p * norm q.
Proof.
  apply normSq_le. { apply Rmult_le_pos; apply norm_nonneg. }
  pose proof (lagrange p q).
  replace (norm p * norm q * (norm p * norm q)) with (normSq p * normSq q)
    by (rewrite <- !norm_sq; ring).
  nra.
Qed.
Lemma cross_anti p q : norm (cross p q) = norm (cross q p).
Proof. unfold norm, normSq, cross; simpl; f_equal; ring. Qed.
Lemma norm_pos p : p <> mkpos 0 0 0 -> 0 < norm p.
Proof.
  intro H. destruct (norm_nonneg p) as [|Hz]; auto. exfalso. apply H. apply normSq_0.
  rewrite <- norm_sq, <- Hz; ring.
Qed.

Lemma normSq_sub_scale a v w :
  normSq (psub v (pscale a w)) = normSq v - 2 * a * dot v w + a * a * normSq w.
Proof. unfold normSq, psub, pscale, dot; simpl; ring. Qed.

(** Projection step: |w|^2 |u x v| <= |w| |v| |u x w| + |u| |w| |v x w| *)
Lemma cross_project u v w : 0 < norm w ->
  norm (cross u v) * norm w <= norm v * norm (cross u w) + norm u * norm (cross v w).
Proof.
  intro Hw.
  set (c := dot v w / normSq w).
  set (vp := psub v (pscale c w)).
  assert (Hn : normSq w = norm w * norm w) by (symmetry; apply norm_sq).
  assert (Hv : v = padd (pscale c w) vp).
  { unfold vp, padd, psub, pscale; destruct v; simpl; f_equal; ring. }
  assert (H1 : norm (cross u v) <= Rabs c * norm (cross u w) + norm (cross u vp)).
  { rewrite Hv at 1. rewrite cross_add_r. eapply Rle_trans; [apply norm_triangle|].
    rewrite cross_scale_r, norm_scale. lra. }
  pose proof (norm_cross_le u vp) as H2.
  assert (H3 : Rabs c * norm w <= norm v).
  { unfold c. unfold Rdiv. rewrite Rabs_mult, (Rabs_pos_eq (/ normSq w)).
    2:{ apply Rinv_nonneg, normSq_nonneg. }
    rewrite Hn. pose proof (cauchy_schwarz v w).
    replace (Rabs (dot v w) * / (norm w * norm w) * norm w) with (Rabs (dot v w) * / norm w) by (field; lra).
    apply Rmult_le_reg_r with (norm w); auto.
    rewrite Rmult_assoc, Rinv_l, Rmult_1_r by lra. auto. }
  assert (H4 : norm vp * norm w = norm (cross v w)).
  { unfold norm at 1 2 3. rewrite <- sqrt_mult by apply normSq_nonneg. f_equal.
    unfold vp, c. pose proof (lagrange v w) as HL.
    assert (Hne : normSq w <> 0) by (rewrite Hn; nra).
    transitivity (normSq v * normSq w - dot v w * dot v w); [|lra].
    rewrite normSq_sub_scale.
    field. auto. }
  pose proof (norm_nonneg (cross u w)). pose proof (norm_nonneg u).
  pose proof (norm_nonneg vp). pose proof (norm_nonneg (cross u v)).
  apply Rle_trans with ((Rabs c * norm (cross u w) + norm u * norm vp) * norm w).
  - apply Rmult_le_compat_r; lra.
  - rewrite <- H4. nra.
Qed.

Definition nonzero (p : pos) : Prop := p <> mkpos 0 0 0.

Lemma mdist_rlens p1 p2 : mdist Rlens p1 p2 = norm (cross p1 p2) / norm p2.
Proof.
  unfold mdist, distSq.
  destruct (Req_dec (normSq p2) 0) as [Hz|Hz].
  - apply normSq_0 in Hz. subst p2.
    replace (cross p1 (mkpos 0 0 0)) with (mkpos 0 0 0) by (unfold cross; simpl; f_equal; ring).
    replace (normSq (mkpos 0 0 0)) with 0 by (unfold normSq; simpl; ring).
    unfold norm. replace (normSq (mkpos 0 0 0)) with 0 by (unfold normSq; simpl; ring).
    unfold Rdiv. rewrite Rmult_0_l, sqrt_0. ring.
  - pose proof (normSq_nonneg p2). rewrite sqrt_div_alt by lra. auto.
Qed.

Lemma lip_rlens : lipM Rlens anyPos nonzero.
Proof.
  intros p1 p2 q1 q2 s1 s2 _ Hne H1 H2.
  simpl effSize. do 2 eexists; split; [reflexivity|].
  assert (Hp2 : 0 < norm p2) by (apply norm_pos; auto).
  assert (Hs1 : 0 <= s1) by (pose proof (pdist_nonneg p1 q1); lra).
  assert (Hs2 : 0 <= s2) by (pose proof (pdist_nonneg p2 q2); lra).
  rewrite sqrt_div_alt. 2:{ rewrite <- norm_sq. nra. }
  change (sqrt (normSq p1)) with (norm p1). change (sqrt (normSq p2)) with (norm p2).
  (* step 1: q1 -> p1 *)
  assert (HA : Rabs (mdist Rlens q1 q2 - mdist Rlens p1 q2) <= s1).
  { rewrite !mdist_rlens.
    destruct (norm_nonneg q2) as [Hq2|Hq2].
    - assert (HX : forall a b, pdist a b <= s1 ->
         norm (cross b q2) <= norm (cross a q2) + s1 * norm q2).
      { intros a b Hab. replace b with (padd a (psub b a)) at 1
          by (unfold padd, psub; destruct b; simpl; f_equal; ring).
        rewrite cross_add_l. eapply Rle_trans; [apply norm_triangle|].
        apply Rplus_le_compat_l. eapply Rle_trans; [apply norm_cross_le|].
        apply Rmult_le_compat_r; [lra|]. rewrite pdist_sym in Hab. exact Hab. }
      pose proof (HX p1 q1 H1). pose proof (HX q1 p1 ltac:(rewrite pdist_sym; auto)).
      replace (norm (cross q1 q2) / norm q2 - norm (cross p1 q2) / norm q2) with
        ((norm (cross q1 q2) - norm (cross p1 q2)) / norm q2) by (field; lra).
      apply Rabs_le. split.
      + apply Rmult_le_reg_r with (norm q2); auto.
        unfold Rdiv; rewrite Rmult_assoc, Rinv_l by lra. lra.
      + apply Rmult_le_reg_r with (norm q2); auto.
        unfold Rdiv; rewrite Rmult_assoc, Rinv_l by lra. lra.
    - rewrite <- Hq2. unfold Rdiv. rewrite Rinv_0, !Rmult_0_r. rewrite Rminus_0_r, Rabs_R0. auto. }
  (* step 2: q2 -> p2 *)
  assert (HB : Rabs (mdist Rlens p1 q2 - mdist Rlens p1 p2) <= norm p1 / norm p2 * s2).
  { rewrite !mdist_rlens. pose proof (norm_nonneg p1) as Hp1.
    assert (Hsin : norm (cross q2 p2) <= s2 * norm q2 /\ norm (cross q2 p2) <= s2 * norm p2).
    { split.
      - replace (cross q2 p2) with (cross q2 (psub p2 q2)) by (unfold cross, psub; simpl; f_equal; ring).
        eapply Rle_trans; [apply norm_cross_le|]. rewrite Rmult_comm.
        apply Rmult_le_compat_r; [apply norm_nonneg|exact H2].
      - replace (cross q2 p2) with (cross (psub q2 p2) p2) by (unfold cross, psub; simpl; f_equal; ring).
        eapply Rle_trans; [apply norm_cross_le|].
        apply Rmult_le_compat_r; [apply norm_nonneg|]. rewrite pdist_sym in H2. exact H2. }
    destruct (norm_nonneg q2) as [Hq2|Hq2].
    - pose proof (cross_project p1 q2 p2 Hp2) as C1.
      pose proof (cross_project p1 p2 q2 Hq2) as C2.
      rewrite (cross_anti p2 q2) in C2.
      set (A := norm (cross p1 q2)) in *. set (B := norm (cross p1 p2)) in *.
      set (S := norm (cross q2 p2)) in *.
      set (n := norm q2) in *. set (w := norm p2) in *. set (u := norm p1) in *.
      destruct Hsin as [Hsin _].
      assert (HD : 0 < n * w) by nra.
      replace (A / n - B / w) with ((A * w - B * n) / (n * w)) by (field; lra).
      assert (u * S <= u * (s2 * n)) by (apply Rmult_le_compat_l; auto).
      apply Rabs_le. split.
      + apply Rmult_le_reg_r with (n * w); auto.
        unfold Rdiv at 2. rewrite Rmult_assoc, Rinv_l, Rmult_1_r by lra.
        replace (- (u / w * s2) * (n * w)) with (- (u * (s2 * n))) by (field; lra). lra.
      + apply Rmult_le_reg_r with (n * w); auto.
        unfold Rdiv at 1. rewrite Rmult_assoc, Rinv_l, Rmult_1_r by lra.
        replace (u / w * s2 * (n * w)) with (u * (s2 * n)) by (field; lra). lra.
    - (* q2 = 0 : then s2 >= |p2| *)
      rewrite <- Hq2. unfold Rdiv. rewrite Rinv_0, Rmult_0_r.
      assert (Hs2p : norm p2 <= s2).
      { assert (q2 = mkpos 0 0 0) by (apply normSq_0; rewrite <- norm_sq, <- Hq2; ring). subst q2.
        unfold pdist in H2. replace (psub p2 (mkpos 0 0 0)) with p2 in H2; auto.
        unfold psub; destruct p2; simpl; f_equal; ring. }
      pose proof (norm_cross_le p1 p2). pose proof (norm_nonneg (cross p1 p2)).
      assert (HI : 0 < / norm p2) by (apply Rinv_0_lt_compat; auto).
      assert (HI' : norm p2 * / norm p2 = 1) by (apply Rinv_r; lra).
      rewrite Rminus_0_l, Rabs_Ropp, Rabs_pos_eq by nra.
      apply Rle_trans with (norm p1).
      + apply Rmult_le_reg_r with (norm p2); auto.
        rewrite Rmult_assoc, Rinv_l, Rmult_1_r by lra. lra.
      + assert (1 <= / norm p2 * s2) by nra. nra. }
  replace (mdist Rlens q1 q2 - mdist Rlens p1 p2) with
    ((mdist Rlens q1 q2 - mdist Rlens p1 q2) + (mdist Rlens p1 q2 - mdist Rlens p1 p2)) by ring.
  eapply Rle_trans; [apply Rabs_triang|]. lra.
Qed.

(** ** pairOK *)
Lemma eff_inf_l M p1 p2 s2 : fst (effSize M p1 p2 Inf s2) = Inf.
Proof. destruct M; simpl; auto. destruct Rlt_dec; auto. Qed.
Lemma eff_inf_r M p1 p2 s1 : snd (effSize M p1 p2 s1 Inf) = Inf.
Proof. destruct M; simpl; auto. destruct Rlt_dec; auto. Qed.
Lemma effSum_fin P c1 c2 x : effSum P c1 c2 = Fin x ->
  exists s1 s2, getSize c1 = Fin s1 /\ getSize c2 = Fin s2.
Proof.
  unfold effSum. intro H.
  destruct (getSize c1) as [s1|].
  - destruct (getSize c2) as [s2|]; eauto.
    pose proof (eff_inf_r (cmetric P) (getPos c1) (getPos c2) (Fin s1)) as HI.
    destruct (effSize _ _ _ _ _) as [e1 e2]. simpl in HI. subst. destruct e1; discriminate.
  - pose proof (eff_inf_l (cmetric P) (getPos c1) (getPos c2) (getSize c2)) as HI.
    destruct (effSize _ _ _ _ _) as [e1 e2]. simpl in HI. subst. discriminate.
Qed.

Lemma pairOK_lip P D1 D2 c1 c2 : lipM (cmetric P) D1 D2 -> crpar P = None ->
  okcell 0 c1 -> okcell 0 c2 -> D1 (getPos c1) -> D2 (getPos c2) -> pairOK P 0 c1 c2.
Proof.
  intros HL Hn O1 O2 HD1 HD2 x o1 o2 Hx I1 I2. split; [|congruence].
  destruct (effSum_fin _ _ _ _ Hx) as [s1 [s2 [E1 E2]]].
  destruct (HL (getPos c1) (getPos c2) (opos o1) (opos o2) s1 s2) as [e1 [e2 [He HA]]]; auto.
  - pose proof (member_within 0 c1 o1 s1 ltac:(lra) O1 I1 E1). lra.
  - pose proof (member_within 0 c2 o2 s2 ltac:(lra) O2 I2 E2). lra.
  - unfold effSum in Hx. rewrite E1, E2, He in Hx. simpl in Hx. injection Hx; intros; lra.
Qed.

Lemma pairOK_euclid P m c1 c2 : 0 <= m -> cmetric P = Euclidean -> crpar P = None ->
  okcell m c1 -> okcell m c2 -> pairOK P (2 * m) c1 c2.
Proof.
  intros Hm HM Hn O1 O2 x o1 o2 Hx I1 I2. split; [|congruence].
  destruct (effSum_fin _ _ _ _ Hx) as [s1 [s2 [E1 E2]]].
  unfold effSum in Hx. rewrite HM, E1, E2 in Hx. simpl in Hx. injection Hx; intros; subst x.
  rewrite HM, !mdist_euclid.
  replace (s1 + s2 + 2 * m) with ((s1 + m) + (s2 + m)) by ring.
  apply pdist_lip; eapply member_within; eauto.
Qed.

(** Brute trees: only coincident objects are ever grouped. *)
Lemma brute_effSum P m c1 c2 x : okcell m c1 -> okcell m c2 -> bruteTree c1 -> bruteTree c2 ->
  effSum P c1 c2 = Fin x ->
  x = 0 /\ getSize c1 = Fin 0 /\ getSize c2 = Fin 0.
Proof.
  intros O1 O2 B1 B2 Hx. destruct (effSum_fin _ _ _ _ Hx) as [s1 [s2 [E1 E2]]].
  assert (HZ : forall c s, bruteTree c -> getSize c = Fin s -> s = 0).
  { intros c s Hb Hs. destruct c; simpl in Hs; try congruence.
    apply brute_node in Hb as [Hb _]. congruence. }
  assert (s1 = 0) by eauto. assert (s2 = 0) by eauto. subst.
  split; auto. unfold effSum in Hx. rewrite E1, E2 in Hx.
  destruct (cmetric P); simpl in Hx;
    repeat (destruct Req_EM_T; [|lra]); try (destruct Rlt_dec);
    simpl in Hx; injection Hx; intros; lra.
Qed.
Lemma brute_pos c o : okcell 0 c -> getSize c = Fin 0 -> bruteTree c -> In o (objs c) -> opos o = getPos c.
Proof.
  intros O Hs Hb Ho. symmetry. apply pdist_0.
  pose proof (member_within 0 c o 0 ltac:(lra) O Ho Hs). pose proof (pdist_nonneg (getPos c) (opos o)). lra.
Qed.
Lemma pairOK_brute P c1 c2 : okcell 0 c1 -> okcell 0 c2 -> bruteTree c1 -> bruteTree c2 ->
  pairOK P 0 c1 c2 /\ exactCond P c1 c2.
Proof.
  intros O1 O2 B1 B2. split.
  - intros x o1 o2 Hx I1 I2. destruct (brute_effSum P 0 c1 c2 x O1 O2 B1 B2 Hx) as [-> [E1 E2]].
    rewrite (brute_pos c1 o1), (brute_pos c2 o2) by auto. split.
    + replace (mdist (cmetric P) (getPos c1) (getPos c2) - mdist (cmetric P) (getPos c1) (getPos c2)) with 0 by ring.
      rewrite Rabs_R0. lra.
    + intros _ x' Hx'. rewrite rparSize_zero in Hx'. injection Hx'; intros; subst x'.
      replace (calculateRPar (cmetric P) (getPos c1) (getPos c2) - calculateRPar (cmetric P) (getPos c1) (getPos c2)) with 0 by ring.
      rewrite Rabs_R0. lra.
  - intros x o1 o2 Hx _ I1 I2. left. apply (brute_effSum P 0 c1 c2 x O1 O2 B1 B2 Hx).
Qed.
