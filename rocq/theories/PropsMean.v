(** C43: mean separations lie in their bin. *)
From Coq Require Import Reals Lra Lia List ZArith Bool Permutation Psatz.
From Verif Require Import Base Geometry Tree Traverse Run Corr Spec SpecRun GeomFacts SumFacts TreeFacts
  BinFacts TravFacts Exact MetricFacts Cover Lift Runs Examples Account PropsCount PropsRun PropsCorr.
Import ListNotations.
Open Scope R_scope.

Definition inBinEv (B : bparams) (e : event) : Prop :=
  edge B (ek e) <= er e < edge B (ek e + 1) /\ elogr e = ln (er e) /\ ek2 e = None /\
  0 < getW (ec1 e) * getW (ec2 e).
Lemma direct_inBin P rev m a b rsq k r lr : validB (cbin P) -> okcell m a -> okcell m b ->
  (forall o, In o (objs a) -> 0 <= ow o) -> (forall o, In o (objs b) -> 0 <= ow o) -> rev = false ->
  decide11 P a b = Direct rsq k r lr -> inBinEv (cbin P) (directProcess11 P rev a b rsq k r lr).
Proof.
  intros HB O1 O2 N1 N2 Hrev HD.
  destruct (decide_cases P a b) as [[HC _]|[[k' [r' [lr' [HC [W1 [W2 [Hin [HS HRg]]]]]]]]|[x [y HC]]]];
    try (rewrite HC in HD; discriminate).
  rewrite HC in HD. injection HD; intros; subst.
  pose proof (distSq_nonneg (cmetric P) (getPos a) (getPos b)) as Hrsq.
  apply isRSqInRange_iff in HRg; auto.
  assert (Hpos : btype (cbin P) = BLog -> 0 < sqrt (distSq (cmetric P) (getPos a) (getPos b))).
  { intro HT. pose proof (vb_minsep _ HB) as Hm. rewrite HT in Hm. lra. }
  destruct (direct_event P false a b k r lr HB HRg HS Hpos) as [_ [[_ HK] [HR [HL [HE1 [HE2 HE3]]]]]].
  unfold inBinEv. rewrite HR, HL, HE1, HE2, HE3; auto.
  split; auto. split; auto. split; auto.
  assert (HW : forall c, okcell m c -> (forall o, In o (objs c) -> 0 <= ow o) -> getW c <> 0 -> 0 < getW c).
  { intros c O N Hne. rewrite (ok_w _ _ O) in *. assert (0 <= sumR ow (objs c)) by (apply sumR_nonneg; auto). lra. }
  apply Rmult_lt_0_compat; eauto.
Qed.

(** Weighted means of in-bin separations are in the bin. *)
Lemma mean_bounds B k lo hi (g : event -> R) evs :
  Forall (inBinEv B) evs -> (forall e, In e evs -> ek e = k -> lo <= g e < hi) ->
  let w := sumR (fun e => if (k =? ek e)%Z then getW (ec1 e) * getW (ec2 e) else 0) evs in
  let v := sumR (fun e => if (k =? ek e)%Z then getW (ec1 e) * getW (ec2 e) * g e else 0) evs in
  0 <= w /\ lo * w <= v /\ v <= hi * w /\ (w <> 0 -> v < hi * w).
Proof.
  intros HF Hg. induction HF as [|e l [HE [_ [_ HW]]] HF IH]; simpl; [lra|].
  destruct IH as [I1 [I2 [I3 I4]]]; [intros; apply Hg; auto; right; auto|].
  set (w := sumR _ l) in *. set (v := sumR (fun e0 => if (k =? ek e0)%Z then _ * g e0 else 0) l) in *.
  destruct (Z.eqb_spec k (ek e)) as [E|E].
  - destruct (Hg e (or_introl eq_refl) (eq_sym E)) as [G1 G2]. 
    set (W := getW (ec1 e) * getW (ec2 e)) in *. repeat split; try nra.
  - rewrite !Rplus_0_l. auto.
Qed.
Lemma contrib_w k e : ek2 e = None ->
  contrib FWeight k e = if (k =? ek e)%Z then getW (ec1 e) * getW (ec2 e) else 0.
Proof. intro H. unfold contrib, hit, evval. rewrite H. destruct (k =? ek e)%Z; lra. Qed.
Lemma contrib_r k e : ek2 e = None ->
  contrib FMeanr k e = if (k =? ek e)%Z then getW (ec1 e) * getW (ec2 e) * er e else 0.
Proof. intro H. unfold contrib, hit, evval. rewrite H. destruct (k =? ek e)%Z; lra. Qed.
Lemma contrib_l k e : ek2 e = None ->
  contrib FMeanlogr k e = if (k =? ek e)%Z then getW (ec1 e) * getW (ec2 e) * elogr e else 0.
Proof. intro H. unfold contrib, hit, evval. rewrite H. destruct (k =? ek e)%Z; lra. Qed.
Lemma sumR_ext_in {A} (f g : A -> R) l : (forall x, In x l -> f x = g x) -> sumR f l = sumR g l.
Proof. induction l; simpl; intro H; auto. rewrite H, IHl; auto. Qed.

Lemma rnom_in_bin B k : validB B -> (0 <= k < nbins B)%Z -> edge B k <= rnomOf B k < edge B (k + 1).
Proof.
  intros HB Hk. pose proof (vb_binsize _ HB) as Hb. pose proof (vb_minsep _ HB) as Hm.
  pose proof (vb_maxsep _ HB) as HM. pose proof (vb_not2d _ HB) as H2. pose proof (vb_nbins _ HB) as Hn.
  unfold rnomOf, logrOf, edge in *. destruct (btype B); try congruence.
  - rewrite plus_IZR. rewrite exp_plus, exp_plus, exp_ln by auto.
    replace ((IZR k + 1) * binsize B) with (IZR k * binsize B + binsize B) by ring. rewrite exp_plus.
    pose proof (exp_pos (IZR k * binsize B)).
    assert (1 <= exp (1/2 * binsize B)) by (pose proof (exp_ineq1 (1/2 * binsize B)); lra).
    assert (exp (1/2 * binsize B) < exp (binsize B)) by (apply exp_increasing; lra).
    assert (0 < exp (IZR k * binsize B) * minsep B) by (apply Rmult_lt_0_compat; auto).
    split; nra.
  - rewrite plus_IZR. rewrite HM. assert (0 < IZR (nbins B)) by (apply IZR_lt; auto).
    replace ((minsep B + IZR (nbins B) * binsize B - minsep B) / IZR (nbins B)) with (binsize B) by (field; lra).
    lra.
Qed.
Lemma rnom_logr B k : validB B -> logrOf B k = ln (rnomOf B k).
Proof.
  intro HB. pose proof (vb_not2d _ HB). unfold rnomOf. destruct (btype B) eqn:E; try congruence.
  - rewrite ln_exp; auto. - unfold logrOf. rewrite E. auto.
Qed.

Lemma C43_core B evs s1 : validB B -> Forall (inBinEv B) evs ->
  (forall f k, aget f s1 k = 0 + sumR (contrib f k) evs) ->
  forall k, (0 <= k < nbins B)%Z ->
  edge B k <= finalMeanr B s1 k < edge B (k + 1) /\
  (0 < edge B k -> ln (edge B k) <= finalMeanlogr B s1 k < ln (edge B (k + 1))).
Proof.
  intros HB HF Hs k Hk.
  assert (HK2 : forall e, In e evs -> ek2 e = None).
  { intros e He. rewrite Forall_forall in HF. apply (HF e He). }
  pose proof (Hs FWeight k) as HW. pose proof (Hs FMeanr k) as HR. pose proof (Hs FMeanlogr k) as HL.
  change (aget FWeight s1 k) with (a_weight s1 k) in HW. change (aget FMeanr s1 k) with (a_meanr s1 k) in HR.
  change (aget FMeanlogr s1 k) with (a_meanlogr s1 k) in HL.
  rewrite (sumR_ext_in _ _ evs (fun e He => contrib_w k e (HK2 e He))) in HW.
  rewrite (sumR_ext_in _ _ evs (fun e He => contrib_r k e (HK2 e He))) in HR.
  rewrite (sumR_ext_in _ _ evs (fun e He => contrib_l k e (HK2 e He))) in HL.
  assert (HIn : forall e, In e evs -> inBinEv B e) by (rewrite Forall_forall in HF; auto).
  pose proof (rnom_in_bin B k HB Hk) as HN.
  split.
  - destruct (mean_bounds B k (edge B k) (edge B (k + 1)) er evs HF) as [A1 [A2 [A3 A4]]].
    { intros e He <-. apply (HIn e He). }
    unfold finalMeanr. destruct (Req_EM_T (a_weight s1 k) 0) as [E|E]; auto.
    rewrite HW in E. rewrite HR, HW in *. rewrite !Rplus_0_l in *. specialize (A4 E).
    set (w := sumR _ evs) in *. set (v := sumR (fun e => if (k =? ek e)%Z then _ * er e else 0) evs) in *.
    assert (0 < w) by lra. split.
    + apply Rmult_le_reg_r with w; auto. unfold Rdiv. rewrite Rmult_assoc, Rinv_l; lra.
    + apply Rmult_lt_reg_r with w; auto. unfold Rdiv. rewrite Rmult_assoc, Rinv_l; lra.
  - intro Hpos.
    assert (HX : forall x, edge B k <= x < edge B (k + 1) -> ln (edge B k) <= ln x < ln (edge B (k + 1))).
    { intros x [X1 X2]. split; [|apply ln_increasing; lra].
      destruct X1 as [X1|X1]; [left; apply ln_increasing; auto|rewrite X1; lra]. }
    destruct (mean_bounds B k (ln (edge B k)) (ln (edge B (k + 1))) elogr evs HF) as [A1 [A2 [A3 A4]]].
    { intros e He <-. destruct (HIn e He) as [E1 [-> _]]. apply HX; auto. }
    unfold finalMeanlogr. destruct (Req_EM_T (a_weight s1 k) 0) as [E|E].
    { rewrite rnom_logr; auto. }
    rewrite HW in E. rewrite HL, HW in *. rewrite !Rplus_0_l in *. specialize (A4 E).
    set (w := sumR _ evs) in *. set (v := sumR (fun e => if (k =? ek e)%Z then _ * elogr e else 0) evs) in *.
    assert (0 < w) by lra. split.
    + apply Rmult_le_reg_r with w; auto. unfold Rdiv. rewrite Rmult_assoc, Rinv_l; lra.
    + apply Rmult_lt_reg_r with w; auto. unfold Rdiv. rewrite Rmult_assoc, Rinv_l; lra.
Qed.

(** For every metric, every bin_slop and every schedule: the final meanr of each bin lies in
    that bin, and so does meanlogr (in log). *)
Theorem C43_meanr_in_bin_cross R cat1 cat2 s1 k :
  validB (cbin (rP R)) -> nonnegW cat1 -> nonnegW cat2 -> (0 <= k < nbins (cbin (rP R)))%Z ->
  runCross R cat1 cat2 cleared s1 ->
  let B := cbin (rP R) in
  edge B k <= finalMeanr B s1 k < edge B (k + 1) /\
  (0 < edge B k -> ln (edge B k) <= finalMeanlogr B s1 k < ln (edge B (k + 1))).
Proof.
  intros HB N1 N2 Hk [cells1 [cells2 [B1 [B2 H]]]] B. unfold processCross in H.
  destruct (crossEarlyExit _ _ _ _ _).
  - subst s1. apply (C43_core B []); auto. intros f k'. rewrite cleared_get. simpl. lra.
  - destruct H as [evs [th [HE [HS ->]]]]. apply (C43_core B (concat evs)); auto.
    + destruct (cross_covers (rP R) cells1 cells2 evs HE) as [dr [_ [HD _]]].
      eapply Forall_impl; [|exact HD]. intros e [a [b [rsq [k0 [r [lr [Ja [Jb [HDD ->]]]]]]]]].
      assert (W1 := run_wf R _ cat1 cells1 HB B1). assert (W2 := run_wf R _ cat2 cells2 HB B2).
      apply (direct_inBin (rP R) false (fst (getMinMaxSize (rP R)))); auto.
      * exact (inTops_wf _ _ _ W1 Ja). * exact (inTops_wf _ _ _ W2 Jb).
      * intros o Ho. apply N1. exact (inTops_obj_cat _ cat1 cells1 a o B1 Ja Ho).
      * intros o Ho. apply N2. exact (inTops_obj_cat _ cat2 cells2 b o B2 Jb Ho).
    + intros f k'. rewrite (schedule_get f cleared evs th k' HS), cleared_get. auto.
Qed.
Theorem C43_meanr_in_bin_auto R cat s1 k :
  validB (cbin (rP R)) -> nonnegW cat -> (0 <= k < nbins (cbin (rP R)))%Z ->
  runAuto R cat cleared s1 ->
  let B := cbin (rP R) in
  edge B k <= finalMeanr B s1 k < edge B (k + 1) /\
  (0 < edge B k -> ln (edge B k) <= finalMeanlogr B s1 k < ln (edge B (k + 1))).
Proof.
  intros HB N1 Hk [cells [B1 [evs [th [HE [HS ->]]]]]] B.
  apply (C43_core B (concat evs)); auto.
  - destruct (auto_covers (rP R) cells evs HE) as [dr [ds [_ [HD _]]]].
    eapply Forall_impl; [|exact HD]. intros e [a [b [rsq [k0 [r [lr [Ja [Jb [HDD ->]]]]]]]]].
    assert (W1 := run_wf R _ cat cells HB B1).
    apply (direct_inBin (rP R) (do_reverse (cbin (rP R))) (fst (getMinMaxSize (rP R)))); auto.
    + exact (inTops_wf _ _ _ W1 Ja). + exact (inTops_wf _ _ _ W1 Jb).
    + intros o Ho. apply N1. exact (inTops_obj_cat _ cat cells a o B1 Ja Ho).
    + intros o Ho. apply N1. exact (inTops_obj_cat _ cat cells b o B1 Jb Ho).
    + unfold do_reverse. pose proof (vb_not2d _ HB). destruct (btype (cbin (rP R))); congruence.
  - intros f k'. rewrite (schedule_get f cleared evs th k' HS), cleared_get. auto.
Qed.
(** The documented edges are the edges used. *)
Theorem C43_edges B k : validB B -> leftEdge B k = edge B k /\ rightEdge B k = edge B (k + 1).
Proof.
  intros HB. pose proof (vb_binsize _ HB) as Hb. pose proof (vb_minsep _ HB) as Hm.
  pose proof (vb_maxsep _ HB) as HM. pose proof (vb_not2d _ HB) as H2. pose proof (vb_nbins _ HB) as Hn.
  unfold leftEdge, rightEdge, rnomOf, logrOf, edge in *. destruct (btype B); try congruence.
  - rewrite plus_IZR. rewrite exp_plus, exp_plus, exp_ln by auto.
    replace ((IZR k + 1) * binsize B) with (IZR k * binsize B + (1/2 * binsize B + 1/2 * binsize B)) by field.
    rewrite !exp_plus. pose proof (exp_pos (1/2 * binsize B)). split; [field; lra|ring].
  - rewrite plus_IZR. rewrite HM. assert (0 < IZR (nbins B)) by (apply IZR_lt; auto).
    replace ((minsep B + IZR (nbins B) * binsize B - minsep B) / IZR (nbins B)) with (binsize B) by (field; lra).
    split; lra.
Qed.
Example C43_example : exists s1, runAuto (exRun Rperp exBslop BruteNo) exCatA cleared s1 /\
  1 <= finalMeanr exBslop s1 0 < 2.
Proof.
  destruct (runAuto_exists (exRun Rperp exBslop BruteNo) exCatA cleared) as [s1 H1];
    try (apply exBslop_valid); try discriminate.
  exists s1. split; auto.
  destruct (C43_meanr_in_bin_auto (exRun Rperp exBslop BruteNo) exCatA s1 0) as [H _]; auto.
  - apply exBslop_valid. - intros o Ho. left. apply exCatA_pos; auto. - simpl; lia.
  - simpl in H. unfold edge in H; simpl in H. lra.
Qed.
