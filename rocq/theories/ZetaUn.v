(** Facts for calculateZeta with randoms that have no patches. *)
From Coq Require Import Reals Lra Lia List ZArith Bool Permutation.
From Verif Require Import Base Geometry Tree Traverse Run Corr Patch Spec SpecRun GeomFacts SumFacts TreeFacts
  BinFacts TravFacts Exact MetricFacts Cover Lift Runs Examples Account PropsCount PropsRun PropsCorr PatchFacts
  PropsPatch PropsLocal Corr3 TriCover TriStop SpecTri TriFacts TriSpec PropsTri TriMirror PropsTri2
  Patch3 Patch3Facts Patch3Sum Patch3Res PropsPatch3 Cov Comp Zeta ZetaFacts PropsZeta.
Import ListNotations.
Open Scope R_scope.

(** Restricting the cross loop to some patches of each catalog. *)
Definition pick (u v : Z -> bool) (q : key3) : bool := u (c1 q) && (v (c2 q) && v (c3 q)).
Definition only (u : Z -> bool) (cats : list patch) : list patch := filter (fun p => u (pidx p)) cats.
Lemma filter_none {A} (p : A -> bool) l : (forall x, p x = false) -> filter p l = [].
Proof. intro H. induction l; simpl; auto. rewrite H. auto. Qed.
Lemma cross12_only O n1 n2 u v cats1 cats2 :
  filter (fun J => pick u v (jkey J)) (cross12Jobs O n1 n2 cats1 cats2) =
  cross12Jobs O n1 n2 (only u cats1) (only v cats2).
Proof.
  unfold cross12Jobs, only. rewrite filter_flat_map, flat_map_filter. apply flat_map_ext. intro a.
  rewrite filter_flat_map, flat_map_filter.
  destruct (u (pidx a)) eqn:Ea.
  - apply flat_map_ext. intro b. cbv zeta. cbn [filter job12 jkey]. unfold pick at 1, c1, c2, c3. cbn [fst snd].
    rewrite filter_map_c. cbn [job123 jkey].
    rewrite (filter_ext (fun c => pick u v _) (fun c => v (pidx b) && v (pidx c)));
      [|intro c; unfold pick, c1, c2, c3; cbn [fst snd]; rewrite Ea; auto].
    rewrite Ea. destruct (v (pidx b)) eqn:Eb; cbn [andb].
    + rewrite filter_comm, filter_rev_c. auto.
    + rewrite filter_none; auto.
  - rewrite (flat_map_ext _ (fun _ => [])); [induction cats2; simpl; auto|]. intro b. cbv zeta. cbn [filter job12 jkey].
    assert (F : pick u v (pidx a, pidx b, pidx b) = false) by (unfold pick, c1; cbn [fst snd]; rewrite Ea; auto).
    rewrite F, filter_map_c. cbn [job123 jkey].
    rewrite filter_none; auto. intro c. unfold pick, c1. cbn [fst snd]. rewrite Ea; auto.
Qed.
Lemma only_NoDup u cats : NoDup (map pidx cats) -> NoDup (map pidx (only u cats)).
Proof. apply NoDup_map_filter. Qed.
Record storesP (P : tparams) (k : Z) (d : results3) (Js : list job3) (val : (Z -> bool) -> (Z -> bool) -> R) (tot : (Z -> bool) -> (Z -> bool) -> R)
  : Prop := mkSP {
  sp_ND : NoDup (keys3 d);
  sp_cons : consAll d;
  sp_keys : forall q, In q (keys3 d) <-> In q (map jkey Js);
  sp_val : forall u v, sumAcc d (pick u v) TWeight k = val u v;
  sp_tot : forall u v, sumTot d (pick u v) = tot u v }.
Lemma cross12_storesP C n1 n2 cats1 cats2 k st :
  exact3 (p3P C) -> p3NNN C = true -> weights3 TWeight (allRows cats1 ++ allRows cats2) ->
  noTies (allRows cats1 ++ allRows cats2) -> NoDup (map pidx cats1) -> NoDup (map pidx cats2) ->
  noForcedSkip C (cross12Jobs O0 n1 n2 cats1 cats2) ->
  (0 <= k < tntot (p3P C))%Z -> runJobs3 C s3clear (cross12Jobs O0 n1 n2 cats1 cats2) st ->
  storesP (p3P C) k (s3res st) (cross12Jobs O0 n1 n2 cats1 cats2)
    (fun u v => sumPairs12 (tri6 (p3P C) TWeight k) (allRows (only u cats1)) (allRows (only v cats2)))
    (fun u v => let w1 := sumw (allRows (only u cats1)) in let w2 := sumw (allRows (only v cats2)) in
              1/2 * w1 * (w2 * w2)).
Proof.
  intros X HNN W NT HN1 HN2 HF Hk HR. pose proof (exact3_okMin C X) as OM.
  pose proof (proj2 (in_places (p3P C) k) Hk) as HK.
  pose proof (cross12_keys O0 n1 n2 cats1 cats2 HN1 HN2) as KN.
  assert (CE : forall J, In J (cross12Jobs O0 n1 n2 cats1 cats2) -> callExact C TWeight k (jcall J)).
  { apply (calls_exact C TWeight k (allRows cats1 ++ allRows cats2)); auto.
    intros J HJ. destruct (cross12_calls O0 n1 n2 cats1 cats2 J ltac:(discriminate) HJ) as [_ A]. exact A. }
  destruct (jobs3_stored C TWeight k _ OM HK CE s3clear st KN ltac:(intros; intros []) HR) as [d [Ed Sd]].
  cbn [s3clear s3res app] in Ed. rewrite Ed. constructor.
  - eapply stored_NoDup; eauto.
  - intros e He. eapply stored_cons; eauto.
  - assert (E : map fst d = map jkey (cross12Jobs O0 n1 n2 cats1 cats2)).
    { clear - Sd HNN. induction Sd; simpl; auto; [congruence|]. congruence. }
    unfold keys3. rewrite E. tauto.
  - intros u v. unfold sumAcc. rewrite (stored_sum C TWeight k (pick u v) _ _ Sd), sum_if_filter, cross12_only.
    apply cross12Jobs_val; [discriminate|]. apply only_NoDup; auto.
  - intros u v. unfold sumTot. rewrite (stored_tot C TWeight k (pick u v) _ _ HNN Sd), sum_if_filter, cross12_only.
    apply cross12_tot; [apply only_NoDup; auto|]. intros J HJ. apply HF. rewrite <- cross12_only in HJ.
    apply filter_In in HJ as [HJ _]. auto.
Qed.

(** ** The fraction of the area *)
Lemma cbrt_cube c w : 0 < c -> 0 <= w -> cbrt (c * (w * w * w)) = Rpower c (1/3) * w.
Proof.
  intros Hc Hw. unfold cbrt. destruct Hw as [Hw| <-].
  - destruct (Req_EM_T _ 0) as [E|_].
    + exfalso. assert (0 < c * (w * w * w)) by (repeat apply Rmult_lt_0_compat; auto). lra.
    + rewrite <- Rpower_mult_distr by (auto; repeat apply Rmult_lt_0_compat; auto). f_equal.
      replace (w * w * w) with (w ^ 3) by ring. rewrite <- Rpower_pow by auto. rewrite Rpower_mult.
      replace (INR 3 * (1 / 3)) with 1 by (simpl; field). apply Rpower_1; auto.
  - rewrite !Rmult_0_r. destruct (Req_EM_T 0 0); [auto|congruence].
Qed.
Lemma stored_get C f k Js d J : p3NNN C = true -> NoDup (map jkey Js) -> stored C f k Js d -> In J Js ->
  exists v, d3get (jkey J) d = Some v /\ storedAs C f k J v.
Proof.
  intros HN ND H. induction H as [|J' v Js d S H IH|J' Js d EN]; intro HJ; [contradiction| |congruence].
  inversion ND; subst. cbn [d3get]. destruct HJ as [->|HJ].
  - rewrite k3eqb_refl. exists v. auto.
  - destruct (k3eqb (jkey J) (jkey J')) eqn:E; auto. apply k3eqb_eq in E. exfalso. apply H2. rewrite <- E. apply in_map; auto.
Qed.
Lemma auto_diag C cats k st a :
  exact3 (p3P C) -> p3NNN C = true -> weights3 TWeight (allRows cats) -> noTies (allRows cats) -> NoDup (map pidx cats) ->
  (0 <= k < tntot (p3P C))%Z -> runJobs3 C s3clear (auto3Jobs cats) st -> In a cats ->
  k3tot (getRes3 (s3res st) (lkey a)) = 1/6 * (sumw (pobjs a) * sumw (pobjs a) * sumw (pobjs a)).
Proof.
  intros X HNN W NT HN Hk HR Ha. pose proof (exact3_okMin C X) as OM.
  pose proof (proj2 (in_places (p3P C) k) Hk) as HK.
  assert (CE : forall J, In J (auto3Jobs cats) -> callExact C TWeight k (jcall J)).
  { apply (calls_exact C TWeight k (allRows cats)); auto. intros; apply auto3_calls; auto. }
  destruct (jobs3_stored C TWeight k (auto3Jobs cats) OM HK CE s3clear st (auto3_keys cats HN) ltac:(intros; intros []) HR) as [d [Ed Sd]].
  cbn [s3clear s3res app] in Ed. rewrite Ed.
  destruct (stored_get C TWeight k _ d (mkJ3 (lkey a) (lkey a) (CAuto (catOf a)) true) HNN (auto3_keys cats HN) Sd) as [v [G [_ [_ T]]]].
  { unfold auto3Jobs. apply in_flat_map. exists a. split; auto. left. reflexivity. }
  cbn [jkey] in G. unfold getRes3. rewrite G, (T HNN). reflexivity.
Qed.
(** The stored triples with three equal patches. *)
Lemma auto_keys_eq cats q : In q (map jkey (auto3Jobs cats)) ->
  (exists a, In a cats /\ q = lkey a) \/
  (exists a b, In a cats /\ In b cats /\ (pidx a < pidx b)%Z /\ (q = (pidx a, pidx b, pidx b) \/ q = (pidx a, pidx a, pidx b))) \/
  (exists a b c, In a cats /\ In b cats /\ In c cats /\ (pidx a < pidx b < pidx c)%Z /\ q = (pidx a, pidx b, pidx c)).
Proof.
  intro H. apply in_map_iff in H as [J [<- HJ]].
  apply in_auto3Jobs in HJ as [[a [Ha ->]]|[[a [b [Ha [Hb [L [->| ->]]]]]]|[a [b [c [Ha [Hb [Hc [L ->]]]]]]]]].
  - left. exists a. auto.
  - right; left. exists a, b. auto.
  - right; left. exists a, b. auto.
  - right; right. exists a, b, c. auto 8.
Qed.
Lemma in_autoKey_diag cats a : In a cats -> In (lkey a) (map jkey (auto3Jobs cats)).
Proof.
  intro Ha. apply in_map_iff. exists (mkJ3 (lkey a) (lkey a) (CAuto (catOf a)) true). split; auto.
  unfold auto3Jobs. apply in_flat_map. exists a. split; auto. left. reflexivity.
Qed.
Lemma in_autoKey_iij cats a b : In a cats -> In b cats -> (pidx a < pidx b)%Z ->
  In (pidx a, pidx a, pidx b) (map jkey (auto3Jobs cats)).
Proof.
  intros Ha Hb L. apply in_map_iff. exists (job12 (pidx a, pidx b, pidx b) (pidx a, pidx a, pidx b) O0 b a false). split; auto.
  unfold auto3Jobs. apply in_flat_map. exists a. split; auto. right. apply in_flat_map. exists b. split.
  - apply filter_In. split; [apply in_rev; rewrite rev_involutive; auto|]. apply Z.ltb_lt; auto.
  - right; left. reflexivity.
Qed.
Lemma diag_perm cats d p : NoDup (map pidx cats) -> NoDup (keys3 d) -> (forall q, In q (keys3 d) <-> In q (map jkey (auto3Jobs cats))) ->
  Permutation (filter allEq (filter p (keys3 d))) (map lkey (filter (fun a => p (lkey a)) cats)).
Proof.
  intros HN ND HK. apply NoDup_Permutation.
  - repeat apply NoDup_filter; auto.
  - replace (map lkey (filter (fun a => p (lkey a)) cats)) with (map (fun z => (z, z, z)) (map pidx (filter (fun a => p (lkey a)) cats)))
      by (rewrite map_map; reflexivity).
    apply FinFun.Injective_map_NoDup; [intros x y E; injection E; auto|]. apply NoDup_map_filter; auto.
  - intro q. rewrite !filter_In, HK. rewrite (in_map_iff lkey). split.
    + intros [[H1 H2] H3]. unfold allEq, c1, c2, c3 in H3. apply andb_true_iff in H3 as [E1 E2]. apply Z.eqb_eq in E1, E2.
      apply auto_keys_eq in H1 as [[a [Ha ->]]|[[a [b [_ [_ [L [->| ->]]]]]]|[a [b [c [_ [_ [_ [L ->]]]]]]]]]; cbn in E1, E2; try lia.
      exists a. split; auto. apply filter_In. auto.
    + intros [a [<- Ha]]. apply filter_In in Ha as [Ha Hp]. split; [split; auto; apply in_autoKey_diag; auto|].
      unfold allEq, lkey, c1, c2, c3. cbn [fst snd]. rewrite Z.eqb_refl. auto.
Qed.
