(** Adding, finalizing, estimators: C20, C25, C43, C39. *)
From Coq Require Import Reals Lra Lia List ZArith Bool Permutation Psatz FunctionalExtensionality.
From Verif Require Import Base Geometry Tree Traverse Run Corr Spec SpecRun GeomFacts SumFacts TreeFacts
  BinFacts TravFacts Exact MetricFacts Cover Lift Runs Examples Account PropsCount PropsRun.
Import ListNotations.
Open Scope R_scope.

Ltac zcases := repeat match goal with |- context [(?a =? ?b)%Z] => destruct (a =? b)%Z
  | H : context [(?a =? ?b)%Z] |- _ => destruct (a =? b)%Z end.
(** ** Consistency of the arrays: a bin without pairs has nothing accumulated *)
Definition consistent (s : accum) : Prop := forall k,
  0 <= a_npairs s k /\
  (a_npairs s k = 0 -> a_weight s k = 0 /\ a_meanr s k = 0 /\ a_meanlogr s k = 0 /\
                       a_xi_nk s k = 0 /\ a_xi_kk s k = 0).
Definition sameArrays (B : bparams) (s t : accum) : Prop := forall k, In k (bins B) ->
  a_npairs s k = a_npairs t k /\ a_weight s k = a_weight t k /\ a_meanr s k = a_meanr t k /\
  a_meanlogr s k = a_meanlogr t k /\ a_xi_nk s k = a_xi_nk t k /\ a_xi_kk s k = a_xi_kk t k.

Lemma cleared_consistent : consistent cleared.
Proof. intro k; simpl; unfold aconst. split; [lra|auto]. Qed.
Lemma accAdd_consistent s t : consistent s -> consistent t -> consistent (accAdd s t).
Proof.
  intros Hs Ht k. destruct (Hs k) as [S1 S2]; destruct (Ht k) as [T1 T2]. simpl. split; [lra|].
  intro H. assert (A : a_npairs s k = 0) by lra. assert (A' : a_npairs t k = 0) by lra.
  destruct (S2 A) as [? [? [? [? ?]]]]; destruct (T2 A') as [? [? [? [? ?]]]]. repeat split; lra.
Qed.

Definition posEv (e : event) : Prop := (0 < getN (ec1 e))%nat /\ (0 < getN (ec2 e))%nat.
Lemma events_consistent evs s : Forall posEv evs -> consistent s ->
  forall t, (forall f k, aget f t k = aget f s k + sumR (contrib f k) evs) -> consistent t.
Proof.
  intros HF Hs t Ht k.
  assert (HN : forall f, aget f t k = aget f s k + sumR (contrib f k) evs) by (intro; apply Ht).
  assert (H0 : 0 <= sumR (contrib FNpairs k) evs).
  { clear HN Ht. induction HF as [|e l [P1 P2] HF IH]; simpl; [lra|].
    assert (0 <= contrib FNpairs k e); [|lra].
    assert (0 <= evval FNpairs e) by (unfold evval; apply Rmult_le_pos; apply pos_INR).
    unfold contrib, hit. destruct (ek2 e); zcases; lra. }
  pose proof (HN FNpairs) as HNp. destruct (Hs k) as [S1 S2]. change (aget FNpairs t k) with (a_npairs t k) in HNp.
  change (aget FNpairs s k) with (a_npairs s k) in HNp. split; [lra|].
  intro HZ. assert (A : a_npairs s k = 0) by lra. assert (A0 : sumR (contrib FNpairs k) evs = 0) by lra.
  assert (HZero : forall f, sumR (contrib f k) evs = 0).
  { clear HN Ht HNp S2 H0. induction HF as [|e l [P1 P2] HF IH]; intro f; simpl; [lra|]. simpl in A0.
    assert (E0 : 0 < evval FNpairs e) by (unfold evval; apply Rmult_lt_0_compat; apply lt_0_INR; auto).
    assert (HP : 0 <= contrib FNpairs k e) by (unfold contrib, hit; destruct (ek2 e); zcases; lra).
    assert (HPl : 0 <= sumR (contrib FNpairs k) l).
    { clear IH A0. induction HF as [|e' l' [Q1 Q2] HF IH]; simpl; [lra|].
      assert (0 <= evval FNpairs e') by (unfold evval; apply Rmult_le_pos; apply pos_INR).
      assert (0 <= contrib FNpairs k e') by (unfold contrib, hit; destruct (ek2 e'); zcases; lra).
      lra. }
    rewrite IH by lra.
    assert (Hc : contrib FNpairs k e = 0) by lra. clear - Hc E0.
    unfold contrib, hit in *. destruct (ek2 e), f; zcases; lra. }
  destruct (S2 A) as [B1 [B2 [B3 [B4 B5]]]].
  pose proof (HN FWeight) as X1. pose proof (HN FMeanr) as X2. pose proof (HN FMeanlogr) as X3.
  pose proof (HN FXiNK) as X4. pose proof (HN FXiKK) as X5.
  rewrite HZero in X1, X2, X3, X4, X5. simpl in X1, X2, X3, X4, X5. repeat split; lra.
Qed.
Lemma covers_posEv P rev m (J1 J2 : cell -> Prop) l evs : (forall c, J1 c -> okcell m c) -> (forall c, J2 c -> okcell m c) ->
  covers P rev J1 J2 l evs -> Forall posEv evs.
Proof.
  intros H1 H2 [dr [_ [HD _]]]. eapply Forall_impl; [|exact HD].
  intros e [a [b [rsq [k [r [lr [Ja [Jb [_ ->]]]]]]]]].
  assert (HN : forall c, okcell m c -> (0 < getN c)%nat).
  { intros c O. rewrite (ok_n _ _ O). pose proof (ok_ne _ _ O). destruct (objs c); [congruence|simpl; lia]. }
  unfold posEv. destruct (direct_ec P rev a b rsq k r lr) as [-> ->]. split; apply HN; auto.
Qed.
Lemma autoCovers_posEv P m (J : cell -> Prop) l evs : (forall c, J c -> okcell m c) -> autoCovers P J l evs -> Forall posEv evs.
Proof.
  intros H1 [dr [ds [_ [HD _]]]]. eapply Forall_impl; [|exact HD].
  intros e [a [b [rsq [k [r [lr [Ja [Jb [_ ->]]]]]]]]].
  assert (HN : forall c, okcell m c -> (0 < getN c)%nat).
  { intros c O. rewrite (ok_n _ _ O). pose proof (ok_ne _ _ O). destruct (objs c); [congruence|simpl; lia]. }
  unfold posEv. destruct (direct_ec P (do_reverse (cbin P)) a b rsq k r lr) as [-> ->]. split; apply HN; auto.
Qed.
Theorem C20_runs_consistent R cat1 cat2 s0 s1 :
  0 <= minsep (cbin (rP R)) -> 0 <= slop_b (cbin (rP R)) -> 0 <= slop_a (cbin (rP R)) ->
  consistent s0 -> runCross R cat1 cat2 s0 s1 \/ runAuto R cat1 s0 s1 -> consistent s1.
Proof.
  intros Hm Hb Ha Hs H. pose proof (minsize_nonneg_gen (rP R) Hm Hb Ha) as HM.
  destruct H as [[cells1 [cells2 [B1 [B2 H]]]]|[cells [B [evs [threads [HE [HSch ->]]]]]]].
  - unfold processCross in H. destruct (crossEarlyExit _ _ _ _ _); [subst; auto|].
    destruct H as [evs [threads [HE [HSch ->]]]].
    assert (W1 := run_wf_gen _ _ _ _ HM B1). assert (W2 := run_wf_gen _ _ _ _ HM B2).
    eapply (events_consistent (concat evs) s0); auto.
    + apply (covers_posEv (rP R) false (fst (getMinMaxSize (rP R))) (inTops cells1) (inTops cells2)
        (pairs (allObjs cells1) (allObjs cells2))).
      * intros c Hc. exact (inTops_wf _ _ _ W1 Hc).
      * intros c Hc. exact (inTops_wf _ _ _ W2 Hc).
      * apply cross_covers; exact HE.
    + intros f k. apply schedule_get; auto.
  - assert (W := run_wf_gen _ _ _ _ HM B).
    eapply (events_consistent (concat evs) s0); auto.
    + apply (autoCovers_posEv (rP R) (fst (getMinMaxSize (rP R))) (inTops cells) (upairs (allObjs cells))).
      * intros c Hc. exact (inTops_wf _ _ _ W Hc).
      * apply auto_covers; exact HE.
    + intros f k. apply schedule_get; auto.
Qed.

(** ** C20 *)
Lemma in_bins B k : In k (bins B) <-> (0 <= k < nbins B)%Z.
Proof.
  unfold bins. rewrite in_map_iff. split.
  - intros [n [<- Hn]]. apply in_seq in Hn. lia.
  - intro H. exists (Z.to_nat k). split; [lia|]. apply in_seq. lia.
Qed.
Lemma nonzero_false B s : anyPairs B s = false -> forall k, In k (bins B) -> a_npairs s k = 0.
Proof.
  unfold anyPairs. intros H k Hk. destruct (Req_EM_T (a_npairs s k) 0) as [E|E]; auto. exfalso.
  assert (existsb (fun k0 => negb (Reqb (a_npairs s k0) 0)) (bins B) = true); [|congruence].
  apply existsb_exists. exists k. split; auto. unfold Reqb. destruct Req_EM_T; simpl; congruence.
Qed.
(** += adds the arrays, although it skips objects without pairs. *)
Theorem C20_iadd_adds B s t : consistent (kacc t) ->
  sameArrays B (kacc (kadd B s t)) (accAdd (kacc s) (kacc t)) /\ ktot (kadd B s t) = ktot s + ktot t.
Proof.
  intro Ht. split; [|reflexivity]. unfold kadd; simpl. destruct (anyPairs B (kacc t)) eqn:E.
  - intros k Hk. repeat split; reflexivity.
  - intros k Hk. assert (H := nonzero_false _ _ E k Hk). destruct (Ht k) as [_ H2].
    destruct (H2 H) as [? [? [? [? ?]]]]. simpl. repeat split; lra.
Qed.
Theorem C20_iadd_commutative B s t : consistent (kacc s) -> consistent (kacc t) ->
  sameArrays B (kacc (kadd B s t)) (kacc (kadd B t s)) /\ ktot (kadd B s t) = ktot (kadd B t s).
Proof.
  intros Hs Ht. split; [|simpl; lra]. intros k Hk.
  destruct (C20_iadd_adds B s t Ht) as [A _]. destruct (C20_iadd_adds B t s Hs) as [A' _].
  destruct (A k Hk) as [? [? [? [? [? ?]]]]]. destruct (A' k Hk) as [? [? [? [? [? ?]]]]].
  simpl in *. repeat split; lra.
Qed.
Lemma kadd_consistent B s t : consistent (kacc s) -> consistent (kacc t) -> consistent (kacc (kadd B s t)).
Proof. intros. unfold kadd; simpl. destruct anyPairs; auto. apply accAdd_consistent; auto. Qed.
Theorem C20_iadd_associative B s t u : consistent (kacc s) -> consistent (kacc t) -> consistent (kacc u) ->
  sameArrays B (kacc (kadd B (kadd B s t) u)) (kacc (kadd B s (kadd B t u))) /\
  ktot (kadd B (kadd B s t) u) = ktot (kadd B s (kadd B t u)).
Proof.
  intros Hs Ht Hu. split; [|simpl; lra]. intros k Hk.
  destruct (C20_iadd_adds B (kadd B s t) u Hu) as [A _].
  destruct (C20_iadd_adds B s t Ht) as [A1 _].
  destruct (C20_iadd_adds B s (kadd B t u) (kadd_consistent B t u Ht Hu)) as [A2 _].
  destruct (C20_iadd_adds B t u Hu) as [A3 _].
  destruct (A k Hk) as [? [? [? [? [? ?]]]]]. destruct (A1 k Hk) as [? [? [? [? [? ?]]]]].
  destruct (A2 k Hk) as [? [? [? [? [? ?]]]]]. destruct (A3 k Hk) as [? [? [? [? [? ?]]]]].
  cbn [accAdd a_npairs a_weight a_meanr a_meanlogr a_xi_nk a_xi_kk] in *. repeat split; lra.
Qed.
Theorem C20_iadd_identity B s : consistent (kacc s) ->
  sameArrays B (kacc (kadd B s kclear)) (kacc s) /\ sameArrays B (kacc (kadd B kclear s)) (kacc s) /\
  ktot (kadd B s kclear) = ktot s /\ ktot (kadd B kclear s) = ktot s.
Proof.
  intros Hs. split; [|split; [|simpl; lra]].
  - intros k Hk. destruct (C20_iadd_adds B s kclear cleared_consistent) as [A _].
    destruct (A k Hk) as [? [? [? [? [? ?]]]]]. simpl in *. unfold aconst in *. repeat split; lra.
  - intros k Hk. destruct (C20_iadd_adds B kclear s Hs) as [A _].
    destruct (A k Hk) as [? [? [? [? [? ?]]]]]. simpl in *. unfold aconst in *. repeat split; lra.
Qed.
(** A run on top of existing results (initialize=False) adds what a run from scratch gives. *)
Lemma parallel_from_cleared s0 threads : forall k f,
  aget f (parallelRun s0 threads) k = aget f s0 k + aget f (parallelRun cleared threads) k.
Proof. intros. rewrite !parallel_get, cleared_get. lra. Qed.
Theorem C20_cross_accumulates R cat1 cat2 s0 s1 : runCross R cat1 cat2 s0 s1 ->
  exists t, runCross R cat1 cat2 cleared t /\ forall f k, aget f s1 k = aget f (accAdd s0 t) k.
Proof.
  intros [cells1 [cells2 [B1 [B2 H]]]]. unfold processCross in H.
  destruct (crossEarlyExit _ _ _ _ _) eqn:E.
  - subst s1. exists cleared. split.
    + exists cells1, cells2. split; auto. split; auto. unfold processCross. rewrite E. auto.
    + intros. rewrite add_get, cleared_get. lra.
  - destruct H as [evs [th [HE [HS ->]]]]. exists (parallelRun cleared th). split.
    + exists cells1, cells2. split; auto. split; auto. unfold processCross. rewrite E. exists evs, th. auto.
    + intros. rewrite add_get. apply parallel_from_cleared.
Qed.
Theorem C20_auto_accumulates R cat s0 s1 : runAuto R cat s0 s1 ->
  exists t, runAuto R cat cleared t /\ forall f k, aget f s1 k = aget f (accAdd s0 t) k.
Proof.
  intros [cells [B [evs [th [HE [HS ->]]]]]]. exists (parallelRun cleared th). split.
  - exists cells. split; auto. exists evs, th. auto.
  - intros. rewrite add_get. apply parallel_from_cleared.
Qed.
(** _sum gives the same arrays and tot as adding one after the other. *)
Theorem C20_sum_is_repeated_iadd B l : (forall c, In c l -> consistent (kacc c)) ->
  sameArrays B (kacc (ksum B l)) (kacc (fold_left (kadd B) l kclear)) /\
  ktot (ksum B l) = ktot (fold_left (kadd B) l kclear).
Proof.
  intro Hl.
  assert (HF : forall s f k, In k (bins B) -> consistent (kacc s) ->
     aget f (kacc (fold_left (kadd B) l s)) k = aget f (kacc s) k + sumR (fun c => aget f (kacc c) k) l).
  { induction l as [|c l IH]; intros s f k Hk Hs; simpl; [lra|].
    assert (Hc : consistent (kacc c)) by (apply Hl; left; auto).
    rewrite IH; auto; [|intros; apply Hl; right; auto|apply kadd_consistent; auto].
    destruct (C20_iadd_adds B s c Hc) as [A _]. destruct (A k Hk) as [? [? [? [? [? ?]]]]].
    assert (aget f (kacc (kadd B s c)) k = aget f (kacc s) k + aget f (kacc c) k); [|lra].
    rewrite <- add_get. destruct f; simpl in *; auto. }
  assert (HT : forall s, ktot (fold_left (kadd B) l s) = ktot s + sumR ktot l).
  { clear HF Hl. induction l as [|c l IH]; intro s; simpl; [lra|]. rewrite IH; simpl; lra. }
  assert (HS : forall f k, In k (bins B) -> aget f (kacc (ksum B l)) k = sumR (fun c => aget f (kacc c) k) l).
  { intros f k Hk.
    assert (HQ : sumR (fun c => aget f (kacc c) k) (filter (fun c => anyPairs B (kacc c)) l) =
                 sumR (fun c => aget f (kacc c) k) l).
    { clear HF HT. induction l as [|c l IH]; simpl; auto.
      rewrite <- IH by (intros; apply Hl; right; auto).
      destruct (anyPairs B (kacc c)) eqn:E; simpl; auto.
      assert (aget f (kacc c) k = 0); [|lra].
      assert (Hc : consistent (kacc c)) by (apply Hl; left; auto).
      assert (H0 := nonzero_false _ _ E k Hk). destruct (Hc k) as [_ H2].
      destruct (H2 H0) as [? [? [? [? ?]]]]. destruct f; auto. }
    rewrite <- HQ. unfold ksum. destruct (filter _ l) as [|c0 l0] eqn:E.
    - simpl. apply cleared_get.
    - simpl kacc. rewrite <- (sumR_map (fun s => aget f s k) kacc). destruct f; reflexivity. }
  split.
  - intros k Hk.
    assert (HX : forall f, aget f (kacc (ksum B l)) k = aget f (kacc (fold_left (kadd B) l kclear)) k).
    { intro f. rewrite HS, HF; auto; [|apply cleared_consistent]. simpl kacc. rewrite cleared_get. lra. }
    pose proof (HX FNpairs); pose proof (HX FWeight); pose proof (HX FMeanr); pose proof (HX FMeanlogr);
      pose proof (HX FXiNK); pose proof (HX FXiKK). repeat split; auto.
  - rewrite HT. simpl. unfold ksum. destruct (filter _ l); simpl; lra.
Qed.
(** Without consistency += is not commutative: an object whose npairs are all zero is skipped. *)
Definition exWeird : accum := mkacc (aconst 0) (aconst 1) (aconst 0) (aconst 0) (aconst 0) (aconst 0).
Example C20_example : exists s1, runCross (exRun Euclidean exB BruteNo) exCat1 exCat2 cleared s1 /\
  consistent s1 /\ a_weight (kacc (kadd exB (mkK s1 1) (mkK exWeird 0))) 0%Z = a_weight s1 0%Z.
Proof.
  destruct (runCross_exists (exRun Euclidean exB BruteNo) exCat1 exCat2 cleared) as [s1 H1];
    try (apply exB_valid); try discriminate.
  exists s1. split; auto. split.
  - eapply (C20_runs_consistent (exRun Euclidean exB BruteNo) exCat1 exCat2 cleared); simpl; try lra; auto.
    apply cleared_consistent.
  - unfold kadd; simpl. assert (E : anyPairs exB exWeird = false).
    { unfold anyPairs, bins; simpl. unfold aconst, Reqb. destruct Req_EM_T; simpl; auto; congruence. }
    rewrite E. auto.
Qed.

(** ** C25 *)
Theorem C25_calculateXi_simple dd rr k : ktot rr <> 0 -> ktot dd <> 0 -> a_weight (kacc rr) k <> 0 ->
  exists xi, calculateXi dd rr None None = Some xi /\
    let DD := a_weight (kacc dd) k / ktot dd in
    let RR := a_weight (kacc rr) k / ktot rr in
    xi k = DD / RR - 1.
Proof.
  intros H1 H2 H3. unfold calculateXi, Reqb. destruct Req_EM_T; [congruence|]. simpl.
  eexists; split; [reflexivity|]. simpl. destruct Req_EM_T; [congruence|]. field. auto.
Qed.
Theorem C25_calculateXi_landy_szalay dd rr dr rd k :
  ktot rr <> 0 -> ktot dd <> 0 -> ktot dr <> 0 -> ktot rd <> 0 -> a_weight (kacc rr) k <> 0 ->
  exists xi, calculateXi dd rr (Some dr) (Some rd) = Some xi /\
    let DD := a_weight (kacc dd) k / ktot dd in
    let RR := a_weight (kacc rr) k / ktot rr in
    let DR := a_weight (kacc dr) k / ktot dr in
    let RD := a_weight (kacc rd) k / ktot rd in
    xi k = (DD - DR - RD + RR) / RR.
Proof.
  intros H1 H2 H3 H4 H5. unfold calculateXi, Reqb. repeat (destruct Req_EM_T; [congruence|]). simpl.
  eexists; split; [reflexivity|]. simpl. destruct Req_EM_T; [congruence|]. field. auto.
Qed.
Theorem C25_calculateXi_one_random dd rr dr k :
  ktot rr <> 0 -> ktot dd <> 0 -> ktot dr <> 0 -> a_weight (kacc rr) k <> 0 ->
  exists xi xi', calculateXi dd rr (Some dr) None = Some xi /\ calculateXi dd rr None (Some dr) = Some xi' /\
    let DD := a_weight (kacc dd) k / ktot dd in
    let RR := a_weight (kacc rr) k / ktot rr in
    let DR := a_weight (kacc dr) k / ktot dr in
    xi k = (DD - 2 * DR + RR) / RR /\ xi' k = xi k.
Proof.
  intros H1 H2 H3 H5. unfold calculateXi, Reqb. repeat (destruct Req_EM_T; [congruence|]). simpl.
  eexists; eexists; split; [reflexivity|split; [reflexivity|]]. simpl. destruct Req_EM_T; [congruence|].
  split; [field; auto|auto].
Qed.
(** Bins without random pairs: no division by zero, the numerator is returned. *)
Theorem C25_empty_random_bin dd rr k xi : a_weight (kacc rr) k = 0 ->
  calculateXi dd rr None None = Some xi -> xi k = a_weight (kacc dd) k.
Proof.
  intros H0. unfold calculateXi. destruct (Reqb (ktot rr) 0); simpl; [discriminate|].
  intro H; injection H; intros <-. rewrite H0. destruct Req_EM_T; [|congruence]. rewrite Rmult_0_l. unfold Rdiv. rewrite Rinv_1. ring.
Qed.
(** The error cases, and only those. *)
Theorem C25_error_iff dd rr dr rd :
  calculateXi dd rr dr rd = None <->
  ktot rr = 0 \/ (exists c, dr = Some c /\ ktot c = 0) \/ (exists c, rd = Some c /\ ktot c = 0).
Proof.
  unfold calculateXi, Reqb. split.
  - destruct (Req_EM_T (ktot rr) 0); [auto|]. simpl.
    destruct dr as [dr|]; [destruct (Req_EM_T (ktot dr) 0); [intros _; right; left; eauto|]|];
    (destruct rd as [rd|]; [destruct (Req_EM_T (ktot rd) 0); [intros _; right; right; eauto|]|]);
    simpl; discriminate.
  - intros [H|[[c [-> H]]|[c [-> H]]]]; rewrite H.
    + destruct Req_EM_T; [auto|congruence].
    + destruct Req_EM_T; simpl; auto; destruct (Req_EM_T 0 0); simpl; auto; congruence.
    + destruct (Req_EM_T 0 0); [|congruence]. destruct Req_EM_T; simpl; auto.
      destruct (match dr with Some _ => _ | None => _ end); auto.
Qed.
Definition exW (x t : R) : corr := mkK (mkacc (aconst 1) (aconst x) (aconst 0) (aconst 0) (aconst 0) (aconst 0)) t.
Example C25_example : exists xi, calculateXi (exW 3 10) (exW 4 20) (Some (exW 2 10)) (Some (exW 1 5)) = Some xi /\
  xi 0%Z = (3/10 - 2/10 - 1/5 + 4/20) / (4/20).
Proof.
  destruct (C25_calculateXi_landy_szalay (exW 3 10) (exW 4 20) (exW 2 10) (exW 1 5) 0) as [xi [H1 H2]];
    simpl; unfold aconst; try lra. exists xi. split; auto. 
Qed.
