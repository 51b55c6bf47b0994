(** Every run accounts for every pair exactly once; slop bounds for counted and dropped pairs. *)
From Coq Require Import Reals Lra Lia List ZArith Bool Permutation Psatz.
From Verif Require Import Base Geometry Tree Traverse Run Spec SpecRun GeomFacts SumFacts TreeFacts
  BinFacts TravFacts Exact MetricFacts Cover Lift Runs.
Import ListNotations.
Open Scope R_scope.

Definition evCounted (e : event) : list (obj * obj * Z) := map (fun p => (p, ek e)) (evPairs e).
Lemma evCounted_fst e : map fst (evCounted e) = evPairs e.
Proof. unfold evCounted. rewrite map_map. simpl. apply map_id. Qed.
Lemma flat_counted_fst evs : map fst (flat_map evCounted evs) = flat_map evPairs evs.
Proof. induction evs; simpl; auto. rewrite map_app, evCounted_fst, IHevs; auto. Qed.

Lemma evCounted_sum f m e k : prodField f -> okcell m (ec1 e) -> okcell m (ec2 e) -> ek2 e = None ->
  inBinSum (pval f) k (evCounted e) = contrib f k e.
Proof.
  intros Hf O1 O2 Hk. unfold inBinSum, evCounted, contrib. rewrite sumR_map. cbn [fst snd].
  rewrite Hk. unfold hit, evPairs.
  destruct (k =? ek e)%Z.
  - rewrite (evval_sum f m (ec1 e) (ec2 e) e); auto. destruct f; lra.
  - rewrite sumR_0; auto. destruct f; lra.
Qed.
Lemma inBinSum_app v k a b : inBinSum v k (a ++ b) = inBinSum v k a + inBinSum v k b.
Proof. apply sumR_app. Qed.
Lemma flat_counted_sum f m evs k : prodField f ->
  (forall e, In e evs -> okcell m (ec1 e) /\ okcell m (ec2 e) /\ ek2 e = None) ->
  inBinSum (pval f) k (flat_map evCounted evs) = sumR (contrib f k) evs.
Proof.
  intros Hf. induction evs as [|e evs IH]; intro H; [reflexivity|]. cbn [flat_map sumR].
  rewrite inBinSum_app, IH by (intros; apply H; right; auto).
  destruct (H e) as [O1 [O2 Hk]]; [left; auto|].
  rewrite (evCounted_sum f m); auto.
Qed.

Lemma in_flat_counted evs o1 o2 k : In (o1, o2, k) (flat_map evCounted evs) ->
  exists e, In e evs /\ In o1 (objs (ec1 e)) /\ In o2 (objs (ec2 e)) /\ k = ek e.
Proof.
  intro H. apply in_flat_map in H as [e [He Hi]]. unfold evCounted in Hi.
  apply in_map_iff in Hi as [[a b] [Hp Hi]]. injection Hp; intros; subst.
  apply in_pairs in Hi as [? ?]. exists e; auto.
Qed.

(** Cells, for a run *)
Lemma cross_accounts P m l1 l2 cells1 cells2 evs (Cnt : obj -> obj -> Z -> Prop) (Drp : obj -> obj -> Prop) s0 s1 :
  Forall (wf m) cells1 -> Forall (wf m) cells2 ->
  Permutation (allObjs cells1) l1 -> Permutation (allObjs cells2) l2 ->
  map Some evs = crossIters P cells1 cells2 ->
  (forall f k, aget f s1 k = aget f s0 k + sumR (contrib f k) (concat evs)) ->
  (forall a b rsq k r lr o1 o2, inTops cells1 a -> inTops cells2 b ->
     decide11 P a b = Direct rsq k r lr -> In o1 (objs a) -> In o2 (objs b) ->
     Cnt o1 o2 (ek (directProcess11 P false a b rsq k r lr))) ->
  (forall a b o1 o2, inTops cells1 a -> inTops cells2 b -> decide11 P a b = Drop ->
     In o1 (objs a) -> In o2 (objs b) -> Drp o1 o2) ->
  accounts (pairs l1 l2) Cnt Drp s0 s1.
Proof.
  intros W1 W2 P1 P2 HE HA HC HD.
  destruct (cross_covers P cells1 cells2 evs HE) as [dr [HP [HDir HDrop]]].
  exists (flat_map evCounted (concat evs)), (flat_map cPairs dr).
  rewrite flat_counted_fst. split; [|split; [|split]].
  - eapply perm_trans; [|exact HP]. apply pairs_perm; symmetry; auto.
  - intros o1 o2 k Hi. apply in_flat_counted in Hi as [e [He [I1 [I2 ->]]]].
    rewrite Forall_forall in HDir. destruct (HDir e He) as [a [b [rsq [k0 [r [lr [Ha [Hb [Hdec ->]]]]]]]]].
    destruct (direct_ec P false a b rsq k0 r lr) as [E1 E2]. rewrite E1 in I1. rewrite E2 in I2.
    exact (HC a b rsq k0 r lr o1 o2 Ha Hb Hdec I1 I2).
  - intros o1 o2 Hi. apply in_flat_map in Hi as [[a b] [Hcc Hi]]. apply in_pairs in Hi as [I1 I2].
    rewrite Forall_forall in HDrop. destruct (HDrop _ Hcc) as [Ha [Hb Hdec]].
    exact (HD a b o1 o2 Ha Hb Hdec I1 I2).
  - assert (HS : forall f k, prodField f ->
      aget f s1 k = aget f s0 k + inBinSum (pval f) k (flat_map evCounted (concat evs))).
    { intros f k Hf. rewrite HA. f_equal. symmetry. apply (flat_counted_sum f m); auto.
      intros e He. rewrite Forall_forall in HDir.
      destruct (HDir e He) as [a [b [rsq [k0 [r [lr [Ha [Hb [Hdec ->]]]]]]]]].
      destruct (direct_ec P false a b rsq k0 r lr) as [E1 E2]. rewrite E1, E2.
      split; [eapply inTops_wf; [|exact Ha]; auto|split; [eapply inTops_wf; [|exact Hb]; auto|apply direct_ek2]]. }
    intro k. split; [|split; [|split]].
    + apply (HS FNpairs k I). + apply (HS FWeight k I). + apply (HS FXiNK k I). + apply (HS FXiKK k I).
Qed.

Lemma auto_accounts P m l cells evs (Cnt : obj -> obj -> Z -> Prop) (Drp : obj -> obj -> Prop) s0 s1 :
  do_reverse (cbin P) = false ->
  Forall (wf m) cells -> Permutation (allObjs cells) l ->
  map Some evs = autoIters P cells ->
  (forall f k, aget f s1 k = aget f s0 k + sumR (contrib f k) (concat evs)) ->
  (forall a b rsq k r lr o1 o2, inTops cells a -> inTops cells b ->
     decide11 P a b = Direct rsq k r lr -> In o1 (objs a) -> In o2 (objs b) ->
     Cnt o1 o2 (ek (directProcess11 P false a b rsq k r lr))) ->
  (forall a b o1 o2, inTops cells a -> inTops cells b -> decide11 P a b = Drop ->
     In o1 (objs a) -> In o2 (objs b) -> Drp o1 o2) ->
  (forall a o1 o2, inTops cells a -> getW a = 0 \/ eleb_fin (getSize a) (halfminsep (cbin P)) = true ->
     In o1 (objs a) -> In o2 (objs a) -> Drp o1 o2) ->
  accountsAuto l Cnt Drp s0 s1.
Proof.
  intros HR W Pm HE HA HC HD HSelf.
  exists (allObjs cells). split; auto.
  destruct (auto_covers P cells evs HE) as [dr [ds [HP [HDir [HDrop HSD]]]]]. rewrite HR in HDir.
  exists (flat_map evCounted (concat evs)), (flat_map cPairs dr ++ flat_map (fun c => upairs (objs c)) ds).
  rewrite flat_counted_fst. split; [|split; [|split]]; auto.
  - intros o1 o2 k Hi. apply in_flat_counted in Hi as [e [He [I1 [I2 ->]]]].
    rewrite Forall_forall in HDir. destruct (HDir e He) as [a [b [rsq [k0 [r [lr [Ha [Hb [Hdec ->]]]]]]]]].
    destruct (direct_ec P false a b rsq k0 r lr) as [E1 E2]. rewrite E1 in I1. rewrite E2 in I2.
    exact (HC a b rsq k0 r lr o1 o2 Ha Hb Hdec I1 I2).
  - intros o1 o2 Hi. apply in_app_or in Hi as [Hi|Hi].
    + apply in_flat_map in Hi as [[a b] [Hcc Hi]]. apply in_pairs in Hi as [I1 I2].
      rewrite Forall_forall in HDrop. destruct (HDrop _ Hcc) as [Ha [Hb Hdec]].
      exact (HD a b o1 o2 Ha Hb Hdec I1 I2).
    + apply in_flat_map in Hi as [c [Hcc Hi]]. apply in_upairs in Hi as [I1 I2].
      rewrite Forall_forall in HSD. destruct (HSD _ Hcc) as [Ha Hb]. exact (HSelf c o1 o2 Ha Hb I1 I2).
  - assert (HS : forall f k, prodField f ->
      aget f s1 k = aget f s0 k + inBinSum (pval f) k (flat_map evCounted (concat evs))).
    { intros f k Hf. rewrite HA. f_equal. symmetry. apply (flat_counted_sum f m); auto.
      intros e He. rewrite Forall_forall in HDir.
      destruct (HDir e He) as [a [b [rsq [k0 [r [lr [Ha [Hb [Hdec ->]]]]]]]]].
      destruct (direct_ec P false a b rsq k0 r lr) as [E1 E2]. rewrite E1, E2.
      split; [eapply inTops_wf; [|exact Ha]; auto|split; [eapply inTops_wf; [|exact Hb]; auto|apply direct_ek2]]. }
    intro k. split; [|split; [|split]].
    + apply (HS FNpairs k I). + apply (HS FWeight k I). + apply (HS FXiNK k I). + apply (HS FXiKK k I).
Qed.

(** The early exit as an accounting: nothing counted, everything dropped. *)
Lemma nothing_accounts l (Cnt : obj -> obj -> Z -> Prop) (Drp : obj -> obj -> Prop) s :
  (forall o1 o2, In (o1, o2) l -> Drp o1 o2) -> accounts l Cnt Drp s s.
Proof.
  intro H. exists [], l. simpl. split; auto. split; [tauto|]. split; auto.
  intro k. unfold inBinSum; simpl. lra.
Qed.

(** ** Slop bounds *)
Lemma slopHi_ge B t : 0 <= slop_b B -> 0 <= t -> t <= slopHi B t.
Proof.
  intros Hb Ht. unfold slopHi. destruct (btype B); try lra.
  pose proof (exp_ineq1_le (slop_b B)). nra.
Qed.
Lemma slopLo_le B t : 0 <= slop_b B -> 0 <= t -> slopLo B t <= t.
Proof. intros Hb Ht. unfold slopLo. destruct (btype B); try lra. nra. Qed.

Definition pairsOK (P : cparams) (e : R) (J1 J2 : cell -> Prop) : Prop :=
  forall a b, J1 a -> J2 b -> pairOK P e a b.

Lemma runCross_slop R e cat1 cat2 s0 s1 :
  let P := rP R in
  validB (cbin P) -> narrowLog (cbin P) -> crpar P = None -> posW cat1 -> posW cat2 -> 0 <= e ->
  (forall F1 F2 cells1 cells2,
     F1 = fieldParams R (brute1 (rbrute R)) -> F2 = fieldParams R (brute2 (rbrute R)) ->
     buildField F1 cat1 cells1 -> buildField F2 cat2 cells2 ->
     pairsOK P e (inTops cells1) (inTops cells2) /\
     (crossEarlyExit P (fieldCenter F1 cat1) (fieldCenter F2 cat2) (fieldSize F1 cat1) (fieldSize F2 cat2) = true ->
      forall o1 o2, In o1 cat1 -> In o2 cat2 ->
        mdist (cmetric P) (opos o1) (opos o2) < minsep (cbin P) + e \/
        maxsep (cbin P) - e <= mdist (cmetric P) (opos o1) (opos o2))) ->
  runCross R cat1 cat2 s0 s1 ->
  accounts (pairs cat1 cat2) (cntSlop (cbin P) (mdist (cmetric P)) e) (drpSlop (cbin P) (mdist (cmetric P)) e) s0 s1.
Proof.
  intros P HB HN Hr Hw1 Hw2 He HOK [cells1 [cells2 [B1 [B2 H]]]].
  destruct (HOK _ _ cells1 cells2 eq_refl eq_refl B1 B2) as [HP HX].
  pose proof (minsep_nonneg _ HB) as Hms. pose proof (minsep_lt_maxsep _ HB) as Hmm.
  pose proof (slopHi_ge (cbin P) (minsep (cbin P)) (vb_b _ HB) Hms).
  pose proof (slopLo_le (cbin P) (maxsep (cbin P)) (vb_b _ HB) ltac:(lra)).
  unfold processCross in H. fold P in H. destruct (crossEarlyExit _ _ _ _ _).
  - subst s1. apply nothing_accounts. intros o1 o2 Hi. apply in_pairs in Hi as [I1 I2].
    specialize (HX eq_refl o1 o2 I1 I2). unfold drpSlop. lra.
  - destruct H as [evs [threads [HE [HSch ->]]]].
    assert (W1 := run_wf R _ cat1 cells1 HB B1). assert (W2 := run_wf R _ cat2 cells2 HB B2).
    assert (Q1 := buildField_perm _ _ _ B1). assert (Q2 := buildField_perm _ _ _ B2).
    apply (cross_accounts P (fst (getMinMaxSize (rP R))) cat1 cat2 cells1 cells2 evs); auto.
    + intros f k. apply schedule_get; auto.
    + intros a b rsq k r lr o1 o2 Ha Hb HD I1 I2.
      destruct (direct_slop P false e (fst (getMinMaxSize (rP R))) a b rsq k r lr o1 o2) as [HK [Hlo [Hhi _]]]; auto.
      * eapply inTops_wf; [|exact Ha]; auto.
      * eapply inTops_wf; [|exact Hb]; auto.
      * split; auto.
    + intros a b o1 o2 Ha Hb HD I1 I2.
      assert (O1 : okcell (fst (getMinMaxSize (rP R))) a) by (eapply inTops_wf; [|exact Ha]; auto).
      assert (O2 : okcell (fst (getMinMaxSize (rP R))) b) by (eapply inTops_wf; [|exact Hb]; auto).
      destruct (drop_slop P e (fst (getMinMaxSize (rP R))) a b o1 o2) as [HC|HC]; auto.
      * apply Rgt_not_eq. apply (wf_Wpos _ _ O1). intros o Ho. apply Hw1.
        exact (inTops_obj_cat _ cat1 cells1 a o B1 Ha Ho).
      * apply Rgt_not_eq. apply (wf_Wpos _ _ O2). intros o Ho. apply Hw2.
        exact (inTops_obj_cat _ cat2 cells2 b o B2 Hb Ho).
      * exfalso. apply HC. rewrite Hr. exact I.
      * unfold drpSlop. lra.
Qed.

Lemma runAuto_slop R e cat s0 s1 :
  let P := rP R in
  validB (cbin P) -> narrowLog (cbin P) -> crpar P = None -> posW cat -> 0 <= e ->
  (forall F cells, F = fieldParams R (bruteAuto (rbrute R)) -> buildField F cat cells ->
     pairsOK P e (inTops cells) (inTops cells) /\
     forall c o1 o2, inTops cells c -> eleb_fin (getSize c) (halfminsep (cbin P)) = true ->
       In o1 (objs c) -> In o2 (objs c) ->
       mdist (cmetric P) (opos o1) (opos o2) <= minsep (cbin P) + e) ->
  runAuto R cat s0 s1 ->
  accountsAuto cat (cntSlop (cbin P) (mdist (cmetric P)) e) (drpSlop (cbin P) (mdist (cmetric P)) e) s0 s1.
Proof.
  intros P HB HN Hr Hw He HOK [cells [B H]].
  destruct (HOK _ cells eq_refl B) as [HP HX].
  pose proof (minsep_nonneg _ HB) as Hms. pose proof (minsep_lt_maxsep _ HB) as Hmm.
  pose proof (slopHi_ge (cbin P) (minsep (cbin P)) (vb_b _ HB) Hms).
  destruct H as [evs [threads [HE [HSch ->]]]].
  assert (W := run_wf R _ cat cells HB B).
  assert (Q := buildField_perm _ _ _ B).
  assert (HW : forall a, inTops cells a -> getW a <> 0).
  { intros a Ha. assert (O : okcell (fst (getMinMaxSize (rP R))) a) by (eapply inTops_wf; [|exact Ha]; auto).
    apply Rgt_not_eq. apply (wf_Wpos _ _ O). intros o Ho. apply Hw.
    exact (inTops_obj_cat _ cat cells a o B Ha Ho). }
  apply (auto_accounts P (fst (getMinMaxSize (rP R))) cat cells evs); auto.
  + unfold do_reverse. pose proof (vb_not2d _ HB). fold P in H0. destruct (btype (cbin P)); congruence.
  + intros f k. apply schedule_get; auto.
  + intros a b rsq k r lr o1 o2 Ha Hb HD I1 I2.
    destruct (direct_slop P false e (fst (getMinMaxSize (rP R))) a b rsq k r lr o1 o2) as [HK [Hlo [Hhi _]]]; auto.
    * eapply inTops_wf; [|exact Ha]; auto.
    * eapply inTops_wf; [|exact Hb]; auto.
    * split; auto.
  + intros a b o1 o2 Ha Hb HD I1 I2.
    assert (O1 : okcell (fst (getMinMaxSize (rP R))) a) by (eapply inTops_wf; [|exact Ha]; auto).
    assert (O2 : okcell (fst (getMinMaxSize (rP R))) b) by (eapply inTops_wf; [|exact Hb]; auto).
    destruct (drop_slop P e (fst (getMinMaxSize (rP R))) a b o1 o2) as [HC|HC]; auto.
    * exfalso. apply HC. rewrite Hr. exact I.
    * unfold drpSlop. lra.
  + intros a o1 o2 Ha [HZ|HZ] I1 I2.
    * exfalso. apply (HW a); auto.
    * specialize (HX a o1 o2 Ha HZ I1 I2). unfold drpSlop. lra.
Qed.
