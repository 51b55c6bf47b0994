(** C20: initialize=False together with MPI. *)
From Coq Require Import Reals Lra Lia List ZArith Bool Permutation.
From Verif Require Import Base Geometry Tree Traverse Run Corr Patch Spec SpecRun GeomFacts SumFacts TreeFacts
  BinFacts TravFacts Exact MetricFacts Cover Lift Runs Examples Account PropsCount PropsRun PropsCorr PatchFacts PropsPatch.
Import ListNotations.
Open Scope R_scope.

(** Rank 0 ends with what all the ranks had before, plus the new pairs. *)
Lemma mpi_get_all C f k mine size Js init final : okB (pB C) -> In k (bins (pB C)) -> (0 < size)%Z ->
  assignsOnce mine size Js ->
  (forall r, consistent (kacc (sself (init r)))) ->
  (forall J, In J Js -> jobExact C f k J) ->
  mpiRun C mine size Js init final ->
  aget f (kacc (sself final)) k =
    sumR (fun r => aget f (kacc (sself (init r))) k) (ranks size) + sumR (jobVal (rP (pR C)) f k) Js.
Proof.
  intros HB Hk Hs HA HI HE [st [HR ->]].
  assert (HV : forall r, In r (ranks size) -> aget f (kacc (sself (st r))) k =
     aget f (kacc (sself (init r))) k + sumR (jobVal (rP (pR C)) f k) (filter (fun J => mine r (jobKey J)) Js)).
  { intros r Hr. apply jobs_get; auto. intros J HJ. apply filter_In in HJ. apply HE; tauto. }
  rewrite collect_get; auto.
  - rewrite <- (ranks_sum (jobVal (rP (pR C)) f k) mine size Js HA), <- sumR_plus.
    rewrite <- (sumR_ext _ _ _ HV). rewrite sumR_map. rewrite (ranks_cons size) at 2 by auto. reflexivity.
  - apply Forall_forall. intros s Hin. apply in_map_iff in Hin as [r [<- Hr]].
    eapply jobs_consistent; [exact HB| |apply HR; rewrite ranks_cons by auto; right; auto]. auto.
Qed.
Lemma mpi_tot_all C mine size Js init final : pNN C = true -> (0 < size)%Z ->
  assignsOnce mine size Js -> mpiRun C mine size Js init final ->
  ktot (sself final) = sumR (fun r => ktot (sself (init r))) (ranks size) + sumR (jobTot C) Js.
Proof.
  intros HN Hs HA [st [HR ->]].
  assert (HV : forall r, In r (ranks size) -> ktot (sself (st r)) =
     ktot (sself (init r)) + sumR (jobTot C) (filter (fun J => mine r (jobKey J)) Js)).
  { intros r Hr. apply jobs_tot; auto. }
  rewrite collect_tot. rewrite <- (ranks_sum (jobTot C) mine size Js HA), <- sumR_plus.
  rewrite <- (sumR_ext _ _ _ HV). rewrite sumR_map. rewrite (ranks_cons size) at 2 by auto. reflexivity.
Qed.
Theorem C20_mpi_accumulates C cats n size init final k :
  let R := pR C in let B := cbin (rP R) in
  cmetric (rP R) = Euclidean -> rcoord R <> Sphere -> crpar (rP R) = None -> validB B ->
  slop_b B = 0 -> narrowLog B ->
  offEdges B euclid (allRows cats) (allRows cats) -> offMinSep B euclid (allRows cats) ->
  posW (allRows cats) -> NoDup (map pidx cats) -> (0 <= k < nbins B)%Z ->
  (0 < size)%Z -> (forall a, In a cats -> (0 <= pidx a < n)%Z) ->
  (forall r, consistent (kacc (sself (init r)))) ->
  mpiRun C (myJobAuto n size) size (autoJobs cats) init final ->
  a_weight (kacc (sself final)) k = sumR (fun r => a_weight (kacc (sself (init r))) k) (ranks size) +
    sumUPairs (selBin B euclid k) v_ww (allRows cats).
Proof.
  intros R B HM HS Hr HB Hb HN HE HO HW HND Hk Hsz Hn HI H.
  assert (X := mpi_get_all C FWeight k (myJobAuto n size) size (autoJobs cats) init final).
  cbn [aget] in X. rewrite X; auto; clear X.
  - f_equal. rewrite autoJobs_sum; auto.
    + unfold sumUPairs. apply sumR_ext. intros [o1 o2] _. unfold specM. cbn [fst snd]. fold R.
      rewrite (selM_selBin (rP R) k euclid); auto. rewrite HM. apply mdist_euclidean.
    + intros x y. apply specM_sym; simpl; auto; try discriminate. fold R. rewrite HM. apply symM_euclid.
  - apply validB_okB; auto.
  - apply in_bins; auto.
  - apply auto_assigns; auto.
  - apply autoJobs_exact; auto; fold R; rewrite ?HM.
    + apply lip_euclid.
    + apply subEuclid_euclid.
    + apply symM_euclid.
    + split; auto. split; auto. rewrite HM. eapply offEdges_ext; [|exact HE]. intros; symmetry; apply mdist_euclidean.
    + eapply offMinSep_ext; [|exact HO]. intros; symmetry; apply mdist_euclidean.
    + apply skipOK_lip; auto. rewrite HM. apply lip_euclid.
    + simpl; auto.
    + discriminate.
Qed.
Theorem C20_mpi_tot C cats n size init final : pNN C = true -> NoDup (map pidx cats) ->
  (0 < size)%Z -> (forall a, In a cats -> (0 <= pidx a < n)%Z) ->
  mpiRun C (myJobAuto n size) size (autoJobs cats) init final ->
  ktot (sself final) = sumR (fun r => ktot (sself (init r))) (ranks size) +
    sumw (allRows cats) * sumw (allRows cats) / 2.
Proof.
  intros HN HD Hs Hn H.
  rewrite (mpi_tot_all C (myJobAuto n size) size (autoJobs cats) init final), autoJobs_tot; auto using auto_assigns. lra.
Qed.

(** Two calls of process with the same communicator, the second with initialize=False
    (corr2base.py:897-908, 981-992: rank 0 adds the others to its own; the others keep their share).
    A serial second call doubles tot; here the share of rank 1 is added once more. *)
Definition exMC : list patch := [mkpatch 0 [exObj 0 1 0]; mkpatch 1 [exObj (3/2) 1 1]].
Theorem C20_mpi_initialize_refuted : exists C cats n st final1 init2 final2,
  pNN C = true /\ NoDup (map pidx cats) /\ (forall a, In a cats -> (0 <= pidx a < n)%Z) /\
  (forall r, In r (ranks 2) -> runJobs C sclear (filter (fun J => myJobAuto n 2 r (jobKey J)) (autoJobs cats)) (st r)) /\
  final1 = mpiCollect C (st 0%Z) (map st [1%Z]) /\
  ktot (sself final1) = sumw (allRows cats) * sumw (allRows cats) / 2 /\
  init2 0%Z = final1 /\ init2 1%Z = st 1%Z /\
  mpiRun C (myJobAuto n 2) 2 (autoJobs cats) init2 final2 /\
  ktot (sself final2) <> ktot (sself final1) + sumw (allRows cats) * sumw (allRows cats) / 2.
Proof.
  set (C := mkPC (exRun Euclidean exB BruteNo) true).
  assert (HX : forall s0 Js, (forall J, In J Js -> In J (autoJobs exMC)) -> exists s, runJobs C s0 Js s).
  { intros s0 Js HJ. apply jobs_exist; [apply exB_valid|]. apply Forall_forall. intros J HIn.
    apply HJ in HIn. simpl in HIn. destruct HIn as [<-|[<-|[<-|[]]]]; simpl; try split; discriminate. }
  assert (HF : forall r J, In J (filter (fun J => myJobAuto 2 2 r (jobKey J)) (autoJobs exMC)) -> In J (autoJobs exMC)).
  { intros r J HJ. apply filter_In in HJ. tauto. }
  destruct (HX sclear _ (HF 0%Z)) as [s0 H0]. destruct (HX sclear _ (HF 1%Z)) as [s1 H1].
  set (st := fun r => if (r =? 0)%Z then s0 else s1).
  set (final1 := mpiCollect C s0 [s1]).
  destruct (HX final1 _ (HF 0%Z)) as [t0 T0]. destruct (HX s1 _ (HF 1%Z)) as [t1 T1].
  set (init2 := fun r => if (r =? 0)%Z then final1 else s1).
  set (final2 := mpiCollect C t0 [t1]).
  assert (HN : NoDup (map pidx exMC)) by (simpl; repeat constructor; simpl; intuition discriminate).
  assert (HI : forall a, In a exMC -> (0 <= pidx a < 2)%Z) by (intros a [<-|[<-|[]]]; simpl; lia).
  assert (HR : forall r, In r (ranks 2) -> runJobs C sclear (filter (fun J => myJobAuto 2 2 r (jobKey J)) (autoJobs exMC)) (st r)).
  { intros r [<-|[<-|[]]]; [exact H0|exact H1]. }
  assert (M1 : mpiRun C (myJobAuto 2 2) 2 (autoJobs exMC) (fun _ => sclear) final1) by (exists st; split; [exact HR|reflexivity]).
  assert (M2 : mpiRun C (myJobAuto 2 2) 2 (autoJobs exMC) init2 final2).
  { exists (fun r => if (r =? 0)%Z then t0 else t1). split; [|reflexivity]. intros r [<-|[<-|[]]]; [exact T0|exact T1]. }
  assert (E1 := C20_mpi_tot C exMC 2 2 _ final1 eq_refl HN ltac:(lia) HI M1).
  assert (E2 := C20_mpi_tot C exMC 2 2 _ final2 eq_refl HN ltac:(lia) HI M2).
  assert (E3 := jobs_tot C sclear _ s1 eq_refl H1). simpl in E1, E2, E3.
  exists C, exMC, 2%Z, st, final1, init2, final2.
  repeat (split; [auto; fail || reflexivity|]). split; [simpl; lra|]. repeat (split; [auto; fail || reflexivity|]).
  change (init2 1%Z) with s1 in E2. unfold sumw in *. simpl in *. lra.
Qed.
Example C20_mpi_example : exists C cats n st,
  pNN C = true /\ consistent (kacc (sself sclear)) /\
  mpiRun C (myJobAuto n 2) 2 (autoJobs cats) (fun _ => sclear) st /\
  a_weight (kacc (sself st)) 0%Z = 2 /\ ktot (sself st) = 8.
Proof.
  set (cats := [mkpatch 0 [exObj 0 1 0]; mkpatch 1 [exObj (3/2) 2 1; exObj (9/4) 1 2]]).
  set (C := mkPC (exRun Euclidean exB BruteNo) true).
  assert (HX : forall r, exists s, runJobs C sclear (filter (fun J => myJobAuto 2 2 r (jobKey J)) (autoJobs cats)) s).
  { intro r. apply jobs_exist; [apply exB_valid|]. apply Forall_forall. intros J HIn.
    apply filter_In in HIn as [HIn _]. simpl in HIn. destruct HIn as [<-|[<-|[<-|[]]]]; simpl; try split; discriminate. }
  destruct (HX 0%Z) as [s0 H0]. destruct (HX 1%Z) as [s1 H1].
  assert (HN : NoDup (map pidx cats)) by (simpl; repeat constructor; simpl; intuition discriminate).
  assert (HI : forall a, In a cats -> (0 <= pidx a < 2)%Z) by (intros a [<-|[<-|[]]]; simpl; lia).
  assert (HC : consistent (kacc (sself sclear))) by (apply cleared_consistent).
  set (final := mpiCollect C s0 [s1]).
  assert (M1 : mpiRun C (myJobAuto 2 2) 2 (autoJobs cats) (fun _ => sclear) final).
  { exists (fun r => if (r =? 0)%Z then s0 else s1). split; [|reflexivity]. intros r [<-|[<-|[]]]; [exact H0|exact H1]. }
  exists C, cats, 2%Z, final. split; [reflexivity|]. split; [exact HC|]. split; [exact M1|]. split.
  - rewrite (C20_mpi_accumulates C cats 2 2 (fun _ => sclear) final 0%Z); auto; try lia; try discriminate.
    + simpl. change (allRows cats) with exCatA.
      unfold sumUPairs, selBin. simpl. rewrite !euclid_x, !exB_in by lia.
      unfold aconst, v_ww; simpl.
      repeat match goal with |- context [Rabs ?x] =>
        first [ rewrite (Rabs_left x) by lra | rewrite (Rabs_right x) by lra ] end.
      unfold Rleb, Rltb. repeat (destruct Rle_dec; destruct Rlt_dec; try (exfalso; lra); simpl). lra.
    + apply exB_valid.
    + apply exCatA_off.
    + apply exCatA_min.
    + apply exCatA_pos.
    + simpl; lia.
  - rewrite (C20_mpi_tot C cats 2 2 (fun _ => sclear) final); auto; try lia. unfold sumw. simpl. lra.
Qed.
