(** C91: concrete input files; several files with patches. *)
From Coq Require Import Reals Lra Lia List ZArith Bool Permutation Psatz Sorted.
From Verif Require Import Base Geometry Tree Traverse Run Corr Patch Exec2 Spec SpecRun GeomFacts SumFacts TreeFacts
  BinFacts TravFacts Exact MetricFacts Cover Lift Runs Examples Account PropsCount PropsRun PropsCorr PatchFacts
  PropsPatch PropsExec2.
Import ListNotations.
Open Scope R_scope.

Definition xC : pcfg := mkPC (exRun Euclidean exB BruteNo) true.
(** Two data files without patches, one random file. *)
Definition xD : list infile := [FPlain [exObj 0 1 0; exObj (3/2) 2 1]; FPlain [exObj (9/4) 1 0]].
Definition xR : list infile := [FPlain [exObj (1/8) 2 0; exObj (13/8) 1 1]].
Lemma xC_exact : exactRun xC.
Proof. repeat split; try reflexivity; try discriminate; try apply exB_valid; try apply exB_narrow. Qed.
Ltac rab := repeat match goal with |- context [Rabs ?x] =>
    first [ rewrite (Rabs_left x) by lra | rewrite (Rabs_right x) by lra ] end.
Lemma edge8 j (n : Z) : (n mod 8 <> 0)%Z -> IZR n / 8 <> edge exB j.
Proof.
  intros Hn E. rewrite exB_edge in E.
  assert (E2 : IZR n = IZR (8 * (1 + j))) by (rewrite mult_IZR, plus_IZR; lra).
  apply eq_IZR in E2. rewrite E2, Z.mul_comm, Z_mod_mult in Hn. auto.
Qed.
Lemma edge0 j : (1 <= j)%Z -> 0 <> edge exB j.
Proof. intros Hj E. rewrite exB_edge in E. apply IZR_le in Hj. lra. Qed.
Ltac off8 := match goal with |- ?v <> edge exB ?j =>
  first [ replace v with 0 by lra; apply edge0; lia
        | replace v with (IZR 1 / 8) by lra; apply edge8; vm_compute; discriminate
        | replace v with (IZR 5 / 8) by lra; apply edge8; vm_compute; discriminate
        | replace v with (IZR 6 / 8) by lra; apply edge8; vm_compute; discriminate
        | replace v with (IZR 11 / 8) by lra; apply edge8; vm_compute; discriminate
        | replace v with (IZR 12 / 8) by lra; apply edge8; vm_compute; discriminate
        | replace v with (IZR 13 / 8) by lra; apply edge8; vm_compute; discriminate
        | replace v with (IZR 17 / 8) by lra; apply edge8; vm_compute; discriminate
        | replace v with (IZR 18 / 8) by lra; apply edge8; vm_compute; discriminate ] end.
Lemma xDD_off : offEdges exB euclid (rowsOf xD) (rowsOf xD).
Proof.
  intros _ o1 o2 j Hj H1 H2. simpl in H1, H2.
  destruct H1 as [<-|[<-|[<-|[]]]]; destruct H2 as [<-|[<-|[<-|[]]]]; simpl opos; rewrite euclid_x; rab; off8.
Qed.
Lemma xRR_off : offEdges exB euclid (rowsOf xR) (rowsOf xR).
Proof.
  intros _ o1 o2 j Hj H1 H2. simpl in H1, H2.
  destruct H1 as [<-|[<-|[]]]; destruct H2 as [<-|[<-|[]]]; simpl opos; rewrite euclid_x; rab; off8.
Qed.
Lemma xDR_off : offEdges exB euclid (rowsOf xD) (rowsOf xR).
Proof.
  intros _ o1 o2 j Hj H1 H2. simpl in H1, H2.
  destruct H1 as [<-|[<-|[<-|[]]]]; destruct H2 as [<-|[<-|[]]]; simpl opos; rewrite euclid_x; rab; off8.
Qed.
Lemma xD_min : offMinSep exB euclid (rowsOf xD).
Proof.
  intros o1 o2 H. simpl in H. repeat (destruct H as [H|H]); try contradiction; injection H as <- <-;
    simpl opos; rewrite euclid_x; rab; simpl; lra.
Qed.
Lemma xR_min : offMinSep exB euclid (rowsOf xR).
Proof. intros o1 o2 [H|[]]. injection H as <- <-. simpl opos. rewrite euclid_x. rab. simpl. lra. Qed.
Lemma xD_good : goodFiles xD.
Proof.
  split; [discriminate|]. split.
  - intros f [<-|[<-|[]]]; discriminate.
  - intros o H. simpl in H. destruct H as [<-|[<-|[<-|[]]]]; simpl; lra.
Qed.
Lemma xR_good : goodFiles xR.
Proof.
  split; [discriminate|]. split.
  - intros f [<-|[]]; discriminate.
  - intros o H. simpl in H. destruct H as [<-|[<-|[]]]; simpl; lra.
Qed.
Lemma x_reach : reach xC xD xR.
Proof.
  right. intros a b Ha Hb _. destruct (patchTrivZero _ _ _) eqn:E; auto. exfalso.
  assert (HX : forall o1 o2, In o1 (pobjs a) -> In o2 (pobjs b) -> 3 <= euclid (opos o1) (opos o2)).
  { intros o1 o2 I1 I2. apply (C39_skip_sound_euclid (pR xC) (pobjs a) (pobjs b) o1 o2 eq_refl exB_valid); auto. discriminate. }
  simpl in Hb. destruct Hb as [<-|[]]. simpl in Ha. destruct Ha as [<-|[<-|[]]].
  - specialize (HX _ _ (or_introl eq_refl) (or_introl eq_refl)). simpl opos in HX. rewrite euclid_x in HX.
    revert HX. rab. lra.
  - specialize (HX _ _ (or_introl eq_refl) (or_introl eq_refl)). simpl opos in HX. rewrite euclid_x in HX.
    revert HX. rab. lra.
Qed.
Lemma xD_plain : unpatched xD. Proof. intros f [<-|[<-|[]]]; reflexivity. Qed.
Lemma xR_plain : unpatched xR. Proof. intros f [<-|[]]; reflexivity. Qed.
Ltac bins := unfold sumUPairs, sumPairs, selBin; simpl; rewrite ?euclid_x, ?exB_in by lia; unfold v_one, v_ww; simpl; rab;
  unfold Rleb, Rltb; repeat (destruct Rle_dec; destruct Rlt_dec; try (exfalso; lra); simpl).
(** corr2 writes a file; in bin 0 DD = 2 of 8, RR = 2 of 9/2, DR = 5 of 12: xi = -5/16. *)
Example C91_example : exists o xi, corr2NN xC true xD [] xR [] (Wrote o) /\ o_xi o = Some xi /\
  o_DD o 0%Z = 2 /\ xi 0%Z = -5/16.
Proof.
  destruct (C91_runs xC true xD [] xR []) as [o Ho].
  { apply exB_valid. } { exact (proj1 (proj2 xD_good)). } { intros f []. } { exact (proj1 (proj2 xR_good)). } { intros f []. }
  destruct (C91_writes xC true xD xR o) as [out ->]; auto using xC_exact, xD_good, xR_good, xD_plain, xR_plain,
    xDD_off, xRR_off, xDR_off, xD_min, xR_min, x_reach.
  destruct (C91_auto xC true xD xR out 0) as (A1 & _ & _ & _ & _ & xi & A6 & A7); auto using xC_exact, xD_good, xR_good,
    xDD_off, xRR_off, xDR_off, xD_min, xR_min, x_reach.
  { left. apply xD_plain. } { left. apply xR_plain. } { simpl. lia. }
  exists out, xi. split; auto. split; auto.
  assert (C1 : autoCount (pB xC) 0 (rowsOf xD) = 2) by (unfold autoCount, pB, xC; simpl rP; bins; lra).
  assert (C2 : autoCount (pB xC) 0 (rowsOf xR) = 2) by (unfold autoCount, pB, xC; simpl rP; bins; lra).
  assert (C3 : crossCount (pB xC) 0 (rowsOf xD) (rowsOf xR) = 5) by (unfold crossCount, pB, xC; simpl rP; bins; lra).
  split; [congruence|]. rewrite A7 by lra. unfold autoFrac, crossFrac. rewrite C1, C2, C3.
  unfold totW. simpl. lra.
Qed.

(** Two data files with two patches each (patch_col in both): the numbers of the patches are not
    distinct, and process never pairs the two patches 0.  The pair at separation 3/2 is not counted. *)
Theorem C91_patched_files_refuted : exists C D o, exactRun C /\ goodFiles D /\
  offEdges (pB C) euclid (rowsOf D) (rowsOf D) /\ offMinSep (pB C) euclid (rowsOf D) /\
  corr2NN C true D [] [] [] (Wrote o) /\ o_DD o 0%Z = 0 /\ autoCount (pB C) 0 (rowsOf D) = 1.
Proof.
  set (D := [FPatch [(0%Z, exObj 0 1 0); (1%Z, exObj (401/8) 1 1)]; FPatch [(0%Z, exObj (3/2) 1 0); (1%Z, exObj (803/8) 1 1)]]).
  assert (HE : offEdges exB euclid (rowsOf D) (rowsOf D)).
  { intros _ o1 o2 j Hj H1 H2. simpl in H1, H2. rewrite exB_edge.
    assert (1 <= IZR j <= 2) by (simpl in Hj; split; [apply (IZR_le 1)|apply (IZR_le _ 2)]; lia).
    destruct H1 as [<-|[<-|[<-|[<-|[]]]]]; destruct H2 as [<-|[<-|[<-|[<-|[]]]]]; simpl opos; rewrite euclid_x; rab; lra. }
  assert (HO : offMinSep exB euclid (rowsOf D)).
  { intros o1 o2 H. simpl in H. repeat (destruct H as [H|H]); try contradiction; injection H as <- <-;
      simpl opos; rewrite euclid_x; rab; simpl; lra. }
  assert (HG : goodFiles D).
  { split; [discriminate|]. split; [intros f [<-|[<-|[]]]; discriminate|].
    intros o H. simpl in H. destruct H as [<-|[<-|[<-|[<-|[]]]]]; simpl; lra. }
  destruct (C91_runs xC true D [] [] []) as [o Ho].
  { apply exB_valid. } { exact (proj1 (proj2 HG)). } { intros f []. } { intros f []. } { intros f []. }
  assert (HX := Ho). unfold corr2NN in HX. cbn [readCatalogs flat_map D filePatches] in HX.
  assert (HR : readCatalogs D = [mkcat (Some 0%Z) 2 [exObj 0 1 0]; mkcat (Some 1%Z) 2 [exObj (401/8) 1 1];
     mkcat (Some 0%Z) 2 [exObj (3/2) 1 0]; mkcat (Some 1%Z) 2 [exObj (803/8) 1 1]]) by reflexivity.
  clear HX. unfold corr2NN in Ho. rewrite HR in Ho. cbv zeta in Ho. cbn [readCatalogs flat_map] in Ho.
  destruct Ho as [dd [Hdd Ho]]. assert (Hp := Hdd). unfold procAuto in Hp. cbn [oneUnpatched] in Hp.
  destruct Hp as [st [Hj E]].
  assert (HZ : a_weight (kacc (sself st)) 0%Z = 0).
  { set (cats := number _) in Hj.
    assert (HA : forall p q, In p (allRows cats) -> In q (allRows cats) -> In p (rowsOf D) /\ In q (rowsOf D)).
    { intros p q I1 I2. simpl in *. tauto. }
    change (a_weight (kacc (sself st)) 0%Z) with (aget FWeight (kacc (sself st)) 0).
    rewrite (jobs_get xC FWeight 0 sclear (autoJobs cats) st); auto.
    - simpl. unfold specM, selM; cbn [fst snd]. simpl.
      rewrite !mdist_euclidean. simpl opos. rewrite !euclid_x, !exB_in by lia. rab.
      unfold Rleb, Rltb. repeat (destruct Rle_dec; destruct Rlt_dec; try (exfalso; lra); simpl).
      unfold aconst. lra.
    - apply validB_okB, exB_valid.
    - apply in_bins. simpl. lia.
    - apply autoJobs_exact; auto; try reflexivity; try discriminate; try exact I.
      + apply exB_valid.
      + apply lip_euclid.
      + apply subEuclid_euclid.
      + apply symM_euclid.
      + split; [reflexivity|]. split; [apply exB_narrow|]. eapply offEdges_ext; [|exact HE]. intros; symmetry; apply mdist_euclidean.
      + eapply offMinSep_ext; [|exact HO]. intros; symmetry; apply mdist_euclidean.
      + intros o' H. apply (proj2 (proj2 HG)). exact H.
      + apply skipOK_lip; [apply exB_valid|apply lip_euclid|discriminate]. }
  subst dd. unfold nnWrite in Ho. subst o. eexists xC, D, _.
  split; [apply xC_exact|]. split; [exact HG|]. split; [exact HE|]. split; [exact HO|].
  split; [|split].
  - unfold corr2NN. rewrite HR. cbv zeta. cbn [readCatalogs flat_map].
    exists (mkNN st (npatchOfList (readCatalogs D)) (npatchOfList (readCatalogs D))). rewrite HR. split; [exact Hdd|reflexivity].
  - simpl. exact HZ.
  - unfold autoCount, pB, xC; simpl rP. bins. lra.
Qed.
