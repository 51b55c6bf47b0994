(** C91: the corr2 function, from the input files to the NN output columns. *)
From Coq Require Import Reals Lra Lia List ZArith Bool Permutation Psatz Sorted.
From Verif Require Import Base Geometry Tree Traverse Run Corr Patch Exec2 Spec SpecRun GeomFacts SumFacts TreeFacts
  BinFacts TravFacts Exact MetricFacts Cover Lift Runs Examples Account PropsCount PropsRun PropsCorr PatchFacts
  PropsPatch.
Import ListNotations.
Open Scope R_scope.

(** ** Specification: brute-force weighted pair counts over all rows of all files *)
Definition rowsOf (fs : list infile) : list obj := concat (map fileRows fs).
Definition autoCount (B : bparams) (k : Z) (D : list obj) : R := sumUPairs (selBin B euclid k) v_ww D.
Definition crossCount (B : bparams) (k : Z) (D E : list obj) : R := sumPairs (selBin B euclid k) v_ww D E.
Definition totW (D : list obj) : R := sumR ow D.
(** Normalised counts: divided by the total weight of all pairs. *)
Definition autoFrac B k D : R := autoCount B k D / (totW D * totW D / 2).
Definition crossFrac B k D E : R := crossCount B k D E / (totW D * totW E).

(** Files without patches, or a single file. *)
Definition distinctPatches (fs : list infile) : Prop :=
  (forall f, In f fs -> fileNPatch f = 1%Z) \/ exists f, fs = [f].
Definition goodFiles (fs : list infile) : Prop :=
  fs <> [] /\ (forall f, In f fs -> fileRows f <> []) /\ posW (rowsOf fs).
Definition exactRun (C : pcfg) : Prop :=
  pNN C = true /\ cmetric (rP (pR C)) = Euclidean /\ rcoord (pR C) <> Sphere /\ crpar (rP (pR C)) = None /\
  validB (pB C) /\ slop_b (pB C) = 0 /\ narrowLog (pB C).
(** No pair of patches which process may not leave out (the same patch, or one of the catalogs without
    patches) is completely out of reach. *)
Definition reach (C : pcfg) (f1 f2 : list infile) : Prop :=
  let l1 := readCatalogs f1 in let l2 := readCatalogs f2 in
  (oneUnpatched l1 = true /\ oneUnpatched l2 = true) \/
  noForcedSkip (pR C) (npatchOfList l1) (npatchOfList l2) (number l1) (number l2).

(** ** Reading *)
Lemma number_rows l : forall i, allRows (numberFrom i l) = concat (map crows l).
Proof. unfold allRows. induction l as [|c l IH]; intro i; simpl; auto. rewrite IH. reflexivity. Qed.
Lemma filePatches_rows f : Permutation (concat (map crows (filePatches f))) (fileRows f).
Proof.
  destruct f as [l|r]; unfold filePatches.
  - simpl. rewrite app_nil_r. auto.
  - destruct (_ =? 1)%Z; [simpl; rewrite app_nil_r; auto|].
    rewrite map_map. simpl. destruct (C37_get_patches_partition r) as [_ [P _]]. exact P.
Qed.
Lemma read_rows fs : Permutation (concat (map crows (readCatalogs fs))) (rowsOf fs).
Proof.
  unfold readCatalogs, rowsOf. induction fs as [|f fs IH]; simpl; auto.
  rewrite map_app, concat_app. apply Permutation_app; auto. apply filePatches_rows.
Qed.
Lemma number_read fs : Permutation (allRows (number (readCatalogs fs))) (rowsOf fs).
Proof. unfold number. rewrite number_rows. apply read_rows. Qed.
Lemma flat_read fs : Permutation (flat_map crows (readCatalogs fs)) (rowsOf fs).
Proof. rewrite flat_map_concat_map. apply read_rows. Qed.

Lemma number_plain l : (forall c, In c l -> csingle c = None) -> forall i,
  StronglySorted Z.lt (map pidx (numberFrom i l)) /\ forall j, In j (map pidx (numberFrom i l)) -> (i <= j)%Z.
Proof.
  induction l as [|c l IH]; intros HS i; simpl.
  - split; [constructor|tauto].
  - rewrite (HS c) by (left; auto). destruct (IH (fun c H => HS c (or_intror H)) (i + 1)%Z) as [H1 H2].
    split.
    + constructor; auto. apply Forall_forall. intros j Hj. specialize (H2 j Hj). lia.
    + intros j [<-|Hj]; [lia|]. specialize (H2 j Hj). lia.
Qed.
Lemma number_single l n : forall i,
  map pidx (numberFrom i (map (fun p => mkcat (Some (pidx p)) n (pobjs p)) l)) = map pidx l.
Proof. induction l as [|p l IH]; intro i; simpl; auto. rewrite IH. reflexivity. Qed.
Lemma plain_single f c : fileNPatch f = 1%Z -> In c (filePatches f) -> csingle c = None.
Proof.
  intros HN Hc. destruct f as [l|r].
  - destruct Hc as [<-|[]]; auto.
  - unfold filePatches in Hc. rewrite HN in Hc. simpl in Hc. destruct Hc as [<-|[]]; auto.
Qed.
Lemma distinct_nodup fs : distinctPatches fs -> NoDup (map pidx (number (readCatalogs fs))).
Proof.
  intros [H|[f ->]].
  - apply sorted_NoDup. apply number_plain. intros c Hc. unfold readCatalogs in Hc.
    apply in_flat_map in Hc as [f [Hf Hc]]. eapply plain_single; eauto.
  - unfold readCatalogs. simpl. rewrite app_nil_r.
    destruct (Z.eq_dec (fileNPatch f) 1) as [E|E].
    + apply sorted_NoDup. apply number_plain. intros c Hc. eapply plain_single; eauto.
    + destruct f as [l|r]; [simpl in E; congruence|].
      unfold filePatches. destruct (Z.eqb_spec (fileNPatch (FPatch r)) 1); [congruence|].
      unfold number. rewrite number_single. apply sorted_NoDup.
      destruct (C37_get_patches_partition r) as [P _]. exact P.
Qed.

(** ** One process call *)
Lemma euclid_comm p q : euclid p q = euclid q p.
Proof. unfold euclid. f_equal. ring. Qed.
Lemma sumUPairs_perm sel v l l' : (forall x y, v x y = v y x) -> (forall x y, sel x y = sel y x) ->
  Permutation l l' -> sumUPairs sel v l = sumUPairs sel v l'.
Proof.
  intros Hv Hs HP. unfold sumUPairs. apply sumR_upairs_perm; auto.
  intros x y. cbn [fst snd]. rewrite Hs, Hv. auto.
Qed.
Lemma sumPairs_perm sel v l1 l1' l2 l2' : Permutation l1 l1' -> Permutation l2 l2' ->
  sumPairs sel v l1 l2 = sumPairs sel v l1' l2'.
Proof.
  intros H1 H2. unfold sumPairs. apply sumR_perm. unfold pairs.
  clear sel v. transitivity (list_prod l1' l2).
  - induction H1; simpl; auto.
    + apply Permutation_app; auto.
    + rewrite !app_assoc. apply Permutation_app_tail. apply Permutation_app_comm.
    + etransitivity; eauto.
  - clear H1. induction l1' as [|x l IH]; simpl; auto. apply Permutation_app; auto. apply Permutation_map; auto.
Qed.
Lemma selBin_sym B k x y : selBin B euclid k x y = selBin B euclid k y x.
Proof. unfold selBin. rewrite euclid_comm. reflexivity. Qed.
Lemma sumw_perm l l' : Permutation l l' -> sumw l = totW l'.
Proof. intro H. unfold sumw, totW. apply sumR_perm; auto. Qed.
Lemma posW_perm l l' : Permutation l l' -> posW l' -> posW l.
Proof. intros HP H o Ho. apply H. eapply Permutation_in; eauto. Qed.
Lemma offEdges_perm B l1 l1' l2 l2' : Permutation l1 l1' -> Permutation l2 l2' ->
  offEdges B euclid l1' l2' -> offEdges B euclid l1 l2.
Proof. intros P1 P2 H HL o1 o2 j Hj I1 I2. apply H; auto; eapply Permutation_in; eauto. Qed.
Lemma offMinSep_perm B l l' : Permutation l l' -> offMinSep B euclid l' -> offMinSep B euclid l.
Proof.
  intros HP H o1 o2 Hin. destruct (in_upairs_perm l l' o1 o2) as [?|?]; auto. rewrite euclid_comm. auto.
Qed.

Lemma procAuto_spec C fs r k : exactRun C -> distinctPatches fs -> posW (rowsOf fs) ->
  offEdges (pB C) euclid (rowsOf fs) (rowsOf fs) -> offMinSep (pB C) euclid (rowsOf fs) ->
  (0 <= k < nbins (pB C))%Z -> procAuto C (readCatalogs fs) r ->
  a_weight (kacc (ncorr r)) k = autoCount (pB C) k (rowsOf fs) /\
  a_npairs (kacc (ncorr r)) k = sumUPairs (selBin (pB C) euclid k) v_one (rowsOf fs) /\
  ktot (ncorr r) = totW (rowsOf fs) * totW (rowsOf fs) / 2.
Proof.
  intros (HNN & HM & HS & Hr & HB & Hb & HN) HD HW HE HO Hk H. unfold procAuto in H.
  destruct (oneUnpatched _).
  - destruct H as [temp [[t [Ht ->]] ->]]. unfold ncorr; cbn [nst sself kacc ktot].
    pose proof (flat_read fs) as P.
    destruct (C02_auto_exact (pR C) (flat_map crows (readCatalogs fs)) cleared t k) as [A1 [A2 _]]; auto.
    { eapply offEdges_perm; eauto. } { eapply offMinSep_perm; eauto. } { eapply posW_perm; eauto. }
    rewrite A1, A2, HNN. unfold cleared, aconst; simpl a_weight; simpl a_npairs.
    rewrite (sumw_perm _ _ P).
    unfold autoCount.
    rewrite (sumUPairs_perm _ v_ww _ _ ltac:(intros; unfold v_ww; ring) (selBin_sym _ k) P).
    rewrite (sumUPairs_perm _ v_one _ _ ltac:(intros; unfold v_one; ring) (selBin_sym _ k) P).
    unfold pB. repeat split; try ring. lra.
  - destruct H as [st [Hj ->]]. unfold ncorr; cbn [nst].
    pose proof (number_read fs) as P.
    pose proof (distinct_nodup fs HD) as HND.
    destruct (C18_auto_patches C (number (readCatalogs fs)) sclear st k) as [A1 [A2 _]]; auto.
    { eapply offEdges_perm; eauto. } { eapply offMinSep_perm; eauto. } { eapply posW_perm; eauto. }
    rewrite A1, A2, (C19_auto_patches C (number (readCatalogs fs)) sclear st HNN HND Hj).
    unfold sclear, kclear, cleared, aconst; simpl a_weight; simpl a_npairs. cbn [sself ktot].
    rewrite (sumw_perm _ _ P).
    unfold autoCount.
    rewrite (sumUPairs_perm _ v_ww _ _ ltac:(intros; unfold v_ww; ring) (selBin_sym _ k) P).
    rewrite (sumUPairs_perm _ v_one _ _ ltac:(intros; unfold v_one; ring) (selBin_sym _ k) P).
    unfold pB. repeat split; try ring.
Qed.
Lemma procCross_spec C f1 f2 r k : exactRun C -> posW (rowsOf f1) -> posW (rowsOf f2) ->
  offEdges (pB C) euclid (rowsOf f1) (rowsOf f2) -> reach C f1 f2 ->
  (0 <= k < nbins (pB C))%Z -> procCross C (readCatalogs f1) (readCatalogs f2) (Some r) ->
  a_weight (kacc (ncorr r)) k = crossCount (pB C) k (rowsOf f1) (rowsOf f2) /\
  a_npairs (kacc (ncorr r)) k = sumPairs (selBin (pB C) euclid k) v_one (rowsOf f1) (rowsOf f2) /\
  ktot (ncorr r) = totW (rowsOf f1) * totW (rowsOf f2).
Proof.
  intros (HNN & HM & HS & Hr & HB & Hb & HN) W1 W2 HE HR Hk H. unfold procCross in H. unfold reach in HR.
  destruct (oneUnpatched (readCatalogs f1) && oneUnpatched (readCatalogs f2)) eqn:E.
  - destruct H as [t [Ht E1]]. injection E1 as ->. unfold ncorr; cbn [nst sself kacc ktot].
    pose proof (flat_read f1) as P1. pose proof (flat_read f2) as P2.
    destruct (C01_cross_exact (pR C) (flat_map crows (readCatalogs f1)) (flat_map crows (readCatalogs f2)) cleared t k)
      as [A1 [A2 _]]; auto.
    { eapply offEdges_perm; eauto. } { eapply posW_perm; eauto. } { eapply posW_perm; eauto. }
    rewrite A1, A2. unfold cleared, aconst; simpl a_weight; simpl a_npairs.
    rewrite (sumw_perm _ _ P1), (sumw_perm _ _ P2).
    unfold crossCount. rewrite !(sumPairs_perm _ _ _ _ _ _ P1 P2).
    unfold pB. repeat split; try ring.
  - destruct HR as [[E1 E2]|HR]; [rewrite E1, E2 in E; discriminate|].
    destruct (_ && _) in H; [discriminate|].
    destruct H as [st [Hj E1]]. injection E1 as ->. unfold ncorr; cbn [nst].
    pose proof (number_read f1) as P1. pose proof (number_read f2) as P2.
    destruct (C18_cross_patches C (npatchOfList (readCatalogs f1)) (npatchOfList (readCatalogs f2))
      (number (readCatalogs f1)) (number (readCatalogs f2)) sclear st k) as [A1 [A2 _]]; auto.
    { eapply offEdges_perm; eauto. } { eapply posW_perm; eauto. } { eapply posW_perm; eauto. }
    rewrite A1, A2, (C19_cross_patches C _ _ _ _ sclear st HNN HR Hj).
    unfold sclear, kclear, cleared, aconst; simpl a_weight; simpl a_npairs. cbn [sself ktot].
    rewrite (sumw_perm _ _ P1), (sumw_perm _ _ P2).
    unfold crossCount. rewrite !(sumPairs_perm _ _ _ _ _ _ P1 P2).
    unfold pB. repeat split; try ring.
Qed.

(** ** The driver *)
Lemma sumR_ow_pos l : l <> [] -> posW l -> 0 < totW l.
Proof.
  intros HN HW. unfold totW. destruct l as [|o l]; [congruence|]. simpl.
  assert (0 < ow o) by (apply HW; left; auto).
  assert (0 <= sumR ow l).
  { assert (HL : forall x, In x l -> 0 < ow x) by (intros x Hx; apply HW; right; auto). clear HW HN.
    induction l as [|x l IH]; simpl; [lra|].
    assert (0 < ow x) by (apply HL; left; auto). assert (0 <= sumR ow l) by (apply IH; intros; apply HL; right; auto). lra. }
  lra.
Qed.
Lemma good_nonempty fs : goodFiles fs -> readCatalogs fs <> [] /\ 0 < totW (rowsOf fs).
Proof.
  intros [H1 [H2 H3]]. destruct fs as [|f fs]; [congruence|].
  assert (HR : rowsOf (f :: fs) <> []).
  { unfold rowsOf; simpl. specialize (H2 f (or_introl eq_refl)). destruct (fileRows f); [congruence|discriminate]. }
  split; [|apply sumR_ow_pos; auto].
  intro E. pose proof (read_rows (f :: fs)) as P. rewrite E in P. simpl in P.
  apply Permutation_nil in P. auto.
Qed.
Lemma calcXi_cases dd rr dr rd xi k : calculateXi dd rr dr rd = Some xi -> ktot dd <> 0 ->
  a_weight (kacc rr) k <> 0 ->
  let n c := a_weight (kacc c) k / ktot c in
  xi k = match dr, rd with
         | None, None => n dd / n rr - 1
         | Some c, None | None, Some c => (n dd - 2 * n c + n rr) / n rr
         | Some c, Some d => (n dd - n c - n d + n rr) / n rr
         end.
Proof.
  intros H HD HW. unfold calculateXi in H. cbv zeta. unfold Reqb in H.
  destruct (Req_EM_T (ktot rr) 0); [discriminate|].
  destruct dr as [a|], rd as [b|]; repeat (destruct Req_EM_T in H; [discriminate|]); simpl in H;
    injection H as <-; (destruct Req_EM_T; [congruence|]); field; auto.
Qed.

(** Auto-correlation with randoms. *)
Theorem C91_auto C comp D Rn o k :
  let B := pB C in let d := rowsOf D in let r := rowsOf Rn in
  exactRun C -> goodFiles D -> goodFiles Rn -> distinctPatches D -> distinctPatches Rn ->
  offEdges B euclid d d -> offEdges B euclid r r -> offEdges B euclid d r ->
  offMinSep B euclid d -> offMinSep B euclid r ->
  (comp = true -> reach C D Rn) -> (0 <= k < nbins B)%Z ->
  corr2NN C comp D [] Rn [] (Wrote o) ->
  o_DD o k = autoCount B k d /\ o_npairs o k = sumUPairs (selBin B euclid k) v_one d /\
  (exists c, o_RR o = Some c /\ c k = autoFrac B k r * (totW d * totW d / 2)) /\
  (if comp then exists c, o_DR o = Some c /\ c k = crossFrac B k d r * (totW d * totW d / 2) else o_DR o = None) /\
  o_RD o = None /\
  exists xi, o_xi o = Some xi /\
    (autoCount B k r <> 0 ->
     xi k = (autoFrac B k d - (if comp then 2 * crossFrac B k d r - autoFrac B k r else autoFrac B k r))
            / autoFrac B k r).
Proof.
  intros B d r HC GD GR DD DR E1 E2 E3 O1 O2 HR Hk H.
  destruct (good_nonempty D GD) as [ND WD]. destruct (good_nonempty Rn GR) as [NR WR].
  destruct GD as [_ [_ PD]]. destruct GR as [_ [_ PR]].
  assert (WD' : 0 < totW d) by exact WD. assert (WR' : 0 < totW r) by exact WR.
  assert (HDD : totW d * totW d / 2 <> 0) by (unfold d; nra).
  assert (HRR : totW r * totW r / 2 <> 0) by (unfold r; nra).
  assert (HDR : totW d * totW r <> 0) by (unfold r, d; nra).
  unfold corr2NN in H. cbv zeta in H.
  destruct (readCatalogs D) as [|c0 l0] eqn:ED; [congruence|]. simpl (readCatalogs []) in H. cbv iota in H.
  rewrite <- ED in H. destruct (readCatalogs Rn) as [|c1 l1] eqn:ER; [congruence|]. rewrite <- ER in H.
  destruct H as [dd [Hdd [rr [Hrr H]]]].
  destruct (procAuto_spec C D dd k HC DD PD E1 O1 Hk Hdd) as [X1 [X2 X3]].
  destruct (procAuto_spec C Rn rr k HC DR PR E2 O2 Hk Hrr) as [Y1 [Y2 Y3]].
  fold d in X1, X2, X3. fold r in Y1, Y2, Y3. fold B in X1, X2, Y1, Y2.
  destruct comp.
  - destruct H as [[dr|] [Hdr H]]; [|discriminate].
    destruct (procCross_spec C D Rn dr k HC PD PR E3 (HR eq_refl) Hk Hdr) as [Z1 [Z2 Z3]].
    fold d r B in Z1, Z2, Z3.
    unfold nnWrite in H. destruct calculateXi as [xi|] eqn:EX in H; [|discriminate].
    destruct (patchesDiffer _ _ _ _); [discriminate|]. injection H as ->. simpl.
    assert (HX := fun h => calcXi_cases _ _ _ _ xi k EX h). rewrite X3 in HX. specialize (HX HDD).
    simpl option_map in HX. cbv beta iota zeta in HX. rewrite Y1 in HX.
    rewrite X1, Z1, X3, Y3, Z3 in HX. rewrite X1, X2, X3.
    split; auto. split; auto. split.
    { eexists; split; [reflexivity|]. cbv beta. rewrite Y1, Y3. unfold autoFrac. field; repeat split; auto; lra. }
    split.
    { eexists; split; [reflexivity|]. cbv beta. rewrite Z1, Z3. unfold crossFrac. field; repeat split; auto; lra. }
    split; auto. exists xi. split; auto. intro h. rewrite (HX h). unfold autoFrac, crossFrac.
    f_equal. ring.
  - unfold nnWrite in H. destruct calculateXi as [xi|] eqn:EX in H; [|discriminate].
    destruct (patchesDiffer _ _ _ _); [discriminate|]. injection H as ->. simpl.
    assert (HX := fun h => calcXi_cases _ _ _ _ xi k EX h). rewrite X3 in HX. specialize (HX HDD).
    simpl option_map in HX. cbv beta iota zeta in HX. rewrite Y1 in HX.
    rewrite X1, X3, Y3 in HX. rewrite X1, X2, X3.
    split; auto. split; auto. split.
    { eexists; split; [reflexivity|]. cbv beta. rewrite Y1, Y3. unfold autoFrac. field; repeat split; auto; lra. }
    split; auto. split; auto. exists xi. split; auto. intro h. rewrite (HX h). unfold autoFrac, crossFrac.
    field. repeat split; auto; lra.
Qed.
(** Cross-correlation with randoms for both catalogs. *)
Theorem C91_cross C comp D1 D2 R1 R2 o k :
  let B := pB C in let d1 := rowsOf D1 in let d2 := rowsOf D2 in let r1 := rowsOf R1 in let r2 := rowsOf R2 in
  exactRun C -> goodFiles D1 -> goodFiles D2 -> goodFiles R1 -> goodFiles R2 ->
  offEdges B euclid d1 d2 -> offEdges B euclid r1 r2 -> offEdges B euclid d1 r2 -> offEdges B euclid r1 d2 ->
  reach C D1 D2 -> reach C R1 R2 -> (comp = true -> reach C D1 R2 /\ reach C R1 D2) ->
  (0 <= k < nbins B)%Z ->
  corr2NN C comp D1 D2 R1 R2 (Wrote o) ->
  o_DD o k = crossCount B k d1 d2 /\ o_npairs o k = sumPairs (selBin B euclid k) v_one d1 d2 /\
  (exists c, o_RR o = Some c /\ c k = crossFrac B k r1 r2 * (totW d1 * totW d2)) /\
  (if comp then
     (exists c, o_DR o = Some c /\ c k = crossFrac B k d1 r2 * (totW d1 * totW d2)) /\
     (exists c, o_RD o = Some c /\ c k = crossFrac B k r1 d2 * (totW d1 * totW d2))
   else o_DR o = None /\ o_RD o = None) /\
  exists xi, o_xi o = Some xi /\
    (crossCount B k r1 r2 <> 0 ->
     xi k = (if comp then crossFrac B k d1 d2 - crossFrac B k d1 r2 - crossFrac B k r1 d2 + crossFrac B k r1 r2
             else crossFrac B k d1 d2 - crossFrac B k r1 r2) / crossFrac B k r1 r2).
Proof.
  intros B d1 d2 r1 r2 HC G1 G2 G3 G4 E1 E2 E3 E4 HR1 HR2 HR Hk H.
  destruct (good_nonempty D1 G1) as [N1 W1]. destruct (good_nonempty D2 G2) as [N2 W2].
  destruct (good_nonempty R1 G3) as [N3 W3]. destruct (good_nonempty R2 G4) as [N4 W4].
  destruct G1 as [_ [_ P1]]. destruct G2 as [_ [_ P2]]. destruct G3 as [_ [_ P3]]. destruct G4 as [_ [_ P4]].
  assert (W1' : 0 < totW d1) by exact W1. assert (W2' : 0 < totW d2) by exact W2.
  assert (W3' : 0 < totW r1) by exact W3. assert (W4' : 0 < totW r2) by exact W4.
  assert (HDD : totW d1 * totW d2 <> 0) by (unfold d1, d2; nra).
  assert (HRR : totW r1 * totW r2 <> 0) by (unfold r1, r2; nra).
  assert (HDR : totW d1 * totW r2 <> 0) by (unfold d1, r2; nra).
  assert (HRD : totW r1 * totW d2 <> 0) by (unfold r1, d2; nra).
  unfold corr2NN in H. cbv zeta in H.
  destruct (readCatalogs D1) as [|c0 l0] eqn:EA; [congruence|]. rewrite <- EA in H.
  destruct (readCatalogs D2) as [|c1 l1] eqn:EB; [congruence|]. cbv iota in H. rewrite <- EB in H.
  destruct H as [[dd|] [Hdd H]]; [|discriminate].
  destruct (readCatalogs R1) as [|c2 l2] eqn:EC; [congruence|]. rewrite <- EC in H.
  destruct (readCatalogs R2) as [|c3 l3] eqn:EE; [congruence|]. rewrite <- EE in H.
  destruct H as [[rr|] [Hrr H]]; [|discriminate].
  destruct (procCross_spec C D1 D2 dd k HC P1 P2 E1 HR1 Hk Hdd) as [X1 [X2 X3]].
  destruct (procCross_spec C R1 R2 rr k HC P3 P4 E2 HR2 Hk Hrr) as [Y1 [Y2 Y3]].
  fold d1 d2 B in X1, X2, X3. fold r1 r2 B in Y1, Y2, Y3.
  destruct comp.
  - destruct (HR eq_refl) as [HR3 HR4].
    destruct H as [[dr|] [Hdr H]]; [|discriminate]. destruct H as [[rd|] [Hrd H]]; [|discriminate].
    destruct (procCross_spec C D1 R2 dr k HC P1 P4 E3 HR3 Hk Hdr) as [Z1 [Z2 Z3]].
    destruct (procCross_spec C R1 D2 rd k HC P3 P2 E4 HR4 Hk Hrd) as [V1 [V2 V3]].
    fold d1 r2 B in Z1, Z2, Z3. fold r1 d2 B in V1, V2, V3.
    unfold nnWrite in H. destruct calculateXi as [xi|] eqn:EX in H; [|discriminate].
    destruct (patchesDiffer _ _ _ _); [discriminate|]. injection H as ->. simpl.
    assert (HX := fun h => calcXi_cases _ _ _ _ xi k EX h). rewrite X3 in HX. specialize (HX HDD).
    simpl option_map in HX. cbv beta iota zeta in HX. rewrite Y1 in HX.
    rewrite X1, Z1, V1, X3, Y3, Z3, V3 in HX. rewrite X1, X2, X3.
    split; auto. split; auto. split.
    { eexists; split; [reflexivity|]. cbv beta. rewrite Y1, Y3. unfold crossFrac. field; repeat split; auto; lra. }
    split; [split|].
    { eexists; split; [reflexivity|]. cbv beta. rewrite Z1, Z3. unfold crossFrac. field; repeat split; auto; lra. }
    { eexists; split; [reflexivity|]. cbv beta. rewrite V1, V3. unfold crossFrac. field; repeat split; auto; lra. }
    exists xi. split; auto.
  - unfold nnWrite in H. destruct calculateXi as [xi|] eqn:EX in H; [|discriminate].
    destruct (patchesDiffer _ _ _ _); [discriminate|]. injection H as ->. simpl.
    assert (HX := fun h => calcXi_cases _ _ _ _ xi k EX h). rewrite X3 in HX. specialize (HX HDD).
    simpl option_map in HX. cbv beta iota zeta in HX. rewrite Y1 in HX.
    rewrite X1, X3, Y3 in HX. rewrite X1, X2, X3.
    split; auto. split; auto. split.
    { eexists; split; [reflexivity|]. cbv beta. rewrite Y1, Y3. unfold crossFrac. field; repeat split; auto; lra. }
    split; auto. exists xi. split; auto. intro h. rewrite (HX h). unfold crossFrac.
    field. repeat split; auto; lra.
Qed.
(** Without randoms only the pair counts are written. *)
Theorem C91_no_randoms C comp D1 D2 R2 o k :
  let B := pB C in let d1 := rowsOf D1 in let d2 := rowsOf D2 in
  exactRun C -> goodFiles D1 -> posW d2 ->
  (D2 = [] /\ distinctPatches D1 /\ offEdges B euclid d1 d1 /\ offMinSep B euclid d1) \/
  (goodFiles D2 /\ offEdges B euclid d1 d2 /\ reach C D1 D2) ->
  (0 <= k < nbins B)%Z ->
  corr2NN C comp D1 D2 [] R2 (Wrote o) ->
  o_xi o = None /\ o_RR o = None /\ o_DR o = None /\ o_RD o = None /\
  o_DD o k = (if D2 then autoCount B k d1 else crossCount B k d1 d2).
Proof.
  intros B d1 d2 HC G1 P2 HX Hk H.
  destruct (good_nonempty D1 G1) as [N1 W1]. destruct G1 as [_ [_ P1]].
  unfold corr2NN in H. cbv zeta in H.
  destruct (readCatalogs D1) as [|c0 l0] eqn:EA; [congruence|]. rewrite <- EA in H.
  destruct HX as [[-> [DD [E1 O1]]]|[G2 [E1 HR]]].
  - simpl (readCatalogs []) in H. destruct (readCatalogs R2); [|discriminate].
    destruct H as [dd [Hdd H]]. unfold nnWrite in H. injection H as ->. simpl.
    destruct (procAuto_spec C D1 dd k HC DD P1 E1 O1 Hk Hdd) as [X1 _]. auto.
  - destruct (good_nonempty D2 G2) as [N2 W2].
    destruct D2 as [|f D2]; [destruct G2; congruence|]. set (D := f :: D2) in *.
    destruct (readCatalogs D) as [|c1 l1] eqn:EB; [congruence|]. cbv iota in H. rewrite <- EB in H.
    destruct H as [[dd|] [Hdd H]]; [|discriminate]. simpl (readCatalogs []) in H. cbv iota in H.
    unfold nnWrite in H. injection H as ->. simpl.
    destruct (procCross_spec C D1 D dd k HC P1 P2 E1 HR Hk Hdd) as [X1 _]. auto.
Qed.

(** ** Which outcome *)
Definition hasRows (fs : list infile) : Prop := forall f, In f fs -> fileRows f <> [].
Lemma filePatches_rows_ne f c : fileRows f <> [] -> In c (filePatches f) -> crows c <> [].
Proof.
  intros HN Hc. destruct f as [l|r].
  - destruct Hc as [<-|[]]; auto.
  - unfold filePatches in Hc. destruct (_ =? 1)%Z; [destruct Hc as [<-|[]]; auto|].
    apply in_map_iff in Hc as [p [<- Hp]]. simpl.
    destruct (C37_get_patches_partition r) as [_ [_ [P _]]]. destruct (P p Hp); auto.
Qed.
Lemma read_ne fs : hasRows fs -> (readCatalogs fs = [] <-> fs = []).
Proof.
  intro H. split; [|intros ->; auto]. intro E. destruct fs as [|f fs]; auto. exfalso.
  pose proof (read_rows (f :: fs)) as P. rewrite E in P. simpl in P. apply Permutation_nil in P.
  unfold rowsOf in P; simpl in P. specialize (H f (or_introl eq_refl)). destruct (fileRows f); [auto|discriminate].
Qed.
Lemma number_rows_ne fs p : hasRows fs -> In p (number (readCatalogs fs)) -> pobjs p <> [].
Proof.
  intros HR Hp.
  assert (HX : forall l i, In p (numberFrom i l) -> exists c, In c l /\ pobjs p = crows c).
  { induction l as [|c l IH]; intros i; simpl; [tauto|]. intros [<-|H]; [exists c; auto|].
    destruct (IH _ H) as [c' [A B]]. exists c'; auto. }
  destruct (HX _ _ Hp) as [c [Hc ->]]. unfold readCatalogs in Hc. apply in_flat_map in Hc as [f [Hf Hc]].
  eapply filePatches_rows_ne; eauto.
Qed.
Lemma flat_ne fs : hasRows fs -> fs <> [] -> flat_map crows (readCatalogs fs) <> [].
Proof.
  intros H HN E. pose proof (flat_read fs) as P. rewrite E in P. apply Permutation_nil in P.
  destruct fs as [|f fs]; auto. unfold rowsOf in P; simpl in P.
  specialize (H f (or_introl eq_refl)). destruct (fileRows f); [auto|discriminate].
Qed.
Lemma procAuto_exists C fs : validB (pB C) -> hasRows fs -> fs <> [] -> exists r, procAuto C (readCatalogs fs) r.
Proof.
  intros HB HR HN. unfold procAuto. destruct (oneUnpatched _).
  - destruct (runAuto_exists (pR C) (flat_map crows (readCatalogs fs)) cleared HB) as [t Ht];
      [apply flat_ne; auto|].
    eexists; eexists; split; [exists t; split; [exact Ht|reflexivity]|reflexivity].
  - destruct (jobs_exist C sclear (autoJobs (number (readCatalogs fs))) HB) as [st Hst].
    + apply Forall_forall. intros J HJ. apply in_autoJobs in HJ as [[a [Ha ->]]|[a [b [Ha [Hb [_ ->]]]]]]; simpl.
      * eapply number_rows_ne; eauto.
      * split; eapply number_rows_ne; eauto.
    + eexists; exists st; eauto.
Qed.
Lemma procCross_exists C f1 f2 : validB (pB C) -> hasRows f1 -> hasRows f2 -> f1 <> [] -> f2 <> [] ->
  exists r, procCross C (readCatalogs f1) (readCatalogs f2) r.
Proof.
  intros HB H1 H2 N1 N2. unfold procCross. destruct (oneUnpatched _ && _).
  - destruct (runCross_exists (pR C) (flat_map crows (readCatalogs f1)) (flat_map crows (readCatalogs f2)) cleared HB)
      as [t Ht]; try (apply flat_ne; auto).
    eexists; exists t; eauto.
  - cbv zeta. destruct (_ && _); [eexists; reflexivity|].
    destruct (jobs_exist C sclear (crossJobs (npatchOfList (readCatalogs f1)) (npatchOfList (readCatalogs f2))
      (number (readCatalogs f1)) (number (readCatalogs f2))) HB) as [st Hst].
    + apply Forall_forall. intros J HJ. apply in_crossJobs in HJ as [a [b [Ha [Hb ->]]]]; simpl.
      split; [apply (number_rows_ne f1)|apply (number_rows_ne f2)]; auto.
    + eexists; exists st; eauto.
Qed.
(** corr2 always ends with some outcome. *)
Theorem C91_runs C comp D1 D2 R1 R2 : validB (pB C) -> hasRows D1 -> hasRows D2 -> hasRows R1 -> hasRows R2 ->
  exists o, corr2NN C comp D1 D2 R1 R2 o.
Proof.
  intros HB H1 H2 H3 H4.
  assert (HA : forall fs next, hasRows fs -> readCatalogs fs <> [] -> (forall r, exists o, next r o) ->
    exists o, auto_then C (readCatalogs fs) next o).
  { intros fs next HR HN Hx. destruct (procAuto_exists C fs HB HR) as [r Hr]; [rewrite <- (read_ne fs HR); auto|].
    destruct (Hx r) as [o Ho]. exists o, r. auto. }
  assert (HX : forall fs gs next, hasRows fs -> hasRows gs -> readCatalogs fs <> [] -> readCatalogs gs <> [] ->
    (forall r, exists o, next r o) -> exists o, cross_then C (readCatalogs fs) (readCatalogs gs) next o).
  { intros fs gs next HR HG HN HM Hx.
    destruct (procCross_exists C fs gs HB HR HG) as [r Hr];
      [rewrite <- (read_ne fs HR); auto|rewrite <- (read_ne gs HG); auto|].
    destruct r as [r|]; [destruct (Hx r) as [o Ho]; exists o, (Some r); auto|exists RuntimeErr, None; auto]. }
  unfold corr2NN. cbv zeta.
  destruct (readCatalogs D1) as [|c0 l0] eqn:EA; [eauto|]. rewrite <- EA.
  assert (NA : readCatalogs D1 <> []) by (rewrite EA; discriminate). clear EA.
  destruct (readCatalogs D2) as [|c1 l1] eqn:EB.
  - destruct (readCatalogs R2) as [|c2 l2] eqn:EC; [|eauto].
    apply HA; auto. intro dd. destruct (readCatalogs R1) as [|c3 l3] eqn:EE; [eauto|]. rewrite <- EE.
    assert (NE : readCatalogs R1 <> []) by (rewrite EE; discriminate). clear EE.
    apply HA; auto. intro rr. destruct comp; [|eauto]. apply HX; eauto.
  - rewrite <- EB. assert (NB : readCatalogs D2 <> []) by (rewrite EB; discriminate). clear EB.
    apply HX; auto. intro dd. destruct (readCatalogs R1) as [|c3 l3] eqn:EE; [eauto|]. rewrite <- EE.
    assert (NE : readCatalogs R1 <> []) by (rewrite EE; discriminate). clear EE.
    destruct (readCatalogs R2) as [|c2 l2] eqn:EC; [eauto|]. rewrite <- EC.
    assert (NC : readCatalogs R2 <> []) by (rewrite EC; discriminate). clear EC.
    apply HX; auto. intro rr. destruct comp; [|eauto]. apply HX; auto. intro dr. apply HX; eauto.
Qed.
(** The TypeErrors: exactly the three documented combinations of missing files. *)
Definition missingFiles (D1 D2 R1 R2 : list infile) : Prop :=
  D1 = [] \/ (D2 = [] /\ R2 <> []) \/ (D2 <> [] /\ R1 <> [] /\ R2 = []).
Lemma nnWrite_not_type dd rr dr rd : rr <> None \/ (dr = None /\ rd = None) -> nnWrite dd rr dr rd <> TypeErr.
Proof.
  intros H E. unfold nnWrite in E. destruct rr as [rr|].
  - destruct calculateXi; [|discriminate]. destruct patchesDiffer; discriminate.
  - destruct H as [H|[-> ->]]; [congruence|discriminate].
Qed.
Lemma nnWrite_some dd rr dr rd : nnWrite dd (Some rr) dr rd <> TypeErr.
Proof. apply nnWrite_not_type. left. discriminate. Qed.
Theorem C91_type_error C comp D1 D2 R1 R2 o :
  hasRows D1 -> hasRows D2 -> hasRows R1 -> hasRows R2 -> corr2NN C comp D1 D2 R1 R2 o ->
  (o = TypeErr -> missingFiles D1 D2 R1 R2) /\
  (missingFiles D1 D2 R1 R2 -> o = TypeErr \/ o = RuntimeErr).
Proof.
  intros H1 H2 H3 H4 H.
  pose proof (read_ne D1 H1) as Q1. pose proof (read_ne D2 H2) as Q2.
  pose proof (read_ne R1 H3) as Q3. pose proof (read_ne R2 H4) as Q4.
  unfold corr2NN in H. cbv zeta in H. unfold missingFiles.
  destruct (readCatalogs D1) as [|c0 l0].
  { split; [intros _; left; apply Q1; auto|auto]. }
  assert (D1 <> []) by (intro E; apply Q1 in E; discriminate).
  destruct (readCatalogs D2) as [|c1 l1].
  { assert (D2 = []) by (apply Q2; auto).
    destruct (readCatalogs R2) as [|c2 l2].
    - assert (R2 = []) by (apply Q4; auto).
      split; [|intuition congruence]. intros ->. exfalso.
      destruct H as [dd [_ H]]. destruct (readCatalogs R1); [discriminate|].
      destruct H as [rr [_ H]].
      assert (HT := fun dr => nnWrite_some dd rr dr None).
      destruct comp.
      + destruct H as [[dr|] [_ H]]; [symmetry in H; apply HT in H; auto|discriminate].
      + symmetry in H; apply HT in H; auto.
    - split; auto. intros _. right; left. split; auto. intro E. apply Q4 in E. discriminate. }
  assert (D2 <> []) by (intro E; apply Q2 in E; discriminate).
  destruct H as [[dd|] [_ H]]; [|split; [intros ->; discriminate|auto]].
  destruct (readCatalogs R1) as [|c3 l3].
  { assert (R1 = []) by (apply Q3; auto). split; [intros ->; discriminate|intuition congruence]. }
  assert (R1 <> []) by (intro E; apply Q3 in E; discriminate).
  destruct (readCatalogs R2) as [|c2 l2].
  { assert (R2 = []) by (apply Q4; auto). split; auto. }
  assert (R2 <> []) by (intro E; apply Q4 in E; discriminate).
  split; [|intuition congruence]. intros ->. exfalso.
  destruct H as [[rr|] [_ H]]; [|discriminate].
  assert (HT := fun dr rd => nnWrite_some dd rr dr rd).
  destruct comp.
  - destruct H as [[dr|] [_ H]]; [|discriminate]. destruct H as [[rd|] [_ H]]; [|discriminate].
    symmetry in H; apply HT in H; auto.
  - symmetry in H; apply HT in H; auto.
Qed.

(** Without file_name, or with rand_file_name2 but not file_name2, nothing is processed and the exception is a TypeError. *)
Theorem C91_missing_input C comp D1 D2 R1 R2 o : hasRows D1 -> hasRows D2 -> hasRows R2 ->
  D1 = [] \/ (D2 = [] /\ R2 <> []) -> corr2NN C comp D1 D2 R1 R2 o -> o = TypeErr.
Proof.
  intros H1 H2 H4 HM H. pose proof (read_ne D2 H2) as Q2. pose proof (read_ne R2 H4) as Q4.
  unfold corr2NN in H. cbv zeta in H. destruct HM as [-> |[-> N]]; [exact H|].
  simpl (readCatalogs []) in H. destruct (readCatalogs D1); [exact H|].
  destruct (readCatalogs R2) as [|cr lr] eqn:E; [exfalso; apply N; apply Q4; auto|exact H].
Qed.

(** Files without patches: several data files and several random files must be equally many. *)
Definition unpatched (fs : list infile) : Prop := forall f, In f fs -> fileNPatch f = 1%Z.
Lemma read_unpatched fs : unpatched fs -> readCatalogs fs = map (fun f => mkcat None 1 (fileRows f)) fs.
Proof.
  unfold readCatalogs. induction fs as [|f fs IH]; intro H; simpl; auto.
  rewrite IH by (intros g Hg; apply H; right; auto).
  assert (E := H f (or_introl eq_refl)). destruct f as [l|r]; auto.
  unfold filePatches. rewrite E. simpl. reflexivity.
Qed.
Lemma npatch_unpatched fs : unpatched fs -> npatchOfList (readCatalogs fs) = Z.of_nat (length fs).
Proof. intro H. rewrite read_unpatched; auto. destruct fs; simpl; auto. rewrite map_length. auto. Qed.
Lemma one_unpatched fs : unpatched fs -> oneUnpatched (readCatalogs fs) = (length fs =? 1)%nat.
Proof. intro H. rewrite read_unpatched; auto. destruct fs as [|f [|g fs]]; reflexivity. Qed.
Theorem C91_numbers_differ C D Rn o : unpatched D -> unpatched Rn ->
  (1 < length D)%nat -> (1 < length Rn)%nat -> length D <> length Rn ->
  corr2NN C true D [] Rn [] o -> o = RuntimeErr.
Proof.
  intros U1 U2 L1 L2 HN H. unfold corr2NN in H. cbv zeta in H.
  assert (N1 : readCatalogs D <> []) by (rewrite read_unpatched; auto; destruct D; simpl in *; [lia|discriminate]).
  assert (N2 : readCatalogs Rn <> []) by (rewrite read_unpatched; auto; destruct Rn; simpl in *; [lia|discriminate]).
  destruct (readCatalogs D) as [|c0 l0] eqn:ED; [congruence|]. simpl (readCatalogs []) in H. cbv iota in H.
  rewrite <- ED in H. destruct (readCatalogs Rn) as [|c1 l1] eqn:ER; [congruence|]. rewrite <- ER in H.
  destruct H as [dd [_ [rr [_ [r [Hr H]]]]]].
  unfold procCross in Hr. rewrite !one_unpatched, !npatch_unpatched in Hr; auto.
  destruct (Nat.eqb_spec (length D) 1); [lia|]. simpl in Hr.
  destruct (Z.eqb_spec (Z.of_nat (length D)) (Z.of_nat (length Rn))); [lia|].
  destruct (Z.eqb_spec (Z.of_nat (length D)) 1); [lia|].
  destruct (Z.eqb_spec (Z.of_nat (length Rn)) 1); [lia|]. simpl in Hr. subst r. auto.
Qed.
Lemma dset_ne k v d : dset k v d <> [].
Proof. destruct d as [|[k' v'] d]; simpl; [discriminate|]. destruct keqb; discriminate. Qed.
Lemma jobs_results C st Js st' : pNN C = true -> runJobs C st Js st' ->
  (sres st <> [] \/ exists J, In J Js /\ match J with JCross _ _ _ _ None _ => False | _ => True end) ->
  sres st' <> [].
Proof.
  intros HN H. induction H as [st|st J st1 Js st2 HS HR IH]; intros HX.
  - destruct HX as [|[J [[] _]]]; auto.
  - apply IH. destruct J as [i c|i j c1 sw1 [[c2 sw2]|] fo]; destruct HS as [temp [HT ->]].
    + left. unfold addAuto; cbn [sres]. destruct dget; apply dset_ne.
    + left. unfold addCross. rewrite HN. destruct (_ || _); cbn [sres]; [destruct dget as [r|]; [destruct anyPairs|]|]; apply dset_ne.
    + destruct HX as [HX|[J' [[<-|HJ] HM]]]; [|contradiction|right; eauto].
      left. unfold addCross. destruct (_ || _); cbn [sres]; auto. destruct dget as [r|]; [destruct anyPairs|]; apply dset_ne.
Qed.
(** Equally many files, or one file on one of the sides: the file is written. *)
Theorem C91_writes C comp D Rn o : exactRun C -> goodFiles D -> goodFiles Rn -> unpatched D -> unpatched Rn ->
  offEdges (pB C) euclid (rowsOf D) (rowsOf D) -> offEdges (pB C) euclid (rowsOf Rn) (rowsOf Rn) ->
  offEdges (pB C) euclid (rowsOf D) (rowsOf Rn) ->
  offMinSep (pB C) euclid (rowsOf D) -> offMinSep (pB C) euclid (rowsOf Rn) ->
  (comp = true -> reach C D Rn) ->
  length D = length Rn \/ length D = 1%nat \/ length Rn = 1%nat ->
  corr2NN C comp D [] Rn [] o -> exists out, o = Wrote out.
Proof.
  intros HC GD GR U1 U2 E1 E2 E3 O1 O2 HR HL H.
  destruct (good_nonempty D GD) as [ND WD]. destruct (good_nonempty Rn GR) as [NR WR].
  destruct GD as [ND' [_ PD]]. destruct GR as [NR' [_ PR]].
  assert (LD : (length D <> 0)%nat) by (destruct D; simpl; [congruence|lia]).
  assert (LR : (length Rn <> 0)%nat) by (destruct Rn; simpl; [congruence|lia]).
  assert (Hk : (0 <= 0 < nbins (pB C))%Z).
  { destruct HC as (_ & _ & _ & _ & HB & _). pose proof (vb_nbins _ HB). lia. }
  assert (HNN : pNN C = true) by apply HC.
  assert (DD : distinctPatches D) by (left; exact U1). assert (DR : distinctPatches Rn) by (left; exact U2).
  unfold corr2NN in H. cbv zeta in H.
  destruct (readCatalogs D) as [|c0 l0] eqn:ED; [congruence|]. simpl (readCatalogs []) in H. cbv iota in H.
  rewrite <- ED in H. destruct (readCatalogs Rn) as [|c1 l1] eqn:ER; [congruence|]. rewrite <- ER in H.
  destruct H as [dd [Hdd [rr [Hrr H]]]].
  destruct (procAuto_spec C Rn rr 0 HC DR PR E2 O2 Hk Hrr) as [_ [_ Y3]].
  assert (TR : Reqb (ktot (ncorr rr)) 0 = false).
  { unfold Reqb. destruct Req_EM_T as [E|]; auto. exfalso. rewrite Y3 in E. nra. }
  unfold procAuto in Hdd, Hrr. rewrite one_unpatched, npatch_unpatched in Hdd, Hrr by auto.
  assert (PRR : nnp1 rr = Z.of_nat (length Rn) /\ nnp2 rr = Z.of_nat (length Rn)).
  { destruct (Nat.eqb_spec (length Rn) 1) as [E|E].
    - destruct Hrr as [? [_ ->]]. simpl. rewrite E. auto.
    - destruct Hrr as [? [_ ->]]. simpl. auto. }
  assert (PDD : nnp1 dd = Z.of_nat (length D) /\ nnp2 dd = Z.of_nat (length D) /\
                (length D = 1%nat -> sres (nst dd) = [])).
  { destruct (Nat.eqb_spec (length D) 1) as [E|E].
    - destruct Hdd as [? [_ ->]]. simpl. rewrite E. auto.
    - destruct Hdd as [? [_ ->]]. simpl. repeat split; auto. congruence. }
  destruct PRR as [P1 P2]. destruct PDD as [P3 [P4 P5]].
  assert (HPD : forall dr, (forall c, dr = Some c -> sres (nst c) <> [] \/ length D = 1%nat) ->
     (forall c, dr = Some c -> nnp1 c = Z.of_nat (length D) /\ nnp2 c = Z.of_nat (length Rn)) ->
     patchesDiffer dd rr dr None = false).
  { intros dr Hs Hn. unfold patchesDiffer. destruct (sres (nst dd)) as [|p q] eqn:ES; auto.
    assert (length D <> 1%nat) by (intro E; apply P5 in E; discriminate).
    assert (HL' : length D = length Rn \/ length Rn = 1%nat) by tauto.
    rewrite P1, P2, P3, P4. rewrite orb_false_r. apply orb_false_intro.
    - destruct HL' as [<-| ->]; simpl; [rewrite Z.eqb_refl; simpl; apply andb_false_r|auto].
    - destruct dr as [c|]; auto. destruct (Hn c eq_refl) as [-> ->].
      destruct (Hs c eq_refl) as [HS|]; [|congruence]. destruct (sres (nst c)); [congruence|].
      rewrite Z.eqb_refl. simpl. destruct HL' as [<-| ->]; [rewrite Z.eqb_refl; auto|].
      simpl. rewrite orb_true_r. auto. }
  destruct comp.
  - destruct H as [r [Hdr H]].
    destruct r as [dr|].
    2: { exfalso. unfold procCross in Hdr. rewrite !one_unpatched, !npatch_unpatched in Hdr by auto.
      destruct (_ && _) in Hdr; [destruct Hdr as [? [_ ?]]; discriminate|].
      assert (EE : negb (Z.of_nat (length D) =? Z.of_nat (length Rn))%Z && negb (Z.of_nat (length D) =? 1)%Z &&
        negb (Z.of_nat (length Rn) =? 1)%Z = false).
      { destruct HL as [->|[->| ->]]; simpl; [rewrite Z.eqb_refl; auto|rewrite !andb_false_r; auto|rewrite !andb_false_r; auto]. }
      rewrite EE in Hdr. destruct Hdr as [? [_ ?]]; discriminate. }
    destruct (procCross_spec C D Rn dr 0 HC PD PR E3 (HR eq_refl) Hk Hdr) as [_ [_ Z3]].
    assert (TD : Reqb (ktot (ncorr dr)) 0 = false).
    { unfold Reqb. destruct Req_EM_T as [E|]; auto. exfalso. rewrite Z3 in E. nra. }
    unfold nnWrite, calculateXi in H. simpl option_map in H. rewrite TR, TD in H. simpl in H.
    rewrite (HPD (Some dr)) in H.
    + eexists; exact H.
    + intros c E. injection E as <-. unfold procCross in Hdr. rewrite !one_unpatched in Hdr by auto.
      destruct (Nat.eqb_spec (length D) 1); auto. left. simpl in Hdr.
      destruct (_ && _) in Hdr; [discriminate|].
      destruct Hdr as [st [Hj E]]. injection E as ->. simpl nst.
      apply (jobs_results C sclear _ st HNN Hj). right.
      unfold crossJobs, number. rewrite ED, ER. simpl.
      eexists; split; [left; reflexivity|]. exact I.
    + intros c E. injection E as <-. unfold procCross in Hdr. rewrite !one_unpatched, !npatch_unpatched in Hdr by auto.
      destruct ((length D =? 1)%nat && (length Rn =? 1)%nat) eqn:EE.
      * apply andb_true_iff in EE as [A B]. apply Nat.eqb_eq in A, B. rewrite A, B.
        destruct Hdr as [? [_ E]]. injection E as ->. simpl. auto.
      * destruct (_ && _) in Hdr; [discriminate|]. destruct Hdr as [? [_ E]]. injection E as ->. simpl. auto.
  - unfold nnWrite, calculateXi in H. simpl option_map in H. rewrite TR in H. simpl in H.
    rewrite (HPD None) in H; [eexists; exact H| |]; intros c E; discriminate.
Qed.
