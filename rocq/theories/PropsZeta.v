(** C77: calculateZeta of NNNCorrelation with patches: the estimate, its jackknife rows and variance. *)
From Coq Require Import Reals Lra Lia List ZArith Bool Permutation.
From Verif Require Import Base Geometry Tree Traverse Run Corr Patch Spec SpecRun GeomFacts SumFacts TreeFacts
  BinFacts TravFacts Exact MetricFacts Cover Lift Runs Examples Account PropsCount PropsRun PropsCorr PatchFacts
  PropsPatch PropsLocal Corr3 TriCover TriStop SpecTri TriFacts TriSpec PropsTri TriMirror PropsTri2
  Patch3 Patch3Facts Patch3Sum Patch3Res PropsPatch3 Cov Comp Zeta ZetaFacts.
Import ListNotations.
Open Scope R_scope.

(** The normalised counts of triangles with shape k: brute-force weighted counts divided by the number
    (weight) of triples of rows. *)
Definition cnt3 (P : tparams) (k : Z) (l : list obj) : R :=
  sumTriplesU (tri6 P TWeight k) l / (sumw l * sumw l * sumw l / 6).
Definition cnt12 (P : tparams) (k : Z) (l1 l2 : list obj) : R :=
  sumPairs12 (tri6 P TWeight k) l1 l2 / (sumw l1 * (sumw l2 * sumw l2) / 2).
(** (DDD - RRR) / RRR and (DDD - RDD + DRR - RRR) / RRR *)
Definition zeta1Spec (P : tparams) (k : Z) (D Rn : list obj) : R := (cnt3 P k D - cnt3 P k Rn) / cnt3 P k Rn.
Definition zeta4Spec (P : tparams) (k : Z) (D Rn : list obj) : R :=
  (cnt3 P k D - cnt12 P k Rn D + cnt12 P k D Rn - cnt3 P k Rn) / cnt3 P k Rn.

(** Data and randoms with the same n patches, processed as ddd.process(D), rrr.process(R),
    drr.process(D, R, ordered=False), rdd.process(R, D, ordered=False). *)
Record zetaRun (C : pcfg3) (n : Z) (D Rn : list patch) (sD sR sDR sRD : pstate3) : Prop := mkZR {
  zr_X : exact3 (p3P C);
  zr_N : p3NNN C = true;
  zr_n : (2 <= n)%Z;
  zr_ND1 : NoDup (map pidx D);
  zr_ND2 : NoDup (map pidx Rn);
  zr_W : weights3 TWeight (allRows D ++ allRows Rn);
  zr_T : noTies (allRows D ++ allRows Rn);
  zr_F1 : noForcedSkip C (cross12Jobs O0 n n D Rn);
  zr_F2 : noForcedSkip C (cross12Jobs O0 n n Rn D);
  zr_D : runJobs3 C s3clear (auto3Jobs D) sD;
  zr_R : runJobs3 C s3clear (auto3Jobs Rn) sR;
  zr_DR : runJobs3 C s3clear (cross12Jobs O0 n n D Rn) sDR;
  zr_RD : runJobs3 C s3clear (cross12Jobs O0 n n Rn D) sRD }.
Definition nOf (n : Z) (st : pstate3) : nnn := mkN3 (s3self st) (s3res st) n n n.
(** The catalogs without patch i have weight, and the randoms have triangles of shape k. *)
Definition fit (P : tparams) (k : Z) (D Rn : list patch) : Prop :=
  sumw (allRows D) <> 0 /\ sumw (allRows Rn) <> 0 /\ sumTriplesU (tri6 P TWeight k) (allRows Rn) <> 0.

Lemma zeta4_alg (A B E G ta tb te tg : R) : ta <> 0 -> tb <> 0 -> te <> 0 -> tg <> 0 -> G <> 0 ->
  (A - B * (ta / tb) + E * (ta / te) - G * (ta / tg)) / (G * (ta / tg)) = (A / ta - B / tb + E / te - G / tg) / (G / tg).
Proof. intros. field. repeat split; auto. Qed.
Lemma zeta1_alg (A G ta tg : R) : ta <> 0 -> tg <> 0 -> G <> 0 ->
  (A - G * (ta / tg)) / (G * (ta / tg)) = (A / ta - G / tg) / (G / tg).
Proof. intros. field. repeat split; auto. Qed.

Section Rows.
Context (C : pcfg3) (n : Z) (D Rn : list patch) (sD sR sDR sRD : pstate3).
Context (ZR : zetaRun C n D Rn sD sR sDR sRD).
Context (k : Z) (Hk : (0 <= k < tntot (p3P C))%Z).
Let P := p3P C.
Let wD i := sumw (allRows (without i D)).
Let wR i := sumw (allRows (without i Rn)).
Lemma zD : stores TWeight k (s3res sD) (fun i => sumTriplesU (tri6 P TWeight k) (allRows (without i D)))
  (fun i => 1/6 * (wD i * wD i * wD i)) /\ length (s3res sD) = length (auto3Jobs D) /\
  (forall q, In q (keys3 (s3res sD)) <-> In q (map jkey (auto3Jobs D))).
Proof.
  destruct ZR. apply auto_stores; auto.
  - eapply weights3_sub; [|eauto]. intros; apply in_or_app; auto.
  - eapply noTies_sub; [|eauto]. intros; apply in_or_app; auto.
Qed.
Lemma zR : stores TWeight k (s3res sR) (fun i => sumTriplesU (tri6 P TWeight k) (allRows (without i Rn)))
  (fun i => 1/6 * (wR i * wR i * wR i)) /\ length (s3res sR) = length (auto3Jobs Rn) /\
  (forall q, In q (keys3 (s3res sR)) <-> In q (map jkey (auto3Jobs Rn))).
Proof.
  destruct ZR. apply auto_stores; auto.
  - eapply weights3_sub; [|eauto]. intros; apply in_or_app; auto.
  - eapply noTies_sub; [|eauto]. intros; apply in_or_app; auto.
Qed.
Lemma swapIn (l m : list obj) : forall o, In o (m ++ l) -> In o (l ++ m).
Proof. intros o. rewrite !in_app_iff. tauto. Qed.
Lemma zDR : stores TWeight k (s3res sDR) (fun i => sumPairs12 (tri6 P TWeight k) (allRows (without i D)) (allRows (without i Rn)))
  (fun i => 1/2 * wD i * (wR i * wR i)) /\ length (s3res sDR) = length (cross12Jobs O0 n n D Rn) /\
  (forall q, In q (keys3 (s3res sDR)) <-> In q (map jkey (cross12Jobs O0 n n D Rn))).
Proof.
  destruct ZR. apply (cross12_stores C O0 n n D Rn TWeight k sDR); auto; discriminate.
Qed.
Lemma zRD : stores TWeight k (s3res sRD) (fun i => sumPairs12 (tri6 P TWeight k) (allRows (without i Rn)) (allRows (without i D)))
  (fun i => 1/2 * wR i * (wD i * wD i)) /\ length (s3res sRD) = length (cross12Jobs O0 n n Rn D) /\
  (forall q, In q (keys3 (s3res sRD)) <-> In q (map jkey (cross12Jobs O0 n n Rn D))).
Proof.
  destruct ZR. apply (cross12_stores C O0 n n Rn D TWeight k sRD); auto; try discriminate.
  - eapply weights3_sub; [apply swapIn|eauto].
  - intros _. eapply noTies_sub; [apply swapIn|eauto].
Qed.

(** One row, with and without drr and rdd. *)
Definition oth (b : bool) : option (nnn * nnn) := if b then Some (nOf n sDR, nOf n sRD) else None.
Definition spec (b : bool) (d r : list obj) : R := if b then zeta4Spec P k d r else zeta1Spec P k d r.
Lemma jack_avoids i l : jack3 n n n i l = filter (avoids i) l.
Proof.
  destruct ZR. unfold jack3. apply filter_ext. intro q. rewrite (proj2 (Z.eqb_neq n 1)) by lia. reflexivity.
Qed.
Lemma dum b : dummies (s3res sD) (withDummies (nOf n sD) (nOf n sR) (oth b))
  (keys3 (s3res sR) ++ if b then keys3 (s3res sDR) ++ keys3 (s3res sRD) else []).
Proof.
  destruct ZR. unfold withDummies, oth. cbn [nOf n_n1 n_n2 n_res]. rewrite (proj2 (Z.eqb_neq n 1)) by lia.
  destruct b; cbn [nOf n_n1 n_n2 n_res].
  - rewrite (proj2 (Z.eqb_neq n 1)) by lia. rewrite app_assoc.
    eapply dummies_trans; [eapply dummies_trans|]; apply addZero_dummies.
  - rewrite app_nil_r. apply addZero_dummies.
Qed.
Lemma auto_ne cats : sumw (allRows cats) <> 0 -> auto3Jobs cats <> [].
Proof. intros H. destruct cats as [|a t]; [exfalso; apply H; reflexivity|discriminate]. Qed.
Lemma cross_ne c1' c2' : sumw (allRows c1') <> 0 -> sumw (allRows c2') <> 0 -> cross12Jobs O0 n n c1' c2' <> [].
Proof.
  intros H1 H2. destruct c1' as [|a t]; [exfalso; apply H1; reflexivity|].
  destruct c2' as [|a' t']; [exfalso; apply H2; reflexivity|discriminate].
Qed.
Lemma row b i : let d := withDummies (nOf n sD) (nOf n sR) (oth b) in
  fit P k (without i D) (without i Rn) ->
  exists s, zetaFrom P d (nOf n sR) (oth b) (jack3 n n n i (keys3 d)) = Some s /\
    q3_zeta s k = spec b (allRows (without i D)) (allRows (without i Rn)) /\
    k3acc (q3_corr s) TWeight k = sumTriplesU (tri6 P TWeight k) (allRows (without i D)) /\
    jack3 n n n i (keys3 d) <> [].
Proof.
  intros d [HD [HR HT]]. pose proof (dum b) as DU. fold d in DU. rewrite jack_avoids.
  destruct zD as [[A1 A2 A3 A4] [A5 A6]], zR as [[B1 B2 B3 B4] [B5 B6]], zDR as [[E1 E2 E3 E4] [E5 E6]],
    zRD as [[G1 G2 G3 G4] [G5 G6]].
  pose proof (du_ND _ _ _ DU A1) as DN. pose proof (dummies_cons _ _ _ DU A2) as DC.
  destruct (dummies_sum _ _ _ (avoids i) DU) as [DS DT].
  pose proof (proj2 (in_places P k) Hk) as HK.
  destruct (sum_perm P d (avoids i) (filter (avoids i) (keys3 d)) DN DC ltac:(auto)) as [cD [SD [VD TD]]].
  destruct (sum_sub P (s3res sR) (avoids i) (keys3 d) B1 B2 DN) as [cR [SR [VR TR]]].
  { intros q Hq. apply (du_keys _ _ _ DU). right. apply in_or_app. auto. }
  rewrite DT, A4 in TD. rewrite B4 in TR.
  specialize (VD TWeight k HK). rewrite DS, A3 in VD. specialize (VR TWeight k HK). rewrite B3 in VR.
  assert (JN : filter (avoids i) (keys3 d) <> []).
  { destruct (without i D) as [|a t] eqn:EW; [exfalso; apply HD; reflexivity|].
    assert (Ha : In a (without i D)) by (rewrite EW; left; auto). apply filter_In in Ha as [Ha Hai].
    assert (Hq : In (lkey a) (filter (avoids i) (keys3 d))).
    { apply filter_In. split.
      - apply (du_keys _ _ _ DU). left. apply A6. unfold auto3Jobs. rewrite map_flat_map. apply in_flat_map.
        exists a. split; auto. left. reflexivity.
      - unfold avoids, lkey. cbn [fst snd]. rewrite Hai. auto. }
    intro E. rewrite E in Hq. contradiction. }
  assert (HRR : hasRes3 (n_res (nOf n sR)) = true).
  { cbn [nOf n_res]. destruct (s3res sR) eqn:E; auto. exfalso. cbn in B5.
    assert (auto3Jobs Rn = []) by (destruct (auto3Jobs Rn); [auto|discriminate]).
    destruct Rn; [apply HR; reflexivity|discriminate]. }
  unfold zetaFrom. rewrite SD. unfold rrrTerm. rewrite HRR. cbn [nOf n_res]. rewrite SR. cbn [option_map].
  unfold wD, wR in TD, TR.
  set (a := sumw (allRows (without i D))) in *. set (r := sumw (allRows (without i Rn))) in *.
  assert (Ta : 1 / 6 * (a * a * a) <> 0) by (repeat apply Rmult_integral_contrapositive_currified; auto; lra).
  assert (Tr : 1 / 6 * (r * r * r) <> 0) by (repeat apply Rmult_integral_contrapositive_currified; auto; lra).
  assert (DE : k3acc cR TWeight k * (k3tot cD / k3tot cR) <> 0).
  { rewrite VR, TD, TR. apply Rmult_integral_contrapositive_currified; auto. unfold Rdiv.
    apply Rmult_integral_contrapositive_currified; auto. apply Rinv_neq_0_compat; auto. }
  destruct b; cbn [oth].
  - destruct (sum_sub P (s3res sDR) (avoids i) (keys3 d) E1 E2 DN) as [cDR [SDR [VDR TDR]]].
    { intros q Hq. apply (du_keys _ _ _ DU). right. rewrite !in_app_iff. auto. }
    destruct (sum_sub P (s3res sRD) (avoids i) (keys3 d) G1 G2 DN) as [cRD [SRD [VRD TRD]]].
    { intros q Hq. apply (du_keys _ _ _ DU). right. rewrite !in_app_iff. auto. }
    specialize (VDR TWeight k HK). rewrite E3 in VDR. specialize (VRD TWeight k HK). rewrite G3 in VRD.
    rewrite E4 in TDR. rewrite G4 in TRD.
    assert (NN : (n =? 1)%Z = false) by (apply Z.eqb_neq; destruct ZR; lia).
    unfold drrPairs, rddPairs. cbn [nOf n_res n_n1 n_n2]. rewrite NN. cbn [andb].
    cbn [nOf n_res]. rewrite SDR, SRD. eexists. split; [reflexivity|]. cbn [q3_zeta q3_corr].
    split; [|split; auto]. unfold zetaRow. cbn [fst snd]. destruct (Req_EM_T _ 0) as [F|_]; [contradiction|].
    rewrite VD, VR, VDR, VRD, TD, TR, TDR, TRD. unfold wD, wR. fold a r.
    rewrite zeta4_alg; auto; try (repeat apply Rmult_integral_contrapositive_currified; auto; lra).
    unfold spec, zeta4Spec, cnt3, cnt12. fold a r.
    replace (1 / 6 * (a * a * a)) with (a * a * a / 6) by field. replace (1 / 6 * (r * r * r)) with (r * r * r / 6) by field.
    replace (1 / 2 * r * (a * a)) with (r * (a * a) / 2) by field. replace (1 / 2 * a * (r * r)) with (a * (r * r) / 2) by field.
    reflexivity.
  - eexists. split; [reflexivity|]. cbn [q3_zeta q3_corr]. split; [|split; auto].
    unfold zetaRow. cbn [fst snd]. destruct (Req_EM_T _ 0) as [F|_]; [contradiction|].
    rewrite VD, VR, TD, TR. rewrite zeta1_alg; auto.
    unfold spec, zeta1Spec, cnt3. fold a r.
    replace (1 / 6 * (a * a * a)) with (a * a * a / 6) by field. replace (1 / 6 * (r * r * r)) with (r * r * r / 6) by field.
    reflexivity.
Qed.

Lemma selfAuto cats st : weights3 TWeight (allRows cats) -> noTies (allRows cats) -> NoDup (map pidx cats) ->
  runJobs3 C s3clear (auto3Jobs cats) st -> k3acc (s3self st) TWeight k = sumTriplesU (tri6 P TWeight k) (allRows cats).
Proof.
  intros W NT HN HR. destruct ZR. rewrite (jobs3_get C TWeight k s3clear (auto3Jobs cats) st); auto using exact3_okMin.
  - rewrite auto3Jobs_val by auto. simpl. unfold cleared3, P. lra.
  - apply in_places; auto.
  - apply (calls_exact C TWeight k (allRows cats)); auto. intros; apply auto3_calls; auto.
Qed.
Lemma selfCross cats1 cats2 st : weights3 TWeight (allRows cats1 ++ allRows cats2) ->
  noTies (allRows cats1 ++ allRows cats2) -> NoDup (map pidx cats2) ->
  runJobs3 C s3clear (cross12Jobs O0 n n cats1 cats2) st ->
  k3acc (s3self st) TWeight k = sumPairs12 (tri6 P TWeight k) (allRows cats1) (allRows cats2).
Proof.
  intros W NT HN HR. destruct ZR. rewrite (jobs3_get C TWeight k s3clear (cross12Jobs O0 n n cats1 cats2) st); auto using exact3_okMin.
  - rewrite cross12Jobs_val by (auto; discriminate). simpl. unfold cleared3, P. lra.
  - apply in_places; auto.
  - apply (calls_exact C TWeight k (allRows cats1 ++ allRows cats2)); auto.
    intros J HJ. destruct (cross12_calls O0 n n cats1 cats2 J ltac:(discriminate) HJ) as [_ A]. exact A.
Qed.
Lemma calc b : fit P k D Rn ->
  exists z, calcZeta (nOf n sD) (nOf n sR) (oth b) = Some (z, withDummies (nOf n sD) (nOf n sR) (oth b)) /\
    z k = spec b (allRows D) (allRows Rn).
Proof.
  intros [HD [HR HT]].
  destruct zD as [_ [A5 A6]], zR as [_ [B5 B6]], zDR as [_ [E5 E6]], zRD as [_ [G5 G6]].
  assert (WD : weights3 TWeight (allRows D)) by (destruct ZR; eapply weights3_sub; [|eauto]; intros; apply in_or_app; auto).
  assert (WR : weights3 TWeight (allRows Rn)) by (destruct ZR; eapply weights3_sub; [|eauto]; intros; apply in_or_app; auto).
  assert (TD : noTies (allRows D)) by (destruct ZR; eapply noTies_sub; [|eauto]; intros; apply in_or_app; auto).
  assert (TR : noTies (allRows Rn)) by (destruct ZR; eapply noTies_sub; [|eauto]; intros; apply in_or_app; auto).
  assert (W2 : weights3 TWeight (allRows Rn ++ allRows D)) by (destruct ZR; eapply weights3_sub; [apply swapIn|eauto]).
  assert (T2 : noTies (allRows Rn ++ allRows D)) by (destruct ZR; eapply noTies_sub; [apply swapIn|eauto]).
  pose proof ZR as ZR'. destruct ZR' as [X NN Hn N1 N2 W T F1 F2 R1 R2 R3 R4].
  pose proof (selfAuto D sD WD TD N1 R1) as V1. pose proof (selfAuto Rn sR WR TR N2 R2) as V2.
  pose proof (selfCross D Rn sDR W T N2 R3) as V3. pose proof (selfCross Rn D sRD W2 T2 N1 R4) as V4.
  pose proof (C68_auto_tot C D sD NN N1 R1) as U1. pose proof (C68_auto_tot C Rn sR NN N2 R2) as U2.
  pose proof (proj1 (C68_cross_tot C O0 n n n D Rn [] NN) sDR N2 F1 R3) as U3.
  pose proof (proj1 (C68_cross_tot C O0 n n n Rn D [] NN) sRD N1 F2 R4) as U4.
  set (a := sumw (allRows D)) in *. set (r := sumw (allRows Rn)) in *.
  assert (Ta : 1 / 6 * (a * a * a) <> 0) by (repeat apply Rmult_integral_contrapositive_currified; auto; lra).
  assert (Tr : 1 / 6 * (r * r * r) <> 0) by (repeat apply Rmult_integral_contrapositive_currified; auto; lra).
  assert (T3 : 1 / 2 * a * (r * r) <> 0) by (repeat apply Rmult_integral_contrapositive_currified; auto; lra).
  assert (T4 : 1 / 2 * r * (a * a) <> 0) by (repeat apply Rmult_integral_contrapositive_currified; auto; lra).
  assert (Rb : forall x, x <> 0 -> Reqb x 0 = false) by (intros x Hx; unfold Reqb; destruct (Req_EM_T x 0); [contradiction|auto]).
  unfold calcZeta. cbn [nOf n_corr n_res].
  destruct (s3res sD) as [|eD tD] eqn:ED.
  { exfalso. apply (auto_ne D HD). cbn in A5. destruct (auto3Jobs D); [auto|discriminate]. }
  assert (P1 : patchesOK (nOf n sD) (nOf n sR) (oth b) = true).
  { unfold patchesOK, oth. cbn [nOf n_n1 n_n2]. rewrite Z.eqb_refl, orb_true_r. cbn [andb]. destruct b; auto.
    cbn [nOf n_n1 n_n2 n_res]. rewrite Z.eqb_refl. cbn [andb orb].
    destruct (s3res sDR) eqn:EDR.
    { exfalso. apply (cross_ne D Rn HD HR). cbn in E5. destruct (cross12Jobs O0 n n D Rn); [auto|discriminate]. }
    destruct (s3res sRD) eqn:ERD; auto.
    exfalso. apply (cross_ne Rn D HR HD). cbn in G5. destruct (cross12Jobs O0 n n Rn D); [auto|discriminate]. }
  destruct b; cbn [oth option_map fst snd nOf n_corr] in *.
  - rewrite U2, U3, U4, !Rb by auto. cbn [orb]. rewrite P1. eexists. split; [reflexivity|].
    unfold zetaOf. rewrite V1, V2, V3, V4, U1, U2, U3, U4. destruct (Req_EM_T _ 0) as [F|_]; [contradiction|].
    rewrite zeta4_alg; auto. unfold spec, zeta4Spec, cnt3, cnt12. fold a r.
    replace (1 / 6 * (a * a * a)) with (a * a * a / 6) by field. replace (1 / 6 * (r * r * r)) with (r * r * r / 6) by field.
    replace (1 / 2 * r * (a * a)) with (r * (a * a) / 2) by field. replace (1 / 2 * a * (r * r)) with (a * (r * r) / 2) by field.
    reflexivity.
  - rewrite U2, !Rb by auto. rewrite P1. eexists. split; [reflexivity|].
    unfold zetaOf. rewrite V1, V2, U1, U2. destruct (Req_EM_T _ 0) as [F|_]; [contradiction|].
    rewrite zeta1_alg; auto. unfold spec, zeta1Spec, cnt3. fold a r.
    replace (1 / 6 * (a * a * a)) with (a * a * a / 6) by field. replace (1 / 6 * (r * r * r)) with (r * r * r / 6) by field.
    reflexivity.
Qed.
Lemma rows_all b : let d := withDummies (nOf n sD) (nOf n sR) (oth b) in
  (forall i, In i (zrange n) -> fit P k (without i D) (without i Rn)) ->
  forall l st, (forall i, In i l -> In i (zrange n)) -> exists rows, zetaRows P d (nOf n sR) (oth b) st
    (map (fun i => jack3 n n n i (keys3 d)) l) = Some rows /\
    map (fun s => q3_zeta s k) rows = map (fun i => spec b (allRows (without i D)) (allRows (without i Rn))) l.
Proof.
  intros d HF. induction l as [|i t IH]; intros st Hl; cbn [map zetaRows].
  - exists []. auto.
  - destruct (row b i (HF i (Hl i (or_introl eq_refl)))) as [s [S1 [S2 [_ S4]]]]. fold d in S1, S4.
    unfold zetaStep. destruct (jack3 n n n i (keys3 d)) as [|q0 t0] eqn:EJ; [contradiction|].
    rewrite S1. destruct (IH s) as [rows [R1 R2]]; [intros; apply Hl; right; auto|].
    exists (s :: rows). rewrite R1. split; auto. cbn [map]. rewrite S2, R2. auto.
Qed.
End Rows.

(** The estimate of calculateZeta, every jackknife row and the jackknife variance are those of the formulas for
    brute-force counts: row i is the estimate for the catalogs without patch i. *)
Theorem C77_jackknife C n D Rn sD sR sDR sRD k (comp : bool) :
  zetaRun C n D Rn sD sR sDR sRD -> (0 <= k < tntot (p3P C))%Z -> fit (p3P C) k D Rn ->
  let others := if comp then Some (nOf n sDR, nOf n sRD) else None in
  let est d r := if comp then zeta4Spec (p3P C) k d r else zeta1Spec (p3P C) k d r in
  exists z d, calcZeta (nOf n sD) (nOf n sR) others = Some (z, d) /\
    z k = est (allRows D) (allRows Rn) /\
    (forall i, fit (p3P C) k (without i D) (without i Rn) ->
       exists s, zetaFrom (p3P C) d (nOf n sR) others (jack3 n n n i (keys3 d)) = Some s /\
         q3_zeta s k = est (allRows (without i D)) (allRows (without i Rn))) /\
    ((forall i, (0 <= i < n)%Z -> fit (p3P C) k (without i D) (without i Rn)) ->
       forall w0, exists v, zetaVar (p3P C) d (nOf n sD) (nOf n sR) others z w0 = Some v /\
         v k = jackVar (map (fun i => est (allRows (without i D)) (allRows (without i Rn))) (zrange n))).
Proof.
  intros HZ Hk HF others est.
  destruct (calc C n D Rn sD sR sDR sRD HZ k Hk comp HF) as [z [E1 E2]].
  exists z, (withDummies (nOf n sD) (nOf n sR) (oth n sDR sRD comp)). split; [exact E1|]. split; [exact E2|]. split.
  - intros i Hi. destruct (row C n D Rn sD sR sDR sRD HZ k Hk comp i Hi) as [s [S1 [S2 _]]]. exists s. split; auto.
  - intros HA w0. unfold zetaVar. cbn [nOf n_n1 n_n2 n_n3].
    assert (ER : rows3 n n n = zrange n) by (unfold rows3; destruct (n =? 1)%Z; auto).
    rewrite ER.
    destruct (rows_all C n D Rn sD sR sDR sRD HZ k Hk comp) with (l := zrange n) (st := mkZ3 (n_corr (nOf n sD)) z w0)
      as [rows [R1 R2]]; auto.
    { intros i Hi. apply HA. unfold zrange in Hi. apply in_map_iff in Hi as [m [<- Hm]]. apply in_seq in Hm. destruct HZ; lia. }
    change (oth n sDR sRD comp) with others in R1 |- *.
    rewrite R1. cbn [option_map]. eexists. split; [reflexivity|]. cbv beta. rewrite R2. reflexivity.
Qed.
