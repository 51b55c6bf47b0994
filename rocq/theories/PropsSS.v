(** C78: calculateZeta and the Szapudi-Szalay estimator. *)
From Coq Require Import Reals Lra Lia List ZArith Bool Permutation.
From Verif Require Import Base Geometry Tree Traverse Run Corr Patch Spec SpecRun GeomFacts SumFacts TreeFacts
  BinFacts TravFacts Exact MetricFacts Cover Lift Runs Examples Account PropsCount PropsRun PropsCorr PatchFacts
  PropsPatch PropsLocal Corr3 TriCover TriStop SpecTri TriFacts TriSpec PropsTri TriMirror PropsTri2 PropsTri3
  Patch3 Patch3Facts Patch3Sum Patch3Res PropsPatch3 PropsPatch3Ex Cov CovFacts Comp Zeta ZetaFacts PropsZeta ZetaUn PropsZeta2 ZetaEx PropsZeta3.
Import ListNotations.
Open Scope R_scope.

(** The fluctuations: every data row with its share of the data's weight, every random row with minus its
    share of the randoms' weight. *)
Definition rescale (s : R) (o : obj) : obj := mkobj (opos o) (s * ow o) (owpos o) (okappa o) (og1 o) (og2 o) (oidx o).
Definition fluct (D Rn : list obj) : list obj := map (rescale (/ sumw D)) D ++ map (rescale (- / sumw Rn)) Rn.
(** The sum over all triangles of shape k of the product of the three fluctuations, divided by the sum of the
    products of the shares of three randoms. *)
Definition ssZeta (P : tparams) (k : Z) (D Rn : list obj) : R :=
  sumTriplesU (tri6 P TWeight k) (fluct D Rn) / sumTriplesU (tri6 P TWeight k) (map (rescale (/ sumw Rn)) Rn).

Lemma tri_scale P k r s t a b c : tri P TWeight k (rescale r a) (rescale s b) (rescale t c) = r * s * t * tri P TWeight k a b c.
Proof.
  unfold tri. assert (E : selTri P k (rescale r a) (rescale s b) (rescale t c) = selTri P k a b c) by reflexivity.
  rewrite E. destruct selTri; [|lra]. cbn. ring.
Qed.
Lemma tri6_scale P k r s t a b c : tri6 P TWeight k (rescale r a) (rescale s b) (rescale t c) = r * s * t * tri6 P TWeight k a b c.
Proof. unfold tri6, tri1. rewrite !tri_scale. ring. Qed.
Lemma upairs_map {A B} (h : A -> B) l : upairs (map h l) = map (fun q => (h (fst q), h (snd q))) (upairs l).
Proof. induction l; simpl; auto. rewrite IHl, map_app, !map_map. auto. Qed.
Lemma sumU_scale P k s l : sumTriplesU (tri6 P TWeight k) (map (rescale s) l) = s * s * s * sumTriplesU (tri6 P TWeight k) l.
Proof.
  induction l as [|a l IH]; cbn [map sumTriplesU]; [ring|]. rewrite IH, upairs_map, sumR_map, Rmult_plus_distr_l. f_equal.
  rewrite <- sumR_scal. apply sumR_ext. intros [b c] _. cbn [fst snd]. apply tri6_scale.
Qed.
Lemma sum12_scale P k r s l m : sumPairs12 (tri6 P TWeight k) (map (rescale r) l) (map (rescale s) m) =
  r * s * s * sumPairs12 (tri6 P TWeight k) l m.
Proof.
  unfold sumPairs12. rewrite sumR_map, <- sumR_scal. apply sumR_ext. intros a _. rewrite upairs_map, sumR_map, <- sumR_scal.
  apply sumR_ext. intros [b c] _. cbn [fst snd]. apply tri6_scale.
Qed.

Section SS.
Context (P : tparams) (k : Z) (D Rn : list obj).
Context (HD : sumw D <> 0) (HR : sumw Rn <> 0) (HT : sumTriplesU (tri6 P TWeight k) Rn <> 0).
(** Szapudi-Szalay in terms of normalised counts: DDD - 3 RDD + 3 DRR - RRR. *)
Theorem C78_szapudi : ssZeta P k D Rn =
  (cnt3 P k D - 3 * cnt12 P k Rn D + 3 * cnt12 P k D Rn - cnt3 P k Rn) / cnt3 P k Rn.
Proof using HD HR HT.
  unfold ssZeta, fluct. rewrite sumTriplesU_eq.
  assert (S1 : sym12 (tri6 P TWeight k)) by (intros ? ? ?; apply tri6_sym12).
  assert (S2 : sym23 (tri6 P TWeight k)) by (intros ? ? ?; apply tri6_sym23).
  rewrite sumU3_app by auto.
  rewrite <- !sumTriplesU_eq, !sumU_scale.
  change (sum12 ?g ?l ?m) with (sumPairs12 g l m). rewrite !sum12_scale. unfold cnt3, cnt12. field. repeat split; auto.
Qed.
(** The difference between the estimates of calculateZeta (PropsZeta, C77) and Szapudi-Szalay. *)
Theorem C78_excess :
  zeta4Spec P k D Rn - ssZeta P k D Rn = 2 * (cnt12 P k Rn D - cnt12 P k D Rn) / cnt3 P k Rn /\
  zeta1Spec P k D Rn - ssZeta P k D Rn = 3 * (cnt12 P k Rn D - cnt12 P k D Rn) / cnt3 P k Rn.
Proof using HD HR HT.
  rewrite C78_szapudi. unfold zeta4Spec, zeta1Spec.
  assert (cnt3 P k Rn <> 0).
  { unfold cnt3, Rdiv. repeat (apply Rmult_integral_contrapositive_currified || apply Rinv_neq_0_compat); auto; lra. }
  split; field; auto.
Qed.
(** The compensated estimate removes one third of what the simple estimate (DDD-RRR)/RRR has in excess. *)
Theorem C78_third : zeta4Spec P k D Rn - ssZeta P k D Rn = 2/3 * (zeta1Spec P k D Rn - ssZeta P k D Rn).
Proof using HD HR HT. destruct C78_excess as [-> ->]. lra. Qed.
End SS.

(** ** calculateZeta without patches *)
Theorem C78_estimate C D Rn ddd rrr drr rdd k :
  exact3 (p3P C) -> p3NNN C = true -> weights3 TWeight (D ++ Rn) -> noTies (D ++ Rn) -> (0 <= k < tntot (p3P C))%Z ->
  triv3 (p3P C) D Rn Rn = false -> triv3 (p3P C) Rn D D = false ->
  temp3 C (CAuto (D, sumw D)) ddd -> temp3 C (CAuto (Rn, sumw Rn)) rrr ->
  temp3 C (C12 O0 (D, sumw D) (Some (Rn, sumw Rn))) drr -> temp3 C (C12 O0 (Rn, sumw Rn) (Some (D, sumw D))) rdd ->
  sumw D <> 0 -> sumw Rn <> 0 -> sumTriplesU (tri6 (p3P C) TWeight k) Rn <> 0 ->
  let one c := mkN3 c [] 1 1 1 in
  (exists z, calcZeta (one ddd) (one rrr) (Some (one drr, one rdd)) = Some (z, []) /\
     z k = zeta4Spec (p3P C) k D Rn /\
     z k = ssZeta (p3P C) k D Rn + 2/3 * (zeta1Spec (p3P C) k D Rn - ssZeta (p3P C) k D Rn)) /\
  (exists z, calcZeta (one ddd) (one rrr) None = Some (z, []) /\ z k = zeta1Spec (p3P C) k D Rn).
Proof.
  intros X NN W T Hk V1 V2 R1 R2 R3 R4 HD HR HT one.
  assert (CE : forall c, call12ok c -> (forall o, In o (callRows c) -> In o (D ++ Rn)) -> callExact C TWeight k c).
  { intros c Hc HI. apply (calls_exact C TWeight k (D ++ Rn) [mkJ3 (0,0,0)%Z (0,0,0)%Z c true] X W ltac:(auto)) with
      (J := mkJ3 (0,0,0)%Z (0,0,0)%Z c true); [|left; auto]. intros J [<-|[]]. auto. }
  assert (A1 : k3acc ddd TWeight k = sumTriplesU (tri6 (p3P C) TWeight k) D).
  { rewrite (CE (CAuto (D, sumw D))); auto; [exact I|]. intros o Ho. apply in_or_app. left. exact Ho. }
  assert (A2 : k3acc rrr TWeight k = sumTriplesU (tri6 (p3P C) TWeight k) Rn).
  { rewrite (CE (CAuto (Rn, sumw Rn))); auto; [exact I|]. intros o Ho. apply in_or_app. right. exact Ho. }
  assert (A3 : k3acc drr TWeight k = sumPairs12 (tri6 (p3P C) TWeight k) D Rn).
  { rewrite (CE (C12 O0 (D, sumw D) (Some (Rn, sumw Rn)))); auto. discriminate. }
  assert (A4 : k3acc rdd TWeight k = sumPairs12 (tri6 (p3P C) TWeight k) Rn D).
  { rewrite (CE (C12 O0 (Rn, sumw Rn) (Some (D, sumw D)))); auto; [discriminate|]. intros o Ho. apply in_or_app. apply in_app_or in Ho. tauto. }
  assert (B1 : k3tot ddd = 1/6 * (sumw D * sumw D * sumw D)).
  { destruct R1 as [t [_ ->]]. cbn [k3tot]. rewrite NN. cbn [callTot snd]. lra. }
  assert (B2 : k3tot rrr = 1/6 * (sumw Rn * sumw Rn * sumw Rn)).
  { destruct R2 as [t [_ ->]]. cbn [k3tot]. rewrite NN. cbn [callTot snd]. lra. }
  assert (B3 : k3tot drr = 1/2 * sumw D * (sumw Rn * sumw Rn)).
  { cbn in R3. rewrite V1 in R3. destruct R3 as [t [_ ->]]. cbn [k3tot]. rewrite NN. lra. }
  assert (B4 : k3tot rdd = 1/2 * sumw Rn * (sumw D * sumw D)).
  { cbn in R4. rewrite V2 in R4. destruct R4 as [t [_ ->]]. cbn [k3tot]. rewrite NN. lra. }
  assert (Rb : forall x, x <> 0 -> Reqb x 0 = false) by (intros x Hx; unfold Reqb; destruct (Req_EM_T x 0); [contradiction|auto]).
  assert (Z2 : k3tot rrr <> 0) by (rewrite B2; repeat apply Rmult_integral_contrapositive_currified; auto; lra).
  assert (Z3 : k3tot drr <> 0) by (rewrite B3; repeat apply Rmult_integral_contrapositive_currified; auto; lra).
  assert (Z4 : k3tot rdd <> 0) by (rewrite B4; repeat apply Rmult_integral_contrapositive_currified; auto; lra).
  split.
  - eexists. split; [unfold calcZeta, one; cbn [option_map fst snd n_corr n_res]; rewrite !Rb by auto; reflexivity|].
    assert (E : zetaOf ddd rrr (Some (drr, rdd)) k = zeta4Spec (p3P C) k D Rn).
    { unfold zetaOf. rewrite A1, A2, A3, A4, B1, B2, B3, B4. destruct (Req_EM_T _ 0) as [F|_]; [contradiction|].
      unfold zeta4Spec, cnt3, cnt12. field. repeat split; auto. }
    cbn [option_map fst snd n_corr one]. rewrite E. split; auto.
    pose proof (C78_third (p3P C) k D Rn HD HR HT). lra.
  - eexists. split; [unfold calcZeta, one; cbn [option_map fst snd n_corr n_res]; rewrite !Rb by auto; reflexivity|].
    cbn [option_map n_corr one]. unfold zetaOf. rewrite A1, A2, B1, B2. destruct (Req_EM_T _ 0) as [F|_]; [contradiction|].
    unfold zeta1Spec, cnt3. field. repeat split; auto.
Qed.

(** ** One triangle: weights 1, 3/2, 1/2 for the data and 1, 1, 1 for the randoms *)
Definition ssD : list obj := [wobj 0 0 1 0; wobj (0 + 3) 0 (3/2) 1; wobj 0 4 (1/2) 2].
Lemma ss_auto : sumTriplesU t6 ssD = 3/4.
Proof. unfold ssD. cbn [sumTriplesU upairs map app sumR fst snd]. t6one. lra. Qed.
Lemma ss_RDD : sumPairs12 t6 (tri3 0 1) ssD = 11/4.
Proof. unfold sumPairs12, tri3, ssD. cbn [upairs map app sumR fst snd]. repeat t6one. lra. Qed.
Lemma ss_DRR : sumPairs12 t6 ssD (tri3 0 1) = 3.
Proof. unfold sumPairs12, tri3, ssD. cbn [upairs map app sumR fst snd]. repeat t6one. lra. Qed.
Lemma ss_w : sumw ssD = 3. Proof. unfold sumw, ssD. simpl. lra. Qed.
Lemma ss_w3 : weights3 TWeight (ssD ++ tri3 0 1).
Proof. intros o H. simpl in H. repeat destruct H as [<-|H]; try contradiction; cbn; lra. Qed.
Lemma ss_noTies : noTies (ssD ++ tri3 0 1).
Proof.
  apply two_noTies. intros o Ho. exists 0. split; [auto|]. apply in_app_or in Ho as [Ho|Ho].
  - destruct Ho as [<-|[<-|[<-|[]]]]; auto.
  - apply in_tri3 in Ho. auto.
Qed.
Lemma ss_triv l m o : In o l -> In o m -> triv3 (p3P zC) l m m = false.
Proof. intros H1 H2. apply (own_notTriv (p3P zC) l m o); auto. cbn. lra. Qed.
Lemma ss_runs : exists ddd rrr drr rdd,
  temp3 zC (CAuto (ssD, sumw ssD)) ddd /\ temp3 zC (CAuto (tri3 0 1, sumw (tri3 0 1))) rrr /\
  temp3 zC (C12 O0 (ssD, sumw ssD) (Some (tri3 0 1, sumw (tri3 0 1)))) drr /\
  temp3 zC (C12 O0 (tri3 0 1, sumw (tri3 0 1)) (Some (ssD, sumw ssD))) rdd.
Proof.
  set (pD := [mkpatch 0 ssD]). set (pR := [mkpatch 0 (tri3 0 1)]).
  assert (N1 : forall p, In p (pD ++ pR) -> pobjs p <> []) by (intros p [<-|[<-|[]]]; discriminate).
  assert (N2 : forall p, In p (pR ++ pD) -> pobjs p <> []) by (intros p [<-|[<-|[]]]; discriminate).
  destruct (zC_exists O0 1 1 pD pR ltac:(discriminate) N1) as [[s1 H1] [s2 H2]].
  destruct (zC_exists O0 1 1 pR pD ltac:(discriminate) N2) as [[s3 H3] [s4 H4]].
  inversion H1 as [|? ? ? ? ? [ddd [Q1 _]] _]; subst. inversion H2 as [|? ? ? ? ? [drr [Q2 _]] _]; subst.
  inversion H3 as [|? ? ? ? ? [rrr [Q3 _]] _]; subst. inversion H4 as [|? ? ? ? ? [rdd [Q4 _]] _]; subst.
  exists ddd, rrr, drr, rdd. repeat split; [exact Q1|exact Q3|exact Q2|exact Q4].
Qed.
(** No triangle has a fluctuation product that differs from 0 in sum, but calculateZeta gives -1/6. *)
Theorem C78_szapudi_refuted : exists D Rn ddd rrr drr rdd z,
  temp3 zC (CAuto (D, sumw D)) ddd /\ temp3 zC (CAuto (Rn, sumw Rn)) rrr /\
  temp3 zC (C12 O0 (D, sumw D) (Some (Rn, sumw Rn))) drr /\ temp3 zC (C12 O0 (Rn, sumw Rn) (Some (D, sumw D))) rdd /\
  (let one c := mkN3 c [] 1 1 1 in calcZeta (one ddd) (one rrr) (Some (one drr, one rdd)) = Some (z, [])) /\
  ssZeta (p3P zC) 1 D Rn = 0 /\ z 1%Z = - (1/6).
Proof.
  destruct ss_runs as [ddd [rrr [drr [rdd [Q1 [Q2 [Q3 Q4]]]]]]].
  assert (E3 : sumw (tri3 0 1) = 3) by (rewrite tri3_sumw; lra). pose proof ss_w as E1.
  assert (N3 : sumTriplesU (tri6 (p3P zC) TWeight 1) (tri3 0 1) <> 0) by (rewrite sumU_t6, one_auto; lra).
  destruct (C78_estimate zC ssD (tri3 0 1) ddd rrr drr rdd 1 zC_exact eq_refl ss_w3 ss_noTies zC_k) as [[z [Z1 [Z2 _]]] _]; auto; try lra.
  - apply (ss_triv _ _ (wobj 0 0 1 0)); left; reflexivity.
  - apply (ss_triv _ _ (wobj 0 0 1 0)); left; reflexivity.
  - exists ssD, (tri3 0 1), ddd, rrr, drr, rdd, z. do 5 (split; [assumption|]). split.
    + rewrite C78_szapudi by (auto; lra). unfold cnt3, cnt12. rewrite E1, E3.
      change (tri6 (p3P zC) TWeight 1) with t6. rewrite ss_auto, ss_RDD, ss_DRR, one_auto. field.
    + rewrite Z2. unfold zeta4Spec, cnt3, cnt12. rewrite E1, E3.
      change (tri6 (p3P zC) TWeight 1) with t6. rewrite ss_auto, ss_RDD, ss_DRR, one_auto. field.
Qed.

(** ** The documented calls drr.process(data, rand) use ordered=True: only triangles with the data point at
    vertex 1 are counted.  Data (3,0), randoms (0,0) and (0,4): one triangle, counted nowhere. *)
Theorem C78_ordered_refuted : exists D Rn,
  sumPairs12 (tri6 (p3P zC) TWeight 1) D Rn = 1 /\
  (exists drr, temp3 zC (C12 O1 (D, sumw D) (Some (Rn, sumw Rn))) drr) /\
  (forall drr, temp3 zC (C12 O1 (D, sumw D) (Some (Rn, sumw Rn))) drr -> k3acc drr TWeight 1%Z = 0) /\
  (forall drr, temp3 zC (C12 O0 (D, sumw D) (Some (Rn, sumw Rn))) drr -> k3acc drr TWeight 1%Z = 1).
Proof.
  set (a := wobj 0 0 1 0). set (b := wobj (0 + 3) 0 1 1). set (c := wobj 0 4 1 2).
  exists [b], [a; c].
  assert (NE : forall p, In p ([mkpatch 0 [b]] ++ [mkpatch 0 [a; c]]) -> pobjs p <> []) by (intros p [<-|[<-|[]]]; discriminate).
  assert (W : weights3 TWeight ([b] ++ [a; c])) by (intros o H; simpl in H; repeat destruct H as [<-|H]; try contradiction; cbn; lra).
  assert (T : noTies ([b] ++ [a; c])).
  { apply two_noTies. intros o Ho. exists 0. split; [auto|]. simpl in Ho. destruct Ho as [<-|[<-|[<-|[]]]]; auto. }
  assert (V : sumPairs12 t6 [b] [a; c] = 1).
  { unfold sumPairs12. cbn [upairs map app sumR fst snd]. rewrite t6_12. unfold a, b, c. rewrite t6_val. lra. }
  assert (CE : forall O, O <> O3 -> callExact zC TWeight 1 (C12 O ([b], sumw [b]) (Some ([a; c], sumw [a; c])))).
  { intros O HO. set (cl := C12 O ([b], sumw [b]) (Some ([a; c], sumw [a; c]))).
    apply (calls_exact zC TWeight 1 ([b] ++ [a; c]) [mkJ3 (0,0,0)%Z (0,0,0)%Z cl true] zC_exact W ltac:(auto)) with
      (J := mkJ3 (0,0,0)%Z (0,0,0)%Z cl true); [|left; auto]. intros J [<-|[]]. auto. }
  split; [exact V|]. split; [|split].
  - destruct (zC_exists O1 1 1 [mkpatch 0 [b]] [mkpatch 0 [a; c]] ltac:(discriminate) NE) as [_ [s2 H2]].
    inversion H2 as [|? ? ? ? ? [drr [Q2 _]] _]; subst. exists drr. exact Q2.
  - intros drr H. rewrite (CE O1 ltac:(discriminate) drr H). cbn [callVal].
    assert (F : forall x y z, ~ (side3 x y z <= side2 x y z <= side1 x y z) -> selTri (triP 0) 1 x y z = false).
    { intros x y z HF. destruct (selTri (triP 0) 1 x y z) eqn:E; auto. exfalso. apply HF.
      apply andb_true_iff in E as [E _]. apply shape_parts in E; [lra|apply triP_valid; lra]. }
    assert (S1 : euclid (opos b) (opos c) = 5) by (unfold b, c, wobj; cbn [opos]; apply euc; lra).
    assert (S2 : euclid (opos a) (opos c) = 4) by (unfold a, c, wobj; cbn [opos]; apply euc; lra).
    assert (S3 : euclid (opos a) (opos b) = 3) by (unfold a, b, wobj; cbn [opos]; apply euc; lra).
    pose proof (euclid_sym (opos b) (opos a)). pose proof (euclid_sym (opos c) (opos a)). pose proof (euclid_sym (opos c) (opos b)).
    assert (F1 : selTri (triP 0) 1 b a c = false) by (apply F; unfold side1, side2, side3; lra).
    assert (F2 : selTri (triP 0) 1 b c a = false) by (apply F; unfold side1, side2, side3; lra).
    change (sumPairs12 (tri1 (triP 0) TWeight 1) [b] [a; c] = 0).
    unfold sumPairs12. cbn [upairs map app sumR fst snd]. unfold tri1, tri. rewrite F1, F2. lra.
  - intros drr H. rewrite (CE O0 ltac:(discriminate) drr H). exact V.
Qed.
