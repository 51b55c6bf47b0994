(** C77: calculateZeta with patches for the data and none for the randoms. *)
From Coq Require Import Reals Lra Lia List ZArith Bool Permutation.
From Verif Require Import Base Geometry Tree Traverse Run Corr Patch Spec SpecRun GeomFacts SumFacts TreeFacts
  BinFacts TravFacts Exact MetricFacts Cover Lift Runs Examples Account PropsCount PropsRun PropsCorr PatchFacts
  PropsPatch PropsLocal Corr3 TriCover TriStop SpecTri TriFacts TriSpec PropsTri TriMirror PropsTri2
  Patch3 Patch3Facts Patch3Sum Patch3Res PropsPatch3 Cov CovFacts Comp Zeta ZetaFacts PropsZeta ZetaUn.
Import ListNotations.
Open Scope R_scope.

(** ddd.process(D) with n patches; rrr.process(R), drr.process(D, R, ordered=False) and
    rdd.process(R, D, ordered=False) with a catalog R without patches. *)
Definition whole (l : list obj) : list patch := [mkpatch 0 l].
Record zetaRunU (C : pcfg3) (n : Z) (D : list patch) (Rn : list obj) (sD : pstate3) (cR : corr3) (sDR sRD : pstate3) : Prop := mkZU {
  zu_X : exact3 (p3P C);
  zu_N : p3NNN C = true;
  zu_n : (2 <= n)%Z;
  zu_ND : NoDup (map pidx D);
  zu_W : weights3 TWeight (allRows D ++ Rn);
  zu_T : noTies (allRows D ++ Rn);
  zu_F1 : noForcedSkip C (cross12Jobs O0 n 1 D (whole Rn));
  zu_F2 : noForcedSkip C (cross12Jobs O0 1 n (whole Rn) D);
  zu_D : runJobs3 C s3clear (auto3Jobs D) sD;
  zu_R : temp3 C (CAuto (Rn, sumw Rn)) cR;
  zu_DR : runJobs3 C s3clear (cross12Jobs O0 n 1 D (whole Rn)) sDR;
  zu_RD : runJobs3 C s3clear (cross12Jobs O0 1 n (whole Rn) D) sRD }.
(** The fraction of the data's weight that is left without patch i. *)
Definition frac (i : Z) (D : list patch) : R := sumw (allRows (without i D)) / sumw (allRows D).

Lemma in_crossKey O n1 n2 A B q : In q (map jkey (cross12Jobs O n1 n2 A B)) <->
  exists a b, In a A /\ In b B /\ (q = (pidx a, pidx b, pidx b) \/ exists c, In c B /\ (pidx b < pidx c)%Z /\ q = (pidx a, pidx b, pidx c)).
Proof.
  rewrite in_map_iff. unfold cross12Jobs. split.
  - intros [J [<- HJ]]. apply in_flat_map in HJ as [a [Ha HJ]]. apply in_flat_map in HJ as [b [Hb HJ]]. cbv zeta in HJ.
    exists a, b. split; [auto|]. split; [auto|]. destruct HJ as [<-|HJ]; [left; reflexivity|].
    apply in_map_iff in HJ as [c [<- Hc]]. apply filter_In in Hc as [Hc L]. apply in_rev in Hc. apply Z.ltb_lt in L.
    right. exists c. auto.
  - intros [a [b [Ha [Hb H]]]]. destruct H as [->|[c [Hc [L ->]]]].
    + exists (job12 (pidx a, pidx b, pidx b) (pidx a, pidx b, pidx b) O a b ((pidx a =? pidx b) || (n1 =? 1) || (n2 =? 1))%Z).
      split; auto. apply in_flat_map. exists a. split; auto. apply in_flat_map. exists b. split; auto. left. reflexivity.
    + exists (job123 (pidx a, pidx b, pidx c) O a b c false). split; auto.
      apply in_flat_map. exists a. split; auto. apply in_flat_map. exists b. split; auto. right. apply in_map_iff.
      exists c. split; auto. apply filter_In. split; [apply in_rev; rewrite rev_involutive; auto|apply Z.ltb_lt; auto].
Qed.
Lemma only_all cats : only (fun _ => true) cats = cats.
Proof. unfold only. induction cats; simpl; congruence. Qed.
Lemma allRows_whole l : allRows (whole l) = l.
Proof. unfold allRows, whole. simpl. apply app_nil_r. Qed.

Lemma exists_not_idx cats : exists z, forall p, In p cats -> pidx p <> z.
Proof.
  assert (H : exists z, forall p, In p cats -> (pidx p < z)%Z).
  { induction cats as [|a t [z IH]]; [exists 0%Z; intros p []|]. exists (Z.max z (pidx a + 1)).
    intros p [<-|Hp]; [lia|]. specialize (IH p Hp). lia. }
  destruct H as [z H]. exists z. intros p Hp E. specialize (H p Hp). lia.
Qed.
Lemma filter_all_in {A} (p : A -> bool) l : (forall x, In x l -> p x = true) -> filter p l = l.
Proof. induction l as [|a l IH]; intro H; simpl; auto. rewrite (H a) by (left; auto). rewrite IH; auto. intros; apply H; right; auto. Qed.

Section RowsU.
Context (C : pcfg3) (n : Z) (D : list patch) (Rn : list obj) (sD : pstate3) (cR : corr3) (sDR sRD : pstate3).
Context (ZR : zetaRunU C n D Rn sD cR sDR sRD).
Context (k : Z) (Hk : (0 <= k < tntot (p3P C))%Z).
Let P := p3P C.
Let ne (i : Z) (z : Z) : bool := negb (z =? i)%Z.
Let all (_ : Z) : bool := true.
Lemma uW : weights3 TWeight (allRows D) /\ weights3 TWeight Rn /\ noTies (allRows D) /\ noTies Rn.
Proof.
  destruct ZR. repeat split; [eapply weights3_sub; [|exact zu_W0]|eapply weights3_sub; [|exact zu_W0]|
    eapply noTies_sub; [|exact zu_T0]|eapply noTies_sub; [|exact zu_T0]]; intros; apply in_or_app; auto.
Qed.
Lemma uD : stores TWeight k (s3res sD) (fun i => sumTriplesU (tri6 P TWeight k) (allRows (without i D)))
  (fun i => let w := sumw (allRows (without i D)) in 1/6 * (w * w * w)) /\ length (s3res sD) = length (auto3Jobs D) /\
  (forall q, In q (keys3 (s3res sD)) <-> In q (map jkey (auto3Jobs D))).
Proof. destruct uW as [W1 [W2 [T1 T2]]]. destruct ZR. apply auto_stores; auto. Qed.
Lemma uR : k3acc cR TWeight k = sumTriplesU (tri6 P TWeight k) Rn /\ k3tot cR = 1/6 * (sumw Rn * sumw Rn * sumw Rn).
Proof.
  destruct uW as [W1 [W2 [T1 T2]]]. destruct ZR. split.
  - pose proof (calls_exact C TWeight k Rn [mkJ3 (0,0,0)%Z (0,0,0)%Z (CAuto (Rn, sumw Rn)) true] zu_X0 W2 ltac:(auto)) as H.
    assert (CE : callExact C TWeight k (CAuto (Rn, sumw Rn))).
    { apply (H) with (J := mkJ3 (0,0,0)%Z (0,0,0)%Z (CAuto (Rn, sumw Rn)) true); [|left; auto].
      intros J [<-|[]]. cbn. split; auto. }
    rewrite (CE cR zu_R0). reflexivity.
  - destruct zu_R0 as [t [_ ->]]. cbn [k3tot]. rewrite zu_N0. cbn [callTot snd]. lra.
Qed.
Lemma swapU : weights3 TWeight (allRows (whole Rn) ++ allRows D) /\ noTies (allRows (whole Rn) ++ allRows D) /\
  weights3 TWeight (allRows D ++ allRows (whole Rn)) /\ noTies (allRows D ++ allRows (whole Rn)).
Proof.
  rewrite allRows_whole. destruct ZR. repeat split; auto; [eapply weights3_sub; [|exact zu_W0]|eapply noTies_sub; [|exact zu_T0]];
    intros o; rewrite !in_app_iff; tauto.
Qed.
Lemma uDR : storesP P k (s3res sDR) (cross12Jobs O0 n 1 D (whole Rn))
    (fun u v => sumPairs12 (tri6 P TWeight k) (allRows (only u D)) (allRows (only v (whole Rn))))
    (fun u v => let w1 := sumw (allRows (only u D)) in let w2 := sumw (allRows (only v (whole Rn))) in 1/2 * w1 * (w2 * w2)).
Proof. destruct swapU as [_ [_ [W T]]]. destruct ZR. apply cross12_storesP; auto. repeat constructor. intros []. Qed.
Lemma uRD : storesP P k (s3res sRD) (cross12Jobs O0 1 n (whole Rn) D)
    (fun u v => sumPairs12 (tri6 P TWeight k) (allRows (only u (whole Rn))) (allRows (only v D)))
    (fun u v => let w1 := sumw (allRows (only u (whole Rn))) in let w2 := sumw (allRows (only v D)) in 1/2 * w1 * (w2 * w2)).
Proof. destruct swapU as [W [T _]]. destruct ZR. apply cross12_storesP; auto. repeat constructor. intros []. Qed.

(** The triples of a row. *)
Lemma jackU i l : jack3 n n n i l = filter (avoids i) l.
Proof. destruct ZR. unfold jack3. apply filter_ext. intro q. rewrite (proj2 (Z.eqb_neq n 1)) by lia. reflexivity. Qed.
Lemma diagU i : Permutation (filter allEq (filter (avoids i) (keys3 (s3res sD)))) (map lkey (without i D)).
Proof.
  destruct uD as [[A1 _ _ _] [_ A6]]. destruct ZR.
  rewrite (diag_perm D (s3res sD) (avoids i) zu_ND0 A1 A6). unfold without.
  erewrite filter_ext; [reflexivity|]. intro a. unfold avoids, lkey. cbn [fst snd].
  destruct (pidx a =? i)%Z; auto.
Qed.
Lemma areaU i : (exists a, In a D /\ 0 < sumw (pobjs a)) ->
  areaTot3 (s3res sD) (filter (avoids i) (keys3 (s3res sD))) =
  1/6 * (sumw (allRows D) * sumw (allRows D) * sumw (allRows D)) * frac i D.
Proof.
  intros [a0 [Ha0 Hp0]]. unfold areaTot3. destruct uW as [W1 [W2 [T1 T2]]]. pose proof uD as [[A1 A2 A3 A4] [A5 A6]].
  assert (NN : forall a, In a D -> 0 <= sumw (pobjs a)).
  { intros a Ha. apply sumR_nonneg. intros o Ho. apply (W1 o). unfold allRows. apply in_concat. exists (pobjs a). split; auto. apply in_map; auto. }
  assert (RT : forall a, In a D -> cbrt (k3tot (getRes3 (s3res sD) (lkey a))) = Rpower (1/6) (1/3) * sumw (pobjs a)).
  { intros a Ha. destruct ZR. rewrite (auto_diag C D k sD a) by auto. apply cbrt_cube; [lra|auto]. }
  assert (SR : forall L, (forall a, In a L -> In a D) ->
    sumR (fun q => cbrt (k3tot (getRes3 (s3res sD) q))) (map lkey L) = Rpower (1/6) (1/3) * sumw (allRows L)).
  { intros L HL. rewrite sumR_map, sumw_allRows, <- sumR_scal. apply sumR_ext. intros a Ha. apply RT. auto. }
  rewrite (sumR_perm _ _ _ (diagU i)), SR by (intros a Ha; apply filter_In in Ha as [Ha _]; auto).
  assert (EA : Permutation (filter allEq (keys3 (s3res sD))) (map lkey D)).
  { destruct ZR. pose proof (diag_perm D (s3res sD) (fun _ => true) zu_ND0 A1 A6) as H.
    replace (filter (fun _ : key3 => true) (keys3 (s3res sD))) with (keys3 (s3res sD)) in H
      by (clear; induction (keys3 (s3res sD)); simpl; congruence).
    replace (filter (fun a : patch => true) D) with D in H by (clear; induction D; simpl; congruence). exact H. }
  rewrite (sumR_perm _ _ _ EA), SR by auto.
  assert (TT : sumR (fun e => k3tot (snd e)) (s3res sD) = 1/6 * (sumw (allRows D) * sumw (allRows D) * sumw (allRows D))).
  { destruct (exists_not_idx D) as [z Hz]. specialize (A4 z). unfold sumTot in A4.
    rewrite (without_none D z Hz) in A4. rewrite <- A4. f_equal. symmetry. apply filter_all_in.
    intros e He. assert (Hq : In (fst e) (keys3 (s3res sD))) by (apply in_map; auto). apply A6 in Hq.
    unfold avoids. apply auto_keys_eq in Hq as [[a [Ha ->]]|[[a [b [Ha [Hb [_ [->| ->]]]]]]|[a [b [c [Ha [Hb [Hc [_ ->]]]]]]]]];
      unfold lkey; cbn [fst snd]; rewrite !andb_true_iff, !negb_true_iff, !Z.eqb_neq; auto. }
  rewrite TT. unfold frac.
  assert (0 < Rpower (1/6) (1/3)) by apply exp_pos.
  assert (0 < sumw (allRows D)).
  { rewrite sumw_allRows. clear - Ha0 Hp0 NN. induction D as [|b t IH]; [destruct Ha0|]. cbn [sumR].
    assert (0 <= sumw (pobjs b)) by (apply NN; left; auto).
    assert (0 <= sumR (fun p => sumw (pobjs p)) t) by (apply sumR_nonneg; intros; apply NN; right; auto).
    destruct Ha0 as [->|Ha0]; [lra|]. assert (0 < sumR (fun p => sumw (pobjs p)) t) by (apply IH; auto; intros; apply NN; right; auto). lra. }
  f_equal. field. split; lra.
Qed.

Lemma drrU i : Permutation (drrPairs (mkN3 (s3self sDR) (s3res sDR) n 1 1) (filter (avoids i) (keys3 (s3res sD))))
  (filter (pick (ne i) all) (keys3 (s3res sDR))).
Proof.
  destruct uDR as [B1 _ B3 _ _]. unfold drrPairs. cbn [n_n2]. rewrite Z.eqb_refl, (diagU i), map_map.
  apply NoDup_Permutation.
  - replace (map (fun x => (c1 (lkey x), 0, 0)%Z) (without i D)) with (map (fun z => (z, 0, 0)%Z) (map pidx (without i D)))
      by (rewrite map_map; reflexivity).
    apply FinFun.Injective_map_NoDup; [intros x y E; injection E; auto|]. destruct ZR. apply without_NoDup; auto.
  - apply NoDup_filter; auto.
  - intro q. rewrite filter_In, B3, in_crossKey, in_map_iff. split.
    + intros [a [<- Ha]]. apply filter_In in Ha as [Ha Hi]. split.
      * exists a, (mkpatch 0 Rn). split; [auto|]. split; [left; auto|]. left. reflexivity.
      * unfold pick, ne, all, c1, lkey. cbn [fst snd]. rewrite Hi. auto.
    + intros [[a [b [Ha [[<-|[]] H]]]] Hp]. destruct H as [->|[c [[<-|[]] [L _]]]]; [|cbn in L; lia].
      exists a. split; [reflexivity|]. apply filter_In. split; auto. unfold pick, ne, all, c1 in Hp. cbn [fst snd] in Hp.
      rewrite andb_true_r in Hp. exact Hp.
Qed.
Lemma rddU i : Permutation (rddPairs (mkN3 (s3self sRD) (s3res sRD) 1 n n) (filter (avoids i) (keys3 (s3res sD))))
  (filter (pick all (ne i)) (keys3 (s3res sRD))).
Proof.
  destruct uRD as [B1 _ B3 _ _]. pose proof uD as [[A1 _ _ _] [_ A6]]. unfold rddPairs. cbn [n_n1 n_res]. rewrite Z.eqb_refl. cbn [andb].
  destruct (forallb (fun q => (c1 q =? 0)%Z) (filter (avoids i) (keys3 (s3res sD)))) eqn:EF; cbn [negb].
  - (* only patch 0 is left *)
    rewrite forallb_forall in EF.
    assert (Z0 : forall a, In a D -> pidx a <> i -> pidx a = 0%Z).
    { intros a Ha Hi. apply Z.eqb_eq. change (pidx a) with (c1 (lkey a)). apply EF. apply filter_In. split.
      - apply A6. apply in_autoKey_diag; auto.
      - unfold avoids, lkey. cbn [fst snd]. rewrite (proj2 (Z.eqb_neq _ _) Hi). auto. }
    apply NoDup_Permutation; try (repeat apply NoDup_filter; auto). intro q. rewrite !filter_In, ok3_In. split.
    + intros [[H1 H2] H3]. split; auto. unfold avoids in H2. apply andb_true_iff in H2 as [H2 H2c]. apply andb_true_iff in H2 as [_ H2b].
      unfold pick, all, ne, c2, c3. rewrite H2b, H2c. auto.
    + intros [H1 H2]. pose proof H1 as HK. apply B3 in HK. rewrite in_crossKey in HK.
      destruct HK as [r [b [[<-|[]] [Hb HK]]]]. unfold pick, all, ne in H2. cbn [andb] in H2. apply andb_true_iff in H2 as [H2 H2'].
      apply negb_true_iff, Z.eqb_neq in H2, H2'.
      destruct HK as [->|[c [Hc [L ->]]]]; cbn [c2 c3 fst snd pidx] in *; unfold c2, c3 in *; cbn [fst snd] in *.
      * assert (Hz : pidx b = 0%Z) by auto. rewrite Hz in *.
        split; auto. split; [apply A6; replace (0,0,0)%Z with (lkey b) by (unfold lkey; congruence); apply in_autoKey_diag; auto|].
        unfold avoids. cbn [fst snd]. rewrite (proj2 (Z.eqb_neq _ _) H2). auto.
      * assert (pidx b = 0%Z) by auto. assert (pidx c = 0%Z) by auto. lia.
  - assert (HQ : forall q, In q (filter (fun q => (c1 q =? c2 q)%Z || (c1 q =? c3 q)%Z) (filter (avoids i) (keys3 (s3res sD)))) ->
      c1 q = c2 q /\ exists b, In b D /\ pidx b = c2 q /\ pidx b <> i /\ (c3 q = pidx b \/ exists c, In c D /\ (pidx b < pidx c)%Z /\ pidx c <> i /\ c3 q = pidx c)).
    { intros q Hq. apply filter_In in Hq as [Hq HE]. apply filter_In in Hq as [Hq HA]. apply A6 in Hq.
      apply orb_true_iff in HE. rewrite !Z.eqb_eq in HE. unfold avoids in HA. rewrite !andb_true_iff, !negb_true_iff, !Z.eqb_neq in HA.
      apply auto_keys_eq in Hq as [[a [Ha ->]]|[[a [b [Ha [Hb [L [->| ->]]]]]]|[a [b [c [Ha [Hb [Hc [L ->]]]]]]]]];
        unfold lkey, c1, c2, c3 in *; cbn [fst snd] in *; try lia.
      - split; auto. exists a. intuition.
      - split; auto. exists a. repeat split; auto; [tauto|]. right. exists b. intuition. }
    apply NoDup_Permutation.
    + apply NoDup_map_in; [repeat apply NoDup_filter; auto|]. intros q q' Hq Hq' E.
      destruct (HQ q Hq) as [E1 _], (HQ q' Hq') as [E2 _]. injection E as E3 E4. destruct q as [[x y] z], q' as [[x' y'] z'].
      unfold c1, c2, c3 in *; cbn [fst snd] in *. congruence.
    + apply NoDup_filter; auto.
    + intro q. rewrite in_map_iff, filter_In, B3, in_crossKey. split.
      * intros [q' [<- Hq]]. destruct (HQ q' Hq) as [_ [b [Hb [Eb [Hi H]]]]]. split.
        { exists (mkpatch 0 Rn), b. split; [left; auto|]. split; auto. rewrite <- Eb. destruct H as [->|[c [Hc [L [_ ->]]]]].
          - left. reflexivity.
          - right. exists c. auto. }
        unfold pick, all, ne. unfold c2 at 1, c3 at 1. cbn [fst snd andb]. rewrite <- Eb, andb_true_iff, !negb_true_iff, !Z.eqb_neq.
        split; auto. destruct H as [->|[c [Hc [L [Hci ->]]]]]; auto.
      * intros [[r [b [[<-|[]] [Hb H]]]] Hp]. unfold pick, all, ne in Hp. cbn [andb] in Hp.
        rewrite andb_true_iff, !negb_true_iff, !Z.eqb_neq in Hp. destruct H as [->|[c [Hc [L ->]]]]; unfold c2, c3 in Hp; cbn [fst snd] in Hp.
        { exists (lkey b). split; [reflexivity|]. apply filter_In. split; [apply filter_In; split; [apply A6, in_autoKey_diag; auto|]|].
          - unfold avoids, lkey. cbn [fst snd]. rewrite (proj2 (Z.eqb_neq _ _) (proj1 Hp)). auto.
          - unfold lkey, c1, c2. cbn [fst snd]. rewrite Z.eqb_refl. auto. }
        { exists (pidx b, pidx b, pidx c). split; [reflexivity|]. apply filter_In. split; [apply filter_In; split; [apply A6, in_autoKey_iij; auto|]|].
          - unfold avoids. cbn [fst snd]. destruct Hp as [Hp Hq]. rewrite (proj2 (Z.eqb_neq _ _) Hp), (proj2 (Z.eqb_neq _ _) Hq). auto.
          - unfold c1, c2. cbn [fst snd]. rewrite Z.eqb_refl. auto. }
Qed.

(** The row formulas. *)
Definition othU (b : bool) : option (nnn * nnn) :=
  if b then Some (mkN3 (s3self sDR) (s3res sDR) n 1 1, mkN3 (s3self sRD) (s3res sRD) 1 n n) else None.
Definition specU (b : bool) (i : Z) : R :=
  let D' := allRows (without i D) in
  let f2 := frac i D * frac i D in
  if b then (cnt3 P k D' * f2 - cnt12 P k Rn D' + cnt12 P k D' Rn - cnt3 P k Rn) / cnt3 P k Rn
  else (cnt3 P k D' * f2 - cnt3 P k Rn) / cnt3 P k Rn.
Lemma withoutU i : only (ne i) D = without i D. Proof. reflexivity. Qed.
Lemma rowU b i : sumw (allRows (without i D)) <> 0 -> sumw Rn <> 0 -> sumTriplesU (tri6 P TWeight k) Rn <> 0 ->
  exists s, zetaFrom P (s3res sD) (mkN3 cR [] 1 1 1) (othU b) (jack3 n n n i (keys3 (s3res sD))) = Some s /\
    q3_zeta s k = specU b i.
Proof.
  intros HD HR HT. rewrite jackU. pose proof uD as [[A1 A2 A3 A4] [A5 A6]]. destruct uR as [R1 R2].
  pose proof (proj2 (in_places P k) Hk) as HK. destruct uW as [W1 _].
  assert (NN : forall l, (forall o, In o l -> In o (allRows D)) -> 0 <= sumw l).
  { intros l Hl. apply sumR_nonneg. intros o Ho. apply (W1 o). auto. }
  assert (HP : exists a, In a (without i D) /\ 0 < sumw (pobjs a)).
  { assert (NA : forall a, In a (without i D) -> 0 <= sumw (pobjs a)).
    { intros a Ha. apply NN. intros o Ho. apply filter_In in Ha as [Ha _]. apply in_concat. exists (pobjs a). split; auto. apply in_map; auto. }
    rewrite sumw_allRows in HD. clear - HD NA. induction (without i D) as [|a t IH]; [exfalso; apply HD; reflexivity|].
    destruct (Rle_lt_or_eq_dec 0 (sumw (pobjs a)) (NA a (or_introl eq_refl))) as [L|E].
    - exists a. split; [left; auto|auto].
    - destruct IH as [a' [H1 H2]]; [intro H; apply HD; cbn [sumR]; rewrite H; lra|intros; apply NA; right; auto|].
      exists a'. split; [right; auto|auto]. }
  assert (HD0 : sumw (allRows D) <> 0).
  { assert (0 < sumw (allRows (without i D))) by (destruct (Rle_lt_or_eq_dec 0 (sumw (allRows (without i D)))); [|auto|congruence];
      apply NN; intros o Ho; apply in_concat in Ho as [l [Hl Ho]]; apply in_map_iff in Hl as [a [<- Ha]];
      apply filter_In in Ha as [Ha _]; apply in_concat; exists (pobjs a); split; auto; apply in_map; auto).
    assert (sumw (allRows (without i D)) <= sumw (allRows D)).
    { rewrite !sumw_allRows. unfold without. clear - NN. induction D as [|a t IH]; cbn [filter sumR]; [lra|].
      assert (0 <= sumw (pobjs a)) by (apply NN; intros o Ho; apply in_concat; exists (pobjs a); split; [left|]; auto).
      assert (sumR (fun p => sumw (pobjs p)) (filter (fun p => negb (pidx p =? i)%Z) t) <= sumR (fun p => sumw (pobjs p)) t).
      { apply IH. intros l Hl. apply NN. intros o Ho. specialize (Hl o Ho). unfold allRows in *. simpl. apply in_or_app. auto. }
      destruct (negb (pidx a =? i)%Z); cbn [sumR]; lra. }
    lra. }
  destruct (sum_perm P (s3res sD) (avoids i) (filter (avoids i) (keys3 (s3res sD))) A1 A2 ltac:(auto)) as [cD [SD [VD TD]]].
  specialize (VD TWeight k HK). rewrite A3 in VD.
  unfold zetaFrom. rewrite SD. unfold rrrTerm. cbn [hasRes3 n_res n_corr].
  assert (AR : areaTot3 (s3res sD) (filter (avoids i) (keys3 (s3res sD))) =
    1/6 * (sumw (allRows D) * sumw (allRows D) * sumw (allRows D)) * frac i D).
  { apply areaU. destruct HP as [a [Ha Hp]]. apply filter_In in Ha as [Ha _]. exists a. auto. }
  rewrite AR. set (W := sumw (allRows D)) in *. set (w := sumw (allRows (without i D))) in *. set (r := sumw Rn) in *.
  assert (EF : frac i D = w / W) by reflexivity.
  assert (DE : k3acc cR TWeight k * (1/6 * (W * W * W) * frac i D / k3tot cR) <> 0).
  { rewrite R1, R2, EF. unfold Rdiv. repeat (apply Rmult_integral_contrapositive_currified || apply Rinv_neq_0_compat); auto; lra. }
  destruct b; cbn [othU].
  - destruct uDR as [B1 B2 B3 B4 B5], uRD as [E1 E2 E3 E4 E5].
    destruct (sum_perm P (s3res sDR) _ _ B1 B2 (drrU i)) as [cDR [SDR [VDR TDR]]].
    destruct (sum_perm P (s3res sRD) _ _ E1 E2 (rddU i)) as [cRD [SRD [VRD TRD]]].
    specialize (VDR TWeight k HK). specialize (VRD TWeight k HK). rewrite B4 in VDR. rewrite E4 in VRD. rewrite B5 in TDR. rewrite E5 in TRD.
    cbn [n_res]. rewrite SDR, SRD. eexists. split; [reflexivity|]. cbn [q3_zeta]. unfold zetaRow. cbn [fst snd].
    destruct (Req_EM_T _ 0) as [F|_]; [contradiction|].
    unfold all in VDR, VRD, TDR, TRD. rewrite !only_all, !withoutU, !allRows_whole in VDR, VRD, TDR, TRD. cbv zeta in TDR, TRD.
    rewrite VD, VDR, VRD, TDR, TRD, R1, R2. unfold specU, cnt3, cnt12. cbv zeta. rewrite EF. fold w r. field. repeat split; auto.
  - eexists. split; [reflexivity|]. cbn [q3_zeta]. unfold zetaRow. cbn [fst snd].
    destruct (Req_EM_T _ 0) as [F|_]; [contradiction|].
    rewrite VD, R1, R2. unfold specU, cnt3. cbv zeta. rewrite EF. fold w r. field. repeat split; auto.
Qed.
(** The arrays of the whole estimate. *)
Lemma selfU : k3acc (s3self sD) TWeight k = sumTriplesU (tri6 P TWeight k) (allRows D) /\
  k3acc (s3self sDR) TWeight k = sumPairs12 (tri6 P TWeight k) (allRows D) Rn /\
  k3acc (s3self sRD) TWeight k = sumPairs12 (tri6 P TWeight k) Rn (allRows D).
Proof.
  destruct uW as [W1 [W2 [T1 T2]]]. destruct swapU as [W3 [T3 [W4 T4]]]. destruct ZR.
  assert (CR : forall n1 n2 A B st, weights3 TWeight (allRows A ++ allRows B) -> noTies (allRows A ++ allRows B) ->
    NoDup (map pidx B) -> runJobs3 C s3clear (cross12Jobs O0 n1 n2 A B) st ->
    k3acc (s3self st) TWeight k = sumPairs12 (tri6 P TWeight k) (allRows A) (allRows B)).
  { intros n1 n2 A B st Wc Tc Nc Rc. rewrite (jobs3_get C TWeight k s3clear (cross12Jobs O0 n1 n2 A B) st); auto using exact3_okMin.
    - rewrite cross12Jobs_val by (auto; discriminate). simpl. unfold cleared3, P. lra.
    - apply in_places; auto.
    - apply (calls_exact C TWeight k (allRows A ++ allRows B)); auto.
      intros J HJ. destruct (cross12_calls O0 n1 n2 A B J ltac:(discriminate) HJ) as [_ Q]. exact Q. }
  repeat split.
  - rewrite (jobs3_get C TWeight k s3clear (auto3Jobs D) sD); auto using exact3_okMin.
    + rewrite auto3Jobs_val by auto. simpl. unfold cleared3, P. lra.
    + apply in_places; auto.
    + apply (calls_exact C TWeight k (allRows D)); auto. intros; apply auto3_calls; auto.
  - rewrite (CR _ _ _ _ _ W4 T4 ltac:(repeat constructor; intros []) zu_DR0), allRows_whole. auto.
  - rewrite (CR _ _ _ _ _ W3 T3 zu_ND0 zu_RD0), allRows_whole. auto.
Qed.
End RowsU.

(** With randoms without patches, row i is computed from the data without patch i and all the randoms; the
    counts of the data are scaled by f^2, where f is the weight left divided by the whole weight (taken for the
    fraction of the area); nothing is scaled in the terms rdd and drr. *)
Theorem C77_unpatched C n D Rn sD cR sDR sRD k (comp : bool) :
  zetaRunU C n D Rn sD cR sDR sRD -> (0 <= k < tntot (p3P C))%Z ->
  sumw (allRows D) <> 0 -> sumw Rn <> 0 -> sumTriplesU (tri6 (p3P C) TWeight k) Rn <> 0 ->
  let ddd := nOf n sD in
  let rrr := mkN3 cR [] 1 1 1 in
  let others := if comp then Some (mkN3 (s3self sDR) (s3res sDR) n 1 1, mkN3 (s3self sRD) (s3res sRD) 1 n n) else None in
  let P := p3P C in
  exists z d, calcZeta ddd rrr others = Some (z, d) /\
    z k = (if comp then zeta4Spec P k (allRows D) Rn else zeta1Spec P k (allRows D) Rn) /\
    forall i, sumw (allRows (without i D)) <> 0 ->
    exists s, zetaFrom P d rrr others (jack3 n n n i (keys3 d)) = Some s /\
      let D' := allRows (without i D) in
      let f := frac i D in
      q3_zeta s k = if comp then (cnt3 P k D' * (f * f) - cnt12 P k Rn D' + cnt12 P k D' Rn - cnt3 P k Rn) / cnt3 P k Rn
                    else (cnt3 P k D' * (f * f) - cnt3 P k Rn) / cnt3 P k Rn.
Proof.
  intros HZ Hk HD0 HR HT ddd rrr others P.
  assert (HR2 := uR C n D Rn sD cR sDR sRD HZ k). destruct HR2 as [V T].
  destruct (selfU C n D Rn sD cR sDR sRD HZ k Hk) as [V1 [V2 V3]].
  pose proof HZ as HZ'. destruct HZ' as [X NN Hn N W T0 F1 F2 R1 R2 R3 R4].
  assert (U1 : k3tot (s3self sD) = 1/6 * (sumw (allRows D) * sumw (allRows D) * sumw (allRows D))) by (apply (C68_auto_tot C D sD NN N R1)).
  assert (U3 : k3tot (s3self sDR) = 1/2 * sumw (allRows D) * (sumw Rn * sumw Rn)).
  { pose proof (proj1 (C68_cross_tot C O0 n 1 1 D (whole Rn) [] NN) sDR ltac:(repeat constructor; intros []) F1 R3) as U.
    rewrite allRows_whole in U. exact U. }
  assert (U4 : k3tot (s3self sRD) = 1/2 * sumw Rn * (sumw (allRows D) * sumw (allRows D))).
  { pose proof (proj1 (C68_cross_tot C O0 1 n n (whole Rn) D [] NN) sRD N F2 R4) as U.
    rewrite allRows_whole in U. exact U. }
  assert (Rb : forall x, x <> 0 -> Reqb x 0 = false) by (intros x Hx; unfold Reqb; destruct (Req_EM_T x 0); [contradiction|auto]).
  assert (Z1 : k3tot cR <> 0) by (rewrite T; repeat apply Rmult_integral_contrapositive_currified; auto; lra).
  assert (Z0 : 1/6 * (sumw (allRows D) * sumw (allRows D) * sumw (allRows D)) <> 0) by (repeat apply Rmult_integral_contrapositive_currified; auto; lra).
  assert (Z2 : k3tot (s3self sDR) <> 0) by (rewrite U3; repeat apply Rmult_integral_contrapositive_currified; auto; lra).
  assert (Z3 : k3tot (s3self sRD) <> 0) by (rewrite U4; repeat apply Rmult_integral_contrapositive_currified; auto; lra).
  assert (HS : forall n1 n2 A B st, sumw (allRows A) <> 0 -> sumw (allRows B) <> 0 ->
    (forall q, In q (keys3 (s3res st)) <-> In q (map jkey (cross12Jobs O0 n1 n2 A B))) -> hasRes3 (s3res st) = true).
  { intros n1 n2 A B st HA HB HQ. destruct (s3res st) eqn:E; auto. exfalso.
    destruct A as [|a A]; [apply HA; reflexivity|]. destruct B as [|b B]; [apply HB; reflexivity|].
    apply (proj2 (HQ (pidx a, pidx b, pidx b))). apply in_crossKey. exists a, b. simpl. auto 6. }
  pose proof (sp_keys _ _ _ _ _ _ (uDR C n D Rn sD cR sDR sRD HZ k Hk)) as K1.
  pose proof (sp_keys _ _ _ _ _ _ (uRD C n D Rn sD cR sDR sRD HZ k Hk)) as K2.
  assert (HR0 : sumw (allRows (whole Rn)) <> 0) by (rewrite allRows_whole; auto).
  pose proof (HS _ _ _ _ _ HD0 HR0 K1) as H1.
  pose proof (HS _ _ _ _ _ HR0 HD0 K2) as H2.
  exists (zetaOf (s3self sD) cR (if comp then Some (s3self sDR, s3self sRD) else None)), (s3res sD).
  split; [|split].
  - unfold calcZeta, ddd, rrr, others. destruct comp; cbn [option_map fst snd nOf n_corr n_res];
      rewrite ?(Rb _ Z1), ?(Rb _ Z2), ?(Rb _ Z3); cbn [orb]; destruct (s3res sD) eqn:ED; auto;
      unfold patchesOK; cbn [nOf n_n1 n_n2 n_res]; rewrite ?H1, ?H2, ?Z.eqb_refl, ?orb_true_r; cbn [andb orb];
      unfold withDummies; cbn [n_n1 n_n2 n_res nOf]; rewrite ?Z.eqb_refl; rewrite ED; reflexivity.
  - unfold zetaOf. rewrite V, V1. destruct (Req_EM_T _ 0) as [F|_]; [contradiction|].
    destruct comp; unfold zeta4Spec, zeta1Spec, cnt3, cnt12.
    + rewrite V2, V3, U1, U3, U4, T. fold P. field. repeat split; auto.
    + rewrite U1, T. fold P. field. repeat split; auto.
  - intros i HD. destruct (rowU C n D Rn sD cR sDR sRD HZ k Hk comp i HD HR HT) as [s [S1 S2]].
    exists s. split; [exact S1|exact S2].
Qed.
