(** C77: examples and refutations. *)
From Coq Require Import Reals Lra Lia List ZArith Bool Permutation.
From Verif Require Import Base Geometry Tree Traverse Run Corr Patch Spec SpecRun GeomFacts SumFacts TreeFacts
  BinFacts TravFacts Exact MetricFacts Cover Lift Runs Examples Account PropsCount PropsRun PropsCorr PatchFacts
  PropsPatch PropsLocal Corr3 TriCover TriStop SpecTri TriFacts TriSpec PropsTri TriMirror PropsTri2 PropsTri3
  Patch3 Patch3Facts Patch3Sum Patch3Res PropsPatch3 PropsPatch3Ex Cov CovFacts Comp Zeta ZetaFacts PropsZeta ZetaUn PropsZeta2 ZetaEx.
Import ListNotations.
Open Scope R_scope.

Lemma zC_k : (0 <= 1 < tntot (p3P zC))%Z. Proof. vm_compute. split; congruence. Qed.
Lemma catW_app_weights w v : 0 < w -> 0 < v -> weights3 TWeight (allRows (catW w) ++ allRows (catW v)).
Proof. intros Hw Hv o Ho. apply in_app_or in Ho as [Ho|Ho]; [apply (catW_weights w TWeight Hw)|apply (catW_weights v TWeight Hv)]; auto. Qed.
Lemma catW_app_noTies w v : noTies (allRows (catW w) ++ allRows (catW v)).
Proof. apply two_noTies. intros o Ho. apply in_app_or in Ho as [Ho|Ho]; eapply in_catW; eauto. Qed.
Lemma zC_exists O n1 n2 A B : O <> O3 -> (forall p, In p (A ++ B) -> pobjs p <> []) ->
  (exists st, runJobs3 zC s3clear (auto3Jobs A) st) /\ (exists st, runJobs3 zC s3clear (cross12Jobs O n1 n2 A B) st).
Proof.
  intros HO H. destruct (C68_exists zC O n1 n2 1 A B []) as [E1 [E2 _]]; auto using zC_slop.
  - apply zC_exact.
  - intros p Hp. rewrite app_nil_r in Hp. auto.
Qed.
Lemma catW_ne2 w v p : In p (catW w ++ catW v) -> pobjs p <> [].
Proof. intro H. apply in_app_or in H as [H|H]; eapply catW_ne; eauto. Qed.

(** Two patches, each with one triangle of shape 1; one data point has weight 2. *)
Example C77_example : exists sD sR sDR sRD, zetaRun zC 2 (catW 2) (catW 1) sD sR sDR sRD /\
  fit (p3P zC) 1 (catW 2) (catW 1) /\
  (forall i, (0 <= i < 2)%Z -> fit (p3P zC) 1 (without i (catW 2)) (without i (catW 1))) /\
  zeta4Spec (p3P zC) 1 (allRows (catW 2)) (allRows (catW 1)) = - (12/343) /\
  zeta4Spec (p3P zC) 1 (allRows (without 0 (catW 2))) (allRows (without 0 (catW 1))) = 0.
Proof.
  destruct (zC_exists O0 2 2 (catW 2) (catW 1) ltac:(discriminate) (catW_ne2 2 1)) as [[sD H1] [sDR H3]].
  destruct (zC_exists O0 2 2 (catW 1) (catW 2) ltac:(discriminate) (catW_ne2 1 2)) as [[sR H2] [sRD H4]].
  exists sD, sR, sDR, sRD. split; [|split; [|split; [|split]]].
  - constructor; auto using zC_exact, catW_ND, catW_app_noTies; try lia; try reflexivity.
    + apply catW_app_weights; lra.
    + apply catW_force; lia.
    + apply catW_force; lia.
  - unfold fit. rewrite !catW_sumw, sumU_t6, catW_rows, two_auto. repeat split; lra.
  - intros i Hi. assert (E : i = 0%Z \/ i = 1%Z) by lia. unfold fit. destruct E as [-> | ->].
    + rewrite !catW_without0, !tri3_sumw, sumU_t6, one_auto. repeat split; lra.
    + rewrite !catW_without1, !tri3_sumw, sumU_t6, one_auto. repeat split; lra.
  - unfold zeta4Spec, cnt3, cnt12. rewrite !catW_sumw, !sumU_t6, !sum12_t6, !catW_rows, !two_auto, !two_cross. field.
  - unfold zeta4Spec, cnt3, cnt12. rewrite !catW_without0, !tri3_sumw, !sumU_t6, !sum12_t6, !one_auto, !one_cross. field.
Qed.

(** ** Randoms without patches *)
Lemma whole_force A n1 n2 w l : (forall p, In p (catW w) -> exists o, In o (pobjs p) /\ In o l) ->
  A = (catW w) -> noForcedSkip zC (cross12Jobs O0 n1 n2 A (whole l)) /\ noForcedSkip zC (cross12Jobs O0 n1 n2 (whole l) A).
Proof.
  intros H ->. assert (HM : 0 < tmaxsep (p3P zC)) by (cbn; lra). split.
  - intros J HJ HF. apply in_flat_map in HJ as [a [Ha HJ]]. apply in_flat_map in HJ as [b [[<-|[]] HJ]]. cbv zeta in HJ.
    destruct (H a Ha) as [o [O1' O2']]. destruct HJ as [<-|HJ]; [|apply in_map_iff in HJ as [c [<- _]]; discriminate].
    cbn. apply (own_notTriv (p3P zC) (pobjs a) l o); auto.
  - intros J HJ HF. apply in_flat_map in HJ as [a [[<-|[]] HJ]]. apply in_flat_map in HJ as [b [Hb HJ]]. cbv zeta in HJ.
    destruct (H b Hb) as [o [O1' O2']]. destruct HJ as [<-|HJ]; [|apply in_map_iff in HJ as [c [<- _]]; discriminate].
    cbn. apply (own_notTriv (p3P zC) l (pobjs b) o); auto.
Qed.
Lemma catW_in w p : In p (catW w) -> exists o, In o (pobjs p) /\ In o (allRows (catW w)).
Proof. intros [<-|[<-|[]]]; [exists (wobj 0 0 w 0)|exists (wobj 1000 0 1 0)]; cbn; auto 10. Qed.
Lemma runU w : 0 < w -> exists sD cR sDR sRD, zetaRunU zC 2 (catW w) (allRows (catW w)) sD cR sDR sRD.
Proof.
  intros Hw. set (Rn := allRows (catW w)).
  assert (NE : forall p, In p (catW w ++ whole Rn) -> pobjs p <> []).
  { intros p Hp. apply in_app_or in Hp as [Hp|[<-|[]]]; [eapply catW_ne; eauto|discriminate]. }
  assert (NE' : forall p, In p (whole Rn ++ catW w) -> pobjs p <> []).
  { intros p Hp. apply NE. apply in_or_app. apply in_app_or in Hp. tauto. }
  destruct (zC_exists O0 2 1 (catW w) (whole Rn) ltac:(discriminate) NE) as [[sD H1] [sDR H2]].
  destruct (zC_exists O0 1 2 (whole Rn) (catW w) ltac:(discriminate) NE') as [[sR H3] [sRD H4]].
  inversion H3 as [|? ? st1 ? ? HS _]; subst. destruct HS as [cR [HC _]].
  exists sD, cR, sDR, sRD. constructor; auto using zC_exact, catW_ND; try lia; try reflexivity.
  - apply catW_app_weights; lra.
  - apply catW_app_noTies.
  - apply (whole_force (catW w) 2 1 w Rn); auto. apply catW_in.
  - apply (whole_force (catW w) 1 2 w Rn); auto. apply catW_in.
Qed.
(** The data are the randoms (two patches with the same triangle), and the estimate is 0; the rows of the simple
    estimator are 0 too, but the rows of the compensated one are -1. *)
Theorem C77_unpatched_refuted : exists D Rn sD cR sDR sRD,
  zetaRunU zC 2 D Rn sD cR sDR sRD /\ Rn = allRows D /\
  let ddd := nOf 2 sD in
  let rrr := mkN3 cR [] 1 1 1 in
  let others := Some (mkN3 (s3self sDR) (s3res sDR) 2 1 1, mkN3 (s3self sRD) (s3res sRD) 1 2 2) in
  (exists z d, calcZeta ddd rrr None = Some (z, d) /\ z 1%Z = 0 /\
     forall i, (0 <= i < 2)%Z -> exists s, zetaFrom (p3P zC) d rrr None (jack3 2 2 2 i (keys3 d)) = Some s /\ q3_zeta s 1%Z = 0) /\
  (exists z d, calcZeta ddd rrr others = Some (z, d) /\ z 1%Z = 0 /\
     forall i, (0 <= i < 2)%Z -> exists s, zetaFrom (p3P zC) d rrr others (jack3 2 2 2 i (keys3 d)) = Some s /\ q3_zeta s 1%Z = -1).
Proof.
  destruct (runU 1 Rlt_0_1) as [sD [cR [sDR [sRD H]]]]. exists (catW 1), (allRows (catW 1)), sD, cR, sDR, sRD.
  split; [auto|]. split; [auto|]. cbv zeta.
  assert (N0 : sumw (allRows (catW 1)) <> 0) by (rewrite catW_sumw; lra).
  assert (NT : sumTriplesU (tri6 (p3P zC) TWeight 1) (allRows (catW 1)) <> 0) by (rewrite sumU_t6, catW_rows, two_auto; lra).
  assert (C0 : forall x, sumPairs12 t6 (tri3 0 1 ++ tri3 1000 1) (tri3 x 1) = sumPairs12 t6 (tri3 0 1) (tri3 x 1) + sumPairs12 t6 (tri3 1000 1) (tri3 x 1)).
  { intro x. unfold sumPairs12. rewrite sumR_app. auto. }
  assert (C1 : sumPairs12 t6 (tri3 0 1 ++ tri3 1000 1) (tri3 1000 1) = 3 /\ sumPairs12 t6 (tri3 0 1 ++ tri3 1000 1) (tri3 0 1) = 3).
  { rewrite !C0, !one_cross. split.
    - assert (E : sumPairs12 t6 (tri3 0 1) (tri3 1000 1) = 0) by (unfold sumPairs12, tri3; cbn [upairs map app sumR fst snd]; repeat t6one; lra).
      rewrite E. lra.
    - assert (E : sumPairs12 t6 (tri3 1000 1) (tri3 0 1) = 0) by (unfold sumPairs12, tri3; cbn [upairs map app sumR fst snd]; repeat t6one; lra).
      rewrite E. lra. }
  assert (C2 : sumPairs12 t6 (tri3 1000 1) (tri3 0 1 ++ tri3 1000 1) = 3 /\ sumPairs12 t6 (tri3 0 1) (tri3 0 1 ++ tri3 1000 1) = 3).
  { split; unfold sumPairs12, tri3; cbn [upairs map app sumR fst snd]; repeat t6one; lra. }
  destruct C1 as [C1 C1'], C2 as [C2 C2'].
  split.
  - destruct (C77_unpatched zC 2 (catW 1) (allRows (catW 1)) sD cR sDR sRD 1 false H zC_k N0 N0 NT) as [z [d [E1 [E2 E3]]]].
    exists z, d. split; [exact E1|]. split.
    + rewrite E2. unfold zeta1Spec, cnt3. rewrite catW_sumw, sumU_t6, catW_rows, two_auto. field.
    + intros i Hi. assert (E : i = 0%Z \/ i = 1%Z) by lia. destruct E as [-> | ->].
      * destruct (E3 0%Z) as [s [S1 S2]]; [rewrite catW_without0, tri3_sumw; lra|]. exists s. split; [exact S1|].
        cbv zeta in S2. rewrite S2. unfold cnt3, frac. rewrite !catW_without0, tri3_sumw, catW_sumw, !sumU_t6, catW_rows, two_auto, one_auto. field.
      * destruct (E3 1%Z) as [s [S1 S2]]; [rewrite catW_without1, tri3_sumw; lra|]. exists s. split; [exact S1|].
        cbv zeta in S2. rewrite S2. unfold cnt3, frac. rewrite !catW_without1, tri3_sumw, catW_sumw, !sumU_t6, catW_rows, two_auto, one_auto. field.
  - destruct (C77_unpatched zC 2 (catW 1) (allRows (catW 1)) sD cR sDR sRD 1 true H zC_k N0 N0 NT) as [z [d [E1 [E2 E3]]]].
    exists z, d. split; [exact E1|]. split.
    + rewrite E2. unfold zeta4Spec, cnt3, cnt12. rewrite catW_sumw, sumU_t6, sum12_t6, catW_rows, two_auto, two_cross. field.
    + intros i Hi. assert (E : i = 0%Z \/ i = 1%Z) by lia. destruct E as [-> | ->].
      * destruct (E3 0%Z) as [s [S1 S2]]; [rewrite catW_without0, tri3_sumw; lra|]. exists s. split; [exact S1|].
        cbv zeta in S2. rewrite S2. unfold cnt3, cnt12, frac.
        rewrite !catW_without0, tri3_sumw, catW_sumw, catW_rows. change (tri6 (p3P zC) TWeight 1) with t6. rewrite two_auto, one_auto, C1, C2. field.
      * destruct (E3 1%Z) as [s [S1 S2]]; [rewrite catW_without1, tri3_sumw; lra|]. exists s. split; [exact S1|].
        cbv zeta in S2. rewrite S2. unfold cnt3, cnt12, frac.
        rewrite !catW_without1, tri3_sumw, catW_sumw, catW_rows. change (tri6 (p3P zC) TWeight 1) with t6. rewrite two_auto, one_auto, C1', C2'. field.
Qed.
