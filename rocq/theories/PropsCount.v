(** Pair counting: C01, C02, C11, C12, C13, C47, C48. *)
From Coq Require Import Reals Lra Lia List ZArith Bool Permutation Psatz.
From Verif Require Import Base Geometry Tree Traverse Run Spec SpecRun GeomFacts SumFacts TreeFacts
  BinFacts TravFacts Exact MetricFacts Cover Lift Runs Examples.
Import ListNotations.
Open Scope R_scope.

(** ** From the accumulators to the specification *)
Lemma addsCross_of P sel cat1 cat2 s0 s1 k :
  (forall o1 o2, In o1 cat1 -> In o2 cat2 -> selM P k o1 o2 = sel o1 o2) ->
  (forall f, prodField f -> aget f s1 k = aget f s0 k + sumR (specM P f k) (pairs cat1 cat2)) ->
  addsCross sel cat1 cat2 s0 s1 k.
Proof.
  intros HS H. unfold addsCross.
  rewrite <- (spec_sumPairs P FNpairs k v_one sel), <- (spec_sumPairs P FWeight k v_ww sel),
    <- (spec_sumPairs P FXiNK k v_nk sel), <- (spec_sumPairs P FXiKK k v_kk sel); auto.
  split; [apply (H FNpairs I)|split; [apply (H FWeight I)|split; [apply (H FXiNK I)|apply (H FXiKK I)]]].
Qed.
Lemma addsAuto_of P sel cat s0 s1 k :
  (forall o1 o2, In o1 cat -> In o2 cat -> selM P k o1 o2 = sel o1 o2) ->
  (forall f, prodField f -> f <> FXiNK ->
     aget f s1 k = aget f s0 k + sumR (specM P f k) (upairs cat)) ->
  addsAuto sel cat s0 s1 k.
Proof.
  intros HS H. unfold addsAuto.
  rewrite <- (spec_sumUPairs P FNpairs k v_one sel), <- (spec_sumUPairs P FWeight k v_ww sel),
    <- (spec_sumUPairs P FXiKK k v_kk sel); auto.
  split; [apply (H FNpairs I); discriminate|split; [apply (H FWeight I); discriminate|apply (H FXiKK I); discriminate]].
Qed.
Lemma addsMeanCross_of P d sel cat1 cat2 s0 s1 k :
  (forall o1 o2, In o1 cat1 -> In o2 cat2 -> selM P k o1 o2 = sel o1 o2) ->
  (forall p q, mdist (cmetric P) p q = d p q) ->
  (forall f, aget f s1 k = aget f s0 k + sumR (specM P f k) (pairs cat1 cat2)) ->
  addsMeanCross d sel cat1 cat2 s0 s1 k.
Proof.
  intros HS Hd H. split.
  - rewrite <- (spec_sumPairs P FMeanr k _ sel); auto; [apply (H FMeanr)|].
    intros; simpl. rewrite Hd; auto.
  - rewrite <- (spec_sumPairs P FMeanlogr k _ sel); auto; [apply (H FMeanlogr)|].
    intros; simpl. rewrite Hd; auto.
Qed.
Lemma addsMeanAuto_of P d sel cat s0 s1 k :
  (forall o1 o2, In o1 cat -> In o2 cat -> selM P k o1 o2 = sel o1 o2) ->
  (forall p q, mdist (cmetric P) p q = d p q) ->
  (forall f, f <> FXiNK -> aget f s1 k = aget f s0 k + sumR (specM P f k) (upairs cat)) ->
  addsMeanAuto d sel cat s0 s1 k.
Proof.
  intros HS Hd H. split.
  - rewrite <- (spec_sumUPairs P FMeanr k _ sel); auto; [apply (H FMeanr); discriminate|].
    intros; simpl. rewrite Hd; auto.
  - rewrite <- (spec_sumUPairs P FMeanlogr k _ sel); auto; [apply (H FMeanlogr); discriminate|].
    intros; simpl. rewrite Hd; auto.
Qed.
Lemma mdist_euclidean p q : mdist Euclidean p q = euclid p q.
Proof. rewrite mdist_euclid. symmetry. apply euclid_pdist. Qed.
Lemma offEdges_ext B d d' c1 c2 : (forall p q, d p q = d' p q) -> offEdges B d c1 c2 -> offEdges B d' c1 c2.
Proof. intros H HO HL o1 o2 j Hj I1 I2. rewrite <- H. auto. Qed.
Lemma offMinSep_ext B d d' c : (forall p q, d p q = d' p q) -> offMinSep B d c -> offMinSep B d' c.
Proof. intros H HO o1 o2 I. rewrite <- H. auto. Qed.

(** ** C01: bin_slop=0 cross-correlation equals brute force *)
Theorem C01_cross_exact R cat1 cat2 s0 s1 k :
  cmetric (rP R) = Euclidean -> crpar (rP R) = None -> validB (cbin (rP R)) ->
  slop_b (cbin (rP R)) = 0 -> narrowLog (cbin (rP R)) ->
  offEdges (cbin (rP R)) euclid cat1 cat2 ->
  posW cat1 -> posW cat2 ->
  runCross R cat1 cat2 s0 s1 ->
  addsCross (selBin (cbin (rP R)) euclid k) cat1 cat2 s0 s1 k.
Proof.
  intros HM Hr HB Hb HN HE Hw1 Hw2 H.
  apply (addsCross_of (rP R)).
  - intros. apply selM_selBin; auto. rewrite HM. apply mdist_euclidean.
  - intros f Hf. apply (runCross_slop0 R anyPos anyPos); auto.
    + rewrite HM. apply lip_euclid.
    + split; auto. split; auto. rewrite HM. eapply offEdges_ext; [|exact HE].
      intros; symmetry; apply mdist_euclidean.
    + apply posW_cond; auto.
    + apply posW_cond; auto.
    + intros. apply centres_any.
    + intros. apply centres_any.
Qed.

(** Hypotheses met, and what the theorem says, on a concrete input: bin 0 has the single pair of
    separation 3/2 (weight 1*1), bin 1 the pair of separation 5/2 (weight 1*3). *)
Example C01_example : exists s1,
  runCross (exRun Euclidean exB BruteNo) exCat1 exCat2 cleared s1 /\
  a_npairs s1 0%Z = 1 /\ a_weight s1 0%Z = 1 /\ a_npairs s1 1%Z = 1 /\ a_weight s1 1%Z = 3.
Proof.
  destruct (runCross_exists (exRun Euclidean exB BruteNo) exCat1 exCat2 cleared) as [s1 H1];
    try (apply exB_valid); try discriminate.
  exists s1. split; auto.
  assert (HT : forall k, addsCross (selBin exB euclid k) exCat1 exCat2 cleared s1 k).
  { intro k. apply (C01_cross_exact (exRun Euclidean exB BruteNo)); auto.
    - apply exB_valid. - apply exB_narrow. - apply exCats_off. - apply exCat1_pos. - apply exCat2_pos. }
  destruct (HT 0%Z) as [H0 [H0w _]]. destruct (HT 1%Z) as [H1' [H1w _]].
  rewrite H0, H0w, H1', H1w. unfold sumPairs, selBin. simpl. rewrite !euclid_x, !exB_in by lia.
  unfold aconst, v_one, v_ww; simpl.
  repeat match goal with |- context [Rabs ?x] =>
    let v := fresh in
    first [ rewrite (Rabs_left x) by lra | rewrite (Rabs_right x) by lra ] end.
  unfold Rleb, Rltb. repeat (destruct Rle_dec; destruct Rlt_dec; try (exfalso; lra); simpl). lra.
Qed.

(** Objects with zero weight (keep_zero_weight=True) do not spoil the weighted sums. *)
Theorem C01_cross_exact_weights R cat1 cat2 s0 s1 k :
  cmetric (rP R) = Euclidean -> crpar (rP R) = None -> validB (cbin (rP R)) ->
  slop_b (cbin (rP R)) = 0 -> narrowLog (cbin (rP R)) ->
  offEdges (cbin (rP R)) euclid cat1 cat2 ->
  nonnegW cat1 -> nonnegW cat2 ->
  runCross R cat1 cat2 s0 s1 ->
  a_weight s1 k = a_weight s0 k + sumPairs (selBin (cbin (rP R)) euclid k) v_ww cat1 cat2 /\
  a_xi_nk s1 k = a_xi_nk s0 k + sumPairs (selBin (cbin (rP R)) euclid k) v_nk cat1 cat2 /\
  a_xi_kk s1 k = a_xi_kk s0 k + sumPairs (selBin (cbin (rP R)) euclid k) v_kk cat1 cat2.
Proof.
  intros HM Hr HB Hb HN HE Hw1 Hw2 H.
  assert (HS : forall o1 o2, selM (rP R) k o1 o2 = selBin (cbin (rP R)) euclid k o1 o2).
  { intros. apply selM_selBin; auto. rewrite HM. apply mdist_euclidean. }
  assert (HG : forall f, prodField f -> f <> FNpairs ->
    aget f s1 k = aget f s0 k + sumR (specM (rP R) f k) (pairs cat1 cat2)).
  { intros f Hf Hn. apply (runCross_slop0 R anyPos anyPos); auto.
    + rewrite HM. apply lip_euclid.
    + split; auto. split; auto. rewrite HM. eapply offEdges_ext; [|exact HE].
      intros; symmetry; apply mdist_euclidean.
    + intros o Ho. specialize (Hw1 o Ho). destruct f; simpl; auto; congruence.
    + intros o Ho. specialize (Hw2 o Ho). destruct f; simpl; auto; congruence.
    + intros. apply centres_any.
    + intros. apply centres_any. }
  rewrite <- (spec_sumPairs (rP R) FWeight k v_ww), <- (spec_sumPairs (rP R) FXiNK k v_nk),
    <- (spec_sumPairs (rP R) FXiKK k v_kk); auto.
  split; [|split].
  - apply (HG FWeight I). discriminate.
  - apply (HG FXiNK I). discriminate.
  - apply (HG FXiKK I). discriminate.
Qed.
Example C01_weights_example : exists s1,
  runCross (exRun Euclidean exB BruteNo) (exObj 1 0 7 :: exCat1) exCat2 cleared s1 /\
  nonnegW (exObj 1 0 7 :: exCat1).
Proof.
  destruct (runCross_exists (exRun Euclidean exB BruteNo) (exObj 1 0 7 :: exCat1) exCat2 cleared) as [s1 H1];
    try (apply exB_valid); try discriminate.
  exists s1. split; auto. intros o [<-|Ho]; [simpl; lra|]. left. apply exCat1_pos; auto.
Qed.

(** ** C02: bin_slop=0 auto-correlation equals brute force over unordered pairs *)
Theorem C02_auto_exact R cat s0 s1 k :
  cmetric (rP R) = Euclidean -> crpar (rP R) = None -> validB (cbin (rP R)) ->
  slop_b (cbin (rP R)) = 0 -> narrowLog (cbin (rP R)) ->
  offEdges (cbin (rP R)) euclid cat cat -> offMinSep (cbin (rP R)) euclid cat ->
  posW cat ->
  runAuto R cat s0 s1 ->
  addsAuto (selBin (cbin (rP R)) euclid k) cat s0 s1 k.
Proof.
  intros HM Hr HB Hb HN HE HO Hw H.
  apply (addsAuto_of (rP R)).
  - intros. apply selM_selBin; auto. rewrite HM. apply mdist_euclidean.
  - intros f Hf Hn. apply (runAuto_slop0 R); auto.
    + rewrite HM. apply lip_euclid.
    + rewrite HM. apply subEuclid_euclid.
    + rewrite HM. apply symM_euclid.
    + split; auto. split; auto. rewrite HM. eapply offEdges_ext; [|exact HE].
      intros; symmetry; apply mdist_euclidean.
    + rewrite HM. eapply offMinSep_ext; [|exact HO]. intros; symmetry; apply mdist_euclidean.
    + apply posW_cond; auto.
Qed.
(** Separations 3/2 (w=2), 9/4 (w=1), 3/4 (out of range). *)
Example C02_example : exists s1,
  runAuto (exRun Euclidean exB BruteNo) exCatA cleared s1 /\
  a_npairs s1 0%Z = 1 /\ a_weight s1 0%Z = 2 /\ a_npairs s1 1%Z = 1 /\ a_weight s1 1%Z = 1.
Proof.
  destruct (runAuto_exists (exRun Euclidean exB BruteNo) exCatA cleared) as [s1 H1];
    try (apply exB_valid); try discriminate.
  exists s1. split; auto.
  assert (HT : forall k, addsAuto (selBin exB euclid k) exCatA cleared s1 k).
  { intro k. apply (C02_auto_exact (exRun Euclidean exB BruteNo)); auto.
    - apply exB_valid. - apply exB_narrow. - apply exCatA_off. - apply exCatA_min. - apply exCatA_pos. }
  destruct (HT 0%Z) as [H0 [H0w _]]. destruct (HT 1%Z) as [H1' [H1w _]].
  rewrite H0, H0w, H1', H1w. unfold sumUPairs, selBin. simpl. rewrite !euclid_x, !exB_in by lia.
  unfold aconst, v_one, v_ww; simpl.
  repeat match goal with |- context [Rabs ?x] =>
    first [ rewrite (Rabs_left x) by lra | rewrite (Rabs_right x) by lra ] end.
  unfold Rleb, Rltb. repeat (destruct Rle_dec; destruct Rlt_dec; try (exfalso; lra); simpl). lra.
Qed.

(** ** C48: the order of the rows does not matter *)
Theorem C48_cross_row_order R cat1 cat2 cat1' cat2' s0 s1 s1' k :
  cmetric (rP R) = Euclidean -> crpar (rP R) = None -> validB (cbin (rP R)) ->
  slop_b (cbin (rP R)) = 0 -> narrowLog (cbin (rP R)) ->
  offEdges (cbin (rP R)) euclid cat1 cat2 ->
  posW cat1 -> posW cat2 ->
  Permutation cat1 cat1' -> Permutation cat2 cat2' ->
  runCross R cat1 cat2 s0 s1 -> runCross R cat1' cat2' s0 s1' ->
  a_npairs s1' k = a_npairs s1 k /\ a_weight s1' k = a_weight s1 k /\
  a_xi_nk s1' k = a_xi_nk s1 k /\ a_xi_kk s1' k = a_xi_kk s1 k.
Proof.
  intros HM Hr HB Hb HN HE Hw1 Hw2 P1 P2 H H'.
  assert (I1 : forall o, In o cat1' -> In o cat1) by (intro; apply Permutation_in; symmetry; auto).
  assert (I2 : forall o, In o cat2' -> In o cat2) by (intro; apply Permutation_in; symmetry; auto).
  destruct (C01_cross_exact R cat1 cat2 s0 s1 k HM Hr HB Hb HN HE Hw1 Hw2 H) as [A1 [A2 [A3 A4]]].
  destruct (C01_cross_exact R cat1' cat2' s0 s1' k) as [B1 [B2 [B3 B4]]]; auto.
  { intros HL o1 o2 j Hj J1 J2. apply HE; auto. }
  { intros o Ho; auto. } { intros o Ho; auto. }
  assert (HP : forall v sel, sumPairs sel v cat1' cat2' = sumPairs sel v cat1 cat2).
  { intros. unfold sumPairs. apply sumR_perm. symmetry. apply pairs_perm; auto. }
  rewrite A1, A2, A3, A4, B1, B2, B3, B4, !HP. auto.
Qed.
Theorem C48_auto_row_order R cat cat' s0 s1 s1' k :
  cmetric (rP R) = Euclidean -> crpar (rP R) = None -> validB (cbin (rP R)) ->
  slop_b (cbin (rP R)) = 0 -> narrowLog (cbin (rP R)) ->
  offEdges (cbin (rP R)) euclid cat cat -> offMinSep (cbin (rP R)) euclid cat ->
  posW cat -> Permutation cat cat' ->
  runAuto R cat s0 s1 -> runAuto R cat' s0 s1' ->
  a_npairs s1' k = a_npairs s1 k /\ a_weight s1' k = a_weight s1 k /\ a_xi_kk s1' k = a_xi_kk s1 k.
Proof.
  intros HM Hr HB Hb HN HE HO Hw HP H H'.
  assert (I1 : forall o, In o cat' -> In o cat) by (intro; apply Permutation_in; symmetry; auto).
  destruct (C02_auto_exact R cat s0 s1 k HM Hr HB Hb HN HE HO Hw H) as [A1 [A2 A3]].
  assert (Hes : forall p q, euclid p q = euclid q p).
  { intros. unfold euclid. f_equal. ring. }
  destruct (C02_auto_exact R cat' s0 s1' k) as [B1 [B2 B3]]; auto.
  { intros HL o1 o2 j Hj J1 J2. apply HE; auto. }
  { intros o1 o2 Hin. destruct (in_upairs_perm cat' cat o1 o2) as [?|?]; auto.
    - symmetry; auto.
    - rewrite Hes. auto. }
  { intros o Ho; auto. }
  assert (HS : forall v sel, (forall x y, v x y = v y x) -> (forall x y, sel x y = sel y x) ->
     sumUPairs sel v cat' = sumUPairs sel v cat).
  { intros v sel Hv Hsel. unfold sumUPairs. apply sumR_upairs_perm; [|symmetry; auto].
    intros x y. cbn [fst snd]. rewrite Hsel, Hv. auto. }
  rewrite A1, A2, A3, B1, B2, B3, !HS; auto; intros; unfold v_one, v_ww, v_kk, selBin; try ring;
    rewrite Hes; auto.
Qed.
Example C48_example : exists s1 s1',
  runAuto (exRun Euclidean exB BruteNo) exCatA cleared s1 /\
  runAuto (exRun Euclidean exB BruteNo) (rev exCatA) cleared s1' /\
  a_weight s1' 0%Z = a_weight s1 0%Z.
Proof.
  destruct (runAuto_exists (exRun Euclidean exB BruteNo) exCatA cleared) as [s1 H1];
    try (apply exB_valid); try discriminate.
  destruct (runAuto_exists (exRun Euclidean exB BruteNo) (rev exCatA) cleared) as [s1' H1'];
    try (apply exB_valid); try discriminate.
  exists s1, s1'. split; auto. split; auto.
  apply (C48_auto_row_order (exRun Euclidean exB BruteNo) exCatA (rev exCatA) cleared); auto.
  - apply exB_valid. - apply exB_narrow. - apply exCatA_off. - apply exCatA_min. - apply exCatA_pos.
  - apply Permutation_rev.
Qed.

(** ** C12: Periodic metric *)
Lemma shift_image xp yp zp i j k p q :
  norm (shift xp yp zp i j k (psub p q)) = euclid p (image xp yp zp (- i) (- j) (- k) q).
Proof.
  rewrite euclid_pdist. unfold pdist. f_equal. unfold shift, psub, image; simpl.
  rewrite !opp_IZR. f_equal; ring.
Qed.
Theorem C12_periodic_distance xp yp zp p q : 0 < xp -> 0 < yp -> 0 < zp ->
  isPeriodicSep xp yp zp p q (sqrt (distSq (Periodic xp yp zp) p q)).
Proof.
  intros Hx Hy Hz. simpl distSq. change (sqrt (normSq ?p)) with (norm p). split.
  - destruct (wrap_is_shift xp yp zp (psub p q)) as [i [j [k ->]]]; auto.
    exists (- i)%Z, (- j)%Z, (- k)%Z. apply shift_image.
  - intros i j k. pose proof (wrap_min xp yp zp (psub p q) (- i) (- j) (- k) Hx Hy Hz) as H.
    rewrite shift_image, !Z.opp_involutive in H. auto.
Qed.
Lemma periodic_unique xp yp zp p q d d' :
  isPeriodicSep xp yp zp p q d -> isPeriodicSep xp yp zp p q d' -> d = d'.
Proof.
  intros [[i [j [k E]]] H] [[i' [j' [k' E']]] H']. apply Rle_antisym.
  - rewrite E'. apply H. - rewrite E. apply H'.
Qed.
Theorem C12_periodic_cross_exact xp yp zp (psep : pos -> pos -> R) R cat1 cat2 s0 s1 k :
  0 < xp -> 0 < yp -> 0 < zp -> (forall p q, isPeriodicSep xp yp zp p q (psep p q)) ->
  cmetric (rP R) = Periodic xp yp zp -> crpar (rP R) = None -> validB (cbin (rP R)) ->
  slop_b (cbin (rP R)) = 0 -> narrowLog (cbin (rP R)) ->
  offEdges (cbin (rP R)) psep cat1 cat2 ->
  posW cat1 -> posW cat2 ->
  runCross R cat1 cat2 s0 s1 ->
  addsCross (selBin (cbin (rP R)) psep k) cat1 cat2 s0 s1 k.
Proof.
  intros Hx Hy Hz Hp HM Hr HB Hb HN HE Hw1 Hw2 H.
  assert (Hd : forall p q, mdist (Periodic xp yp zp) p q = psep p q).
  { intros. eapply periodic_unique; [apply C12_periodic_distance; auto|auto]. }
  apply (addsCross_of (rP R)).
  - intros. apply selM_selBin; auto. rewrite HM. apply Hd.
  - intros f Hf. apply (runCross_slop0 R anyPos anyPos); auto.
    + rewrite HM. apply lip_periodic; auto.
    + split; auto. split; auto. rewrite HM. eapply offEdges_ext; [|exact HE]. intros; symmetry; auto.
    + apply posW_cond; auto.
    + apply posW_cond; auto.
    + intros. apply centres_any.
    + intros. apply centres_any.
Qed.
Theorem C12_periodic_auto_exact xp yp zp (psep : pos -> pos -> R) R cat s0 s1 k :
  0 < xp -> 0 < yp -> 0 < zp -> (forall p q, isPeriodicSep xp yp zp p q (psep p q)) ->
  cmetric (rP R) = Periodic xp yp zp -> crpar (rP R) = None -> validB (cbin (rP R)) ->
  slop_b (cbin (rP R)) = 0 -> narrowLog (cbin (rP R)) ->
  offEdges (cbin (rP R)) psep cat cat -> offMinSep (cbin (rP R)) psep cat ->
  posW cat ->
  runAuto R cat s0 s1 ->
  addsAuto (selBin (cbin (rP R)) psep k) cat s0 s1 k.
Proof.
  intros Hx Hy Hz Hp HM Hr HB Hb HN HE HO Hw H.
  assert (Hd : forall p q, mdist (Periodic xp yp zp) p q = psep p q).
  { intros. eapply periodic_unique; [apply C12_periodic_distance; auto|auto]. }
  apply (addsAuto_of (rP R)).
  - intros. apply selM_selBin; auto. rewrite HM. apply Hd.
  - intros f Hf Hn. apply (runAuto_slop0 R); auto.
    + rewrite HM. apply lip_periodic; auto.
    + rewrite HM. apply subEuclid_periodic; auto.
    + rewrite HM. apply symM_other; simpl; auto. discriminate.
    + split; auto. split; auto. rewrite HM. eapply offEdges_ext; [|exact HE]. intros; symmetry; auto.
    + rewrite HM. eapply offMinSep_ext; [|exact HO]. intros; symmetry; auto.
    + apply posW_cond; auto.
Qed.
(** Log bins from 1 to e; a box of side 4: objects at 0 and 11/4 are 5/4 apart across the border. *)
Example C12_example : exists s1 psep,
  (forall p q, isPeriodicSep 4 4 4 p q (psep p q)) /\
  runCross (exRun (Periodic 4 4 4) exBlog BruteNo) [exObj 0 1 0] [exObj (11/4) 3 1] cleared s1 /\
  addsCross (selBin exBlog psep 0) [exObj 0 1 0] [exObj (11/4) 3 1] cleared s1 0 /\
  psep (mkpos 0 0 0) (mkpos (11/4) 0 0) = 5/4.
Proof.
  set (R := exRun (Periodic 4 4 4) exBlog BruteNo).
  destruct (runCross_exists R [exObj 0 1 0] [exObj (11/4) 3 1] cleared) as [s1 H1];
    try (apply exBlog_valid); try discriminate.
  set (psep := fun p q => sqrt (distSq (Periodic 4 4 4) p q)).
  assert (HP : forall p q, isPeriodicSep 4 4 4 p q (psep p q)).
  { intros. apply C12_periodic_distance; lra. }
  exists s1, psep. split; auto. split; auto. split.
  - apply (C12_periodic_cross_exact 4 4 4 psep R); auto; try lra.
    + apply exBlog_valid. + apply exBlog_narrow. + intro HH; discriminate.
    + intros o [<-|[]]; simpl; lra.
    + intros o [<-|[]]; simpl; lra.
  - destruct (HP (mkpos 0 0 0) (mkpos (11/4) 0 0)) as [[i [j [k E]]] HL].
    apply Rle_antisym.
    + eapply Rle_trans; [apply (HL (-1)%Z 0%Z 0%Z)|]. unfold image; simpl.
      replace (11/4 + -1 * 4) with (-5/4) by lra. rewrite !Rmult_0_l, !Rplus_0_r.
      rewrite euclid_x. rabs.
    + rewrite E. unfold image; simpl. unfold euclid; simpl.
      set (y := 0 + IZR j * 4). set (z := 0 + IZR k * 4).
      rewrite <- (sqrt_Rsqr (5/4)) by lra. apply sqrt_le_1_alt. unfold Rsqr.
      assert (Hi : IZR i <= -1 \/ 0 <= IZR i).
      { destruct (Z_le_dec i (-1)); [left; apply (IZR_le _ (-1)); auto|right; apply (IZR_le 0); lia]. }
      pose proof (Rle_0_sqr (0 - y)) as Hy. pose proof (Rle_0_sqr (0 - z)) as Hz. unfold Rsqr in Hy, Hz.
      set (t := IZR i) in *.
      assert (5/4 * (5/4) <= (0 - (11/4 + t * 4)) * (0 - (11/4 + t * 4))).
      { destruct Hi as [Hi|Hi]; nra. }
      lra.
Qed.

(** ** C13: Rlens metric *)
Lemma rlens_line p1 p2 : p2 <> mkpos 0 0 0 -> isRlensSep p1 p2 (mdist Rlens p1 p2).
Proof.
  intro Hne.
  assert (HN : 0 < normSq p2).
  { destruct (Rle_lt_or_eq_dec 0 _ (normSq_nonneg p2)) as [|Hz]; auto.
    symmetry in Hz. apply normSq_0 in Hz. contradiction. }
  assert (HD : forall t, normSq (psub p1 (pscale t p2)) =
     normSq (cross p1 p2) / normSq p2 + Rsqr (t - dot p1 p2 / normSq p2) * normSq p2).
  { intro t. rewrite normSq_sub_scale.
    assert (HC : normSq (cross p1 p2) = normSq p1 * normSq p2 - dot p1 p2 * dot p1 p2)
      by (unfold normSq, cross, dot; simpl; ring).
    rewrite HC. unfold Rsqr. field. lra. }
  unfold mdist, distSq. split.
  - exists (dot p1 p2 / normSq p2). rewrite euclid_pdist. unfold pdist, norm. f_equal.
    rewrite HD. unfold Rsqr. ring.
  - intro t. rewrite euclid_pdist. unfold pdist, norm. apply sqrt_le_1_alt. rewrite HD.
    pose proof (Rle_0_sqr (t - dot p1 p2 / normSq p2)). nra.
Qed.
Theorem C13_rlens_distance p1 p2 : p2 <> mkpos 0 0 0 ->
  isRlensSep p1 p2 (sqrt (distSq Rlens p1 p2)).
Proof. exact (rlens_line p1 p2). Qed.
Lemma rlens_unique p1 p2 d d' : isRlensSep p1 p2 d -> isRlensSep p1 p2 d' -> d = d'.
Proof.
  intros [[t E] H] [[t' E'] H']. apply Rle_antisym.
  - rewrite E'. apply H. - rewrite E. apply H'.
Qed.
(** The weighted mean position of a non-empty group of sources is never exactly at the observer. *)
Definition noneAtObserver (cat : list obj) : Prop :=
  forall l, partOf l cat -> centroid ThreeD l <> mkpos 0 0 0.
(** In particular it holds when all sources are in one open half-space and have wpos > 0. *)
Lemma halfspace_ok cat n : (forall o, In o cat -> 0 < owpos o /\ 0 < dot n (opos o)) -> noneAtObserver cat.
Proof.
  intros H l [Hne [l' HP]] HC.
  assert (Hin : forall o, In o l -> 0 < owpos o /\ 0 < dot n (opos o)).
  { intros o Ho. apply H. eapply Permutation_in; [exact HP|]. apply in_or_app; auto. }
  assert (HW : 0 < sumR owpos l) by (apply sumR_pos; auto; intros; apply Hin; auto).
  assert (HS : 0 < sumR (fun o => owpos o * dot n (opos o)) l).
  { apply sumR_pos; auto. intros x Hx. destruct (Hin x Hx). apply Rmult_lt_0_compat; auto. }
  unfold centroid in HC. destruct Req_EM_T; [lra|]. simpl in HC. unfold pscale in HC; simpl in HC.
  injection HC; intros Hz Hy Hx.
  assert (HI : / sumR owpos l <> 0) by (apply Rinv_neq_0_compat; lra).
  apply Rmult_integral in Hx as [|Hx]; [contradiction|].
  apply Rmult_integral in Hy as [|Hy]; [contradiction|].
  apply Rmult_integral in Hz as [|Hz]; [contradiction|].
  assert (HE : sumR (fun o => owpos o * dot n (opos o)) l =
    px n * sumR (fun o => owpos o * px (opos o)) l + py n * sumR (fun o => owpos o * py (opos o)) l
    + pz n * sumR (fun o => owpos o * pz (opos o)) l).
  { rewrite <- !sumR_scal, <- !sumR_plus. apply sumR_ext. intros. unfold dot. ring. }
  rewrite HE, Hx, Hy, Hz in HS. lra.
Qed.
Lemma sources_nonzero cat o : noneAtObserver cat -> In o cat -> opos o <> mkpos 0 0 0.
Proof.
  intros H Ho. rewrite <- (centroid_one ThreeD o) by discriminate. apply H.
  split; [discriminate|]. apply in_split in Ho as [a [b ->]]. exists (a ++ b).
  simpl. apply Permutation_middle.
Qed.
Theorem C13_rlens_cross_exact (rsep : pos -> pos -> R) R cat1 cat2 s0 s1 k :
  (forall p q, q <> mkpos 0 0 0 -> isRlensSep p q (rsep p q)) ->
  cmetric (rP R) = Rlens -> rcoord R = ThreeD -> crpar (rP R) = None -> validB (cbin (rP R)) ->
  slop_b (cbin (rP R)) = 0 -> narrowLog (cbin (rP R)) ->
  cat2 <> [] -> noneAtObserver cat2 ->
  offEdges (cbin (rP R)) rsep cat1 cat2 ->
  posW cat1 -> posW cat2 ->
  runCross R cat1 cat2 s0 s1 ->
  addsCross (selBin (cbin (rP R)) rsep k) cat1 cat2 s0 s1 k.
Proof.
  intros Hp HM Hco Hr HB Hb HN Hne HA HE Hw1 Hw2 H.
  assert (Hd : forall p q, q <> mkpos 0 0 0 -> mdist Rlens p q = rsep p q).
  { intros. eapply rlens_unique; [apply rlens_line; auto|auto]. }
  apply (addsCross_of (rP R)).
  - intros o1 o2 I1 I2. apply selM_selBin; auto. rewrite HM. apply Hd. eapply sources_nonzero; eauto.
  - intros f Hf. apply (runCross_slop0 R anyPos nonzero); auto.
    + rewrite HM. apply lip_rlens.
    + split; auto. split; auto. rewrite HM. intros HL o1 o2 j Hj I1 I2. rewrite Hd.
      * apply HE; auto. * eapply sources_nonzero; eauto.
    + apply posW_cond; auto.
    + apply posW_cond; auto.
    + intros. apply centres_any.
    + intros F cells HF HBd. split.
      * intros c Hc. destruct (cells_centroid F cat2 cells c) as [l [Hl ->]]; auto.
        -- rewrite HF, Hco. discriminate.
        -- rewrite HF, Hco. apply HA; auto.
      * unfold fieldCenter. rewrite HF, Hco. apply HA. apply partOf_refl; auto.
Qed.
Definition exLens : list obj := [mkobj (mkpos 1 5 0) 1 1 2 0 0 0; mkobj (mkpos 2 6 0) 2 2 2 0 0 1].
Definition exSrc : list obj := [mkobj (mkpos 0 10 0) 1 1 2 0 0 0; mkobj (mkpos 0 20 1) 3 3 2 0 0 1].
Example C13_example : exists s1 rsep,
  (forall p q, q <> mkpos 0 0 0 -> isRlensSep p q (rsep p q)) /\
  runCross (exRun Rlens exBlog BruteNo) exLens exSrc cleared s1 /\
  addsCross (selBin exBlog rsep 0) exLens exSrc cleared s1 0 /\
  rsep (mkpos 1 5 0) (mkpos 0 10 0) = 1.
Proof.
  set (R := exRun Rlens exBlog BruteNo).
  destruct (runCross_exists R exLens exSrc cleared) as [s1 H1];
    try (apply exBlog_valid); try discriminate.
  exists s1, (mdist Rlens). split; [intros; apply rlens_line; auto|]. split; auto. split.
  - apply (C13_rlens_cross_exact (mdist Rlens) R); auto; try discriminate.
    + intros; apply rlens_line; auto.
    + apply exBlog_valid. + apply exBlog_narrow.
    + apply (halfspace_ok exSrc (mkpos 0 1 0)). intros o [<-|[<-|[]]]; unfold dot; simpl; lra.
    + intros o [<-|[<-|[]]]; simpl; lra.
    + intros o [<-|[<-|[]]]; simpl; lra.
  - unfold mdist, distSq, normSq, cross; simpl.
    replace ((5 * 0 - 0 * 10) * (5 * 0 - 0 * 10) + (0 * 0 - 1 * 0) * (0 * 0 - 1 * 0) +
      (1 * 10 - 5 * 0) * (1 * 10 - 5 * 0)) with 100 by ring.
    replace (100 / (0 * 0 + 10 * 10 + 0 * 0)) with (1 * 1) by field. apply sqrt_square; lra.
Qed.

(** ** C11: brute=True *)
Theorem C11_brute_auto R cat s0 s1 k :
  crpar (rP R) = None -> validB (cbin (rP R)) -> rbrute R <> BruteNo ->
  cmetric (rP R) <> Rlens -> posPeriod (cmetric (rP R)) ->
  offMinSep (cbin (rP R)) (mdist (cmetric (rP R))) cat ->
  posW cat ->
  runAuto R cat s0 s1 ->
  addsAuto (selBin (cbin (rP R)) (mdist (cmetric (rP R))) k) cat s0 s1 k /\
  addsMeanAuto (mdist (cmetric (rP R))) (selBin (cbin (rP R)) (mdist (cmetric (rP R))) k) cat s0 s1 k.
Proof.
  intros Hr HB Hbr HM HPer HO Hw H.
  assert (HG : forall f, f <> FXiNK -> aget f s1 k = aget f s0 k + sumR (specM (rP R) f k) (upairs cat)).
  { intros f Hf. apply (runAuto_brute R); auto. apply symM_other; auto. apply posW_cond; auto. }
  split.
  - apply (addsAuto_of (rP R)); auto. intros. apply selM_selBin; auto.
  - apply (addsMeanAuto_of (rP R)); auto. intros. apply selM_selBin; auto.
Qed.
(** Euclidean instance in terms of the plain distance. *)
Theorem C11_brute_auto_euclid R cat s0 s1 k :
  cmetric (rP R) = Euclidean ->
  crpar (rP R) = None -> validB (cbin (rP R)) -> rbrute R <> BruteNo ->
  offMinSep (cbin (rP R)) euclid cat ->
  posW cat ->
  runAuto R cat s0 s1 ->
  addsAuto (selBin (cbin (rP R)) euclid k) cat s0 s1 k /\
  addsMeanAuto euclid (selBin (cbin (rP R)) euclid k) cat s0 s1 k.
Proof.
  intros HM Hr HB Hbr HO Hw H.
  assert (HG : forall f, f <> FXiNK -> aget f s1 k = aget f s0 k + sumR (specM (rP R) f k) (upairs cat)).
  { intros f Hf. apply (runAuto_brute R); auto.
    - rewrite HM; exact I. - rewrite HM; apply symM_euclid.
    - rewrite HM. eapply offMinSep_ext; [|exact HO]. intros; symmetry; apply mdist_euclidean.
    - apply posW_cond; auto. }
  split.
  - apply (addsAuto_of (rP R)); auto. intros. apply selM_selBin; auto. rewrite HM; apply mdist_euclidean.
  - apply (addsMeanAuto_of (rP R)); auto.
    + intros. apply selM_selBin; auto. rewrite HM; apply mdist_euclidean.
    + rewrite HM; apply mdist_euclidean.
Qed.
Theorem C11_brute_cross R cat1 cat2 s0 s1 k :
  cmetric (rP R) = Euclidean -> crpar (rP R) = None -> validB (cbin (rP R)) ->
  rbrute R = BruteBoth -> posW cat1 -> posW cat2 ->
  runCross R cat1 cat2 s0 s1 ->
  addsCross (selBin (cbin (rP R)) euclid k) cat1 cat2 s0 s1 k /\
  addsMeanCross euclid (selBin (cbin (rP R)) euclid k) cat1 cat2 s0 s1 k.
Proof.
  intros HM Hr HB Hbr Hw1 Hw2 H.
  assert (HG : forall f, aget f s1 k = aget f s0 k + sumR (specM (rP R) f k) (pairs cat1 cat2)).
  { intros f. apply (runCross_brute R); auto.
    - apply posW_cond; auto. - apply posW_cond; auto.
    - intros HX o1 o2 I1 I2. apply sel_not_range; auto. right.
      eapply (lip_field (rP R) anyPos anyPos); eauto; try exact I. rewrite HM. apply lip_euclid. }
  split.
  - apply (addsCross_of (rP R)); auto. intros. apply selM_selBin; auto. rewrite HM; apply mdist_euclidean.
  - apply (addsMeanCross_of (rP R)); auto.
    + intros. apply selM_selBin; auto. rewrite HM; apply mdist_euclidean.
    + rewrite HM; apply mdist_euclidean.
Qed.
(** With bin_slop > 0 and a pair on the edge 2 (0 to 2): brute counts it in bin 1. *)
Example C11_example : exists s1,
  runCross (exRun Euclidean exBslop BruteBoth) exCat1 (exObj 2 1 9 :: exCat2) cleared s1 /\
  a_npairs s1 1%Z = 2 /\ a_meanr s1 1%Z = 1 * 2 + 3 * (5/2).
Proof.
  destruct (runCross_exists (exRun Euclidean exBslop BruteBoth) exCat1 (exObj 2 1 9 :: exCat2) cleared) as [s1 H1];
    try (apply exBslop_valid); try discriminate.
  exists s1. split; auto.
  destruct (C11_brute_cross (exRun Euclidean exBslop BruteBoth) exCat1 (exObj 2 1 9 :: exCat2) cleared s1 1)
    as [[HA _] [HC _]]; auto.
  { apply exBslop_valid. } { apply exCat1_pos. }
  { intros o [<-|Ho]; [simpl; lra|apply exCat2_pos; auto]. }
  rewrite HA, HC. unfold sumPairs, selBin. simpl.
  change (cbin (rP (exRun Euclidean exBslop BruteBoth))) with exBslop.
  assert (HI : forall d, inBinb exBslop 1 d = Rleb 2 d && Rltb d 3).
  { intro d. unfold inBinb, edge; simpl. replace (1 + 1 * 1) with 2 by ring.
    replace (1 + 2 * 1) with 3 by ring. auto. }
  rewrite !HI, !euclid_x. unfold aconst, v_one, v_ww; simpl.
  repeat match goal with |- context [Rabs ?x] =>
    first [ rewrite (Rabs_left x) by lra | rewrite (Rabs_right x) by lra ] end.
  unfold Rleb, Rltb. repeat (destruct Rle_dec; destruct Rlt_dec; try (exfalso; lra); simpl). lra.
Qed.

(** ** C47: the scalar sums (parts of the theorems above, restated on their own) *)
Theorem C47_scalar_sums R cat1 cat2 s0 s1 k :
  cmetric (rP R) = Euclidean -> crpar (rP R) = None -> validB (cbin (rP R)) ->
  slop_b (cbin (rP R)) = 0 -> narrowLog (cbin (rP R)) ->
  offEdges (cbin (rP R)) euclid cat1 cat2 ->
  nonnegW cat1 -> nonnegW cat2 ->
  runCross R cat1 cat2 s0 s1 ->
  a_xi_nk s1 k = a_xi_nk s0 k + sumPairs (selBin (cbin (rP R)) euclid k)
                   (fun o1 o2 => ow o1 * ow o2 * okappa o2) cat1 cat2 /\
  a_xi_kk s1 k = a_xi_kk s0 k + sumPairs (selBin (cbin (rP R)) euclid k)
                   (fun o1 o2 => ow o1 * okappa o1 * ow o2 * okappa o2) cat1 cat2.
Proof.
  intros HM Hr HB Hb HN HE Hw1 Hw2 H.
  destruct (C01_cross_exact_weights R cat1 cat2 s0 s1 k) as [_ [H1 H2]]; auto.
  rewrite H1, H2. split; f_equal; unfold sumPairs; apply sumR_ext; intros [o1 o2] _; cbn [fst snd];
    destruct selBin; auto; unfold v_nk, v_kk; ring.
Qed.
Example C47_example : exists s1,
  runCross (exRun Euclidean exB BruteNo) exCat1 exCat2 cleared s1 /\
  a_xi_nk s1 1%Z = 6 /\ a_xi_kk s1 1%Z = 12.
Proof.
  destruct (runCross_exists (exRun Euclidean exB BruteNo) exCat1 exCat2 cleared) as [s1 H1];
    try (apply exB_valid); try discriminate.
  exists s1. split; auto.
  destruct (C47_scalar_sums (exRun Euclidean exB BruteNo) exCat1 exCat2 cleared s1 1) as [HA HB]; auto.
  - apply exB_valid. - apply exB_narrow. - apply exCats_off.
  - intros o Ho; left; apply exCat1_pos; auto. - intros o Ho; left; apply exCat2_pos; auto.
  - rewrite HA, HB. unfold sumPairs, selBin. simpl.
    change (cbin (rP (exRun Euclidean exB BruteNo))) with exB.
    rewrite !euclid_x, !exB_in by lia.
    unfold aconst; simpl.
    repeat match goal with |- context [Rabs ?x] =>
      first [ rewrite (Rabs_left x) by lra | rewrite (Rabs_right x) by lra ] end.
    unfold Rleb, Rltb. repeat (destruct Rle_dec; destruct Rlt_dec; try (exfalso; lra); simpl). lra.
Qed.
