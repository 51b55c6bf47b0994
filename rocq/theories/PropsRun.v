(** Runs with arbitrary slop, safety, schedules: C03, C04, C05, C06, C07, C39, C45. *)
From Coq Require Import Reals Lra Lia List ZArith Bool Permutation Psatz.
From Verif Require Import Base Geometry Tree Traverse Run Spec SpecRun GeomFacts SumFacts TreeFacts
  BinFacts TravFacts Exact MetricFacts Cover Lift Runs Examples Account PropsCount.
Import ListNotations.
Open Scope R_scope.

(** ** C45 *)
Theorem C45_minsize_slack P : validB (cbin P) -> 0 <= 2 * fst (getMinMaxSize P) <= groupSlack (cbin P).
Proof.
  intro HB. pose proof (minsize_nonneg P HB) as H0. split; [lra|].
  pose proof (vb_a _ HB) as Ha. pose proof (vb_b _ HB) as Hb. pose proof (minsep_nonneg _ HB) as Hm.
  unfold getMinMaxSize, groupSlack in *. destruct (cmetric P).
  2-7: simpl; destruct (btype (cbin P)); nra.
  destruct (btype (cbin P)) eqn:ET; simpl in *.
  - set (b1 := Rmin (slop_a (cbin P)) (slop_b (cbin P))) in *.
    assert (Hb1 : 0 <= b1) by (apply Rmin_glb; auto).
    assert (Hb2 : b1 <= slop_b (cbin P)) by apply Rmin_r.
    assert (HI : 2 * / (2 + 3 * b1) <= 1).
    { apply Rmult_le_reg_r with (2 + 3 * b1); [lra|]. rewrite Rmult_assoc, Rinv_l by lra. lra. }
    assert (0 <= / (2 + 3 * b1)) by (left; apply Rinv_0_lt_compat; lra).
    unfold Rdiv. apply Rle_trans with (minsep (cbin P) * b1 * 1).
    + replace (2 * (minsep (cbin P) * b1 * / (2 + 3 * b1))) with
        (minsep (cbin P) * b1 * (2 * / (2 + 3 * b1))) by ring.
      apply Rmult_le_compat_l; auto. apply Rmult_le_pos; auto.
    + nra.
  - pose proof (Rmin_r (slop_a (cbin P) * minsep (cbin P) / (2 + 3 * slop_a (cbin P))) (slop_b (cbin P) / 2)). lra.
  - pose proof (Rmin_r (slop_a (cbin P) * minsep (cbin P) / (2 + 3 * slop_a (cbin P))) (slop_b (cbin P) / 2)). lra.
Qed.
(** Objects grouped in one leaf of a tree of the run: replacing both members of a pair by the
    positions of their leaves moves the separation by at most the slack. *)
Theorem C45_grouping_moves_little R br1 br2 cat1 cat2 cells1 cells2 l1 l2 o1 o2 :
  validB (cbin (rP R)) ->
  buildField (fieldParams R br1) cat1 cells1 -> buildField (fieldParams R br2) cat2 cells2 ->
  inTops cells1 l1 -> inTops cells2 l2 -> getSize l1 = Fin 0 -> getSize l2 = Fin 0 ->
  In o1 (objs l1) -> In o2 (objs l2) ->
  Rabs (euclid (opos o1) (opos o2) - euclid (getPos l1) (getPos l2)) <= groupSlack (cbin (rP R)).
Proof.
  intros HB B1 B2 T1 T2 S1 S2 I1 I2.
  assert (O1 := inTops_wf _ _ _ (run_wf R br1 cat1 cells1 HB B1) T1).
  assert (O2 := inTops_wf _ _ _ (run_wf R br2 cat2 cells2 HB B2) T2).
  set (m := fst (getMinMaxSize (rP R))) in *.
  assert (Hm : 0 <= m) by (apply minsize_nonneg; auto).
  pose proof (member_within m l1 o1 0 Hm O1 I1 S1). pose proof (member_within m l2 o2 0 Hm O2 I2 S2).
  rewrite !euclid_pdist. eapply Rle_trans; [apply (pdist_lip _ _ _ _ m m); lra|].
  pose proof (C45_minsize_slack (rP R) HB). unfold m. lra.
Qed.
Example C45_example : validB exBslop /\ 0 < 2 * fst (getMinMaxSize (mkC Euclidean None exBslop)).
Proof.
  split; [apply exBslop_valid|]. unfold getMinMaxSize; simpl.
  assert (0 < Rmin (1 * 1 / (2 + 3 * 1)) (1 / 10 / 2)); [|lra].
  apply Rmin_glb_lt; lra.
Qed.

(** ** C03: every pair is accounted for exactly once *)
Lemma minsize_nonneg_gen P : 0 <= minsep (cbin P) -> 0 <= slop_b (cbin P) -> 0 <= slop_a (cbin P) ->
  0 <= fst (getMinMaxSize P).
Proof.
  intros Hm Hb Ha. unfold getMinMaxSize. destruct (cmetric P); simpl; try lra.
  assert (HQ : forall t, 0 <= t -> 0 <= / (2 + 3 * t)) by (intros; apply Rinv_nonneg; lra).
  destruct (btype (cbin P)); simpl.
  - assert (0 <= Rmin (slop_a (cbin P)) (slop_b (cbin P))) by (apply Rmin_glb; auto).
    unfold Rdiv. repeat apply Rmult_le_pos; auto.
  - apply Rmin_glb; [|lra]. unfold Rdiv. repeat apply Rmult_le_pos; auto.
  - apply Rmin_glb; [|lra]. unfold Rdiv. repeat apply Rmult_le_pos; auto.
Qed.
Lemma run_wf_gen R b cat cells : 0 <= fst (getMinMaxSize (rP R)) ->
  buildField (fieldParams R b) cat cells -> Forall (wf (fst (getMinMaxSize (rP R)))) cells.
Proof.
  intros Hm H. assert (0 <= fminsize (fieldParams R b) <= fst (getMinMaxSize (rP R))) as [H1 H2].
  { simpl. destruct b; lra. }
  eapply Forall_impl; [|eapply buildField_wf; eauto].
  intros c Hc c' Hs. eapply okcell_mono; eauto.
Qed.
Theorem C03_cross_each_pair_once R cat1 cat2 s0 s1 :
  0 <= minsep (cbin (rP R)) -> 0 <= slop_b (cbin (rP R)) -> 0 <= slop_a (cbin (rP R)) ->
  runCross R cat1 cat2 s0 s1 ->
  accounts (pairs cat1 cat2) (fun _ _ _ => True) (fun _ _ => True) s0 s1.
Proof.
  intros Hm Hb Ha [cells1 [cells2 [B1 [B2 H]]]].
  unfold processCross in H. destruct (crossEarlyExit _ _ _ _ _).
  - subst s1. apply nothing_accounts. auto.
  - destruct H as [evs [threads [HE [HSch ->]]]].
    pose proof (minsize_nonneg_gen (rP R) Hm Hb Ha) as HM.
    apply (cross_accounts (rP R) (fst (getMinMaxSize (rP R))) cat1 cat2 cells1 cells2 evs); auto.
    + eapply run_wf_gen; eauto. + eapply run_wf_gen; eauto.
    + eapply buildField_perm; eauto. + eapply buildField_perm; eauto.
    + intros f k. apply schedule_get; auto.
Qed.
Theorem C03_auto_each_pair_once R cat s0 s1 :
  btype (cbin (rP R)) <> BTwoD ->
  0 <= minsep (cbin (rP R)) -> 0 <= slop_b (cbin (rP R)) -> 0 <= slop_a (cbin (rP R)) ->
  runAuto R cat s0 s1 ->
  accountsAuto cat (fun _ _ _ => True) (fun _ _ => True) s0 s1.
Proof.
  intros HT Hm Hb Ha [cells [B [evs [threads [HE [HSch ->]]]]]].
  pose proof (minsize_nonneg_gen (rP R) Hm Hb Ha) as HM.
  apply (auto_accounts (rP R) (fst (getMinMaxSize (rP R))) cat cells evs); auto.
  + unfold do_reverse. destruct (btype (cbin (rP R))); congruence.
  + eapply run_wf_gen; eauto.
  + eapply buildField_perm; eauto.
  + intros f k. apply schedule_get; auto.
Qed.
(** Consequence for the output: a bin never has more than the number of pairs. *)
Theorem C03_total_bounded R cat1 cat2 s1 k :
  0 <= minsep (cbin (rP R)) -> 0 <= slop_b (cbin (rP R)) -> 0 <= slop_a (cbin (rP R)) ->
  runCross R cat1 cat2 cleared s1 ->
  0 <= a_npairs s1 k <= INR (length cat1 * length cat2).
Proof.
  intros Hm Hb Ha H. destruct (C03_cross_each_pair_once R cat1 cat2 cleared s1 Hm Hb Ha H)
    as [cnt [drp [HP [_ [_ HA]]]]].
  destruct (HA k) as [-> _]. simpl a_npairs. unfold aconst, inBinSum, v_one.
  assert (Hl : (length cnt <= length cat1 * length cat2)%nat).
  { apply Permutation_length in HP. unfold pairs in HP. rewrite prod_length, app_length, map_length in HP. lia. }
  assert (H1 : sumR (fun c : obj * obj * Z => if (k =? snd c)%Z then 1 else 0) cnt <= INR (length cnt)).
  { rewrite <- (Rmult_1_r (INR (length cnt))), <- (sumR_const 1 cnt). apply sumR_le. intros. destruct Z.eqb; lra. }
  assert (H2 : 0 <= sumR (fun c : obj * obj * Z => if (k =? snd c)%Z then 1 else 0) cnt).
  { apply sumR_nonneg. intros. destruct Z.eqb; lra. }
  apply le_INR in Hl. lra.
Qed.
Example C03_example : exists s1,
  runAuto (exRun Rperp exBslop BruteNo) exCatA cleared s1 /\
  accountsAuto exCatA (fun _ _ _ => True) (fun _ _ => True) cleared s1.
Proof.
  destruct (runAuto_exists (exRun Rperp exBslop BruteNo) exCatA cleared) as [s1 H1];
    try (apply exBslop_valid); try discriminate.
  exists s1. split; auto. apply (C03_auto_each_pair_once (exRun Rperp exBslop BruteNo)); simpl; auto; try lra.
  discriminate.
Qed.

(** ** C04 / C05: error bounds for bin_slop > 0 *)
Lemma accounts_mono l (C C' : obj -> obj -> Z -> Prop) (D D' : obj -> obj -> Prop) s0 s1 :
  (forall o1 o2 k, C o1 o2 k -> C' o1 o2 k) -> (forall o1 o2, D o1 o2 -> D' o1 o2) ->
  accounts l C D s0 s1 -> accounts l C' D' s0 s1.
Proof.
  intros HC HD [cnt [drp [H1 [H2 [H3 H4]]]]]. exists cnt, drp. split; auto.
Qed.
Lemma cntSlop_mono B d d' e e' o1 o2 k : (forall p q, d p q = d' p q) -> e <= e' ->
  cntSlop B d e o1 o2 k -> cntSlop B d' e' o1 o2 k.
Proof. intros Hd He [H1 [H2 H3]]. split; auto. rewrite <- Hd. lra. Qed.
Lemma drpSlop_mono B d d' e e' o1 o2 : (forall p q, d p q = d' p q) -> e <= e' ->
  drpSlop B d e o1 o2 -> drpSlop B d' e' o1 o2.
Proof. intros Hd He [H|H]; [left|right]; rewrite <- Hd; lra. Qed.

Theorem C04_cross_slop R cat1 cat2 s0 s1 :
  cmetric (rP R) = Euclidean -> crpar (rP R) = None -> validB (cbin (rP R)) ->
  narrowLog (cbin (rP R)) -> posW cat1 -> posW cat2 ->
  runCross R cat1 cat2 s0 s1 ->
  accounts (pairs cat1 cat2)
    (cntSlop (cbin (rP R)) euclid (groupSlack (cbin (rP R))))
    (drpSlop (cbin (rP R)) euclid (groupSlack (cbin (rP R)))) s0 s1.
Proof.
  intros HM Hr HB HN Hw1 Hw2 H.
  pose proof (C45_minsize_slack (rP R) HB) as [He0 He].
  eapply accounts_mono; [| |apply (runCross_slop R (2 * fst (getMinMaxSize (rP R)))); eauto].
  - intros. eapply cntSlop_mono; [|exact He|eassumption]. rewrite HM. apply mdist_euclidean.
  - intros. eapply drpSlop_mono; [|exact He|eassumption]. rewrite HM. apply mdist_euclidean.
  - intros F1 F2 cells1 cells2 -> -> B1 B2. split.
    + intros a b Ha Hb. apply pairOK_euclid; auto; [lra| |].
      * eapply inTops_wf; [|exact Ha]. eapply run_wf; eauto.
      * eapply inTops_wf; [|exact Hb]. eapply run_wf; eauto.
    + intros HX o1 o2 I1 I2.
      assert (HL : lipM (cmetric (rP R)) anyPos anyPos) by (rewrite HM; apply lip_euclid).
      pose proof (lip_field (rP R) anyPos anyPos _ _ cat1 cat2 o1 o2 HL Hr I I I1 I2 HB HX). lra.
Qed.
Theorem C04_auto_slop R cat s0 s1 :
  cmetric (rP R) = Euclidean -> crpar (rP R) = None -> validB (cbin (rP R)) ->
  narrowLog (cbin (rP R)) -> posW cat ->
  runAuto R cat s0 s1 ->
  accountsAuto cat
    (cntSlop (cbin (rP R)) euclid (groupSlack (cbin (rP R))))
    (drpSlop (cbin (rP R)) euclid (groupSlack (cbin (rP R)))) s0 s1.
Proof.
  intros HM Hr HB HN Hw H.
  pose proof (C45_minsize_slack (rP R) HB) as [He0 He].
  assert (HA : accountsAuto cat
     (cntSlop (cbin (rP R)) (mdist (cmetric (rP R))) (2 * fst (getMinMaxSize (rP R))))
     (drpSlop (cbin (rP R)) (mdist (cmetric (rP R))) (2 * fst (getMinMaxSize (rP R)))) s0 s1).
  { apply (runAuto_slop R); auto. intros F cells -> B. split.
    + intros a b Ha Hb. apply pairOK_euclid; auto; [lra| |].
      * eapply inTops_wf; [|exact Ha]. eapply run_wf; eauto.
      * eapply inTops_wf; [|exact Hb]. eapply run_wf; eauto.
    + intros c o1 o2 Hc HS I1 I2. destruct (getSize c) as [x|] eqn:E; [|discriminate].
      simpl in HS. apply Rleb_true in HS. unfold halfminsep in HS.
      assert (O := inTops_wf _ _ _ (run_wf R _ cat cells HB B) Hc).
      pose proof (pair_in_cell (fst (getMinMaxSize (rP R))) c o1 o2 x ltac:(lra) O E I1 I2). rewrite HM, mdist_euclidean, euclid_pdist. lra. }
  destruct HA as [cat' [HP HA]]. exists cat'. split; auto.
  eapply accounts_mono; [| |exact HA].
  - intros. eapply cntSlop_mono; [|exact He|eassumption]. rewrite HM. apply mdist_euclidean.
  - intros. eapply drpSlop_mono; [|exact He|eassumption]. rewrite HM. apply mdist_euclidean.
Qed.
(** Periodic metric: no grouping of objects is done, so there is no additional slack. *)
Theorem C04_periodic_slop xp yp zp (psep : pos -> pos -> R) R cat1 cat2 s0 s1 :
  0 < xp -> 0 < yp -> 0 < zp -> (forall p q, isPeriodicSep xp yp zp p q (psep p q)) ->
  cmetric (rP R) = Periodic xp yp zp -> crpar (rP R) = None -> validB (cbin (rP R)) ->
  narrowLog (cbin (rP R)) -> posW cat1 -> posW cat2 ->
  runCross R cat1 cat2 s0 s1 ->
  accounts (pairs cat1 cat2) (cntSlop (cbin (rP R)) psep 0) (drpSlop (cbin (rP R)) psep 0) s0 s1.
Proof.
  intros Hx Hy Hz Hp HM Hr HB HN Hw1 Hw2 H.
  assert (Hd : forall p q, mdist (Periodic xp yp zp) p q = psep p q).
  { intros. eapply periodic_unique; [apply C12_periodic_distance; auto|auto]. }
  eapply accounts_mono; [| |apply (runCross_slop R 0); eauto; try lra].
  - intros. eapply cntSlop_mono; [|apply Rle_refl|eassumption]. rewrite HM; auto.
  - intros. eapply drpSlop_mono; [|apply Rle_refl|eassumption]. rewrite HM; auto.
  - assert (Hm : fst (getMinMaxSize (rP R)) = 0) by (apply minsize_metric; rewrite HM; discriminate).
    intros F1 F2 cells1 cells2 -> -> B1 B2. split.
    + intros a b Ha Hb. apply (pairOK_lip (rP R) anyPos anyPos); auto; try exact I.
      * rewrite HM; apply lip_periodic; auto.
      * rewrite <- Hm. eapply inTops_wf; [|exact Ha]. eapply run_wf; eauto.
      * rewrite <- Hm. eapply inTops_wf; [|exact Hb]. eapply run_wf; eauto.
    + intros HX o1 o2 I1 I2.
      assert (HL : lipM (cmetric (rP R)) anyPos anyPos) by (rewrite HM; apply lip_periodic; auto).
      pose proof (lip_field (rP R) anyPos anyPos _ _ cat1 cat2 o1 o2 HL Hr I I I1 I2 HB HX). lra.
Qed.
Example C04_example : exists s1,
  runCross (exRun Euclidean exBslop BruteNo) exCat1 exCat2 cleared s1 /\
  accounts (pairs exCat1 exCat2) (cntSlop exBslop euclid (1/10)) (drpSlop exBslop euclid (1/10)) cleared s1.
Proof.
  destruct (runCross_exists (exRun Euclidean exBslop BruteNo) exCat1 exCat2 cleared) as [s1 H1];
    try (apply exBslop_valid); try discriminate.
  exists s1. split; auto. apply (C04_cross_slop (exRun Euclidean exBslop BruteNo)); auto.
  - apply exBslop_valid. - apply exBslop_narrow. - apply exCat1_pos. - apply exCat2_pos.
Qed.

(** C05: pairs inside the range by more than the slop are all counted, once each. *)
Definition deepIn (B : bparams) (e : R) (p : obj * obj) : bool :=
  let d := euclid (opos (fst p)) (opos (snd p)) in
  Rltb (slopHi B (minsep B) + e) d && Rltb d (slopLo B (maxsep B) - e).
Lemma Permutation_filter {A} (f : A -> bool) l l' : Permutation l l' -> Permutation (filter f l) (filter f l').
Proof.
  induction 1; simpl; auto.
  - destruct (f x); auto.
  - destruct (f x), (f y); auto. apply perm_swap.
  - eapply perm_trans; eauto.
Qed.
Lemma accounts_deep B l e s0 s1 : accounts l (cntSlop B euclid e) (drpSlop B euclid e) s0 s1 ->
  exists counted, Permutation (filter (deepIn B e) l) (filter (deepIn B e) (map fst counted)) /\
    (forall o1 o2 k, In (o1, o2, k) counted -> cntSlop B euclid e o1 o2 k) /\
    forall k, a_npairs s1 k = a_npairs s0 k + inBinSum v_one k counted /\
              a_weight s1 k = a_weight s0 k + inBinSum v_ww k counted.
Proof.
  intros [cnt [drp [HP [HC [HD HA]]]]]. exists cnt. split; [|split; auto].
  - eapply perm_trans; [apply Permutation_filter; exact HP|]. rewrite filter_app.
    assert (Hn : filter (deepIn B e) drp = []).
    { clear HP HA. induction drp as [|[o1 o2] drp IH]; auto. simpl.
      rewrite IH by (intros; apply HD; right; auto).
      destruct (HD o1 o2 (or_introl eq_refl)) as [H|H]; unfold deepIn; cbn [fst snd];
        unfold Rltb; repeat destruct Rlt_dec; simpl; auto; exfalso; lra. }
    rewrite Hn, app_nil_r. auto.
  - intro k. destruct (HA k) as [A1 [A2 _]]; auto.
Qed.
Theorem C05_only_borderline_pairs R cat1 cat2 s0 s1 :
  cmetric (rP R) = Euclidean -> crpar (rP R) = None -> validB (cbin (rP R)) ->
  narrowLog (cbin (rP R)) -> posW cat1 -> posW cat2 ->
  runCross R cat1 cat2 s0 s1 ->
  let B := cbin (rP R) in let e := groupSlack B in
  exists counted,
    (* all pairs deep inside the range are counted, each exactly as often as it occurs *)
    Permutation (filter (deepIn B e) (pairs cat1 cat2)) (filter (deepIn B e) (map fst counted)) /\
    (* nothing outside the range by more than the slop is counted *)
    (forall o1 o2 k, In (o1, o2, k) counted ->
       slopLo B (minsep B) - e <= euclid (opos o1) (opos o2) <= slopHi B (maxsep B) + e) /\
    forall k, a_npairs s1 k = a_npairs s0 k + inBinSum v_one k counted /\
              a_weight s1 k = a_weight s0 k + inBinSum v_ww k counted.
Proof.
  intros HM Hr HB HN Hw1 Hw2 H B e.
  pose proof (C04_cross_slop R cat1 cat2 s0 s1 HM Hr HB HN Hw1 Hw2 H) as HA.
  destruct (accounts_deep _ _ _ _ _ HA) as [cnt [H1 [H2 H3]]]. exists cnt. split; auto. split; auto.
  intros o1 o2 k Hi. destruct (H2 o1 o2 k Hi) as [Hk [Hlo Hhi]]. fold B e in Hk, Hlo, Hhi.
  assert (HE0 : edge B 0 = minsep B) by (apply edge_0; auto).
  assert (HEn : edge B (nbins B) = maxsep B) by (symmetry; apply HB).
  assert (Hmono : forall i j, (i <= j)%Z -> edge B i <= edge B j).
  { intros i j Hij. destruct (Z.eq_dec i j) as [->|]; [lra|]. left. apply edge_lt; auto. lia. }
  assert (edge B 0 <= edge B k) by (apply Hmono; lia).
  assert (edge B (k + 1) <= edge B (nbins B)) by (apply Hmono; lia).
  rewrite HE0 in *. rewrite HEn in *.
  pose proof (vb_b _ HB) as Hb. fold B in Hb. pose proof (minsep_nonneg _ HB) as Hms. fold B in Hms.
  assert (HLo : 0 <= edge B k -> slopLo B (minsep B) <= slopLo B (edge B k) \/ 1 < slop_b B).
  { intro. unfold slopLo. destruct (btype B); try (left; lra).
    destruct (Rle_dec (slop_b B) 1); [left; nra|right; lra]. }
  split.
  - destruct HLo as [HL|HL]; [lra|lra|].
    unfold slopLo. destruct (btype B) eqn:ET.
    + assert (0 <= euclid (opos o1) (opos o2)) by apply sqrt_pos. 
      assert (0 <= e) by (unfold e, groupSlack; rewrite ET; nra). nra.
    + unfold slopLo in Hlo. rewrite ET in Hlo. lra.
    + unfold slopLo in Hlo. rewrite ET in Hlo. lra.
  - assert (slopHi B (edge B (k + 1)) <= slopHi B (maxsep B)); [|lra].
    unfold slopHi. destruct (btype B); try lra. pose proof (exp_pos (slop_b B)). nra.
Qed.
(** In the example the two pairs with separations 3/2 and 5/2 are deep inside (1,3). *)
Example C05_example :
  filter (deepIn exBslop (groupSlack exBslop)) (pairs exCat1 exCat2) =
  [(exObj 0 1 0, exObj (3/2) 1 0); (exObj 0 1 0, exObj (5/2) 3 1)].
Proof.
  unfold pairs. simpl. unfold deepIn, slopHi, slopLo, groupSlack; simpl. rewrite !euclid_x.
  repeat match goal with |- context [Rabs ?x] =>
    first [ rewrite (Rabs_left x) by lra | rewrite (Rabs_right x) by lra ] end.
  unfold Rltb. repeat (destruct Rlt_dec; try (exfalso; lra); simpl); auto.
Qed.

(** ** C06: schedule independence *)
Theorem C06_schedule_independent_auto P cells s0 s1 s1' :
  processAuto P cells s0 s1 -> processAuto P cells s0 s1' ->
  forall k, a_npairs s1 k = a_npairs s1' k /\ a_weight s1 k = a_weight s1' k /\
    a_meanr s1 k = a_meanr s1' k /\ a_meanlogr s1 k = a_meanlogr s1' k /\
    a_xi_nk s1 k = a_xi_nk s1' k /\ a_xi_kk s1 k = a_xi_kk s1' k.
Proof.
  intros [ev [th [HE [HS ->]]]] [ev' [th' [HE' [HS' ->]]]] k.
  rewrite <- HE in HE'. apply map_Some_inj in HE'. subst ev'.
  assert (HG : forall f, aget f (parallelRun s0 th) k = aget f (parallelRun s0 th') k).
  { intro f. rewrite (schedule_get f s0 ev th), (schedule_get f s0 ev th'); auto. }
  repeat split; [apply (HG FNpairs)|apply (HG FWeight)|apply (HG FMeanr)|apply (HG FMeanlogr)|
    apply (HG FXiNK)|apply (HG FXiKK)].
Qed.
Theorem C06_schedule_independent_cross P c1 c2 z1 z2 cells1 cells2 s0 s1 s1' :
  processCross P c1 c2 z1 z2 cells1 cells2 s0 s1 -> processCross P c1 c2 z1 z2 cells1 cells2 s0 s1' ->
  forall k, a_npairs s1 k = a_npairs s1' k /\ a_weight s1 k = a_weight s1' k /\
    a_meanr s1 k = a_meanr s1' k /\ a_meanlogr s1 k = a_meanlogr s1' k /\
    a_xi_nk s1 k = a_xi_nk s1' k /\ a_xi_kk s1 k = a_xi_kk s1' k.
Proof.
  unfold processCross. destruct crossEarlyExit.
  - intros -> ->. auto 10.
  - intros [ev [th [HE [HS ->]]]] [ev' [th' [HE' [HS' ->]]]] k.
    rewrite <- HE in HE'. apply map_Some_inj in HE'. subst ev'.
    assert (HG : forall f, aget f (parallelRun s0 th) k = aget f (parallelRun s0 th') k).
    { intro f. rewrite (schedule_get f s0 ev th), (schedule_get f s0 ev th'); auto. }
    repeat split; [apply (HG FNpairs)|apply (HG FWeight)|apply (HG FMeanr)|apply (HG FMeanlogr)|
      apply (HG FXiNK)|apply (HG FXiKK)].
Qed.
(** Two really different schedules of the same iterations: one thread, or one thread each in
    reverse order. *)
Example C06_example : exists cells ev s1 s1',
  buildField (fieldParams (exRun Euclidean exB BruteNo) false) exCatA cells /\
  map Some ev = autoIters (rP (exRun Euclidean exB BruteNo)) cells /\
  s1 = parallelRun cleared [ev] /\ s1' = parallelRun cleared (map (fun x => [x]) (rev ev)) /\
  processAuto (rP (exRun Euclidean exB BruteNo)) cells cleared s1 /\
  processAuto (rP (exRun Euclidean exB BruteNo)) cells cleared s1'.
Proof.
  set (R := exRun Euclidean exB BruteNo).
  destruct (buildField_exists (fieldParams R false) exCatA) as [cells B]; [discriminate|].
  destruct (autoIters_total (rP R) (fst (getMinMaxSize (rP R))) cells) as [ev He].
  - apply exB_valid. - simpl; lra. - eapply run_wf; eauto. apply exB_valid.
  - exists cells, ev, (parallelRun cleared [ev]), (parallelRun cleared (map (fun x => [x]) (rev ev))).
    split; auto. split; auto. split; auto. split; auto. split.
    + exists ev, [ev]. split; auto. split; auto. apply schedule_exists.
    + exists ev, (map (fun x => [x]) (rev ev)). split; auto. split; auto.
      unfold schedule. apply perm_trans with (rev ev); [apply Permutation_rev|].
      clear. induction (rev ev); simpl; auto.
Qed.

(** ** C07: safety *)
Theorem C07_no_null_child_auto R cat cells : cat <> [] -> validB (cbin (rP R)) ->
  buildField (fieldParams R (bruteAuto (rbrute R))) cat cells ->
  exists evs, map Some evs = autoIters (rP R) cells.
Proof.
  intros Hne HB H. apply (autoIters_total (rP R) (fst (getMinMaxSize (rP R)))).
  - apply HB. - apply minsep_nonneg; auto. - eapply run_wf; eauto.
Qed.
Theorem C07_no_null_child_cross R cat1 cat2 cells1 cells2 : validB (cbin (rP R)) ->
  buildField (fieldParams R (brute1 (rbrute R))) cat1 cells1 ->
  buildField (fieldParams R (brute2 (rbrute R))) cat2 cells2 ->
  exists evs, map Some evs = crossIters (rP R) cells1 cells2.
Proof.
  intros HB H1 H2. apply (crossIters_total (rP R) (fst (getMinMaxSize (rP R)))).
  - apply HB. - eapply run_wf; eauto. - eapply run_wf; eauto.
Qed.
Lemma direct_in_range P rev a b rsq k r lr : validB (cbin P) -> decide11 P a b = Direct rsq k r lr ->
  (0 <= ek (directProcess11 P rev a b rsq k r lr) < nbins (cbin P))%Z.
Proof.
  intros HB HD.
  destruct (decide_cases P a b) as [[HC _]|[[k' [r' [lr' [HC [W1 [W2 [Hin [HS HRg]]]]]]]]|[x [y HC]]]];
    try (rewrite HC in HD; discriminate).
  rewrite HC in HD. injection HD; intros; subst.
  pose proof (distSq_nonneg (cmetric P) (getPos a) (getPos b)) as Hrsq.
  apply isRSqInRange_iff in HRg; auto.
  assert (Hpos : btype (cbin P) = BLog -> 0 < sqrt (distSq (cmetric P) (getPos a) (getPos b))).
  { intro HT. pose proof (vb_minsep _ HB) as Hm. rewrite HT in Hm. lra. }
  destruct (direct_event P rev a b k r lr HB HRg HS Hpos) as [_ [HK _]]. apply HK.
Qed.
Theorem C07_bin_index_in_range_auto P cells evs e : validB (cbin P) ->
  map Some evs = autoIters P cells -> In e (concat evs) ->
  (0 <= ek e < nbins (cbin P))%Z /\ ek2 e = None.
Proof.
  intros HB HE Hi. destruct (auto_covers P cells evs HE) as [dr [ds [_ [HDir _]]]].
  rewrite Forall_forall in HDir. destruct (HDir e Hi) as [a [b [rsq [k [r [lr [_ [_ [HD ->]]]]]]]]].
  split; [apply direct_in_range; auto|].
  assert (HR : do_reverse (cbin P) = false).
  { unfold do_reverse. pose proof (vb_not2d _ HB). destruct (btype (cbin P)); congruence. }
  rewrite HR. apply direct_ek2.
Qed.
Theorem C07_bin_index_in_range_cross P cells1 cells2 evs e : validB (cbin P) ->
  map Some evs = crossIters P cells1 cells2 -> In e (concat evs) ->
  (0 <= ek e < nbins (cbin P))%Z /\ ek2 e = None.
Proof.
  intros HB HE Hi. destruct (cross_covers P cells1 cells2 evs HE) as [dr [_ [HDir _]]].
  rewrite Forall_forall in HDir. destruct (HDir e Hi) as [a [b [rsq [k [r [lr [_ [_ [HD ->]]]]]]]]].
  split; [apply direct_in_range; auto|apply direct_ek2].
Qed.
(** Every run exists: no choice of the tree builder can make it get stuck. *)
Theorem C07_runs_exist R cat1 cat2 s0 : validB (cbin (rP R)) -> cat1 <> [] -> cat2 <> [] ->
  (exists s1, runAuto R cat1 s0 s1) /\ (exists s1, runCross R cat1 cat2 s0 s1).
Proof. intros. split; [apply runAuto_exists; auto|apply runCross_exists; auto]. Qed.
Example C07_example : validB (cbin (rP (exRun Arc3D exBslop BruteFirst))) /\ exCat1 <> [] /\ exCat2 <> [].
Proof. split; [apply exBslop_valid|split; discriminate]. Qed.
