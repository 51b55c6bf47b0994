(** C21-C24, C50: covariance estimation. *)
From Coq Require Import Reals Lra Lia List ZArith Bool Permutation Psatz.
From Verif Require Import Base Geometry Tree Traverse Run Corr Patch Cov Spec SpecRun GeomFacts SumFacts TreeFacts
  BinFacts TravFacts Exact MetricFacts Cover Lift Runs Account PropsCount PropsCorr PatchFacts PropsPatch CovFacts Examples.
Import ListNotations.
Open Scope R_scope.

(** ** C21 *)
(** "The pair involves patch i": when one of the catalogs is not split into patches (its npatch is 1)
    only the other one's patch number counts. *)
Definition involves (n1 n2 i : Z) (jk : key) : Prop :=
  (n2 = 1%Z -> fst jk = i) /\ (n2 <> 1%Z -> n1 = 1%Z -> snd jk = i) /\
  (n2 <> 1%Z -> n1 <> 1%Z -> fst jk = i \/ snd jk = i).
Theorem C21_jackknife_pairs n1 n2 i keys : NoDup keys ->
  NoDup (jackPairs n1 n2 i keys) /\
  forall jk, In jk (jackPairs n1 n2 i keys) <-> In jk keys /\ ~ involves n1 n2 i jk.
Proof.
  intro HN. unfold jackPairs, involves.
  destruct (Z.eqb_spec n2 1) as [E2|E2]; [|destruct (Z.eqb_spec n1 1) as [E1|E1]];
    (split; [apply NoDup_filter; auto|]); intros [j k]; rewrite filter_In; cbn [fst snd];
    rewrite ?andb_true_iff, !negb_true_iff, !Z.eqb_neq; intuition lia.
Qed.
Example C21_example_pairs : jackPairs 3 3 1 [(0,0); (0,1); (1,1); (1,2); (0,2); (2,2)]%Z = [(0,0); (0,2); (2,2)]%Z.
Proof. reflexivity. Qed.
(** the rows are for i = 0, ..., npatch-1 *)
Theorem C21_jackknife_rows n1 n2 keys : (0 < npatchOf n1 n2)%Z ->
  length (jackRows n1 n2 keys) = Z.to_nat (npatchOf n1 n2) /\
  forall i, (0 <= i < npatchOf n1 n2)%Z -> nth (Z.to_nat i) (jackRows n1 n2 keys) [] = jackPairs n1 n2 i keys.
Proof.
  intro H. unfold jackRows, zrange. rewrite !map_length, seq_length. split; auto. intros i Hi.
  rewrite map_map. rewrite (nth_indep _ [] (jackPairs n1 n2 (Z.of_nat 0) keys)) by (rewrite map_length, seq_length; lia).
  rewrite (map_nth (fun x => jackPairs n1 n2 (Z.of_nat x) keys)), seq_nth by lia. f_equal. lia.
Qed.
Example C21_example_rows : (0 < npatchOf 3 3)%Z. Proof. reflexivity. Qed.

(** What the sum over those pairs is, for the results dict made by a patch run with bin_slop=0: the
    brute-force sums over the rows of the other patches. *)
Definition without (i : Z) (cats : list patch) : list patch := filter (fun c => negb (pidx c =? i)%Z) cats.
Lemma in_without i cats o : In o (allRows (without i cats)) -> In o (allRows cats).
Proof.
  unfold allRows, without. intro H. apply in_concat in H as [x [Hx Ho]]. apply in_map_iff in Hx as [c [<- Hc]].
  apply filter_In in Hc as [Hc _]. apply in_concat. exists (pobjs c). split; auto. apply in_map; auto.
Qed.
Lemma nodup_filter_map {A} (g : A -> Z) q l : NoDup (map g l) -> NoDup (map g (filter q l)).
Proof.
  induction l as [|a l IH]; simpl; auto. intro H. inversion H; subst. destruct (q a); simpl; auto.
  constructor; auto. intro Hin. apply H2. apply in_map_iff in Hin as [b [<- Hb]]. apply filter_In in Hb as [Hb _].
  apply in_map; auto.
Qed.
Lemma resInv_clear : resInv (sres sclear).
Proof. constructor; simpl; [constructor|]. intros k v []. Qed.
Lemma sumPairs_filter B d q : resInv d ->
  exists c, sumPairsOf B d (filter q (keysOf d)) = Some c /\
    (forall f k, In k (bins B) -> aget f (kacc c) k = resSum f k q d) /\ ktot c = resTot q d.
Proof.
  intros [HN HC]. unfold sumPairsOf. rewrite lookup_filter by auto. eexists. split; [reflexivity|].
  assert (HS : forall g : corr -> R, sumR g (map snd (filter (fun kv => q (fst kv)) d)) =
     sumR (fun kv => if q (fst kv) then g (snd kv) else 0) d).
  { intro g. rewrite sumR_map. clear HN HC. induction d as [|[k v] d IH]; simpl; auto.
    destruct (q k); simpl; rewrite IH; lra. }
  split.
  - intros f k Hk. rewrite ksum_get; auto; [apply (HS (fun c => aget f (kacc c) k))|].
    intros c Hc. apply in_map_iff in Hc as [[k' v] [<- Hv]]. apply filter_In in Hv as [Hv _]. apply (HC k'); auto.
  - rewrite ksum_tot. apply HS.
Qed.
Lemma jobs_sumPairs C Js st q : okB (pB C) -> NoDup (map jobKey Js) -> runJobs C sclear Js st ->
  exists c, sumPairsOf (pB C) (sres st) (filter q (keysOf (sres st))) = Some c /\
    (forall f k, In k (bins (pB C)) -> (forall J, In J Js -> jobExact C f k J) ->
      aget f (kacc c) k = sumR (jobVal (rP (pR C)) f k) (filter (fun J => q (jobKey J)) Js)) /\
    (pNN C = true -> ktot c = sumR (jobTot C) (filter (fun J => q (jobKey J)) Js)).
Proof.
  intros HB HN H.
  destruct (jobs_res C sclear Js st HB resInv_clear HN) as [HI [_ [HS HT]]]; auto.
  destruct (sumPairs_filter (pB C) (sres st) q HI) as [c [E [H1 H2]]]. exists c. split; auto. split.
  - intros f k Hk HE. rewrite H1 by auto. rewrite (HS f k q Hk HE). unfold resSum; simpl. lra.
  - intro HNN. rewrite H2, (HT q HNN). unfold resTot; simpl. lra.
Qed.
Theorem C21_jackknife_auto C cats n i st k :
  let R := pR C in let B := cbin (rP R) in
  cmetric (rP R) = Euclidean -> rcoord R <> Sphere -> crpar (rP R) = None -> validB B ->
  slop_b B = 0 -> narrowLog B ->
  offEdges B euclid (allRows cats) (allRows cats) -> offMinSep B euclid (allRows cats) ->
  posW (allRows cats) -> NoDup (map pidx cats) -> (0 <= k < nbins B)%Z -> n <> 1%Z ->
  runJobs C sclear (autoJobs cats) st ->
  exists c, sumPairsOf B (sres st) (jackPairs n n i (keysOf (sres st))) = Some c /\
    addsAuto (selBin B euclid k) (allRows (without i cats)) cleared (kacc c) k /\
    (pNN C = true -> ktot c = sumw (allRows (without i cats)) * sumw (allRows (without i cats)) / 2).
Proof.
  intros R B HM HS Hr HB Hb HN HE HO HW HND Hk Hn H.
  assert (En : (n =? 1)%Z = false) by (apply Z.eqb_neq; auto).
  unfold jackPairs. rewrite En.
  destruct (jobs_sumPairs C (autoJobs cats) st (fun jk => negb (fst jk =? i)%Z && negb (snd jk =? i)%Z))
    as [c [E [H1 H2]]]; auto using autoJobs_keys.
  { apply validB_okB; auto. }
  exists c. split; [exact E|].
  pose proof (autoJobs_filter (fun x => negb (x =? i)%Z) cats) as HF. cbn beta in HF. rewrite HF in H1, H2.
  change (filter (fun c0 => negb (pidx c0 =? i)%Z) cats) with (without i cats) in *.
  split.
  - apply (addsAuto_of (rP R)).
    + intros. apply selM_selBin; auto. rewrite HM. apply mdist_euclidean.
    + intros f Hf Hnk. rewrite cleared_get, H1; auto.
      * rewrite autoJobs_sum; [rewrite Rplus_0_l; reflexivity| |apply nodup_filter_map; auto].
        intros x y. apply specM_sym; auto. fold R. rewrite HM. apply symM_euclid.
      * apply in_bins; auto.
      * apply autoJobs_exact; auto; fold R; rewrite ?HM.
        -- apply lip_euclid.
        -- apply subEuclid_euclid.
        -- apply symM_euclid.
        -- split; auto. split; auto. rewrite HM. eapply offEdges_ext; [|exact HE]. intros; symmetry; apply mdist_euclidean.
        -- eapply offMinSep_ext; [|exact HO]. intros; symmetry; apply mdist_euclidean.
        -- apply skipOK_lip; auto. rewrite HM. apply lip_euclid.
  - intro HNN. rewrite H2, autoJobs_tot; auto; [lra|apply nodup_filter_map; auto].
Qed.
(** Cross-correlations: both catalogs in patches, or only one of them. *)
Definition without1 (n2 n1 i : Z) (cats : list patch) : list patch :=
  if (n2 =? 1)%Z then without i cats else if (n1 =? 1)%Z then cats else without i cats.
Definition without2 (n2 n1 i : Z) (cats : list patch) : list patch :=
  if (n2 =? 1)%Z then cats else without i cats.
Lemma filter_true {A} (l : list A) : filter (fun _ => true) l = l.
Proof. induction l; simpl; auto. rewrite IHl; auto. Qed.
Lemma without_sub i cats a : In a (without i cats) -> In a cats.
Proof. intro H. apply filter_In in H as [H _]; auto. Qed.
Theorem C21_jackknife_cross C n1 n2 cats1 cats2 i st k :
  let R := pR C in let B := cbin (rP R) in
  cmetric (rP R) = Euclidean -> rcoord R <> Sphere -> crpar (rP R) = None -> validB B ->
  slop_b B = 0 -> narrowLog B ->
  offEdges B euclid (allRows cats1) (allRows cats2) ->
  posW (allRows cats1) -> posW (allRows cats2) -> (0 <= k < nbins B)%Z ->
  NoDup (map pidx cats1) -> NoDup (map pidx cats2) ->
  runJobs C sclear (crossJobs n1 n2 cats1 cats2) st ->
  let rest1 := without1 n2 n1 i cats1 in let rest2 := without2 n2 n1 i cats2 in
  exists c, sumPairsOf B (sres st) (jackPairs n1 n2 i (keysOf (sres st))) = Some c /\
    addsCross (selBin B euclid k) (allRows rest1) (allRows rest2) cleared (kacc c) k /\
    (pNN C = true -> noForcedSkip R n1 n2 cats1 cats2 -> ktot c = sumw (allRows rest1) * sumw (allRows rest2)).
Proof.
  intros R B HM HS Hr HB Hb HN HE W1 W2 Hk N1 N2 H rest1 rest2.
  assert (HQ : exists p1 p2 : Z -> bool,
    jackPairs n1 n2 i (keysOf (sres st)) = filter (fun jk => p1 (fst jk) && p2 (snd jk)) (keysOf (sres st)) /\
    rest1 = filter (fun c => p1 (pidx c)) cats1 /\ rest2 = filter (fun c => p2 (pidx c)) cats2).
  { unfold jackPairs, rest1, rest2, without1, without2, without.
    destruct (n2 =? 1)%Z; [|destruct (n1 =? 1)%Z].
    - exists (fun x => negb (x =? i)%Z), (fun _ => true). rewrite filter_true. split; auto.
      apply filter_ext. intros; rewrite andb_true_r; auto.
    - exists (fun _ => true), (fun x => negb (x =? i)%Z). rewrite filter_true. split; auto.
    - exists (fun x => negb (x =? i)%Z), (fun x => negb (x =? i)%Z). auto. }
  destruct HQ as [p1 [p2 [EQ [Er1 Er2]]]]. rewrite EQ.
  destruct (jobs_sumPairs C (crossJobs n1 n2 cats1 cats2) st (fun jk => p1 (fst jk) && p2 (snd jk)))
    as [c [E [H1 H2]]]; auto using crossJobs_keys.
  { apply validB_okB; auto. }
  exists c. split; [exact E|].
  pose proof (crossJobs_filter p1 p2 n1 n2 cats1 cats2) as HF. rewrite HF in H1, H2.
  rewrite <- Er1, <- Er2 in *.
  split.
  - apply (addsCross_of (rP R)).
    + intros. apply selM_selBin; auto. rewrite HM. apply mdist_euclidean.
    + intros f Hf. rewrite cleared_get, H1; auto.
      * rewrite crossJobs_sum. rewrite Rplus_0_l. reflexivity.
      * apply in_bins; auto.
      * apply crossJobs_exact; auto; fold R; rewrite ?HM.
        -- apply lip_euclid.
        -- split; auto. split; auto. rewrite HM. eapply offEdges_ext; [|exact HE]. intros; symmetry; apply mdist_euclidean.
        -- apply skipOK_lip; auto. rewrite HM. apply lip_euclid.
  - intros HNN HFS. rewrite H2, crossJobs_tot; auto.
    intros a b Ha Hb'. apply HFS; [rewrite Er1 in Ha; apply filter_In in Ha; tauto|rewrite Er2 in Hb'; apply filter_In in Hb'; tauto].
Qed.

(** ** C22 *)
Definition mult (j : Z) (index : list Z) : nat := count_occ Z.eq_dec index j.
Definition pmult (jk : key) (l : list key) : nat := count_occ key_dec l jk.
Lemma pmult_filter q l jk : pmult jk (filter q l) = if q jk then pmult jk l else 0%nat.
Proof.
  induction l as [|a l IH]; simpl; [destruct (q jk); auto|].
  unfold pmult in *. destruct (q a) eqn:E; simpl; destruct (key_dec a jk) as [->|]; rewrite ?IH, ?E; auto.
Qed.
Lemma pmult_app l1 l2 jk : pmult jk (l1 ++ l2) = (pmult jk l1 + pmult jk l2)%nat.
Proof. apply count_occ_app. Qed.
Lemma pmult_map (g : Z -> key) index j jk : (forall i, g i = jk <-> i = j) -> pmult jk (map g index) = mult j index.
Proof.
  intro H. unfold pmult, mult. induction index as [|a l IH]; simpl; auto.
  destruct (key_dec (g a) jk) as [E|E], (Z.eq_dec a j) as [F|F]; rewrite ?IH; auto; exfalso.
  - apply F, H; auto.
  - apply E, H; auto.
Qed.
Lemma pmult_map_none (g : Z -> key) index jk : (forall i, g i <> jk) -> pmult jk (map g index) = 0%nat.
Proof.
  intro H. unfold pmult. induction index as [|a l IH]; simpl; auto. destruct (key_dec (g a) jk) as [E|]; auto.
  exfalso. eapply H; eauto.
Qed.
Lemma pmult_prod l1 l2 j k : pmult (j, k) (flat_map (fun i => map (fun j => (i, j)) l2) l1) = (mult j l1 * mult k l2)%nat.
Proof.
  induction l1 as [|a l1 IH]; simpl; auto. rewrite pmult_app, IH. unfold mult at 2. simpl.
  destruct (Z.eq_dec a j) as [->|E].
  - rewrite (pmult_map (fun x => (j, x)) l2 k); [reflexivity|]. intro i. split; [intro H; injection H; auto|intros ->; auto].
  - rewrite pmult_map_none; [reflexivity|]. intros i H. injection H; auto.
Qed.
Lemma mult_range n k : mult k (zrange n) = if (0 <=? k)%Z && (k <? n)%Z then 1%nat else 0%nat.
Proof.
  unfold mult, zrange.
  assert (HN : NoDup (map Z.of_nat (seq 0 (Z.to_nat n)))).
  { apply NoDup_map_in; [apply seq_NoDup|]. intros; lia. }
  destruct ((0 <=? k)%Z && (k <? n)%Z) eqn:E.
  - apply andb_true_iff in E as [E1 E2]. apply Z.leb_le in E1. apply Z.ltb_lt in E2.
    apply (proj1 (NoDup_count_occ' Z.eq_dec _) HN). apply in_map_iff. exists (Z.to_nat k). rewrite in_seq. lia.
  - apply count_occ_not_In. intro H. apply in_map_iff in H as [x [<- Hx]]. apply in_seq in Hx.
    apply andb_false_iff in E as [E|E]; [apply Z.leb_gt in E|apply Z.ltb_ge in E]; lia.
Qed.
Lemma okKey_spec keys jk : okKey keys jk = if in_dec key_dec jk keys then true else false.
Proof.
  destruct (in_dec key_dec jk keys) as [H|H].
  - apply okKey_in; auto.
  - destruct (okKey keys jk) eqn:E; auto. apply okKey_in in E. contradiction.
Qed.
(** Stored pairs (both catalogs in patches) *)
Theorem C22_bootstrap n1 n2 index keys j k : n1 <> 1%Z -> n2 <> 1%Z ->
  pmult (j, k) (bootPairs n1 n2 index keys) =
    if in_dec key_dec (j, k) keys then
      (if (j =? k)%Z then mult j index else mult j index * mult k index)%nat
    else 0%nat.
Proof.
  intros H1 H2. unfold bootPairs. apply Z.eqb_neq in H1, H2. rewrite H1, H2.
  rewrite pmult_app, !pmult_filter, okKey_spec. cbn [fst snd]. destruct (in_dec key_dec (j, k) keys); simpl; auto.
  rewrite pmult_prod. destruct (Z.eqb_spec j k) as [<-|E]; simpl.
  - rewrite (pmult_map (fun i => (i, i)) index j); [lia|]. intro x. split; [intro X; injection X; auto|intros ->; auto].
  - rewrite pmult_map_none; auto. intros x X. injection X; intros; lia.
Qed.
(** one catalog without patches: its only "patch" has number 0 *)
Theorem C22_bootstrap_one_sided n1 n2 index keys j k : n1 = 1%Z \/ n2 = 1%Z ->
  pmult (j, k) (bootPairs n1 n2 index keys) =
    if in_dec key_dec (j, k) keys then
      (if (n2 =? 1)%Z then (if (k =? 0)%Z then mult j index else 0)
       else if (j =? 0)%Z then mult k index else 0)%nat
    else 0%nat.
Proof.
  intros H. unfold bootPairs. destruct (Z.eqb_spec n2 1) as [E|E].
  - rewrite pmult_filter, okKey_spec. destruct (in_dec key_dec (j, k) keys); auto.
    destruct (Z.eqb_spec k 0) as [->|Ek].
    + apply pmult_map. intro x. split; [intro X; injection X; auto|intros ->; auto].
    + apply pmult_map_none. intros x X. injection X; intros; lia.
  - destruct (Z.eqb_spec n1 1) as [E1|E1]; [|lia].
    rewrite pmult_filter, okKey_spec. destruct (in_dec key_dec (j, k) keys); auto.
    destruct (Z.eqb_spec j 0) as [->|Ek].
    + apply (pmult_map (fun i => (0%Z, i))). intro x. split; [intro X; injection X; auto|intros ->; auto].
    + apply pmult_map_none. intros x X. injection X; intros; lia.
Qed.
(** marked bootstrap: multiplicity of the first patch only *)
Theorem C22_marked n1 n2 index keys j k : n1 <> 1%Z -> n2 <> 1%Z -> (0 <= k < n2)%Z ->
  pmult (j, k) (markedPairs n1 n2 index keys) = if in_dec key_dec (j, k) keys then mult j index else 0%nat.
Proof.
  intros H1 H2 Hk. unfold markedPairs. apply Z.eqb_neq in H1, H2. rewrite H1, H2.
  rewrite pmult_filter, okKey_spec. destruct (in_dec key_dec (j, k) keys); auto.
  rewrite pmult_prod, mult_range. destruct Hk as [A B]. apply Z.leb_le in A. apply Z.ltb_lt in B. rewrite A, B. simpl. lia.
Qed.
Theorem C22_marked_one_sided n1 n2 index keys : n1 = 1%Z \/ n2 = 1%Z ->
  markedPairs n1 n2 index keys = bootPairs n1 n2 index keys.
Proof.
  intros H. unfold markedPairs, bootPairs. destruct (Z.eqb_spec n2 1); auto. destruct (Z.eqb_spec n1 1); auto. lia.
Qed.
(** sample: the stored pairs whose first patch is i (whose second is i, if cat1 has no patches), as
    often as they are stored, i.e. once *)
Theorem C22_sample n1 n2 i keys j k :
  pmult (j, k) (samplePairs n1 n2 i keys) =
    if negb (n2 =? 1)%Z && (n1 =? 1)%Z then (if (k =? i)%Z then pmult (j, k) keys else 0%nat)
    else (if (j =? i)%Z then pmult (j, k) keys else 0%nat).
Proof.
  unfold samplePairs. destruct (n2 =? 1)%Z, (n1 =? 1)%Z; simpl; rewrite pmult_filter; auto.
Qed.
(** Each (first) patch number appears in exactly one sample row, so the samples partition the stored
    pairs. *)
Theorem C22_sample_partition n1 n2 keys j k : NoDup keys -> In (j, k) keys ->
  (0 <= j < npatchOf n1 n2)%Z -> (0 <= k < npatchOf n1 n2)%Z ->
  pmult (j, k) (concat (sampleRows n1 n2 keys)) = 1%nat.
Proof.
  intros HN HI Hj Hk. unfold sampleRows.
  assert (H : forall l, pmult (j, k) (concat (map (fun i => samplePairs n1 n2 i keys) l)) =
     mult (if negb (n2 =? 1)%Z && (n1 =? 1)%Z then k else j) l).
  { induction l as [|a l IH]; simpl; auto. rewrite pmult_app, IH, C22_sample. unfold mult. simpl.
    rewrite (proj1 (NoDup_count_occ' key_dec keys) HN (j, k) HI : pmult (j, k) keys = 1%nat).
    destruct (negb (n2 =? 1)%Z && (n1 =? 1)%Z).
    - destruct (Z.eqb_spec k a), (Z.eq_dec a k); try lia; auto.
    - destruct (Z.eqb_spec j a), (Z.eq_dec a j); try lia; auto. }
  rewrite H, mult_range.
  destruct (negb (n2 =? 1)%Z && (n1 =? 1)%Z).
  - replace ((0 <=? k)%Z && (k <? npatchOf n1 n2)%Z) with true; auto. symmetry. apply andb_true_iff. rewrite Z.leb_le, Z.ltb_lt. auto.
  - replace ((0 <=? j)%Z && (j <? npatchOf n1 n2)%Z) with true; auto. symmetry. apply andb_true_iff. rewrite Z.leb_le, Z.ltb_lt. auto.
Qed.
Example C22_example : bootPairs 3 3 [1; 1; 2]%Z [(0,0); (0,1); (1,1); (1,2); (0,2); (2,2)]%Z
  = [(1,1); (1,1); (2,2); (1,2); (1,2)]%Z.
Proof. reflexivity. Qed.
Example C22_example_one : bootPairs 1 3 [1; 1; 2]%Z [(0,0); (0,1); (0,2)]%Z = [(0,1); (0,1); (0,2)]%Z /\ (1 = 1 \/ 3 = 1)%Z.
Proof. split; [reflexivity|auto]. Qed.
Example C22_example_marked : markedPairs 3 3 [1; 1; 2]%Z [(0,0); (0,1); (1,1); (1,2); (0,2); (2,2)]%Z
  = [(1,1); (1,2); (1,1); (1,2); (2,2)]%Z.
Proof. reflexivity. Qed.
Example C22_example_sample : samplePairs 3 3 1 [(0,0); (0,1); (1,1); (1,2); (0,2); (2,2)]%Z = [(1,1); (1,2)]%Z.
Proof. reflexivity. Qed.

(** No KeyError: every pair selected by any of the methods is a stored key. *)
Theorem C22_pairs_stored n1 n2 i index keys jk :
  In jk (jackPairs n1 n2 i keys) \/ In jk (samplePairs n1 n2 i keys) \/
  In jk (markedPairs n1 n2 index keys) \/ In jk (bootPairs n1 n2 index keys) -> In jk keys.
Proof.
  unfold jackPairs, samplePairs, markedPairs, bootPairs.
  destruct (n2 =? 1)%Z, (n1 =? 1)%Z; intros [H|[H|[H|H]]];
    try (apply in_app_or in H as [H|H]); apply filter_In in H as [H E]; auto;
    try (apply andb_true_iff in E as [E _]); try (apply okKey_in in E; auto); auto.
Qed.
(** A concrete run: three patches, one row each; leaving out patch 2 leaves the pair at 3/2. *)
Definition exCats3 : list patch := [mkpatch 0 [exObj 0 1 0]; mkpatch 1 [exObj (3/2) 2 1]; mkpatch 2 [exObj (9/4) 1 2]].
Example C21_example_auto : exists st c,
  let C := mkPC (exRun Euclidean exB BruteNo) true in
  runJobs C sclear (autoJobs exCats3) st /\
  sumPairsOf exB (sres st) (jackPairs 3 3 2 (keysOf (sres st))) = Some c /\
  a_weight (kacc c) 0%Z = 2 /\ ktot c = 9/2.
Proof.
  set (C := mkPC (exRun Euclidean exB BruteNo) true).
  destruct (jobs_exist C sclear (autoJobs exCats3)) as [st H].
  { apply exB_valid. }
  { simpl. repeat constructor; discriminate. }
  assert (HN : NoDup (map pidx exCats3)).
  { simpl. repeat constructor; simpl; intuition lia. }
  destruct (C21_jackknife_auto C exCats3 3 2 st 0) as [c [E [[_ [HW _]] HT]]]; auto; simpl; try lia; try discriminate.
  - apply exB_valid.
  - apply exCatA_off.
  - apply exCatA_min.
  - apply exCatA_pos.
  - exists st, c. split; auto. split; [exact E|]. split.
    + rewrite HW. unfold without, exCats3, allRows, sumUPairs, selBin. simpl. rewrite !euclid_x, !exB_in by lia.
      unfold aconst, v_one, v_ww; simpl.
      repeat match goal with |- context [Rabs ?x] =>
        first [ rewrite (Rabs_left x) by lra | rewrite (Rabs_right x) by lra ] end.
      unfold Rleb, Rltb. repeat (destruct Rle_dec; destruct Rlt_dec; try (exfalso; lra); simpl). lra.
    + rewrite HT by reflexivity. unfold sumw, without, exCats3, allRows; simpl. lra.
Qed.
Example C21_example_cross : exists st c,
  let C := mkPC (exRun Euclidean exB BruteNo) true in
  let c1 := [mkpatch 0 [exObj 0 1 0]; mkpatch 1 [exObj (7/4) 2 1]] in
  let c2 := [mkpatch 0 [exObj (3/2) 1 0; exObj (5/2) 3 1]; mkpatch 1 [exObj (21/4) 1 2]] in
  runJobs C sclear (crossJobs 2 2 c1 c2) st /\
  sumPairsOf exB (sres st) (jackPairs 2 2 1 (keysOf (sres st))) = Some c /\ a_weight (kacc c) 1%Z = 3.
Proof.
  set (C := mkPC (exRun Euclidean exB BruteNo) true).
  set (c1 := [mkpatch 0 [exObj 0 1 0]; mkpatch 1 [exObj (7/4) 2 1]]).
  set (c2 := [mkpatch 0 [exObj (3/2) 1 0; exObj (5/2) 3 1]; mkpatch 1 [exObj (21/4) 1 2]]).
  destruct (jobs_exist C sclear (crossJobs 2 2 c1 c2)) as [st H].
  { apply exB_valid. }
  { simpl. repeat constructor; discriminate. }
  destruct (C21_jackknife_cross C 2 2 c1 c2 1 st 1) as [c [E [[_ [HW _]] _]]]; auto; simpl; try lia; try discriminate.
  - apply exB_valid.
  - apply exCats_off.
  - apply exCat1_pos.
  - apply exCat2_pos.
  - repeat constructor; simpl; intuition lia.
  - repeat constructor; simpl; intuition lia.
  - exists st, c. split; auto. split; [exact E|].
    rewrite HW. unfold without1, without2, without, c1, c2, allRows, sumPairs, selBin. simpl. rewrite !euclid_x, !exB_in by lia.
    unfold aconst, v_one, v_ww; simpl.
    repeat match goal with |- context [Rabs ?x] =>
      first [ rewrite (Rabs_left x) by lra | rewrite (Rabs_right x) by lra ] end.
    unfold Rleb, Rltb. repeat (destruct Rle_dec; destruct Rlt_dec; try (exfalso; lra); simpl). lra.
Qed.
