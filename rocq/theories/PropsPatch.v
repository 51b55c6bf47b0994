(** Patches and MPI: C17, C18, C19, C37, C39, C40. *)
From Coq Require Import Reals Lra Lia List ZArith Bool Permutation Psatz Sorted.
From Verif Require Import Base Geometry Tree Traverse Run Corr Patch Spec SpecRun GeomFacts SumFacts TreeFacts
  BinFacts TravFacts Exact MetricFacts Cover Lift Runs Examples Account PropsCount PropsRun PropsCorr PatchFacts.
Import ListNotations.
Open Scope R_scope.

(** ** C37: get_patches partitions the catalog *)
Lemma zinsert_in z l x : In x (zinsert z l) <-> x = z \/ In x l.
Proof.
  induction l as [|a l IH]; simpl; [intuition|].
  destruct (Z.eqb_spec z a) as [->|]; [simpl; intuition|].
  destruct (z <? a)%Z; simpl; [intuition|]. rewrite IH. intuition.
Qed.
Lemma sortedSet_in l x : In x (sortedSet l) <-> In x l.
Proof. induction l; simpl; [tauto|]. rewrite zinsert_in, IHl. intuition. Qed.
Lemma zinsert_sorted z l : StronglySorted Z.lt l -> StronglySorted Z.lt (zinsert z l).
Proof.
  intro H. induction H as [|a l HS IH HF]; simpl; [repeat constructor|].
  destruct (Z.eqb_spec z a) as [->|]; [constructor; auto|].
  destruct (Z.ltb_spec z a).
  - constructor; [constructor; auto|]. constructor; auto.
    eapply Forall_impl; [|exact HF]. intros; lia.
  - constructor; auto. apply Forall_forall. intros x Hx. apply zinsert_in in Hx as [->|Hx]; [lia|].
    rewrite Forall_forall in HF. auto.
Qed.
Lemma sortedSet_sorted l : StronglySorted Z.lt (sortedSet l).
Proof. induction l; simpl; [constructor|]. apply zinsert_sorted; auto. Qed.
Lemma sorted_NoDup l : StronglySorted Z.lt l -> NoDup l.
Proof.
  intro H. induction H as [|a l HS IH HF]; constructor; auto.
  intro Hin. rewrite Forall_forall in HF. specialize (HF a Hin). lia.
Qed.
Lemma filter_split (l : list Z) (rows : list (Z * obj)) : NoDup l -> (forall r, In r rows -> In (fst r) l) ->
  Permutation (concat (map (fun i => map snd (filter (fun r => (fst r =? i)%Z) rows)) l)) (map snd rows).
Proof.
  revert rows. induction l as [|a l IH]; intros rows HN Hin.
  - destruct rows as [|r rows]; [constructor|]. exfalso. apply (Hin r). left; auto.
  - simpl. inversion HN; subst.
    assert (HP : Permutation rows (filter (fun r => (fst r =? a)%Z) rows ++
                                   filter (fun r => negb (fst r =? a)%Z) rows)).
    { clear. induction rows as [|r rows IHr]; simpl; [constructor|].
      destruct (fst r =? a)%Z; simpl; [constructor; auto|].
      etransitivity; [|apply Permutation_middle]. constructor. auto. }
    rewrite (Permutation_map snd HP), map_app. apply Permutation_app; [apply Permutation_refl|].
    rewrite <- (IH (filter (fun r => negb (fst r =? a)%Z) rows)); auto.
    + apply Permutation_refl'. f_equal. apply map_ext_in. intros i Hi. f_equal.
      clear - Hi H1. induction rows as [|r rows IHr]; simpl; auto.
      destruct (Z.eqb_spec (fst r) a) as [E|E]; simpl.
      * destruct (Z.eqb_spec (fst r) i); [subst; exfalso; congruence|auto].
      * destruct (Z.eqb_spec (fst r) i); [f_equal|]; auto.
    + intros r Hr. apply filter_In in Hr as [Hr Hn]. destruct (Hin r Hr) as [E|]; auto.
      rewrite <- E, Z.eqb_refl in Hn. discriminate.
Qed.
(** The patch numbers of the patches are increasing (in particular different); the rows of the
    patches together are the rows of the catalog; row o with patch number i is in patch i and in
    no other; the order within a patch is the order of the catalog; no patch is empty. *)
Theorem C37_get_patches_partition rows :
  StronglySorted Z.lt (map pidx (getPatches rows)) /\
  Permutation (allRows (getPatches rows)) (map snd rows) /\
  (forall p, In p (getPatches rows) ->
     pobjs p = map snd (filter (fun r => (fst r =? pidx p)%Z) rows) /\ pobjs p <> []) /\
  (forall i o, In (i, o) rows -> exists p, In p (getPatches rows) /\ pidx p = i /\ In o (pobjs p)).
Proof.
  assert (HM : map pidx (getPatches rows) = sortedSet (map fst rows)).
  { unfold getPatches. rewrite map_map. simpl. apply map_id. }
  split; [rewrite HM; apply sortedSet_sorted|]. split; [|split].
  - unfold allRows, getPatches. rewrite map_map. simpl. apply filter_split.
    + apply sorted_NoDup, sortedSet_sorted.
    + intros r Hr. apply sortedSet_in. apply in_map; auto.
  - intros p Hp. unfold getPatches in Hp. apply in_map_iff in Hp as [i [<- Hi]]. simpl. split; auto.
    apply (proj1 (sortedSet_in _ _)) in Hi. apply in_map_iff in Hi as [[j o] [Hj Hr]]. simpl in Hj. subst j.
    intro HE. assert (In o (map snd (filter (fun r => (fst r =? i)%Z) rows))).
    { apply in_map_iff. exists (i, o). split; auto. apply filter_In. split; auto. simpl. apply Z.eqb_refl. }
    rewrite HE in H. contradiction.
  - intros i o Hr. exists (mkpatch i (map snd (filter (fun r => (fst r =? i)%Z) rows))). split; [|split; auto].
    + unfold getPatches. apply in_map_iff. exists i. split; auto. apply sortedSet_in.
      apply in_map_iff. exists (i, o). auto.
    + simpl. apply in_map_iff. exists (i, o). split; auto. apply filter_In. split; auto. simpl. apply Z.eqb_refl.
Qed.
Example C37_example : getPatches [(3%Z, exObj 0 1 0); (1%Z, exObj 1 1 1); (3%Z, exObj 2 1 2)] =
  [mkpatch 1 [exObj 1 1 1]; mkpatch 3 [exObj 0 1 0; exObj 2 1 2]].
Proof. reflexivity. Qed.

(** ** C39: skipped patch pairs have no pair in range *)
Theorem C39_skip_sound_euclid R l1 l2 o1 o2 :
  cmetric (rP R) = Euclidean -> validB (cbin (rP R)) -> rcoord R <> Sphere ->
  patchTrivZero R l1 l2 = true -> In o1 l1 -> In o2 l2 ->
  maxsep (cbin (rP R)) <= euclid (opos o1) (opos o2).
Proof.
  intros HM HB HS H I1 I2. rewrite <- mdist_euclidean, <- HM.
  apply (trivZero_lip R anyPos anyPos l1 l2); auto; try exact I. rewrite HM. apply lip_euclid.
Qed.
Theorem C39_skip_sound_periodic xp yp zp (psep : pos -> pos -> R) R l1 l2 o1 o2 :
  0 < xp -> 0 < yp -> 0 < zp -> (forall p q, isPeriodicSep xp yp zp p q (psep p q)) ->
  cmetric (rP R) = Periodic xp yp zp -> validB (cbin (rP R)) -> rcoord R <> Sphere ->
  patchTrivZero R l1 l2 = true -> In o1 l1 -> In o2 l2 ->
  maxsep (cbin (rP R)) <= psep (opos o1) (opos o2).
Proof.
  intros Hx Hy Hz Hp HM HB HS H I1 I2.
  rewrite (periodic_unique xp yp zp _ _ _ (mdist (Periodic xp yp zp) (opos o1) (opos o2)) (Hp _ _)
    (C12_periodic_distance xp yp zp _ _ Hx Hy Hz)), <- HM.
  apply (trivZero_lip R anyPos anyPos l1 l2); auto; try exact I. rewrite HM. apply lip_periodic; auto.
Qed.
Theorem C39_skip_sound_rlens (rsep : pos -> pos -> R) R l1 l2 o1 o2 :
  (forall p q, q <> mkpos 0 0 0 -> isRlensSep p q (rsep p q)) ->
  cmetric (rP R) = Rlens -> validB (cbin (rP R)) -> rcoord R <> Sphere ->
  meanPos l2 <> mkpos 0 0 0 -> opos o2 <> mkpos 0 0 0 ->
  patchTrivZero R l1 l2 = true -> In o1 l1 -> In o2 l2 ->
  maxsep (cbin (rP R)) <= rsep (opos o1) (opos o2).
Proof.
  intros Hp HM HB HS Hm Ho H I1 I2.
  rewrite (rlens_unique _ _ _ (mdist Rlens (opos o1) (opos o2)) (Hp _ _ Ho) (rlens_line _ _ Ho)), <- HM.
  apply (trivZero_lip R anyPos nonzero l1 l2); auto; try exact I. rewrite HM. apply lip_rlens.
Qed.
(** The test made by the C++ process function before starting a cross-correlation, also valid on
    the sphere. *)
Theorem C39_early_exit_sound_euclid R F1 F2 cat1 cat2 o1 o2 :
  cmetric (rP R) = Euclidean -> crpar (rP R) = None -> validB (cbin (rP R)) ->
  crossEarlyExit (rP R) (fieldCenter F1 cat1) (fieldCenter F2 cat2) (fieldSize F1 cat1) (fieldSize F2 cat2) = true ->
  In o1 cat1 -> In o2 cat2 ->
  euclid (opos o1) (opos o2) < minsep (cbin (rP R)) \/ maxsep (cbin (rP R)) <= euclid (opos o1) (opos o2).
Proof.
  intros HM Hr HB H I1 I2. rewrite <- mdist_euclidean, <- HM.
  apply (lip_field (rP R) anyPos anyPos F1 F2 cat1 cat2); auto; try exact I. rewrite HM. apply lip_euclid.
Qed.

Lemma meanPos_one o : meanPos [o] = opos o.
Proof. unfold meanPos; simpl. destruct (opos o); unfold pscale, padd; simpl. f_equal; field. Qed.
Lemma maxDist_one o : maxDist (opos o) [o] = 0.
Proof.
  unfold maxDist, calculateSizeSq; simpl. unfold normSq, psub; simpl.
  replace (_ + _ + _) with 0 by ring. rewrite Rmax_left by lra. apply sqrt_0.
Qed.
Lemma maxDist_at p o : opos o = p -> maxDist p [o] = 0.
Proof. intros <-. apply maxDist_one. Qed.
Lemma trivZero_far R o1 o2 : cmetric (rP R) = Euclidean -> validB (cbin (rP R)) -> rcoord R <> Sphere ->
  maxsep (cbin (rP R)) <= euclid (opos o1) (opos o2) -> patchTrivZero R [o1] [o2] = true.
Proof.
  intros HM HB HS H. unfold patchTrivZero.
  assert (HC : forall l, patchCen R l = meanPos l).
  { intro l. unfold patchCen, normalize. destruct (rcoord R); auto. congruence. }
  rewrite !HC, !meanPos_one, !maxDist_one. unfold triviallyZero. rewrite HM. simpl effSize. cbv iota beta.
  simpl eadd. rewrite andb_true_r. unfold tooLargeDist.
  pose proof (maxsep_pos _ HB) as Hp. pose proof (vb_not2d _ HB) as H2.
  rewrite euclid_pdist in H. unfold pdist in H.
  assert (HQ : maxsep (cbin (rP R)) * maxsep (cbin (rP R)) <= distSq Euclidean (opos o1) (opos o2)).
  { simpl distSq. rewrite <- norm_sq. nra. }
  rewrite Rplus_0_r, Rplus_0_r. unfold Rsqr.
  destruct (btype (cbin (rP R))); try congruence; rewrite !Rleb_t; auto.
Qed.
Definition ex3 (x y z : R) (w : R) (i : nat) : obj := mkobj (mkpos x y z) w w 2 0 0 i.
Example C39_example : exists o1 o2, patchTrivZero (exRun Euclidean exB BruteNo) [o1] [o2] = true.
Proof.
  exists (exObj 0 1 0), (exObj 5 1 1). apply trivZero_far; simpl; auto; try discriminate; try apply exB_valid.
  rewrite euclid_x. rabs.
Qed.

(** On the sphere the statement is false: the mean of a patch is pushed out to the unit sphere,
    but its size is measured from the mean inside the sphere.  Patch 1 is the two points
    (3/5, +-4/5, 0), patch 2 the point (5/13, 12/13, 0); the separation of one of the pairs is
    0.248 < max_sep = 0.3, yet the patches are skipped. *)
Definition exBs : bparams := mkB BLinear (1/10) (3/10) 2 (1/10) 0 1.
Definition exRunS : runcfg := mkR (mkC Euclidean None exBs) Sphere Mean BruteNo 0 10.
Definition exS1 : list obj := [ex3 (3/5) (4/5) 0 1 0; ex3 (3/5) (-4/5) 0 1 1].
Definition exS2 : list obj := [ex3 (5/13) (12/13) 0 1 0].
Lemma exBs_valid : validB exBs.
Proof. constructor; simpl; try lra; try lia; try discriminate. unfold edge; simpl; lra. Qed.
Lemma exS1_mean : meanPos exS1 = mkpos (3/5) 0 0.
Proof. unfold meanPos; simpl. unfold pscale, padd; simpl. f_equal; field. Qed.
Lemma exS1_size : maxDist (mkpos (3/5) 0 0) exS1 = 4/5.
Proof.
  unfold maxDist, calculateSizeSq; simpl. unfold normSq, psub; simpl.
  replace (Rmax _ _) with (4/5 * (4/5)); [apply sqrt_square; lra|].
  unfold Rmax. repeat destruct Rle_dec; lra.
Qed.
Lemma norm_sphere x y z : x * x + y * y + z * z = 1 -> normalize Sphere (mkpos x y z) = mkpos x y z.
Proof.
  intro H. unfold normalize, norm, normSq; simpl. rewrite H, sqrt_1. destruct Req_EM_T; [lra|].
  unfold pscale; simpl. f_equal; field.
Qed.
Lemma norm_x x : 0 < x -> normalize Sphere (mkpos x 0 0) = mkpos 1 0 0.
Proof.
  intro H. unfold normalize, norm, normSq; simpl.
  replace (x * x + 0 * 0 + 0 * 0) with (x * x) by ring. rewrite sqrt_square by lra.
  destruct Req_EM_T; [lra|]. unfold pscale; simpl. f_equal; field; lra.
Qed.
Lemma trivZero_euclid R l1 l2 : cmetric (rP R) = Euclidean -> btype (cbin (rP R)) <> BTwoD ->
  let m := maxsep (cbin (rP R)) in
  let d := normSq (psub (patchCen R l1) (patchCen R l2)) in
  let s := maxDist (meanPos l1) l1 + maxDist (meanPos l2) l2 in
  m * m <= d -> (m + s) * (m + s) <= d -> patchTrivZero R l1 l2 = true.
Proof.
  intros HM HT m d s H1 H2. unfold patchTrivZero, triviallyZero. rewrite HM. simpl.
  rewrite andb_true_r. destruct (btype (cbin (rP R))); try congruence; rewrite !Rleb_t; auto.
Qed.
Lemma exS_triv : patchTrivZero exRunS exS1 exS2 = true.
Proof.
  apply trivZero_euclid; [reflexivity|discriminate| |];
  unfold patchCen; rewrite exS1_mean; unfold exS2; rewrite meanPos_one; simpl rcoord; simpl opos;
  rewrite (norm_sphere (5/13) (12/13) 0) by field; rewrite (norm_x (3/5)) by lra.
  - unfold normSq, psub; simpl. lra.
  - rewrite exS1_size, (maxDist_at (mkpos (5/13) (12/13) 0) (ex3 (5/13) (12/13) 0 1 0)) by reflexivity. unfold normSq, psub; simpl. lra.
Qed.
Lemma exS_sep : 2/10 <= euclid (mkpos (3/5) (4/5) 0) (mkpos (5/13) (12/13) 0) < 3/10.
Proof.
  unfold euclid; simpl. split.
  - apply le_sqrt_sq; lra.
  - apply sqrt_lt_sq; lra.
Qed.
Theorem C39_sphere_refuted : exists R l1 l2 o1 o2,
  cmetric (rP R) = Euclidean /\ validB (cbin (rP R)) /\ rcoord R = Sphere /\
  (forall o, In o (l1 ++ l2) -> normSq (opos o) = 1) /\
  patchTrivZero R l1 l2 = true /\ In o1 l1 /\ In o2 l2 /\
  minsep (cbin (rP R)) <= euclid (opos o1) (opos o2) < maxsep (cbin (rP R)).
Proof.
  exists exRunS, exS1, exS2, (ex3 (3/5) (4/5) 0 1 0), (ex3 (5/13) (12/13) 0 1 0).
  split; [reflexivity|]. split; [apply exBs_valid|]. split; [reflexivity|]. split.
  - intros o Ho. simpl in Ho. unfold normSq. destruct Ho as [<-|[<-|[<-|[]]]]; simpl; field.
  - split; [apply exS_triv|]. split; [left; auto|]. split; [left; auto|].
    pose proof exS_sep. simpl. lra.
Qed.

(** ** C18: patches do not change the totals *)
Definition skipOK (R : runcfg) (cats1 cats2 : list patch) : Prop :=
  forall a b o1 o2, In a cats1 -> In b cats2 -> patchTrivZero R (pobjs a) (pobjs b) = true ->
    In o1 (pobjs a) -> In o2 (pobjs b) ->
    maxsep (cbin (rP R)) <= mdist (cmetric (rP R)) (opos o1) (opos o2).
Lemma skipOK_lip R cats1 cats2 : validB (cbin (rP R)) -> lipM (cmetric (rP R)) anyPos anyPos ->
  rcoord R <> Sphere -> skipOK R cats1 cats2.
Proof. intros HB HL HS a b o1 o2 _ _ H I1 I2. eapply (trivZero_lip R anyPos anyPos); eauto; exact I. Qed.
Lemma skip_val R f k l1 l2 : validB (cbin (rP R)) ->
  (forall o1 o2, In o1 l1 -> In o2 l2 -> maxsep (cbin (rP R)) <= mdist (cmetric (rP R)) (opos o1) (opos o2)) ->
  sumR (specM (rP R) f k) (pairs l1 l2) = 0.
Proof.
  intros HB H. apply sumR_0. intros [o1 o2] Ho. apply in_pairs in Ho as [I1 I2].
  unfold specM; cbn [fst snd]. rewrite sel_not_range; auto.
Qed.
Lemma cross_exact0 R f k c1 c2 t : validB (cbin (rP R)) -> crpar (rP R) = None ->
  lipM (cmetric (rP R)) anyPos anyPos -> zeroSlop (rP R) c1 c2 -> prodField f -> posW c1 -> posW c2 ->
  runCross R c1 c2 cleared t -> aget f t k = sumR (specM (rP R) f k) (pairs c1 c2).
Proof.
  intros HB Hr HL HZ Hf W1 W2 H.
  rewrite (runCross_slop0 R anyPos anyPos f k c1 c2 cleared t); auto using posW_cond.
  - rewrite cleared_get. lra.
  - intros; apply centres_any.
  - intros; apply centres_any.
Qed.
Lemma autoJobs_exact C f k cats :
  let P := rP (pR C) in
  validB (cbin P) -> crpar P = None -> lipM (cmetric P) anyPos anyPos -> subEuclid (cmetric P) ->
  symM (cmetric P) -> zeroSlop P (allRows cats) (allRows cats) ->
  offMinSep (cbin P) (mdist (cmetric P)) (allRows cats) -> posW (allRows cats) ->
  skipOK (pR C) cats cats -> prodField f -> f <> FXiNK ->
  forall J, In J (autoJobs cats) -> jobExact C f k J.
Proof.
  intros P HB Hr HL HSu HSy HZ HO HW HK Hf Hn J HJ.
  assert (HZ' : forall a b, In a cats -> In b cats -> zeroSlop P (pobjs a) (pobjs b)).
  { intros a b Ha Hb. destruct HZ as [Z1 [Z2 Z3]]. split; auto. split; auto.
    intros HLn o1 o2 j Hj I1 I2. apply Z3; auto; [apply (in_allRows cats a)|apply (in_allRows cats b)]; auto. }
  assert (HW' : forall a, In a cats -> posW (pobjs a)).
  { intros a Ha o Ho. apply HW. eapply in_allRows; eauto. }
  apply in_autoJobs in HJ as [[a [Ha ->]]|[a [b [Ha [Hb [_ ->]]]]]]; simpl.
  - intros t Ht. rewrite (runAuto_slop0 (pR C) f k (pobjs a) cleared t); auto using posW_cond.
    + rewrite cleared_get. lra.
    + intros o1 o2 Ho. apply HO. eapply upairs_allRows; eauto.
  - split.
    + intro HT. apply skip_val; auto. intros o1 o2 I1 I2. eapply (HK a b); eauto.
    + intros t Ht. apply cross_exact0; auto.
Qed.
Lemma crossJobs_exact C f k n1 n2 cats1 cats2 :
  let P := rP (pR C) in
  validB (cbin P) -> crpar P = None -> lipM (cmetric P) anyPos anyPos ->
  zeroSlop P (allRows cats1) (allRows cats2) ->
  posW (allRows cats1) -> posW (allRows cats2) ->
  skipOK (pR C) cats1 cats2 -> prodField f ->
  forall J, In J (crossJobs n1 n2 cats1 cats2) -> jobExact C f k J.
Proof.
  intros P HB Hr HL HZ W1 W2 HK Hf J HJ.
  apply in_crossJobs in HJ as [a [b [Ha [Hb ->]]]]; simpl. split.
  - intro HT. apply skip_val; auto. intros o1 o2 I1 I2. eapply (HK a b); eauto.
  - intros t Ht. apply cross_exact0; auto.
    + destruct HZ as [Z1 [Z2 Z3]]. split; auto. split; auto.
      intros HLn o1 o2 j Hj I1 I2. apply Z3; auto; [apply (in_allRows cats1 a)|apply (in_allRows cats2 b)]; auto.
    + intros o Ho. apply W1. eapply in_allRows; eauto.
    + intros o Ho. apply W2. eapply in_allRows; eauto.
Qed.

(** ** C17 *)
(** Rank r executes the jobs for which its is_my_job says yes; every job of the loops is executed by
    exactly one rank. *)
Theorem C17_auto_one_rank cats n size J : (0 < size)%Z ->
  (forall a, In a cats -> (0 <= pidx a < n)%Z) -> In J (autoJobs cats) ->
  exists! r, (0 <= r < size)%Z /\ In J (filter (fun J => myJobAuto n size r (jobKey J)) (autoJobs cats)).
Proof.
  intros Hs Hn HJ.
  assert (HK : exists i j, jobKey J = (i, j) /\ (0 <= i < n)%Z /\ (0 <= j < n)%Z).
  { apply in_autoJobs in HJ as [[a [Ha ->]]|[a [b [Ha [Hb [_ ->]]]]]]; simpl; do 2 eexists; eauto. }
  destruct HK as [i [j [HK [Hi Hj]]]].
  destruct (myJobAuto_unique n size i j Hs Hi Hj) as [r [Hr [Hm HU]]].
  exists r. split.
  - split; auto. apply filter_In. rewrite HK. auto.
  - intros r' [Hr' Hin]. apply filter_In in Hin as [_ Hin]. rewrite HK in Hin. symmetry. auto.
Qed.
Theorem C17_cross_one_rank cats1 cats2 n1 n2 size J : (0 < size)%Z ->
  (forall a, In a cats1 -> (0 <= pidx a < n1)%Z) -> (forall a, In a cats2 -> (0 <= pidx a < n2)%Z) ->
  In J (crossJobs n1 n2 cats1 cats2) ->
  exists! r, (0 <= r < size)%Z /\
    In J (filter (fun J => myJobCross n1 n2 size r (jobKey J)) (crossJobs n1 n2 cats1 cats2)).
Proof.
  intros Hs Hn1 Hn2 HJ.
  assert (HK : exists i j, jobKey J = (i, j) /\ (0 <= i < n1)%Z /\ (0 <= j < n2)%Z).
  { apply in_crossJobs in HJ as [a [b [Ha [Hb ->]]]]; simpl; do 2 eexists; eauto. }
  destruct HK as [i [j [HK [Hi Hj]]]].
  destruct (myJobCross_unique n1 n2 size i j Hs Hi Hj) as [r [Hr [Hm HU]]].
  exists r. split.
  - split; auto. apply filter_In. rewrite HK. auto.
  - intros r' [Hr' Hin]. apply filter_In in Hin as [_ Hin]. rewrite HK in Hin. symmetry. auto.
Qed.
(** Also for patch_method='local', where the job of patch i is (i,i). *)
Theorem C17_local_one_rank R cats1 cats2 n1 n2 size J : (0 < size)%Z ->
  (forall a, In a cats1 -> (0 <= pidx a < n1)%Z) -> In J (localJobs R cats1 cats2) ->
  (exists! r, (0 <= r < size)%Z /\
    In J (filter (fun J => myJobCross n1 n2 size r (jobKey J)) (localJobs R cats1 cats2))) /\
  (exists! r, (0 <= r < size)%Z /\
    In J (filter (fun J => myJobAuto n1 size r (jobKey J)) (localJobs R cats1 cats2))).
Proof.
  intros Hs Hn1 HJ.
  assert (HK : exists i, jobKey J = (i, i) /\ (0 <= i < n1)%Z).
  { unfold localJobs in HJ. apply in_map_iff in HJ as [a [<- Ha]]. simpl. eexists; eauto. }
  destruct HK as [i [HK Hi]]. split.
  - destruct (inMine_exists (Z.max n1 n2) size i Hs) as [r [Hr Hm]]; [lia|].
    exists r. split.
    + split; auto. apply filter_In. rewrite HK. split; auto. unfold myJobCross. destruct (_ <? _)%Z; auto.
    + intros r' [Hr' Hin]. apply filter_In in Hin as [_ Hin]. rewrite HK in Hin. unfold myJobCross in Hin.
      apply (inMine_unique (Z.max n1 n2) size i); auto; [lia|]. destruct (_ <? _)%Z; auto.
  - destruct (myJobAuto_unique n1 size i i Hs Hi Hi) as [r [Hr [Hm HU]]].
    exists r. split.
    + split; auto. apply filter_In. rewrite HK. auto.
    + intros r' [Hr' Hin]. apply filter_In in Hin as [_ Hin]. rewrite HK in Hin. symmetry. auto.
Qed.
Example C17_example : map (fun r => filter (myJobAuto 4 3 r) [(0,0); (0,1); (0,2); (0,3); (1,1); (1,2); (2,3)]%Z) [0; 1; 2]%Z =
  [[(0, 0); (0, 1); (0, 3)]; [(1, 1)]; [(0, 2); (1, 2); (2, 3)]]%Z.
Proof. reflexivity. Qed.
Lemma auto_assigns cats n size : (0 < size)%Z -> (forall a, In a cats -> (0 <= pidx a < n)%Z) ->
  assignsOnce (myJobAuto n size) size (autoJobs cats).
Proof.
  intros Hs Hn J HJ. destruct (C17_auto_one_rank cats n size J Hs Hn HJ) as [r [[Hr Hin] HU]].
  exists r. apply filter_In in Hin as [_ Hm]. split; auto. split; auto.
  intros r' Hr' Hm'. symmetry. apply HU. split; auto. apply filter_In; auto.
Qed.
Lemma cross_assigns cats1 cats2 n1 n2 size : (0 < size)%Z -> (forall a, In a cats1 -> (0 <= pidx a < n1)%Z) ->
  (forall a, In a cats2 -> (0 <= pidx a < n2)%Z) ->
  assignsOnce (myJobCross n1 n2 size) size (crossJobs n1 n2 cats1 cats2).
Proof.
  intros Hs Hn1 Hn2 J HJ. destruct (C17_cross_one_rank cats1 cats2 n1 n2 size J Hs Hn1 Hn2 HJ) as [r [[Hr Hin] HU]].
  exists r. apply filter_In in Hin as [_ Hm]. split; auto. split; auto.
  intros r' Hr' Hm'. symmetry. apply HU. split; auto. apply filter_In; auto.
Qed.

(** Serial, auto: any list of patches with different numbers; the arrays grow by the brute-force sum
    over all unordered pairs of rows of all patches. *)
Theorem C18_auto_patches C cats st st' k :
  let R := pR C in let B := cbin (rP R) in
  cmetric (rP R) = Euclidean -> rcoord R <> Sphere -> crpar (rP R) = None -> validB B ->
  slop_b B = 0 -> narrowLog B ->
  offEdges B euclid (allRows cats) (allRows cats) -> offMinSep B euclid (allRows cats) ->
  posW (allRows cats) -> NoDup (map pidx cats) -> (0 <= k < nbins B)%Z ->
  runJobs C st (autoJobs cats) st' ->
  addsAuto (selBin B euclid k) (allRows cats) (kacc (sself st)) (kacc (sself st')) k.
Proof.
  intros R B HM HS Hr HB Hb HN HE HO HW HND Hk H.
  apply (addsAuto_of (rP R)).
  - intros. apply selM_selBin; auto. rewrite HM. apply mdist_euclidean.
  - intros f Hf Hn.
    rewrite (jobs_get C f k st (autoJobs cats) st'); auto.
    + f_equal. apply autoJobs_sum; auto. intros x y. apply specM_sym; auto. fold R. rewrite HM. apply symM_euclid.
    + apply validB_okB; auto.
    + apply in_bins; auto.
    + apply autoJobs_exact; auto; fold R; rewrite ?HM.
      * apply lip_euclid.
      * apply subEuclid_euclid.
      * apply symM_euclid.
      * split; auto. split; auto. rewrite HM. eapply offEdges_ext; [|exact HE]. intros; symmetry; apply mdist_euclidean.
      * eapply offMinSep_ext; [|exact HO]. intros; symmetry; apply mdist_euclidean.
      * apply skipOK_lip; auto. rewrite HM. apply lip_euclid.
Qed.
Theorem C18_cross_patches C n1 n2 cats1 cats2 st st' k :
  let R := pR C in let B := cbin (rP R) in
  cmetric (rP R) = Euclidean -> rcoord R <> Sphere -> crpar (rP R) = None -> validB B ->
  slop_b B = 0 -> narrowLog B ->
  offEdges B euclid (allRows cats1) (allRows cats2) ->
  posW (allRows cats1) -> posW (allRows cats2) -> (0 <= k < nbins B)%Z ->
  runJobs C st (crossJobs n1 n2 cats1 cats2) st' ->
  addsCross (selBin B euclid k) (allRows cats1) (allRows cats2) (kacc (sself st)) (kacc (sself st')) k.
Proof.
  intros R B HM HS Hr HB Hb HN HE W1 W2 Hk H.
  apply (addsCross_of (rP R)).
  - intros. apply selM_selBin; auto. rewrite HM. apply mdist_euclidean.
  - intros f Hf.
    rewrite (jobs_get C f k st (crossJobs n1 n2 cats1 cats2) st'); auto.
    + f_equal. apply crossJobs_sum; auto.
    + apply validB_okB; auto.
    + apply in_bins; auto.
    + apply crossJobs_exact; auto; fold R; rewrite ?HM.
      * apply lip_euclid.
      * split; auto. split; auto. rewrite HM. eapply offEdges_ext; [|exact HE]. intros; symmetry; apply mdist_euclidean.
      * apply skipOK_lip; auto. rewrite HM. apply lip_euclid.
Qed.
(** With MPI (the other ranks start from cleared objects, as with initialize=True). *)
Theorem C18_auto_patches_mpi C cats n size init final k :
  let R := pR C in let B := cbin (rP R) in
  cmetric (rP R) = Euclidean -> rcoord R <> Sphere -> crpar (rP R) = None -> validB B ->
  slop_b B = 0 -> narrowLog B ->
  offEdges B euclid (allRows cats) (allRows cats) -> offMinSep B euclid (allRows cats) ->
  posW (allRows cats) -> NoDup (map pidx cats) -> (0 <= k < nbins B)%Z ->
  (0 < size)%Z -> (forall a, In a cats -> (0 <= pidx a < n)%Z) ->
  (forall r, (0 < r < size)%Z -> init r = sclear) ->
  mpiRun C (myJobAuto n size) size (autoJobs cats) init final ->
  addsAuto (selBin B euclid k) (allRows cats) (kacc (sself (init 0%Z))) (kacc (sself final)) k.
Proof.
  intros R B HM HS Hr HB Hb HN HE HO HW HND Hk Hsz Hn HI H.
  apply (addsAuto_of (rP R)).
  - intros. apply selM_selBin; auto. rewrite HM. apply mdist_euclidean.
  - intros f Hf Hnk.
    rewrite (mpi_get C f k (myJobAuto n size) size (autoJobs cats) init final); auto.
    + f_equal. apply autoJobs_sum; auto. intros x y. apply specM_sym; auto. fold R. rewrite HM. apply symM_euclid.
    + apply validB_okB; auto.
    + apply in_bins; auto.
    + apply auto_assigns; auto.
    + apply autoJobs_exact; auto; fold R; rewrite ?HM.
      * apply lip_euclid.
      * apply subEuclid_euclid.
      * apply symM_euclid.
      * split; auto. split; auto. rewrite HM. eapply offEdges_ext; [|exact HE]. intros; symmetry; apply mdist_euclidean.
      * eapply offMinSep_ext; [|exact HO]. intros; symmetry; apply mdist_euclidean.
      * apply skipOK_lip; auto. rewrite HM. apply lip_euclid.
Qed.
Theorem C18_cross_patches_mpi C n1 n2 cats1 cats2 size init final k :
  let R := pR C in let B := cbin (rP R) in
  cmetric (rP R) = Euclidean -> rcoord R <> Sphere -> crpar (rP R) = None -> validB B ->
  slop_b B = 0 -> narrowLog B ->
  offEdges B euclid (allRows cats1) (allRows cats2) ->
  posW (allRows cats1) -> posW (allRows cats2) -> (0 <= k < nbins B)%Z ->
  (0 < size)%Z -> (forall a, In a cats1 -> (0 <= pidx a < n1)%Z) -> (forall a, In a cats2 -> (0 <= pidx a < n2)%Z) ->
  (forall r, (0 < r < size)%Z -> init r = sclear) ->
  mpiRun C (myJobCross n1 n2 size) size (crossJobs n1 n2 cats1 cats2) init final ->
  addsCross (selBin B euclid k) (allRows cats1) (allRows cats2) (kacc (sself (init 0%Z))) (kacc (sself final)) k.
Proof.
  intros R B HM HS Hr HB Hb HN HE W1 W2 Hk Hsz Hn1 Hn2 HI H.
  apply (addsCross_of (rP R)).
  - intros. apply selM_selBin; auto. rewrite HM. apply mdist_euclidean.
  - intros f Hf.
    rewrite (mpi_get C f k (myJobCross n1 n2 size) size (crossJobs n1 n2 cats1 cats2) init final); auto.
    + f_equal. apply crossJobs_sum; auto.
    + apply validB_okB; auto.
    + apply in_bins; auto.
    + apply cross_assigns; auto.
    + apply crossJobs_exact; auto; fold R; rewrite ?HM.
      * apply lip_euclid.
      * split; auto. split; auto. rewrite HM. eapply offEdges_ext; [|exact HE]. intros; symmetry; apply mdist_euclidean.
      * apply skipOK_lip; auto. rewrite HM. apply lip_euclid.
Qed.
(** The same with the Periodic metric. *)
Theorem C18_periodic_auto_patches xp yp zp (psep : pos -> pos -> R) C cats st st' k :
  let R := pR C in let B := cbin (rP R) in
  0 < xp -> 0 < yp -> 0 < zp -> (forall p q, isPeriodicSep xp yp zp p q (psep p q)) ->
  cmetric (rP R) = Periodic xp yp zp -> rcoord R <> Sphere -> crpar (rP R) = None -> validB B ->
  slop_b B = 0 -> narrowLog B ->
  offEdges B psep (allRows cats) (allRows cats) -> offMinSep B psep (allRows cats) ->
  posW (allRows cats) -> NoDup (map pidx cats) -> (0 <= k < nbins B)%Z ->
  runJobs C st (autoJobs cats) st' ->
  addsAuto (selBin B psep k) (allRows cats) (kacc (sself st)) (kacc (sself st')) k.
Proof.
  intros R B Hx Hy Hz Hp HM HS Hr HB Hb HN HE HO HW HND Hk H.
  assert (Hd : forall p q, mdist (Periodic xp yp zp) p q = psep p q).
  { intros. eapply periodic_unique; [apply C12_periodic_distance; auto|auto]. }
  apply (addsAuto_of (rP R)).
  - intros. apply selM_selBin; auto. rewrite HM. apply Hd.
  - intros f Hf Hn.
    assert (HSy : symM (Periodic xp yp zp)) by (apply symM_other; simpl; auto; discriminate).
    rewrite (jobs_get C f k st (autoJobs cats) st'); auto.
    + f_equal. apply autoJobs_sum; auto. intros x y. apply specM_sym; auto. fold R. rewrite HM. auto.
    + apply validB_okB; auto.
    + apply in_bins; auto.
    + apply autoJobs_exact; auto; fold R; rewrite ?HM; auto.
      * apply lip_periodic; auto.
      * apply subEuclid_periodic; auto.
      * split; auto. split; auto. rewrite HM. eapply offEdges_ext; [|exact HE]. intros; symmetry; auto.
      * eapply offMinSep_ext; [|exact HO]. intros; symmetry; auto.
      * apply skipOK_lip; auto. rewrite HM. apply lip_periodic; auto.
Qed.
(** Processing the patches of a catalog gives the same arrays as processing the catalog without
    patches. *)
Theorem C18_same_as_unpatched C rows st s1 k :
  let R := pR C in let B := cbin (rP R) in let cat := map snd rows in
  cmetric (rP R) = Euclidean -> rcoord R <> Sphere -> crpar (rP R) = None -> validB B ->
  slop_b B = 0 -> narrowLog B ->
  offEdges B euclid cat cat -> offMinSep B euclid cat -> posW cat -> (0 <= k < nbins B)%Z ->
  runAuto R cat cleared s1 -> runJobs C sclear (autoJobs (getPatches rows)) st ->
  a_npairs (kacc (sself st)) k = a_npairs s1 k /\ a_weight (kacc (sself st)) k = a_weight s1 k /\
  a_xi_kk (kacc (sself st)) k = a_xi_kk s1 k.
Proof.
  intros R B cat HM HS Hr HB Hb HN HE HO HW Hk H1 H2.
  destruct (C37_get_patches_partition rows) as [P1 [P2 [P3 P4]]]. fold cat in P2.
  set (cats := getPatches rows) in *.
  assert (I1 : forall o, In o (allRows cats) -> In o cat) by (intro; apply Permutation_in; auto).
  assert (Hes : forall p q, euclid p q = euclid q p) by (intros; unfold euclid; f_equal; ring).
  destruct (C02_auto_exact R cat cleared s1 k HM Hr HB Hb HN HE HO HW H1) as [A1 [A2 A3]].
  destruct (C18_auto_patches C cats sclear st k) as [B1 [B2 B3]]; auto.
  { intros HL o1 o2 j Hj J1 J2. apply HE; auto. }
  { intros o1 o2 Hin. destruct (in_upairs_perm (allRows cats) cat o1 o2) as [?|?]; auto.
    rewrite Hes. auto. }
  { intros o Ho; auto. }
  { apply sorted_NoDup; auto. }
  fold R B in B1, B2, B3.
  assert (HX : forall v sel, (forall x y, v x y = v y x) -> (forall x y, sel x y = sel y x) ->
     sumUPairs sel v (allRows cats) = sumUPairs sel v cat).
  { intros v sel Hv Hsel. unfold sumUPairs. apply sumR_upairs_perm; auto.
    intros x y. cbn [fst snd]. rewrite Hsel, Hv. auto. }
  rewrite A1, A2, A3, B1, B2, B3, !HX; auto; intros; unfold v_one, v_ww, v_kk, selBin; try ring;
    rewrite Hes; auto.
Qed.
Example C18_example : exists st,
  runJobs (mkPC (exRun Euclidean exB BruteNo) true) sclear
    (autoJobs (getPatches [(1%Z, exObj 0 1 0); (0%Z, exObj (3/2) 2 1); (1%Z, exObj (9/4) 1 2)])) st /\
  a_weight (kacc (sself st)) 0%Z = 2.
Proof.
  set (rows := [(1%Z, exObj 0 1 0); (0%Z, exObj (3/2) 2 1); (1%Z, exObj (9/4) 1 2)]).
  set (C := mkPC (exRun Euclidean exB BruteNo) true).
  destruct (jobs_exist C sclear (autoJobs (getPatches rows))) as [st H].
  { apply exB_valid. }
  { simpl. repeat constructor; discriminate. }
  exists st. split; auto.
  destruct C02_example as [s1 [H1 [_ [HW _]]]]. rewrite <- HW.
  apply (C18_same_as_unpatched C rows st s1 0); auto; simpl; try lia; try discriminate.
  - apply exB_valid.

  - apply exCatA_off.
  - apply exCatA_min.
  - apply exCatA_pos.
Qed.

(** On the sphere the claim is false because of C39_sphere_refuted: two catalogs with two patches
    each; the pair at separation 0.248 is lost. *)
Definition exP1 : list patch := [mkpatch 0 exS1; mkpatch 1 [ex3 (-1) 0 0 1 2]].
Definition exP2 : list patch := [mkpatch 0 exS2; mkpatch 1 [ex3 0 0 1 1 1]].
Lemma exS_triv2 : patchTrivZero exRunS exS1 [ex3 0 0 1 1 1] = true.
Proof.
  apply trivZero_euclid; [reflexivity|discriminate| |];
  unfold patchCen; rewrite exS1_mean, meanPos_one; simpl rcoord; simpl opos;
  rewrite (norm_sphere 0 0 1) by ring; rewrite (norm_x (3/5)) by lra.
  - unfold normSq, psub; simpl. lra.
  - rewrite exS1_size, (maxDist_at (mkpos 0 0 1) (ex3 0 0 1 1 1)) by reflexivity. unfold normSq, psub; simpl. lra.
Qed.
Lemma exS_triv1 x y z i x' y' z' i' : x * x + y * y + z * z = 1 -> x' * x' + y' * y' + z' * z' = 1 ->
  1 <= (x - x') * (x - x') + (y - y') * (y - y') + (z - z') * (z - z') ->
  patchTrivZero exRunS [ex3 x y z 1 i] [ex3 x' y' z' 1 i'] = true.
Proof.
  intros H H' HD. apply trivZero_euclid; [reflexivity|discriminate| |];
  unfold patchCen; rewrite !meanPos_one; simpl rcoord; simpl opos;
  rewrite (norm_sphere x y z), (norm_sphere x' y' z') by auto.
  - unfold normSq, psub; simpl. lra.
  - rewrite (maxDist_at (mkpos x y z) (ex3 x y z 1 i)), (maxDist_at (mkpos x' y' z') (ex3 x' y' z' 1 i')) by reflexivity. unfold normSq, psub; simpl. lra.
Qed.
Lemma sumR_ge_one {A} (g : A -> R) l x : (forall y, In y l -> 0 <= g y) -> In x l -> g x <= sumR g l.
Proof.
  intros H. induction l as [|a l IH]; simpl; [contradiction|]. intros [->|Hx].
  - assert (0 <= sumR g l) by (apply sumR_nonneg; intros; apply H; right; auto). lra.
  - assert (0 <= g a) by (apply H; left; auto). assert (g x <= sumR g l) by (apply IH; auto; intros; apply H; right; auto). lra.
Qed.
Theorem C18_sphere_refuted : exists C n cats1 cats2 st,
  let R := pR C in let B := cbin (rP R) in
  cmetric (rP R) = Euclidean /\ rcoord R = Sphere /\ validB B /\ slop_b B = 0 /\
  (forall o, In o (allRows cats1 ++ allRows cats2) -> normSq (opos o) = 1 /\ ow o = 1) /\
  runJobs C sclear (crossJobs n n cats1 cats2) st /\
  a_npairs (kacc (sself st)) 1%Z = 0 /\
  sumPairs (selBin B euclid 1) v_one (allRows cats1) (allRows cats2) >= 1.
Proof.
  set (C := mkPC exRunS true).
  set (st1 := addCross C (0, 0)%Z (sumw exS1) (Some (exS2, sumw exS2)) true kclear sclear).
  set (st2 := addCross C (0, 1)%Z (sumw exS1) (Some ([ex3 0 0 1 1 1], sumw [ex3 0 0 1 1 1])) false kclear st1).
  set (st3 := addCross C (1, 0)%Z (sumw [ex3 (-1) 0 0 1 2]) (Some (exS2, sumw exS2)) false kclear st2).
  set (st4 := addCross C (1, 1)%Z (sumw [ex3 (-1) 0 0 1 2]) (Some ([ex3 0 0 1 1 1], sumw [ex3 0 0 1 1 1])) true kclear st3).
  exists C, 2%Z, exP1, exP2, st4. cbv zeta.
  split; [reflexivity|]. split; [reflexivity|]. split; [apply exBs_valid|]. split; [reflexivity|]. split.
  { intros o Ho. simpl in Ho. unfold normSq.
    destruct Ho as [<-|[<-|[<-|[<-|[<-|[]]]]]]; simpl; split; try reflexivity; field. }
  split; [|split].
  - apply (rj_cons C _ _ st1). { exists kclear. split; [|reflexivity]. unfold tempCross. cbn [pR C pobjs]. rewrite exS_triv. reflexivity. }
    apply (rj_cons C _ _ st2). { exists kclear. split; [|reflexivity]. unfold tempCross. cbn [pR C pobjs]. rewrite exS_triv2. reflexivity. }
    apply (rj_cons C _ _ st3).
    { exists kclear. split; [|reflexivity]. unfold tempCross. cbn [pR C pobjs]. unfold exS2. rewrite exS_triv1; [reflexivity|lra|lra|lra]. }
    apply (rj_cons C _ _ st4).
    { exists kclear. split; [|reflexivity]. unfold tempCross. cbn [pR C pobjs]. rewrite exS_triv1; [reflexivity|lra|lra|lra]. }
    constructor.
  - unfold st4, st3, st2, st1, addCross. cbn [kacc kclear]. rewrite !anyPairs_cleared. simpl.
    unfold kadd. cbn [kacc kclear sself sclear]. rewrite !anyPairs_cleared. reflexivity.
  - unfold sumPairs. apply Rle_ge.
    set (g := fun oo : obj * obj => if selBin exBs euclid 1 (fst oo) (snd oo) then v_one (fst oo) (snd oo) else 0).
    assert (HI : g (ex3 (3/5) (4/5) 0 1 0, ex3 (5/13) (12/13) 0 1 0) = 1).
    { unfold g, selBin. cbn [fst snd].
      replace (inBinb exBs 1 _) with true; [reflexivity|]. symmetry.
      apply inBinb_true. split; [simpl; lia|]. pose proof exS_sep. unfold edge; simpl. simpl in H. lra. }
    rewrite <- HI. apply (sumR_ge_one g (pairs (allRows exP1) (allRows exP2))).
    + intros x _. unfold g, v_one. destruct selBin; lra.
    + left. reflexivity.
Qed.

(** ** C19: tot *)
Lemma sumw_allRows cats : sumw (allRows cats) = sumR (fun p => sumw (pobjs p)) cats.
Proof. unfold sumw, allRows. rewrite sumR_concat, sumR_map. reflexivity. Qed.
Lemma autoJobs_tot C cats : NoDup (map pidx cats) ->
  sumR (jobTot C) (autoJobs cats) = 1/2 * (sumw (allRows cats) * sumw (allRows cats)).
Proof.
  intro HN. unfold autoJobs. rewrite sumR_flat_map, sumw_allRows.
  rewrite (sumR_ext _ (fun a => 1/2 * (sumw (pobjs a) * sumw (pobjs a)) +
    sumR (fun b => if (pidx a <? pidx b)%Z then sumw (pobjs a) * sumw (pobjs b) else 0) cats)).
  - rewrite sumR_plus, (ordered_pairs (fun a b => sumw (pobjs a) * sumw (pobjs b))); auto; [|intros; ring].
    clear HN. induction cats as [|x l IH]; simpl; [lra|].
    rewrite sumR_app, sumR_map. cbn [fst snd].
    rewrite (sumR_scal (sumw (pobjs x)) (fun p => sumw (pobjs p)) l). nra.
  - intros a _. cbn [sumR jobTot]. f_equal. rewrite sumR_map, sumR_filter, sumR_rev.
    apply sumR_ext. intros b _. simpl. rewrite andb_false_r. reflexivity.
Qed.
(** Unpatched runs. *)
Theorem C19_auto_patches C cats st st' : pNN C = true -> NoDup (map pidx cats) ->
  runJobs C st (autoJobs cats) st' ->
  ktot (sself st') = ktot (sself st) + sumw (allRows cats) * sumw (allRows cats) / 2.
Proof.
  intros HN HD H. rewrite (jobs_tot C st (autoJobs cats) st'), autoJobs_tot; auto. lra.
Qed.
Theorem C19_auto_patches_mpi C cats n size init final : pNN C = true -> NoDup (map pidx cats) ->
  (0 < size)%Z -> (forall a, In a cats -> (0 <= pidx a < n)%Z) ->
  (forall r, (0 < r < size)%Z -> init r = sclear) ->
  mpiRun C (myJobAuto n size) size (autoJobs cats) init final ->
  ktot (sself final) = ktot (sself (init 0%Z)) + sumw (allRows cats) * sumw (allRows cats) / 2.
Proof.
  intros HN HD Hs Hn HI H.
  rewrite (mpi_tot C (myJobAuto n size) size (autoJobs cats) init final), autoJobs_tot; auto using auto_assigns. lra.
Qed.
(** Cross-correlations: true when no "forced" pair of patches (equal numbers, or one catalog without
    patches) is skipped. *)
Definition noForcedSkip (R : runcfg) (n1 n2 : Z) (cats1 cats2 : list patch) : Prop :=
  forall a b, In a cats1 -> In b cats2 -> (pidx a = pidx b \/ n1 = 1 \/ n2 = 1)%Z ->
    patchTrivZero R (pobjs a) (pobjs b) = false.
Lemma crossJobs_tot C n1 n2 cats1 cats2 : noForcedSkip (pR C) n1 n2 cats1 cats2 ->
  sumR (jobTot C) (crossJobs n1 n2 cats1 cats2) = sumw (allRows cats1) * sumw (allRows cats2).
Proof.
  intro H. unfold crossJobs. rewrite sumR_flat_map, !sumw_allRows.
  rewrite <- sumR_scal_r. apply sumR_ext. intros a Ha. rewrite sumR_map, <- sumR_scal.
  apply sumR_ext. intros b Hb. cbn [jobTot crossJob].
  destruct (patchTrivZero _ _ _) eqn:E; auto. simpl.
  destruct (forced n1 n2 a b) eqn:F; auto. exfalso.
  rewrite (H a b) in E; auto; [discriminate|].
  unfold forced in F. rewrite !orb_true_iff, !Z.eqb_eq in F. tauto.
Qed.
Theorem C19_cross_patches C n1 n2 cats1 cats2 st st' : pNN C = true ->
  noForcedSkip (pR C) n1 n2 cats1 cats2 ->
  runJobs C st (crossJobs n1 n2 cats1 cats2) st' ->
  ktot (sself st') = ktot (sself st) + sumw (allRows cats1) * sumw (allRows cats2).
Proof. intros HN HF H. rewrite (jobs_tot C st _ st' HN H), crossJobs_tot; auto. Qed.
Example C19_example : noForcedSkip (exRun Euclidean exB BruteNo) 2 2
  [mkpatch 0 [exObj 0 1 0]; mkpatch 1 [exObj 50 1 1]] [mkpatch 0 [exObj 1 1 0]; mkpatch 1 [exObj 51 1 1]].
Proof.
  assert (HF : forall o1 o2, euclid (opos o1) (opos o2) < 3 ->
    patchTrivZero (exRun Euclidean exB BruteNo) [o1] [o2] = false).
  { intros o1 o2 H. destruct (patchTrivZero _ _ _) eqn:E; auto. exfalso.
    assert (HX := C39_skip_sound_euclid (exRun Euclidean exB BruteNo) [o1] [o2] o1 o2 eq_refl exB_valid
      ltac:(discriminate) E (or_introl eq_refl) (or_introl eq_refl)).
    simpl in HX. lra. }
  intros a b Ha Hb [E|[E|E]]; try discriminate.
  destruct Ha as [<-|[<-|[]]]; destruct Hb as [<-|[<-|[]]]; simpl in E; try discriminate; simpl pobjs;
    apply HF; simpl opos; rewrite euclid_x; rabs.
Qed.
(** False in general: cat1 has no patches (npatch1 = 1) and cat2 has two, one of them out of reach.
    tot counts only the near one. *)
Theorem C19_cross_forced_skip_refuted : exists C n1 n2 cats1 cats2 st,
  pNN C = true /\ cmetric (rP (pR C)) = Euclidean /\ rcoord (pR C) = ThreeD /\ validB (pB C) /\
  runJobs C sclear (crossJobs n1 n2 cats1 cats2) st /\
  sumw (allRows cats1) * sumw (allRows cats2) = 2 /\ ktot (sself st) = 1.
Proof.
  set (C := mkPC (exRun Euclidean exB BruteNo) true).
  set (c1 := [mkpatch 0 [exObj 0 1 0]]).
  set (c2 := [mkpatch 0 [exObj (3/2) 1 0]; mkpatch 1 [exObj 50 1 1]]).
  destruct (jobs_exist C sclear (crossJobs 1 2 c1 c2)) as [st H].
  { apply exB_valid. }
  { simpl. repeat constructor; discriminate. }
  exists C, 1%Z, 2%Z, c1, c2, st. repeat (split; [try reflexivity; try apply exB_valid|]); auto.
  - unfold sumw; simpl. lra.
  - rewrite (jobs_tot C sclear _ st eq_refl H). simpl.
    rewrite (trivZero_far (exRun Euclidean exB BruteNo) (exObj 0 1 0) (exObj 50 1 1)); simpl; auto;
      try discriminate; try apply exB_valid.
    2: { rewrite euclid_x. rabs. }
    destruct (patchTrivZero (exRun Euclidean exB BruteNo) [exObj 0 1 0] [exObj (3/2) 1 0]) eqn:E.
    + exfalso. assert (HX := C39_skip_sound_euclid (exRun Euclidean exB BruteNo) [exObj 0 1 0] [exObj (3/2) 1 0]
        (exObj 0 1 0) (exObj (3/2) 1 0) eq_refl exB_valid ltac:(discriminate) E (or_introl eq_refl) (or_introl eq_refl)).
      simpl in HX. rewrite euclid_x in HX. revert HX. rabs.
    + simpl. unfold sumw; simpl. lra.
Qed.
