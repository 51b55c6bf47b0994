(** C40: patch_method='local'. *)
From Coq Require Import Reals Lra Lia List ZArith Bool Permutation Psatz.
From Verif Require Import Base Geometry Tree Traverse Run Corr Patch Spec SpecRun GeomFacts SumFacts TreeFacts
  BinFacts TravFacts Exact MetricFacts Cover Lift Runs Examples Account PropsCount PropsRun PropsCorr PatchFacts PropsPatch.
Import ListNotations.
Open Scope R_scope.

Definition localRows (Rc : runcfg) (c1 : list obj) (cats2 : list patch) : list obj :=
  match expandedPatch Rc c1 cats2 with Some (l, _) => l | None => [] end.
Definition usePatch (Rc : runcfg) (c1 : list obj) (p : patch) : bool :=
  negb (Rltb (maxsep (cbin (rP Rc)) + maxDist (meanPos c1) c1 + maxDist (meanPos (pobjs p)) (pobjs p))
             (norm (psub (collapse Rc (meanPos (pobjs p))) (collapse Rc (meanPos c1))))).
Lemma localRows_eq Rc c1 cats2 : localRows Rc c1 cats2 =
  flat_map (fun p => if usePatch Rc c1 p
                     then nearRows Rc (collapse Rc (meanPos c1)) (maxDist (meanPos c1) c1 + maxsep (cbin (rP Rc))) (pobjs p)
                     else []) cats2.
Proof.
  unfold localRows, expandedPatch. fold (usePatch Rc c1).
  match goal with |- match (match ?x with [] => _ | _ => _ end) with _ => _ end = ?y => change y with x; destruct x; reflexivity end.
Qed.
Lemma collapse_id Rc p : rcoord Rc <> ThreeD -> collapse Rc p = p.
Proof. unfold collapse. destruct (rcoord Rc); auto. congruence. Qed.

(** Every object within max_sep of an object of the patch is in the expanded patch. *)
Lemma local_complete Rc c1 cats2 o1 o2 : rcoord Rc <> ThreeD ->
  In o1 c1 -> In o2 (allRows cats2) -> pdist (opos o1) (opos o2) < maxsep (cbin (rP Rc)) ->
  In o2 (localRows Rc c1 cats2).
Proof.
  intros HC I1 I2 HD. rewrite localRows_eq. unfold allRows in I2. apply in_concat in I2 as [l [Hl I2]].
  apply in_map_iff in Hl as [p [<- Hp]]. apply in_flat_map. exists p. split; auto.
  pose proof (size_bound (meanPos c1) c1 o1 I1) as S1.
  pose proof (size_bound (meanPos (pobjs p)) (pobjs p) o2 I2) as S2.
  fold (maxDist (meanPos c1) c1) in S1. fold (maxDist (meanPos (pobjs p)) (pobjs p)) in S2.
  pose proof (pdist_triangle (opos o2) (opos o1) (meanPos c1)) as T1.
  pose proof (pdist_triangle (meanPos (pobjs p)) (opos o2) (meanPos c1)) as T2.
  rewrite (pdist_sym (opos o2) (opos o1)) in T1. rewrite (pdist_sym (opos o1) (meanPos c1)) in T1.
  unfold usePatch. rewrite !collapse_id by auto.
  change (norm (psub (meanPos (pobjs p)) (meanPos c1))) with (pdist (meanPos (pobjs p)) (meanPos c1)).
  rewrite Rltb_f by lra. simpl. unfold nearRows. apply filter_In. split; auto.
  rewrite collapse_id by auto. apply Rltb_t.
  change (norm (psub (opos o2) (meanPos c1))) with (pdist (opos o2) (meanPos c1)). lra.
Qed.
Lemma localRows_sub Rc c1 cats2 o : In o (localRows Rc c1 cats2) -> In o (allRows cats2).
Proof.
  rewrite localRows_eq, in_flat_map. intros [p [Hp Ho]]. destruct usePatch; [|contradiction].
  apply filter_In in Ho as [Ho _]. eapply in_allRows; eauto.
Qed.
Lemma local_sum Rc c1 cats2 (g : obj -> obj -> R) : rcoord Rc <> ThreeD ->
  (forall o1 o2, In o1 c1 -> In o2 (allRows cats2) -> maxsep (cbin (rP Rc)) <= pdist (opos o1) (opos o2) -> g o1 o2 = 0) ->
  sumR (fun oo => g (fst oo) (snd oo)) (pairs c1 (localRows Rc c1 cats2)) =
  sumR (fun oo => g (fst oo) (snd oo)) (pairs c1 (allRows cats2)).
Proof.
  intros HC HG. rewrite !sumR_pairs. cbn [fst snd]. apply sumR_ext. intros o1 I1.
  rewrite localRows_eq. unfold allRows. rewrite sumR_flat_map, sumR_concat, sumR_map.
  apply sumR_ext. intros p Hp. unfold usePatch. rewrite !collapse_id by auto.
  pose proof (size_bound (meanPos c1) c1 o1 I1) as S1. fold (maxDist (meanPos c1) c1) in S1.
  assert (HZ : forall o2, In o2 (pobjs p) -> maxsep (cbin (rP Rc)) <= pdist (opos o1) (opos o2) -> g o1 o2 = 0).
  { intros o2 I2. apply HG; auto. eapply in_allRows; eauto. }
  unfold Rltb at 1. destruct Rlt_dec as [L|L]; simpl.
  - symmetry. apply sumR_0. intros o2 I2. apply HZ; auto.
    pose proof (size_bound (meanPos (pobjs p)) (pobjs p) o2 I2) as S2.
    fold (maxDist (meanPos (pobjs p)) (pobjs p)) in S2.
    change (norm (psub (meanPos (pobjs p)) (meanPos c1))) with (pdist (meanPos (pobjs p)) (meanPos c1)) in L.
    pose proof (pdist_triangle (opos o2) (opos o1) (meanPos c1)) as T1.
    pose proof (pdist_triangle (meanPos (pobjs p)) (opos o2) (meanPos c1)) as T2.
    rewrite (pdist_sym (opos o2) (opos o1)) in T1. rewrite (pdist_sym (opos o1) (meanPos c1)) in T1. lra.
  - unfold nearRows. rewrite sumR_filter. apply sumR_ext. intros o2 I2. rewrite collapse_id by auto.
    unfold Rltb. destruct Rlt_dec as [L2|L2]; auto. symmetry. apply HZ; auto.
    change (norm (psub (opos o2) (meanPos c1))) with (pdist (opos o2) (meanPos c1)) in L2.
    pose proof (pdist_triangle (opos o2) (opos o1) (meanPos c1)) as T1.
    rewrite (pdist_sym (opos o2) (opos o1)) in T1. rewrite (pdist_sym (opos o1) (meanPos c1)) in T1. lra.
Qed.
Lemma local_jobs_sum Rc f k cats1 cats2 : cmetric (rP Rc) = Euclidean -> validB (cbin (rP Rc)) ->
  crpar (rP Rc) = None -> rcoord Rc <> ThreeD ->
  sumR (jobVal (rP Rc) f k) (localJobs Rc cats1 cats2) =
  sumR (specM (rP Rc) f k) (pairs (allRows cats1) (allRows cats2)).
Proof.
  intros HM HB Hr HC. unfold localJobs. rewrite sumR_map.
  assert (HV : forall p, jobVal (rP Rc) f k (JCross (pidx p) (pidx p) (pobjs p) (sumw (pobjs p))
     (expandedPatch Rc (pobjs p) cats2) true) = sumR (specM (rP Rc) f k) (pairs (pobjs p) (localRows Rc (pobjs p) cats2))).
  { intro p. cbn [jobVal]. unfold localRows. destruct (expandedPatch Rc (pobjs p) cats2) as [[l w]|]; auto.
    rewrite pairs_nil_r. reflexivity. }
  rewrite (sumR_ext _ _ _ (fun p _ => HV p)).
  unfold allRows at 1. rewrite (sumR_pairs _ (concat _)), sumR_concat, sumR_map.
  apply sumR_ext. intros p Hp.
  rewrite (sumR_ext (specM (rP Rc) f k) (fun oo => specM (rP Rc) f k (fst oo, snd oo))) by (intros [? ?] _; reflexivity).
  rewrite (local_sum Rc (pobjs p) cats2 (fun a b => specM (rP Rc) f k (a, b))); auto.
  - rewrite sumR_pairs. reflexivity.
  - intros o1 o2 I1 I2 HD. unfold specM; cbn [fst snd]. rewrite sel_not_range; auto.
    right. right. rewrite HM, mdist_euclid. auto.
Qed.
Lemma local_jobs_exact C f k cats1 cats2 :
  let P := rP (pR C) in
  validB (cbin P) -> crpar P = None -> cmetric P = Euclidean -> rcoord (pR C) = Flat ->
  zeroSlop P (allRows cats1) (allRows cats2) ->
  posW (allRows cats1) -> posW (allRows cats2) -> prodField f ->
  forall J, In J (localJobs (pR C) cats1 cats2) -> jobExact C f k J.
Proof.
  intros P HB Hr HM HC HZ W1 W2 Hf J HJ. unfold localJobs in HJ. apply in_map_iff in HJ as [p [<- Hp]].
  cbn [jobExact].
  pose proof (localRows_sub (pR C) (pobjs p) cats2) as HS. unfold localRows in HS.
  destruct (expandedPatch (pR C) (pobjs p) cats2) as [[l w]|]; auto.
  assert (HL : lipM (cmetric (rP (pR C))) anyPos anyPos) by (fold P; rewrite HM; apply lip_euclid).
  split.
  - intro HT. apply skip_val; auto. intros o1 o2 I1 I2.
    apply (trivZero_lip (pR C) anyPos anyPos (pobjs p) l); auto; try exact I. rewrite HC; discriminate.
  - intros t Ht. apply cross_exact0; auto.
    + destruct HZ as [Z1 [Z2 Z3]]. split; auto. split; auto.
      intros HLn o1 o2 j Hj I1 I2. apply Z3; auto. apply (in_allRows cats1 p); auto.
    + intros o Ho. apply W1. apply (in_allRows cats1 p); auto.
    + intros o Ho. apply W2. auto.
Qed.

(** Flat coordinates, Euclidean: the local method gives the brute-force sums. *)
Theorem C40_local_cross C cats1 cats2 st st' k :
  let R := pR C in let B := cbin (rP R) in
  cmetric (rP R) = Euclidean -> rcoord R = Flat -> crpar (rP R) = None -> validB B ->
  slop_b B = 0 -> narrowLog B ->
  offEdges B euclid (allRows cats1) (allRows cats2) ->
  posW (allRows cats1) -> posW (allRows cats2) -> (0 <= k < nbins B)%Z ->
  runJobs C st (localJobs R cats1 cats2) st' ->
  addsCross (selBin B euclid k) (allRows cats1) (allRows cats2) (kacc (sself st)) (kacc (sself st')) k.
Proof.
  intros R B HM HC Hr HB Hb HN HE W1 W2 Hk H.
  apply (addsCross_of (rP R)).
  - intros. apply selM_selBin; auto. rewrite HM. apply mdist_euclidean.
  - intros f Hf.
    rewrite (jobs_get C f k st (localJobs R cats1 cats2) st'); auto.
    + f_equal. apply local_jobs_sum; auto. rewrite HC; discriminate.
    + apply validB_okB; auto.
    + apply in_bins; auto.
    + apply local_jobs_exact; auto. split; auto. split; auto. fold R. rewrite HM.
      eapply offEdges_ext; [|exact HE]. intros; symmetry; apply mdist_euclidean.
Qed.
(** Local auto-correlations: for min_sep > 0 every unordered pair of rows is counted exactly twice
    (once from each side), so the arrays are twice those of the global method. *)
Lemma upairs_pairs (g : obj -> obj -> R) l : (forall a b, g a b = g b a) -> (forall a, In a l -> g a a = 0) ->
  sumR (fun oo => g (fst oo) (snd oo)) (pairs l l) = 2 * sumR (fun oo => g (fst oo) (snd oo)) (upairs l).
Proof.
  intros HS H0. rewrite sumR_pairs. cbn [fst snd]. induction l as [|a l IH]; [simpl; lra|].
  cbn [sumR upairs]. rewrite sumR_plus, IH by (intros; apply H0; right; auto).
  rewrite sumR_app, sumR_map. cbn [fst snd]. rewrite (H0 a) by (left; auto).
  rewrite (sumR_ext (fun x => g x a) (fun x => g a x)) by (intros; apply HS). lra.
Qed.
Theorem C40_local_auto C cats st st' k :
  let R := pR C in let B := cbin (rP R) in
  cmetric (rP R) = Euclidean -> rcoord R = Flat -> crpar (rP R) = None -> validB B -> 0 < minsep B ->
  slop_b B = 0 -> narrowLog B ->
  offEdges B euclid (allRows cats) (allRows cats) ->
  posW (allRows cats) -> (0 <= k < nbins B)%Z ->
  runJobs C st (localJobs R cats cats) st' ->
  let sel := selBin B euclid k in let cat := allRows cats in
  a_npairs (kacc (sself st')) k = a_npairs (kacc (sself st)) k + 2 * sumUPairs sel v_one cat /\
  a_weight (kacc (sself st')) k = a_weight (kacc (sself st)) k + 2 * sumUPairs sel v_ww cat /\
  a_xi_kk (kacc (sself st')) k = a_xi_kk (kacc (sself st)) k + 2 * sumUPairs sel v_kk cat.
Proof.
  intros R B HM HC Hr HB Hpos Hb HN HE HW Hk H sel cat.
  destruct (C40_local_cross C cats cats st st' k HM HC Hr HB Hb HN HE HW HW Hk H) as [A1 [A2 [_ A4]]].
  fold R B sel cat in A1, A2, A4.
  assert (HX : forall v, (forall a b, v a b = v b a) -> sumPairs sel v cat cat = 2 * sumUPairs sel v cat).
  { intros v Hv. unfold sumPairs, sumUPairs.
    apply (upairs_pairs (fun a b => if sel a b then v a b else 0)).
    - intros a b. unfold sel, selBin. rewrite Hv.
      replace (euclid (opos a) (opos b)) with (euclid (opos b) (opos a)) by (unfold euclid; f_equal; ring). auto.
    - intros a Ha. unfold sel, selBin. destruct (inBinb B k _) eqn:E; auto. exfalso.
      apply inBinb_true in E as [_ [E _]].
      rewrite euclid_pdist, pdist_refl in E. pose proof (edge_mono B 0 k HB) as HMo.
      assert (edge B 0 = minsep B).
      { pose proof (vb_not2d _ HB). unfold edge. destruct (btype B); try congruence; simpl; try lra.
        rewrite Rmult_0_l, exp_0; lra. }
      assert (edge B 0 <= edge B k) by (apply HMo; lia). lra. }
  rewrite A1, A2, A4, !HX; auto; intros; unfold v_one, v_ww, v_kk; ring.
Qed.
(** tot for the local method: sum(w1)*sum(w2) over all rows, when no expanded patch is empty or skipped. *)
Theorem C40_local_tot C cats1 cats2 st st' : pNN C = true ->
  (forall p, In p cats1 -> exists l w, expandedPatch (pR C) (pobjs p) cats2 = Some (l, w) /\
     patchTrivZero (pR C) (pobjs p) l = false) ->
  runJobs C st (localJobs (pR C) cats1 cats2) st' ->
  ktot (sself st') = ktot (sself st) + sumw (allRows cats1) * sumw (allRows cats2).
Proof.
  intros HN HP H. rewrite (jobs_tot C st _ st' HN H). f_equal. unfold localJobs. rewrite sumR_map.
  rewrite !sumw_allRows, <- sumR_scal_r. apply sumR_ext. intros p Hp.
  destruct (HP p Hp) as [l [w [E T]]]. cbn [jobTot]. rewrite E. rewrite T. simpl.
  unfold expandedPatch in E. destruct (flat_map _ _); [discriminate|]. injection E as _ <-. reflexivity.
Qed.
Definition exRunF : runcfg := mkR (mkC Euclidean None exB) Flat Mean BruteNo 0 10.
Definition exPF1 : list patch := [mkpatch 0 [exObj 0 1 0]; mkpatch 1 [exObj (7/4) 2 1]].
Definition exPF2 : list patch := [mkpatch 0 [exObj (3/2) 1 0; exObj (21/4) 1 2]; mkpatch 1 [exObj (5/2) 3 1]].
Example C40_example : exists st, runJobs (mkPC exRunF true) sclear (localJobs exRunF exPF1 exPF2) st /\
  a_npairs (kacc (sself st)) 0%Z = 1 /\ a_weight (kacc (sself st)) 1%Z = 3.
Proof.
  destruct (jobs_exist (mkPC exRunF true) sclear (localJobs exRunF exPF1 exPF2)) as [st H].
  { apply exB_valid. }
  { apply Forall_forall. intros J HJ. unfold localJobs in HJ. apply in_map_iff in HJ as [p [<- Hp]].
    simpl. destruct (expandedPatch exRunF (pobjs p) exPF2) as [[l w]|] eqn:E; auto.
    unfold expandedPatch in E. destruct (flat_map _ _) eqn:F; [discriminate|]. injection E as <- _.
    split; [|discriminate]. destruct Hp as [<-|[<-|[]]]; discriminate. }
  exists st. split; auto.
  assert (HA : forall k, (0 <= k < 2)%Z ->
    addsCross (selBin exB euclid k) (allRows exPF1) (allRows exPF2) cleared (kacc (sself st)) k).
  { intros k Hk. apply (C40_local_cross (mkPC exRunF true) exPF1 exPF2 sclear st k); auto; simpl; try lia.
    - apply exB_valid.
    - apply exB_narrow.
    - intros HL o1 o2 j Hj I1 I2. apply exCats_off; auto; simpl in *; tauto.
    - intros o Ho. apply exCat1_pos. simpl in *; tauto.
    - intros o Ho. apply exCat2_pos. simpl in *; tauto. }
  destruct (HA 0%Z) as [A1 _]; [lia|]. destruct (HA 1%Z) as [_ [A2 _]]; [lia|].
  rewrite A1, A2. unfold sumPairs, selBin, v_one, v_ww. simpl. rewrite !exB_in by auto. rewrite !euclid_x.
  split.
  - rewrite (Rleb_t (1 + IZR 0) (Rabs (0 - 3/2))), (Rltb_t (Rabs (0 - 3/2)) (2 + IZR 0)) by rabs.
    rewrite (Rltb_f (Rabs (0 - 21/4)) (2 + IZR 0)), (Rltb_f (Rabs (0 - 5/2)) (2 + IZR 0)) by rabs.
    rewrite (Rleb_f (1 + IZR 0) (Rabs (7/4 - 3/2))), (Rleb_f (1 + IZR 0) (Rabs (7/4 - 5/2))) by rabs.
    rewrite (Rltb_f (Rabs (7/4 - 21/4)) (2 + IZR 0)) by rabs.
    rewrite !andb_false_r. unfold aconst; simpl. lra.
  - rewrite (Rleb_f (1 + IZR 1) (Rabs (0 - 3/2))) by rabs.
    rewrite (Rleb_t (1 + IZR 1) (Rabs (0 - 5/2))), (Rltb_t (Rabs (0 - 5/2)) (2 + IZR 1)) by rabs.
    rewrite (Rltb_f (Rabs (0 - 21/4)) (2 + IZR 1)) by rabs.
    rewrite (Rleb_f (1 + IZR 1) (Rabs (7/4 - 3/2))), (Rleb_f (1 + IZR 1) (Rabs (7/4 - 5/2))) by rabs.
    rewrite (Rltb_f (Rabs (7/4 - 21/4)) (2 + IZR 1)) by rabs.
    rewrite !andb_false_r. unfold aconst; simpl. lra.
Qed.

(** In 3d coordinates the claim is false: _make_expanded_patch compares positions scaled to the unit
    sphere with max_sep and sizes in the original unit.  The points (1/10,0,0) and (-1/10,0,0) are at
    separation 0.2 < max_sep = 0.3, but the second is not put in the expanded patch of the first. *)
Lemma collapse_x Rc x : rcoord Rc = ThreeD -> x <> 0 -> collapse Rc (mkpos x 0 0) = mkpos (x / Rabs x) 0 0.
Proof.
  intros HC Hx. unfold collapse. rewrite HC.
  assert (E : norm (mkpos x 0 0) = Rabs x).
  { unfold norm, normSq; simpl. replace (x * x + 0 * 0 + 0 * 0) with (Rsqr x) by (unfold Rsqr; ring). apply sqrt_Rsqr_abs. }
  rewrite E. assert (Rabs x <> 0) by (apply Rabs_no_R0; auto).
  destruct Req_EM_T; [contradiction|]. unfold pscale; simpl. f_equal; field; auto.
Qed.
Theorem C40_local_3d_refuted : exists C cats1 cats2 st,
  let R := pR C in let B := cbin (rP R) in
  cmetric (rP R) = Euclidean /\ rcoord R = ThreeD /\ validB B /\ slop_b B = 0 /\
  runJobs C sclear (localJobs R cats1 cats2) st /\
  (forall k, a_npairs (kacc (sself st)) k = 0) /\
  sumPairs (selBin B euclid 1) v_one (allRows cats1) (allRows cats2) = 1.
Proof.
  set (Rc := mkR (mkC Euclidean None (mkB BLinear (1/20) (1/4) 2 (1/10) 0 1)) ThreeD Mean BruteNo 0 10).
  set (c1 := [mkpatch 0 [exObj (1/10) 1 0]]). set (c2 := [mkpatch 0 [exObj (-1/10) 1 0]]).
  assert (HV : validB (cbin (rP Rc))).
  { constructor; simpl; try lra; try lia; try discriminate. unfold edge; simpl; lra. }
  assert (HE : expandedPatch Rc (pobjs (hd (mkpatch 0 []) c1)) c2 = None).
  { unfold expandedPatch. simpl flat_map. rewrite !meanPos_one. simpl pobjs. simpl opos.
    rewrite !(maxDist_at (mkpos _ 0 0) (exObj _ 1 0)) by reflexivity.
    rewrite !collapse_x by (reflexivity || lra).
    rewrite Rltb_t; [reflexivity|].
    unfold norm, normSq, psub; simpl. apply lt_sqrt_sq; [lra|].
    replace (Rabs (1/10)) with (1/10) by rabs. replace (Rabs (-1/10)) with (1/10) by rabs. lra. }
  exists (mkPC Rc true), c1, c2. eexists. cbv zeta.
  split; [reflexivity|]. split; [reflexivity|]. split; [exact HV|]. split; [reflexivity|]. split; [|split].
  - simpl localJobs. simpl in HE. rewrite HE. eapply rj_cons; [|constructor].
    exists kclear. split; [reflexivity|reflexivity].
  - intro k. unfold addCross. cbn [kacc kclear]. rewrite orb_true_r. cbn [sself]. unfold kadd.
    rewrite !anyPairs_cleared. reflexivity.
  - unfold sumPairs; simpl. unfold selBin, v_one; simpl. rewrite euclid_x.
    replace (inBinb _ _ _) with true; [lra|]. symmetry. apply inBinb_true. split; [simpl; lia|].
    unfold edge; simpl. rabs.
Qed.
(** Nor does it know about periodic images. *)
Theorem C40_local_periodic_refuted : exists xp C cats1 cats2 st,
  let R := pR C in let B := cbin (rP R) in
  0 < xp /\ cmetric (rP R) = Periodic xp xp xp /\ rcoord R = Flat /\ validB B /\ slop_b B = 0 /\
  runJobs C sclear (localJobs R cats1 cats2) st /\
  (forall k, a_npairs (kacc (sself st)) k = 0) /\
  (exists o1 o2, allRows cats1 = [o1] /\ allRows cats2 = [o2] /\
     isPeriodicSep xp xp xp (opos o1) (opos o2) 1 /\ inBin B 0 1).
Proof.
  set (Rc := mkR (mkC (Periodic 10 10 10) None exB) Flat Mean BruteNo 0 10).
  set (c1 := [mkpatch 0 [exObj 0 1 0]]). set (c2 := [mkpatch 0 [exObj 9 1 0]]).
  assert (HE : expandedPatch Rc (pobjs (hd (mkpatch 0 []) c1)) c2 = None).
  { unfold expandedPatch. simpl flat_map. rewrite !meanPos_one. simpl pobjs. simpl opos.
    rewrite !(maxDist_at (mkpos _ 0 0) (exObj _ 1 0)) by reflexivity.
    rewrite !collapse_id by discriminate.
    rewrite Rltb_t; [reflexivity|].
    unfold norm, normSq, psub; simpl. apply lt_sqrt_sq; lra. }
  exists 10, (mkPC Rc true), c1, c2. eexists. cbv zeta.
  split; [lra|]. split; [reflexivity|]. split; [reflexivity|]. split; [apply exB_valid|]. split; [reflexivity|].
  split; [|split].
  - simpl localJobs. simpl in HE. rewrite HE. eapply rj_cons; [|constructor].
    exists kclear. split; [reflexivity|reflexivity].
  - intro k. unfold addCross. cbn [kacc kclear]. rewrite orb_true_r. cbn [sself]. unfold kadd.
    rewrite !anyPairs_cleared. reflexivity.
  - exists (exObj 0 1 0), (exObj 9 1 0). split; [reflexivity|]. split; [reflexivity|]. split.
    + assert (HD : forall i, 1 <= Rabs (0 - (9 + IZR i * 10))).
      { intro i. destruct (Z_lt_le_dec i 0) as [L|L].
        - destruct (Z.eq_dec i (-1)) as [->|]; [simpl; rabs|].
          assert (IZR i <= -2) by (apply IZR_le; lia). rabs.
        - assert (0 <= IZR i) by (apply (IZR_le 0); lia). rabs. }
      split.
      * exists (-1)%Z, 0%Z, 0%Z. unfold euclid, image; simpl. symmetry.
        match goal with |- sqrt ?x = 1 => replace x with 1 by ring end. apply sqrt_1.
      * intros i j l. unfold euclid, image; simpl. eapply Rle_trans; [apply (HD i)|].
        rewrite <- sqrt_Rsqr_abs. apply sqrt_le_1_alt. unfold Rsqr.
        match goal with |- _ <= _ + ?b * (?b * 1) + ?c * (?c * 1) =>
          pose proof (Rle_0_sqr b); pose proof (Rle_0_sqr c); unfold Rsqr in * end. lra.
    + split; [simpl; lia|]. unfold edge; simpl; lra.
Qed.
