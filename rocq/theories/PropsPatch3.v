(** C68: three-point processing by patches equals the unpatched run (LogRUV, bin_slop=0, Euclidean);
    C69: patch_method='local'; C70: results and jackknife. *)
From Coq Require Import Reals Lra Lia List ZArith Bool Permutation Psatz.
From Verif Require Import Base Geometry Tree Traverse Run Corr Patch Spec SpecRun GeomFacts SumFacts TreeFacts
  BinFacts TravFacts Exact MetricFacts Cover Lift Runs Examples Account PropsCount PropsRun PropsCorr PatchFacts
  PropsPatch PropsLocal Corr3 TriCover TriStop SpecTri TriFacts TriSpec PropsTri TriMirror PropsTri2
  Patch3 Patch3Facts Patch3Sum Patch3Res.
Import ListNotations.
Open Scope R_scope.

(** ** C68: patch_method='global' *)
Theorem C68_auto C cats f k st s :
  exact3 (p3P C) -> weights3 f (allRows cats) -> noTies (allRows cats) -> NoDup (map pidx cats) ->
  (0 <= k < tntot (p3P C))%Z ->
  runJobs3 C s3clear (auto3Jobs cats) st -> runAuto3 (p3R C) (allRows cats) cleared3 s ->
  k3acc (s3self st) f k = s f k /\ k3acc (s3self st) f k = sumTriplesU (tri6 (p3P C) f k) (allRows cats).
Proof.
  intros X W NT HN Hk HR HS.
  assert (E : k3acc (s3self st) f k = sumTriplesU (tri6 (p3P C) f k) (allRows cats)).
  { rewrite (jobs3_get C f k s3clear (auto3Jobs cats) st); auto using exact3_okMin.
    - rewrite auto3Jobs_val by auto. simpl. unfold cleared3. lra.
    - apply in_places; auto.
    - apply (calls_exact C f k (allRows cats)); auto. intros; apply auto3_calls; auto. }
  split; auto. rewrite E. destruct X as [V S E' MV].
  rewrite (C65_auto_exact (p3R C) f k (allRows cats) cleared3 s); auto. unfold cleared3, p3P. lra.
Qed.
Theorem C68_auto_tot C cats st : p3NNN C = true -> NoDup (map pidx cats) ->
  runJobs3 C s3clear (auto3Jobs cats) st ->
  k3tot (s3self st) = 1/6 * (sumw (allRows cats) * sumw (allRows cats) * sumw (allRows cats)).
Proof.
  intros HN HD HR. rewrite (jobs3_tot C _ _ _ HN HR), auto3Jobs_tot by auto. simpl. lra.
Qed.
Theorem C68_cross12 C O n1 n2 cats1 cats2 f k st s :
  exact3 (p3P C) -> O <> O3 -> weights3 f (allRows cats1 ++ allRows cats2) ->
  (O = O0 -> noTies (allRows cats1 ++ allRows cats2)) -> NoDup (map pidx cats2) ->
  (0 <= k < tntot (p3P C))%Z ->
  runJobs3 C s3clear (cross12Jobs O n1 n2 cats1 cats2) st ->
  runCross12 (p3R C) O (allRows cats1) (allRows cats2) cleared3 s ->
  k3acc (s3self st) f k = s f k /\
  k3acc (s3self st) f k =
    sumPairs12 (match O with O1 => tri1 (p3P C) f k | _ => tri6 (p3P C) f k end) (allRows cats1) (allRows cats2).
Proof.
  intros X HO W NT HN Hk HR HS.
  assert (E : k3acc (s3self st) f k =
    sumPairs12 (match O with O1 => tri1 (p3P C) f k | _ => tri6 (p3P C) f k end) (allRows cats1) (allRows cats2)).
  { rewrite (jobs3_get C f k s3clear (cross12Jobs O n1 n2 cats1 cats2) st); auto using exact3_okMin.
    - rewrite cross12Jobs_val by auto. simpl. unfold cleared3. rewrite Rplus_0_l. destruct O; auto. congruence.
    - apply in_places; auto.
    - apply (calls_exact C f k (allRows cats1 ++ allRows cats2)); auto.
      + intros [J [HJ EJ]]. apply cross12_calls in HJ as [A _]; auto. apply NT. congruence.
      + intros J HJ. apply cross12_calls in HJ as [_ A]; auto. }
  split; auto. rewrite E. destruct X as [V S E' MV].
  rewrite (C66_cross12 (p3R C) O f k (allRows cats1) (allRows cats2) cleared3 s); auto. unfold cleared3, p3P. lra.
Qed.
Theorem C68_cross C O n1 n2 n3 cats1 cats2 cats3 f k st s :
  exact3 (p3P C) -> weights3 f (allRows cats1 ++ allRows cats2 ++ allRows cats3) ->
  (O = O0 -> noTies (allRows cats1 ++ allRows cats2 ++ allRows cats3)) ->
  (0 <= k < tntot (p3P C))%Z ->
  runJobs3 C s3clear (cross3Jobs O n1 n2 n3 cats1 cats2 cats3) st ->
  runCross3 (p3R C) O (allRows cats1) (allRows cats2) (allRows cats3) cleared3 s ->
  k3acc (s3self st) f k = s f k /\
  k3acc (s3self st) f k =
    sumTriples (match O with O3 => tri (p3P C) f k | O1 => tri1 (p3P C) f k | O0 => tri6 (p3P C) f k end)
      (allRows cats1) (allRows cats2) (allRows cats3).
Proof.
  intros X W NT Hk HR HS.
  assert (E : k3acc (s3self st) f k =
    sumTriples (match O with O3 => tri (p3P C) f k | O1 => tri1 (p3P C) f k | O0 => tri6 (p3P C) f k end)
      (allRows cats1) (allRows cats2) (allRows cats3)).
  { rewrite (jobs3_get C f k s3clear (cross3Jobs O n1 n2 n3 cats1 cats2 cats3) st); auto using exact3_okMin.
    - rewrite cross3Jobs_val by auto. simpl. unfold cleared3. rewrite Rplus_0_l. destruct O; auto.
    - apply in_places; auto.
    - apply (calls_exact C f k (allRows cats1 ++ allRows cats2 ++ allRows cats3)); auto.
      + intros [J [HJ EJ]]. apply cross3_calls in HJ as [A _]; auto. apply NT. congruence.
      + intros J HJ. apply cross3_calls in HJ as [_ A]; auto. }
  split; auto. rewrite E. destruct X as [V S E' MV].
  rewrite (C66_cross (p3R C) O f k (allRows cats1) (allRows cats2) (allRows cats3) cleared3 s); auto. unfold cleared3, p3P. lra.
Qed.
(** tot of cross-correlations, unless a pair of patches whose write is forced is skipped. *)
Definition noForcedSkip (C : pcfg3) (Js : list job3) : Prop :=
  forall J, In J Js -> jforce J = true -> callTriv (p3P C) (jcall J) = false.
Lemma noForced_tot C J : jforce J = true -> callTriv (p3P C) (jcall J) = false -> jobTot3 C J = callTot (jcall J).
Proof. intros _ H. unfold jobTot3. rewrite H. auto. Qed.
Theorem C68_cross_tot C O n1 n2 n3 cats1 cats2 cats3 : p3NNN C = true ->
  (forall st, NoDup (map pidx cats2) -> noForcedSkip C (cross12Jobs O n1 n2 cats1 cats2) ->
     runJobs3 C s3clear (cross12Jobs O n1 n2 cats1 cats2) st ->
     k3tot (s3self st) = 1/2 * sumw (allRows cats1) * (sumw (allRows cats2) * sumw (allRows cats2))) /\
  (forall st, noForcedSkip C (cross3Jobs O n1 n2 n3 cats1 cats2 cats3) ->
     runJobs3 C s3clear (cross3Jobs O n1 n2 n3 cats1 cats2 cats3) st ->
     k3tot (s3self st) = sumw (allRows cats1) * sumw (allRows cats2) * sumw (allRows cats3)).
Proof.
  intro HN. split.
  - intros st HD HF HR. rewrite (jobs3_tot C _ _ _ HN HR). simpl k3tot. rewrite Rplus_0_l.
    rewrite (sumR_ext _ (fun J => callTot (jcall J))).
    2: { intros J HJ. unfold jobTot3. destruct (jforce J) eqn:F; [rewrite (HF J HJ F)|rewrite andb_false_r]; auto. }
    unfold cross12Jobs. rewrite sumR_flat_map, !sumw_allRows.
    rewrite (sumR_ext _ (fun a => sumw (pobjs a) * (1/2 * (sumR (fun p => sumw (pobjs p)) cats2 * sumR (fun p => sumw (pobjs p)) cats2)))).
    + rewrite sumR_scal_r. lra.
    + intros a _. rewrite sumR_flat_map, (square_sum (fun p => sumw (pobjs p)) cats2).
      pose proof (pairs_loop (fun b => 1/2 * sumw (pobjs a) * (sumw (pobjs b) * sumw (pobjs b)))
        (fun b c => sumw (pobjs a) * sumw (pobjs b) * sumw (pobjs c)) cats2 ltac:(intros; cbv beta; ring) HD) as L.
      match goal with |- ?x = _ => replace x with (sumR (fun b => 1/2 * sumw (pobjs a) * (sumw (pobjs b) * sumw (pobjs b)) +
        sumR (fun c => if (pidx b <? pidx c)%Z then sumw (pobjs a) * sumw (pobjs b) * sumw (pobjs c) else 0) cats2) cats2) end.
      * rewrite L. rewrite (sumR_scal (1/2 * sumw (pobjs a))).
        rewrite (sumR_ext (fun q => sumw (pobjs a) * sumw (pobjs (fst q)) * sumw (pobjs (snd q)))
          (fun q => sumw (pobjs a) * (sumw (pobjs (fst q)) * sumw (pobjs (snd q))))) by (intros; ring).
        rewrite (sumR_scal (sumw (pobjs a))). lra.
      * apply sumR_ext. intros b _. cbv zeta. cbn [sumR]. simpl callTot at 1. f_equal.
        rewrite sumR_map, sumR_filter, sumR_rev. apply sumR_ext. intros c _. destruct (_ <? _)%Z; auto.
  - intros st HF HR. rewrite (jobs3_tot C _ _ _ HN HR). simpl k3tot. rewrite Rplus_0_l.
    rewrite (sumR_ext _ (fun J => callTot (jcall J))).
    2: { intros J HJ. unfold jobTot3. destruct (jforce J) eqn:F; [rewrite (HF J HJ F)|rewrite andb_false_r]; auto. }
    unfold cross3Jobs. rewrite sumR_flat_map, !sumw_allRows.
    rewrite (sumR_ext _ (fun a => sumw (pobjs a) * (sumR (fun p => sumw (pobjs p)) cats2 * sumR (fun p => sumw (pobjs p)) cats3))).
    + rewrite sumR_scal_r. lra.
    + intros a _. rewrite sumR_flat_map.
      rewrite (sumR_ext _ (fun b => sumw (pobjs b) * (sumw (pobjs a) * sumR (fun p => sumw (pobjs p)) cats3))).
      * rewrite sumR_scal_r. lra.
      * intros b _. rewrite sumR_map. rewrite (sumR_ext _ (fun c => (sumw (pobjs a) * sumw (pobjs b)) * sumw (pobjs c))) by reflexivity.
        rewrite (sumR_scal (sumw (pobjs a) * sumw (pobjs b))). lra.
Qed.
(** Under MPI with any number of processes. *)
Theorem C68_mpi C O n1 n2 n3 size f k cats1 cats2 cats3 :
  exact3 (p3P C) -> (0 < size)%Z -> (0 <= k < tntot (p3P C))%Z ->
  idxIn n1 cats1 -> idxIn n2 cats2 -> idxIn n3 cats3 -> NoDup (map pidx cats1) -> NoDup (map pidx cats2) ->
  weights3 f (allRows cats1 ++ allRows cats2 ++ allRows cats3) ->
  noTies (allRows cats1 ++ allRows cats2 ++ allRows cats3) ->
  (forall st, mpi3Run C (mine3Auto n1 size) size (auto3Jobs cats1) st ->
     k3acc (s3self st) f k = sumTriplesU (tri6 (p3P C) f k) (allRows cats1) /\
     (p3NNN C = true ->
        k3tot (s3self st) = 1/6 * (sumw (allRows cats1) * sumw (allRows cats1) * sumw (allRows cats1)))) /\
  (forall st, O <> O3 -> mpi3Run C (mine3Cross12 n1 n2 size) size (cross12Jobs O n1 n2 cats1 cats2) st ->
     k3acc (s3self st) f k =
       sumPairs12 (match O with O1 => tri1 (p3P C) f k | _ => tri6 (p3P C) f k end) (allRows cats1) (allRows cats2)) /\
  (forall st, mpi3Run C (mine3Cross n1 n2 n3 size) size (cross3Jobs O n1 n2 n3 cats1 cats2 cats3) st ->
     k3acc (s3self st) f k =
       sumTriples (match O with O3 => tri (p3P C) f k | O1 => tri1 (p3P C) f k | O0 => tri6 (p3P C) f k end)
         (allRows cats1) (allRows cats2) (allRows cats3)).
Proof.
  intros X Hs Hk I1 I2 I3 N1 N2 W NT. pose proof (exact3_okMin C X) as OM.
  pose proof (proj2 (in_places (p3P C) k) Hk) as HK. split; [|split].
  - intros st HR. split.
    + rewrite (mpi3_get C f k (mine3Auto n1 size) size (auto3Jobs cats1) st); auto using auto3_assigns.
      * apply auto3Jobs_val; auto.
      * apply (calls_exact C f k (allRows cats1)); auto.
        { apply (weights3_sub f (allRows cats1 ++ allRows cats2 ++ allRows cats3)); auto. intros; apply in_or_app; auto. }
        { intros _. apply (noTies_sub (allRows cats1 ++ allRows cats2 ++ allRows cats3)); auto. intros; apply in_or_app; auto. }
        intros; apply auto3_calls; auto.
    + intro HN. rewrite (mpi3_tot C (mine3Auto n1 size) size (auto3Jobs cats1) st); auto using auto3_assigns.
      apply auto3Jobs_tot; auto.
  - intros st HO HR.
    rewrite (mpi3_get C f k (mine3Cross12 n1 n2 size) size (cross12Jobs O n1 n2 cats1 cats2) st); auto using cross12_assigns.
    + rewrite cross12Jobs_val by auto. destruct O; auto. congruence.
    + apply (calls_exact C f k (allRows cats1 ++ allRows cats2)); auto.
      { apply (weights3_sub f (allRows cats1 ++ allRows cats2 ++ allRows cats3)); auto. intros o; rewrite !in_app_iff; tauto. }
      { intros _. apply (noTies_sub (allRows cats1 ++ allRows cats2 ++ allRows cats3)); auto. intros o; rewrite !in_app_iff; tauto. }
      intros J HJ. apply cross12_calls in HJ as [_ A]; auto.
  - intros st HR.
    rewrite (mpi3_get C f k (mine3Cross n1 n2 n3 size) size (cross3Jobs O n1 n2 n3 cats1 cats2 cats3) st); auto using cross3_assigns.
    + rewrite cross3Jobs_val by auto. destruct O; auto.
    + apply (calls_exact C f k (allRows cats1 ++ allRows cats2 ++ allRows cats3)); auto.
      intros J HJ. apply cross3_calls in HJ as [_ A]; auto.
Qed.
(** Skipping is sound for the Euclidean metric: three patches found too far apart have no triangle
    of the range of bins, in any labelling. *)
Theorem C68_skip P l1 l2 l3 k a b c : validRUV P -> triv3 P l1 l2 l3 = true ->
  In a l1 -> In b l2 -> In c l3 ->
  selTri P k a b c = false /\ selTri P k a c b = false /\ selTri P k b a c = false /\
  selTri P k b c a = false /\ selTri P k c a b = false /\ selTri P k c b a = false.
Proof.
  intros V HT Ha Hb Hc. destruct (triv3_far P V l1 l2 l3 a b c HT Ha Hb Hc) as [A1 [A2 A3]].
  assert (S : forall p q, euclid p q = euclid q p) by (intros; rewrite !euclid_pdist; apply pdist_sym).
  assert (Z : forall x y z, ~ (euclid (opos x) (opos y) < tmaxsep P /\ euclid (opos x) (opos z) < tmaxsep P) ->
    selTri P k x y z = false).
  { intros x y z H. destruct (selTri P k x y z) eqn:E; auto. exfalso. apply H.
    destruct (tri_sides P V TNtri k x y z) as [E1 E2]; [unfold tri; rewrite E; simpl; lra|].
    unfold side2, side3 in *. auto. }
  repeat split; apply Z; rewrite ?(S (opos b) (opos a)), ?(S (opos c) (opos a)), ?(S (opos c) (opos b)); tauto.
Qed.
Theorem C68_exists C O n1 n2 n3 cats1 cats2 cats3 : validRUV (p3P C) -> slopOK3 (p3P C) -> tmetric (p3P C) = Euclidean ->
  (forall p, In p (cats1 ++ cats2 ++ cats3) -> pobjs p <> []) ->
  (exists st, runJobs3 C s3clear (auto3Jobs cats1) st) /\
  (O <> O3 -> exists st, runJobs3 C s3clear (cross12Jobs O n1 n2 cats1 cats2) st) /\
  (exists st, runJobs3 C s3clear (cross3Jobs O n1 n2 n3 cats1 cats2 cats3) st).
Proof.
  intros V S E NE.
  assert (G1 : forall p, In p cats1 -> pobjs p <> []) by (intros; apply NE; rewrite !in_app_iff; auto).
  assert (G2 : forall p, In p cats2 -> pobjs p <> []) by (intros; apply NE; rewrite !in_app_iff; auto).
  assert (G3 : forall p, In p cats3 -> pobjs p <> []) by (intros; apply NE; rewrite !in_app_iff; auto).
  split; [|split].
  - apply jobs3_exist; auto. intros J HJ.
    apply in_auto3Jobs in HJ as [[a [Ha ->]]|[[a [b [Ha [Hb [_ [->| ->]]]]]]|[a [b [c [Ha [Hb [Hc [_ ->]]]]]]]]]; simpl; auto.
    + split; [discriminate|]. split; auto. intros x E'. injection E' as <-. simpl. auto.
    + split; [discriminate|]. split; auto. intros x E'. injection E' as <-. simpl. auto.
    + split; auto. split; intros x E'; injection E' as <-; simpl; auto.
  - intro HO. apply jobs3_exist; auto. intros J HJ.
    apply in_cross12Jobs in HJ as [a [b [Ha [Hb [->|[c [Hc [_ ->]]]]]]]]; simpl.
    + split; [auto|]. split; auto. intros x E'. injection E' as <-. simpl. auto.
    + split; auto. split; intros x E'; injection E' as <-; simpl; auto.
  - apply jobs3_exist; auto. intros J HJ. apply in_cross3Jobs in HJ as [a [b [c [Ha [Hb [Hc ->]]]]]]. simpl.
    split; auto. split; intros x E'; injection E' as <-; simpl; auto.
Qed.

(** ** C70: the results dict and the jackknife *)
Theorem C70_results C cats f k st :
  exact3 (p3P C) -> weights3 f (allRows cats) -> noTies (allRows cats) -> NoDup (map pidx cats) ->
  (0 <= k < tntot (p3P C))%Z -> runJobs3 C s3clear (auto3Jobs cats) st ->
  NoDup (map fst (s3res st)) /\
  k3acc (k3sum (p3P C) (map snd (s3res st))) f k = k3acc (s3self st) f k /\
  (p3NNN C = true -> k3tot (k3sum (p3P C) (map snd (s3res st))) = k3tot (s3self st)).
Proof.
  intros X W NT HN Hk HR. pose proof (exact3_okMin C X) as OM.
  pose proof (proj2 (in_places (p3P C) k) Hk) as HK.
  assert (CE : forall J, In J (auto3Jobs cats) -> callExact C f k (jcall J)).
  { apply (calls_exact C f k (allRows cats)); auto. intros; apply auto3_calls; auto. }
  destruct (jobs3_stored C f k (auto3Jobs cats) OM HK CE s3clear st (auto3_keys cats HN) ltac:(intros; intros []) HR) as [d [Ed Sd]].
  cbn [s3clear s3res app] in Ed. rewrite Ed. split; [eapply stored_NoDup; eauto using auto3_keys|].
  assert (FT : forall (l : results3), filter (fun e => (fun _ : key3 => true) (fst e)) l = l).
  { intro l. induction l as [|x t IH]; simpl; congruence. }
  split.
  - rewrite k3sum_get; auto.
    + rewrite sumR_map. pose proof (stored_sum C f k (fun _ => true) _ _ Sd) as Q. rewrite FT in Q. rewrite Q.
      rewrite (jobs3_get C f k s3clear (auto3Jobs cats) st OM HK CE HR). simpl. unfold cleared3. lra.
    + intros c Hc. apply in_map_iff in Hc as [e [<- He]]. eapply stored_cons; eauto.
  - intro HNN. cbn [k3sum k3tot]. rewrite sumR_map. pose proof (stored_tot C f k (fun _ => true) _ _ HNN Sd) as Q. rewrite FT in Q. rewrite Q.
    rewrite (jobs3_tot C _ _ _ HNN HR). cbn [s3clear s3self k3clear k3tot]. rewrite Rplus_0_l. reflexivity.
Qed.
Theorem C70_jackknife C cats i f k st :
  exact3 (p3P C) -> weights3 f (allRows cats) -> noTies (allRows cats) -> NoDup (map pidx cats) ->
  (0 <= k < tntot (p3P C))%Z -> runJobs3 C s3clear (auto3Jobs cats) st ->
  let others := allRows (filter (fun p => negb (pidx p =? i)%Z) cats) in
  k3acc (jackSum (p3P C) i (s3res st)) f k = sumTriplesU (tri6 (p3P C) f k) others /\
  (forall s, runAuto3 (p3R C) others cleared3 s -> k3acc (jackSum (p3P C) i (s3res st)) f k = s f k) /\
  (p3NNN C = true -> k3tot (jackSum (p3P C) i (s3res st)) = 1/6 * (sumw others * sumw others * sumw others)).
Proof.
  intros X W NT HN Hk HR others. pose proof (exact3_okMin C X) as OM.
  pose proof (proj2 (in_places (p3P C) k) Hk) as HK.
  assert (CE : forall J, In J (auto3Jobs cats) -> callExact C f k (jcall J)).
  { apply (calls_exact C f k (allRows cats)); auto. intros; apply auto3_calls; auto. }
  destruct (jobs3_stored C f k (auto3Jobs cats) OM HK CE s3clear st (auto3_keys cats HN) ltac:(intros; intros []) HR) as [d [Ed Sd]].
  cbn [s3clear s3res app] in Ed. rewrite Ed.
  assert (EJ : map (getRes3 d) (jackKeys i d) = map snd (filter (fun e => avoids i (fst e)) d)).
  { unfold jackKeys. apply (getRes3_map d (avoids i)). eapply stored_NoDup; eauto using auto3_keys. }
  assert (E1 : k3acc (jackSum (p3P C) i d) f k = sumTriplesU (tri6 (p3P C) f k) others).
  { unfold jackSum. rewrite EJ, k3sum_get; auto.
    - rewrite sumR_map, (stored_sum C f k (avoids i) _ _ Sd). apply avoid_val; auto.
    - intros c Hc. apply in_map_iff in Hc as [e [<- He]]. apply filter_In in He as [He _]. eapply stored_cons; eauto. }
  assert (SubO : forall o, In o others -> In o (allRows cats)).
  { intros o Ho. unfold others, allRows in Ho. apply in_concat in Ho as [l [Hl Ho]]. apply in_map_iff in Hl as [p [<- Hp]].
    apply filter_In in Hp as [Hp _]. eapply in_allRows; eauto. }
  split; auto. split.
  - intros s HS. rewrite E1. destruct X as [V S E' MV].
    rewrite (C65_auto_exact (p3R C) f k others cleared3 s); auto; [unfold cleared3, p3P; lra| |].
    + eapply weights3_sub; eauto. + eapply noTies_sub; eauto.
  - intro HNN. unfold jackSum. rewrite EJ. cbn [k3sum k3tot]. rewrite sumR_map, (stored_tot C f k (avoids i) _ _ HNN Sd).
    apply avoid_tot; auto.
Qed.
