(** Facts about the sums over stored triples used by calculateZeta. *)
From Coq Require Import Reals Lra Lia List ZArith Bool Permutation.
From Verif Require Import Base Geometry Tree Traverse Run Corr Patch Spec SpecRun GeomFacts SumFacts TreeFacts
  BinFacts TravFacts Exact MetricFacts Cover Lift Runs Examples Account PropsCount PropsRun PropsCorr PatchFacts
  PropsPatch PropsLocal Corr3 TriCover TriStop SpecTri TriFacts TriSpec PropsTri TriMirror PropsTri2
  Patch3 Patch3Facts Patch3Sum Patch3Res PropsPatch3 Cov Zeta.
Import ListNotations.
Open Scope R_scope.

Lemma ok3_In keys q : ok3 keys q = true <-> In q keys.
Proof.
  unfold ok3. rewrite existsb_exists. split.
  - intros [x [Hx E]]. apply k3eqb_eq in E. subst; auto.
  - intro H. exists q. split; auto. apply k3eqb_refl.
Qed.
Lemma d3get_in d q : In q (map fst d) -> exists c, d3get q d = Some c.
Proof.
  induction d as [|[k v] t IH]; simpl; [tauto|]. intros [E|H].
  - subst. rewrite k3eqb_refl. eauto.
  - destruct (k3eqb q k); eauto.
Qed.
Lemma d3get_some d q c : d3get q d = Some c -> In (q, c) d.
Proof.
  induction d as [|[k v] t IH]; simpl; [discriminate|]. destruct (k3eqb q k) eqn:E; auto.
  intro H. injection H as ->. apply k3eqb_eq in E. subst. auto.
Qed.
Lemma lookup3_get d l : (forall q, In q l -> In q (map fst d)) -> lookup3 d l = Some (map (getRes3 d) l).
Proof.
  induction l as [|q t IH]; intro H; simpl; auto. destruct (d3get_in d q) as [c E]; [apply H; left; auto|].
  rewrite E, IH by (intros; apply H; right; auto). unfold getRes3 at 2. rewrite E. auto.
Qed.
Lemma getRes3_cons d q : (forall e, In e d -> cons3 (k3acc (snd e))) -> cons3 (k3acc (getRes3 d q)).
Proof.
  intro H. unfold getRes3. destruct (d3get q d) eqn:E; [|apply cleared3_cons].
  apply d3get_some in E. apply (H _ E).
Qed.
(** ** Dummy results *)
Record dummies (d d' : results3) (keys : list key3) : Prop := mkDum {
  du_app : exists e, d' = d ++ e /\ forall x, In x e -> snd x = k3clear;
  du_keys : forall q, In q (keys3 d') <-> In q (keys3 d) \/ In q keys;
  du_ND : NoDup (keys3 d) -> NoDup (keys3 d') }.
Lemma addZero_dummies keys : forall d, dummies d (addZero d keys) keys.
Proof.
  induction keys as [|q t IH]; intro d; unfold addZero; cbn [fold_left].
  - constructor; [exists []; rewrite app_nil_r; split; auto; intros x []| |auto]. simpl. tauto.
  - fold (addZero (if ok3 (keys3 d) q then d else d ++ [(q, k3clear)]) t).
    destruct (ok3 (keys3 d) q) eqn:E.
    + destruct (IH d) as [A K N]. constructor; auto. intro x. rewrite K. simpl. apply ok3_In in E.
      split; [tauto|]. intros [H|[->|H]]; auto.
    + destruct (IH (d ++ [(q, k3clear)])) as [[e [A1 A2]] K N].
      assert (Nq : ~ In q (keys3 d)) by (intro H; apply ok3_In in H; congruence).
      constructor.
      * exists ((q, k3clear) :: e). split; [rewrite A1, <- app_assoc; auto|]. intros x [<-|Hx]; auto.
      * intro x. rewrite K. unfold keys3. rewrite map_app, in_app_iff. simpl. tauto.
      * intro HN. apply N. unfold keys3. rewrite map_app. simpl. 
        apply (Permutation_NoDup (Permutation_cons_append (map fst d) q)). constructor; auto.
Qed.

Definition consAll (d : results3) : Prop := forall e, In e d -> cons3 (k3acc (snd e)).
Definition sumAcc (d : results3) (p : key3 -> bool) (f : tfield) (k : Z) : R :=
  sumR (fun e => k3acc (snd e) f k) (filter (fun e => p (fst e)) d).
Definition sumTot (d : results3) (p : key3 -> bool) : R := sumR (fun e => k3tot (snd e)) (filter (fun e => p (fst e)) d).

Lemma sum_perm P d p l : NoDup (keys3 d) -> consAll d -> Permutation l (filter p (keys3 d)) ->
  exists c, sum3Of P d l = Some c /\ (forall f k, In k (places P) -> k3acc c f k = sumAcc d p f k) /\ k3tot c = sumTot d p.
Proof.
  intros HN HC HP. unfold sum3Of.
  assert (Hin : forall q, In q l -> In q (map fst d)).
  { intros q Hq. apply (Permutation_in _ HP) in Hq. apply filter_In in Hq as [Hq _]. auto. }
  rewrite lookup3_get by auto. eexists. split; [reflexivity|].
  pose proof (Permutation_map (getRes3 d) HP) as HP'. unfold keys3 in HP'. rewrite (getRes3_map d p HN) in HP'. split.
  - intros f k Hk. rewrite k3sum_get; auto.
    + unfold sumAcc. rewrite (sumR_perm _ _ _ HP'), sumR_map. auto.
    + intros c Hc. apply in_map_iff in Hc as [q [<- _]]. apply getRes3_cons; auto.
  - cbn [k3sum k3tot]. unfold sumTot. rewrite (sumR_perm _ _ _ HP'), sumR_map. auto.
Qed.
Lemma sum_sub P d p D' : NoDup (keys3 d) -> consAll d -> NoDup D' -> (forall q, In q (keys3 d) -> In q D') ->
  exists c, sum3Of P d (filter (ok3 (keys3 d)) (filter p D')) = Some c /\
    (forall f k, In k (places P) -> k3acc c f k = sumAcc d p f k) /\ k3tot c = sumTot d p.
Proof.
  intros HN HC HD HS. apply sum_perm; auto. apply NoDup_Permutation; try (repeat apply NoDup_filter; auto).
  intro q. rewrite !filter_In, ok3_In. split; [tauto|]. intros [H1 H2]. auto.
Qed.
Lemma dummies_sum d d' keys p : dummies d d' keys -> (forall f k, sumAcc d' p f k = sumAcc d p f k) /\ sumTot d' p = sumTot d p.
Proof.
  intros [[e [-> HE]] _ _].
  assert (Z : forall g : corr3 -> R, g k3clear = 0 ->
    sumR (fun x => g (snd x)) (filter (fun x => p (fst x)) (d ++ e)) = sumR (fun x => g (snd x)) (filter (fun x => p (fst x)) d)).
  { intros g Hg. rewrite filter_app, sumR_app. rewrite (sumR_0 _ (filter _ e)); [lra|].
    intros x Hx. apply filter_In in Hx as [Hx _]. rewrite HE; auto. }
  split; [intros f k; apply (Z (fun c => k3acc c f k)); reflexivity|apply (Z k3tot); reflexivity].
Qed.
Lemma dummies_cons d d' keys : dummies d d' keys -> consAll d -> consAll d'.
Proof.
  intros [[e [-> HE]] _ _] HC x Hx. apply in_app_iff in Hx as [Hx|Hx]; auto. rewrite HE by auto. apply cleared3_cons.
Qed.
Lemma dummies_trans d d1 d2 k1 k2 : dummies d d1 k1 -> dummies d1 d2 k2 -> dummies d d2 (k1 ++ k2).
Proof.
  intros [[e [A1 A2]] K N] [[e' [A1' A2']] K' N']. constructor.
  - exists (e ++ e'). split; [rewrite A1', A1, app_assoc; auto|]. intros x Hx. apply in_app_iff in Hx as [Hx|Hx]; auto.
  - intro q. rewrite K', K, in_app_iff. tauto.
  - auto.
Qed.
Lemma dummies_refl d : dummies d d [].
Proof. constructor; auto; [exists []; rewrite app_nil_r; split; auto; intros x []|]. simpl. tauto. Qed.

(** ** Results of the cross loop *)
Lemma cross12_keys O n1 n2 cats1 cats2 : NoDup (map pidx cats1) -> NoDup (map pidx cats2) ->
  NoDup (map jkey (cross12Jobs O n1 n2 cats1 cats2)).
Proof.
  intros H1 H2. unfold cross12Jobs. rewrite map_flat_map.
  apply (NoDup_tag _ c1 pidx); auto.
  - intros a Ha. cbv zeta. rewrite map_flat_map. apply (NoDup_tag _ c2 pidx); auto.
    + intros b Hb. cbn [map job12 jkey]. rewrite map_map. cbn [job123 jkey]. constructor.
      * intro Hi. apply in_map_iff in Hi as [c [E Hc]]. apply filter_In in Hc as [_ Hc]. apply Z.ltb_lt in Hc.
        injection E; intros; lia.
      * rewrite <- (map_map pidx (fun z => (pidx a, pidx b, z))). apply FinFun.Injective_map_NoDup.
        { intros x y E. injection E; auto. }
        apply NoDup_map_filter. rewrite map_rev. apply NoDup_rev; auto.
    + intros b q Hb Hq. cbn [map job12 jkey] in Hq. destruct Hq as [<-|Hq]; auto.
      apply in_map_iff in Hq as [J [<- HJ]]. apply in_map_iff in HJ as [c [<- _]]. auto.
  - intros a q Ha Hq. cbv zeta in Hq. apply in_map_iff in Hq as [J [<- HJ]]. apply in_flat_map in HJ as [b [_ HJ]].
    destruct HJ as [<-|HJ]; auto. apply in_map_iff in HJ as [c [<- _]]. auto.
Qed.
Lemma filter_flat_map {A B} (p : B -> bool) (g : A -> list B) l : filter p (flat_map g l) = flat_map (fun a => filter p (g a)) l.
Proof. induction l; simpl; auto. rewrite filter_app, IHl. auto. Qed.
Lemma flat_map_filter {A B} (q : A -> bool) (g : A -> list B) l :
  flat_map g (filter q l) = flat_map (fun a => if q a then g a else []) l.
Proof. induction l as [|a l IH]; simpl; auto. destruct (q a); simpl; rewrite IH; auto. Qed.
Lemma filter_comm {A} (p q : A -> bool) l : filter p (filter q l) = filter q (filter p l).
Proof. induction l as [|a l IH]; simpl; auto. destruct (q a) eqn:E, (p a) eqn:F; simpl; rewrite ?E, ?F, IH; auto. Qed.
Lemma filter_map_c {A B} (p : B -> bool) (g : A -> B) l : filter p (map g l) = map g (filter (fun a => p (g a)) l).
Proof. induction l as [|a l IH]; simpl; auto. destruct (p (g a)); simpl; rewrite IH; auto. Qed.
Lemma filter_rev_c {A} (p : A -> bool) l : filter p (rev l) = rev (filter p l).
Proof. induction l as [|a l IH]; simpl; auto. rewrite filter_app, IH. simpl. destruct (p a); simpl; rewrite ?app_nil_r; auto. Qed.
Lemma cross12_without O n1 n2 i cats1 cats2 :
  filter (fun J => avoids i (jkey J)) (cross12Jobs O n1 n2 cats1 cats2) =
  cross12Jobs O n1 n2 (without i cats1) (without i cats2).
Proof.
  unfold cross12Jobs, without. rewrite filter_flat_map, flat_map_filter. apply flat_map_ext. intro a.
  rewrite filter_flat_map, flat_map_filter.
  destruct (pidx a =? i)%Z eqn:Ea; cbn [negb].
  - rewrite (flat_map_ext _ (fun _ => [])); [induction cats2; simpl; auto|]. intro b. cbv zeta. cbn [filter job12 jkey].
    assert (F : avoids i (pidx a, pidx b, pidx b) = false) by (unfold avoids; cbn [fst snd]; rewrite Ea; auto).
    rewrite F, filter_map_c. cbn [job123 jkey].
    rewrite (filter_ext _ (fun _ => false)); [|intro c; unfold avoids; cbn [fst snd]; rewrite Ea; auto].
    induction (filter _ (rev cats2)); simpl; auto.
  - apply flat_map_ext. intro b. cbv zeta. cbn [filter job12 jkey]. unfold avoids at 1. cbn [fst snd].
    rewrite filter_map_c. cbn [job123 jkey].
    rewrite (filter_ext (fun c => avoids i _) (fun c => negb (pidx b =? i) && negb (pidx c =? i))%Z);
      [|intro c; unfold avoids; cbn [fst snd]; rewrite Ea; auto].
    destruct (pidx b =? i)%Z eqn:Eb; rewrite Ea; cbn [negb andb].
    + induction (filter _ (rev cats2)); simpl; auto.
    + rewrite filter_comm, filter_rev_c. auto.
Qed.
Lemma sum_if_filter {A} (p : A -> bool) (g : A -> R) l : sumR (fun x => if p x then g x else 0) l = sumR g (filter p l).
Proof. rewrite sumR_filter. auto. Qed.
Lemma cross12_tot C O n1 n2 cats1 cats2 : NoDup (map pidx cats2) -> noForcedSkip C (cross12Jobs O n1 n2 cats1 cats2) ->
  sumR (jobTot3 C) (cross12Jobs O n1 n2 cats1 cats2) =
  1/2 * sumw (allRows cats1) * (sumw (allRows cats2) * sumw (allRows cats2)).
Proof.
  intros HD HF. rewrite (sumR_ext _ (fun J => callTot (jcall J))).
  2: { intros J HJ. unfold jobTot3. destruct (jforce J) eqn:F; [rewrite (HF J HJ F)|rewrite andb_false_r]; auto. }
  unfold cross12Jobs. rewrite sumR_flat_map, !sumw_allRows.
  rewrite (sumR_ext _ (fun a => sumw (pobjs a) * (1/2 * (sumR (fun p => sumw (pobjs p)) cats2 * sumR (fun p => sumw (pobjs p)) cats2)))).
  - rewrite sumR_scal_r. lra.
  - intros a _. rewrite sumR_flat_map, (square_sum (fun p => sumw (pobjs p)) cats2).
    pose proof (pairs_loop (fun b => 1/2 * sumw (pobjs a) * (sumw (pobjs b) * sumw (pobjs b)))
      (fun b c => sumw (pobjs a) * sumw (pobjs b) * sumw (pobjs c)) cats2 ltac:(intros; cbv beta; ring) HD) as L.
    match goal with |- ?x = _ => replace x with (sumR (fun b => 1/2 * sumw (pobjs a) * (sumw (pobjs b) * sumw (pobjs b)) +
      sumR (fun c => if (pidx b <? pidx c)%Z then sumw (pobjs a) * sumw (pobjs b) * sumw (pobjs c) else 0) cats2) cats2) end.
    + rewrite L. rewrite (sumR_scal (1/2 * sumw (pobjs a))).
      rewrite (sumR_ext (fun q => sumw (pobjs a) * sumw (pobjs (fst q)) * sumw (pobjs (snd q)))
        (fun q => sumw (pobjs a) * (sumw (pobjs (fst q)) * sumw (pobjs (snd q))))) by (intros; ring).
      rewrite (sumR_scal (sumw (pobjs a))). lra.
    + apply sumR_ext. intros b _. cbv zeta. cbn [sumR]. simpl callTot at 1. f_equal.
      rewrite sumR_map, sumR_filter, sumR_rev. apply sumR_ext. intros c _. destruct (_ <? _)%Z; auto.
Qed.

(** What process() leaves: the results restricted to the triples that avoid a patch i. *)
Record stores (f : tfield) (k : Z) (d : results3) (val tot : Z -> R) : Prop := mkStores {
  so_ND : NoDup (keys3 d);
  so_cons : consAll d;
  so_val : forall i, sumAcc d (avoids i) f k = val i;
  so_tot : forall i, sumTot d (avoids i) = tot i }.
Lemma auto_stores C cats f k st :
  exact3 (p3P C) -> p3NNN C = true -> weights3 f (allRows cats) -> noTies (allRows cats) -> NoDup (map pidx cats) ->
  (0 <= k < tntot (p3P C))%Z -> runJobs3 C s3clear (auto3Jobs cats) st ->
  stores f k (s3res st) (fun i => sumTriplesU (tri6 (p3P C) f k) (allRows (without i cats)))
    (fun i => let w := sumw (allRows (without i cats)) in 1/6 * (w * w * w)) /\
  length (s3res st) = length (auto3Jobs cats) /\ (forall q, In q (keys3 (s3res st)) <-> In q (map jkey (auto3Jobs cats))).
Proof.
  intros X HNN W NT HN Hk HR. pose proof (exact3_okMin C X) as OM.
  pose proof (proj2 (in_places (p3P C) k) Hk) as HK.
  assert (CE : forall J, In J (auto3Jobs cats) -> callExact C f k (jcall J)).
  { apply (calls_exact C f k (allRows cats)); auto. intros; apply auto3_calls; auto. }
  destruct (jobs3_stored C f k (auto3Jobs cats) OM HK CE s3clear st (auto3_keys cats HN) ltac:(intros; intros []) HR) as [d [Ed Sd]].
  cbn [s3clear s3res app] in Ed. rewrite Ed. split.
  - constructor.
    + eapply stored_NoDup; eauto using auto3_keys.
    + intros e He. eapply stored_cons; eauto.
    + intro i. unfold sumAcc. rewrite (stored_sum C f k (avoids i) _ _ Sd). apply avoid_val; auto.
    + intro i. unfold sumTot. rewrite (stored_tot C f k (avoids i) _ _ HNN Sd). apply avoid_tot; auto.
  - assert (E : map fst d = map jkey (auto3Jobs cats)).
    { clear - Sd HNN. induction Sd; simpl; auto; [congruence|]. congruence. }
    unfold keys3. rewrite E. split; [|tauto]. rewrite <- (map_length fst d), E, map_length. auto.
Qed.
Lemma cross12_stores C O n1 n2 cats1 cats2 f k st :
  exact3 (p3P C) -> p3NNN C = true -> O <> O3 -> weights3 f (allRows cats1 ++ allRows cats2) ->
  (O = O0 -> noTies (allRows cats1 ++ allRows cats2)) -> NoDup (map pidx cats1) -> NoDup (map pidx cats2) ->
  noForcedSkip C (cross12Jobs O n1 n2 cats1 cats2) ->
  (0 <= k < tntot (p3P C))%Z -> runJobs3 C s3clear (cross12Jobs O n1 n2 cats1 cats2) st ->
  stores f k (s3res st)
    (fun i => sumPairs12 (ordG (p3P C) f k O) (allRows (without i cats1)) (allRows (without i cats2)))
    (fun i => let w1 := sumw (allRows (without i cats1)) in let w2 := sumw (allRows (without i cats2)) in
              1/2 * w1 * (w2 * w2)) /\
  length (s3res st) = length (cross12Jobs O n1 n2 cats1 cats2) /\
  (forall q, In q (keys3 (s3res st)) <-> In q (map jkey (cross12Jobs O n1 n2 cats1 cats2))).
Proof.
  intros X HNN HO W NT HN1 HN2 HF Hk HR. pose proof (exact3_okMin C X) as OM.
  pose proof (proj2 (in_places (p3P C) k) Hk) as HK.
  pose proof (cross12_keys O n1 n2 cats1 cats2 HN1 HN2) as KN.
  assert (CE : forall J, In J (cross12Jobs O n1 n2 cats1 cats2) -> callExact C f k (jcall J)).
  { apply (calls_exact C f k (allRows cats1 ++ allRows cats2)); auto.
    - intros [J [HJ EJ]]. apply NT. rewrite <- EJ. symmetry. apply (cross12_calls O n1 n2 cats1 cats2 J HO HJ).
    - intros J HJ. destruct (cross12_calls O n1 n2 cats1 cats2 J HO HJ) as [_ A]. exact A. }
  destruct (jobs3_stored C f k _ OM HK CE s3clear st KN ltac:(intros; intros []) HR) as [d [Ed Sd]].
  cbn [s3clear s3res app] in Ed. rewrite Ed. split.
  - constructor.
    + eapply stored_NoDup; eauto.
    + intros e He. eapply stored_cons; eauto.
    + intro i. unfold sumAcc. rewrite (stored_sum C f k (avoids i) _ _ Sd), sum_if_filter, cross12_without.
      apply cross12Jobs_val; auto. apply without_NoDup; auto.
    + intro i. unfold sumTot. rewrite (stored_tot C f k (avoids i) _ _ HNN Sd), sum_if_filter, cross12_without.
      apply cross12_tot; [apply without_NoDup; auto|]. intros J HJ. apply HF. rewrite <- cross12_without in HJ.
      apply filter_In in HJ as [HJ _]. auto.
  - assert (E : map fst d = map jkey (cross12Jobs O n1 n2 cats1 cats2)).
    { clear - Sd HNN. induction Sd; simpl; auto; [congruence|]. congruence. }
    unfold keys3. rewrite E. split; [|tauto]. rewrite <- (map_length fst d), E, map_length. auto.
Qed.
Lemma without_none cats i : (forall p, In p cats -> pidx p <> i) -> without i cats = cats.
Proof.
  unfold without. induction cats as [|a t IH]; simpl; intro H; auto.
  destruct (Z.eqb_spec (pidx a) i) as [E|E]; [exfalso; apply (H a); auto|]. simpl. rewrite IH; auto.
Qed.
