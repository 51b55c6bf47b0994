(** Facts about the results dict and the selection of patch pairs. *)
From Coq Require Import Reals Lra Lia List ZArith Bool Permutation Psatz.
From Verif Require Import Base Geometry Tree Traverse Run Corr Patch Cov Spec SpecRun GeomFacts SumFacts TreeFacts
  BinFacts TravFacts Exact MetricFacts Cover Lift Runs Account PropsCorr PatchFacts.
Import ListNotations.
Open Scope R_scope.

Lemma keqb_eq a b : keqb a b = true <-> a = b.
Proof.
  unfold keqb. destruct a, b; simpl. rewrite andb_true_iff, !Z.eqb_eq. split; [intros [-> ->]; auto|].
  intro H; injection H; auto.
Qed.
Lemma keqb_refl a : keqb a a = true.
Proof. apply keqb_eq; auto. Qed.
Lemma key_dec (a b : key) : {a = b} + {a <> b}.
Proof. decide equality; apply Z.eq_dec. Qed.
Lemma okKey_in keys k : okKey keys k = true <-> In k keys.
Proof.
  unfold okKey. rewrite existsb_exists. split.
  - intros [x [Hx E]]. apply keqb_eq in E. subst; auto.
  - intro H. exists k. split; auto. apply keqb_refl.
Qed.
Lemma dget_none k d : ~ In k (keysOf d) -> dget k d = None.
Proof.
  induction d as [|[k' v] d IH]; simpl; auto. intro H.
  destruct (keqb k k') eqn:E; [apply keqb_eq in E; subst; tauto|]. apply IH; tauto.
Qed.
Lemma dset_new k v d : ~ In k (keysOf d) -> dset k v d = d ++ [(k, v)].
Proof.
  induction d as [|[k' v'] d IH]; simpl; auto. intro H.
  destruct (keqb k k') eqn:E; [apply keqb_eq in E; subst; tauto|]. rewrite IH; tauto.
Qed.
Lemma dget_in d : NoDup (keysOf d) -> forall k v, In (k, v) d -> dget k d = Some v.
Proof.
  induction d as [|[k' v'] d IH]; simpl; intros HN k v H; [contradiction|]. inversion HN; subst.
  destruct H as [H|H].
  - injection H as <- <-. rewrite keqb_refl. auto.
  - destruct (keqb k k') eqn:E; auto. apply keqb_eq in E; subst. exfalso. apply H2.
    apply in_map_iff. exists (k', v). auto.
Qed.
Lemma lookup_some d pairs : NoDup (keysOf d) -> (forall k, In k pairs -> In k (keysOf d)) ->
  exists l, lookup d pairs = Some l /\ Forall2 (fun k c => In (k, c) d) pairs l.
Proof.
  intros HN. induction pairs as [|k t IH]; intro H; simpl.
  - exists []. auto.
  - destruct IH as [l [Hl HF]]; [intros; apply H; right; auto|].
    assert (Hk : In k (keysOf d)) by (apply H; left; auto).
    apply in_map_iff in Hk as [[k' v] [E Hv]]. simpl in E. subst k'.
    rewrite (dget_in d HN k v Hv), Hl. exists (v :: l). auto.
Qed.
(** Summing over the pairs selected by a predicate *)
Lemma lookup_filter d (q : key -> bool) : NoDup (keysOf d) ->
  lookup d (filter q (keysOf d)) = Some (map snd (filter (fun kv => q (fst kv)) d)).
Proof.
  intro HN.
  assert (H : forall e, (forall kv, In kv e -> In kv d) ->
    lookup d (filter q (keysOf e)) = Some (map snd (filter (fun kv => q (fst kv)) e))).
  { induction e as [|[k v] e IH]; intro He; simpl; auto.
    destruct (q k); simpl; [|apply IH; intros; apply He; right; auto].
    rewrite (dget_in d HN k v) by (apply He; left; auto).
    rewrite IH by (intros; apply He; right; auto). auto. }
  apply H; auto.
Qed.
Definition allConsistent (d : dict) : Prop := forall k v, In (k, v) d -> consistent (kacc v).
Lemma ksum_get B l f k : In k (bins B) -> (forall c, In c l -> consistent (kacc c)) ->
  aget f (kacc (ksum B l)) k = sumR (fun c => aget f (kacc c) k) l.
Proof.
  intros Hk Hl. destruct (C20_sum_is_repeated_iadd B l Hl) as [A _].
  assert (HF : forall s, consistent (kacc s) ->
     aget f (kacc (fold_left (kadd B) l s)) k = aget f (kacc s) k + sumR (fun c => aget f (kacc c) k) l).
  { clear A. induction l as [|c l IH]; intros s Hs; simpl; [lra|].
    assert (Hc : consistent (kacc c)) by (apply Hl; left; auto).
    rewrite IH; auto; [|intros; apply Hl; right; auto|apply kadd_consistent; auto].
    rewrite kadd_get; auto. lra. }
  specialize (HF kclear cleared_consistent). rewrite kclear_get in HF.
  destruct (A k Hk) as [? [? [? [? [? ?]]]]].
  destruct f; simpl in *; lra.
Qed.
Lemma ksum_tot B l : ktot (ksum B l) = sumR ktot l.
Proof. unfold ksum. destruct (filter _ l); auto. Qed.

(** ** The results dict after a patch run *)
Definition resSum (f : afield) (k : Z) (q : key -> bool) (d : dict) : R :=
  sumR (fun kv => if q (fst kv) then aget f (kacc (snd kv)) k else 0) d.
Definition resTot (q : key -> bool) (d : dict) : R :=
  sumR (fun kv => if q (fst kv) then ktot (snd kv) else 0) d.

Record resInv (d : dict) : Prop := mkRI { ri_nodup : NoDup (keysOf d); ri_cons : allConsistent d }.

Lemma step_res C st J st' : okB (pB C) -> resInv (sres st) -> ~ In (jobKey J) (keysOf (sres st)) ->
  jobStep C st J st' ->
  (sres st' = sres st /\ pNN C = false /\
     (forall temp, tempOf C J temp -> True) /\ exists temp, tempOf C J temp /\ anyPairs (pB C) (kacc temp) = false) \/
  (exists c2, (exists i j c1 sw1 fo, J = JCross i j c1 sw1 c2 fo) /\ c2 = None /\ sres st' = sres st) \/
  (exists v, sres st' = sres st ++ [(jobKey J, v)] /\ consistent (kacc v) /\
     (tempOf C J v \/ (exists temp, tempOf C J temp /\ anyPairs (pB C) (kacc temp) = false /\ kacc v = cleared))).
Proof.
  intros HB HI HN H. apply step_temp in H as [temp [HT ->]].
  pose proof (temp_consistent C J temp HB HT) as HC.
  destruct J as [i c|i j c1 sw1 c2 fo]; simpl jobKey in *.
  - right. right. exists temp. unfold addAuto; simpl. rewrite (dget_none _ _ HN), dset_new by auto. auto.
  - unfold addCross. destruct (anyPairs (pB C) (kacc temp) || fo) eqn:E.
    + right. right. exists temp. simpl. rewrite (dget_none _ _ HN), dset_new by auto. auto.
    + apply orb_false_iff in E as [E1 E2]. destruct c2 as [[c2 sw2]|].
      * destruct (pNN C).
        -- right. right. exists (mkK cleared (sw1 * sw2)). simpl. rewrite dset_new by auto.
           split; auto. split; [apply cleared_consistent|]. right. exists temp. auto.
        -- left. split; auto. split; auto. split; eauto.
      * right. left. exists None. split; eauto 8.
Qed.
Lemma step_keys C st J st' : okB (pB C) -> resInv (sres st) -> ~ In (jobKey J) (keysOf (sres st)) ->
  jobStep C st J st' -> resInv (sres st') /\ (forall x, In x (keysOf (sres st')) -> x = jobKey J \/ In x (keysOf (sres st))).
Proof.
  intros HB HI HN H. destruct (step_res C st J st' HB HI HN H) as [[E _]|[[c2 [_ [_ E]]]|[v [E [HC _]]]]].
  - rewrite E. auto.
  - rewrite E. auto.
  - rewrite E. unfold keysOf in *. rewrite map_app. simpl. split.
    + destruct HI as [I1 I2]. constructor.
      * unfold keysOf. rewrite map_app. simpl.
        apply (Permutation_NoDup (Permutation_cons_append (map fst (sres st)) (jobKey J))).
        constructor; auto.
      * intros k w Hw. apply in_app_or in Hw as [Hw|[Hw|[]]]; [eapply I2; eauto|]. injection Hw as _ <-. auto.
    + intros x Hx. apply in_app_or in Hx as [Hx|[Hx|[]]]; auto.
Qed.
Lemma zero_in_bins B s f k : consistent s -> anyPairs B s = false -> In k (bins B) -> aget f s k = 0.
Proof.
  intros HC HA Hk. pose proof (nonzero_false B s HA k Hk) as H0. destruct (HC k) as [_ H2].
  destruct (H2 H0) as [? [? [? [? ?]]]]. destruct f; auto.
Qed.
Lemma step_resSum C f k q st J st' : okB (pB C) -> In k (bins (pB C)) -> resInv (sres st) ->
  ~ In (jobKey J) (keysOf (sres st)) -> jobExact C f k J -> jobStep C st J st' ->
  resSum f k q (sres st') = resSum f k q (sres st) + (if q (jobKey J) then jobVal (rP (pR C)) f k J else 0).
Proof.
  intros HB Hk HI HN HE H.
  destruct (step_res C st J st' HB HI HN H) as [[E [_ [_ [temp [HT HA]]]]]|[[c2 [HJ [-> E]]]|[v [E [HC HV]]]]].
  - rewrite E. pose proof (temp_val C f k J temp HE HT) as HV.
    rewrite (zero_in_bins (pB C) (kacc temp) f k (temp_consistent C J temp HB HT) HA Hk) in HV.
    rewrite <- HV. destruct (q _); lra.
  - rewrite E. destruct HJ as [i [j [c1 [sw1 [fo ->]]]]]. simpl. destruct (q _); lra.
  - rewrite E. unfold resSum. rewrite sumR_app. cbn [sumR fst snd]. rewrite Rplus_0_r. f_equal.
    destruct (q (jobKey J)); auto. destruct HV as [HT|[temp [HT [HA HK]]]].
    + apply temp_val; auto.
    + rewrite HK, cleared_get. rewrite <- (temp_val C f k J temp HE HT). symmetry.
      apply (zero_in_bins (pB C)); auto. eapply temp_consistent; eauto.
Qed.
Lemma step_resTot C q st J st' : okB (pB C) -> pNN C = true -> resInv (sres st) ->
  ~ In (jobKey J) (keysOf (sres st)) -> jobStep C st J st' ->
  resTot q (sres st') = resTot q (sres st) + (if q (jobKey J) then jobTot C J else 0).
Proof.
  intros HB HNN HI HN H. apply step_temp in H as [temp [HT ->]].
  destruct J as [i c|i j c1 sw1 c2 fo]; simpl jobKey in *.
  - unfold addAuto; cbn [sres]. rewrite (dget_none _ _ HN), dset_new by auto.
    unfold resTot. rewrite sumR_app. cbn [sumR fst snd]. rewrite Rplus_0_r. f_equal.
    destruct (q _); auto. simpl in HT. destruct HT as [t [_ ->]]. simpl. rewrite HNN. lra.
  - simpl in HT. unfold tempCross in HT.
    assert (HQ : forall v, ktot v = jobTot C (JCross i j c1 sw1 c2 fo) ->
      resTot q (dset (i, j) v (sres st)) = resTot q (sres st) + (if q (i, j) then jobTot C (JCross i j c1 sw1 c2 fo) else 0)).
    { intros v Hv. rewrite dset_new by auto. unfold resTot. rewrite sumR_app. cbn [sumR fst snd].
      rewrite Rplus_0_r, Hv. reflexivity. }
    unfold addCross. rewrite (dget_none _ _ HN). destruct c2 as [[c2 sw2]|].
    + cbn [jobTot] in *. destruct (patchTrivZero (pR C) c1 c2).
      * subst temp. cbn [kacc kclear]. rewrite anyPairs_cleared. simpl orb. simpl andb in *.
        destruct fo; [apply HQ; reflexivity|]. rewrite HNN. cbn [sres]. apply HQ. reflexivity.
      * destruct HT as [t [_ ->]]. rewrite HNN in *. simpl andb in *.
        destruct (anyPairs _ _ || fo); cbn [sres]; apply HQ; simpl; lra.
    + subst temp. cbn [kacc kclear]. rewrite anyPairs_cleared. simpl orb. cbn [jobTot] in *.
      destruct fo; [apply HQ; reflexivity|]. destruct (q _); lra.
Qed.
Lemma jobs_res C st Js st' : okB (pB C) -> resInv (sres st) -> NoDup (map jobKey Js) ->
  (forall J, In J Js -> ~ In (jobKey J) (keysOf (sres st))) -> runJobs C st Js st' ->
  resInv (sres st') /\
  (forall x, In x (keysOf (sres st')) -> In x (map jobKey Js) \/ In x (keysOf (sres st))) /\
  (forall f k q, In k (bins (pB C)) -> (forall J, In J Js -> jobExact C f k J) ->
     resSum f k q (sres st') = resSum f k q (sres st) +
       sumR (jobVal (rP (pR C)) f k) (filter (fun J => q (jobKey J)) Js)) /\
  (forall q, pNN C = true -> resTot q (sres st') = resTot q (sres st) +
       sumR (jobTot C) (filter (fun J => q (jobKey J)) Js)).
Proof.
  intros HB HI HN HD H. induction H as [st|st J st1 Js st2 HS HR IH]; simpl.
  - split; auto. split; auto. split; intros; lra.
  - simpl in HN. inversion HN as [|? ? HN1 HN2]; subst.
    assert (HJ : ~ In (jobKey J) (keysOf (sres st))) by (apply HD; left; auto).
    destruct (step_keys C st J st1 HB HI HJ HS) as [HI1 HK1].
    destruct IH as [IH1 [IH2 [IH3 IH4]]]; auto.
    { intros J' HJ' Hin. apply HK1 in Hin as [E|Hin]; [|apply (HD J'); auto; right; auto].
      apply HN1. rewrite <- E. apply in_map; auto. }
    split; auto. split; [|split].
    + intros x Hx. apply IH2 in Hx as [Hx|Hx]; auto. apply HK1 in Hx as [->|Hx]; auto.
    + intros f k q Hk HE. rewrite IH3; auto. rewrite (step_resSum C f k q st J st1); auto.
      destruct (q (jobKey J)); simpl; lra.
    + intros q HNN. rewrite IH4; auto. rewrite (step_resTot C q st J st1); auto.
      destruct (q (jobKey J)); simpl; lra.
Qed.
(** ** The keys of the jobs *)
Lemma NoDup_flat_map {A B} (g : A -> list B) l : NoDup l -> (forall a, In a l -> NoDup (g a)) ->
  (forall a b x, In a l -> In b l -> In x (g a) -> In x (g b) -> a = b) -> NoDup (flat_map g l).
Proof.
  intros HN HG HD. induction HN as [|a l Ha HN IH]; simpl; [constructor|].
  assert (HA : forall l1 l2 : list B, NoDup l1 -> NoDup l2 -> (forall x, In x l1 -> In x l2 -> False) -> NoDup (l1 ++ l2)).
  { induction l1 as [|y l1 IHl]; intros l2 N1 N2 Hx; simpl; auto. inversion N1; subst. constructor.
    - rewrite in_app_iff. intros [?|?]; auto. apply (Hx y); simpl; auto.
    - apply IHl; auto. intros x X1 X2. apply (Hx x); simpl; auto. }
  apply HA.
  - apply HG; left; auto.
  - apply IH; [intros; apply HG; right; auto|]. intros b c x Hb Hc. apply HD; right; auto.
  - intros x H1 H2. apply in_flat_map in H2 as [b [Hb H2]].
    assert (a = b) by (apply (HD a b x); simpl; auto). subst. contradiction.
Qed.
Lemma NoDup_of_map {A B} (g : A -> B) l : NoDup (map g l) -> NoDup l.
Proof.
  induction l as [|a l IH]; simpl; intro H; constructor; inversion H; subst; auto.
  intro Hin. apply H2. apply in_map; auto.
Qed.
Lemma pidx_inj cats a b : NoDup (map pidx cats) -> In a cats -> In b cats -> pidx a = pidx b -> a = b.
Proof.
  induction cats as [|c l IH]; simpl; intros HN Ha Hb E; [contradiction|]. inversion HN; subst.
  destruct Ha as [->|Ha]; destruct Hb as [->|Hb]; auto.
  - exfalso. apply H1. rewrite E. apply in_map; auto.
  - exfalso. apply H1. rewrite <- E. apply in_map; auto.
Qed.
Lemma NoDup_map_in {A B} (g : A -> B) l : NoDup l -> (forall a b, In a l -> In b l -> g a = g b -> a = b) -> NoDup (map g l).
Proof.
  intros HN HI. induction HN as [|a l Ha HN IH]; simpl; constructor.
  - intro H. apply in_map_iff in H as [b [E Hb]]. assert (b = a) by (apply HI; simpl; auto). subst. contradiction.
  - apply IH. intros; apply HI; simpl; auto.
Qed.
Lemma map_flat_map {A B C} (f : B -> C) (g : A -> list B) l : map f (flat_map g l) = flat_map (fun a => map f (g a)) l.
Proof. induction l; simpl; auto. rewrite map_app, IHl; auto. Qed.
Lemma autoJobs_keys cats : NoDup (map pidx cats) -> NoDup (map jobKey (autoJobs cats)).
Proof.
  intro HN. unfold autoJobs. rewrite map_flat_map. apply NoDup_flat_map.
  - eapply NoDup_of_map; eauto.
  - intros a Ha. simpl. rewrite map_map. simpl. constructor.
    + intro H. apply in_map_iff in H as [b [E Hb]]. apply filter_In in Hb as [_ Hb]. apply Z.ltb_lt in Hb.
      injection E as E. lia.
    + apply NoDup_map_in.
      * apply NoDup_filter, NoDup_rev. eapply NoDup_of_map; eauto.
      * intros b c Hb Hc E. apply filter_In in Hb as [Hb _]. apply filter_In in Hc as [Hc _].
        apply in_rev in Hb, Hc. injection E as E. eapply pidx_inj; eauto.
  - intros a b x Ha Hb H1 H2. apply (pidx_inj cats a b HN Ha Hb).
    assert (HF : forall c y, In y (map jobKey (JAuto (pidx c) (pobjs c) :: map (crossJob false c)
       (filter (fun c2 => (pidx c <? pidx c2)%Z) (rev cats)))) -> fst y = pidx c).
    { intros c y Hy. simpl in Hy. destruct Hy as [<-|Hy]; auto. rewrite map_map in Hy.
      apply in_map_iff in Hy as [d [<- _]]. auto. }
    rewrite <- (HF a x H1), <- (HF b x H2). auto.
Qed.
Lemma crossJobs_keys n1 n2 cats1 cats2 : NoDup (map pidx cats1) -> NoDup (map pidx cats2) ->
  NoDup (map jobKey (crossJobs n1 n2 cats1 cats2)).
Proof.
  intros H1 H2. unfold crossJobs. rewrite map_flat_map. apply NoDup_flat_map.
  - eapply NoDup_of_map; eauto.
  - intros a Ha. rewrite map_map. simpl. apply NoDup_map_in; [eapply NoDup_of_map; eauto|].
    intros b c Hb Hc E. injection E as E. eapply pidx_inj; eauto.
  - intros a b x Ha Hb X1 X2. apply (pidx_inj cats1 a b H1 Ha Hb). rewrite map_map in X1, X2.
    apply in_map_iff in X1 as [? [<- _]]. apply in_map_iff in X2 as [? [E _]]. injection E; auto.
Qed.
Lemma filter_flat_map {A B} (q : B -> bool) (g : A -> list B) l :
  filter q (flat_map g l) = flat_map (fun a => filter q (g a)) l.
Proof. induction l; simpl; auto. rewrite filter_app, IHl; auto. Qed.
Lemma filter_map {A B} (q : B -> bool) (g : A -> B) l : filter q (map g l) = map g (filter (fun a => q (g a)) l).
Proof. induction l; simpl; auto. destruct (q (g a)); simpl; rewrite IHl; auto. Qed.
Lemma filter_rev' {A} (q : A -> bool) l : filter q (rev l) = rev (filter q l).
Proof.
  induction l; simpl; auto. rewrite filter_app, IHl. simpl. destruct (q a); simpl; auto. rewrite app_nil_r; auto.
Qed.
Lemma filter_comm {A} (p q : A -> bool) l : filter p (filter q l) = filter q (filter p l).
Proof.
  induction l as [|a l IH]; simpl; auto. destruct (q a) eqn:Q, (p a) eqn:P; simpl; rewrite ?Q, ?P, IH; auto.
Qed.
Lemma filter_all {A} (q : A -> bool) l : (forall a, In a l -> q a = true) -> filter q l = l.
Proof. induction l; simpl; intro H; auto. rewrite H by auto. rewrite IHl; auto. Qed.
Lemma filter_none {A} (q : A -> bool) l : (forall a, In a l -> q a = false) -> filter q l = [].
Proof. induction l; simpl; intro H; auto. rewrite H by auto. auto. Qed.
Lemma filter_ext_in' {A} (p q : A -> bool) l : (forall a, In a l -> p a = q a) -> filter p l = filter q l.
Proof. induction l; simpl; intro H; auto. rewrite H by auto. rewrite IHl; auto. Qed.
(** Jobs that involve only the patches in p *)
Lemma autoJobs_filter (p : Z -> bool) cats :
  filter (fun J => p (fst (jobKey J)) && p (snd (jobKey J))) (autoJobs cats) =
  autoJobs (filter (fun c => p (pidx c)) cats).
Proof.
  unfold autoJobs at 1. rewrite filter_flat_map.
  set (h := fun c1 => JAuto (pidx c1) (pobjs c1) :: map (crossJob false c1)
      (filter (fun c2 => (pidx c1 <? pidx c2)%Z) (rev (filter (fun c => p (pidx c)) cats)))).
  assert (HG : forall c, filter (fun J => p (fst (jobKey J)) && p (snd (jobKey J)))
      (JAuto (pidx c) (pobjs c) :: map (crossJob false c) (filter (fun c2 => (pidx c <? pidx c2)%Z) (rev cats))) =
      if p (pidx c) then h c else []).
  { intro c. cbn [filter jobKey fst snd]. rewrite filter_map. cbn [jobKey crossJob fst snd].
    destruct (p (pidx c)) eqn:E; cbn [andb].
    - unfold h. f_equal. f_equal. rewrite <- filter_rev'. apply filter_comm.
    - rewrite filter_none; auto. }
  rewrite (flat_map_ext _ _ HG). change (autoJobs (filter (fun c => p (pidx c)) cats))
    with (flat_map h (filter (fun c => p (pidx c)) cats)).
  clearbody h. clear HG. induction cats as [|c l IH]; auto. cbn [flat_map filter].
  destruct (p (pidx c)); cbn [flat_map app]; rewrite IH; auto.
Qed.
Lemma crossJobs_filter (p1 p2 : Z -> bool) n1 n2 cats1 cats2 :
  filter (fun J => p1 (fst (jobKey J)) && p2 (snd (jobKey J))) (crossJobs n1 n2 cats1 cats2) =
  crossJobs n1 n2 (filter (fun c => p1 (pidx c)) cats1) (filter (fun c => p2 (pidx c)) cats2).
Proof.
  unfold crossJobs. rewrite filter_flat_map. induction cats1 as [|c l IH]; auto.
  cbn [flat_map filter]. rewrite IH. clear IH. rewrite filter_map. cbn [jobKey crossJob fst snd].
  destruct (p1 (pidx c)); cbn [flat_map]; [reflexivity|].
  rewrite filter_none; auto.
Qed.
