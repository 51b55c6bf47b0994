(** Facts about patch processing. *)
From Coq Require Import Reals Lra Lia List ZArith Bool Permutation Psatz.
From Verif Require Import Base Geometry Tree Traverse Run Corr Patch Spec SpecRun GeomFacts SumFacts TreeFacts
  BinFacts TravFacts Exact MetricFacts Cover Lift Runs Examples Account PropsCount PropsRun PropsCorr.
Import ListNotations.
Open Scope R_scope.

(** ** += on one bin *)
Lemma kadd_get B s t f k : consistent (kacc t) -> In k (bins B) ->
  aget f (kacc (kadd B s t)) k = aget f (kacc s) k + aget f (kacc t) k.
Proof.
  intros Ht Hk. destruct (C20_iadd_adds B s t Ht) as [A _].
  destruct (A k Hk) as [A1 [A2 [A3 [A4 [A5 A6]]]]]. destruct f; simpl in *; auto.
Qed.
Lemma kclear_get f k : aget f (kacc kclear) k = 0.
Proof. destruct f; reflexivity. Qed.

(** ** Values of jobs *)
Definition jobVal (P : cparams) (f : afield) (k : Z) (J : job) : R :=
  match J with
  | JAuto _ c => sumR (specM P f k) (upairs c)
  | JCross _ _ c1 _ (Some (c2, _)) _ => sumR (specM P f k) (pairs c1 c2)
  | JCross _ _ _ _ None _ => 0
  end.
Definition jobExact (C : pcfg) (f : afield) (k : Z) (J : job) : Prop :=
  match J with
  | JAuto _ c => forall t, runAuto (pR C) c cleared t -> aget f t k = jobVal (rP (pR C)) f k J
  | JCross _ _ c1 _ (Some (c2, _)) _ =>
      (patchTrivZero (pR C) c1 c2 = true -> jobVal (rP (pR C)) f k J = 0) /\
      (forall t, runCross (pR C) c1 c2 cleared t -> aget f t k = jobVal (rP (pR C)) f k J)
  | JCross _ _ _ _ None _ => True
  end.
Definition okB (B : bparams) : Prop := 0 <= minsep B /\ 0 <= slop_b B /\ 0 <= slop_a B.
Lemma validB_okB B : validB B -> okB B.
Proof. intro H. split; [apply minsep_nonneg; auto|split; [apply (vb_b _ H)|apply (vb_a _ H)]]. Qed.

Definition tempOf (C : pcfg) (J : job) (temp : corr) : Prop :=
  match J with
  | JAuto _ c => tempAuto C c temp
  | JCross _ _ c1 sw1 c2 _ => tempCross C c1 sw1 c2 temp
  end.
Lemma temp_consistent C J temp : okB (pB C) -> tempOf C J temp -> consistent (kacc temp).
Proof.
  intros [H1 [H2 H3]] H. destruct J as [i c|i j c1 sw1 [[c2 sw2]|] fo]; simpl in H.
  - destruct H as [t [Ht ->]]. eapply C20_runs_consistent; eauto using cleared_consistent.
  - unfold tempCross in H. destruct patchTrivZero; [subst; apply cleared_consistent|].
    destruct H as [t [Ht ->]]. eapply C20_runs_consistent; eauto using cleared_consistent.
  - unfold tempCross in H. subst. apply cleared_consistent.
  Unshelve. all: exact [].
Qed.
Lemma temp_val C f k J temp : jobExact C f k J -> tempOf C J temp ->
  aget f (kacc temp) k = jobVal (rP (pR C)) f k J.
Proof.
  intros HE H. destruct J as [i c|i j c1 sw1 [[c2 sw2]|] fo]; simpl in H, HE.
  - destruct H as [t [Ht ->]]. auto.
  - unfold tempCross in H. destruct patchTrivZero eqn:E.
    + subst. rewrite kclear_get. symmetry. apply HE; auto.
    + destruct H as [t [Ht ->]]. apply HE; auto.
  - unfold tempCross in H. subst. apply kclear_get.
Qed.
Lemma step_temp C st J st' : jobStep C st J st' -> exists temp, tempOf C J temp /\
  st' = match J with
        | JAuto i _ => addAuto C (i, i) temp st
        | JCross i j _ sw1 c2 fo => addCross C (i, j) sw1 c2 fo temp st
        end.
Proof. destruct J; simpl; intro H; exact H. Qed.

Lemma step_get C f k st J st' : okB (pB C) -> In k (bins (pB C)) -> jobExact C f k J -> jobStep C st J st' ->
  aget f (kacc (sself st')) k = aget f (kacc (sself st)) k + jobVal (rP (pR C)) f k J.
Proof.
  intros HB Hk HE H. apply step_temp in H as [temp [HT ->]].
  pose proof (temp_consistent C J temp HB HT) as HC. pose proof (temp_val C f k J temp HE HT) as HV.
  destruct J as [i c|i j c1 sw1 c2 fo].
  - unfold addAuto; simpl sself. rewrite kadd_get, HV; auto.
  - unfold addCross. destruct (anyPairs (pB C) (kacc temp)) eqn:EP; [|destruct fo]; cbn [orb].
    + cbn [sself]. rewrite kadd_get, HV; auto.
    + cbn [sself]. rewrite kadd_get, HV; auto.
    + assert (Hz : aget f (kacc temp) k = 0).
      { pose proof (nonzero_false _ _ EP k Hk) as Hn. destruct (HC k) as [_ HC2].
        destruct (HC2 Hn) as [? [? [? [? ?]]]]. destruct f; auto. }
      rewrite <- HV, Hz. destruct c2 as [[c2 sw2]|]; [destruct (pNN C)|]; simpl; lra.
Qed.
Lemma jobs_get C f k st Js st' : okB (pB C) -> In k (bins (pB C)) ->
  (forall J, In J Js -> jobExact C f k J) -> runJobs C st Js st' ->
  aget f (kacc (sself st')) k = aget f (kacc (sself st)) k + sumR (jobVal (rP (pR C)) f k) Js.
Proof.
  intros HB Hk HE H. induction H as [st|st J st1 Js st2 HS HR IH]; simpl; [lra|].
  rewrite IH by (intros; apply HE; right; auto).
  rewrite (step_get C f k st J st1); auto; [lra|apply HE; left; auto].
Qed.
Lemma step_consistent C st J st' : okB (pB C) -> consistent (kacc (sself st)) -> jobStep C st J st' ->
  consistent (kacc (sself st')).
Proof.
  intros HB HS H. apply step_temp in H as [temp [HT ->]].
  pose proof (temp_consistent C J temp HB HT) as HC.
  destruct J as [i c|i j c1 sw1 c2 fo]; [apply kadd_consistent; auto|].
  unfold addCross. destruct (_ || _); [apply kadd_consistent; auto|].
  destruct c2 as [[? ?]|]; [destruct (pNN C)|]; auto.
Qed.
Lemma jobs_consistent C st Js st' : okB (pB C) -> consistent (kacc (sself st)) -> runJobs C st Js st' ->
  consistent (kacc (sself st')).
Proof. intros HB HS H. induction H; auto. apply IHrunJobs. eapply step_consistent; eauto. Qed.

(** ** tot *)
Definition jobTot (C : pcfg) (J : job) : R :=
  match J with
  | JAuto _ c => 1/2 * (sumw c * sumw c)
  | JCross _ _ c1 sw1 (Some (c2, sw2)) fo => if patchTrivZero (pR C) c1 c2 && fo then 0 else sw1 * sw2
  | JCross _ _ _ _ None _ => 0
  end.
Lemma anyPairs_cleared B : anyPairs B cleared = false.
Proof.
  unfold anyPairs. induction (bins B) as [|a l IH]; auto. cbn [existsb]. rewrite IH.
  cbn [a_npairs cleared]. unfold aconst, Reqb. destruct (Req_EM_T 0 0) as [_|E]; [reflexivity|].
  exfalso; apply E; reflexivity.
Qed.
Lemma step_tot C st J st' : pNN C = true -> jobStep C st J st' ->
  ktot (sself st') = ktot (sself st) + jobTot C J.
Proof.
  intros HN H. apply step_temp in H as [temp [HT ->]].
  destruct J as [i c|i j c1 sw1 [[c2 sw2]|] fo]; simpl in HT.
  - destruct HT as [t [_ ->]]. simpl. rewrite HN. lra.
  - unfold tempCross in HT. unfold addCross, jobTot. destruct patchTrivZero.
    + subst temp. cbn [kacc kclear]. rewrite anyPairs_cleared. cbn [orb andb]. destruct fo; [simpl; lra|].
      rewrite HN. simpl; lra.
    + destruct HT as [t [_ ->]]. rewrite HN. destruct (_ || _); simpl; lra.
  - unfold tempCross in HT. subst temp. unfold addCross. cbn [kacc kclear]. rewrite anyPairs_cleared. simpl.
    destruct fo; simpl; lra.
Qed.
Lemma jobs_tot C st Js st' : pNN C = true -> runJobs C st Js st' ->
  ktot (sself st') = ktot (sself st) + sumR (jobTot C) Js.
Proof.
  intros HN H. induction H as [st|st J st1 Js st2 HS HR IH]; simpl; [lra|].
  rewrite IH, (step_tot C st J st1); auto. lra.
Qed.

(** ** Existence of runs *)
Definition jobOK (J : job) : Prop :=
  match J with
  | JAuto _ c => c <> []
  | JCross _ _ c1 _ (Some (c2, _)) _ => c1 <> [] /\ c2 <> []
  | _ => True
  end.
Lemma jobs_exist C st Js : validB (pB C) -> Forall jobOK Js -> exists st', runJobs C st Js st'.
Proof.
  intros HB HF. revert st. induction HF as [|J Js HJ HF IH]; intro st.
  - exists st. constructor.
  - assert (HT : exists temp, tempOf C J temp).
    { destruct J as [i c|i j c1 sw1 [[c2 sw2]|] fo]; simpl in *.
      - destruct (runAuto_exists (pR C) c cleared HB HJ) as [t Ht].
        eexists; exists t; split; [exact Ht|reflexivity].
      - unfold tempCross. destruct patchTrivZero; [eexists; reflexivity|].
        destruct HJ as [H1 H2]. destruct (runCross_exists (pR C) c1 c2 cleared HB H1 H2) as [t Ht].
        eexists; exists t; split; [exact Ht|reflexivity].
      - eexists; reflexivity. }
    destruct HT as [temp HT].
    set (st1 := match J with
        | JAuto i _ => addAuto C (i, i) temp st
        | JCross i j _ sw1 c2 fo => addCross C (i, j) sw1 c2 fo temp st end).
    destruct (IH st1) as [st2 H2]. exists st2. econstructor; [|exact H2].
    unfold st1. destruct J; simpl in *; exists temp; auto.
Qed.

(** ** Sums over the loops *)
Definition allRows (cats : list patch) : list obj := concat (map pobjs cats).
Lemma sumR_flat_map {A B} (f : B -> R) (g : A -> list B) l :
  sumR f (flat_map g l) = sumR (fun a => sumR f (g a)) l.
Proof. induction l; simpl; auto. rewrite sumR_app, IHl; auto. Qed.
Lemma sumR_filter {A} (f : A -> R) (p : A -> bool) l :
  sumR f (filter p l) = sumR (fun a => if p a then f a else 0) l.
Proof. induction l; simpl; auto. destruct (p a); simpl; rewrite IHl; lra. Qed.
Lemma sumR_rev {A} (f : A -> R) l : sumR f (rev l) = sumR f l.
Proof. apply sumR_perm. symmetry. apply Permutation_rev. Qed.

(** each unordered pair of different patches once *)
Lemma ordered_pairs (g : patch -> patch -> R) cats : (forall a b, g a b = g b a) ->
  NoDup (map pidx cats) ->
  sumR (fun a => sumR (fun b => if (pidx a <? pidx b)%Z then g a b else 0) cats) cats =
  sumR (fun ab => g (fst ab) (snd ab)) (upairs cats).
Proof.
  intros Hg HN. induction cats as [|x l IH]; simpl; auto.
  inversion HN; subst. rewrite Z.ltb_irrefl.
  rewrite sumR_app, <- (IH H2), sumR_map. cbn [fst snd].
  rewrite sumR_plus. 
  assert (HX : sumR (fun b => if (pidx x <? pidx b)%Z then g x b else 0) l +
               sumR (fun a => if (pidx a <? pidx x)%Z then g a x else 0) l = sumR (g x) l).
  { rewrite <- sumR_plus. apply sumR_ext. intros b Hb.
    assert (pidx b <> pidx x) by (intro E; apply H1; rewrite <- E; apply in_map; auto).
    destruct (Z.ltb_spec (pidx x) (pidx b)), (Z.ltb_spec (pidx b) (pidx x)); try lia; try lra.
    rewrite (Hg b x). lra. }
  change (sumR (fun x0 => g x x0) l) with (sumR (g x) l). rewrite <- HX. lra.
Qed.
Lemma upairs_concat {A} (f : A * A -> R) (ll : list (list A)) :
  sumR f (upairs (concat ll)) =
  sumR (fun l => sumR f (upairs l)) ll + sumR (fun ab => sumR f (pairs (fst ab) (snd ab))) (upairs ll).
Proof.
  induction ll as [|l ll IH]; simpl; [lra|].
  rewrite (sumR_perm f _ _ (upairs_app l (concat ll))).
  rewrite !sumR_app, IH, sumR_map. cbn [fst snd].
  assert (HX : sumR f (pairs l (concat ll)) = sumR (fun x => sumR f (pairs l x)) ll).
  { clear IH. induction ll; simpl; [rewrite pairs_nil_r; reflexivity|].
    rewrite sumR_pairs_app_r, IHll; auto. }
  rewrite HX. lra.
Qed.
Lemma pairs_concat {A B} (f : A * B -> R) (l1 : list (list A)) (l2 : list (list B)) :
  sumR f (pairs (concat l1) (concat l2)) = sumR (fun a => sumR (fun b => sumR f (pairs a b)) l2) l1.
Proof.
  induction l1 as [|l l1 IH]; simpl; [reflexivity|].
  rewrite sumR_pairs_app_l, IH. f_equal.
  clear IH. induction l2; simpl; [rewrite pairs_nil_r; reflexivity|].
  rewrite sumR_pairs_app_r, IHl2; auto.
Qed.
Lemma upairs_map {A B} (g : A -> B) l : upairs (map g l) = map (fun ab => (g (fst ab), g (snd ab))) (upairs l).
Proof.
  induction l; simpl; auto. rewrite map_app, IHl, !map_map. reflexivity.
Qed.
Lemma pairs_swap_sum {A} (f : A * A -> R) (l m : list A) : (forall x y, f (x, y) = f (y, x)) ->
  sumR f (pairs l m) = sumR f (pairs m l).
Proof.
  intro H. rewrite !sumR_pairs. rewrite (sumR_swap (fun x y => f (x, y)) l m).
  apply sumR_ext. intros y _. apply sumR_ext. intros; apply H.
Qed.
Lemma autoJobs_sum P f k cats : (forall x y, specM P f k (x, y) = specM P f k (y, x)) ->
  NoDup (map pidx cats) ->
  sumR (jobVal P f k) (autoJobs cats) = sumR (specM P f k) (upairs (allRows cats)).
Proof.
  intros HS HN. unfold autoJobs, allRows. rewrite sumR_flat_map, upairs_concat, sumR_map, upairs_map, sumR_map.
  cbn [fst snd].
  rewrite <- (ordered_pairs (fun a b => sumR (specM P f k) (pairs (pobjs a) (pobjs b)))); auto.
  2: { intros; apply pairs_swap_sum; auto. }
  rewrite <- sumR_plus. apply sumR_ext. intros a _. cbn [sumR jobVal]. f_equal.
  rewrite sumR_map, sumR_filter, sumR_rev. reflexivity.
Qed.
Lemma crossJobs_sum P f k n1 n2 cats1 cats2 :
  sumR (jobVal P f k) (crossJobs n1 n2 cats1 cats2) =
  sumR (specM P f k) (pairs (allRows cats1) (allRows cats2)).
Proof.
  unfold crossJobs, allRows. rewrite sumR_flat_map, pairs_concat, sumR_map.
  apply sumR_ext. intros a _. rewrite !sumR_map. apply sumR_ext. intros b _. reflexivity.
Qed.
Lemma in_autoJobs cats J : In J (autoJobs cats) ->
  (exists a, In a cats /\ J = JAuto (pidx a) (pobjs a)) \/
  (exists a b, In a cats /\ In b cats /\ (pidx a < pidx b)%Z /\ J = crossJob false a b).
Proof.
  unfold autoJobs. rewrite in_flat_map. intros [a [Ha [<-|H]]]; [left; eauto|right].
  apply in_map_iff in H as [b [<- Hb]]. apply filter_In in Hb as [Hb HL].
  apply in_rev in Hb. apply Z.ltb_lt in HL. eauto 8.
Qed.
Lemma in_crossJobs n1 n2 cats1 cats2 J : In J (crossJobs n1 n2 cats1 cats2) ->
  exists a b, In a cats1 /\ In b cats2 /\ J = crossJob (forced n1 n2 a b) a b.
Proof.
  unfold crossJobs. rewrite in_flat_map. intros [a [Ha H]]. apply in_map_iff in H as [b [<- Hb]]. eauto 8.
Qed.
Lemma in_allRows cats a o : In a cats -> In o (pobjs a) -> In o (allRows cats).
Proof. intros. unfold allRows. apply in_concat. exists (pobjs a). split; auto. apply in_map; auto. Qed.
Lemma upairs_allRows cats a o1 o2 : In a cats -> In (o1, o2) (upairs (pobjs a)) -> In (o1, o2) (upairs (allRows cats)).
Proof.
  intros Ha Ho. unfold allRows. induction cats as [|b l IH]; [contradiction|]. simpl map. simpl concat.
  apply (Permutation_in _ (Permutation_sym (upairs_app (pobjs b) (concat (map pobjs l))))).
  rewrite !in_app_iff. destruct Ha as [->|Ha]; auto.
Qed.

(** ** Trivially zero *)
Lemma maxDist_nonneg c l : 0 <= maxDist c l.
Proof. apply sqrt_pos. Qed.
Lemma trivZero_lip R D1 D2 l1 l2 o1 o2 : validB (cbin (rP R)) -> lipM (cmetric (rP R)) D1 D2 ->
  rcoord R <> Sphere -> D1 (meanPos l1) -> D2 (meanPos l2) ->
  patchTrivZero R l1 l2 = true -> In o1 l1 -> In o2 l2 ->
  maxsep (cbin (rP R)) <= mdist (cmetric (rP R)) (opos o1) (opos o2).
Proof.
  intros HB HL HS H1 H2 H I1 I2. unfold patchTrivZero in H.
  assert (HC : forall l, patchCen R l = meanPos l).
  { intro l. unfold patchCen, normalize. destruct (rcoord R); auto. congruence. }
  rewrite !HC in H. unfold triviallyZero in H.
  destruct (HL (meanPos l1) (meanPos l2) (opos o1) (opos o2) (maxDist (meanPos l1) l1) (maxDist (meanPos l2) l2))
    as [e1 [e2 [HE HA]]]; auto.
  { apply size_bound; auto. } { apply size_bound; auto. }
  rewrite HE in H. apply andb_true_iff in H as [H _].
  destruct (effSize_facts _ _ _ (Fin (maxDist (meanPos l1) l1)) (Fin (maxDist (meanPos l2) l2)) _ _
    (maxDist_nonneg _ _) (maxDist_nonneg _ _) HE) as [E1 [E2 _]].
  simpl in E1, E2. simpl eadd in H.
  apply tooLarge_sound in H; auto; [|apply distSq_nonneg|lra].
  apply Rabs_bounds in HA. unfold mdist in *. lra.
Qed.

(** ** MPI *)
Lemma frac_mono n size a b : (0 <= n)%Z -> (0 < size)%Z -> (a <= b)%Z -> (n * a / size <= n * b / size)%Z.
Proof. intros. apply Z.div_le_mono; nia. Qed.
Lemma inMine_exists n size i : (0 < size)%Z -> (0 <= i < n)%Z ->
  exists r, (0 <= r < size)%Z /\ inMine n size r i = true.
Proof.
  intros Hs Hi.
  assert (H : forall m, (i < n * Z.of_nat m / size)%Z ->
    exists r, (0 <= r < Z.of_nat m)%Z /\ inMine n size r i = true).
  { induction m as [|m IH]; intro H.
    - rewrite Nat2Z.inj_0, Z.mul_0_r, Z.div_0_l in H; lia.
    - destruct (Z_lt_dec i (n * Z.of_nat m / size)) as [L|L].
      + destruct (IH L) as [r [Hr Hm]]. exists r. split; [lia|auto].
      + exists (Z.of_nat m). split; [lia|]. unfold inMine.
        apply andb_true_iff. split; [apply Z.leb_le; lia|apply Z.ltb_lt].
        replace (Z.of_nat m + 1)%Z with (Z.of_nat (S m)) by lia. auto. }
  destruct (H (Z.to_nat size)) as [r [Hr Hm]].
  - rewrite Z2Nat.id by lia. rewrite Z.div_mul by lia. lia.
  - exists r. split; [lia|auto].
Qed.
Lemma inMine_unique n size i r r' : (0 < size)%Z -> (0 <= n)%Z -> inMine n size r i = true -> inMine n size r' i = true -> r = r'.
Proof.
  intros Hs Hn. unfold inMine. rewrite !andb_true_iff, !Z.leb_le, !Z.ltb_lt. intros [A1 A2] [B1 B2].
  destruct (Z.lt_trichotomy r r') as [L|[L|L]]; auto; exfalso.
  - pose proof (frac_mono n size (r + 1) r' Hn Hs). lia.
  - pose proof (frac_mono n size (r' + 1) r Hn Hs). lia.
Qed.
Lemma myJobAuto_unique n size i j : (0 < size)%Z -> (0 <= i < n)%Z -> (0 <= j < n)%Z ->
  exists r, (0 <= r < size)%Z /\ myJobAuto n size r (i, j) = true /\
    forall r', myJobAuto n size r' (i, j) = true -> r' = r.
Proof.
  intros Hs Hi Hj.
  destruct (inMine_exists n size i Hs Hi) as [ri [Ri Mi]].
  destruct (inMine_exists n size j Hs Hj) as [rj [Rj Mj]].
  assert (Ui : forall r, inMine n size r i = true -> r = ri) by (intros; apply (inMine_unique n size i); auto; lia).
  assert (Uj : forall r, inMine n size r j = true -> r = rj) by (intros; apply (inMine_unique n size j); auto; lia).
  unfold myJobAuto. destruct (Z.eq_dec ri rj) as [E|E].
  - subst rj. exists ri. split; auto. rewrite Mi, Mj. split; auto.
    intros r'. destruct (inMine n size r' i) eqn:A; [intros _; auto|].
    destruct (inMine n size r' j) eqn:B; [intros _; auto|]. simpl. discriminate.
  - assert (Ni : inMine n size rj i = false).
    { destruct (inMine n size rj i) eqn:A; auto. exfalso. apply E. symmetry. auto. }
    assert (Nj : inMine n size ri j = false).
    { destruct (inMine n size ri j) eqn:A; auto. exfalso. apply E. auto. }
    destruct (j - i <? n / 2)%Z.
    + pose proof (Z.mod_pos_bound i 2).
      destruct (Z.eqb_spec (i mod 2) 0) as [P|P].
      * exists ri. split; auto. rewrite Mi, Nj. simpl. split; [rewrite P; reflexivity|].
        intros r'. destruct (inMine n size r' i) eqn:A; [intros _; auto|].
        destruct (inMine n size r' j) eqn:B; simpl; [|discriminate]. rewrite P. discriminate.
      * exists rj. split; auto. rewrite Ni, Mj. simpl. split; [apply Z.eqb_eq; lia|].
        intros r'. destruct (inMine n size r' i) eqn:A.
        -- destruct (inMine n size r' j) eqn:B; [intros _; auto|]. simpl.
           intro Hx. apply Z.eqb_eq in Hx. lia.
        -- destruct (inMine n size r' j) eqn:B; [intros _; auto|]. simpl. discriminate.
    + pose proof (Z.mod_pos_bound j 2).
      destruct (Z.eqb_spec (j mod 2) 0) as [P|P].
      * exists rj. split; auto. rewrite Ni, Mj. simpl. split; [rewrite P; reflexivity|].
        intros r'. destruct (inMine n size r' j) eqn:B; [intros _; auto|].
        destruct (inMine n size r' i) eqn:A; simpl; [|discriminate]. rewrite P. discriminate.
      * exists ri. split; auto. rewrite Mi, Nj. simpl. split; [apply Z.eqb_eq; lia|].
        intros r'. destruct (inMine n size r' j) eqn:B.
        -- destruct (inMine n size r' i) eqn:A; [intros _; auto|]. simpl.
           intro Hx. apply Z.eqb_eq in Hx. lia.
        -- destruct (inMine n size r' i) eqn:A; [intros _; auto|]. simpl. discriminate.
Qed.
Lemma myJobCross_unique n1 n2 size i j : (0 < size)%Z -> (0 <= i < n1)%Z -> (0 <= j < n2)%Z ->
  exists r, (0 <= r < size)%Z /\ myJobCross n1 n2 size r (i, j) = true /\
    forall r', myJobCross n1 n2 size r' (i, j) = true -> r' = r.
Proof.
  intros Hs Hi Hj. unfold myJobCross.
  set (k := if (n2 <? n1)%Z then i else j).
  assert (Hk : (0 <= k < Z.max n1 n2)%Z).
  { unfold k. destruct (Z.ltb_spec n2 n1); lia. }
  destruct (inMine_exists _ size k Hs Hk) as [r [Hr Hm]]. exists r. split; auto. split; auto.
  intros r' H'. apply (inMine_unique (Z.max n1 n2) size k); auto. lia.
Qed.
Lemma in_ranks size r : In r (ranks size) <-> (0 <= r < size)%Z.
Proof.
  unfold ranks. rewrite in_map_iff. split.
  - intros [n [<- Hn]]. apply in_seq in Hn. lia.
  - intro H. exists (Z.to_nat r). split; [lia|]. apply in_seq. lia.
Qed.
Lemma NoDup_ranks size : NoDup (ranks size).
Proof. unfold ranks. apply FinFun.Injective_map_NoDup; [intros a b; lia|apply seq_NoDup]. Qed.
Definition assignsOnce (mine : Z -> key -> bool) (size : Z) (Js : list job) : Prop :=
  forall J, In J Js -> exists r, (0 <= r < size)%Z /\ mine r (jobKey J) = true /\
    forall r', (0 <= r' < size)%Z -> mine r' (jobKey J) = true -> r' = r.
Lemma sumR_single {A} (l : list A) (p : A -> bool) (x : R) a : NoDup l -> In a l -> p a = true ->
  (forall b, In b l -> p b = true -> b = a) -> sumR (fun b => if p b then x else 0) l = x.
Proof.
  intros HN Hin Hp HU. induction HN as [|b l Hb HN IH]; [contradiction|]. simpl.
  destruct Hin as [->|Hin].
  - rewrite Hp. rewrite sumR_0; [lra|]. intros c Hc. destruct (p c) eqn:E; auto.
    exfalso. apply Hb. rewrite <- (HU c); auto. right; auto.
  - destruct (p b) eqn:E.
    + exfalso. apply Hb. rewrite (HU b); auto. left; auto.
    + rewrite IH; auto; [lra|]. intros c Hc. apply HU. right; auto.
Qed.
Lemma ranks_sum (v : job -> R) mine size Js : assignsOnce mine size Js ->
  sumR (fun r => sumR v (filter (fun J => mine r (jobKey J)) Js)) (ranks size) = sumR v Js.
Proof.
  intro HA. induction Js as [|J Js IH]; simpl.
  - apply sumR_0. auto.
  - rewrite <- IH by (intros J' HJ'; apply HA; right; auto).
    destruct (HA J (or_introl eq_refl)) as [r [Hr [Hm HU]]].
    rewrite <- (sumR_single (ranks size) (fun r0 => mine r0 (jobKey J)) (v J) r); auto.
    + rewrite <- sumR_plus. apply sumR_ext. intros r0 _. destruct (mine r0 (jobKey J)); simpl; lra.
    + apply NoDup_ranks. + apply in_ranks; auto.
    + intros b Hb. apply in_ranks in Hb. auto.
Qed.
Lemma collect_get C f k st0 others : In k (bins (pB C)) -> Forall (fun s => consistent (kacc (sself s))) others ->
  aget f (kacc (sself (mpiCollect C st0 others))) k =
  aget f (kacc (sself st0)) k + sumR (fun s => aget f (kacc (sself s)) k) others.
Proof.
  intros Hk HF. revert st0. induction HF as [|s l Hs HF IH]; intro st0; simpl; [lra|].
  unfold mpiCollect in *. rewrite IH. cbn [sself]. rewrite kadd_get by auto. lra.
Qed.
Lemma collect_tot C st0 others :
  ktot (sself (mpiCollect C st0 others)) = ktot (sself st0) + sumR (fun s => ktot (sself s)) others.
Proof.
  revert st0. induction others as [|s l IH]; intro st0; simpl; [lra|].
  unfold mpiCollect in *. rewrite IH. cbn [sself]. simpl. lra.
Qed.
Lemma ranks_cons size : (0 < size)%Z -> ranks size = 0%Z :: tl (ranks size).
Proof. intro H. unfold ranks. destruct (Z.to_nat size) eqn:E; [lia|]. reflexivity. Qed.
Lemma mpi_get C f k mine size Js init final : okB (pB C) -> In k (bins (pB C)) -> (0 < size)%Z ->
  assignsOnce mine size Js ->
  (forall r, (0 < r < size)%Z -> init r = sclear) ->
  (forall J, In J Js -> jobExact C f k J) ->
  mpiRun C mine size Js init final ->
  aget f (kacc (sself final)) k = aget f (kacc (sself (init 0%Z))) k + sumR (jobVal (rP (pR C)) f k) Js.
Proof.
  intros HB Hk Hs HA HI HE [st [HR ->]].
  assert (HT : forall r, In r (tl (ranks size)) -> (0 < r < size)%Z).
  { intros r Hr. pose proof (NoDup_ranks size) as HN. rewrite ranks_cons in HN by auto.
    assert (In r (ranks size)) by (rewrite ranks_cons by auto; right; auto).
    apply in_ranks in H. inversion HN; subst. assert (r <> 0%Z) by (intro; subst; auto). lia. }
  assert (HV : forall r, In r (ranks size) -> aget f (kacc (sself (st r))) k =
     aget f (kacc (sself (init r))) k + sumR (jobVal (rP (pR C)) f k) (filter (fun J => mine r (jobKey J)) Js)).
  { intros r Hr. apply jobs_get; auto. intros J HJ. apply filter_In in HJ. apply HE; tauto. }
  rewrite collect_get; auto.
  - rewrite HV by (rewrite ranks_cons by auto; left; auto).
    rewrite sumR_map.
    rewrite (sumR_ext _ (fun r => sumR (jobVal (rP (pR C)) f k) (filter (fun J => mine r (jobKey J)) Js)) (tl (ranks size))).
    + rewrite <- (ranks_sum (jobVal (rP (pR C)) f k) mine size Js HA).
      rewrite (ranks_cons size) at 2 by auto. simpl. lra.
    + intros r Hr. rewrite HV by (rewrite ranks_cons by auto; right; auto).
      rewrite HI by auto. simpl sself. rewrite kclear_get. lra.
  - apply Forall_forall. intros s Hin. apply in_map_iff in Hin as [r [<- Hr]].
    eapply jobs_consistent; [exact HB| |apply HR; rewrite ranks_cons by auto; right; auto].
    rewrite HI by auto. apply cleared_consistent.
Qed.
Lemma mpi_tot C mine size Js init final : pNN C = true -> (0 < size)%Z ->
  assignsOnce mine size Js ->
  (forall r, (0 < r < size)%Z -> init r = sclear) ->
  mpiRun C mine size Js init final ->
  ktot (sself final) = ktot (sself (init 0%Z)) + sumR (jobTot C) Js.
Proof.
  intros HN Hs HA HI [st [HR ->]].
  assert (HT : forall r, In r (tl (ranks size)) -> (0 < r < size)%Z).
  { intros r Hr. pose proof (NoDup_ranks size) as HN'. rewrite ranks_cons in HN' by auto.
    assert (In r (ranks size)) by (rewrite ranks_cons by auto; right; auto).
    apply in_ranks in H. inversion HN'; subst. assert (r <> 0%Z) by (intro; subst; auto). lia. }
  assert (HV : forall r, In r (ranks size) -> ktot (sself (st r)) =
     ktot (sself (init r)) + sumR (jobTot C) (filter (fun J => mine r (jobKey J)) Js)).
  { intros r Hr. apply jobs_tot; auto. }
  rewrite collect_tot. rewrite HV by (rewrite ranks_cons by auto; left; auto).
  rewrite sumR_map.
  rewrite (sumR_ext _ (fun r => sumR (jobTot C) (filter (fun J => mine r (jobKey J)) Js)) (tl (ranks size))).
  - rewrite <- (ranks_sum (jobTot C) mine size Js HA).
    rewrite (ranks_cons size) at 2 by auto. simpl. lra.
  - intros r Hr. rewrite HV by (rewrite ranks_cons by auto; right; auto).
    rewrite HI by auto. simpl. lra.
Qed.
