(** C93: copies of correlation objects. *)
From Coq Require Import Reals Lra Lia List ZArith Bool Permutation Arith.
From Verif Require Import Base Geometry Tree Traverse Run Corr Patch Cov Spec SpecRun GeomFacts SumFacts TreeFacts
  BinFacts TravFacts Exact MetricFacts Cover Lift Runs Examples Account PropsCount PropsRun PropsCorr PatchFacts PropsPatch
  CovFacts PropsCov PropsCov2 PropsAccum Copy.
Import ListNotations.
Open Scope R_scope.

(** ** Specification *)
(** Every results reference is a dict of the program. *)
Definition wfh (s : hstate) : Prop := forall o, In o (h_objs s) -> (h_addr o < length (h_dicts s))%nat.
(** The object an operation changes. *)
Definition changes (op : hop) (i : nat) : Prop :=
  match op with OCopy _ => False | OClear j | OAdd j _ | OProcess j _ _ => j = i end.
(** Operations that leave object [i] alone, where process(initialize=False) is only used for objects which
    do not share their results with [i]: F j says that object j does not, n is the number of objects.  A copy
    shares if its source does; clear() and process(initialize=True) end it. *)
Fixpoint quiet (i n : nat) (F : nat -> bool) (ops : list hop) : Prop :=
  match ops with
  | [] => True
  | OCopy j :: t => quiet i (S n) (fun k => if Nat.eqb k n then F j else F k) t
  | OClear j :: t => j <> i /\ quiet i n (fun k => Nat.eqb k j || F k) t
  | OAdd j _ :: t => j <> i /\ quiet i n F t
  | OProcess j true _ :: t => j <> i /\ quiet i n (fun k => Nat.eqb k j || F k) t
  | OProcess j false _ :: t => j <> i /\ F j = true /\ quiet i n F t
  end.
Definition apart (s : hstate) (i : nat) (F : nat -> bool) : Prop :=
  forall j oj oi, F j = true -> nth_error (h_objs s) j = Some oj -> nth_error (h_objs s) i = Some oi -> h_addr oj <> h_addr oi.

Lemma setNth_length {A} (x : A) : forall l i, length (setNth i x l) = length l.
Proof. induction l; destruct i; simpl; auto. Qed.
Lemma setNth_same {A} (x : A) : forall l i, (i < length l)%nat -> nth_error (setNth i x l) i = Some x.
Proof. induction l; destruct i; simpl; intros; try lia; auto. apply IHl. lia. Qed.
Lemma setNth_other {A} (x : A) : forall l i j, i <> j -> nth_error (setNth i x l) j = nth_error l j.
Proof. induction l; destruct i, j; simpl; intros; auto; try congruence. Qed.
Lemma setNth_nth {A} (x d : A) : forall l i j, i <> j -> nth j (setNth i x l) d = nth j l d.
Proof. induction l; destruct i, j; simpl; intros; auto; try congruence. Qed.
Lemma nth_setNth {A} (x d : A) : forall l i, (i < length l)%nat -> nth i (setNth i x l) d = x.
Proof. induction l; destruct i; simpl; intros; try lia; auto. apply IHl. lia. Qed.
Lemma runJobs_app C st Js st1 Js2 st2 : runJobs C st Js st1 -> runJobs C st1 Js2 st2 -> runJobs C st (Js ++ Js2) st2.
Proof. intros H. induction H; auto. intro H2. simpl. econstructor; eauto. Qed.
Lemma setNth_in {A} (x : A) : forall l i y, In y (setNth i x l) -> y = x \/ In y l.
Proof.
  induction l as [|z l IH]; destruct i; simpl; intros y H; auto.
  - destruct H as [<-|H]; auto.
  - destruct H as [<-|H]; auto. destruct (IH i y H); auto.
Qed.
Lemma nth_error_lt {A} (l : list A) i x : nth_error l i = Some x -> (i < length l)%nat.
Proof. intro H. apply nth_error_Some. congruence. Qed.

Lemma hstep_wf C s op s' : wfh s -> hstep C s op s' -> wfh s'.
Proof.
  intros HW H. inversion H; subst; intros x Hx; cbn [h_objs h_dicts hnew] in *.
  - apply in_app_or in Hx as [Hx|[<-|[]]]; auto. cbn [h_addr]. apply HW. eapply nth_error_In; eauto.
  - apply setNth_in in Hx as [->|Hx]; cbn [h_addr]; rewrite app_length; simpl; [lia|]. specialize (HW x Hx). lia.
  - apply setNth_in in Hx as [->|Hx]; cbn [h_addr]; auto. apply HW. eapply nth_error_In; eauto.
  - apply setNth_in in Hx as [->|Hx]; cbn [h_addr]; rewrite app_length; simpl; [lia|]. specialize (HW x Hx). lia.
  - rewrite setNth_length. apply setNth_in in Hx as [->|Hx]; cbn [h_addr]; auto. apply HW. eapply nth_error_In; eauto.
Qed.
Lemma hsteps_wf C s ops s' : wfh s -> hsteps C s ops s' -> wfh s'.
Proof. intros HW H. induction H; auto. apply IHhsteps. eapply hstep_wf; eauto. Qed.
Lemma hnew_view c d j s i oi : wfh s -> j <> i -> nth_error (h_objs s) i = Some oi -> view (hnew c d j s) i = view s i.
Proof.
  intros HW N E. unfold view. cbn [h_objs hnew h_dicts]. rewrite setNth_other by auto. rewrite E.
  rewrite app_nth1; auto. apply HW. eapply nth_error_In; eauto.
Qed.
(** ** A copy *)
Theorem C93_copy C s i s' : wfh s -> hstep C s (OCopy i) s' ->
  view s' (length (h_objs s)) = view s i /\ view s i <> None /\ forall j, (j < length (h_objs s))%nat -> view s' j = view s j.
Proof.
  intros HW H. inversion H as [? ? o E|?|?|?|?]; subst. unfold view. cbn [h_objs h_dicts]. rewrite E. split; [|split].
  - rewrite nth_error_app2 by lia. rewrite Nat.sub_diag. reflexivity.
  - discriminate.
  - intros j Hj. rewrite nth_error_app1 by auto. auto.
Qed.
(** The arrays of an object are its own. *)
Theorem C93_arrays C s ops s' i st : wfh s -> view s i = Some st -> (forall op, In op ops -> ~ changes op i) ->
  hsteps C s ops s' -> exists st', view s' i = Some st' /\ sself st' = sself st.
Proof.
  intros HW V HO H. revert st V. induction H as [s|s op s1 ops s2 HS HR IH]; intros st V; eauto.
  assert (X : exists st1, view s1 i = Some st1 /\ sself st1 = sself st).
  { specialize (HO op (or_introl eq_refl)). unfold view in V. destruct (nth_error (h_objs s) i) as [oi|] eqn:E; [|discriminate].
    injection V as <-. unfold view.
    inversion HS; subst; cbn [h_objs h_dicts hnew changes] in *; rewrite ?setNth_other by auto;
      rewrite ?nth_error_app1 by (eapply nth_error_lt; eauto); rewrite E; eexists; split; reflexivity. }
  destruct X as [st1 [V1 E1]]. destruct (IH (hstep_wf C s op s1 HW HS) (fun o Ho => HO o (or_intror Ho)) st1 V1) as [st2 [V2 E2]].
  exists st2. split; auto. congruence.
Qed.
(** Its results too, as long as nothing is accumulated in an object that shares them. *)
Theorem C93_quiet C s ops s' i F : wfh s -> view s i <> None -> apart s i F -> quiet i (length (h_objs s)) F ops ->
  hsteps C s ops s' -> view s' i = view s i.
Proof.
  intros HW V HA HQ H. revert F HA HQ V. induction H as [s|s op s1 ops s2 HS HR IH]; intros F HA HQ V; auto.
  assert (Vi : exists oi, nth_error (h_objs s) i = Some oi).
  { unfold view in V. destruct (nth_error (h_objs s) i); [eauto|contradiction]. }
  destruct Vi as [oi Ei].
  assert (X : view s1 i = view s i /\ exists F1, apart s1 i F1 /\ quiet i (length (h_objs s1)) F1 ops).
  { assert (HN : forall c d j, j <> i -> apart (hnew c d j s) i (fun k => Nat.eqb k j || F k)).
    { intros c d j N k ok oi' Fk Ek Ei'. cbn [hnew h_objs] in *. rewrite setNth_other in Ei' by auto.
      assert (oi' = oi) by congruence. subst oi'. destruct (Nat.eqb_spec k j) as [->|Nk].
      - assert (j < length (h_objs s))%nat by (apply nth_error_lt in Ek; rewrite setNth_length in Ek; auto).
        rewrite setNth_same in Ek by auto. injection Ek as <-. cbn [h_addr].
        assert (h_addr oi < length (h_dicts s))%nat by (apply HW; eapply nth_error_In; eauto). lia.
      - rewrite setNth_other in Ek by auto. simpl in Fk. eapply HA; eauto. }
    inversion HS as [? j o E|? j o E|? j j2 o o2 E E2|? j o jobs st E R|? j o jobs st E R]; subst; cbn [quiet] in HQ.
    - split; [apply (C93_copy C s j); auto; eapply nth_error_lt; eauto|].
      exists (fun k => if Nat.eqb k (length (h_objs s)) then F j else F k). cbn [h_objs]. rewrite app_length. simpl length.
      rewrite Nat.add_1_r. split; auto. intros k ok oi' Fk Ek Ei'. cbn [h_objs] in *.
      rewrite nth_error_app1 in Ei' by (eapply nth_error_lt; eauto).
      destruct (Nat.eqb_spec k (length (h_objs s))) as [->|Nk].
      + rewrite nth_error_app2, Nat.sub_diag in Ek by lia. injection Ek as <-. cbn [h_addr]. eapply HA; eauto.
      + assert (k < length (h_objs s))%nat.
        { apply nth_error_lt in Ek. rewrite app_length in Ek. simpl in Ek. lia. }
        rewrite nth_error_app1 in Ek by auto. eapply HA; eauto.
    - destruct HQ as [N HQ]. split; [eapply hnew_view; eauto|]. eexists. split; [apply HN; auto|]. cbn [hnew h_objs]. rewrite setNth_length. auto.
    - destruct HQ as [N HQ]. split.
      + unfold view. cbn [h_objs h_dicts]. rewrite setNth_other by auto. auto.
      + exists F. cbn [h_objs]. rewrite setNth_length. split; auto. intros k ok oi' Fk Ek Ei'. cbn [h_objs] in *.
        rewrite setNth_other in Ei' by auto. destruct (Nat.eq_dec j k) as [<-|Nk].
        * rewrite setNth_same in Ek by (eapply nth_error_lt; eauto). injection Ek as <-. cbn [h_addr]. eapply HA; eauto.
        * rewrite setNth_other in Ek by auto. eapply HA; eauto.
    - destruct HQ as [N HQ]. split; [eapply hnew_view; eauto|]. eexists. split; [apply HN; auto|]. cbn [hnew h_objs]. rewrite setNth_length. auto.
    - destruct HQ as [N [Fj HQ]]. split.
      + unfold view. cbn [h_objs h_dicts]. rewrite setNth_other by auto. rewrite Ei. rewrite setNth_nth; auto. eapply HA; eauto.
      + exists F. cbn [h_objs]. rewrite setNth_length. split; auto. intros k ok oi' Fk Ek Ei'. cbn [h_objs] in *.
        rewrite setNth_other in Ei' by auto. destruct (Nat.eq_dec j k) as [<-|Nk].
        * rewrite setNth_same in Ek by (eapply nth_error_lt; eauto). injection Ek as <-. cbn [h_addr]. eapply HA; eauto.
        * rewrite setNth_other in Ek by auto. eapply HA; eauto. }
  destruct X as [V1 [F1 [A1 Q1]]]. rewrite (IH (hstep_wf C s op s1 HW HS) F1 A1 Q1); auto. rewrite V1; auto.
Qed.
(** The usual case: a copy which is first processed with initialize=True. *)
Theorem C93_reprocessed C s i jobs ops s' : wfh s -> view s i <> None ->
  (forall op, In op ops -> exists js, op = OProcess (length (h_objs s)) false js) ->
  hsteps C s (OCopy i :: OProcess (length (h_objs s)) true jobs :: ops) s' ->
  view s' i = view s i /\
  exists st st', runJobs C sclear jobs st /\ view s' (length (h_objs s)) = Some st' /\
    runJobs C st (flat_map (fun op => match op with OProcess _ _ js => js | _ => [] end) ops) st'.
Proof.
  intros HW V HO H.
  assert (Li : (i < length (h_objs s))%nat).
  { unfold view in V. destruct (nth_error (h_objs s) i) eqn:E; [eapply nth_error_lt; eauto|contradiction]. }
  split.
  - eapply (C93_quiet C s _ s' i (fun _ => false)); eauto.
    + intros j oj oi F. discriminate.
    + cbn [quiet]. split; [lia|]. clear - HO Li.
      assert (HF : (fun k => Nat.eqb k (length (h_objs s)) || (if Nat.eqb k (length (h_objs s)) then false else false)) (length (h_objs s)) = true)
        by (rewrite Nat.eqb_refl; auto).
      revert HF. generalize (fun k => Nat.eqb k (length (h_objs s)) || (if Nat.eqb k (length (h_objs s)) then false else false)) as F.
      generalize (S (length (h_objs s))) as n. intros n F HF.
      induction ops as [|op ops IH]; cbn [quiet]; auto. destruct (HO op (or_introl eq_refl)) as [js ->].
      split; [lia|]. split; auto. apply IH. intros; apply HO; right; auto.
  - inversion H as [|? ? s1 ? ? H1 H2]; subst. inversion H2 as [|? ? s2 ? ? H3 H4]; subst.
    assert (W1 := hstep_wf C s _ s1 HW H1). assert (W2 := hstep_wf C s1 _ s2 W1 H3).
    inversion H1 as [? ? o E|?|?|?|?]; subst. inversion H3 as [?|?|?|? ? o1 ? st E1 R1|?]; subst.
    set (n := length (h_objs s)) in *.
    exists st. cut (view (hnew (sself st) (sres st) n (mkH (h_objs s ++ [mkHO (h_corr o) (h_addr o)]) (h_dicts s))) n = Some st).
    + intro V2. clear - H4 V2 R1 HO W2. set (s2 := hnew _ _ _ _) in *. clearbody s2 n.
      assert (G : forall ops s2 s' st, (forall op, In op ops -> exists js, op = OProcess n false js) -> wfh s2 -> hsteps C s2 ops s' -> view s2 n = Some st ->
        exists st', view s' n = Some st' /\ runJobs C st (flat_map (fun op => match op with OProcess _ _ js => js | _ => [] end) ops) st').
      { clear. induction ops as [|op ops IH]; intros s2 s' st HO W H V.
        - inversion H; subst. exists st. split; auto. constructor.
        - inversion H as [|? ? s3 ? ? HS HR]; subst. destruct (HO op (or_introl eq_refl)) as [js ->].
          inversion HS as [?|?|?|?|? ? o ? st1 E R]; subst.
          unfold view in V. rewrite E in V. injection V as <-.
          destruct (IH _ s' st1 (fun o' Ho' => HO o' (or_intror Ho')) (hstep_wf C s2 _ _ W HS) HR) as [st' [V' R']].
          { unfold view. cbn [h_objs h_dicts]. rewrite setNth_same by (eapply nth_error_lt; eauto). cbn [h_addr h_corr].
            rewrite nth_setNth by (apply W; eapply nth_error_In; eauto). destruct st1; auto. }
          exists st'. split; auto. cbn [flat_map]. eapply runJobs_app; eauto. }
      destruct (G ops s2 s' st HO W2 H4 V2) as [st' [V' R']]. eauto.
    + unfold view. cbn [hnew h_objs h_dicts]. rewrite setNth_same by (rewrite app_length; unfold n; simpl; lia). cbn [h_addr h_corr].
      rewrite app_nth2, Nat.sub_diag by lia. destruct st; auto.
Qed.

(** ** Accumulating in a copy *)
Lemma auto_more C cats st st' k :
  let R := pR C in let B := cbin (rP R) in
  cmetric (rP R) = Euclidean -> rcoord R <> Sphere -> crpar (rP R) = None -> validB B ->
  slop_b B = 0 -> narrowLog B ->
  offEdges B euclid (allRows cats) (allRows cats) -> offMinSep B euclid (allRows cats) ->
  posW (allRows cats) -> NoDup (map pidx cats) -> (0 <= k < nbins B)%Z ->
  runJobs C st (autoJobs cats) st' ->
  a_weight (kacc (sself st')) k = a_weight (kacc (sself st)) k + sumUPairs (selBin B euclid k) v_ww (allRows cats).
Proof.
  intros R B HM HS Hr HB Hb HN HE HO HW HND Hk H.
  assert (X := jobs_get C FWeight k st (autoJobs cats) st'). cbn [aget] in X. rewrite X; auto; clear X.
  - f_equal. rewrite autoJobs_sum; auto.
    + unfold sumUPairs. apply sumR_ext. intros [o1 o2] _. unfold specM. cbn [fst snd]. fold R.
      rewrite (selM_selBin (rP R) k euclid); auto. rewrite HM. apply mdist_euclidean.
    + intros x y. apply specM_sym; simpl; auto; try discriminate. fold R. rewrite HM. apply symM_euclid.
  - apply validB_okB; auto.
  - apply in_bins; auto.
  - apply autoJobs_exact; auto; fold R; rewrite ?HM.
    + apply lip_euclid.
    + apply subEuclid_euclid.
    + apply symM_euclid.
    + split; auto. split; auto. rewrite HM. eapply offEdges_ext; [|exact HE]. intros; symmetry; apply mdist_euclidean.
    + eapply offMinSep_ext; [|exact HO]. intros; symmetry; apply mdist_euclidean.
    + apply skipOK_lip; auto. rewrite HM. apply lip_euclid.
    + simpl; auto.
    + discriminate.
Qed.
Definition cpCats : list patch := [mkpatch 0 [exObj 0 1 0]; mkpatch 1 [exObj (3/2) 2 1; exObj (9/4) 1 2]].
Definition cpC : pcfg := mkPC (exRun Euclidean exB BruteNo) false.
Lemma cp_more st st' : runJobs cpC st (autoJobs cpCats) st' ->
  a_weight (kacc (sself st')) 0%Z = a_weight (kacc (sself st)) 0%Z + 2.
Proof.
  intro H. rewrite (auto_more cpC cpCats st st' 0%Z); auto; try discriminate.
  - f_equal. simpl. change (allRows cpCats) with exCatA.
    unfold sumUPairs, selBin. simpl. rewrite !euclid_x, !exB_in by lia.
    unfold aconst, v_ww; simpl.
    repeat match goal with |- context [Rabs ?x] =>
      first [ rewrite (Rabs_left x) by lra | rewrite (Rabs_right x) by lra ] end.
    unfold Rleb, Rltb. repeat (destruct Rle_dec; destruct Rlt_dec; try (exfalso; lra); simpl). lra.
  - apply exB_valid.
  - apply exCatA_off.
  - apply exCatA_min.
  - apply exCatA_pos.
  - simpl; repeat constructor; simpl; intuition discriminate.
  - simpl; lia.
Qed.
Lemma cp_exist st : exists st', runJobs cpC st (autoJobs cpCats) st'.
Proof.
  apply jobs_exist; [apply exB_valid|]. apply Forall_forall. intros J HIn.
  simpl in HIn. destruct HIn as [<-|[<-|[<-|[]]]]; simpl; try split; discriminate.
Qed.
(** One object was processed, a copy is made, and more pairs are accumulated in the copy.  The results of
    the first object change, although its arrays do not: they no longer sum to its arrays. *)
Theorem C93_shared_results_refuted : exists C s cats s' st st' k,
  wfh s /\ h_objs s = [mkHO (sself st) 0] /\ view s 0 = Some st /\
  aget FWeight (kacc (sself st)) k = aget FWeight (kacc (sumAll (pB C) (sres st))) k /\
  hsteps C s [OCopy 0; OProcess 1 false (autoJobs cats)] s' /\
  view s' 0 = Some st' /\ sself st' = sself st /\
  aget FWeight (kacc (sself st')) k = 2 /\ aget FWeight (kacc (sumAll (pB C) (sres st'))) k = 4.
Proof.
  destruct (cp_exist sclear) as [st1 R1]. destruct (cp_exist st1) as [st2 R2].
  assert (HB : okB (pB cpC)) by (apply validB_okB, exB_valid).
  assert (K0 : In 0%Z (bins (pB cpC))) by (simpl; auto).
  assert (I0 : resInv (sres sclear)) by (split; [apply NoDup_nil|intros ? ? []]).
  destruct (C51_accumulated cpC sclear (autoJobs cpCats) st1 HB eq_refl I0) as [I1 E1]; auto.
  destruct (C51_accumulated cpC st1 (autoJobs cpCats) st2 HB eq_refl I1 E1 R2) as [I2 E2].
  assert (W1 := cp_more _ _ R1). assert (W2 := cp_more _ _ R2).
  assert (WC : a_weight (kacc (sself sclear)) 0%Z = 0) by reflexivity.
  set (s := mkH [mkHO (sself st1) 0] [sres st1]).
  exists cpC, s, cpCats, (mkH [mkHO (sself st1) 0; mkHO (sself st2) 0] [sres st2]), st1, (mkS (sself st1) (sres st2)), 0%Z.
  split; [intros o [<-|[]]; simpl; lia|]. split; [reflexivity|]. split; [destruct st1; reflexivity|].
  split; [apply E1; auto|]. split; [|split; [reflexivity|split; [reflexivity|]]].
  - econstructor; [eapply hs_copy; reflexivity|]. econstructor; [|constructor].
    refine (hs_more cpC (mkH [mkHO (sself st1) 0; mkHO (sself st1) 0] [sres st1]) 1 (mkHO (sself st1) 0) (autoJobs cpCats) st2 eq_refl _). cbn. destruct st1; exact R2.
  - cbn [sself sres aget]. split; [lra|]. assert (X := E2 FWeight 0%Z K0). cbn [aget] in X. lra.
Qed.
(** The hypotheses of the positive theorems: copy, then initialize=True. *)
Example C93_example : exists s s' st, wfh s /\ view s 0 = Some st /\ apart s 0 (fun _ => false) /\
  quiet 0 (length (h_objs s)) (fun _ => false) [OCopy 0; OProcess 1 true (autoJobs cpCats); OProcess 1 false (autoJobs cpCats)] /\
  hsteps cpC s [OCopy 0; OProcess 1 true (autoJobs cpCats); OProcess 1 false (autoJobs cpCats)] s' /\ view s' 0 = Some st /\
  exists st2, view s' 1 = Some st2 /\ a_weight (kacc (sself st2)) 0%Z = 4.
Proof.
  destruct (cp_exist sclear) as [st1 R1]. destruct (cp_exist st1) as [st2 R2].
  assert (W1 := cp_more _ _ R1). assert (W2 := cp_more _ _ R2).
  assert (WC : a_weight (kacc (sself sclear)) 0%Z = 0) by reflexivity.
  set (s := mkH [mkHO (sself st1) 0] [sres st1]).
  assert (HW : wfh s) by (intros o [<-|[]]; simpl; lia).
  exists s, (mkH [mkHO (sself st1) 0; mkHO (sself st2) 1] [sres st1; sres st2]), st1.
  split; auto. split; [destruct st1; reflexivity|]. split; [intros ? ? ? F; discriminate|].
  split; [simpl; repeat split; lia|]. split; [|split; [destruct st1; reflexivity|]].
  - econstructor; [eapply hs_copy; reflexivity|]. econstructor; [eapply hs_init; [reflexivity|exact R1]|].
    econstructor; [|constructor].
    refine (hs_more cpC (mkH [mkHO (sself st1) 0; mkHO (sself st1) 1] [sres st1; sres st1]) 1 (mkHO (sself st1) 1) (autoJobs cpCats) st2 eq_refl _). cbn. destruct st1; exact R2.
  - exists st2. split; [destruct st2; reflexivity|lra].
Qed.
