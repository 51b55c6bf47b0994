(** Hypotheses of the exactness theorems for LogMultipole runs. *)
From Coq Require Import Reals Lra Lia List ZArith Bool Permutation Psatz.
From Verif Require Import Base Geometry Tree Traverse Spin Run Corr3 Spec SpecRun GeomFacts SumFacts TreeFacts
  BinFacts TravFacts Exact MetricFacts Cover Lift Runs SpinFacts PropsCount
  Multi SpecMulti MultiFacts MultiFacts2 MultiIdx MultiTot MultiCV MultiVal.
Import ListNotations.
Open Scope R_scope.

Lemma metricSep_plain M d : metricSep M d -> plainM M.
Proof. destruct M; simpl; intro H; try tauto; intros a b s t; auto. Qed.
Lemma metricSep_mdist M d p q : metricSep M d -> mdist M p q = d p q.
Proof.
  destruct M; simpl; intro H; try tauto.
  - rewrite H. apply mdist_euclidean.
  - destruct H as [Hx [Hy [Hz H]]]. eapply periodic_unique; [apply C12_periodic_distance; auto|auto].
Qed.
Lemma metricSep_lip M d : metricSep M d -> lipM M anyPos anyPos.
Proof.
  destruct M; simpl; intro H; try tauto; [apply lip_euclid|apply lip_periodic; tauto].
Qed.

Definition fieldOf (P : mparams) (b : bool) (cat : list obj) (cs : list cell) : Prop :=
  buildField (fieldM P b) cat cs.

Lemma fieldM_min0 P b : validM P -> exactMode P b -> fminsize (fieldM P b) = 0.
Proof.
  intros [HB [HT HR]] HE. unfold fieldM; cbn [fminsize]. destruct b; auto.
  unfold minMaxSizeM. destruct (cmetric (mC P)); auto. cbn [fst].
  pose proof (vb_b _ HB) as Hb. pose proof (vb_a _ HB) as Ha.
  assert (E : Rmin (slop_a (mB P)) (slop_b (mB P)) = 0).
  { unfold mB. destruct HE as [[E|E]|[E _]]; [discriminate| |].
    - rewrite E. apply Rmin_left; auto.
    - rewrite E. apply Rmin_right; auto. }
  rewrite E. field.
Qed.
Lemma field_perm P b cat cs : fieldOf P b cat cs -> Permutation (objsL cs) cat.
Proof. apply buildField_perm. Qed.
Lemma field_wf P b cat cs : validM P -> exactMode P b -> fieldOf P b cat cs -> Forall (wf 0) cs.
Proof.
  intros HV HE H. rewrite <- (fieldM_min0 P b HV HE). apply (buildField_wf _ cat); auto.
  rewrite (fieldM_min0 P b HV HE). lra.
Qed.
Lemma field_objs P b cat cs c o : fieldOf P b cat cs -> inTops cs c -> In o (objs c) -> In o cat.
Proof.
  intros H Hc Ho. eapply Permutation_in; [eapply field_perm; eauto|]. exact (inTops_objs cs c o Hc Ho).
Qed.
Lemma sub_pos_nodup c t : subcell c t -> NoDup (map opos (objs t)) -> NoDup (map opos (objs c)).
Proof.
  induction 1 as [|c d s l r H IH|c d s l r H IH]; auto; cbn [objs]; rewrite map_app; intro N;
    apply NoDup_app_both in N as [? ?]; auto.
Qed.
Lemma field_distinct P b cat cs c : fieldOf P b cat cs -> distinctPos cat -> inTops cs c ->
  NoDup (map opos (objs c)).
Proof.
  intros H HD [t [Ht Hs]]. apply (sub_pos_nodup c t Hs).
  assert (N : NoDup (map opos (objsL cs))).
  { eapply Permutation_NoDup; [|exact HD]. apply Permutation_map. symmetry. eapply field_perm; eauto. }
  clear - Ht N. induction cs as [|x cs IH]; [destruct Ht|].
  rewrite objsL_cons, map_app in N. apply NoDup_app_both in N as [N1 N2]. destruct Ht as [<-|Ht]; auto.
Qed.

Section Good.
Variable P : mparams.
Hypothesis HV : validM P.
Variable d : pos -> pos -> R.
Hypothesis HM : metricSep (cmetric (mC P)) d.
Variables (b1 b2 : bool) (cat1 cat2 : list obj) (cs1 cs2 : list cell).
Hypothesis F1 : fieldOf P b1 cat1 cs1.
Hypothesis F2 : fieldOf P b2 cat2 cs2.

Lemma eff_zero_sizes a b : okcell 0 a -> okcell 0 b -> effSum (mC P) a b = Fin 0 ->
  getSize a = Fin 0 /\ getSize b = Fin 0.
Proof.
  intros Oa Ob H. rewrite effSum_plain in H by (eapply metricSep_plain; eauto).
  pose proof (size_nonneg _ _ Oa) as Sa. pose proof (size_nonneg _ _ Ob) as Sb.
  destruct (getSize a) as [x|], (getSize b) as [y|]; simpl in *; try discriminate.
  injection H; intros. split; f_equal; lra.
Qed.
(** What pointMode gives: the cells of a single-bin pair have size 0. *)
Lemma point_eff a b x : pointMode P (b1 && b2) ->
  okcell 0 a -> okcell 0 b -> inTops cs1 a -> inTops cs2 b ->
  effSum (mC P) a b = Fin x -> single (mC P) a b -> x = 0.
Proof.
  intros HP Oa Ob Ia Ib Hx [kr HS]. destruct HV as [HB [HT HR]].
  destruct HP as [Hb|Ha].
  - apply andb_true_iff in Hb as [-> ->].
    destruct (brute_effSum (mC P) 0 a b x) as [E _]; auto.
    + eapply inTops_brute; [|exact Ia]. apply (buildField_brute (fieldM P true) cat1); auto.
    + eapply inTops_brute; [|exact Ib]. apply (buildField_brute (fieldM P true) cat2); auto.
  - rewrite Hx in HS. eapply singleBin_a0; eauto. congruence.
Qed.
Hypothesis HE1 : exactMode P b1.
Hypothesis HE2 : exactMode P b2.
Hypothesis HE : exactMode P (b1 && b2).

Lemma good_pair a b : inTops cs1 a -> inTops cs2 b -> good (mC P) a b.
Proof.
  intros Ia Ib.
  assert (Oa : okcell 0 a) by (eapply inTops_wf; [eapply field_wf; [| |exact F1]|]; eauto).
  assert (Ob : okcell 0 b) by (eapply inTops_wf; [eapply field_wf; [| |exact F2]|]; eauto).
  constructor; auto.
  - destruct HV as [_ [_ HR]]. eapply pairOK_lip; eauto; [eapply metricSep_lip; eauto|exact I|exact I].
  - intros x o1 o2 Hx HS I1 I2. destruct HV as [HB [HT HR]]. destruct HE as [HP|[Hb HN]].
    + left. apply (point_eff a b x); auto.
    + right. split; auto. split; auto. intro; congruence.
Qed.
Lemma point_pair a b k r lr : pointMode P (b1 && b2) -> inTops cs1 a -> inTops cs2 b ->
  gcase (mC P) a b = GAdd k r lr ->
  (forall i, In i (objs a) -> opos i = getPos a) /\ (forall j, In j (objs b) -> opos j = getPos b).
Proof.
  intros HP Ia Ib HG. pose proof (good_pair a b Ia Ib) as [Oa Ob _ _].
  destruct HV as [HB [HT HR]].
  destruct (gadd_facts (mC P) (metricSep_plain _ _ HM) HR HB HT a b k r lr HG) as [_ [_ [_ [[x Hx] [HS _]]]]].
  assert (x = 0) by (apply (point_eff a b x); auto). subst x.
  destruct (eff_zero_sizes a b Oa Ob Hx) as [Sa Sb].
  split; intros o Ho; apply point_members; auto.
Qed.
End Good.

(** Conversion to the specification. *)
Lemma TT_triSum P d k2 k3 T cat1 l : validM P -> metricSep (cmetric (mC P)) d ->
  sumR (fun i => TT (mC P) T k2 k3 i l) cat1 = triSum (cbin (mC P)) d k2 k3 T cat1 l.
Proof.
  intros [HB [HT HR]] HM. apply sumR_ext. intros i _. apply sumR_ext. intros q _.
  unfold selT. rewrite !(selM_bin (mC P) HR), !(metricSep_mdist _ d) by auto. auto.
Qed.
Lemma triSum_perm B d k2 k3 T cat1 cat1' l : Permutation cat1 cat1' ->
  triSum B d k2 k3 T cat1 l = triSum B d k2 k3 T cat1' l.
Proof. intro H. apply sumR_perm; auto. Qed.
Lemma triSum_dperm B d k2 k3 T cat1 l l' : Permutation l l' ->
  triSum B d k2 k3 T cat1 (dpairs l) = triSum B d k2 k3 T cat1 (dpairs l').
Proof. intro H. apply sumR_ext. intros. apply sumR_dpairs_perm; auto. Qed.
Lemma sumR_pairs_perm {A B} (F : A * B -> R) l l' m m' : Permutation l l' -> Permutation m m' ->
  sumR F (pairs l m) = sumR F (pairs l' m').
Proof.
  intros H H'. rewrite !sumR_pairs, (sumR_perm _ _ _ H). apply sumR_ext. intros. apply sumR_perm; auto.
Qed.
Lemma triSum_app B d k2 k3 T cat1 l l' :
  triSum B d k2 k3 T cat1 (l ++ l') = triSum B d k2 k3 T cat1 l + triSum B d k2 k3 T cat1 l'.
Proof. unfold triSum. rewrite <- sumR_plus. apply sumR_ext. intros. apply sumR_app. Qed.
Lemma triSum_pperm B d k2 k3 T cat1 l l' m m' : Permutation l l' -> Permutation m m' ->
  triSum B d k2 k3 T cat1 (pairs l m) = triSum B d k2 k3 T cat1 (pairs l' m').
Proof. intros. apply sumR_ext. intros. apply sumR_pairs_perm; auto. Qed.
Lemma triSum_ext B d k2 k3 T T' cat1 l : (forall a b c, T a b c = T' a b c) ->
  triSum B d k2 k3 T cat1 l = triSum B d k2 k3 T' cat1 l.
Proof. intros H. apply sumR_ext. intros. apply sumR_ext. intros. rewrite H. auto. Qed.

Lemma trig_angles im n c13 : forall x y, c13 = IZR n ->
  trig im n (cos (INR (Z.abs_nat n) * x)) (sin (INR (Z.abs_nat n) * x))
    (cos (INR (Z.abs_nat n) * y)) (sin (INR (Z.abs_nat n) * y)) =
  if im then sin (c13 * (x - y)) else cos (c13 * (x - y)).
Proof.
  intros x y ->. unfold trig, sgn. rewrite INR_IZR_INZ, Zabs2Nat.id_abs.
  destruct (Z.ltb_spec n 0).
  - rewrite Z.abs_neq by lia. rewrite opp_IZR.
    destruct im.
    + replace (IZR n * (x - y)) with (- (- IZR n * x - - IZR n * y)) by ring.
      rewrite sin_neg, sin_minus. ring.
    + replace (IZR n * (x - y)) with (- (- IZR n * x - - IZR n * y)) by ring.
      rewrite cos_neg, cos_minus. ring.
  - rewrite Z.abs_eq by lia. destruct im; replace (IZR n * (x - y)) with (IZR n * x - IZR n * y) by ring;
      [rewrite sin_minus|rewrite cos_minus]; ring.
Qed.
