(** Facts about the multipole traversal: single steps. *)
From Coq Require Import Reals Lra Lia List ZArith Bool Permutation Psatz.
From Verif Require Import Base Geometry Tree Traverse Spin Run Spec SpecRun GeomFacts SumFacts TreeFacts
  BinFacts TravFacts Exact MetricFacts Cover Lift Runs Multi.
Import ListNotations.
Open Scope R_scope.

(** Metrics that leave the sizes alone. *)
Definition plainM (M : metric) : Prop := forall p q s t, effSize M p q s t = (s, t).
Lemma plain_euclid : plainM Euclidean. Proof. intros p q s t; auto. Qed.
Lemma plain_arc : plainM ArcSphere. Proof. intros p q s t; auto. Qed.
Lemma plain_periodic x y z : plainM (Periodic x y z). Proof. intros p q s t; auto. Qed.

(** What one step does with a cell of the list. *)
Inductive gout := GSkip | GAdd (k : Z) (r lr : R) | GKeep (a b : bool) (rtot : ext).
Definition gcase (P : cparams) (c1 c2 : cell) : gout :=
  let B := cbin P in
  let M := cmetric P in
  let p1 := getPos c1 in
  let p2 := getPos c2 in
  let rsq := distSq M p1 p2 in
  let s := eadd (getSize c1) (getSize c2) in
  if isRParOutsideRange M (crpar P) p1 p2 s then GSkip else
  if tooSmallDist B rsq s && tooSmallM M p1 p2 rsq s (minsep B) then GSkip else
  if tooLargeDist B rsq s && tooLargeM M p1 p2 rsq s (maxsep B) then GSkip else
  match (if isRParInsideRange M (crpar P) p1 p2 s then singleBin B rsq s p1 p2 else None) with
  | Some (k, _, lr) =>
      if isRSqInRange B rsq p1 p2
      then if (k <? 0)%Z then GAdd (calculateBinK B p1 p2 (sqrt rsq) (ln (sqrt rsq))) (sqrt rsq) (ln (sqrt rsq))
           else GAdd k (sqrt rsq) lr
      else GSkip
  | None => let '(a, b) := calcSplitSq (getSize c1) (getSize c2) (getEffectiveBSq B rsq) in
            GKeep a b (eadd (Fin (sqrt rsq)) s)
  end.

Definition kept (b : bool) (c2 : cell) : option (list cell) :=
  if b then match c2 with Node _ _ x y => Some [x; y] | _ => None end else Some [c2].

Lemma splitGn_cons P c1 c2 t prev : plainM (cmetric P) ->
  splitGn P c1 (getSize c1) (c2 :: t) prev =
  match gcase P c1 c2 with
  | GSkip => splitGn P c1 (getSize c1) t prev
  | GAdd k r lr =>
      match splitGn P c1 (getSize c1) t prev with
      | Some g => Some (mkGn (nList g) (nAny g) (mkG c1 c2 k r lr :: nEv g) (nMax g))
      | None => None
      end
  | GKeep a b rtot =>
      match kept b c2, splitGn P c1 (getSize c1) t prev with
      | Some new, Some g =>
          Some (mkGn (new ++ nList g) ((a && gtThresh (cbin P) rtot prev) || nAny g) (nEv g)
                     (emax rtot (nMax g)))
      | _, _ => None
      end
  end.
Proof.
  intro HM. cbn [splitGn]. rewrite HM. unfold gcase.
  destruct (isRParOutsideRange _ _ _ _ _); auto.
  destruct (tooSmallDist _ _ _ && _); auto.
  destruct (tooLargeDist _ _ _ && _); auto.
  destruct (if isRParInsideRange _ _ _ _ _ then _ else _) as [[[k r] lr]|].
  - destruct (isRSqInRange _ _ _ _); auto. destruct (k <? 0)%Z; auto.
  - destruct (calcSplitSq _ _ _) as [a b]. auto.
Qed.

Lemma effSum_plain P c1 c2 : plainM (cmetric P) -> effSum P c1 c2 = eadd (getSize c1) (getSize c2).
Proof. intro HM. unfold effSum. rewrite HM. auto. Qed.

Record good (P : cparams) (c1 c2 : cell) : Prop := mkgood {
  gd_ok1 : okcell 0 c1; gd_ok2 : okcell 0 c2; gd_pair : pairOK P 0 c1 c2; gd_ex : exactCond P c1 c2 }.

Section G.
Variable P : cparams.
Hypothesis HM : plainM (cmetric P).
Hypothesis HR : crpar P = None.
Hypothesis HB : validB (cbin P).
Hypothesis HT : btype (cbin P) = BLog.

Lemma minsep_pos : 0 < minsep (cbin P).
Proof. pose proof (vb_minsep _ HB) as H. rewrite HT in H. auto. Qed.
Lemma selM_bin k o1 o2 : selM P k o1 o2 = inBinb (cbin P) k (mdist (cmetric P) (opos o1) (opos o2)).
Proof. unfold selM, rparInb. rewrite HR, andb_true_r. auto. Qed.

Lemma gcase_cases c1 c2 :
  let rsq := distSq (cmetric P) (getPos c1) (getPos c2) in
  let s := effSum P c1 c2 in
  (gcase P c1 c2 = GSkip /\
     (tooSmallDist (cbin P) rsq s = true \/ tooLargeDist (cbin P) rsq s = true \/
      ((exists k r lr, singleBin (cbin P) rsq s (getPos c1) (getPos c2) = Some (k, r, lr)) /\
       isRSqInRange (cbin P) rsq (getPos c1) (getPos c2) = false))) \/
  (exists k r lr, singleBin (cbin P) rsq s (getPos c1) (getPos c2) = Some (k, r, lr) /\
     isRSqInRange (cbin P) rsq (getPos c1) (getPos c2) = true /\
     gcase P c1 c2 = GAdd (if (k <? 0)%Z then calculateBinK (cbin P) (getPos c1) (getPos c2) (sqrt rsq) (ln (sqrt rsq)) else k)
                       (sqrt rsq) (if (k <? 0)%Z then ln (sqrt rsq) else lr)) \/
  (exists a b, singleBin (cbin P) rsq s (getPos c1) (getPos c2) = None /\
     calcSplitSq (getSize c1) (getSize c2) (getEffectiveBSq (cbin P) rsq) = (a, b) /\
     gcase P c1 c2 = GKeep a b (eadd (Fin (sqrt rsq)) s)).
Proof.
  intros rsq s. unfold gcase, s. rewrite effSum_plain by auto. fold rsq.
  unfold isRParOutsideRange, isRParInsideRange. rewrite HR.
  destruct (tooSmallDist (cbin P) rsq _) eqn:ES; simpl;
  [destruct (tooSmallM _ _ _ _ _ _); [left; auto|]|];
  (destruct (tooLargeDist (cbin P) rsq _) eqn:EL; simpl;
   [destruct (tooLargeM _ _ _ _ _ _); [left; auto|]|]);
  (destruct (singleBin _ _ _ _ _) as [[[k r] lr]|] eqn:EB;
    [destruct (isRSqInRange _ _ _ _) eqn:ER;
     [right; left; exists k, r, lr; repeat split; auto; destruct (k <? 0)%Z; auto|
      left; split; auto; right; right; split; eauto]|
     destruct (calcSplitSq _ _ _) as [a b] eqn:EC; right; right; exists a, b; auto]).
Qed.

Lemma single_bins c1 c2 x k r lr o1 o2 : good P c1 c2 -> effSum P c1 c2 = Fin x ->
  let rsq := distSq (cmetric P) (getPos c1) (getPos c2) in
  let d := mdist (cmetric P) (opos o1) (opos o2) in
  singleBin (cbin P) rsq (effSum P c1 c2) (getPos c1) (getPos c2) = Some (k, r, lr) ->
  In o1 (objs c1) -> In o2 (objs c2) ->
  (minsep (cbin P) <= sqrt rsq < maxsep (cbin P) -> inBin (cbin P) (kFinal (cbin P) rsq k) d) /\
  (sqrt rsq < minsep (cbin P) -> d < minsep (cbin P)) /\
  (maxsep (cbin P) <= sqrt rsq -> maxsep (cbin P) <= d).
Proof.
  intros [O1 O2 HP HE] ES rsq d HS I1 I2.
  pose proof (effSum_nonneg P 0 c1 c2 x O1 O2 ES) as Hx.
  pose proof (distSq_nonneg (cmetric P) (getPos c1) (getPos c2)) as Hrsq. fold rsq in Hrsq.
  pose proof (mdist_nonneg (cmetric P) (opos o1) (opos o2)) as Hd0. fold d in Hd0.
  destruct (HP x o1 o2 ES I1 I2) as [HL _]. fold d in HL. unfold mdist in HL. fold rsq in HL.
  rewrite Rplus_0_r in HL.
  destruct (HE x o1 o2 ES) as [Hx0|[Hb0 [HN _]]]; auto.
  { eexists. exact HS. }
  - subst x. apply Rabs_bounds in HL. assert (Hd : d = sqrt rsq) by lra. rewrite Hd.
    split; [|lra]. intro Hr.
    assert (HK := singleBin_zero (cbin P) rsq (getPos c1) (getPos c2) Hrsq (vb_b _ HB)).
    rewrite ES, HK in HS. injection HS; intros; subst k r lr.
    unfold kFinal. simpl. apply trunc_kk_bin; auto. intros _. pose proof minsep_pos. lra.
  - rewrite ES in HS.
    destruct (singleBin_sound _ _ _ _ _ _ _ _ d HB HN Hrsq Hx HS HL Hd0) as [H1 [H2 H3]].
    unfold slopHi, slopLo in *. rewrite HT, Hb0, exp_0 in *.
    split; [|split; intros; [specialize (H2 H)|specialize (H3 H)]; lra].
    intro Hr. destruct (H1 Hr) as [HI [H4 H5]]. split; [apply HI|]. lra.
Qed.

Lemma single_fin c1 c2 k r lr rsq : singleBin (cbin P) rsq (effSum P c1 c2) (getPos c1) (getPos c2)
  = Some (k, r, lr) -> exists x, effSum P c1 c2 = Fin x.
Proof. destruct (effSum P c1 c2); eauto. simpl. discriminate. Qed.

Lemma sel_bins c1 c2 K o1 o2 : inBinb (cbin P) K (mdist (cmetric P) (opos o1) (opos o2)) = true ->
  In o1 (objs c1) -> In o2 (objs c2) ->
  minsep (cbin P) <= mdist (cmetric P) (opos o1) (opos o2) < maxsep (cbin P).
Proof. intros H _ _. apply inBinb_true in H. eapply inBin_range; eauto. Qed.

Lemma gskip_sel c1 c2 K o1 o2 : good P c1 c2 -> gcase P c1 c2 = GSkip ->
  In o1 (objs c1) -> In o2 (objs c2) -> selM P K o1 o2 = false.
Proof.
  intros G H I1 I2. rewrite selM_bin.
  destruct (inBinb _ _ _) eqn:E; auto. exfalso.
  pose proof (sel_bins c1 c2 K o1 o2 E I1 I2) as Hd.
  destruct (gcase_cases c1 c2) as [[_ HC]|[[k [r [lr [_ [_ HC]]]]]|[a [b [_ [_ HC]]]]]];
    try congruence.
  pose proof (distSq_nonneg (cmetric P) (getPos c1) (getPos c2)) as Hrsq.
  destruct (effSum P c1 c2) as [x|] eqn:ES.
  2:{ simpl in HC. destruct HC as [HC|[HC|[[k [r [lr HC]]] _]]]; discriminate. }
  pose proof (effSum_nonneg P 0 c1 c2 x (gd_ok1 _ _ _ G) (gd_ok2 _ _ _ G) ES) as Hx.
  destruct (gd_pair _ _ _ G x o1 o2 ES I1 I2) as [HL _]. apply Rabs_bounds in HL.
  unfold mdist in HL at 2 4.
  destruct HC as [HC|[HC|[[k [r [lr HS]]] HC]]].
  - apply tooSmall_sound in HC; auto. lra.
  - apply tooLarge_sound in HC; auto. lra.
  - rewrite <- ES in HS. destruct (single_bins c1 c2 x k r lr o1 o2 G ES HS I1 I2) as [_ [H1 H2]].
    assert (HX := isRSqInRange_iff (cbin P) _ (getPos c1) (getPos c2) HB Hrsq).
    rewrite HC in HX. destruct HX as [_ HX].
    destruct (Rlt_le_dec (sqrt (distSq (cmetric P) (getPos c1) (getPos c2))) (minsep (cbin P))).
    + specialize (H1 r0). lra.
    + destruct (Rlt_le_dec (sqrt (distSq (cmetric P) (getPos c1) (getPos c2))) (maxsep (cbin P))).
      * assert (false = true) by (apply HX; lra). discriminate.
      * specialize (H2 r1). lra.
Qed.

Lemma gadd_facts c1 c2 k r lr : gcase P c1 c2 = GAdd k r lr ->
  r = mdist (cmetric P) (getPos c1) (getPos c2) /\ lr = ln r /\ 0 < r /\
  (exists x, effSum P c1 c2 = Fin x) /\ single P c1 c2 /\
  (good P c1 c2 -> forall K o1 o2, In o1 (objs c1) -> In o2 (objs c2) -> selM P K o1 o2 = (k =? K)%Z).
Proof.
  intro H.
  destruct (gcase_cases c1 c2) as [[HC _]|[[k' [r' [lr' [HS [HRg HC]]]]]|[a [b [_ [_ HC]]]]]];
    try congruence.
  rewrite HC in H. injection H; intros HL Hr HK. clear H HC.
  pose proof (distSq_nonneg (cmetric P) (getPos c1) (getPos c2)) as Hrsq.
  set (rsq := distSq (cmetric P) (getPos c1) (getPos c2)) in *.
  apply isRSqInRange_iff in HRg; auto. pose proof minsep_pos as Hm.
  destruct (single_fin c1 c2 _ _ _ _ HS) as [x ES].
  assert (Hpos : btype (cbin P) = BLog -> 0 < sqrt rsq) by (intros _; lra).
  assert (Hk : k = kFinal (cbin P) rsq k').
  { unfold kFinal. rewrite calculateBinK_kk in HK by auto. destruct (k' <? 0)%Z; auto. }
  assert (Hl : lr = ln r).
  { destruct (direct_event P false c1 c2 k' r' lr' HB HRg HS Hpos) as [_ [_ [_ [HE _]]]].
    fold rsq in HE. unfold directProcess11 in HE. rewrite <- Hr, <- HL.
    destruct (k' <? 0)%Z; cbn in HE; auto. }
  split; [unfold mdist; fold rsq; congruence|]. split; auto. split; [lra|]. split; [eauto|].
  split; [eexists; exact HS|].
  intros G K o1 o2 I1 I2. rewrite selM_bin.
  destruct (single_bins c1 c2 x k' r' lr' o1 o2 G ES HS I1 I2) as [H1 _].
  fold rsq in H1. specialize (H1 HRg). rewrite <- Hk in H1.
  destruct (Z.eqb_spec k K) as [<-|Hne].
  - apply inBinb_true; auto.
  - destruct (inBinb _ _ _) eqn:E; auto. apply inBinb_true in E.
    exfalso. apply Hne. eapply inBin_unique; eauto.
Qed.

Lemma bsq_nonneg rsq : 0 <= rsq -> 0 <= getEffectiveBSq (cbin P) rsq.
Proof.
  intro Hr. unfold getEffectiveBSq. rewrite HT. apply Rmult_le_pos; auto.
  assert (0 <= slop_b (cbin P) * slop_b (cbin P)) by nra.
  assert (0 <= slop_a (cbin P) * slop_a (cbin P)) by nra.
  apply Rmin_glb; auto.
Qed.

Lemma gkeep_split m c1 c2 a b rt : okcell m c1 -> okcell m c2 -> gcase P c1 c2 = GKeep a b rt ->
  (a = true -> exists d s l r, c1 = Node d s l r) /\
  (b = true -> exists d s l r, c2 = Node d s l r) /\ (a = true \/ b = true) /\
  (forall t, rt = Fin t -> 0 < t).
Proof.
  intros O1 O2 H.
  destruct (gcase_cases c1 c2) as [[HC _]|[[k' [r' [lr' [HS [HRg HC]]]]]|[a' [b' [HS [HC' HC]]]]]];
    try congruence.
  rewrite HC in H. injection H; intros; subst a' b' rt. clear H HC.
  pose proof (distSq_nonneg (cmetric P) (getPos c1) (getPos c2)) as Hrsq.
  pose proof (size_nonneg _ _ O1) as S1. pose proof (size_nonneg _ _ O2) as S2.
  rewrite effSum_plain in HS by auto.
  assert (Hne : eadd (getSize c1) (getSize c2) <> Fin 0).
  { intro Hz. rewrite Hz, singleBin_zero in HS; auto. discriminate. apply HB. }
  destruct (calcSplit_pos _ _ _ _ _ S1 S2 (bsq_nonneg _ Hrsq) Hne HC') as [Ha [Hb Hab]].
  repeat split; auto.
  - intro Ht. specialize (Ha Ht). destruct c1; simpl in Ha; try lra; eauto.
  - intro Ht. specialize (Hb Ht). destruct c2; simpl in Hb; try lra; eauto.
  - intros t Ht. rewrite effSum_plain in Ht by auto.
    destruct (getSize c1) as [u|], (getSize c2) as [v|]; simpl in *; try discriminate.
    injection Ht; intros <-. pose proof (sqrt_pos (distSq (cmetric P) (getPos c1) (getPos c2))).
    assert (u + v <> 0) by (intro Hz; apply Hne; rewrite Hz; auto). lra.
Qed.

Lemma gkeep_max c1 c2 a b t o1 o2 : good P c1 c2 -> gcase P c1 c2 = GKeep a b (Fin t) ->
  In o1 (objs c1) -> In o2 (objs c2) -> mdist (cmetric P) (opos o1) (opos o2) <= t.
Proof.
  intros G H I1 I2.
  destruct (gcase_cases c1 c2) as [[HC _]|[[k' [r' [lr' [HS [HRg HC]]]]]|[a' [b' [HS [HC' HC]]]]]];
    try congruence.
  rewrite HC in H. injection H; intros Ht _ _. clear H HC HC' HS.
  destruct (effSum P c1 c2) as [x|] eqn:ES; [|discriminate].
  injection Ht; intros <-.
  destruct (gd_pair _ _ _ G x o1 o2 ES I1 I2) as [HL _]. apply Rabs_bounds in HL.
  unfold mdist in HL at 2 4. lra.
Qed.

(** ** Whole lists *)
Definition objsL (l : list cell) : list obj := concat (map objs l).
Definition selSum (f : obj -> obj -> R) (i : obj) (K : Z) (l : list obj) : R :=
  sumR (fun j => if selM P K i j then f i j else 0) l.
Lemma objsL_app l l' : objsL (l ++ l') = objsL l ++ objsL l'.
Proof. unfold objsL. rewrite map_app, concat_app. auto. Qed.
Lemma objsL_cons c l : objsL (c :: l) = objs c ++ objsL l. Proof. auto. Qed.
Lemma in_objsL o l : In o (objsL l) <-> exists c, In c l /\ In o (objs c).
Proof.
  unfold objsL. rewrite in_concat. split.
  - intros [x [Hx Ho]]. apply in_map_iff in Hx as [c [<- Hc]]. eauto.
  - intros [c [Hc Ho]]. exists (objs c). split; auto. apply in_map; auto.
Qed.
Lemma selSum_app f i K l l' : selSum f i K (l ++ l') = selSum f i K l + selSum f i K l'.
Proof. apply sumR_app. Qed.
Lemma mpSum_app v mp mp' K : mpSum v (mp ++ mp') K = mpSum v mp K + mpSum v mp' K.
Proof. apply sumR_app. Qed.

Variables J1 J2 : cell -> Prop.
Hypothesis HJ1 : childClosed J1.
Hypothesis HJ2 : childClosed J2.
Hypothesis HG : forall a b, J1 a -> J2 b -> good P a b.

(** [v] is what calculateGn adds when every object j of the second cell should add [f i j]. *)
Definition CV (v : gev -> R) (f : obj -> obj -> R) : Prop :=
  forall a b k r lr, J1 a -> J2 b -> gcase P a b = GAdd k r lr ->
  forall i, In i (objs a) -> v (mkG a b k r lr) = sumR (f i) (objs b).

Lemma kept_J2 b c2 new : kept b c2 = Some new -> J2 c2 ->
  (forall c, In c new -> J2 c) /\ (forall o, In o (objsL new) <-> In o (objs c2)) /\
  (forall f i K, selSum f i K (objsL new) = selSum f i K (objs c2)).
Proof.
  intros H Hc. unfold kept in H. destruct b.
  - destruct c2 as [| |d s x y]; try discriminate. injection H; intros <-.
    destruct (HJ2 _ _ _ _ Hc) as [Hx Hy]. split; [|split].
    + intros c [<-|[<-|[]]]; auto.
    + intro o. unfold objsL. simpl. rewrite app_nil_r. tauto.
    + intros. unfold objsL. simpl. rewrite app_nil_r. auto.
  - injection H; intros <-. split; [|split].
    + intros c [<-|[]]; auto.
    + intro o. unfold objsL. simpl. rewrite app_nil_r. tauto.
    + intros. unfold objsL. simpl. rewrite app_nil_r. auto.
Qed.

Lemma emax_fin a b m : emax a b = Fin m -> exists x y, a = Fin x /\ b = Fin y /\ x <= m /\ y <= m.
Proof.
  destruct a, b; simpl; try discriminate. intro H; injection H; intros <-.
  do 2 eexists. repeat split; eauto. apply Rmax_l. apply Rmax_r.
Qed.

Lemma splitGn_spec c1 prev : J1 c1 -> forall l g, (forall c, In c l -> J2 c) ->
  splitGn P c1 (getSize c1) l prev = Some g ->
  (forall c, In c (nList g) -> J2 c) /\
  (forall v f, CV v f -> forall i K, In i (objs c1) ->
     selSum f i K (objsL l) = mpSum v (nEv g) K + selSum f i K (objsL (nList g))) /\
  (forall m i j, nMax g = Fin m -> In i (objs c1) -> In j (objsL (nList g)) ->
     mdist (cmetric P) (opos i) (opos j) <= m).
Proof.
  intros H1. induction l as [|c2 t IH]; intros g Hl H.
  - injection H; intros <-. simpl. split; [|split]; try tauto.
    intros v f _ i K _. unfold selSum, mpSum; simpl; lra.
  - rewrite splitGn_cons in H by auto.
    assert (H2 : J2 c2) by (apply Hl; left; auto).
    assert (Hl' : forall c, In c t -> J2 c) by (intros; apply Hl; right; auto).
    pose proof (HG _ _ H1 H2) as G.
    destruct (gcase P c1 c2) as [|k r lr|a b rt] eqn:EG.
    + destruct (IH _ Hl' H) as [A [B C]]. split; auto. split; auto.
      intros v f Hv i K Hi. rewrite <- (B v f Hv i K Hi).
      rewrite objsL_cons, selSum_app.
      assert (selSum f i K (objs c2) = 0) as ->; [|lra].
      apply sumR_0. intros j Hj. rewrite (gskip_sel _ _ K i j G EG Hi Hj). auto.
    + destruct (splitGn P c1 (getSize c1) t prev) as [g'|] eqn:EGn; [|discriminate].
      injection H; intros <-. cbn [nList nEv nMax nAny].
      destruct (IH _ Hl' eq_refl) as [A [B C]]. split; auto. split; auto.
      intros v f Hv i K Hi. rewrite objsL_cons, selSum_app, (B v f Hv i K Hi).
      unfold mpSum at 2. cbn [sumR fold_right]. fold (mpSum v (nEv g') K).
      destruct (gadd_facts _ _ _ _ _ EG) as [_ [_ [_ [_ [_ HS]]]]]. specialize (HS G K i).
      assert (selSum f i K (objs c2) = if (k =? K)%Z then v (mkG c1 c2 k r lr) else 0) as ->.
      { unfold selSum. transitivity (sumR (fun j => if (k =? K)%Z then f i j else 0) (objs c2)).
        - apply sumR_ext. intros j Hj. rewrite HS; auto.
        - destruct (k =? K)%Z.
          + symmetry. apply Hv; auto.
          + apply sumR_0; auto. }
      unfold mpSum. simpl. lra.
    + destruct (kept b c2) as [new|] eqn:EK; [|discriminate].
      destruct (splitGn P c1 (getSize c1) t prev) as [g'|] eqn:EGn; [|discriminate].
      injection H; intros <-. cbn [nList nEv nMax nAny].
      destruct (IH _ Hl' eq_refl) as [A [B C]].
      destruct (kept_J2 _ _ _ EK H2) as [KA [KB KC]].
      split; [|split].
      * intros c Hc. apply in_app_or in Hc as [Hc|Hc]; auto.
      * intros v f Hv i K Hi. rewrite objsL_cons, objsL_app, !selSum_app, KC, (B v f Hv i K Hi). lra.
      * intros m i j Hm Hi Hj. apply emax_fin in Hm as [x [y [Hx [Hy [Lx Ly]]]]]. subst rt.
        rewrite objsL_app in Hj. apply in_app_or in Hj as [Hj|Hj].
        -- eapply Rle_trans; [|exact Lx]. eapply gkeep_max; eauto. apply KB; auto.
        -- eapply Rle_trans; [|exact Ly]. apply C; auto.
Qed.

Lemma splitC2_spec c1 : J1 c1 -> forall l new, (forall c, In c l -> J2 c) ->
  splitC2 P c1 (getSize c1) l = Some new ->
  (forall c, In c new -> J2 c) /\
  (forall f i K, In i (objs c1) -> selSum f i K (objsL l) = selSum f i K (objsL new)).
Proof.
  intros H1. induction l as [|c2 t IH]; intros new Hl H.
  - injection H; intros <-. split; [tauto|auto].
  - cbn [splitC2] in H. rewrite HM in H.
    assert (H2 : J2 c2) by (apply Hl; left; auto).
    assert (Hl' : forall c, In c t -> J2 c) by (intros; apply Hl; right; auto).
    pose proof (HG _ _ H1 H2) as G.
    assert (Hskip : gcase P c1 c2 = GSkip -> splitC2 P c1 (getSize c1) t = Some new ->
      (forall c, In c new -> J2 c) /\
      (forall f i K, In i (objs c1) -> selSum f i K (objsL (c2 :: t)) = selSum f i K (objsL new))).
    { intros EG HS. destruct (IH _ Hl' HS) as [A B]. split; auto.
      intros f i K Hi. rewrite <- (B f i K Hi), objsL_cons, selSum_app.
      assert (selSum f i K (objs c2) = 0) as ->; [|lra].
      apply sumR_0. intros j Hj. rewrite (gskip_sel _ _ K i j G EG Hi Hj). auto. }
    unfold gcase in Hskip.
    destruct (isRParOutsideRange _ _ _ _ _); auto.
    destruct (tooSmallDist _ _ _ && _); auto.
    destruct (tooLargeDist _ _ _ && _); auto.
    clear Hskip.
    match type of H with (if ?b then _ else _) = _ => set (sp := b) in H; clearbody sp end.
    assert (exists n0, kept sp c2 = Some n0 /\ oapp (Some n0) (splitC2 P c1 (getSize c1) t) = Some new)
      as [n0 [EK Ho]].
    { unfold kept. destruct sp; [|eauto]. destruct c2; try discriminate. eauto. }
    apply oapp_some in Ho as [x [y [E1 [E2 ->]]]]. injection E1; intros <-.
    destruct (IH _ Hl' E2) as [A B]. destruct (kept_J2 _ _ _ EK H2) as [KA [KB KC]].
    split.
    + intros c Hc. apply in_app_or in Hc as [Hc|Hc]; auto.
    + intros f i K Hi. rewrite objsL_cons, objsL_app, !selSum_app, KC, (B f i K Hi). auto.
Qed.

(** ** The starting bin of an early calculateZeta *)
Lemma early_spec p1 maxr mink k : early (cbin P) p1 maxr mink = Some k ->
  (0 <= k < mink)%Z /\ exists m, maxr = Fin m /\
  forall K d, inBin (cbin P) K d -> d <= m -> (K < k)%Z.
Proof.
  unfold early. destruct maxr as [m|]; [|discriminate].
  destruct (Rlt_dec m (maxsep (cbin P))) as [Hm|]; [|discriminate]. cbv zeta.
  destruct (Z.ltb_spec (zetaK (cbin P) p1 m) mink); [|discriminate].
  intro H'; injection H'; intros <-. clear H'. unfold zetaK in *.
  pose proof minsep_pos as H0.
  destruct (Rlt_dec m (minsep (cbin P))) as [Hl|Hl].
  - split; [lia|]. exists m. split; auto. intros K d HI Hd. apply inBin_range in HI; auto. lra.
  - rewrite calculateBinK_kk in * by auto.
    destruct (trunc_kk_bin (cbin P) m HB ltac:(lra) ltac:(lra)) as [Hk [He1 He2]].
    split; [lia|]. exists m. split; auto. intros K d [HK [HI1 HI2]] Hd.
    assert (edge (cbin P) K < edge (cbin P) (trunc (kkOf (cbin P) m) + 1)) by lra.
    apply edge_lt_inv in H1; auto.
Qed.

(** ** multipoleFinish *)
Definition inv (L : list obj) (c1 : cell) (l : list cell) (mp : list gev) : Prop :=
  forall v f, CV v f -> forall i K, In i (objs c1) ->
    mpSum v mp K + selSum f i K (objsL l) = selSum f i K L.
Definition zcover (k : Z) (h : obj -> R) (zs : list zev) : R :=
  sumR (fun z => if (zk z <=? k)%Z && (k <? zmink z)%Z then sumR h (objs (z1 z)) else 0) zs.
Definition zgood (L : list obj) (z : zev) : Prop :=
  J1 (z1 z) /\ (0 <= zk z)%Z /\ (zmink z <= nbins (cbin P))%Z /\
  forall v f, CV v f -> forall i K, In i (objs (z1 z)) -> (zk z <= K)%Z ->
    mpSum v (zmp z) K = selSum f i K L.
Lemma zcover_app k h a b : zcover k h (a ++ b) = zcover k h a + zcover k h b.
Proof. apply sumR_app. Qed.

Lemma mfinish_spec L : forall fuel c1 l mp mink maxr zs,
  J1 c1 -> (forall c, In c l -> J2 c) -> (mink <= nbins (cbin P))%Z -> inv L c1 l mp ->
  mfinish P fuel c1 l mp mink maxr = Some zs ->
  Forall (zgood L) zs /\
  forall h k, (0 <= k)%Z -> zcover k h zs = if (k <? mink)%Z then sumR h (objs c1) else 0.
Proof.
  induction fuel as [|n IH]; intros c1 l mp mink maxr zs H1 Hl Hk HI H; cbn [mfinish] in H;
  (destruct (splitGn P c1 (getSize c1) l maxr) as [g|] eqn:EG; [|discriminate]);
  destruct (splitGn_spec c1 maxr H1 l g Hl EG) as [GA [GB GC]];
  (assert (HI' : inv L c1 (nList g) (mp ++ nEv g))
     by (intros v f Hv i K Hi; rewrite mpSum_app; rewrite <- (HI v f Hv i K Hi), (GB v f Hv i K Hi); lra));
  (destruct (nList g) as [|c0 t0] eqn:EN;
   [injection H; intros <-; split;
    [constructor; [|constructor]; split; [exact H1|]; cbn [z1 zk zmink zmp];
     split; [lia|]; split; [lia|]; intros v f Hv i K Hi _;
     rewrite <- (HI' v f Hv i K Hi); unfold selSum, objsL; simpl; lra
    |intros h k Hk0; unfold zcover; simpl; rewrite Rplus_0_r;
     destruct (Z.leb_spec 0 k); [|lia]; simpl; auto]|]).
  - destruct (early _ _ _ _); discriminate.
  - rewrite <- EN in *. clear EN.
    assert (HE : exists zs0 mink', (match early (cbin P) (getPos c1) (nMax g) mink with
            | Some k => ([mkZ c1 (mp ++ nEv g) k mink], k)
            | None => ([], mink)
            end) = (zs0, mink') /\ Forall (zgood L) zs0 /\ (mink' <= nbins (cbin P))%Z /\
            forall h k, (0 <= k)%Z ->
            zcover k h zs0 + (if (k <? mink')%Z then sumR h (objs c1) else 0)
            = if (k <? mink)%Z then sumR h (objs c1) else 0).
    { destruct (early (cbin P) (getPos c1) (nMax g) mink) as [k|] eqn:EE.
      - do 2 eexists. split; [reflexivity|].
        apply early_spec in EE as [Hk0 [m [Hm HK]]]. split; [|split; [lia|]].
        + constructor; [|constructor]. split; [exact H1|]. cbn [z1 zk zmink zmp].
          split; [lia|]. split; [lia|]. intros v f Hv i K Hi HKk.
          rewrite <- (HI' v f Hv i K Hi).
          assert (selSum f i K (objsL (nList g)) = 0) as ->; [|lra].
          apply sumR_0. intros j Hj. rewrite selM_bin.
          destruct (inBinb _ _ _) eqn:EB; auto. apply inBinb_true in EB.
          specialize (GC m i j Hm Hi Hj). specialize (HK _ _ EB GC). lia.
        + intros h k' Hk'. unfold zcover. cbn [sumR map fold_right z1 zk zmink].
          simpl. rewrite Rplus_0_r.
          destruct (Z.ltb_spec k' k); destruct (Z.leb_spec k k'); try lia; simpl;
          destruct (Z.ltb_spec k' mink); try lia; simpl; lra.
      - do 2 eexists. split; [reflexivity|]. split; [constructor|]. split; auto.
        intros. unfold zcover; simpl. lra. }
    destruct HE as [zs0 [mink' [-> [HZ [Hmk HC]]]]] in H.
    apply oapp_some in H as [x [y [E1 [E2 ->]]]]. injection E1; intros <-.
    destruct (nAny g).
    + destruct c1 as [| |d s a b]; try discriminate.
      destruct (HJ1 _ _ _ _ H1) as [Ha Hb].
      apply oapp_some in E2 as [u [w [U [V ->]]]].
      assert (Ia : inv L a (nList g) (mp ++ nEv g)).
      { intros v f Hv i K Hi. apply HI'; auto. simpl. apply in_or_app; auto. }
      assert (Ib : inv L b (nList g) (mp ++ nEv g)).
      { intros v f Hv i K Hi. apply HI'; auto. simpl. apply in_or_app; auto. }
      destruct (IH _ _ _ _ _ _ Ha GA Hmk Ia U) as [U1 U2].
      destruct (IH _ _ _ _ _ _ Hb GA Hmk Ib V) as [V1 V2].
      split.
      * apply Forall_app; split; auto. apply Forall_app; auto.
      * intros h k Hk0. rewrite !zcover_app, U2, V2 by auto. rewrite <- (HC h k Hk0).
        cbn [objs]. rewrite sumR_app. destruct (k <? mink')%Z; lra.
    + destruct (IH _ _ _ _ _ _ H1 GA Hmk HI' E2) as [U1 U2]. split.
      * apply Forall_app; auto.
      * intros h k Hk0. rewrite zcover_app, U2 by auto. auto.
Qed.

Lemma msplit1_spec : forall c1 l zs, J1 c1 -> (forall c, In c l -> J2 c) ->
  msplit1 P c1 l = Some zs ->
  forall L, (forall f i K, In i (objs c1) -> selSum f i K (objsL l) = selSum f i K L) ->
  Forall (zgood L) zs /\
  forall h k, (0 <= k < nbins (cbin P))%Z -> zcover k h zs = sumR h (objs c1).
Proof.
  assert (HF : forall c1 l new, J1 c1 -> (forall c, In c l -> J2 c) ->
    splitC2 P c1 (getSize c1) l = Some new ->
    forall L, (forall f i K, In i (objs c1) -> selSum f i K (objsL l) = selSum f i K L) ->
    (forall c, In c new -> J2 c) /\
    (forall f i K, In i (objs c1) -> selSum f i K (objsL new) = selSum f i K L)).
  { intros c1 l new H1 Hl HS L HL. destruct (splitC2_spec c1 H1 l new Hl HS) as [A B].
    split; auto. intros. rewrite <- B; auto. }
  assert (HE : forall c1 l new zs n, J1 c1 -> (forall c, In c l -> J2 c) ->
    splitC2 P c1 (getSize c1) l = Some new ->
    mfinish P n c1 new [] (nbins (cbin P)) (Fin 0) = Some zs ->
    forall L, (forall f i K, In i (objs c1) -> selSum f i K (objsL l) = selSum f i K L) ->
    Forall (zgood L) zs /\
    forall h k, (0 <= k < nbins (cbin P))%Z -> zcover k h zs = sumR h (objs c1)).
  { intros c1 l new zs n H1 Hl HS HH L HL. destruct (HF _ _ _ H1 Hl HS L HL) as [A B].
    assert (HI : inv L c1 new []).
    { intros v f Hv i K Hi. unfold mpSum. simpl. rewrite Rplus_0_l. auto. }
    destruct (mfinish_spec L _ _ _ _ _ _ _ H1 A (Z.le_refl _) HI HH) as [C D].
    split; auto. intros h k Hk. rewrite D by lia. destruct (Z.ltb_spec k (nbins (cbin P))); [auto|lia]. }
  induction c1 as [d o|d os|d s a IHa b IHb]; intros l zs H1 Hl H L HL; cbn [msplit1] in H;
  (destruct (splitC2 P _ _ l) as [new|] eqn:ES; [|discriminate]);
  (destruct (stillTooBig P _);
   [|eapply HE; [exact H1|exact Hl|exact ES|exact H|exact HL]]); try discriminate.
  destruct (HF _ _ _ H1 Hl ES L HL) as [A B].
  apply oapp_some in H as [u [w [U [V ->]]]].
  destruct (HJ1 _ _ _ _ H1) as [Ha Hb].
  destruct (IHa _ _ Ha A U L) as [U1 U2].
  { intros; apply B. simpl. apply in_or_app; auto. }
  destruct (IHb _ _ Hb A V L) as [V1 V2].
  { intros; apply B. simpl. apply in_or_app; auto. }
  split; [apply Forall_app; auto|].
  intros h k Hk. rewrite zcover_app, U2, V2 by auto. cbn [objs]. rewrite sumR_app. auto.
Qed.
End G.
