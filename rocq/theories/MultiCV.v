(** What the calculateGn calls add, in terms of the objects; totals of the runs. *)
From Coq Require Import Reals Lra Lia List ZArith Bool Permutation Psatz.
From Verif Require Import Base Geometry Tree Traverse Spin Run Corr3 Spec SpecRun GeomFacts SumFacts TreeFacts
  BinFacts TravFacts Exact MetricFacts Cover Lift Runs Multi SpecMulti MultiFacts MultiFacts2 MultiIdx MultiTot.
Import ListNotations.
Open Scope R_scope.

(** de Moivre *)
Lemma cpow_cis t n : cpow (cos t, sin t) n = (cos (INR n * t), sin (INR n * t)).
Proof.
  induction n as [|n IH].
  - simpl. rewrite Rmult_0_l, cos_0, sin_0. auto.
  - cbn [cpow]. rewrite IH, S_INR. replace ((INR n + 1) * t) with (INR n * t + t) by ring.
    rewrite cos_plus, sin_plus. unfold cmul; simpl. f_equal; ring.
Qed.

(** Sum of squares over the leaves. *)
Lemma NoDup_map_in {A B} (f : A -> B) l : NoDup (map f l) -> forall x y, In x l -> In y l -> f x = f y -> x = y.
Proof.
  induction l as [|a l IH]; simpl; intros H x y Hx Hy E; [tauto|].
  inversion H; subst. destruct Hx as [->|Hx], Hy as [->|Hy]; auto.
  - exfalso. apply H2. rewrite E. apply in_map; auto.
  - exfalso. apply H2. rewrite <- E. apply in_map; auto.
Qed.
Lemma same_pos_single (l : list obj) p : NoDup (map opos l) -> (forall o, In o l -> opos o = p) ->
  (length l <= 1)%nat.
Proof.
  intros H HP. destruct l as [|a [|b l]]; simpl; try lia. exfalso.
  simpl in H. inversion H; subst. apply H2. left. rewrite (HP b), (HP a); simpl; auto.
Qed.
Lemma NoDup_app_both {A} (l m : list A) : NoDup (l ++ m) -> NoDup l /\ NoDup m.
Proof.
  induction l as [|a l IH]; simpl; intro H; [split; [constructor|auto]|].
  inversion H; subst. destruct (IH H3). split; auto. constructor; auto. intro Hi. apply H2, in_or_app; auto.
Qed.
Lemma pdist0_eq p q : pdist p q <= 0 -> p = q.
Proof.
  intro H. pose proof (pdist_nonneg p q). apply pdist_0. lra.
Qed.
Lemma point_members c o : okcell 0 c -> getSize c = Fin 0 -> In o (objs c) -> opos o = getPos c.
Proof.
  intros H Hs Ho. pose proof (member_within 0 c o 0 ltac:(lra) H Ho Hs). symmetry. apply pdist0_eq. lra.
Qed.
Lemma sumSq_wf (v : cdata -> R) (u : obj -> R) :
  (forall c, okcell 0 c -> v (getData c) = sumR u (objs c)) ->
  forall c, wf 0 c -> NoDup (map opos (objs c)) -> sumSq v c = sumR (fun o => u o * u o) (objs c).
Proof.
  intros HV. induction c as [d o|d os|d s l IHl r IHr]; intros HW HN.
  - cbn [sumSq]. rewrite HV by (apply wf_ok; auto). simpl. ring.
  - cbn [sumSq]. rewrite HV by (apply wf_ok; auto).
    pose proof (wf_ok _ _ HW) as HO.
    assert (HL : (length (objs (ListLeaf d os)) <= 1)%nat).
    { apply (same_pos_single _ (getPos (ListLeaf d os))); auto. intros o Ho. apply point_members; auto. }
    destruct (objs (ListLeaf d os)) as [|a [|b t]]; simpl in *; try lia; ring.
  - destruct (wf_node _ _ _ _ _ HW) as [Wl Wr]. pose proof (wf_ok _ _ HW) as HO.
    cbn [sumSq]. replace (isFin0 s || (dn d =? 1)%nat) with false.
    + cbn [objs] in *. rewrite map_app in HN. apply NoDup_app_both in HN as [N1 N2].
      rewrite sumR_app, IHl, IHr by auto. auto.
    + symmetry. apply orb_false_iff. split.
      * pose proof (ok_size _ _ HO) as HS. cbn in HS. destruct s as [x|]; auto. simpl.
        unfold Reqb. destruct (Req_EM_T x 0); auto. lra.
      * apply Nat.eqb_neq. pose proof (ok_n _ _ HO) as En. unfold getN in En. cbn [getData objs] in En.
        rewrite En, app_length. pose proof (ok_ne _ _ (wf_ok _ _ Wl)). pose proof (ok_ne _ _ (wf_ok _ _ Wr)).
        destruct (objs l), (objs r); simpl; try congruence; lia.
Qed.

Section CVs.
Variable P : cparams.
Hypothesis HM : plainM (cmetric P).
Hypothesis HR : crpar P = None.
Hypothesis HB : validB (cbin P).
Hypothesis HT : btype (cbin P) = BLog.
Variables J1 J2 : cell -> Prop.
Hypothesis HW2 : forall b, J2 b -> wf 0 b.
Let ok2 b (H : J2 b) : okcell 0 b := wf_ok _ _ (HW2 b H).

Definition wtOf (wt : cdata -> R) (u : obj -> R) : Prop :=
  forall c, okcell 0 c -> wt (getData c) = sumR u (objs c).
Lemma wt_w : wtOf dw ow. Proof. intros c H. exact (ok_w _ _ H). Qed.
Lemma wt_wk : wtOf dwk (fun o => ow o * okappa o). Proof. intros c H. exact (ok_wk _ _ H). Qed.

Lemma CV_N : CV P J1 J2 gN (fun _ _ => 1).
Proof.
  intros a b k r lr Ha Hb HG i Hi. unfold gN; simpl. rewrite (ok_n _ _ (ok2 b Hb)).
  clear. induction (objs b) as [|x t IH]; [auto|]. rewrite (S_INR (length t) : INR (length (x :: t)) = _), IH. simpl. lra.
Qed.
Lemma CV_W : CV P J1 J2 gW (fun _ j => ow j).
Proof. intros a b k r lr Ha Hb HG i Hi. unfold gW; simpl. apply (ok_w _ _ (ok2 b Hb)). Qed.
(** n = 0 *)
Lemma CV_Re0 co wt u : wtOf wt u -> CV P J1 J2 (gRe co wt 0) (fun _ j => u j).
Proof.
  intros H a b k r lr Ha Hb HG i Hi. unfold gRe, cscale; simpl. rewrite (H b) by auto. rewrite Rmult_1_r. reflexivity.
Qed.
Lemma CV_Im0 co wt : CV P J1 J2 (gIm co wt 0) (fun _ _ => 0).
Proof.
  intros a b k r lr Ha Hb HG i Hi. unfold gIm, cscale; simpl. rewrite sumR_0 by auto. ring.
Qed.
(** squares, for distinct positions *)
Hypothesis HD2 : forall b, J2 b -> NoDup (map opos (objs b)).
Lemma CV_SQ wt u : wtOf wt u -> CV P J1 J2 (fun e => sumSq wt (g2 e)) (fun _ j => u j * u j).
Proof.
  intros H a b k r lr Ha Hb HG i Hi. simpl. apply sumSq_wf; auto.
Qed.

(** points *)
Hypothesis Hpt : forall a b k r lr, J1 a -> J2 b -> gcase P a b = GAdd k r lr ->
  (forall i, In i (objs a) -> opos i = getPos a) /\ (forall j, In j (objs b) -> opos j = getPos b).
Let d := mdist (cmetric P).
Lemma CV_r v u g : CV P J1 J2 v u ->
  CV P J1 J2 (fun e => v e * g (gr e)) (fun i j => u i j * g (d (opos i) (opos j))).
Proof.
  intros H a b k r lr Ha Hb HG i Hi. cbn [gr]. rewrite (H a b k r lr Ha Hb HG i Hi).
  destruct (Hpt a b k r lr Ha Hb HG) as [P1 P2].
  destruct (gadd_facts P HM HR HB HT a b k r lr HG) as [-> _].
  rewrite <- sumR_scal_r. apply sumR_ext. intros j Hj. rewrite (P1 i Hi), (P2 j Hj). auto.
Qed.
Lemma CV_logr v u : CV P J1 J2 v u ->
  CV P J1 J2 (fun e => v e * glogr e) (fun i j => u i j * ln (d (opos i) (opos j))).
Proof.
  intros H a b k r lr Ha Hb HG i Hi. cbn [glogr].
  destruct (gadd_facts P HM HR HB HT a b k r lr HG) as [_ [-> _]].
  apply (CV_r v u ln H a b k r (ln r)); auto.
Qed.

(** phases in the plane *)
Variable th : pos -> pos -> R.
Hypothesis Hth : polar th.
Hypothesis HE : cmetric P = Euclidean.
Hypothesis HF1 : forall a i, J1 a -> In i (objs a) -> pz (opos i) = 0.
Hypothesis HF2 : forall b j, J2 b -> In j (objs b) -> pz (opos j) = 0.
Lemma gz_cis a b k r lr i j : J1 a -> J2 b -> gcase P a b = GAdd k r lr -> In i (objs a) -> In j (objs b) ->
  gz Flat (mkG a b k r lr) = (cos (th (opos i) (opos j)), sin (th (opos i) (opos j))).
Proof.
  intros Ha Hb HG Hi Hj. destruct (Hpt a b k r lr Ha Hb HG) as [P1 P2].
  destruct (gadd_facts P HM HR HB HT a b k r lr HG) as [Er [_ [Hr _]]].
  unfold gz, expIPhi, cdivr. cbn [g1 g2 gr]. rewrite <- (P1 i Hi), <- (P2 j Hj) in *.
  destruct (Hth (opos i) (opos j)) as [E1 E2]; eauto.
  assert (Er' : r = euclid (opos i) (opos j)) by (rewrite Er, HE, euclid_pdist; reflexivity).
  cbn [fst snd]. rewrite E1, E2, <- Er'. f_equal; field; lra.
Qed.
Lemma CV_Re wt u n : wtOf wt u ->
  CV P J1 J2 (gRe Flat wt n) (fun i j => u j * cos (INR n * th (opos i) (opos j))).
Proof.
  intros H a b k r lr Ha Hb HG i Hi. unfold gRe, cscale. cbn [fst g2]. rewrite (H b) by auto.
  rewrite <- sumR_scal_r. apply sumR_ext. intros j Hj.
  rewrite (gz_cis a b k r lr i j), cpow_cis by auto. auto.
Qed.
Lemma CV_Im wt u n : wtOf wt u ->
  CV P J1 J2 (gIm Flat wt n) (fun i j => u j * sin (INR n * th (opos i) (opos j))).
Proof.
  intros H a b k r lr Ha Hb HG i Hi. unfold gIm, cscale. cbn [snd g2]. rewrite (H b) by auto.
  rewrite <- sumR_scal_r. apply sumR_ext. intros j Hj.
  rewrite (gz_cis a b k r lr i j), cpow_cis by auto. auto.
Qed.
End CVs.

(** ** Totals *)
Lemma inTops_top cs c : In c cs -> inTops cs c.
Proof. intro H. exists c. split; auto. apply sub_refl. Qed.
Lemma inTops_wf' m cs c : Forall (wf m) cs -> inTops cs c -> wf m c.
Proof. intros H [t [Ht Hs]]. rewrite Forall_forall in H. eapply wf_sub; eauto. Qed.
Lemma inTops_closed cs : childClosed (inTops cs).
Proof.
  intros d s l r [t [Ht Hs]]. split; exists t; split; auto; eapply subcell_trans; try apply Hs;
    [apply sub_l|apply sub_r]; apply sub_refl.
Qed.
Lemma reg_ge lo hi k2 k3 : inReg lo hi k2 k3 = true -> (lo <= k2)%Z /\ (lo <= k3)%Z.
Proof. unfold inReg. rewrite andb_true_iff, Z.leb_le. lia. Qed.
Section Tot.
Variable P : mparams.
Let C := mC P.
Hypothesis HM : plainM (cmetric C).
Hypothesis HR : crpar C = None.
Hypothesis HB : validB (cbin C).
Hypothesis HT : btype (cbin C) = BLog.
Let nb := nbins (mB P).


(** Sum over all calculateZeta calls of one-list runs. *)
Lemma auto_sumG {F} (bf : zev -> F -> bumps) cs1 cs2 : (forall a b, inTops cs1 a -> inTops cs2 b -> good C a b) ->
  forall s0 s1 f k2 k3 n h,
  mIters bf (map (fun c1 => msplit1 C c1 cs2) cs1) s0 s1 ->
  (0 <= k2 < nb)%Z -> (0 <= k3 < nb)%Z -> (- mxn P <= n <= mxn P)%Z ->
  (forall z, zgood C (inTops cs1) (inTops cs2) (objsL cs2) z ->
     getB (bf z f) (ix P k2 k3 n) =
     if inReg (zk z) (zmink z) k2 k3 then sumR h (objs (z1 z)) else 0) ->
  s1 f (ix P k2 k3 n) = s0 f (ix P k2 k3 n) + sumR h (objsL cs1).
Proof.
  intros HG s0 s1 f k2 k3 n h H H2 H3 Hn HV.
  destruct (mIters_get _ _ _ _ f (ix P k2 k3 n) H) as [evs [He ->]]. f_equal. clear H.
  assert (HI : forall l, (forall c, In c l -> inTops cs1 c) -> forall evs,
     map Some evs = map (fun c1 => msplit1 C c1 cs2) l ->
     sumR (fun e => getB (bf e f) (ix P k2 k3 n)) (concat evs) = sumR h (objsL l)).
  { induction l as [|c l IH]; intros HL [|zs evs'] E; try discriminate; [auto|].
    cbn [map] in E. injection E; intros E2 E1. cbn [concat]. rewrite sumR_app, objsL_cons, sumR_app.
    rewrite (IH (fun c Hc => HL c (or_intror Hc)) evs' E2). f_equal.
    destruct (msplit1_spec C HM HR HB HT (inTops cs1) (inTops cs2)
      (inTops_closed cs1) (inTops_closed cs2) HG c cs2 zs (HL c (or_introl eq_refl))
      (fun c Hc => inTops_top cs2 c Hc) (eq_sym E1) (objsL cs2) (fun f i K Hi => eq_refl)) as [HZ HC].
    rewrite <- (HC h (Z.min k2 k3)) by (subst nb C; unfold mB in *; lia). unfold zcover.
    apply sumR_ext. intros z Hz. rewrite Forall_forall in HZ. rewrite (HV z (HZ z Hz)). reflexivity. }
  apply HI; auto. intros c Hc. apply inTops_top; auto.
Qed.
Lemma auto_sum cs1 cs2 : (forall a b, inTops cs1 a -> inTops cs2 b -> good C a b) ->
  forall s0 s1 f k2 k3 n h,
  mIters (bumpsAuto P) (map (fun c1 => msplit1 C c1 cs2) cs1) s0 s1 ->
  (0 <= k2 < nb)%Z -> (0 <= k3 < nb)%Z -> (- mxn P <= n <= mxn P)%Z ->
  (forall z, zgood C (inTops cs1) (inTops cs2) (objsL cs2) z ->
     getB (bumpsAuto P z f) (ix P k2 k3 n) =
     if inReg (zk z) (zmink z) k2 k3 then sumR h (objs (z1 z)) else 0) ->
  s1 f (ix P k2 k3 n) = s0 f (ix P k2 k3 n) + sumR h (objsL cs1).
Proof. intros HG s0 s1 f. apply (auto_sumG (bumpsAuto P) cs1 cs2 HG s0 s1 f). Qed.
Lemma cross_sumG {F} (bf : zev2 -> F -> bumps) cs1 cs2 cs3 : (forall a b, inTops cs1 a -> inTops cs2 b -> good C a b) ->
  (forall a b, inTops cs1 a -> inTops cs3 b -> good C a b) ->
  forall s0 s1 f k2 k3 n h,
  mIters bf (map (fun c1 => msplit2 C c1 cs2 cs3) cs1) s0 s1 ->
  (0 <= k2 < nb)%Z -> (0 <= k3 < nb)%Z -> (- mxn P <= n <= mxn P)%Z ->
  (forall y, ygood C (inTops cs1) (inTops cs2) (inTops cs3) (objsL cs2) (objsL cs3) y ->
     getB (bf y f) (ix P k2 k3 n) =
     if inReg (yk y) (ymink y) k2 k3 then sumR h (objs (y1 y)) else 0) ->
  s1 f (ix P k2 k3 n) = s0 f (ix P k2 k3 n) + sumR h (objsL cs1).
Proof.
  intros HG2 HG3 s0 s1 f k2 k3 n h H H2 H3 Hn HV.
  destruct (mIters_get _ _ _ _ f (ix P k2 k3 n) H) as [evs [He ->]]. f_equal. clear H.
  assert (HI : forall l, (forall c, In c l -> inTops cs1 c) -> forall evs,
     map Some evs = map (fun c1 => msplit2 C c1 cs2 cs3) l ->
     sumR (fun e => getB (bf e f) (ix P k2 k3 n)) (concat evs) = sumR h (objsL l)).
  { induction l as [|c l IH]; intros HL [|zs evs'] E; try discriminate; [auto|].
    cbn [map] in E. injection E; intros E2 E1. cbn [concat]. rewrite sumR_app, objsL_cons, sumR_app.
    rewrite (IH (fun c Hc => HL c (or_intror Hc)) evs' E2). f_equal.
    destruct (msplit2_spec C HM HR HB HT (inTops cs1) (inTops cs2) (inTops cs3)
      (inTops_closed cs1) (inTops_closed cs2) (inTops_closed cs3) HG2 HG3 c cs2 cs3 zs (HL c (or_introl eq_refl))
      (fun c Hc => inTops_top cs2 c Hc) (fun c Hc => inTops_top cs3 c Hc)
      (eq_sym E1) (objsL cs2) (objsL cs3) (fun f i K Hi => eq_refl) (fun f i K Hi => eq_refl)) as [HZ HC].
    rewrite <- (HC h (Z.min k2 k3)) by (subst nb C; unfold mB in *; lia). unfold ycover.
    apply sumR_ext. intros z Hz. rewrite Forall_forall in HZ. rewrite (HV z (HZ z Hz)). reflexivity. }
  apply HI; auto. intros c Hc. apply inTops_top; auto.
Qed.
Lemma cross_sum o3 cs1 cs2 cs3 : (forall a b, inTops cs1 a -> inTops cs2 b -> good C a b) ->
  (forall a b, inTops cs1 a -> inTops cs3 b -> good C a b) ->
  forall s0 s1 f k2 k3 n h,
  mIters (bumpsCross P o3) (map (fun c1 => msplit2 C c1 cs2 cs3) cs1) s0 s1 ->
  (0 <= k2 < nb)%Z -> (0 <= k3 < nb)%Z -> (- mxn P <= n <= mxn P)%Z ->
  (forall y, ygood C (inTops cs1) (inTops cs2) (inTops cs3) (objsL cs2) (objsL cs3) y ->
     getB (bumpsCross P o3 y f) (ix P k2 k3 n) =
     if inReg (yk y) (ymink y) k2 k3 then sumR h (objs (y1 y)) else 0) ->
  s1 f (ix P k2 k3 n) = s0 f (ix P k2 k3 n) + sumR h (objsL cs1).
Proof. intros HG2 HG3 s0 s1 f. apply (cross_sumG (bumpsCross P o3) cs1 cs2 cs3 HG2 HG3 s0 s1 f). Qed.
End Tot.
