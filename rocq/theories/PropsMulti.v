(** C71-C73: the multipole algorithm of the three-point correlations gives the sums over
    triangles. *)
From Coq Require Import Reals Lra Lia List ZArith Bool Permutation Psatz.
From Verif Require Import Base Geometry Tree Traverse Spin Run Corr3 Spec SpecRun GeomFacts SumFacts TreeFacts
  BinFacts TravFacts Exact MetricFacts Cover Lift Runs
  Multi SpecMulti MultiFacts MultiFacts2 MultiIdx MultiTot MultiCV MultiVal MultiRun.
Import ListNotations.
Open Scope R_scope.

Lemma ix_entry P k2 k3 n : entry P k2 k3 n = ix P k2 k3 n. Proof. reflexivity. Qed.
Lemma valid_ranges P k2 k3 n : validEntry P k2 k3 n ->
  (0 <= k2 < nbins (mB P))%Z /\ (0 <= k3 < nbins (mB P))%Z /\ (- mxn P <= n <= mxn P)%Z.
Proof. auto. Qed.
Lemma exactMode_l P b1 b2 : exactMode P (b1 && b2) -> exactMode P b1.
Proof.
  intros [[H|H]|H]; [|left; right; auto|right; auto]. apply andb_true_iff in H as [-> _]. left; left; auto.
Qed.
Lemma exactMode_r P b1 b2 : exactMode P (b1 && b2) -> exactMode P b2.
Proof. rewrite andb_comm. apply exactMode_l. Qed.
Lemma pointMode_l P b1 b2 : pointMode P (b1 && b2) -> pointMode P b1.
Proof. intros [H|H]; [|right; auto]. apply andb_true_iff in H as [-> _]. left; auto. Qed.

(** ** One list for points 2 and 3 *)
Section One.
Variable P : mparams.
Hypothesis HV : validM P.
Variable d : pos -> pos -> R.
Hypothesis HM : metricSep (cmetric (mC P)) d.
Variables (b1 b2 : bool) (cat1 cat2 : list obj) (cs1 cs2 : list cell).
Hypothesis F1 : fieldOf P b1 cat1 cs1.
Hypothesis F2 : fieldOf P b2 cat2 cs2.
Hypothesis HE : exactMode P (b1 && b2).
Variables s0 s1 : accumM.
Hypothesis HRun : multipole12 P cs1 cs2 s0 s1.
Let S := tris (cbin (mC P)) d cat1 (dpairs cat2).
Let E1 := exactMode_l _ _ _ HE.
Let E2 := exactMode_r _ _ _ HE.
Let HB := proj1 HV.
Let HT := proj1 (proj2 HV).
Let HR := proj2 (proj2 HV).
Let HP := metricSep_plain _ _ HM.

Lemma one_W1 a : inTops cs1 a -> wf 0 a.
Proof. apply inTops_wf'. exact (field_wf P b1 cat1 cs1 HV E1 F1). Qed.
Lemma one_W2 b : inTops cs2 b -> wf 0 b.
Proof. apply inTops_wf'. exact (field_wf P b2 cat2 cs2 HV E2 F2). Qed.
Lemma one_good a b : inTops cs1 a -> inTops cs2 b -> good (mC P) a b.
Proof. exact (good_pair P HV d HM b1 b2 cat1 cat2 cs1 cs2 F1 F2 E1 E2 HE a b). Qed.

Lemma one_field f k2 k3 n T : validEntry P k2 k3 n ->
  (forall z, zgood (mC P) (inTops cs1) (inTops cs2) (objsL cs2) z ->
     getB (bumpsAuto P z f) (ix P k2 k3 n) =
     if inReg (zk z) (zmink z) k2 k3
     then sumR (fun i => TT (mC P) T k2 k3 i (dpairs (objsL cs2))) (objs (z1 z)) else 0) ->
  addsE P s0 s1 f k2 k3 n (S T k2 k3).
Proof.
  intros HVE HZ. apply valid_ranges in HVE as [H2 [H3 Hn]]. unfold addsE. rewrite !ix_entry.
  rewrite (auto_sum P HP HR HB HT cs1 cs2 one_good s0 s1 f k2 k3 n
    (fun i => TT (mC P) T k2 k3 i (dpairs (objsL cs2))) HRun H2 H3 Hn HZ). f_equal.
  rewrite (TT_triSum P d) by auto. unfold S, tris.
  rewrite (triSum_dperm _ _ _ _ _ _ _ _ (field_perm _ _ _ _ F2)).
  apply triSum_perm. eapply field_perm; eauto.
Qed.

Lemma one_counts : gainsCounts P s0 s1 S.
Proof.
  intros k2 k3 HVE. apply one_field; auto. apply valid_ranges in HVE as [H2 [H3 Hn]]. intros z Hz.
  apply val_ntri with (J1 := inTops cs1) (J2 := inTops cs2); auto. apply one_W1. apply one_W2.
Qed.

Hypothesis HD : distinctPos cat2.
Lemma one_D b : inTops cs2 b -> NoDup (map opos (objs b)).
Proof. intro H. eapply field_distinct; eauto. Qed.

Lemma one_zeta wt u (fr fi : mfield) n cc ss :
  wtOf wt u ->
  (forall z im, bumpsAuto P z (if im : bool then fi else fr) = zetaAuto P z (wt (getData (z1 z)))
      (mpC (mcoord P) wt (zmp z)) (mpSum (fun e => sumSq wt (g2 e)) (zmp z)) im) ->
  (forall i j : obj, cc i j * cc i j + ss i j * ss i j = 1) ->
  CV (mC P) (inTops cs1) (inTops cs2) (gRe (mcoord P) wt (Z.abs_nat n)) (fun i j => u j * cc i j) ->
  CV (mC P) (inTops cs1) (inTops cs2) (gIm (mcoord P) wt (Z.abs_nat n)) (fun i j => u j * ss i j) ->
  forall k2 k3 im, validEntry P k2 k3 n ->
  addsE P s0 s1 (if im : bool then fi else fr) k2 k3 n
    (S (fun p1 p2 p3 => u p1 * u p2 * u p3 * trig im n (cc p1 p3) (ss p1 p3) (cc p1 p2) (ss p1 p2)) k2 k3).
Proof.
  intros HU HF HCS Cr Ci k2 k3 im HVE. apply one_field; auto. apply valid_ranges in HVE as [H2 [H3 Hn]].
  intros z Hz. rewrite HF.
  apply val_zeta with (J1 := inTops cs1) (J2 := inTops cs2); auto.
  - apply one_W1.
  - apply CV_SQ; auto. apply one_W2. apply one_D.
Qed.
Lemma bumps_W z im : bumpsAuto P z (if im : bool then MWi else MWr) = zetaAuto P z (dw (getData (z1 z)))
      (mpC (mcoord P) dw (zmp z)) (mpSum (fun e => sumSq dw (g2 e)) (zmp z)) im.
Proof. destruct im; reflexivity. Qed.
Lemma bumps_Z z im : bumpsAuto P z (if im : bool then MZi else MZr) = zetaAuto P z (dwk (getData (z1 z)))
      (mpC (mcoord P) dwk (zmp z)) (mpSum (fun e => sumSq dwk (g2 e)) (zmp z)) im.
Proof. destruct im; reflexivity. Qed.

Lemma S_ext T T' k2 k3 : (forall a b c, T a b c = T' a b c) -> S T k2 k3 = S T' k2 k3.
Proof. intro H. apply triSum_ext; auto. Qed.
Lemma S_zero T k2 k3 : (forall a b c, T a b c = 0) -> S T k2 k3 = 0.
Proof.
  intro H. unfold S, tris, triSum. apply sumR_0. intros i _. apply sumR_0. intros q _.
  rewrite H. match goal with |- (if ?b then _ else _) = _ => destruct b; auto end.
Qed.
Lemma one_weight0 : gainsWeight0 P s0 s1 S.
Proof.
  intros k2 k3 HVE.
  assert (HZ : forall wt u fr fi, wtOf wt u ->
    (forall z im, bumpsAuto P z (if im : bool then fi else fr) = zetaAuto P z (wt (getData (z1 z)))
      (mpC (mcoord P) wt (zmp z)) (mpSum (fun e => sumSq wt (g2 e)) (zmp z)) im) ->
    addsE P s0 s1 fr k2 k3 0 (S (fun a b c => u a * u b * u c) k2 k3) /\ addsE P s0 s1 fi k2 k3 0 0).
  { intros wt u fr fi HU HF.
    pose proof (one_zeta wt u fr fi 0 (fun _ _ => 1) (fun _ _ => 0) HU HF) as H.
    assert (HA : forall im, addsE P s0 s1 (if im : bool then fi else fr) k2 k3 0
       (S (fun p1 p2 p3 => u p1 * u p2 * u p3 * trig im 0 1 0 1 0) k2 k3)).
    { intro im. apply H; auto.
      - intros; ring.
      - eapply CV_fext; [|apply CV_Re0; [apply one_W2|exact HU]]. intros; simpl; ring.
      - eapply CV_fext; [|apply CV_Im0]. intros; simpl; ring. }
    split.
    - rewrite (S_ext (fun a b c => u a * u b * u c) (fun p1 p2 p3 => u p1 * u p2 * u p3 * trig false 0 1 0 1 0)).
      + exact (HA false).
      + intros. unfold trig. ring.
    - rewrite <- (S_zero (fun p1 p2 p3 => u p1 * u p2 * u p3 * trig true 0 1 0 1 0) k2 k3).
      + exact (HA true).
      + intros. unfold trig. ring. }
  destruct (HZ dw ow MWr MWi wt_w bumps_W) as [A1 A2].
  destruct (HZ dwk _ MZr MZi wt_wk bumps_Z) as [A3 A4]. repeat split; auto.
Qed.

Hypothesis HPt : pointMode P (b1 && b2).
Lemma one_pt a b k r lr : inTops cs1 a -> inTops cs2 b -> gcase (mC P) a b = GAdd k r lr ->
  (forall i, In i (objs a) -> opos i = getPos a) /\ (forall j, In j (objs b) -> opos j = getPos b).
Proof. exact (point_pair P HV d HM b1 b2 cat1 cat2 cs1 cs2 F1 F2 E1 E2 HE a b k r lr HPt). Qed.
Lemma one_sides : gainsSides P d s0 s1 S /\ gainsLogD3 P d s0 s1 S.
Proof.
  assert (HCW : CV (mC P) (inTops cs1) (inTops cs2) gW (fun _ j => ow j)) by (apply CV_W, one_W2).
  assert (HCWW : CV (mC P) (inTops cs1) (inTops cs2) (fun e => sumSq dw (g2 e)) (fun _ j => ow j * ow j)).
  { apply CV_SQ; [apply one_W2|apply one_D|apply wt_w]. }
  assert (CS : CV (mC P) (inTops cs1) (inTops cs2) gWr (fun i j => ow j * d (opos i) (opos j))).
  { eapply CV_fext; [|exact (CV_r (mC P) HP HR HB HT _ _ one_pt gW (fun _ j => ow j) (fun x => x) HCW)].
    intros; simpl. rewrite (metricSep_mdist _ d); auto. }
  assert (CSS : CV (mC P) (inTops cs1) (inTops cs2) gWWr (fun i j => ow j * ow j * d (opos i) (opos j))).
  { eapply CV_fext; [|exact (CV_r (mC P) HP HR HB HT _ _ one_pt _ (fun _ j => ow j * ow j) (fun x => x) HCWW)].
    intros; simpl. rewrite (metricSep_mdist _ d); auto. }
  assert (CL : CV (mC P) (inTops cs1) (inTops cs2) gWlogr (fun i j => ow j * ln (d (opos i) (opos j)))).
  { eapply CV_fext; [|exact (CV_logr (mC P) HP HR HB HT _ _ one_pt gW (fun _ j => ow j) HCW)].
    intros; simpl. rewrite (metricSep_mdist _ d); auto. }
  assert (CLL : CV (mC P) (inTops cs1) (inTops cs2) gWWlogr (fun i j => ow j * ow j * ln (d (opos i) (opos j)))).
  { eapply CV_fext; [|exact (CV_logr (mC P) HP HR HB HT _ _ one_pt _ (fun _ j => ow j * ow j) HCWW)].
    intros; simpl. rewrite (metricSep_mdist _ d); auto. }
  split; [intros k2 k3 HVE; repeat split|intros k2 k3 HVE]; apply one_field; auto;
    apply valid_ranges in HVE as [H2 [H3 Hn]]; intros z Hz; unfold bumpsAuto.
  - apply (val_d2 P HR HB _ _ one_W1 one_W2 _ z Hz k2 k3 H2 H3 (fun a b => d (opos a) (opos b))); auto.
  - apply (val_d2 P HR HB _ _ one_W1 one_W2 _ z Hz k2 k3 H2 H3 (fun a b => ln (d (opos a) (opos b)))); auto.
  - apply (val_d3 P HR HB _ _ one_W1 one_W2 _ z Hz k2 k3 H2 H3 (fun a b => d (opos a) (opos b))); auto.
  - apply (val_d3 P HR HB _ _ one_W1 one_W2 _ z Hz k2 k3 H2 H3 (fun a b => ln (d (opos a) (opos b)))); auto.
Qed.

Variable th : pos -> pos -> R.
Hypothesis Hth : polar th.
Hypothesis HEu : cmetric (mC P) = Euclidean.
Hypothesis HFl : mcoord P = Flat.
Hypothesis HF1 : flatCat cat1.
Hypothesis HF2 : flatCat cat2.
Lemma one_phases : gainsPhases P th s0 s1 S.
Proof.
  intros k2 k3 n HVE.
  assert (G1 : forall a i, inTops cs1 a -> In i (objs a) -> pz (opos i) = 0).
  { intros a i Ha Hi. apply HF1. exact (field_objs _ _ _ _ _ _ F1 Ha Hi). }
  assert (G2 : forall a i, inTops cs2 a -> In i (objs a) -> pz (opos i) = 0).
  { intros a i Ha Hi. apply HF2. exact (field_objs _ _ _ _ _ _ F2 Ha Hi). }
  assert (HZ : forall wt u fr fi T, wtOf wt u -> (forall a b c, T a b c = u a * u b * u c) ->
    (forall z im, bumpsAuto P z (if im : bool then fi else fr) = zetaAuto P z (wt (getData (z1 z)))
      (mpC (mcoord P) wt (zmp z)) (mpSum (fun e => sumSq wt (g2 e)) (zmp z)) im) ->
    addsE P s0 s1 fr k2 k3 n (S (t_cos T th n) k2 k3) /\ addsE P s0 s1 fi k2 k3 n (S (t_sin T th n) k2 k3)).
  { intros wt u fr fi T HU HTT HF.
    set (m := Z.abs_nat n).
    pose proof (one_zeta wt u fr fi n (fun i j => cos (INR m * th (opos i) (opos j)))
      (fun i j => sin (INR m * th (opos i) (opos j))) HU HF) as H.
    assert (HA : forall im, addsE P s0 s1 (if im : bool then fi else fr) k2 k3 n
       (S (if im then t_sin T th n else t_cos T th n) k2 k3)).
    { intro im.
      rewrite (S_ext _ (fun p1 p2 p3 => u p1 * u p2 * u p3 * trig im n (cos (INR m * th (opos p1) (opos p3)))
         (sin (INR m * th (opos p1) (opos p3))) (cos (INR m * th (opos p1) (opos p2)))
         (sin (INR m * th (opos p1) (opos p2))))).
      - apply H; auto.
        + intros i j. pose proof (sin2_cos2 (INR m * th (opos i) (opos j))) as E. unfold Rsqr in E. lra.
        + rewrite HFl. apply CV_Re; auto. apply one_W2. apply one_pt.
        + rewrite HFl. apply CV_Im; auto. apply one_W2. apply one_pt.
      - intros a b c. unfold m. rewrite (trig_angles im n (IZR n)) by auto.
        destruct im; unfold t_sin, t_cos; rewrite HTT; auto. }
    split; [exact (HA false)|exact (HA true)]. }
  destruct (HZ dw ow MWr MWi t_www wt_w (fun _ _ _ => eq_refl) bumps_W) as [A1 A2].
  destruct (HZ dwk _ MZr MZi t_kkk wt_wk (fun _ _ _ => eq_refl) bumps_Z) as [A3 A4]. repeat split; auto.
Qed.
End One.

Lemma tris_ext B d cat1 l T T' k2 k3 : (forall a b c, T a b c = T' a b c) ->
  tris B d cat1 l T k2 k3 = tris B d cat1 l T' k2 k3.
Proof. intro H. apply triSum_ext; auto. Qed.
Lemma tris_zero B d cat1 l T k2 k3 : (forall a b c, T a b c = 0) -> tris B d cat1 l T k2 k3 = 0.
Proof.
  intro H. unfold tris, triSum. apply sumR_0. intros i _. apply sumR_0. intros q _.
  rewrite H. match goal with |- (if ?b then _ else _) = _ => destruct b; auto end.
Qed.

(** ** Two lists *)
Section Two.
Variable P : mparams.
Hypothesis HV : validM P.
Variable d : pos -> pos -> R.
Hypothesis HM : metricSep (cmetric (mC P)) d.
Variables (b1 b2 b3 : bool) (cat1 cat2 cat3 : list obj) (cs1 cs2 cs3 : list cell).
Hypothesis F1 : fieldOf P b1 cat1 cs1.
Hypothesis F2 : fieldOf P b2 cat2 cs2.
Hypothesis F3 : fieldOf P b3 cat3 cs3.
Hypothesis HE2 : exactMode P (b1 && b2).
Hypothesis HE3 : exactMode P (b1 && b3).
Variable o3 : bool.
Variables s0 s1 : accumM.
Hypothesis HRun : multipole3 P o3 cs1 cs2 cs3 s0 s1.
Let l := if o3 then pairs cat2 cat3 else bothOrders cat2 cat3.
Let S := tris (cbin (mC P)) d cat1 l.
Let E1 := exactMode_l _ _ _ HE2.
Let E2 := exactMode_r _ _ _ HE2.
Let E3 := exactMode_r _ _ _ HE3.
Let HB := proj1 HV.
Let HT := proj1 (proj2 HV).
Let HR := proj2 (proj2 HV).
Let HP := metricSep_plain _ _ HM.

Lemma two_W1 a : inTops cs1 a -> wf 0 a.
Proof. apply inTops_wf'. exact (field_wf P b1 cat1 cs1 HV E1 F1). Qed.
Lemma two_W2 b : inTops cs2 b -> wf 0 b.
Proof. apply inTops_wf'. exact (field_wf P b2 cat2 cs2 HV E2 F2). Qed.
Lemma two_W3 b : inTops cs3 b -> wf 0 b.
Proof. apply inTops_wf'. exact (field_wf P b3 cat3 cs3 HV E3 F3). Qed.
Lemma two_good2 a b : inTops cs1 a -> inTops cs2 b -> good (mC P) a b.
Proof. exact (good_pair P HV d HM b1 b2 cat1 cat2 cs1 cs2 F1 F2 E1 E2 HE2 a b). Qed.
Lemma two_good3 a b : inTops cs1 a -> inTops cs3 b -> good (mC P) a b.
Proof. exact (good_pair P HV d HM b1 b3 cat1 cat3 cs1 cs3 F1 F3 E1 E3 HE3 a b). Qed.

Lemma two_field f k2 k3 n T : validEntry P k2 k3 n ->
  (forall y, ygood (mC P) (inTops cs1) (inTops cs2) (inTops cs3) (objsL cs2) (objsL cs3) y ->
     getB (bumpsCross P o3 y f) (ix P k2 k3 n) = spec2 P (objsL cs2) (objsL cs3) y k2 k3 o3 T) ->
  addsE P s0 s1 f k2 k3 n (S T k2 k3).
Proof.
  intros HVE HZ. apply valid_ranges in HVE as [H2 [H3 Hn]]. unfold addsE. rewrite !ix_entry.
  rewrite (cross_sum P HP HR HB HT o3 cs1 cs2 cs3 two_good2 two_good3 s0 s1 f k2 k3 n
    (fun i => TT (mC P) T k2 k3 i (plist (objsL cs2) (objsL cs3) o3)) HRun H2 H3 Hn HZ). f_equal.
  rewrite (TT_triSum P d) by auto. unfold S, tris, l, plist, bothOrders.
  pose proof (field_perm _ _ _ _ F2) as Q2. pose proof (field_perm _ _ _ _ F3) as Q3.
  rewrite (triSum_perm _ _ _ _ _ _ _ _ (field_perm _ _ _ _ F1)).
  destruct o3; [apply triSum_pperm; auto|]. rewrite !triSum_app. f_equal; apply triSum_pperm; auto.
Qed.
Lemma two_counts : gainsCounts P s0 s1 S.
Proof.
  intros k2 k3 HVE. apply two_field; auto. apply valid_ranges in HVE as [H2 [H3 Hn]]. intros y Hy.
  exact (cval_ntri P _ _ _ two_W1 two_W2 two_W3 _ _ y Hy k2 k3 H2 H3 o3).
Qed.

Lemma two_zeta wt u (fr fi : mfield) n cc ss :
  wtOf wt u ->
  (fr = MWr /\ fi = MWi /\ wt = dw \/ fr = MZr /\ fi = MZi /\ wt = dwk) ->
  CV (mC P) (inTops cs1) (inTops cs2) (gRe (mcoord P) wt (Z.abs_nat n)) (fun i j => u j * cc i j) ->
  CV (mC P) (inTops cs1) (inTops cs2) (gIm (mcoord P) wt (Z.abs_nat n)) (fun i j => u j * ss i j) ->
  CV (mC P) (inTops cs1) (inTops cs3) (gRe (mcoord P) wt (Z.abs_nat n)) (fun i j => u j * cc i j) ->
  CV (mC P) (inTops cs1) (inTops cs3) (gIm (mcoord P) wt (Z.abs_nat n)) (fun i j => u j * ss i j) ->
  forall k2 k3 im, validEntry P k2 k3 n ->
  addsE P s0 s1 (if im : bool then fi else fr) k2 k3 n
    (S (fun p1 p2 p3 => u p1 * u p2 * u p3 * trig im n (cc p1 p3) (ss p1 p3) (cc p1 p2) (ss p1 p2)) k2 k3).
Proof.
  intros HU HF Cr Ci Cr3 Ci3 k2 k3 im HVE. apply two_field; auto. apply valid_ranges in HVE as [H2 [H3 Hn]].
  intros y Hy.
  rewrite <- (cval_zeta P _ _ _ two_W1 _ _ y Hy k2 k3 H2 H3 o3 (mcoord P) wt u n cc ss im HU Hn Cr Ci Cr3 Ci3).
  destruct HF as [[-> [-> ->]]|[-> [-> ->]]]; destruct im, o3; reflexivity.
Qed.
Lemma two_weight0 : gainsWeight0 P s0 s1 S.
Proof.
  intros k2 k3 HVE.
  assert (HZ : forall wt u fr fi, wtOf wt u ->
    (fr = MWr /\ fi = MWi /\ wt = dw \/ fr = MZr /\ fi = MZi /\ wt = dwk) ->
    addsE P s0 s1 fr k2 k3 0 (S (fun a b c => u a * u b * u c) k2 k3) /\ addsE P s0 s1 fi k2 k3 0 0).
  { intros wt u fr fi HU HF.
    pose proof (two_zeta wt u fr fi 0 (fun _ _ => 1) (fun _ _ => 0) HU HF) as H.
    assert (HA : forall im, addsE P s0 s1 (if im : bool then fi else fr) k2 k3 0
       (S (fun p1 p2 p3 => u p1 * u p2 * u p3 * trig im 0 1 0 1 0) k2 k3)).
    { intro im. apply H; auto.
      - eapply CV_fext; [|apply CV_Re0; [apply two_W2|exact HU]]. intros; simpl; ring.
      - eapply CV_fext; [|apply CV_Im0]. intros; simpl; ring.
      - eapply CV_fext; [|apply CV_Re0; [apply two_W3|exact HU]]. intros; simpl; ring.
      - eapply CV_fext; [|apply CV_Im0]. intros; simpl; ring. }
    split.
    - unfold S. rewrite (tris_ext _ _ _ _ (fun a b c => u a * u b * u c) (fun p1 p2 p3 => u p1 * u p2 * u p3 * trig false 0 1 0 1 0)).
      + exact (HA false).
      + intros. unfold trig. ring.
    - rewrite <- (tris_zero (cbin (mC P)) d cat1 l (fun p1 p2 p3 => u p1 * u p2 * u p3 * trig true 0 1 0 1 0) k2 k3).
      + exact (HA true).
      + intros. unfold trig. ring. }
  destruct (HZ dw ow MWr MWi wt_w) as [A1 A2]; [left; auto|].
  destruct (HZ dwk _ MZr MZi wt_wk) as [A3 A4]; [right; auto|]. repeat split; auto.
Qed.

Hypothesis HPt2 : pointMode P (b1 && b2).
Hypothesis HPt3 : pointMode P (b1 && b3).
Lemma two_pt2 a b k r lr : inTops cs1 a -> inTops cs2 b -> gcase (mC P) a b = GAdd k r lr ->
  (forall i, In i (objs a) -> opos i = getPos a) /\ (forall j, In j (objs b) -> opos j = getPos b).
Proof. exact (point_pair P HV d HM b1 b2 cat1 cat2 cs1 cs2 F1 F2 E1 E2 HE2 a b k r lr HPt2). Qed.
Lemma two_pt3 a b k r lr : inTops cs1 a -> inTops cs3 b -> gcase (mC P) a b = GAdd k r lr ->
  (forall i, In i (objs a) -> opos i = getPos a) /\ (forall j, In j (objs b) -> opos j = getPos b).
Proof. exact (point_pair P HV d HM b1 b3 cat1 cat3 cs1 cs3 F1 F3 E1 E3 HE3 a b k r lr HPt3). Qed.
Lemma two_CVs : forall J, (J = inTops cs2 \/ J = inTops cs3) ->
  CV (mC P) (inTops cs1) J gWr (fun i j => ow j * d (opos i) (opos j)) /\
  CV (mC P) (inTops cs1) J gWlogr (fun i j => ow j * ln (d (opos i) (opos j))).
Proof.
  intros J HJ.
  assert (HW : forall b, J b -> wf 0 b) by (destruct HJ as [->| ->]; [apply two_W2|apply two_W3]).
  assert (HPJ : forall a b k r lr, inTops cs1 a -> J b -> gcase (mC P) a b = GAdd k r lr ->
    (forall i, In i (objs a) -> opos i = getPos a) /\ (forall j, In j (objs b) -> opos j = getPos b)).
  { destruct HJ as [->| ->]; [apply two_pt2|apply two_pt3]. }
  assert (HCW : CV (mC P) (inTops cs1) J gW (fun _ j => ow j)) by (apply CV_W; auto).
  split.
  - eapply CV_fext; [|exact (CV_r (mC P) HP HR HB HT _ _ HPJ gW (fun _ j => ow j) (fun x => x) HCW)].
    intros; simpl. rewrite (metricSep_mdist _ d); auto.
  - eapply CV_fext; [|exact (CV_logr (mC P) HP HR HB HT _ _ HPJ gW (fun _ j => ow j) HCW)].
    intros; simpl. rewrite (metricSep_mdist _ d); auto.
Qed.
Lemma two_sides : gainsSides P d s0 s1 S /\ (o3 = true -> gainsLogD3 P d s0 s1 S).
Proof.
  destruct (two_CVs (inTops cs2) (or_introl eq_refl)) as [R2 L2].
  destruct (two_CVs (inTops cs3) (or_intror eq_refl)) as [R3 L3].
  split.
  - intros k2 k3 HVE; repeat split; apply two_field; auto;
    apply valid_ranges in HVE as [H2 [H3 Hn]]; intros y Hy.
    + etransitivity; [|exact (cval_d2 P _ _ _ two_W1 two_W2 two_W3 _ _ y Hy k2 k3 H2 H3 (fun a b => d (opos a) (opos b)) gWr o3 R2 R3)].
      destruct o3; reflexivity.
    + etransitivity; [|exact (cval_d2 P _ _ _ two_W1 two_W2 two_W3 _ _ y Hy k2 k3 H2 H3 (fun a b => ln (d (opos a) (opos b))) gWlogr o3 L2 L3)].
      destruct o3; reflexivity.
    + etransitivity; [|exact (cval_d3 P _ _ _ two_W1 two_W2 two_W3 _ _ y Hy k2 k3 H2 H3 (fun a b => d (opos a) (opos b)) gWr o3 R2 R3)].
      destruct o3; reflexivity.
  - intros Ho k2 k3 HVE; apply two_field; auto;
    apply valid_ranges in HVE as [H2 [H3 Hn]]; intros y Hy.
    etransitivity; [|exact (cval_d3 P _ _ _ two_W1 two_W2 two_W3 _ _ y Hy k2 k3 H2 H3 (fun a b => ln (d (opos a) (opos b))) gWlogr o3 L2 L3)].
    rewrite Ho. reflexivity.
Qed.

(** What the code adds to meanlogd3 for ordered=False or 1. *)
Lemma two_logd3_actual k2 k3 : o3 = false -> validEntry P k2 k3 0 ->
  addsE P s0 s1 MLogD3 k2 k3 0
    (triSum (cbin (mC P)) d k2 k3 (t_d3 ln d) cat1 (pairs cat3 cat2) +
     triSum (cbin (mC P)) d k3 k3 (t_d3 ln d) cat1 (pairs cat2 cat3)).
Proof.
  intros Ho HVE. apply valid_ranges in HVE as [H2 [H3 Hn]].
  destruct (two_CVs (inTops cs2) (or_introl eq_refl)) as [_ L2].
  destruct (two_CVs (inTops cs3) (or_intror eq_refl)) as [_ L3].
  set (T := t_d3 ln d).
  assert (HTT : forall i x2 x3, T i x2 x3 = ow i * (ow x3 * (ow x2 * ln (d (opos i) (opos x2)))))
    by (intros; unfold T, t_d3, t_www; ring).
  unfold addsE. rewrite !ix_entry.
  rewrite (cross_sum P HP HR HB HT o3 cs1 cs2 cs3 two_good2 two_good3 s0 s1 MLogD3 k2 k3 0
    (fun i => TT (mC P) T k2 k3 i (pairs (objsL cs3) (objsL cs2)) + TT (mC P) T k3 k3 i (pairs (objsL cs2) (objsL cs3))) HRun H2 H3 Hn).
  - f_equal. rewrite sumR_plus, !(TT_triSum P d) by auto.
    pose proof (field_perm _ _ _ _ F2) as Q2. pose proof (field_perm _ _ _ _ F3) as Q3.
    rewrite !(triSum_perm _ _ _ _ _ _ _ _ (field_perm _ _ _ _ F1)).
    f_equal; apply triSum_pperm; auto.
  - intros y Hy. rewrite Ho.
    transitivity (getB (loop2 P y (fun a b i => [(i, getW (y1 y) * (mpSum gW (ymp2 y) a * mpSum gWlogr (ymp3 y) b +
      mpSum gW (ymp3 y) b * mpSum gWlogr (ymp2 y) b))])) (ix P k2 k3 0)); [reflexivity|].
    rewrite (one_get P (inTops cs1) (inTops cs2) (inTops cs3) (objsL cs2) (objsL cs3) y Hy k2 k3 H2 H3).
    destruct (inReg (yk y) (ymink y) k2 k3) eqn:EI; auto.
    rewrite sumR_plus.
    rewrite <- (cval1' P (inTops cs1) (inTops cs2) (inTops cs3) (objsL cs2) (objsL cs3) y Hy k2 k3 T ow (getW (y1 y)) gW gWlogr
      (fun _ j => ow j) (fun i j => ow j * ln (d (opos i) (opos j))) EI); auto.
    + pose proof EI as EI'. apply reg_ge in EI' as [I2 I3].
      pose proof (cross_val (mC P) (inTops cs1) (inTops cs2) (inTops cs3) (objsL cs2) (objsL cs3) y k3 k3 ow (getW (y1 y)) gW gWlogr
         (fun _ => 0) (fun _ => 0) (fun _ j => ow j) (fun i j => ow j * ln (d (opos i) (opos j))) (fun _ _ => 0) (fun _ _ => 0)
         Hy I3 I3 (CV_W _ _ _ two_W3) L2 (CV_zero _ _ _) (CV_zero _ _ _)
         (c_W P (inTops cs1) (inTops cs2) (inTops cs3) two_W1 (objsL cs2) (objsL cs3) y Hy)) as E.
      rewrite !mpSum_zero in E.
      transitivity (getW (y1 y) * (mpSum gW (ymp2 y) k2 * mpSum gWlogr (ymp3 y) k3) +
        getW (y1 y) * (mpSum gW (ymp3 y) k3 * mpSum gWlogr (ymp2 y) k3 + 0 * 0)); [ring|].
      rewrite E. f_equal. apply sumR_ext. intros i _. apply sumR_ext. intros q _. rewrite HTT.
      destruct (selT (mC P) k3 k3 i q); auto. ring.
    + apply CV_W. apply two_W2.
    + exact (c_W P (inTops cs1) (inTops cs2) (inTops cs3) two_W1 (objsL cs2) (objsL cs3) y Hy).
Qed.

Variable th : pos -> pos -> R.
Hypothesis Hth : polar th.
Hypothesis HEu : cmetric (mC P) = Euclidean.
Hypothesis HFl : mcoord P = Flat.
Hypothesis HF1 : flatCat cat1.
Hypothesis HF2 : flatCat cat2.
Hypothesis HF3 : flatCat cat3.
Lemma two_phases : gainsPhases P th s0 s1 S.
Proof.
  intros k2 k3 n HVE.
  assert (G1 : forall a i, inTops cs1 a -> In i (objs a) -> pz (opos i) = 0).
  { intros a i Ha Hi. apply HF1. exact (field_objs _ _ _ _ _ _ F1 Ha Hi). }
  assert (G2 : forall a i, inTops cs2 a -> In i (objs a) -> pz (opos i) = 0).
  { intros a i Ha Hi. apply HF2. exact (field_objs _ _ _ _ _ _ F2 Ha Hi). }
  assert (G3 : forall a i, inTops cs3 a -> In i (objs a) -> pz (opos i) = 0).
  { intros a i Ha Hi. apply HF3. exact (field_objs _ _ _ _ _ _ F3 Ha Hi). }
  assert (HZ : forall wt u fr fi T, wtOf wt u -> (forall a b c, T a b c = u a * u b * u c) ->
    (fr = MWr /\ fi = MWi /\ wt = dw \/ fr = MZr /\ fi = MZi /\ wt = dwk) ->
    addsE P s0 s1 fr k2 k3 n (S (t_cos T th n) k2 k3) /\ addsE P s0 s1 fi k2 k3 n (S (t_sin T th n) k2 k3)).
  { intros wt u fr fi T HU HTT HF.
    set (m := Z.abs_nat n).
    pose proof (two_zeta wt u fr fi n (fun i j => cos (INR m * th (opos i) (opos j)))
      (fun i j => sin (INR m * th (opos i) (opos j))) HU HF) as H.
    assert (HA : forall im, addsE P s0 s1 (if im : bool then fi else fr) k2 k3 n
       (S (if im then t_sin T th n else t_cos T th n) k2 k3)).
    { intro im. unfold S.
      rewrite (tris_ext _ _ _ _ _ (fun p1 p2 p3 => u p1 * u p2 * u p3 * trig im n (cos (INR m * th (opos p1) (opos p3)))
         (sin (INR m * th (opos p1) (opos p3))) (cos (INR m * th (opos p1) (opos p2)))
         (sin (INR m * th (opos p1) (opos p2))))).
      - apply H; auto; rewrite HFl.
        + apply CV_Re; auto. apply two_W2. apply two_pt2.
        + apply CV_Im; auto. apply two_W2. apply two_pt2.
        + apply CV_Re; auto. apply two_W3. apply two_pt3.
        + apply CV_Im; auto. apply two_W3. apply two_pt3.
      - intros a b c. unfold m. rewrite (trig_angles im n (IZR n)) by auto.
        destruct im; unfold t_sin, t_cos; rewrite HTT; auto. }
    split; [exact (HA false)|exact (HA true)]. }
  destruct (HZ dw ow MWr MWi t_www wt_w (fun _ _ _ => eq_refl)) as [A1 A2]; [left; auto|].
  destruct (HZ dwk _ MZr MZi t_kkk wt_wk (fun _ _ _ => eq_refl)) as [A3 A4]; [right; auto|]. repeat split; auto.
Qed.
End Two.

(** ** Composition *)
Lemma addsE_plus P s0 s s1 f k2 k3 n a b :
  addsE P s0 s f k2 k3 n a -> addsE P s s1 f k2 k3 n b -> addsE P s0 s1 f k2 k3 n (a + b).
Proof. unfold addsE. intros -> ->. lra. Qed.
Lemma counts_plus P s0 s s1 S S' : gainsCounts P s0 s S -> gainsCounts P s s1 S' -> gainsCounts P s0 s1 (tplus S S').
Proof. intros H H' k2 k3 HV. eapply addsE_plus; [apply H|apply H']; auto. Qed.
Lemma weight0_plus P s0 s s1 S S' : gainsWeight0 P s0 s S -> gainsWeight0 P s s1 S' -> gainsWeight0 P s0 s1 (tplus S S').
Proof.
  intros H H' k2 k3 HV. destruct (H k2 k3 HV) as [A [B [C D]]]. destruct (H' k2 k3 HV) as [A' [B' [C' D']]].
  repeat split; [eapply addsE_plus; eauto| |eapply addsE_plus; eauto|];
    [replace 0 with (0 + 0) by ring|replace 0 with (0 + 0) by ring]; eapply addsE_plus; eauto.
Qed.
Lemma sides_plus P d s0 s s1 S S' : gainsSides P d s0 s S -> gainsSides P d s s1 S' -> gainsSides P d s0 s1 (tplus S S').
Proof.
  intros H H' k2 k3 HV. destruct (H k2 k3 HV) as [A [B C]]. destruct (H' k2 k3 HV) as [A' [B' C']].
  repeat split; eapply addsE_plus; eauto.
Qed.
Lemma phases_plus P th s0 s s1 S S' : gainsPhases P th s0 s S -> gainsPhases P th s s1 S' -> gainsPhases P th s0 s1 (tplus S S').
Proof.
  intros H H' k2 k3 n HV. destruct (H k2 k3 n HV) as [A [B [C D]]]. destruct (H' k2 k3 n HV) as [A' [B' [C' D']]].
  repeat split; eapply addsE_plus; eauto.
Qed.

(** ** C71: auto-correlation, counts and n=0 *)
Lemma andb_self b : b && b = b. Proof. destruct b; auto. Qed.
Theorem C71_auto_counts P d cat s0 s1 :
  validM P -> metricSep (cmetric (mC P)) d -> exactMode P (bruteAuto (mbrute P)) ->
  runMAuto P cat s0 s1 -> gainsCounts P s0 s1 (trisAuto (cbin (mC P)) d cat).
Proof.
  intros HV HM HE [cs [F H]].
  apply (one_counts P HV d HM (bruteAuto (mbrute P)) (bruteAuto (mbrute P)) cat cat cs cs); auto.
  rewrite andb_self; auto.
Qed.
Theorem C71_auto_weight0 P d cat s0 s1 :
  validM P -> metricSep (cmetric (mC P)) d -> exactMode P (bruteAuto (mbrute P)) -> distinctPos cat ->
  runMAuto P cat s0 s1 -> gainsWeight0 P s0 s1 (trisAuto (cbin (mC P)) d cat).
Proof.
  intros HV HM HE HD [cs [F H]].
  apply (one_weight0 P HV d HM (bruteAuto (mbrute P)) (bruteAuto (mbrute P)) cat cat cs cs); auto.
  rewrite andb_self; auto.
Qed.
(** ** C72: sides and all multipoles, angle_slop=0 or brute force *)
Theorem C72_auto_sides P d cat s0 s1 :
  validM P -> metricSep (cmetric (mC P)) d -> pointMode P (bruteAuto (mbrute P)) -> distinctPos cat ->
  runMAuto P cat s0 s1 ->
  gainsSides P d s0 s1 (trisAuto (cbin (mC P)) d cat) /\ gainsLogD3 P d s0 s1 (trisAuto (cbin (mC P)) d cat).
Proof.
  intros HV HM HE HD [cs [F H]].
  apply (one_sides P HV d HM (bruteAuto (mbrute P)) (bruteAuto (mbrute P)) cat cat cs cs); auto;
    rewrite andb_self; auto. left; auto.
Qed.
Theorem C72_auto_phases P th cat s0 s1 :
  validM P -> cmetric (mC P) = Euclidean -> mcoord P = Flat -> pointMode P (bruteAuto (mbrute P)) ->
  distinctPos cat -> flatCat cat -> polar th ->
  runMAuto P cat s0 s1 -> gainsPhases P th s0 s1 (trisAuto (cbin (mC P)) euclid cat).
Proof.
  intros HV HM HF HE HD HZ Hth [cs [F H]].
  assert (HM' : metricSep (cmetric (mC P)) euclid) by (rewrite HM; intros p q; reflexivity).
  apply (one_phases P HV euclid HM'
    (bruteAuto (mbrute P)) (bruteAuto (mbrute P)) cat cat cs cs); auto;
    rewrite andb_self; auto. left; auto.
Qed.

(** ** C73: cross-correlations *)
Lemma bruteAll_ex P : exactMode P (bruteAll P) -> forall b b',
  (b = brute1 (mbrute P) \/ b = brute2 (mbrute P) \/ b = brute3 (mbrute P)) ->
  (b' = brute1 (mbrute P) \/ b' = brute2 (mbrute P) \/ b' = brute3 (mbrute P)) -> exactMode P (b && b').
Proof.
  intros HE b b' Hb Hb'. destruct HE as [[HE|HE]|HE]; [|left; right; auto|right; auto].
  left; left. unfold bruteAll in HE. destruct (mbrute P); try discriminate; simpl in *.
  destruct Hb as [->|[->| ->]], Hb' as [->|[->| ->]]; auto.
Qed.
Lemma bruteAll_pt P : pointMode P (bruteAll P) -> forall b b',
  (b = brute1 (mbrute P) \/ b = brute2 (mbrute P) \/ b = brute3 (mbrute P)) ->
  (b' = brute1 (mbrute P) \/ b' = brute2 (mbrute P) \/ b' = brute3 (mbrute P)) -> pointMode P (b && b').
Proof.
  intros HE b b' Hb Hb'. destruct HE as [HE|HE]; [|right; auto].
  left. unfold bruteAll in HE. destruct (mbrute P); try discriminate; simpl in *.
  destruct Hb as [->|[->| ->]], Hb' as [->|[->| ->]]; auto.
Qed.

Ltac md := first [assumption | apply bruteAll_ex; auto; fail | apply bruteAll_pt; auto; fail].

Theorem C73_cross12_counts P d ordered cat1 cat2 s0 s1 :
  validM P -> metricSep (cmetric (mC P)) d -> exactMode P (bruteAll P) ->
  runMCross12 P ordered cat1 cat2 s0 s1 -> gainsCounts P s0 s1 (tris12 (cbin (mC P)) d ordered cat1 cat2).
Proof.
  intros HV HM HE [cs1 [cs2 [F1 [F2 H]]]]. unfold tris12. destruct ordered.
  - apply (one_counts P HV d HM _ _ cat1 cat2 cs1 cs2 F1 F2); md.
  - destruct H as [s [H1 H2]]. eapply counts_plus with (s := s).
    + apply (two_counts P HV d HM _ _ _ cat2 cat1 cat2 cs2 cs1 cs2 F2 F1 F2) with (o3 := false); md.
    + apply (one_counts P HV d HM _ _ cat1 cat2 cs1 cs2 F1 F2); md.
Qed.
Theorem C73_cross12_weight0 P d ordered cat1 cat2 s0 s1 :
  validM P -> metricSep (cmetric (mC P)) d -> exactMode P (bruteAll P) -> distinctPos cat2 ->
  runMCross12 P ordered cat1 cat2 s0 s1 -> gainsWeight0 P s0 s1 (tris12 (cbin (mC P)) d ordered cat1 cat2).
Proof.
  intros HV HM HE HD [cs1 [cs2 [F1 [F2 H]]]]. unfold tris12. destruct ordered.
  - apply (one_weight0 P HV d HM _ _ cat1 cat2 cs1 cs2 F1 F2); md.
  - destruct H as [s [H1 H2]]. eapply weight0_plus with (s := s).
    + apply (two_weight0 P HV d HM _ _ _ cat2 cat1 cat2 cs2 cs1 cs2 F2 F1 F2) with (o3 := false); md.
    + apply (one_weight0 P HV d HM _ _ cat1 cat2 cs1 cs2 F1 F2); md.
Qed.
Theorem C73_cross12_sides P d ordered cat1 cat2 s0 s1 :
  validM P -> metricSep (cmetric (mC P)) d -> pointMode P (bruteAll P) -> distinctPos cat2 ->
  runMCross12 P ordered cat1 cat2 s0 s1 ->
  gainsSides P d s0 s1 (tris12 (cbin (mC P)) d ordered cat1 cat2) /\
  (ordered = true -> gainsLogD3 P d s0 s1 (tris12 (cbin (mC P)) d ordered cat1 cat2)).
Proof.
  intros HV HM HPt HD [cs1 [cs2 [F1 [F2 H]]]]. assert (HE : exactMode P (bruteAll P)) by (left; auto).
  unfold tris12. destruct ordered.
  - edestruct (one_sides P HV d HM _ _ cat1 cat2 cs1 cs2 F1 F2) as [A B]; [md|exact H|md|md|]. split; auto.
  - destruct H as [s [H1 H2]]. split; [|discriminate]. eapply sides_plus with (s := s).
    + eapply (two_sides P HV d HM _ _ _ cat2 cat1 cat2 cs2 cs1 cs2 F2 F1 F2) with (o3 := false); md.
    + eapply (one_sides P HV d HM _ _ cat1 cat2 cs1 cs2 F1 F2); md.
Qed.
Theorem C73_cross12_phases P th ordered cat1 cat2 s0 s1 :
  validM P -> cmetric (mC P) = Euclidean -> mcoord P = Flat -> pointMode P (bruteAll P) -> distinctPos cat2 ->
  flatCat cat1 -> flatCat cat2 -> polar th ->
  runMCross12 P ordered cat1 cat2 s0 s1 ->
  gainsPhases P th s0 s1 (tris12 (cbin (mC P)) euclid ordered cat1 cat2).
Proof.
  intros HV HM HF HPt HD Z1 Z2 Hth [cs1 [cs2 [F1 [F2 H]]]].
  assert (HE : exactMode P (bruteAll P)) by (left; auto).
  assert (HM' : metricSep (cmetric (mC P)) euclid) by (rewrite HM; intros p q; reflexivity).
  unfold tris12. destruct ordered.
  - eapply (one_phases P HV euclid HM' _ _ cat1 cat2 cs1 cs2 F1 F2); md.
  - destruct H as [s [H1 H2]]. eapply phases_plus with (s := s).
    + eapply (two_phases P HV euclid HM' _ _ _ cat2 cat1 cat2 cs2 cs1 cs2 F2 F1 F2) with (o3 := false); md.
    + eapply (one_phases P HV euclid HM' _ _ cat1 cat2 cs1 cs2 F1 F2); md.
Qed.

Theorem C73_cross_counts P d o cat1 cat2 cat3 s0 s1 :
  validM P -> metricSep (cmetric (mC P)) d -> exactMode P (bruteAll P) ->
  runMCross P o cat1 cat2 cat3 s0 s1 -> gainsCounts P s0 s1 (tris3 (cbin (mC P)) d o cat1 cat2 cat3).
Proof.
  intros HV HM HE [cs1 [cs2 [cs3 [F1 [F2 [F3 H]]]]]]. unfold tris3. destruct o.
  - destruct H as [sa [sb [H1 [H2 H3]]]]. eapply counts_plus with (s := sb); [eapply counts_plus with (s := sa)|].
    + apply (two_counts P HV d HM _ _ _ cat2 cat1 cat3 cs2 cs1 cs3 F2 F1 F3) with (o3 := false); md.
    + apply (two_counts P HV d HM _ _ _ cat3 cat1 cat2 cs3 cs1 cs2 F3 F1 F2) with (o3 := false); md.
    + apply (two_counts P HV d HM _ _ _ cat1 cat2 cat3 cs1 cs2 cs3 F1 F2 F3) with (o3 := false); md.
  - apply (two_counts P HV d HM _ _ _ cat1 cat2 cat3 cs1 cs2 cs3 F1 F2 F3) with (o3 := false); md.
  - apply (two_counts P HV d HM _ _ _ cat1 cat2 cat3 cs1 cs2 cs3 F1 F2 F3) with (o3 := true); md.
Qed.
Theorem C73_cross_weight0 P d o cat1 cat2 cat3 s0 s1 :
  validM P -> metricSep (cmetric (mC P)) d -> exactMode P (bruteAll P) ->
  runMCross P o cat1 cat2 cat3 s0 s1 -> gainsWeight0 P s0 s1 (tris3 (cbin (mC P)) d o cat1 cat2 cat3).
Proof.
  intros HV HM HE [cs1 [cs2 [cs3 [F1 [F2 [F3 H]]]]]]. unfold tris3. destruct o.
  - destruct H as [sa [sb [H1 [H2 H3]]]]. eapply weight0_plus with (s := sb); [eapply weight0_plus with (s := sa)|].
    + apply (two_weight0 P HV d HM _ _ _ cat2 cat1 cat3 cs2 cs1 cs3 F2 F1 F3) with (o3 := false); md.
    + apply (two_weight0 P HV d HM _ _ _ cat3 cat1 cat2 cs3 cs1 cs2 F3 F1 F2) with (o3 := false); md.
    + apply (two_weight0 P HV d HM _ _ _ cat1 cat2 cat3 cs1 cs2 cs3 F1 F2 F3) with (o3 := false); md.
  - apply (two_weight0 P HV d HM _ _ _ cat1 cat2 cat3 cs1 cs2 cs3 F1 F2 F3) with (o3 := false); md.
  - apply (two_weight0 P HV d HM _ _ _ cat1 cat2 cat3 cs1 cs2 cs3 F1 F2 F3) with (o3 := true); md.
Qed.
Theorem C73_cross_sides P d o cat1 cat2 cat3 s0 s1 :
  validM P -> metricSep (cmetric (mC P)) d -> pointMode P (bruteAll P) ->
  runMCross P o cat1 cat2 cat3 s0 s1 ->
  gainsSides P d s0 s1 (tris3 (cbin (mC P)) d o cat1 cat2 cat3) /\
  (o = O3 -> gainsLogD3 P d s0 s1 (tris3 (cbin (mC P)) d o cat1 cat2 cat3)).
Proof.
  intros HV HM HPt [cs1 [cs2 [cs3 [F1 [F2 [F3 H]]]]]]. assert (HE : exactMode P (bruteAll P)) by (left; auto).
  unfold tris3. destruct o; (split; [|try discriminate; intros _]).
  - destruct H as [sa [sb [H1 [H2 H3]]]]. eapply sides_plus with (s := sb); [eapply sides_plus with (s := sa)|].
    + eapply (two_sides P HV d HM _ _ _ cat2 cat1 cat3 cs2 cs1 cs3 F2 F1 F3) with (o3 := false); md.
    + eapply (two_sides P HV d HM _ _ _ cat3 cat1 cat2 cs3 cs1 cs2 F3 F1 F2) with (o3 := false); md.
    + eapply (two_sides P HV d HM _ _ _ cat1 cat2 cat3 cs1 cs2 cs3 F1 F2 F3) with (o3 := false); md.
  - eapply (two_sides P HV d HM _ _ _ cat1 cat2 cat3 cs1 cs2 cs3 F1 F2 F3) with (o3 := false); md.
  - eapply (two_sides P HV d HM _ _ _ cat1 cat2 cat3 cs1 cs2 cs3 F1 F2 F3) with (o3 := true); md.
  - eapply (two_sides P HV d HM _ _ _ cat1 cat2 cat3 cs1 cs2 cs3 F1 F2 F3) with (o3 := true); try md; reflexivity.
Qed.
Theorem C73_cross_phases P th o cat1 cat2 cat3 s0 s1 :
  validM P -> cmetric (mC P) = Euclidean -> mcoord P = Flat -> pointMode P (bruteAll P) ->
  flatCat cat1 -> flatCat cat2 -> flatCat cat3 -> polar th ->
  runMCross P o cat1 cat2 cat3 s0 s1 ->
  gainsPhases P th s0 s1 (tris3 (cbin (mC P)) euclid o cat1 cat2 cat3).
Proof.
  intros HV HM HF HPt Z1 Z2 Z3 Hth [cs1 [cs2 [cs3 [F1 [F2 [F3 H]]]]]].
  assert (HE : exactMode P (bruteAll P)) by (left; auto).
  assert (HM' : metricSep (cmetric (mC P)) euclid) by (rewrite HM; intros p q; reflexivity).
  unfold tris3. destruct o.
  - destruct H as [sa [sb [H1 [H2 H3]]]]. eapply phases_plus with (s := sb); [eapply phases_plus with (s := sa)|].
    + eapply (two_phases P HV euclid HM' _ _ _ cat2 cat1 cat3 cs2 cs1 cs3 F2 F1 F3) with (o3 := false); md.
    + eapply (two_phases P HV euclid HM' _ _ _ cat3 cat1 cat2 cs3 cs1 cs2 F3 F1 F2) with (o3 := false); md.
    + eapply (two_phases P HV euclid HM' _ _ _ cat1 cat2 cat3 cs1 cs2 cs3 F1 F2 F3) with (o3 := false); md.
  - eapply (two_phases P HV euclid HM' _ _ _ cat1 cat2 cat3 cs1 cs2 cs3 F1 F2 F3) with (o3 := false); md.
  - eapply (two_phases P HV euclid HM' _ _ _ cat1 cat2 cat3 cs1 cs2 cs3 F1 F2 F3) with (o3 := true); md.
Qed.
