(** C38: shear projection; C59: exact complex correlation functions (flat coordinates);
    C60: which parts of an auto-correlation depend on the order of the pairs. *)
From Coq Require Import Reals Lra Lia List ZArith Bool Permutation Psatz.
From Verif Require Import Base Geometry Tree Traverse Run Spec SpecRun GeomFacts SumFacts TreeFacts
  BinFacts TravFacts Exact MetricFacts Cover Lift Runs Examples PropsCount PatchFacts Spin SpinFacts SpecSpin.
Import ListNotations.
Open Scope R_scope.

(** ** C38 *)

(** Projection does not change the modulus, for any spin and coordinates, unless the direction is
    undefined (the calculated direction is the zero vector). *)
Theorem C38_unit co s p1 p2 z : projDir co p1 p2 <> (0, 0) ->
  cnorm (project1 co s p1 p2 z) = cnorm z.
Proof. intro H. unfold project1. rewrite cnorm_cmul, expmsialpha_unit by auto. ring. Qed.
Theorem C38_unit_flat s p1 p2 z : pz p1 = 0 -> pz p2 = 0 -> p1 <> p2 ->
  cnorm (project1 Flat s p1 p2 z) = cnorm z.
Proof.
  intros H1 H2 Hn. apply C38_unit. simpl. intro H. injection H; intros. apply Hn.
  destruct p1, p2; simpl in *. f_equal; lra.
Qed.

(** The projection rotates the value by minus s times the direction of the pair. *)
Theorem C38_flat s p1 p2 a z : isAngle p1 p2 a ->
  project1 Flat s p1 p2 z =
  (fst z * cos (spinN s * a) + snd z * sin (spinN s * a),
   snd z * cos (spinN s * a) - fst z * sin (spinN s * a)).
Proof.
  intros [d [Hd [Hx Hy]]]. unfold project1, projDir. rewrite Hx, Hy.
  change (d * cos a, d * sin a) with (polar d a). rewrite expmsialpha_polar by auto.
  apply cplx_eq; unfold cmul, polar; cbn [fst snd]; rewrite cos_neg, sin_neg; ring.
Qed.

(** Rotation by t followed by a translation, for positions and for spin-s values. *)
Definition rotPos (t : R) (u : pos) (p : pos) : pos :=
  mkpos (px p * cos t - py p * sin t + px u) (px p * sin t + py p * cos t + py u) 0.
Definition rotVal (n t : R) (z : cplx) : cplx :=
  (fst z * cos (n * t) - snd z * sin (n * t), fst z * sin (n * t) + snd z * cos (n * t)).

Lemma rotVal_polar n t z : rotVal n t z = cmul z (polar 1 (n * t)).
Proof. apply cplx_eq; unfold rotVal, cmul, polar; cbn [fst snd]; ring. Qed.
Lemma rotDir t u p1 p2 : projDir Flat (rotPos t u p1) (rotPos t u p2) = cmul (projDir Flat p1 p2) (polar 1 t).
Proof. apply cplx_eq; unfold projDir, rotPos, cmul, polar; cbn [fst snd px py]; ring. Qed.
Lemma expmsialpha_rot s r t : expmsialpha s (cmul r (polar 1 t)) = cmul (expmsialpha s r) (polar 1 (- (spinN s * t))).
Proof.
  destruct r as [x y]. destruct (polar_exists x y) as [d [a [Hd HE]]]. rewrite HE.
  destruct Hd as [Hd|<-].
  - rewrite polar_mul, Rmult_1_r, !expmsialpha_polar, polar_mul by auto. f_equal; ring.
  - replace (polar 0 a) with ((0, 0) : cplx) by (unfold polar; f_equal; ring).
    replace (cmul (0, 0) (polar 1 t)) with ((0, 0) : cplx) by (apply cplx_eq; simpl; ring).
    rewrite !expmsialpha_zero. destruct s; try (apply cplx_eq; simpl; ring).
    apply cplx_eq; unfold polar; simpl; rewrite Rmult_0_l, Ropp_0, ?cos_0, ?sin_0; ring.
Qed.
Lemma cancel_rot z e a : cmul (cmul z (polar 1 a)) (cmul e (polar 1 (- a))) = cmul z e.
Proof.
  rewrite <- !cmul_assoc. rewrite (cmul_assoc (polar 1 a)), (cmul_comm (polar 1 a) e), <- cmul_assoc, polar_mul.
  replace (a + - a) with 0 by ring. f_equal.
  apply cplx_eq; unfold polar; simpl; rewrite ?cos_0, ?sin_0; ring.
Qed.

(** Everything a pair adds to the complex arrays is unchanged when the catalog (positions and
    values) is rotated and translated. *)
Theorem C38_rotation s f t u p1 p2 w1 wk1 g1 g2 :
  kern Flat s f (rotPos t u p1) (rotPos t u p2) w1 wk1 (rotVal (spinN s) t g1) (rotVal (spinN s) t g2) =
  kern Flat s f p1 p2 w1 wk1 g1 g2.
Proof.
  unfold kern, project1, project2.
  rewrite rotDir, expmsialpha_rot, !rotVal_polar, !cancel_rot. reflexivity.
Qed.
(** In particular for the two-point functions of shear (spin 2). *)
Theorem C38_gg t u p1 p2 g1 g2 :
  let '(a, b) := project2 Flat Spin2 p1 p2 g1 g2 in
  let '(a', b') := project2 Flat Spin2 (rotPos t u p1) (rotPos t u p2) (rotVal 2 t g1) (rotVal 2 t g2) in
  cmul a (cconj b) = cmul a' (cconj b') /\ cmul a b = cmul a' b'.
Proof.
  unfold project2. rewrite rotDir, expmsialpha_rot, !rotVal_polar.
  cbn [spinN]. rewrite !cancel_rot. auto.
Qed.
Example C38_example :
  isAngle (mkpos 1 1 0) (mkpos 1 3 0) (PI/2) /\
  project1 Flat Spin2 (mkpos 1 1 0) (mkpos 1 3 0) (3, 4) = (-3, -4).
Proof.
  assert (H : isAngle (mkpos 1 1 0) (mkpos 1 3 0) (PI/2)).
  { exists 2. rewrite cos_PI2, sin_PI2. simpl. lra. }
  split; auto. rewrite (C38_flat Spin2 _ _ _ _ H). simpl.
  replace (2 * (PI / 2)) with PI by field. rewrite cos_PI, sin_PI. apply cplx_eq; simpl; ring.
Qed.

(** ** C59 *)

Lemma apart_eq p1 p2 : euclid p1 p2 = 0 -> p1 = p2.
Proof. rewrite euclid_pdist. apply pdist_0. Qed.
Lemma apart_same p : euclid p p = 0.
Proof. rewrite euclid_pdist. apply pdist_refl. Qed.

Section Flat.
Variables (ang : pos -> pos -> R) (cat1 cat2 : list obj).
Hypothesis HA : anglesFor ang cat1 cat2.

Lemma kernO_apart s f o1 o2 (x : R) : s <> Spin0 -> In o1 cat1 -> In o2 cat2 ->
  (isAngle (opos o1) (opos o2) (ang (opos o1) (opos o2)) -> kernO Flat s f o1 o2 = x) ->
  kernO Flat s f o1 o2 = ifApart o1 o2 x.
Proof.
  intros Hs I1 I2 H. unfold ifApart. destruct Req_EM_T as [E|E].
  - apply apart_eq in E. unfold kernO, kern, project1, project2. rewrite E. simpl projDir.
    replace (px (opos o2) - px (opos o2)) with 0 by ring.
    replace (py (opos o2) - py (opos o2)) with 0 by ring.
    rewrite expmsialpha_zero. destruct s; try congruence; destruct f; simpl; ring.
  - apply H. apply HA; auto. intro Hz. apply E. rewrite Hz. apply apart_same.
Qed.
Lemma kernO_flat s f o1 o2 : isAngle (opos o1) (opos o2) (ang (opos o1) (opos o2)) ->
  let a := ang (opos o1) (opos o2) in let n := spinN s in
  kernO Flat s f o1 o2 =
  match f with
  | SNre => gsign s * ow o1 * ow o2 * along n a o2
  | SNim => gsign s * ow o1 * ow o2 * crossed n a o2
  | SKre => gsign s * (ow o1 * okappa o1) * ow o2 * along n a o2
  | SKim => gsign s * (ow o1 * okappa o1) * ow o2 * crossed n a o2
  | SPre => ow o1 * ow o2 * (along n a o1 * along n a o2 + crossed n a o1 * crossed n a o2)
  | SPim => ow o1 * ow o2 * (crossed n a o1 * along n a o2 - along n a o1 * crossed n a o2)
  | SMre => ow o1 * ow o2 * (along n a o1 * along n a o2 - crossed n a o1 * crossed n a o2)
  | SMim => ow o1 * ow o2 * (crossed n a o1 * along n a o2 + along n a o1 * crossed n a o2)
  end.
Proof.
  intros H a n. unfold kernO, kern.
  assert (HP : forall z, cmul z (expmsialpha s (projDir Flat (opos o1) (opos o2))) =
    (fst z * cos (n * a) + snd z * sin (n * a), snd z * cos (n * a) - fst z * sin (n * a))).
  { intro z. exact (C38_flat s (opos o1) (opos o2) a z H). }
  unfold project1, project2. rewrite !HP. unfold along, crossed, owg, cscale.
  destruct f; cbn [fst snd]; ring.
Qed.
End Flat.

(** what each array must grow by, for shear *)
Definition gval (ang : pos -> pos -> R) (f : sfield) : obj -> obj -> R :=
  match f with
  | SNre => v_ng ang | SNim => v_ngx ang | SKre => v_kg ang | SKim => v_kgx ang
  | SPre => v_ggp ang | SPim => v_ggpi ang | SMre => v_ggm ang | SMim => v_ggmi ang
  end.
Lemma kernO_gval ang cat1 cat2 f o1 o2 : anglesFor ang cat1 cat2 -> In o1 cat1 -> In o2 cat2 ->
  kernO Flat Spin2 f o1 o2 = gval ang f o1 o2.
Proof.
  intros HA I1 I2.
  destruct f; simpl; unfold v_ng, v_ngx, v_kg, v_kgx, v_ggp, v_ggpi, v_ggm, v_ggmi;
    (eapply kernO_apart; eauto; [discriminate|]; intro H; rewrite (kernO_flat ang Spin2 _ _ _ H);
     cbn [spinN gsign]; unfold gammaT, gammaX, along, crossed; ring).
Qed.
Lemma specS_sumPairs co s P f k v sel cat1 cat2 :
  (forall o1 o2, In o1 cat1 -> In o2 cat2 -> selM P k o1 o2 = sel o1 o2) ->
  (forall o1 o2, In o1 cat1 -> In o2 cat2 -> kernO co s f o1 o2 = v o1 o2) ->
  sumR (specS co s P f k) (pairs cat1 cat2) = sumPairs sel v cat1 cat2.
Proof.
  intros HS HV. unfold sumPairs. apply sumR_ext. intros [o1 o2] Ho. apply in_pairs in Ho as [I1 I2].
  unfold specS; cbn [fst snd]. rewrite HS, HV by auto. auto.
Qed.
Lemma specS_sumUPairs co s P f k v sel cat :
  (forall o1 o2, In o1 cat -> In o2 cat -> selM P k o1 o2 = sel o1 o2) ->
  (forall o1 o2, In o1 cat -> In o2 cat -> kernO co s f o1 o2 = v o1 o2) ->
  sumR (specS co s P f k) (upairs cat) = sumUPairs sel v cat.
Proof.
  intros HS HV. unfold sumUPairs. apply sumR_ext. intros [o1 o2] Ho. apply in_upairs in Ho as [I1 I2].
  unfold specS; cbn [fst snd]. rewrite HS, HV by auto. auto.
Qed.
Lemma selM_euclid P k o1 o2 : crpar P = None -> cmetric P = Euclidean ->
  selM P k o1 o2 = selBin (cbin P) euclid k o1 o2.
Proof. intros Hr HM. apply selM_selBin; auto. rewrite HM. apply mdist_euclidean. Qed.

(** When every accumulated cell pair consists of coinciding objects. *)
Definition exactAngles (R : runcfg) : Prop :=
  slop_a (cbin (rP R)) = 0 \/ rbrute R = BruteBoth.

(** NG, KG and GG cross-correlations (flat coordinates, Euclidean metric): with angle_slop = 0 --
    for any bin_slop and without any assumption about bin edges -- or with brute=True, every bin of
    every complex array grows by exactly the brute-force sum. *)
Theorem C59_cross_shear R ang f k cat1 cat2 a0 a1 :
  validB (cbin (rP R)) -> crpar (rP R) = None -> cmetric (rP R) = Euclidean -> rcoord R = Flat ->
  exactAngles R -> nonnegW cat1 -> nonnegW cat2 -> anglesFor ang cat1 cat2 ->
  runCrossS R Spin2 cat1 cat2 a0 a1 ->
  a1 f k = a0 f k + sumPairs (selBin (cbin (rP R)) euclid k) (gval ang f) cat1 cat2.
Proof.
  intros HB Hr HM HC HX Hw1 Hw2 HA H.
  assert (HE : a1 f k = a0 f k + sumR (specS (rcoord R) Spin2 (rP R) f k) (pairs cat1 cat2)).
  { destruct HX as [Ha|Hb]; [eapply runCrossS_a0; eauto|].
    eapply (runCrossS_brute R anyPos anyPos); eauto; try exact I. rewrite HM. apply lip_euclid. }
  rewrite HE, HC. f_equal. apply specS_sumPairs.
  - intros. apply selM_euclid; auto.
  - intros. eapply kernO_gval; eauto.
Qed.

(** The other spins: N with a spin-n field (real and imaginary part), and two spin-n fields. *)
Theorem C59_cross_spin R s ang k cat1 cat2 a0 a1 :
  s <> Spin0 -> s <> Spin2 ->
  validB (cbin (rP R)) -> crpar (rP R) = None -> cmetric (rP R) = Euclidean -> rcoord R = Flat ->
  exactAngles R -> nonnegW cat1 -> nonnegW cat2 -> anglesFor ang cat1 cat2 ->
  runCrossS R s cat1 cat2 a0 a1 ->
  let sel := selBin (cbin (rP R)) euclid k in let n := spinN s in
  a1 SNre k = a0 SNre k + sumPairs sel (v_nz ang n) cat1 cat2 /\
  a1 SNim k = a0 SNim k + sumPairs sel (v_nzx ang n) cat1 cat2 /\
  a1 SPre k = a0 SPre k + sumPairs sel (v_zzp ang n) cat1 cat2 /\
  a1 SMre k = a0 SMre k + sumPairs sel (v_zzm ang n) cat1 cat2.
Proof.
  intros Hs0 Hs2 HB Hr HM HC HX Hw1 Hw2 HA H sel n.
  assert (HE : forall f, a1 f k = a0 f k + sumR (specS (rcoord R) s (rP R) f k) (pairs cat1 cat2)).
  { intro f. destruct HX as [Ha|Hb]; [eapply runCrossS_a0; eauto|].
    eapply (runCrossS_brute R anyPos anyPos); eauto; try exact I. rewrite HM. apply lip_euclid. }
  rewrite !HE, HC. assert (Hg : gsign s = 1) by (destruct s; auto; congruence).
  repeat split; f_equal; (apply specS_sumPairs; [intros; apply selM_euclid; auto|]);
    intros o1 o2 I1 I2; unfold v_nz, v_nzx, v_zzp, v_zzm;
    (eapply kernO_apart; eauto; intro Hang; rewrite (kernO_flat ang s _ _ _ Hang), ?Hg; subst n; ring).
Qed.

(** GG auto-correlation: xi+, xi- and the imaginary part of xi-. *)
Theorem C59_auto_shear R ang f k cat a0 a1 :
  validB (cbin (rP R)) -> crpar (rP R) = None -> cmetric (rP R) = Euclidean -> rcoord R = Flat ->
  slop_a (cbin (rP R)) = 0 \/ rbrute R <> BruteNo ->
  nonnegW cat -> offMinSep (cbin (rP R)) euclid cat -> anglesFor ang cat cat ->
  f = SPre \/ f = SMre \/ f = SMim ->
  runAutoS R Spin2 cat a0 a1 ->
  a1 f k = a0 f k + sumUPairs (selBin (cbin (rP R)) euclid k) (gval ang f) cat.
Proof.
  intros HB Hr HM HC HX Hw Hoff HA Hf H.
  assert (Hf' : symField f) by (destruct Hf as [->|[->| ->]]; exact I).
  assert (Hoff' : offMinSep (cbin (rP R)) (mdist (cmetric (rP R))) cat).
  { eapply offMinSep_ext; [|exact Hoff]. intros. rewrite HM. symmetry. apply mdist_euclidean. }
  assert (HE : a1 f k = a0 f k + sumR (specS (rcoord R) Spin2 (rP R) f k) (upairs cat)).
  { destruct HX as [Ha|Hb]; [eapply runAutoS_a0; eauto|].
    eapply runAutoS_brute; eauto; rewrite HM; [exact I|apply symM_euclid]. }
  rewrite HE, HC. f_equal. apply specS_sumUPairs.
  - intros. apply selM_euclid; auto.
  - intros. eapply kernO_gval; eauto.
Qed.

(** The counts, weights, scalar correlations and even meanr, meanlogr are exact too when
    angle_slop = 0, for any bin_slop and with no assumption about edges. *)
Lemma goodPair_a0 P f F1 F2 cat1 cat2 cells1 cells2 a b :
  validB (cbin P) -> crpar P = None -> cmetric P = Euclidean -> slop_a (cbin P) = 0 ->
  fminsize F1 = 0 -> fminsize F2 = 0 ->
  buildField F1 cat1 cells1 -> buildField F2 cat2 cells2 ->
  inTops cells1 a -> inTops cells2 b -> goodPair P f a b.
Proof.
  intros HB Hr HM Ha Hm1 Hm2 B1 B2 Ia Ib.
  assert (O1 : okcell 0 a) by exact (cells_ok0 F1 cat1 cells1 a Hm1 B1 Ia).
  assert (O2 : okcell 0 b) by exact (cells_ok0 F2 cat2 cells2 b Hm2 B2 Ib).
  assert (HZ : zeroSingle P a b) by (apply zeroSingle_a0; auto; apply HB).
  split; [|split].
  - apply (pairOK_lip P anyPos anyPos a b); auto; try exact I. rewrite HM. apply lip_euclid.
  - apply zeroSingle_exact; auto.
  - right. intros x Hx HS. destruct (HZ HS) as [H0 _]. congruence.
Qed.
Theorem C59_cross_counts R k cat1 cat2 s0 s1 :
  validB (cbin (rP R)) -> crpar (rP R) = None -> cmetric (rP R) = Euclidean ->
  slop_a (cbin (rP R)) = 0 -> posW cat1 -> posW cat2 ->
  runCross R cat1 cat2 s0 s1 ->
  addsCross (selBin (cbin (rP R)) euclid k) cat1 cat2 s0 s1 k /\
  addsMeanCross euclid (selBin (cbin (rP R)) euclid k) cat1 cat2 s0 s1 k.
Proof.
  intros HB Hr HM Ha Hw1 Hw2 [cells1 [cells2 [B1 [B2 H]]]].
  set (F1 := fieldParams R (brute1 (rbrute R))) in *.
  set (F2 := fieldParams R (brute2 (rbrute R))) in *.
  assert (Hm1 : fminsize F1 = 0) by (apply fieldParams_min0; right; apply minsize_a0; auto).
  assert (Hm2 : fminsize F2 = 0) by (apply fieldParams_min0; right; apply minsize_a0; auto).
  assert (HE : forall f, aget f s1 k = aget f s0 k + sumR (specM (rP R) f k) (pairs cat1 cat2)).
  { intro f. eapply (processCross_exact (rP R) f k F1 F2); eauto; try lra.
    - intros o Ho. apply (posW_cond f cat1 Hw1 o Ho).
    - intros o Ho. apply (posW_cond f cat2 Hw2 o Ho).
    - intros a b Ia Ib. eapply (goodPair_a0 (rP R) f F1 F2); eauto.
    - intros HX o1 o2 I1 I2. apply sel_not_range; auto. right.
      eapply (lip_field (rP R) anyPos anyPos F1 F2 cat1 cat2); eauto; try exact I. rewrite HM. apply lip_euclid. }
  assert (HS : forall o1 o2, In o1 cat1 -> In o2 cat2 -> selM (rP R) k o1 o2 = selBin (cbin (rP R)) euclid k o1 o2).
  { intros. apply selM_euclid; auto. }
  split.
  - apply (addsCross_of (rP R)); auto.
  - apply (addsMeanCross_of (rP R)); auto. intros. rewrite HM. apply mdist_euclidean.
Qed.
Theorem C59_auto_counts R k cat s0 s1 :
  validB (cbin (rP R)) -> crpar (rP R) = None -> cmetric (rP R) = Euclidean ->
  slop_a (cbin (rP R)) = 0 -> posW cat -> offMinSep (cbin (rP R)) euclid cat ->
  runAuto R cat s0 s1 ->
  addsAuto (selBin (cbin (rP R)) euclid k) cat s0 s1 k /\
  addsMeanAuto euclid (selBin (cbin (rP R)) euclid k) cat s0 s1 k.
Proof.
  intros HB Hr HM Ha Hw Hoff [cells [B H]].
  set (F := fieldParams R (bruteAuto (rbrute R))) in *.
  assert (Hm : fminsize F = 0) by (apply fieldParams_min0; right; apply minsize_a0; auto).
  assert (HSy : symM (cmetric (rP R))) by (rewrite HM; apply symM_euclid).
  assert (HE : forall f, f <> FXiNK -> aget f s1 k = aget f s0 k + sumR (specM (rP R) f k) (upairs cat)).
  { intros f Hf. eapply (processAuto_exact (rP R) f k F); eauto; try lra.
    - intros o Ho. apply (posW_cond f cat Hw o Ho).
    - intros a b Ia Ib. eapply (goodPair_a0 (rP R) f F F); eauto.
    - intros c Hc. apply selfOK_size; [rewrite HM; apply subEuclid_euclid|exact (cells_ok0 F cat cells c Hm B Hc)].
    - intros x y. apply specM_sym; auto.
    - eapply offMinSep_ext; [|exact Hoff]. intros. rewrite HM. symmetry. apply mdist_euclidean. }
  assert (HS : forall o1 o2, In o1 cat -> In o2 cat -> selM (rP R) k o1 o2 = selBin (cbin (rP R)) euclid k o1 o2).
  { intros. apply selM_euclid; auto. }
  split.
  - apply (addsAuto_of (rP R)); auto.
  - apply (addsMeanAuto_of (rP R)); auto. intros. rewrite HM. apply mdist_euclidean.
Qed.

(** Angles always exist for flat catalogs, so the theorems always apply. *)
Lemma isAngle_exists p1 p2 : pz p1 = 0 -> pz p2 = 0 -> p1 <> p2 -> exists a, isAngle p1 p2 a.
Proof.
  intros H1 H2 Hn. destruct (polar_exists (px p2 - px p1) (py p2 - py p1)) as [d [a [Hd HE]]].
  unfold polar in HE. injection HE; intros Hy Hx. exists a, d. split; auto.
  destruct Hd as [|<-]; auto. exfalso. apply Hn. destruct p1, p2; simpl in *. f_equal; lra.
Qed.
Lemma angles_exist cat1 cat2 : flatCat cat1 -> flatCat cat2 -> exists ang, anglesFor ang cat1 cat2.
Proof.
  intros H1 H2.
  assert (HX : forall p, exists f : pos -> R, forall o, In o cat2 ->
     pz p = 0 -> p <> opos o -> isAngle p (opos o) (f (opos o))).
  { intro p. clear H1. induction cat2 as [|o l IH].
    - exists (fun _ => 0). intros o [].
    - destruct IH as [f Hf]; [intros x Hx; apply H2; right; auto|].
      assert (He : forall q : pos, {q = opos o} + {q <> opos o}).
      { intro q. destruct q as [x y z], (opos o) as [x' y' z'].
        destruct (Req_EM_T x x'), (Req_EM_T y y'), (Req_EM_T z z'); subst; auto; right; congruence. }
      destruct (Req_EM_T (pz p) 0) as [Hz|Hz]; [|exists f; intros; congruence].
      destruct (He p) as [Hp|Hp].
      + exists f. intros o' [<-|Ho']; auto. intros; contradiction.
      + destruct (isAngle_exists p (opos o) Hz (H2 o (or_introl eq_refl)) Hp) as [a Ha].
        exists (fun q => if He q then a else f q). intros o' Ho' _ Hn.
        destruct (He (opos o')) as [E|E]; [rewrite E; auto|].
        destruct Ho' as [<-|Ho']; [congruence|auto]. }
  clear H2. induction cat1 as [|o l IH].
  - exists (fun _ _ => 0). intros o1 o2 [].
  - destruct IH as [g Hg]; [intros x Hx; apply H1; right; auto|].
    destruct (HX (opos o)) as [f Hf].
    assert (He : forall q : pos, {q = opos o} + {q <> opos o}).
    { intro q. destruct q as [x y z], (opos o) as [x' y' z'].
      destruct (Req_EM_T x x'), (Req_EM_T y y'), (Req_EM_T z z'); subst; auto; right; congruence. }
    exists (fun q => if He q then f else g q). intros o1 o2 I1 I2 Hn.
    destruct (He (opos o1)) as [E|E].
    + assert (Hz : pz (opos o1) = 0).
      { rewrite E. apply H1. left; auto. }
      rewrite E in Hn, Hz |- *. apply Hf; auto.
    + destruct I1 as [<-|I1]; [congruence|]. apply Hg; auto.
Qed.

(** ** Examples *)

Definition spObj (x y g1 g2 : R) (i : nat) : obj := mkobj (mkpos x y 0) 1 1 2 g1 g2 i.
Definition spA : list obj := [spObj 0 0 1 0 0; spObj (3/2) 0 0 1 1].
Definition spB : bparams := mkB BLinear 1 3 2 1 1 0.
Definition spRun (br : brutemode) : runcfg := mkR (mkC Euclidean None spB) Flat Mean br 0 10.
Lemma spB_valid : validB spB.
Proof. constructor; simpl; try lra; try lia; try discriminate. unfold edge; simpl; lra. Qed.
Definition spC : list obj := [spObj 0 (3/2) 3 4 0].
Definition spAng (p q : pos) : R := PI / 2.
Lemma spA_flat : flatCat spA.
Proof. intros o [<-|[<-|[]]]; reflexivity. Qed.

(** A galaxy above a lens, shear (3,4): the tangential shear is 3. (bin_slop = 1, angle_slop = 0) *)
Example C59_example : exists a1,
  runCrossS (spRun BruteNo) Spin2 [spObj 0 0 0 0 0] spC scleared a1 /\
  anglesFor spAng [spObj 0 0 0 0 0] spC /\ nonnegW spC /\
  a1 SNre 0%Z = 3 /\ a1 SNim 0%Z = 4.
Proof.
  destruct (runCrossS_exists (spRun BruteNo) Spin2 [spObj 0 0 0 0 0] spC scleared) as [a1 H];
    [apply spB_valid|discriminate|discriminate|].
  exists a1. split; auto.
  assert (HA : anglesFor spAng [spObj 0 0 0 0 0] spC).
  { intros o1 o2 [<-|[]] [<-|[]] _. exists (3/2). unfold spAng. rewrite cos_PI2, sin_PI2. simpl. lra. }
  assert (W1 : nonnegW [spObj 0 0 0 0 0]) by (intros o [<-|[]]; simpl; lra).
  assert (W2 : nonnegW spC) by (intros o [<-|[]]; simpl; lra).
  split; auto. split; auto.
  assert (HE : forall f, a1 f 0%Z = 0 + sumPairs (selBin spB euclid 0) (gval spAng f) [spObj 0 0 0 0 0] spC).
  { intro f. apply (C59_cross_shear (spRun BruteNo) spAng f 0%Z [spObj 0 0 0 0 0] spC scleared a1); auto;
      try reflexivity; [apply spB_valid|left; reflexivity]. }
  rewrite !HE. unfold sumPairs, pairs, spC. cbn [map app sumR fst snd flat_map list_prod gval].
  assert (ED : euclid (mkpos 0 0 0) (mkpos 0 (3/2) 0) = 3/2).
  { unfold euclid. cbn [px py pz]. replace ((0 - 0)^2 + (0 - 3/2)^2 + (0 - 0)^2) with ((3/2) * (3/2)) by ring.
    apply sqrt_square; lra. }
  unfold v_ng, v_ngx, ifApart, gammaT, gammaX, selBin, spObj, spAng. cbn [opos ow og1 og2]. rewrite ED.
  destruct (Req_EM_T (3/2) 0); [lra|].
  replace (2 * (PI / 2)) with PI by field. rewrite cos_PI, sin_PI.
  unfold inBinb, edge. simpl. rewrite (Rleb_t _ (3/2)), (Rltb_t (3/2)) by lra. simpl. lra.
Qed.
Example C59_auto_example : exists ang a1,
  runAutoS (spRun BruteNo) Spin2 spA scleared a1 /\ nonnegW spA /\
  offMinSep spB euclid spA /\ anglesFor ang spA spA.
Proof.
  destruct (angles_exist spA spA spA_flat spA_flat) as [ang HA].
  destruct (runAutoS_exists (spRun BruteNo) Spin2 spA scleared spB_valid) as [a1 H]; [discriminate|].
  exists ang, a1. split; auto. split; [intros o [<-|[<-|[]]]; simpl; lra|]. split; auto.
  intros o1 o2 HI. simpl in HI. destruct HI as [HI|[]]. injection HI; intros; subst. simpl opos.
  rewrite euclid_x. simpl. rabs.
Qed.
Example C59_counts_example : exists s1, runCross (spRun BruteNo) exCat1 exCat2 cleared s1 /\
  posW exCat1 /\ posW exCat2.
Proof.
  destruct (runCross_exists (spRun BruteNo) exCat1 exCat2 cleared spB_valid) as [s1 H]; try discriminate.
  exists s1. split; auto. split; [apply exCat1_pos|apply exCat2_pos].
Qed.

(** ** C60 *)

(** Which of the two objects of a pair is the first one is decided by the tree.  The imaginary part
    of xi+ changes sign under exchange, so it is not determined by the set of pairs: rotating the
    whole catalog by 180 degrees (which leaves every spin-2 value as it is) changes it. *)
Definition origin0 : pos := mkpos 0 0 0.
Definition rotObj (t : R) (o : obj) : obj :=
  let g := rotVal 2 t (og1 o, og2 o) in
  mkobj (rotPos t origin0 (opos o)) (ow o) (owpos o) (okappa o) (fst g) (snd g) (oidx o).
Definition spQ : runcfg := mkR (mkC Euclidean None exB) Flat Median BruteBoth 0 0.
Lemma sp_build cat o1 o2 : Permutation [o1; o2] cat -> opos o1 <> opos o2 ->
  py (opos o1) = 0 -> py (opos o2) = 0 -> pz (opos o1) = 0 -> pz (opos o2) = 0 ->
  px (opos o1) <= px (opos o2) ->
  buildField (fieldParams spQ true) cat
    [Node (dataN Flat cat) Inf (Leaf (data1 o1) o1) (Leaf (data1 o2) o2)].
Proof.
  intros HP Hn Y1 Y2 Z1 Z2 Hle. exists [cat]. split; [apply top_stop; right; right; reflexivity|].
  constructor; [|constructor]. cbn [fieldParams fcoord fsm fminsize fbrute spQ rcoord rsm].
  apply (b_node Flat Median (0 * 0) true cat [o1] [o2]).
  - rewrite <- (Permutation_length HP). simpl; lia.
  - destruct (Rlt_dec (0 * 0) (calculateSizeSq (centroid Flat cat) cat)) as [H|H]; auto. exfalso.
    assert (B := calculateSizeSq_bound (centroid Flat cat) cat).
    assert (Bx := B o1 (Permutation_in _ HP (or_introl eq_refl))).
    assert (By := B o2 (Permutation_in _ HP (or_intror (or_introl eq_refl)))).
    set (c := centroid Flat cat) in *. clearbody c. unfold normSq, psub in *. cbn in Bx, By.
    assert (Sq : forall t, 0 <= t * t) by (intros t; pose proof (Rle_0_sqr t); unfold Rsqr in *; lra).
    pose proof (Sq (px c - px (opos o1))). pose proof (Sq (px c - px (opos o2))).
    pose proof (Sq (py c - py (opos o1))). pose proof (Sq (pz c - pz (opos o1))).
    pose proof (Sq (py c - py (opos o2))). pose proof (Sq (pz c - pz (opos o2))).
    assert (px c - px (opos o1) = 0) by (apply Rsqr_0_uniq; unfold Rsqr; lra).
    assert (px c - px (opos o2) = 0) by (apply Rsqr_0_uniq; unfold Rsqr; lra).
    apply Hn. destruct (opos o1), (opos o2); simpl in *. f_equal; lra.
  - apply sd_ok; try discriminate. apply sc_median; auto. unfold nth_element_out.
    split; [exact HP|]. split; [rewrite <- (Permutation_length HP); reflexivity|].
    intros p q [<-|[]] [<-|[]]. destruct (getSplit _); cbn; lra.
  - apply b_leaf.
  - apply b_leaf.
Qed.
Lemma sp_run cat o1 o2 : Permutation [o1; o2] cat ->
  py (opos o1) = 0 -> py (opos o2) = 0 -> pz (opos o1) = 0 -> pz (opos o2) = 0 ->
  px (opos o2) - px (opos o1) = 3/2 -> ow o1 = 1 -> ow o2 = 1 ->
  exists a1, runAutoS spQ Spin2 cat scleared a1 /\
    a1 SPim 0%Z = og2 o1 * og1 o2 - og1 o1 * og2 o2.
Proof.
  intros HP Y1 Y2 Z1 Z2 Hx W1 W2.
  assert (Hn : opos o1 <> opos o2) by (intro H; rewrite H in Hx; lra).
  assert (HB := sp_build cat o1 o2 HP Hn Y1 Y2 Z1 Z2 ltac:(lra)).
  set (a := Leaf (data1 o1) o1) in *. set (b := Leaf (data1 o2) o2) in *.
  assert (DD : normSq (psub (opos o1) (opos o2)) = (3/2)*(3/2)).
  { unfold normSq, psub. cbn [px py pz]. rewrite Y1, Y2, Z1, Z2.
    replace (px (opos o1) - px (opos o2)) with (-(3/2)) by lra. lra. }
  assert (DA : exists rsq k r lr, decide11 (rP spQ) a b = Direct rsq k r lr).
  { unfold decide11, a, b. cbn [cmetric crpar cbin rP spQ getW data1 getData dw getPos getSize dpos effSize eadd].
    rewrite W1, W2. destruct (Req_EM_T 1 0); [lra|]. cbn [distSq]. rewrite DD.
    unfold isRParOutsideRange, isRParInsideRange.
    unfold tooSmallDist, tooLargeDist, singleBin, isRSqInRange. cbn [exB minsep maxsep btype slop_a slop_b binsize].
    unfold Rltb, Rleb, Rsqr.
    destruct (Rlt_dec (3/2 * (3/2)) (1 * 1)); [lra|]. cbn [andb].
    destruct (Rle_dec (3 * 3) (3/2 * (3/2))); [lra|]. cbn [andb].
    destruct (Rlt_dec (1 * 1 * (3/2 * (3/2))) ((0 + 0) * (0 + 0))); [lra|]. destruct (Rle_dec (0 + 0) 0); [|lra].
    destruct (Rle_dec (1 * 1) (3/2 * (3/2))); [|lra]. destruct (Rlt_dec (3/2 * (3/2)) (3 * 3)); [|lra].
    cbn [andb]. eauto. }
  destruct DA as [rsq [k [r [lr DA]]]].
  set (e := directProcess11 (rP spQ) false a b rsq k r lr).
  assert (OK : forall o, okcell 0 (Leaf (data1 o) o)).
  { intro o. constructor; cbn; auto; try ring. discriminate. }
  assert (Hk : ek e = 0%Z).
  { assert (X : selM (rP spQ) 0 o1 o2 = true).
    { unfold selM. cbn [crpar rparInb cmetric cbin rP spQ]. rewrite mdist_euclidean, euclid_pdist, exB_in by lia.
      unfold pdist, norm. rewrite DD. rewrite sqrt_square by lra.
      rewrite Rleb_t, Rltb_t by lra. reflexivity. }
    rewrite (direct_exact (rP spQ) false 0 a b rsq k r lr) in X; try (left; reflexivity); [| |apply OK|apply OK| | |].
    - apply Z.eqb_eq in X. rewrite X. reflexivity.
    - apply exB_valid.
    - apply (pairOK_lip (rP spQ) anyPos anyPos); try exact I; [apply lip_euclid|reflexivity|apply OK|apply OK].
    - intros x p q Hx' _ _ _. left. injection Hx'. intros. lra.
    - exact DA. }
  assert (Hk2 : ek2 e = None) by apply direct_ek2.
  destruct (direct_ec (rP spQ) false a b rsq k r lr) as [E1 E2]. fold e in E1, E2.
  exists (parallelSpin Flat Spin2 scleared [[[e]]]). split.
  - eexists. split; [exact HB|]. exists [[e]], [[[e]]]. split; [|split; [unfold schedule; simpl; auto|reflexivity]].
    cbn [autoIters map]. unfold autoIter. cbn [map oconcat process2].
    change (getW (Node (dataN Flat cat) Inf a b)) with (sumR ow cat).
    rewrite <- (sumR_perm ow _ _ HP). cbn [sumR]. rewrite W1, W2.
    destruct (Req_EM_T _ 0) as [F|_]; [lra|]. cbn [getSize eleb_fin a b].
    assert (LP : forall o, ow o = 1 -> process2 (rP spQ) (Leaf (data1 o) o) = Some []).
    { intros o Wo. cbn [process2]. change (getW (Leaf (data1 o) o)) with (ow o). rewrite Wo.
      destruct (Req_EM_T 1 0); [lra|]. cbn [getSize eleb_fin].
      change (halfminsep (cbin (rP spQ))) with (1/2 * 1). rewrite (Rleb_t 0) by lra. auto. }
    unfold a at 1, b at 1. rewrite !LP by auto.
    change (do_reverse (cbin (rP spQ))) with false.
    unfold run11. change (fuel11 _ _) with 0%nat. cbn [process11]. fold a b. rewrite DA. reflexivity.
  - unfold parallelSpin, threadSpin, applySpin. cbn [fold_left]. unfold saccAdd, finishSpin, bump2.
    rewrite Hk2, Hk. unfold bump. rewrite Z.eqb_refl. unfold scleared.
    unfold evS. rewrite E1, E2. unfold kern, project2, projDir. cbn [getPos data1 getData dpos a b].
    rewrite Hx, Y1, Y2. replace (3/2, 0 - 0) with (polar (3/2) 0).
    2:{ unfold polar. rewrite cos_0, sin_0. f_equal; ring. }
    rewrite expmsialpha_polar by lra. unfold polar. cbn [spinN].
    rewrite Rmult_0_r, Ropp_0, cos_0, sin_0. unfold cellWG, sumC, cmul, owg, cscale. cbn. rewrite W1, W2. ring.
Qed.
Theorem C60_xip_im_refuted : exists Q cat a1 a2,
  validB (cbin (rP Q)) /\ crpar (rP Q) = None /\ cmetric (rP Q) = Euclidean /\ rcoord Q = Flat /\
  posW cat /\ offEdges (cbin (rP Q)) euclid cat cat /\ rbrute Q = BruteBoth /\
  runAutoS Q Spin2 cat scleared a1 /\ runAutoS Q Spin2 (map (rotObj PI) cat) scleared a2 /\
  a1 SPim 0%Z = -1 /\ a2 SPim 0%Z = 1.
Proof.
  destruct (sp_run spA (spObj 0 0 1 0 0) (spObj (3/2) 0 0 1 1)) as [a1 [R1 V1]];
    try reflexivity; [cbn; lra|].
  assert (EC : map (rotObj PI) spA = [spObj 0 0 1 0 0; spObj (-(3/2)) 0 0 1 1]).
  { unfold spA, rotObj, spObj, rotVal, rotPos, origin0. cbn [map opos ow owpos okappa og1 og2 oidx px py pz fst snd].
    rewrite cos_2PI, sin_2PI, cos_PI, sin_PI. repeat f_equal; lra. }
  destruct (sp_run (map (rotObj PI) spA) (spObj (-(3/2)) 0 0 1 1) (spObj 0 0 1 0 0)) as [a2 [R2 V2]];
    try reflexivity; [rewrite EC; apply perm_swap|cbn; lra|].
  exists spQ, spA, a1, a2. split; [apply exB_valid|]. do 3 (split; [reflexivity|]).
  split; [intros o [<-|[<-|[]]]; cbn; lra|]. split.
  { intros _ o1 o2 j Hj H1 H2. change (cbin (rP spQ)) with exB in *. rewrite exB_edge.
    assert (1 <= IZR j) by (apply (IZR_le 1); lia).
    assert (HQ : euclid (opos o1) (opos o2) = 0 \/ euclid (opos o1) (opos o2) = IZR 6 / 4).
    { destruct H1 as [<-|[<-|[]]]; destruct H2 as [<-|[<-|[]]]; simpl opos; rewrite euclid_x; rabs. }
    destruct HQ as [->| ->]; [lra|apply not_edge4; discriminate]. }
  split; [reflexivity|]. split; [auto|]. split; [auto|]. rewrite V1, V2. cbn. lra.
Qed.
(** The parts that do not change sign are determined ([C59_auto_shear]); for them rotating the catalog
    changes nothing. *)
Lemma rotDist t o1 o2 : pz (opos o1) = 0 -> pz (opos o2) = 0 ->
  euclid (opos (rotObj t o1)) (opos (rotObj t o2)) = euclid (opos o1) (opos o2).
Proof.
  intros H1 H2. unfold euclid, rotObj, rotPos, origin0. cbn [opos px py pz]. rewrite H1, H2. f_equal.
  assert (S := sin2_cos2 t). unfold Rsqr in S.
  set (x1 := px (opos o1)); set (x2 := px (opos o2)); set (y1 := py (opos o1)); set (y2 := py (opos o2)).
  replace (_ + _ + _) with (((x1 - x2)^2 + (y1 - y2)^2) * (sin t * sin t + cos t * cos t)) by ring.
  rewrite S. ring.
Qed.
Theorem C60_auto_rotation Q t f k cat a1 a2 :
  validB (cbin (rP Q)) -> crpar (rP Q) = None -> cmetric (rP Q) = Euclidean -> rcoord Q = Flat ->
  slop_a (cbin (rP Q)) = 0 \/ rbrute Q <> BruteNo ->
  nonnegW cat -> offMinSep (cbin (rP Q)) euclid cat -> flatCat cat ->
  f = SPre \/ f = SMre \/ f = SMim ->
  runAutoS Q Spin2 cat scleared a1 -> runAutoS Q Spin2 (map (rotObj t) cat) scleared a2 ->
  a1 f k = a2 f k.
Proof.
  intros HB Hr HM HC HX Hw Hoff HF Hf H1 H2.
  assert (Hf' : symField f) by (destruct Hf as [->|[->| ->]]; exact I).
  assert (HSM : forall o1 o2, selM (rP Q) k o1 o2 = selBin (cbin (rP Q)) euclid k o1 o2).
  { intros. apply selM_euclid; auto. }
  assert (HG : forall c a, nonnegW c -> offMinSep (cbin (rP Q)) euclid c -> runAutoS Q Spin2 c scleared a ->
     a f k = 0 + sumR (specS (rcoord Q) Spin2 (rP Q) f k) (upairs c)).
  { intros c a Hwc Hoffc H.
    assert (Hoff' : offMinSep (cbin (rP Q)) (mdist (cmetric (rP Q))) c).
    { eapply offMinSep_ext; [|exact Hoffc]. intros. rewrite HM. symmetry. apply mdist_euclidean. }
    destruct HX as [Ha|Hb]; [eapply runAutoS_a0 in H; eauto|].
    eapply runAutoS_brute in H; eauto; rewrite HM; [exact I|apply symM_euclid]. }
  rewrite (HG cat a1), (HG (map (rotObj t) cat) a2); auto.
  - f_equal. rewrite upairs_map, sumR_map. apply sumR_ext. intros [o1 o2] Ho. apply in_upairs in Ho as [I1 I2].
    unfold specS; cbn [fst snd]. rewrite !HSM. unfold selBin. rewrite rotDist by auto.
    destruct inBinb; auto. rewrite HC. unfold kernO. cbn [rotObj opos ow okappa og1 og2].
    symmetry. assert (HT := C38_rotation Spin2 f t origin0 (opos o1) (opos o2) (ow o1) (ow o1 * okappa o1) (owg o1) (owg o2)).
    cbn [spinN] in HT. rewrite <- HT. f_equal; try reflexivity; apply cplx_eq; unfold rotObj, rotVal, owg, cscale; cbn [fst snd ow og1 og2]; ring.
  - intros o Ho. apply in_map_iff in Ho as [o' [<- Ho']]. cbn. apply Hw; auto.
  - intros o1 o2 HI. rewrite upairs_map in HI. apply in_map_iff in HI as [[p q] [E HI]]. injection E; intros; subst.
    rewrite rotDist; [apply Hoff; auto| |]; apply in_upairs in HI as [? ?]; apply HF; auto.
Qed.
