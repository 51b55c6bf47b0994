(** C80: the three-point shear correlation (GGG) with bin_slop=0, for LogRUV and LogSAS. *)
From Coq Require Import Reals Lra Lia List ZArith Bool Permutation Psatz.
From Verif Require Import Base Geometry Tree Traverse Spec GeomFacts SumFacts TreeFacts TravFacts
  MetricFacts Cover Runs Examples Corr3 TriCover TriStop SpecTri TriFacts TriSpec Spin SpinFacts SpecSpin PropsSpin
  SpecRun SpecSphere SphereFacts PropsSphere PropsTri TriMirror PropsTri2 PropsArc SasGeom SasStop SpecSas SasFacts SasSpec PropsSas
  GGG SpecGGG GGGFacts.
Import ListNotations.
Open Scope R_scope.

(** ** LogRUV *)
Section ExactG.
Variable P : tparams.
Hypothesis V : validRUV P.
Hypothesis HE : tmetric P = Euclidean.
Variables (n : nat) (im : bool) (k : Z).
Hypothesis Hn : (n <= 3)%nat.
Variable cat : list obj.
Hypothesis SK : skyOK (tcoord P) cat.
Notation ov := (ovG (tcoord P) (gidx n im)).

Lemma sel_u a b c : selTri P k a b c = true -> 0 < side3 a b c < side2 a b c.
Proof. intro H. apply (tri_u P V TNtri k). unfold tri. rewrite H. unfold triVal. lra. Qed.
Lemma labG_gam a b c : inCat cat a -> inCat cat b -> inCat cat c ->
  labG P (ind k) ov a b c = triGam P n im k a b c.
Proof.
  intros Ha Hb Hc. rewrite labG_sel by auto. unfold triGam. rewrite (vt_type _ V).
  destruct (selTri P k a b c); auto. unfold ovG. apply (kernG_gam _ n im cat); auto.
Qed.
Lemma tie_okG O : (O = O0 -> noTies cat) -> O0 = O ->
  forall a b c, inCat cat a -> inCat cat b -> inCat cat c ->
  mdist (tmetric P) (opos b) (opos c) = mdist (tmetric P) (opos a) (opos c) ->
  labG P (ind k) ov b a c = labG P (ind k) ov a b c.
Proof.
  intros HT HO a b c Ha Hb Hc E. specialize (HT (eq_sym HO)).
  rewrite !labG_sel by auto.
  rewrite (md_side1 P HE a b c), (md_side2 P HE a b c) in E.
  destruct (selTri P k a b c) eqn:S1.
  { apply sel_u in S1. exfalso. apply (HT a b c Ha Hb Hc). auto. }
  destruct (selTri P k b a c) eqn:S2; auto.
  apply sel_u in S2. exfalso. apply (HT b a c Hb Ha Hc). split; auto.
Qed.
Lemma G_gam O a b c : (O = O0 -> noTies cat) -> inCat cat a -> inCat cat b -> inCat cat c ->
  G (hG P (ind k) ov O) O a b c = byOrder O P n im k a b c.
Proof.
  intros HT Ha Hb Hc.
  assert (X : forall a b c, inCat cat a -> inCat cat b -> inCat cat c ->
    hG P (ind k) ov O a b c = triGam P n im k a b c).
  { clear a b c Ha Hb Hc. intros a b c Ha Hb Hc. unfold hG. rewrite labG_gam by auto.
    destruct O; auto. destruct Req_EM_T as [E|E]; auto.
    rewrite (md_side1 P HE a b c), (md_side2 P HE a b c) in E.
    unfold triGam. rewrite (vt_type _ V). destruct (selTri P k a b c) eqn:S1; [|lra].
    apply sel_u in S1. exfalso. apply (HT eq_refl a b c Ha Hb Hc). auto. }
  unfold byOrder. destruct O; unfold G; rewrite !X by auto; unfold triGam6, triGam1; lra.
Qed.
End ExactG.

Section RunsG.
Variable P : tparams.
Hypothesis V : validRUV P.
Hypothesis NS : noSlop3 P.
Hypothesis HE : tmetric P = Euclidean.
Hypothesis MV : tminv P = 0.
Variables (n : nat) (im : bool) (k : Z).
Hypothesis Hn : (n <= 3)%nat.
Notation ov := (ovG (tcoord P) (gidx n im)).
Notation te := (gval (tcoord P) (gidx n im)).

Ltac side := first
  [ apply (vt_type _ V) | apply plainE; assumption | apply (vt_minsep _ V) | apply pos_maxsep; assumption
  | apply minu_01; assumption | apply maxu_01; assumption | apply maxv_0; assumption
  | (intros; apply ovG_w0; assumption) | (intros; eapply gval_ok; eassumption) ].

Lemma autoG_addsL cat cells : nonnegW cat -> noTies cat -> skyOK (tcoord P) cat ->
  (forall c, In c cells -> cellOK (inCat cat) c) -> Permutation (objsL cells) cat ->
  addsL (evG (ind k) te) (auto3Iters P cells) (sumTriplesU (triGam6 P n im k) cat).
Proof.
  intros W NT SK HC HP.
  assert (E : sumTriplesU (triGam6 P n im k) cat = sumU3 (G (hG P (ind k) ov O0) O0) (objsL cells)).
  { rewrite sumTriplesU_eq, (sumU3_perm _ _ cat (G0_sym12 _) (G0_sym23 _) HP).
    apply sumU3_ext. intros a b c Ha Hb Hc. symmetry. apply (G_gam P V HE n im k Hn cat SK O0); auto. }
  rewrite E. destruct NS as [N1 [N2 [N3 N4]]].
  apply (autoRUVG_ok P (ind k) ov te false) with (A := inCat cat) (Ok := fun O => O = O0); auto; try side.
  intros H. apply (tie_okG P V HE n im k cat O0); auto.
Qed.
Lemma cross12G_addsL O cat1 cat2 cs1 cs2 : O <> O3 -> nonnegW (cat1 ++ cat2) ->
  (O = O0 -> noTies (cat1 ++ cat2)) -> skyOK (tcoord P) (cat1 ++ cat2) ->
  (forall c, In c cs1 -> cellOK (inCat (cat1 ++ cat2)) c) ->
  (forall c, In c cs2 -> cellOK (inCat (cat1 ++ cat2)) c) ->
  Permutation (objsL cs1) cat1 -> Permutation (objsL cs2) cat2 ->
  addsL (evG (ind k) te) (cross12Iters P O cs1 cs2) (sumPairs12 (byOrder O P n im k) cat1 cat2).
Proof.
  intros HO W NT SK HC1 HC2 HP1 HP2.
  assert (S : sym23 (G (hG P (ind k) ov O) O)) by (destruct O; [apply G0_sym23|apply G1_sym23|congruence]).
  assert (E : sumPairs12 (byOrder O P n im k) cat1 cat2 =
              sum12 (G (hG P (ind k) ov O) O) (objsL cs1) (objsL cs2)).
  { rewrite (sum12_perm1 _ _ _ _ HP1), (sum12_perm2 _ _ _ _ S HP2).
    apply sum12_ext. intros a b c Ha Hb Hc. symmetry.
    apply (G_gam P V HE n im k Hn (cat1 ++ cat2) SK O); auto; apply in_or_app; auto. }
  rewrite E. destruct NS as [N1 [N2 [N3 N4]]].
  apply (cross12RUVG_ok P (ind k) ov te false) with (A := inCat (cat1 ++ cat2)) (Ok := fun O' => O' = O); auto; try side.
  intros HO'. apply (tie_okG P V HE n im k (cat1 ++ cat2) O); auto.
Qed.
Lemma cross3G_addsL O cat1 cat2 cat3 cs1 cs2 cs3 : nonnegW (cat1 ++ cat2 ++ cat3) ->
  (O = O0 -> noTies (cat1 ++ cat2 ++ cat3)) -> skyOK (tcoord P) (cat1 ++ cat2 ++ cat3) ->
  (forall c, In c cs1 -> cellOK (inCat (cat1 ++ cat2 ++ cat3)) c) ->
  (forall c, In c cs2 -> cellOK (inCat (cat1 ++ cat2 ++ cat3)) c) ->
  (forall c, In c cs3 -> cellOK (inCat (cat1 ++ cat2 ++ cat3)) c) ->
  Permutation (objsL cs1) cat1 -> Permutation (objsL cs2) cat2 -> Permutation (objsL cs3) cat3 ->
  addsL (evG (ind k) te) (cross3Iters P O cs1 cs2 cs3) (sumTriples (byOrder O P n im k) cat1 cat2 cat3).
Proof.
  intros W NT SK HC1 HC2 HC3 HP1 HP2 HP3.
  assert (E : sumTriples (byOrder O P n im k) cat1 cat2 cat3 =
              sum3 (G (hG P (ind k) ov O) O) (objsL cs1) (objsL cs2) (objsL cs3)).
  { rewrite (sum3_perm _ _ _ _ _ _ _ HP1 HP2 HP3).
    apply sum3_ext. intros a b c Ha Hb Hc. symmetry.
    apply (G_gam P V HE n im k Hn (cat1 ++ cat2 ++ cat3) SK O); auto; unfold inCat; rewrite !in_app_iff; auto. }
  rewrite E. destruct NS as [N1 [N2 [N3 N4]]].
  apply (cross3RUVG_ok P (ind k) ov te false) with (A := inCat (cat1 ++ cat2 ++ cat3)) (Ok := fun O' => O' = O); auto; try side.
  intros HO'. apply (tie_okG P V HE n im k (cat1 ++ cat2 ++ cat3) O); auto.
Qed.
End RunsG.

(** ** LogSAS *)
Section RunsSG.
Variable R0 : runcfg3.
Notation P := (r3P R0).
Hypothesis V : validSAS P.
Hypothesis NS : noSlopSAS P.
Hypothesis HE : tmetric P = Euclidean.
Hypothesis H23 : tminu P <= 2 * PI / 3.
Hypothesis H13 : PI / 3 <= tmaxu P.
Variables (n : nat) (im : bool) (k : Z).
Hypothesis Hn : (n <= 3)%nat.
Notation ov := (ovG (tcoord P) (gidx n im)).
Notation te := (gval (tcoord P) (gidx n im)).

Lemma labSG_gam cat a b c : skyOK (tcoord P) cat -> In a cat -> In b cat -> In c cat ->
  labSG P (ind k) ov a b c = triGam P n im k a b c.
Proof.
  intros SK Ha Hb Hc. rewrite labSG_sel by auto. unfold triGam. rewrite (vs_type _ V).
  destruct (selSAS P k a b c); auto. unfold ovG. apply (kernG_gam _ n im cat); auto.
Qed.
Lemma G_gamS cat O a b c : skyOK (tcoord P) cat -> In a cat -> In b cat -> In c cat ->
  G (hSG P (ind k) ov O) O a b c = byOrder O P n im k a b c.
Proof.
  intros. unfold hSG, byOrder. destruct O; unfold G; rewrite !(labSG_gam cat) by auto; unfold triGam6, triGam1; lra.
Qed.
Ltac sideS := first
  [ discriminate | congruence | (apply phiRange_of; assumption)
  | (intros; apply ovG_w0; assumption) | (intros; eapply gval_ok; eassumption) ].

Lemma autoSG_addsL cat cells : tminu P = 0 -> nonnegW cat -> oriented (tcoord P) cat -> skyOK (tcoord P) cat ->
  buildField (field3 R0) cat cells ->
  addsL (evG (ind k) te) (auto3Iters P cells) (sumTriplesU (triGam6 P n im k) cat).
Proof.
  intros U0 W OR SK HF.
  assert (E : sumTriplesU (triGam6 P n im k) cat = sumU3 (G (hSG P (ind k) ov O0) O0) (objsL cells)).
  { rewrite sumTriplesU_eq, (sumU3_perm _ _ cat (G0_sym12 _) (G0_sym23 _) (buildField_perm _ _ _ HF)).
    apply sumU3_ext. intros a b c Ha Hb Hc. symmetry. apply (G_gamS cat O0); auto. }
  rewrite E.
  apply (autoSASG_ok P (ind k) ov te false) with (A := inCat cat) (Ok := fun O => O <> O3); auto; try sideS.
  - intros _ a b c Ha Hb Hc. apply (orientedS P HE cat OR); auto.
  - apply (cells_JS R0 V NS HE _ _ cat); auto. congruence.
Qed.
Lemma cross12SG_addsL O cat1 cat2 cs1 cs2 : tminu P = 0 -> O <> O3 -> nonnegW (cat1 ++ cat2) ->
  oriented (tcoord P) (cat1 ++ cat2) -> skyOK (tcoord P) (cat1 ++ cat2) ->
  buildField (field3 R0) cat1 cs1 -> buildField (field3 R0) cat2 cs2 ->
  addsL (evG (ind k) te) (cross12Iters P O cs1 cs2) (sumPairs12 (byOrder O P n im k) cat1 cat2).
Proof.
  intros U0 HO W OR SK HF1 HF2.
  assert (S : sym23 (G (hSG P (ind k) ov O) O)) by (destruct O; [apply G0_sym23|apply G1_sym23|congruence]).
  assert (E : sumPairs12 (byOrder O P n im k) cat1 cat2 =
              sum12 (G (hSG P (ind k) ov O) O) (objsL cs1) (objsL cs2)).
  { rewrite (sum12_perm1 _ _ _ _ (buildField_perm _ _ _ HF1)), (sum12_perm2 _ _ _ _ S (buildField_perm _ _ _ HF2)).
    apply sum12_ext. intros a b c Ha Hb Hc. symmetry.
    apply (G_gamS (cat1 ++ cat2) O); auto; apply in_or_app; auto. }
  rewrite E.
  apply (cross12SASG_ok P (ind k) ov te false) with (A := inCat (cat1 ++ cat2)) (Ok := fun O => O <> O3); auto; try sideS.
  - intros _ a b c Ha Hb Hc. apply (orientedS P HE (cat1 ++ cat2) OR); auto.
  - apply (cells_JS R0 V NS HE _ _ cat1); auto; [|congruence]. intros; apply in_or_app; auto.
  - apply (cells_JS R0 V NS HE _ _ cat2); auto; [|congruence]. intros; apply in_or_app; auto.
Qed.
Lemma cross3SG_addsL O cat1 cat2 cat3 cs1 cs2 cs3 : nonnegW (cat1 ++ cat2 ++ cat3) ->
  crossOK R0 O (cat1 ++ cat2 ++ cat3) -> skyOK (tcoord P) (cat1 ++ cat2 ++ cat3) ->
  buildField (field3 R0) cat1 cs1 -> buildField (field3 R0) cat2 cs2 -> buildField (field3 R0) cat3 cs3 ->
  addsL (evG (ind k) te) (cross3Iters P O cs1 cs2 cs3) (sumTriples (byOrder O P n im k) cat1 cat2 cat3).
Proof.
  intros W OR SK HF1 HF2 HF3.
  assert (E : sumTriples (byOrder O P n im k) cat1 cat2 cat3 =
              sum3 (G (hSG P (ind k) ov O) O) (objsL cs1) (objsL cs2) (objsL cs3)).
  { rewrite (sum3_perm _ _ _ _ _ _ _ (buildField_perm _ _ _ HF1) (buildField_perm _ _ _ HF2) (buildField_perm _ _ _ HF3)).
    apply sum3_ext. intros a b c Ha Hb Hc. symmetry.
    apply (G_gamS (cat1 ++ cat2 ++ cat3) O); auto; rewrite !in_app_iff; auto. }
  rewrite E. set (cat := cat1 ++ cat2 ++ cat3) in *.
  set (Ok := fun O' : order => match O with O3 => O' = O3 | _ => O' <> O3 end).
  assert (F3 : Ok O3 -> tcoord P = Flat /\ forall o, inCat cat o -> pz (opos o) = 0).
  { unfold Ok. destruct O; try congruence. intros _. exact OR. }
  apply (cross3SASG_ok P (ind k) ov te false) with (A := inCat cat) (Ok := Ok); auto; try sideS.
  - unfold Ok. intros HO1 a b c Ha Hb Hc. apply (orientedS P HE cat); auto. destruct O; auto; discriminate.
  - unfold Ok. destruct O; intros; congruence.
  - unfold Ok. destruct O; congruence.
  - apply (cells_JS R0 V NS HE _ _ cat1); auto. intros; unfold inCat, cat; rewrite !in_app_iff; auto.
  - apply (cells_JS R0 V NS HE _ _ cat2); auto. intros; unfold inCat, cat; rewrite !in_app_iff; auto.
  - apply (cells_JS R0 V NS HE _ _ cat3); auto. intros; unfold inCat, cat; rewrite !in_app_iff; auto.
Qed.
End RunsSG.

(** ** C80 *)
Lemma cellOK_field R cat l cells : fminsize (field3 R) = 0 -> buildField (field3 R) cat cells ->
  (forall o, In o cat -> In o l) -> forall c, In c cells -> cellOK (inCat l) c.
Proof. intros. eapply (field_cellOK (inCat l) (field3 R) cat cells); eauto. Qed.
Section AddsAll.
Variable R0 : runcfg3.
Notation P := (r3P R0).
Variables (n : nat) (im : bool) (k : Z).
Hypothesis Hn : (n <= 3)%nat.
Notation te := (gval (tcoord P) (gidx n im)).
Lemma pi23 : 0 <= 2 * PI / 3. Proof. pose proof PI_RGT_0. lra. Qed.
Lemma autoAll cat cells : exactAuto P cat -> buildField (field3 R0) cat cells ->
  addsL (evG (ind k) te) (auto3Iters P cells) (sumTriplesU (triGam6 P n im k) cat).
Proof.
  intros [HE [W [SK [[V [NS [MV NT]]]|[V [NS [U0 [H3 OR]]]]]]]] HF.
  - apply autoG_addsL; auto; [|apply (buildField_perm _ _ _ HF)].
    apply (cellOK_field R0 cat cat); auto. apply field3_min; auto.
  - apply autoSG_addsL; auto. rewrite U0. apply pi23.
Qed.
Lemma cross12All O cat1 cat2 cs1 cs2 : exactCross12 P O (cat1 ++ cat2) ->
  buildField (field3 R0) cat1 cs1 -> buildField (field3 R0) cat2 cs2 ->
  addsL (evG (ind k) te) (cross12Iters P O cs1 cs2) (sumPairs12 (byOrder O P n im k) cat1 cat2).
Proof.
  intros [HE [W [SK [HO [[V [NS [MV NT]]]|[V [NS [U0 [H3 OR]]]]]]]]] HF1 HF2.
  - apply cross12G_addsL; auto; [| |apply (buildField_perm _ _ _ HF1)|apply (buildField_perm _ _ _ HF2)].
    + apply (cellOK_field R0 cat1); auto; [apply field3_min; auto|]. intros; apply in_or_app; auto.
    + apply (cellOK_field R0 cat2); auto; [apply field3_min; auto|]. intros; apply in_or_app; auto.
  - apply cross12SG_addsL; auto. rewrite U0. apply pi23.
Qed.
Lemma crossAll O cat1 cat2 cat3 cs1 cs2 cs3 : exactCross P O (cat1 ++ cat2 ++ cat3) ->
  buildField (field3 R0) cat1 cs1 -> buildField (field3 R0) cat2 cs2 -> buildField (field3 R0) cat3 cs3 ->
  addsL (evG (ind k) te) (cross3Iters P O cs1 cs2 cs3) (sumTriples (byOrder O P n im k) cat1 cat2 cat3).
Proof.
  intros [HE [W [SK [[V [NS [MV NT]]]|[V [NS [H2 [H3 [HF HO]]]]]]]]] HF1 HF2 HF3.
  - apply cross3G_addsL; auto;
      [| | |apply (buildField_perm _ _ _ HF1)|apply (buildField_perm _ _ _ HF2)|apply (buildField_perm _ _ _ HF3)].
    + apply (cellOK_field R0 cat1); auto; [apply field3_min; auto|]. intros; rewrite !in_app_iff; auto.
    + apply (cellOK_field R0 cat2); auto; [apply field3_min; auto|]. intros; rewrite !in_app_iff; auto.
    + apply (cellOK_field R0 cat3); auto; [apply field3_min; auto|]. intros; rewrite !in_app_iff; auto.
  - apply cross3SG_addsL; auto. destruct O; simpl; try (apply HO; discriminate).
    rewrite (HF eq_refl) in SK. auto.
Qed.
End AddsAll.

Theorem C80_auto R n im k cat s0 s1 : (n <= 3)%nat -> exactAuto (r3P R) cat -> runAutoG R cat s0 s1 ->
  s1 (gidx n im) k = s0 (gidx n im) k + sumTriplesU (triGam6 (r3P R) n im k) cat.
Proof. intros Hn EX [cells [HF HI]]. eapply processG_get; [exact HI|]. apply autoAll; auto. Qed.
Theorem C80_cross12 R O n im k cat1 cat2 s0 s1 : (n <= 3)%nat -> exactCross12 (r3P R) O (cat1 ++ cat2) ->
  runCross12G R O cat1 cat2 s0 s1 ->
  s1 (gidx n im) k = s0 (gidx n im) k + sumPairs12 (byOrder O (r3P R) n im k) cat1 cat2.
Proof. intros Hn EX [cs1 [cs2 [HF1 [HF2 HI]]]]. eapply processG_get; [exact HI|]. apply cross12All; auto. Qed.
Theorem C80_cross R O n im k cat1 cat2 cat3 s0 s1 : (n <= 3)%nat ->
  exactCross (r3P R) O (cat1 ++ cat2 ++ cat3) -> runCross3G R O cat1 cat2 cat3 s0 s1 ->
  s1 (gidx n im) k = s0 (gidx n im) k + sumTriples (byOrder O (r3P R) n im k) cat1 cat2 cat3.
Proof.
  intros Hn EX [cs1 [cs2 [cs3 [HF1 [HF2 [HF3 HI]]]]]]. eapply processG_get; [exact HI|]. apply crossAll; auto.
Qed.
(** Such runs exist. *)
Theorem C80_exists R O cat1 cat2 cat3 s0 : cat1 <> [] -> cat2 <> [] -> cat3 <> [] ->
  (exactAuto (r3P R) cat1 -> exists s1, runAutoG R cat1 s0 s1) /\
  (exactCross12 (r3P R) O (cat1 ++ cat2) -> exists s1, runCross12G R O cat1 cat2 s0 s1) /\
  (exactCross (r3P R) O (cat1 ++ cat2 ++ cat3) -> exists s1, runCross3G R O cat1 cat2 cat3 s0 s1).
Proof.
  intros N1 N2 N3.
  destruct (buildField_exists (field3 R) cat1 N1) as [cs1 F1].
  destruct (buildField_exists (field3 R) cat2 N2) as [cs2 F2].
  destruct (buildField_exists (field3 R) cat3 N3) as [cs3 F3].
  assert (Z : (0 <= 3)%nat) by lia. split; [|split]; intro EX.
  - destruct (addsL_existsG (tcoord (r3P R)) _ _ _ s0 (autoAll R 0 false 0 Z cat1 cs1 EX F1)) as [s1 H].
    exists s1, cs1. auto.
  - destruct (addsL_existsG (tcoord (r3P R)) _ _ _ s0 (cross12All R 0 false 0 Z O cat1 cat2 cs1 cs2 EX F1 F2)) as [s1 H].
    exists s1, cs1, cs2. auto.
  - destruct (addsL_existsG (tcoord (r3P R)) _ _ _ s0 (crossAll R 0 false 0 Z O cat1 cat2 cat3 cs1 cs2 cs3 EX F1 F2 F3)) as [s1 H].
    exists s1, cs1, cs2, cs3. auto.
Qed.

(** The two components of a shear in terms of the angle a of the line to the centroid. *)
Lemma unit2_polar d a : 0 < d -> unit2 (d * cos a, d * sin a) = (cos a, sin a).
Proof.
  intro Hd. unfold unit2. cbn [fst snd].
  assert (E := cnorm_polar d a). unfold cnorm, polar in E. cbn [fst snd] in E. rewrite E.
  rewrite sqrt_square by lra. apply cplx_eq; cbn [fst snd]; field; lra.
Qed.
Theorem C80_components a o : shearA (cos a, sin a) o = ow o * along 2 a o /\
  shearB (cos a, sin a) o = ow o * crossed 2 a o.
Proof.
  unfold shearA, shearB, along, crossed. cbn [fst snd]. rewrite cos_2a, sin_2a. split; ring.
Qed.
Theorem C80_axis_flat p q r a : isAngle p (centroidFlat p q r) a -> axisAt Flat p q r = (cos a, sin a).
Proof. intros [d [Hd [E1 E2]]]. unfold axisAt. rewrite E1, E2. apply unit2_polar; auto. Qed.
Theorem C80_axis_sky C p q r a : C <> Flat -> arrives (centroidSky p q r) (sky p) a ->
  axisAt C p q r = (cos a, sin a).
Proof.
  intros HC [d [Hd E]]. unfold axisAt. destruct C; [congruence| |]; rewrite E; apply unit2_polar; auto.
Qed.

(** After _finalize: the product of the mean and the total weight is the sum, also where the weight
    is 0. *)
Lemma sumTriplesU_zero g h l : (forall a b c, In a l -> In b l -> In c l -> 0 <= g a b c /\ (g a b c = 0 -> h a b c = 0)) ->
  0 <= sumTriplesU g l /\ (sumTriplesU g l = 0 -> sumTriplesU h l = 0).
Proof.
  assert (S : forall (A : Type) (u v : A -> R) (m : list A), (forall x, In x m -> 0 <= u x /\ (u x = 0 -> v x = 0)) ->
     0 <= sumR u m /\ (sumR u m = 0 -> sumR v m = 0)).
  { intros A u v m. induction m as [|x m IH]; intro H; simpl; [split; [lra|auto]|].
    destruct (H x) as [H1 H2]; [left; auto|]. destruct IH as [I1 I2]; [intros; apply H; right; auto|].
    split; [lra|]. intro E. rewrite H2, I2 by lra. lra. }
  induction l as [|a t IH]; intro H; simpl; [split; [lra|auto]|].
  destruct IH as [I1 I2]; [intros; apply H; right; auto|].
  destruct (S _ (fun q => g a (fst q) (snd q)) (fun q => h a (fst q) (snd q)) (upairs t)) as [S1 S2].
  { intros [b c] Hq. apply in_upairs in Hq as [Hb Hc]. apply H; simpl; auto. }
  split; [lra|]. intro E. rewrite S2, I2 by lra. lra.
Qed.
Lemma gam_w0 C n im a b c : ow a * ow b * ow c = 0 -> gamVal C n im a b c = 0.
Proof.
  intro H. unfold gamVal, shearA, shearB.
  assert (Z : ow a = 0 \/ ow b = 0 \/ ow c = 0).
  { apply Rmult_integral in H as [H|H]; auto. apply Rmult_integral in H as [H|H]; auto. }
  destruct Z as [Z|[Z|Z]]; rewrite Z; destruct im; unfold prodRe, prodIm; ring.
Qed.
Lemma www_nonneg l a b c : nonnegW l -> In a l -> In b l -> In c l -> 0 <= ow a * ow b * ow c.
Proof. intros W Ha Hb Hc. apply Rmult_le_pos; [apply Rmult_le_pos|]; apply W; auto. Qed.
Theorem C80_mean R n im k cat w1 s1 : (n <= 3)%nat -> exactAuto (r3P R) cat ->
  runAuto3 R cat cleared3 w1 -> runAutoG R cat clearedG s1 ->
  finalizeG (w1 TWeight) s1 (gidx n im) k * w1 TWeight k = sumTriplesU (triGam6 (r3P R) n im k) cat.
Proof.
  intros Hn EX RW RG.
  assert (E := C80_auto R n im k cat clearedG s1 Hn EX RG). unfold clearedG in E at 1. rewrite Rplus_0_l in E.
  unfold finalizeG. destruct Req_EM_T as [Z|Z]; [|rewrite E; field; auto].
  rewrite Z, Rmult_0_r. symmetry.
  destruct EX as [HE [W [SK [[V [NS [MV NT]]]|[V [NS [U0 [H3 OR]]]]]]]].
  - assert (WE := C65_auto_exact R TWeight k cat cleared3 w1 V NS HE MV W NT RW).
    unfold cleared3 in WE at 1. rewrite Rplus_0_l, Z in WE.
    destruct (sumTriplesU_zero (tri6 (r3P R) TWeight k) (triGam6 (r3P R) n im k) cat) as [_ X]; [|apply X; auto].
    assert (L : forall a b c, In a cat -> In b cat -> In c cat -> 0 <= tri (r3P R) TWeight k a b c /\
      (tri (r3P R) TWeight k a b c = 0 -> triGam (r3P R) n im k a b c = 0)).
    { intros a b c Ha Hb Hc. unfold tri, triGam. rewrite (vt_type _ V). destruct selTri; [|split; auto; lra].
      unfold triVal. split; [eapply www_nonneg; eauto|apply gam_w0]. }
    intros a b c Ha Hb Hc. unfold tri6, tri1, triGam6, triGam1.
    destruct (L a b c) as [P1 Q1], (L a c b) as [P2 Q2], (L b a c) as [P3 Q3], (L b c a) as [P4 Q4],
      (L c a b) as [P5 Q5], (L c b a) as [P6 Q6]; auto.
    split; [lra|]. intro X. rewrite Q1, Q2, Q3, Q4, Q5, Q6 by lra. lra.
  - assert (WE := C79_auto R TWeight k cat cleared3 w1 V NS HE U0 H3 W OR RW).
    unfold cleared3 in WE at 1. rewrite Rplus_0_l, Z in WE.
    destruct (sumTriplesU_zero (sas6 (r3P R) TWeight k) (triGam6 (r3P R) n im k) cat) as [_ X]; [|apply X; auto].
    assert (L : forall a b c, In a cat -> In b cat -> In c cat -> 0 <= sas (r3P R) TWeight k a b c /\
      (sas (r3P R) TWeight k a b c = 0 -> triGam (r3P R) n im k a b c = 0)).
    { intros a b c Ha Hb Hc. unfold sas, triGam. rewrite (vs_type _ V). destruct selSAS; [|split; auto; lra].
      unfold sasVal. split; [eapply www_nonneg; eauto|apply gam_w0]. }
    intros a b c Ha Hb Hc. unfold sas6, sas1, triGam6, triGam1.
    destruct (L a b c) as [P1 Q1], (L a c b) as [P2 Q2], (L b a c) as [P3 Q3], (L b c a) as [P4 Q4],
      (L c a b) as [P5 Q5], (L c b a) as [P6 Q6]; auto.
    split; [lra|]. intro X. rewrite Q1, Q2, Q3, Q4, Q5, Q6 by lra. lra.
Qed.
