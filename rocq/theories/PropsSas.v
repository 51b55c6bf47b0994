(** C79: the three-point sums of bin_type='LogSAS' with bin_slop=0. *)
From Coq Require Import Reals Lra Lia List ZArith Bool Permutation Psatz.
From Verif Require Import Base Geometry Tree Traverse Spec GeomFacts SumFacts TreeFacts TravFacts
  MetricFacts Cover Runs Corr3 TriCover TriStop SpecTri TriFacts TriSpec PropsTri PropsArc SasGeom SasStop
  SpecSas SasFacts SasSpec.
Import ListNotations.
Open Scope R_scope.

Lemma phiRange_of P : validSAS P -> tminu P <= 2 * PI / 3 -> PI / 3 <= tmaxu P -> phiRange P.
Proof.
  intros V H1 H2. pose proof (vs_minu _ V). pose proof (vs_maxu1 _ V). pose proof (vs_maxu _ V).
  pose proof (vs_ubs _ V). pose proof (IZR_lt _ _ (vs_nu _ V)). unfold phiRange.
  assert (0 < IZR (tnubins P) * tubinsize P) by (apply Rmult_lt_0_compat; auto). lra.
Qed.
Lemma weights_wok f cat : weights3 f cat -> forall o, In o cat -> wok f o.
Proof. intros H o Ho. specialize (H o Ho). destruct f; auto. Qed.

Section RunsS.
Variable R0 : runcfg3.
Notation P := (r3P R0).
Hypothesis V : validSAS P.
Hypothesis NS : noSlopSAS P.
Hypothesis HE : tmetric P = Euclidean.
Hypothesis H23 : tminu P <= 2 * PI / 3.
Hypothesis H13 : PI / 3 <= tmaxu P.

Lemma cells_JS (A : obj -> Prop) (Ok : order -> Prop) cat cells : buildField (field3 R0) cat cells ->
  (forall o, In o cat -> A o) -> (Ok O3 -> tcoord P = Flat /\ forall o, A o -> pz (opos o) = 0) ->
  forall c, In c cells -> JS A Ok c.
Proof.
  intros HF HA HO c Hc. split.
  - apply (field_cellOK A (field3 R0) cat cells); auto. apply field3_minS; auto.
  - intro H. destruct (HO H) as [F1 F2]. apply (field_flat (field3 R0) cat cells); auto.
Qed.

Lemma autoS_addsL f k cat cells : tminu P = 0 -> weights3 f cat -> oriented (tcoord P) cat ->
  buildField (field3 R0) cat cells ->
  addsL (ev (ind k) f) (auto3Iters P cells) (sumTriplesU (sas6 P f k) cat).
Proof.
  intros U0 W OR HF.
  assert (E : sumTriplesU (sas6 P f k) cat = sumU3 (G (hS P (ind k) f O0) O0) (objsL cells)).
  { rewrite sumTriplesU_eq, (sumU3_perm _ _ cat (G0_sym12 _) (G0_sym23 _) (buildField_perm _ _ _ HF)).
    apply sumU3_ext. intros a b c Ha Hb Hc. symmetry. apply (G_sas P V HE f k O0). }
  rewrite E.
  apply (autoSAS_ok P (ind k) f V HE NS (phiRange_of _ V H23 H13) (inCat cat) (weights_wok _ _ W)
           (fun O => O <> O3)); auto; try discriminate.
  - intros _ a b c Ha Hb Hc. apply (orientedS P HE cat OR); auto.
  - congruence.
  - apply (cells_JS _ _ cat); auto. congruence.
Qed.
Lemma cross12S_addsL f k O cat1 cat2 cs1 cs2 : tminu P = 0 -> O <> O3 -> weights3 f (cat1 ++ cat2) ->
  oriented (tcoord P) (cat1 ++ cat2) ->
  buildField (field3 R0) cat1 cs1 -> buildField (field3 R0) cat2 cs2 ->
  addsL (ev (ind k) f) (cross12Iters P O cs1 cs2)
    (sumPairs12 (match O with O1 => sas1 P f k | _ => sas6 P f k end) cat1 cat2).
Proof.
  intros U0 HO W OR HF1 HF2.
  assert (S : sym23 (G (hS P (ind k) f O) O)) by (destruct O; [apply G0_sym23|apply G1_sym23|congruence]).
  assert (E : sumPairs12 (match O with O1 => sas1 P f k | _ => sas6 P f k end) cat1 cat2 =
              sum12 (G (hS P (ind k) f O) O) (objsL cs1) (objsL cs2)).
  { rewrite (sum12_perm1 _ _ _ _ (buildField_perm _ _ _ HF1)), (sum12_perm2 _ _ _ _ S (buildField_perm _ _ _ HF2)).
    apply sum12_ext. intros a b c Ha Hb Hc. symmetry.
    rewrite (G_sas P V HE f k O). destruct O; auto; congruence. }
  rewrite E.
  apply (cross12SAS_ok P (ind k) f V HE NS (phiRange_of _ V H23 H13) (inCat (cat1 ++ cat2)) (weights_wok _ _ W)
           (fun O => O <> O3)); auto; try discriminate.
  - intros _ a b c Ha Hb Hc. apply (orientedS P HE (cat1 ++ cat2) OR); auto.
  - congruence.
  - apply (cells_JS _ _ cat1); auto; [|congruence]. intros; apply in_or_app; auto.
  - apply (cells_JS _ _ cat2); auto; [|congruence]. intros; apply in_or_app; auto.
Qed.
Definition crossOK (O : order) (l : list obj) : Prop :=
  match O with
  | O3 => tcoord P = Flat /\ forall o, In o l -> pz (opos o) = 0
  | _ => oriented (tcoord P) l
  end.
Lemma cross3S_addsL f k O cat1 cat2 cat3 cs1 cs2 cs3 : weights3 f (cat1 ++ cat2 ++ cat3) ->
  crossOK O (cat1 ++ cat2 ++ cat3) ->
  buildField (field3 R0) cat1 cs1 -> buildField (field3 R0) cat2 cs2 -> buildField (field3 R0) cat3 cs3 ->
  addsL (ev (ind k) f) (cross3Iters P O cs1 cs2 cs3)
    (sumTriples (match O with O3 => sas P f k | O1 => sas1 P f k | O0 => sas6 P f k end) cat1 cat2 cat3).
Proof.
  intros W OR HF1 HF2 HF3.
  assert (E : sumTriples (match O with O3 => sas P f k | O1 => sas1 P f k | O0 => sas6 P f k end) cat1 cat2 cat3 =
              sum3 (G (hS P (ind k) f O) O) (objsL cs1) (objsL cs2) (objsL cs3)).
  { rewrite (sum3_perm _ _ _ _ _ _ _ (buildField_perm _ _ _ HF1) (buildField_perm _ _ _ HF2) (buildField_perm _ _ _ HF3)).
    apply sum3_ext. intros a b c Ha Hb Hc. symmetry.
    rewrite (G_sas P V HE f k O). destruct O; auto. }
  rewrite E. set (cat := cat1 ++ cat2 ++ cat3) in *.
  set (Ok := fun O' : order => match O with O3 => O' = O3 | _ => O' <> O3 end).
  assert (F3 : Ok O3 -> tcoord P = Flat /\ forall o, inCat cat o -> pz (opos o) = 0).
  { unfold Ok. destruct O; try congruence. intros _. exact OR. }
  apply (cross3SAS_ok P (ind k) f V HE NS (phiRange_of _ V H23 H13) (inCat cat) (weights_wok _ _ W) Ok); auto.
  - unfold Ok. intros HO1 a b c Ha Hb Hc. apply (orientedS P HE cat); auto. destruct O; auto; discriminate.
  - unfold Ok. destruct O; intros; congruence.
  - unfold Ok. destruct O; congruence.
  - apply (cells_JS _ _ cat1); auto. intros; unfold inCat, cat; rewrite !in_app_iff; auto.
  - apply (cells_JS _ _ cat2); auto. intros; unfold inCat, cat; rewrite !in_app_iff; auto.
  - apply (cells_JS _ _ cat3); auto. intros; unfold inCat, cat; rewrite !in_app_iff; auto.
Qed.
End RunsS.

(** ** C79 *)
Theorem C79_auto R f k cat s0 s1 :
  validSAS (r3P R) -> noSlopSAS (r3P R) -> tmetric (r3P R) = Euclidean ->
  tminu (r3P R) = 0 -> PI / 3 <= tmaxu (r3P R) -> weights3 f cat -> oriented (tcoord (r3P R)) cat ->
  runAuto3 R cat s0 s1 ->
  s1 f k = s0 f k + sumTriplesU (sas6 (r3P R) f k) cat.
Proof.
  intros V NS HE U0 H3 W OR [cells [HF HI]]. pose proof PI_RGT_0.
  eapply processIters_get; [exact HI|]. apply autoS_addsL; auto. lra.
Qed.
Theorem C79_cross12 R O f k cat1 cat2 s0 s1 :
  validSAS (r3P R) -> noSlopSAS (r3P R) -> tmetric (r3P R) = Euclidean ->
  tminu (r3P R) = 0 -> PI / 3 <= tmaxu (r3P R) -> O <> O3 -> weights3 f (cat1 ++ cat2) ->
  oriented (tcoord (r3P R)) (cat1 ++ cat2) -> runCross12 R O cat1 cat2 s0 s1 ->
  s1 f k = s0 f k +
    sumPairs12 (match O with O1 => sas1 (r3P R) f k | _ => sas6 (r3P R) f k end) cat1 cat2.
Proof.
  intros V NS HE U0 H3 HO W OR [cs1 [cs2 [HF1 [HF2 HI]]]]. pose proof PI_RGT_0.
  eapply processIters_get; [exact HI|]. apply cross12S_addsL; auto. lra.
Qed.
(** Three catalogs, any min_phi up to 120 degrees: unordered, or with the first catalog at the
    apex (O1). *)
Theorem C79_cross R O f k cat1 cat2 cat3 s0 s1 :
  validSAS (r3P R) -> noSlopSAS (r3P R) -> tmetric (r3P R) = Euclidean ->
  tminu (r3P R) <= 2 * PI / 3 -> PI / 3 <= tmaxu (r3P R) -> O <> O3 ->
  weights3 f (cat1 ++ cat2 ++ cat3) -> oriented (tcoord (r3P R)) (cat1 ++ cat2 ++ cat3) ->
  runCross3 R O cat1 cat2 cat3 s0 s1 ->
  s1 f k = s0 f k +
    sumTriples (match O with O1 => sas1 (r3P R) f k | _ => sas6 (r3P R) f k end) cat1 cat2 cat3.
Proof.
  intros V NS HE H2 H3 HO W OR [cs1 [cs2 [cs3 [HF1 [HF2 [HF3 HI]]]]]].
  eapply processIters_get; [exact HI|].
  replace (match O with O1 => sas1 (r3P R) f k | _ => sas6 (r3P R) f k end) with
    (match O with O3 => sas (r3P R) f k | O1 => sas1 (r3P R) f k | O0 => sas6 (r3P R) f k end)
    by (destruct O; auto; congruence).
  apply cross3S_addsL; auto. destruct O; auto; congruence.
Qed.
(** ordered=True in the plane: only the order c1, c3, c2 counter-clockwise; no condition on
    collinear triangles. *)
Theorem C79_cross_ordered R f k cat1 cat2 cat3 s0 s1 :
  validSAS (r3P R) -> noSlopSAS (r3P R) -> tmetric (r3P R) = Euclidean -> tcoord (r3P R) = Flat ->
  tminu (r3P R) <= 2 * PI / 3 -> PI / 3 <= tmaxu (r3P R) ->
  weights3 f (cat1 ++ cat2 ++ cat3) -> (forall o, In o (cat1 ++ cat2 ++ cat3) -> pz (opos o) = 0) ->
  runCross3 R O3 cat1 cat2 cat3 s0 s1 ->
  s1 f k = s0 f k + sumTriples (sas (r3P R) f k) cat1 cat2 cat3.
Proof.
  intros V NS HE HC H2 H3 W FL [cs1 [cs2 [cs3 [HF1 [HF2 [HF3 HI]]]]]].
  eapply processIters_get; [exact HI|].
  apply (cross3S_addsL R V NS HE H2 H3 f k O3); auto. split; auto.
Qed.
(** Such runs exist. *)
Theorem C79_exists R O cat1 cat2 cat3 s0 :
  validSAS (r3P R) -> noSlopSAS (r3P R) -> tmetric (r3P R) = Euclidean ->
  tminu (r3P R) <= 2 * PI / 3 -> PI / 3 <= tmaxu (r3P R) ->
  cat1 <> [] -> cat2 <> [] -> cat3 <> [] ->
  (forall o, In o (cat1 ++ cat2 ++ cat3) -> 0 <= ow o) -> oriented (tcoord (r3P R)) (cat1 ++ cat2 ++ cat3) ->
  (tminu (r3P R) = 0 -> exists s1, runAuto3 R cat1 s0 s1) /\
  (tminu (r3P R) = 0 -> O <> O3 -> exists s1, runCross12 R O cat1 cat2 s0 s1) /\
  (O <> O3 -> exists s1, runCross3 R O cat1 cat2 cat3 s0 s1) /\
  (tcoord (r3P R) = Flat -> (forall o, In o (cat1 ++ cat2 ++ cat3) -> pz (opos o) = 0) ->
   exists s1, runCross3 R O3 cat1 cat2 cat3 s0 s1).
Proof.
  intros V NS HE H2 H3 N1 N2 N3 W OR.
  destruct (buildField_exists (field3 R) cat1 N1) as [cs1 F1].
  destruct (buildField_exists (field3 R) cat2 N2) as [cs2 F2].
  destruct (buildField_exists (field3 R) cat3 N3) as [cs3 F3].
  assert (WW : forall l, (forall o, In o l -> In o (cat1 ++ cat2 ++ cat3)) -> weights3 TWeight l).
  { intros l Hl o Ho. apply W; auto. }
  assert (OO : forall l, (forall o, In o l -> In o (cat1 ++ cat2 ++ cat3)) -> oriented (tcoord (r3P R)) l).
  { intros l Hl a b c Ha Hb Hc. apply OR; auto. }
  split; [|split; [|split]].
  - intro U0.
    assert (A := autoS_addsL R V NS HE H2 H3 TWeight 0%Z cat1 cs1 U0
              (WW cat1 ltac:(intros; apply in_or_app; auto)) (OO cat1 ltac:(intros; apply in_or_app; auto)) F1).
    destruct (addsL_exists _ _ _ s0 A) as [s1 Hs]. exists s1, cs1. auto.
  - intros U0 HO.
    assert (A := cross12S_addsL R V NS HE H2 H3 TWeight 0%Z O cat1 cat2 cs1 cs2 U0 HO
              (WW (cat1 ++ cat2) ltac:(intros; rewrite !in_app_iff in *; tauto))
              (OO (cat1 ++ cat2) ltac:(intros; rewrite !in_app_iff in *; tauto)) F1 F2).
    destruct (addsL_exists _ _ _ s0 A) as [s1 Hs]. exists s1, cs1, cs2. auto.
  - intros HO.
    assert (A := cross3S_addsL R V NS HE H2 H3 TWeight 0%Z O cat1 cat2 cat3 cs1 cs2 cs3
              (WW (cat1 ++ cat2 ++ cat3) ltac:(auto)) ltac:(destruct O; auto; congruence) F1 F2 F3).
    destruct (addsL_exists _ _ _ s0 A) as [s1 Hs]. exists s1, cs1, cs2, cs3. auto.
  - intros HC FL.
    assert (A := cross3S_addsL R V NS HE H2 H3 TWeight 0%Z O3 cat1 cat2 cat3 cs1 cs2 cs3
              (WW (cat1 ++ cat2 ++ cat3) ltac:(auto)) (conj HC FL) F1 F2 F3).
    destruct (addsL_exists _ _ _ s0 A) as [s1 Hs]. exists s1, cs1, cs2, cs3. auto.
Qed.
