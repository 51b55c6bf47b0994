(** C65-C67: the three-point sums of bin_type='LogRUV' with bin_slop=0. *)
From Coq Require Import Reals Lra Lia List ZArith Bool Permutation Psatz.
From Verif Require Import Base Geometry Tree Traverse Spec GeomFacts SumFacts TreeFacts TravFacts
  MetricFacts Cover Runs Corr3 TriCover TriStop SpecTri TriFacts TriSpec.
Import ListNotations.
Open Scope R_scope.

(** ** Cells of a three-point field *)
Lemma field3_min R : validRUV (r3P R) -> noSlop3 (r3P R) -> tmetric (r3P R) = Euclidean ->
  fminsize (field3 R) = 0.
Proof.
  intros V [N1 [N2 [N3 N4]]] HE. unfold field3, minMaxSize3. rewrite HE, (vt_type _ V), N1, N2, N3.
  cbn [fst fminsize]. rewrite (Rmin_right (ta (r3P R)) 0) by auto.
  rewrite (Rmin_left 0 0) by lra. rewrite (Rmin_left 0 0) by lra. field.
Qed.
Lemma field_cellOK (A : obj -> Prop) F cat cells : fminsize F = 0 -> fbrute F = false ->
  buildField F cat cells -> (forall o, In o cat -> A o) -> forall c, In c cells -> cellOK A c.
Proof.
  intros Hm Hb HF HA c Hc. constructor.
  - pose proof (buildField_wf F cat cells ltac:(lra) HF) as W. rewrite Hm in W.
    rewrite Forall_forall in W. auto.
  - pose proof (buildField_fin F cat cells Hb HF) as W. rewrite Forall_forall in W. auto.
  - intros o Ho. apply HA. eapply Permutation_in; [apply (buildField_perm F cat cells HF)|].
    apply in_concat. exists (objs c). split; auto. apply in_map; auto.
Qed.

Lemma sumTriplesU_eq g l : sumTriplesU g l = sumU3 g l.
Proof. induction l as [|a t IH]; simpl; auto. Qed.

Section Exact.
Variable P : tparams.
Hypothesis V : validRUV P.
Hypothesis NS : noSlop3 P.
Hypothesis HE : tmetric P = Euclidean.
Hypothesis MV : tminv P = 0.

Lemma tri_u f k a b c : tri P f k a b c <> 0 -> 0 < side3 a b c < side2 a b c.
Proof.
  unfold tri. destruct (selTri P k a b c) eqn:S; [|congruence]. intros _.
  apply (selTri_iff P V) in S as [[H1 [H2 [H3 [H4 [_ [_ [H7 _]]]]]]] _].
  apply floor_iff in H7. pose proof (vt_ubs _ V). pose proof (vt_maxu1 _ V).
  assert (IZR (kuOf P k + 1) <= IZR (tnubins P)) by (apply IZR_le; lia).
  assert (side3 a b c / side2 a b c < tmaxu P).
  { rewrite (vt_maxu _ V). apply lin_iff_lt; auto. lra. }
  assert (side3 a b c = side3 a b c / side2 a b c * side2 a b c) by (field; lra).
  assert (side3 a b c / side2 a b c * side2 a b c < 1 * side2 a b c)
    by (apply Rmult_lt_compat_r; lra). lra.
Qed.

Variable f : tfield.
Variable k : Z.
Variable cat : list obj.
Hypothesis W : weights3 f cat.

Definition inCat (o : obj) : Prop := In o cat.
Lemma tie_ok O : (O = O0 -> noTies cat) -> O0 = O ->
  forall a b c, inCat a -> inCat b -> inCat c ->
  mdist (tmetric P) (opos b) (opos c) = mdist (tmetric P) (opos a) (opos c) ->
  lab P (ind k) f b a c = lab P (ind k) f a b c.
Proof.
  intros HT HO a b c Ha Hb Hc E. specialize (HT (eq_sym HO)).
  rewrite !lab_tri by auto.
  rewrite (md_side1 P HE a b c), (md_side2 P HE a b c) in E.
  assert (tri P f k a b c = 0).
  { destruct (Req_dec (tri P f k a b c) 0) as [Z|Z]; auto. apply tri_u in Z.
    exfalso. apply (HT a b c Ha Hb Hc). auto. }
  assert (tri P f k b a c = 0).
  { destruct (Req_dec (tri P f k b a c) 0) as [Z|Z]; auto. apply tri_u in Z.
    exfalso. apply (HT b a c Hb Ha Hc). split; auto.
 }
  congruence.
Qed.
Lemma G_tri O a b c : (O = O0 -> noTies cat) -> inCat a -> inCat b -> inCat c ->
  G (hRUV P (ind k) f O) O a b c =
  match O with O3 => tri P f k a b c | O1 => tri1 P f k a b c | O0 => tri6 P f k a b c end.
Proof.
  intros HT Ha Hb Hc.
  assert (X : forall a b c, inCat a -> inCat b -> inCat c -> hRUV P (ind k) f O a b c = tri P f k a b c).
  { clear a b c Ha Hb Hc. intros a b c Ha Hb Hc. unfold hRUV, hG. fold (lab P (ind k) f). rewrite lab_tri by auto.
    destruct O; auto. destruct Req_EM_T as [E|E]; auto.
    rewrite (md_side1 P HE a b c), (md_side2 P HE a b c) in E.
    destruct (Req_dec (tri P f k a b c) 0) as [Z|Z]; [rewrite Z; lra|]. apply tri_u in Z.
    exfalso. apply (HT eq_refl a b c Ha Hb Hc). auto. }
  destruct O; unfold G; rewrite !X by auto; unfold tri6, tri1; lra.
Qed.

(** the common side conditions *)
Lemma pos_maxsep : 0 <= tmaxsep P.
Proof.
  rewrite (vt_maxsep _ V). apply Rmult_le_pos; [left; apply (vt_minsep _ V)|left; apply exp_pos].
Qed.
Lemma minu_01 : 0 <= tminu P <= 1.
Proof.
  split; [apply (vt_minu _ V)|]. pose proof (vt_maxu _ V). pose proof (vt_maxu1 _ V).
  pose proof (vt_ubs _ V). pose proof (IZR_lt _ _ (vt_nu _ V)). nra.
Qed.
Lemma maxu_01 : 0 <= tmaxu P <= 1.
Proof.
  split; [|apply (vt_maxu1 _ V)]. pose proof (vt_maxu _ V). pose proof (vt_minu _ V).
  pose proof (vt_ubs _ V). pose proof (IZR_lt _ _ (vt_nu _ V)). nra.
Qed.
Lemma maxv_0 : 0 <= tmaxv P.
Proof.
  rewrite (vt_maxv _ V). pose proof (vt_minv _ V). pose proof (vt_vbs _ V). pose proof (IZR_lt _ _ (vt_nv _ V)). nra.
Qed.
Lemma plainE : plainM (tmetric P).
Proof. rewrite HE. apply plain_euclid. Qed.
End Exact.

Section Runs.
Variable P : tparams.
Hypothesis V : validRUV P.
Hypothesis NS : noSlop3 P.
Hypothesis HE : tmetric P = Euclidean.
Hypothesis MV : tminv P = 0.

Lemma auto_addsL f k cat cells : weights3 f cat -> noTies cat ->
  (forall c, In c cells -> cellOK (inCat cat) c) -> Permutation (objsL cells) cat ->
  addsL (ev (ind k) f) (auto3Iters P cells) (sumTriplesU (tri6 P f k) cat).
Proof.
  intros W NT HC HP.
  assert (E : sumTriplesU (tri6 P f k) cat = sumU3 (G (hRUV P (ind k) f O0) O0) (objsL cells)).
  { rewrite sumTriplesU_eq, (sumU3_perm _ _ cat (G0_sym12 _) (G0_sym23 _) HP).
    apply sumU3_ext. intros a b c Ha Hb Hc. symmetry. apply (G_tri P V HE f k cat O0); auto. }
  rewrite E. destruct NS as [N1 [N2 [N3 N4]]].
  apply (autoRUV_ok P (ind k) f) with (A := inCat cat) (Ok := fun O => O = O0); auto.
  - apply (vt_type _ V).
  - apply plainE; auto.
  - apply (vt_minsep _ V).
  - apply pos_maxsep; auto.
  - apply minu_01; auto.
  - apply maxu_01; auto.
  - apply maxv_0; auto.
  - intros _. apply (tie_ok P V HE f k cat O0); auto.
Qed.
Lemma cross12_addsL f k O cat1 cat2 cs1 cs2 : O <> O3 -> weights3 f (cat1 ++ cat2) ->
  (O = O0 -> noTies (cat1 ++ cat2)) ->
  (forall c, In c cs1 -> cellOK (inCat (cat1 ++ cat2)) c) ->
  (forall c, In c cs2 -> cellOK (inCat (cat1 ++ cat2)) c) ->
  Permutation (objsL cs1) cat1 -> Permutation (objsL cs2) cat2 ->
  addsL (ev (ind k) f) (cross12Iters P O cs1 cs2)
    (sumPairs12 (match O with O1 => tri1 P f k | _ => tri6 P f k end) cat1 cat2).
Proof.
  intros HO W NT HC1 HC2 HP1 HP2.
  assert (S : sym23 (G (hRUV P (ind k) f O) O)) by (destruct O; [apply G0_sym23|apply G1_sym23|congruence]).
  assert (E : sumPairs12 (match O with O1 => tri1 P f k | _ => tri6 P f k end) cat1 cat2 =
              sum12 (G (hRUV P (ind k) f O) O) (objsL cs1) (objsL cs2)).
  { rewrite (sum12_perm1 _ _ _ _ HP1), (sum12_perm2 _ _ _ _ S HP2).
    apply sum12_ext. intros a b c Ha Hb Hc. symmetry.
    rewrite (G_tri P V HE f k (cat1 ++ cat2) O); auto; try (apply in_or_app; auto).
    destruct O; auto; congruence. }
  rewrite E. destruct NS as [N1 [N2 [N3 N4]]].
  apply (cross12RUV_ok P (ind k) f) with (A := inCat (cat1 ++ cat2)) (Ok := fun O' => O' = O); auto.
  - apply (vt_type _ V).
  - apply plainE; auto.
  - apply (vt_minsep _ V).
  - apply pos_maxsep; auto.
  - apply minu_01; auto.
  - apply maxu_01; auto.
  - apply maxv_0; auto.
  - intros HO'. apply (tie_ok P V HE f k (cat1 ++ cat2) O); auto.
Qed.
Lemma cross3_addsL f k O cat1 cat2 cat3 cs1 cs2 cs3 : weights3 f (cat1 ++ cat2 ++ cat3) ->
  (O = O0 -> noTies (cat1 ++ cat2 ++ cat3)) ->
  (forall c, In c cs1 -> cellOK (inCat (cat1 ++ cat2 ++ cat3)) c) ->
  (forall c, In c cs2 -> cellOK (inCat (cat1 ++ cat2 ++ cat3)) c) ->
  (forall c, In c cs3 -> cellOK (inCat (cat1 ++ cat2 ++ cat3)) c) ->
  Permutation (objsL cs1) cat1 -> Permutation (objsL cs2) cat2 -> Permutation (objsL cs3) cat3 ->
  addsL (ev (ind k) f) (cross3Iters P O cs1 cs2 cs3)
    (sumTriples (match O with O3 => tri P f k | O1 => tri1 P f k | O0 => tri6 P f k end) cat1 cat2 cat3).
Proof.
  intros W NT HC1 HC2 HC3 HP1 HP2 HP3.
  assert (E : sumTriples (match O with O3 => tri P f k | O1 => tri1 P f k | O0 => tri6 P f k end) cat1 cat2 cat3 =
              sum3 (G (hRUV P (ind k) f O) O) (objsL cs1) (objsL cs2) (objsL cs3)).
  { rewrite (sum3_perm _ _ _ _ _ _ _ HP1 HP2 HP3).
    apply sum3_ext. intros a b c Ha Hb Hc. symmetry.
    rewrite (G_tri P V HE f k (cat1 ++ cat2 ++ cat3) O); auto;
      try (unfold inCat; rewrite !in_app_iff; auto).
    destruct O; auto; congruence. }
  rewrite E. destruct NS as [N1 [N2 [N3 N4]]].
  apply (cross3RUV_ok P (ind k) f) with (A := inCat (cat1 ++ cat2 ++ cat3)) (Ok := fun O' => O' = O); auto.
  - apply (vt_type _ V).
  - apply plainE; auto.
  - apply (vt_minsep _ V).
  - apply pos_maxsep; auto.
  - apply minu_01; auto.
  - apply maxu_01; auto.
  - apply maxv_0; auto.
  - intros HO'. apply (tie_ok P V HE f k (cat1 ++ cat2 ++ cat3) O); auto.
Qed.
End Runs.

(** ** C65: auto-correlation *)
Theorem C65_auto_exact R f k cat s0 s1 :
  validRUV (r3P R) -> noSlop3 (r3P R) -> tmetric (r3P R) = Euclidean ->
  tminv (r3P R) = 0 -> weights3 f cat -> noTies cat -> runAuto3 R cat s0 s1 ->
  s1 f k = s0 f k + sumTriplesU (tri6 (r3P R) f k) cat.
Proof.
  intros V NS HE MV W NT [cells [HF HI]].
  eapply processIters_get; [exact HI|]. apply auto_addsL; auto.
  - apply (field_cellOK _ (field3 R) cat); auto. apply field3_min; auto.
  - apply (buildField_perm _ _ _ HF).
Qed.

(** ** C66: cross-correlations *)
Theorem C66_cross12 R O f k cat1 cat2 s0 s1 :
  validRUV (r3P R) -> noSlop3 (r3P R) -> tmetric (r3P R) = Euclidean ->
  tminv (r3P R) = 0 -> O <> O3 -> weights3 f (cat1 ++ cat2) -> (O = O0 -> noTies (cat1 ++ cat2)) ->
  runCross12 R O cat1 cat2 s0 s1 ->
  s1 f k = s0 f k +
    sumPairs12 (match O with O1 => tri1 (r3P R) f k | _ => tri6 (r3P R) f k end) cat1 cat2.
Proof.
  intros V NS HE MV HO W NT [cs1 [cs2 [HF1 [HF2 HI]]]].
  eapply processIters_get; [exact HI|]. apply cross12_addsL; auto.
  - apply (field_cellOK _ (field3 R) cat1); auto; [apply field3_min; auto|].
    intros; apply in_or_app; auto.
  - apply (field_cellOK _ (field3 R) cat2); auto; [apply field3_min; auto|].
    intros; apply in_or_app; auto.
  - apply (buildField_perm _ _ _ HF1).
  - apply (buildField_perm _ _ _ HF2).
Qed.
Theorem C66_cross R O f k cat1 cat2 cat3 s0 s1 :
  validRUV (r3P R) -> noSlop3 (r3P R) -> tmetric (r3P R) = Euclidean ->
  tminv (r3P R) = 0 -> weights3 f (cat1 ++ cat2 ++ cat3) -> (O = O0 -> noTies (cat1 ++ cat2 ++ cat3)) ->
  runCross3 R O cat1 cat2 cat3 s0 s1 ->
  s1 f k = s0 f k +
    sumTriples (match O with O3 => tri (r3P R) f k | O1 => tri1 (r3P R) f k | O0 => tri6 (r3P R) f k end)
      cat1 cat2 cat3.
Proof.
  intros V NS HE MV W NT [cs1 [cs2 [cs3 [HF1 [HF2 [HF3 HI]]]]]].
  eapply processIters_get; [exact HI|]. apply cross3_addsL; auto.
  - apply (field_cellOK _ (field3 R) cat1); auto; [apply field3_min; auto|].
    intros; unfold inCat; rewrite !in_app_iff; auto.
  - apply (field_cellOK _ (field3 R) cat2); auto; [apply field3_min; auto|].
    intros; unfold inCat; rewrite !in_app_iff; auto.
  - apply (field_cellOK _ (field3 R) cat3); auto; [apply field3_min; auto|].
    intros; unfold inCat; rewrite !in_app_iff; auto.
  - apply (buildField_perm _ _ _ HF1).
  - apply (buildField_perm _ _ _ HF2).
  - apply (buildField_perm _ _ _ HF3).
Qed.
