(** Three-point theorems, continued: sums over both orientations, existence, motions. *)
From Coq Require Import Reals Lra Lia List ZArith Bool Permutation Psatz.
From Verif Require Import Base Geometry Tree Traverse Spec GeomFacts SumFacts TreeFacts TravFacts
  MetricFacts Cover Runs Corr3 TriCover TriStop SpecTri TriFacts TriSpec PropsTri TriMirror
  SpecSphere SphereFacts.
Import ListNotations.
Open Scope R_scope.

(** ** C65: the sum over both signs of v, also with equal sides *)
Theorem C65_auto_abs R f k cat s0 s1 :
  validRUV (r3P R) -> noSlop3 (r3P R) -> tmetric (r3P R) = Euclidean ->
  tminv (r3P R) = 0 -> f <> TV -> weights3 f cat -> runAuto3 R cat s0 s1 ->
  s1 f k + s1 f (mirror (r3P R) k) = s0 f k + s0 f (mirror (r3P R) k) +
    sumTriplesU (triAbs (r3P R) f (krOf (r3P R) k) (kuOf (r3P R) k) (kvOf (r3P R) k)) cat.
Proof.
  intros V NS HE MV Hf W [cells [HF HI]].
  assert (HC : forall c, In c cells -> cellOK (inCat cat) c).
  { apply (field_cellOK _ (field3 R) cat); auto. apply field3_min; auto. }
  assert (A := auto_abs_addsL (r3P R) V NS HE MV f Hf k cat cells W HC (buildField_perm _ _ _ HF)).
  destruct (addsL_total _ (ev (ind k) f) _ _ A) as [x Hx].
  destruct (addsL_total _ (ev (ind (mirror (r3P R) k)) f) _ _ A) as [y Hy].
  rewrite (processIters_get f k _ s0 s1 x HI Hx), (processIters_get f (mirror (r3P R) k) _ s0 s1 y HI Hy).
  assert (E : x + y = sumTriplesU (triAbs (r3P R) f (krOf (r3P R) k) (kuOf (r3P R) k) (kvOf (r3P R) k)) cat).
  { apply (addsL_val (ev (phi2 (r3P R) k) f) (auto3Iters (r3P R) cells)); auto.
    apply (addsL_plus k (mirror (r3P R) k) f); auto. }
  lra.
Qed.

(** ** C65, C66: runs exist for every slop *)
Theorem C65_exists R cat s0 :
  validRUV (r3P R) -> slopOK3 (r3P R) -> tmetric (r3P R) = Euclidean -> cat <> [] ->
  exists s1, runAuto3 R cat s0 s1.
Proof.
  intros V S HE Hne. destruct (buildField_exists (field3 R) cat Hne) as [cells HF].
  pose proof (field_cellFin _ _ _ (field3_min_nonneg R V S) eq_refl HF) as HC.
  destruct (auto3_total (r3P R) (vt_type _ V) (plainE _ HE) (vt_minsep _ V) _ cells HC) as [x Hx].
  destruct (addsL_exists _ _ _ s0 Hx) as [s1 H1]. exists s1, cells. auto.
Qed.
Theorem C66_exists R O cat1 cat2 cat3 s0 :
  validRUV (r3P R) -> slopOK3 (r3P R) -> tmetric (r3P R) = Euclidean ->
  cat1 <> [] -> cat2 <> [] -> cat3 <> [] ->
  (O <> O3 -> exists s1, runCross12 R O cat1 cat2 s0 s1) /\
  (exists s1, runCross3 R O cat1 cat2 cat3 s0 s1).
Proof.
  intros V S HE N1 N2 N3.
  destruct (buildField_exists (field3 R) cat1 N1) as [cs1 F1].
  destruct (buildField_exists (field3 R) cat2 N2) as [cs2 F2].
  destruct (buildField_exists (field3 R) cat3 N3) as [cs3 F3].
  pose proof (field_cellFin _ _ _ (field3_min_nonneg R V S) eq_refl F1) as C1.
  pose proof (field_cellFin _ _ _ (field3_min_nonneg R V S) eq_refl F2) as C2.
  pose proof (field_cellFin _ _ _ (field3_min_nonneg R V S) eq_refl F3) as C3.
  split.
  - intro HO. destruct (cross12_total (r3P R) (vt_type _ V) (plainE _ HE) _ O cs1 cs2 HO C1 C2) as [x Hx].
    destruct (addsL_exists _ _ _ s0 Hx) as [s1 H1]. exists s1, cs1, cs2. auto.
  - destruct (cross3_total (r3P R) (vt_type _ V) (plainE _ HE) _ O cs1 cs2 cs3 C1 C2 C3) as [x Hx].
    destruct (addsL_exists _ _ _ s0 Hx) as [s1 H1]. exists s1, cs1, cs2, cs3. auto.
Qed.

(** ** C67: motions *)
Definition keeps (P : tparams) (M : pos -> pos) (cat : list obj) : Prop :=
  (forall a b, In a cat -> In b cat -> euclid (M (opos a)) (M (opos b)) = euclid (opos a) (opos b)) /\
  (forall a b c, In a cat -> In b cat -> In c cat ->
     ccwSpec (tcoord P) (moved M a) (moved M b) (moved M c) = ccwSpec (tcoord P) a b c).
Lemma keeps_tri P M cat f k a b c : keeps P M cat -> In a cat -> In b cat -> In c cat ->
  tri P f k (moved M a) (moved M b) (moved M c) = tri P f k a b c.
Proof.
  intros [K1 K2] Ha Hb Hc. unfold tri, selTri, triVal, side1, side2, side3. cbn [opos ow okappa moved].
  rewrite !K1, !K2 by auto. reflexivity.
Qed.
Lemma keeps_tri6 P M cat f k a b c : keeps P M cat -> In a cat -> In b cat -> In c cat ->
  tri6 P f k (moved M a) (moved M b) (moved M c) = tri6 P f k a b c.
Proof. intros. unfold tri6, tri1. rewrite !(keeps_tri P M cat) by auto. reflexivity. Qed.
Lemma upairs_map {A B} (g : A -> B) (l : list A) :
  upairs (map g l) = map (fun q => (g (fst q), g (snd q))) (upairs l).
Proof.
  induction l; simpl; auto. rewrite map_app, !map_map, IHl. f_equal.
Qed.
Lemma sumTriplesU_map g h M cat :
  (forall a b c, In a cat -> In b cat -> In c cat -> g (moved M a) (moved M b) (moved M c) = h a b c) ->
  sumTriplesU g (map (moved M) cat) = sumTriplesU h cat.
Proof.
  induction cat as [|a t IH]; intro H; simpl; auto. f_equal.
  - rewrite upairs_map, sumR_map. apply sumR_ext. intros [b c] Hq. apply in_upairs in Hq.
    cbn [fst snd]. apply H; simpl; intuition.
  - apply IH. intros; apply H; simpl; auto.
Qed.
Lemma keeps_noTies P M cat : keeps P M cat -> noTies cat -> noTies (map (moved M) cat).
Proof.
  intros [K _] H a b c Ha Hb Hc. apply in_map_iff in Ha as [a' [<- Ha]], Hb as [b' [<- Hb]], Hc as [c' [<- Hc]].
  unfold side1, side2, side3. cbn [opos moved]. rewrite !K by auto. apply (H a' b' c'); auto.
Qed.
Lemma moved_weights f M cat : weights3 f cat -> weights3 f (map (moved M) cat).
Proof. intros W o Ho. apply in_map_iff in Ho as [o' [<- Ho]]. apply (W o' Ho). Qed.

Lemma euclid_inj a b a' b' : Rsqr (px a - px b) + Rsqr (py a - py b) + Rsqr (pz a - pz b) =
  Rsqr (px a' - px b') + Rsqr (py a' - py b') + Rsqr (pz a' - pz b') -> euclid a b = euclid a' b'.
Proof. unfold euclid, Rsqr. intro H. f_equal. lra. Qed.
Lemma plane_keeps P c s tx ty cat : tcoord P = Flat -> c * c + s * s = 1 -> flatCat3 cat ->
  keeps P (planeMotion c s tx ty) cat.
Proof.
  intros HC Hcs HF. split.
  - intros a b Ha Hb. apply euclid_inj. unfold planeMotion. cbn [px py pz]. rewrite (HF a Ha), (HF b Hb).
    unfold Rsqr. set (x := px (opos a) - px (opos b)). set (y := py (opos a) - py (opos b)).
    replace (c * px (opos a) - s * py (opos a) + tx - (c * px (opos b) - s * py (opos b) + tx)) with (c * x - s * y) by (unfold x, y; ring).
    replace (s * px (opos a) + c * py (opos a) + ty - (s * px (opos b) + c * py (opos b) + ty)) with (s * x + c * y) by (unfold x, y; ring).
    replace ((c * x - s * y) * (c * x - s * y) + (s * x + c * y) * (s * x + c * y)) with ((c * c + s * s) * (x * x + y * y)) by ring.
    rewrite Hcs. ring.
  - intros a b d _ _ _. unfold ccwSpec, ccwFlat. rewrite HC. cbn [opos moved planeMotion px py pz].
    f_equal. set (A := opos a). set (B := opos b). set (D := opos d).
    transitivity ((c * c + s * s) * ((px B - px A) * (py D - py A) - (py B - py A) * (px D - px A))); [ring|].
    rewrite Hcs. ring.
Qed.
Lemma dot_cross_det a b c : dot a (cross b c) =
  px a * (py b * pz c - pz b * py c) - py a * (px b * pz c - pz b * px c) + pz a * (px b * py c - py b * px c).
Proof. unfold dot, cross. cbn [px py pz]. ring. Qed.
Lemma rot_keeps P M cat : tcoord P <> Flat -> rotation M -> keeps P M cat.
Proof.
  intros HC HM. split.
  - intros a b _ _. unfold euclid. f_equal.
    assert (E : forall p q : pos, (px p - px q) ^ 2 + (py p - py q) ^ 2 + (pz p - pz q) ^ 2 = dot (psub p q) (psub p q)).
    { intros. unfold dot, psub. cbn [px py pz]. ring. }
    transitivity (dot (psub (M (opos a)) (M (opos b))) (psub (M (opos a)) (M (opos b)))).
    { unfold dot, psub. cbn [px py pz]. ring. }
    rewrite <- (rot_sub M HM), (rot_dot M HM). unfold dot, psub. cbn [px py pz]. ring.
  - intros a b c _ _ _. unfold ccwSpec. destruct (tcoord P); [congruence| |];
      unfold ccwSky; cbn [opos moved]; rewrite <- !dot_cross_det, (rot_cross M HM), (rot_dot M HM); reflexivity.
Qed.
Lemma motion_sums R M f k cat s1 s1' :
  validRUV (r3P R) -> noSlop3 (r3P R) -> tmetric (r3P R) = Euclidean -> tminv (r3P R) = 0 ->
  weights3 f cat -> noTies cat -> keeps (r3P R) M cat ->
  forall s0, runAuto3 R cat s0 s1 -> runAuto3 R (map (moved M) cat) s0 s1' -> s1' f k = s1 f k.
Proof.
  intros V NS HE MV W NT K s0 R1 R2.
  rewrite (C65_auto_exact R f k cat s0 s1), (C65_auto_exact R f k (map (moved M) cat) s0 s1'); auto.
  - f_equal. apply sumTriplesU_map. intros. apply (keeps_tri6 _ _ cat); auto.
  - apply moved_weights; auto.
  - eapply keeps_noTies; eauto.
Qed.
(** A rotation and a shift of a flat catalog; a rotation of a catalog on the sky or in space. *)
Theorem C67_plane R c s tx ty f k cat s0 s1 s1' :
  validRUV (r3P R) -> noSlop3 (r3P R) -> tmetric (r3P R) = Euclidean -> tminv (r3P R) = 0 ->
  weights3 f cat -> noTies cat -> tcoord (r3P R) = Flat -> flatCat3 cat -> c * c + s * s = 1 ->
  runAuto3 R cat s0 s1 -> runAuto3 R (map (moved (planeMotion c s tx ty)) cat) s0 s1' ->
  s1' f k = s1 f k.
Proof.
  intros V NS HE MV W NT HC HF Hcs R1 R2.
  eapply (motion_sums R (planeMotion c s tx ty) f k cat); eauto. apply plane_keeps; auto.
Qed.
Theorem C67_rotation R M f k cat s0 s1 s1' :
  validRUV (r3P R) -> noSlop3 (r3P R) -> tmetric (r3P R) = Euclidean -> tminv (r3P R) = 0 ->
  weights3 f cat -> noTies cat -> tcoord (r3P R) <> Flat -> rotation M ->
  runAuto3 R cat s0 s1 -> runAuto3 R (map (moved M) cat) s0 s1' ->
  s1' f k = s1 f k.
Proof.
  intros V NS HE MV W NT HC HM R1 R2.
  eapply (motion_sums R M f k cat); eauto. apply rot_keeps; auto.
Qed.

(** Reflection *)
Lemma flip_euclid a b : pz (opos a) = 0 -> pz (opos b) = 0 ->
  euclid (flipY (opos a)) (flipY (opos b)) = euclid (opos a) (opos b).
Proof.
  intros Ha Hb. apply euclid_inj. unfold flipY. cbn [px py pz]. rewrite Ha, Hb. unfold Rsqr. ring.
Qed.
Definition area2 (a b c : pos) : R := (px b - px a) * (py c - py a) - (py b - py a) * (px c - px a).
Lemma euclid_sq p q : euclid p q * euclid p q = (px p - px q) * (px p - px q) +
  (py p - py q) * (py p - py q) + (pz p - pz q) * (pz p - pz q).
Proof.
  unfold euclid. rewrite sqrt_sqrt; [unfold Rsqr; ring|].
  repeat apply Rplus_le_le_0_compat; try apply Rle_0_sqr; try apply pow2_ge_0.
Qed.
(** A degenerate triangle has v = 1. *)
Lemma flat_degenerate a b c : pz (opos a) = 0 -> pz (opos b) = 0 -> pz (opos c) = 0 ->
  area2 (opos a) (opos b) (opos c) = 0 -> 0 < side3 a b c -> side3 a b c <= side2 a b c <= side1 a b c ->
  side1 a b c = side2 a b c + side3 a b c.
Proof.
  intros Za Zb Zc HA H3 HS. unfold area2 in HA.
  assert (E1 := euclid_sq (opos b) (opos c)). assert (E2 := euclid_sq (opos a) (opos c)).
  assert (E3 := euclid_sq (opos a) (opos b)). rewrite Za, Zb, Zc in *.
  change (euclid (opos b) (opos c)) with (side1 a b c) in E1.
  change (euclid (opos a) (opos c)) with (side2 a b c) in E2.
  change (euclid (opos a) (opos b)) with (side3 a b c) in E3.
  set (x := side1 a b c) in *. set (y := side2 a b c) in *. set (z := side3 a b c) in *.
  set (p1 := px (opos b) - px (opos a)) in *. set (p2 := py (opos b) - py (opos a)) in *.
  set (q1 := px (opos c) - px (opos a)) in *. set (q2 := py (opos c) - py (opos a)) in *.
  set (dt := p1 * q1 + p2 * q2).
  assert (F1 : x * x = y * y + z * z - 2 * dt) by (rewrite E1, E2, E3; unfold dt, p1, p2, q1, q2; ring).
  assert (F2 : y * y = q1 * q1 + q2 * q2) by (rewrite E2; unfold q1, q2; ring).
  assert (F3 : z * z = p1 * p1 + p2 * p2) by (rewrite E3; unfold p1, p2; ring).
  assert (F4 : dt * dt = (y * z) * (y * z)).
  { replace ((y * z) * (y * z)) with ((y * y) * (z * z)) by ring. rewrite F2, F3.
    assert (Q : (p1 * q2 - p2 * q1) * (p1 * q2 - p2 * q1) = 0) by (rewrite HA; ring). unfold dt. nra. }
  assert (F5 : (dt - y * z) * (dt + y * z) = 0) by lra.
  apply Rmult_integral in F5 as [F5|F5].
  - exfalso. assert (x * x = (y - z) * (y - z)) by (rewrite F1; replace dt with (y * z) by lra; ring). nra.
  - assert (Q : x * x = (y + z) * (y + z)) by (rewrite F1; replace dt with (- (y * z)) by lra; ring).
    apply Rsqr_inj; unfold Rsqr; lra.
Qed.
Lemma shape_parts P kr ku kv x y z : validRUV P -> shapeIn P kr ku kv x y z = true ->
  0 < z /\ z <= y /\ y <= x /\ z / y < 1 /\ (x - y) / z < 1.
Proof.
  intros V H. unfold shapeIn in H. rewrite !andb_true_iff, !Rltb_true, !Rleb_true, !Z.leb_le, !Z.ltb_lt in H.
  destruct H as [[[[[[[[[H1 H2] H3] H4] H5] H6] H7] H8] H9] H10].
  pose proof (vt_maxv1 _ V). pose proof (vt_maxv _ V). pose proof (vt_vbs _ V).
  pose proof (vt_maxu1 _ V). pose proof (vt_maxu _ V). pose proof (vt_ubs _ V).
  assert (IZR (kv + 1) <= IZR (tnvbins P)) by (apply IZR_le; lia).
  assert (IZR (ku + 1) <= IZR (tnubins P)) by (apply IZR_le; lia).
  repeat split; auto; nra.
Qed.
Section Flip.
Variable P : tparams.
Hypothesis V : validRUV P.
Hypothesis HC : tcoord P = Flat.
Lemma flip_tri f k a b c : f <> TV -> pz (opos a) = 0 -> pz (opos b) = 0 -> pz (opos c) = 0 ->
  tri P f k (moved flipY a) (moved flipY b) (moved flipY c) = tri P f (mirror P k) a b c.
Proof.
  intros Hf Za Zb Zc.
  assert (S1 : side1 (moved flipY a) (moved flipY b) (moved flipY c) = side1 a b c) by (apply flip_euclid; auto).
  assert (S2 : side2 (moved flipY a) (moved flipY b) (moved flipY c) = side2 a b c) by (apply flip_euclid; auto).
  assert (S3 : side3 (moved flipY a) (moved flipY b) (moved flipY c) = side3 a b c) by (apply flip_euclid; auto).
  unfold tri. replace (triVal P f (moved flipY a) (moved flipY b) (moved flipY c)) with (triVal P f a b c).
  2:{ unfold triVal. rewrite S1, S2, S3. destruct f; auto; congruence. }
  replace (selTri P k (moved flipY a) (moved flipY b) (moved flipY c)) with (selTri P (mirror P k) a b c); auto.
  unfold selTri. rewrite S1, S2, S3. destruct (mirror_decode P V k) as [-> [-> [-> ->]]].
  destruct (shapeIn P (krOf P k) (kuOf P k) (kvOf P k) (side1 a b c) (side2 a b c) (side3 a b c)) eqn:ES; auto.
  cbn [andb].
  assert (NA : area2 (opos a) (opos b) (opos c) <> 0).
  { intro HA. apply shape_parts in ES; auto. destruct ES as [B1 [B2 [B3 [B4 B5]]]].
    assert (D := flat_degenerate a b c Za Zb Zc HA B1 (conj B2 B3)).
    rewrite D in B5. replace ((side2 a b c + side3 a b c - side2 a b c) / side3 a b c) with 1 in B5 by (field; lra). lra. }
  assert (EC : ccwSpec (tcoord P) (moved flipY a) (moved flipY b) (moved flipY c) = negb (ccwSpec (tcoord P) a b c)).
  { unfold ccwSpec. rewrite HC. unfold ccwFlat. cbn [moved opos flipY px py pz].
    fold (area2 (opos a) (opos b) (opos c)).
    replace ((px (opos b) - px (opos a)) * (- py (opos c) - - py (opos a)) -
      (- py (opos b) - - py (opos a)) * (px (opos c) - px (opos a))) with (- area2 (opos a) (opos b) (opos c)) by (unfold area2; ring).
    unfold Rltb. destruct (Rlt_dec 0 (- area2 (opos a) (opos b) (opos c))), (Rlt_dec 0 (area2 (opos a) (opos b) (opos c))); auto; lra. }
  rewrite EC. destruct (ccwSpec (tcoord P) a b c), (ccwOf P k); auto.
Qed.
Lemma flip_noTies cat : flatCat3 cat -> noTies cat -> noTies (map (moved flipY) cat).
Proof.
  intros HF H a b c Ha Hb Hc. apply in_map_iff in Ha as [a' [<- Ha]], Hb as [b' [<- Hb]], Hc as [c' [<- Hc]].
  unfold side1, side2, side3. cbn [opos moved]. rewrite !flip_euclid by auto. apply (H a' b' c'); auto.
Qed.
End Flip.
Theorem C67_parity R f k cat s0 s1 s1' :
  validRUV (r3P R) -> noSlop3 (r3P R) -> tmetric (r3P R) = Euclidean -> tminv (r3P R) = 0 ->
  f <> TV -> weights3 f cat -> noTies cat -> tcoord (r3P R) = Flat -> flatCat3 cat ->
  s0 f k = s0 f (mirror (r3P R) k) ->
  runAuto3 R cat s0 s1 -> runAuto3 R (map (moved flipY) cat) s0 s1' ->
  s1' f k = s1 f (mirror (r3P R) k).
Proof.
  intros V NS HE MV Hf W NT HC HF H0 R1 R2.
  rewrite (C65_auto_exact R f _ cat s0 s1), (C65_auto_exact R f k (map (moved flipY) cat) s0 s1'); auto.
  - rewrite H0. f_equal. apply sumTriplesU_map. intros a b c Ha Hb Hc. unfold tri6, tri1.
    rewrite !flip_tri; auto.
  - apply moved_weights; auto.
  - apply flip_noTies; auto.
Qed.

(** ** C66: the unordered sum is the sum of the six ordered ones *)
Lemma sumTriples_swap12 g l1 l2 l3 : sumTriples g l1 l2 l3 = sumTriples (fun b a c => g a b c) l2 l1 l3.
Proof. unfold sumTriples. apply (sumR_swap (fun a b => sumR (fun c => g a b c) l3)). Qed.
Lemma sumTriples_swap23 g l1 l2 l3 : sumTriples g l1 l2 l3 = sumTriples (fun a c b => g a b c) l1 l3 l2.
Proof. unfold sumTriples. apply sumR_ext. intros a _. apply (sumR_swap (fun b c => g a b c)). Qed.
Theorem C66_ordered_sum R f k c1 c2 c3 s0 su s123 s132 s213 s231 s312 s321 :
  validRUV (r3P R) -> noSlop3 (r3P R) -> tmetric (r3P R) = Euclidean -> tminv (r3P R) = 0 ->
  weights3 f (c1 ++ c2 ++ c3) -> noTies (c1 ++ c2 ++ c3) -> s0 f k = 0 ->
  runCross3 R O0 c1 c2 c3 s0 su ->
  runCross3 R O3 c1 c2 c3 s0 s123 -> runCross3 R O3 c1 c3 c2 s0 s132 ->
  runCross3 R O3 c2 c1 c3 s0 s213 -> runCross3 R O3 c2 c3 c1 s0 s231 ->
  runCross3 R O3 c3 c1 c2 s0 s312 -> runCross3 R O3 c3 c2 c1 s0 s321 ->
  su f k = s123 f k + s132 f k + s213 f k + s231 f k + s312 f k + s321 f k.
Proof.
  intros V NS HE MV W NT Z Ru R1 R2 R3 R4 R5 R6.
  assert (WW : forall l, (forall o, In o l -> In o (c1 ++ c2 ++ c3)) -> weights3 f l).
  { intros l H o Ho. apply W; auto. }
  assert (IN : forall x y z, (forall o, In o (x ++ y ++ z) -> In o (c1 ++ c2 ++ c3)) -> weights3 f (x ++ y ++ z)) by (intros; apply WW; auto).
  apply (C66_cross R O0 f k) in Ru; auto.
  apply (C66_cross R O3 f k) in R1; auto; try (intro; discriminate).
  apply (C66_cross R O3 f k) in R2; auto; try (intro; discriminate); try (apply IN; intros o; rewrite !in_app_iff; tauto).
  apply (C66_cross R O3 f k) in R3; auto; try (intro; discriminate); try (apply IN; intros o; rewrite !in_app_iff; tauto).
  apply (C66_cross R O3 f k) in R4; auto; try (intro; discriminate); try (apply IN; intros o; rewrite !in_app_iff; tauto).
  apply (C66_cross R O3 f k) in R5; auto; try (intro; discriminate); try (apply IN; intros o; rewrite !in_app_iff; tauto).
  apply (C66_cross R O3 f k) in R6; auto; try (intro; discriminate); try (apply IN; intros o; rewrite !in_app_iff; tauto).
  rewrite Ru, R1, R2, R3, R4, R5, R6, Z. cbv iota.
  rewrite (sumTriples_swap23 _ c1 c3 c2), (sumTriples_swap12 _ c2 c1 c3).
  rewrite (sumTriples_swap23 _ c2 c3 c1), (sumTriples_swap12 _ c2 c1 c3).
  rewrite (sumTriples_swap12 _ c3 c1 c2), (sumTriples_swap23 _ c1 c3 c2).
  rewrite (sumTriples_swap12 _ c3 c2 c1), (sumTriples_swap23 _ c2 c3 c1), (sumTriples_swap12 _ c2 c1 c3).
  unfold sumTriples. rewrite !Rplus_0_l, <- !sumR_plus. apply sumR_ext. intros a _.
  rewrite <- !sumR_plus. apply sumR_ext. intros b _. rewrite <- !sumR_plus. apply sumR_ext. intros c _.
  unfold tri6, tri1. ring.
Qed.

(** With max_u = 1 a triangle whose two shortest sides are equal, and with max_v = 1 one whose
    points are on a line, is not counted. *)
Theorem C65_edges P f k a b c : validRUV P ->
  side3 a b c = side2 a b c \/ side1 a b c = side2 a b c + side3 a b c -> tri P f k a b c = 0.
Proof.
  intros V H. unfold tri, selTri. destruct shapeIn eqn:ES; auto. exfalso.
  apply shape_parts in ES; auto. destruct ES as [B1 [B2 [B3 [B4 B5]]]]. destruct H as [H|H].
  - rewrite H in B4. replace (side2 a b c / side2 a b c) with 1 in B4 by (field; lra). lra.
  - rewrite H in B5. replace ((side2 a b c + side3 a b c - side2 a b c) / side3 a b c) with 1 in B5 by (field; lra). lra.
Qed.
