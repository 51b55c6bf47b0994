(** C81: symmetries of the three-point shear correlation; the projection of the multipole code in
    three dimensions; examples for C80. *)
From Coq Require Import Reals Lra Lia List ZArith Bool Permutation Psatz.
From Verif Require Import Base Geometry Tree Traverse Spec GeomFacts SumFacts TreeFacts TravFacts
  MetricFacts Cover Runs Examples Corr3 TriCover TriStop SpecTri TriFacts TriSpec Spin SpinFacts SpecSpin PropsSpin
  SpecRun SpecSphere SphereFacts PropsSphere PropsTri TriMirror PropsTri2 PropsArc SasGeom SasStop SpecSas SasFacts SasSpec PropsSas
  GGG SpecGGG GGGFacts PropsGGG.
Import ListNotations.
Open Scope R_scope.

Lemma sumU_map (T : obj -> obj) g h cat :
  (forall a b c, In a cat -> In b cat -> In c cat -> g (T a) (T b) (T c) = h a b c) ->
  sumTriplesU g (map T cat) = sumTriplesU h cat.
Proof.
  induction cat as [|a t IH]; intro H; simpl; auto. f_equal.
  - rewrite upairs_map, sumR_map. apply sumR_ext. intros [b c] Hq. apply in_upairs in Hq.
    cbn [fst snd]. apply H; simpl; intuition.
  - apply IH. intros; apply H; simpl; auto.
Qed.
Lemma sumU_scal x g l : sumTriplesU (fun a b c => x * g a b c) l = x * sumTriplesU g l.
Proof.
  induction l as [|a t IH]; simpl; [ring|]. rewrite IH, Rmult_plus_distr_l. f_equal.
  apply (sumR_scal x (fun q => g a (fst q) (snd q))).
Qed.

(** The selection depends on the positions only, and on these only by distances and orientation. *)
Definition sameShape (C : coord) (T : obj -> obj) (cat : list obj) : Prop :=
  (forall a b, In a cat -> In b cat -> euclid (opos (T a)) (opos (T b)) = euclid (opos a) (opos b)) /\
  (forall a b c, In a cat -> In b cat -> In c cat -> ccwSpec C (T a) (T b) (T c) = ccwSpec C a b c).
Definition selG (P : tparams) k a b c : bool :=
  match tbt P with LogRUV => selTri P k a b c | LogSAS => selSAS P k a b c end.
Lemma angle_cos a b c :
  (px (opos b) - px (opos a)) * (px (opos c) - px (opos a)) + (py (opos b) - py (opos a)) * (py (opos c) - py (opos a)) +
  (pz (opos b) - pz (opos a)) * (pz (opos c) - pz (opos a)) =
  (side3 a b c * side3 a b c + side2 a b c * side2 a b c - side1 a b c * side1 a b c) / 2.
Proof. unfold side1, side2, side3. rewrite !euclid_sq. field. Qed.
Lemma same_sel P T cat k a b c : sameShape (tcoord P) T cat -> In a cat -> In b cat -> In c cat ->
  selG P k (T a) (T b) (T c) = selG P k a b c.
Proof.
  intros [S1 S2] Ha Hb Hc. unfold selG, selTri, selSAS, angleAt. cbv zeta. rewrite !angle_cos.
  unfold side1, side2, side3. rewrite !S1, !S2 by auto. reflexivity.
Qed.
Lemma triGam_selG P n im k a b c : triGam P n im k a b c = if selG P k a b c then gamVal (tcoord P) n im a b c else 0.
Proof. reflexivity. Qed.
Lemma same_noTies C T cat : sameShape C T cat -> noTies cat -> noTies (map T cat).
Proof.
  intros [K _] H a b c Ha Hb Hc. apply in_map_iff in Ha as [a' [<- Ha]], Hb as [b' [<- Hb]], Hc as [c' [<- Hc]].
  unfold side1, side2, side3. rewrite !K by auto. apply (H a' b' c'); auto.
Qed.
Lemma same_oriented C T cat : sameShape C T cat -> oriented C cat -> oriented C (map T cat).
Proof.
  intros [K1 K2] H a b c Ha Hb Hc. apply in_map_iff in Ha as [a' [<- Ha]], Hb as [b' [<- Hb]], Hc as [c' [<- Hc]].
  unfold side1, side2, side3. rewrite !K1, !K2 by auto. apply (H a' b' c'); auto.
Qed.
Lemma same_exact P T cat : sameShape (tcoord P) T cat -> (forall o, ow (T o) = ow o) ->
  skyOK (tcoord P) (map T cat) -> exactAuto P cat -> exactAuto P (map T cat).
Proof.
  intros S HW SK [HE [W [_ EX]]]. split; [auto|]. split; [|split; auto].
  - intros o Ho. apply in_map_iff in Ho as [o' [<- Ho]]. rewrite HW. auto.
  - destruct EX as [[V [NS [MV NT]]]|[V [NS [U0 [H3 OR]]]]]; [left|right]; repeat (split; auto).
    + eapply same_noTies; eauto.
    + apply same_oriented; auto.
Qed.

(** All sums are multiplied by the same number, or taken from another component. *)
Lemma same_sums P T cat n im n' im' x k : sameShape (tcoord P) T cat ->
  (forall a b c, In a cat -> In b cat -> In c cat ->
     gamVal (tcoord P) n im (T a) (T b) (T c) = x * gamVal (tcoord P) n' im' a b c) ->
  sumTriplesU (triGam6 P n im k) (map T cat) = x * sumTriplesU (triGam6 P n' im' k) cat.
Proof.
  intros S HV. rewrite <- sumU_scal. apply sumU_map. intros a b c Ha Hb Hc.
  assert (L : forall a b c, In a cat -> In b cat -> In c cat ->
    triGam P n im k (T a) (T b) (T c) = x * triGam P n' im' k a b c).
  { clear a b c Ha Hb Hc. intros a b c Ha Hb Hc. rewrite !triGam_selG, (same_sel P T cat), HV by auto.
    destruct selG; ring. }
  unfold triGam6, triGam1. rewrite !L by auto. ring.
Qed.

(** ** Shears turned by 45 degrees: Gamma_0 becomes -i Gamma_0, the others i Gamma_n *)
Lemma t45_same C cat : sameShape C turn45 cat.
Proof. split; intros; [reflexivity|]. unfold ccwSpec. reflexivity. Qed.
Lemma t45_sky C cat : skyOK C cat -> skyOK C (map turn45 cat).
Proof.
  intro H. destruct C; simpl in *.
  - intros o Ho. apply in_map_iff in Ho as [o' [<- Ho]]. apply (H o' Ho).
  - destruct H as [H1 H2]. split.
    + intros o Ho. apply in_map_iff in Ho as [o' [<- Ho]]. apply (H1 o' Ho).
    + intros a b c Ha Hb Hc. apply in_map_iff in Ha as [a' [<- Ha]], Hb as [b' [<- Hb]], Hc as [c' [<- Hc]].
      apply (H2 a' b' c'); auto.
  - destruct H as [H1 H2]. split.
    + intros o Ho. apply in_map_iff in Ho as [o' [<- Ho]]. apply (H1 o' Ho).
    + intros a b c Ha Hb Hc. apply in_map_iff in Ha as [a' [<- Ha]], Hb as [b' [<- Hb]], Hc as [c' [<- Hc]].
      apply (H2 a' b' c'); auto.
Qed.
Lemma t45_val C n im a b c : (n <= 3)%nat -> gamVal C n im (turn45 a) (turn45 b) (turn45 c) =
  (if Bool.eqb im (Nat.eqb n 0) then -1 else 1) * gamVal C n (negb im) a b c.
Proof.
  intro Hn. unfold gamVal. cbn [turn45 opos].
  generalize (axisAt C (opos a) (opos b) (opos c)) (axisAt C (opos b) (opos a) (opos c))
    (axisAt C (opos c) (opos a) (opos b)). intros u1 u2 u3.
  destruct n as [|[|[|[|n]]]]; [| | | |lia]; destruct im;
    unfold prodRe, prodIm, shearA, shearB; cbn [Nat.eqb Bool.eqb negb turn45 ow og1 og2]; ring.
Qed.
Theorem C81_turn45 R n im k cat s1 s1' : (n <= 3)%nat -> exactAuto (r3P R) cat ->
  runAutoG R cat clearedG s1 -> runAutoG R (map turn45 cat) clearedG s1' ->
  s1' (gidx n im) k = (if Bool.eqb im (Nat.eqb n 0) then -1 else 1) * s1 (gidx n (negb im)) k.
Proof.
  intros Hn EX R1 R2.
  rewrite (C80_auto R n (negb im) k cat clearedG s1), (C80_auto R n im k (map turn45 cat) clearedG s1'); auto.
  - unfold clearedG. rewrite !Rplus_0_l. apply same_sums; [apply t45_same|]. intros. apply t45_val; auto.
  - apply same_exact; auto; [apply t45_same|apply t45_sky; apply EX].
Qed.

(** ** The plane turned and shifted *)
Lemma turned_same P t tx ty cat : tcoord P = Flat -> (forall o, In o cat -> pz (opos o) = 0) ->
  sameShape (tcoord P) (turnedBy t tx ty) cat.
Proof.
  intros HC HF.
  assert (Hcs : cos t * cos t + sin t * sin t = 1) by (pose proof (sin2_cos2 t) as H; unfold Rsqr in H; lra).
  destruct (plane_keeps P (cos t) (sin t) tx ty cat HC Hcs HF) as [K1 K2].
  split; intros; [apply K1|apply K2]; auto.
Qed.
(** a shear turned with its axis *)
Definition cis (t : R) : cplx := (cos t, sin t).
Lemma shear_turn u t o p : shearA (cmul u (cis t)) (mkobj p (ow o) (owpos o) (okappa o)
    (og1 o * cos (2 * t) - og2 o * sin (2 * t)) (og1 o * sin (2 * t) + og2 o * cos (2 * t)) (oidx o)) = shearA u o /\
  shearB (cmul u (cis t)) (mkobj p (ow o) (owpos o) (okappa o)
    (og1 o * cos (2 * t) - og2 o * sin (2 * t)) (og1 o * sin (2 * t) + og2 o * cos (2 * t)) (oidx o)) = shearB u o.
Proof.
  unfold shearA, shearB, cmul, cis. cbn [fst snd ow og1 og2]. rewrite cos_2a, sin_2a.
  assert (Q : cos t * cos t = 1 - sin t * sin t) by (pose proof (sin2_cos2 t) as H; unfold Rsqr in H; lra).
  set (c := cos t) in *. set (s := sin t) in *. set (u1 := fst u). set (u2 := snd u).
  assert (Q2 : (c * c + s * s) * (c * c + s * s) = 1) by (rewrite Q; ring).
  split.
  - transitivity (((c * c + s * s) * (c * c + s * s)) * (ow o * (og1 o * (u1 * u1 - u2 * u2) + og2 o * (2 * u1 * u2)))); [ring|].
    rewrite Q2. ring.
  - transitivity (((c * c + s * s) * (c * c + s * s)) * (ow o * (og2 o * (u1 * u1 - u2 * u2) - og1 o * (2 * u1 * u2)))); [ring|].
    rewrite Q2. ring.
Qed.
Lemma unit2_turn v t : unit2 (cmul v (cis t)) = cmul (unit2 v) (cis t).
Proof.
  destruct v as [x y]. unfold unit2, cmul, cis. cbn [fst snd].
  replace ((x * cos t - y * sin t) * (x * cos t - y * sin t) + (x * sin t + y * cos t) * (x * sin t + y * cos t))
    with ((sin t * sin t + cos t * cos t) * (x * x + y * y)) by ring.
  pose proof (sin2_cos2 t) as H. unfold Rsqr in H. rewrite H, Rmult_1_l.
  apply cplx_eq; cbn [fst snd]; unfold Rdiv; ring.
Qed.
Lemma turned_axis t tx ty a b c : axisAt Flat (opos (turnedBy t tx ty a)) (opos (turnedBy t tx ty b)) (opos (turnedBy t tx ty c)) =
  cmul (axisAt Flat (opos a) (opos b) (opos c)) (cis t).
Proof.
  unfold axisAt. rewrite <- unit2_turn. f_equal. unfold centroidFlat, turnedBy, planeMotion, cmul, cis. cbn [opos px py pz fst snd].
  apply cplx_eq; cbn [fst snd]; field.
Qed.
Lemma gam_turned C T th n im a b c :
  (forall o, T o = mkobj (opos (T o)) (ow o) (owpos o) (okappa o)
    (og1 o * cos (2 * th o) - og2 o * sin (2 * th o)) (og1 o * sin (2 * th o) + og2 o * cos (2 * th o)) (oidx o)) ->
  axisAt C (opos (T a)) (opos (T b)) (opos (T c)) = cmul (axisAt C (opos a) (opos b) (opos c)) (cis (th a)) ->
  axisAt C (opos (T b)) (opos (T a)) (opos (T c)) = cmul (axisAt C (opos b) (opos a) (opos c)) (cis (th b)) ->
  axisAt C (opos (T c)) (opos (T a)) (opos (T b)) = cmul (axisAt C (opos c) (opos a) (opos b)) (cis (th c)) ->
  gamVal C n im (T a) (T b) (T c) = gamVal C n im a b c.
Proof.
  intros HT X1 X2 X3. unfold gamVal. rewrite X1, X2, X3.
  assert (S : forall u o, shearA (cmul u (cis (th o))) (T o) = shearA u o /\ shearB (cmul u (cis (th o))) (T o) = shearB u o).
  { intros u o. rewrite (HT o). apply shear_turn. }
  destruct (S (axisAt C (opos a) (opos b) (opos c)) a) as [-> ->].
  destruct (S (axisAt C (opos b) (opos a) (opos c)) b) as [-> ->].
  destruct (S (axisAt C (opos c) (opos a) (opos b)) c) as [-> ->]. reflexivity.
Qed.
Theorem C81_plane R t tx ty n im k cat s1 s1' : (n <= 3)%nat -> exactAuto (r3P R) cat -> tcoord (r3P R) = Flat ->
  runAutoG R cat clearedG s1 -> runAutoG R (map (turnedBy t tx ty) cat) clearedG s1' ->
  s1' (gidx n im) k = s1 (gidx n im) k.
Proof.
  intros Hn EX HC R1 R2.
  assert (HF : forall o, In o cat -> pz (opos o) = 0).
  { destruct EX as [_ [_ [SK _]]]. rewrite HC in SK. exact SK. }
  rewrite (C80_auto R n im k cat clearedG s1), (C80_auto R n im k (map (turnedBy t tx ty) cat) clearedG s1'); auto.
  - unfold clearedG. rewrite !Rplus_0_l.
    rewrite (same_sums (r3P R) (turnedBy t tx ty) cat n im n im 1 k); [ring|apply turned_same; auto|].
    intros a b c _ _ _. rewrite Rmult_1_l, HC. apply (gam_turned Flat (turnedBy t tx ty) (fun _ => t)); auto; apply turned_axis.
  - apply same_exact; auto; [apply turned_same; auto|]. rewrite HC. intros o Ho.
    apply in_map_iff in Ho as [o' [<- Ho]]. reflexivity.
Qed.

(** ** The sky rotated *)
Lemma comps_turn M p v : rotation M -> unitV p -> offPole p -> offPole (M p) ->
  comps (M p) (M v) = cmul (comps p v) (SphereFacts.turn M p).
Proof.
  intros HM HU HP HP'. set (w := psub v (pscale (dot v p) p)).
  assert (HU' : unitV (M p)) by (unfold unitV; rewrite (rot_dot M HM); auto).
  assert (HW : dot w p = 0).
  { unfold w. rewrite dot_psub_l, dot_scale_l. unfold unitV in HU. rewrite HU. ring. }
  assert (C1 : comps p w = comps p v).
  { unfold comps, w. rewrite !dot_psub_l, !dot_scale_l, (dot_comm p (west p)), (dot_comm p (north p)).
    rewrite west_p, north_p by auto. f_equal; ring. }
  assert (C2 : comps (M p) (M w) = comps (M p) (M v)).
  { unfold comps, w. rewrite (rot_sub M HM), (rot_scale M HM).
    rewrite !dot_psub_l, !dot_scale_l, (dot_comm (M p) (west (M p))), (dot_comm (M p) (north (M p))).
    rewrite west_p, north_p by auto. f_equal; ring. }
  rewrite <- C2, (turn_comps M p HM HU HP HP' w HW), C1. auto.
Qed.
Lemma sky_axis C M p q r t : C <> Flat -> rotation M -> offPole p -> offPole (M p) -> turnsBy M p t ->
  axisAt C (M p) (M q) (M r) = cmul (axisAt C p q r) (cis t).
Proof.
  intros HC HM H1 H2 HT.
  assert (E : centroidSky (M p) (M q) (M r) = M (centroidSky p q r)).
  { unfold centroidSky. rewrite !(sky_rot M _ HM), <- !(rot_add M HM), (sky_rot M _ HM). auto. }
  assert (X : unit2 (comps (sky (M p)) (psub (sky (M p)) (centroidSky (M p) (M q) (M r)))) =
    cmul (unit2 (comps (sky p) (psub (sky p) (centroidSky p q r)))) (cis t)).
  { rewrite E. assert (OM := sky_off _ H2). unfold turnsBy in HT. rewrite (sky_rot M _ HM) in *.
    rewrite <- (rot_sub M HM), comps_turn by (auto; first [apply sky_unit|apply sky_off]; auto).
    unfold SphereFacts.turn. rewrite HT. apply unit2_turn. }
  unfold axisAt. destruct C; [congruence|exact X|exact X].
Qed.
Lemma rot_zero M : rotation M -> forall p, M p = mkpos 0 0 0 -> p = mkpos 0 0 0.
Proof.
  intros HM p H. apply dot0. rewrite <- (rot_dot M HM), H. unfold dot. cbn [px py pz]. ring.
Qed.
Theorem C81_sky R M th n im k cat s1 s1' : (n <= 3)%nat -> exactAuto (r3P R) cat -> tcoord (r3P R) <> Flat -> rotation M ->
  (forall o, In o cat -> offPole (M (opos o)) /\ turnsBy M (opos o) (th (opos o))) ->
  runAutoG R cat clearedG s1 -> runAutoG R (map (rotSky M th 2) cat) clearedG s1' ->
  s1' (gidx n im) k = s1 (gidx n im) k.
Proof.
  intros Hn EX HC HM HT R1 R2.
  destruct (rot_keeps (r3P R) M cat HC HM) as [K1 K2].
  assert (SS : sameShape (tcoord (r3P R)) (rotSky M th 2) cat) by (split; intros; [apply K1|apply K2]; auto).
  assert (OK : forall o, In o cat -> offPole (opos o) /\ (tcoord (r3P R) = Sphere -> unitV (opos o))).
  { destruct EX as [_ [_ [SK _]]]. destruct (tcoord (r3P R)); [congruence| |]; apply SK. }
  assert (ON : forall a b c, In a cat -> In b cat -> In c cat ->
         padd (padd (sky (opos a)) (sky (opos b))) (sky (opos c)) <> mkpos 0 0 0).
  { destruct EX as [_ [_ [SK _]]]. destruct (tcoord (r3P R)); [congruence| |]; apply SK. }
  rewrite (C80_auto R n im k cat clearedG s1), (C80_auto R n im k (map (rotSky M th 2) cat) clearedG s1'); auto.
  - unfold clearedG. rewrite !Rplus_0_l.
    rewrite (same_sums (r3P R) (rotSky M th 2) cat n im n im 1 k); [ring|auto|].
    intros a b c Ha Hb Hc. rewrite Rmult_1_l.
    apply (gam_turned _ (rotSky M th 2) (fun o => th (opos o))).
    + intro o. unfold rotSky, rotVal. cbn [opos fst snd]. f_equal; ring.
    + apply sky_axis; auto; [apply OK|apply HT|apply HT]; auto.
    + apply sky_axis; auto; [apply OK|apply HT|apply HT]; auto.
    + apply sky_axis; auto; [apply OK|apply HT|apply HT]; auto.
  - apply same_exact; auto.
    assert (X : (forall o, In o (map (rotSky M th 2) cat) -> offPole (opos o) /\ (tcoord (r3P R) = Sphere -> unitV (opos o))) /\
      (forall a b c, In a (map (rotSky M th 2) cat) -> In b (map (rotSky M th 2) cat) -> In c (map (rotSky M th 2) cat) ->
         padd (padd (sky (opos a)) (sky (opos b))) (sky (opos c)) <> mkpos 0 0 0)).
    { split.
      - intros o Ho. apply in_map_iff in Ho as [o' [<- Ho]]. unfold rotSky. cbn [opos]. split; [apply HT; auto|].
        intro Z. unfold unitV. rewrite (rot_dot M HM). apply OK; auto.
      - intros a b c Ha Hb Hc. apply in_map_iff in Ha as [a' [<- Ha]], Hb as [b' [<- Hb]], Hc as [c' [<- Hc]].
        unfold rotSky. cbn [opos]. rewrite !(sky_rot M _ HM), <- !(rot_add M HM). intro Z. apply (rot_zero M HM) in Z.
        apply (ON a' b' c'); auto. }
    unfold skyOK. destruct (tcoord (r3P R)); [congruence|exact X|exact X].
Qed.

(** ** The mirror image: conjugate components, opposite sign of v (LogRUV) *)
Lemma mirrored_sel P k a b c : validRUV P -> tcoord P = Flat ->
  pz (opos a) = 0 -> pz (opos b) = 0 -> pz (opos c) = 0 ->
  selTri P k (mirrored a) (mirrored b) (mirrored c) = selTri P (mirror P k) a b c.
Proof.
  intros V HC Za Zb Zc. assert (E := flip_tri P V HC TNtri k a b c ltac:(discriminate) Za Zb Zc).
  unfold tri, triVal in E.
  change (selTri P k (moved flipY a) (moved flipY b) (moved flipY c)) with (selTri P k (mirrored a) (mirrored b) (mirrored c)) in E.
  destruct (selTri P k (mirrored a) (mirrored b) (mirrored c)), (selTri P (mirror P k) a b c); auto; lra.
Qed.
Lemma mirrored_axis a b c : axisAt Flat (opos (mirrored a)) (opos (mirrored b)) (opos (mirrored c)) =
  cconj (axisAt Flat (opos a) (opos b) (opos c)).
Proof.
  unfold axisAt, centroidFlat, mirrored, flipY. cbn [opos px py pz].
  set (x := (px (opos a) + px (opos b) + px (opos c)) / 3 - px (opos a)).
  set (y := (py (opos a) + py (opos b) + py (opos c)) / 3 - py (opos a)).
  replace ((- py (opos a) + - py (opos b) + - py (opos c)) / 3 - - py (opos a)) with (- y) by (unfold y; field).
  unfold unit2, cconj. cbn [fst snd]. replace (- y * - y) with (y * y) by ring.
  apply cplx_eq; cbn [fst snd]; unfold Rdiv; ring.
Qed.
Lemma mirrored_shear u o : shearA (cconj u) (mirrored o) = shearA u o /\ shearB (cconj u) (mirrored o) = - shearB u o.
Proof. unfold shearA, shearB, cconj, mirrored. cbn [fst snd ow og1 og2]. split; ring. Qed.
Lemma mirrored_val n im a b c : gamVal Flat n im (mirrored a) (mirrored b) (mirrored c) =
  (if im then -1 else 1) * gamVal Flat n im a b c.
Proof.
  unfold gamVal. rewrite !mirrored_axis.
  destruct (mirrored_shear (axisAt Flat (opos a) (opos b) (opos c)) a) as [-> ->].
  destruct (mirrored_shear (axisAt Flat (opos b) (opos a) (opos c)) b) as [-> ->].
  destruct (mirrored_shear (axisAt Flat (opos c) (opos a) (opos b)) c) as [-> ->].
  destruct im; unfold prodRe, prodIm; ring.
Qed.
Lemma mirrored_euclid cat : (forall o, In o cat -> pz (opos o) = 0) ->
  forall a b, In a cat -> In b cat -> euclid (opos (mirrored a)) (opos (mirrored b)) = euclid (opos a) (opos b).
Proof. intros HF a b Ha Hb. apply (flip_euclid a b); auto. Qed.
Theorem C81_parity R n im k cat s1 s1' : (n <= 3)%nat -> exactAuto (r3P R) cat -> tcoord (r3P R) = Flat ->
  tbt (r3P R) = LogRUV ->
  runAutoG R cat clearedG s1 -> runAutoG R (map mirrored cat) clearedG s1' ->
  s1' (gidx n im) k = (if im then -1 else 1) * s1 (gidx n im) (mirror (r3P R) k).
Proof.
  intros Hn EX HC HB R1 R2.
  assert (HF : forall o, In o cat -> pz (opos o) = 0).
  { destruct EX as [_ [_ [SK _]]]. rewrite HC in SK. exact SK. }
  assert (EX' : exactAuto (r3P R) (map mirrored cat)).
  { destruct EX as [HE [W [SK [[V [NS [MV NT]]]|[V _]]]]]; [|pose proof (vs_type _ V); congruence].
    split; [auto|]. split; [|split].
    - intros o Ho. apply in_map_iff in Ho as [o' [<- Ho]]. apply (W o' Ho).
    - rewrite HC. intros o Ho. apply in_map_iff in Ho as [o' [<- Ho]]. reflexivity.
    - left. repeat (split; auto). intros a b c Ha Hb Hc.
      apply in_map_iff in Ha as [a' [<- Ha]], Hb as [b' [<- Hb]], Hc as [c' [<- Hc]].
      unfold side1, side2, side3. rewrite !(mirrored_euclid cat) by auto. apply (NT a' b' c'); auto. }
  rewrite (C80_auto R n im (mirror (r3P R) k) cat clearedG s1), (C80_auto R n im k (map mirrored cat) clearedG s1'); auto.
  unfold clearedG. rewrite !Rplus_0_l.
  assert (V : validRUV (r3P R)).
  { destruct EX as [HE [W [SK [[V _]|[V _]]]]]; [auto|pose proof (vs_type _ V); congruence]. }
  rewrite <- sumU_scal. apply sumU_map. intros a b c Ha Hb Hc.
  assert (L : forall a b c, In a cat -> In b cat -> In c cat ->
    triGam (r3P R) n im k (mirrored a) (mirrored b) (mirrored c) =
    (if im then -1 else 1) * triGam (r3P R) n im (mirror (r3P R) k) a b c).
  { clear a b c Ha Hb Hc. intros a b c Ha Hb Hc. unfold triGam. rewrite HB, mirrored_sel, HC, mirrored_val by auto.
    destruct selTri; ring. }
  unfold triGam6, triGam1. rewrite !L by auto. ring.
Qed.

(** ** Relabelling the corners *)
Theorem C81_relabel C im a b c :
  gamVal C 0 im b a c = gamVal C 0 im a b c /\ gamVal C 0 im a c b = gamVal C 0 im a b c /\
  gamVal C 1 im a c b = gamVal C 1 im a b c /\ gamVal C 2 im a c b = gamVal C 3 im a b c /\
  gamVal C 1 im b a c = gamVal C 2 im a b c /\ gamVal C 3 im b a c = gamVal C 3 im a b c.
Proof.
  assert (S : forall p q r, axisAt C p r q = axisAt C p q r).
  { intros p q r. unfold axisAt, centroidFlat, centroidSky. cbn [px py pz].
    replace (padd (padd (sky p) (sky r)) (sky q)) with (padd (padd (sky p) (sky q)) (sky r))
      by (unfold padd; cbn [px py pz]; apply f_equal3; ring).
    destruct C; auto. f_equal. f_equal; field. }
  unfold gamVal. rewrite (S (opos a) (opos b) (opos c)), (S (opos c) (opos a) (opos b)).
  generalize (axisAt C (opos a) (opos b) (opos c)) (axisAt C (opos b) (opos a) (opos c)) (axisAt C (opos c) (opos a) (opos b)).
  intros u1 u2 u3. destruct im; unfold prodRe, prodIm; cbn [Nat.eqb]; repeat split; ring.
Qed.
