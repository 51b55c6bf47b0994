(** C61: exact shear correlations on the sphere and their independence of the coordinate system;
    C62: the transport of shears to the centre of a cell. *)
From Coq Require Import Reals Lra Lia List ZArith Bool Permutation Psatz.
From Verif Require Import Base Geometry Tree Traverse Run Spec SpecRun GeomFacts SumFacts TreeFacts
  BinFacts TravFacts Exact MetricFacts Cover Lift Runs Examples PropsCount PatchFacts Spin SpinFacts SpecSpin
  PropsSpin SpecSphere SphereFacts.
Import ListNotations.
Open Scope R_scope.

(** Positions on the sphere (unit vectors) or in three dimensions, not on the polar axis. *)
Definition onSphere (co : coord) (p : pos) : Prop :=
  offPole p /\ match co with Flat => False | Sphere => unitV p | ThreeD => True end.
Definition skyCat (co : coord) (cat : list obj) : Prop := forall o, In o cat -> onSphere co (opos o).

Lemma offPole_dot p : offPole p -> 0 < dot p p.
Proof. unfold offPole, dot. intro H. pose proof (Rle_0_sqr (pz p)). unfold Rsqr in *. lra. Qed.
Lemma sky_unit p : offPole p -> unitV (sky p).
Proof.
  intro H. apply offPole_dot in H. unfold unitV, sky.
  assert (S : sqrt (dot p p) * sqrt (dot p p) = dot p p) by (apply sqrt_sqrt; lra).
  assert (0 < sqrt (dot p p)) by (apply sqrt_lt_R0; auto). set (r := sqrt (dot p p)) in *.
  replace (dot (pscale (/ r) p) (pscale (/ r) p)) with (/ r * / r * dot p p)
    by (unfold dot, pscale; cbn [px py pz]; ring).
  rewrite <- S. field. lra.
Qed.
Lemma sky_off p : offPole p -> offPole (sky p).
Proof.
  intro H. assert (D := offPole_dot p H). assert (0 < / sqrt (dot p p)) by (apply Rinv_0_lt_compat, sqrt_lt_R0; auto).
  unfold offPole, sky, pscale in *. cbn [px py pz]. set (k := / sqrt (dot p p)) in *.
  replace (_ + _) with ((k * k) * (px p * px p + py p * py p)) by ring.
  apply Rmult_lt_0_compat; auto. apply Rmult_lt_0_compat; auto.
Qed.
Lemma sky_id p : unitV p -> sky p = p.
Proof. unfold unitV, sky. intros ->. rewrite sqrt_1, Rinv_1. apply pscale_1. Qed.
Lemma normalize_sky p : offPole p -> normalize Sphere p = sky p.
Proof.
  intro H. apply offPole_dot in H. unfold normalize, sky, norm. change (normSq p) with (dot p p).
  destruct Req_EM_T as [E|E]; auto. assert (0 < sqrt (dot p p)) by (apply sqrt_lt_R0; auto). lra.
Qed.
Lemma projDir_sky co p1 p2 : onSphere co p1 -> onSphere co p2 ->
  projDir co p1 p2 = calcDirection (sky p1) (sky p2).
Proof.
  intros [O1 C1] [O2 C2]. destruct co; simpl; try contradiction.
  - rewrite <- !normalize_sky by auto. reflexivity.
  - rewrite !sky_id by auto. reflexivity.
Qed.
Lemma dir_leaves p1 p2 a : unitV p1 -> unitV p2 -> offPole p1 -> leaves p1 p2 a ->
  exists d, 0 < d /\ calcDirection p2 p1 = cscale (-1) (polar d a).
Proof.
  intros H1 H2 HP [d [Hd HE]]. exists (axis p1 * d). assert (Ha := axis_pos p1 HP).
  split; [apply Rmult_lt_0_compat; lra|]. rewrite calcDirection_comps by auto.
  assert (R1 : comps p1 (psub p1 p2) = cscale (-1) (comps p1 p2)).
  { rewrite <- (comps_radial p1 p2 1), pscale_1; auto. }
  assert (R2 : comps p1 (psub p2 p1) = comps p1 p2).
  { rewrite <- (comps_radial2 p1 p2 1), pscale_1; auto. }
  rewrite R1, <- R2, HE. apply cplx_eq; unfold cscale, polar; cbn [fst snd]; ring.
Qed.

(** ** C61 *)

(** The value at p2 is rotated by minus s times the direction in which the great circle from p1
    arrives at p2; the value at p1 by minus s times the direction in which it leaves p1. *)
Definition turnBack (n a : R) (z : cplx) : cplx :=
  (fst z * cos (n * a) + snd z * sin (n * a), snd z * cos (n * a) - fst z * sin (n * a)).
Lemma turnBack_polar n a z : cmul z (polar 1 (- (n * a))) = turnBack n a z.
Proof. apply cplx_eq; unfold cmul, polar, turnBack; cbn [fst snd]; rewrite cos_neg, sin_neg; ring. Qed.
Theorem C61_project co s p1 p2 a b z1 z2 : onSphere co p1 -> onSphere co p2 ->
  leaves (sky p1) (sky p2) a -> arrives (sky p1) (sky p2) b ->
  project1 co s p1 p2 z2 = turnBack (spinN s) b z2 /\
  project2 co s p1 p2 z1 z2 = (turnBack (spinN s) a z1, turnBack (spinN s) b z2).
Proof.
  intros S1 S2 HL HA.
  assert (U1 := sky_unit p1 (proj1 S1)). assert (U2 := sky_unit p2 (proj1 S2)).
  assert (O1 := sky_off p1 (proj1 S1)). assert (O2 := sky_off p2 (proj1 S2)).
  destruct (calcDirection_polar _ _ b U1 U2 O2 HA) as [d [Hd ED]].
  destruct (dir_leaves _ _ a U1 U2 O1 HL) as [d' [Hd' ED']].
  assert (E1 : project1 co s p1 p2 z2 = turnBack (spinN s) b z2).
  { unfold project1. rewrite projDir_sky, ED, expmsialpha_polar by auto. apply turnBack_polar. }
  split; auto. unfold project2. unfold project1 in E1.
  assert (Hco : co <> Flat) by (destruct S1 as [_ S1]; destruct co; try contradiction; discriminate).
  assert (E2 : (if oddSpin s then cscale (-1) (cmul z1 (expmsialpha s (projDir co p2 p1)))
               else cmul z1 (expmsialpha s (projDir co p2 p1))) = turnBack (spinN s) a z1).
  { rewrite projDir_sky, ED', expmsialpha_opp, expmsialpha_polar, <- turnBack_polar by auto.
    destruct (oddSpin s); apply cplx_eq; unfold cmul, cscale; cbn [fst snd]; ring. }
  destruct co; try congruence; rewrite E1, E2; auto.
Qed.

Lemma kernO_sky s co f o1 o2 a b : onSphere co (opos o1) -> onSphere co (opos o2) ->
  leaves (sky (opos o1)) (sky (opos o2)) a -> arrives (sky (opos o1)) (sky (opos o2)) b ->
  let n := spinN s in
  kernO co s f o1 o2 =
  match f with
  | SNre => gsign s * ow o1 * ow o2 * along n b o2
  | SNim => gsign s * ow o1 * ow o2 * crossed n b o2
  | SKre => gsign s * (ow o1 * okappa o1) * ow o2 * along n b o2
  | SKim => gsign s * (ow o1 * okappa o1) * ow o2 * crossed n b o2
  | SPre => ow o1 * ow o2 * (along n a o1 * along n b o2 + crossed n a o1 * crossed n b o2)
  | SPim => ow o1 * ow o2 * (crossed n a o1 * along n b o2 - along n a o1 * crossed n b o2)
  | SMre => ow o1 * ow o2 * (along n a o1 * along n b o2 - crossed n a o1 * crossed n b o2)
  | SMim => ow o1 * ow o2 * (crossed n a o1 * along n b o2 + along n a o1 * crossed n b o2)
  end.
Proof.
  intros S1 S2 HL HA n. unfold kernO, kern.
  destruct (C61_project co s _ _ a b (owg o1) (owg o2) S1 S2 HL HA) as [-> ->]. fold n.
  unfold turnBack, along, crossed, owg, cscale. destruct f; cbn [fst snd]; ring.
Qed.
Lemma dir_same p : unitV p -> calcDirection p p = (0, 0).
Proof.
  intro H. unfold calcDirection. apply cplx_eq; cbn [fst snd]; unfold normSq, psub; cbn [px py pz]; ring.
Qed.
Lemma dir_opposite p : unitV p -> calcDirection (opposite p) p = (0, 0).
Proof.
  intro H. unfold unitV, dot in H. unfold calcDirection, opposite, pscale, normSq, psub. cbn [px py pz].
  apply cplx_eq; cbn [fst snd]; [ring|].
  replace (_ + _ + (-1 * pz p - pz p) * (-1 * pz p - pz p)) with (4 * (px p * px p + py p * py p + pz p * pz p)) by ring.
  rewrite H. field.
Qed.
Lemma kernO_ifSky s co f o1 o2 x : s <> Spin0 -> onSphere co (opos o1) -> onSphere co (opos o2) ->
  (sky (opos o1) <> sky (opos o2) -> sky (opos o1) <> opposite (sky (opos o2)) -> kernO co s f o1 o2 = x) ->
  kernO co s f o1 o2 = ifSky o1 o2 x.
Proof.
  intros Hs S1 S2 H.
  assert (U1 := sky_unit _ (proj1 S1)). assert (U2 := sky_unit _ (proj1 S2)).
  assert (HZ : calcDirection (sky (opos o1)) (sky (opos o2)) = (0, 0) -> kernO co s f o1 o2 = 0).
  { intro HC. assert (E1 := projDir_sky co _ _ S1 S2). rewrite HC in E1.
    unfold kernO, kern, project1, project2. rewrite E1, expmsialpha_zero.
    generalize (expmsialpha s (projDir co (opos o2) (opos o1))). intro e.
    destruct S1 as [_ S1]. destruct s; try congruence; destruct co; try contradiction; destruct f; simpl; ring. }
  unfold ifSky. destruct Req_EM_T as [E|E].
  - apply apart_eq in E. apply HZ. rewrite E. apply dir_same; auto.
  - destruct Req_EM_T as [E'|E'].
    + apply apart_eq in E'. apply HZ. rewrite E'. apply dir_opposite; auto.
    + apply H; intro Q; [apply E|apply E']; rewrite Q; apply apart_same.
Qed.
Definition sval (dep arr : pos -> pos -> R) (f : sfield) : obj -> obj -> R :=
  match f with
  | SNre => s_ng arr | SNim => s_ngx arr | SKre => s_kg arr | SKim => s_kgx arr
  | SPre => s_ggp dep arr | SPim => s_ggpi dep arr | SMre => s_ggm dep arr | SMim => s_ggmi dep arr
  end.
Lemma kernO_sval co dep arr cat1 cat2 f o1 o2 : skyCat co cat1 -> skyCat co cat2 ->
  skyAngles dep arr cat1 cat2 -> In o1 cat1 -> In o2 cat2 ->
  kernO co Spin2 f o1 o2 = sval dep arr f o1 o2.
Proof.
  intros C1 C2 HA I1 I2.
  assert (HX : forall x, (leaves (sky (opos o1)) (sky (opos o2)) (dep (opos o1) (opos o2)) ->
     arrives (sky (opos o1)) (sky (opos o2)) (arr (opos o1) (opos o2)) -> kernO co Spin2 f o1 o2 = x) ->
     kernO co Spin2 f o1 o2 = ifSky o1 o2 x).
  { intros x Hx. apply kernO_ifSky; auto; [discriminate|]. intros N1 N2. destruct (HA o1 o2 I1 I2 N1 N2). auto. }
  destruct f; simpl; unfold s_ng, s_ngx, s_kg, s_kgx, s_ggp, s_ggpi, s_ggm, s_ggmi; apply HX; intros HL HR;
    rewrite (kernO_sky Spin2 co _ _ _ _ _ (C1 _ I1) (C2 _ I2) HL HR);
    cbn [spinN gsign]; unfold gammaT, gammaX, along, crossed; ring.
Qed.

(** NG, KG, GG on the sphere and in three dimensions. *)
Theorem C61_cross_shear Q dep arr f k cat1 cat2 a0 a1 :
  validB (cbin (rP Q)) -> crpar (rP Q) = None -> cmetric (rP Q) = Euclidean ->
  skyCat (rcoord Q) cat1 -> skyCat (rcoord Q) cat2 ->
  exactAngles Q -> nonnegW cat1 -> nonnegW cat2 -> skyAngles dep arr cat1 cat2 ->
  runCrossS Q Spin2 cat1 cat2 a0 a1 ->
  a1 f k = a0 f k + sumPairs (selBin (cbin (rP Q)) euclid k) (sval dep arr f) cat1 cat2.
Proof.
  intros HB Hr HM HC1 HC2 HX Hw1 Hw2 HA H.
  assert (HE : a1 f k = a0 f k + sumR (specS (rcoord Q) Spin2 (rP Q) f k) (pairs cat1 cat2)).
  { destruct HX as [Ha|Hb]; [eapply runCrossS_a0; eauto|].
    eapply (runCrossS_brute Q anyPos anyPos); eauto; try exact I. rewrite HM. apply lip_euclid. }
  rewrite HE. f_equal. apply specS_sumPairs.
  - intros. apply selM_euclid; auto.
  - intros. apply (kernO_sval _ dep arr cat1 cat2); auto.
Qed.
Theorem C61_auto_shear Q dep arr f k cat a0 a1 :
  validB (cbin (rP Q)) -> crpar (rP Q) = None -> cmetric (rP Q) = Euclidean -> skyCat (rcoord Q) cat ->
  slop_a (cbin (rP Q)) = 0 \/ rbrute Q <> BruteNo ->
  nonnegW cat -> offMinSep (cbin (rP Q)) euclid cat -> skyAngles dep arr cat cat ->
  f = SPre \/ f = SMre \/ f = SMim ->
  runAutoS Q Spin2 cat a0 a1 ->
  a1 f k = a0 f k + sumUPairs (selBin (cbin (rP Q)) euclid k) (sval dep arr f) cat.
Proof.
  intros HB Hr HM HC HX Hw Hoff HA Hf H.
  assert (Hf' : symField f) by (destruct Hf as [->|[->| ->]]; exact I).
  assert (Hoff' : offMinSep (cbin (rP Q)) (mdist (cmetric (rP Q))) cat).
  { eapply offMinSep_ext; [|exact Hoff]. intros. rewrite HM. symmetry. apply mdist_euclidean. }
  assert (HE : a1 f k = a0 f k + sumR (specS (rcoord Q) Spin2 (rP Q) f k) (upairs cat)).
  { destruct HX as [Ha|Hb]; [eapply runAutoS_a0; eauto|].
    eapply runAutoS_brute; eauto; rewrite HM; [exact I|apply symM_euclid]. }
  rewrite HE. f_equal. apply specS_sumUPairs.
  - intros. apply selM_euclid; auto.
  - intros. apply (kernO_sval _ dep arr cat cat); auto.
Qed.

(** *** Independence of the coordinate system *)
(** A rotation of the sky turns the frame at p by the angle t. *)
Definition turnsBy (M : pos -> pos) (p : pos) (t : R) : Prop :=
  comps (sky (M p)) (M (west (sky p))) = (cos t, sin t).
Definition rotSky (M : pos -> pos) (th : pos -> R) (n : R) (o : obj) : obj :=
  let g := rotVal n (th (opos o)) (og1 o, og2 o) in
  mkobj (M (opos o)) (ow o) (owpos o) (okappa o) (fst g) (snd g) (oidx o).
Lemma sky_rot M p : rotation M -> sky (M p) = M (sky p).
Proof. intro HM. unfold sky. rewrite (rot_dot M HM), <- (rot_scale M HM). reflexivity. Qed.
Lemma expmsialpha_turn s r t : expmsialpha s (cmul r (cos t, sin t)) = cmul (expmsialpha s r) (polar 1 (- (spinN s * t))).
Proof.
  rewrite <- expmsialpha_rot. f_equal. apply cplx_eq; unfold cmul, polar; cbn [fst snd]; ring.
Qed.
Lemma dir_turn M p1 p2 t s : rotation M -> offPole p1 -> offPole p2 -> offPole (M p2) -> turnsBy M p2 t ->
  expmsialpha s (calcDirection (sky (M p1)) (sky (M p2))) =
  cmul (expmsialpha s (calcDirection (sky p1) (sky p2))) (polar 1 (- (spinN s * t))).
Proof.
  intros HM H1 H2 H2' HT. unfold turnsBy in HT.
  assert (O' := sky_off _ H2'). rewrite !(sky_rot M _ HM) in *.
  destruct (dir_rot M (sky p1) (sky p2) HM (sky_unit _ H1) (sky_unit _ H2) (sky_off _ H2) O') as [k [Hk ->]].
  rewrite expmsialpha_scale by auto. unfold turn. rewrite HT. apply expmsialpha_turn.
Qed.
Theorem C61_rotation co s f M p1 p2 t1 t2 w1 wk1 g1 g2 : rotation M ->
  onSphere co p1 -> onSphere co p2 -> offPole (M p1) -> offPole (M p2) ->
  turnsBy M p1 t1 -> turnsBy M p2 t2 ->
  kern co s f (M p1) (M p2) w1 wk1 (rotVal (spinN s) t1 g1) (rotVal (spinN s) t2 g2) =
  kern co s f p1 p2 w1 wk1 g1 g2.
Proof.
  intros HM S1 S2 O1' O2' T1 T2. unfold kern, project1, project2.
  assert (S1' : onSphere co (M p1)).
  { split; auto. destruct S1 as [_ S1]. destruct co; auto. unfold unitV. rewrite (rot_dot M HM). exact S1. }
  assert (S2' : onSphere co (M p2)).
  { split; auto. destruct S2 as [_ S2]. destruct co; auto. unfold unitV. rewrite (rot_dot M HM). exact S2. }
  assert (E12 : cmul (rotVal (spinN s) t2 g2) (expmsialpha s (projDir co (M p1) (M p2))) =
                cmul g2 (expmsialpha s (projDir co p1 p2))).
  { rewrite !projDir_sky, (dir_turn M p1 p2 t2), rotVal_polar, cancel_rot by (auto; apply S1 || apply S2). auto. }
  assert (E21 : cmul (rotVal (spinN s) t1 g1) (expmsialpha s (projDir co (M p2) (M p1))) =
                cmul g1 (expmsialpha s (projDir co p2 p1))).
  { rewrite !projDir_sky, (dir_turn M p2 p1 t1), rotVal_polar, cancel_rot by (auto; apply S1 || apply S2). auto. }
  destruct S1 as [_ S1]. destruct co; try contradiction; rewrite E12, E21; reflexivity.
Qed.
(** Such angles always exist. *)
Lemma turns_exist M p : rotation M -> offPole p -> offPole (M p) -> exists t, turnsBy M p t.
Proof.
  intros HM H H'. unfold turnsBy. rewrite (sky_rot M _ HM).
  destruct (turn_polar M (sky p) HM (sky_unit _ H) (sky_off _ H)) as [t HT].
  { rewrite <- (sky_rot M _ HM). apply sky_off; auto. }
  exists t. unfold turn in HT. rewrite HT. unfold polar. f_equal; ring.
Qed.
Lemma euclid_rot M p q : rotation M -> euclid (M p) (M q) = euclid p q.
Proof.
  intro HM. rewrite !euclid_pdist. unfold pdist, norm. f_equal. rewrite <- (rot_sub M HM). apply (rot_dot M HM).
Qed.
Lemma pairs_map {A B} (g h : A -> B) l1 l2 :
  pairs (map g l1) (map h l2) = map (fun ab => (g (fst ab), h (snd ab))) (pairs l1 l2).
Proof.
  unfold pairs. induction l1 as [|x l IH]; simpl; auto. rewrite map_app, IH, !map_map. reflexivity.
Qed.
(** Whole runs: the correlation of any spin-s field is the same when the sky is rotated (positions and
    values), for any catalogs on the sphere or in three dimensions. *)
Theorem C61_cross_rotation Q s f k M th1 th2 cat1 cat2 a1 a2 : rotation M ->
  validB (cbin (rP Q)) -> crpar (rP Q) = None -> cmetric (rP Q) = Euclidean -> exactAngles Q ->
  nonnegW cat1 -> nonnegW cat2 ->
  skyCat (rcoord Q) cat1 -> skyCat (rcoord Q) cat2 ->
  (forall o, In o cat1 -> offPole (M (opos o)) /\ turnsBy M (opos o) (th1 (opos o))) ->
  (forall o, In o cat2 -> offPole (M (opos o)) /\ turnsBy M (opos o) (th2 (opos o))) ->
  runCrossS Q s cat1 cat2 scleared a1 ->
  runCrossS Q s (map (rotSky M th1 (spinN s)) cat1) (map (rotSky M th2 (spinN s)) cat2) scleared a2 ->
  a1 f k = a2 f k.
Proof.
  intros HM HB Hr HE HX Hw1 Hw2 HC1 HC2 HT1 HT2 H1 H2.
  assert (HSM : forall o1 o2, selM (rP Q) k o1 o2 = selBin (cbin (rP Q)) euclid k o1 o2).
  { intros. apply selM_euclid; auto. }
  assert (HG : forall c d a, nonnegW c -> nonnegW d -> runCrossS Q s c d scleared a ->
     a f k = 0 + sumR (specS (rcoord Q) s (rP Q) f k) (pairs c d)).
  { intros c d a Hc Hd H. destruct HX as [Ha|Hb]; [eapply runCrossS_a0 in H; eauto|].
    eapply (runCrossS_brute Q anyPos anyPos) in H; eauto; try exact I. rewrite HE. apply lip_euclid. }
  assert (HN : forall th c, nonnegW c -> nonnegW (map (rotSky M th (spinN s)) c)).
  { intros th c Hc o Ho. apply in_map_iff in Ho as [o' [<- Ho']]. cbn. apply Hc; auto. }
  rewrite (HG cat1 cat2 a1), (HG _ _ a2 (HN th1 _ Hw1) (HN th2 _ Hw2) H2) by auto. f_equal.
  rewrite pairs_map, sumR_map. apply sumR_ext. intros [o1 o2] Ho. apply in_pairs in Ho as [I1 I2].
  unfold specS; cbn [fst snd]. rewrite !HSM. unfold selBin.
  destruct (HT1 o1 I1) as [P1 T1]. destruct (HT2 o2 I2) as [P2 T2].
  unfold rotSky. cbn [opos]. rewrite (euclid_rot M _ _ HM). destruct inBinb; auto.
  unfold kernO. cbn [opos ow okappa og1 og2]. symmetry.
  rewrite <- (C61_rotation (rcoord Q) s f M (opos o1) (opos o2) (th1 (opos o1)) (th2 (opos o2)) (ow o1) (ow o1 * okappa o1) (owg o1) (owg o2)); auto.
  f_equal; apply cplx_eq; unfold rotVal, owg, cscale; cbn [fst snd ow og1 og2]; ring.
Qed.

(** ** C62 *)

(** ParallelTransportSum multiplies by exp(-i s t) where t is the angle by which parallel transport
    along the great circle turns the frame; the value with the same direction with respect to the
    great circle is obtained by multiplying by exp(+i s t). *)
Theorem C62_transport s cen p t z : unitV p -> unitV cen -> offPole p -> offPole cen ->
  p <> opposite cen -> / 10 ^ 12 <= normSq (psub cen p) ->
  frameTurn p cen = (cos t, sin t) ->
  cmul z (transportFactor s (pz cen) cen p) = turnBack (spinN s) t z.
Proof.
  intros Hp Hc HP HC Hn Hd HT.
  assert (Hne : p <> cen).
  { intros ->. replace (normSq (psub cen cen)) with 0 in Hd by (unfold normSq, psub; cbn [px py pz]; ring).
    assert (0 < / 10 ^ 12) by (apply Rinv_0_lt_compat, pow_lt; lra). lra. }
  destruct (beta_turn p cen Hp Hc HP HC Hne Hn) as [k [Hk E]].
  unfold transportFactor. cbv zeta in E |- *. destruct Rlt_dec as [F|_]; [lra|].
  rewrite E, HT, expmsialpha_scale by auto.
  replace ((cos t, sin t) : cplx) with (polar 1 t) by (unfold polar; f_equal; ring).
  rewrite expmsialpha_polar by lra. apply turnBack_polar.
Qed.
(** what it should be: the component along the great circle is kept *)
Lemma correct_transport n a b t z : a + t = b -> turnBack n b (rotVal n t z) = turnBack n a z.
Proof.
  intros <-. rewrite <- !turnBack_polar, rotVal_polar, <- cmul_assoc, polar_mul. f_equal. f_equal; ring.
Qed.
Theorem C62_spin0 co c : cellWG co Spin0 c = sumC owg (objs c).
Proof.
  assert (T : transportSum Spin0 (getPos c) (objs c) = sumC owg (objs c)).
  { unfold transportSum, sumC.
    assert (E : forall a b d, transportFactor Spin0 a b d = (1, 0)).
    { intros. unfold transportFactor. destruct Rlt_dec; reflexivity. }
    f_equal; apply sumR_ext; intros o _; rewrite E; cbn [fst snd cmul]; ring. }
  unfold cellWG. destruct co; auto; destruct (objs c) as [|o [|o' l]] eqn:Ec; auto;
    unfold sumC; simpl; apply cplx_eq; simpl; ring.
Qed.

Definition tp1 : pos := mkpos (3/5) 0 (4/5).
Definition tp2 : pos := mkpos (-3/5) (96/125) (28/125).
Definition tcen : pos := mkpos 0 (3/5) (4/5).
Definition to1 (k : R) : obj := mkobj (pscale k tp1) 1 1 0 1 0 0.
Definition to2 (k : R) : obj := mkobj (pscale k tp2) 1 1 0 0 0 1.
Lemma sqrt_of x y : 0 <= y -> x = y * y -> sqrt x = y.
Proof. intros H ->. apply sqrt_square; auto. Qed.
Lemma tnorm k p : 0 < k -> unitV p -> normalize Sphere (pscale k p) = p.
Proof.
  intros Hk H. unfold normalize, norm.
  assert (E : sqrt (normSq (pscale k p)) = k).
  { apply sqrt_of; [lra|]. unfold unitV, dot in H. unfold normSq, pscale. cbn [px py pz].
    replace (_ + _) with (k * k * (px p * px p + py p * py p + pz p * pz p)) by ring. rewrite H. ring. }
  rewrite E. destruct Req_EM_T; [lra|]. apply pos_eq; unfold pscale; cbn [px py pz]; field; lra.
Qed.
Lemma tu1 : unitV tp1. Proof. unfold unitV, dot, tp1; cbn; lra. Qed.
Lemma tu2 : unitV tp2. Proof. unfold unitV, dot, tp2; cbn; lra. Qed.
Lemma tuc : unitV tcen. Proof. unfold unitV, dot, tcen; cbn; lra. Qed.
Lemma tcentroid co k : 0 < k -> co <> Flat ->
  centroid co [to1 k; to2 k] = match co with Sphere => tcen | _ => pscale (16/25 * k) tcen end.
Proof.
  intros Hk Hc. unfold centroid. cbn [sumR to1 to2 owpos opos px py pz].
  destruct Req_EM_T as [E|_]; [lra|].
  assert (EM : pscale (/ (1 + (1 + 0))) (mkpos (1 * px (pscale k tp1) + (1 * px (pscale k tp2) + 0))
     (1 * py (pscale k tp1) + (1 * py (pscale k tp2) + 0)) (1 * pz (pscale k tp1) + (1 * pz (pscale k tp2) + 0)))
     = pscale (16/25 * k) tcen).
  { apply pos_eq; unfold pscale, tp1, tp2, tcen; cbn [px py pz]; field. }
  rewrite EM. destruct co; try congruence; auto. apply tnorm; [lra|apply tuc].
Qed.
Lemma tcell co sm m br k c : 0 < k -> co <> Flat -> builds co sm m br [to1 k; to2 k] c ->
  cellWG co Spin2 c = transportFactor Spin2 (match co with Sphere => 4/5 | _ => 16/25 * k * (4/5) end) tcen tp1.
Proof.
  intros Hk Hc H.
  assert (HP : getPos c = centroid co [to1 k; to2 k]).
  { inversion H; subst; auto. }
  assert (HO := builds_perm _ _ _ _ _ _ H).
  assert (HN : normalize Sphere (getPos c) = tcen).
  { rewrite HP, tcentroid by auto. destruct co; try congruence; [apply tnorm; [lra|apply tuc]|].
    rewrite <- (pscale_1 tcen) at 1. apply tnorm; [lra|apply tuc]. }
  assert (HZ : pz (getPos c) = match co with Sphere => 4/5 | _ => 16/25 * k * (4/5) end).
  { rewrite HP, tcentroid by auto. destruct co; try congruence; reflexivity. }
  assert (E : cellWG co Spin2 c = transportSum Spin2 (getPos c) (objs c)).
  { unfold cellWG. assert (L := Permutation_length HO).
    destruct co; try congruence; destruct (objs c) as [|x [|y l]]; simpl in L; auto; lia. }
  rewrite E. unfold transportSum, sumC. rewrite !(sumR_perm _ _ _ HO). cbn [sumR].
  rewrite HN, HZ. cbn [to1 to2 opos]. rewrite (tnorm k tp1 Hk tu1), (tnorm k tp2 Hk tu2).
  unfold owg, to1, to2. cbn [ow og1 og2]. apply cplx_eq; unfold cmul; cbn [fst snd]; ring.
Qed.
Lemma tsmall : ~ normSq (psub tcen tp1) < / 10 ^ 12.
Proof.
  unfold normSq, psub, tcen, tp1. cbn [px py pz]. intro H.
  assert (/ 10 ^ 12 <= / 10).
  { apply Rinv_le_contravar; [lra|]. replace 10 with (10 ^ 1) at 1 by ring. apply Rle_pow; [lra|lia]. }
  lra.
Qed.
Lemma tfactor cz ca cb sb x y : ca = (cz - 4/5) + 36/125 -> sb = (4/5 - cz) + 9/25 * cz ->
  cb = - ca * sb + 81/625 -> x = cb -> y = 9/25 * (sb + ca) -> 0 < x * x + y * y ->
  transportFactor Spin2 cz tcen tp1 = ((x * x - y * y) / (x * x + y * y), - (2 * x * y) / (x * x + y * y)).
Proof.
  intros -> -> -> -> -> HN. unfold transportFactor. destruct Rlt_dec as [F|_]; [exfalso; apply (tsmall F)|].
  assert (ED : normSq (psub tcen tp1) = 18/25) by (unfold normSq, psub, tcen, tp1; cbn [px py pz]; field).
  rewrite ED. unfold tcen, tp1 at 1 2 3 4 5 6 7 8. cbn [px py pz].
  set (r := (_, _)). assert (ER : r = (- (cz - 4 / 5 + 36 / 125) * (4 / 5 - cz + 9 / 25 * cz) + 81 / 625,
        9 / 25 * (4 / 5 - cz + 9 / 25 * cz + (cz - 4 / 5 + 36 / 125)))).
  { unfold r, tp1. cbn [px py pz]. f_equal; field. }
  rewrite ER. set (X := - _ * _ + _) in *. set (Y := 9/25 * _) in *.
  unfold expmsialpha, safeNorm, cnorm. cbn [fst snd]. destruct Rlt_dec; [|contradiction].
  apply cplx_eq; unfold cdivr, cconj, cmul; cbn [fst snd]; field; lra.
Qed.

(** The mean shear of a cell on the sphere is not the mean of the shears transported to its centre:
    two galaxies, only the first has a shear. *)
Theorem C62_shear_refuted : exists o1 o2 c t1 t2,
  unitV (opos o1) /\ unitV (opos o2) /\ offPole (opos o1) /\ offPole (opos o2) /\ 
  ow o1 = 1 /\ ow o2 = 1 /\ builds Sphere Mean 0 false [o1; o2] c /\ offPole (getPos c) /\
  frameTurn (opos o1) (getPos c) = (cos t1, sin t1) /\ frameTurn (opos o2) (getPos c) = (cos t2, sin t2) /\
  cadd (rotVal 2 t1 (owg o1)) (rotVal 2 t2 (owg o2)) = (- 1519/1681, 720/1681) /\
  cellWG Sphere Spin2 c = (- 1519/1681, - 720/1681).
Proof.
  destruct (builds_exists Sphere Mean 0 false [to1 1; to2 1]) as [c Hc]; [discriminate|].
  assert (HP : getPos c = tcen).
  { rewrite <- (tcentroid Sphere 1) by (lra || discriminate). inversion Hc; subst; auto. }
  assert (E1 : opos (to1 1) = tp1) by apply pscale_1. assert (E2 : opos (to2 1) = tp2) by apply pscale_1.
  assert (O1 : offPole tp1) by (unfold offPole, tp1; cbn; lra).
  assert (O2 : offPole tp2) by (unfold offPole, tp2; cbn; lra).
  assert (OC : offPole tcen) by (unfold offPole, tcen; cbn; lra).
  assert (HX : forall p, unitV p -> offPole p -> 1 + dot p tcen <> 0 -> exists t, frameTurn p tcen = (cos t, sin t)).
  { intros p Hp HO Hd. assert (H := frameTurn_unit p tcen Hp tuc HO OC Hd). destruct (frameTurn p tcen) as [x y].
    destruct (polar_exists x y) as [d [a [Hd0 HE]]]. rewrite HE in H |- *. rewrite cnorm_polar in H.
    exists a. unfold polar. replace d with 1; [f_equal; ring|]. assert (HQ : (d - 1) * (d + 1) = 0) by lra.
    apply Rmult_integral in HQ as [|]; lra. }
  destruct (HX tp1 tu1 O1) as [t1 T1]; [unfold dot, tp1, tcen; cbn; lra|].
  destruct (HX tp2 tu2 O2) as [t2 T2]; [unfold dot, tp2, tcen; cbn; lra|].
  exists (to1 1), (to2 1), c, t1, t2. rewrite HP, E1, E2.
  repeat (split; [solve [auto using tu1, tu2]|]).
  assert (FT : frameTurn tp1 tcen = (9/41, 40/41)).
  { assert (A1 : axis tp1 = 3/5) by (apply sqrt_of; unfold tp1; cbn [px py pz]; lra).
    assert (A2 : axis tcen = 3/5) by (apply sqrt_of; unfold tcen; cbn [px py pz]; lra).
    unfold frameTurn, comps, transportVec, west, north. rewrite A1, A2.
    unfold dot, psub, pscale, padd, tp1, tcen. cbn [px py pz]. f_equal; field. }
  assert (CS : cos t1 = 9/41 /\ sin t1 = 40/41) by (rewrite T1 in FT; injection FT; auto).
  destruct CS as [C S]. split.
  - unfold rotVal, cadd, owg, to1, to2. cbn [fst snd ow og1 og2].
    rewrite (cos_2a t1), (sin_2a t1), C, S. f_equal; field.
  - rewrite (tcell Sphere Mean 0 false 1 c) by (auto || lra || discriminate).
    rewrite (tfactor (4/5) (36/125) (729/15625) (36/125) (729/15625) (3240/15625)) by lra. f_equal; field.
Qed.
(** In three dimensions it even depends on the unit of distance. *)
Theorem C62_units_refuted : exists cat1 cat2 c1 c2,
  cat2 = map (fun o => mkobj (pscale 2 (opos o)) (ow o) (owpos o) (okappa o) (og1 o) (og2 o) (oidx o)) cat1 /\
  (forall o, In o cat1 -> offPole (opos o) /\ ow o = 1) /\
  builds ThreeD Mean 0 false cat1 c1 /\ builds ThreeD Mean 0 false cat2 c2 /\
  cellWG ThreeD Spin2 c1 = (- 1519/1681, - 720/1681) /\
  cellWG ThreeD Spin2 c2 = (10404289/57643489, - 56696760/57643489).
Proof.
  destruct (builds_exists ThreeD Mean 0 false [to1 (25/16); to2 (25/16)]) as [c1 H1]; [discriminate|].
  destruct (builds_exists ThreeD Mean 0 false [to1 (25/8); to2 (25/8)]) as [c2 H2]; [discriminate|].
  exists [to1 (25/16); to2 (25/16)], [to1 (25/8); to2 (25/8)], c1, c2.
  split.
  { unfold to1, to2. cbn [map opos ow owpos okappa og1 og2 oidx].
    assert (E : forall p, pscale 2 (pscale (25/16) p) = pscale (25/8) p).
    { intro p. apply pos_eq; unfold pscale; cbn [px py pz]; field. }
    rewrite !E. reflexivity. }
  split; [intros o [<-|[<-|[]]]; cbn; split; auto; unfold offPole, pscale, tp1, tp2; cbn [px py pz]; lra|].
  split; auto. split; auto. split.
  - rewrite (tcell ThreeD Mean 0 false (25/16) c1) by (auto || lra || discriminate).
    replace (16/25 * (25/16) * (4/5)) with (4/5) by field.
    rewrite (tfactor (4/5) (36/125) (729/15625) (36/125) (729/15625) (3240/15625)) by lra. f_equal; field.
  - rewrite (tcell ThreeD Mean 0 false (25/8) c2) by (auto || lra || discriminate).
    replace (16/25 * (25/8) * (4/5)) with (8/5) by field.
    rewrite (tfactor (8/5) (136/125) (5833/15625) (-28/125) (5833/15625) (4860/15625)) by lra. f_equal; field.
Qed.

(** ** Such angles exist, for all catalogs *)
Definition angleOf (z : R * R) : R :=
  let d := sqrt (fst z * fst z + snd z * snd z) in
  if Rle_dec 0 (snd z / d) then acos (fst z / d) else - acos (fst z / d).
Lemma angleOf_spec z : 0 < cnorm z -> exists d, 0 < d /\ z = (d * cos (angleOf z), d * sin (angleOf z)).
Proof.
  destruct z as [x y]. unfold cnorm, angleOf. cbn [fst snd]. intro H0. set (d := sqrt (x * x + y * y)).
  assert (Hd2 : d * d = x * x + y * y) by (apply sqrt_sqrt; lra).
  assert (Hd : 0 < d) by (apply sqrt_lt_R0; auto). exists d. split; auto.
  assert (Hq : (x / d) * (x / d) + (y / d) * (y / d) = 1).
  { replace ((x / d) * (x / d) + (y / d) * (y / d)) with ((x * x + y * y) / (d * d)) by (field; lra).
    rewrite <- Hd2. field; lra. }
  assert (Hb : -1 <= x / d <= 1).
  { pose proof (Rle_0_sqr (y / d)) as HS. unfold Rsqr in HS. clear Hd2. split; nra. }
  assert (Hs : sin (acos (x / d)) = Rabs (y / d)).
  { rewrite sin_acos by auto. rewrite <- sqrt_Rsqr_abs. f_equal. unfold Rsqr. lra. }
  destruct (Rle_dec 0 (y / d)) as [Hy|Hy].
  - rewrite Hs, cos_acos, Rabs_pos_eq by auto. f_equal; field; lra.
  - rewrite cos_neg, sin_neg, Hs, cos_acos, Rabs_left by (auto; lra). f_equal; field; lra.
Qed.
Definition skyDep (p q : pos) : R := angleOf (comps (sky p) (psub (sky q) (sky p))).
Definition skyArr (p q : pos) : R := angleOf (comps (sky q) (psub (sky q) (sky p))).
Lemma comps_nonzero p q : unitV p -> unitV q -> offPole q -> p <> q -> p <> opposite q ->
  0 < cnorm (comps q (psub q p)).
Proof.
  intros Hp Hq HQ N1 N2. assert (H := calcDirection_nonzero p q Hp Hq HQ N1 N2).
  rewrite calcDirection_comps in H by auto. destruct (comps q (psub q p)) as [x y].
  unfold cnorm, cscale in *. cbn [fst snd] in *.
  destruct (Rlt_dec 0 (x * x + y * y)) as [|n]; auto. exfalso.
  assert (Sq : forall t, 0 <= t * t) by (intros t; pose proof (Rle_0_sqr t); unfold Rsqr in *; lra).
  assert (x * x + y * y = 0) by (pose proof (Sq x); pose proof (Sq y); lra).
  replace (axis q * x * (axis q * x) + axis q * y * (axis q * y)) with (axis q * axis q * (x * x + y * y)) in H by ring.
  rewrite H0 in H. lra.
Qed.
Lemma skyAngles_exist co cat1 cat2 : skyCat co cat1 -> skyCat co cat2 -> skyAngles skyDep skyArr cat1 cat2.
Proof.
  intros C1 C2 o1 o2 I1 I2 N1 N2. destruct (C1 o1 I1) as [O1 _]. destruct (C2 o2 I2) as [O2 _].
  assert (U1 := sky_unit _ O1). assert (U2 := sky_unit _ O2).
  split.
  - apply angleOf_spec.
    assert (E : comps (sky (opos o1)) (psub (sky (opos o2)) (sky (opos o1))) =
      cscale (-1) (comps (sky (opos o1)) (psub (sky (opos o1)) (sky (opos o2))))).
    { apply cplx_eq; unfold comps, cscale; cbn [fst snd]; rewrite !dot_psub_l; ring. }
    rewrite E. assert (H := comps_nonzero (sky (opos o2)) (sky (opos o1)) U2 U1 (sky_off _ O1)).
    unfold cnorm, cscale in *. cbn [fst snd] in *.
    match goal with |- 0 < ?a => match type of H with _ -> _ -> 0 < ?b => replace a with b by ring end end.
    apply H; auto. intro Q. apply N2. rewrite Q. apply pos_eq; unfold opposite, pscale; cbn [px py pz]; ring.
  - apply angleOf_spec. apply comps_nonzero; auto. apply sky_off; auto.
Qed.

(** ** Examples *)
Definition ssB : bparams := mkB BLinear (1/2) (3/2) 1 1 1 0.
Lemma ssB_valid : validB ssB.
Proof. constructor; simpl; try lra; try lia; try discriminate. unfold edge; simpl; lra. Qed.
Definition ssRun : runcfg := mkR (mkC Euclidean None ssB) Sphere Mean BruteNo 0 10.
Definition ssObj (p : pos) (g1 g2 : R) (i : nat) : obj := mkobj p 1 1 1 g1 g2 i.
Lemma ss_dist : euclid tp1 tcen = sqrt (18/25).
Proof. unfold euclid, tp1, tcen. cbn [px py pz]. f_equal. field. Qed.
(** a lens at tp1 and a galaxy at tcen; the great circle arrives at tcen in the direction of
    (-5, -4) (west and north components); the shear (9, 40) is along it, so its tangential component
    is -41 and its cross component 0 *)
Example C61_example : exists a1,
  runCrossS ssRun Spin2 [ssObj tp1 0 0 0] [ssObj tcen 9 40 1] scleared a1 /\
  skyCat Sphere [ssObj tp1 0 0 0] /\ skyCat Sphere [ssObj tcen 9 40 1] /\ exactAngles ssRun /\
  skyAngles skyDep skyArr [ssObj tp1 0 0 0] [ssObj tcen 9 40 1] /\
  a1 SNre 0%Z = - 41 /\ a1 SNim 0%Z = 0.
Proof.
  destruct (runCrossS_exists ssRun Spin2 [ssObj tp1 0 0 0] [ssObj tcen 9 40 1] scleared) as [a1 H];
    [apply ssB_valid|discriminate|discriminate|].
  exists a1. split; auto.
  assert (C1 : skyCat Sphere [ssObj tp1 0 0 0]).
  { intros o [<-|[]]. split; [unfold offPole, tp1; cbn; lra|apply tu1]. }
  assert (C2 : skyCat Sphere [ssObj tcen 9 40 1]).
  { intros o [<-|[]]. split; [unfold offPole, tcen; cbn; lra|apply tuc]. }
  assert (HA := skyAngles_exist Sphere _ _ C1 C2).
  do 2 (split; [auto|]). split; [left; reflexivity|]. split; auto.
  assert (W1 : nonnegW [ssObj tp1 0 0 0]) by (intros o [<-|[]]; simpl; lra).
  assert (W2 : nonnegW [ssObj tcen 9 40 1]) by (intros o [<-|[]]; simpl; lra).
  assert (HE : forall f, a1 f 0%Z = 0 + sumPairs (selBin ssB euclid 0) (sval skyDep skyArr f) [ssObj tp1 0 0 0] [ssObj tcen 9 40 1]).
  { intro f. apply (C61_cross_shear ssRun skyDep skyArr f 0%Z _ _ scleared a1); auto;
      try reflexivity; [apply ssB_valid|left; reflexivity]. }
  rewrite !HE. unfold sumPairs, pairs. cbn [map app sumR fst snd flat_map list_prod sval].
  assert (S0 : 0 < sqrt (18/25)) by (apply sqrt_lt_R0; lra).
  assert (S2 : sqrt (18/25) * sqrt (18/25) = 18/25) by (apply sqrt_sqrt; lra).
  assert (SB : selBin ssB euclid 0 (ssObj tp1 0 0 0) (ssObj tcen 9 40 1) = true).
  { unfold selBin, ssObj. cbn [opos]. rewrite ss_dist. unfold inBinb, edge, ssB. cbn [btype minsep maxsep nbins binsize].
    set (r := sqrt (18/25)) in *.
    assert (1/2 <= r) by (apply Rnot_lt_le; intro; nra). assert (r < 3/2) by (apply Rnot_le_lt; intro; nra).
    rewrite Rleb_t, Rltb_t by (simpl; lra). reflexivity. }
  rewrite SB.
  assert (SK1 := sky_id tp1 tu1). assert (SKC := sky_id tcen tuc).
  assert (IS : forall x, ifSky (ssObj tp1 0 0 0) (ssObj tcen 9 40 1) x = x).
  { intro x. unfold ifSky, ssObj. cbn [opos]. rewrite SK1, SKC. destruct Req_EM_T as [E|_].
    - apply apart_eq in E. unfold tp1, tcen in E. injection E; intros; lra.
    - destruct Req_EM_T as [E|_]; auto. apply apart_eq in E. unfold tp1, tcen, opposite, pscale in E. injection E; intros; lra. }
  unfold s_ng, s_ngx. rewrite !IS. unfold ssObj. cbn [opos ow].
  set (b := skyArr tp1 tcen).
  assert (HB : exists d, 0 < d /\ d * cos b = -3/5 /\ d * sin b = -12/25).
  { destruct (HA _ _ (or_introl eq_refl) (or_introl eq_refl)) as [_ [d [Hd HD]]];
      [cbn [opos ssObj]; rewrite SK1, SKC; unfold tp1, tcen; intro E; injection E; intros; lra|
       cbn [opos ssObj]; rewrite SK1, SKC; unfold tp1, tcen, opposite, pscale; intro E; injection E; intros; lra|].
    exists d. split; auto. cbn [opos ssObj] in HD. rewrite SK1, SKC in HD. fold b in HD.
    assert (A2 : axis tcen = 3/5) by (apply sqrt_of; unfold tcen; cbn [px py pz]; lra).
    unfold comps, west, north in HD. rewrite A2 in HD. unfold dot, psub, tp1, tcen in HD. cbn [px py pz] in HD.
    injection HD; intros H1 H2. rewrite <- H1, <- H2. split; field. }
  destruct HB as [d [Hd [HC HS]]].
  assert (D2 : d * d = 369/625).
  { assert (SC := sin2_cos2 b). unfold Rsqr in SC.
    replace (d * d) with ((d * cos b) * (d * cos b) + (d * sin b) * (d * sin b))
      by (replace ((d * cos b) * (d * cos b) + (d * sin b) * (d * sin b)) with (d * d * (sin b * sin b + cos b * cos b)) by ring; rewrite SC; ring).
    rewrite HC, HS. field. }
  assert (C2b : cos (2 * b) = 9/41).
  { rewrite cos_2a. apply (Rmult_eq_reg_l (d * d)); [|lra].
    replace (d * d * (cos b * cos b - sin b * sin b)) with ((d * cos b) * (d * cos b) - (d * sin b) * (d * sin b)) by ring.
    rewrite HC, HS, D2. field. }
  assert (S2b : sin (2 * b) = 40/41).
  { rewrite sin_2a. apply (Rmult_eq_reg_l (d * d)); [|lra].
    replace (d * d * (2 * sin b * cos b)) with (2 * (d * sin b) * (d * cos b)) by ring.
    rewrite HC, HS, D2. field. }
  unfold gammaT, gammaX. cbn [og1 og2]. rewrite C2b, S2b. split; field.
Qed.

(** a rotation of the sky (the axes are permuted) *)
Definition cycle3 (p : pos) : pos := mkpos (py p) (pz p) (px p).
Lemma cycle3_rot : rotation cycle3.
Proof.
  constructor; intros; unfold cycle3, padd, pscale, cross, dot; cbn [px py pz]; try reflexivity. ring.
Qed.
Example C61_rotation_example : exists th a1 a2,
  let cat := [ssObj tp1 1 2 0; ssObj tcen 9 40 1] in
  rotation cycle3 /\ skyCat Sphere cat /\ nonnegW cat /\
  (forall o, In o cat -> offPole (cycle3 (opos o)) /\ turnsBy cycle3 (opos o) (th (opos o))) /\
  runCrossS ssRun Spin2 cat cat scleared a1 /\
  runCrossS ssRun Spin2 (map (rotSky cycle3 th 2) cat) (map (rotSky cycle3 th 2) cat) scleared a2 /\
  forall f k, a1 f k = a2 f k.
Proof.
  set (cat := [ssObj tp1 1 2 0; ssObj tcen 9 40 1]).
  set (th := fun p : pos => angleOf (comps (sky (cycle3 p)) (cycle3 (west (sky p))))). exists th.
  destruct (runCrossS_exists ssRun Spin2 cat cat scleared) as [a1 H1]; [apply ssB_valid|discriminate|discriminate|].
  destruct (runCrossS_exists ssRun Spin2 (map (rotSky cycle3 th 2) cat) (map (rotSky cycle3 th 2) cat) scleared) as [a2 H2];
    [apply ssB_valid|discriminate|discriminate|].
  exists a1, a2. cbv zeta.
  assert (C : skyCat Sphere cat).
  { intros o [<-|[<-|[]]]; (split; [unfold offPole, tp1, tcen; cbn; lra|]); [apply tu1|apply tuc]. }
  assert (T : forall o, In o cat -> offPole (cycle3 (opos o)) /\ turnsBy cycle3 (opos o) (th (opos o))).
  { intros o Ho. assert (O : offPole (cycle3 (opos o))).
    { destruct Ho as [<-|[<-|[]]]; unfold offPole, cycle3, tp1, tcen; cbn; lra. }
    split; auto. destruct (C o Ho) as [O' _]. destruct (turns_exist cycle3 (opos o) cycle3_rot O' O) as [t Ht].
    unfold turnsBy in Ht |- *. unfold th.
    assert (N : cnorm (comps (sky (cycle3 (opos o))) (cycle3 (west (sky (opos o))))) = 1).
    { rewrite Ht. change (cos t, sin t) with ((cos t, sin t) : cplx). unfold cnorm. cbn [fst snd].
      assert (S := sin2_cos2 t). unfold Rsqr in S. lra. }
    destruct (angleOf_spec (comps (sky (cycle3 (opos o))) (cycle3 (west (sky (opos o)))))) as [d [Hd HE]]; [lra|].
    rewrite HE at 1. rewrite HE in N at 1. set (a := angleOf _) in *.
    assert (DD : d * d = 1).
    { assert (S := sin2_cos2 a). unfold Rsqr in S. unfold cnorm in N. cbn [fst snd] in N.
      replace (_ + _) with (d * d * (sin a * sin a + cos a * cos a)) in N by ring. rewrite S in N. lra. }
    assert (d = 1). { assert (HQ : (d - 1) * (d + 1) = 0) by lra. apply Rmult_integral in HQ as [|]; lra. }
    subst d. f_equal; ring. }
  assert (W : nonnegW cat) by (intros o [<-|[<-|[]]]; simpl; lra).
  split; [apply cycle3_rot|]. do 5 (split; [assumption|]). intros f k.
  eapply (C61_cross_rotation ssRun Spin2 f k cycle3 th th cat cat); eauto; try reflexivity;
    [apply cycle3_rot|apply ssB_valid|left; reflexivity].
Qed.
(** the hypotheses of [C62_transport] hold for the first galaxy of [C62_shear_refuted] *)
Example C62_example : unitV tp1 /\ unitV tcen /\ offPole tp1 /\ offPole tcen /\ tp1 <> opposite tcen /\
  / 10 ^ 12 <= normSq (psub tcen tp1).
Proof.
  split; [apply tu1|]. split; [apply tuc|]. split; [unfold offPole, tp1; cbn; lra|].
  split; [unfold offPole, tcen; cbn; lra|]. split; [|apply Rnot_lt_le, tsmall].
  unfold tp1, tcen, opposite, pscale. intro E. injection E; intros; lra.
Qed.
