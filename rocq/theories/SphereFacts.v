(** Geometry of the sphere for spin-s values: the frames (west, north), rotations, parallel transport. *)
From Coq Require Import Reals Lra Lia List ZArith Bool Psatz Nsatz.
From Verif Require Import Base Geometry Tree Traverse Run GeomFacts Spin SpinFacts SpecSphere.
Import ListNotations.
Open Scope R_scope.

(** ** Facts *)
Lemma pos_eq p q : px p = px q -> py p = py q -> pz p = pz q -> p = q.
Proof. destruct p, q; simpl; congruence. Qed.
Lemma axis_pos p : offPole p -> 0 < axis p.
Proof. intro H. apply sqrt_lt_R0. exact H. Qed.
Lemma axis_sq p : axis p * axis p = px p * px p + py p * py p.
Proof.
  unfold axis. apply sqrt_sqrt. pose proof (Rle_0_sqr (px p)). pose proof (Rle_0_sqr (py p)).
  unfold Rsqr in *. lra.
Qed.
Lemma axis_unit p : unitV p -> axis p * axis p = 1 - pz p * pz p.
Proof. intro H. rewrite axis_sq. unfold unitV, dot in H. lra. Qed.

Section Frame.
Variable p : pos.
Hypothesis HU : unitV p.
Hypothesis HP : offPole p.
Let Ha := axis_pos p HP.
Let Hs := axis_sq p.
Let Hu := axis_unit p HU.
Lemma west_unit : dot (west p) (west p) = 1.
Proof.
  unfold dot, west. cbn [px py pz].
  replace (py p / axis p * (py p / axis p) + - px p / axis p * (- px p / axis p) + 0 * 0)
    with ((px p * px p + py p * py p) / (axis p * axis p)) by (field; lra).
  rewrite Hs. field. unfold offPole in HP. lra.
Qed.
Lemma north_unit : dot (north p) (north p) = 1.
Proof.
  unfold dot, north. cbn [px py pz].
  replace (- pz p * px p / axis p * (- pz p * px p / axis p) + - pz p * py p / axis p * (- pz p * py p / axis p) + axis p * axis p)
    with (pz p * pz p * ((px p * px p + py p * py p) / (axis p * axis p)) + axis p * axis p) by (field; lra).
  rewrite <- Hs. replace (axis p * axis p / (axis p * axis p)) with 1 by (field; lra). rewrite Hu. ring.
Qed.
Lemma west_p : dot (west p) p = 0.
Proof. unfold dot, west. cbn [px py pz]. field. lra. Qed.
Lemma north_p : dot (north p) p = 0.
Proof.
  unfold dot, north. cbn [px py pz].
  replace (- pz p * px p / axis p * px p + - pz p * py p / axis p * py p + axis p * pz p)
    with (pz p * (axis p * axis p - (px p * px p + py p * py p)) / axis p) by (field; lra).
  rewrite Hs. field. lra.
Qed.
Lemma west_north : dot (west p) (north p) = 0.
Proof. unfold dot, west, north. cbn [px py pz]. field. lra. Qed.
(** orientation: p x west = north... with the sign of a frame seen from inside *)
Lemma cross_west : cross p (west p) = pscale (-1) (north p).
Proof.
  apply pos_eq; unfold cross, west, north, pscale; cbn [px py pz]; try (field; lra).
  replace (px p * (- px p / axis p) - py p * (py p / axis p)) with (- (px p * px p + py p * py p) / axis p) by (field; lra).
  rewrite <- Hs. field. lra.
Qed.
Lemma cross_north : cross p (north p) = west p.
Proof.
  apply pos_eq; unfold cross, west, north; cbn [px py pz]; try (field; lra).
  - replace (py p * axis p - pz p * (- pz p * py p / axis p)) with (py p * (axis p * axis p + pz p * pz p) / axis p) by (field; lra).
    rewrite Hu. field. lra.
  - replace (pz p * (- pz p * px p / axis p) - px p * axis p) with (- px p * (axis p * axis p + pz p * pz p) / axis p) by (field; lra).
    rewrite Hu. field. lra.
Qed.
(** every tangent vector is given by its components *)
Lemma frame_tangent v : dot v p = 0 ->
  v = padd (pscale (dot v (west p)) (west p)) (pscale (dot v (north p)) (north p)).
Proof.
  intro Hv. unfold dot in Hv.
  assert (EN : dot v (north p) = pz v / axis p).
  { unfold dot, north. cbn [px py pz].
    replace (px v * (- pz p * px p / axis p) + py v * (- pz p * py p / axis p) + pz v * axis p)
      with ((pz v * (axis p * axis p) - pz p * (px v * px p + py v * py p)) / axis p) by (field; lra).
    replace (px v * px p + py v * py p) with (- (pz v * pz p)) by lra. rewrite Hu. field. lra. }
  rewrite EN. apply pos_eq; unfold padd, pscale, dot, west, north; cbn [px py pz].
  - replace (_ + pz v / axis p * (- pz p * px p / axis p))
      with ((px v * (py p * py p) - py v * px p * py p - (pz v * pz p) * px p) / (axis p * axis p)) by (field; lra).
    replace (pz v * pz p) with (- (px v * px p + py v * py p)) by lra. rewrite Hs.
    field. unfold offPole in HP. lra.
  - replace (_ + pz v / axis p * (- pz p * py p / axis p))
      with ((py v * (px p * px p) - px v * px p * py p - (pz v * pz p) * py p) / (axis p * axis p)) by (field; lra).
    replace (pz v * pz p) with (- (px v * px p + py v * py p)) by lra. rewrite Hs.
    field. unfold offPole in HP. lra.
  - field. lra.
Qed.
End Frame.

(** ** The direction calculated by the code *)
Lemma calcDirection_comps p1 p2 : unitV p1 -> unitV p2 -> offPole p2 ->
  calcDirection p1 p2 = cscale (axis p2) (comps p2 (psub p2 p1)).
Proof.
  intros H1 H2 HP. assert (Ha := axis_pos p2 HP). assert (Hu := axis_unit p2 H2). assert (Hs := axis_sq p2).
  unfold unitV, dot in H1, H2.
  apply cplx_eq; unfold calcDirection, cscale, comps, dot, west, north, psub, normSq; cbn [fst snd px py pz].
  - field. lra.
  - replace (axis p2 * _) with (- (pz p2 * ((px p2 * px p2 + py p2 * py p2) - (px p1 * px p2 + py p1 * py p2))) + (pz p2 - pz p1) * (axis p2 * axis p2)) by (field; lra).
    rewrite Hu. replace (px p2 * px p2 + py p2 * py p2) with (1 - pz p2 * pz p2) by lra.
    replace (_ * _ + _ * _ + _ * _) with
      ((px p1 * px p1 + py p1 * py p1 + pz p1 * pz p1) + (px p2 * px p2 + py p2 * py p2 + pz p2 * pz p2)
       - 2 * (px p1 * px p2 + py p1 * py p2 + pz p1 * pz p2)) by ring.
    rewrite H1, H2. field.
Qed.
Lemma calcDirection_polar p1 p2 a : unitV p1 -> unitV p2 -> offPole p2 -> arrives p1 p2 a ->
  exists d, 0 < d /\ calcDirection p1 p2 = polar d a.
Proof.
  intros H1 H2 HP [d [Hd HE]]. exists (axis p2 * d). assert (Ha := axis_pos p2 HP). split; [apply Rmult_lt_0_compat; lra|].
  rewrite calcDirection_comps, HE by auto. apply cplx_eq; unfold cscale, polar; cbn [fst snd]; ring.
Qed.
(** There is a direction unless the points are equal or opposite. *)
Lemma comps_zero p v : unitV p -> offPole p -> dot v p = 0 -> comps p v = (0, 0) -> v = mkpos 0 0 0.
Proof.
  intros HU HP Hv HC. unfold comps in HC. injection HC; intros E1 E2.
  rewrite (frame_tangent p HU HP v Hv), E1, E2. apply pos_eq; unfold padd, pscale; cbn [px py pz]; ring.
Qed.
Lemma dot_psub_l a b c : dot (psub a b) c = dot a c - dot b c.
Proof. unfold dot, psub. cbn [px py pz]. ring. Qed.
Lemma dot_padd_l a b c : dot (padd a b) c = dot a c + dot b c.
Proof. unfold dot, padd. cbn [px py pz]. ring. Qed.
Lemma dot_scale_l x a b : dot (pscale x a) b = x * dot a b.
Proof. unfold dot, pscale. cbn [px py pz]. ring. Qed.
Lemma dot_comm a b : dot a b = dot b a.
Proof. unfold dot. ring. Qed.
Lemma arrives_exists p1 p2 : unitV p1 -> unitV p2 -> offPole p2 -> p1 <> p2 -> p1 <> pscale (-1) p2 ->
  exists a, arrives p1 p2 a.
Proof.
  intros H1 H2 HP Hn Hm. destruct (comps p2 (psub p2 p1)) as [x y] eqn:E.
  destruct (polar_exists x y) as [d [a [Hd HE]]]. exists a, d. rewrite E. split; [|exact HE].
  destruct Hd as [|<-]; auto. exfalso.
  assert (Z : (x, y) = (0, 0)) by (rewrite HE; unfold polar; f_equal; ring).
  (* tangent part of p2 - p1 is t = (p1.p2) p2 - p1 *)
  set (c := dot p1 p2). set (t := psub (pscale c p2) p1).
  assert (HT : dot t p2 = 0).
  { unfold t. rewrite dot_psub_l, dot_scale_l. unfold unitV in H2. rewrite H2. unfold c. ring. }
  assert (HC : comps p2 t = (0, 0)).
  { rewrite <- Z, <- E. unfold comps, t.
    f_equal; rewrite !dot_psub_l, dot_scale_l.
    - rewrite (dot_comm p2 (west p2)), (west_p p2) by auto. ring.
    - rewrite (dot_comm p2 (north p2)), (north_p p2) by auto. ring. }
  apply comps_zero in HC; auto. unfold t in HC.
  assert (EQ : p1 = pscale c p2).
  { injection HC; intros C1 C2 C3. apply pos_eq; unfold pscale in *; cbn [px py pz] in *; lra. }
  assert (CC : c * c = 1).
  { unfold unitV in H1. rewrite EQ in H1. rewrite dot_scale_l, dot_comm, dot_scale_l, H2 in H1. lra. }
  assert (HD : (c - 1) * (c + 1) = 0) by lra. apply Rmult_integral in HD as [HD|HD].
  - apply Hn. rewrite EQ. replace c with 1 by lra. apply pos_eq; unfold pscale; cbn [px py pz]; ring.
  - apply Hm. rewrite EQ. replace c with (-1) by lra. reflexivity.
Qed.

(** ** Rotations *)
(** The rotated frame: M (west p) as a complex number in the frame at M p. *)
Definition turn (M : pos -> pos) (p : pos) : cplx := comps (M p) (M (west p)).
Lemma psub_add p q : psub p q = padd p (pscale (-1) q).
Proof. apply pos_eq; unfold psub, padd, pscale; cbn [px py pz]; ring. Qed.
Lemma rot_sub M : rotation M -> forall p q, M (psub p q) = psub (M p) (M q).
Proof. intros HM p q. rewrite !psub_add, (rot_add M HM), (rot_scale M HM). reflexivity. Qed.
Section Rot.
Variables (M : pos -> pos) (p : pos).
Hypotheses (HM : rotation M) (HU : unitV p) (HP : offPole p) (HP' : offPole (M p)).
Let HU' : unitV (M p).
Proof. unfold unitV. rewrite (rot_dot M HM). exact HU. Qed.
Lemma turn_north : M (north p) = padd (pscale (- snd (turn M p)) (west (M p))) (pscale (fst (turn M p)) (north (M p))).
Proof.
  (* north = - p x west *)
  assert (EN : north p = pscale (-1) (cross p (west p))).
  { rewrite (cross_west p HP). apply pos_eq; unfold pscale; cbn [px py pz]; ring. }
  rewrite EN, (rot_scale M HM), <- (rot_cross M HM).
  assert (EW : M (west p) = padd (pscale (fst (turn M p)) (west (M p))) (pscale (snd (turn M p)) (north (M p)))).
  { apply (frame_tangent (M p) HU' HP'). rewrite (rot_dot M HM). apply west_p; auto. }
  rewrite EW at 1.
  assert (CW := cross_west (M p) HP'). assert (CN := cross_north (M p) HU' HP').
  set (u := fst (turn M p)) in *. set (v := snd (turn M p)) in *.
  assert (CL : forall a b, cross (M p) (padd (pscale u a) (pscale v b)) =
     padd (pscale u (cross (M p) a)) (pscale v (cross (M p) b))).
  { intros a b. apply pos_eq; unfold cross, padd, pscale; cbn [px py pz]; ring. }
  rewrite CL, CW, CN. apply pos_eq; unfold padd, pscale; cbn [px py pz]; ring.
Qed.
Lemma turn_comps v : dot v p = 0 -> comps (M p) (M v) = cmul (comps p v) (turn M p).
Proof.
  intro Hv. set (x := dot v (west p)). set (y := dot v (north p)).
  assert (EV : M v = padd (pscale x (M (west p))) (pscale y (M (north p)))).
  { rewrite (frame_tangent p HU HP v Hv) at 1. rewrite (rot_add M HM), !(rot_scale M HM). reflexivity. }
  rewrite EV, turn_north. unfold comps. fold x y.
  assert (W1 := west_unit (M p) HP'). assert (N1 := north_unit (M p) HU' HP').
  assert (WN := west_north (M p) HP').
  assert (NW : dot (north (M p)) (west (M p)) = 0) by (rewrite dot_comm; auto).
  unfold cmul. cbn [fst snd]. apply cplx_eq; cbn [fst snd]; rewrite !dot_padd_l, !dot_scale_l, !dot_padd_l, !dot_scale_l.
  - rewrite W1, NW. unfold turn, comps. cbn [fst snd]. ring.
  - rewrite N1, WN. unfold turn, comps. cbn [fst snd]. ring.
Qed.
Lemma turn_unit : cnorm (turn M p) = 1.
Proof.
  assert (EW : M (west p) = padd (pscale (fst (turn M p)) (west (M p))) (pscale (snd (turn M p)) (north (M p)))).
  { apply (frame_tangent (M p) HU' HP'). rewrite (rot_dot M HM). apply west_p; auto. }
  assert (U := west_unit p HP). rewrite <- (rot_dot M HM) in U. rewrite EW in U at 1.
  rewrite dot_padd_l, !dot_scale_l in U. unfold cnorm. rewrite <- U. unfold turn, comps. cbn [fst snd].
  rewrite (dot_comm (west (M p))), (dot_comm (north (M p))). reflexivity.
Qed.
End Rot.
Lemma turn_polar M p : rotation M -> unitV p -> offPole p -> offPole (M p) -> exists t, turn M p = polar 1 t.
Proof.
  intros HM HU HP HP'. assert (H := turn_unit M p HM HU HP HP'). destruct (turn M p) as [x y].
  destruct (polar_exists x y) as [d [a [Hd HE]]]. rewrite HE in H |- *. rewrite cnorm_polar in H.
  exists a. replace d with 1; auto. assert (HQ : (d - 1) * (d + 1) = 0) by lra.
  apply Rmult_integral in HQ as [|]; lra.
Qed.
Lemma dir_rot M p1 p2 : rotation M -> unitV p1 -> unitV p2 -> offPole p2 -> offPole (M p2) ->
  exists k, 0 < k /\ calcDirection (M p1) (M p2) = cscale k (cmul (calcDirection p1 p2) (turn M p2)).
Proof.
  intros HM H1 H2 HP HP'.
  assert (H1' : unitV (M p1)) by (unfold unitV; rewrite (rot_dot M HM); auto).
  assert (H2' : unitV (M p2)) by (unfold unitV; rewrite (rot_dot M HM); auto).
  assert (A := axis_pos p2 HP). assert (A' := axis_pos (M p2) HP').
  exists (axis (M p2) / axis p2). split; [apply Rdiv_lt_0_compat; auto|].
  rewrite !calcDirection_comps by auto.
  (* the radial part of p2 - p1 has no components *)
  set (c := dot p1 p2). set (t := psub (pscale c p2) p1).
  assert (HT : dot t p2 = 0).
  { unfold t. rewrite dot_psub_l, dot_scale_l. unfold unitV in H2. rewrite H2. unfold c. ring. }
  assert (E1 : comps p2 (psub p2 p1) = comps p2 t).
  { unfold comps, t. f_equal; rewrite !dot_psub_l, dot_scale_l.
    - rewrite (dot_comm p2 (west p2)), (west_p p2) by auto. ring.
    - rewrite (dot_comm p2 (north p2)), (north_p p2) by auto. ring. }
  assert (E2 : comps (M p2) (psub (M p2) (M p1)) = comps (M p2) (M t)).
  { unfold comps, t. rewrite (rot_sub M HM), (rot_scale M HM). f_equal; rewrite !dot_psub_l, dot_scale_l.
    - rewrite (dot_comm (M p2) (west (M p2))), (west_p (M p2)) by auto. ring.
    - rewrite (dot_comm (M p2) (north (M p2))), (north_p (M p2)) by auto. ring. }
  rewrite E1, E2, (turn_comps M p2 HM H2 HP HP' t HT).
  apply cplx_eq; unfold cscale, cmul; cbn [fst snd]; field; lra.
Qed.

(** ** Parallel transport *)
Lemma transport_tangent p q v : unitV q -> 1 + dot p q <> 0 -> dot (transportVec p q v) q = 0.
Proof.
  intros Hq Hc. unfold transportVec. rewrite dot_psub_l, dot_scale_l, dot_padd_l.
  unfold unitV in Hq. rewrite Hq, (dot_comm v q). field. auto.
Qed.
Lemma transport_lin p q x y v w : transportVec p q (padd (pscale x v) (pscale y w)) =
  padd (pscale x (transportVec p q v)) (pscale y (transportVec p q w)).
Proof.
  unfold transportVec. apply pos_eq; unfold psub, padd, pscale, dot; cbn [px py pz]; unfold Rdiv; ring.
Qed.
(** it is an isometry *)
Lemma transport_dot p q v w : unitV p -> unitV q -> 1 + dot p q <> 0 -> dot v p = 0 -> dot w p = 0 ->
  dot (transportVec p q v) (transportVec p q w) = dot v w.
Proof.
  intros Hp Hq Hc Hv Hw. unfold transportVec.
  rewrite dot_psub_l, !dot_scale_l, !dot_padd_l.
  rewrite (dot_comm v), (dot_comm p (psub _ _)), (dot_comm q (psub _ _)).
  rewrite !dot_psub_l, !dot_scale_l, !dot_padd_l. unfold unitV in *.
  rewrite Hp, Hq, Hw, (dot_comm p v), (dot_comm w v), (dot_comm q p), Hv, (dot_comm w q). field. auto.
Qed.
(** along the great circle it takes the direction of the circle to itself *)
Lemma transport_along p q : unitV p -> unitV q -> 1 + dot p q <> 0 ->
  transportVec p q (psub q (pscale (dot p q) p)) = psub (pscale (dot p q) q) p.
Proof.
  intros Hp Hq Hc. unfold transportVec.
  replace (dot q (psub q (pscale (dot p q) p))) with ((1 - dot p q) * (1 + dot p q)).
  2:{ rewrite (dot_comm q), dot_psub_l, dot_scale_l. unfold unitV in Hq. rewrite Hq. ring. }
  replace ((1 - dot p q) * (1 + dot p q) / (1 + dot p q)) with (1 - dot p q) by (field; auto).
  apply pos_eq; unfold psub, padd, pscale; cbn [px py pz]; ring.
Qed.
(** and it preserves the orientation *)
Lemma transport_cross p q v : unitV p -> unitV q -> 1 + dot p q <> 0 -> dot v p = 0 ->
  transportVec p q (cross p v) = cross q (transportVec p q v).
Proof.
  intros Hp Hq Hc Hv.
  assert (E : pscale (1 + dot p q) (psub (cross q v) (cross p v)) =
              psub (pscale (dot q v) (cross q p)) (pscale (dot q (cross p v)) (padd p q))).
  { unfold unitV in *. destruct p as [a b c], q as [d e f], v as [x y z].
    unfold dot, cross, psub, padd, pscale in *. cbn [px py pz] in *.
    apply pos_eq; cbn [px py pz]; nsatz. }
  assert (K : forall P Q : pos, pscale (1 + dot p q) P = pscale (1 + dot p q) Q -> P = Q).
  { intros P Q H. unfold pscale in H. injection H; intros H1 H2 H3.
    apply pos_eq; eapply Rmult_eq_reg_l; eauto. }
  apply K. unfold transportVec.
  replace (pscale (1 + dot p q) (psub (cross p v) (pscale (dot q (cross p v) / (1 + dot p q)) (padd p q))))
    with (psub (pscale (1 + dot p q) (cross p v)) (pscale (dot q (cross p v)) (padd p q))).
  2:{ apply pos_eq; unfold psub, pscale; cbn [px py pz]; field; auto. }
  replace (pscale (1 + dot p q) (cross q (psub v (pscale (dot q v / (1 + dot p q)) (padd p q)))))
    with (psub (pscale (1 + dot p q) (cross q v)) (pscale (dot q v) (cross q p))).
  2:{ apply pos_eq; unfold psub, pscale, cross, padd; cbn [px py pz]; field; auto. }
  assert (E1 := f_equal px E). assert (E2 := f_equal py E). assert (E3 := f_equal pz E). clear E.
  unfold psub, pscale in *. cbn [px py pz] in E1, E2, E3 |- *.
  apply pos_eq; cbn [px py pz]; lra.
Qed.
Lemma transport_comps p q v : unitV p -> unitV q -> offPole p -> offPole q -> 1 + dot p q <> 0 ->
  dot v p = 0 -> comps q (transportVec p q v) = cmul (comps p v) (frameTurn p q).
Proof.
  intros Hp Hq HP HQ Hc Hv.
  set (x := dot v (west p)). set (y := dot v (north p)).
  set (a := fst (frameTurn p q)). set (b := snd (frameTurn p q)).
  assert (EW : transportVec p q (west p) = padd (pscale a (west q)) (pscale b (north q))).
  { apply (frame_tangent q Hq HQ). apply transport_tangent; auto. }
  assert (EN : transportVec p q (north p) = padd (pscale (- b) (west q)) (pscale a (north q))).
  { assert (E : north p = pscale (-1) (cross p (west p))).
    { rewrite (cross_west p HP). apply pos_eq; unfold pscale; cbn [px py pz]; ring. }
    assert (E2 : forall w, transportVec p q (pscale (-1) w) = pscale (-1) (transportVec p q w)).
    { intro w. unfold transportVec. apply pos_eq; unfold psub, padd, pscale, dot; cbn [px py pz]; unfold Rdiv; ring. }
    rewrite E, E2, transport_cross, EW by (auto; apply west_p; auto).
    assert (CW := cross_west q HQ). assert (CN := cross_north q Hq HQ).
    assert (CL : forall u w, cross q (padd (pscale a u) (pscale b w)) =
       padd (pscale a (cross q u)) (pscale b (cross q w))).
    { intros u w. apply pos_eq; unfold cross, padd, pscale; cbn [px py pz]; ring. }
    rewrite CL, CW, CN. apply pos_eq; unfold padd, pscale; cbn [px py pz]; ring. }
  rewrite (frame_tangent p Hp HP v Hv) at 1. fold x y. rewrite transport_lin, EW, EN.
  assert (W1 := west_unit q HQ). assert (N1 := north_unit q Hq HQ).
  assert (WN := west_north q HQ).
  assert (NW : dot (north q) (west q) = 0) by (rewrite dot_comm; auto).
  unfold comps at 1. unfold comps at 1. fold x y. unfold cmul. fold a b. cbn [fst snd].
  apply cplx_eq; cbn [fst snd]; rewrite !dot_padd_l, !dot_scale_l, !dot_padd_l, !dot_scale_l.
  - rewrite W1, NW. ring.
  - rewrite N1, WN. ring.
Qed.
Lemma frameTurn_unit p q : unitV p -> unitV q -> offPole p -> offPole q -> 1 + dot p q <> 0 ->
  cnorm (frameTurn p q) = 1.
Proof.
  intros Hp Hq HP HQ Hc.
  assert (EW : transportVec p q (west p) = padd (pscale (fst (frameTurn p q)) (west q)) (pscale (snd (frameTurn p q)) (north q))).
  { apply (frame_tangent q Hq HQ). apply transport_tangent; auto. }
  assert (U := west_unit p HP).
  rewrite <- (transport_dot p q (west p) (west p)) in U by (auto; apply west_p; auto).
  rewrite EW in U at 1. rewrite dot_padd_l, !dot_scale_l in U. unfold cnorm. rewrite <- U.
  unfold frameTurn, comps. cbn [fst snd]. rewrite (dot_comm (west q)), (dot_comm (north q)). reflexivity.
Qed.

(** The angle computed by ParallelTransportSum is that of the frame turn. *)
Lemma comps_radial p q c : unitV p -> offPole p -> comps p (psub (pscale c p) q) = cscale (-1) (comps p q).
Proof.
  intros Hp HP. unfold comps. apply cplx_eq; unfold cscale; cbn [fst snd]; rewrite dot_psub_l, dot_scale_l.
  - rewrite (dot_comm p (west p)), (west_p p) by auto. ring.
  - rewrite (dot_comm p (north p)), (north_p p) by auto. ring.
Qed.
Lemma comps_radial2 p q c : unitV p -> offPole p -> comps p (psub q (pscale c p)) = comps p q.
Proof.
  intros Hp HP. unfold comps. apply cplx_eq; cbn [fst snd]; rewrite dot_psub_l, dot_scale_l.
  - rewrite (dot_comm p (west p)), (west_p p) by auto. ring.
  - rewrite (dot_comm p (north p)), (north_p p) by auto. ring.
Qed.
Lemma pscale_1 p : pscale 1 p = p.
Proof. apply pos_eq; unfold pscale; cbn [px py pz]; ring. Qed.
Lemma transport_angle p q : unitV p -> unitV q -> offPole p -> offPole q -> 1 + dot p q <> 0 ->
  cscale (axis p) (calcDirection p q) = cscale (- axis q) (cmul (calcDirection q p) (frameTurn p q)).
Proof.
  intros Hp Hq HP HQ Hc.
  assert (T : dot (psub q (pscale (dot p q) p)) p = 0).
  { rewrite dot_psub_l, dot_scale_l. unfold unitV in Hp. rewrite Hp, (dot_comm q). ring. }
  assert (E := transport_comps p q _ Hp Hq HP HQ Hc T).
  rewrite transport_along, comps_radial, comps_radial2 in E by auto.
  rewrite !calcDirection_comps by auto.
  assert (R1 : comps q (psub q p) = cscale (-1) (comps q p)).
  { rewrite <- (comps_radial q p 1), pscale_1; auto. }
  assert (R2 : comps p (psub p q) = cscale (-1) (comps p q)).
  { rewrite <- (comps_radial p q 1), pscale_1; auto. }
  rewrite R1, R2.
  rewrite E. apply cplx_eq; unfold cscale, cmul; cbn [fst snd]; ring.
Qed.
Lemma calcDirection_nonzero p1 p2 : unitV p1 -> unitV p2 -> offPole p2 -> p1 <> p2 -> p1 <> pscale (-1) p2 ->
  0 < cnorm (calcDirection p1 p2).
Proof.
  intros H1 H2 HP Hn Hm. destruct (arrives_exists p1 p2 H1 H2 HP Hn Hm) as [a HA].
  destruct (calcDirection_polar p1 p2 a H1 H2 HP HA) as [d [Hd ->]]. rewrite cnorm_polar.
  apply Rmult_lt_0_compat; auto.
Qed.
Lemma opp_dot p q : unitV p -> unitV q -> 1 + dot p q = 0 -> p = pscale (-1) q.
Proof.
  intros Hp Hq H. assert (Z : normSq (padd p q) = 0).
  { unfold unitV, normSq, padd, dot in *. cbn [px py pz] in *. lra. }
  unfold normSq, padd in Z. cbn [px py pz] in Z.
  assert (Sq : forall t, 0 <= t * t) by (intros t; pose proof (Rle_0_sqr t); unfold Rsqr in *; lra).
  pose proof (Sq (px p + px q)). pose proof (Sq (py p + py q)). pose proof (Sq (pz p + pz q)).
  assert (px p + px q = 0) by (apply Rsqr_0_uniq; unfold Rsqr; lra).
  assert (py p + py q = 0) by (apply Rsqr_0_uniq; unfold Rsqr; lra).
  assert (pz p + pz q = 0) by (apply Rsqr_0_uniq; unfold Rsqr; lra).
  apply pos_eq; unfold pscale; cbn [px py pz]; lra.
Qed.
Lemma opp_dot' p q : unitV q -> p = pscale (-1) q -> 1 + dot p q = 0.
Proof. intros Hq ->. rewrite dot_scale_l. unfold unitV in Hq. rewrite Hq. ring. Qed.
Lemma normSq_dot p : normSq p = dot p p.
Proof. reflexivity. Qed.
Lemma beta_turn p q : unitV p -> unitV q -> offPole p -> offPole q -> p <> q -> p <> pscale (-1) q ->
  let dsq := normSq (psub q p) in
  let cosA := (pz q - pz p) + 1/2 * pz p * dsq in
  let sinA := py q * px p - px q * py p in
  let cosB := (pz p - pz q) + 1/2 * pz q * dsq in
  exists k, 0 < k /\ (- cosA * cosB + sinA * sinA, sinA * cosB + cosA * sinA) = cscale k (frameTurn p q).
Proof.
  intros Hp Hq HP HQ Hn Hm dsq cosA sinA cosB.
  assert (Hc : 1 + dot p q <> 0) by (intro H; apply Hm; apply opp_dot; auto).
  assert (E := transport_angle p q Hp Hq HP HQ Hc).
  assert (N : 0 < cnorm (calcDirection q p)).
  { apply calcDirection_nonzero; auto. intro H; apply Hm. rewrite H. apply pos_eq; unfold pscale; cbn [px py pz]; ring. }
  assert (A := axis_pos p HP). assert (A' := axis_pos q HQ).
  exists (axis q / axis p * cnorm (calcDirection q p)). split; [repeat apply Rmult_lt_0_compat; auto; apply Rinv_0_lt_compat; auto|].
  assert (D1 : calcDirection q p = (sinA, - cosA)) by reflexivity.
  assert (D2 : calcDirection p q = (- sinA, - cosB)).
  { unfold calcDirection. apply cplx_eq; cbn [fst snd]; unfold sinA, cosB, dsq, normSq, psub; cbn [px py pz]; ring. }
  rewrite D1 in *. rewrite D2 in E. unfold cscale, cmul, cnorm in *. cbn [fst snd] in *.
  assert (E1 := f_equal fst E). assert (E2 := f_equal snd E). cbn [fst snd] in E1, E2.
  set (u := fst (frameTurn p q)) in *. set (v := snd (frameTurn p q)) in *.
  assert (F1 : sinA = axis q / axis p * (sinA * u - - cosA * v)).
  { apply (Rmult_eq_reg_l (axis p)); [|lra]. replace (axis p * (axis q / axis p * (sinA * u - - cosA * v))) with (axis q * (sinA * u - - cosA * v)) by (field; lra). lra. }
  assert (F2 : cosB = axis q / axis p * (sinA * v + - cosA * u)).
  { apply (Rmult_eq_reg_l (axis p)); [|lra]. replace (axis p * (axis q / axis p * (sinA * v + - cosA * u))) with (axis q * (sinA * v + - cosA * u)) by (field; lra). lra. }
  clearbody u v. clear E E1 E2.
  apply cplx_eq; cbn [fst snd].
  - transitivity (- cosA * (axis q / axis p * (sinA * v + - cosA * u)) + sinA * (axis q / axis p * (sinA * u - - cosA * v))); [rewrite <- F1, <- F2; ring|ring].
  - transitivity (sinA * (axis q / axis p * (sinA * v + - cosA * u)) + cosA * (axis q / axis p * (sinA * u - - cosA * v))); [rewrite <- F1, <- F2; ring|ring].
Qed.
Lemma expmsialpha_scale s k r : 0 < k -> expmsialpha s (cscale k r) = expmsialpha s r.
Proof.
  intro Hk. destruct r as [x y]. destruct (polar_exists x y) as [d [a [Hd HE]]]. rewrite HE.
  replace (cscale k (polar d a)) with (polar (k * d) a) by (apply cplx_eq; unfold cscale, polar; cbn [fst snd]; ring).
  destruct Hd as [Hd|<-].
  - rewrite !expmsialpha_polar; auto. apply Rmult_lt_0_compat; auto.
  - rewrite Rmult_0_r. reflexivity.
Qed.
