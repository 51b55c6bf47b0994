(** Examples for C80 and C81; C82: the projections of the multipole code. *)
From Coq Require Import Reals Lra Lia List ZArith Bool Permutation Psatz.
From Verif Require Import Base Geometry Tree Traverse Spec GeomFacts SumFacts TreeFacts TravFacts
  MetricFacts Cover Runs Examples Corr3 TriCover TriStop SpecTri TriFacts TriSpec Spin SpinFacts SpecSpin PropsSpin
  SpecRun SpecSphere SphereFacts PropsSphere PropsTri TriMirror PropsTri2 PropsTri3 PropsArc SasGeom SasStop SpecSas SasFacts SasSpec
  PropsSas PropsSas2 GGG SpecGGG GGGFacts PropsGGG PropsGGG2.
Import ListNotations.
Open Scope R_scope.

(** ** C80: a 3-4-5 triangle of shears in the plane *)
Definition ggObj (x y : R) (i : nat) : obj := mkobj (mkpos x y 0) 1 1 1 1 0 i.
Definition ggA := ggObj 0 0 0. Definition ggB := ggObj 3 0 1. Definition ggC := ggObj 0 4 2.
Lemma gg_noTies : noTies [ggA; ggB; ggC].
Proof.
  intros a b c Ha Hb Hc.
  assert (D : forall o, In o [ggA; ggB; ggC] -> exists o', In o' [exA; exB; exC] /\ opos o = opos o').
  { intros o [<-|[<-|[<-|[]]]]; [exists exA|exists exB|exists exC]; split; simpl; auto. }
  destruct (D a Ha) as [a' [Ia Ea]], (D b Hb) as [b' [Ib Eb]], (D c Hc) as [c' [Ic Ec]].
  unfold side1, side2, side3. rewrite Ea, Eb, Ec. apply (ex_noTies a' b' c'); auto.
Qed.
Lemma gg_oriented : oriented Flat [ggA; ggB; ggC].
Proof.
  intros a b c Ha Hb Hc.
  assert (D : forall o, In o [ggA; ggB; ggC] -> exists o', In o' [exA; exB; exC] /\ opos o = opos o').
  { intros o [<-|[<-|[<-|[]]]]; [exists exA|exists exB|exists exC]; split; simpl; auto. }
  destruct (D a Ha) as [a' [Ia Ea]], (D b Hb) as [b' [Ib Eb]], (D c Hc) as [c' [Ic Ec]].
  unfold side1, side2, side3, ccwSpec. rewrite Ea, Eb, Ec. apply (ex_oriented a' b' c'); auto.
Qed.
Lemma gg_exact : exactAuto (r3P (triR 0)) [ggA; ggB; ggC].
Proof.
  split; [reflexivity|]. split; [|split].
  - intros o [<-|[<-|[<-|[]]]]; cbn; lra.
  - intros o [<-|[<-|[<-|[]]]]; reflexivity.
  - left. repeat (split; [first [apply triP_valid; lra|apply triP_noSlop|reflexivity]|]). apply gg_noTies.
Qed.
Lemma gg_exactS : exactAuto (r3P (sasR Flat 2 2 0 PI)) [ggA; ggB; ggC].
Proof.
  pose proof PI_RGT_0. split; [reflexivity|]. split; [|split].
  - intros o [<-|[<-|[<-|[]]]]; cbn; lra.
  - intros o [<-|[<-|[<-|[]]]]; reflexivity.
  - right. split; [apply sasP_valid; lra|]. split; [apply sasP_noSlop|]. split; [reflexivity|]. split; [cbn; lra|apply gg_oriented].
Qed.
Lemma gg_sides : side1 ggA ggB ggC = 5 /\ side2 ggA ggB ggC = 4 /\ side3 ggA ggB ggC = 3.
Proof. exact ex_sides. Qed.
Lemma gg_val : gamVal Flat 0 false ggA ggB ggC = - 4123/23725.
Proof.
  rewrite <- (kernG_gam Flat 0 false [ggA; ggB; ggC]); try (simpl; auto; fail).
  2:{ intros o [<-|[<-|[<-|[]]]]; reflexivity. }
  unfold kernG, project3, cenDir, third, gidx, gamma, expmsialpha, cdivr, cconj, cmul, safeNorm, cnorm, owg.
  cbn [ggA ggB ggC ggObj opos ow og1 og2 padd pscale px py pz fst snd].
  repeat (destruct Rlt_dec as [?|NN]; [|exfalso; apply NN; lra]). field.
Qed.
Example C80_example : exactAuto (r3P (triR 0)) [ggA; ggB; ggC] /\
  exactAuto (r3P (sasR Flat 2 2 0 PI)) [ggA; ggB; ggC] /\
  exactCross12 (r3P (triR 0)) O1 ([ggA] ++ [ggB; ggC]) /\ exactCross (r3P (triR 0)) O3 ([ggA] ++ [ggB] ++ [ggC]) /\
  (exists s1, runAutoG (triR 0) [ggA; ggB; ggC] clearedG s1 /\ s1 Gam0r 1%Z = - 4123/23725) /\
  (exists s1, runAutoG (sasR Flat 2 2 0 PI) [ggA; ggB; ggC] clearedG s1) /\
  (exists s1, runCross12G (triR 0) O1 [ggA] [ggB; ggC] clearedG s1) /\
  (exists s1, runCross3G (triR 0) O3 [ggA] [ggB] [ggC] clearedG s1).
Proof.
  assert (X12 : exactCross12 (r3P (triR 0)) O1 ([ggA] ++ [ggB; ggC])).
  { destruct gg_exact as [A [B [C [D|[D _]]]]]; [|pose proof (vs_type _ D); discriminate].
    split; [auto|]. split; [auto|]. split; [auto|]. split; [discriminate|]. left. destruct D as [D1 [D2 [D3 D4]]].
    repeat (split; auto). }
  assert (X3 : exactCross (r3P (triR 0)) O3 ([ggA] ++ [ggB] ++ [ggC])).
  { destruct gg_exact as [A [B [C [D|[D _]]]]]; [|pose proof (vs_type _ D); discriminate].
    split; [auto|]. split; [auto|]. split; [auto|]. left. destruct D as [D1 [D2 [D3 D4]]].
    repeat (split; auto). }
  split; [apply gg_exact|]. split; [apply gg_exactS|]. split; [auto|]. split; [auto|].
  destruct (C80_exists (triR 0) O1 [ggA; ggB; ggC] [ggB] [ggC] clearedG) as [E1 _]; try discriminate.
  destruct (C80_exists (triR 0) O1 [ggA] [ggB; ggC] [ggC] clearedG) as [_ [E2 _]]; try discriminate.
  destruct (C80_exists (triR 0) O3 [ggA] [ggB] [ggC] clearedG) as [_ [_ E3]]; try discriminate.
  destruct (C80_exists (sasR Flat 2 2 0 PI) O1 [ggA; ggB; ggC] [ggB] [ggC] clearedG) as [E4 _]; try discriminate.
  split; [|split; [apply E4, gg_exactS|split; [apply E2; auto|apply E3; auto]]].
  destruct (E1 gg_exact) as [s1 H1]. exists s1. split; auto.
  change Gam0r with (gidx 0 false).
  rewrite (C80_auto (triR 0) 0 false 1 _ _ _ ltac:(lia) gg_exact H1).
  unfold clearedG. cbn [sumTriplesU upairs map app sumR fst snd]. unfold triGam6, triGam1, triGam.
  change (r3P (triR 0)) with (triP 0). change (tbt (triP 0)) with LogRUV. cbv iota.
  destruct gg_sides as [S1 [S2 S3]]. assert (V := triP_valid 0 ltac:(lra)).
  rewrite (sel_one 0 1 ggA ggB ggC); rewrite ?S1, ?S2, ?S3; try lra; auto.
  2:{ unfold ccwSpec, ccwFlat. cbn [ggA ggB ggC ggObj opos px py]. apply Rltb_t; lra. }
  assert (F : forall a b c, ~ (side3 a b c <= side2 a b c <= side1 a b c) -> selTri (triP 0) 1 a b c = false).
  { intros a b c H. destruct (selTri (triP 0) 1 a b c) eqn:E; auto. exfalso. apply H.
    apply andb_true_iff in E as [E _]. apply shape_parts in E; auto. lra. }
  unfold side1, side2, side3 in S1, S2, S3.
  rewrite (F ggA ggC ggB), (F ggB ggA ggC), (F ggB ggC ggA), (F ggC ggA ggB), (F ggC ggB ggA);
    try (unfold side1, side2, side3; rewrite ?(euclid_sym (opos ggB) (opos ggA)), ?(euclid_sym (opos ggC) (opos ggA)),
      ?(euclid_sym (opos ggC) (opos ggB)), ?S1, ?S2, ?S3; lra).
  change (tcoord (triP 0)) with Flat. rewrite gg_val. lra.
Qed.

(** ** C81: on the sky *)
Definition skyP : tparams := mkT Euclidean Sphere LogRUV (1/10) 1 1 (ln 10) 0 1 0 1 1 1 0 0 1 1 1 0.
Definition skyR : runcfg3 := mkR3 skyP Mean 0 0.
Lemma skyP_valid : validRUV skyP.
Proof.
  pose proof ln10_pos. constructor; cbn; auto; try lra; try lia.
  rewrite Rmult_1_l, exp_ln; lra.
Qed.
Definition skO (x y z g1 g2 : R) (i : nat) : obj := mkobj (mkpos x y z) 1 1 1 g1 g2 i.
Definition skA := skO (1/3) (2/3) (2/3) (1/10) (1/5) 0.
Definition skB := skO (2/3) (1/3) (2/3) (-1/10) (1/20) 1.
Definition skC := skO (6/7) (2/7) (3/7) 0 (1/4) 2.
Lemma noTies3 a b c : euclid (opos a) (opos b) <> euclid (opos a) (opos c) ->
  euclid (opos a) (opos b) <> euclid (opos b) (opos c) -> euclid (opos a) (opos c) <> euclid (opos b) (opos c) ->
  noTies [a; b; c].
Proof.
  intros H1 H2 H3 x y z Hx Hy Hz [E1 E2]. unfold side1, side2, side3 in *.
  assert (D : forall o, In o [a; b; c] -> o = a \/ o = b \/ o = c).
  { intros o [<-|[<-|[<-|[]]]]; auto. }
  assert (Z : forall o, euclid (opos o) (opos o) = 0).
  { intro o. apply Rsqr_inj; [apply sqrt_pos|lra|]. unfold Rsqr at 1. rewrite euclid_sq. unfold Rsqr. ring. }
  apply D in Hx, Hy, Hz.
  destruct Hx as [->|[->| ->]], Hy as [->|[->| ->]], Hz as [->|[->| ->]];
    rewrite ?Z, ?(euclid_sym (opos b) (opos a)), ?(euclid_sym (opos c) (opos a)), ?(euclid_sym (opos c) (opos b)) in *;
    first [lra|congruence].
Qed.
Lemma euclid_neq p q r s : euclid p q * euclid p q <> euclid r s * euclid r s -> euclid p q <> euclid r s.
Proof. intros H E. apply H. rewrite E. auto. Qed.
Lemma sk_exact : exactAuto (r3P skyR) [skA; skB; skC].
Proof.
  assert (U : forall o, In o [skA; skB; skC] -> offPole (opos o) /\ unitV (opos o) /\ 0 < px (opos o)).
  { intros o [<-|[<-|[<-|[]]]]; unfold offPole, unitV, dot; cbn; repeat split; lra. }
  split; [reflexivity|]. split; [|split].
  - intros o [<-|[<-|[<-|[]]]]; cbn; lra.
  - simpl. split.
    + intros o Ho. destruct (U o Ho) as [A [B _]]. auto.
    + intros a b c Ha Hb Hc. destruct (U a Ha) as [_ [A1 A2]], (U b Hb) as [_ [B1 B2]], (U c Hc) as [_ [C1 C2]].
      rewrite !sky_id by auto. unfold padd. intro E. injection E as E1 E2 E3. lra.
  - left. split; [apply skyP_valid|]. split; [repeat split; cbn; lra|]. split; [reflexivity|].
    apply noTies3; apply euclid_neq; rewrite !euclid_sq; cbn; lra.
Qed.
Example C81_sky_example : exists th s1 s1',
  rotation cycle3 /\ exactAuto (r3P skyR) [skA; skB; skC] /\
  (forall o, In o [skA; skB; skC] -> offPole (cycle3 (opos o)) /\ turnsBy cycle3 (opos o) (th (opos o))) /\
  runAutoG skyR [skA; skB; skC] clearedG s1 /\
  runAutoG skyR (map (rotSky cycle3 th 2) [skA; skB; skC]) clearedG s1' /\
  forall n im k, (n <= 3)%nat -> s1' (gidx n im) k = s1 (gidx n im) k.
Proof.
  set (th := fun p : pos => angleOf (comps (sky (cycle3 p)) (cycle3 (west (sky p))))). exists th.
  assert (T : forall o, In o [skA; skB; skC] -> offPole (cycle3 (opos o)) /\ turnsBy cycle3 (opos o) (th (opos o))).
  { intros o Ho. assert (O : offPole (cycle3 (opos o))).
    { destruct Ho as [<-|[<-|[<-|[]]]]; unfold offPole, cycle3; cbn; lra. }
    assert (O' : offPole (opos o)).
    { destruct Ho as [<-|[<-|[<-|[]]]]; unfold offPole; cbn; lra. }
    split; auto. destruct (turns_exist cycle3 (opos o) cycle3_rot O' O) as [t Ht].
    unfold turnsBy in Ht |- *. unfold th.
    assert (N : cnorm (comps (sky (cycle3 (opos o))) (cycle3 (west (sky (opos o))))) = 1).
    { rewrite Ht. change (cos t, sin t) with ((cos t, sin t) : cplx). unfold cnorm. cbn [fst snd].
      assert (S := sin2_cos2 t). unfold Rsqr in S. lra. }
    destruct (angleOf_spec (comps (sky (cycle3 (opos o))) (cycle3 (west (sky (opos o)))))) as [d [Hd HE]]; [lra|].
    rewrite HE at 1. rewrite HE in N at 1. set (a := angleOf _) in *.
    assert (DD : d * d = 1).
    { assert (S := sin2_cos2 a). unfold Rsqr in S. unfold cnorm in N. cbn [fst snd] in N.
      replace (_ + _) with (d * d * (sin a * sin a + cos a * cos a)) in N by ring. rewrite S in N. lra. }
    assert (d = 1). { assert (HQ : (d - 1) * (d + 1) = 0) by lra. apply Rmult_integral in HQ as [|]; lra. }
    subst d. f_equal; ring. }
  set (cat' := map (rotSky cycle3 th 2) [skA; skB; skC]).
  assert (X' : exactAuto (r3P skyR) cat').
  { assert (HC : tcoord (r3P skyR) <> Flat) by discriminate.
    destruct (rot_keeps (r3P skyR) cycle3 [skA; skB; skC] HC cycle3_rot) as [K1 K2].
    apply same_exact; [split; intros; [apply K1|apply K2]; auto|reflexivity| |apply sk_exact].
    assert (U : forall o, In o cat' -> offPole (opos o) /\ unitV (opos o) /\ 0 < px (opos o)).
    { intros o [<-|[<-|[<-|[]]]]; unfold offPole, unitV, dot; cbn; repeat split; lra. }
    simpl. split.
    - intros o Ho. destruct (U o Ho) as [A [B _]]. auto.
    - intros a b c Ha Hb Hc. destruct (U a Ha) as [_ [A1 A2]], (U b Hb) as [_ [B1 B2]], (U c Hc) as [_ [C1 C2]].
      rewrite !sky_id by auto. unfold padd. intro E. injection E as E1 E2 E3. lra. }
  destruct (C80_exists skyR O1 [skA; skB; skC] [skB] [skC] clearedG) as [E1 _]; try discriminate.
  destruct (C80_exists skyR O1 cat' [skB] [skC] clearedG) as [E2 _]; try discriminate.
  destruct (E1 sk_exact) as [s1 H1]. destruct (E2 X') as [s1' H2]. exists s1, s1'.
  split; [apply cycle3_rot|]. split; [apply sk_exact|]. split; [exact T|]. split; [auto|]. split; [auto|].
  intros n im k Hn. apply (C81_sky skyR cycle3 th n im k [skA; skB; skC]); auto; [apply sk_exact|discriminate|apply cycle3_rot].
Qed.
(** in the plane: turned shears, the plane turned by t and shifted, the mirror image *)
Example C81_plane_example t tx ty : let cat := [ggA; ggB; ggC] in
  (exists s1, runAutoG (triR 0) (map turn45 cat) clearedG s1) /\
  (exists s1, runAutoG (triR 0) (map (turnedBy t tx ty) cat) clearedG s1) /\
  (exists s1, runAutoG (triR 0) (map mirrored cat) clearedG s1).
Proof.
  cbv zeta.
  assert (X : forall T, sameShape Flat T [ggA; ggB; ggC] \/
     (forall a b, In a [ggA; ggB; ggC] -> In b [ggA; ggB; ggC] -> euclid (opos (T a)) (opos (T b)) = euclid (opos a) (opos b)) ->
     (forall o, ow (T o) = ow o) -> (forall o, In o [ggA; ggB; ggC] -> pz (opos (T o)) = 0) ->
     exists s1, runAutoG (triR 0) (map T [ggA; ggB; ggC]) clearedG s1).
  { intros T HS HW HZ. destruct (C80_exists (triR 0) O1 (map T [ggA; ggB; ggC]) [ggB] [ggC] clearedG) as [E _]; try discriminate.
    apply E. assert (HD : forall a b, In a [ggA; ggB; ggC] -> In b [ggA; ggB; ggC] -> euclid (opos (T a)) (opos (T b)) = euclid (opos a) (opos b)).
    { destruct HS as [[H _]|H]; auto. }
    destruct gg_exact as [A [B [C [D|[D _]]]]]; [|pose proof (vs_type _ D); discriminate].
    split; [auto|]. split; [|split].
    - intros o Ho. apply in_map_iff in Ho as [o' [<- Ho]]. rewrite HW. apply (B o' Ho).
    - intros o Ho. apply in_map_iff in Ho as [o' [<- Ho]]. apply HZ; auto.
    - left. destruct D as [D1 [D2 [D3 D4]]]. repeat (split; auto). intros a b c Ha Hb Hc.
      apply in_map_iff in Ha as [a' [<- Ha]], Hb as [b' [<- Hb]], Hc as [c' [<- Hc]].
      unfold side1, side2, side3. rewrite !HD by auto. apply (D4 a' b' c'); auto. }
  assert (HF : forall o, In o [ggA; ggB; ggC] -> pz (opos o) = 0) by (intros o [<-|[<-|[<-|[]]]]; reflexivity).
  split; [|split]; apply X; auto.
  - left. apply (turned_same (triP 0)); auto.
  - right. apply mirrored_euclid; auto.
Qed.

(** ** C82: the x projection (ProjectX), for shears *)
(** The sum of two unit vectors has the direction of the bisector (or the opposite one). *)
Lemma polar_sum a b : cadd (polar 1 a) (polar 1 b) = polar (2 * cos ((a - b) / 2)) ((a + b) / 2).
Proof.
  unfold cadd, polar. cbn [fst snd].
  assert (A : a = (a + b) / 2 + (a - b) / 2) by field. assert (B : b = (a + b) / 2 - (a - b) / 2) by field.
  set (p := (a + b) / 2) in *. set (q := (a - b) / 2) in *. rewrite A, B, cos_plus, cos_minus, sin_plus, sin_minus.
  apply cplx_eq; cbn [fst snd]; ring.
Qed.
Lemma exp2_polar d a : d <> 0 -> expmsialpha Spin2 (polar d a) = polar 1 (- (2 * a)).
Proof.
  intro Hd. destruct (Rtotal_order d 0) as [L|[E|L]]; [|lra|].
  - change (2 * a) with (spinN Spin2 * a). rewrite <- (expmsialpha_polar Spin2 (- d) a) by lra.
    unfold expmsialpha, polar, cdivr, cconj, cmul, safeNorm, cnorm. cbn [fst snd].
    replace (- d * cos a * (- d * cos a) + - d * sin a * (- d * sin a)) with (d * cos a * (d * cos a) + d * sin a * (d * sin a)) by ring.
    apply cplx_eq; cbn [fst snd]; f_equal; ring.
  - apply (expmsialpha_polar Spin2); auto.
Qed.
Lemma bisect a b : cos ((a - b) / 2) <> 0 ->
  expmsialpha Spin2 (cadd (polar 1 a) (polar 1 b)) = polar 1 (- (a + b)).
Proof.
  intro H. rewrite polar_sum, exp2_polar by (intro E; apply H; lra). f_equal. field.
Qed.
(** In the plane: a2, a3 are the directions from point 1 to points 2 and 3 (not opposite); the
    values at 2 and 3 are projected on these, the one at 1 on the bisector. *)
Theorem C82_flat p1 p2 p3 a2 a3 z1 z2 z3 : isAngle p1 p2 a2 -> isAngle p1 p3 a3 ->
  pz p1 = 0 -> pz p2 = 0 -> pz p3 = 0 -> cos ((a2 - a3) / 2) <> 0 ->
  projectXFlat Spin2 p1 p2 p3 (euclid p1 p3) (euclid p1 p2) z1 z2 z3 =
  (cmul z1 (polar 1 (- (2 * ((a2 + a3) / 2)))), cmul z2 (polar 1 (- (2 * a2))), cmul z3 (polar 1 (- (2 * a3)))).
Proof.
  intros [d [Hd [X2 Y2]]] [e [He [X3 Y3]]] Z1 Z2 Z3 HC.
  assert (D : forall p q w a, 0 < w -> px q - px p = w * cos a -> py q - py p = w * sin a -> pz p = 0 -> pz q = 0 ->
    euclid p q = w).
  { intros p q w a Hw Hx Hy Hp Hq. apply Rsqr_inj; [apply sqrt_pos|lra|]. unfold Rsqr at 1. rewrite euclid_sq, Hp, Hq.
    replace (px p - px q) with (- (w * cos a)) by lra. replace (py p - py q) with (- (w * sin a)) by lra.
    pose proof (sin2_cos2 a) as S. unfold Rsqr in *. transitivity (w * w * (sin a * sin a + cos a * cos a)); [ring|]. rewrite S. ring. }
  rewrite (D p1 p3 e a3), (D p1 p2 d a2) by auto. unfold projectXFlat. rewrite X2, Y2, X3, Y3.
  change ((d * cos a2, d * sin a2) : cplx) with (polar d a2). change ((e * cos a3, e * sin a3) : cplx) with (polar e a3).
  rewrite !div_polar by auto. rewrite bisect by auto. rewrite !exp2_polar by lra.
  replace (2 * ((a2 + a3) / 2)) with (a2 + a3) by field. reflexivity.
Qed.
(** On the sphere: b2, b3 are the directions of the great circles from point 1 at points 2 and 3,
    c2, c3 the directions at point 1 of the great circles from points 2 and 3. *)
Lemma unitDir_polar p1 p2 a : unitV p1 -> unitV p2 -> offPole p2 -> arrives p1 p2 a -> unitDir p1 p2 = polar 1 a.
Proof.
  intros H1 H2 HP [d [Hd E]]. unfold unitDir. rewrite calcDirection_comps, E by auto. assert (A := axis_pos p2 HP).
  replace (cscale (axis p2) (d * cos a, d * sin a)) with (polar (axis p2 * d) a) by (apply cplx_eq; unfold cscale, polar; cbn [fst snd]; ring).
  assert (0 < axis p2 * d) by (apply Rmult_lt_0_compat; auto).
  rewrite safeNorm_polar, sqrt_square by lra. apply div_polar; auto.
Qed.
Lemma dir_arrives p1 p2 a : unitV p1 -> unitV p2 -> offPole p2 -> arrives p1 p2 a ->
  expmsialpha Spin2 (calcDirection p1 p2) = polar 1 (- (2 * a)).
Proof.
  intros H1 H2 HP [d [Hd E]]. rewrite calcDirection_comps, E by auto. assert (A := axis_pos p2 HP).
  rewrite expmsialpha_scale by auto. apply (expmsialpha_polar Spin2); auto.
Qed.
Theorem C82_sphere p1 p2 p3 b2 b3 c2 c3 z1 z2 z3 : unitV p1 -> unitV p2 -> unitV p3 ->
  offPole p1 -> offPole p2 -> offPole p3 ->
  arrives p1 p2 b2 -> arrives p1 p3 b3 -> arrives p2 p1 c2 -> arrives p3 p1 c3 -> cos ((c2 - c3) / 2) <> 0 ->
  projectXSphere Spin2 p1 p2 p3 z1 z2 z3 =
  (cmul z1 (polar 1 (- (2 * ((c2 + c3) / 2)))), cmul z2 (polar 1 (- (2 * b2))), cmul z3 (polar 1 (- (2 * b3)))).
Proof.
  intros U1 U2 U3 O1 O2 O3 A2 A3 B2 B3 HC. unfold projectXSphere, projX1, projX2.
  rewrite (unitDir_polar p2 p1 c2), (unitDir_polar p3 p1 c3), bisect, (dir_arrives p1 p2 b2), (dir_arrives p1 p3 b3) by auto.
  replace (2 * ((c2 + c3) / 2)) with (c2 + c3) by field. reflexivity.
Qed.
(** ProjectHelper<ThreeD>::ProjectX passes the third value twice: the second one is not projected at
    all, the third one is projected on both lines. *)
Theorem C82_threed_refuted : exists p1 p2 p3 z1 z2 z3, unitV p1 /\ unitV p2 /\ unitV p3 /\
  offPole p1 /\ offPole p2 /\ offPole p3 /\
  let '(_, x2, x3) := projectX3D Spin2 p1 p2 p3 z1 z2 z3 in
  let '(_, y2, y3) := projectXSphere Spin2 p1 p2 p3 z1 z2 z3 in
  x2 <> y2 /\ x3 <> y3 /\ x2 = z2.
Proof.
  exists (mkpos (3/5) 0 (4/5)), (mkpos 0 1 0), (mkpos 1 0 0), (1, 0), (1, 0), (1, 0).
  assert (U : forall p, unitV p -> normalize Sphere p = p).
  { intros p H. rewrite normalizeU; [apply sky_id; auto|]. intros ->. unfold unitV, dot in H. cbn in H. lra. }
  assert (U1 : unitV (mkpos (3/5) 0 (4/5))) by (unfold unitV, dot; cbn; lra).
  assert (U2 : unitV (mkpos 0 1 0)) by (unfold unitV, dot; cbn; lra).
  assert (U3 : unitV (mkpos 1 0 0)) by (unfold unitV, dot; cbn; lra).
  do 3 (split; [auto|]). do 3 (split; [unfold offPole; cbn; lra|]).
  unfold projectX3D, projectXSphere. rewrite !U by auto.
  assert (P2 : projX2 Spin2 (mkpos (3/5) 0 (4/5)) (mkpos 0 1 0) = (-7/25, -24/25)).
  { unfold projX2, calcDirection, expmsialpha, cdivr, cconj, cmul, safeNorm, cnorm, normSq, psub. cbn [px py pz fst snd].
    destruct Rlt_dec as [|NN]; [|exfalso; apply NN; lra]. apply cplx_eq; cbn [fst snd]; field. }
  assert (P3 : projX2 Spin2 (mkpos (3/5) 0 (4/5)) (mkpos 1 0 0) = (-1, 0)).
  { unfold projX2, calcDirection, expmsialpha, cdivr, cconj, cmul, safeNorm, cnorm, normSq, psub. cbn [px py pz fst snd].
    destruct Rlt_dec as [|NN]; [|exfalso; apply NN; lra]. apply cplx_eq; cbn [fst snd]; field. }
  rewrite P2, P3. unfold cmul. cbn [fst snd].
  split; [|split; [|reflexivity]]; intro E; injection E; intros; lra.
Qed.
Example C82_example : isAngle (mkpos 0 0 0) (mkpos 2 0 0) 0 /\ isAngle (mkpos 0 0 0) (mkpos 0 3 0) (PI / 2) /\
  cos ((0 - PI / 2) / 2) <> 0 /\ unitV (opos skA) /\ unitV (opos skB) /\ offPole (opos skA) /\ offPole (opos skB) /\
  (exists b, arrives (opos skA) (opos skB) b).
Proof.
  split; [exists 2; rewrite cos_0, sin_0; cbn; lra|]. split; [exists 3; rewrite cos_PI2, sin_PI2; cbn; lra|].
  split.
  { replace ((0 - PI / 2) / 2) with (- (PI / 4)) by field. rewrite cos_neg, cos_PI4.
    apply Rgt_not_eq. apply Rdiv_lt_0_compat; [lra|apply sqrt_lt_R0; lra]. }
  do 2 (split; [unfold unitV, dot; cbn; lra|]). do 2 (split; [unfold offPole; cbn; lra|]).
  apply arrives_exists; try (unfold unitV, dot; cbn; lra); try (unfold offPole; cbn; lra).
  - intro E. injection E; intros; lra.
  - unfold opposite, pscale. cbn. intro E. injection E; intros; lra.
Qed.
