(** LogSAS: three positions on a line. *)
From Coq Require Import Reals Lra Lia List ZArith Bool Permutation Psatz.
From Verif Require Import Base Geometry Tree Traverse Spec GeomFacts SumFacts TreeFacts TravFacts
  MetricFacts Cover Runs Corr3 TriCover TriStop SpecTri TriFacts TriSpec PropsTri TriMirror PropsTri2 Examples PropsTri3
  PropsArc SasGeom SasStop SpecSas SasFacts SasSpec PropsSas PropsSas2 PropsSas3.
Import ListNotations.
Open Scope R_scope.

(** Two bins of d2 and d3, from 1 to e and from e to e^2. *)
Definition colP : tparams := mkT Euclidean Flat LogSAS 1 (1 * exp (2 * 1)) 2 1 0 1 0 PI 1 PI 0 0 1 1 1 0.
Definition colR : runcfg3 := mkR3 colP Mean 0 0.
Lemma colP_valid : validSAS colP.
Proof. pose proof PI_RGT_0. constructor; cbn; auto; try lra; try lia. Qed.
Lemma colP_noSlop : noSlopSAS colP. Proof. repeat split; cbn; lra. Qed.
Definition coA := triObj 0 0 0. Definition coB := triObj 1 0 1. Definition coC := triObj 3 0 2.
Lemma e_b : exp 1 <= 3 < exp (2 * 1).
Proof.
  pose proof exp_le_3. split; [lra|].
  assert (exp (2 * 1) = exp 1 * exp 1) by (rewrite <- exp_plus; f_equal; lra).
  pose proof (exp_ineq1 1 ltac:(lra)). nra.
Qed.
Lemma ln3_b : 1 <= ln 3 < 2.
Proof.
  destruct e_b as [A B]. split.
  - destruct (Rle_dec 1 (ln 3)) as [|N]; auto. exfalso.
    assert (exp (ln 3) < exp 1) by (apply exp_increasing; lra). rewrite exp_ln in H by lra. lra.
  - apply exp_lt_inv. rewrite exp_ln by lra. rewrite <- (Rmult_1_r 2). auto.
Qed.
Lemma colR_field o : buildField (field3 colR) [o] [lf o].
Proof. exists [[o]]. split; [apply top_stop; left; reflexivity|]. constructor; [apply b_leaf|constructor]. Qed.
(** The decision on the leaves (a, y, z) with |az| and |ay| equal to 1 and 3 or 3 and 1. *)
Lemma col_decide y z e2 e3 k : (e2 = 1 /\ e3 = 3 /\ k = 1%Z) \/ (e2 = 3 /\ e3 = 1 /\ k = 2%Z) ->
  exists u v, decide3 colP O1 (lf coA) (lf y) (lf z) 4 (e2 * e2) (e3 * e3) = Direct3 u v k.
Proof.
  intro H. pose proof PI_RGT_0 as PP. destruct e_b as [X1 X2]. destruct ln3_b as [L1 L2].
  assert (Q : 0 < e2 /\ 0 < e3 /\ 1 <= e2 < exp (2 * 1) /\ 1 <= e3 < exp (2 * 1) /\ e2 * e3 = 3 /\
    e2 * e2 + e3 * e3 = 10) by (destruct H as [[-> [-> _]]|[-> [-> _]]]; lra).
  destruct Q as [P2 [P3 [B2 [B3 [EM ES]]]]].
  unfold decide3. change (tbt colP) with LogSAS. cbv iota.
  change (csize (lf coA)) with 0. change (csize (lf y)) with 0. change (csize (lf z)) with 0.
  assert (CP : cosphiOf 4 (e2 * e2) (e3 * e3) = 1).
  { unfold cosphiOf. rewrite !sqrt_square by lra.
    replace (2 * e2 * e3) with 6 by lra. rewrite ES. field. }
  assert (ST : stopSAS colP O1 (getPos (lf coA)) (getPos (lf y)) (getPos (lf z)) 4 (e2 * e2) (e3 * e3) 0 0 0 =
    Some (mkSas e2 e3 1)).
  { unfold stopSAS. rewrite CP, !sqrt_square by lra. change (tminsep colP) with 1. change (tmaxsep colP) with (1 * exp (2 * 1)).
    change (tminu colP) with 0. change (tmaxu colP) with PI. cbn [ord3 andb].
    assert (A1 : Rltb (e2 * e2) (Rsqr 1) = false) by (apply Rltb_f; unfold Rsqr; nra).
    assert (A2 : Rltb (e3 * e3) (Rsqr 1) = false) by (apply Rltb_f; unfold Rsqr; nra).
    assert (A3 : Rleb (Rsqr (1 * exp (2 * 1))) (e2 * e2) = false) by (apply Rleb_f; unfold Rsqr; nra).
    assert (A4 : Rleb (Rsqr (1 * exp (2 * 1))) (e3 * e3) = false) by (apply Rleb_f; unfold Rsqr; nra).
    rewrite A1, A2, A3, A4. rewrite (Reqb_f 4 0), (Reqb_f (e2 * e2) 0), (Reqb_f (e3 * e3) 0) by nra.
    rewrite !andb_false_r. cbn [andb orb].
    rewrite (Rleb_f e3 (0 + 0)), (Rleb_f e2 (0 + 0)), (Rltb_f 0 0), (Rltb_f PI PI) by lra. cbn [andb].
    destruct (Rleb 4 (Rsqr (0 + 0))); reflexivity. }
  rewrite ST.
  assert (SG : singleSAS colP 4 (mkSas e2 e3 1) 0 0 0 = None).
  { unfold singleSAS. rewrite !(Rltb_f 0 0) by lra. reflexivity. }
  rewrite SG. cbn [sd2 sd3 scos].
  assert (RG : rangeSAS colP O1 (getPos (lf coA)) (getPos (lf y)) (getPos (lf z)) e2 e3 1 = Some (0, 1, k)).
  { unfold rangeSAS. change (tminsep colP) with 1. change (tmaxsep colP) with (1 * exp (2 * 1)).
    change (tminu colP) with 0. change (tmaxu colP) with PI. change (tbinsize colP) with 1.
    change (tnbins colP) with 2%Z. change (tnubins colP) with 1%Z. change (tubinsize colP) with PI.
    change (tntot colP) with 4%Z.
    rewrite (Rltb_f 1 1) by lra. rewrite andb_false_r. rewrite (Rleb_f 1 (-1)) by lra.
    rewrite (Rltb_f e2 1), (Rltb_f e3 1), (Rleb_f (1 * exp (2 * 1)) e2), (Rleb_f (1 * exp (2 * 1)) e3) by lra.
    cbn [orb ord3 andb]. rewrite (Rltb_f 0 0), (Rleb_f PI 0) by lra. cbn [orb].
    assert (KP : floorGe ((0 - 0) / PI) 1 = 0%Z).
    { replace ((0 - 0) / PI) with 0 by (field; lra). rewrite floorGe_in by lra. apply floor_iff. simpl. lra. }
    assert (K1 : floorTo ((ln 1 - ln 1) / 1) 2 = 0%Z).
    { replace ((ln 1 - ln 1) / 1) with 0 by (field; lra). rewrite floorTo_in by lra. apply floor_iff. simpl. lra. }
    assert (K3 : floorTo ((ln 3 - ln 1) / 1) 2 = 1%Z).
    { rewrite ln_1. replace ((ln 3 - 0) / 1) with (ln 3) by (field; lra). rewrite floorTo_in by lra.
      apply floor_iff. simpl. lra. }
    rewrite KP. destruct H as [[-> [-> ->]]|[-> [-> ->]]]; rewrite K1, K3; reflexivity. }
  rewrite RG. eauto.
Qed.
Lemma col_run y z e2 e3 k : ow y = 1 -> ow z = 1 -> py (opos y) = 0 -> py (opos z) = 0 ->
  side1 coA y z = 2 -> side2 coA y z = e3 -> side3 coA y z = e2 ->
  (e2 = 1 /\ e3 = 3 /\ k = 1%Z) \/ (e2 = 3 /\ e3 = 1 /\ k = 2%Z) ->
  exists s1, runCross3 colR O1 [coA] [y] [z] cleared3 s1 /\
    forall j, s1 TNtri j = if (j =? k)%Z then 1 else 0.
Proof.
  intros W2 W3 Y2 Y3 S1 S2 S3 H.
  destruct (col_decide z y e2 e3 k H) as [u [v HD]].
  set (e := mkev3 (lf coA) (lf z) (lf y) (sqrt 4) (sqrt (e2 * e2)) (sqrt (e3 * e3)) u v k).
  assert (ER : run111 colP O1 (lf coA) (lf y) (lf z) = Some [e]).
  { unfold run111. change (fuel3 (lf coA) (lf y) (lf z)) with 0%nat. cbn [process111].
    change (getW (lf y)) with (ow y). change (getW (lf z)) with (ow z). change (getW (lf coA)) with 1.
    rewrite W2, W3, !(Reqb_f 1 0) by lra. cbn [orb]. rewrite (Reqb_t 0 0) by auto.
    change (tbt colP) with LogSAS. change (tmetric colP) with Euclidean. change (tcoord colP) with Flat. cbv zeta.
    change (getPos (lf coA)) with (opos coA). change (getPos (lf y)) with (opos y). change (getPos (lf z)) with (opos z).
    rewrite !distSq_euc. change (euclid (opos y) (opos z)) with (side1 coA y z).
    change (euclid (opos coA) (opos z)) with (side2 coA y z). change (euclid (opos coA) (opos y)) with (side3 coA y z).
    rewrite S1, S2, S3.
    assert (CW : ccw Euclidean Flat (opos coA) (opos z) (opos y) = false).
    { unfold ccw, wrapM, cross, psub. cbn [coA triObj opos px py pz]. rewrite Y2, Y3. apply Rltb_f. lra. }
    rewrite CW. cbn [negb]. replace (2 * 2) with 4 by lra. rewrite HD. reflexivity. }
  exists (parallel3 cleared3 [[[e]]]). split.
  - exists [lf coA], [lf y], [lf z]. split; [apply colR_field|]. split; [apply colR_field|]. split; [apply colR_field|].
    exists [[e]], [[[e]]]. split; [|split; [|reflexivity]].
    + cbn [cross3Iters map]. change (r3P colR) with colP. rewrite ER. reflexivity.
    + unfold schedule. simpl. auto.
  - intro j. unfold parallel3, thread3. cbn [fold_left]. unfold acc3Add, finish3, cleared3. cbn [tk e].
    unfold tval. cbn [tc1 tc2 tc3]. cbn. destruct (j =? k)%Z; lra.
Qed.
(** For three positions on a line the place depends on the order in which the second and third
    catalogs are given, although ordered='no' for these two. *)
Theorem C79_collinear_refuted : exists R cat1 cat2 cat3 s s' k,
  validSAS (r3P R) /\ noSlopSAS (r3P R) /\ tmetric (r3P R) = Euclidean /\ tminu (r3P R) = 0 /\ tmaxu (r3P R) = PI /\
  weights3 TNtri (cat1 ++ cat2 ++ cat3) /\
  runCross3 R O1 cat1 cat2 cat3 cleared3 s /\ runCross3 R O1 cat1 cat3 cat2 cleared3 s' /\
  s TNtri k = 1 /\ s' TNtri k = 0.
Proof.
  destruct (col_run coB coC 1 3 1) as [s [Rs Hs]]; auto;
    try (unfold side1, side2, side3; cbn [coA coB coC triObj opos]; apply euc; lra).
  destruct (col_run coC coB 3 1 2) as [s' [Rs' Hs']]; auto;
    try (unfold side1, side2, side3; cbn [coA coB coC triObj opos]; apply euc; lra).
  exists colR, [coA], [coB], [coC], s, s', 1%Z.
  split; [apply colP_valid|]. split; [apply colP_noSlop|]. split; [reflexivity|]. split; [reflexivity|].
  split; [reflexivity|]. split; [intros o [<-|[<-|[<-|[]]]]; cbn; lra|]. split; [auto|]. split; [auto|].
  rewrite Hs, Hs'. auto.
Qed.
