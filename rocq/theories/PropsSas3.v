(** LogSAS: where the sums miss triangles even with bin_slop=0. *)
From Coq Require Import Reals Lra Lia List ZArith Bool Permutation Psatz.
From Verif Require Import Base Geometry Tree Traverse Spec GeomFacts SumFacts TreeFacts TravFacts
  MetricFacts Cover Runs Corr3 TriCover TriStop SpecTri TriFacts TriSpec PropsTri TriMirror PropsTri2 Examples PropsTri3
  PropsArc SasGeom SasStop SpecSas SasFacts SasSpec PropsSas PropsSas2.
Import ListNotations.
Open Scope R_scope.

(** A catalog of two rows makes one top-level cell with two children. *)
Lemma two_field C m b p q x y : 0 < calculateSizeSq (centroid C [x; y]) [x; y] ->
  exists t, buildField (field3 (sasR C m b p q)) [x; y] [t] /\
    getPos t = centroid C [x; y] /\ csize t = sqrt (calculateSizeSq (centroid C [x; y]) [x; y]) /\
    getW t = ow x + (ow y + 0).
Proof.
  intro H. set (F := field3 (sasR C m b p q)).
  assert (HM : fminsize F = 0).
  { unfold F, field3, minMaxSize3. cbn [sasR r3P sasP tmetric tbt ta tb tbu tminsep tminu fst fminsize].
    rewrite (Rmin_right 1 0) by lra. unfold Rdiv. rewrite !Rmult_0_r, !Rmult_0_l. apply Rmin_left. lra. }
  destruct (builds_exists C Mean (0 * 0) false [x; y] ltac:(discriminate)) as [t Ht].
  exists t. split.
  - exists [[x; y]]. split; [apply top_stop; right; right; cbn; lia|].
    constructor; [|constructor]. rewrite HM. exact Ht.
  - inversion Ht as [o E1 E2|l L Rr cl cr H1 H2 H3 H4 H5 E1 E2|l H1 H2 E1 E2]; subst.
    + split; [reflexivity|]. split; reflexivity.
    + exfalso. lra.
Qed.
Lemma one_field C m b p q x : buildField (field3 (sasR C m b p q)) [x] [lf x].
Proof.
  exists [[x]]. split; [apply top_stop; left; reflexivity|]. constructor; [apply b_leaf|constructor].
Qed.
(** Nothing is added when every iteration is empty. *)
Lemma empty_run : processIters [Some []] cleared3 (parallel3 cleared3 [[[]]]) /\
  forall f k, parallel3 cleared3 [[[]]] f k = 0.
Proof.
  split.
  - exists [[]], [[[]]]. split; [reflexivity|]. split; [|reflexivity]. unfold schedule. simpl. auto.
  - intros f k. unfold parallel3, thread3, acc3Add, cleared3. simpl. lra.
Qed.
Lemma cent2 C x1 y1 z1 w1 i1 x2 y2 z2 w2 i2 x y z : C <> Sphere -> w1 + w2 <> 0 ->
  w1 * x1 + w2 * x2 = (w1 + w2) * x -> w1 * y1 + w2 * y2 = (w1 + w2) * y ->
  w1 * z1 + w2 * z2 = (w1 + w2) * z ->
  centroid C [mkobj (mkpos x1 y1 z1) w1 w1 1 0 0 i1; mkobj (mkpos x2 y2 z2) w2 w2 1 0 0 i2] = mkpos x y z.
Proof.
  intros HC HW EX EY EZ. unfold centroid. cbn [sumR owpos opos px py pz]. rewrite !Rplus_0_r.
  destruct Req_EM_T; [contradiction|]. rewrite EX, EY, EZ.
  destruct C; try congruence; unfold normalize, pscale; cbn [px py pz]; apply f_equal3; field; auto.
Qed.

(** ** min_phi > 0: a cell is dropped in process12 although it holds both far corners *)
Definition mpA := triObj 0 0 0. Definition mpB := triObj 0 1 1. Definition mpC := triObj 1 0 2.
Theorem C79_minphi_refuted : exists R cat1 cat2 s1,
  validSAS (r3P R) /\ noSlopSAS (r3P R) /\ tmetric (r3P R) = Euclidean /\ tcoord (r3P R) = Flat /\
  tminu (r3P R) <= 2 * PI / 3 /\ PI / 3 <= tmaxu (r3P R) /\
  weights3 TNtri (cat1 ++ cat2) /\ oriented Flat (cat1 ++ cat2) /\
  runCross12 R O1 cat1 cat2 cleared3 s1 /\ s1 TNtri 0%Z = 0 /\
  sumPairs12 (sas1 (r3P R) TNtri 0) cat1 cat2 = 1.
Proof.
  pose proof PI2_3_2 as P3. pose proof PI_4 as P4.
  assert (E1 : 2 < exp 1) by (pose proof (exp_ineq1 1 ltac:(lra)); lra).
  assert (SD : side1 mpA mpB mpC = sqrt 2 /\ side2 mpA mpB mpC = 1 /\ side3 mpA mpB mpC = 1).
  { repeat split; unfold side1, side2, side3, mpA, mpB, mpC, triObj; cbn [opos]; apply euc; try lra; try apply sqrt_pos.
    rewrite sqrt_sqrt; lra. }
  destruct SD as [S1 [S2 S3]].
  assert (Q2 : 0 < sqrt 2) by (apply sqrt_lt_R0; lra).
  assert (Q : sqrt 2 * sqrt 2 = 2) by (apply sqrt_sqrt; lra).
  assert (EC : centroid Flat [mpB; mpC] = mkpos (1/2) (1/2) 0).
  { apply cent2; try discriminate; lra. }
  assert (EZ : calculateSizeSq (centroid Flat [mpB; mpC]) [mpB; mpC] = 1 / 2).
  { rewrite EC. cbn [calculateSizeSq mpB mpC triObj opos]. unfold normSq, psub. cbn [px py pz].
    rewrite (Rmax_left _ 0) by nra. rewrite Rmax_left; lra. }
  destruct (two_field Flat 1 1 (PI / 2) PI mpB mpC ltac:(rewrite EZ; lra)) as [t [HF [HP [HS HW]]]].
  rewrite EZ in HS.
  assert (HS' : csize t < 3 / 4).
  { rewrite HS. apply Rsqr_incrst_0; [|apply sqrt_pos|lra]. unfold Rsqr. rewrite sqrt_sqrt; lra. }
  destruct empty_run as [HE H0].
  exists (sasR Flat 1 1 (PI / 2) PI), [mpA], [mpB; mpC], (parallel3 cleared3 [[[]]]).
  split; [apply sasP_valid; lra|]. split; [apply sasP_noSlop|]. split; [reflexivity|]. split; [reflexivity|].
  split; [cbn; lra|]. split; [cbn; lra|].
  split; [intros o [<-|[<-|[<-|[]]]]; cbn; lra|]. split.
  { assert (D : forall o, In o ([mpA] ++ [mpB; mpC]) -> o = mpA \/ o = mpB \/ o = mpC).
    { intros o [<-|[<-|[<-|[]]]]; auto. }
    assert (Z : forall o, euclid (opos o) (opos o) = 0).
    { intro o. apply Rsqr_inj; [apply sqrt_pos|lra|]. unfold Rsqr at 1. rewrite euclid_sq. unfold Rsqr. ring. }
    intros a b c Ha Hb Hc. unfold side1, side2, side3. intros T1 T2 T3.
    apply D in Ha, Hb, Hc. unfold ccwSpec, ccwFlat.
    destruct Ha as [->|[->| ->]], Hb as [->|[->| ->]], Hc as [->|[->| ->]];
      try (exfalso; rewrite Z in *; lra);
      cbn [mpA mpB mpC triObj opos px py];
      first [left; apply Rltb_t; lra|right; apply Rltb_t; lra]. }
  split.
  - exists [lf mpA], [t]. split; [apply one_field|]. split; [exact HF|].
    cbn [cross12Iters map over2]. change (r3P (sasR Flat 1 1 (PI / 2) PI)) with (sasP Flat 1 1 (PI / 2) PI).
    assert (EQ : run12 (sasP Flat 1 1 (PI / 2) PI) O1 (lf mpA) t = Some []).
    { unfold run12.
      assert (X : tooSmallS2 (sasP Flat 1 1 (PI / 2) PI) (csize t) = true).
      { unfold tooSmallS2, thalfminsep. cbn [sasP tminsep tminu]. rewrite (Rltb_t (csize t)) by lra. apply orb_true_r. }
      destruct (depth (lf mpA) + depth t)%nat; cbn [process12]; rewrite X;
        destruct (Reqb (getW (lf mpA)) 0 || Reqb (getW t) 0); reflexivity. }
    rewrite EQ. cbn [oapp oconcat map]. exact HE.
  - split; [apply H0|]. unfold sumPairs12. cbn [upairs map app sumR fst snd]. unfold sas1.
    change (r3P (sasR Flat 1 1 (PI / 2) PI)) with (sasP Flat 1 1 (PI / 2) PI).
    assert (A : sas (sasP Flat 1 1 (PI / 2) PI) TNtri 0 mpA mpB mpC = 1).
    { unfold sas. rewrite sel0; auto; rewrite ?S1, ?S2, ?S3; try lra.
      - rewrite (angle_val mpA mpB mpC 0); rewrite ?S2, ?S3; [rewrite acos_0; lra|lra|].
        cbn [mpA mpB mpC triObj opos px py pz]. lra.
      - unfold ccwSpec, ccwFlat. cbn [mpA mpB mpC triObj opos px py]. apply Rltb_t. lra. }
    assert (B : sas (sasP Flat 1 1 (PI / 2) PI) TNtri 0 mpA mpC mpB = 0).
    { apply sel0_wrong. unfold ccwSpec, ccwFlat. cbn [mpA mpB mpC triObj opos px py]. apply Rltb_f. lra. }
    rewrite A, B. lra.
Qed.

(** ** A node at the apex is dropped *)
Lemma drop_run C m b p q t y z s1 d1 d2 d3 : getW t <> 0 -> ow y <> 0 -> ow z <> 0 -> csize t = s1 ->
  0 <= d1 -> 0 <= d2 -> 0 <= d3 ->
  normSq (psub (opos y) (opos z)) = d1 * d1 -> normSq (psub (getPos t) (opos z)) = d2 * d2 ->
  normSq (psub (getPos t) (opos y)) = d3 * d3 ->
  stopSAS (sasP C m b p q) O3 (getPos t) (opos y) (opos z) (d1 * d1) (d2 * d2) (d3 * d3) s1 0 0 = None ->
  cross3Iters (sasP C m b p q) O3 [t] [lf y] [lf z] = [Some []].
Proof.
  intros W1 W2 W3 HS N1 N2 N3 D1 D2 D3 ST. cbn [cross3Iters map].
  assert (E : run111 (sasP C m b p q) O3 t (lf y) (lf z) = Some []).
  { assert (X : decide3 (sasP C m b p q) O3 t (lf y) (lf z) (d1 * d1) (d2 * d2) (d3 * d3) = Drop3).
    { unfold decide3. change (tbt (sasP C m b p q)) with LogSAS. cbv iota.
      change (csize (lf y)) with 0. change (csize (lf z)) with 0. rewrite HS.
      change (getPos (lf y)) with (opos y). change (getPos (lf z)) with (opos z). rewrite ST. reflexivity. }
    unfold run111. destruct (fuel3 t (lf y) (lf z)); cbn [process111].
    all: change (getW (lf y)) with (ow y); change (getW (lf z)) with (ow z).
    all: rewrite (Reqb_f (getW t) 0), (Reqb_f (ow y) 0), (Reqb_f (ow z) 0) by auto; cbn [orb].
    all: rewrite (Reqb_t 0 0) by auto; change (tmetric (sasP C m b p q)) with Euclidean; cbv zeta.
    all: change (tbt (sasP C m b p q)) with LogSAS; cbv iota.
    all: change (getPos (lf y)) with (opos y); change (getPos (lf z)) with (opos z); unfold distSq.
    all: rewrite D1, D2, D3, X; reflexivity. }
  rewrite E. reflexivity.
Qed.
(** stop111 without its first seven tests. *)
Lemma stop_late C m b p q p1 p2 p3 d1 d2 d3 s1 : 0 < s1 -> 0 < d1 -> m <= d2 < m * exp b -> m <= d3 < m * exp b ->
  s1 < d2 -> s1 < d3 -> 0 < m ->
  stopSAS (sasP C m b p q) O3 p1 p2 p3 (d1 * d1) (d2 * d2) (d3 * d3) s1 0 0 =
  let cosphi := cosphiOf (d1 * d1) (d2 * d2) (d3 * d3) in
  let go := Some (mkSas d2 d3 cosphi) in
  let P := sasP C m b p q in
  if negb (ccw Euclidean C p1 p3 p2) then if wrongWay d2 d3 s1 0 0 cosphi then None else go else
  let rest :=
    if Rltb q PI && Rltb cosphi (mincosphi P)
    then match rotCos (-1) (- mincosphi P) (- ssq (mincosphi P)) (ssq (maxcosphi P)) d2 d3 s1 0 0 cosphi with
         | None => go
         | Some cosphimin => if Rltb cosphimin (mincosphi P) then None else go
         end
    else go in
  if Rltb 0 p && Rltb (maxcosphi P) cosphi
  then match rotCos 1 (maxcosphi P) (ssq (maxcosphi P)) (ssq (maxcosphi P)) d2 d3 s1 0 0 cosphi with
       | None => go
       | Some cosphimax => if Rltb (maxcosphi P) cosphimax then None else rest
       end
  else rest.
Proof.
  intros H1 H2 H3 H4 H5 H6 H7. unfold stopSAS. rewrite !sqrt_square by lra.
  change (tminsep (sasP C m b p q)) with m. change (tmaxsep (sasP C m b p q)) with (m * exp b).
  change (tminu (sasP C m b p q)) with p. change (tmaxu (sasP C m b p q)) with q.
  change (tmetric (sasP C m b p q)) with Euclidean. change (tcoord (sasP C m b p q)) with C.
  assert (Q : forall x y, 0 <= x <= y -> x * x <= y * y) by (intros; nra).
  assert (Q' : forall x y, 0 <= x < y -> x * x < y * y) by (intros; nra).
  assert (A1 : Rltb (d2 * d2) (Rsqr m) = false) by (apply Rltb_f; unfold Rsqr; specialize (Q m d2); lra).
  assert (A2 : Rltb (d3 * d3) (Rsqr m) = false) by (apply Rltb_f; unfold Rsqr; specialize (Q m d3); lra).
  assert (A3 : Rleb (Rsqr (m * exp b)) (d2 * d2) = false)
    by (apply Rleb_f; unfold Rsqr; specialize (Q' d2 (m * exp b)); lra).
  assert (A4 : Rleb (Rsqr (m * exp b)) (d3 * d3) = false)
    by (apply Rleb_f; unfold Rsqr; specialize (Q' d3 (m * exp b)); lra).
  rewrite A1, A2, A3, A4.
  rewrite (Reqb_f (d1 * d1) 0), (Reqb_f s1 0) by nra. rewrite !andb_false_r. cbn [andb orb].
  rewrite (Rleb_f d3 (s1 + 0)), (Rleb_f d2 (s1 + 0)) by lra. cbn [ord3 andb].
  assert (E : Rleb (d1 * d1) (Rsqr (0 + 0)) = false) by (apply Rleb_f; unfold Rsqr; nra).
  rewrite E. cbn [andb]. reflexivity.
Qed.
Lemma sinOf c s : 0 <= s -> c * c + s * s = 1 -> sqrt (1 - c * c) = s.
Proof. intros H E. replace (1 - c * c) with (s * s) by lra. apply sqrt_square; auto. Qed.
(** The turned angle when both far corners are objects at the same distance. *)
Lemma rot_val sg lim limsq lim3 d s1 sd cd c s : 0 < s1 -> 0 < d -> s1 = sd * d -> 0 <= cd -> 0 <= s ->
  sd * sd + cd * cd = 1 -> c * c + s * s = 1 ->
  limsq <= cd * cd -> lim <= cd * cd - sd * sd ->
  rotCos sg lim limsq lim3 d d s1 0 0 c = Some (c * (cd * cd - sd * sd) - sg * (s * (sd * cd + sd * cd))).
Proof.
  intros H1 H2 H3 H4 H5 H6 H7 H8 H9. unfold rotCos. rewrite !Rplus_0_r.
  assert (ES : s1 / d = sd) by (rewrite H3; field; lra). rewrite ES.
  rewrite (Rltb_t 0 s1) by lra. unfold Rsqr.
  replace (1 - sd * sd) with (cd * cd) by lra. rewrite (Rltb_f (cd * cd) limsq) by lra.
  rewrite sqrt_square by auto. rewrite (Rltb_f _ lim) by lra. rewrite (sinOf c s) by auto. reflexivity.
Qed.
Lemma cos_PI6' : cos (PI / 6) = sqrt 3 / 2. Proof. apply cos_PI6. Qed.
Lemma sqrt3_b : 17 / 10 < sqrt 3 < 18 / 10 /\ sqrt 3 * sqrt 3 = 3.
Proof.
  assert (E : sqrt 3 * sqrt 3 = 3) by (apply sqrt_sqrt; lra). pose proof (sqrt_pos 3). split; [split; nra|auto].
Qed.
Definition wObj (x y z w : R) (i : nat) : obj := mkobj (mkpos x y z) w w 1 0 0 i.

(** max_phi below 60 degrees *)
Definition xA1 := wObj (-12) 0 0 1 0. Definition xA2 := wObj 12 0 0 1 1.
Definition xB := wObj 12 5 0 1 2. Definition xC := wObj 12 (-5) 0 1 3.
Theorem C79_maxphi_refuted : exists R cat1 cat2 cat3 s1,
  validSAS (r3P R) /\ noSlopSAS (r3P R) /\ tmetric (r3P R) = Euclidean /\ tcoord (r3P R) = Flat /\
  tminu (r3P R) = 0 /\ tmaxu (r3P R) = PI / 6 /\
  weights3 TNtri (cat1 ++ cat2 ++ cat3) /\ (forall o, In o (cat1 ++ cat2 ++ cat3) -> pz (opos o) = 0) /\
  runCross3 R O3 cat1 cat2 cat3 cleared3 s1 /\ s1 TNtri 0%Z = 0 /\
  sumTriples (sas (r3P R) TNtri 0) cat1 cat2 cat3 = 1.
Proof.
  pose proof PI_RGT_0 as PP. destruct sqrt3_b as [B3 E3].
  assert (E4 : 5 < exp 4) by (pose proof (exp_ineq1 4 ltac:(lra)); lra).
  assert (EC : centroid Flat [xA1; xA2] = mkpos 0 0 0) by (apply cent2; try discriminate; lra).
  assert (EZ : calculateSizeSq (centroid Flat [xA1; xA2]) [xA1; xA2] = 12 * 12).
  { rewrite EC. cbn [calculateSizeSq xA1 xA2 wObj opos]. unfold normSq, psub. cbn [px py pz].
    rewrite (Rmax_left _ 0) by nra. rewrite Rmax_left; lra. }
  destruct (two_field Flat 6 4 0 (PI / 6) xA1 xA2 ltac:(rewrite EZ; lra)) as [t [HF [HP [HS HW]]]].
  rewrite EZ, sqrt_square in HS by lra. rewrite EC in HP.
  assert (MN : mincosphi (sasP Flat 6 4 0 (PI / 6)) = sqrt 3 / 2).
  { unfold mincosphi. cbn [sasP tminu tmaxu]. rewrite (Rltb_f PI (PI / 6)) by lra. rewrite andb_false_r.
    rewrite cos_0, cos_PI6. apply Rmin_right. lra. }
  destruct empty_run as [HE H0].
  exists (sasR Flat 6 4 0 (PI / 6)), [xA1; xA2], [xB], [xC], (parallel3 cleared3 [[[]]]).
  split; [apply sasP_valid; lra|]. split; [apply sasP_noSlop|]. split; [reflexivity|]. split; [reflexivity|].
  split; [reflexivity|]. split; [reflexivity|].
  split; [intros o [<-|[<-|[<-|[<-|[]]]]]; cbn; lra|].
  split; [intros o [<-|[<-|[<-|[<-|[]]]]]; reflexivity|]. split.
  - exists [t], [lf xB], [lf xC]. split; [exact HF|]. split; [apply one_field|]. split; [apply one_field|].
    change (r3P (sasR Flat 6 4 0 (PI / 6))) with (sasP Flat 6 4 0 (PI / 6)).
    rewrite (drop_run Flat 6 4 0 (PI / 6) t xB xC 12 10 13 13); [exact HE|..]; try lra; auto.
    + rewrite HW. cbn. lra.
    + cbn. lra.
    + cbn. lra.
    + unfold normSq, psub. cbn [xB xC wObj opos px py pz]. lra.
    + rewrite HP. unfold normSq, psub. cbn [xB xC wObj opos px py pz]. lra.
    + rewrite HP. unfold normSq, psub. cbn [xB xC wObj opos px py pz]. lra.
    + rewrite HP, stop_late by nra. cbv zeta.
      assert (CW : ccw Euclidean Flat (mkpos 0 0 0) (opos xC) (opos xB) = true).
      { unfold ccw, wrapM, cross, psub. cbn [xB xC wObj opos px py pz]. apply Rltb_t. lra. }
      rewrite CW. cbn [negb]. rewrite (Rltb_f 0 0) by lra. cbn [andb]. rewrite (Rltb_t (PI / 6) PI) by lra.
      assert (CP : cosphiOf (10 * 10) (13 * 13) (13 * 13) = 119 / 169).
      { unfold cosphiOf. rewrite !sqrt_square by lra. field. }
      rewrite CP, MN. rewrite (Rltb_t (119 / 169)) by lra. cbn [andb].
      rewrite (rot_val (-1) _ _ _ 13 12 (12 / 13) (5 / 13) (119 / 169) (120 / 169)); try lra.
      * rewrite Rltb_t by lra. reflexivity.
      * unfold ssq. destruct Rlt_dec; nra.
  - split; [apply H0|]. unfold sumTriples. cbn [sumR].
    change (r3P (sasR Flat 6 4 0 (PI / 6))) with (sasP Flat 6 4 0 (PI / 6)).
    assert (Q : sqrt 601 * sqrt 601 = 601) by (apply sqrt_sqrt; lra).
    assert (Q2 : 24 < sqrt 601 < 25) by (pose proof (sqrt_pos 601); split; nra).
    assert (T1 : side1 xA1 xB xC = 10 /\ side2 xA1 xB xC = sqrt 601 /\ side3 xA1 xB xC = sqrt 601).
    { repeat split; unfold side1, side2, side3; cbn [xA1 xB xC wObj opos]; apply euc; lra. }
    destruct T1 as [S1 [S2 S3]].
    assert (A : sas (sasP Flat 6 4 0 (PI / 6)) TNtri 0 xA1 xB xC = 1).
    { unfold sas. rewrite sel0; auto; rewrite ?S1, ?S2, ?S3; try lra.
      - rewrite (angle_val xA1 xB xC (551 / 601)); rewrite ?S2, ?S3; try lra.
        + pose proof (acos_bound (551 / 601)). split; [lra|].
          destruct (Rlt_dec (acos (551 / 601)) (PI / 6)) as [L|L]; auto. exfalso.
          assert (X : cos (acos (551 / 601)) <= cos (PI / 6)) by (apply cos_decr_1; lra).
          rewrite cos_acos, cos_PI6 in X by lra. lra.
        + rewrite Q. cbn [xA1 xB xC wObj opos px py pz]. lra.
      - unfold ccwSpec, ccwFlat. cbn [xA1 xB xC wObj opos px py]. apply Rltb_t. lra. }
    assert (B : sas (sasP Flat 6 4 0 (PI / 6)) TNtri 0 xA2 xB xC = 0).
    { unfold sas. destruct (selSAS (sasP Flat 6 4 0 (PI / 6)) 0 xA2 xB xC) eqn:E; auto. exfalso.
      apply selSAS_iff in E; [|apply sasP_valid; lra]. destruct E as [_ [_ [[_ [_ [_ [_ [_ [E _]]]]]] _]]].
      assert (X : side2 xA2 xB xC = 5) by (unfold side2; cbn [xA2 xB xC wObj opos]; apply euc; lra).
      rewrite X in E. apply floor_iff in E as [E _]. change (k2Of (sasP Flat 6 4 0 (PI / 6)) 0) with 0%Z in E.
      cbn [sasP tminsep tbinsize] in E.
      apply (log_iff 6 4 5 0) in E; try lra. rewrite Rmult_0_l, exp_0 in E. lra. }
    rewrite A, B. lra.
Qed.

(** min_phi above 120 degrees *)
Definition yA1 := wObj 4 0 0 3 0. Definition yA2 := wObj (-12) 0 0 1 1.
Definition yB := wObj 5 12 0 1 2. Definition yC := wObj 5 (-12) 0 1 3.
Lemma cos_56 : cos (5 * PI / 6) = - (sqrt 3 / 2).
Proof. replace (5 * PI / 6) with (- (PI / 6) + PI) by field. rewrite neg_cos, cos_neg, cos_PI6. reflexivity. Qed.
Theorem C79_obtuse_refuted : exists R cat1 cat2 cat3 s1,
  validSAS (r3P R) /\ noSlopSAS (r3P R) /\ tmetric (r3P R) = Euclidean /\ tcoord (r3P R) = Flat /\
  tminu (r3P R) = 5 * PI / 6 /\ tmaxu (r3P R) = PI /\
  weights3 TNtri (cat1 ++ cat2 ++ cat3) /\ (forall o, In o (cat1 ++ cat2 ++ cat3) -> pz (opos o) = 0) /\
  runCross3 R O3 cat1 cat2 cat3 cleared3 s1 /\ s1 TNtri 0%Z = 0 /\
  sumTriples (sas (r3P R) TNtri 0) cat1 cat2 cat3 = 1.
Proof.
  pose proof PI_RGT_0 as PP. destruct sqrt3_b as [B3 E3].
  assert (E4 : 2 < exp 1) by (pose proof (exp_ineq1 1 ltac:(lra)); lra).
  assert (EC : centroid Flat [yA1; yA2] = mkpos 0 0 0) by (apply cent2; try discriminate; lra).
  assert (EZ : calculateSizeSq (centroid Flat [yA1; yA2]) [yA1; yA2] = 12 * 12).
  { rewrite EC. cbn [calculateSizeSq yA1 yA2 wObj opos]. unfold normSq, psub. cbn [px py pz].
    rewrite (Rmax_left _ 0) by nra. rewrite Rmax_right; lra. }
  set (p := 5 * PI / 6).
  assert (Hp : p = 5 * PI / 6) by reflexivity.
  destruct (two_field Flat 12 1 p PI yA1 yA2 ltac:(rewrite EZ; lra)) as [t [HF [HP [HS HW]]]].
  rewrite EZ, sqrt_square in HS by lra. rewrite EC in HP.
  assert (MX : maxcosphi (sasP Flat 12 1 p PI) = - (sqrt 3 / 2)).
  { unfold maxcosphi. cbn [sasP tminu tmaxu]. rewrite (Rltb_f p 0) by lra. cbn [andb].
    rewrite cos_PI. unfold p. rewrite cos_56. apply Rmax_left. lra. }
  destruct empty_run as [HE H0].
  exists (sasR Flat 12 1 p PI), [yA1; yA2], [yB], [yC], (parallel3 cleared3 [[[]]]).
  split; [apply sasP_valid; lra|]. split; [apply sasP_noSlop|]. split; [reflexivity|]. split; [reflexivity|].
  split; [reflexivity|]. split; [reflexivity|].
  split; [intros o [<-|[<-|[<-|[<-|[]]]]]; cbn; lra|].
  split; [intros o [<-|[<-|[<-|[<-|[]]]]]; reflexivity|]. split.
  - exists [t], [lf yB], [lf yC]. split; [exact HF|]. split; [apply one_field|]. split; [apply one_field|].
    change (r3P (sasR Flat 12 1 p PI)) with (sasP Flat 12 1 p PI).
    rewrite (drop_run Flat 12 1 p PI t yB yC 12 24 13 13); [exact HE|..]; try lra; auto.
    + rewrite HW. cbn. lra.
    + cbn. lra.
    + cbn. lra.
    + unfold normSq, psub. cbn [yB yC wObj opos px py pz]. lra.
    + rewrite HP. unfold normSq, psub. cbn [yB yC wObj opos px py pz]. lra.
    + rewrite HP. unfold normSq, psub. cbn [yB yC wObj opos px py pz]. lra.
    + rewrite HP, stop_late by lra. cbv zeta.
      assert (CW : ccw Euclidean Flat (mkpos 0 0 0) (opos yC) (opos yB) = true).
      { unfold ccw, wrapM, cross, psub. cbn [yB yC wObj opos px py pz]. apply Rltb_t. lra. }
      rewrite CW. cbn [negb].
      assert (CP : cosphiOf (24 * 24) (13 * 13) (13 * 13) = - (119 / 169)).
      { unfold cosphiOf. rewrite !sqrt_square by lra. field. }
      rewrite CP, MX. rewrite (Rltb_t 0 p) by lra. rewrite (Rltb_t _ (- (119 / 169))) by lra. cbn [andb].
      rewrite (rot_val 1 _ _ _ 13 12 (12 / 13) (5 / 13) (- (119 / 169)) (120 / 169)); try lra.
      * rewrite Rltb_t by lra. reflexivity.
      * unfold ssq. destruct Rlt_dec; nra.
  - split; [apply H0|]. unfold sumTriples. cbn [sumR].
    change (r3P (sasR Flat 12 1 p PI)) with (sasP Flat 12 1 p PI).
    assert (Q : sqrt 145 * sqrt 145 = 145) by (apply sqrt_sqrt; lra).
    assert (Q2 : 12 <= sqrt 145 < 13) by (pose proof (sqrt_pos 145); split; nra).
    assert (Q' : sqrt 433 * sqrt 433 = 433) by (apply sqrt_sqrt; lra).
    assert (Q2' : 20 < sqrt 433) by (pose proof (sqrt_pos 433); nra).
    assert (T1 : side1 yA1 yB yC = 24 /\ side2 yA1 yB yC = sqrt 145 /\ side3 yA1 yB yC = sqrt 145).
    { repeat split; unfold side1, side2, side3; cbn [yA1 yB yC wObj opos]; apply euc; lra. }
    destruct T1 as [S1 [S2 S3]].
    assert (T1 : side2 yA2 yB yC = sqrt 433 /\ side3 yA2 yB yC = sqrt 433).
    { repeat split; unfold side1, side2, side3; cbn [yA2 yB yC wObj opos]; apply euc; lra. }
    destruct T1 as [S2' S3'].
    assert (A : sas (sasP Flat 12 1 p PI) TNtri 0 yA1 yB yC = 1).
    { unfold sas. rewrite sel0; auto; rewrite ?S1, ?S2, ?S3; try lra.
      - rewrite (angle_val yA1 yB yC (- (143 / 145))); rewrite ?S2, ?S3; try lra.
        + split; [|apply acos_lt_PI; lra].
          destruct (Rle_dec p (acos (- (143 / 145)))) as [L|L]; auto. exfalso.
          pose proof (acos_bound (- (143 / 145))).
          assert (X : cos p <= cos (acos (- (143 / 145)))) by (apply cos_decr_1; lra).
          rewrite cos_acos in X by lra. unfold p in X. rewrite cos_56 in X. lra.
        + rewrite Q. cbn [yA1 yB yC wObj opos px py pz]. lra.
      - unfold ccwSpec, ccwFlat. cbn [yA1 yB yC wObj opos px py]. apply Rltb_t. lra. }
    assert (B : sas (sasP Flat 12 1 p PI) TNtri 0 yA2 yB yC = 0).
    { unfold sas. destruct (selSAS (sasP Flat 12 1 p PI) 0 yA2 yB yC) eqn:E; auto. exfalso.
      unfold selSAS in E. rewrite (angle_val yA2 yB yC (145 / 433)) in E.
      - change (kpOf (sasP Flat 12 1 p PI) 0) with 0%Z in E. cbn [sasP tminu tubinsize] in E.
        rewrite Rmult_0_l, Rplus_0_r, (Rleb_f p) in E; [rewrite andb_false_r, !andb_false_l in E; discriminate|].
        destruct (Rlt_dec (acos (145 / 433)) p) as [L|L]; auto. exfalso. pose proof (acos_bound (145 / 433)).
        assert (X : cos (acos (145 / 433)) <= cos p) by (apply cos_decr_1; lra).
        rewrite cos_acos in X by lra. unfold p in X. rewrite cos_56 in X. lra.
      - rewrite S2', S3'. lra.
      - rewrite S2', S3', Q'. cbn [yA2 yB yC wObj opos px py pz]. lra. }
    rewrite A, B. lra.
Qed.

(** ordered=True away from the plane: the orientation is tested at the centre of the cell only *)
Definition zA1 := wObj 0 0 3 1 0. Definition zA2 := wObj 0 0 (-3) 1 1.
Definition zB := wObj 5 0 0 1 2. Definition zC := wObj 0 5 0 1 3.
Theorem C79_ordered3d_refuted : exists R cat1 cat2 cat3 s1,
  validSAS (r3P R) /\ noSlopSAS (r3P R) /\ tmetric (r3P R) = Euclidean /\ tcoord (r3P R) = ThreeD /\
  tminu (r3P R) = 0 /\ tmaxu (r3P R) = PI /\
  weights3 TNtri (cat1 ++ cat2 ++ cat3) /\
  runCross3 R O3 cat1 cat2 cat3 cleared3 s1 /\ s1 TNtri 0%Z = 0 /\
  sumTriples (sas (r3P R) TNtri 0) cat1 cat2 cat3 = 1.
Proof.
  pose proof PI_RGT_0 as PP.
  assert (E4 : 2 < exp 1) by (pose proof (exp_ineq1 1 ltac:(lra)); lra).
  assert (EC : centroid ThreeD [zA1; zA2] = mkpos 0 0 0) by (apply cent2; try discriminate; lra).
  assert (EZ : calculateSizeSq (centroid ThreeD [zA1; zA2]) [zA1; zA2] = 3 * 3).
  { rewrite EC. cbn [calculateSizeSq zA1 zA2 wObj opos]. unfold normSq, psub. cbn [px py pz].
    rewrite (Rmax_left _ 0) by nra. rewrite Rmax_left; lra. }
  destruct (two_field ThreeD 5 1 0 PI zA1 zA2 ltac:(rewrite EZ; lra)) as [t [HF [HP [HS HW]]]].
  rewrite EZ, sqrt_square in HS by lra. rewrite EC in HP.
  destruct empty_run as [HE H0].
  assert (Q5 : sqrt 50 * sqrt 50 = 50) by (apply sqrt_sqrt; lra).
  assert (Q5' : 0 < sqrt 50) by (apply sqrt_lt_R0; lra).
  exists (sasR ThreeD 5 1 0 PI), [zA1; zA2], [zB], [zC], (parallel3 cleared3 [[[]]]).
  split; [apply sasP_valid; lra|]. split; [apply sasP_noSlop|]. split; [reflexivity|]. split; [reflexivity|].
  split; [reflexivity|]. split; [reflexivity|].
  split; [intros o [<-|[<-|[<-|[<-|[]]]]]; cbn; lra|]. split.
  - exists [t], [lf zB], [lf zC]. split; [exact HF|]. split; [apply one_field|]. split; [apply one_field|].
    change (r3P (sasR ThreeD 5 1 0 PI)) with (sasP ThreeD 5 1 0 PI).
    rewrite (drop_run ThreeD 5 1 0 PI t zB zC 3 (sqrt 50) 5 5); [exact HE|..]; try lra; auto.
    + rewrite HW. cbn. lra.
    + cbn. lra.
    + cbn. lra.
    + unfold normSq, psub. cbn [zB zC wObj opos px py pz]. lra.
    + rewrite HP. unfold normSq, psub. cbn [zB zC wObj opos px py pz]. lra.
    + rewrite HP. unfold normSq, psub. cbn [zB zC wObj opos px py pz]. lra.
    + rewrite HP, stop_late by lra. cbv zeta.
      assert (CW : ccw Euclidean ThreeD (mkpos 0 0 0) (opos zC) (opos zB) = false).
      { unfold ccw, wrapM, cross, dot, psub. cbn [zB zC wObj opos px py pz]. apply Rltb_f. lra. }
      rewrite CW. cbn [negb].
      assert (CP : cosphiOf (sqrt 50 * sqrt 50) (5 * 5) (5 * 5) = 0).
      { unfold cosphiOf. rewrite Q5, !sqrt_square by lra. field. }
      rewrite CP. unfold wrongWay. rewrite Rplus_0_r, (Rltb_t 0 3) by lra. unfold Rsqr.
      replace (1 - 3 / 5 * (3 / 5)) with (4 / 5 * (4 / 5)) by field.
      rewrite sqrt_square by lra. rewrite Rabs_R0, !(Rltb_f _ (0 * 0)) by lra. cbn [andb].
      rewrite (Rltb_f _ 0) by lra. rewrite andb_false_r. reflexivity.
  - split; [apply H0|]. unfold sumTriples. cbn [sumR].
    change (r3P (sasR ThreeD 5 1 0 PI)) with (sasP ThreeD 5 1 0 PI).
    assert (Q : sqrt 34 * sqrt 34 = 34) by (apply sqrt_sqrt; lra).
    assert (Q2 : 5 <= sqrt 34 < 6) by (pose proof (sqrt_pos 34); split; nra).
    assert (T1 : side1 zA1 zB zC = sqrt 50 /\ side2 zA1 zB zC = sqrt 34 /\ side3 zA1 zB zC = sqrt 34).
    { repeat split; unfold side1, side2, side3; cbn [zA1 zB zC wObj opos]; unfold euclid;
      apply f_equal; cbn [px py pz]; ring. }
    destruct T1 as [S1 [S2 S3]].
    assert (A : sas (sasP ThreeD 5 1 0 PI) TNtri 0 zA1 zB zC = 1).
    { unfold sas. rewrite sel0; auto; rewrite ?S1, ?S2, ?S3; try lra.
      - rewrite (angle_val zA1 zB zC (9 / 34)); rewrite ?S2, ?S3; try lra.
        + apply acos_lt_PI. lra.
        + rewrite Q. cbn [zA1 zB zC wObj opos px py pz]. lra.
      - unfold ccwSpec, ccwSky. cbn [zA1 zB zC wObj opos px py pz]. apply Rltb_t. lra. }
    rewrite A, (sel0_wrong ThreeD 5 1 0 PI zA2 zB zC); [lra|].
    unfold ccwSpec, ccwSky. cbn [zA2 zB zC wObj opos px py pz]. apply Rltb_f. lra.
Qed.
