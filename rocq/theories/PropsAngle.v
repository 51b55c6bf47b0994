(** C63: what angle_slop guarantees about the direction used to project a pair of objects. *)
From Coq Require Import Reals Lra Lia List ZArith Bool Permutation Psatz.
From Verif Require Import Base Geometry Tree Traverse Run Spec SpecRun GeomFacts SumFacts TreeFacts
  BinFacts TravFacts Exact MetricFacts Cover Lift Runs Examples PropsCount SpecSpin.
Import ListNotations.
Open Scope R_scope.

Lemma norm_zero_pdist p q : norm (psub p q) = pdist p q.
Proof. reflexivity. Qed.
Lemma diff_bound p1 p2 c1 c2 x1 x2 : pdist c1 p1 <= x1 -> pdist c2 p2 <= x2 ->
  norm (psub (psub p2 p1) (psub c2 c1)) <= x1 + x2.
Proof.
  intros H1 H2. set (z := mkpos 0 0 0).
  assert (E : psub (psub p2 p1) (psub c2 c1) = psub (psub p2 c2) (psub p1 c1)).
  { unfold psub; cbn [px py pz]; f_equal; ring. }
  rewrite E. change (norm (psub (psub p2 c2) (psub p1 c1))) with (pdist (psub p2 c2) (psub p1 c1)).
  eapply Rle_trans; [apply (pdist_triangle _ z)|].
  assert (A : forall p c, pdist (psub p c) z = pdist c p).
  { intros p c. unfold pdist, norm. f_equal. unfold normSq, psub, z; cbn [px py pz]; ring. }
  rewrite A, (pdist_sym z), A. lra.
Qed.
Lemma cross_bound u v : norm (cross u v) <= norm u * norm v.
Proof.
  unfold norm. rewrite <- sqrt_mult.
  2,3: unfold normSq; pose proof (Rle_0_sqr (px u)); pose proof (Rle_0_sqr (py u)); pose proof (Rle_0_sqr (pz u));
    pose proof (Rle_0_sqr (px v)); pose proof (Rle_0_sqr (py v)); pose proof (Rle_0_sqr (pz v)); unfold Rsqr in *; lra.
  apply sqrt_le_1_alt. assert (H := Rle_0_sqr (dot u v)). unfold Rsqr in H.
  replace (normSq u * normSq v) with (normSq (cross u v) + dot u v * dot u v)
    by (unfold normSq, cross, dot; cbn [px py pz]; ring). lra.
Qed.
Lemma singleBin_angle B rsq x p1 p2 kr : 0 <= slop_a B -> 0 <= rsq -> 0 <= x ->
  btype B <> BTwoD -> singleBin B rsq (Fin x) p1 p2 = Some kr -> x <= slop_a B * sqrt rsq.
Proof.
  intros Ha Hr Hx HT H.
  assert (K : ~ slop_a B * slop_a B * rsq < x * x -> x <= slop_a B * sqrt rsq).
  { intro N. apply Rsqr_incr_0; auto; [|apply Rmult_le_pos; auto; apply sqrt_pos].
    unfold Rsqr. replace (slop_a B * sqrt rsq * (slop_a B * sqrt rsq)) with (slop_a B * slop_a B * (sqrt rsq * sqrt rsq)) by ring.
    rewrite sqrt_sqrt by auto. lra. }
  unfold singleBin in H. destruct (btype B); [| |congruence].
  - destruct (Req_EM_T x 0) as [->|]; [apply Rmult_le_pos; auto; apply sqrt_pos|].
    destruct Rlt_dec; [discriminate|]. auto.
  - destruct Rlt_dec as [|n]; [discriminate|]. unfold Rsqr in n. auto.
Qed.
Lemma decide_angle P m c1 c2 rsq k r lr o1 o2 : validB (cbin P) -> cmetric P = Euclidean -> 0 <= m ->
  okcell m c1 -> okcell m c2 -> decide11 P c1 c2 = Direct rsq k r lr ->
  In o1 (objs c1) -> In o2 (objs c2) ->
  let c := psub (getPos c2) (getPos c1) in
  norm (psub (psub (opos o2) (opos o1)) c) <= slop_a (cbin P) * norm c + 2 * m /\ minsep (cbin P) <= norm c.
Proof.
  intros HB HM Hm O1 O2 HD I1 I2 c.
  pose proof (size_nonneg _ _ O1) as N1. pose proof (size_nonneg _ _ O2) as N2.
  unfold decide11 in HD. rewrite HM in HD. cbn [effSize] in HD.
  destruct Req_EM_T; [discriminate|]. destruct Req_EM_T; [discriminate|].
  destruct (isRParOutsideRange _ _ _ _ _); [discriminate|].
  destruct (tooSmallDist _ _ _ && _); [discriminate|]. destruct (tooLargeDist _ _ _ && _); [discriminate|].
  destruct (isRParInsideRange _ _ _ _ _); [|destruct (calcSplitSq _ _ _); discriminate].
  destruct (singleBin _ _ _ _ _) as [[[k' r'] l']|] eqn:ES; [|destruct (calcSplitSq _ _ _); discriminate].
  destruct (isRSqInRange _ _ _ _) eqn:ER; [|discriminate].
  destruct (getSize c1) as [x1|] eqn:E1, (getSize c2) as [x2|] eqn:E2; try (cbn in ES; discriminate).
  cbn [eadd] in ES. cbn in N1, N2.
  assert (ED : distSq Euclidean (getPos c1) (getPos c2) = normSq c).
  { cbn [distSq]. unfold c, normSq, psub; cbn [px py pz]; ring. }
  rewrite ED in ES, ER.
  assert (HC : 0 <= normSq c).
  { unfold normSq. pose proof (Rle_0_sqr (px c)); pose proof (Rle_0_sqr (py c)); pose proof (Rle_0_sqr (pz c)); unfold Rsqr in *; lra. }
  apply singleBin_angle in ES; try lra; [|apply HB|apply HB]. change (sqrt (normSq c)) with (norm c) in ES.
  split.
  - pose proof (member_within m c1 o1 x1 Hm O1 I1 E1). pose proof (member_within m c2 o2 x2 Hm O2 I2 E2).
    eapply Rle_trans; [apply (diff_bound _ _ _ _ (x1 + m) (x2 + m)); auto|]. lra.
  - unfold isRSqInRange in ER. assert (ms := minsep_nonneg _ HB).
    assert (G : Rleb (minsep (cbin P) * minsep (cbin P)) (normSq c) = true).
    { pose proof (vb_not2d _ HB). destruct (btype (cbin P)); try congruence; apply andb_prop in ER; apply ER. }
    unfold Rleb in G. destruct Rle_dec as [L|]; [|discriminate]. unfold norm. rewrite <- (sqrt_square (minsep (cbin P))) by auto.
    apply sqrt_le_1_alt; auto.
Qed.
Lemma minsize_half P : validB (cbin P) -> 2 * fst (getMinMaxSize P) <= slop_a (cbin P) * minsep (cbin P).
Proof.
  intro HB. assert (Ha := vb_a _ HB). assert (Hb := vb_b _ HB). assert (Hm := minsep_nonneg _ HB).
  set (a := slop_a (cbin P)) in *. set (ms := minsep (cbin P)) in *. set (b := slop_b (cbin P)) in *.
  assert (F : forall x, 0 <= x -> 2 * (ms * x / (2 + 3 * x)) <= ms * x).
  { intros x Hx. assert (0 <= ms * x) by (apply Rmult_le_pos; auto).
    assert (/ (2 + 3 * x) <= / 2) by (apply Rinv_le_contravar; lra).
    unfold Rdiv. pose proof (Rmult_le_compat_l (ms * x) _ _ H H0). lra. }
  assert (H0 : 0 <= a * ms) by (apply Rmult_le_pos; auto).
  unfold getMinMaxSize. fold a b ms. destruct (cmetric P); cbn [fst]; try lra.
  destruct (btype (cbin P)); cbn [fst].
  - assert (Hx : 0 <= Rmin a b) by (apply Rmin_glb; auto). specialize (F _ Hx).
    assert (ms * Rmin a b <= ms * a) by (apply Rmult_le_compat_l; auto; apply Rmin_l). lra.
  - specialize (F a Ha). pose proof (Rmin_l (a * ms / (2 + 3 * a)) (b / 2)).
    replace (a * ms / (2 + 3 * a)) with (ms * a / (2 + 3 * a)) in * by (field; lra). lra.
  - specialize (F a Ha). pose proof (Rmin_l (a * ms / (2 + 3 * a)) (b / 2)).
    replace (a * ms / (2 + 3 * a)) with (ms * a / (2 + 3 * a)) in * by (field; lra). lra.
Qed.

(** Let two cells be accumulated together (Euclidean metric).  For any two of their objects, the vector
    d between the objects differs from the vector c between the centres by at most
    angle_slop |c| + 2 min_size, which is at most 2 angle_slop |c|. *)
Definition directionBound (a m : R) (o1 o2 : obj) (p1 p2 : pos) : Prop :=
  let c := psub p2 p1 in let d := psub (opos o2) (opos o1) in
  norm (psub d c) <= a * norm c + 2 * m /\ norm (psub d c) <= 2 * a * norm c.
Theorem C63_cross_direction Q b1 b2 cat1 cat2 cells1 cells2 evs e o1 o2 :
  validB (cbin (rP Q)) -> cmetric (rP Q) = Euclidean ->
  buildField (fieldParams Q b1) cat1 cells1 -> buildField (fieldParams Q b2) cat2 cells2 ->
  map Some evs = crossIters (rP Q) cells1 cells2 -> In e (concat evs) ->
  In o1 (objs (ec1 e)) -> In o2 (objs (ec2 e)) ->
  directionBound (slop_a (cbin (rP Q))) (fst (getMinMaxSize (rP Q))) o1 o2 (getPos (ec1 e)) (getPos (ec2 e)).
Proof.
  intros HB HM B1 B2 HE Ie I1 I2.
  destruct (cross_covers _ _ _ _ HE) as [dr [_ [HF _]]]. rewrite Forall_forall in HF.
  destruct (HF e Ie) as [a [b [rsq [k [r [lr [J1 [J2 [HD ->]]]]]]]]].
  destruct (direct_ec (rP Q) false a b rsq k r lr) as [E1 E2]. rewrite E1 in *. rewrite E2 in *.
  assert (Hm := minsize_nonneg _ HB).
  assert (O1 := inTops_wf _ _ _ (run_wf Q b1 cat1 cells1 HB B1) J1).
  assert (O2 := inTops_wf _ _ _ (run_wf Q b2 cat2 cells2 HB B2) J2).
  destruct (decide_angle _ _ _ _ _ _ _ _ o1 o2 HB HM Hm O1 O2 HD I1 I2) as [H1 H2].
  split; auto. eapply Rle_trans; [exact H1|]. assert (Hh := minsize_half _ HB).
  assert (slop_a (cbin (rP Q)) * minsep (cbin (rP Q)) <= slop_a (cbin (rP Q)) * norm (psub (getPos b) (getPos a))).
  { apply Rmult_le_compat_l; auto. apply HB. }
  lra.
Qed.
Theorem C63_auto_direction Q b cat cells evs e o1 o2 :
  validB (cbin (rP Q)) -> cmetric (rP Q) = Euclidean ->
  buildField (fieldParams Q b) cat cells ->
  map Some evs = autoIters (rP Q) cells -> In e (concat evs) ->
  In o1 (objs (ec1 e)) -> In o2 (objs (ec2 e)) ->
  directionBound (slop_a (cbin (rP Q))) (fst (getMinMaxSize (rP Q))) o1 o2 (getPos (ec1 e)) (getPos (ec2 e)).
Proof.
  intros HB HM B HE Ie I1 I2.
  destruct (auto_covers _ _ _ HE) as [dr [ds [_ [HF _]]]]. rewrite Forall_forall in HF.
  destruct (HF e Ie) as [x [y [rsq [k [r [lr [J1 [J2 [HD ->]]]]]]]]].
  destruct (direct_ec (rP Q) (do_reverse (cbin (rP Q))) x y rsq k r lr) as [E1 E2]. rewrite E1 in *. rewrite E2 in *.
  assert (Hm := minsize_nonneg _ HB).
  assert (O1 := inTops_wf _ _ _ (run_wf Q b cat cells HB B) J1).
  assert (O2 := inTops_wf _ _ _ (run_wf Q b cat cells HB B) J2).
  destruct (decide_angle _ _ _ _ _ _ _ _ o1 o2 HB HM Hm O1 O2 HD I1 I2) as [H1 H2].
  split; auto. eapply Rle_trans; [exact H1|]. assert (Hh := minsize_half _ HB).
  assert (slop_a (cbin (rP Q)) * minsep (cbin (rP Q)) <= slop_a (cbin (rP Q)) * norm (psub (getPos y) (getPos x))).
  { apply Rmult_le_compat_l; auto. apply HB. }
  lra.
Qed.
(** So the sine of the angle between d and c is at most 2 angle_slop (angle_slop if min_size = 0). *)
Theorem C63_sine d c x : norm (psub d c) <= x * norm c -> norm (cross d c) <= x * norm c * norm d.
Proof.
  intro H. assert (E : cross d c = cross (psub d c) d).
  { unfold cross, psub; cbn [px py pz]; f_equal; ring. }
  rewrite E. eapply Rle_trans; [apply cross_bound|].
  apply Rmult_le_compat_r; auto. apply sqrt_pos.
Qed.

(** The documentation promises that the direction differs by at most angle_slop radians.  That is not
    so: the angle can be arcsin(angle_slop). *)
Definition anObj (x y : R) (i : nat) : obj := mkobj (mkpos x y 0) 1 1 0 1 0 i.
Definition anB : bparams := mkB BLinear 1 11 1 10 10 (3/5).
Definition anRun : runcfg := mkR (mkC Euclidean None anB) Flat Mean BruteNo 0 10.
Definition anCat1 : list obj := [anObj (-3) 0 0; anObj 3 0 1].
Definition anCat2 : list obj := [anObj 3 4 2].
Lemma anB_valid : validB anB.
Proof. constructor; simpl; try lra; try lia; try discriminate. unfold edge; simpl; lra. Qed.
Lemma an_cen : centroid Flat anCat1 = mkpos 0 0 0.
Proof.
  unfold centroid, anCat1, anObj. cbn [sumR owpos opos px py pz].
  destruct Req_EM_T as [E|_]; [lra|]. unfold normalize, pscale. cbn [px py pz]. f_equal; field.
Qed.
Lemma an_size : calculateSizeSq (centroid Flat anCat1) anCat1 = 9.
Proof.
  rewrite an_cen. unfold anCat1, anObj. cbn [calculateSizeSq opos]. unfold normSq, psub. cbn [px py pz].
  rewrite (Rmax_left _ 0) by lra. rewrite Rmax_left by lra. lra.
Qed.
Theorem C63_radians_refuted : exists Q cells1 cells2 evs e o1 o2 t0 t1,
  validB (cbin (rP Q)) /\ cmetric (rP Q) = Euclidean /\ rcoord Q = Flat /\ slop_a (cbin (rP Q)) = 3/5 /\
  buildField (fieldParams Q false) anCat1 cells1 /\ buildField (fieldParams Q false) anCat2 cells2 /\
  map Some evs = crossIters (rP Q) cells1 cells2 /\ In e (concat evs) /\
  In o1 (objs (ec1 e)) /\ In o2 (objs (ec2 e)) /\
  isAngle (getPos (ec1 e)) (getPos (ec2 e)) t0 /\ isAngle (opos o1) (opos o2) t1 /\
  slop_a (cbin (rP Q)) < t1 - t0 < PI.
Proof.
  set (a := Leaf (data1 (anObj (-3) 0 0)) (anObj (-3) 0 0)).
  set (b := Leaf (data1 (anObj 3 0 1)) (anObj 3 0 1)).
  set (n := Node (dataN Flat anCat1) (Fin (sqrt (calculateSizeSq (centroid Flat anCat1) anCat1))) a b).
  set (l := Leaf (data1 (anObj 3 4 2)) (anObj 3 4 2)).
  assert (S9 : sqrt (calculateSizeSq (centroid Flat anCat1) anCat1) = 3).
  { rewrite an_size. replace 9 with (3 * 3) by ring. apply sqrt_square; lra. }
  assert (MM : getMinMaxSize (rP anRun) = (3/19, 33/5)).
  { unfold getMinMaxSize, anRun, anB. cbn [rP cmetric cbin btype slop_a slop_b minsep maxsep].
    rewrite !Rmin_left by lra. f_equal; field. }
  assert (BF1 : buildField (fieldParams anRun false) anCat1 [n]).
  { exists [anCat1]. unfold fieldParams. rewrite MM. cbn [fst snd fcoord fsm fmaxsize fmintop fmaxtop fminsize fbrute anRun rcoord rsm rmintop rmaxtop].
    split.
    - apply top_stop. right; left. split; [|lia]. cbn [esq]. unfold topSizeSq. unfold anCat1 at 1. rewrite an_size. lra.
    - constructor; [|constructor]. apply (b_node Flat Mean (3/19 * (3/19)) false anCat1 [anObj (-3) 0 0] [anObj 3 0 1]).
      + simpl; lia.
      + rewrite an_size. lra.
      + apply sd_ok; try discriminate. apply sc_mean; auto. rewrite an_cen.
        assert (ES : getSplit (boundsOf anCat1) = DX).
        { unfold getSplit, boundsOf, anCat1, anObj. cbn.
          unfold upd_hi, upd_lo.
          repeat (destruct Rlt_dec; try lra). reflexivity. }
        cbv zeta. rewrite ES. split; [apply Permutation_refl|]. split; constructor; auto; cbn; lra.
      + apply b_leaf.
      + apply b_leaf. }
  assert (BF2 : buildField (fieldParams anRun false) anCat2 [l]).
  { exists [anCat2]. split; [apply top_stop; left; reflexivity|]. constructor; [apply b_leaf|constructor]. }
  assert (DA : exists rsq k r lr, decide11 (rP anRun) n l = Direct rsq k r lr).
  { unfold decide11. cbn [cmetric crpar cbin rP anRun effSize].
    assert (P1 : getPos n = mkpos 0 0 0) by (unfold n; cbn; apply an_cen).
    assert (P2 : getPos l = mkpos 3 4 0) by reflexivity.
    assert (W1 : getW n = 2) by (unfold n; cbn; ring).
    assert (W2 : getW l = 1) by reflexivity.
    assert (Z1 : getSize n = Fin 3) by (unfold n; cbn [getSize]; rewrite S9; auto).
    assert (Z2 : getSize l = Fin 0) by reflexivity.
    rewrite P1, P2, W1, W2, Z1, Z2. destruct (Req_EM_T 2 0); [lra|]. destruct (Req_EM_T 1 0); [lra|].
    unfold isRParOutsideRange, isRParInsideRange. cbn [distSq eadd].
    assert (DD : normSq (psub (mkpos 0 0 0) (mkpos 3 4 0)) = 25).
    { unfold normSq, psub. cbn [px py pz]. lra. }
    rewrite DD. unfold tooSmallDist, tooLargeDist, singleBin, isRSqInRange. cbn [anB minsep maxsep btype slop_a slop_b binsize].
    unfold Rltb, Rleb, Rsqr.
    destruct (Rlt_dec 25 (1 * 1)); [lra|]. cbn [andb].
    destruct (Rle_dec (11 * 11) 25); [lra|]. cbn [andb].
    destruct (Rlt_dec (3/5 * (3/5) * 25) ((3 + 0) * (3 + 0))); [lra|]. destruct (Rle_dec (3 + 0) 10); [|lra].
    destruct (Rle_dec (1 * 1) 25); [|lra]. destruct (Rlt_dec 25 (11 * 11)); [|lra].
    cbn [andb]. eauto. }
  destruct DA as [rsq [k [r [lr DA]]]].
  set (e := directProcess11 (rP anRun) false n l rsq k r lr).
  destruct (direct_ec (rP anRun) false n l rsq k r lr) as [E1 E2]. fold e in E1, E2.
  set (dl := asin (3/5)).
  assert (SD : sin dl = 3/5) by (apply sin_asin; lra).
  assert (CD : cos dl = 4/5).
  { unfold dl. rewrite cos_asin by lra. unfold Rsqr. replace (1 - 3/5 * (3/5)) with (4/5 * (4/5)) by lra. apply sqrt_square; lra. }
  assert (BD := asin_bound (3/5)). fold dl in BD.
  assert (GD : 3/5 < dl).
  { destruct (Rlt_dec (3/5) dl) as [|Hn]; auto. exfalso. apply Rnot_lt_le in Hn.
    assert (0 < dl). { destruct (Rlt_dec 0 dl) as [|Hn']; auto. exfalso.
      assert (HH := sin_le_0). assert (sin (- dl) < 0) by (rewrite sin_neg; lra).
      assert (0 <= sin (- dl)) by (apply sin_ge_0; pose proof PI_RGT_0; lra). lra. }
    pose proof (sin_lt_x dl H). lra. }
  exists anRun, [n], [l], [[e]], e, (anObj 3 0 1), (anObj 3 4 2), (PI/2 - dl), (PI/2).
  split; [apply anB_valid|]. do 3 (split; [reflexivity|]). split; [exact BF1|]. split; [exact BF2|].
  split.
  { cbn [crossIters map]. unfold oconcat. cbn [fold_right map]. unfold run11.
    change (fuel11 n l) with 2%nat || idtac. destruct (fuel11 n l); cbn [process11]; rewrite DA; reflexivity. }
  split; [left; reflexivity|]. rewrite E1, E2.
  split; [cbn; auto|]. split; [cbn; auto|]. split; [|split].
  - exists 5. split; [lra|]. rewrite cos_shift, sin_shift, SD, CD.
    assert (P1 : getPos n = mkpos 0 0 0) by (unfold n; cbn; apply an_cen). rewrite P1. cbn. lra.
  - exists 4. split; [lra|]. rewrite cos_PI2, sin_PI2. cbn. lra.
  - cbn [anRun rP cbin anB slop_a]. pose proof PI_RGT_0. lra.
Qed.
(** The hypotheses are met by the run of the refutation; a direct instance of the sine bound. *)
Example C63_example : exists Q cells1 cells2 evs e o1 o2,
  buildField (fieldParams Q false) anCat1 cells1 /\ buildField (fieldParams Q false) anCat2 cells2 /\
  map Some evs = crossIters (rP Q) cells1 cells2 /\ In e (concat evs) /\
  In o1 (objs (ec1 e)) /\ In o2 (objs (ec2 e)) /\
  norm (cross (psub (opos o2) (opos o1)) (psub (getPos (ec2 e)) (getPos (ec1 e))))
    <= 2 * (3/5) * norm (psub (getPos (ec2 e)) (getPos (ec1 e))) * norm (psub (opos o2) (opos o1)).
Proof.
  destruct C63_radians_refuted as [Q [c1 [c2 [evs [e [o1 [o2 [t0 [t1 [HB [HM [_ [HS [B1 [B2 [HE [Ie [I1 [I2 _]]]]]]]]]]]]]]]]]]].
  exists Q, c1, c2, evs, e, o1, o2. repeat (split; auto).
  apply C63_sine. rewrite <- HS. exact (proj2 (C63_cross_direction _ _ _ _ _ _ _ _ _ _ _ HB HM B1 B2 HE Ie I1 I2)).
Qed.
