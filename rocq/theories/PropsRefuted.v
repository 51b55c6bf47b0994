(** Where exactness at bin_slop = 0 fails: C01, C02, C42; what holds of npairs with zero weights. *)
From Coq Require Import Reals Lra Lia List ZArith Bool Permutation Psatz.
From Verif Require Import Base Geometry Tree Traverse Run Spec SpecRun GeomFacts SumFacts TreeFacts
  BinFacts TravFacts Exact MetricFacts Cover Lift Runs Examples PropsCount PropsNear PropsSampler.
Import ListNotations.
Open Scope R_scope.

(** ** One object against two objects that form a single cell *)
Definition twQ (B : bparams) : runcfg := mkR (mkC Euclidean None B) ThreeD Mean BruteNo 0 0.
Definition twCat1 : list obj := [exObj 0 1 0].
Definition twCat2 (x h : R) : list obj := [exObj (x - h) 1 0; exObj (x + h) 1 1].
Definition twC1 : cell := Leaf (data1 (exObj 0 1 0)) (exObj 0 1 0).
Definition twC2 (x h : R) : cell :=
  Node (dataN ThreeD (twCat2 x h)) (Fin (sqrt (calculateSizeSq (centroid ThreeD (twCat2 x h)) (twCat2 x h))))
    (Leaf (data1 (exObj (x - h) 1 0)) (exObj (x - h) 1 0)) (Leaf (data1 (exObj (x + h) 1 1)) (exObj (x + h) 1 1)).
Lemma tw_cen x h : centroid ThreeD (twCat2 x h) = mkpos x 0 0.
Proof. unfold twCat2. cen. Qed.
Lemma tw_size x h : 0 < h -> calculateSizeSq (centroid ThreeD (twCat2 x h)) (twCat2 x h) = h * h.
Proof. intro. rewrite tw_cen. unfold twCat2, calculateSizeSq, normSq, psub. cbn. unfold Rmax. repeat destruct Rle_dec; nra. Qed.
Lemma tw_cell x h : 0 < h -> getPos (twC2 x h) = mkpos x 0 0 /\ getSize (twC2 x h) = Fin h /\ getW (twC2 x h) = 2.
Proof.
  intro H. unfold twC2, getPos, getSize, getW. cbn [getData dataN dpos dw]. rewrite (tw_size x h H), tw_cen, sqrt_square by lra.
  split; auto. split; auto. cbn. lra.
Qed.
Lemma tw_build B x h : slop_b B = 0 -> validB B -> 0 < h < x ->
  buildField (fieldParams (twQ B) false) twCat1 [twC1] /\ buildField (fieldParams (twQ B) false) (twCat2 x h) [twC2 x h].
Proof.
  intros Hb HV Hh.
  assert (Hm : fst (getMinMaxSize (rP (twQ B))) = 0) by (apply minsize_b0; auto).
  unfold fieldParams. rewrite Hm. split.
  - exists [twCat1]. split; [apply top_stop; left; reflexivity|]. constructor; [apply b_leaf|constructor].
  - exists [twCat2 x h]. split; [apply top_stop; right; right; reflexivity|]. constructor; [|constructor].
    cbn [fcoord fsm fminsize fbrute twQ rcoord rsm].
    apply (b_node ThreeD Mean (0 * 0) false (twCat2 x h) [exObj (x - h) 1 0] [exObj (x + h) 1 1]);
      [cbn; lia|rewrite tw_size; nra| |apply b_leaf|apply b_leaf].
    apply sd_ok; try discriminate. apply sc_mean; auto. cbv zeta.
    replace (getSplit (boundsOf (twCat2 x h))) with DX by (symmetry; unfold twCat2; bnd).
    rewrite tw_cen. split; [|split; repeat constructor; cbn; lra]. apply Permutation_refl.
Qed.
(** The whole cell pair goes into one bin: both objects are counted there. *)
Lemma tw_run B x h rsq k r lr : slop_b B = 0 -> validB B -> 0 < h < x -> minsep B <= x < maxsep B ->
  decide11 (mkC Euclidean None B) twC1 (twC2 x h) = Direct rsq k r lr -> (0 <= k < nbins B)%Z ->
  exists s1, runCross (twQ B) twCat1 (twCat2 x h) cleared s1 /\
    (forall j, a_npairs s1 j = if (j =? k)%Z then 2 else 0) /\ (forall j, a_weight s1 j = if (j =? k)%Z then 2 else 0).
Proof.
  intros Hb HV Hh Hx HD Hk. destruct (tw_build B x h Hb HV Hh) as [B1 B2].
  set (e := directProcess11 (mkC Euclidean None B) false twC1 (twC2 x h) rsq k r lr).
  assert (He : crossIters (rP (twQ B)) [twC1] [twC2 x h] = [Some [e]]).
  { unfold crossIters. cbn [map oconcat]. unfold run11. change (fuel11 twC1 (twC2 x h)) with 1%nat. cbn [process11 twQ rP]. rewrite HD. reflexivity. }
  assert (Hke : ek e = k).
  { unfold e, directProcess11. destruct (Z.ltb_spec k 0); [lia|]. cbn [ek cbin]. destruct (Z.eqb_spec k (nbins B)); [lia|auto]. }
  assert (Hk2 : ek2 e = None) by apply direct_ek2.
  destruct (direct_ec (mkC Euclidean None B) false twC1 (twC2 x h) rsq k r lr) as [E1 E2]. fold e in E1, E2.
  exists (parallelRun cleared [[[e]]]). split.
  - exists [twC1], [twC2 x h]. split; [exact B1|]. split; [exact B2|]. unfold processCross.
    match goal with |- if ?c then _ else _ => assert (EX : c = false) end.
    { unfold crossEarlyExit, fieldCenter, fieldSize. cbn [fcoord fieldParams twQ rcoord rP cmetric cbin crpar brute1 brute2 rbrute].
      rewrite tw_size, tw_cen by lra.
      assert (C1 : centroid ThreeD twCat1 = mkpos 0 0 0) by (unfold twCat1; cen).
      assert (S1 : calculateSizeSq (centroid ThreeD twCat1) twCat1 = 0) by (rewrite C1; unfold twCat1; siz).
      rewrite S1, C1, sqrt_0, sqrt_square by lra. cbn [effSize eadd distSq isRParOutsideRange].
      rewrite ng_dist. unfold tooSmallDist, tooLargeDist.
      assert (Hms : 0 <= minsep B) by (pose proof (vb_minsep _ HV); destruct (btype B); lra).
      replace (Rltb ((0 - x) * (0 - x)) (minsep B * minsep B)) with false by (symmetry; apply Rltb_f; nra).
      replace (Rleb (maxsep B * maxsep B) ((0 - x) * (0 - x))) with false by (symmetry; apply Rleb_f; nra).
      pose proof (vb_not2d _ HV). destruct (btype B); try congruence; reflexivity. }
    rewrite EX. exists [[e]], [[[e]]]. split; [symmetry; exact He|]. split; [|reflexivity]. unfold schedule. simpl. auto.
  - assert (HG : forall f j, aget f (parallelRun cleared [[[e]]]) j = aget f cleared j + contrib f j e).
    { intros f j. rewrite (schedule_get f cleared [[e]] [[[e]]] j) by (unfold schedule; simpl; auto).
      cbn [concat app sumR]. ring. }
    destruct (tw_cell x h ltac:(lra)) as [_ [_ HW]].
    split; intro j.
    + rewrite (HG FNpairs j : a_npairs _ j = _). unfold contrib, hit, evval. rewrite Hk2, Hke, E1, E2.
      simpl. unfold aconst. destruct (j =? k)%Z; lra.
    + rewrite (HG FWeight j : a_weight _ j = _). unfold contrib, hit, evval. rewrite Hk2, Hke, E1, E2, HW.
      simpl. unfold aconst. destruct (j =? k)%Z; cbn; lra.
Qed.
Lemma tw_pairs x h : 0 < h < x -> forall sel v, sumPairs sel v twCat1 (twCat2 x h) =
  (if sel (exObj 0 1 0) (exObj (x - h) 1 0) then v (exObj 0 1 0) (exObj (x - h) 1 0) else 0) +
  (if sel (exObj 0 1 0) (exObj (x + h) 1 1) then v (exObj 0 1 0) (exObj (x + h) 1 1) else 0).
Proof. intros. unfold sumPairs, twCat1, twCat2. cbn. lra. Qed.
Lemma tw_dist x i : 0 < x -> euclid (opos (exObj 0 1 0)) (opos (exObj x 1 i)) = x.
Proof. intro. cbn [opos exObj]. rewrite euclid_x. rewrite Rabs_left; lra. Qed.

(** Linear binning: the pair at separation exactly 2, the lower edge of bin 1, is counted in bin 0. *)
Theorem C01_linear_edge_refuted : exists R cat1 cat2 s1,
  cmetric (rP R) = Euclidean /\ crpar (rP R) = None /\ validB (cbin (rP R)) /\
  slop_b (cbin (rP R)) = 0 /\ btype (cbin (rP R)) = BLinear /\ posW cat1 /\ posW cat2 /\
  runCross R cat1 cat2 cleared s1 /\
  a_npairs s1 1%Z = 0 /\ sumPairs (selBin (cbin (rP R)) euclid 1) v_one cat1 cat2 = 1.
Proof.
  destruct (tw_run exB (7/4) (1/4) ((0 - 7/4) * (0 - 7/4)) 0 (7/4) (ln (7/4))) as [s1 [HR [HN _]]];
    auto using exB_valid; try lra; try (cbn; lra); try (cbn; lia).
  - destruct (tw_cell (7/4) (1/4) ltac:(lra)) as [P2 [S2 W2]].
    unfold decide11, exB. cbn [cmetric crpar cbin btype slop_b slop_a nbins binsize].
    destruct (Req_EM_T (getW twC1) 0) as [E|_]; [cbn in E; lra|]. rewrite W2. destruct (Req_EM_T 2 0) as [E|_]; [lra|].
    rewrite P2, S2. unfold getSize, getPos. cbn [twC1 getData data1 dpos opos exObj effSize eadd distSq]. rewrite ng_dist.
    cbn [isRParOutsideRange isRParInsideRange]. unfold tooSmallDist, tooLargeDist, singleBin, isRSqInRange. cbn [minsep maxsep btype slop_a slop_b binsize].
    unfold Rltb, Rleb, Rsqr.
    replace (sqrt ((0 - 7/4) * (0 - 7/4))) with (7/4) by (replace ((0 - 7/4) * (0 - 7/4)) with ((7/4) * (7/4)) by lra; rewrite sqrt_square; lra).
    destruct (Rlt_dec ((0 - 7/4) * (0 - 7/4)) (1 * 1)); [lra|]. cbn [andb].
    destruct (Rle_dec (3 * 3) ((0 - 7/4) * (0 - 7/4))); [lra|]. cbn [andb].
    destruct (Rlt_dec (1 * 1 * ((0 - 7/4) * (0 - 7/4))) ((0 + 1/4) * (0 + 1/4))); [lra|]. destruct (Rle_dec (0 + 1/4) 0); [lra|].
    destruct (Rlt_dec (1/2 * (1 + 0)) (0 + 1/4)); [lra|].
    rewrite (trunc_eq ((7/4 - 1) / 1) 0) by (try lia; lra).
    rewrite Rmin_right by lra. destruct (Rlt_dec ((1 - ((7/4 - 1) / 1 - 0)) * 1 + 0) (0 + 1/4)); [lra|].
    destruct (Rle_dec (1 * 1) ((0 - 7/4) * (0 - 7/4))); [|lra]. destruct (Rlt_dec ((0 - 7/4) * (0 - 7/4)) (3 * 3)); [|lra]. reflexivity.
  - exists (twQ exB), twCat1, (twCat2 (7/4) (1/4)), s1. do 2 (split; [reflexivity|]). split; [apply exB_valid|].
    do 2 (split; [reflexivity|]). split; [intros o [<-|[]]; cbn; lra|]. split; [intros o [<-|[<-|[]]]; cbn; lra|].
    split; auto. split; [rewrite HN; auto|]. rewrite tw_pairs by lra. unfold selBin. rewrite !tw_dist by lra.
    change (cbin (rP (twQ exB))) with exB. rewrite !exB_in by lia. unfold Rleb, Rltb, v_one.
    repeat (destruct Rle_dec; try lra); repeat (destruct Rlt_dec; try lra); cbn; lra.
Qed.

(** Log binning with wide bins: one bin from 1 to e^4, angle_slop = 1.  A cell of half-width 0.9 r
    around r = e^2 is taken to be inside the bin, but its near end is at 0.1 e^2 < 1. *)
Definition wideB : bparams := mkB BLog 1 (1 * exp (IZR 1 * 4)) 1 4 0 1.
Lemma wideB_valid : validB wideB.
Proof. constructor; simpl; try lra; try lia; try discriminate. reflexivity. Qed.
Lemma exp2_bound : 1 < exp 2 < 10.
Proof.
  split.
  - rewrite <- exp_0. apply exp_increasing. lra.
  - replace 2 with (1 + 1) by lra. rewrite exp_plus. pose proof exp_le_3. pose proof (exp_pos 1). nra.
Qed.
Lemma exp2_ge : 2 < exp 2.
Proof. pose proof (exp_ineq1 2). lra. Qed.
Theorem C01_log_wide_bins_refuted : exists R cat1 cat2 s1,
  cmetric (rP R) = Euclidean /\ crpar (rP R) = None /\ validB (cbin (rP R)) /\
  slop_b (cbin (rP R)) = 0 /\ btype (cbin (rP R)) = BLog /\ posW cat1 /\ posW cat2 /\
  runCross R cat1 cat2 cleared s1 /\
  a_npairs s1 0%Z = 2 /\ sumPairs (selBin (cbin (rP R)) euclid 0) v_one cat1 cat2 = 1.
Proof.
  set (r := exp 2). pose proof exp2_bound as HB. pose proof exp2_ge as HG. fold r in HB, HG.
  assert (Er : exp (1 * 4) = r * r) by (unfold r; rewrite <- exp_plus; f_equal; lra).
  assert (Elr : ln r = 2) by apply ln_exp.
  assert (Elr2 : ln (r * r) = 4) by (rewrite ln_mult by lra; lra).
  destruct (tw_run wideB r (9/10 * r) ((0 - r) * (0 - r)) 0 r 2) as [s1 [HR [HN _]]];
    auto using wideB_valid; try lra; try (cbn; lia).
  - cbn [minsep maxsep wideB]. rewrite Er. nra.
  - destruct (tw_cell r (9/10 * r) ltac:(lra)) as [P2 [S2 W2]].
    unfold decide11, wideB. cbn [cmetric crpar cbin btype slop_b slop_a nbins binsize].
    destruct (Req_EM_T (getW twC1) 0) as [E|_]; [cbn in E; lra|]. rewrite W2. destruct (Req_EM_T 2 0) as [E|_]; [lra|].
    rewrite P2, S2. unfold getSize, getPos. cbn [twC1 getData data1 dpos opos exObj effSize eadd distSq]. rewrite ng_dist.
    cbn [isRParOutsideRange isRParInsideRange]. unfold tooSmallDist, tooLargeDist, singleBin, isRSqInRange, logminsep.
    cbn [minsep maxsep btype slop_a slop_b binsize]. rewrite Er, ln_1.
    replace ((0 - r) * (0 - r)) with (r * r) by ring. rewrite sqrt_square by lra. rewrite Elr2.
    set (q := r * r) in *. assert (Hq : 1 < q) by (unfold q; nra).
    replace (0 + 9/10 * r) with (9/10 * r) by ring.
    assert (Hx : (9/10 * r) * (9/10 * r) = 81/100 * q) by (unfold q; field).
    unfold Rltb, Rleb, Rsqr. rewrite Hx.
    destruct (Rlt_dec q (1 * 1)); [lra|]. cbn [andb].
    destruct (Rle_dec (1 * q * (1 * q)) q); [nra|]. cbn [andb].
    destruct (Req_EM_T (9/10 * r) 0); [lra|]. destruct (Rlt_dec (1 * 1 * q) (81/100 * q)); [lra|].
    destruct (Rle_dec (81/100 * q) (0 * 0 * q)); [lra|].
    destruct (Rlt_dec (1/4 * ((4 + 0) * (4 + 0)) * q) (81/100 * q)); [lra|].
    rewrite (trunc_eq ((1/2 * 4 - 0) / 4) 0) by (try lia; lra). rewrite Rmin_left by lra.
    match goal with |- context [Rlt_dec ?a ?b] => destruct (Rlt_dec a b) as [X|_]; [exfalso; lra|] end.
    replace (81/100 * q / q) with (81/100) by (field; lra).
    match goal with |- context [Rlt_dec ?a ?b] => destruct (Rlt_dec a b) as [X|_]; [exfalso; nra|] end.
    destruct (Rle_dec (1 * 1) q); [|lra]. destruct (Rlt_dec q (1 * q * (1 * q))); [|nra].
    cbn [andb]. f_equal. lra.
  - exists (twQ wideB), twCat1, (twCat2 r (9/10 * r)), s1. do 2 (split; [reflexivity|]). split; [apply wideB_valid|].
    do 2 (split; [reflexivity|]). split; [intros o [<-|[]]; cbn; lra|]. split; [intros o [<-|[<-|[]]]; cbn; lra|].
    split; auto. split; [rewrite HN; auto|]. rewrite tw_pairs by lra. unfold selBin. rewrite !tw_dist by lra.
    change (cbin (rP (twQ wideB))) with wideB. unfold inBinb, edge, wideB. cbn [btype minsep binsize nbins].
    replace (IZR 0 * 4) with 0 by lra. replace (IZR (0 + 1) * 4) with (1 * 4) by (cbn; lra). rewrite exp_0, Er. unfold Rleb, Rltb, v_one.
    destruct (Rle_dec (1 * 1) (r - 9/10 * r)); [lra|]. destruct (Rle_dec (1 * 1) (r + 9/10 * r)); [|lra].
    destruct (Rlt_dec (r + 9/10 * r) (1 * (r * r))); [|nra]. destruct (Rlt_dec (r - 9/10 * r) _); cbn; lra.
Qed.

(** Auto-correlation: two objects at exactly min_sep.  Their cell has size min_sep/2 and process2
    returns at "size <= halfminsep"; the pair is not counted although its separation is in bin 0. *)
Lemma par_nil k : a_npairs (parallelRun cleared [[[]]]) k = 0.
Proof. cbn. unfold aconst. lra. Qed.
Definition msCat : list obj := twCat2 (3/2) (1/2).
Theorem C02_min_sep_refuted : exists R cat s1,
  cmetric (rP R) = Euclidean /\ crpar (rP R) = None /\ validB (cbin (rP R)) /\
  slop_b (cbin (rP R)) = 0 /\ narrowLog (cbin (rP R)) /\ posW cat /\
  runAuto R cat cleared s1 /\
  a_npairs s1 0%Z = 0 /\ sumUPairs (selBin (cbin (rP R)) euclid 0) v_one cat = 1.
Proof.
  destruct (tw_build exB (3/2) (1/2) eq_refl exB_valid ltac:(lra)) as [_ B2]. fold msCat in B2.
  destruct (tw_cell (3/2) (1/2) ltac:(lra)) as [P2 [S2 W2]].
  exists (twQ exB), msCat, (parallelRun cleared [[[]]]). do 2 (split; [reflexivity|]). split; [apply exB_valid|].
  split; [reflexivity|]. split; [apply exB_narrow|]. split; [intros o [<-|[<-|[]]]; cbn; lra|]. split.
  - exists [twC2 (3/2) (1/2)]. split; [exact B2|]. exists [[]], [[[]]]. split; [|split; [unfold schedule; simpl; auto|reflexivity]].
    assert (EP : process2 (rP (twQ exB)) (twC2 (3/2) (1/2)) = Some []).
    { unfold twC2. cbn [process2]. fold (twC2 (3/2) (1/2)). rewrite W2, S2. destruct (Req_EM_T 2 0); [lra|].
      unfold eleb_fin, halfminsep. cbn [cbin rP twQ exB minsep]. rewrite Rleb_t by lra. reflexivity. }
    cbn [autoIters]. unfold autoIter. rewrite EP. reflexivity.
  - split; [apply par_nil|].
    unfold sumUPairs, msCat, twCat2. cbn [upairs map app sumR fst snd]. unfold selBin. cbn [opos exObj].
    rewrite euclid_x. replace (Rabs _) with 1 by rabs. change (cbin (rP (twQ exB))) with exB. rewrite exB_in by lia.
    unfold Rleb, Rltb, v_one. destruct Rle_dec; [|lra]. destruct Rlt_dec; [|lra]. cbn. lra.
Qed.

(** ** C42: npairs and zero weights *)
(** The documented claim is false: a pair with a zero-weight object is not counted. *)
Definition zwCat1 : list obj := [exObj 0 0 0].
Definition zwCat2 : list obj := [exObj (3/2) 1 0].
Definition zwC1 : cell := Leaf (data1 (exObj 0 0 0)) (exObj 0 0 0).
Definition zwC2 : cell := Leaf (data1 (exObj (3/2) 1 0)) (exObj (3/2) 1 0).
Theorem C42_refuted : exists R cat1 cat2 s1,
  cmetric (rP R) = Euclidean /\ crpar (rP R) = None /\ validB (cbin (rP R)) /\ nonnegW cat1 /\ nonnegW cat2 /\
  runCross R cat1 cat2 cleared s1 /\
  a_npairs s1 0%Z = 0 /\ sumPairs (selBin (cbin (rP R)) euclid 0) v_one cat1 cat2 = 1.
Proof.
  assert (BB : forall o, buildField (fieldParams (twQ exB) false) [o] [Leaf (data1 o) o]).
  { intro o. exists [[o]]. split; [apply top_stop; left; reflexivity|]. constructor; [apply b_leaf|constructor]. }
  destruct (runCross_exists (twQ exB) zwCat1 zwCat2 cleared exB_valid ltac:(discriminate) ltac:(discriminate)) as [s1 H].
  exists (twQ exB), zwCat1, zwCat2.
  assert (HS : exists s1, runCross (twQ exB) zwCat1 zwCat2 cleared s1 /\ a_npairs s1 0%Z = 0).
  { destruct (crossEarlyExit (rP (twQ exB)) (fieldCenter (fieldParams (twQ exB) false) zwCat1) (fieldCenter (fieldParams (twQ exB) false) zwCat2)
      (fieldSize (fieldParams (twQ exB) false) zwCat1) (fieldSize (fieldParams (twQ exB) false) zwCat2)) eqn:EX.
    - exists cleared. split; [|reflexivity]. exists [zwC1], [zwC2]. split; [apply BB|]. split; [apply BB|].
      unfold processCross. cbn [rbrute twQ brute1 brute2]. cbn [rP twQ] in EX |- *. rewrite EX. reflexivity.
    - exists (parallelRun cleared [[[]]]). split.
      + exists [zwC1], [zwC2]. split; [apply BB|]. split; [apply BB|].
        unfold processCross. cbn [rbrute twQ brute1 brute2]. cbn [rP twQ] in EX |- *. rewrite EX.
        exists [[]], [[[]]]. split; [|split; [unfold schedule; simpl; auto|reflexivity]].
        unfold crossIters. cbn [map oconcat]. unfold run11.
        assert (ED : decide11 (mkC Euclidean None exB) zwC1 zwC2 = Drop).
        { unfold decide11. destruct (Req_EM_T (getW zwC1) 0) as [E|E]; auto. exfalso. apply E. reflexivity. }
        change (fuel11 zwC1 zwC2) with 0%nat. cbn [process11]. rewrite ED. reflexivity.
      + apply par_nil. }
  destruct HS as [s [HR HN]]. exists s. do 2 (split; [reflexivity|]). split; [apply exB_valid|].
  split; [intros o [<-|[]]; cbn; lra|]. split; [intros o [<-|[]]; cbn; lra|]. split; auto. split; auto.
  unfold sumPairs, zwCat1, zwCat2. cbn [pairs list_prod flat_map map app sumR fst snd]. unfold selBin. cbn [opos exObj].
  rewrite euclid_x. replace (Rabs _) with (3/2) by rabs. change (cbin (rP (twQ exB))) with exB. rewrite exB_in by lia.
  unfold Rleb, Rltb, v_one. destruct Rle_dec; [|lra]. destruct Rlt_dec; [|lra]. cbn. lra.
Qed.

(** What holds with non-negative weights: npairs lies between the number of pairs of objects with
    positive weight and the number of all pairs (bin_slop = 0). *)
Lemma sumR_ge_one {A} (g : A -> R) l x : (forall y, In y l -> 0 <= g y) -> In x l -> g x <= sumR g l.
Proof.
  intros H. induction l as [|a l IH]; simpl; [contradiction|]. intros [->|Hx].
  - assert (0 <= sumR g l) by (apply sumR_nonneg; intros; apply H; right; auto). lra.
  - assert (0 <= g a) by (apply H; left; auto). assert (g x <= sumR g l) by (apply IH; auto; intros; apply H; right; auto). lra.
Qed.
Definition bothPos (sel : obj -> obj -> bool) (o1 o2 : obj) : bool := sel o1 o2 && Rltb 0 (ow o1) && Rltb 0 (ow o2).
Lemma covers_bounds P rev J1 J2 l evs (g g' : obj * obj -> R) (h : event -> R) :
  covers P rev J1 J2 l evs ->
  (forall e, directEv P rev J1 J2 e -> sumR g (evPairs e) = h e) -> (forall oo, 0 <= g' oo <= g oo) ->
  (forall cc, dropPair P J1 J2 cc -> sumR g' (cPairs cc) = 0) ->
  sumR g' l <= sumR h evs <= sumR g l.
Proof.
  intros [dr [HP [HE HD]]] He Hg Hd. rewrite (sumR_perm g _ _ HP), (sumR_perm g' _ _ HP), !sumR_app, !sumR_flat_map.
  assert (H0 : sumR (fun a => sumR g' (cPairs a)) dr = 0).
  { apply sumR_0. intros cc Hin. apply Hd. rewrite Forall_forall in HD. auto. }
  assert (H1 : sumR (fun a => sumR g (evPairs a)) evs = sumR h evs).
  { apply sumR_ext. intros e Hin. apply He. rewrite Forall_forall in HE. auto. }
  assert (H2 : sumR (fun a => sumR g' (evPairs a)) evs <= sumR (fun a => sumR g (evPairs a)) evs).
  { apply sumR_le. intros. apply sumR_le. intros. apply Hg. }
  assert (H3 : 0 <= sumR (fun a => sumR g (cPairs a)) dr).
  { apply sumR_nonneg. intros. apply sumR_nonneg. intros. pose proof (Hg x0). lra. }
  lra.
Qed.
Theorem C42_npairs_bounds R cat1 cat2 s0 s1 k :
  cmetric (rP R) = Euclidean -> crpar (rP R) = None -> validB (cbin (rP R)) ->
  slop_b (cbin (rP R)) = 0 -> narrowLog (cbin (rP R)) ->
  offEdges (cbin (rP R)) euclid cat1 cat2 ->
  nonnegW cat1 -> nonnegW cat2 ->
  runCross R cat1 cat2 s0 s1 ->
  a_npairs s0 k + sumPairs (bothPos (selBin (cbin (rP R)) euclid k)) v_one cat1 cat2 <= a_npairs s1 k <=
  a_npairs s0 k + sumPairs (selBin (cbin (rP R)) euclid k) v_one cat1 cat2.
Proof.
  intros HM Hr HB Hb HN HE Hw1 Hw2 [cells1 [cells2 [B1 [B2 H]]]].
  set (P := rP R) in *.
  assert (HS : forall o1 o2, selM P k o1 o2 = selBin (cbin P) euclid k o1 o2).
  { intros. apply selM_selBin; auto. rewrite HM. apply mdist_euclidean. }
  set (F1 := fieldParams R (brute1 (rbrute R))) in *. set (F2 := fieldParams R (brute2 (rbrute R))) in *.
  assert (HZ : zeroSlop P cat1 cat2).
  { split; auto. split; auto. rewrite HM. eapply offEdges_ext; [|exact HE]. intros; symmetry; apply mdist_euclidean. }
  assert (Hm : fst (getMinMaxSize P) = 0) by (apply minsize_b0; auto).
  assert (Hm1 : fminsize F1 = 0) by (apply fieldParams_min0; auto).
  assert (Hm2 : fminsize F2 = 0) by (apply fieldParams_min0; auto).
  pose proof (buildField_perm _ _ _ B1) as P1. pose proof (buildField_perm _ _ _ B2) as P2.
  assert (HG : forall a b, inTops cells1 a -> inTops cells2 b -> pairOK P 0 a b /\ exactCond P a b).
  { intros a b Ha Hb'. split.
    - apply (pairOK_lip P anyPos anyPos); auto; try exact I; [rewrite HM; apply lip_euclid| |].
      + exact (cells_ok0 F1 cat1 cells1 a Hm1 B1 Ha).
      + exact (cells_ok0 F2 cat2 cells2 b Hm2 B2 Hb').
    - eapply exactCond_slop; [exact HZ|exact B1|exact B2|exact Ha|exact Hb']. }
  assert (HR : forall v l1 l2 l1' l2', Permutation l1 l1' -> Permutation l2 l2' -> forall sel, sumPairs sel v l1 l2 = sumPairs sel v l1' l2').
  { intros. unfold sumPairs. apply sumR_perm, pairs_perm; auto. }
  unfold processCross in H. destruct (crossEarlyExit P _ _ _ _) eqn:EX.
  - subst s1.
    assert (Hs : forall o1 o2, In o1 cat1 -> In o2 cat2 -> selBin (cbin P) euclid k o1 o2 = false).
    { intros o1 o2 I1 I2. rewrite <- HS. apply sel_not_range; auto. right.
      eapply (lip_field P anyPos anyPos F1 F2 cat1 cat2); eauto; try exact I; try (apply centres_any); auto.
      rewrite HM. apply lip_euclid. }
    assert (Z1 : sumPairs (selBin (cbin P) euclid k) v_one cat1 cat2 = 0).
    { apply sumR_0. intros [o1 o2] Ho. apply in_pairs in Ho as [I1 I2]. cbn [fst snd]. rewrite Hs; auto. }
    assert (Z2 : sumPairs (bothPos (selBin (cbin P) euclid k)) v_one cat1 cat2 = 0).
    { apply sumR_0. intros [o1 o2] Ho. apply in_pairs in Ho as [I1 I2]. cbn [fst snd]. unfold bothPos. rewrite Hs; auto. }
    rewrite Z1, Z2. lra.
  - destruct H as [evs [threads [HEv [HSc ->]]]].
    rewrite (schedule_get FNpairs s0 evs threads k HSc : a_npairs _ k = _).
    rewrite !(HR v_one cat1 cat2 (allObjs cells1) (allObjs cells2)) by (symmetry; auto).
    assert (W1 : Forall (wf 0) cells1) by (rewrite <- Hm1; eapply (buildField_wf F1); eauto; lra).
    assert (W2 : Forall (wf 0) cells2) by (rewrite <- Hm2; eapply (buildField_wf F2); eauto; lra).
    assert (C := covers_bounds P false (inTops cells1) (inTops cells2) _ (concat evs)
       (fun oo => if selBin (cbin P) euclid k (fst oo) (snd oo) then v_one (fst oo) (snd oo) else 0)
       (fun oo => if bothPos (selBin (cbin P) euclid k) (fst oo) (snd oo) then v_one (fst oo) (snd oo) else 0)
       (contrib FNpairs k) (cross_covers P cells1 cells2 evs HEv)).
    assert (Hgoal : sumPairs (bothPos (selBin (cbin P) euclid k)) v_one (allObjs cells1) (allObjs cells2) <= sumR (contrib FNpairs k) (concat evs) <=
       sumPairs (selBin (cbin P) euclid k) v_one (allObjs cells1) (allObjs cells2)).
    { apply C.
      - intros e [a [b [rsq [k0 [r [lr [Ha [Hb' [HD ->]]]]]]]]]. unfold evPairs.
        destruct (direct_ec P false a b rsq k0 r lr) as [-> ->]. destruct (HG a b Ha Hb') as [G1 G2].
        rewrite <- (direct_sum P FNpairs k 0 a b rsq k0 r lr); auto; try (eapply inTops_wf; [|eassumption]; assumption); [|left; exact I].
        apply sumR_ext. intros [o1 o2] _. unfold specM. cbn [fst snd]. rewrite HS. reflexivity.
      - intros [o1 o2]. cbn [fst snd]. unfold bothPos, v_one. destruct (selBin _ _ _ _ _); cbn [andb]; [|lra].
        destruct (Rltb 0 (ow o1)); destruct (Rltb 0 (ow o2)); cbn; lra.
      - intros [a b] [Ha [Hb' HD]]. cbn [fst snd] in *. unfold cPairs; cbn [fst snd]. destruct (HG a b Ha Hb') as [G1 G2].
        assert (O1 : okcell 0 a) by exact (cells_ok0 F1 cat1 cells1 a Hm1 B1 Ha).
        assert (O2 : okcell 0 b) by exact (cells_ok0 F2 cat2 cells2 b Hm2 B2 Hb').
        assert (HZ0 : forall m c o, okcell m c -> (forall o, In o (objs c) -> 0 <= ow o) -> getW c = 0 -> In o (objs c) -> ow o = 0).
        { intros m c o O Hn Hz Ho. rewrite (ok_w _ _ O) in Hz.
          pose proof (sumR_ge_one ow (objs c) o Hn Ho). pose proof (Hn o Ho). lra. }
        apply sumR_0. intros [o1 o2] Ho. apply in_pairs in Ho as [I1 I2]. cbn [fst snd]. unfold bothPos.
        assert (N1 : forall o, In o (objs a) -> 0 <= ow o) by (intros o Ho; apply Hw1; exact (inTops_obj_cat F1 cat1 cells1 a o B1 Ha Ho)).
        assert (N2 : forall o, In o (objs b) -> 0 <= ow o) by (intros o Ho; apply Hw2; exact (inTops_obj_cat F2 cat2 cells2 b o B2 Hb' Ho)).
        destruct (Req_dec (getW a) 0) as [Z|Z]; [|destruct (Req_dec (getW b) 0) as [Z'|Z']].
        + rewrite (HZ0 0 a o1) by auto. rewrite (Rltb_f 0 0) by lra. rewrite andb_false_r. reflexivity.
        + rewrite (HZ0 0 b o2) by auto. rewrite (Rltb_f 0 0) by lra. rewrite andb_false_r. reflexivity.
        + rewrite <- HS, (drop_exact P 0 a b o1 o2 k) by auto. reflexivity. }
    cbn [aget]. lra.
Qed.
(** A zero-weight object at 1/4 (separations 5/4, 9/4, 5): npairs of bin 0 is between 1 and 2. *)
Definition zwCat : list obj := exObj (1/4) 0 7 :: exCat1.
Example ex_C42 : exists s1, runCross (exRun Euclidean exB BruteNo) zwCat exCat2 cleared s1 /\ 1 <= a_npairs s1 0%Z <= 2.
Proof.
  destruct (runCross_exists (exRun Euclidean exB BruteNo) zwCat exCat2 cleared) as [s1 H];
    try (apply exB_valid); try discriminate.
  exists s1. split; auto.
  assert (HB := C42_npairs_bounds (exRun Euclidean exB BruteNo) zwCat exCat2 cleared s1 0 eq_refl eq_refl exB_valid eq_refl exB_narrow).
  assert (HO : offEdges exB euclid zwCat exCat2).
  { intros E o1 o2 j Hj [<-|H1] H2; [|apply exCats_off; auto]. rewrite exB_edge. unfold exCat2 in H2; cbn in H2.
    assert (HQ : exists n, (n mod 4 <> 0)%Z /\ euclid (opos (exObj (1/4) 0 7)) (opos o2) = IZR n / 4 \/
       euclid (opos (exObj (1/4) 0 7)) (opos o2) = 5).
    { destruct H2 as [<-|[<-|[<-|[]]]]; cbn [opos exObj]; rewrite euclid_x.
      - exists 5%Z. left. split; [discriminate|]. rabs.
      - exists 9%Z. left. split; [discriminate|]. rabs.
      - exists 0%Z. right. rabs. }
    destruct HQ as [n [[Hn ->]| ->]]; [apply not_edge4; auto|]. intro Q.
    assert (IZR j = 4) by lra. apply eq_IZR in H0. cbn in Hj. lia. }
  assert (N1 : nonnegW zwCat) by (intros o [<-|Ho]; [cbn; lra|left; apply exCat1_pos; auto]).
  assert (N2 : nonnegW exCat2) by (intros o Ho; left; apply exCat2_pos; auto).
  specialize (HB HO N1 N2 H). cbn [rP exRun cbin] in HB. unfold sumPairs, zwCat, exCat1, exCat2, bothPos, selBin in HB.
  cbn [pairs list_prod flat_map map app sumR fst snd opos exObj ow cleared a_npairs] in HB. rewrite !euclid_x, !exB_in in HB by lia.
  unfold aconst, v_one in HB.
  repeat match type of HB with context [Rabs ?x] =>
    first [ rewrite (Rabs_left x) in HB by lra | rewrite (Rabs_right x) in HB by lra ] end.
  unfold Rleb, Rltb in HB. repeat (destruct Rle_dec; try (exfalso; lra)). repeat (destruct Rlt_dec; try (exfalso; lra)).
  cbn in HB. lra.
Qed.
