(** C74: the multipole traversal always finishes.  Concrete cases for C71-C74 and the
    counterexamples. *)
From Coq Require Import Reals Lra Lia List ZArith Bool Permutation Psatz.
From Verif Require Import Base Geometry Tree Traverse Spin Run Corr3 Spec SpecRun GeomFacts SumFacts TreeFacts
  BinFacts TravFacts Exact MetricFacts Cover Lift Runs
  Multi SpecMulti MultiFacts MultiFacts2 MultiIdx MultiTot MultiCV MultiVal MultiRun MultiTerm PropsMulti PropsCount.
Import ListNotations.
Open Scope R_scope.

(** The metrics for which the sizes are used unchanged. *)
Definition unchangedSizes (M : metric) : Prop :=
  M = Euclidean \/ M = ArcSphere \/ exists x y z, M = Periodic x y z.
Lemma unchanged_plain M : unchangedSizes M -> plainM M.
Proof.
  intros [->|[->|[x [y [z ->]]]]]; [apply plain_euclid|apply plain_arc|apply plain_periodic].
Qed.
Lemma fieldM_min_nonneg P b : validM P -> 0 <= fminsize (fieldM P b).
Proof.
  intros [HB [HT HR]]. unfold fieldM; cbn [fminsize]. destruct b; [lra|].
  unfold minMaxSizeM. destruct (cmetric (mC P)); cbn [fst]; try lra.
  pose proof (vb_b _ HB) as Hb. pose proof (vb_a _ HB) as Ha. pose proof (vb_minsep _ HB) as Hm. rewrite HT in Hm.
  set (b1 := Rmin _ _). assert (0 <= b1) by (unfold b1; apply Rmin_glb; auto).
  unfold mB. apply Rmult_le_pos; [nra|]. left. apply Rinv_0_lt_compat. lra.
Qed.

Lemma total_map {A B} (f : A -> option B) l : (forall x, In x l -> exists y, f x = Some y) ->
  exists ys, map Some ys = map f l.
Proof.
  induction l as [|x t IH]; intro H; [exists []; auto|].
  destruct (H x (or_introl eq_refl)) as [y Hy]. destruct IH as [ys E]; [intros; apply H; right; auto|].
  exists (y :: ys). simpl. rewrite Hy, E. auto.
Qed.
Lemma mIters_total {E F} (bf : E -> F -> bumps) (f : cell -> option (list E)) l s0 :
  (forall x, In x l -> exists y, f x = Some y) -> exists s1, mIters bf (map f l) s0 s1.
Proof.
  intro H. destruct (total_map f l H) as [evs HE]. eexists. exists evs, [evs].
  split; auto. split; [apply schedule_exists|reflexivity].
Qed.

(** ** C74: whatever the slop, no list of cells built from catalogs makes the traversal hit a null
    child, a failed Assert, or run forever. *)
Definition mMin (P : mparams) : R := fminsize (fieldM P false).
Lemma tops_tree0 P b cat cs : validM P -> buildField (fieldM P b) cat cs ->
  forall c, In c cs -> tree0 (mMin P) c.
Proof.
  intros HV H c Hc. pose proof (buildField_tree0 _ _ _ (fieldM_min_nonneg P b HV) H) as HA.
  rewrite Forall_forall in HA. destruct (HA c Hc) as [HW HT]. split; auto.
  intros c' Hs. eapply okcell_mono; [|exact (HW c' Hs)]. unfold mMin. destruct b; [|lra].
  pose proof (fieldM_min_nonneg P false HV). simpl in *. lra.
Qed.
Theorem C74_one_list P b1 b2 cat1 cat2 cs1 cs2 : validM P -> unchangedSizes (cmetric (mC P)) ->
  buildField (fieldM P b1) cat1 cs1 -> buildField (fieldM P b2) cat2 cs2 ->
  forall c1, In c1 cs1 -> exists zs, msplit1 (mC P) c1 cs2 = Some zs.
Proof.
  intros HV HU F1 F2 c1 H1. pose proof HV as [HB [HT HR]].
  apply (msplit1_total (mC P) (unchanged_plain _ HU) HR HB HT (mMin P)).
  - exact (tops_tree0 P b1 cat1 cs1 HV F1 c1 H1).
  - exact (tops_tree0 P b2 cat2 cs2 HV F2).
Qed.
Theorem C74_two_lists P b1 b2 b3 cat1 cat2 cat3 cs1 cs2 cs3 : validM P -> unchangedSizes (cmetric (mC P)) ->
  buildField (fieldM P b1) cat1 cs1 -> buildField (fieldM P b2) cat2 cs2 -> buildField (fieldM P b3) cat3 cs3 ->
  forall c1, In c1 cs1 -> exists zs, msplit2 (mC P) c1 cs2 cs3 = Some zs.
Proof.
  intros HV HU F1 F2 F3 c1 H1. pose proof HV as [HB [HT HR]].
  apply (msplit2_total (mC P) (unchanged_plain _ HU) HR HB HT (mMin P)).
  - exact (tops_tree0 P b1 cat1 cs1 HV F1 c1 H1).
  - exact (tops_tree0 P b2 cat2 cs2 HV F2).
  - exact (tops_tree0 P b3 cat3 cs3 HV F3).
Qed.
Theorem C74_runs_exist P cat1 cat2 cat3 s0 : validM P -> unchangedSizes (cmetric (mC P)) ->
  cat1 <> [] -> cat2 <> [] -> cat3 <> [] ->
  (exists s1, runMAuto P cat1 s0 s1) /\
  (forall ordered, exists s1, runMCross12 P ordered cat1 cat2 s0 s1) /\
  (forall o, exists s1, runMCross P o cat1 cat2 cat3 s0 s1).
Proof.
  intros HV HU N1 N2 N3.
  assert (X : forall b cat, cat <> [] -> exists cs, buildField (fieldM P b) cat cs)
    by (intros; apply buildField_exists; auto).
  assert (A1 : forall b1 b2 c1 c2 cs1 cs2 s, buildField (fieldM P b1) c1 cs1 -> buildField (fieldM P b2) c2 cs2 ->
    exists s1, multipole12 P cs1 cs2 s s1).
  { intros. apply mIters_total. exact (C74_one_list P b1 b2 c1 c2 cs1 cs2 HV HU H H0). }
  assert (A2 : forall b1 b2 b3 c1 c2 c3 cs1 cs2 cs3 o s, buildField (fieldM P b1) c1 cs1 ->
    buildField (fieldM P b2) c2 cs2 -> buildField (fieldM P b3) c3 cs3 ->
    exists s1, multipole3 P o cs1 cs2 cs3 s s1).
  { intros. apply mIters_total. exact (C74_two_lists P b1 b2 b3 c1 c2 c3 cs1 cs2 cs3 HV HU H H0 H1). }
  split; [|split].
  - destruct (X (bruteAuto (mbrute P)) cat1 N1) as [cs F]. destruct (A1 _ _ _ _ _ _ s0 F F) as [s1 H].
    exists s1, cs. auto.
  - intro ordered. destruct (X (brute1 (mbrute P)) cat1 N1) as [cs1 F1]. destruct (X (brute2 (mbrute P)) cat2 N2) as [cs2 F2].
    destruct ordered.
    + destruct (A1 _ _ _ _ _ _ s0 F1 F2) as [s1 H]. exists s1, cs1, cs2. auto.
    + destruct (A2 _ _ _ _ _ _ _ _ _ false s0 F2 F1 F2) as [s H]. destruct (A1 _ _ _ _ _ _ s F1 F2) as [s1 H1].
      exists s1, cs1, cs2. repeat split; auto. exists s; auto.
  - intro o. destruct (X (brute1 (mbrute P)) cat1 N1) as [cs1 F1]. destruct (X (brute2 (mbrute P)) cat2 N2) as [cs2 F2].
    destruct (X (brute3 (mbrute P)) cat3 N3) as [cs3 F3].
    assert (HX : exists s1, match o with
      | O3 => multipole3 P true cs1 cs2 cs3 s0 s1
      | O1 => multipole3 P false cs1 cs2 cs3 s0 s1
      | O0 => exists sa sb, multipole3 P false cs2 cs1 cs3 s0 sa /\
              multipole3 P false cs3 cs1 cs2 sa sb /\ multipole3 P false cs1 cs2 cs3 sb s1
      end).
    { destruct o.
      - destruct (A2 _ _ _ _ _ _ _ _ _ false s0 F2 F1 F3) as [sa Ha].
        destruct (A2 _ _ _ _ _ _ _ _ _ false sa F3 F1 F2) as [sb Hb].
        destruct (A2 _ _ _ _ _ _ _ _ _ false sb F1 F2 F3) as [s1 H1]. exists s1, sa, sb; auto.
      - exact (A2 _ _ _ _ _ _ _ _ _ false s0 F1 F2 F3).
      - exact (A2 _ _ _ _ _ _ _ _ _ true s0 F1 F2 F3). }
    destruct HX as [s1 H]. exists s1, cs1, cs2, cs3. auto.
Qed.

(** ** Polar angles exist *)
Definition dirOf (p q : pos) : R :=
  let t := acos ((px q - px p) / euclid p q) in if Rle_dec 0 (py q - py p) then t else - t.
Lemma euclid2 p q : euclid p q * euclid p q = (px p - px q) * (px p - px q) +
  (py p - py q) * (py p - py q) + (pz p - pz q) * (pz p - pz q).
Proof.
  unfold euclid. rewrite sqrt_sqrt; [ring|].
  pose proof (pow2_ge_0 (px p - px q)). pose proof (pow2_ge_0 (py p - py q)). pose proof (pow2_ge_0 (pz p - pz q)). lra.
Qed.
Lemma euclid_nn p q : 0 <= euclid p q. Proof. apply sqrt_pos. Qed.
Lemma dirOf_polar : polar dirOf.
Proof.
  intros p q Hp Hq. pose proof (euclid2 p q) as E. pose proof (euclid_nn p q) as N. rewrite Hp, Hq in E.
  unfold dirOf. set (e := euclid p q) in *. set (x := px q - px p). set (y := py q - py p).
  assert (E' : e * e = x * x + y * y) by (rewrite E; unfold x, y; ring). clear E.
  destruct (Req_dec e 0) as [Z|Z].
  { rewrite Z in *. rewrite !Rmult_0_l. split; nra. }
  assert (B : -1 <= x / e <= 1).
  { split; apply Rmult_le_reg_r with e; try lra; replace (x / e * e) with x by (field; auto); nra. }
  assert (S : sqrt (1 - (x / e)²) = Rabs y / e).
  { replace (1 - (x / e)²) with ((Rabs y / e) * (Rabs y / e)).
    - apply sqrt_square. apply Rmult_le_pos; [apply Rabs_pos|]. left; apply Rinv_0_lt_compat; lra.
    - replace (Rabs y / e * (Rabs y / e)) with (Rabs y * Rabs y / (e * e)) by (field; auto).
      replace (Rabs y * Rabs y) with (y * y) by (rewrite <- Rabs_mult, Rabs_right; nra).
      unfold Rsqr. replace (y * y) with (e * e - x * x) by lra. field; auto. }
  destruct (Rle_dec 0 y).
  - rewrite cos_acos, sin_acos, S, Rabs_right by (auto; lra). split; field; auto.
  - rewrite cos_neg, sin_neg, cos_acos, sin_acos, S, Rabs_left by (auto; lra). split; field; auto.
Qed.

(** ** A right triangle: sides 3/2 (bin 0), 2 and 5/2 (bin 1) *)
Definition mlB : bparams := mkB BLog 1 (1 * exp (IZR 2 * ln 2)) 2 (ln 2) 0 0.
Definition mlP (M : metric) (br : brutemode) : mparams := mkM (mkC M None mlB) Flat 2 br Mean 0 10.
Definition mlObj (x y w k : R) (i : nat) : obj := mkobj (mkpos x y 0) w w k 0 0 i.
Definition mA := mlObj 0 0 1 5 0.
Definition mBo := mlObj (3/2) 0 2 1 1.
Definition mCo := mlObj 0 2 3 (1/2) 2.

Lemma ml_edge k : edge mlB k = exp (IZR k * ln 2). Proof. unfold edge. simpl. ring. Qed.
Lemma ml_e0 : edge mlB 0 = 1. Proof. rewrite ml_edge, Rmult_0_l. apply exp_0. Qed.
Lemma ml_e1 : edge mlB 1 = 2. Proof. rewrite ml_edge, Rmult_1_l. apply exp_ln. lra. Qed.
Lemma ml_e2 : edge mlB 2 = 4.
Proof. rewrite ml_edge. replace (2 * ln 2) with (ln 2 + ln 2) by ring. rewrite exp_plus, exp_ln; lra. Qed.
Lemma ln2_pos : 0 < ln 2. Proof. rewrite <- ln_1. apply ln_increasing; lra. Qed.
Lemma mlB_valid : validB mlB.
Proof.
  pose proof ln2_pos. constructor; simpl; try lra; try lia; try discriminate. unfold edge; simpl; lra.
Qed.
Lemma mlP_valid M br : validM (mlP M br).
Proof. split; [apply mlB_valid|split; reflexivity]. Qed.
Lemma ml_exact M br b : exactMode (mlP M br) b. Proof. left; right; reflexivity. Qed.
Lemma ml_point M br b : pointMode (mlP M br) b. Proof. right; reflexivity. Qed.
Lemma ml_bin0 x : 1 <= x < 2 -> inBinb mlB 0 x = true /\ inBinb mlB 1 x = false.
Proof.
  intros H. split; [apply inBinb_true; split; [simpl; lia|]; change (0 + 1)%Z with 1%Z; rewrite ml_e0, ml_e1; lra|].
  destruct (inBinb mlB 1 x) eqn:E; auto. apply inBinb_true in E as [_ E]. rewrite ml_e1 in E. lra.
Qed.
Lemma ml_bin1 x : 2 <= x < 4 -> inBinb mlB 0 x = false /\ inBinb mlB 1 x = true.
Proof.
  intros H. split; [|apply inBinb_true; split; [simpl; lia|]; change (1 + 1)%Z with 2%Z; rewrite ml_e1, ml_e2; lra].
  destruct (inBinb mlB 0 x) eqn:E; auto. apply inBinb_true in E as [_ E]. change (0 + 1)%Z with 1%Z in E; rewrite ml_e0, ml_e1 in E. lra.
Qed.
Lemma euc' p q r : 0 <= r -> r * r = (px p - px q) * (px p - px q) +
  (py p - py q) * (py p - py q) + (pz p - pz q) * (pz p - pz q) -> euclid p q = r.
Proof. intros Hr H. pose proof (euclid2 p q). pose proof (euclid_nn p q). nra. Qed.
Lemma ml_AB : euclid (opos mA) (opos mBo) = 3/2 /\ euclid (opos mBo) (opos mA) = 3/2.
Proof. split; apply euc'; simpl; lra. Qed.
Lemma ml_AC : euclid (opos mA) (opos mCo) = 2 /\ euclid (opos mCo) (opos mA) = 2.
Proof. split; apply euc'; simpl; lra. Qed.
Lemma ml_BC : euclid (opos mBo) (opos mCo) = 5/2 /\ euclid (opos mCo) (opos mBo) = 5/2.
Proof. split; apply euc'; simpl; lra. Qed.

Definition mlCat := [mA; mBo; mCo].
(** the triangles with d2 in bin 1 and d3 in bin 0 *)
Lemma ml_tris T : trisAuto mlB euclid mlCat T 1%Z 0%Z = T mA mBo mCo + T mBo mA mCo.
Proof.
  unfold trisAuto, tris, triSum, mlCat. cbn [dpairs map app sumR fst snd].
  destruct ml_AB as [AB BA], ml_AC as [AC CA], ml_BC as [BC CB].
  destruct (ml_bin0 (3/2)) as [X1 X2]; [lra|]. destruct (ml_bin1 2) as [Y1 Y2]; [lra|].
  destruct (ml_bin1 (5/2)) as [Z1 Z2]; [lra|].
  assert (Z0 : forall o k, inBinb mlB k (euclid (opos o) (opos o)) = false).
  { intros o k. assert (E : euclid (opos o) (opos o) = 0) by (apply euc'; lra). rewrite E.
    destruct (inBinb mlB k 0) eqn:K; auto. apply inBinb_true in K. pose proof (inBin_range _ _ _ mlB_valid K). simpl in *. lra. }
  rewrite !Z0, AB, BA, AC, CA, BC, CB, X1, X2, Y1, Y2, Z1, Z2. cbn [andb]. lra.
Qed.
Lemma ml_flat : flatCat mlCat.
Proof. intros o [<-|[<-|[<-|[]]]]; reflexivity. Qed.
Lemma ml_distinct : distinctPos mlCat.
Proof.
  unfold distinctPos, mlCat. cbn [map opos mA mBo mCo mlObj].
  repeat constructor; simpl; intros H; repeat destruct H as [H|H]; try injection H; intros; try lra; auto.
Qed.
Lemma ml_metric : metricSep (cmetric (mC (mlP Euclidean BruteNo))) euclid.
Proof. intros p q; reflexivity. Qed.
Lemma ml_unch : unchangedSizes (cmetric (mC (mlP Euclidean BruteNo))). Proof. left; reflexivity. Qed.
Lemma ml_ve n : (-2 <= n <= 2)%Z -> validEntry (mlP Euclidean BruteNo) 1 0 n.
Proof. intro H. repeat split; simpl; lia. Qed.
(** cosine of an angle difference from the displacements *)
Lemma cos_sin_diff p q r th : polar th -> pz p = 0 -> pz q = 0 -> pz r = 0 ->
  euclid p q * euclid p r * cos (th p r - th p q) =
    (px r - px p) * (px q - px p) + (py r - py p) * (py q - py p) /\
  euclid p q * euclid p r * sin (th p r - th p q) =
    (py r - py p) * (px q - px p) - (px r - px p) * (py q - py p).
Proof.
  intros Hth Hp Hq Hr. destruct (Hth p q Hp Hq) as [A B]. destruct (Hth p r Hp Hr) as [C D].
  rewrite cos_minus, sin_minus, A, B, C, D. split; ring.
Qed.
Example C71_C72_example : exists s1,
  validM (mlP Euclidean BruteNo) /\ metricSep (cmetric (mC (mlP Euclidean BruteNo))) euclid /\
  pointMode (mlP Euclidean BruteNo) false /\ distinctPos mlCat /\ flatCat mlCat /\ polar dirOf /\
  runMAuto (mlP Euclidean BruteNo) mlCat clearedM s1 /\
  s1 MNtri (entry (mlP Euclidean BruteNo) 1 0 0) = 2 /\
  s1 MWr (entry (mlP Euclidean BruteNo) 1 0 0) = 12 /\
  s1 MZr (entry (mlP Euclidean BruteNo) 1 0 0) = 30 /\
  s1 MD2 (entry (mlP Euclidean BruteNo) 1 0 0) = 27 /\
  s1 MWr (entry (mlP Euclidean BruteNo) 1 0 1) = 18/5 /\
  s1 MWi (entry (mlP Euclidean BruteNo) 1 0 1) = 6/5.
Proof.
  destruct (C74_runs_exist (mlP Euclidean BruteNo) mlCat mlCat mlCat clearedM (mlP_valid _ _) ml_unch) as [[s1 H] _];
    try discriminate.
  exists s1. split; [apply mlP_valid|]. split; [exact ml_metric|]. split; [apply ml_point|]. split; [apply ml_distinct|].
  split; [apply ml_flat|]. split; [apply dirOf_polar|]. split; [exact H|].
  pose proof (C71_auto_counts _ euclid _ _ _ (mlP_valid _ _) ml_metric (ml_exact _ _ _) H 1%Z 0%Z (ml_ve 0 ltac:(lia))) as N.
  pose proof (C71_auto_weight0 _ euclid _ _ _ (mlP_valid _ _) ml_metric (ml_exact _ _ _) ml_distinct H 1%Z 0%Z (ml_ve 0 ltac:(lia)))
    as [W [_ [Z _]]].
  pose proof (C72_auto_sides _ euclid _ _ _ (mlP_valid _ _) ml_metric (ml_point _ _ _) ml_distinct H) as [D _].
  destruct (D 1%Z 0%Z (ml_ve 0 ltac:(lia))) as [D2 _].
  pose proof (C72_auto_phases _ dirOf _ _ _ (mlP_valid _ _) eq_refl eq_refl (ml_point _ _ _) ml_distinct ml_flat dirOf_polar H
    1%Z 0%Z 1%Z (ml_ve 1 ltac:(lia))) as [P1 [P2 _]].
  unfold addsE, clearedM in *. change (cbin (mC (mlP Euclidean BruteNo))) with mlB in *.
  rewrite ml_tris in N, W, Z, D2, P1, P2.
  rewrite N, W, Z, D2, P1, P2. destruct ml_AB as [AB BA], ml_AC as [AC CA], ml_BC as [BC CB].
  destruct (cos_sin_diff (opos mA) (opos mBo) (opos mCo) dirOf dirOf_polar) as [C1 S1]; auto.
  destruct (cos_sin_diff (opos mBo) (opos mA) (opos mCo) dirOf dirOf_polar) as [C2 S2]; auto.
  rewrite AB, AC in C1, S1. rewrite BA, BC in C2, S2.
  unfold t_one, t_www, t_kkk, t_d2, t_cos, t_sin, t_www. rewrite !Rmult_1_l, AC, BC.
  set (c1 := cos _) in *. set (x1 := sin _) in S1 |- *. set (c2 := cos _) in C2 |- *. set (x2 := sin _) in S2 |- *.
  cbn [opos px py mA mBo mCo mlObj ow okappa] in *.
  repeat split; lra.
Qed.

Lemma ml_zero o k : inBinb mlB k (euclid (opos o) (opos o)) = false.
Proof.
  assert (E : euclid (opos o) (opos o) = 0) by (apply euc'; lra). rewrite E.
  destruct (inBinb mlB k 0) eqn:K; auto. apply inBinb_true in K.
  pose proof (inBin_range _ _ _ mlB_valid K). simpl in *. lra.
Qed.
Ltac mlsums :=
  unfold tris12, tris3, tplus, tris, triSum, bothOrders, pairs; cbn [list_prod flat_map dpairs map app sumR fst snd];
  destruct ml_AB as [AB BA], ml_AC as [AC CA], ml_BC as [BC CB];
  destruct (ml_bin0 (3/2)) as [X1 X2]; [lra|]; destruct (ml_bin1 2) as [Y1 Y2]; [lra|];
  destruct (ml_bin1 (5/2)) as [Z1 Z2]; [lra|];
  rewrite ?ml_zero, ?AB, ?BA, ?AC, ?CA, ?BC, ?CB, ?X1, ?X2, ?Y1, ?Y2, ?Z1, ?Z2; cbn [andb]; try lra.
(** ordered=True: only A is point 1; ordered=False: B and C as well. *)
Example C73_example : exists s1 s2 s3,
  runMCross12 (mlP Euclidean BruteNo) true [mA] [mBo; mCo] clearedM s1 /\
  s1 MNtri (entry (mlP Euclidean BruteNo) 1 0 0) = 1 /\
  runMCross12 (mlP Euclidean BruteNo) false [mA] [mBo; mCo] clearedM s2 /\
  s2 MNtri (entry (mlP Euclidean BruteNo) 1 0 0) = 2 /\
  distinctPos [mBo; mCo] /\ flatCat [mA] /\ flatCat [mBo; mCo] /\
  runMCross (mlP Euclidean BruteNo) O3 [mA] [mBo] [mCo] clearedM s3 /\
  s3 MNtri (entry (mlP Euclidean BruteNo) 1 0 0) = 1 /\
  s3 MWr (entry (mlP Euclidean BruteNo) 1 0 2) = -6.
Proof.
  destruct (C74_runs_exist (mlP Euclidean BruteNo) [mA] [mBo; mCo] [mCo] clearedM (mlP_valid _ _) ml_unch) as [_ [R12 _]];
    try discriminate.
  destruct (C74_runs_exist (mlP Euclidean BruteNo) [mA] [mBo] [mCo] clearedM (mlP_valid _ _) ml_unch) as [_ [_ R3]];
    try discriminate.
  destruct (R12 true) as [s1 H1], (R12 false) as [s2 H2], (R3 O3) as [s3 H3]. exists s1, s2, s3.
  assert (F1 : flatCat [mA]) by (intros o [<-|[]]; reflexivity).
  assert (F2 : flatCat [mBo; mCo]) by (intros o [<-|[<-|[]]]; reflexivity).
  assert (F3 : flatCat [mBo]) by (intros o [<-|[]]; reflexivity).
  assert (F4 : flatCat [mCo]) by (intros o [<-|[]]; reflexivity).
  split; auto. split.
  { rewrite (C73_cross12_counts _ euclid _ _ _ _ _ (mlP_valid _ _) ml_metric (ml_exact _ _ _) H1 1%Z 0%Z (ml_ve 0 ltac:(lia))).
    unfold clearedM, t_one. change (cbin _) with mlB. mlsums. }
  split; auto. split.
  { rewrite (C73_cross12_counts _ euclid _ _ _ _ _ (mlP_valid _ _) ml_metric (ml_exact _ _ _) H2 1%Z 0%Z (ml_ve 0 ltac:(lia))).
    unfold clearedM, t_one. change (cbin _) with mlB. mlsums. }
  split.
  { repeat constructor; simpl; intros H; repeat destruct H as [H|H]; try injection H; intros; try lra; auto. }
  split; auto. split; auto. split; auto. split.
  { rewrite (C73_cross_counts _ euclid _ _ _ _ _ _ (mlP_valid _ _) ml_metric (ml_exact _ _ _) H3 1%Z 0%Z (ml_ve 0 ltac:(lia))).
    unfold clearedM, t_one. change (cbin _) with mlB. mlsums. }
  destruct (C73_cross_phases _ dirOf _ _ _ _ _ _ (mlP_valid _ _) eq_refl eq_refl (ml_point _ _ _) F1 F3 F4 dirOf_polar H3
    1%Z 0%Z 2%Z (ml_ve 2 ltac:(lia))) as [W _].
  rewrite W. unfold clearedM. change (cbin _) with mlB.
  destruct (cos_sin_diff (opos mA) (opos mBo) (opos mCo) dirOf dirOf_polar) as [C1 S1]; auto.
  mlsums. rewrite AB, AC in C1, S1. unfold t_cos, t_www. rewrite cos_2a.
  set (c1 := cos _) in *. set (x1 := sin _) in *. cbn [opos px py mA mBo mCo mlObj ow] in *.
  assert (c1 = 0) by lra. assert (x1 = 1) by lra. rewrite H, H0. lra.
Qed.
(** C74 with slop: bin_slop and angle_slop not 0, so that pairs of cells are taken whole. *)
Definition mlPs : mparams := mkM (mkC Euclidean None (mkB BLog 1 (1 * exp (IZR 2 * ln 2)) 2 (ln 2) (1/2) (1/10))) Flat 2 BruteNo Mean 0 10.
Example C74_example : validM mlPs /\ unchangedSizes (cmetric (mC mlPs)) /\
  0 < fminsize (fieldM mlPs false) /\ exists s1, runMAuto mlPs mlCat clearedM s1.
Proof.
  assert (V : validM mlPs).
  { pose proof ln2_pos. split; [|split; reflexivity]. constructor; simpl; try lra; try lia; try discriminate. unfold edge; simpl; lra. }
  split; auto. split; [left; reflexivity|]. split.
  - cbn. rewrite Rmin_left by lra. lra.
  - apply (C74_runs_exist mlPs mlCat mlCat mlCat clearedM V); try discriminate. left; reflexivity.
Qed.

(** ** Counterexamples *)

(** ordered=1, d2 in bin 1 and d3 in bin 0: one triangle, but meanlogd3 gains nothing. *)
Theorem C73_logd3_refuted : exists P cat1 cat2 cat3 s0 s1 k2 k3,
  validM P /\ cmetric (mC P) = Euclidean /\ pointMode P (bruteAll P) /\ validEntry P k2 k3 0 /\
  runMCross P O1 cat1 cat2 cat3 s0 s1 /\
  ~ addsE P s0 s1 MLogD3 k2 k3 0 (tris3 (cbin (mC P)) euclid O1 cat1 cat2 cat3 (t_d3 ln euclid) k2 k3).
Proof.
  set (P := mlP Euclidean BruteNo).
  destruct (C74_runs_exist P [mA] [mBo] [mCo] clearedM (mlP_valid _ _) ml_unch) as [_ [_ R3]]; try discriminate.
  destruct (R3 O1) as [s1 H1].
  exists P, [mA], [mBo], [mCo], clearedM, s1, 1%Z, 0%Z.
  split; [apply mlP_valid|]. split; auto. split; [apply ml_point|]. split; [apply ml_ve; lia|]. split; auto.
  destruct H1 as [cs1 [cs2 [cs3 [F1 [F2 [F3 H]]]]]].
  pose proof (two_logd3_actual P (mlP_valid _ _) euclid ml_metric _ _ _ _ _ _ _ _ _ F1 F2 F3
    (ml_exact _ _ _) (ml_exact _ _ _) false _ _ H (ml_point _ _ _) (ml_point _ _ _) 1%Z 0%Z eq_refl (ml_ve 0 ltac:(lia))) as A.
  unfold addsE in *. rewrite A. unfold clearedM. intro E. revert E. change (cbin _) with mlB. mlsums.
  unfold t_d3, t_www. rewrite AB. cbn [ow mA mBo mCo mlObj].
  assert (0 < ln (3/2)) by (rewrite <- ln_1; apply ln_increasing; lra). lra.
Qed.

(** Rows at the same position: they are one cell, whose weight is squared as a whole, so the
    triangles with points 2 and 3 on the two rows are counted in ntri but not in weight. *)
Definition mBo' := mlObj (3/2) 0 4 1 3.
Lemma ml_twin_cells M br b cs : buildField (fieldM (mlP M br) b) [mBo; mBo'] cs ->
  cs = [ListLeaf (dataN Flat [mBo; mBo']) [mBo; mBo']].
Proof.
  assert (C : centroid Flat [mBo; mBo'] = mkpos (3/2) 0 0).
  { unfold centroid. cbn [sumR owpos mBo mBo' mlObj]. destruct Req_EM_T; [lra|]. cbn [normalize pscale px py pz opos].
    unfold pscale; cbn [px py pz]. f_equal; simpl; lra. }
  assert (S0 : calculateSizeSq (centroid Flat [mBo; mBo']) [mBo; mBo'] = 0).
  { rewrite C. unfold calculateSizeSq. simpl. unfold normSq, psub; simpl.
    replace (_ * _ + _ * _ + _ * _) with 0 by ring. rewrite (Rmax_left 0 0), (Rmax_left 0 0) by lra. auto. }
  intros [g [Hg Hf]]. cbn [fcoord fsm fmaxsize fmintop fmaxtop fieldM mlP mcoord msm mmintop mmaxtop] in Hg.
  assert (g = [[mBo; mBo']]) as ->.
  { inversion Hg; subst; auto. exfalso. apply H. left. exact S0. }
  inversion Hf as [|? ? ? ? HB HF]; subst. inversion HF; subst. f_equal.
  inversion HB; subst; auto. exfalso. cbn [fcoord fieldM mlP mcoord] in *. rewrite S0 in H0.
  assert (0 <= fminsize (fieldM (mlP M br) b) * fminsize (fieldM (mlP M br) b)) by nra. lra.
Qed.
Theorem C71_coincident_refuted : exists P cat1 cat2 s0 s1 k,
  validM P /\ cmetric (mC P) = Euclidean /\ pointMode P (bruteAll P) /\ validEntry P k k 0 /\
  runMCross12 P true cat1 cat2 s0 s1 /\
  addsE P s0 s1 MNtri k k 0 2 /\ tris12 (cbin (mC P)) euclid true cat1 cat2 t_www k k = 16 /\
  addsE P s0 s1 MWr k k 0 0.
Proof.
  set (P := mlP Euclidean BruteNo).
  destruct (C74_runs_exist P [mA] [mBo; mBo'] [mCo] clearedM (mlP_valid _ _) ml_unch) as [_ [R12 _]]; try discriminate.
  destruct (R12 true) as [s1 H1].
  assert (AB' : euclid (opos mA) (opos mBo') = 3/2) by (apply euc'; simpl; lra).
  exists P, [mA], [mBo; mBo'], clearedM, s1, 0%Z.
  split; [apply mlP_valid|]. split; auto. split; [apply ml_point|].
  assert (VE : validEntry P 0 0 0) by (repeat split; simpl; lia). split; auto. split; auto. split.
  { pose proof (C73_cross12_counts _ euclid _ _ _ _ _ (mlP_valid _ _) ml_metric (ml_exact _ _ _) H1 0%Z 0%Z VE) as H.
    unfold addsE in *. fold P in H. rewrite H. f_equal. change (cbin _) with mlB. unfold t_one. mlsums; rewrite ?AB', ?X1; cbn [andb]; lra. }
  split.
  { change (cbin _) with mlB. unfold t_www. mlsums; rewrite ?AB', ?X1; cbn [andb ow mA mBo mBo' mlObj]; lra. }
  destruct H1 as [cs1 [cs2 [F1 [F2 H]]]]. cbn in H.
  assert (E2 := ml_twin_cells _ _ _ _ F2). unfold addsE. rewrite !ix_entry.
  pose proof (mlP_valid Euclidean BruteNo) as [HB [HT HR]].
  rewrite (auto_sum P (metricSep_plain _ _ ml_metric) HR HB HT cs1 cs2
    (good_pair P (mlP_valid _ _) euclid ml_metric _ _ _ _ _ _ F1 F2 (ml_exact _ _ _) (ml_exact _ _ _) (ml_exact _ _ _))
    clearedM s1 MWr 0%Z 0%Z 0%Z (fun _ => 0) H).
  - rewrite sumR_0; [reflexivity|]. auto.
  - simpl; lia.
  - simpl; lia.
  - cbn; lia.
  - intros z Hz. pose proof Hz as [J1 [K0 [K1 HZ]]].
    cbn [bumpsAuto]. rewrite zetaAuto_get; try (cbn; lia); auto.
    destruct (inReg _ _ _ _) eqn:EI; auto. apply reg_ge in EI as [I2 _].
    assert (HN : objs (z1 z) <> []).
    { apply (ok_ne 0). apply wf_ok. eapply inTops_wf'; [|exact J1].
      exact (field_wf P _ _ _ (mlP_valid _ _) (ml_exact _ _ _) F1). }
    destruct (objs (z1 z)) as [|i t] eqn:EO; [congruence|].
    assert (Hi : In i (i :: t)) by (left; auto).
    assert (W2 : forall b, inTops cs2 b -> wf 0 b).
    { intros b Hb. eapply inTops_wf'; [|exact Hb]. exact (field_wf P _ _ _ (mlP_valid _ _) (ml_exact _ _ _) F2). }
    assert (HT2 : forall b, inTops cs2 b -> b = ListLeaf (dataN Flat [mBo; mBo']) [mBo; mBo']).
    { intros b [x [Hx Hs]]. rewrite E2 in Hx. destruct Hx as [<-|[]]. inversion Hs; auto. }
    assert (Q1 := HZ _ _ (CV_Re0 (mC P) (inTops cs1) (inTops cs2) W2 Flat dw ow wt_w) i 0%Z Hi I2).
    assert (Q2 := HZ _ _ (CV_Im0 (mC P) (inTops cs1) (inTops cs2) Flat dw) i 0%Z Hi I2).
    assert (CW : CV (mC P) (inTops cs1) (inTops cs2) gWW (fun _ j => 6 * ow j)).
    { intros a b k r lr Ha Hb HG i' _. rewrite (HT2 b Hb). cbn. lra. }
    assert (Q3 := HZ _ _ CW i 0%Z Hi I2).
    assert (HS : forall f, selSum (mC P) f i 0 (objsL cs2) =
      if inBinb mlB 0 (mdist Euclidean (opos i) (opos mBo)) then f i mBo + f i mBo' else 0).
    { intro f. rewrite E2. unfold selSum. unfold objsL; cbn [concat map objs app sumR]. rewrite !(selM_bin (mC P) HR 0 i).
      change (opos mBo') with (opos mBo). change (cbin (mC P)) with mlB. change (cmetric (mC P)) with Euclidean.
      destruct (inBinb _ _ _); lra. }
    rewrite HS in Q1, Q2, Q3.
    cbv zeta. unfold triVal. cbn [Z.eqb]. unfold sgnPick. cbn [Z.ltb Z.to_nat Z.compare].
    unfold cnorm, mpC. cbn [fst snd]. change (mcoord P) with Flat. rewrite Q1, Q2, Q3.
    rewrite sumR_0 by auto. destruct (inBinb _ _ _); cbn [ow mBo mBo' mlObj]; ring.
Qed.

(** metric='Periodic': the direction of a separation across the border is the unwrapped
    displacement divided by the wrapped distance, so it is not a unit vector: the multipole n=1 of a
    single triangle has a modulus 9 times its weight. *)
Definition pmM : metric := Periodic 10 10 10.
Definition pmP : mparams := mlP pmM BruteNo.
Definition pmB := mlObj 9 0 1 1 1.
Definition pmC := mlObj (3/2) 0 1 1 2.
Definition psep (p q : pos) : R := sqrt (distSq pmM p q).
Lemma pm_sep : metricSep (cmetric (mC pmP)) psep.
Proof. repeat split; try lra; apply C12_periodic_distance; lra. Qed.
Lemma abs_sq a : Rabs a * Rabs a = a * a. Proof. exact (eq_sym (Rsqr_abs a)). Qed.
Lemma pm_val x i0 d : 0 <= d -> Rabs (x + IZR i0 * 10) = d -> d <= 5 ->
  psep (opos mA) (mkpos x 0 0) = d.
Proof.
  intros H0 HD H5. destruct pm_sep as [_ [_ [_ HP]]]. destruct (HP (opos mA) (mkpos x 0 0)) as [[i [j [k E]]] HL].
  apply Rle_antisym.
  - eapply Rle_trans; [apply (HL i0 0%Z 0%Z)|]. right. apply euc'; auto. unfold image; simpl.
    rewrite <- HD, abs_sq. ring.
  - rewrite E. assert (E2 := euclid2 (opos mA) (image 10 10 10 i j k (mkpos x 0 0))).
    pose proof (euclid_nn (opos mA) (image 10 10 10 i j k (mkpos x 0 0))) as N.
    set (e := euclid _ _) in *. unfold image in E2; simpl in E2.
    assert (HX : d <= Rabs (x + IZR i * 10)).
    { assert (Hi : i = i0 \/ (i <= i0 - 1)%Z \/ (i0 + 1 <= i)%Z) by lia.
      destruct Hi as [->|[Hi|Hi]]; [lra| |]; apply IZR_le in Hi; rewrite ?minus_IZR, ?plus_IZR in Hi; revert HD;
        unfold Rabs; repeat destruct Rcase_abs; intros; lra. }
    assert (Rabs (x + IZR i * 10) * Rabs (x + IZR i * 10) = (x + IZR i * 10) * (x + IZR i * 10))
      by apply abs_sq.
    set (y := IZR j * 10) in *. set (z := IZR k * 10) in *. set (X := x + IZR i * 10) in *.
    apply Rsqr_incr_0_var; auto. unfold Rsqr. rewrite E2.
    pose proof (Rle_0_sqr (0 - (0 + y))). pose proof (Rle_0_sqr (0 - (0 + z))). unfold Rsqr in *.
    assert (d * d <= Rabs X * Rabs X) by (apply Rmult_le_compat; auto). lra.
Qed.
Lemma pm_AB : psep (opos mA) (opos pmB) = 1.
Proof. apply (pm_val 9 (-1)); try lra. replace (9 + -1 * 10) with (-1) by ring. rewrite Rabs_left; lra. Qed.
Lemma pm_AC : psep (opos mA) (opos pmC) = 3/2.
Proof. apply (pm_val (3/2) 0); try lra. replace (3/2 + 0 * 10) with (3/2) by ring. rewrite Rabs_right; lra. Qed.
Theorem C73_periodic_refuted : exists P d cat1 cat2 cat3 s0 s1,
  validM P /\ metricSep (cmetric (mC P)) d /\ mcoord P = Flat /\ pointMode P (bruteAll P) /\
  flatCat cat1 /\ flatCat cat2 /\ flatCat cat3 /\ runMCross P O3 cat1 cat2 cat3 s0 s1 /\
  (forall th, ~ gainsPhases P th s0 s1 (tris3 (cbin (mC P)) d O3 cat1 cat2 cat3)).
Proof.
  assert (U : unchangedSizes (cmetric (mC pmP))) by (right; right; exists 10, 10, 10; reflexivity).
  destruct (C74_runs_exist pmP [mA] [pmB] [pmC] clearedM (mlP_valid _ _) U) as [_ [_ R3]]; try discriminate.
  destruct (R3 O3) as [s1 H1].
  assert (F : forall x w k i, flatCat [mlObj x 0 w k i]) by (intros x w k i o [<-|[]]; reflexivity).
  exists pmP, psep, [mA], [pmB], [pmC], clearedM, s1.
  split; [apply mlP_valid|]. split; [apply pm_sep|]. split; auto. split; [apply ml_point|]. split; [apply F|].
  split; [apply F|]. split; [apply F|]. split; auto. intros th HG.
  assert (VE : validEntry pmP 0 0 1) by (repeat split; simpl; lia).
  destruct (HG 0%Z 0%Z 1%Z VE) as [W _]. clear HG.
  destruct H1 as [cs1 [cs2 [cs3 [F1 [F2 [F3 H]]]]]].
  pose proof (mlP_valid pmM BruteNo) as [HB [HT HR]].
  assert (HC : forall b b' cat cat' cs cs', buildField (fieldM pmP b) cat cs -> buildField (fieldM pmP b') cat' cs' ->
    CV (mC pmP) (inTops cs) (inTops cs') (gRe (mcoord pmP) dw (Z.abs_nat 1))
       (fun i j => ow j * ((px (opos j) - px (opos i)) / psep (opos i) (opos j))) /\
    CV (mC pmP) (inTops cs) (inTops cs') (gIm (mcoord pmP) dw (Z.abs_nat 1))
       (fun i j => ow j * ((py (opos j) - py (opos i)) / psep (opos i) (opos j)))).
  { intros b b' cat cat' cs cs' G G'.
    assert (A : forall x y k r lr, inTops cs x -> inTops cs' y -> gcase (mC pmP) x y = GAdd k r lr -> forall i, In i (objs x) ->
      dw (getData y) = sumR ow (objs y) /\ forall j, In j (objs y) ->
      gz Flat (mkG x y k r lr) = ((px (opos j) - px (opos i)) / psep (opos i) (opos j), (py (opos j) - py (opos i)) / psep (opos i) (opos j))).
    { intros x y k r lr Hx Hy HGc i Hi.
      assert (Wy : wf 0 y) by (eapply inTops_wf'; [|exact Hy]; exact (field_wf pmP _ _ _ (mlP_valid _ _) (ml_exact _ _ _) G')).
      split; [exact (ok_w _ _ (wf_ok _ _ Wy))|]. intros j Hj.
      destruct (point_pair pmP (mlP_valid _ _) psep pm_sep b b' cat cat' cs cs' G G' (ml_exact _ _ _) (ml_exact _ _ _)
        (ml_exact _ _ _) x y k r lr (ml_point _ _ _) Hx Hy HGc) as [P1 P2].
      destruct (gadd_facts (mC pmP) (metricSep_plain _ _ pm_sep) HR HB HT x y k r lr HGc) as [Er _].
      unfold gz, expIPhi, cdivr. cbn [g1 g2 gr fst snd]. rewrite (P1 i Hi), (P2 j Hj).
      rewrite Er. reflexivity. }
    split; intros x y k r lr Hx Hy HGc i Hi; destruct (A x y k r lr Hx Hy HGc i Hi) as [EW EZ];
      change (Z.abs_nat 1) with 1%nat; change (mcoord pmP) with Flat; unfold gRe, gIm, cscale; cbn [fst snd g2];
      rewrite EW, <- sumR_scal_r; apply sumR_ext; intros j Hj;
      rewrite (EZ j Hj); cbn [cpow]; unfold cmul; cbn [fst snd]; ring. }
  destruct (HC _ _ _ _ _ _ F1 F2) as [C1 C2]. destruct (HC _ _ _ _ _ _ F1 F3) as [C3 C4].
  pose proof (two_zeta pmP (mlP_valid _ _) psep pm_sep _ _ _ _ _ _ _ _ _ F1 F2 F3 (ml_exact _ _ _) (ml_exact _ _ _) true
    _ _ H dw ow MWr MWi 1 _ _ wt_w (or_introl (conj eq_refl (conj eq_refl eq_refl))) C1 C2 C3 C4 0%Z 0%Z false VE) as A.
  unfold addsE in W, A. rewrite A in W. revert W. unfold clearedM. change (cbin (mC pmP)) with mlB.
  unfold tris3, tris, triSum, pairs; cbn [list_prod flat_map map app sumR fst snd].
  rewrite pm_AB, pm_AC. destruct (ml_bin0 1) as [-> _]; [lra|]. destruct (ml_bin0 (3/2)) as [-> _]; [lra|]. cbn [andb].
  unfold trig, t_cos, t_www. pose proof (COS_bound (1 * (th (opos mA) (opos pmC) - th (opos mA) (opos pmB)))) as CB.
  set (c := cos _) in *. cbn [opos px py mA pmB pmC mlObj ow]. intro E. lra.
Qed.
