(** C86, continued: the other arrays, existence of runs, and a concrete case. *)
From Coq Require Import Reals Lra Lia List ZArith Bool Permutation Psatz.
From Verif Require Import Base Geometry Tree Traverse Spin Run Corr3 Spec SpecRun GeomFacts SumFacts TreeFacts
  BinFacts TravFacts Exact MetricFacts Cover Lift Runs SpinFacts SpecGGG GGG GGGFacts Cplx
  Multi SpecMulti MultiFacts MultiFacts2 MultiIdx MultiTot MultiCV MultiVal MultiRun MultiTerm PropsMulti PropsCount PropsMultiEx
  MultiG SpecMultiG MultiGFacts PropsMultiG.
Import ListNotations.
Open Scope R_scope.

(** ** The arrays GGG shares with NNN *)
Definition baseOf (s : accumG) : accumM := fun f => s (GB f).
Definition shared (f : mfield) : Prop := f <> MZr /\ f <> MZi.
(** the same arrays, apart from the ones GGG does not have *)
Definition sameBase (s : accumG) (t : accumM) : Prop := forall f k, shared f -> s (GB f) k = t f k.
Lemma mIters_base {E} (bfG : E -> gmfield -> bumps) (bf : E -> mfield -> bumps) iters s0 t0 s1 :
  (forall e f, shared f -> bfG e (GB f) = bf e f) ->
  sameBase s0 t0 -> mIters bfG iters s0 s1 -> exists t1, mIters bf iters t0 t1 /\ sameBase s1 t1.
Proof.
  intros HB H0 [evs [threads [H1 [H2 ->]]]]. exists (parallelM bf t0 threads).
  split; [exists evs, threads; auto|]. intros f k Hf. rewrite !parallelM_get, (H0 f k Hf). f_equal.
  apply sumR_ext. intros e _. rewrite HB; auto.
Qed.
Lemma base12 P cs1 cs2 s0 t0 s1 : sameBase s0 t0 -> multipoleG12 P cs1 cs2 s0 s1 ->
  exists t1, multipole12 P cs1 cs2 t0 t1 /\ sameBase s1 t1.
Proof.
  intros H0 H. apply (mIters_base _ (bumpsAuto P) _ _ _ _) with (2 := H0) in H; auto.
  intros e f [A B]. destruct f; try reflexivity; congruence.
Qed.
Lemma base3 P o cs1 cs2 cs3 s0 t0 s1 : sameBase s0 t0 -> multipoleG3 P o cs1 cs2 cs3 s0 s1 ->
  exists t1, multipole3 P o cs1 cs2 cs3 t0 t1 /\ sameBase s1 t1.
Proof.
  intros H0 H. apply (mIters_base _ (bumpsCross P o) _ _ _ _) with (2 := H0) in H; auto.
  intros e f [A B]. destruct f; try reflexivity; congruence.
Qed.
(** ntri, the distances and the weights are those of an NNN run with the same catalogs (C71-C73
    say what those are). *)
Theorem C86_base_auto P cat s0 s1 : runGAuto P cat s0 s1 ->
  exists t1, runMAuto P cat (baseOf s0) t1 /\ sameBase s1 t1.
Proof.
  intros [cs [F H]]. destruct (base12 P cs cs s0 (baseOf s0) s1) as [t1 [H1 H2]]; auto.
  { intros f k _; reflexivity. }
  exists t1. split; auto. exists cs. auto.
Qed.
Theorem C86_base_cross12 P ordered cat1 cat2 s0 s1 : runGCross12 P ordered cat1 cat2 s0 s1 ->
  exists t1, runMCross12 P ordered cat1 cat2 (baseOf s0) t1 /\ sameBase s1 t1.
Proof.
  intros [cs1 [cs2 [F1 [F2 H]]]]. assert (H0 : sameBase s0 (baseOf s0)) by (intros f k _; reflexivity).
  destruct ordered.
  - destruct (base12 _ _ _ _ _ _ H0 H) as [t1 [H1 H2]]. exists t1. split; auto. exists cs1, cs2. auto.
  - destruct H as [s [HA HB]]. destruct (base3 _ _ _ _ _ _ _ _ H0 HA) as [t [H1 H2]].
    destruct (base12 _ _ _ _ _ _ H2 HB) as [t1 [H3 H4]]. exists t1. split; auto. exists cs1, cs2.
    repeat split; auto. exists t; auto.
Qed.
Theorem C86_base_cross P o cat1 cat2 cat3 s0 s1 : runGCross P o cat1 cat2 cat3 s0 s1 ->
  exists t1, runMCross P o cat1 cat2 cat3 (baseOf s0) t1 /\ sameBase s1 t1.
Proof.
  intros [cs1 [cs2 [cs3 [F1 [F2 [F3 H]]]]]]. assert (H0 : sameBase s0 (baseOf s0)) by (intros f k _; reflexivity).
  destruct o.
  - destruct H as [sa [sb [HA [HB HC]]]]. destruct (base3 _ _ _ _ _ _ _ _ H0 HA) as [ta [A1 A2]].
    destruct (base3 _ _ _ _ _ _ _ _ A2 HB) as [tb [B1 B2]]. destruct (base3 _ _ _ _ _ _ _ _ B2 HC) as [t1 [C1 C2]].
    exists t1. split; auto. exists cs1, cs2, cs3. repeat split; auto. exists ta, tb; auto.
  - destruct (base3 _ _ _ _ _ _ _ _ H0 H) as [t1 [C1 C2]]. exists t1. split; auto. exists cs1, cs2, cs3. auto.
  - destruct (base3 _ _ _ _ _ _ _ _ H0 H) as [t1 [C1 C2]]. exists t1. split; auto. exists cs1, cs2, cs3. auto.
Qed.

(** ** Runs exist *)
Theorem C86_runs_exist P cat1 cat2 cat3 s0 : validM P -> unchangedSizes (cmetric (mC P)) ->
  cat1 <> [] -> cat2 <> [] -> cat3 <> [] ->
  (exists s1, runGAuto P cat1 s0 s1) /\
  (forall ordered, exists s1, runGCross12 P ordered cat1 cat2 s0 s1) /\
  (forall o, exists s1, runGCross P o cat1 cat2 cat3 s0 s1).
Proof.
  intros HV HU N1 N2 N3.
  assert (X : forall b cat, cat <> [] -> exists cs, buildField (fieldM P b) cat cs)
    by (intros; apply buildField_exists; auto).
  assert (A1 : forall b1 b2 c1 c2 cs1 cs2 s, buildField (fieldM P b1) c1 cs1 -> buildField (fieldM P b2) c2 cs2 ->
    exists s1, multipoleG12 P cs1 cs2 s s1).
  { intros. apply mIters_total. exact (C74_one_list P b1 b2 c1 c2 cs1 cs2 HV HU H H0). }
  assert (A2 : forall b1 b2 b3 c1 c2 c3 cs1 cs2 cs3 o s, buildField (fieldM P b1) c1 cs1 ->
    buildField (fieldM P b2) c2 cs2 -> buildField (fieldM P b3) c3 cs3 ->
    exists s1, multipoleG3 P o cs1 cs2 cs3 s s1).
  { intros. apply mIters_total. exact (C74_two_lists P b1 b2 b3 c1 c2 c3 cs1 cs2 cs3 HV HU H H0 H1). }
  split; [|split].
  - destruct (X (bruteAuto (mbrute P)) cat1 N1) as [cs F]. destruct (A1 _ _ _ _ _ _ s0 F F) as [s1 H].
    exists s1, cs. auto.
  - intro ordered. destruct (X (brute1 (mbrute P)) cat1 N1) as [cs1 F1]. destruct (X (brute2 (mbrute P)) cat2 N2) as [cs2 F2].
    destruct ordered.
    + destruct (A1 _ _ _ _ _ _ s0 F1 F2) as [s1 H]. exists s1, cs1, cs2. auto.
    + destruct (A2 _ _ _ _ _ _ _ _ _ false s0 F2 F1 F2) as [s H]. destruct (A1 _ _ _ _ _ _ s F1 F2) as [s1 H1].
      exists s1, cs1, cs2. repeat split; auto. exists s; auto.
  - intro o. destruct (X (brute1 (mbrute P)) cat1 N1) as [cs1 F1]. destruct (X (brute2 (mbrute P)) cat2 N2) as [cs2 F2].
    destruct (X (brute3 (mbrute P)) cat3 N3) as [cs3 F3].
    assert (HX : exists s1, match o with
      | O3 => multipoleG3 P true cs1 cs2 cs3 s0 s1
      | O1 => multipoleG3 P false cs1 cs2 cs3 s0 s1
      | O0 => exists sa sb, multipoleG3 P false cs2 cs1 cs3 s0 sa /\
              multipoleG3 P false cs3 cs1 cs2 sa sb /\ multipoleG3 P false cs1 cs2 cs3 sb s1
      end).
    { destruct o.
      - destruct (A2 _ _ _ _ _ _ _ _ _ false s0 F2 F1 F3) as [sa Ha].
        destruct (A2 _ _ _ _ _ _ _ _ _ false sa F3 F1 F2) as [sb Hb].
        destruct (A2 _ _ _ _ _ _ _ _ _ false sb F1 F2 F3) as [s1 H1]. exists s1, sa, sb; auto.
      - exact (A2 _ _ _ _ _ _ _ _ _ false s0 F1 F2 F3).
      - exact (A2 _ _ _ _ _ _ _ _ _ true s0 F1 F2 F3). }
    destruct HX as [s1 H]. exists s1, cs1, cs2, cs3. auto.
Qed.

(** ** The triangle of PropsMultiEx with shears: a real g for points A and C, an imaginary one for B *)
Definition gmA := mkobj (mkpos 0 0 0) 1 1 0 1 0 0.
Definition gmB := mkobj (mkpos (3/2) 0 0) 2 2 0 0 1 1.
Definition gmC := mkobj (mkpos 0 2 0) 3 3 0 1 0 2.
Definition gmCat := [gmA; gmB; gmC].
Definition gmP := mlP Euclidean BruteNo.
Lemma gm_tris T : trisAuto mlB euclid gmCat T 1%Z 0%Z = T gmA gmB gmC + T gmB gmA gmC.
Proof.
  unfold trisAuto, tris, triSum, gmCat. cbn [dpairs map app sumR fst snd].
  destruct ml_AB as [AB BA], ml_AC as [AC CA], ml_BC as [BC CB].
  change (opos mA) with (opos gmA) in *. change (opos mBo) with (opos gmB) in *. change (opos mCo) with (opos gmC) in *.
  destruct (ml_bin0 (3/2)) as [X1 X2]; [lra|]. destruct (ml_bin1 2) as [Y1 Y2]; [lra|].
  destruct (ml_bin1 (5/2)) as [Z1 Z2]; [lra|].
  rewrite !ml_zero, AB, BA, AC, CA, BC, CB, X1, X2, Y1, Y2, Z1, Z2. cbn [andb]. lra.
Qed.
Lemma gm_flat : flatCat gmCat.
Proof. intros o [<-|[<-|[<-|[]]]]; reflexivity. Qed.
Lemma gm_distinct : distinctPos gmCat. Proof. exact ml_distinct. Qed.
Lemma cis_dir p q e : pz p = 0 -> pz q = 0 -> 0 < e -> euclid p q = e ->
  cis (dirOf p q) = ((px q - px p) / e, (py q - py p) / e).
Proof.
  intros Hp Hq He E. destruct (dirOf_polar p q Hp Hq) as [A B]. rewrite E in A, B. unfold cis.
  f_equal; [rewrite A|rewrite B]; field; lra.
Qed.
Lemma cis_minus2 t : cis (- (2 * t)) = cconj (cis t * cis t)%C.
Proof. rewrite cis_add, <- cis_conj. f_equal. f_equal. ring. Qed.
Example C86_example : exists s1,
  validM gmP /\ cmetric (mC gmP) = Euclidean /\ mcoord gmP = Flat /\ pointMode gmP false /\ distinctPos gmCat /\
  flatCat gmCat /\ polar dirOf /\
  runGAuto gmP gmCat clearedM s1 /\
  s1 (gamArr 0 false) (entry gmP 1 0 0) = - (1014/125).
Proof.
  destruct (C86_runs_exist gmP gmCat gmCat gmCat clearedM (mlP_valid _ _) ml_unch) as [[s1 H] _];
    try discriminate.
  exists s1. split; [apply mlP_valid|]. split; [reflexivity|]. split; [reflexivity|]. split; [apply ml_point|].
  split; [apply gm_distinct|]. split; [apply gm_flat|]. split; [apply dirOf_polar|]. split; [exact H|].
  rewrite (C86_auto gmP dirOf gmCat clearedM s1 (mlP_valid _ _) eq_refl eq_refl (ml_point _ _ _) gm_distinct gm_flat
    dirOf_polar H 0%nat false 1%Z 0%Z 0%Z ltac:(lia) (ml_ve 0 ltac:(lia))).
  change (cbin (mC gmP)) with mlB. rewrite gm_tris, !multVal_cis. cbn [Nat.eqb cj].
  destruct ml_AB as [AB BA], ml_AC as [AC CA], ml_BC as [BC CB].
  change (opos mA) with (opos gmA) in *. change (opos mBo) with (opos gmB) in *. change (opos mCo) with (opos gmC) in *.
  pose proof (cis_dir (opos gmA) (opos gmB) (3/2) eq_refl eq_refl ltac:(lra) AB) as D1.
  pose proof (cis_dir (opos gmA) (opos gmC) 2 eq_refl eq_refl ltac:(lra) AC) as D2.
  pose proof (cis_dir (opos gmB) (opos gmA) (3/2) eq_refl eq_refl ltac:(lra) BA) as D3.
  pose proof (cis_dir (opos gmB) (opos gmC) (5/2) eq_refl eq_refl ltac:(lra) BC) as D4.
  set (t1 := dirOf (opos gmA) (opos gmB)) in *. set (t2 := dirOf (opos gmA) (opos gmC)) in *.
  set (t3 := dirOf (opos gmB) (opos gmA)) in *. set (t4 := dirOf (opos gmB) (opos gmC)) in *.
  rewrite !Rmult_0_l, !cis_minus2, <- !cis_conj, <- !cis_add, D1, D2, D3, D4.
  replace (cis 0) with c1 by (unfold cis; rewrite cos_0, sin_0; reflexivity).
  unfold clearedM, part, c1, IZC, cR, owg, cconj, cmul. cbn. field.
Qed.
