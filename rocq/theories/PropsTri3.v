(** Three-point correlations: examples and refutations. *)
From Coq Require Import Reals Lra Lia List ZArith Bool Permutation Psatz.
From Verif Require Import Base Geometry Tree Traverse Spec GeomFacts SumFacts TreeFacts TravFacts
  MetricFacts Cover Runs Corr3 TriCover TriStop SpecTri TriFacts TriSpec PropsTri TriMirror PropsTri2 Examples.
Import ListNotations.
Open Scope R_scope.

Lemma Reqb_t x y : x = y -> Reqb x y = true.
Proof. intro H. unfold Reqb. destruct Req_EM_T; auto; contradiction. Qed.
Lemma Reqb_f x y : x <> y -> Reqb x y = false.
Proof. intro H. unfold Reqb. destruct Req_EM_T; auto; contradiction. Qed.
(** One bin of r from 1 to 10, one of u from 0 to 1, one of |v| from mv to 1. *)
Definition triP (mv : R) : tparams :=
  mkT Euclidean Flat LogRUV 1 10 1 (ln 10) 0 1 0 1 1 1 0 mv 1 1 (1 - mv) 0.
Definition triR (mv : R) : runcfg3 := mkR3 (triP mv) Mean 0 0.
Definition triObj (x y : R) (i : nat) : obj := mkobj (mkpos x y 0) 1 1 1 0 0 i.
Lemma ln10_pos : 0 < ln 10. Proof. rewrite <- ln_1. apply ln_increasing; lra. Qed.
Lemma triP_valid mv : 0 <= mv < 1 -> validRUV (triP mv).
Proof.
  intro H. pose proof ln10_pos. constructor; cbn; auto; try lra; try lia.
  rewrite Rmult_1_l, Rmult_1_l, exp_ln; lra.
Qed.
Lemma triP_noSlop mv : noSlop3 (triP mv). Proof. repeat split; cbn; lra. Qed.

(** Bins of a triangle for these parameters. *)
Lemma shape_one mv x y z : 0 <= mv < 1 -> 0 < z < y -> y <= x -> 1 <= y < 10 -> mv * z <= x - y < z ->
  shapeIn (triP mv) 0 0 0 x y z = true.
Proof.
  intros Hm H1 H2 H3 H4. unfold shapeIn.
  cbn [triP tminsep tbinsize tnbins tnubins tnvbins tminu tubinsize tminv tvbinsize].
  rewrite !andb_true_iff, !Rltb_true, !Rleb_true, !Z.leb_le, !Z.ltb_lt.
  replace (IZR (0 + 1)) with 1 by reflexivity. rewrite !Rmult_0_l, exp_0, !Rmult_1_l, exp_ln by lra.
  assert (0 < z / y) by (apply Rdiv_lt_0_compat; lra).
  assert (z / y < 1) by (apply Rmult_lt_reg_r with y; [lra|]; unfold Rdiv; rewrite Rmult_assoc, Rinv_l; lra).
  assert (mv <= (x - y) / z) by (apply Rmult_le_reg_r with z; [lra|]; unfold Rdiv; rewrite Rmult_assoc, Rinv_l; lra).
  assert ((x - y) / z < 1) by (apply Rmult_lt_reg_r with z; [lra|]; unfold Rdiv; rewrite Rmult_assoc, Rinv_l; lra).
  repeat split; try lia; lra.
Qed.
Lemma triP_decode mv k : (k = 0 \/ k = 1)%Z -> krOf (triP mv) k = 0%Z /\ kuOf (triP mv) k = 0%Z /\
  kvOf (triP mv) k = 0%Z /\ ccwOf (triP mv) k = (k =? 1)%Z.
Proof. intros [-> | ->]; repeat split; reflexivity. Qed.
Lemma sel_one mv k a b c : 0 <= mv < 1 -> (k = 0 \/ k = 1)%Z -> 0 < side3 a b c < side2 a b c ->
  side2 a b c <= side1 a b c -> 1 <= side2 a b c < 10 ->
  mv * side3 a b c <= side1 a b c - side2 a b c < side3 a b c ->
  ccwSpec Flat a b c = (k =? 1)%Z -> selTri (triP mv) k a b c = true.
Proof.
  intros Hm Hk H1 H2 H3 H4 HC. unfold selTri. destruct (triP_decode mv k Hk) as [-> [-> [-> ->]]].
  rewrite shape_one by auto. change (tcoord (triP mv)) with Flat. rewrite HC.
  destruct (k =? 1)%Z; reflexivity.
Qed.
Lemma euc x1 y1 x2 y2 r : 0 <= r -> (x1 - x2) * (x1 - x2) + (y1 - y2) * (y1 - y2) = r * r ->
  euclid (mkpos x1 y1 0) (mkpos x2 y2 0) = r.
Proof.
  intros Hr H. apply Rsqr_inj; auto; [apply sqrt_pos|]. unfold Rsqr at 1. rewrite euclid_sq. cbn [px py pz].
  unfold Rsqr. lra.
Qed.

(** ** Example: a 3-4-5 triangle is counted once, at positive v *)
Definition exA := triObj 0 0 0. Definition exB := triObj 3 0 1. Definition exC := triObj 0 4 2.
Lemma ex_sides : side1 exA exB exC = 5 /\ side2 exA exB exC = 4 /\ side3 exA exB exC = 3.
Proof. repeat split; unfold side1, side2, side3, exA, exB, exC, triObj; cbn [opos]; apply euc; lra. Qed.
Lemma ex_noTies : noTies [exA; exB; exC].
Proof.
  assert (D : forall o, In o [exA; exB; exC] -> o = exA \/ o = exB \/ o = exC).
  { intros o [<-|[<-|[<-|[]]]]; auto. }
  assert (Z : forall o, euclid (opos o) (opos o) = 0).
  { intro o. apply Rsqr_inj; [apply sqrt_pos|lra|]. unfold Rsqr at 1. rewrite euclid_sq. unfold Rsqr. ring. }
  destruct ex_sides as [S1 [S2 S3]]. unfold side1, side2, side3 in *.
  intros a b c Ha Hb Hc [E1 E2]. unfold side1, side2, side3 in *.
  apply D in Ha, Hb, Hc. destruct Ha as [->|[->| ->]], Hb as [->|[->| ->]], Hc as [->|[->| ->]];
    rewrite ?Z, ?(euclid_sym (opos exB) (opos exA)), ?(euclid_sym (opos exC) (opos exA)),
      ?(euclid_sym (opos exC) (opos exB)), ?S1, ?S2, ?S3 in *; lra.
Qed.
Example C65_example : validRUV (r3P (triR 0)) /\ noSlop3 (r3P (triR 0)) /\
  slopOK3 (r3P (triR 0)) /\ noTies [exA; exB; exC] /\
  (forall f, weights3 f [exA; exB; exC]) /\ flatCat3 [exA; exB; exC] /\
  (exists s1, runAuto3 (triR 0) [exA; exB; exC] cleared3 s1 /\ s1 TNtri 1%Z = 1).
Proof.
  assert (V := triP_valid 0 ltac:(lra)). assert (S := triP_noSlop 0).
  assert (SK : slopOK3 (triP 0)) by (repeat split; cbn; lra).
  assert (W : forall f, weights3 f [exA; exB; exC]).
  { intros f o [<-|[<-|[<-|[]]]]; destruct f; cbn; lra. }
  split; [exact V|]. split; [exact S|]. split; [exact SK|]. split; [apply ex_noTies|]. split; [exact W|].
  split; [intros o [<-|[<-|[<-|[]]]]; reflexivity|].
  destruct (C65_exists (triR 0) [exA; exB; exC] cleared3 V SK eq_refl ltac:(discriminate)) as [s1 H1].
  exists s1. split; auto.
  rewrite (C65_auto_exact (triR 0) TNtri 1 _ _ _ V S eq_refl eq_refl (W TNtri) ex_noTies H1).
  unfold cleared3. cbn [sumTriplesU upairs map app sumR fst snd]. unfold tri6, tri1.
  destruct ex_sides as [S1 [S2 S3]]. unfold tri. change (r3P (triR 0)) with (triP 0).
  rewrite (sel_one 0 1 exA exB exC); rewrite ?S1, ?S2, ?S3; try lra; auto.
  2:{ unfold ccwSpec, ccwFlat. cbn [exA exB exC triObj opos px py]. apply Rltb_t; lra. }
  assert (F : forall a b c, ~ (side3 a b c <= side2 a b c <= side1 a b c) -> selTri (triP 0) 1 a b c = false).
  { intros a b c H. destruct (selTri (triP 0) 1 a b c) eqn:E; auto. exfalso. apply H.
    apply andb_true_iff in E as [E _]. apply shape_parts in E; auto. lra. }
  unfold side1, side2, side3 in S1, S2, S3.
  rewrite (F exA exC exB), (F exB exA exC), (F exB exC exA), (F exC exA exB), (F exC exB exA);
    try (unfold side1, side2, side3; rewrite ?(euclid_sym (opos exB) (opos exA)), ?(euclid_sym (opos exC) (opos exA)),
      ?(euclid_sym (opos exC) (opos exB)), ?S1, ?S2, ?S3; lra).
  unfold triVal. lra.
Qed.

(** The hypotheses of C66 and C67: three catalogs of one object each; the triangle turned and shifted. *)
Example C66_example : noTies ([exA] ++ [exB] ++ [exC]) /\ weights3 TNtri ([exA] ++ [exB] ++ [exC]) /\
  (exists s1, runCross3 (triR 0) O3 [exA] [exB] [exC] cleared3 s1) /\
  (exists s1, runCross12 (triR 0) O1 [exA] [exB; exC] cleared3 s1) /\
  tri (triP 0) TNtri 1 exA exB exC = 1.
Proof.
  destruct C65_example as [V [_ [SK [NT [W _]]]]].
  split; [exact NT|]. split; [exact (W TNtri)|].
  destruct (C66_exists (triR 0) O3 [exA] [exB] [exC] cleared3 V SK eq_refl) as [_ E]; try discriminate.
  split; [exact E|].
  destruct (C66_exists (triR 0) O1 [exA] [exB; exC] [exC] cleared3 V SK eq_refl) as [E' _]; try discriminate.
  split; [apply E'; discriminate|].
  destruct ex_sides as [S1 [S2 S3]]. unfold tri.
  rewrite (sel_one 0 1 exA exB exC); rewrite ?S1, ?S2, ?S3; try lra; auto.
  unfold ccwSpec, ccwFlat. cbn [exA exB exC triObj opos px py]. apply Rltb_t; lra.
Qed.
Example C67_example : (3/5) * (3/5) + (4/5) * (4/5) = 1 /\
  (exists s1', runAuto3 (triR 0) (map (moved (planeMotion (3/5) (4/5) 7 (-2))) [exA; exB; exC]) cleared3 s1') /\
  (exists s1', runAuto3 (triR 0) (map (moved flipY) [exA; exB; exC]) cleared3 s1') /\
  tri (triP 0) TNtri 0 (moved flipY exA) (moved flipY exB) (moved flipY exC) = 1.
Proof.
  destruct C65_example as [V [_ [SK [NT [W _]]]]]. split; [lra|].
  split; [apply C65_exists; auto; discriminate|]. split; [apply C65_exists; auto; discriminate|].
  rewrite flip_tri; auto; try reflexivity; try discriminate. change (mirror (triP 0) 0) with 1%Z.
  apply C66_example.
Qed.

(** ** Ties: the order of the catalogs decides on the sign of v *)
Definition lf (o : obj) : cell := Leaf (data1 o) o.
Lemma lf_field mv o : buildField (field3 (triR mv)) [o] [lf o].
Proof.
  unfold buildField. exists [[o]]. split; [apply top_stop; left; reflexivity|].
  constructor; [apply b_leaf|constructor].
Qed.
Lemma lf_decide P O a b c k : validRUV P -> tmetric P = Euclidean -> tminv P = 0 -> tmaxv P = 1 ->
  selTri P k a b c = true ->
  exists u v, decide3 P O (lf a) (lf b) (lf c) (side1 a b c * side1 a b c) (side2 a b c * side2 a b c)
    (side3 a b c * side3 a b c) = Direct3 u v k.
Proof.
  intros V HE MV HV1 HS.
  assert (SP := HS). apply andb_true_iff in SP as [SP _]. apply shape_parts in SP; auto.
  destruct SP as [A1 [A2 [A3 [A4 A5]]]].
  apply (selTri_iff P V) in HS as [HB HC].
  unfold decide3. rewrite (vt_type _ V). change (csize (lf a)) with 0. change (csize (lf b)) with 0. change (csize (lf c)) with 0.
  change (getPos (lf a)) with (opos a). change (getPos (lf b)) with (opos b). change (getPos (lf c)) with (opos c).
  set (x := side1 a b c) in *. set (y := side2 a b c) in *. set (z := side3 a b c) in *.
  assert (PR : pre3 O x y z) by (destruct O; simpl; auto; lra).
  assert (RG : exists u v, rangeRUV P O (opos a) (opos b) (opos c) x y z = Some (u, v, k)).
  { exists (z / y), (sgnv (ccwOf P k) ((x - y) / z)). rewrite rangeO by auto. apply range_iff; auto.
    exists (krOf P k), (kuOf P k), (kvOf P k). rewrite (ccw_spec P HE), HC.
    split; [exact HB|]. split; [|split; reflexivity].
    symmetry. apply place_encode; auto. destruct HB as [_ [_ [_ [_ [H _]]]]]. exact H. }
  assert (IR : inR P x y z).
  { destruct RG as [u [v RG]]. rewrite rangeO in RG by auto. apply (range_inR P O1 (opos a) (opos b) (opos c) x y z (u, v, k)); auto; try lra.
    }
  destruct (stopRUV P O (x * x) (y * y) (z * z) 0 0 0) eqn:ST.
  - exfalso. apply (stopRUV_sound P (vt_minsep _ V) (vt_minu _ V) (maxu_01 P V)) with (e1 := x) (e2 := y) (e3 := z) in ST; auto;
      try lra; try (apply minu_01; auto); try (apply maxv_0; auto);
      try (rewrite Rminus_eq_0, Rabs_R0; lra); try (apply pos_maxsep; auto).
    destruct O; simpl in ST; tauto.
  - assert (SG : singleRUV P (x * x) (y * y) (z * z) 0 0 0 = None).
    { unfold singleRUV. assert (Q : Rltb 0 0 = false) by (apply Rltb_f; lra). rewrite !Q. cbn [andb orb]. reflexivity. }
    rewrite SG, !sqrt_square by lra. destruct RG as [u [v ->]]. exists u, v. reflexivity.
Qed.
Definition tieA := triObj (-1) 0 0. Definition tieB := triObj 1 0 1. Definition tieC := triObj 0 3 2.
Lemma tie_sides : side1 tieA tieB tieC = sqrt 10 /\ side2 tieA tieB tieC = sqrt 10 /\ side3 tieA tieB tieC = 2.
Proof.
  assert (sqrt 10 * sqrt 10 = 10) by (apply sqrt_sqrt; lra). pose proof (sqrt_pos 10).
  repeat split; unfold side1, side2, side3, tieA, tieB, tieC, triObj; cbn [opos]; apply euc; lra.
Qed.
Lemma sqrt10 : 3 < sqrt 10 < 4.
Proof.
  assert (sqrt 10 * sqrt 10 = 10) by (apply sqrt_sqrt; lra). pose proof (sqrt_pos 10). split; nra.
Qed.
Lemma distSq_euc p q : distSq Euclidean p q = euclid p q * euclid p q.
Proof. rewrite euclid_sq. unfold distSq, normSq, psub. cbn [px py pz]. ring. Qed.
(** The two objects at the base of an isosceles triangle, in the given order. *)
Lemma tie_run k a b : (k = 0 \/ k = 1)%Z -> ow a = 1 -> ow b = 1 ->
  selTri (triP 0) k b a tieC = true -> side1 a b tieC = sqrt 10 -> side2 a b tieC = sqrt 10 -> side3 a b tieC = 2 ->
  exists s1, runCross3 (triR 0) O0 [a] [b] [tieC] cleared3 s1 /\
    forall j, s1 TNtri j = if (j =? k)%Z then 1 else 0.
Proof.
  intros Hk Wa Wb HS S1 S2 S3. pose proof sqrt10.
  destruct (side_swap a b tieC) as [T1 [T2 T3]].
  destruct (lf_decide (triP 0) O0 b a tieC k (triP_valid 0 ltac:(lra)) eq_refl eq_refl eq_refl HS) as [u [v HD]].
  rewrite T1, T2, T3, S1, S2, S3 in HD.
  set (e := mkev3 (lf b) (lf a) (lf tieC) (sqrt (sqrt 10 * sqrt 10)) (sqrt (sqrt 10 * sqrt 10)) (sqrt (2 * 2)) u v k).
  assert (ER : run111 (triP 0) O0 (lf a) (lf b) (lf tieC) = Some [e]).
  { unfold run111. change (fuel3 (lf a) (lf b) (lf tieC)) with 0%nat. cbn [process111].
    change (getW (lf a)) with (ow a). change (getW (lf b)) with (ow b). change (getW (lf tieC)) with 1.
    rewrite Wa, Wb. assert (Q1 : Reqb 1 0 = false) by (apply Reqb_f; lra). rewrite !Q1. cbn [orb].
    assert (Q0 : Reqb 0 0 = true) by (apply Reqb_t; auto). rewrite Q0.
    change (tbt (triP 0)) with LogRUV. change (tmetric (triP 0)) with Euclidean. cbv zeta.
    change (getPos (lf a)) with (opos a). change (getPos (lf b)) with (opos b). change (getPos (lf tieC)) with (opos tieC).
    rewrite !distSq_euc. fold (side1 a b tieC) (side2 a b tieC) (side3 a b tieC).
    change (euclid (opos b) (opos tieC)) with (side1 a b tieC). change (euclid (opos a) (opos tieC)) with (side2 a b tieC).
    change (euclid (opos a) (opos b)) with (side3 a b tieC). rewrite S1, S2, S3.
    rewrite (Rltb_f (sqrt 10 * sqrt 10) (sqrt 10 * sqrt 10)) by lra.
    rewrite (Rltb_t (2 * 2) (sqrt 10 * sqrt 10)) by nra.
    rewrite HD. reflexivity. }
  exists (parallel3 cleared3 [[[e]]]). split.
  - exists [lf a], [lf b], [lf tieC]. split; [apply lf_field|]. split; [apply lf_field|]. split; [apply lf_field|].
    exists [[e]], [[[e]]]. split; [|split; [|reflexivity]].
    + cbn [cross3Iters map]. change (r3P (triR 0)) with (triP 0). rewrite ER. reflexivity.
    + unfold schedule. simpl. auto.
  - intro j. unfold parallel3, thread3. cbn [fold_left]. unfold acc3Add, finish3, cleared3. cbn [tk e].
    change (tval TNtri e) with (1 * 1 * 1). destruct (j =? k)%Z; lra.
Qed.
Theorem C66_tie_refuted : exists R cat1 cat2 cat3 s s' k,
  validRUV (r3P R) /\ noSlop3 (r3P R) /\ tmetric (r3P R) = Euclidean /\ tminv (r3P R) = 0 /\
  weights3 TNtri (cat1 ++ cat2 ++ cat3) /\
  runCross3 R O0 cat1 cat2 cat3 cleared3 s /\ runCross3 R O0 cat2 cat1 cat3 cleared3 s' /\
  s TNtri k = 1 /\ s' TNtri k = 0.
Proof.
  pose proof sqrt10. destruct tie_sides as [S1 [S2 S3]]. destruct (side_swap tieA tieB tieC) as [T1 [T2 T3]].
  destruct (tie_run 0 tieA tieB ltac:(auto) eq_refl eq_refl) as [s [Rs Hs]]; auto.
  { apply sel_one; rewrite ?T1, ?T2, ?T3, ?S1, ?S2, ?S3; auto; try lra.
    unfold ccwSpec, ccwFlat. cbn [tieA tieB tieC triObj opos px py]. apply Rltb_f; lra. }
  destruct (tie_run 1 tieB tieA ltac:(auto) eq_refl eq_refl) as [s' [Rs' Hs']]; try (rewrite ?T1, ?T2, ?T3; auto; fail).
  { apply sel_one; rewrite ?S1, ?S2, ?S3; auto; try lra.
    unfold ccwSpec, ccwFlat. cbn [tieA tieB tieC triObj opos px py]. apply Rltb_t; lra. }
  exists (triR 0), [tieA], [tieB], [tieC], s, s', 0%Z.
  split; [apply triP_valid; lra|]. split; [apply triP_noSlop|]. split; [reflexivity|]. split; [reflexivity|].
  split; [intros o [<-|[<-|[<-|[]]]]; cbn; lra|]. split; [auto|]. split; [auto|].
  rewrite Hs, Hs'. auto.
Qed.

(** ** min_v > 0: triangles are lost, without any slop *)
Definition mvA := triObj (-5) 0 0. Definition mvB := triObj 5 0 1.
Definition mvX := triObj (1/2) 1 2. Definition mvY := triObj (-1/2) 17 3.
Definition mvPair := [mvX; mvY].
Lemma mv_cen : centroid Flat mvPair = mkpos 0 9 0.
Proof.
  unfold centroid, mvPair, mvX, mvY, triObj. cbn [sumR owpos opos px py pz].
  destruct Req_EM_T as [E|_]; [lra|]. unfold normalize, pscale. cbn [px py pz]. f_equal; field.
Qed.
Lemma mv_sizeSq : calculateSizeSq (centroid Flat mvPair) mvPair = 257 / 4.
Proof.
  rewrite mv_cen. unfold mvPair, mvX, mvY, triObj. cbn [calculateSizeSq opos]. unfold normSq, psub. cbn [px py pz].
  rewrite (Rmax_left _ 0) by lra. rewrite Rmax_left by lra. lra.
Qed.
Definition mvNd : cell := Node (dataN Flat mvPair) (Fin (sqrt (calculateSizeSq (centroid Flat mvPair) mvPair))) (lf mvX) (lf mvY).
Lemma mv_min mv : 0 <= mv -> fst (minMaxSize3 (triP mv)) = 0.
Proof.
  intro. unfold minMaxSize3. cbn [triP tmetric tbt ta tb tbu tbv tminsep tminu tmaxsep fst].
  rewrite (Rmin_right 1 0), (Rmin_left 0 0) by lra. rewrite (Rmin_left 0 0) by lra. field.
Qed.
Lemma mv_field : buildField (field3 (triR (9/10))) mvPair [mvNd].
Proof.
  unfold buildField, field3. change (r3P (triR (9/10))) with (triP (9/10)). rewrite mv_min by lra.
  cbn [fcoord fsm fmaxsize fmintop fmaxtop fminsize fbrute triR triP r3sm r3mintop r3maxtop tcoord]. rewrite Rmult_0_l.
  exists [mvPair]. split; [apply top_stop; right; right; reflexivity|]. constructor; [|constructor].
  apply (b_node Flat Mean 0 false mvPair [mvX] [mvY]); [simpl; lia|rewrite mv_sizeSq; lra| |apply b_leaf|apply b_leaf].
  apply sd_ok; try discriminate. apply sc_mean; auto. rewrite mv_cen.
  assert (ES : getSplit (boundsOf mvPair) = DY).
  { unfold getSplit, boundsOf, mvPair, mvX, mvY, triObj. cbn. unfold upd_hi, upd_lo.
    repeat (destruct Rlt_dec; try lra). reflexivity. }
  cbv zeta. rewrite ES. split; [apply Permutation_refl|]. split; constructor; auto; cbn; lra.
Qed.
Lemma mv_run : run111 (triP (9/10)) O0 (lf mvA) (lf mvB) mvNd = Some [].
Proof.
  unfold run111. change (fuel3 (lf mvA) (lf mvB) mvNd) with 1%nat. cbn [process111].
  change (getW (lf mvA)) with 1. change (getW (lf mvB)) with 1.
  assert (WN : getW mvNd = 2) by (unfold mvNd; cbn; ring). rewrite WN.
  rewrite !(Reqb_f 1 0), (Reqb_f 2 0) by lra. cbn [orb].
  rewrite (Reqb_t 0 0) by auto.
  change (tbt (triP (9/10))) with LogRUV. change (tmetric (triP (9/10))) with Euclidean. cbv zeta.
  assert (PN : getPos mvNd = mkpos 0 9 0) by (unfold mvNd, getPos; cbn [getData dataN dpos]; apply mv_cen).
  rewrite !PN. change (getPos (lf mvA)) with (mkpos (-5) 0 0). change (getPos (lf mvB)) with (mkpos 5 0 0).
  assert (D1 : distSq Euclidean (mkpos 5 0 0) (mkpos 0 9 0) = 106) by (unfold distSq, normSq, psub; cbn [px py pz]; lra).
  assert (D2 : distSq Euclidean (mkpos (-5) 0 0) (mkpos 0 9 0) = 106) by (unfold distSq, normSq, psub; cbn [px py pz]; lra).
  assert (D3 : distSq Euclidean (mkpos (-5) 0 0) (mkpos 5 0 0) = 100) by (unfold distSq, normSq, psub; cbn [px py pz]; lra).
  rewrite D1, D2, D3. rewrite (Rltb_f 106 106), (Rltb_t 100 106) by lra.
  assert (DD : decide3 (triP (9/10)) O0 (lf mvB) (lf mvA) mvNd 106 106 100 = Drop3).
  { unfold decide3. change (tbt (triP (9/10))) with LogRUV. change (csize (lf mvA)) with 0. change (csize (lf mvB)) with 0.
    assert (SN : csize mvNd * csize mvNd = 257 / 4).
    { unfold csize, mvNd. cbn [getSize efin]. rewrite mv_sizeSq. apply sqrt_sqrt; lra. }
    assert (ST : stopRUV (triP (9/10)) O0 106 106 100 0 0 (csize mvNd) = true); [|rewrite ST; reflexivity].
    unfold stopRUV. cbv zeta. change (tminv (triP (9/10))) with (9/10).
    rewrite (Rltb_t 0 (9/10)) by lra. rewrite (Rltb_t (Rsqr (0 + 0)) 100) by (unfold Rsqr; lra).
    rewrite (Rltb_t (Rsqr ((106 - 106) / (2 * sqrt 106) + (0 + 0 + csize mvNd) + 9 / 10 * (0 + 0))) (9 / 10 * (9 / 10) * 100)).
    - cbn [andb]. rewrite !orb_true_r. cbn [orb]. reflexivity.
    - replace ((106 - 106) / (2 * sqrt 106)) with 0 by (unfold Rdiv; ring). unfold Rsqr.
      replace ((0 + (0 + 0 + csize mvNd) + 9 / 10 * (0 + 0)) * (0 + (0 + 0 + csize mvNd) + 9 / 10 * (0 + 0))) with (csize mvNd * csize mvNd) by ring.
      rewrite SN. lra. }
  rewrite DD. reflexivity.
Qed.
Lemma tri_nn P k a b c : 0 <= tri P TNtri k a b c.
Proof. unfold tri. destruct selTri; unfold triVal; lra. Qed.
Theorem C65_minv_refuted : exists R cat1 cat2 cat3 s k,
  validRUV (r3P R) /\ noSlop3 (r3P R) /\ tmetric (r3P R) = Euclidean /\ 0 < tminv (r3P R) /\
  weights3 TNtri (cat1 ++ cat2 ++ cat3) /\ runCross3 R O0 cat1 cat2 cat3 cleared3 s /\
  s TNtri k = 0 /\ 1 <= sumTriples (tri6 (r3P R) TNtri k) cat1 cat2 cat3.
Proof.
  exists (triR (9/10)), [mvA], [mvB], mvPair, (parallel3 cleared3 [[[]]]), 0%Z.
  split; [apply triP_valid; lra|]. split; [apply triP_noSlop|]. split; [reflexivity|]. split; [cbn; lra|].
  split; [intros o [<-|[<-|[<-|[<-|[]]]]]; cbn; lra|]. split; [|split].
  - exists [lf mvA], [lf mvB], [mvNd]. split; [apply lf_field|]. split; [apply lf_field|]. split; [apply mv_field|].
    exists [[]], [[[]]]. split; [|split; [|reflexivity]].
    + cbn [cross3Iters map]. change (r3P (triR (9/10))) with (triP (9/10)). rewrite mv_run. reflexivity.
    + unfold schedule. simpl. auto.
  - unfold parallel3, thread3. cbn [fold_left]. unfold acc3Add, cleared3. lra.
  - change (r3P (triR (9/10))) with (triP (9/10)).
    assert (HT : selTri (triP (9/10)) 0 mvX mvA mvB = true \/ selTri (triP (9/10)) 0 mvX mvB mvA = true).
    { assert (Q1 : sqrt (125/4) * sqrt (125/4) = 125/4) by (apply sqrt_sqrt; lra). pose proof (sqrt_pos (125/4)).
      assert (Q2 : sqrt (85/4) * sqrt (85/4) = 85/4) by (apply sqrt_sqrt; lra). pose proof (sqrt_pos (85/4)).
      assert (N1 : 5.59 < sqrt (125/4) < 5.591) by (split; nra).
      assert (N2 : 4.609 < sqrt (85/4) < 4.61) by (split; nra).
      assert (X1 : side1 mvX mvB mvA = 10) by (unfold side1, mvB, mvA, triObj; cbn [opos]; apply euc; lra).
      assert (X2 : side2 mvX mvB mvA = sqrt (125/4)) by (unfold side2, mvX, mvA, triObj; cbn [opos]; apply euc; lra).
      assert (X3 : side3 mvX mvB mvA = sqrt (85/4)) by (unfold side3, mvX, mvB, triObj; cbn [opos]; apply euc; lra).
      right. apply sel_one; rewrite ?X1, ?X2, ?X3; auto; try lra.
      unfold ccwSpec, ccwFlat. cbn [mvX mvA mvB triObj opos px py]. apply Rltb_f; lra. }
    unfold sumTriples, mvPair. cbn [sumR]. unfold tri6, tri1.
    pose proof (tri_nn (triP (9/10)) 0).
    assert (1 <= tri (triP (9/10)) TNtri 0 mvX mvA mvB + tri (triP (9/10)) TNtri 0 mvX mvB mvA).
    { pose proof (H mvX mvA mvB). pose proof (H mvX mvB mvA).
      assert (T : forall a b c, selTri (triP (9/10)) 0 a b c = true -> tri (triP (9/10)) TNtri 0 a b c = 1)
        by (intros a b c E; unfold tri; rewrite E; reflexivity).
      destruct HT as [HT|HT]; apply T in HT; lra. }
    pose proof (H mvA mvB mvX). pose proof (H mvA mvX mvB). pose proof (H mvB mvA mvX). pose proof (H mvB mvX mvA).
    pose proof (H mvA mvB mvY). pose proof (H mvA mvY mvB). pose proof (H mvB mvA mvY). pose proof (H mvB mvY mvA).
    pose proof (H mvY mvA mvB). pose proof (H mvY mvB mvA). lra.
Qed.
