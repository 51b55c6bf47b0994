(** The bins computed by isTriangleInRange are those of the specification; accumulation. *)
From Coq Require Import Reals Lra Lia List ZArith Bool Permutation Psatz.
From Verif Require Import Base Geometry Tree Traverse Spec GeomFacts SumFacts TreeFacts TravFacts
  MetricFacts Cover Runs Corr3 TriCover TriStop SpecTri TriFacts.
Import ListNotations.
Open Scope R_scope.

Definition ind (k j : Z) : R := if (k =? j)%Z then 1 else 0.

(** ** Accumulation *)
Lemma finish3_get f k evs : forall s,
  fold_left finish3 evs s f k = s f k + sumR (ev (ind k) f) evs.
Proof.
  induction evs as [|e t IH]; intro s; simpl; [lra|]. rewrite IH. unfold finish3 at 1, ev at 2, evG, ind.
  destruct (k =? tk e)%Z; lra.
Qed.
Lemma thread3_get f k iters : thread3 iters f k = sumR (sumR (ev (ind k) f)) iters.
Proof.
  unfold thread3. rewrite <- (Rplus_0_l (sumR _ iters)). change 0 with (cleared3 f k).
  generalize cleared3. induction iters as [|e t IH]; intro s; simpl; [lra|].
  rewrite IH, finish3_get. lra.
Qed.
Lemma parallel3_get f k threads : forall s0,
  parallel3 s0 threads f k = s0 f k + sumR (sumR (sumR (ev (ind k) f))) threads.
Proof.
  induction threads as [|t l IH]; intro s0; simpl; [lra|].
  unfold parallel3 in *. simpl. rewrite IH. unfold acc3Add. rewrite thread3_get. lra.
Qed.
Lemma processIters_get f k iters s0 s1 x : processIters iters s0 s1 ->
  addsL (ev (ind k) f) iters x -> s1 f k = s0 f k + x.
Proof.
  intros [evs [th [E [S ->]]]] [evs' [E' <-]].
  rewrite <- E in E'. apply map_Some_inj in E'. subst evs'.
  rewrite parallel3_get. f_equal. rewrite (sumR_perm _ _ _ S), sumR_concat. auto.
Qed.
Lemma addsL_exists e iters x s0 : addsL e iters x -> exists s1, processIters iters s0 s1.
Proof.
  intros [evs [E _]]. exists (parallel3 s0 [evs]), evs, [evs]. split; auto. split; auto.
  apply schedule_exists.
Qed.
Lemma addsL_plus k j f iters x y : addsL (ev (ind k) f) iters x -> addsL (ev (ind j) f) iters y ->
  addsL (ev (fun i => ind k i + ind j i) f) iters (x + y).
Proof.
  intros [evs [E <-]] [evs' [E' <-]]. rewrite E in E'. apply map_Some_inj in E'. subst evs'.
  exists evs. split; auto. rewrite <- sumR_plus. apply sumR_ext; intros l _.
  rewrite <- sumR_plus. apply sumR_ext; intros. unfold ev, evG. lra.
Qed.
Lemma addsL_val e iters x y : addsL e iters x -> addsL e iters y -> x = y.
Proof.
  intros [evs [E <-]] [evs' [E' <-]]. rewrite E in E'. apply map_Some_inj in E'. subst; auto.
Qed.
Lemma addsL_total e e' iters x : addsL e iters x -> exists y, addsL e' iters y.
Proof. intros [evs [E _]]. exists (sumR (sumR e') evs), evs. auto. Qed.

(** ** Bins *)
Lemma floor_iff x k : Int_part x = k <-> IZR k <= x < IZR (k + 1).
Proof.
  rewrite plus_IZR. split.
  - intros <-. apply Int_part_spec.
  - intro H. apply Int_part_unique. lra.
Qed.
Lemma log_iff m b d k : 0 < m -> 0 < b -> 0 < d ->
  (m * exp (IZR k * b) <= d <-> IZR k <= (ln d - ln m) / b).
Proof.
  intros Hm Hb Hd.
  assert (E : d = m * exp ((ln d - ln m) / b * b)).
  { replace ((ln d - ln m) / b * b) with (ln d - ln m) by (field; lra).
    unfold Rminus. rewrite exp_plus, exp_Ropp, !exp_ln by auto. field. lra. }
  split; intro H.
  - rewrite E in H at 1. apply Rmult_le_reg_l in H; auto.
    apply Rmult_le_reg_r with (r := b); auto.
    destruct (Rle_dec (IZR k * b) ((ln d - ln m) / b * b)); auto.
    assert (exp ((ln d - ln m) / b * b) < exp (IZR k * b)) by (apply exp_increasing; lra). lra.
  - rewrite E. apply Rmult_le_compat_l; [lra|].
    assert (HH : IZR k * b <= (ln d - ln m) / b * b) by (apply Rmult_le_compat_r; lra).
    destruct (Rle_lt_or_eq_dec _ _ HH) as [L|L]; [left; apply exp_increasing; auto|rewrite L; lra].
Qed.
Lemma log_iff_lt m b d k : 0 < m -> 0 < b -> 0 < d ->
  (d < m * exp (IZR k * b) <-> (ln d - ln m) / b < IZR k).
Proof.
  intros Hm Hb Hd. pose proof (log_iff m b d k Hm Hb Hd) as H. split; intro; apply Rnot_le_lt; intro;
    apply H in H1 || (apply H in H1); lra.
Qed.
Lemma lin_iff m b x k : 0 < b -> (m + IZR k * b <= x <-> IZR k <= (x - m) / b).
Proof.
  intro Hb. assert (E : x - m = (x - m) / b * b) by (field; lra). split; intro H.
  - apply Rmult_le_reg_r with (r := b); lra.
  - assert (IZR k * b <= (x - m) / b * b) by (apply Rmult_le_compat_r; lra). lra.
Qed.
Lemma lin_iff_lt m b x k : 0 < b -> (x < m + IZR k * b <-> (x - m) / b < IZR k).
Proof.
  intro Hb. pose proof (lin_iff m b x k Hb) as H. split; intro; apply Rnot_le_lt; intro;
    apply H in H1; lra.
Qed.
Lemma floorTo_in x n : 0 <= x < IZR n -> floorTo x n = Int_part x.
Proof.
  intro H. unfold floorTo. pose proof (Int_part_spec x).
  destruct (Int_part x =? n)%Z eqn:E; auto. apply Z.eqb_eq in E. rewrite E in *. lra.
Qed.
Lemma floorGe_in x n : 0 <= x < IZR n -> floorGe x n = Int_part x.
Proof.
  intro H. unfold floorGe. pose proof (Int_part_spec x).
  destruct (Int_part x >=? n)%Z eqn:E; auto. apply Z.geb_le in E. apply IZR_le in E. lra.
Qed.
Lemma Int_part_range x n : 0 <= x < IZR n -> (0 <= Int_part x < n)%Z.
Proof.
  intro H. pose proof (Int_part_spec x). split.
  - assert (-1 < Int_part x)%Z; [|lia]. apply lt_IZR. lra.
  - apply lt_IZR. lra.
Qed.

Section Bins.
Variable P : tparams.
Hypothesis V : validRUV P.
Hypothesis HE : tmetric P = Euclidean.

Definition inBins (kr ku kv : Z) (x y z : R) : Prop :=
  0 < z <= y /\ y <= x /\ (0 <= kr < tnbins P)%Z /\ (0 <= ku < tnubins P)%Z /\ (0 <= kv < tnvbins P)%Z /\
  Int_part ((ln y - ln (tminsep P)) / tbinsize P) = kr /\
  Int_part ((z / y - tminu P) / tubinsize P) = ku /\
  Int_part (((x - y) / z - tminv P) / tvbinsize P) = kv.
Lemma shapeIn_iff kr ku kv x y z : shapeIn P kr ku kv x y z = true <-> inBins kr ku kv x y z.
Proof.
  destruct V as [vt_type0 vt_minsep0 vt_bs0 vt_nb0 vt_maxsep0 vt_minu0 vt_ubs0 vt_nu0 vt_maxu0 vt_maxu10 vt_minv0 vt_vbs0 vt_nv0 vt_maxv0 vt_maxv10]. unfold shapeIn, inBins.
  rewrite !andb_true_iff, !Rltb_true, !Rleb_true, !Z.leb_le, !Z.ltb_lt, !floor_iff.
  split; intro H.
  - destruct H as [[[[[[[[[H1 H2] H3] H4] H5] H6] H7] H8] H9] H10].
    assert (0 < y) by lra.
    split; [lra|split; [lra|split; [lia|split; [lia|split; [lia|split; [|split]]]]]].
    + split; [apply log_iff|apply log_iff_lt]; auto.
    + split; [apply lin_iff|apply lin_iff_lt]; auto.
    + split; [apply lin_iff|apply lin_iff_lt]; auto; lra.
  - destruct H as [H1 [H2 [H3 [H4 [H5 [[H6 H6'] [[H7 H7'] [H8 H8']]]]]]]].
    assert (0 < y) by lra.
    apply log_iff in H6; auto. apply log_iff_lt in H6'; auto.
    apply lin_iff in H7; auto. apply lin_iff_lt in H7'; auto.
    apply lin_iff in H8; auto. apply lin_iff_lt in H8'; auto.
    repeat split; try lia; lra.
Qed.

Lemma ntot_eq : tntot P = (tnbins P * tnubins P * tnvbins P * 2)%Z.
Proof. unfold tntot. rewrite (vt_type _ V). auto. Qed.
Definition place (kr ku kv : Z) (cc : bool) : Z :=
  ((kr * tnubins P + ku) * tnvbins P * 2 + (if cc then kv + tnvbins P else tnvbins P - kv - 1))%Z.
Lemma place_range kr ku kv cc : (0 <= kr < tnbins P)%Z -> (0 <= ku < tnubins P)%Z ->
  (0 <= kv < tnvbins P)%Z -> (0 <= place kr ku kv cc < tntot P)%Z.
Proof.
  intros H1 H2 H3. rewrite ntot_eq. unfold place.
  assert (0 <= (if cc then kv + tnvbins P else tnvbins P - kv - 1) < tnvbins P * 2)%Z by (destruct cc; lia).
  set (j := (if cc then _ else _)%Z) in *. clearbody j.
  assert (0 <= kr * tnubins P + ku)%Z by nia.
  assert (kr * tnubins P + ku + 1 <= tnbins P * tnubins P)%Z by nia. nia.
Qed.
Lemma place_decode kr ku kv cc : (0 <= kr < tnbins P)%Z -> (0 <= ku < tnubins P)%Z ->
  (0 <= kv < tnvbins P)%Z ->
  krOf P (place kr ku kv cc) = kr /\ kuOf P (place kr ku kv cc) = ku /\
  kvOf P (place kr ku kv cc) = kv /\ ccwOf P (place kr ku kv cc) = cc.
Proof.
  intros H1 H2 H3.
  set (j := (if cc then kv + tnvbins P else tnvbins P - kv - 1)%Z).
  assert (Hj : (0 <= j < 2 * tnvbins P)%Z) by (unfold j; destruct cc; lia).
  assert (E : place kr ku kv cc = ((kr * tnubins P + ku) * (2 * tnvbins P) + j)%Z) by (unfold place; fold j; ring).
  assert (Q : (place kr ku kv cc / (2 * tnvbins P) = kr * tnubins P + ku)%Z).
  { symmetry. apply Z.div_unique with (r := j); [left; auto|]. rewrite E. ring. }
  assert (M : (place kr ku kv cc mod (2 * tnvbins P) = j)%Z).
  { symmetry. apply Z.mod_unique with (q := (kr * tnubins P + ku)%Z); [left; auto|]. rewrite E. ring. }
  assert (C : ccwOf P (place kr ku kv cc) = cc).
  { unfold ccwOf. rewrite M. unfold j. destruct cc; [apply Z.leb_le|apply Z.leb_gt]; lia. }
  unfold krOf, kuOf, kvOf. rewrite C, Q, M. split; [|split; [|split]]; auto.
  - symmetry. apply Z.div_unique with (r := ku); [left; auto|ring].
  - symmetry. apply Z.mod_unique with (q := kr); [left; auto|ring].
  - unfold j. destruct cc; lia.
Qed.
Lemma place_encode k : (0 <= kvOf P k < tnvbins P)%Z ->
  place (krOf P k) (kuOf P k) (kvOf P k) (ccwOf P k) = k.
Proof.
  intros _. destruct V as [vt_type0 vt_minsep0 vt_bs0 vt_nb0 vt_maxsep0 vt_minu0 vt_ubs0 vt_nu0 vt_maxu0 vt_maxu10 vt_minv0 vt_vbs0 vt_nv0 vt_maxv0 vt_maxv10]. unfold place, krOf, kuOf, kvOf, ccwOf.
  assert (E1 := Z.div_mod k (2 * tnvbins P) ltac:(lia)).
  assert (E2 := Z.div_mod (k / (2 * tnvbins P)) (tnubins P) ltac:(lia)).
  set (q := (k / (2 * tnvbins P))%Z) in *. set (j := (k mod (2 * tnvbins P))%Z) in *.
  rewrite Z.mul_comm in E2. rewrite <- E2.
  destruct (tnvbins P <=? j)%Z; lia.
Qed.

Definition sgnv (cc : bool) (v : R) : R := if cc then v else - v.
(** isTriangleInRange on sorted sides *)
Lemma range_iff p1 p2 p3 d1 d2 d3 u v k : 0 < d3 ->
  rangeRUV P O3 p1 p2 p3 d1 d2 d3 = Some (u, v, k) <->
  exists kr ku kv, inBins kr ku kv d1 d2 d3 /\
    k = place kr ku kv (ccw (tmetric P) (tcoord P) p1 p2 p3) /\
    u = d3 / d2 /\ v = sgnv (ccw (tmetric P) (tcoord P) p1 p2 p3) ((d1 - d2) / d3).
Proof.
  intro H3. destruct V as [vt_type0 vt_minsep0 vt_bs0 vt_nb0 vt_maxsep0 vt_minu0 vt_ubs0 vt_nu0 vt_maxu0 vt_maxu10 vt_minv0 vt_vbs0 vt_nv0 vt_maxv0 vt_maxv10]. unfold rangeRUV. cbn [ordAny andb].
  assert (KR : tminsep P <= d2 < tmaxsep P -> 0 < d2 ->
               0 <= (ln d2 - ln (tminsep P)) / tbinsize P < IZR (tnbins P)).
  { intros H Hd. split.
    - apply (log_iff _ _ _ 0); auto. rewrite Rmult_0_l, exp_0. lra.
    - apply log_iff_lt; auto. rewrite <- vt_maxsep0. lra. }
  assert (KU : forall w, tminu P <= w < tmaxu P -> 0 <= (w - tminu P) / tubinsize P < IZR (tnubins P)).
  { intros w H. split; [apply (lin_iff _ _ _ 0); auto; lra|apply lin_iff_lt; auto; lra]. }
  assert (KV : forall w, tminv P <= w < tmaxv P -> 0 <= (w - tminv P) / tvbinsize P < IZR (tnvbins P)).
  { intros w H. split; [apply (lin_iff _ _ _ 0); auto; lra|apply lin_iff_lt; auto; lra]. }
  split.
  - intro H.
    destruct (negb (Rleb d2 d1 && Rleb d3 d2)) eqn:A1; [discriminate|]. apply negb_false_iff in A1.
    destruct (Rltb d2 (tminsep P) || Rleb (tmaxsep P) d2) eqn:A2; [discriminate|].
    destruct (Rltb (d3 / d2) (tminu P) || Rleb (tmaxu P) (d3 / d2)) eqn:A3; [discriminate|].
    destruct (Rltb ((d1 - d2) / d3) (tminv P) || Rleb (tmaxv P) ((d1 - d2) / d3)) eqn:A4; [discriminate|].
    btrue. specialize (KR ltac:(lra) ltac:(lra)). specialize (KU (d3 / d2) ltac:(lra)).
    specialize (KV ((d1 - d2) / d3) ltac:(lra)).
    rewrite (floorTo_in _ _ KR), (floorGe_in _ _ KU), (floorGe_in _ _ KV) in H.
    pose proof (Int_part_range _ _ KR). pose proof (Int_part_range _ _ KU). pose proof (Int_part_range _ _ KV).
    eexists _, _, _. split; [|].
    { unfold inBins. repeat split; try reflexivity; try lia; lra. }
    destruct (ccw (tmetric P) (tcoord P) p1 p2 p3);
      match type of H with (if ?b then _ else _) = _ => destruct b; [discriminate|] end;
      injection H; intros; subst; unfold place, sgnv; auto.
  - intros [kr [ku [kv [HB [Hk [Hu Hv]]]]]].
    pose proof HB as [B1 [B2 [B3 [B4 [B5 [B6 [B7 B8]]]]]]].
    assert (S := proj2 (shapeIn_iff kr ku kv d1 d2 d3) HB).
    rewrite floor_iff, plus_IZR in B6, B7, B8.
    assert (IZR 0 <= IZR kr) by (apply IZR_le; lia). assert (IZR (kr + 1) <= IZR (tnbins P)) by (apply IZR_le; lia).
    assert (IZR 0 <= IZR ku) by (apply IZR_le; lia). assert (IZR (ku + 1) <= IZR (tnubins P)) by (apply IZR_le; lia).
    assert (IZR 0 <= IZR kv) by (apply IZR_le; lia). assert (IZR (kv + 1) <= IZR (tnvbins P)) by (apply IZR_le; lia).
    rewrite plus_IZR in *.
    assert (R2 : tminsep P <= d2 < tmaxsep P).
    { split.
      - replace (tminsep P) with (tminsep P * exp (IZR 0 * tbinsize P)) by (rewrite Rmult_0_l, exp_0; ring).
        apply log_iff; auto; lra.
      - rewrite vt_maxsep0. apply log_iff_lt; auto; lra. }
    assert (R3 : tminu P <= d3 / d2 < tmaxu P).
    { split.
      - replace (tminu P) with (tminu P + IZR 0 * tubinsize P) by ring. apply lin_iff; auto; lra.
      - rewrite vt_maxu0. apply lin_iff_lt; auto; lra. }
    assert (R4 : tminv P <= (d1 - d2) / d3 < tmaxv P).
    { split.
      - replace (tminv P) with (tminv P + IZR 0 * tvbinsize P) by ring. apply lin_iff; auto; lra.
      - rewrite vt_maxv0. apply lin_iff_lt; auto; lra. }
    assert (T1 : negb (Rleb d2 d1 && Rleb d3 d2) = false).
    { apply negb_false_iff, andb_true_iff. split; apply Rleb_true; lra. }
    assert (T2 : Rltb d2 (tminsep P) || Rleb (tmaxsep P) d2 = false).
    { apply orb_false_iff. split; [apply Rltb_false|apply Rleb_false]; lra. }
    assert (T3 : Rltb (d3 / d2) (tminu P) || Rleb (tmaxu P) (d3 / d2) = false).
    { apply orb_false_iff. split; [apply Rltb_false|apply Rleb_false]; lra. }
    assert (T4 : Rltb ((d1 - d2) / d3) (tminv P) || Rleb (tmaxv P) ((d1 - d2) / d3) = false).
    { apply orb_false_iff. split; [apply Rltb_false|apply Rleb_false]; lra. }
    rewrite T1, T2, T3, T4.
    rewrite (floorTo_in _ _ (KR R2 ltac:(lra))), (floorGe_in _ _ (KU _ R3)), (floorGe_in _ _ (KV _ R4)).
    unfold inBins in HB. destruct HB as [_ [_ [_ [_ [_ [-> [-> ->]]]]]]].
    pose proof (place_range kr ku kv (ccw (tmetric P) (tcoord P) p1 p2 p3) B3 B4 B5) as PR.
    unfold place in PR, Hk. unfold sgnv in Hv.
    destruct (ccw (tmetric P) (tcoord P) p1 p2 p3); rewrite <- Hk in PR; rewrite <- Hk;
      (assert (X1 : (k <? 0)%Z = false) by (apply Z.ltb_ge; lia));
      (assert (X2 : (k >=? tntot P)%Z = false) by (rewrite Z.geb_leb; apply Z.leb_gt; lia));
      rewrite X1, X2; cbn [orb]; subst u v; auto.
Qed.

Lemma ccw_spec a b c : ccw (tmetric P) (tcoord P) (opos a) (opos b) (opos c) = ccwSpec (tcoord P) a b c.
Proof.
  rewrite HE. unfold ccw, ccwSpec, ccwFlat, ccwSky, wrapM, cross, psub, dot.
  destruct (tcoord P); cbn [px py pz]; f_equal; ring.
Qed.
Lemma md_side1 a b c : mdist (tmetric P) (opos b) (opos c) = side1 a b c.
Proof. rewrite HE, mdist_euclid. unfold side1, euclid, pdist, norm, normSq, psub. cbn [px py pz]. f_equal; ring. Qed.
Lemma md_side2 a b c : mdist (tmetric P) (opos a) (opos c) = side2 a b c.
Proof. apply (md_side1 a a c). Qed.
Lemma md_side3 a b c : mdist (tmetric P) (opos a) (opos b) = side3 a b c.
Proof. apply (md_side1 a a b). Qed.

Lemma selTri_iff k a b c : selTri P k a b c = true <->
  inBins (krOf P k) (kuOf P k) (kvOf P k) (side1 a b c) (side2 a b c) (side3 a b c) /\
  ccwSpec (tcoord P) a b c = ccwOf P k.
Proof. unfold selTri. rewrite andb_true_iff, shapeIn_iff, eqb_true_iff. tauto. Qed.

(** A labelled triangle contributes to place k exactly as specified. *)
Lemma labG_sel ov k a b c : labG P (ind k) ov a b c =
  if selTri P k a b c then
    ov a b c (side1 a b c) (side2 a b c) (side3 a b c) (side3 a b c / side2 a b c)
      (if ccwSpec (tcoord P) a b c then (side1 a b c - side2 a b c) / side3 a b c
       else - ((side1 a b c - side2 a b c) / side3 a b c))
  else 0.
Proof.
  unfold labG. rewrite (md_side1 a b c), (md_side2 a b c), (md_side3 a b c).
  destruct (Rltb 0 (side3 a b c)) eqn:E3.
  - apply Rltb_true in E3.
    destruct (rangeRUV P O3 (opos a) (opos b) (opos c) (side1 a b c) (side2 a b c) (side3 a b c))
      as [[[u v] j]|] eqn:ER.
    + apply range_iff in ER; auto. destruct ER as [kr [ku [kv [HB [Hj [Hu Hv]]]]]].
      rewrite ccw_spec in *. pose proof HB as [_ [_ [B3 [B4 [B5 _]]]]].
      destruct (place_decode kr ku kv (ccwSpec (tcoord P) a b c) B3 B4 B5) as [E1 [E2 [E4 E5]]].
      rewrite <- Hj in *. unfold ind. destruct (k =? j)%Z eqn:EK.
      * apply Z.eqb_eq in EK. subst j.
        assert (S : selTri P k a b c = true) by (apply selTri_iff; rewrite EK, E1, E2, E4, E5; auto).
        rewrite S, Rmult_1_l. rewrite Hu, Hv. auto.
      * destruct (selTri P k a b c) eqn:S; [|lra]. exfalso. apply Z.eqb_neq in EK. apply EK.
        apply selTri_iff in S as [S1 S2]. pose proof S1 as [_ [_ [_ [_ [B5' [S6 [S7 S8]]]]]]].
        destruct HB as [_ [_ [_ [_ [_ [H6 [H7 H8]]]]]]].
        rewrite Hj. rewrite <- H6, <- H7, <- H8, S6, S7, S8, S2. symmetry. apply place_encode; auto.
    + destruct (selTri P k a b c) eqn:S; auto. exfalso.
      apply selTri_iff in S as [S1 S2].
      assert (X : rangeRUV P O3 (opos a) (opos b) (opos c) (side1 a b c) (side2 a b c) (side3 a b c) =
        Some (side3 a b c / side2 a b c,
              sgnv (ccw (tmetric P) (tcoord P) (opos a) (opos b) (opos c)) ((side1 a b c - side2 a b c) / side3 a b c),
              place (krOf P k) (kuOf P k) (kvOf P k) (ccw (tmetric P) (tcoord P) (opos a) (opos b) (opos c)))).
      { apply range_iff; auto. eexists _, _, _. split; [exact S1|auto]. }
      congruence.
  - apply Rltb_false in E3. destruct (selTri P k a b c) eqn:S; auto. exfalso.
    apply selTri_iff in S as [[S1 _] _]. lra.
Qed.
Lemma lab_tri f k a b c : lab P (ind k) f a b c = tri P f k a b c.
Proof.
  unfold lab. rewrite labG_sel. unfold tri, oval, triVal. destruct (selTri P k a b c); auto.
Qed.
End Bins.
