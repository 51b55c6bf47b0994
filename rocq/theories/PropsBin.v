(** C26, C44: completion of binning parameters and units. *)
From Coq Require Import Reals Lra Lia List ZArith Bool Psatz.
From Verif Require Import Base Geometry Tree Traverse Spec GeomFacts BinFacts Corr PropsMean Binning.
Import ListNotations.
Open Scope R_scope.

Lemma ceilZ_spec x : x <= IZR (ceilZ x) < x + 1.
Proof.
  unfold ceilZ. destruct (base_Int_part (- x)) as [H1 H2]. rewrite opp_IZR. lra.
Qed.
(** The arguments make sense: bin_size, nbins positive if given; min_sep non-negative for TwoD and
    Linear if given. *)
Definition saneArgs (a : binargs) : Prop :=
  (forall s, g_size a = Some s -> 0 < s) /\ (forall n, g_nbins a = Some n -> (0 < n)%Z) /\
  (g_type a = BTwoD -> forall m, g_min a = Some m -> 0 <= m).

(** What "complete" should mean, per bin type. *)
Definition isComplete (t : bintype) (p : binpars) : Prop :=
  (0 < c_nbins p)%Z /\ 0 < c_size p /\
  match t with
  | BLog => 0 < c_min p /\ c_max p = c_min p * exp (IZR (c_nbins p) * c_size p)
  | BLinear => c_max p = c_min p + IZR (c_nbins p) * c_size p
  | BTwoD => IZR (c_nbins p) * c_size p = 2 * c_max p
  end.
Definition keepsGiven (a : binargs) (p : binpars) : Prop :=
  (forall x, g_min a = Some x -> c_min p = x) /\ (forall x, g_max a = Some x -> c_max p = x) /\
  (forall n, g_nbins a = Some n -> c_nbins p = n) /\
  (* the bin size is kept if the number of bins is given; otherwise it is reduced as little as possible *)
  (forall s, g_size a = Some s ->
     (g_nbins a <> None -> c_size p = s) /\
     (g_nbins a = None -> c_size p <= s /\ s * IZR (c_nbins p - 1) < c_size p * IZR (c_nbins p))).

Lemma range_pos a mn mx : g_type a = BTwoD \/ True -> mn < mx -> logOK (g_type a) mn = true ->
  (g_type a = BTwoD -> 0 <= mn) -> 0 < rangeOf (g_type a) mn mx.
Proof.
  intros _ H HL H2. unfold rangeOf, logOK in *. destruct (g_type a).
  - apply Rltb_true in HL. rewrite <- ln_1. apply ln_increasing; [lra|].
    apply Rmult_lt_reg_r with mn; auto. unfold Rdiv. rewrite Rmult_assoc, Rinv_l by lra. lra.
  - lra.
  - specialize (H2 eq_refl). lra.
Qed.
Lemma complete_range a mn mx n : mn < mx -> logOK (g_type a) mn = true -> (0 < n)%Z ->
  (g_type a = BTwoD -> 0 <= mn) ->
  isComplete (g_type a) (mkPars mn mx n (rangeOf (g_type a) mn mx / IZR n)).
Proof.
  intros H HL Hn H2. pose proof (range_pos a mn mx (or_intror I) H HL H2) as HR.
  assert (0 < IZR n) by (apply IZR_lt; auto).
  assert (HE : IZR n * (rangeOf (g_type a) mn mx / IZR n) = rangeOf (g_type a) mn mx) by (field; lra).
  unfold isComplete. cbn [c_nbins c_size c_min c_max]. split; auto. split.
  - apply Rmult_lt_0_compat; auto. apply Rinv_0_lt_compat; auto.
  - revert HE. unfold rangeOf, logOK in *. destruct (g_type a); intro HE.
    + apply Rltb_true in HL. split; auto. rewrite HE, exp_ln; [field; lra|].
      apply Rmult_lt_0_compat; [lra|apply Rinv_0_lt_compat; auto].
    + lra.
    + lra.
Qed.
Theorem C26_completed a p : saneArgs a -> complete a = Some p -> isComplete (g_type a) p /\ keepsGiven a p.
Proof.
  intros [S1 [S2 S3]] H.
  assert (HM : forall mn, needMin a = Some mn -> (g_type a = BTwoD -> 0 <= mn) /\ (forall x, g_min a = Some x -> mn = x)).
  { intros mn. unfold needMin. destruct (g_min a) as [x|] eqn:E.
    - intro X; injection X as <-. split; [intro; apply S3; auto|]. intros y Y. congruence.
    - destruct (is2d (g_type a)); [|discriminate]. intro X; injection X as <-. split; [lra|]. intros; discriminate. }
  unfold complete in H. destruct (g_nbins a) as [n|] eqn:En.
  - specialize (S2 n eq_refl). destruct (n <? 0)%Z eqn:Ez; [discriminate|].
    destruct (g_size a) as [s|] eqn:Es.
    + specialize (S1 s eq_refl). assert (Hn : 0 < IZR n) by (apply IZR_lt; auto).
      destruct (g_max a) as [mx|] eqn:Ex.
      * destruct (is2d (g_type a)) eqn:E2; [discriminate|]. destruct (g_min a) eqn:Em; [discriminate|].
        destruct (negb (logOK _ _)) eqn:EL; [discriminate|]. destruct (_ && _); [discriminate|]. injection H as <-.
        split; [|unfold keepsGiven; rewrite En, Es, Ex, Em; cbn; repeat split; intros; try discriminate; try congruence].
        unfold isComplete; cbn [c_nbins c_size c_min c_max] in *. split; auto. split; auto.
        apply negb_false_iff in EL. destruct (g_type a); try discriminate.
        -- simpl in EL. apply Rltb_true in EL. split; auto. rewrite Rmult_assoc, <- exp_plus.
           replace (- IZR n * s + IZR n * s) with 0 by ring. rewrite exp_0. ring.
        -- ring.
      * destruct (needMin a) as [mn|] eqn:Em; [|discriminate]. destruct (HM mn eq_refl) as [M1 M2].
        destruct (negb (logOK _ _)) eqn:EL; [discriminate|]. destruct (_ && _); [discriminate|]. injection H as <-.
        split; [|unfold keepsGiven; rewrite En, Es, Ex; cbn; repeat split; intros; try discriminate; try congruence; auto].
        unfold isComplete; cbn [c_nbins c_size c_min c_max] in *. split; auto. split; auto.
        apply negb_false_iff in EL. destruct (g_type a).
        -- simpl in EL. apply Rltb_true in EL. split; auto. ring.
        -- ring.
        -- field.
    + destruct (g_max a) as [mx|] eqn:Ex; [|discriminate]. destruct (needMin a) as [mn|] eqn:Em; [|discriminate].
      destruct (HM mn eq_refl) as [M1 M2].
      destruct (Rleb mx mn) eqn:EC; [discriminate|]. apply Rleb_false in EC.
      destruct (negb (logOK _ mn)) eqn:EL; [discriminate|]. apply negb_false_iff in EL.
      destruct (n =? 0)%Z; [discriminate|]. cbn [c_min] in H. rewrite EL in H. cbn [negb] in H.
      destruct (_ && _); [discriminate|]. injection H as <-.
      split; [apply complete_range; auto|].
      unfold keepsGiven; rewrite En, Es, Ex; cbn; repeat split; intros; try discriminate; try congruence; auto.
  - destruct (g_max a) as [mx|] eqn:Ex; [|discriminate]. destruct (needMin a) as [mn|] eqn:Em; [|discriminate].
    destruct (g_size a) as [s|] eqn:Es; [|discriminate]. specialize (S1 s eq_refl).
    destruct (HM mn eq_refl) as [M1 M2].
    destruct (Rleb mx mn) eqn:EC; [discriminate|]. apply Rleb_false in EC.
    destruct (negb (logOK _ mn)) eqn:EL; [discriminate|]. apply negb_false_iff in EL.
    destruct (ceilBins _ _) as [n|] eqn:EB; [|discriminate]. cbn [c_min] in H. rewrite EL in H. cbn [negb] in H.
    destruct (_ && _); [discriminate|]. injection H as <-.
    unfold ceilBins in EB. destruct (Req_EM_T s 0); [discriminate|].
    destruct (ceilZ (rangeOf (g_type a) mn mx / s) <=? 0)%Z eqn:EZ; [discriminate|]. injection EB as EB.
    apply Z.leb_gt in EZ. rewrite EB in EZ. pose proof (ceilZ_spec (rangeOf (g_type a) mn mx / s)) as [C1 C2].
    rewrite EB in C1, C2. assert (Hn : 0 < IZR n) by (apply IZR_lt; auto).
    split; [apply complete_range; auto|].
    unfold keepsGiven; rewrite En, Es, Ex; cbn [c_min c_max c_nbins c_size].
    repeat split; intros; try discriminate; try congruence; auto.
    + injection H as <-. set (x := rangeOf (g_type a) mn mx) in *.
      apply Rmult_le_reg_r with (IZR n); auto. unfold Rdiv. rewrite Rmult_assoc, Rinv_l by lra.
      assert (x / s * s = x) by (field; auto). assert (x / s * s <= IZR n * s) by (apply Rmult_le_compat_r; lra). lra.
    + injection H as <-. set (x := rangeOf (g_type a) mn mx) in *. rewrite minus_IZR.
      unfold Rdiv. rewrite Rmult_assoc, Rinv_l by lra.
      assert (x / s * s = x) by (field; auto). assert (s * (IZR n - 1) < s * (x / s)) by (apply Rmult_lt_compat_l; lra). lra.
Qed.
Example C26_example_nonneg : exists p, complete (mkArgs BLinear (Some 1) (Some 4) None (Some 2)) = Some p /\
  c_nbins p = 2%Z /\ c_size p = 3/2 /\ saneArgs (mkArgs BLinear (Some 1) (Some 4) None (Some 2)).
Proof.
  assert (HC : ceilZ (3/2) = 2%Z).
  { unfold ceilZ. assert (Int_part (- (3/2)) = (-2)%Z); [|lia].
    destruct (base_Int_part (- (3/2))) as [H1 H2].
    assert (IZR (Int_part (- (3/2))) < IZR (-1)) by lra. assert (IZR (-3) < IZR (Int_part (- (3/2)))) by lra.
    apply lt_IZR in H. apply lt_IZR in H0. lia. }
  eexists. split.
  - unfold complete. cbn [g_type g_min g_max g_nbins g_size needMin].
    rewrite (proj2 (Rleb_false 4 1)) by lra. cbn [logOK negb rangeOf]. unfold ceilBins.
    destruct (Req_EM_T 2 0); [lra|]. replace ((4 - 1) / 2) with (3/2) by lra. rewrite HC. cbn [Z.leb Z.compare c_min c_size is2d andb negb].
    unfold Reqb. destruct (Req_EM_T ((4 - 1) / 2) 0); [lra|]. reflexivity.
  - cbn. split; auto. split; [lra|]. split; [|split]; cbn; intros; try discriminate. injection H as <-. lra.
Qed.
Example C26_example_log : saneArgs (mkArgs BLog (Some 1) None (Some 10%Z) (Some (1/10))) /\
  exists p, complete (mkArgs BLog (Some 1) None (Some 10%Z) (Some (1/10))) = Some p /\ c_max p = exp 1.
Proof.
  split; [repeat split; cbn; intros; try discriminate; injection H as <-; [lra|lia]|].
  eexists. split.
  - unfold complete. cbn [g_type g_min g_max g_nbins g_size needMin Z.ltb Z.compare logOK is2d negb c_min c_size].
    rewrite (proj2 (Rltb_true 0 1)) by lra. cbn [negb andb]. unfold Reqb. destruct (Req_EM_T (1/10) 0); [lra|]. reflexivity.
  - cbn [c_max]. rewrite Rmult_1_r. f_equal. lra.
Qed.
(** Nothing checks that a Linear binning given by max_sep, nbins and bin_size starts at a
    non-negative separation. *)
Theorem C26_linear_min_sep_nonneg_refuted : exists a p, saneArgs a /\ g_min a = None /\
  (forall m, g_max a = Some m -> 0 < m) /\ complete a = Some p /\ c_min p < 0.
Proof.
  exists (mkArgs BLinear None (Some 1) (Some 2%Z) (Some 1)). eexists. split; [|split; [|split; [|split]]].
  - repeat split; cbn; intros; try discriminate; injection H as <-; [lra|lia].
  - reflexivity.
  - cbn. intros m H. injection H as <-. lra.
  - unfold complete. cbn [g_type g_min g_max g_nbins g_size is2d Z.ltb Z.compare logOK c_min c_size negb andb].
    unfold Reqb. destruct (Req_EM_T 1 0); [lra|]. reflexivity.
  - cbn. lra.
Qed.

(** The parameters given to the C++ code satisfy what the other theorems assume. *)
Theorem C26_valid a p u slop aslop : saneArgs a -> complete a = Some p -> g_type a <> BTwoD ->
  (g_type a = BLinear -> 0 <= c_min p) -> 0 < u -> 0 <= aslop ->
  validB (natural (g_type a) u slop aslop p).
Proof.
  intros HS H H2 HL Hu Ha. destruct (C26_completed a p HS H) as [[Hn [Hs HC]] _].
  assert (HB : 0 <= binSlop (g_type a) p slop).
  { unfold binSlop. destruct (Rltb slop 0) eqn:E; [|apply Rltb_false in E; lra].
    apply Rmin_glb; [|lra]. unfold maxGoodSlop. destruct (g_type a).
    - apply Rlt_le, Rmult_lt_0_compat; [lra|apply Rinv_0_lt_compat; auto].
    - specialize (HL eq_refl). apply Rmult_le_pos; [lra|]. apply Rlt_le, Rinv_0_lt_compat; auto.
    - congruence. }
  constructor; cbn [natural btype binsize nbins minsep maxsep slop_b slop_a]; auto.
  - destruct (g_type a); auto; try congruence. apply Rmult_lt_0_compat; auto.
  - destruct (g_type a); auto; congruence.
  - destruct (g_type a); try congruence; [destruct HC; apply Rmult_lt_0_compat; auto|]. apply Rmult_le_pos; [auto|lra].
  - unfold edge. cbn [natural btype binsize nbins minsep]. destruct (g_type a); try congruence.
    + destruct HC as [_ ->]. ring.
    + rewrite HC. ring.
  - apply Rmult_le_pos; lra.
Qed.
(** left_edges/right_edges tile [min_sep, max_sep) (with C43_edges: these are the edges used). *)
Lemma tile (e : nat -> R) n r : (forall i, (i < n)%nat -> e i < e (S i)) -> e 0%nat <= r < e n ->
  exists! i, (i < n)%nat /\ e i <= r < e (S i).
Proof.
  intros He Hr.
  assert (HM : forall j i, (i <= j)%nat -> (j <= n)%nat -> e i <= e j).
  { induction j as [|j IH]; intros i Hij Hj; [assert (i = 0%nat) by lia; subst; lra|].
    destruct (Nat.eq_dec i (S j)) as [->|]; [lra|]. specialize (IH i ltac:(lia) ltac:(lia)).
    specialize (He j ltac:(lia)). lra. }
  assert (HE : forall m, (m <= n)%nat -> e 0%nat <= r < e m -> exists i, (i < m)%nat /\ e i <= r < e (S i)).
  { induction m as [|m IH]; intros Hm Hrm; [lra|].
    destruct (Rlt_dec r (e m)) as [L|L].
    - destruct IH as [i [Hi Hr']]; [lia|lra|]. exists i. split; [lia|auto].
    - exists m. split; [lia|]. lra. }
  destruct (HE n (Nat.le_refl n) Hr) as [i [Hi Hir]]. exists i. split; auto.
  intros j [Hj Hjr]. destruct (Nat.lt_trichotomy i j) as [C|[C|C]]; auto; exfalso.
  - pose proof (HM j (S i) ltac:(lia) ltac:(lia)). lra.
  - pose proof (HM i (S j) ltac:(lia) ltac:(lia)). lra.
Qed.
Lemma edge_up B k : validB B -> edge B k < edge B (k + 1).
Proof.
  intro HB. pose proof (vb_binsize B HB) as Hs. pose proof (vb_not2d B HB) as H2. pose proof (vb_minsep B HB) as Hm.
  unfold edge. rewrite plus_IZR. destruct (btype B); try congruence; [|lra].
  apply Rmult_lt_compat_l; auto. apply exp_increasing. lra.
Qed.
Lemma edge_0 B : validB B -> edge B 0 = minsep B.
Proof.
  intro HB. pose proof (vb_not2d B HB). unfold edge. destruct (btype B); try congruence; rewrite Rmult_0_l; [rewrite exp_0|]; ring.
Qed.
Theorem C26_tiling B r : validB B ->
  (minsep B <= r < maxsep B -> exists! k, (0 <= k < nbins B)%Z /\ leftEdge B k <= r < rightEdge B k) /\
  (forall k, (0 <= k < nbins B)%Z -> leftEdge B k <= r < rightEdge B k -> minsep B <= r < maxsep B).
Proof.
  intros HB. pose proof (vb_nbins B HB) as Hn.
  assert (HL : forall k, leftEdge B k = edge B k) by (intro; apply C43_edges; auto).
  assert (HR : forall k, rightEdge B k = edge B (k + 1)) by (intro; apply C43_edges; auto).
  assert (HM : forall i d, edge B i <= edge B (i + Z.of_nat d)).
  { intros i d. induction d as [|d IH]; [rewrite Z.add_0_r; lra|].
    pose proof (edge_up B (i + Z.of_nat d) HB). rewrite Nat2Z.inj_succ. unfold Z.succ. rewrite Z.add_assoc. lra. }
  split.
  - intro Hr. rewrite <- (edge_0 B HB), (vb_maxsep B HB) in Hr.
    destruct (tile (fun i => edge B (Z.of_nat i)) (Z.to_nat (nbins B)) r) as [i [[Hi Hir] HU]].
    + intros i _. replace (Z.of_nat (S i)) with (Z.of_nat i + 1)%Z by lia. apply edge_up; auto.
    + rewrite Z2Nat.id by lia. exact Hr.
    + exists (Z.of_nat i). unfold unique. rewrite HL, HR. replace (Z.of_nat i + 1)%Z with (Z.of_nat (S i)) by lia.
      split; [split; [lia|auto]|]. intros k [Hk Hkr]. rewrite HL, HR in Hkr.
      rewrite (HU (Z.to_nat k)); [rewrite Z2Nat.id; lia|]. split; [lia|].
      replace (Z.of_nat (S (Z.to_nat k))) with (k + 1)%Z by lia. rewrite Z2Nat.id by lia. auto.
  - intros k Hk [A C]. rewrite HL in A. rewrite HR in C. rewrite <- (edge_0 B HB), (vb_maxsep B HB).
    pose proof (HM 0%Z (Z.to_nat k)) as P1. pose proof (HM (k + 1)%Z (Z.to_nat (nbins B - (k + 1)))) as P2.
    rewrite Z2Nat.id in P1, P2 by lia. replace (0 + k)%Z with k in P1 by ring.
    replace (k + 1 + (nbins B - (k + 1)))%Z with (nbins B) in P2 by ring. lra.
Qed.
(** TwoD: the square [-max_sep,max_sep)^2 is tiled by nbins x nbins squares of side bin_size. *)
Theorem C26_tiling_2d a p x : saneArgs a -> complete a = Some p -> g_type a = BTwoD -> - c_max p <= x < c_max p ->
  exists! i, (i < Z.to_nat (c_nbins p))%nat /\
    - c_max p + INR i * c_size p <= x < - c_max p + (INR i + 1) * c_size p.
Proof.
  intros HS H H2 Hx. destruct (C26_completed a p HS H) as [[Hn [Hs HC]] _]. rewrite H2 in HC.
  assert (HN : INR (Z.to_nat (c_nbins p)) = IZR (c_nbins p)) by (rewrite INR_IZR_INZ, Z2Nat.id; [auto|lia]).
  destruct (tile (fun i => - c_max p + INR i * c_size p) (Z.to_nat (c_nbins p)) x) as [i [[Hi Hir] HU]].
  - intros i _. rewrite S_INR. nra.
  - rewrite HN. simpl INR. lra.
  - exists i. rewrite S_INR in Hir. split; [auto|]. intros j [Hj Hjr]. apply HU. rewrite S_INR. auto.
Qed.
Example C26_example_2d : exists p, let a := mkArgs BTwoD None (Some 3) (Some 2%Z) None in
  saneArgs a /\ complete a = Some p /\ c_size p = 3.
Proof.
  eexists. split; [|split].
  - repeat split; cbn; intros; try discriminate. injection H as <-. lia.
  - unfold complete. cbn [g_type g_min g_max g_nbins g_size needMin is2d Z.ltb Z.eqb Z.compare logOK negb c_min c_size andb].
    rewrite (proj2 (Rleb_false 3 0)) by lra. reflexivity.
  - cbn. lra.
Qed.

(** ** C44 *)
(** The same physical binning described in units of u radians: separations (and, for Linear and
    TwoD, the bin size) are divided by u; nbins and bin_slop are the same. *)
Definition inUnits (u : R) (a : binargs) : binargs :=
  let d := option_map (fun x => x / u) in
  mkArgs (g_type a) (d (g_min a)) (d (g_max a)) (g_nbins a)
         (match g_type a with BLog => g_size a | _ => d (g_size a) end).
Definition scalePars (t : bintype) (u : R) (p : binpars) : binpars :=
  mkPars (c_min p / u) (c_max p / u) (c_nbins p) (match t with BLog => c_size p | _ => c_size p / u end).
Lemma Rleb_div u x y : 0 < u -> Rleb (x / u) (y / u) = Rleb x y.
Proof.
  intro Hu. assert (0 < / u) by (apply Rinv_0_lt_compat; auto). unfold Rleb, Rdiv.
  destruct (Rle_dec x y), (Rle_dec (x * / u) (y * / u)); auto; exfalso; nra.
Qed.
Lemma logOK_div t u x : 0 < u -> logOK t (x / u) = logOK t x.
Proof.
  intro Hu. assert (0 < / u) by (apply Rinv_0_lt_compat; auto). unfold logOK. destruct t; auto. unfold Rltb, Rdiv.
  destruct (Rlt_dec 0 x), (Rlt_dec 0 (x * / u)); auto; exfalso; nra.
Qed.
Lemma rangeOf_div t u mn mx : 0 < u -> logOK t mn = true ->
  rangeOf t (mn / u) (mx / u) = match t with BLog => rangeOf t mn mx | _ => rangeOf t mn mx / u end.
Proof.
  intros Hu HL. unfold rangeOf. destruct t; [|field; lra|field; lra].
  simpl in HL. apply Rltb_true in HL. f_equal. field. lra.
Qed.
Lemma Reqb_div u x : 0 < u -> Reqb (x / u) 0 = Reqb x 0.
Proof.
  intro Hu. assert (0 < / u) by (apply Rinv_0_lt_compat; auto). unfold Reqb, Rdiv.
  destruct (Req_EM_T x 0) as [X|N], (Req_EM_T (x * / u) 0) as [E|E]; auto; exfalso.
  - apply E. rewrite X. ring.
  - apply Rmult_integral in E as [E|E]; lra.
Qed.
Lemma ceilBins_div u x s : 0 < u -> ceilBins (x / u) (s / u) = ceilBins x s.
Proof.
  intro Hu. unfold ceilBins. pose proof (Reqb_div u s Hu) as E. unfold Reqb in E.
  destruct (Req_EM_T s 0) as [|N], (Req_EM_T (s / u) 0); try discriminate; auto.
  replace (x / u / (s / u)) with (x / s) by (field; lra). auto.
Qed.
Lemma needMin_units u a : needMin (inUnits u a) = option_map (fun x => x / u) (needMin a).
Proof.
  unfold needMin, inUnits. cbn. destruct (g_min a); auto. destruct (is2d (g_type a)); auto. cbn. f_equal. unfold Rdiv. ring.
Qed.
Lemma complete_units u a : 0 < u -> complete (inUnits u a) = option_map (scalePars (g_type a) u) (complete a).
Proof.
  intro Hu. unfold complete. rewrite needMin_units. destruct a as [t mn mx nb sz]. cbn [inUnits g_type g_min g_max g_nbins g_size].
  destruct nb as [n|].
  - destruct (n <? 0)%Z; auto.
    destruct sz as [s|].
    + destruct mx as [mx|].
      * destruct t; cbn; destruct mn as [mn|]; cbn; auto.
        -- replace (mx / u * exp (- IZR n * s)) with (mx * exp (- IZR n * s) / u) by (field; lra).
           rewrite (logOK_div BLog u (mx * exp (- IZR n * s)) Hu : Rltb 0 (mx * exp (- IZR n * s) / u) = _). cbn.
           destruct (negb _); auto. destruct (Reqb s 0); auto.
        -- rewrite Reqb_div by auto. destruct (Reqb s 0); auto. cbn. unfold scalePars; cbn. do 2 f_equal. field; lra.
      * destruct (needMin _) as [m|] eqn:Em; [|destruct t; auto]. cbn [option_map].
        destruct t; cbn.
        -- rewrite (logOK_div BLog u m Hu : Rltb 0 (m / u) = Rltb 0 m). destruct (negb _); auto. destruct (Reqb s 0); auto.
           cbn. unfold scalePars; cbn. do 2 f_equal. field; lra.
        -- rewrite Reqb_div by auto. destruct (Reqb s 0); auto. cbn. unfold scalePars; cbn. do 2 f_equal. field; lra.
        -- cbn. unfold scalePars; cbn. do 2 f_equal. field; lra.
    + assert (HX : (match (match t with BLog => None | _ => option_map (fun x => x / u) None end) with
                    | Some s => Some s | None => None (A := R) end) = None) by (destruct t; auto).
      destruct t; cbn [option_map]; destruct mx as [mx|]; cbn [option_map]; auto; destruct (needMin _) as [m|]; cbn [option_map]; auto;
        rewrite Rleb_div, logOK_div by auto; destruct (Rleb mx m); auto; destruct (logOK _ m) eqn:EL; cbn [negb]; auto;
        destruct (n =? 0)%Z; auto; cbn [c_min c_size]; rewrite logOK_div by auto; rewrite EL; cbn [negb is2d andb];
        rewrite rangeOf_div by auto.
      * destruct (Reqb _ 0); auto.
      * replace (rangeOf BLinear m mx / u / IZR n) with (rangeOf BLinear m mx / IZR n / u) by (unfold Rdiv; ring).
        rewrite Reqb_div by auto. destruct (Reqb _ 0); auto.
      * unfold option_map, scalePars; cbn. do 2 f_equal. unfold Rdiv. ring.
  - destruct mx as [mx|]; auto. cbn [option_map].
    destruct (needMin _) as [m|]; cbn [option_map]; auto.
    destruct sz as [s|]; [|destruct t; auto].
    destruct t; cbn [option_map];
        rewrite Rleb_div, logOK_div by auto; destruct (Rleb mx m); auto; destruct (logOK _ m) eqn:EL; cbn [negb]; auto;
        rewrite rangeOf_div by auto; rewrite ?ceilBins_div by auto; destruct (ceilBins _ s) as [n|]; auto;
        cbn [c_min c_size]; rewrite logOK_div by auto; rewrite EL; cbn [negb is2d andb].
      * destruct (Reqb _ 0); auto.
      * replace (rangeOf BLinear m mx / u / IZR n) with (rangeOf BLinear m mx / IZR n / u) by (unfold Rdiv; ring).
        rewrite Reqb_div by auto. destruct (Reqb _ 0); auto.
      * unfold option_map, scalePars; cbn. do 2 f_equal. unfold Rdiv. ring.
Qed.
(** Log binning: the C++ code gets the same parameters. *)
Theorem C44_log a u slop aslop : 0 < u -> g_type a = BLog ->
  option_map (natural BLog u slop aslop) (complete (inUnits u a)) =
  option_map (natural BLog 1 slop aslop) (complete a).
Proof.
  intros Hu Ht. rewrite complete_units by auto. rewrite Ht. destruct (complete a) as [p|]; auto. cbn. f_equal.
  unfold natural; cbn. f_equal; field; lra.
Qed.
(** Linear: edges and bin size agree, the slop b does not, unless bin_slop = 0 ... *)
Theorem C44_linear_edges a u slop aslop : 0 < u -> g_type a = BLinear ->
  match complete (inUnits u a), complete a with
  | Some p, Some q => let B := natural BLinear u slop aslop p in let C := natural BLinear 1 slop aslop q in
      minsep B = minsep C /\ maxsep B = maxsep C /\ nbins B = nbins C /\ binsize B = binsize C /\
      slop_b B = slop_b C / u
  | None, None => True
  | _, _ => False
  end.
Proof.
  intros Hu Ht. rewrite complete_units by auto. rewrite Ht. destruct (complete a) as [p|] eqn:EC; cbn; auto.
  assert (Hs : c_size p <> 0).
  { unfold complete in EC. rewrite Ht in EC. cbn [is2d negb andb logOK] in EC.
    destruct (match g_nbins a with Some _ => _ | None => _ end) as [q|]; [|discriminate]. 
    destruct (Reqb (c_size q) 0) eqn:E; [discriminate|]. injection EC as <-. unfold Reqb in E.
    destruct (Req_EM_T (c_size q) 0); [discriminate|auto]. }
  repeat split; try (field; lra).
  unfold binSlop. replace (maxGoodSlop BLinear (scalePars BLinear u p)) with (maxGoodSlop BLinear p); [unfold Rdiv; ring|].
  unfold maxGoodSlop, scalePars; cbn. field. split; lra.
Qed.
(** ... so the claim is false for Linear binning with bin_slop > 0 (the same happens for TwoD):
    min_sep 1, max_sep 11, 10 bins, bin_slop 1/2 in radians, and the same binning in units of 1/2
    radian, differ by a factor 2 in b. *)
Theorem C44_linear_slop_refuted : exists a u slop p q, 0 < u /\ 0 < slop /\ saneArgs a /\ g_type a = BLinear /\
  complete a = Some q /\ complete (inUnits u a) = Some p /\
  slop_b (natural BLinear 1 slop 1 q) = 1/2 /\ slop_b (natural BLinear u slop 1 p) = 1.
Proof.
  set (a := mkArgs BLinear (Some 1) None (Some 10%Z) (Some 1)).
  assert (HC : complete a = Some (mkPars 1 (1 + IZR 10 * 1) 10 1)).
  { unfold complete, a. cbn [g_type g_min g_max g_nbins g_size needMin Z.ltb Z.compare logOK negb c_min c_size is2d andb].
    unfold Reqb. destruct (Req_EM_T 1 0); [lra|]. reflexivity. }
  exists a, (1/2), (1/2), (scalePars BLinear (1/2) (mkPars 1 (1 + IZR 10 * 1) 10 1)), (mkPars 1 (1 + IZR 10 * 1) 10 1).
  split; [lra|]. split; [lra|]. split.
  { repeat split; cbn; intros; try discriminate; injection H as <-; [lra|lia]. }
  split; [reflexivity|]. split; [exact HC|]. split.
  { rewrite complete_units by lra. rewrite HC. reflexivity. }
  cbn. unfold binSlop. rewrite (proj2 (Rltb_false (1/2) 0)) by lra. lra.
Qed.
Example C44_example : 0 < PI / 180 /\ saneArgs (mkArgs BLog (Some 1) (Some 100) (Some 20%Z) None) /\
  complete (mkArgs BLog (Some 1) (Some 100) (Some 20%Z) None) <> None.
Proof.
  split; [pose proof PI_RGT_0; lra|]. split.
  - repeat split; cbn; intros; try discriminate. injection H as <-. lia.
  - unfold complete. cbn [g_type g_min g_max g_nbins g_size needMin Z.ltb Z.eqb Z.compare logOK negb c_min c_size is2d andb rangeOf].
    rewrite (proj2 (Rleb_false 100 1)) by lra. rewrite (proj2 (Rltb_true 0 1)) by lra. cbn [negb andb c_min].
    rewrite ?(proj2 (Rltb_true 0 1)) by lra. cbn [negb andb c_min].
    unfold Reqb. destruct (Req_EM_T _ 0) as [E|]; [|discriminate]. exfalso.
    assert (HL : ln 1 < ln (100 / 1)) by (apply ln_increasing; lra). rewrite ln_1 in HL. cbn [c_size] in E. clear - E HL.
    apply (Rmult_eq_compat_r 20) in E. unfold Rdiv in E at 1. rewrite Rmult_assoc, Rinv_l in E by lra. lra.
Qed.
