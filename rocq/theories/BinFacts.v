(** Soundness of the pruning and single-bin tests of BinType.h (Log and Linear). *)
From Coq Require Import Reals Lra Lia List ZArith Bool Psatz.
From Verif Require Import Base Geometry Tree Traverse Spec GeomFacts.
Open Scope R_scope.

Lemma euclid_pdist p q : euclid p q = pdist p q.
Proof. unfold euclid, pdist, norm, normSq, psub; simpl; f_equal; ring. Qed.

Lemma Rabs_bounds x y : Rabs x <= y -> - y <= x <= y.
Proof. unfold Rabs; destruct (Rcase_abs x); lra. Qed.

Lemma inBinb_true B k d : inBinb B k d = true <-> inBin B k d.
Proof.
  unfold inBinb, inBin. rewrite !andb_true_iff, Rleb_true, Rltb_true, Z.leb_le, Z.ltb_lt. tauto.
Qed.

Lemma exp_ge_1x y : 1 + y <= exp y.
Proof. destruct (Req_dec y 0) as [->|H]; [rewrite exp_0; lra|]. left; apply exp_ineq1; auto. Qed.

(** exp z >= 1 + z + z^2/2 for z >= 0 *)
Lemma exp_ge_quad z : 0 <= z -> 1 + z + z * z / 2 <= exp z.
Proof.
  intro Hz. destruct (Req_dec z 0) as [->|Hne]; [rewrite exp_0; lra|].
  set (f := fun x => exp x - (1 + x + x * x / 2)).
  assert (Hd : forall x, derivable_pt_lim f x (exp x - (0 + 1 + (1 * x + x * 1) * / 2))).
  { intro x. unfold f. apply derivable_pt_lim_minus; [apply derivable_pt_lim_exp|].
    apply derivable_pt_lim_plus.
    - apply derivable_pt_lim_plus; [apply derivable_pt_lim_const|apply derivable_pt_lim_id].
    - unfold Rdiv.
      replace ((1 * x + x * 1) * / 2) with ((1 * id x + id x * 1) * / 2 + (id x * id x) * 0)
        by (unfold id; ring).
      apply (derivable_pt_lim_mult (fun x => x * x) (fct_cte (/2)) x
               (1 * id x + id x * 1) 0).
      + apply (derivable_pt_lim_mult id id x 1 1); apply derivable_pt_lim_id.
      + apply derivable_pt_lim_const. }
  assert (pr : forall x, derivable_pt f x) by (intro x; exists (exp x - (0 + 1 + (1 * x + x * 1) * / 2)); apply Hd).
  destruct (MVT_cor2 f (fun x => exp x - (0 + 1 + (1 * x + x * 1) * / 2)) 0 z) as [c [Hc1 Hc2]].
  - lra.
  - intros c Hc. apply Hd.
  - unfold f in Hc1 at 2. rewrite exp_0 in Hc1.
    pose proof (exp_ge_1x c).
    unfold f in Hc1. nra.
Qed.

(** The inequality behind the last test of Log singleBin. *)
Lemma one_minus_ge y : 0 <= y <= 54/100 -> exp (- (y + y * y)) <= 1 - y.
Proof.
  intros [H0 H1].
  assert (Hq : 1 + (y + y*y) + (y + y*y) * (y + y*y) / 2 <= exp (y + y*y))
    by (apply exp_ge_quad; nra).
  rewrite exp_Ropp.
  assert (Hpos : 0 < exp (y + y*y)) by apply exp_pos.
  apply Rmult_le_reg_r with (exp (y + y*y)); auto.
  rewrite Rinv_l by lra.
  assert (0 <= (1 - y) * (exp (y+y*y) - (1 + (y + y*y) + (y + y*y) * (y + y*y) / 2))).
  { apply Rmult_le_pos; lra. }
  assert (0 <= y * y * (1 - y - y*y - y*y*y)).
  { apply Rmult_le_pos; [nra|]. assert (y*y <= 54/100*(54/100)) by nra.
    assert (y*y*y <= 54/100*(54/100)*(54/100)) by nra. lra. }
  nra.
Qed.

(** ** Edges *)
Lemma edge_log_eq B (k : Z) r : btype B = BLog -> 0 < minsep B -> 0 < r ->
  r = minsep B * exp (ln r - ln (minsep B)).
Proof.
  intros _ Hm Hr. unfold Rminus. rewrite exp_plus, exp_Ropp, !exp_ln by auto. field. lra.
Qed.

Lemma edge_mono B j k : validB B -> (j <= k)%Z -> edge B j <= edge B k.
Proof.
  intros [H1 H2 H3 H4 H5 H6 H7] Hjk. unfold edge. apply IZR_le in Hjk.
  destruct (btype B); try congruence.
  - apply Rmult_le_compat_l; [lra|].
    destruct (Req_dec (IZR j * binsize B) (IZR k * binsize B)) as [->|Hne]; [lra|].
    left; apply exp_increasing. assert (IZR j * binsize B <= IZR k * binsize B) by nra. lra.
  - nra.
Qed.
Lemma edge_lt B j k : validB B -> (j < k)%Z -> edge B j < edge B k.
Proof.
  intros [H1 H2 H3 H4 H5 H6 H7] Hjk. unfold edge. apply IZR_lt in Hjk.
  destruct (btype B); try congruence.
  - apply Rmult_lt_compat_l; [lra|]. apply exp_increasing. nra.
  - nra.
Qed.
Lemma edge_0 B : validB B -> edge B 0 = minsep B.
Proof.
  intros [H1 _ _ _ _ _ _]. unfold edge. destruct (btype B); try congruence; simpl;
  rewrite ?Rmult_0_l, ?exp_0; ring.
Qed.
Lemma edge_n B : validB B -> edge B (nbins B) = maxsep B.
Proof. intros []; auto. Qed.
Lemma edge_lt_inv B j k : validB B -> edge B j < edge B k -> (j < k)%Z.
Proof.
  intros HB H. destruct (Z_lt_le_dec j k); auto. apply (edge_mono B) in l; auto; lra.
Qed.
Lemma minsep_nonneg B : validB B -> 0 <= minsep B.
Proof. intros []; destruct (btype B); lra. Qed.
Lemma minsep_lt_maxsep B : validB B -> minsep B < maxsep B.
Proof.
  intro HB. rewrite <- (edge_0 B), <- (edge_n B) by auto. apply edge_lt; auto. apply HB.
Qed.
Lemma maxsep_pos B : validB B -> 0 < maxsep B.
Proof. intro HB. pose proof (minsep_nonneg B HB). pose proof (minsep_lt_maxsep B HB). lra. Qed.

(** Every separation in range is in exactly one bin. *)
Lemma inBin_unique B j k d : validB B -> inBin B j d -> inBin B k d -> j = k.
Proof.
  intros HB [Hj1 Hj2] [Hk1 Hk2].
  assert (j < k + 1)%Z by (apply (edge_lt_inv B); auto; lra).
  assert (k < j + 1)%Z by (apply (edge_lt_inv B); auto; lra). lia.
Qed.
Lemma inBin_range B k d : validB B -> inBin B k d -> minsep B <= d < maxsep B.
Proof.
  intros HB [Hk1 Hk2]. rewrite <- (edge_0 B), <- (edge_n B) by auto.
  pose proof (edge_mono B 0 k HB ltac:(lia)). pose proof (edge_mono B (k+1) (nbins B) HB ltac:(lia)).
  lra.
Qed.

(** Position of r along the bins, as computed by the code. *)
Definition kkOf (B : bparams) (r : R) : R :=
  match btype B with
  | BLog => (ln r - logminsep B) / binsize B
  | _ => (r - minsep B) / binsize B
  end.

Lemma kkOf_edge_le B r k : validB B -> (btype B = BLog -> 0 < r) ->
  (IZR k <= kkOf B r <-> edge B k <= r).
Proof.
  intros HB Hr. pose proof HB as [H1 H2 H3 H4 H5 H6 H7]. unfold kkOf, edge, logminsep.
  destruct (btype B) eqn:E; try congruence.
  - specialize (Hr eq_refl). split; intro H.
    + rewrite (edge_log_eq B k r) by auto.
      apply Rmult_le_compat_l; [lra|].
      assert (IZR k * binsize B <= ln r - ln (minsep B)).
      { apply Rmult_le_compat_r with (r := binsize B) in H; [|lra].
        unfold Rdiv in H; rewrite Rmult_assoc, Rinv_l, Rmult_1_r in H by lra; auto. }
      destruct (Req_dec (IZR k * binsize B) (ln r - ln (minsep B))) as [->|]; [lra|].
      left; apply exp_increasing; lra.
    + apply Rmult_le_reg_r with (binsize B); auto.
      unfold Rdiv; rewrite Rmult_assoc, Rinv_l, Rmult_1_r by lra.
      assert (Hm : 0 < minsep B) by lra.
      assert (0 < minsep B * exp (IZR k * binsize B)) by (apply Rmult_lt_0_compat; auto; apply exp_pos).
      assert (Hl : ln (minsep B * exp (IZR k * binsize B)) <= ln r).
      { destruct (Req_dec (minsep B * exp (IZR k * binsize B)) r) as [->|]; [lra|].
        left; apply ln_increasing; lra. }
      rewrite ln_mult, ln_exp in Hl by (auto; apply exp_pos). lra.
  - split; intro H.
    + apply Rmult_le_compat_r with (r := binsize B) in H; [|lra].
      unfold Rdiv in H; rewrite Rmult_assoc, Rinv_l, Rmult_1_r in H by lra; lra.
    + apply Rmult_le_reg_r with (binsize B); auto.
      unfold Rdiv; rewrite Rmult_assoc, Rinv_l, Rmult_1_r by lra. lra.
Qed.
Lemma kkOf_edge_lt B r k : validB B -> (btype B = BLog -> 0 < r) ->
  (kkOf B r < IZR k <-> r < edge B k).
Proof.
  intros HB Hr. pose proof (kkOf_edge_le B r k HB Hr) as [H1 H2].
  split; intro H.
  - destruct (Rlt_le_dec r (edge B k)); auto. apply H2 in r0; lra.
  - destruct (Rlt_le_dec (kkOf B r) (IZR k)); auto. apply H1 in r0; lra.
Qed.

Lemma trunc_kk_bin B r : validB B -> minsep B <= r < maxsep B ->
  (btype B = BLog -> 0 < r) -> inBin B (trunc (kkOf B r)) r.
Proof.
  intros HB Hr Hp.
  assert (H0 : IZR 0 <= kkOf B r).
  { apply kkOf_edge_le; auto. rewrite edge_0 by auto. lra. }
  assert (Hn : kkOf B r < IZR (nbins B)).
  { apply kkOf_edge_lt; auto. rewrite edge_n by auto. lra. }
  destruct (trunc_nonneg (kkOf B r) H0) as [[Ht1 Ht2] Ht3].
  assert (Hlt : IZR (trunc (kkOf B r)) < IZR (nbins B)) by lra. apply lt_IZR in Hlt.
  split; [lia|]. split.
  - apply kkOf_edge_le; auto.
  - apply kkOf_edge_lt; auto. rewrite plus_IZR; auto.
Qed.

(** ** Pruning *)
Lemma tooSmall_sound B rsq x : validB B -> 0 <= rsq -> 0 <= x ->
  tooSmallDist B rsq (Fin x) = true -> sqrt rsq + x < minsep B.
Proof.
  intros HB Hr Hx H. unfold tooSmallDist in H.
  rewrite !andb_true_iff, !Rltb_true in H. destruct H as [[H1 H2] H3].
  assert (sqrt rsq < minsep B - x).
  { apply sqrt_lt_sq; auto; lra. }
  lra.
Qed.
Lemma tooLarge_sound B rsq x : validB B -> 0 <= rsq -> 0 <= x ->
  tooLargeDist B rsq (Fin x) = true -> maxsep B <= sqrt rsq - x.
Proof.
  intros HB Hr Hx H. unfold tooLargeDist in H.
  pose proof (maxsep_pos B HB). pose proof (vb_not2d B HB).
  assert (H' : Rleb (maxsep B * maxsep B) rsq && Rleb (Rsqr (maxsep B + x)) rsq = true)
    by (destruct (btype B); auto; congruence).
  rewrite andb_true_iff, !Rleb_true in H'. destruct H' as [H2 H3].
  assert (maxsep B + x <= sqrt rsq).
  { apply le_sqrt_sq; [lra|]. exact H3. }
  lra.
Qed.

Lemma half_ln rsq : 0 < rsq -> 1/2 * ln rsq = ln (sqrt rsq).
Proof.
  intro H. rewrite <- (sqrt_sqrt rsq) at 1 by lra.
  assert (0 < sqrt rsq) by (apply sqrt_lt_R0; auto).
  rewrite ln_mult by auto. lra.
Qed.

Lemma isRSqInRange_iff B rsq p1 p2 : validB B -> 0 <= rsq ->
  isRSqInRange B rsq p1 p2 = true <-> minsep B <= sqrt rsq < maxsep B.
Proof.
  intros HB Hr. unfold isRSqInRange. pose proof (vb_not2d B HB) as Hn.
  pose proof (minsep_nonneg B HB). pose proof (maxsep_pos B HB).
  assert (Hgoal : Rleb (minsep B * minsep B) rsq && Rltb rsq (maxsep B * maxsep B) = true
                  <-> minsep B <= sqrt rsq < maxsep B).
  { rewrite andb_true_iff, Rleb_true, Rltb_true.
    pose proof (sqrt_pos rsq). pose proof (sqrt_sqrt rsq Hr).
    split; intros [Ha Hb]; split.
    - apply le_sqrt_sq; auto.
    - apply sqrt_lt_sq; auto.
    - nra.
    - nra. }
  destruct (btype B); auto; congruence.
Qed.

(** What singleBin guarantees about the position of any d within x of r. *)
Definition kFinal (B : bparams) (rsq : R) (k : Z) : Z :=
  if (k <? 0)%Z then trunc (kkOf B (sqrt rsq)) else k.

Lemma calculateBinK_kk B p1 p2 r : validB B ->
  calculateBinK B p1 p2 r (ln r) = trunc (kkOf B r).
Proof.
  intro HB. pose proof (vb_not2d B HB). unfold calculateBinK, kkOf.
  destruct (btype B); auto; congruence.
Qed.

Lemma div_binsize a t : 0 < t -> a / t * t = a.
Proof. intro; field; lra. Qed.

Lemma Rsqr_le_cases u v : 0 <= u -> u * u <= Rsqr v -> u <= v \/ v <= - u.
Proof.
  intros Hu H. unfold Rsqr in H. destruct (Rle_lt_dec 0 v).
  - left. nra.
  - right. nra.
Qed.

(** The heart of the Log case. [y] is x/r. *)
Lemma singleBin_log_bounds B rsq x p1 p2 k r lr :
  validB B -> btype B = BLog -> narrowLog B -> 0 <= rsq -> 0 < x ->
  singleBin B rsq (Fin x) p1 p2 = Some (k, r, lr) ->
  0 < rsq /\
  ( (k = (-1)%Z /\ r = 0 /\ lr = 0 /\ x <= slop_b B * sqrt rsq)
    \/
    (k = trunc (kkOf B (sqrt rsq)) /\ r = sqrt rsq /\ lr = ln (sqrt rsq) /\
     let fr := kkOf B (sqrt rsq) - IZR k in
     let y := x / sqrt rsq in
     0 < y <= 54/100 /\
     (y <= Rmin fr (1 - fr) * binsize B + slop_b B \/
      Rmin fr (1 - fr) * binsize B + slop_b B <= - y) /\
     (y + y * y <= fr * binsize B + slop_b B \/
      fr * binsize B + slop_b B <= y * y - y))).
Proof.
  intros HB Hlog Hnar Hrsq Hx H. unfold singleBin in H. rewrite Hlog in H.
  pose proof HB as [Hn2 Hbs Hnb Hms Hmx Hb Ha]. rewrite Hlog in Hms.
  destruct (Req_EM_T x 0); [lra|].
  destruct (Rlt_dec (slop_a B * slop_a B * rsq) (x * x)); [discriminate|].
  assert (Hpos : 0 < rsq).
  { destruct Hrsq as [|Hz]; auto. subst rsq. nra. }
  split; auto.
  assert (Hsr : 0 < sqrt rsq) by (apply sqrt_lt_R0; auto).
  assert (Hss : sqrt rsq * sqrt rsq = rsq) by (apply sqrt_sqrt; lra).
  destruct (Rle_dec (x * x) (slop_b B * slop_b B * rsq)) as [Hle|Hnle].
  - left. injection H; intros; subst.
    split; [reflexivity|]. split; [reflexivity|]. split; [reflexivity|].
    assert (0 <= slop_b B * sqrt rsq) by nra.
    assert (x * x <= (slop_b B * sqrt rsq) * (slop_b B * sqrt rsq)) by nra. nra.
  - right.
    destruct (Rlt_dec (1/4 * Rsqr (binsize B + slop_b B) * rsq) (x * x)); [discriminate|].
    rewrite (half_ln rsq) in H by auto.
    set (kk := (ln (sqrt rsq) - logminsep B) / binsize B) in *.
    assert (Hkk : kk = kkOf B (sqrt rsq)) by (unfold kk, kkOf; rewrite Hlog; auto).
    set (fr := kk - IZR (trunc kk)) in *.
    destruct (Rlt_dec (Rsqr (Rmin fr (1 - fr) * binsize B + slop_b B) * rsq) (x * x)); [discriminate|].
    destruct (Rlt_dec (Rsqr (fr * binsize B + slop_b B - x * x / rsq) * rsq) (x * x)); [discriminate|].
    injection H; intros; subst lr r k. rewrite <- Hkk. fold fr. cbv zeta.
    split; [reflexivity|]. split; [reflexivity|]. split; [reflexivity|].
    set (y := x / sqrt rsq).
    assert (Hy : 0 < y) by (apply Rdiv_lt_0_compat; auto).
    assert (Hxy : x = y * sqrt rsq) by (unfold y; field; lra).
    clearbody y.
    assert (Hxx : x * x = y * y * rsq).
    { rewrite Hxy. transitivity (y * y * (sqrt rsq * sqrt rsq)); [ring|rewrite Hss; reflexivity]. }
    assert (Hyy : x * x / rsq = y * y) by (rewrite Hxx; field; lra).
    rewrite Hyy in *. rewrite Hxx in *.
    assert (y * y <= slop_a B * slop_a B) by (apply Rmult_le_reg_r with rsq; lra).
    assert (y * y <= 1/4 * Rsqr (binsize B + slop_b B)) by (apply Rmult_le_reg_r with rsq; lra).
    unfold Rsqr in *.
    split; [split; auto|split].
    + destruct (Hnar Hlog); nra.
    + apply Rsqr_le_cases; [lra|]. unfold Rsqr. apply Rmult_le_reg_r with rsq; lra.
    + assert (Hc : y <= fr * binsize B + slop_b B - y * y \/ fr * binsize B + slop_b B - y * y <= - y).
      { apply Rsqr_le_cases; [lra|]. unfold Rsqr. apply Rmult_le_reg_r with rsq; lra. }
      destruct Hc; [left|right]; lra.
Qed.

Lemma exp_le a b : a <= b -> exp a <= exp b.
Proof. intros [H| ->]; [left; apply exp_increasing; auto|lra]. Qed.

(** r * exp(t) in terms of edges. *)
Lemma r_exp_edge B r (k : Z) t : validB B -> btype B = BLog -> 0 < r ->
  r * exp t = minsep B * exp (kkOf B r * binsize B + t).
Proof.
  intros HB HL Hr. pose proof HB as [Hn2 Hbs Hnb Hms Hmx Hb Ha]. rewrite HL in Hms.
  unfold kkOf, logminsep. rewrite HL, div_binsize by auto.
  rewrite exp_plus, <- Rmult_assoc, <- edge_log_eq; auto.
Qed.

Lemma singleBin_sound B rsq x p1 p2 k r lr d :
  validB B -> narrowLog B -> 0 <= rsq -> 0 <= x ->
  singleBin B rsq (Fin x) p1 p2 = Some (k, r, lr) ->
  Rabs (d - sqrt rsq) <= x -> 0 <= d ->
  let K := kFinal B rsq k in
  (minsep B <= sqrt rsq < maxsep B ->
     inBin B K (sqrt rsq) /\ slopLo B (edge B K) <= d /\
     (match btype B with BLog => d < slopHi B (edge B (K + 1))
                       | _ => d <= slopHi B (edge B (K + 1)) end)) /\
  (sqrt rsq < minsep B -> d < slopHi B (minsep B)) /\
  (maxsep B <= sqrt rsq -> slopLo B (maxsep B) <= d).
Proof.
  intros HB Hnar Hrsq Hx H Hd Hd0 K.
  pose proof HB as [Hn2 Hbs Hnb Hms Hmx Hb Ha].
  apply Rabs_bounds in Hd. pose proof (sqrt_pos rsq) as Hsp.
  destruct (btype B) eqn:E; [| |congruence].
  - (* Log *)
    set (R0 := sqrt rsq) in *.
    assert (He1 : 1 + slop_b B <= exp (slop_b B)) by apply exp_ge_1x.
    assert (Heb : 1 <= exp (slop_b B)) by lra.
    destruct (Req_dec x 0) as [Hx0|Hx0].
    + (* x = 0 *)
      assert (d = R0) by lra. subst d.
      assert (k = (-1)%Z).
      { unfold singleBin in H. rewrite E in H. destruct (Req_EM_T x 0); [|lra]. congruence. }
      subst k. unfold K, kFinal; simpl. unfold slopLo, slopHi; rewrite E. fold R0.
      split; [|split]; intros.
      * assert (HI : inBin B (trunc (kkOf B R0)) R0) by (apply trunc_kk_bin; auto; intros _; lra).
        split; auto. destruct HI as [HI1 HI2].
        assert (0 < edge B (trunc (kkOf B R0))).
        { unfold edge; rewrite E. apply Rmult_lt_0_compat; auto; apply exp_pos. }
        split; [nra|].
        assert (0 < edge B (trunc (kkOf B R0) + 1)).
        { unfold edge; rewrite E. apply Rmult_lt_0_compat; auto; apply exp_pos. }
        nra.
      * nra.
      * pose proof (maxsep_pos B HB). nra.
    + assert (Hxp : 0 < x) by lra.
      destruct (singleBin_log_bounds B rsq x p1 p2 k r lr HB E Hnar Hrsq Hxp H) as [Hrp HH].
      assert (HR0 : 0 < R0) by (apply sqrt_lt_R0; auto).
      destruct HH as [[-> [-> [-> Hxb]]]|[Hk [Hr [Hlr HH]]]].
      * (* first branch: x <= b r *)
        unfold K, kFinal; simpl. unfold slopLo, slopHi; rewrite E. fold R0. fold R0 in Hxb.
        assert (Hd1 : R0 * (1 - slop_b B) <= d) by lra.
        assert (Hd2 : d <= R0 * exp (slop_b B)) by nra.
        split; [|split]; intros.
        -- assert (HI : inBin B (trunc (kkOf B R0)) R0) by (apply trunc_kk_bin; auto; intros _; lra).
           split; auto. destruct HI as [HI1 [HI2 HI3]].
           assert (0 < edge B (trunc (kkOf B R0))).
           { unfold edge; rewrite E. apply Rmult_lt_0_compat; auto; apply exp_pos. }
           split.
           ++ destruct (Rle_lt_dec (slop_b B) 1); [nra|].
              (* b > 1: the lower bound is negative *)
              nra.
           ++ nra.
        -- nra.
        -- pose proof (maxsep_pos B HB).
           destruct (Rle_lt_dec (slop_b B) 1); nra.
      * (* second branch *)
        fold R0 in Hk, Hr, Hlr, HH.
        set (fr := kkOf B R0 - IZR k) in *. cbv zeta in HH.
        set (y := x / R0) in *.
        destruct HH as [[Hy0 Hy1] [Hc1 Hc2]].
        assert (Hxy : x = y * R0) by (unfold y; field; lra).
        assert (Hdlo : R0 * (1 - y) <= d) by (rewrite Hxy in Hd; lra).
        assert (Hdhi : d <= R0 * (1 + y)) by (rewrite Hxy in Hd; lra).
        assert (Hexpy : 1 + y < exp y) by (apply exp_ineq1; lra).
        pose proof (one_minus_ge y ltac:(lra)) as Hom.
        assert (Hup : d < R0 * exp y) by nra.
        assert (Hlow : R0 * exp (- (y + y * y)) <= d) by nra.
        assert (Hkr : kkOf B R0 = IZR k + fr) by (unfold fr; ring).
        rewrite (r_exp_edge B R0 k) in Hup, Hlow by auto.
        rewrite Hkr in Hup, Hlow.
        assert (Hloweq : minsep B <= R0 ->
                 (0 <= k)%Z /\ 0 <= fr /\ y <= (1 - fr) * binsize B + slop_b B /\
                 y + y * y <= fr * binsize B + slop_b B).
        { intro Hge.
          assert (H0 : IZR 0 <= kkOf B R0).
          { apply kkOf_edge_le; auto. rewrite edge_0 by auto. lra. }
          destruct (trunc_nonneg (kkOf B R0) H0) as [[Ht1 Ht2] Ht3].
          rewrite <- Hk in *. split; [auto|]. split; [unfold fr; lra|].
          assert (fr < 1) by (unfold fr; lra).
          assert (0 <= Rmin fr (1 - fr)) by (apply Rmin_glb; unfold fr in *; lra).
          pose proof (Rmin_r fr (1 - fr)). pose proof (Rmin_l fr (1-fr)).
          assert (0 <= fr) by (unfold fr; lra).
          assert (0 <= fr * binsize B) by nra.
          split.
          - destruct Hc1; nra.
          - destruct Hc2; auto. nra. }
        unfold slopLo, slopHi; rewrite E.
        split; [|split]; intro Hrange.
        -- destruct (Hloweq ltac:(lra)) as [Hk0 [Hf0 [Hf1 Hf2]]].
           assert (K = k) as HK.
           { unfold K, kFinal. destruct (Z.ltb_spec k 0); [lia|auto]. }
           rewrite HK.
           assert (HI : inBin B k R0) by (rewrite Hk; apply trunc_kk_bin; auto).
           split; auto. split.
           ++ apply Rle_trans with (2 := Hlow). unfold edge; rewrite E.
              rewrite Rmult_assoc. apply Rmult_le_compat_l; [lra|].
              apply Rle_trans with (exp (IZR k * binsize B) * exp (- slop_b B)).
              ** apply Rmult_le_compat_l; [left; apply exp_pos|].
                 pose proof (exp_ge_1x (- slop_b B)). lra.
              ** rewrite <- exp_plus. apply exp_le. nra.
           ++ apply Rlt_le_trans with (1 := Hup). unfold edge; rewrite E, plus_IZR.
              rewrite Rmult_assoc, <- exp_plus. apply Rmult_le_compat_l; [lra|].
              apply exp_le. nra.
        -- (* r < minsep *)
           assert (Hkneg : kkOf B R0 < IZR 0).
           { apply kkOf_edge_lt; auto. rewrite edge_0; auto. }
           simpl in Hkneg. destruct (trunc_neg _ Hkneg) as [[Ht1 Ht2] Ht3].
           rewrite <- Hk in *. apply IZR_le in Ht3.
           assert (Hfr : fr <= 0) by (unfold fr; lra).
           assert (Hm : Rmin fr (1 - fr) = fr) by (apply Rmin_left; lra).
           rewrite Hm in Hc1.
           apply Rlt_le_trans with (1 := Hup). apply Rmult_le_compat_l; [lra|]. apply exp_le.
           assert (IZR k * binsize B <= 0) by nra.
           assert (fr * binsize B <= 0) by nra.
           destruct Hc1; lra.
        -- destruct (Hloweq ltac:(pose proof (minsep_lt_maxsep B HB); lra)) as [Hk0 [Hf0 [Hf1 Hf2]]].
           assert (Hkn : IZR (nbins B) <= kkOf B R0).
           { apply kkOf_edge_le; auto. rewrite edge_n; auto. }
           destruct (trunc_nonneg (kkOf B R0)) as [[Ht1 Ht2] Ht3].
           { apply IZR_lt in Hnb. lra. }
           rewrite <- Hk in *.
           assert (Hnk : IZR (nbins B) < IZR (k + 1)) by (rewrite plus_IZR; lra).
           apply lt_IZR in Hnk. assert (nbins B <= k)%Z by lia.
           apply Rle_trans with (2 := Hlow).
           rewrite <- (edge_n B) by auto.
           unfold edge; rewrite E.
           rewrite Rmult_assoc. apply Rmult_le_compat_l; [lra|].
           apply Rle_trans with (exp (IZR (nbins B) * binsize B) * exp (- slop_b B)).
           ++ apply Rmult_le_compat_l; [left; apply exp_pos|].
              pose proof (exp_ge_1x (- slop_b B)). lra.
           ++ rewrite <- exp_plus. apply exp_le. apply IZR_le in H0. nra.
  - (* Linear *)
    set (R0 := sqrt rsq) in *.
    assert (HlogF : BLinear = BLog -> 0 < R0) by discriminate.
    assert (Hlf : btype B = BLog -> 0 < R0) by (rewrite E; discriminate).
    unfold singleBin in H. rewrite E in H.
    destruct (Rlt_dec (slop_a B * slop_a B * rsq) (Rsqr x)); [discriminate|].
    unfold slopLo, slopHi; rewrite E.
    destruct (Rle_dec x (slop_b B)) as [Hle|Hnle].
    + injection H; intros; subst k r lr. unfold K, kFinal; simpl. fold R0.
      split; [|split]; intros; try lra.
      assert (HI : inBin B (trunc (kkOf B R0)) R0) by (apply trunc_kk_bin; auto).
      split; auto. destruct HI as [_ HI]. lra.
    + destruct (Rlt_dec (1/2 * (binsize B + slop_b B)) x); [discriminate|].
      fold R0 in H.
      replace ((R0 - minsep B) / binsize B) with (kkOf B R0) in H by (unfold kkOf; rewrite E; auto).
      set (fr := kkOf B R0 - IZR (trunc (kkOf B R0))) in *.
      destruct (Rlt_dec (Rmin fr (1 - fr) * binsize B + slop_b B) x); [discriminate|].
      assert (Hk : k = trunc (kkOf B R0)) by congruence. clear H.
      assert (Hr : R0 = minsep B + kkOf B R0 * binsize B).
      { unfold kkOf; rewrite E, div_binsize; auto; lra. }
      assert (Hrk : R0 = minsep B + IZR k * binsize B + fr * binsize B).
      { unfold fr. rewrite <- Hk. lra. }
      pose proof (Rmin_r fr (1 - fr)). pose proof (Rmin_l fr (1 - fr)).
      split; [|split]; intros Hrange.
      * assert (Hk0 : IZR 0 <= kkOf B R0).
        { apply kkOf_edge_le; auto. rewrite edge_0; auto. lra. }
        destruct (trunc_nonneg _ Hk0) as [_ Ht3].
        assert (HK : K = k) by (unfold K, kFinal; destruct (Z.ltb_spec k 0); [lia|auto]).
        rewrite HK, Hk. split; [apply trunc_kk_bin; auto|]. rewrite <- Hk.
        unfold edge; rewrite E, plus_IZR. split; nra.
      * assert (Hkneg : kkOf B R0 < IZR 0).
        { apply kkOf_edge_lt; auto. rewrite edge_0; auto. }
        simpl in Hkneg. destruct (trunc_neg _ Hkneg) as [[Ht1 Ht2] Ht3].
        assert (fr <= 0) by (unfold fr; lra). nra.
      * assert (Hkn : IZR (nbins B) <= kkOf B R0).
        { apply kkOf_edge_le; auto. rewrite edge_n; auto. }
        assert (0 < IZR (nbins B)) by (apply IZR_lt in Hnb; auto).
        destruct (trunc_nonneg (kkOf B R0)) as [[Ht1 Ht2] Ht3]; [lra|].
        assert (Hnk : IZR (nbins B) < IZR (trunc (kkOf B R0) + 1)) by (rewrite plus_IZR; lra).
        apply lt_IZR in Hnk. assert (Hnk' : (nbins B <= k)%Z) by lia.
        apply IZR_le in Hnk'.
        rewrite <- (edge_n B) by auto. unfold edge; rewrite E. nra.
Qed.
