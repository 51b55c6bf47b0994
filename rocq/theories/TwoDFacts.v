(** What the traversal does with a pair of cells for bin_type='TwoD'. *)
From Coq Require Import Reals Lra Lia List ZArith Bool Permutation Psatz.
From Verif Require Import Base Geometry Tree Traverse Run Spec SpecRun GeomFacts SumFacts TreeFacts
  BinFacts TravFacts Exact MetricFacts Cover Lift Runs SpecTwoD PropsAngle.
Import ListNotations.
Open Scope R_scope.

Lemma euclid_pdist p q : euclid p q = pdist p q.
Proof. unfold euclid, pdist, norm, normSq, psub. cbn [px py pz]. f_equal. ring. Qed.
Lemma px_norm p : Rabs (px p) <= norm p.
Proof.
  unfold norm. rewrite <- (sqrt_Rsqr_abs (px p)). apply sqrt_le_1_alt. unfold normSq, Rsqr.
  pose proof (Rle_0_sqr (py p)); pose proof (Rle_0_sqr (pz p)); unfold Rsqr in *; lra.
Qed.
Lemma py_norm p : Rabs (py p) <= norm p.
Proof.
  unfold norm. rewrite <- (sqrt_Rsqr_abs (py p)). apply sqrt_le_1_alt. unfold normSq, Rsqr.
  pose proof (Rle_0_sqr (px p)); pose proof (Rle_0_sqr (pz p)); unfold Rsqr in *; lra.
Qed.

Section Cells.
Variables (P : cparams) (n : Z).
Let B := cbin P.
Hypothesis HB : valid2D B n.
Hypothesis HM : cmetric P = Euclidean.
Hypothesis HR : crpar P = None.

Lemma nR : 0 < IZR n.
Proof. apply IZR_lt, HB. Qed.
Lemma bs_pos : 0 < binsize B.
Proof.
  pose proof nR. pose proof (v2_size _ _ HB). pose proof (v2_max _ _ HB).
  destruct (Rlt_dec 0 (binsize B)); auto. exfalso.
  assert (binsize B * IZR n <= 0 * IZR n) by (apply Rmult_le_compat_r; lra). lra.
Qed.
Lemma two_over : 2 * maxsep B / binsize B = IZR n.
Proof. rewrite <- (v2_size _ _ HB). field. pose proof bs_pos; lra. Qed.
Lemma npix : trunc (2 * maxsep B / binsize B + 1/2) = n.
Proof.
  rewrite two_over. apply trunc_unique; [|lra]. pose proof (v2_n _ _ HB); lia.
Qed.
Lemma edge2 i : edge B i = - maxsep B + IZR i * binsize B.
Proof. unfold edge. rewrite (v2_type _ _ HB). auto. Qed.
Lemma pix_edge i d : IZR i <= (d + maxsep B) / binsize B <-> edge B i <= d.
Proof.
  pose proof bs_pos. rewrite edge2. split; intro H1.
  - apply (Rmult_le_compat_r (binsize B)) in H1; [|lra].
    replace ((d + maxsep B) / binsize B * binsize B) with (d + maxsep B) in H1 by (field; lra). lra.
  - apply (Rmult_le_reg_r (binsize B)); [lra|].
    replace ((d + maxsep B) / binsize B * binsize B) with (d + maxsep B) by (field; lra). lra.
Qed.
Lemma pix_edge_lt i d : (d + maxsep B) / binsize B < IZR i + 1 <-> d < edge B (i + 1).
Proof.
  rewrite <- plus_IZR. pose proof (pix_edge (i + 1) d).
  split; intro H1; apply Rnot_le_lt; intro H2; apply H in H2; lra.
Qed.
Lemma edge0 : edge B 0 = - maxsep B.
Proof. rewrite edge2. lra. Qed.
Lemma edgen : edge B n = maxsep B.
Proof. rewrite edge2. pose proof (v2_size _ _ HB). lra. Qed.
Lemma edge_le i j : (i <= j)%Z -> edge B i <= edge B j.
Proof.
  intro H. rewrite !edge2. apply IZR_le in H. pose proof bs_pos.
  assert (IZR i * binsize B <= IZR j * binsize B) by (apply Rmult_le_compat_r; lra). lra.
Qed.
(** the pixel index of a coordinate inside the square *)
Lemma pixel_of d : - maxsep B <= d < maxsep B ->
  let i := trunc ((d + maxsep B) / binsize B) in (0 <= i < n)%Z /\ edge B i <= d < edge B (i + 1).
Proof.
  intros Hd i. assert (H0 : 0 <= (d + maxsep B) / binsize B).
  { change 0 with (IZR 0). apply pix_edge. rewrite edge0. lra. }
  destruct (trunc_nonneg _ H0) as [[T1 T2] T3]. fold i in T1, T2, T3.
  apply pix_edge in T1. apply pix_edge_lt in T2. split; [|auto]. split; auto.
  destruct (Z_lt_le_dec i n); auto. exfalso. pose proof (edge_le n i l). rewrite edgen in *. lra.
Qed.
Lemma pixel_unique d i : (0 <= i)%Z -> edge B i <= d < edge B (i + 1) ->
  trunc ((d + maxsep B) / binsize B) = i.
Proof. intros Hi [H1 H2]. apply trunc_unique; auto. split; [apply pix_edge; auto|apply pix_edge_lt; auto]. Qed.
Lemma pixel_inj d i j : edge B i <= d < edge B (i + 1) -> edge B j <= d < edge B (j + 1) -> i = j.
Proof.
  intros [A1 A2] [B1 B2]. destruct (Z_lt_le_dec i j) as [L|L].
  - pose proof (edge_le (i + 1) j ltac:(lia)). lra.
  - destruct (Z_lt_le_dec j i) as [L'|L']; [|lia]. pose proof (edge_le (j + 1) i ltac:(lia)). lra.
Qed.
Lemma kdecomp i j : (0 <= i < n)%Z -> (0 <= j < n)%Z ->
  ((j * n + i) mod n = i /\ (j * n + i) / n = j /\ 0 <= j * n + i < n * n)%Z.
Proof.
  intros Hi Hj. split; [|split].
  - rewrite Z.add_comm, Z.mod_add by lia. apply Z.mod_small; auto.
  - rewrite Z.add_comm, Z.div_add by lia. rewrite Z.div_small by auto. lia.
  - split; [nia|]. nia.
Qed.
(** calculateBinK of a vector inside the open square *)
Lemma binK_pixel p1 p2 r lr : Rabs (px p2 - px p1) < maxsep B -> Rabs (py p2 - py p1) < maxsep B ->
  let i := trunc ((px p2 - px p1 + maxsep B) / binsize B) in
  let j := trunc ((py p2 - py p1 + maxsep B) / binsize B) in
  calculateBinK B p1 p2 r lr = (j * n + i)%Z.
Proof.
  intros H1 H2 i j. apply Rabs_def2 in H1. apply Rabs_def2 in H2.
  destruct (pixel_of (px p2 - px p1) ltac:(lra)) as [I1 _].
  destruct (pixel_of (py p2 - py p1) ltac:(lra)) as [J1 _]. fold i in I1. fold j in J1.
  unfold calculateBinK. rewrite (v2_type _ _ HB), npix. fold i j.
  destruct (Z.eqb_spec i n); [lia|]. destruct (Z.eqb_spec j n); [lia|]. auto.
Qed.

(** sel of a pair with known pixel *)
Lemma sel_pixel K o1 o2 i j : (0 <= i < n)%Z -> (0 <= j < n)%Z ->
  edge B i <= sepX o1 o2 < edge B (i + 1) -> edge B j <= sepY o1 o2 < edge B (j + 1) ->
  Rabs (sepX o1 o2) < maxsep B -> Rabs (sepY o1 o2) < maxsep B ->
  euclid (opos o1) (opos o2) <> 0 -> minsep B <= euclid (opos o1) (opos o2) ->
  selPixel B n K o1 o2 = (K =? j * n + i)%Z.
Proof.
  intros Hi Hj HX HY AX AY HE HS. unfold selPixel.
  assert (HE' : 0 < euclid (opos o1) (opos o2)) by (assert (0 <= euclid (opos o1) (opos o2)) by apply sqrt_pos; lra).
  destruct (Z.eqb_spec K (j * n + i)) as [->|Hn].
  - destruct (kdecomp i j Hi Hj) as [-> [-> [K1 K2]]].
    apply Z.leb_le in K1. apply Z.ltb_lt in K2. rewrite K1, K2. cbn [andb].
    rewrite !andb_true_iff, !Rleb_true, !Rltb_true. tauto.
  - apply Bool.not_true_is_false. intro H. rewrite !andb_true_iff, !Rleb_true, !Rltb_true, Z.leb_le, Z.ltb_lt in H.
    destruct H as [[[[[[[[[K1 K2] X1] X2] Y1] Y2] _] _] _] _].
    apply Hn. pose proof (pixel_inj _ _ _ HX (conj X1 X2)). pose proof (pixel_inj _ _ _ HY (conj Y1 Y2)).
    pose proof (Z.div_mod K n ltac:(lia)). lia.
Qed.
Lemma sel_out K o1 o2 : maxsep B <= Rabs (sepX o1 o2) \/ maxsep B <= Rabs (sepY o1 o2) \/
  euclid (opos o1) (opos o2) = 0 \/ euclid (opos o1) (opos o2) < minsep B -> selPixel B n K o1 o2 = false.
Proof.
  intro H. unfold selPixel. apply Bool.not_true_is_false. intro E.
  rewrite !andb_true_iff, !Rleb_true, !Rltb_true in E. destruct E as [[[E E1] E2] E3].
  destruct E as [E E4]. lra.
Qed.

(** Members of two cells: the separation vector and the distance differ from those of the centres by at
    most the sum of the sizes (plus 2m). *)
Definition dxc (c1 c2 : cell) : R := px (getPos c2) - px (getPos c1).
Definition dyc (c1 c2 : cell) : R := py (getPos c2) - py (getPos c1).
Lemma members_near m c1 c2 x o1 o2 : 0 <= m -> okcell m c1 -> okcell m c2 -> effSum P c1 c2 = Fin x ->
  In o1 (objs c1) -> In o2 (objs c2) ->
  Rabs (sepX o1 o2 - dxc c1 c2) <= x + 2 * m /\ Rabs (sepY o1 o2 - dyc c1 c2) <= x + 2 * m /\
  Rabs (euclid (opos o1) (opos o2) - pdist (getPos c1) (getPos c2)) <= x + 2 * m.
Proof.
  intros Hm O1 O2 HX I1 I2. unfold effSum in HX. rewrite HM in HX. cbn [effSize] in HX.
  destruct (getSize c1) as [x1|] eqn:E1, (getSize c2) as [x2|] eqn:E2; try discriminate.
  cbn [eadd] in HX. injection HX as <-.
  pose proof (member_within m c1 o1 x1 Hm O1 I1 E1) as M1. pose proof (member_within m c2 o2 x2 Hm O2 I2 E2) as M2.
  pose proof (diff_bound _ _ _ _ _ _ M1 M2) as HD.
  set (v := psub (psub (opos o2) (opos o1)) (psub (getPos c2) (getPos c1))) in *.
  assert (VX : px v = sepX o1 o2 - dxc c1 c2) by reflexivity.
  assert (VY : py v = sepY o1 o2 - dyc c1 c2) by reflexivity.
  pose proof (px_norm v). pose proof (py_norm v). rewrite VX in *. rewrite VY in *.
  split; [lra|]. split; [lra|]. rewrite euclid_pdist.
  pose proof (pdist_triangle (opos o1) (getPos c1) (opos o2)). pose proof (pdist_triangle (getPos c1) (getPos c2) (opos o2)).
  pose proof (pdist_triangle (getPos c1) (opos o1) (getPos c2)). pose proof (pdist_triangle (opos o1) (opos o2) (getPos c2)).
  rewrite (pdist_sym (opos o1) (getPos c1)) in *. rewrite (pdist_sym (opos o2) (getPos c2)) in *.
  apply Rabs_le. lra.
Qed.

Lemma flat_far o1 o2 : pz (opos o1) = 0 -> pz (opos o2) = 0 -> sqrt 2 * maxsep B <= euclid (opos o1) (opos o2) ->
  maxsep B <= Rabs (sepX o1 o2) \/ maxsep B <= Rabs (sepY o1 o2).
Proof.
  intros Z1 Z2 H. destruct (Rle_dec (maxsep B) (Rabs (sepX o1 o2))) as [|N1]; auto.
  destruct (Rle_dec (maxsep B) (Rabs (sepY o1 o2))) as [|N2]; auto. exfalso.
  assert (M := v2_max _ _ HB).
  assert (S2 : sqrt 2 * maxsep B = sqrt (2 * (maxsep B * maxsep B))).
  { rewrite sqrt_mult, sqrt_square; nra. }
  rewrite S2 in H. unfold euclid in H. rewrite Z1, Z2 in H.
  assert (Hq : forall a, ~ maxsep B <= Rabs a -> a * a < maxsep B * maxsep B).
  { intros a Ha. apply Rnot_le_lt in Ha. rewrite <- (Rabs_pos_eq (a * a)) by (apply Rle_0_sqr).
    rewrite Rabs_mult. apply Rmult_le_0_lt_compat; auto; apply Rabs_pos. }
  apply Hq in N1. apply Hq in N2. unfold sepX, sepY in *.
  set (u := px (opos o2) - px (opos o1)) in *. set (v := py (opos o2) - py (opos o1)) in *.
  replace ((px (opos o1) - px (opos o2)) ^ 2 + (py (opos o1) - py (opos o2)) ^ 2 + (0 - 0) ^ 2)
    with (u * u + v * v) in H by (unfold u, v; ring).
  pose proof (Rle_0_sqr u). pose proof (Rle_0_sqr v). unfold Rsqr in *.
  assert (0 <= maxsep B * maxsep B) by (apply Rmult_le_pos; lra).
  apply sqrt_le_0 in H; lra.
Qed.

(** Range test. *)
Lemma range_true c1 c2 : isRSqInRange B (distSq Euclidean (getPos c1) (getPos c2)) (getPos c1) (getPos c2) = true ->
  Rabs (dxc c1 c2) < maxsep B /\ Rabs (dyc c1 c2) < maxsep B /\
  pdist (getPos c1) (getPos c2) <> 0 /\ minsep B <= pdist (getPos c1) (getPos c2).
Proof.
  unfold isRSqInRange. rewrite (v2_type _ _ HB). cbn [distSq].
  change (normSq (psub (getPos c1) (getPos c2))) with (normSq (psub (getPos c1) (getPos c2))).
  assert (Q : 0 <= normSq (psub (getPos c1) (getPos c2))).
  { unfold normSq. pose proof (Rle_0_sqr (px (psub (getPos c1) (getPos c2)))). pose proof (Rle_0_sqr (py (psub (getPos c1) (getPos c2)))).
    pose proof (Rle_0_sqr (pz (psub (getPos c1) (getPos c2)))). unfold Rsqr in *. lra. }
  destruct Req_EM_T as [|N]; [discriminate|]. destruct Rlt_dec as [|N2]; [discriminate|].
  rewrite Rltb_true. intro H. apply Rmax_Rlt in H as [H1 H2].
  split; [|split; [|split]].
  - unfold dxc. cbn [psub px] in H1. rewrite Rabs_minus_sym. auto.
  - unfold dyc. cbn [psub py] in H2. rewrite Rabs_minus_sym. auto.
  - unfold pdist, norm. intro E. apply sqrt_eq_0 in E; auto.
  - unfold pdist, norm. rewrite <- (sqrt_square (minsep B)) by apply HB. apply sqrt_le_1_alt. lra.
Qed.
Lemma range_false c1 c2 : isRSqInRange B (distSq Euclidean (getPos c1) (getPos c2)) (getPos c1) (getPos c2) = false ->
  maxsep B <= Rabs (dxc c1 c2) \/ maxsep B <= Rabs (dyc c1 c2) \/
  pdist (getPos c1) (getPos c2) = 0 \/ pdist (getPos c1) (getPos c2) < minsep B.
Proof.
  unfold isRSqInRange. rewrite (v2_type _ _ HB). cbn [distSq].
  destruct Req_EM_T as [E|N].
  { intros _. right; right; left. unfold pdist, norm. rewrite E. apply sqrt_0. }
  destruct Rlt_dec as [L|N2].
  { intros _. right; right; right. unfold pdist, norm. rewrite <- (sqrt_square (minsep B)) by apply HB.
    apply sqrt_lt_1_alt. split; auto.
    unfold normSq. pose proof (Rle_0_sqr (px (psub (getPos c1) (getPos c2)))). pose proof (Rle_0_sqr (py (psub (getPos c1) (getPos c2)))).
    pose proof (Rle_0_sqr (pz (psub (getPos c1) (getPos c2)))). unfold Rsqr in *. lra. }
  intro H. assert (H' : ~ Rmax (Rabs (px (psub (getPos c1) (getPos c2)))) (Rabs (py (psub (getPos c1) (getPos c2)))) < maxsep B).
  { intro Q. rewrite <- Rltb_true in Q. congruence. }
  cbn [psub px py] in H'. unfold dxc, dyc. rewrite (Rabs_minus_sym (px (getPos c2))), (Rabs_minus_sym (py (getPos c2))).
  revert H'. unfold Rmax. destruct Rle_dec; intro; lra.
Qed.

(** The result of singleBin. *)
Lemma single_cases c1 c2 x k r lr : 0 <= x ->
  singleBin B (distSq Euclidean (getPos c1) (getPos c2)) (Fin x) (getPos c1) (getPos c2) = Some (k, r, lr) ->
  (x <= slop_b B /\ k = (-1)%Z) \/
  (slop_b B < x /\ r = 0 /\ exists i j,
     i = trunc ((dxc c1 c2 + maxsep B) / binsize B) /\ j = trunc ((dyc c1 c2 + maxsep B) / binsize B) /\
     k = (j * n + i)%Z /\ ~ (i = trunc (maxsep B / binsize B) /\ j = trunc (maxsep B / binsize B)) /\
     (0 <= i)%Z /\ (0 <= j)%Z /\
     edge B i <= dxc c1 c2 - x /\ dxc c1 c2 + x < edge B (i + 1) /\
     edge B j <= dyc c1 c2 - x /\ dyc c1 c2 + x < edge B (j + 1)).
Proof.
  intros Hx H. unfold singleBin in H. rewrite (v2_type _ _ HB) in H.
  destruct Rlt_dec; [discriminate|]. destruct Rle_dec as [L|L].
  { left. split; auto. congruence. }
  destruct Rlt_dec; [discriminate|]. right. apply Rnot_le_lt in L. split; auto.
  fold (dxc c1 c2) (dyc c1 c2) in H. rewrite npix in H.
  set (i := trunc ((dxc c1 c2 + maxsep B) / binsize B)) in *.
  set (j := trunc ((dyc c1 c2 + maxsep B) / binsize B)) in *.
  destruct ((i =? trunc (maxsep B / binsize B)) && (j =? trunc (maxsep B / binsize B)))%Z eqn:EM; [discriminate|].
  destruct Rlt_dec as [|N1]; [discriminate|]. destruct Rle_dec as [|N2]; [discriminate|].
  destruct Rlt_dec as [|N3]; [discriminate|]. destruct Rle_dec as [|N4]; [discriminate|].
  apply Rnot_lt_le in N1. apply Rnot_le_lt in N2. apply Rnot_lt_le in N3. apply Rnot_le_lt in N4.
  pose proof bs_pos as Hb. pose proof (v2_b _ _ HB) as Hsb.
  assert (XB : 0 < x / binsize B) by (apply Rdiv_lt_0_compat; lra).
  assert (sub : forall d, (d + maxsep B) / binsize B - x / binsize B = (d - x + maxsep B) / binsize B) by (intro; field; lra).
  assert (add : forall d, (d + maxsep B) / binsize B + x / binsize B = (d + x + maxsep B) / binsize B) by (intro; field; lra).
  assert (NN : forall d, IZR (trunc ((d + maxsep B) / binsize B)) <= (d + maxsep B) / binsize B - x / binsize B ->
                (0 <= trunc ((d + maxsep B) / binsize B))%Z).
  { intros d Hd. destruct (Rlt_dec ((d + maxsep B) / binsize B) 0) as [Q|Q].
    - destruct (trunc_neg _ Q) as [[T _] _]. lra.
    - apply trunc_nonneg. lra. }
  assert (I0 := NN _ N1). assert (J0 := NN _ N3). fold i in I0. fold j in J0.
  rewrite sub in N1, N3. rewrite add in N2, N4.
  injection H; intros _ <- <-. split; auto. exists i, j. do 3 (split; auto).
  split. { intros [-> E]. rewrite E in EM. rewrite !Z.eqb_refl in EM. discriminate. }
  do 2 (split; auto).
  split; [apply pix_edge; auto|]. split; [apply pix_edge_lt; auto|]. split; [apply pix_edge; auto|apply pix_edge_lt; auto].
Qed.

(** A dropped pair of cells. *)
Lemma drop2D m c1 c2 : 0 <= m -> okcell m c1 -> okcell m c2 -> decide11 P c1 c2 = Drop ->
  (forall o, In o (objs c1) -> pz (opos o) = 0) -> (forall o, In o (objs c2) -> pz (opos o) = 0) ->
  getW c1 = 0 \/ getW c2 = 0 \/
  exists x, effSum P c1 c2 = Fin x /\ 0 <= x /\
    forall o1 o2, In o1 (objs c1) -> In o2 (objs c2) ->
     (euclid (opos o1) (opos o2) < minsep B + 2 * m \/
      sqrt 2 * maxsep B - 2 * m <= euclid (opos o1) (opos o2)) \/
     ((x <= slop_b B \/ minsep B <> 0) /\
        (maxsep B - (x + 2 * m) <= Rabs (sepX o1 o2) \/ maxsep B - (x + 2 * m) <= Rabs (sepY o1 o2) \/
         euclid (opos o1) (opos o2) <= x + 2 * m \/ euclid (opos o1) (opos o2) < minsep B + x + 2 * m)) \/
     (maxsep B - 2 * m <= Rabs (sepX o1 o2) \/ maxsep B - 2 * m <= Rabs (sepY o1 o2)).
Proof.
  intros Hm O1 O2 HD F1 F2.
  assert (Hr : 0 <= distSq (cmetric P) (getPos c1) (getPos c2)) by apply distSq_nonneg.
  destruct (decide_cases P c1 c2) as [[_ HC]|[[k [r [lr [HC _]]]]|[a [b HC]]]]; try congruence.
  rewrite HR, HM in HC. cbn [isRParOutsideRange isRParInsideRange] in HC.
  destruct HC as [HC|[HC|[HC|[HC|[HC|[_ [[k [r [lr HS]]] HI]]]]]]]; auto; try discriminate; right; right;
   (destruct (effSum P c1 c2) as [x|] eqn:EX; [|try discriminate]);
   exists x; split; auto; assert (Hx := effSum_nonneg _ _ _ _ _ O1 O2 EX); split; auto;
   intros o1 o2 I1 I2; destruct (members_near m c1 c2 x o1 o2 Hm O1 O2 EX I1 I2) as [NX [NY NE]];
   rewrite HM in Hr; cbn [distSq] in *.
  - left; left. unfold tooSmallDist in HC. fold B in HC. rewrite !andb_true_iff, !Rltb_true in HC. destruct HC as [[H1 H2] H3].
    assert (sqrt (normSq (psub (getPos c1) (getPos c2))) < minsep B - x) by (apply sqrt_lt_sq; auto; lra).
    change (sqrt (normSq (psub (getPos c1) (getPos c2)))) with (pdist (getPos c1) (getPos c2)) in H.
    apply Rabs_bounds in NE. lra.
  - left; right. unfold tooLargeDist in HC. fold B in HC. rewrite (v2_type _ _ HB), andb_true_iff, !Rleb_true in HC.
    destruct HC as [_ H3].
    assert (sqrt 2 * maxsep B + x <= sqrt (normSq (psub (getPos c1) (getPos c2)))).
    { apply le_sqrt_sq; auto. pose proof (v2_max _ _ HB). pose proof (sqrt_pos 2).
      assert (0 <= sqrt 2 * maxsep B) by (apply Rmult_le_pos; lra). lra. }
    change (sqrt (normSq (psub (getPos c1) (getPos c2)))) with (pdist (getPos c1) (getPos c2)) in H.
    apply Rabs_bounds in NE. lra.
  - right. pose proof (single_cases c1 c2 x k r lr Hx HS) as HSC. pose proof (range_false c1 c2 HI) as HF.
    assert (TR : forall a b, Rabs (a - b) <= x + 2 * m -> Rabs b - (x + 2 * m) <= Rabs a).
    { intros a b Hab. pose proof (Rabs_triang_inv b a). rewrite Rabs_minus_sym in Hab. lra. }
    assert (CL : maxsep B - (x + 2 * m) <= Rabs (sepX o1 o2) \/ maxsep B - (x + 2 * m) <= Rabs (sepY o1 o2) \/
         euclid (opos o1) (opos o2) <= x + 2 * m \/ euclid (opos o1) (opos o2) < minsep B + x + 2 * m).
    { apply TR in NX. apply TR in NY. apply Rabs_bounds in NE. lra. }
    destruct (Req_EM_T (minsep B) 0) as [Hz|Hz]; [|left; auto].
    destruct HSC as [[Hs _]|[Hs [_ [i [j [Ei [Ej [_ [Nm [I0 [J0 [X1 [X2 [Y1 Y2]]]]]]]]]]]]]]; [left; auto|].
    right. rewrite Hz in HF. assert (0 <= pdist (getPos c1) (getPos c2)) by apply sqrt_pos.
    assert (SX : maxsep B <= Rabs (dxc c1 c2) -> maxsep B - 2 * m <= Rabs (sepX o1 o2)).
    { intro HA. unfold Rabs in HA. destruct Rcase_abs in HA.
      - exfalso. assert (edge B 0 <= edge B i) by (apply edge_le; auto). rewrite edge0 in *. pose proof (v2_b _ _ HB). lra.
      - assert (n <= i)%Z.
        { destruct (Z_lt_le_dec i n); auto. pose proof (edge_le (i + 1) n ltac:(lia)). rewrite edgen in *. lra. }
        pose proof (edge_le n i H0). rewrite edgen in *. apply Rabs_bounds in NX. pose proof (Rle_abs (sepX o1 o2)). lra. }
    assert (SY : maxsep B <= Rabs (dyc c1 c2) -> maxsep B - 2 * m <= Rabs (sepY o1 o2)).
    { intro HA. unfold Rabs in HA. destruct Rcase_abs in HA.
      - exfalso. assert (edge B 0 <= edge B j) by (apply edge_le; auto). rewrite edge0 in *. pose proof (v2_b _ _ HB). lra.
      - assert (n <= j)%Z.
        { destruct (Z_lt_le_dec j n); auto. pose proof (edge_le (j + 1) n ltac:(lia)). rewrite edgen in *. lra. }
        pose proof (edge_le n j H0). rewrite edgen in *. apply Rabs_bounds in NY. pose proof (Rle_abs (sepY o1 o2)). lra. }
    destruct HF as [HF|[HF|[HF|HF]]]; [auto|auto| |lra]. exfalso.
    assert (E0 : dxc c1 c2 = 0 /\ dyc c1 c2 = 0).
    { unfold pdist in HF. pose proof (px_norm (psub (getPos c1) (getPos c2))). pose proof (py_norm (psub (getPos c1) (getPos c2))).
      rewrite HF in *. cbn [psub px py] in *. apply Rabs_bounds in H0. apply Rabs_bounds in H1. unfold dxc, dyc. lra. }
    destruct E0 as [E1 E2]. rewrite E1 in Ei. rewrite E2 in Ej. rewrite Rplus_0_l in *. apply Nm; auto.
Qed.

(** An accumulated pair of cells: the pixel. *)
Lemma direct2D m rev c1 c2 rsq k r lr : 0 <= m -> okcell m c1 -> okcell m c2 ->
  decide11 P c1 c2 = Direct rsq k r lr ->
  let e := directProcess11 P rev c1 c2 rsq k r lr in
  exists x i j, effSum P c1 c2 = Fin x /\ 0 <= x /\ (0 <= i < n)%Z /\ (0 <= j < n)%Z /\ ek e = (j * n + i)%Z /\
    edge B i <= dxc c1 c2 < edge B (i + 1) /\ edge B j <= dyc c1 c2 < edge B (j + 1) /\
    Rabs (dxc c1 c2) < maxsep B /\ Rabs (dyc c1 c2) < maxsep B /\
    pdist (getPos c1) (getPos c2) <> 0 /\ minsep B <= pdist (getPos c1) (getPos c2) /\
    (slop_b B < x -> ~ (i = trunc (maxsep B / binsize B) /\ j = trunc (maxsep B / binsize B)) /\
       edge B i <= dxc c1 c2 - x /\ dxc c1 c2 + x < edge B (i + 1) /\
       edge B j <= dyc c1 c2 - x /\ dyc c1 c2 + x < edge B (j + 1)) /\
    ek2 e = if rev then Some (trunc ((- dyc c1 c2 + maxsep B) / binsize B) * n +
                              trunc ((- dxc c1 c2 + maxsep B) / binsize B))%Z else None.
Proof.
  intros Hm O1 O2 HD e.
  destruct (decide_cases P c1 c2) as [[HC _]|[[k' [r' [lr' [HC [_ [_ [_ [HS HI]]]]]]]]|[a [b HC]]]]; try congruence.
  rewrite HC in HD. injection HD; intros; subst k' r' lr'. rewrite HM in HS, HI. fold B in HS, HI.
  destruct (effSum P c1 c2) as [x|] eqn:EX; [|discriminate].
  assert (Hx := effSum_nonneg _ _ _ _ _ O1 O2 EX).
  destruct (range_true c1 c2 HI) as [RX [RY [RN RM]]].
  pose proof (single_cases c1 c2 x k r lr Hx HS) as HSC.
  assert (RX' := RX). assert (RY' := RY). apply Rabs_def2 in RX'. apply Rabs_def2 in RY'.
  destruct (pixel_of (dxc c1 c2) ltac:(lra)) as [I1 I2]. destruct (pixel_of (dyc c1 c2) ltac:(lra)) as [J1 J2].
  set (i := trunc ((dxc c1 c2 + maxsep B) / binsize B)) in *.
  set (j := trunc ((dyc c1 c2 + maxsep B) / binsize B)) in *.
  destruct (kdecomp i j I1 J1) as [_ [_ K]].
  assert (KE : ((j * n + i)%Z =? nbins B)%Z = false).
  { apply Z.eqb_neq. rewrite (v2_nbins _ _ HB). lia. }
  assert (BK : forall r lr, calculateBinK B (getPos c1) (getPos c2) r lr = (j * n + i)%Z).
  { intros. apply (binK_pixel (getPos c1) (getPos c2)); auto. }
  assert (K2 : forall r lr, calculateBinK B (getPos c2) (getPos c1) r lr =
     (trunc ((- dyc c1 c2 + maxsep B) / binsize B) * n + trunc ((- dxc c1 c2 + maxsep B) / binsize B))%Z).
  { intros. rewrite binK_pixel.
    - unfold dxc, dyc. rewrite !Ropp_minus_distr. auto.
    - unfold dxc in RX. rewrite Rabs_minus_sym. auto.
    - unfold dyc in RY. rewrite Rabs_minus_sym. auto. }
  destruct (pixel_of (- dxc c1 c2) ltac:(lra)) as [I3 _]. destruct (pixel_of (- dyc c1 c2) ltac:(lra)) as [J3 _].
  destruct (kdecomp _ _ I3 J3) as [_ [_ K']].
  assert (KE' : ((trunc ((- dyc c1 c2 + maxsep B) / binsize B) * n + trunc ((- dxc c1 c2 + maxsep B) / binsize B))%Z =? nbins B)%Z = false).
  { apply Z.eqb_neq. rewrite (v2_nbins _ _ HB). lia. }
  exists x, i, j.
  assert (EK : ek e = (j * n + i)%Z /\ ek2 e = if rev then Some (trunc ((- dyc c1 c2 + maxsep B) / binsize B) * n +
                              trunc ((- dxc c1 c2 + maxsep B) / binsize B))%Z else None).
  { unfold e, directProcess11. fold B.
    destruct HSC as [[_ ->]|[_ [_ [i' [j' [Ei [Ej [-> _]]]]]]]].
    - change (-1 <? 0)%Z with true. cbv beta iota zeta. rewrite BK, K2, KE, KE'. auto.
    - fold i in Ei. fold j in Ej. subst i' j'. destruct (Z.ltb_spec (j * n + i) 0); [lia|].
      cbv beta iota zeta. rewrite KE, K2, KE'. auto. }
  destruct EK as [EK EK2]. rewrite EK, EK2.
  repeat split; auto; try tauto; try (apply I1); try apply J1; try apply I2; try apply J2;
   (destruct HSC as [[Hs _]|[_ [_ [i' [j' [Ei [Ej [_ [Nm [_ [_ [X1 [X2 [Y1 Y2]]]]]]]]]]]]]]; [lra|]);
   fold i in Ei; fold j in Ej; subst i' j'; auto.
Qed.
End Cells.
