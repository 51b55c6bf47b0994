(** C64: bin_type='TwoD': exact counts per pixel, the bin_slop bound, and what fails. *)
From Coq Require Import Reals Lra Lia List ZArith Bool Permutation Psatz.
From Verif Require Import Base Geometry Tree Traverse Run Spec SpecRun GeomFacts SumFacts TreeFacts
  BinFacts TravFacts Exact MetricFacts Cover Lift Runs Examples Account SpecTwoD PropsAngle TwoDFacts.
Import ListNotations.
Open Scope R_scope.

Section Exactness.
Variables (P : cparams) (n : Z).
Local Notation B := (cbin P).
Hypothesis HB : valid2D B n.
Hypothesis HM : cmetric P = Euclidean.
Hypothesis HR : crpar P = None.

(** Either only cells of size 0 are accumulated, or the parameters and the pairs satisfy [off]. *)
Definition fine (off : obj -> obj -> Prop) (c1 c2 : cell) : Prop :=
  (forall x, effSum P c1 c2 = Fin x -> x = 0) \/
  (slop_b B = 0 /\ minsep B = 0 /\ forall o1 o2, In o1 (objs c1) -> In o2 (objs c2) -> off o1 o2).

Lemma mid_zero : trunc (maxsep B / binsize B) = trunc ((0 + maxsep B) / binsize B).
Proof. rewrite Rplus_0_l. auto. Qed.

Lemma euclid0_sep o1 o2 : euclid (opos o1) (opos o2) = 0 -> sepX o1 o2 = 0 /\ sepY o1 o2 = 0.
Proof.
  intro H. rewrite euclid_pdist in H. unfold pdist in H.
  pose proof (px_norm (psub (opos o1) (opos o2))). pose proof (py_norm (psub (opos o1) (opos o2))).
  rewrite H in *. cbn [psub px py] in *. apply Rabs_bounds in H0. apply Rabs_bounds in H1. unfold sepX, sepY. lra.
Qed.

Lemma direct_members rev c1 c2 rsq k r lr o1 o2 K : okcell 0 c1 -> okcell 0 c2 ->
  decide11 P c1 c2 = Direct rsq k r lr -> fine (offBorder B) c1 c2 -> In o1 (objs c1) -> In o2 (objs c2) ->
  selPixel B n K o1 o2 = (K =? ek (directProcess11 P rev c1 c2 rsq k r lr))%Z.
Proof.
  intros O1 O2 HD HF I1 I2.
  destruct (direct2D P n HB HM 0 rev c1 c2 rsq k r lr ltac:(lra) O1 O2 HD)
    as [x [i [j [EX [Hx [Hi [Hj [EK [PX [PY [AX [AY [ND [MS [HS _]]]]]]]]]]]]]]].
  rewrite EK. destruct (members_near P HM 0 c1 c2 x o1 o2 ltac:(lra) O1 O2 EX I1 I2) as [NX [NY NE]].
  assert (H0 : x = 0 -> selPixel B n K o1 o2 = (K =? j * n + i)%Z).
  { intros ->. apply Rabs_bounds in NX. apply Rabs_bounds in NY. apply Rabs_bounds in NE.
    assert (E1 : sepX o1 o2 = dxc c1 c2) by lra. assert (E2 : sepY o1 o2 = dyc c1 c2) by lra.
    assert (E3 : euclid (opos o1) (opos o2) = pdist (getPos c1) (getPos c2)) by lra.
    apply (sel_pixel P n HB); rewrite ?E1, ?E2, ?E3; auto. }
  destruct HF as [HF|[Hb [Hm HO]]]; [auto|]. destruct (Req_EM_T x 0) as [|Hx0]; [auto|]. clear H0.
  destruct (HS ltac:(lra)) as [NM [X1 [X2 [Y1 Y2]]]]. apply Rabs_bounds in NX. apply Rabs_bounds in NY.
  destruct (HO o1 o2 I1 I2) as [OX OY].
  assert (QX : edge B i <= sepX o1 o2 < edge B (i + 1)) by lra.
  assert (QY : edge B j <= sepY o1 o2 < edge B (j + 1)) by lra.
  pose proof (edge_le P n HB 0 i ltac:(lia)) as L1. pose proof (edge_le P n HB 0 j ltac:(lia)) as L2.
  pose proof (edge_le P n HB (i + 1) n ltac:(lia)) as L3. pose proof (edge_le P n HB (j + 1) n ltac:(lia)) as L4. rewrite (edge0 P n HB : edge B 0 = _) in *. rewrite (edgen P n HB : edge B n = _) in *.
  apply (sel_pixel P n HB); auto; try (apply Rabs_def1; lra).
  - intro E. destruct (euclid0_sep _ _ E) as [E1 E2]. rewrite E1 in QX. rewrite E2 in QY. apply NM.
    rewrite mid_zero. split; symmetry; apply (pixel_unique P n HB); auto; lia.
  - rewrite Hm. apply sqrt_pos.
Qed.
Lemma direct_members_rev c1 c2 rsq k r lr o1 o2 K : okcell 0 c1 -> okcell 0 c2 ->
  decide11 P c1 c2 = Direct rsq k r lr -> fine (offGrid B n) c1 c2 -> In o1 (objs c1) -> In o2 (objs c2) ->
  selPixel B n K o1 o2 = (K =? ek (directProcess11 P true c1 c2 rsq k r lr))%Z /\
  exists k2, ek2 (directProcess11 P true c1 c2 rsq k r lr) = Some k2 /\ selPixel B n K o2 o1 = (K =? k2)%Z.
Proof.
  intros O1 O2 HD HF I1 I2.
  destruct (direct2D P n HB HM 0 true c1 c2 rsq k r lr ltac:(lra) O1 O2 HD)
    as [x [i [j [EX [Hx [Hi [Hj [EK [PX [PY [AX [AY [ND [MS [HS EK2]]]]]]]]]]]]]]].
  destruct (members_near P HM 0 c1 c2 x o1 o2 ltac:(lra) O1 O2 EX I1 I2) as [NX [NY NE]]. rewrite EK2.
  assert (RX : sepX o2 o1 = - sepX o1 o2) by (unfold sepX; ring).
  assert (RY : sepY o2 o1 = - sepY o1 o2) by (unfold sepY; ring).
  assert (RE : euclid (opos o2) (opos o1) = euclid (opos o1) (opos o2)) by (rewrite !euclid_pdist; apply pdist_sym).
  assert (AX' := AX). assert (AY' := AY). apply Rabs_def2 in AX'. apply Rabs_def2 in AY'.
  destruct (pixel_of P n HB (- dxc c1 c2) ltac:(lra)) as [Hi2 PX2].
  destruct (pixel_of P n HB (- dyc c1 c2) ltac:(lra)) as [Hj2 PY2].
  set (i2 := trunc ((- dxc c1 c2 + maxsep B) / binsize B)) in *.
  set (j2 := trunc ((- dyc c1 c2 + maxsep B) / binsize B)) in *.
  destruct (Req_EM_T x 0) as [Hx0|Hx0].
  - subst x. apply Rabs_bounds in NX. apply Rabs_bounds in NY. apply Rabs_bounds in NE.
    assert (E1 : sepX o1 o2 = dxc c1 c2) by lra. assert (E2 : sepY o1 o2 = dyc c1 c2) by lra.
    assert (E3 : euclid (opos o1) (opos o2) = pdist (getPos c1) (getPos c2)) by lra. split.
    + rewrite EK. apply (sel_pixel P n HB); rewrite ?E1, ?E2, ?E3; auto.
    + eexists; split; [reflexivity|]. apply (sel_pixel P n HB); rewrite ?RX, ?RY, ?RE, ?E1, ?E2, ?E3, ?Rabs_Ropp; auto.
  - destruct HF as [HF|[Hb [Hm HO]]]; [exfalso; apply Hx0; auto|].
    destruct (HS ltac:(lra)) as [NM [X1 [X2 [Y1 Y2]]]]. apply Rabs_bounds in NX. apply Rabs_bounds in NY.
    assert (QX : edge B i <= sepX o1 o2 < edge B (i + 1)) by lra.
    assert (QY : edge B j <= sepY o1 o2 < edge B (j + 1)) by lra.
    assert (NE0 : euclid (opos o1) (opos o2) <> 0).
    { intro E. destruct (euclid0_sep _ _ E) as [E1 E2]. rewrite E1 in QX. rewrite E2 in QY. apply NM.
      rewrite mid_zero. split; symmetry; apply (pixel_unique P n HB); auto; lia. }
    pose proof (HO o1 o2 I1 I2 NE0) as OG.
    assert (S : forall h, edge B (n - h) = - edge B h).
    { intro h. rewrite !(edge2 P n HB). rewrite minus_IZR. pose proof (v2_size _ _ HB). lra. }
    pose proof (edge_le P n HB 0 i ltac:(lia)) as L1. pose proof (edge_le P n HB 0 j ltac:(lia)) as L2.
    pose proof (edge_le P n HB (i + 1) n ltac:(lia)) as L3. pose proof (edge_le P n HB (j + 1) n ltac:(lia)) as L4. rewrite (edge0 P n HB : edge B 0 = _) in *. rewrite (edgen P n HB : edge B n = _) in *.
    destruct (OG i ltac:(lia)) as [OX _]. destruct (OG j ltac:(lia)) as [_ OY].
    destruct (OG 0%Z ltac:(lia)) as [OX0 OY0]. rewrite (edge0 P n HB : edge B 0 = _) in *.
    assert (BX : Rabs (sepX o1 o2) < maxsep B) by (apply Rabs_def1; lra).
    assert (BY : Rabs (sepY o1 o2) < maxsep B) by (apply Rabs_def1; lra).
    split.
    + rewrite EK. apply (sel_pixel P n HB); auto. rewrite Hm. apply sqrt_pos.
    + assert (I2' : i2 = (n - (i + 1))%Z).
      { apply (pixel_inj P n HB (- dxc c1 c2)); auto. 
        replace (n - (i + 1) + 1)%Z with (n - i)%Z by ring. rewrite !S. lra. }
      assert (J2' : j2 = (n - (j + 1))%Z).
      { apply (pixel_inj P n HB (- dyc c1 c2)); auto. 
        replace (n - (j + 1) + 1)%Z with (n - j)%Z by ring. rewrite !S. lra. }
      eexists; split; [reflexivity|]. rewrite I2', J2'.
      apply (sel_pixel P n HB); rewrite ?RX, ?RY, ?RE, ?Rabs_Ropp; auto; try lia.
      * replace (n - (i + 1) + 1)%Z with (n - i)%Z by ring. rewrite !S. lra.
      * replace (n - (j + 1) + 1)%Z with (n - j)%Z by ring. rewrite !S. lra.
      * rewrite Hm. apply sqrt_pos.
Qed.
Lemma sel_sym_out K o1 o2 : maxsep B <= Rabs (sepX o1 o2) \/ maxsep B <= Rabs (sepY o1 o2) \/
  euclid (opos o1) (opos o2) = 0 \/ euclid (opos o1) (opos o2) < minsep B ->
  selPixel B n K o1 o2 = false /\ selPixel B n K o2 o1 = false.
Proof.
  intro H. split; apply (sel_out P n); auto.
  replace (sepX o2 o1) with (- sepX o1 o2) by (unfold sepX; ring).
  replace (sepY o2 o1) with (- sepY o1 o2) by (unfold sepY; ring).
  rewrite !Rabs_Ropp, euclid_pdist, pdist_sym, <- euclid_pdist. auto.
Qed.
Lemma drop_members c1 c2 o1 o2 K : okcell 0 c1 -> okcell 0 c2 -> decide11 P c1 c2 = Drop ->
  (forall x, effSum P c1 c2 = Fin x -> x = 0) \/ (slop_b B = 0 /\ minsep B = 0) ->
  (forall o, In o (objs c1) -> pz (opos o) = 0) -> (forall o, In o (objs c2) -> pz (opos o) = 0) ->
  In o1 (objs c1) -> In o2 (objs c2) ->
  getW c1 = 0 \/ getW c2 = 0 \/ (selPixel B n K o1 o2 = false /\ selPixel B n K o2 o1 = false).
Proof.
  intros O1 O2 HD HF Z1 Z2 I1 I2.
  destruct (drop2D P n HB HM HR 0 c1 c2 ltac:(lra) O1 O2 HD Z1 Z2) as [H|[H|[x [EX [Hx HX]]]]]; auto.
  right; right. apply sel_sym_out.
  assert (N0 : 0 <= euclid (opos o1) (opos o2)) by apply sqrt_pos.
  destruct (HX o1 o2 I1 I2) as [[H|H]|[[HQ H]|H]].
  - right; right; right. lra.
  - destruct (flat_far P n HB o1 o2 (Z1 _ I1) (Z2 _ I2)); auto. lra.
  - assert (x = 0 \/ minsep B = 0) as [->|Hz].
    { destruct HF as [HF|[Hb Hm]]; auto. }
    + lra.
    + assert (x = 0) as ->. { destruct HF as [HF|[Hb Hm]]; [auto|]. destruct HQ as [HQ|HQ]; [lra|contradiction]. } lra.
  - lra.
Qed.
End Exactness.

Lemma wcond_or c f : (forall o, In o (objs c) -> wcond f o) -> forall o, In o (objs c) -> wcond f o.
Proof. auto. Qed.

(** the value added to array f in pixel k by one pair / by one pair in both orders *)
Definition one2 (B : bparams) (n : Z) (f : afield) (k : Z) (oo : obj * obj) : R :=
  if selPixel B n k (fst oo) (snd oo) then pval f (fst oo) (snd oo) else 0.
Definition both2 (B : bparams) (n : Z) (f : afield) (k : Z) (oo : obj * obj) : R :=
  one2 B n f k oo + one2 B n f k (snd oo, fst oo).

Section Sums.
Variables (P : cparams) (n : Z).
Local Notation B := (cbin P).
Hypothesis HB : valid2D B n.
Hypothesis HM : cmetric P = Euclidean.
Hypothesis HR : crpar P = None.
Variables (f : afield) (k : Z).
Hypothesis Hf : prodField f.

Lemma drop_sum2 c1 c2 : okcell 0 c1 -> okcell 0 c2 -> decide11 P c1 c2 = Drop ->
  (forall x, effSum P c1 c2 = Fin x -> x = 0) \/ (slop_b B = 0 /\ minsep B = 0) ->
  (forall o, In o (objs c1) -> pz (opos o) = 0 /\ wcond f o) -> (forall o, In o (objs c2) -> pz (opos o) = 0 /\ wcond f o) ->
  forall o1 o2, In o1 (objs c1) -> In o2 (objs c2) -> one2 B n f k (o1, o2) = 0 /\ (f <> FXiNK -> one2 B n f k (o2, o1) = 0).
Proof.
  intros O1 O2 HD HF H1 H2 o1 o2 I1 I2. unfold one2. cbn [fst snd].
  destruct (drop_members P n HB HM HR c1 c2 o1 o2 k O1 O2 HD HF) as [H|[H|[E1 E2]]]; auto.
  - intros; apply H1; auto.
  - intros; apply H2; auto.
  - assert (Z : pval f o1 o2 = 0) by (apply (W0_pval f 0 c1 c2); auto; intros; [apply H1|apply H2]; auto).
    rewrite Z. split; [destruct selPixel; auto|]. intro Hn.
    assert (Z' : pval f o2 o1 = pval f o1 o2) by (destruct f; simpl in *; unfold v_one, v_ww, v_kk; try ring; congruence).
    rewrite Z', Z. destruct selPixel; auto.
  - assert (Z : pval f o1 o2 = 0) by (apply (W0_pval f 0 c1 c2); auto; intros; [apply H1|apply H2]; auto).
    rewrite Z. split; [destruct selPixel; auto|]. intro Hn.
    assert (Z' : pval f o2 o1 = pval f o1 o2) by (destruct f; simpl in *; unfold v_one, v_ww, v_kk; try ring; congruence).
    rewrite Z', Z. destruct selPixel; auto.
  - rewrite E1, E2. auto.
Qed.
Lemma direct_sum2 c1 c2 rsq k0 r lr : okcell 0 c1 -> okcell 0 c2 -> decide11 P c1 c2 = Direct rsq k0 r lr ->
  fine P (offBorder B) c1 c2 ->
  sumR (one2 B n f k) (pairs (objs c1) (objs c2)) = contrib f k (directProcess11 P false c1 c2 rsq k0 r lr).
Proof.
  intros O1 O2 HD HF. set (e := directProcess11 P false c1 c2 rsq k0 r lr).
  destruct (direct_ec P false c1 c2 rsq k0 r lr) as [E1 E2]. fold e in E1, E2.
  assert (EK : ek2 e = None) by apply direct_ek2.
  transitivity (sumR (fun p => if (k =? ek e)%Z then pval f (fst p) (snd p) else 0) (pairs (objs c1) (objs c2))).
  - apply sumR_ext. intros [o1 o2] Ho. apply in_pairs in Ho as [I1 I2]. unfold one2. cbn [fst snd].
    rewrite (direct_members P n HB HM false c1 c2 rsq k0 r lr o1 o2 k O1 O2 HD HF I1 I2). reflexivity.
  - unfold contrib, hit. rewrite EK. destruct (k =? ek e)%Z.
    + rewrite (evval_sum f 0 c1 c2 e Hf O1 O2 E1 E2). destruct f; lra.
    + rewrite sumR_0 by auto. destruct f; lra.
Qed.
Lemma direct_sum2_rev c1 c2 rsq k0 r lr : f <> FXiNK -> okcell 0 c1 -> okcell 0 c2 -> decide11 P c1 c2 = Direct rsq k0 r lr ->
  fine P (offGrid B n) c1 c2 ->
  sumR (both2 B n f k) (pairs (objs c1) (objs c2)) = contrib f k (directProcess11 P true c1 c2 rsq k0 r lr).
Proof.
  intros Hn O1 O2 HD HF. set (e := directProcess11 P true c1 c2 rsq k0 r lr).
  destruct (direct_ec P true c1 c2 rsq k0 r lr) as [E1 E2]. fold e in E1, E2.
  assert (EK : exists k2, ek2 e = Some k2) by (unfold e, directProcess11; destruct (k0 <? 0)%Z; cbn; eauto).
  destruct EK as [k2 EK].
  transitivity (sumR (fun p => (if (k =? ek e)%Z then pval f (fst p) (snd p) else 0) +
     (if (k =? k2)%Z then pval f (fst p) (snd p) else 0)) (pairs (objs c1) (objs c2))).
  - apply sumR_ext. intros [o1 o2] Ho. apply in_pairs in Ho as [I1 I2]. unfold both2, one2. cbn [fst snd].
    destruct (direct_members_rev P n HB HM c1 c2 rsq k0 r lr o1 o2 k O1 O2 HD HF I1 I2) as [S1 [k2' [Ek S2]]].
    fold e in S1, Ek. rewrite EK in Ek. injection Ek as <-. rewrite S1, S2. f_equal.
    assert (Z' : pval f o2 o1 = pval f o1 o2) by (destruct f; simpl in *; unfold v_one, v_ww, v_kk; try ring; congruence).
    rewrite Z'. auto.
  - rewrite sumR_plus. unfold contrib, hit. rewrite EK.
    assert (S : forall b : bool, sumR (fun x : obj * obj => if b then pval f (fst x) (snd x) else 0) (pairs (objs c1) (objs c2)) =
      if b then evval f e else 0).
    { intros [|]; [rewrite (evval_sum f 0 c1 c2 e Hf O1 O2 E1 E2); auto|apply sumR_0; auto]. }
    rewrite !S. destruct f; try congruence; auto.
Qed.
End Sums.

Lemma minsize_2D P n : valid2D (cbin P) n -> cmetric P = Euclidean -> minsep (cbin P) = 0 -> fst (getMinMaxSize P) = 0.
Proof.
  intros HB HM Hm. unfold getMinMaxSize. rewrite HM, (v2_type _ _ HB). cbn [fst]. rewrite Hm.
  replace (slop_a (cbin P) * 0 / (2 + 3 * slop_a (cbin P))) with 0 by (unfold Rdiv; ring).
  pose proof (v2_b _ _ HB). apply Rmin_left. lra.
Qed.
(** The field-level test of a cross-correlation never rejects a pair inside the square. *)
Lemma early2D P n F1 F2 cat1 cat2 o1 o2 : valid2D (cbin P) n -> cmetric P = Euclidean -> crpar P = None ->
  flatCat cat1 -> flatCat cat2 ->
  crossEarlyExit P (fieldCenter F1 cat1) (fieldCenter F2 cat2) (fieldSize F1 cat1) (fieldSize F2 cat2) = true ->
  In o1 cat1 -> In o2 cat2 ->
  maxsep (cbin P) <= Rabs (sepX o1 o2) \/ maxsep (cbin P) <= Rabs (sepY o1 o2) \/ euclid (opos o1) (opos o2) < minsep (cbin P).
Proof.
  intros HB HM HR Z1 Z2 H I1 I2. set (B := cbin P) in *.
  pose proof (fieldSize_bound F1 cat1 o1 I1) as S1. pose proof (fieldSize_bound F2 cat2 o2 I2) as S2.
  pose proof (fieldSize_nonneg F1 cat1) as N1. pose proof (fieldSize_nonneg F2 cat2) as N2.
  set (p1 := fieldCenter F1 cat1) in *. set (p2 := fieldCenter F2 cat2) in *.
  set (x := fieldSize F1 cat1 + fieldSize F2 cat2) in *.
  unfold crossEarlyExit in H. rewrite HM, HR in H. cbn [effSize eadd isRParOutsideRange orb] in H. fold B x in H.
  assert (HE : Rabs (euclid (opos o1) (opos o2) - pdist p1 p2) <= x).
  { rewrite euclid_pdist.
    pose proof (pdist_triangle (opos o1) p1 (opos o2)). pose proof (pdist_triangle p1 p2 (opos o2)).
    pose proof (pdist_triangle p1 (opos o1) p2). pose proof (pdist_triangle (opos o1) (opos o2) p2).
    rewrite (pdist_sym (opos o1) p1) in *. rewrite (pdist_sym (opos o2) p2) in *. apply Rabs_le. unfold x. lra. }
  apply Rabs_bounds in HE. assert (Hr : 0 <= distSq Euclidean p1 p2) by apply distSq_nonneg.
  assert (HS : sqrt (distSq Euclidean p1 p2) = pdist p1 p2) by reflexivity.
  apply orb_prop in H as [H|H]; apply andb_prop in H as [H _].
  - right; right. unfold tooSmallDist in H. rewrite !andb_true_iff, !Rltb_true in H. destruct H as [[H1 H2] H3].
    assert (sqrt (distSq Euclidean p1 p2) < minsep B - x) by (apply sqrt_lt_sq; auto; lra). lra.
  - assert (G : maxsep B <= Rabs (sepX o1 o2) \/ maxsep B <= Rabs (sepY o1 o2)); [|tauto].
    apply (flat_far P n HB); auto. fold B.
    unfold tooLargeDist in H. rewrite (v2_type _ _ HB), andb_true_iff, !Rleb_true in H. destruct H as [_ H3].
    assert (sqrt 2 * maxsep B + x <= sqrt (distSq Euclidean p1 p2)).
    { apply le_sqrt_sq; auto. pose proof (v2_max _ _ HB). pose proof (sqrt_pos 2).
      assert (0 <= sqrt 2 * maxsep B) by (apply Rmult_le_pos; lra). unfold x. lra. }
    lra.
Qed.

(** What is assumed of a run: brute, or bin_slop = 0 with min_sep = 0 (the default) and pairs off the given lines. *)
Definition run2D (Q : runcfg) (brute : Prop) (off : obj -> obj -> Prop) (l1 l2 : list obj) : Prop :=
  brute \/ (slop_b (cbin (rP Q)) = 0 /\ minsep (cbin (rP Q)) = 0 /\
            forall o1 o2, In o1 l1 -> In o2 l2 -> off o1 o2).

Lemma cross2D Q n f k cat1 cat2 s0 s1 : valid2D (cbin (rP Q)) n -> cmetric (rP Q) = Euclidean -> crpar (rP Q) = None ->
  flatCat cat1 -> flatCat cat2 -> run2D Q (rbrute Q = BruteBoth) (offBorder (cbin (rP Q))) cat1 cat2 ->
  prodField f -> wposCond f cat1 -> wposCond f cat2 -> runCross Q cat1 cat2 s0 s1 ->
  aget f s1 k = aget f s0 k + sumR (one2 (cbin (rP Q)) n f k) (pairs cat1 cat2).
Proof.
  intros HB HM HR Z1 Z2 HQ Hf Hw1 Hw2 [cells1 [cells2 [B1 [B2 H]]]].
  set (F1 := fieldParams Q (brute1 (rbrute Q))) in *. set (F2 := fieldParams Q (brute2 (rbrute Q))) in *.
  assert (M1 : fminsize F1 = 0).
  { apply fieldParams_min0. destruct HQ as [->|[_ [Hm _]]]; [left; auto|right; eapply minsize_2D; eauto]. }
  assert (M2 : fminsize F2 = 0).
  { apply fieldParams_min0. destruct HQ as [->|[_ [Hm _]]]; [left; auto|right; eapply minsize_2D; eauto]. }
  pose proof (buildField_perm _ _ _ B1) as P1. pose proof (buildField_perm _ _ _ B2) as P2.
  unfold processCross in H. destruct (crossEarlyExit _ _ _ _ _) eqn:EX.
  - subst s1. rewrite sumR_0; [lra|]. intros [o1 o2] Ho. apply in_pairs in Ho as [I1 I2].
    unfold one2. cbn [fst snd]. rewrite (sel_out (rP Q) n); auto.
    destruct (early2D (rP Q) n F1 F2 cat1 cat2 o1 o2 HB HM HR Z1 Z2 EX I1 I2) as [G|[G|G]]; auto.
  - destruct H as [evs [threads [HE [HS ->]]]].
    rewrite (schedule_get f s0 evs threads k HS). f_equal.
    rewrite (sumR_perm _ (pairs cat1 cat2) (pairs (allObjs cells1) (allObjs cells2))) by (apply pairs_perm; symmetry; auto).
    symmetry.
    assert (OB1 : forall a o, inTops cells1 a -> In o (objs a) -> In o cat1).
    { intros a o Ha Ho. eapply Permutation_in; [exact P1|]. eapply inTops_objs; eauto. }
    assert (OB2 : forall a o, inTops cells2 a -> In o (objs a) -> In o cat2).
    { intros a o Ha Ho. eapply Permutation_in; [exact P2|]. eapply inTops_objs; eauto. }
    assert (FI : forall a b, inTops cells1 a -> inTops cells2 b -> fine (rP Q) (offBorder (cbin (rP Q))) a b).
    { intros a b Ha Hb. destruct HQ as [HQ|[Q1 [Q2 Q3]]]; [left|right; repeat split; auto; intros; apply Q3; eauto].
      intros x Hx. refine (proj1 (brute_effSum (rP Q) 0 a b x _ _ _ _ Hx)).
      - exact (cells_ok0 F1 cat1 cells1 a M1 B1 Ha).
      - exact (cells_ok0 F2 cat2 cells2 b M2 B2 Hb).
      - eapply inTops_brute; [|exact Ha]. eapply (buildField_brute F1); eauto. unfold F1. rewrite HQ. reflexivity.
      - eapply inTops_brute; [|exact Hb]. eapply (buildField_brute F2); eauto. unfold F2. rewrite HQ. reflexivity. }
    eapply covers_sum; [apply cross_covers; eauto| |].
    + intros e [a [b [rsq [k0 [r [lr [Ha [Hb [HD ->]]]]]]]]].
      unfold evPairs. destruct (direct_ec (rP Q) false a b rsq k0 r lr) as [-> ->].
      apply (direct_sum2 (rP Q) n HB HM f k Hf); auto.
      * exact (cells_ok0 F1 cat1 cells1 a M1 B1 Ha).
      * exact (cells_ok0 F2 cat2 cells2 b M2 B2 Hb).
    + intros [a b] [Ha [Hb HD]]. cbn [fst snd] in *. unfold cPairs; cbn [fst snd].
      apply sumR_0. intros [o1 o2] Ho. apply in_pairs in Ho as [I1 I2].
      refine (proj1 (drop_sum2 (rP Q) n HB HM HR f k Hf a b _ _ HD _ _ _ o1 o2 I1 I2)).
      * exact (cells_ok0 F1 cat1 cells1 a M1 B1 Ha).
      * exact (cells_ok0 F2 cat2 cells2 b M2 B2 Hb).
      * destruct (FI a b Ha Hb) as [G|[G1 [G2 _]]]; auto.
      * intros o Ho. split; [apply Z1; eauto|apply Hw1; eauto].
      * intros o Ho. split; [apply Z2; eauto|apply Hw2; eauto].
Qed.

Lemma both2_sym B n f k x y : both2 B n f k (x, y) = both2 B n f k (y, x).
Proof. unfold both2. cbn [fst snd]. ring. Qed.
Lemma offGrid_sym B n o1 o2 : valid2D B n -> offGrid B n o1 o2 -> offGrid B n o2 o1.
Proof.
  intros HB H HE i Hi. rewrite euclid_pdist, pdist_sym, <- euclid_pdist in HE.
  assert (EI : edge B (n - i) = - edge B i).
  { unfold edge. rewrite (v2_type _ _ HB), minus_IZR. pose proof (v2_size _ _ HB). lra. }
  destruct (H HE (n - i)%Z ltac:(lia)) as [H1 H2]. unfold sepX, sepY in *. lra.
Qed.
Lemma auto2D Q n f k cat s0 s1 : valid2D (cbin (rP Q)) n -> cmetric (rP Q) = Euclidean -> crpar (rP Q) = None ->
  flatCat cat ->
  rbrute Q <> BruteNo \/ (slop_b (cbin (rP Q)) = 0 /\ minsep (cbin (rP Q)) = 0 /\
     forall o1 o2, In (o1, o2) (upairs cat) -> offGrid (cbin (rP Q)) n o1 o2) ->
  prodField f -> f <> FXiNK -> wposCond f cat -> runAuto Q cat s0 s1 ->
  aget f s1 k = aget f s0 k + sumR (both2 (cbin (rP Q)) n f k) (upairs cat).
Proof.
  intros HB HM HR Z HQ Hf Hn Hw [cells [BF [evs [threads [HE [HS ->]]]]]].
  set (F := fieldParams Q (bruteAuto (rbrute Q))) in *.
  assert (M : fminsize F = 0).
  { apply fieldParams_min0. destruct HQ as [HQ|[_ [Hm _]]]; [left; destruct (rbrute Q); auto; congruence|right; eapply minsize_2D; eauto]. }
  pose proof (buildField_perm _ _ _ BF) as HP.
  rewrite (schedule_get f s0 evs threads k HS). f_equal.
  rewrite (sumR_upairs_perm (both2 (cbin (rP Q)) n f k) cat (allObjs cells))
    by (auto using both2_sym; symmetry; auto).
  symmetry.
  assert (Hrev : do_reverse (cbin (rP Q)) = true) by (unfold do_reverse; rewrite (v2_type _ _ HB); auto).
  assert (OK : forall c, inTops cells c -> okcell 0 c) by (intros c Hc; exact (cells_ok0 F cat cells c M BF Hc)).
  assert (OB : forall a o, inTops cells a -> In o (objs a) -> In o cat).
  { intros a o Ha Ho. eapply Permutation_in; [exact HP|]. eapply inTops_objs; eauto. }
  assert (BR : rbrute Q <> BruteNo -> forall c, inTops cells c -> bruteTree c).
  { intros Hb c Hc. eapply inTops_brute; [|exact Hc]. eapply (buildField_brute F); eauto. unfold F. simpl. destruct (rbrute Q); auto; congruence. }
  assert (SZ : forall a b, inTops cells a -> inTops cells b -> (forall x, effSum (rP Q) a b = Fin x -> x = 0) \/
     (slop_b (cbin (rP Q)) = 0 /\ minsep (cbin (rP Q)) = 0)).
  { intros a b Ha Hb. destruct HQ as [HQ|[Q1 [Q2 _]]]; auto. left.
    intros x Hx. exact (proj1 (brute_effSum (rP Q) 0 a b x (OK a Ha) (OK b Hb) (BR HQ a Ha) (BR HQ b Hb) Hx)). }
  destruct (auto_covers _ _ _ HE) as [dr [ds [PP [FE [FD FS]]]]]. rewrite Hrev in FE.
  rewrite (sumR_perm _ _ _ PP), !sumR_app, !sumR_flat_map.
  rewrite (sumR_0 _ dr), (sumR_0 _ ds).
  - rewrite !Rplus_0_r. apply sumR_ext. intros e He.
    rewrite Forall_forall in FE. destruct (FE e He) as [a [b [rsq [k0 [r [lr [Ha [Hb [HD Ee]]]]]]]]].
    assert (EP : evPairs e = pairs (objs a) (objs b)).
    { subst e. unfold evPairs. destruct (direct_ec (rP Q) true a b rsq k0 r lr) as [-> ->]. auto. }
    rewrite EP, Ee. apply (direct_sum2_rev (rP Q) n HB HM f k Hf); auto.
    destruct HQ as [HQ|[Q1 [Q2 Q3]]].
    + left. intros x Hx. exact (proj1 (brute_effSum (rP Q) 0 a b x (OK a Ha) (OK b Hb) (BR HQ a Ha) (BR HQ b Hb) Hx)).
    + right. do 2 (split; auto). intros o1 o2 I1 I2.
      assert (IU : In (o1, o2) (upairs (allObjs cells))).
      { eapply Permutation_in; [symmetry; exact PP|]. apply in_or_app. left. apply in_flat_map. exists e. split; auto.
        rewrite EP. apply in_pairs; auto. }
      destruct (in_upairs_perm _ _ _ _ HP IU) as [G|G]; [apply Q3; auto|].
      apply offGrid_sym; auto.
  - intros c Hc. apply sumR_0. intros [o1 o2] Ho.
    rewrite Forall_forall in FS. destruct (FS c Hc) as [Ht HSD]. pose proof (in_upairs _ _ _ Ho) as [I1 I2].
    unfold both2, one2. cbn [fst snd].
    assert (ZZ : (pval f o1 o2 = 0 /\ pval f o2 o1 = 0) \/ euclid (opos o1) (opos o2) = 0).
    { destruct HSD as [HW|HSz].
      - left. split; apply (W0_pval f 0 c c); auto; intros; apply Hw; eauto.
      - right. destruct (getSize c) as [x|] eqn:Es; [|discriminate]. simpl in HSz. apply Rleb_true in HSz. unfold halfminsep in HSz.
        assert (x = 0) as ->.
        { pose proof (size_nonneg _ _ (OK c Ht)) as Hx0. rewrite Es in Hx0. simpl in Hx0.
          destruct HQ as [HQ|[_ [Q2 _]]]; [|lra]. specialize (BR HQ c Ht).
          destruct c; simpl in Es; try congruence. apply brute_node in BR as [BR _]. congruence. }
        pose proof (pair_in_cell 0 c o1 o2 0 ltac:(lra) (OK c Ht) Es I1 I2) as Hp. rewrite <- euclid_pdist in Hp.
        assert (0 <= euclid (opos o1) (opos o2)) by apply sqrt_pos. lra. }
    destruct ZZ as [[-> ->]|E0].
    + destruct (selPixel (cbin (rP Q)) n k o1 o2), (selPixel (cbin (rP Q)) n k o2 o1); lra.
    + destruct (sel_sym_out (rP Q) n k o1 o2) as [-> ->]; [right; right; left; auto|]. lra.
  - intros [a b] Hc. rewrite Forall_forall in FD. destruct (FD _ Hc) as [Ha [Hb HD]]. cbn [fst snd] in *.
    unfold cPairs; cbn [fst snd]. apply sumR_0. intros [o1 o2] Ho. apply in_pairs in Ho as [I1 I2].
    destruct (drop_sum2 (rP Q) n HB HM HR f k Hf a b (OK a Ha) (OK b Hb) HD (SZ a b Ha Hb)) with (o1 := o1) (o2 := o2) as [E1 E2]; auto.
    + intros o Ho. split; [apply Z; eauto|apply Hw; eauto].
    + intros o Ho. split; [apply Z; eauto|apply Hw; eauto].
    + unfold both2. cbn [fst snd]. rewrite E1, E2; auto. lra.
Qed.

(** ** C64 *)
(** Cross-correlation: every pixel grows by the sum over all pairs whose separation vector is in it. *)
Theorem C64_cross_exact Q n cat1 cat2 s0 s1 k : valid2D (cbin (rP Q)) n -> cmetric (rP Q) = Euclidean -> crpar (rP Q) = None ->
  flatCat cat1 -> flatCat cat2 -> posW cat1 -> posW cat2 ->
  rbrute Q = BruteBoth \/ (slop_b (cbin (rP Q)) = 0 /\ minsep (cbin (rP Q)) = 0 /\
     forall o1 o2, In o1 cat1 -> In o2 cat2 -> offBorder (cbin (rP Q)) o1 o2) ->
  runCross Q cat1 cat2 s0 s1 ->
  addsCross (selPixel (cbin (rP Q)) n k) cat1 cat2 s0 s1 k.
Proof.
  intros HB HM HR Z1 Z2 W1 W2 HQ H.
  assert (HG : forall f, prodField f -> aget f s1 k = aget f s0 k + sumR (one2 (cbin (rP Q)) n f k) (pairs cat1 cat2)).
  { intros f Hf. apply cross2D; auto; apply posW_cond; auto. }
  split; [|split; [|split]].
  - apply (HG FNpairs I). - apply (HG FWeight I). - apply (HG FXiNK I). - apply (HG FXiKK I).
Qed.
(** Auto-correlation: every unordered pair of rows is counted twice, once in the pixel of each of its two
    separation vectors; so the image is symmetric. *)
Theorem C64_auto_exact Q n cat s0 s1 k : valid2D (cbin (rP Q)) n -> cmetric (rP Q) = Euclidean -> crpar (rP Q) = None ->
  flatCat cat -> posW cat ->
  rbrute Q <> BruteNo \/ (slop_b (cbin (rP Q)) = 0 /\ minsep (cbin (rP Q)) = 0 /\
     forall o1 o2, In (o1, o2) (upairs cat) -> offGrid (cbin (rP Q)) n o1 o2) ->
  runAuto Q cat s0 s1 ->
  a_npairs s1 k = a_npairs s0 k + sumBoth (selPixel (cbin (rP Q)) n k) v_one cat /\
  a_weight s1 k = a_weight s0 k + sumBoth (selPixel (cbin (rP Q)) n k) v_ww cat /\
  a_xi_kk s1 k = a_xi_kk s0 k + sumBoth (selPixel (cbin (rP Q)) n k) v_kk cat.
Proof.
  intros HB HM HR Z W HQ H.
  assert (HG : forall f, prodField f -> f <> FXiNK -> aget f s1 k = aget f s0 k + sumR (both2 (cbin (rP Q)) n f k) (upairs cat)).
  { intros f Hf Hn. apply auto2D; auto. apply posW_cond; auto. }
  split; [|split].
  - apply (HG FNpairs I); discriminate. - apply (HG FWeight I); discriminate. - apply (HG FXiKK I); discriminate.
Qed.
(** Any bin_slop (and min_sep = 0): a counted pair is within bin_slop*bin_size of its pixel; a rejected
    pair is outside of the square, or within the same margin of its border or of separation 0. *)
Theorem C64_slop Q n cat1 cat2 s0 s1 : valid2D (cbin (rP Q)) n -> cmetric (rP Q) = Euclidean -> crpar (rP Q) = None ->
  flatCat cat1 -> flatCat cat2 -> posW cat1 -> posW cat2 -> minsep (cbin (rP Q)) = 0 -> rbrute Q = BruteNo ->
  runCross Q cat1 cat2 s0 s1 ->
  let b := slop_b (cbin (rP Q)) in
  accounts (pairs cat1 cat2) (fun o1 o2 k => inPixel (cbin (rP Q)) n k b (sepX o1 o2) (sepY o1 o2))
    (fun o1 o2 => maxsep (cbin (rP Q)) - b <= Rabs (sepX o1 o2) \/ maxsep (cbin (rP Q)) - b <= Rabs (sepY o1 o2) \/
                  euclid (opos o1) (opos o2) <= b) s0 s1.
Proof.
  intros HB HM HR Z1 Z2 W1 W2 Hms Hbr [cells1 [cells2 [B1 [B2 H]]]] b.
  set (F1 := fieldParams Q (brute1 (rbrute Q))) in *. set (F2 := fieldParams Q (brute2 (rbrute Q))) in *.
  assert (M1 : fminsize F1 = 0) by (apply fieldParams_min0; right; eapply minsize_2D; eauto).
  assert (M2 : fminsize F2 = 0) by (apply fieldParams_min0; right; eapply minsize_2D; eauto).
  pose proof (buildField_perm _ _ _ B1) as P1. pose proof (buildField_perm _ _ _ B2) as P2.
  assert (Hb : 0 <= b) by apply HB.
  unfold processCross in H. destruct (crossEarlyExit _ _ _ _ _) eqn:EX.
  - subst s1. apply nothing_accounts. intros o1 o2 Ho. apply in_pairs in Ho as [I1 I2].
    destruct (early2D (rP Q) n F1 F2 cat1 cat2 o1 o2 HB HM HR Z1 Z2 EX I1 I2) as [G|[G|G]]; try lra.
  - destruct H as [evs [threads [HE [HS ->]]]].
    assert (WF1 : Forall (wf 0) cells1) by (rewrite <- M1; eapply buildField_wf; eauto; lra).
    assert (WF2 : Forall (wf 0) cells2) by (rewrite <- M2; eapply buildField_wf; eauto; lra).
    apply (cross_accounts (rP Q) 0 cat1 cat2 cells1 cells2 evs _ _ s0 _ WF1 WF2 P1 P2 HE).
    + intros f k. apply (schedule_get f s0 evs threads k HS).
    + intros a c rsq k r lr o1 o2 Ha Hc HD I1 I2.
      assert (O1 := inTops_wf _ _ _ WF1 Ha). assert (O2 := inTops_wf _ _ _ WF2 Hc).
      destruct (direct2D (rP Q) n HB HM 0 false a c rsq k r lr ltac:(lra) O1 O2 HD)
        as [x [i [j [EX' [Hx [Hi [Hj [EK [PX [PY [_ [_ [_ [_ [HSl _]]]]]]]]]]]]]]].
      destruct (members_near (rP Q) HM 0 a c x o1 o2 ltac:(lra) O1 O2 EX' I1 I2) as [NX [NY _]].
      apply Rabs_bounds in NX. apply Rabs_bounds in NY. fold b in HSl.
      exists i, j. do 3 (split; auto).
      destruct (Rlt_dec b x) as [L|L]; [destruct (HSl L) as [_ ?]|]; lra.
    + intros a c o1 o2 Ha Hc HD I1 I2.
      assert (O1 := inTops_wf _ _ _ WF1 Ha). assert (O2 := inTops_wf _ _ _ WF2 Hc).
      assert (PW : forall cells cat l, Permutation (allObjs cells) cat -> posW cat -> inTops cells l -> okcell 0 l -> getW l <> 0).
      { intros cells cat l HP HW Hl Ol. pose proof (wf_Wpos 0 l Ol) as G.
        assert (0 < getW l); [|lra]. apply G. intros o Ho. apply HW. eapply Permutation_in; [exact HP|]. eapply inTops_objs; eauto. }
      destruct (drop2D (rP Q) n HB HM HR 0 a c ltac:(lra) O1 O2 HD) as [G|[G|[x [EX' [Hx HX]]]]].
      * intros o Ho. apply Z1. eapply Permutation_in; [exact P1|]. eapply inTops_objs; eauto.
      * intros o Ho. apply Z2. eapply Permutation_in; [exact P2|]. eapply inTops_objs; eauto.
      * exfalso. exact (PW cells1 cat1 a P1 W1 Ha O1 G).
      * exfalso. exact (PW cells2 cat2 c P2 W2 Hc O2 G).
      * assert (0 <= euclid (opos o1) (opos o2)) by apply sqrt_pos. fold b in HX. rewrite Hms in HX.
        destruct (HX o1 o2 I1 I2) as [[G|G]|[[GQ G]|G]]; [lra| | |lra].
        -- destruct (flat_far (rP Q) n HB o1 o2) as [G'|G']; try lra.
           ++ apply Z1. eapply Permutation_in; [exact P1|]. eapply inTops_objs; eauto.
           ++ apply Z2. eapply Permutation_in; [exact P2|]. eapply inTops_objs; eauto.
        -- destruct GQ as [GQ|GQ]; lra.
Qed.
(** Runs exist. *)
Theorem C64_runs_exist Q n cat1 cat2 s0 : valid2D (cbin (rP Q)) n -> cmetric (rP Q) = Euclidean -> minsep (cbin (rP Q)) = 0 ->
  cat1 <> [] -> cat2 <> [] -> (exists s1, runCross Q cat1 cat2 s0 s1) /\ (exists s1, runAuto Q cat1 s0 s1).
Proof.
  intros HB HM Hms H1 H2.
  assert (M : forall b, fminsize (fieldParams Q b) = 0) by (intro b; apply fieldParams_min0; right; eapply minsize_2D; eauto).
  assert (WF : forall b cat cells, buildField (fieldParams Q b) cat cells -> Forall (wf 0) cells).
  { intros b cat cells HF. rewrite <- (M b). eapply buildField_wf; eauto. rewrite M. lra. }
  split.
  - unfold runCross, processCross.
    destruct (buildField_exists (fieldParams Q (brute1 (rbrute Q))) cat1 H1) as [cells1 B1].
    destruct (buildField_exists (fieldParams Q (brute2 (rbrute Q))) cat2 H2) as [cells2 B2].
    destruct (crossEarlyExit _ _ _ _ _) eqn:EX.
    + exists s0, cells1, cells2. auto.
    + destruct (crossIters_total (rP Q) 0 cells1 cells2) as [evs He]; eauto; [apply HB|].
      exists (parallelRun s0 [evs]), cells1, cells2. split; auto. split; auto. exists evs, [evs].
      split; auto. split; auto. apply schedule_exists.
  - unfold runAuto, processAuto.
    destruct (buildField_exists (fieldParams Q (bruteAuto (rbrute Q))) cat1 H1) as [cells B].
    destruct (autoIters_total (rP Q) 0 cells) as [evs He]; eauto; [apply HB|apply HB|].
    exists (parallelRun s0 [evs]), cells. split; auto. exists evs, [evs]. split; auto. split; auto. apply schedule_exists.
Qed.

(** ** What fails: one leaf at the origin, a node of two objects at (3/2,0) and (3/2,1/2); 4 x 4 pixels of side 1 *)
Definition tdB (ms : R) : bparams := mkB BTwoD ms 2 16 1 0 1.
Definition tdQ (ms : R) (top : Z) : runcfg := mkR (mkC Euclidean None (tdB ms)) Flat Mean BruteNo 0 top.
Definition tdA : obj := anObj 0 0 0.
Definition tdX : obj := anObj (3/2) 0 1.
Definition tdY : obj := anObj (3/2) (1/2) 2.
Definition tdPair : list obj := [tdX; tdY].
Definition tdLf (o : obj) : cell := Leaf (data1 o) o.
Definition tdNd : cell := Node (dataN Flat tdPair) (Fin (sqrt (calculateSizeSq (centroid Flat tdPair) tdPair))) (tdLf tdX) (tdLf tdY).
Lemma td_valid ms : 0 <= ms -> valid2D (tdB ms) 4.
Proof. intro. constructor; simpl; auto; try lra; lia. Qed.
Lemma td_cen : centroid Flat tdPair = mkpos (3/2) (1/4) 0.
Proof.
  unfold centroid, tdPair, tdX, tdY, anObj. cbn [sumR owpos opos px py pz].
  destruct Req_EM_T as [E|_]; [lra|]. unfold normalize, pscale. cbn [px py pz]. f_equal; field.
Qed.
Lemma td_size : sqrt (calculateSizeSq (centroid Flat tdPair) tdPair) = 1/4.
Proof.
  rewrite td_cen. unfold tdPair, tdX, tdY, anObj. cbn [calculateSizeSq opos]. unfold normSq, psub. cbn [px py pz].
  rewrite (Rmax_left _ 0) by lra. rewrite Rmax_left by lra.
  replace ((3 / 2 - 3 / 2) * (3 / 2 - 3 / 2) + (1 / 4 - 0) * (1 / 4 - 0) + (0 - 0) * (0 - 0)) with (1/4 * (1/4)) by lra.
  apply sqrt_square; lra.
Qed.
Lemma td_min ms t : 0 <= ms -> fst (getMinMaxSize (rP (tdQ ms t))) = 0 /\ snd (getMinMaxSize (rP (tdQ ms t))) = 0.
Proof.
  intro. unfold getMinMaxSize. cbn [tdQ rP cmetric cbin tdB btype slop_a slop_b minsep maxsep fst snd]. split.
  - rewrite Rmin_right; lra.
  - rewrite Rmin_right; lra.
Qed.
Lemma td_sizepos : 0 < calculateSizeSq (centroid Flat tdPair) tdPair.
Proof.
  destruct (Rlt_dec 0 (calculateSizeSq (centroid Flat tdPair) tdPair)) as [|H]; auto. exfalso.
  pose proof td_size as E. rewrite sqrt_neg_0 in E by lra. lra.
Qed.
Lemma td_builds : builds Flat Mean 0 false tdPair tdNd.
Proof.
  apply (b_node Flat Mean 0 false tdPair [tdX] [tdY]); [simpl; lia|apply td_sizepos| |apply b_leaf|apply b_leaf].
  apply sd_ok; try discriminate. apply sc_mean; auto. rewrite td_cen.
  assert (ES : getSplit (boundsOf tdPair) = DY).
  { unfold getSplit, boundsOf, tdPair, tdX, tdY, anObj. cbn. unfold upd_hi, upd_lo.
    repeat (destruct Rlt_dec; try lra). reflexivity. }
  cbv zeta. rewrite ES. split; [apply Permutation_refl|]. split; constructor; auto; cbn; lra.
Qed.
Lemma td_build ms : 0 <= ms -> buildField (fieldParams (tdQ ms 0) false) [tdA] [tdLf tdA] /\
  buildField (fieldParams (tdQ ms 0) false) tdPair [tdNd].
Proof.
  intro H. destruct (td_min ms 0 H) as [M1 M2]. unfold fieldParams, buildField. rewrite M1, M2.
  cbn [fcoord fsm fmaxsize fmintop fmaxtop fminsize fbrute tdQ rcoord rsm rmintop rmaxtop]. rewrite Rmult_0_l. split.
  - exists [[tdA]]. split; [apply top_stop; left; reflexivity|]. constructor; [apply b_leaf|constructor].
  - exists [tdPair]. split; [apply top_stop; right; right; reflexivity|]. constructor; [apply td_builds|constructor].
Qed.
(** The three objects as one catalog, one level of top cells. *)
Definition tdCat : list obj := [tdA; tdX; tdY].
Lemma td_cen3 : centroid Flat tdCat = mkpos 1 (1/6) 0.
Proof.
  unfold centroid, tdCat, tdA, tdX, tdY, anObj. cbn [sumR owpos opos px py pz].
  destruct Req_EM_T as [E|_]; [lra|]. unfold normalize, pscale. cbn [px py pz]. f_equal; field.
Qed.
Lemma td_build3 : buildField (fieldParams (tdQ 0 1) false) tdCat [tdLf tdA; tdNd].
Proof.
  destruct (td_min 0 1 ltac:(lra)) as [M1 M2]. unfold fieldParams, buildField. rewrite M1, M2.
  cbn [fcoord fsm fmaxsize fmintop fmaxtop fminsize fbrute tdQ rcoord rsm rmintop rmaxtop]. rewrite Rmult_0_l.
  exists ([[tdA]] ++ [tdPair]). split.
  - apply (top_split Flat Mean _ 0 1 tdCat [tdA] tdPair [[tdA]] [tdPair]).
    + intros [H|[[H _]|H]]; [| |lia]; revert H; unfold topSizeSq, tdCat; fold tdCat; rewrite td_cen3;
        unfold tdCat, tdA, tdX, tdY, anObj; cbn [calculateSizeSq opos esq]; unfold normSq, psub; cbn [px py pz];
        rewrite (Rmax_left _ 0) by lra; intro H;
        pose proof (Rmax_l ((1 - 0) * (1 - 0) + (1 / 6 - 0) * (1 / 6 - 0) + (0 - 0) * (0 - 0))
          (Rmax ((1 - 3 / 2) * (1 - 3 / 2) + (1 / 6 - 0) * (1 / 6 - 0) + (0 - 0) * (0 - 0))
             ((1 - 3 / 2) * (1 - 3 / 2) + (1 / 6 - 1 / 2) * (1 / 6 - 1 / 2) + (0 - 0) * (0 - 0)))); lra.
    + apply sd_ok; try discriminate. apply sc_mean; auto. rewrite td_cen3.
      assert (ES : getSplit (boundsOf tdCat) = DX).
      { unfold getSplit, boundsOf, tdCat, tdA, tdX, tdY, anObj. cbn. unfold upd_hi, upd_lo.
        repeat (destruct Rlt_dec; try lra). reflexivity. }
      cbv zeta. rewrite ES. split; [apply Permutation_refl|]. split; repeat constructor; cbn; lra.
    + apply top_stop; left; reflexivity.
    + apply top_stop; right; right; lia.
  - constructor; [apply b_leaf|constructor; [apply td_builds|constructor]].
Qed.
Lemma td_pix d i : (0 <= i)%Z -> -2 + IZR i <= d < -1 + IZR i -> trunc ((d + 2) / 1) = i.
Proof. intros H1 H2. apply trunc_unique; auto. lra. Qed.
(** The leaf and the node are put into one pixel, without computing r. *)
Lemma td_direct ms t : 0 <= ms <= 151/100 -> exists lr,
  decide11 (rP (tdQ ms t)) (tdLf tdA) tdNd = Direct (37/16) 11 0 lr.
Proof.
  intro H. exists (1/2 * ln (37/16)). unfold decide11. cbn [cmetric crpar cbin rP tdQ effSize].
  assert (P1 : getPos (tdLf tdA) = mkpos 0 0 0) by reflexivity.
  assert (P2 : getPos tdNd = mkpos (3/2) (1/4) 0) by (unfold tdNd, getPos; cbn [getData dataN dpos]; apply td_cen).
  assert (W1 : getW (tdLf tdA) = 1) by reflexivity.
  assert (W2 : getW tdNd = 2) by (unfold tdNd; cbn; ring).
  assert (Z1 : getSize (tdLf tdA) = Fin 0) by reflexivity.
  assert (Z2 : getSize tdNd = Fin (1/4)) by (unfold tdNd; cbn [getSize]; rewrite td_size; auto).
  rewrite P1, P2, W1, W2, Z1, Z2. destruct (Req_EM_T 1 0); [lra|]. destruct (Req_EM_T 2 0); [lra|].
  unfold isRParOutsideRange, isRParInsideRange. cbn [distSq eadd].
  assert (DD : normSq (psub (mkpos 0 0 0) (mkpos (3/2) (1/4) 0)) = 37/16).
  { unfold normSq, psub. cbn [px py pz]. lra. }
  assert (HM : ms * ms <= 37/16).
  { assert (ms * ms <= 151/100 * (151/100)) by (apply Rmult_le_compat; lra). lra. }
  rewrite DD. unfold tooSmallDist, tooLargeDist, singleBin, isRSqInRange. cbn [tdB minsep maxsep btype slop_a slop_b binsize px py psub].
  unfold Rltb, Rleb, Rsqr.
  destruct (Rlt_dec (37/16) (ms * ms)); [lra|]. cbn [andb].
  destruct (Rle_dec (2 * (2 * 2)) (37/16)); [lra|]. cbn [andb].
  destruct (Rlt_dec (1 * 1 * (37/16)) ((0 + 1/4) * (0 + 1/4))); [lra|]. destruct (Rle_dec (0 + 1/4) 0); [lra|].
  destruct (Rlt_dec (1/2 * (1 + 0)) (0 + 1/4)); [lra|].
  rewrite (td_pix (3/2 - 0) 3), (td_pix (1/4 - 0) 2) by (try lia; lra).
  assert (EM : trunc (2 / 1) = 2%Z) by (apply trunc_unique; [lia|simpl; lra]). rewrite EM.
  cbn [Z.eqb Pos.eqb andb].
  destruct (Rlt_dec ((3 / 2 - 0 + 2) / 1 - (0 + 1 / 4) / 1) 3); [lra|].
  destruct (Rle_dec (3 + 1) ((3 / 2 - 0 + 2) / 1 + (0 + 1 / 4) / 1)); [lra|].
  destruct (Rlt_dec ((1 / 4 - 0 + 2) / 1 - (0 + 1 / 4) / 1) 2); [lra|].
  destruct (Rle_dec (2 + 1) ((1 / 4 - 0 + 2) / 1 + (0 + 1 / 4) / 1)); [lra|].
  destruct (Req_EM_T (37/16) 0); [lra|].
  assert (EN : trunc (2 * 2 / 1 + 1 / 2) = 4%Z) by (apply trunc_unique; [lia|simpl; lra]). rewrite EN.
  destruct (Rlt_dec (Rmax (Rabs (0 - 3 / 2)) (Rabs (0 - 1 / 4))) 2) as [_|N]; [reflexivity|].
  exfalso. apply N. apply Rmax_lub_lt; apply Rabs_def1; lra.
Qed.
Lemma td_sepXY : euclid (opos tdA) (opos tdX) = 3/2 /\ 151/100 <= euclid (opos tdA) (opos tdY).
Proof.
  unfold euclid. cbn [opos tdA tdX tdY anObj px py pz]. split.
  - apply Rsqr_inj; [apply sqrt_pos|lra|]. rewrite Rsqr_sqrt; unfold Rsqr; lra.
  - rewrite <- (sqrt_square (151/100)) by lra. apply sqrt_le_1; lra.
Qed.
Lemma td_run ms : 0 <= ms <= 151/100 -> exists s1, runCross (tdQ ms 0) [tdA] tdPair cleared s1 /\
  (forall k, a_npairs s1 k = if (k =? 11)%Z then 2 else 0) /\ (forall k, a_weight s1 k = if (k =? 11)%Z then 2 else 0) /\
  (forall k, a_meanr s1 k = 0).
Proof.
  intro H. destruct (td_build ms ltac:(lra)) as [B1 B2]. destruct (td_direct ms 0 H) as [lr HD].
  set (e := directProcess11 (rP (tdQ ms 0)) false (tdLf tdA) tdNd (37/16) 11 0 lr).
  assert (He : crossIters (rP (tdQ ms 0)) [tdLf tdA] [tdNd] = [Some [e]]).
  { unfold crossIters. cbn [map oconcat]. unfold run11. change (fuel11 (tdLf tdA) tdNd) with 1%nat. cbn [process11]. rewrite HD. reflexivity. }
  assert (Hke : ek e = 11%Z) by reflexivity. assert (Hr : er e = 0) by reflexivity.
  assert (Hk2 : ek2 e = None) by apply direct_ek2.
  destruct (direct_ec (rP (tdQ ms 0)) false (tdLf tdA) tdNd (37/16) 11 0 lr) as [E1 E2]. fold e in E1, E2.
  exists (parallelRun cleared [[[e]]]). split.
  - exists [tdLf tdA], [tdNd]. split; [exact B1|]. split; [exact B2|]. unfold processCross.
    destruct (crossEarlyExit _ _ _ _ _) eqn:EX.
    + exfalso. assert (IY : In tdY tdPair) by (unfold tdPair; simpl; auto).
      assert (FA : flatCat [tdA]) by (intros o [<-|[]]; reflexivity).
      assert (FP : flatCat tdPair) by (intros o [<-|[<-|[]]]; reflexivity).
      destruct (early2D (rP (tdQ ms 0)) 4 _ _ [tdA] tdPair tdA tdY (td_valid ms ltac:(lra)) eq_refl eq_refl FA FP EX
        (or_introl eq_refl) IY) as [G|[G|G]].
      * unfold sepX in G; cbn in G. revert G. unfold Rabs; destruct Rcase_abs; lra.
      * unfold sepY in G; cbn in G. revert G. unfold Rabs; destruct Rcase_abs; lra.
      * destruct td_sepXY as [_ D2]. change (minsep (cbin (rP (tdQ ms 0)))) with ms in G. lra.
    + exists [[e]], [[[e]]]. split; [symmetry; exact He|]. split; [|reflexivity]. unfold schedule. simpl. auto.
  - assert (HG : forall f j, aget f (parallelRun cleared [[[e]]]) j = aget f cleared j + contrib f j e).
    { intros f j. rewrite (schedule_get f cleared [[e]] [[[e]]] j) by (unfold schedule; simpl; auto).
      cbn [concat app sumR]. ring. }
    assert (HW : getW tdNd = 2) by (unfold tdNd; cbn; ring).
    split; [|split]; intro j.
    + rewrite (HG FNpairs j : a_npairs _ j = _). unfold contrib, hit, evval. rewrite Hk2, Hke, E1, E2.
      simpl. unfold aconst. destruct (j =? 11)%Z; lra.
    + rewrite (HG FWeight j : a_weight _ j = _). unfold contrib, hit, evval. rewrite Hk2, Hke, E1, E2, HW.
      simpl. unfold aconst. destruct (j =? 11)%Z; cbn; lra.
    + rewrite (HG FMeanr j : a_meanr _ j = _). unfold contrib, hit, evval. rewrite Hk2, Hke, E1, E2, Hr.
      simpl. unfold aconst. destruct (j =? 11)%Z; cbn; lra.
Qed.
(** A pixel's meanr is left at 0 for pairs of cells found to lie in one pixel, though their separation is not. *)
Theorem C64_meanr_refuted : exists Q n cat1 cat2 s1 k, valid2D (cbin (rP Q)) n /\ cmetric (rP Q) = Euclidean /\
  crpar (rP Q) = None /\ flatCat cat1 /\ flatCat cat2 /\ posW cat1 /\ posW cat2 /\ slop_b (cbin (rP Q)) = 0 /\ minsep (cbin (rP Q)) = 0 /\
  runCross Q cat1 cat2 cleared s1 /\ a_weight s1 k = 2 /\
  (forall o1 o2, In o1 cat1 -> In o2 cat2 -> 3/2 <= euclid (opos o1) (opos o2)) /\ a_meanr s1 k = 0.
Proof.
  destruct (td_run 0 ltac:(lra)) as [s1 [HR [_ [HW Hm]]]]. destruct td_sepXY as [D1 D2].
  exists (tdQ 0 0), 4%Z, [tdA], tdPair, s1, 11%Z. split; [apply td_valid; lra|]. do 2 (split; [reflexivity|]).
  split; [intros o [<-|[]]; reflexivity|]. split; [intros o [<-|[<-|[]]]; reflexivity|].
  split; [intros o [<-|[]]; cbn; lra|]. split; [intros o [<-|[<-|[]]]; cbn; lra|].
  do 2 (split; [reflexivity|]). split; [exact HR|]. split; [rewrite HW; reflexivity|]. split; [|apply Hm].
  intros o1 o2 [<-|[]] [<-|[<-|[]]]; lra.
Qed.
(** With min_sep > 0, bin_slop = 0 is not exact: a pair closer than min_sep is counted. *)
Theorem C64_minsep_refuted : exists Q n cat1 cat2 s1 k, valid2D (cbin (rP Q)) n /\ cmetric (rP Q) = Euclidean /\
  crpar (rP Q) = None /\ flatCat cat1 /\ flatCat cat2 /\ posW cat1 /\ posW cat2 /\ slop_b (cbin (rP Q)) = 0 /\
  (forall o1 o2, In o1 cat1 -> In o2 cat2 -> offBorder (cbin (rP Q)) o1 o2) /\
  runCross Q cat1 cat2 cleared s1 /\ a_npairs s1 k = 2 /\
  sumPairs (selPixel (cbin (rP Q)) n k) v_one cat1 cat2 = 1.
Proof.
  destruct (td_run (151/100) ltac:(lra)) as [s1 [HR [HN _]]]. destruct td_sepXY as [D1 D2].
  exists (tdQ (151/100) 0), 4%Z, [tdA], tdPair, s1, 11%Z. split; [apply td_valid; lra|]. do 2 (split; [reflexivity|]).
  split; [intros o [<-|[]]; reflexivity|]. split; [intros o [<-|[<-|[]]]; reflexivity|].
  split; [intros o [<-|[]]; cbn; lra|]. split; [intros o [<-|[<-|[]]]; cbn; lra|].
  split; [reflexivity|]. split.
  { intros o1 o2 [<-|[]] [<-|[<-|[]]]; unfold offBorder, sepX, sepY; cbn; lra. }
  split; [exact HR|]. split; [rewrite HN; reflexivity|].
  unfold sumPairs, tdPair, pairs. cbn [list_prod flat_map map app sumR fst snd].
  assert (S1 : selPixel (cbin (rP (tdQ (151 / 100) 0))) 4 11 tdA tdX = false).
  { apply (sel_out (rP (tdQ (151/100) 0)) 4). right; right; right. rewrite D1. cbn. lra. }
  assert (S2 : selPixel (cbin (rP (tdQ (151 / 100) 0))) 4 11 tdA tdY = true).
  { rewrite (sel_pixel (rP (tdQ (151/100) 0)) 4 (td_valid (151/100) ltac:(cbn; lra)) 11 tdA tdY 3 2); auto; try lia; try lra; try (intro; lra);
    unfold sepX, sepY, edge; cbn; try lra; try (apply Rabs_def1; lra). }
  rewrite S1, S2. unfold v_one. lra.
Qed.
(** Auto-correlation with bin_slop = 0: a separation exactly on an interior line of the grid can be put,
    reversed, into the wrong pixel. *)
Theorem C64_edge_refuted : exists Q n cat s1 k, valid2D (cbin (rP Q)) n /\ cmetric (rP Q) = Euclidean /\
  crpar (rP Q) = None /\ flatCat cat /\ posW cat /\ slop_b (cbin (rP Q)) = 0 /\ minsep (cbin (rP Q)) = 0 /\
  (forall o1 o2, In (o1, o2) (upairs cat) -> offBorder (cbin (rP Q)) o1 o2 /\ offBorder (cbin (rP Q)) o2 o1) /\
  runAuto Q cat cleared s1 /\ a_npairs s1 k = 0 /\
  sumBoth (selPixel (cbin (rP Q)) n k) v_one cat = 1.
Proof.
  destruct (td_direct 0 1 ltac:(lra)) as [lr HD]. set (P := rP (tdQ 0 1)) in *.
  assert (HV : valid2D (cbin P) 4) by (apply td_valid; lra).
  assert (D2 : decide11 P (tdLf tdX) (tdLf tdY) = Direct (1/4) (-1) 0 0).
  { unfold decide11, P. cbn [cmetric crpar cbin rP tdQ effSize tdLf getPos getW getSize getData data1 dpos dw tdX tdY anObj opos ow].
    destruct (Req_EM_T 1 0); [lra|].
    unfold isRParOutsideRange, isRParInsideRange. cbn [distSq eadd].
    assert (DD : normSq (psub (mkpos (3/2) 0 0) (mkpos (3/2) (1/2) 0)) = 1/4).
    { unfold normSq, psub. cbn [px py pz]. lra. }
    rewrite DD. unfold tooSmallDist, tooLargeDist, singleBin, isRSqInRange. cbn [tdB minsep maxsep btype slop_a slop_b binsize px py psub].
    unfold Rltb, Rleb, Rsqr.
    destruct (Rlt_dec (1/4) (0 * 0)); [lra|]. cbn [andb].
    destruct (Rle_dec (2 * (2 * 2)) (1/4)); [lra|]. cbn [andb].
    destruct (Rlt_dec (1 * 1 * (1/4)) ((0 + 0) * (0 + 0))); [lra|]. destruct (Rle_dec (0 + 0) 0); [|lra].
    destruct (Req_EM_T (1/4) 0); [lra|].
    destruct (Rlt_dec (Rmax (Rabs (3 / 2 - 3 / 2)) (Rabs (0 - 1 / 2))) 2) as [_|N]; [reflexivity|].
    exfalso. apply N. apply Rmax_lub_lt; apply Rabs_def1; lra. }
  set (e0 := directProcess11 P true (tdLf tdA) tdNd (37/16) 11 0 lr).
  set (e1 := directProcess11 P true (tdLf tdX) (tdLf tdY) (1/4) (-1) 0 0).
  assert (SZ : eleb_fin (getSize tdNd) (halfminsep (cbin P)) = false).
  { unfold tdNd. cbn [getSize]. rewrite td_size. unfold halfminsep. simpl. apply Rleb_f. lra. }
  assert (SL : forall o, eleb_fin (getSize (tdLf o)) (halfminsep (cbin P)) = true).
  { intro o. unfold halfminsep. simpl. apply Rleb_t. lra. }
  assert (WN : getW tdNd = 2) by (unfold tdNd; cbn; ring).
  assert (PL : forall o, process2 P (tdLf o) = Some []).
  { intro o. unfold process2, tdLf. fold (tdLf o). rewrite SL. destruct Req_EM_T; auto. }
  assert (He : autoIters P [tdLf tdA; tdNd] = [Some [e0]; Some [e1]]).
  { cbn [autoIters map]. unfold autoIter. cbn [map oconcat]. rewrite PL.
    change (do_reverse (cbin P)) with true.
    assert (R1 : run11 P true (tdLf tdA) tdNd = Some [e0]).
    { unfold run11. change (fuel11 (tdLf tdA) tdNd) with 1%nat. cbn [process11]. rewrite HD. reflexivity. }
    assert (R2 : run11 P true (tdLf tdX) (tdLf tdY) = Some [e1]).
    { unfold run11. change (fuel11 (tdLf tdX) (tdLf tdY)) with 0%nat. cbn [process11]. rewrite D2. reflexivity. }
    assert (P2 : process2 P tdNd = Some [e1]).
    { unfold tdNd. cbn [process2]. fold tdNd. rewrite WN, SZ. destruct (Req_EM_T 2 0); [lra|].
      rewrite !PL. change (do_reverse (cbin P)) with true. rewrite R2. reflexivity. }
    rewrite R1, P2. reflexivity. }
  assert (PN : getPos tdNd = mkpos (3/2) (1/4) 0) by (unfold tdNd, getPos; cbn [getData dataN dpos]; apply td_cen).
  assert (K0 : ek e0 = 11%Z) by reflexivity.
  assert (K0' : ek2 e0 = Some 4%Z).
  { unfold e0, directProcess11. change (11 <? 0)%Z with false. cbn [ek2]. rewrite PN. change (getPos (tdLf tdA)) with (mkpos 0 0 0).
    rewrite (binK_pixel P 4 HV) by (cbn [px py]; apply Rabs_def1; cbn; lra). cbn [px py].
    change (maxsep (cbin P)) with 2. change (binsize (cbin P)) with 1.
    rewrite (td_pix (0 - 3/2) 0), (td_pix (0 - 1/4) 1) by (try lia; lra). reflexivity. }
  assert (K1 : ek e1 = 10%Z).
  { unfold e1, directProcess11. change (-1 <? 0)%Z with true. cbn [ek].
    change (getPos (tdLf tdX)) with (mkpos (3/2) 0 0). change (getPos (tdLf tdY)) with (mkpos (3/2) (1/2) 0).
    rewrite (binK_pixel P 4 HV) by (cbn [px py]; apply Rabs_def1; cbn; lra). cbn [px py].
    change (maxsep (cbin P)) with 2. change (binsize (cbin P)) with 1.
    rewrite (td_pix (3/2 - 3/2) 2), (td_pix (1/2 - 0) 2) by (try lia; lra). reflexivity. }
  assert (K1' : ek2 e1 = Some 6%Z).
  { unfold e1, directProcess11. change (-1 <? 0)%Z with true. cbn [ek2].
    change (getPos (tdLf tdX)) with (mkpos (3/2) 0 0). change (getPos (tdLf tdY)) with (mkpos (3/2) (1/2) 0).
    rewrite !(binK_pixel P 4 HV) by (cbn [px py]; apply Rabs_def1; cbn; lra). cbn [px py].
    change (maxsep (cbin P)) with 2. change (binsize (cbin P)) with 1.
    rewrite (td_pix (3/2 - 3/2) 2), (td_pix (0 - 1/2) 1) by (try lia; lra). reflexivity. }
  exists (tdQ 0 1), 4%Z, tdCat, (parallelRun cleared [[[e0]; [e1]]]), 8%Z. fold P.
  split; [exact HV|]. do 2 (split; [reflexivity|]).
  split; [intros o [<-|[<-|[<-|[]]]]; reflexivity|]. split; [intros o [<-|[<-|[<-|[]]]]; cbn; lra|].
  do 2 (split; [reflexivity|]). split.
  { unfold tdCat. cbn [upairs map app]. intros o1 o2 [E|[E|[E|[]]]]; assert (E1 := f_equal fst E); assert (E2 := f_equal snd E);
      cbn [fst snd] in E1, E2; subst o1 o2; unfold offBorder, sepX, sepY; cbn; repeat split; lra. }
  split.
  { exists [tdLf tdA; tdNd]. split; [exact td_build3|]. exists [[e0]; [e1]], [[[e0]; [e1]]].
    split; [symmetry; exact He|]. split; [|reflexivity]. unfold schedule. simpl. auto. }
  split.
  - assert (HG : aget FNpairs (parallelRun cleared [[[e0]; [e1]]]) 8 = aget FNpairs cleared 8 + (contrib FNpairs 8 e0 + contrib FNpairs 8 e1)).
    { rewrite (schedule_get FNpairs cleared [[e0]; [e1]] [[[e0]; [e1]]] 8) by (unfold schedule; simpl; auto).
      cbn [concat app sumR]. ring. }
    cbn [aget] in HG. rewrite HG. unfold contrib, hit. rewrite K0, K0', K1, K1'. cbn. unfold aconst. lra.
  - assert (EXY : euclid (opos tdX) (opos tdY) = 1/2).
    { unfold euclid. cbn [opos tdA tdX tdY anObj px py pz]. apply Rsqr_inj; [apply sqrt_pos|lra|]. rewrite Rsqr_sqrt; unfold Rsqr; lra. }
    destruct td_sepXY as [EX EY].
    assert (SY : forall p q, euclid p q = euclid q p) by (intros; rewrite !euclid_pdist; apply pdist_sym).
    assert (ED : forall i, edge (cbin P) i = -2 + IZR i) by (intro; unfold edge; cbn; lra).
    assert (S : forall o1 o2 i j, (0 <= i < 4)%Z -> (0 <= j < 4)%Z -> 0 < euclid (opos o1) (opos o2) ->
       -2 + IZR i <= sepX o1 o2 < -1 + IZR i -> -2 + IZR j <= sepY o1 o2 < -1 + IZR j -> -2 < sepX o1 o2 -> -2 < sepY o1 o2 ->
       selPixel (cbin P) 4 8 o1 o2 = (8 =? j * 4 + i)%Z).
    { intros o1 o2 i j Hi Hj HE HX HY L1 L2.
      assert (IZR i <= 3) by (apply IZR_le; lia). assert (IZR j <= 3) by (apply IZR_le; lia).
      apply (sel_pixel P 4 HV); auto; rewrite ?ED, ?plus_IZR; try lra; try (apply Rabs_def1; cbn; lra). cbn. lra. }
    unfold sumBoth, tdCat. cbn [upairs map app sumR fst snd].
    rewrite (S tdA tdX 3%Z 2%Z), (S tdX tdA 0%Z 2%Z), (S tdA tdY 3%Z 2%Z), (S tdY tdA 0%Z 1%Z), (S tdX tdY 2%Z 2%Z), (S tdY tdX 2%Z 1%Z);
      try lia; try (rewrite ?EX, ?EXY, ?(SY (opos tdX) (opos tdA)), ?(SY (opos tdY) (opos tdA)), ?(SY (opos tdY) (opos tdX)), ?EX, ?EXY; lra);
      try (unfold sepX, sepY; cbn; lra).
    cbn. unfold v_one. lra.
Qed.
(** A concrete catalog satisfies the hypotheses of the theorems above, and pairs are counted. *)
Example C64_example : valid2D (cbin (rP (tdQ 0 1))) 4 /\ flatCat [tdA; tdY] /\ posW [tdA; tdY] /\
  slop_b (cbin (rP (tdQ 0 1))) = 0 /\ minsep (cbin (rP (tdQ 0 1))) = 0 /\
  (forall o1 o2, In (o1, o2) (upairs [tdA; anObj (13/10) (1/2) 2]) -> offGrid (cbin (rP (tdQ 0 1))) 4 o1 o2) /\
  (forall o1 o2, In o1 [tdA] -> In o2 tdPair -> offBorder (cbin (rP (tdQ 0 1))) o1 o2) /\
  selPixel (cbin (rP (tdQ 0 1))) 4 11 tdA tdY = true.
Proof.
  split; [apply td_valid; lra|]. split; [intros o [<-|[<-|[]]]; reflexivity|].
  split; [intros o [<-|[<-|[]]]; cbn; lra|]. do 2 (split; [reflexivity|]). split; [|split].
  - cbn [upairs map app]. intros o1 o2 [E|[]]. assert (E1 := f_equal fst E). assert (E2 := f_equal snd E). cbn [fst snd] in *. subst o1 o2.
    intros _ i Hi. unfold sepX, sepY, edge. cbn.
    assert (HI : (i = 0 \/ i = 1 \/ i = 2 \/ i = 3 \/ i = 4)%Z) by lia. destruct HI as [->|[->|[->|[->| ->]]]]; split; lra.
  - intros o1 o2 [<-|[]] [<-|[<-|[]]]; unfold offBorder, sepX, sepY; cbn; lra.
  - destruct td_sepXY as [D1 D2].
    rewrite (sel_pixel (rP (tdQ 0 1)) 4 (td_valid 0 ltac:(cbn; lra)) 11 tdA tdY 3 2); auto; try lia; try lra; try (intro; lra); try apply sqrt_pos;
    unfold sepX, sepY, edge; cbn; try lra; try (apply Rabs_def1; lra).
Qed.

