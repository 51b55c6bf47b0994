(** LogSAS: ordered and unordered runs; examples; where the claim fails. *)
From Coq Require Import Reals Lra Lia List ZArith Bool Permutation Psatz.
From Verif Require Import Base Geometry Tree Traverse Spec GeomFacts SumFacts TreeFacts TravFacts
  MetricFacts Cover Runs Corr3 TriCover TriStop SpecTri TriFacts TriSpec PropsTri TriMirror PropsTri2 Examples PropsTri3
  PropsArc SasGeom SasStop SpecSas SasFacts SasSpec PropsSas.
Import ListNotations.
Open Scope R_scope.

(** ** The unordered sum is the sum of the six ordered ones *)
Theorem C79_ordered_sum R f k c1 c2 c3 s0 su s123 s132 s213 s231 s312 s321 :
  validSAS (r3P R) -> noSlopSAS (r3P R) -> tmetric (r3P R) = Euclidean -> tcoord (r3P R) = Flat ->
  tminu (r3P R) <= 2 * PI / 3 -> PI / 3 <= tmaxu (r3P R) ->
  weights3 f (c1 ++ c2 ++ c3) -> (forall o, In o (c1 ++ c2 ++ c3) -> pz (opos o) = 0) ->
  oriented Flat (c1 ++ c2 ++ c3) -> s0 f k = 0 ->
  runCross3 R O0 c1 c2 c3 s0 su ->
  runCross3 R O3 c1 c2 c3 s0 s123 -> runCross3 R O3 c1 c3 c2 s0 s132 ->
  runCross3 R O3 c2 c1 c3 s0 s213 -> runCross3 R O3 c2 c3 c1 s0 s231 ->
  runCross3 R O3 c3 c1 c2 s0 s312 -> runCross3 R O3 c3 c2 c1 s0 s321 ->
  su f k = s123 f k + s132 f k + s213 f k + s231 f k + s312 f k + s321 f k.
Proof.
  intros V NS HE HC H2 H3 W FL OR Z Ru R1 R2 R3 R4 R5 R6.
  apply (C79_cross R O0 f k) in Ru; auto; [|discriminate|rewrite HC; auto].
  assert (X : forall x y z s, (forall o, In o (x ++ y ++ z) -> In o (c1 ++ c2 ++ c3)) ->
    runCross3 R O3 x y z s0 s -> s f k = s0 f k + sumTriples (sas (r3P R) f k) x y z).
  { intros x y z s H RR. apply (C79_cross_ordered R f k); auto. intros o Ho; apply W; auto. }
  rewrite Ru, (X c1 c2 c3 s123), (X c1 c3 c2 s132), (X c2 c1 c3 s213), (X c2 c3 c1 s231), (X c3 c1 c2 s312),
    (X c3 c2 c1 s321), Z; auto; try (intros o; rewrite !in_app_iff; tauto). cbv iota.
  rewrite (sumTriples_swap23 _ c1 c3 c2), (sumTriples_swap12 _ c2 c1 c3).
  rewrite (sumTriples_swap23 _ c2 c3 c1), (sumTriples_swap12 _ c2 c1 c3).
  rewrite (sumTriples_swap12 _ c3 c1 c2), (sumTriples_swap23 _ c1 c3 c2).
  rewrite (sumTriples_swap12 _ c3 c2 c1), (sumTriples_swap23 _ c2 c3 c1), (sumTriples_swap12 _ c2 c1 c3).
  unfold sas6, sas1, sumTriples. rewrite !Rplus_0_l, <- !sumR_plus.
  apply sumR_ext; intros a _. rewrite <- !sumR_plus. apply sumR_ext; intros b _.
  rewrite <- !sumR_plus. apply sumR_ext; intros c _. ring.
Qed.

(** ** Small configurations: one bin of d2, d3 from m to m exp(b) and one of phi from p to q *)
Definition sasP (C : coord) (m b p q : R) : tparams :=
  mkT Euclidean C LogSAS m (m * exp b) 1 b 0 1 p q 1 (q - p) 0 0 1 1 1 0.
Definition sasR (C : coord) (m b p q : R) : runcfg3 := mkR3 (sasP C m b p q) Mean 0 0.
Lemma sasP_valid C m b p q : 0 < m -> 0 < b -> 0 <= p < q -> q <= PI -> validSAS (sasP C m b p q).
Proof.
  intros H1 H2 H3 H4. constructor; cbn; auto; try lra; try lia. rewrite Rmult_1_l. auto.
Qed.
Lemma sasP_noSlop C m b p q : noSlopSAS (sasP C m b p q). Proof. repeat split; cbn; lra. Qed.
Lemma sel0 C m b p q x y z : 0 < m -> 0 < b ->
  0 < side1 x y z -> m <= side2 x y z < m * exp b -> m <= side3 x y z < m * exp b ->
  p <= angleAt x y z < q -> ccwSpec C x z y = true -> selSAS (sasP C m b p q) 0 x y z = true.
Proof.
  intros H1 H2 S1 S2 S3 SA SC. unfold selSAS.
  change (k2Of (sasP C m b p q) 0) with 0%Z. change (k3Of (sasP C m b p q) 0) with 0%Z.
  change (kpOf (sasP C m b p q) 0) with 0%Z. unfold logBin.
  cbn [sasP tnbins tnubins tminu tubinsize tminsep tbinsize tcoord].
  replace (IZR (0 + 1)) with 1 by reflexivity. rewrite !Rmult_0_l, exp_0, !Rmult_1_l, SC.
  rewrite (Rltb_t 0 (side1 x y z)), !Rleb_t, !Rltb_t by lra. reflexivity.
Qed.
Lemma sel0_wrong C m b p q x y z : ccwSpec C x z y = false -> sas (sasP C m b p q) TNtri 0 x y z = 0.
Proof.
  intro H. unfold sas. destruct (selSAS (sasP C m b p q) 0 x y z) eqn:E; auto.
  unfold selSAS in E. change (tcoord (sasP C m b p q)) with C in E. rewrite H, andb_false_r in E. discriminate.
Qed.
(** Angles from the cosine. *)
Lemma angle_val a b c r : side3 a b c * side2 a b c <> 0 ->
  (px (opos b) - px (opos a)) * (px (opos c) - px (opos a)) +
  (py (opos b) - py (opos a)) * (py (opos c) - py (opos a)) +
  (pz (opos b) - pz (opos a)) * (pz (opos c) - pz (opos a)) = r * (side3 a b c * side2 a b c) ->
  angleAt a b c = acos r.
Proof. intros H E. unfold angleAt. cbv zeta. rewrite E. f_equal. field. intuition. Qed.

(** ** Example: a 3-4-5 triangle is counted once for every corner *)
Lemma ex_oriented : oriented Flat [exA; exB; exC].
Proof.
  assert (D : forall o, In o [exA; exB; exC] -> o = exA \/ o = exB \/ o = exC).
  { intros o [<-|[<-|[<-|[]]]]; auto. }
  assert (Z : forall o, euclid (opos o) (opos o) = 0).
  { intro o. apply Rsqr_inj; [apply sqrt_pos|lra|]. unfold Rsqr at 1. rewrite euclid_sq. unfold Rsqr. ring. }
  intros a b c Ha Hb Hc. unfold side1, side2, side3. intros S1 S2 S3.
  apply D in Ha, Hb, Hc. unfold ccwSpec, ccwFlat.
  destruct Ha as [->|[->| ->]], Hb as [->|[->| ->]], Hc as [->|[->| ->]];
    try (exfalso; rewrite Z in *; lra);
    cbn [exA exB exC triObj opos px py];
    first [left; apply Rltb_t; lra|right; apply Rltb_t; lra].
Qed.
Lemma exp2_3 : 3 < exp 2. Proof. pose proof (exp_ineq1 2 ltac:(lra)). lra. Qed.
Lemma acos_lt_PI x : -1 < x <= 1 -> 0 <= acos x < PI.
Proof.
  intro H. pose proof (acos_bound x) as B. split; [lra|].
  destruct (Req_dec (acos x) PI) as [E|E]; [|lra]. exfalso.
  assert (cos (acos x) = cos PI) by (rewrite E; auto). rewrite cos_acos, cos_PI in H0 by lra. lra.
Qed.
Example C79_example : let R := sasR Flat 2 2 0 PI in
  validSAS (r3P R) /\ noSlopSAS (r3P R) /\ oriented (tcoord (r3P R)) [exA; exB; exC] /\
  (forall f, weights3 f [exA; exB; exC]) /\ PI / 3 <= tmaxu (r3P R) /\
  (exists s1, runAuto3 R [exA; exB; exC] cleared3 s1 /\ s1 TNtri 0%Z = 3) /\
  (exists s1, runCross12 R O1 [exA] [exB; exC] cleared3 s1 /\ s1 TNtri 0%Z = 1) /\
  (exists s1, runCross3 R O0 [exA] [exB] [exC] cleared3 s1 /\ s1 TNtri 0%Z = 3) /\
  (exists s1, runCross3 R O3 [exA] [exC] [exB] cleared3 s1 /\ s1 TNtri 0%Z = 1).
Proof.
  cbv zeta. pose proof PI_RGT_0 as PP. pose proof exp2_3 as E3.
  assert (V : validSAS (r3P (sasR Flat 2 2 0 PI))) by (apply sasP_valid; lra).
  assert (S : noSlopSAS (r3P (sasR Flat 2 2 0 PI))) by apply sasP_noSlop.
  assert (W : forall f, weights3 f [exA; exB; exC]).
  { intros f o [<-|[<-|[<-|[]]]]; destruct f; cbn; lra. }
  assert (W' : forall f, weights3 f [exA; exC; exB]).
  { intros f o [<-|[<-|[<-|[]]]]; destruct f; cbn; lra. }
  assert (M : PI / 3 <= tmaxu (r3P (sasR Flat 2 2 0 PI))) by (cbn; lra).
  assert (M2 : tminu (r3P (sasR Flat 2 2 0 PI)) <= 2 * PI / 3) by (cbn; lra).
  assert (OR := ex_oriented).
  assert (OR' : oriented Flat [exA; exC; exB]).
  { intros a b c Ha Hb Hc. apply OR; simpl in *; tauto. }
  destruct ex_sides as [S1 [S2 S3]]. unfold side1, side2, side3 in S1, S2, S3.
  assert (N : forall x y z r, 0 < side1 x y z -> 2 <= side2 x y z <= 5 -> 2 <= side3 x y z <= 5 -> -1 < r <= 1 ->
    (px (opos y) - px (opos x)) * (px (opos z) - px (opos x)) +
    (py (opos y) - py (opos x)) * (py (opos z) - py (opos x)) +
    (pz (opos y) - pz (opos x)) * (pz (opos z) - pz (opos x)) = r * (side3 x y z * side2 x y z) ->
    ccwSpec Flat x z y = true -> sas (r3P (sasR Flat 2 2 0 PI)) TNtri 0 x y z = 1 /\
      sas (r3P (sasR Flat 2 2 0 PI)) TNtri 0 x z y = 0).
  { intros x y z r H1 H2 H3 HR HD HC. split.
    - unfold sas. change (r3P (sasR Flat 2 2 0 PI)) with (sasP Flat 2 2 0 PI). rewrite sel0; auto; try lra.
      rewrite (angle_val x y z r); auto; [apply acos_lt_PI; auto|].
      intro Q. apply Rmult_integral in Q. lra.
    - apply (sel0_wrong Flat 2 2 0 PI). unfold ccwSpec, ccwFlat in *. apply Rltb_true in HC. apply Rltb_f. lra. }
  destruct (N exA exC exB 0) as [A1 A2]; try (unfold side1, side2, side3;
    rewrite ?(euclid_sym (opos exB) (opos exA)), ?(euclid_sym (opos exC) (opos exA)),
      ?(euclid_sym (opos exC) (opos exB)), ?S1, ?S2, ?S3; cbn [exA exB exC triObj opos px py pz]; lra).
  { apply Rltb_t. cbn [exA exB exC triObj opos px py pz]. lra. }
  destruct (N exB exA exC (3/5)) as [B1 B2]; try (unfold side1, side2, side3;
    rewrite ?(euclid_sym (opos exB) (opos exA)), ?(euclid_sym (opos exC) (opos exA)),
      ?(euclid_sym (opos exC) (opos exB)), ?S1, ?S2, ?S3; cbn [exA exB exC triObj opos px py pz]; lra).
  { apply Rltb_t. cbn [exA exB exC triObj opos px py pz]. lra. }
  destruct (N exC exB exA (4/5)) as [C1 C2]; try (unfold side1, side2, side3;
    rewrite ?(euclid_sym (opos exB) (opos exA)), ?(euclid_sym (opos exC) (opos exA)),
      ?(euclid_sym (opos exC) (opos exB)), ?S1, ?S2, ?S3; cbn [exA exB exC triObj opos px py pz]; lra).
  { apply Rltb_t. cbn [exA exB exC triObj opos px py pz]. lra. }
  split; [exact V|]. split; [exact S|]. split; [exact OR|]. split; [exact W|]. split; [exact M|].
  split; [|split; [|split]].
  - destruct (C79_exists (sasR Flat 2 2 0 PI) O0 [exA; exB; exC] [exA] [exA] cleared3) as [[s1 H1] _]; auto;
      try discriminate.
    { intros o Ho. simpl in Ho. assert (In o [exA; exB; exC]) by (simpl; tauto). apply (W TWeight); auto. }
    { intros a b c Ha Hb Hc. apply OR; simpl in *; tauto. }
    exists s1. split; auto.
    rewrite (C79_auto _ TNtri 0 _ _ _ V S eq_refl eq_refl M (W TNtri) OR H1).
    unfold cleared3. cbn [sumTriplesU upairs map app sumR fst snd]. unfold sas6, sas1.
    rewrite A1, A2, B1, B2, C1, C2. lra.
  - destruct (C79_exists (sasR Flat 2 2 0 PI) O1 [exA] [exB; exC] [exA] cleared3) as [_ [H1 _]]; auto;
      try discriminate.
    { intros o Ho. simpl in Ho. assert (In o [exA; exB; exC]) by (simpl; tauto). apply (W TWeight); auto. }
    { intros a b c Ha Hb Hc. apply OR; simpl in *; tauto. }
    destruct H1 as [s1 H1]; auto; [discriminate|]. exists s1. split; auto.
    rewrite (C79_cross12 _ O1 TNtri 0 [exA] [exB; exC] _ _ V S eq_refl eq_refl M ltac:(discriminate) (W TNtri) OR H1).
    unfold cleared3, sumPairs12. cbn [upairs map app sumR fst snd]. unfold sas1.
    rewrite A1, A2. lra.
  - destruct (C79_exists (sasR Flat 2 2 0 PI) O0 [exA] [exB] [exC] cleared3) as [_ [_ [H1 _]]]; auto;
      try discriminate; try exact (W TWeight).
    destruct H1 as [s1 H1]; [discriminate|]. exists s1. split; auto.
    rewrite (C79_cross _ O0 TNtri 0 [exA] [exB] [exC] _ _ V S eq_refl M2 M ltac:(discriminate) (W TNtri) OR H1).
    unfold cleared3, sumTriples. cbn [sumR]. unfold sas6, sas1.
    rewrite A1, A2, B1, B2, C1, C2. lra.
  - destruct (C79_exists (sasR Flat 2 2 0 PI) O0 [exA] [exC] [exB] cleared3) as [_ [_ [_ H1]]]; auto;
      try discriminate; try exact (W' TWeight).
    assert (FL : forall o, In o ([exA] ++ [exC] ++ [exB]) -> pz (opos o) = 0)
      by (intros o [<-|[<-|[<-|[]]]]; reflexivity).
    destruct (H1 eq_refl FL) as [s1 H2]. exists s1. split; auto.
    rewrite (C79_cross_ordered _ TNtri 0 [exA] [exC] [exB] _ _ V S eq_refl eq_refl M2 M (W' TNtri) FL H2).
    unfold cleared3, sumTriples. cbn [sumR].
    rewrite A1. lra.
Qed.
