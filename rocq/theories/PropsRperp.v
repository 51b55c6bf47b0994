(** C89: the Rperp metric.  Separations, exactness with bin_slop = 0, limits on rpar; OldRperp. *)
From Coq Require Import Reals Lra Lia List ZArith Bool Permutation Psatz.
From Verif Require Import Base Geometry Tree Traverse Run Spec SpecRun SpecRperp GeomFacts SumFacts TreeFacts
  BinFacts TravFacts Exact MetricFacts Cover Lift Runs Account RperpFacts Examples PropsCount PropsNear PropsSampler PropsRefuted PropsRpar.
Import ListNotations.
Open Scope R_scope.

(** ** The separation *)
Theorem C89_distance p q : isRperpSep p q (sqrt (distSq Rperp p q)).
Proof.
  change (sqrt (distSq Rperp p q)) with (mdist Rperp p q).
  destruct (rperp_w p q) as [m [w [Hw [Ho Hn]]]]. rewrite <- Hn.
  assert (E : forall t, euclid q (padd p (pscale t (padd p q))) = norm (padd w (pscale (- m - t) (padd p q)))).
  { intro t. rewrite euclid_pdist. unfold pdist. f_equal. rewrite Hw.
    unfold padd, psub, pscale; simpl. f_equal; ring. }
  split.
  - exists (- m). rewrite E. f_equal. unfold padd, pscale; simpl. destruct w; simpl. f_equal; ring.
  - intro t. rewrite E. set (u := padd p q) in *. set (k := - m - t).
    unfold norm. apply sqrt_le_1_alt.
    replace (normSq (padd w (pscale k u))) with (normSq w + 2 * k * dot w u + k * k * normSq u)
      by (unfold normSq, padd, pscale, dot; simpl; ring).
    rewrite Ho. pose proof (normSq_nonneg u). nra.
Qed.
Lemma rperp_unique p q d d' : isRperpSep p q d -> isRperpSep p q d' -> d = d'.
Proof.
  intros [[t E] H] [[t' E'] H']. apply Rle_antisym.
  - rewrite E'. apply H. - rewrite E. apply H'.
Qed.
(** Two points at the same distance, and two points on one line of sight. *)
Example C89_distance_example : isRperpSep (mkpos 10 (-1) 0) (mkpos 10 1 0) 2 /\ isRperpSep (mkpos 3 0 0) (mkpos 5 0 0) 0.
Proof.
  assert (A : forall p q d, 0 <= d -> distSq Rperp p q = d * d -> isRperpSep p q d).
  { intros p q d Hd E. rewrite <- (sqrt_square d Hd), <- E. apply C89_distance. }
  split; apply A; try lra; unfold distSq, normSq, cross, pscale, padd; simpl; destruct Rlt_dec; try lra; field.
Qed.

(** ** bin_slop = 0 *)
Lemma pairOK_lipW P c1 c2 : lipW (cmetric P) -> crpar P = None ->
  okcell 0 c1 -> okcell 0 c2 -> pairOK P 0 c1 c2.
Proof.
  intros HL Hn O1 O2 x o1 o2 Hx I1 I2. split; [|congruence].
  destruct (effSum_fin _ _ _ _ Hx) as [s1 [s2 [E1 E2]]].
  rewrite Rplus_0_r. apply (HL (getPos c1) (getPos c2) (opos o1) (opos o2) s1 s2).
  - pose proof (member_within 0 c1 o1 s1 ltac:(lra) O1 I1 E1). lra.
  - pose proof (member_within 0 c2 o2 s2 ltac:(lra) O2 I2 E2). lra.
  - unfold effSum in Hx. rewrite E1, E2 in Hx. destruct (effSize _ _ _ _ _). exact Hx.
Qed.
Lemma lipW_field P F1 F2 cat1 cat2 o1 o2 : lipW (cmetric P) -> crpar P = None ->
  In o1 cat1 -> In o2 cat2 -> validB (cbin P) ->
  crossEarlyExit P (fieldCenter F1 cat1) (fieldCenter F2 cat2) (fieldSize F1 cat1) (fieldSize F2 cat2) = true ->
  mdist (cmetric P) (opos o1) (opos o2) < minsep (cbin P) \/
  maxsep (cbin P) <= mdist (cmetric P) (opos o1) (opos o2).
Proof.
  intros HL Hr I1 I2 HB HX.
  destruct (earlyExit_sound P (fieldCenter F1 cat1) (fieldCenter F2 cat2)
    (fieldSize F1 cat1) (fieldSize F2 cat2) (opos o1) (opos o2) 0 HB) as [H|H]; auto.
  - apply fieldSize_nonneg.
  - apply fieldSize_nonneg.
  - intros x Hx. split; [|congruence]. rewrite Rplus_0_r.
    apply (HL (fieldCenter F1 cat1) (fieldCenter F2 cat2) (opos o1) (opos o2) (fieldSize F1 cat1) (fieldSize F2 cat2)).
    + apply fieldSize_bound; auto. + apply fieldSize_bound; auto.
    + destruct (effSize _ _ _ _ _). exact Hx.
  - exfalso. apply H. rewrite Hr. exact I.
  - lra.
Qed.
Lemma subEuclid_rperp : subEuclid Rperp.
Proof. exact rperp_le_pdist. Qed.

Theorem C89_cross_exact (rsep : pos -> pos -> R) R cat1 cat2 s0 s1 k :
  (forall p q, isRperpSep p q (rsep p q)) ->
  cmetric (rP R) = Rperp -> crpar (rP R) = None -> validB (cbin (rP R)) ->
  slop_b (cbin (rP R)) = 0 -> narrowLog (cbin (rP R)) ->
  offEdges (cbin (rP R)) rsep cat1 cat2 ->
  posW cat1 -> posW cat2 ->
  runCross R cat1 cat2 s0 s1 ->
  addsCross (selBin (cbin (rP R)) rsep k) cat1 cat2 s0 s1 k.
Proof.
  intros Hp HM Hr HB Hb HN HE Hw1 Hw2 [cells1 [cells2 [B1 [B2 H]]]].
  assert (Hd : forall p q, mdist Rperp p q = rsep p q).
  { intros. eapply rperp_unique; [apply C89_distance|auto]. }
  assert (HZ : zeroSlop (rP R) cat1 cat2).
  { split; auto. split; auto. rewrite HM. eapply offEdges_ext; [|exact HE]. intros; symmetry; auto. }
  assert (HL : lipW (cmetric (rP R))) by (rewrite HM; apply lipW_rperp).
  apply (addsCross_of (rP R)).
  - intros. apply selM_selBin; auto. rewrite HM. apply Hd.
  - intros f Hf.
    set (F1 := fieldParams R (brute1 (rbrute R))) in *.
    set (F2 := fieldParams R (brute2 (rbrute R))) in *.
    assert (Hm : fst (getMinMaxSize (rP R)) = 0) by (apply minsize_b0; auto; apply HZ).
    assert (Hm1 : fminsize F1 = 0) by (apply fieldParams_min0; auto).
    assert (Hm2 : fminsize F2 = 0) by (apply fieldParams_min0; auto).
    eapply (processCross_exact (rP R) f k F1 F2); eauto; try lra; try (apply posW_cond; auto).
    + intros a b Ha Hb'. split; [|split].
      * apply pairOK_lipW; auto.
        -- exact (cells_ok0 F1 cat1 cells1 a Hm1 B1 Ha).
        -- exact (cells_ok0 F2 cat2 cells2 b Hm2 B2 Hb').
      * eapply exactCond_slop; [exact HZ|exact B1|exact B2|exact Ha|exact Hb'].
      * left; auto.
    + intros HX o1 o2 I1 I2. apply sel_not_range; auto. right.
      eapply (lipW_field (rP R) F1 F2 cat1 cat2); eauto.
Qed.
Theorem C89_auto_exact (rsep : pos -> pos -> R) R cat s0 s1 k :
  (forall p q, isRperpSep p q (rsep p q)) ->
  cmetric (rP R) = Rperp -> crpar (rP R) = None -> validB (cbin (rP R)) ->
  slop_b (cbin (rP R)) = 0 -> narrowLog (cbin (rP R)) ->
  offEdges (cbin (rP R)) rsep cat cat -> offMinSep (cbin (rP R)) rsep cat ->
  posW cat ->
  runAuto R cat s0 s1 ->
  addsAuto (selBin (cbin (rP R)) rsep k) cat s0 s1 k.
Proof.
  intros Hp HM Hr HB Hb HN HE HO Hw [cells [B H]].
  assert (Hd : forall p q, mdist Rperp p q = rsep p q).
  { intros. eapply rperp_unique; [apply C89_distance|auto]. }
  assert (HZ : zeroSlop (rP R) cat cat).
  { split; auto. split; auto. rewrite HM. eapply offEdges_ext; [|exact HE]. intros; symmetry; auto. }
  assert (HL : lipW (cmetric (rP R))) by (rewrite HM; apply lipW_rperp).
  assert (HSym : symM (cmetric (rP R))) by (rewrite HM; apply symM_other; simpl; auto; discriminate).
  apply (addsAuto_of (rP R)).
  - intros. apply selM_selBin; auto. rewrite HM. apply Hd.
  - intros f Hf Hn.
    set (F := fieldParams R (bruteAuto (rbrute R))) in *.
    assert (Hm : fminsize F = 0) by (apply fieldParams_min0; right; apply minsize_b0; auto; apply HZ).
    assert (HO' : offMinSep (cbin (rP R)) (mdist (cmetric (rP R))) cat).
    { rewrite HM. eapply offMinSep_ext; [|exact HO]. intros; symmetry; auto. }
    eapply (processAuto_exact (rP R) f k F); eauto; try lra; try (apply posW_cond; auto).
    + intros a b Ha Hb'. split; [|split].
      * apply pairOK_lipW; auto.
        -- exact (cells_ok0 F cat cells a Hm B Ha).
        -- exact (cells_ok0 F cat cells b Hm B Hb').
      * eapply exactCond_slop; [exact HZ|exact B|exact B|exact Ha|exact Hb'].
      * left; auto.
    + intros c Hc. apply selfOK_size; auto; [rewrite HM; apply subEuclid_rperp|]. eapply cells_ok0; eauto.
    + intros x y. apply specM_sym; auto.
Qed.

(** Log bins from 1 to e; three objects at different depths. *)
Definition rpO (x y w : R) (i : nat) : obj := mkobj (mkpos x y 0) w w 2 0 0 i.
Definition rpL : list obj := [rpO 10 (-1) 1 0; rpO 20 0 2 1].
Definition rpS : list obj := [rpO 10 1 1 0; rpO 20 3 3 1].
Example C89_cross_example : exists s1 rsep,
  (forall p q, isRperpSep p q (rsep p q)) /\
  runCross (exRun Rperp exBlog BruteNo) rpL rpS cleared s1 /\
  addsCross (selBin exBlog rsep 0) rpL rpS cleared s1 0 /\
  rsep (mkpos 10 (-1) 0) (mkpos 10 1 0) = 2.
Proof.
  set (R := exRun Rperp exBlog BruteNo).
  destruct (runCross_exists R rpL rpS cleared) as [s1 H1]; try (apply exBlog_valid); try discriminate.
  exists s1, (fun p q => sqrt (distSq Rperp p q)). split; [intros; apply C89_distance|]. split; auto. split.
  - apply (C89_cross_exact _ R); auto; try discriminate.
    + intros; apply C89_distance.
    + apply exBlog_valid. + apply exBlog_narrow.
    + intros o [<-|[<-|[]]]; simpl; lra.
    + intros o [<-|[<-|[]]]; simpl; lra.
  - apply (rperp_unique (mkpos 10 (-1) 0) (mkpos 10 1 0)); [apply C89_distance|apply C89_distance_example].
Qed.
Example C89_auto_example : exists s1 rsep,
  (forall p q, isRperpSep p q (rsep p q)) /\ offMinSep exBlog rsep [rpO 10 (-1) 1 0; rpO 10 1 3 1] /\
  runAuto (exRun Rperp exBlog BruteNo) [rpO 10 (-1) 1 0; rpO 10 1 3 1] cleared s1 /\
  a_weight s1 1%Z = 3.
Proof.
  set (R := exRun Rperp exBlog BruteNo). set (cat := [rpO 10 (-1) 1 0; rpO 10 1 3 1]).
  destruct (runAuto_exists R cat cleared) as [s1 H1]; try (apply exBlog_valid); try discriminate.
  set (rsep := fun p q => sqrt (distSq Rperp p q)).
  assert (HS : forall p q, isRperpSep p q (rsep p q)) by (intros; apply C89_distance).
  assert (E2 : rsep (mkpos 10 (-1) 0) (mkpos 10 1 0) = 2).
  { apply (rperp_unique (mkpos 10 (-1) 0) (mkpos 10 1 0)); [apply C89_distance|apply C89_distance_example]. }
  assert (HO : offMinSep exBlog rsep cat).
  { intros o1 o2 Hi. cbn in Hi. destruct Hi as [Hi|[]]. injection Hi; intros; subst. cbn [opos rpO]. rewrite E2. cbn. lra. }
  exists s1, rsep. split; auto. split; auto. split; auto.
  destruct (C89_auto_exact rsep R cat cleared s1 1) as [_ [HW _]]; auto; try discriminate.
  + apply exBlog_valid. + apply exBlog_narrow.
  + intros o [<-|[<-|[]]]; simpl; lra.
  + rewrite HW. unfold sumUPairs, cat. cbn [upairs map app sumR fst snd]. unfold selBin. cbn [opos rpO]. rewrite E2.
    assert (EB : inBinb exBlog 1 2 = true).
    { apply inBinb_true. pose proof (exp_ineq1 1 ltac:(lra)) as G1. pose proof exp_le_3 as G2.
      assert (G3 : exp (1/2) * exp (1/2) = exp 1) by (rewrite <- exp_plus; f_equal; lra).
      pose proof (exp_pos (1/2)).
      unfold inBin, exBlog, edge; cbn. replace (1 * (1/2)) with (1/2) by lra. replace (2 * (1/2)) with 1 by lra.
      split; [lia|]. split; nra. }
    change (cbin (rP R)) with exBlog. rewrite EB. unfold v_ww. cbn. unfold aconst. lra.
Qed.

(** ** OldRperp *)
(** The documented separation: r_perp^2 = r^2 - (|q| - |p|)^2. *)
Definition oldSep (p q : pos) : R := sqrt (euclid p q * euclid p q - (norm q - norm p) * (norm q - norm p)).
Definition orB' : bparams := mkB BLinear 1 (1 + IZR 1 * 3) 1 3 0 1.
Lemma orB'_valid : validB orB'.
Proof. constructor; simpl; try lra; try lia; try discriminate; reflexivity. Qed.
Definition orC1 : list obj := [exObj (-1) 1 0].
Definition orL1 : cell := Leaf (data1 (exObj (-1) 1 0)) (exObj (-1) 1 0).
Definition orQ' : runcfg := mkR (mkC OldRperp None orB') ThreeD Mean BruteNo 0 0.
Lemma old_x y : 0 < y -> distSq OldRperp (mkpos (-1) 0 0) (mkpos y 0 0) = 4 * y.
Proof.
  intro H. unfold distSq, normSq, psub. cbn [px py pz].
  replace (sqrt ((-1 * -1 + 0 * 0 + 0 * 0) * (y * y + 0 * 0 + 0 * 0))) with y.
  2:{ symmetry. replace ((-1 * -1 + 0 * 0 + 0 * 0) * (y * y + 0 * 0 + 0 * 0)) with (y * y) by ring. apply sqrt_square; lra. }
  unfold Rsqr. rewrite Rabs_pos_eq.
  - field. nra.
  - match goal with |- 0 <= ?e => replace e with (4 * y) by (field; nra) end. lra.
Qed.
Lemma oldSep_x y i j : 0 < y -> oldSep (opos (exObj (-1) 1 i)) (opos (exObj y 1 j)) = sqrt (4 * y).
Proof.
  intro H. unfold oldSep. cbn [opos exObj]. rewrite euclid_x, !norm_x.
  rewrite (Rabs_left (-1)), (Rabs_pos_eq y), (Rabs_left (-1 - y)) by lra. f_equal. ring.
Qed.

Theorem C89_oldrperp_refuted : exists Q cat1 cat2 s1,
  cmetric (rP Q) = OldRperp /\ crpar (rP Q) = None /\ rcoord Q = ThreeD /\ validB (cbin (rP Q)) /\
  slop_b (cbin (rP Q)) = 0 /\ narrowLog (cbin (rP Q)) /\ offEdges (cbin (rP Q)) oldSep cat1 cat2 /\ posW cat1 /\ posW cat2 /\
  (forall o1 o2, In o1 cat1 -> In o2 cat2 ->
     sqrt (distSq OldRperp (opos o1) (opos o2)) = oldSep (opos o1) (opos o2)) /\
  runCross Q cat1 cat2 cleared s1 /\
  a_npairs s1 0%Z = 2 /\ sumPairs (selBin (cbin (rP Q)) oldSep 0) v_one cat1 cat2 = 1.
Proof.
  set (cat2 := twCat2 1 (9/10)). set (c2 := twC2 1 (9/10)).
  destruct (tw_cell 1 (9/10) ltac:(lra)) as [P2 [S2 W2]]. fold c2 in P2, S2, W2.
  assert (E4 : sqrt (4 * 1) = 2) by (replace (4 * 1) with (2 * 2) by ring; apply sqrt_square; lra).
  assert (DS : forall o1 o2, In o1 orC1 -> In o2 cat2 ->
     sqrt (distSq OldRperp (opos o1) (opos o2)) = oldSep (opos o1) (opos o2)).
  { intros o1 o2 [<-|[]] [<-|[<-|[]]]; rewrite oldSep_x by lra; cbn [opos exObj]; rewrite old_x by lra; auto. }
  assert (EF : effSize OldRperp (mkpos (-1) 0 0) (mkpos 1 0 0) (Fin 0) (Fin (9/10)) = (Fin 0, Fin (9/10))).
  { cbn [effSize]. unfold normSq. cbn [px py pz]. destruct Rlt_dec; [lra|]. cbn [escale]. f_equal. f_equal. field. }
  assert (HD : decide11 (mkC OldRperp None orB') orL1 c2 = Direct 4 0 2 (ln 2)).
  { unfold decide11. cbn [cmetric crpar cbin].
    destruct (Req_EM_T (getW orL1) 0) as [E|_]; [cbn in E; lra|]. rewrite W2. destruct (Req_EM_T 2 0) as [E|_]; [lra|].
    rewrite P2, S2. unfold getSize, getPos. cbn [orL1 getData data1 dpos opos exObj]. rewrite EF, old_x by lra.
    replace (4 * 1) with 4 by lra. cbn [eadd isRParOutsideRange isRParInsideRange].
    unfold orB', tooSmallDist, tooLargeDist, singleBin, isRSqInRange. cbn [minsep maxsep btype slop_a slop_b binsize].
    unfold Rltb, Rleb, Rsqr.
    replace (sqrt 4) with 2 by (rewrite <- E4; f_equal; lra).
    destruct (Rlt_dec 4 (1 * 1)); [lra|]. cbn [andb].
    destruct (Rle_dec ((1 + 1 * 3) * (1 + 1 * 3)) 4); [lra|]. cbn [andb].
    destruct (Rlt_dec (1 * 1 * 4) ((0 + 9/10) * (0 + 9/10))); [lra|]. destruct (Rle_dec (0 + 9/10) 0); [lra|].
    destruct (Rlt_dec (1/2 * (3 + 0)) (0 + 9/10)); [lra|].
    rewrite (trunc_eq ((2 - 1) / 3) 0) by (try lia; lra).
    rewrite Rmin_left by lra. destruct (Rlt_dec (((2 - 1) / 3 - 0) * 3 + 0) (0 + 9/10)); [lra|].
    destruct (Rle_dec (1 * 1) 4); [|lra]. destruct (Rlt_dec 4 ((1 + 1 * 3) * (1 + 1 * 3))); [|lra]. reflexivity. }
  assert (B1 : buildField (fieldParams orQ' false) orC1 [orL1]).
  { exists [orC1]. split; [apply top_stop; left; reflexivity|]. constructor; [apply b_leaf|constructor]. }
  assert (B2 : buildField (fieldParams orQ' false) cat2 [c2]).
  { assert (Hm : fst (getMinMaxSize (rP orQ')) = 0) by (apply minsize_b0; [apply orB'_valid|reflexivity]).
    unfold fieldParams. rewrite Hm.
    exists [twCat2 1 (9/10)]. split; [apply top_stop; right; right; reflexivity|]. constructor; [|constructor].
    cbn [fcoord fsm fminsize fbrute orQ' rcoord rsm].
    apply (b_node ThreeD Mean (0 * 0) false (twCat2 1 (9/10)) [exObj (1 - 9/10) 1 0] [exObj (1 + 9/10) 1 1]);
      [cbn; lia|rewrite tw_size; nra| |apply b_leaf|apply b_leaf].
    apply sd_ok; try discriminate. apply sc_mean; auto. cbv zeta.
    replace (getSplit (boundsOf (twCat2 1 (9/10)))) with DX by (symmetry; unfold twCat2; bnd).
    rewrite tw_cen. split; [|split; repeat constructor; cbn; lra]. apply Permutation_refl. }
  set (e := directProcess11 (mkC OldRperp None orB') false orL1 c2 4 0 2 (ln 2)).
  assert (He : crossIters (rP orQ') [orL1] [c2] = [Some [e]]).
  { unfold crossIters. cbn [map oconcat]. unfold run11. change (fuel11 orL1 c2) with 1%nat. cbn [process11 orQ' rP]. rewrite HD. reflexivity. }
  assert (Hke : ek e = 0%Z) by reflexivity.
  assert (Hk2 : ek2 e = None) by apply direct_ek2.
  destruct (direct_ec (mkC OldRperp None orB') false orL1 c2 4 0 2 (ln 2)) as [E1 E2]. fold e in E1, E2.
  exists orQ', orC1, cat2, (parallelRun cleared [[[e]]]).
  do 3 (split; [reflexivity|]). split; [apply orB'_valid|]. split; [reflexivity|].
  split; [intro HH; discriminate|]. split.
  { intros _ o1 o2 j Hj I1 I2. cbn in Hj. replace j with 1%Z by lia. rewrite <- DS by auto.
    replace (edge (cbin (rP orQ')) 1) with 4 by (unfold edge; cbn; lra).
    intro HE.
    assert (HQ : distSq OldRperp (opos o1) (opos o2) = 16).
    { rewrite <- (sqrt_sqrt (distSq OldRperp (opos o1) (opos o2))).
      - rewrite HE. ring.
      - destruct I1 as [<-|[]], I2 as [<-|[<-|[]]]; cbn [opos exObj]; rewrite old_x by lra; lra. }
    destruct I1 as [<-|[]], I2 as [<-|[<-|[]]]; cbn [opos exObj] in HQ; rewrite old_x in HQ by lra; lra. }
  split; [intros o [<-|[]]; cbn; lra|]. split; [intros o [<-|[<-|[]]]; cbn; lra|]. split; [exact DS|].
  split; [|split].
  - exists [orL1], [c2]. split; [exact B1|]. split; [exact B2|]. unfold processCross.
    match goal with |- if ?c then _ else _ => assert (EX : c = false) end.
    { unfold crossEarlyExit, fieldCenter, fieldSize. cbn [fcoord fieldParams orQ' rcoord rP cmetric cbin crpar brute1 brute2 rbrute].
      unfold cat2. rewrite tw_size, tw_cen by lra.
      assert (C1 : centroid ThreeD orC1 = mkpos (-1) 0 0) by (unfold orC1; cen).
      assert (S1 : calculateSizeSq (centroid ThreeD orC1) orC1 = 0) by (rewrite C1; unfold orC1; siz).
      rewrite S1, C1, sqrt_0, sqrt_square by lra. rewrite EF, old_x by lra. cbn [eadd isRParOutsideRange].
      unfold tooSmallDist, tooLargeDist, orB'. cbn [minsep maxsep btype].
      replace (Rltb (4 * 1) (1 * 1)) with false by (symmetry; apply Rltb_f; lra).
      replace (Rleb ((1 + 1 * 3) * (1 + 1 * 3)) (4 * 1)) with false by (symmetry; apply Rleb_f; lra). reflexivity. }
    rewrite EX. exists [[e]], [[[e]]]. split; [symmetry; exact He|]. split; [|reflexivity]. unfold schedule. simpl. auto.
  - assert (HG : forall f j, aget f (parallelRun cleared [[[e]]]) j = aget f cleared j + contrib f j e).
    { intros f j. rewrite (schedule_get f cleared [[e]] [[[e]]] j) by (unfold schedule; simpl; auto).
      cbn [concat app sumR]. ring. }
    rewrite (HG FNpairs 0%Z : a_npairs _ 0%Z = _). unfold contrib, hit, evval. rewrite Hk2, Hke, E1, E2.
    simpl. unfold aconst. lra.
  - unfold sumPairs, cat2, orC1, twCat2, pairs. cbn [map app sumR fst snd flat_map list_prod]. unfold selBin.
    rewrite !oldSep_x by lra.
    assert (EI : forall d, inBinb orB' 0 d = Rleb 1 d && Rltb d 4).
    { intro d. unfold inBinb, orB', edge. cbn. repeat f_equal; lra. }
    change (cbin (rP orQ')) with orB'. rewrite !EI.
    assert (K1 : Rleb 1 (sqrt (4 * (1 - 9/10))) = false).
    { apply Rleb_f. apply Rlt_le_trans with (sqrt 1); [apply sqrt_lt_1_alt; lra|rewrite sqrt_1; lra]. }
    assert (K2 : Rleb 1 (sqrt (4 * (1 + 9/10))) = true).
    { apply Rleb_true. apply Rle_trans with (sqrt 1); [rewrite sqrt_1; lra|apply sqrt_le_1_alt; lra]. }
    assert (K3 : Rltb (sqrt (4 * (1 + 9/10))) 4 = true).
    { apply Rltb_true. apply Rlt_le_trans with (sqrt (4 * 4)); [apply sqrt_lt_1_alt; lra|rewrite sqrt_square; lra]. }
    rewrite K1, K2, K3. unfold v_one. cbn. lra.
Qed.

(** Cells rejected as too large contain no pair below max_sep (src/Corr2.cpp:297-300 with the tests of
    BinType.h and Metric.h:359-368). *)
Lemma old_dist p q : sqrt (distSq OldRperp p q) = oldSep p q.
Proof.
  unfold oldSep, distSq. f_equal. rewrite euclid_pdist. unfold pdist. rewrite norm_sq.
  pose proof (norm_nonneg p) as Hp. pose proof (norm_nonneg q) as Hq.
  rewrite sqrt_mult by apply normSq_nonneg. change (sqrt (normSq p)) with (norm p). change (sqrt (normSq q)) with (norm q).
  assert (E : Rsqr (normSq p - normSq q) / (normSq p + normSq q + 2 * (norm p * norm q)) = (norm q - norm p) * (norm q - norm p)).
  { rewrite <- !norm_sq. unfold Rsqr.
    destruct (Req_dec (norm p + norm q) 0) as [Z|Z].
    - assert (norm p = 0) by lra. assert (norm q = 0) by lra. rewrite H, H0. unfold Rdiv. ring.
    - field. replace (norm p * norm p + norm q * norm q + 2 * (norm p * norm q)) with ((norm p + norm q) * (norm p + norm q)) by ring.
      apply Rmult_integral_contrapositive; auto. }
  rewrite E. apply Rabs_pos_eq.
  rewrite <- (norm_sq (psub p q)).
  pose proof (norm_triangle (psub p q) q) as T1. pose proof (norm_triangle (psub q p) p) as T2.
  replace (padd (psub p q) q) with p in T1 by (unfold padd, psub; destruct p; simpl; f_equal; ring).
  replace (padd (psub q p) p) with q in T2 by (unfold padd, psub; destruct q; simpl; f_equal; ring).
  assert (norm (psub q p) = norm (psub p q)) by (apply pdist_sym).
  pose proof (norm_nonneg (psub p q)). nra.
Qed.
Theorem C89_old_large (B : bparams) p1 p2 q1 q2 s1 s2 x :
  btype B <> BTwoD -> 0 <= maxsep B ->
  euclid p1 q1 <= s1 -> euclid p2 q2 <= s2 ->
  eadd (fst (effSize OldRperp p1 p2 (Fin s1) (Fin s2))) (snd (effSize OldRperp p1 p2 (Fin s1) (Fin s2))) = Fin x ->
  tooLargeDist B (distSq OldRperp p1 p2) (Fin x) = true ->
  tooLargeM OldRperp p1 p2 (distSq OldRperp p1 p2) (Fin x) (fullmaxsep B) = true ->
  maxsep B < oldSep q1 q2.
Proof.
  intros HT HMx H1 H2 HE HL HM. rewrite euclid_pdist in H1, H2.
  assert (Hs1 : 0 <= s1) by (pose proof (pdist_nonneg p1 q1); lra).
  assert (Hs2 : 0 <= s2) by (pose proof (pdist_nonneg p2 q2); lra).
  assert (Hx : s1 + s2 <= x).
  { cbn [effSize fst snd] in HE.
    assert (F : forall a b s, 0 <= s -> 0 <= a -> a <= b -> s <= (1 + 1/4 * (b - a) / a) * s).
    { intros a b s Hs Ha Hab. assert (0 <= (b - a) / a).
      { destruct Ha as [Ha|<-]; [apply Rmult_le_pos; [lra|left; apply Rinv_0_lt_compat; auto]|unfold Rdiv; rewrite Rinv_0; lra]. }
      replace (1/4 * (b - a) / a) with (1/4 * ((b - a) / a)) by (unfold Rdiv; ring). nra. }
    pose proof (normSq_nonneg p1). pose proof (normSq_nonneg p2).
    destruct Rlt_dec as [Hl|Hl]; cbn [fst snd escale eadd] in HE; injection HE; intros; subst x.
    - pose proof (F (normSq p1) (normSq p2) s1 Hs1 ltac:(lra) ltac:(lra)). lra.
    - pose proof (F (normSq p2) (normSq p1) s2 Hs2 ltac:(lra) ltac:(lra)). lra. }
  set (D := pdist p1 p2). set (rh := norm p2 - norm p1).
  assert (Hrsq : distSq OldRperp p1 p2 = D * D - rh * rh).
  { assert (Hp : 0 <= distSq OldRperp p1 p2) by apply Rabs_pos.
    rewrite <- (sqrt_sqrt _ Hp). rewrite old_dist. unfold oldSep. rewrite euclid_pdist. fold D rh.
    assert (0 <= D * D - rh * rh).
    { assert (HA : sqrt (distSq OldRperp p1 p2) = oldSep p1 p2) by apply old_dist.
      pose proof (norm_triangle (psub p1 p2) p2) as T1. pose proof (norm_triangle (psub p2 p1) p1) as T2.
      replace (padd (psub p1 p2) p2) with p1 in T1 by (unfold padd, psub; destruct p1; simpl; f_equal; ring).
      replace (padd (psub p2 p1) p1) with p2 in T2 by (unfold padd, psub; destruct p2; simpl; f_equal; ring).
      assert (norm (psub p2 p1) = D) by (unfold D; rewrite pdist_sym; reflexivity).
      assert (norm (psub p1 p2) = D) by reflexivity. unfold rh. nra. }
    apply sqrt_sqrt. auto. }
  rewrite Hrsq in *.
  assert (Efm : fullmaxsep B = maxsep B) by (unfold fullmaxsep; destruct (btype B); congruence).
  rewrite Efm in HM. cbn [tooLargeM] in HM. apply Rltb_true in HM.
  replace (Rsqr (norm p2 - norm p1) + (D * D - rh * rh)) with (D * D) in HM by (unfold Rsqr, rh; ring).
  assert (HD0 : 0 <= D) by apply pdist_nonneg. rewrite sqrt_square in HM by auto. fold rh in HM.
  assert (Hxr : (maxsep B + x) * (maxsep B + x) <= D * D - rh * rh).
  { unfold tooLargeDist in HL. destruct (btype B); try congruence;
      apply andb_true_iff in HL as [_ HL]; apply Rleb_true in HL; exact HL. }
  assert (HxD : x <= D).
  { destruct (Rle_dec x D) as [|HN]; auto. exfalso. assert (0 <= rh * rh) by apply (Rle_0_sqr rh). nra. }
  (* the moved points *)
  set (D' := pdist q1 q2). set (rh' := norm q2 - norm q1).
  assert (HD' : D - (s1 + s2) <= D').
  { pose proof (pdist_lip p1 p2 q1 q2 s1 s2 H1 H2) as HL'. fold D D' in HL'.
    pose proof (Rabs_bounds _ _ HL'). lra. }
  assert (N : forall a b, Rabs (norm b - norm a) <= pdist a b).
  { intros a b. pose proof (norm_triangle (psub a b) b) as T1. pose proof (norm_triangle (psub b a) a) as T2.
    replace (padd (psub a b) b) with a in T1 by (unfold padd, psub; destruct a; simpl; f_equal; ring).
    replace (padd (psub b a) a) with b in T2 by (unfold padd, psub; destruct b; simpl; f_equal; ring).
    pose proof (pdist_sym a b) as Y. unfold pdist in *. apply Rabs_le. lra. }
  assert (Hrh' : Rabs rh' <= Rabs rh + (s1 + s2)).
  { replace rh' with (rh + ((norm q2 - norm p2) - (norm q1 - norm p1))) by (unfold rh, rh'; ring).
    eapply Rle_trans; [apply Rabs_triang|]. apply Rplus_le_compat_l.
    eapply Rle_trans; [apply Rabs_triang|]. rewrite Rabs_Ropp.
    pose proof (N p1 q1). pose proof (N p2 q2). lra. }
  unfold oldSep. rewrite euclid_pdist. fold D' rh'.
  rewrite <- (sqrt_square (maxsep B)) by auto. apply sqrt_lt_1_alt. split; [nra|].
  assert (Q1 : (D - (s1 + s2)) * (D - (s1 + s2)) <= D' * D') by nra.
  assert (Q2 : rh' * rh' <= (Rabs rh + (s1 + s2)) * (Rabs rh + (s1 + s2))).
  { replace (rh' * rh') with (Rabs rh' * Rabs rh').
    - pose proof (Rabs_pos rh'). nra.
    - rewrite <- Rabs_mult. apply Rabs_pos_eq, (Rle_0_sqr rh'). }
  assert (Q3 : Rabs rh * Rabs rh = rh * rh) by (rewrite <- Rabs_mult; apply Rabs_pos_eq, (Rle_0_sqr rh)).
  pose proof (Rabs_pos rh).
  assert (2 * (D + Rabs rh) * (s1 + s2) <= 2 * (D + Rabs rh) * x) by nra.
  nra.
Qed.
Example C89_old_large_example :
  tooLargeDist orB' (distSq OldRperp (mkpos (-1) 0 0) (mkpos 100 0 0)) (Fin (1/10)) = true /\
  tooLargeM OldRperp (mkpos (-1) 0 0) (mkpos 100 0 0) (distSq OldRperp (mkpos (-1) 0 0) (mkpos 100 0 0)) (Fin (1/10)) (fullmaxsep orB') = true.
Proof.
  rewrite old_x by lra. unfold tooLargeDist, tooLargeM, orB', fullmaxsep. cbn [btype maxsep]. split.
  - apply andb_true_intro. split; apply Rleb_true; unfold Rsqr; lra.
  - apply Rltb_true. rewrite !norm_x. rewrite (Rabs_left (-1)), (Rabs_pos_eq 100) by lra.
    replace (100 - - (-1)) with 99 by ring. rewrite (Rabs_pos_eq 99) by lra.
    replace (Rsqr 99 + 4 * 100) with (101 * 101) by (unfold Rsqr; ring). rewrite sqrt_square by lra. lra.
Qed.
