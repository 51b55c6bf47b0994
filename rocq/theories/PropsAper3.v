(** C83: <N Map>, and concrete aperture statistics. *)
From Coq Require Import Reals Lra List ZArith Bool Lia.
From Verif Require Import Base Geometry Tree Traverse Run Spec SpecRun GeomFacts SumFacts TreeFacts
  BinFacts TravFacts Exact MetricFacts Cover Lift Runs Examples PropsCount Spin SpinFacts SpecSpin PropsSpin.
From Verif Require PatchFacts PropsSphere.
From Verif Require Import SpecGGG Aper SpecAper AperFacts PropsAper PropsAper2.
Import ListNotations.
Open Scope R_scope.

(** ** <N Map>: turning the shears of the sources by 45 degrees takes Mx to -Map and Map to Mx *)
Lemma kernO_turn1 co o1 o2 :
  kernO co Spin2 SNre o1 (turn45 o2) = - kernO co Spin2 SNim o1 o2 /\
  kernO co Spin2 SNim o1 (turn45 o2) = kernO co Spin2 SNre o1 o2.
Proof.
  assert (E : forall o, owg (turn45 o) = (- snd (owg o), fst (owg o))).
  { intro o. unfold owg. cbn. apply cplx_eq; cbn [fst snd]; ring. }
  unfold kernO. cbn [turn45 opos ow okappa]. rewrite !E. unfold kern, project1, project2.
  destruct co; rewrite !cmul_i; cbn [oddSpin]; unfold cscale; cbn [fst snd]; split; ring.
Qed.
Lemma sources_turn Q cat1 cat2 s1 s2 a1 a2 : exactGG Q -> posW cat1 -> posW cat2 ->
  runCross Q cat1 cat2 cleared s1 -> runCross Q cat1 (map turn45 cat2) cleared s2 ->
  runCrossS Q Spin2 cat1 cat2 scleared a1 -> runCrossS Q Spin2 cat1 (map turn45 cat2) scleared a2 ->
  forall k, a_weight s2 k = a_weight s1 k /\ a_meanr s2 k = a_meanr s1 k /\
    a2 SNre k = - a1 SNim k /\ a2 SNim k = a1 SNre k.
Proof.
  intros [HB [Hr [HM Ha]]] Hw1 Hw2 R1 R2 S1 S2 k.
  assert (PM : forall c1 c2, pairs c1 (map turn45 c2) = map (fun oo : obj * obj => (fst oo, turn45 (snd oo))) (pairs c1 c2)).
  { intros c1 c2. induction c1 as [|x c1 IH]; auto. unfold pairs in *. simpl. rewrite map_app, IH, !map_map. reflexivity. }
  assert (SP : forall sel v, (forall o1 o2, sel o1 (turn45 o2) = sel o1 o2) -> (forall o1 o2, v o1 (turn45 o2) = v o1 o2) ->
    sumPairs sel v cat1 (map turn45 cat2) = sumPairs sel v cat1 cat2).
  { intros sel v Hs Hv. unfold sumPairs. rewrite PM, sumR_map. apply sumR_ext. intros [x y] _. cbn [fst snd].
    rewrite Hs, Hv. reflexivity. }
  destruct (C59_cross_counts Q k cat1 cat2 _ _ HB Hr HM Ha Hw1 Hw2 R1) as [[_ [W1 _]] [M1 _]].
  destruct (C59_cross_counts Q k _ _ _ _ HB Hr HM Ha Hw1 (turned_pos _ Hw2) R2) as [[_ [W2 _]] [M2 _]].
  split; [|split].
  - rewrite W1, W2. f_equal. apply SP; reflexivity.
  - rewrite M1, M2. f_equal. apply SP; reflexivity.
  - assert (N1 := pos_nonneg _ Hw1). assert (N2 := pos_nonneg _ Hw2).
    assert (F1 := fun f => runCrossS_a0 Q Spin2 f k _ _ _ _ HB Hr HM Ha N1 N2 S1).
    assert (F2 := fun f => runCrossS_a0 Q Spin2 f k _ _ _ _ HB Hr HM Ha N1 (turned_nonneg _ N2) S2).
    rewrite !F1, !F2. unfold scleared. rewrite PM, !sumR_map, !Rplus_0_l.
    assert (HS : forall x y, selM (rP Q) k x (turn45 y) = selM (rP Q) k x y) by reflexivity.
    split.
    + replace (- sumR (specS (rcoord Q) Spin2 (rP Q) SNim k) (pairs cat1 cat2))
        with ((-1) * sumR (specS (rcoord Q) Spin2 (rP Q) SNim k) (pairs cat1 cat2)) by ring.
      rewrite <- sumR_scal. apply sumR_ext. intros [x y] _. unfold specS; cbn [fst snd]. rewrite HS.
      destruct selM; [|ring]. rewrite (proj1 (kernO_turn1 (rcoord Q) x y)). ring.
    + apply sumR_ext. intros [x y] _. unfold specS; cbn [fst snd]. rewrite HS.
      destruct selM; [|ring]. apply (proj2 (kernO_turn1 (rcoord Q) x y)).
Qed.
(** NG as finalized (ngcorrelation.py finalize -> nzcorrelation.py:80-91), calculateXi without rg: xi and xi_im as they are *)
Definition ngOver (w x : Z -> R) : Z -> R := fun k => if Req_EM_T (w k) 0 then x k else x k / w k.
Definition ngMeanr (rnom w sumr : Z -> R) : Z -> R := fun k => if Req_EM_T (w k) 0 then rnom k else sumr k / w k.
Definition nmapOf (u : uform) (bins : list Z) (bs : R) (rnom : Z -> R) (s : accum) (a : saccum) (vx : Z -> R) (Rap : R) : R * R * R :=
  calculateNMap u bins bs (ngMeanr rnom (a_weight s) (a_meanr s)) (ngOver (a_weight s) (a SNre)) (ngOver (a_weight s) (a SNim)) vx Rap.
Theorem C83_nmap_turn Q cat1 cat2 s1 s2 a1 a2 u bins bs rnom vx Rap : exactGG Q -> posW cat1 -> posW cat2 ->
  runCross Q cat1 cat2 cleared s1 -> runCross Q cat1 (map turn45 cat2) cleared s2 ->
  runCrossS Q Spin2 cat1 cat2 scleared a1 -> runCrossS Q Spin2 cat1 (map turn45 cat2) scleared a2 ->
  let '(nmap1, nmx1, var1) := nmapOf u bins bs rnom s1 a1 vx Rap in
  let '(nmap2, nmx2, var2) := nmapOf u bins bs rnom s2 a2 vx Rap in
  nmap2 = - nmx1 /\ nmx2 = nmap1 /\ var2 = var1.
Proof.
  intros HX W1 W2 R1 R2 S1 S2. unfold nmapOf, calculateNMap.
  assert (T := sources_turn Q cat1 cat2 s1 s2 a1 a2 HX W1 W2 R1 R2 S1 S2).
  assert (Hr : forall k, ngMeanr rnom (a_weight s2) (a_meanr s2) k = ngMeanr rnom (a_weight s1) (a_meanr s1) k).
  { intro k. destruct (T k) as [W [M _]]. unfold ngMeanr. rewrite W, M. reflexivity. }
  assert (H1 : forall k, ngOver (a_weight s2) (a2 SNre) k = - ngOver (a_weight s1) (a1 SNim) k).
  { intro k. destruct (T k) as [W [_ [F _]]]. unfold ngOver. rewrite W, F. destruct Req_EM_T; unfold Rdiv; ring. }
  assert (H2 : forall k, ngOver (a_weight s2) (a2 SNim) k = ngOver (a_weight s1) (a1 SNre) k).
  { intro k. destruct (T k) as [W [_ [_ F]]]. unfold ngOver. rewrite W, F. reflexivity. }
  split; [|split].
  - rewrite Ropp_mult_distr_l. f_equal. apply dotA_opp. intro k. rewrite Hr, H1. ring.
  - f_equal. apply dotA_ext. intro k. rewrite Hr, H2. reflexivity.
  - f_equal. apply dotA_ext. intro k. rewrite Hr. reflexivity.
Qed.

(** ** Units: with Log binning (the bin size is a number) <N Map> and <Nap^2> do not depend on the unit of length;
    with Linear binning (the bin size is a length) they do, and neither function refuses it. *)
Theorem C83_nmap_units u bins bs meanr xi xii v c Rap : c <> 0 -> Rap <> 0 ->
  calculateNMap u bins bs (fun k => c * meanr k) xi xii v (c * Rap) = calculateNMap u bins bs meanr xi xii v Rap /\
  calculateNapSq u bins bs (fun k => c * meanr k) xi v (c * Rap) = calculateNapSq u bins bs meanr xi v Rap.
Proof.
  intros Hc HR.
  assert (E : forall k, 1 / (c * Rap) * (c * meanr k) = 1 / Rap * meanr k) by (intro; field; auto).
  split; unfold calculateNMap, calculateNapSq, dotA; repeat (f_equal; try (apply sumR_ext; intros k _; rewrite !E; reflexivity)).
Qed.
Example C83_nmap_units_example : (60 <> 0) /\ (1 / 2 <> 0).
Proof. lra. Qed.
Theorem C83_linear_refuted : exists u bins bs meanr xi v c Rap, 0 < c /\ 0 < Rap /\ 0 < bs /\
  fst (fst (calculateNMap u bins (c * bs) (fun k => c * meanr k) xi xi v (c * Rap))) <>
  fst (fst (calculateNMap u bins bs meanr xi xi v Rap)) /\
  fst (calculateNapSq u bins (c * bs) (fun k => c * meanr k) xi v (c * Rap)) <>
  fst (calculateNapSq u bins bs meanr xi v Rap).
Proof.
  exists Crittenden, [0%Z], 1, (fun _ => 1), (fun _ => 1), (fun _ => 0), 2, 1.
  repeat split; try lra; unfold calculateNMap, calculateNapSq, dotA, kTx, kTp; cbn [fst snd sumR];
    replace (1 / (2 * 1) * (2 * 1)) with 1 by field; replace (1 / 1 * 1) with 1 by field;
    assert (HP := exp_pos (- (1 * 1) / 4)); cbn [fold_right map]; nra.
Qed.

(** ** Concrete: two galaxies, both with shear along the line joining them *)
Definition apB : bparams := mkB BLog 1 (1 * exp (IZR 2 * 1)) 2 1 0 0.
Definition apRun : runcfg := mkR (mkC Euclidean None apB) Flat Mean BruteNo 0 10.
Definition apCat : list obj := [spObj 0 0 1 0 0; spObj (3/2) 0 1 0 1].
Lemma apB_valid : validB apB.
Proof. constructor; simpl; try lra; try lia; try discriminate. unfold edge; simpl. reflexivity. Qed.
Lemma apRun_exact : exactGG apRun.
Proof. split; [apply apB_valid|]. repeat split; reflexivity. Qed.
Lemma apCat_pos : posW apCat.
Proof. intros o [<-|[<-|[]]]; simpl; lra. Qed.
Lemma apCat_off : offMinSep apB euclid apCat.
Proof.
  intros o1 o2 HI. simpl in HI. destruct HI as [HI|[]]. injection HI; intros; subst. simpl opos.
  rewrite euclid_x. simpl. rabs.
Qed.
Example C83_turn_example : exists s1 s2 a1 a2,
  exactGG apRun /\ posW apCat /\ offMinSep (cbin (rP apRun)) euclid apCat /\
  runAuto apRun apCat cleared s1 /\ runAuto apRun (map turn45 apCat) cleared s2 /\
  runAutoS apRun Spin2 apCat scleared a1 /\ runAutoS apRun Spin2 (map turn45 apCat) scleared a2.
Proof.
  destruct (runAuto_exists apRun apCat cleared apB_valid) as [s1 H1]; [discriminate|].
  destruct (runAuto_exists apRun (map turn45 apCat) cleared apB_valid) as [s2 H2]; [discriminate|].
  destruct (runAutoS_exists apRun Spin2 apCat scleared apB_valid) as [a1 H3]; [discriminate|].
  destruct (runAutoS_exists apRun Spin2 (map turn45 apCat) scleared apB_valid) as [a2 H4]; [discriminate|].
  exists s1, s2, a1, a2. split; [apply apRun_exact|]. split; [apply apCat_pos|]. split; [apply apCat_off|]. auto.
Qed.
Example C83_cross_example : exists s1 s2 a1 a2 s3 a3,
  exactGG apRun /\ posW apCat /\
  runCross apRun apCat apCat cleared s1 /\ runCross apRun (map turn45 apCat) (map turn45 apCat) cleared s2 /\
  runCrossS apRun Spin2 apCat apCat scleared a1 /\ runCrossS apRun Spin2 (map turn45 apCat) (map turn45 apCat) scleared a2 /\
  runCross apRun apCat (map turn45 apCat) cleared s3 /\ runCrossS apRun Spin2 apCat (map turn45 apCat) scleared a3.
Proof.
  destruct (runCross_exists apRun apCat apCat cleared apB_valid) as [s1 H1]; try discriminate.
  destruct (runCross_exists apRun (map turn45 apCat) (map turn45 apCat) cleared apB_valid) as [s2 H2]; try discriminate.
  destruct (runCrossS_exists apRun Spin2 apCat apCat scleared apB_valid) as [a1 H3]; try discriminate.
  destruct (runCrossS_exists apRun Spin2 (map turn45 apCat) (map turn45 apCat) scleared apB_valid) as [a2 H4]; try discriminate.
  destruct (runCross_exists apRun apCat (map turn45 apCat) cleared apB_valid) as [s3 H5]; try discriminate.
  destruct (runCrossS_exists apRun Spin2 apCat (map turn45 apCat) scleared apB_valid) as [a3 H6]; try discriminate.
  exists s1, s2, a1, a2, s3, a3. split; [apply apRun_exact|]. split; [apply apCat_pos|]. auto 10.
Qed.
Example C83_value : exists s a, runAuto apRun apCat cleared s /\ runAutoS apRun Spin2 apCat scleared a /\
  m_map (calculateMapSq Crittenden (ggOf [0%Z] 1 (fun _ => 0) s a (fun _ => 0) (fun _ => 0)) (3/2)) = 18 / 256 * exp (- (1/4)) /\
  m_mx (calculateMapSq Crittenden (ggOf [0%Z] 1 (fun _ => 0) s a (fun _ => 0) (fun _ => 0)) (3/2)) = 16 / 256 * exp (- (1/4)).
Proof.
  destruct (runAuto_exists apRun apCat cleared apB_valid) as [s H1]; [discriminate|].
  destruct (runAutoS_exists apRun Spin2 apCat scleared apB_valid) as [a H3]; [discriminate|].
  exists s, a. split; auto. split; auto.
  destruct (C59_auto_counts apRun 0 apCat _ _ apB_valid eq_refl eq_refl eq_refl apCat_pos apCat_off H1) as [[_ [W1 _]] [M1 _]].
  assert (HO : offMinSep (cbin (rP apRun)) (mdist (cmetric (rP apRun))) apCat).
  { eapply offMinSep_ext; [|exact apCat_off]. intros. symmetry. apply mdist_euclidean. }
  assert (X1 := runAutoS_a0 apRun Spin2 SPre 0 apCat _ _ apB_valid eq_refl eq_refl eq_refl HO I (pos_nonneg _ apCat_pos) H3).
  assert (X2 := runAutoS_a0 apRun Spin2 SMre 0 apCat _ _ apB_valid eq_refl eq_refl eq_refl HO I (pos_nonneg _ apCat_pos) H3).
  assert (D : euclid (mkpos 0 0 0) (mkpos (3/2) 0 0) = 3/2) by (rewrite euclid_x; rabs).
  assert (IB : inBinb apB 0 (3/2) = true).
  { unfold inBinb, edge. cbn. rewrite !Rmult_1_l, !Rmult_1_r, exp_0. assert (HE := exp_ineq1 1).
    rewrite Rleb_t, Rltb_t by lra. reflexivity. }
  assert (SB : selM (rP apRun) 0 (spObj 0 0 1 0 0) (spObj (3/2) 0 1 0 1) = true).
  { unfold selM. cbn [apRun rP cmetric cbin crpar spObj opos]. rewrite mdist_euclidean, D, IB. reflexivity. }
  assert (K : kernO Flat Spin2 SPre (spObj 0 0 1 0 0) (spObj (3/2) 0 1 0 1) = 1 /\
              kernO Flat Spin2 SMre (spObj 0 0 1 0 0) (spObj (3/2) 0 1 0 1) = 1).
  { assert (E : expmsialpha Spin2 (projDir Flat (mkpos 0 0 0) (mkpos (3/2) 0 0)) = (1, 0)).
    { unfold expmsialpha, projDir, safeNorm, cdivr, cconj, cmul, cnorm. cbn [px py pz fst snd].
      destruct Rlt_dec as [_|N]; [|exfalso; apply N; lra]. apply cplx_eq; cbn [fst snd]; field. }
    unfold kernO, kern, project2. cbn [spObj opos ow okappa]. rewrite E. unfold owg, cmul, cscale. cbn [fst snd spObj og1 og2 ow]. lra. }
  unfold specS in X1, X2. unfold sumUPairs in W1, M1. unfold upairs, apCat in X1, X2, W1, M1.
  cbn [map app sumR fst snd] in X1, X2, W1, M1. rewrite SB in X1, X2. cbn [rcoord apRun] in X1, X2.
  rewrite (proj1 K) in X1. rewrite (proj2 K) in X2. unfold selBin in W1, M1.
  cbn [spObj opos cbin rP apRun] in W1, M1. rewrite D, IB in W1. rewrite D, IB in M1.
  unfold v_ww in W1, M1. cbn [ow cleared a_weight a_meanr] in W1, M1. unfold scleared in X1, X2.
  unfold aconst in W1, M1. cbn [ow spObj] in W1, M1.
  replace (0 + (1 * 1 + 0)) with 1 in W1 by ring. replace (0 + (1 * 1 * (3/2) + 0)) with (3/2) in M1 by ring.
  replace (0 + (1 + 0)) with 1 in X1, X2 by ring.
  unfold calculateMapSq, ggOf, finGG, dotA. cbn [m_map m_mx gg_bins gg_bs gg_meanr gg_xip gg_xim sumR fold_right map].
  rewrite W1, M1, X1, X2. destruct Req_EM_T; [lra|].
  replace (1 / (3/2) * (3/2 / 1)) with 1 by field. unfold kTp, kTm.
  replace (- (1 * 1) / 4) with (- (1/4)) by field. split; field.
Qed.
