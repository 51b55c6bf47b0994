(** C83: aperture statistics of catalogs; turning all shears by 45 degrees exchanges E and B. *)
From Coq Require Import Reals Lra List ZArith Bool.
From Verif Require Import Base Geometry Tree Traverse Run Spec SpecRun GeomFacts SumFacts TreeFacts
  BinFacts TravFacts Exact MetricFacts Cover Lift Runs PropsCount Spin SpinFacts SpecSpin PropsSpin.
From Verif Require PatchFacts PropsSphere.
From Verif Require Import SpecGGG Aper SpecAper AperFacts PropsAper.
Import ListNotations.
Open Scope R_scope.

Definition eb (f : sfield) : R := match f with SMre | SMim => -1 | _ => 1 end.
Lemma cmul_i z w : cmul (- snd z, fst z) w = (- snd (cmul z w), fst (cmul z w)).
Proof. apply cplx_eq; unfold cmul; cbn [fst snd]; ring. Qed.
Lemma kernO_turn co f o1 o2 : f = SPre \/ f = SPim \/ f = SMre \/ f = SMim ->
  kernO co Spin2 f (turn45 o1) (turn45 o2) = eb f * kernO co Spin2 f o1 o2.
Proof.
  intro Hf. unfold kernO. cbn [turn45 opos ow okappa].
  assert (E : forall o, owg (turn45 o) = (- snd (owg o), fst (owg o))).
  { intro o. unfold owg. cbn. apply cplx_eq; cbn [fst snd]; ring. }
  rewrite !E. unfold kern, project1, project2. destruct co; rewrite !cmul_i; cbn [oddSpin];
  destruct Hf as [->|[->|[->| ->]]]; cbn [eb fst snd]; ring.
Qed.

(** *** The sums of the two catalogs *)
Lemma turned_nonneg cat : nonnegW cat -> nonnegW (map turn45 cat).
Proof. intros H o Ho. apply in_map_iff in Ho as [o' [<- Ho']]. cbn. apply H; auto. Qed.
Lemma turned_pos cat : posW cat -> posW (map turn45 cat).
Proof. intros H o Ho. apply in_map_iff in Ho as [o' [<- Ho']]. cbn. apply H; auto. Qed.
Lemma pos_nonneg cat : posW cat -> nonnegW cat.
Proof. intros H o Ho. left. apply H; auto. Qed.
Lemma turned_off B d cat : offMinSep B d cat -> offMinSep B d (map turn45 cat).
Proof.
  intros H o1 o2 HI. rewrite PatchFacts.upairs_map in HI. apply in_map_iff in HI as [[p q] [E HI]].
  injection E; intros; subst. cbn. apply H; auto.
Qed.
Lemma sumUPairs_turn sel sel' v v' cat : (forall o1 o2, sel' (turn45 o1) (turn45 o2) = sel o1 o2) ->
  (forall o1 o2, v' (turn45 o1) (turn45 o2) = v o1 o2) ->
  sumUPairs sel' v' (map turn45 cat) = sumUPairs sel v cat.
Proof.
  intros Hs Hv. unfold sumUPairs. rewrite PatchFacts.upairs_map, sumR_map. apply sumR_ext.
  intros [a b] _. cbn [fst snd]. rewrite Hs, Hv. reflexivity.
Qed.
Lemma sumPairs_turn sel sel' v v' cat1 cat2 : (forall o1 o2, sel' (turn45 o1) (turn45 o2) = sel o1 o2) ->
  (forall o1 o2, v' (turn45 o1) (turn45 o2) = v o1 o2) ->
  sumPairs sel' v' (map turn45 cat1) (map turn45 cat2) = sumPairs sel v cat1 cat2.
Proof.
  intros Hs Hv. unfold sumPairs. rewrite PropsSphere.pairs_map, sumR_map. apply sumR_ext.
  intros [a b] _. cbn [fst snd]. rewrite Hs, Hv. reflexivity.
Qed.

Definition exactGG (Q : runcfg) : Prop :=
  validB (cbin (rP Q)) /\ crpar (rP Q) = None /\ cmetric (rP Q) = Euclidean /\ slop_a (cbin (rP Q)) = 0.

(** GG as finalized from the sums of a run *)
Definition ggOf (bins : list Z) (bs : R) (rnom : Z -> R) (s : accum) (a : saccum) (vp vm : Z -> R) : ggres :=
  finGG bins bs rnom (a_weight s) (a_meanr s) a vp vm.
Lemma auto_turn Q cat s1 s2 a1 a2 : exactGG Q -> posW cat -> offMinSep (cbin (rP Q)) euclid cat ->
  runAuto Q cat cleared s1 -> runAuto Q (map turn45 cat) cleared s2 ->
  runAutoS Q Spin2 cat scleared a1 -> runAutoS Q Spin2 (map turn45 cat) scleared a2 ->
  forall k, a_weight s2 k = a_weight s1 k /\ a_meanr s2 k = a_meanr s1 k /\
    forall f, f = SPre \/ f = SMre \/ f = SMim -> a2 f k = eb f * a1 f k.
Proof.
  intros [HB [Hr [HM Ha]]] Hw Hoff R1 R2 S1 S2 k.
  destruct (C59_auto_counts Q k cat _ _ HB Hr HM Ha Hw Hoff R1) as [[_ [W1 _]] [M1 _]].
  destruct (C59_auto_counts Q k _ _ _ HB Hr HM Ha (turned_pos _ Hw) (turned_off _ _ _ Hoff) R2) as [[_ [W2 _]] [M2 _]].
  split; [|split].
  - rewrite W1, W2. f_equal. apply sumUPairs_turn; reflexivity.
  - rewrite M1, M2. f_equal. apply sumUPairs_turn; reflexivity.
  - intros f Hf. assert (Hf' : symField f) by (destruct Hf as [->|[->| ->]]; exact I).
    assert (HO : forall c, offMinSep (cbin (rP Q)) euclid c -> offMinSep (cbin (rP Q)) (mdist (cmetric (rP Q))) c).
    { intros c Hc. eapply offMinSep_ext; [|exact Hc]. intros. rewrite HM. symmetry. apply mdist_euclidean. }
    rewrite (runAutoS_a0 Q Spin2 f k cat _ _ HB Hr HM Ha (HO _ Hoff) Hf' (pos_nonneg _ Hw) S1).
    rewrite (runAutoS_a0 Q Spin2 f k _ _ _ HB Hr HM Ha (HO _ (turned_off _ _ _ Hoff)) Hf' (turned_nonneg _ (pos_nonneg _ Hw)) S2).
    unfold scleared. rewrite PatchFacts.upairs_map, sumR_map, !Rplus_0_l, <- sumR_scal.
    apply sumR_ext. intros [x y] _. unfold specS; cbn [fst snd].
    assert (HS : selM (rP Q) k (turn45 x) (turn45 y) = selM (rP Q) k x y) by reflexivity.
    rewrite HS. destruct selM; [|ring]. apply kernO_turn. tauto.
Qed.
Lemma cross_turn Q cat1 cat2 s1 s2 a1 a2 : exactGG Q -> posW cat1 -> posW cat2 ->
  runCross Q cat1 cat2 cleared s1 -> runCross Q (map turn45 cat1) (map turn45 cat2) cleared s2 ->
  runCrossS Q Spin2 cat1 cat2 scleared a1 -> runCrossS Q Spin2 (map turn45 cat1) (map turn45 cat2) scleared a2 ->
  forall k, a_weight s2 k = a_weight s1 k /\ a_meanr s2 k = a_meanr s1 k /\
    forall f, f = SPre \/ f = SPim \/ f = SMre \/ f = SMim -> a2 f k = eb f * a1 f k.
Proof.
  intros [HB [Hr [HM Ha]]] Hw1 Hw2 R1 R2 S1 S2 k.
  destruct (C59_cross_counts Q k cat1 cat2 _ _ HB Hr HM Ha Hw1 Hw2 R1) as [[_ [W1 _]] [M1 _]].
  destruct (C59_cross_counts Q k _ _ _ _ HB Hr HM Ha (turned_pos _ Hw1) (turned_pos _ Hw2) R2) as [[_ [W2 _]] [M2 _]].
  split; [|split].
  - rewrite W1, W2. f_equal. apply sumPairs_turn; reflexivity.
  - rewrite M1, M2. f_equal. apply sumPairs_turn; reflexivity.
  - intros f Hf.
    rewrite (runCrossS_a0 Q Spin2 f k _ _ _ _ HB Hr HM Ha (pos_nonneg _ Hw1) (pos_nonneg _ Hw2) S1).
    rewrite (runCrossS_a0 Q Spin2 f k _ _ _ _ HB Hr HM Ha (turned_nonneg _ (pos_nonneg _ Hw1)) (turned_nonneg _ (pos_nonneg _ Hw2)) S2).
    unfold scleared. rewrite PropsSphere.pairs_map, sumR_map, !Rplus_0_l, <- sumR_scal.
    apply sumR_ext. intros [x y] _. unfold specS; cbn [fst snd].
    assert (HS : selM (rP Q) k (turn45 x) (turn45 y) = selM (rP Q) k x y) by reflexivity.
    rewrite HS. destruct selM; [|ring]. apply kernO_turn. tauto.
Qed.

Lemma dotA_ext bins r x r' x' : (forall k, r k * x k = r' k * x' k) -> dotA bins r x = dotA bins r' x'.
Proof. intro H. apply sumR_ext. intros; apply H. Qed.
Lemma dotA_opp bins r x r' x' : (forall k, r k * x k = - (r' k * x' k)) -> dotA bins r x = - dotA bins r' x'.
Proof.
  intro H. unfold dotA. rewrite (sumR_ext _ (fun k => (-1) * (r' k * x' k))) by (intros; rewrite H; ring).
  rewrite sumR_scal. ring.
Qed.

(** Turning all shears by 45 degrees exchanges Map^2 and Mx^2, and the E and B part of the tophat variance. *)
Theorem C83_auto_eb Q cat s1 s2 a1 a2 u bins bs rnom vp vm Rap :
  exactGG Q -> posW cat -> offMinSep (cbin (rP Q)) euclid cat ->
  runAuto Q cat cleared s1 -> runAuto Q (map turn45 cat) cleared s2 ->
  runAutoS Q Spin2 cat scleared a1 -> runAutoS Q Spin2 (map turn45 cat) scleared a2 ->
  let g1 := ggOf bins bs rnom s1 a1 vp vm in let g2 := ggOf bins bs rnom s2 a2 vp vm in
  m_map (calculateMapSq u g2 Rap) = m_mx (calculateMapSq u g1 Rap) /\
  m_mx (calculateMapSq u g2 Rap) = m_map (calculateMapSq u g1 Rap) /\
  m_var (calculateMapSq u g2 Rap) = m_var (calculateMapSq u g1 Rap) /\
  g_sq (calculateGamSq g2 Rap) = g_sq (calculateGamSq g1 Rap) /\
  g_e (calculateGamSq g2 Rap) = g_b (calculateGamSq g1 Rap) /\
  g_b (calculateGamSq g2 Rap) = g_e (calculateGamSq g1 Rap).
Proof.
  intros HX Hw Hoff R1 R2 S1 S2 g1 g2.
  assert (T := auto_turn Q cat s1 s2 a1 a2 HX Hw Hoff R1 R2 S1 S2).
  assert (Hr : forall k, gg_meanr g2 k = gg_meanr g1 k).
  { intro k. destruct (T k) as [W [M _]]. unfold g1, g2, ggOf, finGG. cbn [gg_meanr]. rewrite W, M. reflexivity. }
  assert (Hp : forall k, gg_xip g2 k = gg_xip g1 k).
  { intro k. destruct (T k) as [W [_ F]]. unfold g1, g2, ggOf, finGG. cbn [gg_xip]. rewrite W, (F SPre) by auto. cbn [eb]. rewrite Rmult_1_l. reflexivity. }
  assert (Hm : forall k, gg_xim g2 k = - gg_xim g1 k).
  { intro k. destruct (T k) as [W [_ F]]. unfold g1, g2, ggOf, finGG. cbn [gg_xim]. rewrite W, (F SMre) by auto. cbn [eb].
    destruct Req_EM_T; unfold Rdiv; ring. }
  assert (Ep : forall Kf, dotA bins (fun k => Kf (1 / Rap * gg_meanr g2 k)) (gg_xip g2) =
    dotA bins (fun k => Kf (1 / Rap * gg_meanr g1 k)) (gg_xip g1)).
  { intro Kf. apply dotA_ext. intro k. rewrite Hr, Hp. reflexivity. }
  assert (Em : forall Kf, dotA bins (fun k => Kf (1 / Rap * gg_meanr g2 k)) (gg_xim g2) =
    - dotA bins (fun k => Kf (1 / Rap * gg_meanr g1 k)) (gg_xim g1)).
  { intro Kf. apply dotA_opp. intro k. rewrite Hr, Hm. ring. }
  assert (Ev : forall Kf v, dotA bins (fun k => Kf (1 / Rap * gg_meanr g2 k)) v =
    dotA bins (fun k => Kf (1 / Rap * gg_meanr g1 k)) v).
  { intros Kf v. apply dotA_ext. intro k. rewrite Hr. reflexivity. }
  assert (P1 := Ep (fun s => kTp u s * (s * s))). assert (P2 := Em (fun s => kTm u s * (s * s))).
  assert (P3 := Ep kSp). assert (P4 := Em kSm).
  assert (V1 := Ev (fun s => (kTp u s * (s * s)) ^ 2) vp). assert (V2 := Ev (fun s => (kTm u s * (s * s)) ^ 2) vm).
  cbv beta in *. unfold calculateMapSq, calculateGamSq. cbn [m_map m_mx m_var g_sq g_e g_b].
  change (gg_bins g2) with bins. change (gg_bins g1) with bins. change (gg_bs g2) with bs. change (gg_bs g1) with bs.
  change (gg_varp g2) with vp. change (gg_varm g2) with vm. change (gg_varp g1) with vp. change (gg_varm g1) with vm.
  rewrite P1, P2, P3, P4, V1, V2. repeat split; ring.
Qed.
(** Two catalogs: also the imaginary parts. *)
Theorem C83_cross_eb Q cat1 cat2 s1 s2 a1 a2 u bins bs rnom vp vm Rap :
  exactGG Q -> posW cat1 -> posW cat2 ->
  runCross Q cat1 cat2 cleared s1 -> runCross Q (map turn45 cat1) (map turn45 cat2) cleared s2 ->
  runCrossS Q Spin2 cat1 cat2 scleared a1 -> runCrossS Q Spin2 (map turn45 cat1) (map turn45 cat2) scleared a2 ->
  let m1 := calculateMapSq u (ggOf bins bs rnom s1 a1 vp vm) Rap in
  let m2 := calculateMapSq u (ggOf bins bs rnom s2 a2 vp vm) Rap in
  m_map m2 = m_mx m1 /\ m_mx m2 = m_map m1 /\ m_mapi m2 = m_mxi m1 /\ m_mxi m2 = m_mapi m1 /\ m_var m2 = m_var m1.
Proof.
  intros HX Hw1 Hw2 R1 R2 S1 S2. set (g1 := ggOf bins bs rnom s1 a1 vp vm). set (g2 := ggOf bins bs rnom s2 a2 vp vm).
  assert (T := cross_turn Q cat1 cat2 s1 s2 a1 a2 HX Hw1 Hw2 R1 R2 S1 S2).
  assert (Hr : forall k, gg_meanr g2 k = gg_meanr g1 k).
  { intro k. destruct (T k) as [W [M _]]. unfold g1, g2, ggOf, finGG. cbn [gg_meanr]. rewrite W, M. reflexivity. }
  assert (Hx : forall k, gg_xip g2 k = gg_xip g1 k /\ gg_xipi g2 k = gg_xipi g1 k /\
     gg_xim g2 k = - gg_xim g1 k /\ gg_ximi g2 k = - gg_ximi g1 k).
  { intro k. destruct (T k) as [W [_ F]]. unfold g1, g2, ggOf, finGG. cbn [gg_xip gg_xim gg_xipi gg_ximi].
    rewrite W, (F SPre), (F SPim), (F SMre), (F SMim) by auto. cbn [eb]. destruct Req_EM_T; unfold Rdiv; repeat split; ring. }
  assert (Ep : forall Kf, dotA bins (fun k => Kf (1 / Rap * gg_meanr g2 k)) (gg_xip g2) =
    dotA bins (fun k => Kf (1 / Rap * gg_meanr g1 k)) (gg_xip g1)).
  { intro Kf. apply dotA_ext. intro k. rewrite Hr. destruct (Hx k) as [-> _]. reflexivity. }
  assert (Epi : forall Kf, dotA bins (fun k => Kf (1 / Rap * gg_meanr g2 k)) (gg_xipi g2) =
    dotA bins (fun k => Kf (1 / Rap * gg_meanr g1 k)) (gg_xipi g1)).
  { intro Kf. apply dotA_ext. intro k. rewrite Hr. destruct (Hx k) as [_ [-> _]]. reflexivity. }
  assert (Em : forall Kf, dotA bins (fun k => Kf (1 / Rap * gg_meanr g2 k)) (gg_xim g2) =
    - dotA bins (fun k => Kf (1 / Rap * gg_meanr g1 k)) (gg_xim g1)).
  { intro Kf. apply dotA_opp. intro k. rewrite Hr. destruct (Hx k) as [_ [_ [-> _]]]. ring. }
  assert (Emi : forall Kf, dotA bins (fun k => Kf (1 / Rap * gg_meanr g2 k)) (gg_ximi g2) =
    - dotA bins (fun k => Kf (1 / Rap * gg_meanr g1 k)) (gg_ximi g1)).
  { intro Kf. apply dotA_opp. intro k. rewrite Hr. destruct (Hx k) as [_ [_ [_ ->]]]. ring. }
  assert (Ev : forall Kf v, dotA bins (fun k => Kf (1 / Rap * gg_meanr g2 k)) v =
    dotA bins (fun k => Kf (1 / Rap * gg_meanr g1 k)) v).
  { intros Kf v. apply dotA_ext. intro k. rewrite Hr. reflexivity. }
  assert (P1 := Ep (fun s => kTp u s * (s * s))). assert (P2 := Em (fun s => kTm u s * (s * s))).
  assert (P3 := Epi (fun s => kTp u s * (s * s))). assert (P4 := Emi (fun s => kTm u s * (s * s))).
  assert (V1 := Ev (fun s => (kTp u s * (s * s)) ^ 2) vp). assert (V2 := Ev (fun s => (kTm u s * (s * s)) ^ 2) vm).
  cbv beta in *. unfold calculateMapSq. cbn [m_map m_mx m_var m_mapi m_mxi].
  change (gg_bins g2) with bins. change (gg_bins g1) with bins. change (gg_bs g2) with bs. change (gg_bs g1) with bs.
  change (gg_varp g2) with vp. change (gg_varm g2) with vm. change (gg_varp g1) with vp. change (gg_varm g1) with vm.
  rewrite P1, P2, P3, P4, V1, V2. repeat split; ring.
Qed.

(** The statistics are the discretised integrals over s = r/R, with ds/s = bin_size. *)
Definition integrandSum (g : ggres) (Rap : R) (F : R -> Z -> R) : R :=
  sumR (fun k => let s := gg_meanr g k / Rap in s * F s k * (s * gg_bs g)) (gg_bins g).
Theorem C83_integral_sums u g Rap : Rap <> 0 ->
  m_map (calculateMapSq u g Rap) = integrandSum g Rap (fun s k => (kTp u s * gg_xip g k + kTm u s * gg_xim g k) / 2) /\
  m_mx (calculateMapSq u g Rap) = integrandSum g Rap (fun s k => (kTp u s * gg_xip g k - kTm u s * gg_xim g k) / 2).
Proof.
  intro HR. unfold calculateMapSq, integrandSum, dotA. cbn [m_map m_mx]. cbv zeta.
  assert (E : forall k, 1 / Rap * gg_meanr g k = gg_meanr g k / Rap) by (intro; field; auto).
  split; [rewrite <- sumR_plus|rewrite <- sumR_minus]; rewrite Rmult_assoc, <- sumR_scal_r; apply sumR_ext; intros k _; rewrite !E; field; auto.
Qed.
(** ... and do not depend on the unit of length. *)
Definition rescaled (c : R) (g : ggres) : ggres :=
  mkGG (gg_bins g) (gg_bs g) (fun k => c * gg_meanr g k) (gg_xip g) (gg_xipi g) (gg_xim g) (gg_ximi g) (gg_varp g) (gg_varm g).
Theorem C83_units u g c Rap : c <> 0 -> Rap <> 0 ->
  calculateMapSq u (rescaled c g) (c * Rap) = calculateMapSq u g Rap /\
  calculateGamSq (rescaled c g) (c * Rap) = calculateGamSq g Rap.
Proof.
  intros Hc HR.
  assert (E : forall k, 1 / (c * Rap) * (c * gg_meanr g k) = 1 / Rap * gg_meanr g k) by (intro; field; auto).
  split; unfold calculateMapSq, calculateGamSq, rescaled, dotA; cbn; f_equal; repeat (f_equal; try (apply sumR_ext; intros k _; rewrite !E; reflexivity)).
Qed.
