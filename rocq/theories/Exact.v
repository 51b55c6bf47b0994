(** From tests on cells to statements about pairs of objects. *)
From Coq Require Import Reals Lra Lia List ZArith Bool Permutation Psatz.
From Verif Require Import Base Geometry Tree Traverse Spec GeomFacts SumFacts TreeFacts BinFacts TravFacts.
Import ListNotations.
Open Scope R_scope.

Definition effSum (P : cparams) (c1 c2 : cell) : ext :=
  let '(e1, e2) := effSize (cmetric P) (getPos c1) (getPos c2) (getSize c1) (getSize c2) in
  eadd e1 e2.

(** The pair (o1,o2) may be treated with the sizes of the cells (up to slack e). *)
Definition pairOK (P : cparams) (e : R) (c1 c2 : cell) : Prop :=
  forall x o1 o2, effSum P c1 c2 = Fin x -> In o1 (objs c1) -> In o2 (objs c2) ->
    Rabs (mdist (cmetric P) (opos o1) (opos o2) - mdist (cmetric P) (getPos c1) (getPos c2)) <= x + e
    /\ (crpar P <> None ->
        forall x', rparSize (cmetric P) (getPos c1) (getPos c2) (Fin x) = Fin x' ->
        Rabs (calculateRPar (cmetric P) (opos o1) (opos o2)
              - calculateRPar (cmetric P) (getPos c1) (getPos c2)) <= x').

(** rpar of a pair within the limits *)
Definition rparIn (M : metric) (lim : rparlim) (p1 p2 : pos) : Prop :=
  match lim with None => True | Some (lo, hi) => lo <= calculateRPar M p1 p2 <= hi end.
Definition rparInb (M : metric) (lim : rparlim) (p1 p2 : pos) : bool :=
  match lim with None => true
  | Some (lo, hi) => Rleb lo (calculateRPar M p1 p2) && Rleb (calculateRPar M p1 p2) hi end.
Lemma rparInb_true M lim p1 p2 : rparInb M lim p1 p2 = true <-> rparIn M lim p1 p2.
Proof.
  destruct lim as [[lo hi]|]; simpl; [|tauto]. rewrite andb_true_iff, !Rleb_true. tauto.
Qed.

(** The selection of pairs made by the program, as a specification. *)
Definition selM (P : cparams) (k : Z) (o1 o2 : obj) : bool :=
  inBinb (cbin P) k (mdist (cmetric P) (opos o1) (opos o2))
  && rparInb (cmetric P) (crpar P) (opos o1) (opos o2).

Lemma mdist_nonneg M p q : 0 <= mdist M p q.
Proof. apply sqrt_pos. Qed.

Lemma effSum_nonneg P m c1 c2 x : okcell m c1 -> okcell m c2 -> effSum P c1 c2 = Fin x -> 0 <= x.
Proof.
  intros O1 O2 H. unfold effSum in H.
  destruct (effSize _ _ _ (getSize c1) (getSize c2)) as [e1 e2] eqn:EE.
  destruct (effSize_facts _ _ _ _ _ _ _ (size_nonneg _ _ O1) (size_nonneg _ _ O2) EE)
    as [E1 [E2 _]].
  destruct e1, e2; simpl in *; try discriminate. injection H; intros; lra.
Qed.

Lemma rparSize_fin M p1 p2 x : exists x', rparSize M p1 p2 (Fin x) = Fin x'.
Proof. destruct M; simpl; eauto. Qed.

(** Unfolding of decide11 in terms of effSum. *)
Lemma decide_cases P c1 c2 :
  let B := cbin P in let M := cmetric P in
  let p1 := getPos c1 in let p2 := getPos c2 in
  let rsq := distSq M p1 p2 in let s := effSum P c1 c2 in
  (decide11 P c1 c2 = Drop /\
     (getW c1 = 0 \/ getW c2 = 0 \/ isRParOutsideRange M (crpar P) p1 p2 s = true \/
      tooSmallDist B rsq s = true \/ tooLargeDist B rsq s = true \/
      (isRParInsideRange M (crpar P) p1 p2 s = true /\
       (exists k r lr, singleBin B rsq s p1 p2 = Some (k, r, lr)) /\
       isRSqInRange B rsq p1 p2 = false))) \/
  (exists k r lr, decide11 P c1 c2 = Direct rsq k r lr /\ getW c1 <> 0 /\ getW c2 <> 0 /\
     isRParInsideRange M (crpar P) p1 p2 s = true /\
     singleBin B rsq s p1 p2 = Some (k, r, lr) /\ isRSqInRange B rsq p1 p2 = true) \/
  (exists a b, decide11 P c1 c2 = Split a b).
Proof.
  intros B M p1 p2 rsq s. unfold decide11, s, effSum. fold p1 p2 B M rsq.
  destruct (Req_EM_T (getW c1) 0); [left; auto|].
  destruct (Req_EM_T (getW c2) 0); [left; auto|].
  destruct (effSize M p1 p2 (getSize c1) (getSize c2)) as [e1 e2].
  destruct (isRParOutsideRange M (crpar P) p1 p2 (eadd e1 e2)) eqn:EO; [left; auto 6|].
  destruct (tooSmallDist B rsq (eadd e1 e2)) eqn:ES; simpl;
  [destruct (tooSmallM _ _ _ _ _ _); [left; auto 6|]|];
  (destruct (tooLargeDist B rsq (eadd e1 e2)) eqn:EL; simpl;
   [destruct (tooLargeM _ _ _ _ _ _); [left; auto 7|]|]);
  (destruct (isRParInsideRange M (crpar P) p1 p2 (eadd e1 e2)) eqn:EI;
   [destruct (singleBin B rsq (eadd e1 e2) p1 p2) as [[[k r] lr]|] eqn:EB;
    [destruct (isRSqInRange B rsq p1 p2) eqn:ER;
     [right; left; exists k, r, lr; auto 7|
      left; split; auto; do 5 right; repeat split; eauto]|]|]);
  destruct (calcSplitSq e1 e2 (getEffectiveBSq B rsq)) as [a b]; right; right; eauto.
Qed.

Lemma rpar_outside_sound M lim p1 p2 x q1 q2 :
  isRParOutsideRange M lim p1 p2 (Fin x) = true ->
  (forall x', rparSize M p1 p2 (Fin x) = Fin x' ->
     Rabs (calculateRPar M q1 q2 - calculateRPar M p1 p2) <= x') ->
  ~ rparIn M lim q1 q2.
Proof.
  intros H HL. destruct (rparSize_fin M p1 p2 x) as [x' Hx']. specialize (HL _ Hx').
  apply Rabs_bounds in HL.
  unfold isRParOutsideRange, rparIn in *. destruct lim as [[lo hi]|]; [|discriminate].
  rewrite Hx' in H. destruct Rlt_dec; [lra|]. destruct Rlt_dec; [lra|discriminate].
Qed.
Lemma rpar_inside_sound M lim p1 p2 x q1 q2 :
  isRParInsideRange M lim p1 p2 (Fin x) = true ->
  (lim <> None -> forall x', rparSize M p1 p2 (Fin x) = Fin x' ->
     Rabs (calculateRPar M q1 q2 - calculateRPar M p1 p2) <= x') ->
  rparIn M lim q1 q2.
Proof.
  intros H HL. destruct (rparSize_fin M p1 p2 x) as [x' Hx'].
  unfold isRParInsideRange, rparIn in *. destruct lim as [[lo hi]|]; [|auto].
  specialize (HL ltac:(discriminate) _ Hx'). apply Rabs_bounds in HL.
  rewrite Hx' in H. destruct Rlt_dec; [discriminate|]. destruct Rlt_dec; [discriminate|]. lra.
Qed.

Lemma clamp r x e d : 0 <= r -> 0 <= x -> 0 <= e -> 0 <= d -> Rabs (d - r) <= x + e ->
  exists d0, 0 <= d0 /\ Rabs (d0 - r) <= x /\ Rabs (d - d0) <= e.
Proof.
  intros Hr Hx He Hd H. apply Rabs_bounds in H.
  destruct (Rlt_dec (r + x) d); [|destruct (Rlt_dec d (r - x))].
  - exists (r + x). repeat split; try lra; apply Rabs_le; lra.
  - exists (r - x). repeat split; try lra; apply Rabs_le; lra.
  - exists d. repeat split; try lra; apply Rabs_le; lra.
Qed.

(** The bin index of the event produced for a Direct verdict. *)
Lemma direct_event P rev c1 c2 k r lr :
  let B := cbin P in
  let rsq := distSq (cmetric P) (getPos c1) (getPos c2) in
  validB B -> minsep B <= sqrt rsq < maxsep B ->
  singleBin B rsq (effSum P c1 c2) (getPos c1) (getPos c2) = Some (k, r, lr) ->
  (btype B = BLog -> 0 < sqrt rsq) ->
  let e := directProcess11 P rev c1 c2 rsq k r lr in
  ek e = kFinal B rsq k /\ inBin B (ek e) (sqrt rsq) /\ er e = sqrt rsq /\
  elogr e = ln (sqrt rsq) /\ ec1 e = c1 /\ ec2 e = c2 /\ (rev = false -> ek2 e = None).
Proof.
  intros B rsq HB Hr Hs Hpos e.
  assert (HT : inBin B (trunc (kkOf B (sqrt rsq))) (sqrt rsq)) by (apply trunc_kk_bin; auto).
  pose proof (distSq_nonneg (cmetric P) (getPos c1) (getPos c2)) as Hrsq. fold rsq in Hrsq.
  assert (Hk : (k = (-1)%Z) \/ (k = trunc (kkOf B (sqrt rsq)) /\ r = sqrt rsq /\ lr = ln (sqrt rsq))).
  { fold B rsq in Hs. destruct (effSum P c1 c2) as [x|]; [|discriminate].
    unfold singleBin in Hs. pose proof (vb_not2d B HB).
    destruct (btype B) eqn:E; [| |congruence].
    - destruct (Req_EM_T x 0); [left; congruence|].
      destruct Rlt_dec; [discriminate|]. destruct Rle_dec; [left; congruence|].
      destruct Rlt_dec; [discriminate|].
      rewrite half_ln in Hs.
      2:{ specialize (Hpos eq_refl). destruct Hrsq as [|Hz]; auto.
          rewrite <- Hz, sqrt_0 in Hpos. lra. }
      destruct Rlt_dec; [discriminate|]. destruct Rlt_dec; [discriminate|].
      right. unfold kkOf. rewrite E. injection Hs; intros; subst; auto.
    - destruct Rlt_dec; [discriminate|]. destruct Rle_dec; [left; congruence|].
      destruct Rlt_dec; [discriminate|].
      destruct Rlt_dec; [discriminate|].
      right. unfold kkOf. rewrite E. injection Hs; intros; subst; auto. }
  assert (Hdec : (trunc (kkOf B (sqrt rsq)) =? nbins B)%Z = false).
  { destruct HT as [[_ HT] _]. apply Z.eqb_neq. lia. }
  unfold e, directProcess11, kFinal. fold B. fold rsq.
  destruct Hk as [->|[-> [-> ->]]].
  - change (-1 <? 0)%Z with true. cbv beta iota zeta.
    rewrite (calculateBinK_kk B _ _ _ HB). rewrite Hdec. simpl.
    repeat split; auto; try apply HT. intros ->; auto.
  - destruct HT as [[HT1 HT2] HT3]. destruct (Z.ltb_spec (trunc (kkOf B (sqrt rsq))) 0); [lia|].
    cbv beta iota zeta. rewrite Hdec. simpl. repeat split; auto; try apply HT3. intros ->; auto.
Qed.

(** *** Slop bounds for single verdicts (any b) *)
Lemma drop_slop P e m c1 c2 o1 o2 :
  validB (cbin P) -> narrowLog (cbin P) -> 0 <= e -> okcell m c1 -> okcell m c2 ->
  pairOK P e c1 c2 -> decide11 P c1 c2 = Drop -> getW c1 <> 0 -> getW c2 <> 0 ->
  In o1 (objs c1) -> In o2 (objs c2) ->
  let d := mdist (cmetric P) (opos o1) (opos o2) in
  ~ rparIn (cmetric P) (crpar P) (opos o1) (opos o2) \/
  d < slopHi (cbin P) (minsep (cbin P)) + e \/ slopLo (cbin P) (maxsep (cbin P)) - e <= d.
Proof.
  intros HB HN He O1 O2 HP HD W1 W2 I1 I2 d.
  pose proof (mdist_nonneg (cmetric P) (opos o1) (opos o2)) as Hd0. fold d in Hd0.
  pose proof (distSq_nonneg (cmetric P) (getPos c1) (getPos c2)) as Hrsq.
  assert (Hhi : minsep (cbin P) <= slopHi (cbin P) (minsep (cbin P))).
  { unfold slopHi. pose proof (vb_b _ HB). pose proof (minsep_nonneg _ HB).
    destruct (btype (cbin P)); try lra.
    pose proof (exp_ge_1x (slop_b (cbin P))). nra. }
  assert (Hlo : slopLo (cbin P) (maxsep (cbin P)) <= maxsep (cbin P)).
  { unfold slopLo. pose proof (vb_b _ HB). pose proof (maxsep_pos _ HB).
    destruct (btype (cbin P)); nra. }
  destruct (decide_cases P c1 c2) as [[_ HC]|[[k [r [lr [HC _]]]]|[a [b HC]]]];
    try (rewrite HC in HD; discriminate).
  destruct (effSum P c1 c2) as [x|] eqn:ES.
  2:{ simpl in HC. destruct HC as [?|[?|[HC|[HC|[HC|[_ [[k [r [lr HC]]] _]]]]]]]; try contradiction; try discriminate.
      unfold isRParOutsideRange in HC. destruct (crpar P) as [[lo hi]|]; try discriminate.
      destruct (cmetric P); discriminate. }
  pose proof (effSum_nonneg P m c1 c2 x O1 O2 ES) as Hx.
  destruct (HP x o1 o2 ES I1 I2) as [HL HR]. fold d in HL.
  unfold mdist at 1 in HL. change (sqrt (distSq _ (opos o1) (opos o2))) with d in HL.
  destruct HC as [?|[?|[HC|[HC|[HC|[Hin [[k [r [lr HC]]] HRg]]]]]]]; try contradiction.
  - left. eapply rpar_outside_sound; eauto. apply HR. intro Hz; rewrite Hz in HC; discriminate.
  - right; left. apply tooSmall_sound in HC; auto. apply Rabs_bounds in HL. unfold mdist in HL. lra.
  - right; right. apply tooLarge_sound in HC; auto. apply Rabs_bounds in HL. unfold mdist in HL. lra.
  - right.
    destruct (clamp (mdist (cmetric P) (getPos c1) (getPos c2)) x e d) as [d0 [Hd1 [Hd2 Hd3]]]; auto.
    { apply mdist_nonneg. }
    unfold mdist in Hd2.
    destruct (singleBin_sound _ _ _ _ _ _ _ _ d0 HB HN Hrsq Hx HC Hd2 Hd1) as [_ [Hs1 Hs2]].
    apply Rabs_bounds in Hd3.
    destruct (Rlt_le_dec (sqrt (distSq (cmetric P) (getPos c1) (getPos c2))) (minsep (cbin P))).
    + left. specialize (Hs1 r0). lra.
    + right. assert (maxsep (cbin P) <= sqrt (distSq (cmetric P) (getPos c1) (getPos c2))).
      { apply Rnot_lt_le. intro Hlt. assert (HT := isRSqInRange_iff (cbin P) _ (getPos c1) (getPos c2) HB Hrsq).
        rewrite HRg in HT. destruct HT as [_ HT]. discriminate HT. lra. }
      specialize (Hs2 H). lra.
Qed.

Lemma direct_slop P rev e m c1 c2 rsq k r lr o1 o2 :
  validB (cbin P) -> narrowLog (cbin P) -> 0 <= e -> okcell m c1 -> okcell m c2 ->
  pairOK P e c1 c2 -> decide11 P c1 c2 = Direct rsq k r lr ->
  In o1 (objs c1) -> In o2 (objs c2) ->
  let d := mdist (cmetric P) (opos o1) (opos o2) in
  let K := ek (directProcess11 P rev c1 c2 rsq k r lr) in
  (0 <= K < nbins (cbin P))%Z /\
  slopLo (cbin P) (edge (cbin P) K) - e <= d /\
  d <= slopHi (cbin P) (edge (cbin P) (K + 1)) + e /\
  (btype (cbin P) = BLog -> d < slopHi (cbin P) (edge (cbin P) (K + 1)) + e) /\
  rparIn (cmetric P) (crpar P) (opos o1) (opos o2).
Proof.
  intros HB HN He O1 O2 HP HD I1 I2 d K.
  pose proof (mdist_nonneg (cmetric P) (opos o1) (opos o2)) as Hd0. fold d in Hd0.
  pose proof (distSq_nonneg (cmetric P) (getPos c1) (getPos c2)) as Hrsq.
  destruct (decide_cases P c1 c2) as [[HC _]|[[k' [r' [lr' [HC [W1 [W2 [Hin [HS HRg]]]]]]]]|[a [b HC]]]];
    try (rewrite HC in HD; discriminate).
  rewrite HC in HD. injection HD; intros; subst rsq k' r' lr'. clear HC HD.
  apply isRSqInRange_iff in HRg; auto.
  destruct (effSum P c1 c2) as [x|] eqn:ES; [|discriminate].
  pose proof (effSum_nonneg P m c1 c2 x O1 O2 ES) as Hx.
  destruct (HP x o1 o2 ES I1 I2) as [HL HR]. fold d in HL.
  destruct (clamp (mdist (cmetric P) (getPos c1) (getPos c2)) x e d) as [d0 [Hd1 [Hd2 Hd3]]]; auto.
  { apply mdist_nonneg. }
  unfold mdist in Hd2.
  destruct (singleBin_sound _ _ _ _ _ _ _ _ d0 HB HN Hrsq Hx HS Hd2 Hd1) as [Hs1 _].
  specialize (Hs1 HRg). destruct Hs1 as [HI [Hs1 Hs2]].
  assert (Hpos : btype (cbin P) = BLog -> 0 < sqrt (distSq (cmetric P) (getPos c1) (getPos c2))).
  { intro HT. pose proof (vb_minsep _ HB) as Hm. rewrite HT in Hm. lra. }
  rewrite <- ES in HS.
  destruct (direct_event P rev c1 c2 k r lr HB HRg HS Hpos) as [HK _].
  fold K in HK. rewrite <- HK in HI, Hs1, Hs2.
  apply Rabs_bounds in Hd3.
  split; [apply HI|].
  destruct (btype (cbin P)) eqn:E; (repeat split; try lra; try discriminate;
    eapply rpar_inside_sound; eauto).
Qed.

(** *** Exactness of single verdicts *)
Definition single (P : cparams) (c1 c2 : cell) : Prop :=
  exists kr, singleBin (cbin P) (distSq (cmetric P) (getPos c1) (getPos c2)) (effSum P c1 c2)
    (getPos c1) (getPos c2) = Some kr.
Definition exactCond (P : cparams) (c1 c2 : cell) : Prop :=
  forall x o1 o2, effSum P c1 c2 = Fin x -> single P c1 c2 -> In o1 (objs c1) -> In o2 (objs c2) ->
    x = 0 \/
    (slop_b (cbin P) = 0 /\ narrowLog (cbin P) /\
     (btype (cbin P) = BLinear ->
      forall j, (1 <= j <= nbins (cbin P))%Z -> mdist (cmetric P) (opos o1) (opos o2) <> edge (cbin P) j)).

Lemma drop_exact P m c1 c2 o1 o2 k :
  validB (cbin P) -> okcell m c1 -> okcell m c2 -> pairOK P 0 c1 c2 -> exactCond P c1 c2 ->
  decide11 P c1 c2 = Drop -> getW c1 <> 0 -> getW c2 <> 0 ->
  In o1 (objs c1) -> In o2 (objs c2) -> selM P k o1 o2 = false.
Proof.
  intros HB O1 O2 HP HE HD W1 W2 I1 I2.
  destruct (selM P k o1 o2) eqn:Esel; auto. exfalso.
  unfold selM in Esel. rewrite andb_true_iff, inBinb_true, rparInb_true in Esel.
  destruct Esel as [Hbin Hrp]. apply inBin_range in Hbin; auto.
  set (d := mdist (cmetric P) (opos o1) (opos o2)) in *.
  pose proof (distSq_nonneg (cmetric P) (getPos c1) (getPos c2)) as Hrsq.
  destruct (effSum P c1 c2) as [x|] eqn:ES.
  2:{ destruct (decide_cases P c1 c2) as [[_ HC]|[[k' [r [lr [HC _]]]]|[a [b HC]]]];
        try (rewrite HC in HD; discriminate).
      rewrite ES in HC. simpl in HC.
      destruct HC as [?|[?|[HC|[HC|[HC|[_ [[k' [r [lr HC]]] _]]]]]]]; try contradiction; try discriminate.
      unfold isRParOutsideRange in HC. destruct (crpar P) as [[lo hi]|]; try discriminate.
      destruct (cmetric P); discriminate. }
  pose proof (effSum_nonneg P m c1 c2 x O1 O2 ES) as Hx.
  destruct (HP x o1 o2 ES I1 I2) as [HL HR]. apply Rabs_bounds in HL. fold d in HL.
  destruct (decide_cases P c1 c2) as [[_ HC]|[[k' [r [lr [HC _]]]]|[a [b HC]]]];
    try (rewrite HC in HD; discriminate).
  assert (HC0 := HC). rewrite ES in HC.
  destruct HC as [?|[?|[HC|[HC|[HC|[_ [[k' [r [lr HS]]] HC]]]]]]]; try contradiction.
  - eapply rpar_outside_sound in HC; eauto. apply HR. intro Hz; rewrite Hz in HC; discriminate.
  - apply tooSmall_sound in HC; auto. unfold mdist in HL. lra.
  - apply tooLarge_sound in HC; auto. unfold mdist in HL. lra.
  - destruct (HE x o1 o2 ES) as [Hx0|[Hb0 [HN _]]]; auto.
    { eexists. rewrite ES. exact HS. }
    + subst x. assert (Hd : mdist (cmetric P) (getPos c1) (getPos c2) = d) by lra.
      unfold mdist in Hd.
      assert (HT := isRSqInRange_iff (cbin P) _ (getPos c1) (getPos c2) HB Hrsq).
      rewrite HC in HT. destruct HT as [_ HT]. discriminate HT. lra.
    + destruct (drop_slop P 0 m c1 c2 o1 o2 HB HN ltac:(lra) O1 O2 HP HD W1 W2 I1 I2) as [?|HC']; [auto|].
      fold d in HC'. unfold slopHi, slopLo in HC'. rewrite Hb0, exp_0 in HC'.
      destruct (btype (cbin P)); lra.
Qed.

Lemma direct_exact P rev m c1 c2 rsq k r lr o1 o2 K :
  validB (cbin P) -> okcell m c1 -> okcell m c2 -> pairOK P 0 c1 c2 -> exactCond P c1 c2 ->
  decide11 P c1 c2 = Direct rsq k r lr ->
  In o1 (objs c1) -> In o2 (objs c2) ->
  selM P K o1 o2 = (K =? ek (directProcess11 P rev c1 c2 rsq k r lr))%Z.
Proof.
  intros HB O1 O2 HP HE HD I1 I2.
  set (K0 := ek (directProcess11 P rev c1 c2 rsq k r lr)).
  set (d := mdist (cmetric P) (opos o1) (opos o2)).
  assert (HH : inBin (cbin P) K0 d /\ rparIn (cmetric P) (crpar P) (opos o1) (opos o2)).
  { destruct (decide_cases P c1 c2) as [[HC _]|[[k' [r' [lr' [HC [W1 [W2 [Hin [HS HRg]]]]]]]]|[a [b HC]]]];
      try (rewrite HC in HD; discriminate).
    destruct (effSum P c1 c2) as [x|] eqn:ES; [|discriminate].
    destruct (HE x o1 o2 ES) as [Hx0|[Hb0 [HN Hedge]]]; auto.
    { eexists. rewrite ES. exact HS. }
    - rewrite HC in HD. injection HD; intros; subst rsq k' r' lr' x.
      destruct (HP 0 o1 o2 ES I1 I2) as [HL HR]. apply Rabs_bounds in HL. fold d in HL.
      assert (Hd : d = mdist (cmetric P) (getPos c1) (getPos c2)) by lra.
      pose proof (distSq_nonneg (cmetric P) (getPos c1) (getPos c2)) as Hrsq.
      apply isRSqInRange_iff in HRg; auto.
      assert (Hpos : btype (cbin P) = BLog -> 0 < sqrt (distSq (cmetric P) (getPos c1) (getPos c2))).
      { intro HT. pose proof (vb_minsep _ HB) as Hm. rewrite HT in Hm. lra. }
      rewrite <- ES in HS.
      destruct (direct_event P rev c1 c2 k r lr HB HRg HS Hpos) as [_ [HK _]].
      split; [rewrite Hd; exact HK|]. eapply rpar_inside_sound; eauto.
    - destruct (direct_slop P rev 0 m c1 c2 rsq k r lr o1 o2 HB HN ltac:(lra) O1 O2 HP HD I1 I2)
        as [HK [Hlo [Hhi [Hlog Hrp]]]].
      fold K0 d in HK, Hlo, Hhi, Hlog. split; auto. split; auto.
      unfold slopHi, slopLo in *. rewrite Hb0, ?exp_0 in *.
      pose proof (vb_not2d _ HB).
      destruct (btype (cbin P)); try congruence.
      + specialize (Hlog eq_refl). lra.
      + specialize (Hedge eq_refl (K0 + 1)%Z ltac:(lia)). fold d in Hedge. lra. }
  destruct HH as [H1 H2]. unfold selM. fold d.
  apply rparInb_true in H2. rewrite H2, andb_true_r.
  destruct (Z.eqb_spec K K0) as [->|Hne].
  - apply inBinb_true; auto.
  - destruct (inBinb (cbin P) K d) eqn:E; auto. apply inBinb_true in E.
    exfalso. apply Hne. eapply inBin_unique; eauto.
Qed.

(** ** Sums over a cell pair *)
Definition pval (f : afield) (o1 o2 : obj) : R :=
  match f with
  | FNpairs => v_one o1 o2
  | FWeight => v_ww o1 o2
  | FXiNK => v_nk o1 o2
  | FXiKK => v_kk o1 o2
  | _ => 0
  end.
Definition prodField (f : afield) : Prop :=
  match f with FMeanr => False | FMeanlogr => False | _ => True end.
Definition wcond (f : afield) (o : obj) : Prop :=
  match f with FNpairs => 0 < ow o | _ => 0 <= ow o end.

Lemma evval_sum f m c1 c2 e : prodField f -> okcell m c1 -> okcell m c2 ->
  ec1 e = c1 -> ec2 e = c2 ->
  evval f e = sumR (fun p => pval f (fst p) (snd p)) (pairs (objs c1) (objs c2)).
Proof.
  intros Hf O1 O2 <- <-. unfold evval.
  destruct f; simpl in Hf; try contradiction; unfold pval, v_one, v_ww, v_nk, v_kk.
  - rewrite (ok_n _ _ O1), (ok_n _ _ O2).
    transitivity (sumR (fun p : obj * obj => (fun _ => 1) (fst p) * (fun _ => 1) (snd p))
                    (pairs (objs (ec1 e)) (objs (ec2 e)))).
    + rewrite (sumR_pairs_prod (fun _ => 1) (fun _ => 1)), !sumR_const. lra.
    + apply sumR_ext; intros; lra.
  - rewrite (ok_w _ _ O1), (ok_w _ _ O2), <- sumR_pairs_prod. auto.
  - rewrite (ok_w _ _ O1), (ok_wk _ _ O2), <- (sumR_pairs_prod ow (fun o => ow o * okappa o)). auto.
  - rewrite (ok_wk _ _ O1), (ok_wk _ _ O2).
    rewrite <- (sumR_pairs_prod (fun o => ow o * okappa o) (fun o => ow o * okappa o)). auto.
Qed.

Lemma W0_pval f m c1 c2 o1 o2 : prodField f -> okcell m c1 -> okcell m c2 ->
  (forall o, In o (objs c1) -> wcond f o) -> (forall o, In o (objs c2) -> wcond f o) ->
  getW c1 = 0 \/ getW c2 = 0 -> In o1 (objs c1) -> In o2 (objs c2) -> pval f o1 o2 = 0.
Proof.
  intros Hf O1 O2 H1 H2 HW I1 I2.
  assert (HZ : forall c o, okcell m c -> (forall o, In o (objs c) -> wcond f o) -> getW c = 0 ->
               In o (objs c) -> ow o = 0 /\ f <> FNpairs).
  { intros c o Oc Hc Hw Ho.
    assert (f <> FNpairs).
    { intros ->. pose proof (wf_Wpos m c Oc Hc). lra. }
    split; auto.
    assert (Hnn : forall o, In o (objs c) -> 0 <= ow o).
    { intros o' Ho'. specialize (Hc o' Ho'). destruct f; simpl in Hc; try lra. }
    rewrite (ok_w _ _ Oc) in Hw.
    apply in_split in Ho as [l1 [l2 Hl]]. rewrite Hl in Hw. rewrite sumR_app in Hw. simpl in Hw.
    assert (0 <= sumR ow l1) by (apply sumR_nonneg; intros; apply Hnn; rewrite Hl; apply in_or_app; auto).
    assert (0 <= sumR ow l2) by (apply sumR_nonneg; intros; apply Hnn; rewrite Hl; apply in_or_app; right; right; auto).
    assert (0 <= ow o) by (apply Hnn; rewrite Hl; apply in_or_app; right; left; auto).
    lra. }
  destruct HW as [HW|HW].
  - destruct (HZ c1 o1 O1 H1 HW I1) as [Hz Hn].
    destruct f; simpl; try congruence; unfold v_ww, v_nk, v_kk; rewrite Hz; ring.
  - destruct (HZ c2 o2 O2 H2 HW I2) as [Hz Hn].
    destruct f; simpl; try congruence; unfold v_ww, v_nk, v_kk; rewrite Hz; ring.
Qed.

Definition specPairs (P : cparams) (f : afield) (k : Z) (l : list (obj * obj)) : R :=
  sumR (fun oo => if selM P k (fst oo) (snd oo) then pval f (fst oo) (snd oo) else 0) l.
Lemma specPairs_app P f k l l' : specPairs P f k (l ++ l') = specPairs P f k l + specPairs P f k l'.
Proof. apply sumR_app. Qed.

(** C01 core: the events of one run11 call give exactly the brute-force sum. *)
Lemma process11_exact P f m k fuel c1 c2 evs :
  validB (cbin P) -> prodField f -> wf m c1 -> wf m c2 ->
  (forall o, In o (objs c1) -> wcond f o) -> (forall o, In o (objs c2) -> wcond f o) ->
  (forall a b, subcell a c1 -> subcell b c2 -> pairOK P 0 a b /\ exactCond P a b) ->
  process11 P false fuel c1 c2 = Some evs ->
  sumR (contrib f k) evs = specPairs P f k (pairs (objs c1) (objs c2)).
Proof.
  intros HB Hf W1 W2 Hw1 Hw2 HP H.
  pose (J1 := fun c => subcell c c1). pose (J2 := fun c => subcell c c2).
  assert (HJ : forall c0, childClosed (fun c => subcell c c0)).
  { intros c0 d s l r Hs. split; eapply subcell_trans; try apply Hs; [apply sub_l|apply sub_r]; apply sub_refl. }
  assert (Hsubobj : forall c0 c o, subcell c c0 -> In o (objs c) -> In o (objs c0)).
  { intros c0 c o Hs. induction Hs; simpl; auto; intro Ho; apply in_or_app; auto. }
  apply (process11_ind P false J1 J2
     (fun a b evs => sumR (contrib f k) evs = specPairs P f k (pairs (objs a) (objs b))))
    with (fuel := fuel); auto; try apply sub_refl.
  - apply HJ.
  - apply HJ.
  - intros a b Ha Hb HD. simpl. symmetry. apply sumR_0. intros [o1 o2] Ho. simpl.
    apply in_pairs in Ho as [I1 I2].
    pose proof (W1 a Ha) as O1. pose proof (W2 b Hb) as O2.
    destruct (Req_dec (getW a) 0) as [Hz|Hz]; [|destruct (Req_dec (getW b) 0) as [Hz'|Hz']].
    + assert (pval f o1 o2 = 0) as -> by (eapply (W0_pval f m a b); eauto).
      destruct selM; auto.
    + assert (pval f o1 o2 = 0) as -> by (eapply (W0_pval f m a b); eauto).
      destruct selM; auto.
    + destruct (HP a b Ha Hb). rewrite (drop_exact P m a b); auto.
  - intros a b rsq k0 r lr Ha Hb HD. simpl. rewrite Rplus_0_r.
    pose proof (W1 a Ha) as O1. pose proof (W2 b Hb) as O2. destruct (HP a b Ha Hb) as [HP1 HP2].
    unfold specPairs.
    rewrite (sumR_ext _ (fun oo => if (k =? ek (directProcess11 P false a b rsq k0 r lr))%Z
                                   then pval f (fst oo) (snd oo) else 0)).
    2:{ intros [o1 o2] Ho. apply in_pairs in Ho as [I1 I2]. cbn [fst snd].
        rewrite (direct_exact P false m a b rsq k0 r lr o1 o2 k); auto. }
    set (e := directProcess11 P false a b rsq k0 r lr).
    assert (He2 : ek2 e = None).
    { unfold e, directProcess11. destruct (if (k0 <? 0)%Z then _ else _) as [[? ?] ?]. reflexivity. }
    assert (Hc1 : ec1 e = a).
    { unfold e, directProcess11. destruct (if (k0 <? 0)%Z then _ else _) as [[? ?] ?]. reflexivity. }
    assert (Hc2 : ec2 e = b).
    { unfold e, directProcess11. destruct (if (k0 <? 0)%Z then _ else _) as [[? ?] ?]. reflexivity. }
    unfold contrib. rewrite He2.
    assert (Hzz : match f with FXiNK => 0 | _ => 0 end = 0) by (destruct f; auto).
    replace (match f with FNpairs => 0 | FWeight => 0 | FMeanr => 0 | FMeanlogr => 0 | FXiNK => 0 | FXiKK => 0 end) with 0
      by (destruct f; auto).
    rewrite (evval_sum f m a b e) by auto. unfold hit.
    destruct (k =? ek e)%Z.
    + rewrite Rplus_0_r. apply sumR_ext. intros [? ?] _; auto.
    + rewrite sumR_0; [lra|]. auto.
  - intros d s l r c2' ea eb H1 H2. rewrite sumR_app, H1, H2.
    cbn [objs]. unfold specPairs. rewrite sumR_pairs_app_l. auto.
  - intros d s l r c1' ea eb H1 H2. rewrite sumR_app, H1, H2.
    cbn [objs]. unfold specPairs. rewrite sumR_pairs_app_r. auto.
Qed.
