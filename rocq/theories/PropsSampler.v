(** C33, C34: sample_pairs and selection without replacement. *)
From Coq Require Import Reals Lra Lia List ZArith Bool Arith Permutation.
From Verif Require Import Base Geometry Tree Traverse Run Sampler Spec SpecRun GeomFacts SumFacts TreeFacts
  BinFacts TravFacts Exact MetricFacts Cover Lift Runs Examples CovFacts PropsTree PropsNear SamplerFacts.
Import ListNotations.
Open Scope R_scope.

Lemma NoDup_app_remove_r {A} (l l' : list A) : NoDup (l ++ l') -> NoDup l.
Proof. intro H. rewrite <- (firstn_skipn (length l) (l ++ l')) in H. apply (firstn_NoDup (length l)) in H.
  rewrite firstn_skipn, firstn_app, Nat.sub_diag, firstn_all in H. simpl in H. rewrite app_nil_r in H. auto. Qed.
Lemma NoDup_app_remove_l {A} (l l' : list A) : NoDup (l ++ l') -> NoDup l'.
Proof. induction l; simpl; auto. intro H; inversion H; auto. Qed.

(** ** C34 *)
Theorem C34_selection m n us sel us' : unitDraws us -> (n <= m)%nat ->
  selectRandomFrom m n us = Some (sel, us') ->
  length sel = n /\ NoDup sel /\ forall j, In j sel -> (j < m)%nat.
Proof.
  intros Hu Hn H. apply select_ok in H as [H1 [H2 [H3 _]]]; auto. repeat split; auto.
  rewrite Forall_forall in H3. auto.
Qed.

(** Termination: Fisher-Yates needs n numbers; the rejection loop stops as soon as the numbers drawn
    give n different values. *)
Lemma fisherYates_some m us : forall c i full, (c <= length us)%nat -> exists r, fisherYates m i c full us = Some r.
Proof.
  induction us as [|u us IH]; intros [|c] i full H; simpl in *; try lia; eauto. apply IH. lia.
Qed.
Lemma floyd_some m n us : forall sel want, NoDup (sel ++ want) -> (length (sel ++ want) = n)%nat ->
  (forall j, In j want -> In j (map (fun u => draw u m) us)) -> exists r, floyd m n sel us = Some r.
Proof.
  induction us as [|u us IH]; intros sel want HN HL HW; simpl.
  - assert (want = []) by (destruct want as [|w want]; auto; destruct (HW w); simpl; auto).
    rewrite H, app_nil_r in HL. rewrite HL, Nat.leb_refl. eauto.
  - destruct (Nat.leb_spec n (length sel)); [eauto|].
    assert (HNs : NoDup sel) by (apply NoDup_app_remove_r in HN; auto).
    destruct (in_dec Nat.eq_dec (draw u m) sel) as [Hi|Hi].
    + apply (IH sel want); auto. intros j Hj. destruct (HW j Hj) as [<-|]; auto.
      exfalso. revert HN. clear - Hi Hj. induction sel as [|s sel IH]; simpl; intro HN; [inversion Hi|].
      inversion HN; subst. destruct Hi as [->|Hi]; [apply H1, in_or_app; auto|auto].
    + destruct (in_dec Nat.eq_dec (draw u m) want) as [Hw|Hw].
      * apply in_split in Hw as [w1 [w2 ->]]. apply (IH (sel ++ [draw u m]) (w1 ++ w2)).
        -- eapply Permutation_NoDup; [|exact HN]. rewrite <- app_assoc. apply Permutation_app_head. simpl.
           symmetry. apply Permutation_middle.
        -- rewrite <- HL. repeat (rewrite app_length; simpl). lia.
        -- intros j Hj. assert (In j (w1 ++ draw u m :: w2)).
           { apply in_app_or in Hj. apply in_or_app. simpl. tauto. }
           destruct (HW j H0) as [E|]; auto. exfalso. apply NoDup_app_remove_l in HN. apply NoDup_remove in HN as [_ HN].
           subst j. auto.
      * (* a value that is not wanted: drop one of the wanted ones *)
        destruct want as [|w want]; [rewrite app_nil_r in HL; lia|].
        apply (IH (sel ++ [draw u m]) want).
        -- rewrite <- app_assoc. simpl. apply NoDup_remove in HN as [HN _].
           apply Permutation_NoDup with (l := draw u m :: sel ++ want).
           ++ apply Permutation_middle.
           ++ constructor; auto. intro Hx. apply in_app_or in Hx as [Hx|Hx]; auto. apply Hw. right; auto.
        -- rewrite <- HL. repeat (rewrite app_length; simpl). lia.
        -- intros j Hj. destruct (HW j (or_intror Hj)) as [E|]; auto. exfalso. apply Hw. right. subst; auto.
Qed.
Theorem C34_terminates m n us : (n <= length us)%nat ->
  (exists want, NoDup want /\ length want = n /\ forall j, In j want -> In j (map (fun u => draw u m) us)) ->
  exists r, selectRandomFrom m n us = Some r.
Proof.
  intros Hl [want [HN [HL HW]]]. unfold selectRandomFrom. destruct (Nat.ltb (3 * n) m).
  - apply (floyd_some m n us [] want); auto.
  - destruct (fisherYates_some m us n 0 (seq 0 m) Hl) as [[full us'] ->]. eauto.
Qed.

Lemma trunc_eq x (z : Z) : (0 <= z)%Z -> IZR z <= x < IZR z + 1 -> trunc x = z.
Proof.
  intros Hz Hx. assert (0 <= IZR z) by (apply IZR_le; auto).
  destruct (trunc_nonneg x ltac:(lra)) as [[H1 H2] _].
  assert (A : IZR (trunc x) < IZR (z + 1)) by (rewrite plus_IZR; lra). apply lt_IZR in A.
  assert (B : IZR z < IZR (trunc x + 1)) by (rewrite plus_IZR; lra). apply lt_IZR in B. lia.
Qed.
(** Ltac to evaluate trunc of a concrete number *)
Ltac trv z := rewrite (trunc_eq _ z) by (try lia; simpl; lra).

Example C34_example : unitDraws [1/8; 4/7; 1/2; 3/5] /\
  selectRandomFrom 8 4 [1/8; 4/7; 1/2; 3/5] = Some ([1; 5; 0; 6]%nat, []).
Proof.
  split; [repeat constructor; lra|].
  unfold selectRandomFrom. change (Nat.ltb (3 * 4) 8) with false. cbv iota.
  cbn [fisherYates Nat.sub]. 
  assert (E1 : trunc (1/8 * INR 8) = 1%Z) by (apply trunc_eq; [lia|simpl; lra]).
  assert (E2 : trunc (4/7 * INR 7) = 4%Z) by (apply trunc_eq; [lia|simpl; lra]).
  assert (E3 : trunc (1/2 * INR 6) = 3%Z) by (apply trunc_eq; [lia|simpl; lra]).
  assert (E4 : trunc (3/5 * INR 5) = 3%Z) by (apply trunc_eq; [lia|simpl; lra]).
  rewrite E1, E2, E3, E4. reflexivity.
Qed.

(** ** C33: which pairs are offered to the sampler *)
(** Separation in the requested range. *)
Definition inRange (d : pos -> pos -> R) (mn mx : R) (o1 o2 : obj) : bool :=
  Rleb mn (d (opos o1) (opos o2)) && Rltb (d (opos o1) (opos o2)) mx.
Lemma inRange_true d mn mx o1 o2 : inRange d mn mx o1 o2 = true <-> mn <= d (opos o1) (opos o2) < mx.
Proof. unfold inRange. rewrite andb_true_iff, Rleb_true, Rltb_true. tauto. Qed.

(** The same cell-pair decisions with another number of bins. *)
Definition rebin (P : cparams) (nb : Z) (bs : R) : cparams :=
  let B := cbin P in mkC (cmetric P) (crpar P) (mkB (btype B) (minsep B) (maxsep B) nb bs (slop_b B) (slop_a B)).
Lemma decide_nbins P nb a b : btype (cbin P) <> BTwoD -> decide11 (rebin P nb (binsize (cbin P))) a b = decide11 P a b.
Proof.
  intro H. unfold decide11, rebin. cbn [cmetric crpar cbin].
  unfold tooSmallDist, tooLargeDist, singleBin, isRSqInRange, getEffectiveBSq, fullmaxsep, logminsep. cbn [btype minsep maxsep nbins binsize slop_b slop_a].
  destruct (btype (cbin P)); try congruence; reflexivity.
Qed.
(** When no cell pair has a finite non-zero size, the bin size does not matter either. *)
Definition sameVerdict (v v' : verdict) : Prop :=
  match v with Split _ _ => True | _ => v' = v end.
Lemma decide_binsize P nb bs a b : btype (cbin P) <> BTwoD -> 0 <= slop_b (cbin P) ->
  (effSum P a b = Inf \/ effSum P a b = Fin 0) -> sameVerdict (decide11 P a b) (decide11 (rebin P nb bs) a b).
Proof.
  intros H Hb HS. unfold decide11, rebin. unfold effSum in HS. cbn [cmetric crpar cbin].
  destruct (Req_EM_T (getW a) 0); [reflexivity|]. destruct (Req_EM_T (getW b) 0); [reflexivity|].
  destruct (effSize (cmetric P) (getPos a) (getPos b) (getSize a) (getSize b)) as [e1 e2].
  set (x := eadd e1 e2) in *.
  destruct (isRParOutsideRange _ _ _ _ x); [reflexivity|].
  assert (E1 : forall rsq, tooSmallDist (mkB (btype (cbin P)) (minsep (cbin P)) (maxsep (cbin P)) nb bs (slop_b (cbin P)) (slop_a (cbin P))) rsq x = tooSmallDist (cbin P) rsq x) by reflexivity.
  assert (E2 : forall rsq, tooLargeDist (mkB (btype (cbin P)) (minsep (cbin P)) (maxsep (cbin P)) nb bs (slop_b (cbin P)) (slop_a (cbin P))) rsq x = tooLargeDist (cbin P) rsq x) by reflexivity.
  rewrite E1, E2.
  assert (E3 : fullmaxsep (mkB (btype (cbin P)) (minsep (cbin P)) (maxsep (cbin P)) nb bs (slop_b (cbin P)) (slop_a (cbin P))) = fullmaxsep (cbin P)) by reflexivity.
  rewrite E3. cbn [minsep].
  destruct (tooSmallDist _ _ x && _); [reflexivity|]. destruct (tooLargeDist _ _ x && _); [reflexivity|].
  destruct (isRParInsideRange _ _ _ _ x).
  2:{ destruct (calcSplitSq _ _ _) as [? ?]; exact I. }
  assert (E4 : singleBin (mkB (btype (cbin P)) (minsep (cbin P)) (maxsep (cbin P)) nb bs (slop_b (cbin P)) (slop_a (cbin P)))
    (distSq (cmetric P) (getPos a) (getPos b)) x (getPos a) (getPos b) =
    singleBin (cbin P) (distSq (cmetric P) (getPos a) (getPos b)) x (getPos a) (getPos b)).
  { destruct HS as [-> | ->]; [reflexivity|]. unfold singleBin. cbn [btype slop_b slop_a].
    destruct (btype (cbin P)); try congruence.
    - destruct (Req_EM_T 0 0); [reflexivity|lra].
    - destruct (Rlt_dec _ (Rsqr 0)); [reflexivity|]. destruct (Rle_dec 0 (slop_b (cbin P))); [reflexivity|lra]. }
  rewrite E4. destruct (singleBin (cbin P) _ x _ _) as [[[k r] lr]|].
  - assert (E5 : isRSqInRange (mkB (btype (cbin P)) (minsep (cbin P)) (maxsep (cbin P)) nb bs (slop_b (cbin P)) (slop_a (cbin P)))
      (distSq (cmetric P) (getPos a) (getPos b)) (getPos a) (getPos b) = isRSqInRange (cbin P) (distSq (cmetric P) (getPos a) (getPos b)) (getPos a) (getPos b)) by reflexivity.
    rewrite E5. destruct (isRSqInRange _ _ _ _); reflexivity.
  - destruct (calcSplitSq _ _ _) as [? ?]; exact I.
Qed.

Lemma er_direct P rev a b rsq k r lr : btype (cbin P) <> BTwoD -> decide11 P a b = Direct rsq k r lr ->
  er (directProcess11 P rev a b rsq k r lr) = mdist (cmetric P) (getPos a) (getPos b).
Proof.
  intros HB HD. destruct (decide_cases P a b) as [[HC _]|[[k' [r' [lr' [HC [W1 [W2 [Hin [HS HRg]]]]]]]]|[a' [b' HC]]]];
    try (rewrite HC in HD; discriminate).
  rewrite HC in HD. injection HD; intros; subst. unfold mdist. unfold directProcess11.
  destruct (k <? 0)%Z eqn:Ek; [reflexivity|]. cbn [er].
  destruct (effSum P a b) as [x|]; [|discriminate]. unfold singleBin in HS.
  destruct (btype (cbin P)); try congruence.
  - destruct (Req_EM_T x 0); [injection HS; intros; subst; discriminate|].
    destruct Rlt_dec; [discriminate|]. destruct Rle_dec; [injection HS; intros; subst; discriminate|].
    destruct Rlt_dec; [discriminate|]. destruct Rlt_dec; [discriminate|]. destruct Rlt_dec; [discriminate|].
    injection HS; intros; subst. reflexivity.
  - destruct Rlt_dec; [discriminate|]. destruct Rle_dec; [injection HS; intros; subst; discriminate|].
    destruct Rlt_dec; [discriminate|]. destruct Rlt_dec; [discriminate|].
    injection HS; intros; subst. reflexivity.
Qed.

(** Verdicts on cell pairs agree with the range test on the pairs of objects. *)
Definition rangeGood (P : cparams) (sel : obj -> obj -> bool) (a b : cell) : Prop :=
  (decide11 P a b = Drop -> getW a <> 0 -> getW b <> 0 ->
     forall o1 o2, In o1 (objs a) -> In o2 (objs b) -> sel o1 o2 = false) /\
  (forall rsq k r lr, decide11 P a b = Direct rsq k r lr ->
     forall o1 o2, In o1 (objs a) -> In o2 (objs b) -> sel o1 o2 = true).

Lemma rangeGood_valid P m a b : validB (cbin P) -> crpar P = None -> okcell m a -> okcell m b -> pairOK P 0 a b -> exactCond P a b ->
  rangeGood P (inRange (mdist (cmetric P)) (minsep (cbin P)) (maxsep (cbin P))) a b.
Proof.
  intros HB Hr O1 O2 HP HE. split.
  - intros HD W1 W2 o1 o2 I1 I2. destruct (inRange _ _ _ o1 o2) eqn:E; auto. apply inRange_true in E.
    assert (HK : inBin (cbin P) (trunc (kkOf (cbin P) (mdist (cmetric P) (opos o1) (opos o2)))) (mdist (cmetric P) (opos o1) (opos o2))).
    { apply trunc_kk_bin; auto. intro HL. pose proof (vb_minsep _ HB) as Hm. rewrite HL in Hm. lra. }
    apply inBinb_true in HK.
    rewrite <- (drop_exact P m a b o1 o2 (trunc (kkOf (cbin P) (mdist (cmetric P) (opos o1) (opos o2)))) HB O1 O2 HP HE HD W1 W2 I1 I2).
    unfold selM. rewrite HK, Hr. reflexivity.
  - intros rsq k r lr HD o1 o2 I1 I2.
    apply inRange_true.
    assert (HT : selM P (ek (directProcess11 P false a b rsq k r lr)) o1 o2 = true).
    { rewrite (direct_exact P false m a b rsq k r lr o1 o2 _ HB O1 O2 HP HE HD I1 I2). apply Z.eqb_refl. }
    unfold selM in HT. apply andb_true_iff in HT as [HT _]. apply inBinb_true in HT. apply inBin_range in HT; auto.
Qed.

(** ** The sample *)
(** What sample_pairs must return: ntot is the number of pairs of objects in the range, the sample has
    min(n, ntot) entries with different index pairs, each of them the indices of a pair of objects in the
    range, with a separation that satisfies [sep]. *)
Definition goodSample (sel : obj -> obj -> bool) (sep : obj -> obj -> R -> Prop) (cat1 cat2 : list obj) (n : nat)
    (out : list entry) (ntot : nat) : Prop :=
  ntot = length (filter (fun oo => sel (fst oo) (snd oo)) (list_prod cat1 cat2)) /\
  length out = Nat.min n ntot /\
  NoDup (map fst out) /\
  forall i1 i2 r, In (i1, i2, r) out -> exists o1 o2, In o1 cat1 /\ In o2 cat2 /\ oidx o1 = i1 /\ oidx o2 = i2 /\
    sel o1 o2 = true /\ sep o1 o2 r.

Definition idx2 (oo : obj * obj) : nat * nat := (oidx (fst oo), oidx (snd oo)).
Lemma stream_eq e : stream e = map (fun oo => (idx2 oo, er e)) (evPairs e).
Proof.
  unfold stream, evPairs, rowsOf, getAllIndices, pairs. generalize (objs (ec1 e)) (objs (ec2 e)). intros l1 l2.
  induction l1 as [|o l1 IH]; simpl; auto. rewrite map_app, IH, !map_map. f_equal.
Qed.
Lemma stream_fst evs : map fst (flat_map stream evs) = map idx2 (flat_map evPairs evs).
Proof.
  induction evs as [|e evs IH]; simpl; auto. rewrite (map_app idx2), <- IH. etransitivity; [apply map_app|].
  f_equal. rewrite stream_eq. etransitivity; [apply map_map|]. apply map_ext. auto.
Qed.
Lemma stream_len evs : length (flat_map stream evs) = length (flat_map evPairs evs).
Proof. induction evs as [|e evs IH]; simpl; auto. rewrite !app_length, IH, stream_eq, map_length. auto. Qed.
Lemma NoDup_idx2 l1 l2 : NoDup (map oidx l1) -> NoDup (map oidx l2) -> NoDup (map idx2 (pairs l1 l2)).
Proof.
  intros H1 H2. unfold pairs. induction l1 as [|o l1 IH]; simpl; [constructor|].
  inversion H1; subst. rewrite map_app, map_map. simpl.
  assert (HN : NoDup (map (fun x => idx2 (o, x)) l2)).
  { clear - H2. induction l2 as [|p l2 IH]; simpl in *; [constructor|]. inversion H2; subst. constructor; auto.
    intro Hi. apply in_map_iff in Hi as [q [E Hq]]. injection E; intros. apply H1. apply in_map_iff. exists q; auto. }
  assert (HD : forall x, In x (map (fun x => idx2 (o, x)) l2) -> ~ In x (map idx2 (list_prod l1 l2))).
  { intros x Hx Hy. apply in_map_iff in Hx as [q [<- Hq]]. apply in_map_iff in Hy as [[a b] [E Hy]].
    apply in_prod_iff in Hy as [Ha Hb]. injection E; intros. apply H3. apply in_map_iff. exists a; auto. }
  revert HN HD. generalize (map (fun x => idx2 (o, x)) l2). intros l HN HD.
  induction HN as [|x l Hx HN IHl]; simpl; auto. constructor; [|apply IHl; intros; apply HD; right; auto].
  intro Hi. apply in_app_or in Hi as [Hi|Hi]; auto. apply (HD x); simpl; auto.
Qed.

Lemma NoDup_pick {A B} (l : list (A * B)) d T : NoDup (map fst l) -> NoDup T -> (forall t, In t T -> (t < length l)%nat) ->
  NoDup (map fst (map (fun t => nth t l d) T)).
Proof.
  intros HN HT HB. rewrite map_map. apply NoDup_map_in; auto. intros t t' Ht Ht' E.
  rewrite <- !map_nth with (f := fst) in E.
  apply (proj1 (NoDup_nth (map fst l) (fst d)) HN); rewrite ?map_length; auto.
Qed.
Lemma stream_count P sel m F1 F2 cat1 cat2 cells1 cells2 evs :
  buildField F1 cat1 cells1 -> buildField F2 cat2 cells2 ->
  Forall (wf m) cells1 -> Forall (wf m) cells2 -> posW cat1 -> posW cat2 ->
  (forall a b, inTops cells1 a -> inTops cells2 b -> rangeGood P sel a b) ->
  map Some evs = crossIters P cells1 cells2 ->
  length (flat_map stream (concat evs)) = length (filter (fun oo => sel (fst oo) (snd oo)) (list_prod cat1 cat2)).
Proof.
  intros B1 B2 W1 W2 P1 P2 HG HE.
  destruct (cross_covers P cells1 cells2 evs HE) as [dr [HP [HF HD]]].
  assert (HPc : Permutation (pairs cat1 cat2) (flat_map evPairs (concat evs) ++ flat_map cPairs dr)).
  { eapply perm_trans; [|exact HP]. apply pairs_perm; symmetry; [apply (buildField_perm F1)|apply (buildField_perm F2)]; auto. }
  assert (HC1 : forall a o, inTops cells1 a -> In o (objs a) -> In o cat1).
  { intros a o Ha Ho. eapply (inTops_obj_cat F1); eauto. }
  assert (HC2 : forall a o, inTops cells2 a -> In o (objs a) -> In o cat2).
  { intros a o Ha Ho. eapply (inTops_obj_cat F2); eauto. }
  change (list_prod cat1 cat2) with (pairs cat1 cat2).
  rewrite (Permutation_length (filter_perm _ _ _ HPc)), filter_app, app_length.
  rewrite filter_all, filter_nil.
  - simpl. rewrite Nat.add_0_r. apply stream_len.
  - intros [o1 o2] Ho. apply in_flat_map in Ho as [[a b] [Hab Ho]]. rewrite Forall_forall in HD.
    destruct (HD _ Hab) as [Ha [Hb Hd]]. unfold cPairs in Ho. cbn [fst snd] in *. apply in_pairs in Ho as [I1 I2].
    refine (proj1 (HG a b Ha Hb) Hd _ _ o1 o2 I1 I2).
    + pose proof (wf_Wpos m a (inTops_wf _ _ _ W1 Ha) (fun o Ho => P1 o (HC1 a o Ha Ho))). lra.
    + pose proof (wf_Wpos m b (inTops_wf _ _ _ W2 Hb) (fun o Ho => P2 o (HC2 b o Hb Ho))). lra.
  - intros [o1 o2] Ho. apply in_flat_map in Ho as [e [He Ho]]. rewrite Forall_forall in HF.
    destruct (HF e He) as [a [b [rsq [k [r [lr [Ha [Hb [Hd ->]]]]]]]]]. unfold evPairs in Ho.
    destruct (direct_ec P false a b rsq k r lr) as [E1 E2]. rewrite E1, E2 in Ho. apply in_pairs in Ho as [I1 I2].
    exact (proj2 (HG a b Ha Hb) rsq k r lr Hd o1 o2 I1 I2).
Qed.
Lemma sample_core P sel (sep : obj -> obj -> R -> Prop) m F1 F2 cat1 cat2 cells1 cells2 n evs us s us' :
  buildField F1 cat1 cells1 -> buildField F2 cat2 cells2 ->
  Forall (wf m) cells1 -> Forall (wf m) cells2 -> posW cat1 -> posW cat2 ->
  NoDup (map oidx cat1) -> NoDup (map oidx cat2) -> unitDraws us ->
  (forall a b, inTops cells1 a -> inTops cells2 b -> rangeGood P sel a b) ->
  (forall a b rsq k r lr o1 o2, inTops cells1 a -> inTops cells2 b -> decide11 P a b = Direct rsq k r lr ->
     In o1 (objs a) -> In o2 (objs b) -> sep o1 o2 (er (directProcess11 P false a b rsq k r lr))) ->
  map Some evs = crossIters P cells1 cells2 ->
  smooth n 0 (concat evs) ->
  sampleEvents n (concat evs) (mkS (repeat (0%nat, 0%nat, 0) n) 0) us = Some (s, us') ->
  goodSample sel sep cat1 cat2 n (firstn (Nat.min n (s_k s)) (s_arr s)) (s_k s).
Proof.
  intros B1 B2 W1 W2 P1 P2 N1 N2 Hu HG HS HE Hsm H.
  destruct (cross_covers P cells1 cells2 evs HE) as [dr [HP [HF HD]]].
  apply (sampleEvents_reservoir n (concat evs) []) in H as [HR _]; auto; [|apply reservoir_init].
  simpl in HR. set (St := flat_map stream (concat evs)) in *.
  pose proof HR as [Hk _]. apply reservoir_out in HR as [T [HT [HN [HTF HO]]]]. rewrite Hk in *. rewrite HO. clear HO.
  assert (HPc : Permutation (pairs cat1 cat2) (flat_map evPairs (concat evs) ++ flat_map cPairs dr)).
  { eapply perm_trans; [|exact HP]. apply pairs_perm; symmetry; [apply (buildField_perm F1)|apply (buildField_perm F2)]; auto. }
  assert (HC1 : forall a o, inTops cells1 a -> In o (objs a) -> In o cat1).
  { intros a o Ha Ho. eapply (inTops_obj_cat F1); eauto. }
  assert (HC2 : forall a o, inTops cells2 a -> In o (objs a) -> In o cat2).
  { intros a o Ha Ho. eapply (inTops_obj_cat F2); eauto. }
  assert (HEv : forall e, In e (concat evs) -> exists a b, inTops cells1 a /\ inTops cells2 b /\ ec1 e = a /\ ec2 e = b /\
     (forall o1 o2, In o1 (objs a) -> In o2 (objs b) -> sel o1 o2 = true /\ sep o1 o2 (er e))).
  { intros e He. rewrite Forall_forall in HF. destruct (HF e He) as [a [b [rsq [k [r [lr [Ha [Hb [Hd ->]]]]]]]]].
    exists a, b. destruct (direct_ec P false a b rsq k r lr) as [E1 E2].
    split; [auto|]. split; [auto|]. split; [auto|]. split; [auto|]. intros o1 o2 I1 I2. split.
    - exact (proj2 (HG a b Ha Hb) rsq k r lr Hd o1 o2 I1 I2).
    - apply HS; auto. }
  assert (Hlen : length St = length (filter (fun oo => sel (fst oo) (snd oo)) (list_prod cat1 cat2))).
  { eapply (stream_count P sel m F1 F2); eauto. }
  assert (HNS : NoDup (map fst St)).
  { unfold St. rewrite stream_fst. pose proof (NoDup_idx2 cat1 cat2 N1 N2) as HH.
    eapply Permutation_NoDup in HH; [|apply Permutation_map; exact HPc]. rewrite map_app in HH.
    apply NoDup_app_remove_r in HH. auto. }
  split; [auto|]. split; [rewrite map_length; auto|]. split.
  - rewrite Forall_forall in HTF. apply NoDup_pick; auto.
  - intros i1 i2 r Hi. apply in_map_iff in Hi as [t [E Ht]]. rewrite Forall_forall in HTF.
    assert (Hin : In (i1, i2, r) St) by (rewrite <- E; apply nth_In; auto).
    unfold St in Hin. apply in_flat_map in Hin as [e [He Hin]]. rewrite stream_eq in Hin.
    apply in_map_iff in Hin as [[o1 o2] [E2 Ho]]. injection E2; intros; subst.
    destruct (HEv e He) as [a [b [Ha [Hb [<- [<- HH]]]]]]. unfold evPairs in Ho. apply in_pairs in Ho as [I1 I2].
    exists o1, o2. destruct (HH o1 o2 I1 I2). repeat split; auto; eauto.
Qed.

(** ** Theorems *)
Definition posDec : forall p q : pos, {p = q} + {p <> q}.
Proof. intros [a b c] [x y z]. destruct (Req_EM_T a x), (Req_EM_T b y), (Req_EM_T c z); (left; congruence) || (right; congruence). Defined.
(** Number of objects at position p. *)
Definition mult (cat : list obj) (p : pos) : nat := count_occ posDec (map opos cat) p.
Lemma count_occ_const l p : (forall q, In q l -> q = p) -> count_occ posDec l p = length l.
Proof.
  induction l as [|q l IH]; simpl; auto. intro H. rewrite (H q) by auto. destruct posDec; [|congruence]. f_equal; auto.
Qed.
Lemma mult_part cat l p : partOf l cat -> (forall o, In o l -> opos o = p) -> (length l <= mult cat p)%nat.
Proof.
  intros [_ [l' HP]] H. unfold mult.
  rewrite <- (proj1 (Permutation_count_occ posDec _ _) (Permutation_map opos HP) p), map_app, count_occ_app.
  rewrite (count_occ_const (map opos l)).
  - rewrite map_length. lia.
  - intros q Hq. apply in_map_iff in Hq as [o [<- Ho]]. auto.
Qed.
Lemma cell_part F cat cells c : cat <> [] -> buildField F cat cells -> inTops cells c -> partOf (objs c) cat.
Proof.
  intros Hne [g [Hg Hf]] [t [Ht Hs]].
  assert (exists x, In x g /\ builds (fcoord F) (fsm F) (fminsize F * fminsize F) (fbrute F) x t) as [x [Hx Hb]].
  { clear Hg. induction Hf; simpl in *; [tauto|]. destruct Ht as [<-|Ht]; [eauto|].
    destruct IHHf as [z [? ?]]; eauto. }
  destruct (builds_sub_part _ _ _ _ _ _ Hb c Hs) as [l [Hp Hl]].
  apply partOf_trans with (b := l).
  - pose proof (builds_perm _ _ _ _ _ _ Hl) as HP. destruct Hp as [Hn _]. split.
    + intro E. rewrite E in HP. apply Permutation_nil in HP || apply Permutation_sym, Permutation_nil in HP. auto.
    + exists []. rewrite app_nil_r. auto.
  - eapply partOf_trans; eauto. eapply setupTop_part; eauto.
Qed.

Lemma smooth_all n k evs : (forall e, In e evs -> (length (stream e) <= n)%nat) -> smooth n k evs.
Proof.
  revert k. induction evs as [|e evs IH]; intros k H; simpl; auto. split; [left; apply H; left; auto|].
  apply IH. intros; apply H; right; auto.
Qed.
Lemma smooth_0 k evs : smooth 0 k evs.
Proof. revert k. induction evs; intros k; simpl; auto. split; [right; right; lia|auto]. Qed.
Lemma stream_in_len e evs : In e evs -> (length (stream e) <= length (flat_map stream evs))%nat.
Proof. induction evs as [|x evs IH]; simpl; [tauto|]. rewrite app_length. intros [->|H]; [lia|]. specialize (IH H). lia. Qed.

(** Parameters of the sampler for the requested range. *)
Definition rangeOK (B : bparams) (mn mx : R) : Prop :=
  btype B <> BTwoD /\ match btype B with BLog => 0 < mn | _ => 0 <= mn end /\ mn < mx /\ 0 <= slop_b B /\ 0 <= slop_a B.
(** One bin covering the range. *)
Definition oneBin (P : cparams) (mn mx : R) : cparams :=
  rebin (withRange P mn mx) 1 (match btype (cbin P) with BLog => ln (mx / mn) | _ => mx - mn end).
Lemma oneBin_valid P mn mx : rangeOK (cbin P) mn mx -> validB (cbin (oneBin P mn mx)).
Proof.
  intros [H2 [H3 [H4 [H5 H6]]]]. constructor; cbn; auto; try lia.
  - destruct (btype (cbin P)) eqn:E; try lra. assert (1 < mx / mn).
    { apply Rmult_lt_reg_r with mn; auto. unfold Rdiv. rewrite Rmult_assoc, Rinv_l by lra. lra. }
    rewrite <- ln_1. apply ln_increasing; lra.
  - unfold edge; cbn. destruct (btype (cbin P)) eqn:E; try congruence; try lra.
    rewrite Rmult_1_l, exp_ln; [field; lra|]. apply Rdiv_lt_0_compat; lra.
Qed.

(** brute = True: the sample is exact for any range, as long as no two groups of coincident objects
    make more than n pairs. *)
Theorem C33_brute Q cat1 cat2 n mn mx us out ntot :
  cmetric (rP Q) = Euclidean -> crpar (rP Q) = None -> rbrute Q = BruteBoth ->
  rangeOK (cbin (rP Q)) mn mx -> posW cat1 -> posW cat2 -> cat1 <> [] -> cat2 <> [] ->
  NoDup (map oidx cat1) -> NoDup (map oidx cat2) ->
  (forall o1 o2, In o1 cat1 -> In o2 cat2 -> (mult cat1 (opos o1) * mult cat2 (opos o2) <= n)%nat) \/ n = 0%nat ->
  unitDraws us ->
  samplePairs Q cat1 cat2 n mn mx us out ntot ->
  goodSample (inRange euclid mn mx) (fun o1 o2 r => r = euclid (opos o1) (opos o2)) cat1 cat2 n out ntot.
Proof.
  intros HM Hrp Hbr HR P1 P2 E1 E2 N1 N2 HMu Hu [cells1 [cells2 [evs [s [us' [B1 [B2 [HE [HS [-> ->]]]]]]]]]].
  rewrite Hbr in *. cbn [brute1 brute2] in *.
  set (Pw := withRange (rP Q) mn mx) in *. set (P2' := oneBin (rP Q) mn mx).
  assert (HV : validB (cbin P2')) by (apply oneBin_valid; auto).
  assert (Hmd : forall o1 o2, mdist Euclidean (opos o1) (opos o2) = euclid (opos o1) (opos o2)).
  { intros. rewrite mdist_euclid. symmetry. apply euclid_pdist. }
  assert (Hsel : forall o1 o2, inRange (mdist (cmetric P2')) (minsep (cbin P2')) (maxsep (cbin P2')) o1 o2 = inRange euclid mn mx o1 o2).
  { intros. unfold inRange. change (cmetric P2') with (cmetric (rP Q)). rewrite HM, Hmd. reflexivity. }
  assert (Hr2 : crpar P2' = None) by auto. assert (HM2 : cmetric P2' = Euclidean) by auto.
  set (F := fieldParams Q true) in *.
  destruct (crossEarlyExit Pw (fieldCenter F cat1) (fieldCenter F cat2) (fieldSize F cat1) (fieldSize F cat2)) eqn:EX.
  - subst evs. simpl in HS. injection HS; intros; subst s us'. cbn [s_k s_arr]. rewrite Nat.min_0_r. simpl.
    split; [|split; [simpl; lia|split; [constructor|intros ? ? ? []]]].
    rewrite filter_nil; auto. intros [o1 o2] Ho. apply in_prod_iff in Ho as [I1 I2]. cbn [fst snd].
    destruct (inRange euclid mn mx o1 o2) eqn:E; auto. exfalso. rewrite <- Hsel in E. apply inRange_true in E.
    assert (HL := lip_field P2' anyPos anyPos F F cat1 cat2 o1 o2).
    rewrite HM2 in *. specialize (HL lip_euclid Hr2 I I I1 I2 HV EX). lra.
  - assert (G : forall a b, inTops cells1 a -> inTops cells2 b -> pairOK Pw 0 a b /\ okcell 0 a /\ okcell 0 b /\
       (forall x, effSum Pw a b = Fin x -> x = 0 /\ getSize a = Fin 0 /\ getSize b = Fin 0) /\ bruteTree a /\ bruteTree b).
    { intros a b Ha Hb.
      assert (O1 : okcell 0 a) by exact (cells_ok0 F cat1 cells1 a eq_refl B1 Ha).
      assert (O2 : okcell 0 b) by exact (cells_ok0 F cat2 cells2 b eq_refl B2 Hb).
      assert (T1 : bruteTree a) by (eapply inTops_brute; [|exact Ha]; eapply (buildField_brute F); eauto).
      assert (T2 : bruteTree b) by (eapply inTops_brute; [|exact Hb]; eapply (buildField_brute F); eauto).
      destruct (pairOK_brute Pw a b O1 O2 T1 T2) as [G1 G2].
      split; [auto|]. split; [auto|]. split; [auto|]. split; [|auto].
      intros x Hx. apply (brute_effSum Pw 0 a b x O1 O2 T1 T2 Hx). }
    assert (HT2 : btype (cbin Pw) <> BTwoD) by apply HR.
    assert (Hdir : forall a b rsq k r lr, inTops cells1 a -> inTops cells2 b -> decide11 Pw a b = Direct rsq k r lr ->
      getSize a = Fin 0 /\ getSize b = Fin 0).
    { intros a b rsq k r lr Ha Hb HD. destruct (G a b Ha Hb) as [_ [_ [_ [G1 _]]]].
      destruct (decide_cases Pw a b) as [[HC _]|[[k' [r' [lr' [HC [_ [_ [_ [HSB _]]]]]]]]|[a' [b' HC]]]]; try (rewrite HC in HD; discriminate).
      destruct (effSum Pw a b) as [x|] eqn:EF; [|discriminate]. destruct (G1 x eq_refl) as [_ G2]. auto. }
    apply (sample_core Pw (inRange euclid mn mx) _ 0 F F cat1 cat2 cells1 cells2 n evs us s us'); auto.
    + eapply (buildField_wf F); eauto; simpl; lra.
    + eapply (buildField_wf F); eauto; simpl; lra.
    + intros a b Ha Hb. destruct (G a b Ha Hb) as [G1 [G2 [G3 [G4 [G5 G6]]]]].
      assert (HV2 : sameVerdict (decide11 Pw a b) (decide11 P2' a b)).
      { apply (decide_binsize Pw); [exact HT2|apply HR|]. destruct (effSum Pw a b) as [x|]; [right|left; auto].
        destruct (G4 x eq_refl) as [-> _]. auto. }
      assert (HG2 : rangeGood P2' (inRange (mdist (cmetric P2')) (minsep (cbin P2')) (maxsep (cbin P2'))) a b).
      { destruct (pairOK_brute P2' a b G2 G3 G5 G6). apply (rangeGood_valid P2' 0); auto. }
      destruct HG2 as [HG2 HG3]. split.
      * intros HD W1 W2 o1 o2 I1 I2. rewrite <- Hsel. rewrite HD in HV2. simpl in HV2. apply HG2; auto.
      * intros rsq k r lr HD o1 o2 I1 I2. rewrite <- Hsel. rewrite HD in HV2. simpl in HV2. eapply HG3; eauto.
    + intros a b rsq k r lr o1 o2 Ha Hb HD I1 I2. rewrite (er_direct Pw) by auto.
      destruct (Hdir a b rsq k r lr Ha Hb HD) as [S1 S2]. destruct (G a b Ha Hb) as [G1 [G2 [G3 [G4 [G5 G6]]]]].
      rewrite <- (brute_pos a o1), <- (brute_pos b o2) by auto.
      change (cmetric Pw) with (cmetric (rP Q)). rewrite HM. apply Hmd.
    + destruct HMu as [HMu| ->]; [|apply smooth_0]. apply smooth_all. intros e He.
      destruct (cross_covers Pw cells1 cells2 evs HE) as [dr [_ [HF _]]]. rewrite Forall_forall in HF.
      destruct (HF e He) as [a [b [rsq [k [r [lr [Ha [Hb [HD ->]]]]]]]]]. rewrite stream_length.
      destruct (direct_ec Pw false a b rsq k r lr) as [-> ->]. unfold getAllIndices. rewrite !map_length.
      destruct (Hdir a b rsq k r lr Ha Hb HD) as [S1 S2]. destruct (G a b Ha Hb) as [G1 [G2 [G3 [G4 [G5 G6]]]]].
      assert (X1 : exists o1, In o1 (objs a)) by (destruct (objs a) eqn:E; [destruct (ok_ne _ _ G2 E)|eexists; left; auto]).
      assert (X2 : exists o2, In o2 (objs b)) by (destruct (objs b) eqn:E; [destruct (ok_ne _ _ G3 E)|eexists; left; auto]).
      destruct X1 as [o1 I1], X2 as [o2 I2].
      specialize (HMu o1 o2 (inTops_obj_cat F cat1 cells1 a o1 B1 Ha I1) (inTops_obj_cat F cat2 cells2 b o2 B2 Hb I2)).
      pose proof (mult_part cat1 (objs a) (opos o1) (cell_part F cat1 cells1 a E1 B1 Ha)) as M1.
      pose proof (mult_part cat2 (objs b) (opos o2) (cell_part F cat2 cells2 b E2 B2 Hb)) as M2.
      assert (L1 : (length (objs a) <= mult cat1 (opos o1))%nat).
      { apply M1. intros o Ho. rewrite (brute_pos a o), (brute_pos a o1); auto. }
      assert (L2 : (length (objs b) <= mult cat2 (opos o2))%nat).
      { apply M2. intros o Ho. rewrite (brute_pos b o), (brute_pos b o2); auto. }
      eapply Nat.le_trans; [apply Nat.mul_le_mono; eauto|auto].
Qed.

(** The number of pairs reported does not depend on the sampling. *)
Lemma takeAll_k ps s : s_k (takeAll ps s) = (s_k s + length ps)%nat.
Proof. revert s. induction ps as [|e ps IH]; intro s; simpl; [lia|]. rewrite IH. simpl. lia. Qed.
Lemma oneAtATime_k n ps : forall s us s' us', oneAtATime n ps s us = Some (s', us') -> s_k s' = (s_k s + length ps)%nat.
Proof.
  induction ps as [|e ps IH]; intros s us s' us' H; simpl in *; [injection H; intros; subst; lia|].
  destruct (Nat.leb n (s_k s)).
  - destruct us; [discriminate|]. apply IH in H. simpl in H. lia.
  - apply IH in H. simpl in H. lia.
Qed.
Lemma sampleEvents_k n evs : forall s us s' us', sampleEvents n evs s us = Some (s', us') ->
  s_k s' = (s_k s + length (flat_map stream evs))%nat.
Proof.
  induction evs as [|e evs IH]; intros s us s' us' H; simpl in *; [injection H; intros; subst; lia|].
  destruct (sampleEvent n e s us) as [[s1 us1]|] eqn:E; [|discriminate].
  assert (s_k s1 = s_k s + length (stream e))%nat.
  { unfold sampleEvent, sampleFrom in E. rewrite <- stream_length in E. fold (stream e) in E.
    destruct Nat.leb; [injection E; intros; subst; apply takeAll_k|].
    destruct Nat.leb; [eapply oneAtATime_k; eauto|].
    destruct selectRandomFrom as [[sel us2]|]; [|discriminate].
    destruct places; injection E; intros; subst; reflexivity. }
  apply IH in H. rewrite app_length. lia.
Qed.

(** bin_slop = 0: max_sep must be an edge of the grid of bins that starts at min_sep. *)
Definition alignedRange (B : bparams) (mn mx : R) (j : Z) : Prop :=
  (0 < j)%Z /\ mx = match btype B with BLog => mn * exp (IZR j * binsize B) | _ => mn + IZR j * binsize B end.
Lemma aligned_valid P mn mx j : rangeOK (cbin P) mn mx -> 0 < binsize (cbin P) -> alignedRange (cbin P) mn mx j ->
  validB (cbin (rebin (withRange P mn mx) j (binsize (cbin P)))).
Proof.
  intros [H2 [H3 [H4 [H5 H6]]]] Hbs [Hj HA]. constructor; cbn; auto. unfold edge; cbn.
  destruct (btype (cbin P)); auto; congruence.
Qed.
(** All pairs in the range are counted, and if there are at most n of them all of them are returned. *)
Theorem C33_slop0 Q cat1 cat2 n mn mx j us out ntot :
  cmetric (rP Q) = Euclidean -> crpar (rP Q) = None ->
  rangeOK (cbin (rP Q)) mn mx -> slop_b (cbin (rP Q)) = 0 -> validB (cbin (rP Q)) ->
  alignedRange (cbin (rP Q)) mn mx j -> narrowLog (cbin (rP Q)) ->
  (btype (cbin (rP Q)) = BLinear -> forall o1 o2 i, (1 <= i <= j)%Z -> In o1 cat1 -> In o2 cat2 ->
     euclid (opos o1) (opos o2) <> mn + IZR i * binsize (cbin (rP Q))) ->
  posW cat1 -> posW cat2 -> NoDup (map oidx cat1) -> NoDup (map oidx cat2) -> unitDraws us ->
  samplePairs Q cat1 cat2 n mn mx us out ntot ->
  ntot = length (filter (fun oo => inRange euclid mn mx (fst oo) (snd oo)) (list_prod cat1 cat2)) /\
  ((ntot <= n)%nat -> goodSample (inRange euclid mn mx) (fun o1 o2 r => mn <= r < mx) cat1 cat2 n out ntot).
Proof.
  intros HM Hrp HR Hb0 HV0 HA HN HE0 P1 P2 N1 N2 Hu [cells1 [cells2 [evs [s [us' [B1 [B2 [HE [HS [-> ->]]]]]]]]]].
  set (Pw := withRange (rP Q) mn mx) in *. set (P2' := rebin Pw j (binsize (cbin (rP Q)))).
  assert (HV : validB (cbin P2')) by (apply aligned_valid; auto; apply (vb_binsize _ HV0)).
  assert (Hmd : forall o1 o2, mdist Euclidean (opos o1) (opos o2) = euclid (opos o1) (opos o2)).
  { intros. rewrite mdist_euclid. symmetry. apply euclid_pdist. }
  assert (Hsel : forall o1 o2, inRange (mdist (cmetric P2')) (minsep (cbin P2')) (maxsep (cbin P2')) o1 o2 = inRange euclid mn mx o1 o2).
  { intros. unfold inRange. change (cmetric P2') with (cmetric (rP Q)). rewrite HM, Hmd. reflexivity. }
  assert (Hr2 : crpar P2' = None) by auto. assert (HM2 : cmetric P2' = Euclidean) by auto.
  set (F1 := fieldParams Q (brute1 (rbrute Q))) in *. set (F2 := fieldParams Q (brute2 (rbrute Q))) in *.
  assert (Hm : fst (getMinMaxSize (rP Q)) = 0) by (apply minsize_b0; auto).
  assert (Hm1 : fminsize F1 = 0) by (apply fieldParams_min0; auto).
  assert (Hm2 : fminsize F2 = 0) by (apply fieldParams_min0; auto).
  destruct (crossEarlyExit Pw (fieldCenter F1 cat1) (fieldCenter F2 cat2) (fieldSize F1 cat1) (fieldSize F2 cat2)) eqn:EX.
  - subst evs. simpl in HS. injection HS; intros; subst s us'. cbn [s_k s_arr]. rewrite Nat.min_0_r. simpl.
    assert (H0 : 0%nat = length (filter (fun oo => inRange euclid mn mx (fst oo) (snd oo)) (list_prod cat1 cat2))).
    { rewrite filter_nil; auto. intros [o1 o2] Ho. apply in_prod_iff in Ho as [I1 I2]. cbn [fst snd].
      destruct (inRange euclid mn mx o1 o2) eqn:E; auto. exfalso. rewrite <- Hsel in E. apply inRange_true in E.
      assert (HL := lip_field P2' anyPos anyPos F1 F2 cat1 cat2 o1 o2).
      rewrite HM2 in *. specialize (HL lip_euclid Hr2 I I I1 I2 HV EX). lra. }
    split; [auto|]. intros _. split; [auto|split; [simpl; lia|split; [constructor|intros ? ? ? []]]].
  - assert (HT2 : btype (cbin Pw) <> BTwoD) by apply HR.
    assert (Hdec : forall a b, decide11 P2' a b = decide11 Pw a b).
    { intros. apply (decide_nbins Pw); auto. }
    assert (W1 : Forall (wf 0) cells1) by (rewrite <- Hm1; eapply (buildField_wf F1); eauto; lra).
    assert (W2 : Forall (wf 0) cells2) by (rewrite <- Hm2; eapply (buildField_wf F2); eauto; lra).
    assert (HG : forall a b, inTops cells1 a -> inTops cells2 b -> rangeGood Pw (inRange euclid mn mx) a b).
    { intros a b Ha Hb.
      assert (O1 : okcell 0 a) by exact (cells_ok0 F1 cat1 cells1 a Hm1 B1 Ha).
      assert (O2 : okcell 0 b) by exact (cells_ok0 F2 cat2 cells2 b Hm2 B2 Hb).
      assert (HP : pairOK P2' 0 a b) by (apply (pairOK_lip P2' anyPos anyPos); auto; try exact I; rewrite HM2; apply lip_euclid).
      assert (HX : exactCond P2' a b).
      { intros x o1 o2 Hx _ I1 I2. right. split; [auto|]. split; [exact HN|].
        intros HL i Hi. rewrite HM2, Hmd. unfold edge. rewrite HL.
        apply HE0; auto; [exact (inTops_obj_cat F1 cat1 cells1 a o1 B1 Ha I1)|exact (inTops_obj_cat F2 cat2 cells2 b o2 B2 Hb I2)]. }
      destruct (rangeGood_valid P2' 0 a b HV Hr2 O1 O2 HP HX) as [G1 G2]. split.
      - intros HD X1 X2 o1 o2 I1 I2. rewrite <- Hsel. apply G1; auto; rewrite Hdec; auto.
      - intros rsq k r lr HD o1 o2 I1 I2. rewrite <- Hsel. apply (G2 rsq k r lr); auto; rewrite Hdec; auto. }
    assert (Hcnt := stream_count Pw (inRange euclid mn mx) 0 F1 F2 cat1 cat2 cells1 cells2 evs B1 B2 W1 W2 P1 P2 HG HE).
    pose proof (sampleEvents_k _ _ _ _ _ _ HS) as Hk. cbn [s_k] in Hk. rewrite Nat.add_0_l in Hk.
    split; [congruence|]. intro Hle.
    apply (sample_core Pw (inRange euclid mn mx) _ 0 F1 F2 cat1 cat2 cells1 cells2 n evs us s us'); auto.
    + intros a b rsq k r lr o1 o2 Ha Hb HD I1 I2. rewrite (er_direct Pw) by auto.
      destruct (decide_cases Pw a b) as [[HC _]|[[k' [r' [lr' [HC [_ [_ [_ [_ HRg]]]]]]]]|[a' [b' HC]]]]; try (rewrite HC in HD; discriminate).
      assert (HRg2 : isRSqInRange (cbin P2') (distSq (cmetric Pw) (getPos a) (getPos b)) (getPos a) (getPos b) = true) by exact HRg.
      apply isRSqInRange_iff in HRg2; auto using distSq_nonneg.
    + apply smooth_all. intros e He. pose proof (stream_in_len e (concat evs) He). lia.
Qed.

Lemma NoDup_map_inv_inj {A B} (f : A -> B) l a b : NoDup (map f l) -> In a l -> In b l -> f a = f b -> a = b.
Proof.
  induction l as [|x l IH]; simpl; [tauto|]. intros HN Ha Hb E. inversion HN; subst.
  destruct Ha as [->|Ha], Hb as [->|Hb]; auto.
  - exfalso. apply H1. rewrite E. apply in_map; auto.
  - exfalso. apply H1. rewrite <- E. apply in_map; auto.
Qed.
(** A sample of all pairs contains every pair. *)
Lemma goodSample_complete sel sep cat1 cat2 n out ntot : NoDup (map oidx cat1) -> NoDup (map oidx cat2) ->
  goodSample sel sep cat1 cat2 n out ntot -> (ntot <= n)%nat ->
  forall o1 o2, In o1 cat1 -> In o2 cat2 -> sel o1 o2 = true -> exists r, In (oidx o1, oidx o2, r) out.
Proof.
  intros N1 N2 [H1 [H2 [H3 H4]]] Hn o1 o2 I1 I2 Hs.
  set (l := filter (fun oo => sel (fst oo) (snd oo)) (list_prod cat1 cat2)) in *.
  assert (HI : incl (map idx2 l) (map fst out)).
  { apply NoDup_length_incl; auto.
    - assert (L1 : length (map fst out) = length out) by apply map_length.
      assert (L2 : length (map idx2 l) = length l) by apply map_length. unfold l in *. lia.
    - intros [i1 i2] Hi. apply in_map_iff in Hi as [[[a b] r] [E Hi]]. simpl in E. injection E; intros; subst a b.
      destruct (H4 i1 i2 r Hi) as [p [q [Ip [Iq [<- [<- [Hsel _]]]]]]].
      apply in_map_iff. exists (p, q). split; auto. apply filter_In. split; auto. apply in_prod; auto. }
  assert (Hin : In (oidx o1, oidx o2) (map fst out)).
  { apply HI. apply in_map_iff. exists (o1, o2). split; auto. apply filter_In. split; auto. apply in_prod; auto. }
  apply in_map_iff in Hin as [[[a b] r] [E Hi]]. simpl in E. injection E; intros; subst. exists r. auto.
Qed.
Theorem C33_complete Q cat1 cat2 n mn mx us out ntot :
  cmetric (rP Q) = Euclidean -> crpar (rP Q) = None -> rbrute Q = BruteBoth ->
  rangeOK (cbin (rP Q)) mn mx -> posW cat1 -> posW cat2 -> cat1 <> [] -> cat2 <> [] ->
  NoDup (map oidx cat1) -> NoDup (map oidx cat2) ->
  (forall o1 o2, In o1 cat1 -> In o2 cat2 -> (mult cat1 (opos o1) * mult cat2 (opos o2) <= n)%nat) ->
  unitDraws us -> samplePairs Q cat1 cat2 n mn mx us out ntot -> (ntot <= n)%nat ->
  forall o1 o2, In o1 cat1 -> In o2 cat2 -> mn <= euclid (opos o1) (opos o2) < mx ->
    In (oidx o1, oidx o2, euclid (opos o1) (opos o2)) out.
Proof.
  intros HM Hr Hb HR P1 P2 E1 E2 N1 N2 HMu Hu HS Hle o1 o2 I1 I2 Hd.
  assert (HG := C33_brute Q cat1 cat2 n mn mx us out ntot HM Hr Hb HR P1 P2 E1 E2 N1 N2 (or_introl HMu) Hu HS).
  apply inRange_true in Hd. destruct (goodSample_complete _ _ _ _ _ _ _ N1 N2 HG Hle o1 o2 I1 I2 Hd) as [r Hi].
  destruct HG as [_ [_ [_ HG]]]. destruct (HG _ _ _ Hi) as [p [q [Ip [Iq [Ep [Eq [_ ->]]]]]]].
  rewrite (NoDup_map_inv_inj oidx cat1 p o1 N1 Ip I1 Ep) in Hi.
  rewrite (NoDup_map_inv_inj oidx cat2 q o2 N2 Iq I2 Eq) in Hi. exact Hi.
Qed.

(** ** The claim is false in general *)
(** Case 3 with 0 < k < n loses an entry: one list element is never written and stays (0, 0, 0.). *)
Definition smObj (x : R) (i : nat) : obj := exObj x 1 i.
Definition smCat1 : list obj := [smObj 0 0; smObj 0 1].
Definition smCat2 : list obj := [smObj 100 0; smObj (3/2) 1; smObj (7/4) 2; smObj (7/4) 3; smObj (7/4) 4].
Definition smLo : list obj := [smObj (3/2) 1; smObj (7/4) 2; smObj (7/4) 3; smObj (7/4) 4].
Definition smG : list obj := [smObj (7/4) 2; smObj (7/4) 3; smObj (7/4) 4].
Definition smQ : runcfg := exRun Euclidean exB BruteNo.
Definition smF : fparams := fieldParams smQ false.
Definition smC1 : cell := ListLeaf (dataN ThreeD smCat1) smCat1.
Definition smA : cell := Leaf (data1 (smObj (3/2) 1)) (smObj (3/2) 1).
Definition smB : cell := ListLeaf (dataN ThreeD smG) smG.
Definition smZ : cell := Leaf (data1 (smObj 100 0)) (smObj 100 0).
Ltac cen := unfold centroid; cbn; destruct (Req_EM_T _ 0); [lra|]; unfold pscale; cbn; f_equal; field; lra.
Ltac siz := unfold calculateSizeSq, normSq, psub; cbn; dmax; lra.
Lemma sm_cen1 : centroid ThreeD smCat1 = mkpos 0 0 0. Proof. unfold smCat1. cen. Qed.
Lemma sm_cen2 : centroid ThreeD smCat2 = mkpos (427/20) 0 0. Proof. unfold smCat2. cen. Qed.
Lemma sm_cenLo : centroid ThreeD smLo = mkpos (27/16) 0 0. Proof. unfold smLo. cen. Qed.
Lemma sm_cenG : centroid ThreeD smG = mkpos (7/4) 0 0. Proof. unfold smG. cen. Qed.
Lemma sm_size1 : calculateSizeSq (centroid ThreeD smCat1) smCat1 = 0. Proof. rewrite sm_cen1. unfold smCat1. siz. Qed.
Lemma sm_size2 : calculateSizeSq (centroid ThreeD smCat2) smCat2 = (100 - 427/20) * (100 - 427/20). Proof. rewrite sm_cen2. unfold smCat2. siz. Qed.
Lemma sm_sizeLo : calculateSizeSq (centroid ThreeD smLo) smLo = (3/16) * (3/16). Proof. rewrite sm_cenLo. unfold smLo. siz. Qed.
Lemma sm_sizeG : calculateSizeSq (centroid ThreeD smG) smG = 0. Proof. rewrite sm_cenG. unfold smG. siz. Qed.
Lemma split_x b : ymin b = 0 -> ymax b = 0 -> zmin b = 0 -> zmax b = 0 -> xmin b <= xmax b -> getSplit b = DX.
Proof. intros E1 E2 E3 E4 H. unfold getSplit. rewrite E1, E2, E3, E4. repeat (destruct Rlt_dec; try lra). auto. Qed.
Ltac bnd := apply split_x; unfold boundsOf; cbn; unfold bone, badd, upd_lo, upd_hi; cbn; repeat (destruct Rlt_dec; try lra).
Lemma sm_F : smF = mkF ThreeD Mean 0 (Fin 0) false 0 10.
Proof. unfold smF, fieldParams, getMinMaxSize. cbn. rewrite (Rmin_right (1 * 1 / (2 + 3 * 1)) (0 / 2)) by lra. rewrite (Rmin_right (1 * 3) 0) by lra. f_equal. lra. Qed.
Lemma sm_build1 : buildField smF smCat1 [smC1].
Proof.
  rewrite sm_F. exists [smCat1]. split.
  - apply top_stop. left. cbn [topSizeSq]. apply sm_size1.
  - constructor; [|constructor]. cbn [fcoord fsm fminsize fbrute]. apply b_list; [cbn; lia|]. rewrite sm_size1. lra.
Qed.
Lemma sm_build2 : buildField smF smCat2 [smA; smB; smZ].
Proof.
  rewrite sm_F. exists [[smObj (3/2) 1]; smG; [smObj 100 0]]. split.
  - cbn [fcoord fsm fmaxsize fmintop fmaxtop esq].
    change [[smObj (3/2) 1]; smG; [smObj 100 0]] with ([[smObj (3/2) 1]; smG] ++ [[smObj 100 0]]).
    apply top_split with (L := smLo) (R := [smObj 100 0]).
    + unfold topStop. cbn [topSizeSq smCat2]. fold smCat2. rewrite sm_size2. intros [H|[[H _]|H]]; [lra|lra|lia].
    + apply sd_ok; try discriminate. apply sc_mean; auto. cbv zeta.
      replace (getSplit (boundsOf smCat2)) with DX by (symmetry; unfold smCat2; bnd).
      rewrite sm_cen2. split; [|split; repeat constructor; cbn; lra].
      unfold smLo, smCat2. apply Permutation_sym, (Permutation_cons_append [smObj (3/2) 1; smObj (7/4) 2; smObj (7/4) 3; smObj (7/4) 4]).
    + change [[smObj (3/2) 1]; smG] with ([[smObj (3/2) 1]] ++ [smG]).
      apply top_split with (L := [smObj (3/2) 1]) (R := smG).
      * unfold topStop. cbn [topSizeSq smLo]. fold smLo. rewrite sm_sizeLo. intros [H|[[H _]|H]]; [lra|lra|lia].
      * apply sd_ok; try discriminate. apply sc_mean; auto. cbv zeta.
        replace (getSplit (boundsOf smLo)) with DX by (symmetry; unfold smLo; bnd).
        rewrite sm_cenLo. split; [|split; repeat constructor; cbn; lra]. apply Permutation_refl.
      * apply top_stop. left. reflexivity.
      * apply top_stop. left. cbn [topSizeSq smG]. apply sm_sizeG.
    + apply top_stop. left. reflexivity.
  - cbn [fcoord fsm fminsize fbrute]. constructor; [apply b_leaf|]. constructor; [|constructor; [apply b_leaf|constructor]].
    apply b_list; [cbn; lia|]. rewrite sm_sizeG. lra.
Qed.
(** Decisions for cells of size 0 on the x axis, range [1,3). *)
Definition smP : cparams := withRange (rP smQ) 1 3.
Lemma dec_in x y a b : getW a <> 0 -> getW b <> 0 -> getSize a = Fin 0 -> getSize b = Fin 0 ->
  getPos a = mkpos x 0 0 -> getPos b = mkpos y 0 0 -> 1 <= y - x < 3 ->
  decide11 smP a b = Direct ((x - y) * (x - y)) (-1) 0 0.
Proof.
  intros W1 W2 S1 S2 P1 P2 H. unfold decide11, smP, withRange, smQ, exRun, exB. cbn [rP cmetric crpar cbin btype slop_b slop_a nbins binsize].
  destruct (Req_EM_T (getW a) 0); [contradiction|]. destruct (Req_EM_T (getW b) 0); [contradiction|].
  rewrite S1, S2, P1, P2. cbn [effSize eadd distSq]. rewrite ng_dist.
  cbn [isRParOutsideRange isRParInsideRange]. unfold tooSmallDist, tooLargeDist, singleBin, isRSqInRange. cbn [minsep maxsep btype slop_a slop_b].
  assert (Hge : 1 <= (x - y) * (x - y)) by nra. assert (Hlt : (x - y) * (x - y) < 9) by nra.
  replace (0 + 0) with 0 by ring. unfold Rltb, Rleb, Rsqr.
  destruct (Rlt_dec ((x - y) * (x - y)) (1 * 1)); [lra|]. cbn [andb].
  destruct (Rle_dec (3 * 3) ((x - y) * (x - y))); [lra|]. cbn [andb].
  destruct (Rlt_dec (1 * 1 * ((x - y) * (x - y))) (0 * 0)); [lra|]. destruct (Rle_dec 0 0); [|lra].
  destruct (Rle_dec (1 * 1) ((x - y) * (x - y))); [|lra]. destruct (Rlt_dec ((x - y) * (x - y)) (3 * 3)); [|lra]. reflexivity.
Qed.
Lemma dec_far x y a b : getSize a = Fin 0 -> getSize b = Fin 0 ->
  getPos a = mkpos x 0 0 -> getPos b = mkpos y 0 0 -> 3 <= y - x -> decide11 smP a b = Drop.
Proof.
  intros S1 S2 P1 P2 H. unfold decide11, smP, withRange, smQ, exRun, exB. cbn [rP cmetric crpar cbin btype slop_b slop_a nbins binsize].
  destruct (Req_EM_T (getW a) 0); [reflexivity|]. destruct (Req_EM_T (getW b) 0); [reflexivity|].
  rewrite S1, S2, P1, P2. cbn [effSize eadd distSq]. rewrite ng_dist.
  cbn [isRParOutsideRange isRParInsideRange]. unfold tooSmallDist, tooLargeDist. cbn [minsep maxsep btype].
  assert (Hge : 9 <= (x - y) * (x - y)) by nra.
  unfold Rltb, Rleb, Rsqr. destruct (Rlt_dec ((x - y) * (x - y)) (1 * 1)); [lra|]. cbn [andb].
  destruct (Rle_dec (3 * 3) ((x - y) * (x - y))); [|lra]. destruct (Rle_dec ((3 + (0 + 0)) * (3 + (0 + 0))) ((x - y) * (x - y))); [|lra].
  reflexivity.
Qed.
Lemma sm_posC : getPos smC1 = mkpos 0 0 0. Proof. unfold getPos, smC1. cbn [getData dataN dpos]. apply sm_cen1. Qed.
Lemma sm_posB : getPos smB = mkpos (7/4) 0 0. Proof. unfold getPos, smB. cbn [getData dataN dpos]. apply sm_cenG. Qed.
Definition smE1 : event := directProcess11 smP false smC1 smA ((0 - 3/2) * (0 - 3/2)) (-1) 0 0.
Definition smE2 : event := directProcess11 smP false smC1 smB ((0 - 7/4) * (0 - 7/4)) (-1) 0 0.
Lemma sm_run : crossIters smP [smC1] [smA; smB; smZ] = [Some [smE1; smE2]].
Proof.
  unfold crossIters. cbn [map oconcat]. unfold run11.
  assert (E1 : process11 smP false (fuel11 smC1 smA) smC1 smA = Some [smE1]).
  { cbn [fuel11 depth smC1 smA Nat.add process11]. rewrite (dec_in 0 (3/2)); auto; try (cbn; lra). apply sm_posC. }
  assert (E2 : process11 smP false (fuel11 smC1 smB) smC1 smB = Some [smE2]).
  { cbn [fuel11 depth smC1 smB Nat.add process11]. rewrite (dec_in 0 (7/4)); auto; try (cbn; lra). apply sm_posC. apply sm_posB. }
  assert (E3 : process11 smP false (fuel11 smC1 smZ) smC1 smZ = Some []).
  { cbn [fuel11 depth smC1 smZ Nat.add process11]. rewrite (dec_far 0 100); auto; try (cbn; lra). apply sm_posC. }
  rewrite E1, E2, E3. reflexivity.
Qed.
Definition smOut (r1 r2 : R) : list entry := [(0%nat, 1%nat, r1); (1%nat, 2%nat, r2); (0%nat, 0%nat, 0); (1%nat, 3%nat, r2)].
Lemma sm_sample : exists r1 r2, samplePairs smQ smCat1 smCat2 4 1 3 [1/8; 4/7; 1/2; 3/5] (smOut r1 r2) 8.
Proof.
  exists (er smE1), (er smE2). exists [smC1], [smA; smB; smZ], [[smE1; smE2]], (mkS (smOut (er smE1) (er smE2)) 8), [].
  split; [apply sm_build1|]. split; [apply sm_build2|]. split; [|split; [|split; reflexivity]].
  - match goal with |- if ?c then _ else _ => assert (EX : c = false) end.
    { change (withRange (rP smQ) 1 3) with smP.
      change (fieldParams smQ (brute1 (rbrute smQ))) with smF. change (fieldParams smQ (brute2 (rbrute smQ))) with smF. rewrite sm_F.
      unfold crossEarlyExit, fieldCenter, fieldSize. cbn [fcoord]. rewrite sm_size1, sm_size2, sm_cen1, sm_cen2.
      rewrite sqrt_0, sqrt_square by lra. cbn [smP withRange cbin cmetric crpar rP smQ exRun exB effSize eadd distSq isRParOutsideRange minsep maxsep btype].
      rewrite ng_dist. unfold tooSmallDist, tooLargeDist, Rltb, Rleb, Rsqr. cbn [minsep maxsep btype].
      destruct (Rlt_dec ((0 - 427/20) * (0 - 427/20)) (1 * 1)); [lra|]. cbn [andb orb].
      destruct (Rle_dec (3 * 3) _); [|reflexivity]. destruct (Rle_dec ((3 + (0 + (100 - 427/20))) * (3 + (0 + (100 - 427/20)))) _); [lra|reflexivity]. }
    rewrite EX. change (withRange (rP smQ) 1 3) with smP. rewrite sm_run. reflexivity.
  - cbn [concat app sampleEvents]. 
    assert (S1 : sampleEvent 4 smE1 (mkS (repeat (0%nat, 0%nat, 0) 4) 0) [1/8; 4/7; 1/2; 3/5] =
      Some (mkS [(0%nat, 1%nat, er smE1); (1%nat, 1%nat, er smE1); (0%nat, 0%nat, 0); (0%nat, 0%nat, 0)] 2, [1/8; 4/7; 1/2; 3/5])) by reflexivity.
    rewrite S1.
    assert (S2 : sampleEvent 4 smE2 (mkS [(0%nat, 1%nat, er smE1); (1%nat, 1%nat, er smE1); (0%nat, 0%nat, 0); (0%nat, 0%nat, 0)] 2) [1/8; 4/7; 1/2; 3/5] =
      Some (mkS (smOut (er smE1) (er smE2)) 8, [])).
    { unfold sampleEvent, sampleFrom. cbn [s_k s_arr].
      change (length (getAllIndices (ec1 smE2)) * length (getAllIndices (ec2 smE2)))%nat with 6%nat.
      change (Nat.leb (2 + 6) 4) with false. change (Nat.leb 6 4) with false. cbv iota.
      change (2 + 6)%nat with 8%nat. rewrite (proj2 C34_example). reflexivity. }
    rewrite S2. reflexivity.
Qed.
Theorem C33_refuted : exists Q cat1 cat2 n mn mx us out ntot,
  validB (cbin (rP Q)) /\ slop_b (cbin (rP Q)) = 0 /\ cmetric (rP Q) = Euclidean /\ crpar (rP Q) = None /\
  mn = minsep (cbin (rP Q)) /\ mx = maxsep (cbin (rP Q)) /\ posW cat1 /\ posW cat2 /\
  NoDup (map oidx cat1) /\ NoDup (map oidx cat2) /\ unitDraws us /\
  samplePairs Q cat1 cat2 n mn mx us out ntot /\
  (* the pair (0, 0) is returned, with separation 0, but these objects are not in the range *)
  In (0%nat, 0%nat, 0) out /\
  forall o1 o2, In o1 cat1 -> In o2 cat2 -> oidx o1 = 0%nat -> oidx o2 = 0%nat -> mx <= euclid (opos o1) (opos o2).
Proof.
  destruct sm_sample as [r1 [r2 HS]].
  exists smQ, smCat1, smCat2, 4%nat, 1, 3, [1/8; 4/7; 1/2; 3/5], (smOut r1 r2), 8%nat.
  split; [apply exB_valid|]. repeat (split; [reflexivity|]).
  split; [intros o [<-|[<-|[]]]; cbn; lra|].
  split; [intros o H; cbn in H; repeat destruct H as [<-|H]; try contradiction; cbn; lra|].
  split; [repeat constructor; cbn; intuition lia|]. split; [repeat constructor; cbn; intuition lia|].
  split; [repeat constructor; lra|]. split; [exact HS|]. split; [cbn; auto|].
  intros o1 o2 H1 H2 E1 E2. cbn in H1, H2.
  assert (o1 = smObj 0 0) by (destruct H1 as [<-|[<-|[]]]; [auto|discriminate]).
  assert (o2 = smObj 100 0) by (repeat destruct H2 as [<-|H2]; try contradiction; auto; discriminate).
  subst. cbn [opos smObj exObj]. rewrite euclid_x. rabs.
Qed.

(** ** Every call has an outcome *)
Lemma floyd_seq m n : (n <= m)%nat -> forall c i rest, (i + c = n)%nat ->
  floyd m n (seq 0 i) (map (fun j => (INR j + 1/2) / INR m) (seq i c) ++ rest) = Some (seq 0 n, rest).
Proof.
  intros Hm. induction c as [|c IH]; intros i rest E.
  - assert (i = n) by lia. subst i. simpl. destruct rest; simpl; rewrite seq_length, Nat.leb_refl; auto.
  - cbn [seq map app]. cbn [floyd]. rewrite seq_length. replace (Nat.leb n i) with false by (symmetry; apply Nat.leb_gt; lia).
    assert (Hmp : 0 < INR m) by (apply lt_0_INR; lia).
    assert (D : draw ((INR i + 1/2) / INR m) m = i).
    { unfold draw. replace ((INR i + 1/2) / INR m * INR m) with (INR i + 1/2) by (field; lra).
      rewrite (trunc_eq _ (Z.of_nat i)) by (try lia; rewrite <- INR_IZR_INZ; lra). rewrite Nat2Z.id.
      destruct (Nat.eqb_spec i m); lia. }
    rewrite D. destruct (in_dec Nat.eq_dec i (seq 0 i)) as [H|H]; [apply in_seq in H; lia|].
    change [i] with [(0 + i)%nat]. rewrite <- seq_S. apply IH. lia.
Qed.
Lemma fisherYates_zeros m : forall c i full, exists full', forall rest, fisherYates m i c full (repeat 0 c ++ rest) = Some (full', rest).
Proof. induction c; intros i full; [exists full; reflexivity|]. apply IHc. Qed.
Lemma unitDraws_repeat c : unitDraws (repeat 0 c).
Proof. apply Forall_forall. intros x H. apply repeat_spec in H. subst. lra. Qed.
Lemma select_exists m n : (n <= m)%nat -> exists us sel, unitDraws us /\ forall rest, selectRandomFrom m n (us ++ rest) = Some (sel, rest).
Proof.
  intro Hm. unfold selectRandomFrom. destruct (Nat.ltb (3 * n) m).
  - exists (map (fun j => (INR j + 1/2) / INR m) (seq 0 n)), (seq 0 n). split.
    + apply Forall_forall. intros x Hx. apply in_map_iff in Hx as [j [<- Hj]]. apply in_seq in Hj.
      assert (Hmp : 0 < INR m) by (apply lt_0_INR; lia). assert (Hj1 : INR j + 1 <= INR m) by (rewrite <- S_INR; apply le_INR; lia).
      pose proof (pos_INR j). split.
      * apply Rmult_le_pos; [lra|]. left. apply Rinv_0_lt_compat; auto.
      * apply Rmult_le_reg_r with (INR m); auto. unfold Rdiv. rewrite Rmult_assoc, Rinv_l, Rmult_1_r by lra. lra.
    + intro rest. apply (floyd_seq m n Hm n 0 rest). auto.
  - destruct (fisherYates_zeros m n 0 (seq 0 m)) as [full' E]. exists (repeat 0 n), (firstn n full').
    split; [apply unitDraws_repeat|]. intro rest. rewrite E. auto.
Qed.
Lemma oneAtATime_exists n ps : forall s, exists c s', forall rest, oneAtATime n ps s (repeat 0 c ++ rest) = Some (s', rest).
Proof.
  induction ps as [|e ps IH]; intro s.
  - exists 0%nat, s. reflexivity.
  - simpl. destruct (Nat.leb n (s_k s)).
    + set (j := Z.to_nat (trunc (0 * INR (s_k s + 1)))).
      destruct (IH (mkS (if Nat.ltb j n then setAt j e (s_arr s) else s_arr s) (S (s_k s)))) as [c [s' H]].
      exists (S c), s'. intro rest. simpl. apply H.
    + destruct (IH (mkS (setAt (s_k s) e (s_arr s)) (S (s_k s)))) as [c [s' H]]. exists c, s'. exact H.
Qed.
Lemma sampleEvent_exists n e s : exists us s', unitDraws us /\ forall rest, sampleEvent n e s (us ++ rest) = Some (s', rest).
Proof.
  unfold sampleEvent, sampleFrom. set (m := (_ * _)%nat). destruct (Nat.leb_spec (s_k s + m) n).
  - eexists [], _. split; [constructor|]. reflexivity.
  - destruct (Nat.leb_spec m n).
    + destruct (oneAtATime_exists n (concat (rowsOf (getAllIndices (ec1 e)) (getAllIndices (ec2 e)) (er e))) s) as [c [s' H1]].
      exists (repeat 0 c), s'. split; [apply unitDraws_repeat|]. exact H1.
    + destruct (select_exists (s_k s + m) n) as [us [sel [Hu H1]]]; [lia|]. exists us.
      destruct (places (s_k s) 0 (putBack n (s_k s) (n - s_k s) sel) []) eqn:EP; eexists; (split; [exact Hu|]);
        intro rest; rewrite H1, EP; reflexivity.
Qed.
Lemma sampleEvents_exists n evs : forall s, exists us s', unitDraws us /\ sampleEvents n evs s us = Some (s', []).
Proof.
  induction evs as [|e evs IH]; intro s.
  - exists [], s. split; [constructor|auto].
  - destruct (sampleEvent_exists n e s) as [us1 [s1 [U1 H1]]]. destruct (IH s1) as [us2 [s2 [U2 H2]]].
    exists (us1 ++ us2), s2. split; [apply Forall_app; auto|]. simpl. rewrite H1. auto.
Qed.
Theorem C33_terminates Q cat1 cat2 n mn mx : cat1 <> [] -> cat2 <> [] -> validB (cbin (rP Q)) ->
  exists us out ntot, unitDraws us /\ samplePairs Q cat1 cat2 n mn mx us out ntot.
Proof.
  intros H1 H2 HV. unfold samplePairs, samplePairsWith.
  set (F1 := fieldParams Q (brute1 (rbrute Q))). set (F2 := fieldParams Q (brute2 (rbrute Q))). set (Pw := withRange (rP Q) mn mx).
  destruct (buildField_exists F1 cat1 H1) as [cells1 B1]. destruct (buildField_exists F2 cat2 H2) as [cells2 B2].
  assert (HE : exists evs, if crossEarlyExit Pw (fieldCenter F1 cat1) (fieldCenter F2 cat2) (fieldSize F1 cat1) (fieldSize F2 cat2)
     then evs = [] else map Some evs = crossIters Pw cells1 cells2).
  { destruct (crossEarlyExit _ _ _ _ _); [eauto|].
    apply (crossIters_total Pw (fst (getMinMaxSize (rP Q)))); [apply HV| |].
    - eapply run_wf; eauto.
    - eapply run_wf; eauto. }
  destruct HE as [evs HE]. destruct (sampleEvents_exists n (concat evs) (mkS (repeat (0%nat, 0%nat, 0) n) 0)) as [us [s [Hu HS]]].
  exists us, (firstn (Nat.min n (s_k s)) (s_arr s)), (s_k s). split; auto. exists cells1, cells2, evs, s, []. auto 10.
Qed.

(** ** Examples *)
Lemma mult_distinct cat p : NoDup (map opos cat) -> (mult cat p <= 1)%nat.
Proof. intro H. unfold mult. apply (proj1 (NoDup_count_occ posDec _) H). Qed.
Lemma exCat1_distinct : NoDup (map opos exCat1).
Proof. unfold exCat1. cbn. repeat (apply NoDup_cons; [cbn|]); try apply NoDup_nil; intuition;
  match goal with H : mkpos _ _ _ = _ |- _ => injection H; intros; lra end. Qed.
Lemma exCat2_distinct : NoDup (map opos exCat2).
Proof. unfold exCat2. cbn. repeat (apply NoDup_cons; [cbn|]); try apply NoDup_nil; intuition;
  match goal with H : mkpos _ _ _ = _ |- _ => injection H; intros; lra end. Qed.
Lemma exCat1_pos : posW exCat1.
Proof. intros o Ho. cbn in Ho. destruct Ho as [<-|[<-|[]]]; cbn; lra. Qed.
Lemma exCat2_pos : posW exCat2.
Proof. intros o Ho. cbn in Ho. destruct Ho as [<-|[<-|[<-|[]]]]; cbn; lra. Qed.
Lemma exCats_inRange : length (filter (fun oo => inRange euclid 1 3 (fst oo) (snd oo)) (list_prod exCat1 exCat2)) = 2%nat.
Proof.
  unfold exCat1, exCat2. cbn [list_prod map app]. unfold inRange. cbn [filter fst snd exObj opos]. rewrite !euclid_x.
  repeat match goal with |- context [Rabs ?x] =>
    first [replace (Rabs x) with x by (rewrite Rabs_right; lra) | replace (Rabs x) with (- x) by (rewrite Rabs_left; lra)] end.
  unfold Rleb, Rltb. repeat (destruct Rle_dec; try lra); repeat (destruct Rlt_dec; try lra); reflexivity.
Qed.
(** One pair is drawn out of the two in the range. *)
Example ex_C33_brute : exists us out ntot, unitDraws us /\
  samplePairs (exRun Euclidean exB BruteBoth) exCat1 exCat2 1 1 3 us out ntot /\
  ntot = 2%nat /\ goodSample (inRange euclid 1 3) (fun o1 o2 r => r = euclid (opos o1) (opos o2)) exCat1 exCat2 1 out ntot.
Proof.
  destruct (C33_terminates (exRun Euclidean exB BruteBoth) exCat1 exCat2 1 1 3) as [us [out [ntot [Hu H]]]];
    [discriminate|discriminate|apply exB_valid|].
  exists us, out, ntot. split; auto. split; auto.
  assert (G : goodSample (inRange euclid 1 3) (fun o1 o2 r => r = euclid (opos o1) (opos o2)) exCat1 exCat2 1 out ntot).
  { apply (C33_brute (exRun Euclidean exB BruteBoth) exCat1 exCat2 1 1 3 us); auto using exCat1_pos, exCat2_pos; try discriminate.
    - split; [discriminate|]. cbn. lra.
    - repeat constructor; cbn; intuition lia.
    - repeat constructor; cbn; intuition lia.
    - left. intros o1 o2 _ _. pose proof (mult_distinct exCat1 (opos o1) exCat1_distinct).
      pose proof (mult_distinct exCat2 (opos o2) exCat2_distinct). nia. }
  split; auto. destruct G as [E _]. rewrite E. apply exCats_inRange.
Qed.
Example ex_C33_complete : exists us out ntot, unitDraws us /\
  samplePairs (exRun Euclidean exB BruteBoth) exCat1 exCat2 5 1 3 us out ntot /\ In (0%nat, 1%nat, 5/2) out.
Proof.
  destruct (C33_terminates (exRun Euclidean exB BruteBoth) exCat1 exCat2 5 1 3) as [us [out [ntot [Hu H]]]];
    [discriminate|discriminate|apply exB_valid|].
  exists us, out, ntot. split; auto. split; auto.
  assert (HMu : forall o1 o2, In o1 exCat1 -> In o2 exCat2 -> (mult exCat1 (opos o1) * mult exCat2 (opos o2) <= 5)%nat).
  { intros o1 o2 _ _. pose proof (mult_distinct exCat1 (opos o1) exCat1_distinct).
    pose proof (mult_distinct exCat2 (opos o2) exCat2_distinct). nia. }
  assert (HR : rangeOK (cbin (rP (exRun Euclidean exB BruteBoth))) 1 3) by (split; [discriminate|]; cbn; lra).
  assert (N1 : NoDup (map oidx exCat1)) by (repeat constructor; cbn; intuition lia).
  assert (N2 : NoDup (map oidx exCat2)) by (repeat constructor; cbn; intuition lia).
  assert (E1 : exCat1 <> []) by discriminate. assert (E2 : exCat2 <> []) by discriminate.
  assert (G := C33_brute (exRun Euclidean exB BruteBoth) exCat1 exCat2 5 1 3 us out ntot eq_refl eq_refl eq_refl HR
                 exCat1_pos exCat2_pos E1 E2 N1 N2 (or_introl HMu) Hu H).
  destruct G as [Ent _]. rewrite exCats_inRange in Ent.
  assert (C := C33_complete (exRun Euclidean exB BruteBoth) exCat1 exCat2 5 1 3 us out ntot eq_refl eq_refl eq_refl HR
                 exCat1_pos exCat2_pos E1 E2 N1 N2 HMu Hu H ltac:(lia)).
  specialize (C (nth 0 exCat1 (exObj 0 1 0)) (nth 1 exCat2 (exObj 0 1 0))).
  cbn [nth exCat1 exCat2 exObj opos oidx] in C. rewrite euclid_x in C.
  replace (Rabs (0 - 5/2)) with (5/2) in C by (rewrite Rabs_left; lra). apply C; [cbn; auto|cbn; auto|lra].
Qed.
(** No brute force: the tree and bin_slop = 0. *)
Example ex_C33_slop0 : exists us out ntot, unitDraws us /\
  samplePairs (exRun Euclidean exB BruteNo) exCat1 exCat2 5 1 3 us out ntot /\
  ntot = 2%nat /\ goodSample (inRange euclid 1 3) (fun o1 o2 r => 1 <= r < 3) exCat1 exCat2 5 out ntot.
Proof.
  destruct (C33_terminates (exRun Euclidean exB BruteNo) exCat1 exCat2 5 1 3) as [us [out [ntot [Hu H]]]];
    [discriminate|discriminate|apply exB_valid|].
  exists us, out, ntot. split; auto. split; auto.
  destruct (C33_slop0 (exRun Euclidean exB BruteNo) exCat1 exCat2 5 1 3 2 us out ntot) as [E G];
    auto using exCat1_pos, exCat2_pos, exB_valid, exB_narrow; try (repeat constructor; cbn; intuition lia).
  - split; [discriminate|]. cbn. lra.
  - split; [lia|]. cbn. lra.
  - intros _ o1 o2 i Hi H1 H2. pose proof (exCats_off eq_refl o1 o2 i) as X. rewrite exB_edge in X. cbn [rP exRun cbin exB binsize].
    replace (1 + IZR i * 1) with (1 + IZR i) by ring. apply X; auto.
  - rewrite exCats_inRange in E. split; auto. apply G. lia.
Qed.

(** bin_slop = 0 with a maximum separation that is not a bin edge: a pair beyond the maximum is
    returned (the cell {1.7, 2.1} lies within the bin [1,3), its centre 1.9 is in the range [1,2)). *)
Definition unB : bparams := mkB BLinear 1 3 1 2 0 1.
Definition unQ : runcfg := mkR (mkC Euclidean None unB) ThreeD Mean BruteNo 0 0.
Definition unCat1 : list obj := [smObj 0 0].
Definition unCat2 : list obj := [smObj (17/10) 0; smObj (21/10) 1].
Definition unC1 : cell := Leaf (data1 (smObj 0 0)) (smObj 0 0).
Definition unC2 : cell := Node (dataN ThreeD unCat2) (Fin (sqrt (calculateSizeSq (centroid ThreeD unCat2) unCat2)))
  (Leaf (data1 (smObj (17/10) 0)) (smObj (17/10) 0)) (Leaf (data1 (smObj (21/10) 1)) (smObj (21/10) 1)).
Lemma un_cen : centroid ThreeD unCat2 = mkpos (19/10) 0 0. Proof. unfold unCat2. cen. Qed.
Lemma un_size : calculateSizeSq (centroid ThreeD unCat2) unCat2 = (2/10) * (2/10). Proof. rewrite un_cen. unfold unCat2. siz. Qed.
Lemma un_F : fieldParams unQ false = mkF ThreeD Mean 0 (Fin 0) false 0 0.
Proof. unfold fieldParams, getMinMaxSize. cbn. rewrite (Rmin_right (1 * 1 / (2 + 3 * 1)) (0 / 2)) by lra. rewrite (Rmin_right (1 * 3) 0) by lra. f_equal. lra. Qed.
Lemma un_build1 : buildField (fieldParams unQ false) unCat1 [unC1].
Proof.
  rewrite un_F. exists [unCat1]. split; [apply top_stop; left; reflexivity|]. constructor; [apply b_leaf|constructor].
Qed.
Lemma un_build2 : buildField (fieldParams unQ false) unCat2 [unC2].
Proof.
  rewrite un_F. exists [unCat2]. split; [apply top_stop; right; right; reflexivity|]. constructor; [|constructor].
  cbn [fcoord fsm fminsize fbrute]. apply (b_node ThreeD Mean (0 * 0) false unCat2 [smObj (17/10) 0] [smObj (21/10) 1]); [cbn; lia|rewrite un_size; lra| |apply b_leaf|apply b_leaf].
  apply sd_ok; try discriminate. apply sc_mean; auto. cbv zeta.
  replace (getSplit (boundsOf unCat2)) with DX by (symmetry; unfold unCat2; bnd).
  rewrite un_cen. split; [|split; repeat constructor; cbn; lra]. apply Permutation_refl.
Qed.
Definition unP : cparams := withRange (rP unQ) 1 2.
Lemma un_decide : decide11 unP unC1 unC2 = Direct ((0 - 19/10) * (0 - 19/10)) 0 (19/10) (ln (19/10)).
Proof.
  unfold decide11, unP, withRange, unQ, unB. cbn [rP cmetric crpar cbin btype slop_b slop_a nbins binsize].
  destruct (Req_EM_T (getW unC1) 0) as [E|_]; [cbn in E; lra|]. destruct (Req_EM_T (getW unC2) 0) as [E|_]; [cbn in E; lra|].
  unfold getSize, getPos. cbn [unC1 unC2 getData dataN data1 dpos opos smObj exObj]. rewrite un_size, un_cen, sqrt_square by lra.
  cbn [effSize eadd distSq]. rewrite ng_dist.
  cbn [isRParOutsideRange isRParInsideRange]. unfold tooSmallDist, tooLargeDist, singleBin, isRSqInRange. cbn [minsep maxsep btype slop_a slop_b binsize].
  unfold Rltb, Rleb, Rsqr.
  replace (sqrt ((0 - 19/10) * (0 - 19/10))) with (19/10) by (replace ((0 - 19/10) * (0 - 19/10)) with ((19/10) * (19/10)) by lra; rewrite sqrt_square; lra).
  destruct (Rlt_dec ((0 - 19/10) * (0 - 19/10)) (1 * 1)); [lra|]. cbn [andb].
  destruct (Rle_dec (2 * 2) ((0 - 19/10) * (0 - 19/10))); [lra|]. cbn [andb].
  destruct (Rlt_dec (1 * 1 * ((0 - 19/10) * (0 - 19/10))) ((0 + 2/10) * (0 + 2/10))); [lra|]. destruct (Rle_dec (0 + 2/10) 0); [lra|].
  destruct (Rlt_dec (1/2 * (2 + 0)) (0 + 2/10)); [lra|].
  rewrite (trunc_eq ((19/10 - 1) / 2) 0) by (try lia; lra).
  rewrite Rmin_left by lra. destruct (Rlt_dec (((19/10 - 1) / 2 - 0) * 2 + 0) (0 + 2/10)); [lra|].
  destruct (Rle_dec (1 * 1) ((0 - 19/10) * (0 - 19/10))); [|lra]. destruct (Rlt_dec ((0 - 19/10) * (0 - 19/10)) (2 * 2)); [|lra]. reflexivity.
Qed.
Theorem C33_unaligned_refuted : exists Q cat1 cat2 n mn mx out ntot,
  validB (cbin (rP Q)) /\ slop_b (cbin (rP Q)) = 0 /\ cmetric (rP Q) = Euclidean /\ crpar (rP Q) = None /\
  btype (cbin (rP Q)) = BLinear /\ minsep (cbin (rP Q)) <= mn /\ mx <= maxsep (cbin (rP Q)) /\ posW cat1 /\ posW cat2 /\
  samplePairs Q cat1 cat2 n mn mx [] out ntot /\
  exists o1 o2 r, In o1 cat1 /\ In o2 cat2 /\ In (oidx o1, oidx o2, r) out /\ mx < euclid (opos o1) (opos o2).
Proof.
  set (e := directProcess11 unP false unC1 unC2 ((0 - 19/10) * (0 - 19/10)) 0 (19/10) (ln (19/10))).
  exists unQ, unCat1, unCat2, 5%nat, 1, 2, [(0%nat, 0%nat, er e); (0%nat, 1%nat, er e)], 2%nat.
  split; [constructor; simpl; try lra; try lia; try discriminate; unfold edge; simpl; lra|].
  do 4 (split; [reflexivity|]). split; [cbn; lra|]. split; [cbn; lra|].
  split; [intros o [<-|[]]; cbn; lra|]. split; [intros o [<-|[<-|[]]]; cbn; lra|]. split.
  - eexists [unC1], [unC2], [[e]], _, []. split; [apply un_build1|]. split; [apply un_build2|]. split; [|split; [reflexivity|split; reflexivity]].
    match goal with |- if ?c then _ else _ => assert (EX : c = false) end.
    { change (withRange (rP unQ) 1 2) with unP. change (brute1 (rbrute unQ)) with false. change (brute2 (rbrute unQ)) with false. rewrite un_F.
      unfold crossEarlyExit, fieldCenter, fieldSize. cbn [fcoord]. rewrite un_size, un_cen.
      assert (C1 : centroid ThreeD unCat1 = mkpos 0 0 0) by (unfold unCat1; cen).
      assert (S1 : calculateSizeSq (centroid ThreeD unCat1) unCat1 = 0) by (rewrite C1; unfold unCat1; siz).
      rewrite S1, C1, sqrt_0, sqrt_square by lra. cbn [unP withRange cbin cmetric crpar rP unQ unB effSize eadd distSq isRParOutsideRange minsep maxsep btype].
      rewrite ng_dist. unfold tooSmallDist, tooLargeDist, Rltb, Rleb, Rsqr. cbn [minsep maxsep btype].
      destruct (Rlt_dec _ (1 * 1)); [lra|]. cbn [andb orb]. destruct (Rle_dec (2 * 2) _); [lra|reflexivity]. }
    rewrite EX. change (withRange (rP unQ) 1 2) with unP. unfold crossIters. cbn [map oconcat]. unfold run11.
    change (fuel11 unC1 unC2) with (S (Nat.pred (fuel11 unC1 unC2))). cbn [process11]. rewrite un_decide. reflexivity.
  - exists (smObj 0 0), (smObj (21/10) 1), (er e). split; [cbn; auto|]. split; [cbn; auto|]. split; [cbn; auto|].
    cbn [opos smObj exObj]. rewrite euclid_x. rabs.
Qed.
