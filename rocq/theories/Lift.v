(** From cell pairs to whole runs. *)
From Coq Require Import Reals Lra Lia List ZArith Bool Permutation Psatz.
From Verif Require Import Base Geometry Tree Traverse Run Spec GeomFacts SumFacts TreeFacts BinFacts
  TravFacts Exact MetricFacts Cover.
Import ListNotations.
Open Scope R_scope.

(** ** Values including meanr and meanlogr *)
Definition pvalM (P : cparams) (f : afield) (o1 o2 : obj) : R :=
  match f with
  | FMeanr => v_ww o1 o2 * mdist (cmetric P) (opos o1) (opos o2)
  | FMeanlogr => v_ww o1 o2 * ln (mdist (cmetric P) (opos o1) (opos o2))
  | _ => pval f o1 o2
  end.
Definition specM (P : cparams) (f : afield) (k : Z) (oo : obj * obj) : R :=
  if selM P k (fst oo) (snd oo) then pvalM P f (fst oo) (snd oo) else 0.

(** the condition under which a field is exact for a cell pair *)
Definition fieldCond (P : cparams) (f : afield) (c1 c2 : cell) : Prop :=
  prodField f \/ forall x, effSum P c1 c2 = Fin x -> single P c1 c2 -> x = 0.

Lemma pvalM_W0 P f m c1 c2 o1 o2 : okcell m c1 -> okcell m c2 ->
  (forall o, In o (objs c1) -> wcond f o) -> (forall o, In o (objs c2) -> wcond f o) ->
  getW c1 = 0 \/ getW c2 = 0 -> In o1 (objs c1) -> In o2 (objs c2) -> pvalM P f o1 o2 = 0.
Proof.
  intros O1 O2 H1 H2 HW I1 I2.
  assert (HF : (prodField f /\ pvalM P f = pval f) \/
               (pval FWeight o1 o2 = 0 -> pvalM P f o1 o2 = 0) /\ (forall o, wcond f o -> wcond FWeight o)).
  { destruct f; simpl; auto; right; split; auto; intro Hz; rewrite Hz; ring. }
  destruct HF as [[Hf ->]|[Hf Hw]].
  - eapply (W0_pval f m c1 c2); eauto.
  - apply Hf. eapply (W0_pval FWeight m c1 c2); eauto; simpl; auto.
Qed.

Lemma drop_sum P f k m c1 c2 :
  validB (cbin P) -> okcell m c1 -> okcell m c2 ->
  (forall o, In o (objs c1) -> wcond f o) -> (forall o, In o (objs c2) -> wcond f o) ->
  pairOK P 0 c1 c2 -> exactCond P c1 c2 -> decide11 P c1 c2 = Drop ->
  sumR (specM P f k) (pairs (objs c1) (objs c2)) = 0.
Proof.
  intros HB O1 O2 Hw1 Hw2 HP HE HD. apply sumR_0. intros [o1 o2] Ho.
  apply in_pairs in Ho as [I1 I2]. unfold specM; cbn [fst snd].
  destruct (Req_dec (getW c1) 0) as [Hz|Hz]; [|destruct (Req_dec (getW c2) 0) as [Hz'|Hz']].
  - rewrite (pvalM_W0 P f m c1 c2 o1 o2) by auto. destruct selM; auto.
  - rewrite (pvalM_W0 P f m c1 c2 o1 o2) by auto. destruct selM; auto.
  - rewrite (drop_exact P m c1 c2); auto.
Qed.

Lemma direct_sum P f k m c1 c2 rsq k0 r lr :
  validB (cbin P) -> okcell m c1 -> okcell m c2 ->
  pairOK P 0 c1 c2 -> exactCond P c1 c2 -> fieldCond P f c1 c2 ->
  decide11 P c1 c2 = Direct rsq k0 r lr ->
  sumR (specM P f k) (pairs (objs c1) (objs c2)) =
  contrib f k (directProcess11 P false c1 c2 rsq k0 r lr).
Proof.
  intros HB O1 O2 HP HE HF HD.
  set (e := directProcess11 P false c1 c2 rsq k0 r lr).
  destruct (direct_ec P false c1 c2 rsq k0 r lr) as [Hc1 Hc2]. fold e in Hc1, Hc2.
  assert (He2 : ek2 e = None) by apply direct_ek2.
  rewrite (sumR_ext _ (fun oo => if (k =? ek e)%Z then pvalM P f (fst oo) (snd oo) else 0)).
  2:{ intros [o1 o2] Ho. apply in_pairs in Ho as [I1 I2]. unfold specM; cbn [fst snd].
      rewrite (direct_exact P false m c1 c2 rsq k0 r lr o1 o2 k); auto. }
  unfold contrib. rewrite He2. unfold hit.
  replace (match f with FNpairs => 0 | FWeight => 0 | FMeanr => 0 | FMeanlogr => 0 | FXiNK => 0 | FXiKK => 0 end) with 0
      by (destruct f; auto).
  destruct (k =? ek e)%Z; [|rewrite sumR_0; [lra|auto]].
  rewrite Rplus_0_r.
  assert (HC : prodField f \/ (f = FMeanr \/ f = FMeanlogr)) by (destruct f; simpl; auto).
  destruct HC as [Hp|Hm].
  { rewrite (evval_sum f m c1 c2 e) by auto. apply sumR_ext. intros [? ?] _.
    destruct f; simpl in Hp; try contradiction; reflexivity. }
  destruct HF as [Hp|HF]; [destruct Hm; subst f; contradiction|].
  (* all separations equal the separation of the centres *)
  destruct (decide_cases P c1 c2) as [[HC _]|[[k' [r' [lr' [HC [W1 [W2 [Hin [HS HRg]]]]]]]]|[a [b HC]]]];
      try (rewrite HC in HD; discriminate).
  rewrite HC in HD. injection HD; intros; subst rsq k' r' lr'.
  pose proof (distSq_nonneg (cmetric P) (getPos c1) (getPos c2)) as Hrsq.
  destruct (effSum P c1 c2) as [x|] eqn:ES; [|discriminate].
  assert (Hx0 : x = 0) by (apply HF; auto; eexists; rewrite ES; exact HS). subst x. rewrite <- ES in HS.
  apply isRSqInRange_iff in HRg; auto.
  assert (Hpos : btype (cbin P) = BLog -> 0 < sqrt (distSq (cmetric P) (getPos c1) (getPos c2))).
  { intro HT. pose proof (vb_minsep _ HB) as Hms. rewrite HT in Hms. lra. }
  destruct (direct_event P false c1 c2 k0 r lr HB HRg HS Hpos) as [_ [_ [Her [Hel _]]]].
  fold e in Her, Hel.
  set (D := mdist (cmetric P) (getPos c1) (getPos c2)).
  assert (Hd : forall o1 o2, In o1 (objs c1) -> In o2 (objs c2) ->
     mdist (cmetric P) (opos o1) (opos o2) = D).
  { intros o1 o2 I1 I2. destruct (HP 0 o1 o2 ES I1 I2) as [HL _]. apply Rabs_bounds in HL.
    unfold D. lra. }
  assert (HW : sumR (fun oo => v_ww (fst oo) (snd oo)) (pairs (objs c1) (objs c2)) =
               getW c1 * getW c2).
  { unfold v_ww. rewrite (sumR_pairs_prod ow ow), (ok_w _ _ O1), (ok_w _ _ O2). auto. }
  destruct Hm; subst f; unfold evval; rewrite Hc1, Hc2, ?Her, ?Hel, <- HW;
    change (sqrt (distSq (cmetric P) (getPos c1) (getPos c2))) with D; rewrite <- sumR_scal_r;
    apply sumR_ext; intros [o1 o2] Ho; apply in_pairs in Ho as [I1 I2]; unfold pvalM; cbn [fst snd];
    rewrite Hd; auto.
Qed.

(** ** Cross-correlation *)
Definition goodPair (P : cparams) (f : afield) (c1 c2 : cell) : Prop :=
  pairOK P 0 c1 c2 /\ exactCond P c1 c2 /\ fieldCond P f c1 c2.

Lemma crossIters_exact P f k m1 m2 cs1 cs2 evs :
  validB (cbin P) -> Forall (wf m1) cs1 -> Forall (wf m2) cs2 -> m1 = m2 ->
  (forall o, In o (allObjs cs1) -> wcond f o) -> (forall o, In o (allObjs cs2) -> wcond f o) ->
  (forall a b, inTops cs1 a -> inTops cs2 b -> goodPair P f a b) ->
  map Some evs = crossIters P cs1 cs2 ->
  sumR (contrib f k) (concat evs) = sumR (specM P f k) (pairs (allObjs cs1) (allObjs cs2)).
Proof.
  intros HB W1 W2 <- Hw1 Hw2 HG H. symmetry.
  eapply covers_sum; [apply cross_covers; eauto| |].
  - intros e [a [b [rsq [k0 [r [lr [Ha [Hb [HD ->]]]]]]]]].
    unfold evPairs. destruct (direct_ec P false a b rsq k0 r lr) as [-> ->].
    destruct (HG a b Ha Hb) as [G1 [G2 G3]].
    apply (direct_sum P f k m1); auto; (eapply inTops_wf; [|eassumption]; assumption).
  - intros [a b] [Ha [Hb HD]]. cbn [fst snd] in *. unfold cPairs; cbn [fst snd].
    destruct (HG a b Ha Hb) as [G1 [G2 G3]].
    apply (drop_sum P f k m1); auto; try (eapply inTops_wf; [|eassumption]; assumption).
    + intros; apply Hw1; eapply inTops_objs; eauto.
    + intros; apply Hw2; eapply inTops_objs; eauto.
Qed.

Lemma specM_pairs_perm P f k l1 l1' l2 l2' : Permutation l1 l1' -> Permutation l2 l2' ->
  sumR (specM P f k) (pairs l1 l2) = sumR (specM P f k) (pairs l1' l2').
Proof. intros. apply sumR_perm. apply pairs_perm; auto. Qed.

(** The tests made on the fields before starting: sound for a pair of objects that obeys the
    Lipschitz bound. *)
Lemma earlyExit_sound P p1 p2 s1 s2 q1 q2 e :
  validB (cbin P) -> 0 <= s1 -> 0 <= s2 ->
  (forall x, eadd (fst (effSize (cmetric P) p1 p2 (Fin s1) (Fin s2)))
                  (snd (effSize (cmetric P) p1 p2 (Fin s1) (Fin s2))) = Fin x ->
    Rabs (mdist (cmetric P) q1 q2 - mdist (cmetric P) p1 p2) <= x + e /\
    (crpar P <> None -> forall x', rparSize (cmetric P) p1 p2 (Fin x) = Fin x' ->
      Rabs (calculateRPar (cmetric P) q1 q2 - calculateRPar (cmetric P) p1 p2) <= x')) ->
  crossEarlyExit P p1 p2 s1 s2 = true ->
  ~ rparIn (cmetric P) (crpar P) q1 q2 \/
  mdist (cmetric P) q1 q2 < minsep (cbin P) + e \/
  maxsep (cbin P) - e <= mdist (cmetric P) q1 q2.
Proof.
  intros HB H1 H2 HL H. unfold crossEarlyExit in H.
  destruct (effSize (cmetric P) p1 p2 (Fin s1) (Fin s2)) as [e1 e2] eqn:EE. cbn [fst snd] in HL.
  pose proof (distSq_nonneg (cmetric P) p1 p2) as Hrsq.
  destruct (effSize_facts _ _ _ (Fin s1) (Fin s2) _ _ H1 H2 EE) as [E1 [E2 _]].
  rewrite !orb_true_iff, !andb_true_iff in H.
  destruct (eadd e1 e2) as [x|] eqn:ES.
  - assert (Hx : 0 <= x).
    { destruct e1, e2; simpl in *; try discriminate. injection ES; intros; lra. }
    destruct (HL x eq_refl) as [HA HR]. apply Rabs_bounds in HA. unfold mdist in *.
    destruct H as [[H|[H _]]|[H _]].
    + left. eapply rpar_outside_sound; eauto. apply HR. intro Hz; rewrite Hz in H; discriminate.
    + right; left. apply tooSmall_sound in H; auto. lra.
    + right; right. apply tooLarge_sound in H; auto. lra.
  - exfalso. destruct H as [[H|[H _]]|[H _]]; try discriminate.
    unfold isRParOutsideRange in H. destruct (crpar P) as [[lo hi]|]; try discriminate.
    destruct (cmetric P); discriminate.
Qed.

Lemma sel_not_range P k o1 o2 :
  validB (cbin P) ->
  ~ rparIn (cmetric P) (crpar P) (opos o1) (opos o2) \/
  mdist (cmetric P) (opos o1) (opos o2) < minsep (cbin P) \/
  maxsep (cbin P) <= mdist (cmetric P) (opos o1) (opos o2) ->
  selM P k o1 o2 = false.
Proof.
  intros HB H. destruct (selM P k o1 o2) eqn:E; auto. unfold selM in E.
  rewrite andb_true_iff, inBinb_true, rparInb_true in E. destruct E as [E1 E2].
  apply inBin_range in E1; auto. exfalso. destruct H as [H|H]; [auto|lra].
Qed.

Lemma fieldSize_bound F cat o : In o cat -> pdist (fieldCenter F cat) (opos o) <= fieldSize F cat.
Proof. apply size_bound. Qed.
Lemma fieldSize_nonneg F cat : 0 <= fieldSize F cat.
Proof. apply sqrt_pos. Qed.

(** processCross, exact, given the conditions on cells and on the field-level test. *)
Lemma processCross_exact P f k F1 F2 cat1 cat2 cells1 cells2 s0 s1 :
  validB (cbin P) -> 0 <= fminsize F1 -> fminsize F1 = fminsize F2 ->
  buildField F1 cat1 cells1 -> buildField F2 cat2 cells2 ->
  (forall o, In o cat1 -> wcond f o) -> (forall o, In o cat2 -> wcond f o) ->
  (forall a b, inTops cells1 a -> inTops cells2 b -> goodPair P f a b) ->
  (crossEarlyExit P (fieldCenter F1 cat1) (fieldCenter F2 cat2) (fieldSize F1 cat1) (fieldSize F2 cat2) = true ->
   forall o1 o2, In o1 cat1 -> In o2 cat2 -> selM P k o1 o2 = false) ->
  processCross P (fieldCenter F1 cat1) (fieldCenter F2 cat2) (fieldSize F1 cat1) (fieldSize F2 cat2)
    cells1 cells2 s0 s1 ->
  aget f s1 k = aget f s0 k + sumR (specM P f k) (pairs cat1 cat2).
Proof.
  intros HB Hm Hmm B1 B2 Hw1 Hw2 HG HX H. unfold processCross in H.
  pose proof (buildField_perm _ _ _ B1) as P1. pose proof (buildField_perm _ _ _ B2) as P2.
  destruct (crossEarlyExit P _ _ _ _) eqn:EX.
  - subst s1. rewrite sumR_0; [lra|]. intros [o1 o2] Ho. apply in_pairs in Ho as [I1 I2].
    unfold specM; cbn [fst snd]. rewrite HX; auto.
  - destruct H as [evs [threads [HE [HS ->]]]].
    rewrite (schedule_get f s0 evs threads k HS). f_equal.
    rewrite (specM_pairs_perm P f k cat1 (allObjs cells1) cat2 (allObjs cells2))
      by (symmetry; auto).
    eapply (crossIters_exact P f k (fminsize F1) (fminsize F2)); eauto.
    + eapply buildField_wf; eauto.
    + eapply buildField_wf; eauto. lra.
    + intros o Ho. apply Hw1. eapply Permutation_in; [exact P1|auto].
    + intros o Ho. apply Hw2. eapply Permutation_in; [exact P2|auto].
Qed.

(** ** Auto-correlation *)
Definition posPeriod (M : metric) : Prop :=
  match M with Periodic xp yp zp => 0 < xp /\ 0 < yp /\ 0 < zp | _ => True end.
Lemma distSq_refl M p : posPeriod M -> distSq M p p = 0.
Proof.
  intro HM.
  assert (HZ : normSq (psub p p) = 0) by (unfold normSq, psub; simpl; ring).
  assert (HC : normSq (cross p p) = 0) by (unfold normSq, cross; simpl; ring).
  destruct M; simpl in *; auto.
  - destruct Rlt_dec; [rewrite HC; unfold Rdiv; ring|].
    replace (normSq (pscale (1/2) (padd p p))) with (normSq p) in n
      by (unfold normSq, pscale, padd; simpl; field).
    pose proof (normSq_nonneg p). lra.
  - rewrite HC; unfold Rdiv; ring.
  - unfold norm. rewrite HZ, sqrt_0. unfold Rdiv. rewrite Rmult_0_l, asin_0. unfold Rsqr; ring.
  - unfold norm at 1. rewrite HC, sqrt_0. unfold Rdiv. rewrite Rmult_0_l, asin_0. unfold Rsqr; ring.
  - rewrite HZ. replace (normSq p - normSq p) with 0 by ring. unfold Rsqr, Rdiv. rewrite !Rmult_0_l, Rminus_0_r.
    apply Rabs_R0.
  - destruct HM as [Hx [Hy Hz]].
    assert (Hw : forall per, 0 < per -> wrap1 per 0 = 0).
    { intros per Hp. pose proof (wrap1_min per 0 0 Hp) as H. rewrite Rmult_0_l, Rplus_0_l, Rabs_R0 in H.
      apply Rabs_bounds in H. lra. }
    replace (psub p p) with (mkpos 0 0 0) by (unfold psub; f_equal; ring).
    unfold wrap; simpl. rewrite !Hw by auto. unfold normSq; simpl; ring.
Qed.

(** Metrics for which the separation never exceeds the ordinary distance. *)
Definition subEuclid (M : metric) : Prop := forall p q, mdist M p q <= pdist p q.
Lemma subEuclid_euclid : subEuclid Euclidean.
Proof. intros p q. rewrite mdist_euclid. lra. Qed.
Lemma subEuclid_periodic xp yp zp : 0 < xp -> 0 < yp -> 0 < zp -> subEuclid (Periodic xp yp zp).
Proof.
  intros Hx Hy Hz p q. unfold mdist, pdist. simpl distSq.
  change (sqrt (normSq ?p)) with (norm p).
  eapply Rle_trans; [apply (wrap_min xp yp zp (psub p q) 0 0 0); auto|].
  unfold shift. simpl. rewrite !Rmult_0_l, !Rplus_0_r. apply Rle_refl.
Qed.

Lemma pair_in_cell m c o1 o2 x : 0 <= m -> okcell m c -> getSize c = Fin x ->
  In o1 (objs c) -> In o2 (objs c) -> pdist (opos o1) (opos o2) <= 2 * (x + m).
Proof.
  intros Hm O Hs I1 I2.
  pose proof (member_within m c o1 x Hm O I1 Hs). pose proof (member_within m c o2 x Hm O I2 Hs).
  pose proof (pdist_triangle (opos o1) (getPos c) (opos o2)).
  rewrite (pdist_sym (opos o1) (getPos c)) in *. lra.
Qed.

(** What is needed of a rejected single cell: all its pairs are at or below min_sep. *)
Definition selfOK (P : cparams) (c : cell) : Prop :=
  eleb_fin (getSize c) (halfminsep (cbin P)) = true ->
  forall o1 o2, In o1 (objs c) -> In o2 (objs c) ->
    mdist (cmetric P) (opos o1) (opos o2) <= minsep (cbin P).

Lemma selfOK_size P c : subEuclid (cmetric P) -> okcell 0 c -> selfOK P c.
Proof.
  intros HS O H o1 o2 I1 I2. destruct (getSize c) as [x|] eqn:E; [|discriminate].
  simpl in H. apply Rleb_true in H. unfold halfminsep in H.
  pose proof (pair_in_cell 0 c o1 o2 x ltac:(lra) O E I1 I2). pose proof (HS (opos o1) (opos o2)). lra.
Qed.
Lemma selfOK_brute P c : posPeriod (cmetric P) -> 0 <= minsep (cbin P) -> okcell 0 c -> bruteTree c ->
  selfOK P c.
Proof.
  intros HM Hms O HB H o1 o2 I1 I2. destruct (getSize c) as [x|] eqn:E; [|discriminate].
  assert (x = 0).
  { destruct c; simpl in E; try congruence. apply brute_node in HB as [HB _]. congruence. }
  subst x. rewrite (brute_pos c o1), (brute_pos c o2) by auto.
  unfold mdist. rewrite distSq_refl by auto. rewrite sqrt_0; auto.
Qed.

Lemma self_sum P f k m c : validB (cbin P) -> okcell m c -> (forall o, In o (objs c) -> wcond f o) ->
  (forall o1 o2, In (o1, o2) (upairs (objs c)) ->
     mdist (cmetric P) (opos o1) (opos o2) <> minsep (cbin P)) ->
  selfOK P c ->
  getW c = 0 \/ eleb_fin (getSize c) (halfminsep (cbin P)) = true ->
  sumR (specM P f k) (upairs (objs c)) = 0.
Proof.
  intros HB O Hw Hne HS HD. apply sumR_0. intros [o1 o2] Ho. unfold specM; cbn [fst snd].
  pose proof (in_upairs _ _ _ Ho) as [I1 I2].
  destruct HD as [HW|HD].
  - rewrite (pvalM_W0 P f m c c o1 o2) by auto. destruct selM; auto.
  - rewrite sel_not_range; auto. right; left.
    pose proof (HS HD o1 o2 I1 I2). pose proof (Hne o1 o2 Ho). lra.
Qed.

Lemma upairs_sub {A} (l1 l2 : list A) p : In p (upairs l1) \/ In p (upairs l2) -> In p (upairs (l1 ++ l2)).
Proof.
  intro H. eapply Permutation_in; [symmetry; apply upairs_app|].
  rewrite !in_app_iff. tauto.
Qed.
Lemma subcell_upairs c0 c p : subcell c c0 -> In p (upairs (objs c)) -> In p (upairs (objs c0)).
Proof. intro Hs. induction Hs; simpl; auto; intro Ho; apply upairs_sub; auto. Qed.
Lemma inTops_upairs cs c p : inTops cs c -> In p (upairs (objs c)) -> In p (upairs (allObjs cs)).
Proof.
  intros [t [Ht Hs]] Ho. apply (subcell_upairs _ _ _ Hs) in Ho. clear Hs. unfold allObjs.
  induction cs as [|a cs IH]; simpl in *; [tauto|]. apply upairs_sub. destruct Ht as [->|Ht]; auto.
Qed.
Lemma in_upairs_perm {A} (l l' : list A) x y : Permutation l l' ->
  In (x, y) (upairs l) -> In (x, y) (upairs l') \/ In (y, x) (upairs l').
Proof.
  intro H. revert x y. induction H; intros u v Hin; auto.
  - simpl in *. rewrite in_app_iff, in_map_iff in Hin. destruct Hin as [[z [Hz Hi]]|Hin].
    + left. apply in_or_app. left. apply in_map_iff. exists z; split; auto. eapply Permutation_in; eauto.
    + destruct (IHPermutation _ _ Hin); [left|right]; apply in_or_app; auto.
  - cbn [upairs] in *. rewrite !in_app_iff, !in_map_iff in *.
    destruct Hin as [[z [Hz Hi]]|[[z [Hz Hi]]|Hin]]; auto.
    + destruct Hi as [<-|Hi].
      * right. left. exists y. split; [congruence|left; auto].
      * left. right. left. exists z; auto.
    + left. left. exists z. split; [auto|right; auto].
  - destruct (IHPermutation1 _ _ Hin) as [Hi|Hi]; destruct (IHPermutation2 _ _ Hi); auto.
Qed.

Lemma autoIters_exact P f k m cs evs :
  validB (cbin P) -> Forall (wf m) cs ->
  (forall o, In o (allObjs cs) -> wcond f o) ->
  (forall a b, inTops cs a -> inTops cs b -> goodPair P f a b) ->
  (forall c, inTops cs c -> selfOK P c) ->
  (forall o1 o2, In (o1, o2) (upairs (allObjs cs)) ->
     mdist (cmetric P) (opos o1) (opos o2) <> minsep (cbin P)) ->
  map Some evs = autoIters P cs ->
  sumR (contrib f k) (concat evs) = sumR (specM P f k) (upairs (allObjs cs)).
Proof.
  intros HB W Hw HG HS Hne H. symmetry.
  assert (Hrev : do_reverse (cbin P) = false).
  { unfold do_reverse. pose proof (vb_not2d _ HB). destruct (btype (cbin P)); auto; congruence. }
  assert (HO : forall c, inTops cs c -> okcell m c).
  { intros; eapply inTops_wf; eauto. }
  eapply autoCovers_sum; [apply auto_covers; eauto| | |].
  - rewrite Hrev. intros e [a [b [rsq [k0 [r [lr [Ha [Hb [HD ->]]]]]]]]].
    unfold evPairs. destruct (direct_ec P false a b rsq k0 r lr) as [-> ->].
    destruct (HG a b Ha Hb) as [G1 [G2 G3]].
    apply (direct_sum P f k m); auto.
  - intros [a b] [Ha [Hb HD]]. cbn [fst snd] in *. unfold cPairs; cbn [fst snd].
    destruct (HG a b Ha Hb) as [G1 [G2 G3]].
    apply (drop_sum P f k m); auto; intros; apply Hw; (eapply inTops_objs; [|eassumption]; assumption).
  - intros c [Hc HD]. apply (self_sum P f k m); auto.
    + intros; apply Hw; eapply inTops_objs; eauto.
    + intros; apply Hne; eapply inTops_upairs; eauto.
Qed.

Lemma processAuto_exact P f k F cat cells s0 s1 :
  validB (cbin P) -> 0 <= fminsize F -> buildField F cat cells ->
  (forall o, In o cat -> wcond f o) ->
  (forall a b, inTops cells a -> inTops cells b -> goodPair P f a b) ->
  (forall c, inTops cells c -> selfOK P c) ->
  (forall x y, specM P f k (x, y) = specM P f k (y, x)) ->
  (forall p q, mdist (cmetric P) p q = mdist (cmetric P) q p) ->
  (forall o1 o2, In (o1, o2) (upairs cat) ->
     mdist (cmetric P) (opos o1) (opos o2) <> minsep (cbin P)) ->
  processAuto P cells s0 s1 ->
  aget f s1 k = aget f s0 k + sumR (specM P f k) (upairs cat).
Proof.
  intros HB Hm BF Hw HG HS Hsym Hds Hne [evs [threads [HE [HSch ->]]]].
  pose proof (buildField_perm _ _ _ BF) as HP.
  rewrite (schedule_get f s0 evs threads k HSch). f_equal.
  rewrite (sumR_upairs_perm (specM P f k) cat (allObjs cells)) by (auto; symmetry; auto).
  eapply (autoIters_exact P f k (fminsize F)); eauto.
  - eapply buildField_wf; eauto.
  - intros o Ho. apply Hw. eapply Permutation_in; [exact HP|auto].
  - intros o1 o2 Ho. destruct (in_upairs_perm _ _ _ _ HP Ho) as [H|H].
    + apply Hne; auto.
    + rewrite Hds. apply Hne; auto.
Qed.

(** ** Symmetric metrics *)
Definition symM (M : metric) : Prop := forall p q, mdist M p q = mdist M q p.
Lemma symM_euclid : symM Euclidean.
Proof. intros p q. rewrite !mdist_euclid. apply pdist_sym. Qed.
Lemma normSq_sub_sym p q : normSq (psub p q) = normSq (psub q p).
Proof. unfold normSq, psub; simpl; ring. Qed.
Lemma normSq_cross_sym p q : normSq (cross p q) = normSq (cross q p).
Proof. unfold normSq, cross; simpl; ring. Qed.
Lemma padd_sym p q : padd p q = padd q p.
Proof. unfold padd; f_equal; ring. Qed.
Lemma wrap1_abs_neg per x : 0 < per -> Rabs (wrap1 per (- x)) = Rabs (wrap1 per x).
Proof.
  intro Hp. apply Rle_antisym.
  - destruct (wrap1_spec per x Hp) as [[j Hj] _]. rewrite Hj.
    pose proof (wrap1_min per (- x) (- j) Hp) as H. rewrite opp_IZR in H.
    replace (- x + - IZR j * per) with (- (x + IZR j * per)) in H by ring. rewrite Rabs_Ropp in H. auto.
  - destruct (wrap1_spec per (- x) Hp) as [[j Hj] _]. rewrite Hj.
    pose proof (wrap1_min per x (- j) Hp) as H. rewrite opp_IZR in H.
    replace (x + - IZR j * per) with (- (- x + IZR j * per)) in H by ring. rewrite Rabs_Ropp in H. auto.
Qed.
Lemma symM_other M : posPeriod M -> M <> Rlens -> symM M.
Proof.
  intros HM HR p q. unfold mdist. f_equal.
  destruct M; simpl; try congruence.
  - apply normSq_sub_sym.
  - rewrite (padd_sym p q), (normSq_cross_sym p q). destruct Rlt_dec; auto.
    rewrite padd_sym in n. set (L := pscale (1/2) (padd p q)) in n.
    assert (HL : normSq L = 0) by (pose proof (normSq_nonneg L); lra).
    apply normSq_0 in HL. unfold L, pscale, padd in HL. injection HL; intros.
    f_equal. unfold normSq. replace (px p) with (- px q) by lra.
    replace (py p) with (- py q) by lra. replace (pz p) with (- pz q) by lra. ring.
  - unfold norm. rewrite normSq_sub_sym. auto.
  - unfold norm. rewrite (normSq_cross_sym p q), (Rmult_comm (sqrt (normSq p))). auto.
  - rewrite (normSq_sub_sym p q), (Rmult_comm (normSq q)).
    rewrite (Rplus_comm (normSq q) (normSq p)).
    replace (Rsqr (normSq q - normSq p)) with (Rsqr (normSq p - normSq q)) by (unfold Rsqr; ring). auto.
  - destruct HM as [Hx [Hy Hz]].
    assert (HQ : forall per a b, 0 < per ->
       wrap1 per (a - b) * wrap1 per (a - b) = wrap1 per (b - a) * wrap1 per (b - a)).
    { intros per a b Hp. replace (b - a) with (- (a - b)) by ring.
      pose proof (wrap1_abs_neg per (a - b) Hp) as H. apply Rsqr_eq_asb_1 in H. unfold Rsqr in H. lra. }
    unfold normSq, wrap, psub; cbn [px py pz]. rewrite (HQ xp), (HQ yp), (HQ zp) by auto. auto.
Qed.

Lemma specM_sym P f k x y : symM (cmetric P) -> crpar P = None -> f <> FXiNK ->
  specM P f k (x, y) = specM P f k (y, x).
Proof.
  intros HS Hr Hf. unfold specM, selM, rparInb. rewrite Hr. cbn [fst snd].
  rewrite (HS (opos x)). destruct (inBinb _ _ _); simpl; auto.
  destruct f; try congruence; simpl; unfold v_one, v_ww, v_nk, v_kk; rewrite ?(HS (opos x)); ring.
Qed.

(** ** The cell sizes requested by python *)
Lemma minsize_nonneg P : validB (cbin P) -> 0 <= fst (getMinMaxSize P).
Proof.
  intro HB. pose proof (vb_a _ HB) as Ha. pose proof (vb_b _ HB) as Hb.
  pose proof (minsep_nonneg _ HB) as Hm.
  unfold getMinMaxSize. destruct (cmetric P); simpl; try lra.
  assert (HQ : forall t, 0 <= t -> 0 <= / (2 + 3 * t)) by (intros; apply Rinv_nonneg; lra).
  destruct (btype (cbin P)); simpl.
  - assert (0 <= Rmin (slop_a (cbin P)) (slop_b (cbin P))) by (apply Rmin_glb; auto).
    unfold Rdiv. repeat apply Rmult_le_pos; auto.
  - apply Rmin_glb; [|lra]. unfold Rdiv. repeat apply Rmult_le_pos; auto.
  - apply Rmin_glb; [|lra]. unfold Rdiv. repeat apply Rmult_le_pos; auto.
Qed.
Lemma minsize_b0 P : validB (cbin P) -> slop_b (cbin P) = 0 -> fst (getMinMaxSize P) = 0.
Proof.
  intros HB Hb0. pose proof (vb_a _ HB) as Ha. pose proof (minsep_nonneg _ HB) as Hm.
  unfold getMinMaxSize. destruct (cmetric P); simpl; auto.
  assert (0 <= / (2 + 3 * slop_a (cbin P))) by (apply Rinv_nonneg; lra).
  rewrite Hb0. destruct (btype (cbin P)); simpl.
  - rewrite Rmin_right by auto. unfold Rdiv. ring.
  - rewrite Rmin_right; [lra|]. unfold Rdiv. rewrite Rmult_0_l. repeat apply Rmult_le_pos; auto.
  - rewrite Rmin_right; [lra|]. unfold Rdiv. rewrite Rmult_0_l. repeat apply Rmult_le_pos; auto.
Qed.
Lemma minsize_metric P : cmetric P <> Euclidean -> fst (getMinMaxSize P) = 0.
Proof. intro H. unfold getMinMaxSize. destruct (cmetric P); auto; congruence. Qed.

Lemma inTops_obj_cat F cat cells c o : buildField F cat cells -> inTops cells c -> In o (objs c) ->
  In o cat.
Proof.
  intros B Hc Ho. eapply Permutation_in; [apply (buildField_perm _ _ _ B)|].
  eapply inTops_objs; eauto.
Qed.
