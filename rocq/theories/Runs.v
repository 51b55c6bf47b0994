(** Exactness of whole runs (process_auto / process_cross calls). *)
From Coq Require Import Reals Lra Lia List ZArith Bool Permutation Psatz.
From Verif Require Import Base Geometry Tree Traverse Run Spec SpecRun GeomFacts SumFacts TreeFacts
  BinFacts TravFacts Exact MetricFacts Cover Lift.
Import ListNotations.
Open Scope R_scope.

(** Centres of all cells of a field satisfy D. *)
Definition centresOK (D : pos -> Prop) (F : fparams) (cat : list obj) (cells : list cell) : Prop :=
  (forall c, inTops cells c -> D (getPos c)) /\ D (fieldCenter F cat).
Lemma centres_any F cat cells : centresOK anyPos F cat cells.
Proof. split; intros; exact I. Qed.

Definition wposCond (f : afield) (cat : list obj) : Prop := forall o, In o cat -> wcond f o.

Lemma cells_ok0 F cat cells c : fminsize F = 0 -> buildField F cat cells -> inTops cells c -> okcell 0 c.
Proof.
  intros Hm B Hc. eapply inTops_wf; [|exact Hc]. rewrite <- Hm. eapply buildField_wf; eauto. lra.
Qed.

(** What makes a run exact: bin_slop = 0, or brute-force trees. *)
Definition zeroSlop (P : cparams) (cat1 cat2 : list obj) : Prop :=
  slop_b (cbin P) = 0 /\ narrowLog (cbin P) /\ offEdges (cbin P) (mdist (cmetric P)) cat1 cat2.

Lemma exactCond_slop P F1 F2 cat1 cat2 cells1 cells2 a b : zeroSlop P cat1 cat2 ->
  buildField F1 cat1 cells1 -> buildField F2 cat2 cells2 ->
  inTops cells1 a -> inTops cells2 b -> exactCond P a b.
Proof.
  intros [Hb0 [HN HE]] B1 B2 Ha Hb x o1 o2 Hx _ I1 I2. right. split; auto. split; auto.
  intros HL j Hj. apply HE; auto.
  - exact (inTops_obj_cat F1 cat1 cells1 a o1 B1 Ha I1).
  - exact (inTops_obj_cat F2 cat2 cells2 b o2 B2 Hb I2).
Qed.

Lemma lip_field P D1 D2 F1 F2 cat1 cat2 o1 o2 : lipM (cmetric P) D1 D2 -> crpar P = None ->
  D1 (fieldCenter F1 cat1) -> D2 (fieldCenter F2 cat2) -> In o1 cat1 -> In o2 cat2 ->
  validB (cbin P) ->
  crossEarlyExit P (fieldCenter F1 cat1) (fieldCenter F2 cat2) (fieldSize F1 cat1) (fieldSize F2 cat2) = true ->
  mdist (cmetric P) (opos o1) (opos o2) < minsep (cbin P) \/
  maxsep (cbin P) <= mdist (cmetric P) (opos o1) (opos o2).
Proof.
  intros HL Hr HD1 HD2 I1 I2 HB HX.
  destruct (HL (fieldCenter F1 cat1) (fieldCenter F2 cat2) (opos o1) (opos o2)
              (fieldSize F1 cat1) (fieldSize F2 cat2)) as [e1 [e2 [HE HA]]]; auto.
  { apply fieldSize_bound; auto. } { apply fieldSize_bound; auto. }
  destruct (earlyExit_sound P (fieldCenter F1 cat1) (fieldCenter F2 cat2)
    (fieldSize F1 cat1) (fieldSize F2 cat2) (opos o1) (opos o2) 0 HB) as [H|H]; auto.
  - apply fieldSize_nonneg.
  - apply fieldSize_nonneg.
  - intros x Hx. rewrite HE in Hx. simpl in Hx. injection Hx; intros; subst x.
    split; [lra|congruence].
  - exfalso. apply H. rewrite Hr. exact I.
  - lra.
Qed.

Lemma fieldParams_min0 R b : b = true \/ fst (getMinMaxSize (rP R)) = 0 ->
  fminsize (fieldParams R b) = 0.
Proof. intros [->|H]; simpl; auto. destruct b; auto. Qed.
Lemma fieldParams_min_nonneg R b : validB (cbin (rP R)) ->
  0 <= fminsize (fieldParams R b) <= fst (getMinMaxSize (rP R)).
Proof. intro HB. pose proof (minsize_nonneg _ HB). simpl. destruct b; lra. Qed.
Lemma okcell_mono m m' c : m <= m' -> okcell m c -> okcell m' c.
Proof.
  intros Hm []. constructor; auto. destruct c; auto.
  intros o Ho. eapply Rle_trans; [apply ok_size; auto|auto].
Qed.
Lemma run_wf R b cat cells : validB (cbin (rP R)) -> buildField (fieldParams R b) cat cells ->
  Forall (wf (fst (getMinMaxSize (rP R)))) cells.
Proof.
  intros HB H. pose proof (fieldParams_min_nonneg R b HB) as [H1 H2].
  eapply Forall_impl; [|eapply buildField_wf; eauto].
  intros c Hc c' Hs. eapply okcell_mono; eauto.
Qed.

(** bin_slop = 0, any metric with a Lipschitz bound *)
Lemma runCross_slop0 R D1 D2 f k cat1 cat2 s0 s1 :
  validB (cbin (rP R)) -> crpar (rP R) = None -> lipM (cmetric (rP R)) D1 D2 ->
  zeroSlop (rP R) cat1 cat2 -> prodField f -> wposCond f cat1 -> wposCond f cat2 ->
  (forall F cells, fcoord F = rcoord R -> buildField F cat1 cells -> centresOK D1 F cat1 cells) ->
  (forall F cells, fcoord F = rcoord R -> buildField F cat2 cells -> centresOK D2 F cat2 cells) ->
  runCross R cat1 cat2 s0 s1 ->
  aget f s1 k = aget f s0 k + sumR (specM (rP R) f k) (pairs cat1 cat2).
Proof.
  intros HB Hr HL HZ Hf Hw1 Hw2 HC1 HC2 [cells1 [cells2 [B1 [B2 H]]]].
  set (F1 := fieldParams R (brute1 (rbrute R))) in *.
  set (F2 := fieldParams R (brute2 (rbrute R))) in *.
  assert (Hm : fst (getMinMaxSize (rP R)) = 0) by (apply minsize_b0; auto; apply HZ).
  assert (Hm1 : fminsize F1 = 0) by (apply fieldParams_min0; auto).
  assert (Hm2 : fminsize F2 = 0) by (apply fieldParams_min0; auto).
  destruct (HC1 F1 cells1 eq_refl B1) as [HD1 HD1']. destruct (HC2 F2 cells2 eq_refl B2) as [HD2 HD2'].
  eapply (processCross_exact (rP R) f k F1 F2); eauto; try lra.
  - intros a b Ha Hb. split; [|split].
    + apply (pairOK_lip (rP R) D1 D2 a b HL Hr); auto.
      * exact (cells_ok0 F1 cat1 cells1 a Hm1 B1 Ha).
      * exact (cells_ok0 F2 cat2 cells2 b Hm2 B2 Hb).
    + eapply exactCond_slop; [exact HZ|exact B1|exact B2|exact Ha|exact Hb].
    + left; auto.
  - intros HX o1 o2 I1 I2. apply sel_not_range; auto. right.
    eapply (lip_field (rP R) D1 D2 F1 F2 cat1 cat2); eauto.
Qed.

Lemma goodPair_brute P f F1 F2 cat1 cat2 cells1 cells2 a b :
  fminsize F1 = 0 -> fminsize F2 = 0 -> fbrute F1 = true -> fbrute F2 = true ->
  buildField F1 cat1 cells1 -> buildField F2 cat2 cells2 ->
  inTops cells1 a -> inTops cells2 b -> goodPair P f a b.
Proof.
  intros Hm1 Hm2 Hb1 Hb2 B1 B2 Ha Hb.
  assert (O1 : okcell 0 a) by (eapply (cells_ok0 F1); eauto).
  assert (O2 : okcell 0 b) by (eapply (cells_ok0 F2); eauto).
  assert (T1 : bruteTree a) by (eapply inTops_brute; [|exact Ha]; eapply (buildField_brute F1); eauto).
  assert (T2 : bruteTree b) by (eapply inTops_brute; [|exact Hb]; eapply (buildField_brute F2); eauto).
  destruct (pairOK_brute P a b O1 O2 T1 T2) as [G1 G2]. split; [auto|split; auto].
  right. intros x Hx _. apply (brute_effSum P 0 a b x O1 O2 T1 T2 Hx).
Qed.

(** brute = True *)
Lemma runCross_brute R f k cat1 cat2 s0 s1 :
  validB (cbin (rP R)) -> rbrute R = BruteBoth ->
  wposCond f cat1 -> wposCond f cat2 ->
  (crossEarlyExit (rP R) (fieldCenter (fieldParams R true) cat1) (fieldCenter (fieldParams R true) cat2)
     (fieldSize (fieldParams R true) cat1) (fieldSize (fieldParams R true) cat2) = true ->
   forall o1 o2, In o1 cat1 -> In o2 cat2 -> selM (rP R) k o1 o2 = false) ->
  runCross R cat1 cat2 s0 s1 ->
  aget f s1 k = aget f s0 k + sumR (specM (rP R) f k) (pairs cat1 cat2).
Proof.
  intros HB Hbr Hw1 Hw2 HX [cells1 [cells2 [B1 [B2 H]]]].
  rewrite Hbr in *. cbn [brute1 brute2] in *.
  eapply (processCross_exact (rP R) f k _ _ cat1 cat2 cells1 cells2); eauto; try (simpl; lra).
  intros a b Ha Hb. eapply goodPair_brute; [| | | |exact B1|exact B2|exact Ha|exact Hb]; auto.
Qed.

Lemma runAuto_slop0 R f k cat s0 s1 :
  validB (cbin (rP R)) -> crpar (rP R) = None -> lipM (cmetric (rP R)) anyPos anyPos ->
  subEuclid (cmetric (rP R)) -> symM (cmetric (rP R)) ->
  zeroSlop (rP R) cat cat -> offMinSep (cbin (rP R)) (mdist (cmetric (rP R))) cat ->
  prodField f -> f <> FXiNK -> wposCond f cat ->
  runAuto R cat s0 s1 ->
  aget f s1 k = aget f s0 k + sumR (specM (rP R) f k) (upairs cat).
Proof.
  intros HB Hr HL HSub HSym HZ Hoff Hf Hnk Hw [cells [B H]].
  set (F := fieldParams R (bruteAuto (rbrute R))) in *.
  assert (Hm : fminsize F = 0) by (apply fieldParams_min0; right; apply minsize_b0; auto; apply HZ).
  eapply (processAuto_exact (rP R) f k F); eauto; try lra.
  - intros a b Ha Hb. split; [|split].
    + apply (pairOK_lip (rP R) anyPos anyPos a b HL Hr); try exact I.
      * exact (cells_ok0 F cat cells a Hm B Ha).
      * exact (cells_ok0 F cat cells b Hm B Hb).
    + eapply exactCond_slop; [exact HZ|exact B|exact B|exact Ha|exact Hb].
    + left; auto.
  - intros c Hc. apply selfOK_size; auto. eapply cells_ok0; eauto.
  - intros x y. apply specM_sym; auto.
Qed.

Lemma runAuto_brute R f k cat s0 s1 :
  validB (cbin (rP R)) -> crpar (rP R) = None -> rbrute R <> BruteNo ->
  posPeriod (cmetric (rP R)) -> symM (cmetric (rP R)) ->
  offMinSep (cbin (rP R)) (mdist (cmetric (rP R))) cat ->
  f <> FXiNK -> wposCond f cat ->
  runAuto R cat s0 s1 ->
  aget f s1 k = aget f s0 k + sumR (specM (rP R) f k) (upairs cat).
Proof.
  intros HB Hr Hbr HPer HSym Hoff Hnk Hw [cells [B H]].
  set (F := fieldParams R (bruteAuto (rbrute R))) in *.
  assert (Hb' : fbrute F = true) by (simpl; destruct (rbrute R); auto; congruence).
  assert (Hm' : fminsize F = 0) by (apply fieldParams_min0; left; exact Hb').
  eapply (processAuto_exact (rP R) f k F); eauto; try lra.
  - intros a b Ha Hb. eapply goodPair_brute; [| | | |exact B|exact B|exact Ha|exact Hb]; auto.
  - intros c Hc. apply selfOK_brute; auto.
    + apply minsep_nonneg; auto.
    + eapply cells_ok0; eauto.
    + eapply inTops_brute; [|exact Hc]. eapply (buildField_brute F); eauto.
  - intros x y. apply specM_sym; auto.
Qed.

(** ** Translation to the specification *)
Lemma spec_sumPairs P f k v sel cat1 cat2 :
  (forall o1 o2, In o1 cat1 -> In o2 cat2 -> selM P k o1 o2 = sel o1 o2) ->
  (forall o1 o2, pvalM P f o1 o2 = v o1 o2) ->
  sumR (specM P f k) (pairs cat1 cat2) = sumPairs sel v cat1 cat2.
Proof.
  intros HS HV. unfold sumPairs. apply sumR_ext. intros [o1 o2] Ho. apply in_pairs in Ho as [I1 I2].
  unfold specM; cbn [fst snd]. rewrite HS, HV by auto. auto.
Qed.
Lemma spec_sumUPairs P f k v sel cat :
  (forall o1 o2, In o1 cat -> In o2 cat -> selM P k o1 o2 = sel o1 o2) ->
  (forall o1 o2, pvalM P f o1 o2 = v o1 o2) ->
  sumR (specM P f k) (upairs cat) = sumUPairs sel v cat.
Proof.
  intros HS HV. unfold sumUPairs. apply sumR_ext. intros [o1 o2] Ho. apply in_upairs in Ho as [I1 I2].
  unfold specM; cbn [fst snd]. rewrite HS, HV by auto. auto.
Qed.
Lemma selM_selBin P k d o1 o2 : crpar P = None -> mdist (cmetric P) (opos o1) (opos o2) = d (opos o1) (opos o2) ->
  selM P k o1 o2 = selBin (cbin P) d k o1 o2.
Proof. intros Hr Hd. unfold selM, rparInb, selBin. rewrite Hr, andb_true_r, Hd. auto. Qed.

Lemma posW_cond f cat : posW cat -> wposCond f cat.
Proof. intros H o Ho. specialize (H o Ho). destruct f; simpl; lra. Qed.

(** ** Existence of runs *)
Lemma schedule_exists {A} (l : list A) : schedule l [l].
Proof. unfold schedule. simpl. rewrite app_nil_r. auto. Qed.
Lemma runCross_exists R cat1 cat2 s0 : validB (cbin (rP R)) -> cat1 <> [] -> cat2 <> [] ->
  exists s1, runCross R cat1 cat2 s0 s1.
Proof.
  intros HB H1 H2. unfold runCross, processCross.
  destruct (buildField_exists (fieldParams R (brute1 (rbrute R))) cat1 H1) as [cells1 B1].
  destruct (buildField_exists (fieldParams R (brute2 (rbrute R))) cat2 H2) as [cells2 B2].
  destruct (crossEarlyExit _ _ _ _ _) eqn:EX.
  - exists s0, cells1, cells2. auto.
  - destruct (crossIters_total (rP R) (fst (getMinMaxSize (rP R))) cells1 cells2) as [evs He].
    + apply HB.
    + eapply run_wf; eauto.
    + eapply run_wf; eauto.
    + exists (parallelRun s0 [evs]), cells1, cells2. split; auto. split; auto. exists evs, [evs].
      split; auto. split; auto. apply schedule_exists.
Qed.
Lemma runAuto_exists R cat s0 : validB (cbin (rP R)) -> cat <> [] -> exists s1, runAuto R cat s0 s1.
Proof.
  intros HB H1. unfold runAuto, processAuto.
  destruct (buildField_exists (fieldParams R (bruteAuto (rbrute R))) cat H1) as [cells B].
  destruct (autoIters_total (rP R) (fst (getMinMaxSize (rP R))) cells) as [evs He].
  - apply HB.
  - apply minsep_nonneg; auto.
  - eapply run_wf; eauto.
  - exists (parallelRun s0 [evs]), cells. split; auto. exists evs, [evs].
    split; auto. split; auto. apply schedule_exists.
Qed.

(** ** Centres of cells are centroids of parts of the catalog *)
Definition partOf (l cat : list obj) : Prop := l <> [] /\ exists l', Permutation (l ++ l') cat.
Lemma partOf_trans a b c : partOf a b -> partOf b c -> partOf a c.
Proof.
  intros [H1 [x Hx]] [_ [y Hy]]. split; auto. exists (x ++ y).
  eapply perm_trans; [|exact Hy]. rewrite app_assoc. apply Permutation_app_tail; auto.
Qed.
Lemma partOf_refl a : a <> [] -> partOf a a.
Proof. intro H; split; auto. exists []. rewrite app_nil_r; auto. Qed.
Lemma split_partOf sm mp l L R : (2 <= length l)%nat -> splitData sm mp l L R ->
  partOf L l /\ partOf R l.
Proof.
  intros Hl H. destruct (splitData_nonempty _ _ _ _ _ Hl H). apply splitData_perm in H.
  split; split; auto; [exists R|exists L]; auto.
  eapply perm_trans; [apply Permutation_app_comm|auto].
Qed.
Lemma builds_sub_part c sm m br l t : builds c sm m br l t -> forall t', subcell t' t ->
  exists l', partOf l' l /\ builds c sm m br l' t'.
Proof.
  induction 1; intros t' Hs; inversion Hs; subst.
  - exists [o]. split; [apply partOf_refl; discriminate|constructor].
  - exists l. split; [apply partOf_refl; intros ->; simpl in *; lia|eapply b_node; eauto].
  - destruct (IHbuilds1 t') as [l' [Hp Hb]]; auto. exists l'. split; auto.
    match goal with HS : splitData _ _ _ _ _, Hl : (2 <= _)%nat |- _ =>
      destruct (split_partOf _ _ _ _ _ Hl HS) end.
    eapply partOf_trans; eauto.
  - destruct (IHbuilds2 t') as [l' [Hp Hb]]; auto. exists l'. split; auto.
    match goal with HS : splitData _ _ _ _ _, Hl : (2 <= _)%nat |- _ =>
      destruct (split_partOf _ _ _ _ _ Hl HS) end.
    eapply partOf_trans; eauto.
  - exists l. split; [apply partOf_refl; intros ->; simpl in *; lia|apply b_list; auto].
Qed.
Lemma setupTop_part c sm ms mi ma l g : l <> [] -> setupTop c sm ms mi ma l g ->
  forall x, In x g -> partOf x l.
Proof.
  intros Hne H; revert Hne. induction H; intros Hne x Hx.
  - destruct Hx as [<-|[]]. apply partOf_refl; auto.
  - assert (Hl : (2 <= length l)%nat).
    { destruct l as [|a [|b l]]; [congruence| |simpl; lia]. exfalso; apply H; left; auto. }
    destruct (split_partOf _ _ _ _ _ Hl H0) as [HL HR].
    apply in_app_or in Hx as [Hx|Hx].
    + eapply partOf_trans; [apply IHsetupTop1; auto|auto]; apply HL.
    + eapply partOf_trans; [apply IHsetupTop2; auto|auto]; apply HR.
Qed.
Lemma centroid_one c o : c <> Sphere -> centroid c [o] = opos o.
Proof.
  intro Hc. unfold centroid. simpl. rewrite !Rplus_0_r. destruct Req_EM_T; auto.
  assert (HQ : pscale (/ owpos o) (mkpos (owpos o * px (opos o)) (owpos o * py (opos o)) (owpos o * pz (opos o)))
    = opos o).
  { unfold pscale; simpl. destruct (opos o); simpl. f_equal; field; auto. }
  rewrite HQ. destruct c; auto. congruence.
Qed.
Lemma getPos_centroid c sm m br l t : c <> Sphere -> builds c sm m br l t -> getPos t = centroid c l.
Proof. intros Hc H. destruct H; auto. rewrite centroid_one by auto. reflexivity. Qed.
Lemma cells_centroid F cat cells c : cat <> [] -> fcoord F <> Sphere -> buildField F cat cells ->
  inTops cells c -> exists l, partOf l cat /\ getPos c = centroid (fcoord F) l.
Proof.
  intros Hne Hc [g [Hg Hf]] [t [Ht Hs]].
  assert (exists x, In x g /\ builds (fcoord F) (fsm F) (fminsize F * fminsize F) (fbrute F) x t) as [x [Hx Hb]].
  { clear Hg. induction Hf; simpl in *; [tauto|]. destruct Ht as [<-|Ht]; [eauto|].
    destruct IHHf as [z [? ?]]; eauto. }
  destruct (builds_sub_part _ _ _ _ _ _ Hb c Hs) as [l [Hp Hl]].
  exists l. split; [|eapply getPos_centroid; eauto].
  eapply partOf_trans; eauto. eapply setupTop_part; eauto.
Qed.
