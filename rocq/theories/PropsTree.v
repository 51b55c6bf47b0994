(** Tree building: C08, C09, C10, C49. *)
From Coq Require Import Reals Lra Lia List ZArith Bool Permutation Psatz.
From Verif Require Import Base Geometry Tree Traverse Run Spec SpecRun GeomFacts SumFacts TreeFacts
  BinFacts TravFacts Examples.
Import ListNotations.
Open Scope R_scope.

Lemma euclid_pd p q : euclid p q = pdist p q.
Proof. unfold euclid, pdist, norm, normSq, psub; simpl. f_equal; ring. Qed.

(** A cell of a field: a top-level cell or one below it. *)
Definition cellOf (cells : list cell) (c : cell) : Prop := exists t, In t cells /\ subcell c t.

(** ** C08 *)
Theorem C08_objects_preserved F cat cells : buildField F cat cells ->
  Permutation (flat_map getAllIndices cells) (map oidx cat) /\
  Permutation (flat_map objs cells) cat.
Proof.
  intro H. apply buildField_perm in H.
  assert (E : flat_map objs cells = concat (map objs cells)) by (rewrite flat_map_concat_map; auto).
  split; [|rewrite E; auto].
  assert (E2 : flat_map getAllIndices cells = map oidx (flat_map objs cells)).
  { clear. induction cells; simpl; auto. rewrite map_app. f_equal; auto. }
  rewrite E2. apply Permutation_map. rewrite E; auto.
Qed.
Theorem C08_cell_sums F cat cells c : 0 <= fminsize F -> buildField F cat cells -> cellOf cells c ->
  (0 < getN c)%nat /\ getN c = length (objs c) /\
  getW c = sumR ow (objs c) /\
  dwk (getData c) = sumR (fun o => ow o * okappa o) (objs c) /\
  dwg1 (getData c) = sumR (fun o => ow o * og1 o) (objs c) /\
  dwg2 (getData c) = sumR (fun o => ow o * og2 o) (objs c) /\
  (forall l r, getLeft c = Some l -> getRight c = Some r ->
     objs c = objs l ++ objs r /\ getN c = (getN l + getN r)%nat /\ getW c = getW l + getW r).
Proof.
  intros Hm H [t [Ht Hs]].
  assert (W : wf (fminsize F) t).
  { pose proof (buildField_wf F cat cells Hm H) as HF. rewrite Forall_forall in HF; auto. }
  assert (O := W c Hs).
  split.
  { rewrite (ok_n _ _ O). pose proof (ok_ne _ _ O). destruct (objs c); [congruence|simpl; lia]. }
  split; [apply O|]. split; [apply O|]. split; [apply O|]. split; [apply O|]. split; [apply O|].
  intros l r Hl Hr. destruct c as [| |d s l' r']; try discriminate.
  injection Hl; injection Hr; intros; subst. split; [reflexivity|].
  assert (Ol : okcell (fminsize F) l) by (apply W; eapply subcell_trans; [|exact Hs]; apply sub_l; apply sub_refl).
  assert (Or : okcell (fminsize F) r) by (apply W; eapply subcell_trans; [|exact Hs]; apply sub_r; apply sub_refl).
  rewrite (ok_n _ _ O), (ok_n _ _ Ol), (ok_n _ _ Or), (ok_w _ _ O), (ok_w _ _ Ol), (ok_w _ _ Or).
  simpl. rewrite app_length, sumR_app. auto.
Qed.
(** The top-level cells together have the totals of the catalog. *)
Theorem C08_field_totals F cat cells : 0 <= fminsize F -> buildField F cat cells ->
  sumR getW cells = sumR ow cat /\ sumR (fun c => INR (getN c)) cells = INR (length cat).
Proof.
  intros Hm H. pose proof (buildField_perm _ _ _ H) as HP.
  pose proof (buildField_wf F cat cells Hm H) as HF.
  split.
  - rewrite <- (sumR_perm ow _ _ HP). clear H HP. induction HF as [|c l Hc Hl IH]; simpl; auto.
    rewrite sumR_app, <- IH, (ok_w _ _ (wf_ok _ _ Hc)). auto.
  - rewrite <- (Permutation_length HP). clear H HP. induction HF as [|c l Hc Hl IH]; simpl; auto.
    rewrite app_length, plus_INR, IH, (ok_n _ _ (wf_ok _ _ Hc)). auto.
Qed.
Definition exF : fparams := mkF Flat Median (1/10) (Fin (1/2)) false 0 10.
Example C08_example : exists cells, buildField exF exCatA cells /\
  Permutation (flat_map getAllIndices cells) [0%nat; 1%nat; 2%nat].
Proof.
  destruct (buildField_exists exF exCatA) as [cells H]; [discriminate|].
  exists cells. split; auto. apply (C08_objects_preserved exF exCatA cells H).
Qed.

(** ** C09 *)
Theorem C09_size_bounds_members F cat cells c o x : 0 <= fminsize F -> buildField F cat cells ->
  cellOf cells c -> In o (objs c) -> getSize c = Fin x ->
  euclid (getPos c) (opos o) <= x + fminsize F /\
  (x <> 0 -> euclid (getPos c) (opos o) <= x).
Proof.
  intros Hm H [t [Ht Hs]] Ho Hx.
  assert (W : wf (fminsize F) t).
  { pose proof (buildField_wf F cat cells Hm H) as HF. rewrite Forall_forall in HF; auto. }
  assert (O := W c Hs). rewrite euclid_pd. split.
  - apply (member_within (fminsize F) c o x Hm O Ho Hx).
  - intro Hne. pose proof (ok_size _ _ O) as HS. destruct c; simpl in Hx;
      try (injection Hx; intros; subst; congruence).
    subst size. apply HS; auto.
Qed.
Theorem C09_exact_for_min_size_0 F cat cells c o x : fminsize F = 0 -> buildField F cat cells ->
  cellOf cells c -> In o (objs c) -> getSize c = Fin x -> euclid (getPos c) (opos o) <= x.
Proof.
  intros Hm H Hc Ho Hx. destruct (C09_size_bounds_members F cat cells c o x) as [H1 _]; auto; lra.
Qed.
Lemma calculateSizeSq_attained cen l : l <> [] ->
  exists o, In o l /\ calculateSizeSq cen l = Rmax 0 (normSq (psub cen (opos o))).
Proof.
  induction l as [|a l IH]; [congruence|]. intros _. destruct l as [|b l].
  - exists a. split; [left; auto|]. simpl. rewrite Rmax_comm. auto.
  - destruct IH as [o [Ho E]]; [discriminate|].
    cbn [calculateSizeSq]. cbn [calculateSizeSq] in E. rewrite E.
    destruct (Rle_dec (normSq (psub cen (opos a))) (Rmax 0 (normSq (psub cen (opos o))))).
    + exists o. split; [right; auto|]. apply Rmax_right; auto.
    + exists a. split; [left; auto|]. rewrite Rmax_left by lra. rewrite Rmax_right; auto.
      pose proof (Rmax_l 0 (normSq (psub cen (opos o)))). lra.
Qed.
(** The size is not larger than needed: some member is at exactly that distance. *)
Theorem C09_size_attained F cat cells c x : buildField F cat cells -> cellOf cells c ->
  (exists l r, getLeft c = Some l /\ getRight c = Some r) ->
  getSize c = Fin x -> exists o, In o (objs c) /\ euclid (getPos c) (opos o) = x.
Proof.
  intros [g [Hg Hf]] [t [Ht Hs]] [l0 [r0 [Hl _]]] Hx.
  assert (HB : exists lb, builds (fcoord F) (fsm F) (fminsize F * fminsize F) (fbrute F) lb t).
  { clear Hg Hs. induction Hf; simpl in Ht; [tauto|]. destruct Ht as [->|Ht]; eauto. }
  destruct HB as [lb HB]. destruct (builds_sub _ _ _ _ _ _ HB c Hs) as [lc HC].
  pose proof (builds_perm _ _ _ _ _ _ HC) as HP.
  destruct HC as [o|l L R cl cr Hlen Hsz HS HbL HbR|l Hlen Hsz]; try discriminate.
  simpl in Hx. destruct (fbrute F); [discriminate|]. injection Hx; intros; subst x.
  destruct (calculateSizeSq_attained (centroid (fcoord F) l) l) as [o [Ho E]].
  { intros ->. simpl in Hlen. lia. }
  exists o. split.
  - simpl objs. simpl objs in HP. eapply Permutation_in; [|exact Ho]. symmetry; auto.
  - rewrite euclid_pd. unfold pdist, norm, getPos; simpl. f_equal. rewrite E.
    rewrite Rmax_right; auto. unfold normSq. nra.
Qed.
(** The size of the whole field (used for the early exits) bounds all objects. *)
Theorem C09_field_size F cat o : In o cat -> euclid (fieldCenter F cat) (opos o) <= fieldSize F cat.
Proof. intro H. rewrite euclid_pd. apply size_bound; auto. Qed.
Example C09_example : exists cells c x, buildField exF exCatA cells /\ cellOf cells c /\ getSize c = Fin x.
Proof.
  destruct (buildField_exists exF exCatA) as [cells H]; [discriminate|].
  assert (Hne : cells <> []).
  { intros ->. apply buildField_perm in H. simpl in H. apply Permutation_nil in H. discriminate. }
  destruct cells as [|c cells]; [congruence|].
  exists (c :: cells), c. assert (E : exists x, getSize c = Fin x).
  { destruct H as [g [_ Hf]]. inversion Hf as [|lb c' g' cs HB HR E1 E2]; subst. inversion HB; subst; simpl; eauto. }
  destruct E as [x E]. exists x. split; auto. split; auto. exists c. split; [left; auto|apply sub_refl].
Qed.

(** ** C10 *)
Theorem C10_split_proper sm mp l L R : (2 <= length l)%nat -> splitData sm mp l L R ->
  L <> [] /\ R <> [] /\ Permutation (L ++ R) l /\ (length L < length l)%nat /\ (length R < length l)%nat.
Proof.
  intros Hl H. destruct (splitData_nonempty _ _ _ _ _ Hl H) as [H1 H2].
  destruct (splitData_lengths _ _ _ _ _ Hl H) as [H3 H4].
  split; auto. split; auto. split; [eapply splitData_perm; eauto|]. lia.
Qed.
(** Every outcome of the random or unspecified library calls can be completed to a tree. *)
Theorem C10_build_total F cat : cat <> [] ->
  (exists cells, buildField F cat cells) /\
  (forall l, (2 <= length l)%nat -> exists L R, splitData (fsm F) (centroid (fcoord F) l) l L R).
Proof. intro H. split; [apply buildField_exists; auto|intros; apply splitData_exists; auto]. Qed.
(** The recursion depth is less than the number of objects and the number of leaves is at most
    the number of objects. *)
Lemma builds_depth c sm m br l t : builds c sm m br l t ->
  (depth t < length l)%nat /\ (1 <= countLeaves t <= length l)%nat.
Proof.
  induction 1 as [o|l L R cl cr Hlen Hsz HS HbL IHL HbR IHR|l Hlen Hsz]; simpl; try lia.
  destruct (splitData_lengths _ _ _ _ _ Hlen HS) as [H3 H4].
  apply splitData_perm, Permutation_length in HS. rewrite app_length in HS. lia.
Qed.
Theorem C10_depth_bounded F cat cells c : buildField F cat cells -> In c cells ->
  (depth c < length cat)%nat /\ (1 <= countLeaves c <= length cat)%nat.
Proof.
  intros H Hc. pose proof (buildField_perm _ _ _ H) as HP. apply Permutation_length in HP.
  assert (HL : (length (objs c) <= length cat)%nat).
  { rewrite <- HP. apply in_split in Hc as [a [b ->]]. rewrite map_app, concat_app, app_length. simpl.
    rewrite app_length. lia. }
  destruct H as [g [_ Hf]].
  assert (HB : exists lb, builds (fcoord F) (fsm F) (fminsize F * fminsize F) (fbrute F) lb c).
  { clear HP. induction Hf; simpl in Hc; [tauto|]. destruct Hc as [->|Hc]; eauto. }
  destruct HB as [lb HB]. pose proof (builds_depth _ _ _ _ _ _ HB).
  pose proof (Permutation_length (builds_perm _ _ _ _ _ _ HB)). lia.
Qed.
(** Two objects at the same position: the partition by value is not proper, the fallback is. *)
Example C10_example : splitData Middle (mkpos 0 0 0) [exObj 1 1 0; exObj 1 1 1] [exObj 1 1 0] [exObj 1 1 1]
  /\ splitCore Middle (mkpos 0 0 0) [exObj 1 1 0; exObj 1 1 1] [] [exObj 1 1 0; exObj 1 1 1].
Proof.
  assert (H : splitCore Middle (mkpos 0 0 0) [exObj 1 1 0; exObj 1 1 1] [] [exObj 1 1 0; exObj 1 1 1]).
  { apply sc_middle; auto. cbv zeta. unfold boundsOf, badd, bone, upd_lo, upd_hi, getSplit, getMiddle; simpl.
    repeat destruct Rlt_dec; try (exfalso; lra); simpl;
      (split; [apply Permutation_refl|split; [constructor|repeat constructor; simpl; lra]]). }
  split; auto. eapply sd_fallback; [exact H|auto|]. apply sc_median; auto.
  split; [apply Permutation_refl|]. split; [reflexivity|].
  intros a b [<-|[]] [<-|[]]. destruct (getSplit _); simpl; lra.
Qed.

(** ** C49: number of top-level cells *)
Lemma setupTop_count c sm ms mi ma l g : setupTop c sm ms mi ma l g ->
  (1 <= length g)%nat /\ (Z.of_nat (length g) <= 2 ^ Z.max 0 ma)%Z.
Proof.
  induction 1 as [mi ma l Hst|mi ma l L R tl tr Hst HS HL IHL HR IHR].
  - split; [simpl; lia|]. simpl length. pose proof (Z.pow_pos_nonneg 2 (Z.max 0 ma) ltac:(lia) ltac:(lia)). lia.
  - rewrite app_length. split; [lia|].
    assert (Hma : (0 < ma)%Z).
    { destruct (Z_le_dec ma 0); [|lia]. exfalso. apply Hst. right; right; auto. }
    replace (Z.max 0 ma) with (Z.succ (Z.max 0 (ma - 1))) by lia.
    rewrite Z.pow_succ_r by lia. lia.
Qed.
Theorem C49_top_level_count F cat cells : buildField F cat cells ->
  (1 <= length cells)%nat /\ (Z.of_nat (length cells) <= 2 ^ Z.max 0 (fmaxtop F))%Z.
Proof.
  intros [g [Hg Hf]]. assert (HL : length g = length cells).
  { clear Hg. induction Hf; simpl; auto. }
  rewrite <- HL. eapply setupTop_count; eauto.
Qed.
(** Unless max_top stops the splitting, the top-level cells obey max_size. *)
Lemma setupTop_size c sm m mi ma l g : 0 <= m -> (Z.of_nat (length l) <= ma)%Z -> l <> [] ->
  setupTop c sm (Fin m) mi ma l g -> Forall (fun gl => topSizeSq c gl <= m) g.
Proof.
  intros Hm Hlen Hne H. revert Hlen Hne. remember (Fin m) as ms eqn:Em.
  induction H as [mi ma l Hst|mi ma l L R tl tr Hst HS HL IHL HR IHR]; intros Hlen Hne.
  - subst ms. constructor; auto. destruct Hst as [E|[[E _]|E]]; [lra|auto|].
    destruct l; [congruence|]. simpl in Hlen. lia.
  - assert (Hl : (2 <= length l)%nat).
    { destruct l as [|a [|b l]]; simpl; try lia; exfalso; apply Hst; left; reflexivity. }
    destruct (splitData_lengths _ _ _ _ _ Hl HS) as [H3 H4].
    apply Forall_app; split; [apply IHL|apply IHR]; auto; try lia; intros ->; simpl in *; lia.
Qed.
Lemma builds_topsize c sm m l t x : builds c sm m false l t -> getSize t = Fin x -> x * x <= topSizeSq c l.
Proof.
  intros H Hx. destruct H as [o|l L R cl cr Hlen Hsz HS HbL HbR|l Hlen Hsz];
    simpl in Hx; injection Hx; intros; subst.
  - simpl. lra.
  - replace (topSizeSq c l) with (calculateSizeSq (centroid c l) l)
      by (destruct l as [|a [|b l]]; simpl in Hlen; try lia; auto).
    rewrite sqrt_sqrt; [lra|]. apply calculateSizeSq_nonneg.
  - replace (topSizeSq c l) with (calculateSizeSq (centroid c l) l)
      by (destruct l as [|a [|b l]]; simpl in Hlen; try lia; auto).
    pose proof (calculateSizeSq_nonneg (centroid c l) l). lra.
Qed.
Theorem C49_top_level_size F cat cells m c x : cat <> [] -> fbrute F = false -> fmaxsize F = Fin m -> 0 <= m ->
  (Z.of_nat (length cat) <= fmaxtop F)%Z ->
  buildField F cat cells -> In c cells -> getSize c = Fin x -> x <= m.
Proof.
  intros Hne Hbr Hms Hm Hlen [g [Hg Hf]] Hc Hx. rewrite Hms in Hg. rewrite Hbr in Hf. simpl in Hg.
  assert (HF : Forall (fun gl => topSizeSq (fcoord F) gl <= m * m) g).
  { eapply setupTop_size; [| | |exact Hg]; auto. nra. }
  clear Hg. assert (HX : x * x <= m * m).
  { revert HF. induction Hf; intro HF; simpl in Hc; [tauto|]. inversion HF; subst.
    destruct Hc as [->|Hc]; auto. pose proof (builds_topsize _ _ _ _ _ _ H Hx). lra. }
  destruct (Rle_dec x m); auto. nra.
Qed.
Example C49_example : buildField (mkF Flat Median 0 (Fin (1/2)) false 0 1) [exObj 0 1 0; exObj 2 1 1]
  [Leaf (data1 (exObj 0 1 0)) (exObj 0 1 0); Leaf (data1 (exObj 2 1 1)) (exObj 2 1 1)].
Proof.
  exists [[exObj 0 1 0]; [exObj 2 1 1]]. split.
  - apply (top_split Flat Median _ 0 1 _ [exObj 0 1 0] [exObj 2 1 1] [[exObj 0 1 0]] [[exObj 2 1 1]]).
    + assert (HC : calculateSizeSq (centroid Flat [exObj 0 1 0; exObj 2 1 1]) [exObj 0 1 0; exObj 2 1 1] = 1).
      { unfold centroid; simpl. destruct Req_EM_T; [lra|]. unfold pscale, normSq, psub; simpl.
        replace (/ (1 + (1 + 0)) * (1 * 0 + (1 * 2 + 0))) with 1 by field.
        replace (/ (1 + (1 + 0)) * (1 * 0 + (1 * 0 + 0))) with 0 by field.
        rewrite (Rmax_left _ 0) by lra. rewrite Rmax_left; lra. }
      unfold topStop, topSizeSq. rewrite HC. simpl. intros [H|[[H _]|H]]; [lra|lra|lia].
    + apply sd_ok; try discriminate. apply sc_median; auto.
      split; [apply Permutation_refl|]. split; [reflexivity|].
      intros a b [<-|[]] [<-|[]]. destruct (getSplit _); simpl; lra.
    + apply top_stop. left; reflexivity.
    + apply top_stop. left; reflexivity.
  - repeat constructor.
Qed.
