(** Invariants of tree building. *)
From Coq Require Import Reals Lra Lia List ZArith Bool Permutation Psatz Arith.
From Verif Require Import Base Geometry Tree GeomFacts SumFacts.
Import ListNotations.
Open Scope R_scope.

(** ** Splits *)
Lemma splitCore_perm sm mp l L R : splitCore sm mp l L R -> Permutation (L ++ R) l.
Proof.
  destruct 1 as [_ H|_ H|_ H|u _ _ H]; cbv zeta in H; destruct H as [H _]; exact H.
Qed.
Lemma splitData_perm sm mp l L R : splitData sm mp l L R -> Permutation (L ++ R) l.
Proof.
  destruct 1 as [H _ _|L' R' H1 _ H2].
  - eapply splitCore_perm; eauto.
  - apply splitCore_perm in H1. apply splitCore_perm in H2. eapply perm_trans; eauto.
Qed.

Lemma median_nonempty mp l L R : (2 <= length l)%nat -> splitCore Median mp l L R ->
  L <> [] /\ R <> [].
Proof.
  intros Hl H. destruct H as [H _|_ H|H _|u H _ _]; try discriminate.
  destruct H as [Hp [Hm _]]. apply Permutation_length in Hp. rewrite app_length in Hp.
  assert (1 <= length l / 2)%nat by (apply Nat.div_le_lower_bound; lia).
  assert (length l / 2 < length l)%nat by (apply Nat.div_lt; lia).
  split; intros ->; simpl in *; lia.
Qed.

(** C10: both halves are non-empty. *)
Lemma splitData_nonempty sm mp l L R : (2 <= length l)%nat -> splitData sm mp l L R ->
  L <> [] /\ R <> [].
Proof.
  intros Hl [H H1 H2|L' R' H1 H2 H3]; auto.
  apply splitCore_perm in H1. apply Permutation_length in H1.
  eapply median_nonempty; [|eauto]. lia.
Qed.
Lemma splitData_lengths sm mp l L R : (2 <= length l)%nat -> splitData sm mp l L R ->
  (1 <= length L < length l)%nat /\ (1 <= length R < length l)%nat.
Proof.
  intros Hl H. destruct (splitData_nonempty _ _ _ _ _ Hl H) as [HL HR].
  apply splitData_perm, Permutation_length in H. rewrite app_length in H.
  destruct L, R; simpl in *; try congruence; lia.
Qed.

(** The random index stays strictly inside for two or more elements, so Random never needs the
    fallback. *)
Lemma select_random_range n u : (2 <= n)%nat -> 0 <= u <= 1 ->
  (1 <= select_random (n - 3 * n / 5) (3 * n / 5) u < n)%nat.
Proof.
  intros Hn Hu. unfold select_random.
  assert (Hq : (1 <= 3 * n / 5)%nat) by (apply Nat.div_le_lower_bound; lia).
  assert (Hq2 : (3 * n / 5 < n)%nat) by (apply Nat.div_lt_upper_bound; lia).
  destruct (Nat.eqb_spec (n - 3 * n / 5) (3 * n / 5)).
  - lia.
  - destruct (Nat.ltb_spec (3 * n / 5)
        (Z.to_nat (trunc (u * INR (3 * n / 5 + 1 - (n - 3 * n / 5)))) + (n - 3 * n / 5))); lia.
Qed.

(** ** Existence of outcomes *)
Fixpoint insertBy (d : dim) (o : obj) (l : list obj) : list obj :=
  match l with
  | [] => [o]
  | a :: t => if Rle_dec (getDim d (opos o)) (getDim d (opos a)) then o :: l else a :: insertBy d o t
  end.
Fixpoint sortBy (d : dim) (l : list obj) : list obj :=
  match l with [] => [] | a :: t => insertBy d a (sortBy d t) end.
Inductive sortedBy (d : dim) : list obj -> Prop :=
  | sb_nil : sortedBy d []
  | sb_cons a l : (forall b, In b l -> getDim d (opos a) <= getDim d (opos b)) ->
      sortedBy d l -> sortedBy d (a :: l).
Lemma insertBy_perm d o l : Permutation (o :: l) (insertBy d o l).
Proof.
  induction l; simpl; auto. destruct Rle_dec; auto.
  eapply perm_trans; [apply perm_swap|]. constructor; auto.
Qed.
Lemma sortBy_perm d l : Permutation l (sortBy d l).
Proof. induction l; simpl; auto. eapply perm_trans; [|apply insertBy_perm]. constructor; auto. Qed.
Lemma insertBy_sorted d o l : sortedBy d l -> sortedBy d (insertBy d o l).
Proof.
  induction 1 as [|a l Ha Hl IH]; simpl.
  - constructor; [simpl; tauto|constructor].
  - destruct Rle_dec.
    + constructor; [|constructor; auto]. intros b [->|Hb]; auto. apply Ha in Hb. lra.
    + constructor; auto. intros b Hb.
      apply Permutation_in with (l' := o :: l) in Hb; [|symmetry; apply insertBy_perm].
      destruct Hb as [<-|Hb]; [lra|auto].
Qed.
Lemma sortBy_sorted d l : sortedBy d (sortBy d l).
Proof. induction l; simpl; [constructor|apply insertBy_sorted; auto]. Qed.
Lemma sortedBy_split d l n a b : sortedBy d l -> In a (firstn n l) -> In b (skipn n l) ->
  getDim d (opos a) <= getDim d (opos b).
Proof.
  intro H; revert n; induction H as [|x l Hx Hl IH]; intros n Ha Hb.
  - rewrite firstn_nil in Ha; simpl in Ha; tauto.
  - destruct n; [simpl in Ha; tauto|]. simpl in Ha, Hb. destruct Ha as [<-|Ha].
    + apply Hx. rewrite <- (firstn_skipn n l). apply in_or_app; auto.
    + eapply IH; eauto.
Qed.

Lemma nth_element_exists d mid l : (mid <= length l)%nat -> exists L R, nth_element_out d mid l L R.
Proof.
  intro H. exists (firstn mid (sortBy d l)), (skipn mid (sortBy d l)).
  split; [|split].
  - rewrite firstn_skipn. symmetry; apply sortBy_perm.
  - rewrite firstn_length. rewrite <- (Permutation_length (sortBy_perm d l)). lia.
  - intros a b. apply sortedBy_split. apply sortBy_sorted.
Qed.
Lemma partition_exists d v l : exists L R, partition_out d v l L R.
Proof.
  induction l as [|a l IH].
  - exists [], []. repeat split; auto.
  - destruct IH as [L [R [Hp [HL HR]]]]. destruct (Rlt_dec (getDim d (opos a)) v).
    + exists (a :: L), R. repeat split; simpl; auto.
    + exists L, (a :: R). repeat split; simpl; auto.
      symmetry. apply Permutation_cons_app. symmetry; auto.
Qed.
Lemma splitCore_exists sm mp l : (2 <= length l)%nat -> exists L R, splitCore sm mp l L R.
Proof.
  intro Hl. destruct sm.
  - destruct (partition_exists (getSplit (boundsOf l)) (getMiddle (boundsOf l) (getSplit (boundsOf l))) l)
      as [L [R H]]. exists L, R. apply sc_middle; auto.
  - destruct (nth_element_exists (getSplit (boundsOf l)) (length l / 2) l) as [L [R H]].
    + apply Nat.div_le_upper_bound; lia.
    + exists L, R. apply sc_median; auto.
  - destruct (partition_exists (getSplit (boundsOf l)) (getDim (getSplit (boundsOf l)) mp) l)
      as [L [R H]]. exists L, R. apply sc_mean; auto.
  - destruct (nth_element_exists (getSplit (boundsOf l))
       (select_random (length l - 3 * length l / 5) (3 * length l / 5) 0) l) as [L [R H]].
    + pose proof (select_random_range (length l) 0 Hl ltac:(lra)). lia.
    + exists L, R. apply sc_random with 0; auto; lra.
Qed.
Lemma splitData_exists sm mp l : (2 <= length l)%nat -> exists L R, splitData sm mp l L R.
Proof.
  intro Hl. destruct (splitCore_exists sm mp l Hl) as [L [R H]].
  assert (Hcase : (L <> [] /\ R <> []) \/ (L = [] \/ R = [])).
  { destruct L; [auto|]. destruct R; auto. left; split; discriminate. }
  destruct Hcase as [[H1 H2]|Hc].
  - exists L, R. apply sd_ok; auto.
  - assert (Hl' : (2 <= length (L ++ R))%nat).
    { rewrite (Permutation_length (splitCore_perm _ _ _ _ _ H)); auto. }
    destruct (splitCore_exists Median mp (L ++ R) Hl') as [L2 [R2 H2]].
    exists L2, R2. eapply sd_fallback; eauto.
Qed.

Lemma builds_exists c sm m br l : l <> [] -> exists t, builds c sm m br l t.
Proof.
  remember (length l) as n eqn:E. revert l E.
  induction n as [n IH] using lt_wf_ind. intros l E Hne.
  destruct l as [|a [|b l]]; [congruence| |].
  - eexists; apply b_leaf.
  - set (l0 := a :: b :: l) in *.
    assert (Hl : (2 <= length l0)%nat) by (unfold l0; simpl; lia).
    destruct (Rlt_dec m (calculateSizeSq (centroid c l0) l0)).
    + destruct (splitData_exists sm (centroid c l0) l0 Hl) as [L [R H]].
      destruct (splitData_nonempty _ _ _ _ _ Hl H) as [HL HR].
      destruct (splitData_lengths _ _ _ _ _ Hl H) as [H1 H2].
      destruct (IH (length L) ltac:(lia) L eq_refl HL) as [tl Htl].
      destruct (IH (length R) ltac:(lia) R eq_refl HR) as [tr Htr].
      eexists. eapply b_node; eauto.
    + eexists. apply b_list; auto. lra.
Qed.

Lemma topStop_dec c ms mi ma l : topStop c ms mi ma l \/ ~ topStop c ms mi ma l.
Proof.
  unfold topStop. destruct (Req_dec (topSizeSq c l) 0); auto.
  destruct (Z_le_dec mi 0); destruct (Z_le_dec ma 0); auto.
  - destruct ms as [x|]; auto. destruct (Rle_dec (topSizeSq c l) x); auto.
    right. intros [?|[[? ?]|?]]; auto.
  - right. intros [?|[[? ?]|?]]; auto.
Qed.
Lemma setupTop_exists c sm ms mi ma l : l <> [] -> exists g, setupTop c sm ms mi ma l g.
Proof.
  remember (length l) as n eqn:E. revert l mi ma E.
  induction n as [n IH] using lt_wf_ind. intros l mi ma E Hne.
  destruct (topStop_dec c ms mi ma l) as [H|H].
  - eexists; apply top_stop; auto.
  - assert (Hl : (2 <= length l)%nat).
    { destruct l as [|a [|b l]]; [congruence| |simpl; lia]. exfalso; apply H; left; auto. }
    destruct (splitData_exists sm (centroid c l) l Hl) as [L [R HS]].
    destruct (splitData_nonempty _ _ _ _ _ Hl HS) as [HL HR].
    destruct (splitData_lengths _ _ _ _ _ Hl HS) as [H1 H2].
    destruct (IH (length L) ltac:(lia) L (mi-1)%Z (ma-1)%Z eq_refl HL) as [tl Htl].
    destruct (IH (length R) ltac:(lia) R (mi-1)%Z (ma-1)%Z eq_refl HR) as [tr Htr].
    eexists. eapply top_split; eauto.
Qed.

Lemma setupTop_perm c sm ms mi ma l g : setupTop c sm ms mi ma l g -> Permutation (concat g) l.
Proof.
  induction 1; simpl.
  - rewrite app_nil_r; auto.
  - rewrite concat_app. eapply perm_trans; [apply Permutation_app; eauto|].
    eapply splitData_perm; eauto.
Qed.
Lemma setupTop_nonempty c sm ms mi ma l g : l <> [] -> setupTop c sm ms mi ma l g ->
  Forall (fun x => x <> []) g.
Proof.
  intros Hne H; revert Hne. induction H; intro Hne.
  - constructor; auto.
  - assert (Hl : (2 <= length l)%nat).
    { destruct l as [|a [|b l]]; [congruence| |simpl; lia]. exfalso; apply H; left; auto. }
    destruct (splitData_nonempty _ _ _ _ _ Hl H0).
    apply Forall_app; split; auto.
Qed.
Lemma buildField_exists F cat : cat <> [] -> exists cells, buildField F cat cells.
Proof.
  intro Hne. destruct (setupTop_exists (fcoord F) (fsm F) (esq (fmaxsize F)) (fmintop F) (fmaxtop F) cat Hne)
    as [g Hg].
  assert (Hg' := setupTop_nonempty _ _ _ _ _ _ _ Hne Hg).
  assert (exists cells, Forall2 (builds (fcoord F) (fsm F) (fminsize F * fminsize F) (fbrute F)) g cells).
  { clear Hg. induction Hg' as [|x g Hx Hg IH].
    - exists []; constructor.
    - destruct IH as [cs Hcs]. destruct (builds_exists (fcoord F) (fsm F) (fminsize F * fminsize F) (fbrute F) x Hx) as [t Ht].
      exists (t :: cs). constructor; auto. }
  destruct H as [cells H]. exists cells, g. auto.
Qed.

(** ** Sizes *)
Lemma calculateSizeSq_nonneg cen l : 0 <= calculateSizeSq cen l.
Proof. induction l; simpl; [lra|]. eapply Rle_trans; [|apply Rmax_r]; auto. Qed.
Lemma calculateSizeSq_bound cen l o : In o l -> normSq (psub cen (opos o)) <= calculateSizeSq cen l.
Proof.
  induction l; simpl; [tauto|]. intros [->|H].
  - apply Rmax_l.
  - eapply Rle_trans; [|apply Rmax_r]; auto.
Qed.
Lemma size_bound cen l o : In o l -> pdist cen (opos o) <= sqrt (calculateSizeSq cen l).
Proof. intro H. apply sqrt_le_1_alt. apply calculateSizeSq_bound; auto. Qed.

(** ** Well-formed cells *)
Inductive subcell : cell -> cell -> Prop :=
  | sub_refl c : subcell c c
  | sub_l c d s l r : subcell c l -> subcell c (Node d s l r)
  | sub_r c d s l r : subcell c r -> subcell c (Node d s l r).

Lemma subcell_trans a b c : subcell a b -> subcell b c -> subcell a c.
Proof. intros H1 H2. revert H1.
  induction H2; intros; auto; [apply sub_l|apply sub_r]; auto.
Qed.

(** [m] is the min_size of the field. *)
Record okcell (m : R) (c : cell) : Prop := mkok {
  ok_w : getW c = sumR ow (objs c);
  ok_n : getN c = length (objs c);
  ok_wk : dwk (getData c) = sumR (fun o => ow o * okappa o) (objs c);
  ok_wg1 : dwg1 (getData c) = sumR (fun o => ow o * og1 o) (objs c);
  ok_wg2 : dwg2 (getData c) = sumR (fun o => ow o * og2 o) (objs c);
  ok_ne : objs c <> [];
  ok_size : match c with
            | Leaf _ o => getPos c = opos o
            | ListLeaf _ os => forall o, In o os -> pdist (getPos c) (opos o) <= m
            | Node _ s l r =>
                match s with
                | Inf => True
                | Fin x => 0 < x /\ forall o, In o (objs c) -> pdist (getPos c) (opos o) <= x
                end
            end }.
Definition wf (m : R) (c : cell) : Prop := forall c', subcell c' c -> okcell m c'.
(** Brute trees: every internal node has infinite size. *)
Definition bruteTree (c : cell) : Prop :=
  forall c', subcell c' c -> match c' with Node _ s _ _ => s = Inf | _ => True end.

Lemma wf_sub m c c' : wf m c -> subcell c' c -> wf m c'.
Proof. intros H Hs c'' Hs'. apply H. eapply subcell_trans; eauto. Qed.
Lemma wf_node m d s l r : wf m (Node d s l r) -> wf m l /\ wf m r.
Proof.
  intro H; split; apply (wf_sub _ _ _ H); [apply sub_l|apply sub_r]; apply sub_refl.
Qed.
Lemma wf_ok m c : wf m c -> okcell m c.
Proof. intro H; apply H; apply sub_refl. Qed.
Lemma brute_node d s l r : bruteTree (Node d s l r) -> s = Inf /\ bruteTree l /\ bruteTree r.
Proof.
  intro H. split; [|split].
  - apply (H (Node d s l r)). apply sub_refl.
  - intros c' Hc. apply H. apply sub_l; auto.
  - intros c' Hc. apply H. apply sub_r; auto.
Qed.

Lemma builds_perm c sm m br l t : builds c sm m br l t -> Permutation (objs t) l.
Proof.
  induction 1; simpl; auto. eapply perm_trans; [apply Permutation_app; eauto|].
  eapply splitData_perm; eauto.
Qed.
Lemma builds_ne c sm m br l t : builds c sm m br l t -> l <> [].
Proof. destruct 1; try discriminate; intros ->; simpl in *; lia. Qed.

Lemma Permutation_in_iff {A} (l l' : list A) : Permutation l l' -> forall x, In x l <-> In x l'.
Proof.
  intros H x; split; apply Permutation_in; auto. symmetry; auto.
Qed.

Lemma builds_ok c sm m br l t : 0 <= m -> builds c sm (m * m) br l t -> okcell m t.
Proof.
  intros Hm H. pose proof (builds_perm _ _ _ _ _ _ H) as Hp.
  pose proof (builds_ne _ _ _ _ _ _ H) as Hne.
  assert (Hne' : objs t <> []).
  { intro Hz. rewrite Hz in Hp. apply Permutation_nil in Hp. auto. }
  destruct H as [o|l L R cl cr Hl Hsz HS HbL HbR|l Hl Hsz].
  - constructor; simpl; auto; unfold getW; simpl; lra.
  - constructor; auto; unfold getW, getN; cbn [getData dataN dw dn dwk dwg1 dwg2].
    + symmetry; apply sumR_perm; auto.
    + symmetry; apply Permutation_length; auto.
    + symmetry; apply sumR_perm; auto.
    + symmetry; apply sumR_perm; auto.
    + symmetry; apply sumR_perm; auto.
    + destruct br; auto. split.
      * apply sqrt_lt_R0. assert (0 <= m * m) by nra. lra.
      * intros o Ho. apply size_bound. apply (Permutation_in_iff _ _ Hp); auto.
  - constructor; auto.
    intros o Ho. cbn. apply Rle_trans with (1 := size_bound _ _ _ Ho).
    apply sqrt_le_sq; auto.
Qed.

Lemma builds_sub c sm m br l t : builds c sm m br l t -> forall t', subcell t' t ->
  exists l', builds c sm m br l' t'.
Proof.
  induction 1; intros t' Hs; inversion Hs; subst; try (eexists; econstructor; eauto; fail).
  - apply IHbuilds1; auto.
  - apply IHbuilds2; auto.
Qed.
Lemma builds_wf c sm m br l t : 0 <= m -> builds c sm (m * m) br l t -> wf m t.
Proof.
  intros Hm H t' Hs. destruct (builds_sub _ _ _ _ _ _ H t' Hs) as [l' H'].
  eapply builds_ok; eauto.
Qed.
Lemma builds_brute c sm m l t : builds c sm m true l t -> bruteTree t.
Proof.
  intros H t' Hs. destruct (builds_sub _ _ _ _ _ _ H t' Hs) as [l' H'].
  destruct H'; auto.
Qed.

(** Fields *)
Lemma buildField_perm F cat cells : buildField F cat cells ->
  Permutation (concat (map objs cells)) cat.
Proof.
  intros [g [Hg Hf]]. apply setupTop_perm in Hg. eapply perm_trans; [|apply Hg].
  clear Hg. induction Hf; simpl; auto. apply Permutation_app; auto.
  eapply builds_perm; eauto.
Qed.
Lemma buildField_wf F cat cells : 0 <= fminsize F -> buildField F cat cells ->
  Forall (wf (fminsize F)) cells.
Proof.
  intros Hm [g [Hg Hf]]. clear Hg. induction Hf; constructor; auto.
  eapply builds_wf; eauto.
Qed.
Lemma buildField_brute F cat cells : fbrute F = true -> buildField F cat cells ->
  Forall bruteTree cells.
Proof.
  intros Hb [g [Hg Hf]]. clear Hg. rewrite Hb in Hf. induction Hf; constructor; auto.
  eapply builds_brute; eauto.
Qed.

Lemma wf_Wpos m c : okcell m c -> (forall o, In o (objs c) -> 0 < ow o) -> 0 < getW c.
Proof.
  intros H Hp. rewrite (ok_w _ _ H). apply sumR_pos; auto. apply H.
Qed.

(** Sizes are non-negative; positive size means an internal node. *)
Definition epos (e : ext) : Prop := match e with Inf => True | Fin x => 0 < x end.
Definition enonneg (e : ext) : Prop := match e with Inf => True | Fin x => 0 <= x end.
Lemma size_nonneg m c : okcell m c -> enonneg (getSize c).
Proof.
  intro H. destruct c; simpl; try lra. pose proof (ok_size _ _ H) as Hs; simpl in Hs.
  destruct size; simpl; auto. lra.
Qed.
(** An object of a cell lies within size + m of the centre. *)
Lemma member_within m c o x : 0 <= m -> okcell m c -> In o (objs c) -> getSize c = Fin x ->
  pdist (getPos c) (opos o) <= x + m.
Proof.
  intros Hm H Ho Hx. pose proof (ok_size _ _ H) as Hs.
  destruct c; simpl in *.
  - destruct Ho as [->|[]]. rewrite Hs, pdist_refl. injection Hx; intros; lra.
  - injection Hx; intros; subst. specialize (Hs _ Ho). lra.
  - subst size. destruct Hs as [_ Hs]. specialize (Hs _ Ho). lra.
Qed.
