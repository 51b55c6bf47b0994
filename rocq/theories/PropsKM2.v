(** Properties C56, C57: what the iterations of k-means do. *)
From Coq Require Import Reals Lra Lia List ZArith Bool Permutation.
From Verif Require Import Base Geometry Tree Traverse Run Sampler SamplerFacts SumFacts GeomFacts TreeFacts KMeans KMeansFacts PropsKM.
Import ListNotations.
Open Scope R_scope.

(** ** Specification *)
(** Weighted mean of a group of objects; the origin if the total weight is 0. *)
Definition wmean (l : list obj) : pos :=
  let w := sumR ow l in
  if Req_EM_T w 0 then pos0
  else mkpos (sumR (fun o => ow o * px (opos o)) l / w) (sumR (fun o => ow o * py (opos o)) l / w) (sumR (fun o => ow o * pz (opos o)) l / w).
(** Total inertia of the catalog for given centres (the WCSS of the documentation, weighted): each object counts
    with the squared distance to the nearest centre. *)
Definition minSq (centers : list pos) (p : pos) : R :=
  match centers with [] => 0 | h :: t => fold_right (fun c m => Rmin (normSq (psub p c)) m) (normSq (psub p h)) t end.
Definition wcss (cat : list obj) (centers : list pos) : R := sumR (fun o => ow o * minSq centers (opos o)) cat.
Definition plainWeights (cat : list obj) : Prop := forall o, In o cat -> 0 <= ow o /\ owpos o = ow o.

Lemma minSq_le centers p i : (i < length centers)%nat -> minSq centers p <= normSq (psub p (nth i centers pos0)).
Proof.
  destruct centers as [|h t]; cbn [length]; [lia|]. cbn [minSq]. revert i. induction t as [|c t IH]; intros i Hi; cbn [fold_right].
  - destruct i; [cbn; lra|cbn in Hi; lia].
  - destruct i as [|[|i]].
    + eapply Rle_trans; [apply Rmin_r|]. apply (IH 0%nat). cbn. lia.
    + cbn. apply Rmin_l.
    + eapply Rle_trans; [apply Rmin_r|]. apply (IH (S i)). cbn in *. lia.
Qed.
Lemma minSq_eq centers p i : (i < length centers)%nat -> (forall q, (q < length centers)%nat ->
  normSq (psub p (nth i centers pos0)) <= normSq (psub p (nth q centers pos0))) -> minSq centers p = normSq (psub p (nth i centers pos0)).
Proof.
  intros Hi H. apply Rle_antisym; [apply minSq_le; auto|]. set (m := normSq (psub p (nth i centers pos0))) in *. clearbody m.
  destruct centers as [|h t]; [cbn in Hi; lia|clear Hi; cbn [minSq]].
  assert (H0 : m <= normSq (psub p h)) by (apply (H 0%nat); cbn; lia).
  assert (H1 : forall c, In c t -> m <= normSq (psub p c)).
  { intros c Hc. destruct (In_nth t c pos0 Hc) as (q & Hq & <-). apply (H (S q)). cbn. lia. }
  clear H. induction t as [|c t IH]; cbn [fold_right]; auto. apply Rmin_glb; [apply H1; left; auto|]. apply IH. intros; apply H1; right; auto.
Qed.

(** ** Cells carry their first moments *)
Lemma zero_weights (l : list obj) : (forall o, In o l -> 0 <= ow o) -> sumR ow l = 0 -> forall o, In o l -> ow o = 0.
Proof.
  induction l as [|a l IH]; intros Hp H o Ho; [destruct Ho|]. cbn in H. assert (0 <= sumR ow l) by (apply sumR_nonneg; intros; apply Hp; right; auto).
  pose proof (Hp a (or_introl eq_refl)). destruct Ho as [->|Ho]; [lra|]. apply IH; auto; [intros; apply Hp; right; auto|lra].
Qed.
Lemma cell_moment co sm m br l t d : co <> Sphere -> builds co sm m br l t -> (forall o, In o l -> 0 <= ow o /\ owpos o = ow o) ->
  getW t = sumR ow (objs t) /\ getDim d (getPos t) * getW t = sumR (fun o => ow o * getDim d (opos o)) (objs t).
Proof.
  intros Hco H Hp. pose proof (builds_perm _ _ _ _ _ _ H) as HP.
  rewrite (sumR_perm ow _ _ HP), (sumR_perm (fun o => ow o * getDim d (opos o)) _ _ HP).
  assert (N : getDim d (centroid co l) * sumR ow l = sumR (fun o => ow o * getDim d (opos o)) l).
  { unfold centroid. assert (E : sumR owpos l = sumR ow l) by (apply sumR_ext; intros o Ho; apply Hp; auto). rewrite E.
    destruct (Req_EM_T (sumR ow l) 0) as [Z|Z].
    - rewrite Z, Rmult_0_r. symmetry. apply sumR_0. intros o Ho. rewrite (zero_weights l); auto; [lra|]. intros o' Ho'; apply Hp; auto.
    - assert (S : forall f, sumR (fun o => owpos o * f o) l = sumR (fun o => ow o * f o) l).
      { intros f. apply sumR_ext. intros o Ho. rewrite (proj2 (Hp o Ho)). auto. }
      rewrite !S. destruct co; try contradiction; destruct d; cbn [normalize getDim px py pz pscale]; field; auto. }
  destruct H; cbn [getW getPos getData data1 dataN dw dpos]; auto. cbn [sumR]. split; lra.
Qed.

(** ** Groups of objects *)
Definition group (calls : list (nat * cell)) (i : nat) : list obj := flat_map objs (callsOf i calls).
Lemma group_cons pc t i : group (pc :: t) i = (if Nat.eqb (fst pc) i then objs (snd pc) else []) ++ group t i.
Proof. unfold group, callsOf. cbn [filter]. destruct (Nat.eqb (fst pc) i); reflexivity. Qed.
Lemma flat_map_split {A B} (a b : A -> list B) l : Permutation (flat_map (fun i => a i ++ b i) l) (flat_map a l ++ flat_map b l).
Proof.
  induction l as [|x l IH]; cbn; auto. rewrite <- !app_assoc. apply Permutation_app_head.
  eapply perm_trans; [apply Permutation_app_head; exact IH|]. rewrite !app_assoc. apply Permutation_app_tail. apply Permutation_app_comm.
Qed.
Lemma flat_map_pick {B} j (X : list B) : forall n s, (s <= j < s + n)%nat -> flat_map (fun i => if Nat.eqb j i then X else []) (seq s n) = X.
Proof.
  assert (Z : forall n s, ~ (s <= j < s + n)%nat -> flat_map (fun i => if Nat.eqb j i then X else []) (seq s n) = []).
  { induction n as [|n IH]; intros s H; cbn [seq flat_map]; auto. destruct (Nat.eqb_spec j s); [lia|]. apply IH. lia. }
  induction n as [|n IH]; intros s H; [lia|]. cbn [seq flat_map]. destruct (Nat.eqb_spec j s) as [->|E].
  - rewrite Z by lia. apply app_nil_r.
  - apply IH. lia.
Qed.
Lemma groups_perm n calls : (forall pc, In pc calls -> (fst pc < n)%nat) ->
  Permutation (flat_map (group calls) (seq 0 n)) (flat_map (fun pc => objs (snd pc)) calls).
Proof.
  induction calls as [|pc t IH]; intros H.
  - cbn [flat_map]. assert (E : flat_map (group []) (seq 0 n) = []) by (generalize (seq 0 n); induction l; cbn; auto). rewrite E. auto.
  - cbn [flat_map]. rewrite (flat_map_ext _ _ (group_cons pc t)). eapply perm_trans; [apply flat_map_split|].
    rewrite flat_map_pick; [apply Permutation_app_head; apply IH; intros; apply H; right; auto|].
    specialize (H pc (or_introl eq_refl)). lia.
Qed.
Lemma in_group calls i o : In o (group calls i) <-> exists pc, In pc calls /\ fst pc = i /\ In o (objs (snd pc)).
Proof.
  unfold group, callsOf. rewrite in_flat_map. split.
  - intros (c & Hc & Ho). apply in_map_iff in Hc. destruct Hc as (pc & <- & Hf). apply filter_In in Hf. destruct Hf as [H1 H2].
    apply Nat.eqb_eq in H2. eauto.
  - intros (pc & H1 & <- & Ho). exists (snd pc). split; auto. apply in_map. apply filter_In. split; auto. apply Nat.eqb_refl.
Qed.
Lemma sumR_flat {A B} (f : B -> R) (g : A -> list B) l : sumR f (flat_map g l) = sumR (fun x => sumR f (g x)) l.
Proof. induction l; cbn; auto. rewrite sumR_app, IHl. auto. Qed.

(** The new centre of a patch is the weighted mean of its objects. *)
Lemma newCenter_wmean co cs : co <> Sphere -> (forall c, In c cs -> exists sm m br l, builds co sm m br l c) ->
  (forall c o, In c cs -> In o (objs c) -> 0 <= ow o /\ owpos o = ow o) -> newCenter co cs = wmean (flat_map objs cs).
Proof.
  intros Hco HB Hp.
  assert (M : forall c d, In c cs -> getW c = sumR ow (objs c) /\ getDim d (getPos c) * getW c = sumR (fun o => ow o * getDim d (opos o)) (objs c)).
  { intros c d Hc. destruct (HB c Hc) as (sm & m & br & l & H). eapply cell_moment; eauto.
    intros o Ho. apply (Hp c); auto. apply (Permutation_in _ (Permutation_sym (builds_perm _ _ _ _ _ _ H))). auto. }
  assert (W : sumR getW cs = sumR ow (flat_map objs cs)).
  { rewrite sumR_flat. apply sumR_ext. intros c Hc. apply (M c DX Hc). }
  assert (D : forall d, sumR (fun c => getDim d (getPos c) * getW c) cs = sumR (fun o => ow o * getDim d (opos o)) (flat_map objs cs)).
  { intros d. rewrite sumR_flat. apply sumR_ext. intros c Hc. apply (M c d Hc). }
  assert (Pos : forall o, In o (flat_map objs cs) -> 0 <= ow o).
  { intros o Ho. apply in_flat_map in Ho. destruct Ho as (c & Hc & Ho). apply (Hp c o); auto. }
  assert (W0 : 0 <= sumR ow (flat_map objs cs)) by (apply sumR_nonneg; auto).
  pose proof (D DX) as D1. pose proof (D DY) as D2. pose proof (D DZ) as D3. cbn [getDim] in D1, D2, D3.
  unfold newCenter, wmean, sumPos. rewrite D1, D2, D3, W.
  destruct (Req_EM_T (sumR ow (flat_map objs cs)) 0) as [Z|Z]; destruct (Rlt_dec 0 (sumR ow (flat_map objs cs))) as [L|L]; try lra.
  - assert (Q : forall f, sumR (fun o => ow o * f o) (flat_map objs cs) = 0).
    { intros f. apply sumR_0. intros o Ho. rewrite (zero_weights _ Pos Z o Ho). lra. }
    rewrite !Q. reflexivity.
  - destruct co; try contradiction; unfold normalize, pscale; cbn [px py pz]; f_equal; field; auto.
Qed.

Section Step.
Variables (F : fparams) (cat : list obj) (cells : list cell).
Hypothesis HF : fcoord F <> Sphere.
Hypothesis Hm : 0 <= fminsize F.
Hypothesis Hcat : plainWeights cat.
Hypothesis HB : buildField F cat cells.

Lemma cells_builds c t : In c cells -> subcell t c -> exists l, builds (fcoord F) (fsm F) (fminsize F * fminsize F) (fbrute F) l t.
Proof.
  destruct HB as (g & _ & Hf). intros Hc Hs. clear HB. induction Hf; [destruct Hc|]. destruct Hc as [->|Hc]; auto.
  eapply builds_sub; eauto.
Qed.
(** The calls of one pass over the field, for any distribution over threads. *)
Lemma pass c ins chunks : zeroOpt ins -> c <> [] -> concat chunks = cells -> let calls := kmCalls c ins chunks in
  let groups := map (group calls) (seq 0 (length c)) in
  Permutation (concat groups) cat /\
  (forall i o, In o (nth i groups []) -> exists pc, In pc calls /\ fst pc = i /\ In o (objs (snd pc)) /\
     wf (fminsize F) (snd pc) /\ goodCall c ins pc) /\
  updateCenters (fcoord F) (length c) calls = map wmean groups.
Proof.
  intros Hz Hne Hch calls groups. pose proof (buildField_wf F cat cells Hm HB) as Hw. pose proof (buildField_perm F cat cells HB) as HP.
  destruct (kmCalls_spec c ins (fminsize F) chunks cells Hz Hne Hch Hw) as (HO & HA). fold calls in HO, HA.
  assert (P1 : Permutation (flat_map (fun pc => objs (snd pc)) calls) cat).
  { rewrite HO, flat_map_concat_map. exact HP. }
  split; [|split].
  - unfold groups. rewrite <- flat_map_concat_map. eapply perm_trans; [|exact P1]. apply groups_perm. intros pc Hpc. apply HA. auto.
  - intros i o Ho. unfold groups in Ho. destruct (Nat.lt_ge_cases i (length c)) as [L|L].
    + rewrite (nth_indep _ [] (group calls 0)) in Ho by (rewrite map_length, seq_length; auto).
      rewrite map_nth, seq_nth in Ho by auto. cbn in Ho. apply in_group in Ho. destruct Ho as (pc & H1 & H2 & H3).
      exists pc. destruct (HA pc H1) as (_ & (c0 & Hc0 & Hs) & HG). split; [auto|]. split; [auto|]. split; [auto|]. split; [|auto].
      rewrite Forall_forall in Hw. eapply wf_sub; eauto.
    + rewrite nth_overflow in Ho by (rewrite map_length, seq_length; auto). destruct Ho.
  - unfold updateCenters, groups. rewrite map_map. apply map_ext_in. intros i _.
    apply newCenter_wmean; auto.
    + intros t. unfold callsOf. rewrite in_map_iff. intros (pc & <- & Hpc). apply filter_In in Hpc. destruct Hpc as [Hpc _]. destruct (HA pc Hpc) as (_ & (c0 & Hc0 & Hs) & _).
      destruct (cells_builds c0 (snd pc) Hc0 Hs) as (l & Hl). eauto.
    + intros t o. unfold callsOf. rewrite in_map_iff. intros (pc & <- & Hpc) Ho. apply filter_In in Hpc. destruct Hpc as [Hpc _]. apply Hcat. apply (Permutation_in _ P1).
      apply in_flat_map. eauto.
Qed.

(** One iteration of the standard algorithm: the objects are divided into groups, each object is in the group of a
    nearest centre (up to 2*min_size), and the new centres are the weighted means of the groups. *)
Theorem C56_step c c' : c <> [] -> kmStep (fcoord F) false cells c c' ->
  exists groups, length groups = length c /\ Permutation (concat groups) cat /\
    (forall i o, In o (nth i groups []) -> forall q, (q < length c)%nat ->
       pdist (opos o) (nth i c pos0) <= pdist (opos o) (nth q c pos0) + 2 * fminsize F) /\
    c' = map wmean groups.
Proof.
  intros Hne (ch1 & ch2 & _ & H2 & ->). destruct (pass c None ch2 I Hne H2) as (P & G & U). cbn zeta in *.
  exists (map (group (kmCalls c None ch2)) (seq 0 (length c))). rewrite map_length, seq_length. split; auto. split; auto. split; auto.
  intros i o Ho q Hq. destruct (G i o Ho) as (pc & _ & <- & Hin & Hw & HG). apply (goodCall_near c (fminsize F) pc Hm); auto.
Qed.

(** ** The inertia never increases *)
Lemma sum_sq (f : obj -> R) (l : list obj) a : sumR (fun o => ow o * ((f o - a) * (f o - a))) l =
  sumR (fun o => ow o * (f o * f o)) l - 2 * a * sumR (fun o => ow o * f o) l + a * a * sumR ow l.
Proof. induction l as [|o l IH]; cbn [sumR]; [lra|]. rewrite IH. lra. Qed.
Lemma mean_minimal l c : (forall o, In o l -> 0 <= ow o) ->
  sumR (fun o => ow o * normSq (psub (opos o) (wmean l))) l <= sumR (fun o => ow o * normSq (psub (opos o) c)) l.
Proof.
  intros Hp. destruct (Req_EM_T (sumR ow l) 0) as [Z|Z].
  - right. apply sumR_ext. intros o Ho. rewrite (zero_weights l Hp Z o Ho). lra.
  - assert (S : forall p, sumR (fun o => ow o * normSq (psub (opos o) p)) l =
      sumR (fun o => ow o * ((px (opos o) - px p) * (px (opos o) - px p))) l + sumR (fun o => ow o * ((py (opos o) - py p) * (py (opos o) - py p))) l +
      sumR (fun o => ow o * ((pz (opos o) - pz p) * (pz (opos o) - pz p))) l).
    { intros p. rewrite <- !sumR_plus. apply sumR_ext. intros o _. unfold normSq, psub. cbn. lra. }
    assert (W : 0 < sumR ow l) by (assert (0 <= sumR ow l) by (apply sumR_nonneg; auto); lra).
    assert (D : forall f a, sumR (fun o => ow o * ((f o - sumR (fun o => ow o * f o) l / sumR ow l) * (f o - sumR (fun o => ow o * f o) l / sumR ow l))) l
      <= sumR (fun o => ow o * ((f o - a) * (f o - a))) l).
    { intros f a. rewrite !sum_sq. set (w := sumR ow l) in *. set (b := sumR (fun o => ow o * f o) l). set (q := sumR (fun o => ow o * (f o * f o)) l).
      assert (E : b = b / w * w) by (field; lra). set (u := b / w) in *. clearbody u. rewrite E.
      assert (0 <= w * ((a - u) * (a - u))) by (apply Rmult_le_pos; [lra|apply Rle_0_sqr]). nra. }
    rewrite !S. unfold wmean. destruct (Req_EM_T (sumR ow l) 0) as [|_]; [contradiction|]. cbn [px py pz].
    pose proof (D (fun o => px (opos o)) (px c)). pose proof (D (fun o => py (opos o)) (py c)). pose proof (D (fun o => pz (opos o)) (pz c)).
    cbn beta in *. lra.
Qed.
Lemma sum_groups (f : nat -> obj -> R) : forall (groups : list (list obj)) s,
  sumR (fun ig => sumR (f (fst ig)) (snd ig)) (combine (seq s (length groups)) groups) =
  match groups with [] => 0 | g :: t => sumR (f s) g + sumR (fun ig => sumR (f (fst ig)) (snd ig)) (combine (seq (S s) (length t)) t) end.
Proof. intros [|g t] s; reflexivity. Qed.
Lemma sum_groups_ext (f g : nat -> obj -> R) : forall (groups : list (list obj)) s,
  (forall i, (i < length groups)%nat -> sumR (f (s + i)%nat) (nth i groups []) <= sumR (g (s + i)%nat) (nth i groups [])) ->
  sumR (fun ig => sumR (f (fst ig)) (snd ig)) (combine (seq s (length groups)) groups) <=
  sumR (fun ig => sumR (g (fst ig)) (snd ig)) (combine (seq s (length groups)) groups).
Proof.
  induction groups as [|h t IH]; intros s H; [cbn; lra|]. rewrite (sum_groups f (h :: t)), (sum_groups g (h :: t)).
  assert (H0 : sumR (f s) h <= sumR (g s) h). { specialize (H 0%nat ltac:(cbn; lia)). rewrite Nat.add_0_r in H. exact H. }
  assert (H1 := IH (S s)). assert (H2 : forall i, (i < length t)%nat -> sumR (f (S s + i)%nat) (nth i t []) <= sumR (g (S s + i)%nat) (nth i t [])).
  { intros i Hi. specialize (H (S i) ltac:(cbn; lia)). rewrite Nat.add_succ_r in H. exact H. }
  specialize (H1 H2). apply Rplus_le_compat; assumption.
Qed.
Lemma sum_groups_const (h : obj -> R) : forall (groups : list (list obj)) s,
  sumR (fun ig => sumR h (snd ig)) (combine (seq s (length groups)) groups) = sumR h (concat groups).
Proof. induction groups as [|g t IH]; intros s; cbn [length seq combine concat sumR]; auto. rewrite IH, sumR_app. auto. Qed.

Theorem C56_descent c c' : fminsize F = 0 -> c <> [] -> kmStep (fcoord F) false cells c c' -> wcss cat c' <= wcss cat c.
Proof.
  intros Hm0 Hne HS. destruct (C56_step c c' Hne HS) as (groups & HL & HP & HN & ->). rewrite Hm0 in HN.
  assert (Pos : forall i o, In o (nth i groups []) -> 0 <= ow o).
  { intros i o Ho. apply Hcat. apply (Permutation_in _ HP). apply in_concat. exists (nth i groups []). split; auto.
    destruct (Nat.lt_ge_cases i (length groups)) as [L|L]; [apply nth_In; auto|]. rewrite nth_overflow in Ho by auto. destruct Ho. }
  assert (Wn : forall i, nth i (map wmean groups) pos0 = wmean (nth i groups [])).
  { intros i. replace pos0 with (wmean []) at 1; [apply map_nth|]. unfold wmean. cbn. destruct (Req_EM_T 0 0); [auto|contradiction]. }
  unfold wcss. rewrite <- !(sumR_perm _ _ _ HP), <- !(sum_groups_const _ groups 0).
  apply Rle_trans with (sumR (fun ig => sumR (fun o => ow o * normSq (psub (opos o) (nth (fst ig) (map wmean groups) pos0))) (snd ig))
    (combine (seq 0 (length groups)) groups)).
  - apply (sum_groups_ext (fun _ o => ow o * minSq (map wmean groups) (opos o))
      (fun i o => ow o * normSq (psub (opos o) (nth i (map wmean groups) pos0)))). intros i Hi. cbn [Nat.add].
    apply sumR_le. intros o Ho. apply Rmult_le_compat_l; [apply (Pos i); auto|]. apply minSq_le. rewrite map_length. auto.
  - apply (sum_groups_ext (fun i o => ow o * normSq (psub (opos o) (nth i (map wmean groups) pos0))) (fun _ o => ow o * minSq c (opos o))).
    intros i Hi. cbn [Nat.add]. rewrite Wn.
    replace (sumR (fun o => ow o * minSq c (opos o)) (nth i groups [])) with (sumR (fun o => ow o * normSq (psub (opos o) (nth i c pos0))) (nth i groups [])).
    + apply mean_minimal. intros; apply (Pos i); auto.
    + apply sumR_ext. intros o Ho. f_equal. symmetry. apply minSq_eq; [lia|]. intros q Hq. specialize (HN i o Ho q Hq).
      pose proof (dsqTo_pdist c (opos o) i) as E1. pose proof (dsqTo_pdist c (opos o) q) as E2. unfold dsqTo, cen in E1, E2. rewrite E1, E2.
      pose proof (pdist_nonneg (opos o) (nth i c pos0)). apply Rmult_le_compat; lra.
Qed.
Lemma step_length c c' : kmStep (fcoord F) false cells c c' -> length c' = length c.
Proof. intros (x & y & _ & _ & ->). unfold updateCenters. rewrite map_length. apply seq_length. Qed.
(** Refining never increases the total inertia, for any max_iter and tol. *)
Theorem C56_refine tol max_iter c c' : fminsize F = 0 -> c <> [] -> kmRefine F false cat cells tol max_iter c c' ->
  length c' = length c /\ wcss cat c' <= wcss cat c.
Proof.
  intros Hm0 Hne H. unfold kmRefine in H. assert (E : readCenters (fcoord F) c = c).
  { unfold readCenters. clear H Hne. induction c as [|p t IH]; cbn; auto. rewrite IH. destruct (fcoord F); try contradiction; auto. }
  rewrite E in H. set (t := tol * _ * _ * _) in H. clearbody t. clear E. remember false as alt eqn:Ea.
  induction H as [c|n c c' HS Ht|n c c' c'' HS Ht HR IH]; subst alt.
  - split; [auto|lra].
  - split; [apply step_length; auto|apply C56_descent; auto].
  - assert (L : length c' = length c) by (apply step_length; auto). pose proof (C56_descent c c' Hm0 Hne HS).
    destruct IH as [L2 D2]; auto; [destruct c'; [destruct c; [contradiction|discriminate]|discriminate]|]. split; [congruence|lra].
Qed.
(** The iteration exists, and ends after max_iter iterations or after one that moved the centres less than the tolerance. *)
Lemma kmRun_exists co alt tolsq n c : exists c', kmRun co alt cells tolsq n c c'.
Proof.
  revert c. induction n as [|n IH]; intros c; [eexists; constructor|].
  set (c1 := updateCenters co (length c) (kmCalls c (if alt then Some (calcInertia c (kmCalls c None [cells])) else None) [cells])).
  assert (S : kmStep co alt cells c c1).
  { exists [cells], [cells]. cbn. rewrite app_nil_r. auto. }
  destruct (Rlt_dec (shiftSq c c1) tolsq) as [L|L].
  - exists c1. apply km_stop; auto.
  - destruct (IH c1) as (c2 & H2). exists c2. eapply km_go; eauto.
Qed.
End Step.

(** ** Lloyd's iteration when no object is equally near to two centres *)
Lemma wmean_perm l l' : Permutation l l' -> wmean l = wmean l'.
Proof. intros P. unfold wmean. rewrite !(sumR_perm _ _ _ P). reflexivity. Qed.
Lemma filter_groups (lab : obj -> nat) : forall groups s, (forall i o, In o (nth i groups []) -> lab o = (s + i)%nat) ->
  forall i, filter (fun o => Nat.eqb (lab o) (s + i)) (concat groups) = nth i groups [].
Proof.
  assert (All : forall n l, (forall o, In o l -> lab o = n) -> forall m, filter (fun o => Nat.eqb (lab o) m) l = if Nat.eqb n m then l else []).
  { intros n. induction l as [|a l IH]; intros H m; cbn [filter]; [destruct (Nat.eqb n m); auto|].
    rewrite (H a) by (left; auto). rewrite IH by (intros; apply H; right; auto). destruct (Nat.eqb n m); auto. }
  assert (Above : forall groups s, (forall i o, In o (nth i groups []) -> lab o = (s + i)%nat) -> forall m, (m < s)%nat ->
    filter (fun o => Nat.eqb (lab o) m) (concat groups) = []).
  { induction groups as [|g t IH]; intros s H m Hm; cbn [concat]; auto. rewrite filter_app, (All s g).
    - assert (E : Nat.eqb s m = false) by (apply Nat.eqb_neq; lia). rewrite E. apply (IH (S s)); [|lia].
      intros i o Ho. rewrite (H (S i) o Ho). lia.
    - intros o Ho. rewrite (H 0%nat o Ho). lia. }
  induction groups as [|g t IH]; intros s H i; cbn [concat]; [destruct i; auto|].
  rewrite filter_app, (All s g) by (intros o Ho; rewrite (H 0%nat o Ho); lia).
  assert (Ht : forall i o, In o (nth i t []) -> lab o = (S s + i)%nat) by (intros j o Ho; rewrite (H (S j) o Ho); lia).
  destruct i as [|i].
  - rewrite Nat.add_0_r, Nat.eqb_refl, (Above t (S s)) by (auto; lia). apply app_nil_r.
  - assert (E : Nat.eqb s (s + S i) = false) by (apply Nat.eqb_neq; lia). rewrite E. cbn [app nth].
    rewrite <- (IH (S s) Ht i). apply filter_ext. intros o. f_equal. lia.
Qed.
Lemma filter_perm {A} (f : A -> bool) l l' : Permutation l l' -> Permutation (filter f l) (filter f l').
Proof.
  induction 1; cbn; auto.
  - destruct (f x); auto.
  - destruct (f x), (f y); auto. apply perm_swap.
  - eapply perm_trans; eauto.
Qed.
Theorem C56_step_labels F cat cells (lab : obj -> nat) c c' : fcoord F <> Sphere -> fminsize F = 0 -> plainWeights cat ->
  buildField F cat cells -> c <> [] ->
  (forall o, In o cat -> forall q, (q < length c)%nat -> q <> lab o -> pdist (opos o) (nth (lab o) c pos0) < pdist (opos o) (nth q c pos0)) ->
  (forall o, In o cat -> (lab o < length c)%nat) ->
  kmStep (fcoord F) false cells c c' ->
  c' = map (fun i => wmean (filter (fun o => Nat.eqb (lab o) i) cat)) (seq 0 (length c)).
Proof.
  intros HF Hm0 Hcat HB Hne Hlab Hlt HS. assert (Hm : 0 <= fminsize F) by lra.
  destruct (C56_step F cat cells HF Hm Hcat HB c c' Hne HS) as (groups & HL & HP & HN & ->). rewrite Hm0 in HN.
  assert (G : forall i o, In o (nth i groups []) -> lab o = (0 + i)%nat).
  { intros i o Ho. assert (Hi : (i < length groups)%nat).
    { destruct (Nat.lt_ge_cases i (length groups)); auto. rewrite nth_overflow in Ho by auto. destruct Ho. }
    assert (Hin : In o cat). { apply (Permutation_in _ HP). apply in_concat. exists (nth i groups []). split; auto. apply nth_In; auto. }
    destruct (Nat.eq_dec (lab o) i) as [E|E]; [cbn; auto|]. exfalso.
    assert (Hi2 : (i < length c)%nat) by lia. pose proof (Hlab o Hin i Hi2 (not_eq_sym E)).
    pose proof (HN i o Ho (lab o) (Hlt o Hin)). lra. }
  apply (nth_ext _ _ pos0 pos0); [rewrite !map_length, seq_length; auto|]. intros i Hi. rewrite map_length in Hi.
  rewrite (nth_indep _ pos0 (wmean [])) by (rewrite map_length; auto). rewrite map_nth.
  set (g := fun i => wmean (filter (fun o => Nat.eqb (lab o) i) cat)).
  rewrite (nth_indep (map g (seq 0 (length c))) pos0 (g 0%nat)) by (rewrite map_length, seq_length; lia).
  rewrite map_nth, seq_nth by lia. unfold g. rewrite <- (filter_groups lab groups 0 G i). apply wmean_perm. apply filter_perm. auto.
Qed.

(** ** C57: a patch can be left without objects *)
(** Five objects of weight 1, npatch = 3, init='tree'.  getNField(max_top = bit_length(3)-1 = 1), catalog.py:1436-1440. *)
Definition kmo (x y : R) (i : nat) : obj := mkobj (mkpos x y 0) 1 1 0 0 0 i.
Definition ko0 := kmo 101 100 0.
Definition ko1 := kmo 103 106 1.
Definition ko2 := kmo 104 100 2.
Definition ko3 := kmo 104 106 3.
Definition ko4 := kmo 107 103 4.
Definition kmCat : list obj := [ko0; ko1; ko2; ko3; ko4].
Definition kmF : fparams := mkF Flat Mean 0 Inf false 1 1.
Lemma builds_pos co sm m br l t : builds co sm m br l t -> (2 <= length l)%nat -> getPos t = centroid co l.
Proof. destruct 1; cbn [length]; intros; auto. lia. Qed.
Ltac cent := unfold centroid; cbn [sumR owpos kmo ko0 ko1 ko2 ko3 ko4]; destruct (Req_EM_T _ 0); [lra|]; unfold normalize, pscale; cbn; f_equal; field.
Lemma kc01 : centroid Flat [ko0; ko1] = mkpos 102 103 0. Proof. cent. Qed.
Lemma kc34 : centroid Flat [ko3; ko4] = mkpos (211/2) (209/2) 0. Proof. cent. Qed.
Lemma kc234 : centroid Flat [ko2; ko3; ko4] = mkpos 105 103 0. Proof. cent. Qed.
Lemma kcall : centroid Flat kmCat = mkpos (519/5) 103 0. Proof. unfold kmCat. cent. Qed.
Ltac updb := unfold upd_lo, upd_hi; repeat (destruct Rlt_dec; try lra).
Lemma badd_eq a b c d e f p a' b' c' d' e' f' : upd_lo a (px p) = a' -> upd_hi a b (px p) = b' -> upd_lo c (py p) = c' -> upd_hi c d (py p) = d' ->
  upd_lo e (pz p) = e' -> upd_hi e f (pz p) = f' -> badd (mkbd a b c d e f) p = mkbd a' b' c' d' e' f'.
Proof. intros <- <- <- <- <- <-. reflexivity. Qed.
Lemma kmb5 : boundsOf kmCat = mkbd 101 107 100 106 0 0.
Proof.
  change (boundsOf kmCat) with (badd (badd (badd (badd (mkbd 101 101 100 100 0 0) (mkpos 103 106 0)) (mkpos 104 100 0)) (mkpos 104 106 0)) (mkpos 107 103 0)).
  rewrite (badd_eq 101 101 100 100 0 0 (mkpos 103 106 0) 101 103 100 106 0 0) by (cbn [px py pz]; updb).
  rewrite (badd_eq 101 103 100 106 0 0 (mkpos 104 100 0) 101 104 100 106 0 0) by (cbn [px py pz]; updb).
  rewrite (badd_eq 101 104 100 106 0 0 (mkpos 104 106 0) 101 104 100 106 0 0) by (cbn [px py pz]; updb).
  apply badd_eq; cbn [px py pz]; updb.
Qed.
Lemma kmb3 : boundsOf [ko2; ko3; ko4] = mkbd 104 107 100 106 0 0.
Proof.
  change (boundsOf [ko2; ko3; ko4]) with (badd (badd (mkbd 104 104 100 100 0 0) (mkpos 104 106 0)) (mkpos 107 103 0)).
  rewrite (badd_eq 104 104 100 100 0 0 (mkpos 104 106 0) 104 104 100 106 0 0) by (cbn [px py pz]; updb).
  apply badd_eq; cbn [px py pz]; updb.
Qed.
Lemma kmsplit_x : getSplit (boundsOf kmCat) = DX.
Proof. rewrite kmb5. unfold getSplit. cbn [xmin xmax ymin ymax zmin zmax]. repeat (destruct Rlt_dec; try lra); auto. Qed.
Lemma kmsplit_y : getSplit (boundsOf [ko2; ko3; ko4]) = DY.
Proof. rewrite kmb3. unfold getSplit. cbn [xmin xmax ymin ymax zmin zmax]. repeat (destruct Rlt_dec; try lra); auto. Qed.
Lemma km_split1 : splitData Mean (centroid Flat kmCat) kmCat [ko0; ko1] [ko2; ko3; ko4].
Proof.
  apply sd_ok; [|discriminate|discriminate]. apply sc_mean; auto. cbn zeta. rewrite kmsplit_x, kcall. split; [apply Permutation_refl|].
  split; repeat constructor; cbn; lra.
Qed.
Lemma km_split2 : splitData Mean (centroid Flat [ko2; ko3; ko4]) [ko2; ko3; ko4] [ko2] [ko3; ko4].
Proof.
  apply sd_ok; [|discriminate|discriminate]. apply sc_mean; auto. cbn zeta. rewrite kmsplit_y, kc234. split; [apply Permutation_refl|].
  split; repeat constructor; cbn; lra.
Qed.
Lemma km_field : exists tL tRR s, buildField kmF kmCat [tL; Node (dataN Flat [ko2; ko3; ko4]) s (Leaf (data1 ko2) ko2) tRR] /\
  getPos tL = mkpos 102 103 0 /\ getPos tRR = mkpos (211/2) (209/2) 0.
Proof.
  destruct (builds_exists Flat Mean (0 * 0) false [ko0; ko1]) as (tL & HL); [discriminate|].
  destruct (builds_exists Flat Mean (0 * 0) false [ko3; ko4]) as (tRR & HR); [discriminate|].
  exists tL, tRR, (Fin (sqrt (calculateSizeSq (centroid Flat [ko2; ko3; ko4]) [ko2; ko3; ko4]))). split; [|split].
  - exists [[ko0; ko1]; [ko2; ko3; ko4]]. cbn [kmF fcoord fsm fmaxsize esq fmintop fmaxtop fminsize fbrute]. split.
    + change [[ko0; ko1]; [ko2; ko3; ko4]] with ([[ko0; ko1]] ++ [[ko2; ko3; ko4]]). eapply top_split; [|exact km_split1| |].
      * intros [H|[[_ H]|H]]; try lia. unfold topSizeSq, kmCat in H. fold kmCat in H.
        pose proof (calculateSizeSq_bound (centroid Flat kmCat) kmCat ko0 ltac:(left; auto)) as B. rewrite kcall in *. rewrite H in B.
        unfold normSq, psub in B. cbn in B. lra.
      * apply top_stop. right. right. lia.
      * apply top_stop. right. right. lia.
    + constructor; [exact HL|]. constructor; [|constructor].
      apply (b_node Flat Mean (0 * 0) false [ko2; ko3; ko4] [ko2] [ko3; ko4]); [cbn; lia| |exact km_split2|constructor|exact HR].
      pose proof (calculateSizeSq_bound (centroid Flat [ko2; ko3; ko4]) [ko2; ko3; ko4] ko2 ltac:(left; auto)) as B. rewrite kc234 in *.
      unfold normSq, psub in B. cbn [px py pz opos ko2 kmo] in B. lra.
  - rewrite (builds_pos _ _ _ _ _ _ HL) by (cbn; lia). exact kc01.
  - rewrite (builds_pos _ _ _ _ _ _ HR) by (cbn; lia). exact kc34.
Qed.
Lemma trunc32 : Z.to_nat (trunc (3/4 * INR 2)) = 1%nat.
Proof.
  destruct (trunc_nonneg (3/4 * INR 2)) as [[H1 H2] H3]; [cbn; lra|]. change (INR 2) with 2 in *. set (t := trunc (3/4*2)) in *.
  assert (A : (t < 2)%Z) by (apply lt_IZR; lra). assert (B : (0 < t)%Z) by (apply lt_IZR; lra). lia.
Qed.
Lemma km_init tL tRR s : getPos tL = mkpos 102 103 0 -> getPos tRR = mkpos (211/2) (209/2) 0 ->
  initTreeCenters Flat [tL; Node (dataN Flat [ko2; ko3; ko4]) s (Leaf (data1 ko2) ko2) tRR] 3 [3/4; 1/4] =
  Some [mkpos 102 103 0; mkpos 104 100 0; mkpos (211/2) (209/2) 0].
Proof.
  intros E1 E2. unfold initTreeCenters, initTree. cbn [length Nat.ltb Nat.leb Nat.div Nat.divmod fst Nat.modulo snd Nat.sub repeat app Nat.add shuffle].
  rewrite trunc32. cbn [Nat.ltb Nat.leb Nat.eqb].
  assert (A : forall c f us, initCell Flat c f 1 us = Some ([(f, getPos c)], us)) by (destruct c; reflexivity).
  cbn [initCells]. rewrite A. cbn [initCell Nat.eqb Nat.div Nat.divmod fst Nat.sub Nat.add].
  destruct (Rlt_dec (1/4) (1/2)); cbn [Nat.eqb]; rewrite A; rewrite E1, E2; reflexivity.
Qed.
Definition kmLab (o : obj) : nat := nth (oidx o) [1; 2; 1; 2; 2]%nat 0%nat.
Lemma kmLab_lt o : In o kmCat -> (kmLab o < 3)%nat.
Proof. intros [<-|[<-|[<-|[<-|[<-|[]]]]]]; cbn; lia. Qed.
Lemma sq_lt p a b : normSq (psub p a) < normSq (psub p b) -> pdist p a < pdist p b.
Proof. intros H. apply sqrt_lt_1_alt. split; auto. unfold normSq. nra. Qed.
Definition kmC0 : list pos := [mkpos 102 103 0; mkpos 104 100 0; mkpos (211/2) (209/2) 0].
Definition kmC1 : list pos := [pos0; mkpos (205/2) 100 0; mkpos (314/3) 105 0].
Lemma km_near c : c = kmC0 \/ c = kmC1 -> forall o, In o kmCat -> forall q, (q < length c)%nat -> q <> kmLab o ->
  pdist (opos o) (nth (kmLab o) c pos0) < pdist (opos o) (nth q c pos0).
Proof.
  intros [->| ->] o Ho q Hq Hn; cbn [length kmC0 kmC1] in Hq; apply sq_lt;
    destruct Ho as [<-|[<-|[<-|[<-|[<-|[]]]]]]; cbn in Hn; (destruct q as [|[|[|q]]]; [| | |lia]);
    try (exfalso; apply Hn; reflexivity); unfold normSq, psub; cbn; lra.
Qed.
Lemma km_plain : plainWeights kmCat.
Proof. intros o [<-|[<-|[<-|[<-|[<-|[]]]]]]; cbn; lra. Qed.
Lemma km_step cells c c' : buildField kmF kmCat cells -> c = kmC0 \/ c = kmC1 -> kmStep Flat false cells c c' -> c' = kmC1.
Proof.
  intros HB Hc HS. assert (L : length c = 3%nat) by (destruct Hc as [->| ->]; reflexivity).
  rewrite (C56_step_labels kmF kmCat cells kmLab c c'); auto; try discriminate.
  - rewrite L. change (seq 0 3) with [0; 1; 2]%nat. unfold kmC1. cbn [map].
    change (filter (fun o => Nat.eqb (kmLab o) 0) kmCat) with (@nil obj). change (filter (fun o => Nat.eqb (kmLab o) 1) kmCat) with [ko0; ko2].
    change (filter (fun o => Nat.eqb (kmLab o) 2) kmCat) with [ko1; ko3; ko4].
    f_equal; [|f_equal; [|f_equal]]; unfold wmean; cbn [sumR ow opos px py pz ko0 ko1 ko2 ko3 ko4 kmo];
      destruct Req_EM_T; try lra; auto; f_equal; field.
  - exact km_plain.
  - intros ->. discriminate.
  - apply km_near; auto.
  - rewrite L. apply kmLab_lt.
Qed.
Lemma km_run cells t n c c' : buildField kmF kmCat cells -> c = kmC0 \/ c = kmC1 -> kmRun Flat false cells t (S n) c c' -> c' = kmC1.
Proof.
  intros HB Hc H. revert c Hc H. induction n as [|n IH]; intros c Hc H; inversion H; subst.
  - eapply km_step; eauto.
  - match goal with HR : kmRun _ _ _ _ 0 _ _ |- _ => inversion HR; subst end. eapply km_step; eauto.
  - eapply km_step; eauto.
  - match goal with HS : kmStep _ _ _ _ _ |- _ => apply km_step in HS; auto; subst end. eapply IH; [|eassumption]. auto.
Qed.
(** The documentation of run_kmeans says that the standard algorithm never gives patches without points.
    Here every execution of the standard algorithm from init='tree' (with these draws) leaves patch 0 without objects,
    and moves its centre to the origin. *)
Theorem C57_never_empty_refuted : exists F cat cells us centers,
  F = mkF Flat Mean 0 Inf false 1 1 /\ map oidx cat = seq 0 5 /\ NoDup (map opos cat) /\ (forall o, In o cat -> ow o = 1 /\ owpos o = 1) /\
  buildField F cat cells /\ openDraws us /\ initTreeCenters (fcoord F) cells 3 us = Some centers /\
  forall tol max_iter centers' arr arr', (0 < max_iter)%nat -> length arr = 5%nat ->
    kmRefine F false cat cells tol max_iter centers centers' -> kmAssign (fcoord F) cells centers' arr arr' ->
    nth 0 centers' (mkpos 1 1 1) = mkpos 0 0 0 /\ forall o, In o cat -> nth (oidx o) arr' 0%nat <> 0%nat.
Proof.
  destruct km_field as (tL & tRR & s & HB & E1 & E2). exists kmF, kmCat, [tL; Node (dataN Flat [ko2; ko3; ko4]) s (Leaf (data1 ko2) ko2) tRR], [3/4; 1/4], kmC0.
  split; [reflexivity|]. split; [reflexivity|]. split.
  { cbn. repeat (constructor; [intros Hin; cbn in Hin; repeat (destruct Hin as [Hin|Hin]; [injection Hin; intros; lra|]); destruct Hin|]). constructor. }
  split; [intros o [<-|[<-|[<-|[<-|[<-|[]]]]]]; cbn; lra|]. split; [exact HB|]. split; [repeat constructor; lra|].
  split; [apply km_init; auto|]. intros tol max_iter centers' arr arr' Hn Hl HR HA. unfold kmRefine in HR.
  assert (R0 : forall c, readCenters (fcoord kmF) c = c) by (intros c; unfold readCenters; induction c; cbn; f_equal; auto).
  rewrite R0 in HR. cbn [fcoord kmF] in HR. destruct max_iter as [|n]; [lia|]. apply (km_run _ _ _ _ _ HB (or_introl eq_refl)) in HR. subst centers'.
  split; [reflexivity|].
  assert (Hm : 0 <= fminsize kmF) by (cbn; lra).
  destruct (C30_assign kmF kmCat _ kmC1 arr arr' Hm HB ltac:(discriminate) eq_refl Hl HA) as (_ & HL).
  intros o Ho E. destruct (HL o Ho) as (H1 & H2). cbn zeta in *. rewrite E in *. rewrite R0 in H2.
  pose proof (kmLab_lt o Ho) as Lt. specialize (H2 (kmLab o) Lt). change (fminsize kmF) with 0 in H2.
  assert (kmLab o <> 0)%nat by (destruct Ho as [<-|[<-|[<-|[<-|[<-|[]]]]]]; cbn; lia).
  pose proof (km_near kmC1 (or_intror eq_refl) o Ho 0%nat ltac:(cbn; lia) ltac:(auto)). lra.
Qed.
(** What remains true: a patch that gets at least one object of positive weight in an iteration has its new centre in the
    convex hull of these objects; in particular only patches that got no weight are moved to the origin. *)
Theorem C57_moved_only_if_empty F cat cells c c' i : fcoord F <> Sphere -> 0 <= fminsize F -> plainWeights cat -> buildField F cat cells ->
  c <> [] -> kmStep (fcoord F) false cells c c' -> (i < length c)%nat ->
  exists group, incl group cat /\ (forall o, In o group -> forall q, (q < length c)%nat ->
      pdist (opos o) (nth i c pos0) <= pdist (opos o) (nth q c pos0) + 2 * fminsize F) /\
    (sumR ow group = 0 /\ nth i c' pos0 = pos0 \/
     0 < sumR ow group /\ forall d, sumR ow group * getDim d (nth i c' pos0) = sumR (fun o => ow o * getDim d (opos o)) group).
Proof.
  intros HF Hm Hcat HB Hne HS Hi. destruct (C56_step F cat cells HF Hm Hcat HB c c' Hne HS) as (groups & HL & HP & HN & ->).
  assert (Hin : In (nth i groups []) groups) by (apply nth_In; lia).
  assert (Inc : incl (nth i groups []) cat).
  { intros o Ho. apply (Permutation_in _ HP). apply in_concat. eauto. }
  exists (nth i groups []). split; auto. split; [apply HN|].
  rewrite (nth_indep _ pos0 (wmean [])) by (rewrite map_length; lia). rewrite map_nth. set (g := nth i groups []) in *.
  assert (P0 : 0 <= sumR ow g) by (apply sumR_nonneg; intros o Ho; apply Hcat; apply Inc; auto). unfold wmean.
  destruct (Req_EM_T (sumR ow g) 0) as [Z|Z]; [left; auto|right]. split; [lra|].
  intros d; destruct d; cbn [getDim px py pz]; field; auto.
Qed.
Example C56_example : exists cells c c', fcoord kmF <> Sphere /\ fminsize kmF = 0 /\ plainWeights kmCat /\ buildField kmF kmCat cells /\ c <> [] /\
  kmStep (fcoord kmF) false cells c c' /\ kmRefine kmF false kmCat cells 1 200 c c'.
Proof.
  destruct km_field as (tL & tRR & s & HB & _). eexists. exists kmC0, kmC1.
  split; [discriminate|]. split; [reflexivity|]. split; [exact km_plain|]. split; [exact HB|]. split; [discriminate|].
  set (cells := [tL; _]) in *. split.
  - assert (S : exists c', kmStep Flat false cells kmC0 c').
    { eexists. exists [cells], [cells]. cbn [concat]. rewrite app_nil_r. auto. }
    destruct S as (c' & S). cbn [fcoord kmF]. rewrite <- (km_step cells kmC0 c' HB (or_introl eq_refl) S). exact S.
  - unfold kmRefine. cbn [fcoord kmF]. set (t := _ * _ * _ * _). clearbody t.
    assert (R0 : readCenters Flat kmC0 = kmC0) by reflexivity. rewrite R0.
    destruct (kmRun_exists cells Flat false t 200 kmC0) as (c' & HR). rewrite <- (km_run cells t 199 kmC0 c' HB (or_introl eq_refl) HR). exact HR.
Qed.
