(** C90: the alternate k-means algorithm (alt=True). *)
From Coq Require Import Reals Lra Lia List ZArith Bool Permutation.
From Verif Require Import Base Geometry Tree Traverse Run Sampler SamplerFacts SumFacts GeomFacts TreeFacts KMeans KMeansFacts PropsKM PropsKM2.
Import ListNotations.
Open Scope R_scope.

(** ** Specification *)
(** Inertia of a group of objects about a point. *)
Definition inertiaOf (p : pos) (l : list obj) : R := sumR (fun o => ow o * normSq (psub (opos o) p)) l.

(** ** Cells *)
Lemma sizeSq_attained cen l : calculateSizeSq cen l = 0 \/ exists o, In o l /\ calculateSizeSq cen l = normSq (psub cen (opos o)).
Proof.
  induction l as [|a l IH]; cbn [calculateSizeSq]; [left; auto|]. unfold Rmax. destruct (Rle_dec _ _).
  - destruct IH as [IH|[o [Ho E]]]; [left; auto|right; exists o; split; [right; auto|auto]].
  - right. exists a. split; [left|]; auto.
Qed.
(** Parallel axis theorem *)
Lemma parallel_axis (l : list obj) (g p : pos) :
  (forall d, getDim d g * sumR ow l = sumR (fun o => ow o * getDim d (opos o)) l) ->
  inertiaOf p l = sumR ow l * normSq (psub g p) + inertiaOf g l.
Proof.
  intros M. pose proof (M DX) as MX. pose proof (M DY) as MY. pose proof (M DZ) as MZ. cbn [getDim] in *.
  assert (A : forall q, inertiaOf q l = sumR (fun o => ow o * normSq (opos o)) l - 2 * (px q * sumR (fun o => ow o * px (opos o)) l +
    py q * sumR (fun o => ow o * py (opos o)) l + pz q * sumR (fun o => ow o * pz (opos o)) l) + normSq q * sumR ow l).
  { intro q. clear. induction l as [|o l IH]; unfold inertiaOf in *; cbn [sumR]; [ring|]. rewrite IH. unfold normSq, psub. cbn [px py pz]. ring. }
  rewrite (A p), (A g), <- MX, <- MY, <- MZ. unfold normSq, psub. cbn [px py pz]. ring.
Qed.
Lemma inertiaOf_nonneg p l : (forall o, In o l -> 0 <= ow o) -> 0 <= inertiaOf p l.
Proof.
  intros H. apply sumR_nonneg. intros o Ho. apply Rmult_le_pos; auto. unfold normSq. nra.
Qed.
Lemma inertiaOf_flat {A} p (f : A -> list obj) l : inertiaOf p (flat_map f l) = sumR (fun x => inertiaOf p (f x)) l.
Proof. unfold inertiaOf. apply sumR_flat. Qed.

Definition cellInertia (p : pos) (c : cell) : R :=
  normSq (psub (getPos c) p) * getW c + (if Rlt_dec 0 (sizeSq c) then 3/4 * sizeSq c * getW c else 0).
Lemma normSq_nonneg v : 0 <= normSq v.
Proof. unfold normSq. nra. Qed.
Lemma pdist_sq p q : pdist p q * pdist p q = normSq (psub p q).
Proof. unfold pdist, norm. apply sqrt_sqrt. apply normSq_nonneg. Qed.
Lemma normSq_flip p q : normSq (psub p q) = normSq (psub q p).
Proof. unfold normSq, psub; cbn; ring. Qed.
Section Cells.
Variables (co : coord) (sm : splitmethod) (l : list obj) (t : cell).
Hypothesis Hco : co <> Sphere.
Hypothesis HB : builds co sm (0 * 0) false l t.
Hypothesis Hp : forall o, In o l -> 0 <= ow o /\ owpos o = ow o.
Lemma objs_w o : In o (objs t) -> 0 <= ow o.
Proof. intro Ho. apply Hp. apply (Permutation_in _ (builds_perm _ _ _ _ _ _ HB)). auto. Qed.
Lemma cell_W : getW t = sumR ow (objs t).
Proof. apply (cell_moment co sm (0 * 0) false l t DX); auto. Qed.
Lemma cell_axis p : inertiaOf p (objs t) = getW t * normSq (psub (getPos t) p) + inertiaOf (getPos t) (objs t).
Proof.
  rewrite cell_W. apply parallel_axis. intro d. rewrite <- cell_W.
  apply (cell_moment co sm (0 * 0) false l t d); auto.
Qed.
Lemma cell_W_nonneg : 0 <= getW t.
Proof. rewrite cell_W. apply sumR_nonneg. apply objs_w. Qed.
(** The size is the greatest distance from the centre. *)
Lemma cell_size : exists s, getSize t = Fin s /\ 0 <= s /\ (forall o, In o (objs t) -> pdist (getPos t) (opos o) <= s) /\
  (s = 0 \/ exists o, In o (objs t) /\ s = pdist (getPos t) (opos o)).
Proof.
  destruct HB as [o|l0 L R0 cl cr H2 Hs _ HL HR|l0 H2 Hs].
  - exists 0. cbn. split; auto. split; [lra|]. split; [|left; auto]. intros o' [<-|[]]. rewrite pdist_refl. lra.
  - exists (sqrt (calculateSizeSq (centroid co l0) l0)). cbn [getSize]. split; auto. split; [apply sqrt_pos|].
    pose proof (builds_perm _ _ _ _ _ _ HB) as HP. cbn [getPos getData dataN dpos].
    split.
    + intros o Ho. apply size_bound. apply (Permutation_in _ HP). auto.
    + right. destruct (sizeSq_attained (centroid co l0) l0) as [H|[o [Ho E]]]; [lra|].
      exists o. split; [apply (Permutation_in _ (Permutation_sym HP)); auto|]. rewrite E. reflexivity.
  - exists 0. cbn [getSize]. split; auto. split; [lra|]. split; [|left; auto]. cbn [objs getPos getData dataN dpos].
    intros o Ho. pose proof (size_bound (centroid co l0) l0 o Ho) as B.
    replace (sqrt (calculateSizeSq (centroid co l0) l0)) with 0 in B; auto.
    pose proof (calculateSizeSq_nonneg (centroid co l0) l0). replace (calculateSizeSq (centroid co l0) l0) with 0 by lra. symmetry. apply sqrt_0.
Qed.
(** What CalculateInertia adds for a cell, compared with the inertia of its objects. *)
Lemma cell_lower p : 3/4 * inertiaOf p (objs t) <= cellInertia p t.
Proof.
  destruct cell_size as (s & Es & Hs & Hin & _). unfold cellInertia, sizeSq. rewrite Es, cell_axis.
  pose proof cell_W_nonneg as HW. pose proof (normSq_nonneg (psub (getPos t) p)) as HN.
  assert (HI : inertiaOf (getPos t) (objs t) <= s * s * getW t).
  { rewrite cell_W, <- sumR_scal. unfold inertiaOf. apply sumR_le. intros o Ho.
    rewrite (Rmult_comm (s * s)). apply Rmult_le_compat_l; [apply objs_w; auto|].
    rewrite normSq_flip, <- pdist_sq. pose proof (Hin o Ho). pose proof (pdist_nonneg (getPos t) (opos o)). nra. }
  assert (0 <= getW t * normSq (psub (getPos t) p)) by (apply Rmult_le_pos; auto).
  destruct (Rlt_dec 0 (s * s)) as [L|L]; [lra|]. assert (s * s = 0) by nra. rewrite H0 in HI. lra.
Qed.
Lemma cell_upper p r : (forall o, In o (objs t) -> pdist (opos o) p <= r) -> cellInertia p t <= 4 * (r * r) * getW t.
Proof.
  intros Hr. destruct cell_size as (s & Es & Hs & Hin & Ha). unfold cellInertia, sizeSq. rewrite Es.
  pose proof cell_W_nonneg as HW.
  destruct (Rle_lt_or_eq_dec 0 (getW t) HW) as [W|W].
  - assert (HC : normSq (psub (getPos t) p) <= r * r).
    { assert (H : getW t * normSq (psub (getPos t) p) <= getW t * (r * r)).
      { pose proof (cell_axis p) as E. pose proof (inertiaOf_nonneg (getPos t) (objs t) objs_w) as N.
        assert (X : inertiaOf p (objs t) <= r * r * getW t).
        { rewrite cell_W, <- sumR_scal. unfold inertiaOf. apply sumR_le. intros o Ho.
          rewrite (Rmult_comm (r * r)). apply Rmult_le_compat_l; [apply objs_w; auto|].
          rewrite <- pdist_sq. pose proof (Hr o Ho). pose proof (pdist_nonneg (opos o) p). nra. }
        lra. }
      apply (Rmult_le_reg_l (getW t)); auto. }
    assert (HS : s * s <= 4 * (r * r)).
    { destruct Ha as [->|[o [Ho ->]]]; [nra|].
      pose proof (Hr o Ho) as H1. pose proof (pdist_triangle (getPos t) p (opos o)) as T. rewrite (pdist_sym p (opos o)) in T.
      assert (H2 : pdist (getPos t) p <= r).
      { rewrite <- pdist_sq in HC. pose proof (pdist_nonneg (getPos t) p). pose proof (pdist_nonneg (opos o) p). nra. }
      pose proof (pdist_nonneg (getPos t) (opos o)). pose proof (pdist_nonneg (getPos t) p). pose proof (pdist_nonneg (opos o) p). nra. }
    destruct (Rlt_dec 0 (s * s)) as [L|L].
    + apply Rle_trans with (r * r * getW t + 3/4 * (4 * (r * r)) * getW t); [|nra].
      apply Rplus_le_compat; apply Rmult_le_compat_r; auto; lra.
    + rewrite Rplus_0_r. apply Rmult_le_compat_r; auto. pose proof (Rle_0_sqr r). unfold Rsqr in *. lra.
  - rewrite <- W. destruct Rlt_dec; lra.
Qed.
End Cells.

(** ** The calls *)
Lemma patchInertia_cells c i cs : patchInertia c i cs = sumR (cellInertia (cen c i)) cs.
Proof. reflexivity. Qed.
Lemma nth_calcInertia c calls i : (i < length c)%nat ->
  nth i (calcInertia c calls) 0 = patchInertia c i (callsOf i calls) / (sumR (fun pc => getW (snd pc)) calls / INR (length c) / 3).
Proof.
  intro Hi. unfold calcInertia.
  set (f := fun i => patchInertia c i (callsOf i calls) / (sumR (fun pc => getW (snd pc)) calls / INR (length c) / 3)).
  rewrite (nth_indep _ 0 (f 0%nat)) by (rewrite map_length, seq_length; auto). rewrite map_nth, seq_nth by auto. reflexivity.
Qed.

Section Step.
Variables (F : fparams) (cat : list obj) (cells : list cell).
Hypothesis HF : fcoord F <> Sphere.
Hypothesis Hm : fminsize F = 0.
Hypothesis Hbr : fbrute F = false.
Hypothesis Hcat : plainWeights cat.
Hypothesis HW : 0 < sumR ow cat.
Hypothesis HB : buildField F cat cells.

Section Calls.
Variables (c : list pos) (ins : option (list R)) (chunks : list (list cell)).
Hypothesis Hz : zeroOpt ins.
Hypothesis Hne : c <> [].
Hypothesis Hch : concat chunks = cells.
Let calls := kmCalls c ins chunks.
Lemma calls_perm : Permutation (flat_map (fun pc => objs (snd pc)) calls) cat.
Proof.
  assert (Hm' : 0 <= fminsize F) by lra.
  pose proof (buildField_wf F cat cells Hm' HB) as Hw. pose proof (buildField_perm F cat cells HB) as HP.
  destruct (kmCalls_spec c ins (fminsize F) chunks cells Hz Hne Hch Hw) as (HO & _). fold calls in HO.
  rewrite HO, flat_map_concat_map. exact HP.
Qed.
Lemma calls_build pc : In pc calls -> exists l, builds (fcoord F) (fsm F) (0 * 0) false l (snd pc) /\
  forall o, In o l -> 0 <= ow o /\ owpos o = ow o.
Proof.
  intro Hpc. assert (Hm' : 0 <= fminsize F) by lra. pose proof (buildField_wf F cat cells Hm' HB) as Hw.
  destruct (kmCalls_spec c ins (fminsize F) chunks cells Hz Hne Hch Hw) as (_ & HA). fold calls in HA.
  destruct (HA pc Hpc) as (_ & (c0 & Hc0 & Hs) & _).
  destruct (cells_builds F cat cells HB c0 (snd pc) Hc0 Hs) as (l & Hl). rewrite Hm, Hbr in Hl. exists l. split; auto.
  intros o Ho. apply Hcat. apply (Permutation_in _ calls_perm). apply in_flat_map. exists pc. split; auto.
  apply (Permutation_in _ (Permutation_sym (builds_perm _ _ _ _ _ _ Hl))). auto.
Qed.
Lemma calls_W : sumR (fun pc => getW (snd pc)) calls = sumR ow cat.
Proof.
  rewrite <- (sumR_perm ow _ _ calls_perm), sumR_flat. apply sumR_ext. intros pc Hpc.
  destruct (calls_build pc Hpc) as (l & Hl & Hp). apply (cell_W _ _ l _ HF Hl Hp).
Qed.
Lemma callsOf_build i t : In t (callsOf i calls) -> exists l, builds (fcoord F) (fsm F) (0 * 0) false l t /\
  forall o, In o l -> 0 <= ow o /\ owpos o = ow o.
Proof.
  unfold callsOf. rewrite in_map_iff. intros (pc & <- & Hpc). apply filter_In in Hpc. apply calls_build. tauto.
Qed.
Lemma patch_lower i : 3/4 * inertiaOf (cen c i) (group calls i) <= patchInertia c i (callsOf i calls).
Proof.
  unfold group. rewrite inertiaOf_flat, <- sumR_scal, patchInertia_cells. apply sumR_le. intros t Ht.
  destruct (callsOf_build i t Ht) as (l & Hl & Hp). apply (cell_lower _ _ l _ HF Hl Hp).
Qed.
Lemma patch_upper i r : (forall o, In o (group calls i) -> pdist (opos o) (cen c i) <= r) ->
  patchInertia c i (callsOf i calls) <= 4 * (r * r) * sumR ow (group calls i).
Proof.
  intro Hr. unfold group. rewrite sumR_flat, <- sumR_scal, patchInertia_cells. apply sumR_le. intros t Ht.
  destruct (callsOf_build i t Ht) as (l & Hl & Hp). rewrite <- (cell_W _ _ l _ HF Hl Hp).
  apply (cell_upper _ _ l _ HF Hl Hp). intros o Ho. apply Hr. unfold group. apply in_flat_map. eauto.
Qed.
Lemma patch_nonneg i : 0 <= patchInertia c i (callsOf i calls).
Proof.
  eapply Rle_trans; [|apply patch_lower]. apply Rmult_le_pos; [lra|]. apply inertiaOf_nonneg.
  intros o Ho. apply in_group in Ho. destruct Ho as (pc & H1 & _ & H3). apply Hcat. apply (Permutation_in _ calls_perm).
  apply in_flat_map. eauto.
Qed.
End Calls.

Lemma meanw_pos (c : list pos) : c <> [] -> 0 < sumR ow cat / INR (length c) / 3.
Proof.
  intro H. assert (0 < INR (length c)) by (apply lt_0_INR; destruct c; [contradiction|cbn; lia]).
  unfold Rdiv. apply Rmult_lt_0_compat; [|lra]. apply Rmult_lt_0_compat; auto. apply Rinv_0_lt_compat; auto.
Qed.
Lemma inertia_zeroOpt c chunks : c <> [] -> concat chunks = cells -> zeroOpt (Some (calcInertia c (kmCalls c None chunks))).
Proof.
  intros Hne Hch i. destruct (Nat.lt_ge_cases i (length c)) as [L|L].
  - rewrite nth_calcInertia by auto. rewrite (calls_W c None chunks I Hne Hch).
    unfold Rdiv at 1. apply Rmult_le_pos; [apply patch_nonneg; auto; exact I|].
    apply Rlt_le, Rinv_0_lt_compat. apply meanw_pos. auto.
  - rewrite nth_overflow; [lra|]. unfold calcInertia. rewrite map_length, seq_length. auto.
Qed.
Lemma nth_groups (c : list pos) calls i : (i < length c)%nat -> nth i (map (group calls) (seq 0 (length c))) [] = group calls i.
Proof.
  intro Hi. rewrite (nth_indep _ [] (group calls 0%nat)) by (rewrite map_length, seq_length; auto). rewrite map_nth, seq_nth by auto. reflexivity.
Qed.

(** One iteration with alt=True.  near: every object with the nearest centre.  E: estimates of the
    inertias of these groups, in units of a third of the mean weight of a patch.  groups: every
    object where squared distance + E is least.  The new centres are the means of these groups. *)
Theorem C90_step c c' : c <> [] -> kmStep (fcoord F) true cells c c' ->
  let n := length c in
  exists near groups (E : nat -> R),
    length near = n /\ Permutation (concat near) cat /\
    (forall i o, In o (nth i near []) -> forall q, (q < n)%nat ->
       normSq (psub (opos o) (nth i c pos0)) <= normSq (psub (opos o) (nth q c pos0))) /\
    (forall i, (i < n)%nat -> 3/4 * inertiaOf (nth i c pos0) (nth i near []) <= E i * (sumR ow cat / INR n / 3)) /\
    (forall i r, (i < n)%nat -> (forall o, In o (nth i near []) -> pdist (opos o) (nth i c pos0) <= r) ->
       E i * (sumR ow cat / INR n / 3) <= 4 * (r * r) * sumR ow (nth i near [])) /\
    length groups = n /\ Permutation (concat groups) cat /\
    (forall i o, In o (nth i groups []) -> forall q, (q < n)%nat ->
       normSq (psub (opos o) (nth i c pos0)) + E i <= normSq (psub (opos o) (nth q c pos0)) + E q) /\
    (forall i j o, In o (nth i near []) -> In o (nth j groups []) -> E j <= E i) /\
    c' = map wmean groups.
Proof.
  intros Hne (ch1 & ch2 & H1 & H2 & ->) n. assert (Hm' : 0 <= fminsize F) by lra.
  set (ins := calcInertia c (kmCalls c None ch1)).
  pose proof (inertia_zeroOpt c ch1 Hne H1) as Hz. fold ins in Hz.
  destruct (pass F cat cells HF Hm' Hcat HB c None ch1 I Hne H1) as (P1 & G1 & _).
  destruct (pass F cat cells HF Hm' Hcat HB c (Some ins) ch2 Hz Hne H2) as (P2 & G2 & U2). cbn zeta in *.
  exists (map (group (kmCalls c None ch1)) (seq 0 n)), (map (group (kmCalls c (Some ins) ch2)) (seq 0 n)), (fun i => nth i ins 0).
  pose proof (meanw_pos c Hne) as Hmw.
  assert (HI : forall i, (i < n)%nat -> nth i ins 0 * (sumR ow cat / INR n / 3) = patchInertia c i (callsOf i (kmCalls c None ch1))).
  { intros i Hi. unfold ins. rewrite nth_calcInertia by auto. rewrite (calls_W c None ch1 I Hne H1). unfold n in *.
    set (mw := sumR ow cat / INR (length c) / 3) in *. field. lra. }
  rewrite !map_length, !seq_length. split; auto. split; auto. split.
  { intros i o Ho q Hq. destruct (G1 i o Ho) as (pc & _ & <- & Hin & Hw & HG). rewrite Hm in Hw.
    pose proof (goodCall_exact c None pc Hw HG o q Hin Hq) as X. unfold costTo, dsqTo, cen in X. cbn [inert] in X. lra. }
  split. { intros i Hi. rewrite HI by auto. unfold n. rewrite nth_groups by auto. apply patch_lower; auto. exact I. }
  split. { intros i r Hi Hr. rewrite HI by auto. unfold n in *. rewrite nth_groups in Hr |- * by auto. apply patch_upper; auto. exact I. }
  split; auto. split; auto.
  assert (N1 : forall i o, In o (nth i (map (group (kmCalls c None ch1)) (seq 0 n)) []) -> forall q, (q < n)%nat ->
       normSq (psub (opos o) (nth i c pos0)) <= normSq (psub (opos o) (nth q c pos0))).
  { intros i o Ho q Hq. destruct (G1 i o Ho) as (pc & _ & <- & Hin & Hw & HG). rewrite Hm in Hw.
    pose proof (goodCall_exact c None pc Hw HG o q Hin Hq) as X. unfold costTo, dsqTo, cen in X. cbn [inert] in X. lra. }
  assert (N2 : forall i o, In o (nth i (map (group (kmCalls c (Some ins) ch2)) (seq 0 n)) []) -> forall q, (q < n)%nat ->
       normSq (psub (opos o) (nth i c pos0)) + nth i ins 0 <= normSq (psub (opos o) (nth q c pos0)) + nth q ins 0).
  { intros i o Ho q Hq. destruct (G2 i o Ho) as (pc & _ & <- & Hin & Hw & HG). rewrite Hm in Hw.
    pose proof (goodCall_exact c (Some ins) pc Hw HG o q Hin Hq) as X. unfold costTo, dsqTo, cen in X. cbn [inert] in X. exact X. }
  split; [exact N2|]. split; [|exact U2].
  assert (NL : forall (f : nat -> list obj) i o, In o (nth i (map f (seq 0 n)) []) -> (i < n)%nat).
  { intros f i o Ho. destruct (Nat.lt_ge_cases i n); auto. rewrite nth_overflow in Ho by (rewrite map_length, seq_length; auto). destruct Ho. }
  intros i j o Hi Hj. pose proof (N1 i o Hi j (NL _ _ _ Hj)). pose proof (N2 j o Hj i (NL _ _ _ Hi)). lra.
Qed.
(** The iteration is determined when no object has two best patches. *)
Lemma alt_labels c c' (lab : obj -> nat) (V : list R) : c <> [] ->
  (forall chunks, concat chunks = cells -> calcInertia c (kmCalls c None chunks) = V) ->
  (forall o, In o cat -> (lab o < length c)%nat) ->
  (forall o, In o cat -> forall q, (q < length c)%nat -> q <> lab o ->
     normSq (psub (opos o) (nth (lab o) c pos0)) + nth (lab o) V 0 < normSq (psub (opos o) (nth q c pos0)) + nth q V 0) ->
  kmStep (fcoord F) true cells c c' ->
  c' = map (fun i => wmean (filter (fun o => Nat.eqb (lab o) i) cat)) (seq 0 (length c)).
Proof.
  intros Hne HV Hlt Hlab (ch1 & ch2 & H1 & H2 & ->). assert (Hm' : 0 <= fminsize F) by lra.
  rewrite (HV ch1 H1). pose proof (inertia_zeroOpt c ch1 Hne H1) as Hz. rewrite (HV ch1 H1) in Hz.
  destruct (pass F cat cells HF Hm' Hcat HB c (Some V) ch2 Hz Hne H2) as (HP & G2 & ->). cbn zeta in *.
  set (groups := map (group (kmCalls c (Some V) ch2)) (seq 0 (length c))) in *.
  assert (HL : length groups = length c) by (unfold groups; rewrite map_length, seq_length; auto).
  assert (G : forall i o, In o (nth i groups []) -> lab o = (0 + i)%nat).
  { intros i o Ho. assert (Hi : (i < length groups)%nat).
    { destruct (Nat.lt_ge_cases i (length groups)); auto. rewrite nth_overflow in Ho by auto. destruct Ho. }
    assert (Hin : In o cat). { apply (Permutation_in _ HP). apply in_concat. exists (nth i groups []). split; auto. apply nth_In; auto. }
    destruct (Nat.eq_dec (lab o) i) as [E|E]; [cbn; auto|]. exfalso.
    pose proof (Hlab o Hin i ltac:(lia) (not_eq_sym E)).
    destruct (G2 i o Ho) as (pc & _ & <- & Hin2 & Hw & HG). rewrite Hm in Hw.
    pose proof (goodCall_exact c (Some V) pc Hw HG o (lab o) Hin2 (Hlt o Hin)) as X. unfold costTo, dsqTo, cen in X. cbn [inert] in X. lra. }
  apply (nth_ext _ _ pos0 pos0); [rewrite !map_length, seq_length; auto|]. intros i Hi. rewrite map_length in Hi.
  rewrite (nth_indep _ pos0 (wmean [])) by (rewrite map_length; auto). rewrite map_nth.
  set (g := fun i => wmean (filter (fun o => Nat.eqb (lab o) i) cat)).
  rewrite (nth_indep (map g (seq 0 (length c))) pos0 (g 0%nat)) by (rewrite map_length, seq_length; lia).
  rewrite map_nth, seq_nth by lia. unfold g. rewrite <- (filter_groups lab groups 0 G i). apply wmean_perm. apply filter_perm. auto.
Qed.
End Step.

(** ** A catalog for which the iterations never end *)
Lemma kmCalls_det cs ins (E : cell -> list (nat * cell)) cells :
  (forall c cand, In c cells -> Permutation (seq 0 (length cs)) cand ->
     fst (findCells cs ins c cand) = E c /\ Permutation (seq 0 (length cs)) (snd (findCells cs ins c cand))) ->
  forall chunks, concat chunks = cells -> kmCalls cs ins chunks = flat_map E cells.
Proof.
  intros H chunks <-.
  assert (M : forall ch cand, (forall c, In c ch -> In c (concat chunks)) -> Permutation (seq 0 (length cs)) cand ->
     findMany cs ins ch cand = flat_map E ch).
  { induction ch as [|c t IH]; intros cand Hin P; cbn [findMany flat_map]; auto.
    destruct (H c cand (Hin c (or_introl eq_refl)) P) as [E1 P1]. destruct (findCells cs ins c cand) as [ev cand']. cbn in E1, P1.
    rewrite E1. f_equal. apply IH; auto. intros; apply Hin; right; auto. }
  unfold kmCalls. clear H.
  assert (X : forall l, (forall ch, In ch l -> incl ch (concat chunks)) -> flat_map (fun ch => findMany cs ins ch (seq 0 (length cs))) l = flat_map E (concat l)).
  { induction l as [|ch l IH]; intros Hl; cbn [flat_map concat]; auto. rewrite flat_map_app, IH by (intros; apply Hl; right; auto).
    f_equal. apply M; auto. apply Hl. left; auto. }
  apply X. intros ch Hc x Hx. apply in_concat. eauto.
Qed.
Definition alo (x w : R) (i : nat) : obj := mkobj (mkpos x 0 0) w w 0 0 0 i.
Definition al0 := alo (-6) 1 0.
Definition al1 := alo 6 1 1.
Definition al2 := alo 16 3 2.
Definition alCat : list obj := [al0; al1; al2].
(** Flat coordinates; min_top = max_top = 1, as for npatch = 2: catalog.py:1436-1440 *)
Definition alF : fparams := mkF Flat Mean 0 Inf false 1 1.
Definition alL : cell := Node (dataN Flat [al0; al1]) (Fin 6) (Leaf (data1 al0) al0) (Leaf (data1 al1) al1).
Definition alR : cell := Leaf (data1 al2) al2.
Definition alC0 : list pos := [mkpos 0 0 0; mkpos 16 0 0].
Definition alC1 : list pos := [mkpos (-6) 0 0; mkpos (27/2) 0 0].
Lemma perm2 (cand : list nat) : Permutation [0; 1]%nat cand -> cand = [0; 1]%nat \/ cand = [1; 0]%nat.
Proof.
  intro P. pose proof (Permutation_length P) as L. destruct cand as [|a [|b [|d t]]]; cbn in L; try discriminate.
  assert (Ha : In a [0; 1]%nat) by (apply (Permutation_in _ (Permutation_sym P)); left; auto).
  assert (Hb : In b [0; 1]%nat) by (apply (Permutation_in _ (Permutation_sym P)); right; left; auto).
  assert (N : NoDup [a; b]) by (apply (Permutation_NoDup P); repeat constructor; cbn; intuition discriminate).
  inversion N as [|? ? N1 _]; subst. destruct Ha as [<-|[<-|[]]]; destruct Hb as [<-|[<-|[]]]; auto; exfalso; apply N1; left; auto.
Qed.
Lemma closest2 f b j cand : (cand = [b; j] \/ cand = [j; b]) -> f b < f j ->
  closest f (hd 0%nat cand) (tl cand) = (b, [j]).
Proof.
  intros [->| ->] H; cbn [hd tl closest]; destruct Rlt_dec; auto; lra.
Qed.
Lemma find_done cs ins c b j cand : (cand = [b; j] \/ cand = [j; b]) ->
  costTo cs ins (getPos c) b < costTo cs ins (getPos c) j ->
  ((forall d s l r, c <> Node d s l r) \/ badCand cs ins (getPos c) (getSize c) b j = true) ->
  findCells cs ins c cand = ([(b, c)], [b; j]).
Proof.
  intros Hc Hlt HD. assert (E : cand = hd 0%nat cand :: tl cand) by (destruct Hc as [->| ->]; reflexivity).
  pose proof (closest2 _ b j cand Hc Hlt) as C. rewrite E. clear E.
  destruct c as [d o|d os|d s l r]; cbn [findCells]; rewrite C; cbn [prune];
    destruct (badCand _ _ _ _ b j) eqn:EB; cbn [app orb]; auto.
  - destruct (sizeZero _); reflexivity.
  - destruct (sizeZero _); reflexivity.
  - exfalso. destruct HD as [HD|HD]; [eapply HD; reflexivity|congruence].
Qed.
Lemma find_split cs ins d s l r b j cand : (cand = [b; j] \/ cand = [j; b]) ->
  costTo cs ins (dpos d) b < costTo cs ins (dpos d) j ->
  badCand cs ins (dpos d) s b j = false -> sizeZero s = false ->
  findCells cs ins (Node d s l r) cand =
    (fst (findCells cs ins l [b; j]) ++ fst (findCells cs ins r (snd (findCells cs ins l [b; j]))),
     snd (findCells cs ins r (snd (findCells cs ins l [b; j])))).
Proof.
  intros Hc Hlt HB HS. assert (E : cand = hd 0%nat cand :: tl cand) by (destruct Hc as [->| ->]; reflexivity).
  pose proof (closest2 _ b j cand Hc Hlt) as C. rewrite E. clear E. cbn [findCells].
  change (getPos (Node d s l r)) with (dpos d). rewrite C. cbn [prune]. change (getSize (Node d s l r)) with s. rewrite HB. cbn [app].
  rewrite HS. cbn [orb]. destruct (findCells cs ins l [b; j]) as [ev1 c1]. cbn [fst snd].
  destruct (findCells cs ins r c1) as [ev2 c2]. cbn [fst snd]. rewrite app_nil_r. reflexivity.
Qed.
Ltac cent0 := unfold centroid; cbn [sumR owpos alo al0 al1 al2]; destruct (Req_EM_T _ 0); [lra|]; unfold normalize, pscale; cbn; f_equal; field.
Lemma al_cen : centroid Flat [al0; al1] = mkpos 0 0 0. Proof. cent0. Qed.
Lemma al_cen3 : centroid Flat alCat = mkpos (48/5) 0 0. Proof. unfold alCat. cent0. Qed.
Lemma alL_pos : getPos alL = mkpos 0 0 0. Proof. apply al_cen. Qed.
Lemma alL_W : getW alL = 2. Proof. unfold getW. cbn. lra. Qed.
Lemma al_sizeSq : calculateSizeSq (mkpos 0 0 0) [al0; al1] = 36.
Proof.
  cbn [calculateSizeSq al0 al1 alo opos]. unfold normSq, psub. cbn [px py pz]. unfold Rmax. repeat destruct Rle_dec; lra.
Qed.
Lemma sqrt36 : sqrt 36 = 6. Proof. replace 36 with (6 * 6) by lra. apply sqrt_square. lra. Qed.
Lemma al_b2 : boundsOf [al0; al1] = mkbd (-6) 6 0 0 0 0.
Proof. change (boundsOf [al0; al1]) with (badd (mkbd (-6) (-6) 0 0 0 0) (mkpos 6 0 0)). apply badd_eq; cbn [px py pz]; updb. Qed.
Lemma al_b3 : boundsOf alCat = mkbd (-6) 16 0 0 0 0.
Proof.
  change (boundsOf alCat) with (badd (boundsOf [al0; al1]) (mkpos 16 0 0)). rewrite al_b2. apply badd_eq; cbn [px py pz]; updb.
Qed.
Lemma al_split3 : splitData Mean (centroid Flat alCat) alCat [al0; al1] [al2].
Proof.
  apply sd_ok; [|discriminate|discriminate]. apply sc_mean; auto. cbn zeta. rewrite al_b3, al_cen3.
  replace (getSplit _) with DX. 2: { unfold getSplit. cbn [xmin xmax ymin ymax zmin zmax]. repeat (destruct Rlt_dec; try lra); auto. }
  split; [apply Permutation_refl|]. split; repeat constructor; cbn; lra.
Qed.
Lemma al_split2 : splitData Mean (centroid Flat [al0; al1]) [al0; al1] [al0] [al1].
Proof.
  apply sd_ok; [|discriminate|discriminate]. apply sc_mean; auto. cbn zeta. rewrite al_b2, al_cen.
  replace (getSplit _) with DX. 2: { unfold getSplit. cbn [xmin xmax ymin ymax zmin zmax]. repeat (destruct Rlt_dec; try lra); auto. }
  split; [apply Permutation_refl|]. split; repeat constructor; cbn; lra.
Qed.
Lemma al_field : buildField alF alCat [alL; alR].
Proof.
  exists [[al0; al1]; [al2]]. cbn [alF fcoord fsm fmaxsize esq fmintop fmaxtop fminsize fbrute]. split.
  - change [[al0; al1]; [al2]] with ([[al0; al1]] ++ [[al2]]). eapply top_split; [|exact al_split3| |].
    + intros [H|[[_ H]|H]]; try lia. unfold topSizeSq, alCat in H. fold alCat in H.
      pose proof (calculateSizeSq_bound (centroid Flat alCat) alCat al0 ltac:(left; auto)) as B. rewrite al_cen3 in *. rewrite H in B.
      unfold normSq, psub in B. cbn in B. lra.
    + apply top_stop. right. right. lia.
    + apply top_stop. right. right. lia.
  - constructor; [|constructor; [constructor|constructor]].
    unfold alL. replace (Fin 6) with (if false then Inf else Fin (sqrt (calculateSizeSq (centroid Flat [al0; al1]) [al0; al1]))).
    + apply (b_node Flat Mean (0 * 0) false [al0; al1] [al0] [al1]); [cbn; lia| |exact al_split2|constructor|constructor].
      rewrite al_cen, al_sizeSq. lra.
    + rewrite al_cen, al_sizeSq, sqrt36. reflexivity.
Qed.
Lemma al_plain : plainWeights alCat.
Proof. intros o [<-|[<-|[<-|[]]]]; cbn; lra. Qed.
Lemma al_init : initTreeCenters Flat [alL; alR] 2 [1/4] = Some alC0.
Proof.
  unfold initTreeCenters, initTree. cbn [length Nat.ltb Nat.leb Nat.div Nat.divmod fst Nat.modulo snd Nat.sub repeat app Nat.add shuffle].
  destruct (trunc_nonneg (1/4 * INR 2)) as [[H1 H2] H3]; [cbn; lra|]. change (INR 2) with 2 in *.
  assert (A : trunc (1/4 * 2) = 0%Z).
  { set (t := trunc (1/4*2)) in *. assert (A : (t < 1)%Z) by (apply lt_IZR; lra). lia. }
  rewrite A. cbn [Z.to_nat Nat.ltb Nat.leb Nat.eqb swapAt]. cbn. unfold swapAt. cbn. rewrite al_cen. reflexivity.
Qed.
Ltac dist0 := unfold costTo, dsqTo, cen, inert, normSq, psub; cbn; lra.
Lemma al_perm_lt (cs : list pos) cand : length cs = 2%nat -> Permutation (seq 0 (length cs)) cand ->
  (cand = [0; 1]%nat \/ cand = [1; 0]%nat).
Proof. intros -> P. apply perm2. exact P. Qed.
Lemma al_inertia0 chunks : concat chunks = [alL; alR] -> calcInertia alC0 (kmCalls alC0 None chunks) = [324/5; 0].
Proof.
  intro H. rewrite (kmCalls_det alC0 None (fun c => match c with Leaf _ _ => [(1%nat, c)] | _ => [(0%nat, c)] end) [alL; alR]); auto.
  - assert (Hs : sizeSq alL = 36) by (unfold sizeSq; cbn; lra).
    unfold calcInertia. cbn [flat_map app alL alR sumR snd length alC0 seq map callsOf filter fst Nat.eqb].
    fold alL alR. unfold patchInertia. cbn [sumR]. rewrite alL_pos, alL_W, Hs.
    unfold sizeSq, cen, getW, normSq, psub. cbn.
    repeat destruct Rlt_dec; try lra. f_equal; [|f_equal]; field.
  - intros c cand [<-|[<-|[]]] P; apply (al_perm_lt alC0 cand eq_refl) in P.
    + rewrite (find_done alC0 None alL 0 1 cand); [|tauto| |].
      * cbn [fst snd]. split; auto.
      * rewrite alL_pos. dist0.
      * right. rewrite alL_pos. unfold badCand. cbn [getSize alL]. unfold dsqTo, cen, normSq, psub. cbn.
        replace ((0 - 0) * (0 - 0) + (0 - 0) * (0 - 0) + (0 - 0) * (0 - 0)) with 0 by ring. rewrite sqrt_0.
        destruct Rlt_dec; auto. lra.
    + rewrite (find_done alC0 None alR 1 0 cand); [|tauto| |].
      * cbn [fst snd]. split; auto. apply perm_swap.
      * dist0.
      * left. discriminate.
Qed.
Lemma al_inertia1 chunks : concat chunks = [alL; alR] -> calcInertia alC1 (kmCalls alC1 None chunks) = [0; 90].
Proof.
  intro H. rewrite (kmCalls_det alC1 None (fun c => match c with Node _ _ l r => [(0%nat, l); (1%nat, r)] | _ => [(1%nat, c)] end) [alL; alR]); auto.
  - unfold calcInertia. cbn [flat_map app alL alR sumR snd length alC1 seq map callsOf filter fst Nat.eqb].
    unfold patchInertia. cbn [sumR].
    unfold sizeSq, cen, getW, normSq, psub. cbn.
    repeat destruct Rlt_dec; try lra. f_equal; [|f_equal]; field.
  - intros c cand [<-|[<-|[]]] P; apply (al_perm_lt alC1 cand eq_refl) in P.
    + unfold alL. rewrite (find_split alC1 None _ _ _ _ 0 1 cand); auto.
      * rewrite (find_done alC1 None (Leaf (data1 al0) al0) 0 1 [0; 1]%nat); [|auto|dist0|left; discriminate]. cbn [fst snd].
        rewrite (find_done alC1 None (Leaf (data1 al1) al1) 1 0 [0; 1]%nat); [|auto|dist0|left; discriminate]. cbn [fst snd].
        split; auto. apply perm_swap.
      * cbn [dataN dpos]. rewrite al_cen. dist0.
      * cbn [dataN dpos]. rewrite al_cen. unfold badCand. unfold dsqTo, cen, normSq, psub. cbn.
        replace ((0 - -6) * (0 - -6) + (0 - 0) * (0 - 0) + (0 - 0) * (0 - 0)) with 36 by ring. rewrite sqrt36.
        destruct Rlt_dec; auto. lra.
      * unfold sizeZero. destruct Req_EM_T; auto. lra.
    + rewrite (find_done alC1 None alR 1 0 cand); [|tauto| |].
      * cbn [fst snd]. split; auto. apply perm_swap.
      * dist0.
      * left. discriminate.
Qed.
Definition alLab0 (o : obj) : nat := nth (oidx o) [0; 1; 1]%nat 0%nat.
Definition alLab1 (o : obj) : nat := nth (oidx o) [0; 0; 1]%nat 0%nat.
Ltac wm := unfold wmean; cbn [sumR ow opos px py pz al0 al1 al2 alo]; destruct Req_EM_T; try lra; auto; f_equal; field.
Lemma al_step0 c' : kmStep Flat true [alL; alR] alC0 c' -> c' = alC1.
Proof.
  intro HS. rewrite (alt_labels alF alCat [alL; alR] ltac:(discriminate) eq_refl eq_refl al_plain ltac:(cbn; lra) al_field alC0 c' alLab0 [324/5; 0]); auto.
  - unfold alC1. cbn [length alC0 seq map].
    change (filter (fun o => Nat.eqb (alLab0 o) 0) alCat) with [al0]. change (filter (fun o => Nat.eqb (alLab0 o) 1) alCat) with [al1; al2].
    f_equal; [wm|f_equal; wm].
  - discriminate.
  - apply al_inertia0.
  - intros o [<-|[<-|[<-|[]]]]; cbn; lia.
  - intros o Ho q Hq Hn. cbn [length alC0] in Hq. destruct Ho as [<-|[<-|[<-|[]]]]; cbn in Hn; (destruct q as [|[|q]]; [| |lia]);
      try (exfalso; apply Hn; reflexivity); unfold normSq, psub; cbn; lra.
Qed.
Lemma al_step1 c' : kmStep Flat true [alL; alR] alC1 c' -> c' = alC0.
Proof.
  intro HS. rewrite (alt_labels alF alCat [alL; alR] ltac:(discriminate) eq_refl eq_refl al_plain ltac:(cbn; lra) al_field alC1 c' alLab1 [0; 90]); auto.
  - unfold alC0. cbn [length alC1 seq map].
    change (filter (fun o => Nat.eqb (alLab1 o) 0) alCat) with [al0; al1]. change (filter (fun o => Nat.eqb (alLab1 o) 1) alCat) with [al2].
    f_equal; [wm|f_equal; wm].
  - discriminate.
  - apply al_inertia1.
  - intros o [<-|[<-|[<-|[]]]]; cbn; lia.
  - intros o Ho q Hq Hn. cbn [length alC1] in Hq. destruct Ho as [<-|[<-|[<-|[]]]]; cbn in Hn; (destruct q as [|[|q]]; [| |lia]);
      try (exfalso; apply Hn; reflexivity); unfold normSq, psub; cbn; lra.
Qed.
Lemma al_shift : shiftSq alC0 alC1 = 169/4 /\ shiftSq alC1 alC0 = 169/4.
Proof. unfold alC0, alC1, shiftSq, normSq, psub. cbn. split; lra. Qed.
Lemma al_run tolsq : tolsq <= 169/4 -> forall n c', 
  (kmRun Flat true [alL; alR] tolsq n alC0 c' -> c' = if Nat.even n then alC0 else alC1) /\
  (kmRun Flat true [alL; alR] tolsq n alC1 c' -> c' = if Nat.even n then alC1 else alC0).
Proof.
  intros Ht. destruct al_shift as [S0 S1]. induction n as [|n IH]; intro c'.
  - split; intro H; inversion H; subst; reflexivity.
  - rewrite Nat.even_succ, <- Nat.negb_even. destruct (IH c') as [I0 I1].
    split; intro H; inversion H as [|? ? ? HS Hlt|? ? cm ? HS Hlt HR]; subst.
    + apply al_step0 in HS. subst. lra.
    + apply al_step0 in HS. subst cm. rewrite (I1 HR). destruct (Nat.even n); reflexivity.
    + apply al_step1 in HS. subst. lra.
    + apply al_step1 in HS. subst cm. rewrite (I0 HR). destruct (Nat.even n); reflexivity.
Qed.
Lemma al_step_exists c : exists c', kmStep Flat true [alL; alR] c c'.
Proof. eexists. exists [[alL; alR]], [[alL; alR]]. split; [reflexivity|]. split; reflexivity. Qed.
Lemma kmRun_exists co alt cells tolsq : forall n c, (forall c, exists c', kmStep co alt cells c c') -> exists c', kmRun co alt cells tolsq n c c'.
Proof.
  intros n c HE. revert c. induction n as [|n IH]; intro c; [exists c; constructor|].
  destruct (HE c) as [c1 H1]. destruct (Rlt_dec (shiftSq c c1) tolsq) as [L|L]; [exists c1; apply km_stop; auto|].
  destruct (IH c1) as [c2 H2]. exists c2. eapply km_go; eauto.
Qed.
Lemma al_wcss0 : wcss alCat alC0 = 72.
Proof.
  unfold wcss, alCat, alC0, minSq. cbn [sumR fold_right]. unfold normSq, psub, Rmin. cbn. repeat destruct Rle_dec; lra.
Qed.
Lemma al_wcss1 : wcss alCat alC1 = 75.
Proof.
  unfold wcss, alCat, alC1, minSq. cbn [sumR fold_right]. unfold normSq, psub, Rmin. cbn. repeat destruct Rle_dec; lra.
Qed.
Lemma al_size : fieldSize alF alCat <= 16.
Proof.
  unfold fieldSize. cbn [fcoord alF]. rewrite al_cen3. replace 16 with (sqrt (16 * 16)) by (apply sqrt_square; lra). apply sqrt_le_1_alt.
  cbn [calculateSizeSq alCat al0 al1 al2 alo opos]. unfold normSq, psub. cbn [px py pz]. unfold Rmax. repeat destruct Rle_dec; lra.
Qed.
(** Three objects at x = -6, 6 (weight 1) and 16 (weight 3), npatch = 2, init='tree', any tol <= 1/10:
    the iterations go back and forth between two sets of centres, so the result depends on whether
    max_iter is even; the first iteration makes the inertia of the patches larger. *)
Theorem C90_converges_refuted : exists F cat cells us c0 c1,
  F = mkF Flat Mean 0 Inf false 1 1 /\ plainWeights cat /\ (forall o, In o cat -> 0 < ow o) /\ buildField F cat cells /\
  openDraws us /\ initTreeCenters (fcoord F) cells 2 us = Some c0 /\ c0 <> c1 /\
  wcss cat c0 < wcss cat c1 /\
  (forall tol max_iter, 0 <= tol <= 1/10 -> exists c', kmRefine F true cat cells tol max_iter c0 c') /\
  (forall tol max_iter c', 0 <= tol <= 1/10 -> kmRefine F true cat cells tol max_iter c0 c' ->
     c' = if Nat.even max_iter then c0 else c1).
Proof.
  exists alF, alCat, [alL; alR], [1/4], alC0, alC1.
  split; [reflexivity|]. split; [exact al_plain|]. split; [intros o [<-|[<-|[<-|[]]]]; cbn; lra|].
  split; [exact al_field|]. split; [repeat constructor; lra|]. split; [exact al_init|].
  split; [unfold alC0, alC1; intro H; injection H; lra|]. split; [rewrite al_wcss0, al_wcss1; lra|].
  assert (R0 : forall c, readCenters (fcoord alF) c = c) by (intros c; unfold readCenters; induction c; cbn; f_equal; auto).
  split.
  - intros tol n Ht. unfold kmRefine. apply kmRun_exists. apply al_step_exists.
  - intros tol n c' Ht H. unfold kmRefine in H. rewrite R0 in H. revert H. apply (al_run _).
    pose proof al_size as S. assert (0 <= fieldSize alF alCat) by apply sqrt_pos. cbn [length alC0]. change (INR 2) with 2.
    assert (0 <= tol * fieldSize alF alCat <= 8/5) by nra. nra.
Qed.
Example C90_example : exists c', c' <> alC0 /\ kmStep Flat true [alL; alR] alC0 c' /\ buildField alF alCat [alL; alR].
Proof.
  destruct (al_step_exists alC0) as [c' H]. exists c'. split; [|split; [auto|exact al_field]].
  rewrite (al_step0 c' H). unfold alC0, alC1. intro E. injection E. lra.
Qed.
