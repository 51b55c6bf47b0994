(** Properties C30, C31, C32, C56: k-means and patch assignment. *)
From Coq Require Import Reals Lra Lia List ZArith Bool Permutation.
From Verif Require Import Base Geometry Tree Traverse Run Sampler SamplerFacts SumFacts GeomFacts TreeFacts KMeans KMeansFacts.
Import ListNotations.
Open Scope R_scope.

(** ** C30: assignment to the nearest centre *)
Lemma setAt_len {A} i (x : A) l : length (setAt i x l) = length l.
Proof. apply setAt_length. Qed.
Lemma applyWrites_length {A} ws : forall arr : list A, length (applyWrites ws arr) = length arr.
Proof.
  unfold applyWrites. induction ws as [|w ws IH]; intros arr; cbn [fold_left]; auto. rewrite IH. apply setAt_length.
Qed.
Lemma applyWrites_other {A} (d : A) ws i : ~ In i (map fst ws) -> forall arr, nth i (applyWrites ws arr) d = nth i arr d.
Proof.
  unfold applyWrites. induction ws as [|w ws IH]; intros H arr; cbn [fold_left]; auto. cbn in H.
  rewrite IH by tauto. apply setAt_other. tauto.
Qed.
Lemma applyWrites_nth {A} (d v : A) ws i : NoDup (map fst ws) -> In (i, v) ws -> forall arr, (i < length arr)%nat ->
  nth i (applyWrites ws arr) d = v.
Proof.
  induction ws as [|w ws IH]; intros Hn Hi arr Hl; [destruct Hi|]. inversion Hn; subst.
  change (applyWrites (w :: ws) arr) with (applyWrites ws (setAt (fst w) (snd w) arr)). destruct Hi as [->|Hi].
  - rewrite applyWrites_other by auto. apply setAt_same. auto.
  - apply IH; auto. rewrite setAt_length. auto.
Qed.
Lemma writes_fst calls : map fst (assignWrites calls) = map oidx (flat_map (fun pc => objs (snd pc)) calls).
Proof.
  unfold assignWrites. induction calls as [|pc t IH]; cbn [flat_map]; auto. rewrite !map_app, IH. f_equal.
  unfold getAllIndices. rewrite !map_map. apply map_ext. reflexivity.
Qed.
Lemma flat_map_concat_map {A B} (f : A -> list B) l : flat_map f l = concat (map f l).
Proof. induction l; cbn; congruence. Qed.
Lemma inflat {A B} (f : A -> list B) l y : In y (flat_map f l) <-> exists x, In x l /\ In y (f x).
Proof. apply in_flat_map. Qed.

(** kmeans_assign_patches gives every object a patch whose centre is nearest, up to 2*min_size of the
    field (exactly nearest for min_size = 0, the default), whatever the tree and the threads. *)
Theorem C30_assign F cat cells centers arr arr' :
  0 <= fminsize F -> buildField F cat cells -> centers <> [] ->
  map oidx cat = seq 0 (length cat) -> length arr = length cat ->
  kmAssign (fcoord F) cells centers arr arr' ->
  length arr' = length cat /\
  forall o, In o cat -> let p := nth (oidx o) arr' 0%nat in
    (p < length centers)%nat /\
    forall q, (q < length centers)%nat ->
      pdist (opos o) (nth p (readCenters (fcoord F) centers) pos0) <=
      pdist (opos o) (nth q (readCenters (fcoord F) centers) pos0) + 2 * fminsize F.
Proof.
  intros Hm HB Hne Hid Hla (chunks & Hch & ->). set (cs := readCenters (fcoord F) centers).
  assert (Lc : length cs = length centers) by (unfold cs, readCenters; apply map_length).
  assert (Hcs : cs <> []) by (destruct centers; [contradiction|discriminate]).
  pose proof (buildField_wf F cat cells Hm HB) as Hw. pose proof (buildField_perm F cat cells HB) as HP.
  destruct (kmCalls_spec cs None (fminsize F) chunks cells I Hcs Hch Hw) as (HO & HA).
  set (calls := kmCalls cs None chunks) in *. rewrite flat_map_concat_map in HO.
  rewrite (flat_map_concat_map objs) in HO. rewrite <- HO in HP.
  split; [rewrite applyWrites_length; auto|]. intros o Ho.
  assert (Hin : In o (concat (map (fun pc => objs (snd pc)) calls))) by (apply (Permutation_in _ (Permutation_sym HP)); auto).
  rewrite <- flat_map_concat_map in Hin. apply in_flat_map in Hin. destruct Hin as (pc & Hpc & Hopc).
  assert (E : nth (oidx o) (applyWrites (assignWrites calls) arr) 0%nat = fst pc).
  { apply applyWrites_nth.
    - rewrite writes_fst, flat_map_concat_map. eapply Permutation_NoDup; [|apply (seq_NoDup (length cat) 0)]. rewrite <- Hid.
      apply Permutation_map. apply Permutation_sym. exact HP.
    - unfold assignWrites. apply in_flat_map. exists pc. split; auto. apply in_map_iff. exists (oidx o). split; auto.
      unfold getAllIndices. apply in_map. auto.
    - rewrite Hla. assert (Hi : In (oidx o) (seq 0 (length cat))) by (rewrite <- Hid; apply in_map; auto).
      apply in_seq in Hi. lia. }
  cbn zeta. rewrite E. destruct (HA pc Hpc) as (H1 & (c & Hc & Hs) & HG). split; [lia|]. intros q Hq.
  apply (goodCall_near cs (fminsize F) pc Hm); auto; [|lia].
  rewrite Forall_forall in Hw. eapply wf_sub; [apply Hw; exact Hc|exact Hs].
Qed.
(** The assignment exists: the model does not get stuck. *)
Theorem C30_assign_exists F cells centers arr : exists arr', kmAssign (fcoord F) cells centers arr arr'.
Proof. eexists. exists [cells]. split; [cbn; apply app_nil_r|reflexivity]. Qed.
(** Direct assignment to given patch_centers: the first of the nearest centres. *)
Lemma quick_gen cs p : forall l k0, let k := fold_left (fun kmin k => if Rlt_dec (dsqTo cs p k) (dsqTo cs p kmin) then k else kmin) l k0 in
  (k = k0 \/ In k l) /\ dsqTo cs p k <= dsqTo cs p k0 /\ forall q, In q l -> dsqTo cs p k <= dsqTo cs p q.
Proof.
  induction l as [|a l IH]; intros k0; cbn [fold_left].
  - cbn. split; [auto|]. split; [lra|]. intros q [].
  - destruct (Rlt_dec (dsqTo cs p a) (dsqTo cs p k0)) as [L|L]; destruct (IH (if Rlt_dec (dsqTo cs p a) (dsqTo cs p k0) then a else k0)) as (H1 & H2 & H3);
      destruct (Rlt_dec (dsqTo cs p a) (dsqTo cs p k0)); try lra; cbn zeta in *; split; [|split| |split].
    + destruct H1 as [->|H1]; [right; left; auto|right; right; auto].
    + lra.
    + intros q [->|Hq]; auto.
    + destruct H1 as [->|H1]; [left; auto|right; right; auto].
    + lra.
    + intros q [->|Hq]; auto. lra.
Qed.
Lemma quick_first cs p : forall l k0 j, (forall x, In x l -> (k0 < x)%nat) -> (forall i x y, nth_error l i = Some x -> nth_error l (S i) = Some y -> (x < y)%nat) ->
  let k := fold_left (fun kmin k => if Rlt_dec (dsqTo cs p k) (dsqTo cs p kmin) then k else kmin) l k0 in
  (j = k0 \/ In j l) -> dsqTo cs p j <= dsqTo cs p k -> (k <= j)%nat.
Proof.
  intros l. induction l as [|a l IH]; intros k0 j Hk Hs; cbn [fold_left].
  - cbn. intros [->|[]] _. lia.
  - assert (Hs' : forall i x y, nth_error l i = Some x -> nth_error l (S i) = Some y -> (x < y)%nat) by (intros i x y H1 H2; apply (Hs (S i) x y H1 H2)).
    assert (Ha : forall x, In x l -> (a < x)%nat).
    { clear IH Hk. revert a Hs. induction l as [|b l IH]; intros a Hs x Hx; [destruct Hx|].
      assert (a < b)%nat by (apply (Hs 0%nat a b eq_refl eq_refl)). destruct Hx as [->|Hx]; [auto|].
      assert (b < x)%nat; [|lia]. apply (IH (fun i y z H1 H2 => Hs' (S i) y z H1 H2) b); auto. }
    destruct (Rlt_dec (dsqTo cs p a) (dsqTo cs p k0)) as [L|L].
    + intros Hj Hle. pose proof (quick_gen cs p l a) as (_ & Hq & _). cbn zeta in *.
      destruct Hj as [->|[->|Hj]]; [lra| |].
      * apply (IH j j); auto.
      * apply (IH a j); auto.
    + intros Hj Hle. destruct Hj as [->|[->|Hj]].
      * apply (IH k0 k0); auto. intros x Hx. apply Hk. right; auto.
      * pose proof (quick_gen cs p l k0) as (H1 & Hq & _). cbn zeta in *.
        assert (X : (fold_left (fun kmin k => if Rlt_dec (dsqTo cs p k) (dsqTo cs p kmin) then k else kmin) l k0 <= k0)%nat).
        { apply (IH k0 k0); auto; [intros x Hx; apply Hk; right; auto|lra]. }
        pose proof (Hk j (or_introl eq_refl)). lia.
      * apply (IH k0 j); auto. intros x Hx. apply Hk. right; auto.
Qed.
Lemma seq_increasing n : forall s i x y, nth_error (seq s n) i = Some x -> nth_error (seq s n) (S i) = Some y -> (x < y)%nat.
Proof.
  induction n as [|n IH]; intros s i x y H1 H2; [destruct i; discriminate|]. cbn [seq] in *. destruct i as [|i].
  - cbn in H1, H2. injection H1; intros <-. destruct n; [discriminate|]. cbn in H2. injection H2; intros <-. lia.
  - cbn [nth_error] in *. eapply IH; eauto.
Qed.
Theorem C30_quick_assign centers p : centers <> [] ->
  let k := quickAssign centers p in
  (k < length centers)%nat /\
  (forall q, (q < length centers)%nat -> pdist p (nth k centers pos0) <= pdist p (nth q centers pos0)) /\
  (forall q, (q < length centers)%nat -> pdist p (nth q centers pos0) <= pdist p (nth k centers pos0) -> (k <= q)%nat).
Proof.
  intros Hne. assert (Hl : (0 < length centers)%nat) by (destruct centers; [contradiction|cbn; lia]).
  unfold quickAssign. set (l := seq 1 (length centers - 1)).
  assert (HL : forall q, (q < length centers)%nat -> q = 0%nat \/ In q l).
  { intros q Hq. destruct q; [left; auto|right]. apply in_seq. lia. }
  destruct (quick_gen centers p l 0%nat) as (H1 & H2 & H3). cbn zeta.
  set (k := fold_left _ _ _) in *.
  assert (D : forall i j, dsqTo centers p i <= dsqTo centers p j -> pdist p (nth i centers pos0) <= pdist p (nth j centers pos0)).
  { intros i j. rewrite !dsqTo_pdist. unfold cen. pose proof (pdist_nonneg p (nth i centers pos0)). pose proof (pdist_nonneg p (nth j centers pos0)).
    intros Hq2. apply Rnot_lt_le. intros Hq3. nra. }
  split; [|split].
  - destruct H1 as [->|H1]; auto. apply in_seq in H1. lia.
  - intros q Hq. apply D. destruct (HL q Hq) as [->|Hi]; auto.
  - intros q Hq Hle. apply (quick_first centers p l 0%nat q).
    + intros x Hx. apply in_seq in Hx. lia.
    + apply seq_increasing.
    + apply HL; auto.
    + fold k. rewrite !dsqTo_pdist. unfold cen. pose proof (pdist_nonneg p (nth q centers pos0)). nra.
Qed.

(** ** C31: loading patches one by one *)
(** An object is loaded with patch k exactly if no centre is nearer than centre k. *)
Theorem C31_select centers k p : selectPatch centers k p = true <->
  forall q, (q < length centers)%nat -> pdist p (nth k centers pos0) <= pdist p (nth q centers pos0).
Proof.
  unfold selectPatch. rewrite negb_true_iff. split.
  - intros H q Hq. destruct (Nat.eq_dec q k) as [->|N]; [lra|]. apply Rnot_lt_le. intros L.
    assert (X : existsb (fun q => negb (Nat.eqb q k) && (if Rlt_dec (dsqTo centers p q) (dsqTo centers p k) then true else false))
      (seq 0 (length centers)) = true).
    { apply existsb_exists. exists q. split; [apply in_seq; lia|]. apply Nat.eqb_neq in N. rewrite N. cbn [negb andb].
      destruct (Rlt_dec _ _) as [_|L2]; auto. exfalso. apply L2. rewrite !dsqTo_pdist. unfold cen.
      pose proof (pdist_nonneg p (nth q centers pos0)). nra. }
    congruence.
  - intros H. destruct (existsb _ _) eqn:E; auto. apply existsb_exists in E. destruct E as (q & Hq & E). apply in_seq in Hq.
    apply andb_true_iff in E. destruct E as [_ E]. destruct (Rlt_dec _ _) as [L|L] in E; [|discriminate].
    specialize (H q ltac:(lia)). rewrite !dsqTo_pdist in L. unfold cen in L.
    pose proof (pdist_nonneg p (nth k centers pos0)). pose proof (pdist_nonneg p (nth q centers pos0)). nra.
Qed.
(** Every object is loaded with the patch that direct assignment gives it. *)
Theorem C31_covered centers p : centers <> [] -> selectPatch centers (quickAssign centers p) p = true.
Proof. intros H. apply C31_select. intros q Hq. apply (proj1 (proj2 (C30_quick_assign centers p H))). auto. Qed.
(** Without ties it is loaded with no other patch: the patches are a partition. *)
Definition noTie (centers : list pos) (p : pos) : Prop := forall i j, (i < length centers)%nat -> (j < length centers)%nat ->
  (forall q, (q < length centers)%nat -> pdist p (nth i centers pos0) <= pdist p (nth q centers pos0)) ->
  pdist p (nth i centers pos0) = pdist p (nth j centers pos0) -> i = j.
Theorem C31_partition centers k p : centers <> [] -> (k < length centers)%nat -> noTie centers p ->
  selectPatch centers k p = true <-> quickAssign centers p = k.
Proof.
  intros Hne Hk HT. destruct (C30_quick_assign centers p Hne) as (H1 & H2 & _). cbn zeta in *. rewrite C31_select. split.
  - intros H. symmetry. apply HT; auto. apply Rle_antisym; [apply H|apply H2]; auto.
  - intros <-. auto.
Qed.
(** With a tie an object is loaded twice. *)
Theorem C31_ties_refuted : exists centers p j k, centers <> [] /\ (j < length centers)%nat /\ (k < length centers)%nat /\ j <> k /\
  selectPatch centers j p = true /\ selectPatch centers k p = true /\ quickAssign centers p = j.
Proof.
  set (cs := [mkpos 1 0 0; mkpos 3 0 0]). set (p := mkpos 2 0 0).
  assert (E : pdist p (nth 0 cs pos0) = pdist p (nth 1 cs pos0)).
  { unfold pdist, norm, normSq, psub, p, cs. cbn. f_equal. lra. }
  assert (S : forall k, (k < 2)%nat -> selectPatch cs k p = true).
  { intros k Hk. apply C31_select. cbn [length cs]. intros q Hq.
    destruct k as [|[|k]]; [| |lia]; (destruct q as [|[|q]]; [| |lia]); rewrite ?E; lra. }
  exists cs, p, 0%nat, 1%nat. split; [discriminate|]. cbn [length cs]. split; [lia|]. split; [lia|]. split; [lia|].
  split; [apply S; lia|]. split; [apply S; lia|].
  assert (quickAssign cs p <= 0)%nat; [|lia]. apply (C30_quick_assign cs p); [discriminate|cbn; lia|].
  assert (H : (quickAssign cs p < 2)%nat) by (apply (C30_quick_assign cs p); discriminate).
  destruct (quickAssign cs p) as [|[|k]]; [lra|rewrite E; lra|lia].
Qed.
Example C31_noTie_example : noTie [mkpos 1 0 0; mkpos 3 0 0] (mkpos 0 0 0).
Proof.
  assert (E : pdist (mkpos 0 0 0) (mkpos 1 0 0) = 1 /\ pdist (mkpos 0 0 0) (mkpos 3 0 0) = 3).
  { unfold pdist, norm, normSq, psub. cbn. split; [replace (_ + _ + _) with (1 * 1) by lra|replace (_ + _ + _) with (3 * 3) by lra];
      apply sqrt_square; lra. }
  destruct E as [E0 E1]. intros i j Hi Hj _. cbn [length] in *.
  destruct i as [|[|i]]; [| |lia]; (destruct j as [|[|j]]; [| |lia]); cbn [nth]; rewrite ?E0, ?E1; auto; lra.
Qed.
(** kmeans_assign_patches agrees with direct assignment without ties. *)
Theorem C31_kmeans_agrees F cat cells centers arr arr' o :
  fminsize F = 0 -> buildField F cat cells -> centers <> [] -> map oidx cat = seq 0 (length cat) -> length arr = length cat ->
  kmAssign (fcoord F) cells centers arr arr' -> In o cat -> noTie (readCenters (fcoord F) centers) (opos o) ->
  nth (oidx o) arr' 0%nat = quickAssign (readCenters (fcoord F) centers) (opos o).
Proof.
  intros Hm HB Hne Hid Hla HK Ho HT. assert (Hm' : 0 <= fminsize F) by lra.
  destruct (C30_assign F cat cells centers arr arr' Hm' HB Hne Hid Hla HK) as (_ & HA). destruct (HA o Ho) as (H1 & H2).
  rewrite Hm in H2. set (cs := readCenters (fcoord F) centers) in *.
  assert (Lc : length cs = length centers) by (unfold cs, readCenters; apply map_length).
  assert (Hcs : cs <> []) by (destruct centers; [contradiction|discriminate]). symmetry. rewrite <- Lc in H1, H2.
  apply C31_partition; auto. apply C31_select. intros q Hq. specialize (H2 q Hq). lra.
Qed.

(** ** C32: centres from the tree *)
(** Draws in [0,1): what urand() returns except when rand() = RAND_MAX. *)
Definition openDraws (us : list R) : Prop := Forall (fun u => 0 <= u < 1) us.
Lemma open_unit us : openDraws us -> unitDraws us.
Proof. apply Forall_impl. intros; lra. Qed.
Lemma jitter_spec co p : forall n first us ws us', jitter co p first n us = Some (ws, us') ->
  map fst ws = seq first n /\ exists used, us = used ++ us'.
Proof.
  induction n as [|n IH]; intros first us ws us' H; cbn [jitter] in H.
  - inversion H; subst. split; auto. exists []. auto.
  - destruct us as [|u us0]; [discriminate|]. destruct (jitter co p (S first) n us0) as [[ws0 us1]|] eqn:E; [|discriminate].
    inversion H; subst. destruct (IH _ _ _ _ E) as (A & x & ->). split; [cbn; f_equal; auto|]. exists (u :: x). auto.
Qed.
Lemma initCell_spec co : forall c first n us ws us', initCell co c first n us = Some (ws, us') ->
  map fst ws = seq first n /\ exists used, us = used ++ us'.
Proof.
  induction c as [d o|d os|d s l IHl r IHr]; intros first n us ws us' H; cbn [initCell] in H; destruct (Nat.eqb n 1) eqn:E1.
  1,3,5: apply Nat.eqb_eq in E1; subst n; inversion H; subst; split; auto; exists []; auto.
  1,2: eapply jitter_spec; eauto.
  destruct us as [|u us1]; [discriminate|]. destruct (if Rlt_dec u (1/2) then _ else _) as [m1 m2] eqn:E2.
  assert (Em : (m1 + m2 = n)%nat).
  { assert (H0 : (n / 2 <= n)%nat) by (apply Nat.div_le_upper_bound; lia).
    clear - H0 E2. set (a := (n / 2)%nat) in *. clearbody a.
    destruct (Rlt_dec u (1/2)); injection E2; intros; lia. }
  destruct (initCell co l first m1 us1) as [[w1 us2]|] eqn:F1; [|discriminate].
  destruct (initCell co r (first + m1) m2 us2) as [[w2 us3]|] eqn:F2; [|discriminate]. inversion H; subst.
  destruct (IHl _ _ _ _ _ F1) as (A1 & x1 & ->). destruct (IHr _ _ _ _ _ F2) as (A2 & x2 & ->). split.
  - rewrite map_app, A1, A2, seq_app. reflexivity.
  - exists (u :: x1 ++ x2). cbn. rewrite app_assoc. reflexivity.
Qed.
Lemma sumN_perm (l l' : list nat) : Permutation l l' -> fold_right Nat.add 0%nat l = fold_right Nat.add 0%nat l'.
Proof. induction 1; cbn; lia. Qed.
Lemma shuffle_spec : forall k l us l' us', (k <= length l)%nat -> shuffle k l us = Some (l', us') ->
  Permutation l l' /\ exists used, us = used ++ us'.
Proof.
  induction k as [|k IH]; intros l us l' us' Hk H.
  - assert (E : shuffle 0 l us = Some (l, us)) by (destruct us; reflexivity). rewrite E in H.
    injection H; intros <- <-. split; auto. exists []. auto.
  - destruct k as [|k].
    { assert (E : shuffle 1 l us = Some (l, us)) by (destruct us; reflexivity). rewrite E in H.
      injection H; intros <- <-; split; auto; exists []; auto. }
    destruct us as [|u us0]; [discriminate|]. cbn [shuffle] in H. 
    set (j := Z.to_nat (trunc (u * INR (S (S k))))) in *. destruct (Nat.ltb j (length l)) eqn:L; [|discriminate].
    apply Nat.ltb_lt in L. set (l1 := if Nat.eqb j (S k) then l else swapAt 0%nat j (S k) l) in *.
    assert (P1 : Permutation l l1).
    { unfold l1. destruct (Nat.eqb j (S k)); auto. apply swapAt_perm; auto; lia. }
    destruct (IH l1 us0 l' us') as (P2 & x & ->); auto.
    { rewrite <- (Permutation_length P1). lia. }
    split; [eapply perm_trans; eauto|]. exists (u :: x). auto.
Qed.
Lemma shuffle_defined : forall k l us, (k <= length l)%nat -> openDraws us -> (k <= length us)%nat -> exists r, shuffle k l us = Some r.
Proof.
  induction k as [|k IH]; intros l us Hk Hu Hl; [eexists; destruct us; reflexivity|].
  destruct k as [|k]; [eexists; destruct us; reflexivity|]. destruct us as [|u us0]; [cbn in Hl; lia|]. cbn [shuffle]. inversion Hu; subst.
  set (j := Z.to_nat (trunc (u * INR (S (S k))))).
  assert (L : (j < length l)%nat).
  { assert (j <= S k)%nat; [|lia]. unfold j.
    assert (X : (trunc (u * INR (S (S k))) < Z.of_nat (S (S k)))%Z).
    { apply lt_IZR. rewrite <- INR_IZR_INZ. pose proof (pos_INR (S (S k))).
      assert (Y : 0 < INR (S (S k))) by (apply lt_0_INR; lia).
      apply Rle_lt_trans with (u * INR (S (S k))); [|nra].
      apply trunc_nonneg. nra. }
    lia. }
  apply Nat.ltb_lt in L. rewrite L. apply IH; auto.
  - destruct (Nat.eqb j (S k)); [lia|]. unfold swapAt. rewrite !setAt_length. lia.
  - cbn in Hl. lia.
Qed.
Lemma initCells_spec co : forall cells ns first us ws us', length ns = length cells -> initCells co cells ns first us = Some (ws, us') ->
  map fst ws = seq first (fold_right Nat.add 0%nat ns).
Proof.
  induction cells as [|c cs IH]; intros ns first us ws us' Hl H; destruct ns as [|n ns]; try discriminate; cbn [initCells] in H.
  - inversion H; subst. reflexivity.
  - destruct (initCell co c first n us) as [[w1 us1]|] eqn:F1; [|discriminate].
    destruct (initCells co cs ns (first + n) us1) as [[w2 us2]|] eqn:F2; [|discriminate]. inversion H; subst.
    cbn [fold_right]. rewrite map_app, seq_app. f_equal.
    + eapply initCell_spec; eauto.
    + eapply IH; eauto.
Qed.
Lemma sumN_repeat n k : fold_right Nat.add 0%nat (repeat n k) = (k * n)%nat.
Proof. induction k; cbn; lia. Qed.
Lemma sumN_app l m : fold_right Nat.add 0%nat (l ++ m) = (fold_right Nat.add 0%nat l + fold_right Nat.add 0%nat m)%nat.
Proof. induction l; cbn; lia. Qed.
Lemma nvalues_sum n c : (0 < c)%nat -> fold_right Nat.add 0%nat (repeat (n / c)%nat (c - n mod c) ++ repeat (n / c + 1)%nat (n mod c)) = n.
Proof.
  intros Hc. rewrite sumN_app, !sumN_repeat. pose proof (Nat.div_mod n c ltac:(lia)) as E. pose proof (Nat.mod_upper_bound n c ltac:(lia)) as L.
  set (q := (n / c)%nat) in *. set (r := (n mod c)%nat) in *. nia.
Qed.
Lemma nvalues_length n c : (0 < c)%nat -> length (repeat (n / c)%nat (c - n mod c) ++ repeat (n / c + 1)%nat (n mod c)) = c.
Proof. intros Hc. rewrite app_length, !repeat_length. pose proof (Nat.mod_upper_bound n c ltac:(lia)). lia. Qed.
Lemma map_fst_combine {A B C} (f : B -> C) (l : list A) : forall m : list B, length l = length m ->
  map fst (map (fun ik => (fst ik, f (snd ik))) (combine l m)) = l.
Proof. induction l; intros [|b m] H; cbn in *; try discriminate; auto. f_equal. apply IHl. lia. Qed.
(** Whatever the tree and the draws, the centres 0, 1, ..., ncenters-1 are each written exactly once, in this order. *)
Theorem C32_each_once co cells ncenters us ws us' : cells <> [] -> unitDraws us ->
  initTree co cells ncenters us = Some (ws, us') -> map fst ws = seq 0 ncenters.
Proof.
  intros Hne Hu H. assert (Hc : (0 < length cells)%nat) by (destruct cells; [contradiction|cbn; lia]).
  unfold initTree in H. destruct (Nat.ltb ncenters (length cells)) eqn:L.
  - apply Nat.ltb_lt in L. destruct (selectRandomFrom (length cells) ncenters us) as [[sel us1]|] eqn:E; [|discriminate].
    inversion H; subst. apply select_ok in E; auto; [|lia]. destruct E as (El & _).
    apply (map_fst_combine (fun k => getPos (nth k cells (ListLeaf (dataN co []) [])))). rewrite seq_length. auto.
  - destruct (shuffle _ _ us) as [[ns us1]|] eqn:E; [|discriminate].
    apply shuffle_spec in E; [|rewrite nvalues_length; lia]. destruct E as (P & _).
    apply initCells_spec in H.
    + rewrite H. f_equal. rewrite <- (sumN_perm _ _ P). apply nvalues_sum; auto.
    + rewrite <- (Permutation_length P). apply nvalues_length; auto.
Qed.
(** so centre i is the position written for i. *)
Theorem C32_centers co cells ncenters us ws us' centers : cells <> [] -> unitDraws us ->
  initTree co cells ncenters us = Some (ws, us') -> initTreeCenters co cells ncenters us = Some centers ->
  length centers = ncenters /\ centers = map snd ws.
Proof.
  intros Hne Hu H HC. pose proof (C32_each_once _ _ _ _ _ _ Hne Hu H) as E. unfold initTreeCenters in HC. rewrite H in HC.
  inversion HC; subst centers; clear HC.
  assert (L : length (applyWrites ws (repeat pos0 ncenters)) = ncenters) by (rewrite applyWrites_length; apply repeat_length).
  assert (Lw : length ws = ncenters) by (rewrite <- (map_length fst), E; apply seq_length).
  split; auto. apply (nth_ext _ _ pos0 pos0); [rewrite map_length; lia|]. intros i Hi. rewrite L in Hi.
  assert (Hw : (i < length ws)%nat) by lia.
  assert (Q : nth i ws (0%nat, pos0) = (i, nth i (map snd ws) pos0)).
  { rewrite (surjective_pairing (nth i ws (0%nat, pos0))). f_equal.
    - change (fst (nth i ws (0%nat, pos0))) with (fst (nth i ws (0%nat, pos0))). rewrite <- (map_nth fst). cbn [fst]. rewrite E, seq_nth; lia.
    - rewrite <- (map_nth snd). reflexivity. }
  apply applyWrites_nth.
  - rewrite E. apply seq_NoDup.
  - rewrite <- Q. apply nth_In. auto.
  - rewrite repeat_length. auto.
Qed.
(** The function never runs out of vector bounds if the draws are below 1; 2*npatch + ncells draws are enough. *)
Lemma jitter_defined co p : forall n first us, (n <= length us)%nat -> exists ws us', jitter co p first n us = Some (ws, us') /\ (length us <= length us' + n)%nat.
Proof.
  induction n as [|n IH]; intros first us H; cbn [jitter]; [eexists; eexists; split; [reflexivity|lia]|].
  destruct us as [|u us0]; [cbn in H; lia|]. cbn in H. destruct (IH (S first) us0) as (ws & us' & -> & L); [lia|].
  eexists; eexists; split; [reflexivity|]. cbn. lia.
Qed.
Lemma halves n : (2 <= n)%nat -> (1 <= n / 2)%nat /\ (n / 2 <= n - n / 2)%nat /\ (n - n / 2 <= n / 2 + 1)%nat.
Proof. intros H. pose proof (Nat.div_mod n 2 ltac:(lia)). pose proof (Nat.mod_upper_bound n 2 ltac:(lia)). lia. Qed.
Lemma initCell_defined co : forall c first n us, (1 <= n)%nat -> (2 * n - 1 <= length us)%nat ->
  exists ws us', initCell co c first n us = Some (ws, us') /\ (length us <= length us' + (2 * n - 1))%nat.
Proof.
  induction c as [d o|d os|d s l IHl r IHr]; intros first n us Hn H; cbn [initCell]; destruct (Nat.eqb_spec n 1) as [->|E1].
  1,3,5: eexists; eexists; split; [reflexivity|lia].
  1,2: match goal with |- exists _ _, jitter ?co ?p ?f ?n ?us = _ /\ _ => destruct (jitter_defined co p n f us) as (ws & us' & -> & L); [lia|] end;
       eexists; eexists; split; [reflexivity|lia].
  destruct us as [|u us1]; [cbn in H; lia|]. cbn in H. destruct (halves n ltac:(lia)) as (H1 & H2 & H3).
  destruct (if Rlt_dec u (1/2) then _ else _) as [m1 m2] eqn:E2.
  assert (Em : (m1 + m2 = n /\ 1 <= m1 /\ 1 <= m2)%nat).
  { clear - H1 H2 H3 E2 Hn. set (a := (n / 2)%nat) in *. clearbody a. destruct (Rlt_dec u (1/2)); injection E2; intros; lia. }
  destruct (IHl first m1 us1) as (w1 & us2 & -> & L1); [lia|lia|]. destruct (IHr (first + m1)%nat m2 us2) as (w2 & us3 & -> & L2); [lia|lia|].
  eexists; eexists; split; [reflexivity|]. cbn. lia.
Qed.
Lemma initCells_defined co : forall cells ns first us, Forall (fun n => 1 <= n)%nat ns -> (2 * fold_right Nat.add 0%nat ns <= length us)%nat ->
  exists r, initCells co cells ns first us = Some r.
Proof.
  induction cells as [|c cs IH]; intros ns first us H1 H2; destruct ns as [|n ns]; cbn [initCells]; try (eexists; reflexivity).
  inversion H1; subst. cbn in H2. destruct (initCell_defined co c first n us) as (w1 & us1 & -> & L1); [lia|lia|].
  destruct (IH ns (first + n)%nat us1) as ([w2 us2] & ->); auto; [lia|]. eexists; reflexivity.
Qed.
Lemma shuffle_length : forall k l us l' us', (k <= length l)%nat -> shuffle k l us = Some (l', us') -> (length us <= length us' + k)%nat.
Proof.
  induction k as [|k IH]; intros l us l' us' Hk H.
  - assert (E : shuffle 0 l us = Some (l, us)) by (destruct us; reflexivity). rewrite E in H. injection H; intros <- <-. lia.
  - destruct k as [|k].
    { assert (E : shuffle 1 l us = Some (l, us)) by (destruct us; reflexivity). rewrite E in H. injection H; intros <- <-. lia. }
    destruct us as [|u us0]; [discriminate|]. cbn [shuffle] in H. destruct (Nat.ltb _ (length l)) eqn:L; [|discriminate].
    apply IH in H; [cbn; lia|]. destruct (Nat.eqb _ _); [lia|]. unfold swapAt. rewrite !setAt_length. lia.
Qed.
Theorem C32_defined co cells ncenters us : cells <> [] -> (length cells <= ncenters)%nat -> openDraws us ->
  (length cells + 2 * ncenters <= length us)%nat -> exists centers, initTreeCenters co cells ncenters us = Some centers.
Proof.
  intros Hne Hn Hu Hl. assert (Hc : (0 < length cells)%nat) by (destruct cells; [contradiction|cbn; lia]).
  unfold initTreeCenters, initTree. assert (L : Nat.ltb ncenters (length cells) = false) by (apply Nat.ltb_ge; lia). rewrite L.
  destruct (shuffle_defined (length cells) (repeat (ncenters / length cells)%nat (length cells - ncenters mod length cells) ++
    repeat (ncenters / length cells + 1)%nat (ncenters mod length cells)) us) as ([ns us1] & E); auto.
  { rewrite nvalues_length; lia. } { lia. }
  rewrite E. pose proof E as E'. apply shuffle_spec in E; [|rewrite nvalues_length; lia]. destruct E as (P & used & EU).
  apply shuffle_length in E'; [|rewrite nvalues_length; lia].
  destruct (initCells_defined co cells ns 0 us1) as ([ws us2] & ->); [| |eexists; reflexivity].
  - apply (Permutation_Forall P). apply Forall_app. pose proof (Nat.div_str_pos ncenters (length cells) ltac:(lia)).
    split; apply Forall_forall; intros x Hx; apply repeat_spec in Hx; lia.
  - rewrite <- (sumN_perm _ _ P), nvalues_sum by auto. lia.
Qed.
(** rand() = RAND_MAX makes the shuffle read and write past the end of its vector. *)
Theorem C32_draw_one_refuted : exists co cells ncenters us, cells <> [] /\ (length cells <= ncenters)%nat /\ unitDraws us /\
  (length cells + 2 * ncenters <= length us)%nat /\ initTreeCenters co cells ncenters us = None.
Proof.
  set (a := mkobj (mkpos 1 0 0) 1 1 0 0 0 0). set (b := mkobj (mkpos 2 0 0) 1 1 0 0 0 1).
  exists Flat, [Leaf (data1 a) a; Leaf (data1 b) b], 2%nat, (repeat 1 6). split; [discriminate|]. split; [cbn; lia|].
  split; [repeat constructor; lra|]. split; [cbn; lia|]. unfold initTreeCenters, initTree. cbn [length Nat.ltb Nat.leb repeat shuffle].
  assert (T : Z.to_nat (trunc (1 * INR 2)) = 2%nat).
  { destruct (trunc_nonneg (1 * INR 2)) as [[H1 H2] H3]; [cbn; lra|]. rewrite Rmult_1_l in *. change (INR 2) with 2 in *.
    assert (trunc 2 = 2%Z); [|rewrite H; reflexivity].
    assert (A : (trunc 2 <= 2)%Z) by (apply le_IZR; auto). assert (B : (2 < trunc 2 + 1)%Z) by (apply lt_IZR; rewrite plus_IZR; lra). lia. }
  rewrite T. reflexivity.
Qed.

(** The centres are centroids of cells that together hold every object exactly once, if the tree is deep enough. *)
Fixpoint deep (k : nat) (c : cell) : Prop :=
  match k with O => True | S k' => match c with Node _ _ l r => deep k' l /\ deep k' r | _ => False end end.
Lemma initCell_cells co : forall c k first n us ws us', (1 <= n)%nat -> (n <= 2 ^ k)%nat -> deep k c ->
  initCell co c first n us = Some (ws, us') ->
  exists cs, map snd ws = map getPos cs /\ flat_map objs cs = objs c /\ Forall (fun c' => subcell c' c) cs.
Proof.
  assert (One : forall c ws (p : pos) (first : nat) (us us' : list R), Some ([(first, getPos c)], us) = Some (ws, us') ->
    exists cs, map snd ws = map getPos cs /\ flat_map objs cs = objs c /\ Forall (fun c' => subcell c' c) cs).
  { intros c ws _ first us us' H. injection H; intros <- <-. exists [c]. cbn. split; auto. rewrite app_nil_r. split; auto.
    constructor; auto. constructor. }
  induction c as [d o|d os|d s l IHl r IHr]; intros k first n us ws us' Hn Hk Hd H; cbn [initCell] in H;
    destruct (Nat.eqb_spec n 1) as [->|E1]; try (eapply One; eauto; fail; exact pos0).
  1,3,5: apply (One _ _ pos0 _ _ _ H).
  1,2: destruct k; [cbn in Hk; lia|destruct Hd].
  destruct k as [|k]; [cbn in Hk; lia|]. destruct Hd as [Dl Dr]. cbn in Hk.
  destruct us as [|u us1]; [discriminate|]. destruct (halves n ltac:(lia)) as (H1 & H2 & H3).
  destruct (if Rlt_dec u (1/2) then _ else _) as [m1 m2] eqn:E2.
  assert (Hd2 : (2 * (n / 2) <= n <= 2 * (n / 2) + 1)%nat).
  { pose proof (Nat.div_mod n 2 ltac:(lia)). pose proof (Nat.mod_upper_bound n 2 ltac:(lia)). lia. }
  assert (Em : (1 <= m1 <= 2 ^ k /\ 1 <= m2 <= 2 ^ k)%nat).
  { clear - H1 H2 H3 E2 Hn Hk Hd2. set (a := (n / 2)%nat) in *. clearbody a. set (z := (2 ^ k)%nat) in *. clearbody z.
    destruct (Rlt_dec u (1/2)); injection E2; intros; lia. }
  destruct (initCell co l first m1 us1) as [[w1 us2]|] eqn:F1; [|discriminate].
  destruct (initCell co r (first + m1) m2 us2) as [[w2 us3]|] eqn:F2; [|discriminate]. injection H; intros <- <-.
  destruct (IHl k _ _ _ _ _ (proj1 (proj1 Em)) (proj2 (proj1 Em)) Dl F1) as (c1 & A1 & B1 & S1).
  destruct (IHr k _ _ _ _ _ (proj1 (proj2 Em)) (proj2 (proj2 Em)) Dr F2) as (c2 & A2 & B2 & S2).
  exists (c1 ++ c2). rewrite !map_app, A1, A2, flat_map_app, B1, B2. cbn. split; auto. split; auto.
  apply Forall_app; split; [eapply Forall_impl; [|exact S1]|eapply Forall_impl; [|exact S2]]; intros x Hx; [apply sub_l|apply sub_r]; auto.
Qed.
Lemma initCells_cells co k : forall cells ns first us ws us', length ns = length cells -> Forall (fun n => 1 <= n <= 2 ^ k)%nat ns ->
  Forall (deep k) cells -> initCells co cells ns first us = Some (ws, us') ->
  exists cs, map snd ws = map getPos cs /\ flat_map objs cs = flat_map objs cells.
Proof.
  induction cells as [|c cells IH]; intros ns first us ws us' Hl Hn Hd H; destruct ns as [|n ns]; try discriminate; cbn [initCells] in H.
  - injection H; intros <- <-. exists []. auto.
  - inversion Hn; subst. inversion Hd; subst. destruct (initCell co c first n us) as [[w1 us1]|] eqn:F1; [|discriminate].
    destruct (initCells co cells ns (first + n) us1) as [[w2 us2]|] eqn:F2; [|discriminate]. injection H; intros <- <-.
    destruct (initCell_cells co c k _ _ _ _ _ (proj1 H2) (proj2 H2) H4 F1) as (c1 & A1 & B1 & _).
    destruct (IH ns _ _ _ _ ltac:(cbn in Hl; lia) H3 H5 F2) as (c2 & A2 & B2).
    exists (c1 ++ c2). rewrite !map_app, flat_map_app, A1, A2, B1, B2. auto.
Qed.
Theorem C32_cells co cells ncenters us ws us' k : cells <> [] -> (length cells <= ncenters)%nat ->
  (ncenters / length cells + 1 <= 2 ^ k)%nat -> Forall (deep k) cells -> initTree co cells ncenters us = Some (ws, us') ->
  exists cs, map snd ws = map getPos cs /\ flat_map objs cs = flat_map objs cells.
Proof.
  intros Hne Hn Hk Hd H. assert (Hc : (0 < length cells)%nat) by (destruct cells; [contradiction|cbn; lia]).
  unfold initTree in H. assert (L : Nat.ltb ncenters (length cells) = false) by (apply Nat.ltb_ge; lia). rewrite L in H.
  destruct (shuffle _ _ us) as [[ns us1]|] eqn:E; [|discriminate].
  apply shuffle_spec in E; [|rewrite nvalues_length; lia]. destruct E as (P & _).
  apply (initCells_cells co k) in H; auto.
  - rewrite <- (Permutation_length P). apply nvalues_length; auto.
  - apply (Permutation_Forall P). apply Forall_app. pose proof (Nat.div_str_pos ncenters (length cells) ltac:(lia)).
    split; apply Forall_forall; intros x Hx; apply repeat_spec in Hx; lia.
Qed.
(** With more top cells than centres the centres are the positions of different top cells. *)
Theorem C32_few co cells ncenters us ws us' : (ncenters < length cells)%nat -> unitDraws us -> initTree co cells ncenters us = Some (ws, us') ->
  exists sel, NoDup sel /\ length sel = ncenters /\ Forall (fun k => k < length cells)%nat sel /\
    map snd ws = map (fun k => nth k (map getPos cells) pos0) sel.
Proof.
  intros Hn Hu H. unfold initTree in H. apply Nat.ltb_lt in Hn as L. rewrite L in H.
  destruct (selectRandomFrom (length cells) ncenters us) as [[sel us1]|] eqn:E; [|discriminate]. injection H; intros <- <-.
  apply select_ok in E; auto; [|lia]. destruct E as (El & En & Ef & _). exists sel. repeat split; auto.
  rewrite map_map. cbn [snd]. assert (X : forall (f g : nat -> pos) (l : list nat) m, length l = length m -> (forall x, In x l -> f x = g x) ->
    map (fun ik : nat * nat => f (snd ik)) (combine m l) = map g l).
  { clear. intros f g. induction l as [|x l IH]; intros [|y m] Hl Hf; try discriminate; cbn; auto. rewrite (Hf x) by (left; auto). f_equal.
    apply IH; [cbn in Hl; lia|]. intros; apply Hf; right; auto. }
  apply (X (fun k => getPos (nth k cells (ListLeaf (dataN co []) [])))); [rewrite seq_length; auto|].
  intros x Hx. rewrite Forall_forall in Ef. specialize (Ef x Hx).
  rewrite (nth_indep (map getPos cells) pos0 (getPos (ListLeaf (dataN co []) []))) by (rewrite map_length; auto).
  symmetry. apply map_nth.
Qed.
Example C32_example : exists cells us, cells <> [] /\ (length cells <= 3)%nat /\ openDraws us /\ (length cells + 2 * 3 <= length us)%nat /\
  (3 / length cells + 1 <= 2 ^ 1)%nat /\ Forall (deep 1) cells.
Proof.
  set (a := mkobj (mkpos 1 0 0) 1 1 0 0 0 0). set (b := mkobj (mkpos 2 0 0) 1 1 0 0 0 1).
  set (n := Node (dataN Flat [a; b]) (Fin 1) (Leaf (data1 a) a) (Leaf (data1 b) b)).
  exists [n; n], (repeat (1/2) 8). split; [discriminate|]. split; [cbn; lia|]. split; [repeat constructor; lra|]. split; [cbn; lia|]. split; [cbn; lia|].
  repeat constructor.
Qed.
Example C30_example : exists F cat cells centers arr arr', 0 <= fminsize F /\ buildField F cat cells /\ centers <> [] /\
  map oidx cat = seq 0 (length cat) /\ length arr = length cat /\ kmAssign (fcoord F) cells centers arr arr' /\ (2 <= length cat)%nat.
Proof.
  set (a := mkobj (mkpos 1 0 0) 1 1 0 0 0 0). set (b := mkobj (mkpos 2 0 0) 1 1 0 0 0 1).
  set (F := mkF Flat Mean 0 Inf false 0 10).
  destruct (buildField_exists F [a; b]) as (cells & HB); [discriminate|].
  destruct (C30_assign_exists F cells [mkpos 0 0 0; mkpos 3 0 0] [0; 0]%nat) as (arr' & HA).
  exists F, [a; b], cells, [mkpos 0 0 0; mkpos 3 0 0], [0; 0]%nat, arr'. cbn [fminsize F]. split; [lra|]. split; [exact HB|]. split; [discriminate|].
  split; [reflexivity|]. split; [reflexivity|]. split; [exact HA|cbn; lia].
Qed.
