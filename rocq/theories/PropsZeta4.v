(** C77: which stored triples the bootstrap rows of a three-point correlation contain. *)
From Coq Require Import Reals Lra Lia List ZArith Bool Permutation PeanoNat.
From Verif Require Import Base Geometry Tree Traverse Run Corr Patch Cov Comp Corr3 Patch3 Patch3Facts Patch3Res Zeta ZetaFacts.
Import ListNotations.

Definition key3_dec : forall a b : key3, {a = b} + {a <> b}.
Proof. repeat decide equality. Defined.
(** How often a triple (a patch number) is in a list. *)
Definition mul3 (q : key3) (l : list key3) : nat := count_occ key3_dec l q.
Definition mul1 (z : Z) (l : list Z) : nat := count_occ Z.eq_dec l z.

Lemma mul3_flat {A} (g : A -> list key3) l q : mul3 q (flat_map g l) = list_sum (map (fun a => mul3 q (g a)) l).
Proof. unfold mul3. induction l; simpl; auto. rewrite count_occ_app, IHl. auto. Qed.
Lemma mul3_app q l m : mul3 q (l ++ m) = (mul3 q l + mul3 q m)%nat.
Proof. apply count_occ_app. Qed.
Lemma mul3_one q x : mul3 q [x] = if key3_dec x q then 1%nat else 0%nat.
Proof. unfold mul3. simpl. destruct key3_dec; auto. Qed.
Lemma lsum_zero {A} (f : A -> nat) l : (forall a, In a l -> f a = 0%nat) -> list_sum (map f l) = 0%nat.
Proof. induction l; simpl; intro H; auto. rewrite H, IHl; auto. Qed.
(** A sum with one value for z and 0 elsewhere. *)
Lemma lsum_at (f : Z -> nat) z c l : (forall a, f a = if (a =? z)%Z then c else 0%nat) -> list_sum (map f l) = (mul1 z l * c)%nat.
Proof.
  intro H. unfold mul1. induction l as [|a l IH]; simpl; auto. rewrite H, IH. destruct (Z.eq_dec a z) as [->|E].
  - rewrite Z.eqb_refl. lia.
  - rewrite (proj2 (Z.eqb_neq a z) E). lia.
Qed.
Lemma mul3_filter p q l : mul3 q (filter p l) = if p q then mul3 q l else 0%nat.
Proof.
  unfold mul3. induction l as [|a l IH]; simpl; [destruct (p q); auto|].
  destruct (p a) eqn:E; simpl; destruct (key3_dec a q) as [->|N]; rewrite IH; try rewrite E; auto; destruct (p q); auto; congruence.
Qed.
Lemma mul3_map (g : Z -> key3) l q a : (forall z, g z = q <-> z = a) -> mul3 q (map g l) = mul1 a l.
Proof.
  intro H. unfold mul3, mul1. induction l as [|z l IH]; simpl; auto. rewrite IH.
  destruct (key3_dec (g z) q) as [E|E], (Z.eq_dec z a) as [F|F]; auto; exfalso; [apply F, H|apply E, H]; auto.
Qed.
Lemma mul3_map_none {A} (g : A -> key3) l q : (forall z, g z <> q) -> mul3 q (map g l) = 0%nat.
Proof. intro H. apply count_occ_not_In. intro K. apply in_map_iff in K as [z [E _]]. apply (H z E). Qed.
Lemma boot2_none mk idx keys q : (forall i j, i <> j -> mk i j <> q) -> mul3 q (boot2 mk idx keys) = 0%nat.
Proof.
  intro H. unfold boot2. apply count_occ_not_In. intro K. apply in_flat_map in K as [i [_ K]]. apply in_flat_map in K as [j [_ K]].
  destruct (ok3 keys (mk i j)); [|contradiction]. destruct (Z.eqb_spec i j); [contradiction|]. cbn in K. destruct K as [K|[]]. apply (H i j); auto.
Qed.
Lemma boot2_mult mk idx keys q a b : (forall i j, mk i j = q <-> i = a /\ j = b) -> a <> b ->
  mul3 q (boot2 mk idx keys) = if ok3 keys q then (mul1 a idx * mul1 b idx)%nat else 0%nat.
Proof.
  intros H N. unfold boot2. rewrite mul3_flat. rewrite (lsum_at _ a (if ok3 keys q then mul1 b idx else 0%nat)).
  - destruct (ok3 keys q); lia.
  - intro i. rewrite mul3_flat. destruct (Z.eqb_spec i a) as [->|E].
    + rewrite (lsum_at _ b (if ok3 keys q then 1%nat else 0%nat)); [destruct (ok3 keys q); lia|].
      intro j. destruct (Z.eqb_spec j b) as [->|Ej].
      * rewrite (proj2 (H a b) (conj eq_refl eq_refl)). destruct (ok3 keys q); cbn [andb]; auto.
        rewrite (proj2 (Z.eqb_neq a b) N). cbn [negb]. rewrite mul3_one. destruct (key3_dec q q); congruence.
      * destruct (ok3 keys (mk a j) && negb (a =? j)%Z); auto. rewrite mul3_one. destruct (key3_dec (mk a j) q) as [F|F]; auto.
        apply H in F as [_ F]. contradiction.
    + apply lsum_zero. intros j _. destruct (ok3 keys (mk i j) && negb (i =? j)%Z); auto. rewrite mul3_one.
      destruct (key3_dec (mk i j) q) as [F|F]; auto. apply H in F as [F _]. contradiction.
Qed.
Ltac inj3 := match goal with H : (_, _, _) = (_, _, _) |- _ => injection H; clear H; intros; subst end.
Ltac none3 := intros; intro; inj3; congruence.

(** All three catalogs in patches: a stored triple is in the row as often as its different patch numbers can be
    drawn from the resampled indices. *)
Theorem C77_bootstrap n idx keys a b c : (n <> 1)%Z ->
  mul3 (a, b, c) (boot3 n n n idx keys) =
    if ok3 keys (a, b, c) then
      (if (a =? b)%Z then if (b =? c)%Z then mul1 a idx else mul1 a idx * mul1 c idx
       else if (b =? c)%Z then mul1 a idx * mul1 b idx
       else if (a =? c)%Z then mul1 a idx * mul1 b idx
       else mul1 a idx * mul1 b idx * mul1 c idx)%nat
    else 0%nat.
Proof.
  intro Hn. unfold boot3. rewrite (proj2 (Z.eqb_neq n 1) Hn). rewrite !mul3_app, mul3_filter.
  assert (T : mul3 (a, b, c) (flat_map (fun i => flat_map (fun j => if (i =? j)%Z then [] else
      flat_map (fun k => if ok3 keys (i, j, k) && (negb (i =? k)%Z && negb (j =? k)%Z) then [(i, j, k)] else []) idx) idx) idx) =
    if ok3 keys (a, b, c) && (negb (a =? b)%Z && negb (b =? c)%Z && negb (a =? c)%Z) then (mul1 a idx * mul1 b idx * mul1 c idx)%nat else 0%nat).
  { set (o := ok3 keys (a, b, c) && (negb (a =? b)%Z && negb (b =? c)%Z && negb (a =? c)%Z)).
    rewrite mul3_flat, (lsum_at _ a (if o then mul1 b idx * mul1 c idx else 0)%nat); [destruct o; lia|].
    intro i. rewrite mul3_flat. destruct (Z.eqb_spec i a) as [->|E].
    - rewrite (lsum_at _ b (if o then mul1 c idx else 0)%nat); [destruct o; lia|]. intro j. destruct (Z.eqb_spec j b) as [->|E].
      + destruct (Z.eqb_spec a b) as [F|F]; [unfold o; cbn; rewrite andb_false_r; auto|].
        rewrite mul3_flat, (lsum_at _ c (if o then 1 else 0)%nat); [destruct o; lia|]. intro k.
        destruct (Z.eqb_spec k c) as [->|E].
        * unfold o. cbn [negb andb]. rewrite (andb_comm (negb (b =? c)%Z)).
          destruct (ok3 keys (a, b, c) && (negb (a =? c)%Z && negb (b =? c)%Z)); auto. rewrite mul3_one. destruct key3_dec; congruence.
        * destruct (ok3 keys (a, b, k) && (negb (a =? k)%Z && negb (b =? k)%Z)); auto. rewrite mul3_one. destruct key3_dec; auto; try inj3; congruence.
      + destruct (a =? j)%Z; auto. rewrite mul3_flat. apply lsum_zero. intros k _.
        destruct (ok3 keys (a, j, k) && (negb (a =? k)%Z && negb (j =? k)%Z)); auto. rewrite mul3_one. destruct key3_dec; auto; try inj3; congruence.
    - apply lsum_zero. intros j _. destruct (i =? j)%Z; auto. rewrite mul3_flat. apply lsum_zero. intros k _.
      destruct (ok3 keys (i, j, k) && (negb (i =? k)%Z && negb (j =? k)%Z)); auto. rewrite mul3_one. destruct key3_dec; auto; try inj3; congruence. }
  rewrite T. clear T.
  destruct (Z.eqb_spec a b) as [->|Nab].
  - destruct (Z.eqb_spec b c) as [->|Nbc].
    + rewrite (mul3_map _ _ _ c) by (intro z; split; intro; [inj3; auto|subst; auto]).
      rewrite !boot2_none by none3. rewrite !andb_false_r. destruct (ok3 keys (c, c, c)); lia.
    + rewrite mul3_map_none by none3. rewrite (boot2_mult (fun i j => (i, i, j)) idx keys _ b c) by (solve [congruence] || (intros; cbv beta; split; [intro; inj3; auto|intros [? ?]; subst; auto])).
      rewrite !boot2_none by none3. rewrite !andb_false_r. destruct (ok3 keys (b, b, c)); lia.
  - rewrite mul3_map_none by none3. rewrite (boot2_none (fun i j => (i, i, j))) by none3.
    destruct (Z.eqb_spec b c) as [->|Nbc].
    + rewrite (boot2_none (fun i j => (i, j, i))) by none3.
      rewrite (boot2_mult (fun i j => (j, i, i)) idx keys _ c a) by (solve [congruence] || (intros; cbv beta; split; [intro; inj3; auto|intros [? ?]; subst; auto])).
      rewrite !andb_false_r. destruct (ok3 keys (a, c, c)); lia.
    + rewrite (boot2_none (fun i j => (j, i, i))) by none3. cbn [negb andb]. destruct (Z.eqb_spec a c) as [->|Nac].
      * rewrite (boot2_mult (fun i j => (i, j, i)) idx keys _ c b) by (solve [congruence] || (intros; cbv beta; split; [intro; inj3; auto|intros [? ?]; subst; auto])).
        rewrite !andb_false_r. destruct (ok3 keys (c, b, c)); lia.
      * rewrite boot2_none by none3. cbn [negb]. rewrite andb_true_r. destruct (ok3 keys (a, b, c)); lia.
Qed.
(** Marked bootstrap: only the first patch number counts. *)
Theorem C77_marked n idx keys a b c : (n <> 1)%Z -> (0 <= b < n)%Z -> (0 <= c < n)%Z ->
  mul3 (a, b, c) (marked3 n n n idx keys) = if ok3 keys (a, b, c) then mul1 a idx else 0%nat.
Proof.
  intros Hn Hb Hc. unfold marked3. rewrite (proj2 (Z.eqb_neq n 1) Hn), mul3_filter. destruct (ok3 keys (a, b, c)); auto.
  assert (R1 : forall z, (0 <= z < n)%Z -> mul1 z (zrange n) = 1%nat).
  { intros z Hz. unfold mul1. apply (proj1 (NoDup_count_occ' Z.eq_dec _)).
    - unfold zrange. apply FinFun.Injective_map_NoDup; [intros x y; lia|apply seq_NoDup].
    - unfold zrange. apply in_map_iff. exists (Z.to_nat z). rewrite in_seq. lia. }
  rewrite mul3_flat, (lsum_at _ a 1%nat); [lia|]. intro i. rewrite mul3_flat. destruct (Z.eqb_spec i a) as [->|E].
  - rewrite (lsum_at _ b 1%nat); [rewrite R1 by auto; lia|]. intro j. destruct (Z.eqb_spec j b) as [->|E].
    + rewrite (mul3_map _ _ _ c) by (intro; split; intro; [inj3; auto|subst; auto]). auto.
    + apply mul3_map_none. none3.
  - apply lsum_zero. intros j _. apply mul3_map_none. none3.
Qed.
(** Three patches, the second drawn twice. *)
Example C77_rows_example : let keys := [(0,0,0); (0,1,1); (0,0,1); (0,1,2); (1,1,1); (1,2,2); (1,1,2); (2,2,2)]%Z in
  mul3 (1, 2, 2)%Z (boot3 3 3 3 [1; 1; 2]%Z keys) = 2%nat /\ mul3 (0, 1, 1)%Z (boot3 3 3 3 [1; 1; 2]%Z keys) = 0%nat /\
  mul3 (1, 2, 2)%Z (marked3 3 3 3 [1; 1; 2]%Z keys) = 2%nat /\ mul3 (2, 2, 2)%Z (marked3 3 3 3 [1; 1; 2]%Z keys) = 1%nat.
Proof. vm_compute. auto. Qed.

(** ** When calculateZeta fails *)
(** It returns a value exactly if no random count has tot=0 and, if the data have patch results, the randoms have
    the patches of the data (or, for the random points, none). *)
Theorem C77_errors ddd rrr others :
  (exists z d, calcZeta ddd rrr others = Some (z, d)) <->
  k3tot (n_corr rrr) <> 0%R /\
  (forall drr rdd, others = Some (drr, rdd) -> k3tot (n_corr drr) <> 0%R /\ k3tot (n_corr rdd) <> 0%R) /\
  (n_res ddd <> [] ->
     (n_n1 rrr = 1 \/ n_n1 rrr = n_n1 ddd)%Z /\
     forall drr rdd, others = Some (drr, rdd) ->
       n_res drr <> [] /\ n_res rdd <> [] /\ n_n1 drr = n_n1 ddd /\ n_n2 rdd = n_n2 ddd /\
       (n_n2 drr = 1 \/ n_n2 drr = n_n2 ddd)%Z /\ (n_n1 rdd = 1 \/ n_n1 rdd = n_n1 ddd)%Z).
Proof.
  assert (Rq : forall x, Reqb x 0 = true <-> x = 0%R) by (intro x; unfold Reqb; destruct (Req_EM_T x 0); split; auto; discriminate).
  assert (Hr : forall d, hasRes3 d = true <-> d <> []) by (intros [|? ?]; cbn; split; congruence).
  assert (PO : patchesOK ddd rrr others = true <->
    (n_n1 rrr = 1 \/ n_n1 rrr = n_n1 ddd)%Z /\
     forall drr rdd, others = Some (drr, rdd) ->
       n_res drr <> [] /\ n_res rdd <> [] /\ n_n1 drr = n_n1 ddd /\ n_n2 rdd = n_n2 ddd /\
       (n_n2 drr = 1 \/ n_n2 drr = n_n2 ddd)%Z /\ (n_n1 rdd = 1 \/ n_n1 rdd = n_n1 ddd)%Z).
  { unfold patchesOK. rewrite andb_true_iff, orb_true_iff, !Z.eqb_eq. destruct others as [[drr rdd]|].
    - rewrite !andb_true_iff, !orb_true_iff, !Z.eqb_eq, !Hr. split.
      + intros [A B]. split; auto. intros ? ? E. injection E as <- <-. tauto.
      + intros [A B]. split; auto. specialize (B _ _ eq_refl). tauto.
    - split; intros [A _]; split; auto. intros; discriminate. }
  set (zero := match others with None => Reqb (k3tot (n_corr rrr)) 0
               | Some (drr, rdd) => Reqb (k3tot (n_corr rrr)) 0 || (Reqb (k3tot (n_corr drr)) 0 || Reqb (k3tot (n_corr rdd)) 0) end).
  assert (ZO : zero = false <-> k3tot (n_corr rrr) <> 0%R /\
    (forall drr rdd, others = Some (drr, rdd) -> k3tot (n_corr drr) <> 0%R /\ k3tot (n_corr rdd) <> 0%R)).
  { rewrite <- not_true_iff_false. unfold zero. destruct others as [[drr rdd]|].
    - rewrite !orb_true_iff, !Rq. split.
      + intro A. split; [tauto|]. intros ? ? E. injection E as <- <-. tauto.
      + intros [A B]. specialize (B _ _ eq_refl). tauto.
    - rewrite Rq. split; [intro A; split; auto; intros; discriminate|tauto]. }
  assert (E : calcZeta ddd rrr others = if zero then None else
    match n_res ddd with
    | [] => Some (zetaOf (n_corr ddd) (n_corr rrr) (option_map (fun p => (n_corr (fst p), n_corr (snd p))) others), [])
    | _ => if patchesOK ddd rrr others
           then Some (zetaOf (n_corr ddd) (n_corr rrr) (option_map (fun p => (n_corr (fst p), n_corr (snd p))) others), withDummies ddd rrr others)
           else None
    end) by (destruct others as [[? ?]|]; reflexivity).
  rewrite E. clear E. destruct zero.
  - split; [intros [z [d H]]; discriminate|]. intros [A [B _]]. assert (true = false) by (apply ZO; auto). discriminate.
  - destruct (proj1 ZO eq_refl) as [A B]. destruct (n_res ddd) as [|e t].
    + split; [intros _; split; [auto|]; split; [auto|]; intro N; contradiction N; reflexivity|]. intros _. eauto.
    + destruct (patchesOK ddd rrr others).
      * split; [intros _; split; [auto|]; split; [auto|]; intros _; apply PO; auto|]. intros _. eauto.
      * split; [intros [z [d H]]; discriminate|]. intros [_ [_ H]]. assert (false = true) by (apply PO, H; discriminate). discriminate.
Qed.
