(** C29: LRU_Cache refines a bounded least-recently-used list. *)
From Coq Require Import List Arith ZArith Bool Lia Permutation.
From Verif Require Import LRU.
Import ListNotations.

Lemma NoDup_app_l {A} (l1 l2 : list A) : NoDup (l1 ++ l2) -> NoDup l1.
Proof.
  induction l1 as [|x l1 IH]; cbn; [constructor|]. intro H. inversion H; subst. constructor; auto.
  intro. apply H2. apply in_or_app; auto.
Qed.
Lemma NoDup_app_r {A} (l1 l2 : list A) : NoDup (l1 ++ l2) -> NoDup l2.
Proof. induction l1 as [|x l1 IH]; cbn; auto. intro H. inversion H; auto. Qed.
Lemma NoDup_app_disj {A} (l1 l2 : list A) x : NoDup (l1 ++ l2) -> In x l1 -> In x l2 -> False.
Proof.
  induction l1 as [|y l1 IH]; cbn; [tauto|]. intros H [->|H1] H2; inversion H; subst; auto.
  apply H3. apply in_or_app; auto.
Qed.
Lemma NoDup_snoc {A} (l : list A) x : NoDup l -> ~ In x l -> NoDup (l ++ [x]).
Proof.
  intros H Hx. apply NoDup_rev in H. rewrite <- (rev_involutive (l ++ [x])). apply NoDup_rev. rewrite rev_app_distr. cbn.
  constructor; auto. rewrite <- in_rev. auto.
Qed.
Lemma rev_case {A} (l : list A) : l = [] \/ exists u z, l = u ++ [z].
Proof. induction l using rev_ind; [auto|right; eauto]. Qed.

Lemma skipn_skipn' {A} a b (l : list A) : skipn a (skipn b l) = skipn (b + a) l.
Proof. revert l. induction b as [|b IH]; intro l; cbn; auto. destruct l; [apply skipn_nil|apply IH]. Qed.

Section Proofs.
Variables K V : Type.
Variable keq : forall a b : K, {a = b} + {a <> b}.
Variable f : K -> V.
Notation link := (link K V).
Notation cache := (cache K V).
Notation okey := (okey K).
Notation heap := (nat -> link).
Notation okey_eq := (okey_eq K keq).
Notation tget := (tget K keq).
Notation tset := (tset K keq).
Notation tdel := (tdel K keq).
Notation next := (next K V). Notation prev := (prev K V). Notation lkey := (lkey K V). Notation res := (res K V).
Notation hp := (hp K V). Notation tab := (tab K V). Notation root := (root K V). Notation newA := (newA K V). Notation newK := (newK K V).
Notation setNext := (setNext K V). Notation setPrev := (setPrev K V). Notation setKey := (setKey K V). Notation setRes := (setRes K V).
Notation upd := (upd K V).

Lemma okey_eq_spec a b : okey_eq a b = true <-> a = b.
Proof.
  destruct a, b; cbn; try (split; [discriminate|congruence]); try (split; auto; fail).
  - split; [intro H; apply Nat.eqb_eq in H; congruence|intro H; injection H as ->; apply Nat.eqb_refl].
  - destruct (keq k k0); split; try congruence; intro H; injection H; congruence.
Qed.
Lemma okey_eq_refl a : okey_eq a a = true. Proof. apply okey_eq_spec; auto. Qed.
Lemma okey_eq_neq a b : a <> b -> okey_eq a b = false.
Proof. intro H. destruct (okey_eq a b) eqn:E; auto. apply okey_eq_spec in E. congruence. Qed.

(** ** The table as a permutation *)
Lemma tget_in t k a : NoDup (map fst t) -> (tget t k = Some a <-> In (k, a) t).
Proof.
  induction t as [|[k' a'] t IH]; cbn; intro HN; [split; [discriminate|tauto]|].
  inversion HN; subst. destruct (okey_eq k' k) eqn:E.
  - apply okey_eq_spec in E. subst. split; [intro H; injection H as ->; auto|].
    intros [H|H]; [congruence|]. exfalso. apply H1. apply in_map with (f := fst) in H. auto.
  - rewrite IH by auto. split; [auto|]. intros [H|H]; auto. exfalso. injection H as -> ->. rewrite okey_eq_refl in E. discriminate.
Qed.
Lemma tget_none t k : tget t k = None <-> ~ In k (map fst t).
Proof.
  induction t as [|[k' a'] t IH]; cbn; [tauto|]. destruct (okey_eq k' k) eqn:E.
  - apply okey_eq_spec in E. subst. split; [discriminate|intro H; exfalso; apply H; auto].
  - rewrite IH. split; [|tauto]. intros H [H'|H']; [|tauto]. subst. rewrite okey_eq_refl in E. discriminate.
Qed.
Lemma tset_new t k a : ~ In k (map fst t) -> tset t k a = t ++ [(k, a)].
Proof.
  induction t as [|[k' a'] t IH]; cbn; auto. intro H. rewrite okey_eq_neq by (intro; apply H; auto).
  rewrite IH; auto.
Qed.
Lemma tdel_perm t k a r : NoDup (map fst t) -> Permutation t ((k, a) :: r) -> Permutation (tdel t k) r.
Proof.
  intros HN HP.
  assert (HF : forall (g : okey * nat -> bool) l l', Permutation l l' -> Permutation (filter g l) (filter g l')).
  { clear. intros g l l' H. induction H; cbn; auto.
    - destruct (g x); auto.
    - destruct (g x), (g y); auto. constructor.
    - eapply perm_trans; eauto. }
  unfold LRU.tdel. rewrite (HF _ _ _ HP). cbn [filter fst]. rewrite okey_eq_refl. cbn [negb].
  assert (HN2 : NoDup (map fst ((k, a) :: r))) by (eapply Permutation_NoDup; [apply Permutation_map; exact HP|auto]).
  cbn in HN2. inversion HN2; subst. clear - H1. induction r as [|[k' a'] r IH]; cbn; auto.
  cbn in H1. rewrite okey_eq_neq by (intro; apply H1; auto). cbn. constructor. apply IH. tauto.
Qed.

(** ** Linked lists *)
Fixpoint nextOK (h : heap) (l : list nat) : Prop :=
  match l with a :: r => match r with b :: _ => next (h a) = Some b /\ nextOK h r | [] => True end | [] => True end.
Fixpoint prevOK (h : heap) (l : list nat) : Prop :=
  match l with a :: r => match r with b :: _ => prev (h b) = Some a /\ prevOK h r | [] => True end | [] => True end.
Lemma nextOK_app h l1 a l2 : nextOK h (l1 ++ a :: l2) <-> nextOK h (l1 ++ [a]) /\ nextOK h (a :: l2).
Proof.
  induction l1 as [|x l1 IH]; [cbn [app nextOK]; tauto|].
  cbn [app]. destruct l1 as [|y l1]; [cbn [app nextOK]; tauto|]. cbn [app] in *. cbn [nextOK] in *. tauto.
Qed.
Lemma prevOK_app h l1 a l2 : prevOK h (l1 ++ a :: l2) <-> prevOK h (l1 ++ [a]) /\ prevOK h (a :: l2).
Proof.
  induction l1 as [|x l1 IH]; [cbn [app prevOK]; tauto|].
  cbn [app]. destruct l1 as [|y l1]; [cbn [app prevOK]; tauto|]. cbn [app] in *. cbn [prevOK] in *. tauto.
Qed.
(** changes outside do not matter *)
Lemma nextOK_frame h h' l a : (forall x, In x l -> next (h' x) = next (h x)) -> nextOK h (l ++ [a]) -> nextOK h' (l ++ [a]).
Proof.
  induction l as [|x l IH]; [cbn; auto|]. intros H. cbn [app]. destruct (l ++ [a]) as [|y r] eqn:E; [destruct l; discriminate|].
  intros [H1 H2]. split; [rewrite H; [auto|left; auto]|]. rewrite <- E in *. apply IH; auto. intros z Hz. apply H. right; auto.
Qed.
Lemma prevOK_frame h h' a l : (forall x, In x l -> prev (h' x) = prev (h x)) -> prevOK h (a :: l) -> prevOK h' (a :: l).
Proof.
  revert a. induction l as [|x l IH]; intros a H; [cbn; auto|]. intros [H1 H2]. split; [rewrite H; [auto|left; auto]|].
  apply IH; auto. intros z Hz. apply H. right; auto.
Qed.
Definition ring (h : heap) (r : nat) (L : list nat) : Prop := nextOK h (r :: L ++ [r]) /\ prevOK h (r :: L ++ [r]).
Lemma ring_next h r L x L' : L ++ [r] = x :: L' -> ring h r L -> next (h r) = Some x.
Proof. intros E [H _]. rewrite E in H. destruct H; auto. Qed.
Lemma ring_prev h r L x L' : r :: L = L' ++ [x] -> ring h r L -> prev (h r) = Some x.
Proof.
  intros E [_ H]. change (r :: L ++ [r]) with ((r :: L) ++ [r]) in H. rewrite E, <- app_assoc in H. cbn [app] in H.
  apply prevOK_app in H. destruct H as [_ [H _]]. auto.
Qed.
(** neighbours of a member *)
Lemma ring_member h r L1 x L2 p l1 n l2 : r :: L1 = l1 ++ [p] -> L2 ++ [r] = n :: l2 -> ring h r (L1 ++ x :: L2) ->
  prev (h x) = Some p /\ next (h x) = Some n.
Proof.
  intros E1 E2 [HN HP]. rewrite <- app_assoc in HN, HP. cbn [app] in HN, HP.
  change (r :: L1 ++ x :: L2 ++ [r]) with ((r :: L1) ++ x :: L2 ++ [r]) in HN, HP. rewrite E2 in *.
  apply nextOK_app in HN as [_ [HN _]]. split; auto.
  rewrite E1 in HP. rewrite <- app_assoc in HP. apply prevOK_app in HP as [_ HP]. cbn in HP. tauto.
Qed.
(** removing a member *)
Lemma ring_unlink h h' r L1 x L2 p l1 n l2 : NoDup (r :: L1 ++ x :: L2) -> r :: L1 = l1 ++ [p] -> L2 ++ [r] = n :: l2 ->
  next (h' p) = Some n -> prev (h' n) = Some p ->
  (forall a, a <> p -> a <> x -> next (h' a) = next (h a)) -> (forall a, a <> n -> a <> x -> prev (h' a) = prev (h a)) ->
  ring h r (L1 ++ x :: L2) -> ring h' r (L1 ++ L2).
Proof.
  intros ND E1 E2 Hn Hp Fn Fp [HN HP]. unfold ring. rewrite <- app_assoc in *. cbn [app] in HN, HP.
  change (r :: L1 ++ x :: L2 ++ [r]) with ((r :: L1) ++ x :: L2 ++ [r]) in HN, HP.
  change (r :: L1 ++ L2 ++ [r]) with ((r :: L1) ++ L2 ++ [r]).
  change (r :: L1 ++ x :: L2) with ((r :: L1) ++ x :: L2) in ND.
  rewrite E2 in *. rewrite E1 in *.
  assert (ND1 : NoDup (l1 ++ [p])) by (eapply NoDup_app_l; eauto).
  assert (X1 : ~ In p l1) by (apply NoDup_remove in ND1 as [_ X]; rewrite app_nil_r in X; auto).
  assert (X2 : ~ In x (l1 ++ [p]) /\ ~ In x L2).
  { apply NoDup_remove in ND as [_ X]. split; intro; apply X; apply in_or_app; auto. }
  assert (X3 : ~ In n l2 /\ ~ In x l2 /\ n <> x).
  { assert (NDr : NoDup (L2 ++ [r]) /\ ~ In x (L2 ++ [r])).
    { assert (Y1 : NoDup L2). { apply NoDup_app_r in ND. inversion ND; auto. }
      assert (Y2 : ~ In r L2).
      { intro HI. assert (HI2 : In r (l1 ++ [p])) by (rewrite <- E1; left; auto).
        apply in_split in HI2 as [u [v E]]. rewrite E in ND. rewrite <- app_assoc in ND. cbn in ND.
        apply NoDup_remove_2 in ND. apply ND. apply in_or_app. right. apply in_or_app. right. right. auto. }
      split.
      - apply NoDup_snoc; auto.
      - intro HI. apply in_app_or in HI as [HI|[->|[]]]; [tauto|]. destruct X2 as [X2 _]. apply X2. rewrite <- E1. left; auto. }
    rewrite E2 in NDr. destruct NDr as [A B]. inversion A; subst. cbn in B. intuition. }
  apply nextOK_app in HN as [N1 N2]. apply prevOK_app in HP as [P1 P2].
  rewrite <- app_assoc in N1, P1. cbn [app] in N1, P1.
  apply nextOK_app in N1 as [N1 _]. apply prevOK_app in P1 as [P1 _].
  rewrite <- !app_assoc. cbn [app]. split.
  - apply nextOK_app. split.
    + apply (nextOK_frame h); auto. intros y Hy. apply Fn; [intros ->; auto|intros ->].
      apply (proj1 X2). apply in_or_app; auto.
    + split; auto. destruct N2 as [_ N2].
      destruct (rev_case (n :: l2)) as [E|[u [z E]]]; [discriminate|].
      assert (HR : u = L2 /\ z = r).
      { rewrite <- E2 in E. apply app_inj_tail in E. intuition. }
      destruct HR as [-> ->]. rewrite E. rewrite E in N2. apply (nextOK_frame h); auto. intros y Hy. apply Fn.
      * intros ->. apply (NoDup_app_disj (l1 ++ [p]) (x :: L2) p ND); [apply in_or_app; right; left; auto|right; auto].
      * intros ->. destruct X3 as [_ [Z1 Z2]]. assert (In x (n :: l2)) by (rewrite E; apply in_or_app; auto). cbn in H. intuition.
  - apply prevOK_app. split.
    + rewrite <- E1 in *. apply (prevOK_frame h); auto. intros y Hy. apply Fp.
      * intros ->. assert (HI : In n (L2 ++ [r])) by (rewrite E2; left; auto). apply in_app_or in HI as [HI|[->|[]]].
        -- apply (NoDup_app_disj (r :: L1) (x :: L2) n ND); right; auto.
        -- inversion ND1; auto.
      * intros ->. apply (proj1 X2). right; auto.
    + split; auto. destruct P2 as [_ P2]. apply (prevOK_frame h); auto. intros y Hy. apply Fp; intros ->; tauto.
Qed.
(** inserting a new member *)
Lemma ring_insert h h' r L1 x L2 p l1 n l2 : NoDup (r :: L1 ++ L2) -> ~ In x (r :: L1 ++ L2) ->
  r :: L1 = l1 ++ [p] -> L2 ++ [r] = n :: l2 ->
  next (h' p) = Some x -> next (h' x) = Some n -> prev (h' n) = Some x -> prev (h' x) = Some p ->
  (forall a, a <> p -> a <> x -> next (h' a) = next (h a)) -> (forall a, a <> n -> a <> x -> prev (h' a) = prev (h a)) ->
  ring h r (L1 ++ L2) -> ring h' r (L1 ++ x :: L2).
Proof.
  intros ND NX E1 E2 Hn Hxn Hp Hxp Fn Fp [HN HP]. unfold ring. rewrite <- app_assoc in *. cbn [app].
  change (r :: L1 ++ x :: L2 ++ [r]) with ((r :: L1) ++ x :: L2 ++ [r]).
  change (r :: L1 ++ L2 ++ [r]) with ((r :: L1) ++ L2 ++ [r]) in HN, HP.
  change (r :: L1 ++ L2) with ((r :: L1) ++ L2) in ND, NX.
  assert (NR : ~ In r L2) by (intro HI; apply (NoDup_app_disj (r :: L1) L2 r ND); [left|]; auto).
  assert (ND2 : NoDup (L2 ++ [r])) by (apply NoDup_snoc; auto; eapply NoDup_app_r; eauto).
  assert (HNl : nextOK h (l1 ++ [p]) /\ nextOK h (n :: l2)).
  { rewrite E2, E1, <- app_assoc in HN. cbn [app] in HN. apply nextOK_app in HN as [A B]. split; auto. destruct B; auto. }
  assert (HPl : prevOK h (r :: L1) /\ prevOK h (n :: l2)).
  { rewrite E2, E1, <- app_assoc in HP. cbn [app] in HP. apply prevOK_app in HP as [A B]. rewrite E1. split; auto. destruct B; auto. }
  destruct HNl as [N1 N2]. destruct HPl as [P1 P2]. rewrite E2. split.
  - apply nextOK_app. split.
    + rewrite E1, <- app_assoc. cbn [app]. apply nextOK_app. split; [|cbn; auto].
      apply (nextOK_frame h); auto. intros y Hy. apply Fn.
      * intros ->. apply NoDup_app_l in ND. rewrite E1 in ND. apply NoDup_remove in ND as [_ X]. rewrite app_nil_r in X; auto.
      * intros ->. apply NX. apply in_or_app. left. rewrite E1. apply in_or_app; auto.
    + split; auto. rewrite <- E2 in *. apply (nextOK_frame h); auto. intros y Hy. apply Fn.
      * intros ->. apply (NoDup_app_disj (r :: L1) L2 p ND); auto. rewrite E1. apply in_or_app; right; left; auto.
      * intros ->. apply NX. apply in_or_app; auto.
  - apply prevOK_app. split.
    + rewrite E1, <- app_assoc. cbn [app]. apply prevOK_app. split; [|cbn; auto]. rewrite <- E1.
      apply (prevOK_frame h); auto. intros y Hy. apply Fp.
      * intros ->. assert (HI : In n (L2 ++ [r])) by (rewrite E2; left; auto). apply in_app_or in HI as [HI|[->|[]]].
        -- apply (NoDup_app_disj (r :: L1) L2 n ND); auto. right; auto.
        -- apply NoDup_app_l in ND. inversion ND; auto.
      * intros ->. apply NX. right. apply in_or_app; auto.
    + split; auto. apply (prevOK_frame h); auto. intros y Hy. rewrite E2 in ND2. inversion ND2; subst. apply Fp; [intros ->; auto|].
      intros ->. assert (HI : In x (L2 ++ [r])) by (rewrite E2; right; auto).
      apply NX. apply in_app_or in HI as [HI|[->|[]]]; [apply in_or_app; auto|left; auto].
Qed.
(** the root moves on by one *)
Lemma ring_rotate h r x L : ring h r (x :: L) -> ring h x (L ++ [r]).
Proof.
  intros [HN HP]. unfold ring. cbn [app] in *. destruct HN as [N1 N2]. destruct HP as [P1 P2].
  rewrite <- app_assoc. cbn [app]. split.
  - change (x :: L ++ [r; x]) with ((x :: L) ++ r :: [x]). apply nextOK_app. split; [exact N2|cbn; auto].
  - change (x :: L ++ [r; x]) with ((x :: L) ++ r :: [x]). apply prevOK_app. split; [exact P2|cbn; auto].
Qed.
Lemma ring_same h h' r L : (forall a, next (h' a) = next (h a)) -> (forall a, prev (h' a) = prev (h a)) -> ring h r L -> ring h' r L.
Proof.
  intros H1 H2 [A B]. split.
  - change (r :: L ++ [r]) with ((r :: L) ++ [r]) in *. apply (nextOK_frame h); auto.
  - apply (prevOK_frame h); auto.
Qed.

(** ** The invariant *)
Definition isDummy (c : cache) (a : nat) : Prop := exists n, lkey (hp c a) = KDummy K n /\ n < newK c.
Definition holds (c : cache) (a : nat) (kv : K * V) : Prop :=
  lkey (hp c a) = KReal K (fst kv) /\ res (hp c a) = Some (snd kv).
Record inv (c : cache) (L : list nat) (items : list (K * V)) : Prop := mkInv {
  i_nodup : NoDup (root c :: L);
  i_ring : ring (hp c) (root c) L;
  i_new : forall a, In a (root c :: L) -> a < newA c;
  i_tab : Permutation (tab c) (map (fun a => (lkey (hp c a), a)) L);
  i_keys : NoDup (map (fun a => lkey (hp c a)) L);
  i_items : exists d r, L = d ++ r /\ Forall (isDummy c) d /\ Forall2 (holds c) r items }.
Lemma inv_tabkeys c L items : inv c L items -> NoDup (map fst (tab c)).
Proof.
  intros [A B C D E F]. apply (Permutation_map fst) in D. rewrite map_map in D. cbn in D.
  apply Permutation_sym in D. eapply Permutation_NoDup; eauto.
Qed.
Lemma inv_size c L items : inv c L items -> size K V c = length L.
Proof. intros [A B C D E F]. unfold size. rewrite (Permutation_length D), map_length. auto. Qed.
Lemma inv_get c L items k a : inv c L items -> (tget (tab c) k = Some a <-> In a L /\ lkey (hp c a) = k).
Proof.
  intro H. rewrite tget_in by (eapply inv_tabkeys; eauto). destruct H as [A B C D E F]. split.
  - intro HI. apply (Permutation_in _ D) in HI. apply in_map_iff in HI as [x [X1 X2]]. injection X1 as <- <-. auto.
  - intros [H1 <-]. apply (Permutation_in _ (Permutation_sym D)). apply in_map_iff. exists a. auto.
Qed.
(** ** Reading after writing *)
Lemma next_sN h a n b : next (setNext h a n b) = if Nat.eqb b a then n else next (h b).
Proof. unfold LRU.setNext, LRU.upd. destruct (Nat.eqb b a); auto. Qed.
Lemma next_sP h a n b : next (setPrev h a n b) = next (h b).
Proof. unfold LRU.setPrev, LRU.upd. destruct (Nat.eqb_spec b a); subst; auto. Qed.
Lemma next_sK h a n b : next (setKey h a n b) = next (h b).
Proof. unfold LRU.setKey, LRU.upd. destruct (Nat.eqb_spec b a); subst; auto. Qed.
Lemma next_sR h a n b : next (setRes h a n b) = next (h b).
Proof. unfold LRU.setRes, LRU.upd. destruct (Nat.eqb_spec b a); subst; auto. Qed.
Lemma prev_sP h a n b : prev (setPrev h a n b) = if Nat.eqb b a then n else prev (h b).
Proof. unfold LRU.setPrev, LRU.upd. destruct (Nat.eqb b a); auto. Qed.
Lemma prev_sN h a n b : prev (setNext h a n b) = prev (h b).
Proof. unfold LRU.setNext, LRU.upd. destruct (Nat.eqb_spec b a); subst; auto. Qed.
Lemma prev_sK h a n b : prev (setKey h a n b) = prev (h b).
Proof. unfold LRU.setKey, LRU.upd. destruct (Nat.eqb_spec b a); subst; auto. Qed.
Lemma prev_sR h a n b : prev (setRes h a n b) = prev (h b).
Proof. unfold LRU.setRes, LRU.upd. destruct (Nat.eqb_spec b a); subst; auto. Qed.
Lemma lkey_sP h a n b : lkey (setPrev h a n b) = lkey (h b).
Proof. unfold LRU.setPrev, LRU.upd. destruct (Nat.eqb_spec b a); subst; auto. Qed.
Lemma lkey_sN h a n b : lkey (setNext h a n b) = lkey (h b).
Proof. unfold LRU.setNext, LRU.upd. destruct (Nat.eqb_spec b a); subst; auto. Qed.
Lemma lkey_sK h a n b : lkey (setKey h a n b) = if Nat.eqb b a then n else lkey (h b).
Proof. unfold LRU.setKey, LRU.upd. destruct (Nat.eqb b a); auto. Qed.
Lemma lkey_sR h a n b : lkey (setRes h a n b) = lkey (h b).
Proof. unfold LRU.setRes, LRU.upd. destruct (Nat.eqb_spec b a); subst; auto. Qed.
Lemma res_sP h a n b : res (setPrev h a n b) = res (h b).
Proof. unfold LRU.setPrev, LRU.upd. destruct (Nat.eqb_spec b a); subst; auto. Qed.
Lemma res_sN h a n b : res (setNext h a n b) = res (h b).
Proof. unfold LRU.setNext, LRU.upd. destruct (Nat.eqb_spec b a); subst; auto. Qed.
Lemma res_sK h a n b : res (setKey h a n b) = res (h b).
Proof. unfold LRU.setKey, LRU.upd. destruct (Nat.eqb_spec b a); subst; auto. Qed.
Lemma res_sR h a n b : res (setRes h a n b) = if Nat.eqb b a then n else res (h b).
Proof. unfold LRU.setRes, LRU.upd. destruct (Nat.eqb b a); auto. Qed.
Hint Rewrite next_sN next_sP next_sK next_sR prev_sN prev_sP prev_sK prev_sR
             lkey_sN lkey_sP lkey_sK lkey_sR res_sN res_sP res_sK res_sR : heap.
Lemma upd_same h a l : upd h a l a = l. Proof. unfold LRU.upd. rewrite Nat.eqb_refl. auto. Qed.
Lemma upd_other h a l b : b <> a -> upd h a l b = h b.
Proof. intro. unfold LRU.upd. destruct (Nat.eqb_spec b a); congruence. Qed.

(** ** Items *)
Lemma items_keys c L items : inv c L items -> NoDup (map fst items) /\ forall k, In k (map fst items) -> exists a, tget (tab c) (KReal K k) = Some a.
Proof.
  intros H. pose proof H as [A B C D E [d [r [-> [F1 F2]]]]]. split.
  - rewrite map_app in E. apply NoDup_app_r in E. clear - F2 E.
    induction F2 as [|a kv r items Ha Hr IH]; cbn; [constructor|]. cbn in E. inversion E; subst. constructor; auto.
    intro HI. apply H1. destruct Ha as [-> _]. clear - Hr HI. induction Hr as [|b kv' r items Hb Hr IH]; cbn in *; [tauto|].
    destruct HI as [E|HI]; [left; destruct Hb as [-> _]; congruence|auto].
  - intros k Hk. assert (HI : exists a, In a r /\ lkey (hp c a) = KReal K k).
    { clear - F2 Hk. induction F2 as [|a kv r items Ha Hr IH]; cbn in *; [tauto|]. destruct Hk as [<-|Hk].
      - exists a. destruct Ha. auto.
      - destruct (IH Hk) as [b [X Y]]. eauto. }
    destruct HI as [a [X Y]]. exists a. apply (inv_get c (d ++ r) items _ _ H). split; auto. apply in_or_app; auto.
Qed.
Lemma find_split (i1 : list (K * V)) k v i2 : NoDup (map fst (i1 ++ (k, v) :: i2)) ->
  find (fun p => if keq (fst p) k then true else false) (i1 ++ (k, v) :: i2) = Some (k, v) /\
  filter (fun p => if keq (fst p) k then false else true) (i1 ++ (k, v) :: i2) = i1 ++ i2.
Proof.
  induction i1 as [|[k' v'] i1 IH]; cbn.
  - intro H. destruct (keq k k); [|congruence]. split; auto. inversion H; subst. clear - H2.
    induction i2 as [|[k2 v2] i2 IH]; cbn; auto. cbn in H2. destruct (keq k2 k); [subst; tauto|]. f_equal. apply IH. tauto.
  - intro H. inversion H; subst. destruct (IH H3) as [-> ->]. destruct (keq k' k) as [->|]; [|auto].
    exfalso. apply H2. rewrite map_app. apply in_or_app. right. left; auto.
Qed.
Lemma find_none (l : list (K * V)) k : ~ In k (map fst l) -> find (fun p => if keq (fst p) k then true else false) l = None.
Proof.
  induction l as [|[k' v'] l IH]; cbn; auto. intro H. destruct (keq k' k); [tauto|]. apply IH. tauto.
Qed.
Lemma Forall2_split {A B} (P : A -> B -> Prop) r1 a r2 l : Forall2 P (r1 ++ a :: r2) l ->
  exists l1 b l2, l = l1 ++ b :: l2 /\ Forall2 P r1 l1 /\ P a b /\ Forall2 P r2 l2.
Proof.
  intro H. apply Forall2_app_inv_l in H as [l1 [l2 [H1 [H2 ->]]]]. inversion H2; subst. exists l1, y, l'. auto.
Qed.
Lemma snoc_of (r : nat) L : exists l p, r :: L = l ++ [p].
Proof. destruct (rev_case (r :: L)) as [E|[u [z E]]]; [discriminate|eauto]. Qed.
Lemma cons_of (r : nat) L : exists n l, L ++ [r] = n :: l.
Proof. destruct L; cbn; eauto. Qed.

(** ** A hit *)
Lemma call_hit c L items k a : inv c L items -> tget (tab c) (KReal K k) = Some a ->
  exists c' i1 v i2 L', items = i1 ++ (k, v) :: i2 /\ call K V keq f c k = Some (c', v, false) /\
    inv c' L' (i1 ++ i2 ++ [(k, v)]) /\ length L' = length L /\ count K V c' = count K V c.
Proof.
  intros HI HG. pose proof (proj1 (inv_get c L items _ _ HI) HG) as [Ha Hk].
  destruct HI as [A B C D E [d [r [EL [F1 F2]]]]].
  assert (Hr : In a r).
  { rewrite EL in Ha. apply in_app_or in Ha as [Ha|Ha]; auto. rewrite Forall_forall in F1. destruct (F1 a Ha) as [n [X _]]. congruence. }
  apply in_split in Hr as [r1 [r2 ->]]. destruct (Forall2_split _ _ _ _ _ F2) as [i1 [[k' v] [i2 [-> [G1 [[G2 G2'] G3]]]]]].
  cbn [fst snd] in *. assert (k' = k) by congruence. subst k'.
  set (rt := root c) in *. set (h := hp c) in *.
  set (L1 := d ++ r1). assert (EL' : L = L1 ++ a :: r2) by (unfold L1; rewrite <- app_assoc; auto).
  rewrite EL' in *. clear EL' EL.
  destruct (snoc_of rt L1) as [l1 [p Ep]]. destruct (cons_of rt r2) as [n [l2 En]].
  destruct (ring_member h rt L1 a r2 p l1 n l2 Ep En B) as [Mp Mn].
  set (h1 := setNext h p (Some n)). set (h2 := setPrev h1 n (Some p)).
  assert (R2 : ring h2 rt (L1 ++ r2)).
  { apply (ring_unlink h h2 rt L1 a r2 p l1 n l2); auto; unfold h2, h1.
    - autorewrite with heap. rewrite Nat.eqb_refl. auto.
    - autorewrite with heap. rewrite Nat.eqb_refl. auto.
    - intros b Hb _. autorewrite with heap. destruct (Nat.eqb_spec b p); congruence.
    - intros b Hb _. autorewrite with heap. destruct (Nat.eqb_spec b n); congruence. }
  assert (ND2 : NoDup (rt :: L1 ++ r2)).
  { change (rt :: L1 ++ a :: r2) with ((rt :: L1) ++ a :: r2) in A. apply NoDup_remove_1 in A. auto. }
  assert (NA : ~ In a (rt :: L1 ++ r2)).
  { change (rt :: L1 ++ a :: r2) with ((rt :: L1) ++ a :: r2) in A. apply NoDup_remove_2 in A. auto. }
  destruct (snoc_of rt (L1 ++ r2)) as [l3 [last El]].
  pose proof (ring_prev h2 rt (L1 ++ r2) last l3 El R2) as HL.
  set (h3 := setNext h2 last (Some a)). set (h4 := setPrev h3 rt (Some a)). set (h5 := setPrev h4 a (Some last)).
  set (h6 := setNext h5 a (Some rt)).
  assert (NL : last <> a).
  { intros ->. apply NA. rewrite El. apply in_or_app. right. left; auto. }
  assert (NR : rt <> a) by (intros ->; apply NA; left; auto).
  assert (R6 : ring h6 rt ((L1 ++ r2) ++ [a])).
  { apply (ring_insert h2 h6 rt (L1 ++ r2) a [] last l3 rt []); auto; rewrite ?app_nil_r; auto; unfold h6, h5, h4, h3; autorewrite with heap.
    - destruct (Nat.eqb_spec last a); [congruence|]. rewrite Nat.eqb_refl. auto.
    - rewrite Nat.eqb_refl. auto.
    - destruct (Nat.eqb_spec rt a); [congruence|]. rewrite Nat.eqb_refl. auto.
    - rewrite Nat.eqb_refl. auto.
    - intros b H1 H2. autorewrite with heap. destruct (Nat.eqb_spec b a), (Nat.eqb_spec b last); congruence.
    - intros b H1 H2. autorewrite with heap. destruct (Nat.eqb_spec b a), (Nat.eqb_spec b rt); congruence. }
  assert (KE : forall b, lkey (h6 b) = lkey (h b)).
  { intro b. unfold h6, h5, h4, h3, h2, h1. autorewrite with heap. auto. }
  assert (RE : forall b, res (h6 b) = res (h b)).
  { intro b. unfold h6, h5, h4, h3, h2, h1. autorewrite with heap. auto. }
  exists (mkCache K V rt (tab c) h6 (newA c) (newK c) (count K V c)), i1, v, i2, ((L1 ++ r2) ++ [a]).
  assert (PL : Permutation ((L1 ++ r2) ++ [a]) (L1 ++ a :: r2)).
  { rewrite <- app_assoc. apply Permutation_app_head. apply Permutation_sym. apply Permutation_cons_append. }
  split; auto. split; [|split; [|split]].
  - unfold call. rewrite HG. fold h rt. rewrite Mp, Mn, G2'. fold h1 h2. rewrite HL. reflexivity.
  - constructor; cbn [LRU.root LRU.hp LRU.tab LRU.newA LRU.newK].
    + eapply Permutation_NoDup; [apply perm_skip; apply Permutation_sym; exact PL|auto].
    + auto.
    + intros b Hb. apply C. destruct Hb as [->|Hb]; [left; auto|right]. apply (Permutation_in _ PL). auto.
    + etransitivity; [exact D|]. fold h. rewrite (map_ext (fun b => (lkey (h6 b), b)) (fun b => (lkey (h b), b))) by (intro; rewrite KE; auto).
      apply Permutation_map. apply Permutation_sym. auto.
    + rewrite (map_ext (fun b => lkey (h6 b)) (fun b => lkey (h b))) by (intro; rewrite KE; auto).
      eapply Permutation_NoDup; [apply Permutation_map; apply Permutation_sym; exact PL|auto].
    + exists d, (r1 ++ r2 ++ [a]). split; [unfold L1; rewrite <- !app_assoc; auto|]. split.
      * eapply Forall_impl; [|exact F1]. intros b [n' [X1 X2]]. exists n'. cbn. rewrite KE. auto.
      * assert (HH : forall b kv, holds c b kv -> holds (mkCache K V rt (tab c) h6 (newA c) (newK c) (count K V c)) b kv).
        { intros b kv [X1 X2]. split; cbn; [rewrite KE|rewrite RE]; auto. }
        assert (HF : forall l l', Forall2 (holds c) l l' -> Forall2 (holds (mkCache K V rt (tab c) h6 (newA c) (newK c) (count K V c))) l l').
        { intros l l' H. induction H; constructor; auto. }
        apply Forall2_app; auto. apply Forall2_app; auto. constructor; auto. apply HH. split; auto.
  - apply Permutation_length in PL. auto.
  - auto.
Qed.
Lemma keepLast_all {A} n (l : list A) : length l <= n -> keepLast n l = l.
Proof. intro H. unfold keepLast. replace (length l - n) with 0 by lia. auto. Qed.
Lemma keepLast_tl {A} n (x : A) l : length l = n -> keepLast n (x :: l) = l.
Proof. intro H. unfold keepLast. cbn [length]. replace (S (length l) - n) with 1 by lia. auto. Qed.
Lemma F2_length {A B} (P : A -> B -> Prop) l l' : Forall2 P l l' -> length l = length l'.
Proof. induction 1; cbn; auto. Qed.
Lemma map_ext_in2 (g g' : nat -> okey) L : (forall a, In a L -> g a = g' a) -> map (fun a => (g a, a)) L = map (fun a => (g' a, a)) L.
Proof. intro H. apply map_ext_in. intros a Ha. rewrite H; auto. Qed.
(** ** A miss *)
Lemma call_miss c L items k : inv c L items -> tget (tab c) (KReal K k) = None ->
  exists c' L', call K V keq f c k = Some (c', f k, true) /\
    inv c' L' (keepLast (length L) (items ++ [(k, f k)])) /\ length L' = length L /\
    count K V c' = if Nat.ltb (count K V c) (length L) then S (count K V c) else count K V c.
Proof.
  intros HI HG. pose proof (inv_tabkeys _ _ _ HI) as NT. pose proof (inv_size _ _ _ HI) as HS.
  destruct HI as [A B C D E [d [r [EL [F1 F2]]]]]. set (rt := root c) in *. set (h := hp c) in *.
  set (h1 := setRes (setKey h rt (KReal K k)) rt (Some (f k))).
  apply tget_none in HG.
  assert (NX : forall b, next (h1 b) = next (h b)) by (intro; unfold h1; autorewrite with heap; auto).
  assert (PX : forall b, prev (h1 b) = prev (h b)) by (intro; unfold h1; autorewrite with heap; auto).
  destruct L as [|x L].
  - destruct d; [|discriminate]. cbn in EL. subst r. inversion F2; subst. cbn [length app].
    pose proof (ring_next h rt [] rt [] eq_refl B) as HN.
    assert (HT : tab c = []) by (apply Permutation_nil; apply Permutation_sym; exact D).
    unfold call. fold h rt. rewrite HT. cbn [LRU.tget]. fold h1. rewrite NX, HN.
    assert (HK : lkey (h1 rt) = KReal K k) by (unfold h1; autorewrite with heap; rewrite Nat.eqb_refl; auto).
    rewrite HK. cbn [LRU.tset LRU.tget LRU.tdel filter fst]. unfold LRU.tdel. cbn [filter fst]. rewrite okey_eq_refl. cbn [negb filter].
    eexists. exists []. split; [reflexivity|]. split; [|split].
    + unfold keepLast. cbn. constructor; cbn [LRU.root LRU.hp LRU.tab LRU.newA LRU.newK]; auto.
      * apply (ring_same h); auto; intro; autorewrite with heap; auto.
      * exists [], []. repeat split; constructor.
    + auto.
    + cbn. destruct (count K V c); auto.
  - pose proof (ring_next h rt (x :: L) x (L ++ [rt]) eq_refl B) as HN.
    assert (NE : x <> rt) by (intros ->; inversion A; subst; apply H1; left; auto).
    assert (Hx : lkey (h1 x) = lkey (h x)).
    { unfold h1. autorewrite with heap. destruct (Nat.eqb_spec x rt); congruence. }
    set (h2 := setRes (setKey h1 x (KNone K)) x None).
    unfold call. fold h rt. rewrite (proj2 (tget_none (tab c) (KReal K k)) HG). fold h1. rewrite NX, HN, Hx.
    rewrite (tset_new _ _ rt HG).
    assert (NT2 : NoDup (map fst (tab c ++ [(KReal K k, rt)]))) by (rewrite map_app; apply NoDup_snoc; auto).
    assert (HXT : In (lkey (h x), x) (tab c)).
    { apply (Permutation_in _ (Permutation_sym D)). left. auto. }
    rewrite (proj2 (tget_in _ _ _ NT2) (in_or_app _ _ _ (or_introl HXT))).
    assert (HKx : lkey (h x) <> KReal K k).
    { intro X. apply HG. rewrite <- X. apply in_map with (f := fst) in HXT. auto. }
    assert (PD : Permutation (tdel (tab c ++ [(KReal K k, rt)]) (lkey (h x))) (map (fun a => (lkey (h a), a)) L ++ [(KReal K k, rt)])).
    { apply (tdel_perm _ _ x); auto.
      change ((lkey (h x), x) :: map (fun a => (lkey (h a), a)) L ++ [(KReal K k, rt)])
        with (map (fun a => (lkey (h a), a)) (x :: L) ++ [(KReal K k, rt)]).
      apply Permutation_app_tail. exact D. }
    assert (HLEN : length (tdel (tab c ++ [(KReal K k, rt)]) (lkey (h x))) = S (length L)).
    { rewrite (Permutation_length PD), app_length, map_length. cbn. lia. }
    inversion A as [|? ? A1 A2]; subst. inversion A2 as [|? ? A3 A4]; subst.
    assert (KL : forall b, In b L -> lkey (h2 b) = lkey (h b) /\ res (h2 b) = res (h b)).
    { intros b Hb. assert (b <> x) by (intros ->; auto). assert (b <> rt) by (intros ->; apply A1; right; auto).
      unfold h2, h1. autorewrite with heap. destruct (Nat.eqb_spec b x), (Nat.eqb_spec b rt); try congruence. auto. }
    assert (KR : lkey (h2 rt) = KReal K k /\ res (h2 rt) = Some (f k)).
    { unfold h2, h1. autorewrite with heap. destruct (Nat.eqb_spec rt x), (Nat.eqb_spec rt rt); try congruence. auto. }
    fold h2. eexists. exists (L ++ [rt]). split; [reflexivity|]. split; [|split].
    + constructor; cbn [LRU.root LRU.hp LRU.tab LRU.newA LRU.newK].
      * apply (Permutation_NoDup (l := rt :: x :: L)); [|auto]. change (x :: L ++ [rt]) with ((x :: L) ++ [rt]). apply Permutation_cons_append.
      * apply (ring_same h); [intro; unfold h2; autorewrite with heap; auto|intro; unfold h2; autorewrite with heap; auto|].
        apply ring_rotate; auto.
      * intros b Hb. apply C. destruct Hb as [->|Hb]; [right; left; auto|].
        apply in_app_or in Hb as [Hb|[->|[]]]; [right; right; auto|left; auto].
      * rewrite PD. rewrite map_app. cbn [map]. rewrite (proj1 KR).
        rewrite (map_ext_in2 (fun a => lkey (h2 a)) (fun a => lkey (h a)) L); [reflexivity|]. intros b Hb. apply KL; auto.
      * rewrite map_app. cbn [map]. rewrite (proj1 KR).
        rewrite (map_ext_in (fun a => lkey (h2 a)) (fun a => lkey (h a)) L); [|intros b Hb; apply KL; auto].
        cbn [map] in E. inversion E; subst. apply NoDup_snoc; auto.
        intro HI. apply HG. apply in_map_iff in HI as [b [X1 X2]]. apply in_map_iff. exists (KReal K k, b). split; auto.
        apply (Permutation_in _ (Permutation_sym D)). right. apply in_map_iff. exists b. rewrite X1. auto.
      * assert (HH : forall b kv, In b L -> holds c b kv -> holds (mkCache K V x (tdel (tab c ++ [(KReal K k, rt)]) (lkey (h x))) h2 (newA c) (newK c)
                      (if Nat.ltb (count K V c) (length (tdel (tab c ++ [(KReal K k, rt)]) (lkey (h x)))) then S (count K V c) else count K V c)) b kv).
        { intros b kv Hb [X1 X2]. destruct (KL b Hb) as [Y1 Y2]. split; cbn; [rewrite Y1|rewrite Y2]; auto. }
        set (c' := mkCache K V x (tdel (tab c ++ [(KReal K k, rt)]) (lkey (h x))) h2 (newA c) (newK c)
                      (if Nat.ltb (count K V c) (length (tdel (tab c ++ [(KReal K k, rt)]) (lkey (h x)))) then S (count K V c) else count K V c)) in *.
        assert (HF : forall l l', (forall b, In b l -> In b L) -> Forall2 (holds c) l l' -> Forall2 (holds c') l l').
        { intros l l' Hl H. induction H; constructor; [apply HH; [apply Hl; left|]; auto|]. apply IHForall2. intros b Hb. apply Hl. right; auto. }
        assert (HR : holds c' rt (k, f k)) by (split; cbn; apply KR).
        destruct d as [|y d].
        -- cbn [app] in EL. subst r. inversion F2 as [|? kv ? items' G1 G2]; subst.
           exists [], (L ++ [rt]). repeat split; auto. cbn [app length].
           rewrite keepLast_tl by (rewrite app_length; cbn; rewrite (F2_length _ _ _ G2); lia).
           apply Forall2_app; [apply HF; auto|repeat constructor; apply HR].
        -- cbn [app] in EL. injection EL as <- EL. subst L. inversion F1 as [|? ? G1 G2]; subst.
           exists d, (r ++ [rt]). split; [rewrite app_assoc; auto|]. split.
           ++ rewrite Forall_forall in *. intros b Hb. destruct (G2 b Hb) as [n [X1 X2]]. exists n. cbn. split; auto.
              rewrite (proj1 (KL b (in_or_app _ _ _ (or_introl Hb)))). auto.
           ++ rewrite keepLast_all.
              ** apply Forall2_app; [apply HF; auto|repeat constructor; apply HR]. intros b Hb. apply in_or_app; auto.
              ** rewrite app_length. cbn [length]. rewrite app_length, (F2_length _ _ _ F2). lia.
    + rewrite app_length. cbn. lia.
    + cbn [LRU.count]. rewrite HLEN. reflexivity.
Qed.
(** ** One step of resize *)
Lemma drop_ok c x L items : inv c (x :: L) items -> exists c', dropOne K V keq c = Some c' /\
  inv c' L (keepLast (length L) items) /\ count K V c' = count K V c.
Proof.
  intro HI. pose proof (inv_tabkeys _ _ _ HI) as NT. destruct HI as [A B C D E [d [r [EL [F1 F2]]]]].
  set (rt := root c) in *. set (h := hp c) in *.
  pose proof (ring_next h rt (x :: L) x (L ++ [rt]) eq_refl B) as HN.
  destruct (cons_of rt L) as [n [l2 En]].
  destruct (ring_member h rt [] x L rt [] n l2 eq_refl En B) as [Mp Mn].
  set (h1 := setNext h rt (Some n)). set (h2 := setPrev h1 n (Some rt)).
  assert (KE : forall b, lkey (h2 b) = lkey (h b)) by (intro; unfold h2, h1; autorewrite with heap; auto).
  assert (RE : forall b, res (h2 b) = res (h b)) by (intro; unfold h2, h1; autorewrite with heap; auto).
  unfold dropOne. fold h rt. rewrite HN, Mn. fold h1 h2. rewrite KE.
  assert (HXT : In (lkey (h x), x) (tab c)) by (apply (Permutation_in _ (Permutation_sym D)); left; auto).
  rewrite (proj2 (tget_in _ _ _ NT) HXT). eexists. split; [reflexivity|]. split; [|auto].
  inversion A as [|? ? A1 A2]; subst. inversion A2 as [|? ? A3 A4]; subst.
  constructor; cbn [LRU.root LRU.hp LRU.tab LRU.newA LRU.newK].
  - constructor; auto. intro; apply A1; right; auto.
  - apply (ring_unlink h h2 rt [] x L rt [] n l2); auto; unfold h2, h1.
    + autorewrite with heap. rewrite Nat.eqb_refl. auto.
    + autorewrite with heap. rewrite Nat.eqb_refl. auto.
    + intros b Hb _. autorewrite with heap. destruct (Nat.eqb_spec b rt); congruence.
    + intros b Hb _. autorewrite with heap. destruct (Nat.eqb_spec b n); congruence.
  - intros b Hb. apply C. destruct Hb as [->|Hb]; [left|right; right]; auto.
  - rewrite (map_ext_in2 (fun a => lkey (h2 a)) (fun a => lkey (h a)) L) by auto. apply (tdel_perm _ _ x); auto.
  - rewrite (map_ext (fun a => lkey (h2 a)) (fun a => lkey (h a))) by auto. cbn in E. inversion E; auto.
  - assert (HH : forall b kv, holds c b kv -> holds (mkCache K V rt (tdel (tab c) (lkey (h x))) h2 (newA c) (newK c) (count K V c)) b kv).
    { intros b kv [X1 X2]. split; cbn; [rewrite KE|rewrite RE]; auto. }
    assert (HF : forall l l', Forall2 (holds c) l l' -> Forall2 (holds (mkCache K V rt (tdel (tab c) (lkey (h x))) h2 (newA c) (newK c) (count K V c))) l l').
    { intros l l' H. induction H; constructor; auto. }
    destruct d as [|y d].
    + cbn [app] in EL. subst r. inversion F2 as [|? kv ? items' G1 G2]; subst. exists [], L. repeat split; auto.
      rewrite keepLast_tl by (rewrite (F2_length _ _ _ G2); auto). auto.
    + cbn [app] in EL. injection EL as <- EL. subst L. inversion F1 as [|? ? G1 G2]; subst. exists d, r. split; auto. split.
      * eapply Forall_impl; [|exact G2]. intros b [n' [X1 X2]]. exists n'. cbn. rewrite KE. auto.
      * rewrite keepLast_all; auto. rewrite app_length, (F2_length _ _ _ F2). lia.
Qed.
Lemma add_ok c L items : inv c L items -> exists c' L', addOne K V keq c = Some c' /\
  inv c' L' items /\ length L' = S (length L) /\ count K V c' = count K V c.
Proof.
  intro HI. pose proof (inv_tabkeys _ _ _ HI) as NT. destruct HI as [A B C D E [d [r [EL [F1 F2]]]]].
  set (rt := root c) in *. set (h := hp c) in *.
  destruct (cons_of rt L) as [n [l2 En]]. pose proof (ring_next h rt L n l2 En B) as HN.
  set (a := newA c).
  assert (NA : ~ In a (rt :: L)) by (intro X; apply C in X; unfold a in X; lia).
  assert (NAr : rt <> a) by (intro; apply NA; left; auto).
  assert (NAn : n <> a).
  { intros ->. apply NA. assert (X : In a (L ++ [rt])) by (rewrite En; left; auto).
    apply in_app_or in X as [X|[X|[]]]; [right|left]; auto. }
  assert (NK : ~ In (KDummy K (newK c)) (map fst (tab c))).
  { intro X. apply in_map_iff in X as [[k b] [X1 X2]]. cbn in X1. subst k. apply (Permutation_in _ D) in X2.
    apply in_map_iff in X2 as [b' [Y1 Y2]]. injection Y1 as Y0 ->. rewrite EL in Y2. apply in_app_or in Y2 as [Y2|Y2].
    - rewrite Forall_forall in F1. destruct (F1 _ Y2) as [m [Z1 Z2]]. fold h in Z1. rewrite Z1 in Y0. injection Y0. lia.
    - clear - F2 Y2 Y0. induction F2; cbn in Y2; [tauto|]. destruct Y2 as [->|Y2]; auto. destruct H as [H _]. unfold h in Y0. congruence. }
  set (h1 := upd h a (mkLink K V (Some rt) (Some n) (KDummy K (newK c)) None)).
  set (h2 := setPrev h1 n (Some a)). set (h3 := setNext h2 rt (Some a)).
  unfold addOne. fold h rt a. rewrite HN. fold h1 h2 h3.
  rewrite (tset_new _ _ a NK). eexists. exists (a :: L). split; [reflexivity|].
  assert (KE : forall b, b <> a -> lkey (h3 b) = lkey (h b)).
  { intros b Hb. unfold h3, h2, h1. autorewrite with heap. rewrite upd_other; auto. }
  assert (RE : forall b, b <> a -> res (h3 b) = res (h b)).
  { intros b Hb. unfold h3, h2, h1. autorewrite with heap. rewrite upd_other; auto. }
  assert (KA : lkey (h3 a) = KDummy K (newK c)).
  { unfold h3, h2, h1. autorewrite with heap. rewrite upd_same; auto. }
  assert (NI : forall b, In b L -> b <> a) by (intros b Hb ->; apply NA; right; auto).
  split; [|split; [cbn; auto|auto]].
  constructor; cbn [LRU.root LRU.hp LRU.tab LRU.newA LRU.newK].
  - inversion A; subst. constructor; [intros [X|X]; [congruence|auto]|]. constructor; auto. intro; apply NA; right; auto.
  - apply (ring_insert h h3 rt [] a L rt [] n l2); auto; unfold h3, h2, h1; autorewrite with heap.
    + rewrite Nat.eqb_refl. auto.
    + destruct (Nat.eqb_spec a rt); [congruence|]. rewrite upd_same. auto.
    + rewrite Nat.eqb_refl. auto.
    + destruct (Nat.eqb_spec a n); [congruence|]. rewrite upd_same. auto.
    + intros b H1 H2. autorewrite with heap. destruct (Nat.eqb_spec b rt); [congruence|]. rewrite upd_other; auto.
    + intros b H1 H2. autorewrite with heap. destruct (Nat.eqb_spec b n); [congruence|]. rewrite upd_other; auto.
  - intros b [->|[<-|Hb]].
    + apply Nat.lt_lt_succ_r. apply C. left; auto.
    + unfold a. lia.
    + apply Nat.lt_lt_succ_r. apply C. right; auto.
  - cbn [map]. rewrite KA. rewrite (map_ext_in2 (fun b => lkey (h3 b)) (fun b => lkey (h b)) L) by auto.
    etransitivity; [apply Permutation_app_comm|]. cbn. constructor. auto.
  - cbn [map]. rewrite KA. rewrite (map_ext_in (fun b => lkey (h3 b)) (fun b => lkey (h b)) L) by auto.
    constructor; auto. intro X. apply NK. apply in_map_iff in X as [b [X1 X2]]. apply in_map_iff. exists (lkey (h b), b). split; [cbn; auto|].
    apply (Permutation_in _ (Permutation_sym D)). apply in_map_iff. exists b. auto.
  - exists (a :: d), r. split; [cbn; f_equal; auto|]. split.
    + constructor.
      * exists (newK c). cbn. split; [auto|lia].
      * rewrite Forall_forall in *. intros b Hb. destruct (F1 b Hb) as [m [X1 X2]]. exists m. cbn. split; [|lia].
        rewrite KE; auto. apply NI. rewrite EL. apply in_or_app; auto.
    + assert (HR : forall b, In b r -> b <> a) by (intros b Hb; apply NI; rewrite EL; apply in_or_app; auto).
      clear - F2 HR KE RE. induction F2 as [|b kv r items Hb Hr IH]; constructor.
      * destruct Hb as [X1 X2]. split; cbn; [rewrite KE|rewrite RE]; auto; apply HR; left; auto.
      * apply IH. intros z Hz. apply HR. right; auto.
Qed.
Lemma keepLast_keepLast {A} m n (l : list A) : m <= n -> keepLast m (keepLast n l) = keepLast m l.
Proof.
  intro H. unfold keepLast. rewrite skipn_length.
  replace (length l - (length l - n) - m) with (Nat.min (length l) n - m) by lia.
  destruct (le_dec (length l) n).
  - replace (length l - n) with 0 by lia. rewrite Nat.min_l by lia. auto.
  - rewrite Nat.min_r by lia. rewrite skipn_skipn'. f_equal. lia.
Qed.
Lemma iter_drop j : forall c L items, inv c L items -> j <= length L ->
  exists c', iter K V j (dropOne K V keq) c = Some c' /\ inv c' (skipn j L) (keepLast (length L - j) items) /\ count K V c' = count K V c.
Proof.
  induction j as [|j IH]; intros c L items HI Hj.
  - exists c. cbn [iter skipn]. split; auto. split; auto. rewrite keepLast_all; auto.
    destruct HI as [A B C D E [d [r [-> [F1 F2]]]]]. rewrite app_length, (F2_length _ _ _ F2). lia.
  - destruct L as [|x L]; [cbn in Hj; lia|]. cbn [length] in Hj. destruct (drop_ok c x L items HI) as [c1 [H1 [H2 H3]]].
    destruct (IH c1 L _ H2 ltac:(lia)) as [c2 [G1 [G2 G3]]]. exists c2. cbn [iter skipn]. rewrite H1. split; auto. split; [|congruence].
    rewrite keepLast_keepLast in G2 by lia. exact G2.
Qed.
Lemma iter_add j : forall c L items, inv c L items ->
  exists c' L', iter K V j (addOne K V keq) c = Some c' /\ inv c' L' items /\ length L' = length L + j /\ count K V c' = count K V c.
Proof.
  induction j as [|j IH]; intros c L items HI.
  - exists c, L. cbn. repeat split; auto; apply HI.
  - destruct (add_ok c L items HI) as [c1 [L1 [H1 [H2 [H3 H4]]]]]. destruct (IH c1 L1 items H2) as [c2 [L2 [G1 [G2 [G3 G4]]]]].
    exists c2, L2. cbn [iter]. rewrite H1. repeat split; auto; try apply G2; try lia; congruence.
Qed.
(** ** New links *)
Record chain (c : cache) (L : list nat) (lst : nat) : Prop := mkChain {
  ch_nodup : NoDup (root c :: L);
  ch_next : nextOK (hp c) (root c :: L);
  ch_prev : prevOK (hp c) (root c :: L);
  ch_new : forall a, In a (root c :: L) -> a < newA c;
  ch_tab : Permutation (tab c) (map (fun a => (lkey (hp c a), a)) L);
  ch_keys : NoDup (map (fun a => lkey (hp c a)) L);
  ch_dummy : Forall (isDummy c) L;
  ch_last : exists l, root c :: L = l ++ [lst];
  ch_close : L <> [] -> next (hp c lst) = Some (root c) }.
Lemma links_ok sv : forall n c L lst, chain c L lst -> exists c' L' lst', addLinks K V keq sv n c lst = (c', lst') /\
  chain c' L' lst' /\ length L' = length L + n /\ root c' = root c /\ count K V c' = count K V c /\
  (n = 0 -> c' = c).
Proof.
  induction n as [|n IH]; intros c L lst HC.
  - exists c, L, lst. cbn [addLinks]. repeat split; auto; try apply HC; try lia.
  - destruct HC as [A N P C D E F [l El] G].
    set (rt := root c) in *. set (h := if sv then setRes (hp c) lst None else hp c).
    set (a := newA c). assert (NA : ~ In a (rt :: L)) by (intro X; apply C in X; unfold a in X; lia).
    assert (NR : rt <> a) by (intro; apply NA; left; auto).
    assert (NLa : lst <> a) by (intros ->; apply NA; rewrite El; apply in_or_app; right; left; auto).
    assert (NK : ~ In (KDummy K (newK c)) (map fst (tab c))).
    { intro X. apply in_map_iff in X as [[k b] [X1 X2]]. cbn in X1. subst k. apply (Permutation_in _ D) in X2.
      apply in_map_iff in X2 as [b' [Y1 Y2]]. injection Y1 as Y0 ->. rewrite Forall_forall in F.
      destruct (F _ Y2) as [m [Z1 Z2]]. rewrite Z1 in Y0. injection Y0. lia. }
    set (h1 := upd h a (mkLink K V (Some lst) (Some rt) (KDummy K (newK c)) None)). set (h2 := setNext h1 lst (Some a)).
    set (c1 := mkCache K V rt (tset (tab c) (KDummy K (newK c)) a) h2 (S a) (S (newK c)) (count K V c)).
    assert (HN : forall b, next (h b) = next (hp c b)) by (intro; unfold h; destruct sv; autorewrite with heap; auto).
    assert (HP : forall b, prev (h b) = prev (hp c b)) by (intro; unfold h; destruct sv; autorewrite with heap; auto).
    assert (HK : forall b, lkey (h b) = lkey (hp c b)) by (intro; unfold h; destruct sv; autorewrite with heap; auto).
    assert (NI : forall b, In b L -> b <> a) by (intros b Hb ->; apply NA; right; auto).
    assert (KE : forall b, b <> a -> lkey (h2 b) = lkey (hp c b)).
    { intros b Hb. unfold h2, h1. autorewrite with heap. rewrite upd_other; auto. }
    assert (KA : lkey (h2 a) = KDummy K (newK c)).
    { unfold h2, h1. autorewrite with heap. rewrite upd_same; auto. }
    assert (HC1 : chain c1 (L ++ [a]) a).
    { constructor; cbn [c1 LRU.root LRU.hp LRU.tab LRU.newA LRU.newK].
      - change (rt :: L ++ [a]) with ((rt :: L) ++ [a]). apply NoDup_snoc; auto.
      - change (rt :: L ++ [a]) with ((rt :: L) ++ [a]). rewrite El in *. rewrite <- app_assoc. cbn [app]. apply nextOK_app. split.
        + apply (nextOK_frame (hp c)); auto. intros b Hb. unfold h2, h1. autorewrite with heap.
          destruct (Nat.eqb_spec b lst) as [->|].
          * exfalso. apply NoDup_remove_2 in A. rewrite app_nil_r in A. auto.
          * rewrite upd_other; auto. intros ->. apply NA. apply in_or_app; auto.
        + cbn. split; auto. unfold h2. autorewrite with heap. rewrite Nat.eqb_refl. auto.
      - change (rt :: L ++ [a]) with ((rt :: L) ++ [a]). rewrite El, <- app_assoc. cbn [app]. apply prevOK_app. split.
        + rewrite <- El. apply (prevOK_frame (hp c)); auto. intros b Hb. unfold h2, h1. autorewrite with heap. rewrite upd_other; auto.
        + cbn. split; auto. unfold h2, h1. autorewrite with heap. rewrite upd_same. auto.
      - intros b Hb. destruct Hb as [->|Hb]; [apply Nat.lt_lt_succ_r, C; left; auto|].
        apply in_app_or in Hb as [Hb|[->|[]]]; [apply Nat.lt_lt_succ_r, C; right; auto|lia].
      - rewrite (tset_new _ _ a NK), map_app. cbn [map]. rewrite KA.
        rewrite (map_ext_in2 (fun b => lkey (h2 b)) (fun b => lkey (hp c b)) L) by auto. apply Permutation_app_tail. auto.
      - rewrite map_app. cbn [map]. rewrite KA. rewrite (map_ext_in (fun b => lkey (h2 b)) (fun b => lkey (hp c b)) L) by auto.
        apply NoDup_snoc; auto. intro X. apply NK. apply in_map_iff in X as [b [X1 X2]]. apply in_map_iff.
        exists (lkey (hp c b), b). split; [cbn; auto|]. apply (Permutation_in _ (Permutation_sym D)). apply in_map_iff. exists b. auto.
      - apply Forall_app. split.
        + rewrite Forall_forall in *. intros b Hb. destruct (F b Hb) as [m [X1 X2]]. exists m. cbn. split; [rewrite KE; auto|lia].
        + repeat constructor. exists (newK c). cbn. split; [auto|lia].
      - exists (rt :: L). auto.
      - intros _. unfold h2, h1. autorewrite with heap. destruct (Nat.eqb_spec a lst); [congruence|]. rewrite upd_same. auto. }
    destruct (IH c1 (L ++ [a]) a HC1) as [c' [L' [lst' [R1 [R2 [R3 [R4 [R5 _]]]]]]]].
    exists c', L', lst'. cbn [addLinks]. split; [exact R1|]. split; auto. rewrite app_length in R3. cbn in R3.
    repeat split; auto; try lia; try discriminate.
Qed.
(** closing the ring *)
Lemma chain_inv c L lst n : chain c L lst -> (L = [] -> next (hp c (root c)) = Some (root c)) ->
  inv (mkCache K V (root c) (tab c) (setPrev (hp c) (root c) (Some lst)) (newA c) (newK c) n) L [].
Proof.
  intros [A N P C D E F [l El] G] H0. set (rt := root c) in *. set (h := setPrev (hp c) rt (Some lst)).
  assert (KE : forall b, lkey (h b) = lkey (hp c b)) by (intro; unfold h; autorewrite with heap; auto).
  constructor; cbn [LRU.root LRU.hp LRU.tab LRU.newA LRU.newK]; auto.
  - fold h. split.
    + change (rt :: L ++ [rt]) with ((rt :: L) ++ [rt]). rewrite El, <- app_assoc. cbn [app]. apply nextOK_app. split.
      * rewrite El in N. apply (nextOK_frame (hp c)); auto. intros; unfold h; autorewrite with heap; auto.
      * cbn. split; auto. unfold h. autorewrite with heap. destruct L as [|x L].
        -- destruct l; [injection El as ->|destruct l; discriminate]. auto.
        -- apply G. discriminate.
    + change (rt :: L ++ [rt]) with ((rt :: L) ++ [rt]). rewrite El, <- app_assoc. cbn [app]. apply prevOK_app. split.
      * rewrite <- El. apply (prevOK_frame (hp c)); auto. intros b Hb. unfold h. autorewrite with heap.
        destruct (Nat.eqb_spec b rt) as [->|]; auto. inversion A; contradiction.
      * cbn. split; auto. unfold h. autorewrite with heap. rewrite Nat.eqb_refl. auto.
  - fold h. rewrite (map_ext_in2 (fun b => lkey (h b)) (fun b => lkey (hp c b)) L) by auto. auto.
  - fold h. rewrite (map_ext (fun b => lkey (h b)) (fun b => lkey (hp c b))) by auto. auto.
  - exists L, []. split; [rewrite app_nil_r; auto|]. split; [|constructor].
    eapply Forall_impl; [|exact F]. intros b [m [X1 X2]]. exists m. cbn. fold h. rewrite KE. auto.
Qed.
(** The state of the cache as the specification sees it. *)
Definition sim (c : cache) (s : spec K V) : Prop :=
  exists L, inv c L (items K V s) /\ bound K V s = length L /\ count K V c = length (items K V s).
Lemma sim_len c s : sim c s -> length (items K V s) <= bound K V s.
Proof.
  intros [L [HI [HB _]]]. rewrite HB. destruct HI as [A B C D E [d [r [-> [F1 F2]]]]].
  rewrite app_length, (F2_length _ _ _ F2). lia.
Qed.
Lemma sim_init n : n <> 0 -> sim (init K V keq n) (mkSp K V n []).
Proof.
  intro Hn. unfold init. set (c0 := mkCache K V 0 [] _ 1 0 0).
  assert (HC : chain c0 [] 0).
  { constructor; cbn; auto; try (constructor; auto; fail).
    - repeat constructor; auto.
    - intros a [<-|[]]; auto.
    - exists []. auto.
    - congruence. }
  destruct (links_ok false n c0 [] 0 HC) as [c' [L' [lst' [R1 [R2 [R3 [R4 [R5 R6]]]]]]]]. rewrite R1.
  exists L'. cbn [items bound LRU.count length] in *. split; [|split; [lia|auto]]. apply chain_inv; auto.
  intros ->. cbn in R3. lia.
Qed.
Lemma sim_clear c s : sim c s -> sim (clear K V keq c) (mkSp K V (bound K V s) []).
Proof.
  intros [L [HI [HB HC]]]. unfold clear. rewrite (inv_size _ _ _ HI). destruct HI as [A B C D E F].
  set (c0 := mkCache K V (root c) [] (hp c) (newA c) (newK c) (count K V c)).
  assert (HC0 : chain c0 [] (root c)).
  { constructor; cbn; auto; try (constructor; auto; fail).
    - repeat constructor; auto.
    - intros a [<-|[]]. apply C. left; auto.
    - exists []. auto.
    - congruence. }
  destruct (links_ok true (length L) c0 [] (root c) HC0) as [c' [L' [lst' [R1 [R2 [R3 [R4 [R5 R6]]]]]]]]. rewrite R1.
  exists L'. cbn [items bound LRU.count length] in *. split; [|split; [lia|auto]]. apply chain_inv; auto.
  intros ->. cbn in R3. assert (HL : L = []) by (destruct L; [auto|cbn in R3; lia]). subst L. rewrite (R6 eq_refl). cbn.
  apply (ring_next (hp c) (root c) [] (root c) [] eq_refl B).
Qed.
Lemma sim_step c s o : sim c s -> exists c' s' x, step K V keq f c o = Some (c', x) /\ specStep K V keq f s o = (s', x) /\ sim c' s'.
Proof.
  intro HS. destruct o as [k|m|]; cbn [step specStep].
  - destruct HS as [L [HI [HB HC]]]. destruct (items_keys _ _ _ HI) as [IK1 IK2].
    destruct (tget (tab c) (KReal K k)) as [a|] eqn:HG.
    + destruct (call_hit c L (items K V s) k a HI HG) as [c' [i1 [v [i2 [L' [H1 [H2 [H3 [H4 H5]]]]]]]]].
      rewrite H1 in IK1. destruct (find_split i1 k v i2 IK1) as [Q1 Q2]. unfold known, others. rewrite H1, Q1, Q2, H2. cbn [snd].
      eexists _, _, _. split; [reflexivity|]. split; [reflexivity|]. exists L'. cbn [items bound]. split; [rewrite <- app_assoc; auto|].
      split; [lia|]. rewrite H5, HC, H1, !app_length. cbn. lia.
    + assert (HK : ~ In k (map fst (items K V s))).
      { intro X. destruct (IK2 k X) as [a Ha]. congruence. }
      destruct (call_miss c L (items K V s) k HI HG) as [c' [L' [H1 [H2 [H3 H4]]]]].
      unfold known. rewrite find_none by auto. rewrite H1.
      eexists _, _, _. split; [reflexivity|]. split; [reflexivity|]. exists L'. cbn [items bound]. rewrite HB. split; auto. split; auto.
      rewrite H4, HC. assert (HL : length (items K V s) <= length L).
      { rewrite <- HB. apply (sim_len c). exists L. auto. }
      unfold keepLast. rewrite skipn_length, app_length. cbn [length].
      destruct (Nat.ltb_spec (length (items K V s)) (length L)); lia.
  - destruct (m <? 0)%Z eqn:EM.
    + exists c, s, (RErr V). auto.
    + destruct HS as [L [HI [HB HC]]].
      assert (HL : length (items K V s) <= length L).
      { rewrite <- HB. apply (sim_len c). exists L. auto. }
      unfold resize. rewrite (inv_size _ _ _ HI), EM. apply Z.ltb_ge in EM.
      destruct (m =? Z.of_nat (length L))%Z eqn:EQ.
      * apply Z.eqb_eq in EQ. subst m. rewrite Nat2Z.id. eexists _, _, _. split; [reflexivity|]. split; [reflexivity|].
        exists L. cbn [items bound]. rewrite keepLast_all by auto. auto.
      * apply Z.eqb_neq in EQ. destruct (Nat.ltb_spec (Z.to_nat m) (length L)) as [Hl|Hl].
        -- destruct (iter_drop (length L - Z.to_nat m) c L _ HI ltac:(lia)) as [c' [H1 [H2 H3]]]. rewrite H1. cbn [option_map].
           eexists _, _, _. split; [reflexivity|]. split; [reflexivity|].
           replace (length L - (length L - Z.to_nat m)) with (Z.to_nat m) in H2 by lia.
           exists (skipn (length L - Z.to_nat m) L). cbn [items bound]. split; [|split].
           ++ destruct H2 as [X1 X2 X3 X4 X5 X6]. constructor; auto.
           ++ rewrite skipn_length. lia.
           ++ cbn [setCount LRU.count]. rewrite H3, HC. unfold keepLast. rewrite skipn_length. lia.
        -- destruct (iter_add (Z.to_nat m - length L) c L _ HI) as [c' [L' [H1 [H2 [H3 H4]]]]]. rewrite H1.
           eexists _, _, _. split; [reflexivity|]. split; [reflexivity|]. exists L'. cbn [items bound]. rewrite keepLast_all by lia.
           split; auto. split; [lia|congruence].
  - eexists _, _, _. split; [reflexivity|]. split; [reflexivity|]. apply sim_clear; auto.
Qed.
Lemma sim_run : forall os c s, sim c s -> exists c' s' xs, run K V keq f c os = Some (c', xs) /\ specRun K V keq f s os = (s', xs) /\ sim c' s'.
Proof.
  induction os as [|o os IH]; intros c s HS; cbn [run specRun].
  - exists c, s, []. auto.
  - destruct (sim_step c s o HS) as [c1 [s1 [x [H1 [H2 H3]]]]]. destruct (IH c1 s1 H3) as [c2 [s2 [xs [G1 [G2 G3]]]]].
    rewrite H1, H2, G1, G2. exists c2, s2, (x :: xs). auto.
Qed.
(** ** C29 *)
(** For every program of calls, resizes and clears, a cache created with maxsize > 0 raises no
    exception of its own and answers exactly as the list specification does: values, and whether
    the function was evaluated; its size and count are the bound and the number of items; the
    last_value is the value used most recently. *)
Theorem C29_refines_lru n os : n <> 0 ->
  exists c xs s, run K V keq f (init K V keq n) os = Some (c, xs) /\ specRun K V keq f (mkSp K V n []) os = (s, xs) /\
    size K V c = bound K V s /\ count K V c = length (items K V s) /\ count K V c <= size K V c /\
    (forall l kv, items K V s = l ++ [kv] -> last_value K V c = Some (Some (snd kv))).
Proof.
  intro Hn. destruct (sim_run os _ _ (sim_init n Hn)) as [c [s [xs [H1 [H2 H3]]]]]. exists c, xs, s.
  pose proof (sim_len c s H3) as HL. destruct H3 as [L [HI [HB HC]]]. pose proof (inv_size _ _ _ HI) as HSz.
  repeat split; auto; try lia. intros l kv El. destruct HI as [A B C D E [d [r [EL [F1 F2]]]]]. rewrite El in F2.
  apply Forall2_app_inv_r in F2 as [r1 [r2 [G1 [G2 ->]]]]. inversion G2 as [|a ? ? ? [X1 X2] X3]; subst. inversion X3; subst.
  unfold last_value. rewrite (ring_prev (hp c) (root c) (d ++ r1 ++ [a]) a (root c :: d ++ r1)); auto.
  - rewrite X2. auto.
  - cbn. rewrite <- app_assoc. auto.
Qed.
(** Facts about the specification: it never answers wrongly and never exceeds its bound, ... *)
Theorem C29_values_correct os : forall s s' xs, (forall k v, In (k, v) (items K V s) -> v = f k) ->
  specRun K V keq f s os = (s', xs) ->
  (forall k v, In (k, v) (items K V s') -> v = f k) /\
  Forall2 (fun o x => match o, x with OCall _ k, RVal _ v _ => v = f k | OCall _ _, _ => False | _, _ => True end) os xs.
Proof.
  assert (HKL : forall n (l : list (K * V)) x, In x (keepLast n l) -> In x l).
  { intros n l x. unfold keepLast. intro H. rewrite <- (firstn_skipn (length l - n) l). apply in_or_app; auto. }
  induction os as [|o os IH]; intros s s' xs Hs H; cbn in H.
  - injection H as <- <-. split; auto.
  - destruct (specStep K V keq f s o) as [s1 x] eqn:E1. destruct (specRun K V keq f s1 os) as [s2 ys] eqn:E2. injection H as <- <-.
    assert (HX : (forall k v, In (k, v) (items K V s1) -> v = f k) /\
                 match o, x with OCall _ k, RVal _ v _ => v = f k | OCall _ _, _ => False | _, _ => True end).
    { destruct o as [k|m|]; cbn in E1.
      - destruct (known K V keq s k) as [v|] eqn:EK; injection E1 as <- <-; cbn [items].
        + assert (HV : v = f k).
          { unfold known in EK. destruct (find _ (items K V s)) as [[k' v']|] eqn:EF; [|discriminate]. injection EK as <-.
            apply find_some in EF as [Z1 Z2]. cbn in Z2. destruct (keq k' k) as [->|]; [|discriminate]. cbn. auto. }
          split; auto. intros k' v' HI. apply in_app_or in HI as [HI|[HI|[]]].
          * unfold others in HI. apply filter_In in HI as [HI _]. auto.
          * injection HI as <- <-. auto.
        + split; auto. intros k' v' HI. apply HKL in HI. apply in_app_or in HI as [HI|[HI|[]]]; [auto|]. injection HI as <- <-. auto.
      - destruct (m <? 0)%Z; injection E1 as <- <-; cbn [items]; split; auto. intros k' v' HI. apply HKL in HI. auto.
      - injection E1 as <- <-. cbn. split; auto. intros ? ? []. }
    destruct HX as [HX1 HX2]. destruct (IH s1 s2 ys HX1 E2) as [G1 G2]. split; auto.
Qed.
End Proofs.
(** ... and what it holds are the most recently used distinct keys: with no resize or clear, the
    keys are the last n distinct keys called, in order of last use ([nodup] keeps the last
    occurrence of every element). *)
Section Recency.
Variables K V : Type.
Variable keq : forall a b : K, {a = b} + {a <> b}.
Variable f : K -> V.
Definition notk (k a : K) : bool := if keq a k then false else true.
Lemma filter_notin k (l : list K) : ~ In k l -> filter (notk k) l = l.
Proof.
  induction l as [|a l IH]; intro H; cbn; auto. unfold notk at 1. destruct (keq a k) as [->|]; [exfalso; apply H; left; auto|].
  f_equal. apply IH. intro; apply H; right; auto.
Qed.
Lemma filter_nodup_nf k (l : list K) : filter (notk k) (nodup keq l) = nodup keq (filter (notk k) l).
Proof.
  induction l as [|a l IH]; cbn; auto. unfold notk at 2. destruct (in_dec keq a l), (keq a k) as [->|]; cbn; auto.
  - destruct (in_dec keq a (filter (notk k) l)) as [|NI]; auto. exfalso. apply NI. apply filter_In. unfold notk. destruct (keq a k); [congruence|auto].
  - unfold notk at 1. destruct (keq k k); [auto|congruence].
  - unfold notk at 1. destruct (keq a k); [congruence|]. destruct (in_dec keq a (filter (notk k) l)) as [NI|]; [|f_equal; auto].
    exfalso. apply filter_In in NI. apply n, NI.
Qed.
Lemma nodup_snoc k (l : list K) : nodup keq (l ++ [k]) = filter (notk k) (nodup keq l) ++ [k].
Proof.
  induction l as [|a l IH]; cbn; auto.
  destruct (in_dec keq a (l ++ [k])) as [I|I], (in_dec keq a l) as [J|J]; auto.
  - apply in_app_or in I as [I|[<-|[]]]; [contradiction|]. cbn. unfold notk at 1. destruct (keq k k); [auto|congruence].
  - exfalso. apply I. apply in_or_app; auto.
  - cbn. unfold notk at 1. destruct (keq a k) as [->|]; [exfalso; apply I; apply in_or_app; right; left; auto|]. cbn. f_equal. auto.
Qed.
Lemma keepLast_app {A} n (u v : list A) : length v <= n -> keepLast n (u ++ v) = keepLast (n - length v) u ++ v.
Proof.
  intro H. unfold keepLast. rewrite app_length, skipn_app.
  replace (length u + length v - n) with (length u - (n - length v)) by lia.
  replace (length u - (n - length v) - length u) with 0 by lia. auto.
Qed.
Lemma keepLast_In {A} n (l : list A) x : In x (keepLast n l) -> In x l.
Proof. unfold keepLast. intro H. rewrite <- (firstn_skipn (length l - n) l). apply in_or_app; auto. Qed.
Lemma keepLast_cut {A} n (l : list A) : exists u, l = u ++ keepLast n l /\ (u = [] \/ length (keepLast n l) = n).
Proof.
  exists (firstn (length l - n) l). unfold keepLast. rewrite firstn_skipn. split; auto.
  destruct (le_dec (length l) n); [left; replace (length l - n) with 0 by lia; auto|right]. rewrite skipn_length. lia.
Qed.
Lemma specRun_snoc s os o : specRun K V keq f s (os ++ [o]) =
  let (s1, xs) := specRun K V keq f s os in let (s2, x) := specStep K V keq f s1 o in (s2, xs ++ [x]).
Proof.
  revert s. induction os as [|p os IH]; intro s; cbn [app specRun].
  - destruct (specStep K V keq f s o). auto.
  - destruct (specStep K V keq f s p) as [s1 x]. rewrite IH. destruct (specRun K V keq f s1 os) as [s2 xs].
    destruct (specStep K V keq f s2 o). auto.
Qed.
Theorem C29_most_recent n ks : n <> 0 ->
  let s := fst (specRun K V keq f (mkSp K V n []) (map (OCall K) ks)) in
  map fst (items K V s) = keepLast n (nodup keq ks) /\ bound K V s = n.
Proof.
  intro Hn. induction ks as [|k ks IH] using rev_ind; cbn zeta.
  - cbn. auto.
  - rewrite map_app. cbn [map]. rewrite specRun_snoc. cbn zeta in IH.
    destruct (specRun K V keq f (mkSp K V n []) (map (OCall K) ks)) as [s xs]. cbn [fst] in IH. destruct IH as [IH1 IH2].
    rewrite nodup_snoc. assert (HD : NoDup (nodup keq ks)) by apply NoDup_nodup. set (l := nodup keq ks) in *.
    destruct (keepLast_cut n l) as [u [EU HU]]. rewrite <- IH1 in EU, HU.
    assert (HM : forall w, map fst (filter (fun p : K * V => if keq (fst p) k then false else true) w) = filter (notk k) (map fst w)).
    { induction w as [|[a b] w IW]; cbn; auto. unfold notk at 1. destruct (keq a k); cbn; rewrite IW; auto. }
    cbn [specStep]. unfold known. destruct (find _ (items K V s)) as [[k' v']|] eqn:EF.
    + apply find_some in EF as [F1 F2]. cbn in F2. destruct (keq k' k) as [->|]; [|discriminate]. cbn [fst items bound]. split; auto.
      rewrite map_app. cbn [map fst]. unfold others. rewrite HM. set (w := map fst (items K V s)) in *.
      assert (HW : In k w) by (apply in_map_iff; exists (k, v'); auto).
      rewrite keepLast_app by (cbn; lia). f_equal. cbn [length]. rewrite EU, filter_app.
      assert (HU' : ~ In k u) by (intro X; rewrite EU in HD; apply (NoDup_app_disj u w k HD); auto).
      rewrite (filter_notin k u HU').
      assert (HL : S (length (filter (notk k) w)) = length w).
      { rewrite EU in HD. apply NoDup_app_r in HD. clear -HD HW. induction w as [|a w IW]; [destruct HW|]. inversion HD; subst. cbn.
        unfold notk at 1. destruct (keq a k) as [->|N]; [rewrite filter_notin; auto|]. cbn. rewrite IW; auto. destruct HW; [congruence|auto]. }
      destruct HU as [-> | HU].
      * cbn [app]. rewrite keepLast_all; auto. assert (length w <= n); [|lia]. rewrite IH1. unfold keepLast. rewrite skipn_length. lia.
      * unfold keepLast. rewrite app_length. replace (length u + length (filter (notk k) w) - (n - 1)) with (length u) by lia.
        rewrite skipn_app, skipn_all, Nat.sub_diag. auto.
    + assert (HW : ~ In k (map fst (items K V s))).
      { intro X. apply in_map_iff in X as [[a b] [X1 X2]]. cbn in X1. subst a. apply (List.find_none _ _ EF) in X2. cbn in X2. destruct (keq k k); [discriminate|auto]. }
      cbn [fst items bound]. split; auto. rewrite IH2.
      assert (HKM : forall w, map fst (keepLast n w) = keepLast n (map (@fst K V) w)).
      { intro w. unfold keepLast. rewrite map_length. generalize (length w - n) as j. intro j. revert w.
        induction j as [|j IJ]; intros [|a w]; cbn; auto. }
      rewrite HKM, map_app. cbn [map fst]. set (w := map fst (items K V s)) in *.
      rewrite !keepLast_app by (cbn; lia). f_equal. cbn [length]. rewrite EU, filter_app, (filter_notin k w HW).
      destruct HU as [-> | HU]; [auto|]. unfold keepLast. rewrite app_length, skipn_app, HU.
      replace (length (filter (notk k) u) + n - (n - 1)) with (S (length (filter (notk k) u))) by lia.
      rewrite (skipn_all2 (filter (notk k) u)) by lia. cbn [app]. f_equal. lia.
Qed.
End Recency.
(** The hypothesis [n <> 0] is needed: a cache created with maxsize = 0 raises (TypeError: None is
    not subscriptable) at its first call, and when it is enlarged.  (Reducing an existing cache to 0
    is fine: covered by C29_refines_lru.) *)
Theorem C29_zero_size_refuted (K V : Type) (keq : forall a b : K, {a = b} + {a <> b}) (f : K -> V) (k : K) (m : Z) :
  run K V keq f (init K V keq 0) [OCall K k] = None /\
  ((0 < m)%Z -> run K V keq f (init K V keq 0) [OResize K m] = None).
Proof.
  split; [reflexivity|]. intro H. cbn [run step]. destruct (Z.ltb_spec m 0); [lia|]. unfold resize. change (size K V (init K V keq 0)) with 0.
  destruct (Z.eqb_spec m (Z.of_nat 0)); [lia|]. destruct (Z.ltb_spec m 0); [lia|]. cbn [Nat.ltb Nat.leb].
  destruct (Z.to_nat m - 0) as [|j] eqn:E; [lia|]. reflexivity.
Qed.
(** A concrete run: maxsize 2, f = square. *)
Definition exOps : list (op nat) :=
  [OCall nat 3; OCall nat 4; OCall nat 3; OCall nat 5; OCall nat 3; OCall nat 4; OResize nat 1; OCall nat 4; OCall nat 3;
   OResize nat 0; OCall nat 4; OCall nat 4; OResize nat (-1); OResize nat 3; OCall nat 4; OClear nat; OCall nat 4].
Example ex_C29 : option_map snd (run nat nat Nat.eq_dec (fun k => k * k) (init nat nat Nat.eq_dec 2) exOps)
  = Some [RVal nat 9 true; RVal nat 16 true; RVal nat 9 false; RVal nat 25 true; RVal nat 9 false; RVal nat 16 true; RDone nat;
          RVal nat 16 false; RVal nat 9 true; RDone nat; RVal nat 16 true; RVal nat 16 true; RErr nat; RDone nat; RVal nat 16 true;
          RDone nat; RVal nat 16 true].
Proof. vm_compute. reflexivity. Qed.
Example ex_C29_recent : map fst (items nat nat (fst (specRun nat nat Nat.eq_dec (fun k => k * k) (mkSp nat nat 2 []) (map (OCall nat) [3; 4; 3; 5]))))
  = [3; 5].
Proof. reflexivity. Qed.
