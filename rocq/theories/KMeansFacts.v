(** Facts about the k-means model (KMeans.v). *)
From Coq Require Import Reals Lra Lia List ZArith Bool Permutation.
From Verif Require Import Base Geometry Tree Traverse Run Sampler SumFacts GeomFacts TreeFacts KMeans.
Import ListNotations.
Open Scope R_scope.

Lemma dsqTo_pdist cs p i : dsqTo cs p i = pdist p (cen cs i) * pdist p (cen cs i).
Proof.
  unfold dsqTo, pdist, norm. rewrite sqrt_sqrt; auto. unfold normSq. nra.
Qed.
Lemma sqrt_dsqTo cs p i : sqrt (dsqTo cs p i) = pdist p (cen cs i).
Proof. reflexivity. Qed.

Lemma closest_spec f : forall rest best b r, closest f best rest = (b, r) ->
  Permutation (best :: rest) (b :: r) /\ forall q, In q (best :: rest) -> f b <= f q.
Proof.
  induction rest as [|i t IH]; intros best b r H; cbn [closest] in H.
  - inversion H; subst. split; auto. intros q [->|[]]. lra.
  - destruct (Rlt_dec (f i) (f best)) as [L|L].
    + destruct (closest f i t) as [b' r'] eqn:E. inversion H; subst. destruct (IH _ _ _ E) as [P M]. split.
      * apply perm_trans with (best :: b :: r'); [apply perm_skip; auto|apply perm_swap].
      * intros q [->|[->|Hq]].
        { specialize (M i (or_introl eq_refl)). lra. }
        { apply M. left. auto. } { apply M. right. auto. }
    + destruct (closest f best t) as [b' r'] eqn:E. inversion H; subst. destruct (IH _ _ _ E) as [P M]. split.
      * apply perm_trans with (i :: best :: t); [apply perm_swap|].
        apply perm_trans with (i :: b :: r'); [apply perm_skip; auto|apply perm_swap].
      * intros q [->|[->|Hq]].
        { apply M. left. auto. } { specialize (M best (or_introl eq_refl)). lra. } { apply M. right. auto. }
Qed.
Lemma removelast_last_perm {A} (l : list A) d : l <> [] -> Permutation (last l d :: removelast l) l.
Proof.
  intros H. rewrite (app_removelast_last d H) at 3. apply Permutation_cons_append.
Qed.
Lemma prune_spec bad : forall rest K Rm, prune bad rest = (K, Rm) ->
  Permutation rest (K ++ Rm) /\ (forall q, In q Rm -> bad q = true) /\ (forall q, In q K -> bad q = false).
Proof.
  induction rest as [|i t IH]; intros K Rm H; cbn [prune] in H.
  - inversion H; subst. repeat split; auto; intros q [].
  - destruct (prune bad t) as [K0 Rm0]. destruct (IH _ _ eq_refl) as (P & B & G).
    destruct (bad i) eqn:E.
    + assert (HR : forall q, In q (i :: Rm0) -> bad q = true) by (intros q [->|Hq]; auto).
      destruct K0 as [|k K']; inversion H; subst.
      * split; [|split]; auto. apply perm_skip. auto.
      * assert (P2 := removelast_last_perm (k :: K') k ltac:(discriminate)).
        split; [|split]; auto.
        { apply perm_trans with (i :: (k :: K') ++ Rm0); [apply perm_skip; auto|].
          eapply perm_trans; [|apply Permutation_middle]. apply perm_skip. apply Permutation_app_tail. symmetry. exact P2. }
        { intros q Hq. apply G. apply (Permutation_in _ P2). auto. }
    + inversion H; subst. split; [|split]; auto.
      * apply perm_skip. auto.
      * intros q [->|Hq]; auto.
Qed.

Definition zeroOpt (ins : option (list R)) : Prop := match ins with None => True | Some l => forall i, 0 <= nth i l 0 end.
(** A discarded candidate is worse than the best one for every point within the size of the cell. *)
Lemma badCand_sound cs ins p s b j x : zeroOpt ins -> 0 <= s -> pdist p x <= s ->
  badCand cs ins p (Fin s) b j = true -> costTo cs ins x b <= costTo cs ins x j.
Proof.
  intros Hi Hs Hx H. unfold badCand in H. unfold costTo. rewrite !sqrt_dsqTo in H. rewrite !dsqTo_pdist in *.
  pose proof (pdist_nonneg p (cen cs b)). pose proof (pdist_nonneg p (cen cs j)).
  pose proof (pdist_nonneg x (cen cs b)). pose proof (pdist_nonneg x (cen cs j)).
  pose proof (pdist_triangle x p (cen cs b)) as T1. pose proof (pdist_triangle p x (cen cs j)) as T2.
  rewrite (pdist_sym x p) in T1.
  set (db := pdist p (cen cs b)) in *. set (dj := pdist p (cen cs j)) in *.
  set (xb := pdist x (cen cs b)) in *. set (xj := pdist x (cen cs j)) in *. set (dx := pdist p x) in *.
  destruct ins as [ins|]; cbn [inert].
  - cbn in Hi. destruct (Rlt_dec dj s) as [L|L].
    + destruct (Rlt_dec _ 0) as [L2|L2] in H; [|discriminate]. specialize (Hi b). nra.
    + destruct (Rlt_dec _ _) as [L2|L2] in H; [|discriminate].
      assert (xb * xb <= (db + s) * (db + s)) by nra. assert ((dj - s) * (dj - s) <= xj * xj) by nra. lra.
  - destruct (Rlt_dec _ _) as [L|L] in H; [|discriminate].
    assert (db + 2 * s < dj) by nra. assert (xb <= xj) by lra. nra.
Qed.

(** cand contains a minimiser over all n patches for every object of the cell. *)
Definition coversMin (cs : list pos) (ins : option (list R)) (cand : list nat) (c : cell) : Prop :=
  forall o q, In o (objs c) -> (q < length cs)%nat -> exists b, In b cand /\ costTo cs ins (opos o) b <= costTo cs ins (opos o) q.
Definition goodCall (cs : list pos) (ins : option (list R)) (pc : nat * cell) : Prop :=
  exists C, In (fst pc) C /\ coversMin cs ins C (snd pc) /\
    (C = [fst pc] \/ ((forall d s l r, snd pc <> Node d s l r) /\
       forall b, In b C -> costTo cs ins (getPos (snd pc)) (fst pc) <= costTo cs ins (getPos (snd pc)) b)).
Lemma coversMin_perm cs ins c cand cand' : Permutation cand cand' -> coversMin cs ins cand c -> coversMin cs ins cand' c.
Proof.
  intros P H o q Ho Hq. destruct (H o q Ho Hq) as (b & Hb & Hc). exists b. split; auto. eapply Permutation_in; eauto.
Qed.
Lemma sizeZero_true s : sizeZero s = true -> s = Fin 0.
Proof. unfold sizeZero. destruct s; [|discriminate]. destruct (Req_EM_T x 0); [congruence|discriminate]. Qed.

Lemma findCells_spec cs ins m : zeroOpt ins -> forall c cand ev cand', wf m c -> cand <> [] ->
  coversMin cs ins cand c -> findCells cs ins c cand = (ev, cand') ->
  Permutation cand cand' /\ flat_map (fun pc => objs (snd pc)) ev = objs c /\
  (forall pc, In pc ev -> In (fst pc) cand /\ subcell (snd pc) c /\ goodCall cs ins pc).
Proof.
  intros Hz. induction c as [d o|d os|d s l IHl r IHr]; intros cand ev cand' Hw Hne Hc H;
    (destruct cand as [|p0 rest]; [contradiction|]); cbn [findCells] in H;
    destruct (closest _ p0 rest) as [b rest1] eqn:E1; destruct (prune _ rest1) as [K Rm] eqn:E2;
    destruct (closest_spec _ _ _ _ _ E1) as [P1 M1]; destruct (prune_spec _ _ _ _ E2) as (P2 & B2 & G2).
  1,2: assert (P3 : Permutation (p0 :: rest) (b :: K ++ Rm)) by (eapply perm_trans; [exact P1|apply perm_skip; auto]);
       assert (H' : ev = [(b, _)] /\ cand' = b :: K ++ Rm) by (destruct (_ || _); inversion H; subst; eauto);
       destruct H' as [-> ->]; split; [exact P3|]; split; [cbn; rewrite ?app_nil_r; reflexivity|];
       intros pc [<-|[]]; cbn [fst snd]; split; [apply (Permutation_in _ (Permutation_sym P3)); left; reflexivity|];
       split; [constructor|]; exists (p0 :: rest); split; [apply (Permutation_in _ (Permutation_sym P3)); left; reflexivity|];
       split; [exact Hc|]; right; split; [discriminate|]; intros q Hq; apply M1; auto.
  assert (P3 : Permutation (p0 :: rest) (b :: K ++ Rm)) by (eapply perm_trans; [exact P1|apply perm_skip; auto]).
  assert (Cov : coversMin cs ins (b :: K) (Node d s l r)).
  { intros o q Ho Hq. destruct (Hc o q Ho Hq) as (b' & Hb' & Hle). apply (Permutation_in _ P3) in Hb'.
    change (b :: K ++ Rm) with ((b :: K) ++ Rm) in Hb'. apply in_app_or in Hb'. destruct Hb' as [Hb'|Hb']; [exists b'; auto|].
    exists b. split; [left; auto|]. apply B2 in Hb'. cbn [getSize] in Hb'. destruct s as [x|]; [|discriminate].
    pose proof (ok_size _ _ (wf_ok _ _ Hw)) as Hs. cbn in Hs. destruct Hs as [Hs1 Hs2].
    eapply Rle_trans; [|exact Hle]. apply (badCand_sound cs ins (getPos (Node d (Fin x) l r)) x b b' (opos o)); auto; lra. }
  assert (Hs0 : sizeZero (getSize (Node d s l r)) = false).
  { destruct (sizeZero _) eqn:E; auto. apply sizeZero_true in E. cbn in E. subst s.
    pose proof (ok_size _ _ (wf_ok _ _ Hw)) as Hs. cbn in Hs. lra. }
  rewrite Hs0, orb_false_r in H. destruct K as [|k K].
  - inversion H; subst. split; [exact P3|]. split; [cbn; rewrite app_nil_r; reflexivity|].
    intros pc [<-|[]]. cbn [fst snd]. split; [apply (Permutation_in _ (Permutation_sym P3)); left; reflexivity|].
    split; [constructor|]. exists [b]. split; [left; auto|]. split; auto.
  - cbn beta iota in H. destruct (findCells cs ins l (b :: k :: K)) as [ev1 c1] eqn:F1.
    destruct (findCells cs ins r c1) as [ev2 c2] eqn:F2. inversion H; subst. clear H.
    apply wf_node in Hw. destruct Hw as [Hwl Hwr].
    destruct (IHl (b :: k :: K) ev1 c1) as (Q1 & O1 & A1); auto; [discriminate| |].
    { intros o q Ho. apply Cov. cbn. apply in_or_app. auto. }
    destruct (IHr c1 ev2 c2) as (Q2 & O2 & A2); auto.
    { intros ->. apply Permutation_sym, Permutation_nil in Q1. discriminate. }
    { apply (coversMin_perm _ _ _ _ _ Q1). intros o q Ho. apply Cov. cbn. apply in_or_app. auto. }
    assert (Q3 : Permutation (p0 :: rest) (c2 ++ Rm)).
    { eapply perm_trans; [exact P3|]. change (b :: (k :: K) ++ Rm) with ((b :: k :: K) ++ Rm). apply Permutation_app_tail.
      eapply perm_trans; eauto. }
    assert (Sub : forall x, In x (b :: k :: K) -> In x (p0 :: rest)).
    { intros x Hx. apply (Permutation_in _ (Permutation_sym P3)). change (b :: (k :: K) ++ Rm) with ((b :: k :: K) ++ Rm).
      apply in_or_app. auto. }
    split; [exact Q3|]. split; [rewrite flat_map_app, O1, O2; reflexivity|].
    intros pc Hpc. apply in_app_or in Hpc. destruct Hpc as [Hpc|Hpc].
    + destruct (A1 pc Hpc) as (I1 & S1 & G1). split; auto. split; auto. apply sub_l; auto.
    + destruct (A2 pc Hpc) as (I1 & S1 & G1). split; [|split; auto; apply sub_r; auto].
      apply Sub. apply (Permutation_in _ (Permutation_sym Q1)). auto.
Qed.
Lemma coversMin_all cs ins cand c : Permutation (seq 0 (length cs)) cand -> coversMin cs ins cand c.
Proof.
  intros P o q _ Hq. exists q. split; [|lra]. apply (Permutation_in _ P). apply in_seq. lia.
Qed.
Lemma findMany_spec cs ins m : zeroOpt ins -> cs <> [] -> forall cells cand, Forall (wf m) cells ->
  Permutation (seq 0 (length cs)) cand ->
  let ev := findMany cs ins cells cand in
  flat_map (fun pc => objs (snd pc)) ev = flat_map objs cells /\
  forall pc, In pc ev -> (fst pc < length cs)%nat /\ (exists c, In c cells /\ subcell (snd pc) c) /\ goodCall cs ins pc.
Proof.
  intros Hz Hne. induction cells as [|c t IH]; intros cand Hw P; cbn [findMany].
  - cbn. split; auto. intros pc [].
  - inversion Hw; subst. destruct (findCells cs ins c cand) as [ev cand'] eqn:E.
    destruct (findCells_spec cs ins m Hz c cand ev cand') as (P1 & O1 & A1); auto.
    { intros ->. apply Permutation_sym, Permutation_nil in P. destruct cs; [contradiction|discriminate]. }
    { apply coversMin_all; auto. }
    destruct (IH cand') as (O2 & A2); auto. { eapply perm_trans; eauto. }
    cbn zeta. split; [rewrite flat_map_app, O1, O2; reflexivity|].
    intros pc Hpc. apply in_app_or in Hpc. destruct Hpc as [Hpc|Hpc].
    + destruct (A1 pc Hpc) as (I1 & S1 & G1). split; [|split; auto; exists c; split; [left; auto|auto]].
      apply (Permutation_in _ (Permutation_sym P)) in I1. apply in_seq in I1. lia.
    + destruct (A2 pc Hpc) as (I1 & (c' & Hc' & S1) & G1). split; auto. split; auto. exists c'. split; [right|]; auto.
Qed.
Lemma kmCalls_spec cs ins m chunks cells : zeroOpt ins -> cs <> [] -> concat chunks = cells -> Forall (wf m) cells ->
  let ev := kmCalls cs ins chunks in
  flat_map (fun pc => objs (snd pc)) ev = flat_map objs cells /\
  forall pc, In pc ev -> (fst pc < length cs)%nat /\ (exists c, In c cells /\ subcell (snd pc) c) /\ goodCall cs ins pc.
Proof.
  intros Hz Hne <-. unfold kmCalls. induction chunks as [|ch t IH]; intros Hw; cbn [flat_map concat].
  - cbn. split; auto. intros pc [].
  - cbn [concat] in Hw. apply Forall_app in Hw. destruct Hw as [H1 H2].
    destruct (findMany_spec cs ins m Hz Hne ch (seq 0 (length cs)) H1 (Permutation_refl _)) as (O1 & A1).
    destruct (IH H2) as (O2 & A2). cbn zeta. split; [rewrite !flat_map_app, O1, O2; reflexivity|].
    intros pc Hpc. apply in_app_or in Hpc. destruct Hpc as [Hpc|Hpc].
    + destruct (A1 pc Hpc) as (I1 & (c' & Hc' & S1) & G1). split; auto. split; auto. exists c'. split; auto. apply in_or_app; auto.
    + destruct (A2 pc Hpc) as (I1 & (c' & Hc' & S1) & G1). split; auto. split; auto. exists c'. split; auto. apply in_or_app; auto.
Qed.
(** A good call gives every object of the cell a best patch... *)
Lemma goodCall_exact cs ins pc : wf 0 (snd pc) -> goodCall cs ins pc -> forall o q, In o (objs (snd pc)) ->
  (q < length cs)%nat -> costTo cs ins (opos o) (fst pc) <= costTo cs ins (opos o) q.
Proof.
  intros Hw (C & Hin & Hc & HC) o q Ho Hq. destruct (Hc o q Ho Hq) as (b & Hb & Hle).
  destruct HC as [->|[Hleaf HC]].
  - destruct Hb as [<-|[]]. auto.
  - assert (E : opos o = getPos (snd pc)).
    { pose proof (ok_size _ _ (wf_ok _ _ Hw)) as Hs. destruct (snd pc) as [d o'|d os|d s l r]; cbn in *.
      - destruct Ho as [->|[]]. auto.
      - symmetry. apply pdist_0. apply Rle_antisym; [apply Hs; auto|apply pdist_nonneg].
      - exfalso. eapply Hleaf. reflexivity. }
    eapply Rle_trans; [|exact Hle]. rewrite E. apply HC. auto.
Qed.
(** ... up to twice the min_size of the field. *)
Lemma goodCall_near cs m pc : 0 <= m -> wf m (snd pc) -> goodCall cs None pc -> forall o q, In o (objs (snd pc)) ->
  (q < length cs)%nat -> pdist (opos o) (cen cs (fst pc)) <= pdist (opos o) (cen cs q) + 2 * m.
Proof.
  intros Hm Hw (C & Hin & Hc & HC) o q Ho Hq. destruct (Hc o q Ho Hq) as (b & Hb & Hle).
  assert (D : forall x i j, costTo cs None x i <= costTo cs None x j -> pdist x (cen cs i) <= pdist x (cen cs j)).
  { intros x i j. unfold costTo. cbn [inert]. rewrite !dsqTo_pdist.
    pose proof (pdist_nonneg x (cen cs i)). pose proof (pdist_nonneg x (cen cs j)). intros Hq2. apply Rnot_lt_le. intros Hq3. nra. }
  apply D in Hle. destruct HC as [->|[Hleaf HC]].
  - destruct Hb as [<-|[]]. lra.
  - assert (E : pdist (getPos (snd pc)) (opos o) <= m).
    { pose proof (ok_size _ _ (wf_ok _ _ Hw)) as Hs. destruct (snd pc) as [d o'|d os|d s l r]; cbn in *.
      - destruct Ho as [->|[]]. rewrite Hs, pdist_refl. auto.
      - apply Hs. auto.
      - exfalso. eapply Hleaf. reflexivity. }
    specialize (HC b Hb). apply D in HC.
    pose proof (pdist_triangle (opos o) (getPos (snd pc)) (cen cs (fst pc))) as T1.
    pose proof (pdist_triangle (getPos (snd pc)) (opos o) (cen cs b)) as T2. rewrite (pdist_sym (opos o) (getPos (snd pc))) in T1. lra.
Qed.
