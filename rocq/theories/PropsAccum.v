(** C51, continued: several process calls accumulated in one correlation (initialize=False), so that
    a patch pair may already be in the results dict. *)
From Coq Require Import Reals Lra Lia List ZArith Bool Permutation.
From Verif Require Import Base Geometry Tree Traverse Run Corr Patch Cov Spec SpecRun GeomFacts SumFacts TreeFacts
  BinFacts TravFacts Exact MetricFacts Cover Lift Runs Account PropsCount PropsCorr PatchFacts PropsPatch CovFacts
  PropsCov PropsCov2 Examples.
Import ListNotations.
Open Scope R_scope.

Lemma keqb_refl k : keqb k k = true.
Proof. apply keqb_eq. auto. Qed.
Lemma dset_keys k v d : forall x, In x (keysOf (dset k v d)) <-> x = k \/ In x (keysOf d).
Proof.
  induction d as [|[k' v'] d IH]; intro x; simpl; [intuition|].
  destruct (keqb k k') eqn:E.
  - apply keqb_eq in E. subst k'. simpl. intuition.
  - simpl. rewrite IH. intuition.
Qed.
Lemma dset_nodup k v d : NoDup (keysOf d) -> NoDup (keysOf (dset k v d)).
Proof.
  induction d as [|[k' v'] d IH]; simpl; intro H; [repeat constructor; auto|].
  inversion H; subst. destruct (keqb k k') eqn:E; simpl; constructor; auto.
  intro HI. apply dset_keys in HI as [->|HI]; [rewrite keqb_refl in E; discriminate|auto].
Qed.
Lemma dset_in k v d x w : In (x, w) (dset k v d) -> w = v \/ In (x, w) d.
Proof.
  induction d as [|[k' v'] d IH]; simpl.
  - intros [E|[]]. injection E; auto.
  - destruct (keqb k k'); simpl; intros [E|H]; auto.
    + injection E; auto.
    + apply IH in H as [H|H]; auto.
Qed.
Lemma dget_mem k d v : dget k d = Some v -> In (k, v) d.
Proof.
  induction d as [|[k' v'] d IH]; simpl; [discriminate|]. destruct (keqb k k') eqn:E.
  - intro H. injection H as ->. apply keqb_eq in E. subst. auto.
  - auto.
Qed.
Lemma dset_sum (g : key * corr -> R) k v d :
  sumR g (dset k v d) = sumR g d - (match dget k d with Some r => g (k, r) | None => 0 end) + g (k, v).
Proof.
  induction d as [|[k' v'] d IH]; simpl; [lra|]. destruct (keqb k k') eqn:E; simpl.
  - apply keqb_eq in E. subst. lra.
  - rewrite IH. lra.
Qed.
Lemma dset_inv k v d : resInv d -> consistent (kacc v) -> resInv (dset k v d).
Proof.
  intros [H1 H2] HV. constructor; [apply dset_nodup; auto|].
  intros x w Hw. apply dset_in in Hw as [->|Hw]; auto. eapply H2; eauto.
Qed.
Lemma inv_get d k v : resInv d -> dget k d = Some v -> consistent (kacc v).
Proof. intros [_ H] E. apply (H k v). apply dget_mem; auto. Qed.

(** One job, its key present or not. *)
Lemma step_any C st J st' : okB (pB C) -> pNN C = false -> resInv (sres st) -> jobStep C st J st' ->
  resInv (sres st') /\
  forall f k, In k (bins (pB C)) ->
    aget f (kacc (sself st')) k - aget f (kacc (sself st)) k =
    resSum f k (fun _ => true) (sres st') - resSum f k (fun _ => true) (sres st).
Proof.
  intros HB HNN HI H. apply step_temp in H as [temp [HT ->]].
  pose proof (temp_consistent C J temp HB HT) as HC.
  destruct J as [i c|i j c1 sw1 c2 fo].
  - unfold addAuto; cbn [sself sres]. destruct (dget (i, i) (sres st)) as [r|] eqn:E.
    + pose proof (inv_get _ _ _ HI E) as HR. split; [apply dset_inv; auto; apply kadd_consistent; auto|].
      intros f k Hk. unfold resSum. rewrite dset_sum, E. cbn [fst snd]. rewrite !kadd_get by auto. lra.
    + split; [apply dset_inv; auto|]. intros f k Hk. unfold resSum. rewrite dset_sum, E. cbn [fst snd].
      rewrite !kadd_get by auto. lra.
  - unfold addCross. destruct (anyPairs (pB C) (kacc temp) || fo) eqn:EP.
    + cbn [sself sres]. destruct (dget (i, j) (sres st)) as [r|] eqn:E.
      * pose proof (inv_get _ _ _ HI E) as HR. destruct (anyPairs (pB C) (kacc r)) eqn:ER.
        -- split; [apply dset_inv; auto; apply kadd_consistent; auto|].
           intros f k Hk. unfold resSum. rewrite dset_sum, E. cbn [fst snd]. rewrite !kadd_get by auto. lra.
        -- split; [apply dset_inv; auto|]. intros f k Hk. unfold resSum. rewrite dset_sum, E. cbn [fst snd].
           rewrite !kadd_get by auto. rewrite (zero_in_bins _ _ f k HR ER Hk). lra.
      * split; [apply dset_inv; auto|]. intros f k Hk. unfold resSum. rewrite dset_sum, E. cbn [fst snd].
        rewrite !kadd_get by auto. lra.
    + rewrite HNN. destruct c2 as [[? ?]|]; (split; [auto|intros; lra]).
Qed.
(** Every class but NN: the arrays stay equal to the sum of the stored results, whatever calls are
    accumulated. *)
Theorem C51_accumulated C st Js st' : okB (pB C) -> pNN C = false -> resInv (sres st) ->
  (forall f k, In k (bins (pB C)) -> aget f (kacc (sself st)) k = aget f (kacc (sumAll (pB C) (sres st))) k) ->
  runJobs C st Js st' -> resInv (sres st') /\
  (forall f k, In k (bins (pB C)) -> aget f (kacc (sself st')) k = aget f (kacc (sumAll (pB C) (sres st'))) k).
Proof.
  intros HB HNN HI HS H. revert HI HS. induction H as [st|st J st1 Js st2 HJ HR IH]; intros HI HS; auto.
  destruct (step_any C st J st1 HB HNN HI HJ) as [HI1 HD]. apply IH; auto.
  intros f k Hk. rewrite <- resSum_all by auto. specialize (HD f k Hk). specialize (HS f k Hk).
  rewrite <- resSum_all in HS by auto. lra.
Qed.

(** NN: a later call whose patches (i,j) have no pairs replaces the stored result of an earlier one. *)
Definition twA : list patch := [mkpatch 0 [exObj 0 1 0]; mkpatch 1 [exObj (3/2) 1 1]].
Definition twB : list patch := [mkpatch 0 [exObj 0 1 0]; mkpatch 1 [exObj 100 1 1]].
Definition twC : pcfg := mkPC (mkR (mkC Euclidean None exB) Flat Mean BruteNo 0 10) true.
Lemma tw_auto x i : exists t, runAuto (pR twC) [exObj x 1 i] cleared t /\ (forall k, a_npairs t k = 0).
Proof.
  destruct (runAuto_exists (pR twC) [exObj x 1 i] cleared) as [t Ht];
    try (apply exB_valid); try discriminate.
  exists t. split; auto. intro k.
  destruct (C02_auto_exact (pR twC) [exObj x 1 i] cleared t k) as [H _]; auto; try apply exB_valid; try apply exB_narrow.
  - intros _ o1 o2 j Hj [<-|[]] [<-|[]]. rewrite exB_edge. cbn [opos exObj]. rewrite euclid_x.
    assert (1 <= IZR j) by (apply (IZR_le 1); lia). rewrite Rminus_eq_0, Rabs_R0. lra.
  - intros o1 o2 [].
  - intros o [<-|[]]; cbn; lra.
  - rewrite H. unfold sumUPairs. cbn. unfold aconst. lra.
Qed.
Lemma tw_cross : exists t, runCross (pR twC) [exObj 0 1 0] [exObj (3/2) 1 1] cleared t /\ a_npairs t 0%Z = 1.
Proof.
  destruct (runCross_exists (pR twC) [exObj 0 1 0] [exObj (3/2) 1 1] cleared) as [t Ht];
    try (apply exB_valid); try discriminate.
  exists t. split; auto.
  destruct (C01_cross_exact (pR twC) [exObj 0 1 0] [exObj (3/2) 1 1] cleared t 0) as [H _]; auto; try apply exB_valid; try apply exB_narrow.
  - intros _ o1 o2 j Hj [<-|[]] [<-|[]]. rewrite exB_edge. cbn [opos exObj]. rewrite euclid_x.
    rewrite Rabs_left by lra. intro E.
    assert (2 < IZR j + 1 < 3 \/ IZR j + 1 <= 2 \/ 3 <= IZR j + 1) by lra.
    assert (E2 : IZR (2 * j) = 1) by (rewrite mult_IZR; lra). apply eq_IZR in E2. lia.
  - intros o [<-|[]]; cbn; lra.
  - intros o [<-|[]]; cbn; lra.
  - rewrite H. unfold sumPairs, selBin. simpl. rewrite euclid_x, exB_in by lia. rewrite Rabs_left by lra. unfold aconst, v_one.
    rewrite Rleb_t, Rltb_t by lra. simpl. lra.
Qed.

Lemma anyPairs_f B t : (forall k, a_npairs t k = 0) -> anyPairs B t = false.
Proof.
  intro H. unfold anyPairs. apply not_true_is_false. intro E. apply existsb_exists in E as [k [_ E]].
  rewrite H in E. unfold Reqb in E. destruct Req_EM_T; [discriminate|lra].
Qed.
Lemma anyPairs_t B t k : In k (bins B) -> a_npairs t k <> 0 -> anyPairs B t = true.
Proof.
  intros Hk H. unfold anyPairs. apply existsb_exists. exists k. split; auto.
  unfold Reqb. destruct Req_EM_T; [contradiction|auto].
Qed.
Lemma tw_far : patchTrivZero (pR twC) [exObj 0 1 0] [exObj 100 1 1] = true.
Proof.
  apply trivZero_euclid; [reflexivity|discriminate| |];
  unfold patchCen; rewrite !meanPos_one; simpl rcoord; simpl opos.
  - unfold normSq, psub; simpl. lra.
  - rewrite (maxDist_at (mkpos 0 0 0) (exObj 0 1 0)), (maxDist_at (mkpos 100 0 0) (exObj 100 1 1)) by reflexivity.
    unfold normSq, psub; simpl. lra.
Qed.
Lemma tw_near : patchTrivZero (pR twC) [exObj 0 1 0] [exObj (3/2) 1 1] = false.
Proof.
  unfold patchTrivZero, patchCen. rewrite !meanPos_one. simpl rcoord; simpl opos.
  rewrite (maxDist_at (mkpos 0 0 0) (exObj 0 1 0)), (maxDist_at (mkpos (3/2) 0 0) (exObj (3/2) 1 1)) by reflexivity.
  unfold triviallyZero. simpl. rewrite Rleb_f; [simpl; reflexivity|]. unfold normSq, psub; simpl. lra.
Qed.
Theorem C51_repeated_refuted : exists C cats cats' st st',
  okB (pB C) /\ pNN C = true /\ NoDup (map pidx cats) /\ NoDup (map pidx cats') /\
  runJobs C sclear (autoJobs cats) st /\ runJobs C st (autoJobs cats') st' /\ In 0%Z (bins (pB C)) /\
  a_npairs (kacc (sself st')) 0%Z = 1 /\ a_npairs (kacc (sumAll (pB C) (sres st'))) 0%Z = 0 /\
  ktot (sself st') = 4 /\ ktot (sumAll (pB C) (sres st')) = 3.
Proof.
  destruct (tw_auto 0 0) as [t0 [R0 N0]]. destruct (tw_auto (3/2) 1) as [t1 [R1 N1]].
  destruct (tw_auto 100 1) as [t2 [R2 N2]]. destruct tw_cross as [tc [Rc Nc]].
  assert (HB : okB (pB twC)) by (apply validB_okB, exB_valid).
  assert (Z0 : In 0%Z (bins (pB twC))) by (simpl; auto).
  pose proof (anyPairs_f (pB twC) _ N0) as A0. pose proof (anyPairs_f (pB twC) _ N1) as A1.
  pose proof (anyPairs_f (pB twC) _ N2) as A2.
  assert (AC : anyPairs (pB twC) tc = true) by (apply (anyPairs_t _ _ 0%Z); auto; rewrite Nc; lra).
  assert (AK : anyPairs (pB twC) cleared = false) by (apply anyPairs_f; auto).
  set (W := fun x i => sumw [exObj x 1 i]).
  set (m := fun t x i => mkK t (0 + 1/2 * (W x i * W x i))).
  set (mc := mkK tc (0 + W 0 0%nat * W (3/2) 1%nat)).
  set (st := addAuto twC (1,1)%Z (m t1 (3/2) 1%nat)
    (addCross twC (0,1)%Z (W 0 0%nat) (Some ([exObj (3/2) 1 1], W (3/2) 1%nat)) false mc
      (addAuto twC (0,0)%Z (m t0 0 0%nat) sclear))).
  set (st' := addAuto twC (1,1)%Z (m t2 100 1%nat)
    (addCross twC (0,1)%Z (W 0 0%nat) (Some ([exObj 100 1 1], W 100 1%nat)) false kclear
      (addAuto twC (0,0)%Z (m t0 0 0%nat) st))).
  exists twC, twA, twB, st, st'.
  assert (WW : forall x i, W x i = 1) by (intros; unfold W, sumw; simpl; lra).
  assert (RES : sres st = [((0,0)%Z, m t0 0 0%nat); ((0,1)%Z, mc); ((1,1)%Z, m t1 (3/2) 1%nat)]).
  { unfold st, addAuto, addCross. cbn [mc kacc]. rewrite AC. reflexivity. }
  assert (SELF : sself st = mkK (accAdd cleared tc) (ktot (m t0 0 0%nat) + ktot mc + ktot (m t1 (3/2) 1%nat) + 0)).
  { unfold st, addAuto, addCross. cbn [mc kacc]. rewrite AC. cbn [orb sself sres sclear].
    unfold kadd. cbn [m mc kacc ktot kclear]. rewrite A0, A1, AC. f_equal. lra. }
  split; [auto|]. split; [reflexivity|]. split; [cbn; repeat constructor; simpl; intuition discriminate|].
  split; [cbn; repeat constructor; simpl; intuition discriminate|].
  assert (RES' : sres st' = [((0,0)%Z, kadd (pB twC) (m t0 0 0%nat) (m t0 0 0%nat)); ((0,1)%Z, mkK cleared (W 0 0%nat * W 100 1%nat));
                             ((1,1)%Z, kadd (pB twC) (m t1 (3/2) 1%nat) (m t2 100 1%nat))]).
  { unfold st'. unfold addAuto at 2. rewrite RES. unfold addCross. cbn [kacc kclear]. rewrite AK. reflexivity. }
  assert (SELF' : kacc (sself st') = accAdd cleared tc /\ ktot (sself st') = 4).
  { unfold st'. unfold addAuto at 2. unfold addCross. cbn [kacc kclear]. rewrite AK. cbn [orb]. cbn [pNN twC].
    unfold addAuto. cbn [sself]. rewrite SELF. unfold kadd. cbn [m mc kacc ktot]. rewrite A0, A2.
    rewrite !WW. split; [reflexivity|lra]. }
  split; [|split; [|split; [auto|]]].
  - cbn [twA autoJobs flat_map]. eapply rj_cons; [|eapply rj_cons; [|eapply rj_cons; [|apply rj_nil]]].
    + exists (m t0 0 0%nat). split; [|reflexivity]. exists t0. split; auto.
    + exists mc. split; [|reflexivity]. cbn [tempCross]. cbn [pobjs]. rewrite tw_near. exists tc. split; auto.
    + exists (m t1 (3/2) 1%nat). split; [|reflexivity]. exists t1. split; auto.
  - cbn [twB autoJobs flat_map]. eapply rj_cons; [|eapply rj_cons; [|eapply rj_cons; [|apply rj_nil]]].
    + exists (m t0 0 0%nat). split; [|reflexivity]. exists t0. split; auto.
    + exists kclear. split; [|reflexivity]. cbn [tempCross]. cbn [pobjs]. rewrite tw_far. reflexivity.
    + exists (m t2 100 1%nat). split; [|reflexivity]. exists t2. split; auto.
  - destruct SELF' as [S1 S2]. rewrite S1, S2, RES'. split; [cbn [accAdd a_npairs cleared]; rewrite Nc; unfold aconst; lra|].
    unfold sumAll, ksum. cbn [map snd filter]. unfold kadd. cbn [kacc ktot m mc]. rewrite ?A0, ?A1, ?A2, ?AK. cbn [kacc ktot m sumR].
    rewrite ?A0, ?A1. cbn [kacc ktot a_npairs cleared]. rewrite !WW. unfold aconst. repeat split; lra.
Qed.

(** The hypotheses of C51_accumulated: any number of accumulated calls, here two in a row (non-NN). *)
Example C51_accumulated_example st st' :
  let C := mkPC (pR twC) false in
  runJobs C sclear (autoJobs twA) st -> runJobs C st (autoJobs twB) st' ->
  forall k, In k (bins (pB C)) ->
    a_npairs (kacc (sself st')) k = a_npairs (kacc (sumAll (pB C) (sres st'))) k.
Proof.
  intros C H1 H2 k Hk. assert (HB : okB (pB C)) by (apply validB_okB, exB_valid).
  assert (I0 : resInv (sres sclear)) by (split; [apply NoDup_nil|intros ? ? []]).
  destruct (C51_accumulated C sclear (autoJobs twA) st HB eq_refl I0) as [I1 E1]; auto.
  destruct (C51_accumulated C st (autoJobs twB) st' HB eq_refl I1 E1 H2) as [I2 E2].
  exact (E2 FNpairs k Hk).
Qed.
