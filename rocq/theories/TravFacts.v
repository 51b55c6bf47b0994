(** Generic facts about the traversal: induction principle, termination, accumulation. *)
From Coq Require Import Reals Lra Lia List ZArith Bool Permutation Psatz.
From Verif Require Import Base Geometry Tree Traverse Spec GeomFacts SumFacts TreeFacts BinFacts.
Import ListNotations.
Open Scope R_scope.

(** ** Effective sizes *)
Lemma escale_nonneg k s : 0 <= k -> enonneg s -> enonneg (escale k s).
Proof. destruct s; simpl; auto. intros; apply Rmult_le_pos; auto. Qed.
Lemma escale_pos k s : 0 <= k -> enonneg s -> epos (escale k s) -> epos s.
Proof.
  destruct s as [x|]; simpl; auto. intros Hk Hx Hp. destruct Hx as [|Hx]; auto. subst x. lra.
Qed.
Lemma Rinv_nonneg x : 0 <= x -> 0 <= / x.
Proof. intros [H|<-]; [left; apply Rinv_0_lt_compat; auto|rewrite Rinv_0; lra]. Qed.

Lemma effSize_facts M p1 p2 s1 s2 e1 e2 : enonneg s1 -> enonneg s2 ->
  effSize M p1 p2 s1 s2 = (e1, e2) ->
  enonneg e1 /\ enonneg e2 /\ (epos e1 -> epos s1) /\ (epos e2 -> epos s2).
Proof.
  intros H1 H2 H. pose proof (normSq_nonneg p1) as N1. pose proof (normSq_nonneg p2) as N2.
  pose proof (norm_nonneg p1) as N3. pose proof (norm_nonneg p2) as N4.
  destruct M; simpl in H.
  - injection H; intros; subst; auto.
  - set (L := normSq (pscale (1/2) (padd p1 p2))) in H.
    assert (HG : forall r s e, enonneg s ->
       match s with
       | Fin x => if Req_EM_T x 0 then Fin x
                  else if Rlt_dec L r then if Req_EM_T L 0 then Inf else Fin (sqrt (r / L) * x) else Fin x
       | Inf => Inf end = e -> enonneg e /\ (epos e -> epos s)).
    { intros r s e Hs He. destruct s as [x|]; [|subst; simpl; auto].
      destruct (Req_EM_T x 0); [subst; simpl; split; auto; lra|].
      simpl in Hs. assert (0 < x) by lra.
      destruct (Rlt_dec L r); [|subst; simpl; split; auto].
      destruct (Req_EM_T L 0); subst; simpl; split; auto.
      apply Rmult_le_pos; auto. apply sqrt_pos. }
    injection H; intros He2 He1.
    destruct (HG _ _ _ H1 He1). destruct (HG _ _ _ H2 He2). auto.
  - injection H; intros; subst. split; auto.
    assert (0 <= sqrt (normSq p1 / normSq p2)) by apply sqrt_pos.
    split; [apply escale_nonneg; auto|]. split; auto. apply escale_pos; auto.
  - injection H; intros; subst; auto.
  - injection H; intros; subst. pose proof (Rinv_nonneg _ N3). pose proof (Rinv_nonneg _ N4).
    repeat split; try (apply escale_nonneg; auto); apply escale_pos; auto.
  - assert (HQ : forall a b, 0 <= a -> a < b -> 0 <= 1 + 1/4 * (b - a) / a).
    { intros a b Ha Hab. assert (0 <= 1/4 * (b - a) / a).
      { unfold Rdiv. apply Rmult_le_pos; [lra|apply Rinv_nonneg; auto]. } lra. }
    destruct (Rlt_dec (normSq p1) (normSq p2)); injection H; intros; subst.
    + pose proof (HQ _ _ N1 r). repeat split; auto; try (apply escale_nonneg; auto).
      apply escale_pos; auto.
    + assert (0 <= 1 + 1/4 * (normSq p1 - normSq p2) / normSq p2).
      { assert (0 <= 1/4 * (normSq p1 - normSq p2) / normSq p2).
        { unfold Rdiv. apply Rmult_le_pos; [lra|apply Rinv_nonneg; auto]. } lra. }
      repeat split; auto; try (apply escale_nonneg; auto). apply escale_pos; auto.
  - injection H; intros; subst; auto.
Qed.

Lemma distSq_nonneg M p1 p2 : 0 <= distSq M p1 p2.
Proof.
  destruct M; simpl; try apply normSq_nonneg; try apply Rle_0_sqr; try apply Rabs_pos.
  - destruct Rlt_dec.
    + unfold Rdiv. apply Rmult_le_pos; [apply normSq_nonneg|]. apply Rinv_nonneg; lra.
    + pose proof (normSq_nonneg p1); lra.
  - unfold Rdiv. apply Rmult_le_pos; [apply normSq_nonneg|]. apply Rinv_nonneg, normSq_nonneg.
Qed.

Lemma calcSplit_pos e1 e2 bsq a b : enonneg e1 -> enonneg e2 -> 0 <= bsq ->
  eadd e1 e2 <> Fin 0 -> calcSplitSq e1 e2 bsq = (a, b) ->
  (a = true -> epos e1) /\ (b = true -> epos e2) /\ (a = true \/ b = true).
Proof.
  intros H1 H2 Hb Hne H. unfold calcSplitSq, calcSplitSq_ordered in H.
  destruct e1 as [x|], e2 as [y|]; simpl in *.
  - assert (~ (x = 0 /\ y = 0)) by (intros [-> ->]; apply Hne; f_equal; lra).
    unfold Rltb in H.
    destruct (Rlt_dec x y); [destruct (Rlt_dec (2 * x) y)|destruct (Rlt_dec (2 * y) x)];
      injection H; intros; subst.
    + repeat split; intros; auto; try discriminate; lra.
    + split; [|split; auto; intros; lra]. destruct Rlt_dec; [intros _; nra|discriminate].
    + repeat split; intros; auto; try discriminate; lra.
    + split; [intros; lra|split; auto]. destruct Rlt_dec; [intros _; nra|discriminate].
  - injection H; intros; subst. repeat split; auto; discriminate.
  - injection H; intros; subst. repeat split; auto; discriminate.
  - injection H; intros; subst. repeat split; auto.
Qed.

Lemma singleBin_zero B rsq p1 p2 : 0 <= rsq -> 0 <= slop_b B ->
  singleBin B rsq (Fin 0) p1 p2 = Some ((-1)%Z, 0, 0).
Proof.
  intros Hr Hb. unfold singleBin. assert (0 <= slop_a B * slop_a B * rsq) by nra.
  destruct (btype B).
  - destruct (Req_EM_T 0 0); [auto|congruence].
  - unfold Rsqr. destruct Rlt_dec; [lra|]. destruct Rle_dec; [auto|lra].
  - unfold Rsqr. destruct Rlt_dec; [lra|]. destruct Rle_dec; [auto|lra].
Qed.

Lemma rparSize_zero M p1 p2 : rparSize M p1 p2 (Fin 0) = Fin 0.
Proof. destruct M; simpl; auto. f_equal; ring. Qed.

(** ** Termination and absence of null children *)
Lemma decide_split_nodes P m c1 c2 a b : 0 <= slop_b (cbin P) ->
  okcell m c1 -> okcell m c2 -> decide11 P c1 c2 = Split a b ->
  (a = true -> exists d s l r, c1 = Node d s l r) /\
  (b = true -> exists d s l r, c2 = Node d s l r) /\ (a = true \/ b = true).
Proof.
  intros Hb O1 O2 H. unfold decide11 in H.
  destruct (Req_EM_T (getW c1) 0); [discriminate|].
  destruct (Req_EM_T (getW c2) 0); [discriminate|].
  destruct (effSize _ _ _ (getSize c1) (getSize c2)) as [e1 e2] eqn:EE.
  destruct (effSize_facts _ _ _ _ _ _ _ (size_nonneg _ _ O1) (size_nonneg _ _ O2) EE)
    as [E1 [E2 [E3 E4]]].
  set (p1 := getPos c1) in *. set (p2 := getPos c2) in *.
  pose proof (distSq_nonneg (cmetric P) p1 p2) as Hrsq.
  set (rsq := distSq (cmetric P) p1 p2) in *.
  destruct (isRParOutsideRange (cmetric P) (crpar P) p1 p2 (eadd e1 e2)) eqn:EO; [discriminate|].
  destruct (tooSmallDist _ _ _ && _); [discriminate|].
  destruct (tooLargeDist _ _ _ && _); [discriminate|].
  destruct (if isRParInsideRange (cmetric P) (crpar P) p1 p2 (eadd e1 e2)
            then singleBin (cbin P) rsq (eadd e1 e2) p1 p2 else None) as [[[k r] lr]|] eqn:ES.
  - destruct (isRSqInRange _ _ _ _); discriminate.
  - assert (Hne : eadd e1 e2 <> Fin 0).
    { intro Hz. rewrite Hz in *. rewrite singleBin_zero in ES by auto.
      unfold isRParInsideRange in ES. unfold isRParOutsideRange in EO.
      destruct (crpar P) as [[lo hi]|]; [|discriminate].
      rewrite rparSize_zero in *.
      destruct (Rlt_dec _ lo); [discriminate|]. destruct (Rlt_dec hi _); [discriminate|].
      destruct (Rlt_dec _ lo); [lra|]. destruct (Rlt_dec hi _); [lra|]. discriminate. }
    assert (Hbsq : 0 <= getEffectiveBSq (cbin P) rsq).
    { unfold getEffectiveBSq.
      assert (0 <= slop_b (cbin P) * slop_b (cbin P)) by nra.
      assert (0 <= slop_a (cbin P) * slop_a (cbin P)) by nra.
      destruct (btype (cbin P)).
      - apply Rmult_le_pos; auto. apply Rmin_glb; auto.
      - apply Rmin_glb; auto. apply Rmult_le_pos; auto.
      - apply Rmin_glb; auto. apply Rmult_le_pos; auto. }
    destruct (calcSplitSq e1 e2 (getEffectiveBSq (cbin P) rsq)) as [a' b'] eqn:EC.
    injection H; intros; subst a' b'.
    destruct (calcSplit_pos _ _ _ _ _ E1 E2 Hbsq Hne EC) as [Ha [Hb' Hab]].
    split; [|split; auto].
    + intro Ht. specialize (E3 (Ha Ht)). destruct c1; simpl in E3; try lra; eauto.
    + intro Ht. specialize (E4 (Hb' Ht)). destruct c2; simpl in E4; try lra; eauto.
Qed.

Lemma oapp_some {A} (a b : option (list A)) x : oapp a b = Some x ->
  exists u v, a = Some u /\ b = Some v /\ x = u ++ v.
Proof.
  destruct a as [u|], b as [v|]; simpl; intro H; try discriminate.
  injection H; intros; subst; eauto.
Qed.
Lemma oapp_ex {A} (a b : option (list A)) : (exists u, a = Some u) -> (exists v, b = Some v) ->
  exists x, oapp a b = Some x.
Proof. intros [u ->] [v ->]. simpl; eauto. Qed.

Lemma process11_total P rev m fuel c1 c2 : 0 <= slop_b (cbin P) -> wf m c1 -> wf m c2 ->
  (depth c1 + depth c2 <= fuel)%nat -> exists evs, process11 P rev fuel c1 c2 = Some evs.
Proof.
  intro Hb. revert c1 c2. induction fuel as [|n IH]; intros c1 c2 W1 W2 Hd.
  - simpl. destruct (decide11 P c1 c2) as [| |a b] eqn:ED; eauto.
    destruct (decide_split_nodes P m c1 c2 a b Hb (wf_ok _ _ W1) (wf_ok _ _ W2) ED) as [Ha [Hb' Hab]].
    destruct Hab as [Hx|Hx].
    + destruct (Ha Hx) as [d [s [l [r ->]]]]. simpl in Hd. lia.
    + destruct (Hb' Hx) as [d [s [l [r ->]]]]. simpl in Hd. lia.
  - simpl. destruct (decide11 P c1 c2) as [| |a b] eqn:ED; eauto.
    destruct (decide_split_nodes P m c1 c2 a b Hb (wf_ok _ _ W1) (wf_ok _ _ W2) ED) as [Ha [Hb' Hab]].
    destruct a, b; simpl.
    + destruct (Ha eq_refl) as [d [s [l [r ->]]]]. destruct (Hb' eq_refl) as [d2 [s2 [l2 [r2 ->]]]].
      destruct (wf_node _ _ _ _ _ W1). destruct (wf_node _ _ _ _ _ W2).
      simpl in Hd. simpl. repeat apply oapp_ex; apply IH; auto; lia.
    + destruct (Ha eq_refl) as [d [s [l [r ->]]]].
      destruct (wf_node _ _ _ _ _ W1). simpl in Hd. simpl.
      apply oapp_ex; apply IH; auto; lia.
    + destruct (Hb' eq_refl) as [d2 [s2 [l2 [r2 ->]]]].
      destruct (wf_node _ _ _ _ _ W2). simpl in Hd. simpl.
      apply oapp_ex; apply IH; auto; lia.
    + destruct Hab; discriminate.
Qed.
Lemma run11_total P rev m c1 c2 : 0 <= slop_b (cbin P) -> wf m c1 -> wf m c2 ->
  exists evs, run11 P rev c1 c2 = Some evs.
Proof. intros. eapply process11_total; eauto. Qed.

Lemma process2_total P m c : 0 <= slop_b (cbin P) -> 0 <= minsep (cbin P) -> wf m c ->
  exists evs, process2 P c = Some evs.
Proof.
  intros Hb Hm. induction c as [d o|d os|d s l IHl r IHr]; intro W; simpl.
  - destruct (Req_EM_T _ 0); eauto. unfold Rleb, halfminsep.
    destruct (Rle_dec _ _); eauto. exfalso. lra.
  - destruct (Req_EM_T _ 0); eauto. unfold Rleb, halfminsep.
    destruct (Rle_dec _ _); eauto. exfalso. lra.
  - destruct (Req_EM_T _ 0); eauto. destruct (eleb_fin s _); eauto.
    destruct (wf_node _ _ _ _ _ W). repeat apply oapp_ex; auto. eapply run11_total; eauto.
Qed.

Lemma oconcat_ex {A} (l : list (option (list A))) : (forall o, In o l -> exists x, o = Some x) ->
  exists x, oconcat l = Some x.
Proof.
  induction l; simpl; intro H; eauto. apply oapp_ex; auto.
Qed.
Lemma Forall_some_map {A} (l : list (option A)) : (forall o, In o l -> exists x, o = Some x) ->
  exists x, map Some x = l.
Proof.
  induction l as [|a l IH]; simpl; intro H; [exists []; auto|].
  destruct (H a (or_introl eq_refl)) as [x ->]. destruct IH as [t <-]; auto. exists (x :: t); auto.
Qed.
Lemma crossIters_total P m cs1 cs2 : 0 <= slop_b (cbin P) -> Forall (wf m) cs1 -> Forall (wf m) cs2 ->
  exists evs, map Some evs = crossIters P cs1 cs2.
Proof.
  intros Hb H1 H2. apply Forall_some_map. unfold crossIters. intros o Ho.
  apply in_map_iff in Ho as [c1 [<- Hc1]]. apply oconcat_ex. intros o Ho.
  apply in_map_iff in Ho as [c2 [<- Hc2]]. rewrite Forall_forall in *.
  eapply run11_total; eauto.
Qed.
Lemma autoIters_total P m cs : 0 <= slop_b (cbin P) -> 0 <= minsep (cbin P) -> Forall (wf m) cs ->
  exists evs, map Some evs = autoIters P cs.
Proof.
  intros Hb Hm H. apply Forall_some_map. induction H as [|c cs Hc Hcs IH]; simpl; [tauto|].
  intros o [<-|Ho]; auto. apply oapp_ex; [eapply process2_total; eauto|].
  apply oconcat_ex. intros o Ho. apply in_map_iff in Ho as [c2 [<- Hc2]].
  rewrite Forall_forall in Hcs. eapply run11_total; eauto.
Qed.

(** ** Induction principle *)
Definition childClosed (J : cell -> Prop) : Prop :=
  forall d s l r, J (Node d s l r) -> J l /\ J r.

Lemma process11_ind P rev (J1 J2 : cell -> Prop) (Q : cell -> cell -> list event -> Prop) :
  childClosed J1 -> childClosed J2 ->
  (forall c1 c2, J1 c1 -> J2 c2 -> decide11 P c1 c2 = Drop -> Q c1 c2 []) ->
  (forall c1 c2 rsq k r lr, J1 c1 -> J2 c2 -> decide11 P c1 c2 = Direct rsq k r lr ->
     Q c1 c2 [directProcess11 P rev c1 c2 rsq k r lr]) ->
  (forall d s l r c2 ea eb, Q l c2 ea -> Q r c2 eb -> Q (Node d s l r) c2 (ea ++ eb)) ->
  (forall d s l r c1 ea eb, Q c1 l ea -> Q c1 r eb -> Q c1 (Node d s l r) (ea ++ eb)) ->
  forall fuel c1 c2 evs, J1 c1 -> J2 c2 -> process11 P rev fuel c1 c2 = Some evs -> Q c1 c2 evs.
Proof.
  intros C1 C2 HD HX H1 H2. induction fuel as [|n IH]; intros c1 c2 evs HJ1 HJ2 H; simpl in H.
  - destruct (decide11 P c1 c2) eqn:ED; try discriminate; injection H; intros; subst; auto.
  - destruct (decide11 P c1 c2) as [|rsq k r lr|a b] eqn:ED; try (injection H; intros; subst; auto; fail).
    destruct (a && b) eqn:Eab.
    + destruct c1 as [| |d s l r]; try discriminate. destruct c2 as [| |d2 s2 l2 r2]; try discriminate.
      simpl in H. destruct (C1 _ _ _ _ HJ1). destruct (C2 _ _ _ _ HJ2).
      apply oapp_some in H as [e1 [t1 [Ha [Hb ->]]]].
      apply oapp_some in Hb as [e2 [t2 [Hb [Hc ->]]]].
      apply oapp_some in Hc as [e3 [e4 [Hc [Hd ->]]]].
      rewrite app_assoc. apply H1; apply H2; apply IH; auto.
    + destruct a.
      * destruct c1 as [| |d s l r]; try discriminate. simpl in H. destruct (C1 _ _ _ _ HJ1).
        apply oapp_some in H as [e1 [t1 [Ha [Hb ->]]]]. apply H1; apply IH; auto.
      * destruct c2 as [| |d s l r]; try discriminate. simpl in H. destruct (C2 _ _ _ _ HJ2).
        apply oapp_some in H as [e1 [t1 [Ha [Hb ->]]]]. apply H2; apply IH; auto.
Qed.

(** ** Accumulation *)
Inductive afield := FNpairs | FWeight | FMeanr | FMeanlogr | FXiNK | FXiKK.
Definition aget (f : afield) (s : accum) : Z -> R :=
  match f with FNpairs => a_npairs s | FWeight => a_weight s | FMeanr => a_meanr s
             | FMeanlogr => a_meanlogr s | FXiNK => a_xi_nk s | FXiKK => a_xi_kk s end.
Definition evval (f : afield) (e : event) : R :=
  let w1 := getW (ec1 e) in let w2 := getW (ec2 e) in
  match f with
  | FNpairs => INR (getN (ec1 e)) * INR (getN (ec2 e))
  | FWeight => w1 * w2
  | FMeanr => w1 * w2 * er e
  | FMeanlogr => w1 * w2 * elogr e
  | FXiNK => w1 * dwk (getData (ec2 e))
  | FXiKK => dwk (getData (ec1 e)) * dwk (getData (ec2 e))
  end.
Definition hit (k j : Z) (v : R) : R := if (k =? j)%Z then v else 0.
Definition contrib (f : afield) (k : Z) (e : event) : R :=
  hit k (ek e) (evval f e) +
  match f, ek2 e with
  | FXiNK, _ => 0
  | _, Some k2 => hit k k2 (evval f e)
  | _, None => 0
  end.

Lemma finish_get f s e k : aget f (finishProcess s e) k = aget f s k + contrib f k e.
Proof.
  unfold contrib, hit, evval, finishProcess.
  destruct f; simpl; unfold bump2, bump; destruct (ek2 e) as [k2|];
  destruct (k =? ek e)%Z; try (destruct (k =? k2)%Z); lra.
Qed.
Lemma apply_get f s l k : aget f (applyEvents s l) k = aget f s k + sumR (contrib f k) l.
Proof.
  unfold applyEvents. revert s; induction l; intro s; simpl; [lra|].
  rewrite IHl, finish_get. lra.
Qed.
Lemma add_get f s t k : aget f (accAdd s t) k = aget f s k + aget f t k.
Proof. destruct f; reflexivity. Qed.
Lemma cleared_get f k : aget f cleared k = 0.
Proof. destruct f; reflexivity. Qed.
Lemma thread_get f iters k : aget f (threadRun iters) k = sumR (contrib f k) (concat iters).
Proof.
  unfold threadRun.
  assert (H : forall s, aget f (fold_left applyEvents iters s) k =
                        aget f s k + sumR (contrib f k) (concat iters)).
  { induction iters; intro s; simpl; [lra|]. rewrite IHiters, apply_get, sumR_app. lra. }
  rewrite H, cleared_get. lra.
Qed.
Lemma parallel_get f s0 threads k :
  aget f (parallelRun s0 threads) k = aget f s0 k + sumR (contrib f k) (concat (concat threads)).
Proof.
  unfold parallelRun. revert s0; induction threads; intro s0; simpl; [lra|].
  rewrite IHthreads, add_get, thread_get, concat_app, sumR_app. lra.
Qed.
Lemma perm_concat {A} (l l' : list (list A)) : Permutation l l' -> Permutation (concat l) (concat l').
Proof.
  induction 1; simpl; auto.
  - apply Permutation_app_head; auto.
  - rewrite !app_assoc. apply Permutation_app_tail, Permutation_app_comm.
  - eapply perm_trans; eauto.
Qed.
Lemma schedule_get f s0 evs threads k : schedule evs threads ->
  aget f (parallelRun s0 threads) k = aget f s0 k + sumR (contrib f k) (concat evs).
Proof.
  intro H. rewrite parallel_get. f_equal. apply sumR_perm. apply perm_concat. symmetry; auto.
Qed.

Lemma map_Some_inj {A} (l l' : list A) : map Some l = map Some l' -> l = l'.
Proof.
  revert l'; induction l; destruct l'; simpl; intro H; try discriminate; auto.
  injection H; intros; f_equal; auto.
Qed.
