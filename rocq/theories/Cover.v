(** Structure of a run: every pair of objects is accounted for exactly once, either by one
    accumulated cell pair or by one rejected cell pair. *)
From Coq Require Import Reals Lra Lia List ZArith Bool Permutation Psatz.
From Verif Require Import Base Geometry Tree Traverse Spec GeomFacts SumFacts TreeFacts BinFacts TravFacts.
Import ListNotations.
Open Scope R_scope.

Definition evPairs (e : event) : list (obj * obj) := pairs (objs (ec1 e)) (objs (ec2 e)).
Definition cPairs (cc : cell * cell) : list (obj * obj) := pairs (objs (fst cc)) (objs (snd cc)).

Definition directEv (P : cparams) (rev : bool) (J1 J2 : cell -> Prop) (e : event) : Prop :=
  exists a b rsq k r lr, J1 a /\ J2 b /\ decide11 P a b = Direct rsq k r lr /\
    e = directProcess11 P rev a b rsq k r lr.
Definition dropPair (P : cparams) (J1 J2 : cell -> Prop) (cc : cell * cell) : Prop :=
  J1 (fst cc) /\ J2 (snd cc) /\ decide11 P (fst cc) (snd cc) = Drop.
Definition selfDrop (P : cparams) (J : cell -> Prop) (c : cell) : Prop :=
  J c /\ (getW c = 0 \/ eleb_fin (getSize c) (halfminsep (cbin P)) = true).

Lemma direct_ec P rev c1 c2 rsq k r lr :
  ec1 (directProcess11 P rev c1 c2 rsq k r lr) = c1 /\
  ec2 (directProcess11 P rev c1 c2 rsq k r lr) = c2.
Proof.
  unfold directProcess11. destruct (if (k <? 0)%Z then _ else _) as [[? ?] ?]. auto.
Qed.
Lemma direct_ek2 P c1 c2 rsq k r lr :
  ek2 (directProcess11 P false c1 c2 rsq k r lr) = None.
Proof.
  unfold directProcess11. destruct (if (k <? 0)%Z then _ else _) as [[? ?] ?]. auto.
Qed.

Lemma directEv_mono P rev (J1 J2 K1 K2 : cell -> Prop) e :
  (forall c, J1 c -> K1 c) -> (forall c, J2 c -> K2 c) ->
  directEv P rev J1 J2 e -> directEv P rev K1 K2 e.
Proof. intros H1 H2 [a [b [rsq [k [r [lr [A [B [C D]]]]]]]]]. exists a, b, rsq, k, r, lr; auto 6. Qed.
Lemma dropPair_mono P (J1 J2 K1 K2 : cell -> Prop) cc :
  (forall c, J1 c -> K1 c) -> (forall c, J2 c -> K2 c) ->
  dropPair P J1 J2 cc -> dropPair P K1 K2 cc.
Proof. intros H1 H2 [A [B C]]. repeat split; auto. Qed.

Lemma perm_mid4 {A} (a b c d : list A) : Permutation ((a ++ b) ++ c ++ d) ((a ++ c) ++ b ++ d).
Proof.
  rewrite <- !app_assoc. apply Permutation_app_head. rewrite !app_assoc.
  apply Permutation_app_tail, Permutation_app_comm.
Qed.

Definition covers (P : cparams) (rev : bool) (J1 J2 : cell -> Prop) (l : list (obj * obj))
  (evs : list event) : Prop :=
  exists dr, Permutation l (flat_map evPairs evs ++ flat_map cPairs dr) /\
    Forall (directEv P rev J1 J2) evs /\ Forall (dropPair P J1 J2) dr.

Lemma covers_app P rev J1 J2 l l' evs evs' l'' : Permutation l'' (l ++ l') ->
  covers P rev J1 J2 l evs -> covers P rev J1 J2 l' evs' ->
  covers P rev J1 J2 l'' (evs ++ evs').
Proof.
  intros HP [d1 [H1 [E1 D1]]] [d2 [H2 [E2 D2]]]. exists (d1 ++ d2).
  split; [|split; apply Forall_app; auto].
  rewrite !flat_map_app. eapply perm_trans; [exact HP|].
  eapply perm_trans; [apply Permutation_app; eauto|]. apply perm_mid4.
Qed.
Lemma covers_nil P rev J1 J2 : covers P rev J1 J2 [] [].
Proof. exists []. repeat split; auto. Qed.
Lemma covers_mono P rev (J1 J2 K1 K2 : cell -> Prop) l evs :
  (forall c, J1 c -> K1 c) -> (forall c, J2 c -> K2 c) ->
  covers P rev J1 J2 l evs -> covers P rev K1 K2 l evs.
Proof.
  intros H1 H2 [dr [A [B C]]]. exists dr. split; auto. split.
  - eapply Forall_impl; [|exact B]. intros; eapply directEv_mono; eauto.
  - eapply Forall_impl; [|exact C]. intros; eapply dropPair_mono; eauto.
Qed.

Lemma childClosed_sub c0 : childClosed (fun c => subcell c c0).
Proof.
  intros d s l r Hs. split; eapply subcell_trans; try apply Hs; [apply sub_l|apply sub_r]; apply sub_refl.
Qed.

Lemma process11_covers P rev fuel c1 c2 evs : process11 P rev fuel c1 c2 = Some evs ->
  covers P rev (fun c => subcell c c1) (fun c => subcell c c2) (pairs (objs c1) (objs c2)) evs.
Proof.
  apply (process11_ind P rev (fun c => subcell c c1) (fun c => subcell c c2)
    (fun a b evs => covers P rev (fun c => subcell c c1) (fun c => subcell c c2)
                      (pairs (objs a) (objs b)) evs)).
  - apply childClosed_sub.
  - apply childClosed_sub.
  - intros a b Ha Hb HD. exists [(a, b)]. simpl. rewrite app_nil_r. repeat split; auto.
    constructor; auto. repeat split; auto.
  - intros a b rsq k r lr Ha Hb HD. exists []. cbn [flat_map]. rewrite !app_nil_r.
    unfold evPairs. destruct (direct_ec P rev a b rsq k r lr) as [-> ->]. split; auto.
    split; auto. constructor; auto. exists a, b, rsq, k, r, lr. auto.
  - intros d s l r c ea eb H1 H2. eapply covers_app; eauto.
    cbn [objs]. rewrite pairs_app_l. auto.
  - intros d s l r c ea eb H1 H2. eapply covers_app; eauto.
    cbn [objs]. apply pairs_app_r.
  - apply sub_refl.
  - apply sub_refl.
Qed.

Definition inTops (cs : list cell) (c : cell) : Prop := exists t, In t cs /\ subcell c t.
Definition allObjs (cs : list cell) : list obj := concat (map objs cs).

Lemma oconcat_covers P rev (c1 : cell) cs2 (J1 J2 : cell -> Prop) evs :
  (forall c, subcell c c1 -> J1 c) -> (forall c, inTops cs2 c -> J2 c) ->
  oconcat (map (run11 P rev c1) cs2) = Some evs ->
  covers P rev J1 J2 (pairs (objs c1) (allObjs cs2)) evs.
Proof.
  intros H1. revert evs. induction cs2 as [|c cs IH]; intros evs H2 H; simpl in H.
  - injection H; intros; subst. unfold allObjs; simpl. rewrite pairs_nil_r. apply covers_nil.
  - apply oapp_some in H as [u [v [Hu [Hv ->]]]].
    eapply covers_app with (l := pairs (objs c1) (objs c)) (l' := pairs (objs c1) (allObjs cs)).
    + apply pairs_app_r.
    + apply process11_covers in Hu. eapply covers_mono; [| |exact Hu]; auto.
      intros c' Hc'. apply H2. exists c; split; [left; auto|auto].
    + apply IH; auto. intros c' [t [Ht Hs]]. apply H2. exists t; split; [right; auto|auto].
Qed.

Lemma cross_covers P cs1 cs2 evs : map Some evs = crossIters P cs1 cs2 ->
  covers P false (inTops cs1) (inTops cs2) (pairs (allObjs cs1) (allObjs cs2)) (concat evs).
Proof.
  assert (HG : forall l evs, (forall c, In c l -> In c cs1) -> map Some evs = crossIters P l cs2 ->
     covers P false (inTops cs1) (inTops cs2) (pairs (allObjs l) (allObjs cs2)) (concat evs)).
  { induction l as [|c l IH]; intros ev Hl H; destruct ev as [|e ev]; simpl in H; try discriminate.
    - apply covers_nil.
    - injection H; intros Ht He. simpl.
      eapply covers_app with (l := pairs (objs c) (allObjs cs2)) (l' := pairs (allObjs l) (allObjs cs2)).
      + unfold allObjs at 1; simpl. rewrite pairs_app_l. auto.
      + eapply oconcat_covers; [| |symmetry; exact He]; auto.
        intros c' Hc'. exists c; split; auto. apply Hl; left; auto.
      + apply IH; auto. intros; apply Hl; right; auto. }
  intro H; apply HG; auto.
Qed.

(** Auto-correlation *)
Definition autoCovers (P : cparams) (J : cell -> Prop) (l : list (obj * obj))
  (evs : list event) : Prop :=
  exists dr ds, Permutation l (flat_map evPairs evs ++ flat_map cPairs dr ++
                               flat_map (fun c => upairs (objs c)) ds) /\
    Forall (directEv P (do_reverse (cbin P)) J J) evs /\ Forall (dropPair P J J) dr /\
    Forall (selfDrop P J) ds.

Lemma autoCovers_app P J l l' evs evs' l'' : Permutation l'' (l ++ l') ->
  autoCovers P J l evs -> autoCovers P J l' evs' -> autoCovers P J l'' (evs ++ evs').
Proof.
  intros HP [d1 [s1 [H1 [E1 [D1 S1]]]]] [d2 [s2 [H2 [E2 [D2 S2]]]]]. exists (d1 ++ d2), (s1 ++ s2).
  split; [|repeat split; apply Forall_app; auto].
  rewrite !flat_map_app. eapply perm_trans; [exact HP|].
  eapply perm_trans; [apply Permutation_app; eauto|].
  eapply perm_trans; [apply perm_mid4|]. apply Permutation_app_head. apply perm_mid4.
Qed.
Lemma autoCovers_cross P J l evs :
  covers P (do_reverse (cbin P)) J J l evs -> autoCovers P J l evs.
Proof.
  intros [dr [A [B C]]]. exists dr, []. simpl. rewrite app_nil_r. auto.
Qed.
Lemma autoCovers_mono P (J K : cell -> Prop) l evs : (forall c, J c -> K c) ->
  autoCovers P J l evs -> autoCovers P K l evs.
Proof.
  intros H [dr [ds [A [B [C D]]]]]. exists dr, ds. split; auto. repeat split.
  - eapply Forall_impl; [|exact B]. intros; eapply directEv_mono; eauto.
  - eapply Forall_impl; [|exact C]. intros; eapply dropPair_mono; eauto.
  - eapply Forall_impl; [|exact D]. intros c [? ?]; split; auto.
Qed.

Lemma process2_covers P c evs : process2 P c = Some evs ->
  autoCovers P (fun x => subcell x c) (upairs (objs c)) evs.
Proof.
  assert (HD : forall c, (getW c = 0 \/ eleb_fin (getSize c) (halfminsep (cbin P)) = true) ->
     autoCovers P (fun x => subcell x c) (upairs (objs c)) []).
  { intros c0 H. exists [], [c0]. simpl. rewrite app_nil_r. repeat split; auto.
    constructor; auto. split; auto. apply sub_refl. }
  revert evs. induction c as [d o|d os|d s l IHl r IHr]; intros evs H; cbn [process2] in H.
  - destruct (Req_EM_T _ 0).
    + injection H; intros; subst. apply HD; auto.
    + destruct (eleb_fin _ _) eqn:E; [|discriminate]. injection H; intros; subst. apply HD; auto.
  - destruct (Req_EM_T _ 0).
    + injection H; intros; subst. apply HD; auto.
    + destruct (eleb_fin _ _) eqn:E; [|discriminate]. injection H; intros; subst. apply HD; auto.
  - destruct (Req_EM_T _ 0); [injection H; intros; subst; apply HD; auto|].
    destruct (eleb_fin _ _) eqn:E; [injection H; intros; subst; apply HD; auto|].
    apply oapp_some in H as [u [v [Hu [Hv ->]]]].
    apply oapp_some in Hv as [v1 [v2 [Hv1 [Hv2 ->]]]].
    eapply autoCovers_app; [cbn [objs]; apply upairs_app| |].
    + eapply autoCovers_mono; [|apply IHl; eauto]. intros; apply sub_l; auto.
    + eapply autoCovers_app; [apply Permutation_refl| |].
      * eapply autoCovers_mono; [|apply IHr; eauto]. intros; apply sub_r; auto.
      * apply autoCovers_cross. eapply covers_mono; [| |eapply process11_covers; eauto].
        -- intros; apply sub_l; auto.
        -- intros; apply sub_r; auto.
Qed.

Lemma auto_covers P cs evs : map Some evs = autoIters P cs ->
  autoCovers P (inTops cs) (upairs (allObjs cs)) (concat evs).
Proof.
  revert evs. induction cs as [|c cs IH]; intros ev H; destruct ev as [|e ev]; simpl in H; try discriminate.
  - exists [], []. repeat split; simpl; auto.
  - injection H; intros Ht He. simpl.
    symmetry in He. apply oapp_some in He as [u [v [Hu [Hv ->]]]].
    eapply autoCovers_app with (l := upairs (objs c) ++ pairs (objs c) (allObjs cs))
        (l' := upairs (allObjs cs)).
    + unfold allObjs; simpl. eapply perm_trans; [apply upairs_app|].
      rewrite <- app_assoc. apply Permutation_app_head, Permutation_app_comm.
    + eapply autoCovers_app; [apply Permutation_refl| |].
      * eapply autoCovers_mono; [|apply process2_covers; eauto].
        intros x Hx. exists c; split; [left; auto|auto].
      * apply autoCovers_cross. eapply oconcat_covers; [| |eauto].
        -- intros x Hx. exists c; split; [left; auto|auto].
        -- intros x [t [Hin Hx]]. exists t; split; [right; auto|auto].
    + eapply autoCovers_mono; [|apply IH; eauto].
      intros x [t [Hin Hx]]. exists t; split; [right; auto|auto].
Qed.

Lemma subcell_objs c0 c o : subcell c c0 -> In o (objs c) -> In o (objs c0).
Proof. intro Hs. induction Hs; simpl; auto; intro Ho; apply in_or_app; auto. Qed.
Lemma inTops_objs cs c o : inTops cs c -> In o (objs c) -> In o (allObjs cs).
Proof.
  intros [t [Ht Hs]] Ho. unfold allObjs. apply in_concat. exists (objs t). split.
  - apply in_map; auto.
  - eapply subcell_objs; eauto.
Qed.
Lemma inTops_wf m cs c : Forall (wf m) cs -> inTops cs c -> okcell m c.
Proof. intros H [t [Ht Hs]]. rewrite Forall_forall in H. apply (H t Ht); auto. Qed.
Lemma inTops_brute cs c : Forall bruteTree cs -> inTops cs c -> bruteTree c.
Proof.
  intros H [t [Ht Hs]]. rewrite Forall_forall in H. intros c' Hc'. apply (H t Ht).
  eapply subcell_trans; eauto.
Qed.

(** Sums over a covering. *)
Lemma sumR_flat_map {A B} (f : B -> R) (g : A -> list B) l :
  sumR f (flat_map g l) = sumR (fun a => sumR f (g a)) l.
Proof. induction l; simpl; auto. rewrite sumR_app, IHl; auto. Qed.

Lemma covers_sum P rev J1 J2 l evs (g : obj * obj -> R) (h : event -> R) :
  covers P rev J1 J2 l evs ->
  (forall e, directEv P rev J1 J2 e -> sumR g (evPairs e) = h e) ->
  (forall cc, dropPair P J1 J2 cc -> sumR g (cPairs cc) = 0) ->
  sumR g l = sumR h evs.
Proof.
  intros [dr [HP [HE HD]]] He Hd. rewrite (sumR_perm g _ _ HP), sumR_app, !sumR_flat_map.
  rewrite (sumR_0 _ dr).
  - rewrite Rplus_0_r. apply sumR_ext. intros e Hin. apply He. rewrite Forall_forall in HE. auto.
  - intros cc Hin. apply Hd. rewrite Forall_forall in HD. auto.
Qed.
Lemma autoCovers_sum P J l evs (g : obj * obj -> R) (h : event -> R) :
  autoCovers P J l evs ->
  (forall e, directEv P (do_reverse (cbin P)) J J e -> sumR g (evPairs e) = h e) ->
  (forall cc, dropPair P J J cc -> sumR g (cPairs cc) = 0) ->
  (forall c, selfDrop P J c -> sumR g (upairs (objs c)) = 0) ->
  sumR g l = sumR h evs.
Proof.
  intros [dr [ds [HP [HE [HD HS]]]]] He Hd Hs.
  rewrite (sumR_perm g _ _ HP), !sumR_app, !sumR_flat_map.
  rewrite (sumR_0 _ dr), (sumR_0 _ ds).
  - rewrite !Rplus_0_r. apply sumR_ext. intros e Hin. apply He. rewrite Forall_forall in HE. auto.
  - intros cc Hin. apply Hs. rewrite Forall_forall in HS. auto.
  - intros cc Hin. apply Hd. rewrite Forall_forall in HD. auto.
Qed.
