(** The multipole traversal ends and dereferences no null child. *)
From Coq Require Import Reals Lra Lia List ZArith Bool Permutation Psatz.
From Verif Require Import Base Geometry Tree Traverse Spin Run Corr3 Spec SpecRun GeomFacts SumFacts TreeFacts
  BinFacts TravFacts Exact MetricFacts Cover Lift Runs
  Multi SpecMulti MultiFacts MultiFacts2 MultiIdx MultiTot MultiCV MultiVal MultiRun.
Import ListNotations.
Open Scope R_scope.

Lemma ncells_pos c : (1 <= ncells c)%nat. Proof. destruct c; simpl; lia. Qed.
Lemma ncellsL_cons c l : ncellsL (c :: l) = (ncells c + ncellsL l)%nat. Proof. reflexivity. Qed.
Lemma ncellsL_app l m : ncellsL (l ++ m) = (ncellsL l + ncellsL m)%nat.
Proof. unfold ncellsL. rewrite map_app, list_sum_app. auto. Qed.

(** Sizes: all internal cells finite, or all infinite. *)
Definition finTree (c : cell) : Prop := forall c', subcell c' c -> getSize c' <> Inf.
Definition tree0 (m : R) (c : cell) : Prop := wf m c /\ (bruteTree c \/ finTree c).
Lemma tree0_closed m : childClosed (tree0 m).
Proof.
  intros d s l r [HW HT]. destruct (wf_node _ _ _ _ _ HW) as [Wl Wr].
  split; (split; [assumption|]); (destruct HT as [HT|HT]; [left|right]).
  - apply (brute_node _ _ _ _ HT).
  - intros c' Hc. apply HT. apply sub_l; auto.
  - apply (brute_node _ _ _ _ HT).
  - intros c' Hc. apply HT. apply sub_r; auto.
Qed.
Lemma tree0_fin m d s l r : tree0 m (Node d s l r) -> s <> Inf -> getSize l <> Inf /\ getSize r <> Inf.
Proof.
  intros [_ [HT|HT]] Hs.
  - apply brute_node in HT as [E _]. contradiction.
  - split; apply HT; [apply sub_l|apply sub_r]; apply sub_refl.
Qed.
Lemma builds_fin c sm m l t : builds c sm m false l t -> finTree t.
Proof.
  induction 1; intros c' Hs; inversion Hs; subst; simpl; try discriminate; auto.
Qed.
Lemma buildField_tree0 F cat cs : 0 <= fminsize F -> buildField F cat cs -> Forall (tree0 (fminsize F)) cs.
Proof.
  intros Hm H. pose proof (buildField_wf F cat cs Hm H) as HW.
  assert (HT : Forall (fun c => bruteTree c \/ finTree c) cs).
  { destruct (fbrute F) eqn:Eb.
    - eapply Forall_impl; [|exact (buildField_brute F cat cs Eb H)]. intros; left; auto.
    - destruct H as [g [Hg Hf]]. rewrite Eb in Hf. clear Hg HW. induction Hf; constructor; auto.
      right. eapply builds_fin; eauto. }
  rewrite Forall_forall in *. intros c Hc. split; auto.
Qed.

Section Term.
Variable P : cparams.
Hypothesis HM : plainM (cmetric P).
Hypothesis HR : crpar P = None.
Hypothesis HB : validB (cbin P).
Hypothesis HT : btype (cbin P) = BLog.
Variable m : R.
Let ok c (H : tree0 m c) : okcell m c := wf_ok _ _ (proj1 H).

Lemma splitGn_total c1 prev : tree0 m c1 -> forall l, (forall c, In c l -> tree0 m c) ->
  exists g, splitGn P c1 (getSize c1) l prev = Some g /\
    (forall c, In c (nList g) -> tree0 m c) /\
    (ncellsL (nList g) <= ncellsL l)%nat /\
    (nAny g = true -> exists d s a b, c1 = Node d s a b) /\
    (ncellsL (nList g) = ncellsL l -> nList g = l /\
       (nAny g = false -> forall c2 rt, In c2 l -> gcase P c1 c2 = GKeep true false rt ->
          gtThresh (cbin P) rt prev = false) /\
       (getSize c1 <> Inf -> l <> [] ->
          exists t c2, nMax g = Fin t /\ 0 < t /\ In c2 l /\ gcase P c1 c2 = GKeep true false (Fin t))).
Proof.
  intros T1. induction l as [|c2 t IH]; intros Hl.
  - eexists; split; [reflexivity|]. cbn [nList nAny].
    split; [auto|]. split; [auto|]. split; [discriminate|]. intros _. split; auto. split; [intros _ c2 rt []|congruence].
  - destruct IH as [g [EG [HK [HN [HA HQ]]]]]; [intros; apply Hl; right; auto|].
    assert (T2 : tree0 m c2) by (apply Hl; left; auto).
    pose proof (ncells_pos c2) as Hp.
    rewrite splitGn_cons, EG by auto. destruct (gcase P c1 c2) as [|k r lr|a b rt] eqn:EC.
    + exists g. split; auto. split; auto. rewrite ncellsL_cons. split; [lia|]. split; auto. intro; exfalso; lia.
    + eexists; split; [reflexivity|]. cbn [nList nAny]. rewrite ncellsL_cons. split; auto.
      split; [lia|]. split; auto. intro; exfalso; lia.
    + destruct (gkeep_split P HM HR HB HT m c1 c2 a b rt (ok _ T1) (ok _ T2) EC) as [Ka [Kb [Kab Kt]]].
      assert (HKept : exists new, kept b c2 = Some new /\ (forall c, In c new -> tree0 m c) /\
        (ncellsL new <= ncells c2)%nat /\ (ncellsL new = ncells c2 -> b = false /\ new = [c2])).
      { destruct b; cbn [kept].
        - destruct (Kb eq_refl) as [d [s [x [y ->]]]]. exists [x; y]. split; auto.
          destruct (tree0_closed m d s x y T2) as [Tx Ty]. split; [intros c [<-|[<-|[]]]; auto|].
          unfold ncellsL. simpl. split; [lia|]. intro; exfalso; lia.
        - exists [c2]. split; auto. split; [intros c [<-|[]]; auto|]. unfold ncellsL. simpl. split; [lia|auto]. }
      destruct HKept as [new [-> [HK' [HN' HQ']]]].
      eexists; split; [reflexivity|]. cbn [nList nAny nMax]. rewrite ncellsL_app, ncellsL_cons.
      split; [intros c Hc; apply in_app_or in Hc as [Hc|Hc]; auto|].
      split; [lia|]. split.
      { intro Hany. apply orb_true_iff in Hany as [Hany|Hany]; auto. apply andb_true_iff in Hany as [-> _]. auto. }
      intro Heq. destruct (HQ' ltac:(lia)) as [-> ->]. destruct (HQ ltac:(lia)) as [-> [HQ1 HQ2]].
      split; auto. assert (Ea : a = true) by (destruct Kab; congruence). subst a.
      split.
      { intros Hany c0 rt0 [<-|Hc] E0.
        - rewrite EC in E0. injection E0; intros <-. apply orb_false_iff in Hany as [Hany _]. exact Hany.
        - apply orb_false_iff in Hany as [_ Hany]. eauto. }
      intros Hf _.
      assert (exists u, rt = Fin u) as [u ->].
      { destruct rt as [u|]; [eauto|]. exfalso. unfold gcase in EC.
        destruct (isRParOutsideRange _ _ _ _ _); [discriminate|].
        destruct (tooSmallDist _ _ _ && _); [discriminate|].
        destruct (tooLargeDist _ _ _ && _); [discriminate|].
        destruct (if isRParInsideRange _ _ _ _ _ then _ else _) as [[[k r] lr]|].
        { destruct (isRSqInRange _ _ _ _); [destruct (k <? 0)%Z|]; discriminate. }
        destruct (calcSplitSq (getSize c1) (getSize c2) _) as [x y] eqn:ES.
        injection EC; intros E3 Ey Ex. subst x y.
        destruct (getSize c1) as [x|]; [|congruence].
        destruct (getSize c2) as [y|]; [simpl in E3; discriminate|].
        unfold calcSplitSq in ES. cbn [eltb] in ES. unfold calcSplitSq_ordered in ES. cbn [eltb escale] in ES.
        injection ES; intros; discriminate. }
      pose proof (Kt u eq_refl) as Hu.
      destruct t as [|c3 t'].
      * assert (E : splitGn P c1 (getSize c1) [] prev = Some (mkGn [] false [] (Fin 0))) by reflexivity.
        rewrite E in EG. injection EG; intros <-. cbn [nMax emax].
        exists u, c2. rewrite Rmax_left by lra. repeat split; auto. left; auto.
      * destruct (HQ2 Hf ltac:(discriminate)) as [v [c0 [Ev [Hv [Hc0 E0]]]]]. rewrite Ev. cbn [emax].
        destruct (Rle_dec u v).
        -- exists v, c0. rewrite Rmax_right by lra. repeat split; auto. right; auto.
        -- exists u, c2. rewrite Rmax_left by lra. repeat split; auto. left; auto.
Qed.

Lemma thresh_self t : 0 < t -> gtThresh (cbin P) (Fin t) (Fin t) = true.
Proof.
  intro H. unfold gtThresh, Rltb. destruct Rlt_dec as [|n]; auto. exfalso. apply n.
  pose proof (vb_binsize _ HB). nra.
Qed.

Definition ripe (c1 : cell) (l : list cell) (prev : ext) : Prop :=
  exists t c2, prev = Fin t /\ 0 < t /\ In c2 l /\ gcase P c1 c2 = GKeep true false (Fin t).

Lemma oapp_some' {A} (x y : option (list A)) : (exists u, x = Some u) -> (exists v, y = Some v) ->
  exists w, oapp x y = Some w.
Proof. intros [u ->] [v ->]. simpl. eauto. Qed.

Lemma mfinish_total : forall fuel c1 l mp mink maxr,
  tree0 m c1 -> getSize c1 <> Inf -> (forall c, In c l -> tree0 m c) ->
  (2 * (ncells c1 + ncellsL l) <= fuel \/
   ripe c1 l maxr /\ 2 * (ncells c1 + ncellsL l) <= S fuel)%nat ->
  exists zs, mfinish P fuel c1 l mp mink maxr = Some zs.
Proof.
  induction fuel as [|n IH]; intros c1 l mp mink maxr T1 Hf Hl HF.
  - exfalso. pose proof (ncells_pos c1). lia.
  - cbn [mfinish].
    destruct (splitGn_total c1 maxr T1 l Hl) as [g [-> [HK [HN [HA HQ]]]]].
    destruct (nList g) as [|c0 t0] eqn:EL; [eauto|].
    assert (HNe : nList g <> []) by (rewrite EL; discriminate). rewrite <- EL in *. clear c0 t0 EL.
    match goal with |- context [match ?e with Some k => ([_], k) | None => _ end] =>
      destruct (match e with Some k => ([mkZ c1 (mp ++ nEv g) k mink], k) | None => ([], mink) end) as [zs mink'] end.
    apply oapp_some'; [eauto|].
    pose proof (ncells_pos c1) as Hp.
    destruct (nAny g) eqn:EA.
    + destruct (HA eq_refl) as [d [s [a [b ->]]]].
      destruct (tree0_closed m d s a b T1) as [Ta Tb].
      destruct (tree0_fin m d s a b T1 Hf) as [Fa Fb]. cbn [ncells] in HF.
      apply oapp_some'; apply IH; auto; left; lia.
    + apply IH; auto.
      destruct (Nat.eq_dec (ncellsL (nList g)) (ncellsL l)) as [Eq|Ne]; [|left; lia].
      destruct (HQ Eq) as [El [Q1 Q2]]. specialize (Q1 eq_refl).
      destruct HF as [HF|[[t [c2 [Em [Ht [Hc Ec]]]]] HF]].
      * destruct l as [|c0 l0].
        { contradiction. }
        right. rewrite El. split; [|lia]. destruct (Q2 Hf ltac:(discriminate)) as [t [c2 [A1 [A2 [A3 A4]]]]].
        exists t, c2. auto.
      * exfalso. specialize (Q1 c2 (Fin t) Hc Ec). rewrite Em, thresh_self in Q1 by auto. discriminate.
Qed.
Lemma splitC2_total c1 : tree0 m c1 -> forall l, (forall c, In c l -> tree0 m c) ->
  exists new, splitC2 P c1 (getSize c1) l = Some new /\ (forall c, In c new -> tree0 m c).
Proof.
  intros T1. induction l as [|c2 t IH]; intros Hl.
  - exists []. split; auto.
  - destruct IH as [new [E HK]]; [intros; apply Hl; right; auto|].
    assert (T2 : tree0 m c2) by (apply Hl; left; auto).
    cbn [splitC2]. rewrite HM, E.
    destruct (isRParOutsideRange _ _ _ _ _); [eauto|].
    destruct (tooSmallDist _ _ _ && _); [eauto|].
    destruct (tooLargeDist _ _ _ && _); [eauto|].
    match goal with |- context [if ?b then _ else _] => destruct b eqn:ES end.
    + apply andb_true_iff in ES as [_ ES].
      pose proof (size_nonneg _ _ (ok _ T1)) as S1.
      destruct c2 as [d o|d os|d s x y].
      * exfalso. simpl in ES. destruct (getSize c1); simpl in *; [|discriminate].
        unfold Rltb in ES. destruct Rlt_dec; [lra|discriminate].
      * exfalso. simpl in ES. destruct (getSize c1); simpl in *; [|discriminate].
        unfold Rltb in ES. destruct Rlt_dec; [lra|discriminate].
      * simpl. eexists; split; [reflexivity|]. destruct (tree0_closed m d s x y T2) as [Tx Ty].
        intros c [<-|[<-|Hc]]; auto.
    + simpl. eexists; split; [reflexivity|]. intros c [<-|Hc]; auto.
Qed.
Lemma bsq_max_nonneg : 0 <= getEffectiveBSq (cbin P) (maxsep (cbin P) * maxsep (cbin P)).
Proof. apply bsq_nonneg; auto. nra. Qed.
Lemma stillTooBig_node c : tree0 m c -> stillTooBig P c = true -> exists d s a b, c = Node d s a b.
Proof.
  intros T H. destruct c as [d o|d os|d s x y]; eauto; exfalso; unfold stillTooBig in H; simpl in H;
    unfold Rltb in H; pose proof bsq_max_nonneg; destruct Rlt_dec; try discriminate; lra.
Qed.
Lemma stillTooBig_fin c : stillTooBig P c = false -> getSize c <> Inf.
Proof. intros H E. unfold stillTooBig in H. rewrite E in H. discriminate. Qed.

Lemma msplit1_total : forall c1 l, tree0 m c1 -> (forall c, In c l -> tree0 m c) ->
  exists zs, msplit1 P c1 l = Some zs.
Proof.
  assert (HF : forall c1 new, tree0 m c1 -> stillTooBig P c1 = false -> (forall c, In c new -> tree0 m c) ->
    exists zs, mfinish P (2 * (ncells c1 + ncellsL new)) c1 new [] (nbins (cbin P)) (Fin 0) = Some zs).
  { intros c1 new T1 Es Hn. apply mfinish_total; auto. apply stillTooBig_fin; auto. }
  induction c1 as [d o|d os|d s x IHx y IHy]; intros l T1 Hl; cbn [msplit1];
    destruct (splitC2_total _ T1 l Hl) as [new [-> Hn]];
    match goal with |- context [stillTooBig P ?c] => destruct (stillTooBig P c) eqn:ES end; auto.
  - destruct (stillTooBig_node _ T1 ES) as [? [? [? [? E]]]]. discriminate.
  - destruct (stillTooBig_node _ T1 ES) as [? [? [? [? E]]]]. discriminate.
  - destruct (tree0_closed m d s x y T1) as [Tx Ty]. apply oapp_some'; auto.
Qed.

(** Two lists *)
Lemma mfinish2_total : forall fuel c1 l2 l3 mp2 mp3 mink maxr2 maxr3,
  tree0 m c1 -> getSize c1 <> Inf -> (forall c, In c l2 -> tree0 m c) -> (forall c, In c l3 -> tree0 m c) ->
  (2 * (ncells c1 + ncellsL l2 + ncellsL l3) <= fuel \/
   (ripe c1 l2 maxr2 \/ ripe c1 l3 maxr3) /\ 2 * (ncells c1 + ncellsL l2 + ncellsL l3) <= S fuel)%nat ->
  exists zs, mfinish2 P fuel c1 l2 l3 mp2 mp3 mink maxr2 maxr3 = Some zs.
Proof.
  induction fuel as [|n IH]; intros c1 l2 l3 mp2 mp3 mink maxr2 maxr3 T1 Hf Hl2 Hl3 HF.
  - exfalso. pose proof (ncells_pos c1). lia.
  - cbn [mfinish2].
    destruct (splitGn_total c1 maxr2 T1 l2 Hl2) as [g [-> [HK [HN [HA HQ]]]]].
    destruct (splitGn_total c1 maxr3 T1 l3 Hl3) as [h [-> [HK' [HN' [HA' HQ']]]]].
    assert (HG : exists zs, (let '(zs, mink') :=
       match early (cbin P) (getPos c1) (emax (nMax g) (nMax h)) mink with
       | Some k => ([mkZ2 c1 (mp2 ++ nEv g) (mp3 ++ nEv h) k mink], k) | None => ([], mink) end in
       oapp (Some zs)
                (if nAny g || nAny h
                 then match c1 with
                      | Node _ _ a b =>
                          oapp (mfinish2 P n a (nList g) (nList h) (mp2 ++ nEv g) (mp3 ++ nEv h) mink' (nMax g) (nMax h))
                               (mfinish2 P n b (nList g) (nList h) (mp2 ++ nEv g) (mp3 ++ nEv h) mink' (nMax g) (nMax h))
                      | _ => None
                      end
                 else mfinish2 P n c1 (nList g) (nList h) (mp2 ++ nEv g) (mp3 ++ nEv h) mink' (nMax g) (nMax h))) = Some zs
       \/ nList g = [] /\ nList h = []).
    { assert (D : nList g = [] /\ nList h = [] \/ (nList g <> [] \/ nList h <> []))
        by (destruct (nList g), (nList h); auto; right; first [left; discriminate|right; discriminate]).
      destruct D as [D|D]; [exists []; right; auto|].
      match goal with |- context [match ?e with Some k => ([_], k) | None => _ end] =>
        destruct (match e with Some k => ([mkZ2 c1 (mp2 ++ nEv g) (mp3 ++ nEv h) k mink], k) | None => ([], mink) end) as [zs mink'] end.
      assert (HX : exists w, oapp (Some zs)
                (if nAny g || nAny h
                 then match c1 with
                      | Node _ _ a b =>
                          oapp (mfinish2 P n a (nList g) (nList h) (mp2 ++ nEv g) (mp3 ++ nEv h) mink' (nMax g) (nMax h))
                               (mfinish2 P n b (nList g) (nList h) (mp2 ++ nEv g) (mp3 ++ nEv h) mink' (nMax g) (nMax h))
                      | _ => None
                      end
                 else mfinish2 P n c1 (nList g) (nList h) (mp2 ++ nEv g) (mp3 ++ nEv h) mink' (nMax g) (nMax h)) = Some w);
        [|destruct HX as [w Hw]; exists w; left; exact Hw].
      apply oapp_some'; [eauto|]. pose proof (ncells_pos c1) as Hp.
      destruct (nAny g || nAny h) eqn:EA.
      { assert (exists d s a b, c1 = Node d s a b) as [d [s [a [b ->]]]]
             by (apply orb_true_iff in EA as [EA|EA]; auto).
        destruct (tree0_closed m d s a b T1) as [Ta Tb].
        destruct (tree0_fin m d s a b T1 Hf) as [Fa Fb]; cbn [ncells] in HF.
        apply oapp_some'; apply IH; auto; left; lia. }
      apply orb_false_iff in EA as [EA EA']; apply IH; auto.
      destruct (Nat.eq_dec (ncellsL (nList g)) (ncellsL l2)) as [Eq|Ne]; [|left; lia].
      destruct (Nat.eq_dec (ncellsL (nList h)) (ncellsL l3)) as [Eq'|Ne']; [|left; lia].
      destruct (HQ Eq) as [El [Q1 Q2]]; specialize (Q1 EA); destruct (HQ' Eq') as [El' [Q1' Q2']]; specialize (Q1' EA').
      destruct HF as [HF|[[[t [c2 [Em [Ht [Hc Ec]]]]]|[t [c2 [Em [Ht [Hc Ec]]]]]] HF]];
        [|exfalso; specialize (Q1 c2 (Fin t) Hc Ec); rewrite Em, thresh_self in Q1 by auto; discriminate
         |exfalso; specialize (Q1' c2 (Fin t) Hc Ec); rewrite Em, thresh_self in Q1' by auto; discriminate].
      rewrite El, El'. right; split; [|lia]. rewrite El, El' in D.
      destruct D as [D|D]; [left|right].
      - destruct (Q2 Hf D) as [t [c2 [A1 [A2 [A3 A4]]]]]; exists t, c2; auto.
      - destruct (Q2' Hf D) as [t [c2 [A1 [A2 [A3 A4]]]]]; exists t, c2; auto. }
    destruct HG as [zs [HG|[E1 E2]]].
    + destruct (nList g); [destruct (nList h)|]; eauto.
    + rewrite E1, E2. eauto.
Qed.
Lemma msplit2_total : forall c1 l2 l3, tree0 m c1 -> (forall c, In c l2 -> tree0 m c) ->
  (forall c, In c l3 -> tree0 m c) -> exists zs, msplit2 P c1 l2 l3 = Some zs.
Proof.
  assert (HF : forall c1 new2 new3, tree0 m c1 -> stillTooBig P c1 = false ->
    (forall c, In c new2 -> tree0 m c) -> (forall c, In c new3 -> tree0 m c) ->
    exists zs, mfinish2 P (2 * (ncells c1 + ncellsL new2 + ncellsL new3)) c1 new2 new3 [] []
      (nbins (cbin P)) (Fin 0) (Fin 0) = Some zs).
  { intros c1 new2 new3 T1 Es Hn Hn'. apply mfinish2_total; auto. apply stillTooBig_fin; auto. }
  induction c1 as [d o|d os|d s x IHx y IHy]; intros l2 l3 T1 Hl2 Hl3; cbn [msplit2];
    destruct (splitC2_total _ T1 l2 Hl2) as [new2 [-> Hn2]];
    destruct (splitC2_total _ T1 l3 Hl3) as [new3 [-> Hn3]];
    match goal with |- context [stillTooBig P ?c] => destruct (stillTooBig P c) eqn:ES end; auto.
  - destruct (stillTooBig_node _ T1 ES) as [? [? [? [? E]]]]. discriminate.
  - destruct (stillTooBig_node _ T1 ES) as [? [? [? [? E]]]]. discriminate.
  - destruct (tree0_closed m d s x y T1) as [Tx Ty]. apply oapp_some'; auto.
Qed.
End Term.
