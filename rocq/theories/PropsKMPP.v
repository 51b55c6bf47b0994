(** Property C58: random and k-means++ starting centres. *)
From Coq Require Import Reals Lra Lia List ZArith Bool Permutation.
From Verif Require Import Base Geometry Tree Traverse Run Sampler SamplerFacts SumFacts GeomFacts TreeFacts KMeans KMeansFacts KMPP PropsKM.
Import ListNotations.
Open Scope R_scope.

Lemma posEq_true p q : posEq p q = true <-> p = q.
Proof.
  unfold posEq. destruct p as [x y z], q as [x' y' z']. cbn [px py pz].
  destruct (Req_EM_T x x'); [destruct (Req_EM_T y y'); [destruct (Req_EM_T z z')|]|]; split; intros H; try discriminate; try congruence.
Qed.
Lemma normSq_nonneg p : 0 <= normSq p. Proof. unfold normSq. nra. Qed.
Lemma normSq_sub_0 p q : normSq (psub p q) = 0 <-> p = q.
Proof.
  split.
  - intros H. unfold normSq, psub in H. cbn in H. destruct p as [x y z], q as [x' y' z']. cbn in H.
    pose proof (Rle_0_sqr (x - x')) as A. pose proof (Rle_0_sqr (y - y')) as B. pose proof (Rle_0_sqr (z - z')) as C. unfold Rsqr in *.
    assert (A' : x - x' = 0) by (apply Rsqr_0_uniq; unfold Rsqr; lra). assert (B' : y - y' = 0) by (apply Rsqr_0_uniq; unfold Rsqr; lra).
    assert (C' : z - z' = 0) by (apply Rsqr_0_uniq; unfold Rsqr; lra). f_equal; lra.
  - intros ->. unfold normSq, psub. cbn. lra.
Qed.
Lemma minTo_gen cs p : forall l m0, 0 <= m0 -> let m := fold_left (fun m j => if Rlt_dec (dsqTo cs p j) m then dsqTo cs p j else m) l m0 in
  0 <= m /\ (m = 0 <-> m0 = 0 \/ exists j, In j l /\ dsqTo cs p j = 0).
Proof.
  induction l as [|a l IH]; intros m0 H0; cbn [fold_left].
  - cbn. split; auto. split; [auto|]. intros [H|(j & [] & _)]. auto.
  - assert (Ha : 0 <= dsqTo cs p a) by apply normSq_nonneg.
    destruct (Rlt_dec (dsqTo cs p a) m0) as [L|L].
    + destruct (IH (dsqTo cs p a) Ha) as (H1 & H2). cbn zeta in *. split; auto. rewrite H2. split.
      * intros [H|(j & Hj & E)]; right; [exists a; split; [left; auto|auto]|exists j; split; [right; auto|auto]].
      * intros [H|(j & [->|Hj] & E)]; [lra|left; auto|right; exists j; auto].
    + destruct (IH m0 H0) as (H1 & H2). cbn zeta in *. split; auto. rewrite H2. split.
      * intros [H|(j & Hj & E)]; [left; auto|right; exists j; split; [right; auto|auto]].
      * intros [H|(j & [->|Hj] & E)]; [left; auto|left; lra|right; exists j; auto].
Qed.
Lemma minTo_nonneg cs n p : 0 <= minTo cs n p.
Proof. unfold minTo. apply minTo_gen. apply normSq_nonneg. Qed.
Lemma minTo_zero cs n p : (1 <= n)%nat -> (minTo cs n p = 0 <-> exists j, (j < n)%nat /\ p = cen cs j).
Proof.
  intros Hn. unfold minTo. rewrite (proj2 (minTo_gen cs p (seq 1 (n - 1)) (dsqTo cs p 0) (normSq_nonneg _))). unfold dsqTo. split.
  - intros [H|(j & Hj & H)]; apply normSq_sub_0 in H; [exists 0%nat; split; [lia|auto]|]. apply in_seq in Hj. exists j. split; [lia|auto].
  - intros (j & Hj & ->). destruct j; [left; apply normSq_sub_0; auto|right]. exists (S j). split; [apply in_seq; lia|apply normSq_sub_0; auto].
Qed.
Lemma usedPos_true cs n p : usedPos cs n p = true <-> exists j, (j < n)%nat /\ p = cen cs j.
Proof.
  unfold usedPos. rewrite existsb_exists. split.
  - intros (j & Hj & H). apply in_seq in Hj. apply posEq_true in H. exists j. split; [lia|auto].
  - intros (j & Hj & H). exists j. split; [apply in_seq; lia|apply posEq_true; auto].
Qed.
(** A leaf of a tree with min_size 0 sits at the position of its objects. *)
Definition isNode (c : cell) : Prop := match c with Node _ _ _ _ => True | _ => False end.
Lemma leaf_pos c o : wf 0 c -> ~ isNode c -> In o (objs c) -> opos o = getPos c.
Proof.
  intros Hw Hn Ho. pose proof (ok_size _ _ (wf_ok _ _ Hw)) as Hs. destruct c as [d o'|d os|d s l r]; cbn in *.
  - destruct Ho as [->|[]]. auto.
  - symmetry. apply pdist_0. apply Rle_antisym; [apply Hs; auto|apply pdist_nonneg].
  - tauto.
Qed.
Definition suffixOf (us us' : list R) : Prop := exists a, us = a ++ us'.
Lemma suffix_refl us : suffixOf us us. Proof. exists []. auto. Qed.
Lemma suffix_cons u us us' : suffixOf us us' -> suffixOf (u :: us) us'. Proof. intros (a & ->). exists (u :: a). auto. Qed.
Lemma suffix_trans a b c : suffixOf a b -> suffixOf b c -> suffixOf a c.
Proof. intros (x & ->) (y & ->). exists (x ++ y). apply app_assoc. Qed.
Lemma open_suffix us us' : suffixOf us us' -> openDraws us -> openDraws us'.
Proof. intros (a & ->) H. unfold openDraws in *. apply Forall_app in H. apply H. Qed.

(** ** The recursive function of k-means++ *)
Lemma kmppCell_pos cs n : forall c us p us', wf 0 c -> kmppCell cs n c us = KPos p us' ->
  (exists o, In o (objs c) /\ opos o = p) /\ (forall j, (j < n)%nat -> p <> cen cs j) /\ suffixOf us us'.
Proof.
  assert (Lf : forall c us p us', ~ isNode c -> wf 0 c -> (if usedPos cs n (getPos c) then KUsed us else KPos (getPos c) us) = KPos p us' ->
    (exists o, In o (objs c) /\ opos o = p) /\ (forall j, (j < n)%nat -> p <> cen cs j) /\ suffixOf us us').
  { intros c us p us' Hn Hw H. destruct (usedPos cs n (getPos c)) eqn:E; [discriminate|]. injection H; intros <- <-. split; [|split].
    - pose proof (ok_ne _ _ (wf_ok _ _ Hw)) as Hne. destruct (objs c) as [|o t] eqn:Eo; [contradiction|]. exists o. split; [left; auto|].
      apply leaf_pos; auto. rewrite Eo. left; auto.
    - intros j Hj Ej. assert (usedPos cs n (getPos c) = true) by (apply usedPos_true; eauto). congruence.
    - apply suffix_refl. }
  induction c as [d o|d os|d s l IHl r IHr]; intros us p us' Hw H.
  1,2: eapply Lf; eauto.
  cbn [kmppCell] in H. apply wf_node in Hw. destruct Hw as [Hwl Hwr]. destruct (Req_EM_T _ 0); [discriminate|].
  destruct us as [|u us1]; [discriminate|].
  assert (HU : forall c, kmppCell cs n c us1 = KPos p us' -> True) by auto.
  assert (Suf : forall c us us', kmppCell cs n c us = KUsed us' -> suffixOf us us').
  { clear. induction c as [d o|d os|d s l IHl r IHr]; intros us us' H; cbn [kmppCell] in H.
    1,2: destruct (usedPos _ _ _); [injection H; intros <-; apply suffix_refl|discriminate].
    destruct (Req_EM_T _ 0); [injection H; intros <-; apply suffix_refl|]. destruct us as [|u us1]; [discriminate|].
    destruct (Rlt_dec _ _).
    - destruct (kmppCell cs n l us1) eqn:E; try discriminate. apply suffix_cons. eapply suffix_trans; eauto.
    - destruct (kmppCell cs n r us1) eqn:E; try discriminate. apply suffix_cons. eapply suffix_trans; eauto. }
  cbn [objs]. destruct (Rlt_dec _ _).
  - destruct (kmppCell cs n l us1) as [q us2|us2|] eqn:E; [| |discriminate].
    + injection H; intros <- <-. destruct (IHl _ _ _ Hwl E) as ((o & Ho & Ep) & A & S). split; [exists o; split; [apply in_or_app; auto|auto]|].
      split; auto. apply suffix_cons; auto.
    + destruct (IHr _ _ _ Hwr H) as ((o & Ho & Ep) & A & S). split; [exists o; split; [apply in_or_app; auto|auto]|].
      split; auto. apply suffix_cons. eapply suffix_trans; eauto.
  - destruct (kmppCell cs n r us1) as [q us2|us2|] eqn:E; [| |discriminate].
    + injection H; intros <- <-. destruct (IHr _ _ _ Hwr E) as ((o & Ho & Ep) & A & S). split; [exists o; split; [apply in_or_app; auto|auto]|].
      split; auto. apply suffix_cons; auto.
    + destruct (IHl _ _ _ Hwl H) as ((o & Ho & Ep) & A & S). split; [exists o; split; [apply in_or_app; auto|auto]|].
      split; auto. apply suffix_cons. eapply suffix_trans; eauto.
Qed.
(** The exception means that every object sits at a centre, unless the centroid of an internal cell does. *)
Lemma kmppCell_used cs n : (1 <= n)%nat -> forall c us us', wf 0 c ->
  (forall t, subcell t c -> isNode t -> forall j, (j < n)%nat -> getPos t <> cen cs j) ->
  kmppCell cs n c us = KUsed us' -> forall o, In o (objs c) -> exists j, (j < n)%nat /\ opos o = cen cs j.
Proof.
  intros Hn. induction c as [d o|d os|d s l IHl r IHr]; intros us us' Hw Hi H o' Ho; cbn [kmppCell] in H.
  1,2: destruct (usedPos _ _ _) eqn:E; [|discriminate]; apply usedPos_true in E; rewrite (leaf_pos _ o' Hw) by (auto; cbn; tauto); auto.
  apply wf_node in Hw. destruct Hw as [Hwl Hwr].
  assert (Il : forall t, subcell t l -> isNode t -> forall j, (j < n)%nat -> getPos t <> cen cs j) by (intros t Ht; apply Hi; apply sub_l; auto).
  assert (Ir : forall t, subcell t r -> isNode t -> forall j, (j < n)%nat -> getPos t <> cen cs j) by (intros t Ht; apply Hi; apply sub_r; auto).
  assert (Z : forall t, wf 0 t -> (forall t', subcell t' t -> isNode t' -> forall j, (j < n)%nat -> getPos t' <> cen cs j) ->
    minTo cs n (getPos t) = 0 -> forall o, In o (objs t) -> exists j, (j < n)%nat /\ opos o = cen cs j).
  { intros t Hwt It Z o Hot. apply minTo_zero in Z; auto. destruct Z as (j & Hj & E).
    assert (Nt : ~ isNode t). { intros Nt. apply (It t (sub_refl t) Nt j Hj E). }
    exists j. split; auto. rewrite (leaf_pos t o); auto. }
  cbn [objs] in Ho. destruct (Req_EM_T _ 0) as [E|E].
  - pose proof (minTo_nonneg cs n (getPos l)). pose proof (minTo_nonneg cs n (getPos r)).
    apply in_app_or in Ho. destruct Ho as [Ho|Ho]; [apply (Z l)|apply (Z r)]; auto; lra.
  - destruct us as [|u us1]; [discriminate|]. destruct (Rlt_dec _ _).
    + destruct (kmppCell cs n l us1) as [q us2|us2|] eqn:E1; try discriminate. apply in_app_or in Ho.
      destruct Ho as [Ho|Ho]; [eapply IHl|eapply IHr]; eauto.
    + destruct (kmppCell cs n r us1) as [q us2|us2|] eqn:E1; try discriminate. apply in_app_or in Ho.
      destruct Ho as [Ho|Ho]; [eapply IHl|eapply IHr]; eauto.
Qed.

(** ** Leaves by number *)
Lemma leafNumber c : forall i, wf 0 c -> (i < length (objs c))%nat -> let t := getLeafNumber c i in
  exists o, nth_error (objs c) i = Some o /\ getPos t = opos o.
Proof.
  induction c as [d o|d os|d s l IHl r IHr]; intros i Hw Hi; cbn [getLeafNumber].
  1,2: destruct (nth_error (objs _) i) as [o'|] eqn:E; [|apply nth_error_None in E; lia]; cbn zeta; exists o'; split; auto;
       symmetry; apply leaf_pos; auto; apply nth_error_In in E; auto.
  apply wf_node in Hw. destruct Hw as [Hwl Hwr]. cbn [objs] in *. rewrite app_length in Hi.
  pose proof (ok_n _ _ (wf_ok _ _ Hwl)) as Nl. destruct (Nat.ltb_spec i (getN l)) as [L|L].
  - destruct (IHl i Hwl ltac:(lia)) as (o & E & P). exists o. split; auto. rewrite nth_error_app1 by lia. auto.
  - destruct (IHr (i - getN l)%nat Hwr ltac:(lia)) as (o & E & P). exists o. split; auto. rewrite nth_error_app2 by lia. rewrite <- Nl. auto.
Qed.
Lemma pickLeaf_spec cells : forall k m, Forall (wf 0) cells -> (m < ntotOf cells)%nat ->
  exists k' c o, pickLeaf cells k m = Some ((k + k')%nat, c) /\ (k' < length cells)%nat /\ nth_error (flat_map objs cells) m = Some o /\ getPos c = opos o /\
    (forall d, In o (objs (nth k' cells d))).
Proof.
  induction cells as [|c t IH]; intros k m Hw Hm; [cbn in Hm; lia|]. inversion Hw; subst. cbn [pickLeaf flat_map]. cbn in Hm.
  pose proof (ok_n _ _ (wf_ok _ _ H1)) as Nc. destruct (Nat.ltb_spec m (getN c)) as [L|L].
  - destruct (leafNumber c m H1 ltac:(lia)) as (o & E & P). exists 0%nat, (getLeafNumber c m), o. rewrite Nat.add_0_r. split; auto.
    split; [cbn; lia|]. split; [rewrite nth_error_app1 by lia; auto|]. split; auto. intros d. cbn. apply nth_error_In in E. auto.
  - destruct (IH (S k) (m - getN c)%nat H2 ltac:(unfold ntotOf; lia)) as (k' & c' & o & E & Hk & N & P & I). exists (S k'), c', o.
    split; [rewrite E; f_equal; f_equal; lia|]. split; [cbn; lia|]. split; [rewrite nth_error_app2 by lia; rewrite <- Nc; auto|]. split; auto.
Qed.
Lemma ntot_length cells : Forall (wf 0) cells -> ntotOf cells = length (flat_map objs cells).
Proof.
  induction 1 as [|c t Hc Ht IH]; cbn; auto. rewrite app_length, (ok_n _ _ (wf_ok _ _ Hc)). unfold ntotOf in IH. rewrite IH. auto.
Qed.
Lemma NoDup_nth_map {A B} (f : A -> B) (l : list A) i j a b : NoDup (map f l) -> nth_error l i = Some a -> nth_error l j = Some b -> f a = f b -> i = j.
Proof.
  intros H Ei Ej E. assert (Hi : nth_error (map f l) i = Some (f a)) by (rewrite nth_error_map, Ei; auto).
  assert (Hj : nth_error (map f l) j = Some (f a)) by (rewrite nth_error_map, Ej, E; auto).
  apply (proj1 (NoDup_nth_error (map f l)) H); [apply nth_error_Some; congruence|congruence].
Qed.

(** ** Random starting centres *)
Lemma nudge_none before p us : ~ In p before -> nudge before p us = Some (p, us).
Proof.
  induction before as [|q t IH]; intros H; cbn [nudge]; auto. destruct (posEq q p) eqn:E.
  - apply posEq_true in E. exfalso. apply H. left; auto.
  - apply IH. intros Hp. apply H. right; auto.
Qed.
Lemma randCenters_spec cells : Forall (wf 0) cells -> NoDup (map opos (flat_map objs cells)) -> forall index done us out us',
  NoDup index -> Forall (fun m => m < ntotOf cells)%nat index ->
  (forall q, In q done -> exists m o, nth_error (flat_map objs cells) m = Some o /\ opos o = q /\ ~ In m index) ->
  randCenters cells index done us = Some (out, us') ->
  exists sel, length sel = length index /\ out = done ++ map opos sel /\ Forall2 (fun m o => nth_error (flat_map objs cells) m = Some o) index sel.
Proof.
  intros Hw Hnd. induction index as [|m t IH]; intros done us out us' Hn Hf Hd H; cbn [randCenters] in H.
  - injection H; intros <- <-. exists []. rewrite app_nil_r. split; [auto|]. split; [auto|constructor].
  - inversion Hn; subst. inversion Hf; subst. destruct (pickLeaf_spec cells 0 m Hw H4) as (k' & c & o & E & _ & N & P & _). rewrite E in H.
    rewrite P in H. assert (Hnot : ~ In (opos o) done).
    { intros Hin. destruct (Hd _ Hin) as (m' & o' & N' & P' & Nin). apply Nin. left.
      apply (NoDup_nth_map opos _ _ _ _ _ Hnd N N'). auto. }
    rewrite nudge_none in H by auto. apply IH in H; auto.
    + destruct H as (sel & L & -> & F2). exists (o :: sel). cbn. split; [lia|]. split; [rewrite <- app_assoc; auto|constructor; auto].
    + intros q Hq. apply in_app_or in Hq. destruct Hq as [Hq|[<-|[]]].
      * destruct (Hd q Hq) as (m' & o' & N' & P' & Nin). exists m', o'. split; auto. split; auto. intros Hin. apply Nin. right; auto.
      * exists m, o. auto.
Qed.
Lemma Forall2_nth_NoDup {A B} (f : A -> B) (l : list A) index sel : NoDup (map f l) -> NoDup index ->
  Forall2 (fun m o => nth_error l m = Some o) index sel -> NoDup (map f sel) /\ incl sel l.
Proof.
  intros Hn Hi H. induction H as [|m o ms os E F2 IH]; [split; [constructor|intros x []]|]. inversion Hi; subst. destruct (IH H2) as [A1 A2]. split.
  - cbn. constructor; auto. intros Hin. apply in_map_iff in Hin. destruct Hin as (o' & Ef & Hin).
    assert (X : exists m', In m' ms /\ nth_error l m' = Some o').
    { clear - F2 Hin. induction F2; [destruct Hin|]. destruct Hin as [->|Hin]; [eexists; split; [left; auto|auto]|]. destruct (IHF2 Hin) as (m' & Hm' & E').
      exists m'. split; [right; auto|auto]. }
    destruct X as (m' & Hm' & E'). assert (m = m') by (apply (NoDup_nth_map f l m m' o o' Hn E E'); auto). subst. contradiction.
  - intros x [->|Hx]; [apply nth_error_In in E; auto|apply A2; auto].
Qed.
(** init='random' gives the positions of npatch different objects. *)
Theorem C58_random F cat cells ncenters us centers us' : fminsize F = 0 -> buildField F cat cells -> NoDup (map opos cat) ->
  (ncenters <= length cat)%nat -> unitDraws us -> initRand cells ncenters us = Some (centers, us') ->
  exists sel, incl sel cat /\ NoDup (map opos sel) /\ length sel = ncenters /\ centers = map opos sel.
Proof.
  intros Hm HB Hnd Hn Hu H. assert (Hm' : 0 <= fminsize F) by lra.
  pose proof (buildField_wf F cat cells Hm' HB) as Hw. rewrite Hm in Hw. pose proof (buildField_perm F cat cells HB) as HP.
  rewrite <- flat_map_concat_map in HP.
  assert (Hnd' : NoDup (map opos (flat_map objs cells))).
  { eapply Permutation_NoDup; [|exact Hnd]. apply Permutation_map. apply Permutation_sym. auto. }
  assert (NT : ntotOf cells = length cat) by (rewrite ntot_length by auto; apply Permutation_length; auto).
  unfold initRand in H. destruct (selectRandomFrom (ntotOf cells) ncenters us) as [[index us1]|] eqn:E; [|discriminate].
  apply select_ok in E; auto; [|lia]. destruct E as (El & En & Ef & _).
  apply randCenters_spec in H; auto; [|intros q []]. destruct H as (sel & L & -> & F2).
  destruct (Forall2_nth_NoDup opos _ _ _ Hnd' En F2) as [A1 A2]. exists sel. split; [|split; [auto|split; [lia|auto]]].
  intros x Hx. apply (Permutation_in _ HP). auto.
Qed.
Theorem C58_random_defined F cat cells ncenters us : fminsize F = 0 -> buildField F cat cells -> NoDup (map opos cat) ->
  (ncenters <= length cat)%nat -> (length cat <= 3 * ncenters)%nat -> unitDraws us -> (ncenters <= length us)%nat ->
  exists r, initRand cells ncenters us = Some r.
Proof.
  intros Hm HB Hnd Hn H3 Hu Hl. assert (Hm' : 0 <= fminsize F) by lra.
  pose proof (buildField_wf F cat cells Hm' HB) as Hw. rewrite Hm in Hw. pose proof (buildField_perm F cat cells HB) as HP.
  rewrite <- flat_map_concat_map in HP.
  assert (Hnd' : NoDup (map opos (flat_map objs cells))).
  { eapply Permutation_NoDup; [|exact Hnd]. apply Permutation_map. apply Permutation_sym. auto. }
  assert (NT : ntotOf cells = length cat) by (rewrite ntot_length by auto; apply Permutation_length; auto).
  assert (FY : forall c i full us, (c <= length us)%nat -> exists r, fisherYates (ntotOf cells) i c full us = Some r).
  { induction c as [|c IH]; intros i full us0 H; cbn [fisherYates]; [eexists; reflexivity|]. destruct us0; [cbn in H; lia|]. apply IH. cbn in H. lia. }
  unfold initRand. destruct (selectRandomFrom (ntotOf cells) ncenters us) as [[index us1]|] eqn:E.
  2:{ unfold selectRandomFrom in E. destruct (Nat.ltb_spec (3 * ncenters) (ntotOf cells)); [lia|].
      destruct (FY ncenters 0%nat (seq 0 (ntotOf cells)) us Hl) as ([f u] & E'). rewrite E' in E. discriminate. }
  apply select_ok in E; auto; [|lia]. destruct E as (El & En & Ef & _).
  assert (G : forall index done us, NoDup index -> Forall (fun m => m < ntotOf cells)%nat index ->
    (forall q, In q done -> exists m o, nth_error (flat_map objs cells) m = Some o /\ opos o = q /\ ~ In m index) ->
    exists r, randCenters cells index done us = Some r).
  { induction index0 as [|m t IH]; intros done us0 Hn0 Hf Hd; cbn [randCenters]; [eexists; reflexivity|].
    inversion Hn0; subst. inversion Hf; subst. destruct (pickLeaf_spec cells 0 m Hw H4) as (k' & c & o & E' & _ & N & P & _). rewrite E', P.
    assert (Hnot : ~ In (opos o) done).
    { intros Hin. destruct (Hd _ Hin) as (m' & o' & N' & P' & Nin). apply Nin. left. apply (NoDup_nth_map opos _ _ _ _ _ Hnd' N N'). auto. }
    rewrite nudge_none by auto. apply IH; auto. intros q Hq. apply in_app_or in Hq. destruct Hq as [Hq|[<-|[]]].
    - destruct (Hd q Hq) as (m' & o' & N' & P' & Nin). exists m', o'. split; auto. split; auto. intros Hin. apply Nin. right; auto.
    - exists m, o. auto. }
  apply G; auto. intros q [].
Qed.

(** ** k-means++ *)
Lemma setAt_mid {A} (l : list A) x y t : setAt (length l) x (l ++ y :: t) = l ++ x :: t.
Proof. induction l; cbn; congruence. Qed.
Lemma chooseCell_spec : forall ps k u, Forall (fun p => 0 <= p) ps -> 0 <= u -> u < sumR (fun x => x) ps ->
  exists k', chooseCell ps k u = Some (k + k')%nat /\ (k' < length ps)%nat /\ 0 < nth k' ps 0.
Proof.
  induction ps as [|p t IH]; intros k u Hf H0 H1; cbn [chooseCell sumR] in *; [lra|]. inversion Hf; subst. destruct (Rlt_dec u p) as [L|L].
  - exists 0%nat. rewrite Nat.add_0_r. split; auto. cbn. split; [lia|lra].
  - destruct (IH (S k) (u - p) H4 ltac:(lra) ltac:(lra)) as (k' & -> & Hk & Hp). exists (S k'). split; [f_equal; lia|]. cbn. split; [lia|auto].
Qed.
Lemma cell_of_pos (dc : cell) : forall cells, NoDup (map opos (flat_map objs cells)) -> forall k k' o o', (k < length cells)%nat -> (k' < length cells)%nat ->
  In o (objs (nth k cells dc)) -> In o' (objs (nth k' cells dc)) -> opos o = opos o' -> k = k'.
Proof.
  assert (D : forall (l m : list pos) x, NoDup (l ++ m) -> In x l -> In x m -> False).
  { clear. induction l as [|a l IH]; intros m x Hn Hl Hm; [destruct Hl|]. cbn in Hn. inversion Hn; subst.
    destruct Hl as [->|Hl]; [apply H1; apply in_or_app; auto|eapply IH; eauto]. }
  assert (In2 : forall cells k o, (k < length cells)%nat -> In o (objs (nth k cells dc)) -> In (opos o) (map opos (flat_map objs cells))).
  { intros cells k o Hk Ho. apply in_map. apply in_flat_map. exists (nth k cells dc). split; auto. apply nth_In; auto. }
  assert (ND : forall (l m : list pos), NoDup (l ++ m) -> NoDup m).
  { clear. induction l as [|a l IH]; intros m H; auto. inversion H; subst. auto. }
  induction cells as [|c t IH]; intros Hn k k' o o' Hk Hk' Ho Ho' E; [cbn in Hk; lia|]. cbn [flat_map] in Hn. rewrite map_app in Hn.
  destruct k as [|k], k' as [|k']; auto; cbn in Hk, Hk', Ho, Ho'.
  - exfalso. apply (D _ _ (opos o) Hn); [apply in_map; auto|]. rewrite E. apply (In2 t k'); [lia|auto].
  - exfalso. apply (D _ _ (opos o') Hn); [apply in_map; auto|]. rewrite <- E. apply (In2 t k); [lia|auto].
  - f_equal. apply (IH (ND _ _ Hn) k k' o o'); auto; lia.
Qed.
Lemma sum_counts (picked : list (nat * pos)) n : Forall (fun kp => fst kp < n)%nat picked ->
  fold_right Nat.add 0%nat (map (fun k => length (filter (fun kp => Nat.eqb (fst kp) k) picked)) (seq 0 n)) = length picked.
Proof.
  assert (Z : forall (f g : nat -> nat) l, fold_right Nat.add 0%nat (map (fun k => f k + g k)%nat l) =
    (fold_right Nat.add 0%nat (map f l) + fold_right Nat.add 0%nat (map g l))%nat).
  { intros f g. induction l as [|a l IH]; cbn; lia. }
  assert (One : forall j n s, (s <= j < s + n)%nat -> fold_right Nat.add 0%nat (map (fun k => if Nat.eqb j k then 1 else 0)%nat (seq s n)) = 1%nat).
  { assert (O0 : forall j n s, ~ (s <= j < s + n)%nat -> fold_right Nat.add 0%nat (map (fun k => if Nat.eqb j k then 1 else 0)%nat (seq s n)) = 0%nat).
    { intros j. induction n0 as [|n0 IH]; intros s H; cbn; auto. destruct (Nat.eqb_spec j s); [lia|]. rewrite IH; lia. }
    intros j. induction n0 as [|n0 IH]; intros s H; [lia|]. cbn. destruct (Nat.eqb_spec j s) as [->|E]; [rewrite O0; lia|rewrite IH; lia]. }
  induction picked as [|kp t IH]; intros H.
  - cbn. assert (E : forall l : list nat, fold_right Nat.add 0%nat (map (fun _ => 0%nat) l) = 0%nat) by (induction l; cbn; auto). apply E.
  - inversion H; subst. rewrite (map_ext _ (fun k => (if Nat.eqb (fst kp) k then 1 else 0) + length (filter (fun kp0 => Nat.eqb (fst kp0) k) t))%nat).
    + rewrite Z, One, IH by (auto; lia). cbn. lia.
    + intros k. cbn [filter]. destruct (Nat.eqb (fst kp) k); cbn; lia.
Qed.
Lemma NoDup_app_intro' {A} (l : list A) x : NoDup l -> ~ In x l -> NoDup (l ++ [x]).
Proof.
  induction l as [|a l IH]; intros H Hx; cbn; [constructor; auto|]. inversion H; subst. constructor.
  - intros Hin. apply in_app_or in Hin. destruct Hin as [Hin|[->|[]]]; auto. apply Hx. left; auto.
  - apply IH; auto. intros Hin. apply Hx. right; auto.
Qed.
Section KMPP.
Variables (F : fparams) (cat : list obj) (cells : list cell).
Hypothesis Hm : fminsize F = 0.
Hypothesis Hbr : fbrute F = false.
Hypothesis HB : buildField F cat cells.
Hypothesis Hnd : NoDup (map opos cat).
Let dc := ListLeaf (dataN (fcoord F) []) [].
Lemma cells_wf : Forall (wf 0) cells.
Proof. pose proof (buildField_wf F cat cells ltac:(lra) HB) as H. rewrite Hm in H. auto. Qed.
Lemma cells_perm : Permutation (flat_map objs cells) cat.
Proof. rewrite flat_map_concat_map. apply buildField_perm with (F := F). auto. Qed.
Lemma cells_nodup : NoDup (map opos (flat_map objs cells)).
Proof. eapply Permutation_NoDup; [|exact Hnd]. apply Permutation_map. apply Permutation_sym. apply cells_perm. Qed.
Lemma cells_size c : In c cells -> isNode c -> 0 < sizeVal c.
Proof.
  intros Hc Hn. destruct HB as (g & _ & Hf). rewrite Hbr in Hf. pose proof cells_wf as Hw. rewrite Forall_forall in Hw. specialize (Hw c Hc).
  assert (X : exists l, builds (fcoord F) (fsm F) (fminsize F * fminsize F) false l c).
  { clear - Hf Hc. induction Hf; [destruct Hc|]. destruct Hc as [->|Hc]; eauto. }
  destruct X as (l & X). pose proof (ok_size _ _ (wf_ok _ _ Hw)) as Hs. destruct X; cbn in Hn; tauto.
Qed.
Definition picksOf (picked : list (nat * pos)) (k : nat) := filter (fun kp => Nat.eqb (fst kp) k) picked.
Record inv (n i : nat) (picked : list (nat * pos)) (centers : list pos) (per : list nat) : Prop := mkinv {
  iv_i : length picked = i; iv_n : (1 <= i <= n)%nat;
  iv_c : centers = map snd picked ++ repeat pos0 (n - i);
  iv_nd : NoDup (map snd picked);
  iv_src : forall k p, In (k, p) picked -> (k < length cells)%nat /\ exists o, In o (objs (nth k cells dc)) /\ opos o = p;
  iv_per : per = map (fun k => length (picksOf picked k)) (seq 0 (length cells)) }.
Lemma picks_le n i picked centers per k : inv n i picked centers per -> (k < length cells)%nat ->
  (length (picksOf picked k) <= getN (nth k cells dc))%nat.
Proof.
  intros I Hk. pose proof cells_wf as Hw. rewrite Forall_forall in Hw. specialize (Hw _ (nth_In cells dc Hk)).
  rewrite (ok_n _ _ (wf_ok _ _ Hw)). rewrite <- (map_length snd), <- (map_length opos). apply NoDup_incl_length.
  - pose proof (iv_nd _ _ _ _ _ I) as N. unfold picksOf. clear - N. induction picked as [|a t IH]; cbn; [constructor|]. inversion N; subst.
    destruct (Nat.eqb (fst a) k); cbn; auto. constructor; auto. intros Hin. apply H1. apply in_map_iff in Hin. destruct Hin as (x & <- & Hx).
    apply filter_In in Hx. apply in_map. apply Hx.
  - intros p Hp. apply in_map_iff in Hp. destruct Hp as ([k' p'] & <- & Hin). apply filter_In in Hin. destruct Hin as [Hin E].
    cbn in E. apply Nat.eqb_eq in E. subst k'. destruct (iv_src _ _ _ _ _ I k p' Hin) as (_ & o & Ho & <-). cbn [snd]. apply in_map. auto.
Qed.
Lemma free_object n i picked centers per k : inv n i picked centers per -> (k < length cells)%nat ->
  (length (picksOf picked k) < getN (nth k cells dc))%nat -> exists o, In o (objs (nth k cells dc)) /\ ~ In (opos o) (map snd picked).
Proof.
  intros I Hk Hlt. set (c := nth k cells dc) in *.
  pose proof cells_wf as Hw. rewrite Forall_forall in Hw. specialize (Hw _ (nth_In cells dc Hk)). fold c in Hw. rewrite (ok_n _ _ (wf_ok _ _ Hw)) in Hlt.
  destruct (Exists_dec (fun o => ~ In (opos o) (map snd picked)) (objs c)) as [E|E].
  - intros o. destruct (in_dec (fun p q => ltac:(destruct (posEq p q) eqn:Q; [left; apply posEq_true; auto|right; intros Z; apply posEq_true in Z; congruence]) : {p = q} + {p <> q})
      (opos o) (map snd picked)); [right|left]; auto.
  - apply Exists_exists in E. exact E.
  - exfalso. assert (All : forall o, In o (objs c) -> In (opos o) (map snd (picksOf picked k))).
    { intros o Ho. assert (Hin : In (opos o) (map snd picked)).
      { destruct (in_dec (fun p q => ltac:(destruct (posEq p q) eqn:Q; [left; apply posEq_true; auto|right; intros Z; apply posEq_true in Z; congruence]) : {p = q} + {p <> q})
          (opos o) (map snd picked)) as [|Nin]; auto. exfalso. apply E. apply Exists_exists. eauto. }
      apply in_map_iff in Hin. destruct Hin as ([k' p] & Ep & Hin). cbn in Ep. subst p.
      destruct (iv_src _ _ _ _ _ I k' _ Hin) as (Hk' & o' & Ho' & Eo').
      assert (k' = k) by (apply (cell_of_pos dc cells cells_nodup k' k o' o); auto). subst k'.
      apply in_map_iff. exists (k, opos o). split; auto. apply filter_In. split; auto. apply Nat.eqb_refl. }
    assert (L : (length (map opos (objs c)) <= length (map snd (picksOf picked k)))%nat).
    { apply NoDup_incl_length.
      - pose proof cells_nodup as N. clear - N Hk. revert k Hk c N. induction cells as [|c0 t IH]; intros k Hk c N; [cbn in Hk; lia|].
        cbn [flat_map] in N. rewrite map_app in N. destruct k as [|k].
        + unfold c. cbn. clear - N. induction (map opos (objs c0)) as [|a l IH]; [constructor|]. inversion N; subst. constructor; auto.
          intros X. apply H1. apply in_or_app; auto.
        + apply (IH k); [cbn in Hk; lia|]. clear - N. induction (map opos (objs c0)); auto. inversion N; subst. auto.
      - intros p Hp. apply in_map_iff in Hp. destruct Hp as (o & <- & Ho). apply All. auto. }
    rewrite !map_length in L. unfold picksOf in L. unfold picksOf in Hlt. lia.
Qed.
Definition probs (centers : list pos) (i : nat) (per : list nat) : list R :=
  map (fun kc => kmppProb (fcoord F) centers i per (fst kc) (snd kc)) (combine (seq 0 (length cells)) cells).
Lemma probs_nth centers i per k : (k < length cells)%nat -> nth k (probs centers i per) 0 = kmppProb (fcoord F) centers i per k (nth k cells dc).
Proof.
  intros Hk. unfold probs. set (f := fun kc : nat * cell => _).
  rewrite (nth_indep _ 0 (f (0%nat, dc))) by (rewrite map_length, combine_length, seq_length; lia). rewrite map_nth.
  rewrite combine_nth by (rewrite seq_length; auto). rewrite seq_nth by auto. reflexivity.
Qed.
Lemma probs_length centers i per : length (probs centers i per) = length cells.
Proof. unfold probs. rewrite map_length, combine_length, seq_length. lia. Qed.
Lemma per_nth n i picked centers per k : inv n i picked centers per -> (k < length cells)%nat -> nth k per 0%nat = length (picksOf picked k).
Proof.
  intros I Hk. rewrite (iv_per _ _ _ _ _ I). set (f := fun k => _). rewrite (nth_indep _ 0%nat (f 0%nat)) by (rewrite map_length, seq_length; auto).
  rewrite map_nth, seq_nth by auto. reflexivity.
Qed.
Lemma coef_pos : 0 < match fcoord F with ThreeD => 3/5 | _ => 1/2 end.
Proof. destruct (fcoord F); lra. Qed.
Lemma prob_nonneg n i picked centers per k : inv n i picked centers per -> (k < length cells)%nat -> 0 <= nth k (probs centers i per) 0.
Proof.
  intros I Hk. rewrite probs_nth by auto. unfold kmppProb. rewrite (per_nth n i picked centers per k I Hk).
  pose proof (le_INR _ _ (picks_le n i picked centers per k I Hk)). pose proof (minTo_nonneg centers i (getPos (nth k cells dc))).
  pose proof coef_pos. apply Rmult_le_pos; [lra|]. pose proof (Rle_0_sqr (sizeVal (nth k cells dc))) as Q. unfold Rsqr in Q. nra.
Qed.
Lemma prob_pos_free n i picked centers per k : inv n i picked centers per -> (k < length cells)%nat -> 0 < nth k (probs centers i per) 0 ->
  (length (picksOf picked k) < getN (nth k cells dc))%nat.
Proof.
  intros I Hk H. rewrite probs_nth in H by auto. unfold kmppProb in H. rewrite (per_nth n i picked centers per k I Hk) in H.
  pose proof (picks_le n i picked centers per k I Hk) as L. destruct (Nat.eq_dec (length (picksOf picked k)) (getN (nth k cells dc))) as [E|E]; [|lia].
  rewrite E in H. rewrite Rminus_diag_eq in H by auto. rewrite Rmult_0_l in H. lra.
Qed.
Lemma cen_lt n i picked centers per j : inv n i picked centers per -> (j < i)%nat -> In (cen centers j) (map snd picked).
Proof.
  intros I Hj. unfold cen. rewrite (iv_c _ _ _ _ _ I). pose proof (iv_i _ _ _ _ _ I). rewrite app_nth1 by (rewrite map_length; lia).
  apply nth_In. rewrite map_length. lia.
Qed.
Lemma prob_pos n i picked centers per k : inv n i picked centers per -> (k < length cells)%nat ->
  (length (picksOf picked k) < getN (nth k cells dc))%nat -> 0 < nth k (probs centers i per) 0.
Proof.
  intros I Hk H. rewrite probs_nth by auto. unfold kmppProb. rewrite (per_nth n i picked centers per k I Hk).
  apply lt_INR in H as H'. set (c := nth k cells dc) in *. assert (Hc : In c cells) by (apply nth_In; auto).
  pose proof (minTo_nonneg centers i (getPos c)) as M0. pose proof coef_pos as Cp. apply Rmult_lt_0_compat; [lra|].
  pose proof (Rle_0_sqr (sizeVal c)) as Q. unfold Rsqr in Q.
  destruct c as [d o|d os|d s l r] eqn:Ec; [| |].
  3:{ pose proof (cells_size _ Hc Logic.I) as S. assert (0 < sizeVal (Node d s l r) * sizeVal (Node d s l r)) by nra. nra. }
  1,2: assert (M1 : minTo centers i (getPos (nth k cells dc)) <> 0);
    [intros Z; apply minTo_zero in Z; [|apply (iv_n _ _ _ _ _ I)]; destruct Z as (j & Hj & Ej);
     pose proof (cen_lt n i picked centers per j I Hj) as Hin; rewrite <- Ej in Hin;
     destruct (free_object n i picked centers per k I Hk) as (o' & Ho' & Hno); [fold c in H |- *; rewrite <- Ec in H; auto|];
     apply Hno; pose proof cells_wf as Hw; rewrite Forall_forall in Hw; rewrite (leaf_pos (nth k cells dc) o'); auto;
     [apply Hw; apply nth_In; auto| fold c; rewrite Ec; cbn; tauto]
    |fold c in M1; rewrite Ec in M1; nra].
Qed.
Lemma some_free n i picked centers per : inv n i picked centers per -> (i < length cat)%nat ->
  exists k, (k < length cells)%nat /\ (length (picksOf picked k) < getN (nth k cells dc))%nat.
Proof.
  intros I Hi. assert (S1 := sum_counts picked (length cells)).
  assert (Hf : Forall (fun kp => fst kp < length cells)%nat picked).
  { apply Forall_forall. intros [k p] Hin. apply (iv_src _ _ _ _ _ I k p Hin). }
  specialize (S1 Hf). rewrite (iv_i _ _ _ _ _ I) in S1.
  assert (S2 : fold_right Nat.add 0%nat (map (fun k => getN (nth k cells dc)) (seq 0 (length cells))) = length cat).
  { rewrite <- (Permutation_length cells_perm), <- (ntot_length cells cells_wf). clear.
    assert (X : forall l s (pre : list cell), length pre = s -> map (fun k => getN (nth k (pre ++ l) dc)) (seq s (length l)) = map getN l).
    { induction l as [|c l IH]; intros s pre Hp; cbn; auto. f_equal.
      - rewrite app_nth2 by lia. replace (s - length pre)%nat with 0%nat by lia. reflexivity.
      - rewrite <- (IH (S s) (pre ++ [c])) by (rewrite app_length; cbn; lia). apply map_ext. intros k. rewrite <- app_assoc. reflexivity. }
    pose proof (X cells 0%nat [] eq_refl) as Y. cbn [app] in Y. rewrite Y. clear. unfold ntotOf. induction cells as [|c t IH]; cbn; [auto|rewrite IH; auto]. }
  destruct (existsb (fun k => Nat.ltb (length (picksOf picked k)) (getN (nth k cells dc))) (seq 0 (length cells))) eqn:E.
  - apply existsb_exists in E. destruct E as (k & Hk & L). apply in_seq in Hk. apply Nat.ltb_lt in L. exists k. split; [lia|auto].
  - exfalso. assert (All : forall k, In k (seq 0 (length cells)) -> (getN (nth k cells dc) <= length (picksOf picked k))%nat).
    { intros k Hk. destruct (Nat.le_gt_cases (getN (nth k cells dc)) (length (picksOf picked k))) as [L|L]; auto.
      assert (existsb (fun k => Nat.ltb (length (picksOf picked k)) (getN (nth k cells dc))) (seq 0 (length cells)) = true); [|congruence].
      apply existsb_exists. exists k. split; auto. apply Nat.ltb_lt. auto. }
    assert (Le : (fold_right Nat.add 0%nat (map (fun k => getN (nth k cells dc)) (seq 0 (length cells))) <=
      fold_right Nat.add 0%nat (map (fun k => length (filter (fun kp => Nat.eqb (fst kp) k) picked)) (seq 0 (length cells))))%nat).
    { revert All. generalize (seq 0 (length cells)). induction l as [|a l IH]; intros All; cbn; auto.
      pose proof (All a (or_introl eq_refl)) as A. unfold picksOf in A. assert (B := IH (fun k Hk => All k (or_intror Hk))). lia. }
    lia.
Qed.
Lemma sump_pos n i picked centers per : inv n i picked centers per -> (i < length cat)%nat -> 0 < sumR (fun x => x) (probs centers i per).
Proof.
  intros I Hi. destruct (some_free n i picked centers per I Hi) as (k & Hk & L). pose proof (prob_pos n i picked centers per k I Hk L) as P.
  assert (All : forall k, (k < length (probs centers i per))%nat -> 0 <= nth k (probs centers i per) 0).
  { intros k' Hk'. rewrite probs_length in Hk'. eapply prob_nonneg; eauto. }
  assert (Hk2 : (k < length (probs centers i per))%nat) by (rewrite probs_length; auto).
  revert P All Hk2. generalize (probs centers i per). clear. revert k. intros k l. revert k. induction l as [|a l IH]; intros k P All Hk; [cbn in Hk; lia|].
  cbn [sumR]. pose proof (All 0%nat ltac:(cbn; lia)) as A0. cbn in A0.
  assert (A1 : forall j, (j < length l)%nat -> 0 <= nth j l 0) by (intros j Hj; apply (All (S j)); cbn; lia).
  destruct k as [|k].
  - cbn in P. assert (0 <= sumR (fun x => x) l); [|lra]. apply sumR_nonneg. intros x Hx. destruct (In_nth l x 0 Hx) as (j & Hj & <-). auto.
  - cbn in P. assert (0 < sumR (fun x => x) l) by (apply (IH k); auto; cbn in Hk; lia). lra.
Qed.
Lemma choose n i picked centers per u : inv n i picked centers per -> (i < length cat)%nat -> 0 <= u < 1 ->
  exists k, chooseCell (map (fun x => x / sumR (fun x => x) (probs centers i per)) (probs centers i per)) 0 u = Some k /\ (k < length cells)%nat /\
    (length (picksOf picked k) < getN (nth k cells dc))%nat.
Proof.
  intros I Hi Hu. pose proof (sump_pos n i picked centers per I Hi) as S. set (ps := probs centers i per) in *. set (sp := sumR (fun x => x) ps) in *.
  destruct (chooseCell_spec (map (fun x => x / sp) ps) 0 u) as (k & E & Hk & P).
  - apply Forall_forall. intros x Hx. apply in_map_iff in Hx. destruct Hx as (y & <- & Hy). destruct (In_nth ps y 0 Hy) as (j & Hj & <-).
    apply Rmult_le_pos; [|left; apply Rinv_0_lt_compat; auto]. apply (prob_nonneg n i picked centers per j I). unfold ps in Hj. rewrite probs_length in Hj. auto.
  - lra.
  - rewrite sumR_map. unfold Rdiv. rewrite (sumR_scal_r (/ sp) (fun x => x) ps). fold sp. rewrite Rinv_r by lra. lra.
  - exists k. split; auto. rewrite map_length in Hk. assert (Hk' : (k < length cells)%nat) by (unfold ps in Hk; rewrite probs_length in Hk; auto).
    split; auto. apply (prob_pos_free n i picked centers per k I Hk'). fold ps.
    replace 0 with (0 / sp) in P at 2 by (unfold Rdiv; lra). rewrite (map_nth (fun x => x / sp)) in P.
    assert (X : nth k ps 0 = nth k ps 0 / sp * sp) by (field; lra). rewrite X. nra.
Qed.
Lemma inv_step n i picked centers per k q : inv n i picked centers per -> (i < n)%nat -> (k < length cells)%nat ->
  (exists o, In o (objs (nth k cells dc)) /\ opos o = q) -> (forall j, (j < n)%nat -> q <> cen centers j) ->
  inv n (S i) (picked ++ [(k, q)]) (setAt i q centers) (setAt k (S (nth k per 0%nat)) per).
Proof.
  intros I Hi Hk Ho Hq. pose proof (iv_i _ _ _ _ _ I) as Li. constructor.
  - rewrite app_length. cbn. lia.
  - lia.
  - rewrite (iv_c _ _ _ _ _ I). replace (n - i)%nat with (S (n - S i)) by lia. cbn [repeat].
    rewrite <- Li at 1. rewrite <- (map_length snd picked) at 1. rewrite setAt_mid, map_app. cbn. rewrite <- app_assoc. reflexivity.
  - rewrite map_app. cbn. apply NoDup_app_intro'.
    + apply (iv_nd _ _ _ _ _ I).
    + intros Hin. destruct (In_nth _ _ pos0 Hin) as (j & Hj & E). rewrite map_length, Li in Hj. apply (Hq j ltac:(lia)). unfold cen.
      rewrite (iv_c _ _ _ _ _ I), app_nth1 by (rewrite map_length; lia). auto.
  - intros k' p Hin. apply in_app_or in Hin. destruct Hin as [Hin|[E|[]]]; [apply (iv_src _ _ _ _ _ I); auto|]. injection E; intros <- <-. auto.
  - assert (Lp : length per = length cells) by (rewrite (iv_per _ _ _ _ _ I), map_length, seq_length; auto).
    apply (nth_ext _ _ 0%nat 0%nat); [rewrite setAt_length, map_length, seq_length; auto|]. intros j Hj. rewrite setAt_length, Lp in Hj.
    set (f := fun k0 => length (picksOf (picked ++ [(k, q)]) k0)). rewrite (nth_indep (map f _) 0%nat (f 0%nat)) by (rewrite map_length, seq_length; auto).
    rewrite map_nth, seq_nth by auto. unfold f, picksOf. cbn [Nat.add]. rewrite filter_app, app_length. cbn [filter fst].
    destruct (Nat.eqb_spec k j) as [->|N].
    + rewrite setAt_same by lia. rewrite (per_nth n i picked centers per j I Hj). unfold picksOf. cbn. lia.
    + rewrite setAt_other by auto. rewrite (per_nth n i picked centers per j I Hj). unfold picksOf. cbn. lia.
Qed.

Lemma dc_wf k : (k < length cells)%nat -> wf 0 (nth k cells dc).
Proof. intros Hk. pose proof cells_wf as Hw. rewrite Forall_forall in Hw. apply Hw. apply nth_In; auto. Qed.
Lemma inv_length n i picked centers per : inv n i picked centers per -> length centers = n.
Proof.
  intros I. rewrite (iv_c _ _ _ _ _ I), app_length, map_length, repeat_length. pose proof (iv_i _ _ _ _ _ I). pose proof (iv_n _ _ _ _ _ I). lia.
Qed.
Lemma loop_ok n : (n <= length cat)%nat -> forall m i picked centers per us out us', inv n i picked centers per -> (n = i + m)%nat -> openDraws us ->
  kmppLoop (fcoord F) cells (seq i m) centers per us = KOk out us' -> exists picked' per', inv n n picked' out per'.
Proof.
  intros Hn. induction m as [|m IH]; intros i picked centers per us out us' I E Hu H; cbn [seq kmppLoop] in H.
  - injection H; intros <- <-. replace i with n in I by lia. eauto.
  - destruct us as [|u us1]; [discriminate|]. inversion Hu; subst. fold (probs centers i per) in H.
    destruct (choose _ _ _ _ _ u I ltac:(lia) H2) as (k & Ek & Hk & Lk). rewrite Ek in H. fold dc in H.
    rewrite (inv_length _ _ _ _ _ I) in H. destruct (kmppCell centers (i + S m) (nth k cells dc) us1) as [q us2|us2|] eqn:Eq; try discriminate.
    destruct (kmppCell_pos _ _ _ _ _ _ (dc_wf k Hk) Eq) as (Ho & Hq & Su).
    apply (IH (S i) _ _ _ us2 out us' (inv_step _ _ _ _ _ k q I ltac:(lia) Hk Ho Hq)) in H; auto; [lia|]. eapply open_suffix; eauto.
Qed.
Hypothesis Horig : forall o, In o cat -> opos o <> pos0.
Hypothesis Hint : forall c t, In c cells -> subcell t c -> isNode t -> getPos t <> pos0 /\ forall o, In o cat -> getPos t <> opos o.
Lemma cen_cases n i picked centers per j : inv n i picked centers per -> cen centers j = pos0 \/ In (cen centers j) (map snd picked).
Proof.
  intros I. unfold cen. rewrite (iv_c _ _ _ _ _ I). destruct (Nat.lt_ge_cases j (length (map snd picked))) as [L|L].
  - right. rewrite app_nth1 by auto. apply nth_In; auto.
  - left. rewrite app_nth2 by auto. apply nth_repeat.
Qed.
Lemma picked_obj n i picked centers per p : inv n i picked centers per -> In p (map snd picked) -> exists o, In o cat /\ opos o = p.
Proof.
  intros I Hp. apply in_map_iff in Hp. destruct Hp as ([k q] & <- & Hin). destruct (iv_src _ _ _ _ _ I k q Hin) as (Hk & o & Ho & <-).
  exists o. split; auto. apply (Permutation_in _ cells_perm). apply in_flat_map. exists (nth k cells dc). split; auto. apply nth_In; auto.
Qed.
Lemma loop_noexc n : (n <= length cat)%nat -> forall m i picked centers per us, inv n i picked centers per -> (n = i + m)%nat -> openDraws us ->
  kmppLoop (fcoord F) cells (seq i m) centers per us <> KException.
Proof.
  intros Hn. induction m as [|m IH]; intros i picked centers per us I E Hu H; cbn [seq kmppLoop] in H; [discriminate|].
  destruct us as [|u us1]; [discriminate|]. inversion Hu; subst. fold (probs centers i per) in H.
  destruct (choose _ _ _ _ _ u I ltac:(lia) H2) as (k & Ek & Hk & Lk). rewrite Ek in H. fold dc in H.
  rewrite (inv_length _ _ _ _ _ I) in H. destruct (kmppCell centers (i + S m) (nth k cells dc) us1) as [q us2|us2|] eqn:Eq; try discriminate.
  - destruct (kmppCell_pos _ _ _ _ _ _ (dc_wf k Hk) Eq) as (Ho & Hq & Su).
    apply (IH (S i) _ _ _ us2 (inv_step _ _ _ _ _ k q I ltac:(lia) Hk Ho Hq)); auto; [lia|]. eapply open_suffix; eauto.
  - destruct (free_object _ _ _ _ _ k I Hk Lk) as (o & Ho & Hno).
    assert (Hoc : In o cat). { apply (Permutation_in _ cells_perm). apply in_flat_map. exists (nth k cells dc). split; auto. apply nth_In; auto. }
    assert (X : forall t, subcell t (nth k cells dc) -> isNode t -> forall j, (j < i + S m)%nat -> getPos t <> cen centers j).
    { intros t Ht Hi j Hj Et. destruct (Hint (nth k cells dc) t (nth_In _ _ Hk) Ht Hi) as [H0 H1].
      destruct (cen_cases _ _ _ _ _ j I) as [Z|Z]; [congruence|]. destruct (picked_obj _ _ _ _ _ _ I Z) as (o' & Ho' & Eo'). apply (H1 o' Ho'). congruence. }
    destruct (kmppCell_used centers (i + S m) ltac:(lia) _ _ _ (dc_wf k Hk) X Eq o Ho) as (j & Hj & Ej).
    destruct (cen_cases _ _ _ _ _ j I) as [Z|Z]; [apply (Horig o Hoc); congruence|]. apply Hno. congruence.
Qed.
End KMPP.
Lemma kmpp_start F cat cells n us : fminsize F = 0 -> buildField F cat cells -> (1 <= n <= length cat)%nat -> openDraws us ->
  initKMPP (fcoord F) cells n us = KOut \/ exists picked centers per us1, inv F cells n 1 picked centers per /\ openDraws us1 /\
    initKMPP (fcoord F) cells n us = kmppLoop (fcoord F) cells (seq 1 (n - 1)) centers per us1.
Proof.
  intros Hm HB Hn Hu. unfold initKMPP. destruct us as [|u us1]; [left; auto|right]. inversion Hu; subst.
  pose proof (cells_wf F cat cells Hm HB) as Hw. pose proof (cells_perm F cat cells HB) as HP.
  assert (NT : ntotOf cells = length cat) by (rewrite ntot_length by auto; apply Permutation_length; auto).
  assert (Hlt : (Z.to_nat (trunc (u * INR (ntotOf cells))) < ntotOf cells)%nat).
  { rewrite NT. assert (HL : 0 < INR (length cat)) by (apply lt_0_INR; lia).
    assert (H0 : IZR 0 <= u * INR (length cat)) by (apply Rmult_le_pos; lra). destruct (trunc_nonneg _ H0) as [[A _] B].
    assert (u * INR (length cat) < INR (length cat)) by nra. rewrite (INR_IZR_INZ (length cat)) in H at 2.
    assert (X : IZR (trunc (u * INR (length cat))) < IZR (Z.of_nat (length cat))) by lra. apply lt_IZR in X. lia. }
  destruct (pickLeaf_spec cells 0 _ Hw Hlt) as (k & c & o & E & Hk & N & P & Ic). rewrite E. cbn [Nat.add].
  set (f := fun k0 => length (picksOf [(k, getPos c)] k0)).
  exists [(k, getPos c)], (setAt 0 (getPos c) (repeat pos0 n)), (setAt k 1%nat (repeat 0%nat (length cells))), us1.
  split; [|auto]. destruct n as [|n]; [lia|]. constructor.
  - reflexivity.
  - lia.
  - cbn. replace (n - 0)%nat with n by lia. reflexivity.
  - cbn. constructor; [intros []|constructor].
  - intros k' p [X|[]]. injection X; intros <- <-. split; auto. exists o. split; auto.
  - apply (nth_ext _ _ 0%nat 0%nat); [rewrite setAt_length, map_length, seq_length, repeat_length; auto|]. intros j Hj. rewrite setAt_length, repeat_length in Hj.
    change (nth j (setAt k 1%nat (repeat 0%nat (length cells))) 0%nat = nth j (map f (seq 0 (length cells))) 0%nat).
    rewrite (nth_indep (map f _) 0%nat (f 0%nat)) by (rewrite map_length, seq_length; auto). rewrite map_nth, seq_nth by auto. unfold f, picksOf. cbn [Nat.add filter fst].
    destruct (Nat.eqb_spec k j) as [->|Ne]; [rewrite setAt_same by (rewrite repeat_length; auto); auto|]. rewrite setAt_other by auto. rewrite nth_repeat. auto.
Qed.
(** init='kmeans++' gives the positions of npatch different objects, whenever it gives something. *)
Theorem C58_kmpp F cat cells ncenters us centers us' : fminsize F = 0 -> fbrute F = false -> buildField F cat cells -> NoDup (map opos cat) ->
  (1 <= ncenters <= length cat)%nat -> openDraws us -> initKMPP (fcoord F) cells ncenters us = KOk centers us' ->
  length centers = ncenters /\ NoDup centers /\ forall p, In p centers -> exists o, In o cat /\ opos o = p.
Proof.
  intros Hm Hb HB Hnd Hn Hu H. destruct (kmpp_start F cat cells ncenters us Hm HB Hn Hu) as [E|(picked & c0 & per & us1 & I & Hu1 & E)]; [congruence|].
  rewrite E in H. destruct (loop_ok F cat cells Hm Hb HB Hnd ncenters ltac:(lia) (ncenters - 1)%nat 1%nat _ _ _ _ _ _ I ltac:(lia) Hu1 H) as (pk & per' & I').
  pose proof (iv_c _ _ _ _ _ _ _ I') as Ec. rewrite Nat.sub_diag in Ec. cbn in Ec. rewrite app_nil_r in Ec. split; [|split].
  - eapply inv_length; eauto.
  - rewrite Ec. apply (iv_nd _ _ _ _ _ _ _ I').
  - intros p Hp. rewrite Ec in Hp. eapply picked_obj; eauto.
Qed.
(** The search ends without an exception when no object is at the origin and no internal cell has its centre exactly at an object or at the origin. *)
Theorem C58_kmpp_no_exception F cat cells ncenters us : fminsize F = 0 -> fbrute F = false -> buildField F cat cells -> NoDup (map opos cat) ->
  (1 <= ncenters <= length cat)%nat -> openDraws us -> (forall o, In o cat -> opos o <> pos0) ->
  (forall c t, In c cells -> subcell t c -> isNode t -> getPos t <> pos0 /\ forall o, In o cat -> getPos t <> opos o) ->
  initKMPP (fcoord F) cells ncenters us <> KException.
Proof.
  intros Hm Hb HB Hnd Hn Hu Ho Hi H. destruct (kmpp_start F cat cells ncenters us Hm HB Hn Hu) as [E|(picked & c0 & per & us1 & I & Hu1 & E)]; [congruence|].
  rewrite E in H. exact (loop_noexc F cat cells Hm Hb HB Hnd Ho Hi ncenters ltac:(lia) (ncenters - 1)%nat 1%nat _ _ _ _ I ltac:(lia) Hu1 H).
Qed.
(** With an object at the origin the search can fail, because the centres that are not set yet are at the origin. *)
Definition ppo (i : nat) (x : R) : obj := mkobj (mkpos x 0 0) 1 1 0 0 0 i.
Lemma pp_field F a b x y : x < y -> fsm F = Median -> fcoord F = Flat -> fminsize F = 0 -> fmaxsize F = Inf -> fmintop F = 1%Z -> fmaxtop F = 1%Z ->
  buildField F [ppo a x; ppo b y] [Leaf (data1 (ppo a x)) (ppo a x); Leaf (data1 (ppo b y)) (ppo b y)].
Proof.
  intros Hxy Hs Hc Hm Hx H1 H2. exists [[ppo a x]; [ppo b y]]. rewrite Hs, Hc, Hm, Hx, H1, H2. split; [|repeat constructor].
  apply (top_split _ _ _ _ _ _ [ppo a x] [ppo b y] [[ppo a x]] [[ppo b y]]).
  - intros [Z|[[_ Z]|Z]]; [|lia|lia]. cbn [topSizeSq] in Z.
    assert (B := calculateSizeSq_bound (centroid Flat [ppo a x; ppo b y]) [ppo a x; ppo b y]).
    assert (Bx := B (ppo a x) ltac:(cbn; auto)). assert (By := B (ppo b y) ltac:(cbn; auto)). rewrite Z in Bx, By.
    set (c := centroid Flat [ppo a x; ppo b y]) in *. clearbody c. unfold normSq, psub in *. cbn in Bx, By.
    assert (Sq : forall t, 0 <= t * t) by (intros t; pose proof (Rle_0_sqr t); unfold Rsqr in *; lra).
    pose proof (Sq (px c - x)). pose proof (Sq (px c - y)). pose proof (Sq (py c - 0)). pose proof (Sq (pz c - 0)).
    assert (px c - x = 0) by (apply Rsqr_0_uniq; unfold Rsqr; lra). assert (px c - y = 0) by (apply Rsqr_0_uniq; unfold Rsqr; lra). lra.
  - apply sd_ok; try discriminate. apply sc_median; auto. unfold nth_element_out. split; [apply Permutation_refl|]. split; [reflexivity|].
    intros p q [<-|[]] [<-|[]]. destruct (getSplit _); cbn; lra.
  - apply top_stop. left. reflexivity.
  - apply top_stop. left. reflexivity.
Qed.
Theorem C58_kmpp_origin_refuted : exists F cat cells us, fminsize F = 0 /\ fbrute F = false /\ buildField F cat cells /\ NoDup (map opos cat) /\
  length cat = 2%nat /\ (forall o, In o cat -> ow o = 1 /\ owpos o = 1) /\ openDraws us /\ initKMPP (fcoord F) cells 2 us = KException.
Proof.
  exists (mkF Flat Median 0 Inf false 1 1), [ppo 0 0; ppo 1 1], [Leaf (data1 (ppo 0 0)) (ppo 0 0); Leaf (data1 (ppo 1 1)) (ppo 1 1)], [3/4; 0].
  split; [reflexivity|]. split; [reflexivity|]. split; [apply pp_field; auto; lra|]. split.
  { cbn. constructor; [intros [Z|[]]; injection Z; intros; lra|]. constructor; [intros []|constructor]. }
  split; [reflexivity|]. split; [intros o [<-|[<-|[]]]; cbn; lra|]. split; [repeat constructor; lra|].
  unfold initKMPP. cbn [ntotOf fold_right getN].
  assert (T : trunc (3 / 4 * INR (getN (Leaf (data1 (ppo 0 0)) (ppo 0 0)) + (getN (Leaf (data1 (ppo 1 1)) (ppo 1 1)) + 0))) = 1%Z).
  { cbn. destruct (trunc_nonneg (3 / 4 * (1 + 1)) ltac:(lra)) as [[A B] _]. assert (IZR (trunc (3/4 * (1 + 1))) < 2) by lra.
    assert (0 < IZR (trunc (3/4 * (1 + 1)))) by lra. apply lt_IZR in H, H0. lia. }
  unfold ntotOf. cbn [fold_right]. rewrite T. change (Z.to_nat 1) with 1%nat. cbn.
  set (A := kmppProb Flat _ 1 [0%nat; 1%nat] 0 _). set (B := kmppProb Flat _ 1 [0%nat; 1%nat] 1 _).
  assert (EA : A = 1) by (unfold A, kmppProb; cbn; unfold minTo, dsqTo, normSq, psub, cen, sizeVal; cbn; lra).
  assert (EB : B = 0) by (unfold B, kmppProb; cbn; lra).
  rewrite EA, EB. destruct Rlt_dec as [_|Z]; [|lra]. cbn [kmppCell].
  assert (U : usedPos [{| px := 1; py := 0; pz := 0 |}; pos0] 2 (getPos (Leaf (data1 (ppo 0 0)) (ppo 0 0))) = true); [|rewrite U; reflexivity].
  apply usedPos_true. exists 1%nat. split; [lia|reflexivity].
Qed.
Lemma pp_node F a b x y : x < y -> fsm F = Median -> fcoord F = Flat -> fminsize F = 0 -> fbrute F = false -> fmintop F = 0%Z -> fmaxtop F = 0%Z ->
  buildField F [ppo a x; ppo b y] [Node (dataN Flat [ppo a x; ppo b y]) (Fin (sqrt (calculateSizeSq (centroid Flat [ppo a x; ppo b y]) [ppo a x; ppo b y])))
     (Leaf (data1 (ppo a x)) (ppo a x)) (Leaf (data1 (ppo b y)) (ppo b y))].
Proof.
  intros Hxy Hs Hc Hm Hb H1 H2. exists [[ppo a x; ppo b y]]. rewrite Hs, Hc, Hm, Hb, H1, H2. split; [apply top_stop; right; right; lia|].
  constructor; [|constructor]. apply (b_node _ _ _ false [ppo a x; ppo b y] [ppo a x] [ppo b y]).
  - cbn. lia.
  - assert (B := fun o => calculateSizeSq_bound (centroid Flat [ppo a x; ppo b y]) [ppo a x; ppo b y] o).
    assert (Bx := B (ppo a x) ltac:(cbn; auto)). assert (By := B (ppo b y) ltac:(cbn; auto)).
    set (m := calculateSizeSq _ _) in *. clearbody m. set (c := centroid Flat [ppo a x; ppo b y]) in *. clearbody c. unfold normSq, psub in *. cbn in Bx, By.
    assert (Sq : forall t, 0 <= t * t) by (intros t; pose proof (Rle_0_sqr t); unfold Rsqr in *; lra).
    pose proof (Sq (px c - x)). pose proof (Sq (px c - y)). pose proof (Sq (py c - 0)). pose proof (Sq (pz c - 0)).
    destruct (Rle_lt_dec m 0) as [L|L]; [|lra].
    assert (px c - x = 0) by (apply Rsqr_0_uniq; unfold Rsqr; lra). assert (px c - y = 0) by (apply Rsqr_0_uniq; unfold Rsqr; lra). lra.
  - apply sd_ok; try discriminate. apply sc_median; auto. unfold nth_element_out. split; [apply Permutation_refl|]. split; [reflexivity|].
    intros p q [<-|[]] [<-|[]]. destruct (getSplit _); cbn; lra.
  - constructor.
  - constructor.
Qed.
(** Non-vacuity: two objects in one internal cell satisfy the hypotheses of the theorems above. *)
Example C58_example : exists F cat cells, fminsize F = 0 /\ fbrute F = false /\ buildField F cat cells /\ NoDup (map opos cat) /\
  (1 <= 2 <= length cat)%nat /\ openDraws [1/2; 1/2; 1/2] /\ (forall o, In o cat -> opos o <> pos0) /\
  (exists c t, In c cells /\ subcell t c /\ isNode t) /\
  (forall c t, In c cells -> subcell t c -> isNode t -> getPos t <> pos0 /\ forall o, In o cat -> getPos t <> opos o).
Proof.
  exists (mkF Flat Median 0 Inf false 0 0), [ppo 0 1; ppo 1 3], [Node (dataN Flat [ppo 0 1; ppo 1 3]) (Fin (sqrt (calculateSizeSq (centroid Flat [ppo 0 1; ppo 1 3]) [ppo 0 1; ppo 1 3])))
     (Leaf (data1 (ppo 0 1)) (ppo 0 1)) (Leaf (data1 (ppo 1 3)) (ppo 1 3))].
  split; [reflexivity|]. split; [reflexivity|]. split; [apply pp_node; auto; lra|]. split.
  { cbn. constructor; [intros [Z|[]]; injection Z; intros; lra|]. constructor; [intros []|constructor]. }
  split; [cbn; lia|]. split; [repeat constructor; lra|]. split.
  { intros o [<-|[<-|[]]] Z; injection Z; intros; lra. }
  split; [eexists; eexists; split; [left; reflexivity|split; [apply sub_refl|exact Logic.I]]|].
  intros c t [<-|[]] Ht Hn. assert (E : px (getPos t) = 2).
  { inversion Ht; subst; [|match goal with H : subcell _ (Leaf _ _) |- _ => inversion H; subst; destruct Hn end..].
    cbn. unfold centroid. cbn. destruct Req_EM_T; try lra. cbn. try field; try lra. }
  split; [intros Z; rewrite Z in E; cbn in E; lra|]. intros o [<-|[<-|[]]] Z; rewrite Z in E; cbn in E; lra.
Qed.
