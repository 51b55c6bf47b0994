(** C75: the compensated estimate of the count-value correlations, its resampling and its variance. *)
From Coq Require Import Reals Lra Lia List ZArith Bool Permutation.
From Verif Require Import Base Geometry Tree Traverse Run Corr Patch Cov Spec SpecRun GeomFacts SumFacts TreeFacts
  BinFacts TravFacts Exact MetricFacts Cover Lift Runs Account PropsCount PropsCorr PatchFacts PropsPatch CovFacts Examples
  PropsCov Comp.
Import ListNotations.
Open Scope R_scope.

(** ** Specification: the weighted mean over stored pairs of patches *)
Definition zval (d : zdict) (f : zf) (k : Z) (ij : key) : R :=
  match zget ij d with Some a => a f k | None => 0 end.
Definition wmean (num den : R) : R := if Req_EM_T den 0 then num else num / den.
(** the mean over the pairs of patches [ps] *)
Definition meanOver (d : zdict) (f : zf) (ps : list key) (k : Z) : R :=
  wmean (sumR (zval d f k) ps) (sumR (zval d ZW k) ps).

(** ** Dict facts *)
Lemma zget_in k d a : zget k d = Some a -> In (k, a) d.
Proof.
  induction d as [|[k' v] t IH]; simpl; [discriminate|]. destruct (keqb k k') eqn:E; intro H.
  - apply keqb_eq in E. inversion H; subst. auto.
  - auto.
Qed.
Lemma zget_key k d : In k (zkeys d) -> exists a, zget k d = Some a.
Proof.
  induction d as [|[k' v] t IH]; simpl; [tauto|]. intros [->|H].
  - rewrite keqb_refl. eauto.
  - destruct (keqb k k'); eauto.
Qed.
Lemma zget_none k d : ~ In k (zkeys d) -> zget k d = None.
Proof.
  induction d as [|[k' v] t IH]; simpl; auto. intro H. destruct (keqb k k') eqn:E.
  - apply keqb_eq in E. subst. tauto.
  - apply IH. tauto.
Qed.
Lemma zlookup_some d ps : (forall ij, In ij ps -> In ij (zkeys d)) -> exists l, zlookup d ps = Some l.
Proof.
  induction ps as [|a t IH]; simpl; eauto. intro H.
  destruct (zget_key a d (H a (or_introl eq_refl))) as [x ->]. destruct IH as [l ->]; eauto.
Qed.
Lemma zlookup_sum d ps l f k : zlookup d ps = Some l -> sumR (fun a => a f k) l = sumR (zval d f k) ps.
Proof.
  revert l. induction ps as [|a t IH]; simpl; intros l H.
  - inversion H; auto.
  - destruct (zget a d) as [x|] eqn:E; [|discriminate]. destruct (zlookup d t) as [l'|]; [|discriminate].
    inversion H; subst. simpl. rewrite (IH l' eq_refl). unfold zval at 2. rewrite E. auto.
Qed.
Lemma plainFrom_spec B d ps : ps <> [] -> (forall ij, In ij ps -> In ij (zkeys d)) ->
  exists a, plainFrom B d ps = Some a /\ (forall k, a X1 k = meanOver d X1 ps k) /\
    (forall k, a X2 k = meanOver d X2 ps k) /\
    (forall k, a ZW k = sumR (zval d ZW k) ps) /\ (forall k, a ZNP k = sumR (zval d ZNP k) ps).
Proof.
  intros HN H. destruct (zlookup_some d ps H) as [l E].
  assert (P : plainFrom B d ps = Some (zfin B (zsum l))).
  { destruct ps; [congruence|]. unfold plainFrom. rewrite E. auto. }
  exists (zfin B (zsum l)). rewrite P. split; auto.
  assert (S : forall f k, zsum l f k = sumR (zval d f k) ps) by (intros; apply zlookup_sum; auto).
  unfold zfin, meanOver, wmean. repeat split; intro k; rewrite ?S; destruct (Req_EM_T _ 0); rewrite ?S; auto.
Qed.

Lemma zkeys_app d e : zkeys (d ++ e) = zkeys d ++ zkeys e.
Proof. apply map_app. Qed.
Lemma okKey_in ks k : okKey ks k = true <-> In k ks.
Proof.
  unfold okKey. rewrite existsb_exists. split.
  - intros [x [H E]]. apply keqb_eq in E. subst; auto.
  - intro H. exists k. split; auto. apply keqb_refl.
Qed.
Lemma zget_app k d e : zget k (d ++ e) = match zget k d with Some a => Some a | None => zget k e end.
Proof. induction d as [|[k' v] t IH]; simpl; auto. destruct (keqb k k'); auto. Qed.

(** The dummy results: old entries stay, the new keys are those of rk, and they add nothing to xi and weight. *)
Lemma dummies_fold t ks d : NoDup (zkeys d) -> NoDup ks ->
  let d' := fold_left (fun d ij => if okKey (zkeys d) ij then d else d ++ [(ij, dummy t)]) ks d in
  exists ks', zkeys d' = zkeys d ++ ks' /\ NoDup (zkeys d') /\
    (forall ij, In ij ks' <-> In ij ks /\ ~ In ij (zkeys d)) /\
    (forall ij, In ij (zkeys d) -> zget ij d' = zget ij d) /\
    (forall ij, In ij ks' -> zget ij d' = Some (dummy t)).
Proof.
  revert d. induction ks as [|a ks IH]; intros d HD HK; simpl.
  - exists []. rewrite app_nil_r. repeat split; auto; simpl; tauto.
  - inversion HK as [|? ? Ha Hk]; subst. destruct (okKey (zkeys d) a) eqn:E.
    + apply okKey_in in E. destruct (IH d HD Hk) as [ks' [A [B [C [D F]]]]].
      exists ks'. split; auto. split; auto. split; [|split; auto].
      intro ij. rewrite C. split; [tauto|]. intros [[->|H] H2]; tauto.
    + assert (E' : ~ In a (zkeys d)) by (rewrite <- okKey_in, E; discriminate).
      assert (HD' : NoDup (zkeys (d ++ [(a, dummy t)]))).
      { rewrite zkeys_app. simpl. apply (Permutation_NoDup (l := a :: zkeys d)).
        - apply Permutation_cons_append.
        - constructor; auto. }
      destruct (IH _ HD' Hk) as [ks' [A [B [C [D F]]]]].
      rewrite zkeys_app in A, C, D. simpl in A, C, D.
      exists (a :: ks'). split; [rewrite A, <- app_assoc; auto|]. split; auto. split; [|split].
      * intro ij. simpl. rewrite C, in_app_iff. simpl. split.
        -- intros [->|[H1 H2]]; tauto.
        -- intros [[->|H1] H2]; [tauto|]. destruct (key_dec a ij) as [->|N]; [tauto|]. right. tauto.
      * intros ij H. rewrite D by (apply in_or_app; auto). rewrite zget_app.
        destruct (zget_key ij d H) as [x ->]. auto.
      * intros ij [->|H]; [|auto]. rewrite D by (apply in_or_app; simpl; auto).
        rewrite zget_app, (zget_none _ _ E'). simpl. rewrite keqb_refl. auto.
Qed.
Lemma addDummies_spec d rk : d <> [] -> NoDup (zkeys d) -> NoDup rk ->
  exists ks', zkeys (addDummies d rk) = zkeys d ++ ks' /\ NoDup (zkeys (addDummies d rk)) /\
    (forall ij, In ij ks' <-> In ij rk /\ ~ In ij (zkeys d)) /\
    (forall ij f k, In ij (zkeys d) -> zval (addDummies d rk) f k ij = zval d f k ij) /\
    (forall ij k, In ij ks' -> zval (addDummies d rk) X1 k ij = 0 /\ zval (addDummies d rk) ZW k ij = 0).
Proof.
  intros H HD HK. destruct d as [|[k0 t] d]; [congruence|].
  destruct (dummies_fold t rk ((k0, t) :: d) HD HK) as [ks' [A [B [C [D F]]]]].
  exists ks'. unfold addDummies. split; auto. split; auto. split; auto. split.
  - intros ij f k Hi. unfold zval. rewrite D; auto.
  - intros ij k Hi. unfold zval. rewrite F by auto. auto.
Qed.

Lemma filter_app_sum {A} (g : A -> R) p l1 l2 : (forall x, In x l2 -> g x = 0) ->
  sumR g (filter p (l1 ++ l2)) = sumR g (filter p l1).
Proof.
  intro H. rewrite filter_app, sumR_app, (sumR_0 g (filter p l2)); [lra|].
  intros x Hx. apply filter_In in Hx. apply H; tauto.
Qed.
(** Any selection of keys: the dummies do not change the mean. *)
Lemma meanOver_dummies d rk p k : d <> [] -> NoDup (zkeys d) -> NoDup rk ->
  meanOver (addDummies d rk) X1 (filter p (zkeys (addDummies d rk))) k = meanOver d X1 (filter p (zkeys d)) k.
Proof.
  intros H HD HK. destruct (addDummies_spec d rk H HD HK) as [ks' [A [B [C [D F]]]]].
  unfold meanOver. rewrite A, !filter_app_sum by (intros; apply F; auto).
  f_equal; apply sumR_ext; intros x Hx; apply D; apply filter_In in Hx; tauto.
Qed.


(** ** Hypotheses: numbered patches, one entry per pair, randoms with the same patches or (for patched
    second catalogs) no patches. *)
Definition inRange (n1 n2 : Z) (ij : key) : Prop := (0 <= fst ij < n1)%Z /\ (0 <= snd ij < n2)%Z.
Record compat (o r : zobj) : Prop := {
  cp_nd : NoDup (zkeys (z_res o)); cp_ndr : NoDup (zkeys (z_res r));
  cp_in : forall ij, In ij (zkeys (z_res o)) -> inRange (z_n1 o) (z_n2 o) ij;
  cp_inr : forall ij, In ij (zkeys (z_res r)) -> inRange (z_n1 r) (z_n2 r) ij;
  cp_n2 : z_n2 r = z_n2 o;
  cp_n1 : z_n1 r = z_n1 o \/
          z_n1 r = 1%Z /\ z_n2 o <> 1%Z /\ forall k, In (0, k)%Z (zkeys (z_res r)) -> In (k, k) (zkeys (z_res o));
  cp_ok : z_ok r = None;
  cp_ne : z_res o <> [] }.

Definition keep (n1 n2 i : Z) (jk : key) : bool :=
  if (n2 =? 1)%Z then negb (fst jk =? i)%Z
  else if (n1 =? 1)%Z then negb (snd jk =? i)%Z
  else negb (fst jk =? i)%Z && negb (snd jk =? i)%Z.
Lemma jack_filter n1 n2 i l : jackPairs n1 n2 i l = filter (keep n1 n2 i) l.
Proof. unfold jackPairs, keep. destruct (n2 =? 1)%Z; [|destruct (n1 =? 1)%Z]; auto. Qed.

Lemma meanOver_perm d f l1 l2 k : Permutation l1 l2 -> meanOver d f l1 k = meanOver d f l2 k.
Proof. intro H. unfold meanOver. rewrite (sumR_perm _ _ _ H), (sumR_perm (zval d ZW k) _ _ H). auto. Qed.
Lemma forallb_filter_false {A} (p : A -> bool) l : forallb p l = true <-> forall x, In x l -> p x = true.
Proof. apply forallb_forall. Qed.

Lemma rz_same o r p : compat o r -> z_n1 r = z_n1 o ->
  let ks := zkeys (addDummies (z_res o) (zkeys (z_res r))) in
  Permutation (rzPairs r (filter p ks)) (filter p (zkeys (z_res r))).
Proof.
  intros H E ks. destruct (addDummies_spec (z_res o) (zkeys (z_res r))) as [ks' [A [B [C _]]]]; try apply H.
  assert (KS : forall ij, In ij ks <-> In ij (zkeys (z_res o)) \/ In ij (zkeys (z_res r))).
  { intro ij. unfold ks. rewrite A, in_app_iff, C.
    destruct (in_dec key_dec ij (zkeys (z_res o))); tauto. }
  assert (F : rzPairs r (filter p ks) = filter (okKey (zkeys (z_res r))) (filter p ks)).
  { unfold rzPairs, okKeys. rewrite (cp_ok _ _ H). f_equal. destruct (Z.eqb_spec (z_n1 r) 1) as [E1|]; auto.
    assert (forallb (fun q => (fst q =? 0)%Z) (filter p ks) = true) as ->; auto.
    apply forallb_forall. intros x Hx. apply filter_In in Hx as [Hx _]. apply KS in Hx. apply Z.eqb_eq.
    destruct Hx as [Hx|Hx]; [apply (cp_in _ _ H) in Hx|apply (cp_inr _ _ H) in Hx]; unfold inRange in Hx; lia. }
  rewrite F. apply NoDup_Permutation.
  - apply NoDup_filter, NoDup_filter; auto.
  - apply NoDup_filter, H.
  - intro x. rewrite !filter_In, okKey_in, KS. tauto.
Qed.
Lemma rz_one o r p q : compat o r -> z_n1 r = 1%Z ->
  (forall k, In (0, k)%Z (zkeys (z_res r)) -> In (k, k) (zkeys (z_res o))) ->
  (forall k, In (0, k)%Z (zkeys (z_res r)) -> p (k, k) = q k) ->
  ((forall ij, In ij (zkeys (z_res o)) \/ In ij (zkeys (z_res r)) -> p ij = true -> fst ij = 0%Z) ->
   forall k, In (0, k)%Z (zkeys (z_res r)) -> p (0, k)%Z = q k) ->
  let ks := zkeys (addDummies (z_res o) (zkeys (z_res r))) in
  Permutation (rzPairs r (filter p ks)) (filter (fun ij => q (snd ij)) (zkeys (z_res r))).
Proof.
  intros H E HD HQ H0 ks. destruct (addDummies_spec (z_res o) (zkeys (z_res r))) as [ks' [A [B [C _]]]]; try apply H.
  assert (KS : forall ij, In ij ks <-> In ij (zkeys (z_res o)) \/ In ij (zkeys (z_res r))).
  { intro ij. unfold ks. rewrite A, in_app_iff, C.
    destruct (in_dec key_dec ij (zkeys (z_res o))); tauto. }
  assert (R0 : forall x, In x (zkeys (z_res r)) -> fst x = 0%Z)
    by (intros x Hx; apply (cp_inr _ _ H) in Hx; unfold inRange in Hx; lia).
  unfold rzPairs, okKeys. rewrite (cp_ok _ _ H), E. simpl.
  destruct (forallb (fun q => (fst q =? 0)%Z) (filter p ks)) eqn:F; simpl.
  - assert (F' : forall ij, In ij (zkeys (z_res o)) \/ In ij (zkeys (z_res r)) -> p ij = true -> fst ij = 0%Z).
    { intros ij Hi Hp. rewrite forallb_forall in F. apply Z.eqb_eq, F, filter_In. rewrite KS. auto. }
    specialize (H0 F'). apply NoDup_Permutation.
    + apply NoDup_filter, NoDup_filter; auto.
    + apply NoDup_filter, H.
    + intros [a b]. rewrite !filter_In, okKey_in, KS. cbn [snd]. split.
      * intros [[_ Hp] Hr]. split; auto. pose proof (R0 _ Hr) as Z0. cbn in Z0. subst a. rewrite <- H0; auto.
      * intros [Hr Hq]. pose proof (R0 _ Hr) as Z0. cbn in Z0. subst a. rewrite H0; auto.
  - apply NoDup_Permutation.
    + apply NoDup_filter. apply NoDup_map_in.
      * apply NoDup_filter, NoDup_filter; auto.
      * intros x y Hx Hy Exy. apply filter_In in Hx as [_ Hx]. apply filter_In in Hy as [_ Hy].
        apply Z.eqb_eq in Hx, Hy. destruct x, y; simpl in *. inversion Exy. subst. auto.
    + apply NoDup_filter, H.
    + intros [a b]. rewrite !filter_In, okKey_in, in_map_iff. cbn [snd]. split.
      * intros [[[c d] [Ex Hx]] Hr]. cbn in Ex. inversion Ex; subst. split; auto.
        unfold diag in Hx. rewrite !filter_In in Hx. destruct Hx as [[_ Hp] Hcd]. cbn in Hcd.
        apply Z.eqb_eq in Hcd. subst c. rewrite <- HQ; auto.
      * intros [Hr Hq]. pose proof (R0 _ Hr) as Z0. cbn in Z0. subst a. split; auto.
        exists (b, b). split; auto. unfold diag. rewrite !filter_In, KS. cbn [fst snd].
        rewrite Z.eqb_refl, HQ by auto. split; auto.
Qed.

(** The pairs of the randoms used for the jackknife row i, and for all pairs. *)
Lemma rz_jack o r i : compat o r ->
  let ks := zkeys (addDummies (z_res o) (zkeys (z_res r))) in
  Permutation (rzPairs r (jackPairs (z_n1 o) (z_n2 o) i ks))
              (jackPairs (z_n1 r) (z_n2 r) i (zkeys (z_res r))).
Proof.
  intros H ks. rewrite !jack_filter. destruct (cp_n1 _ _ H) as [E|[E [E2 HD]]].
  - rewrite E, (cp_n2 _ _ H). apply rz_same; auto.
  - destruct (Z.eq_dec (z_n1 o) 1) as [E1|E1].
    + rewrite E1, E, (cp_n2 _ _ H). apply rz_same; auto. congruence.
    + assert (X : forall l, filter (keep (z_n1 r) (z_n2 r) i) l = filter (fun ij => negb (snd ij =? i)%Z) l).
      { intro l. unfold keep. rewrite E, (cp_n2 _ _ H). apply Z.eqb_neq in E2. rewrite E2. auto. }
      rewrite X. apply (rz_one o r (keep (z_n1 o) (z_n2 o) i) (fun k => negb (k =? i)%Z)); auto.
      * intros k _. unfold keep. cbn [fst snd]. apply Z.eqb_neq in E2, E1. rewrite E2, E1.
        destruct (k =? i)%Z; auto.
      * intros HF k Hk. specialize (HF (k, k) (or_introl (HD k Hk))).
        revert HF. unfold keep. cbn [fst snd]. apply Z.eqb_neq in E2, E1. rewrite E2, E1.
        destruct (Z.eqb_spec k i) as [->|N]; cbn [negb andb].
        -- intros _. rewrite andb_false_r. auto.
        -- intro HF. rewrite HF in N by auto. rewrite andb_true_r. apply Z.eqb_neq in N. rewrite N. auto.
Qed.
Lemma rz_all o r : compat o r ->
  let ks := zkeys (addDummies (z_res o) (zkeys (z_res r))) in
  Permutation (rzPairs r ks) (zkeys (z_res r)).
Proof.
  intros H ks.
  assert (T : forall (l : list key), filter (fun _ => true) l = l) by (induction l; simpl; congruence).
  rewrite <- (T ks), <- (T (zkeys (z_res r))). destruct (cp_n1 _ _ H) as [E|[E [E2 HD]]].
  - apply rz_same; auto.
  - apply (rz_one o r (fun _ => true) (fun _ => true)); auto.
Qed.

(** ** One resampled estimate *)
Lemma comp_row B o r ps : compat o r ->
  let d := addDummies (z_res o) (zkeys (z_res r)) in
  (forall ij, In ij ps -> In ij (zkeys d)) -> rzPairs r ps <> [] ->
  exists a, compFrom B d (Some r) ps = Some a /\
    (forall k, a X1 k = meanOver d X1 ps k - meanOver (z_res r) X1 (rzPairs r ps) k) /\
    (forall k, a X2 k = meanOver d X2 ps k).
Proof.
  intros H d HI HN.
  assert (HP : ps <> []).
  { intros ->. apply HN. unfold rzPairs. simpl. rewrite andb_false_r. auto. }
  destruct (plainFrom_spec B d ps HP HI) as [a [Ea [A1 [A2 _]]]].
  destruct (plainFrom_spec B (z_res r) (rzPairs r ps) HN) as [b [Eb [B1 _]]].
  { intros ij Hi. unfold rzPairs in Hi. apply filter_In in Hi as [_ Hi]. apply okKey_in in Hi.
    unfold okKeys in Hi. rewrite (cp_ok _ _ H) in Hi. auto. }
  unfold compFrom. rewrite Ea, Eb. eexists; split; [reflexivity|]. cbn beta iota.
  split; intro k; rewrite ?A1, ?B1; auto.
Qed.

Lemma calc_res B m mr s r s' : z_res (zo s) <> [] -> zcalcXi B m mr s (Some r) = Some s' ->
  z_res (zo s') = addDummies (z_res (zo s)) (zkeys (z_res r)) /\ zrz s' = Some r /\
  z_n1 (zo s') = z_n1 (zo s) /\ z_n2 (zo s') = z_n2 (zo s).
Proof.
  intros HN H. unfold zcalcXi in H. destruct (((_ =? _)%Z || _) && _); [|discriminate].
  destruct (z_res (zo s)) eqn:E; [congruence|]. destruct (estimateCov _ _ _); [|discriminate].
  inversion H; subst. simpl. auto.
Qed.

(** ** C75 *)
(** xi = raw_xi - rk.xi (both parts), and nothing else of the arrays changes. *)
Theorem C75_compensated B m mr s r s' : zcalcXi B m mr s (Some r) = Some s' ->
  (forall k, zxi (zo s') k = z_arr (zo s) X1 k - zxi r k) /\
  (forall k, zxim (zo s') k = z_arr (zo s) X2 k - zxim r k) /\
  (forall f k, z_arr (zo s') f k = z_arr (zo s) f k) /\ zrz s' = Some r.
Proof.
  unfold zcalcXi. destruct (((_ =? _)%Z || _) && _); [|discriminate].
  destruct (z_res (zo s)) eqn:E.
  - set (s0 := mkNZ _ _). destruct (rawVarxi B m s0) as [[s1 v]|] eqn:ER; [|discriminate].
    destruct (varxi B mr _) as [[s2 v2]|]; [|discriminate]. intro H. inversion H; subst. clear H.
    assert (A : z_arr (zo s1) = z_arr (zo s0) /\ z_xi (zo s1) = z_xi (zo s0) /\ z_xim (zo s1) = z_xim (zo s0) /\
                zrz s1 = zrz s0).
    { revert ER. unfold rawVarxi. destruct (z_rvx (zo s0)); [intro X; inversion X; subst; auto|].
      destruct (Req_EM_T _ 0); [intro X; inversion X; subst; auto|].
      unfold covDiag. destruct (z_cov (zo s0)); [intro X; inversion X; subst; auto|].
      destruct (estimateCov B m s0); [|discriminate]. intro X; inversion X; subst; auto. }
    destruct A as [A1 [A2 [A3 A4]]]. unfold zxi, zxim. simpl. rewrite A1, A2, A3, A4. simpl. auto.
  - destruct (estimateCov B m _); [|discriminate]. intro H. inversion H; subst. unfold zxi, zxim. simpl. auto.
Qed.
(** For two processed correlations: the mean around the lenses minus the mean around the randoms. *)
Theorem C75_estimate B m mr a res n1 n2 v b resr m1 m2 vr s' k :
  zcalcXi B m mr (mkNZ (zfinalize B a res n1 n2 v) None) (Some (zfinalize B b resr m1 m2 vr)) = Some s' ->
  a ZW k <> 0 -> b ZW k <> 0 ->
  zxi (zo s') k = a X1 k / a ZW k - b X1 k / b ZW k /\
  zxim (zo s') k = a X2 k / a ZW k - b X2 k / b ZW k.
Proof.
  intros H HA HB. destruct (C75_compensated _ _ _ _ _ _ H) as [E1 [E2 _]]. rewrite E1, E2.
  unfold zxi, zxim, zfinalize, zfin. simpl. destruct (Req_EM_T (a ZW k) 0); [tauto|].
  destruct (Req_EM_T (b ZW k) 0); [tauto|]. auto.
Qed.

(** The row for the i-th jackknife sample. *)
Theorem C75_jackknife B m mr s r s' i : compat (zo s) r -> zcalcXi B m mr s (Some r) = Some s' ->
  jackPairs (z_n1 r) (z_n2 r) i (zkeys (z_res r)) <> [] ->
  exists a, compFrom B (z_res (zo s')) (zrz s')
              (jackPairs (z_n1 (zo s')) (z_n2 (zo s')) i (zkeys (z_res (zo s')))) = Some a /\
    forall k, a X1 k = meanOver (z_res (zo s)) X1 (jackPairs (z_n1 (zo s)) (z_n2 (zo s)) i (zkeys (z_res (zo s)))) k
                     - meanOver (z_res r) X1 (jackPairs (z_n1 r) (z_n2 r) i (zkeys (z_res r))) k.
Proof.
  intros H HC HN. destruct (calc_res _ _ _ _ _ _ (cp_ne _ _ H) HC) as [E1 [E2 [E3 E4]]].
  rewrite E1, E2, E3, E4. pose proof (rz_jack _ _ i H) as P. cbv zeta in P.
  destruct (comp_row B (zo s) r (jackPairs (z_n1 (zo s)) (z_n2 (zo s)) i
              (zkeys (addDummies (z_res (zo s)) (zkeys (z_res r)))))) as [a [Ea [A1 _]]]; auto.
  - intros ij Hi. rewrite jack_filter in Hi. apply filter_In in Hi. tauto.
  - intro E. rewrite E in P. apply Permutation_nil in P. auto.
  - exists a. split; auto. intro k. rewrite A1. f_equal.
    + rewrite !jack_filter. apply meanOver_dummies; apply H.
    + apply meanOver_perm; auto.
Qed.

(** The row for all pairs gives back calculateXi's xi. *)
Lemma sum_keys d f k : NoDup (zkeys d) -> sumR (zval d f k) (zkeys d) = sumR (fun a => a f k) (map snd d).
Proof.
  intro H. unfold zkeys. rewrite !sumR_map. apply sumR_ext. intros [ij a] Hi. unfold zval. cbn [fst snd].
  assert (zget ij d = Some a) as ->; auto.
  clear -H Hi. induction d as [|[k' v] t IH]; simpl in *; [tauto|]. inversion H as [|? ? Hk Ht]; subst.
  destruct Hi as [E|Hi].
  - inversion E; subst. rewrite keqb_refl. auto.
  - destruct (keqb ij k') eqn:E; auto. apply keqb_eq in E. subst. exfalso. apply Hk.
    apply (in_map fst) in Hi. auto.
Qed.
Lemma zfin_mean B d k : NoDup (zkeys d) -> zfin B (zsum (map snd d)) X1 k = meanOver d X1 (zkeys d) k.
Proof.
  intro H. unfold zfin, zsum, meanOver, wmean. rewrite !sum_keys by auto. destruct (Req_EM_T _ 0); auto.
Qed.
Theorem C75_all_pairs B m mr s r s' : compat (zo s) r -> zcalcXi B m mr s (Some r) = Some s' ->
  z_res r <> [] ->
  (forall k, z_arr (zo s) X1 k = zfin B (zsum (map snd (z_res (zo s)))) X1 k) ->
  (forall k, zxi r k = zfin B (zsum (map snd (z_res r))) X1 k) ->
  exists a, compFrom B (z_res (zo s')) (zrz s') (zkeys (z_res (zo s'))) = Some a /\
    forall k, a X1 k = zxi (zo s') k.
Proof.
  intros H HC HN HS HR. destruct (calc_res _ _ _ _ _ _ (cp_ne _ _ H) HC) as [E1 [E2 _]].
  destruct (C75_compensated _ _ _ _ _ _ HC) as [X _]. rewrite E1, E2.
  pose proof (rz_all _ _ H) as P. cbv zeta in P.
  destruct (comp_row B (zo s) r (zkeys (addDummies (z_res (zo s)) (zkeys (z_res r))))) as [a [Ea [A1 _]]]; auto.
  - intro E. rewrite E in P. apply Permutation_nil in P. destruct (z_res r); [auto|discriminate].
  - exists a. split; auto. intro k. rewrite A1, X, HS, HR, !zfin_mean by apply H. f_equal.
    + assert (T : forall (l : list key), filter (fun _ => true) l = l) by (induction l; simpl; congruence).
      rewrite <- (T (zkeys (addDummies _ _))), <- (T (zkeys (z_res (zo s)))).
      apply meanOver_dummies; apply H.
    + apply meanOver_perm; auto.
Qed.

(** ** From the catalogs: NK with patches *)
Definition ofCorr (c : corr) : arrs := fun f =>
  match f with X1 => a_xi_nk (kacc c) | X2 => fun _ => 0 | ZMR => a_meanr (kacc c) | ZMLR => a_meanlogr (kacc c)
             | ZW => a_weight (kacc c) | ZNP => a_npairs (kacc c) end.
Definition ofDict (d : dict) : zdict := map (fun kv => (fst kv, ofCorr (snd kv))) d.
(** the finalized NKCorrelation after a patch run *)
Definition nkOf (B : bparams) (st : pstate) (n1 n2 : Z) (var : R) : zobj :=
  zfinalize B (ofCorr (sself st)) (ofDict (sres st)) n1 n2 var.

Lemma zkeys_ofDict d : zkeys (ofDict d) = keysOf d.
Proof. unfold zkeys, ofDict, keysOf. rewrite map_map. auto. Qed.
Lemma zget_ofDict k d : zget k (ofDict d) = option_map ofCorr (dget k d).
Proof. induction d as [|[k' v] t IH]; simpl; auto. destruct (keqb k k'); auto. Qed.
Lemma lookup_sum d ps l (g : corr -> R) : lookup d ps = Some l ->
  sumR g l = sumR (fun ij => match dget ij d with Some c => g c | None => 0 end) ps.
Proof.
  revert l. induction ps as [|a t IH]; simpl; intros l H.
  - inversion H; auto.
  - destruct (dget a d) as [x|] eqn:E; [|discriminate]. destruct (lookup d t) as [l'|]; [|discriminate].
    inversion H; subst. simpl. rewrite (IH l' eq_refl). auto.
Qed.
Lemma lookup_in d ps l c : lookup d ps = Some l -> In c l -> exists k, In (k, c) d.
Proof.
  revert l. induction ps as [|a t IH]; simpl; intros l H Hc.
  - inversion H; subst. destruct Hc.
  - destruct (dget a d) as [x|] eqn:E; [|discriminate]. destruct (lookup d t) as [l'|]; [|discriminate].
    inversion H; subst. destruct Hc as [->|Hc]; eauto. exists a. clear -E.
    induction d as [|[k' v] t IH]; simpl in *; [discriminate|]. destruct (keqb a k') eqn:F; auto.
    apply keqb_eq in F. inversion E; subst. auto.
Qed.
Lemma meanOver_corr B d ps c k : allConsistent d -> In k (bins B) -> sumPairsOf B d ps = Some c ->
  sumR (zval (ofDict d) X1 k) ps = a_xi_nk (kacc c) k /\ sumR (zval (ofDict d) ZW k) ps = a_weight (kacc c) k.
Proof.
  intros HC Hk H. unfold sumPairsOf in H. destruct (lookup d ps) as [l|] eqn:E; [|discriminate].
  inversion H; subst. clear H.
  assert (CL : forall c, In c l -> consistent (kacc c)).
  { intros c Hc. destruct (lookup_in d ps l c E Hc) as [x Hx]. eapply HC; eauto. }
  pose proof (ksum_get B l FXiNK k Hk CL) as A. pose proof (ksum_get B l FWeight k Hk CL) as W.
  cbn [aget] in A, W. rewrite A, W. rewrite (lookup_sum d ps l (fun c => a_xi_nk (kacc c) k) E).
  rewrite (lookup_sum d ps l (fun c => a_weight (kacc c) k) E).
  split; apply sumR_ext; intros x _; unfold zval; rewrite zget_ofDict; destruct (dget x d); auto.
Qed.

Definition patchesIn (n : Z) (cats : list patch) : Prop := forall c, In c cats -> (0 <= pidx c < n)%Z.
Lemma cross_keys_in n1 n2 m1 m2 cats1 cats2 x : patchesIn m1 cats1 -> patchesIn m2 cats2 ->
  In x (map jobKey (crossJobs n1 n2 cats1 cats2)) -> inRange m1 m2 x.
Proof.
  intros H1 H2 H. apply in_map_iff in H as [J [<- HJ]]. unfold crossJobs in HJ.
  apply in_flat_map in HJ as [c1 [Hc1 HJ]]. apply in_map_iff in HJ as [c2 [<- Hc2]].
  unfold inRange. simpl. split; [apply (H1 c1)|apply (H2 c2)]; auto.
Qed.

(** xi of the i-th jackknife sample of an NKCorrelation compensated by a run with randoms (with the same lens
    patches, or not split) is the mean kappa around the lenses minus the mean kappa around the randoms, of the
    catalogs without patch i. *)
Theorem C75_catalogs C CR n1 n2 m1 cats1 ran cats2 st str v vr m mr s' i k :
  let R := pR C in let B := cbin (rP R) in
  pR CR = R ->
  cmetric (rP R) = Euclidean -> rcoord R <> Sphere -> crpar (rP R) = None -> validB B ->
  slop_b B = 0 -> narrowLog B ->
  offEdges B euclid (allRows cats1) (allRows cats2) -> offEdges B euclid (allRows ran) (allRows cats2) ->
  posW (allRows cats1) -> posW (allRows ran) -> posW (allRows cats2) -> (0 <= k < nbins B)%Z ->
  NoDup (map pidx cats1) -> NoDup (map pidx ran) -> NoDup (map pidx cats2) ->
  patchesIn n1 cats1 -> patchesIn m1 ran -> patchesIn n2 cats2 ->
  (m1 = n1 \/ m1 = 1%Z /\ n2 <> 1%Z /\ forall j, In (0, j)%Z (keysOf (sres str)) -> In (j, j) (keysOf (sres st))) ->
  runJobs C sclear (crossJobs n1 n2 cats1 cats2) st ->
  runJobs CR sclear (crossJobs m1 n2 ran cats2) str ->
  zcalcXi B m mr (mkNZ (nkOf B st n1 n2 v) None) (Some (nkOf B str m1 n2 vr)) = Some s' ->
  let rest1 := allRows (without1 n2 n1 i cats1) in let rest2 := allRows (without2 n2 n1 i cats2) in
  let restR := allRows (without1 n2 m1 i ran) in let restR2 := allRows (without2 n2 m1 i cats2) in
  let sel := selBin B euclid k in
  sumPairs sel v_ww rest1 rest2 <> 0 -> sumPairs sel v_ww restR restR2 <> 0 ->
  exists a, compFrom B (z_res (zo s')) (zrz s')
              (jackPairs (z_n1 (zo s')) (z_n2 (zo s')) i (zkeys (z_res (zo s')))) = Some a /\
    a X1 k = sumPairs sel v_nk rest1 rest2 / sumPairs sel v_ww rest1 rest2
           - sumPairs sel v_nk restR restR2 / sumPairs sel v_ww restR restR2.
Proof.
  intros R B ER HM HS Hr HB Hb HN HE HER W1 WR W2 Hk N1 NR N2 P1 PR P2 HM1 HD HRd HC rest1 rest2 restR restR2 sel Z1 Z2.
  destruct (C21_jackknife_cross C n1 n2 cats1 cats2 i st k) as [c [Ec [[_ [Cw [Cx _]]] _]]]; auto.
  destruct (C21_jackknife_cross CR m1 n2 ran cats2 i str k) as [d [Ed [[_ [Dw [Dx _]]] _]]]; rewrite ?ER; auto.
  rewrite ER in *. fold R B in Cw, Cx, Dw, Dx, Ec, Ed.
  fold sel rest1 rest2 in Cw, Cx. fold sel restR restR2 in Dw, Dx.
  assert (OKB : okB (pB C)) by (apply validB_okB; auto).
  assert (OKR : okB (pB CR)) by (unfold pB; rewrite ER; apply validB_okB; auto).
  destruct (jobs_res C sclear _ st OKB resInv_clear (crossJobs_keys n1 n2 cats1 cats2 N1 N2) (fun _ _ F => F) HD)
    as [[ND HCo] [HKe _]].
  destruct (jobs_res CR sclear _ str OKR resInv_clear (crossJobs_keys m1 n2 ran cats2 NR N2) (fun _ _ F => F) HRd)
    as [[NDr HCor] [HKr _]].
  assert (HB' : In k (bins B)) by (apply in_bins; auto).
  destruct (meanOver_corr B _ _ _ k HCo HB' Ec) as [SX SW].
  destruct (meanOver_corr B _ _ _ k HCor HB' Ed) as [TX TW].
  assert (CL0 : a_weight cleared k = 0 /\ a_xi_nk cleared k = 0) by (split; reflexivity).
  destruct CL0 as [CLw CLx].
  assert (Cw' : a_weight (kacc c) k = sumPairs sel v_ww rest1 rest2) by (rewrite Cw, CLw; lra).
  assert (Cx' : a_xi_nk (kacc c) k = sumPairs sel v_nk rest1 rest2) by (rewrite Cx, CLx; lra).
  assert (Dw' : a_weight (kacc d) k = sumPairs sel v_ww restR restR2) by (rewrite Dw, CLw; lra).
  assert (Dx' : a_xi_nk (kacc d) k = sumPairs sel v_nk restR restR2) by (rewrite Dx, CLx; lra).
  rewrite Cw' in SW. rewrite Cx' in SX. rewrite Dw' in TW. rewrite Dx' in TX.
  assert (NEr : jackPairs m1 n2 i (keysOf (sres str)) <> []).
  { intro E. rewrite E in TW. simpl in TW. apply Z2. auto. }
  assert (NE : sres st <> []).
  { intro E. rewrite E in SW. unfold keysOf in SW. simpl in SW. rewrite jack_filter in SW. simpl in SW. apply Z1. auto. }
  set (s := mkNZ (nkOf B st n1 n2 v) None) in *. set (r := nkOf B str m1 n2 vr) in *.
  assert (CP : compat (zo s) r).
  { constructor; simpl; rewrite ?zkeys_ofDict; auto.
    - intros ij Hi. destruct (HKe ij Hi) as [Hj|[]]. eapply cross_keys_in; eauto.
    - intros ij Hi. destruct (HKr ij Hi) as [Hj|[]]. eapply cross_keys_in; eauto.
    - intro E. apply NE. destruct (sres st); auto. discriminate. }
  destruct (C75_jackknife B m mr s r s' i CP HC) as [a [Ea A1]].
  { simpl. rewrite zkeys_ofDict. auto. }
  exists a. split; auto. rewrite A1. simpl. rewrite !zkeys_ofDict. unfold meanOver, wmean.
  rewrite SX, SW, TX, TW. destruct (Req_EM_T _ 0); [tauto|]. destruct (Req_EM_T _ 0); [tauto|]. auto.
Qed.
