(** Properties C35, C36, C53, C54, C55: the columns of a Catalog. *)
From Coq Require Import Reals Lra Lia List ZArith Bool.
From Verif Require Import Base Geometry Tree Traverse SumFacts Catalog CatFacts.
Import ListNotations.
Open Scope R_scope.

(** ** C36: flags, NaNs and zero weights *)
(** Specification: a row is good if it is not flagged, no value in it is NaN, and its weight is a
    nonzero number. *)
Definition goodRow (ign : Z) (c : rawcat) (r : row) : Prop :=
  (has_flag c = true -> Z.land (rflag r) ign = 0%Z) /\ ~ In NaN (rcols r) /\
  (has_w c = true -> exists w, rw r = Num w /\ w <> 0).
(** With wpos: it is not flagged and its wpos is a nonzero number. *)
Definition goodWpos (ign : Z) (c : rawcat) (r : row) : Prop :=
  (has_flag c = true -> Z.land (rflag r) ign = 0%Z) /\ exists p, rwpos r = Num p /\ p <> 0.
(** A list is the ordered sublist of the elements that satisfy P. *)
Inductive keeps {A} (P : A -> Prop) : list A -> list A -> Prop :=
| keeps_nil : keeps P [] []
| keeps_yes a l m : P a -> keeps P l m -> keeps P (a :: l) (a :: m)
| keeps_no a l m : ~ P a -> keeps P l m -> keeps P (a :: l) m.
Lemma keeps_filter {A} (P : A -> Prop) (p : A -> bool) l : (forall a, In a l -> p a = true <-> P a) -> keeps P l (filter p l).
Proof.
  induction l; simpl; intros H; [constructor|]. destruct (p a) eqn:E.
  - constructor; auto. apply H; auto.
  - constructor; auto. intros HP. apply (H a) in HP; auto. congruence.
Qed.

Lemma nanRow_false r : nanRow r = false <-> ~ In NaN (rcols r).
Proof.
  unfold nanRow. split.
  - intros H Hi. apply (existsb_false _ _ H) in Hi. discriminate.
  - intros H. destruct (existsb isnan (rcols r)) eqn:E; auto. exfalso. apply existsb_exists in E.
    destruct E as ([|x] & Hx & E); [auto|discriminate].
Qed.
Lemma flagged_false ign c r : flagged ign c r = false <-> (has_flag c = true -> Z.land (rflag r) ign = 0%Z).
Proof.
  unfold flagged. destruct (has_flag c); simpl; [|split; auto; discriminate].
  rewrite negb_false_iff, Z.eqb_eq. split; auto.
Qed.
Lemma iszero_false_clean v : iszero (clean v) = false <-> exists x, v = Num x /\ x <> 0.
Proof.
  destruct v as [|x]; unfold iszero; cbn.
  - split. + destruct (Req_EM_T 0 0); [discriminate|lra]. + intros (x & H & _). discriminate.
  - destruct (Req_EM_T x 0).
    + split; [discriminate|]. intros (y & H & Hy). inversion H. subst. lra.
    + split; auto. intros _. exists x. auto.
Qed.
Lemma inputW_good c r : (exists x, inputW c r = Num x /\ x <> 0) <-> (has_w c = true -> exists w, rw r = Num w /\ w <> 0).
Proof.
  unfold inputW. destruct (has_w c).
  - split; auto.
  - split; [discriminate|]. intros _. exists 1. split; [auto|lra].
Qed.
Lemma clean_id l : ~ In NaN l -> map clean l = l.
Proof.
  intros H. rewrite <- (map_id l) at 2. apply map_ext_in. intros [|x] Hx; [contradiction|reflexivity].
Qed.
Lemma filter_map {A B} (f : A -> B) p l : filter p (map f l) = map f (filter (fun a => p (f a)) l).
Proof. induction l; simpl; auto. destruct (p (f a)); simpl; congruence. Qed.
Lemma filter_all {A} (p : A -> bool) l : (forall a, In a l -> p a = true) -> filter p l = l.
Proof. induction l; simpl; intros H; auto. rewrite H, IHl; auto. Qed.
Lemma finalW_nowpos ign c r : has_wpos c = false ->
  iszero (finalW ign c r) = false <-> goodRow ign c r.
Proof.
  intros Hp. unfold finalW. rewrite Hp, andb_false_l, orb_false_r. unfold goodRow.
  rewrite <- flagged_false, <- nanRow_false, <- inputW_good, <- iszero_false_clean.
  destruct (flagged ign c r), (nanRow r); cbn [orb]; try rewrite iszero_0; intuition congruence.
Qed.
Lemma weighted_false ign c r : weighted ign c = false -> In r (rrows c) -> iszero (finalW ign c r) = false.
Proof.
  intros W Hr. unfold weighted in W. repeat (apply orb_false_elim in W; destruct W as [W ?]).
  unfold finalW, flagged, inputW. rewrite W. rewrite H1. cbn [andb orb].
  rewrite (existsb_false _ _ H0 r Hr). cbn [orb].
  assert (Hn : iszero (clean (Num 1)) = false) by (apply iszero_false_clean; exists 1; split; [auto|lra]).
  destruct (has_wpos c); cbn [andb] in *; [rewrite (existsb_false _ _ H r Hr)|]; exact Hn.
Qed.
Definition sameLen (ncol : nat) (c : rawcat) : Prop := forall r, In r (rrows c) -> length (rcols r) = ncol.

(** Without wpos: the rows of the catalog are exactly the good rows, in order, with their own values
    and weights (1 if there is no weight column). *)
Theorem C36_rows ncol ign c k : sameLen ncol c -> has_wpos c = false ->
  finishInput ncol ign false c = Some k ->
  exists good, keeps (goodRow ign c) (rrows c) good /\
    cat_rows k = map (fun r => if has_w c then r else setw (Num 1) r) good.
Proof.
  intros Hl Hp H. rewrite finish_spec in H by exact Hl. cbn zeta in H. destruct (_ && _) in H; [discriminate|].
  inversion H; subst k; clear H. cbn [cat_rows].
  exists (filter (fun r => negb (iszero (finalW ign c r))) (rrows c)). split.
  - apply keeps_filter. intros r _. rewrite <- finalW_nowpos, negb_true_iff by auto. reflexivity.
  - assert (E : finalRows false ign c = map (cleanRow ign c) (filter (fun r => negb (iszero (finalW ign c r))) (rrows c))).
    { unfold finalRows. cbn [negb andb]. rewrite Hp. destruct (weighted ign c) eqn:W.
      - rewrite filter_map. reflexivity.
      - rewrite filter_all; auto. intros r Hr. rewrite (weighted_false _ _ _ W Hr). reflexivity. }
    rewrite E. apply map_ext_in. intros r Hr. apply filter_In in Hr. destruct Hr as [_ Hr].
    apply negb_true_iff in Hr. apply finalW_nowpos in Hr; auto. unfold cleanRow. rewrite Hp.
    destruct Hr as (Hf & Hn & Hw). rewrite clean_id by auto. unfold finalW.
    rewrite (proj2 (flagged_false _ _ _) Hf), (proj2 (nanRow_false _) Hn), Hp. cbn [orb andb]. unfold inputW.
    destruct (has_w c); [|reflexivity]. destruct (Hw eq_refl) as (w & E1 & _). destruct r. cbn in *. rewrite E1. reflexivity.
Qed.
(** With wpos: the rows kept are the unflagged ones with nonzero wpos; NaN values became 0 and their
    rows (and the rows with NaN weight) have weight 0; the other rows keep their values and weights. *)
Theorem C36_rows_wpos ncol ign c k : sameLen ncol c -> has_wpos c = true ->
  finishInput ncol ign false c = Some k ->
  exists good, keeps (goodWpos ign c) (rrows c) good /\
    Forall2 (fun r r' =>
      rcols r' = map (fun v => match v with NaN => Num 0 | Num x => Num x end) (rcols r) /\ rwpos r' = rwpos r /\
      ((~ In NaN (rcols r) /\ inputW c r <> NaN -> rw r' = inputW c r) /\
       (In NaN (rcols r) \/ inputW c r = NaN -> rw r' = Num 0))) good (cat_rows k).
Proof.
  intros Hl Hp H. rewrite finish_spec in H by exact Hl. cbn zeta in H. destruct (_ && _) in H; [discriminate|].
  inversion H; subst k; clear H. cbn [cat_rows].
  assert (G : forall r, iszero (finalWpos ign c r) = false <-> goodWpos ign c r).
  { intros r. unfold finalWpos, goodWpos. rewrite <- flagged_false, <- iszero_false_clean.
    destruct (flagged ign c r); [rewrite iszero_0|]; intuition congruence. }
  exists (filter (fun r => negb (iszero (finalWpos ign c r))) (rrows c)). split.
  - apply keeps_filter. intros r _. rewrite <- G, negb_true_iff. reflexivity.
  - assert (E : finalRows false ign c = map (cleanRow ign c) (filter (fun r => negb (iszero (finalWpos ign c r))) (rrows c))).
    { unfold finalRows. cbn [negb andb]. rewrite Hp. destruct (weighted ign c) eqn:W.
      - rewrite filter_map. unfold cleanRow at 2. rewrite Hp. reflexivity.
      - rewrite filter_all; auto. intros r Hr. unfold weighted in W. rewrite Hp in W.
        apply orb_false_elim in W. destruct W as [_ W]. cbn [andb] in W. rewrite (existsb_false _ _ W r Hr). reflexivity. }
    rewrite E. set (l := filter _ _).
    assert (Hg : forall r, In r l -> goodWpos ign c r /\ iszero (finalWpos ign c r) = false).
    { intros r Hr. apply filter_In in Hr. destruct Hr as [_ Hr]. apply negb_true_iff in Hr. split; [apply G|]; auto. }
    clearbody l. clear E. induction l as [|r l IH]; cbn [map]; constructor; [|apply IH; intros; apply Hg; right; auto].
    destruct (Hg r (or_introl eq_refl)) as [(Hf & p & E1 & E2) Hz]. cbn [rcols rwpos rw cleanRow]. rewrite Hp.
    apply flagged_false in Hf. split; [reflexivity|]. split.
    { unfold finalWpos. rewrite Hf, E1. reflexivity. }
    unfold finalW. rewrite Hf, Hz, andb_false_r, orb_false_r. cbn [orb]. split.
    + intros (Hn & Hw). apply nanRow_false in Hn. rewrite Hn. destruct (inputW c r); [contradiction|reflexivity].
    + intros [Hn|Hw].
      * destruct (nanRow r) eqn:E; auto. apply nanRow_false in E. contradiction.
      * rewrite Hw. cbn. destruct (nanRow r); reflexivity.
Qed.
(** keep_zero_weight=True: no row is removed; the rows that are not good have weight 0. *)
Theorem C36_keep ncol ign c k : sameLen ncol c -> finishInput ncol ign true c = Some k ->
  Forall2 (fun r r' => rcols r' = map (fun v => match v with NaN => Num 0 | Num x => Num x end) (rcols r) /\
     (has_wpos c = false -> ~ goodRow ign c r -> rw r' = Num 0) /\
     (has_wpos c = true -> ~ goodWpos ign c r -> rw r' = Num 0 /\ rwpos r' = Num 0) /\
     (goodRow ign c r -> (has_wpos c = true -> goodWpos ign c r) ->
       r' = if has_w c then r else setw (Num 1) r)) (rrows c) (cat_rows k).
Proof.
  intros Hl H. rewrite finish_spec in H by exact Hl. cbn zeta in H. destruct (_ && _) in H; [discriminate|].
  inversion H; subst k; clear H. cbn [cat_rows]. unfold finalRows. cbn [negb andb]. clear Hl.
  assert (G : forall r, iszero (finalWpos ign c r) = false <-> goodWpos ign c r).
  { intros r. unfold finalWpos, goodWpos. rewrite <- flagged_false, <- iszero_false_clean.
    destruct (flagged ign c r); [rewrite iszero_0|]; intuition congruence. }
  assert (Z0 : forall v, iszero v = true -> v = Num 0).
  { intros [|x]; unfold iszero; [discriminate|]. destruct (Req_EM_T x 0); [congruence|discriminate]. }
  induction (rrows c) as [|r l IH]; cbn [map]; constructor; auto.
  split; [reflexivity|]. split; [|split].
  - intros Hp Hg. cbn [rw cleanRow]. apply Z0. destruct (iszero _) eqn:E; auto. exfalso. apply Hg. apply finalW_nowpos; auto.
  - intros Hp Hg. assert (E : iszero (finalWpos ign c r) = true).
    { destruct (iszero _) eqn:E; auto. exfalso. apply Hg, G; auto. }
    cbn [rw rwpos cleanRow]. rewrite Hp. split; [|apply Z0; auto]. unfold finalW. rewrite Hp, E, orb_true_r. reflexivity.
  - intros (Hf & Hn & Hw) Hg. unfold cleanRow. rewrite clean_id by auto.
    apply flagged_false in Hf. apply nanRow_false in Hn. unfold finalW. rewrite Hf, Hn. cbn [orb].
    assert (EW : clean (inputW c r) = inputW c r).
    { apply inputW_good in Hw. destruct Hw as (x & -> & _). reflexivity. }
    assert (EP : (has_wpos c && iszero (finalWpos ign c r)) = false).
    { destruct (has_wpos c); auto. cbn. apply G; auto. }
    rewrite EP, EW. unfold inputW. destruct (has_wpos c) eqn:Ep.
    + unfold finalWpos. rewrite Hf. destruct (Hg eq_refl) as (_ & p & E1 & _). rewrite E1. cbn.
      unfold setw; destruct (has_w c), r; cbn in *; subst; reflexivity.
    + destruct (has_w c), r; reflexivity.
Qed.
(** The total weight is the sum of the weights of the rows (kept or not), and construction fails
    exactly if there are weights and they sum to zero. *)
Lemma sumR_filter_zero {A} (f : A -> R) (p : A -> bool) l : (forall a, In a l -> p a = false -> f a = 0) ->
  sumR f (filter p l) = sumR f l.
Proof.
  induction l; simpl; intros H; auto. destruct (p a) eqn:E; simpl; rewrite IHl; auto.
  rewrite (H a); auto. lra.
Qed.
Theorem C36_sumw ncol ign keep c k : sameLen ncol c -> finishInput ncol ign keep c = Some k ->
  cat_sumw k = sumR (fun r => flval (rw r)) (cat_rows k) /\
  (cat_nontriv k = true -> cat_sumw k <> 0) /\
  (cat_nontriv k = false -> cat_sumw k = INR (length (rrows c)) /\ length (cat_rows k) = length (rrows c)).
Proof.
  intros Hl H. rewrite finish_spec in H by exact Hl. cbn zeta in H.
  destruct (weighted ign c && _) eqn:E0 in H; [discriminate|].
  inversion H; subst k; clear H. cbn [cat_rows cat_sumw cat_nontriv]. split; [|split].
  - unfold finalRows. destruct (negb keep && weighted ign c).
    + rewrite sumR_filter_zero.
      * rewrite sumR_map. reflexivity.
      * intros r' Hr Hz. apply in_map_iff in Hr. destruct Hr as (r & <- & Hr). apply negb_false_iff in Hz.
        cbn [rw cleanRow]. destruct (has_wpos c) eqn:Hp.
        { unfold finalW. cbn [rwpos cleanRow] in Hz. rewrite Hp in Hz. rewrite Hp, Hz, orb_true_r. reflexivity. }
        cbn [rw cleanRow] in Hz. destruct (finalW ign c r) as [|x]; [discriminate|]. unfold iszero in Hz. cbn.
        destruct (Req_EM_T x 0); [auto|discriminate].
    + rewrite sumR_map. reflexivity.
  - intros W. rewrite W in E0. cbn in E0. destruct (Req_EM_T _ 0); [discriminate|auto].
  - intros W. split.
    + rewrite <- (sumR_ext (fun _ => 1)).
      * clear. induction (rrows c); [reflexivity|]. cbn [length]. rewrite S_INR. cbn [sumR]. rewrite IHl. lra.
      * intros r Hr. unfold weighted in W. repeat (apply orb_false_elim in W; destruct W as [W ?]).
        unfold finalW, flagged, inputW. rewrite W. rewrite H1. cbn [andb orb].
        rewrite (existsb_false _ _ H0 r Hr). cbn [orb].
        destruct (has_wpos c); cbn [andb] in *; [rewrite (existsb_false _ _ H r Hr)|]; reflexivity.
    + unfold finalRows. rewrite W, andb_false_r. apply map_length.
Qed.
Theorem C36_error ncol ign keep c : sameLen ncol c -> has_wpos c = false ->
  finishInput ncol ign keep c = None <->
  (has_w c = true \/ has_flag c = true \/ exists r, In r (rrows c) /\ In NaN (rcols r)) /\
  forall good, keeps (goodRow ign c) (rrows c) good -> sumR (fun r => flval (inputW c r)) good = 0.
Proof.
  intros Hl Hp. rewrite finish_spec by exact Hl. cbn zeta.
  assert (W : weighted ign c = true <-> (has_w c = true \/ has_flag c = true \/ exists r, In r (rrows c) /\ In NaN (rcols r))).
  { unfold weighted. rewrite Hp. cbn [andb]. rewrite orb_false_r, !orb_true_iff, existsb_exists.
    assert (X : (exists x, In x (rrows c) /\ nanRow x = true) <-> (exists r, In r (rrows c) /\ In NaN (rcols r))).
    { split; intros (r & Hr & E); exists r; split; auto.
      - apply existsb_exists in E. destruct E as ([|x] & Hx & E); [auto|discriminate].
      - destruct (nanRow r) eqn:E2; auto. apply nanRow_false in E2. contradiction. }
    tauto. }
  assert (S : forall good, keeps (goodRow ign c) (rrows c) good ->
     sumR (fun r => flval (inputW c r)) good = sumR (fun r => flval (finalW ign c r)) (rrows c)).
  { intros good Hk. clear W Hl. induction Hk; cbn [sumR]; auto.
    - rewrite IHHk. f_equal. destruct H as (Hf & Hn & Hw). apply flagged_false in Hf. apply nanRow_false in Hn.
      unfold finalW. rewrite Hf, Hn, Hp. cbn [orb andb]. destruct (inputW c a); reflexivity.
    - rewrite IHHk. rewrite <- finalW_nowpos in H by auto.
      destruct (finalW ign c a) as [|x]; unfold iszero in H; cbn.
      + lra.
      + destruct (Req_EM_T x 0); [lra|]. exfalso. apply H. reflexivity. }
  destruct (weighted ign c); cbn [andb].
  - destruct (Req_EM_T _ 0).
    + split; auto. intros _. split; [apply W; auto|]. intros good Hk. rewrite S; auto.
    + split; [discriminate|]. intros [_ H]. exfalso. apply n.
      assert (K : keeps (goodRow ign c) (rrows c) (filter (fun r => negb (iszero (finalW ign c r))) (rrows c))).
      { apply keeps_filter. intros r _. rewrite <- finalW_nowpos, negb_true_iff by auto. reflexivity. }
      rewrite <- (S _ K). auto.
  - split; [discriminate|]. intros [H _]. apply W in H. discriminate.
Qed.
(** ignore_flag: a row is dropped if it has one of these bits; ok_flag: if it has a bit not in ok_flag. *)
Theorem C36_flag_bits ignore_flag ok_flag f :
  Z.land f (ignoreFlag ignore_flag ok_flag) = 0%Z <->
  forall i, (0 <= i)%Z -> Z.testbit f i = true ->
    match ignore_flag with Some g => Z.testbit g i = false | None => Z.testbit ok_flag i = true end.
Proof.
  split.
  - intros H i Hi Hb. assert (E : Z.testbit (Z.land f (ignoreFlag ignore_flag ok_flag)) i = false) by (rewrite H; apply Z.bits_0).
    rewrite Z.land_spec, Hb in E. destruct ignore_flag; cbn in E; auto. rewrite Z.lnot_spec in E by auto.
    apply negb_false_iff in E. auto.
  - intros H. apply Z.bits_inj'. intros i Hi. rewrite Z.bits_0, Z.land_spec. destruct (Z.testbit f i) eqn:E; auto.
    specialize (H i Hi E). destruct ignore_flag; cbn; auto. rewrite Z.lnot_spec, H by auto. reflexivity.
Qed.
(** The claim that rows with NaN are dropped is false with wpos: here x is NaN in the first of two rows
    and the catalog has two rows, the first at x = 0 with wpos = 1 and w = 0. *)
Definition nanCat : rawcat :=
  mkraw false true false [mkrow [NaN; Num 1] (Num 1) (Num 1) 0; mkrow [Num 2; Num 1] (Num 1) (Num 1) 0].
Ltac req := repeat match goal with
  | |- context [Req_EM_T ?a ?b] => destruct (Req_EM_T a b); [try (exfalso; lra)|try (exfalso; lra)]
  end.
Ltac spec := cbv -[IZR Rplus Rmult Req_EM_T]; req.
Theorem C36_nan_wpos_refuted : exists c k, sameLen 2 c /\ finishInput 2 0 false c = Some k /\
  (exists r, nth_error (rrows c) 0 = Some r /\ In NaN (rcols r)) /\
  length (cat_rows k) = length (rrows c) /\
  nth_error (cat_rows k) 0 = Some (mkrow [Num 0; Num 1] (Num 0) (Num 1) 0%Z).
Proof.
  exists nanCat. exists (mkcat true 1 true [mkrow [Num 0; Num 1] (Num 0) (Num 1) 0%Z; mkrow [Num 2; Num 1] (Num 1) (Num 1) 0%Z]).
  split; [|split; [|split; [|split]]]; try reflexivity.
  - intros r [<-|[<-|[]]]; reflexivity.
  - rewrite (finish_spec 2) by (intros r [<-|[<-|[]]]; reflexivity).
    assert (Z1 : iszero (Num 1) = false) by (cbn; req; auto).
    assert (S : sumR (fun r => flval (finalW 0 nanCat r)) (rrows nanCat) = 1).
    { spec. lra. }
    cbn zeta. rewrite S. change (weighted 0 nanCat) with true. cbn [andb]. req. spec. reflexivity.
  - exists (mkrow [NaN; Num 1] (Num 1) (Num 1) 0%Z). split; [reflexivity|]. left. reflexivity.
Qed.
Example C36_rows_example :
  let c := mkraw true false true [mkrow [Num 1] (Num 2) NaN 0; mkrow [NaN] (Num 1) NaN 0; mkrow [Num 3] (Num 1) NaN 2;
                                  mkrow [Num 4] (Num 0) NaN 0; mkrow [Num 5] (Num 3) NaN 1] in
  sameLen 1 c /\ has_wpos c = false /\
  exists k, finishInput 1 (ignoreFlag None 1) false c = Some k /\
    cat_rows k = [mkrow [Num 1] (Num 2) NaN 0%Z; mkrow [Num 5] (Num 3) NaN 1%Z] /\ cat_sumw k = 5.
Proof.
  intros c. assert (H : sameLen 1 c) by (intros r Hr; cbn in Hr; intuition subst; reflexivity).
  split; auto. split; auto. rewrite (finish_spec 1) by exact H. cbn zeta.
  assert (S : sumR (fun r => flval (finalW (ignoreFlag None 1) c r)) (rrows c) = 5).
  { spec. lra. }
  rewrite S. change (weighted (ignoreFlag None 1) c) with true. cbn [andb]. req. eexists. split; [reflexivity|].
  split; [|reflexivity]. spec. reflexivity.
Qed.
Example C36_rows_wpos_example :
  let c := mkraw true true false [mkrow [Num 1] (Num 2) (Num 0) 0; mkrow [Num 3] (Num 1) (Num 4) 0; mkrow [Num 3] (Num 1) NaN 0] in
  sameLen 1 c /\ has_wpos c = true /\
  exists k, finishInput 1 0 false c = Some k /\ cat_rows k = [mkrow [Num 3] (Num 1) (Num 4) 0%Z] /\ cat_sumw k = 1.
Proof.
  intros c. assert (H : sameLen 1 c) by (intros r Hr; cbn in Hr; intuition subst; reflexivity).
  split; auto. split; auto. rewrite (finish_spec 1) by exact H. cbn zeta.
  assert (S : sumR (fun r => flval (finalW 0 c r)) (rrows c) = 1).
  { spec. lra. }
  rewrite S. change (weighted 0 c) with true. cbn [andb]. req. eexists. split; [reflexivity|].
  split; [|reflexivity]. spec. reflexivity.
Qed.
Example C36_error_example : let c := mkraw false false true [mkrow [Num 1] (Num 1) NaN 3; mkrow [Num 3] (Num 1) NaN 1] in
  sameLen 1 c /\ has_wpos c = false /\ finishInput 1 1 false c = None.
Proof.
  intros c. assert (H : sameLen 1 c) by (intros r Hr; cbn in Hr; intuition subst; reflexivity).
  split; auto. split; auto. rewrite (finish_spec 1) by exact H. cbn zeta.
  assert (S : sumR (fun r => flval (finalW 1 c r)) (rrows c) = 0) by (spec; lra).
  rewrite S. change (weighted 1 c) with true. cbn [andb]. req. reflexivity.
Qed.

(** ** C53: a catalog has no NaN left; Catalog.select *)
(** What holds of every constructed catalog. *)
Definition catOK (ncol : nat) (k : catalog) : Prop := forall r, In r (cat_rows k) ->
  length (rcols r) = ncol /\ ~ In NaN (rcols r) /\ rw r <> NaN /\
  (cat_haswpos k = true -> rwpos r <> NaN /\ (rwpos r = Num 0 -> rw r = Num 0)).
Theorem C53_constructed ncol ign keep c k : sameLen ncol c -> finishInput ncol ign keep c = Some k -> catOK ncol k.
Proof.
  intros Hl H. rewrite finish_spec in H by exact Hl. cbn zeta in H. destruct (_ && _) in H; [discriminate|].
  inversion H; subst k; clear H. intros r' Hr. cbn [cat_rows cat_haswpos] in *.
  assert (X : exists r, In r (rrows c) /\ r' = cleanRow ign c r).
  { unfold finalRows in Hr. destruct (_ && _).
    - apply filter_In in Hr. destruct Hr as [Hr _]. apply in_map_iff in Hr. destruct Hr as (r & <- & Hr). eauto.
    - apply in_map_iff in Hr. destruct Hr as (r & <- & Hr). eauto. }
  destruct X as (r & Hin & ->). cbn [rcols rw rwpos cleanRow]. split; [rewrite map_length; auto|]. split; [|split].
  - rewrite in_map_iff. intros ([|x] & E & _); discriminate.
  - unfold finalW. destruct (_ || _); [discriminate|]. destruct (inputW c r); discriminate.
  - intros Hp. rewrite Hp. split.
    + unfold finalWpos. destruct (flagged ign c r); [discriminate|]. destruct (rwpos r); discriminate.
    + intros E. unfold finalW. rewrite Hp, E, iszero_0, orb_true_r. reflexivity.
Qed.
(** Rebuilding from such rows changes nothing, except that zero-weight rows may be removed. *)
Lemma finish_ok ncol ign keep hp rows :
  (forall r, In r rows -> length (rcols r) = ncol /\ ~ In NaN (rcols r) /\ rw r <> NaN /\
    (hp = true -> rwpos r <> NaN /\ (rwpos r = Num 0 -> rw r = Num 0))) ->
  sumR (fun r => flval (rw r)) rows <> 0 ->
  finishInput ncol ign keep (mkraw true hp false rows) =
    Some (mkcat true (sumR (fun r => flval (rw r)) rows) hp
      (if keep then rows else filter (fun r => negb (iszero (if hp then rwpos r else rw r))) rows)).
Proof.
  intros Hok Hs. rewrite finish_spec by (intros r Hr; apply Hok; auto). cbn zeta.
  set (c := mkraw true hp false rows).
  assert (X : forall r, In r rows -> finalW ign c r = rw r /\ cleanRow ign c r = r).
  { intros r Hr. destruct (Hok r Hr) as (_ & Hn & Hw & Hp).
    assert (EW : finalW ign c r = rw r).
    { unfold finalW. change (flagged ign c r) with false. rewrite (proj2 (nanRow_false r) Hn). cbn [orb].
      unfold finalWpos. change (flagged ign c r) with false. change (has_wpos c) with hp. change (inputW c r) with (rw r). cbn [andb].
      destruct hp; cbn [andb].
      - destruct (Hp eq_refl) as [Hp1 Hp2]. destruct (rwpos r) as [|p]; [contradiction|]. cbn [clean].
        destruct (iszero (Num p)) eqn:E.
        + symmetry. apply Hp2. unfold iszero in E. destruct (Req_EM_T p 0); [congruence|discriminate].
        + destruct (rw r); [contradiction|reflexivity].
      - destruct (rw r); [contradiction|reflexivity]. }
    split; auto. unfold cleanRow. rewrite EW, clean_id by auto. unfold finalWpos. change (flagged ign c r) with false.
    change (has_wpos c) with hp. destruct hp; [|destruct r; reflexivity]. destruct (Hp eq_refl) as [Hp1 _].
    destruct r as [a b p d]. cbn in *. destruct p; [contradiction|reflexivity]. }
  assert (S : sumR (fun r => flval (finalW ign c r)) (rrows c) = sumR (fun r => flval (rw r)) rows).
  { apply sumR_ext. intros r Hr. rewrite (proj1 (X r Hr)). reflexivity. }
  assert (M : map (cleanRow ign c) rows = rows).
  { rewrite <- (map_id rows) at 2. apply map_ext_in. intros r Hr. apply X; auto. }
  rewrite S. change (weighted ign c) with true. cbn [andb]. destruct (Req_EM_T _ 0); [contradiction|].
  unfold finalRows. change (rrows c) with rows. rewrite M. change (weighted ign c) with true.
  change (has_wpos c) with hp. rewrite andb_true_r. destruct keep; reflexivity.
Qed.
(** After select(indx) the rows are those of a catalog built from the selected rows. *)
Theorem C53_select ncol idx k : catOK ncol k -> (forall i, In i idx -> (i < length (cat_rows k))%nat) ->
  sumR (fun r => flval (rw r)) (cat_rows (selectRows idx k)) <> 0 ->
  exists k', finishInput ncol 0 true (mkraw true (cat_haswpos k) false (map (fun i => nth i (cat_rows k) emptyRow) idx)) = Some k' /\
    cat_rows (selectRows idx k) = cat_rows k' /\ catOK ncol (selectRows idx k) /\
    length (cat_rows (selectRows idx k)) = length idx.
Proof.
  intros Hok Hi Hs. cbn [cat_rows selectRows] in *.
  assert (Ho : forall r, In r (map (fun i => nth i (cat_rows k) emptyRow) idx) -> In r (cat_rows k)).
  { intros r Hr. apply in_map_iff in Hr. destruct Hr as (i & <- & Hr). apply nth_In. auto. }
  eexists. split.
  - apply finish_ok; [|exact Hs]. intros r Hr. apply Hok; auto.
  - split; [reflexivity|]. split; [|apply map_length]. intros r Hr. apply Hok; auto.
Qed.
(** But the total weight is still that of all rows: normalised weights and variances of the selected catalog are wrong. *)
Definition cat123 : catalog := mkcat false 3 false [mkrow [Num 1] (Num 1) NaN 0; mkrow [Num 2] (Num 1) NaN 0; mkrow [Num 3] (Num 1) NaN 0].
Lemma cat123_built : finishInput 1 0 false (mkraw false false false (cat_rows cat123)) = Some cat123.
Proof.
  rewrite (finish_spec 1) by (intros r Hr; cbn in Hr; intuition subst; reflexivity). cbn zeta.
  change (weighted 0 _) with false. cbn [andb]. f_equal. unfold cat123. f_equal. cbn. lra.
Qed.
Theorem C53_select_sumw_refuted : exists c k idx,
  finishInput 1 0 false c = Some k /\ (forall i, In i idx -> (i < length (cat_rows k))%nat) /\
  let k' := selectRows idx k in
  cat_rows k' = [mkrow [Num 2] (Num 1) NaN 0%Z] /\ cat_sumw k' = 3 /\
  cat_sumw k' <> sumR (fun r => flval (rw r)) (cat_rows k').
Proof.
  exists (mkraw false false false (cat_rows cat123)), cat123, [1%nat].
  split; [apply cat123_built|]. split; [cbn; intros i [<-|[]]; lia|]. cbn zeta. split; [reflexivity|]. split; [reflexivity|].
  cbn. lra.
Qed.
Example C53_select_example : catOK 1 cat123 /\ sumR (fun r => flval (rw r)) (cat_rows (selectRows [2%nat; 0%nat] cat123)) <> 0.
Proof.
  split; [|cbn; lra]. eapply C53_constructed; [|apply cat123_built]. intros r Hr. cbn in Hr. intuition subst; reflexivity.
Qed.

(** ** C54: Catalog.combine *)
(** All rows of all catalogs, in order, if no catalog has zero-weight rows or the first one has. *)
Definition zeroRow (k : catalog) (r : row) : Prop := (if cat_haswpos k then rwpos r else rw r) = Num 0.
Lemma iszero_iff v : iszero v = true <-> v = Num 0.
Proof.
  unfold iszero. destruct v as [|x]; [split; discriminate|]. destruct (Req_EM_T x 0).
  - subst. tauto.
  - split; [discriminate|]. intros H. inversion H. contradiction.
Qed.
Theorem C54_combine ncol k0 ks : (forall k, In k (k0 :: ks) -> catOK ncol k /\ cat_haswpos k = cat_haswpos k0) ->
  sumR (fun r => flval (rw r)) (concat (map cat_rows (k0 :: ks))) <> 0 ->
  (exists r, In r (cat_rows k0) /\ zeroRow k0 r) \/
  (forall k r, In k (k0 :: ks) -> In r (cat_rows k) -> ~ zeroRow k r) ->
  exists k, combine ncol k0 ks = Some k /\ cat_rows k = concat (map cat_rows (k0 :: ks)) /\
    cat_sumw k = sumR (fun r => flval (rw r)) (concat (map cat_rows (k0 :: ks))).
Proof.
  intros Hok Hs Hz. unfold combine.
  replace (existsb (fun c => cat_haswpos k0 && negb (cat_haswpos c)) ks) with false.
  2:{ symmetry. destruct (existsb _ ks) eqn:E; auto. apply existsb_exists in E. destruct E as (k & Hk & E).
      destruct (Hok k (or_intror Hk)) as [_ Eq]. rewrite Eq in E. destruct (cat_haswpos k0); discriminate. }
  rewrite finish_ok; auto.
  2:{ intros r Hr. apply in_concat in Hr. destruct Hr as (l & Hl & Hr). apply in_map_iff in Hl. destruct Hl as (k & <- & Hk).
      destruct (Hok k Hk) as [O E]. rewrite <- E. apply O; auto. }
  eexists. split; [reflexivity|]. cbn [cat_rows cat_sumw]. split; [|reflexivity].
  destruct (existsb (fun r => iszero (weightCol k0 r)) (cat_rows k0)) eqn:E; auto.
  apply filter_all. intros r Hr. destruct Hz as [(r0 & Hr0 & Hz)|Hz].
  - exfalso. pose proof (existsb_false _ _ E r0 Hr0) as X. cbn in X.
    unfold weightCol in X. unfold zeroRow in Hz. rewrite Hz, iszero_0 in X. discriminate.
  - apply in_concat in Hr. destruct Hr as (l & Hl & Hr). apply in_map_iff in Hl. destruct Hl as (k & <- & Hk).
    destruct (iszero _) eqn:Z; auto. exfalso. apply (Hz k r Hk Hr). unfold zeroRow.
    destruct (Hok k Hk) as [_ ->]. apply iszero_iff in Z. exact Z.
Qed.
(** In general the zero-weight rows of the later catalogs are dropped when the first catalog has none. *)
Definition catZ : catalog := mkcat true 2 false [mkrow [Num 4] (Num 2) NaN 0; mkrow [Num 5] (Num 0) NaN 0].
Lemma catZ_built : finishInput 1 0 true (mkraw true false false (cat_rows catZ)) = Some catZ.
Proof.
  rewrite finish_ok.
  - unfold catZ. do 2 f_equal. cbn. lra.
  - intros r Hr. cbn in Hr. intuition (subst; try discriminate; auto); cbn in *; intuition discriminate.
  - cbn. lra.
Qed.
Theorem C54_combine_refuted : exists c0 c1 k0 k1 k,
  finishInput 1 0 false c0 = Some k0 /\ finishInput 1 0 true c1 = Some k1 /\
  combine 1 k0 [k1] = Some k /\ length (cat_rows k) <> (length (cat_rows k0) + length (cat_rows k1))%nat /\
  combine 1 k1 [k0] <> None /\ forall k', combine 1 k1 [k0] = Some k' -> length (cat_rows k') = (length (cat_rows k0) + length (cat_rows k1))%nat.
Proof.
  assert (O : forall r, In r (cat_rows cat123) \/ In r (cat_rows catZ) -> length (rcols r) = 1%nat /\ ~ In NaN (rcols r) /\ rw r <> NaN /\
    (false = true -> rwpos r <> NaN /\ (rwpos r = Num 0 -> rw r = Num 0))).
  { intros r Hr. cbn in Hr. intuition (subst; try discriminate; auto); cbn in *; intuition discriminate. }
  do 4 eexists. exists (mkcat true 5 false (cat_rows cat123 ++ [mkrow [Num 4] (Num 2) NaN 0%Z])).
  split; [apply cat123_built|]. split; [apply catZ_built|]. split; [|split; [|split]].
  - unfold combine. cbn [existsb cat_haswpos cat123 catZ negb andb orb]. rewrite finish_ok.
    + do 2 f_equal.
      * cbn. lra.
      * spec. reflexivity.
    + intros r Hr. apply O. cbn in Hr |- *. tauto.
    + cbn. lra.
  - cbn. lia.
  - unfold combine. cbn [existsb cat_haswpos cat123 catZ negb andb orb]. rewrite finish_ok; [discriminate| |].
    + intros r Hr. apply O. cbn in Hr |- *. tauto.
    + cbn. lra.
  - unfold combine. cbn [existsb cat_haswpos cat123 catZ negb andb orb]. rewrite finish_ok.
    + intros k' Hk. inversion Hk. spec. reflexivity.
    + intros r Hr. apply O. cbn in Hr |- *. tauto.
    + cbn. lra.
Qed.
Example C54_combine_example : (forall k, In k [catZ; cat123] -> catOK 1 k /\ cat_haswpos k = cat_haswpos catZ) /\
  sumR (fun r => flval (rw r)) (concat (map cat_rows [catZ; cat123])) <> 0 /\
  (exists r, In r (cat_rows catZ) /\ zeroRow catZ r).
Proof.
  split; [|split].
  - intros k [<-|[<-|[]]]; (split; [|reflexivity]).
    + eapply C53_constructed; [|apply catZ_built]. intros r Hr. cbn in Hr. intuition subst; reflexivity.
    + eapply C53_constructed; [|apply cat123_built]. intros r Hr. cbn in Hr. intuition subst; reflexivity.
  - cbn. lra.
  - exists (mkrow [Num 5] (Num 0) NaN 0%Z). split; [right; left; reflexivity|reflexivity].
Qed.

(** ** C55: first_row, last_row, every_nth *)
Lemma everyNth_nth {A} n l : (1 <= n)%nat -> forall s i, nth_error (everyNth n s l) i = @nth_error A l (s + i * n).
Proof.
  intros Hn. induction l as [|a l IH]; intros s i.
  - simpl. destruct i; destruct (s + _ * n)%nat; reflexivity.
  - cbn [everyNth]. destruct s as [|s]; [destruct i as [|i]|].
    + reflexivity.
    + cbn [nth_error]. rewrite IH. replace (0 + S i * n)%nat with (S (n - 1 + i * n)) by (simpl; lia). reflexivity.
    + rewrite IH. reflexivity.
Qed.
(** Row i of the catalog is row start + i*every_nth of the input, as long as that is before the end. *)
Theorem C55_rows {A} start stop n (l : list A) i : (1 <= n)%nat ->
  nth_error (sliceRows start stop n l) i =
    match stop with
    | Some e => if (start + i * n <? e)%nat then nth_error l (start + i * n) else None
    | None => nth_error l (start + i * n)
    end.
Proof.
  intros Hn. unfold sliceRows. rewrite everyNth_nth by auto. cbn [plus].
  assert (K : forall (m : list A) a b, nth_error (skipn a m) b = nth_error m (a + b)).
  { induction m as [|x m IH]; intros [|a] b; simpl; auto. destruct b; reflexivity. }
  rewrite K. destruct stop as [e|]; auto. destruct (start + i * n <? e)%nat eqn:E.
  - apply Nat.ltb_lt in E. revert E. generalize (start + i * n)%nat. intros j. revert e j.
    clear. induction l as [|x l IH]; intros e j Hj; destruct e, j; simpl; auto; try lia. apply IH. lia.
  - apply Nat.ltb_ge in E. apply nth_error_None. rewrite firstn_length. lia.
Qed.
Example C55_example : sliceRows 1 (Some 6%nat) 2 [10; 11; 12; 13; 14; 15; 16; 17]%nat = [11; 13; 15]%nat.
Proof. reflexivity. Qed.

(** ** C35: variances *)
(** Specification: the weighted variance of rows (w, k). *)
Definition wmean (rows : list (R * R)) : R := sumR (fun p => fst p * snd p) rows / sumR fst rows.
Definition wvar (rows : list (R * R)) : R :=
  sumR (fun p => fst p * fst p * ((snd p - wmean rows) * (snd p - wmean rows))) rows / sumR fst rows.
(** A catalog with trivial weights has w = 1 in every row. *)
Definition vOK (c : vcat) : Prop := v_nontriv c = false -> forall p, In p (v_rows c) -> fst p = 1.
Lemma sumR_one {A} (f : A -> R) l : (forall a, In a l -> f a = 1) -> sumR f l = INR (length l).
Proof.
  induction l; intros H; [reflexivity|]. cbn [length sumR]. rewrite S_INR, IHl, H; [lra| left; auto|]. intros. apply H. right. auto.
Qed.
Lemma v_sumw_ok c : vOK c -> v_sumw c = sumR fst (v_rows c).
Proof. intros H. unfold v_sumw. destruct (v_nontriv c) eqn:E; auto. symmetry. apply sumR_one. auto. Qed.
Lemma v_sumw2_ok c : vOK c -> v_sumw2 c = sumR (fun p => fst p * fst p) (v_rows c).
Proof.
  intros H. unfold v_sumw2. destruct (v_nontriv c) eqn:E; auto. symmetry. apply sumR_one.
  intros p Hp. rewrite (H E p Hp). lra.
Qed.
Lemma sumw2_pos (l : list (R * R)) : sumR fst l <> 0 -> 0 < sumR (fun p => fst p * fst p) l.
Proof.
  assert (N : forall m : list (R * R), 0 <= sumR (fun p => fst p * fst p) m).
  { induction m; cbn [sumR]; [lra|]. pose proof (Rle_0_sqr (fst a)). unfold Rsqr in *. lra. }
  induction l as [|a l IH]; cbn [sumR]; [intros H; exfalso; apply H; reflexivity|]. intros H.
  pose proof (N l). destruct (Req_dec (fst a) 0) as [E|E].
  - rewrite E in *. assert (sumR fst l <> 0) by lra. specialize (IH H1). lra.
  - pose proof (Rsqr_pos_lt _ E). unfold Rsqr in *. lra.
Qed.
Lemma use_all (f : R * R -> R) l : (forall p, fst p = 0 -> f p = 0) ->
  sumR f (filter (fun p => nonz (fst p)) l) = sumR f l.
Proof.
  intros H. apply sumR_filter_zero. intros p _ Hp. apply H. unfold nonz in Hp. destruct (Req_EM_T (fst p) 0); [auto|discriminate].
Qed.
Lemma weightedVar_spec c : vOK c -> sumR fst (v_rows c) <> 0 ->
  weightedVar c = (wmean (v_rows c), sumR (fun p => fst p * fst p * snd p) (v_rows c) / sumR (fun p => fst p * fst p) (v_rows c),
    wvar (v_rows c)).
Proof.
  intros H Hs. unfold weightedVar. rewrite (v_sumw_ok c H), (v_sumw2_ok c H).
  destruct (v_nontriv c) eqn:E.
  - cbn zeta. rewrite !use_all; [reflexivity| | |]; intros p ->; lra.
  - specialize (H E). rewrite <- (sumR_one fst) by auto. cbn zeta.
    assert (E1 : sumR snd (v_rows c) = sumR (fun p => fst p * snd p) (v_rows c)).
    { apply sumR_ext. intros p Hp. rewrite (H p Hp). lra. }
    assert (E2 : sumR snd (v_rows c) = sumR (fun p => fst p * fst p * snd p) (v_rows c)).
    { apply sumR_ext. intros p Hp. rewrite (H p Hp). lra. }
    assert (E3 : sumR fst (v_rows c) = sumR (fun p => fst p * fst p) (v_rows c)).
    { apply sumR_ext. intros p Hp. rewrite (H p Hp). lra. }
    unfold wvar, wmean. rewrite <- E1. f_equal; [f_equal|].
    + rewrite <- E2, <- E3. reflexivity.
    + f_equal. apply sumR_ext. intros p Hp. rewrite (H p Hp). lra.
Qed.
(** One catalog: vark is the weighted variance. *)
Theorem C35_single c : vOK c -> sumR fst (v_rows c) <> 0 -> calculateVar [c] = wvar (v_rows c).
Proof. intros H Hs. unfold calculateVar. rewrite weightedVar_spec by auto. reflexivity. Qed.
Lemma sumR_app2 {A} (f : A -> R) l m : sumR f (l ++ m) = sumR f l + sumR f m.
Proof. induction l; simpl; [lra|]. rewrite IHl. lra. Qed.
Lemma expand_var (l : list (R * R)) m :
  sumR (fun p => fst p * fst p * ((snd p - m) * (snd p - m))) l =
  sumR (fun p => fst p * fst p * (snd p * snd p)) l - 2 * m * sumR (fun p => fst p * fst p * snd p) l +
  m * m * sumR (fun p => fst p * fst p) l.
Proof. induction l; cbn [sumR]; [lra|]. rewrite IHl. lra. Qed.
Definition rowsAcc (l : list (R * R)) : vacc :=
  mkva (sumR (fun p => fst p * fst p * (snd p * snd p)) l) (sumR (fun p => fst p * snd p) l)
       (sumR (fun p => fst p * fst p * snd p) l) (sumR fst l) (sumR (fun p => fst p * fst p) l).
Lemma varStep_rows l c : vOK c -> sumR fst (v_rows c) <> 0 -> varStep (rowsAcc l) c = rowsAcc (l ++ v_rows c).
Proof.
  intros H Hs. pose proof (sumw2_pos _ Hs) as Hp. unfold varStep. rewrite weightedVar_spec by auto.
  rewrite (v_sumw_ok c H), (v_sumw2_ok c H). unfold rowsAcc. rewrite !sumR_app2. cbn [a_var a_mean a_alt a_w a_w2].
  f_equal.
  - f_equal. unfold wvar. rewrite expand_var. field. lra.
  - f_equal. unfold wmean. field. auto.
  - f_equal. field. lra.
Qed.
Lemma varMulti_rows cats : (forall c, In c cats -> vOK c /\ sumR fst (v_rows c) <> 0) -> forall l,
  fold_left varStep cats (rowsAcc l) = rowsAcc (l ++ concat (map v_rows cats)).
Proof.
  induction cats as [|c cats IH]; intros H l; cbn [fold_left map concat].
  - rewrite app_nil_r. reflexivity.
  - rewrite varStep_rows by (apply H; left; auto). rewrite IH by (intros; apply H; right; auto). rewrite app_assoc. reflexivity.
Qed.
Lemma varMulti_spec cats : (forall c, In c cats -> vOK c /\ sumR fst (v_rows c) <> 0) ->
  sumR fst (concat (map v_rows cats)) <> 0 -> varMulti cats = wvar (concat (map v_rows cats)).
Proof.
  intros H Hs. unfold varMulti. change (mkva 0 0 0 0 0) with (rowsAcc []). rewrite varMulti_rows by auto.
  cbn [app]. pose proof (sumw2_pos _ Hs) as Hp. unfold rowsAcc. cbn [a_var a_mean a_alt a_w a_w2]. cbn zeta.
  unfold wvar. rewrite expand_var. unfold wmean. field. repeat split; try lra; auto.
Qed.
(** Any number of catalogs: calculateVarK is the weighted variance of all their rows, i.e. the vark of
    the combined catalog. *)
Theorem C35_combined cats : (forall c, In c cats -> vOK c /\ sumR fst (v_rows c) <> 0) ->
  sumR fst (concat (map v_rows cats)) <> 0 ->
  calculateVar cats = wvar (concat (map v_rows cats)) /\
  calculateVar cats = calculateVar [mkv true (concat (map v_rows cats))].
Proof.
  intros H Hs. assert (E : calculateVar cats = wvar (concat (map v_rows cats))).
  { destruct cats as [|c [|d cats]].
    - exfalso. apply Hs. reflexivity.
    - cbn [map concat]. rewrite app_nil_r. apply C35_single; apply H; left; auto.
    - apply varMulti_spec; auto. }
  split; auto. rewrite E. symmetry. apply C35_single; auto. intros X. discriminate.
Qed.
(** calculateVarG/V/Z/T/Q: the mean of the variances of the components, again as for the combined catalog.
    The two components of one catalog have the same weights. *)
Theorem C35_two_components cats1 cats2 :
  (forall c, In c cats1 -> vOK c /\ sumR fst (v_rows c) <> 0) -> (forall c, In c cats2 -> vOK c /\ sumR fst (v_rows c) <> 0) ->
  Forall2 (fun a b => v_nontriv a = v_nontriv b /\ map fst (v_rows a) = map fst (v_rows b)) cats1 cats2 ->
  sumR fst (concat (map v_rows cats1)) <> 0 ->
  calculateVar2 cats1 cats2 = (wvar (concat (map v_rows cats1)) + wvar (concat (map v_rows cats2))) / 2.
Proof.
  intros H1 H2 HF Hs.
  assert (Hs2 : sumR fst (concat (map v_rows cats2)) <> 0).
  { assert (E : sumR fst (concat (map v_rows cats1)) = sumR fst (concat (map v_rows cats2))).
    { clear - HF. induction HF; cbn [map concat]; auto. rewrite !sumR_app2, IHHF. f_equal. destruct H as [_ H].
      assert (Q : forall l : list (R * R), sumR fst l = sumR (fun x => x) (map fst l)) by (intros; rewrite sumR_map; reflexivity).
      rewrite !Q, H. reflexivity. }
    rewrite <- E. auto. }
  assert (E1 := proj1 (C35_combined cats1 H1 Hs)). assert (E2 := proj1 (C35_combined cats2 H2 Hs2)).
  destruct HF as [|a b l1 l2 Hab HF].
  - exfalso. apply Hs. reflexivity.
  - destruct HF as [|a' b' l1 l2 Hab' HF].
    + rewrite <- E1, <- E2. reflexivity.
    + rewrite <- E1, <- E2. reflexivity.
Qed.
Example C35_combined_example :
  let cats := [mkv true [(1, 2); (2, 3)]; mkv false [(1, 5); (1, 7)]] in
  (forall c, In c cats -> vOK c /\ sumR fst (v_rows c) <> 0) /\ sumR fst (concat (map v_rows cats)) <> 0.
Proof.
  cbn. split; [|lra]. intros c [<-|[<-|[]]]; (split; [|cbn; lra]); intros E; [discriminate|].
  cbn. intros p Hp. intuition subst; reflexivity.
Qed.
