(** Property C94: patches saved on disk (save_patch_dir) and low_mem. *)
From Coq Require Import String Reals Lra Lia List ZArith Bool.
From Verif Require Import Base Geometry Tree Traverse SumFacts Catalog CatFacts PropsCat SavePatch.
Import ListNotations.
Open Scope R_scope.

(** ** Specification *)
(** The rows of the catalog that belong to patch i. *)
Definition want (c : fcat) (i : nat) : list row := filter (inPatch i) (cat_rows (fc_cat c)).
Definition sumW (l : list row) : R := sumR (fun r => flval (rw r)) l.
(** A patch that loads, with all the columns, and has exactly these rows (with their values, w and wpos). *)
Definition sameData (s : source) (c : fcat) (i : nat) (p : option fcat) : Prop :=
  exists q, p = Some q /\ fc_names q = s_names s /\ cat_haswpos (fc_cat q) = s_wpos s /\ cat_rows (fc_cat q) = want c i.
(** The columns are a position and some of k, z1, ..., q2; each row has a patch number and all the columns. *)
Definition posOf : list (list string) := [["x"; "y"]; ["x"; "y"; "z"]; ["ra"; "dec"]; ["ra"; "dec"; "r"]]%string.
Definition okRow (n : nat) (r : row) : Prop :=
  exists p a b t, rcols r = Num p :: a :: b :: t /\ S (S (length t)) = n.
Definition okSrc (s : source) : Prop :=
  (exists pos f, In pos posOf /\ s_names s = (pos ++ filter f fieldNames)%list) /\
  forall r, In r (s_rows s) -> okRow (length (s_names s)) r.
Definition noEval (s : source) : Prop := forall n, s_eval s n = false.
Definition lowFile (o : catobj) (low : bool) : Prop := low = true /\ o_file o <> None.

(** ** Rows *)
Lemma scale_in u i r : inPatch i (scalePos u r) = inPatch i r.
Proof. unfold inPatch, scalePos. destruct (rcols r) as [|p [|a [|b t]]] eqn:E; rewrite ?E; reflexivity. Qed.
Lemma scale_ok u n r : okRow n r -> okRow n (scalePos u r).
Proof. intros [p [a [b [t [E L]]]]]. unfold scalePos. rewrite E. unfold okRow. cbn [rcols]. exists p, (flmul (fst u) a), (flmul (snd u) b), t. auto. Qed.
Lemma clean_in ign c n i r : okRow n r -> inPatch i (cleanRow ign c r) = inPatch i r.
Proof. intros [p [a [b [t [E L]]]]]. unfold inPatch, cleanRow. cbn [rcols]. rewrite E. reflexivity. Qed.
Lemma clean_ok ign c n r : okRow n r -> okRow n (cleanRow ign c r).
Proof.
  intros [p [a [b [t [E L]]]]]. unfold cleanRow, okRow. cbn [rcols]. rewrite E. exists p, (clean a), (clean b), (map clean t).
  rewrite map_length. auto.
Qed.
Lemma okRow_len n r : okRow n r -> length (rcols r) = S n.
Proof. intros [p [a [b [t [E L]]]]]. rewrite E. simpl. lia. Qed.
Lemma scale_one n r : okRow n r -> ~ In NaN (rcols r) -> scalePos (1 / 1, 1 / 1) r = r.
Proof.
  intros [p [a [b [t [E L]]]]] N. unfold scalePos. rewrite E. rewrite E in N. destruct r as [cs w wp f]. cbn in *. subst cs. f_equal.
  destruct a as [|a]; [exfalso; apply N; auto|]. destruct b as [|b]; [exfalso; apply N; auto|]. cbn.
  replace (1 / 1 * a) with a by lra. replace (1 / 1 * b) with b by lra. reflexivity.
Qed.
Lemma filter_comm {A} (p q : A -> bool) l : filter p (filter q l) = filter q (filter p l).
Proof. induction l as [|a l IH]; simpl; auto. destruct (q a) eqn:Q, (p a) eqn:P; simpl; rewrite ?P, ?Q, IH; auto. Qed.
Lemma iszero_true v : iszero v = true -> v = Num 0.
Proof. unfold iszero. destruct v as [|x]; [discriminate|]. destruct (Req_EM_T x 0) as [E|E]; [rewrite E; auto|discriminate]. Qed.
Lemma sumW_filter (p : row -> bool) l : (forall r, In r l -> p r = false -> rw r = Num 0) -> sumW (filter p l) = sumW l.
Proof.
  unfold sumW. induction l as [|a l IH]; simpl; intro H; auto. destruct (p a) eqn:P; simpl; rewrite IH by auto; auto.
  rewrite (H a) by auto. simpl. lra.
Qed.

(** ** Finishing clean rows *)
Definition okRows (n : nat) (hp : bool) (rows : list row) : Prop := forall r, In r rows ->
  okRow n r /\ ~ In NaN (rcols r) /\ rw r <> NaN /\ (hp = true -> rwpos r <> NaN /\ (rwpos r = Num 0 -> rw r = Num 0)).
Definition nozero (hp : bool) (rows : list row) : Prop := forall r, In r rows -> iszero (if hp then rwpos r else rw r) = false.
Lemma finish_clean n ign keep w hp rows : okRows n hp rows -> keep = true \/ nozero hp rows ->
  (w = true -> sumW rows <> 0) -> (w = false -> nozero hp rows /\ forall r, In r rows -> rw r = Num 1) ->
  exists k, finishInput (S n) ign keep (mkraw w hp false rows) = Some k /\ cat_rows k = rows /\ cat_haswpos k = hp /\ cat_nontriv k = w.
Proof.
  intros OK HK HS HT. destruct w.
  - rewrite finish_ok; [|intros r Hr; destruct (OK r Hr) as [A [B [C D]]]; split; [apply okRow_len; auto|auto]|auto].
    eexists. split; [reflexivity|]. cbn [cat_rows cat_haswpos cat_nontriv]. split; auto. destruct keep; auto.
    destruct HK as [HK|HK]; [discriminate|]. apply filter_all. intros r Hr. rewrite (HK r Hr). reflexivity.
  - destruct (HT eq_refl) as [Z W1]. rewrite finish_spec by (intros r Hr; apply okRow_len; apply OK; auto). cbn zeta.
    set (c := mkraw false hp false rows).
    assert (FW : forall r, In r rows -> hp = true -> finalWpos ign c r = rwpos r).
    { intros r Hr E. unfold finalWpos. change (flagged ign c r) with false. cbn iota.
      destruct (OK r Hr) as [_ [_ [_ D]]]. destruct (D E) as [D1 _]. destruct (rwpos r); [contradiction|reflexivity]. }
    assert (E1 : existsb nanRow rows = false).
    { destruct (existsb nanRow rows) eqn:E; auto. apply existsb_exists in E as [r [Hr E]].
      rewrite (proj2 (nanRow_false r)) in E; [discriminate|]. apply OK; auto. }
    assert (E2 : hp && existsb (fun r => iszero (finalWpos ign c r)) rows = false).
    { destruct (existsb (fun r => iszero (finalWpos ign c r)) rows) eqn:E; [|apply andb_false_r]. rewrite andb_true_r.
      apply not_true_iff_false. intro HP. apply existsb_exists in E as [r [Hr E]].
      rewrite FW in E by auto. specialize (Z r Hr). rewrite HP in Z. congruence. }
    assert (W : weighted ign c = false).
    { unfold weighted. cbn [has_w has_flag has_wpos rrows c]. rewrite E1. cbn [orb]. exact E2. }
    rewrite W. cbn [andb]. eexists. split; [reflexivity|]. cbn [cat_rows cat_haswpos cat_nontriv]. split; [|auto].
    unfold finalRows. rewrite W, andb_false_r. cbn [rrows c]. rewrite <- (map_id rows) at 2. apply map_ext_in. intros r Hr.
    destruct (OK r Hr) as [A [B [C D]]]. unfold cleanRow. rewrite clean_id by auto.
    assert (FN : finalW ign c r = Num 1).
    { unfold finalW. change (flagged ign c r) with false. rewrite (proj2 (nanRow_false r) B). cbn [orb has_wpos c].
      destruct (bool_dec hp true) as [HP|HP]; [|apply not_true_is_false in HP; rewrite HP; reflexivity].
      rewrite FW by auto. specialize (Z r Hr). rewrite HP in *. cbn iota in Z. rewrite Z. reflexivity. }
    rewrite FN, <- (W1 r Hr). cbn [has_wpos c].
    destruct (bool_dec hp true) as [HP|HP]; [rewrite FW by auto; rewrite HP|apply not_true_is_false in HP; rewrite HP]; destruct r; reflexivity.
Qed.

(** ** Loading *)
Definition rawOf (s : source) (rows : list row) : rawcat := mkraw (s_w s) (s_wpos s) (s_flag s) rows.
Definition posRows (s : source) : list row := map (scalePos (s_units s)) (s_rows s).
Lemma posRows_ok s : okSrc s -> forall r, In r (posRows s) -> okRow (length (s_names s)) r.
Proof. intros [_ H] r Hr. unfold posRows in Hr. apply in_map_iff in Hr as [r0 [<- Hr]]. apply scale_ok. auto. Qed.
Lemma finishSpec s rows : (forall r, In r rows -> okRow (length (s_names s)) r) ->
  finishInput (S (length (s_names s))) (s_ign s) (s_keep s) (rawOf s rows) =
    let c := rawOf s rows in
    let sw := sumR (fun r => flval (finalW (s_ign s) c r)) rows in
    if weighted (s_ign s) c && (if Req_EM_T sw 0 then true else false) then None
    else Some (mkcat (weighted (s_ign s) c) sw (s_wpos s) (finalRows (s_keep s) (s_ign s) c)).
Proof. intros H. rewrite finish_spec; [reflexivity|]. intros r Hr. apply okRow_len, H. auto. Qed.
(** What holds of the loaded catalog. *)
Lemma load_facts ce s c : okSrc s -> load ce s None = Some c ->
  fc_names c = s_names s /\ cat_haswpos (fc_cat c) = s_wpos s /\ okRows (length (s_names s)) (s_wpos s) (cat_rows (fc_cat c)) /\
  cat_nontriv (fc_cat c) = weighted (s_ign s) (rawOf s (posRows s)) /\
  cat_rows (fc_cat c) = finalRows (s_keep s) (s_ign s) (rawOf s (posRows s)).
Proof.
  intros OK L. unfold load in L. change (mkraw (s_w s) (s_wpos s) (s_flag s) (map (scalePos (s_units s)) (s_rows s))) with (rawOf s (posRows s)) in L.
  assert (HP := posRows_ok s OK).
  destruct (finishInput _ _ _ _) as [k|] eqn:F; [|discriminate]. injection L as <-. cbn [fc_names fc_cat].
  assert (CO : catOK (S (length (s_names s))) k).
  { eapply C53_constructed; [|exact F]. intros r Hr. apply okRow_len, HP. auto. }
  rewrite finishSpec in F by auto. cbn zeta in F. destruct (_ && _) in F; [discriminate|]. injection F as <-.
  cbn [cat_haswpos cat_rows cat_nontriv] in *. split; auto. split; auto. split; [|auto].
  intros r Hr. destruct (CO r Hr) as [A [B [C D]]]. split; [|auto].
  cbn [cat_rows] in Hr. assert (X : exists r0, In r0 (posRows s) /\ r = cleanRow (s_ign s) (rawOf s (posRows s)) r0).
  { unfold finalRows in Hr. cbn [rrows rawOf] in Hr. destruct (negb _ && _).
    - apply filter_In in Hr as [Hr _]. apply in_map_iff in Hr as [r0 [<- Hr]]. eauto.
    - apply in_map_iff in Hr as [r0 [<- Hr]]. eauto. }
  destruct X as [r0 [H0 ->]]. apply clean_ok. auto.
Qed.
Lemma triv_facts ce s c : okSrc s -> load ce s None = Some c -> cat_nontriv (fc_cat c) = false ->
  s_w s = false /\ nozero (s_wpos s) (cat_rows (fc_cat c)) /\ forall r, In r (cat_rows (fc_cat c)) -> rw r = Num 1.
Proof.
  intros OK L T. destruct (load_facts ce s c OK L) as [_ [_ [_ [EN ER]]]]. rewrite T in EN. symmetry in EN.
  set (rc := rawOf s (posRows s)) in *.
  assert (W := EN). unfold weighted in W. apply orb_false_elim in W as [W W4]. apply orb_false_elim in W as [W W3].
  apply orb_false_elim in W as [W1 W2]. split; [exact W1|].
  rewrite ER. unfold finalRows. rewrite EN, andb_false_r. cbn [rrows rc rawOf] in *.
  assert (FN : forall r, In r (posRows s) -> finalW (s_ign s) rc r = Num 1 /\ (s_wpos s = true -> iszero (finalWpos (s_ign s) rc r) = false)).
  { intros r Hr. assert (Z : s_wpos s = true -> iszero (finalWpos (s_ign s) rc r) = false).
    { intro E. change (has_wpos rc) with (s_wpos s) in W4. rewrite E in W4. cbn [andb] in W4. apply (existsb_false _ _ W4 r Hr). }
    split; auto. unfold finalW, flagged, inputW. cbn [has_flag has_wpos has_w rc rawOf]. change (s_w s = false) in W1. change (s_flag s = false) in W2. rewrite W1, W2.
    rewrite (existsb_false _ _ W3 r Hr). cbn [andb orb]. destruct (s_wpos s); cbn [andb]; [rewrite Z by auto|]; reflexivity. }
  split.
  - intros r Hr. apply in_map_iff in Hr as [r0 [<- Hr]]. destruct (FN r0 Hr) as [A B]. unfold cleanRow. cbn [rwpos rw has_wpos rc rawOf].
    destruct (s_wpos s) eqn:E; [apply B; auto|]. rewrite A. unfold iszero. destruct (Req_EM_T 1 0); [lra|auto].
  - intros r Hr. apply in_map_iff in Hr as [r0 [<- Hr]]. destruct (FN r0 Hr) as [A B]. exact A.
Qed.
Lemma want_rows ce s c i : okSrc s -> load ce s None = Some c -> okRows (length (s_names s)) (s_wpos s) (want c i).
Proof.
  intros OK L. destruct (load_facts ce s c OK L) as [_ [_ [H _]]]. intros r Hr. apply H. unfold want in Hr. apply filter_In in Hr. tauto.
Qed.
Lemma w_nontriv ce s c : okSrc s -> load ce s None = Some c -> s_w s = true -> cat_nontriv (fc_cat c) = true.
Proof.
  intros OK L W. destruct (load_facts ce s c OK L) as [_ [_ [_ [E _]]]]. rewrite E. unfold weighted. cbn [has_w rawOf]. rewrite W. reflexivity.
Qed.
(** A single patch loaded from the file. *)
Lemma load_patch ce ce' s c i : okSrc s -> load ce s None = Some c -> sumW (want c i) <> 0 ->
  exists q, load ce' s (Some i) = Some q /\ fc_names q = s_names s /\ cat_haswpos (fc_cat q) = s_wpos s /\
    cat_rows (fc_cat q) = want c i /\ (s_w s = true -> cat_nontriv (fc_cat q) = true) /\
    (cat_nontriv (fc_cat c) = false -> cat_nontriv (fc_cat q) = false).
Proof.
  intros OK L HS. destruct (load_facts ce s c OK L) as [_ [_ [_ [EN ER]]]].
  set (use := filter (inPatch i) (posRows s)). set (ci := rawOf s use). set (c0 := rawOf s (posRows s)) in *.
  assert (HP := posRows_ok s OK).
  assert (HU : forall r, In r use -> okRow (length (s_names s)) r).
  { intros r Hr. apply HP. unfold use in Hr. apply filter_In in Hr. tauto. }
  assert (SUB : forall p : row -> bool, existsb p (posRows s) = false -> existsb p use = false).
  { intros p H. destruct (existsb p use) eqn:E; auto. apply existsb_exists in E as [r [Hr E]]. unfold use in Hr. apply filter_In in Hr as [Hr _].
    rewrite (existsb_false _ _ H r Hr) in E. discriminate. }
  assert (MONO : weighted (s_ign s) c0 = false -> weighted (s_ign s) ci = false).
  { unfold weighted. cbn [has_w has_flag has_wpos rrows c0 ci rawOf]. intro W.
    apply orb_false_elim in W as [W W4]. apply orb_false_elim in W as [W W3]. rewrite W, (SUB _ W3). cbn [orb].
    destruct (s_wpos s); auto. cbn [andb] in *. apply SUB. exact W4. }
  assert (CI : map (cleanRow (s_ign s) ci) use = filter (inPatch i) (map (cleanRow (s_ign s) c0) (posRows s))).
  { change (cleanRow (s_ign s) ci) with (cleanRow (s_ign s) c0). rewrite filter_map. unfold use. f_equal.
    apply filter_ext_in. intros r Hr. symmetry. eapply clean_in. apply HP. auto. }
  assert (NZ : weighted (s_ign s) ci = false -> forall r, In r (map (cleanRow (s_ign s) ci) use) ->
      negb (iszero (if s_wpos s then rwpos r else rw r)) = true).
  { intros W r Hr. apply in_map_iff in Hr as [r0 [<- Hr]]. assert (W' := W). unfold weighted in W.
    apply orb_false_elim in W as [W W4]. cbn [has_wpos ci rawOf] in W4. unfold cleanRow. cbn [rwpos rw has_wpos ci rawOf].
    destruct (s_wpos s) eqn:E.
    - cbn [andb] in W4. rewrite (existsb_false _ _ W4 r0 Hr). reflexivity.
    - pose proof (weighted_false (s_ign s) ci r0 W' Hr) as Q. rewrite Q. reflexivity. }
  assert (FR : finalRows (s_keep s) (s_ign s) ci = want c i).
  { unfold want. rewrite ER. unfold finalRows. cbn [rrows c0 ci rawOf has_wpos]. fold ci c0.
    destruct (s_keep s); cbn [negb andb]; [exact CI|].
    destruct (weighted (s_ign s) ci) eqn:W1, (weighted (s_ign s) c0) eqn:W0; cbn [andb].
    - rewrite CI. apply filter_comm.
    - specialize (MONO eq_refl). discriminate.
    - rewrite filter_comm, <- CI. symmetry. apply filter_all. apply NZ. auto.
    - exact CI. }
  assert (UN : use <> []).
  { intro E. apply HS. rewrite <- FR. unfold finalRows. cbn [rrows ci rawOf]. rewrite E. cbn [map]. destruct (_ && _); reflexivity. }
  assert (SW : sumR (fun r => flval (finalW (s_ign s) ci r)) use = sumW (want c i)).
  { rewrite <- FR. unfold finalRows. cbn [rrows ci rawOf has_wpos]. fold ci.
    assert (X : sumW (map (cleanRow (s_ign s) ci) use) = sumR (fun r => flval (finalW (s_ign s) ci r)) use).
    { unfold sumW. rewrite sumR_map. reflexivity. }
    destruct (_ && _); [|auto]. rewrite sumW_filter; [auto|]. intros r Hr Z. apply in_map_iff in Hr as [r0 [<- Hr]].
    apply negb_false_iff in Z. unfold cleanRow in *. cbn [rwpos rw has_wpos ci rawOf] in *. destruct (s_wpos s) eqn:E.
    - unfold finalW. cbn [has_wpos ci rawOf]. rewrite E, Z. cbn [andb]. rewrite orb_true_r. reflexivity.
    - apply iszero_true in Z. exact Z. }
  unfold load. change (filter (inPatch i) (map (scalePos (s_units s)) (s_rows s))) with use.
  destruct (Nat.eqb_spec (length use) 0) as [E0|_]; [apply length_zero_iff_nil in E0; contradiction|].
  change (mkraw (s_w s) (s_wpos s) (s_flag s) use) with ci.
  unfold ci at 1. rewrite finishSpec by auto. cbn zeta. fold ci. rewrite SW.
  destruct (Req_EM_T (sumW (want c i)) 0) as [E0|_]; [contradiction|]. rewrite andb_false_r.
  eexists. split; [reflexivity|]. cbn [fc_names fc_cat cat_haswpos cat_rows cat_nontriv]. split; auto. split; auto. split; auto.
  split; [|intro T; apply MONO; rewrite <- EN; auto]. intro W. unfold weighted. cbn [has_w ci rawOf]. rewrite W. reflexivity.
Qed.
(** A patch made from the loaded catalog. *)
Lemma mem_patch ce s c i : okSrc s -> load ce s None = Some c -> sumW (want c i) <> 0 ->
  exists q, memPatch c i = Some q /\ fc_names q = s_names s /\ cat_haswpos (fc_cat q) = s_wpos s /\
    cat_rows (fc_cat q) = want c i /\ cat_nontriv (fc_cat q) = cat_nontriv (fc_cat c).
Proof.
  intros OK L HS. destruct (load_facts ce s c OK L) as [N [HP [HR _]]]. unfold memPatch. rewrite N, HP. fold (want c i).
  set (keep := existsb _ _).
  assert (IN : forall r, In r (want c i) -> In r (cat_rows (fc_cat c))) by (intros r Hr; unfold want in Hr; apply filter_In in Hr; tauto).
  destruct (finish_clean (length (s_names s)) (Z.lnot 0) keep (cat_nontriv (fc_cat c)) (s_wpos s) (want c i)) as [k [E [A [B C]]]].
  - eapply want_rows; eauto.
  - destruct keep eqn:K; auto. right. intros r Hr. assert (X := existsb_false _ _ K r (IN r Hr)). cbn beta in X.
    unfold weightCol in X. rewrite HP in X. exact X.
  - auto.
  - intro T. destruct (triv_facts ce s c OK L T) as [_ [Z W]]. split; [intros r Hr; apply Z; auto|intros r Hr; apply W; auto].
  - rewrite E. eexists. split; [reflexivity|]. cbn [fc_names fc_cat]. auto.
Qed.

(** ** Files *)
Lemma mem_In n l : mem n l = true <-> In n l.
Proof.
  unfold mem. rewrite existsb_exists. split.
  - intros [m [H E]]. apply String.eqb_eq in E. subst. auto.
  - intro H. exists n. split; auto. apply String.eqb_refl.
Qed.
(** When the columns that are read are those of the catalog. *)
Lemma read_names o : okSrc (o_src o) -> o_loaded o = true \/ noEval (o_src o) ->
  forall n, In n (readNames o) <-> In n (s_names (o_src o)).
Proof.
  intros [[pos [f [HP E]]] _] HL n.
  assert (W : forall n, wants o n = mem n (s_names (o_src o))).
  { intro m. unfold wants. destruct HL as [->|HN]; [|rewrite HN]; cbn [negb orb]; rewrite ?orb_true_r; apply andb_true_r. }
  assert (FN : forall m, In m (filter (wants o) fieldNames) <-> In m fieldNames /\ In m (s_names (o_src o))).
  { intro m. rewrite filter_In, W, mem_In. tauto. }
  assert (NF : forall m, In m posNames -> ~ In m fieldNames).
  { intros m Hm Hf. simpl in Hm, Hf. intuition (subst; discriminate). }
  assert (MP : forall m, In m posNames -> mem m (s_names (o_src o)) = mem m pos).
  { intros m Hm. apply eq_true_iff_eq. rewrite !mem_In, E, in_app_iff, filter_In. split; [|auto]. intros [H|[H _]]; auto.
    exfalso. apply (NF m); auto. }
  assert (NI : In n (s_names (o_src o)) <-> In n pos \/ In n (filter (wants o) fieldNames)).
  { rewrite FN, E, in_app_iff, filter_In. split; [|tauto].
    intros [H|H]; auto. right. split; [tauto|]. right. auto. }
  unfold readNames. rewrite in_app_iff, NI.
  assert (Q : In n (if wants o "ra" then (["ra"%string; "dec"%string] ++ (if wants o "r" then ["r"%string] else []))%list
     else (["x"%string; "y"%string] ++ (if wants o "z" then ["z"%string] else []))%list) <-> In n pos); [|tauto].
  rewrite !W, !MP by (simpl; tauto).
  simpl in HP. destruct HP as [<-|[<-|[<-|[<-|[]]]]]; simpl; tauto.
Qed.
Lemma filter_mem_all (l req : list string) : (forall n, In n l -> In n req) -> filter (fun n => mem n req) l = l.
Proof. intro H. apply filter_all. intros n Hn. apply mem_In. auto. Qed.
Lemma restrict_all n names req r : okRow n r -> length names = n -> (forall m, In m names -> In m req) -> restrict names req r = r.
Proof.
  intros [p [a [b [t [E L]]]]] HN HS. unfold restrict. rewrite E. destruct r as [cs w wp f]. cbn in *. subst cs. f_equal. f_equal.
  rewrite filter_all.
  - assert (X : forall (l : list string) (v : list fl), length l = length v -> map snd (List.combine l v) = v).
    { induction l as [|x l IH]; destruct v; simpl; intros; auto; try lia. f_equal. apply IH. lia. }
    apply X. simpl. lia.
  - intros [m v] Hm. apply in_combine_l in Hm. apply mem_In. auto.
Qed.
(** Reading a file that holds the rows of a patch. *)
Lemma read_file s c i ce o f : okSrc s -> load ce s None = Some c -> o_src o = s -> sumW (want c i) <> 0 ->
  nozero (s_wpos s) (cat_rows (fc_cat c)) -> o_loaded o = true \/ noEval s ->
  f_names f = s_names s -> f_rows f = want c i -> f_wpos f = s_wpos s ->
  (readW o = true -> f_w f = true) -> (readW o = false -> cat_nontriv (fc_cat c) = false) ->
  checkFile (readNames o) (readW o) (readWpos o) f = true /\
  sameData s c i (readFile (readNames o) (readW o) (readWpos o) f).
Proof.
  intros OK L ES HS NZ HL FN FR FP W1 W2.
  assert (RN : forall n, In n (readNames o) <-> In n (s_names s)) by (rewrite <- ES in *; apply read_names; auto).
  assert (RP : readWpos o = s_wpos s).
  { unfold readWpos. rewrite ES. destruct HL as [->|H]; [|rewrite H]; cbn [negb orb]; rewrite ?orb_true_r; apply andb_true_r. }
  split.
  - unfold checkFile. rewrite RP, FP, FN. apply andb_true_intro. split; [|destruct (s_wpos s); auto].
    apply andb_true_intro. split; [|destruct (readW o); auto; rewrite W1; auto].
    apply forallb_forall. intros n Hn. apply mem_In, RN. auto.
  - unfold readFile. rewrite FN, FR, RP. rewrite filter_mem_all by (intros n Hn; apply RN; auto).
    assert (WR := want_rows ce s c i OK L).
    assert (EM : map (restrict (s_names s) (readNames o)) (want c i) = want c i).
    { rewrite <- (map_id (want c i)) at 2. apply map_ext_in. intros r Hr. apply (restrict_all (length (s_names s))); auto.
      - apply WR; auto.
      - intros m Hm. apply RN. auto. }
    rewrite EM.
    assert (IN : forall r, In r (want c i) -> In r (cat_rows (fc_cat c))) by (intros r Hr; unfold want in Hr; apply filter_In in Hr; tauto).
    destruct (finish_clean (length (s_names s)) (Z.lnot 0) false (readW o) (s_wpos s) (want c i)) as [k [E [A [B C]]]]; auto.
    + right. intros r Hr. auto.
    + intro T. destruct (triv_facts ce s c OK L (W2 T)) as [_ [Z W]]. split; intros r Hr; auto.
    + rewrite E. eexists. split; [reflexivity|]. auto.
Qed.
Lemma load_none ce ce' s : load ce s None = load ce' s None.
Proof. reflexivity. Qed.
(** w is read only if it is in the files, and it is read if it matters. *)
Definition wOK (s : source) (c : fcat) : Prop := s_w s = true \/ cat_nontriv (fc_cat c) = false.
Lemma readW_facts ce s c o : okSrc s -> load ce s None = Some c -> o_src o = s ->
  (o_loaded o = false -> noEval s /\ wOK s c) ->
  readW o = cat_nontriv (fc_cat c).
Proof.
  intros OK L ES HU. unfold readW. rewrite ES. rewrite (load_none _ ce), L. destruct (o_loaded o); cbn [andb orb].
  - destruct (cat_nontriv (fc_cat c)) eqn:T; auto. cbn [orb]. destruct (triv_facts ce s c OK L T) as [-> _]. reflexivity.
  - destruct (HU eq_refl) as [NE [W|T]]; rewrite NE, andb_true_r; cbn [negb].
    + rewrite W. symmetry. eapply w_nontriv; eauto.
    + rewrite T. destruct (triv_facts ce s c OK L T) as [-> _]. reflexivity.
Qed.

(** ** The files that are written *)
Lemma setFile_same fs b i f : setFile fs b i f b i = f.
Proof. unfold setFile. rewrite Nat.eqb_refl. destruct b; [rewrite String.eqb_refl|]; reflexivity. Qed.
Lemma setFile_other fs b i f b' j : b' <> b \/ i <> j -> setFile fs b i f b' j = fs b' j.
Proof.
  intros H. unfold setFile. destruct (Nat.eqb_spec i j); [|rewrite andb_false_r; auto]. destruct H as [H|H]; [|contradiction].
  destruct b as [x|], b' as [y|]; try reflexivity; try contradiction.
  destruct (String.eqb_spec x y); [subst; contradiction|reflexivity].
Qed.
Lemma writeAll_ok b (g : nat -> R * R * fcat) : forall n a fs, exists fs1,
  writeAll b (List.combine (seq a n) (map (fun i => (fst (g i), Some (snd (g i)))) (seq a n))) fs = Some fs1 /\
  (forall i, (a <= i < a + n)%nat -> fs1 b i = Some (writeCat (fst (g i)) (snd (g i)))) /\
  (forall b' i, b' <> b \/ (i < a)%nat \/ (a + n <= i)%nat -> fs1 b' i = fs b' i).
Proof.
  induction n as [|n IH]; intros a fs; simpl.
  - exists fs. split; auto. split; [lia|auto].
  - destruct (IH (S a) (setFile fs b a (Some (writeCat (fst (g a)) (snd (g a)))))) as [fs1 [E [A B]]]. exists fs1. split; auto. split.
    + intros i Hi. destruct (Nat.eq_dec i a) as [->|N]; [|apply A; lia]. rewrite B by lia. apply setFile_same.
    + intros b' i Hi. rewrite B by (destruct Hi as [Hi|Hi]; [left; auto|right; lia]). apply setFile_other. destruct Hi; [auto|right; lia].
Qed.
Lemma removeAll_other o fs b i : b <> o_file o \/ (o_np o <= i)%nat -> removeAll o fs b i = fs b i.
Proof.
  intro H. unfold removeAll.
  assert (X : forall l fs, (forall j, In j l -> (j < o_np o)%nat) ->
    fold_left (fun fs i => setFile fs (o_file o) i None) l fs b i = fs b i).
  { induction l as [|j l IH]; intros fs0 Hl; simpl; auto. rewrite IH by (intros; apply Hl; right; auto).
    apply setFile_other. destruct H; [auto|]. right. specialize (Hl j (or_introl eq_refl)). lia. }
  apply X. intros j Hj. apply in_seq in Hj. lia.
Qed.
Lemma collect_map {A B} (f : A -> option B) (g : A -> B) l : (forall a, In a l -> f a = Some (g a)) -> collect (map f l) = Some (map g l).
Proof. induction l as [|a l IH]; simpl; intro H; auto. rewrite H by auto. rewrite IH by auto. reflexivity. Qed.
Lemma collect_none {A B} (f : A -> option B) l a : In a l -> f a = None -> collect (map f l) = None.
Proof.
  induction l as [|b l IH]; simpl; intros [] E; [subst; rewrite E; auto|]. destruct (f b); auto. rewrite IH; auto.
Qed.
(** Reading the files of all patches. *)
Lemma read_all s c ce o fs (F : nat -> pfile) : okSrc s -> load ce s None = Some c -> o_src o = s ->
  nozero (s_wpos s) (cat_rows (fc_cat c)) -> (forall i, (i < o_np o)%nat -> sumW (want c i) <> 0) ->
  o_loaded o = true \/ noEval s -> (readW o = cat_nontriv (fc_cat c)) ->
  (forall i, (i < o_np o)%nat -> fs (o_file o) i = Some (F i) /\ f_names (F i) = s_names s /\ f_rows (F i) = want c i /\
     f_wpos (F i) = s_wpos s /\ (cat_nontriv (fc_cat c) = true -> f_w (F i) = true)) ->
  exists l, readPatches o fs = Got l /\ Forall2 (sameData s c) (seq 0 (o_np o)) l.
Proof.
  intros OK L ES NZ HS HL RW HF. unfold readPatches.
  rewrite (collect_map _ F) by (intros i Hi; apply in_seq in Hi; apply HF; lia).
  assert (X : forall i, (i < o_np o)%nat -> checkFile (readNames o) (readW o) (readWpos o) (F i) = true /\
    sameData s c i (readFile (readNames o) (readW o) (readWpos o) (F i))).
  { intros i Hi. destruct (HF i Hi) as [_ [A [B [C D]]]]. eapply read_file; eauto; rewrite RW; auto. }
  assert (E : forallb (checkFile (readNames o) (readW o) (readWpos o)) (map F (seq 0 (o_np o))) = true).
  { apply forallb_forall. intros f Hf. apply in_map_iff in Hf as [i [<- Hi]]. apply in_seq in Hi. apply X. lia. }
  rewrite E. eexists. split; [reflexivity|]. rewrite map_map.
  assert (Y : forall a, (forall i, In i a -> (i < o_np o)%nat) ->
    Forall2 (sameData s c) a (map (fun i => readFile (readNames o) (readW o) (readWpos o) (F i)) a)).
  { induction a as [|i a IH]; intro H; constructor; [apply X; apply H; left; auto|apply IH; intros; apply H; right; auto]. }
  apply Y. intros i Hi. apply in_seq in Hi. lia.
Qed.
Lemma patchSet_all n c : (forall i, (i < n)%nat -> sumW (want c i) <> 0) -> patchSet n c = seq 0 n.
Proof.
  intro H. unfold patchSet. apply filter_all. intros i Hi. apply in_seq in Hi.
  destruct (existsb (inPatch i) (cat_rows (fc_cat c))) eqn:E; auto. exfalso. apply (H i); [lia|].
  unfold want. assert (X : filter (inPatch i) (cat_rows (fc_cat c)) = []).
  { clear - E. induction (cat_rows (fc_cat c)) as [|r l IH]; simpl in *; auto. apply orb_false_elim in E as [-> E]. auto. }
  rewrite X. reflexivity.
Qed.
(** The patches that are built. *)
Lemma build_all o low c : okSrc (o_src o) -> load (o_centers o) (o_src o) None = Some c ->
  (forall i, (i < o_np o)%nat -> sumW (want c i) <> 0) ->
  exists (g : nat -> R * R * fcat) loaded,
    build o low = Some (map (fun i => (fst (g i), Some (snd (g i)))) (seq 0 (o_np o)), loaded) /\
    (forall i, (i < o_np o)%nat -> fc_names (snd (g i)) = s_names (o_src o) /\ cat_haswpos (fc_cat (snd (g i))) = s_wpos (o_src o) /\
       cat_rows (fc_cat (snd (g i))) = want c i /\
       (~ lowFile o low -> fst (g i) = (1, 1) /\ cat_nontriv (fc_cat (snd (g i))) = cat_nontriv (fc_cat c)) /\
       (lowFile o low -> fst (g i) = unitsOf (o_src o) /\ (wOK (o_src o) c -> cat_nontriv (fc_cat c) = true -> cat_nontriv (fc_cat (snd (g i))) = true))) /\
    (~ lowFile o low -> loaded = true) /\ (o_loaded o = true -> loaded = true) /\ (loaded = false -> o_loaded o = false).
Proof.
  intros OK L HS.
  assert (SEL : forall (f : nat -> option fcat), (forall i, (i < o_np o)%nat -> exists q, f i = Some q) ->
    exists h, forall i, (i < o_np o)%nat -> f i = Some (h i)).
  { intros f Hf. exists (fun i => match f i with Some q => q | None => c end). intros i Hi. destruct (Hf i Hi) as [q ->]. reflexivity. }
  assert (MAP : forall (u : R * R) (f : nat -> option fcat) (h : nat -> fcat), (forall i, (i < o_np o)%nat -> f i = Some (h i)) ->
    map (fun i => (u, f i)) (seq 0 (o_np o)) = map (fun i : nat => (fst (u, h i), Some (snd (u, h i)))) (seq 0 (o_np o))).
  { intros u f h H. apply map_ext_in. intros i Hi. apply in_seq in Hi. cbn [fst snd]. rewrite H by lia. reflexivity. }
  destruct (andb low (match o_file o with Some _ => true | None => false end)) eqn:LF.
  - apply andb_true_iff in LF as [-> HF]. destruct (o_file o) as [b|] eqn:EF; [|discriminate].
    assert (LFo : lowFile o true) by (split; auto; rewrite EF; discriminate).
    unfold build. rewrite EF.
    destruct (o_centers o) eqn:EC.
    + destruct (SEL (fun i => load true (o_src o) (Some i))) as [h Hh].
      { intros i Hi. destruct (load_patch true true (o_src o) c i OK L (HS i Hi)) as [q [E _]]. eauto. }
      exists (fun i => (unitsOf (o_src o), h i)), (o_loaded o). rewrite (MAP _ _ h Hh). split; auto. split; [|tauto].
      intros i Hi. destruct (load_patch true true (o_src o) c i OK L (HS i Hi)) as [q [E [A [B [C [D D']]]]]].
      rewrite Hh in E by auto. injection E as E. cbn [fst snd]. rewrite E. repeat split; auto; try contradiction.
      intros [W|W] T; auto. congruence.
    + rewrite L. rewrite patchSet_all by auto.
      destruct (SEL (fun i => load false (o_src o) (Some i))) as [h Hh].
      { intros i Hi. destruct (load_patch false false (o_src o) c i OK L (HS i Hi)) as [q [E _]]. eauto. }
      exists (fun i => (unitsOf (o_src o), h i)), true. rewrite (MAP _ _ h Hh). split; auto. split; [|split; [auto|split; [auto|discriminate]]].
      intros i Hi. destruct (load_patch false false (o_src o) c i OK L (HS i Hi)) as [q [E [A [B [C [D D']]]]]].
      rewrite Hh in E by auto. injection E as E. cbn [fst snd]. rewrite E. repeat split; auto; try contradiction.
      intros [W|W] T; auto. congruence.
  - assert (NL : ~ lowFile o low).
    { intros [-> H]. destruct (o_file o); [discriminate|contradiction]. }
    assert (EB : build o low = Some (map (fun i => ((1, 1), memPatch c i)) (seq 0 (o_np o)), true)).
    { unfold build. rewrite L, patchSet_all by auto. destruct low, (o_file o); auto; discriminate. }
    destruct (SEL (memPatch c)) as [h Hh].
    { intros i Hi. destruct (mem_patch (o_centers o) (o_src o) c i OK L (HS i Hi)) as [q [E _]]. eauto. }
    exists (fun i => ((1, 1), h i)), true. rewrite EB, (MAP _ _ h Hh). split; auto. split; [|split; [auto|split; [auto|discriminate]]].
    intros i Hi. destruct (mem_patch (o_centers o) (o_src o) c i OK L (HS i Hi)) as [q [E [A [B [C D]]]]].
    rewrite Hh in E by auto. injection E as E. cbn [fst snd]. rewrite E. repeat split; auto; contradiction.
Qed.

(** ** C94 *)
(** Without save_patch_dir, with or without low_mem: the patches hold the rows of the catalog. *)
Theorem C94_unsaved o low fs c : okSrc (o_src o) -> (1 < o_np o)%nat -> load (o_centers o) (o_src o) None = Some c ->
  (forall i, (i < o_np o)%nat -> sumW (want c i) <> 0) ->
  exists l, getPatches o low false fs = (Some l, fs) /\ Forall2 (sameData (o_src o) c) (seq 0 (o_np o)) l.
Proof.
  intros OK HN L HS. destruct (build_all o low c OK L HS) as [g [ld [EB [HG _]]]].
  unfold getPatches. destruct (Nat.eqb_spec (o_np o) 1); [lia|]. rewrite EB. eexists. split; [reflexivity|]. rewrite map_map.
  assert (Y : forall a, (forall i, In i a -> (i < o_np o)%nat) ->
    Forall2 (sameData (o_src o) c) a (map (fun i => snd (fst (g i), Some (snd (g i)))) a)).
  { induction a as [|i a IH]; intro H; constructor; [|apply IH; intros; apply H; right; auto].
    destruct (HG i (H i (or_introl eq_refl))) as [A [B [C _]]]. exists (snd (g i)). auto. }
  apply Y. intros i Hi. apply in_seq in Hi. lia.
Qed.
(** With save_patch_dir, when not all the files are there yet: the patches hold the rows of the catalog, the
    files of the other catalogs are left alone, and any later object made from the same input, with or
    without low_mem, gets the same patches from the files. *)
Theorem C94_saved o low fs c : okSrc (o_src o) -> (1 < o_np o)%nat -> load (o_centers o) (o_src o) None = Some c ->
  (forall r, In r (cat_rows (fc_cat c)) -> iszero (weightCol (fc_cat c) r) = false) ->
  (forall i, (i < o_np o)%nat -> sumW (want c i) <> 0) ->
  (exists i, (i < o_np o)%nat /\ fs (o_file o) i = None) ->
  (lowFile o low -> wOK (o_src o) c /\ (o_loaded o = true \/ noEval (o_src o)) /\ (radec (s_names (o_src o)) = true \/ s_units (o_src o) = (1, 1))) ->
  exists l fs1, getPatches o low true fs = (Some l, fs1) /\ Forall2 (sameData (o_src o) c) (seq 0 (o_np o)) l /\
  (forall b i, b <> o_file o \/ (o_np o <= i)%nat -> fs1 b i = fs b i) /\
  forall o2 low2, o_src o2 = o_src o -> o_file o2 = o_file o -> o_np o2 = o_np o ->
    (o_loaded o2 = false -> noEval (o_src o) /\ wOK (o_src o) c) ->
    exists l2, getPatches o2 low2 true fs1 = (Some l2, fs1) /\ Forall2 (sameData (o_src o) c) (seq 0 (o_np o)) l2.
Proof.
  intros OK HN L NZ0 HS [i0 [Hi0 F0]] HLF. set (s := o_src o) in *.
  assert (NZ : nozero (s_wpos s) (cat_rows (fc_cat c))).
  { intros r Hr. specialize (NZ0 r Hr). unfold weightCol in NZ0. destruct (load_facts _ s c OK L) as [_ [E _]]. rewrite E in NZ0. exact NZ0. }
  destruct (build_all o low c OK L HS) as [g [ld [EB [HG [LD1 [LD2 LD3]]]]]].
  destruct (writeAll_ok (o_file o) g (o_np o) 0 (removeAll o fs)) as [fs1 [EW [W1 W2]]].
  assert (DEC : lowFile o low \/ ~ lowFile o low).
  { destruct low; [|right; intros [H _]; discriminate]. destruct (o_file o) eqn:E; [left; split; auto; rewrite E; discriminate|].
    right. intros [_ H]. apply H. auto. }
  assert (UN : forall i, (i < o_np o)%nat -> fst (g i) = (1, 1)).
  { intros i Hi. destruct (HG i Hi) as [_ [_ [_ [A B]]]]. destruct DEC as [D|D]; [|apply A; auto].
    destruct (B D) as [-> _]. destruct (HLF D) as [_ [_ U]]. unfold unitsOf. fold s.
    destruct (radec (s_names s)); auto. destruct U; [discriminate|auto]. }
  set (F := fun i => writeCat (fst (g i)) (snd (g i))).
  assert (HF : forall i, (i < o_np o)%nat -> fs1 (o_file o) i = Some (F i) /\ f_names (F i) = s_names s /\ f_rows (F i) = want c i /\
     f_wpos (F i) = s_wpos s /\ (cat_nontriv (fc_cat c) = true -> f_w (F i) = true)).
  { intros i Hi. destruct (HG i Hi) as [A [B [C [D E]]]]. split; [apply W1; lia|]. unfold F, writeCat. cbn [f_names f_rows f_wpos f_w].
    split; auto. split; [|split; auto].
    - rewrite UN by auto. cbn [fst snd]. rewrite C. rewrite <- (map_id (want c i)) at 2. apply map_ext_in. intros r Hr.
      destruct (want_rows _ s c i OK L r Hr) as [O1 [O2 _]]. eapply scale_one; eauto.
    - intro T. destruct DEC as [X|X].
      + destruct (E X) as [_ Q]. apply Q; auto. apply HLF. auto.
      + destruct (D X) as [_ ->]. auto. }
  assert (RD : forall o2, o_src o2 = s -> o_file o2 = o_file o -> o_np o2 = o_np o -> (o_loaded o2 = false -> noEval s /\ wOK s c) ->
    exists l2, readPatches o2 fs1 = Got l2 /\ Forall2 (sameData s c) (seq 0 (o_np o)) l2).
  { intros o2 E1 E2 E3 HU. rewrite <- E3. apply (read_all s c (o_centers o) o2 fs1 F); auto.
    - intros i Hi. apply HS. lia.
    - destruct (o_loaded o2) eqn:E; auto. right. apply HU. auto.
    - eapply readW_facts; eauto.
    - intros i Hi. rewrite E2. apply HF. lia. }
  assert (NF : readPatches o fs = NoFile).
  { unfold readPatches. rewrite (collect_none _ _ i0); auto. apply in_seq. lia. }
  unfold getPatches at 1. destruct (Nat.eqb_spec (o_np o) 1); [lia|]. rewrite NF, EB, EW.
  assert (LATER : forall o2 low2, o_src o2 = s -> o_file o2 = o_file o -> o_np o2 = o_np o ->
    (o_loaded o2 = false -> noEval s /\ wOK s c) ->
    exists l2, getPatches o2 low2 true fs1 = (Some l2, fs1) /\ Forall2 (sameData s c) (seq 0 (o_np o)) l2).
  { intros o2 low2 E1 E2 E3 HU. destruct (RD o2 E1 E2 E3 HU) as [l2 [E Q]]. exists l2. split; auto.
    unfold getPatches. destruct (Nat.eqb_spec (o_np o2) 1); [lia|]. rewrite E. reflexivity. }
  assert (FRAME : forall b i, b <> o_file o \/ (o_np o <= i)%nat -> fs1 b i = fs b i).
  { intros b i H. rewrite W2 by (destruct H as [H|H]; [left; auto|right; lia]). apply removeAll_other. auto. }
  destruct low.
  - destruct (RD (mkCO (o_src o) (o_file o) (o_np o) (o_centers o) ld)) as [l [E Q]]; auto.
    { cbn [o_loaded]. intro E. destruct DEC as [D|D]; [|rewrite LD1 in E by auto; discriminate].
      destruct (HLF D) as [A [[B|B] _]]; auto. rewrite (LD2 B) in E. discriminate. }
    rewrite E. exists l, fs1. auto.
  - exists (map snd (map (fun i => (fst (g i), Some (snd (g i)))) (seq 0 (o_np o)))), fs1. split; auto. split; auto. rewrite map_map.
    assert (Y : forall a, (forall i, In i a -> (i < o_np o)%nat) ->
      Forall2 (sameData s c) a (map (fun i => snd (fst (g i), Some (snd (g i)))) a)).
    { induction a as [|i a IH]; intro H; constructor; [|apply IH; intros; apply H; right; auto].
      destruct (HG i (H i (or_introl eq_refl))) as [A [B [C _]]]. exists (snd (g i)). auto. }
    apply Y. intros i Hi. apply in_seq in Hi. lia.
Qed.
