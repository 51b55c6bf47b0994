(** C92: estimate_multi_cov. *)
From Coq Require Import Reals Lra Lia List ZArith Bool Permutation.
From Verif Require Import Base Geometry Tree Traverse Run Corr Patch Cov Spec SpecRun GeomFacts SumFacts CovFacts PropsCov PropsCov2 MultiCov.
Import ListNotations.
Open Scope R_scope.

(** ** Specification *)
(** The covariance sum of two lists of complex numbers: sum of conj(x - mean x) (y - mean y), each
    term with a weight. *)
Definition cmean (X : list cplx) : cplx := cscal (/ INR (length X)) (csum (fun x => x) X).
Definition covSum (X Y : list cplx) : cplx :=
  csum (fun xy => cmul (cconj (csub (fst xy) (cmean X))) (csub (snd xy) (cmean Y))) (combine X Y).
Definition wcovSum (w : list R) (X Y : list cplx) : cplx :=
  csum (fun z : R * (cplx * cplx) => cscal (fst z) (cmul (cconj (csub (fst (snd z)) (cmean X))) (csub (snd (snd z)) (cmean Y))))
    (combine w (combine X Y)).
(** What an object does on its own with a list of selections of pairs: the design matrix and weights. *)
Fixpoint ownRows (o : cobj) (pl : list (list key)) : list (list cplx * R) :=
  match pl with
  | [] => []
  | p :: t => let o' := advance o p in (getStat o', sumR (fun x => x) (getWeight o')) :: ownRows o' t
  end.
(** Column [i] of its design matrix: the values of component [i] of its data vector. *)
Definition ownCol (o : cobj) (pl : list (list key)) (i : nat) : list cplx :=
  map (fun r => nth i (fst r) (0, 0)) (ownRows o pl).
Definition ownWeights (o : cobj) (pl : list (list key)) : list R := map snd (ownRows o pl).
(** The data vector of an object has the same length in every row. *)
Definition statLen (o : cobj) (n : nat) : Prop := forall s, length (o_stat o s) = n.
(** The selections of an object, for each method. *)
Definition nBoot (os : list cobj) : nat := fold_right Nat.max 0%nat (map o_num os).
Definition selOf (m : cmethod) (draws : nat -> list Z) (nboot : nat) (o : cobj) : list (list key) :=
  match m with
  | Shot => []
  | Jackknife => o_jack o
  | Sample => o_sample o
  | Bootstrap => map (fun k => o_boot o (draws k)) (seq 0 nboot)
  | Marked => map (fun k => o_marked o (draws k)) (seq 0 nboot)
  end.
(** A processed object: patch results, and one selection for each patch. *)
Definition goodObj (n : Z) (o : cobj) : Prop :=
  o_keys o = true /\ o_npatch o = n /\ length (o_jack o) = Z.to_nat n /\ length (o_sample o) = Z.to_nat n.
(** The position of the data vector of the object after [pre]. *)
Definition offset (pre : list cobj) : nat := length (concatStat pre).

(** ** Rows *)
Lemma design_cons f os p t : multiDesign f os (p :: t) =
  (f (stepAll os p), totWeight (stepAll os p)) :: multiDesign f (stepAll os p) t.
Proof.
  unfold multiDesign, designSerial. cbn [designCore]. unfold coreRow at 1. rewrite Z.mod_1_r. cbn [Z.eqb]. f_equal.
  generalize (stepAll os p). generalize 0%nat at 2 as n. intro n. generalize 1%nat as m. revert n.
  induction t as [|q t IH]; intros n m s; auto. cbn [designCore]. unfold coreRow. rewrite !Z.mod_1_r. cbn [Z.eqb].
  f_equal. apply IH.
Qed.
Lemma design_nil f os : multiDesign f os [] = [].
Proof. reflexivity. Qed.
Lemma design_length f plist : forall os, length (multiDesign f os plist) = length plist.
Proof. induction plist as [|p t IH]; intro os; auto. rewrite design_cons. simpl. rewrite IH; auto. Qed.
Lemma design_own o pl : multiDesign concatStat [o] (map (fun p => [p]) pl) = ownRows o pl.
Proof.
  revert o. induction pl as [|p t IH]; intro o; auto. cbn [map]. rewrite design_cons. cbn [stepAll ownRows].
  rewrite IH. unfold concatStat, totWeight. cbn [flat_map sumR]. rewrite app_nil_r, Rplus_0_r. auto.
Qed.
Lemma ownRows_length pl : forall o, length (ownRows o pl) = length pl.
Proof. induction pl as [|p t IH]; intro o; simpl; auto. Qed.
Lemma statLen_advance o n p : statLen o n -> statLen (advance o p) n.
Proof. intro H. exact H. Qed.
(** The rows of the objects behind each other. *)
Definition joinAB (ab : (list cplx * R) * (list cplx * R)) : list cplx * R :=
  (fst (fst ab) ++ fst (snd ab), snd (fst ab) + snd (snd ab)).
Lemma design_split o os plist : (forall r, In r plist -> r <> []) ->
  multiDesign concatStat (o :: os) plist =
  map joinAB (combine (ownRows o (map (hd []) plist)) (multiDesign concatStat os (map (@tl _) plist))).
Proof.
  revert o os. induction plist as [|r t IH]; intros o os H; auto.
  destruct r as [|p ps]; [elim (H [] (or_introl eq_refl)); auto|].
  cbn [map hd tl]. rewrite !design_cons. cbn [stepAll ownRows combine map fst snd].
  rewrite IH by (intros; apply H; right; auto). unfold concatStat at 1, totWeight at 1. cbn [flat_map sumR]. reflexivity.
Qed.
Lemma nth_combine {A B} (a : list A) (b : list B) x y : length a = length b ->
  forall k, nth k (combine a b) (x, y) = (nth k a x, nth k b y).
Proof. intros H k. apply combine_nth; auto. Qed.
(** Entry [offset + i] of row [k]. *)
Lemma row_entry plist : forall pre o post k i n, (k < length plist)%nat ->
  (forall r, In r plist -> length r = length (pre ++ o :: post)) ->
  (forall c, In c pre -> exists m, statLen c m) -> statLen o n -> (i < n)%nat ->
  nth (offset pre + i) (fst (nth k (multiDesign concatStat (pre ++ o :: post) plist) ([], 0))) (0, 0) =
  nth i (fst (nth k (ownRows o (map (fun r => nth (length pre) r []) plist)) ([], 0))) (0, 0).
Proof.
  intros pre. revert plist. induction pre as [|c pre IH]; intros plist o post k i n Hk HL HS Ho Hi.
  - cbn [app length] in *. unfold offset, concatStat; cbn [flat_map length plus].
    rewrite design_split by (intros r Hr ->; apply HL in Hr; simpl in Hr; lia).
    rewrite (nth_indep _ ([], 0) (joinAB (([], 0), ([], 0)))).
    2:{ rewrite map_length, combine_length, ownRows_length, design_length, !map_length. lia. }
    rewrite map_nth, nth_combine by (rewrite ownRows_length, design_length, !map_length; auto). unfold joinAB; cbn [fst snd].
    rewrite app_nth1.
    + replace (map (fun r : list (list key) => nth 0 r []) plist) with (map (hd (@nil key)) plist); auto.
      apply map_ext. intros [|? ?]; auto.
    + clear - Hk Ho Hi. rewrite <- (map_length (hd (@nil key)) plist) in Hk. revert k Hk. generalize (map (hd (@nil key)) plist) as pl.
      intro pl. revert o Ho. induction pl as [|p t IH]; intros o Ho k Hk; [simpl in Hk; lia|]. destruct k as [|k].
      * simpl. unfold getStat. simpl. rewrite Ho. auto.
      * cbn [ownRows nth]. apply IH; auto. simpl in Hk; lia.
  - cbn [app length] in *.
    rewrite design_split by (intros r Hr ->; apply HL in Hr; simpl in Hr; lia).
    rewrite (nth_indep _ ([], 0) (joinAB (([], 0), ([], 0)))).
    2:{ rewrite map_length, combine_length, ownRows_length, design_length, !map_length. lia. }
    rewrite map_nth, nth_combine by (rewrite ownRows_length, design_length, !map_length; auto). unfold joinAB; cbn [fst snd].
    destruct (HS c (or_introl eq_refl)) as [m Hm].
    assert (Lc : length (fst (nth k (ownRows c (map (hd []) plist)) ([], 0))) = length (getStat c)).
    { clear - Hk Hm. rewrite <- (map_length (hd (@nil key)) plist) in Hk. revert k Hk. generalize (map (hd (@nil key)) plist) as pl.
      intro pl. unfold getStat at 1. rewrite Hm. revert c Hm. induction pl as [|p t IH]; intros c Hm k Hk; [simpl in Hk; lia|].
      destruct k as [|k]; [simpl; unfold getStat; simpl; apply Hm|]. cbn [ownRows nth]. apply IH; auto. simpl in Hk; lia. }
    rewrite app_nth2; unfold offset, concatStat in *; cbn [flat_map] in *; rewrite app_length, Lc; [|lia].
    replace (length (getStat c) + length (flat_map getStat pre) + i - length (getStat c))%nat with (length (flat_map getStat pre) + i)%nat by lia.
    rewrite (IH (map (@tl _) plist) o post k i n); auto.
    + rewrite map_map. do 4 f_equal. apply map_ext. intros [|? r]; auto. simpl. destruct (length pre); auto.
    + rewrite map_length; auto.
    + intros r Hr. apply in_map_iff in Hr as [r' [<- Hr]]. apply HL in Hr. destruct r'; simpl in *; lia.
    + intros; apply HS; right; auto.
Qed.
(** The weights of a row. *)
Lemma row_weight plist : forall os k, (k < length plist)%nat -> (forall r, In r plist -> length r = length os) ->
  snd (nth k (multiDesign concatStat os plist) ([], 0)) =
  sumR (fun p => snd (nth k (ownRows (nth p os (mkObj unit tt false 0 0 0 [] [] (fun _ => []) (fun _ => []) (fun s _ => s) (fun _ => []) (fun _ => [])))
     (map (fun r => nth p r []) plist)) ([], 0))) (seq 0 (length os)).
Proof.
  set (dflt := mkObj _ _ _ _ _ _ _ _ _ _ _ _ _).
  intros os. revert plist. induction os as [|o os IH]; intros plist k Hk HL.
  - clear HL. cbn [length seq sumR]. revert k Hk. induction plist as [|p t IH]; intros k Hk; [simpl in Hk; lia|].
    rewrite design_cons. destruct k as [|k]; auto. apply IH. simpl in Hk; lia.
  - rewrite design_split by (intros r Hr ->; apply HL in Hr; simpl in Hr; lia).
    rewrite (nth_indep _ ([], 0) (joinAB (([], 0), ([], 0)))).
    2:{ rewrite map_length, combine_length, ownRows_length, design_length, !map_length. lia. }
    rewrite map_nth, nth_combine by (rewrite ownRows_length, design_length, !map_length; auto). unfold joinAB; cbn [fst snd].
    cbn [length seq sumR]. f_equal.
    + replace (map (fun r : list (list key) => nth 0 r []) plist) with (map (hd (@nil key)) plist); auto.
      apply map_ext. intros [|? ?]; auto.
    + rewrite IH.
      * rewrite <- seq_shift, sumR_map. apply sumR_ext. intros p _. rewrite map_map. cbn [nth].
        do 3 f_equal. apply map_ext. intros [|? r]; simpl; auto. destruct p; auto.
      * rewrite map_length; auto.
      * intros r Hr. apply in_map_iff in Hr as [r' [<- Hr]]. apply HL in Hr. destruct r'; simpl in *; lia.
Qed.

(** ** The covariance of two columns *)
Lemma csum_combine_map {A} (f g : A -> cplx) (h : cplx * cplx -> cplx) l :
  csum h (combine (map f l) (map g l)) = csum (fun x => h (f x, g x)) l.
Proof. induction l as [|x l IH]; auto. cbn [map combine]. rewrite !csum_cons, IH. auto. Qed.
Lemma cmean_map (v : list vrow) a : cmean (map (fun r : vrow => r a) v) = vmean v a.
Proof. unfold cmean, vmean. rewrite map_length, csum_map. auto. Qed.
Lemma gram_covSum v a b : gram (centred v) a b = covSum (map (fun r : vrow => r a) v) (map (fun r : vrow => r b) v).
Proof.
  unfold gram, covSum, centred. rewrite csum_map, csum_combine_map, !cmean_map. reflexivity.
Qed.
Lemma nth_map_in {A B} (f : A -> B) l d e k : (k < length l)%nat -> nth k (map f l) d = f (nth k l e).
Proof. intro H. rewrite (nth_indep _ d (f e)) by (rewrite map_length; auto). apply map_nth. Qed.
Lemma col_entry plist pre o post i n :
  (forall r, In r plist -> length r = length (pre ++ o :: post)) ->
  (forall c, In c pre -> exists m, statLen c m) -> statLen o n -> (i < n)%nat ->
  map (fun r : vrow => r (offset pre + i)%nat) (map (fun r => rowOf (fst r)) (multiDesign concatStat (pre ++ o :: post) plist)) =
  ownCol o (map (fun r => nth (length pre) r []) plist) i.
Proof.
  intros HL HS Ho Hi. rewrite map_map. unfold ownCol.
  apply (nth_ext _ _ (0, 0) (0, 0)).
  - rewrite !map_length, design_length, ownRows_length, map_length; auto.
  - intros k Hk. rewrite map_length, design_length in Hk.
    rewrite (nth_map_in _ _ _ ([], 0)) by (rewrite design_length; auto).
    rewrite (nth_map_in _ _ _ ([], 0)) by (rewrite ownRows_length, map_length; auto).
    unfold rowOf. apply (row_entry plist pre o post k i n); auto.
Qed.
(** ** The selections *)
Lemma zipRows_length pls n : pls <> [] -> (forall l, In l pls -> length l = n) -> length (zipRows pls) = n.
Proof.
  induction pls as [|l [|l' t] IH]; intros H HL; [contradiction| |].
  - simpl. rewrite map_length. apply HL; simpl; auto.
  - change (zipRows (l :: l' :: t)) with (map (fun xy : list key * list (list key) => fst xy :: snd xy) (combine l (zipRows (l' :: t)))).
    rewrite map_length, combine_length, IH; [|discriminate|intros; apply HL; right; auto].
    rewrite (HL l) by (simpl; auto). lia.
Qed.
Lemma zipRows_nth pls n k : (forall l, In l pls -> length l = n) -> (k < n)%nat ->
  nth k (zipRows pls) [] = map (fun l => nth k l []) pls.
Proof.
  intros HL Hk. induction pls as [|l [|l' t] IH].
  - destruct k; auto.
  - simpl. assert (length l = n) by (apply HL; simpl; auto). rewrite (nth_map_in _ _ _ []) by lia. auto.
  - change (zipRows (l :: l' :: t)) with (map (fun xy : list key * list (list key) => fst xy :: snd xy) (combine l (zipRows (l' :: t)))).
    assert (L1 : length l = n) by (apply HL; simpl; auto).
    assert (L2 : length (zipRows (l' :: t)) = n) by (apply zipRows_length; [discriminate|intros; apply HL; right; auto]).
    rewrite (nth_map_in _ _ _ ([], [])) by (rewrite combine_length; lia).
    rewrite nth_combine by lia. cbn [fst snd]. rewrite IH by (intros; apply HL; right; auto). auto.
Qed.
Lemma zipRows_facts os (f : cobj -> list (list key)) n : os <> [] -> (forall o, In o os -> length (f o) = n) ->
  (forall r, In r (zipRows (map f os)) -> length r = length os) /\
  forall pre o post, os = pre ++ o :: post -> map (fun r => nth (length pre) r []) (zipRows (map f os)) = f o.
Proof.
  intros HN HL.
  assert (HL' : forall l, In l (map f os) -> length l = n) by (intros l Hl; apply in_map_iff in Hl as [o [<- Ho]]; auto).
  assert (LZ : length (zipRows (map f os)) = n) by (apply zipRows_length; auto; destruct os; [contradiction|discriminate]).
  split.
  - intros r Hr. apply (In_nth _ _ []) in Hr as [k [Hk <-]]. rewrite (zipRows_nth _ n) by (auto; lia). rewrite !map_length. auto.
  - intros pre o post E. apply (nth_ext _ _ [] []).
    + rewrite map_length, LZ. symmetry. apply HL. rewrite E. apply in_elt.
    + intros k Hk. rewrite map_length, LZ in Hk. rewrite (nth_map_in _ _ _ []) by lia.
      rewrite (zipRows_nth _ n) by (auto; lia). rewrite map_map, E, map_app. cbn [map].
      rewrite app_nth2; rewrite map_length; auto. rewrite Nat.sub_diag. auto.
Qed.
Lemma plist_facts m draws os n : m <> Shot -> os <> [] -> Forall (goodObj n) os ->
  (forall r, In r (plistOf m draws os) -> length r = length os) /\
  forall pre o post, os = pre ++ o :: post -> map (fun r => nth (length pre) r []) (plistOf m draws os) = selOf m draws (nBoot os) o.
Proof.
  intros Hm HN HG.
  assert (HB : forall f : cobj -> list Z -> list key, let pl := map (fun k => map (fun o => f o (draws k)) os) (seq 0 (nBoot os)) in
     (forall r, In r pl -> length r = length os) /\
     forall pre o post, os = pre ++ o :: post -> map (fun r => nth (length pre) r []) pl = map (fun k => f o (draws k)) (seq 0 (nBoot os))).
  { intros f pl. split.
    - intros r Hr. apply in_map_iff in Hr as [k [<- _]]. apply map_length.
    - intros pre o post E. unfold pl. rewrite map_map. apply map_ext. intro k. rewrite E, map_app. cbn [map].
      rewrite app_nth2; rewrite map_length; auto. rewrite Nat.sub_diag. auto. }
  rewrite Forall_forall in HG.
  destruct m; [contradiction| | | |]; cbn [plistOf selOf].
  - apply (zipRows_facts os o_jack (Z.to_nat n)); auto. intros o Ho. apply HG; auto.
  - apply (zipRows_facts os o_sample (Z.to_nat n)); auto. intros o Ho. apply HG; auto.
  - apply (HB o_boot).
  - apply (HB o_marked).
Qed.
Lemma check_good os n : os <> [] -> Forall (goodObj n) os -> checkPatchNums os = None.
Proof.
  intros HN HG. unfold checkPatchNums. rewrite Forall_forall in HG.
  destruct (existsb (fun o => negb (o_keys o)) os) eqn:E.
  - apply existsb_exists in E as [o [Ho E]]. destruct (HG o Ho) as [K _]. rewrite K in E. discriminate.
  - destruct os as [|o t]; [contradiction|].
    destruct (existsb (fun c => negb (o_npatch c =? o_npatch o)%Z) t) eqn:E2; auto.
    apply existsb_exists in E2 as [c [Hc E2]]. destruct (HG c (or_intror Hc)) as [_ [N1 _]].
    destruct (HG o (or_introl eq_refl)) as [_ [N2 _]]. rewrite N1, N2, Z.eqb_refl in E2. discriminate.
Qed.
Definition factor (m : cmethod) (N : nat) : R := match m with Jackknife => 1 - 1 / INR N | _ => 1 / (INR N - 1) end.
(** Every block of the covariance matrix is the covariance of the columns which the two objects have
    on their own: nothing depends on the other objects of the list, or on the order. *)
Theorem C92_blocks m draws os n : m <> Shot -> m <> Sample -> os <> [] -> Forall (goodObj n) os ->
  (forall o, In o os -> exists l, statLen o l) ->
  exists C, estimateMultiCov m draws None os = Mat C /\
  forall pre1 o1 post1 l1 i pre2 o2 post2 l2 j,
    os = pre1 ++ o1 :: post1 -> statLen o1 l1 -> (i < l1)%nat ->
    os = pre2 ++ o2 :: post2 -> statLen o2 l2 -> (j < l2)%nat ->
    let sel := selOf m draws (nBoot os) in
    C (offset pre1 + i)%nat (offset pre2 + j)%nat =
      cscal (factor m (length (sel o1))) (covSum (ownCol o1 (sel o1) i) (ownCol o2 (sel o2) j)).
Proof.
  intros Hm Hs HN HG HS.
  assert (HC := check_good os n HN HG).
  destruct (plist_facts m draws os n Hm HN HG) as [P1 P2].
  set (v := map (fun r => rowOf (fst r)) (multiDesign concatStat os (plistOf m draws os))).
  assert (HE : forall pre o post l i, os = pre ++ o :: post -> statLen o l -> (i < l)%nat ->
     map (fun r : vrow => r (offset pre + i)%nat) v = ownCol o (selOf m draws (nBoot os) o) i).
  { intros pre o post l i E Ho Hi. unfold v. rewrite <- (P2 pre o post E). rewrite E. rewrite E in P1. apply (col_entry _ pre o post i l); auto.
    intros c Hc. apply HS. rewrite E. apply in_or_app; auto. }
  assert (HL : forall pre o post, os = pre ++ o :: post -> length v = length (selOf m draws (nBoot os) o)).
  { intros pre o post E. unfold v. rewrite map_length, design_length, <- (P2 pre o post E), map_length. auto. }
  exists (match m with Jackknife => covJack v | _ => covBoot v end). split.
  - unfold estimateMultiCov. rewrite HC. destruct m; try contradiction; reflexivity.
  - intros pre1 o1 post1 l1 i pre2 o2 post2 l2 j E1 S1 I1 E2 S2 I2 sel.
    assert (X := gram_covSum v (offset pre1 + i) (offset pre2 + j)).
    rewrite (HE pre1 o1 post1 l1 i), (HE pre2 o2 post2 l2 j) in X by auto. fold sel in X. specialize (HL pre1 o1 post1 E1). fold sel in HL.
    rewrite <- X, <- HL. clearbody v. destruct m; try contradiction; reflexivity.
Qed.
Lemma ownCol_length o pl i : length (ownCol o pl i) = length pl.
Proof. unfold ownCol. rewrite map_length. apply ownRows_length. Qed.
(** The block of an object is its own covariance matrix.  (Bootstrap: for the same draws and the same
    num_bootstrap.) *)
Theorem C92_own_block m draws os n pre o post l : m <> Shot -> m <> Sample -> Forall (goodObj n) os ->
  (forall c, In c os -> exists l, statLen c l) -> os = pre ++ o :: post -> statLen o l ->
  (forall c, In c os -> o_num c = o_num o) ->
  exists C C0, estimateMultiCov m draws None os = Mat C /\ estimateCov m draws None o = Mat C0 /\
  forall i j, (i < l)%nat -> (j < l)%nat -> C (offset pre + i)%nat (offset pre + j)%nat = C0 i j.
Proof.
  intros Hm Hs HG HS E Ho HB.
  assert (Hin : In o os) by (rewrite E; apply in_elt).
  destruct (C92_blocks m draws os n) as [C [EC HC]]; auto. { rewrite E. destruct pre; discriminate. }
  destruct (C92_blocks m draws [o] n) as [C0 [EC0 HC0]]; auto. { discriminate. }
  { constructor; auto. rewrite Forall_forall in HG. auto. }
  { intros c [<-|[]]. eauto. }
  exists C, C0. split; auto. split; auto. intros i j Hi Hj.
  rewrite (HC pre o post l i pre o post l j) by auto.
  pose proof (HC0 [] o [] l i [] o [] l j eq_refl Ho Hi eq_refl Ho Hj) as X. cbn [offset concatStat flat_map length plus] in X.
  unfold offset in X; cbn [concatStat flat_map length plus] in X. rewrite X. clear X.
  assert (NB : nBoot os = nBoot [o]).
  { unfold nBoot. cbn [map fold_right]. rewrite Nat.max_0_r. clear - HB Hin.
    assert (HX : forall k, (forall c, In c os -> o_num c = k) -> os <> [] -> fold_right Nat.max 0%nat (map o_num os) = k).
    { intro k. clear. induction os as [|c t IH]; intros H N; [contradiction|]. cbn [map fold_right].
      rewrite (H c) by (simpl; auto). destruct t as [|c' t]; [simpl; lia|]. rewrite IH; [lia| |discriminate].
      intros; apply H; right; auto. }
    apply HX; auto. intro N. rewrite N in Hin. destruct Hin. }
  rewrite NB. reflexivity.
Qed.
(** When the function raises, and which exception. *)
Theorem C92_errors m draws func os : m <> Shot -> m <> Sample ->
  match estimateMultiCov m draws func os with
  | Mat _ => os <> [] /\ (forall o, In o os -> o_keys o = true) /\ (forall o c, In o os -> In c os -> o_npatch o = o_npatch c)
  | ValErr => exists o, In o os /\ o_keys o = false
  | RunErr => (forall o, In o os -> o_keys o = true) /\ exists o c, In o os /\ In c os /\ o_npatch o <> o_npatch c
  | IdxErr => os = []
  | Diag _ => False
  end.
Proof.
  intros Hm Hs.
  assert (X : match checkPatchNums os with
     | None => os <> [] /\ (forall o, In o os -> o_keys o = true) /\ (forall o c, In o os -> In c os -> o_npatch o = o_npatch c)
     | Some ValErr => exists o, In o os /\ o_keys o = false
     | Some RunErr => (forall o, In o os -> o_keys o = true) /\ exists o c, In o os /\ In c os /\ o_npatch o <> o_npatch c
     | Some IdxErr => os = []
     | Some _ => False
     end).
  { unfold checkPatchNums. destruct (existsb (fun o => negb (o_keys o)) os) eqn:E.
    - apply existsb_exists in E as [o [Ho E]]. exists o. split; auto. destruct (o_keys o); auto; discriminate.
    - assert (HK : forall o, In o os -> o_keys o = true).
      { intros o Ho. destruct (o_keys o) eqn:K; auto. assert (existsb (fun o => negb (o_keys o)) os = true); [|congruence].
        apply existsb_exists. exists o. rewrite K. auto. }
      destruct os as [|o t]; auto.
      destruct (existsb (fun c => negb (o_npatch c =? o_npatch o)%Z) t) eqn:E2.
      + apply existsb_exists in E2 as [c [Hc E2]]. split; auto. exists o, c. split; [simpl; auto|]. split; [right; auto|].
        intro N. rewrite N, Z.eqb_refl in E2. discriminate.
      + assert (HP : forall c, In c (o :: t) -> o_npatch c = o_npatch o).
        { intros c [<-|Hc]; auto. destruct (Z.eqb_spec (o_npatch c) (o_npatch o)); auto. exfalso.
          assert (existsb (fun c => negb (o_npatch c =? o_npatch o)%Z) t = true); [|congruence].
          apply existsb_exists. exists c. split; auto. apply negb_true_iff, Z.eqb_neq. auto. }
        split; [discriminate|]. split; auto. intros a b Ha Hb. rewrite (HP a Ha), (HP b Hb). auto. }
  unfold estimateMultiCov. destruct m; try contradiction; destruct (checkPatchNums os) as [[]|]; auto; contradiction.
Qed.
Lemma map_nth_seq {A} (l : list A) d : map (fun p => nth p l d) (seq 0 (length l)) = l.
Proof.
  apply (nth_ext _ _ d d); rewrite map_length, seq_length; auto. intros k Hk.
  rewrite (nth_map_in _ _ _ 0%nat) by (rewrite seq_length; auto). rewrite seq_nth; auto.
Qed.
(** method='sample': the weight of patch [k] is the sum of the weights of all the objects. *)
Definition sumLists (ls : list (list R)) (k : nat) : R := sumR (fun l => nth k l 0) ls.
Theorem C92_sample_blocks draws os n : os <> [] -> (0 < n)%Z -> Forall (goodObj n) os ->
  (forall o, In o os -> exists l, statLen o l) ->
  let W := map (sumLists (map (fun o => ownWeights o (o_sample o)) os)) (seq 0 (Z.to_nat n)) in
  (forall x, In x W -> x <> 0) ->
  exists C, estimateMultiCov Sample draws None os = Mat C /\
  forall pre1 o1 post1 l1 i pre2 o2 post2 l2 j,
    os = pre1 ++ o1 :: post1 -> statLen o1 l1 -> (i < l1)%nat ->
    os = pre2 ++ o2 :: post2 -> statLen o2 l2 -> (j < l2)%nat ->
    C (offset pre1 + i)%nat (offset pre2 + j)%nat =
      cscal (1 / (INR (Z.to_nat n) - 1))
        (wcovSum (map (fun x => x / sumR (fun x => x) W) W) (ownCol o1 (o_sample o1) i) (ownCol o2 (o_sample o2) j)).
Proof.
  intros HN Hn HG HS W HW.
  assert (HC := check_good os n HN HG).
  assert (Hm : Sample <> Shot) by discriminate.
  destruct (plist_facts Sample draws os n Hm HN HG) as [P1 P2].
  set (pl := plistOf Sample draws os) in *.
  set (rows := multiDesign concatStat os pl).
  set (v := map (fun r => rowOf (fst r)) rows).
  assert (HE : forall pre o post l i, os = pre ++ o :: post -> statLen o l -> (i < l)%nat ->
     map (fun r : vrow => r (offset pre + i)%nat) v = ownCol o (o_sample o) i).
  { intros pre o post l i E Ho Hi. unfold v, rows. rewrite <- (P2 pre o post E : _ = o_sample o). rewrite E at 1. rewrite E in P1.
    apply (col_entry _ pre o post i l); auto. intros c Hc. apply HS. rewrite E. apply in_or_app; auto. }
  assert (LP : length pl = Z.to_nat n).
  { destruct os as [|o t]; [contradiction|]. rewrite <- (map_length (fun r => nth 0 r []) pl).
    pose proof (P2 [] o t eq_refl) as X. cbn [length] in X. rewrite X. cbn [selOf]. inversion HG as [|? ? G _]. apply G. }
  assert (EW : map snd rows = W).
  { apply (nth_ext _ _ 0 0).
    - unfold W, rows. rewrite !map_length, design_length, seq_length. auto.
    - intros k Hk. unfold rows in *. rewrite map_length, design_length in Hk.
      rewrite (nth_map_in _ _ _ ([], 0)) by (rewrite design_length; auto).
      rewrite (row_weight pl os k Hk P1). set (dflt := mkObj _ _ _ _ _ _ _ _ _ _ _ _ _).
      unfold W. rewrite (nth_map_in _ _ _ 0%nat) by (rewrite seq_length; lia). rewrite seq_nth by lia. cbn [plus].
      unfold sumLists. rewrite sumR_map. clear dependent v. clear HC HW W.
      rewrite (sumR_ext _ (fun p => nth k (ownWeights (nth p os dflt) (o_sample (nth p os dflt))) 0)).
      + rewrite <- (map_nth_seq os dflt) at 2. rewrite sumR_map. auto.
      + intros p Hp. apply in_seq in Hp. destruct (nth_split os dflt (n := p)) as [l1 [l2 [E L]]]; [lia|].
        pose proof (P2 l1 (nth p os dflt) l2 E) as X. rewrite L in X. rewrite X. cbn [selOf]. unfold ownWeights.
        rewrite (nth_map_in _ _ _ ([], 0)); auto. rewrite ownRows_length.
        rewrite Forall_forall in HG. destruct (HG (nth p os dflt)) as [_ [_ [_ G]]]; [apply nth_In; lia|]. lia. }
  destruct (covSample v W) as [C|] eqn:EC.
  - exists C. split.
    + unfold estimateMultiCov. rewrite HC. unfold covFrom. fold pl rows v. rewrite EW, EC. auto.
    + intros pre1 o1 post1 l1 i pre2 o2 post2 l2 j E1 S1 I1 E2 S2 I2.
      rewrite (covSample_wgram v W C _ _ EC).
      assert (LV : length v = Z.to_nat n) by (unfold v, rows; rewrite map_length, design_length; auto).
      rewrite LV. unfold wgram. rewrite csum_map. cbn [fst snd]. unfold wcovSum. rewrite <- csum_scal.
      rewrite <- (HE pre1 o1 post1 l1 i), <- (HE pre2 o2 post2 l2 j) by auto. rewrite !cmean_map.
      unfold centred. generalize (vmean v) as mu. generalize (sumR (fun x => x) W) as tot. clearbody v W. clear. intros tot mu.
      revert W. induction v as [|r t IH]; intros [|w W]; auto. cbn [map combine]. rewrite !csum_cons, <- IH. cbn [fst snd].
      f_equal. cring.
  - exfalso. unfold covSample in EC. destruct (existsb (fun x => Reqb x 0) W) eqn:E; [|discriminate].
    apply existsb_exists in E as [x [Hx E]]. apply (HW x Hx). unfold Reqb in E. destruct (Req_EM_T x 0); auto; discriminate.
Qed.
(** ** A linear func *)
Lemma csum_swap {A B} (f : A -> B -> cplx) X Y :
  csum (fun x => csum (f x) Y) X = csum (fun y => csum (fun x => f x y) X) Y.
Proof.
  induction X as [|x X IH].
  - symmetry. apply csum_zero. reflexivity.
  - rewrite csum_cons, IH, <- csum_add. apply csum_ext. intros y _. rewrite csum_cons. auto.
Qed.
Definition lin (M : nat -> nat -> cplx) (d : nat) (r : vrow) : vrow := fun a => csum (fun c => cmul (M a c) (r c)) (seq 0 d).
Lemma lin_vmean M d v a : vmean (map (lin M d) v) a = lin M d (vmean v) a.
Proof.
  unfold vmean, lin. rewrite map_length, csum_map, csum_swap, <- csum_scal. apply csum_ext. intros c _.
  rewrite csum_cmul_l. change (csum (fun r : nat -> cplx => r c) v) with (csum (fun r : vrow => r c) v).
  generalize (csum (fun r : vrow => r c) v). intro z. cring.
Qed.
Lemma lin_gram M d v a b : gram (centred (map (lin M d) v)) a b =
  csum (fun c => csum (fun e => cmul (cmul (cconj (M a c)) (gram (centred v) c e)) (M b e)) (seq 0 d)) (seq 0 d).
Proof.
  unfold gram, centred. rewrite !csum_map.
  rewrite (csum_ext _ (fun r : vrow => csum (fun c => csum (fun e =>
     cmul (cmul (cconj (M a c)) (cmul (cconj (csub (r c) (vmean v c))) (csub (r e) (vmean v e)))) (M b e)) (seq 0 d)) (seq 0 d))).
  - rewrite csum_swap. apply csum_ext. intros c _. rewrite csum_swap. apply csum_ext. intros e _.
    rewrite csum_map, csum_cmul_r, csum_cmul_l. auto.
  - intros r _. rewrite !lin_vmean.
    assert (HL : forall a, csub (lin M d r a) (lin M d (vmean v) a) = csum (fun c => cmul (M a c) (csub (r c) (vmean v c))) (seq 0 d)).
    { intro a'. unfold lin. induction (seq 0 d) as [|c l IH]; [cring; simpl; ring|]. rewrite !csum_cons, <- IH. cring. }
    rewrite !HL, <- csum_conj, <- csum_cmul_r. apply csum_ext. intros c _. rewrite <- csum_cmul_l. apply csum_ext. intros e _. cring.
Qed.
Lemma design_func f g : (forall os, f os = g (concatStat os)) -> forall plist os,
  multiDesign f os plist = map (fun r => (g (fst r), snd r)) (multiDesign concatStat os plist).
Proof.
  intros H plist. induction plist as [|p t IH]; intro os; auto. rewrite !design_cons. cbn [map fst snd]. rewrite IH, H. auto.
Qed.
(** func = a matrix applied to the default data vector: the covariance is conj(M) C M^T. *)
Theorem C92_linear m draws os n M d k (f : list cobj -> list cplx) : m <> Shot -> m <> Sample -> os <> [] -> Forall (goodObj n) os ->
  (forall os', f os' = map (fun a => csum (fun c => cmul (M a c) (nth c (concatStat os') (0, 0))) (seq 0 d)) (seq 0 k)) ->
  exists C C', estimateMultiCov m draws None os = Mat C /\ estimateMultiCov m draws (Some f) os = Mat C' /\
  forall a b, (a < k)%nat -> (b < k)%nat ->
    C' a b = csum (fun c => csum (fun e => cmul (cmul (cconj (M a c)) (C c e)) (M b e)) (seq 0 d)) (seq 0 d).
Proof.
  intros Hm Hs HN HG Hf. assert (HC := check_good os n HN HG).
  set (rows := multiDesign concatStat os (plistOf m draws os)).
  set (v := map (fun r => rowOf (fst r)) rows).
  set (g := fun s : list cplx => map (fun a => csum (fun c => cmul (M a c) (nth c s (0, 0))) (seq 0 d)) (seq 0 k)).
  set (v' := map (fun r => rowOf (fst r)) (multiDesign f os (plistOf m draws os))).
  exists (match m with Jackknife => covJack v | _ => covBoot v end), (match m with Jackknife => covJack v' | _ => covBoot v' end).
  split; [unfold estimateMultiCov; rewrite HC; destruct m; try contradiction; reflexivity|].
  split; [unfold estimateMultiCov; rewrite HC; destruct m; try contradiction; reflexivity|].
  intros a b Ha Hb.
  assert (EV : forall a, (a < k)%nat -> map (fun r : vrow => r a) v' = map (fun r : vrow => r a) (map (lin M d) v)).
  { intros a' Ha'. unfold v', v. rewrite (design_func f g Hf). fold rows. rewrite !map_map. apply map_ext. intros [s w]. cbn [fst].
    unfold rowOf at 1, g. rewrite (nth_map_in _ _ _ 0%nat) by (rewrite seq_length; auto). rewrite seq_nth by auto. reflexivity. }
  assert (LV : length v' = length v) by (unfold v', v, rows; rewrite !map_length, !design_length; auto).
  assert (EG : gram (centred v') a b =
     csum (fun c => csum (fun e => cmul (cmul (cconj (M a c)) (gram (centred v) c e)) (M b e)) (seq 0 d)) (seq 0 d)).
  { rewrite gram_covSum, !EV, <- gram_covSum by auto. apply lin_gram. }
  assert (SC : forall x, cscal x (gram (centred v') a b) =
     csum (fun c => csum (fun e => cmul (cmul (cconj (M a c)) (cscal x (gram (centred v) c e))) (M b e)) (seq 0 d)) (seq 0 d)).
  { intro x. rewrite EG, <- csum_scal. apply csum_ext. intros c _. rewrite <- csum_scal. apply csum_ext. intros e _. cring. }
  destruct m; try contradiction; unfold covJack, covBoot; rewrite LV; apply SC.
Qed.
(** ** KK and NN objects *)
Theorem C92_objects B d E n1 n2 nb var s s' : (0 < n1)%Z -> (0 < n2)%Z -> n1 = n2 \/ n1 = 1%Z \/ n2 = 1%Z ->
  (d <> [] -> goodObj (Z.max n1 n2) (kkObj B d n1 n2 nb var s)) /\
  (e_res E <> [] -> goodObj (Z.max n1 n2) (nnObj E n1 n2 nb var s')) /\
  statLen (kkObj B d n1 n2 nb var s) (length (bins B)) /\ statLen (nnObj E n1 n2 nb var s') (length (bins (e_B E))).
Proof.
  intros H1 H2 H.
  assert (HN : npatchOf n1 n2 = Z.max n1 n2).
  { unfold npatchOf. destruct (Z.eqb_spec n1 1); lia. }
  assert (LR : forall keys, length (jackRows n1 n2 keys) = Z.to_nat (Z.max n1 n2) /\ length (sampleRows n1 n2 keys) = Z.to_nat (Z.max n1 n2)).
  { intro keys. unfold jackRows, sampleRows, zrange. rewrite !map_length, seq_length, HN. auto. }
  split; [|split; [|split]].
  - intro D. split; [|split; [reflexivity|apply LR]]. destruct d; [contradiction|reflexivity].
  - intro D. split; [|split; [reflexivity|apply LR]]. simpl. destruct (e_res E); [contradiction|reflexivity].
  - intro x. simpl. apply map_length.
  - intro x. simpl. apply map_length.
Qed.

(** ** Two KK objects with three patches and one bin *)
Definition mcB : bparams := mkB BLinear 1 2 1 1 0 1.
Definition mcK (w x : R) : corr := mkK (mkacc (fun _ => 1) (fun _ => w) (fun _ => 0) (fun _ => 0) (fun _ => 0) (fun _ => x)) 0.
Definition mcD1 : dict := [((0, 0)%Z, mcK 1 0); ((1, 1)%Z, mcK 1 0); ((2, 2)%Z, mcK 1 3)].
Definition mcD2 : dict := [((0, 0)%Z, mcK 1 0); ((1, 1)%Z, mcK 1 0); ((2, 2)%Z, mcK 2 6)].
Definition mcO1 : cobj := kkObj mcB mcD1 3 3 10 1 (mkKK cleared).
Definition mcO2 : cobj := kkObj mcB mcD2 3 3 10 1 (mkKK cleared).
Lemma mc_div x y : x <> 0 -> y = x -> forall z, (if Req_EM_T y 0 then z else z / y) = z / x.
Proof. intros H -> z. destruct (Req_EM_T x 0); [contradiction|auto]. Qed.
Ltac mcsolve := cbv [ownCol ownWeights ownRows map mcO1 mcO2 kkObj o_sample o_jack sampleRows jackRows zrange npatchOf Z.eqb Pos.eqb Z.to_nat Pos.to_nat Pos.iter_op Nat.add seq
    Z.of_nat Pos.of_succ_nat Pos.succ samplePairs jackPairs filter fst snd negb andb keysOf mcD1 mcD2
    advance o_step o_cur o_stat o_wt o_S kkStep1 lookup dget keqb getStat getWeight bins mcB nbins nth kkFinal accSum kk_acc kacc a_xi_kk a_weight sumR mcK finalXi];
  repeat match goal with |- context [Req_EM_T ?x 0] => destruct (Req_EM_T x 0) as [|_]; [exfalso; lra|] end;
  repeat (apply f_equal2; [solve [lra | apply f_equal2; lra]|]); auto.
Lemma mc_cols : ownCol mcO1 (o_sample mcO1) 0 = [(0, 0); (0, 0); (3, 0)] /\ ownCol mcO1 (o_jack mcO1) 0 = [(3/2, 0); (3/2, 0); (0, 0)] /\
  ownCol mcO2 (o_jack mcO2) 0 = [(2, 0); (2, 0); (0, 0)] /\
  ownWeights mcO1 (o_sample mcO1) = [1; 1; 1] /\ ownWeights mcO2 (o_sample mcO2) = [1; 1; 2].
Proof. repeat split; mcsolve. Qed.
Lemma mc_good : Forall (goodObj 3) [mcO1; mcO2] /\ Forall (goodObj 3) [mcO1] /\ statLen mcO1 1 /\ statLen mcO2 1.
Proof.
  assert (G1 : goodObj 3 mcO1). { apply (C92_objects mcB mcD1 (mkEnv mcB [] (mkRand kclear [] 1 1) None None) 3 3 10 1 (mkKK cleared) (mkNN kclear (fun _ => 0) (fun _ => 0))); try lia. discriminate. }
  assert (G2 : goodObj 3 mcO2). { apply (C92_objects mcB mcD2 (mkEnv mcB [] (mkRand kclear [] 1 1) None None) 3 3 10 1 (mkKK cleared) (mkNN kclear (fun _ => 0) (fun _ => 0))); try lia. discriminate. }
  repeat split; auto.
Qed.
Lemma csum3 {A} (f : A -> cplx) a b c : csum f [a; b; c] = cadd (f a) (cadd (f b) (f c)).
Proof. cbv [csum sumR]. cring; simpl; ring. Qed.
Example C92_example : exists C, estimateMultiCov Jackknife (fun _ => []) None [mcO1; mcO2] = Mat C /\
  C 0%nat 0%nat = (1, 0) /\ C 0%nat 1%nat = (4/3, 0) /\ C 1%nat 0%nat = (4/3, 0).
Proof.
  destruct mc_good as [G [_ [S1 S2]]]. destruct mc_cols as [_ [K1 [K2 _]]].
  destruct (C92_blocks Jackknife (fun _ => []) [mcO1; mcO2] 3) as [C [EC HC]]; auto; try discriminate.
  { intros o [<-|[<-|[]]]; eauto. }
  exists C. split; auto.
  assert (C00 := HC [] mcO1 [mcO2] 1%nat 0%nat [] mcO1 [mcO2] 1%nat 0%nat eq_refl S1 (le_n _) eq_refl S1 (le_n _)).
  assert (C01 := HC [] mcO1 [mcO2] 1%nat 0%nat [mcO1] mcO2 [] 1%nat 0%nat eq_refl S1 (le_n _) eq_refl S2 (le_n _)).
  assert (C10 := HC [mcO1] mcO2 [] 1%nat 0%nat [] mcO1 [mcO2] 1%nat 0%nat eq_refl S2 (le_n _) eq_refl S1 (le_n _)).
  cbv zeta in C00, C01, C10.
  change (selOf Jackknife (fun _ => []) (nBoot [mcO1; mcO2]) mcO1) with (o_jack mcO1) in *.
  change (selOf Jackknife (fun _ => []) (nBoot [mcO1; mcO2]) mcO2) with (o_jack mcO2) in *.
  rewrite ?K1 in C00. rewrite K1, K2 in C01. rewrite K1, K2 in C10.
  change (offset [] + 0)%nat with 0%nat in *. change (offset [mcO1] + 0)%nat with 1%nat in *.
  change (length (o_jack mcO1)) with 3%nat in *. change (length (o_jack mcO2)) with 3%nat in *.
  rewrite C00, C01, C10. unfold covSum, cmean. cbn [combine length]. rewrite !csum3.
  cbv [cadd csub cmul cconj cscal fst snd factor]. cbn [INR]. repeat split; apply cplx_eq; cbn [fst snd]; field.
Qed.
(** method='sample': the block of an object is not its own covariance matrix. *)
Theorem C92_sample_own_refuted : exists draws os n o post C C0,
  os = o :: post /\ Forall (goodObj n) os /\ (forall c, In c os -> exists l, statLen c l) /\
  estimateMultiCov Sample draws None os = Mat C /\ estimateCov Sample draws None o = Mat C0 /\ C 0%nat 0%nat <> C0 0%nat 0%nat.
Proof.
  destruct mc_good as [G [G1 [S1 S2]]]. destruct mc_cols as [K1 [_ [_ [W1 W2]]]].
  assert (TW : map (sumLists (map (fun o => ownWeights o (o_sample o)) [mcO1; mcO2])) (seq 0 (Z.to_nat 3)) = [2; 2; 3]).
  { cbn [map]. rewrite W1, W2. change (seq 0 (Z.to_nat 3)) with [0; 1; 2]%nat. cbn [map]. unfold sumLists. cbn [sumR nth]. repeat (apply f_equal2; [lra|]). auto. }
  assert (TW1 : map (sumLists (map (fun o => ownWeights o (o_sample o)) [mcO1])) (seq 0 (Z.to_nat 3)) = [1; 1; 1]).
  { cbn [map]. rewrite W1. change (seq 0 (Z.to_nat 3)) with [0; 1; 2]%nat. cbn [map]. unfold sumLists. cbn [sumR nth]. repeat (apply f_equal2; [lra|]). auto. }
  pose proof (C92_sample_blocks (fun _ => []) [mcO1; mcO2] 3) as X. cbv zeta in X. rewrite TW in X.
  destruct X as [C [EC HC]]; auto; try discriminate; try lia.
  { intros o [<-|[<-|[]]]; eauto. }
  { intros x [<-|[<-|[<-|[]]]]; lra. }
  pose proof (C92_sample_blocks (fun _ => []) [mcO1] 3) as X. cbv zeta in X. rewrite TW1 in X.
  destruct X as [C0 [EC0 HC0]]; auto; try discriminate; try lia.
  { intros o [<-|[]]; eauto. }
  { intros x [<-|[<-|[<-|[]]]]; lra. }
  exists (fun _ => []), [mcO1; mcO2], 3%Z, mcO1, [mcO2], C, C0. repeat split; auto.
  { intros o [<-|[<-|[]]]; eauto. }
  assert (C00 := HC [] mcO1 [mcO2] 1%nat 0%nat [] mcO1 [mcO2] 1%nat 0%nat eq_refl S1 (le_n _) eq_refl S1 (le_n _)).
  assert (D00 := HC0 [] mcO1 [] 1%nat 0%nat [] mcO1 [] 1%nat 0%nat eq_refl S1 (le_n _) eq_refl S1 (le_n _)).
  rewrite K1 in C00, D00. change (offset [] + 0)%nat with 0%nat in *.
  change (Z.to_nat 3) with 3%nat in *.
  rewrite C00, D00. unfold wcovSum, cmean. cbn [combine length map sumR]. rewrite !csum3.
  cbv [cadd csub cmul cconj cscal fst snd]. cbn [INR]. intro E. apply (f_equal fst) in E. cbn [fst] in E.
  field_simplify in E; lra.
Qed.
