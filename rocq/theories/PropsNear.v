(** C15, C16: count_near and get_near. *)
From Coq Require Import Reals Lra Lia List ZArith Bool Permutation Psatz Sorted.
From Verif Require Import Base Geometry Tree Spec GeomFacts SumFacts TreeFacts Examples PropsTree Near.
Import ListNotations.
Open Scope R_scope.

(** ** Specification *)
(** The objects of the catalog at most [sep] (resp. less than [sep]) from [p]. *)
Definition atMost (p : pos) (sep : R) (o : obj) : bool := Rleb (euclid (opos o) p) sep.
Definition closer (p : pos) (sep : R) (o : obj) : bool := Rltb (euclid (opos o) p) sep.
(** row i of the catalog has index i *)
Definition indexed (cat : list obj) : Prop := forall i o, nth_error cat i = Some o -> oidx o = i.

Lemma indexed_nodup cat : indexed cat -> NoDup (map oidx cat).
Proof.
  intro H. apply NoDup_nth_error. intros i j Hi E. rewrite map_length in Hi.
  destruct (nth_error cat i) as [a|] eqn:Ea; [|apply nth_error_None in Ea; lia].
  rewrite (map_nth_error oidx i cat Ea) in E.
  destruct (nth_error cat j) as [b|] eqn:Eb.
  - rewrite (map_nth_error oidx j cat Eb) in E. injection E as E. rewrite (H _ _ Ea), (H _ _ Eb) in E. auto.
  - apply nth_error_None in Eb. rewrite (proj2 (nth_error_None (map oidx cat) j)) in E by (rewrite map_length; auto). discriminate.
Qed.

(** ** What getNear collects *)
Fixpoint got (c : cell) (p : pos) (sep : R) : list obj :=
  let sepsq := SQR sep in
  let dsq := normSq (psub (getPos c) p) in
  match c with
  | Node d (Fin s) l r =>
      if Rltb sepsq dsq && Rltb (SQR (sep + s)) dsq then [] else got l p sep ++ got r p sep
  | Node d Inf l r => got l p sep ++ got r p sep
  | _ => if Rleb dsq sepsq then objs c else []
  end.

Lemma store_ok a v x b : store (a ++ x :: b) (length a) v = Some (a ++ v :: b).
Proof. induction a as [|y a IH]; cbn; auto. rewrite IH. auto. Qed.
Lemma storeAll_ok vs : forall pre old post, length old = length vs ->
  storeAll (pre ++ old ++ post) (length pre) vs = Some (pre ++ vs ++ post, (length pre + length vs)%nat).
Proof.
  induction vs as [|v vs IH]; intros pre old post H; cbn.
  - destruct old; [|discriminate]. cbn. f_equal. f_equal. lia.
  - destruct old as [|x old]; [discriminate|]. cbn [app]. rewrite (store_ok pre v x (old ++ post)).
    specialize (IH (pre ++ [v]) old post). rewrite app_length in IH. cbn in IH.
    rewrite <- !app_assoc in IH. cbn in IH. replace (S (length pre)) with (length pre + 1)%nat by lia.
    rewrite IH by (cbn in H; lia). f_equal. f_equal. lia.
Qed.
(** The state (a,k): [a] is what has been written so far, followed by untouched memory. *)
Definition wrote (n : nat) (st : list nat * nat) (done : list nat) : Prop :=
  exists rest, fst st = done ++ rest /\ snd st = length done /\ length (fst st) = n.
Lemma take_ok m c n st done : okcell m c -> (forall d s l r, c <> Node d s l r) -> wrote n st done ->
  (length done + length (objs c) <= n)%nat ->
  exists st', take c n st = Some st' /\ wrote n st' (done ++ map oidx (objs c)).
Proof.
  intros O HL [rest [W1 [W2 W3]]] Hn. destruct st as [a k]. cbn [fst snd] in *. subst a k.
  assert (EL : leafIndices c = map oidx (objs c)) by (destruct c; auto; exfalso; eapply HL; reflexivity).
  unfold take. rewrite (ok_n _ _ O), EL. destruct (Nat.ltb_spec n (length done + length (objs c))); [lia|].
  rewrite app_length in W3. set (j := length (objs c)) in *.
  replace rest with (firstn j rest ++ skipn j rest) by apply firstn_skipn.
  rewrite storeAll_ok by (rewrite map_length, firstn_length; fold j; lia).
  eexists. split; [reflexivity|]. exists (skipn j rest). cbn [fst snd]. rewrite <- app_assoc. split; auto.
  rewrite !app_length, map_length, skipn_length. fold j. lia.
Qed.
Lemma getNear1_ok m p sep n : forall c st done, wf m c -> wrote n st done ->
  (length done + length (got c p sep) <= n)%nat ->
  exists st', getNear1 c p sep n st = Some st' /\ wrote n st' (done ++ map oidx (got c p sep)).
Proof.
  induction c as [d o|d os|d s l IHl r IHr]; intros st done W HW Hn; cbn [getNear1 got] in *.
  - destruct (Rleb _ _); [apply (take_ok m (Leaf d o)); auto using wf_ok; discriminate|]. exists st. rewrite app_nil_r. auto.
  - destruct (Rleb _ _); [apply (take_ok m (ListLeaf d os)); auto using wf_ok; discriminate|]. exists st. rewrite app_nil_r. auto.
  - destruct (wf_node _ _ _ _ _ W) as [Wl Wr].
    assert (HR : forall st done, wrote n st done -> (length done + length (got l p sep ++ got r p sep) <= n)%nat ->
      exists st', match getNear1 l p sep n st with Some st' => getNear1 r p sep n st' | None => None end = Some st' /\
        wrote n st' (done ++ map oidx (got l p sep ++ got r p sep))).
    { intros st0 done0 HW0 Hn0. rewrite app_length in Hn0. destruct (IHl st0 done0 Wl HW0 ltac:(lia)) as [s1 [E1 W1]].
      rewrite E1. rewrite map_app, app_assoc. apply IHr; auto. rewrite app_length, map_length. lia. }
    destruct s as [x|]; [|apply HR; auto].
    destruct (Req_EM_T x 0) as [E0|E0].
    { exfalso. pose proof (ok_size _ _ (wf_ok _ _ W)) as S. cbn in S. lra. }
    destruct (_ && _); [exists st; rewrite app_nil_r; auto|]. apply HR; auto.
Qed.
Definition gotAll (cells : list cell) p sep : list obj := flat_map (fun c => got c p sep) cells.
Lemma getNearAll_ok m p sep n : forall cells st done, Forall (wf m) cells -> wrote n st done ->
  (length done + length (gotAll cells p sep) <= n)%nat ->
  exists st', getNearAll cells p sep n st = Some st' /\ wrote n st' (done ++ map oidx (gotAll cells p sep)).
Proof.
  induction cells as [|c cells IH]; intros st done HF HW Hn; cbn [getNearAll gotAll flat_map] in *.
  - exists st. rewrite app_nil_r. auto.
  - inversion HF; subst. rewrite app_length in Hn. destruct (getNear1_ok m p sep n c st done) as [s1 [E1 W1]]; auto; [lia|].
    rewrite E1, map_app, app_assoc. apply IH; auto. rewrite app_length, map_length. unfold gotAll. lia.
Qed.
Lemma getNear_fills m cells p sep mem : Forall (wf m) cells -> length mem = length (gotAll cells p sep) ->
  getNear cells p sep mem = Some (map oidx (gotAll cells p sep)).
Proof.
  intros HF HL. unfold getNear. destruct (getNearAll_ok m p sep (length mem) cells (mem, 0%nat) [] HF) as [st [E [rest [W1 [W2 W3]]]]].
  - exists mem. auto.
  - cbn. lia.
  - rewrite E. cbn in *. f_equal. rewrite W1. rewrite W1, app_length, map_length in W3. destruct rest; [apply app_nil_r|cbn in W3; lia].
Qed.

(** *** Memory safety: no write outside the array, whatever its length. *)
Lemma store_some a k v : (k < length a)%nat -> exists a', store a k v = Some a' /\ length a' = length a.
Proof.
  revert k. induction a as [|x a IH]; intros [|k] H; cbn in *; try lia; [eexists; split; reflexivity|].
  destruct (IH k ltac:(lia)) as [a' [-> L]]. eexists. split; [reflexivity|]. cbn. lia.
Qed.
Lemma storeAll_some vs : forall a k, (k + length vs <= length a)%nat ->
  exists a', storeAll a k vs = Some (a', (k + length vs)%nat) /\ length a' = length a.
Proof.
  induction vs as [|v vs IH]; intros a k H; cbn in *.
  - exists a. split; auto. f_equal. f_equal. lia.
  - destruct (store_some a k v ltac:(lia)) as [a1 [-> L1]]. destruct (IH a1 (S k) ltac:(lia)) as [a2 [-> L2]].
    exists a2. split; [f_equal; f_equal; lia|lia].
Qed.
Lemma take_safe m c n st : okcell m c -> (forall d s l r, c <> Node d s l r) -> length (fst st) = n -> (snd st <= n)%nat ->
  exists st', take c n st = Some st' /\ length (fst st') = n /\ (snd st' <= n)%nat.
Proof.
  intros O HL H1 H2. destruct st as [a k]. cbn [fst snd] in *. unfold take.
  assert (EL : length (leafIndices c) = getN c).
  { rewrite (ok_n _ _ O). destruct c; cbn; auto; [apply map_length|]. exfalso; eapply HL; reflexivity. }
  destruct (Nat.ltb_spec n (k + getN c)); [exists (a, k); auto|].
  destruct (storeAll_some (leafIndices c) a k ltac:(lia)) as [a' [-> L]]. eexists. split; [reflexivity|]. cbn. lia.
Qed.
Lemma getNear1_safe m p sep n : forall c st, wf m c -> length (fst st) = n -> (snd st <= n)%nat ->
  exists st', getNear1 c p sep n st = Some st' /\ length (fst st') = n /\ (snd st' <= n)%nat.
Proof.
  induction c as [d o|d os|d s l IHl r IHr]; intros st W H1 H2; cbn [getNear1].
  - destruct (Rleb _ _); [apply (take_safe m (Leaf d o)); auto using wf_ok; discriminate|]. exists st. auto.
  - destruct (Rleb _ _); [apply (take_safe m (ListLeaf d os)); auto using wf_ok; discriminate|]. exists st. auto.
  - destruct (wf_node _ _ _ _ _ W) as [Wl Wr].
    assert (HR : exists st', match getNear1 l p sep n st with Some st' => getNear1 r p sep n st' | None => None end = Some st' /\
        length (fst st') = n /\ (snd st' <= n)%nat).
    { destruct (IHl st Wl H1 H2) as [s1 [-> [A B]]]. apply IHr; auto. }
    destruct s as [x|]; auto. destruct (Req_EM_T x 0) as [E0|E0].
    { exfalso. pose proof (ok_size _ _ (wf_ok _ _ W)) as S. cbn in S. lra. }
    destruct (_ && _); [exists st; auto|]. auto.
Qed.
Theorem C16_memory_safe F cat cells p sep mem : 0 <= fminsize F -> buildField F cat cells ->
  exists a, getNear cells p sep mem = Some a /\ length a = length mem.
Proof.
  intros Hm HB. pose proof (buildField_wf F cat cells Hm HB) as HF. unfold getNear.
  assert (HR : forall st, length (fst st) = length mem -> (snd st <= length mem)%nat ->
    exists st', getNearAll cells p sep (length mem) st = Some st' /\ length (fst st') = length mem /\ (snd st' <= length mem)%nat).
  { clear HB. induction HF as [|c l Hc Hl IH]; intros st H1 H2; cbn [getNearAll]; [exists st; auto|].
    destruct (getNear1_safe (fminsize F) p sep (length mem) c st Hc H1 H2) as [s1 [-> [A B]]]. apply IH; auto. }
  destruct (HR (mem, 0%nat)) as [st' [E [A B]]]; cbn; auto; [lia|]. rewrite E. exists (fst st'). auto.
Qed.

(** ** Geometry of the tests *)
Lemma sq_le_pd p q sep : 0 <= sep -> (normSq (psub p q) <= SQR sep <-> pdist p q <= sep).
Proof. intro H. unfold SQR, pdist. rewrite normSq_le; tauto. Qed.
Lemma atMost_pd p sep o : atMost p sep o = Rleb (pdist (opos o) p) sep.
Proof. unfold atMost. rewrite euclid_pd. auto. Qed.
Lemma closer_pd p sep o : closer p sep o = Rltb (pdist (opos o) p) sep.
Proof. unfold closer. rewrite euclid_pd. auto. Qed.
(** the pruning test: true means every point is farther than sep *)
Lemma pruned p q sep s : 0 <= sep -> 0 <= s -> SQR (sep + s) < normSq (psub q p) -> sep + s < pdist q p.
Proof. intros H1 H2 H. apply lt_sqrt_sq; [lra|]. unfold SQR in H. exact H. Qed.
Lemma filter_all {A} (f : A -> bool) l : (forall x, In x l -> f x = true) -> filter f l = l.
Proof. induction l as [|a l IH]; intro H; cbn; auto. rewrite (H a) by (left; auto). f_equal. apply IH. intros; apply H; right; auto. Qed.
Lemma filter_nil {A} (f : A -> bool) l : (forall x, In x l -> f x = false) -> filter f l = [].
Proof. induction l as [|a l IH]; intro H; cbn; auto. rewrite (H a) by (left; auto). apply IH. intros; apply H; right; auto. Qed.

(** min_size = 0: exactly the objects within sep *)
Lemma leaf0 c p sep : okcell 0 c -> (forall d s l r, c <> Node d s l r) -> 0 <= sep ->
  (if Rleb (normSq (psub (getPos c) p)) (SQR sep) then objs c else []) = filter (atMost p sep) (objs c).
Proof.
  intros O HL Hs. assert (HP : forall o, In o (objs c) -> opos o = getPos c).
  { pose proof (ok_size _ _ O) as S. destruct c as [d o|d os|d s l r]; cbn [objs] in *.
    - intros o' [<-|[]]. auto.
    - intros o' Ho. symmetry. apply pdist_0. pose proof (pdist_nonneg (getPos (ListLeaf d os)) (opos o')). specialize (S o' Ho). lra.
    - exfalso; eapply HL; reflexivity. }
  destruct (Rleb _ _) eqn:E.
  - rewrite filter_all; auto. intros o Ho. rewrite atMost_pd, (HP o Ho). apply Rleb_true. apply sq_le_pd; auto. apply Rleb_true; auto.
  - rewrite filter_nil; auto. intros o Ho. rewrite atMost_pd, (HP o Ho). apply Rleb_false. apply Rleb_false in E.
    destruct (Rlt_le_dec sep (pdist (getPos c) p)); auto. apply (proj2 (sq_le_pd _ p sep Hs)) in r. lra.
Qed.
Lemma got_exact p sep : 0 <= sep -> forall c, wf 0 c -> got c p sep = filter (atMost p sep) (objs c).
Proof.
  intro Hs. induction c as [d o|d os|d s l IHl r IHr]; intro W.
  - apply leaf0; auto using wf_ok. discriminate.
  - apply leaf0; auto using wf_ok. discriminate.
  - destruct (wf_node _ _ _ _ _ W) as [Wl Wr]. cbn [got objs]. rewrite filter_app, IHl, IHr by auto.
    destruct s as [x|]; auto. destruct (_ && _) eqn:E; auto. apply andb_prop in E as [_ E]. apply Rltb_true in E.
    pose proof (ok_size _ _ (wf_ok _ _ W)) as [S1 S2]. apply pruned in E; try lra.
    rewrite <- filter_app, filter_nil; auto. intros o Ho. rewrite atMost_pd. apply Rleb_false. specialize (S2 o Ho).
    pose proof (pdist_triangle (getPos (Node d (Fin x) l r)) (opos o) p). lra.
Qed.
Lemma count_exact p sep : 0 <= sep -> forall c, wf 0 c -> countNear1 c p sep = length (filter (atMost p sep) (objs c)).
Proof.
  intro Hs. assert (HLf : forall c, okcell 0 c -> (forall d s l r, c <> Node d s l r) ->
    (if Rleb (normSq (psub (getPos c) p)) (SQR sep) then getN c else 0%nat) = length (filter (atMost p sep) (objs c))).
  { intros c O HL. rewrite <- leaf0 by auto. rewrite (ok_n _ _ O). destruct (Rleb _ _); auto. }
  induction c as [d o|d os|d s l IHl r IHr]; intro W.
  - apply HLf; auto using wf_ok. discriminate.
  - apply HLf; auto using wf_ok. discriminate.
  - destruct (wf_node _ _ _ _ _ W) as [Wl Wr]. cbn [countNear1 objs]. rewrite filter_app, app_length, IHl, IHr by auto.
    destruct s as [x|]; auto. pose proof (wf_ok _ _ W) as O. pose proof (ok_size _ _ O) as [S1 S2].
    destruct (Req_EM_T x 0); [lra|]. set (C := Node d (Fin x) l r) in *.
    destruct (_ && _) eqn:E.
    + apply andb_prop in E as [_ E]. apply Rltb_true in E. apply pruned in E; try lra.
      rewrite <- app_length, <- filter_app, filter_nil; auto. intros o Ho. rewrite atMost_pd. apply Rleb_false.
      specialize (S2 o Ho). pose proof (pdist_triangle (getPos C) (opos o) p). lra.
    + clear E. destruct (_ && _) eqn:E; auto. apply andb_prop in E as [E1 E3]. apply andb_prop in E1 as [E1 E2].
      apply Rltb_true in E2. apply Rleb_true in E3. apply sq_le_pd in E3; [|lra].
      rewrite <- app_length, <- filter_app, filter_all; [rewrite (ok_n _ _ O); auto|].
      intros o Ho. rewrite atMost_pd. apply Rleb_true. specialize (S2 o Ho).
      pose proof (pdist_triangle (opos o) (getPos C) p). rewrite (pdist_sym (opos o) (getPos C)) in H. lra.
Qed.
Lemma countNear_sum cells p sep : countNear cells p sep = list_sum (map (fun c => countNear1 c p sep) cells).
Proof.
  unfold countNear. assert (H : forall n, fold_left (fun n c => (n + countNear1 c p sep)%nat) cells n
    = (n + list_sum (map (fun c => countNear1 c p sep) cells))%nat); [|rewrite H; lia].
  induction cells as [|c l IH]; intro n; cbn [fold_left map]; [cbn; lia|]. rewrite IH. cbn [list_sum fold_right].
  unfold list_sum. lia.
Qed.
Lemma filter_concat {A} (f : A -> bool) (ls : list (list A)) : filter f (concat ls) = concat (map (filter f) ls).
Proof. induction ls; cbn; auto. rewrite filter_app. f_equal. auto. Qed.
Lemma filter_perm {A} (f : A -> bool) l l' : Permutation l l' -> Permutation (filter f l) (filter f l').
Proof.
  induction 1; cbn; auto.
  - destruct (f x); auto.
  - destruct (f x), (f y); auto. constructor.
  - eapply perm_trans; eauto.
Qed.

(** ** C15 *)
Theorem C15_count_near F cat cells p sep mem : fminsize F = 0 -> buildField F cat cells -> 0 <= sep ->
  count_near F cat cells p sep mem = Some (length (filter (atMost p sep) cat)).
Proof.
  intros Hm HB Hs. unfold count_near. destruct (Req_EM_T (fminsize F) 0); [|lra]. f_equal.
  pose proof (buildField_wf F cat cells ltac:(lra) HB) as HF. rewrite Hm in HF.
  rewrite <- (Permutation_length (filter_perm (atMost p sep) _ _ (buildField_perm _ _ _ HB))).
  rewrite countNear_sum, filter_concat. clear HB. induction HF as [|c l Hc Hl IH]; cbn [map concat]; auto.
  rewrite app_length, <- IH, <- (count_exact p sep Hs c Hc). auto.
Qed.

(** ** min_size > 0 *)
(** No point closer than sep is lost by looking in the enlarged radius. *)
Lemma got_closer m p sep : 0 <= m -> 0 <= sep -> forall c, wf m c ->
  filter (closer p sep) (got c p (sep + m)) = filter (closer p sep) (objs c).
Proof.
  intros Hm Hs. assert (HLf : forall c, okcell m c -> getSize c = Fin 0 ->
    filter (closer p sep) (if Rleb (normSq (psub (getPos c) p)) (SQR (sep + m)) then objs c else []) = filter (closer p sep) (objs c)).
  { intros c O H0. destruct (Rleb _ _) eqn:E; auto. symmetry. apply filter_nil. intros o Ho. rewrite closer_pd. apply Rltb_false.
    apply Rleb_false in E. destruct (Rle_lt_dec sep (pdist (opos o) p)); auto. exfalso.
    pose proof (member_within m c o 0 Hm O Ho H0). pose proof (pdist_triangle (getPos c) (opos o) p).
    assert (X : pdist (getPos c) p <= sep + m) by lra. apply (proj2 (sq_le_pd _ p (sep + m) ltac:(lra))) in X. lra. }
  induction c as [d o|d os|d s l IHl r IHr]; intro W.
  - apply (HLf (Leaf d o)); auto using wf_ok.
  - apply (HLf (ListLeaf d os)); auto using wf_ok.
  - destruct (wf_node _ _ _ _ _ W) as [Wl Wr]. cbn [got objs].
    assert (HR : filter (closer p sep) (got l p (sep + m) ++ got r p (sep + m)) = filter (closer p sep) (objs l ++ objs r)).
    { rewrite !filter_app, IHl, IHr by auto. auto. }
    destruct s as [x|]; auto. destruct (_ && _) eqn:E; auto. apply andb_prop in E as [_ E]. apply Rltb_true in E.
    pose proof (ok_size _ _ (wf_ok _ _ W)) as [S1 S2]. apply pruned in E; try lra.
    symmetry. apply filter_nil. intros o Ho. rewrite closer_pd. apply Rltb_false. specialize (S2 o Ho).
    pose proof (pdist_triangle (getPos (Node d (Fin x) l r)) (opos o) p). lra.
Qed.

(** Centroids with non-negative weights stay inside every ball that contains the points; on the
    sphere, inside every cap smaller than a hemisphere. *)
Definition convexAt (c : coord) (p : pos) (sep : R) (l : list obj) : Prop :=
  (forall o, In o l -> 0 <= owpos o) /\
  match c with
  | Sphere => norm p = 1 /\ sep * sep < 2 /\ forall o, In o l -> norm (opos o) = 1
  | _ => True
  end.
Definition mean3 (l : list obj) : pos := pscale (/ sumR owpos l)
   (mkpos (sumR (fun o => owpos o * px (opos o)) l) (sumR (fun o => owpos o * py (opos o)) l) (sumR (fun o => owpos o * pz (opos o)) l)).
Lemma mean_dot l v : dot (mean3 l) v = / sumR owpos l * sumR (fun o => owpos o * dot (opos o) v) l.
Proof.
  unfold mean3, dot, pscale. cbn [px py pz].
  replace (sumR (fun o => owpos o * (px (opos o) * px v + py (opos o) * py v + pz (opos o) * pz v)) l)
    with (sumR (fun o => owpos o * px (opos o)) l * px v + sumR (fun o => owpos o * py (opos o)) l * py v + sumR (fun o => owpos o * pz (opos o)) l * pz v);
    [ring|]. induction l as [|o l IH]; cbn; [ring|]. rewrite <- IH. ring.
Qed.
Lemma sum_bound l (f : obj -> R) b : (forall o, In o l -> 0 <= owpos o) -> (forall o, In o l -> f o <= b) ->
  sumR (fun o => owpos o * f o) l <= sumR owpos l * b.
Proof.
  induction l as [|o l IH]; intros H1 H2; cbn; [lra|].
  assert (owpos o * f o <= owpos o * b) by (apply Rmult_le_compat_l; [apply H1; left; auto|apply H2; left; auto]).
  specialize (IH (fun o Ho => H1 o (or_intror Ho)) (fun o Ho => H2 o (or_intror Ho))). lra.
Qed.
Lemma sumw_nonneg l : (forall o, In o l -> 0 <= owpos o) -> 0 <= sumR owpos l.
Proof. induction l as [|o l IH]; intro H; cbn; [lra|]. pose proof (H o (or_introl eq_refl)). specialize (IH (fun o Ho => H o (or_intror Ho))). lra. Qed.
Lemma mean_dot_le l v b : (forall o, In o l -> 0 <= owpos o) -> sumR owpos l <> 0 -> (forall o, In o l -> dot (opos o) v <= b) ->
  dot (mean3 l) v <= b.
Proof.
  intros H1 H2 H3. pose proof (sumw_nonneg l H1). rewrite mean_dot. pose proof (sum_bound l (fun o => dot (opos o) v) b H1 H3).
  apply Rmult_le_reg_l with (sumR owpos l); [lra|]. rewrite <- Rmult_assoc, Rinv_r, Rmult_1_l by auto. auto.
Qed.
Lemma mean_in_ball l p sep : (forall o, In o l -> 0 <= owpos o) -> sumR owpos l <> 0 -> 0 <= sep ->
  (forall o, In o l -> pdist (opos o) p <= sep) -> pdist (mean3 l) p <= sep.
Proof.
  intros H1 H2 Hs H3. set (v := psub (mean3 l) p).
  assert (HD : dot (mean3 l) v <= dot p v + sep * norm v).
  { apply mean_dot_le; auto. intros o Ho. pose proof (cauchy_schwarz (psub (opos o) p) v) as CS.
    assert (dot (psub (opos o) p) v = dot (opos o) v - dot p v) by (unfold dot, psub; cbn; ring).
    specialize (H3 o Ho). unfold pdist in H3. pose proof (norm_nonneg v).
    pose proof (Rle_abs (dot (psub (opos o) p) v)). pose proof (Rmult_le_compat_r (norm v) _ _ H0 H3). lra. }
  assert (HV : dot (mean3 l) v - dot p v = norm v * norm v).
  { rewrite norm_sq. unfold v, dot, normSq, psub. cbn. ring. }
  change (pdist (mean3 l) p) with (norm v). pose proof (norm_nonneg v).
  destruct (Rle_lt_dec (norm v) sep); auto. exfalso. pose proof (Rmult_lt_compat_r (norm v) _ _ ltac:(lra) r). lra.
Qed.
Lemma unit_dist p q : norm p = 1 -> norm q = 1 -> normSq (psub p q) = 2 - 2 * dot p q.
Proof.
  intros H1 H2. assert (normSq p = 1) by (rewrite <- norm_sq, H1; ring). assert (normSq q = 1) by (rewrite <- norm_sq, H2; ring).
  unfold normSq, psub, dot in *. cbn in *. lra.
Qed.
Lemma norm_origin p : norm (psub p (mkpos 0 0 0)) = norm p.
Proof. unfold norm, normSq, psub. cbn. f_equal. ring. Qed.
Lemma norm_pscale a p : 0 <= a -> norm (pscale a p) = a * norm p.
Proof.
  intro H. unfold norm. replace (normSq (pscale a p)) with (a * a * normSq p) by (unfold normSq, pscale; cbn; ring).
  rewrite sqrt_mult by (try apply normSq_nonneg; nra). rewrite sqrt_square; auto.
Qed.
Lemma centroid_in c l p sep : l <> [] -> 0 <= sep -> convexAt c p sep l ->
  (forall o, In o l -> pdist (opos o) p <= sep) -> pdist (centroid c l) p <= sep.
Proof.
  intros Hl Hs [H1 HC] H3. unfold centroid. destruct (Req_EM_T (sumR owpos l) 0) as [E|E].
  { destruct l as [|o l]; [congruence|]. apply H3. left; auto. }
  fold (mean3 l). assert (HM := mean_in_ball l p sep H1 E Hs H3). destruct c; cbn [normalize]; auto.
  destruct HC as [Hp [Hh Hu]].
  assert (HN : norm (mean3 l) <= 1).
  { rewrite <- norm_origin. apply (mean_in_ball l (mkpos 0 0 0) 1); auto; [lra|]. intros o Ho. unfold pdist. rewrite norm_origin, Hu; auto. lra. }
  set (t := 1 - sep * sep / 2). assert (Ht : 0 < t) by (unfold t; lra).
  assert (HD : t <= dot (mean3 l) p).
  { assert (X : dot (mean3 l) (pscale (-1) p) <= - t).
    { apply mean_dot_le; auto. intros o Ho. pose proof (H3 o Ho) as D. unfold pdist in D. apply (normSq_le _ _ Hs) in D.
      rewrite unit_dist in D by auto. unfold t. replace (dot (opos o) (pscale (-1) p)) with (- dot (opos o) p) by (unfold dot, pscale; cbn; ring). lra. }
    replace (dot (mean3 l) (pscale (-1) p)) with (- dot (mean3 l) p) in X by (unfold dot, pscale; cbn; ring). lra. }
  assert (HZ : norm (mean3 l) <> 0).
  { intro Z. pose proof (cauchy_schwarz (mean3 l) p) as CS. rewrite Z, Rmult_0_l in CS. pose proof (Rle_abs (dot (mean3 l) p)). lra. }
  destruct (Req_EM_T (norm (mean3 l)) 0) as [|_]; [contradiction|]. pose proof (norm_nonneg (mean3 l)) as HNN.
  set (q := pscale (/ norm (mean3 l)) (mean3 l)).
  assert (HI : 0 < / norm (mean3 l)) by (apply Rinv_0_lt_compat; lra).
  assert (HQ : norm q = 1) by (unfold q; rewrite norm_pscale by lra; field; auto).
  assert (DQ : t <= dot q p).
  { replace (dot q p) with (/ norm (mean3 l) * dot (mean3 l) p) by (unfold q, dot, pscale; cbn; ring).
    assert (1 <= / norm (mean3 l)) by (rewrite <- Rinv_1; apply Rinv_le_contravar; lra).
    pose proof (Rmult_le_compat_r (dot (mean3 l) p) _ _ ltac:(lra) H). lra. }
  apply (normSq_le _ _ Hs). rewrite unit_dist by auto. unfold t in DQ. lra.
Qed.
(** Hence the shortcut of CountNear agrees with what GetNear collects. *)
Lemma convex_sub c p sep l l' : (forall o, In o l' -> In o l) -> convexAt c p sep l -> convexAt c p sep l'.
Proof. intros H [A B]. split; auto. destruct c; auto. destruct B as [B1 [B2 B3]]. auto. Qed.
Lemma got_whole c sm m br p sep : 0 <= m -> 0 <= sep -> forall l t, builds c sm (m * m) br l t -> convexAt c p sep l ->
  (forall o, In o l -> pdist (opos o) p <= sep) -> got t p sep = objs t.
Proof.
  intros Hm Hs l t HB. pose proof HB as HB0.
  induction HB as [o|l L Q cl cr Hl Hsz HS HbL IHL HbR IHR|l Hl Hsz]; intros HC HD; cbn [got objs].
  - replace (Rleb _ _) with true; auto. symmetry. apply Rleb_true. apply sq_le_pd; auto. apply HD. left; auto.
  - pose proof (splitData_perm _ _ _ _ _ HS) as HP.
    assert (IL : forall o, In o L -> In o l) by (intros o Ho; apply (Permutation_in _ HP); apply in_or_app; auto).
    assert (IR : forall o, In o Q -> In o l) by (intros o Ho; apply (Permutation_in _ HP); apply in_or_app; auto).
    assert (HR : got cl p sep ++ got cr p sep = objs cl ++ objs cr).
    { rewrite IHL, IHR; auto; eapply convex_sub; eauto. }
    destruct br; auto. destruct (_ && _) eqn:E; auto. exfalso. apply andb_prop in E as [_ E]. apply Rltb_true in E.
    apply pruned in E; auto; [|apply sqrt_pos]. destruct l as [|o l0]; [cbn in Hl; lia|].
    pose proof (size_bound (centroid c (o :: l0)) (o :: l0) o (or_introl eq_refl)) as B.
    pose proof (HD o (or_introl eq_refl)). pose proof (pdist_triangle (centroid c (o :: l0)) (opos o) p).
    cbn [getPos getData dataN dpos] in E. unfold getPos, getData, dataN in E. cbn [dpos] in E. lra.
  - replace (Rleb _ _) with true; auto. symmetry. apply Rleb_true. apply sq_le_pd; auto. cbn. apply centroid_in; auto.
    intros ->. cbn in Hl. lia.
Qed.
Definition tooFar p sep x C := Rltb (SQR sep) (normSq (psub (getPos C) p)) && Rltb (SQR (sep + x)) (normSq (psub (getPos C) p)).
Definition allIn p sep x C := Rleb (normSq (psub (getPos C) p)) (SQR sep) && Rltb x sep && Rleb (normSq (psub (getPos C) p)) (SQR (sep - x)).
Lemma count_node d x l r p sep : x <> 0 -> let C := Node d (Fin x) l r in
  countNear1 C p sep = if tooFar p sep x C then 0%nat else if allIn p sep x C then getN C else (countNear1 l p sep + countNear1 r p sep)%nat.
Proof. intros H C. cbn [countNear1 C]. destruct (Req_EM_T x 0); [contradiction|]. reflexivity. Qed.
Lemma got_node d x l r p sep : let C := Node d (Fin x) l r in
  got C p sep = if tooFar p sep x C then [] else got l p sep ++ got r p sep.
Proof. reflexivity. Qed.
Lemma count_got c sm m br p sep : 0 <= m -> 0 <= sep -> forall l t, builds c sm (m * m) br l t -> convexAt c p sep l ->
  countNear1 t p sep = length (got t p sep).
Proof.
  intros Hm Hs l t HB. pose proof HB as HB0.
  induction HB as [o|l L Q cl cr Hl Hsz HS HbL IHL HbR IHR|l Hl Hsz]; intro HC; pose proof (builds_ok _ _ _ _ _ _ Hm HB0) as O.
  - cbn [countNear1 got]. destruct (Rleb _ _); auto.
  - pose proof (splitData_perm _ _ _ _ _ HS) as HP.
    assert (CL : convexAt c p sep L) by (apply (convex_sub c p sep l); auto; intros o Ho; apply (Permutation_in _ HP); apply in_or_app; auto).
    assert (CR : convexAt c p sep Q) by (apply (convex_sub c p sep l); auto; intros o Ho; apply (Permutation_in _ HP); apply in_or_app; auto).
    destruct br; [cbn [got countNear1]; rewrite app_length, IHL, IHR; auto|].
    pose proof (ok_size _ _ O) as S. cbn in S. destruct S as [S1 S2].
    set (x := sqrt (calculateSizeSq (centroid c l) l)) in *.
    rewrite count_node by lra. cbn zeta. pose proof (got_node (dataN c l) x cl cr p sep) as HG. cbn zeta in HG.
    set (N := Node (dataN c l) (Fin x) cl cr) in *. destruct (tooFar p sep x N); [rewrite HG; auto|].
    destruct (allIn p sep x N) eqn:E2; [|rewrite HG, app_length, IHL, IHR; auto].
    rewrite (got_whole c sm m false p sep Hm Hs l N HB0 HC); [apply (ok_n _ _ O)|]. unfold allIn in E2.
    apply andb_prop in E2 as [E2 E3]. apply andb_prop in E2 as [E2 E4]. apply Rltb_true in E4. apply Rleb_true in E3.
    apply sq_le_pd in E3; [|lra]. intros o Ho. assert (In o (objs cl ++ objs cr)) as Ho'.
    { apply (Permutation_in _ (Permutation_sym (builds_perm _ _ _ _ _ _ HB0))). auto. }
    specialize (S2 o Ho'). pose proof (pdist_triangle (opos o) (getPos N) p). rewrite (pdist_sym (opos o) (getPos N)) in H.
    change (getPos N) with (centroid c l) in *. unfold getPos in S2. cbn in S2. lra.
  - cbn [countNear1 got]. destruct (Rleb _ _); auto.
Qed.
Lemma countNear_got F cat cells p sep : 0 <= fminsize F -> 0 <= sep -> buildField F cat cells -> convexAt (fcoord F) p sep cat ->
  countNear cells p sep = length (gotAll cells p sep).
Proof.
  intros Hm Hs [g [Hg Hf]] HC. rewrite countNear_sum. pose proof (setupTop_perm _ _ _ _ _ _ _ Hg) as HP. clear Hg.
  assert (HI : forall o, In o (concat g) -> In o cat) by (intros; eapply Permutation_in; eauto). clear HP.
  induction Hf as [|l t g cells Ht Hf IH]; cbn [map list_sum fold_right gotAll flat_map] in *; auto.
  rewrite app_length. rewrite (count_got _ _ _ _ p sep Hm Hs _ _ Ht).
  - unfold list_sum, gotAll in IH. rewrite IH; auto. intros; apply HI. apply in_or_app; auto.
  - eapply convex_sub; [|eauto]. intros; apply HI. apply in_or_app; auto.
Qed.

(** ** np.sort *)
Lemma insertN_perm x l : Permutation (x :: l) (insertN x l).
Proof. induction l as [|y l IH]; cbn; auto. destruct (Nat.leb x y); auto. eapply perm_trans; [apply perm_swap|]. auto. Qed.
Lemma npsort_perm l : Permutation l (npsort l).
Proof. induction l as [|x l IH]; cbn; auto. eapply perm_trans; [|apply insertN_perm]. auto. Qed.
Lemma insertN_sorted x l : StronglySorted le l -> StronglySorted le (insertN x l).
Proof.
  induction 1 as [|y l HS IH HF]; cbn; [constructor; constructor|]. destruct (Nat.leb_spec x y).
  - constructor; [constructor; auto|]. constructor; auto. eapply Forall_impl; [|exact HF]. cbn. intros; lia.
  - constructor; auto. rewrite Forall_forall in *. intros z Hz. apply (Permutation_in _ (Permutation_sym (insertN_perm x l))) in Hz as [->|Hz]; [lia|auto].
Qed.
Lemma npsort_sorted l : StronglySorted le (npsort l).
Proof. induction l; cbn; [constructor|]. apply insertN_sorted; auto. Qed.

Lemma lookup_ok cat os : indexed cat -> (forall o, In o os -> In o cat) ->
  lookup cat (map oidx os) = Some (map (fun o => (oidx o, o)) os).
Proof.
  intros HI. induction os as [|o os IH]; intro H; cbn; auto. rewrite IH by (intros; apply H; right; auto).
  destruct (In_nth_error cat o (H o (or_introl eq_refl))) as [i Hi]. rewrite (HI i o Hi), Hi. auto.
Qed.
Lemma gotAll_in cells p sep o : In o (gotAll cells p sep) -> In o (concat (map objs cells)).
Proof.
  unfold gotAll. rewrite in_flat_map. intros [c [Hc Ho]]. apply in_concat. exists (objs c). split; [apply in_map; auto|].
  clear Hc. induction c as [d o'|d os|d s l IHl r IHr]; cbn [got objs] in *.
  - destruct (Rleb _ _); [exact Ho|destruct Ho].
  - destruct (Rleb _ _); [exact Ho|destruct Ho].
  - apply in_or_app. destruct s as [x|].
    + destruct (_ && _); [destruct Ho|]. apply in_app_or in Ho as [Ho|Ho]; auto.
    + apply in_app_or in Ho as [Ho|Ho]; auto.
Qed.

(** ** C16 *)
(** min_size = 0: get_near returns the sorted indices of exactly the objects at most sep away, each
    once, whatever the allocated memory contained. *)
Theorem C16_get_near F cat cells p sep mem : fminsize F = 0 -> buildField F cat cells -> 0 <= sep ->
  length mem = allocated F cells p sep ->
  exists l, get_near F cat cells p sep mem = Some l /\ StronglySorted le l /\
    Permutation l (map oidx (filter (atMost p sep) cat)).
Proof.
  intros Hm HB Hs HL. unfold get_near, allocated in *. destruct (Req_EM_T (fminsize F) 0); [|lra].
  pose proof (buildField_wf F cat cells ltac:(lra) HB) as HF. rewrite Hm in HF.
  assert (HG : gotAll cells p sep = concat (map (filter (atMost p sep)) (map objs cells))).
  { unfold gotAll. clear -HF Hs. induction HF as [|c l Hc Hl IH]; cbn; auto. rewrite got_exact by auto. f_equal. auto. }
  assert (HP : Permutation (gotAll cells p sep) (filter (atMost p sep) cat)).
  { rewrite HG, <- filter_concat. apply filter_perm. apply (buildField_perm _ _ _ HB). }
  assert (HN : length mem = length (gotAll cells p sep)).
  { rewrite HL, (Permutation_length HP). pose proof (C15_count_near F cat cells p sep [] Hm HB Hs) as C.
    unfold count_near in C. destruct (Req_EM_T (fminsize F) 0); [|lra]. injection C as C. auto. }
  unfold get_near_. rewrite (getNear_fills 0 cells p sep mem HF HN). eexists. split; [reflexivity|]. split; [apply npsort_sorted|].
  eapply perm_trans; [apply Permutation_sym, npsort_perm|]. apply Permutation_map. auto.
Qed.
(** min_size > 0: the same with r < sep, for non-negative position weights (and, for spherical
    coordinates, sep + min_size less than sqrt 2, i.e. 90 degrees). *)
Theorem C16_get_near_min_size F cat cells p sep mem : 0 < fminsize F -> buildField F cat cells -> 0 <= sep ->
  indexed cat -> convexAt (fcoord F) p (sep + fminsize F) cat ->
  length mem = allocated F cells p sep ->
  exists l, get_near F cat cells p sep mem = Some l /\ StronglySorted le l /\
    Permutation l (map oidx (filter (closer p sep) cat)).
Proof.
  intros Hm HB Hs HX HC HL. unfold get_near, allocated in *. destruct (Req_EM_T (fminsize F) 0); [lra|].
  pose proof (buildField_wf F cat cells ltac:(lra) HB) as HF. pose proof (buildField_perm _ _ _ HB) as HP.
  rewrite (countNear_got F cat cells p (sep + fminsize F)) in HL by (auto; lra).
  unfold get_near_. rewrite (getNear_fills (fminsize F) cells p _ mem HF HL).
  rewrite lookup_ok; auto.
  2:{ intros o Ho. apply (Permutation_in _ HP). eapply gotAll_in; eauto. }
  eexists. split; [reflexivity|]. split; [apply npsort_sorted|].
  eapply perm_trans; [apply Permutation_sym, npsort_perm|].
  assert (HQ : forall os, map fst (filter (fun q : nat * obj => Rltb (normSq (psub (opos (snd q)) p)) (SQR sep)) (map (fun o => (oidx o, o)) os))
     = map oidx (filter (closer p sep) os)).
  { induction os as [|o os IH]; cbn; auto. replace (Rltb (normSq (psub (opos o) p)) (SQR sep)) with (closer p sep o).
    - destruct (closer p sep o); cbn; rewrite IH; auto.
    - rewrite closer_pd. unfold Rltb. pose proof (normSq_nonneg (psub (opos o) p)).
      destruct (Rlt_dec (pdist (opos o) p) sep) as [A|A], (Rlt_dec (normSq (psub (opos o) p)) (SQR sep)) as [B|B]; auto; exfalso.
      + apply B. unfold pdist in A. rewrite <- norm_sq. unfold SQR. pose proof (norm_nonneg (psub (opos o) p)). nra.
      + apply A. unfold pdist. rewrite <- norm_sq in B. unfold SQR in B. pose proof (norm_nonneg (psub (opos o) p)). nra. }
  rewrite HQ. apply Permutation_map.
  assert (HE : filter (closer p sep) (gotAll cells p (sep + fminsize F)) = filter (closer p sep) (concat (map objs cells))).
  { unfold gotAll. clear -HF Hm Hs. induction HF as [|c l Hc Hl IH]; cbn; auto. rewrite !filter_app, IH.
    rewrite (got_closer (fminsize F)) by (auto; lra). auto. }
  rewrite HE. apply filter_perm; auto.
Qed.
Theorem C15_count_near_min_size F cat cells p sep mem : 0 < fminsize F -> buildField F cat cells -> 0 <= sep ->
  indexed cat -> convexAt (fcoord F) p (sep + fminsize F) cat ->
  length mem = allocated F cells p sep ->
  count_near F cat cells p sep mem = Some (length (filter (closer p sep) cat)).
Proof.
  intros Hm HB Hs HX HC HL. unfold count_near. destruct (Req_EM_T (fminsize F) 0); [lra|].
  destruct (C16_get_near_min_size F cat cells p sep mem Hm HB Hs HX HC HL) as [l [-> [_ HP]]]. cbn. f_equal.
  rewrite (Permutation_length HP). apply map_length.
Qed.
(** each index appears once *)
Theorem C16_no_repeats cat (f : obj -> bool) l : indexed cat -> Permutation l (map oidx (filter f cat)) -> NoDup l.
Proof.
  intros HI HP. eapply Permutation_NoDup; [apply Permutation_sym; exact HP|]. pose proof (indexed_nodup cat HI) as N. clear -N.
  induction cat as [|o cat IH]; cbn in *; auto. inversion N; subst. destruct (f o); cbn; auto. constructor; auto.
  intro X. apply H1. apply in_map_iff in X as [o' [E X]]. apply filter_In in X as [X _]. apply in_map_iff. eauto.
Qed.

(** ** Spherical coordinates: sep is an angle *)
(** For 0 <= theta <= pi the chord test is the test on the angle between the directions. *)
Lemma xyz_unit ra dec : norm (xyz ra dec 1) = 1.
Proof.
  unfold norm, normSq, xyz. cbn. replace (_ + _ + _) with 1; [apply sqrt_1|].
  pose proof (sin2_cos2 ra) as A. pose proof (sin2_cos2 dec) as B. unfold Rsqr in *. nra.
Qed.
Lemma chord_sq t : chord t * chord t = 2 - 2 * cos t.
Proof.
  unfold chord. replace t with (2 * (t / 2)) at 3 by field. rewrite cos_2a_sin. ring.
Qed.
Lemma chord_nonneg t : 0 <= t <= PI -> 0 <= chord t.
Proof. intros [A B]. unfold chord. pose proof (sin_ge_0 (t / 2)). lra. Qed.
Theorem C15_sphere_angle p q t : norm p = 1 -> norm q = 1 -> 0 <= t <= PI ->
  (euclid q p <= chord t <-> acos (dot q p) <= t) /\ (euclid q p < chord t <-> acos (dot q p) < t).
Proof.
  intros Hp Hq Ht. rewrite euclid_pd. pose proof (unit_dist q p Hq Hp) as E. pose proof (chord_sq t) as C. pose proof (chord_nonneg t Ht) as CN.
  assert (HB : -1 <= dot q p <= 1).
  { pose proof (cauchy_schwarz q p) as CS. rewrite Hp, Hq in CS. pose proof (Rle_abs (dot q p)). pose proof (Rle_abs (- dot q p)). rewrite Rabs_Ropp in H0. lra. }
  pose proof (acos_bound (dot q p)) as AB. assert (CA : cos (acos (dot q p)) = dot q p) by (apply cos_acos; auto).
  assert (ND : pdist q p * pdist q p = 2 - 2 * dot q p) by (rewrite <- E; apply norm_sq). pose proof (pdist_nonneg q p) as PN.
  split; split; intro H.
  - destruct (Rle_lt_dec (acos (dot q p)) t) as [|L]; auto. exfalso. pose proof (cos_decreasing_1 t (acos (dot q p)) ltac:(lra) ltac:(lra) ltac:(lra) ltac:(lra) L). nra.
  - destruct (Rle_lt_dec (pdist q p) (chord t)) as [|L]; auto. exfalso.
    pose proof (cos_decr_1 (acos (dot q p)) t ltac:(lra) ltac:(lra) ltac:(lra) ltac:(lra) H). nra.
  - destruct (Rle_lt_dec t (acos (dot q p))) as [L|]; auto. exfalso.
    pose proof (cos_decr_1 t (acos (dot q p)) ltac:(lra) ltac:(lra) ltac:(lra) ltac:(lra) L). nra.
  - destruct (Rle_lt_dec (chord t) (pdist q p)) as [L|]; auto. exfalso.
    pose proof (cos_decreasing_1 (acos (dot q p)) t ltac:(lra) ltac:(lra) ltac:(lra) ltac:(lra) H). nra.
Qed.
(** The conversion 2 sin(sep/2) is only monotonic up to pi: asking for everything within 2 pi of a
    point finds only the objects exactly there. *)
Theorem C15_wide_angle_refuted : exists p q t, norm p = 1 /\ norm q = 1 /\ 0 <= t /\ acos (dot q p) < t /\ ~ euclid q p <= chord t.
Proof.
  exists (mkpos 1 0 0), (mkpos 0 1 0), (2 * PI). pose proof PI_RGT_0.
  split; [unfold norm, normSq; cbn; replace (_ + _ + _) with 1 by ring; apply sqrt_1|].
  split; [unfold norm, normSq; cbn; replace (_ + _ + _) with 1 by ring; apply sqrt_1|].
  split; [lra|]. split.
  - pose proof (acos_bound (dot (mkpos 0 1 0) (mkpos 1 0 0))). lra.
  - unfold chord. replace (2 * PI / 2) with PI by field. rewrite sin_PI, Rmult_0_r. intro X.
    pose proof (pdist_nonneg (mkpos 0 1 0) (mkpos 1 0 0)). rewrite euclid_pd in X.
    assert (E : pdist (mkpos 0 1 0) (mkpos 1 0 0) = 0) by lra. apply pdist_0 in E. injection E. lra.
Qed.

(** ** Examples *)
Ltac dcmp := repeat (match goal with
  | |- context [Rle_dec ?a ?b] => let X := fresh in destruct (Rle_dec a b) as [X|X]; try (exfalso; revert X; unfold Rabs; repeat destruct Rcase_abs; intros; lra)
  | |- context [Rlt_dec ?a ?b] => let X := fresh in destruct (Rlt_dec a b) as [X|X]; try (exfalso; revert X; unfold Rabs; repeat destruct Rcase_abs; intros; lra)
  end).
Definition exF0 : fparams := mkF Flat Median 0 (Fin (1/2)) false 0 10.
Lemma exCatA_indexed : indexed exCatA.
Proof. intros [|[|[|i]]] o H; cbn in H; try (injection H as <-; reflexivity). destruct i; discriminate. Qed.
Lemma exCatA_convex sep : convexAt Flat (mkpos 0 0 0) sep exCatA.
Proof. split; auto. intros o [<-|[<-|[<-|[]]]]; cbn; lra. Qed.
Lemma exCatA_atMost : filter (atMost (mkpos 0 0 0) (3/2)) exCatA = [exObj 0 1 0; exObj (3/2) 2 1].
Proof.
  unfold exCatA, filter, atMost, exObj. cbn [opos]. rewrite !euclid_x. unfold Rleb.
  dcmp. auto.
Qed.
Lemma exCatA_closer : filter (closer (mkpos 0 0 0) (3/2)) exCatA = [exObj 0 1 0].
Proof.
  unfold exCatA, filter, closer, exObj. cbn [opos]. rewrite !euclid_x. unfold Rltb.
  dcmp. auto.
Qed.
Example ex_C15 : exists cells, buildField exF0 exCatA cells /\
  count_near exF0 exCatA cells (mkpos 0 0 0) (3/2) [] = Some 2%nat.
Proof.
  destruct (buildField_exists exF0 exCatA) as [cells H]; [discriminate|]. exists cells. split; auto.
  rewrite (C15_count_near exF0 exCatA cells _ (3/2) []) by (auto; lra). rewrite exCatA_atMost. auto.
Qed.
(** min_size > 0, same catalog and question: an object at exactly sep is no longer counted. *)
Example ex_C15_min_size : exists cells mem, buildField exF exCatA cells /\ length mem = allocated exF cells (mkpos 0 0 0) (3/2) /\
  count_near exF exCatA cells (mkpos 0 0 0) (3/2) mem = Some 1%nat.
Proof.
  destruct (buildField_exists exF exCatA) as [cells H]; [discriminate|].
  exists cells, (repeat 0%nat (allocated exF cells (mkpos 0 0 0) (3/2))). split; auto. split; [apply repeat_length|].
  rewrite (C15_count_near_min_size exF exCatA cells (mkpos 0 0 0) (3/2)); auto using exCatA_indexed, exCatA_convex, repeat_length; try (cbn; lra).
  rewrite exCatA_closer. auto.
Qed.
(** The claim "the count does not depend on min_size, which is only about efficiency" is false at the boundary. *)
Theorem C15_independent_of_min_size_refuted : exists F0 F1 cat cells0 cells1 p sep mem,
  F0 = mkF (fcoord F1) (fsm F1) 0 (fmaxsize F1) (fbrute F1) (fmintop F1) (fmaxtop F1) /\ 0 < fminsize F1 /\
  buildField F0 cat cells0 /\ buildField F1 cat cells1 /\ 0 < sep /\ length mem = allocated F1 cells1 p sep /\
  count_near F0 cat cells0 p sep mem <> count_near F1 cat cells1 p sep mem.
Proof.
  destruct (buildField_exists exF0 exCatA) as [c0 H0]; [discriminate|]. destruct ex_C15_min_size as [c1 [mem [H1 [HL H2]]]].
  exists exF0, exF, exCatA, c0, c1, (mkpos 0 0 0), (3/2), mem. split; [reflexivity|]. split; [cbn; lra|]. split; auto. split; auto.
  split; [lra|]. split; auto. rewrite H2. rewrite (C15_count_near exF0 exCatA c0 _ (3/2) mem) by (auto; lra). rewrite exCatA_atMost. discriminate.
Qed.
Example ex_C16 : exists cells l, buildField exF0 exCatA cells /\
  get_near exF0 exCatA cells (mkpos 0 0 0) (3/2) [9%nat; 9%nat] = Some l /\ Permutation l [0%nat; 1%nat] /\ StronglySorted le l.
Proof.
  destruct (buildField_exists exF0 exCatA) as [cells H]; [discriminate|].
  destruct (C16_get_near exF0 exCatA cells (mkpos 0 0 0) (3/2) [9%nat; 9%nat]) as [l [E [S P]]]; auto; [lra| |].
  - unfold allocated. destruct (Req_EM_T _ _) as [|N]; [|exfalso; apply N; reflexivity].
    pose proof (C15_count_near exF0 exCatA cells (mkpos 0 0 0) (3/2) [] eq_refl H ltac:(lra)) as C. rewrite exCatA_atMost in C.
    unfold count_near in C. destruct (Req_EM_T _ _) as [|N]; [|exfalso; apply N; reflexivity]. injection C as ->. auto.
  - rewrite exCatA_atMost in P. exists cells, l. auto.
Qed.
Example ex_C16_min_size : exists cells mem l, buildField exF exCatA cells /\
  get_near exF exCatA cells (mkpos 0 0 0) (3/2) mem = Some l /\ Permutation l [0%nat].
Proof.
  destruct (buildField_exists exF exCatA) as [cells H]; [discriminate|].
  destruct (C16_get_near_min_size exF exCatA cells (mkpos 0 0 0) (3/2) (repeat 0%nat (allocated exF cells (mkpos 0 0 0) (3/2)))) as [l [E [S P]]];
    auto using exCatA_indexed, exCatA_convex, repeat_length; try (cbn; lra).
  rewrite exCatA_closer in P. exists cells, (repeat 0%nat (allocated exF cells (mkpos 0 0 0) (3/2))), l. auto.
Qed.

(** ** Negative weights *)
(** With min_size > 0 and a negative weight the centroid of a leaf can leave the ball containing its
    objects; CountNear then counts objects GetNear does not collect, and the array handed to the
    caller contains whatever np.empty left in it.  Here the answer should be [0], but for one content
    of the memory index 0 is returned three times and for another the call fails. *)
Definition ngCat : list obj := [exObj 0 2 0; exObj 10 (-1) 1; exObj 11 2 2].
Definition ngF : fparams := mkF Flat Mean 2 Inf false 0 10.
Definition ngBC : list obj := [exObj 10 (-1) 1; exObj 11 2 2].
Definition ngT : cell := Node (dataN Flat ngCat) (Fin (sqrt (calculateSizeSq (centroid Flat ngCat) ngCat)))
   (Leaf (data1 (exObj 0 2 0)) (exObj 0 2 0)) (ListLeaf (dataN Flat ngBC) ngBC).
Lemma ng_cen : centroid Flat ngCat = mkpos 4 0 0.
Proof.
  unfold centroid, ngCat. cbn. destruct (Req_EM_T _ 0); [lra|]. unfold pscale. cbn. f_equal; field; lra.
Qed.
Lemma ng_cenBC : centroid Flat ngBC = mkpos 12 0 0.
Proof.
  unfold centroid, ngBC. cbn. destruct (Req_EM_T _ 0); [lra|]. unfold pscale. cbn. f_equal; field; lra.
Qed.
Ltac dmax := repeat match goal with |- context [Rmax ?a ?b] => first [rewrite (Rmax_left a b) by lra | rewrite (Rmax_right a b) by lra] end.
Lemma ng_size : calculateSizeSq (centroid Flat ngCat) ngCat = 49.
Proof.
  rewrite ng_cen. unfold ngCat, calculateSizeSq, normSq, psub. cbn.
  dmax. lra.
Qed.
Lemma ng_sizeBC : calculateSizeSq (centroid Flat ngBC) ngBC = 4.
Proof.
  rewrite ng_cenBC. unfold ngBC, calculateSizeSq, normSq, psub. cbn.
  dmax. lra.
Qed.
Lemma ng_bounds : boundsOf ngCat = mkbd 0 11 0 0 0 0.
Proof.
  unfold boundsOf, ngCat. cbn. unfold bone, badd, upd_lo, upd_hi. cbn.
  repeat (destruct Rlt_dec; try lra). auto.
Qed.
Lemma ng_build : buildField ngF ngCat [ngT].
Proof.
  exists [ngCat]. split.
  - apply top_stop. right. left. cbn. split; auto. lia.
  - constructor; [|constructor]. cbn [fcoord fsm fminsize fbrute ngF].
    apply (b_node Flat Mean (2 * 2) false ngCat [exObj 0 2 0] ngBC); [cbn; lia|rewrite ng_size; lra| | |].
    + apply sd_ok; try discriminate. apply sc_mean; auto. rewrite ng_bounds. cbn.
      assert (ED : getSplit (mkbd 0 11 0 0 0 0) = DX).
      { unfold getSplit. cbn. repeat (destruct Rlt_dec; try lra). auto. }
      rewrite ED, ng_cen. split; [apply Permutation_refl|]. split; repeat constructor; cbn; lra.
    + apply b_leaf.
    + apply b_list; [cbn; lia|rewrite ng_sizeBC; lra].
Qed.
Lemma sqrt49 : sqrt 49 = 7.
Proof. replace 49 with (7 * 7) by ring. apply sqrt_square. lra. Qed.
Ltac ngdec := cbn [px py pz]; repeat (destruct Rle_dec; try lra); repeat (destruct Rlt_dec; try lra).
Lemma ng_dist x y : normSq (psub (mkpos x 0 0) (mkpos y 0 0)) = (x - y) * (x - y).
Proof. unfold normSq, psub. cbn. ring. Qed.
Lemma ng_count : countNear [ngT] (mkpos 4 0 0) (15/2) = 3%nat.
Proof.
  unfold countNear. cbn [fold_left]. unfold ngT. rewrite count_node; [|rewrite ng_size, sqrt49; lra]. cbn zeta.
  rewrite ng_size, sqrt49. unfold tooFar, allIn, getPos. cbn [getData dataN dpos]. rewrite ng_cen, ng_dist. unfold SQR, Rltb, Rleb.
  repeat (destruct Rlt_dec; try lra). repeat (destruct Rle_dec; try lra). reflexivity.
Qed.
Lemma ng_get a b c : getNear [ngT] (mkpos 4 0 0) (15/2) [a; b; c] = Some [0%nat; b; c].
Proof.
  unfold getNear. cbn [getNearAll length]. unfold ngT. cbn [getNear1]. rewrite ng_size, sqrt49.
  destruct (Req_EM_T 7 0); [lra|]. unfold getPos. cbn [getData dataN dpos data1]. rewrite ng_cen, ng_cenBC. cbn [opos exObj]. rewrite !ng_dist.
  unfold SQR, Rltb, Rleb. repeat (destruct Rlt_dec; try lra). repeat (destruct Rle_dec; try lra). reflexivity.
Qed.
Theorem C16_negative_weights_refuted : exists F cat cells p sep mem1 mem2,
  0 < fminsize F /\ buildField F cat cells /\ 0 <= sep /\ indexed cat /\
  length mem1 = allocated F cells p sep /\ length mem2 = allocated F cells p sep /\
  map oidx (filter (closer p sep) cat) = [0%nat] /\
  get_near F cat cells p sep mem1 = Some [0%nat; 0%nat; 0%nat] /\
  get_near F cat cells p sep mem2 = None.
Proof.
  exists ngF, ngCat, [ngT], (mkpos 4 0 0), (11/2), [0%nat; 0%nat; 0%nat], [7%nat; 7%nat; 7%nat].
  assert (EA : allocated ngF [ngT] (mkpos 4 0 0) (11/2) = 3%nat).
  { unfold allocated. cbn [fminsize ngF]. destruct (Req_EM_T 2 0); [lra|]. replace (11/2 + 2) with (15/2) by lra. apply ng_count. }
  split; [cbn; lra|]. split; [apply ng_build|]. split; [lra|].
  split; [intros [|[|[|i]]] o H; cbn in H; try (injection H as <-; reflexivity); destruct i; discriminate|].
  rewrite EA. split; auto. split; auto. split; [|split].
  - unfold ngCat, filter, closer, exObj. cbn [opos]. rewrite !euclid_x. unfold Rltb.
    dcmp. auto.
  - unfold get_near. cbn [fminsize ngF]. destruct (Req_EM_T 2 0); [lra|]. replace (11/2 + 2) with (15/2) by lra. unfold get_near_. rewrite ng_get.
    cbn [lookup ngCat nth_error]. cbn [filter snd exObj opos]. rewrite ng_dist. unfold SQR, Rltb. destruct Rlt_dec as [X|X]; [reflexivity|lra].
  - unfold get_near. cbn [fminsize ngF]. destruct (Req_EM_T 2 0); [lra|]. replace (11/2 + 2) with (15/2) by lra. unfold get_near_. rewrite ng_get.
    reflexivity.
Qed.
