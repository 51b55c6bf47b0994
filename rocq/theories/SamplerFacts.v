(** Facts about the sampler: selection without replacement and the reservoir. *)
From Coq Require Import Reals Lra Lia List ZArith Bool Arith Permutation.
From Verif Require Import Base Geometry Tree Traverse Run Sampler GeomFacts BinFacts.
Import ListNotations.
Open Scope R_scope.

Definition unitDraws (us : list R) : Prop := Forall (fun u => 0 <= u <= 1) us.

(** ** Vectors *)
Lemma setAt_length {A} i (x : A) l : length (setAt i x l) = length l.
Proof. revert i; induction l; intros [|i]; simpl; auto. Qed.
Lemma setAt_same {A} i (x d : A) l : (i < length l)%nat -> nth i (setAt i x l) d = x.
Proof. revert i; induction l; intros [|i] H; simpl in *; try lia; auto. apply IHl; lia. Qed.
Lemma setAt_other {A} i j (x d : A) l : i <> j -> nth j (setAt i x l) d = nth j l d.
Proof. revert i j; induction l; intros [|i] [|j] H; simpl; auto; try congruence. Qed.
Lemma setAt_perm {A} i (x d : A) l : (i < length l)%nat -> Permutation (x :: l) (nth i l d :: setAt i x l).
Proof.
  revert i; induction l as [|y l IH]; intros [|i] H; simpl in *; try lia.
  - apply perm_swap.
  - eapply perm_trans; [apply perm_swap|]. eapply perm_trans; [apply perm_skip, (IH i); lia|]. apply perm_swap.
Qed.
Lemma swapAt_perm {A} (d : A) i j l : (i < length l)%nat -> (j < length l)%nat -> Permutation l (swapAt d i j l).
Proof.
  intros Hi Hj. unfold swapAt. set (a := nth i l d). set (b := nth j l d). set (l1 := setAt i b l).
  apply Permutation_cons_inv with (a := b).
  eapply perm_trans; [apply (setAt_perm i b d l Hi)|]. fold a l1.
  assert (Hb : nth j l1 d = b).
  { unfold l1. destruct (Nat.eq_dec i j) as [->|Hn]; [apply setAt_same; auto|rewrite setAt_other; auto]. }
  eapply perm_trans; [apply (setAt_perm j a d l1); unfold l1; rewrite setAt_length; auto|]. rewrite Hb. auto.
Qed.

(** ** Random numbers *)
Lemma trunc_scale u m : 0 <= u <= 1 -> (Z.to_nat (trunc (u * INR m)) <= m)%nat.
Proof.
  intros Hu. pose proof (pos_INR m) as Hm.
  assert (H0 : IZR 0 <= u * INR m) by (apply Rmult_le_pos; lra).
  destruct (trunc_nonneg _ H0) as [[H1 _] _].
  assert (H2 : u * INR m <= INR m) by nra.
  rewrite INR_IZR_INZ in H2 at 2. assert (IZR (trunc (u * INR m)) <= IZR (Z.of_nat m)) by lra.
  apply le_IZR in H. lia.
Qed.
Lemma draw_lt u m : 0 <= u <= 1 -> (0 < m)%nat -> (draw u m < m)%nat.
Proof.
  intros Hu Hm. unfold draw. pose proof (trunc_scale u m Hu).
  destruct (Nat.eqb_spec (Z.to_nat (trunc (u * INR m))) m); lia.
Qed.

(** ** SelectRandomFrom *)
Lemma floyd_ok m n us : forall sel out us', unitDraws us -> (0 < m)%nat ->
  NoDup sel -> Forall (fun j => (j < m)%nat) sel -> (length sel <= n)%nat ->
  floyd m n sel us = Some (out, us') ->
  length out = n /\ NoDup out /\ Forall (fun j => (j < m)%nat) out /\ unitDraws us'.
Proof.
  induction us as [|u us IH]; intros sel out us' Hu Hm Hn Hf Hl H; simpl in H;
    destruct (Nat.leb_spec n (length sel)).
  - injection H; intros; subst. repeat split; auto; lia.
  - discriminate.
  - injection H; intros; subst. repeat split; auto; lia.
  - inversion Hu; subst. destruct in_dec as [Hi|Hi].
    + eapply (IH sel); eauto.
    + eapply (IH (sel ++ [draw u m])); eauto.
      * apply Permutation_NoDup with (l := draw u m :: sel); [apply Permutation_cons_append|constructor; auto].
      * apply Forall_app. split; auto. constructor; auto. apply draw_lt; auto.
      * rewrite app_length; simpl; lia.
Qed.
Lemma fisherYates_ok m us : forall c i full out us', unitDraws us ->
  (i + c <= m)%nat -> Permutation (seq 0 m) full ->
  fisherYates m i c full us = Some (out, us') -> Permutation (seq 0 m) out /\ unitDraws us'.
Proof.
  induction us as [|u us IH]; intros [|c] i full out us' Hu Hi Hp H; simpl in H.
  - injection H; intros; subst; auto.
  - discriminate.
  - injection H; intros; subst; auto.
  - inversion Hu; subst.
    apply (IH c (S i) _ out us') in H; auto; [lia|].
    eapply perm_trans; [exact Hp|]. pose proof (Permutation_length Hp) as HL. rewrite seq_length in HL.
    pose proof (trunc_scale u (m - i) H2) as Ht.
    apply swapAt_perm; rewrite <- HL; [lia|].
    destruct (Nat.eqb_spec (Z.to_nat (trunc (u * INR (m - i))) + i) m); lia.
Qed.
Lemma firstn_NoDup {A} n (l : list A) : NoDup l -> NoDup (firstn n l).
Proof.
  intro H. rewrite <- (firstn_skipn n l) in H. revert H. generalize (skipn n l).
  induction (firstn n l); intros s H; simpl in *; constructor; inversion H; subst; eauto.
  intro Hi; apply H2; apply in_or_app; auto.
Qed.
Lemma select_ok m n us sel us' : unitDraws us -> (n <= m)%nat -> selectRandomFrom m n us = Some (sel, us') ->
  length sel = n /\ NoDup sel /\ Forall (fun j => (j < m)%nat) sel /\ unitDraws us'.
Proof.
  intros Hu Hn H. unfold selectRandomFrom in H. destruct (Nat.ltb_spec (3 * n) m).
  - eapply (floyd_ok m n us []) in H; auto; try lia; try (constructor); simpl; lia.
  - destruct (fisherYates m 0 n (seq 0 m) us) as [[full us1]|] eqn:E; [|discriminate].
    injection H; intros; subst. apply fisherYates_ok in E as [HP HU]; auto.
    repeat split; auto.
    + rewrite firstn_length, <- (Permutation_length HP), seq_length. lia.
    + apply firstn_NoDup. eapply Permutation_NoDup; [exact HP|apply seq_NoDup].
    + apply Forall_forall. intros j Hj.
      assert (Hi : In j full) by (rewrite <- (firstn_skipn n full); apply in_or_app; auto).
      apply (Permutation_in j (Permutation_sym HP)) in Hi. apply in_seq in Hi. lia.
Qed.

(** ** The reservoir *)
(** [reservoir n S s]: after the stream S of pairs, the state s holds min(n, |S|) entries of S, taken from
    different positions of the stream. *)
Definition reservoir (n : nat) (St : list entry) (s : sampler) : Prop :=
  s_k s = length St /\ length (s_arr s) = n /\
  exists T, length T = Nat.min n (length St) /\ NoDup T /\ Forall (fun t => (t < length St)%nat) T /\
    forall p d, (p < length T)%nat -> nth p (s_arr s) d = nth (nth p T 0%nat) St d.

Lemma reservoir_out n St s : reservoir n St s ->
  exists T, length T = Nat.min n (length St) /\ NoDup T /\ Forall (fun t => (t < length St)%nat) T /\
    firstn (Nat.min n (s_k s)) (s_arr s) = map (fun t => nth t St (0%nat, 0%nat, 0)) T.
Proof.
  intros [Hk [Hn [T [HT [HN [HF HE]]]]]]. exists T. repeat split; auto.
  assert (HL : length (firstn (Nat.min n (s_k s)) (s_arr s)) = length T).
  { rewrite firstn_length, Hk, HT, Hn. lia. }
  apply nth_ext with (d := (0%nat, 0%nat, 0)) (d' := nth 0 St (0%nat, 0%nat, 0)).
  - rewrite map_length. auto.
  - intros p Hp. rewrite HL in Hp. rewrite (map_nth (fun t => nth t St (0%nat, 0%nat, 0)) T 0%nat p), <- HE by auto.
    rewrite <- (firstn_skipn (Nat.min n (s_k s)) (s_arr s)) at 2. rewrite app_nth1; auto. lia.
Qed.

Lemma nth_snoc {A} (l : list A) x p d : (p < length l)%nat -> nth p (l ++ [x]) d = nth p l d.
Proof. intro. apply app_nth1; auto. Qed.
Lemma nth_last_app {A} (l : list A) x d : nth (length l) (l ++ [x]) d = x.
Proof. rewrite app_nth2, Nat.sub_diag; auto. Qed.

Lemma reservoir_add n St s e : reservoir n St s -> (length St < n)%nat ->
  reservoir n (St ++ [e]) (mkS (setAt (s_k s) e (s_arr s)) (S (s_k s))).
Proof.
  intros [Hk [Hn [T [HT [HN [HF HE]]]]]] Hlt. unfold reservoir; cbn [s_k s_arr].
  rewrite app_length, setAt_length; simpl. split; [lia|]. split; auto.
  rewrite Nat.min_r in HT by lia.
  exists (T ++ [length St]). rewrite app_length; simpl. split; [lia|]. split; [|split].
  - apply Permutation_NoDup with (l := length St :: T); [apply Permutation_cons_append|constructor; auto].
    intro Hi. rewrite Forall_forall in HF. specialize (HF _ Hi). lia.
  - apply Forall_app. split; [|constructor; auto; lia].
    eapply Forall_impl; [|exact HF]. simpl; intros; lia.
  - intros p d Hp. destruct (Nat.eq_dec p (length St)) as [->|Hne].
    + rewrite Hk, setAt_same by lia. replace (nth (length St) (T ++ [length St]) 0%nat) with (length St) by (rewrite <- HT at 2; rewrite nth_last_app; auto).
      rewrite nth_last_app. auto.
    + rewrite setAt_other by lia. rewrite HE by lia. rewrite (nth_snoc T) by lia.
      rewrite nth_snoc; auto. rewrite Forall_forall in HF. apply HF, nth_In. lia.
Qed.
Lemma reservoir_skip n St s e : reservoir n St s -> (n <= length St)%nat ->
  reservoir n (St ++ [e]) (mkS (s_arr s) (S (s_k s))).
Proof.
  intros [Hk [Hn [T [HT [HN [HF HE]]]]]] Hlt. unfold reservoir; cbn [s_k s_arr].
  rewrite app_length; simpl. split; [lia|]. split; auto.
  exists T. split; [lia|]. split; auto. split.
  - eapply Forall_impl; [|exact HF]. simpl; intros; lia.
  - intros p d Hp. rewrite HE by auto. rewrite nth_snoc; auto. rewrite Forall_forall in HF. apply HF, nth_In. lia.
Qed.
Lemma reservoir_replace n St s e j : reservoir n St s -> (n <= length St)%nat -> (j < n)%nat ->
  reservoir n (St ++ [e]) (mkS (setAt j e (s_arr s)) (S (s_k s))).
Proof.
  intros [Hk [Hn [T [HT [HN [HF HE]]]]]] Hlt Hj. unfold reservoir; cbn [s_k s_arr].
  rewrite app_length, setAt_length; simpl. split; [lia|]. split; auto. rewrite Nat.min_l in HT by lia.
  assert (HP := setAt_perm j (length St) 0%nat T ltac:(lia)).
  assert (Hnew : ~ In (length St) T) by (intro Hi; rewrite Forall_forall in HF; specialize (HF _ Hi); lia).
  assert (HND : NoDup (nth j T 0%nat :: setAt j (length St) T)).
  { eapply Permutation_NoDup; [exact HP|constructor; auto]. }
  exists (setAt j (length St) T). rewrite setAt_length. split; [lia|]. split; [inversion HND; auto|]. split.
  - apply Forall_forall. intros t Ht.
    assert (Hi : In t (length St :: T)) by (eapply Permutation_in; [symmetry; exact HP|right; auto]).
    rewrite Forall_forall in HF. destruct Hi as [<-|Hi]; [lia|specialize (HF _ Hi); lia].
  - intros p d Hp. destruct (Nat.eq_dec p j) as [->|Hne].
    + rewrite !setAt_same by lia. rewrite nth_last_app. auto.
    + rewrite !setAt_other by lia. rewrite HE by lia. rewrite nth_snoc; auto.
      rewrite Forall_forall in HF. apply HF, nth_In. lia.
Qed.

Lemma takeAll_reservoir n ps : forall St s, reservoir n St s -> (length St + length ps <= n)%nat ->
  reservoir n (St ++ ps) (takeAll ps s).
Proof.
  induction ps as [|e ps IH]; intros St s H Hl; simpl in *.
  - rewrite app_nil_r; auto.
  - replace (St ++ e :: ps) with ((St ++ [e]) ++ ps) by (rewrite <- app_assoc; auto).
    apply IH; [apply reservoir_add; auto; lia|rewrite app_length; simpl; lia].
Qed.
Lemma oneAtATime_reservoir n ps : forall St s us s' us', unitDraws us -> reservoir n St s ->
  oneAtATime n ps s us = Some (s', us') -> reservoir n (St ++ ps) s' /\ unitDraws us'.
Proof.
  induction ps as [|e ps IH]; intros St s us s' us' Hu H HO; simpl in HO.
  - injection HO; intros; subst. rewrite app_nil_r; auto.
  - replace (St ++ e :: ps) with ((St ++ [e]) ++ ps) by (rewrite <- app_assoc; auto).
    pose proof H as [Hk _]. destruct (Nat.leb_spec n (s_k s)).
    + destruct us as [|u us]; [discriminate|]. inversion Hu; subst.
      destruct (Nat.ltb_spec (Z.to_nat (trunc (u * INR (s_k s + 1)))) n);
        (eapply IH; [|  |exact HO]; auto).
      * apply reservoir_replace; auto. lia.
      * apply reservoir_skip; auto. lia.
    + eapply IH; [exact Hu| |exact HO]. apply reservoir_add; auto. lia.
Qed.

(** ** Case 3 *)
Lemma putBack_perm n c : forall i sel, (i + c <= length sel)%nat -> length sel = n -> Permutation sel (putBack n i c sel).
Proof.
  induction c as [|c IH]; intros i sel Hi Hn; simpl; auto.
  destruct (Nat.ltb_spec (nth i sel 0%nat) n).
  - assert (HP : Permutation sel (swapAt 0%nat i (nth i sel 0%nat) sel)) by (apply swapAt_perm; lia).
    eapply perm_trans; [exact HP|]. apply Permutation_length in HP. apply IH; lia.
  - apply IH; lia.
Qed.

(** strictly increasing keys *)
Fixpoint keysUp (m : list (nat * nat)) : Prop :=
  match m with [] => True | (k, _) :: r => Forall (fun kv => (k < fst kv)%nat) r /\ keysUp r end.
Lemma mapSet_in k v m x : ~ In k (map fst m) -> (In x (mapSet k v m) <-> x = (k, v) \/ In x m).
Proof.
  induction m as [|[k' v'] m IH]; intro Hn; simpl in *.
  - intuition.
  - destruct (Nat.ltb_spec k k'); simpl; [intuition|]. destruct (Nat.eqb_spec k k'); [subst; tauto|].
    simpl. rewrite IH by tauto. intuition.
Qed.
Lemma mapSet_up k v m : keysUp m -> keysUp (mapSet k v m).
Proof.
  induction m as [|[k' v'] m IH]; simpl; intro H; [auto|].
  destruct H as [H1 H2]. destruct (Nat.ltb_spec k k'); simpl.
  - repeat split; auto. constructor; auto. eapply Forall_impl; [|exact H1]. simpl; intros; lia.
  - destruct (Nat.eqb_spec k k'); simpl; [subst; auto|]. split; auto.
    clear IH. assert (Hk : (k' < k)%nat) by lia. clear H n.
    induction m as [|[k2 v2] m IH]; simpl; [repeat constructor; simpl; auto|].
    inversion H1; subst. simpl in *. destruct (Nat.ltb k k2); [repeat constructor; simpl; auto|].
    destruct (Nat.eqb k k2); constructor; simpl; auto. apply IH; auto. destruct H2; auto.
Qed.
Lemma places_spec k sel : forall i acc, NoDup sel -> (forall j, In j sel -> ~ In j (map fst acc)) -> keysUp acc ->
  keysUp (places k i sel acc) /\
  forall j p, In (j, p) (places k i sel acc) <->
    In (j, p) acc \/ exists q, p = (i + q)%nat /\ (q < length sel)%nat /\ nth q sel 0%nat = j /\ (k <= j)%nat.
Proof.
  induction sel as [|j0 sel IH]; intros i acc HN HD HU; simpl.
  - split; auto. intros j p. split; [auto|]. intros [H|[q [_ [Hq _]]]]; [auto|lia].
  - inversion HN as [|? ? HN1 HN2]; subst.
    set (acc' := if Nat.leb k j0 then mapSet j0 i acc else acc).
    assert (Hin : forall x, In x acc' <-> In x acc \/ (x = (j0, i) /\ (k <= j0)%nat)).
    { intro x. unfold acc'. destruct (Nat.leb_spec k j0); [|intuition lia].
      rewrite mapSet_in by (apply HD; left; auto). intuition. }
    destruct (IH (S i) acc') as [HU' HI]; auto.
    + intros j Hj Hm. apply in_map_iff in Hm as [[j' p'] [E Hm]]. simpl in E; subst j'.
      apply Hin in Hm as [Hm|[Hm _]].
      * apply (HD j); [right; auto|]. apply in_map_iff. exists (j, p'); auto.
      * injection Hm; intros; subst. auto.
    + unfold acc'. destruct (Nat.leb k j0); auto. apply mapSet_up; auto.
    + split; auto. intros j p. rewrite HI, Hin. split.
      * intros [[H|[H Hk]]|[q [-> [Hq [Hj Hk]]]]]; [auto| |].
        -- injection H; intros; subst. right. exists 0%nat. repeat split; auto; lia.
        -- right. exists (S q). repeat split; auto; lia.
      * intros [H|[q [-> [Hq [Hj Hk]]]]]; [auto|]. destruct q as [|q].
        -- subst j. left. right. rewrite Nat.add_0_r. auto.
        -- right. exists q. repeat split; auto; lia.
Qed.

(** The writes of the double loop, in the order of the map. *)
Definition d0 : entry := (0%nat, 0%nat, 0).
Definition writes (ps : list entry) (i : nat) (pls : list (nat * nat)) (arr : list entry) : list entry :=
  fold_left (fun a kp => setAt (snd kp) (nth (fst kp - i) ps d0) a) pls arr.
Lemma writes_shift e ps i pls arr : Forall (fun kv => (S i <= fst kv)%nat) pls ->
  writes (e :: ps) i pls arr = writes ps (S i) pls arr.
Proof.
  unfold writes. revert arr. induction pls as [|[k p] pls IH]; intros arr H; simpl; auto.
  inversion H as [|? ? H1 H2]; subst. simpl in H1. rewrite IH by auto. f_equal. f_equal.
  replace (k - i)%nat with (S (k - S i)) by lia. reflexivity.
Qed.
Lemma writes_app_r ps qs i pls arr : Forall (fun kv => (i <= fst kv < i + length ps)%nat) pls ->
  writes (ps ++ qs) i pls arr = writes ps i pls arr.
Proof.
  unfold writes. revert arr. induction pls as [|[k p] pls IH]; intros arr H; simpl; auto.
  inversion H as [|? ? H1 H2]; subst. simpl in H1. rewrite app_nth1 by lia. apply IH; auto.
Qed.
Lemma writes_app_l ps qs i pls arr : Forall (fun kv => (i + length ps <= fst kv)%nat) pls ->
  writes (ps ++ qs) i pls arr = writes qs (i + length ps) pls arr.
Proof.
  unfold writes. revert arr. induction pls as [|[k p] pls IH]; intros arr H; simpl; auto.
  inversion H as [|? ? H1 H2]; subst. simpl in H1. rewrite app_nth2 by lia.
  replace (k - i - length ps)%nat with (k - (i + length ps))%nat by lia. apply IH; auto.
Qed.
Lemma writes_cat ps i a b arr : writes ps i (a ++ b) arr = writes ps i b (writes ps i a arr).
Proof. apply fold_left_app. Qed.

Lemma walkRow_spec row : forall i nxt arr i1 nxt1 arr1, nxt <> [] -> keysUp nxt -> Forall (fun kv => (i <= fst kv)%nat) nxt ->
  walkRow row i nxt arr = (i1, nxt1, arr1) ->
  exists dn, nxt = dn ++ nxt1 /\ arr1 = writes row i dn arr /\
    Forall (fun kv => (i <= fst kv < i + length row)%nat) dn /\
    (nxt1 = [] \/ (i1 = (i + length row)%nat /\ Forall (fun kv => (i1 <= fst kv)%nat) nxt1)).
Proof.
  induction row as [|e row IH]; intros i nxt arr i1 nxt1 arr1 Hne HU HF H.
  - simpl in H. injection H; intros; subst. exists []. repeat split; auto.
  - destruct nxt as [|[key pl] nxt]; [congruence|]. simpl in H. destruct HU as [HU1 HU2].
    inversion HF as [|? ? HF1 HF2]; subst. simpl in HF1.
    destruct (Nat.eqb_spec i key) as [->|Hne'].
    + destruct nxt as [|kv nxt].
      * exists [(key, pl)]. injection H; intros; subst. split; [auto|]. split; [|split; [|auto]].
        -- unfold writes; simpl. rewrite Nat.sub_diag. auto.
        -- constructor; auto. simpl; lia.
      * apply IH in H as [dn [E [-> [HD HE]]]]; auto; try discriminate.
        exists ((key, pl) :: dn). split; [simpl; congruence|]. split; [|split].
        -- change ((key, pl) :: dn) with ([(key, pl)] ++ dn). rewrite writes_cat.
           assert (Es : writes (e :: row) key [(key, pl)] arr = setAt pl e arr)
             by (unfold writes; simpl; rewrite Nat.sub_diag; auto).
           rewrite Es. symmetry. apply writes_shift.
           eapply Forall_impl; [|exact HD]. simpl; intros; lia.
        -- constructor; [simpl; lia|]. eapply Forall_impl; [|exact HD]. simpl; intros; lia.
        -- destruct HE as [HE|[HE1 HE2]]; [auto|right]. split; [simpl; lia|auto].
    + apply IH in H as [dn [E [-> [HD HE]]]]; auto; try discriminate.
      2:{ simpl; auto. }
      2:{ constructor; [simpl; lia|]. eapply Forall_impl; [|exact HU1]. simpl; intros; lia. }
      exists dn. split; auto. split; [|split].
      * symmetry. apply writes_shift. eapply Forall_impl; [|exact HD]. simpl; intros; lia.
      * eapply Forall_impl; [|exact HD]. simpl; intros; lia.
      * destruct HE as [HE|[HE1 HE2]]; [auto|right]. split; [simpl; lia|auto].
Qed.
Lemma keysUp_app_r a b : keysUp (a ++ b) -> keysUp b.
Proof. induction a as [|[k v] a IH]; simpl; auto. intros [_ H]; auto. Qed.
Lemma keysUp_lb i nxt key pl r : nxt = (key, pl) :: r -> keysUp nxt -> (i <= key)%nat -> Forall (fun kv => (i <= fst kv)%nat) nxt.
Proof.
  intros -> [H1 H2] Hi. constructor; auto. eapply Forall_impl; [|exact H1]. simpl; intros; lia.
Qed.
Lemma walkRows_spec n2 rows : forall i nxt arr, Forall (fun row => length row = n2) rows ->
  keysUp nxt -> Forall (fun kv => (i <= fst kv < i + length (concat rows))%nat) nxt ->
  walkRows n2 rows i nxt arr = writes (concat rows) i nxt arr.
Proof.
  induction rows as [|row rows IH]; intros i nxt arr HR HU HF; simpl.
  - destruct nxt as [|kv nxt]; auto. inversion HF; subst. simpl in *; lia.
  - destruct nxt as [|[key pl] nxt]; [reflexivity|].
    inversion HR as [|? ? HR1 HR2]; subst. clear HR.
    simpl in HF. rewrite app_length in HF.
    destruct (Nat.ltb_spec (i + length row) key).
    + assert (HL : Forall (fun kv => (i + length row <= fst kv)%nat) ((key, pl) :: nxt)).
      { eapply keysUp_lb; [reflexivity|auto|lia]. }
      rewrite IH; auto.
      * symmetry. apply writes_app_l. auto.
      * rewrite Forall_forall in *. intros kv Hkv. specialize (HL kv Hkv). specialize (HF kv Hkv). lia.
    + destruct (walkRow row i ((key, pl) :: nxt) arr) as [[i1 nxt1] arr1] eqn:EW.
      apply walkRow_spec in EW as [dn [E [-> [HD HE]]]]; auto; try discriminate.
      2:{ eapply Forall_impl; [|exact HF]. simpl; intros; lia. }
      rewrite E, writes_cat. rewrite (writes_app_r row (concat rows) i dn) by auto.
      destruct nxt1 as [|kv1 nxt1]; [reflexivity|].
      destruct HE as [HE|[-> HE]]; [discriminate|]. rewrite E in HU, HF.
      rewrite IH; auto.
      * symmetry. apply writes_app_l. auto.
      * eapply keysUp_app_r; eauto.
      * apply Forall_app in HF as [_ HF]. rewrite Forall_forall in *. intros kv Hkv.
        specialize (HE kv Hkv). specialize (HF kv Hkv). lia.
Qed.

Lemma writes_nth ps i pls : forall arr p, NoDup (map snd pls) -> Forall (fun kv => (snd kv < length arr)%nat) pls ->
  (forall j d, In (j, p) pls -> nth p (writes ps i pls arr) d = nth (j - i) ps d0) /\
  (forall d, ~ In p (map snd pls) -> nth p (writes ps i pls arr) d = nth p arr d) /\
  length (writes ps i pls arr) = length arr.
Proof.
  induction pls as [|[k0 p0] pls IH]; intros arr p HN HF.
  - repeat split; auto. intros j d [].
  - simpl in HN. inversion HN as [|? ? H1 H2]; subst. inversion HF as [|? ? HF1 HF2]; subst. simpl in HF1.
    unfold writes; simpl. fold (writes ps i pls (setAt p0 (nth (k0 - i) ps d0) arr)).
    destruct (IH (setAt p0 (nth (k0 - i) ps d0) arr) p) as [A [B C]]; auto.
    { eapply Forall_impl; [|exact HF2]. intros kv. rewrite setAt_length. auto. }
    rewrite setAt_length in C. split; [|split; [|auto]].
    + intros j d [E|Hi].
      * injection E; intros; subst. rewrite B by auto. apply setAt_same; auto.
      * apply A; auto.
    + intros d Hn. simpl in Hn. rewrite B by tauto. apply setAt_other. tauto.
Qed.

Lemma in_map_snd (pls : list (nat * nat)) p : In p (map snd pls) -> exists j, In (j, p) pls.
Proof. intro H. apply in_map_iff in H as [[j p'] [E H]]. simpl in E; subst. exists j; auto. Qed.

Lemma keysUp_NoDup m : keysUp m -> NoDup (map fst m).
Proof.
  induction m as [|[k v] m IH]; simpl; intro H; [constructor|]. destruct H as [H1 H2]. constructor; auto.
  intro Hi. apply in_map_iff in Hi as [[k' v'] [E Hi]]. simpl in E; subst k'.
  rewrite Forall_forall in H1. specialize (H1 _ Hi). simpl in H1. lia.
Qed.
Lemma NoDup_snd (m : list (nat * nat)) : NoDup (map fst m) ->
  (forall j j' p, In (j, p) m -> In (j', p) m -> j = j') -> NoDup (map snd m).
Proof.
  induction m as [|[k v] m IH]; simpl; intros HN H; [constructor|]. inversion HN as [|? ? H1 H2]; subst. constructor.
  - intro Hi. apply in_map_snd in Hi as [j Hj]. assert (j = k) by (eapply H; [right; exact Hj|left; auto]). subst j.
    apply H1. apply in_map_iff. exists (k, v); auto.
  - apply IH; auto. intros j j' p A B. eapply H; [right; exact A|right; exact B].
Qed.

Lemma case3_reservoir n n2 rows St s sel : Forall (fun row => length row = n2) rows ->
  reservoir n St s -> (length St = 0 \/ n <= length St)%nat ->
  length sel = n -> NoDup sel -> Forall (fun j => (j < length St + length (concat rows))%nat) sel ->
  reservoir n (St ++ concat rows)
    (mkS (walkRows n2 rows (s_k s) (places (s_k s) 0 (putBack n (s_k s) (n - s_k s) sel) []) (s_arr s))
         (s_k s + length (concat rows))) \/ (n > length (St ++ concat rows))%nat.
Proof.
  intros HR [Hk [Hn [T [HT [HN [HF HE]]]]]] Hc HL HS HB. rewrite Hk.
  set (k := length St) in *. set (ps := concat rows) in *.
  destruct (le_lt_dec n (length (St ++ ps))) as [Hle|]; [left|right; lia]. rewrite app_length in Hle. fold k in Hle.
  set (sel' := putBack n k (n - k) sel).
  assert (HP : Permutation sel sel').
  { unfold sel'. destruct (le_lt_dec n k).
    - replace (n - k)%nat with 0%nat by lia. simpl. auto.
    - apply putBack_perm; auto. lia. }
  assert (HL' : length sel' = n) by (rewrite <- (Permutation_length HP); auto).
  assert (HS' : NoDup sel') by (eapply Permutation_NoDup; eauto).
  assert (HB' : forall j, In j sel' -> (j < k + length ps)%nat).
  { intros j Hj. rewrite Forall_forall in HB. apply HB. eapply Permutation_in; [symmetry; exact HP|auto]. }
  destruct (places_spec k sel' 0 []) as [HU HI]; auto; [simpl; auto|].
  set (pls := places k 0 sel' []) in *.
  assert (HI' : forall j p, In (j, p) pls <-> (p < n)%nat /\ nth p sel' 0%nat = j /\ (k <= j)%nat).
  { intros j p. rewrite HI. split.
    - intros [[]|[q [-> [Hq [Hj Hk']]]]]. simpl. repeat split; auto; lia.
    - intros [Hp [Hj Hk']]. right. exists p. simpl. repeat split; auto; lia. }
  clear HI.
  assert (HNs : NoDup (map snd pls)).
  { apply NoDup_snd; [apply keysUp_NoDup; auto|]. intros j j' p A B. apply HI' in A as [_ [<- _]]. apply HI' in B as [_ [<- _]]. auto. }
  assert (HFp : Forall (fun kv => (snd kv < length (s_arr s))%nat) pls).
  { apply Forall_forall. intros [j p] H. apply HI' in H as [H _]. simpl. lia. }
  rewrite walkRows_spec; auto.
  2:{ apply Forall_forall. intros [j p] H. apply HI' in H as [H1 [H2 H3]]. simpl. fold ps. split; [lia|].
      apply HB'. subst j. apply nth_In. lia. }
  fold ps.
  assert (HW := fun p => writes_nth ps k pls (s_arr s) p HNs HFp).
  unfold reservoir; cbn [s_k s_arr]. rewrite app_length. fold k. split; [auto|].
  split; [destruct (HW 0%nat) as [_ [_ ->]]; auto|].
  (* the new positions *)
  set (tagOf := fun p => let j := nth p sel' 0%nat in if Nat.leb k j then j else nth p T 0%nat).
  exists (map tagOf (seq 0 n)).
  assert (Hlen : length (map tagOf (seq 0 n)) = n) by (rewrite map_length, seq_length; auto).
  assert (Hold : forall p, (p < n)%nat -> (nth p sel' 0%nat < k)%nat -> (p < length T)%nat).
  { intros p Hp Hlt. destruct Hc as [Hc|Hc]; [lia|]. rewrite HT. lia. }
  assert (HTk : forall p, (p < length T)%nat -> (nth p T 0%nat < k)%nat).
  { intros p Hp. rewrite Forall_forall in HF. apply HF, nth_In; auto. }
  assert (Hnth : forall p, (p < n)%nat -> nth p (map tagOf (seq 0 n)) 0%nat = tagOf p).
  { intros p Hp. rewrite nth_indep with (d' := tagOf 0%nat) by lia. rewrite map_nth, seq_nth by auto. auto. }
  split; [rewrite Hlen; lia|]. split; [|split].
  - apply NoDup_nth with (d := 0%nat). rewrite Hlen. intros p q Hp Hq. rewrite !Hnth by auto. unfold tagOf.
    assert (Hs : nth p sel' 0%nat = nth q sel' 0%nat -> p = q).
    { apply NoDup_nth; auto; lia. }
    destruct (Nat.leb_spec k (nth p sel' 0%nat)); destruct (Nat.leb_spec k (nth q sel' 0%nat)); intro E; auto.
    + specialize (HTk q (Hold q Hq H0)). lia.
    + specialize (HTk p (Hold p Hp H)). lia.
    + assert (HT2 := proj1 (NoDup_nth T 0%nat) HN p q (Hold p Hp H) (Hold q Hq H0) E). auto.
  - apply Forall_forall. intros t Ht. apply in_map_iff in Ht as [p [<- Hp]]. apply in_seq in Hp. unfold tagOf.
    destruct (Nat.leb_spec k (nth p sel' 0%nat)).
    + apply HB', nth_In. lia.
    + specialize (HTk p (Hold p ltac:(lia) H)). lia.
  - intros p d Hp. rewrite Hlen in Hp. rewrite Hnth by auto. unfold tagOf.
    destruct (HW p) as [HW1 [HW2 _]].
    destruct (Nat.leb_spec k (nth p sel' 0%nat)) as [Hkj|Hkj].
    + rewrite (HW1 (nth p sel' 0%nat) d) by (apply HI'; auto).
      rewrite app_nth2 by (fold k; lia). fold k. apply nth_indep.
      assert (nth p sel' 0%nat < k + length ps)%nat by (apply HB', nth_In; lia). lia.
    + rewrite HW2.
      * rewrite HE by auto. rewrite app_nth1; auto.
      * intro Hi. apply in_map_snd in Hi as [j Hj]. apply HI' in Hj as [_ [<- Hj]]. lia.
Qed.

(** ** A sequence of cell pairs *)
Definition stream (e : event) : list entry := concat (rowsOf (getAllIndices (ec1 e)) (getAllIndices (ec2 e)) (er e)).
Lemma rowsOf_length idx1 idx2 r : length (concat (rowsOf idx1 idx2 r)) = (length idx1 * length idx2)%nat.
Proof. induction idx1; simpl; auto. rewrite app_length, map_length. lia. Qed.
Lemma stream_length e : length (stream e) = (length (getAllIndices (ec1 e)) * length (getAllIndices (ec2 e)))%nat.
Proof. apply rowsOf_length. Qed.

(** No cell pair stands for more than n pairs of objects, except at the very start or after at least n
    pairs: then Case 3 never has to keep some of the first k < n entries. *)
Fixpoint smooth (n k : nat) (evs : list event) : Prop :=
  match evs with
  | [] => True
  | e :: r => (length (stream e) <= n \/ k = 0 \/ n <= k)%nat /\ smooth n (k + length (stream e)) r
  end.

Lemma sampleEvent_reservoir n e St s us s' us' : unitDraws us -> reservoir n St s ->
  (length (stream e) <= n \/ length St = 0 \/ n <= length St)%nat ->
  sampleEvent n e s us = Some (s', us') -> reservoir n (St ++ stream e) s' /\ unitDraws us'.
Proof.
  intros Hu HR Hc H. unfold sampleEvent, sampleFrom in H. pose proof HR as [Hk _].
  rewrite <- stream_length in H. fold (stream e) in H.
  destruct (Nat.leb_spec (s_k s + length (stream e)) n).
  - injection H; intros; subst. split; auto. apply takeAll_reservoir; auto. lia.
  - destruct (Nat.leb_spec (length (stream e)) n).
    + eapply oneAtATime_reservoir in H; eauto.
    + destruct (selectRandomFrom (s_k s + length (stream e)) n us) as [[sel us1]|] eqn:ES; [|discriminate].
      apply select_ok in ES as [HL [HN [HF HU]]]; auto; [|lia]. rewrite Hk in HF.
      destruct (case3_reservoir n (length (getAllIndices (ec2 e)))
        (rowsOf (getAllIndices (ec1 e)) (getAllIndices (ec2 e)) (er e)) St s sel) as [HC|HC]; auto; try lia.
      * apply Forall_forall. intros row Hr. unfold rowsOf in Hr. apply in_map_iff in Hr as [a [<- _]]. apply map_length.
      * fold (stream e) in HC.
        destruct (places (s_k s) 0 (putBack n (s_k s) (n - s_k s) sel) []) as [|kv pls] eqn:EP;
          injection H; intros; subst; split; auto.
        replace (s_arr s) with (walkRows (length (getAllIndices (ec2 e)))
          (rowsOf (getAllIndices (ec1 e)) (getAllIndices (ec2 e)) (er e)) (s_k s) [] (s_arr s)); auto.
        destruct (rowsOf (getAllIndices (ec1 e)) (getAllIndices (ec2 e)) (er e)); auto.
      * fold (stream e) in HC. rewrite app_length in HC. lia.
Qed.
Lemma sampleEvents_reservoir n evs : forall St s us s' us', unitDraws us -> reservoir n St s ->
  smooth n (length St) evs -> sampleEvents n evs s us = Some (s', us') ->
  reservoir n (St ++ flat_map stream evs) s' /\ unitDraws us'.
Proof.
  induction evs as [|e evs IH]; intros St s us s' us' Hu HR HS H; simpl in *.
  - injection H; intros; subst. rewrite app_nil_r; auto.
  - destruct HS as [HS1 HS2]. destruct (sampleEvent n e s us) as [[s1 us1]|] eqn:E; [|discriminate].
    apply (sampleEvent_reservoir n e St) in E as [HR1 HU1]; auto.
    rewrite app_assoc. eapply IH; eauto. rewrite app_length. auto.
Qed.
Lemma reservoir_init n : reservoir n [] (mkS (repeat (0%nat, 0%nat, 0) n) 0).
Proof.
  split; [auto|]. split; [apply repeat_length|]. exists []. simpl. rewrite Nat.min_0_r. repeat split; try constructor.
  intros p d Hp; simpl in Hp; lia.
Qed.
