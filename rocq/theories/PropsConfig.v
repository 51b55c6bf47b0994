(** C27, C28, C46: configuration handling. *)
From Coq Require Import String Ascii ZArith QArith Bool List Lia.
From Verif Require Import Config.
Import ListNotations.
Open Scope list_scope.

(** ** Dictionaries *)
Lemma eqb_sym2 a b : String.eqb a b = String.eqb b a.
Proof. destruct (String.eqb_spec a b), (String.eqb_spec b a); congruence. Qed.
Lemma get_set {A} (d : dict A) k v x : get (set d k v) x = if String.eqb k x then Some v else get d x.
Proof.
  induction d as [|[k' v'] d IH]; cbn; auto.
  destruct (String.eqb_spec k' k) as [->|N]; cbn.
  - destruct (String.eqb_spec k x); auto.
  - rewrite IH. destruct (String.eqb_spec k' x) as [->|], (String.eqb_spec k x); congruence.
Qed.
Lemma get_del {A} (d : dict A) k x : get (del d k) x = if String.eqb k x then None else get d x.
Proof.
  unfold del. induction d as [|[k' v'] d IH]; cbn.
  - destruct (String.eqb k x); auto.
  - destruct (String.eqb_spec k' k) as [->|N]; cbn.
    + rewrite IH. destruct (String.eqb k x); auto.
    + rewrite IH. destruct (String.eqb_spec k' x) as [->|], (String.eqb_spec k x); congruence.
Qed.
Lemma get_none {A} (d : dict A) x : get d x = None <-> ~ In x (keys d).
Proof.
  induction d as [|[k v] d IH]; cbn; [tauto|].
  destruct (String.eqb_spec k x) as [->|N].
  - split; [discriminate|intros H; exfalso; apply H; auto].
  - rewrite IH. tauto.
Qed.
Lemma get_some {A} (d : dict A) x : In x (keys d) <-> exists v, get d x = Some v.
Proof.
  destruct (get d x) eqn:E.
  - split; [eauto|]. intros _. destruct (in_dec string_dec x (keys d)) as [H|H]; auto.
    apply get_none in H. congruence.
  - split; [|intros [v H]; discriminate]. intro H. apply get_none in E. tauto.
Qed.
Lemma get_in {A} (d : dict A) x v : get d x = Some v -> In (x, v) d.
Proof.
  induction d as [|[k w] d IH]; cbn; [discriminate|].
  destruct (String.eqb_spec k x) as [->|N]; [injection 1 as ->; auto|auto].
Qed.
Lemma in_get {A} (d : dict A) x v : NoDup (keys d) -> In (x, v) d -> get d x = Some v.
Proof.
  induction d as [|[k w] d IH]; cbn; [tauto|]. intros HN [E|H].
  - injection E as -> ->. rewrite String.eqb_refl. auto.
  - inversion HN; subst. destruct (String.eqb_spec k x) as [->|N]; auto.
    exfalso. apply H2. apply in_map with (f := fst) in H. auto.
Qed.

Lemma get_fillDefaults P cfg x : get (fillDefaults P cfg) x =
  match get cfg x with
  | Some v => Some v
  | None => get (filter (fun p => negb (isNone (snd p))) (map (fun p => (fst p, p_default (snd p))) P)) x
  end.
Proof.
  unfold fillDefaults. revert cfg. induction P as [|[k sp] P IH]; intro cfg; cbn.
  - destruct (get cfg x); auto.
  - rewrite IH. unfold has. destruct (get cfg k) as [w|] eqn:E; cbn.
    + destruct (get cfg x) eqn:Ex; auto. destruct (isNone (p_default sp)) eqn:EN; cbn; auto.
      destruct (String.eqb_spec k x); congruence.
    + destruct (isNone (p_default sp)) eqn:EN; cbn.
      * destruct (get cfg x) eqn:Ex; auto.
      * rewrite get_set. destruct (String.eqb_spec k x) as [->|N].
        -- rewrite E. auto.
        -- destruct (get cfg x); auto.
Qed.
(** The default that is filled in: the first entry with this key that has one. *)
Lemma get_defaults P x : NoDup (keys P) ->
  get (filter (fun p => negb (isNone (snd p))) (map (fun p => (fst p, p_default (snd p))) P)) x =
  match get P x with
  | Some sp => if isNone (p_default sp) then None else Some (p_default sp)
  | None => None
  end.
Proof.
  induction P as [|[k sp] P IH]; cbn; auto. intro HN. inversion HN; subst.
  destruct (isNone (p_default sp)) eqn:EN; cbn; rewrite IH by auto; destruct (String.eqb_spec k x) as [->|]; auto;
    rewrite ?EN; auto.
  apply get_none in H1. rewrite H1. auto.
Qed.
Lemma get_addMissing P config kw x : NoDup (keys config) -> get (addMissing P config kw) x =
  match get kw x with
  | Some v => Some v
  | None => if has P x then get config x else None
  end.
Proof.
  unfold addMissing. revert kw. induction config as [|[k v] config IH]; intros kw HN; cbn.
  - destruct (get kw x); auto. destruct (has P x); auto.
  - inversion HN; subst. rewrite IH by auto.
    destruct (has P k) eqn:EP; cbn.
    + unfold has at 1. destruct (get kw k) as [w|] eqn:Ek; cbn.
      * destruct (get kw x) eqn:Ex; auto. destruct (String.eqb_spec k x) as [->|]; auto. congruence.
      * rewrite get_set. destruct (String.eqb_spec k x) as [->|N]; auto.
        rewrite Ek, EP. auto.
    + destruct (get kw x); auto. destruct (String.eqb_spec k x) as [->|]; auto. rewrite EP; auto.
Qed.
Lemma keys_set {A} (d : dict A) k v : NoDup (keys d) -> NoDup (keys (set d k v)).
Proof.
  intro HN. induction d as [|[k' v'] d IH]; cbn; [repeat constructor; auto|].
  inversion HN; subst. destruct (String.eqb_spec k' k) as [->|N]; cbn; constructor; auto.
  intro HI. apply get_some in HI as [w HI]. rewrite get_set in HI.
  destruct (String.eqb_spec k k'); [congruence|]. apply H1. apply get_some. eauto.
Qed.
Lemma keys_addMissing P config kw : NoDup (keys kw) -> NoDup (keys (addMissing P config kw)).
Proof.
  unfold addMissing. revert kw. induction config as [|[k v] config IH]; intros kw HN; cbn; auto.
  apply IH. destruct (_ && _); auto. apply keys_set; auto.
Qed.

(** ** check_config *)
Definition rename (al : dict string) (k : string) : string := match get al k with Some n => n | None => k end.
(** no alias of an alias *)
Definition noChain (al : dict string) : Prop := forall a b, get al a = Some b -> get al b = None.
(** The value stored for a given value: None stays as it is. *)
Definition stored (E : pyenv) (sp : pspec) (v w : pyval) : Prop :=
  checkValue E sp v = Some (Some w) \/ checkValue E sp v = Some None /\ w = v.

Lemma checkKeys_spec E P al : noChain al -> forall ks cfg r, NoDup (map (rename al) ks) ->
  checkKeys E P al cfg ks = Some r ->
  (forall k, In k ks -> exists sp v w, get cfg k = Some v /\ get P (rename al k) = Some sp /\ stored E sp v w /\
                         get r (rename al k) = Some w) /\
  (forall x, ~ In x (map (rename al) ks) ->
     get r x = if existsb (String.eqb x) ks then None else get cfg x).
Proof.
  intro HC. induction ks as [|k ks IH]; intros cfg r HN H.
  - cbn in H. injection H as <-. split; [intros k []|]. auto.
  - cbn in H. inversion HN as [|? ? Hni HN']; subst.
    destruct (checkKey E P al cfg k) as [c|] eqn:EK; [|discriminate].
    destruct (IH c r HN' H) as [I1 I2].
    assert (HK : exists sp v w, get cfg k = Some v /\ get P (rename al k) = Some sp /\ stored E sp v w /\
              forall x, get c x = if String.eqb (rename al k) x then Some w else
                                  if String.eqb k x then None else get cfg x).
    { unfold checkKey in EK. unfold rename at 1 2. destruct (get al k) as [nk|] eqn:EA.
      - destruct (get cfg k) as [v|] eqn:Ev; [|discriminate].
        assert (NE : nk <> k) by (intros ->; specialize (HC k k EA); congruence).
        destruct (get P nk) as [sp|] eqn:EP; [|discriminate].
        rewrite get_del, get_set, String.eqb_refl in EK.
        destruct (String.eqb_spec k nk); [congruence|].
        destruct (checkValue E sp v) as [[w|]|] eqn:EV; [| |discriminate]; injection EK as <-.
        + exists sp, v, w. repeat split; auto. { left; auto. }
          intro x. rewrite get_set, get_del, get_set. destruct (String.eqb_spec nk x) as [->|]; auto.
        + exists sp, v, v. repeat split; auto. { right; auto. }
          intro x. rewrite get_del, get_set. destruct (String.eqb_spec nk x) as [->|]; auto.
          destruct (String.eqb_spec k x); congruence.
      - destruct (get P k) as [sp|] eqn:EP; [|discriminate]. destruct (get cfg k) as [v|] eqn:Ev; [|discriminate].
        destruct (checkValue E sp v) as [[w|]|] eqn:EV; [| |discriminate]; injection EK as <-.
        + exists sp, v, w. repeat split; auto. { left; auto. }
          intro x. rewrite get_set. destruct (String.eqb_spec k x); auto.
        + exists sp, v, v. repeat split; auto. { right; auto. }
          intro x. destruct (String.eqb_spec k x) as [->|]; auto. }
    destruct HK as [sp [v [w [K1 [K2 [K3 K4]]]]]].
    (* the other keys still have their old value *)
    assert (HO : forall k', In k' ks -> k' <> rename al k /\ k' <> k).
    { intros k' Hk. split; intros ->.
      - apply Hni. apply in_map_iff. exists (rename al k). split; auto.
        unfold rename. destruct (get al k) as [nk|] eqn:EA; [rewrite (HC k nk EA)|rewrite EA]; auto.
      - apply Hni. apply in_map. auto. }
    split.
    + intros k' [<-|Hk].
      * exists sp, v, w. repeat split; auto. rewrite I2; auto.
        destruct (existsb (String.eqb (rename al k)) ks) eqn:EX.
        { apply existsb_exists in EX as [y [Y1 Y2]]. apply String.eqb_eq in Y2. subst.
          destruct (HO _ Y1). congruence. }
        rewrite K4, String.eqb_refl. auto.
      * destruct (I1 k' Hk) as [sp' [v' [w' [J1 J2]]]]. exists sp', v', w'. split; auto.
        rewrite K4 in J1. destruct (HO k' Hk) as [O1 O2].
        destruct (String.eqb_spec (rename al k) k'); [congruence|]. destruct (String.eqb_spec k k'); congruence.
    + intros x Hx. cbn in Hx. cbn. rewrite I2 by tauto. rewrite K4.
      destruct (String.eqb_spec (rename al k) x); [tauto|].
      rewrite (eqb_sym2 x k). destruct (String.eqb k x); cbn; auto.
      destruct (existsb (String.eqb x) ks); auto.
Qed.
(** No alias: every key checked. *)
Lemma checkKeys_total E P : forall ks cfg, NoDup ks ->
  (forall k, In k ks -> exists v sp, get cfg k = Some v /\ get P k = Some sp /\ checkValue E sp v <> None) ->
  exists r, checkKeys E P [] cfg ks = Some r.
Proof.
  induction ks as [|k ks IH]; intros cfg HN H; cbn; [eauto|].
  inversion HN; subst. destruct (H k (or_introl eq_refl)) as [v [sp [V1 [V2 V4]]]].
  unfold checkKey. cbn. rewrite V1, V2. destruct (checkValue E sp v) as [[w|]|]; [| |congruence].
  - apply IH; auto. intros k' Hk. destruct (H k' (or_intror Hk)) as [v' [sp' H']]. exists v', sp'.
    rewrite get_set. destruct (String.eqb_spec k k') as [->|]; [tauto|auto].
  - apply IH; auto. intros k' Hk. apply H. right; auto.
Qed.
Lemma rename_nil k : rename [] k = k. Proof. reflexivity. Qed.
Lemma noChain_nil : noChain []. Proof. intros a b. discriminate. Qed.
Lemma noChain_one a b : a <> b -> noChain [(a, b)].
Proof.
  intros N x y. cbn [get]. destruct (String.eqb_spec a x) as [->|]; [|discriminate]. intro H. injection H as ->.
  destruct (String.eqb_spec x y); congruence.
Qed.
Lemma map_rename_nil ks : map (rename []) ks = ks. Proof. induction ks; cbn; f_equal; auto. Qed.

(** Which value a parameter gets: keyword, else config. *)
Definition given (config kw : dict pyval) (k : string) : option pyval :=
  match get kw k with Some v => Some v | None => get config k end.
(** C27.  If the call succeeds, a valid parameter has the (checked) keyword value if there is one,
    else the (checked) config value if there is one, else the default if there is one; nothing else
    is in the result. *)
Theorem C27_precedence E P config kw r : NoDup (keys P) -> NoDup (keys config) -> NoDup (keys kw) ->
  merge_config E P [] config kw = Some r ->
  forall k, match get P k with
            | None => get r k = None
            | Some sp => match given config kw k with
                         | Some v => exists w, stored E sp v w /\ get r k = Some w
                         | None => get r k = if isNone (p_default sp) then None else Some (p_default sp)
                         end
            end.
Proof.
  intros NP NC NK H k. unfold merge_config, check_config in H.
  set (cfg := addMissing P config kw) in *.
  destruct (checkKeys E P [] cfg (keys cfg)) as [c|] eqn:EK; [|discriminate]. injection H as <-.
  assert (ND : NoDup (keys cfg)) by (apply keys_addMissing; auto).
  destruct (checkKeys_spec E P [] noChain_nil (keys cfg) cfg c) as [S1 S2]; [rewrite map_rename_nil; auto|auto|].
  rewrite get_fillDefaults, get_defaults by auto.
  pose proof (get_addMissing P config kw k NC) as HG. fold cfg in HG.
  destruct (in_dec string_dec k (keys cfg)) as [HI|HI].
  - destruct (S1 k HI) as [sp [v [w [A1 [A2 [A3 A4]]]]]]. rewrite rename_nil in *.
    rewrite A2, A4. rewrite A1 in HG. unfold given. unfold has in HG. rewrite A2 in HG.
    destruct (get kw k) as [v'|]; [injection HG as <-; eauto|]. rewrite <- HG. eauto.
  - assert (HC : get c k = None).
    { rewrite S2 by (rewrite map_rename_nil; auto). destruct (existsb _ _); auto. apply get_none; auto. }
    rewrite HC. apply get_none in HI. rewrite HI in HG. unfold given. unfold has in HG.
    destruct (get kw k); [discriminate|]. destruct (get P k); auto. rewrite <- HG. auto.
Qed.
(** It succeeds exactly if all keywords are valid parameters and the chosen values pass the check;
    config entries that are no parameters of this class do not matter. *)
Theorem C27_accepts E P config kw : NoDup (keys config) -> NoDup (keys kw) ->
  (exists r, merge_config E P [] config kw = Some r) <->
  (forall k, In k (keys kw) -> In k (keys P)) /\
  (forall k sp v, get P k = Some sp -> given config kw k = Some v -> checkValue E sp v <> None).
Proof.
  intros NC NK. unfold merge_config, check_config. set (cfg := addMissing P config kw).
  assert (ND : NoDup (keys cfg)) by (apply keys_addMissing; auto).
  assert (HG : forall k, get cfg k = match get kw k with Some v => Some v | None => if has P k then get config k else None end)
    by (intro; apply get_addMissing; auto).
  split.
  - intros [r H]. destruct (checkKeys E P [] cfg (keys cfg)) as [c|] eqn:EK; [|discriminate].
    destruct (checkKeys_spec E P [] noChain_nil (keys cfg) cfg c) as [S1 S2]; [rewrite map_rename_nil; auto|auto|].
    split.
    + intros k Hk. apply get_some in Hk as [v Hv]. specialize (HG k). rewrite Hv in HG.
      destruct (S1 k) as [sp [v' [w [A1 [A2 _]]]]]; [apply get_some; eauto|]. apply get_some. eauto.
    + intros k sp v Hsp Hv. specialize (HG k). unfold given in Hv. unfold has in HG. rewrite Hsp in HG.
      destruct (S1 k) as [sp' [v' [w [A1 [A2 [A3 _]]]]]].
      { apply get_some. exists v. rewrite HG. destruct (get kw k); auto. }
      rewrite rename_nil in A2. assert (v' = v) by (destruct (get kw k); congruence). subst.
      assert (sp' = sp) by congruence. subst. destruct A3 as [A3|[A3 _]]; congruence.
  - intros [H1 H2]. destruct (checkKeys_total E P (keys cfg) cfg ND) as [c Hc].
    + intros k Hk. apply get_some in Hk as [v Hv]. exists v. specialize (HG k). rewrite Hv in HG.
      destruct (get kw k) as [v'|] eqn:Ek.
      * assert (HP : In k (keys P)) by (apply H1; apply get_some; eauto). apply get_some in HP as [sp Hsp].
        exists sp. repeat split; auto. apply (H2 k); auto. unfold given. rewrite Ek. congruence.
      * unfold has in HG. destruct (get P k) as [sp|] eqn:EP; [|discriminate]. exists sp. repeat split; auto.
        apply (H2 k); auto. unfold given. rewrite Ek. auto.
    + rewrite Hc. cbn. eauto.
Qed.
(** What the check does with one value: parse to the type (element by element for a list value of a
    list parameter) and, if the valid values are listed, require one of them; for strings a unique
    valid value that is the given string or a prefix of it. *)
Definition parsed (E : pyenv) (sp : pspec) (v w : pyval) : Prop :=
  (exists l l', p_list sp = true /\ v = VList l /\ w = VList l' /\
                Forall2 (fun x y => parse E x (p_type sp) = Some y) l l') \/
  ((p_list sp = false \/ forall l, v <> VList l) /\ parse E v (p_type sp) = Some w /\ w <> VNone).
Lemma mapM_Forall2 {A B} (f : A -> option B) l l' : mapM f l = Some l' -> Forall2 (fun x y => f x = Some y) l l'.
Proof.
  revert l'. induction l as [|x l IH]; cbn; intros l' H.
  - injection H as <-. constructor.
  - destruct (f x) eqn:E; [|discriminate]. destruct (mapM f l) eqn:E2; [|discriminate]. injection H as <-.
    constructor; auto.
Qed.
Theorem C27_checked E sp v w : checkValue E sp v = Some (Some w) ->
  exists u, parsed E sp v u /\
    match p_valid sp with
    | None => w = u
    | Some l => match p_type sp with
                | TStr => In w l /\ (pyeq u w = true \/ exists s p, u = VStr s /\ w = VStr p /\ String.prefix p s = true) /\
                          (forall w', In w' l -> pyeq u w' = true -> pyeq u w = true)
                | _ => w = u /\ exists m, In m l /\ pyeq u m = true
                end
    end.
Proof.
  assert (HV : forall u, option_map Some (checkOpt sp u) = Some (Some w) ->
     match p_valid sp with
    | None => w = u
    | Some l => match p_type sp with
                | TStr => In w l /\ (pyeq u w = true \/ exists s p, u = VStr s /\ w = VStr p /\ String.prefix p s = true) /\
                          (forall w', In w' l -> pyeq u w' = true -> pyeq u w = true)
                | _ => w = u /\ exists m, In m l /\ pyeq u m = true
                end
    end).
  { intros u H. unfold checkOpt in H. destruct (p_valid sp) as [l|]; [|injection H; auto].
    unfold checkValid in H. destruct (p_type sp);
      try (destruct (existsb (pyeq u) l) eqn:EX; [|discriminate]; injection H as <-;
           apply existsb_exists in EX as [m [M1 M2]]; split; [auto|exists m; auto]).
    destruct (filter (pyeq u) l) as [|m [|]] eqn:EF; [| |discriminate].
    - assert (HNo : forall w', In w' l -> pyeq u w' = true -> pyeq u w = true).
      { intros w' W1 W2. assert (HI : In w' (filter (pyeq u) l)) by (apply filter_In; auto). rewrite EF in HI. destruct HI. }
      destruct u; try discriminate.
      destruct (filter (fun w0 => match w0 with VStr p => startswith s p | _ => false end) l) as [|m [|]] eqn:EP; try discriminate.
      injection H as <-. assert (HI : In m (filter (fun w0 => match w0 with VStr p => startswith s p | _ => false end) l))
        by (rewrite EP; left; auto). apply filter_In in HI as [H1 H2]. split; auto. split; [|auto].
      right. destruct m; try discriminate. exists s, s0. auto.
    - injection H as <-. assert (HI : In m (filter (pyeq u) l)) by (rewrite EF; left; auto).
      apply filter_In in HI as [H1 H2]. split; auto. }
  intro H. unfold checkValue in H. unfold parsed.
  assert (HS : match parse E v (p_type sp) with None => None | Some VNone => Some None
               | Some v' => option_map Some (checkOpt sp v') end = Some (Some w) ->
               exists u, parse E v (p_type sp) = Some u /\ u <> VNone /\ option_map Some (checkOpt sp u) = Some (Some w)).
  { destruct (parse E v (p_type sp)) as [u|]; [|discriminate]. intro X. exists u.
    destruct u; try discriminate X; repeat split; auto; discriminate. }
  destruct (p_list sp) eqn:EL.
  - destruct (match v with VList _ => true | _ => false end) eqn:EV.
    + destruct v; try discriminate.
      destruct (mapM _ l) as [l'|] eqn:EM; [|discriminate]. exists (VList l'). split; [|apply HV; auto].
      left. exists l, l'. repeat split; auto. apply mapM_Forall2; auto.
    + assert (HN : forall l, v <> VList l) by (intros l ->; discriminate).
      destruct HS as [u [U1 [U2 U3]]]; [destruct v; auto; congruence|].
      exists u. split; [right; repeat split; auto|apply HV; auto].
  - destruct (HS H) as [u [U1 [U2 U3]]]; exists u; split; [right; repeat split; auto|apply HV; auto].
Qed.
(** Deprecated names: check_config moves the value of an alias to the new name. *)
Theorem C27_alias E P al cfg r : noChain al -> NoDup (map (rename al) (keys cfg)) ->
  check_config E P al cfg = Some r ->
  (forall k v, get cfg k = Some v -> exists sp w, get P (rename al k) = Some sp /\ stored E sp v w /\ get r (rename al k) = Some w) /\
  (forall k, In k (keys cfg) -> rename al k <> k -> ~ In k (keys P) -> get r k = None).
Proof.
  intros HC HN H. unfold check_config in H. destruct (checkKeys E P al cfg (keys cfg)) as [c|] eqn:EK; [|discriminate].
  injection H as <-. destruct (checkKeys_spec E P al HC (keys cfg) cfg c HN EK) as [S1 S2]. split.
  - intros k v Hk. destruct (S1 k) as [sp [v' [w [A1 [A2 [A3 A4]]]]]]; [apply get_some; eauto|].
    exists sp, w. assert (v' = v) by congruence. subst. repeat split; auto.
    rewrite get_fillDefaults, A4. auto.
  - intros k Hk HR HP. rewrite get_fillDefaults. rewrite S2.
    + assert (EX : existsb (String.eqb k) (keys cfg) = true) by (apply existsb_exists; exists k; rewrite String.eqb_refl; auto).
      rewrite EX. apply get_none. intro HI. apply HP. unfold keys in *. apply in_map_iff in HI as [[a b] [E1 E2]].
      cbn in E1. subst. apply filter_In in E2 as [E2 _]. apply in_map_iff in E2 as [[c' d] [E3 E4]]. injection E3 as <- _.
      apply in_map with (f := fst) in E4. auto.
    + intro HI. apply in_map_iff in HI as [a [E1 E2]]. unfold rename in *.
      destruct (get al a) as [n|] eqn:EA.
      * subst n. rewrite (HC a k EA) in HR. auto.
      * subst a. rewrite EA in HR. auto.
Qed.

(** ** A concrete environment and parameter table (an excerpt of Corr2._valid_params) *)
Definition exConv (t : ptype) (v : pyval) : option pyval :=
  match t, v with
  | TInt, VInt z => Some (VInt z)
  | TInt, VBool b => Some (VInt (if b then 1 else 0))
  | TInt, VStr "2" => Some (VInt 2)
  | TFloat, VFloat q => Some (VFloat q)
  | TFloat, VInt z => Some (VFloat (inject_Z z))
  | TStr, VStr s => Some (VStr s)
  | TBool, VBool b => Some (VBool b)
  | _, _ => None
  end.
Definition exEnv : pyenv := mkEnv exConv (fun _ => None).
Definition exP : params :=
  [ ("nbins", mkSpec TInt false VNone None);
    ("brute", mkSpec TBool false (VBool false) (Some [VBool false; VBool true; VInt 1; VInt 2]));
    ("split_method", mkSpec TStr false (VStr "mean") (Some [VStr "mean"; VStr "median"; VStr "middle"; VStr "random"]));
    ("sep_units", mkSpec TStr false VNone (Some [VStr "deg"; VStr "rad"]));
    ("max_top", mkSpec TInt false (VInt 10) None) ]%string.
Example C27_example :
  merge_config exEnv exP [] [("nbins", VInt 7); ("other", VNone); ("brute", VStr "no")]%string
    [("brute", VStr " Yes"); ("sep_units", VStr "degrees")]%string =
  Some [("brute", VBool true); ("sep_units", VStr "deg"); ("nbins", VInt 7); ("split_method", VStr "mean");
        ("max_top", VInt 10)]%string.
Proof. reflexivity. Qed.
Example C27_example_reject : merge_config exEnv exP [] [] [("other", VInt 1)]%string = None /\
  merge_config exEnv exP [] [] [("split_method", VStr "m")]%string = None.
Proof. split; reflexivity. Qed.
Example C27_example_alias :
  let al := [("n_bins", "nbins")]%string in let cfg := [("n_bins", VStr "2"); ("brute", VInt 2)]%string in
  noChain al /\ NoDup (map (rename al) (keys cfg)) /\
  exists r, check_config exEnv exP al cfg = Some r /\ get r "nbins" = Some (VInt 2).
Proof.
  split; [|split].
  - apply noChain_one. discriminate.
  - cbn. repeat constructor; cbn; intuition discriminate.
  - eexists. split; reflexivity.
Qed.
(** An alias in the config dict (not among the keywords) of merge_config is silently dropped, since
    only valid names are copied from it. *)
Theorem C27_config_alias_refuted : exists E P al config r, noChain al /\
  (exists a b v, get al a = Some b /\ get config a = Some v /\ In b (keys P) /\
   merge_config E P al config [] = Some r /\ get r b = None) /\
  NoDup (map (rename al) (keys config)).
Proof.
  exists exEnv, exP, [("n_bins", "nbins")]%string, [("n_bins", VInt 2)]%string. eexists. split; [|split].
  - apply noChain_one. discriminate.
  - exists "n_bins"%string, "nbins"%string, (VInt 2). repeat split; cbn; auto.
  - repeat constructor; cbn; intuition discriminate.
Qed.

(** ** C28 *)
Lemma pyval_ind2 (Q : pyval -> Prop) :
  Q VNone -> (forall b, Q (VBool b)) -> (forall z, Q (VInt z)) -> (forall q, Q (VFloat q)) -> (forall s, Q (VStr s)) ->
  (forall l, Forall Q l -> Q (VList l)) -> forall v, Q v.
Proof.
  intros H1 H2 H3 H4 H5 H6. fix F 1. destruct v as [|b|z|q|s|l]; [exact H1|apply H2|apply H3|apply H4|apply H5|].
  apply H6. induction l as [|x l IH]; constructor; [apply F|exact IH].
Qed.
Lemma pyeq_refl v : pyeq v v = true.
Proof.
  induction v using pyval_ind2; cbn; auto; try (apply Qeq_bool_iff; reflexivity).
  - apply String.eqb_refl.
  - induction H as [|x l Hx Hl IH]; auto. rewrite Hx. auto.
Qed.
(** Python's conversions: the result has the type asked for, and converting such a value changes
    nothing. *)
Definition hasType (t : ptype) (v : pyval) : Prop :=
  match t, v with
  | TInt, VInt _ | TFloat, VFloat _ | TStr, VStr _ | TBool, VBool _ => True
  | _, _ => False
  end.
Definition convOK (E : pyenv) : Prop :=
  (forall t v w, conv E t v = Some w -> hasType t w) /\ (forall t v, hasType t v -> conv E t v = Some v).
(** Valid values of a string parameter are different strings; those of a list parameter are not listed. *)
Definition specOK (sp : pspec) : Prop :=
  forall l, p_valid sp = Some l -> p_list sp = false /\
            (p_type sp = TStr -> Forall (fun v => exists s, v = VStr s) l /\ NoDup l).
Definition paramsOK (P : params) : Prop := NoDup (keys P) /\ forall k sp, get P k = Some sp -> specOK sp.

Lemma parse_fix E t v w : convOK E -> parse E v t = Some w -> parse E w t = Some w.
Proof.
  intros [C1 C2] H. unfold parse in *.
  destruct t.
  - destruct (isNone v); [injection H as <-; auto|]. pose proof (C1 _ _ _ H) as HT. destruct w; try contradiction. cbn [isNone]. auto.
  - destruct (isNone v); [injection H as <-; auto|]. pose proof (C1 _ _ _ H) as HT. destruct w; try contradiction. cbn [isNone]. auto.
  - unfold parse_bool in *. destruct v; try discriminate.
    + injection H as <-. auto.
    + injection H as <-. auto.
    + destruct (existsb _ trueNames); [injection H as <-; auto|]. destruct (existsb _ falseNames); [injection H as <-; auto|].
      pose proof (C1 _ _ _ H) as HT. destruct w; try contradiction. auto.
  - destruct (isNone v); [injection H as <-; auto|]. pose proof (C1 _ _ _ H) as HT. destruct w; try contradiction. cbn [isNone]. auto.
Qed.
Lemma mapM_fix E t l l' : convOK E -> mapM (fun x => parse E x t) l = Some l' -> mapM (fun x => parse E x t) l' = Some l'.
Proof.
  intros HC. revert l'. induction l as [|x l IH]; cbn; intros l' H; [injection H as <-; auto|].
  destruct (parse E x t) eqn:E1; [|discriminate]. destruct (mapM _ l) eqn:E2; [|discriminate]. injection H as <-.
  cbn. rewrite (parse_fix E t x p HC E1), (IH l0 eq_refl). auto.
Qed.
Lemma pyeq_str s w : pyeq (VStr s) w = true -> w = VStr s.
Proof. destruct w; cbn; try discriminate. intro H. apply String.eqb_eq in H. congruence. Qed.
Lemma filter_one (l : list pyval) s : NoDup l -> In (VStr s) l -> filter (pyeq (VStr s)) l = [VStr s].
Proof.
  induction l as [|x l IH]; [intros _ []|]. intros HN HI. inversion HN; subst. cbn [filter].
  destruct (pyeq (VStr s) x) eqn:E.
  - apply pyeq_str in E. subst. f_equal. clear IH HI HN H2.
    induction l as [|y l IH]; auto. cbn [filter]. destruct (pyeq (VStr s) y) eqn:E2.
    + apply pyeq_str in E2. subst. exfalso. apply H1. left; auto.
    + apply IH. intro. apply H1. right; auto.
  - destruct HI as [->|HI]; [rewrite pyeq_refl in E; discriminate|]. auto.
Qed.
Lemma checkOpt_fix sp v w : specOK sp -> checkOpt sp v = Some w -> checkOpt sp w = Some w.
Proof.
  intros HS H. unfold checkOpt in *. destruct (p_valid sp) as [l|] eqn:EV; [|auto].
  destruct (HS l EV) as [_ HT]. unfold checkValid in *. destruct (p_type sp);
    try (destruct (existsb (pyeq v) l) eqn:EX; [|discriminate]; injection H as <-; rewrite EX; auto).
  destruct (HT eq_refl) as [HF HN].
  assert (HI : In w l).
  { destruct (filter (pyeq v) l) as [|m [|]] eqn:EF; [| |discriminate].
    - destruct v; try discriminate.
      destruct (filter (fun w0 => match w0 with VStr p => startswith s p | _ => false end) l) as [|m [|]] eqn:EP; try discriminate.
      injection H as <-. assert (HI : In m (filter (fun w0 => match w0 with VStr p => startswith s p | _ => false end) l))
        by (rewrite EP; left; auto). apply filter_In in HI as [H1 _]. auto.
    - injection H as <-. assert (HI : In m (filter (pyeq v) l)) by (rewrite EF; left; auto). apply filter_In in HI as [H1 _]. auto. }
  rewrite Forall_forall in HF. destruct (HF w HI) as [s ->]. rewrite filter_one by auto. auto.
Qed.
(** A checked value passes the check unchanged. *)
Lemma stored_fix E sp v w : convOK E -> specOK sp -> stored E sp v w -> stored E sp w w.
Proof.
  intros HC HS [H|[H ->]]; [|right; auto]. left. unfold checkValue in *.
  assert (HSc : (match parse E v (p_type sp) with None => None | Some VNone => Some None
               | Some v' => option_map Some (checkOpt sp v') end = Some (Some w)) ->
              match parse E w (p_type sp) with None => None | Some VNone => Some None
               | Some v' => option_map Some (checkOpt sp v') end = Some (Some w)).
  { clear H. intro H. destruct (parse E v (p_type sp)) as [u|] eqn:EP; [|discriminate].
    assert (NU : u <> VNone) by (intros ->; discriminate).
    assert (HO : checkOpt sp u = Some w).
    { destruct (checkOpt sp u) eqn:E0; destruct u; try discriminate; cbn in H; congruence. }
    pose proof (checkOpt_fix sp u w HS HO) as HW.
    assert (PW : parse E w (p_type sp) = Some w /\ w <> VNone).
    { unfold checkOpt in HO. destruct (p_valid sp) as [l|] eqn:EV.
      - destruct (HS l EV) as [_ HT]. unfold checkValid in HO. destruct (p_type sp) eqn:ET;
          try (destruct (existsb (pyeq u) l); [|discriminate]; injection HO as <-; split; [eapply parse_fix; eauto|auto]).
        destruct (HT eq_refl) as [HF HN]. rewrite Forall_forall in HF.
        assert (HI : In w l).
        { destruct (filter (pyeq u) l) as [|m [|]] eqn:EF; [| |discriminate].
          - destruct u; try discriminate.
            destruct (filter (fun w0 => match w0 with VStr p => startswith s p | _ => false end) l) as [|m [|]] eqn:EPr; try discriminate.
            injection HO as <-. assert (HI : In m (filter (fun w0 => match w0 with VStr p => startswith s p | _ => false end) l))
             by (rewrite EPr; left; auto). apply filter_In in HI as [H1 _]. auto.
          - injection HO as <-. assert (HI : In m (filter (pyeq u) l)) by (rewrite EF; left; auto). apply filter_In in HI as [H1 _]. auto. }
        destruct (HF w HI) as [s ->]. split; [|discriminate]. cbn. destruct HC as [_ C2]. apply C2. exact I.
      - injection HO as <-. split; [eapply parse_fix; eauto|auto]. }
    destruct PW as [PW NW]. rewrite PW. rewrite HW. destruct w; auto. congruence. }
  destruct (p_list sp) eqn:EL.
  - destruct (match v with VList _ => true | _ => false end) eqn:EV.
    + destruct v; try discriminate.
      destruct (mapM _ l) as [l'|] eqn:EM; [|discriminate].
      assert (PV : p_valid sp = None).
      { destruct (p_valid sp) eqn:E0; auto. destruct (HS l0 E0) as [X _]. congruence. }
      unfold checkOpt in *. rewrite PV in *. cbn in H. injection H as <-.
      rewrite (mapM_fix E _ l l' HC EM). auto.
    + assert (H' : match parse E v (p_type sp) with None => None | Some VNone => Some None
               | Some v' => option_map Some (checkOpt sp v') end = Some (Some w)) by (destruct v; auto; discriminate).
      destruct (match w with VList _ => true | _ => false end) eqn:EW; [|specialize (HSc H'); destruct w; auto; discriminate].
      exfalso. destruct w; try discriminate. specialize (HSc H').
      destruct (parse E (VList l) (p_type sp)) as [u|] eqn:EP; [|discriminate].
      unfold parse in EP. destruct HC as [C1 _]. destruct (p_type sp); cbn in EP; try discriminate;
        apply C1 in EP; destruct u; try contradiction; cbn in HSc; unfold checkOpt in HSc;
        destruct (p_valid sp) as [lv|] eqn:E0; try discriminate; destruct (HS lv E0); congruence.
  - apply HSc. auto.
Qed.
Lemma get_filter {A} (f : string * A -> bool) (d : dict A) x : NoDup (keys d) ->
  get (filter f d) x = match get d x with Some v => if f (x, v) then Some v else None | None => None end.
Proof.
  induction d as [|[k v] d IH]; cbn; auto. intro HN. inversion HN; subst.
  destruct (f (k, v)) eqn:EF; cbn; destruct (String.eqb_spec k x) as [->|N]; auto; rewrite ?EF; auto.
  rewrite IH by auto. apply get_none in H1. rewrite H1. auto.
Qed.
Lemma keys_filter {A} (f : string * A -> bool) (d : dict A) : NoDup (keys d) -> NoDup (keys (filter f d)).
Proof.
  induction d as [|[k v] d IH]; cbn; auto. intro HN. inversion HN; subst.
  destruct (f (k, v)); cbn; auto. constructor; auto. intro HI. apply H1.
  unfold keys in *. apply in_map_iff in HI as [[a b] [E1 E2]]. cbn in E1. subst. apply filter_In in E2 as [E2 _].
  apply in_map with (f := fst) in E2. auto.
Qed.
Lemma keys_del {A} (d : dict A) k : NoDup (keys d) -> NoDup (keys (del d k)).
Proof. apply keys_filter. Qed.
Lemma keys_fill P : forall cfg, NoDup (keys cfg) -> NoDup (keys (fillDefaults P cfg)).
Proof.
  unfold fillDefaults. induction P as [|[k sp] P IH]; intros cfg H; cbn; auto.
  apply IH. destruct (has cfg k); auto. destruct (isNone _); auto. apply keys_set; auto.
Qed.
Lemma keys_check E P : forall ks cfg r, NoDup (keys cfg) -> checkKeys E P [] cfg ks = Some r -> NoDup (keys r).
Proof.
  induction ks as [|k ks IH]; cbn [checkKeys]; intros cfg r HN H; [injection H as <-; auto|].
  destruct (checkKey E P [] cfg k) as [c|] eqn:EK; [|discriminate]. apply (IH c r); auto.
  unfold checkKey in EK. cbn in EK. destruct (get P k) as [sp|]; [|discriminate]. destruct (get cfg k) as [v|]; [|discriminate].
  destruct (checkValue E sp v) as [[w|]|]; [| |discriminate]; injection EK as <-; auto. apply keys_set; auto.
Qed.
(** config.get(k): None if absent *)
Definition valOf (d : dict pyval) (k : string) : pyval := match get d k with Some v => v | None => VNone end.
(** C28: config as the constructor leaves it; writing only what differs from the defaults
    (make_minimal_config) and constructing again from that gives, for every name, an equal value. *)
Theorem C28_roundtrip E P config kw r : convOK E -> paramsOK P ->
  NoDup (keys config) -> NoDup (keys kw) -> merge_config E P [] config kw = Some r ->
  exists r', merge_config E P [] (make_minimal_config P r) [] = Some r' /\
    forall k, pyeq (valOf r' k) (valOf r k) = true.
Proof.
  intros HC [NP HS] NC NK H.
  assert (NR : NoDup (keys r)).
  { unfold merge_config, check_config in H. destruct (checkKeys E P [] (addMissing P config kw) (keys (addMissing P config kw))) as [c|] eqn:EK; [|discriminate]. injection H as <-.
    apply keys_fill. eapply keys_check; [|exact EK]. apply keys_addMissing; auto. }
  pose proof (C27_precedence E P config kw r NP NC NK H) as HP.
  set (m := make_minimal_config P r).
  assert (NM : NoDup (keys m)) by (apply keys_filter; auto).
  assert (HM : forall k, get m k = match get r k, get P k with
                | Some v, Some sp => if pyeq v (p_default sp) then None else Some v | _, _ => None end).
  { intro k. unfold m, make_minimal_config. rewrite get_filter by auto. cbn [fst snd].
    destruct (get r k); auto. destruct (get P k); auto. destruct (pyeq p (p_default p0)); auto. }
  (* a value of r that is not the default passes its check unchanged *)
  assert (HF : forall k v sp, get m k = Some v -> get P k = Some sp -> stored E sp v v).
  { intros k v sp Hm Hsp. specialize (HM k). rewrite Hm in HM. specialize (HP k). rewrite Hsp in *.
    destruct (get r k) as [u|] eqn:Er; [|discriminate]. destruct (pyeq u (p_default sp)) eqn:EQ; [discriminate|]. injection HM as ->.
    destruct (given config kw k) as [v0|].
    - destruct HP as [w [H1 H2]]. injection H2 as <-. eapply stored_fix; eauto.
    - destruct (isNone (p_default sp)); [discriminate|]. injection HP as HP. rewrite HP, pyeq_refl in EQ. discriminate. }
  destruct (proj2 (C27_accepts E P m [] NM (NoDup_nil _))) as [r' Hr'].
  { split; [intros k []|]. intros k sp v Hsp Hv. unfold given in Hv. cbn in Hv.
    destruct (HF k v sp Hv Hsp) as [X|[X _]]; congruence. }
  exists r'. split; auto. intro k.
  pose proof (C27_precedence E P m [] r' NP NM (NoDup_nil _) Hr' k) as HQ. specialize (HP k). specialize (HM k). unfold valOf.
  destruct (get P k) as [sp|] eqn:EP.
  - unfold given in HQ. cbn [get] in HQ. rewrite HM in HQ. clear HM. destruct (get r k) as [v|] eqn:Er.
    + destruct (pyeq v (p_default sp)) eqn:EQ.
      * rewrite HQ. destruct (isNone (p_default sp)) eqn:EN.
        -- destruct (p_default sp); try discriminate. destruct v; cbn in EQ; try discriminate. auto.
        -- revert EQ. clear. (* symmetry of == *)
           assert (HS : forall v w, pyeq v w = true -> pyeq w v = true).
           { clear. induction v using pyval_ind2; intros w Hw; destruct w; cbn in *; try discriminate; auto;
               try (apply Qeq_bool_iff; apply Qeq_bool_iff in Hw; symmetry; exact Hw).
             - apply String.eqb_eq in Hw. subst. apply String.eqb_refl.
             - revert l0 Hw. induction H as [|x l Hx Hl IH]; intros [|y l0] Hw; try discriminate; auto.
               apply andb_true_iff in Hw as [H1 H2]. rewrite (Hx y H1). cbn. apply IH; auto. }
           apply HS.
      * destruct HQ as [w [H1 H2]]. rewrite H2. assert (w = v); [|subst; apply pyeq_refl].
        destruct (HF k v sp) as [X|[X _]]; auto.
        { unfold m, make_minimal_config. rewrite get_filter by auto. cbn [fst snd]. rewrite Er, EP, EQ. auto. }
        { destruct H1 as [Y|[Y _]]; congruence. }
        { destruct H1 as [Y|[_ Y]]; congruence. }
    + destruct (given config kw k) as [v0|]; [destruct HP as [w [_ X]]; discriminate|].
      rewrite HQ. destruct (isNone (p_default sp)); [auto|discriminate].
  - rewrite HQ, HP. auto.
Qed.
Lemma exEnv_conv : convOK exEnv.
Proof.
  split.
  - intros t v w H. cbn in H. destruct t, v; cbn in H; try discriminate; try (injection H as <-; exact I).
    destruct (string_dec s "2") as [->|N]; [injection H as <-; exact I|]. exfalso.
    assert (X : forall A (a b : A), match s with "2"%string => a | _ => b end = b).
    { clear - N. intros A a b. destruct s as [|[[] [] [] [] [] [] [] []] [|]]; auto. congruence. }
    rewrite X in H. discriminate.
  - intros t v H. destruct t, v; cbn in *; try contradiction; auto.
Qed.

Example C28_example_params : paramsOK exP.
Proof.
  split.
  - repeat constructor; cbn; intuition discriminate.
  - intros k sp H. apply get_in in H. intros l Hl. cbn in H.
    destruct H as [H|[H|[H|[H|[H|[]]]]]]; injection H as <- <-; cbn in *; try discriminate; injection Hl as <-; split; auto;
      try discriminate; intros _; split; repeat constructor; eauto; cbn; intuition discriminate.
Qed.
Example C28_example : exists r, merge_config exEnv exP [] [("brute", VInt 2)]%string [("split_method", VStr "mean"); ("max_top", VInt 5)]%string = Some r /\
  make_minimal_config exP r = [("max_top", VInt 5); ("brute", VInt 2)]%string.
Proof. eexists. split; reflexivity. Qed.
(** ... equal, not identical: brute=0 comes back as False. *)
Theorem C28_identical_refuted : exists E P kw r r', convOK E /\ paramsOK P /\ NoDup (keys kw) /\
  merge_config E P [] [] kw = Some r /\ merge_config E P [] (make_minimal_config P r) [] = Some r' /\
  exists k, get r' k <> get r k.
Proof.
  exists exEnv, exP, [("brute", VInt 0)]%string. eexists. eexists. split; [apply exEnv_conv|].
  split; [apply C28_example_params|]. split; [repeat constructor; cbn; tauto|].
  split; [reflexivity|]. split; [reflexivity|]. exists "brute"%string. cbn. discriminate.
Qed.

(** ** C46: a list-valued item is indexed, anything else is used for every number; None (or absence)
    gives the default. *)
Theorem C46_list E config key l (n : nat) t default v : get config key = Some (VList l) -> nth_error l n = Some v ->
  get_from_list E config key (Z.of_nat n) t default =
    if isNone v then (if isNone default then Some VNone else convert E default t key) else convert E v t key.
Proof.
  intros H Hn. unfold get_from_list. rewrite H. unfold pyIndex.
  assert (HL : (n < length l)%nat) by (apply nth_error_Some; congruence).
  replace ((0 <=? Z.of_nat n) && (Z.of_nat n <? Z.of_nat (length l)))%Z with true.
  - rewrite Nat2Z.id, Hn. reflexivity.
  - symmetry. apply andb_true_iff. split; [apply Z.leb_le|apply Z.ltb_lt]; lia.
Qed.
Theorem C46_list_negative E config key l (n : nat) t default v : get config key = Some (VList l) ->
  nth_error (rev l) n = Some v ->
  get_from_list E config key (- Z.of_nat (S n)) t default =
    if isNone v then (if isNone default then Some VNone else convert E default t key) else convert E v t key.
Proof.
  intros H Hn. unfold get_from_list. rewrite H. unfold pyIndex.
  assert (HL : (n < length l)%nat) by (rewrite <- rev_length; apply nth_error_Some; congruence).
  replace ((0 <=? - Z.of_nat (S n)) && (- Z.of_nat (S n) <? Z.of_nat (length l)))%Z with false.
  2:{ symmetry. apply andb_false_iff. left. apply Z.leb_gt. lia. }
  replace ((- Z.of_nat (length l) <=? - Z.of_nat (S n)) && (- Z.of_nat (S n) <? 0))%Z with true.
  2:{ symmetry. apply andb_true_iff. split; [apply Z.leb_le|apply Z.ltb_lt]; lia. }
  replace (Z.to_nat (Z.of_nat (length l) + - Z.of_nat (S n))) with (length l - S n)%nat by lia.
  assert (HN : nth_error l (length l - S n) = Some v); [|rewrite HN; reflexivity].
  clear H. destruct (nth_error l (length l - S n)) as [w|] eqn:EE.
  - apply (nth_error_nth _ _ VNone) in EE. apply (nth_error_nth _ _ VNone) in Hn. rewrite rev_nth in Hn by lia. congruence.
  - apply nth_error_None in EE. lia.
Qed.
Theorem C46_out_of_range E config key l num t default : get config key = Some (VList l) ->
  (num < - Z.of_nat (length l) \/ Z.of_nat (length l) <= num)%Z ->
  get_from_list E config key num t default = None.
Proof.
  intros H Hn. unfold get_from_list. rewrite H. unfold pyIndex.
  replace ((0 <=? num) && (num <? Z.of_nat (length l)))%Z with false.
  2:{ symmetry. apply andb_false_iff. destruct Hn; [left; apply Z.leb_gt; lia|right; apply Z.ltb_ge; lia]. }
  replace ((- Z.of_nat (length l) <=? num) && (num <? 0))%Z with false; auto.
  symmetry. apply andb_false_iff. destruct Hn; [left; apply Z.leb_gt; lia|right; apply Z.ltb_ge; lia].
Qed.
Theorem C46_scalar E config key num t default v : get config key = Some v -> (forall l, v <> VList l) -> v <> VNone ->
  get_from_list E config key num t default = convert E v t key.
Proof.
  intros H HL HN. unfold get_from_list. rewrite H. unfold orDefault.
  destruct v; try congruence; cbn [isNone]; auto.
Qed.
Theorem C46_missing E config key num t default : (get config key = None \/ get config key = Some VNone) ->
  get_from_list E config key num t default = if isNone default then Some VNone else convert E default t key.
Proof. intros [H|H]; unfold get_from_list; rewrite H; reflexivity. Qed.
(** get: the same for a single value *)
Theorem C46_get E config key t default : cget E config key t default =
  match get config key with
  | Some v => if isNone v then (if isNone default then Some VNone else convert E default t key) else convert E v t key
  | None => if isNone default then Some VNone else convert E default t key
  end.
Proof.
  unfold cget, orDefault. destruct (get config key); auto. destruct (isNone default) eqn:ED; auto.
Qed.
Example C46_example :
  let c := [("x_col", VList [VInt 3; VNone; VInt 5]); ("brute", VStr "t")]%string in
  get_from_list exEnv c "x_col" 0 TInt (VInt 7) = Some (VInt 3) /\ get_from_list exEnv c "x_col" 1 TInt (VInt 7) = Some (VInt 7) /\
  get_from_list exEnv c "x_col" (-1) TInt (VInt 7) = Some (VInt 5) /\ get_from_list exEnv c "x_col" 3 TInt (VInt 7) = None /\
  get_from_list exEnv c "brute" 9 TBool VNone = Some (VBool true) /\ get_from_list exEnv c "z" 9 TBool VNone = Some VNone.
Proof. repeat split; reflexivity. Qed.
