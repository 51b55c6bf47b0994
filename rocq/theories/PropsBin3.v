(** C85: completion of the binning parameters of the three-point correlations. *)
From Coq Require Import Reals Lra Lia List ZArith Bool Psatz.
From Verif Require Import Base Geometry Tree Spec GeomFacts Binning PropsBin Corr3 SpecTri SpecSas Bin3.
Import ListNotations.
Open Scope R_scope.

(** The arguments make sense: sizes and numbers positive where given, units and angle_slop positive. *)
Definition posO (x : option R) : Prop := forall s, x = Some s -> 0 < s.
Definition posN (x : option Z) : Prop := forall n, x = Some n -> (0 < n)%Z.
Definition saneR (a : rargs) : Prop := posN (r_n a) /\ posO (r_size a).
Definition sane3 (a : args3) : Prop :=
  posN (a_n a) /\ posO (a_size a) /\ saneR (a_u a) /\ saneR (a_v a) /\ saneR (a_phi a) /\
  0 < a_sepunits a /\ 0 < a_phiunits a /\ 0 <= a_aslop a.

Lemma ln_ratio_pos mn mx : 0 < mn -> mn < mx -> 0 < ln (mx / mn).
Proof.
  intros H1 H2. rewrite <- ln_1. apply ln_increasing; [lra|]. apply Rmult_lt_reg_r with mn; auto. unfold Rdiv. rewrite Rmult_assoc, Rinv_l by lra. lra.
Qed.
Lemma radial_ok mn mx nb size p s : posN nb -> posO size -> radial mn mx nb size = Some (p, s) ->
  0 < c_min p /\ (0 < c_nbins p)%Z /\ 0 < c_size p /\ 0 < s /\ c_max p = c_min p * exp (IZR (c_nbins p) * c_size p) /\
  (forall x, mn = Some x -> c_min p = x) /\ (forall x, mx = Some x -> c_max p = x) /\ (forall n, nb = Some n -> c_nbins p = n) /\
  (forall x, size = Some x -> s = x /\ (nb <> None -> c_size p = x) /\
     (nb = None -> c_size p <= x /\ x * IZR (c_nbins p - 1) < c_size p * IZR (c_nbins p))).
Proof.
  intros PN PS H. unfold radial in H.
  assert (FULL : forall mn mx n, 0 < mn -> mn < mx -> (0 < n)%Z -> 0 < ln (mx / mn) / IZR n /\ mx = mn * exp (IZR n * (ln (mx / mn) / IZR n))).
  { intros mn' mx' n H1 H2 H3. assert (Hn : 0 < IZR n) by (apply IZR_lt; auto). pose proof (ln_ratio_pos _ _ H1 H2). split.
    - apply Rdiv_lt_0_compat; auto.
    - replace (IZR n * (ln (mx' / mn') / IZR n)) with (ln (mx' / mn')) by (field; lra). rewrite exp_ln; [field; lra|]. apply Rdiv_lt_0_compat; lra. }
  destruct nb as [n|].
  - specialize (PN n eq_refl). assert (Hn : 0 < IZR n) by (apply IZR_lt; auto). destruct size as [sz|].
    + specialize (PS sz eq_refl). destruct mx as [x|].
      * destruct mn as [y|]; [discriminate|]. destruct (Rleb (c_min _) 0) eqn:E; [discriminate|]. apply Rleb_false in E.
        destruct (_ <? 0)%Z; [discriminate|]. injection H as <- <-. cbn [c_min c_max c_nbins c_size] in *.
        repeat (split; auto); try (intros; discriminate || congruence).
        -- rewrite Rmult_assoc, <- exp_plus. replace (- IZR n * sz + IZR n * sz) with 0 by ring. rewrite exp_0. ring.
      * destruct mn as [y|]; [|discriminate]. destruct (Rleb (c_min _) 0) eqn:E; [discriminate|]. apply Rleb_false in E.
        destruct (_ <? 0)%Z; [discriminate|]. injection H as <- <-. cbn [c_min c_max c_nbins c_size] in *.
        repeat (split; auto); try (intros; discriminate || congruence). ring.
    + destruct mx as [x|]; [|discriminate]. destruct mn as [y|]; [|discriminate]. destruct (Rleb x y) eqn:E1; [discriminate|]. apply Rleb_false in E1.
      destruct (Rleb y 0) eqn:E2; [discriminate|]. apply Rleb_false in E2. destruct (n =? 0)%Z; [discriminate|].
      destruct (Rleb (c_min _) 0) eqn:E; [discriminate|]. destruct (_ <? 0)%Z; [discriminate|]. injection H as <- <-. cbn [c_min c_max c_nbins c_size] in *.
      destruct (FULL y x n) as [F1 F2]; try lra; auto. repeat (split; auto); try (intros; discriminate || congruence).
  - destruct mx as [x|]; [|discriminate]. destruct mn as [y|]; [|discriminate]. destruct size as [sz|]; [|discriminate]. specialize (PS sz eq_refl).
    destruct (Rleb x y) eqn:E1; [discriminate|]. apply Rleb_false in E1. destruct (Rleb y 0) eqn:E2; [discriminate|]. apply Rleb_false in E2.
    destruct (ceilBins _ _) as [n|] eqn:EB; [|discriminate]. destruct (Rleb (c_min _) 0) eqn:E; [discriminate|]. destruct (_ <? 0)%Z; [discriminate|].
    injection H as <- <-. cbn [c_min c_max c_nbins c_size] in *. unfold ceilBins in EB. destruct (Req_EM_T sz 0); [discriminate|].
    destruct (_ <=? 0)%Z eqn:EZ; [discriminate|]. injection EB as EB. apply Z.leb_gt in EZ. rewrite EB in EZ.
    pose proof (ceilZ_spec (ln (x / y) / sz)) as [C1 C2]. rewrite EB in C1, C2. assert (Hn : 0 < IZR n) by (apply IZR_lt; auto).
    destruct (FULL y x n) as [F1 F2]; try lra; auto. repeat (split; auto); try (intros; discriminate || congruence).
    + assert (x0 = sz) by congruence. subst x0. set (L := ln (x / y)) in *. apply Rmult_le_reg_r with (IZR n); auto. unfold Rdiv. rewrite Rmult_assoc, Rinv_l by lra.
      assert (L / sz * sz = L) by (field; auto). assert (L / sz * sz <= IZR n * sz) by (apply Rmult_le_compat_r; lra). lra.
    + assert (x0 = sz) by congruence. subst x0. set (L := ln (x / y)) in *. rewrite minus_IZR. unfold Rdiv. rewrite Rmult_assoc, Rinv_l by lra.
      assert (L / sz * sz = L) by (field; auto). assert (sz * (IZR n - 1) < sz * (L / sz)) by (apply Rmult_lt_compat_l; lra). lra.
Qed.

(** ** u, v, phi *)
(** a linear binning of [lo, hi] at most *)
Definition linOK (lo hi : R) (p : binpars) : Prop :=
  lo <= c_min p /\ c_max p <= hi /\ (0 < c_nbins p)%Z /\ 0 < c_size p /\ c_max p = c_min p + IZR (c_nbins p) * c_size p.
(** what was given is kept: the limits (in the unit w) and the number always; with the number given the size of
    the bins is the one asked for unless the range would leave [lo, hi]; without it the bins are
    at most as wide as asked for, and one bin less would not do (both up to the allowance 1e-10) *)
Definition keeps (a : rargs) (w s lo hi : R) (p : binpars) : Prop :=
  (forall x, r_min a = Some x -> c_min p = x * w) /\ (forall x, r_max a = Some x -> c_max p = x * w) /\
  (forall n, r_n a = Some n -> c_nbins p = n) /\
  (r_n a <> None -> forall x, r_size a = Some x -> c_size p = x \/
     (r_max a = None /\ c_max p = hi) \/ (r_min a = None /\ c_min p = lo)) /\
  (r_n a = None -> c_size p * IZR (c_nbins p) <= s * IZR (c_nbins p) + / 10 ^ 10 /\
                   s * IZR (c_nbins p - 1) < c_size p * IZR (c_nbins p)).
Lemma finish_ok lo hi mn mx n p : finish mn mx n = Some p -> lo <= mn -> mx <= hi -> mn < mx ->
  linOK lo hi p /\ c_min p = mn /\ c_max p = mx /\ c_nbins p = n /\ c_size p * IZR n = mx - mn.
Proof.
  unfold finish. destruct (n <=? 0)%Z eqn:E; [discriminate|]. apply Z.leb_gt in E. intro H. injection H as <-. intros H1 H2 H3.
  assert (Hn : 0 < IZR n) by (apply IZR_lt; auto). unfold linOK. cbn. repeat split; auto; try lra.
  - apply Rdiv_lt_0_compat; lra.
  - field. lra.
  - field. lra.
Qed.
Lemma ceil_keeps mn mx s n : 0 < s -> ceilRange mn mx s = Some n ->
  mx - mn <= s * IZR n + / 10 ^ 10 /\ s * IZR (n - 1) < mx - mn.
Proof.
  intros Hs H. unfold ceilRange in H. destruct (Req_EM_T s 0); [discriminate|]. assert (H' : ceilZ ((mx - mn - / 10 ^ 10) / s) = n) by congruence. clear H. rename H' into H.
  set (e := / 10 ^ 10) in *. assert (He : 0 < e) by (unfold e; apply Rinv_0_lt_compat; apply pow_lt; lra).
  pose proof (ceilZ_spec ((mx - mn - e) / s)) as [C1 C2]. rewrite H in C1, C2.
  assert (X : (mx - mn - e) / s * s = mx - mn - e) by (field; lra).
  assert ((mx - mn - e) / s * s <= IZR n * s) by (apply Rmult_le_compat_r; lra).
  rewrite minus_IZR. assert (s * (IZR n - 1) < s * ((mx - mn - e) / s)) by (apply Rmult_lt_compat_l; lra). lra.
Qed.
(** pieces of all three blocks: no number given; a number and no size *)
Lemma block_count a w bs lo hi mn mx p : 0 < bs -> posO (r_size a) -> r_n a = None ->
  lo <= mn -> mx <= hi -> mn < mx -> (forall x, r_min a = Some x -> mn = x * w) -> (forall x, r_max a = Some x -> mx = x * w) ->
  match ceilRange mn mx (get (r_size a) bs) with None => None | Some n => finish mn mx n end = Some p ->
  linOK lo hi p /\ keeps a w (get (r_size a) bs) lo hi p.
Proof.
  intros Hb PS En H1 H2 H3 G1 G2 H.
  assert (Hs : 0 < get (r_size a) bs) by (destruct (r_size a); cbn; auto).
  destruct (ceilRange _ _ _) as [n|] eqn:EC; [|discriminate]. apply (ceil_keeps mn mx) in EC; auto.
  destruct (finish_ok lo hi _ _ _ _ H H1 H2 H3) as [L [M1 [M2 [M3 M4]]]]. split; auto.
  unfold keeps. rewrite En, M1, M2, M3, M4. repeat split; auto; try (intros; discriminate || congruence); try lra.
Qed.
Lemma block_range a w bs lo hi mn mx n p : r_n a = Some n -> r_size a = None ->
  lo <= mn -> mx <= hi -> mn < mx -> (forall x, r_min a = Some x -> mn = x * w) -> (forall x, r_max a = Some x -> mx = x * w) ->
  finish mn mx n = Some p -> linOK lo hi p /\ keeps a w bs lo hi p.
Proof.
  intros En Es H1 H2 H3 G1 G2 H. destruct (finish_ok lo hi _ _ _ _ H H1 H2 H3) as [L [M1 [M2 [M3 M4]]]]. split; auto.
  unfold keeps. rewrite En, Es, M1, M2, M3. repeat split; auto; try (intros; discriminate || congruence).
Qed.
Lemma size_of s n x y : (0 < n)%Z -> x * IZR n = y -> y = IZR n * s -> x = s.
Proof. intros Hn H1 H2. assert (0 < IZR n) by (apply IZR_lt; auto). apply (Rmult_eq_reg_r (IZR n)); lra. Qed.
Theorem C85_u a bs p : saneR a -> 0 < bs -> uBins a bs = Some p ->
  linOK 0 1 p /\ keeps a 1 (get (r_size a) bs) 0 1 p.
Proof.
  intros [PN PS] Hb H. unfold uBins in H.
  destruct (Rltb (get (r_min a) 0) 0 || Rltb 1 (get (r_max a) 1)) eqn:E0; [discriminate|]. apply orb_false_iff in E0 as [E1 E2].
  apply Rltb_false in E1, E2. destruct (Rleb _ _) eqn:E3; [discriminate|]. apply Rleb_false in E3.
  assert (G1 : forall x, r_min a = Some x -> get (r_min a) 0 = x * 1) by (intros x ->; cbn; ring).
  assert (G2 : forall x, r_max a = Some x -> get (r_max a) 1 = x * 1) by (intros x ->; cbn; ring).
  destruct (r_n a) as [n|] eqn:En.
  - specialize (PN n eq_refl). assert (Hn : 0 < IZR n) by (apply IZR_lt; auto). destruct (allGiven a) eqn:EA; [discriminate|].
    destruct (r_size a) as [s|] eqn:Es; [|apply (block_range a 1 bs 0 1 (get (r_min a) 0) (get (r_max a) 1) n); auto].
    specialize (PS s eq_refl). cbn [get]. assert (Hns : 0 < IZR n * s) by (apply Rmult_lt_0_compat; auto).
    unfold allGiven in EA. rewrite Es in EA. cbn [isNone negb] in EA. rewrite andb_true_r in EA.
    destruct (r_min a) as [x|] eqn:Em; destruct (r_max a) as [y|] eqn:Ex; try discriminate; cbn [isNone get] in *.
    + destruct (finish_ok 0 1 x (Rmin (x + IZR n * s) 1) n p H) as [L [M1 [M2 [M3 M4]]]]; [lra|apply Rmin_r|apply Rmin_glb_lt; lra|].
      split; auto. unfold keeps. rewrite En, Es, Em, Ex. repeat split; try (intros; discriminate || congruence).
      * intros z Z. injection Z as <-. lra.
      * intros _ z Z. injection Z as <-. unfold Rmin in *. destruct Rle_dec; [left; apply (size_of s n _ (x + IZR n * s - x)); auto; lra|right; left; split; auto; lra].
    + destruct (finish_ok 0 1 (Rmax (y - IZR n * s) 0) y n p H) as [L [M1 [M2 [M3 M4]]]]; [apply Rmax_r|lra|apply Rmax_lub_lt; lra|].
      split; auto. unfold keeps. rewrite En, Es, Em, Ex. repeat split; try (intros; discriminate || congruence).
      * intros z Z. injection Z as <-. lra.
      * intros _ z Z. injection Z as <-. unfold Rmax in *. destruct Rle_dec; [right; right; split; auto; lra|left; apply (size_of s n _ (y - (y - IZR n * s))); auto; lra].
    + set (mn := Rmax (1 - IZR n * s) 0) in *.
      assert (B : 0 <= mn /\ mn < 1) by (unfold mn; split; [apply Rmax_r|apply Rmax_lub_lt; lra]).
      destruct (finish_ok 0 1 mn (Rmin (mn + IZR n * s) 1) n p H) as [L [M1 [M2 [M3 M4]]]]; [lra|apply Rmin_r|apply Rmin_glb_lt; lra|].
      split; auto. unfold keeps. rewrite En, Es, Em, Ex. repeat split; try (intros; discriminate || congruence).
      intros _ z Z. injection Z as <-. unfold Rmin in *. destruct Rle_dec; [left; apply (size_of s n _ (mn + IZR n * s - mn)); auto; lra|].
      right; left. split; auto.
  - apply (block_count a 1 bs 0 1 (get (r_min a) 0) (get (r_max a) 1)); auto.
Qed.
Lemma block_two a w bs lo hi mn mx s n p lo' : (0 < n)%Z -> 0 < s -> r_n a = Some n -> r_size a = Some s -> allGiven a = false ->
  lo <= mn -> mx <= hi -> mn < mx -> lo' <= lo -> (forall x, r_min a = Some x -> mn = x * w) -> (forall x, r_max a = Some x -> mx = x * w) ->
  (if isNone (r_max a) then finish mn (Rmin (mn + IZR n * s) hi) n else finish (Rmax (mx - IZR n * s) lo') mx n) = Some p ->
  linOK (if isNone (r_max a) then lo else lo') hi p /\ keeps a w bs lo' hi p.
Proof.
  intros PN PS En Es EA H1 H2 H3 H4 G1 G2 H. assert (Hn : 0 < IZR n) by (apply IZR_lt; auto). assert (Hns : 0 < IZR n * s) by (apply Rmult_lt_0_compat; auto).
  unfold allGiven in EA. rewrite Es in EA. cbn [isNone negb] in EA. rewrite andb_true_r in EA.
  destruct (r_max a) as [y|] eqn:Ex; cbn [isNone] in H |- *.
  - destruct (r_min a) as [x|] eqn:Em; [discriminate|].
    destruct (finish_ok lo' hi _ _ n p H) as [L [M1 [M2 [M3 M4]]]]; [apply Rmax_r|lra|apply Rmax_lub_lt; lra|].
    split; auto. unfold keeps. rewrite En, Es, Em, Ex. repeat split; try (intros; discriminate || congruence).
    + intros z Z. rewrite M2. auto.
    + intros _ z Z. injection Z as <-. unfold Rmax in *. destruct Rle_dec; [right; right; split; auto; lra|left; apply (size_of s n _ (mx - (mx - IZR n * s))); auto; lra].
  - destruct (finish_ok lo hi _ _ n p H) as [L [M1 [M2 [M3 M4]]]]; [lra|apply Rmin_r|apply Rmin_glb_lt; lra|].
    split; auto. unfold keeps. rewrite En, Es, Ex. repeat split; try (intros; discriminate || congruence).
    + intros z Z. rewrite M1. auto.
    + intros _ z Z. injection Z as <-. unfold Rmin in *. destruct Rle_dec; [left; apply (size_of s n _ (mn + IZR n * s - mn)); auto; lra|].
      right; left. split; auto.
Qed.
Theorem C85_v a bs p : saneR a -> 0 < bs -> vBins a bs = Some p ->
  linOK (if isNone (r_max a) || isNone (r_size a) || isNone (r_n a) then 0 else -1) 1 p /\ keeps a 1 (get (r_size a) bs) (-1) 1 p.
Proof.
  intros [PN PS] Hb H. unfold vBins in H.
  destruct (Rltb (get (r_min a) 0) 0 || Rltb 1 (get (r_max a) 1)) eqn:E0; [discriminate|]. apply orb_false_iff in E0 as [E1 E2].
  apply Rltb_false in E1, E2. destruct (Rleb _ _) eqn:E3; [discriminate|]. apply Rleb_false in E3.
  assert (G1 : forall x, r_min a = Some x -> get (r_min a) 0 = x * 1) by (intros x ->; cbn; ring).
  assert (G2 : forall x, r_max a = Some x -> get (r_max a) 1 = x * 1) by (intros x ->; cbn; ring).
  destruct (r_n a) as [n|] eqn:En.
  - specialize (PN n eq_refl). destruct (allGiven a) eqn:EA; [discriminate|].
    destruct (r_size a) as [s|] eqn:Es.
    + specialize (PS s eq_refl). cbn [isNone]. rewrite !orb_false_r.
      apply (block_two a 1 s 0 1 (get (r_min a) 0) (get (r_max a) 1) s n p (-1)); auto; lra.
    + cbn [isNone]. rewrite orb_true_r. cbn [orb].
      destruct (block_range a 1 bs 0 1 _ _ n p En Es E1 E2 E3 G1 G2 H) as [L K]. split; auto.
      destruct K as [K1 [K2 [K3 [K4 K5]]]]. split; [|split; [|split; [|split]]]; auto. intros _ x X. congruence.
  - cbn [isNone]. rewrite orb_true_r.
    destruct (block_count a 1 bs 0 1 _ _ p Hb PS En E1 E2 E3 G1 G2 H) as [L K]. split; auto.
    destruct K as [K1 [K2 [K3 [K4 K5]]]]. split; [|split; [|split; [|split]]]; auto. intros X. congruence.
Qed.
Theorem C85_phi a pu bs p : saneR a -> 0 < pu -> 0 < bs -> phiBins a pu bs = Some p ->
  linOK 0 PI p /\ keeps a pu (get (r_size a) bs) 0 PI p.
Proof.
  intros [PN PS] Hu Hb H. unfold phiBins in H. set (mn := get (r_min a) 0 * pu) in *. set (mx := get (r_max a) (PI / pu) * pu) in *.
  destruct (Rltb mn 0 || Rltb PI mx) eqn:E0; [discriminate|]. apply orb_false_iff in E0 as [E1 E2].
  apply Rltb_false in E1, E2. destruct (Rleb mx mn) eqn:E3; [discriminate|]. apply Rleb_false in E3.
  assert (G1 : forall x, r_min a = Some x -> mn = x * pu) by (unfold mn; intros x ->; reflexivity).
  assert (G2 : forall x, r_max a = Some x -> mx = x * pu) by (unfold mx; intros x ->; reflexivity).
  destruct (r_n a) as [n|] eqn:En.
  - specialize (PN n eq_refl). destruct (allGiven a) eqn:EA; [discriminate|].
    destruct (r_size a) as [s|] eqn:Es.
    + specialize (PS s eq_refl). cbn [get].
      destruct (block_two a pu s 0 PI mn mx s n p 0) as [L K]; auto; try lra. split; auto. destruct (isNone (r_max a)); auto.
    + cbn [get]. apply (block_range a pu bs 0 PI mn mx n); auto.
  - apply (block_count a pu bs 0 PI mn mx); auto.
Qed.

(** ** The parameters of the C++ code *)
Lemma slop_nonneg slop size : 0 < size -> 0 <= slopOf slop size.
Proof. intro H. unfold slopOf. destruct (Rltb slop 0) eqn:E; [destruct (Rleb size (1/10)); lra|]. apply Rltb_false in E. nra. Qed.
(** Theorem: what the constructor accepts satisfies what the other theorems about LogSAS assume. *)
Theorem C85_sas a m c P : sane3 a -> a_bt a = LogSAS -> build3 a m c = Some P -> validSAS P /\ tmetric P = m /\ tcoord P = c /\ ta P = a_aslop a.
Proof.
  intros [S1 [S2 [S3 [S4 [S5 [S6 [S7 S8]]]]]]] HB H. unfold build3 in H. rewrite HB in H.
  destruct (radial _ _ _ _) as [[p bs]|] eqn:ER; [|discriminate]. destruct (radial_ok _ _ _ _ _ _ S1 S2 ER) as [R1 [R2 [R3 [R4 [R5 _]]]]].
  destruct (_ || _); [discriminate|]. destruct (phiBins _ _ _) as [u|] eqn:EU; [|discriminate].
  destruct (C85_phi _ _ _ _ S5 S7 R4 EU) as [[L1 [L2 [L3 [L4 L5]]]] _]. injection H as <-. split; [|auto].
  constructor; cbn; auto.
  - apply Rmult_lt_0_compat; auto.
  - rewrite R5. ring.
Qed.
Theorem C85_ruv a m c P : sane3 a -> a_bt a = LogRUV -> build3 a m c = Some P -> 0 <= tminv P ->
  validRUV P /\ tmetric P = m /\ tcoord P = c /\ ta P = a_aslop a.
Proof.
  intros [S1 [S2 [S3 [S4 [S5 [S6 [S7 S8]]]]]]] HB H HV. unfold build3 in H. rewrite HB in H.
  destruct (radial _ _ _ _) as [[p bs]|] eqn:ER; [|discriminate]. destruct (radial_ok _ _ _ _ _ _ S1 S2 ER) as [R1 [R2 [R3 [R4 [R5 _]]]]].
  destruct (negb _); [discriminate|]. destruct (uBins _ _) as [u|] eqn:EU; [|discriminate]. destruct (vBins _ _) as [v|] eqn:EV; [|discriminate].
  destruct (C85_u _ _ _ S3 R4 EU) as [[L1 [L2 [L3 [L4 L5]]]] _]. destruct (C85_v _ _ _ S4 R4 EV) as [[M1 [M2 [M3 [M4 M5]]]] _]. injection H as <-. split; [|auto].
  constructor; cbn; auto.
  - apply Rmult_lt_0_compat; auto.
  - rewrite R5. ring.
Qed.
(** min_v is not negative unless it is left to be found from max_v, nvbins and vbin_size *)
Theorem C85_minv a m c P : sane3 a -> a_bt a = LogRUV -> build3 a m c = Some P ->
  r_max (a_v a) = None \/ r_size (a_v a) = None \/ r_n (a_v a) = None -> 0 <= tminv P.
Proof.
  intros [S1 [S2 [S3 [S4 [S5 [S6 [S7 S8]]]]]]] HB H HV. unfold build3 in H. rewrite HB in H.
  destruct (radial _ _ _ _) as [[p bs]|] eqn:ER; [|discriminate]. destruct (radial_ok _ _ _ _ _ _ S1 S2 ER) as [R1 [R2 [R3 [R4 [R5 _]]]]].
  destruct (negb _); [discriminate|]. destruct (uBins _ _) as [u|] eqn:EU; [|discriminate]. destruct (vBins _ _) as [v|] eqn:EV; [|discriminate].
  destruct (C85_v _ _ _ S4 R4 EV) as [[M1 _] _]. injection H as <-. cbn.
  replace (isNone (r_max (a_v a)) || isNone (r_size (a_v a)) || isNone (r_n (a_v a))) with true in M1; auto.
  destruct HV as [-> | [-> | ->]]; cbn; rewrite ?orb_true_r; reflexivity.
Qed.
(** bin_slop: 0 gives the exact binning; the default never lets an error of more than a tenth, nor of more than one bin *)
Theorem C85_slop a m c P : sane3 a -> build3 a m c = Some P ->
  (a_slop a = 0 -> tb P = 0 /\ tbu P = 0 /\ tbv P = 0) /\
  (a_slop a < 0 -> tb P = Rmin (tbinsize P) (1/10) /\ tbu P = Rmin (tubinsize P) (1/10) /\ (a_bt a = LogRUV -> tbv P = Rmin (tvbinsize P) (1/10))) /\
  (0 < a_slop a -> tb P = a_slop a * tbinsize P /\ tbu P = a_slop a * tubinsize P /\ (a_bt a = LogRUV -> tbv P = a_slop a * tvbinsize P)).
Proof.
  intros S H.
  assert (A : a_slop a = 0 -> forall x, slopOf (a_slop a) x = 0) by (intros -> x; unfold slopOf; rewrite (proj2 (Rltb_false 0 0)) by lra; ring).
  assert (B : a_slop a < 0 -> forall x, slopOf (a_slop a) x = Rmin x (1/10)).
  { intros HS x. unfold slopOf. rewrite (proj2 (Rltb_true _ _)) by lra. unfold Rleb, Rmin. destruct Rle_dec; auto. }
  assert (C : 0 < a_slop a -> forall x, slopOf (a_slop a) x = a_slop a * x).
  { intros HS x. unfold slopOf. rewrite (proj2 (Rltb_false _ _)) by lra. ring. }
  unfold build3 in H. destruct (radial _ _ _ _) as [[p bs]|]; [|discriminate]. destruct (a_bt a).
  - destruct (negb _); [discriminate|]. destruct (uBins _ _) as [u|]; [|discriminate]. destruct (vBins _ _) as [v|]; [|discriminate]. injection H as <-. cbn.
    split; [|split]; intro HS; repeat split; auto.
  - destruct (_ || _); [discriminate|]. destruct (phiBins _ _ _) as [u|]; [|discriminate]. injection H as <-. cbn.
    split; [|split]; intro HS; repeat split; auto; intros; discriminate.
Qed.

