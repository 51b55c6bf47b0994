(** The three-point triangle algorithm with bin_slop=0 and bin_type='LogSAS' counts every
    triangle as specified. *)
From Coq Require Import Reals Lra Lia List ZArith Bool Permutation Psatz Classical_Prop.
From Verif Require Import Base Geometry Tree Traverse Spec GeomFacts SumFacts TreeFacts TravFacts
  MetricFacts Cover Runs Corr3 TriCover TriStop SpecTri TriFacts TriSpec PropsArc SasGeom SasStop SpecSas.
Import ListNotations.
Open Scope R_scope.

(** Cells whose centres, and those of their parts, lie in the plane. *)
Definition flatTree (c : cell) : Prop := forall c', subcell c' c -> pz (getPos c') = 0.
Lemma flatTree_kids d z l r : flatTree (Node d z l r) -> flatTree l /\ flatTree r.
Proof. intro H; split; intros c Hc; apply H; [apply sub_l|apply sub_r]; auto. Qed.

Lemma ccw_cyc C p q r : ccw Euclidean C p q r = ccw Euclidean C q r p.
Proof.
  unfold ccw, wrapM. destruct C; unfold cross, psub, dot; cbn [px py pz]; f_equal; ring.
Qed.
Lemma ccw_anti C p q r : ccw Euclidean C p q r = true -> ccw Euclidean C p r q = false.
Proof.
  unfold ccw, wrapM. destruct C; unfold cross, psub, dot; cbn [px py pz]; intro H;
    apply Rltb_true in H; apply Rltb_false; lra.
Qed.

Lemma clip_phi ph : 0 <= ph <= PI ->
  (if Rltb (-1) (cos ph) && Rltb (cos ph) 1 then acos (cos ph)
   else if Rleb (cos ph) (-1) then PI else 0) = ph.
Proof.
  intro PB. pose proof (COS_bound ph) as CB.
  destruct (Rltb (-1) (cos ph)) eqn:T1; destruct (Rltb (cos ph) 1) eqn:T2; cbn [andb].
  - apply acos_cos; auto.
  - btrue. assert (E : cos ph = 1) by lra.
    assert (X : Rleb (cos ph) (-1) = false) by (apply Rleb_false; lra). rewrite X.
    rewrite <- (acos_cos ph) by auto. rewrite E, acos_1. auto.
  - btrue. assert (E : cos ph = -1) by lra.
    assert (X : Rleb (cos ph) (-1) = true) by (apply Rleb_true; lra). rewrite X.
    rewrite <- (acos_cos ph) by auto. rewrite E. replace (-1) with (- (1)) by ring. rewrite acos_opp, acos_1. lra.
  - btrue. lra.
Qed.

Section SASG.
Variable P : tparams.
Variable phi : Z -> R.
Variable ov : obj -> obj -> obj -> R -> R -> R -> R -> R -> R.
Variable te : event3 -> R.
Variable strict : bool.
Hypothesis ov_w0 : strict = false -> forall a b c d1 d2 d3 u v, ow a = 0 \/ ow b = 0 \/ ow c = 0 ->
  ov a b c d1 d2 d3 u v = 0.
Hypothesis V : validSAS P.
Hypothesis HE : tmetric P = Euclidean.
Hypothesis NS : noSlopSAS P.
Hypothesis PR : phiRange P.
Notation pd a b := (pdist (opos a) (opos b)).
Notation cp a b c := (cosphiOf (pd b c * pd b c) (pd a c * pd a c) (pd a b * pd a b)).

Definition labSG (a b c : obj) : R :=
  if Rltb 0 (pd b c) then
    match rangeSAS P O3 (opos a) (opos b) (opos c) (pd a c) (pd a b) (cp a b c) with
    | Some (u, v, k) => phi k * ov a b c (pd b c) (pd a c) (pd a b) u v
    | None => 0
    end
  else 0.
Definition hSG (O : order) : obj -> obj -> obj -> R := labSG.

Lemma rangeSAS_in O p1 p2 p3 x : 0 < pdist p2 p3 ->
  rangeSAS P O p1 p2 p3 (pdist p1 p3) (pdist p1 p2)
    (cosphiOf (pdist p2 p3 * pdist p2 p3) (pdist p1 p3 * pdist p1 p3) (pdist p1 p2 * pdist p1 p2)) = Some x ->
  inS P p1 p2 p3 /\ (O = O3 -> ccw (tmetric P) (tcoord P) p1 p3 p2 = true).
Proof.
  intros H1 H. pose proof (vs_minsep _ V). unfold rangeSAS in H.
  destruct (Rltb (pdist p1 p3) (tminsep P) || _) eqn:A2; [discriminate|].
  destruct (Rltb (pdist p1 p2) (tminsep P) || _) eqn:A3; [discriminate|].
  destruct (ord3 O && _) eqn:AO; [discriminate|]. btrue.
  rewrite cosphi_cos in H by lra.
  set (ph := phiOf p1 p2 p3) in *. pose proof (phiOf_bound p1 p2 p3) as PB. fold ph in PB.
  rewrite (clip_phi ph PB) in H.
  destruct (Rltb ph (tminu P) || Rleb (tmaxu P) ph) eqn:AP; [discriminate|]. btrue.
  split; [unfold inS; fold ph; lra|].
  intros ->. cbn [ord3 andb] in AO. apply negb_false_iff in AO. auto.
Qed.

Lemma labS_out a b c :
  ~ (inS P (opos a) (opos b) (opos c) /\ ccw (tmetric P) (tcoord P) (opos a) (opos c) (opos b) = true) ->
  labSG a b c = 0.
Proof.
  intro H. unfold labSG. destruct (Rltb 0 (pd b c)) eqn:E; auto. apply Rltb_true in E.
  destruct rangeSAS as [[[u v] k]|] eqn:ER; auto. exfalso. apply H.
  apply rangeSAS_in in ER; auto. tauto.
Qed.
Lemma labS_w0 a b c : strict = false -> ow a = 0 \/ ow b = 0 \/ ow c = 0 -> labSG a b c = 0.
Proof.
  intros Hf H. unfold labSG. destruct Rltb; auto. destruct rangeSAS as [[[u v] k]|]; auto.
  rewrite ov_w0; auto. ring.
Qed.
Lemma GS_w0 O a b c : strict = false -> ow a = 0 \/ ow b = 0 \/ ow c = 0 -> G (hSG O) O a b c = 0.
Proof. intros Hf H. destruct O; simpl; unfold hSG; rewrite !labS_w0; auto; try tauto; lra. Qed.

(** ** singleBin at zero slop *)
Lemma singleSAS_none d1sq q s1 s2 s3 : 0 <= s1 -> 0 <= s2 -> 0 <= s3 ->
  singleSAS P d1sq q s1 s2 s3 = None -> s1 = 0 /\ s2 = 0 /\ s3 = 0.
Proof.
  intros H1 H2 H3 H. destruct NS as [Nb [Nu Na]]. unfold singleSAS in H. rewrite Nb in H.
  destruct (Rltb 0 s1) eqn:E1.
  - exfalso. cbn [andb] in H. rewrite !Rmult_0_r, E1 in H. cbn [orb] in H. discriminate.
  - apply Rltb_false in E1. assert (Z1 : s1 = 0) by lra. cbn [andb] in H.
    assert (T : Reqb s1 0 = true) by (unfold Reqb; destruct Req_EM_T; auto).
    rewrite T in H. cbn [andb orb] in H. rewrite !Rmult_0_r in H.
    destruct (Rltb 0 s2) eqn:E2; cbn [orb andb] in H; [discriminate|].
    destruct (Rltb 0 s3) eqn:E3; cbn [orb andb] in H; [discriminate|]. btrue. lra.
Qed.
Lemma singleSAS_some d1sq q s1 s2 s3 a b c : 0 <= s1 -> 0 <= s2 -> 0 <= s3 ->
  singleSAS P d1sq q s1 s2 s3 = Some (a, b, c) ->
  (a = true -> 0 < s1) /\ (b = true -> 0 < s2) /\ (c = true -> 0 < s3) /\ a || b || c = true.
Proof.
  intros H1 H2 H3 H. unfold singleSAS in H.
  match type of H with (if ?x then _ else _) = _ => destruct x eqn:E end.
  - apply andb_true_iff in E as [E _]. apply Rltb_true in E. injection H; intros <- <- <-.
    split; [auto|]. split; [|split; [|auto]]; intro T; apply Rltb_true in T; lra.
  - destruct (Rltb 0 s2 || Rltb 0 s3) eqn:E23; [|discriminate].
    match type of H with (if ?x then _ else _) = _ => destruct x eqn:ES end; [|discriminate].
    injection H; intros <- <- <-. clear H.
    assert (HP : 0 < s2 \/ 0 < s3).
    { apply orb_true_iff in E23 as [T|T]; apply Rltb_true in T; auto. }
    split; [discriminate|]. split; [|split].
    + intro T. apply orb_true_iff in T as [T|T].
      * apply andb_true_iff in T as [T _]. apply Rltb_true in T; auto.
      * apply Rleb_true in T. lra.
    + intro T. apply orb_true_iff in T as [T|T].
      * apply andb_true_iff in T as [T _]. apply Rltb_true in T; auto.
      * apply Rleb_true in T. lra.
    + cbn [orb]. destruct (Rle_dec s3 s2) as [L|L].
      * apply Rleb_true in L. rewrite L. rewrite !orb_true_r. auto.
      * assert (L' : s2 <= s3) by lra. apply Rleb_true in L'. rewrite L'. rewrite !orb_true_r. auto.
Qed.

(** ** Decisions *)
Variable A : obj -> Prop.
Hypothesis Aw : forall o, A o -> wokG strict o.
Variable Ok : order -> Prop.
Hypothesis Aor : Ok O1 -> forall a b c, A a -> A b -> A c ->
  0 < pd b c -> 0 < pd a c -> 0 < pd a b ->
  ccw (tmetric P) (tcoord P) (opos a) (opos b) (opos c) = true \/
  ccw (tmetric P) (tcoord P) (opos a) (opos c) (opos b) = true.
Hypothesis Afl : Ok O3 -> tcoord P = Flat /\ forall a, A a -> pz (opos a) = 0.

Hypothesis te_ok : forall c1 c2 c3 d1 d2 d3 u v k, cellOK A c1 -> cellOK A c2 -> cellOK A c3 ->
  csize c1 = 0 -> csize c2 = 0 -> csize c3 = 0 ->
  te (mkev3 c1 c2 c3 d1 d2 d3 u v k) =
  sum3 (fun a b c => ov a b c d1 d2 d3 u v) (objs c1) (objs c2) (objs c3).
Definition JS (c : cell) : Prop := cellOK A c /\ (Ok O3 -> flatTree c).
Lemma JS_kids d z l r : JS (Node d z l r) -> JS l /\ JS r.
Proof.
  intros [H1 H2]. destruct (cellOK_kids _ _ _ _ _ H1) as [K1 K2].
  split; split; auto; intro HO; destruct (flatTree_kids _ _ _ _ (H2 HO)); auto.
Qed.
Lemma JS_w0 c o : JS c -> getW c = 0 -> In o (objs c) -> strict = false /\ ow o = 0.
Proof. intros [H _] W Ho. exact (J_w0 ov strict ov_w0 A Aw c o H W Ho). Qed.

Lemma S_W0 O c1 c2 c3 : Ok O -> JS c1 -> JS c2 -> JS c3 ->
  getW c1 = 0 \/ getW c2 = 0 \/ getW c3 = 0 ->
  sum3 (G (hSG O) O) (objs c1) (objs c2) (objs c3) = 0.
Proof.
  intros _ J1 J2 J3 [W|[W|W]]; apply sum3_0; intros a b c Ha Hb' Hc.
  - destruct (JS_w0 c1 a J1 W Ha). apply GS_w0; auto.
  - destruct (JS_w0 c2 b J2 W Hb'). apply GS_w0; auto.
  - destruct (JS_w0 c3 c J3 W Hc). apply GS_w0; auto.
Qed.
Lemma S_W12 O c1 c2 : Ok O -> O <> O3 -> JS c1 -> JS c2 -> getW c1 = 0 \/ getW c2 = 0 ->
  sum12 (G (hSG O) O) (objs c1) (objs c2) = 0.
Proof.
  intros _ _ J1 J2 [W|W]; apply sum12_0; intros a b c Ha Hb' Hc.
  - destruct (JS_w0 c1 a J1 W Ha). apply GS_w0; auto.
  - destruct (JS_w0 c2 b J2 W Hb'). apply GS_w0; auto.
Qed.
Lemma S_W3 c : Ok O0 -> JS c -> getW c = 0 -> sumU3 (G (hSG O0) O0) (objs c) = 0.
Proof.
  intros _ Jc W. apply sumU3_0. intros a b d Ha Hb' Hc. destruct (JS_w0 c a Jc W Ha). apply GS_w0; auto.
Qed.

Lemma distE p q : distSq (tmetric P) p q = pdist p q * pdist p q.
Proof. rewrite mdist_sq, HE, mdist_euclid. auto. Qed.
Lemma pos_maxS : 0 <= tmaxsep P.
Proof.
  rewrite (vs_maxsep _ V). apply Rmult_le_pos; [left; apply (vs_minsep _ V)|left; apply exp_pos].
Qed.

Lemma S_dec O c1 c2 c3 : Ok O -> JS c1 -> JS c2 -> JS c3 -> pre P O c1 c2 c3 ->
  match decide3 P O c1 c2 c3 (distSq (tmetric P) (getPos c2) (getPos c3))
          (distSq (tmetric P) (getPos c1) (getPos c3)) (distSq (tmetric P) (getPos c1) (getPos c2)) with
  | Drop3 => sum3 (G (hSG O) O) (objs c1) (objs c2) (objs c3) = 0
  | Direct3 u v k =>
      evG phi te (mkev3 c1 c2 c3 (sqrt (distSq (tmetric P) (getPos c2) (getPos c3)))
            (sqrt (distSq (tmetric P) (getPos c1) (getPos c3)))
            (sqrt (distSq (tmetric P) (getPos c1) (getPos c2))) u v k)
      = sum3 (G (hSG O) O) (objs c1) (objs c2) (objs c3)
  | Split3 a b c => (a = true -> isNode c1) /\ (b = true -> isNode c2) /\ (c = true -> isNode c3) /\
      a || b || c = true
  end.
Proof.
  intros HOk [J1 F1] [J2 F2] [J3 F3] HP.
  assert (P1 := csize_nonneg _ _ J1). assert (P2 := csize_nonneg _ _ J2). assert (P3 := csize_nonneg _ _ J3).
  unfold pre in HP. rewrite (vs_type _ V) in HP.
  assert (HO : O = O1 \/ O = O3) by (destruct O; auto; contradiction).
  unfold decide3. rewrite (vs_type _ V), !distE. rewrite !sqrt_square by apply pdist_nonneg.
  destruct (stopSAS P O (getPos c1) (getPos c2) (getPos c3) _ _ _ (csize c1) (csize c2) (csize c3)) as [q|] eqn:ES.
  2: { apply sum3_0. intros a b c Ha Hb' Hc.
       assert (K : inS P (opos a) (opos b) (opos c) ->
         O = O3 /\ ccw (tmetric P) (tcoord P) (opos a) (opos c) (opos b) = false).
       { apply (stopSAS_out P HE (vs_minsep _ V) PR O) with (p1 := getPos c1) (p2 := getPos c2) (p3 := getPos c3)
           (s1 := csize c1) (s2 := csize c2) (s3 := csize c3); auto; try (eapply co_within; eauto).
         intros ->. destruct (Afl HOk) as [FL FA]. split; auto.
           split; [apply (F1 HOk), sub_refl|]. split; [apply (F2 HOk), sub_refl|].
           split; [apply (F3 HOk), sub_refl|].
           split; [apply FA, (co_A _ _ J1); auto|]. split; [apply FA, (co_A _ _ J2); auto|].
           apply FA, (co_A _ _ J3); auto. }
       assert (L1 : labSG a b c = 0).
       { apply labS_out. intros [I C]. destruct (K I). congruence. }
       destruct HO as [->| ->]; simpl; unfold hSG; auto.
       rewrite L1, (labS_out a c b); [lra|]. intros [I C]. apply inS_sym in I. destruct (K I). discriminate. }
  destruct (singleSAS P _ q (csize c1) (csize c2) (csize c3)) as [[[x y] z]|] eqn:EB.
  { apply singleSAS_some in EB; auto.
    destruct EB as [Ex [Ey [Ez Eo]]]. repeat split; auto; intro T; eapply csize_pos; eauto. }
  apply singleSAS_none in EB; auto. destruct EB as [Z1 [Z2 Z3]].
  assert (Q1 : forall a, In a (objs c1) -> opos a = getPos c1) by (intros; eapply co_centre; eauto).
  assert (Q2 : forall a, In a (objs c2) -> opos a = getPos c2) by (intros; eapply co_centre; eauto).
  assert (Q3 : forall a, In a (objs c3) -> opos a = getPos c3) by (intros; eapply co_centre; eauto).
  set (p1 := getPos c1) in *. set (p2 := getPos c2) in *. set (p3 := getPos c3) in *.
  pose proof (pdist_nonneg p2 p3) as N1. pose proof (pdist_nonneg p1 p3) as N2.
  pose proof (pdist_nonneg p1 p2) as N3.
  (* no side is 0, and the values left by stop111 *)
  assert (X : 0 < pdist p2 p3 /\ 0 < pdist p1 p3 /\ 0 < pdist p1 p2 /\
    q = mkSas (pdist p1 p3) (pdist p1 p2)
          (cosphiOf (pdist p2 p3 * pdist p2 p3) (pdist p1 p3 * pdist p1 p3) (pdist p1 p2 * pdist p1 p2))).
  { assert (T : Reqb 0 0 = true) by (unfold Reqb; destruct Req_EM_T; auto).
    unfold stopSAS in ES. rewrite Z1, Z2, Z3, T in ES. cbn [andb] in ES.
    match type of ES with (if ?b then _ else _) = _ => destruct b eqn:TT; [discriminate|] end.
    apply orb_false_iff in TT as [TT T3']. apply orb_false_iff in TT as [TT T2']. apply orb_false_iff in TT as [_ T1'].
    apply Reqb_false in T1', T2', T3'.
    assert (Y1 : 0 < pdist p2 p3) by nra. assert (Y2 : 0 < pdist p1 p3) by nra. assert (Y3 : 0 < pdist p1 p2) by nra.
    do 3 (split; [assumption|]).
    rewrite !sqrt_square in ES by auto. rewrite Rplus_0_r in ES.
    assert (R3 : Rleb (pdist p1 p2) 0 = false) by (apply Rleb_false; auto).
    assert (R2 : Rleb (pdist p1 p3) 0 = false) by (apply Rleb_false; auto).
    rewrite R3, R2 in ES. clear - ES.
    repeat match type of ES with
    | Some _ = Some _ => idtac
    | context [if ?b then _ else _] => destruct b
    | context [match rotCos ?a1 ?a2 ?a3 ?a4 ?a5 ?a6 ?a7 ?a8 ?a9 ?a10 with _ => _ end] =>
        destruct (rotCos a1 a2 a3 a4 a5 a6 a7 a8 a9 a10)
    end; congruence. }
  destruct X as [Y1 [Y2 [Y3 ->]]]. cbn [sd2 sd3 scos].
  set (cs := cosphiOf _ _ _).
  assert (GS : forall u v k, rangeSAS P O p1 p2 p3 (pdist p1 p3) (pdist p1 p2) cs = Some (u, v, k) ->
    forall a b c, In a (objs c1) -> In b (objs c2) -> In c (objs c3) ->
    G (hSG O) O a b c = phi k * ov a b c (pdist p2 p3) (pdist p1 p3) (pdist p1 p2) u v).
  { intros u v k ER a b c Ha Hb' Hc.
    assert (CC : ccw (tmetric P) (tcoord P) p1 p3 p2 = true).
    { destruct HO as [->| ->].
      - destruct HP as [HP|HP]; auto.
        assert (K : ccw (tmetric P) (tcoord P) (opos a) (opos b) (opos c) = true \/
                    ccw (tmetric P) (tcoord P) (opos a) (opos c) (opos b) = true).
        { apply (Aor HOk); [apply (co_A _ _ J1)|apply (co_A _ _ J2)|apply (co_A _ _ J3)|..]; auto;
            rewrite ?(Q1 a), ?(Q2 b), ?(Q3 c) by auto; auto. }
        rewrite (Q1 a), (Q2 b), (Q3 c) in K by auto. destruct K; congruence.
      - apply rangeSAS_in in ER; auto. apply ER; auto. }
    assert (ER3 : rangeSAS P O3 p1 p2 p3 (pdist p1 p3) (pdist p1 p2) cs = Some (u, v, k)).
    { rewrite <- ER. unfold rangeSAS. rewrite CC. cbn [negb]. rewrite !andb_false_r. reflexivity. }
    assert (L1 : labSG a b c = phi k * ov a b c (pdist p2 p3) (pdist p1 p3) (pdist p1 p2) u v).
    { unfold labSG. rewrite (Q1 a), (Q2 b), (Q3 c) by auto. apply Rltb_true in Y1. rewrite Y1.
      fold cs. rewrite ER3. auto. }
    destruct HO as [->| ->]; simpl; unfold hSG; auto.
    rewrite L1, (labS_out a c b); [lra|]. rewrite (Q1 a), (Q2 b), (Q3 c) by auto.
    intros [_ C]. rewrite HE in *. apply ccw_anti in C. congruence. }
  destruct (rangeSAS P O p1 p2 p3 (pdist p1 p3) (pdist p1 p2) cs) as [[[u v] k]|] eqn:ER.
  - specialize (GS u v k eq_refl). rewrite (sum3_ext _ _ _ _ _ GS). rewrite sum3_scal. unfold evG. cbn [tk]. f_equal.
    apply te_ok; auto.
  - apply sum3_0. intros a b c Ha Hb' Hc.
    assert (L1 : labSG a b c = 0).
    { unfold labSG. rewrite (Q1 a), (Q2 b), (Q3 c) by auto. apply Rltb_true in Y1. rewrite Y1. fold cs.
      destruct (rangeSAS P O3 p1 p2 p3 (pdist p1 p3) (pdist p1 p2) cs) as [[[u v] k]|] eqn:E3; auto. exfalso.
      destruct HO as [->| ->]; [|congruence].
      pose proof E3 as E3'. apply Rltb_true in Y1.
      apply rangeSAS_in in E3' as [_ C]; auto. specialize (C eq_refl).
      revert ER E3. unfold rangeSAS. rewrite C. cbn [negb ord3 andb].
      intros ER E3. rewrite ER in E3. discriminate. }
    destruct HO as [->| ->]; simpl; unfold hSG; auto. rewrite L1.
    (* the other labelling: its range test is the same up to exchange of d2 and d3 *)
    destruct (Req_dec (labSG a c b) 0) as [L2|L2]; [rewrite L2; lra|]. exfalso.
    assert (K : inS P p1 p3 p2 /\ ccw (tmetric P) (tcoord P) p1 p2 p3 = true).
    { apply NNPP. intro K. apply L2. apply labS_out. rewrite (Q1 a), (Q2 b), (Q3 c) by auto. auto. }
    destruct K as [K1 K2]. destruct HP as [HP|HP]; fold p1 p2 p3 in HP; [|congruence].
    rewrite HE in *. apply ccw_anti in HP. congruence.
Qed.

(** ** process12 and process3 *)
Lemma eff1S c1 c2 :
  efin (fst (effSize (tmetric P) (getPos c1) (getPos c2) (Fin (csize c1)) (Fin (csize c2)))) = csize c1.
Proof. rewrite HE. reflexivity. Qed.
Lemma eff2S c1 c2 :
  efin (snd (effSize (tmetric P) (getPos c1) (getPos c2) (Fin (csize c1)) (Fin (csize c2)))) = csize c2.
Proof. rewrite HE. reflexivity. Qed.
Lemma labS_side a b c : ~ (0 < pd b c /\ tminsep P <= pd a c < tmaxsep P /\ tminsep P <= pd a b < tmaxsep P) ->
  labSG a b c = 0.
Proof. intro H. apply labS_out. unfold inS. tauto. Qed.
Lemma S_stop12 O c1 c2 : tminu P = 0 -> Ok O -> O <> O3 -> JS c1 -> JS c2 -> stop12 P O c1 c2 ->
  sum12 (G (hSG O) O) (objs c1) (objs c2) = 0.
Proof.
  intros U0 _ HO [J1 _] [J2 _] HS. apply sum12_0. intros a b c Ha Hb' Hc.
  assert (P1 := csize_nonneg _ _ J1). assert (P2 := csize_nonneg _ _ J2).
  pose proof (co_within _ _ _ J1 Ha) as B1. pose proof (co_within _ _ _ J2 Hb') as B2.
  pose proof (co_within _ _ _ J2 Hc) as B3.
  pose proof (pdist_lip _ _ _ _ _ _ B1 B2) as L3. pose proof (pdist_lip _ _ _ _ _ _ B1 B3) as L2.
  pose proof (pdist_lip _ _ _ _ _ _ B2 B3) as L1. rewrite pdist_refl in L1.
  apply Rabs_le_inv in L1, L2, L3.
  pose proof (pdist_nonneg (opos b) (opos c)). pose proof (pdist_nonneg (opos a) (opos c)).
  pose proof (pdist_nonneg (opos a) (opos b)). pose proof (pdist_nonneg (getPos c1) (getPos c2)).
  pose proof (vs_minsep _ V) as Hms.
  assert (Y1 := pdist_sym (opos b) (opos a)). assert (Y2 := pdist_sym (opos c) (opos a)).
  assert (Y3 := pdist_sym (opos c) (opos b)).
  unfold stop12 in HS. rewrite eff1S, eff2S, distE in HS.
  set (r := pdist (getPos c1) (getPos c2)) in *.
  assert (K : pd b c = 0 \/ (pd a b < tminsep P /\ pd a c < tminsep P) \/
              (tmaxsep P <= pd a b /\ tmaxsep P <= pd a c)).
  { destruct HS as [HS|[HS|[HS|HS]]].
    - left. unfold tooSmallS2 in HS. apply orb_true_iff in HS as [HS|HS].
      + apply Reqb_true in HS. lra.
      + apply Rltb_true in HS. rewrite U0 in HS. lra.
    - right; left. unfold tooSmall3 in HS. btrue. unfold Rsqr in *.
      match goal with X : r * r < (tminsep P - _) * _ |- _ => apply sq_lt_inv in X; [lra|lra] end.
    - right; right. unfold tooLarge3 in HS. btrue. unfold Rsqr in *.
      match goal with X : (tmaxsep P + _) * _ <= r * r |- _ => apply sq_le_inv in X; [lra|] end. auto.
    - exfalso. unfold noAllowedAngles in HS. rewrite (vs_type _ V), (maxcosphi_eq P PR), U0, cos_0 in HS.
      assert (T : Rltb 1 1 = false) by (apply Rltb_false; lra). rewrite T in HS. discriminate. }
  destruct O; [| |congruence]; simpl; unfold hSG.
  - rewrite (labS_side a b c), (labS_side a c b), (labS_side b a c), (labS_side b c a), (labS_side c a b),
      (labS_side c b a); rewrite ?Y1, ?Y2, ?Y3; lra.
  - rewrite (labS_side a b c), (labS_side a c b); rewrite ?Y1, ?Y2, ?Y3; lra.
Qed.
Lemma S_N12 c1 c2 : JS c1 -> JS c2 -> tooSmallS2 P (csize c2) = false ->
  isNode c2 /\
  (efin (snd (effSize (tmetric P) (getPos c1) (getPos c2) (Fin (csize c1)) (Fin (csize c2)))) <
   efin (fst (effSize (tmetric P) (getPos c1) (getPos c2) (Fin (csize c1)) (Fin (csize c2)))) -> isNode c1).
Proof.
  intros [J1 _] [J2 _] H. rewrite eff1S, eff2S.
  assert (P1 := csize_nonneg _ _ J1). assert (P2 := csize_nonneg _ _ J2).
  unfold tooSmallS2 in H. apply orb_false_iff in H as [H _]. apply Reqb_false in H.
  assert (0 < csize c2) by lra. split; [eapply csize_pos; eauto|].
  intro L. eapply csize_pos; eauto. lra.
Qed.
Lemma S_stop3 c : Ok O0 -> JS c -> csize c < thalfminsep P -> sumU3 (G (hSG O0) O0) (objs c) = 0.
Proof.
  intros _ [Jc _] HS. apply sumU3_0. intros x y z Hx Hy Hz.
  pose proof (co_within _ _ _ Jc Hx) as B1. pose proof (co_within _ _ _ Jc Hy) as B2.
  pose proof (co_within _ _ _ Jc Hz) as B3.
  pose proof (pdist_lip _ _ _ _ _ _ B1 B2) as L3. pose proof (pdist_lip _ _ _ _ _ _ B1 B3) as L2.
  pose proof (pdist_lip _ _ _ _ _ _ B2 B3) as L1. rewrite pdist_refl in L1, L2, L3.
  apply Rabs_le_inv in L1, L2, L3.
  assert (Y1 := pdist_sym (opos y) (opos x)). assert (Y2 := pdist_sym (opos z) (opos x)).
  assert (Y3 := pdist_sym (opos z) (opos y)).
  unfold thalfminsep in HS. simpl; unfold hSG.
  rewrite (labS_side x y z), (labS_side x z y), (labS_side y x z), (labS_side y z x), (labS_side z x y),
      (labS_side z y x); rewrite ?Y1, ?Y2, ?Y3; lra.
Qed.
Lemma S_N3 c : JS c -> thalfminsep P <= csize c -> isNode c.
Proof.
  intros [Jc _] H. eapply csize_pos; eauto. pose proof (vs_minsep _ V). unfold thalfminsep in H. lra.
Qed.
Lemma S_Dsym p q : distSq (tmetric P) p q = distSq (tmetric P) q p.
Proof. rewrite !distE, (pdist_sym q p). auto. Qed.
Lemma S_cyc p q r : ccw (tmetric P) (tcoord P) p q r = ccw (tmetric P) (tcoord P) q r p.
Proof. rewrite HE. apply ccw_cyc. Qed.
Hypothesis OkS : Ok O0 -> Ok O1.

Lemma autoSASG_ok cells : tminu P = 0 -> Ok O0 -> (forall c, In c cells -> JS c) ->
  addsL (evG phi te) (auto3Iters P cells) (sumU3 (G (hSG O0) O0) (objsL cells)).
Proof.
  intros U0 HOk HJ. apply (auto3_ok P (evG phi te) hSG Ok JS); auto.
  - apply JS_kids.
  - apply S_Dsym.
  - intro; apply S_cyc.
  - apply S_W0.
  - apply S_dec.
  - apply S_W12.
  - intros; apply S_stop12; auto.
  - apply S_N12.
  - apply S_W3.
  - apply S_stop3.
  - apply S_N3.
Qed.
Lemma cross12SASG_ok O cs1 cs2 : tminu P = 0 -> Ok O -> O <> O3 -> (forall c, In c cs1 -> JS c) ->
  (forall c, In c cs2 -> JS c) ->
  addsL (evG phi te) (cross12Iters P O cs1 cs2) (sum12 (G (hSG O) O) (objsL cs1) (objsL cs2)).
Proof.
  intros U0 HOk HO H1 H2. apply (cross12_ok P (evG phi te) hSG Ok JS); auto.
  - apply JS_kids.
  - apply S_Dsym.
  - intro; apply S_cyc.
  - apply S_W0.
  - apply S_dec.
  - apply S_W12.
  - intros; apply S_stop12; auto.
  - apply S_N12.
Qed.
Lemma cross3SASG_ok O cs1 cs2 cs3 : Ok O -> (forall c, In c cs1 -> JS c) ->
  (forall c, In c cs2 -> JS c) -> (forall c, In c cs3 -> JS c) ->
  addsL (evG phi te) (cross3Iters P O cs1 cs2 cs3) (sum3 (G (hSG O) O) (objsL cs1) (objsL cs2) (objsL cs3)).
Proof.
  intros HOk H1 H2 H3. apply (cross3_ok P (evG phi te) hSG Ok JS); auto.
  - apply JS_kids.
  - apply S_Dsym.
  - intro; apply S_cyc.
  - apply S_W0.
  - apply S_dec.
Qed.
End SASG.

Definition labS (P : tparams) (phi : Z -> R) (f : tfield) : obj -> obj -> obj -> R := labSG P phi (oval f).
Definition hS (P : tparams) (phi : Z -> R) (f : tfield) : order -> obj -> obj -> obj -> R :=
  hSG P phi (oval f).
Section SAS.
Variable P : tparams.
Variable phi : Z -> R.
Variable f : tfield.
Hypothesis V : validSAS P.
Hypothesis HE : tmetric P = Euclidean.
Hypothesis NS : noSlopSAS P.
Hypothesis PR : phiRange P.
Notation pd a b := (pdist (opos a) (opos b)).
Variable A : obj -> Prop.
Hypothesis Aw : forall o, A o -> wok f o.
Variable Ok : order -> Prop.
Hypothesis Aor : Ok O1 -> forall a b c, A a -> A b -> A c ->
  0 < pd b c -> 0 < pd a c -> 0 < pd a b ->
  ccw (tmetric P) (tcoord P) (opos a) (opos b) (opos c) = true \/
  ccw (tmetric P) (tcoord P) (opos a) (opos c) (opos b) = true.
Hypothesis Afl : Ok O3 -> tcoord P = Flat /\ forall a, A a -> pz (opos a) = 0.
Hypothesis OkS : Ok O0 -> Ok O1.

Lemma autoSAS_ok cells : tminu P = 0 -> Ok O0 -> (forall c, In c cells -> JS A Ok c) ->
  addsL (ev phi f) (auto3Iters P cells) (sumU3 (G (hS P phi f O0) O0) (objsL cells)).
Proof.
  intros. eapply (autoSASG_ok P phi (oval f) (tval f) (strictOf f)) with (A := A) (Ok := Ok); eauto.
  - apply oval_strict.
  - intros; apply wok_G; auto.
  - intros; eapply tval_sum; eauto.
Qed.
Lemma cross12SAS_ok O cs1 cs2 : tminu P = 0 -> Ok O -> O <> O3 -> (forall c, In c cs1 -> JS A Ok c) ->
  (forall c, In c cs2 -> JS A Ok c) ->
  addsL (ev phi f) (cross12Iters P O cs1 cs2) (sum12 (G (hS P phi f O) O) (objsL cs1) (objsL cs2)).
Proof.
  intros. eapply (cross12SASG_ok P phi (oval f) (tval f) (strictOf f)) with (A := A) (Ok := Ok); eauto.
  - apply oval_strict.
  - intros; apply wok_G; auto.
  - intros; eapply tval_sum; eauto.
Qed.
Lemma cross3SAS_ok O cs1 cs2 cs3 : Ok O -> (forall c, In c cs1 -> JS A Ok c) ->
  (forall c, In c cs2 -> JS A Ok c) -> (forall c, In c cs3 -> JS A Ok c) ->
  addsL (ev phi f) (cross3Iters P O cs1 cs2 cs3)
    (sum3 (G (hS P phi f O) O) (objsL cs1) (objsL cs2) (objsL cs3)).
Proof.
  intros. eapply (cross3SASG_ok P phi (oval f) (tval f) (strictOf f)) with (A := A) (Ok := Ok); eauto.
  - apply oval_strict.
  - intros; apply wok_G; auto.
  - intros; eapply tval_sum; eauto.
Qed.
End SAS.
