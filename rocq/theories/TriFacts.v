(** The three-point triangle algorithm with bin_slop=0 and bin_type='LogRUV' counts every
    triangle once. *)
From Coq Require Import Reals Lra Lia List ZArith Bool Permutation Psatz.
From Verif Require Import Base Geometry Tree Traverse Spec GeomFacts SumFacts TreeFacts TravFacts
  MetricFacts Cover Runs Corr3 TriCover TriStop SpecTri.
Import ListNotations.
Open Scope R_scope.

(** ** Trees with finite sizes *)
Definition finTree (c : cell) : Prop :=
  forall c', subcell c' c -> match c' with Node _ Inf _ _ => False | _ => True end.
Lemma builds_fin c sm m l t : builds c sm m false l t -> finTree t.
Proof.
  intros H t' Hs. destruct (builds_sub _ _ _ _ _ _ H t' Hs) as [l' H'].
  destruct H'; auto.
Qed.
Lemma buildField_fin F cat cells : fbrute F = false -> buildField F cat cells -> Forall finTree cells.
Proof.
  intros Hb [g [_ HF]]. induction HF; constructor; auto. rewrite Hb in H. eapply builds_fin; eauto.
Qed.
Lemma fin_node d s l r : finTree (Node d s l r) -> finTree l /\ finTree r.
Proof.
  intro H; split; intros c Hc; apply H; [apply sub_l|apply sub_r]; auto.
Qed.

(** [cellOK A c]: a cell of a tree built with min_size = 0, all of whose objects are in A. *)
Record cellOK (A : obj -> Prop) (c : cell) : Prop := mkco {
  co_wf : wf 0 c; co_fin : finTree c; co_A : forall o, In o (objs c) -> A o }.
Lemma cellOK_kids A d z l r : cellOK A (Node d z l r) -> cellOK A l /\ cellOK A r.
Proof.
  intros [H1 H2 H3]. destruct (wf_node _ _ _ _ _ H1), (fin_node _ _ _ _ H2).
  split; constructor; auto; intros o Ho; apply H3; simpl; apply in_or_app; auto.
Qed.
Lemma csize_fin A c : cellOK A c -> getSize c = Fin (csize c).
Proof.
  intros [H1 H2 H3]. unfold csize. destruct c as [| |d s l r]; simpl; auto.
  specialize (H2 _ (sub_refl _)). simpl in H2. destruct s; simpl; auto. contradiction.
Qed.
Lemma csize_nonneg A c : cellOK A c -> 0 <= csize c.
Proof.
  intro H. pose proof (size_nonneg 0 c (wf_ok _ _ (co_wf _ _ H))) as S.
  rewrite (csize_fin _ _ H) in S. exact S.
Qed.
Lemma csize_pos A c : cellOK A c -> 0 < csize c -> isNode c.
Proof. intros H S. unfold csize in S. destruct c; simpl in *; auto; lra. Qed.
Lemma co_within A c o : cellOK A c -> In o (objs c) -> pdist (getPos c) (opos o) <= csize c.
Proof.
  intros H Ho.
  pose proof (member_within 0 c o _ (Rle_refl 0) (wf_ok _ _ (co_wf _ _ H)) Ho (csize_fin _ _ H)). lra.
Qed.
Lemma pdist_eq p q : pdist p q <= 0 -> q = p.
Proof.
  intro H. pose proof (pdist_nonneg p q). assert (E : pdist p q = 0) by lra.
  apply pdist_0 in E. auto.
Qed.
Lemma co_centre A c o : cellOK A c -> csize c = 0 -> In o (objs c) -> opos o = getPos c.
Proof.
  intros H S Ho. pose proof (co_within _ _ _ H Ho). apply pdist_eq. lra.
Qed.

(** ** Metrics whose cell sizes need no correction *)
Record plainM (M : metric) : Prop := mkpl {
  pl_sym : forall p q, distSq M p q = distSq M q p;
  pl_eff : forall p q a b, effSize M p q (Fin a) (Fin b) = (Fin a, Fin b);
  pl_lip : forall p1 p2 q1 q2 s1 s2, pdist p1 q1 <= s1 -> pdist p2 q2 <= s2 ->
    Rabs (mdist M q1 q2 - mdist M p1 p2) <= s1 + s2;
  pl_self : forall p, mdist M p p = 0 }.
Lemma plain_euclid : plainM Euclidean.
Proof.
  constructor.
  - intros. simpl. unfold normSq, psub; simpl; ring.
  - auto.
  - intros p1 p2 q1 q2 s1 s2 H1 H2. destruct (lip_euclid p1 p2 q1 q2 s1 s2 I I H1 H2) as [e1 [e2 [E HL]]].
    simpl in E. injection E; intros; subst; auto.
  - intro p. unfold mdist. simpl. unfold normSq, psub; simpl.
    replace (_ + _ + _) with 0 by ring. apply sqrt_0.
Qed.
Lemma mdist_nn M p q : 0 <= mdist M p q. Proof. apply sqrt_pos. Qed.
Lemma mdist_sq M p q : distSq M p q = mdist M p q * mdist M p q.
Proof. unfold mdist. symmetry. apply sqrt_sqrt. apply distSq_nonneg. Qed.

(** ** The value of a labelled triangle *)
Definition oval (f : tfield) (a b c : obj) (d1 d2 d3 u v : R) : R :=
  let www := ow a * ow b * ow c in
  match f with
  | TNtri => 1
  | TWeight => www
  | TD1 => www * d1 | TLogD1 => www * ln d1
  | TD2 => www * d2 | TLogD2 => www * ln d2
  | TD3 => www * d3 | TLogD3 => www * ln d3
  | TU => www * u
  | TV => www * v
  | TZeta => (ow a * okappa a) * (ow b * okappa b) * (ow c * okappa c)
  end.
Definition wok (f : tfield) (o : obj) : Prop := match f with TNtri => 0 < ow o | _ => 0 <= ow o end.

Lemma oval_w0 f a b c d1 d2 d3 u v : f <> TNtri -> ow a = 0 \/ ow b = 0 \/ ow c = 0 ->
  oval f a b c d1 d2 d3 u v = 0.
Proof.
  intros Hf [E|[E|E]]; destruct f; try congruence; simpl; rewrite E; ring.
Qed.

Lemma sum3_prod3 (fa fb fc : obj -> R) l1 l2 l3 :
  sum3 (fun a b c => fa a * fb b * fc c) l1 l2 l3 = sumR fa l1 * sumR fb l2 * sumR fc l3.
Proof.
  unfold sum3. rewrite Rmult_assoc, <- sumR_scal_r. apply sumR_ext; intros a _.
  rewrite <- sumR_scal_r, <- sumR_scal. apply sumR_ext; intros b _.
  rewrite <- !sumR_scal. apply sumR_ext; intros; ring.
Qed.
Lemma sum3_scal k g l1 l2 l3 : sum3 (fun a b c => k * g a b c) l1 l2 l3 = k * sum3 g l1 l2 l3.
Proof.
  unfold sum3. rewrite <- sumR_scal. apply sumR_ext; intros. rewrite <- sumR_scal.
  apply sumR_ext; intros. apply sumR_scal.
Qed.
(** What an event between cells of size 0 adds is the sum over the objects in them. *)
Lemma tval_sum A f c1 c2 c3 d1 d2 d3 u v k : cellOK A c1 -> cellOK A c2 -> cellOK A c3 ->
  tval f (mkev3 c1 c2 c3 d1 d2 d3 u v k) =
  sum3 (fun a b c => oval f a b c d1 d2 d3 u v) (objs c1) (objs c2) (objs c3).
Proof.
  intros J1 J2 J3.
  assert (W1 := wf_ok _ _ (co_wf _ _ J1)). assert (W2 := wf_ok _ _ (co_wf _ _ J2)).
  assert (W3 := wf_ok _ _ (co_wf _ _ J3)).
  unfold tval, oval. cbn [tc1 tc2 tc3 td1 td2 td3 tu tv].
  assert (EW : getW c1 * getW c2 * getW c3 =
               sum3 (fun a b c => ow a * ow b * ow c) (objs c1) (objs c2) (objs c3)).
  { rewrite (sum3_prod3 ow ow ow), (ok_w _ _ W1), (ok_w _ _ W2), (ok_w _ _ W3). auto. }
  assert (EX : forall x, sum3 (fun a b c => ow a * ow b * ow c * x) (objs c1) (objs c2) (objs c3) =
               getW c1 * getW c2 * getW c3 * x).
  { intro x. rewrite EW, Rmult_comm, <- sum3_scal. apply sum3_ext. intros; ring. }
  destruct f; auto.
  + rewrite (ok_n _ _ W1), (ok_n _ _ W2), (ok_n _ _ W3).
    rewrite (sum3_ext _ (fun _ _ _ => 1 * 1 * 1)) by (intros; ring).
    rewrite (sum3_prod3 (fun _ => 1) (fun _ => 1) (fun _ => 1)), !sumR_const. ring.
  + rewrite (ok_wk _ _ W1), (ok_wk _ _ W2), (ok_wk _ _ W3).
    rewrite (sum3_prod3 (fun o => ow o * okappa o) (fun o => ow o * okappa o) (fun o => ow o * okappa o)).
    auto.
Qed.
Definition strictOf (f : tfield) : bool := match f with TNtri => true | _ => false end.
Definition wokG (strict : bool) (o : obj) : Prop := if strict then 0 < ow o else 0 <= ow o.
Lemma wok_G f o : wok f o -> wokG (strictOf f) o.
Proof. destruct f; auto. Qed.
Lemma strict_f f : strictOf f = false -> f <> TNtri.
Proof. destruct f; discriminate. Qed.

(** The sections below are about any array: [ov] is what a labelled triangle adds (given its
    sides, u and v), [te] what an event adds. *)

Section RUVG.
Variable P : tparams.
Variable phi : Z -> R.
Variable ov : obj -> obj -> obj -> R -> R -> R -> R -> R -> R.
Variable te : event3 -> R.
Variable strict : bool.
Hypothesis ov_w0 : strict = false -> forall a b c d1 d2 d3 u v, ow a = 0 \/ ow b = 0 \/ ow c = 0 ->
  ov a b c d1 d2 d3 u v = 0.
Notation M := (tmetric P).
Notation md a b := (mdist (tmetric P) (opos a) (opos b)).

Hypothesis HB : tbt P = LogRUV.
Hypothesis HM : plainM (tmetric P).
Hypothesis Hminsep : 0 < tminsep P.
Hypothesis Hmaxsep : 0 <= tmaxsep P.
Hypothesis Hminu : 0 <= tminu P <= 1.
Hypothesis Hmaxu : 0 <= tmaxu P <= 1.
Hypothesis Hminv : tminv P = 0.
Hypothesis Hmaxv : 0 <= tmaxv P.
Hypothesis Hpt : tmaxv P < 1 -> tmetric P = Euclidean.
Hypothesis Hb : tb P = 0.
Hypothesis Hbu : tbu P = 0.
Hypothesis Hbv : tbv P = 0.

Definition labG (a b c : obj) : R :=
  if Rltb 0 (md a b) then
    match rangeRUV P O3 (opos a) (opos b) (opos c) (md b c) (md a c) (md a b) with
    | Some (u, v, k) => phi k * ov a b c (md b c) (md a c) (md a b) u v
    | None => 0
    end
  else 0.
Definition hG (O : order) (a b c : obj) : R :=
  match O with
  | O0 => if Req_EM_T (md b c) (md a c) then 1 / 2 * labG a b c else labG a b c
  | _ => labG a b c
  end.
Definition evG (e : event3) : R := phi (tk e) * te e.

Lemma md_sym a b : md a b = md b a.
Proof. unfold mdist. rewrite (pl_sym _ HM). auto. Qed.

Lemma range_inR O p1 p2 p3 d1 d2 d3 x : ordAny O = true -> 0 < d3 ->
  rangeRUV P O p1 p2 p3 d1 d2 d3 = Some x -> inR P d1 d2 d3.
Proof.
  intros HO H3 H. unfold rangeRUV in H. rewrite HO in H. cbn [andb] in H.
  destruct (negb (Rleb d2 d1 && Rleb d3 d2)) eqn:A1; [discriminate|].
  apply negb_false_iff in A1. btrue.
  destruct (Rltb d2 (tminsep P) || Rleb (tmaxsep P) d2) eqn:A2; [discriminate|].
  destruct (Rltb (d3 / d2) (tminu P) || Rleb (tmaxu P) (d3 / d2)) eqn:A3; [discriminate|].
  destruct (Rltb ((d1 - d2) / d3) (tminv P) || Rleb (tmaxv P) ((d1 - d2) / d3)) eqn:A4; [discriminate|].
  clear H. btrue. unfold inR.
  assert (E1 : d3 = d3 / d2 * d2) by (field; lra).
  assert (E2 : d1 - d2 = (d1 - d2) / d3 * d3) by (field; lra).
  assert (tminu P * d2 <= d3 / d2 * d2) by (apply Rmult_le_compat_r; lra).
  assert (d3 / d2 * d2 < tmaxu P * d2) by (apply Rmult_lt_compat_r; lra).
  assert (tminv P * d3 <= (d1 - d2) / d3 * d3) by (apply Rmult_le_compat_r; lra).
  assert ((d1 - d2) / d3 * d3 < tmaxv P * d3) by (apply Rmult_lt_compat_r; lra).
  repeat split; lra.
Qed.
Lemma lab_out a b c : ~ inR P (md b c) (md a c) (md a b) -> labG a b c = 0.
Proof.
  intro H. unfold labG. destruct (Rltb 0 (md a b)) eqn:E; auto. apply Rltb_true in E.
  destruct rangeRUV as [[[u v] k]|] eqn:ER; auto. exfalso. apply H.
  eapply range_inR; [|apply E|apply ER]. auto.
Qed.
Lemma h_out O a b c : ~ inR P (md b c) (md a c) (md a b) -> hG O a b c = 0.
Proof.
  intro H. unfold hG. rewrite lab_out by auto. destruct O; auto. destruct Req_EM_T; lra.
Qed.
Lemma bad_G O a b c : bad P O (md b c) (md a c) (md a b) -> G (hG O) O a b c = 0.
Proof.
  assert (S1 := md_sym b a). assert (S2 := md_sym c a). assert (S3 := md_sym c b).
  destruct O; simpl; intro H.
  - destruct H as [A1 [A2 [A3 [A4 [A5 A6]]]]].
    rewrite (lab_out a b c), (lab_out a c b), (lab_out b a c), (lab_out b c a), (lab_out c a b),
      (lab_out c b a); rewrite ?S1, ?S2, ?S3; auto.
    repeat destruct Req_EM_T; lra.
  - destruct H as [A1 A2]. rewrite (lab_out a b c), (lab_out a c b); rewrite ?S1, ?S2, ?S3; auto. lra.
  - apply lab_out; auto.
Qed.
Lemma lab_w0 a b c : strict = false -> ow a = 0 \/ ow b = 0 \/ ow c = 0 -> labG a b c = 0.
Proof.
  intros Hf H. unfold labG. destruct Rltb; auto. destruct rangeRUV as [[[u v] k]|]; auto.
  rewrite ov_w0; auto. ring.
Qed.
Lemma G_w0 O a b c : strict = false -> ow a = 0 \/ ow b = 0 \/ ow c = 0 -> G (hG O) O a b c = 0.
Proof.
  intros Hf H. destruct O; simpl; rewrite !lab_w0; auto; try tauto;
    repeat destruct Req_EM_T; lra.
Qed.

(** Sorted centres: the labelling (a,b,c) is the right one. *)
Lemma G_sorted O a b c : (O = O0 -> md b c = md a c -> labG b a c = labG a b c) ->
  pre3 O (md b c) (md a c) (md a b) ->
  G (hG O) O a b c = labG a b c.
Proof.
  intros HT HO.
  assert (S1 := md_sym b a). assert (S2 := md_sym c a). assert (S3 := md_sym c b).
  assert (N1 : O <> O3 -> labG a c b = 0).
  { intro N. apply lab_out. rewrite S3. unfold inR. intro I.
    assert (md a b <= md a c) by (destruct O; simpl in HO; congruence || lra). nra. }
  destruct O; simpl in *.
  - assert (N2 : labG b c a = 0) by (apply lab_out; rewrite ?S1, ?S2, ?S3; unfold inR; intro I; nra).
    assert (N3 : labG c a b = 0) by (apply lab_out; rewrite ?S1, ?S2, ?S3; unfold inR; intro I; nra).
    assert (N4 : labG c b a = 0) by (apply lab_out; rewrite ?S1, ?S2, ?S3; unfold inR; intro I; nra).
    rewrite N1, N2, N3, N4 by discriminate.
    destruct (Req_EM_T (md b c) (md a c)) as [E|E].
    + rewrite (HT eq_refl E). repeat destruct Req_EM_T; lra.
    + assert (N5 : labG b a c = 0) by (apply lab_out; rewrite ?S1, ?S2, ?S3; unfold inR; intro I; lra).
      rewrite N5. repeat destruct Req_EM_T; lra.
  - rewrite N1 by discriminate. lra.
  - auto.
Qed.

(** ** singleBin at zero slop *)
Lemma singleRUV_none d1sq d2sq d3sq s1 s2 s3 : 0 <= s1 -> 0 <= s2 -> 0 <= s3 ->
  singleRUV P d1sq d2sq d3sq s1 s2 s3 = None -> s1 = 0 /\ s2 = 0 /\ s3 = 0.
Proof.
  intros H1 H2 H3 H. unfold singleRUV in H. rewrite Hb, Hbu, Hbv in H.
  destruct (Rltb 0 s3) eqn:E3.
  - exfalso. cbn [andb] in H. replace (sqrt d2sq * 0) with 0 in H by ring. rewrite E3 in H.
    cbn [orb andb negb] in H. discriminate.
  - apply Rltb_false in E3. assert (s3 = 0) by lra. cbn [andb] in H.
    destruct (Rltb 0 s1) eqn:E1.
    + exfalso. cbn [orb andb] in H. rewrite Rmult_0_l, E1 in H. rewrite !orb_true_r in H.
      cbn [orb] in H. discriminate.
    + apply Rltb_false in E1. destruct (Rltb 0 s2) eqn:E2.
      * exfalso. cbn [orb andb] in H. apply Rltb_true in E2.
        match type of H with context [Rltb (d2sq * (0 * 0)) ?x] =>
          assert (T : Rltb (d2sq * (0 * 0)) x = true) end.
        { apply Rltb_true. unfold Rsqr. nra. }
        rewrite T in H. rewrite !orb_true_r in H. cbn [orb] in H. discriminate.
      * apply Rltb_false in E2. lra.
Qed.
Lemma singleRUV_some d1sq d2sq d3sq s1 s2 s3 a b c : 0 <= s1 -> 0 <= s2 -> 0 <= s3 ->
  0 <= d2sq -> 0 <= d3sq ->
  singleRUV P d1sq d2sq d3sq s1 s2 s3 = Some (a, b, c) ->
  (a = true -> 0 < s1) /\ (b = true -> 0 < s2) /\ (c = true -> 0 < s3) /\ a || b || c = true.
Proof.
  intros H1 H2 H3 Hd2 Hd3 H. unfold singleRUV in H.
  match type of H with (if ?x then _ else _) = _ => destruct x eqn:E end.
  - apply andb_true_iff in E as [E _]. apply Rltb_true in E.
    injection H; intros <- <- <-. clear H.
    assert (0 <= 7 / 10 * Rsqr s3 * d3sq).
    { apply Rmult_le_pos; auto. pose proof (Rle_0_sqr s3). lra. }
    split; [|split; [|split]]; auto.
    + intro T. apply Rltb_true in T. destruct (Req_dec s1 0) as [Z|Z]; [|lra].
      rewrite Z in T. unfold Rsqr in T at 2. lra.
    + intro T. apply Rltb_true in T. destruct (Req_dec s2 0) as [Z|Z]; [|lra].
      rewrite Z in T. unfold Rsqr in T at 2. lra.
    + rewrite !orb_true_r; auto.
  - destruct (Rltb 0 s1 || Rltb 0 s2) eqn:E12; [|discriminate].
    match type of H with (if ?x then _ else _) = _ => destruct x eqn:ES end; [|discriminate].
    clear ES. injection H; intros <- <- <-. clear H.
    assert (HP : 0 < s1 \/ 0 < s2).
    { apply orb_true_iff in E12 as [T|T]; apply Rltb_true in T; auto. }
    split; [|split; [|split]]; try discriminate.
    + intro T. apply orb_true_iff in T as [T|T].
      * apply andb_true_iff in T as [T _]. apply Rltb_true in T; auto.
      * apply Rleb_true in T. lra.
    + intro T. apply orb_true_iff in T as [T|T].
      * apply andb_true_iff in T as [T _]. apply Rltb_true in T; auto.
      * apply Rleb_true in T. lra.
    + rewrite orb_false_r. destruct (Rle_dec s1 s2) as [L|L].
      * apply Rleb_true in L. rewrite L. rewrite !orb_true_r. auto.
      * assert (L' : s2 <= s1) by lra. apply Rleb_true in L'. rewrite L'. rewrite !orb_true_r. auto.
Qed.

(** ** Decisions *)
Variable A : obj -> Prop.
Hypothesis Aw : forall o, A o -> wokG strict o.
Variable Ok : order -> Prop.
Hypothesis Tie : Ok O0 -> forall a b c, A a -> A b -> A c -> md b c = md a c -> labG b a c = labG a b c.

Notation J := (cellOK A).
Hypothesis te_ok : forall c1 c2 c3 d1 d2 d3 u v k, J c1 -> J c2 -> J c3 ->
  csize c1 = 0 -> csize c2 = 0 -> csize c3 = 0 ->
  te (mkev3 c1 c2 c3 d1 d2 d3 u v k) =
  sum3 (fun a b c => ov a b c d1 d2 d3 u v) (objs c1) (objs c2) (objs c3).

Lemma J_w0 c o : J c -> getW c = 0 -> In o (objs c) -> strict = false /\ ow o = 0.
Proof.
  intros H W Ho. rewrite (ok_w _ _ (wf_ok _ _ (co_wf _ _ H))) in W.
  unfold wokG in Aw. destruct strict eqn:Ef.
  - exfalso. assert (0 < sumR ow (objs c)); [|lra]. apply sumR_pos.
    + intro E; rewrite E in Ho; destruct Ho.
    + intros x Hx. apply (Aw x). apply (co_A _ _ H); auto.
  - split; [auto|].
    assert (NN : forall x, In x (objs c) -> 0 <= ow x)
      by (intros x Hx; apply (Aw x); apply (co_A _ _ H); auto).
    clear - W Ho NN; induction (objs c) as [|y t IH]; [destruct Ho|]; simpl in W;
    assert (0 <= ow y) by (apply NN; left; auto);
    assert (0 <= sumR ow t) by (apply sumR_nonneg; intros; apply NN; right; auto);
    destruct Ho as [<-|Ho]; [lra|]; apply IH; auto; [lra|intros; apply NN; right; auto].
Qed.

Lemma W0_ok O c1 c2 c3 : Ok O -> J c1 -> J c2 -> J c3 ->
  getW c1 = 0 \/ getW c2 = 0 \/ getW c3 = 0 ->
  sum3 (G (hG O) O) (objs c1) (objs c2) (objs c3) = 0.
Proof.
  intros _ J1 J2 J3 [W|[W|W]]; apply sum3_0; intros a b c Ha Hb' Hc.
  - destruct (J_w0 c1 a J1 W Ha). apply G_w0; auto.
  - destruct (J_w0 c2 b J2 W Hb'). apply G_w0; auto.
  - destruct (J_w0 c3 c J3 W Hc). apply G_w0; auto.
Qed.
Lemma W12_ok O c1 c2 : Ok O -> O <> O3 -> J c1 -> J c2 -> getW c1 = 0 \/ getW c2 = 0 ->
  sum12 (G (hG O) O) (objs c1) (objs c2) = 0.
Proof.
  intros _ _ J1 J2 [W|W]; apply sum12_0; intros a b c Ha Hb' Hc.
  - destruct (J_w0 c1 a J1 W Ha). apply G_w0; auto.
  - destruct (J_w0 c2 b J2 W Hb'). apply G_w0; auto.
Qed.
Lemma sumU3_0 g l : (forall a b c, In a l -> In b l -> In c l -> g a b c = 0) -> sumU3 g l = 0.
Proof.
  induction l as [|x t IH]; intro H; simpl; auto.
  rewrite IH by (intros; apply H; right; auto).
  rewrite sumR_0; [lra|]. intros [y z] Hq. apply in_upairs in Hq as [? ?]. simpl. apply H; simpl; auto.
Qed.
Lemma W3_ok c : Ok O0 -> J c -> getW c = 0 -> sumU3 (G (hG O0) O0) (objs c) = 0.
Proof.
  intros _ Jc W. apply sumU3_0. intros a b d Ha Hb' Hc. destruct (J_w0 c a Jc W Ha). apply G_w0; auto.
Qed.

Section OneTriple.
Variables c1 c2 c3 : cell.
Hypothesis J1 : J c1. Hypothesis J2 : J c2. Hypothesis J3 : J c3.
Notation D1 := (mdist M (getPos c2) (getPos c3)).
Notation D2 := (mdist M (getPos c1) (getPos c3)).
Notation D3 := (mdist M (getPos c1) (getPos c2)).
Lemma stop_bad O a b c : pre3 O D1 D2 D3 ->
  stopRUV P O (D1 * D1) (D2 * D2) (D3 * D3) (csize c1) (csize c2) (csize c3) = true ->
  In a (objs c1) -> In b (objs c2) -> In c (objs c3) ->
  bad P O (md b c) (md a c) (md a b).
Proof.
  intros HO HS Ha Hb' Hc.
  pose proof (co_within _ _ _ J1 Ha) as B1. pose proof (co_within _ _ _ J2 Hb') as B2.
  pose proof (co_within _ _ _ J3 Hc) as B3.
  apply (stopRUV_sound P Hminsep (proj1 Hminu) Hmaxu (proj2 Hminu) D1 D2 D3 (csize c1) (csize c2) (csize c3));
    try (apply mdist_nn); try (eapply csize_nonneg; eauto); try (apply (pl_lip _ HM); auto); auto.
  - lra.
  - intros Hv HL. specialize (Hpt Hv). rewrite Hpt in *.
    change (mdist Euclidean) with pdist in *.
    apply (stop_maxv P O (getPos c1) (getPos c2) (getPos c3) (opos a) (opos b) (opos c)
             (csize c1) (csize c2) (csize c3)); auto.
Qed.
End OneTriple.

Lemma pre_pre3 O c1 c2 c3 : pre P O c1 c2 c3 ->
  pre3 O (mdist M (getPos c2) (getPos c3)) (mdist M (getPos c1) (getPos c3))
         (mdist M (getPos c1) (getPos c2)).
Proof.
  unfold pre. rewrite HB. destruct O; simpl; auto; unfold mdist; intros.
  - split; apply sqrt_le_1_alt; tauto.
  - apply sqrt_le_1_alt; auto.
Qed.

Lemma rangeO O p1 p2 p3 d1 d2 d3 : pre3 O d1 d2 d3 ->
  rangeRUV P O p1 p2 p3 d1 d2 d3 = rangeRUV P O3 p1 p2 p3 d1 d2 d3.
Proof.
  intro H. destruct O; auto. simpl in H. unfold rangeRUV. cbn [ordAny andb].
  destruct H as [H1 H2]. apply Rleb_true in H1, H2. rewrite H1, H2. auto.
Qed.

Lemma dec_ok O c1 c2 c3 : Ok O -> J c1 -> J c2 -> J c3 -> pre P O c1 c2 c3 ->
  match decide3 P O c1 c2 c3 (distSq M (getPos c2) (getPos c3)) (distSq M (getPos c1) (getPos c3))
          (distSq M (getPos c1) (getPos c2)) with
  | Drop3 => sum3 (G (hG O) O) (objs c1) (objs c2) (objs c3) = 0
  | Direct3 u v k =>
      evG (mkev3 c1 c2 c3 (sqrt (distSq M (getPos c2) (getPos c3)))
            (sqrt (distSq M (getPos c1) (getPos c3))) (sqrt (distSq M (getPos c1) (getPos c2))) u v k)
      = sum3 (G (hG O) O) (objs c1) (objs c2) (objs c3)
  | Split3 a b c => (a = true -> isNode c1) /\ (b = true -> isNode c2) /\ (c = true -> isNode c3) /\
      a || b || c = true
  end.
Proof.
  intros HOk J1 J2 J3 HP. apply pre_pre3 in HP.
  assert (P1 := csize_nonneg _ _ J1). assert (P2 := csize_nonneg _ _ J2). assert (P3 := csize_nonneg _ _ J3).
  unfold decide3. rewrite HB. rewrite !mdist_sq.
  rewrite !sqrt_square by apply mdist_nn.
  set (D1 := mdist M (getPos c2) (getPos c3)) in *.
  set (D2 := mdist M (getPos c1) (getPos c3)) in *.
  set (D3 := mdist M (getPos c1) (getPos c2)) in *.
  destruct (stopRUV P O (D1 * D1) (D2 * D2) (D3 * D3) (csize c1) (csize c2) (csize c3)) eqn:ES.
  { apply sum3_0. intros a b c Ha Hb' Hc. apply bad_G. apply (stop_bad c1 c2 c3 J1 J2 J3 O a b c); auto. }
  destruct (singleRUV P (D1 * D1) (D2 * D2) (D3 * D3) (csize c1) (csize c2) (csize c3)) as [[[x y] z]|] eqn:EB.
  { apply singleRUV_some in EB; auto; try apply Rle_0_sqr.
    destruct EB as [Ex [Ey [Ez Eo]]]. repeat split; auto; intro T; eapply csize_pos; eauto. }
  apply singleRUV_none in EB; auto. destruct EB as [Z1 [Z2 Z3]].
  assert (Q1 : forall a, In a (objs c1) -> opos a = getPos c1) by (intros; eapply co_centre; eauto).
  assert (Q2 : forall a, In a (objs c2) -> opos a = getPos c2) by (intros; eapply co_centre; eauto).
  assert (Q3 : forall a, In a (objs c3) -> opos a = getPos c3) by (intros; eapply co_centre; eauto).
  assert (D3pos : 0 < D3).
  { assert (0 <= D3) by apply mdist_nn. destruct (Req_dec D3 0) as [E|E]; [|lra]. exfalso.
    revert ES. unfold stopRUV. rewrite Z1, Z2, Z3, E.
    assert (T : Reqb 0 0 = true) by (unfold Reqb; destruct Req_EM_T; auto).
    assert (T' : Reqb (0 * 0) 0 = true) by (unfold Reqb; destruct Req_EM_T; auto; lra).
    rewrite T, T'. cbn [andb]. rewrite orb_true_r. discriminate. }
  assert (GS : forall a b c, In a (objs c1) -> In b (objs c2) -> In c (objs c3) ->
    G (hG O) O a b c =
    match rangeRUV P O3 (getPos c1) (getPos c2) (getPos c3) D1 D2 D3 with
    | Some (u, v, k) => phi k * ov a b c D1 D2 D3 u v | None => 0 end).
  { intros a b c Ha Hb' Hc. rewrite G_sorted.
    - unfold labG. rewrite (Q1 a), (Q2 b), (Q3 c) by auto. fold D1 D2 D3.
      apply Rltb_true in D3pos. rewrite D3pos. auto.
    - intros -> E. apply Tie; auto; [apply (co_A _ _ J1)|apply (co_A _ _ J2)|apply (co_A _ _ J3)]; auto.
    - rewrite (Q1 a), (Q2 b), (Q3 c) by auto. auto. }
  rewrite rangeO by auto.
  destruct (rangeRUV P O3 (getPos c1) (getPos c2) (getPos c3) D1 D2 D3) as [[[u v] k]|] eqn:ER.
  - rewrite (sum3_ext _ _ _ _ _ GS). rewrite sum3_scal. unfold evG. cbn [tk]. f_equal.
    apply te_ok; auto.
  - apply sum3_0. intros a b c Ha Hb' Hc. rewrite GS; auto.
Qed.

(** ** process12 and process3 *)
Lemma eff1 c1 c2 : efin (fst (effSize M (getPos c1) (getPos c2) (Fin (csize c1)) (Fin (csize c2)))) = csize c1.
Proof. rewrite (pl_eff _ HM). auto. Qed.
Lemma eff2 c1 c2 : efin (snd (effSize M (getPos c1) (getPos c2) (Fin (csize c1)) (Fin (csize c2)))) = csize c2.
Proof. rewrite (pl_eff _ HM). auto. Qed.

Lemma stop12_ok O c1 c2 : Ok O -> O <> O3 -> J c1 -> J c2 -> stop12 P O c1 c2 ->
  sum12 (G (hG O) O) (objs c1) (objs c2) = 0.
Proof.
  intros _ HO J1 J2 HS. apply sum12_0. intros a b c Ha Hb' Hc. apply bad_G.
  assert (P1 := csize_nonneg _ _ J1). assert (P2 := csize_nonneg _ _ J2).
  pose proof (co_within _ _ _ J1 Ha) as B1. pose proof (co_within _ _ _ J2 Hb') as B2.
  pose proof (co_within _ _ _ J2 Hc) as B3.
  pose proof (pl_lip _ HM _ _ _ _ _ _ B1 B2) as L3. pose proof (pl_lip _ HM _ _ _ _ _ _ B1 B3) as L2.
  pose proof (pl_lip _ HM _ _ _ _ _ _ B2 B3) as L1. rewrite (pl_self _ HM) in L1.
  apply Rabs_le_inv in L1, L2, L3.
  pose proof (mdist_nn M (opos b) (opos c)). pose proof (mdist_nn M (opos a) (opos c)).
  pose proof (mdist_nn M (opos a) (opos b)). pose proof (mdist_nn M (getPos c1) (getPos c2)).
  unfold stop12 in HS. rewrite eff1, eff2, mdist_sq in HS.
  set (r := mdist M (getPos c1) (getPos c2)) in *.
  set (e1 := mdist M (opos b) (opos c)) in *. set (e2 := mdist M (opos a) (opos c)) in *.
  set (e3 := mdist M (opos a) (opos b)) in *. set (s1 := csize c1) in *. set (s2 := csize c2) in *.
  assert (KS : e1 < tminsep P * tminu P -> bad P O e1 e2 e3).
  { intro K.
    assert (Q : forall m s, tminu P * m <= s -> tminsep P <= m -> e1 < s).
    { intros m s Q1 Q2. assert (tminu P * tminsep P <= tminu P * m) by (apply Rmult_le_compat_l; lra). lra. }
    assert (X : forall x y z, inR P x y z -> tminu P * y <= z /\ tminsep P <= y /\ z <= y <= x)
      by (unfold inR; intros; lra).
    destruct O; simpl; repeat split; intro I; apply X in I; destruct I as [I1 [I2 I3]];
      specialize (Q _ _ I1 I2); lra. }
  destruct HS as [HS|[HS|[HS|HS]]].
  - unfold tooSmallS2 in HS. apply orb_true_iff in HS as [HS|HS].
    + apply Reqb_true in HS. assert (e1 = 0) by lra. unfold bad, inR. destruct O; lra.
    + apply Rltb_true in HS. apply KS. unfold thalfminsep in HS. lra.
  - unfold tooSmall3 in HS. btrue. unfold Rsqr in *. apply sq_lt_inv in H4; [|lra].
    unfold bad, inR. destruct O; lra.
  - unfold tooLarge3 in HS. btrue. unfold Rsqr in *. apply sq_le_inv in H4; [|lra].
    unfold bad, inR. destruct O; lra.
  - unfold noAllowedAngles in HS. rewrite HB in HS. btrue. unfold Rsqr in *.
    apply sq_lt_inv in H3; [|lra].
    assert (2 * s2 + tminu P * (s1 + s2) < tminu P * r).
    { apply sq_lt_inv; [apply Rmult_le_pos; lra|].
      replace (tminu P * r * (tminu P * r)) with (tminu P * tminu P * (r * r)) by ring. auto. }
    assert (M2 : tminu P * (r - s1 - s2) <= tminu P * e2) by (apply Rmult_le_compat_l; lra).
    assert (M3 : tminu P * (r - s1 - s2) <= tminu P * e3) by (apply Rmult_le_compat_l; lra).
    assert (K2 : e1 < tminu P * e2) by lra. assert (K3 : e1 < tminu P * e3) by lra.
    assert (e1 < e2) by nra. assert (e1 < e3) by nra.
    unfold bad, inR. destruct O; lra.
Qed.
Lemma N12_ok c1 c2 : J c1 -> J c2 -> tooSmallS2 P (csize c2) = false ->
  isNode c2 /\
  (efin (snd (effSize M (getPos c1) (getPos c2) (Fin (csize c1)) (Fin (csize c2)))) <
   efin (fst (effSize M (getPos c1) (getPos c2) (Fin (csize c1)) (Fin (csize c2)))) -> isNode c1).
Proof.
  intros J1 J2 H. rewrite eff1, eff2.
  assert (P1 := csize_nonneg _ _ J1). assert (P2 := csize_nonneg _ _ J2).
  unfold tooSmallS2 in H. apply orb_false_iff in H as [H _]. apply Reqb_false in H.
  assert (0 < csize c2) by lra. split; [eapply csize_pos; eauto|].
  intro L. eapply csize_pos; eauto. lra.
Qed.
Lemma stop3_ok c : Ok O0 -> J c -> csize c < thalfminsep P -> sumU3 (G (hG O0) O0) (objs c) = 0.
Proof.
  intros _ Jc HS. apply sumU3_0. intros x y z Hx Hy Hz. apply bad_G.
  pose proof (co_within _ _ _ Jc Hx) as B1. pose proof (co_within _ _ _ Jc Hy) as B2.
  pose proof (co_within _ _ _ Jc Hz) as B3.
  pose proof (pl_lip _ HM _ _ _ _ _ _ B1 B2) as L3. pose proof (pl_lip _ HM _ _ _ _ _ _ B1 B3) as L2.
  pose proof (pl_lip _ HM _ _ _ _ _ _ B2 B3) as L1. rewrite (pl_self _ HM) in L1, L2, L3.
  apply Rabs_le_inv in L1, L2, L3. unfold thalfminsep in HS. unfold bad, inR. lra.
Qed.
Lemma N3_ok c : J c -> thalfminsep P <= csize c -> isNode c.
Proof. intros Jc H. eapply csize_pos; eauto. unfold thalfminsep in H. lra. Qed.

Lemma SAS_no (Q : Prop) : tbt P = LogSAS -> Q.
Proof. rewrite HB. discriminate. Qed.
Lemma autoRUVG_ok cells : Ok O0 -> (forall c, In c cells -> J c) ->
  addsL evG (auto3Iters P cells) (sumU3 (G (hG O0) O0) (objsL cells)).
Proof.
  intros HOk HJ. apply (auto3_ok P evG hG Ok J); auto; try (intro Z; apply (SAS_no _ Z)).
  - apply cellOK_kids.
  - apply (pl_sym _ HM).
  - apply W0_ok.
  - apply dec_ok.
  - apply W12_ok.
  - apply stop12_ok.
  - apply N12_ok.
  - apply W3_ok.
  - apply stop3_ok.
  - apply N3_ok.
Qed.
Lemma cross12RUVG_ok O cs1 cs2 : Ok O -> O <> O3 -> (forall c, In c cs1 -> J c) ->
  (forall c, In c cs2 -> J c) ->
  addsL evG (cross12Iters P O cs1 cs2) (sum12 (G (hG O) O) (objsL cs1) (objsL cs2)).
Proof.
  intros HOk HO H1 H2. apply (cross12_ok P evG hG Ok J); auto; try (intro Z; apply (SAS_no _ Z)).
  - apply cellOK_kids.
  - apply (pl_sym _ HM).
  - apply W0_ok.
  - apply dec_ok.
  - apply W12_ok.
  - apply stop12_ok.
  - apply N12_ok.
Qed.
Lemma cross3RUVG_ok O cs1 cs2 cs3 : Ok O -> (forall c, In c cs1 -> J c) ->
  (forall c, In c cs2 -> J c) -> (forall c, In c cs3 -> J c) ->
  addsL evG (cross3Iters P O cs1 cs2 cs3) (sum3 (G (hG O) O) (objsL cs1) (objsL cs2) (objsL cs3)).
Proof.
  intros HOk H1 H2 H3. apply (cross3_ok P evG hG Ok J); auto; try (intro Z; apply (SAS_no _ Z)).
  - apply cellOK_kids.
  - apply (pl_sym _ HM).
  - apply W0_ok.
  - apply dec_ok.
Qed.
End RUVG.

(** ** The arrays common to all three-point correlations, and zeta of KKK *)
Definition lab (P : tparams) (phi : Z -> R) (f : tfield) : obj -> obj -> obj -> R := labG P phi (oval f).
Definition hRUV (P : tparams) (phi : Z -> R) (f : tfield) : order -> obj -> obj -> obj -> R :=
  hG P phi (oval f).
Definition ev (phi : Z -> R) (f : tfield) : event3 -> R := evG phi (tval f).
Lemma oval_strict f : strictOf f = false -> forall a b c d1 d2 d3 u v, ow a = 0 \/ ow b = 0 \/ ow c = 0 ->
  oval f a b c d1 d2 d3 u v = 0.
Proof. intros H a b c d1 d2 d3 u v. apply oval_w0, strict_f, H. Qed.

Section RUV.
Variable P : tparams.
Variable phi : Z -> R.
Variable f : tfield.
Notation md a b := (mdist (tmetric P) (opos a) (opos b)).
Hypothesis HB : tbt P = LogRUV.
Hypothesis HM : plainM (tmetric P).
Hypothesis Hminsep : 0 < tminsep P.
Hypothesis Hmaxsep : 0 <= tmaxsep P.
Hypothesis Hminu : 0 <= tminu P <= 1.
Hypothesis Hmaxu : 0 <= tmaxu P <= 1.
Hypothesis Hminv : tminv P = 0.
Hypothesis Hmaxv : 0 <= tmaxv P.
Hypothesis Hpt : tmaxv P < 1 -> tmetric P = Euclidean.
Hypothesis Hb : tb P = 0.
Hypothesis Hbu : tbu P = 0.
Hypothesis Hbv : tbv P = 0.
Variable A : obj -> Prop.
Hypothesis Aw : forall o, A o -> wok f o.
Variable Ok : order -> Prop.
Hypothesis Tie : Ok O0 -> forall a b c, A a -> A b -> A c -> md b c = md a c ->
  lab P phi f b a c = lab P phi f a b c.

Lemma autoRUV_ok cells : Ok O0 -> (forall c, In c cells -> cellOK A c) ->
  addsL (ev phi f) (auto3Iters P cells) (sumU3 (G (hRUV P phi f O0) O0) (objsL cells)).
Proof.
  intros. eapply (autoRUVG_ok P phi (oval f) (tval f) (strictOf f)) with (A := A) (Ok := Ok); eauto.
  - apply oval_strict.
  - intros; apply wok_G; auto.
  - intros; eapply tval_sum; eauto.
Qed.
Lemma cross12RUV_ok O cs1 cs2 : Ok O -> O <> O3 -> (forall c, In c cs1 -> cellOK A c) ->
  (forall c, In c cs2 -> cellOK A c) ->
  addsL (ev phi f) (cross12Iters P O cs1 cs2) (sum12 (G (hRUV P phi f O) O) (objsL cs1) (objsL cs2)).
Proof.
  intros. eapply (cross12RUVG_ok P phi (oval f) (tval f) (strictOf f)) with (A := A) (Ok := Ok); eauto.
  - apply oval_strict.
  - intros; apply wok_G; auto.
  - intros; eapply tval_sum; eauto.
Qed.
Lemma cross3RUV_ok O cs1 cs2 cs3 : Ok O -> (forall c, In c cs1 -> cellOK A c) ->
  (forall c, In c cs2 -> cellOK A c) -> (forall c, In c cs3 -> cellOK A c) ->
  addsL (ev phi f) (cross3Iters P O cs1 cs2 cs3)
    (sum3 (G (hRUV P phi f O) O) (objsL cs1) (objsL cs2) (objsL cs3)).
Proof.
  intros. eapply (cross3RUVG_ok P phi (oval f) (tval f) (strictOf f)) with (A := A) (Ok := Ok); eauto.
  - apply oval_strict.
  - intros; apply wok_G; auto.
  - intros; eapply tval_sum; eauto.
Qed.
End RUV.
