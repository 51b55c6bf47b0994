(** Triangles counted without regard to the sign of v; existence of runs. *)
From Coq Require Import Reals Lra Lia List ZArith Bool Permutation Psatz.
From Verif Require Import Base Geometry Tree Traverse Spec GeomFacts SumFacts TreeFacts TravFacts
  MetricFacts Cover Runs Corr3 TriCover TriStop SpecTri TriFacts TriSpec PropsTri.
Import ListNotations.
Open Scope R_scope.

Section Mirror.
Variable P : tparams.
Hypothesis V : validRUV P.

Lemma mirror_decode k : krOf P (mirror P k) = krOf P k /\ kuOf P (mirror P k) = kuOf P k /\
  kvOf P (mirror P k) = kvOf P k /\ ccwOf P (mirror P k) = negb (ccwOf P k).
Proof.
  pose proof (vt_nv _ V) as Hn.
  assert (Hj := Z.mod_pos_bound k (2 * tnvbins P) ltac:(lia)).
  set (n := tnvbins P) in *. set (q := (k / (2 * n))%Z). set (j := (k mod (2 * n))%Z) in *.
  assert (E : mirror P k = (2 * n * q + (2 * n - 1 - j))%Z).
  { unfold mirror. fold n. unfold q, j. lia. }
  assert (Q : (mirror P k / (2 * n) = q)%Z).
  { symmetry. apply Z.div_unique with (r := (2 * n - 1 - j)%Z); [left; lia|auto]. }
  assert (M : (mirror P k mod (2 * n) = 2 * n - 1 - j)%Z).
  { symmetry. apply Z.mod_unique with (q := q); [left; lia|auto]. }
  assert (C : ccwOf P (mirror P k) = negb (ccwOf P k)).
  { unfold ccwOf. fold n. rewrite M. fold j.
    destruct (n <=? j)%Z eqn:A; [apply Z.leb_gt; apply Z.leb_le in A|apply Z.leb_le; apply Z.leb_gt in A]; lia. }
  unfold krOf, kuOf, kvOf. rewrite C. fold n. rewrite Q, M. fold q j.
  split; [|split; [|split]]; auto. unfold ccwOf. fold n j.
  cbv zeta. destruct (n <=? j)%Z eqn:A; cbn [negb]; lia.
Qed.
Lemma mirror_invol k : mirror P (mirror P k) = k.
Proof.
  pose proof (vt_nv _ V) as Hn.
  assert (Hj := Z.mod_pos_bound k (2 * tnvbins P) ltac:(lia)).
  assert (E := Z.div_mod k (2 * tnvbins P) ltac:(lia)).
  set (n := tnvbins P) in *. set (q := (k / (2 * n))%Z) in *. set (j := (k mod (2 * n))%Z) in *.
  assert (Q : (mirror P k / (2 * n) = q)%Z).
  { symmetry. apply Z.div_unique with (r := (2 * n - 1 - j)%Z); [left; lia|]. unfold mirror. fold n q j. lia. }
  assert (M : (mirror P k mod (2 * n) = 2 * n - 1 - j)%Z).
  { symmetry. apply Z.mod_unique with (q := q); [left; lia|]. unfold mirror. fold n q j. lia. }
  unfold mirror at 1. fold n. rewrite Q, M. lia.
Qed.
Lemma mirror_neq k : mirror P k <> k.
Proof.
  intro E. destruct (mirror_decode k) as [_ [_ [_ C]]]. rewrite E in C. destruct (ccwOf P k); discriminate.
Qed.

(** Value of a labelled triangle, the orientation ignored. *)
Definition absLab (f : tfield) (k : Z) (a b c : obj) : R :=
  if shapeIn P (krOf P k) (kuOf P k) (kvOf P k) (side1 a b c) (side2 a b c) (side3 a b c)
  then triVal P f a b c else 0.
Lemma tri_mirror f k a b c : tri P f k a b c + tri P f (mirror P k) a b c = absLab f k a b c.
Proof.
  unfold tri, selTri, absLab. destruct (mirror_decode k) as [-> [-> [-> ->]]].
  destruct shapeIn; simpl; [|lra].
  destruct (ccwSpec (tcoord P) a b c), (ccwOf P k); simpl; lra.
Qed.

Hypothesis HE : tmetric P = Euclidean.
Lemma lab_add phi psi f a b c :
  lab P (fun i => phi i + psi i) f a b c = lab P phi f a b c + lab P psi f a b c.
Proof.
  unfold lab, labG. destruct Rltb; [|lra]. destruct rangeRUV as [[[u v] j]|]; lra.
Qed.
Definition phi2 (k : Z) : Z -> R := fun i => ind k i + ind (mirror P k) i.
Lemma lab_abs f k a b c : lab P (phi2 k) f a b c = absLab f k a b c.
Proof. unfold phi2. rewrite lab_add, !lab_tri by auto. apply tri_mirror. Qed.
Lemma side_swap a b c : side1 b a c = side2 a b c /\ side2 b a c = side1 a b c /\ side3 b a c = side3 a b c.
Proof. unfold side1, side2, side3, euclid. repeat split; auto. f_equal; ring. Qed.
Lemma triVal_tie f a b c : f <> TV -> side1 a b c = side2 a b c -> triVal P f b a c = triVal P f a b c.
Proof.
  intros Hf E. destruct (side_swap a b c) as [E1 [E2 E3]]. unfold triVal. rewrite E1, E2, E3, E.
  destruct f; try congruence; ring.
Qed.
Lemma abs_tie f k a b c : f <> TV -> side1 a b c = side2 a b c -> absLab f k b a c = absLab f k a b c.
Proof.
  intros Hf E. unfold absLab. destruct (side_swap a b c) as [E1 [E2 E3]].
  rewrite (triVal_tie f a b c) by auto. rewrite E1, E2, E3, E. auto.
Qed.
End Mirror.

(** ** Symmetric functions of a triangle are determined by their values on sorted ones *)
Lemma wlog3 (s : obj -> obj -> R) (g h : obj -> obj -> obj -> R) :
  (forall a b, s a b = s b a) -> sym12 g -> sym23 g -> sym12 h -> sym23 h ->
  (forall a b c, s a b <= s a c <= s b c -> g a b c = h a b c) -> forall a b c, g a b c = h a b c.
Proof.
  intros Hs G1 G2 H1 H2 HS a b c.
  assert (A1 := Hs b a). assert (A2 := Hs c a). assert (A3 := Hs c b).
  destruct (Rle_dec (s a b) (s a c)), (Rle_dec (s a c) (s b c)), (Rle_dec (s a b) (s b c)); try lra.
  - apply HS; lra.
  - rewrite (G1 a b c), (H1 a b c). apply HS; lra.
  - (* bc < ab <= ac : order b c a / c b a *)
    rewrite (G1 a b c), (H1 a b c), (G2 b a c), (H2 b a c). apply HS; lra.
  - (* ac < ab , ac <= bc *)
    rewrite (G2 a b c), (H2 a b c). apply HS; lra.
  - rewrite (G2 a b c), (H2 a b c), (G1 a c b), (H1 a c b). apply HS; lra.
  - rewrite (G2 a b c), (H2 a b c), (G1 a c b), (H1 a c b), (G2 c a b), (H2 c a b). apply HS; lra.
Qed.

Lemma Rmax3_12 a b c : Rmax a (Rmax b c) = Rmax b (Rmax a c).
Proof. unfold Rmax. repeat destruct Rle_dec; lra. Qed.
Lemma Rmin3_12 a b c : Rmin a (Rmin b c) = Rmin b (Rmin a c).
Proof. unfold Rmin. repeat destruct Rle_dec; lra. Qed.

Section Abs.
Variable P : tparams.
Hypothesis V : validRUV P.
Hypothesis NS : noSlop3 P.
Hypothesis HE : tmetric P = Euclidean.
Hypothesis MV : tminv P = 0.
Variable f : tfield.
Hypothesis Hf : f <> TV.
Variable k : Z.

Lemma maxS_12 a b c : maxS b a c = maxS a b c.
Proof. unfold maxS. destruct (side_swap a b c) as [-> [-> ->]]. apply Rmax3_12. Qed.
Lemma minS_12 a b c : minS b a c = minS a b c.
Proof. unfold minS. destruct (side_swap a b c) as [-> [-> ->]]. apply Rmin3_12. Qed.
Lemma midS_12 a b c : midS b a c = midS a b c.
Proof. unfold midS. rewrite maxS_12, minS_12. destruct (side_swap a b c) as [-> [-> ->]]. lra. Qed.
Lemma side_swap23 a b c : side1 a c b = side1 a b c /\ side2 a c b = side3 a b c /\ side3 a c b = side2 a b c.
Proof. unfold side1, side2, side3, euclid. repeat split; auto. f_equal; ring. Qed.
Lemma maxS_23 a b c : maxS a c b = maxS a b c.
Proof. unfold maxS. destruct (side_swap23 a b c) as [-> [-> ->]]. f_equal. apply Rmax_comm. Qed.
Lemma minS_23 a b c : minS a c b = minS a b c.
Proof. unfold minS. destruct (side_swap23 a b c) as [-> [-> ->]]. f_equal. apply Rmin_comm. Qed.
Lemma midS_23 a b c : midS a c b = midS a b c.
Proof. unfold midS. rewrite maxS_23, minS_23. destruct (side_swap23 a b c) as [-> [-> ->]]. lra. Qed.
Lemma triAbs_sym12 kr ku kv : sym12 (triAbs P f kr ku kv).
Proof.
  intros a b c. unfold triAbs. rewrite (maxS_12 a b c), (midS_12 a b c), (minS_12 a b c).
  destruct shapeIn; auto. destruct f; ring.
Qed.
Lemma triAbs_sym23 kr ku kv : sym23 (triAbs P f kr ku kv).
Proof.
  intros a b c. unfold triAbs. rewrite (maxS_23 a b c), (midS_23 a b c), (minS_23 a b c).
  destruct shapeIn; auto. destruct f; ring.
Qed.
Lemma euclid_sym p q : euclid p q = euclid q p.
Proof. unfold euclid. f_equal. ring. Qed.

Lemma G_abs a b c :
  G (hRUV P (phi2 P k) f O0) O0 a b c = triAbs P f (krOf P k) (kuOf P k) (kvOf P k) a b c.
Proof.
  revert a b c. apply (wlog3 (fun a b => euclid (opos a) (opos b))).
  - intros; apply euclid_sym.
  - apply G0_sym12.
  - apply G0_sym23.
  - apply triAbs_sym12.
  - apply triAbs_sym23.
  - intros a b c HS. change (side3 a b c <= side2 a b c <= side1 a b c) in HS.
    unfold hRUV. rewrite (G_sorted P); auto; fold (lab P (phi2 P k) f).
    + rewrite lab_abs by auto. unfold absLab, triAbs.
      assert (X : maxS a b c = side1 a b c) by (unfold maxS, Rmax; repeat destruct Rle_dec; lra).
      assert (Y : minS a b c = side3 a b c) by (unfold minS, Rmin; repeat destruct Rle_dec; lra).
      assert (Z : midS a b c = side2 a b c) by (unfold midS; rewrite X, Y; lra).
      rewrite X, Y, Z. destruct shapeIn; auto. unfold triVal. destruct f; auto; congruence.
    + apply plainE; auto.
    + apply maxu_01; auto.
    + intros _ E. rewrite !lab_abs by auto. rewrite (md_side1 P HE a b c), (md_side2 P HE a b c) in E.
      apply abs_tie; auto.
    + simpl. rewrite (md_side1 P HE a b c), (md_side2 P HE a b c), (md_side3 P HE a b c). lra.
Qed.
Lemma auto_abs_addsL cat cells : weights3 f cat ->
  (forall c, In c cells -> cellOK (inCat cat) c) -> Permutation (objsL cells) cat ->
  addsL (ev (phi2 P k) f) (auto3Iters P cells)
    (sumTriplesU (triAbs P f (krOf P k) (kuOf P k) (kvOf P k)) cat).
Proof.
  intros W HC HP.
  assert (E : sumTriplesU (triAbs P f (krOf P k) (kuOf P k) (kvOf P k)) cat =
              sumU3 (G (hRUV P (phi2 P k) f O0) O0) (objsL cells)).
  { rewrite sumTriplesU_eq, (sumU3_perm _ _ cat (G0_sym12 _) (G0_sym23 _) HP).
    apply sumU3_ext. intros a b c _ _ _. symmetry. apply G_abs. }
  rewrite E. destruct NS as [N1 [N2 [N3 N4]]].
  apply (autoRUV_ok P (phi2 P k) f) with (A := inCat cat) (Ok := fun O => O = O0); auto.
  - apply (vt_type _ V).
  - apply plainE; auto.
  - apply (vt_minsep _ V).
  - apply pos_maxsep; auto.
  - apply minu_01; auto.
  - apply maxu_01; auto.
  - apply maxv_0; auto.
  - intros _ a b c _ _ _ E'. rewrite !lab_abs by auto.
    rewrite (md_side1 P HE a b c), (md_side2 P HE a b c) in E'. apply abs_tie; auto.
Qed.
End Abs.

(** ** Runs exist, whatever the slop *)
Definition slopOK3 (P : tparams) : Prop := 0 <= tb P /\ 0 <= ta P /\ 0 <= tbu P /\ 0 <= tbv P.
Lemma field3_min_nonneg R : validRUV (r3P R) -> slopOK3 (r3P R) -> 0 <= fminsize (field3 R).
Proof.
  intros V [S1 [S2 [S3 S4]]]. unfold field3, minMaxSize3. rewrite (vt_type _ V).
  destruct (tmetric (r3P R)); cbn [fst fminsize]; try lra.
  set (b1 := Rmin _ _). assert (0 <= b1) by (unfold b1; repeat apply Rmin_glb; auto).
  apply Rmult_le_pos; [apply Rmult_le_pos; [apply Rmult_le_pos|auto]|].
  - left; apply (vt_minsep _ V).
  - apply (vt_minu _ V).
  - left. apply Rinv_0_lt_compat. lra.
Qed.
Definition cellFin (m : R) (c : cell) : Prop := wf m c /\ finTree c.
Lemma cellFin_kids m d z l r : cellFin m (Node d z l r) -> cellFin m l /\ cellFin m r.
Proof.
  intros [H1 H2]. destruct (wf_node _ _ _ _ _ H1), (fin_node _ _ _ _ H2). split; split; auto.
Qed.
Lemma cellFin_nn m c : cellFin m c -> 0 <= csize c.
Proof.
  intros [H1 H2]. pose proof (size_nonneg m c (wf_ok _ _ H1)) as S. specialize (H2 _ (sub_refl _)).
  unfold csize. destruct c as [| |d s l r]; simpl in *; try lra. destruct s; simpl in *; lra.
Qed.
Lemma csize_isNode c : 0 < csize c -> isNode c.
Proof. unfold csize. destruct c; simpl; auto; lra. Qed.

Section Exist.
Variable P : tparams.
Hypothesis HB : tbt P = LogRUV.
Hypothesis HM : plainM (tmetric P).
Hypothesis Hminsep : 0 < tminsep P.
Variable m : R.
Notation J := (cellFin m).
Notation h0 := (fun (_ : order) (_ _ _ : obj) => 0).
Notation z0 := (fun _ : event3 => 0).
Lemma G_0 O a b c : G ((fun (_ : order) (_ _ _ : obj) => 0) O) O a b c = 0.
Proof. destruct O; simpl; lra. Qed.
Lemma E_dec O c1 c2 c3 : J c1 -> J c2 -> J c3 ->
  match decide3 P O c1 c2 c3 (distSq (tmetric P) (getPos c2) (getPos c3))
          (distSq (tmetric P) (getPos c1) (getPos c3)) (distSq (tmetric P) (getPos c1) (getPos c2)) with
  | Drop3 => sum3 (G (h0 O) O) (objs c1) (objs c2) (objs c3) = 0
  | Direct3 u v k => 0 = sum3 (G (h0 O) O) (objs c1) (objs c2) (objs c3)
  | Split3 a b c => (a = true -> isNode c1) /\ (b = true -> isNode c2) /\ (c = true -> isNode c3) /\
      a || b || c = true
  end.
Proof.
  intros J1 J2 J3. assert (Z : sum3 (G (h0 O) O) (objs c1) (objs c2) (objs c3) = 0)
    by (apply sum3_0; intros; apply G_0).
  unfold decide3. rewrite HB. destruct stopRUV; auto.
  destruct singleRUV as [[[x y] z]|] eqn:ES.
  - apply singleRUV_some in ES; try (eapply cellFin_nn; eauto); try apply distSq_nonneg.
    destruct ES as [A1 [A2 [A3 A4]]]. repeat split; auto; intro; apply csize_isNode; auto.
  - destruct rangeRUV as [[[u v] k]|]; auto.
Qed.
Lemma E_N12 c1 c2 : J c1 -> J c2 -> tooSmallS2 P (csize c2) = false ->
  isNode c2 /\
  (efin (snd (effSize (tmetric P) (getPos c1) (getPos c2) (Fin (csize c1)) (Fin (csize c2)))) <
   efin (fst (effSize (tmetric P) (getPos c1) (getPos c2) (Fin (csize c1)) (Fin (csize c2)))) -> isNode c1).
Proof.
  intros J1 J2 H. rewrite (pl_eff _ HM). cbn [fst snd efin].
  pose proof (cellFin_nn _ _ J1). pose proof (cellFin_nn _ _ J2).
  unfold tooSmallS2 in H. apply orb_false_iff in H as [H _]. apply Reqb_false in H.
  split; [apply csize_isNode; lra|intro; apply csize_isNode; lra].
Qed.
Lemma E_noSAS (Q : Prop) : tbt P = LogSAS -> Q.
Proof. rewrite HB. discriminate. Qed.
Lemma auto3_total cells : (forall c, In c cells -> J c) -> exists x, addsL z0 (auto3Iters P cells) x.
Proof.
  intro HJ. eexists. apply (auto3_ok P z0 h0 (fun _ => True) J); auto; try (intro Z; apply (E_noSAS _ Z)).
  - apply cellFin_kids.
  - apply (pl_sym _ HM).
  - intros. apply sum3_0; intros; apply G_0.
  - intros O c1 c2 c3 _ J1 J2 J3 _. apply E_dec; auto.
  - intros. apply sum12_0; intros; apply G_0.
  - intros. apply sum12_0; intros; apply G_0.
  - apply E_N12.
  - intros. apply sumU3_0; intros; apply G_0.
  - intros. apply sumU3_0; intros; apply G_0.
  - intros c _ H. apply csize_isNode. unfold thalfminsep in H. lra.
Qed.
Lemma cross12_total O cs1 cs2 : O <> O3 -> (forall c, In c cs1 -> J c) -> (forall c, In c cs2 -> J c) ->
  exists x, addsL z0 (cross12Iters P O cs1 cs2) x.
Proof.
  intros HO H1 H2. eexists. apply (cross12_ok P z0 h0 (fun _ => True) J); auto; try (intro Z; apply (E_noSAS _ Z)).
  - apply cellFin_kids.
  - apply (pl_sym _ HM).
  - intros. apply sum3_0; intros; apply G_0.
  - intros O' c1 c2 c3 _ J1 J2 J3 _. apply E_dec; auto.
  - intros. apply sum12_0; intros; apply G_0.
  - intros. apply sum12_0; intros; apply G_0.
  - apply E_N12.
Qed.
Lemma cross3_total O cs1 cs2 cs3 : (forall c, In c cs1 -> J c) -> (forall c, In c cs2 -> J c) ->
  (forall c, In c cs3 -> J c) -> exists x, addsL z0 (cross3Iters P O cs1 cs2 cs3) x.
Proof.
  intros H1 H2 H3. eexists. apply (cross3_ok P z0 h0 (fun _ => True) J); auto; try (intro Z; apply (E_noSAS _ Z)).
  - apply cellFin_kids.
  - apply (pl_sym _ HM).
  - intros. apply sum3_0; intros; apply G_0.
  - intros O' c1 c2 c3 _ J1 J2 J3 _. apply E_dec; auto.
Qed.
End Exist.
Lemma field_cellFin F cat cells : 0 <= fminsize F -> fbrute F = false -> buildField F cat cells ->
  forall c, In c cells -> cellFin (fminsize F) c.
Proof.
  intros Hm Hb HF c Hc. split.
  - pose proof (buildField_wf F cat cells Hm HF) as W. rewrite Forall_forall in W. auto.
  - pose proof (buildField_fin F cat cells Hb HF) as W. rewrite Forall_forall in W. auto.
Qed.
