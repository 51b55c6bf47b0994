(** C86: the multipole algorithm gives the sums of the natural components over triangles. *)
From Coq Require Import Reals Lra Lia List ZArith Bool Permutation Psatz.
From Verif Require Import Base Geometry Tree Traverse Spin Run Corr3 Spec SpecRun GeomFacts SumFacts TreeFacts
  BinFacts TravFacts Exact MetricFacts Cover Lift Runs SpinFacts SpecGGG GGG GGGFacts Cplx
  Multi SpecMulti MultiFacts MultiFacts2 MultiIdx MultiTot MultiCV MultiVal MultiRun PropsMulti
  MultiG SpecMultiG MultiGFacts.
Import ListNotations.
Open Scope R_scope.

(** ** The summands *)
Lemma shear_cis t o : (owg o * cis (- (2 * t)))%C = (shearA (axis t) o, shearB (axis t) o).
Proof.
  unfold cis, shearA, shearB, axis, owg. cbn [fst snd]. rewrite cos_neg, sin_neg, cos_2a, sin_2a.
  unfold cmul; cbn [fst snd]. apply cplx_eq; cbn [fst snd]; ring.
Qed.
Definition cj (b : bool) (z : cplx) : cplx := if b then cconj z else z.
Lemma prod_part im a1 b1 a2 b2 a3 b3 :
  (if im : bool then prodIm else prodRe) a1 b1 a2 b2 a3 b3 = part im ((a1, b1) * ((a2, b2) * (a3, b3)))%C.
Proof. destruct im; unfold prodIm, prodRe, cmul, part; cbn [fst snd]; ring. Qed.
Lemma cj_pair b x y : cj b (x, y) = (x, (if b then -1 else 1) * y).
Proof. unfold cj, cconj. destruct b; cbn [fst snd]; f_equal; ring. Qed.
Lemma multVal_cis th c im n p1 p2 p3 :
  let t2 := th (opos p1) (opos p2) in
  let t3 := th (opos p1) (opos p3) in
  multVal th c im n p1 p2 p3 =
  part im (cj (Nat.eqb c 1) (owg p1 * cis (- (t2 + t3))) * (cj (Nat.eqb c 2) (owg p2 * cis (- (2 * t2))) *
     cj (Nat.eqb c 3) (owg p3 * cis (- (2 * t3)))) * cis (IZR n * (t3 - t2)))%C.
Proof.
  intros t2 t3. unfold multVal. fold t2 t3.
  replace (- (t2 + t3)) with (- (2 * ((t2 + t3) / 2))) by field.
  rewrite !shear_cis, !cj_pair. set (u1 := axis ((t2 + t3) / 2)).
  pose proof (prod_part true (shearA u1 p1) ((if Nat.eqb c 1 then -1 else 1) * shearB u1 p1) (shearA (axis t2) p2)
    ((if Nat.eqb c 2 then -1 else 1) * shearB (axis t2) p2) (shearA (axis t3) p3) ((if Nat.eqb c 3 then -1 else 1) * shearB (axis t3) p3)) as EI.
  pose proof (prod_part false (shearA u1 p1) ((if Nat.eqb c 1 then -1 else 1) * shearB u1 p1) (shearA (axis t2) p2)
    ((if Nat.eqb c 2 then -1 else 1) * shearB (axis t2) p2) (shearA (axis t3) p3) ((if Nat.eqb c 3 then -1 else 1) * shearB (axis t3) p3)) as ER.
  cbv iota in EI, ER.
  match type of EI with _ = part _ ?z => set (X := z) in * end.
  rewrite EI, ER. unfold part, cis, cmul. cbn [fst snd]. destruct im; ring.
Qed.

(** The two factors of component c. *)
Definition fA (th : pos -> pos -> R) (c : nat) (n : Z) : obj -> obj -> cplx :=
  match c with
  | 1%nat => gphase th (n + 1) | 3%nat => fun i j => cconj (gphase th (- n + 1) i j)
  | _ => gphase th (n - 1)
  end.
Definition fB (th : pos -> pos -> R) (c : nat) (n : Z) : obj -> obj -> cplx :=
  match c with
  | 1%nat => gphase th (- n + 1) | 2%nat => fun i j => cconj (gphase th (n + 1) i j)
  | _ => gphase th (- n - 1)
  end.
Definition aF (c : nat) (o : obj) : cplx := cj (Nat.eqb c 1) (owg o).
Lemma cis_cis a b x y : a + b = x + y -> (cis a * cis b)%C = (cis x * cis y)%C.
Proof. intro H. rewrite !cis_add, H. auto. Qed.
Lemma summand th c im n p1 p2 p3 : (c <= 3)%nat ->
  part im (aF c p1 * (fA th c n p1 p3 * fB th c n p1 p2))%C = multVal th c im n p1 p2 p3.
Proof.
  intro Hc. rewrite multVal_cis. set (t2 := th (opos p1) (opos p2)). set (t3 := th (opos p1) (opos p3)).
  f_equal. unfold aF, fA, fB.
  destruct c as [|[|[|[|c]]]]; [| | | |lia]; cbn [Nat.eqb cj]; unfold gphase; cbv beta; fold t2 t3;
    rewrite ?conj_mul, ?cis_conj, ?minus_IZR, ?plus_IZR, ?opp_IZR.
  - pose proof (cis_cis ((IZR n - 1) * t3) ((- IZR n - 1) * t2) (- (t2 + t3)) (IZR n * (t3 - t2)) ltac:(ring)) as K.
    set (A := cis ((IZR n - 1) * t3)) in *. set (B := cis ((- IZR n - 1) * t2)) in *.
    transitivity (owg p1 * (owg p2 * cis (- (2 * t2)) * (owg p3 * cis (- (2 * t3)))) * (A * B))%C; [ring|]. rewrite K. ring.
  - pose proof (cis_cis ((IZR n + 1) * t3) ((- IZR n + 1) * t2) (- - (t2 + t3)) (IZR n * (t3 - t2)) ltac:(ring)) as K.
    set (A := cis ((IZR n + 1) * t3)) in *. set (B := cis ((- IZR n + 1) * t2)) in *.
    transitivity (cconj (owg p1) * (owg p2 * cis (- (2 * t2)) * (owg p3 * cis (- (2 * t3)))) * (A * B))%C; [ring|]. rewrite K. ring.
  - pose proof (cis_cis ((IZR n - 1) * t3) (- ((IZR n + 1) * t2)) (- (t2 + t3)) (IZR n * (t3 - t2)) ltac:(ring)) as K.
    set (A := cis ((IZR n - 1) * t3)) in *. set (B := cis (- ((IZR n + 1) * t2))) in *.
    transitivity (owg p1 * (cconj (owg p2) * cis (- - (2 * t2)) * (owg p3 * cis (- (2 * t3)))) * (A * B))%C; [ring|]. rewrite K. ring.
  - pose proof (cis_cis (- ((- IZR n + 1) * t3)) ((- IZR n - 1) * t2) (- (t2 + t3)) (IZR n * (t3 - t2)) ltac:(ring)) as K.
    set (A := cis (- ((- IZR n + 1) * t3))) in *. set (B := cis ((- IZR n - 1) * t2)) in *.
    transitivity (owg p1 * (owg p2 * cis (- (2 * t2)) * (cconj (owg p3) * cis (- - (2 * t3)))) * (A * B))%C; [ring|]. rewrite K. ring.
Qed.
(** The corresponding scratch arrays. *)
Definition vA (c : nat) (n : Z) : gev -> cplx :=
  match c with
  | 1%nat => gGn Flat (n + 1) | 3%nat => fun e => cconj (gGn Flat (- n + 1) e)
  | _ => gGn Flat (n - 1)
  end.
Definition vB (c : nat) (n : Z) : gev -> cplx :=
  match c with
  | 1%nat => gGn Flat (- n + 1) | 2%nat => fun e => cconj (gGn Flat (n + 1) e)
  | _ => gGn Flat (- n - 1)
  end.
Definition vS (c : nat) : gev -> cplx :=
  match c with O => gS0 Flat | 1%nat => gS1 Flat | _ => gS2 Flat end.
Definition garr (f : gmfield) : gfield := match f with GG g => g | _ => Gam0r end.
Lemma gamArr_GG c im : gamArr c im = GG (garr (gamArr c im)). Proof. reflexivity. Qed.
Lemma pick_ref c im w mpA mpB k2 k3 n : (c <= 3)%nat ->
  pick4 (garr (gamArr c im)) (ref4 w (mpG Flat mpA k2) (mpG Flat mpB k3) n) =
  part im (cj (Nat.eqb c 1) w * (mpSumC (vA c n) mpA k2 * mpSumC (vB c n) mpB k3))%C.
Proof.
  intro Hc. unfold ref4, mpG.
  destruct c as [|[|[|[|c]]]]; [| | | |lia]; destruct im; cbn [gamArr garr pick4 Nat.eqb cj vA vB q0 q1 q2 q3 part];
    rewrite ?mpSumC_conj; reflexivity.
Qed.
Lemma pick_sub c im w S0 S1 S2 q : (c <= 3)%nat ->
  pick4 (garr (gamArr c im)) (sub4 q (sub0 w S0 S1 S2)) =
  pick4 (garr (gamArr c im)) q -
  part im (cj (Nat.eqb c 1) w * match c with O => S0 | 1%nat => S1 | _ => S2 end)%C.
Proof.
  intro Hc. unfold sub4, sub0.
  destruct c as [|[|[|[|c]]]]; [| | | |lia]; destruct im; reflexivity.
Qed.
Lemma sumC_conj f l : cconj (sumC f l) = sumC (fun o => cconj (f o)) l.
Proof.
  unfold sumC, cconj; cbn [fst snd]. f_equal.
  replace (- sumR (fun o => snd (f o)) l) with ((-1) * sumR (fun o => snd (f o)) l) by ring.
  rewrite <- sumR_scal. apply sumR_ext. intros; ring.
Qed.
Lemma wg1_sum c a : cj (Nat.eqb c 1) (cellWG Flat Spin2 a) = sumC (aF c) (objs a).
Proof. unfold aF, cellWG. destruct (Nat.eqb c 1); cbn [cj]; [apply sumC_conj|auto]. Qed.

(** ** The scratch arrays of one side *)
Section Side.
Variable P : cparams.
Hypothesis HM : plainM (cmetric P).
Hypothesis HR : crpar P = None.
Hypothesis HB : validB (cbin P).
Hypothesis HT : btype (cbin P) = BLog.
Variables J1 J2 : cell -> Prop.
Hypothesis HW2 : forall b, J2 b -> wf 0 b.
Hypothesis Hpt : forall a b k r lr, J1 a -> J2 b -> gcase P a b = GAdd k r lr ->
  (forall i, In i (objs a) -> opos i = getPos a) /\ (forall j, In j (objs b) -> opos j = getPos b).
Variable th : pos -> pos -> R.
Hypothesis Hth : polar th.
Hypothesis HEu : cmetric P = Euclidean.
Hypothesis HF1 : forall a i, J1 a -> In i (objs a) -> pz (opos i) = 0.
Hypothesis HF2 : forall b j, J2 b -> In j (objs b) -> pz (opos j) = 0.
Let G m := CV_G P HM HR HB HT J1 J2 HW2 Hpt th Hth HEu HF1 HF2 m.
Lemma side_A c n : CVc P J1 J2 (vA c n) (fA th c n).
Proof.
  destruct c as [|[|[|[|c]]]]; cbn [vA fA]; try apply G. exact (CVc_conj P J1 J2 _ _ (G (- n + 1))).
Qed.
Lemma side_B c n : CVc P J1 J2 (vB c n) (fB th c n).
Proof.
  destruct c as [|[|[|[|c]]]]; cbn [vB fB]; try apply G. exact (CVc_conj P J1 J2 _ _ (G (n + 1))).
Qed.
Hypothesis HD2 : forall b, J2 b -> NoDup (map opos (objs b)).
Lemma side_S c n : (c <= 3)%nat -> CVc P J1 J2 (vS c) (fun i j => fA th c n i j * fB th c n i j)%C.
Proof.
  intro Hc.
  pose proof (CV_S P HM HR HB HT J1 J2 HW2 Hpt th Hth HEu HF1 HF2 HD2) as K.
  assert (KA : forall i j, (gphase th (n - 1) i j * gphase th (- n - 1) i j)%C =
     (csq (owg j) * cis (- (4 * th (opos i) (opos j))) * cis (-2 * th (opos i) (opos j)))%C).
  { intros i j. unfold gphase. set (t := th (opos i) (opos j)). rewrite !minus_IZR, opp_IZR.
    transitivity (csq (owg j) * (cis (- (2 * t)) * cis (- (2 * t))) * (cis ((IZR n - 1) * t) * cis ((- IZR n - 1) * t)))%C;
      [unfold csq; ring|]. rewrite !cis_add. f_equal; [f_equal|]; f_equal; ring. }
  assert (KB : forall i j, (gphase th (n + 1) i j * gphase th (- n + 1) i j)%C =
     (csq (owg j) * cis (- (4 * th (opos i) (opos j))) * cis (2 * th (opos i) (opos j)))%C).
  { intros i j. unfold gphase. set (t := th (opos i) (opos j)). rewrite !plus_IZR, opp_IZR.
    transitivity (csq (owg j) * (cis (- (2 * t)) * cis (- (2 * t))) * (cis ((IZR n + 1) * t) * cis ((- IZR n + 1) * t)))%C;
      [unfold csq; ring|]. rewrite !cis_add. f_equal; [f_equal|]; f_equal; ring. }
  assert (CN : forall z : cplx, (z * cconj z)%C = absSq z).
  { intro z. unfold absSq, cnorm, cconj, cmul. destruct z; cbn [fst snd]. f_equal; ring. }
  assert (KC : forall m m' i j, (IZR m - IZR m' = -2)%R -> (gphase th m i j * cconj (gphase th m' i j))%C =
     (absSq (owg j) * c1 * cis (-2 * th (opos i) (opos j)))%C).
  { intros m m' i j E. unfold gphase. set (t := th (opos i) (opos j)). rewrite !conj_mul, !cis_conj, <- CN.
    transitivity (owg j * cconj (owg j) * (cis (- (2 * t)) * cis (- - (2 * t))) * (cis (IZR m * t) * cis (- (IZR m' * t))))%C;
      [ring|]. rewrite !cis_add.
    replace (- (2 * t) + - - (2 * t)) with 0 by ring. replace (IZR m * t + - (IZR m' * t)) with (-2 * t) by (rewrite <- E; ring).
    f_equal. f_equal. unfold cis. rewrite cos_0, sin_0. reflexivity. }
  assert (Z0 : csq (sumC owg []) = sumC (fun o => csq (owg o)) []) by (unfold sumC; simpl; cx; ring).
  assert (Z2 : absSq (sumC owg []) = sumC (fun o => absSq (owg o)) []) by (unfold sumC, absSq, cnorm; simpl; f_equal; ring).
  assert (V2 : forall e, gS2 Flat e = (sumSqC Flat absSq (g2 e) * c1 * (if Rle_dec (-2) 0 then cconj (csq (gz Flat e)) else csq (gz Flat e)))%C).
  { intro e. destruct (Rle_dec (-2) 0) as [_|N]; [|exfalso; lra]. unfold gS2. ring. }
  destruct c as [|[|[|[|c]]]]; [| | | |lia]; cbn [vS fA fB].
  - apply (K (gS0 Flat) _ csq (-2) true); auto.
    intro e. destruct (Rle_dec (-2) 0) as [_|N]; [|exfalso; lra]. reflexivity.
  - apply (K (gS1 Flat) _ csq 2 true); auto.
    intro e. destruct (Rle_dec 2 0) as [N|_]; [exfalso; lra|]. reflexivity.
  - apply (K (gS2 Flat) _ absSq (-2) false); auto.
    intros i j. apply KC. rewrite minus_IZR, plus_IZR. ring.
  - apply (K (gS2 Flat) _ absSq (-2) false); auto.
    intros i j. rewrite <- (KC (- n - 1)%Z (- n + 1)%Z i j) by (rewrite minus_IZR, plus_IZR; ring). ring.
Qed.
End Side.

(** ** One list for points 2 and 3 *)
Section OneG.
Variable P : mparams.
Hypothesis HV : validM P.
Variables (b1 b2 : bool) (cat1 cat2 : list obj) (cs1 cs2 : list cell).
Hypothesis F1 : fieldOf P b1 cat1 cs1.
Hypothesis F2 : fieldOf P b2 cat2 cs2.
Hypothesis HPt : pointMode P (b1 && b2).
Variables s0 s1 : accumG.
Hypothesis HRun : multipoleG12 P cs1 cs2 s0 s1.
Hypothesis HD : distinctPos cat2.
Variable th : pos -> pos -> R.
Hypothesis Hth : polar th.
Hypothesis HEu : cmetric (mC P) = Euclidean.
Hypothesis HFl : mcoord P = Flat.
Hypothesis HF1 : flatCat cat1.
Hypothesis HF2 : flatCat cat2.
Let HB := proj1 HV.
Let HT := proj1 (proj2 HV).
Let HR := proj2 (proj2 HV).
Lemma euM : metricSep (cmetric (mC P)) euclid.
Proof. rewrite HEu. intros p q; reflexivity. Qed.
Let HE : exactMode P (b1 && b2) := or_introl HPt.
Let HP := metricSep_plain _ _ euM.
Lemma oneG_gamma : gainsGamma P th s0 s1 (tris (cbin (mC P)) euclid cat1 (dpairs cat2)).
Proof.
  intros c im k2 k3 n Hc HVE. apply valid_ranges in HVE as [H2 [H3 Hn]]. rewrite !ix_entry.
  assert (G1 : forall a i, inTops cs1 a -> In i (objs a) -> pz (opos i) = 0).
  { intros a i Ha Hi. apply HF1. exact (field_objs _ _ _ _ _ _ F1 Ha Hi). }
  assert (G2 : forall a i, inTops cs2 a -> In i (objs a) -> pz (opos i) = 0).
  { intros a i Ha Hi. apply HF2. exact (field_objs _ _ _ _ _ _ F2 Ha Hi). }
  pose proof (one_W2 P HV b1 b2 cat2 cs2 F2 HE) as W2.
  pose proof (one_good P HV euclid euM b1 b2 cat1 cat2 cs1 cs2 F1 F2 HE) as GD.
  pose proof (one_pt P HV euclid euM b1 b2 cat1 cat2 cs1 cs2 F1 F2 HE HPt) as PT.
  assert (D2 : forall b, inTops cs2 b -> NoDup (map opos (objs b))) by (intros b Hb; eapply field_distinct; eauto).
  set (T := multVal th c im n).
  rewrite (auto_sumG P HP HR HB HT (bumpsAutoG P) cs1 cs2 GD s0 s1 (gamArr c im) k2 k3 n
    (fun i => TT (mC P) T k2 k3 i (dpairs (objsL cs2))) HRun H2 H3 Hn).
  - f_equal. rewrite (TT_triSum P euclid) by (auto using euM). unfold tris.
    rewrite (triSum_dperm _ _ _ _ _ _ _ _ (field_perm _ _ _ _ F2)).
    apply triSum_perm. eapply field_perm; eauto.
  - intros z Hz. rewrite gamArr_GG. cbn [bumpsAutoG]. rewrite HFl.
    rewrite zetaGAuto_get; auto; [|exact (proj1 (proj2 Hz))|exact (proj1 (proj2 (proj2 Hz)))].
    destruct (inReg (zk z) (zmink z) k2 k3) eqn:EI; auto. apply reg_ge in EI as [I2 I3].
    pose proof (auto_valC (mC P) HR HB (inTops cs1) (inTops cs2) (objsL cs2) z k2 k3 (aF c) _
      (vA c n) (vB c n) (vS c) _ _ im Hz I2 I3
      (side_A (mC P) HP HR HB HT _ _ W2 PT th Hth HEu G1 G2 c n)
      (side_B (mC P) HP HR HB HT _ _ W2 PT th Hth HEu G1 G2 c n)
      (side_S (mC P) HP HR HB HT _ _ W2 PT th Hth HEu G1 G2 D2 c n Hc)
      (wg1_sum c (z1 z))) as E.
    etransitivity; [|etransitivity; [exact E|]].
    + clear E. destruct (k2 =? k3)%Z eqn:EK.
      * rewrite pick_sub, pick_ref by auto.
        set (a := cj (Nat.eqb c 1) (cellWG Flat Spin2 (z1 z))). set (X := mpSumC (vA c n) (zmp z) k2).
        set (Y := mpSumC (vB c n) (zmp z) k3).
        replace (match c with O => mpSumC (gS0 Flat) (zmp z) k2 | 1%nat => mpSumC (gS1 Flat) (zmp z) k2
           | _ => mpSumC (gS2 Flat) (zmp z) k2 end) with (mpSumC (vS c) (zmp z) k2)
           by (destruct c as [|[|c]]; reflexivity).
        generalize (mpSumC (vS c) (zmp z) k2). intro W. generalize a X Y. intros. unfold part, csub, cmul.
        destruct im; cbn [fst snd]; ring.
      * rewrite pick_ref by auto. f_equal. ring.
    + apply sumR_ext. intros i _. unfold TT. apply sumR_ext. intros q _.
      destruct (selT (mC P) k2 k3 i q); auto. apply summand; auto.
Qed.
End OneG.

(** ** Two lists *)
Section TwoG.
Variable P : mparams.
Hypothesis HV : validM P.
Variables (b1 b2 b3 : bool) (cat1 cat2 cat3 : list obj) (cs1 cs2 cs3 : list cell).
Hypothesis F1 : fieldOf P b1 cat1 cs1.
Hypothesis F2 : fieldOf P b2 cat2 cs2.
Hypothesis F3 : fieldOf P b3 cat3 cs3.
Hypothesis HPt2 : pointMode P (b1 && b2).
Hypothesis HPt3 : pointMode P (b1 && b3).
Variable o3 : bool.
Variables s0 s1 : accumG.
Hypothesis HRun : multipoleG3 P o3 cs1 cs2 cs3 s0 s1.
Variable th : pos -> pos -> R.
Hypothesis Hth : polar th.
Hypothesis HEu : cmetric (mC P) = Euclidean.
Hypothesis HFl : mcoord P = Flat.
Hypothesis HF1 : flatCat cat1.
Hypothesis HF2 : flatCat cat2.
Hypothesis HF3 : flatCat cat3.
Let HB := proj1 HV.
Let HT := proj1 (proj2 HV).
Let HR := proj2 (proj2 HV).
Let HE2 : exactMode P (b1 && b2) := or_introl HPt2.
Let HE3 : exactMode P (b1 && b3) := or_introl HPt3.
Let HM := euM P HEu.
Let HP := metricSep_plain _ _ HM.
Lemma twoG_gamma : gainsGamma P th s0 s1
  (tris (cbin (mC P)) euclid cat1 (if o3 then pairs cat2 cat3 else bothOrders cat2 cat3)).
Proof.
  intros c im k2 k3 n Hc HVE. apply valid_ranges in HVE as [H2 [H3 Hn]]. rewrite !ix_entry.
  assert (G1 : forall a i, inTops cs1 a -> In i (objs a) -> pz (opos i) = 0).
  { intros a i Ha Hi. apply HF1. exact (field_objs _ _ _ _ _ _ F1 Ha Hi). }
  assert (G2 : forall a i, inTops cs2 a -> In i (objs a) -> pz (opos i) = 0).
  { intros a i Ha Hi. apply HF2. exact (field_objs _ _ _ _ _ _ F2 Ha Hi). }
  assert (G3 : forall a i, inTops cs3 a -> In i (objs a) -> pz (opos i) = 0).
  { intros a i Ha Hi. apply HF3. exact (field_objs _ _ _ _ _ _ F3 Ha Hi). }
  pose proof (one_W2 P HV b1 b2 cat2 cs2 F2 HE2) as W2.
  pose proof (one_W2 P HV b1 b3 cat3 cs3 F3 HE3) as W3.
  pose proof (one_good P HV euclid HM b1 b2 cat1 cat2 cs1 cs2 F1 F2 HE2) as GD2.
  pose proof (one_good P HV euclid HM b1 b3 cat1 cat3 cs1 cs3 F1 F3 HE3) as GD3.
  pose proof (one_pt P HV euclid HM b1 b2 cat1 cat2 cs1 cs2 F1 F2 HE2 HPt2) as PT2.
  pose proof (one_pt P HV euclid HM b1 b3 cat1 cat3 cs1 cs3 F1 F3 HE3 HPt3) as PT3.
  set (T := multVal th c im n).
  rewrite (cross_sumG P HP HR HB HT (bumpsCrossG P o3) cs1 cs2 cs3 GD2 GD3 s0 s1 (gamArr c im) k2 k3 n
    (fun i => TT (mC P) T k2 k3 i (plist (objsL cs2) (objsL cs3) o3)) HRun H2 H3 Hn).
  - f_equal. rewrite (TT_triSum P euclid) by auto. unfold tris, plist, bothOrders.
    pose proof (field_perm _ _ _ _ F2) as Q2. pose proof (field_perm _ _ _ _ F3) as Q3.
    rewrite (triSum_perm _ _ _ _ _ _ _ _ (field_perm _ _ _ _ F1)).
    destruct o3; [apply triSum_pperm; auto|]. rewrite !triSum_app. f_equal; apply triSum_pperm; auto.
  - intros y Hy. rewrite gamArr_GG. cbn [bumpsCrossG]. rewrite HFl.
    rewrite zetaGCross_get; auto; [|exact (proj1 (proj2 Hy))|exact (proj1 (proj2 (proj2 Hy)))].
    destruct (inReg (yk y) (ymink y) k2 k3) eqn:EI; auto. apply reg_ge in EI as [I2 I3].
    pose proof (cross_valC (mC P) (inTops cs1) (inTops cs2) (inTops cs3) (objsL cs2) (objsL cs3) y k2 k3 (aF c) _
      (vA c n) (vB c n) _ _ im Hy I2 I3
      (side_A (mC P) HP HR HB HT _ _ W3 PT3 th Hth HEu G1 G3 c n)
      (side_B (mC P) HP HR HB HT _ _ W2 PT2 th Hth HEu G1 G2 c n) (wg1_sum c (y1 y))) as E.
    pose proof (cross_valC (mC P) (inTops cs1) (inTops cs3) (inTops cs2) (objsL cs3) (objsL cs2)
      _ k2 k3 (aF c) _
      (vA c n) (vB c n) _ _ im (ygood_swap _ _ _ _ _ _ _ Hy) I2 I3
      (side_A (mC P) HP HR HB HT _ _ W2 PT2 th Hth HEu G1 G2 c n)
      (side_B (mC P) HP HR HB HT _ _ W3 PT3 th Hth HEu G1 G3 c n) (wg1_sum c (y1 y))) as E'.
    cbn [y1 ymp2 ymp3 yk ymink] in E'.
    rewrite !pick_ref by auto.
    assert (SM : forall l, sumR (fun i => sumR (fun q => if selT (mC P) k2 k3 i q
       then part im (aF c i * (fA th c n i (snd q) * fB th c n i (fst q)))%C else 0) l) (objs (y1 y)) =
       sumR (fun i => TT (mC P) T k2 k3 i l) (objs (y1 y))).
    { intro l. apply sumR_ext. intros i _. unfold TT. apply sumR_ext. intros q _.
      destruct (selT (mC P) k2 k3 i q); auto. apply summand; auto. }
    rewrite SM in E, E'. rewrite E. unfold plist. destruct o3; [lra|]. rewrite E'. rewrite <- sumR_plus.
    apply sumR_ext. intros i _. unfold TT. rewrite sumR_app. reflexivity.
Qed.
End TwoG.

Lemma gamma_plus P th s0 s s1 S S' :
  gainsGamma P th s0 s S -> gainsGamma P th s s1 S' -> gainsGamma P th s0 s1 (tplus S S').
Proof. intros H H' c im k2 k3 n Hc HV. rewrite H', H by auto. unfold tplus. ring. Qed.

(** ** C86 *)
Theorem C86_auto P th cat s0 s1 :
  validM P -> cmetric (mC P) = Euclidean -> mcoord P = Flat -> pointMode P (bruteAuto (mbrute P)) ->
  distinctPos cat -> flatCat cat -> polar th ->
  runGAuto P cat s0 s1 -> gainsGamma P th s0 s1 (trisAuto (cbin (mC P)) euclid cat).
Proof.
  intros HV HM HF HE HD HZ Hth [cs [F H]].
  apply (oneG_gamma P HV (bruteAuto (mbrute P)) (bruteAuto (mbrute P)) cat cat cs cs); auto;
    rewrite andb_self; auto.
Qed.
Theorem C86_cross12 P th ordered cat1 cat2 s0 s1 :
  validM P -> cmetric (mC P) = Euclidean -> mcoord P = Flat -> pointMode P (bruteAll P) -> distinctPos cat2 ->
  flatCat cat1 -> flatCat cat2 -> polar th ->
  runGCross12 P ordered cat1 cat2 s0 s1 ->
  gainsGamma P th s0 s1 (tris12 (cbin (mC P)) euclid ordered cat1 cat2).
Proof.
  intros HV HM HF HPt HD Z1 Z2 Hth [cs1 [cs2 [F1 [F2 H]]]].
  unfold tris12. destruct ordered.
  - eapply (oneG_gamma P HV _ _ cat1 cat2 cs1 cs2 F1 F2); md.
  - destruct H as [s [H1 H2]]. eapply gamma_plus with (s := s).
    + eapply (twoG_gamma P HV _ _ _ cat2 cat1 cat2 cs2 cs1 cs2 F2 F1 F2) with (o3 := false); md.
    + eapply (oneG_gamma P HV _ _ cat1 cat2 cs1 cs2 F1 F2); md.
Qed.
Theorem C86_cross P th o cat1 cat2 cat3 s0 s1 :
  validM P -> cmetric (mC P) = Euclidean -> mcoord P = Flat -> pointMode P (bruteAll P) ->
  flatCat cat1 -> flatCat cat2 -> flatCat cat3 -> polar th ->
  runGCross P o cat1 cat2 cat3 s0 s1 ->
  gainsGamma P th s0 s1 (tris3 (cbin (mC P)) euclid o cat1 cat2 cat3).
Proof.
  intros HV HM HF HPt Z1 Z2 Z3 Hth [cs1 [cs2 [cs3 [F1 [F2 [F3 H]]]]]].
  unfold tris3. destruct o.
  - destruct H as [sa [sb [H1 [H2 H3]]]]. eapply gamma_plus with (s := sb); [eapply gamma_plus with (s := sa)|].
    + eapply (twoG_gamma P HV _ _ _ cat2 cat1 cat3 cs2 cs1 cs3 F2 F1 F3) with (o3 := false); md.
    + eapply (twoG_gamma P HV _ _ _ cat3 cat1 cat2 cs3 cs1 cs2 F3 F1 F2) with (o3 := false); md.
    + eapply (twoG_gamma P HV _ _ _ cat1 cat2 cat3 cs1 cs2 cs3 F1 F2 F3) with (o3 := false); md.
  - eapply (twoG_gamma P HV _ _ _ cat1 cat2 cat3 cs1 cs2 cs3 F1 F2 F3) with (o3 := false); md.
  - eapply (twoG_gamma P HV _ _ _ cat1 cat2 cat3 cs1 cs2 cs3 F1 F2 F3) with (o3 := true); md.
Qed.
