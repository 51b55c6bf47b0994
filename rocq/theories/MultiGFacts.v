(** Values of the GGG multipole arrays. *)
From Coq Require Import Reals Lra Lia List ZArith Bool Permutation Psatz.
From Verif Require Import Base Geometry Tree Traverse Spin Run Corr3 Spec SpecRun GeomFacts SumFacts TreeFacts
  BinFacts TravFacts Exact MetricFacts Cover Lift Runs SpinFacts SpecGGG GGG GGGFacts Cplx Multi SpecMulti MultiFacts MultiFacts2 MultiIdx
  MultiTot MultiCV MultiVal MultiG SpecMultiG.
Import ListNotations.
Open Scope R_scope.

(** ** The written values *)
Definition sub4 (q r : gam4) : gam4 :=
  mk4 (q0 q - q0 r)%C (q1 q - q1 r)%C (q2 q - q2 r)%C (q3 q - q3 r)%C.
(** The formulas of the comments (Corr3.cpp:2078-2086, 2191-2195): A belongs to d2, B to d3. *)
Definition ref4 (w : cplx) (A B : Z -> cplx) (n : Z) : gam4 :=
  mk4 (w * (A (n - 1)%Z * B (- n - 1)%Z))%C (cconj w * (A (n + 1)%Z * B (- n + 1)%Z))%C
      (w * (A (n - 1)%Z * cconj (B (n + 1)%Z)))%C (w * (cconj (A (- n + 1)%Z) * B (- n - 1)%Z))%C.
Definition sub0 (w S0 S1 S2 : cplx) : gam4 := mk4 (w * S0)%C (cconj w * S1)%C (w * S2)%C (w * S2)%C.
Lemma eq4 a b c d a' b' c' d' : a = a' -> b = b' -> c = c' -> d = d' -> mk4 a b c d = mk4 a' b' c' d'.
Proof. intros; subst; auto. Qed.
Ltac g4 := unfold sub4, ref4, sub0, swap23; cbn [q0 q1 q2 q3]; apply eq4; rewrite ?conj_mul, ?conj_conj; ring.

Ltac z0 := unfold ref4; change (Z.of_nat 0) with 0%Z; repeat (progress change (- 0)%Z with 0%Z);
  change (0 - 1)%Z with (-1)%Z; change (0 + 1)%Z with 1%Z.
Definition dgn (w : cplx) (G : Z -> cplx) (S0 S1 S2 : cplx) (m : nat) : gam4 :=
  match m with O => diag0 w G S0 S1 S2 | _ => diagN w G S0 S1 S2 m end.
Definition ofP (w : cplx) (A B : Z -> cplx) (m : nat) : gam4 :=
  match m with O => off0 w A B | _ => offP w A B m end.
Definition ofM (w : cplx) (A B : Z -> cplx) (m : nat) : gam4 :=
  match m with O => swap23 (off0 w A B) | _ => offM w A B m end.
Lemma dgn_ref w G S0 S1 S2 m : dgn w G S0 S1 S2 m = sub4 (ref4 w G G (Z.of_nat m)) (sub0 w S0 S1 S2).
Proof. destruct m as [|m]; unfold dgn; [unfold diag0; z0; g4|unfold diagN; g4]. Qed.
Lemma dgn_ref' w G S0 S1 S2 m : swap23 (dgn w G S0 S1 S2 m) = sub4 (ref4 w G G (- Z.of_nat m)) (sub0 w S0 S1 S2).
Proof.
  rewrite dgn_ref. unfold sub4, ref4, sub0, swap23; cbn [q0 q1 q2 q3]. rewrite !Z.opp_involutive. apply eq4; ring.
Qed.
Lemma ofP_ref w A B m : ofP w A B m = ref4 w A B (Z.of_nat m).
Proof. destruct m as [|m]; unfold ofP; [unfold off0; z0; g4|unfold offP; g4]. Qed.
Lemma ofM_ref w A B m : swap23 (ofM w A B m) = ref4 w A B (- Z.of_nat m).
Proof.
  destruct m as [|m]; unfold ofM; [unfold off0; z0; g4|].
  unfold offM, ref4. set (n := Z.of_nat (S m)). rewrite !Z.opp_involutive. g4.
Qed.
Lemma crossM_ref w A B m : crossM w A B m = ref4 w A B (- Z.of_nat m).
Proof. unfold crossM. set (n := Z.of_nat m). unfold ref4. rewrite !Z.opp_involutive. g4. Qed.
Lemma swap_ref w A B n : swap23 (ref4 w A B n) = ref4 w B A (- n).
Proof. unfold ref4, swap23. cbn [q0 q1 q2 q3]. rewrite Z.opp_involutive. apply eq4; ring. Qed.
Lemma swap_swap q : swap23 (swap23 q) = q. Proof. destruct q; auto. Qed.

Section I.
Variable P : mparams.
Let nb := nbins (mB P).
Lemma zetaGAuto_get z w G S0 S1 S2 f k2 k3 n :
  (0 <= zk z)%Z -> (zmink z <= nb)%Z -> (0 <= k2 < nb)%Z -> (0 <= k3 < nb)%Z ->
  (- mxn P <= n <= mxn P)%Z ->
  getB (zetaGAuto P z w G S0 S1 S2 f) (ix P k2 k3 n) =
  if inReg (zk z) (zmink z) k2 k3 then
    pick4 f (if (k2 =? k3)%Z then sub4 (ref4 w (G k2) (G k3) n) (sub0 w (S0 k2) (S1 k2) (S2 k2))
             else ref4 w (G k2) (G k3) n)
  else 0.
Proof.
  intros Hz Hm H2 H3 Hn.
  transitivity (if inReg (zk z) (zmink z) k2 k3 then
    triVal (fun a => sgnPick (fun m => pick4 f (dgn w (G a) (S0 a) (S1 a) (S2 a) m))
                             (fun m => pick4 f (swap23 (dgn w (G a) (S0 a) (S1 a) (S2 a) m))) n)
      (fun a b => sgnPick (fun m => pick4 f (ofP w (G a) (G b) m)) (fun m => pick4 f (swap23 (ofM w (G a) (G b) m))) n)
      (fun a b => sgnPick (fun m => pick4 f (ofM w (G a) (G b) m)) (fun m => pick4 f (swap23 (ofP w (G a) (G b) m))) n) k2 k3
  else 0).
  - unfold zetaGAuto. fold nb. set (N := nnb P).
    assert (Hx : (0 <= mxn P)%Z) by (unfold mxn; lia).
    match goal with |- context [forloop ?m ?nx ?bd (zk z, ?i0)] =>
      set (next := nx); set (body := bd); set (m0 := m) end.
    replace (zk z, (mxn P + zk z * (nb * N + N))%Z) with ((fun k => (k, ix P k k 0)) (zk z)).
    2:{ unfold ix. fold nb N. f_equal. lia. }
    rewrite (forloop_range next body (fun k => (k, ix P k k 0))).
    2:{ intros k _. unfold next, ix; simpl. fold nb N. f_equal. lia. }
    assert (HR : zrange (zk z) (zk z + Z.of_nat m0) = zrange (zk z) (zmink z)).
    { unfold zrange, m0. f_equal. f_equal. lia. }
    rewrite HR. clear HR. rewrite getB_flat.
    rewrite <- (tri_pick P) by (fold nb; lia). fold nb.
    apply sumR_ext. intros a Ha. apply in_zrange in Ha. unfold body. rewrite getB_app. f_equal.
    + rewrite <- (npart P a a (fun m => pick4 f (dgn w (G a) (S0 a) (S1 a) (S2 a) m))
         (fun m => pick4 f (swap23 (dgn w (G a) (S0 a) (S1 a) (S2 a) m))) k2 k3 n); auto; try (fold nb; lia).
      rewrite !getB_cons, !getB_flat. f_equal. apply sumR_ext. intros m Hin. apply in_seq in Hin.
      destruct m as [|m]; [lia|]. reflexivity.
    + clear next body m0.
      match goal with |- getB (forloop ?m ?nx ?bd _) _ = _ => set (next := nx); set (body := bd); set (m0 := m) end.
      replace ((a + 1)%Z, (ix P a a 0 + N)%Z, (ix P a a 0 + nb * N)%Z)
        with ((fun k => (k, ix P a k 0, ix P k a 0)) (a + 1)%Z).
      2:{ unfold ix. fold nb N. f_equal; [f_equal|]; lia. }
      rewrite (forloop_range next body (fun k => (k, ix P a k 0, ix P k a 0))).
      2:{ intros k _. unfold next, ix; simpl. fold nb N. f_equal; [f_equal|]; lia. }
      assert (HR : zrange (a + 1) (a + 1 + Z.of_nat m0) = zrange (a + 1) nb).
      { unfold zrange, m0. f_equal. f_equal. lia. }
      rewrite HR. clear HR. rewrite getB_flat. apply sumR_ext. intros b Hb. apply in_zrange in Hb.
      unfold body. set (vP := ofP w (G a) (G b)). set (vM := ofM w (G a) (G b)).
      assert (HA := npart P a b (fun m => pick4 f (vP m)) (fun m => pick4 f (swap23 (vM m))) k2 k3 n ltac:(lia) ltac:(lia) H2 H3 Hn).
      assert (HC := npart P b a (fun m => pick4 f (vM m)) (fun m => pick4 f (swap23 (vP m))) k2 k3 n ltac:(lia) ltac:(lia) H2 H3 Hn).
      cbv beta in HA, HC.
      match type of HA with ?x = _ => match type of HC with ?y = _ => transitivity (x + y) end end.
      2:{ rewrite HA, HC. reflexivity. }
      clear HA HC. rewrite !getB_cons, !getB_flat.
      assert (HQ : forall m, In m (seq 1 (mmaxn P)) ->
         getB (let p := offP w (G a) (G b) m in let q := offM w (G a) (G b) m in
               [((ix P a b 0 + Z.of_nat m)%Z, pick4 f p); ((ix P b a 0 - Z.of_nat m)%Z, pick4 f (swap23 p));
                ((ix P b a 0 + Z.of_nat m)%Z, pick4 f q); ((ix P a b 0 - Z.of_nat m)%Z, pick4 f (swap23 q))]) (ix P k2 k3 n) =
         getB [((ix P a b 0 + Z.of_nat m)%Z, pick4 f (vP m)); ((ix P a b 0 - Z.of_nat m)%Z, pick4 f (swap23 (vM m)))] (ix P k2 k3 n) +
         getB [((ix P b a 0 + Z.of_nat m)%Z, pick4 f (vM m)); ((ix P b a 0 - Z.of_nat m)%Z, pick4 f (swap23 (vP m)))] (ix P k2 k3 n)).
      { intros m Hin. apply in_seq in Hin. destruct m as [|m]; [lia|].
        change (vP (Datatypes.S m)) with (offP w (G a) (G b) (Datatypes.S m)).
        change (vM (Datatypes.S m)) with (offM w (G a) (G b) (Datatypes.S m)). cbv zeta.
        rewrite !getB_cons, !getB_nil. lra. }
      apply sumR_ext in HQ. rewrite sumR_plus in HQ. cbv zeta in HQ |- *.
      rewrite HQ. change (vP O) with (off0 w (G a) (G b)). change (vM O) with (swap23 (off0 w (G a) (G b))). lra.
  - destruct (inReg (zk z) (zmink z) k2 k3); auto. unfold triVal, sgnPick.
    destruct (Z.eqb_spec k2 k3) as [<-|Hne].
    + destruct (Z.ltb_spec n 0).
      * rewrite dgn_ref'. f_equal. f_equal. f_equal. lia.
      * rewrite dgn_ref. f_equal. f_equal. f_equal. lia.
    + destruct (Z.ltb_spec k2 k3); destruct (Z.ltb_spec n 0).
      * rewrite ofM_ref. f_equal. f_equal. lia.
      * rewrite ofP_ref. f_equal. f_equal. lia.
      * rewrite ofP_ref, swap_ref. f_equal. f_equal. lia.
      * rewrite <- (swap_swap (ofM w (G k3) (G k2) (Z.to_nat n))), ofM_ref, swap_ref. f_equal. f_equal. lia.
Qed.
Lemma pick4_add f q r : pick4 f (add4 q r) = pick4 f q + pick4 f r.
Proof. destruct f; reflexivity. Qed.
Lemma zetaGCross_get o3 y w G2 G3 f k2 k3 n :
  (0 <= yk y)%Z -> (ymink y <= nb)%Z -> (0 <= k2 < nb)%Z -> (0 <= k3 < nb)%Z ->
  (- mxn P <= n <= mxn P)%Z ->
  getB (zetaGCross P o3 y w G2 G3 f) (ix P k2 k3 n) =
  if inReg (yk y) (ymink y) k2 k3 then
    pick4 f (ref4 w (G3 k2) (G2 k3) n) +
    (if o3 then 0 else pick4 f (ref4 w (G2 k2) (G3 k3) n))
  else 0.
Proof.
  intros Hz Hm H2 H3 Hn. unfold zetaGCross.
  set (V := fun (v : cplx -> (Z -> cplx) -> (Z -> cplx) -> gam4) a b =>
    pick4 f (v w (G3 a) (G2 b)) + (if o3 then 0 else pick4 f (v w (G2 a) (G3 b)))).
  rewrite (loop2_get P y _ k2 k3 n (fun a b => V (fun w A B => ref4 w A B n) a b)); auto.
  intros a b Ha Hb.
  assert (HB : forall v, pick4 f (if o3 then v w (G3 a) (G2 b) else add4 (v w (G3 a) (G2 b)) (v w (G2 a) (G3 b))) = V v a b).
  { intro v. unfold V. destruct o3; [lra|]. apply pick4_add. }
  transitivity (if ((a =? k2)%Z && (b =? k3)%Z) then
    sgnPick (fun m => V (fun w A B => ofP w A B m) a b) (fun m => V (fun w A B => crossM w A B m) a b) n else 0).
  - rewrite <- (npart P a b (fun m => V (fun w A B => ofP w A B m) a b) (fun m => V (fun w A B => crossM w A B m) a b) k2 k3 n); auto.
    rewrite !getB_cons, !getB_flat. f_equal.
    + rewrite (HB off0). reflexivity.
    + apply sumR_ext. intros m Hin. apply in_seq in Hin. destruct m as [|m]; [lia|].
      rewrite (HB (fun w A B => offP w A B (S m))), (HB (fun w A B => crossM w A B (S m))). reflexivity.
  - destruct ((a =? k2)%Z && (b =? k3)%Z); auto. unfold sgnPick, V. destruct (Z.ltb_spec n 0).
    + rewrite !crossM_ref. replace (- Z.of_nat (Z.to_nat (- n)))%Z with n by lia. reflexivity.
    + rewrite !ofP_ref. replace (Z.of_nat (Z.to_nat n))%Z with n by lia. reflexivity.
Qed.
End I.

(** ** Complex sums over the objects *)
Lemma mpSumC_eq v mp k : mpSumC v mp k = (mpSum (fun e => fst (v e)) mp k, mpSum (fun e => snd (v e)) mp k).
Proof. reflexivity. Qed.
Section VC.
Variable P : cparams.
Hypothesis HR : crpar P = None.
Hypothesis HB : validB (cbin P).
Variables J1 J2 J3 : cell -> Prop.

Definition CVc (J : cell -> Prop) (v : gev -> cplx) (f : obj -> obj -> cplx) : Prop :=
  CV P J1 J (fun e => fst (v e)) (fun i j => fst (f i j)) /\
  CV P J1 J (fun e => snd (v e)) (fun i j => snd (f i j)).
Lemma CVc_conj J v f : CVc J v f -> CVc J (fun e => cconj (v e)) (fun i j => cconj (f i j)).
Proof. intros [H1 H2]. split; [exact H1|]. exact (CV_neg P J1 J _ _ H2). Qed.
Lemma CVc_fext J v f f' : (forall i j, f i j = f' i j) -> CVc J v f -> CVc J v f'.
Proof.
  intros E [H1 H2]. split; (eapply CV_fext; [|eassumption]); intros i j; cbv beta; rewrite E; auto.
Qed.
Lemma mpSumC_conj v mp k : mpSumC (fun e => cconj (v e)) mp k = cconj (mpSumC v mp k).
Proof. unfold mpSumC, cconj. cbn [fst snd]. f_equal. exact (mpSum_neg (fun e => snd (v e)) mp k). Qed.

Lemma auto_valC L z k2 k3 (a : obj -> cplx) a1 v g vw f h im :
  zgood P J1 J2 L z -> (zk z <= k2)%Z -> (zk z <= k3)%Z ->
  CVc J2 v f -> CVc J2 g h -> CVc J2 vw (fun i j => f i j * h i j)%C ->
  a1 = sumC a (objs (z1 z)) ->
  part im (a1 * (mpSumC v (zmp z) k2 * mpSumC g (zmp z) k3
                 - (if (k2 =? k3)%Z then mpSumC vw (zmp z) k2 else c0)))%C =
  sumR (fun i => sumR (fun q => if selT P k2 k3 i q
     then part im (a i * (f i (snd q) * h i (fst q)))%C else 0) (dpairs L)) (objs (z1 z)).
Proof.
  intros HG H2 H3 [V1 V2] [G1 G2] [W1 W2] ->.
  assert (RE : forall b : obj -> R,
    sumR b (objs (z1 z)) * (mpSum (fun e => fst (v e)) (zmp z) k2 * mpSum (fun e => fst (g e)) (zmp z) k3
      + - mpSum (fun e => snd (v e)) (zmp z) k2 * mpSum (fun e => snd (g e)) (zmp z) k3
      - (if (k2 =? k3)%Z then mpSum (fun e => fst (vw e)) (zmp z) k2 else 0)) =
    sumR (fun i => sumR (fun q => if selT P k2 k3 i q
      then b i * fst (f i (snd q) * h i (fst q))%C else 0) (dpairs L)) (objs (z1 z))).
  { intro b.
    pose proof (auto_val P HR HB J1 J2 L z k2 k3 b (sumR b (objs (z1 z))) (fun e => fst (v e)) (fun e => fst (g e))
      (negv (fun e => snd (v e))) (fun e => snd (g e)) (fun e => fst (vw e)) _ _ _ _ HG H2 H3 V1 G1
      (CV_neg P J1 J2 _ _ V2) G2) as E.
    rewrite mpSum_neg in E. rewrite E; auto.
    - apply sumR_ext. intros i _. apply sumR_ext. intros q _. destruct (selT P k2 k3 i q); auto.
      unfold cmul; cbn [fst snd]. ring.
    - eapply CV_fext; [|exact W1]. intros i j. unfold cmul; cbn [fst snd]. ring. }
  assert (IM : forall b : obj -> R,
    sumR b (objs (z1 z)) * (mpSum (fun e => fst (v e)) (zmp z) k2 * mpSum (fun e => snd (g e)) (zmp z) k3
      + mpSum (fun e => snd (v e)) (zmp z) k2 * mpSum (fun e => fst (g e)) (zmp z) k3
      - (if (k2 =? k3)%Z then mpSum (fun e => snd (vw e)) (zmp z) k2 else 0)) =
    sumR (fun i => sumR (fun q => if selT P k2 k3 i q
      then b i * snd (f i (snd q) * h i (fst q))%C else 0) (dpairs L)) (objs (z1 z))).
  { intro b.
    pose proof (auto_val P HR HB J1 J2 L z k2 k3 b (sumR b (objs (z1 z))) (fun e => fst (v e)) (fun e => snd (g e))
      (fun e => snd (v e)) (fun e => fst (g e)) (fun e => snd (vw e)) _ _ _ _ HG H2 H3 V1 G2 V2 G1) as E.
    rewrite E; auto. }
  pose proof (RE (fun i => fst (a i))) as R1. pose proof (IM (fun i => snd (a i))) as I2.
  pose proof (RE (fun i => snd (a i))) as R2. pose proof (IM (fun i => fst (a i))) as I1. clear RE IM.
  set (W := if (k2 =? k3)%Z then mpSumC vw (zmp z) k2 else c0).
  assert (EW1 : (if (k2 =? k3)%Z then mpSum (fun e => fst (vw e)) (zmp z) k2 else 0) = fst W)
    by (unfold W; destruct (k2 =? k3)%Z; reflexivity).
  assert (EW2 : (if (k2 =? k3)%Z then mpSum (fun e => snd (vw e)) (zmp z) k2 else 0) = snd W)
    by (unfold W; destruct (k2 =? k3)%Z; reflexivity).
  rewrite EW1 in R1, R2. rewrite EW2 in I1, I2. clearbody W.
  rewrite !mpSumC_eq. destruct im; unfold part, sumC, cmul at 1, csub; cbn [fst snd].
  - unfold cmul at 1 2; cbn [fst snd].
    match type of I1 with ?x = _ => match type of R2 with ?y = _ => transitivity (x + y); [ring|rewrite I1, R2] end end.
    rewrite <- sumR_plus. apply sumR_ext. intros i _. rewrite <- sumR_plus. apply sumR_ext. intros q _.
    destruct (selT P k2 k3 i q); [|lra]. unfold cmul; cbn [fst snd]. ring.
  - unfold cmul at 1 2; cbn [fst snd].
    match type of R1 with ?x = _ => match type of I2 with ?y = _ => transitivity (x - y); [ring|rewrite R1, I2] end end.
    rewrite <- sumR_minus. apply sumR_ext. intros i _. rewrite <- sumR_minus. apply sumR_ext. intros q _.
    destruct (selT P k2 k3 i q); [|lra]. unfold cmul; cbn [fst snd]. ring.
Qed.

Lemma cross_valC L2 L3 y k2 k3 (a : obj -> cplx) a1 v g f h im :
  ygood P J1 J2 J3 L2 L3 y -> (yk y <= k2)%Z -> (yk y <= k3)%Z ->
  CVc J3 v f -> CVc J2 g h ->
  a1 = sumC a (objs (y1 y)) ->
  part im (a1 * (mpSumC v (ymp3 y) k2 * mpSumC g (ymp2 y) k3))%C =
  sumR (fun i => sumR (fun q => if selT P k2 k3 i q
     then part im (a i * (f i (snd q) * h i (fst q)))%C else 0) (pairs L2 L3)) (objs (y1 y)).
Proof.
  intros HG H2 H3 [V1 V2] [G1 G2] ->.
  assert (RE : forall b : obj -> R,
    sumR b (objs (y1 y)) * (mpSum (fun e => fst (v e)) (ymp3 y) k2 * mpSum (fun e => fst (g e)) (ymp2 y) k3
      + - mpSum (fun e => snd (v e)) (ymp3 y) k2 * mpSum (fun e => snd (g e)) (ymp2 y) k3) =
    sumR (fun i => sumR (fun q => if selT P k2 k3 i q
      then b i * fst (f i (snd q) * h i (fst q))%C else 0) (pairs L2 L3)) (objs (y1 y))).
  { intro b.
    pose proof (cross_val P J1 J2 J3 L2 L3 y k2 k3 b (sumR b (objs (y1 y))) (fun e => fst (v e)) (fun e => fst (g e))
      (negv (fun e => snd (v e))) (fun e => snd (g e)) _ _ _ _ HG H2 H3 V1 G1 (CV_neg P J1 J3 _ _ V2) G2 eq_refl) as E.
    rewrite mpSum_neg in E. rewrite E.
    apply sumR_ext. intros i _. apply sumR_ext. intros q _. destruct (selT P k2 k3 i q); auto.
    unfold cmul; cbn [fst snd]. ring. }
  assert (IM : forall b : obj -> R,
    sumR b (objs (y1 y)) * (mpSum (fun e => fst (v e)) (ymp3 y) k2 * mpSum (fun e => snd (g e)) (ymp2 y) k3
      + mpSum (fun e => snd (v e)) (ymp3 y) k2 * mpSum (fun e => fst (g e)) (ymp2 y) k3) =
    sumR (fun i => sumR (fun q => if selT P k2 k3 i q
      then b i * snd (f i (snd q) * h i (fst q))%C else 0) (pairs L2 L3)) (objs (y1 y))).
  { intro b.
    exact (cross_val P J1 J2 J3 L2 L3 y k2 k3 b (sumR b (objs (y1 y))) (fun e => fst (v e)) (fun e => snd (g e))
      (fun e => snd (v e)) (fun e => fst (g e)) _ _ _ _ HG H2 H3 V1 G2 V2 G1 eq_refl). }
  pose proof (RE (fun i => fst (a i))) as R1. pose proof (IM (fun i => snd (a i))) as I2.
  pose proof (RE (fun i => snd (a i))) as R2. pose proof (IM (fun i => fst (a i))) as I1. clear RE IM.
  rewrite !mpSumC_eq. destruct im; unfold part, sumC, cmul at 1; cbn [fst snd].
  - unfold cmul at 1 2; cbn [fst snd].
    match type of I1 with ?x = _ => match type of R2 with ?y = _ => transitivity (x + y); [ring|rewrite I1, R2] end end.
    rewrite <- sumR_plus. apply sumR_ext. intros i _. rewrite <- sumR_plus. apply sumR_ext. intros q _.
    destruct (selT P k2 k3 i q); [|lra]. unfold cmul; cbn [fst snd]. ring.
  - unfold cmul at 1 2; cbn [fst snd].
    match type of R1 with ?x = _ => match type of I2 with ?y = _ => transitivity (x - y); [ring|rewrite R1, I2] end end.
    rewrite <- sumR_minus. apply sumR_ext. intros i _. rewrite <- sumR_minus. apply sumR_ext. intros q _.
    destruct (selT P k2 k3 i q); [|lra]. unfold cmul; cbn [fst snd]. ring.
Qed.
End VC.
Lemma ygood_swap P J1 J2 J3 L2 L3 y : ygood P J1 J2 J3 L2 L3 y ->
  ygood P J1 J3 J2 L3 L2 (mkZ2 (y1 y) (ymp3 y) (ymp2 y) (yk y) (ymink y)).
Proof. unfold ygood. cbn [y1 ymp2 ymp3 yk ymink]. tauto. Qed.

(** ** The calculateGn calls *)
Definition cis (t : R) : cplx := (cos t, sin t).
Lemma cis_add s t : (cis s * cis t)%C = cis (s + t).
Proof. unfold cis. cx; [rewrite cos_plus|rewrite sin_plus]; ring. Qed.
Lemma cis_conj t : cconj (cis t) = cis (- t).
Proof. unfold cis, cconj; cbn [fst snd]. rewrite cos_neg, sin_neg. auto. Qed.
Lemma cis_sq t : csq (cis t) = cis (2 * t).
Proof. unfold csq. rewrite cis_add. f_equal. ring. Qed.
Lemma timesN_cis x t n : timesN x (cis t) n = (x * cis (INR n * t))%C.
Proof.
  induction n as [|n IH].
  - cbn [timesN]. simpl INR. rewrite Rmult_0_l. unfold cis. rewrite cos_0, sin_0. cx; ring.
  - cbn [timesN]. rewrite IH, S_INR. replace ((INR n + 1) * t) with (INR n * t + t) by ring.
    rewrite <- cis_add. ring.
Qed.
Lemma exp2_cis r t : 0 < r -> expmsialpha Spin2 (r * cos t, r * sin t) = cis (- (2 * t)).
Proof.
  intro Hr. pose proof (sin2_cos2 t) as SC. unfold Rsqr in SC.
  unfold expmsialpha, safeNorm, cdivr, cconj, cmul, cnorm; cbn [fst snd].
  assert (E : r * cos t * (r * cos t) + r * sin t * (r * sin t) = r * r) by nra.
  rewrite E. destruct (Rlt_dec 0 (r * r)) as [_|N]; [|exfalso; nra].
  unfold cis. rewrite cos_neg, sin_neg, cos_2a, sin_2a. f_equal; field; lra.
Qed.

Lemma sumC_app f l m : sumC f (l ++ m) = (sumC f l + sumC f m)%C.
Proof. unfold sumC. cx; apply sumR_app. Qed.
Lemma sumC_ext f g l : (forall o, In o l -> f o = g o) -> sumC f l = sumC g l.
Proof. intro H. unfold sumC. f_equal; apply sumR_ext; intros o Ho; rewrite (H o Ho); auto. Qed.
Lemma sumC_scal f c l : (sumC f l * c)%C = sumC (fun o => f o * c)%C l.
Proof.
  unfold sumC. cx; unfold cmul; cbn [fst snd].
  - rewrite (sumR_minus (fun x => fst (f x) * fst c) (fun x => snd (f x) * snd c)), !sumR_scal_r. ring.
  - rewrite (sumR_plus (fun x => fst (f x) * snd c) (fun x => snd (f x) * fst c)), !sumR_scal_r. ring.
Qed.
Lemma sumSqC_wf (sq : cplx -> cplx) : sq (sumC owg []) = sumC (fun o => sq (owg o)) [] ->
  forall c, wf 0 c -> NoDup (map opos (objs c)) -> sumSqC Flat sq c = sumC (fun o => sq (owg o)) (objs c).
Proof.
  intro H0.
  assert (H1 : forall o, sq (sumC owg [o]) = sumC (fun o => sq (owg o)) [o]).
  { intro o. assert (E : forall f : obj -> cplx, sumC f [o] = f o) by (intro f; unfold sumC; apply cplx_eq; simpl; ring).
    rewrite !E. auto. }
  induction c as [d o|d os|d s l IHl r IHr]; intros HW HN.
  - cbn [sumSqC]. unfold cellWG. apply H1.
  - cbn [sumSqC]. unfold cellWG.
    pose proof (wf_ok _ _ HW) as HO.
    assert (HL : (length (objs (ListLeaf d os)) <= 1)%nat).
    { apply (same_pos_single _ (getPos (ListLeaf d os))); auto. intros o Ho. apply point_members; auto. }
    destruct (objs (ListLeaf d os)) as [|a [|b t]]; simpl in HL; try lia; auto.
  - destruct (wf_node _ _ _ _ _ HW) as [Wl Wr]. pose proof (wf_ok _ _ HW) as HO.
    cbn [sumSqC]. replace (isFin0 s || (dn d =? 1)%nat) with false.
    + cbn [objs] in *. rewrite map_app in HN. apply NoDup_app_both in HN as [N1 N2].
      rewrite sumC_app, IHl, IHr by auto. auto.
    + symmetry. apply orb_false_iff. split.
      * pose proof (ok_size _ _ HO) as HS. cbn in HS. destruct s as [x|]; auto. simpl.
        unfold Reqb. destruct (Req_EM_T x 0); auto. lra.
      * apply Nat.eqb_neq. pose proof (ok_n _ _ HO) as En. unfold getN in En. cbn [getData objs] in En.
        rewrite En, app_length. pose proof (ok_ne _ _ (wf_ok _ _ Wl)). pose proof (ok_ne _ _ (wf_ok _ _ Wr)).
        destruct (objs l), (objs r); simpl; try congruence; lia.
Qed.

Section CVs.
Variable P : cparams.
Hypothesis HM : plainM (cmetric P).
Hypothesis HR : crpar P = None.
Hypothesis HB : validB (cbin P).
Hypothesis HT : btype (cbin P) = BLog.
Variables J1 J2 : cell -> Prop.
Hypothesis HW2 : forall b, J2 b -> wf 0 b.
Hypothesis Hpt : forall a b k r lr, J1 a -> J2 b -> gcase P a b = GAdd k r lr ->
  (forall i, In i (objs a) -> opos i = getPos a) /\ (forall j, In j (objs b) -> opos j = getPos b).
Variable th : pos -> pos -> R.
Hypothesis Hth : polar th.
Hypothesis HE : cmetric P = Euclidean.
Hypothesis HF1 : forall a i, J1 a -> In i (objs a) -> pz (opos i) = 0.
Hypothesis HF2 : forall b j, J2 b -> In j (objs b) -> pz (opos j) = 0.
Let t (i j : obj) := th (opos i) (opos j).

Lemma gF_cis a b k r lr i j : J1 a -> J2 b -> gcase P a b = GAdd k r lr -> In i (objs a) -> In j (objs b) ->
  gFactor Flat (mkG a b k r lr) = cis (- (2 * t i j)).
Proof.
  intros Ha Hb HG Hi Hj. destruct (Hpt a b k r lr Ha Hb HG) as [P1 P2].
  destruct (gadd_facts P HM HR HB HT a b k r lr HG) as [Er [_ [Hr _]]].
  unfold gFactor, projDir. cbn [g1 g2 gr]. rewrite <- (P1 i Hi), <- (P2 j Hj) in *.
  destruct (Hth (opos i) (opos j)) as [E1 E2]; eauto.
  assert (Er' : r = euclid (opos i) (opos j)) by (rewrite Er, HE, euclid_pdist; reflexivity).
  rewrite E1, E2, <- Er'. apply exp2_cis. lra.
Qed.
Lemma CVc_of (v : gev -> cplx) (f : obj -> obj -> cplx) :
  (forall a b k r lr, J1 a -> J2 b -> gcase P a b = GAdd k r lr -> forall i, In i (objs a) ->
     v (mkG a b k r lr) = sumC (f i) (objs b)) -> CVc P J1 J2 v f.
Proof. intro H. split; intros a b k r lr Ha Hb HG i Hi; rewrite (H a b k r lr Ha Hb HG i Hi); reflexivity. Qed.

Definition gphase (m : Z) (i j : obj) : cplx := (owg j * cis (- (2 * t i j)) * cis (IZR m * t i j))%C.
Lemma CV_G m : CVc P J1 J2 (gGn Flat m) (gphase m).
Proof.
  apply CVc_of. intros a b k r lr Ha Hb HG i Hi. unfold gphase.
  pose proof (wf_ok _ _ (HW2 b Hb)) as Ob. pose proof (ok_ne _ _ Ob) as Ne.
  assert (HZ : forall j, In j (objs b) -> gz Flat (mkG a b k r lr) = cis (t i j)).
  { intros j Hj. exact (gz_cis P HM HR HB HT J1 J2 Hpt th Hth HE HF1 HF2 a b k r lr i j Ha Hb HG Hi Hj). }
  destruct (objs b) as [|j0 rest] eqn:EO; [congruence|].
  assert (Hj0 : In j0 (objs b)) by (rewrite EO; left; auto).
  assert (EG : gGn Flat m (mkG a b k r lr) = (gWG Flat (mkG a b k r lr) * cis (IZR m * t i j0))%C).
  { unfold gGn. rewrite (HZ j0) by (left; auto). rewrite cis_conj, !timesN_cis, !INR_IZR_INZ.
    destruct (Z.ltb_spec m 0); f_equal; f_equal; rewrite Z2Nat.id by lia; rewrite ?opp_IZR; ring. }
  rewrite EG. unfold gWG. cbn [g2]. rewrite (gF_cis a b k r lr i j0) by auto.
  unfold cellWG. rewrite EO, !sumC_scal. apply sumC_ext. intros j Hj.
  rewrite <- EO in Hj. destruct (Hpt a b k r lr Ha Hb HG) as [_ P2].
  unfold t. rewrite (P2 j Hj), <- (P2 j0 Hj0). reflexivity.
Qed.
Hypothesis HD2 : forall b, J2 b -> NoDup (map opos (objs b)).
Lemma CV_S (v : gev -> cplx) (f : obj -> obj -> cplx) (sq : cplx -> cplx) (c : R) (e : bool) :
  sq (sumC owg []) = sumC (fun o => sq (owg o)) [] ->
  (forall e', v e' = (sumSqC Flat sq (g2 e') * (if e then csq (gFactor Flat e') else c1)
      * (if Rle_dec c 0 then cconj (csq (gz Flat e')) else csq (gz Flat e')))%C) ->
  (c = 2 \/ c = -2) ->
  (forall i j, f i j = (sq (owg j) * (if e then cis (- (4 * t i j)) else c1) * cis (c * t i j))%C) ->
  CVc P J1 J2 v f.
Proof.
  intros H0 Hv Hc Hf. apply CVc_of. intros a b k r lr Ha Hb HG i Hi.
  pose proof (wf_ok _ _ (HW2 b Hb)) as Ob. pose proof (ok_ne _ _ Ob) as Ne.
  assert (HZ : forall j, In j (objs b) -> gz Flat (mkG a b k r lr) = cis (t i j)).
  { intros j Hj. exact (gz_cis P HM HR HB HT J1 J2 Hpt th Hth HE HF1 HF2 a b k r lr i j Ha Hb HG Hi Hj). }
  rewrite Hv. cbn [g2]. rewrite (sumSqC_wf sq H0 b (HW2 b Hb) (HD2 b Hb)), !sumC_scal.
  apply sumC_ext. intros j Hj. rewrite Hf, (HZ j Hj), (gF_cis a b k r lr i j) by auto.
  rewrite !cis_sq, cis_conj. f_equal.
  - f_equal. destruct e; auto. f_equal. ring.
  - destruct Hc as [-> | ->]; destruct (Rle_dec _ 0); try lra; f_equal; ring.
Qed.
End CVs.
