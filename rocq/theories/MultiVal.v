(** Values added by one calculateZeta call, per array. *)
From Coq Require Import Reals Lra Lia List ZArith Bool Permutation Psatz.
From Verif Require Import Base Geometry Tree Traverse Spin Run Corr3 Spec SpecRun GeomFacts SumFacts TreeFacts
  BinFacts TravFacts Exact MetricFacts Cover Lift Runs Multi SpecMulti MultiFacts MultiFacts2 MultiIdx MultiTot MultiCV.
Import ListNotations.
Open Scope R_scope.

Definition TT (C : cparams) (T : obj -> obj -> obj -> R) (k2 k3 : Z) (i : obj) (l : list (obj * obj)) : R :=
  sumR (fun q => if selT C k2 k3 i q then T i (fst q) (snd q) else 0) l.
Lemma TT_ext C T T' k2 k3 i l : (forall p2 p3, T i p2 p3 = T' i p2 p3) -> TT C T k2 k3 i l = TT C T' k2 k3 i l.
Proof. intro H. apply sumR_ext. intros q _. rewrite H. auto. Qed.
Lemma TT_app C T k2 k3 i l m : TT C T k2 k3 i (l ++ m) = TT C T k2 k3 i l + TT C T k2 k3 i m.
Proof. apply sumR_app. Qed.

Definition sgn (n : Z) : R := if (n <? 0)%Z then -1 else 1.
(** e^(i m (th13 - th12)), for the sign of n *)
Definition trig (im : bool) (n : Z) (c13 s13 c12 s12 : R) : R :=
  if im then sgn n * (s13 * c12 - c13 * s12) else c13 * c12 + s13 * s12.

Lemma CV_fext C J1 J2 v (f f' : obj -> obj -> R) : (forall i j, f i j = f' i j) -> CV C J1 J2 v f -> CV C J1 J2 v f'.
Proof.
  intros H HC a b k r lr Ha Hb HG i Hi. rewrite (HC a b k r lr Ha Hb HG i Hi). apply sumR_ext. auto.
Qed.
Section A1.
Variable P : mparams.
Let C := mC P.
Hypothesis HR : crpar C = None.
Hypothesis HB : validB (cbin C).
Let nb := nbins (mB P).
Variables J1 J2 : cell -> Prop.
Hypothesis HW1 : forall a, J1 a -> wf 0 a.
Hypothesis HW2 : forall b, J2 b -> wf 0 b.
Variable L : list obj.
Variable z : zev.
Hypothesis HZ : zgood C J1 J2 L z.
Variables k2 k3 : Z.
Hypothesis H2 : (0 <= k2 < nb)%Z.
Hypothesis H3 : (0 <= k3 < nb)%Z.
Let Hk0 : (0 <= zk z)%Z := proj1 (proj2 HZ).
Let Hk1 : (zmink z <= nb)%Z := proj1 (proj2 (proj2 HZ)).
Let Hz1 : J1 (z1 z) := proj1 HZ.
Let mp := zmp z.

Lemma a_N : INR (getN (z1 z)) = sumR (fun _ => 1) (objs (z1 z)).
Proof.
  rewrite (ok_n _ _ (wf_ok _ _ (HW1 _ Hz1))). clear.
  induction (objs (z1 z)) as [|x t IH]; [auto|]. rewrite (S_INR (length t) : INR (length (x :: t)) = _), IH. simpl. lra.
Qed.
Lemma a_wt wt u : wtOf wt u -> wt (getData (z1 z)) = sumR u (objs (z1 z)).
Proof. intro H. apply H. apply wf_ok; auto. Qed.
Lemma a_W : getW (z1 z) = sumR ow (objs (z1 z)).
Proof. exact (a_wt dw ow wt_w). Qed.

(** One product of sums. *)
Lemma val1 T (a : obj -> R) a1 v g vw f h : inReg (zk z) (zmink z) k2 k3 = true ->
  CV C J1 J2 v f -> CV C J1 J2 g h -> CV C J1 J2 vw (fun i j => f i j * h i j) ->
  a1 = sumR a (objs (z1 z)) -> (forall i p2 p3, T i p2 p3 = a i * (f i p3 * h i p2)) ->
  a1 * (mpSum v mp k2 * mpSum g mp k3 - (if (k2 =? k3)%Z then mpSum vw mp k2 else 0)) =
  sumR (fun i => TT C T k2 k3 i (dpairs L)) (objs (z1 z)).
Proof.
  intros HI Cv Cg Cw Ha HTT. apply reg_ge in HI as [I2 I3].
  pose proof (auto_val C HR HB J1 J2 L z k2 k3 a a1 v g (fun _ => 0) (fun _ => 0) vw f h (fun _ _ => 0) (fun _ _ => 0)
    HZ I2 I3 Cv Cg (CV_zero C J1 J2) (CV_zero C J1 J2)) as E.
  rewrite !mpSum_zero in E. fold mp in E.
  transitivity (a1 * (mpSum v mp k2 * mpSum g mp k3 + 0 * 0 - (if (k2 =? k3)%Z then mpSum vw mp k2 else 0))); [ring|].
  rewrite E; auto.
  - apply sumR_ext. intros i _. apply sumR_ext. intros q _. rewrite HTT. destruct (selT C k2 k3 i q); auto. ring.
  - eapply CV_fext; [|exact Cw]. intros; simpl; ring.
Qed.

Lemma val_ntri : getB (bumpsAuto P z MNtri) (ix P k2 k3 0) =
  if inReg (zk z) (zmink z) k2 k3 then sumR (fun i => TT C t_one k2 k3 i (dpairs L)) (objs (z1 z)) else 0.
Proof.
  unfold bumpsAuto. rewrite baseAuto_get by (auto; unfold mxn; lia).
  rewrite Z.eqb_refl, andb_true_r. destruct (inReg (zk z) (zmink z) k2 k3) eqn:EI; auto.
  rewrite <- (val1 t_one (fun _ => 1) (INR (getN (z1 z))) gN gN gN (fun _ _ => 1) (fun _ _ => 1)); auto.
  - unfold triVal. fold mp. destruct (Z.eqb_spec k2 k3) as [E|E]; [subst; ring|].
    destruct (k2 <? k3)%Z; ring.
  - apply CV_N; auto.
  - apply CV_N; auto.
  - eapply CV_fext; [|apply CV_N; auto]. intros; simpl; ring.
  - apply a_N.
  - intros; unfold t_one; ring.
Qed.

(** Mean sides: [s] is w*g(r), [ss] is w^2*g(r). *)
Lemma val_d2 (D : obj -> obj -> R) s ss :
  CV C J1 J2 s (fun i j => ow j * D i j) -> CV C J1 J2 ss (fun i j => ow j * ow j * D i j) ->
  getB (baseAuto P z (fun k2 => getW (z1 z) * (mpSum gW mp k2 * mpSum s mp k2 - mpSum ss mp k2))
     (fun k2 k3 => getW (z1 z) * mpSum gW mp k3 * mpSum s mp k2)
     (fun k2 k3 => getW (z1 z) * mpSum gW mp k2 * mpSum s mp k3)) (ix P k2 k3 0) =
  if inReg (zk z) (zmink z) k2 k3
  then sumR (fun i => TT C (fun p1 p2 p3 => t_www p1 p2 p3 * D p1 p3) k2 k3 i (dpairs L)) (objs (z1 z)) else 0.
Proof.
  intros Cs Css. rewrite baseAuto_get by (auto; unfold mxn; lia).
  rewrite Z.eqb_refl, andb_true_r. destruct (inReg (zk z) (zmink z) k2 k3) eqn:EI; auto.
  rewrite <- (val1 (fun p1 p2 p3 => t_www p1 p2 p3 * D p1 p3) ow (getW (z1 z)) s gW ss
     (fun i j => ow j * D i j) (fun i j => ow j)); auto.
  - unfold triVal. destruct (Z.eqb_spec k2 k3) as [E|E]; [subst; ring|].
    destruct (k2 <? k3)%Z; ring.
  - apply CV_W; auto.
  - eapply CV_fext; [|exact Css]. intros; simpl; ring.
  - apply a_W.
  - intros; unfold t_www; ring.
Qed.
Lemma val_d3 (D : obj -> obj -> R) s ss :
  CV C J1 J2 s (fun i j => ow j * D i j) -> CV C J1 J2 ss (fun i j => ow j * ow j * D i j) ->
  getB (baseAuto P z (fun k2 => getW (z1 z) * (mpSum gW mp k2 * mpSum s mp k2 - mpSum ss mp k2))
     (fun k2 k3 => getW (z1 z) * mpSum gW mp k2 * mpSum s mp k3)
     (fun k2 k3 => getW (z1 z) * mpSum gW mp k3 * mpSum s mp k2)) (ix P k2 k3 0) =
  if inReg (zk z) (zmink z) k2 k3
  then sumR (fun i => TT C (fun p1 p2 p3 => t_www p1 p2 p3 * D p1 p2) k2 k3 i (dpairs L)) (objs (z1 z)) else 0.
Proof.
  intros Cs Css. rewrite baseAuto_get by (auto; unfold mxn; lia).
  rewrite Z.eqb_refl, andb_true_r. destruct (inReg (zk z) (zmink z) k2 k3) eqn:EI; auto.
  rewrite <- (val1 (fun p1 p2 p3 => t_www p1 p2 p3 * D p1 p2) ow (getW (z1 z)) gW s ss
     (fun i j => ow j) (fun i j => ow j * D i j)); auto.
  - unfold triVal. destruct (Z.eqb_spec k2 k3) as [E|E]; [subst; ring|].
    destruct (k2 <? k3)%Z; ring.
  - apply CV_W; auto.
  - eapply CV_fext; [|exact Css]. intros; simpl; ring.
  - apply a_W.
  - intros; unfold t_www; ring.
Qed.

(** Weights and zeta. *)
Lemma val_zeta co wt (u : obj -> R) n (cc ss : obj -> obj -> R) im :
  wtOf wt u -> (- mxn P <= n <= mxn P)%Z ->
  (forall i j, cc i j * cc i j + ss i j * ss i j = 1) ->
  CV C J1 J2 (gRe co wt (Z.abs_nat n)) (fun i j => u j * cc i j) ->
  CV C J1 J2 (gIm co wt (Z.abs_nat n)) (fun i j => u j * ss i j) ->
  CV C J1 J2 (fun e => sumSq wt (g2 e)) (fun i j => u j * u j) ->
  getB (zetaAuto P z (wt (getData (z1 z))) (mpC co wt mp) (mpSum (fun e => sumSq wt (g2 e)) mp) im) (ix P k2 k3 n) =
  if inReg (zk z) (zmink z) k2 k3
  then sumR (fun i => TT C (fun p1 p2 p3 => u p1 * u p2 * u p3 *
      trig im n (cc p1 p3) (ss p1 p3) (cc p1 p2) (ss p1 p2)) k2 k3 i (dpairs L)) (objs (z1 z)) else 0.
Proof.
  intros HU Hn HCS Cr Ci Cq. rewrite zetaAuto_get by auto.
  destruct (inReg (zk z) (zmink z) k2 k3) eqn:EI; auto.
  apply reg_ge in EI as [I2 I3].
  set (m := Z.abs_nat n) in *. set (a1 := wt (getData (z1 z))).
  assert (Ha : a1 = sumR u (objs (z1 z))) by (apply a_wt; auto).
  set (Re := mpSum (gRe co wt m) mp). set (Im := mpSum (gIm co wt m) mp).
  set (Q := mpSum (fun e => sumSq wt (g2 e)) mp).
  assert (HX : forall k, mpC co wt mp k m = (Re k, Im k)) by reflexivity.
  assert (HSP : forall v v' : nat -> R, sgnPick v v' n = if (n <? 0)%Z then v' m else v m).
  { intros v v'. unfold sgnPick. destruct (Z.ltb_spec n 0).
    - replace (Z.to_nat (- n)) with m by (subst m; lia). auto.
    - replace (Z.to_nat n) with m by (subst m; lia). auto. }
  destruct im; cbv zeta.
  - (* imaginary *)
    pose proof (auto_val C HR HB J1 J2 L z k2 k3 u a1 (gIm co wt m) (gRe co wt m) (gRe co wt m) (negv (gIm co wt m))
      (fun _ => 0) _ _ _ _ HZ I2 I3 Ci Cr Cr (CV_neg C J1 J2 _ _ Ci)) as E.
    rewrite mpSum_neg, mpSum_zero in E. fold mp in E. fold Re in E. fold Im in E.
    assert (E' : sgn n * (a1 * (Im k2 * Re k3 - Re k2 * Im k3)) =
      sumR (fun i => TT C (fun p1 p2 p3 => u p1 * u p2 * u p3 *
        trig true n (cc p1 p3) (ss p1 p3) (cc p1 p2) (ss p1 p2)) k2 k3 i (dpairs L)) (objs (z1 z))).
    { transitivity (sgn n * (a1 * (Im k2 * Re k3 + Re k2 * - Im k3 - (if (k2 =? k3)%Z then 0 else 0)))).
      { destruct (k2 =? k3)%Z; ring. }
      rewrite E; auto.
      - rewrite <- sumR_scal. apply sumR_ext. intros i _. unfold TT. rewrite <- sumR_scal. apply sumR_ext. intros q _.
        unfold trig. destruct (selT C k2 k3 i q); ring.
      - eapply CV_fext; [|apply CV_zero]. intros; simpl; ring. }
    rewrite <- E'. unfold triVal. destruct (Z.eqb_spec k2 k3) as [Ek|Ek]; [subst k3; ring|].
    destruct (k2 <? k3)%Z; rewrite HSP, !HX; unfold sgn, part, www, cmul, cscale, cconj; cbn [fst snd];
      destruct (n <? 0)%Z; ring.
  - pose proof (auto_val C HR HB J1 J2 L z k2 k3 u a1 (gRe co wt m) (gRe co wt m) (gIm co wt m) (gIm co wt m)
      (fun e => sumSq wt (g2 e)) _ _ _ _ HZ I2 I3 Cr Cr Ci Ci) as E.
    fold mp in E. fold Re in E. fold Im in E. fold Q in E.
    assert (E' : a1 * (Re k2 * Re k3 + Im k2 * Im k3 - (if (k2 =? k3)%Z then Q k2 else 0)) =
      sumR (fun i => TT C (fun p1 p2 p3 => u p1 * u p2 * u p3 *
        trig false n (cc p1 p3) (ss p1 p3) (cc p1 p2) (ss p1 p2)) k2 k3 i (dpairs L)) (objs (z1 z))).
    { rewrite E; auto.
      - apply sumR_ext. intros i _. apply sumR_ext. intros q _.
        unfold trig. destruct (selT C k2 k3 i q); ring.
      - eapply CV_fext; [|exact Cq]. intros i j; simpl.
        transitivity (u j * u j * (cc i j * cc i j + ss i j * ss i j)); [rewrite HCS; ring|ring]. }
    rewrite <- E'. unfold triVal. destruct (Z.eqb_spec k2 k3) as [Ek|Ek].
    { subst k3. rewrite HSP, !HX. unfold cnorm. cbn [fst snd]. destruct (n <? 0)%Z; ring. }
    destruct (k2 <? k3)%Z; rewrite HSP, !HX; unfold part, www, cmul, cscale, cconj; cbn [fst snd];
      destruct (n <? 0)%Z; ring.
Qed.
End A1.

Section A2.
Variable P : mparams.
Let C := mC P.
Hypothesis HR : crpar C = None.
Hypothesis HB : validB (cbin C).
Let nb := nbins (mB P).
Variables J1 J2 J3 : cell -> Prop.
Hypothesis HW1 : forall a, J1 a -> wf 0 a.
Hypothesis HW2 : forall b, J2 b -> wf 0 b.
Hypothesis HW3 : forall b, J3 b -> wf 0 b.
Variables L2 L3 : list obj.
Variable y : zev2.
Hypothesis HY : ygood C J1 J2 J3 L2 L3 y.
Variables k2 k3 : Z.
Hypothesis H2 : (0 <= k2 < nb)%Z.
Hypothesis H3 : (0 <= k3 < nb)%Z.
Let Hk0 : (0 <= yk y)%Z := proj1 (proj2 HY).
Let Hk1 : (ymink y <= nb)%Z := proj1 (proj2 (proj2 HY)).
Let Hy1 : J1 (y1 y) := proj1 HY.
Let p2 := ymp2 y.
Let p3 := ymp3 y.

Lemma c_N : INR (getN (y1 y)) = sumR (fun _ => 1) (objs (y1 y)).
Proof.
  rewrite (ok_n _ _ (wf_ok _ _ (HW1 _ Hy1))). clear.
  induction (objs (y1 y)) as [|x t IH]; [auto|]. rewrite (S_INR (length t) : INR (length (x :: t)) = _), IH. simpl. lra.
Qed.
Lemma c_wt wt u : wtOf wt u -> wt (getData (y1 y)) = sumR u (objs (y1 y)).
Proof. intro H. apply H. apply wf_ok; auto. Qed.
Lemma c_W : getW (y1 y) = sumR ow (objs (y1 y)).
Proof. exact (c_wt dw ow wt_w). Qed.

Lemma cval1 T (a : obj -> R) a1 v g f h : inReg (yk y) (ymink y) k2 k3 = true ->
  CV C J1 J3 v f -> CV C J1 J2 g h -> a1 = sumR a (objs (y1 y)) ->
  (forall i x2 x3, T i x2 x3 = a i * (f i x3 * h i x2)) ->
  a1 * (mpSum v p3 k2 * mpSum g p2 k3) = sumR (fun i => TT C T k2 k3 i (pairs L2 L3)) (objs (y1 y)).
Proof.
  intros HI Cv Cg Ha HTT. apply reg_ge in HI as [I2 I3].
  pose proof (cross_val C J1 J2 J3 L2 L3 y k2 k3 a a1 v g (fun _ => 0) (fun _ => 0) f h (fun _ _ => 0) (fun _ _ => 0)
    HY I2 I3 Cv Cg (CV_zero C J1 J3) (CV_zero C J1 J2) Ha) as E.
  rewrite !mpSum_zero in E. fold p2 p3 in E.
  transitivity (a1 * (mpSum v p3 k2 * mpSum g p2 k3 + 0 * 0)); [ring|]. rewrite E.
  apply sumR_ext. intros i _. apply sumR_ext. intros q _. rewrite HTT. destruct (selT C k2 k3 i q); auto. ring.
Qed.
Lemma cval1' T (a : obj -> R) a1 v g f h : inReg (yk y) (ymink y) k2 k3 = true ->
  CV C J1 J2 v f -> CV C J1 J3 g h -> a1 = sumR a (objs (y1 y)) ->
  (forall i x2 x3, T i x2 x3 = a i * (f i x3 * h i x2)) ->
  a1 * (mpSum v p2 k2 * mpSum g p3 k3) = sumR (fun i => TT C T k2 k3 i (pairs L3 L2)) (objs (y1 y)).
Proof.
  intros HI Cv Cg Ha HTT. apply reg_ge in HI as [I2 I3].
  pose proof (cross_val' C J1 J2 J3 L2 L3 y k2 k3 a a1 v g (fun _ => 0) (fun _ => 0) f h (fun _ _ => 0) (fun _ _ => 0)
    HY I2 I3 Cv Cg (CV_zero C J1 J2) (CV_zero C J1 J3) Ha) as E.
  rewrite !mpSum_zero in E. fold p2 p3 in E.
  transitivity (a1 * (mpSum v p2 k2 * mpSum g p3 k3 + 0 * 0)); [ring|]. rewrite E.
  apply sumR_ext. intros i _. apply sumR_ext. intros q _. rewrite HTT. destruct (selT C k2 k3 i q); auto. ring.
Qed.

(** ordered: (p2,p3) in cat2 x cat3; otherwise both orders. *)
Definition plist (o3 : bool) : list (obj * obj) :=
  if o3 then pairs L2 L3 else pairs L2 L3 ++ pairs L3 L2.
Definition spec2 (o3 : bool) (T : obj -> obj -> obj -> R) : R :=
  if inReg (yk y) (ymink y) k2 k3 then sumR (fun i => TT C T k2 k3 i (plist o3)) (objs (y1 y)) else 0.
Lemma spec2_no T : spec2 false T = if inReg (yk y) (ymink y) k2 k3 then
  sumR (fun i => TT C T k2 k3 i (pairs L2 L3)) (objs (y1 y)) +
  sumR (fun i => TT C T k2 k3 i (pairs L3 L2)) (objs (y1 y)) else 0.
Proof.
  unfold spec2, plist. destruct (inReg _ _ _ _); auto. rewrite <- sumR_plus. apply sumR_ext. intros. apply TT_app.
Qed.
Lemma one_get (v : Z -> Z -> R) :
  getB (loop2 P y (fun a b i => [(i, v a b)])) (ix P k2 k3 0) = if inReg (yk y) (ymink y) k2 k3 then v k2 k3 else 0.
Proof.
  apply (loop2_get P y (fun a b i => [(i, v a b)]) k2 k3 0 v); auto.
  intros a b Ha Hb. rewrite getB_cons, getB_nil.
  rewrite ix_eqb by (auto; unfold mxn; lia). rewrite Z.eqb_refl, andb_true_r.
  destruct ((a =? k2)%Z && (b =? k3)%Z); ring.
Qed.

Lemma cval_ntri o3 : getB (bumpsCross P o3 y MNtri) (ix P k2 k3 0) = spec2 o3 t_one.
Proof.
  destruct o3; unfold bumpsCross; rewrite one_get.
  - unfold spec2, plist. destruct (inReg (yk y) (ymink y) k2 k3) eqn:EI; auto.
    rewrite <- (cval1 t_one (fun _ => 1) (INR (getN (y1 y))) gN gN (fun _ _ => 1) (fun _ _ => 1)); auto.
    + fold p2 p3. ring.
    + apply CV_N; auto.
    + apply CV_N; auto.
    + apply c_N.
    + intros; unfold t_one; ring.
  - rewrite spec2_no. destruct (inReg (yk y) (ymink y) k2 k3) eqn:EI; auto.
    rewrite <- (cval1 t_one (fun _ => 1) (INR (getN (y1 y))) gN gN (fun _ _ => 1) (fun _ _ => 1)); auto;
      [rewrite <- (cval1' t_one (fun _ => 1) (INR (getN (y1 y))) gN gN (fun _ _ => 1) (fun _ _ => 1)); auto|..];
      try (apply CV_N; auto); try apply c_N; try (intros; unfold t_one; ring);
      try (fold p2 p3; ring).
Qed.

(** sides *)
Lemma cval_d2 (D : obj -> obj -> R) s (o3 : bool) :
  CV C J1 J2 s (fun i j => ow j * D i j) -> CV C J1 J3 s (fun i j => ow j * D i j) ->
  getB (loop2 P y (fun a b i => [(i, if o3 then getW (y1 y) * mpSum gW p2 b * mpSum s p3 a
     else getW (y1 y) * (mpSum gW p2 b * mpSum s p3 a + mpSum gW p3 b * mpSum s p2 a))])) (ix P k2 k3 0) =
  spec2 o3 (fun x1 x2 x3 => t_www x1 x2 x3 * D x1 x3).
Proof.
  intros C2 C3. rewrite one_get. set (T := fun x1 x2 x3 => t_www x1 x2 x3 * D x1 x3).
  assert (HTT : forall i x2 x3, T i x2 x3 = ow i * ((ow x3 * D i x3) * ow x2)) by (intros; unfold T, t_www; ring).
  destruct o3.
  - unfold spec2, plist. destruct (inReg (yk y) (ymink y) k2 k3) eqn:EI; auto.
    rewrite <- (cval1 T ow (getW (y1 y)) s gW (fun i j => ow j * D i j) (fun _ j => ow j)); auto.
    + ring.
    + apply CV_W; auto.
    + apply c_W.
  - rewrite spec2_no. destruct (inReg (yk y) (ymink y) k2 k3) eqn:EI; auto.
    rewrite <- (cval1 T ow (getW (y1 y)) s gW (fun i j => ow j * D i j) (fun _ j => ow j)); auto;
      [rewrite <- (cval1' T ow (getW (y1 y)) s gW (fun i j => ow j * D i j) (fun _ j => ow j)); auto|..];
      try (apply CV_W; auto); try apply c_W; try ring.
Qed.
Lemma cval_d3 (D : obj -> obj -> R) s (o3 : bool) :
  CV C J1 J2 s (fun i j => ow j * D i j) -> CV C J1 J3 s (fun i j => ow j * D i j) ->
  getB (loop2 P y (fun a b i => [(i, if o3 then getW (y1 y) * mpSum gW p3 a * mpSum s p2 b
     else getW (y1 y) * (mpSum gW p2 a * mpSum s p3 b + mpSum gW p3 a * mpSum s p2 b))])) (ix P k2 k3 0) =
  spec2 o3 (fun x1 x2 x3 => t_www x1 x2 x3 * D x1 x2).
Proof.
  intros C2 C3. rewrite one_get. set (T := fun x1 x2 x3 => t_www x1 x2 x3 * D x1 x2).
  assert (HTT : forall i x2 x3, T i x2 x3 = ow i * (ow x3 * (ow x2 * D i x2))) by (intros; unfold T, t_www; ring).
  destruct o3.
  - unfold spec2, plist. destruct (inReg (yk y) (ymink y) k2 k3) eqn:EI; auto.
    rewrite <- (cval1 T ow (getW (y1 y)) gW s (fun _ j => ow j) (fun i j => ow j * D i j)); auto.
    + ring.
    + apply CV_W; auto.
    + apply c_W.
  - rewrite spec2_no. destruct (inReg (yk y) (ymink y) k2 k3) eqn:EI; auto.
    rewrite <- (cval1 T ow (getW (y1 y)) gW s (fun _ j => ow j) (fun i j => ow j * D i j)); auto;
      [rewrite <- (cval1' T ow (getW (y1 y)) gW s (fun _ j => ow j) (fun i j => ow j * D i j)); auto|..];
      try (apply CV_W; auto); try apply c_W; try ring.
Qed.

(** weights and zeta *)
Definition zval (o3 : bool) (co : coord) (wt : cdata -> R) (k2 k3 : Z) (n : nat) : cplx :=
  let a := www (wt (getData (y1 y))) (mpC co wt p3 k2 n) (mpC co wt p2 k3 n) in
  if o3 then a else cadd a (www (wt (getData (y1 y))) (mpC co wt p2 k2 n) (mpC co wt p3 k3 n)).
Lemma cval_zeta o3 co wt (u : obj -> R) n (cc ss : obj -> obj -> R) im :
  wtOf wt u -> (- mxn P <= n <= mxn P)%Z ->
  CV C J1 J2 (gRe co wt (Z.abs_nat n)) (fun i j => u j * cc i j) ->
  CV C J1 J2 (gIm co wt (Z.abs_nat n)) (fun i j => u j * ss i j) ->
  CV C J1 J3 (gRe co wt (Z.abs_nat n)) (fun i j => u j * cc i j) ->
  CV C J1 J3 (gIm co wt (Z.abs_nat n)) (fun i j => u j * ss i j) ->
  getB (loop2 P y (fun k2 k3 i =>
      (i, part im (zval o3 co wt k2 k3 0%nat)) ::
      flat_map (fun n => [((i + Z.of_nat n)%Z, part im (zval o3 co wt k2 k3 n));
                          ((i - Z.of_nat n)%Z, (if im then -1 else 1) * part im (zval o3 co wt k2 k3 n))])
        (seq 1 (mmaxn P)))) (ix P k2 k3 n) =
  spec2 o3 (fun x1 x2 x3 => u x1 * u x2 * u x3 * trig im n (cc x1 x3) (ss x1 x3) (cc x1 x2) (ss x1 x2)).
Proof.
  intros HU Hn Cr2 Ci2 Cr3 Ci3.
  rewrite (loop2_get P y _ k2 k3 n (fun a b => sgnPick (fun m => part im (zval o3 co wt a b m))
     (fun m => (if im then -1 else 1) * part im (zval o3 co wt a b m)) n)); auto.
  2:{ intros a b Ha Hb. apply (npart P a b (fun m => part im (zval o3 co wt a b m))
        (fun m => (if im then -1 else 1) * part im (zval o3 co wt a b m)) k2 k3 n); auto. }
  match goal with |- _ = spec2 o3 ?t => set (T := t) end.
  set (m := Z.abs_nat n) in *. set (a1 := wt (getData (y1 y))).
  assert (Ha : a1 = sumR u (objs (y1 y))) by (apply c_wt; auto).
  set (Re2 := mpSum (gRe co wt m) p2). set (Im2 := mpSum (gIm co wt m) p2).
  set (Re3 := mpSum (gRe co wt m) p3). set (Im3 := mpSum (gIm co wt m) p3).
  assert (HX2 : forall k, mpC co wt p2 k m = (Re2 k, Im2 k)) by reflexivity.
  assert (HX3 : forall k, mpC co wt p3 k m = (Re3 k, Im3 k)) by reflexivity.
  assert (HSP : forall v v' : nat -> R, sgnPick v v' n = if (n <? 0)%Z then v' m else v m).
  { intros v v'. unfold sgnPick. destruct (Z.ltb_spec n 0).
    - replace (Z.to_nat (- n)) with m by (subst m; lia). auto.
    - replace (Z.to_nat n) with m by (subst m; lia). auto. }
  rewrite HSP.
  assert (HA : inReg (yk y) (ymink y) k2 k3 = true ->
    (if im then sgn n * (a1 * (Im3 k2 * Re2 k3 - Re3 k2 * Im2 k3)) else a1 * (Re3 k2 * Re2 k3 + Im3 k2 * Im2 k3)) =
    sumR (fun i => TT C T k2 k3 i (pairs L2 L3)) (objs (y1 y)) /\
    (if im then sgn n * (a1 * (Im2 k2 * Re3 k3 - Re2 k2 * Im3 k3)) else a1 * (Re2 k2 * Re3 k3 + Im2 k2 * Im3 k3)) =
    sumR (fun i => TT C T k2 k3 i (pairs L3 L2)) (objs (y1 y))).
  { intro EI. apply reg_ge in EI as [I2 I3]. destruct im.
    - pose proof (cross_val C J1 J2 J3 L2 L3 y k2 k3 u a1 (gIm co wt m) (gRe co wt m) (gRe co wt m) (negv (gIm co wt m))
        _ _ _ _ HY I2 I3 Ci3 Cr2 Cr3 (CV_neg C J1 J2 _ _ Ci2) Ha) as E.
      pose proof (cross_val' C J1 J2 J3 L2 L3 y k2 k3 u a1 (gIm co wt m) (gRe co wt m) (gRe co wt m) (negv (gIm co wt m))
        _ _ _ _ HY I2 I3 Ci2 Cr3 Cr2 (CV_neg C J1 J3 _ _ Ci3) Ha) as E'.
      rewrite mpSum_neg in E, E'. fold p2 p3 in E, E'. fold Re2 Im2 Re3 Im3 in E, E'.
      split.
      + replace (Im3 k2 * Re2 k3 - Re3 k2 * Im2 k3) with (Im3 k2 * Re2 k3 + Re3 k2 * - Im2 k3) by ring.
        rewrite E, <- sumR_scal. apply sumR_ext. intros i _. unfold TT. rewrite <- sumR_scal. apply sumR_ext. intros q _.
        unfold T, trig. destruct (selT C k2 k3 i q); ring.
      + replace (Im2 k2 * Re3 k3 - Re2 k2 * Im3 k3) with (Im2 k2 * Re3 k3 + Re2 k2 * - Im3 k3) by ring.
        rewrite E', <- sumR_scal. apply sumR_ext. intros i _. unfold TT. rewrite <- sumR_scal. apply sumR_ext. intros q _.
        unfold T, trig. destruct (selT C k2 k3 i q); ring.
    - pose proof (cross_val C J1 J2 J3 L2 L3 y k2 k3 u a1 (gRe co wt m) (gRe co wt m) (gIm co wt m) (gIm co wt m)
        _ _ _ _ HY I2 I3 Cr3 Cr2 Ci3 Ci2 Ha) as E.
      pose proof (cross_val' C J1 J2 J3 L2 L3 y k2 k3 u a1 (gRe co wt m) (gRe co wt m) (gIm co wt m) (gIm co wt m)
        _ _ _ _ HY I2 I3 Cr2 Cr3 Ci2 Ci3 Ha) as E'.
      fold p2 p3 in E, E'. fold Re2 Im2 Re3 Im3 in E, E'.
      split; [rewrite E|rewrite E']; apply sumR_ext; intros i _; apply sumR_ext; intros q _;
        unfold T, trig; destruct (selT C k2 k3 i q); ring. }
  destruct o3.
  - unfold spec2, plist. destruct (inReg (yk y) (ymink y) k2 k3) eqn:EI; auto.
    destruct (HA eq_refl) as [E _]. rewrite <- E. unfold zval. rewrite HX2, HX3.
    unfold www, cmul, cscale, cconj, part, sgn; cbn [fst snd]. fold a1. destruct im, (n <? 0)%Z; ring.
  - rewrite spec2_no. destruct (inReg (yk y) (ymink y) k2 k3) eqn:EI; auto.
    destruct (HA eq_refl) as [E E']. rewrite <- E, <- E'. unfold zval. rewrite !HX2, !HX3.
    unfold www, cmul, cscale, cconj, cadd, part, sgn; cbn [fst snd]. fold a1. destruct im, (n <? 0)%Z; ring.
Qed.
End A2.
