(** Facts about the complex fields: complex algebra, the projection factor, sums over runs. *)
From Coq Require Import Reals Lra Lia List ZArith Bool Permutation Psatz.
From Verif Require Import Base Geometry Tree Traverse Run Spec GeomFacts SumFacts TreeFacts BinFacts
  TravFacts Exact MetricFacts Cover Lift SpecRun Runs Spin.
Import ListNotations.
Open Scope R_scope.

(** ** Complex numbers *)
Lemma cplx_eq (z w : cplx) : fst z = fst w -> snd z = snd w -> z = w.
Proof. destruct z, w; simpl; congruence. Qed.
Lemma cmul_comm z w : cmul z w = cmul w z.
Proof. apply cplx_eq; simpl; ring. Qed.
Lemma cmul_assoc z w u : cmul z (cmul w u) = cmul (cmul z w) u.
Proof. apply cplx_eq; simpl; ring. Qed.
Lemma cnorm_nonneg z : 0 <= cnorm z.
Proof. unfold cnorm. pose proof (Rle_0_sqr (fst z)). pose proof (Rle_0_sqr (snd z)). unfold Rsqr in *. lra. Qed.
Lemma cnorm_0 z : cnorm z = 0 -> z = (0, 0).
Proof.
  unfold cnorm. intro H. pose proof (Rle_0_sqr (fst z)) as H1. pose proof (Rle_0_sqr (snd z)) as H2.
  unfold Rsqr in *. apply cplx_eq; simpl; apply Rsqr_0_uniq; unfold Rsqr; lra.
Qed.
Lemma cnorm_cmul z w : cnorm (cmul z w) = cnorm z * cnorm w.
Proof. unfold cnorm, cmul; simpl; ring. Qed.

(** d e^{ia} *)
Definition polar (d a : R) : cplx := (d * cos a, d * sin a).
Lemma polar_mul d a e b : cmul (polar d a) (polar e b) = polar (d * e) (a + b).
Proof. apply cplx_eq; unfold cmul, polar; simpl; rewrite ?cos_plus, ?sin_plus; ring. Qed.
Lemma cnorm_polar d a : cnorm (polar d a) = d * d.
Proof.
  unfold cnorm, polar; simpl. pose proof (sin2_cos2 a) as H. unfold Rsqr in H.
  replace (d * cos a * (d * cos a) + d * sin a * (d * sin a))
    with (d * d * (sin a * sin a + cos a * cos a)) by ring. rewrite H. ring.
Qed.
Lemma safeNorm_polar d a : 0 < d -> safeNorm (polar d a) = d * d.
Proof.
  intro Hd. unfold safeNorm. rewrite cnorm_polar. destruct Rlt_dec as [|n]; auto.
  exfalso. apply n. apply Rmult_lt_0_compat; auto.
Qed.
Lemma conj_polar d a : cconj (polar d a) = polar d (- a).
Proof. apply cplx_eq; unfold polar; simpl; rewrite ?cos_neg, ?sin_neg; ring. Qed.
Lemma div_polar d a e : 0 < e -> d = e -> cdivr (polar d a) e = polar 1 a.
Proof. intros He ->. apply cplx_eq; unfold polar; simpl; field; lra. Qed.
Lemma polar_exists x y : exists d a, 0 <= d /\ (x, y) = polar d a.
Proof.
  set (d := sqrt (x * x + y * y)).
  assert (H0 : 0 <= x * x + y * y).
  { pose proof (Rle_0_sqr x). pose proof (Rle_0_sqr y). unfold Rsqr in *. lra. }
  assert (Hd2 : d * d = x * x + y * y) by (apply sqrt_sqrt; auto).
  assert (Hd : 0 <= d) by apply sqrt_pos.
  destruct (Req_dec d 0) as [Hz|Hz].
  { exists 0, 0. split; [lra|]. rewrite Hz in Hd2.
    assert (HH : (x, y) = (0, 0)) by (apply cnorm_0; unfold cnorm; simpl; lra).
    rewrite HH. unfold polar. f_equal; ring. }
  assert (Hq : (x / d) * (x / d) + (y / d) * (y / d) = 1).
  { replace ((x / d) * (x / d) + (y / d) * (y / d)) with ((x * x + y * y) / (d * d)) by (field; auto).
    rewrite <- Hd2. field; auto. }
  assert (Hb : -1 <= x / d <= 1).
  { pose proof (Rle_0_sqr (y / d)) as HS. unfold Rsqr in HS. clear Hd2. split; nra. }
  assert (Hs : sin (acos (x / d)) = Rabs (y / d)).
  { rewrite sin_acos by auto. rewrite <- sqrt_Rsqr_abs. f_equal. unfold Rsqr. lra. }
  destruct (Rle_dec 0 (y / d)) as [Hy|Hy].
  - exists d, (acos (x / d)). split; auto. unfold polar.
    rewrite Hs, cos_acos, Rabs_pos_eq by auto. f_equal; field; auto.
  - exists d, (- acos (x / d)). split; auto. unfold polar.
    rewrite cos_neg, sin_neg, Hs, cos_acos, Rabs_left by (auto; lra). f_equal; field; auto.
Qed.
Lemma sqrt_sq d : 0 <= d -> sqrt (d * d) = d.
Proof. apply sqrt_square. Qed.

Definition spinN (s : spin) : R :=
  match s with Spin0 => 0 | Spin1 => 1 | Spin2 => 2 | Spin3 => 3 | Spin4 => 4 end.

(** The projection factor is e^{-i s alpha}, alpha being the polar angle of the direction. *)
Lemma expmsialpha_polar s d a : 0 < d -> expmsialpha s (polar d a) = polar 1 (- (spinN s * a)).
Proof.
  intro Hd.
  assert (H2 : 0 < d * d) by (apply Rmult_lt_0_compat; auto).
  assert (H3 : 0 < d * d * d) by (apply Rmult_lt_0_compat; auto).
  assert (H4 : 0 < d * d * (d * d)) by (apply Rmult_lt_0_compat; auto).
  destruct s; unfold expmsialpha; cbv zeta; cbn [spinN].
  - rewrite Rmult_0_l, Ropp_0. unfold polar. rewrite cos_0, sin_0. f_equal; ring.
  - rewrite safeNorm_polar, sqrt_sq, conj_polar, div_polar by lra. f_equal. ring.
  - rewrite safeNorm_polar, polar_mul, conj_polar, div_polar by lra. f_equal. ring.
  - rewrite !polar_mul, safeNorm_polar, sqrt_sq, conj_polar, div_polar by lra. f_equal. ring.
  - rewrite !polar_mul, safeNorm_polar, conj_polar, div_polar by lra. f_equal. ring.
Qed.
Lemma expmsialpha_zero s : expmsialpha s (0, 0) = match s with Spin0 => (1, 0) | _ => (0, 0) end.
Proof.
  assert (H : safeNorm (0, 0) = 1).
  { unfold safeNorm, cnorm. simpl. destruct Rlt_dec; auto. lra. }
  assert (HM : cmul (0, 0) (0, 0) = (0, 0)) by (apply cplx_eq; simpl; ring).
  destruct s; unfold expmsialpha; cbv zeta; rewrite ?HM, ?H, ?sqrt_1; auto;
    apply cplx_eq; simpl; field.
Qed.
Lemma expmsialpha_unit s r : r <> (0, 0) -> cnorm (expmsialpha s r) = 1.
Proof.
  intro Hr. destruct r as [x y]. destruct (polar_exists x y) as [d [a [Hd HE]]]. rewrite HE in *.
  assert (0 < d).
  { destruct Hd as [|<-]; auto. exfalso. apply Hr. unfold polar. f_equal; ring. }
  rewrite expmsialpha_polar, cnorm_polar by auto. ring.
Qed.

(** ** Sums over a parallel run *)
Definition contribS (co : coord) (s : spin) (f : sfield) (k : Z) (e : event) : R :=
  hit k (ek e) (evS co s f e) +
  match f with
  | SNre | SNim | SKre | SKim => 0
  | _ => match ek2 e with Some k2 => hit k k2 (evS co s f e) | None => 0 end
  end.
Lemma finishSpin_get co s f k a e : finishSpin co s a e f k = a f k + contribS co s f k e.
Proof.
  unfold finishSpin, contribS, bump2, bump, hit.
  destruct f; try (destruct (k =? ek e)%Z; ring);
    destruct (ek2 e); try (destruct (k =? ek e)%Z; ring);
    repeat (destruct (_ =? _)%Z); ring.
Qed.
Lemma applySpin_get co s f k l : forall a, applySpin co s a l f k = a f k + sumR (contribS co s f k) l.
Proof.
  induction l as [|e l IH]; intro a; simpl; [ring|].
  unfold applySpin in *. simpl. rewrite IH, finishSpin_get. ring.
Qed.
Lemma threadSpin_get co s f k iters : threadSpin co s iters f k = sumR (contribS co s f k) (concat iters).
Proof.
  unfold threadSpin.
  assert (H : forall l a, fold_left (applySpin co s) l a f k = a f k + sumR (contribS co s f k) (concat l)).
  { induction l as [|e l IH]; intro a; simpl; [ring|]. rewrite IH, applySpin_get, sumR_app. ring. }
  rewrite H. unfold scleared. ring.
Qed.
Lemma parallelSpin_get co s f k threads : forall a0,
  parallelSpin co s a0 threads f k = a0 f k + sumR (contribS co s f k) (concat (concat threads)).
Proof.
  induction threads as [|t l IH]; intro a0; simpl; [ring|].
  unfold parallelSpin in *. simpl. rewrite IH. unfold saccAdd.
  rewrite threadSpin_get, concat_app, sumR_app. ring.
Qed.
Lemma scheduleSpin_get co s f a0 evs threads k : schedule evs threads ->
  parallelSpin co s a0 threads f k = a0 f k + sumR (contribS co s f k) (concat evs).
Proof.
  intro H. rewrite parallelSpin_get. f_equal. apply sumR_perm.
  apply Permutation_sym, perm_concat; auto.
Qed.

(** ** Bilinearity: grouping objects at one position *)
Lemma kern_form co s f p1 p2 w1 wk1 g1 g2 :
  let K := kern co s f p1 p2 in
  K w1 wk1 g1 g2 =
    w1 * (K 1 0 (0,0) (1,0) * fst g2 + K 1 0 (0,0) (0,1) * snd g2) +
    wk1 * (K 0 1 (0,0) (1,0) * fst g2 + K 0 1 (0,0) (0,1) * snd g2) +
    fst g1 * (K 0 0 (1,0) (1,0) * fst g2 + K 0 0 (1,0) (0,1) * snd g2) +
    snd g1 * (K 0 0 (0,1) (1,0) * fst g2 + K 0 0 (0,1) (0,1) * snd g2).
Proof.
  intro K. unfold K, kern, project1, project2.
  generalize (gsign s) (oddSpin s). intros sg od.
  destruct co; generalize (expmsialpha s); intro E.
  - generalize (E (projDir Flat p1 p2)). intro e. destruct f; simpl; ring.
  - generalize (E (projDir ThreeD p1 p2)) (E (projDir ThreeD p2 p1)). intros e e'.
    destruct f, od; simpl; ring.
  - generalize (E (projDir Sphere p1 p2)) (E (projDir Sphere p2 p1)). intros e e'.
    destruct f, od; simpl; ring.
Qed.

Lemma kern_sum co s f p1 p2 l1 l2 :
  kern co s f p1 p2 (sumR ow l1) (sumR (fun o => ow o * okappa o) l1) (sumC owg l1) (sumC owg l2) =
  sumR (fun oo => kern co s f p1 p2 (ow (fst oo)) (ow (fst oo) * okappa (fst oo)) (owg (fst oo)) (owg (snd oo)))
    (pairs l1 l2).
Proof.
  rewrite kern_form. cbv zeta.
  set (K := kern co s f p1 p2).
  erewrite (sumR_ext (fun oo => K (ow (fst oo)) _ _ _)) by (intros; unfold K; rewrite kern_form; fold K; reflexivity).
  cbv beta zeta. fold K. unfold sumC. cbn [fst snd].
  rewrite !sumR_plus.
  rewrite (sumR_pairs_prod ow (fun o => K 1 0 (0,0) (1,0) * fst (owg o) + K 1 0 (0,0) (0,1) * snd (owg o))).
  rewrite (sumR_pairs_prod (fun o => ow o * okappa o) (fun o => K 0 1 (0,0) (1,0) * fst (owg o) + K 0 1 (0,0) (0,1) * snd (owg o))).
  rewrite (sumR_pairs_prod (fun o => fst (owg o)) (fun o => K 0 0 (1,0) (1,0) * fst (owg o) + K 0 0 (1,0) (0,1) * snd (owg o))).
  rewrite (sumR_pairs_prod (fun o => snd (owg o)) (fun o => K 0 0 (0,1) (1,0) * fst (owg o) + K 0 0 (0,1) (0,1) * snd (owg o))).
  rewrite !sumR_plus, !sumR_scal. reflexivity.
Qed.

Definition atCentre (c : cell) : Prop := forall o, In o (objs c) -> opos o = getPos c.

Lemma cellWG_atCentre co s c : atCentre c -> cellWG co s c = sumC owg (objs c).
Proof.
  intro H.
  assert (HT : transportSum s (getPos c) (objs c) = sumC owg (objs c)).
  { unfold transportSum, sumC.
    assert (HF : forall o, In o (objs c) ->
      cmul (owg o) (transportFactor s (pz (getPos c)) (normalize Sphere (getPos c)) (normalize Sphere (opos o))) = owg o).
    { intros o Ho. rewrite (H o Ho). unfold transportFactor. cbv zeta.
      replace (normSq (psub (normalize Sphere (getPos c)) (normalize Sphere (getPos c)))) with 0
        by (unfold normSq, psub; cbn [px py pz]; ring).
      destruct Rlt_dec as [_|n].
      - apply cplx_eq; simpl; ring.
      - exfalso. apply n. apply Rinv_0_lt_compat. apply pow_lt. lra. }
    f_equal; apply sumR_ext; intros o Ho; rewrite HF by auto; auto. }
  unfold cellWG. destruct co; auto; destruct (objs c) as [|o [|o' l]] eqn:E; auto;
    unfold sumC; simpl; apply cplx_eq; simpl; ring.
Qed.

(** What a pair of objects adds, by the program's own formula. *)
Definition kernO (co : coord) (s : spin) (f : sfield) (o1 o2 : obj) : R :=
  kern co s f (opos o1) (opos o2) (ow o1) (ow o1 * okappa o1) (owg o1) (owg o2).

Lemma evS_atCentre co s f m e : okcell m (ec1 e) -> atCentre (ec1 e) -> atCentre (ec2 e) ->
  evS co s f e = sumR (fun oo => kernO co s f (fst oo) (snd oo)) (evPairs e).
Proof.
  intros O H1 H2. unfold evS. rewrite !cellWG_atCentre by auto.
  change (getW (ec1 e)) with (dw (getData (ec1 e))).
  pose proof (ok_w _ _ O) as HW. unfold getW in HW. rewrite HW, (ok_wk _ _ O), kern_sum.
  apply sumR_ext. intros [o1 o2] Ho. apply in_pairs in Ho as [I1 I2]. unfold kernO. cbn [fst snd].
  rewrite (H1 o1), (H2 o2) by auto. auto.
Qed.

Lemma kern_W0 co s f o1 o2 : ow o1 = 0 \/ ow o2 = 0 -> kernO co s f o1 o2 = 0.
Proof.
  intro H. unfold kernO. rewrite kern_form. cbv zeta. unfold owg. cbn [fst snd].
  destruct H as [-> | ->]; ring.
Qed.

(** ** Whole runs *)
Definition specS (co : coord) (s : spin) (P : cparams) (f : sfield) (k : Z) (oo : obj * obj) : R :=
  if selM P k (fst oo) (snd oo) then kernO co s f (fst oo) (snd oo) else 0.

Definition zeroSingle (P : cparams) (c1 c2 : cell) : Prop :=
  single P c1 c2 -> effSum P c1 c2 = Fin 0 /\ atCentre c1 /\ atCentre c2.
Lemma zeroSingle_exact P c1 c2 : zeroSingle P c1 c2 -> exactCond P c1 c2.
Proof. intros H x o1 o2 Hx HS _ _. left. destruct (H HS) as [H0 _]. congruence. Qed.
Lemma decide_single P c1 c2 rsq k r lr : decide11 P c1 c2 = Direct rsq k r lr -> single P c1 c2.
Proof.
  intro HD.
  destruct (decide_cases P c1 c2) as [[HC _]|[[k' [r' [lr' [HC [_ [_ [_ [HS _]]]]]]]]|[a [b HC]]]];
    try (rewrite HC in HD; discriminate). exists (k', r', lr'). auto.
Qed.

Lemma W0_all m c : okcell m c -> (forall o, In o (objs c) -> 0 <= ow o) -> getW c = 0 ->
  forall o, In o (objs c) -> ow o = 0.
Proof.
  intros O Hw HW. rewrite (ok_w _ _ O) in HW. revert Hw HW. generalize (objs c). clear.
  induction l as [|a l IH]; simpl; intros Hw HW o [].
  - subst. pose proof (Hw o (or_introl eq_refl)).
    assert (0 <= sumR ow l) by (apply sumR_nonneg; intros; apply Hw; auto). lra.
  - apply IH; auto. pose proof (Hw a (or_introl eq_refl)).
    assert (0 <= sumR ow l) by (apply sumR_nonneg; intros; apply Hw; auto). lra.
Qed.

Lemma dropS co s P f k m c1 c2 : validB (cbin P) -> okcell m c1 -> okcell m c2 ->
  (forall o, In o (objs c1) -> 0 <= ow o) -> (forall o, In o (objs c2) -> 0 <= ow o) ->
  pairOK P 0 c1 c2 -> exactCond P c1 c2 -> decide11 P c1 c2 = Drop ->
  sumR (specS co s P f k) (pairs (objs c1) (objs c2)) = 0.
Proof.
  intros HB O1 O2 Hw1 Hw2 HP HE HD. apply sumR_0. intros [o1 o2] Ho.
  apply in_pairs in Ho as [I1 I2]. unfold specS; cbn [fst snd].
  destruct (Req_dec (getW c1) 0) as [Hz|Hz]; [|destruct (Req_dec (getW c2) 0) as [Hz'|Hz']].
  - rewrite kern_W0 by (left; eapply (W0_all m c1); eauto). destruct selM; auto.
  - rewrite kern_W0 by (right; eapply (W0_all m c2); eauto). destruct selM; auto.
  - rewrite (drop_exact P m c1 c2); auto.
Qed.

Lemma directS co s P f k m c1 c2 rsq k0 r lr : validB (cbin P) -> okcell m c1 -> okcell m c2 ->
  pairOK P 0 c1 c2 -> zeroSingle P c1 c2 -> decide11 P c1 c2 = Direct rsq k0 r lr ->
  sumR (specS co s P f k) (pairs (objs c1) (objs c2)) =
  contribS co s f k (directProcess11 P false c1 c2 rsq k0 r lr).
Proof.
  intros HB O1 O2 HP HZ HD.
  set (e := directProcess11 P false c1 c2 rsq k0 r lr).
  destruct (direct_ec P false c1 c2 rsq k0 r lr) as [Hc1 Hc2]. fold e in Hc1, Hc2.
  assert (He2 : ek2 e = None) by apply direct_ek2.
  destruct (HZ (decide_single _ _ _ _ _ _ _ HD)) as [_ [A1 A2]].
  rewrite (sumR_ext _ (fun oo => if (k =? ek e)%Z then kernO co s f (fst oo) (snd oo) else 0)).
  2:{ intros [o1 o2] Ho. apply in_pairs in Ho as [I1 I2]. unfold specS; cbn [fst snd].
      rewrite (direct_exact P false m c1 c2 rsq k0 r lr o1 o2 k); auto. apply zeroSingle_exact; auto. }
  unfold contribS. rewrite He2. unfold hit.
  replace (match f with SNre | SNim | SKre | SKim => 0 | _ => 0 end) with 0 by (destruct f; auto).
  destruct (k =? ek e)%Z; [|rewrite sumR_0; [lra|auto]].
  rewrite Rplus_0_r, (evS_atCentre co s f m) by (rewrite ?Hc1, ?Hc2; auto).
  unfold evPairs. rewrite Hc1, Hc2. auto.
Qed.

Definition goodS (P : cparams) (c1 c2 : cell) : Prop := pairOK P 0 c1 c2 /\ zeroSingle P c1 c2.

Lemma processCrossS_exact co s P f k F1 F2 cat1 cat2 cells1 cells2 a0 a1 :
  validB (cbin P) -> fminsize F1 = 0 -> fminsize F2 = 0 ->
  buildField F1 cat1 cells1 -> buildField F2 cat2 cells2 ->
  nonnegW cat1 -> nonnegW cat2 ->
  (forall a b, inTops cells1 a -> inTops cells2 b -> goodS P a b) ->
  (crossEarlyExit P (fieldCenter F1 cat1) (fieldCenter F2 cat2) (fieldSize F1 cat1) (fieldSize F2 cat2) = true ->
   forall o1 o2, In o1 cat1 -> In o2 cat2 -> selM P k o1 o2 = false) ->
  processCrossS co s P (fieldCenter F1 cat1) (fieldCenter F2 cat2) (fieldSize F1 cat1) (fieldSize F2 cat2)
    cells1 cells2 a0 a1 ->
  a1 f k = a0 f k + sumR (specS co s P f k) (pairs cat1 cat2).
Proof.
  intros HB Hm1 Hm2 B1 B2 Hw1 Hw2 HG HX H. unfold processCrossS in H.
  pose proof (buildField_perm _ _ _ B1) as P1. pose proof (buildField_perm _ _ _ B2) as P2.
  destruct (crossEarlyExit P _ _ _ _) eqn:EX.
  - subst a1. rewrite sumR_0; [lra|]. intros [o1 o2] Ho. apply in_pairs in Ho as [I1 I2].
    unfold specS; cbn [fst snd]. rewrite HX; auto.
  - destruct H as [evs [threads [HE [HS ->]]]].
    rewrite (scheduleSpin_get co s f a0 evs threads k HS). f_equal.
    transitivity (sumR (specS co s P f k) (pairs (allObjs cells1) (allObjs cells2))).
    2:{ apply sumR_perm, pairs_perm; auto. }
    symmetry. eapply covers_sum; [apply cross_covers; eauto| |].
    + intros e [a [b [rsq [k0 [r [lr [Ha [Hb [HD ->]]]]]]]]].
      unfold evPairs. destruct (direct_ec P false a b rsq k0 r lr) as [-> ->].
      destruct (HG a b Ha Hb) as [G1 G2].
      apply (directS co s P f k 0); auto; [exact (cells_ok0 F1 cat1 cells1 a Hm1 B1 Ha)|exact (cells_ok0 F2 cat2 cells2 b Hm2 B2 Hb)].
    + intros [a b] [Ha [Hb HD]]. cbn [fst snd] in *. unfold cPairs; cbn [fst snd].
      destruct (HG a b Ha Hb) as [G1 G2].
      apply (dropS co s P f k 0); auto; [exact (cells_ok0 F1 cat1 cells1 a Hm1 B1 Ha)|exact (cells_ok0 F2 cat2 cells2 b Hm2 B2 Hb)| | |].
      * intros o Ho. apply Hw1. exact (inTops_obj_cat F1 cat1 cells1 a o B1 Ha Ho).
      * intros o Ho. apply Hw2. exact (inTops_obj_cat F2 cat2 cells2 b o B2 Hb Ho).
      * apply zeroSingle_exact; auto.
Qed.

Lemma processAutoS_exact co s P f k F cat cells a0 a1 :
  validB (cbin P) -> fminsize F = 0 -> buildField F cat cells -> nonnegW cat ->
  (forall a b, inTops cells a -> inTops cells b -> goodS P a b) ->
  (forall c, inTops cells c -> selfOK P c) ->
  (forall x y, specS co s P f k (x, y) = specS co s P f k (y, x)) ->
  (forall p q, mdist (cmetric P) p q = mdist (cmetric P) q p) ->
  (forall o1 o2, In (o1, o2) (upairs cat) -> mdist (cmetric P) (opos o1) (opos o2) <> minsep (cbin P)) ->
  processAutoS co s P cells a0 a1 ->
  a1 f k = a0 f k + sumR (specS co s P f k) (upairs cat).
Proof.
  intros HB Hm BF Hw HG HS Hsym Hds Hne [evs [threads [HE [HSch ->]]]].
  pose proof (buildField_perm _ _ _ BF) as HP.
  rewrite (scheduleSpin_get co s f a0 evs threads k HSch). f_equal.
  rewrite (sumR_upairs_perm (specS co s P f k) cat (allObjs cells)) by (auto; symmetry; auto).
  assert (Hrev : do_reverse (cbin P) = false).
  { unfold do_reverse. pose proof (vb_not2d _ HB). destruct (btype (cbin P)); auto; congruence. }
  assert (HO : forall c, inTops cells c -> okcell 0 c) by (intros c Hc; exact (cells_ok0 F cat cells c Hm BF Hc)).
  assert (HW : forall c, inTops cells c -> forall o, In o (objs c) -> 0 <= ow o).
  { intros c Hc o Ho. apply Hw. exact (inTops_obj_cat F cat cells c o BF Hc Ho). }
  symmetry. eapply autoCovers_sum; [apply auto_covers; eauto| | |].
  - rewrite Hrev. intros e [a [b [rsq [k0 [r [lr [Ha [Hb [HD ->]]]]]]]]].
    unfold evPairs. destruct (direct_ec P false a b rsq k0 r lr) as [-> ->].
    destruct (HG a b Ha Hb) as [G1 G2].
    apply (directS co s P f k 0); auto.
  - intros [a b] [Ha [Hb HD]]. cbn [fst snd] in *. unfold cPairs; cbn [fst snd].
    destruct (HG a b Ha Hb) as [G1 G2].
    apply (dropS co s P f k 0); eauto using zeroSingle_exact.
  - intros c [Hc HD]. apply sumR_0. intros [o1 o2] Ho. unfold specS; cbn [fst snd].
    pose proof (in_upairs _ _ _ Ho) as [I1 I2].
    destruct HD as [HWc|HD].
    + rewrite kern_W0 by (left; eapply (W0_all 0 c); eauto). destruct selM; auto.
    + rewrite sel_not_range; auto. right; left.
      pose proof (HS c Hc HD o1 o2 I1 I2).
      assert (mdist (cmetric P) (opos o1) (opos o2) <> minsep (cbin P)).
      { pose proof (inTops_upairs cells c (o1, o2) Hc Ho) as Hin.
        destruct (in_upairs_perm _ _ _ _ HP Hin) as [Hi|Hi]; [apply Hne; auto|rewrite Hds; apply Hne; auto]. }
      lra.
Qed.

(** When the cells that are used have size zero: angle_slop = 0, or brute-force trees. *)
Lemma singleBin_a0 B rsq x p1 p2 kr : btype B <> BTwoD -> slop_a B = 0 ->
  singleBin B rsq (Fin x) p1 p2 = Some kr -> x = 0.
Proof.
  intros HT Ha H. unfold singleBin in H. rewrite Ha in H.
  assert (Hx : x <> 0 -> 0 * 0 * rsq < x * x).
  { intro Hn. rewrite !Rmult_0_l. pose proof (Rlt_0_sqr x Hn) as HH. unfold Rsqr in HH. lra. }
  destruct (Req_dec x 0) as [|Hn]; auto. exfalso. specialize (Hx Hn). unfold Rsqr in H.
  destruct (btype B); [|  |congruence].
  - destruct (Req_EM_T x 0); [contradiction|]. destruct Rlt_dec; [discriminate|lra].
  - destruct Rlt_dec; [discriminate|lra].
Qed.

Lemma size0_atCentre c : okcell 0 c -> getSize c = Fin 0 -> atCentre c.
Proof.
  intros O Hs o Ho. symmetry. apply pdist_0.
  pose proof (member_within 0 c o 0 ltac:(lra) O Ho Hs). pose proof (pdist_nonneg (getPos c) (opos o)). lra.
Qed.

Lemma zeroSingle_a0 P c1 c2 : btype (cbin P) <> BTwoD -> cmetric P = Euclidean -> slop_a (cbin P) = 0 ->
  okcell 0 c1 -> okcell 0 c2 -> zeroSingle P c1 c2.
Proof.
  intros HT HM Ha O1 O2 [kr HS].
  destruct (effSum P c1 c2) as [x|] eqn:ES; [|discriminate].
  assert (x = 0) by (eapply singleBin_a0; eauto). subst x. split; auto.
  pose proof (size_nonneg _ _ O1) as N1. pose proof (size_nonneg _ _ O2) as N2.
  unfold effSum in ES. rewrite HM in ES. simpl in ES.
  destruct (getSize c1) as [x1|] eqn:E1, (getSize c2) as [x2|] eqn:E2; try discriminate.
  simpl in *. injection ES; intro HE.
  split; apply size0_atCentre; auto; [rewrite E1|rewrite E2]; f_equal; lra.
Qed.
Lemma zeroSingle_brute P c1 c2 : okcell 0 c1 -> okcell 0 c2 -> bruteTree c1 -> bruteTree c2 -> zeroSingle P c1 c2.
Proof.
  intros O1 O2 B1 B2 [kr HS].
  destruct (effSum P c1 c2) as [x|] eqn:ES; [|discriminate].
  destruct (brute_effSum P 0 c1 c2 x O1 O2 B1 B2 ES) as [-> [E1 E2]].
  split; auto. split; apply size0_atCentre; auto.
Qed.

Lemma minsize_a0 P : validB (cbin P) -> slop_a (cbin P) = 0 -> fst (getMinMaxSize P) = 0.
Proof.
  intros HB Ha0. pose proof (vb_b _ HB) as Hb. unfold getMinMaxSize.
  destruct (cmetric P); simpl; auto. rewrite Ha0. destruct (btype (cbin P)); simpl.
  - rewrite Rmin_left by auto. unfold Rdiv. ring.
  - rewrite Rmin_left; [unfold Rdiv; ring|]. unfold Rdiv. rewrite !Rmult_0_l. lra.
  - rewrite Rmin_left; [unfold Rdiv; ring|]. unfold Rdiv. rewrite !Rmult_0_l. lra.
Qed.

(** angle_slop = 0, Euclidean metric, any bin_slop. *)
Lemma runCrossS_a0 R s f k cat1 cat2 a0 a1 :
  validB (cbin (rP R)) -> crpar (rP R) = None -> cmetric (rP R) = Euclidean -> slop_a (cbin (rP R)) = 0 ->
  nonnegW cat1 -> nonnegW cat2 -> runCrossS R s cat1 cat2 a0 a1 ->
  a1 f k = a0 f k + sumR (specS (rcoord R) s (rP R) f k) (pairs cat1 cat2).
Proof.
  intros HB Hr HM Ha Hw1 Hw2 [cells1 [cells2 [B1 [B2 H]]]].
  set (F1 := fieldParams R (brute1 (rbrute R))) in *.
  set (F2 := fieldParams R (brute2 (rbrute R))) in *.
  assert (Hm1 : fminsize F1 = 0) by (apply fieldParams_min0; right; apply minsize_a0; auto).
  assert (Hm2 : fminsize F2 = 0) by (apply fieldParams_min0; right; apply minsize_a0; auto).
  assert (HL : lipM (cmetric (rP R)) anyPos anyPos) by (rewrite HM; apply lip_euclid).
  eapply (processCrossS_exact (rcoord R) s (rP R) f k F1 F2); eauto.
  - intros a b Ha' Hb'. split.
    + apply (pairOK_lip (rP R) anyPos anyPos a b HL Hr); try exact I.
      * exact (cells_ok0 F1 cat1 cells1 a Hm1 B1 Ha').
      * exact (cells_ok0 F2 cat2 cells2 b Hm2 B2 Hb').
    + apply zeroSingle_a0; auto; [apply HB|exact (cells_ok0 F1 cat1 cells1 a Hm1 B1 Ha')|exact (cells_ok0 F2 cat2 cells2 b Hm2 B2 Hb')].
  - intros HX o1 o2 I1 I2. apply sel_not_range; auto. right.
    eapply (lip_field (rP R) anyPos anyPos F1 F2 cat1 cat2); eauto; exact I.
Qed.

Lemma runCrossS_brute R D1 D2 s f k cat1 cat2 a0 a1 :
  validB (cbin (rP R)) -> crpar (rP R) = None -> rbrute R = BruteBoth ->
  lipM (cmetric (rP R)) D1 D2 ->
  D1 (fieldCenter (fieldParams R true) cat1) -> D2 (fieldCenter (fieldParams R true) cat2) ->
  nonnegW cat1 -> nonnegW cat2 -> runCrossS R s cat1 cat2 a0 a1 ->
  a1 f k = a0 f k + sumR (specS (rcoord R) s (rP R) f k) (pairs cat1 cat2).
Proof.
  intros HB Hr Hbr HL HD1 HD2 Hw1 Hw2 [cells1 [cells2 [B1 [B2 H]]]].
  rewrite Hbr in *. cbn [brute1 brute2] in *.
  set (F := fieldParams R true) in *.
  assert (Hm : fminsize F = 0) by reflexivity.
  eapply (processCrossS_exact (rcoord R) s (rP R) f k F F); eauto.
  - intros a b Ha Hb.
    assert (O1 : okcell 0 a) by exact (cells_ok0 F cat1 cells1 a Hm B1 Ha).
    assert (O2 : okcell 0 b) by exact (cells_ok0 F cat2 cells2 b Hm B2 Hb).
    assert (T1 : bruteTree a) by (eapply inTops_brute; [|exact Ha]; eapply (buildField_brute F); eauto).
    assert (T2 : bruteTree b) by (eapply inTops_brute; [|exact Hb]; eapply (buildField_brute F); eauto).
    split; [apply pairOK_brute; auto|apply zeroSingle_brute; auto].
  - intros HX o1 o2 I1 I2. apply sel_not_range; auto. right.
    eapply (lip_field (rP R) D1 D2 F F cat1 cat2); eauto.
Qed.

(** Symmetry of the pair values under exchange. *)
Definition symField (f : sfield) : Prop := match f with SPre | SMre | SMim => True | _ => False end.
Lemma expmsialpha_opp s r : expmsialpha s (cscale (-1) r) =
  cscale (if oddSpin s then -1 else 1) (expmsialpha s r).
Proof.
  destruct r as [x y]. destruct (polar_exists x y) as [d [a [Hd HE]]]. rewrite HE.
  destruct Hd as [Hd|<-].
  - assert (HO : cscale (-1) (polar d a) = polar d (a + PI)).
    { apply cplx_eq; unfold polar; simpl; rewrite ?neg_cos, ?neg_sin; ring. }
    rewrite HO, !expmsialpha_polar by auto.
    assert (HC : forall n : nat, forall t, cos (t + 2 * INR n * PI) = cos t /\ sin (t + 2 * INR n * PI) = sin t).
    { intros n t. split; [apply cos_period|apply sin_period]. }
    assert (P2 : forall t, cos (t - 2 * PI) = cos t /\ sin (t - 2 * PI) = sin t).
    { intro t. pose proof (HC 1%nat (t - 2 * PI)) as [A B]. simpl in A, B. split; [rewrite <- A|rewrite <- B]; f_equal; ring. }
    assert (P4 : forall t, cos (t - 4 * PI) = cos t /\ sin (t - 4 * PI) = sin t).
    { intro t. pose proof (HC 2%nat (t - 4 * PI)) as [A B]. simpl in A, B. split; [rewrite <- A|rewrite <- B]; f_equal; ring. }
    assert (P1 : forall t, cos (t - PI) = - cos t /\ sin (t - PI) = - sin t).
    { intro t. pose proof (neg_cos (t - PI)) as A. pose proof (neg_sin (t - PI)) as B.
      replace (t - PI + PI) with t in A, B by ring. lra. }
    assert (P3 : forall t, cos (t - 3 * PI) = - cos t /\ sin (t - 3 * PI) = - sin t).
    { intro t. replace (t - 3 * PI) with ((t - PI) - 2 * PI) by ring.
      destruct (P2 (t - PI)) as [-> ->]. apply P1. }
    destruct s; cbn [spinN oddSpin]; apply cplx_eq; unfold polar; cbn [fst snd cscale].
    + f_equal; rewrite !Rmult_0_l; ring.
    + rewrite !Rmult_0_l; ring.
    + replace (- (1 * (a + PI))) with (- (1 * a) - PI) by ring. destruct (P1 (- (1 * a))) as [A B]; rewrite ?A, ?B. ring.
    + replace (- (1 * (a + PI))) with (- (1 * a) - PI) by ring. destruct (P1 (- (1 * a))) as [A B]; rewrite ?A, ?B. ring.
    + replace (- (2 * (a + PI))) with (- (2 * a) - 2 * PI) by ring. destruct (P2 (- (2 * a))) as [A B]; rewrite ?A, ?B. ring.
    + replace (- (2 * (a + PI))) with (- (2 * a) - 2 * PI) by ring. destruct (P2 (- (2 * a))) as [A B]; rewrite ?A, ?B. ring.
    + replace (- (3 * (a + PI))) with (- (3 * a) - 3 * PI) by ring. destruct (P3 (- (3 * a))) as [A B]; rewrite ?A, ?B. ring.
    + replace (- (3 * (a + PI))) with (- (3 * a) - 3 * PI) by ring. destruct (P3 (- (3 * a))) as [A B]; rewrite ?A, ?B. ring.
    + replace (- (4 * (a + PI))) with (- (4 * a) - 4 * PI) by ring. destruct (P4 (- (4 * a))) as [A B]; rewrite ?A, ?B. ring.
    + replace (- (4 * (a + PI))) with (- (4 * a) - 4 * PI) by ring. destruct (P4 (- (4 * a))) as [A B]; rewrite ?A, ?B. ring.
  - replace (polar 0 a) with ((0, 0) : cplx) by (unfold polar; f_equal; ring).
    replace (cscale (-1) (0, 0)) with ((0, 0) : cplx) by (unfold cscale; simpl; f_equal; ring).
    rewrite expmsialpha_zero. destruct s; unfold cscale; simpl; f_equal; ring.
Qed.
Lemma kernO_sym co s f x y : symField f -> kernO co s f x y = kernO co s f y x.
Proof.
  intro Hf. unfold kernO, kern, project1, project2. destruct co.
  - replace (projDir Flat (opos y) (opos x)) with (cscale (-1) (projDir Flat (opos x) (opos y)))
      by (unfold projDir, cscale; cbn [fst snd]; f_equal; ring).
    rewrite expmsialpha_opp. generalize (expmsialpha s (projDir Flat (opos x) (opos y))). intro e.
    generalize (oddSpin s). intro od.
    destruct f; simpl in Hf; try contradiction; destruct od; cbn; ring.
  - generalize (expmsialpha s (projDir ThreeD (opos x) (opos y))) (expmsialpha s (projDir ThreeD (opos y) (opos x))) (oddSpin s).
    intros e e' od. destruct f; simpl in Hf; try contradiction; destruct od; cbn; ring.
  - generalize (expmsialpha s (projDir Sphere (opos x) (opos y))) (expmsialpha s (projDir Sphere (opos y) (opos x))) (oddSpin s).
    intros e e' od. destruct f; simpl in Hf; try contradiction; destruct od; cbn; ring.
Qed.
Lemma specS_sym co s P f k x y : symM (cmetric P) -> crpar P = None -> symField f ->
  specS co s P f k (x, y) = specS co s P f k (y, x).
Proof.
  intros HS Hr Hf. unfold specS, selM, rparInb. rewrite Hr. cbn [fst snd].
  rewrite (HS (opos x)), (kernO_sym co s f x y) by auto. auto.
Qed.

Lemma runAutoS_a0 R s f k cat a0 a1 :
  validB (cbin (rP R)) -> crpar (rP R) = None -> cmetric (rP R) = Euclidean -> slop_a (cbin (rP R)) = 0 ->
  offMinSep (cbin (rP R)) (mdist (cmetric (rP R))) cat -> symField f ->
  nonnegW cat -> runAutoS R s cat a0 a1 ->
  a1 f k = a0 f k + sumR (specS (rcoord R) s (rP R) f k) (upairs cat).
Proof.
  intros HB Hr HM Ha Hoff Hf Hw [cells [B H]].
  set (F := fieldParams R (bruteAuto (rbrute R))) in *.
  assert (Hm : fminsize F = 0) by (apply fieldParams_min0; right; apply minsize_a0; auto).
  assert (HL : lipM (cmetric (rP R)) anyPos anyPos) by (rewrite HM; apply lip_euclid).
  assert (HSy : symM (cmetric (rP R))) by (rewrite HM; apply symM_euclid).
  eapply (processAutoS_exact (rcoord R) s (rP R) f k F); eauto.
  - intros a b Ha' Hb'.
    assert (O1 : okcell 0 a) by exact (cells_ok0 F cat cells a Hm B Ha').
    assert (O2 : okcell 0 b) by exact (cells_ok0 F cat cells b Hm B Hb').
    split; [apply (pairOK_lip (rP R) anyPos anyPos a b HL Hr); auto; exact I|].
    apply zeroSingle_a0; auto. apply HB.
  - intros c Hc. apply selfOK_size; [rewrite HM; apply subEuclid_euclid|exact (cells_ok0 F cat cells c Hm B Hc)].
  - intros x y. apply specS_sym; auto.
Qed.
Lemma runAutoS_brute R s f k cat a0 a1 :
  validB (cbin (rP R)) -> crpar (rP R) = None -> rbrute R <> BruteNo ->
  posPeriod (cmetric (rP R)) -> symM (cmetric (rP R)) ->
  offMinSep (cbin (rP R)) (mdist (cmetric (rP R))) cat -> symField f ->
  nonnegW cat -> runAutoS R s cat a0 a1 ->
  a1 f k = a0 f k + sumR (specS (rcoord R) s (rP R) f k) (upairs cat).
Proof.
  intros HB Hr Hbr HPer HSym Hoff Hf Hw [cells [B H]].
  set (F := fieldParams R (bruteAuto (rbrute R))) in *.
  assert (Hb' : fbrute F = true) by (simpl; destruct (rbrute R); auto; congruence).
  assert (Hm : fminsize F = 0) by (apply fieldParams_min0; left; exact Hb').
  assert (HO : forall c, inTops cells c -> okcell 0 c) by (intros c Hc; exact (cells_ok0 F cat cells c Hm B Hc)).
  assert (HT : forall c, inTops cells c -> bruteTree c).
  { intros c Hc. eapply inTops_brute; [|exact Hc]. eapply (buildField_brute F); eauto. }
  eapply (processAutoS_exact (rcoord R) s (rP R) f k F); eauto.
  - intros a b Ha Hb. split; [apply pairOK_brute; auto|apply zeroSingle_brute; auto].
  - intros c Hc. apply selfOK_brute; auto. apply minsep_nonneg; auto.
  - intros x y. apply specS_sym; auto.
Qed.

(** Runs exist. *)
Lemma runCrossS_exists R s cat1 cat2 a0 : validB (cbin (rP R)) -> cat1 <> [] -> cat2 <> [] ->
  exists a1, runCrossS R s cat1 cat2 a0 a1.
Proof.
  intros HB H1 H2. unfold runCrossS, processCrossS.
  destruct (buildField_exists (fieldParams R (brute1 (rbrute R))) cat1 H1) as [cells1 B1].
  destruct (buildField_exists (fieldParams R (brute2 (rbrute R))) cat2 H2) as [cells2 B2].
  destruct (crossEarlyExit _ _ _ _ _) eqn:EX.
  - exists a0, cells1, cells2. auto.
  - destruct (crossIters_total (rP R) (fst (getMinMaxSize (rP R))) cells1 cells2) as [evs He].
    + apply HB.
    + eapply run_wf; eauto.
    + eapply run_wf; eauto.
    + exists (parallelSpin (rcoord R) s a0 [evs]), cells1, cells2. split; auto. split; auto. exists evs, [evs].
      split; auto. split; auto. apply schedule_exists.
Qed.
Lemma runAutoS_exists R s cat a0 : validB (cbin (rP R)) -> cat <> [] -> exists a1, runAutoS R s cat a0 a1.
Proof.
  intros HB H1. unfold runAutoS, processAutoS.
  destruct (buildField_exists (fieldParams R (bruteAuto (rbrute R))) cat H1) as [cells B].
  destruct (autoIters_total (rP R) (fst (getMinMaxSize (rP R))) cells) as [evs He].
  - apply HB.
  - apply minsep_nonneg; auto.
  - eapply run_wf; eauto.
  - exists (parallelSpin (rcoord R) s a0 [evs]), cells. split; auto. exists evs, [evs].
    split; auto. split; auto. apply schedule_exists.
Qed.
