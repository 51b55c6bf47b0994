(** Facts about the three-point shear correlation: what one call adds, accumulation, and the
    agreement of the projections with the specification. *)
From Coq Require Import Reals Lra Lia List ZArith Bool Permutation Psatz.
From Verif Require Import Base Geometry Tree Traverse Spec GeomFacts SumFacts TreeFacts TravFacts
  MetricFacts Cover Runs Examples Corr3 TriCover TriStop SpecTri TriFacts TriSpec Spin SpinFacts SpecSpin PropsSpin
  SpecSphere SphereFacts PropsSphere PropsTri SpecSas GGG SpecGGG.
Import ListNotations.
Open Scope R_scope.

(** ** One call of ProcessZeta *)
Definition ovG (co : coord) (f : gfield) (a b c : obj) (d1 d2 d3 u v : R) : R :=
  kernG co f (opos a) (opos b) (opos c) (owg a) (owg b) (owg c).

(** what is added is linear in each of the three values *)
Lemma kernG_lin1 co f p1 p2 p3 g1 g2 g3 : kernG co f p1 p2 p3 g1 g2 g3 =
  fst g1 * kernG co f p1 p2 p3 (1, 0) g2 g3 + snd g1 * kernG co f p1 p2 p3 (0, 1) g2 g3.
Proof. unfold kernG, project3, cmul. destruct f; unfold gamma; cbn [fst snd]; ring. Qed.
Lemma kernG_lin2 co f p1 p2 p3 g1 g2 g3 : kernG co f p1 p2 p3 g1 g2 g3 =
  fst g2 * kernG co f p1 p2 p3 g1 (1, 0) g3 + snd g2 * kernG co f p1 p2 p3 g1 (0, 1) g3.
Proof. unfold kernG, project3, cmul. destruct f; unfold gamma; cbn [fst snd]; ring. Qed.
Lemma kernG_lin3 co f p1 p2 p3 g1 g2 g3 : kernG co f p1 p2 p3 g1 g2 g3 =
  fst g3 * kernG co f p1 p2 p3 g1 g2 (1, 0) + snd g3 * kernG co f p1 p2 p3 g1 g2 (0, 1).
Proof. unfold kernG, project3, cmul. destruct f; unfold gamma; cbn [fst snd]; ring. Qed.

Lemma lin_sumC (K : cplx -> R) l : (forall g, K g = fst g * K (1, 0) + snd g * K (0, 1)) ->
  K (sumC owg l) = sumR (fun o => K (owg o)) l.
Proof.
  intro H. rewrite H. unfold sumC. cbn [fst snd].
  rewrite (sumR_ext (fun o => K (owg o)) (fun o => K (1, 0) * fst (owg o) + K (0, 1) * snd (owg o))).
  - rewrite sumR_plus, !sumR_scal. ring.
  - intros o _. rewrite H. ring.
Qed.
Lemma kernG_sums co f p1 p2 p3 l1 l2 l3 :
  kernG co f p1 p2 p3 (sumC owg l1) (sumC owg l2) (sumC owg l3) =
  sum3 (fun a b c => kernG co f p1 p2 p3 (owg a) (owg b) (owg c)) l1 l2 l3.
Proof.
  rewrite (lin_sumC (fun g => kernG co f p1 p2 p3 g (sumC owg l2) (sumC owg l3)) l1)
    by (intro; apply kernG_lin1).
  unfold sum3. apply sumR_ext; intros a _.
  rewrite (lin_sumC (fun g => kernG co f p1 p2 p3 (owg a) g (sumC owg l3)) l2) by (intro; apply kernG_lin2).
  apply sumR_ext; intros b _.
  rewrite (lin_sumC (fun g => kernG co f p1 p2 p3 (owg a) (owg b) g) l3) by (intro; apply kernG_lin3). auto.
Qed.
Lemma ovG_w0 co f a b c d1 d2 d3 u v : ow a = 0 \/ ow b = 0 \/ ow c = 0 -> ovG co f a b c d1 d2 d3 u v = 0.
Proof.
  unfold ovG. intros H.
  assert (Z : forall o, ow o = 0 -> owg o = (0, 0)) by (intros o E; unfold owg; rewrite E; apply cplx_eq; cbn [fst snd]; ring).
  destruct H as [H|[H|H]]; rewrite (Z _ H).
  - rewrite kernG_lin1. cbn [fst snd]. ring.
  - rewrite kernG_lin2. cbn [fst snd]. ring.
  - rewrite kernG_lin3. cbn [fst snd]. ring.
Qed.
Lemma gval_ok A co f c1 c2 c3 d1 d2 d3 u v k : cellOK A c1 -> cellOK A c2 -> cellOK A c3 ->
  csize c1 = 0 -> csize c2 = 0 -> csize c3 = 0 ->
  gval co f (mkev3 c1 c2 c3 d1 d2 d3 u v k) =
  sum3 (fun a b c => ovG co f a b c d1 d2 d3 u v) (objs c1) (objs c2) (objs c3).
Proof.
  intros J1 J2 J3 Z1 Z2 Z3. unfold gval. cbn [tc1 tc2 tc3].
  assert (Q1 : atCentre c1) by (intros o Ho; eapply co_centre; eauto).
  assert (Q2 : atCentre c2) by (intros o Ho; eapply co_centre; eauto).
  assert (Q3 : atCentre c3) by (intros o Ho; eapply co_centre; eauto).
  rewrite !cellWG_atCentre by auto. rewrite kernG_sums. apply sum3_ext. intros a b c Ha Hb Hc.
  unfold ovG. rewrite (Q1 a Ha), (Q2 b Hb), (Q3 c Hc). auto.
Qed.

(** ** Accumulation *)
Section Acc.
Variable co : coord.
Lemma finishG_get f k evs : forall s,
  fold_left (finishG co) evs s f k = s f k + sumR (evG (ind k) (gval co f)) evs.
Proof.
  induction evs as [|e t IH]; intro s; simpl; [lra|]. rewrite IH. unfold finishG at 1, evG at 2, ind.
  destruct (k =? tk e)%Z; lra.
Qed.
Lemma threadG_get f k iters : threadG co iters f k = sumR (sumR (evG (ind k) (gval co f))) iters.
Proof.
  unfold threadG. rewrite <- (Rplus_0_l (sumR _ iters)). change 0 with (clearedG f k).
  generalize clearedG. induction iters as [|e t IH]; intro s; simpl; [lra|].
  rewrite IH, finishG_get. lra.
Qed.
Lemma parallelG_get f k threads : forall s0,
  parallelG co s0 threads f k = s0 f k + sumR (sumR (sumR (evG (ind k) (gval co f)))) threads.
Proof.
  induction threads as [|t l IH]; intro s0; simpl; [lra|].
  unfold parallelG in *. simpl. rewrite IH. unfold accGAdd. rewrite threadG_get. lra.
Qed.
Lemma processG_get f k iters s0 s1 x : processG co iters s0 s1 ->
  addsL (evG (ind k) (gval co f)) iters x -> s1 f k = s0 f k + x.
Proof.
  intros [evs [th [E [S ->]]]] [evs' [E' <-]].
  rewrite <- E in E'. apply map_Some_inj in E'. subst evs'.
  rewrite parallelG_get. f_equal. rewrite (sumR_perm _ _ _ S), sumR_concat. auto.
Qed.
Lemma addsL_existsG e iters x s0 : addsL e iters x -> exists s1, processG co iters s0 s1.
Proof.
  intros [evs [E _]]. exists (parallelG co s0 [evs]), evs, [evs]. split; auto. split; auto.
  apply schedule_exists.
Qed.
End Acc.

(** ** The projections are those of the specification *)
Lemma exp2_unit2 r : expmsialpha Spin2 r =
  (fst (unit2 r) * fst (unit2 r) - snd (unit2 r) * snd (unit2 r), - (2 * fst (unit2 r) * snd (unit2 r))).
Proof.
  destruct r as [x y]. unfold expmsialpha, unit2, cdivr, cconj, cmul, safeNorm, cnorm. cbn [fst snd].
  destruct Rlt_dec as [H|H].
  - assert (S : sqrt (x * x + y * y) * sqrt (x * x + y * y) = x * x + y * y) by (apply sqrt_sqrt; lra).
    assert (0 < sqrt (x * x + y * y)) by (apply sqrt_lt_R0; auto).
    set (d := sqrt (x * x + y * y)) in *. rewrite <- S. apply cplx_eq; cbn [fst snd]; field; lra.
  - assert (E : (x, y) = (0, 0)).
    { apply cnorm_0. unfold cnorm. cbn [fst snd]. pose proof (Rle_0_sqr x). pose proof (Rle_0_sqr y). unfold Rsqr in *. lra. }
    injection E as -> ->. apply cplx_eq; cbn [fst snd]; unfold Rdiv; ring.
Qed.
Lemma proj_shear r o : cmul (owg o) (expmsialpha Spin2 r) = (shearA (unit2 r) o, shearB (unit2 r) o).
Proof. rewrite exp2_unit2. unfold cmul, owg, shearA, shearB. apply cplx_eq; cbn [fst snd]; ring. Qed.

Lemma unit2_scale k v : 0 < k -> unit2 (cscale k v) = unit2 v.
Proof.
  intro Hk. destruct v as [x y]. unfold unit2, cscale. cbn [fst snd].
  replace (k * x * (k * x) + k * y * (k * y)) with (k * k * (x * x + y * y)) by ring.
  assert (N : 0 <= x * x + y * y) by (pose proof (Rle_0_sqr x); pose proof (Rle_0_sqr y); unfold Rsqr in *; lra).
  rewrite sqrt_mult, sqrt_square by nra.
  destruct (Req_dec (sqrt (x * x + y * y)) 0) as [Z|Z].
  - apply sqrt_eq_0 in Z; auto. assert (E : (x, y) = (0, 0)) by (apply cnorm_0; unfold cnorm; cbn [fst snd]; auto).
    injection E as -> ->. apply cplx_eq; cbn [fst snd]; unfold Rdiv; ring.
  - apply cplx_eq; cbn [fst snd]; field; lra.
Qed.
Lemma dot0 p : dot p p = 0 -> p = mkpos 0 0 0.
Proof.
  destruct p as [x y z]. unfold dot. cbn [px py pz]. intro H.
  assert (Hx : x = 0) by nra. assert (Hy : y = 0) by nra. assert (Hz : z = 0) by nra. subst. auto.
Qed.
Lemma dot_nonneg p : 0 <= dot p p.
Proof. unfold dot. nra. Qed.
Lemma skyU p : p <> mkpos 0 0 0 -> unitV (sky p).
Proof.
  intro H. assert (D : 0 < dot p p).
  { destruct (dot_nonneg p) as [L|E]; auto. symmetry in E. apply dot0 in E. contradiction. }
  unfold unitV, sky.
  assert (S : sqrt (dot p p) * sqrt (dot p p) = dot p p) by (apply sqrt_sqrt; lra).
  assert (0 < sqrt (dot p p)) by (apply sqrt_lt_R0; auto). set (r := sqrt (dot p p)) in *.
  replace (dot (pscale (/ r) p) (pscale (/ r) p)) with (/ r * / r * dot p p)
    by (unfold dot, pscale; cbn [px py pz]; ring).
  rewrite <- S. field. lra.
Qed.
Lemma normalizeU p : p <> mkpos 0 0 0 -> normalize Sphere p = sky p.
Proof.
  intro H. unfold normalize, sky, norm. change (normSq p) with (dot p p).
  destruct Req_EM_T as [E|E]; auto. exfalso. apply H. apply dot0, sqrt_eq_0; auto. apply dot_nonneg.
Qed.
Lemma sky_scale k p : 0 < k -> sky (pscale k p) = sky p.
Proof.
  intro Hk. unfold sky.
  replace (dot (pscale k p) (pscale k p)) with (k * k * dot p p) by (unfold dot, pscale; cbn [px py pz]; ring).
  pose proof (dot_nonneg p) as N. rewrite sqrt_mult, sqrt_square by nra.
  destruct (Req_dec (sqrt (dot p p)) 0) as [Z|Z].
  - apply sqrt_eq_0 in Z; auto. apply dot0 in Z. subst p. unfold pscale. cbn [px py pz]. rewrite !Rmult_0_r. auto.
  - unfold pscale. cbn [px py pz]. apply f_equal3; field; lra.
Qed.
Lemma pscale_n0 k p : 0 < k -> p <> mkpos 0 0 0 -> pscale k p <> mkpos 0 0 0.
Proof.
  intros Hk H E. apply H. destruct p as [x y z]. unfold pscale in E. cbn [px py pz] in E.
  injection E as E1 E2 E3. apply f_equal3; nra.
Qed.

Lemma cen_axis co a b c p :
  match co with Flat => True | _ =>
    (forall o, o = a \/ o = b \/ o = c -> offPole o /\ (co = Sphere -> unitV o)) /\
    padd (padd (sky a) (sky b)) (sky c) <> mkpos 0 0 0 end ->
  p = a \/ p = b \/ p = c ->
  unit2 (cenDir co a b c p) =
  match co with
  | Flat => unit2 (px (centroidFlat a b c) - px p, py (centroidFlat a b c) - py p)
  | _ => unit2 (comps (sky p) (psub (sky p) (centroidSky a b c)))
  end.
Proof.
  intros HS Hp. unfold cenDir. destruct co.
  - unfold third, centroidFlat, pscale, padd. cbn [px py pz]. f_equal. f_equal; field.
  - destruct HS as [H1 H2]. unfold third.
    rewrite !(normalizeU a), !(normalizeU b), !(normalizeU c), (normalizeU p).
    2-5: intros ->; match goal with H : forall o, _ -> offPole o /\ _ |- _ =>
      destruct (H (mkpos 0 0 0) ltac:(auto)) as [X _]; unfold offPole in X; cbn [px py] in X; lra end.
    rewrite (normalizeU (pscale _ _)) by (apply pscale_n0; [lra|auto]).
    rewrite sky_scale by lra. fold (centroidSky a b c).
    assert (U : unitV (centroidSky a b c)) by (apply skyU; auto).
    rewrite normalizeU.
    2:{ intro E. rewrite E in U. unfold unitV, dot in U. cbn [px py pz] in U. lra. }
    rewrite (sky_id _ U). destruct (H1 p Hp) as [O1 _].
    rewrite calcDirection_comps by (auto; first [apply sky_unit|apply sky_off]; auto).
    apply unit2_scale. apply axis_pos. apply sky_off; auto.
  - destruct HS as [H1 H2]. unfold third.
    assert (SK : forall o, o = a \/ o = b \/ o = c -> sky o = o).
    { intros o Ho. apply sky_id. apply (H1 o Ho). auto. }
    assert (E : padd (padd a b) c = padd (padd (sky a) (sky b)) (sky c)) by (rewrite !SK by auto; auto).
    rewrite E. rewrite normalizeU by (apply pscale_n0; [lra|auto]).
    rewrite sky_scale by lra. fold (centroidSky a b c).
    assert (U : unitV (centroidSky a b c)) by (apply skyU; auto).
    rewrite (SK p Hp). destruct (H1 p Hp) as [O1 U1].
    rewrite calcDirection_comps by auto.
    apply unit2_scale. apply axis_pos. auto.
Qed.

Definition gidx (n : nat) (im : bool) : gfield :=
  match n, im with
  | O, false => Gam0r | O, true => Gam0i
  | 1%nat, false => Gam1r | 1%nat, true => Gam1i
  | 2%nat, false => Gam2r | 2%nat, true => Gam2i
  | _, false => Gam3r | _, true => Gam3i
  end.
Lemma axis_perm co p q r p' q' r' : padd (padd p' q') r' = padd (padd p q) r -> 
  padd (padd (sky p') (sky q')) (sky r') = padd (padd (sky p) (sky q)) (sky r) ->
  forall x, match co with
  | Flat => unit2 (px (centroidFlat p' q' r') - px x, py (centroidFlat p' q' r') - py x)
  | _ => unit2 (comps (sky x) (psub (sky x) (centroidSky p' q' r')))
  end = match co with
  | Flat => unit2 (px (centroidFlat p q r) - px x, py (centroidFlat p q r) - py x)
  | _ => unit2 (comps (sky x) (psub (sky x) (centroidSky p q r)))
  end.
Proof.
  intros E1 E2 x. unfold centroidSky. rewrite E2. destruct co; auto.
  unfold padd in E1. cbn [px py pz] in E1. injection E1 as X1 X2 X3. unfold centroidFlat. cbn [px py pz].
  rewrite X1, X2. auto.
Qed.
Lemma padd_sw p q r : padd (padd q p) r = padd (padd p q) r.
Proof. unfold padd. cbn [px py pz]. apply f_equal3; ring. Qed.
Lemma padd_rot p q r : padd (padd r p) q = padd (padd p q) r.
Proof. unfold padd. cbn [px py pz]. apply f_equal3; ring. Qed.

Theorem kernG_gam co n im l a b c : (n <= 3)%nat -> skyOK co l -> In a l -> In b l -> In c l ->
  kernG co (gidx n im) (opos a) (opos b) (opos c) (owg a) (owg b) (owg c) = gamVal co n im a b c.
Proof.
  intros Hn HS Ha Hb Hc. unfold kernG, project3. rewrite !proj_shear.
  assert (HH : match co with Flat => True | _ =>
    (forall o, o = opos a \/ o = opos b \/ o = opos c -> offPole o /\ (co = Sphere -> unitV o)) /\
    padd (padd (sky (opos a)) (sky (opos b))) (sky (opos c)) <> mkpos 0 0 0 end).
  { destruct co; auto; destruct HS as [H1 H2]; (split; [intros o [E|[E|E]]; subst o; apply H1; auto|apply H2; auto]). }
  rewrite !(cen_axis co (opos a) (opos b) (opos c)) by auto.
  assert (X1 : match co with
    | Flat => unit2 (px (centroidFlat (opos a) (opos b) (opos c)) - px (opos a), py (centroidFlat (opos a) (opos b) (opos c)) - py (opos a))
    | _ => unit2 (comps (sky (opos a)) (psub (sky (opos a)) (centroidSky (opos a) (opos b) (opos c)))) end =
    axisAt co (opos a) (opos b) (opos c)) by (destruct co; reflexivity).
  assert (X2 : match co with
    | Flat => unit2 (px (centroidFlat (opos a) (opos b) (opos c)) - px (opos b), py (centroidFlat (opos a) (opos b) (opos c)) - py (opos b))
    | _ => unit2 (comps (sky (opos b)) (psub (sky (opos b)) (centroidSky (opos a) (opos b) (opos c)))) end =
    axisAt co (opos b) (opos a) (opos c)).
  { rewrite <- (axis_perm co _ _ _ (opos b) (opos a) (opos c)) by apply padd_sw. destruct co; reflexivity. }
  assert (X3 : match co with
    | Flat => unit2 (px (centroidFlat (opos a) (opos b) (opos c)) - px (opos c), py (centroidFlat (opos a) (opos b) (opos c)) - py (opos c))
    | _ => unit2 (comps (sky (opos c)) (psub (sky (opos c)) (centroidSky (opos a) (opos b) (opos c)))) end =
    axisAt co (opos c) (opos a) (opos b)).
  { rewrite <- (axis_perm co _ _ _ (opos c) (opos a) (opos b)) by apply padd_rot. destruct co; reflexivity. }
  rewrite X1, X2, X3. unfold gamVal.
  generalize (axisAt co (opos a) (opos b) (opos c)) (axisAt co (opos b) (opos a) (opos c))
    (axisAt co (opos c) (opos a) (opos b)). intros u1 u2 u3.
  destruct n as [|[|[|[|n]]]]; [| | | |lia]; destruct im; unfold gidx, gamma, prodRe, prodIm; cbn [fst snd Nat.eqb]; ring.
Qed.
