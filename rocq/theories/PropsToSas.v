(** C88: toSAS. *)
From Coq Require Import Reals Lra Lia List ZArith Bool Permutation Psatz.
From Verif Require Import Base Geometry Tree Traverse Spin Run Corr3 Spec SpecRun GeomFacts SumFacts SpinFacts
  SpecGGG GGG Cplx Multi SpecMulti MultiFacts PropsMulti MultiG SpecMultiG MultiGFacts PropsMultiG ToSas SpecToSas.
Import ListNotations.
Open Scope R_scope.

(** ** Sums *)
Lemma csumL_parts {A} (f : A -> cplx) l : csumL f l = (sumR (fun x => fst (f x)) l, sumR (fun x => snd (f x)) l).
Proof. induction l as [|x l IH]; simpl; auto. rewrite IH. reflexivity. Qed.
Lemma csumL_ext {A} (f g : A -> cplx) l : (forall x, In x l -> f x = g x) -> csumL f l = csumL g l.
Proof. intro H. rewrite !csumL_parts. f_equal; apply sumR_ext; intros x Hx; rewrite H; auto. Qed.
Lemma csumL_app {A} (f : A -> cplx) l m : csumL f (l ++ m) = (csumL f l + csumL f m)%C.
Proof. rewrite !csumL_parts, !sumR_app. reflexivity. Qed.
Lemma csumL_mul {A} (f : A -> cplx) z l : csumL (fun x => z * f x)%C l = (z * csumL f l)%C.
Proof.
  induction l as [|x l IH]; cbn [csumL fold_right]; [cx; ring|].
  fold (csumL (fun x => (z * f x)%C) l) (csumL f l). rewrite IH. ring.
Qed.
Lemma csumL_swap {A B} (f : A -> B -> cplx) la lb :
  csumL (fun a => csumL (f a) lb) la = csumL (fun b => csumL (fun a => f a b) la) lb.
Proof.
  rewrite !csumL_parts. f_equal.
  - rewrite (sumR_ext _ (fun a => sumR (fun b => fst (f a b)) lb)) by (intros; rewrite csumL_parts; auto).
    rewrite sumR_swap. apply sumR_ext. intros; rewrite csumL_parts; auto.
  - rewrite (sumR_ext _ (fun a => sumR (fun b => snd (f a b)) lb)) by (intros; rewrite csumL_parts; auto).
    rewrite sumR_swap. apply sumR_ext. intros; rewrite csumL_parts; auto.
Qed.
Lemma cexpi_cis t : cexpi t = cis t. Proof. reflexivity. Qed.
Lemma n1d_S N : n1d (S N) = (- Z.of_nat (S N))%Z :: n1d N ++ [Z.of_nat (S N)].
Proof.
  unfold n1d. replace (2 * S N + 1)%nat with (S (2 * N + 1 + 1)) by lia. cbn [seq map].
  rewrite seq_app, map_app. cbn [seq map].
  apply (f_equal2 cons); [lia|]. apply (f_equal2 (@app Z)); [|apply (f_equal2 cons); [lia|auto]].
  rewrite <- seq_shift, map_map. apply map_ext. intros; lia.
Qed.
Lemma n1d_in N n : In n (n1d N) <-> (- Z.of_nat N <= n <= Z.of_nat N)%Z.
Proof.
  unfold n1d. rewrite in_map_iff. split.
  - intros [i [<- H]]. apply in_seq in H. lia.
  - intro H. exists (Z.to_nat (n + Z.of_nat N)). split; [lia|apply in_seq; lia].
Qed.
Lemma sum_cis N x : csumL (fun n => cis (IZR n * x)) (n1d N) = cR (dirichlet N x).
Proof.
  induction N as [|N IH].
  - cbn. unfold cis. apply cplx_eq; cbn; rewrite Rmult_0_l, ?cos_0, ?sin_0; ring.
  - rewrite n1d_S. cbn [csumL fold_right].
    fold (csumL (fun n => cis (IZR n * x)) (n1d N ++ [Z.of_nat (S N)])). rewrite csumL_app, IH.
    cbn [csumL fold_right dirichlet]. rewrite opp_IZR, <- INR_IZR_INZ.
    replace (- INR (S N) * x) with (- (INR (S N) * x)) by ring.
    apply cplx_eq; unfold cis, cR; cbn -[INR]; rewrite ?cos_neg, ?sin_neg; ring.
Qed.
(** The kernel in closed form. *)
Theorem C88_kernel N x : dirichlet N x * sin (x / 2) = sin (INR (2 * N + 1) * (x / 2)).
Proof.
  induction N as [|N IH]; [simpl; f_equal; rewrite ?Rmult_1_l; lra|].
  cbn [dirichlet]. rewrite Rmult_plus_distr_r, IH.
  replace (INR (2 * S N + 1) * (x / 2)) with (INR (S N) * x + x / 2) by (rewrite !plus_INR, !mult_INR; simpl INR; rewrite ?S_INR; lra).
  replace (INR (2 * N + 1) * (x / 2)) with (INR (S N) * x - x / 2) by (rewrite !plus_INR, !mult_INR; rewrite ?S_INR; simpl INR; lra).
  rewrite sin_plus, sin_minus. ring.
Qed.
Lemma dirichlet_0 N : dirichlet N 0 = INR (2 * N + 1).
Proof.
  induction N as [|N IH]; [reflexivity|]. cbn [dirichlet]. rewrite IH, Rmult_0_r, cos_0.
  replace (2 * S N + 1)%nat with (S (S (2 * N + 1))) by lia. rewrite !S_INR. ring.
Qed.
Lemma dirichlet_pos N : 0 < dirichlet N 0.
Proof. rewrite dirichlet_0. apply lt_0_INR. lia. Qed.
Lemma dirichlet_per N x y : cos x = cos y -> sin x = sin y -> dirichlet N x = dirichlet N y.
Proof.
  intros HC HS. assert (H : forall n, cos (INR n * x) = cos (INR n * y) /\ sin (INR n * x) = sin (INR n * y)).
  { induction n as [|n [I1 I2]]; [simpl; rewrite !Rmult_0_l; auto|].
    rewrite S_INR, !Rmult_plus_distr_r, !Rmult_1_l, !cos_plus, !sin_plus, I1, I2, HC, HS. auto. }
  induction N as [|N IH]; cbn [dirichlet]; auto. rewrite IH, (proj1 (H (S N))). auto.
Qed.

(** Values z_t with the phases exp(-i n phi_t). *)
Lemma dot_tris {A} N (V : Z -> cplx) (z : A -> cplx) (f : A -> R) L phi :
  (forall n, (- Z.of_nat N <= n <= Z.of_nat N)%Z -> V n = csumL (fun t => z t * cis (IZR n * (- f t)))%C L) ->
  dotExp N V phi = csumL (fun t => z t * cR (dirichlet N (phi - f t)))%C L.
Proof.
  intro H. unfold dotExp.
  rewrite (csumL_ext _ (fun n => csumL (fun t => z t * cis (IZR n * (phi - f t)))%C L)).
  - rewrite csumL_swap. apply csumL_ext. intros t _. rewrite csumL_mul, sum_cis. auto.
  - intros n Hn. apply n1d_in in Hn. rewrite H by auto. rewrite cexpi_cis.
    assert (E : (csumL (fun t => z t * cis (IZR n * (- f t))) L * cis (IZR n * phi))%C
      = (cis (IZR n * phi) * csumL (fun t => z t * cis (IZR n * (- f t)))%C L)%C) by ring.
    rewrite E, <- csumL_mul. apply csumL_ext. intros t _.
    replace (IZR n * (phi - f t)) with (IZR n * - f t + IZR n * phi) by ring. rewrite <- cis_add. ring.
Qed.
Definition tphi (th : pos -> pos -> R) (t : tri) : R := phiOf th (fst t) (fst (snd t)) (snd (snd t)).
Definition isMult (th : pos -> pos -> R) (N : nat) (T : obj -> obj -> obj -> R) (L : list tri) (V : Z -> cplx) : Prop :=
  forall n, (- Z.of_nat N <= n <= Z.of_nat N)%Z -> V n = (tsumL (t_cos T th n) L, tsumL (t_sin T th n) L).
Lemma isMult_dot th N T L V phi : isMult th N T L V -> fst (dotExp N V phi) = tsumL (spread N th phi T) L.
Proof.
  intro H. rewrite (dot_tris N V (fun t => cR (T (fst t) (fst (snd t)) (snd (snd t)))) (tphi th) L).
  - rewrite csumL_parts. cbn [fst]. unfold tsumL. apply sumR_ext. intros t _.
    unfold spread, tphi, cR, cmul. cbn [fst snd]. ring.
  - intros n Hn. rewrite H by auto. rewrite csumL_parts. unfold tsumL, t_cos, t_sin, tphi, phiOf.
    f_equal; apply sumR_ext; intros t _; unfold cR, cis, cmul; cbn [fst snd];
    match goal with |- context [?a * ?c] => idtac end.
    + replace (IZR n * - _) with (IZR n * (th (opos (fst t)) (opos (snd (snd t))) - th (opos (fst t)) (opos (fst (snd t))))) by ring. ring.
    + replace (IZR n * - _) with (IZR n * (th (opos (fst t)) (opos (snd (snd t))) - th (opos (fst t)) (opos (fst (snd t))))) by ring. ring.
Qed.

(** ** Weights, numbers, sides *)
Theorem C88_weight th N g pu r L j : isMult th N t_www L (m_w r) ->
  s_w (toSas N g pu r j) = gsize g / (2 * PI) * tsumL (spread N th (phi1d g j) t_www) L.
Proof. intro H. cbn [toSas s_w]. unfold ftRe. rewrite (isMult_dot th N t_www L _ _ H). field. apply PI_neq0. Qed.
Theorem C88_zeta th N g r L Z j : isMult th N t_www L (m_w r) -> isMult th N t_kkk L Z -> gsize g <> 0 ->
  let W := tsumL (spread N th (phi1d g j) t_www) L in
  W <> 0 -> toSasK N g r Z j = tsumL (spread N th (phi1d g j) t_kkk) L / W.
Proof.
  intros HW HZ HS W HN. unfold toSasK, ftRe. rewrite (isMult_dot th N t_www L _ _ HW), (isMult_dot th N t_kkk L _ _ HZ).
  fold W. pose proof PI_neq0 as HP. unfold maskDiv. destruct Req_EM_T as [E|_].
  - exfalso. apply HN. apply Rmult_eq_reg_r with (/ (2 * PI) * gsize g);
      [rewrite Rmult_0_l, <- E; field; lra|]. apply Rmult_integral_contrapositive_currified; auto.
    apply Rinv_neq_0_compat. lra.
  - field. repeat split; auto.
Qed.
Theorem C88_sides N g pu r j : let s := toSas N g pu r j in
  s_d2 s = m_d2 r /\ s_ld2 s = m_ld2 r /\ s_d3 s = m_d3 r /\ s_ld3 s = m_ld3 r /\
  s_phi s * pu = phi1d g j * (pu / pu) /\
  s_d1 s = euclid (mkpos (s_d2 s) 0 0) (mkpos (s_d3 s * cos (phi1d g j)) (s_d3 s * sin (phi1d g j)) 0) /\
  s_ld1 s = ln (s_d1 s).
Proof.
  cbn. repeat split; auto; [unfold Rdiv; ring|].
  unfold euclid. f_equal. unfold psub, dot; cbn. pose proof (sin2_cos2 (phi1d g j)) as E. unfold Rsqr in E.
  transitivity (m_d2 r * m_d2 r + m_d3 r * m_d3 r * (sin (phi1d g j) * sin (phi1d g j) + cos (phi1d g j) * cos (phi1d g j))
    - 2 * m_d2 r * m_d3 r * cos (phi1d g j)); [rewrite E|]; ring.
Qed.
(** The numbers are proportional to the weights, and add up to the part of the total number that
    the range of phi is of the full circle. *)
Theorem C88_ntri N g pu r :
  let s := toSas N g pu r in
  let W := sumR (fun j => s_w (s j)) (phis g) in
  (W <> 0 -> sumR (fun j => s_ntri (s j)) (phis g) = m_ntri r * ((gmax g - gmin g) / (2 * PI)) /\
     forall j, s_ntri (s j) = m_ntri r * ((gmax g - gmin g) / (2 * PI)) * (s_w (s j) / W)) /\
  (W = 0 -> sumR (fun j => s_ntri (s j)) (phis g) = 0).
Proof.
  intros s W. pose proof PI_neq0 as HP.
  assert (E : sumR (fun j => s_ntri (s j)) (phis g) = W * sasRatio N g r).
  { unfold W, s. rewrite <- sumR_scal_r. apply sumR_ext. auto. }
  rewrite E. unfold sasRatio. fold W.
  assert (EW : sumR (ftRe N g (m_w r)) (phis g) = W) by reflexivity. rewrite EW.
  split; intro HW.
  - destruct (Req_EM_T W 0) as [Z|_]; [contradiction|]. split; [field; auto|].
    intro j. unfold s. cbn [toSas s_ntri s_w]. unfold sasRatio. rewrite EW. destruct (Req_EM_T W 0) as [Z|_]; [contradiction|].
    field; auto.
  - rewrite HW. ring.
Qed.

(** ** Nothing is lost: phi from 0 to pi *)
Lemma sum_cos_tel (a : R) n : sumR (fun j => cos ((INR j + 1 / 2) * a)) (seq 0 n) * (2 * sin (a / 2)) = sin (INR n * a).
Proof.
  induction n as [|n IH]; [simpl; rewrite !Rmult_0_l, sin_0; auto|].
  rewrite seq_S, sumR_app. cbn [Nat.add sumR]. rewrite Rplus_0_r, Rmult_plus_distr_r, IH, S_INR.
  replace ((INR n + 1 / 2) * a) with (INR n * a + a / 2) by lra.
  replace ((INR n + 1) * a) with (INR n * a + a / 2 + a / 2) by lra.
  replace (INR n * a) with (INR n * a + a / 2 - a / 2) at 1 by lra.
  set (x := INR n * a + a / 2). rewrite sin_minus, sin_plus. ring.
Qed.
Lemma sin_nPI n : sin (IZR n * PI) = 0.
Proof. apply sin_eq_0_1. exists n. auto. Qed.
Lemma sum_cos_grid N n : (0 < N)%nat -> (n <> 0)%Z -> (- (2 * Z.of_nat N) < n < 2 * Z.of_nat N)%Z ->
  sumR (fun j => cos (IZR n * phi1d (mkG 0 PI N) j)) (seq 0 N) = 0.
Proof.
  intros HN Hn HB. assert (PN : 0 < INR N) by (apply lt_0_INR; lia). pose proof PI_RGT_0 as HP.
  set (a := IZR n * (PI / INR N)).
  rewrite (sumR_ext _ (fun j => cos ((INR j + 1 / 2) * a))).
  2:{ intros j _. f_equal. unfold phi1d, gsize, a. cbn. unfold Rdiv. ring. }
  apply Rmult_eq_reg_r with (2 * sin (a / 2)).
  - rewrite sum_cos_tel, Rmult_0_l. unfold a. replace (INR N * (IZR n * (PI / INR N))) with (IZR n * PI) by (field; lra). apply sin_nPI.
  - assert (S : sin (a / 2) <> 0); [|lra].
    assert (BN : - (2 * INR N) < IZR n < 2 * INR N).
    { rewrite INR_IZR_INZ. split; [replace (- (2 * IZR (Z.of_nat N))) with (IZR (- (2 * Z.of_nat N))) by (rewrite opp_IZR, mult_IZR; ring)
        |replace (2 * IZR (Z.of_nat N)) with (IZR (2 * Z.of_nat N)) by (rewrite mult_IZR; ring)]; apply IZR_lt; lia. }
    assert (EA : a / 2 = IZR n / (2 * INR N) * PI) by (unfold a; field; lra).
    assert (B1 : -1 < IZR n / (2 * INR N) < 1).
    { split; [apply Rmult_lt_reg_r with (2 * INR N)|apply Rmult_lt_reg_r with (2 * INR N)]; try lra;
      replace (IZR n / (2 * INR N) * (2 * INR N)) with (IZR n) by (field; lra); lra. }
    assert (N0 : IZR n <> 0) by (apply not_0_IZR; auto).
    destruct (Rdichotomy _ _ N0) as [L|L].
    + assert (X : IZR n / (2 * INR N) < 0) by (apply Rmult_lt_reg_r with (2 * INR N); [lra|];
        replace (IZR n / (2 * INR N) * (2 * INR N)) with (IZR n) by (field; lra); lra).
      assert (sin (a / 2) < 0); [|lra]. apply sin_lt_0_var; rewrite EA; nra.
    + assert (X : 0 < IZR n / (2 * INR N)) by (apply Rmult_lt_reg_r with (2 * INR N); [lra|];
        replace (IZR n / (2 * INR N) * (2 * INR N)) with (IZR n) by (field; lra); lra).
      assert (0 < sin (a / 2)); [|lra]. apply sin_gt_0; rewrite EA; nra.
Qed.
Definition swapTri (t : tri) : tri := (fst t, (snd (snd t), fst (snd t))).
Lemma sum_only0 N (f : Z -> R) : (forall n, n <> 0%Z -> (- Z.of_nat N <= n <= Z.of_nat N)%Z -> f n = 0) ->
  sumR f (n1d N) = f 0%Z.
Proof.
  induction N as [|N IH]; intro H; [simpl; ring|].
  rewrite n1d_S. cbn [sumR]. rewrite sumR_app. cbn [sumR]. rewrite IH by (intros; apply H; lia).
  rewrite (H (- Z.of_nat (S N))%Z) by lia. rewrite (H (Z.of_nat (S N))) by lia. ring.
Qed.
Theorem C88_total N n g pu r r' : (0 < n)%nat -> (N < 2 * n)%nat -> g = mkG 0 PI n ->
  (forall m, m_w r' m = cconj (m_w r m)) ->
  sumR (fun j => s_w (toSas N g pu r j) + s_w (toSas N g pu r' j)) (phis g) = fst (m_w r 0%Z).
Proof.
  intros Hn HN -> HC. pose proof PI_RGT_0 as HP. assert (PN : 0 < INR n) by (apply lt_0_INR; lia).
  cbn [toSas s_w]. unfold ftRe, dotExp, phis. cbn [gnum].
  set (g := mkG 0 PI n).
  rewrite (sumR_ext _ (fun j => sumR (fun m => fst (m_w r m) / (INR n) * cos (IZR m * phi1d g j)) (n1d N))).
  - rewrite sumR_swap. rewrite (sum_only0 N).
    + rewrite (sumR_ext _ (fun _ => fst (m_w r 0%Z) / INR n)).
      * rewrite sumR_const, seq_length. field. lra.
      * intros j _. rewrite Rmult_0_l, cos_0. ring.
    + intros m Hm HB. rewrite sumR_scal. unfold g. rewrite sum_cos_grid by lia. ring.
  - intros j _. rewrite !csumL_parts. cbn [fst]. unfold Rdiv. rewrite !Rmult_assoc, <- !Rmult_plus_distr_r.
    rewrite <- sumR_plus. rewrite <- sumR_scal_r. apply sumR_ext. intros m _. rewrite HC.
    unfold g, gsize, cmul, cexpi, cconj. cbn [fst snd gmax gmin gnum]. field. lra.
Qed.

(** ** Items of results *)
Lemma dotExp_sum {K} N (V : K -> Z -> cplx) (ks : list K) W phi :
  (forall n, W n = csumL (fun k => V k n) ks) -> dotExp N W phi = csumL (fun k => dotExp N (V k) phi) ks.
Proof.
  intro H. unfold dotExp. rewrite csumL_swap. apply csumL_ext. intros n _. rewrite H.
  assert (E : (csumL (fun k => V k n) ks * cexpi (IZR n * phi))%C = (cexpi (IZR n * phi) * csumL (fun k => V k n) ks)%C) by ring.
  rewrite E, <- csumL_mul. apply csumL_ext. intros; ring.
Qed.
Lemma ftRe_sum {K} N g (V : K -> Z -> cplx) (ks : list K) W j :
  (forall n, W n = csumL (fun k => V k n) ks) -> ftRe N g W j = sumR (fun k => ftRe N g (V k) j) ks.
Proof.
  intro H. unfold ftRe, Rdiv. rewrite (dotExp_sum N V ks W _ H), csumL_parts. cbn [fst].
  rewrite !sumR_scal_r. auto.
Qed.
Lemma cscale_mul x z : cscale x z = (cR x * z)%C. Proof. cx; ring. Qed.
Lemma ftC_sum {K} N g (V : K -> Z -> cplx) (ks : list K) W j :
  (forall n, W n = csumL (fun k => V k n) ks) -> ftC N g W j = csumL (fun k => ftC N g (V k) j) ks.
Proof.
  intro H. unfold ftC. rewrite !cscale_mul, (dotExp_sum N V ks W _ H), <- !csumL_mul.
  apply csumL_ext. intros; rewrite !cscale_mul; auto.
Qed.
(** If the weights of the items add up to the total, so do the converted items: the number of
    triangles and the sums that _finalize divides by the weight. *)
Theorem C88_results {K} N g pu r (V : K -> Z -> cplx) ks j :
  (forall n, m_w r n = csumL (fun k => V k n) ks) ->
  let s := toSas N g pu r j in
  let tot (f : sbin -> R) := sumR (fun k => f (toSasRes N g pu r (V k) j)) ks in
  tot s_w = s_w s /\ tot s_ntri = s_ntri s /\
  tot s_d1 = s_d1 s * s_w s /\ tot s_ld1 = s_ld1 s * s_w s /\ tot s_d2 = s_d2 s * s_w s /\
  tot s_ld2 = s_ld2 s * s_w s /\ tot s_d3 = s_d3 s * s_w s /\ tot s_ld3 = s_ld3 s * s_w s /\
  tot s_phi = s_phi s * s_w s.
Proof.
  intros H s tot. unfold tot. cbn [toSasRes s_w s_ntri s_d1 s_ld1 s_d2 s_ld2 s_d3 s_ld3 s_phi]. fold s.
  assert (E : s_w s = sumR (fun k => ftRe N g (V k) j) ks) by (apply (ftRe_sum N g V ks); auto).
  assert (EN : s_ntri s = s_w s * sasRatio N g r) by reflexivity.
  rewrite EN, E, <- sumR_scal_r, !sumR_scal. repeat split; auto.
Qed.
Theorem C88_results_k {K} N g r (V Y : K -> Z -> cplx) Z ks j :
  (forall n, m_w r n = csumL (fun k => V k n) ks) -> (forall n, Z n = csumL (fun k => Y k n) ks) ->
  sumR (fun k => ftRe N g (V k) j) ks <> 0 ->
  toSasK N g r Z j = sumR (fun k => ftRe N g (Y k) j) ks / sumR (fun k => ftRe N g (V k) j) ks.
Proof.
  intros H HZ HN. unfold toSasK, maskDiv. rewrite (ftRe_sum N g V ks _ j H), (ftRe_sum N g Y ks _ j HZ).
  destruct Req_EM_T; [contradiction|auto].
Qed.
Theorem C88_results_g {K} N g pu r c (V Y : K -> Z -> cplx) G ks j :
  (forall n, m_w r n = csumL (fun k => V k n) ks) -> (forall n, G n = csumL (fun k => Y k n) ks) ->
  s_w (toSas N g pu r j) <> 0 ->
  toSasG N g pu r c G j =
    cscale (/ sumR (fun k => s_w (toSasRes N g pu r (V k) j)) ks) (csumL (fun k => toSasGRes N g pu r c (Y k) j) ks).
Proof.
  intros H HG HN. destruct (C88_results N g pu r V ks j H) as [E _]. rewrite E.
  unfold toSasG, toSasGRes, maskDivC. destruct Req_EM_T; [contradiction|].
  rewrite (ftC_sum N g Y ks _ j HG), !cscale_mul.
  set (p := gamPhase _ _ _ _).
  assert (X : csumL (fun k => ftC N g (Y k) j * p)%C ks = (p * csumL (fun k => ftC N g (Y k) j) ks)%C).
  { rewrite <- csumL_mul. apply csumL_ext. intros; ring. }
  rewrite X. ring.
Qed.

(** ** GGG *)
(** z^2/|z|^2 *)
Definition ph (z : cplx) : cplx := cscale (/ cnorm z) (csq z).
Lemma cabs_csq z : cabs (csq z) = cnorm z.
Proof.
  unfold cabs. rewrite <- (sqrt_square (cnorm z)); [f_equal; unfold cnorm, csq, cmul; cbn; ring|].
  unfold cnorm. nra.
Qed.
Lemma cnorm_mul z w : cnorm (z * w)%C = cnorm z * cnorm w. Proof. unfold cnorm, cmul; cbn; ring. Qed.
Lemma cnorm_conj z : cnorm (cconj z) = cnorm z. Proof. unfold cnorm, cconj; cbn; ring. Qed.
Lemma cnorm_cis t : cnorm (cis t) = 1.
Proof. unfold cnorm, cis; cbn. pose proof (sin2_cos2 t) as E. unfold Rsqr in E. lra. Qed.
Lemma ph_mul z w : cnorm z <> 0 -> cnorm w <> 0 -> ph (z * w)%C = (ph z * ph w)%C.
Proof. intros Hz Hw. unfold ph. rewrite cnorm_mul, !cscale_mul, Rinv_mult by auto. unfold csq. cx; ring. Qed.
Lemma ph_conj z : ph (cconj z) = cconj (ph z).
Proof. unfold ph. rewrite cnorm_conj. cx; ring. Qed.
Lemma ph_cis t : ph (cis t) = cis (2 * t).
Proof. unfold ph. rewrite cnorm_cis, cis_sq, Rinv_1. cx; ring. Qed.
Lemma ph_R x : x <> 0 -> ph (cR x) = c1.
Proof. intro H. unfold ph, cnorm, cR. cx; field; auto. Qed.
Lemma phase_ph x q : cnorm x <> 0 -> cnorm q <> 0 -> phase x q = (ph x * cconj (ph q))%C.
Proof.
  intros Hx Hq. unfold phase. rewrite cabs_csq. change (cscale (/ cnorm (x * cconj q)%C) (csq (x * cconj q)%C)) with (ph (x * cconj q)%C).
  rewrite ph_mul, ph_conj by (rewrite ?cnorm_conj; auto). auto.
Qed.
(** The bisector. *)
Lemma vU_eq d3 phi : 0 < d3 -> vU (vT d3 phi) = cscale (1 / 2) (c1 + cis phi)%C.
Proof.
  intro H. unfold vU, vT. f_equal. f_equal. rewrite cexpi_cis.
  assert (E : cabs (cscale d3 (cis phi)) = d3).
  { unfold cabs. rewrite cscale_mul, cnorm_mul, cnorm_cis. unfold cnorm, cR; cbn.
    replace ((d3 * d3 + 0 * 0) * 1) with (d3 * d3) by ring. apply sqrt_square; lra. }
  rewrite E. cx; field; lra.
Qed.
Lemma vU_norm d3 phi : 0 < d3 -> cnorm (vU (vT d3 phi)) = (1 + cos phi) / 2.
Proof.
  intro H. rewrite vU_eq by auto. unfold cnorm, cscale, cadd, c1, IZC, cR, cis; cbn.
  pose proof (sin2_cos2 phi) as E. unfold Rsqr in E. nra.
Qed.
Lemma ph_U d3 phi : 0 < d3 -> 1 + cos phi <> 0 -> ph (vU (vT d3 phi)) = cis phi.
Proof.
  intros H HN. unfold ph. rewrite vU_norm by auto. rewrite vU_eq by auto.
  pose proof (sin2_cos2 phi) as E. unfold Rsqr in E.
  assert (S : sin phi * sin phi = (1 - cos phi) * (1 + cos phi)) by lra.
  cx; unfold cis; cbn [fst snd].
  - apply Rmult_eq_reg_l with ((1 + cos phi) / 2); [|lra].
    transitivity ((1 / 2 * (1 + cos phi) * (1 / 2 * (1 + cos phi)) - 1 / 2 * (0 + sin phi) * (1 / 2 * (0 + sin phi)))); [field; lra|].
    nra.
  - field; auto.
Qed.
Lemma ph_T d3 phi : 0 < d3 -> cnorm (vT d3 phi) = d3 * d3 /\ ph (vT d3 phi) = cis (2 * phi).
Proof.
  intro H. unfold vT. rewrite cexpi_cis, cscale_mul. split.
  - rewrite cnorm_mul, cnorm_cis. unfold cnorm, cR; cbn; ring.
  - rewrite ph_mul, ph_R, ph_cis; [cx; ring|lra|unfold cnorm, cR; cbn; nra|rewrite cnorm_cis; lra].
Qed.
(** An axis of the specification. *)
Lemma shear_ph v o : fst v * fst v + snd v * snd v <> 0 ->
  (shearA (unit2 v) o, shearB (unit2 v) o) = (owg o * cconj (ph v))%C.
Proof.
  intro H. unfold shearA, shearB, unit2, ph, owg, cnorm. set (d := sqrt _).
  assert (E : d * d = fst v * fst v + snd v * snd v) by (apply sqrt_sqrt; nra).
  assert (D : d <> 0) by (intro Z; rewrite Z in E; lra).
  rewrite <- E. cx; field; auto.
Qed.
Lemma gamVal_part C c im p1 p2 p3 :
  let u1 := axisAt C (opos p1) (opos p2) (opos p3) in
  let u2 := axisAt C (opos p2) (opos p1) (opos p3) in
  let u3 := axisAt C (opos p3) (opos p1) (opos p2) in
  gamVal C c im p1 p2 p3 =
  part im (cj (Nat.eqb c 1) (shearA u1 p1, shearB u1 p1) * (cj (Nat.eqb c 2) (shearA u2 p2, shearB u2 p2) *
           cj (Nat.eqb c 3) (shearA u3 p3, shearB u3 p3)))%C.
Proof. intros u1 u2 u3. unfold gamVal. rewrite prod_part, !cj_pair. reflexivity. Qed.
Section Shape.
Variables (th : pos -> pos -> R) (D2 D3 phi : R).
Hypothesis Hth : polar th.
Hypothesis H2 : 0 < D2.
Hypothesis H3 : 0 < D3.
Hypothesis Hphi : sin phi <> 0.
Lemma shape_norms :
  let s := vS D2 in let t := vT D3 phi in let q1 := cscale (/ 3) (s + t)%C in
  cnorm q1 <> 0 /\ cnorm (q1 - t)%C <> 0 /\ cnorm (q1 - s)%C <> 0.
Proof.
  cbv zeta. unfold vS, vT, cnorm, cscale, cadd, csub, cR, cexpi. cbn [fst snd].
  assert (S : D3 * sin phi <> 0) by (apply Rmult_integral_contrapositive_currified; lra).
  assert (K : forall x y, y <> 0 -> x * x + y * y <> 0) by (intros; nra).
  repeat split; apply K; lra.
Qed.
Lemma cos_ne : 1 + cos phi <> 0.
Proof. intro E. apply Hphi. pose proof (sin2_cos2 phi) as S. unfold Rsqr in S. assert (cos phi = -1) by lra. nra. Qed.
Lemma shape_val c p1 p2 p3 : similarTo th D2 D3 phi (p1, (p2, p3)) ->
  (gamVal Flat c false p1 p2 p3, gamVal Flat c true p1 p2 p3) =
  ((multVal th c false 0 p1 p2 p3, multVal th c true 0 p1 p2 p3) * gamPhase c D2 D3 phi)%C.
Proof.
  intros [Z1 [Z2 [Z3 [r [Hr [E2 [E3 [EC ES]]]]]]]].
  set (t2 := th (opos p1) (opos p2)). set (t3 := th (opos p1) (opos p3)).
  assert (EM : (multVal th c false 0 p1 p2 p3, multVal th c true 0 p1 p2 p3) =
    (cj (Nat.eqb c 1) (owg p1 * cis (- (t2 + t3))) * (cj (Nat.eqb c 2) (owg p2 * cis (- (2 * t2))) *
     cj (Nat.eqb c 3) (owg p3 * cis (- (2 * t3)))))%C).
  { rewrite !multVal_cis. fold t2 t3. rewrite Rmult_0_l. unfold cis at 4 8. rewrite cos_0, sin_0.
    match goal with |- context [(?z * (1, 0))%C] => set (X := z) end. cx; unfold part; cbn [fst snd]; ring. }
  rewrite EM. clear EM.
  set (s := vS D2). set (t := vT D3 phi). set (q1 := cscale (/ 3) (s + t)%C).
  destruct shape_norms as [N1 [N2 N3]]. fold s t q1 in N1, N2, N3.
  destruct (Hth (opos p1) (opos p2)) as [X2 Y2]; auto. destruct (Hth (opos p1) (opos p3)) as [X3 Y3]; auto.
  fold t2 in X2, Y2. fold t3 in X3, Y3.
  assert (CP : cis (t2 - t3) = cis phi) by (unfold cis; f_equal; assumption).
  assert (CT : cis t2 = (cis t3 * cis phi)%C) by (rewrite <- CP, cis_add; f_equal; ring).
  set (k := (cR r * cis t3)%C).
  assert (NK : cnorm k <> 0).
  { unfold k. rewrite cnorm_mul, cnorm_cis. unfold cnorm, cR; cbn. nra. }
  assert (PK : ph k = cis (2 * t3)).
  { unfold k. rewrite ph_mul, ph_R, ph_cis; [cx; ring|lra|unfold cnorm, cR; cbn; nra|rewrite cnorm_cis; lra]. }
  set (P1 := (px (opos p1), py (opos p1))). set (P2 := (px (opos p2), py (opos p2))). set (P3 := (px (opos p3), py (opos p3))).
  assert (V2 : (P2 - P1)%C = (k * t)%C).
  { transitivity (cscale (r * D3) (cis t2)).
    - rewrite E3 in X2, Y2. unfold P1, P2. apply cplx_eq; unfold csub, cscale, cis; cbn [fst snd]; lra.
    - rewrite CT, cscale_mul. unfold k, t, vT, cexpi, cis. cx; ring. }
  assert (V3 : (P3 - P1)%C = (k * s)%C).
  { rewrite E2 in X3, Y3. unfold P1, P3, k, s, vS. apply cplx_eq; unfold csub, cmul, cR, cis; cbn [fst snd]; lra. }
  set (m := centroidFlat (opos p1) (opos p2) (opos p3)).
  assert (VM : forall a, (px m - px a, py m - py a) = (cscale (/3) (P1 + P2 + P3) - (px a, py a))%C).
  { intro a. unfold m, centroidFlat, P1, P2, P3. cx; cbn; field. }
  assert (Q1 : (cscale (/3) (P1 + P2 + P3) - P1)%C = (k * q1)%C).
  { transitivity (cscale (/3) ((P2 - P1) + (P3 - P1)))%C; [cx; field|]. rewrite V2, V3. unfold q1. rewrite !cscale_mul. ring. }
  assert (Q2 : (cscale (/3) (P1 + P2 + P3) - P2)%C = (k * (q1 - t))%C).
  { transitivity ((cscale (/3) (P1 + P2 + P3) - P1) - (P2 - P1))%C; [ring|]. rewrite Q1, V2. ring. }
  assert (Q3 : (cscale (/3) (P1 + P2 + P3) - P3)%C = (k * (q1 - s))%C).
  { transitivity ((cscale (/3) (P1 + P2 + P3) - P1) - (P3 - P1))%C; [ring|]. rewrite Q1, V3. ring. }
  assert (A : forall a o z, (cscale (/3) (P1 + P2 + P3) - (px a, py a))%C = (k * z)%C -> cnorm z <> 0 ->
    (shearA (unit2 (px m - px a, py m - py a)) o, shearB (unit2 (px m - px a, py m - py a)) o) =
    (owg o * (cis (- (2 * t3)) * cconj (ph z)))%C).
  { intros a o z EZ NZ. rewrite VM, EZ. rewrite shear_ph.
    - rewrite ph_mul, PK, conj_mul, cis_conj by auto. auto.
    - change (cnorm (k * z)%C <> 0). rewrite cnorm_mul. apply Rmult_integral_contrapositive_currified; auto. }
  assert (B1 := A (opos p1) p1 q1 Q1 N1). assert (B2 := A (opos p2) p2 _ Q2 N2). assert (B3 := A (opos p3) p3 _ Q3 N3).
  assert (U1 : axisAt Flat (opos p1) (opos p2) (opos p3) = unit2 (px m - px (opos p1), py m - py (opos p1))) by reflexivity.
  assert (U2 : axisAt Flat (opos p2) (opos p1) (opos p3) = unit2 (px m - px (opos p2), py m - py (opos p2))).
  { unfold axisAt, m, centroidFlat. cbn [px py]. f_equal. f_equal; field. }
  assert (U3 : axisAt Flat (opos p3) (opos p1) (opos p2) = unit2 (px m - px (opos p3), py m - py (opos p3))).
  { unfold axisAt, m, centroidFlat. cbn [px py]. f_equal. f_equal; field. }
  rewrite !gamVal_part. cbv zeta. rewrite U1, U2, U3, B1, B2, B3.
  unfold gamPhase. fold s t q1.
  destruct (ph_T D3 phi H3) as [NT PT]. fold t in NT, PT.
  assert (NS : cnorm s <> 0) by (unfold s, vS, cnorm, cR; cbn; nra).
  assert (NT' : cnorm t <> 0) by (rewrite NT; nra).
  assert (NU : cnorm (vU t) <> 0) by (unfold t; rewrite vU_norm by auto; pose proof cos_ne; lra).
  rewrite (phase_ph (vU t) q1 NU N1), (phase_ph t _ NT' N2), (phase_ph s _ NS N3).
  assert (PU : ph (vU t) = cis phi) by (apply ph_U; [auto|apply cos_ne]).
  assert (PS : ph s = c1) by (apply ph_R; lra).
  rewrite PU, PT, PS.
  assert (G1 : (cis (- (2 * t3)) * cconj (ph q1))%C = (cis (- (t2 + t3)) * (cis phi * cconj (ph q1)))%C).
  { transitivity ((cis (- (t2 + t3)) * cis phi) * cconj (ph q1))%C; [|ring]. f_equal. rewrite <- CP, cis_add. f_equal. ring. }
  assert (G2 : (cis (- (2 * t3)) * cconj (ph (q1 - t)%C))%C = (cis (- (2 * t2)) * (cis (2 * phi) * cconj (ph (q1 - t)%C)))%C).
  { transitivity ((cis (- (2 * t2)) * cis (2 * phi)) * cconj (ph (q1 - t)%C))%C; [|ring]. f_equal.
    rewrite <- (cis_sq phi), <- CP, cis_sq, cis_add. f_equal. ring. }
  rewrite G1, G2.
  set (z1 := ph q1). set (z2 := ph (q1 - t)%C). set (z3 := ph (q1 - s)%C).
  assert (PP : forall z, (part false z, part true z) = z) by (intros [x y]; reflexivity). rewrite PP.
  unfold cj. destruct (Nat.eqb c 1), (Nat.eqb c 2), (Nat.eqb c 3); rewrite ?conj_mul, ?conj_conj;
    replace (cconj c1) with c1 by (cx; ring);
    match goal with |- ?a = ?b => change (@eq cplx a b) end; ring.
Qed.
End Shape.

(** The multipoles of component c. *)
Definition isMultG (th : pos -> pos -> R) (N c : nat) (L : list tri) (V : Z -> cplx) : Prop :=
  forall n, (- Z.of_nat N <= n <= Z.of_nat N)%Z ->
    V n = (tsumL (multVal th c false n) L, tsumL (multVal th c true n) L).
Lemma multVal_n th c n p1 p2 p3 :
  (multVal th c false n p1 p2 p3, multVal th c true n p1 p2 p3) =
  ((multVal th c false 0 p1 p2 p3, multVal th c true 0 p1 p2 p3) * cis (IZR n * (- phiOf th p1 p2 p3)))%C.
Proof.
  rewrite !multVal_cis. unfold phiOf. set (t2 := th (opos p1) (opos p2)). set (t3 := th (opos p1) (opos p3)).
  rewrite Rmult_0_l. replace (IZR n * - (t2 - t3)) with (IZR n * (t3 - t2)) by ring.
  match goal with |- context [(?z * cis 0)%C] => set (X := z) end.
  unfold part, cis, cmul. cbn [fst snd]. rewrite cos_0, sin_0. apply cplx_eq; cbn [fst snd]; ring.
Qed.
Lemma isMultG_dot th N c L V phi : isMultG th N c L V ->
  dotExp N V phi = (tsumL (spread N th phi (multVal th c false 0)) L, tsumL (spread N th phi (multVal th c true 0)) L).
Proof.
  intro H. rewrite (dot_tris N V (fun t => (multVal th c false 0 (fst t) (fst (snd t)) (snd (snd t)),
     multVal th c true 0 (fst t) (fst (snd t)) (snd (snd t)))) (tphi th) L).
  - rewrite csumL_parts. cbn [fst snd]. unfold tsumL. f_equal; apply sumR_ext; intros t _;
    unfold spread, tphi, cR, cmul; cbn [fst snd]; ring.
  - intros n Hn. rewrite H by auto. unfold tsumL.
    rewrite (csumL_ext _ (fun t => (multVal th c false n (fst t) (fst (snd t)) (snd (snd t)),
      multVal th c true n (fst t) (fst (snd t)) (snd (snd t))))).
    + rewrite csumL_parts. reflexivity.
    + intros t _. unfold tphi. rewrite <- multVal_n. auto.
Qed.
(** All triangles: the multipole values, spread over phi, with the phases of the bin. *)
Theorem C88_gamma th N g pu r c L V j : isMult th N t_www L (m_w r) -> isMultG th N c L V -> pu <> 0 -> gsize g <> 0 ->
  let phi := phi1d g j in
  let W := tsumL (spread N th phi t_www) L in
  W <> 0 ->
  toSasG N g pu r c V j =
    ((tsumL (spread N th phi (multVal th c false 0)) L / W, tsumL (spread N th phi (multVal th c true 0)) L / W)%R
     * gamPhase c (m_d2 r) (m_d3 r) phi)%C.
Proof.
  intros HW HG Hpu Hg phi W HN. pose proof PI_neq0 as HP. unfold toSasG. rewrite (C88_weight th N g pu r L j HW).
  fold phi W. cbn [toSas s_d2 s_d3 s_phi]. fold phi. replace (phi / pu * pu) with phi by (field; auto).
  f_equal. unfold maskDivC. destruct Req_EM_T as [E|_].
  - exfalso. apply Rmult_integral in E. destruct E as [E|E]; [|contradiction].
    apply Hg. apply Rmult_eq_reg_r with (/ (2 * PI)); [rewrite Rmult_0_l; exact E|apply Rinv_neq_0_compat; lra].
  - unfold ftC. fold phi. rewrite (isMultG_dot th N c L V phi HG). cx; field; auto.
Qed.
(** Triangles of the shape of the bin: the mean natural component, projected to the centroid. *)
Theorem C88_gamma_similar th N g pu r c L V j : polar th ->
  isMult th N t_www L (m_w r) -> isMultG th N c L V -> pu <> 0 -> gsize g <> 0 ->
  0 < m_d2 r -> 0 < m_d3 r -> sin (phi1d g j) <> 0 ->
  (forall t, In t L -> similarTo th (m_d2 r) (m_d3 r) (phi1d g j) t) -> tsumL t_www L <> 0 ->
  toSasG N g pu r c V j =
    (tsumL (gamVal Flat c false) L / tsumL t_www L, tsumL (gamVal Flat c true) L / tsumL t_www L).
Proof.
  intros Hth HW HG Hpu Hg H2 H3 HS HL HN. set (phi := phi1d g j) in *.
  assert (SP : forall T, tsumL (spread N th phi T) L = tsumL T L * dirichlet N 0).
  { intro T. unfold tsumL. rewrite <- sumR_scal_r. apply sumR_ext. intros [p1 [p2 p3]] Ht. cbn [fst snd]. unfold spread.
    f_equal. destruct (HL _ Ht) as [_ [_ [_ [r0 [_ [_ [_ [EC ES]]]]]]]].
    pose proof (sin2_cos2 phi) as S1. unfold Rsqr in S1.
    apply dirichlet_per; [rewrite cos_minus, EC, ES, cos_0; lra|rewrite sin_minus, EC, ES, sin_0; ring]. }
  pose proof (dirichlet_pos N) as DP.
  rewrite (C88_gamma th N g pu r c L V j HW HG Hpu Hg); fold phi.
  2:{ rewrite SP. apply Rmult_integral_contrapositive_currified; lra. }
  rewrite !SP.
  assert (E : csumL (fun t => (gamVal Flat c false (fst t) (fst (snd t)) (snd (snd t)), gamVal Flat c true (fst t) (fst (snd t)) (snd (snd t)))) L
    = (gamPhase c (m_d2 r) (m_d3 r) phi *
       csumL (fun t => (multVal th c false 0 (fst t) (fst (snd t)) (snd (snd t)), multVal th c true 0 (fst t) (fst (snd t)) (snd (snd t)))) L)%C).
  { rewrite <- csumL_mul. apply csumL_ext. intros [p1 [p2 p3]] Ht. cbn [fst snd].
    rewrite (shape_val th (m_d2 r) (m_d3 r) phi Hth H2 H3 HS c p1 p2 p3 (HL _ Ht)). ring. }
  rewrite !csumL_parts in E. cbn [fst snd] in E.
  change (sumR (fun x => gamVal Flat c false (fst x) (fst (snd x)) (snd (snd x))) L) with (tsumL (gamVal Flat c false) L) in E.
  change (sumR (fun x => gamVal Flat c true (fst x) (fst (snd x)) (snd (snd x))) L) with (tsumL (gamVal Flat c true) L) in E.
  change (sumR (fun x => multVal th c false 0 (fst x) (fst (snd x)) (snd (snd x))) L) with (tsumL (multVal th c false 0) L) in E.
  change (sumR (fun x => multVal th c true 0 (fst x) (fst (snd x)) (snd (snd x))) L) with (tsumL (multVal th c true 0) L) in E.
  set (A := tsumL (gamVal Flat c false) L) in *. set (B := tsumL (gamVal Flat c true) L) in *.
  set (X := tsumL (multVal th c false 0) L) in *. set (Y := tsumL (multVal th c true 0) L) in *. set (W := tsumL t_www L) in *.
  set (D := dirichlet N 0) in *. set (p := gamPhase c (m_d2 r) (m_d3 r) phi) in *.
  transitivity (cscale (/ W) (p * (X, Y))%C); [cx; field; lra|]. rewrite <- E. cx; field; auto.
Qed.
