(** C87: finalize of the three-point correlations. *)
From Coq Require Import Reals Lra Lia List ZArith Bool Psatz.
From Verif Require Import Base Geometry SpecSphere Fin3 SpecFin3.
Import ListNotations.
Open Scope R_scope.

(** ** Bins with triangles, no chords *)
Definition lg (f : tri3 -> R) : tri3 -> R := fun t => ln (f t).
Theorem C87_means b c n nz l : b <> LogMultipole -> sphEuc c = false -> total l <> 0 ->
  let s := finalizeBin b c n (sums nz l) in
  f_ntri s = INR (length l) /\ f_w s = total l /\
  f_d1 s = wmean g_d1 l / sepU c /\ f_d2 s = wmean g_d2 l / sepU c /\ f_d3 s = wmean g_d3 l / sepU c /\
  f_ld1 s = wmean (lg g_d1) l - ln (sepU c) /\ f_ld2 s = wmean (lg g_d2) l - ln (sepU c) /\
  f_ld3 s = wmean (lg g_d3) l - ln (sepU c) /\
  (b = LogRUV -> f_u s = wmean g_u l /\ f_v s = wmean g_v l) /\
  (b = LogSAS -> f_u s = wmean g_u l / phiU c) /\
  f_z s = map (fun i => wmean (fun t => g_z t i) l) (seq 0 nz).
Proof.
  intros Hb Hc HW s. unfold s, finalizeBin. cbn [sums f_w].
  destruct (Req_EM_T (total l) 0) as [E|_]; [contradiction|].
  unfold applyUnits. rewrite Hc.
  destruct b; [| |congruence]; cbn; unfold wmean, lg; repeat split; auto; try discriminate;
    rewrite map_map; apply map_ext; auto.
Qed.

(** ** Empty bins *)
Theorem C87_empty_ruv c n s : f_w s = 0 -> 0 < n_d2 n -> n_ld2 n = ln (n_d2 n) -> 0 < n_u n ->
  let r := finalizeBin LogRUV c n s in
  f_d2 r = n_d2 n /\ f_u r = n_u n /\ f_v r = n_v n /\
  f_d3 r / f_d2 r = n_u n /\ (f_d1 r - f_d2 r) / f_d3 r = Rabs (n_v n) /\
  f_ld1 r = ln (f_d1 r) /\ f_ld2 r = ln (f_d2 r) /\ f_ld3 r = ln (f_d3 r).
Proof.
  intros HW H2 HL Hu r. unfold r, finalizeBin. destruct (Req_EM_T (f_w s) 0); [|contradiction].
  cbn. repeat split; auto; field; lra.
Qed.
(** d1 is the distance of the points at distances d2 and d3 from the origin, at an angle phi. *)
Theorem C87_empty_sas c n s : f_w s = 0 -> n_ld2 n = ln (n_d2 n) -> n_ld3 n = ln (n_d3 n) ->
  let r := finalizeBin LogSAS c n s in
  f_d2 r = n_d2 n /\ f_d3 r = n_d3 n /\
  f_d1 r = chord (mkpos (f_d2 r) 0 0) (mkpos (f_d3 r * cos (n_u n)) (f_d3 r * sin (n_u n)) 0) /\
  f_ld1 r = ln (f_d1 r) /\ f_ld2 r = ln (f_d2 r) /\ f_ld3 r = ln (f_d3 r) /\
  (phiU c = 1 -> f_u r = n_u n / phiU c).
Proof.
  intros HW H2 H3 r. unfold r, finalizeBin. destruct (Req_EM_T (f_w s) 0); [|contradiction].
  cbn. repeat split; auto.
  - unfold chord, dot, psub; cbn. f_equal. pose proof (sin2_cos2 (n_u n)) as E. unfold Rsqr in E.
    transitivity (n_d2 n * n_d2 n + n_d3 n * n_d3 n * (sin (n_u n) * sin (n_u n) + cos (n_u n) * cos (n_u n))
      - 2 * n_d2 n * n_d3 n * cos (n_u n)); [rewrite E|]; ring.
  - intros ->. field.
Qed.
(** The mean phi of an empty bin is not in phi_units. *)
Theorem C87_phi_units_refuted : exists c n s, f_w s = 0 /\ 0 < n_d2 n /\ 0 < n_d3 n /\ 0 < n_u n < PI /\ 0 < phiU c /\
  f_u (finalizeBin LogSAS c n s) <> n_u n / phiU c.
Proof.
  exists (mkFc false 1 (PI / 180)), (mkN 1 0 1 0 1 0), (mkF 0 0 0 [] 0 0 0 0 0 0 0 0).
  pose proof PI_RGT_0 as HP. pose proof PI2_3_2 as H3. pose proof PI_4 as H4.
  repeat split; cbn; try lra.
  unfold finalizeBin. cbn. destruct (Req_EM_T 0 0) as [_|N]; [|congruence]. cbn. intro E.
  assert (E' : PI = 180). { apply (f_equal (fun x => x * (PI / 180) * 180)) in E. field_simplify in E; lra. }
  lra.
Qed.

(** ** Bins of congruent triangles on the sphere *)
Lemma sum3_ext f g l : (forall t, In t l -> f t = g t) -> sum3 f l = sum3 g l.
Proof. induction l as [|t l IH]; intro H; simpl; auto.
  rewrite (H t) by (left; auto). f_equal. apply IH. intros x Hx; apply H; right; auto. Qed.
Lemma sum3_scal f k l : sum3 (fun t => f t * k) l = sum3 f l * k.
Proof. induction l as [|t l IH]; simpl; [ring|rewrite IH; ring]. Qed.
Lemma sum3_const f x l : (forall t, In t l -> f t = x) -> sum3 (fun t => g_w t * f t) l = total l * x.
Proof. intro H. unfold total. rewrite <- sum3_scal. apply sum3_ext. intros t Ht. rewrite H; auto. Qed.
Lemma chord_sq p q : unitV p -> unitV q -> chord p q * chord p q = 2 - 2 * dot p q.
Proof.
  unfold unitV, chord. intros Hp Hq. rewrite sqrt_sqrt.
  - unfold dot, psub in *; cbn. lra.
  - unfold dot, psub; cbn. pose proof (Rle_0_sqr (px p - px q)). pose proof (Rle_0_sqr (py p - py q)).
    pose proof (Rle_0_sqr (pz p - pz q)). unfold Rsqr in *. lra.
Qed.
Lemma chord_nn p q : 0 <= chord p q. Proof. apply sqrt_pos. Qed.
Lemma dot_sym p q : dot p q = dot q p. Proof. unfold dot; ring. Qed.
Lemma cs p q : dot p q * dot p q <= dot p p * dot q q.
Proof.
  unfold dot. destruct p as [a b c], q as [x y z]; cbn.
  pose proof (pow2_ge_0 (a * y - b * x)). pose proof (pow2_ge_0 (a * z - c * x)). pose proof (pow2_ge_0 (b * z - c * y)). nra.
Qed.
Lemma unit_range p q : unitV p -> unitV q -> -1 <= dot p q <= 1.
Proof. intros Hp Hq. pose proof (cs p q) as H. unfold unitV in *. rewrite Hp, Hq in H. nra. Qed.
Lemma chordArc_arc p q : unitV p -> unitV q -> isArc (chordArc (chord p q)) p q.
Proof.
  intros Hp Hq. pose proof (chord_sq p q Hp Hq) as E. pose proof (chord_nn p q) as N. pose proof (unit_range p q Hp Hq) as U.
  assert (B : -1 <= chord p q / 2 <= 1) by nra.
  unfold chordArc, isArc, isAngle.
  assert (A : 0 <= asin (chord p q / 2) <= PI / 2).
  { split; [|apply asin_bound]. pose proof (asin_bound (chord p q / 2)). pose proof PI_RGT_0.
    destruct (Rlt_dec (asin (chord p q / 2)) 0) as [Z|Z]; [|lra].
    assert (S : sin (asin (chord p q / 2)) < 0) by (apply sin_lt_0_var; lra).
    rewrite sin_asin in S by auto. lra. }
  split; [lra|]. rewrite cos_2a_sin, sin_asin by auto. nra.
Qed.
Lemma arc_pos p q : unitV p -> unitV q -> 0 < chord p q -> 0 < chordArc (chord p q).
Proof.
  intros Hp Hq H. destruct (chordArc_arc p q Hp Hq) as [[A _] E]. destruct A as [A|A]; auto.
  exfalso. rewrite <- A, cos_0 in E. pose proof (chord_sq p q Hp Hq). nra.
Qed.
Lemma tan_dot p1 p2 p3 : unitV p1 -> dot (tangent p1 p2) (tangent p1 p3) = dot p2 p3 - dot p1 p2 * dot p1 p3.
Proof.
  unfold unitV. intro H.
  transitivity (dot p2 p3 - 2 * (dot p1 p2 * dot p1 p3) + dot p1 p2 * dot p1 p3 * dot p1 p1);
    [unfold tangent, dot; cbn; ring|rewrite H; ring].
Qed.
Lemma fixPhi_corner p1 p2 p3 t : unitV p1 -> unitV p2 -> unitV p3 ->
  0 < chord p1 p2 < 2 -> 0 < chord p1 p3 < 2 ->
  isAngle t (dot (psub p2 p1) (psub p3 p1) / (chord p1 p2 * chord p1 p3)) ->
  isCorner (fixPhi t (chord p1 p3) (chord p1 p2)) p1 p2 p3.
Proof.
  intros H1 H2 H3 C2 C3 [_ Hc].
  pose proof (chord_sq p1 p2 H1 H2) as E2. pose proof (chord_sq p1 p3 H1 H3) as E3.
  set (d3 := chord p1 p2) in *. set (d2 := chord p1 p3) in *.
  assert (T2 : dot (tangent p1 p2) (tangent p1 p2) = d3 * d3 * (1 - d3 * d3 / 4)).
  { rewrite tan_dot by auto. unfold unitV in H2. rewrite H2. nra. }
  assert (T3 : dot (tangent p1 p3) (tangent p1 p3) = d2 * d2 * (1 - d2 * d2 / 4)).
  { rewrite tan_dot by auto. unfold unitV in H3. rewrite H3. nra. }
  assert (P2 : 0 < 1 - d3 * d3 / 4) by nra. assert (P3 : 0 < 1 - d2 * d2 / 4) by nra.
  assert (S2 : sqrt (dot (tangent p1 p2) (tangent p1 p2)) = d3 * sqrt (1 - d3 * d3 / 4)).
  { rewrite T2, sqrt_mult, sqrt_square; nra. }
  assert (S3 : sqrt (dot (tangent p1 p3) (tangent p1 p3)) = d2 * sqrt (1 - d2 * d2 / 4)).
  { rewrite T3, sqrt_mult, sqrt_square; nra. }
  pose proof (sqrt_lt_R0 _ P2) as Q2. pose proof (sqrt_lt_R0 _ P3) as Q3.
  set (c := dot (tangent p1 p2) (tangent p1 p3) / (sqrt (dot (tangent p1 p2) (tangent p1 p2)) * sqrt (dot (tangent p1 p3) (tangent p1 p3)))).
  assert (Ec : (cos t - 1 / 4 * d2 * d3) / sqrt ((1 - d2 * d2 / 4) * (1 - d3 * d3 / 4)) = c).
  { unfold c. rewrite S2, S3, Hc, sqrt_mult by lra. rewrite tan_dot by auto.
    assert (X : dot (psub p2 p1) (psub p3 p1) = dot p2 p3 - dot p1 p2 - dot p1 p3 + 1).
    { unfold unitV in H1. rewrite <- H1. unfold dot, psub; cbn. ring. }
    rewrite X. assert (D2 : dot p1 p2 = 1 - d3 * d3 / 2) by lra. assert (D3 : dot p1 p3 = 1 - d2 * d2 / 2) by lra.
    rewrite D2, D3. field. repeat split; lra. }
  assert (B : -1 <= c <= 1).
  { assert (D : 0 < sqrt (dot (tangent p1 p2) (tangent p1 p2)) * sqrt (dot (tangent p1 p3) (tangent p1 p3))).
    { rewrite S2, S3. repeat apply Rmult_lt_0_compat; lra. }
    pose proof (cs (tangent p1 p2) (tangent p1 p3)) as K.
    set (X := dot (tangent p1 p2) (tangent p1 p3)) in *. set (D0 := sqrt _ * sqrt _) in *.
    assert (K' : X * X <= D0 * D0).
    { eapply Rle_trans; [exact K|]. unfold D0.
      replace (sqrt (dot (tangent p1 p2) (tangent p1 p2)) * sqrt (dot (tangent p1 p3) (tangent p1 p3)) *
        (sqrt (dot (tangent p1 p2) (tangent p1 p2)) * sqrt (dot (tangent p1 p3) (tangent p1 p3))))
        with ((sqrt (dot (tangent p1 p2) (tangent p1 p2)) * sqrt (dot (tangent p1 p2) (tangent p1 p2))) *
              (sqrt (dot (tangent p1 p3) (tangent p1 p3)) * sqrt (dot (tangent p1 p3) (tangent p1 p3)))) by ring.
      rewrite !sqrt_sqrt by (rewrite ?T2, ?T3; nra). lra. }
    assert (KK : - D0 <= X <= D0) by nra. fold D0 X in c |- *.
    unfold c. split; [apply Rmult_le_reg_r with D0|apply Rmult_le_reg_r with D0]; auto;
      replace (X / D0 * D0) with X by (field; lra); lra. }
  unfold fixPhi. rewrite Ec. fold c.
  destruct (Rlt_dec c (-1)) as [L|_]; [lra|]. destruct (Rlt_dec 1 c) as [L|_]; [lra|].
  split; [apply acos_bound|apply cos_acos; auto].
Qed.
Theorem C87_sphere b c n nz l p1 p2 p3 : b <> LogMultipole -> sphEuc c = true -> total l <> 0 ->
  unitV p1 -> unitV p2 -> unitV p3 -> 0 < chord p2 p3 -> 0 < chord p1 p3 < 2 -> 0 < chord p1 p2 < 2 ->
  (forall t, In t l -> chordTri p1 p2 p3 t) ->
  exists a1 a2 a3 phi, isArc a1 p2 p3 /\ isArc a2 p1 p3 /\ isArc a3 p1 p2 /\ isCorner phi p1 p2 p3 /\
  let s := finalizeBin b c n (sums nz l) in
  f_d1 s = a1 / sepU c /\ f_d2 s = a2 / sepU c /\ f_d3 s = a3 / sepU c /\
  f_ld1 s = ln a1 - ln (sepU c) /\ f_ld2 s = ln a2 - ln (sepU c) /\ f_ld3 s = ln a3 - ln (sepU c) /\
  (b = LogSAS -> f_u s = phi / phiU c).
Proof.
  intros Hb Hc HW H1 H2 H3 C1 C2 C3 HL.
  assert (Ht0 : exists u, isAngle u (dot (psub p2 p1) (psub p3 p1) / (chord p1 p2 * chord p1 p3)) /\
    forall t, In t l -> g_u t = u).
  { assert (N : exists t0, In t0 l).
    { destruct l as [|t0 l0]; [exfalso; apply HW; reflexivity|exists t0; left; auto]. }
    destruct N as [t0 N]. destruct (HL t0 N) as [_ [_ [_ U]]]. exists (g_u t0). split; auto.
    intros t Ht. destruct (HL t Ht) as [_ [_ [_ U']]]. destruct U as [U1 U2], U' as [V1 V2].
    apply cos_inj; lra. }
  destruct Ht0 as [u [HU Hu]].
  exists (chordArc (chord p2 p3)), (chordArc (chord p1 p3)), (chordArc (chord p1 p2)), (fixPhi u (chord p1 p3) (chord p1 p2)).
  split; [apply chordArc_arc; auto|]. split; [apply chordArc_arc; auto|]. split; [apply chordArc_arc; auto|].
  split; [apply fixPhi_corner; auto|].
  assert (M : forall f x, (forall t, In t l -> f t = x) -> sum3 (fun t => g_w t * f t) l / total l = x).
  { intros f x H. rewrite (sum3_const f x) by auto. field; auto. }
  assert (X1 : forall t, In t l -> g_d1 t = chord p2 p3) by (intros t Ht; apply (HL t Ht)).
  assert (X2 : forall t, In t l -> g_d2 t = chord p1 p3) by (intros t Ht; apply (HL t Ht)).
  assert (X3 : forall t, In t l -> g_d3 t = chord p1 p2) by (intros t Ht; apply (HL t Ht)).
  assert (ML : forall f x, (forall t, In t l -> f t = x) -> sum3 (fun t => g_w t * ln (f t)) l / total l = ln x).
  { intros f x H. apply (M (fun t => ln (f t))). intros t Ht. rewrite H; auto. }
  intro s. unfold s, finalizeBin. cbn [sums f_w].
  destruct (Req_EM_T (total l) 0) as [E|_]; [contradiction|].
  unfold applyUnits. rewrite Hc.
  assert (LC : forall x, 0 < x -> chordArcLog (ln x) = ln (chordArc x)).
  { intros x Hx. unfold chordArcLog, chordArc. rewrite exp_ln; auto. }
  destruct b; [| |congruence]; cbn -[chordArc chordArcLog fixPhi];
    rewrite (M g_d1 _ X1), (M g_d2 _ X2), (M g_d3 _ X3), (ML g_d1 _ X1), (ML g_d2 _ X2), (ML g_d3 _ X3), !LC by lra;
    repeat split; auto; try discriminate.
  intros _. rewrite (M g_u _ Hu). reflexivity.
Qed.
(** When the triangles differ, the mean distance is not the mean of the arcs. *)
Theorem C87_mean_arc_refuted : exists l c n, sphEuc c = true /\ sepU c = 1 /\ total l <> 0 /\
  (forall t, In t l -> 0 < g_w t /\ 0 < g_d1 t <= 2 /\ 0 < g_d2 t <= 2 /\ 0 < g_d3 t <= 2) /\
  f_d2 (finalizeBin LogSAS c n (sums 0 l)) <> wmean (fun t => 2 * asin (g_d2 t / 2)) l.
Proof.
  exists [mkT 1 1 1 1 0 0 (fun _ => 0); mkT 1 2 2 1 0 0 (fun _ => 0)], (mkFc true 1 1), (mkN 1 0 1 0 1 0).
  repeat split; auto; try (unfold total; cbn; lra);
    try (match goal with H : In _ _ |- _ => destruct H as [<-|[<-|[]]] end; cbn; lra).
  unfold finalizeBin. cbn [sums f_w]. set (l := [_; _]).
  assert (T : total l = 2) by (unfold total; cbn; lra).
  destruct (Req_EM_T (total l) 0) as [E|_]; [rewrite T in E; lra|].
  unfold applyUnits. cbn -[total sum3 chordArc]. rewrite T. unfold wmean. rewrite T. unfold l. cbn.
  unfold chordArc. intro E.
  replace ((1 * 1 + (1 * 2 + 0)) / 2 / 2) with (3/4) in E by field.
  replace (2 / 2) with 1 in E by field.
  assert (A2 : asin (1 / 2) = PI / 6).
  { rewrite <- sin_PI6. apply asin_sin. pose proof PI_RGT_0. lra. }
  rewrite asin_1, A2 in E.
  assert (E' : asin (3/4) = PI / 3) by lra.
  apply (f_equal sin) in E'. rewrite sin_asin, sin_PI3 in E' by lra.
  assert (sqrt 3 = 3/2) by lra. assert (sqrt 3 * sqrt 3 = 3) by (apply sqrt_sqrt; lra). nra.
Qed.

(** ** LogMultipole *)
Theorem C87_multipole c nm row n : let r := finalizeMul c nm row in
  f_ntri (r n) = f_ntri (row 0%Z) /\ f_d2 (r n) = f_d2 (r 0%Z) /\ f_ld2 (r n) = f_ld2 (r 0%Z) /\
  f_d3 (r n) = f_d3 (r 0%Z) /\ f_ld3 (r n) = f_ld3 (r 0%Z) /\
  f_w (r n) = f_w (row n) /\ f_wi (r n) = f_wi (row n) /\ f_z (r n) = f_z (row n).
Proof.
  cbv zeta. unfold finalizeMul, finalizeBin, applyUnits. cbn.
  repeat split; auto; repeat match goal with |- context [Req_EM_T ?x ?y] => destruct (Req_EM_T x y) end;
    cbn; auto; destruct (sphEuc c); auto.
Qed.
Theorem C87_multipole_means c nm row l nz n : sphEuc c = false -> total l <> 0 ->
  f_ntri (row 0%Z) = INR (length l) -> f_w (row 0%Z) = total l ->
  f_d2 (row 0%Z) = f_d2 (sums nz l) -> f_d3 (row 0%Z) = f_d3 (sums nz l) ->
  f_ld2 (row 0%Z) = f_ld2 (sums nz l) -> f_ld3 (row 0%Z) = f_ld3 (sums nz l) ->
  let r := finalizeMul c nm row in
  f_ntri (r n) = INR (length l) /\
  f_d2 (r n) = wmean g_d2 l / sepU c /\ f_d3 (r n) = wmean g_d3 l / sepU c /\
  f_ld2 (r n) = wmean (lg g_d2) l - ln (sepU c) /\ f_ld3 (r n) = wmean (lg g_d3) l - ln (sepU c).
Proof.
  intros Hc HW EN EW E2 E3 L2 L3 r. destruct (C87_multipole c nm row n) as [A [B [C [D [E _]]]]]. fold r in A, B, C, D, E.
  rewrite A, B, C, D, E. split; auto. unfold r, finalizeMul, finalizeBin. rewrite EW.
  destruct (Req_EM_T (total l) 0) as [X|_]; [contradiction|].
  unfold applyUnits. rewrite Hc. cbn. rewrite EW, E2, E3, L2, L3. cbn. repeat split; auto.
Qed.

(** ** Examples *)
Definition ex2 : list tri3 := [mkT 1 3 4 5 (PI/2) 0 (fun _ => 2); mkT 3 3 5 4 (PI/3) 0 (fun _ => 6)].
Example C87_means_example : total ex2 <> 0 /\
  let s := finalizeBin LogSAS (mkFc false (1/2) (PI/180)) (mkN 1 0 1 0 1 0) (sums 1 ex2) in
  f_d2 s = 19/2 /\ f_d3 s = 17/2 /\ f_u s = 135/2 /\ f_z s = [5].
Proof.
  assert (T : total ex2 <> 0) by (unfold total; cbn; lra). split; auto.
  destruct (C87_means LogSAS (mkFc false (1/2) (PI/180)) (mkN 1 0 1 0 1 0) 1 ex2) as
    [_ [_ [_ [E2 [E3 [_ [_ [_ [_ [EU EZ]]]]]]]]]]; auto; try discriminate.
  cbv zeta. rewrite E2, E3, EZ, EU by auto. unfold wmean, total. cbn. pose proof PI_RGT_0.
  repeat split; try (field; lra). f_equal. field.
Qed.
Example C87_empty_ruv_example : let n := mkN 2 (ln 2) 0 0 (1/2) (-1/2) in
  0 < n_d2 n /\ n_ld2 n = ln (n_d2 n) /\ 0 < n_u n /\
  f_d1 (finalizeBin LogRUV (mkFc false 1 1) n (mkF 0 0 0 [] 0 0 0 0 0 0 0 0)) = 5/2.
Proof.
  cbn. repeat split; try lra. unfold finalizeBin. cbn. destruct (Req_EM_T 0 0) as [_|N]; [|congruence]. cbn.
  rewrite Rabs_left by lra. field.
Qed.
Example C87_empty_sas_example : let n := mkN 3 (ln 3) 4 (ln 4) (PI/2) 0 in
  n_ld2 n = ln (n_d2 n) /\ n_ld3 n = ln (n_d3 n) /\
  f_d1 (finalizeBin LogSAS (mkFc false 1 1) n (mkF 0 0 0 [] 0 0 0 0 0 0 0 0)) = 5.
Proof.
  cbn. repeat split. unfold finalizeBin. cbn. destruct (Req_EM_T 0 0) as [_|N]; [|congruence]. cbn.
  rewrite cos_PI2. replace (_ - _) with (5 * 5) by ring. apply sqrt_square. lra.
Qed.
(** An octant of the sphere: all sides and the angle are 90 degrees; the chord triangle is equilateral. *)
Definition oX := mkpos 1 0 0. Definition oY := mkpos 0 1 0. Definition oZ := mkpos 0 0 1.
Definition exOct := [mkT 2 (sqrt 2) (sqrt 2) (sqrt 2) (PI/3) 0 (fun _ => 0); mkT 1 (sqrt 2) (sqrt 2) (sqrt 2) (PI/3) 0 (fun _ => 0)].
Lemma sqrt2_range : 1 < sqrt 2 < 2.
Proof. assert (sqrt 2 * sqrt 2 = 2) by (apply sqrt_sqrt; lra). pose proof (sqrt_pos 2). nra. Qed.
Lemma angle_right t : isAngle t 0 -> t = PI / 2.
Proof. intros [A B]. apply cos_inj; pose proof PI_RGT_0; try lra. rewrite B, cos_PI2. auto. Qed.
Example C87_sphere_example : total exOct <> 0 /\ unitV oX /\ unitV oY /\ unitV oZ /\
  0 < chord oY oZ /\ 0 < chord oX oZ < 2 /\ 0 < chord oX oY < 2 /\ (forall t, In t exOct -> chordTri oX oY oZ t) /\
  let s := finalizeBin LogSAS (mkFc true (PI/180) (PI/180)) (mkN 1 0 1 0 1 0) (sums 0 exOct) in
  f_d1 s = 90 /\ f_u s = 90.
Proof.
  assert (C1 : chord oY oZ = sqrt 2) by (unfold chord, dot, psub; cbn; f_equal; ring).
  assert (C2 : chord oX oZ = sqrt 2) by (unfold chord, dot, psub; cbn; f_equal; ring).
  assert (C3 : chord oX oY = sqrt 2) by (unfold chord, dot, psub; cbn; f_equal; ring).
  pose proof sqrt2_range as S. assert (S2 : sqrt 2 * sqrt 2 = 2) by (apply sqrt_sqrt; lra).
  assert (T : total exOct <> 0) by (unfold total; cbn; lra).
  assert (U1 : unitV oX) by (unfold unitV, dot; cbn; ring). assert (U2 : unitV oY) by (unfold unitV, dot; cbn; ring).
  assert (U3 : unitV oZ) by (unfold unitV, dot; cbn; ring).
  assert (HT : forall t, In t exOct -> chordTri oX oY oZ t).
  { pose proof PI_RGT_0 as HP.
    assert (K : isAngle (PI/3) (dot (psub oY oX) (psub oZ oX) / (chord oX oY * chord oX oZ))).
    { split; [lra|]. rewrite cos_PI3, C2, C3, S2. unfold dot, psub; cbn. field. }
    intros t [<- | [<- | []]]; unfold chordTri; cbn; rewrite C1, C2, C3 in *; auto. }
  split; auto. split; auto. split; auto. split; auto. split; [lra|]. split; [lra|]. split; [lra|]. split; auto.
  destruct (C87_sphere LogSAS (mkFc true (PI/180) (PI/180)) (mkN 1 0 1 0 1 0) 0 exOct oX oY oZ)
    as [a1 [a2 [a3 [phi [A1 [_ [_ [P [E1 [_ [_ [_ [_ [_ EU]]]]]]]]]]]]]]; auto; try discriminate; try lra.
  cbv zeta. rewrite E1, EU by auto. pose proof PI_RGT_0.
  assert (X : a1 = PI / 2). { apply angle_right. unfold isArc in A1. replace (dot oY oZ) with 0 in A1 by (unfold dot; cbn; ring). auto. }
  assert (Y : phi = PI / 2).
  { apply angle_right. unfold isCorner in P. replace (dot (tangent oX oY) (tangent oX oZ)) with 0 in P by (unfold tangent, dot; cbn; ring).
    unfold Rdiv in P. rewrite Rmult_0_l in P. auto. }
  rewrite X, Y. cbn. split; field; lra.
Qed.
Example C87_multipole_example : let row (n : Z) := if Z.eqb n 0 then sums 1 ex2 else mkF 0 7 8 [9] 1 1 1 1 1 1 1 1 in
  f_ntri (row 0%Z) = INR (length ex2) /\ f_w (row 0%Z) = total ex2 /\
  f_d2 (finalizeMul (mkFc false (1/2) 1) (mkN 1 0 1 0 1 0) row 3) = 19/2.
Proof.
  intro row. assert (T : total ex2 <> 0) by (unfold total; cbn; lra).
  split; auto. split; auto.
  destruct (C87_multipole_means (mkFc false (1/2) 1) (mkN 1 0 1 0 1 0) row ex2 1 3) as [_ [E _]]; auto.
  rewrite E. unfold wmean, total; cbn. field.
Qed.
