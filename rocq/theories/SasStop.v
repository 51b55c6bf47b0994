(** Soundness of the stop tests of bin_type='LogSAS' (BinType.h:815-1068). *)
From Coq Require Import Reals Lra Lia List ZArith Bool Psatz.
From Verif Require Import Base Geometry Tree Traverse Spec GeomFacts Corr3 TriStop PropsArc SasGeom.
Import ListNotations.
Open Scope R_scope.

(** The labelled triangle is to be counted (up to its orientation). *)
Definition inS (P : tparams) (q1 q2 q3 : pos) : Prop :=
  0 < pdist q2 q3 /\ tminsep P <= pdist q1 q3 < tmaxsep P /\ tminsep P <= pdist q1 q2 < tmaxsep P /\
  tminu P <= phiOf q1 q2 q3 < tmaxu P.
Lemma inS_sym P q1 q2 q3 : inS P q1 q2 q3 -> inS P q1 q3 q2.
Proof. unfold inS. rewrite (phiOf_sym q1 q3 q2), (pdist_sym q3 q2). tauto. Qed.

Definition phiRange (P : tparams) : Prop :=
  0 <= tminu P <= 2 * PI / 3 /\ PI / 3 <= tmaxu P <= PI /\ tminu P < tmaxu P.

Lemma maxcosphi_eq P : phiRange P -> maxcosphi P = cos (tminu P).
Proof.
  intros [[H1 H2] [[H3 H4] H5]]. unfold maxcosphi.
  assert (E : Rltb (tminu P) 0 = false) by (apply Rltb_false; lra). rewrite E. cbn [andb].
  apply Rmax_left. apply cos_le; lra.
Qed.
Lemma mincosphi_eq P : phiRange P -> mincosphi P = cos (tmaxu P).
Proof.
  intros [[H1 H2] [[H3 H4] H5]]. unfold mincosphi.
  assert (E : Rltb PI (tmaxu P) = false) by (apply Rltb_false; lra). rewrite E, andb_false_r.
  apply Rmin_right. apply cos_le; lra.
Qed.
Lemma ssq_le c x : 0 <= c -> ssq x <= c * c -> x <= c.
Proof. intros Hc H. unfold ssq in H. destruct Rlt_dec; [lra|]. apply sq_le_inv; auto. Qed.
Lemma ssq_opp x : - ssq x = ssq (- x).
Proof. unfold ssq. repeat destruct Rlt_dec; lra || nra. Qed.

Lemma quot_trig s d : 0 <= s -> s < d -> 0 <= asin (s / d) <= PI / 2 /\ sin (asin (s / d)) = s / d /\
  sqrt (1 - Rsqr (s / d)) = cos (asin (s / d)) /\ 1 - Rsqr (s / d) = cos (asin (s / d)) * cos (asin (s / d)) /\
  0 <= cos (asin (s / d)).
Proof.
  intros H1 H2. pose proof (quot_range s d H1 H2) as Q.
  assert (R : 0 <= asin (s / d) <= PI / 2) by (split; [apply asin_nonneg; lra|apply asin_bound]).
  assert (E : sin (asin (s / d)) = s / d) by (apply sin_asin; lra).
  split; auto. split; auto.
  assert (C : 0 <= cos (asin (s / d))) by (apply cos_ge_0; lra).
  assert (X : 1 - Rsqr (s / d) = cos (asin (s / d)) * cos (asin (s / d))).
  { pose proof (sin2_cos2 (asin (s / d))) as T. rewrite E in T. unfold Rsqr in *. lra. }
  split; [|split]; auto. rewrite X. apply sqrt_square; auto.
Qed.

Section Rot.
Variables (sg lim limsq lim3 D2 D3 s1 s2 s3 ph : R).
Hypothesis S1 : 0 <= s1. Hypothesis S2 : 0 <= s2. Hypothesis S3 : 0 <= s3.
Hypothesis L3 : s1 + s2 < D3. Hypothesis L2 : s1 + s3 < D2.
Hypothesis PB : 0 <= ph <= PI.
Notation d2 := (asin ((s1 + s2) / D3)).
Notation d3 := (asin ((s1 + s3) / D2)).
Hypothesis Hsg : sg = 1 \/ sg = -1.
Lemma rot_spec x : rotCos sg lim limsq lim3 D2 D3 s1 s2 s3 (cos ph) = Some x ->
  x = cos (ph + sg * (d2 + d3)) /\
  (0 < s1 + s2 -> limsq <= cos d2 * cos d2) /\ (0 < s1 + s2 -> 0 < s1 + s3 -> lim <= cos (d2 + d3)) /\
  (s1 + s2 = 0 -> d2 = 0) /\ (s1 + s3 = 0 -> d3 = 0).
Proof.
  unfold rotCos. rewrite sqrt1_cos by auto.
  destruct (quot_trig (s1 + s2) D3 ltac:(lra) L3) as [R2 [E2 [C2 [X2 N2]]]].
  destruct (quot_trig (s1 + s3) D2 ltac:(lra) L2) as [R3 [E3 [C3 [X3 N3]]]].
  assert (Z2 : s1 + s2 = 0 -> d2 = 0).
  { intros ->. replace (0 / D3) with 0 by (unfold Rdiv; ring). apply asin_0. }
  assert (Z3 : s1 + s3 = 0 -> d3 = 0).
  { intros ->. replace (0 / D2) with 0 by (unfold Rdiv; ring). apply asin_0. }
  rewrite C2, C3, X2, X3. intro H.
  assert (CS : cos (ph + sg * (d2 + d3)) = cos ph * cos (d2 + d3) - sg * (sin ph * sin (d2 + d3))).
  { destruct Hsg as [-> | ->].
    - rewrite Rmult_1_l, cos_plus. ring.
    - replace (ph + -1 * (d2 + d3)) with (ph - (d2 + d3)) by ring. rewrite cos_minus. ring. }
  destruct (Rltb 0 (s1 + s2)) eqn:A2.
  - apply Rltb_true in A2. destruct (Rltb _ limsq) eqn:B2; [discriminate|]. apply Rltb_false in B2.
    destruct (Rltb 0 (s1 + s3)) eqn:A3.
    + apply Rltb_true in A3. destruct (Rltb _ limsq) eqn:B3; [discriminate|]. apply Rltb_false in B3.
      match type of H with (if Rltb ?y _ then _ else _) = _ => assert (Y : y = cos (d2 + d3)) end.
      { rewrite cos_plus, E2, E3. ring. }
      rewrite Y in H. destruct (Rltb _ lim) eqn:B4; [discriminate|]. apply Rltb_false in B4.
      injection H; intros <-. split; [|auto].
      rewrite CS. do 3 f_equal. rewrite sin_plus, E2, E3. ring.
    + apply Rltb_false in A3. assert (T : s1 + s3 = 0) by lra. specialize (Z3 T).
      injection H; intros <-. split; [|repeat split; auto; intros; lra].
      rewrite CS, Z3, Rplus_0_r, E2. reflexivity.
  - apply Rltb_false in A2. assert (T : s1 + s2 = 0) by lra. specialize (Z2 T).
    destruct (Rltb 0 (s1 + s3)) eqn:A3.
    + destruct (Rltb _ lim3) eqn:B3; [discriminate|].
      injection H; intros <-. split; [|repeat split; auto; intros; lra].
      rewrite CS, Z2, Rplus_0_l, E3. reflexivity.
    + apply Rltb_false in A3. assert (T' : s1 + s3 = 0) by lra. specialize (Z3 T').
      injection H; intros <-. split; [|repeat split; auto; intros; lra].
      rewrite CS, Z2, Z3, Rplus_0_r, cos_0, sin_0. ring.
Qed.
End Rot.

Section Stop.
Variable P : tparams.
Hypothesis HE : tmetric P = Euclidean.
Hypothesis Hms : 0 < tminsep P.
Hypothesis Hmx : 0 <= tmaxsep P.
Hypothesis PR : phiRange P.
Variable O : order.
Variables p1 p2 p3 q1 q2 q3 : pos.
Variables s1 s2 s3 : R.
Hypothesis S1 : 0 <= s1. Hypothesis S2 : 0 <= s2. Hypothesis S3 : 0 <= s3.
Hypothesis B1 : pdist p1 q1 <= s1.
Hypothesis B2 : pdist p2 q2 <= s2.
Hypothesis B3 : pdist p3 q3 <= s3.
Hypothesis HF : O = O3 -> tcoord P = Flat /\ pz p1 = 0 /\ pz p2 = 0 /\ pz p3 = 0 /\
  pz q1 = 0 /\ pz q2 = 0 /\ pz q3 = 0.
Notation D1 := (pdist p2 p3).
Notation D2 := (pdist p1 p3).
Notation D3 := (pdist p1 p2).

Lemma lips : Rabs (pdist q2 q3 - D1) <= s2 + s3 /\ Rabs (pdist q1 q3 - D2) <= s1 + s3 /\
  Rabs (pdist q1 q2 - D3) <= s1 + s2.
Proof. split; [|split]; apply pdist_lip; auto. Qed.

Lemma wrong_sound : s1 + s2 < D3 -> s1 + s3 < D2 -> O = O3 ->
  ccw (tmetric P) (tcoord P) p1 p3 p2 = false ->
  wrongWay D2 D3 s1 s2 s3 (cos (phiOf p1 p2 p3)) = true ->
  ccw (tmetric P) (tcoord P) q1 q3 q2 = false.
Proof.
  intros L3 L2 HO HC HW. destruct (HF HO) as [F [Z1 [Z2 [Z3 [Y1 [Y2 Y3]]]]]].
  rewrite HE, F in *. unfold ccw, wrapM in *. apply Rltb_false in HC. apply Rltb_false.
  change (pz (cross (psub q3 q1) (psub q2 q1))) with (cross2 (psub q3 q1) (psub q2 q1)).
  change (pz (cross (psub p3 p1) (psub p2 p1))) with (cross2 (psub p3 p1) (psub p2 p1)) in HC.
  apply (orient_keep p1 p2 p3 q1 q2 q3 s1 s2 s3); auto.
  destruct (quot_trig (s1 + s2) D3 ltac:(lra) L3) as [R2 [E2 [C2 [X2 N2]]]].
  destruct (quot_trig (s1 + s3) D2 ltac:(lra) L2) as [R3 [E3 [C3 [X3 N3]]]].
  unfold dphi2, dphi3. set (d2 := asin ((s1 + s2) / D3)) in *. set (d3 := asin ((s1 + s3) / D2)) in *.
  set (c := cos (phiOf p1 p2 p3)) in *.
  assert (CB : -1 <= c <= 1) by apply COS_bound.
  assert (AB : forall w, 0 <= w -> c * c <= w * w -> Rabs c <= w).
  { intros w Hw Q. apply Rabs_le. split; nra. }
  unfold wrongWay in HW.
  destruct (Rltb 0 (s1 + s2)) eqn:A2; destruct (Rltb 0 (s1 + s3)) eqn:A3; cbn [andb] in HW;
    rewrite ?C2, ?C3, ?X2, ?X3 in HW.
  - destruct (Rltb (cos d2 * cos d2) (Rsqr c)) eqn:T2; [discriminate|].
    destruct (Rltb (cos d3 * cos d3) (Rsqr c)) eqn:T3; [discriminate|].
    btrue.
    assert (P2 : Rltb 0 ((s1 + s2) / D3) = true).
    { apply Rltb_true. apply Rmult_lt_0_compat; [lra|apply Rinv_0_lt_compat; lra]. }
    assert (P3 : Rltb 0 ((s1 + s3) / D2) = true).
    { apply Rltb_true. apply Rmult_lt_0_compat; [lra|apply Rinv_0_lt_compat; lra]. }
    rewrite P2, P3 in HW. cbn [andb] in HW.
    match type of HW with (if Rltb ?y _ then _ else _) = _ => assert (Y : y = cos (d2 + d3)) end.
    { rewrite cos_plus, E2, E3. ring. }
    rewrite Y in HW. destruct (Rltb (cos (d2 + d3)) (Rabs c)) eqn:T; [discriminate|]. btrue. auto.
  - apply Rltb_false in A3. assert (T : s1 + s3 = 0) by lra.
    assert (Z : d3 = 0) by (unfold d3; rewrite T; unfold Rdiv; rewrite Rmult_0_l; apply asin_0).
    rewrite Z, Rplus_0_r. destruct (Rltb (cos d2 * cos d2) (Rsqr c)) eqn:T2; [discriminate|].
    apply Rltb_false in T2. apply AB; auto.
  - apply Rltb_false in A2. assert (T : s1 + s2 = 0) by lra.
    assert (Z : d2 = 0) by (unfold d2; rewrite T; unfold Rdiv; rewrite Rmult_0_l; apply asin_0).
    rewrite Z, Rplus_0_l. destruct (Rltb (cos d3 * cos d3) (Rsqr c)) eqn:T2; [discriminate|].
    apply Rltb_false in T2. apply AB; auto.
  - apply Rltb_false in A2, A3.
    assert (T2 : s1 + s2 = 0) by lra. assert (T3 : s1 + s3 = 0) by lra.
    assert (Z2' : d2 = 0) by (unfold d2; rewrite T2; unfold Rdiv; rewrite Rmult_0_l; apply asin_0).
    assert (Z3' : d3 = 0) by (unfold d3; rewrite T3; unfold Rdiv; rewrite Rmult_0_l; apply asin_0).
    rewrite Z2', Z3', Rplus_0_r, cos_0. apply Rabs_le. lra.
Qed.

Lemma stopSAS_out :
  stopSAS P O p1 p2 p3 (D1 * D1) (D2 * D2) (D3 * D3) s1 s2 s3 = None ->
  inS P q1 q2 q3 -> O = O3 /\ ccw (tmetric P) (tcoord P) q1 q3 q2 = false.
Proof.
  intros H [I1 [I2 [I3 I4]]]. destruct lips as [P1 [P2 P3]]. apply Rabs_le_inv in P1, P2, P3.
  pose proof (pdist_nonneg p2 p3). pose proof (pdist_nonneg p1 p3). pose proof (pdist_nonneg p1 p2).
  unfold stopSAS in H. rewrite !sqrt_square in H by auto.
  match type of H with (if ?b then _ else _) = _ => destruct b eqn:T end.
  { exfalso. clear H. btrue; unfold Rsqr in *;
      repeat match goal with
      | K : Reqb _ _ = true |- _ => apply Reqb_true in K
      | K : ?x * ?x < ?y * ?y |- _ => apply sq_lt_inv in K; [|lra]
      | K : ?x * ?x <= ?y * ?y |- _ => apply sq_le_inv in K; [|lra]
      end; try lra.
    - assert (D1 = 0) by nra. lra.
    - assert (D2 = 0) by nra. lra.
    - assert (D3 = 0) by nra. lra. }
  clear T.
  destruct (Rleb D3 (s1 + s2)) eqn:T3; [discriminate|]. apply Rleb_false in T3.
  destruct (Rleb D2 (s1 + s3)) eqn:T2; [discriminate|]. apply Rleb_false in T2.
  rewrite cosphi_cos in H by lra. set (ph := phiOf p1 p2 p3) in *.
  pose proof (phiOf_bound p1 p2 p3) as PB. fold ph in PB.
  destruct (ord3 O && negb (ccw (tmetric P) (tcoord P) p1 p3 p2)) eqn:TO.
  { apply andb_true_iff in TO as [TO TC]. apply negb_true_iff in TC.
    assert (HO : O = O3) by (destruct O; auto; discriminate).
    destruct (wrongWay D2 D3 s1 s2 s3 (cos ph)) eqn:TW; [|discriminate].
    split; auto. apply wrong_sound; auto. }
  clear TO. exfalso.
  pose proof (phi_move p1 p2 p3 q1 q2 q3 s1 s2 s3 B1 B2 B3 T3 T2) as PM. apply Rabs_le_inv in PM. fold ph in PM.
  pose proof (dphi2_range p1 p2 p3 q1 q2 q3 s1 s2 s3 B1 B2 B3 T3) as R2.
  pose proof (dphi3_range p1 p2 p3 q1 q2 q3 s1 s2 s3 B1 B2 B3 T2) as R3.
  unfold dphi2, dphi3 in *.
  rewrite (maxcosphi_eq P PR), (mincosphi_eq P PR) in H.
  destruct PR as [[U1 U2] [[U3 U4] U5]].
  (* the test of max_phi *)
  assert (REST :
    (if Rleb (D1 * D1) (Rsqr (s2 + s3)) then Some (mkSas D2 D3 (cos ph))
     else if Rltb (tmaxu P) PI && Rltb (cos ph) (cos (tmaxu P))
     then match rotCos (-1) (- cos (tmaxu P)) (- ssq (cos (tmaxu P))) (ssq (cos (tminu P))) D2 D3 s1 s2 s3 (cos ph) with
          | None => Some (mkSas D2 D3 (cos ph))
          | Some cosphimin => if Rltb cosphimin (cos (tmaxu P)) then None else Some (mkSas D2 D3 (cos ph))
          end
     else Some (mkSas D2 D3 (cos ph))) = None -> False).
  { clear H. intro H. destruct (Rleb (D1 * D1) (Rsqr (s2 + s3))); [discriminate|].
    destruct (Rltb (tmaxu P) PI && Rltb (cos ph) (cos (tmaxu P))) eqn:TT; [|discriminate]. btrue.
    destruct (rotCos (-1) _ _ _ D2 D3 s1 s2 s3 (cos ph)) as [x|] eqn:ER; [|discriminate].
    destruct (Rltb x (cos (tmaxu P))) eqn:TX; [|discriminate]. apply Rltb_true in TX.
    apply rot_spec in ER; auto. destruct ER as [EX [G1 [G2 [Z2 Z3]]]].
    rewrite ssq_opp in G1.
    set (d2 := asin ((s1 + s2) / D3)) in *. set (d3 := asin ((s1 + s3) / D2)) in *.
    assert (PH : tmaxu P < ph) by (apply cos_lt_inv; lra).
    assert (DL : d2 + d3 <= PI - tmaxu P \/ d2 + d3 <= PI / 2).
    { destruct (Rlt_dec 0 (s1 + s2)) as [A2|A2].
      - left. destruct (Rlt_dec 0 (s1 + s3)) as [A3|A3].
        + specialize (G2 A2 A3). apply cos_le_inv; try lra. rewrite Rtrigo_facts.cos_pi_minus. lra.
        + assert (d3 = 0) by (apply Z3; lra). specialize (G1 A2).
          apply ssq_le in G1; [|apply cos_ge_0; lra].
          apply cos_le_inv; try lra. rewrite Rtrigo_facts.cos_pi_minus.
          replace (d2 + d3) with d2 by lra. lra.
      - right. assert (d2 = 0) by (apply Z2; lra). lra. }
    assert (LO : - tmaxu P <= ph - (d2 + d3)) by (destruct DL; lra).
    rewrite EX in TX. replace (ph + -1 * (d2 + d3)) with (ph - (d2 + d3)) in TX by ring.
    destruct (Rle_lt_dec (ph - (d2 + d3)) (tmaxu P)) as [LL|LL]; [|lra].
    assert (cos (tmaxu P) <= cos (ph - (d2 + d3))); [|lra].
    destruct (Rle_lt_dec 0 (ph - (d2 + d3))).
    - apply cos_le; lra.
    - rewrite <- (cos_neg (ph - (d2 + d3))). apply cos_le; lra. }
  destruct (Rltb 0 (tminu P) && Rltb (cos (tminu P)) (cos ph)) eqn:TT; [|apply REST; exact H].
  btrue.
  match type of H with (if ?b then _ else _) = _ => destruct b; [discriminate|] end.
  destruct (rotCos 1 _ _ _ D2 D3 s1 s2 s3 (cos ph)) as [x|] eqn:ER; [|discriminate].
  destruct (Rltb (cos (tminu P)) x) eqn:TX; [|apply REST; exact H]. clear H REST. apply Rltb_true in TX.
  apply rot_spec in ER; auto. destruct ER as [EX [G1 [G2 [Z2 Z3]]]]. rewrite Rmult_1_l in EX.
  set (d2 := asin ((s1 + s2) / D3)) in *. set (d3 := asin ((s1 + s3) / D2)) in *.
  assert (PH : ph < tminu P) by (apply cos_lt_inv; lra).
  assert (DL : d2 + d3 <= tminu P \/ d2 + d3 <= PI / 2).
  { destruct (Rlt_dec 0 (s1 + s2)) as [A2|A2].
    - left. destruct (Rlt_dec 0 (s1 + s3)) as [A3|A3].
      + specialize (G2 A2 A3). apply cos_le_inv; lra.
      + assert (d3 = 0) by (apply Z3; lra). specialize (G1 A2).
        apply ssq_le in G1; [|apply cos_ge_0; lra].
        apply cos_le_inv; try lra. replace (d2 + d3) with d2 by lra. lra.
    - right. assert (d2 = 0) by (apply Z2; lra). lra. }
  assert (HI : ph + (d2 + d3) <= 2 * PI - tminu P) by (destruct DL; lra).
  rewrite EX in TX.
  destruct (Rlt_le_dec (ph + (d2 + d3)) (tminu P)) as [LL|LL]; [lra|].
  assert (cos (ph + (d2 + d3)) <= cos (tminu P)); [|lra].
  destruct (Rle_lt_dec (ph + (d2 + d3)) PI).
  - apply cos_le; lra.
  - replace (cos (ph + (d2 + d3))) with (cos (2 * PI - (ph + (d2 + d3)))).
    + apply cos_le; lra.
    + rewrite <- (cos_neg (ph + (d2 + d3))). rewrite <- (cos_period (- (ph + (d2 + d3))) 1). f_equal.
      simpl. ring.
Qed.
End Stop.
