(** C83: the kernels of the aperture statistics. *)
From Coq Require Import Reals Lra List ZArith.
From Verif Require Import Base Aper SpecAper AperFacts.
Import ListNotations.
Open Scope R_scope.

Definition ovpi (l : list R) : list R := map (fun c => c / PI) l.
Definition GS := ac2 (ovpi [0; 0; 12/5; 0; -9]) (ovpi [0; 0; 0; 3/5; 0; 17/4; 0; -199/200; 0; 27/200; 0; -3/400]).
Definition HS := ac2 (ovpi [0; 0; 0; 0; 6/5; 0; -6])
  (ovpi [0; 0; 0; 0; 0; 3/10; 0; 437/140; 0; -138/175; 0; 157/1400; 0; -9/1400]).
Definition GT := ac2 (ovpi [-2; 0; 2]) (ovpi [0; -1/2; 0; -1/4]).
Definition HT := ac2 (ovpi [-2; 0; 0; 0; 1]) (ovpi [0; -1/2; 0; -1/12; 0; -1/6]).
Definition XS := ac2 (ovpi [-24/5; 0; 18]) (ovpi [0; -6/5; 0; -17/2; 0; 199/100; 0; -27/100; 0; 3/200]).
Definition GC := ex4 [0; 0; 1/8; 0; -1/64].
Definition HC := ex4 [0; 0; 0; 0; 1/16; 0; -1/64].

Lemma root x : -2 < x < 2 -> 0 < sqrt (4 - x * x) /\ sqrt (4 - x * x) * sqrt (4 - x * x) = 4 - x * x.
Proof. intro H. split; [apply sqrt_lt_R0; nra|apply sqrt_sqrt; nra]. Qed.

(** an equation over y = sqrt(4-x^2), where x^2 = 4 - y^2 *)
Ltac overroot x :=
  let y := fresh "y" in let Hy := fresh "Hy" in let E := fresh "E" in let a := fresh "a" in
  destruct (root x) as [Hy E]; [lra|]; set (y := sqrt (4 - x * x)) in *; set (a := acos (x / 2)) in *;
  assert (PI <> 0) by (assert (HPP := PI_RGT_0); lra).

Lemma GS_lim x : -2 < x < 2 -> derivable_pt_lim GS x (x * kTp Schneider x).
Proof.
  intro H. eapply lim_eq; [apply ac2_lim; auto|]. unfold kTp. destruct Rlt_dec as [_|N]; [|lra].
  unfold ovpi; cbn [pe dpe map fold_right]. overroot x.
  apply (Rmult_eq_reg_r (y * PI)); [|apply Rmult_integral_contrapositive; lra].
  transitivity (y * a * (24/5 * x - 36 * x^3) - (12/5 * x^2 - 9 * x^4) +
     (9/5 * x^2 + 85/4 * x^4 - 1393/200 * x^6 + 243/200 * x^8 - 33/400 * x^10) * (y * y) -
     (3/5 * x^4 + 17/4 * x^6 - 199/200 * x^8 + 27/200 * x^10 - 3/400 * x^12)).
  { field. lra. }
  transitivity (y * a * (24/5 * x - 36 * x^3) + x^2/100 * (y * y) * (120 + 2320*x^2 - 754*x^4 + 132*x^6 - 9*x^8)).
  { rewrite E. field. }
  field. auto.
Qed.
Lemma HS_lim x : -2 < x < 2 -> derivable_pt_lim HS x (x ^ 3 * kTp Schneider x).
Proof.
  intro H. eapply lim_eq; [apply ac2_lim; auto|]. unfold kTp. destruct Rlt_dec as [_|N]; [|lra].
  unfold ovpi; cbn [pe dpe map fold_right]. overroot x.
  apply (Rmult_eq_reg_r (y * PI)); [|apply Rmult_integral_contrapositive; lra].
  transitivity (y * a * (24/5 * x^3 - 36 * x^5) - (6/5 * x^4 - 6 * x^6) +
     (3/2 * x^4 + 437/20 * x^6 - 9*138/175 * x^8 + 11*157/1400 * x^10 - 13*9/1400 * x^12) * (y * y) -
     (3/10 * x^6 + 437/140 * x^8 - 138/175 * x^10 + 157/1400 * x^12 - 9/1400 * x^14)).
  { field. lra. }
  transitivity (y * a * (24/5 * x^3 - 36 * x^5) + x^4/100 * (y * y) * (120 + 2320*x^2 - 754*x^4 + 132*x^6 - 9*x^8)).
  { rewrite E. field. }
  field. auto.
Qed.
Lemma GT_lim x : -2 < x < 2 -> derivable_pt_lim GT x (x * (kSp x / (x * x))).
Proof.
  intro H. eapply lim_eq; [apply ac2_lim; auto|]. unfold kSp. destruct Rlt_dec as [_|N]; [|lra].
  unfold ovpi; cbn [pe dpe map fold_right]. overroot x.
  destruct (Req_dec x 0) as [->|Nx].
  { assert (y = 2). { unfold y. replace (4 - 0 * 0) with (2 * 2) by ring. apply sqrt_square; lra. }
    rewrite (Rmult_0_l (_ / _)), H1. field. auto. }
  apply (Rmult_eq_reg_r (y * PI)); [|apply Rmult_integral_contrapositive; lra].
  transitivity (4 * x * y * a - (2 * x^2 - 2) + (- 1/2 - 3/4 * x^2) * (y * y) + (1/2 * x^2 + 1/4 * x^4)); [field; lra|].
  transitivity (4 * x * y * a - x^2 * (y * y)); [rewrite E; field|]. field. lra.
Qed.
Lemma HT_lim x : -2 < x < 2 -> derivable_pt_lim HT x (x ^ 3 * (kSp x / (x * x))).
Proof.
  intro H. eapply lim_eq; [apply ac2_lim; auto|]. unfold kSp. destruct Rlt_dec as [_|N]; [|lra].
  unfold ovpi; cbn [pe dpe map fold_right]. overroot x.
  destruct (Req_dec x 0) as [->|Nx].
  { assert (y = 2). { unfold y. replace (4 - 0 * 0) with (2 * 2) by ring. apply sqrt_square; lra. }
    replace (0 ^ 3) with 0 by ring. rewrite (Rmult_0_l (_ / _)), H1. field. auto. }
  apply (Rmult_eq_reg_r (y * PI)); [|apply Rmult_integral_contrapositive; lra].
  transitivity (4 * x^3 * y * a - (x^4 - 2) + (- 1/2 - 1/4 * x^2 - 5/6 * x^4) * (y * y) + (1/2 * x^2 + 1/12 * x^4 + 1/6 * x^6)); [field; lra|].
  transitivity (4 * x^3 * y * a - x^4 * (y * y)); [rewrite E; field|]. field. lra.
Qed.
Lemma XS_lim x : -2 < x < 2 -> x <> 0 -> derivable_pt_lim XS x (aroundLens (kTx Schneider) x).
Proof.
  intros H Nx. eapply lim_eq; [apply ac2_lim; auto|]. unfold aroundLens, kTx. destruct Rlt_dec as [_|N]; [|lra].
  unfold ovpi; cbn [pe dpe map fold_right]. overroot x.
  apply (Rmult_eq_reg_r (y * PI)); [|apply Rmult_integral_contrapositive; lra].
  transitivity (36 * x * y * a - (18 * x^2 - 24/5) +
     (- 6/5 - 51/2 * x^2 + 199/20 * x^4 - 189/100 * x^6 + 27/200 * x^8) * (y * y) +
     (6/5 * x^2 + 17/2 * x^4 - 199/100 * x^6 + 27/100 * x^8 - 3/200 * x^10)); [field; lra|].
  transitivity (36 * x * y * a - 3/20 * x^2 * (196 - 74 * x^2 + 14 * x^4 - x^6) * (y * y)); [rewrite E; field|]. field. auto.
Qed.
Lemma GC_lim x : derivable_pt_lim GC x (x * kTp Crittenden x).
Proof. eapply lim_eq; [apply ex4_lim|]. unfold kTp. cbn [pe dpe fold_right]. field. Qed.
Lemma HC_lim x : derivable_pt_lim HC x (x ^ 3 * kTp Crittenden x).
Proof. eapply lim_eq; [apply ex4_lim|]. unfold kTp. cbn [pe dpe fold_right]. field. Qed.
(** 2 Tx/t = (24 t - 2 t^3)/128 exp: antiderivative *)
Definition XC := ex4 [-1/4; 0; 1/32].
Lemma XC_lim x : x <> 0 -> derivable_pt_lim XC x (aroundLens (kTx Crittenden) x).
Proof. intro N. eapply lim_eq; [apply ex4_lim|]. unfold aroundLens, kTx. cbn [pe dpe fold_right]. field. auto. Qed.

Lemma power35 q : 0 < q -> Rpower q (7 / 2) = q ^ 3 * sqrt q.
Proof.
  intro H. replace (7 / 2) with (INR 3 + / 2) by (simpl; field).
  rewrite Rpower_plus, Rpower_pow, Rpower_sqrt by auto. reflexivity.
Qed.

(** ** C83: T_- belongs to T_+ : the pair separates E and B modes *)
Theorem C83_eb u s : 0 < s -> (u = Schneider -> s < 2) -> ebPair (kTp u) (kTm u) s.
Proof.
  intros H0 H2. destruct u.
  - exists (GC s - GC 0), (HC s - HC 0). split; [|split].
    + exists GC. split; auto. intros; apply GC_lim.
    + exists HC. split; auto. intros; apply HC_lim.
    + unfold GC, HC, ex4, kTp, kTm. cbn [pe fold_right]. field. lra.
  - specialize (H2 eq_refl). exists (GS s - GS 0), (HS s - HS 0). split; [|split].
    + exists GS. split; auto. intros x Hx. apply GS_lim. lra.
    + exists HS. split; auto. intros x Hx. apply HS_lim. lra.
    + unfold GS, HS, ac2, kTp, kTm. destruct Rlt_dec as [_|N]; [|lra].
      rewrite power35 by nra. unfold ovpi; cbn [pe map fold_right]. overroot s.
      transitivity (3/70 / PI * s^3 * y * (4 - s*s)^3); [field; auto|].
      field. split; lra.
Qed.
(** Outside the aperture (s >= 2) both kernels of the Schneider form vanish, as they must: the two integrals vanish.
    The first integral also says that a constant xi_+ contributes nothing. *)
Theorem C83_null :
  isIntegralInf (fun t => t * kTp Crittenden t) 0 0 /\ isIntegralInf (fun t => t ^ 3 * kTp Crittenden t) 0 0 /\
  isIntegralTo (fun t => t * kTp Schneider t) 0 2 0 /\ isIntegralTo (fun t => t ^ 3 * kTp Schneider t) 0 2 0 /\
  (forall s, 2 <= s -> kTp Schneider s = 0 /\ kTm Schneider s = 0).
Proof.
  assert (EC : - GC 0 = 0) by (unfold GC, ex4; cbn [pe fold_right]; ring).
  assert (FC : - HC 0 = 0) by (unfold HC, ex4; cbn [pe fold_right]; ring).
  assert (ES : - GS 0 = 0) by (unfold GS, ac2, ovpi; cbn [pe map fold_right]; unfold Rdiv; ring).
  assert (FS : - HS 0 = 0) by (unfold HS, ac2, ovpi; cbn [pe map fold_right]; unfold Rdiv; ring).
  split; [|split; [|split; [|split]]].
  - rewrite <- EC at 2. apply integralInf_ex4. intros; apply GC_lim.
  - rewrite <- FC at 2. apply integralInf_ex4. intros; apply HC_lim.
  - rewrite <- ES at 2. apply integralTo_ac2; [lra|]. intros x Hx. apply GS_lim. lra.
  - rewrite <- FS at 2. apply integralTo_ac2; [lra|]. intros x Hx. apply HS_lim. lra.
  - intros s Hs. unfold kTp, kTm. destruct Rlt_dec; [lra|]. auto.
Qed.

(** The tophat variance: S_- belongs to S_+ inside and outside the diameter, and S_+ has integral 1:
    constant shear of modulus 1 has variance 1. *)
Definition tophat (s : R) : R := kSp s / (s * s).
Definition tophatM (s : R) : R := kSm s / (s * s).
Theorem C83_tophat s : 0 < s < 2 -> ebPair tophat tophatM s.
Proof.
  intros [H0 H2]. exists (GT s - GT 0), (HT s - HT 0). split; [|split].
  - exists GT. split; auto. intros x Hx. apply GT_lim. lra.
  - exists HT. split; auto. intros x Hx. apply HT_lim. lra.
  - unfold GT, HT, ac2, tophat, tophatM, kSp, kSm. destruct Rlt_dec as [_|N]; [|lra].
    rewrite asin_acos by lra. replace (0 / 2) with 0 by field. rewrite acos_0.
    unfold ovpi; cbn [pe map fold_right]. overroot s. field. split; lra.
Qed.
Theorem C83_tophat_outer : isIntegralTo (fun t => t * tophat t) 0 2 1 /\ isIntegralTo (fun t => t ^ 3 * tophat t) 0 2 1 /\
  forall s, 2 <= s -> tophat s = 0 /\ tophatM s = tophat s + 4 * 1 / s ^ 2 - 12 * 1 / s ^ 4.
Proof.
  assert (HP := PI_RGT_0).
  assert (E : - GT 0 = 1).
  { unfold GT, ac2, ovpi; cbn [pe map fold_right]. replace (0 / 2) with 0 by field. rewrite acos_0. field. lra. }
  assert (F : - HT 0 = 1).
  { unfold HT, ac2, ovpi; cbn [pe map fold_right]. replace (0 / 2) with 0 by field. rewrite acos_0. field. lra. }
  split; [|split].
  - rewrite <- E. apply integralTo_ac2; [lra|]. intros x Hx. apply GT_lim. lra.
  - rewrite <- F. apply integralTo_ac2; [lra|]. intros x Hx. apply HT_lim. lra.
  - intros s Hs. unfold tophat, tophatM, kSp, kSm. destruct Rlt_dec; [lra|]. split; [unfold Rdiv; ring|field; lra].
Qed.

(** The kernel of <N Map> belongs to the kernel of <Nap^2> and <Map^2>. *)
Theorem C83_lens s : 0 < s ->
  isIntegralInf (aroundLens (kTx Crittenden)) s (kTp Crittenden s + kTx Crittenden s) /\
  (s < 2 -> isIntegralTo (aroundLens (kTx Schneider)) s 2 (kTp Schneider s + kTx Schneider s)) /\
  (2 <= s -> kTx Schneider s = 0).
Proof.
  intro H0. split; [|split].
  - replace (kTp Crittenden s + kTx Crittenden s) with (- XC s).
    { apply integralInf_ex4. intros x Hx. apply XC_lim. lra. }
    unfold XC, ex4, kTp, kTx. cbn [pe fold_right]. field.
  - intro H2. replace (kTp Schneider s + kTx Schneider s) with (- XS s).
    { apply integralTo_ac2; [lra|]. intros x Hx. apply XS_lim; lra. }
    unfold XS, ac2, kTp, kTx. destruct Rlt_dec as [_|N]; [|lra]. unfold ovpi; cbn [pe map fold_right].
    overroot s. field. auto.
  - intro H2. unfold kTx. destruct Rlt_dec; [lra|]. auto.
Qed.
Theorem C83_integral f a b v w : a <= b -> isIntegral f a b v -> isIntegral f a b w -> v = w.
Proof. apply integral_unique. Qed.
Example C83_examples : ebPair (kTp Schneider) (kTm Schneider) (1/2) /\ ebPair (kTp Crittenden) (kTm Crittenden) 5 /\
  ebPair tophat tophatM 1 /\ 0 < kTm Schneider 1 /\ kTp Crittenden 0 = 1/4.
Proof.
  split; [apply C83_eb; [lra|intros; lra]|]. split; [apply C83_eb; [lra|discriminate]|]. split; [apply C83_tophat; lra|].
  split.
  - unfold kTm. destruct Rlt_dec; [|lra]. rewrite power35 by lra. assert (HP := PI_RGT_0).
    assert (0 < sqrt (4 - 1 * 1)) by (apply sqrt_lt_R0; lra).
    assert (0 < 3 / (70 * PI)) by (apply Rdiv_lt_0_compat; lra).
    repeat apply Rmult_lt_0_compat; try lra.
  - unfold kTp. replace (- (0 * 0) / 4) with 0 by field. rewrite exp_0. field.
Qed.
