(** Lemmas for the aperture kernels: antiderivatives. *)
From Coq Require Import Reals Lra List ZArith.
From Verif Require Import Base Aper SpecAper.
Import ListNotations.
Open Scope R_scope.

Lemma integral_unique f a b v w : a <= b -> isIntegral f a b v -> isIntegral f a b w -> v = w.
Proof.
  intros Hab [F [HF ->]] [G [HG ->]].
  destruct (Req_dec a b) as [->|N]; [lra|].
  set (D := fun x => F x - G x).
  assert (HD : forall x, a <= x <= b -> derivable_pt_lim D x 0).
  { intros x Hx. replace 0 with (f x - f x) by ring. apply derivable_pt_lim_minus; auto. }
  assert (pr : forall c, a < c < b -> derivable_pt D c).
  { intros c Hc. exists 0. apply HD. lra. }
  assert (E : D b - D a = 0).
  { destruct (MVT_cor2 D (fun _ => 0) a b) as [c [Hc _]]; [lra| |lra].
    intros c Hc. apply HD; auto. }
  unfold D in E. lra.
Qed.

(** Polynomials by their coefficients *)
Definition pe (l : list R) (x : R) : R := fold_right (fun c a => c + x * a) 0 l.
Fixpoint dpe (l : list R) (x : R) : R := match l with [] => 0 | _ :: t => pe t x + x * dpe t x end.
Lemma dpe_lim l x : derivable_pt_lim (pe l) x (dpe l x).
Proof.
  induction l as [|c t IH]; [apply derivable_pt_lim_const|].
  change (pe (c :: t)) with (plus_fct (fct_cte c) (mult_fct id (pe t))).
  cbn [dpe]. replace (pe t x + x * dpe t x) with (0 + (1 * pe t x + id x * dpe t x)) by (unfold id; ring).
  apply derivable_pt_lim_plus; [apply derivable_pt_lim_const|].
  apply derivable_pt_lim_mult; [apply derivable_pt_lim_id|auto].
Qed.
Lemma lim_eq f x a b : derivable_pt_lim f x a -> a = b -> derivable_pt_lim f x b.
Proof. intros H <-; auto. Qed.
Lemma lim_ext f g x a : (forall t, f t = g t) -> derivable_pt_lim f x a -> derivable_pt_lim g x a.
Proof.
  intros E H eps He. destruct (H eps He) as [d Hd]. exists d. intros h H1 H2. rewrite <- !E. auto.
Qed.

(** polynomial times exp(-t^2/4) *)
Definition ex4 (l : list R) (t : R) : R := pe l t * exp (- (t * t) / 4).
Lemma ex4_lim l x : derivable_pt_lim (ex4 l) x ((dpe l x - x / 2 * pe l x) * exp (- (x * x) / 4)).
Proof.
  assert (E : derivable_pt_lim (fun t => exp (- (t * t) / 4)) x (exp (- (x * x) / 4) * (- x / 2))).
  { apply (derivable_pt_lim_comp (fun t => - (t * t) / 4) exp); [|apply derivable_pt_lim_exp].
    eapply lim_ext; [|eapply lim_eq; [apply (dpe_lim [0; 0; -1/4] x)|]].
    - intro t. cbn. field.
    - cbn. field. }
  eapply lim_ext; [|eapply lim_eq; [apply (derivable_pt_lim_mult (pe l) (fun t => exp (- (t * t) / 4))); [apply dpe_lim|exact E]|]].
  - reflexivity.
  - cbn. field.
Qed.

(** P(t) acos(t/2) + Q(t) sqrt(4-t^2) *)
Definition ac2 (P Q : list R) (t : R) : R := pe P t * acos (t / 2) + pe Q t * sqrt (4 - t * t).
Lemma acos2_lim x : -2 < x < 2 -> derivable_pt_lim (fun t => acos (t / 2)) x (- / sqrt (4 - x * x)).
Proof.
  intro Hx. assert (Hr : -1 < x / 2 < 1) by lra.
  assert (D := derivable_pt_lim_comp (fun t => t / 2) acos x (1 / 2) (-1 / sqrt (1 - Rsqr (x / 2)))).
  eapply lim_eq; [apply D|].
  - eapply lim_ext; [|eapply lim_eq; [apply (dpe_lim [0; 1/2] x)|]]; [intro t|]; cbn; field.
  - rewrite <- (derive_pt_acos (x / 2) Hr). apply derive_pt_eq_1 with (pr := derivable_pt_acos (x / 2) Hr). reflexivity.
  - assert (P0 : 0 < 4 - x * x) by nra.
    replace (4 - x * x) with (2 * 2 * (1 - Rsqr (x / 2))) by (unfold Rsqr; field).
    assert (P1 : 0 < 1 - Rsqr (x / 2)) by (unfold Rsqr; nra).
    rewrite sqrt_mult, sqrt_square by lra.
    assert (0 < sqrt (1 - Rsqr (x / 2))) by (apply sqrt_lt_R0; auto). field. lra.
Qed.
Lemma sqrt4_lim x : -2 < x < 2 -> derivable_pt_lim (fun t => sqrt (4 - t * t)) x (- x / sqrt (4 - x * x)).
Proof.
  intro Hx. assert (P0 : 0 < 4 - x * x) by nra.
  eapply lim_eq; [apply (derivable_pt_lim_comp (fun t => 4 - t * t) sqrt x (- (2 * x)) (/ (2 * sqrt (4 - x * x))))|].
  - eapply lim_ext; [|eapply lim_eq; [apply (dpe_lim [4; 0; -1] x)|]]; [intro t|]; cbn; ring.
  - apply derivable_pt_lim_sqrt; auto.
  - assert (0 < sqrt (4 - x * x)) by (apply sqrt_lt_R0; auto). field. lra.
Qed.
Lemma ac2_lim P Q x : -2 < x < 2 ->
  derivable_pt_lim (ac2 P Q) x
    (dpe P x * acos (x / 2) - pe P x / sqrt (4 - x * x) + (dpe Q x * sqrt (4 - x * x) - pe Q x * x / sqrt (4 - x * x))).
Proof.
  intro Hx. assert (0 < sqrt (4 - x * x)) by (apply sqrt_lt_R0; nra).
  eapply lim_ext; [|eapply lim_eq; [apply (derivable_pt_lim_plus (mult_fct (pe P) (fun t => acos (t / 2)))
     (mult_fct (pe Q) (fun t => sqrt (4 - t * t)))); apply derivable_pt_lim_mult;
     [apply dpe_lim|apply acos2_lim; auto|apply dpe_lim|apply sqrt4_lim; auto]|]].
  - reflexivity.
  - cbv beta. field. lra.
Qed.
(** the value near 2 *)
Lemma acos2_small eps : 0 < eps -> exists d, 0 < d /\ forall x, 0 <= x -> 2 - d < x < 2 -> 0 <= acos (x / 2) < eps.
Proof.
  intro He. set (e := Rmin eps 1). assert (HP := PI2_3_2). unfold PI2 in HP.
  assert (E1 := Rmin_l eps 1). assert (E2 := Rmin_r eps 1).
  assert (E0 : 0 < e) by (unfold e; apply Rmin_glb_lt; lra). fold e in E1, E2.
  assert (C : cos e < 1) by (rewrite <- cos_0; apply cos_decreasing_1; lra).
  exists (2 * (1 - cos e)). split; [lra|]. intros x H0 [H1 H2].
  assert (HC : cos (acos (x / 2)) = x / 2) by (apply cos_acos; lra).
  assert (Hb := acos_bound (x / 2)). split; [lra|].
  destruct (Rlt_dec (acos (x / 2)) e) as [|N]; [lra|]. exfalso.
  assert (M : cos (acos (x / 2)) <= cos e) by (apply cos_decr_1; lra).
  rewrite HC in M. lra.
Qed.

(** ** Behaviour at 2 and at infinity *)
Fixpoint pb (b : R) (l : list R) : R := match l with [] => 0 | c :: t => Rabs c + b * pb b t end.
Lemma pb_pos b l : 0 <= b -> 0 <= pb b l.
Proof. intro H. induction l as [|c t IH]; cbn [pb]; [lra|]. assert (K := Rabs_pos c). nra. Qed.
Lemma pe_bound b l x : Rabs x <= b -> Rabs (pe l x) <= pb b l.
Proof.
  intro H. assert (B0 : 0 <= b) by (assert (K := Rabs_pos x); lra).
  induction l as [|c t IH]; cbn [pb pe fold_right]; [rewrite Rabs_R0; lra|]. fold (pe t x).
  eapply Rle_trans; [apply Rabs_triang|]. rewrite Rabs_mult.
  assert (K := pb_pos b t B0). assert (K' := Rabs_pos x). assert (K2 := Rabs_pos (pe t x)). nra.
Qed.
Lemma ac2_small P Q eps : 0 < eps -> exists d, 0 < d /\ forall x, 0 <= x -> 2 - d < x < 2 -> Rabs (ac2 P Q x) < eps.
Proof.
  intro He. assert (P0 := pb_pos 2 P ltac:(lra)). assert (Q0 := pb_pos 2 Q ltac:(lra)).
  set (e := eps / (2 * (pb 2 P + 1))). assert (E0 : 0 < e) by (unfold e; apply Rdiv_lt_0_compat; lra).
  set (h := eps / (2 * (pb 2 Q + 1))). assert (H0 : 0 < h) by (unfold h; apply Rdiv_lt_0_compat; lra).
  destruct (acos2_small e E0) as [d [Hd HA]].
  assert (D2 : 0 < h * h / 4) by (assert (0 < h * h) by (apply Rmult_lt_0_compat; auto); lra).
  exists (Rmin d (h * h / 4)). split; [apply Rmin_glb_lt; auto|].
  intros x Hx0 [H1 H2]. assert (M1 := Rmin_l d (h * h / 4)). assert (M2 := Rmin_r d (h * h / 4)).
  assert (A := HA x Hx0 ltac:(lra)).
  assert (S : 0 <= sqrt (4 - x * x) < h).
  { split; [apply sqrt_pos|]. rewrite <- (sqrt_square h) by lra. apply sqrt_lt_1; nra. }
  unfold ac2. eapply Rle_lt_trans; [apply Rabs_triang|]. rewrite !Rabs_mult, (Rabs_pos_eq (acos _)), (Rabs_pos_eq (sqrt _)) by lra.
  assert (Bx : Rabs x <= 2) by (rewrite Rabs_pos_eq; lra).
  assert (B1 := pe_bound 2 P x Bx). assert (B2 := pe_bound 2 Q x Bx).
  assert (R1 := Rabs_pos (pe P x)). assert (R2 := Rabs_pos (pe Q x)).
  assert (X1 : Rabs (pe P x) * acos (x / 2) <= pb 2 P * e) by (apply Rmult_le_compat; lra).
  assert (X2 : Rabs (pe Q x) * sqrt (4 - x * x) <= pb 2 Q * h) by (apply Rmult_le_compat; lra).
  assert (Y1 : pb 2 P * e < eps / 2).
  { replace (eps / 2) with ((pb 2 P + 1) * e) by (unfold e; field; lra). nra. }
  assert (Y2 : pb 2 Q * h < eps / 2).
  { replace (eps / 2) with ((pb 2 Q + 1) * h) by (unfold h; field; lra). nra. }
  lra.
Qed.
Lemma integralTo_ac2 f P Q a : 0 <= a < 2 -> (forall x, a <= x < 2 -> derivable_pt_lim (ac2 P Q) x (f x)) ->
  isIntegralTo f a 2 (- ac2 P Q a).
Proof.
  intros Ha HD eps He. destruct (ac2_small P Q eps He) as [d [Hd HS]]. exists d. split; auto.
  intros x Hx1 Hx2. exists (ac2 P Q x - ac2 P Q a). split.
  - exists (ac2 P Q). split; auto. intros t Ht. apply HD. lra.
  - replace (ac2 P Q x - ac2 P Q a - - ac2 P Q a) with (ac2 P Q x) by ring. apply HS; lra.
Qed.

Lemma exp_mul m y : exp (INR m * y) = exp y ^ m.
Proof.
  induction m; [simpl; rewrite Rmult_0_l; apply exp_0|].
  rewrite S_INR. replace ((INR m + 1) * y) with (y + INR m * y) by ring. rewrite exp_plus, IHm. reflexivity.
Qed.
Lemma pe_grow l x : 1 <= x -> Rabs (pe l x) <= pb 1 l * x ^ length l.
Proof.
  intro H. induction l as [|c t IH]; cbn [pb pe fold_right length pow]; [rewrite Rabs_R0; lra|]. fold (pe t x).
  eapply Rle_trans; [apply Rabs_triang|]. rewrite Rabs_mult, (Rabs_pos_eq x) by lra.
  assert (K := pb_pos 1 t ltac:(lra)). assert (K' := Rabs_pos c).
  assert (X : 1 <= x ^ length t) by (apply pow_R1_Rle; auto).
  assert (1 <= x * x ^ length t) by nra.
  assert (x * Rabs (pe t x) <= x * (pb 1 t * x ^ length t)) by (apply Rmult_le_compat_l; lra). nra.
Qed.
Lemma ex4_small l eps : 0 < eps -> exists M, 1 <= M /\ forall x, M < x -> Rabs (ex4 l x) < eps.
Proof.
  intro He. set (n := length l). set (m := S n). set (C := pb 1 l * (4 * INR m) ^ m).
  assert (Im : 0 < INR m) by (unfold m; rewrite S_INR; assert (K := pos_INR n); lra).
  assert (P0 := pb_pos 1 l ltac:(lra)).
  assert (C0 : 0 <= C) by (unfold C; apply Rmult_le_pos; [auto|apply pow_le; lra]).
  exists (1 + C / eps). assert (0 <= C / eps) by (unfold Rdiv; apply Rmult_le_pos; [auto|left; apply Rinv_0_lt_compat; auto]).
  split; [lra|]. intros x Hx. assert (x1 : 1 <= x) by lra.
  unfold ex4. rewrite Rabs_mult, (Rabs_pos_eq (exp _)) by (left; apply exp_pos).
  assert (G := pe_grow l x x1). fold n in G.
  set (y := x * x / (4 * INR m)). assert (y0 : 0 < y) by (unfold y; apply Rdiv_lt_0_compat; nra).
  assert (EX : exp (- (x * x) / 4) = / exp y ^ m).
  { rewrite <- exp_mul, <- exp_Ropp. f_equal. unfold y. field. lra. }
  assert (EY : y ^ m <= exp y ^ m) by (apply pow_incr; split; [lra|left; eapply Rlt_trans; [|apply exp_ineq1; lra]; lra]).
  assert (Y : 0 < y ^ m) by (apply pow_lt; auto).
  rewrite EX. apply Rle_lt_trans with (pb 1 l * x ^ n * / y ^ m).
  { apply Rmult_le_compat; [apply Rabs_pos|left; apply Rinv_0_lt_compat; lra|auto|apply Rinv_le_contravar; auto]. }
  assert (YE : / y ^ m = (4 * INR m) ^ m * / (x ^ m * x ^ m)).
  { unfold y, Rdiv. rewrite !Rpow_mult_distr, pow_inv. rewrite <- !Rpow_mult_distr.
    rewrite Rinv_mult, Rinv_inv. ring. }
  rewrite YE. replace (pb 1 l * x ^ n * ((4 * INR m) ^ m * / (x ^ m * x ^ m))) with (C * (x ^ n * / (x ^ m * x ^ m))) by (unfold C; ring).
  assert (Xn : 1 <= x ^ n) by (apply pow_R1_Rle; auto).
  assert (XE : x ^ n * / (x ^ m * x ^ m) <= / x).
  { unfold m. cbn [pow]. replace (x ^ n * / (x * x ^ n * (x * x ^ n))) with (/ x * / (x * x ^ n)) by (field; split; nra).
    rewrite <- (Rmult_1_r (/ x)) at 2. apply Rmult_le_compat_l; [left; apply Rinv_0_lt_compat; lra|].
    rewrite <- Rinv_1. apply Rinv_le_contravar; nra. }
  apply Rle_lt_trans with (C * / x); [apply Rmult_le_compat_l; auto|].
  assert (CX : C / eps * eps = C) by (field; lra).
  apply (Rmult_lt_reg_r x); [lra|]. replace (C * / x * x) with C by (field; lra). nra.
Qed.
Lemma integralInf_ex4 f l a : (forall x, a <= x -> derivable_pt_lim (ex4 l) x (f x)) ->
  isIntegralInf f a (- ex4 l a).
Proof.
  intros HD eps He. destruct (ex4_small l eps He) as [M [HM HS]]. exists (Rmax M a). split; [apply Rmax_r|].
  intros x Hx. assert (A := Rmax_l M a). assert (B := Rmax_r M a).
  exists (ex4 l x - ex4 l a). split.
  - exists (ex4 l). split; auto. intros t Ht. apply HD. lra.
  - replace (ex4 l x - ex4 l a - - ex4 l a) with (ex4 l x) by ring. apply HS. lra.
Qed.
