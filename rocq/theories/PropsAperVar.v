(** C83: the variances of the aperture statistics are those of a linear combination of
    uncorrelated bins. *)
From Coq Require Import Reals Lra List ZArith.
From Verif Require Import Base SumFacts Aper.
Import ListNotations.
Open Scope R_scope.

(** Error propagation: f is linear in the values x, y of the bins, and V is its variance when
    all these values are uncorrelated with variances vx, vy. *)
Definition propagates (bins : list Z) (f : (Z -> R) -> (Z -> R) -> R) (vx vy : Z -> R) (V : R) : Prop :=
  exists a b : Z -> R,
    (forall x y, f x y = sumR (fun k => a k * x k + b k * y k) bins) /\
    V = sumR (fun k => a k ^ 2 * vx k + b k ^ 2 * vy k) bins.
Lemma prop_of bins f vx vy V (T U : Z -> R) c d :
  (forall x y, f x y = dotA bins T x * c + dotA bins U y * d) ->
  V = dotA bins (fun k => T k ^ 2) vx * c ^ 2 + dotA bins (fun k => U k ^ 2) vy * d ^ 2 -> propagates bins f vx vy V.
Proof.
  intros Hf HV. exists (fun k => T k * c), (fun k => U k * d). split.
  - intros x y. rewrite Hf. unfold dotA. clear. induction bins as [|k l IH]; cbn [sumR]; [ring|]. rewrite <- IH. ring.
  - rewrite HV. unfold dotA. clear. induction bins as [|k l IH]; cbn [sumR]; [ring|]. rewrite <- IH. ring.
Qed.
(** Such a V is determined by f. *)
Lemma propagates_unique bins f vx vy V W : NoDup bins -> propagates bins f vx vy V -> propagates bins f vx vy W -> V = W.
Proof.
  intros ND [a [b [Ha ->]]] [a' [b' [Hb ->]]].
  assert (D : forall (g : Z -> R) k l, NoDup l -> In k l -> sumR (fun j => g j * (if Z.eqb j k then 1 else 0)) l = g k).
  { intros g k l. induction l as [|j l IH]; intros N Hi; [destruct Hi|]. apply NoDup_cons_iff in N as [N1 N2].
    cbn [sumR]. destruct (Z.eqb_spec j k) as [->|E].
    - rewrite (sumR_0 _ l); [ring|]. intros i Hi'. destruct (Z.eqb_spec i k) as [->|]; [contradiction|ring].
    - destruct Hi as [Hi|Hi]; [congruence|]. rewrite (IH N2 Hi). ring. }
  assert (A : forall k, In k bins -> a k = a' k /\ b k = b' k).
  { intros k Hk. set (dl := fun j : Z => if Z.eqb j k then 1 else 0). split.
    - pose proof (Ha dl (fun _ => 0)) as E1. rewrite Hb in E1.
      rewrite (sumR_ext _ (fun j => a' j * dl j) bins) in E1 by (intros; ring).
      rewrite (sumR_ext (fun j => a j * dl j + _) (fun j => a j * dl j) bins) in E1 by (intros; ring).
      unfold dl in E1. rewrite !D in E1; auto.
    - pose proof (Ha (fun _ => 0) dl) as E1. rewrite Hb in E1.
      rewrite (sumR_ext _ (fun j => b' j * dl j) bins) in E1 by (intros; ring).
      rewrite (sumR_ext (fun j => _ + b j * dl j) (fun j => b j * dl j) bins) in E1 by (intros; ring).
      unfold dl in E1. rewrite !D in E1; auto. }
  apply sumR_ext. intros k Hk. destruct (A k Hk) as [-> ->]. auto.
Qed.

(** The record of a finished GG correlation with other values of xip and xim. *)
Definition withXi (g : ggres) (x y : Z -> R) : ggres :=
  mkGG (gg_bins g) (gg_bs g) (gg_meanr g) x (gg_xipi g) y (gg_ximi g) (gg_varp g) (gg_varm g).
Theorem C83_variance u g Rap :
  let P := propagates (gg_bins g) in
  P (fun x y => m_map (calculateMapSq u (withXi g x y) Rap)) (gg_varp g) (gg_varm g) (m_var (calculateMapSq u g Rap)) /\
  P (fun x y => m_mx (calculateMapSq u (withXi g x y) Rap)) (gg_varp g) (gg_varm g) (m_var (calculateMapSq u g Rap)) /\
  P (fun x y => g_sq (calculateGamSq (withXi g x y) Rap)) (gg_varp g) (gg_varm g) (g_var (calculateGamSq g Rap)) /\
  P (fun x y => g_e (calculateGamSq (withXi g x y) Rap)) (gg_varp g) (gg_varm g) (g_vare (calculateGamSq g Rap)) /\
  P (fun x y => g_b (calculateGamSq (withXi g x y) Rap)) (gg_varp g) (gg_varm g) (g_vare (calculateGamSq g Rap)).
Proof.
  intro P; unfold P; clear P. repeat apply conj.
  - eapply (prop_of _ _ _ _ _ _ _ (1/2 * gg_bs g) (1/2 * gg_bs g)); [intros x y|]; cbn [calculateMapSq m_map m_var withXi gg_bins gg_bs gg_meanr gg_xip gg_xim].
    + rewrite Rmult_assoc, Rmult_plus_distr_r. reflexivity.
    + cbv beta. field.
  - eapply (prop_of _ _ _ _ _ _ _ (1/2 * gg_bs g) (-(1/2 * gg_bs g))); [intros x y|]; cbn [calculateMapSq m_mx m_var withXi gg_bins gg_bs gg_meanr gg_xip gg_xim].
    + match goal with |- (?a - ?b) * ?c * ?d = _ => replace ((a - b) * c * d) with (a * (c * d) + b * - (c * d)) by ring end. reflexivity.
    + cbv beta. field.
  - eapply (prop_of _ _ _ _ _ _ (fun _ => 0) (gg_bs g) 0); [intros x y|]; cbn [calculateGamSq g_sq g_var withXi gg_bins gg_bs gg_meanr gg_xip gg_xim].
    + rewrite Rmult_0_r, Rplus_0_r. reflexivity.
    + cbv beta. ring.
  - eapply (prop_of _ _ _ _ _ _ _ (1/2 * gg_bs g) (1/2 * gg_bs g)); [intros x y|]; cbn [calculateGamSq g_e g_vare withXi gg_bins gg_bs gg_meanr gg_xip gg_xim].
    + rewrite Rmult_assoc, Rmult_plus_distr_r. reflexivity.
    + cbv beta. field.
  - eapply (prop_of _ _ _ _ _ _ _ (1/2 * gg_bs g) (-(1/2 * gg_bs g))); [intros x y|]; cbn [calculateGamSq g_b g_vare withXi gg_bins gg_bs gg_meanr gg_xip gg_xim].
    + match goal with |- (?a - ?b) * ?c * ?d = _ => replace ((a - b) * c * d) with (a * (c * d) + b * - (c * d)) by ring end. reflexivity.
    + cbv beta. field.
Qed.
Theorem C83_variance_lens u bins bs meanr v Rap :
  propagates bins (fun x y => fst (fst (calculateNMap u bins bs meanr x y v Rap))) v (fun _ => 0)
    (snd (calculateNMap u bins bs meanr (fun _ => 0) (fun _ => 0) v Rap)) /\
  propagates bins (fun x y => snd (fst (calculateNMap u bins bs meanr x y v Rap))) (fun _ => 0) v
    (snd (calculateNMap u bins bs meanr (fun _ => 0) (fun _ => 0) v Rap)) /\
  propagates bins (fun x y => fst (calculateNapSq u bins bs meanr x v Rap)) v (fun _ => 0)
    (snd (calculateNapSq u bins bs meanr (fun _ => 0) v Rap)).
Proof.
  repeat apply conj.
  - eapply (prop_of _ _ _ _ _ _ (fun _ => 0) bs 0); [intros x y|]; cbn [calculateNMap fst snd].
    + rewrite Rmult_0_r, Rplus_0_r. reflexivity.
    + cbv beta. ring.
  - eapply (prop_of _ _ _ _ _ (fun _ => 0) _ 0 bs); [intros x y|]; cbn [calculateNMap fst snd].
    + rewrite Rmult_0_r, Rplus_0_l. reflexivity.
    + cbv beta. ring.
  - eapply (prop_of _ _ _ _ _ _ (fun _ => 0) bs 0); [intros x y|]; cbn [calculateNapSq fst snd].
    + rewrite Rmult_0_r, Rplus_0_r. reflexivity.
    + cbv beta. ring.
Qed.
(** One bin at meanr = 2 R: the variance is not 0. *)
Example C83_variance_example :
  let g := mkGG [0%Z] (1/10) (fun _ => 2) (fun _ => 3) (fun _ => 0) (fun _ => 1) (fun _ => 0) (fun _ => 1) (fun _ => 4) in
  NoDup (gg_bins g) /\ 0 < m_var (calculateMapSq Crittenden g 1).
Proof.
  cbv zeta. split; [repeat constructor; auto|].
  unfold calculateMapSq, m_var, dotA, kTp, kTm. cbn [gg_bins gg_bs gg_meanr gg_varp gg_varm sumR].
  assert (H := exp_pos (- (1 / 1 * 2 * (1 / 1 * 2)) / 4)).
  set (E := exp _) in *. clearbody E.
  match goal with |- 0 < (?a ^ 2 * 1 + 0 + (?b ^ 2 * 4 + 0)) * _ =>
    assert (0 < b ^ 2) by (apply pow_lt; nra); assert (0 <= a ^ 2) by (apply pow2_ge_0) end. nra.
Qed.
