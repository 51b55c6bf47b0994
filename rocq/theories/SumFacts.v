(** Finite sums and lists of pairs. *)
From Coq Require Import Reals Lra Lia List ZArith Bool Permutation.
From Verif Require Import Base.
Import ListNotations.
Open Scope R_scope.

Lemma sumR_app {A} (f : A -> R) l1 l2 : sumR f (l1 ++ l2) = sumR f l1 + sumR f l2.
Proof. induction l1; simpl; [lra|rewrite IHl1; lra]. Qed.
Lemma sumR_perm {A} (f : A -> R) l1 l2 : Permutation l1 l2 -> sumR f l1 = sumR f l2.
Proof. induction 1; simpl; lra. Qed.
Lemma sumR_ext {A} (f g : A -> R) l : (forall x, In x l -> f x = g x) -> sumR f l = sumR g l.
Proof.
  induction l; simpl; intro H; auto. rewrite H by auto. rewrite IHl; auto.
Qed.
Lemma sumR_map {A B} (f : B -> R) (g : A -> B) l : sumR f (map g l) = sumR (fun x => f (g x)) l.
Proof. induction l; simpl; auto. rewrite IHl; auto. Qed.
Lemma sumR_0 {A} (f : A -> R) l : (forall x, In x l -> f x = 0) -> sumR f l = 0.
Proof. induction l; simpl; intro H; auto. rewrite H by auto. rewrite IHl; auto. lra. Qed.
Lemma sumR_scal {A} c (f : A -> R) l : sumR (fun x => c * f x) l = c * sumR f l.
Proof. induction l; simpl; [lra|rewrite IHl; lra]. Qed.
Lemma sumR_scal_r {A} c (f : A -> R) l : sumR (fun x => f x * c) l = sumR f l * c.
Proof. induction l; simpl; [lra|rewrite IHl; lra]. Qed.
Lemma sumR_plus {A} (f g : A -> R) l : sumR (fun x => f x + g x) l = sumR f l + sumR g l.
Proof. induction l; simpl; [lra|rewrite IHl; lra]. Qed.
Lemma sumR_minus {A} (f g : A -> R) l : sumR (fun x => f x - g x) l = sumR f l - sumR g l.
Proof. induction l; simpl; [lra|rewrite IHl; lra]. Qed.
Lemma sumR_const {A} (c : R) (l : list A) : sumR (fun _ => c) l = INR (length l) * c.
Proof. induction l; [simpl; lra|]. change (length (a :: l)) with (S (length l)).
  rewrite S_INR. cbn [sumR]. rewrite IHl. lra. Qed.
Lemma sumR_concat {A} (f : A -> R) ll : sumR f (concat ll) = sumR (sumR f) ll.
Proof. induction ll; simpl; auto. rewrite sumR_app, IHll; auto. Qed.
Lemma sumR_nonneg {A} (f : A -> R) l : (forall x, In x l -> 0 <= f x) -> 0 <= sumR f l.
Proof.
  induction l; simpl; intro H; [lra|].
  pose proof (H a (or_introl eq_refl)). assert (0 <= sumR f l) by (apply IHl; auto). lra.
Qed.
Lemma sumR_pos {A} (f : A -> R) l : l <> [] -> (forall x, In x l -> 0 < f x) -> 0 < sumR f l.
Proof.
  destruct l; [congruence|intros _ H]. simpl.
  pose proof (H a (or_introl eq_refl)).
  assert (0 <= sumR f l) by (apply sumR_nonneg; intros; left; apply H; simpl; auto). lra.
Qed.
Lemma sumR_le {A} (f g : A -> R) l : (forall x, In x l -> f x <= g x) -> sumR f l <= sumR g l.
Proof.
  induction l; simpl; intro H; [lra|].
  pose proof (H a (or_introl eq_refl)). assert (sumR f l <= sumR g l) by (apply IHl; auto). lra.
Qed.
Lemma sumR_swap {A B} (f : A -> B -> R) la lb :
  sumR (fun a => sumR (f a) lb) la = sumR (fun b => sumR (fun a => f a b) la) lb.
Proof.
  induction la; simpl.
  - symmetry; apply sumR_0; auto.
  - rewrite IHla, <- sumR_plus. auto.
Qed.

(** Pairs *)
Lemma sumR_pairs {A B} (f : A * B -> R) l1 l2 :
  sumR f (pairs l1 l2) = sumR (fun x => sumR (fun y => f (x, y)) l2) l1.
Proof.
  unfold pairs; induction l1; simpl; auto. rewrite sumR_app, IHl1, sumR_map; auto.
Qed.
Lemma sumR_pairs_app_l {A B} (f : A * B -> R) l l' m :
  sumR f (pairs (l ++ l') m) = sumR f (pairs l m) + sumR f (pairs l' m).
Proof. rewrite !sumR_pairs, sumR_app; auto. Qed.
Lemma sumR_pairs_app_r {A B} (f : A * B -> R) l m m' :
  sumR f (pairs l (m ++ m')) = sumR f (pairs l m) + sumR f (pairs l m').
Proof.
  rewrite !sumR_pairs, <- sumR_plus. apply sumR_ext; intros. rewrite sumR_app; auto.
Qed.
Lemma sumR_pairs_prod {A B} (f : A -> R) (g : B -> R) l m :
  sumR (fun p => f (fst p) * g (snd p)) (pairs l m) = sumR f l * sumR g m.
Proof.
  rewrite sumR_pairs. cbn [fst snd].
  rewrite <- sumR_scal_r. apply sumR_ext; intros. rewrite sumR_scal; auto.
Qed.
Lemma in_pairs {A B} (l : list A) (m : list B) x y : In (x, y) (pairs l m) <-> In x l /\ In y m.
Proof. apply in_prod_iff. Qed.

Lemma pairs_app_l {A B} (l l' : list A) (m : list B) : pairs (l ++ l') m = pairs l m ++ pairs l' m.
Proof. unfold pairs; induction l; simpl; auto. rewrite IHl, app_assoc; auto. Qed.
Lemma pairs_app_r {A B} (l : list A) (m m' : list B) :
  Permutation (pairs l (m ++ m')) (pairs l m ++ pairs l m').
Proof.
  unfold pairs; induction l; simpl; auto. rewrite map_app, IHl.
  rewrite <- !app_assoc. apply Permutation_app_head.
  rewrite !app_assoc. apply Permutation_app_tail, Permutation_app_comm.
Qed.
Lemma pairs_perm_l {A B} (l l' : list A) (m : list B) :
  Permutation l l' -> Permutation (pairs l m) (pairs l' m).
Proof.
  induction 1; simpl; auto.
  - apply Permutation_app_head; auto.
  - rewrite !app_assoc. apply Permutation_app_tail, Permutation_app_comm.
  - eapply perm_trans; eauto.
Qed.
Lemma pairs_perm_r {A B} (l : list A) (m m' : list B) :
  Permutation m m' -> Permutation (pairs l m) (pairs l m').
Proof.
  intro H. induction l; simpl; auto. apply Permutation_app; auto. apply Permutation_map; auto.
Qed.
Lemma pairs_perm {A B} (l l' : list A) (m m' : list B) :
  Permutation l l' -> Permutation m m' -> Permutation (pairs l m) (pairs l' m').
Proof.
  intros H1 H2. eapply perm_trans; [apply pairs_perm_l; eauto|apply pairs_perm_r; auto].
Qed.
Lemma pairs_nil_r {A B} (l : list A) : @pairs A B l [] = [].
Proof. unfold pairs; induction l; simpl; auto. Qed.

(** Unordered pairs *)
Lemma upairs_app {A} (l l' : list A) :
  Permutation (upairs (l ++ l')) (upairs l ++ upairs l' ++ pairs l l').
Proof.
  induction l; simpl; [rewrite app_nil_r; auto|].
  rewrite map_app, IHl. rewrite <- !app_assoc. apply Permutation_app_head.
  unfold pairs. rewrite Permutation_app_comm. rewrite <- !app_assoc.
  apply Permutation_app_head.
  apply Permutation_app_head. apply Permutation_app_comm.
Qed.
Lemma in_upairs {A} (l : list A) x y : In (x, y) (upairs l) -> In x l /\ In y l.
Proof.
  induction l; simpl; [tauto|]. rewrite in_app_iff, in_map_iff.
  intros [[z [Hz Hi]]|H].
  - injection Hz; intros; subst; auto.
  - destruct (IHl H); auto.
Qed.
Lemma sumR_upairs_perm {A} (f : A * A -> R) l l' :
  (forall x y, f (x, y) = f (y, x)) -> Permutation l l' -> sumR f (upairs l) = sumR f (upairs l').
Proof.
  intros Hs. induction 1; simpl; auto.
  - rewrite !sumR_app, !sumR_map, IHPermutation.
    rewrite (sumR_perm (fun y => f (x, y)) l l'); auto.
  - rewrite !sumR_app, !sumR_map, (Hs y x). lra.
  - congruence.
Qed.
(** Twice the sum over unordered pairs is the sum over ordered pairs minus the diagonal. *)
Lemma sumR_upairs_double {A} (f : A -> A -> R) l :
  (forall x y, f x y = f y x) ->
  2 * sumR (fun p => f (fst p) (snd p)) (upairs l) =
  sumR (fun p => f (fst p) (snd p)) (pairs l l) - sumR (fun x => f x x) l.
Proof.
  intro Hs. induction l; [simpl; lra|].
  cbn [upairs]. rewrite sumR_app, sumR_map. cbn [fst snd].
  change (a :: l) with ([a] ++ l).
  rewrite sumR_pairs_app_l, !sumR_pairs_app_r, sumR_app.
  rewrite (sumR_pairs _ [a] [a]), (sumR_pairs _ [a] l). cbn [sumR fst snd].
  assert (sumR (fun p => f (fst p) (snd p)) (pairs l [a]) = sumR (fun x => f a x) l).
  { rewrite sumR_pairs. apply sumR_ext; intros; simpl. rewrite Hs; lra. }
  rewrite H. lra.
Qed.
