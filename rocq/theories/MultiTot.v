(** Totals of the multipole runs. *)
From Coq Require Import Reals Lra Lia List ZArith Bool Permutation Psatz.
From Verif Require Import Base Geometry Tree Traverse Spin Run Corr3 Spec SpecRun GeomFacts SumFacts TreeFacts
  BinFacts TravFacts Exact MetricFacts Cover Lift Runs Multi SpecMulti MultiFacts MultiFacts2 MultiIdx.
Import ListNotations.
Open Scope R_scope.

(** ** Accumulation *)
Lemma applyB_get {E F} (bf : E -> F -> bumps) f i : forall evs s,
  fold_left (applyB bf) evs s f i = s f i + sumR (fun e => getB (bf e f) i) evs.
Proof.
  induction evs as [|e evs IH]; intro s; simpl; [lra|].
  rewrite IH. unfold applyB at 1. rewrite bumps_get. lra.
Qed.
Lemma threadM_get {E F} (bf : E -> F -> bumps) f i iters :
  threadM bf iters f i = sumR (fun e => getB (bf e f) i) (concat iters).
Proof.
  unfold threadM. transitivity (clearedM f i + sumR (fun e => getB (bf e f) i) (concat iters)).
  2:{ unfold clearedM. lra. }
  generalize (@clearedM F). induction iters as [|x t IH]; intro s; simpl; [lra|].
  rewrite IH, applyB_get, sumR_app. lra.
Qed.
Lemma parallelM_get {E F} (bf : E -> F -> bumps) f i threads : forall s0,
  parallelM bf s0 threads f i = s0 f i + sumR (fun e => getB (bf e f) i) (concat (concat threads)).
Proof.
  unfold parallelM. induction threads as [|x t IH]; intro s; simpl; [lra|].
  rewrite IH. unfold accMAdd at 1. rewrite threadM_get, concat_app, sumR_app. lra.
Qed.
Lemma mIters_get {E F} (bf : E -> F -> bumps) iters s0 s1 f i : mIters bf iters s0 s1 ->
  exists evs, map Some evs = iters /\
  s1 f i = s0 f i + sumR (fun e => getB (bf e f) i) (concat evs).
Proof.
  intros [evs [threads [H1 [H2 ->]]]]. exists evs. split; auto.
  rewrite parallelM_get. f_equal. apply sumR_perm, perm_concat. symmetry. exact H2.
Qed.

(** ** Ordered pairs of different rows *)
Lemma sumR_dpairs {A} (F : A -> A -> R) l :
  sumR (fun q => F (fst q) (snd q)) (dpairs l) =
  sumR (fun x => sumR (fun y => F x y) l) l - sumR (fun x => F x x) l.
Proof.
  induction l as [|x t IH]; cbn [dpairs]; [simpl; lra|].
  rewrite !sumR_app, !sumR_map, IH. cbn [fst snd].
  assert (E : sumR (fun a => sumR (fun y => F a y) (x :: t)) t =
              sumR (fun a => F a x) t + sumR (fun a => sumR (fun y => F a y) t) t).
  { rewrite <- sumR_plus. apply sumR_ext. intros; reflexivity. }
  assert (E1 : forall f : A -> R, sumR f (x :: t) = f x + sumR f t) by reflexivity.
  rewrite (E1 (fun x0 => sumR _ (x :: t))), (E1 (fun x0 => F x0 x0)), E, (E1 (fun y => F x y)). lra.
Qed.
Lemma sumR_dpairs_perm {A} (F : A * A -> R) l l' : Permutation l l' ->
  sumR F (dpairs l) = sumR F (dpairs l').
Proof.
  intro H.
  assert (E : forall m, sumR F (dpairs m) = sumR (fun q => (fun a b => F (a, b)) (fst q) (snd q)) (dpairs m)).
  { intro m. apply sumR_ext. intros [a b] _. auto. }
  rewrite !E, !(sumR_dpairs (fun a b => F (a, b))). f_equal; [|apply sumR_perm; auto].
  rewrite (sumR_perm _ _ _ H). apply sumR_ext. intros x _. apply sumR_perm; auto.
Qed.
Lemma sumR_prod {A} (f g : A -> R) l m :
  sumR f l * sumR g m = sumR (fun x => sumR (fun y => f x * g y) m) l.
Proof.
  rewrite <- sumR_scal_r. apply sumR_ext. intros x _. rewrite sumR_scal. auto.
Qed.

(** Product of two selected sums, without the diagonal. *)
Section Sel.
Variable s : Z -> obj -> bool.
Hypothesis Hs : forall k k' j, s k j = true -> s k' j = true -> k = k'.
Definition A (k : Z) (f : obj -> R) (l : list obj) : R := sumR (fun j => if s k j then f j else 0) l.
Lemma A_prod_pairs k2 k3 (f g : obj -> R) l2 l3 :
  A k2 f l3 * A k3 g l2 =
  sumR (fun q => if s k2 (snd q) && s k3 (fst q) then f (snd q) * g (fst q) else 0) (pairs l2 l3).
Proof.
  unfold A. rewrite Rmult_comm, <- sumR_pairs_prod. apply sumR_ext. intros [a b] _. cbn [fst snd].
  destruct (s k2 b), (s k3 a); simpl; lra.
Qed.
Lemma A_prod_dpairs k2 k3 (f g : obj -> R) l :
  A k2 f l * A k3 g l - (if (k2 =? k3)%Z then A k2 (fun j => f j * g j) l else 0) =
  sumR (fun q => if s k2 (snd q) && s k3 (fst q) then f (snd q) * g (fst q) else 0) (dpairs l).
Proof.
  rewrite (sumR_dpairs (fun a b => if s k2 b && s k3 a then f b * g a else 0)). f_equal.
  - rewrite A_prod_pairs, sumR_pairs. reflexivity.
  - unfold A. destruct (Z.eqb_spec k2 k3) as [->|Hne].
    + apply sumR_ext. intros j _. destruct (s k3 j); simpl; lra.
    + symmetry. rewrite sumR_0; [lra|]. intros j _.
      destruct (s k2 j) eqn:E2, (s k3 j) eqn:E3; simpl; auto. exfalso. eauto.
Qed.
End Sel.

(** ** Values of single calculateZeta calls *)
Definition negv (v : gev -> R) (e : gev) : R := - v e.
Lemma mpSum_neg v mp k : mpSum (negv v) mp k = - mpSum v mp k.
Proof.
  unfold mpSum, negv. replace (- sumR _ mp) with ((-1) * sumR (fun e => if (gk e =? k)%Z then v e else 0) mp) by ring.
  rewrite <- sumR_scal. apply sumR_ext. intros e _. destruct (gk e =? k)%Z; lra.
Qed.
Lemma mpSum_zero mp k : mpSum (fun _ => 0) mp k = 0.
Proof. unfold mpSum. apply sumR_0. intros e _. destruct (gk e =? k)%Z; auto. Qed.

Section V.
Variable P : cparams.
Hypothesis HR : crpar P = None.
Hypothesis HB : validB (cbin P).
Variables J1 J2 J3 : cell -> Prop.

Lemma CV_neg J v f : CV P J1 J v f -> CV P J1 J (negv v) (fun i j => - f i j).
Proof.
  intros H a b k r lr Ha Hb HG i Hi. unfold negv. rewrite (H a b k r lr Ha Hb HG i Hi).
  replace (- sumR _ _) with ((-1) * sumR (f i) (objs b)) by ring. rewrite <- sumR_scal.
  apply sumR_ext. intros; ring.
Qed.
Lemma CV_zero J : CV P J1 J (fun _ => 0) (fun _ _ => 0).
Proof. intros a b k r lr _ _ _ i _. symmetry. apply sumR_0. auto. Qed.
Lemma CV_ext (J : cell -> Prop) (v v' : gev -> R) (f f' : obj -> obj -> R) : (forall a b k r lr, J1 a -> J b -> v (mkG a b k r lr) = v' (mkG a b k r lr)) ->
  (forall i j, f i j = f' i j) -> CV P J1 J v f -> CV P J1 J v' f'.
Proof.
  intros H1 H2 H a b k r lr Ha Hb HG i Hi. rewrite <- H1 by auto. rewrite (H a b k r lr Ha Hb HG i Hi).
  apply sumR_ext. intros; auto.
Qed.

Definition selT (k2 k3 : Z) (i : obj) (q : obj * obj) : bool :=
  selM P k2 i (snd q) && selM P k3 i (fst q).
Lemma sel_unique i k k' j : selM P k i j = true -> selM P k' i j = true -> k = k'.
Proof.
  unfold selM, rparInb. rewrite HR, !andb_true_r. rewrite !inBinb_true. intros. eapply inBin_unique; eauto.
Qed.

Lemma auto_val L z k2 k3 (a : obj -> R) a1 v1 g1' v2 g2' vw f1 h1 f2 h2 :
  zgood P J1 J2 L z -> (zk z <= k2)%Z -> (zk z <= k3)%Z ->
  CV P J1 J2 v1 f1 -> CV P J1 J2 g1' h1 -> CV P J1 J2 v2 f2 -> CV P J1 J2 g2' h2 ->
  CV P J1 J2 vw (fun i j => f1 i j * h1 i j + f2 i j * h2 i j) ->
  a1 = sumR a (objs (z1 z)) ->
  a1 * (mpSum v1 (zmp z) k2 * mpSum g1' (zmp z) k3 + mpSum v2 (zmp z) k2 * mpSum g2' (zmp z) k3
        - (if (k2 =? k3)%Z then mpSum vw (zmp z) k2 else 0)) =
  sumR (fun i => sumR (fun q => if selT k2 k3 i q
     then a i * (f1 i (snd q) * h1 i (fst q) + f2 i (snd q) * h2 i (fst q)) else 0) (dpairs L)) (objs (z1 z)).
Proof.
  intros [_ [_ [_ HZ]]] H2 H3 C1 D1 C2 D2 CW ->. rewrite <- sumR_scal_r. apply sumR_ext. intros i Hi.
  rewrite (HZ _ _ C1 i k2), (HZ _ _ D1 i k3), (HZ _ _ C2 i k2), (HZ _ _ D2 i k3), (HZ _ _ CW i k2) by auto.
  pose proof (A_prod_dpairs (fun k j => selM P k i j) (sel_unique i) k2 k3 (f1 i) (h1 i) L) as E1.
  pose proof (A_prod_dpairs (fun k j => selM P k i j) (sel_unique i) k2 k3 (f2 i) (h2 i) L) as E2.
  unfold A in E1, E2. unfold selSum.
  set (d1 := sumR _ (dpairs L)) in E1. set (d2 := sumR _ (dpairs L)) in E2.
  transitivity (a i * (d1 + d2)).
  - rewrite <- E1, <- E2. f_equal.
    match goal with |- ?x * ?y + ?z * ?w - _ = _ => set (X := x); set (Y := y); set (Z0 := z); set (W := w) end.
    destruct (k2 =? k3)%Z; [|lra].
    replace (sumR (fun j => if selM P k2 i j then f1 i j * h1 i j + f2 i j * h2 i j else 0) L)
      with (sumR (fun j => if selM P k2 i j then f1 i j * h1 i j else 0) L
          + sumR (fun j => if selM P k2 i j then f2 i j * h2 i j else 0) L); [lra|].
    rewrite <- sumR_plus. apply sumR_ext. intros j _. destruct (selM P k2 i j); lra.
  - subst d1 d2. rewrite <- sumR_plus, <- sumR_scal. apply sumR_ext. intros q _. unfold selT.
    destruct (selM P k2 i (snd q) && selM P k3 i (fst q)); lra.
Qed.

(** The same for two lists. *)
Lemma cross_val L2 L3 y k2 k3 (a : obj -> R) a1 v1 g1' v2 g2' f1 h1 f2 h2 :
  ygood P J1 J2 J3 L2 L3 y -> (yk y <= k2)%Z -> (yk y <= k3)%Z ->
  CV P J1 J3 v1 f1 -> CV P J1 J2 g1' h1 -> CV P J1 J3 v2 f2 -> CV P J1 J2 g2' h2 ->
  a1 = sumR a (objs (y1 y)) ->
  a1 * (mpSum v1 (ymp3 y) k2 * mpSum g1' (ymp2 y) k3 + mpSum v2 (ymp3 y) k2 * mpSum g2' (ymp2 y) k3) =
  sumR (fun i => sumR (fun q => if selT k2 k3 i q
     then a i * (f1 i (snd q) * h1 i (fst q) + f2 i (snd q) * h2 i (fst q)) else 0) (pairs L2 L3)) (objs (y1 y)).
Proof.
  intros [_ [_ [_ [HZ2 HZ3]]]] H2 H3 C1 D1 C2 D2 ->. rewrite <- sumR_scal_r. apply sumR_ext. intros i Hi.
  rewrite (HZ3 _ _ C1 i k2), (HZ2 _ _ D1 i k3), (HZ3 _ _ C2 i k2), (HZ2 _ _ D2 i k3) by auto.
  pose proof (A_prod_pairs (fun k j => selM P k i j) k2 k3 (f1 i) (h1 i) L2 L3) as E1.
  pose proof (A_prod_pairs (fun k j => selM P k i j) k2 k3 (f2 i) (h2 i) L2 L3) as E2.
  unfold A in E1, E2. unfold selSum. rewrite E1, E2, <- sumR_plus, <- sumR_scal.
  apply sumR_ext. intros q _. unfold selT.
  destruct (selM P k2 i (snd q) && selM P k3 i (fst q)); lra.
Qed.
Lemma cross_val' L2 L3 y k2 k3 (a : obj -> R) a1 v1 g1' v2 g2' f1 h1 f2 h2 :
  ygood P J1 J2 J3 L2 L3 y -> (yk y <= k2)%Z -> (yk y <= k3)%Z ->
  CV P J1 J2 v1 f1 -> CV P J1 J3 g1' h1 -> CV P J1 J2 v2 f2 -> CV P J1 J3 g2' h2 ->
  a1 = sumR a (objs (y1 y)) ->
  a1 * (mpSum v1 (ymp2 y) k2 * mpSum g1' (ymp3 y) k3 + mpSum v2 (ymp2 y) k2 * mpSum g2' (ymp3 y) k3) =
  sumR (fun i => sumR (fun q => if selT k2 k3 i q
     then a i * (f1 i (snd q) * h1 i (fst q) + f2 i (snd q) * h2 i (fst q)) else 0) (pairs L3 L2)) (objs (y1 y)).
Proof.
  intros [_ [_ [_ [HZ2 HZ3]]]] H2 H3 C1 D1 C2 D2 ->. rewrite <- sumR_scal_r. apply sumR_ext. intros i Hi.
  rewrite (HZ2 _ _ C1 i k2), (HZ3 _ _ D1 i k3), (HZ2 _ _ C2 i k2), (HZ3 _ _ D2 i k3) by auto.
  pose proof (A_prod_pairs (fun k j => selM P k i j) k2 k3 (f1 i) (h1 i) L3 L2) as E1.
  pose proof (A_prod_pairs (fun k j => selM P k i j) k2 k3 (f2 i) (h2 i) L3 L2) as E2.
  unfold A in E1, E2. unfold selSum. rewrite E1, E2, <- sumR_plus, <- sumR_scal.
  apply sumR_ext. intros q _. unfold selT.
  destruct (selM P k2 i (snd q) && selM P k3 i (fst q)); lra.
Qed.
End V.
