(** Sums over the loops of three-point patch processing; skipped patches; MPI. *)
From Coq Require Import Reals Lra Lia List ZArith Bool Permutation Psatz.
From Verif Require Import Base Geometry Tree Traverse Run Corr Patch Spec SpecRun GeomFacts SumFacts TreeFacts
  BinFacts TravFacts Exact MetricFacts Cover Lift Runs Examples Account PropsCount PropsRun PropsCorr PatchFacts
  PropsPatch PropsLocal Corr3 TriCover TriStop SpecTri TriFacts TriSpec PropsTri Patch3 Patch3Facts.
Import ListNotations.
Open Scope R_scope.

(** ** Each unordered triple of patches once *)
Lemma min_patch cats : cats <> [] -> exists x l, Permutation cats (x :: l) /\
  forall b, In b l -> (pidx x <= pidx b)%Z.
Proof.
  induction cats as [|a t IH]; [congruence|]. intros _. destruct t as [|b t].
  - exists a, []. split; auto. intros b [].
  - destruct IH as [x [l [HP HM]]]; [discriminate|]. destruct (Z_le_gt_dec (pidx a) (pidx x)) as [L|L].
    + exists a, (b :: t). split; auto. intros y Hy. apply (Permutation_in _ HP) in Hy as [<-|Hy]; auto.
      specialize (HM y Hy). lia.
    + exists x, (a :: l). split.
      * rewrite HP. apply perm_swap.
      * intros y [<-|Hy]; auto. lia.
Qed.
Definition loop3 (A : patch -> R) (B : patch -> patch -> R) (T : patch -> patch -> patch -> R) (cats : list patch) : R :=
  sumR (fun a => A a + sumR (fun b => if (pidx a <? pidx b)%Z
          then B a b + B b a + sumR (fun c => if (pidx b <? pidx c)%Z then T a b c else 0) cats
          else 0) cats) cats.
Lemma loop3_perm A B T l l' : Permutation l l' -> loop3 A B T l = loop3 A B T l'.
Proof.
  intro H. unfold loop3. rewrite (sumR_perm _ _ _ H). apply sumR_ext. intros a _. f_equal.
  rewrite (sumR_perm _ _ _ H). apply sumR_ext. intros b _. destruct (_ <? _)%Z; auto. f_equal.
  apply sumR_perm; auto.
Qed.
Lemma loop3_sum A B T (F : list patch -> R) : (forall a b c, T a b c = T a c b) ->
  (forall l l', Permutation l l' -> F l = F l') -> F [] = 0 ->
  (forall x l, F (x :: l) = A x + F l + sumR (fun b => B x b + B b x) l +
                            sumR (fun q => T x (fst q) (snd q)) (upairs l)) ->
  forall cats, NoDup (map pidx cats) -> loop3 A B T cats = F cats.
Proof.
  intros HT FP F0 FS cats. remember (length cats) as n eqn:En. revert cats En.
  induction n as [|n IH]; intros cats En HN.
  - destruct cats; [|discriminate]. simpl. auto.
  - destruct (min_patch cats) as [x [l [HP HM]]]; [intro; subst; discriminate|].
    rewrite (loop3_perm _ _ _ _ _ HP), (FP _ _ HP), FS.
    assert (HN' : NoDup (map pidx (x :: l))) by (eapply Permutation_NoDup; [apply Permutation_map; exact HP|auto]).
    inversion HN' as [|y ys Hx HNl]; subst.
    assert (HL : forall b, In b l -> (pidx x < pidx b)%Z).
    { intros b Hb. specialize (HM b Hb). assert (pidx b <> pidx x) by (intro E; apply Hx; rewrite <- E; apply in_map; auto). lia. }
    rewrite <- (IH l); [|apply Permutation_length in HP; simpl in HP; lia|auto].
    unfold loop3. cbn [sumR]. rewrite Z.ltb_irrefl.
    assert (E1 : sumR (fun b => if (pidx x <? pidx b)%Z then B x b + B b x +
        ((if (pidx b <? pidx x)%Z then T x b x else 0) + sumR (fun c => if (pidx b <? pidx c)%Z then T x b c else 0) l) else 0) l =
        sumR (fun b => B x b + B b x) l + sumR (fun q => T x (fst q) (snd q)) (upairs l)).
    { rewrite <- (ordered_pairs (fun b c => T x b c) l); auto. rewrite <- sumR_plus. apply sumR_ext. intros b Hb.
      specialize (HL b Hb). rewrite (proj2 (Z.ltb_lt _ _) HL).
      rewrite (proj2 (Z.ltb_ge (pidx b) (pidx x))) by lia. lra. }
    rewrite E1.
    assert (E2 : sumR (fun a => A a + ((if (pidx a <? pidx x)%Z then B a x + B x a +
        ((if (pidx x <? pidx x)%Z then T a x x else 0) + sumR (fun c => if (pidx x <? pidx c)%Z then T a x c else 0) l) else 0) +
        sumR (fun b => if (pidx a <? pidx b)%Z then B a b + B b a +
           ((if (pidx b <? pidx x)%Z then T a b x else 0) + sumR (fun c => if (pidx b <? pidx c)%Z then T a b c else 0) l) else 0) l)) l =
        sumR (fun a => A a + sumR (fun b => if (pidx a <? pidx b)%Z
          then B a b + B b a + sumR (fun c => if (pidx b <? pidx c)%Z then T a b c else 0) l
          else 0) l) l).
    { apply sumR_ext. intros a Ha. f_equal. pose proof (HL a Ha).
      rewrite (proj2 (Z.ltb_ge (pidx a) (pidx x))) by lia. rewrite Rplus_0_l. apply sumR_ext. intros b Hb.
      pose proof (HL b Hb). destruct (_ <? _)%Z; auto. rewrite (proj2 (Z.ltb_ge (pidx b) (pidx x))) by lia. lra. }
    rewrite Z.ltb_irrefl in E2. rewrite E2. lra.
Qed.

(** ** Sums of rows by patches *)
Lemma sum12_concat g l ll : sum12 g l (concat ll) =
  sumR (fun b => sum12 g l b) ll + sumR (fun q => sum3 g l (fst q) (snd q)) (upairs ll).
Proof.
  induction ll as [|b t IH]; simpl.
  - assert (sum12 g l [] = 0) by (apply sum12_0; intros ? ? ? _ []). lra.
  - rewrite sum12_app2, IH, sumR_app, sumR_map. cbn [fst snd].
    assert (E : sum3 g l b (concat t) = sumR (fun x => sum3 g l b x) t).
    { clear. induction t as [|c t IH]; simpl; [apply sum3_nil3|]. rewrite sum3_app3, IH. auto. }
    rewrite E. lra.
Qed.
Lemma sum12_concat1 g ll l : sum12 g (concat ll) l = sumR (fun a => sum12 g a l) ll.
Proof. induction ll as [|a t IH]; simpl; auto. rewrite sum12_app1, IH. auto. Qed.
Lemma sum3_concat g l1 l2 l3 : sum3 g (concat l1) (concat l2) (concat l3) =
  sumR (fun a => sumR (fun b => sumR (fun c => sum3 g a b c) l3) l2) l1.
Proof.
  induction l1 as [|a t IH]; simpl; auto. rewrite sum3_app1, IH. f_equal. clear.
  induction l2 as [|b t IH]; simpl; [apply sum3_nil2|]. rewrite sum3_app2, IH. f_equal. clear.
  induction l3 as [|c t IH]; simpl; [apply sum3_nil3|]. rewrite sum3_app3, IH. auto.
Qed.
Lemma allRows_perm l l' : Permutation l l' -> Permutation (allRows l) (allRows l').
Proof. intro H. unfold allRows. induction H; simpl; auto using Permutation_app_head.
  - rewrite !app_assoc. apply Permutation_app_tail. apply Permutation_app_comm.
  - etransitivity; eauto.
Qed.
Lemma rows_loop3 g cats : sym12 g -> sym23 g -> NoDup (map pidx cats) ->
  loop3 (fun a => sumU3 g (pobjs a)) (fun a b => sum12 g (pobjs a) (pobjs b))
        (fun a b c => sum3 g (pobjs a) (pobjs b) (pobjs c)) cats = sumU3 g (allRows cats).
Proof.
  intros S1 S2 HN. apply (loop3_sum _ _ _ (fun l => sumU3 g (allRows l))); auto.
  - intros a b c. rewrite sum3_swap23. apply sum3_ext. intros; apply S2.
  - intros l l' H. apply sumU3_perm; auto. apply allRows_perm; auto.
  - intros x l. unfold allRows. cbn [map concat]. rewrite sumU3_app; auto.
    rewrite sum12_concat, sum12_concat1, !sumR_map, upairs_map, sumR_map. cbn [fst snd].
    rewrite sumR_plus. lra.
Qed.
Lemma square_sum {A} (s : A -> R) l : sumR s l * sumR s l =
  sumR (fun a => s a * s a) l + 2 * sumR (fun q => s (fst q) * s (snd q)) (upairs l).
Proof.
  induction l as [|a t IH]; simpl; [lra|]. rewrite sumR_app, sumR_map. cbn [fst snd].
  rewrite (sumR_scal (s a) s t).
  lra.
Qed.

Lemma tot_loop3 (s : patch -> R) cats : NoDup (map pidx cats) ->
  loop3 (fun a => 1/6 * (s a * s a * s a)) (fun a b => 1/2 * s a * (s b * s b)) (fun a b c => s a * s b * s c) cats =
  1/6 * (sumR s cats * sumR s cats * sumR s cats).
Proof.
  intro HN. apply (loop3_sum _ _ _ (fun l => 1/6 * (sumR s l * sumR s l * sumR s l))); auto.
  - intros. ring.
  - intros l l' H. rewrite (sumR_perm s _ _ H). auto.
  - simpl. lra.
  - intros x l. cbn [sumR]. rewrite sumR_plus.
    rewrite (sumR_scal (1/2 * s x) (fun b => s b * s b)).
    rewrite (sumR_ext (fun b => 1/2 * s b * (s x * s x)) (fun b => (1/2 * (s x * s x)) * s b)) by (intros; ring).
    rewrite (sumR_scal (1/2 * (s x * s x)) s).
    rewrite (sumR_ext (fun q => s x * s (fst q) * s (snd q)) (fun q => s x * (s (fst q) * s (snd q)))) by (intros; ring).
    rewrite (sumR_scal (s x)). pose proof (square_sum s l) as Q.
    set (S := sumR s l) in *. set (S2 := sumR (fun a => s a * s a) l) in *.
    set (U := sumR (fun q => s (fst q) * s (snd q)) (upairs l)) in *.
    replace U with ((S * S - S2) / 2) by lra. field.
Qed.

(** ** The loops *)
Lemma auto3Jobs_loop (v : job3 -> R) cats :
  sumR v (auto3Jobs cats) =
  loop3 (fun a => v (mkJ3 (lkey a) (lkey a) (CAuto (catOf a)) true)) (fun _ _ => 0) (fun _ _ _ => 0) cats +
  sumR (fun a => sumR (fun b => if (pidx a <? pidx b)%Z then
      v (job12 (pidx a, pidx b, pidx b) (pidx a, pidx b, pidx b) O0 a b false) +
      v (job12 (pidx a, pidx b, pidx b) (pidx a, pidx a, pidx b) O0 b a false) +
      sumR (fun c => if (pidx b <? pidx c)%Z then v (job123 (pidx a, pidx b, pidx c) O0 a b c false) else 0) cats
    else 0) cats) cats.
Proof.
  unfold auto3Jobs, loop3. rewrite sumR_flat_map, <- sumR_plus. apply sumR_ext. intros a _.
  cbv zeta. cbn [sumR].
  rewrite (sumR_0 (fun b => if (pidx a <? pidx b)%Z then _ else 0)).
  2: { intros b _. destruct (_ <? _)%Z; auto. rewrite sumR_0; [lra|]. intros c _. destruct (_ <? _)%Z; auto. }
  rewrite Rplus_0_r. unfold lkey. f_equal. rewrite sumR_flat_map, sumR_filter, sumR_rev.
  apply sumR_ext. intros b _. destruct (_ <? _)%Z; auto. cbn [sumR]. rewrite sumR_map, sumR_filter. lra.
Qed.
Lemma auto3Jobs_sum (v : job3 -> R) A B T cats :
  (forall a, In a cats -> v (mkJ3 (lkey a) (lkey a) (CAuto (catOf a)) true) = A a) ->
  (forall a b, In a cats -> In b cats -> v (job12 (pidx a, pidx b, pidx b) (pidx a, pidx b, pidx b) O0 a b false) = B a b) ->
  (forall a b, In a cats -> In b cats -> v (job12 (pidx a, pidx b, pidx b) (pidx a, pidx a, pidx b) O0 b a false) = B b a) ->
  (forall a b c, In a cats -> In b cats -> In c cats -> v (job123 (pidx a, pidx b, pidx c) O0 a b c false) = T a b c) ->
  sumR v (auto3Jobs cats) = loop3 A B T cats.
Proof.
  intros HA HB1 HB2 HT. rewrite auto3Jobs_loop. unfold loop3. rewrite <- sumR_plus. apply sumR_ext. intros a Ha.
  rewrite (sumR_0 (fun b => if (pidx a <? pidx b)%Z then 0 + 0 + _ else 0)).
  2: { intros b _. destruct (_ <? _)%Z; auto. rewrite sumR_0; [lra|]. intros c _. destruct (_ <? _)%Z; auto. }
  rewrite HA, Rplus_0_r by auto. f_equal. apply sumR_ext. intros b Hb. destruct (_ <? _)%Z; auto.
  rewrite HB1, HB2 by auto. f_equal. apply sumR_ext. intros c Hc. destruct (_ <? _)%Z; auto.
Qed.
Lemma sumPairs12_eq g l1 l2 : sumPairs12 g l1 l2 = sum12 g l1 l2. Proof. reflexivity. Qed.
Lemma sumTriples_eq g l1 l2 l3 : sumTriples g l1 l2 l3 = sum3 g l1 l2 l3. Proof. reflexivity. Qed.
Lemma tri6_sym12 P f k : sym12 (tri6 P f k).
Proof. intros a b c. unfold tri6, tri1. lra. Qed.
Lemma tri6_sym23 P f k : sym23 (tri6 P f k).
Proof. intros a b c. unfold tri6, tri1. lra. Qed.
Lemma tri1_sym23 P f k : sym23 (tri1 P f k).
Proof. intros a b c. unfold tri1. lra. Qed.
Lemma auto3Jobs_val P f k cats : NoDup (map pidx cats) ->
  sumR (fun J => callVal P f k (jcall J)) (auto3Jobs cats) = sumTriplesU (tri6 P f k) (allRows cats).
Proof.
  intro HN. rewrite sumTriplesU_eq, <- rows_loop3; auto using tri6_sym12, tri6_sym23.
  apply auto3Jobs_sum; intros; simpl; auto.
Qed.
Lemma auto3Jobs_tot C cats : NoDup (map pidx cats) ->
  sumR (jobTot3 C) (auto3Jobs cats) =
  1/6 * (sumw (allRows cats) * sumw (allRows cats) * sumw (allRows cats)).
Proof.
  intro HN. rewrite sumw_allRows, <- tot_loop3 by auto.
  apply auto3Jobs_sum; intros; unfold jobTot3; simpl; auto; try (destruct triv3; simpl; auto).
Qed.
Lemma pairs_loop (h : patch -> R) (T : patch -> patch -> R) cats : (forall b c, T b c = T c b) ->
  NoDup (map pidx cats) ->
  sumR (fun b => h b + sumR (fun c => if (pidx b <? pidx c)%Z then T b c else 0) cats) cats =
  sumR h cats + sumR (fun q => T (fst q) (snd q)) (upairs cats).
Proof. intros HT HN. rewrite sumR_plus, ordered_pairs; auto. Qed.
Lemma cross12Jobs_val P f k O n1 n2 cats1 cats2 : O <> O3 -> NoDup (map pidx cats2) ->
  sumR (fun J => callVal P f k (jcall J)) (cross12Jobs O n1 n2 cats1 cats2) =
  sumPairs12 (ordG P f k O) (allRows cats1) (allRows cats2).
Proof.
  intros HO HN. unfold cross12Jobs. rewrite sumR_flat_map, sumPairs12_eq. unfold allRows at 1.
  rewrite sum12_concat1, sumR_map. apply sumR_ext. intros a _. rewrite sumR_flat_map.
  unfold allRows. rewrite sum12_concat, sumR_map, upairs_map, sumR_map. cbn [fst snd].
  rewrite <- (pairs_loop (fun b => sum12 (ordG P f k O) (pobjs a) (pobjs b))
      (fun b c => sum3 (ordG P f k O) (pobjs a) (pobjs b) (pobjs c)) cats2); auto.
  - apply sumR_ext. intros b _. cbv zeta. cbn [sumR]. simpl callVal at 1. f_equal.
    rewrite sumR_map, sumR_filter, sumR_rev. apply sumR_ext. intros c _. destruct (_ <? _)%Z; auto.
  - intros b c. rewrite sum3_swap23. apply sum3_ext. intros.
    destruct O; simpl; [apply tri6_sym23|apply tri1_sym23|congruence].
Qed.
Lemma cross3Jobs_val P f k O n1 n2 n3 cats1 cats2 cats3 :
  sumR (fun J => callVal P f k (jcall J)) (cross3Jobs O n1 n2 n3 cats1 cats2 cats3) =
  sumTriples (ordG P f k O) (allRows cats1) (allRows cats2) (allRows cats3).
Proof.
  unfold cross3Jobs. rewrite sumR_flat_map, sumTriples_eq. unfold allRows. rewrite sum3_concat, sumR_map.
  apply sumR_ext. intros a _. rewrite sumR_flat_map, sumR_map. apply sumR_ext. intros b _.
  rewrite !sumR_map. apply sumR_ext. intros c _. reflexivity.
Qed.

(** ** Skipped patches contain no triangle of the range *)
Lemma mid3_le a b c x : a <= x -> b <= x -> mid3 a b c <= x.
Proof.
  intros Ha Hb. unfold mid3. apply Rmax_lub; [eapply Rle_trans; [apply Rmin_l|auto]|].
  eapply Rle_trans; [apply Rmin_l|]. apply Rmax_lub; auto.
Qed.
Lemma mid3_le2 a b c x : b <= x -> c <= x -> mid3 a b c <= x.
Proof.
  intros Hb Hc. unfold mid3. apply Rmax_lub; [eapply Rle_trans; [apply Rmin_r|auto]|].
  eapply Rle_trans; [apply Rmin_r|]. auto.
Qed.
Lemma mid3_le3 a b c x : a <= x -> c <= x -> mid3 a b c <= x.
Proof.
  intros Hb Hc. unfold mid3. apply Rmax_lub; [eapply Rle_trans; [apply Rmin_l|auto]|].
  eapply Rle_trans; [apply Rmin_r|]. auto.
Qed.
Section Triv.
Variable P : tparams.
Hypothesis V : validRUV P.
Lemma tri_sides f k a b c : tri P f k a b c <> 0 -> side2 a b c < tmaxsep P /\ side3 a b c < tmaxsep P.
Proof.
  unfold tri. destruct (selTri P k a b c) eqn:S; [|congruence]. intros _.
  apply (selTri_iff P V) in S as [[[H1 H2] [H3 [H4 [_ [_ [H6 _]]]]]] _].
  apply floor_iff in H6. pose proof (vt_minsep _ V) as M. pose proof (vt_bs _ V) as BS.
  assert (E : side2 a b c < tmaxsep P).
  { rewrite (vt_maxsep _ V). apply log_iff_lt; auto; [lra|].
    assert (IZR (krOf P k + 1) <= IZR (tnbins P)) by (apply IZR_le; lia). rewrite plus_IZR in *. lra. }
  lra.
Qed.
Lemma maxsep_pos : 0 < tmaxsep P.
Proof. rewrite (vt_maxsep _ V). apply Rmult_lt_0_compat; [apply (vt_minsep _ V)|apply exp_pos]. Qed.
Lemma triv3_far l1 l2 l3 a b c : triv3 P l1 l2 l3 = true -> In a l1 -> In b l2 -> In c l3 ->
  ~ (euclid (opos a) (opos b) < tmaxsep P /\ euclid (opos a) (opos c) < tmaxsep P) /\
  ~ (euclid (opos a) (opos b) < tmaxsep P /\ euclid (opos b) (opos c) < tmaxsep P) /\
  ~ (euclid (opos a) (opos c) < tmaxsep P /\ euclid (opos b) (opos c) < tmaxsep P).
Proof.
  intros H Ia Ib Ic. unfold triv3 in H. apply Rltb_true in H. rewrite !euclid_pdist.
  pose proof (size_bound (meanPos l1) l1 a Ia) as S1. pose proof (size_bound (meanPos l2) l2 b Ib) as S2.
  pose proof (size_bound (meanPos l3) l3 c Ic) as S3.
  fold (maxDist (meanPos l1) l1) in S1. fold (maxDist (meanPos l2) l2) in S2. fold (maxDist (meanPos l3) l3) in S3.
  pose proof (maxDist_nonneg (meanPos l1) l1). pose proof (maxDist_nonneg (meanPos l2) l2).
  pose proof (maxDist_nonneg (meanPos l3) l3). pose proof maxsep_pos as HM.
  set (m1 := meanPos l1) in *. set (m2 := meanPos l2) in *. set (m3 := meanPos l3) in *.
  fold (pdist m1 m2) in H. fold (pdist m2 m3) in H. fold (pdist m3 m1) in H.
  pose proof (pdist_triangle m1 (opos a) m2). pose proof (pdist_triangle (opos a) (opos b) m2).
  pose proof (pdist_triangle m2 (opos b) m3). pose proof (pdist_triangle (opos b) (opos c) m3).
  pose proof (pdist_triangle m3 (opos c) m1). pose proof (pdist_triangle (opos c) (opos a) m1).
  pose proof (pdist_sym (opos b) m2). pose proof (pdist_sym (opos c) m3). pose proof (pdist_sym (opos a) m1).
  pose proof (pdist_sym (opos a) (opos c)).
  set (X := maxDist m1 l1 + maxDist m2 l2 + maxDist m3 l3 + 2 * tmaxsep P) in *.
  split; [|split]; intros [L1 L2].
  - assert (mid3 (pdist m2 m3) (pdist m3 m1) (pdist m1 m2) <= X) by (apply mid3_le2; unfold X; lra). lra.
  - assert (mid3 (pdist m2 m3) (pdist m3 m1) (pdist m1 m2) <= X) by (apply mid3_le3; unfold X; lra). lra.
  - assert (mid3 (pdist m2 m3) (pdist m3 m1) (pdist m1 m2) <= X) by (apply mid3_le; unfold X; lra). lra.
Qed.
Lemma ordG_0 f k O a b c :
  ~ (euclid (opos a) (opos b) < tmaxsep P /\ euclid (opos a) (opos c) < tmaxsep P) ->
  ~ (euclid (opos a) (opos b) < tmaxsep P /\ euclid (opos b) (opos c) < tmaxsep P) ->
  ~ (euclid (opos a) (opos c) < tmaxsep P /\ euclid (opos b) (opos c) < tmaxsep P) ->
  ordG P f k O a b c = 0.
Proof.
  intros H1 H2 H3.
  assert (Z : forall x y z, ~ (euclid (opos x) (opos y) < tmaxsep P /\ euclid (opos x) (opos z) < tmaxsep P) ->
    tri P f k x y z = 0).
  { intros x y z H. destruct (Req_dec (tri P f k x y z) 0) as [E|E]; auto.
    apply tri_sides in E as [E1 E2]. unfold side2, side3 in *. tauto. }
  assert (S : forall p q, euclid p q = euclid q p) by (intros; rewrite !euclid_pdist; apply pdist_sym).
  assert (tri P f k a b c = 0) by (apply Z; auto).
  assert (tri P f k a c b = 0) by (apply Z; tauto).
  assert (tri P f k b a c = 0) by (apply Z; rewrite (S (opos b) (opos a)); auto).
  assert (tri P f k b c a = 0) by (apply Z; rewrite (S (opos b) (opos a)); tauto).
  assert (tri P f k c a b = 0) by (apply Z; rewrite (S (opos c) (opos a)), (S (opos c) (opos b)); auto).
  assert (tri P f k c b a = 0) by (apply Z; rewrite (S (opos c) (opos a)), (S (opos c) (opos b)); tauto).
  destruct O; simpl; unfold tri6, tri1; lra.
Qed.
Lemma triv3_sum f k O l1 l2 l3 : triv3 P l1 l2 l3 = true -> sumTriples (ordG P f k O) l1 l2 l3 = 0.
Proof.
  intro H. apply sum3_0. intros a b c Ha Hb Hc.
  destruct (triv3_far l1 l2 l3 a b c H Ha Hb Hc) as [A1 [A2 A3]]. apply ordG_0; auto.
Qed.
Lemma triv3_sum12 f k O l1 l2 : triv3 P l1 l2 l2 = true -> sumPairs12 (ordG P f k O) l1 l2 = 0.
Proof.
  intro H. apply sum12_0. intros a b c Ha Hb Hc.
  destruct (triv3_far l1 l2 l2 a b c H Ha Hb Hc) as [A1 [A2 A3]]. apply ordG_0; auto.
Qed.
End Triv.

(** ** Calls are exact for LogRUV, bin_slop=0, Euclidean *)
Record exact3 (P : tparams) : Prop := mkE3 {
  e3V : validRUV P; e3S : noSlop3 P; e3E : tmetric P = Euclidean; e3v : tminv P = 0 }.
Lemma exact3_okMin C : exact3 (p3P C) -> okMin C.
Proof. intros [V S E _]. unfold okMin. rewrite (field3_min (p3R C)); auto; lra. Qed.
Definition callRows (c : call3) : list obj :=
  match c with
  | CAuto c => fst c
  | C12 _ c1 c2 => fst c1 ++ match c2 with Some c => fst c | None => [] end
  | C123 _ c1 c2 c3 => fst c1 ++ match c2 with Some c => fst c | None => [] end ++
                       match c3 with Some c => fst c | None => [] end
  end.
Definition callOrd (c : call3) : order :=
  match c with CAuto _ => O0 | C12 o _ _ => o | C123 o _ _ _ => o end.
Definition call12ok (c : call3) : Prop := match c with C12 o _ _ => o <> O3 | _ => True end.
Lemma call_exact C f k c : exact3 (p3P C) -> call12ok c -> weights3 f (callRows c) ->
  (callOrd c = O0 -> noTies (callRows c)) -> callExact C f k c.
Proof.
  intros [V S E MV] HO W NT temp HT. destruct c as [c|o c1 [c2|]|o c1 [c2|] [c3|]]; simpl in HT;
    try (subst temp; reflexivity).
  - destruct HT as [t [Ht ->]]. cbn [k3acc]. rewrite (C65_auto_exact (p3R C) f k (fst c) cleared3 t); auto.
    unfold cleared3. simpl. unfold p3P. lra.
  - destruct triv3 eqn:T.
    + subst temp. simpl. unfold cleared3. symmetry. apply triv3_sum12; auto.
    + destruct HT as [t [Ht ->]]. cbn [k3acc].
      rewrite (C66_cross12 (p3R C) o f k (fst c1) (fst c2) cleared3 t); auto.
      unfold cleared3. cbn [callVal]. rewrite Rplus_0_l. destruct o; auto. simpl in HO. congruence.
  - destruct triv3 eqn:T.
    + subst temp. simpl. unfold cleared3. symmetry. apply triv3_sum; auto.
    + destruct HT as [t [Ht ->]]. cbn [k3acc].
      rewrite (C66_cross (p3R C) o f k (fst c1) (fst c2) (fst c3) cleared3 t); auto.
      unfold cleared3. cbn [callVal]. rewrite Rplus_0_l. destruct o; auto.
Qed.
