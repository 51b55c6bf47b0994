(** Example catalogs for calculateZeta: 3-4-5 triangles far from each other. *)
From Coq Require Import Reals Lra Lia List ZArith Bool Permutation.
From Verif Require Import Base Geometry Tree Traverse Run Corr Patch Spec SpecRun GeomFacts SumFacts TreeFacts
  BinFacts TravFacts Exact MetricFacts Cover Lift Runs Examples Account PropsCount PropsRun PropsCorr PatchFacts
  PropsPatch PropsLocal Corr3 TriCover TriStop SpecTri TriFacts TriSpec PropsTri TriMirror PropsTri2 PropsTri3
  Patch3 Patch3Facts Patch3Sum Patch3Res PropsPatch3 PropsLocal3 PropsPatch3Ex.
Import ListNotations.
Open Scope R_scope.

Definition wobj (x y w : R) (i : nat) : obj := mkobj (mkpos x y 0) w w 0 0 0 i.
(** Parameters of PropsTri3 (one bin in r, u and |v|: shapes 0 (clockwise) and 1). *)
Definition zC : pcfg3 := mkPC3 (triR 0) true.
Definition t6 (a b c : obj) : R := tri6 (triP 0) TWeight 1 a b c.
Definition tX : R := 20.
Lemma zC_exact : exact3 (p3P zC).
Proof. constructor; try reflexivity. - apply triP_valid; lra. - apply triP_noSlop. Qed.
Lemma zC_slop : slopOK3 (p3P zC).
Proof. destruct C65_example as [_ [_ [SK _]]]. exact SK. Qed.

Lemma t6_12 a b c : t6 a b c = t6 b a c. Proof. apply tri6_sym12. Qed.
Lemma t6_23 a b c : t6 a b c = t6 a c b. Proof. apply tri6_sym23. Qed.
Lemma euclid_px p q : Rabs (px p - px q) <= euclid p q.
Proof.
  apply Rsqr_incr_0; [|apply Rabs_pos|apply sqrt_pos]. unfold Rsqr at 2. rewrite euclid_sq, <- Rsqr_abs. unfold Rsqr.
  pose proof (Rle_0_sqr (py p - py q)). pose proof (Rle_0_sqr (pz p - pz q)). unfold Rsqr in *. lra.
Qed.
Lemma tri_near a b c : tri (triP 0) TWeight 1 a b c <> 0 ->
  Rabs (px (opos a) - px (opos b)) < 10 /\ Rabs (px (opos a) - px (opos c)) < 10.
Proof.
  intro H. destruct (tri_sides (triP 0) (triP_valid 0 ltac:(lra)) _ _ _ _ _ H) as [H1 H2].
  unfold side2, side3 in *. cbn [triP tmaxsep] in *.
  pose proof (euclid_px (opos a) (opos b)). pose proof (euclid_px (opos a) (opos c)). lra.
Qed.
Definition far (a b : obj) : Prop := 20 <= px (opos b) - px (opos a) \/ 20 <= px (opos a) - px (opos b).
Lemma tri_far a b c : far a b \/ far a c \/ far b c -> tri (triP 0) TWeight 1 a b c = 0.
Proof.
  intro H. destruct (Req_dec (tri (triP 0) TWeight 1 a b c) 0) as [E|E]; auto. exfalso.
  apply tri_near in E as [E1 E2]. apply Rabs_def2 in E1, E2. unfold far in H. lra.
Qed.
Lemma far_sym a b : far a b -> far b a. Proof. unfold far. tauto. Qed.
Lemma t6_far a b c : far a b \/ far a c \/ far b c -> t6 a b c = 0.
Proof.
  intro H. unfold t6, tri6, tri1.
  rewrite !tri_far; try lra; destruct H as [H|[H|H]]; auto using far_sym.
Qed.
Lemma euclid_same p : euclid p p = 0.
Proof. apply Rsqr_inj; [apply sqrt_pos|lra|]. unfold Rsqr at 1. rewrite euclid_sq. unfold Rsqr. ring. Qed.
Lemma tri_same a b c : opos a = opos b \/ opos a = opos c \/ opos b = opos c -> tri (triP 0) TWeight 1 a b c = 0.
Proof.
  intro H. unfold tri. destruct (selTri (triP 0) 1 a b c) eqn:E; auto. exfalso.
  apply andb_true_iff in E as [E _]. apply shape_parts in E; [|apply triP_valid; lra].
  unfold side1, side2, side3 in E. destruct H as [H|[H|H]]; rewrite H, euclid_same in E; lra.
Qed.
Lemma t6_same a b c : opos a = opos b \/ opos a = opos c \/ opos b = opos c -> t6 a b c = 0.
Proof.
  intro H. unfold t6, tri6, tri1. rewrite !tri_same; try lra; destruct H as [H|[H|H]]; auto.
Qed.
(** The triangle with its right angle at (x,0). *)
Lemma t6_val x w1 w2 w3 i j k : t6 (wobj x 0 w1 i) (wobj (x + 3) 0 w2 j) (wobj x 4 w3 k) = w1 * w2 * w3.
Proof.
  set (a := wobj x 0 w1 i). set (b := wobj (x + 3) 0 w2 j). set (c := wobj x 4 w3 k).
  assert (S1 : side1 a b c = 5) by (unfold side1, b, c, wobj; cbn [opos]; apply euc; lra).
  assert (S2 : side2 a b c = 4) by (unfold side2, a, c, wobj; cbn [opos]; apply euc; lra).
  assert (S3 : side3 a b c = 3) by (unfold side3, a, b, wobj; cbn [opos]; apply euc; lra).
  assert (F : forall a b c, ~ (side3 a b c <= side2 a b c <= side1 a b c) -> selTri (triP 0) 1 a b c = false).
  { intros a0 b0 c0 H. destruct (selTri (triP 0) 1 a0 b0 c0) eqn:E; auto. exfalso. apply H.
    apply andb_true_iff in E as [E _]. apply shape_parts in E; [lra|apply triP_valid; lra]. }
  unfold t6, tri6, tri1, tri.
  rewrite (sel_one 0 1 a b c); rewrite ?S1, ?S2, ?S3; try lra; auto.
  2:{ unfold ccwSpec, ccwFlat, a, b, c, wobj. cbn [opos px py]. apply Rltb_t; lra. }
  unfold side1, side2, side3 in S1, S2, S3.
  rewrite (F a c b), (F b a c), (F b c a), (F c a b), (F c b a);
    try (unfold side1, side2, side3; rewrite ?(euclid_sym (opos b) (opos a)), ?(euclid_sym (opos c) (opos a)),
      ?(euclid_sym (opos c) (opos b)), ?S1, ?S2, ?S3; lra).
  unfold triVal, a, b, c, wobj. cbn [ow]. lra.
Qed.
(** No ties, decided on the squares of the sides. *)
Definition sq (p q : pos) : R := (px p - px q) * (px p - px q) + (py p - py q) * (py p - py q) + (pz p - pz q) * (pz p - pz q).
Lemma noTies_sq l : (forall a b c, In a l -> In b l -> In c l ->
    ~ (sq (opos b) (opos c) = sq (opos a) (opos c) /\ 0 < sq (opos a) (opos b) < sq (opos a) (opos c))) -> noTies l.
Proof.
  intros H a b c Ha Hb Hc [E1 E2]. apply (H a b c Ha Hb Hc). unfold sq. rewrite <- !euclid_sq.
  unfold side1, side2, side3 in *. rewrite E1. split; auto. split; [apply Rmult_lt_0_compat; lra|].
  apply Rmult_le_0_lt_compat; lra.
Qed.

(** ** Two triangles; the first point has weight w in the first one *)
Definition tri3 (x w : R) : list obj := [wobj x 0 w 0; wobj (x + 3) 0 1 1; wobj x 4 1 2].
Definition catW (w : R) : list patch := [mkpatch 0 (tri3 0 w); mkpatch 1 (tri3 1000 1)].
Ltac farT := unfold far, wobj; cbn [opos px]; first [left; left; lra|left; right; lra|right; left; left; lra|
  right; left; right; lra|right; right; left; lra|right; right; right; lra].
Ltac sameT := first [left; reflexivity|right; left; reflexivity|right; right; reflexivity].
Ltac t6one := match goal with |- context [t6 ?a ?b ?c] =>
  first [rewrite (t6_same a b c) by sameT|rewrite (t6_far a b c) by farT|
    first [rewrite t6_val|rewrite (t6_12 a b c), t6_val|rewrite (t6_23 a b c), t6_val|
           rewrite (t6_12 a b c), (t6_23 b a c), t6_val|rewrite (t6_23 a b c), (t6_12 a c b), t6_val|
           rewrite (t6_12 a b c), (t6_23 b a c), (t6_12 b c a), t6_val]] end.
Lemma sumU_t6 l : sumTriplesU (tri6 (p3P zC) TWeight 1) l = sumTriplesU t6 l. Proof. reflexivity. Qed.
Lemma sum12_t6 l m : sumPairs12 (tri6 (p3P zC) TWeight 1) l m = sumPairs12 t6 l m. Proof. reflexivity. Qed.
Lemma one_auto x w : sumTriplesU t6 (tri3 x w) = w.
Proof. unfold tri3. cbn [sumTriplesU upairs map app sumR fst snd]. t6one. lra. Qed.
Lemma one_cross x w v : sumPairs12 t6 (tri3 x w) (tri3 x v) = w + 2 * v.
Proof. unfold sumPairs12, tri3. cbn [upairs map app sumR fst snd]. repeat t6one. lra. Qed.
Lemma two_auto w v : sumTriplesU t6 (tri3 0 w ++ tri3 1000 v) = w + v.
Proof. unfold tri3. cbn [sumTriplesU upairs map app sumR fst snd]. repeat t6one. lra. Qed.
Lemma two_cross w v w' v' : sumPairs12 t6 (tri3 0 w ++ tri3 1000 v) (tri3 0 w' ++ tri3 1000 v') = w + 2 * w' + (v + 2 * v').
Proof. unfold sumPairs12, tri3. cbn [upairs map app sumR fst snd]. repeat t6one. lra. Qed.
Lemma two_noTies l : (forall o, In o l -> exists x, (x = 0 \/ x = 1000) /\
    (opos o = mkpos x 0 0 \/ opos o = mkpos (x + 3) 0 0 \/ opos o = mkpos x 4 0)) -> noTies l.
Proof.
  intro H. apply noTies_sq. intros a b c Ha Hb Hc.
  destruct (H a Ha) as [xa [Xa Pa]], (H b Hb) as [xb [Xb Pb]], (H c Hc) as [xc [Xc Pc]].
  destruct Pa as [->|[->| ->]], Pb as [->|[->| ->]], Pc as [->|[->| ->]];
    destruct Xa as [->| ->], Xb as [->| ->], Xc as [->| ->]; unfold sq; cbn [px py pz]; lra.
Qed.
Lemma in_tri3 x w o : In o (tri3 x w) -> opos o = mkpos x 0 0 \/ opos o = mkpos (x + 3) 0 0 \/ opos o = mkpos x 4 0.
Proof. intros [<-|[<-|[<-|[]]]]; auto. Qed.
Lemma in_catW w o : In o (allRows (catW w)) -> exists x, (x = 0 \/ x = 1000) /\
    (opos o = mkpos x 0 0 \/ opos o = mkpos (x + 3) 0 0 \/ opos o = mkpos x 4 0).
Proof.
  intro H. change (allRows (catW w)) with (tri3 0 w ++ tri3 1000 1) in H. apply in_app_iff in H as [H|H]; apply in_tri3 in H;
    [exists 0|exists 1000]; auto.
Qed.
Lemma catW_rows w : allRows (catW w) = tri3 0 w ++ tri3 1000 1. Proof. reflexivity. Qed.
Lemma catW_without0 w : allRows (without 0 (catW w)) = tri3 1000 1. Proof. reflexivity. Qed.
Lemma catW_without1 w : allRows (without 1 (catW w)) = tri3 0 w. Proof. reflexivity. Qed.
Lemma catW_weights w f : 0 < w -> weights3 f (allRows (catW w)).
Proof. intros Hw o H. rewrite catW_rows in H. simpl in H. repeat destruct H as [<-|H]; try contradiction; destruct f; cbn; lra. Qed.
Lemma catW_ND w : NoDup (map pidx (catW w)).
Proof. repeat constructor; simpl; intuition discriminate. Qed.
Lemma catW_sumw w : sumw (allRows (catW w)) = w + 5. Proof. rewrite catW_rows. unfold sumw, tri3. simpl. lra. Qed.
Lemma tri3_sumw x w : sumw (tri3 x w) = w + 2. Proof. unfold sumw, tri3. simpl. lra. Qed.
Lemma catW_force O n1 n2 w v : (n1 <> 1)%Z -> (n2 <> 1)%Z -> noForcedSkip zC (cross12Jobs O n1 n2 (catW w) (catW v)).
Proof.
  intros H1 H2 J HJ HF. apply in_cross12Jobs in HJ as [a [b [Ha [Hb [->|[c [Hc [_ ->]]]]]]]]; [|discriminate].
  cbn [job12 jforce] in HF. rewrite (proj2 (Z.eqb_neq _ _) H1), (proj2 (Z.eqb_neq _ _) H2), !orb_false_r in HF.
  apply Z.eqb_eq in HF. cbn [job12 jcall callTriv catOf fst].
  destruct Ha as [<-|[<-|[]]], Hb as [<-|[<-|[]]]; try discriminate; cbn [pobjs].
  - apply (own_notTriv _ _ _ (wobj (0 + 3) 0 1 1)); [cbn; lra| |]; right; left; reflexivity.
  - apply (own_notTriv _ _ _ (wobj (1000 + 3) 0 1 1)); [cbn; lra| |]; right; left; reflexivity.
Qed.
Lemma catW_ne w : forall p, In p (catW w) -> pobjs p <> [].
Proof. intros p [<-|[<-|[]]]; discriminate. Qed.
