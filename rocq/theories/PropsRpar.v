(** C41: min_rpar / max_rpar.  How far the line-of-sight selection of whole cells agrees with the
    selection of the individual pairs, and where it does not. *)
From Coq Require Import Reals Lra Lia List ZArith Bool Permutation Psatz.
From Verif Require Import Base Geometry Tree Traverse Run Spec SpecRun GeomFacts SumFacts TreeFacts
  BinFacts TravFacts Exact MetricFacts Cover Lift Runs Account Examples PropsCount PropsNear PropsSampler PropsRefuted.
Import ListNotations.
Open Scope R_scope.

(** ** Specification *)
(** Line-of-sight separation of two points: the component of q - p along the direction of p + q
    (the mid-point as seen from the origin). *)
Definition losSep (p q : pos) : R := dot (psub q p) (padd p q) / norm (padd p q).
(** The survey geometry: all points lie beyond the plane n.x = D, and any two are at most
    Delta apart. *)
Definition beyond (n : pos) (D : R) (cat : list obj) : Prop := forall o, In o cat -> D <= dot (opos o) n.
Definition within (Delta : R) (cat1 cat2 : list obj) : Prop :=
  forall o1 o2, In o1 (cat1 ++ cat2) -> In o2 (cat1 ++ cat2) -> pdist (opos o1) (opos o2) <= Delta.
(** A counted pair is in the bin, and its line-of-sight separation is in the range widened by e;
    a dropped pair is in no bin, or its line-of-sight separation is outside of the range narrowed
    by e. *)
Definition cntRpar (B : bparams) (lo hi e : R) (o1 o2 : obj) (k : Z) : Prop :=
  inBin B k (euclid (opos o1) (opos o2)) /\ lo - e <= losSep (opos o1) (opos o2) <= hi + e.
Definition drpRpar (B : bparams) (lo hi e : R) (o1 o2 : obj) : Prop :=
  (forall k, ~ inBin B k (euclid (opos o1) (opos o2))) \/
  losSep (opos o1) (opos o2) < lo + e \/ hi - e < losSep (opos o1) (opos o2).
Definition selRpar (B : bparams) (lo hi : R) (k : Z) (o1 o2 : obj) : bool :=
  selBin B euclid k o1 o2 && Rleb lo (losSep (opos o1) (opos o2)) && Rleb (losSep (opos o1) (opos o2)) hi.

(** ** Geometry *)
Lemma norm0_zero p : norm p = 0 -> p = mkpos 0 0 0.
Proof. intro H. apply normSq_0. rewrite <- norm_sq, H. ring. Qed.
Lemma rpar_los p q : calculateRPar Euclidean p q = losSep p q.
Proof.
  unfold calculateRPar, losSep. rewrite norm_pscale by lra.
  replace (dot (psub q p) (pscale (1/2) (padd p q))) with (1/2 * dot (psub q p) (padd p q))
    by (unfold dot, pscale; simpl; ring).
  destruct (Req_dec (norm (padd p q)) 0) as [Hz|Hz].
  - rewrite (norm0_zero _ Hz). unfold dot; simpl. unfold Rdiv. ring.
  - field. auto.
Qed.
Lemma los_opp p q : losSep q p = - losSep p q.
Proof.
  unfold losSep. replace (padd q p) with (padd p q) by (unfold padd; f_equal; ring).
  replace (dot (psub p q) (padd p q)) with (- dot (psub q p) (padd p q)) by (unfold dot, psub; simpl; ring).
  unfold Rdiv. ring.
Qed.

Lemma rpar_lip n D Delta c1 c2 q1 q2 s1 s2 :
  norm n = 1 -> 0 < D -> D <= dot c1 n -> D <= dot c2 n -> D <= dot q1 n -> D <= dot q2 n ->
  pdist c1 q1 <= s1 -> pdist c2 q2 <= s2 -> pdist c1 q1 <= Delta -> pdist c2 q2 <= Delta -> pdist c1 c2 <= Delta ->
  Rabs (losSep q1 q2 - losSep c1 c2) <= s1 + s2 + Delta * Delta / D.
Proof.
  intros Hn HD C1 C2 Q1 Q2 S1 S2 T1 T2 HC.
  set (L := padd c1 c2). set (L' := padd q1 q2). set (r := psub c2 c1). set (r' := psub q2 q1).
  assert (HL : 2 * D <= norm L).
  { pose proof (cauchy_schwarz L n) as H. rewrite Hn in H. apply Rabs_bounds in H.
    assert (dot L n = dot c1 n + dot c2 n) by (unfold L, dot, padd; simpl; ring). lra. }
  assert (HL' : 2 * D <= norm L').
  { pose proof (cauchy_schwarz L' n) as H. rewrite Hn in H. apply Rabs_bounds in H.
    assert (dot L' n = dot q1 n + dot q2 n) by (unfold L', dot, padd; simpl; ring). lra. }
  set (a := norm L) in *. set (b := norm L') in *.
  set (u := pscale (/ a) L). set (u' := pscale (/ b) L').
  assert (Ha : 0 < / a) by (apply Rinv_0_lt_compat; lra).
  assert (Hb : 0 < / b) by (apply Rinv_0_lt_compat; lra).
  assert (Nu' : norm u' = 1) by (unfold u'; rewrite norm_pscale by lra; fold b; field; lra).
  assert (EQ : losSep q1 q2 - losSep c1 c2 = dot (psub r' r) u' + dot r (psub u' u)).
  { unfold losSep. fold L L' r r' a b. unfold u', u, dot, psub, pscale, Rdiv; cbn [px py pz]. ring. }
  assert (N1 : norm (psub r' r) <= s1 + s2).
  { replace (psub r' r) with (padd (psub q2 c2) (psub c1 q1)) by (unfold r', r, padd, psub; simpl; f_equal; ring).
    pose proof (norm_triangle (psub q2 c2) (psub c1 q1)).
    change (norm (psub c1 q1)) with (pdist c1 q1) in H. change (norm (psub q2 c2)) with (pdist q2 c2) in H.
    rewrite (pdist_sym q2 c2) in H. lra. }
  assert (N2 : norm r <= Delta).
  { unfold r. change (norm (psub c2 c1)) with (pdist c2 c1). rewrite pdist_sym. auto. }
  assert (HDe : 0 <= Delta) by (pose proof (norm_nonneg r); lra).
  assert (N3 : norm (psub L' L) <= 2 * Delta).
  { replace (psub L' L) with (padd (psub q2 c2) (psub q1 c1)) by (unfold L', L, padd, psub; simpl; f_equal; ring).
    pose proof (norm_triangle (psub q2 c2) (psub q1 c1)).
    change (norm (psub q1 c1)) with (pdist q1 c1) in H. change (norm (psub q2 c2)) with (pdist q2 c2) in H.
    rewrite (pdist_sym q2 c2), (pdist_sym q1 c1) in H. lra. }
  assert (N4 : norm (psub u' u) <= Delta / D).
  { assert (E2 : normSq (psub L' L) = (a - b) * (a - b) + a * b * normSq (psub u' u)).
    { assert (A2 : normSq L = a * a) by (unfold a; rewrite norm_sq; auto).
      assert (B2 : normSq L' = b * b) by (unfold b; rewrite norm_sq; auto).
      assert (X1 : normSq (psub L' L) = normSq L' + normSq L - 2 * dot L L') by (unfold normSq, psub, dot; simpl; ring).
      assert (X2 : normSq (psub u' u) = / b * / b * normSq L' + / a * / a * normSq L - 2 * (/ a * / b) * dot L L')
        by (unfold u', u, normSq, psub, pscale, dot; simpl; ring).
      rewrite X1, X2, A2, B2. field. lra. }
    assert (X3 : normSq (psub L' L) <= (2 * Delta) * (2 * Delta)) by (apply normSq_le; auto; lra).
    assert (HQ : 0 <= Delta / D) by (unfold Rdiv; apply Rmult_le_pos; [auto|apply Rlt_le, Rinv_0_lt_compat; auto]).
    apply normSq_le; auto.
    assert (X4 : 4 * (D * D) <= a * b) by nra.
    pose proof (normSq_nonneg (psub u' u)) as X5.
    assert (X6 : 4 * (D * D) * normSq (psub u' u) <= 4 * (Delta * Delta)).
    { pose proof (Rmult_le_compat_r _ _ _ X5 X4). pose proof (Rle_0_sqr (a - b)). unfold Rsqr in *. lra. }
    assert (X7 : Delta / D * (Delta / D) = Delta * Delta * / (D * D)) by (field; lra).
    rewrite X7. apply Rmult_le_reg_l with (D * D); [nra|].
    replace (D * D * (Delta * Delta * / (D * D))) with (Delta * Delta) by (field; lra). lra. }
  rewrite EQ. pose proof (cauchy_schwarz (psub r' r) u') as K1. pose proof (cauchy_schwarz r (psub u' u)) as K2.
  rewrite Nu', Rmult_1_r in K1.
  pose proof (Rabs_triang (dot (psub r' r) u') (dot r (psub u' u))) as K3.
  assert (K4 : norm r * norm (psub u' u) <= Delta * (Delta / D)).
  { apply Rmult_le_compat; auto; apply norm_nonneg. }
  replace (Delta * Delta / D) with (Delta * (Delta / D)) by (field; lra). lra.
Qed.

(** The centroid of non-negatively weighted points stays beyond the plane and within Delta. *)
Definition nonnegWpos (cat : list obj) : Prop := forall o, In o cat -> 0 <= owpos o.
Lemma mean_beyond n D c l : c <> Sphere -> l <> [] -> nonnegWpos l -> beyond n D l -> D <= dot (centroid c l) n.
Proof.
  intros Hc Hne Hw HB. unfold centroid. destruct (Req_EM_T (sumR owpos l) 0) as [E|E].
  { destruct l as [|o l]; [congruence|]. apply HB. left; auto. }
  fold (mean3 l).
  assert (K : dot (mean3 l) (pscale (-1) n) <= - D).
  { apply mean_dot_le; auto.
    intros o Ho. specialize (HB o Ho). replace (dot (opos o) (pscale (-1) n)) with (- dot (opos o) n) by (unfold dot, pscale; simpl; ring). lra. }
  replace (dot (mean3 l) (pscale (-1) n)) with (- dot (mean3 l) n) in K by (unfold dot, pscale; simpl; ring).
  destruct c; simpl; try congruence; lra.
Qed.
Lemma partOf_in l cat o : partOf l cat -> In o l -> In o cat.
Proof. intros [_ [l' H]] Ho. eapply Permutation_in; [exact H|]. apply in_or_app; auto. Qed.
Lemma partOf_refl cat : cat <> [] -> partOf cat cat.
Proof. intro H. split; auto. exists []. rewrite app_nil_r. apply Permutation_refl. Qed.

(** What the centres of the parts of the two catalogs satisfy. *)
Lemma parts_lip n D Delta c cat1 cat2 l1 l2 o1 o2 s1 s2 :
  norm n = 1 -> 0 < D -> c <> Sphere -> nonnegWpos cat1 -> nonnegWpos cat2 -> beyond n D cat1 -> beyond n D cat2 ->
  within Delta cat1 cat2 -> partOf l1 cat1 -> partOf l2 cat2 -> In o1 cat1 -> In o2 cat2 ->
  pdist (centroid c l1) (opos o1) <= s1 -> pdist (centroid c l2) (opos o2) <= s2 ->
  Rabs (losSep (opos o1) (opos o2) - losSep (centroid c l1) (centroid c l2)) <= s1 + s2 + Delta * Delta / D.
Proof.
  intros Hn HD Hc W1 W2 B1 B2 HW P1 P2 I1 I2 S1 S2.
  assert (N1 : nonnegWpos l1) by (intros o Ho; apply W1, (partOf_in l1 cat1); auto).
  assert (N2 : nonnegWpos l2) by (intros o Ho; apply W2, (partOf_in l2 cat2); auto).
  assert (HDe : 0 <= Delta).
  { specialize (HW o1 o1 ltac:(apply in_or_app; auto) ltac:(apply in_or_app; auto)). rewrite pdist_refl in HW. auto. }
  assert (CV : forall l p, nonnegWpos l -> convexAt c p Delta l) by (intros l p Hl; split; auto; destruct c; auto; congruence).
  assert (T : forall l cat o, partOf l cat -> nonnegWpos l -> (forall x, In x cat -> In x (cat1 ++ cat2)) -> In o (cat1 ++ cat2) ->
     pdist (centroid c l) (opos o) <= Delta).
  { intros l cat o HP Hl HI Ho. apply centroid_in; auto; [apply HP|]. intros x Hx. apply HW; auto. apply HI, (partOf_in l cat); auto. }
  assert (T1 : forall o, In o (cat1 ++ cat2) -> pdist (centroid c l1) (opos o) <= Delta).
  { intros o Ho. apply (T l1 cat1); auto. intros; apply in_or_app; auto. }
  apply (rpar_lip n D); auto.
  - apply mean_beyond; auto; [apply P1|]. intros o Ho. apply B1, (partOf_in l1 cat1); auto.
  - apply mean_beyond; auto; [apply P2|]. intros o Ho. apply B2, (partOf_in l2 cat2); auto.
  - apply T1, in_or_app; auto.
  - apply (T l2 cat2); auto; [intros|]; apply in_or_app; auto.
  - rewrite pdist_sym. apply centroid_in; auto; [apply P2|].
    intros o Ho. rewrite pdist_sym. apply T1, in_or_app. right. apply (partOf_in l2 cat2); auto.
Qed.

(** ** Decisions with and without the rpar limits *)
Definition noRpar (P : cparams) : cparams := mkC (cmetric P) None (cbin P).
Lemma decide_direct_noRpar P a b rsq k r lr : decide11 P a b = Direct rsq k r lr ->
  decide11 (noRpar P) a b = Direct rsq k r lr /\
  isRParInsideRange (cmetric P) (crpar P) (getPos a) (getPos b) (effSum P a b) = true.
Proof.
  unfold decide11, effSum. cbn [noRpar cmetric crpar cbin].
  destruct Req_EM_T; [discriminate|]. destruct Req_EM_T; [discriminate|].
  destruct (effSize _ _ _ _ _) as [e1 e2].
  destruct (isRParOutsideRange _ (crpar P) _ _ _); [discriminate|]. cbn [isRParOutsideRange isRParInsideRange].
  destruct (_ && _); [discriminate|]. destruct (_ && _); [discriminate|].
  destruct (isRParInsideRange _ (crpar P) _ _ _); [|destruct (calcSplitSq _ _ _); discriminate].
  intro H. split; auto.
Qed.
Lemma decide_drop_noRpar P a b : decide11 P a b = Drop ->
  decide11 (noRpar P) a b = Drop \/
  isRParOutsideRange (cmetric P) (crpar P) (getPos a) (getPos b) (effSum P a b) = true.
Proof.
  unfold decide11, effSum. cbn [noRpar cmetric crpar cbin].
  destruct Req_EM_T; [auto|]. destruct Req_EM_T; [auto|].
  destruct (effSize _ _ _ _ _) as [e1 e2].
  destruct (isRParOutsideRange _ (crpar P) _ _ _); [auto|]. cbn [isRParOutsideRange isRParInsideRange].
  destruct (_ && _); [auto|]. destruct (_ && _); [auto|].
  destruct (isRParInsideRange _ (crpar P) _ _ _); [auto|destruct (calcSplitSq _ _ _); discriminate].
Qed.
Lemma earlyExit_noRpar P p1 p2 s1 s2 : cmetric P = Euclidean -> crossEarlyExit P p1 p2 s1 s2 = true ->
  crossEarlyExit (noRpar P) p1 p2 s1 s2 = true \/
  isRParOutsideRange Euclidean (crpar P) p1 p2 (Fin (s1 + s2)) = true.
Proof.
  intros HM. unfold crossEarlyExit. cbn [noRpar cmetric crpar cbin]. rewrite HM. cbn [effSize eadd].
  destruct (isRParOutsideRange _ (crpar P) _ _ _); auto.
Qed.
Lemma directProcess_noRpar P rev a b rsq k r lr :
  directProcess11 (noRpar P) rev a b rsq k r lr = directProcess11 P rev a b rsq k r lr.
Proof. reflexivity. Qed.

Section Rpar.
Variables (P : cparams) (lo hi e : R).
Hypothesis HM : cmetric P = Euclidean.
Hypothesis Hlim : crpar P = Some (lo, hi).
Lemma inside_los p1 p2 x q1 q2 : isRParInsideRange (cmetric P) (crpar P) p1 p2 (Fin x) = true ->
  Rabs (losSep q1 q2 - losSep p1 p2) <= x + e -> lo - e <= losSep q1 q2 <= hi + e.
Proof.
  rewrite HM, Hlim. unfold isRParInsideRange. rewrite rpar_los. cbn [rparSize].
  intros H HA. apply Rabs_bounds in HA. destruct Rlt_dec; [discriminate|]. destruct Rlt_dec; [discriminate|]. lra.
Qed.
Lemma outside_los p1 p2 x q1 q2 : isRParOutsideRange (cmetric P) (crpar P) p1 p2 (Fin x) = true ->
  Rabs (losSep q1 q2 - losSep p1 p2) <= x + e -> losSep q1 q2 < lo + e \/ hi - e < losSep q1 q2.
Proof.
  rewrite HM, Hlim. unfold isRParOutsideRange. rewrite rpar_los. cbn [rparSize].
  intros H HA. apply Rabs_bounds in HA. destruct Rlt_dec; [lra|]. destruct Rlt_dec; [lra|discriminate].
Qed.
End Rpar.

(** ** Verdicts on the cells of two fields *)
Record rparCase (Q : runcfg) (n : pos) (D Delta lo hi : R) (cat1 cat2 : list obj) : Prop := mkRC {
  rc_M : cmetric (rP Q) = Euclidean;
  rc_lim : crpar (rP Q) = Some (lo, hi);
  rc_c : rcoord Q <> Sphere;
  rc_B : validB (cbin (rP Q));
  rc_b : slop_b (cbin (rP Q)) = 0;
  rc_n : narrowLog (cbin (rP Q));
  rc_e : offEdges (cbin (rP Q)) euclid cat1 cat2;
  rc_w1 : posW cat1; rc_w2 : posW cat2;
  rc_p1 : nonnegWpos cat1; rc_p2 : nonnegWpos cat2;
  rc_u : norm n = 1; rc_D : 0 < D;
  rc_b1 : beyond n D cat1; rc_b2 : beyond n D cat2; rc_wi : within Delta cat1 cat2 }.

Lemma effSum_euclid P a b x : cmetric P = Euclidean -> effSum P a b = Fin x ->
  exists s1 s2, getSize a = Fin s1 /\ getSize b = Fin s2 /\ x = s1 + s2.
Proof.
  unfold effSum. intros -> H. cbn [effSize] in H. destruct (getSize a), (getSize b); simpl in H; try discriminate.
  injection H; intros; subst. eauto.
Qed.
Section Verdicts.
Variables (Q : runcfg) (n : pos) (D Delta lo hi : R) (cat1 cat2 : list obj).
Hypothesis RC : rparCase Q n D Delta lo hi cat1 cat2.
Variables (b1 b2 : bool) (cells1 cells2 : list cell).
Hypothesis B1 : buildField (fieldParams Q b1) cat1 cells1.
Hypothesis B2 : buildField (fieldParams Q b2) cat2 cells2.
Hypothesis N1 : cat1 <> [].
Hypothesis N2 : cat2 <> [].
Let P := rP Q.
Let e := Delta * Delta / D.

Lemma rc_min0 b : fminsize (fieldParams Q b) = 0.
Proof. apply fieldParams_min0. right. apply minsize_b0; [apply RC|apply (rc_b _ _ _ _ _ _ _ _ RC)]. Qed.
Lemma rc_ok1 a : inTops cells1 a -> okcell 0 a.
Proof. intro Ha. exact (cells_ok0 _ cat1 cells1 a (rc_min0 b1) B1 Ha). Qed.
Lemma rc_ok2 a : inTops cells2 a -> okcell 0 a.
Proof. intro Ha. exact (cells_ok0 _ cat2 cells2 a (rc_min0 b2) B2 Ha). Qed.
Lemma rc_pairOK a b : inTops cells1 a -> inTops cells2 b -> pairOK (noRpar P) 0 a b.
Proof.
  intros Ha Hb. apply (pairOK_lip (noRpar P) anyPos anyPos); try exact I; auto using rc_ok1, rc_ok2.
  cbn [noRpar cmetric]. unfold P. rewrite (rc_M _ _ _ _ _ _ _ _ RC). apply lip_euclid.
Qed.
Lemma rc_exact a b : inTops cells1 a -> inTops cells2 b -> exactCond (noRpar P) a b.
Proof.
  intros Ha Hb. eapply (exactCond_slop (noRpar P)); [|exact B1|exact B2|exact Ha|exact Hb].
  split; [apply RC|split; [apply RC|]]. cbn [noRpar cmetric cbin]. unfold P. rewrite (rc_M _ _ _ _ _ _ _ _ RC).
  eapply offEdges_ext; [|apply RC]. intros; symmetry; apply mdist_euclidean.
Qed.
Lemma rc_los a b x o1 o2 : inTops cells1 a -> inTops cells2 b -> effSum P a b = Fin x ->
  In o1 (objs a) -> In o2 (objs b) ->
  Rabs (losSep (opos o1) (opos o2) - losSep (getPos a) (getPos b)) <= x + e.
Proof.
  intros Ha Hb Hx I1 I2. destruct RC. destruct (effSum_euclid P a b x rc_M0 Hx) as [s1 [s2 [E1 [E2 ->]]]].
  assert (J1 := inTops_obj_cat _ cat1 cells1 a o1 B1 Ha I1). assert (J2 := inTops_obj_cat _ cat2 cells2 b o2 B2 Hb I2).
  assert (S1 := member_within 0 a o1 s1 ltac:(lra) (rc_ok1 a Ha) I1 E1).
  assert (S2 := member_within 0 b o2 s2 ltac:(lra) (rc_ok2 b Hb) I2 E2).
  destruct (cells_centroid (fieldParams Q b1) cat1 cells1 a N1 rc_c0 B1 Ha) as [l1 [P1 G1]].
  destruct (cells_centroid (fieldParams Q b2) cat2 cells2 b N2 rc_c0 B2 Hb) as [l2 [P2 G2]].
  change (fcoord (fieldParams Q b1)) with (rcoord Q) in G1. change (fcoord (fieldParams Q b2)) with (rcoord Q) in G2.
  rewrite G1 in *. rewrite G2 in *. unfold e.
  apply (parts_lip n D Delta (rcoord Q) cat1 cat2); auto; lra.
Qed.
Lemma rc_W1 a : inTops cells1 a -> getW a <> 0.
Proof.
  intro Ha. apply Rgt_not_eq. apply (wf_Wpos _ _ (rc_ok1 a Ha)). intros o Ho. apply (rc_w1 _ _ _ _ _ _ _ _ RC).
  exact (inTops_obj_cat _ cat1 cells1 a o B1 Ha Ho).
Qed.
Lemma rc_W2 a : inTops cells2 a -> getW a <> 0.
Proof.
  intro Ha. apply Rgt_not_eq. apply (wf_Wpos _ _ (rc_ok2 a Ha)). intros o Ho. apply (rc_w2 _ _ _ _ _ _ _ _ RC).
  exact (inTops_obj_cat _ cat2 cells2 a o B2 Ha Ho).
Qed.
Lemma sel_noRpar k o1 o2 : selM (noRpar P) k o1 o2 = true <-> inBin (cbin P) k (euclid (opos o1) (opos o2)).
Proof.
  unfold selM. cbn [noRpar crpar rparInb cmetric cbin]. rewrite andb_true_r, inBinb_true.
  unfold P. rewrite (rc_M _ _ _ _ _ _ _ _ RC), mdist_euclidean. tauto.
Qed.
Lemma rc_direct a b rsq k r lr o1 o2 : inTops cells1 a -> inTops cells2 b ->
  decide11 P a b = Direct rsq k r lr -> In o1 (objs a) -> In o2 (objs b) ->
  cntRpar (cbin P) lo hi e o1 o2 (ek (directProcess11 P false a b rsq k r lr)).
Proof.
  intros Ha Hb HD I1 I2. destruct (decide_direct_noRpar _ _ _ _ _ _ _ HD) as [HD0 HIn].
  split.
  - apply sel_noRpar.
    rewrite (direct_exact (noRpar P) false 0 a b rsq k r lr o1 o2); auto using rc_ok1, rc_ok2, rc_pairOK, rc_exact.
    + rewrite directProcess_noRpar. apply Z.eqb_refl.
    + apply RC.
  - destruct (effSum P a b) as [x|] eqn:Ex.
    + eapply inside_los; [apply RC|apply RC|exact HIn|]. apply rc_los; auto.
    + exfalso. unfold isRParInsideRange in HIn. unfold P in HIn.
      rewrite (rc_lim _ _ _ _ _ _ _ _ RC), (rc_M _ _ _ _ _ _ _ _ RC) in HIn. discriminate.
Qed.
Lemma rc_drop a b o1 o2 : inTops cells1 a -> inTops cells2 b ->
  decide11 P a b = Drop -> In o1 (objs a) -> In o2 (objs b) -> drpRpar (cbin P) lo hi e o1 o2.
Proof.
  intros Ha Hb HD I1 I2. destruct (decide_drop_noRpar _ _ _ HD) as [HD0|HO].
  - left. intros k Hk. apply sel_noRpar in Hk.
    rewrite (drop_exact (noRpar P) 0 a b o1 o2 k) in Hk; auto using rc_ok1, rc_ok2, rc_pairOK, rc_exact, rc_W1, rc_W2; [discriminate|apply RC].
  - right. destruct (effSum P a b) as [x|] eqn:Ex.
    + eapply outside_los; [apply RC|apply RC|exact HO|]. apply rc_los; auto.
    + exfalso. unfold isRParOutsideRange in HO. unfold P in HO.
      rewrite (rc_lim _ _ _ _ _ _ _ _ RC), (rc_M _ _ _ _ _ _ _ _ RC) in HO. discriminate.
Qed.
Lemma rc_exit o1 o2 : 
  crossEarlyExit P (fieldCenter (fieldParams Q b1) cat1) (fieldCenter (fieldParams Q b2) cat2)
     (fieldSize (fieldParams Q b1) cat1) (fieldSize (fieldParams Q b2) cat2) = true ->
  In o1 cat1 -> In o2 cat2 -> drpRpar (cbin P) lo hi e o1 o2.
Proof.
  intros HX I1 I2. destruct (earlyExit_noRpar P _ _ _ _ (rc_M _ _ _ _ _ _ _ _ RC) HX) as [HX0|HO].
  - left. intros k Hk. apply inBin_range in Hk; [|apply RC].
    pose proof (lip_field (noRpar P) anyPos anyPos (fieldParams Q b1) (fieldParams Q b2) cat1 cat2 o1 o2) as K.
    cbn [noRpar cmetric cbin] in K. unfold P in K, Hk, HX0. rewrite (rc_M _ _ _ _ _ _ _ _ RC), mdist_euclidean in K.
    specialize (K lip_euclid eq_refl I I I1 I2 (rc_B _ _ _ _ _ _ _ _ RC) HX0). lra.
  - right. rewrite <- (rc_M _ _ _ _ _ _ _ _ RC) in HO. fold P in HO.
    eapply outside_los; [apply RC|apply RC|exact HO|]. destruct RC.
    unfold fieldCenter. cbn [fieldParams fcoord].
    apply (parts_lip n D Delta (rcoord Q) cat1 cat2); auto using partOf_refl.
    + apply (fieldSize_bound (fieldParams Q b1)); auto.
    + apply (fieldSize_bound (fieldParams Q b2)); auto.
Qed.
End Verdicts.

(** ** C41 *)
(** bin_slop = 0, 3-d (or flat) positions, Euclidean metric: every pair is either counted in the
    bin of its separation, with its own line-of-sight separation within the limits up to
    Delta^2 / D, or dropped and out of range (or within Delta^2 / D of a limit). *)
Lemma cross_accounts_rpar Q n D Delta lo hi cat1 cat2 s0 s1 :
  rparCase Q n D Delta lo hi cat1 cat2 -> cat1 <> [] -> cat2 <> [] ->
  runCross Q cat1 cat2 s0 s1 ->
  accounts (pairs cat1 cat2) (cntRpar (cbin (rP Q)) lo hi (Delta * Delta / D))
    (drpRpar (cbin (rP Q)) lo hi (Delta * Delta / D)) s0 s1.
Proof.
  intros RC N1 N2 [cells1 [cells2 [B1 [B2 H]]]].
  unfold processCross in H. destruct (crossEarlyExit _ _ _ _ _) eqn:EX.
  - subst s1. apply nothing_accounts. intros o1 o2 Hi. apply in_pairs in Hi as [I1 I2].
    eapply (rc_exit Q n D Delta lo hi cat1 cat2 RC); eauto.
  - destruct H as [evs [threads [HE [HSch ->]]]].
    assert (W1 := run_wf Q _ cat1 cells1 (rc_B _ _ _ _ _ _ _ _ RC) B1). assert (W2 := run_wf Q _ cat2 cells2 (rc_B _ _ _ _ _ _ _ _ RC) B2).
    apply (cross_accounts (rP Q) (fst (getMinMaxSize (rP Q))) cat1 cat2 cells1 cells2 evs); auto;
      try (eapply buildField_perm; eassumption).
    + intros f k. apply schedule_get; auto.
    + intros. eapply (rc_direct Q n D Delta lo hi cat1 cat2 RC); eauto.
    + intros. eapply (rc_drop Q n D Delta lo hi cat1 cat2 RC); eauto.
Qed.

(** From an accounting to sums: if every counted pair is selected for exactly its bin, and no
    dropped pair is selected, the arrays grew by the sums over the selected pairs. *)
Lemma accounts_sum l (Cnt : obj -> obj -> Z -> Prop) (Drp : obj -> obj -> Prop) (sel : obj -> obj -> bool) k s0 s1 :
  accounts l Cnt Drp s0 s1 ->
  (forall o1 o2 j, In (o1, o2) l -> Cnt o1 o2 j -> sel o1 o2 = (k =? j)%Z) ->
  (forall o1 o2, In (o1, o2) l -> Drp o1 o2 -> sel o1 o2 = false) ->
  let S v := sumR (fun p => if sel (fst p) (snd p) then v (fst p) (snd p) else 0) l in
  a_npairs s1 k = a_npairs s0 k + S v_one /\ a_weight s1 k = a_weight s0 k + S v_ww /\
  a_xi_nk s1 k = a_xi_nk s0 k + S v_nk /\ a_xi_kk s1 k = a_xi_kk s0 k + S v_kk.
Proof.
  intros [cnt [drp [HP [HC [HD HA]]]]] H1 H2 S.
  assert (E : forall v, S v = inBinSum v k cnt).
  { intro v. unfold S. rewrite (sumR_perm _ _ _ HP), sumR_app, sumR_map.
    rewrite (sumR_0 _ drp), Rplus_0_r.
    - apply sumR_ext. intros [[o1 o2] j] Hi. cbn [fst snd]. rewrite (H1 o1 o2 j); auto.
      eapply Permutation_in; [symmetry; exact HP|]. apply in_or_app. left. apply in_map_iff. exists (o1, o2, j); auto.
    - intros [o1 o2] Hi. cbn [fst snd]. rewrite H2; auto.
      eapply Permutation_in; [symmetry; exact HP|]. apply in_or_app. auto. }
  destruct (HA k) as [A1 [A2 [A3 A4]]]. rewrite A1, A2, A3, A4, !E. auto.
Qed.
(** No pair has a line-of-sight separation within e of a limit. *)
Definition offLimits (lo hi e : R) (l : list (obj * obj)) : Prop := forall o1 o2, In (o1, o2) l ->
  e < Rabs (losSep (opos o1) (opos o2) - lo) /\ e < Rabs (losSep (opos o1) (opos o2) - hi).
Lemma Rabs_far x y e : e < Rabs (x - y) -> x < y - e \/ y + e < x.
Proof. unfold Rabs. destruct Rcase_abs; lra. Qed.
Lemma cnt_sel B lo hi e l k j o1 o2 : validB B -> offLimits lo hi e l -> In (o1, o2) l ->
  cntRpar B lo hi e o1 o2 j -> selRpar B lo hi k o1 o2 = (k =? j)%Z.
Proof.
  intros HB HO Hi [H1 H2]. destruct (HO o1 o2 Hi) as [F1 F2]. apply Rabs_far in F1. apply Rabs_far in F2.
  unfold selRpar. assert (E1 : Rleb lo (losSep (opos o1) (opos o2)) = true) by (apply Rleb_true; lra).
  assert (E2 : Rleb (losSep (opos o1) (opos o2)) hi = true) by (apply Rleb_true; lra).
  rewrite E1, E2, !andb_true_r. unfold selBin.
  destruct (Z.eqb_spec k j) as [->|Hne].
  - apply inBinb_true; auto.
  - destruct (inBinb B k _) eqn:E; auto. apply inBinb_true in E. exfalso. apply Hne. eapply inBin_unique; eauto.
Qed.
Lemma drp_sel B lo hi e l k o1 o2 : 0 <= e -> offLimits lo hi e l -> In (o1, o2) l ->
  drpRpar B lo hi e o1 o2 -> selRpar B lo hi k o1 o2 = false.
Proof.
  intros He HO Hi HD. destruct (HO o1 o2 Hi) as [F1 F2]. apply Rabs_far in F1. apply Rabs_far in F2.
  unfold selRpar, selBin. destruct (inBinb B k _) eqn:E; auto. apply inBinb_true in E.
  destruct HD as [HD|HD]; [exfalso; eapply HD; eauto|].
  destruct (Rleb lo _) eqn:E1; auto. destruct (Rleb _ hi) eqn:E2; auto. apply Rleb_true in E1. apply Rleb_true in E2. lra.
Qed.

Theorem C41_cross_rpar Q n D Delta lo hi cat1 cat2 s0 s1 :
  cmetric (rP Q) = Euclidean -> crpar (rP Q) = Some (lo, hi) -> rcoord Q <> Sphere ->
  validB (cbin (rP Q)) -> slop_b (cbin (rP Q)) = 0 -> narrowLog (cbin (rP Q)) ->
  offEdges (cbin (rP Q)) euclid cat1 cat2 ->
  posW cat1 -> posW cat2 -> nonnegWpos cat1 -> nonnegWpos cat2 -> cat1 <> [] -> cat2 <> [] ->
  norm n = 1 -> 0 < D -> beyond n D cat1 -> beyond n D cat2 -> within Delta cat1 cat2 ->
  runCross Q cat1 cat2 s0 s1 ->
  accounts (pairs cat1 cat2) (cntRpar (cbin (rP Q)) lo hi (Delta * Delta / D))
    (drpRpar (cbin (rP Q)) lo hi (Delta * Delta / D)) s0 s1 /\
  (offLimits lo hi (Delta * Delta / D) (pairs cat1 cat2) -> forall k,
   addsCross (selRpar (cbin (rP Q)) lo hi k) cat1 cat2 s0 s1 k).
Proof.
  intros. assert (RC : rparCase Q n D Delta lo hi cat1 cat2) by (constructor; auto).
  assert (HA := cross_accounts_rpar Q n D Delta lo hi cat1 cat2 s0 s1 RC H10 H11 H17).
  split; auto. intros HO k.
  assert (He : 0 <= Delta * Delta / D).
  { unfold Rdiv. apply Rmult_le_pos; [nra|apply Rlt_le, Rinv_0_lt_compat; auto]. }
  apply (accounts_sum _ _ _ (selRpar (cbin (rP Q)) lo hi k) k) in HA.
  - exact HA.
  - intros. eapply cnt_sel; eauto.
  - intros. eapply drp_sel; eauto.
Qed.

(** Auto-correlations.  The limits apply to the pair in one of its two orders; with limits that are
    symmetric about 0 the order does not matter. *)
Lemma euclid_sym p q : euclid p q = euclid q p.
Proof. rewrite <- !mdist_euclidean. apply symM_euclid. Qed.
Lemma accounts_weaken l (Cnt : obj -> obj -> Z -> Prop) (Drp Drp' : obj -> obj -> Prop) s0 s1 :
  (forall o1 o2, In (o1, o2) l -> Drp o1 o2 -> Drp' o1 o2) -> accounts l Cnt Drp s0 s1 -> accounts l Cnt Drp' s0 s1.
Proof.
  intros H [cnt [drp [HP [HC [HD HA]]]]]. exists cnt, drp. split; [auto|split; [auto|split; auto]].
  intros o1 o2 Hi. apply H; auto. eapply Permutation_in; [symmetry; exact HP|]. apply in_or_app; auto.
Qed.
Theorem C41_auto_rpar Q n D Delta lo hi cat s0 s1 :
  cmetric (rP Q) = Euclidean -> crpar (rP Q) = Some (lo, hi) -> rcoord Q <> Sphere ->
  validB (cbin (rP Q)) -> slop_b (cbin (rP Q)) = 0 -> narrowLog (cbin (rP Q)) ->
  offEdges (cbin (rP Q)) euclid cat cat -> offMinSep (cbin (rP Q)) euclid cat ->
  posW cat -> nonnegWpos cat -> cat <> [] ->
  norm n = 1 -> 0 < D -> beyond n D cat -> within Delta cat cat ->
  runAuto Q cat s0 s1 ->
  accountsAuto cat (cntRpar (cbin (rP Q)) lo hi (Delta * Delta / D))
    (drpRpar (cbin (rP Q)) lo hi (Delta * Delta / D)) s0 s1 /\
  (lo = - hi -> offLimits lo hi (Delta * Delta / D) (upairs cat) -> forall k,
   addsAuto (selRpar (cbin (rP Q)) lo hi k) cat s0 s1 k).
Proof.
  intros. assert (RC : rparCase Q n D Delta lo hi cat cat) by (constructor; auto).
  assert (HA : accountsAuto cat (cntRpar (cbin (rP Q)) lo hi (Delta * Delta / D))
    (drpRpar (cbin (rP Q)) lo hi (Delta * Delta / D)) s0 s1).
  { destruct H14 as [cells [B [evs [threads [HE [HSch ->]]]]]].
    assert (W := run_wf Q _ cat cells (rc_B _ _ _ _ _ _ _ _ RC) B).
    assert (HA : accountsAuto cat (cntRpar (cbin (rP Q)) lo hi (Delta * Delta / D))
      (fun o1 o2 => drpRpar (cbin (rP Q)) lo hi (Delta * Delta / D) o1 o2 \/ euclid (opos o1) (opos o2) <= minsep (cbin (rP Q)))
      s0 (parallelRun s0 threads)).
    { apply (auto_accounts (rP Q) (fst (getMinMaxSize (rP Q))) cat cells evs); auto.
      - unfold do_reverse. pose proof (vb_not2d _ H2). destruct (btype (cbin (rP Q))); congruence.
      - eapply buildField_perm; eauto.
      - intros f k. apply schedule_get; auto.
      - intros. eapply (rc_direct Q n D Delta lo hi cat cat RC); eauto.
      - intros a b o1 o2 Ha Hb HD I1 I2. left. exact (rc_drop Q n D Delta lo hi cat cat RC _ _ cells cells B B H9 H9 a b o1 o2 Ha Hb HD I1 I2).
      - intros a o1 o2 Ha [HZ|HZ] I1 I2.
        + exfalso. eapply (rc_W1 Q n D Delta lo hi cat cat RC); eauto.
        + right. assert (O := rc_ok1 Q n D Delta lo hi cat cat RC _ cells B a Ha).
          pose proof (selfOK_size (rP Q) a ltac:(rewrite H; apply subEuclid_euclid) O HZ o1 o2 I1 I2) as K.
          rewrite H, mdist_euclidean in K. exact K. }
    destruct HA as [cat' [HP HA]]. exists cat'. split; auto.
    revert HA. apply accounts_weaken. intros o1 o2 Hi [HD|HD]; auto. left. intros k Hk. apply inBin_range in Hk; auto.
    assert (euclid (opos o1) (opos o2) <> minsep (cbin (rP Q))); [|lra].
    destruct (in_upairs_perm _ _ _ _ HP Hi) as [Hi'|Hi'].
    - apply H6; auto.
    - rewrite euclid_sym. apply H6; auto. }
  split; auto. intros Hsym HO k.
  assert (He : 0 <= Delta * Delta / D).
  { unfold Rdiv. apply Rmult_le_pos; [nra|apply Rlt_le, Rinv_0_lt_compat; auto]. }
  assert (HS : forall o1 o2, selRpar (cbin (rP Q)) lo hi k o1 o2 = selRpar (cbin (rP Q)) lo hi k o2 o1).
  { intros o1 o2. unfold selRpar, selBin. rewrite (euclid_sym (opos o1)), (los_opp (opos o2)).
    set (x := losSep (opos o2) (opos o1)). rewrite <- !andb_assoc. f_equal.
    destruct (Rleb lo (- x)) eqn:E1, (Rleb (- x) hi) eqn:E2, (Rleb lo x) eqn:E3, (Rleb x hi) eqn:E4; auto; exfalso;
    repeat match goal with
    | H : Rleb _ _ = true |- _ => apply Rleb_true in H
    | H : Rleb _ _ = false |- _ => apply Rleb_false in H end; lra. }
  destruct HA as [cat' [HP HA]].
  assert (HO' : offLimits lo hi (Delta * Delta / D) (upairs cat')).
  { intros o1 o2 Hi. destruct (in_upairs_perm _ _ _ _ HP Hi) as [Hi'|Hi'].
    - apply HO; auto.
    - destruct (HO o2 o1 Hi') as [F1 F2]. rewrite (los_opp (opos o2) (opos o1)). rewrite Hsym in F1 |- *.
      replace (- losSep (opos o2) (opos o1) - - hi) with (- (losSep (opos o2) (opos o1) - hi)) by ring.
      replace (- losSep (opos o2) (opos o1) - hi) with (- (losSep (opos o2) (opos o1) - - hi)) by ring.
      rewrite !Rabs_Ropp. split; auto. }
  apply (accounts_sum _ _ _ (selRpar (cbin (rP Q)) lo hi k) k) in HA.
  - cbv zeta in HA. destruct HA as [A1 [A2 [_ A4]]].
    assert (E : forall v, (forall o1 o2, v o1 o2 = v o2 o1) ->
      sumR (fun p => if selRpar (cbin (rP Q)) lo hi k (fst p) (snd p) then v (fst p) (snd p) else 0) (upairs cat') =
      sumUPairs (selRpar (cbin (rP Q)) lo hi k) v cat).
    { intros v Hv. unfold sumUPairs. apply sumR_upairs_perm; auto. intros x y. cbn [fst snd]. rewrite HS, Hv. auto. }
    unfold addsAuto. rewrite A1, A2, A4, !E; auto; intros; unfold v_one, v_ww, v_kk; ring.
  - intros. eapply cnt_sel; eauto.
  - intros. eapply drp_sel; eauto.
Qed.

(** ** Concrete cases *)
(** The catalogs of Examples.v, moved to x = 1000 and beyond: line-of-sight separations 3/2, 5/2, 21/4,
    -1/4, 3/4, 7/2; limits [-2, 2], so that the pair in the second bin is rejected.
    Delta^2 / D < 1/30. *)
Definition rpRun (lo hi : R) : runcfg := mkR (mkC Euclidean (Some (lo, hi)) exB) ThreeD Mean BruteNo 0 10.
Definition rpCat1 : list obj := [exObj 1000 1 0; exObj (1000 + 7/4) 2 1].
Definition rpCat2 : list obj := [exObj (1000 + 3/2) 1 0; exObj (1000 + 5/2) 3 1; exObj (1000 + 21/4) 1 2].
Definition rpCatA : list obj := [exObj 1000 1 0; exObj (1000 + 3/2) 2 1; exObj (1000 + 9/4) 1 2].
Definition xAxis : pos := mkpos 1 0 0.
Lemma norm_x x : norm (mkpos x 0 0) = Rabs x.
Proof. unfold norm, normSq. simpl. replace (x * x + 0 * 0 + 0 * 0) with (Rsqr x) by (unfold Rsqr; ring). apply sqrt_Rsqr_abs. Qed.
Lemma los_x x y : 0 < x + y -> losSep (mkpos x 0 0) (mkpos y 0 0) = y - x.
Proof.
  intro H. unfold losSep, padd, psub, dot. cbn [px py pz]. replace (mkpos (x + y) (0 + 0) (0 + 0)) with (mkpos (x + y) 0 0) by (f_equal; ring).
  rewrite norm_x, Rabs_pos_eq by lra. field. lra.
Qed.
Lemma pdist_x x y : pdist (mkpos x 0 0) (mkpos y 0 0) = Rabs (x - y).
Proof. unfold pdist, psub. cbn [px py pz]. replace (mkpos (x - y) (0 - 0) (0 - 0)) with (mkpos (x - y) 0 0) by (f_equal; ring). apply norm_x. Qed.
Ltac evsel := unfold selRpar, selBin; simpl; rewrite ?euclid_x, ?exB_in by lia; rewrite ?los_x by lra;
  unfold aconst, v_one;
  repeat match goal with |- context [Rabs ?x] => first [rewrite (Rabs_left x) by lra | rewrite (Rabs_right x) by lra] end;
  unfold Rleb, Rltb; repeat (first [destruct Rle_dec|destruct Rlt_dec]; try (exfalso; lra); simpl); lra.
Lemma rp_off : offEdges exB euclid rpCat1 rpCat2.
Proof.
  intros _ o1 o2 j _ H1 H2. rewrite exB_edge.
  assert (HQ : exists n, (n mod 4 <> 0)%Z /\ euclid (opos o1) (opos o2) = IZR n / 4).
  { destruct H1 as [<-|[<-|[]]]; destruct H2 as [<-|[<-|[<-|[]]]]; simpl opos; rewrite euclid_x.
    - exists 6%Z. split; [discriminate|]. rabs.
    - exists 10%Z. split; [discriminate|]. rabs.
    - exists 21%Z. split; [discriminate|]. rabs.
    - exists 1%Z. split; [discriminate|]. rabs.
    - exists 3%Z. split; [discriminate|]. rabs.
    - exists 14%Z. split; [discriminate|]. rabs. }
  destruct HQ as [n [Hn ->]]. apply not_edge4; auto.
Qed.
Lemma rpA_pairs o1 o2 : In (o1, o2) (upairs rpCatA) ->
  exists n, (n mod 4 <> 0)%Z /\ euclid (opos o1) (opos o2) = IZR n / 4.
Proof.
  simpl. intros [H|[H|[H|[]]]]; injection H; intros; subst; simpl opos; rewrite euclid_x.
  - exists 6%Z. split; [discriminate|]. rabs.
  - exists 9%Z. split; [discriminate|]. rabs.
  - exists 3%Z. split; [discriminate|]. rabs.
Qed.
Example C41_cross_example : exists s1,
  let Q := rpRun (-2) 2 in
  offEdges (cbin (rP Q)) euclid rpCat1 rpCat2 /\ posW rpCat1 /\ posW rpCat2 /\ nonnegWpos rpCat1 /\ nonnegWpos rpCat2 /\
  norm xAxis = 1 /\ beyond xAxis 1000 rpCat1 /\ beyond xAxis 1000 rpCat2 /\ within (21/4) rpCat1 rpCat2 /\
  runCross Q rpCat1 rpCat2 cleared s1 /\ offLimits (-2) 2 ((21/4) * (21/4) / 1000) (pairs rpCat1 rpCat2) /\
  a_npairs s1 0 = 1 /\ a_npairs s1 1 = 0 /\
  sumPairs (selBin exB euclid 1) v_one rpCat1 rpCat2 = 1.
Proof.
  destruct (runCross_exists (rpRun (-2) 2) rpCat1 rpCat2 cleared exB_valid ltac:(discriminate) ltac:(discriminate)) as [s1 HR].
  exists s1. cbv zeta.
  assert (W1 : posW rpCat1) by (intros o [<-|[<-|[]]]; simpl; lra).
  assert (W2 : posW rpCat2) by (intros o [<-|[<-|[<-|[]]]]; simpl; lra).
  assert (V1 : nonnegWpos rpCat1) by (intros o [<-|[<-|[]]]; simpl; lra).
  assert (V2 : nonnegWpos rpCat2) by (intros o [<-|[<-|[<-|[]]]]; simpl; lra).
  assert (HN : norm xAxis = 1) by (unfold xAxis; rewrite norm_x; rabs).
  assert (Y1 : beyond xAxis 1000 rpCat1) by (intros o [<-|[<-|[]]]; unfold dot, xAxis; simpl; lra).
  assert (Y2 : beyond xAxis 1000 rpCat2) by (intros o [<-|[<-|[<-|[]]]]; unfold dot, xAxis; simpl; lra).
  assert (HW : within (21/4) rpCat1 rpCat2).
  { intros o1 o2 H1 H2. cbn [rpCat1 rpCat2 app In] in H1, H2.
    repeat destruct H1 as [<-|H1]; try contradiction; repeat destruct H2 as [<-|H2]; try contradiction; cbn [opos exObj]; rewrite pdist_x; rabs. }
  assert (HO : offLimits (-2) 2 ((21/4) * (21/4) / 1000) (pairs rpCat1 rpCat2)).
  { intros o1 o2 Hi. apply in_pairs in Hi as [H1 H2]. cbn [rpCat1 rpCat2 app In] in H1, H2.
    repeat destruct H1 as [<-|H1]; try contradiction; repeat destruct H2 as [<-|H2]; try contradiction; cbn [opos exObj]; rewrite los_x by lra; split; rabs. }
  repeat (split; [first [assumption|apply rp_off]|]).
  destruct (C41_cross_rpar (rpRun (-2) 2) xAxis 1000 (21/4) (-2) 2 rpCat1 rpCat2 cleared s1) as [_ HA];
    auto using exB_valid, exB_narrow, rp_off; try discriminate; try lra.
  specialize (HA HO).
  split; [|split].
  - rewrite (proj1 (HA 0%Z)). cbn [rpRun rP cbin]. unfold sumPairs. evsel.
  - rewrite (proj1 (HA 1%Z)). cbn [rpRun rP cbin]. unfold sumPairs. evsel.
  - unfold sumPairs. evsel.
Qed.
Example C41_auto_example : exists s1,
  let Q := rpRun (-2) 2 in
  offEdges (cbin (rP Q)) euclid rpCatA rpCatA /\ offMinSep (cbin (rP Q)) euclid rpCatA /\ posW rpCatA /\ nonnegWpos rpCatA /\
  norm xAxis = 1 /\ beyond xAxis 1000 rpCatA /\ within (9/4) rpCatA rpCatA /\
  runAuto Q rpCatA cleared s1 /\ offLimits (-2) 2 ((9/4) * (9/4) / 1000) (upairs rpCatA) /\
  a_npairs s1 0 = 1 /\ a_npairs s1 1 = 0 /\
  sumUPairs (selBin exB euclid 1) v_one rpCatA = 1.
Proof.
  destruct (runAuto_exists (rpRun (-2) 2) rpCatA cleared exB_valid ltac:(discriminate)) as [s1 HR].
  exists s1. cbv zeta.
  assert (W1 : posW rpCatA) by (intros o [<-|[<-|[<-|[]]]]; simpl; lra).
  assert (V1 : nonnegWpos rpCatA) by (intros o [<-|[<-|[<-|[]]]]; simpl; lra).
  assert (HN : norm xAxis = 1) by (unfold xAxis; rewrite norm_x; rabs).
  assert (Y1 : beyond xAxis 1000 rpCatA) by (intros o [<-|[<-|[<-|[]]]]; unfold dot, xAxis; simpl; lra).
  assert (HW : within (9/4) rpCatA rpCatA).
  { intros o1 o2 H1 H2. cbn [rpCatA app In] in H1, H2.
    repeat destruct H1 as [<-|H1]; try contradiction; repeat destruct H2 as [<-|H2]; try contradiction; cbn [opos exObj]; rewrite pdist_x; rabs. }
  assert (HO : offLimits (-2) 2 ((9/4) * (9/4) / 1000) (upairs rpCatA)).
  { intros o1 o2 Hi. cbn in Hi. repeat destruct Hi as [Hi|Hi]; try contradiction; injection Hi; intros; subst; cbn [opos exObj]; rewrite los_x by lra; split; rabs. }
  assert (HM : offMinSep exB euclid rpCatA).
  { intros o1 o2 Hi. destruct (rpA_pairs o1 o2 Hi) as [n [Hn ->]]. cbn [exB minsep].
    replace 1 with (1 + IZR 0) by (simpl; lra). apply not_edge4; auto. }
  assert (HE : offEdges exB euclid rpCatA rpCatA).
  { intros _ o1 o2 j Hj H1 H2. rewrite exB_edge.
    assert (Hz : IZR 0 < 1 + IZR j). { cbn [exB nbins] in Hj. assert (IZR 1 <= IZR j) by (apply IZR_le; lia). lra. }
    cbn [rpCatA app In] in H1, H2.
    repeat destruct H1 as [<-|H1]; try contradiction; repeat destruct H2 as [<-|H2]; try contradiction; cbn [opos exObj]; rewrite euclid_x;
    match goal with |- Rabs ?x <> _ => first
      [replace (Rabs x) with 0 by rabs; lra
      |replace (Rabs x) with (IZR 6 / 4) by rabs; apply not_edge4; discriminate
      |replace (Rabs x) with (IZR 9 / 4) by rabs; apply not_edge4; discriminate
      |replace (Rabs x) with (IZR 3 / 4) by rabs; apply not_edge4; discriminate] end. }
  repeat (split; [assumption|]).
  destruct (C41_auto_rpar (rpRun (-2) 2) xAxis 1000 (9/4) (-2) 2 rpCatA cleared s1) as [_ HA];
    auto using exB_valid, exB_narrow; try discriminate; try lra.
  specialize (HA ltac:(lra) HO).
  split; [|split].
  - rewrite (proj1 (HA 0%Z)). cbn [rpRun rP cbin]. unfold sumUPairs. evsel.
  - rewrite (proj1 (HA 1%Z)). cbn [rpRun rP cbin]. unfold sumUPairs. evsel.
  - unfold sumUPairs. evsel.
Qed.

(** ** Where the selection is wrong *)
(** A wide-angle pair: object at (-3,0,1), two objects at (3,0,1) -/+ (3/10,0,4/10).  The line-of-sight
    separation of the centres is 0 and the size is 1/2, so max_rpar = -1 rejects the whole cell; but
    the first object has line-of-sight separation -2.35/sqrt(2.65) < -1.  True for any brute setting,
    since the same test is made on the whole fields. *)
Definition waB : bparams := mkB BLinear 5 7 2 1 0 1.
Lemma waB_valid : validB waB.
Proof. constructor; simpl; try lra; try lia; try discriminate. unfold edge; simpl; lra. Qed.
Definition waO (x z : R) (i : nat) : obj := mkobj (mkpos x 0 z) 1 1 2 0 0 i.
Definition waCat1 : list obj := [waO (-3) 1 0].
Definition waCat2 : list obj := [waO (27/10) (6/10) 0; waO (33/10) (14/10) 1].
Lemma wa_cen1 : centroid ThreeD waCat1 = mkpos (-3) 0 1. Proof. unfold waCat1. cen. Qed.
Lemma wa_cen2 : centroid ThreeD waCat2 = mkpos 3 0 1. Proof. unfold waCat2. cen. Qed.
Lemma wa_size1 : calculateSizeSq (centroid ThreeD waCat1) waCat1 = 0. Proof. rewrite wa_cen1. unfold waCat1. siz. Qed.
Lemma wa_size2 : calculateSizeSq (centroid ThreeD waCat2) waCat2 = (1/2) * (1/2). Proof. rewrite wa_cen2. unfold waCat2. siz. Qed.
Theorem C41_euclid_refuted : forall br, exists Q cat1 cat2 s1 lo hi,
  cmetric (rP Q) = Euclidean /\ crpar (rP Q) = Some (lo, hi) /\ rcoord Q = ThreeD /\ rbrute Q = br /\
  validB (cbin (rP Q)) /\ slop_b (cbin (rP Q)) = 0 /\ narrowLog (cbin (rP Q)) /\ posW cat1 /\ posW cat2 /\
  runCross Q cat1 cat2 cleared s1 /\
  a_npairs s1 0%Z = 0 /\ sumPairs (selRpar (cbin (rP Q)) lo hi 0) v_one cat1 cat2 = 1.
Proof.
  intro br. set (Q := mkR (mkC Euclidean (Some (-10, -1)) waB) ThreeD Mean br 0 10).
  destruct (runCross_exists Q waCat1 waCat2 cleared waB_valid ltac:(discriminate) ltac:(discriminate)) as [s1 HR].
  exists Q, waCat1, waCat2, s1, (-10), (-1). do 4 (split; [reflexivity|]). split; [apply waB_valid|].
  split; [reflexivity|]. split; [intro H; discriminate|].
  split; [intros o [<-|[]]; cbn; lra|]. split; [intros o [<-|[<-|[]]]; cbn; lra|].
  split; auto. split.
  - destruct HR as [cells1 [cells2 [_ [_ H]]]]. unfold processCross in H.
    match type of H with if ?c then _ else _ => assert (EX : c = true) end.
    { unfold crossEarlyExit, fieldCenter, fieldSize. cbn [fieldParams fcoord Q rcoord rP cmetric crpar cbin].
      rewrite wa_size1, wa_size2, wa_cen1, wa_cen2, sqrt_0, sqrt_square by lra. cbn [effSize eadd].
      unfold isRParOutsideRange. rewrite rpar_los. cbn [rparSize].
      assert (E : losSep (mkpos (-3) 0 1) (mkpos 3 0 1) = 0).
      { unfold losSep. replace (dot _ _) with 0 by (unfold dot, psub, padd; cbn; ring). unfold Rdiv; ring. }
      rewrite E. destruct Rlt_dec; auto. destruct Rlt_dec; [auto|lra]. }
    rewrite EX in H. subst s1. reflexivity.
  - unfold sumPairs, waCat1, waCat2. unfold pairs. cbn [map app sumR fst snd flat_map list_prod].
    assert (E : forall d, inBinb (cbin (rP Q)) 0 d = Rleb 5 d && Rltb d 6).
    { intro d. unfold inBinb, edge. cbn. f_equal; f_equal; lra. }
    assert (D1 : 5 <= euclid (mkpos (-3) 0 1) (mkpos (27/10) 0 (6/10)) < 6).
    { unfold euclid; cbn [px py pz]. split; [apply le_sqrt_sq|apply sqrt_lt_sq]; cbn; lra. }
    assert (L1 : -10 <= losSep (mkpos (-3) 0 1) (mkpos (27/10) 0 (6/10)) <= -1).
    { unfold losSep. replace (dot _ _) with (-235/100) by (unfold dot, psub, padd; cbn; lra).
      set (n := norm _).
      assert (Hn : n * n = 265/100) by (unfold n; rewrite norm_sq; unfold normSq, padd; cbn; lra).
      assert (0 <= n) by apply norm_nonneg. assert (1 <= n <= 235/100) by nra.
      assert (Hi : 1 / (235/100) <= / n <= 1).
      { split; [unfold Rdiv; rewrite Rmult_1_l; apply Rinv_le_contravar; lra|]. rewrite <- Rinv_1. apply Rinv_le_contravar; lra. }
      unfold Rdiv in *. lra. }
    assert (D2 : 6 <= euclid (mkpos (-3) 0 1) (mkpos (33/10) 0 (14/10))).
    { unfold euclid; cbn [px py pz]. apply le_sqrt_sq; cbn; lra. }
    unfold selRpar, selBin. rewrite !E. cbn [opos waO].
    unfold Rleb, Rltb, v_one.
    repeat (first [destruct Rle_dec|destruct Rlt_dec]; try (exfalso; lra); cbn [andb]); lra.
Qed.

(** Metric Rlens: the size of the second cell is projected to the lens plane before it is compared
    with the line-of-sight limits.  Lens at distance 1, sources at 5 and 15 (centre 10, size 5,
    projected size 1/2); max_rpar = 8 rejects both, although the first source is at line-of-sight
    separation 4.  The transverse separations are 0. *)
Definition rlB : bparams := mkB BLinear 0 2 2 1 0 1.
Lemma rlB_valid : validB rlB.
Proof. constructor; simpl; try lra; try lia; try discriminate. unfold edge; simpl; lra. Qed.
Definition rlCat1 : list obj := [exObj 1 1 0].
Definition rlCat2 : list obj := [exObj 5 1 0; exObj 15 1 1].
(** Rlens separation: distance of the second line of sight from the first point's distance. *)
Definition selRlens (B : bparams) (lo hi : R) (k : Z) (o1 o2 : obj) : bool :=
  selBin B (fun p q => norm (cross p q) / norm q) k o1 o2 && Rleb lo (losSep (opos o1) (opos o2)) && Rleb (losSep (opos o1) (opos o2)) hi.
Lemma rpar_los_rlens p q : calculateRPar Rlens p q = losSep p q.
Proof. rewrite <- rpar_los. reflexivity. Qed.
Theorem C41_rlens_refuted : forall br, exists Q cat1 cat2 s1 lo hi,
  cmetric (rP Q) = Rlens /\ crpar (rP Q) = Some (lo, hi) /\ rcoord Q = ThreeD /\ rbrute Q = br /\
  validB (cbin (rP Q)) /\ slop_b (cbin (rP Q)) = 0 /\ narrowLog (cbin (rP Q)) /\ posW cat1 /\ posW cat2 /\
  runCross Q cat1 cat2 cleared s1 /\
  a_npairs s1 0%Z = 0 /\ sumPairs (selRlens (cbin (rP Q)) lo hi 0) v_one cat1 cat2 = 1.
Proof.
  intro br. set (Q := mkR (mkC Rlens (Some (0, 8)) rlB) ThreeD Mean br 0 10).
  destruct (runCross_exists Q rlCat1 rlCat2 cleared rlB_valid ltac:(discriminate) ltac:(discriminate)) as [s1 HR].
  exists Q, rlCat1, rlCat2, s1, 0, 8. do 4 (split; [reflexivity|]). split; [apply rlB_valid|].
  split; [reflexivity|]. split; [intro H; discriminate|].
  split; [intros o [<-|[]]; cbn; lra|]. split; [intros o [<-|[<-|[]]]; cbn; lra|].
  split; auto. split.
  - destruct HR as [cells1 [cells2 [_ [_ H]]]]. unfold processCross in H.
    match type of H with if ?c then _ else _ => assert (EX : c = true) end.
    { assert (C1 : centroid ThreeD rlCat1 = mkpos 1 0 0) by (unfold rlCat1; cen).
      assert (C2 : centroid ThreeD rlCat2 = mkpos 10 0 0) by (unfold rlCat2; cen).
      assert (S1 : calculateSizeSq (centroid ThreeD rlCat1) rlCat1 = 0) by (rewrite C1; unfold rlCat1; siz).
      assert (S2 : calculateSizeSq (centroid ThreeD rlCat2) rlCat2 = 5 * 5) by (rewrite C2; unfold rlCat2; siz).
      unfold crossEarlyExit, fieldCenter, fieldSize. cbn [fieldParams fcoord Q rcoord rP cmetric crpar cbin].
      rewrite S1, S2, C1, C2, sqrt_0, sqrt_square by lra. cbn [effSize eadd escale].
      unfold isRParOutsideRange. rewrite rpar_los_rlens, los_x by lra. cbn [rparSize].
      replace (sqrt (normSq (mkpos 1 0 0) / normSq (mkpos 10 0 0))) with (1/10).
      2:{ unfold normSq; cbn. replace ((1 * 1 + 0 * 0 + 0 * 0) / (10 * 10 + 0 * 0 + 0 * 0)) with ((1/10) * (1/10)) by field.
          rewrite sqrt_square; lra. }
      destruct Rlt_dec; auto. destruct Rlt_dec; [auto|lra]. }
    rewrite EX in H. subst s1. reflexivity.
  - unfold sumPairs, rlCat1, rlCat2. unfold pairs. cbn [map app sumR fst snd flat_map list_prod].
    assert (E : forall d, inBinb (cbin (rP Q)) 0 d = Rleb 0 d && Rltb d 1).
    { intro d. unfold inBinb, edge. cbn. f_equal; f_equal; lra. }
    assert (Z : forall x y, norm (cross (mkpos x 0 0) (mkpos y 0 0)) / norm (mkpos y 0 0) = 0).
    { intros x y. unfold cross. cbn [px py pz]. replace (mkpos _ _ _) with (mkpos 0 0 0) by (f_equal; ring).
      rewrite norm_x, Rabs_R0. unfold Rdiv. ring. }
    unfold selRlens, selBin. rewrite !E. cbn [opos exObj]. rewrite !Z, !los_x by lra.
    unfold Rleb, Rltb, v_one.
    repeat (first [destruct Rle_dec|destruct Rlt_dec]; try (exfalso; lra); cbn [andb]); lra.
Qed.

(** Auto-correlation with limits that are not symmetric: which member of a pair comes first is decided
    by the tree, so a catalog and its mirror image (p -> -p), which have the same separations and
    the same lines of sight, give different counts. *)
Definition orQ : runcfg := mkR (mkC Euclidean (Some (1/2, 10)) exB) ThreeD Mean BruteNo 0 0.
Definition mirror (o : obj) : obj := mkobj (pscale (-1) (opos o)) (ow o) (owpos o) (okappa o) (og1 o) (og2 o) (oidx o).
Definition orA : list obj := [exObj (5/2) 1 0; exObj 1 1 1].
Definition orB : list obj := [exObj (-(5/2)) 1 0; exObj (-1) 1 1].
Lemma orA_mirror : map mirror orA = orB.
Proof. unfold orA, orB, mirror, exObj, pscale. cbn. repeat f_equal; lra. Qed.
Definition orCell (l : list obj) (o1 o2 : obj) : cell :=
  Node (dataN ThreeD l) (Fin (sqrt (calculateSizeSq (centroid ThreeD l) l))) (Leaf (data1 o1) o1) (Leaf (data1 o2) o2).
Definition orCA := orCell orA (exObj 1 1 1) (exObj (5/2) 1 0).
Definition orCB := orCell orB (exObj (-(5/2)) 1 0) (exObj (-1) 1 1).
Lemma orA_cen : centroid ThreeD orA = mkpos (7/4) 0 0. Proof. unfold orA. cen. Qed.
Lemma orB_cen : centroid ThreeD orB = mkpos (-(7/4)) 0 0. Proof. unfold orB. cen. Qed.
Lemma orA_size : calculateSizeSq (centroid ThreeD orA) orA = (3/4) * (3/4). Proof. rewrite orA_cen. unfold orA. siz. Qed.
Lemma orB_size : calculateSizeSq (centroid ThreeD orB) orB = (3/4) * (3/4). Proof. rewrite orB_cen. unfold orB. siz. Qed.
Lemma or_min : fst (getMinMaxSize (rP orQ)) = 0.
Proof. apply minsize_b0; [apply exB_valid|reflexivity]. Qed.
Lemma orA_build : buildField (fieldParams orQ false) orA [orCA].
Proof.
  unfold fieldParams. rewrite or_min.
  exists [orA]. split; [apply top_stop; right; right; reflexivity|]. constructor; [|constructor].
  cbn [fcoord fsm fminsize fbrute orQ rcoord rsm].
  apply (b_node ThreeD Mean (0 * 0) false orA [exObj 1 1 1] [exObj (5/2) 1 0]);
    [cbn; lia|rewrite orA_size; lra| |apply b_leaf|apply b_leaf].
  apply sd_ok; try discriminate. apply sc_mean; auto. cbv zeta.
  replace (getSplit (boundsOf orA)) with DX by (symmetry; unfold orA; bnd).
  rewrite orA_cen. split; [|split; repeat constructor; cbn; lra]. apply perm_swap.
Qed.
Lemma orB_build : buildField (fieldParams orQ false) orB [orCB].
Proof.
  unfold fieldParams. rewrite or_min.
  exists [orB]. split; [apply top_stop; right; right; reflexivity|]. constructor; [|constructor].
  cbn [fcoord fsm fminsize fbrute orQ rcoord rsm].
  apply (b_node ThreeD Mean (0 * 0) false orB [exObj (-(5/2)) 1 0] [exObj (-1) 1 1]);
    [cbn; lia|rewrite orB_size; lra| |apply b_leaf|apply b_leaf].
  apply sd_ok; try discriminate. apply sc_mean; auto. cbv zeta.
  replace (getSplit (boundsOf orB)) with DX by (symmetry; unfold orB; bnd).
  rewrite orB_cen. split; [|split; repeat constructor; cbn; lra]. apply Permutation_refl.
Qed.
Lemma or_iters l o1 o2 ev : calculateSizeSq (centroid ThreeD l) l = (3/4) * (3/4) -> sumR ow l <> 0 -> ow o1 <> 0 -> ow o2 <> 0 ->
  run11 (rP orQ) false (Leaf (data1 o1) o1) (Leaf (data1 o2) o2) = Some ev ->
  autoIters (rP orQ) [orCell l o1 o2] = [Some ev].
Proof.
  intros HS HW H1 H2 HR. cbn [autoIters]. unfold autoIter. cbn [map oconcat].
  assert (EP : process2 (rP orQ) (orCell l o1 o2) = Some ev).
  { unfold orCell. cbn [process2]. change (getW (Node (dataN ThreeD l) _ _ _)) with (sumR ow l).
    destruct (Req_EM_T (sumR ow l) 0); [contradiction|]. cbn [getSize]. rewrite HS, sqrt_square by lra.
    change (halfminsep (cbin (rP orQ))) with (1/2 * 1). unfold eleb_fin.
    rewrite (Rleb_f (3/4)), !(Rleb_t 0) by lra.
    change (getW (Leaf (data1 o1) o1)) with (ow o1). change (getW (Leaf (data1 o2) o2)) with (ow o2).
    destruct (Req_EM_T (ow o1) 0); [contradiction|]. destruct (Req_EM_T (ow o2) 0); [contradiction|].
    change (do_reverse (cbin (rP orQ))) with false. rewrite HR. reflexivity. }
  rewrite EP. cbn [oapp]. rewrite app_nil_r. reflexivity.
Qed.
Theorem C41_auto_orientation_refuted : exists Q cat sA sB lo hi,
  cmetric (rP Q) = Euclidean /\ crpar (rP Q) = Some (lo, hi) /\ rcoord Q = ThreeD /\
  validB (cbin (rP Q)) /\ slop_b (cbin (rP Q)) = 0 /\ narrowLog (cbin (rP Q)) /\ posW cat /\
  runAuto Q cat cleared sA /\ runAuto Q (map mirror cat) cleared sB /\
  a_npairs sA 0%Z = 1 /\ a_npairs sB 0%Z = 0.
Proof.
  exists orQ, orA.
  set (a := Leaf (data1 (exObj 1 1 1)) (exObj 1 1 1)). set (b := Leaf (data1 (exObj (5/2) 1 0)) (exObj (5/2) 1 0)).
  set (c := Leaf (data1 (exObj (-(5/2)) 1 0)) (exObj (-(5/2)) 1 0)). set (d := Leaf (data1 (exObj (-1) 1 1)) (exObj (-1) 1 1)).
  assert (DB : decide11 (rP orQ) c d = Drop).
  { unfold decide11, c, d. cbn [cmetric crpar cbin rP orQ getW data1 getData dw ow exObj getPos getSize dpos opos effSize eadd].
    destruct (Req_EM_T 1 0); [lra|]. 
    unfold isRParOutsideRange. rewrite rpar_los. cbn [rparSize].
    assert (E : losSep (mkpos (-(5/2)) 0 0) (mkpos (-1) 0 0) = -(3/2)).
    { unfold losSep, padd, psub, dot. cbn [px py pz]. replace (mkpos (- (5/2) + -1) (0 + 0) (0 + 0)) with (mkpos (-(7/2)) 0 0) by (f_equal; lra).
      rewrite norm_x, Rabs_left by lra. field. }
    rewrite E. destruct Rlt_dec; [auto|lra]. }
  assert (DA : exists rsq k r lr, decide11 (rP orQ) a b = Direct rsq k r lr).
  { unfold decide11, a, b. cbn [cmetric crpar cbin rP orQ getW data1 getData dw ow exObj getPos getSize dpos opos effSize eadd].
    destruct (Req_EM_T 1 0); [lra|]. cbn [distSq]. rewrite ng_dist.
    unfold isRParOutsideRange, isRParInsideRange. rewrite rpar_los, los_x by lra. cbn [rparSize].
    destruct (Rlt_dec (5 / 2 - 1 + (0 + 0)) (1/2)); [lra|]. destruct (Rlt_dec 10 (5 / 2 - 1 - (0 + 0))); [lra|].
    destruct (Rlt_dec (5 / 2 - 1 - (0 + 0)) (1/2)); [lra|]. destruct (Rlt_dec 10 (5 / 2 - 1 + (0 + 0))); [lra|].
    unfold tooSmallDist, tooLargeDist, singleBin, isRSqInRange. cbn [exB minsep maxsep btype slop_a slop_b binsize].
    unfold Rltb, Rleb, Rsqr.
    destruct (Rlt_dec ((1 - 5/2) * (1 - 5/2)) (1 * 1)); [lra|]. cbn [andb].
    destruct (Rle_dec (3 * 3) ((1 - 5/2) * (1 - 5/2))); [lra|]. cbn [andb].
    destruct (Rlt_dec (1 * 1 * ((1 - 5/2) * (1 - 5/2))) ((0 + 0) * (0 + 0))); [lra|]. destruct (Rle_dec (0 + 0) 0); [|lra].
    destruct (Rle_dec (1 * 1) ((1 - 5/2) * (1 - 5/2))); [|lra]. destruct (Rlt_dec ((1 - 5/2) * (1 - 5/2)) (3 * 3)); [|lra].
    cbn [andb]. eauto. }
  destruct DA as [rsq [k [r [lr DA]]]].
  set (e := directProcess11 (rP orQ) false a b rsq k r lr).
  assert (OK : forall o, okcell 0 (Leaf (data1 o) o)).
  { intro o. constructor; cbn; auto; try ring. discriminate. }
  assert (Hk : ek e = 0%Z).
  { destruct (decide_direct_noRpar _ _ _ _ _ _ _ DA) as [DA0 _].
    assert (X : selM (noRpar (rP orQ)) 0 (exObj 1 1 1) (exObj (5/2) 1 0) = true).
    { unfold selM. cbn [noRpar crpar rparInb cmetric cbin rP orQ opos exObj]. rewrite mdist_euclidean, euclid_x, exB_in by lia.
      rewrite Rabs_left by lra. rewrite Rleb_t, Rltb_t by lra. reflexivity. }
    rewrite (direct_exact (noRpar (rP orQ)) false 0 a b rsq k r lr) in X; try (left; reflexivity); [| |apply OK|apply OK| | |].
    - apply Z.eqb_eq in X. rewrite X. reflexivity.
    - apply exB_valid.
    - apply (pairOK_lip (noRpar (rP orQ)) anyPos anyPos); try exact I; [apply lip_euclid|reflexivity|apply OK|apply OK].
    - intros x o1 o2 Hx _ _. left. injection Hx. intros. lra.
    - exact DA0. }
  assert (Hk2 : ek2 e = None) by apply direct_ek2.
  destruct (direct_ec (rP orQ) false a b rsq k r lr) as [E1 E2]. fold e in E1, E2.
  exists (parallelRun cleared [[[e]]]), (parallelRun cleared [[[]]]), (1/2), 10.
  do 3 (split; [reflexivity|]). split; [apply exB_valid|]. split; [reflexivity|]. split; [apply exB_narrow|].
  split; [intros o [<-|[<-|[]]]; cbn; lra|]. split; [|split; [|split]].
  - exists [orCA]. split; [apply orA_build|]. exists [[e]], [[[e]]]. split; [|split; [unfold schedule; simpl; auto|reflexivity]].
    symmetry. apply or_iters; try (cbn; lra); [apply orA_size|].
    unfold run11. change (fuel11 _ _) with 0%nat. cbn [process11]. fold a b. rewrite DA. reflexivity.
  - rewrite orA_mirror. exists [orCB]. split; [apply orB_build|]. exists [[]], [[[]]]. split; [|split; [unfold schedule; simpl; auto|reflexivity]].
    symmetry. apply or_iters; try (cbn; lra); [apply orB_size|].
    unfold run11. change (fuel11 _ _) with 0%nat. cbn [process11]. fold c d. rewrite DB. reflexivity.
  - rewrite (schedule_get FNpairs cleared [[e]] [[[e]]] 0 ltac:(unfold schedule; simpl; auto) : a_npairs _ 0%Z = _).
    cbn [concat app sumR]. unfold contrib, hit, evval. rewrite Hk2, Hk, E1, E2. cbn. unfold aconst. lra.
  - apply par_nil.
Qed.
