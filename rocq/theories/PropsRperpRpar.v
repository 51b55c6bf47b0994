(** C89: min_rpar / max_rpar with the Rperp metric. *)
From Coq Require Import Reals Lra Lia List ZArith Bool Permutation Psatz.
From Verif Require Import Base Geometry Tree Traverse Run Spec SpecRun GeomFacts SumFacts TreeFacts
  BinFacts TravFacts Exact MetricFacts Cover Lift Runs Account Examples PropsCount PropsNear PropsSampler PropsRefuted PropsRpar
  SpecRperp RperpFacts PropsRperp.
Import ListNotations.
Open Scope R_scope.

(** ** Specification *)
(** As cntRpar, drpRpar and selRpar (PropsRpar.v), for a separation d. *)
Definition cntRp (d : pos -> pos -> R) (B : bparams) (lo hi e : R) (o1 o2 : obj) (k : Z) : Prop :=
  inBin B k (d (opos o1) (opos o2)) /\ lo - e <= losSep (opos o1) (opos o2) <= hi + e.
Definition drpRp (d : pos -> pos -> R) (B : bparams) (lo hi e : R) (o1 o2 : obj) : Prop :=
  (forall k, ~ inBin B k (d (opos o1) (opos o2))) \/
  losSep (opos o1) (opos o2) < lo + e \/ hi - e < losSep (opos o1) (opos o2).
Definition selRp (d : pos -> pos -> R) (B : bparams) (lo hi : R) (k : Z) (o1 o2 : obj) : bool :=
  selBin B d k o1 o2 && Rleb lo (losSep (opos o1) (opos o2)) && Rleb (losSep (opos o1) (opos o2)) hi.

Lemma rpar_los_rperp p q : calculateRPar Rperp p q = losSep p q.
Proof. rewrite <- rpar_los. reflexivity. Qed.
Lemma rperp_grow p1 p2 s1 s2 x : 0 <= s1 -> 0 <= s2 ->
  eadd (fst (effSize Rperp p1 p2 (Fin s1) (Fin s2))) (snd (effSize Rperp p1 p2 (Fin s1) (Fin s2))) = Fin x -> s1 + s2 <= x.
Proof.
  intros H1 H2. cbn [effSize fst snd]. set (N := normSq (pscale (1/2) (padd p1 p2))).
  assert (HN : 0 <= N) by apply normSq_nonneg.
  assert (F : forall r s, 0 <= s -> N < r -> N <> 0 -> s <= sqrt (r / N) * s).
  { intros r s Hs Hr Hn. assert (1 <= sqrt (r / N)); [|nra]. rewrite <- sqrt_1 at 1. apply sqrt_le_1_alt.
    apply Rmult_le_reg_r with N; [lra|]. unfold Rdiv. rewrite Rmult_assoc, Rinv_l by auto. lra. }
  repeat match goal with |- context [if ?c then _ else _] => destruct c end; cbn [eadd]; intro E; try discriminate;
    injection E; intros <-; repeat match goal with
    | Hl : N < ?r |- _ => pose proof (F r s1 H1 Hl ltac:(assumption)); pose proof (F r s2 H2 Hl ltac:(assumption)); clear Hl end; lra.
Qed.
Lemma earlyExit_rp P p1 p2 s1 s2 : cmetric P = Rperp -> crossEarlyExit P p1 p2 s1 s2 = true ->
  crossEarlyExit (noRpar P) p1 p2 s1 s2 = true \/
  isRParOutsideRange Rperp (crpar P) p1 p2 (eadd (fst (effSize Rperp p1 p2 (Fin s1) (Fin s2))) (snd (effSize Rperp p1 p2 (Fin s1) (Fin s2)))) = true.
Proof.
  intros HM. unfold crossEarlyExit. cbn [noRpar cmetric crpar cbin]. rewrite HM.
  destruct (effSize _ _ _ _ _) as [e1 e2]. cbn [fst snd].
  destruct (isRParOutsideRange _ (crpar P) _ _ _); auto.
Qed.

Section Sep.
Variable rsep : pos -> pos -> R.
Hypothesis Hsep : forall p q, isRperpSep p q (rsep p q).

Lemma mdist_rperp p q : mdist Rperp p q = rsep p q.
Proof. eapply rperp_unique; [apply C89_distance|auto]. Qed.
Lemma rsep_sym p q : rsep p q = rsep q p.
Proof. rewrite <- !mdist_rperp. apply (symM_other Rperp); simpl; auto; discriminate. Qed.

Section Rp.
Variables (P : cparams) (lo hi e : R).
Hypothesis HM : cmetric P = Rperp.
Hypothesis Hlim : crpar P = Some (lo, hi).
Lemma inside_rp p1 p2 x q1 q2 : isRParInsideRange (cmetric P) (crpar P) p1 p2 (Fin x) = true ->
  Rabs (losSep q1 q2 - losSep p1 p2) <= x + e -> lo - e <= losSep q1 q2 <= hi + e.
Proof.
  rewrite HM, Hlim. unfold isRParInsideRange. rewrite rpar_los_rperp. cbn [rparSize].
  intros H HA. apply Rabs_bounds in HA. destruct Rlt_dec; [discriminate|]. destruct Rlt_dec; [discriminate|]. lra.
Qed.
Lemma outside_rp p1 p2 x q1 q2 : isRParOutsideRange (cmetric P) (crpar P) p1 p2 (Fin x) = true ->
  Rabs (losSep q1 q2 - losSep p1 p2) <= x + e -> losSep q1 q2 < lo + e \/ hi - e < losSep q1 q2.
Proof.
  rewrite HM, Hlim. unfold isRParOutsideRange. rewrite rpar_los_rperp. cbn [rparSize].
  intros H HA. apply Rabs_bounds in HA. destruct Rlt_dec; [lra|]. destruct Rlt_dec; [lra|discriminate].
Qed.
End Rp.

(** ** Verdicts on the cells of two fields *)
Record rperpCase (Q : runcfg) (n : pos) (D Delta lo hi : R) (cat1 cat2 : list obj) : Prop := mkRPC {
  rq_M : cmetric (rP Q) = Rperp;
  rq_lim : crpar (rP Q) = Some (lo, hi);
  rq_c : rcoord Q <> Sphere;
  rq_B : validB (cbin (rP Q));
  rq_b : slop_b (cbin (rP Q)) = 0;
  rq_n : narrowLog (cbin (rP Q));
  rq_e : offEdges (cbin (rP Q)) rsep cat1 cat2;
  rq_w1 : posW cat1; rq_w2 : posW cat2;
  rq_p1 : nonnegWpos cat1; rq_p2 : nonnegWpos cat2;
  rq_u : norm n = 1; rq_D : 0 < D;
  rq_b1 : beyond n D cat1; rq_b2 : beyond n D cat2; rq_wi : within Delta cat1 cat2 }.

Lemma effSum_rp P a b x : cmetric P = Rperp -> effSum P a b = Fin x ->
  exists s1 s2, getSize a = Fin s1 /\ getSize b = Fin s2 /\ (0 <= s1 -> 0 <= s2 -> s1 + s2 <= x).
Proof.
  intros HM H. destruct (effSum_fin _ _ _ _ H) as [s1 [s2 [E1 E2]]]. exists s1, s2. split; [auto|split; [auto|]].
  intros Hs1 Hs2. unfold effSum in H. rewrite HM, E1, E2 in H. pose proof (rperp_grow (getPos a) (getPos b) s1 s2 x Hs1 Hs2) as G.
  destruct (effSize _ _ _ _ _) as [e1 e2]. apply G. exact H.
Qed.
Section VerdictsP.
Variables (Q : runcfg) (n : pos) (D Delta lo hi : R) (cat1 cat2 : list obj).
Hypothesis RC : rperpCase Q n D Delta lo hi cat1 cat2.
Variables (b1 b2 : bool) (cells1 cells2 : list cell).
Hypothesis B1 : buildField (fieldParams Q b1) cat1 cells1.
Hypothesis B2 : buildField (fieldParams Q b2) cat2 cells2.
Hypothesis N1 : cat1 <> [].
Hypothesis N2 : cat2 <> [].
Let P := rP Q.
Let e := Delta * Delta / D.

Lemma rq_min0 b : fminsize (fieldParams Q b) = 0.
Proof. apply fieldParams_min0. right. apply minsize_b0; [apply RC|apply (rq_b _ _ _ _ _ _ _ _ RC)]. Qed.
Lemma rq_ok1 a : inTops cells1 a -> okcell 0 a.
Proof. intro Ha. exact (cells_ok0 _ cat1 cells1 a (rq_min0 b1) B1 Ha). Qed.
Lemma rq_ok2 a : inTops cells2 a -> okcell 0 a.
Proof. intro Ha. exact (cells_ok0 _ cat2 cells2 a (rq_min0 b2) B2 Ha). Qed.
Lemma rq_pairOK a b : inTops cells1 a -> inTops cells2 b -> pairOK (noRpar P) 0 a b.
Proof.
  intros Ha Hb. apply (pairOK_lipW (noRpar P)); auto using rq_ok1, rq_ok2.
  cbn [noRpar cmetric]. unfold P. rewrite (rq_M _ _ _ _ _ _ _ _ RC). apply lipW_rperp.
Qed.
Lemma rq_exact a b : inTops cells1 a -> inTops cells2 b -> exactCond (noRpar P) a b.
Proof.
  intros Ha Hb. eapply (exactCond_slop (noRpar P)); [|exact B1|exact B2|exact Ha|exact Hb].
  split; [apply RC|split; [apply RC|]]. cbn [noRpar cmetric cbin]. unfold P. rewrite (rq_M _ _ _ _ _ _ _ _ RC).
  eapply offEdges_ext; [|apply RC]. intros; symmetry; apply mdist_rperp.
Qed.
Lemma rq_los a b x o1 o2 : inTops cells1 a -> inTops cells2 b -> effSum P a b = Fin x ->
  In o1 (objs a) -> In o2 (objs b) ->
  Rabs (losSep (opos o1) (opos o2) - losSep (getPos a) (getPos b)) <= x + e.
Proof.
  intros Ha Hb Hx I1 I2. destruct RC. destruct (effSum_rp P a b x rq_M0 Hx) as [s1 [s2 [E1 [E2 HX]]]].
  assert (J1 := inTops_obj_cat _ cat1 cells1 a o1 B1 Ha I1). assert (J2 := inTops_obj_cat _ cat2 cells2 b o2 B2 Hb I2).
  assert (S1 := member_within 0 a o1 s1 ltac:(lra) (rq_ok1 a Ha) I1 E1).
  assert (S2 := member_within 0 b o2 s2 ltac:(lra) (rq_ok2 b Hb) I2 E2).
  destruct (cells_centroid (fieldParams Q b1) cat1 cells1 a N1 rq_c0 B1 Ha) as [l1 [P1 G1]].
  destruct (cells_centroid (fieldParams Q b2) cat2 cells2 b N2 rq_c0 B2 Hb) as [l2 [P2 G2]].
  change (fcoord (fieldParams Q b1)) with (rcoord Q) in G1. change (fcoord (fieldParams Q b2)) with (rcoord Q) in G2.
  rewrite G1 in *. rewrite G2 in *. unfold e.
  pose proof (pdist_nonneg (centroid (rcoord Q) l1) (opos o1)). pose proof (pdist_nonneg (centroid (rcoord Q) l2) (opos o2)).
  apply Rle_trans with (s1 + s2 + Delta * Delta / D); [|specialize (HX ltac:(lra) ltac:(lra)); lra].
  apply (parts_lip n D Delta (rcoord Q) cat1 cat2); auto; lra.
Qed.
Lemma rq_W1 a : inTops cells1 a -> getW a <> 0.
Proof.
  intro Ha. apply Rgt_not_eq. apply (wf_Wpos _ _ (rq_ok1 a Ha)). intros o Ho. apply (rq_w1 _ _ _ _ _ _ _ _ RC).
  exact (inTops_obj_cat _ cat1 cells1 a o B1 Ha Ho).
Qed.
Lemma rq_W2 a : inTops cells2 a -> getW a <> 0.
Proof.
  intro Ha. apply Rgt_not_eq. apply (wf_Wpos _ _ (rq_ok2 a Ha)). intros o Ho. apply (rq_w2 _ _ _ _ _ _ _ _ RC).
  exact (inTops_obj_cat _ cat2 cells2 a o B2 Ha Ho).
Qed.
Lemma sel_noRp k o1 o2 : selM (noRpar P) k o1 o2 = true <-> inBin (cbin P) k (rsep (opos o1) (opos o2)).
Proof.
  unfold selM. cbn [noRpar crpar rparInb cmetric cbin]. rewrite andb_true_r, inBinb_true.
  unfold P. rewrite (rq_M _ _ _ _ _ _ _ _ RC), mdist_rperp. tauto.
Qed.
Lemma rq_direct a b rsq k r lr o1 o2 : inTops cells1 a -> inTops cells2 b ->
  decide11 P a b = Direct rsq k r lr -> In o1 (objs a) -> In o2 (objs b) ->
  cntRp rsep (cbin P) lo hi e o1 o2 (ek (directProcess11 P false a b rsq k r lr)).
Proof.
  intros Ha Hb HD I1 I2. destruct (decide_direct_noRpar _ _ _ _ _ _ _ HD) as [HD0 HIn].
  split.
  - apply sel_noRp.
    rewrite (direct_exact (noRpar P) false 0 a b rsq k r lr o1 o2); auto using rq_ok1, rq_ok2, rq_pairOK, rq_exact.
    + rewrite directProcess_noRpar. apply Z.eqb_refl.
    + apply RC.
  - destruct (effSum P a b) as [x|] eqn:Ex.
    + eapply inside_rp; [apply RC|apply RC|exact HIn|]. apply rq_los; auto.
    + exfalso. unfold isRParInsideRange in HIn. unfold P in HIn.
      rewrite (rq_lim _ _ _ _ _ _ _ _ RC), (rq_M _ _ _ _ _ _ _ _ RC) in HIn. discriminate.
Qed.
Lemma rq_drop a b o1 o2 : inTops cells1 a -> inTops cells2 b ->
  decide11 P a b = Drop -> In o1 (objs a) -> In o2 (objs b) -> drpRp rsep (cbin P) lo hi e o1 o2.
Proof.
  intros Ha Hb HD I1 I2. destruct (decide_drop_noRpar _ _ _ HD) as [HD0|HO].
  - left. intros k Hk. apply sel_noRp in Hk.
    rewrite (drop_exact (noRpar P) 0 a b o1 o2 k) in Hk; auto using rq_ok1, rq_ok2, rq_pairOK, rq_exact, rq_W1, rq_W2; [discriminate|apply RC].
  - right. destruct (effSum P a b) as [x|] eqn:Ex.
    + eapply outside_rp; [apply RC|apply RC|exact HO|]. apply rq_los; auto.
    + exfalso. unfold isRParOutsideRange in HO. unfold P in HO.
      rewrite (rq_lim _ _ _ _ _ _ _ _ RC), (rq_M _ _ _ _ _ _ _ _ RC) in HO. discriminate.
Qed.
Lemma rq_exit o1 o2 : 
  crossEarlyExit P (fieldCenter (fieldParams Q b1) cat1) (fieldCenter (fieldParams Q b2) cat2)
     (fieldSize (fieldParams Q b1) cat1) (fieldSize (fieldParams Q b2) cat2) = true ->
  In o1 cat1 -> In o2 cat2 -> drpRp rsep (cbin P) lo hi e o1 o2.
Proof.
  intros HX I1 I2. destruct (earlyExit_rp P _ _ _ _ (rq_M _ _ _ _ _ _ _ _ RC) HX) as [HX0|HO].
  - left. intros k Hk. apply inBin_range in Hk; [|apply RC].
    pose proof (lipW_field (noRpar P) (fieldParams Q b1) (fieldParams Q b2) cat1 cat2 o1 o2) as K.
    cbn [noRpar cmetric cbin] in K. unfold P in K, Hk, HX0. rewrite (rq_M _ _ _ _ _ _ _ _ RC), mdist_rperp in K.
    specialize (K lipW_rperp eq_refl I1 I2 (rq_B _ _ _ _ _ _ _ _ RC) HX0). lra.
  - right. set (E := eadd _ _) in HO.
    assert (HE : E = eadd (fst (effSize Rperp (fieldCenter (fieldParams Q b1) cat1) (fieldCenter (fieldParams Q b2) cat2)
        (Fin (fieldSize (fieldParams Q b1) cat1)) (Fin (fieldSize (fieldParams Q b2) cat2))))
      (snd (effSize Rperp (fieldCenter (fieldParams Q b1) cat1) (fieldCenter (fieldParams Q b2) cat2)
        (Fin (fieldSize (fieldParams Q b1) cat1)) (Fin (fieldSize (fieldParams Q b2) cat2))))) by reflexivity.
    clearbody E. destruct E as [x|].
    + symmetry in HE. apply rperp_grow in HE; [|apply fieldSize_nonneg|apply fieldSize_nonneg].
      rewrite <- (rq_M _ _ _ _ _ _ _ _ RC) in HO. fold P in HO.
      eapply outside_rp; [apply RC|apply RC|exact HO|]. destruct RC.
      apply Rle_trans with (fieldSize (fieldParams Q b1) cat1 + fieldSize (fieldParams Q b2) cat2 + Delta * Delta / D); [|unfold e; lra].
      unfold fieldCenter. cbn [fieldParams fcoord].
      apply (parts_lip n D Delta (rcoord Q) cat1 cat2); auto using partOf_refl.
      * apply (fieldSize_bound (fieldParams Q b1)); auto.
      * apply (fieldSize_bound (fieldParams Q b2)); auto.
    + exfalso. unfold isRParOutsideRange in HO. unfold P in HO. rewrite (rq_lim _ _ _ _ _ _ _ _ RC) in HO. discriminate.
Qed.
End VerdictsP.

(** ** C89 *)
(** bin_slop = 0, 3-d (or flat) positions, Rperp metric: every pair is either counted in the
    bin of its separation, with its own line-of-sight separation within the limits up to
    Delta^2 / D, or dropped and out of range (or within Delta^2 / D of a limit). *)
Lemma cross_accounts_rp Q n D Delta lo hi cat1 cat2 s0 s1 :
  rperpCase Q n D Delta lo hi cat1 cat2 -> cat1 <> [] -> cat2 <> [] ->
  runCross Q cat1 cat2 s0 s1 ->
  accounts (pairs cat1 cat2) (cntRp rsep (cbin (rP Q)) lo hi (Delta * Delta / D))
    (drpRp rsep (cbin (rP Q)) lo hi (Delta * Delta / D)) s0 s1.
Proof.
  intros RC N1 N2 [cells1 [cells2 [B1 [B2 H]]]].
  unfold processCross in H. destruct (crossEarlyExit _ _ _ _ _) eqn:EX.
  - subst s1. apply nothing_accounts. intros o1 o2 Hi. apply in_pairs in Hi as [I1 I2].
    eapply (rq_exit Q n D Delta lo hi cat1 cat2 RC); eauto.
  - destruct H as [evs [threads [HE [HSch ->]]]].
    assert (W1 := run_wf Q _ cat1 cells1 (rq_B _ _ _ _ _ _ _ _ RC) B1). assert (W2 := run_wf Q _ cat2 cells2 (rq_B _ _ _ _ _ _ _ _ RC) B2).
    apply (cross_accounts (rP Q) (fst (getMinMaxSize (rP Q))) cat1 cat2 cells1 cells2 evs); auto;
      try (eapply buildField_perm; eassumption).
    + intros f k. apply schedule_get; auto.
    + intros. eapply (rq_direct Q n D Delta lo hi cat1 cat2 RC); eauto.
    + intros. eapply (rq_drop Q n D Delta lo hi cat1 cat2 RC); eauto.
Qed.


Lemma cnt_selp B lo hi e l k j o1 o2 : validB B -> offLimits lo hi e l -> In (o1, o2) l ->
  cntRp rsep B lo hi e o1 o2 j -> selRp rsep B lo hi k o1 o2 = (k =? j)%Z.
Proof.
  intros HB HO Hi [H1 H2]. destruct (HO o1 o2 Hi) as [F1 F2]. apply Rabs_far in F1. apply Rabs_far in F2.
  unfold selRp. assert (E1 : Rleb lo (losSep (opos o1) (opos o2)) = true) by (apply Rleb_true; lra).
  assert (E2 : Rleb (losSep (opos o1) (opos o2)) hi = true) by (apply Rleb_true; lra).
  rewrite E1, E2, !andb_true_r. unfold selBin.
  destruct (Z.eqb_spec k j) as [->|Hne].
  - apply inBinb_true; auto.
  - destruct (inBinb B k _) eqn:E; auto. apply inBinb_true in E. exfalso. apply Hne. eapply inBin_unique; eauto.
Qed.
Lemma drp_selp B lo hi e l k o1 o2 : 0 <= e -> offLimits lo hi e l -> In (o1, o2) l ->
  drpRp rsep B lo hi e o1 o2 -> selRp rsep B lo hi k o1 o2 = false.
Proof.
  intros He HO Hi HD. destruct (HO o1 o2 Hi) as [F1 F2]. apply Rabs_far in F1. apply Rabs_far in F2.
  unfold selRp, selBin. destruct (inBinb B k _) eqn:E; auto. apply inBinb_true in E.
  destruct HD as [HD|HD]; [exfalso; eapply HD; eauto|].
  destruct (Rleb lo _) eqn:E1; auto. destruct (Rleb _ hi) eqn:E2; auto. apply Rleb_true in E1. apply Rleb_true in E2. lra.
Qed.

Theorem C89_cross_rpar Q n D Delta lo hi cat1 cat2 s0 s1 :
  cmetric (rP Q) = Rperp -> crpar (rP Q) = Some (lo, hi) -> rcoord Q <> Sphere ->
  validB (cbin (rP Q)) -> slop_b (cbin (rP Q)) = 0 -> narrowLog (cbin (rP Q)) ->
  offEdges (cbin (rP Q)) rsep cat1 cat2 ->
  posW cat1 -> posW cat2 -> nonnegWpos cat1 -> nonnegWpos cat2 -> cat1 <> [] -> cat2 <> [] ->
  norm n = 1 -> 0 < D -> beyond n D cat1 -> beyond n D cat2 -> within Delta cat1 cat2 ->
  runCross Q cat1 cat2 s0 s1 ->
  accounts (pairs cat1 cat2) (cntRp rsep (cbin (rP Q)) lo hi (Delta * Delta / D))
    (drpRp rsep (cbin (rP Q)) lo hi (Delta * Delta / D)) s0 s1 /\
  (offLimits lo hi (Delta * Delta / D) (pairs cat1 cat2) -> forall k,
   addsCross (selRp rsep (cbin (rP Q)) lo hi k) cat1 cat2 s0 s1 k).
Proof.
  intros. assert (RC : rperpCase Q n D Delta lo hi cat1 cat2) by (constructor; auto).
  assert (HA := cross_accounts_rp Q n D Delta lo hi cat1 cat2 s0 s1 RC H10 H11 H17).
  split; auto. intros HO k.
  assert (He : 0 <= Delta * Delta / D).
  { unfold Rdiv. apply Rmult_le_pos; [nra|apply Rlt_le, Rinv_0_lt_compat; auto]. }
  apply (accounts_sum _ _ _ (selRp rsep (cbin (rP Q)) lo hi k) k) in HA.
  - exact HA.
  - intros. eapply cnt_selp; eauto.
  - intros. eapply drp_selp; eauto.
Qed.


Theorem C89_auto_rpar Q n D Delta lo hi cat s0 s1 :
  cmetric (rP Q) = Rperp -> crpar (rP Q) = Some (lo, hi) -> rcoord Q <> Sphere ->
  validB (cbin (rP Q)) -> slop_b (cbin (rP Q)) = 0 -> narrowLog (cbin (rP Q)) ->
  offEdges (cbin (rP Q)) rsep cat cat -> offMinSep (cbin (rP Q)) rsep cat ->
  posW cat -> nonnegWpos cat -> cat <> [] ->
  norm n = 1 -> 0 < D -> beyond n D cat -> within Delta cat cat ->
  runAuto Q cat s0 s1 ->
  accountsAuto cat (cntRp rsep (cbin (rP Q)) lo hi (Delta * Delta / D))
    (drpRp rsep (cbin (rP Q)) lo hi (Delta * Delta / D)) s0 s1 /\
  (lo = - hi -> offLimits lo hi (Delta * Delta / D) (upairs cat) -> forall k,
   addsAuto (selRp rsep (cbin (rP Q)) lo hi k) cat s0 s1 k).
Proof.
  intros. assert (RC : rperpCase Q n D Delta lo hi cat cat) by (constructor; auto).
  assert (HA : accountsAuto cat (cntRp rsep (cbin (rP Q)) lo hi (Delta * Delta / D))
    (drpRp rsep (cbin (rP Q)) lo hi (Delta * Delta / D)) s0 s1).
  { destruct H14 as [cells [B [evs [threads [HE [HSch ->]]]]]].
    assert (W := run_wf Q _ cat cells (rq_B _ _ _ _ _ _ _ _ RC) B).
    assert (HA : accountsAuto cat (cntRp rsep (cbin (rP Q)) lo hi (Delta * Delta / D))
      (fun o1 o2 => drpRp rsep (cbin (rP Q)) lo hi (Delta * Delta / D) o1 o2 \/ rsep (opos o1) (opos o2) <= minsep (cbin (rP Q)))
      s0 (parallelRun s0 threads)).
    { apply (auto_accounts (rP Q) (fst (getMinMaxSize (rP Q))) cat cells evs); auto.
      - unfold do_reverse. pose proof (vb_not2d _ H2). destruct (btype (cbin (rP Q))); congruence.
      - eapply buildField_perm; eauto.
      - intros f k. apply schedule_get; auto.
      - intros. eapply (rq_direct Q n D Delta lo hi cat cat RC); eauto.
      - intros a b o1 o2 Ha Hb HD I1 I2. left. exact (rq_drop Q n D Delta lo hi cat cat RC _ _ cells cells B B H9 H9 a b o1 o2 Ha Hb HD I1 I2).
      - intros a o1 o2 Ha [HZ|HZ] I1 I2.
        + exfalso. eapply (rq_W1 Q n D Delta lo hi cat cat RC); eauto.
        + right. assert (O := rq_ok1 Q n D Delta lo hi cat cat RC _ cells B a Ha).
          pose proof (selfOK_size (rP Q) a ltac:(rewrite H; apply subEuclid_rperp) O HZ o1 o2 I1 I2) as K.
          rewrite H, mdist_rperp in K. exact K. }
    destruct HA as [cat' [HP HA]]. exists cat'. split; auto.
    revert HA. apply accounts_weaken. intros o1 o2 Hi [HD|HD]; auto. left. intros k Hk. apply inBin_range in Hk; auto.
    assert (rsep (opos o1) (opos o2) <> minsep (cbin (rP Q))); [|lra].
    destruct (in_upairs_perm _ _ _ _ HP Hi) as [Hi'|Hi'].
    - apply H6; auto.
    - rewrite rsep_sym. apply H6; auto. }
  split; auto. intros Hsym HO k.
  assert (He : 0 <= Delta * Delta / D).
  { unfold Rdiv. apply Rmult_le_pos; [nra|apply Rlt_le, Rinv_0_lt_compat; auto]. }
  assert (HS : forall o1 o2, selRp rsep (cbin (rP Q)) lo hi k o1 o2 = selRp rsep (cbin (rP Q)) lo hi k o2 o1).
  { intros o1 o2. unfold selRp, selBin. rewrite (rsep_sym (opos o1)), (los_opp (opos o2)).
    set (x := losSep (opos o2) (opos o1)). rewrite <- !andb_assoc. f_equal.
    destruct (Rleb lo (- x)) eqn:E1, (Rleb (- x) hi) eqn:E2, (Rleb lo x) eqn:E3, (Rleb x hi) eqn:E4; auto; exfalso;
    repeat match goal with
    | H : Rleb _ _ = true |- _ => apply Rleb_true in H
    | H : Rleb _ _ = false |- _ => apply Rleb_false in H end; lra. }
  destruct HA as [cat' [HP HA]].
  assert (HO' : offLimits lo hi (Delta * Delta / D) (upairs cat')).
  { intros o1 o2 Hi. destruct (in_upairs_perm _ _ _ _ HP Hi) as [Hi'|Hi'].
    - apply HO; auto.
    - destruct (HO o2 o1 Hi') as [F1 F2]. rewrite (los_opp (opos o2) (opos o1)). rewrite Hsym in F1 |- *.
      replace (- losSep (opos o2) (opos o1) - - hi) with (- (losSep (opos o2) (opos o1) - hi)) by ring.
      replace (- losSep (opos o2) (opos o1) - hi) with (- (losSep (opos o2) (opos o1) - - hi)) by ring.
      rewrite !Rabs_Ropp. split; auto. }
  apply (accounts_sum _ _ _ (selRp rsep (cbin (rP Q)) lo hi k) k) in HA.
  - cbv zeta in HA. destruct HA as [A1 [A2 [_ A4]]].
    assert (E : forall v, (forall o1 o2, v o1 o2 = v o2 o1) ->
      sumR (fun p => if selRp rsep (cbin (rP Q)) lo hi k (fst p) (snd p) then v (fst p) (snd p) else 0) (upairs cat') =
      sumUPairs (selRp rsep (cbin (rP Q)) lo hi k) v cat).
    { intros v Hv. unfold sumUPairs. apply sumR_upairs_perm; auto. intros x y. cbn [fst snd]. rewrite HS, Hv. auto. }
    unfold addsAuto. rewrite A1, A2, A4, !E; auto; intros; unfold v_one, v_ww, v_kk; ring.
  - intros. eapply cnt_selp; eauto.
  - intros. eapply drp_selp; eauto.
Qed.
End Sep.

(** ** Concrete cases *)
(** Separations 2 and 2, line-of-sight separations 0 and 5, limits [-1, 1]; Delta^2 / D = 36/1000. *)
Definition rqRun : runcfg := mkR (mkC Rperp (Some (-1, 1)) exBlog) ThreeD Mean BruteNo 0 10.
Definition rqC1 : list obj := [rpO 1000 (-1) 1 0].
Definition rqC2 : list obj := [rpO 1000 1 1 0; rpO 1005 1 1 1].
Definition rqA : list obj := [rpO 1000 (-1) 1 0; rpO 1005 1 1 1].
Lemma rq_sep x : 1 < x -> isRperpSep (mkpos 1000 (-1) 0) (mkpos x 1 0) 2.
Proof.
  intro Hx. pose proof (C89_distance (mkpos 1000 (-1) 0) (mkpos x 1 0)) as H.
  replace (sqrt (distSq Rperp (mkpos 1000 (-1) 0) (mkpos x 1 0))) with 2 in H; auto.
  symmetry. rewrite <- (sqrt_square 2) by lra. f_equal.
  unfold distSq, normSq, cross, padd, pscale; cbn [px py pz]. destruct Rlt_dec as [H1|H1]; [field; nra|exfalso; apply H1; nra].
Qed.
Lemma rqx_los x : 1 < x -> losSep (mkpos 1000 (-1) 0) (mkpos x 1 0) = x - 1000.
Proof.
  intro Hx. unfold losSep. replace (padd (mkpos 1000 (-1) 0) (mkpos x 1 0)) with (mkpos (1000 + x) 0 0)
    by (unfold padd; cbn [px py pz]; f_equal; ring).
  rewrite norm_x, Rabs_pos_eq by lra. unfold dot, psub; cbn [px py pz]. field. lra.
Qed.
Lemma exBlog_2 : inBinb exBlog 1 2 = true.
Proof.
  apply inBinb_true. pose proof (exp_ineq1 1 ltac:(lra)) as G1. pose proof exp_le_3 as G2.
  assert (G3 : exp (1/2) * exp (1/2) = exp 1) by (rewrite <- exp_plus; f_equal; lra).
  pose proof (exp_pos (1/2)).
  unfold inBin, exBlog, edge; cbn. replace (1 * (1/2)) with (1/2) by lra. replace (2 * (1/2)) with 1 by lra.
  split; [lia|]. split; nra.
Qed.
Lemma rq_within : within 6 (rqC1 ++ rqC2) rqA.
Proof.
  assert (K : forall x y x' y', (x - x') * (x - x') + (y - y') * (y - y') <= 36 -> pdist (mkpos x y 0) (mkpos x' y' 0) <= 6).
  { intros. apply normSq_le; [lra|]. unfold normSq, psub, dot; cbn [px py pz]. lra. }
  intros o1 o2 H1 H2. cbn [rqC1 rqC2 rqA app In] in H1, H2.
  repeat destruct H1 as [<-|H1]; try contradiction; repeat destruct H2 as [<-|H2]; try contradiction; cbn [opos rpO]; apply K; lra.
Qed.
Lemma within_sub Delta a b a' b' : within Delta a b -> incl (a' ++ b') (a ++ b) -> within Delta a' b'.
Proof. intros H HI o1 o2 H1 H2. apply H; apply HI; auto. Qed.
Example C89_cross_rpar_example : exists s1 rsep,
  (forall p q, isRperpSep p q (rsep p q)) /\ runCross rqRun rqC1 rqC2 cleared s1 /\
  beyond xAxis 1000 rqC1 /\ beyond xAxis 1000 rqC2 /\ within 6 rqC1 rqC2 /\
  offLimits (-1) 1 (6 * 6 / 1000) (pairs rqC1 rqC2) /\
  a_npairs s1 1%Z = 1 /\ sumPairs (selBin exBlog rsep 1) v_one rqC1 rqC2 = 2.
Proof.
  destruct (runCross_exists rqRun rqC1 rqC2 cleared) as [s1 HR]; try (apply exBlog_valid); try discriminate.
  set (rsep := fun p q => sqrt (distSq Rperp p q)). exists s1, rsep.
  assert (HS : forall p q, isRperpSep p q (rsep p q)) by (intros; apply C89_distance).
  assert (E : forall x, 1 < x -> rsep (mkpos 1000 (-1) 0) (mkpos x 1 0) = 2).
  { intros x Hx. eapply rperp_unique; [apply HS|apply rq_sep; auto]. }
  assert (Y1 : beyond xAxis 1000 rqC1) by (intros o [<-|[]]; unfold dot, xAxis; simpl; lra).
  assert (Y2 : beyond xAxis 1000 rqC2) by (intros o [<-|[<-|[]]]; unfold dot, xAxis; simpl; lra).
  assert (HW : within 6 rqC1 rqC2) by (eapply within_sub; [apply rq_within|intros o Ho; apply in_or_app; auto]).
  assert (HO : offLimits (-1) 1 (6 * 6 / 1000) (pairs rqC1 rqC2)).
  { intros o1 o2 Hi. cbn in Hi. repeat destruct Hi as [Hi|Hi]; try contradiction; injection Hi; intros; subst; cbn [opos rpO];
      rewrite rqx_los by lra; split; rabs. }
  repeat (split; [assumption|]).
  destruct (C89_cross_rpar rsep HS rqRun xAxis 1000 6 (-1) 1 rqC1 rqC2 cleared s1) as [_ HA];
    auto using exBlog_valid, exBlog_narrow; try discriminate; try lra.
  1-4: intros o Ho; cbn in Ho; repeat destruct Ho as [<-|Ho]; try contradiction; simpl; lra.
  1: unfold xAxis; rewrite norm_x; rabs.
  specialize (HA HO). split.
  - rewrite (proj1 (HA 1%Z)). change (cbin (rP rqRun)) with exBlog. unfold sumPairs. cbn [pairs rqC1 rqC2 map app flat_map list_prod sumR fst snd].
    unfold selRp, selBin. cbn [opos rpO]. rewrite !E, !exBlog_2, !rqx_los by lra.
    replace (Rleb (-1) (1000 - 1000)) with true by (symmetry; apply Rleb_true; lra).
    replace (Rleb (1000 - 1000) 1) with true by (symmetry; apply Rleb_true; lra).
    replace (Rleb (1005 - 1000) 1) with false by (symmetry; apply Rleb_false; lra).
    rewrite andb_false_r. cbn. unfold aconst, v_one. lra.
  - unfold sumPairs. cbn [pairs rqC1 rqC2 map app flat_map list_prod sumR fst snd].
    unfold selBin. cbn [opos rpO]. rewrite !E, !exBlog_2 by lra. unfold v_one. lra.
Qed.
Example C89_auto_rpar_example : exists s1 rsep,
  (forall p q, isRperpSep p q (rsep p q)) /\ runAuto rqRun rqA cleared s1 /\ offMinSep exBlog rsep rqA /\
  beyond xAxis 1000 rqA /\ within 6 rqA rqA /\
  offLimits (-1) 1 (6 * 6 / 1000) (upairs rqA) /\
  a_npairs s1 1%Z = 0 /\ sumUPairs (selBin exBlog rsep 1) v_one rqA = 1.
Proof.
  destruct (runAuto_exists rqRun rqA cleared) as [s1 HR]; try (apply exBlog_valid); try discriminate.
  set (rsep := fun p q => sqrt (distSq Rperp p q)). exists s1, rsep.
  assert (HS : forall p q, isRperpSep p q (rsep p q)) by (intros; apply C89_distance).
  assert (E : forall x, 1 < x -> rsep (mkpos 1000 (-1) 0) (mkpos x 1 0) = 2).
  { intros x Hx. eapply rperp_unique; [apply HS|apply rq_sep; auto]. }
  assert (HM : offMinSep exBlog rsep rqA).
  { intros o1 o2 Hi. cbn in Hi. destruct Hi as [Hi|[]]. injection Hi; intros; subst. cbn [opos rpO]. rewrite E by lra. cbn. lra. }
  assert (Y1 : beyond xAxis 1000 rqA) by (intros o [<-|[<-|[]]]; unfold dot, xAxis; simpl; lra).
  assert (HW : within 6 rqA rqA).
  { eapply within_sub; [apply rq_within|]. intros o Ho. apply in_or_app. right. apply in_app_or in Ho. tauto. }
  assert (HO : offLimits (-1) 1 (6 * 6 / 1000) (upairs rqA)).
  { intros o1 o2 Hi. cbn in Hi. repeat destruct Hi as [Hi|Hi]; try contradiction; injection Hi; intros; subst; cbn [opos rpO];
      rewrite rqx_los by lra; split; rabs. }
  repeat (split; [assumption|]).
  destruct (C89_auto_rpar rsep HS rqRun xAxis 1000 6 (-1) 1 rqA cleared s1) as [_ HA];
    auto using exBlog_valid, exBlog_narrow; try discriminate; try lra.
  1-2: intros o Ho; cbn in Ho; repeat destruct Ho as [<-|Ho]; try contradiction; simpl; lra.
  1: unfold xAxis; rewrite norm_x; rabs.
  specialize (HA ltac:(lra) HO). split.
  - rewrite (proj1 (HA 1%Z)). change (cbin (rP rqRun)) with exBlog. unfold sumUPairs. cbn [upairs rqA map app sumR fst snd].
    unfold selRp, selBin. cbn [opos rpO]. rewrite !E, !exBlog_2, !rqx_los by lra.
    replace (Rleb (1005 - 1000) 1) with false by (symmetry; apply Rleb_false; lra).
    rewrite andb_false_r. cbn. unfold aconst. lra.
  - unfold sumUPairs. cbn [upairs rqA map app sumR fst snd].
    unfold selBin. cbn [opos rpO]. rewrite !E, !exBlog_2 by lra. unfold v_one. lra.
Qed.
