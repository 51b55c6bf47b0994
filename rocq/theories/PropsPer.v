(** Property C96: the Periodic metric and objects moved by whole periods. *)
From Coq Require Import Reals Lra Lia List ZArith Bool Psatz.
From Verif Require Import Base Geometry Binning Tree Traverse Run GeomFacts SumFacts TreeFacts Spec SpecRun
  BinFacts TravFacts Exact MetricFacts Cover Lift Runs Examples PropsCount PatchFacts Spin SpinFacts SpecSpin PropsSpin.
Import ListNotations.
Open Scope R_scope.

(** ** Specification *)
(** [o'] is [o] with the position moved by whole periods. *)
Definition movedO (xp yp zp : R) (o o' : obj) : Prop :=
  (exists i j k, opos o' = image xp yp zp i j k (opos o)) /\ ow o' = ow o /\ okappa o' = okappa o /\ og1 o' = og1 o /\ og2 o' = og2 o.
Definition moved (xp yp zp : R) (cat cat' : list obj) : Prop := Forall2 (movedO xp yp zp) cat cat'.
(** [a] is the direction from [p] to an image of [q] nearest to [p]. *)
Definition nearAngle (xp yp zp : R) (p q : pos) (a : R) : Prop :=
  exists i j k, isPeriodicSep xp yp zp p q (euclid p (image xp yp zp i j k q)) /\ isAngle p (image xp yp zp i j k q) a.
(** The pair does not straddle a boundary: q itself is the nearest image. *)
Definition inner (xp yp : R) (p q : pos) : Prop := Rabs (px p - px q) < xp / 2 /\ Rabs (py p - py q) < yp / 2.

(** ** Scalars and counts *)
Lemma image_image xp yp zp i j k i' j' k' p :
  image xp yp zp i j k (image xp yp zp i' j' k' p) = image xp yp zp (i + i') (j + j') (k + k') p.
Proof. unfold image; simpl. rewrite !plus_IZR. f_equal; ring. Qed.
Lemma euclid_image xp yp zp i j k p q : euclid (image xp yp zp i j k p) q = euclid p (image xp yp zp (-i) (-j) (-k) q).
Proof. unfold euclid, image; simpl. rewrite !opp_IZR. f_equal. ring. Qed.
Theorem C96_separation xp yp zp i j k i' j' k' p q d :
  isPeriodicSep xp yp zp (image xp yp zp i j k p) (image xp yp zp i' j' k' q) d <-> isPeriodicSep xp yp zp p q d.
Proof.
  assert (H : forall i j k i' j' k' p q, isPeriodicSep xp yp zp p q d -> isPeriodicSep xp yp zp (image xp yp zp i j k p) (image xp yp zp i' j' k' q) d).
  { clear. intros i j k i' j' k' p q [[a [b [c E]]] H]. split.
    - exists (a + i - i')%Z, (b + j - j')%Z, (c + k - k')%Z. rewrite image_image, euclid_image, image_image, E. do 2 f_equal; lia.
    - intros. rewrite image_image, euclid_image, image_image. apply H. }
  split; [|apply H]. intro D. specialize (H (-i)%Z (-j)%Z (-k)%Z (-i')%Z (-j')%Z (-k')%Z _ _ D). rewrite !image_image in H.
  rewrite !Z.add_opp_diag_l in H. assert (Z0 : forall r, image xp yp zp 0 0 0 r = r) by (intros []; unfold image; simpl; f_equal; ring).
  rewrite !Z0 in H. exact H.
Qed.
Lemma psep_moved xp yp zp (psep : pos -> pos -> R) a a' b b' : (forall p q, isPeriodicSep xp yp zp p q (psep p q)) ->
  movedO xp yp zp a a' -> movedO xp yp zp b b' -> psep (opos a') (opos b') = psep (opos a) (opos b).
Proof.
  intros HP [[i [j [k E]]] _] [[i' [j' [k' E']]] _]. eapply (periodic_unique xp yp zp (opos a) (opos b)); [|apply HP].
  apply (C96_separation xp yp zp i j k i' j' k'). rewrite <- E, <- E'. apply HP.
Qed.
Lemma sum_moved xp yp zp (g h : obj -> R) cat cat' : moved xp yp zp cat cat' -> (forall o o', movedO xp yp zp o o' -> h o' = g o) -> sumR h cat' = sumR g cat.
Proof. intros H G. induction H; simpl; auto. rewrite IHForall2, (G _ _ H). auto. Qed.
Lemma sumPairs_cons' s v a l1 l2 : sumPairs s v (a :: l1) l2 = sumR (fun b => if s a b then v a b else 0) l2 + sumPairs s v l1 l2.
Proof. unfold sumPairs, pairs. cbn [list_prod]. rewrite sumR_app, sumR_map. reflexivity. Qed.
Lemma sumUPairs_cons' s v a l : sumUPairs s v (a :: l) = sumR (fun b => if s a b then v a b else 0) l + sumUPairs s v l.
Proof. unfold sumUPairs. cbn [upairs]. rewrite sumR_app, sumR_map. reflexivity. Qed.
Definition keeps (xp yp zp : R) (s : obj -> obj -> bool) (v : obj -> obj -> R) : Prop :=
  forall a a' b b', movedO xp yp zp a a' -> movedO xp yp zp b b' -> s a' b' = s a b /\ v a' b' = v a b.
Lemma sumPairs_moved xp yp zp s v l1 l1' l2 l2' : keeps xp yp zp s v ->
  moved xp yp zp l1 l1' -> moved xp yp zp l2 l2' -> sumPairs s v l1' l2' = sumPairs s v l1 l2.
Proof.
  intros K H1 H2. induction H1; auto. rewrite !sumPairs_cons', IHForall2. f_equal.
  apply (sum_moved xp yp zp _ _ _ _ H2). intros o o' M. destruct (K _ _ _ _ H M) as [-> ->]. auto.
Qed.
Lemma sumUPairs_moved xp yp zp s v l l' : keeps xp yp zp s v -> moved xp yp zp l l' -> sumUPairs s v l' = sumUPairs s v l.
Proof.
  intros K H1. induction H1; auto. rewrite !sumUPairs_cons', IHForall2. f_equal.
  apply (sum_moved xp yp zp _ _ _ _ H1). intros o o' M. destruct (K _ _ _ _ H M) as [-> ->]. auto.
Qed.
Lemma keeps_sel xp yp zp psep B k v : (forall p q, isPeriodicSep xp yp zp p q (psep p q)) ->
  (forall a a' b b', movedO xp yp zp a a' -> movedO xp yp zp b b' -> v a' b' = v a b) -> keeps xp yp zp (selBin B psep k) v.
Proof. intros HP HV a a' b b' A B'. split; [|auto]. unfold selBin. rewrite (psep_moved xp yp zp psep a a' b b'); auto. Qed.
Lemma off_moved xp yp zp psep B l1 l1' l2 l2' : (forall p q, isPeriodicSep xp yp zp p q (psep p q)) ->
  moved xp yp zp l1 l1' -> moved xp yp zp l2 l2' -> offEdges B psep l1 l2 -> offEdges B psep l1' l2'.
Proof.
  intros HP H1 H2 HO T a' b' j Hj Ia Ib.
  assert (X : forall l l' o', moved xp yp zp l l' -> In o' l' -> exists o, In o l /\ movedO xp yp zp o o').
  { clear. intros l l' o' H. induction H; [intros []|]. intros [<-|I]; [exists x; split; [left|]; auto|]. destruct (IHForall2 I) as [o [J M]]. exists o. split; [right|]; auto. }
  destruct (X _ _ _ H1 Ia) as [a [Ja Ma]], (X _ _ _ H2 Ib) as [b [Jb Mb]]. rewrite (psep_moved xp yp zp psep a a' b b'); auto.
Qed.
Lemma posW_moved xp yp zp l l' : moved xp yp zp l l' -> posW l -> posW l'.
Proof.
  intros H. induction H; intros P o I; [destruct I|]. destruct I as [<-|I].
  - rewrite (proj1 (proj2 H)). apply P. left; auto.
  - apply IHForall2; auto. intros q J. apply P. right; auto.
Qed.
Lemma upairs_moved xp yp zp l l' a' b' : moved xp yp zp l l' -> In (a', b') (upairs l') ->
  exists a b, In (a, b) (upairs l) /\ movedO xp yp zp a a' /\ movedO xp yp zp b b'.
Proof.
  intro H. induction H; [intros []|]. cbn [upairs]. rewrite in_app_iff. intros [I|I].
  - apply in_map_iff in I. destruct I as [b0 [E I]]. injection E as <- <-.
    assert (X : forall l l' o', moved xp yp zp l l' -> In o' l' -> exists o, In o l /\ movedO xp yp zp o o').
    { clear. intros l l' o' H. induction H; [intros []|]. intros [<-|I]; [exists x; split; [left|]; auto|]. destruct (IHForall2 I) as [o [J M]]. exists o. split; [right|]; auto. }
    destruct (X _ _ _ H0 I) as [b [J M]]. exists x, b. split; auto. apply in_app_iff. left. apply in_map_iff. eauto.
  - destruct (IHForall2 I) as [a [b [J M]]]. exists a, b. split; auto. apply in_app_iff. auto.
Qed.

(** Counts, weights, NK and KK do not change when any objects are moved by whole periods. *)
Theorem C96_cross xp yp zp Cf cat1 cat2 cat1' cat2' s0 s1 s1' k :
  0 < xp -> 0 < yp -> 0 < zp ->
  cmetric (rP Cf) = Periodic xp yp zp -> crpar (rP Cf) = None -> validB (cbin (rP Cf)) ->
  slop_b (cbin (rP Cf)) = 0 -> narrowLog (cbin (rP Cf)) ->
  offEdges (cbin (rP Cf)) (fun p q => sqrt (distSq (Periodic xp yp zp) p q)) cat1 cat2 -> posW cat1 -> posW cat2 ->
  moved xp yp zp cat1 cat1' -> moved xp yp zp cat2 cat2' ->
  runCross Cf cat1 cat2 s0 s1 -> runCross Cf cat1' cat2' s0 s1' ->
  a_npairs s1' k = a_npairs s1 k /\ a_weight s1' k = a_weight s1 k /\ a_xi_nk s1' k = a_xi_nk s1 k /\ a_xi_kk s1' k = a_xi_kk s1 k.
Proof.
  intros X Y Z HM Hr HB Hb HN HE W1 W2 M1 M2 H H'. set (psep := fun p q => sqrt (distSq (Periodic xp yp zp) p q)) in *.
  assert (HP : forall p q, isPeriodicSep xp yp zp p q (psep p q)) by (intros; apply C12_periodic_distance; auto).
  destruct (C12_periodic_cross_exact xp yp zp psep Cf cat1 cat2 s0 s1 k) as [A1 [A2 [A3 A4]]]; auto.
  destruct (C12_periodic_cross_exact xp yp zp psep Cf cat1' cat2' s0 s1' k) as [B1 [B2 [B3 B4]]]; auto.
  - apply (off_moved xp yp zp psep _ cat1 cat1' cat2 cat2'); auto.
  - eapply posW_moved; eauto.
  - eapply posW_moved; eauto.
  - rewrite A1, A2, A3, A4, B1, B2, B3, B4.
    rewrite !(sumPairs_moved xp yp zp _ _ cat1 cat1' cat2 cat2'); auto; apply keeps_sel; auto;
      intros a a' b b' [_ [E1 [E2 _]]] [_ [E3 [E4 _]]]; unfold v_one, v_ww, v_nk, v_kk; rewrite ?E1, ?E2, ?E3, ?E4; auto.
Qed.
Theorem C96_auto xp yp zp Cf cat cat' s0 s1 s1' k :
  0 < xp -> 0 < yp -> 0 < zp ->
  cmetric (rP Cf) = Periodic xp yp zp -> crpar (rP Cf) = None -> validB (cbin (rP Cf)) ->
  slop_b (cbin (rP Cf)) = 0 -> narrowLog (cbin (rP Cf)) ->
  let psep := fun p q => sqrt (distSq (Periodic xp yp zp) p q) in
  offEdges (cbin (rP Cf)) psep cat cat -> offMinSep (cbin (rP Cf)) psep cat -> posW cat ->
  moved xp yp zp cat cat' ->
  runAuto Cf cat s0 s1 -> runAuto Cf cat' s0 s1' ->
  a_npairs s1' k = a_npairs s1 k /\ a_weight s1' k = a_weight s1 k /\ a_xi_kk s1' k = a_xi_kk s1 k.
Proof.
  intros X Y Z HM Hr HB Hb HN psep HE HO W M H H'.
  assert (HP : forall p q, isPeriodicSep xp yp zp p q (psep p q)) by (intros; apply C12_periodic_distance; auto).
  destruct (C12_periodic_auto_exact xp yp zp psep Cf cat s0 s1 k) as [A1 [A2 A3]]; auto.
  destruct (C12_periodic_auto_exact xp yp zp psep Cf cat' s0 s1' k) as [B1 [B2 B3]]; auto.
  - apply (off_moved xp yp zp psep _ cat cat' cat cat'); auto.
  - intros a' b' I. destruct (upairs_moved xp yp zp cat cat' a' b' M I) as [a [b [J [Ma Mb]]]].
    rewrite (psep_moved xp yp zp psep a a' b b'); auto.
  - eapply posW_moved; eauto.
  - rewrite A1, A2, A3, B1, B2, B3.
    rewrite !(sumUPairs_moved xp yp zp _ _ cat cat'); auto; apply keeps_sel; auto;
      intros a a' b b' [_ [E1 [E2 _]]] [_ [E3 [E4 _]]]; unfold v_one, v_ww, v_kk; rewrite ?E1, ?E2, ?E3, ?E4; auto.
Qed.

(** ** Shears *)
Lemma far1 x i per : 0 < per -> Rabs x < per / 2 -> i <> 0%Z -> x * x < (x - IZR i * per) * (x - IZR i * per).
Proof.
  intros P X Hi. apply Rabs_def2 in X. assert (C : (i <= -1 \/ 1 <= i)%Z) by lia.
  
  set (t := IZR i) in *. assert (D : 0 < (t * per) * (t * per - 2 * x)); [|lra].
  destruct C as [C|C]; apply IZR_le in C; fold t in C.
  - assert (t * per <= -1 * per) by (apply Rmult_le_compat_r; lra).
    replace ((t * per) * (t * per - 2 * x)) with ((- (t * per)) * (2 * x - t * per)) by ring. apply Rmult_lt_0_compat; lra.
  - assert (1 * per <= t * per) by (apply Rmult_le_compat_r; lra). apply Rmult_lt_0_compat; lra.
Qed.
Lemma inner_near xp yp zp p q i j k : 0 < xp -> 0 < yp -> 0 < zp -> pz p = 0 -> pz q = 0 -> inner xp yp p q ->
  isPeriodicSep xp yp zp p q (euclid p (image xp yp zp i j k q)) -> image xp yp zp i j k q = q.
Proof.
  intros X Y Z Zp Zq [IX IY] [_ H]. specialize (H 0%Z 0%Z 0%Z).
  assert (Z0 : image xp yp zp 0 0 0 q = q) by (destruct q; unfold image; simpl; f_equal; ring). rewrite Z0 in H.
  unfold euclid in H. apply sqrt_le_0 in H; [|repeat apply Rplus_le_le_0_compat; apply pow2_ge_0|repeat apply Rplus_le_le_0_compat; apply pow2_ge_0]. unfold image in H. cbn [px py pz] in H. rewrite Zp, Zq in H.
  set (dx := px p - px q) in *. set (dy := py p - py q) in *.
  replace ((px p - (px q + IZR i * xp)) ^ 2) with ((dx - IZR i * xp) * (dx - IZR i * xp)) in H by (unfold dx; ring).
  replace ((py p - (py q + IZR j * yp)) ^ 2) with ((dy - IZR j * yp) * (dy - IZR j * yp)) in H by (unfold dy; ring).
  replace ((0 - (0 + IZR k * zp)) ^ 2) with ((0 - IZR k * zp) * (0 - IZR k * zp)) in H by ring.
  assert (F : forall x n per, 0 < per -> Rabs x < per / 2 -> x * x <= (x - IZR n * per) * (x - IZR n * per)).
  { intros x n per P A. destruct (Z.eq_dec n 0) as [->|N]; [right; ring|left; apply far1; auto]. }
  assert (A0 : Rabs 0 < zp / 2) by (rewrite Rabs_R0; lra).
  pose proof (F dx i xp X IX). pose proof (F dy j yp Y IY). pose proof (F 0 k zp Z A0).
  destruct (Z.eq_dec i 0) as [->|N]; [|pose proof (far1 dx i xp X IX N); lra].
  destruct (Z.eq_dec j 0) as [->|N]; [|pose proof (far1 dy j yp Y IY N); lra].
  destruct (Z.eq_dec k 0) as [->|N]; [|pose proof (far1 0 k zp Z A0 N); lra]. exact Z0.
Qed.
Lemma selM_per P xp yp zp psep k o1 o2 : 0 < xp -> 0 < yp -> 0 < zp -> crpar P = None -> cmetric P = Periodic xp yp zp ->
  (forall p q, isPeriodicSep xp yp zp p q (psep p q)) -> selM P k o1 o2 = selBin (cbin P) psep k o1 o2.
Proof.
  intros X Y Z Hr HM HP. apply selM_selBin; auto. rewrite HM. eapply (periodic_unique xp yp zp); [apply C12_periodic_distance; auto|apply HP].
Qed.
(** The angle used is that of the positions as given, whether or not the pair was wrapped. *)
Theorem C96_shear_raw xp yp zp psep Cf ang f k cat1 cat2 a0 a1 :
  0 < xp -> 0 < yp -> 0 < zp -> (forall p q, isPeriodicSep xp yp zp p q (psep p q)) ->
  validB (cbin (rP Cf)) -> crpar (rP Cf) = None -> cmetric (rP Cf) = Periodic xp yp zp -> rcoord Cf = Flat ->
  rbrute Cf = BruteBoth -> nonnegW cat1 -> nonnegW cat2 -> anglesFor ang cat1 cat2 ->
  runCrossS Cf Spin2 cat1 cat2 a0 a1 ->
  a1 f k = a0 f k + sumPairs (selBin (cbin (rP Cf)) psep k) (gval ang f) cat1 cat2.
Proof.
  intros X Y Z HP HB Hr HM HC HX W1 W2 HA H.
  rewrite (runCrossS_brute Cf anyPos anyPos Spin2 f k cat1 cat2 a0 a1); auto; try exact I.
  - rewrite HC. f_equal. apply specS_sumPairs; intros; [apply (selM_per _ xp yp zp); auto|eapply kernO_gval; eauto].
  - rewrite HM. apply lip_periodic; auto.
Qed.
(** Hence the projection is the one towards the nearest image if no pair of the bin straddles a boundary. *)
Theorem C96_shear_inner xp yp zp psep Cf ang f k cat1 cat2 a0 a1 :
  0 < xp -> 0 < yp -> 0 < zp -> (forall p q, isPeriodicSep xp yp zp p q (psep p q)) ->
  validB (cbin (rP Cf)) -> crpar (rP Cf) = None -> cmetric (rP Cf) = Periodic xp yp zp -> rcoord Cf = Flat ->
  rbrute Cf = BruteBoth -> nonnegW cat1 -> nonnegW cat2 -> flatCat cat1 -> flatCat cat2 ->
  (forall o1 o2, In o1 cat1 -> In o2 cat2 -> opos o1 <> opos o2 -> nearAngle xp yp zp (opos o1) (opos o2) (ang (opos o1) (opos o2))) ->
  (forall o1 o2, In o1 cat1 -> In o2 cat2 -> selBin (cbin (rP Cf)) psep k o1 o2 = true -> inner xp yp (opos o1) (opos o2)) ->
  runCrossS Cf Spin2 cat1 cat2 a0 a1 ->
  a1 f k = a0 f k + sumPairs (selBin (cbin (rP Cf)) psep k) (gval ang f) cat1 cat2.
Proof.
  intros X Y Z HP HB Hr HM HC HX W1 W2 F1 F2 HA HI H.
  destruct (angles_exist cat1 cat2 F1 F2) as [rang HR].
  rewrite (C96_shear_raw xp yp zp psep Cf rang f k cat1 cat2 a0 a1); auto. f_equal.
  unfold sumPairs. apply sumR_ext. intros [o1 o2] Ho. cbn [fst snd]. apply in_pairs in Ho. destruct Ho as [I1 I2].
  destruct (selBin (cbin (rP Cf)) psep k o1 o2) eqn:E; auto.
  rewrite <- (kernO_gval rang cat1 cat2 f o1 o2); auto.
  apply (kernO_gval ang [o1] [o2]); [|left; auto|left; auto].
  intros x y [<-|[]] [<-|[]] N. destruct (HA o1 o2 I1 I2 N) as [i [j [c [P A]]]].
  rewrite (inner_near xp yp zp (opos o1) (opos o2) i j c) in A; auto.
Qed.

(** ** A pair across the boundary gets the wrong tangential shear *)
Definition perB : bparams := mkB BLinear 1 3 2 1 1 0.
Definition perRun : runcfg := mkR (mkC (Periodic 10 10 10) None perB) Flat Mean BruteBoth 0 10.
Lemma per_sep : isPeriodicSep 10 10 10 (mkpos 0 0 0) (mkpos (-2) 2 0) (sqrt 8).
Proof.
  assert (E : euclid (mkpos 0 0 0) (mkpos (-2) 2 0) = sqrt 8) by (unfold euclid; cbn [px py pz]; f_equal; ring).
  split.
  - exists 0%Z, 0%Z, 0%Z. rewrite <- E. unfold image; simpl. do 2 f_equal; ring.
  - intros i j k. unfold euclid, image. cbn [px py pz]. apply sqrt_le_1_alt.
    assert (F : forall x n, Rabs x < 5 -> x * x <= (x - IZR n * 10) * (x - IZR n * 10)).
    { intros x n A. destruct (Z.eq_dec n 0) as [->|N]; [right; ring|left; apply far1; auto; lra]. }
    pose proof (F 2 i ltac:(rewrite Rabs_right; lra)). pose proof (F (-2) j ltac:(rewrite Rabs_left; lra)). pose proof (F 0 k ltac:(rewrite Rabs_R0; lra)). lra.
Qed.
(** One lens at the origin, one source at (8,2) in a box of side 10, of shear i.  Its nearest image is (-2,2), towards which
    the shear is tangential with value 1; the result is -8/17.  Moving the source by one period gives 1. *)
Theorem C96_shear_refuted : exists Cf cat1 cat2 cat2' a a' k,
  cmetric (rP Cf) = Periodic 10 10 10 /\ validB (cbin (rP Cf)) /\ rcoord Cf = Flat /\ rbrute Cf = BruteBoth /\
  nonnegW cat1 /\ nonnegW cat2 /\ moved 10 10 10 cat2 cat2' /\
  runCrossS Cf Spin2 cat1 cat2 scleared a /\ runCrossS Cf Spin2 cat1 cat2' scleared a' /\
  a SNre k = - 8 / 17 /\ a' SNre k = 1.
Proof.
  set (l := [spObj 0 0 0 0 0]). set (s := spObj 8 2 0 1 0). set (s' := spObj (-2) 2 0 1 0).
  exists perRun, l, [s], [s'].
  assert (V : validB (cbin (rP perRun))) by apply spB_valid.
  destruct (runCrossS_exists perRun Spin2 l [s] scleared) as [a H]; [auto|discriminate|discriminate|].
  destruct (runCrossS_exists perRun Spin2 l [s'] scleared) as [a' H']; [auto|discriminate|discriminate|].
  exists a, a', 1%Z.
  assert (W1 : nonnegW l) by (intros o [<-|[]]; simpl; lra).
  assert (W2 : nonnegW [s]) by (intros o [<-|[]]; simpl; lra).
  assert (W3 : nonnegW [s']) by (intros o [<-|[]]; simpl; lra).
  assert (M : movedO 10 10 10 s s').
  { split; [|repeat split; reflexivity]. exists (-1)%Z, 0%Z, 0%Z. unfold s, s', spObj, image. cbn [opos px py pz]. f_equal; lra. }
  repeat (split; [first [assumption|reflexivity]|]). split; [constructor; [exact M|constructor]|]. split; auto. split; auto.
  set (psep := fun p q => sqrt (distSq (Periodic 10 10 10) p q)).
  assert (HP : forall p q, isPeriodicSep 10 10 10 p q (psep p q)) by (intros; apply C12_periodic_distance; lra).
  assert (D' : psep (mkpos 0 0 0) (mkpos (-2) 2 0) = sqrt 8) by (eapply (periodic_unique 10 10 10); [apply HP|apply per_sep]).
  assert (D : psep (mkpos 0 0 0) (mkpos 8 2 0) = sqrt 8).
  { rewrite <- D'. symmetry. apply (psep_moved 10 10 10 psep (spObj 0 0 0 0 0) (spObj 0 0 0 0 0) s s' HP); auto.
    split; [|repeat split; reflexivity]. exists 0%Z, 0%Z, 0%Z. unfold spObj, image. cbn [opos px py pz]. f_equal; lra. }
  assert (S8 : 2 <= sqrt 8 < 3).
  { split; [rewrite <- (sqrt_square 2) by lra; apply sqrt_le_1_alt; lra|]. rewrite <- (sqrt_square 3) by lra. apply sqrt_lt_1_alt; lra. }
  assert (KK : forall o c, runCrossS perRun Spin2 l [o] scleared c -> nonnegW [o] -> psep (mkpos 0 0 0) (opos o) = sqrt 8 ->
    c SNre 1%Z = kernO Flat Spin2 SNre (spObj 0 0 0 0 0) o).
  { intros o c R Wo Dd. rewrite (runCrossS_brute perRun anyPos anyPos Spin2 SNre 1%Z l [o] scleared c); auto; try exact I; try reflexivity.
    - unfold pairs, l. cbn [list_prod map app sumR]. unfold specS. cbn [fst snd]. rewrite (selM_per _ 10 10 10 psep) by (auto; lra).
      unfold selBin. change (opos (spObj 0 0 0 0 0)) with (mkpos 0 0 0). rewrite Dd.
      assert (IB : inBinb (cbin (rP perRun)) 1 (sqrt 8) = true).
      { unfold inBinb, edge. simpl. rewrite (Rleb_t _ (sqrt 8)), (Rltb_t (sqrt 8)) by lra. reflexivity. }
      rewrite IB. change (rcoord perRun) with Flat. unfold scleared. lra.
    - apply lip_periodic; lra. }
  assert (K : forall x y, 0 < x * x + y * y -> kernO Flat Spin2 SNre (spObj 0 0 0 0 0) (spObj x y 0 1 0) = - (2 * x * y) / (x * x + y * y)).
  { intros x y P. unfold kernO, kern, project1, project2, expmsialpha, projDir, spObj, owg, cscale, cmul, cdivr, cconj, safeNorm, cnorm.
    cbn [opos ow og1 og2 px py pz fst snd gsign]. rewrite ?Rminus_0_r.
    match goal with |- context [Rlt_dec 0 ?e] => destruct (Rlt_dec 0 e) as [L|L] end; cbn [fst snd].
    - field. lra.
    - exfalso. apply L. ring_simplify. nra. }
  rewrite (KK s a H W2 D), (KK s' a' H' W3 D'). unfold s, s'. rewrite !K by lra. split; lra.
Qed.

(** ** Examples *)
(** Both sides of the boundary of a box of side 10: moving the second object by a period gives the same count. *)
Example C96_example : exists s1 s1', let o1 := spObj 0 0 0 0 0 in let o2 := spObj 8 2 0 1 1 in let o2' := spObj (-2) 2 0 1 1 in
  runCross (mkR (mkC (Periodic 10 10 10) None (mkB BLinear 1 3 2 1 0 0)) Flat Mean BruteNo 0 10) [o1] [o2] cleared s1 /\
  runCross (mkR (mkC (Periodic 10 10 10) None (mkB BLinear 1 3 2 1 0 0)) Flat Mean BruteNo 0 10) [o1] [o2'] cleared s1' /\
  moved 10 10 10 [o2] [o2'] /\ posW [o1] /\ posW [o2] /\ a_npairs s1' 1%Z = a_npairs s1 1%Z /\ a_npairs s1 1%Z = 1.
Proof.
  set (Cf := mkR (mkC (Periodic 10 10 10) None (mkB BLinear 1 3 2 1 0 0)) Flat Mean BruteNo 0 10).
  set (o1 := spObj 0 0 0 0 0). set (o2 := spObj 8 2 0 1 1). set (o2' := spObj (-2) 2 0 1 1).
  assert (V : validB (cbin (rP Cf))).
  { constructor; simpl; try lra; try lia; try discriminate. unfold edge; simpl; lra. }
  destruct (runCross_exists Cf [o1] [o2] cleared V) as [s1 H1]; try discriminate.
  destruct (runCross_exists Cf [o1] [o2'] cleared V) as [s1' H1']; try discriminate.
  exists s1, s1'. cbv zeta. fold o1 o2 o2' Cf. split; auto. split; auto.
  assert (M0 : moved 10 10 10 [o1] [o1]).
  { constructor; [|constructor]. split; [|repeat split; reflexivity]. exists 0%Z, 0%Z, 0%Z. unfold o1, spObj, image. cbn [opos px py pz]. f_equal; lra. }
  assert (M : moved 10 10 10 [o2] [o2']).
  { constructor; [|constructor]. split; [|repeat split; reflexivity]. exists (-1)%Z, 0%Z, 0%Z. unfold o2, o2', spObj, image. cbn [opos px py pz]. f_equal; lra. }
  assert (P1 : posW [o1]) by (intros o [<-|[]]; simpl; lra).
  assert (P2 : posW [o2]) by (intros o [<-|[]]; simpl; lra).
  split; auto. split; auto. split; auto.
  set (psep := fun p q => sqrt (distSq (Periodic 10 10 10) p q)).
  assert (HP : forall p q, isPeriodicSep 10 10 10 p q (psep p q)) by (intros; apply C12_periodic_distance; lra).
  assert (D' : psep (opos o1) (opos o2') = sqrt 8) by (eapply (periodic_unique 10 10 10); [apply HP|apply per_sep]).
  assert (D : psep (opos o1) (opos o2) = sqrt 8).
  { rewrite <- D'. symmetry. inversion M0; inversion M; subst. apply (psep_moved 10 10 10 psep o1 o1 o2 o2' HP); auto. }
  assert (S8 : 2 < sqrt 8 < 3).
  { split; [rewrite <- (sqrt_square 2) at 1 by lra; apply sqrt_lt_1_alt; lra|]. rewrite <- (sqrt_square 3) by lra. apply sqrt_lt_1_alt; lra. }
  assert (OE : offEdges (cbin (rP Cf)) psep [o1] [o2]).
  { intros T a b j Hj [<-|[]] [<-|[]]. rewrite D. unfold edge. simpl in *. assert (j = 1 \/ j = 2)%Z as [-> | ->] by lia; simpl; lra. }
  assert (NL : narrowLog (cbin (rP Cf))) by (intro T; discriminate).
  split.
  - apply (C96_cross 10 10 10 Cf [o1] [o2] [o1] [o2'] cleared s1 s1' 1%Z); auto; try lra; reflexivity.
  - destruct (C12_periodic_cross_exact 10 10 10 psep Cf [o1] [o2] cleared s1 1%Z) as [A1 _]; auto; try lra; try reflexivity.
    rewrite A1, sumPairs_cons'. cbn [sumR].
    assert (IB : selBin (cbin (rP Cf)) psep 1 o1 o2 = true).
    { unfold selBin. rewrite D. unfold inBinb, edge. simpl. rewrite (Rleb_t _ (sqrt 8)), (Rltb_t (sqrt 8)) by lra. reflexivity. }
    rewrite IB. change (sumPairs (selBin (cbin (rP Cf)) psep 1) v_one [] [o2]) with 0. change (a_npairs cleared 1%Z) with 0. unfold v_one. lra.
Qed.
(** A source on the same side as the lens meets the hypotheses of [C96_shear_inner]. *)
Example C96_inner_example : exists ang a, let l := [spObj 0 0 0 0 0] in let s := [spObj (-2) 2 0 1 0] in
  runCrossS perRun Spin2 l s scleared a /\ flatCat l /\ flatCat s /\ nonnegW l /\ nonnegW s /\
  (forall o1 o2, In o1 l -> In o2 s -> opos o1 <> opos o2 -> nearAngle 10 10 10 (opos o1) (opos o2) (ang (opos o1) (opos o2))) /\
  (forall o1 o2, In o1 l -> In o2 s -> inner 10 10 (opos o1) (opos o2)).
Proof.
  set (l := [spObj 0 0 0 0 0]). set (s := [spObj (-2) 2 0 1 0]).
  assert (F1 : flatCat l) by (intros o [<-|[]]; reflexivity). assert (F2 : flatCat s) by (intros o [<-|[]]; reflexivity).
  destruct (angles_exist l s F1 F2) as [ang HA].
  destruct (runCrossS_exists perRun Spin2 l s scleared) as [a H]; [apply spB_valid|discriminate|discriminate|].
  exists ang, a. cbv zeta. fold l s. split; [exact H|]. split; [exact F1|]. split; [exact F2|].
  split; [intros o [<-|[]]; simpl; lra|]. split; [intros o [<-|[]]; simpl; lra|]. split.
  - intros o1 o2 I1 I2 N. exists 0%Z, 0%Z, 0%Z. pose proof (HA o1 o2 I1 I2 N) as A.
    assert (E : image 10 10 10 0 0 0 (opos o2) = opos o2) by (destruct (opos o2); unfold image; simpl; f_equal; ring).
    rewrite E. split; [|exact A]. destruct I1 as [<-|[]], I2 as [<-|[]]. change (isPeriodicSep 10 10 10 (mkpos 0 0 0) (mkpos (-2) 2 0) (euclid (mkpos 0 0 0) (mkpos (-2) 2 0))).
    replace (euclid (mkpos 0 0 0) (mkpos (-2) 2 0)) with (sqrt 8) by (unfold euclid; cbn [px py pz]; f_equal; ring). apply per_sep.
  - intros o1 o2 [<-|[]] [<-|[]]. unfold inner, spObj. cbn [opos px py]. split; [rewrite Rabs_right; lra|rewrite Rabs_left; lra].
Qed.
