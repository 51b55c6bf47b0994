(** C68-C70: the total with patch_method='local', examples and refutations. *)
From Coq Require Import Reals Lra Lia List ZArith Bool Permutation Psatz.
From Verif Require Import Base Geometry Tree Traverse Run Corr Patch Spec SpecRun GeomFacts SumFacts TreeFacts
  BinFacts TravFacts Exact MetricFacts Cover Lift Runs Examples Account PropsCount PropsRun PropsCorr PatchFacts
  PropsPatch PropsLocal Corr3 TriCover TriStop SpecTri TriFacts TriSpec PropsTri TriMirror PropsTri2 PropsTri3
  Patch3 Patch3Facts Patch3Sum Patch3Res PropsPatch3 PropsLocal3.
Import ListNotations.
Open Scope R_scope.

(** ** tot with patch_method='local' *)
Lemma own_rows Rc c cats : rcoord Rc <> ThreeD -> 0 < maxsep (cbin (rP Rc)) -> In c cats -> pobjs c <> [] ->
  exists l o, expandedPatch Rc (pobjs c) cats = Some (l, sumR (fun p => sumw (pobjs p)) cats) /\
    In o (pobjs c) /\ In o l.
Proof.
  intros HC HM Hc HN. destruct (pobjs c) as [|o t] eqn:E; [congruence|]. rewrite <- E.
  assert (Io : In o (pobjs c)) by (rewrite E; left; auto).
  assert (L : In o (localRows Rc (pobjs c) cats)).
  { apply (local_complete Rc (pobjs c) cats o o); auto; [eapply in_allRows; eauto|]. rewrite pdist_refl. auto. }
  unfold localRows in L. destruct (expandedPatch Rc (pobjs c) cats) as [[l w]|] eqn:EE; [|contradiction].
  exists l, o. split; auto. unfold expandedPatch in EE. cbv zeta in EE.
  match type of EE with match ?x with [] => _ | _ => _ end = _ => destruct x; [discriminate|] end.
  injection EE as E1 E2. congruence.
Qed.
Lemma mid3_0dd d : 0 <= d -> mid3 0 d d = d.
Proof. intro H. unfold mid3. rewrite (Rmin_left 0 d), (Rmax_right 0 d), (Rmin_left d d), ?(Rmax_right 0 d) by lra. reflexivity. Qed.
Lemma own_notTriv P l1 l o : 0 < tmaxsep P -> In o l1 -> In o l -> triv3 P l1 l l = false.
Proof.
  intros HM I1 I2. unfold triv3. cbv zeta.
  pose proof (size_bound (meanPos l1) l1 o I1) as S1. fold (maxDist (meanPos l1) l1) in S1.
  pose proof (size_bound (meanPos l) l o I2) as S2. fold (maxDist (meanPos l) l) in S2.
  change (norm (psub (meanPos l1) (meanPos l))) with (pdist (meanPos l1) (meanPos l)).
  change (norm (psub (meanPos l) (meanPos l1))) with (pdist (meanPos l) (meanPos l1)).
  change (norm (psub (meanPos l) (meanPos l))) with (pdist (meanPos l) (meanPos l)).
  rewrite pdist_refl, (pdist_sym (meanPos l) (meanPos l1)), mid3_0dd by apply sqrt_pos.
  pose proof (maxDist_nonneg (meanPos l) l) as Q.
  pose proof (pdist_triangle (meanPos l1) (opos o) (meanPos l)) as T.
  rewrite ?(pdist_sym (opos o) (meanPos l)), ?(pdist_sym (opos o) (meanPos l1)) in *.
  apply Rltb_f. lra.
Qed.
(** For every catalog with nonempty patches the total of an auto-correlation is W^3/2, not W^3/6. *)
Theorem C69_local_tot C cats st : validRUV (p3P C) -> tcoord (p3P C) <> ThreeD -> p3NNN C = true ->
  (forall p, In p cats -> pobjs p <> []) ->
  runJobs3 C s3clear (local3Auto (p3R C) cats) st ->
  k3tot (s3self st) = 1/2 * (sumw (allRows cats) * sumw (allRows cats) * sumw (allRows cats)).
Proof.
  intros V HC HN NE HR. rewrite (jobs3_tot C _ _ _ HN HR). simpl k3tot. rewrite Rplus_0_l.
  unfold local3Auto. rewrite sumR_map, !sumw_allRows.
  pose proof (maxsep_pos (p3P C) V) as MP.
  set (W := sumR (fun p => sumw (pobjs p)) cats).
  rewrite (sumR_ext _ (fun c => sumw (pobjs c) * (1/2 * (W * W)))).
  - rewrite sumR_scal_r. fold W. lra.
  - intros c Hc. destruct (own_rows (exp3cfg (p3R C)) c cats HC MP Hc (NE c Hc)) as [l [o [E [I1 I2]]]].
    unfold jobTot3. cbn [jcall jforce]. unfold expand3. rewrite E. cbn [callTriv fst catOf].
    rewrite (own_notTriv (p3P C) (pobjs c) l o); auto. cbn [andb callTot snd catOf]. fold W. field.
Qed.

(** ** Example: the 3-4-5 triangle, two patches *)
Definition exCats : list patch := [mkpatch 0 [exA; exB]; mkpatch 1 [exC]].
Definition exPC : pcfg3 := mkPC3 (triR 0) true.
Lemma exPC_exact : exact3 (p3P exPC).
Proof. constructor; try reflexivity. - apply triP_valid; lra. - apply triP_noSlop. Qed.
Lemma exCats_ok : NoDup (map pidx exCats) /\ noTies (allRows exCats) /\ (forall f, weights3 f (allRows exCats)) /\
  (forall p, In p exCats -> pobjs p <> []) /\ slopOK3 (p3P exPC) /\ idxIn 2 exCats.
Proof.
  destruct C65_example as [V [_ [SK [NT [W _]]]]].
  split; [repeat constructor; simpl; intuition discriminate|]. split; [exact NT|]. split; [exact W|].
  split; [intros p [<-|[<-|[]]]; discriminate|]. split; [exact SK|].
  intros p [<-|[<-|[]]]; simpl; lia.
Qed.
Lemma exSum : sumTriplesU (tri6 (p3P exPC) TNtri 1) (allRows exCats) = 1 /\
  sumTriplesU (tri6 (p3P exPC) TWeight 1) (allRows exCats) = 1.
Proof.
  destruct ex_sides as [S1 [S2 S3]].
  assert (F : forall a b c, ~ (side3 a b c <= side2 a b c <= side1 a b c) -> selTri (triP 0) 1 a b c = false).
  { intros a b c H. destruct (selTri (triP 0) 1 a b c) eqn:E; auto. exfalso. apply H.
    apply andb_true_iff in E as [E _]. apply shape_parts in E; [lra|apply triP_valid; lra]. }
  change (p3P exPC) with (triP 0). change (allRows exCats) with [exA; exB; exC].
  cbn [sumTriplesU upairs map app sumR fst snd]. unfold tri6, tri1, tri.
  rewrite (sel_one 0 1 exA exB exC); rewrite ?S1, ?S2, ?S3; try lra; auto.
  2:{ unfold ccwSpec, ccwFlat. cbn [exA exB exC triObj opos px py]. apply Rltb_t; lra. }
  unfold side1, side2, side3 in S1, S2, S3.
  rewrite (F exA exC exB), (F exB exA exC), (F exB exC exA), (F exC exA exB), (F exC exB exA);
    try (unfold side1, side2, side3; rewrite ?(euclid_sym (opos exB) (opos exA)), ?(euclid_sym (opos exC) (opos exA)),
      ?(euclid_sym (opos exC) (opos exB)), ?S1, ?S2, ?S3; lra).
  unfold triVal. cbn [exA exB exC triObj ow]. lra.
Qed.
Example C68_example : exists st, runJobs3 exPC s3clear (auto3Jobs exCats) st /\
  k3acc (s3self st) TNtri 1%Z = 1 /\ k3acc (s3self st) TWeight 1%Z = 1 /\ k3tot (s3self st) = 9/2.
Proof.
  destruct exCats_ok as [ND [NT [W [NE [SK _]]]]]. pose proof exPC_exact as X. destruct exSum as [E1 E2].
  destruct (proj1 (C68_exists exPC O0 0 0 0 exCats [] [] (e3V _ X) SK eq_refl ltac:(intros p; rewrite app_nil_r; auto))) as [st HR].
  destruct (C65_exists (triR 0) (allRows exCats) cleared3 (e3V _ X) SK eq_refl ltac:(discriminate)) as [s HS].
  exists st. split; auto.
  destruct (C68_auto exPC exCats TNtri 1 st s X (W _) NT ND ltac:(cbn; lia) HR HS) as [_ ->].
  destruct (C68_auto exPC exCats TWeight 1 st s X (W _) NT ND ltac:(cbn; lia) HR HS) as [_ ->].
  split; auto. split; auto. rewrite (C68_auto_tot exPC exCats st eq_refl ND HR).
  change (allRows exCats) with [exA; exB; exC]. unfold sumw. cbn [sumR exA exB exC triObj ow]. lra.
Qed.
(** Under MPI a run exists for every number of processes. *)
Lemma auto3_NE cats : (forall p, In p cats -> pobjs p <> []) -> forall J, In J (auto3Jobs cats) -> callNE (jcall J).
Proof.
  intros NE J HJ.
  apply in_auto3Jobs in HJ as [[a [Ha ->]]|[[a [b [Ha [Hb [_ [->| ->]]]]]]|[a [b [c [Ha [Hb [Hc [_ ->]]]]]]]]]; simpl; auto.
  - split; [discriminate|]. split; auto. intros x E'. injection E' as <-. simpl. auto.
  - split; [discriminate|]. split; auto. intros x E'. injection E' as <-. simpl. auto.
  - split; auto. split; intros x E'; injection E' as <-; simpl; auto.
Qed.
Lemma choice_ranks {A} (Q : Z -> A -> Prop) (d : A) (l : list Z) : (forall r, In r l -> exists x, Q r x) ->
  exists st : Z -> A, forall r, In r l -> Q r (st r).
Proof.
  induction l as [|z t IH]; intro H; [exists (fun _ => d); intros r []|].
  destruct IH as [st Hst]; [intros; apply H; right; auto|]. destruct (H z) as [x Hx]; [left; auto|].
  exists (fun r => if Z.eq_dec r z then x else st r). intros r [<-|Hr].
  - destruct Z.eq_dec; [auto|congruence].
  - destruct Z.eq_dec as [->|]; auto.
Qed.
Theorem C68_mpi_exists C n size cats : validRUV (p3P C) -> slopOK3 (p3P C) -> tmetric (p3P C) = Euclidean ->
  (forall p, In p cats -> pobjs p <> []) -> exists st, mpi3Run C (mine3Auto n size) size (auto3Jobs cats) st.
Proof.
  intros V S E NE.
  destruct (choice_ranks (fun r s => runJobs3 C s3clear (filter (fun J => mine3Auto n size r (jmine J)) (auto3Jobs cats)) s)
    s3clear (ranks size)) as [st Hst].
  - intros r _. apply jobs3_exist; auto. intros J HJ. apply filter_In in HJ as [HJ _]. eapply auto3_NE; eauto.
  - eexists. exists st. split; [exact Hst|reflexivity].
Qed.
Example C68_mpi_example : exists st, mpi3Run exPC (mine3Auto 2 2) 2 (auto3Jobs exCats) st /\ k3acc (s3self st) TNtri 1%Z = 1.
Proof.
  destruct exCats_ok as [ND [NT [W [NE [SK I]]]]]. pose proof exPC_exact as X.
  destruct (C68_mpi_exists exPC 2 2 exCats (e3V _ X) SK eq_refl NE) as [st HR]. exists st. split; auto.
  assert (E : allRows exCats ++ allRows [] ++ allRows [] = allRows exCats) by reflexivity.
  destruct (C68_mpi exPC O1 2 2 2 2 TNtri 1 exCats [] [] X ltac:(lia) ltac:(cbn; lia) I ltac:(intros p []) ltac:(intros p [])
    ND ltac:(constructor)) as [A _]; [rewrite E; auto|rewrite E; auto|].
  destruct (A st HR) as [-> _]. apply exSum.
Qed.

(** ** patch_method='local': the same triangles, another total *)
Lemma local_runs C cats : validRUV (p3P C) -> slopOK3 (p3P C) -> tmetric (p3P C) = Euclidean ->
  (forall p, In p cats -> pobjs p <> []) -> exists st, runJobs3 C s3clear (local3Auto (p3R C) cats) st.
Proof.
  intros V S E NE. apply jobs3_exist; auto. intros J HJ. apply in_map_iff in HJ as [p [<- Hp]]. simpl.
  split; [discriminate|]. split; auto. intros x E'. unfold expand3, expandedPatch in E'. cbv zeta in E'.
  match type of E' with match ?x with [] => _ | _ => _ end = _ => destruct x; [discriminate|] end.
  injection E' as <-. simpl. discriminate.
Qed.
Theorem C69_exists C cats : validRUV (p3P C) -> slopOK3 (p3P C) -> tmetric (p3P C) = Euclidean ->
  (forall p, In p cats -> pobjs p <> []) -> exists st, runJobs3 C s3clear (local3Auto (p3R C) cats) st.
Proof. apply local_runs. Qed.
Example C69_example : exists st, runJobs3 exPC s3clear (local3Auto (p3R exPC) exCats) st /\
  k3acc (s3self st) TNtri 1%Z = 1 /\ tcoord (p3P exPC) <> ThreeD.
Proof.
  destruct exCats_ok as [ND [NT [W [NE [SK _]]]]]. pose proof exPC_exact as X.
  destruct (local_runs exPC exCats (e3V _ X) SK eq_refl NE) as [st HR]. exists st. split; auto.
  split; [|discriminate].
  destruct (C69_auto exPC exCats TNtri 1 st X ltac:(discriminate) (W _) ltac:(cbn; lia) HR) as [-> _]. apply exSum.
Qed.
(** tot is three times what process computes for the same catalog without patches or with
    patch_method='global', while the triangles are the same; calculateZeta then returns -2/3
    instead of 0 when one side was made with 'local' and the other was not. *)
Theorem C69_tot_refuted : exists C cats st st',
  exact3 (p3P C) /\ p3NNN C = true /\ NoDup (map pidx cats) /\ noTies (allRows cats) /\
  runJobs3 C s3clear (local3Auto (p3R C) cats) st /\ runJobs3 C s3clear (auto3Jobs cats) st' /\
  (forall f k, (0 <= k < tntot (p3P C))%Z -> k3acc (s3self st) f k = k3acc (s3self st') f k) /\
  k3tot (s3self st) = 3 * k3tot (s3self st') /\ k3tot (s3self st') <> 0 /\
  zetaOf (s3self st') (s3self st') None 1 = 0 /\
  zetaOf (s3self st') (s3self st) None 1 = 2 /\
  zetaOf (s3self st) (s3self st') None 1 = - (2/3).
Proof.
  destruct exCats_ok as [ND [NT [W [NE [SK _]]]]]. pose proof exPC_exact as X. destruct exSum as [E1 E2].
  destruct (local_runs exPC exCats (e3V _ X) SK eq_refl NE) as [st HR].
  destruct C68_example as [st' [HR' [_ [A2 A3]]]].
  assert (EQ : forall f k, (0 <= k < tntot (p3P exPC))%Z -> k3acc (s3self st) f k = k3acc (s3self st') f k).
  { intros f k Hk. destruct (C69_auto exPC exCats f k st X ltac:(discriminate) (W _) Hk HR) as [_ [B _]]. apply B; auto. }
  assert (T : k3tot (s3self st) = 27/2).
  { rewrite (C69_local_tot exPC exCats st (e3V _ X) ltac:(discriminate) eq_refl NE HR).
    change (allRows exCats) with [exA; exB; exC]. unfold sumw. cbn [sumR exA exB exC triObj ow]. lra. }
  exists exPC, exCats, st, st'. split; auto. split; [reflexivity|]. split; auto. split; auto. split; auto. split; auto.
  split; auto. split; [rewrite T, A3; lra|]. split; [rewrite A3; lra|].
  assert (B : k3acc (s3self st) TWeight 1%Z = 1) by (rewrite EQ; auto; cbn; lia).
  unfold zetaOf. rewrite A2, A3, B, T. destruct Req_EM_T as [Q|_]; [lra|]. repeat split; field.
Qed.

(** ** Results and jackknife: an example *)
Example C70_example : exists st, runJobs3 exPC s3clear (auto3Jobs exCats) st /\
  k3acc (k3sum (p3P exPC) (map snd (s3res st))) TNtri 1%Z = 1 /\
  k3acc (jackSum (p3P exPC) 1 (s3res st)) TNtri 1%Z = 0.
Proof.
  destruct exCats_ok as [ND [NT [W [NE [SK _]]]]]. pose proof exPC_exact as X.
  destruct C68_example as [st [HR [A1 _]]]. exists st. split; auto.
  destruct (C70_results exPC exCats TNtri 1 st X (W _) NT ND ltac:(cbn; lia) HR) as [_ [-> _]]. split; auto.
  destruct (C70_jackknife exPC exCats 1 TNtri 1 st X (W _) NT ND ltac:(cbn; lia) HR) as [-> _].
  change (allRows _) with [exA; exB]. cbn. lra.
Qed.

(** calculateZeta (nnncorrelation.py: calculateZeta): zero when the randoms have the same relative
    counts as the data; only relative counts of the randoms matter. *)
Definition k3scale (s : R) (c : corr3) : corr3 := mkK3 (fun f k => s * k3acc c f k) (s * k3tot c).
Theorem C70_zeta_scale s ddd rrr k : s <> 0 -> k3tot rrr <> 0 ->
  zetaOf ddd (k3scale s rrr) None k = zetaOf ddd rrr None k /\
  (forall drr rdd, k3tot drr <> 0 -> k3tot rdd <> 0 ->
     zetaOf ddd (k3scale s rrr) (Some (drr, rdd)) k = zetaOf ddd rrr (Some (drr, rdd)) k /\
     zetaOf ddd rrr (Some (k3scale s drr, rdd)) k = zetaOf ddd rrr (Some (drr, rdd)) k /\
     zetaOf ddd rrr (Some (drr, k3scale s rdd)) k = zetaOf ddd rrr (Some (drr, rdd)) k) /\
  (k3tot ddd <> 0 -> k3acc ddd TWeight k / k3tot ddd = k3acc rrr TWeight k / k3tot rrr ->
     zetaOf ddd rrr None k = 0).
Proof.
  intros Hs Ht.
  assert (E : forall c, k3tot c <> 0 -> k3acc (k3scale s c) TWeight k * (k3tot ddd / k3tot (k3scale s c)) =
    k3acc c TWeight k * (k3tot ddd / k3tot c)).
  { intros c Hc. unfold k3scale. cbn [k3acc k3tot]. field. auto. }
  assert (Z : (if Req_EM_T (k3acc (k3scale s rrr) TWeight k) 0 then true else false) =
    (if Req_EM_T (k3acc rrr TWeight k) 0 then true else false)).
  { unfold k3scale; cbn [k3acc]. destruct Req_EM_T as [Q|Q], Req_EM_T as [Q'|Q']; auto; exfalso.
    - apply Rmult_integral in Q. tauto. - apply Q. rewrite Q'. ring. }
  split; [|split].
  - unfold zetaOf. cbv zeta. rewrite E by auto.
    destruct Req_EM_T, Req_EM_T; auto; discriminate.
  - intros drr rdd H1 H2. unfold zetaOf. cbv zeta. rewrite !E by auto. split; auto.
    destruct Req_EM_T, Req_EM_T; auto; discriminate.
  - intros Hd HE. unfold zetaOf. cbv zeta.
    replace (k3acc ddd TWeight k - k3acc rrr TWeight k * (k3tot ddd / k3tot rrr)) with 0; [unfold Rdiv; ring|].
    assert (k3acc ddd TWeight k = k3acc rrr TWeight k / k3tot rrr * k3tot ddd) as ->; [rewrite <- HE; field; auto|].
    field. auto.
Qed.

(** ** Periodic metric: patches at opposite sides of the box are skipped *)
Definition perP : tparams :=
  mkT (Periodic 100 100 100) Flat LogRUV 1 10 1 (ln 10) 0 1 0 1 1 1 0 0 1 1 (1 - 0) 0.
Definition perR : runcfg3 := mkR3 perP Mean 0 0.
Definition perA := triObj 0 0 0. Definition perB := triObj 97 0 1. Definition perC := triObj 0 96 2.
Lemma perP_valid : validRUV perP.
Proof.
  pose proof ln10_pos. constructor; cbn; auto; try lra; try lia. rewrite Rmult_1_l, Rmult_1_l, exp_ln; lra.
Qed.
Lemma wrap1_val per x y (n : Z) : 0 < per -> y = x + IZR n * per -> - per / 2 < y < per / 2 -> wrap1 per x = y.
Proof.
  intros Hp E H. destruct (wrap1_spec per x Hp) as [[j Ej] B]. rewrite Ej in B |- *.
  assert (j = n) as ->; [|lra]. subst y.
  assert (-1 < IZR j - IZR n < 1) by (split; apply Rmult_lt_reg_r with per; lra).
  rewrite <- minus_IZR in *. destruct H0 as [H0 H1]. apply (lt_IZR (-1)) in H0. apply (lt_IZR _ 1) in H1. lia.
Qed.
Lemma per_distSq x1 y1 x2 y2 x y (n m : Z) : x = x1 - x2 + IZR n * 100 -> y = y1 - y2 + IZR m * 100 ->
  -50 < x < 50 -> -50 < y < 50 ->
  distSq (Periodic 100 100 100) (mkpos x1 y1 0) (mkpos x2 y2 0) = x * x + y * y.
Proof.
  intros Ex Ey Hx Hy. cbn [distSq]. unfold wrap, psub. cbn [px py pz].
  rewrite (wrap1_val 100 (x1 - x2) x n), (wrap1_val 100 (y1 - y2) y m), (wrap1_val 100 (0 - 0) 0 0) by lra.
  unfold normSq. cbn [px py pz]. ring.
Qed.
Lemma per_dists : distSq (Periodic 100 100 100) (opos perA) (opos perB) = 3 * 3 /\
  distSq (Periodic 100 100 100) (opos perA) (opos perC) = 4 * 4 /\
  distSq (Periodic 100 100 100) (opos perB) (opos perC) = 5 * 5.
Proof.
  unfold perA, perB, perC, triObj. cbn [opos].
  rewrite (per_distSq 0 0 97 0 3 0 1 0), (per_distSq 0 0 0 96 0 4 0 1), (per_distSq 97 0 0 96 (-3) 4 (-1) 1) by lra.
  repeat split; lra.
Qed.
Theorem C68_periodic_refuted : exists C a b c s k,
  validRUV (p3P C) /\ noSlop3 (p3P C) /\ tmetric (p3P C) = Periodic 100 100 100 /\
  isPeriodicSep 100 100 100 (opos a) (opos b) 3 /\ isPeriodicSep 100 100 100 (opos a) (opos c) 4 /\
  isPeriodicSep 100 100 100 (opos b) (opos c) 5 /\
  (0 <= k < tntot (p3P C))%Z /\
  runCross3 (p3R C) O3 [a] [b] [c] cleared3 s /\ s TNtri k = 1 /\
  forall i j l st, runJobs3 C s3clear (cross3Jobs O3 2 2 2 [mkpatch i [a]] [mkpatch j [b]] [mkpatch l [c]]) st ->
    forall f k', k3acc (s3self st) f k' = 0.
Proof.
  destruct per_dists as [D3 [D2 D1]].
  set (cc := ccw (Periodic 100 100 100) Flat (opos perA) (opos perB) (opos perC)).
  set (k := place perP 0 0 0 cc).
  assert (HB : inBins perP 0 0 0 5 4 3).
  { apply (shapeIn_iff perP perP_valid). change (shapeIn perP 0 0 0 5 4 3) with (shapeIn (triP 0) 0 0 0 5 4 3).
    apply shape_one; lra. }
  assert (RG : rangeRUV perP O3 (opos perA) (opos perB) (opos perC) 5 4 3 = Some (3/4, sgnv cc ((5 - 4) / 3), k)).
  { apply range_iff; [apply perP_valid|lra|]. exists 0%Z, 0%Z, 0%Z. auto. }
  assert (IR : inR perP 5 4 3).
  { unfold inR. cbn [perP tminsep tmaxsep tminu tmaxu tminv tmaxv]. lra. }
  assert (ST : stopRUV perP O3 (5 * 5) (4 * 4) (3 * 3) 0 0 0 = false).
  { destruct stopRUV eqn:ST; auto. exfalso. pose proof perP_valid as V.
    apply (stopRUV_sound perP (vt_minsep _ V) (vt_minu _ V) (maxu_01 perP V)) with (e1 := 5) (e2 := 4) (e3 := 3) in ST; auto;
      try lra; try (apply minu_01; auto); try (apply maxv_0; auto);
      try (rewrite Rminus_eq_0, Rabs_R0; lra); try (apply pos_maxsep; auto); try (cbn; lra); simpl; auto. }
  assert (SG : singleRUV perP (5 * 5) (4 * 4) (3 * 3) 0 0 0 = None).
  { unfold singleRUV. assert (Q : Rltb 0 0 = false) by (apply Rltb_f; lra). rewrite !Q. cbn [andb orb]. reflexivity. }
  set (e := mkev3 (lf perA) (lf perB) (lf perC) (sqrt (5 * 5)) (sqrt (4 * 4)) (sqrt (3 * 3)) (3/4) (sgnv cc ((5 - 4) / 3)) k).
  assert (ER : run111 perP O3 (lf perA) (lf perB) (lf perC) = Some [e]).
  { unfold run111. change (fuel3 _ _ _) with 0%nat. cbn [process111].
    change (getW (lf perA)) with 1. change (getW (lf perB)) with 1. change (getW (lf perC)) with 1.
    assert (Q1 : Reqb 1 0 = false) by (apply Reqb_f; lra). rewrite !Q1. cbn [orb].
    assert (Q0 : Reqb 0 0 = true) by (apply Reqb_t; auto). rewrite Q0.
    change (tbt perP) with LogRUV. change (tmetric perP) with (Periodic 100 100 100). cbv zeta.
    change (getPos (lf perA)) with (opos perA). change (getPos (lf perB)) with (opos perB).
    change (getPos (lf perC)) with (opos perC). rewrite D1, D2, D3.
    assert (decide3 perP O3 (lf perA) (lf perB) (lf perC) (5 * 5) (4 * 4) (3 * 3) =
      Direct3 (3/4) (sgnv cc ((5 - 4) / 3)) k) as ->; [|reflexivity].
    unfold decide3. change (tbt perP) with LogRUV. change (csize (lf perA)) with 0. change (csize (lf perB)) with 0.
    change (csize (lf perC)) with 0. rewrite ST, SG, !sqrt_square by lra.
    change (getPos (lf perA)) with (opos perA). change (getPos (lf perB)) with (opos perB).
    change (getPos (lf perC)) with (opos perC). rewrite RG. reflexivity. }
  assert (LF : forall o, buildField (field3 perR) [o] [lf o]).
  { intro o. unfold buildField. exists [[o]]. split; [apply top_stop; left; reflexivity|].
    constructor; [apply b_leaf|constructor]. }
  exists (mkPC3 perR true), perA, perB, perC, (parallel3 cleared3 [[[e]]]), k.
  split; [apply perP_valid|]. split; [repeat split; cbn; lra|]. split; [reflexivity|].
  assert (IP : forall a b d, 0 <= d -> distSq (Periodic 100 100 100) (opos a) (opos b) = d * d ->
    isPeriodicSep 100 100 100 (opos a) (opos b) d).
  { intros a b d Hd E. pose proof (C12_periodic_distance 100 100 100 (opos a) (opos b) ltac:(lra) ltac:(lra) ltac:(lra)) as Q.
    rewrite E, sqrt_square in Q by auto. exact Q. }
  split; [apply IP; auto; lra|]. split; [apply IP; auto; lra|]. split; [apply IP; auto; lra|].
  split; [unfold k; destruct cc; split; reflexivity || (cbn; discriminate)|].
  split; [|split].
  - exists [lf perA], [lf perB], [lf perC]. split; [apply LF|]. split; [apply LF|]. split; [apply LF|].
    exists [[e]], [[[e]]]. split; [|split; [|reflexivity]].
    + cbn [cross3Iters map]. change (r3P (p3R (mkPC3 perR true))) with perP. rewrite ER. reflexivity.
    + unfold schedule. simpl. auto.
  - unfold parallel3, thread3. cbn [fold_left]. unfold acc3Add, finish3, cleared3. cbn [tk e].
    change (tval TNtri e) with (1 * 1 * 1). rewrite Z.eqb_refl. lra.
  - assert (T : triv3 perP [perA] [perB] [perC] = true).
    { unfold triv3. cbv zeta. rewrite !meanPos_one.
      rewrite !(maxDist_at (opos perA) perA), !(maxDist_at (opos perB) perB), !(maxDist_at (opos perC) perC) by reflexivity.
      apply Rltb_t. change (tmaxsep perP) with 10.
      assert (95 <= norm (psub (opos perB) (opos perC))) by (left; apply lt_sqrt_sq; unfold normSq, psub; cbn; lra).
      assert (95 <= norm (psub (opos perC) (opos perA))) by (left; apply lt_sqrt_sq; unfold normSq, psub; cbn; lra).
      assert (95 <= norm (psub (opos perA) (opos perB))) by (left; apply lt_sqrt_sq; unfold normSq, psub; cbn; lra).
      unfold mid3. eapply Rlt_le_trans; [|apply Rmax_l]. apply Rlt_le_trans with 95; [lra|]. apply Rmin_glb; auto. }
    intros i j l st HR f k'. unfold cross3Jobs in HR. cbn [flat_map map app pobjs] in HR.
    inversion HR as [|? ? st1 ? ? [temp [HT ->]] HR']; subst. inversion HR'; subst.
    cbn [jcall job123 temp3 catOf pobjs fst] in HT. change (p3P (mkPC3 perR true)) with perP in HT. rewrite T in HT. subst temp.
    unfold add3. cbv zeta. match goal with |- context [if ?b then mkS3 _ _ else _] => destruct b end; cbn [s3self].
    + unfold k3add. cbn [k3acc s3clear s3self k3clear]. destruct anyTri; cbn [k3acc]; unfold acc3Add, cleared3; lra.
    + reflexivity.
Qed.
