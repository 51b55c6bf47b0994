(** MPI, existence of runs, and the results dict of three-point patch processing. *)
From Coq Require Import Reals Lra Lia List ZArith Bool Permutation Psatz.
From Verif Require Import Base Geometry Tree Traverse Run Corr Patch Spec SpecRun GeomFacts SumFacts TreeFacts
  BinFacts TravFacts Exact MetricFacts Cover Lift Runs Examples Account PropsCount PropsRun PropsCorr PatchFacts
  PropsPatch PropsLocal Corr3 TriCover TriStop SpecTri TriFacts TriSpec PropsTri TriMirror PropsTri2 Patch3 Patch3Facts Patch3Sum.
Import ListNotations.
Open Scope R_scope.

(** ** MPI *)
Definition assigns3 (mine : Z -> key3 -> bool) (size : Z) (Js : list job3) : Prop :=
  forall J, In J Js -> exists r, (0 <= r < size)%Z /\ mine r (jmine J) = true /\
    forall r', (0 <= r' < size)%Z -> mine r' (jmine J) = true -> r' = r.
Lemma ranks_sum3 (v : job3 -> R) mine size Js : assigns3 mine size Js ->
  sumR (fun r => sumR v (filter (fun J => mine r (jmine J)) Js)) (ranks size) = sumR v Js.
Proof.
  intro HA. induction Js as [|J Js IH]; simpl.
  - apply sumR_0. auto.
  - rewrite <- IH by (intros J' HJ'; apply HA; right; auto).
    destruct (HA J (or_introl eq_refl)) as [r [Hr [Hm HU]]].
    rewrite <- (sumR_single (ranks size) (fun r0 => mine r0 (jmine J)) (v J) r); auto.
    + rewrite <- sumR_plus. apply sumR_ext. intros r0 _. destruct (mine r0 (jmine J)); simpl; lra.
    + apply NoDup_ranks. + apply in_ranks; auto.
    + intros b Hb. apply in_ranks in Hb. auto.
Qed.
Lemma collect3_get C f k st0 others : In k (places (p3P C)) -> Forall (fun s => cons3 (k3acc (s3self s))) others ->
  k3acc (s3self (mpi3Collect C st0 others)) f k =
  k3acc (s3self st0) f k + sumR (fun s => k3acc (s3self s) f k) others.
Proof.
  intros Hk HF. revert st0. induction HF as [|s l Hs HF IH]; intro st0; simpl; [lra|].
  unfold mpi3Collect in *. rewrite IH. cbn [s3self]. rewrite k3add_get by auto. lra.
Qed.
Lemma collect3_tot C st0 others :
  k3tot (s3self (mpi3Collect C st0 others)) = k3tot (s3self st0) + sumR (fun s => k3tot (s3self s)) others.
Proof.
  revert st0. induction others as [|s l IH]; intro st0; simpl; [lra|].
  unfold mpi3Collect in *. rewrite IH. cbn [s3self]. simpl. lra.
Qed.
Lemma mpi3_get C f k mine size Js final : okMin C -> In k (places (p3P C)) -> (0 < size)%Z ->
  assigns3 mine size Js -> (forall J, In J Js -> callExact C f k (jcall J)) ->
  mpi3Run C mine size Js final ->
  k3acc (s3self final) f k = sumR (fun J => callVal (p3P C) f k (jcall J)) Js.
Proof.
  intros H0 Hk Hs HA HE [st [HR ->]].
  assert (HV : forall r, In r (ranks size) -> k3acc (s3self (st r)) f k =
     sumR (fun J => callVal (p3P C) f k (jcall J)) (filter (fun J => mine r (jmine J)) Js)).
  { intros r Hr.
    assert (HE' : forall J, In J (filter (fun J => mine r (jmine J)) Js) -> callExact C f k (jcall J))
      by (intros J HJ; apply filter_In in HJ; apply HE; tauto).
    rewrite (jobs3_get C f k _ _ _ H0 Hk HE' (HR r Hr)). simpl. unfold cleared3. lra. }
  rewrite collect3_get; auto.
  - rewrite HV by (rewrite ranks_cons by auto; left; auto). rewrite sumR_map.
    rewrite (sumR_ext _ (fun r => sumR (fun J => callVal (p3P C) f k (jcall J)) (filter (fun J => mine r (jmine J)) Js)) (tl (ranks size))).
    + rewrite <- (ranks_sum3 _ mine size Js HA). rewrite (ranks_cons size) at 2 by auto. simpl. lra.
    + intros r Hr. apply HV. rewrite ranks_cons by auto; right; auto.
  - apply Forall_forall. intros s Hin. apply in_map_iff in Hin as [r [<- Hr]].
    eapply jobs3_cons; [exact H0| |apply HR; rewrite ranks_cons by auto; right; auto]. apply cleared3_cons.
Qed.
Lemma mpi3_tot C mine size Js final : p3NNN C = true -> (0 < size)%Z -> assigns3 mine size Js ->
  mpi3Run C mine size Js final -> k3tot (s3self final) = sumR (jobTot3 C) Js.
Proof.
  intros HN Hs HA [st [HR ->]].
  assert (HV : forall r, In r (ranks size) -> k3tot (s3self (st r)) =
     sumR (jobTot3 C) (filter (fun J => mine r (jmine J)) Js)).
  { intros r Hr. rewrite (jobs3_tot C _ _ _ HN (HR r Hr)). simpl. lra. }
  rewrite collect3_tot. rewrite HV by (rewrite ranks_cons by auto; left; auto). rewrite sumR_map.
  rewrite (sumR_ext _ (fun r => sumR (jobTot3 C) (filter (fun J => mine r (jmine J)) Js)) (tl (ranks size))).
  - rewrite <- (ranks_sum3 _ mine size Js HA). rewrite (ranks_cons size) at 2 by auto. simpl. lra.
  - intros r Hr. apply HV. rewrite ranks_cons by auto; right; auto.
Qed.
(** The three job splits. *)
Lemma mine3Auto_once n size i j k : (0 < size)%Z -> (0 <= i < n)%Z -> (0 <= j < n)%Z -> (0 <= k < n)%Z ->
  exists r, (0 <= r < size)%Z /\ mine3Auto n size r (i, j, k) = true /\
    forall r', (0 <= r' < size)%Z -> mine3Auto n size r' (i, j, k) = true -> r' = r.
Proof.
  intros Hs Hi Hj Hk.
  destruct (inMine_exists n size i Hs Hi) as [ri [Ri Mi]].
  destruct (inMine_exists n size j Hs Hj) as [rj [Rj Mj]].
  destruct (inMine_exists n size k Hs Hk) as [rk [Rk Mk]].
  assert (Ui : forall r, inMine n size r i = true -> r = ri) by (intros; apply (inMine_unique n size i); auto; lia).
  assert (Uj : forall r, inMine n size r j = true -> r = rj) by (intros; apply (inMine_unique n size j); auto; lia).
  assert (Uk : forall r, inMine n size r k = true -> r = rk) by (intros; apply (inMine_unique n size k); auto; lia).
  assert (Fi : forall r, r <> ri -> inMine n size r i = false) by (intros r Hr; destruct (inMine n size r i) eqn:E; auto; exfalso; auto).
  assert (Fj : forall r, r <> rj -> inMine n size r j = false) by (intros r Hr; destruct (inMine n size r j) eqn:E; auto; exfalso; auto).
  assert (Fk : forall r, r <> rk -> inMine n size r k = false) by (intros r Hr; destruct (inMine n size r k) eqn:E; auto; exfalso; auto).
  pose proof (Z.mod_pos_bound i 3 ltac:(lia)) as HM.
  set (m := (i mod 3)%Z) in *.
  set (x := if (m =? 0)%Z then ri else if (m =? 1)%Z then rj else rk).
  exists x. split; [unfold x; destruct (m =? 0)%Z, (m =? 1)%Z; auto|]. unfold mine3Auto. fold m. split.
  - destruct (inMine n size x i && inMine n size x j && inMine n size x k) eqn:A; auto.
    destruct (Z.eqb_spec m 0) as [E0|E0].
    + assert (Hx : inMine n size x i = true) by (unfold x; exact Mi). rewrite Hx. auto.
    + destruct (Z.eqb_spec m 1) as [E1|E1].
      * assert (Hx : inMine n size x j = true) by (unfold x; exact Mj). rewrite Hx.
        destruct (inMine n size x i); auto.
      * assert (Hx : inMine n size x k = true) by (unfold x; exact Mk). rewrite Hx.
        rewrite (proj2 (Z.eqb_eq m 2)) by lia.
        destruct (inMine n size x i), (inMine n size x j); reflexivity.
  - intros r' _. destruct (inMine n size r' i && inMine n size r' j && inMine n size r' k) eqn:A.
    + intros _. apply andb_true_iff in A as [A A3]. apply andb_true_iff in A as [A1 A2]. unfold x.
      destruct (m =? 0)%Z, (m =? 1)%Z; auto.
    + destruct (negb _ && _ && _); [discriminate|]. unfold x.
      destruct (Z.eqb_spec m 0) as [E0|E0].
      * rewrite E0. cbn. rewrite !orb_false_r. auto.
      * destruct (Z.eqb_spec m 1) as [E1|E1].
        -- rewrite E1. cbn. rewrite !orb_false_r. auto.
        -- cbn. rewrite andb_true_iff. intros [_ A']. auto.
Qed.
Lemma mine3Cross12_once n1 n2 size i j k : (0 < size)%Z -> (0 <= i < n1)%Z -> (0 <= j < n2)%Z -> (0 <= k < n2)%Z ->
  exists r, (0 <= r < size)%Z /\ mine3Cross12 n1 n2 size r (i, j, k) = true /\
    forall r', (0 <= r' < size)%Z -> mine3Cross12 n1 n2 size r' (i, j, k) = true -> r' = r.
Proof.
  intros Hs Hi Hj Hk. unfold mine3Cross12. destruct (Z.eqb_spec n1 (Z.max n1 n2)) as [E|E].
  - destruct (inMine_exists (Z.max n1 n2) size i Hs ltac:(lia)) as [r [Hr Hm]]. exists r. split; auto. split; auto.
    intros r' _ H'. apply (inMine_unique (Z.max n1 n2) size i); auto. lia.
  - destruct (myJobAuto_unique (Z.max n1 n2) size j k Hs ltac:(lia) ltac:(lia)) as [r [Hr [Hm HU]]].
    exists r. split; [exact Hr|]. split; [exact Hm|]. intros r' _ H'. apply HU. exact H'.
Qed.
Lemma mine3Cross_once n1 n2 n3 size i j k : (0 < size)%Z -> (0 <= i < n1)%Z -> (0 <= j < n2)%Z -> (0 <= k < n3)%Z ->
  exists r, (0 <= r < size)%Z /\ mine3Cross n1 n2 n3 size r (i, j, k) = true /\
    forall r', (0 <= r' < size)%Z -> mine3Cross n1 n2 n3 size r' (i, j, k) = true -> r' = r.
Proof.
  intros Hs Hi Hj Hk. unfold mine3Cross. set (n := Z.max n1 (Z.max n2 n3)).
  set (m := if (n1 =? n)%Z then i else if (n2 =? n)%Z then j else k).
  assert (Hm : (0 <= m < n)%Z).
  { unfold m. destruct (Z.eqb_spec n1 n), (Z.eqb_spec n2 n); unfold n in *; lia. }
  destruct (inMine_exists n size m Hs Hm) as [r [Hr Hm']]. exists r. split; auto. split; auto.
  intros r' _ H'. apply (inMine_unique n size m); auto. lia.
Qed.

(** ** Membership in the loops *)
Lemma in_auto3Jobs cats J : In J (auto3Jobs cats) ->
  (exists a, In a cats /\ J = mkJ3 (lkey a) (lkey a) (CAuto (catOf a)) true) \/
  (exists a b, In a cats /\ In b cats /\ (pidx a < pidx b)%Z /\
     (J = job12 (pidx a, pidx b, pidx b) (pidx a, pidx b, pidx b) O0 a b false \/
      J = job12 (pidx a, pidx b, pidx b) (pidx a, pidx a, pidx b) O0 b a false)) \/
  (exists a b c, In a cats /\ In b cats /\ In c cats /\ (pidx a < pidx b < pidx c)%Z /\
     J = job123 (pidx a, pidx b, pidx c) O0 a b c false).
Proof.
  unfold auto3Jobs. rewrite in_flat_map. intros [a [Ha [<-|H]]]; [left; exists a; auto|right].
  apply in_flat_map in H as [b [Hb H]]. apply filter_In in Hb as [Hb HL]. apply in_rev in Hb. apply Z.ltb_lt in HL.
  destruct H as [<-|[<-|H]]; [left; exists a, b; auto|left; exists a, b; auto|right].
  apply in_map_iff in H as [c [<- Hc]]. apply filter_In in Hc as [Hc HL']. apply Z.ltb_lt in HL'.
  exists a, b, c. auto 8.
Qed.
Lemma in_cross12Jobs O n1 n2 cats1 cats2 J : In J (cross12Jobs O n1 n2 cats1 cats2) ->
  exists a b, In a cats1 /\ In b cats2 /\
   (J = job12 (pidx a, pidx b, pidx b) (pidx a, pidx b, pidx b) O a b ((pidx a =? pidx b) || (n1 =? 1) || (n2 =? 1))%Z \/
    exists c, In c cats2 /\ (pidx b < pidx c)%Z /\ J = job123 (pidx a, pidx b, pidx c) O a b c false).
Proof.
  unfold cross12Jobs. rewrite in_flat_map. intros [a [Ha H]]. apply in_flat_map in H as [b [Hb H]].
  exists a, b. split; auto. split; auto. destruct H as [<-|H]; auto. right.
  apply in_map_iff in H as [c [<- Hc]]. apply filter_In in Hc as [Hc HL]. apply in_rev in Hc. apply Z.ltb_lt in HL.
  exists c. auto.
Qed.
Lemma in_cross3Jobs O n1 n2 n3 cats1 cats2 cats3 J : In J (cross3Jobs O n1 n2 n3 cats1 cats2 cats3) ->
  exists a b c, In a cats1 /\ In b cats2 /\ In c cats3 /\ J = job123 (pidx a, pidx b, pidx c) O a b c
      (((pidx a =? pidx b) && (pidx b =? pidx c)) || (n1 =? 1) || (n2 =? 1) || (n3 =? 1))%Z.
Proof.
  unfold cross3Jobs. rewrite in_flat_map. intros [a [Ha H]]. apply in_flat_map in H as [b [Hb H]].
  apply in_map_iff in H as [c [<- Hc]]. exists a, b, c. auto.
Qed.
Definition idxIn (n : Z) (cats : list patch) : Prop := forall p, In p cats -> (0 <= pidx p < n)%Z.
Lemma auto3_assigns n size cats : (0 < size)%Z -> idxIn n cats -> assigns3 (mine3Auto n size) size (auto3Jobs cats).
Proof.
  intros Hs HI J HJ. apply in_auto3Jobs in HJ as [[a [Ha ->]]|[[a [b [Ha [Hb [_ [->| ->]]]]]]|[a [b [c [Ha [Hb [Hc [_ ->]]]]]]]]];
    cbn [jmine job12 job123]; unfold lkey; apply mine3Auto_once; auto.
Qed.
Lemma cross12_assigns O n1 n2 size cats1 cats2 : (0 < size)%Z -> idxIn n1 cats1 -> idxIn n2 cats2 ->
  assigns3 (mine3Cross12 n1 n2 size) size (cross12Jobs O n1 n2 cats1 cats2).
Proof.
  intros Hs H1 H2 J HJ. apply in_cross12Jobs in HJ as [a [b [Ha [Hb [->|[c [Hc [_ ->]]]]]]]];
    cbn [jmine job12 job123]; apply mine3Cross12_once; auto.
Qed.
Lemma cross3_assigns O n1 n2 n3 size cats1 cats2 cats3 : (0 < size)%Z -> idxIn n1 cats1 -> idxIn n2 cats2 -> idxIn n3 cats3 ->
  assigns3 (mine3Cross n1 n2 n3 size) size (cross3Jobs O n1 n2 n3 cats1 cats2 cats3).
Proof.
  intros Hs H1 H2 H3 J HJ. apply in_cross3Jobs in HJ as [a [b [c [Ha [Hb [Hc ->]]]]]].
  cbn [jmine job123]. apply mine3Cross_once; auto.
Qed.

(** ** All calls of the loops are exact *)
Lemma weights3_sub f l l' : (forall o, In o l' -> In o l) -> weights3 f l -> weights3 f l'.
Proof. intros HS H o Ho. apply H; auto. Qed.
Lemma noTies_sub l l' : (forall o, In o l' -> In o l) -> noTies l -> noTies l'.
Proof. intros HS H a b c Ha Hb Hc. apply H; auto. Qed.
Lemma calls_exact C f k rows Js : exact3 (p3P C) -> weights3 f rows ->
  ((exists J, In J Js /\ callOrd (jcall J) = O0) -> noTies rows) ->
  (forall J, In J Js -> call12ok (jcall J) /\ forall o, In o (callRows (jcall J)) -> In o rows) ->
  forall J, In J Js -> callExact C f k (jcall J).
Proof.
  intros HX HW HT HJs J HJ. destruct (HJs J HJ) as [A1 A2]. apply call_exact; auto.
  - eapply weights3_sub; eauto.
  - intro E. apply (noTies_sub rows); eauto.
Qed.
Ltac rowsIn := intros o; cbn [callRows jcall job12 job123 catOf fst]; rewrite ?in_app_iff; intros;
  repeat match goal with H : _ \/ _ |- _ => destruct H end; eauto using in_allRows.
Lemma auto3_calls cats J : In J (auto3Jobs cats) ->
  call12ok (jcall J) /\ forall o, In o (callRows (jcall J)) -> In o (allRows cats).
Proof.
  intro HJ. apply in_auto3Jobs in HJ as [[a [Ha ->]]|[[a [b [Ha [Hb [_ [->| ->]]]]]]|[a [b [c [Ha [Hb [Hc [_ ->]]]]]]]]];
    (split; [simpl; auto; discriminate|rowsIn]).
Qed.
Lemma cross12_calls O n1 n2 cats1 cats2 J : O <> O3 -> In J (cross12Jobs O n1 n2 cats1 cats2) ->
  callOrd (jcall J) = O /\ call12ok (jcall J) /\
  forall o, In o (callRows (jcall J)) -> In o (allRows cats1 ++ allRows cats2).
Proof.
  intros HO HJ. apply in_cross12Jobs in HJ as [a [b [Ha [Hb [->|[c [Hc [_ ->]]]]]]]];
    (split; [reflexivity|split; [simpl; auto|]]); intro o; rewrite in_app_iff; revert o; rowsIn.
Qed.
Lemma cross3_calls O n1 n2 n3 cats1 cats2 cats3 J : In J (cross3Jobs O n1 n2 n3 cats1 cats2 cats3) ->
  callOrd (jcall J) = O /\ call12ok (jcall J) /\
  forall o, In o (callRows (jcall J)) -> In o (allRows cats1 ++ allRows cats2 ++ allRows cats3).
Proof.
  intro HJ. apply in_cross3Jobs in HJ as [a [b [c [Ha [Hb [Hc ->]]]]]];
    (split; [reflexivity|split; [simpl; auto|]]); intro o; rewrite !in_app_iff; revert o; rowsIn.
Qed.

(** ** Runs exist *)
Definition callNE (c : call3) : Prop :=
  match c with
  | CAuto c => fst c <> []
  | C12 o c1 c2 => o <> O3 /\ fst c1 <> [] /\ (forall x, c2 = Some x -> fst x <> [])
  | C123 _ c1 c2 c3 => fst c1 <> [] /\ (forall x, c2 = Some x -> fst x <> []) /\ (forall x, c3 = Some x -> fst x <> [])
  end.
Lemma jobs3_exist C st Js : validRUV (p3P C) -> slopOK3 (p3P C) -> tmetric (p3P C) = Euclidean ->
  (forall J, In J Js -> callNE (jcall J)) -> exists st', runJobs3 C st Js st'.
Proof.
  intros V S E. revert st. induction Js as [|J Js IH]; intros st H.
  - exists st. constructor.
  - assert (HT : exists temp, temp3 C (jcall J) temp).
    { specialize (H J (or_introl eq_refl)). destruct (jcall J) as [c|o c1 [c2|]|o c1 [c2|] [c3|]]; simpl in *;
        try (eexists; reflexivity).
      - destruct (C65_exists (p3R C) (fst c) cleared3 V S E H) as [t Ht]. eexists; exists t; eauto.
      - destruct triv3; [eexists; reflexivity|]. destruct H as [HO [H1 H2]]. specialize (H2 c2 eq_refl).
        destruct (C66_exists (p3R C) o (fst c1) (fst c2) (fst c2) cleared3 V S E H1 H2 H2) as [X _].
        destruct (X HO) as [t Ht]. eexists; exists t; eauto.
      - destruct triv3; [eexists; reflexivity|]. destruct H as [H1 [H2 H3]].
        destruct (C66_exists (p3R C) o (fst c1) (fst c2) (fst c3) cleared3 V S E H1 (H2 c2 eq_refl) (H3 c3 eq_refl)) as [_ [t Ht]].
        eexists; exists t; eauto. }
    destruct HT as [temp HT].
    destruct (IH (add3 C J temp st)) as [st2 H2]; [intros; apply H; right; auto|].
    exists st2. econstructor; [|exact H2]. exists temp. auto.
Qed.

(** ** The results dict *)
Lemma k3eqb_refl q : k3eqb q q = true.
Proof. unfold k3eqb. rewrite !Z.eqb_refl. reflexivity. Qed.
Lemma k3eqb_eq p q : k3eqb p q = true -> p = q.
Proof.
  destruct p as [[a b] c], q as [[d e] g]. unfold k3eqb. cbn [fst snd]. rewrite !andb_true_iff, !Z.eqb_eq.
  intros [[-> ->] ->]. auto.
Qed.
Lemma d3get_app q d e : ~ In q (map fst d) -> d3get q (d ++ e) = d3get q e.
Proof.
  induction d as [|[p v] t IH]; intro H; simpl; auto. destruct (k3eqb q p) eqn:E.
  - exfalso. apply H. left. symmetry. apply k3eqb_eq; auto.
  - apply IH. intro Hi. apply H. right; auto.
Qed.
Lemma d3get_absent q d : ~ In q (map fst d) -> d3get q d = None.
Proof. intro H. rewrite <- (app_nil_r d), d3get_app; auto. Qed.
Lemma d3set_absent q v d : ~ In q (map fst d) -> d3set q v d = d ++ [(q, v)].
Proof.
  induction d as [|[p w] t IH]; intro H; simpl; auto. destruct (k3eqb q p) eqn:E.
  - exfalso. apply H. left. symmetry. apply k3eqb_eq; auto.
  - rewrite IH; auto. intro Hi. apply H. right; auto.
Qed.
(** What is stored under a key used by one job only. *)
Definition storedAs (C : pcfg3) f k (J : job3) (v : corr3) : Prop :=
  k3acc v f k = callVal (p3P C) f k (jcall J) /\ cons3 (k3acc v) /\ (p3NNN C = true -> k3tot v = jobTot3 C J).
Inductive stored (C : pcfg3) f k : list job3 -> results3 -> Prop :=
  | so_nil : stored C f k [] []
  | so_put : forall J v Js d, storedAs C f k J v -> stored C f k Js d -> stored C f k (J :: Js) ((jkey J, v) :: d)
  | so_skip : forall J Js d, p3NNN C = false -> callVal (p3P C) f k (jcall J) = 0 ->
      stored C f k Js d -> stored C f k (J :: Js) d.
Lemma stored_keys C f k Js d q : stored C f k Js d -> In q (map fst d) -> In q (map jkey Js).
Proof. intro H. induction H; simpl; intuition. Qed.
Lemma jobs3_stored C f k Js : okMin C -> In k (places (p3P C)) -> (forall J, In J Js -> callExact C f k (jcall J)) ->
  forall st st', NoDup (map jkey Js) -> (forall J, In J Js -> ~ In (jkey J) (map fst (s3res st))) ->
  runJobs3 C st Js st' -> exists d, s3res st' = s3res st ++ d /\ stored C f k Js d.
Proof.
  intros H0 Hk. induction Js as [|J Js IH]; intros HE st st' HN HA HR.
  - inversion HR; subst. exists []. rewrite app_nil_r. split; auto. constructor.
  - inversion HR as [|? ? st1 ? ? HS HR']; subst. inversion HN as [|? ? Hn HN']; subst.
    assert (HA0 := HA J (or_introl eq_refl)).
    destruct HS as [temp [HT HX]].
    assert (HX' : (exists v, s3res st1 = s3res st ++ [(jkey J, v)] /\ storedAs C f k J v) \/
                  (p3NNN C = false /\ callVal (p3P C) f k (jcall J) = 0 /\ s3res st1 = s3res st)).
    { pose proof (temp3_cons C _ temp H0 HT) as HC. pose proof (HE J (or_introl eq_refl) temp HT) as HV.
      subst st1. unfold add3. destruct (anyTri (p3P C) (k3acc temp) || jforce J) eqn:EA.
      - left. exists temp. cbn [s3res]. rewrite (d3get_absent _ _ HA0). split; [apply d3set_absent; auto|].
        split; auto. split; auto. intro HNN. pose proof (temp3_tot C _ temp HNN HT) as TT. unfold jobTot3.
        destruct (callTriv _ _); auto. subst temp. cbn [k3acc k3clear] in EA. rewrite anyTri_clear in EA.
        simpl in EA. rewrite EA. reflexivity.
      - apply orb_false_iff in EA as [EA EF].
        assert (Z : k3acc temp f k = 0) by (apply (HC k); apply (proj1 (anyTri_f _ _) EA); auto).
        destruct (p3NNN C) eqn:EN.
        + left. eexists. cbn [s3res]. split; [apply d3set_absent; auto|]. split; [cbn; unfold cleared3; congruence|].
          split; [apply cleared3_cons|]. intros _. unfold jobTot3. rewrite EF, andb_false_r. reflexivity.
        + right. split; auto. split; [congruence|]. reflexivity. }
    assert (HE' : forall J0, In J0 Js -> callExact C f k (jcall J0)) by (intros; apply HE; right; auto).
    destruct HX' as [[v [E1 SV]]|[EN [EV E1]]].
    + destruct (IH HE' st1 st' HN') as [d [Ed Sd]]; auto.
      * intros J' HJ'. rewrite E1, map_app, in_app_iff. intros [A|[A|[]]]; [apply (HA J'); auto; right; auto|].
        simpl in A. apply Hn. rewrite A. apply in_map; auto.
      * exists ((jkey J, v) :: d). split; [rewrite Ed, E1, <- app_assoc; auto|]. constructor; auto.
    + destruct (IH HE' st1 st' HN') as [d [Ed Sd]]; auto.
      * intros J' HJ'. rewrite E1. apply HA. right; auto.
      * exists d. split; [rewrite Ed, E1; auto|]. apply so_skip; auto.
Qed.
Lemma stored_sum C f k (p : key3 -> bool) Js d : stored C f k Js d ->
  sumR (fun e => k3acc (snd e) f k) (filter (fun e => p (fst e)) d) =
  sumR (fun J => if p (jkey J) then callVal (p3P C) f k (jcall J) else 0) Js.
Proof.
  intro H. induction H as [|J v Js d [S1 _] H IH|J Js d EN EV H IH]; cbn [filter sumR fst snd]; auto.
  - destruct (p (jkey J)); cbn [sumR snd]; rewrite IH; lra.
  - rewrite IH. destruct (p (jkey J)); lra.
Qed.
Lemma stored_tot C f k (p : key3 -> bool) Js d : p3NNN C = true -> stored C f k Js d ->
  sumR (fun e => k3tot (snd e)) (filter (fun e => p (fst e)) d) =
  sumR (fun J => if p (jkey J) then jobTot3 C J else 0) Js.
Proof.
  intros HN H. induction H as [|J v Js d [S1 [_ S2]] H IH|J Js d EN EV H IH]; cbn [filter sumR fst snd]; auto.
  - specialize (S2 HN). destruct (p (jkey J)); cbn [sumR snd]; rewrite IH; lra.
  - congruence.
Qed.
Lemma stored_cons C f k Js d e : stored C f k Js d -> In e d -> cons3 (k3acc (snd e)).
Proof. intro H. induction H as [|J v Js d [_ [S _]] H IH|]; simpl; intros; try contradiction; auto. destruct H0 as [<-|]; auto. Qed.
Lemma stored_NoDup C f k Js d : stored C f k Js d -> NoDup (map jkey Js) -> NoDup (map fst d).
Proof.
  intro H. induction H; simpl; intro HN; auto; inversion HN; subst; auto. constructor; auto.
  intro Hi. apply H3. eapply stored_keys; eauto.
Qed.
Lemma getRes3_map d (p : key3 -> bool) : NoDup (map fst d) ->
  map (getRes3 d) (filter p (map fst d)) = map snd (filter (fun e => p (fst e)) d).
Proof.
  intro HN.
  assert (G : forall e, (forall x, In x e -> d3get (fst x) d = Some (snd x)) ->
    map (getRes3 d) (filter p (map fst e)) = map snd (filter (fun x => p (fst x)) e)).
  { induction e as [|[q v] t IH]; intro H; simpl; auto. destruct (p q); simpl.
    - rewrite IH by (intros; apply H; right; auto). f_equal. unfold getRes3.
      pose proof (H (q, v) (or_introl eq_refl)) as Hq. cbn [fst snd] in Hq. rewrite Hq. reflexivity.
    - apply IH. intros; apply H; right; auto. }
  apply G. clear G. induction d as [|[q v] t IH]; intros x Hx; [contradiction|]. inversion HN; subst.
  destruct Hx as [<-|Hx]; simpl.
  - rewrite k3eqb_refl. auto.
  - destruct (k3eqb (fst x) q) eqn:E; auto. apply k3eqb_eq in E. exfalso. apply H1. rewrite <- E. apply in_map; auto.
Qed.
Lemma k3sum_get P l f k : In k (places P) -> (forall c, In c l -> cons3 (k3acc c)) ->
  k3acc (k3sum P l) f k = sumR (fun c => k3acc c f k) l.
Proof.
  intros Hk H. cbn [k3sum k3acc]. rewrite sumR_filter. apply sumR_ext. intros c Hc.
  destruct (anyTri P (k3acc c)) eqn:E; auto. symmetry. apply (H c Hc). apply (proj1 (anyTri_f _ _) E); auto.
Qed.

(** ** Keys of the auto loop *)
Lemma NoDup_tag {A B T} (g : A -> list B) (t : B -> T) (u : A -> T) l : NoDup (map u l) ->
  (forall a, In a l -> NoDup (g a)) -> (forall a b, In a l -> In b (g a) -> t b = u a) -> NoDup (flat_map g l).
Proof.
  induction l as [|a l IH]; simpl; intros HN HG HT; [constructor|]. inversion HN; subst.
  assert (D : forall x, In x (g a) -> ~ In x (flat_map g l)).
  { intros x Hx Hi. apply in_flat_map in Hi as [b [Hb Hi]]. apply H1.
    rewrite <- (HT a x), (HT b x); auto. apply in_map; auto. }
  assert (N1 : NoDup (g a)) by auto. assert (N2 : NoDup (flat_map g l)) by (apply IH; auto).
  clear - D N1 N2. induction (g a) as [|x m IHm]; simpl; auto. inversion N1; subst. constructor.
  - rewrite in_app_iff. intros [H|H]; [auto|]. apply (D x); [left; auto|auto].
  - apply IHm; auto. intros y Hy. apply D. right; auto.
Qed.
Lemma NoDup_map_filter {A B} (h : A -> B) (p : A -> bool) l : NoDup (map h l) -> NoDup (map h (filter p l)).
Proof.
  induction l as [|a l IH]; simpl; auto. intro H. inversion H; subst. destruct (p a); simpl; auto. constructor; auto.
  intro Hi. apply H2. apply in_map_iff in Hi as [b [E Hb]]. apply filter_In in Hb as [Hb _]. rewrite <- E. apply in_map; auto.
Qed.
Lemma map_flat_map {A B D} (h : B -> D) (g : A -> list B) l : map h (flat_map g l) = flat_map (fun a => map h (g a)) l.
Proof. induction l; simpl; auto. rewrite map_app, IHl. auto. Qed.
Lemma auto3_keys cats : NoDup (map pidx cats) -> NoDup (map jkey (auto3Jobs cats)).
Proof.
  intro HN. unfold auto3Jobs. rewrite map_flat_map.
  apply (NoDup_tag _ (fun q : key3 => fst (fst q)) pidx); auto.
  - intros a Ha. cbv zeta. cbn [map jkey]. rewrite map_flat_map. constructor.
    + intro Hi. apply in_flat_map in Hi as [b [Hb Hi]]. apply filter_In in Hb as [_ HL]. apply Z.ltb_lt in HL.
      cbn [map job12 jkey] in Hi. destruct Hi as [E|[E|Hi]]; try (injection E; intros; lia).
      apply in_map_iff in Hi as [J [E HJ]]. apply in_map_iff in HJ as [c [<- _]]. cbn in E. injection E; intros; lia.
    + apply (NoDup_tag _ (fun q : key3 => if (snd (fst q) =? pidx a)%Z then snd q else snd (fst q)) pidx).
      * apply NoDup_map_filter. rewrite map_rev. apply NoDup_rev; auto.
      * intros b Hb. apply filter_In in Hb as [_ HL]. apply Z.ltb_lt in HL. cbn [map job12 jkey].
        rewrite map_map. cbn [job123 jkey]. constructor.
        { intros [E|Hi]; [injection E; intros; lia|]. apply in_map_iff in Hi as [c [E Hc]].
          apply filter_In in Hc as [_ Hc]. apply Z.ltb_lt in Hc. injection E; intros; lia. }
        constructor.
        { intro Hi. apply in_map_iff in Hi as [c [E Hc]]. injection E; intros; lia. }
        rewrite <- (map_map pidx (fun z => (pidx a, pidx b, z))). apply FinFun.Injective_map_NoDup.
        { intros x y E. injection E; auto. }
        apply NoDup_map_filter; auto.
      * intros b q Hb Hq. apply filter_In in Hb as [_ HL]. apply Z.ltb_lt in HL. cbn [map job12 jkey] in Hq.
        destruct Hq as [<-|[<-|Hq]]; cbn [fst snd].
        -- destruct (Z.eqb_spec (pidx b) (pidx a)); auto.
        -- rewrite Z.eqb_refl. auto.
        -- apply in_map_iff in Hq as [J [<- HJ]]. apply in_map_iff in HJ as [c [<- _]]. cbn.
           destruct (Z.eqb_spec (pidx b) (pidx a)); auto. lia.
  - intros a q Ha Hq. cbv zeta in Hq. cbn [map jkey] in Hq. destruct Hq as [<-|Hq]; auto.
    apply in_map_iff in Hq as [J [<- HJ]]. apply in_flat_map in HJ as [b [_ HJ]].
    destruct HJ as [<-|[<-|HJ]]; auto. apply in_map_iff in HJ as [c [<- _]]. auto.
Qed.

(** ** Leaving out a patch *)
Lemma loop3_filter (q : patch -> bool) A B T cats :
  loop3 (fun a => if q a then A a else 0) (fun a b => if q a && q b then B a b else 0)
        (fun a b c => if q a && q b && q c then T a b c else 0) cats = loop3 A B T (filter q cats).
Proof.
  unfold loop3. rewrite sumR_filter. apply sumR_ext. intros a _. destruct (q a).
  - f_equal. rewrite sumR_filter. apply sumR_ext. intros b _. destruct (q b).
    + destruct (_ <? _)%Z; auto. simpl. f_equal. rewrite sumR_filter. apply sumR_ext. intros c _.
      destruct (q c), (_ <? _)%Z; auto.
    + destruct (_ <? _)%Z; auto. simpl. rewrite sumR_0; [lra|]. intros c _. destruct (_ <? _)%Z; auto.
  - simpl. rewrite sumR_0; [lra|]. intros b _. destruct (_ <? _)%Z; auto. rewrite andb_false_r.
    rewrite sumR_0; [lra|]. intros c _. destruct (_ <? _)%Z; auto.
Qed.
Definition avoids (i : Z) (q : key3) : bool :=
  (negb (fst (fst q) =? i) && negb (snd (fst q) =? i) && negb (snd q =? i))%Z.
Definition without (i : Z) (cats : list patch) : list patch := filter (fun p => negb (pidx p =? i)%Z) cats.
Lemma without_NoDup i cats : NoDup (map pidx cats) -> NoDup (map pidx (without i cats)).
Proof. apply NoDup_map_filter. Qed.
Lemma avoid_val P f k i cats : NoDup (map pidx cats) ->
  sumR (fun J => if avoids i (jkey J) then callVal P f k (jcall J) else 0) (auto3Jobs cats) =
  sumTriplesU (tri6 P f k) (allRows (without i cats)).
Proof.
  intro HN. rewrite sumTriplesU_eq, <- rows_loop3; auto using tri6_sym12, tri6_sym23, without_NoDup.
  unfold without. rewrite <- loop3_filter.
  apply auto3Jobs_sum; intros; unfold avoids; cbn [jkey job12 job123 lkey fst snd]; simpl callVal.
  - destruct (pidx a =? i)%Z; simpl; auto.
  - destruct (pidx a =? i)%Z, (pidx b =? i)%Z; simpl; auto.
  - destruct (pidx a =? i)%Z, (pidx b =? i)%Z; simpl; auto.
  - destruct (pidx a =? i)%Z, (pidx b =? i)%Z, (pidx c =? i)%Z; simpl; auto.
Qed.
Lemma avoid_tot C i cats : NoDup (map pidx cats) ->
  sumR (fun J => if avoids i (jkey J) then jobTot3 C J else 0) (auto3Jobs cats) =
  let w := sumw (allRows (without i cats)) in 1/6 * (w * w * w).
Proof.
  intro HN. cbv zeta. rewrite sumw_allRows, <- tot_loop3 by auto using without_NoDup.
  unfold without. rewrite <- loop3_filter.
  apply auto3Jobs_sum; intros; unfold avoids, jobTot3; cbn [jkey job12 job123 lkey fst snd jforce jcall callTriv andb];
    rewrite ?andb_false_r; simpl callTot.
  - destruct (pidx a =? i)%Z; simpl; auto.
  - destruct (pidx a =? i)%Z, (pidx b =? i)%Z; simpl; auto.
  - destruct (pidx a =? i)%Z, (pidx b =? i)%Z; simpl; auto.
  - destruct (pidx a =? i)%Z, (pidx b =? i)%Z, (pidx c =? i)%Z; simpl; auto.
Qed.
