(** C70, continued: several process calls accumulated in one three-point correlation (initialize=False),
    so that a patch triple may already be in the results dict. *)
From Coq Require Import Reals Lra Lia List ZArith Bool Permutation.
From Verif Require Import Base Geometry Tree Traverse Run Corr Patch Spec SpecRun GeomFacts SumFacts TreeFacts
  BinFacts TravFacts Exact MetricFacts Cover Lift Runs Examples Account PropsCount PropsRun PropsCorr PatchFacts
  PropsPatch PropsLocal Corr3 TriCover TriStop SpecTri TriFacts TriSpec PropsTri TriMirror PropsTri2
  PropsTri3 Patch3 Patch3Facts Patch3Sum Patch3Res PropsPatch3 PropsPatch3Ex.
Import ListNotations.
Open Scope R_scope.

Lemma d3set_keys q v d : forall x, In x (map fst (d3set q v d)) <-> x = q \/ In x (map fst d).
Proof.
  induction d as [|[q' v'] d IH]; intro x; simpl; [intuition|].
  destruct (k3eqb q q') eqn:E.
  - apply k3eqb_eq in E. subst q'. simpl. intuition.
  - simpl. rewrite IH. intuition.
Qed.
Lemma d3set_nodup q v d : NoDup (map fst d) -> NoDup (map fst (d3set q v d)).
Proof.
  induction d as [|[q' v'] d IH]; simpl; intro H; [repeat constructor; auto|].
  inversion H; subst. destruct (k3eqb q q') eqn:E; simpl; constructor; auto.
  intro HI. apply d3set_keys in HI as [->|HI]; [rewrite k3eqb_refl in E; discriminate|auto].
Qed.
Lemma d3set_in q v d e : In e (d3set q v d) -> snd e = v \/ In e d.
Proof.
  induction d as [|[q' v'] d IH]; simpl.
  - intros [<-|[]]; auto.
  - destruct (k3eqb q q'); simpl; intros [<-|H]; auto. apply IH in H as [H|H]; auto.
Qed.
Lemma d3get_mem q d v : d3get q d = Some v -> In (q, v) d.
Proof.
  induction d as [|[q' v'] d IH]; simpl; [discriminate|]. destruct (k3eqb q q') eqn:E.
  - intro H. injection H as ->. apply k3eqb_eq in E. subst. auto.
  - auto.
Qed.
Lemma d3set_sum (g : corr3 -> R) q v d :
  sumR (fun e => g (snd e)) (d3set q v d) =
  sumR (fun e => g (snd e)) d - (match d3get q d with Some r => g r | None => 0 end) + g v.
Proof.
  induction d as [|[q' v'] d IH]; simpl; [lra|]. destruct (k3eqb q q') eqn:E; simpl; [lra|]. rewrite IH. lra.
Qed.

(** The entries of the dict: distinct keys, and no value where ntri is 0. *)
Record res3Inv (d : results3) : Prop := {
  r3i_keys : NoDup (map fst d);
  r3i_cons : forall e, In e d -> cons3 (k3acc (snd e)) }.
Lemma d3set_inv q v d : res3Inv d -> cons3 (k3acc v) -> res3Inv (d3set q v d).
Proof.
  intros [H1 H2] HV. constructor; [apply d3set_nodup; auto|].
  intros e He. apply d3set_in in He as [->|He]; auto.
Qed.
Lemma res3_get d q v : res3Inv d -> d3get q d = Some v -> cons3 (k3acc v).
Proof. intros [_ H] E. apply (H (q, v)). apply d3get_mem; auto. Qed.

(** One job, its key present or not. *)
Lemma step3_any C st J st' : okMin C -> p3NNN C = false -> res3Inv (s3res st) -> step3 C st J st' ->
  res3Inv (s3res st') /\
  forall f k, In k (places (p3P C)) ->
    k3acc (s3self st') f k - k3acc (s3self st) f k =
    sumR (fun e => k3acc (snd e) f k) (s3res st') - sumR (fun e => k3acc (snd e) f k) (s3res st).
Proof.
  intros H0 HNN HI [temp [HT ->]]. pose proof (temp3_cons C _ temp H0 HT) as HC.
  unfold add3. cbv zeta. destruct (anyTri (p3P C) (k3acc temp) || jforce J); [|rewrite HNN; split; auto; intros; lra].
  cbn [s3self s3res]. destruct (d3get (jkey J) (s3res st)) as [r|] eqn:E.
  - pose proof (res3_get _ _ _ HI E) as HR. destruct (anyTri (p3P C) (k3acc r)) eqn:ER.
    + split; [apply d3set_inv; auto; apply k3add_cons; auto|]. intros f k Hk.
      rewrite (d3set_sum (fun c => k3acc c f k)), E, !k3add_get by auto. lra.
    + split; [apply d3set_inv; auto|]. intros f k Hk.
      rewrite (d3set_sum (fun c => k3acc c f k)), E, k3add_get by auto.
      rewrite (proj2 (HR k) (proj1 (anyTri_f _ _) ER k Hk) f). lra.
  - split; [apply d3set_inv; auto|]. intros f k Hk.
    rewrite (d3set_sum (fun c => k3acc c f k)), E, k3add_get by auto. lra.
Qed.
(** Every class but NNN: the arrays stay equal to the sum of the stored results, whatever calls are
    accumulated, for any slop and metric. *)
Theorem C70_accumulated C st Js st' : okMin C -> p3NNN C = false -> res3Inv (s3res st) ->
  (forall f k, (0 <= k < tntot (p3P C))%Z ->
     k3acc (s3self st) f k = k3acc (k3sum (p3P C) (map snd (s3res st))) f k) ->
  runJobs3 C st Js st' -> res3Inv (s3res st') /\
  (forall f k, (0 <= k < tntot (p3P C))%Z ->
     k3acc (s3self st') f k = k3acc (k3sum (p3P C) (map snd (s3res st'))) f k).
Proof.
  assert (SA : forall d f k, res3Inv d -> (0 <= k < tntot (p3P C))%Z ->
    k3acc (k3sum (p3P C) (map snd d)) f k = sumR (fun e => k3acc (snd e) f k) d).
  { intros d f k HI Hk. rewrite k3sum_get, sumR_map; auto.
    - apply in_places; auto.
    - intros c Hc. apply in_map_iff in Hc as [e [<- He]]. apply (r3i_cons _ HI); auto. }
  intros H0 HNN HI HS H. revert HI HS. induction H as [st|st J st1 Js st2 HJ HR IH]; intros HI HS; auto.
  destruct (step3_any C st J st1 H0 HNN HI HJ) as [HI1 HD]. apply IH; auto.
  intros f k Hk. specialize (HD f k (proj2 (in_places _ _) Hk)). specialize (HS f k Hk).
  rewrite SA in * by auto. lra.
Qed.
(** Its hypotheses: two calls in a row on a cleared correlation, with any patches. *)
Example C70_accumulated_example C cats cats' st st' : okMin C -> p3NNN C = false ->
  runJobs3 C s3clear (auto3Jobs cats) st -> runJobs3 C st (auto3Jobs cats') st' ->
  forall f k, (0 <= k < tntot (p3P C))%Z ->
    k3acc (s3self st') f k = k3acc (k3sum (p3P C) (map snd (s3res st'))) f k.
Proof.
  intros H0 HN H1 H2.
  assert (I0 : res3Inv (s3res s3clear)) by (split; [apply NoDup_nil|intros ? []]).
  destruct (C70_accumulated C s3clear (auto3Jobs cats) st H0 HN I0) as [I1 E1]; auto.
  exact (proj2 (C70_accumulated C st (auto3Jobs cats') st' H0 HN I1 E1 H2)).
Qed.

(** NNN: a later call whose patches have no triangles replaces the stored result of an earlier one. *)
Definition farA : obj := triObj 1000 0 0.
Definition farB : obj := triObj 2000 0 1.
Definition farCats : list patch := [mkpatch 0 [farA]; mkpatch 1 [farB]].
Lemma far_triv : triv3 (p3P exPC) [farA] [farB] [farB] = true /\ triv3 (p3P exPC) [farB] [farA] [farA] = true.
Proof.
  assert (N : forall a b, normSq (psub a b) = 1000 * 1000 -> norm (psub a b) = 1000).
  { intros a b E. unfold norm. rewrite E. apply sqrt_square; lra. }
  assert (Z : forall a, norm (psub a a) = 0).
  { intro a. unfold norm. replace (normSq (psub a a)) with 0 by (unfold normSq, psub; cbn; ring). apply sqrt_0. }
  unfold triv3. cbv zeta. rewrite !meanPos_one.
  rewrite !(maxDist_at (opos farA) farA), !(maxDist_at (opos farB) farB) by reflexivity.
  rewrite !Z, !(N (opos farA) (opos farB)), !(N (opos farB) (opos farA)) by (unfold normSq, psub; cbn; lra).
  change (tmaxsep (p3P exPC)) with 10.
  split; apply Rltb_t; unfold mid3; (eapply Rlt_le_trans; [|apply Rmax_r]);
    rewrite (Rmax_right 0 1000), (Rmin_left 1000 1000) by lra; lra.
Qed.
Theorem C70_repeated_refuted : exists C cats cats' st st',
  exact3 (p3P C) /\ p3NNN C = true /\ NoDup (map pidx cats) /\ NoDup (map pidx cats') /\
  runJobs3 C s3clear (auto3Jobs cats) st /\ runJobs3 C st (auto3Jobs cats') st' /\ (0 <= 1 < tntot (p3P C))%Z /\
  k3acc (s3self st') TNtri 1%Z = 1 /\ k3acc (k3sum (p3P C) (map snd (s3res st'))) TNtri 1%Z = 0.
Proof.
  destruct exCats_ok as [ND [NT [W [NE [SK _]]]]]. pose proof exPC_exact as X.
  pose proof (exact3_okMin exPC X) as OM. destruct far_triv as [T1 T2].
  destruct C68_example as [st [HR [A1 _]]].
  assert (K1 : (0 <= 1 < tntot (p3P exPC))%Z) by (cbn; lia).
  pose proof (proj2 (in_places (p3P exPC) 1) K1) as HK.
  assert (CE : forall J, In J (auto3Jobs exCats) -> callExact exPC TNtri 1 (jcall J)).
  { apply (calls_exact exPC TNtri 1 (allRows exCats)); auto. intros; apply auto3_calls; auto. }
  destruct (jobs3_stored exPC TNtri 1 (auto3Jobs exCats) OM HK CE s3clear st (auto3_keys exCats ND) ltac:(intros; intros []) HR) as [d [Ed Sd]].
  cbn [s3clear s3res app] in Ed.
  assert (HR2 : exists st', runJobs3 exPC st (auto3Jobs farCats) st').
  { apply jobs3_exist; try apply X; auto. apply auto3_NE. intros p [<-|[<-|[]]]; discriminate. }
  destruct HR2 as [st' HR2].
  exists exPC, exCats, farCats, st, st'. do 2 (split; [auto; reflexivity|]). split; [auto|].
  split; [repeat constructor; simpl; intuition discriminate|]. do 3 (split; [assumption|]).
  assert (CF : forall x t, runAuto3 (p3R exPC) [x] cleared3 t -> ow x = 1 -> t TNtri 1%Z = 0).
  { intros x t HX Hx. destruct X as [V S E MV].
    rewrite (C65_auto_exact (p3R exPC) TNtri 1 [x] cleared3 t); auto.
    - cbn. unfold cleared3. lra.
    - intros o [<-|[]]. rewrite Hx. lra.
    - intros a b c [<-|[]] [<-|[]] [<-|[]]. unfold side1, side2, side3.
      lra. }
  change (auto3Jobs farCats) with
    [mkJ3 (0,0,0) (0,0,0) (CAuto (catOf (mkpatch 0 [farA]))) true;
     job12 (0,1,1) (0,1,1) O0 (mkpatch 0 [farA]) (mkpatch 1 [farB]) false;
     job12 (0,1,1) (0,0,1) O0 (mkpatch 1 [farB]) (mkpatch 0 [farA]) false;
     mkJ3 (1,1,1) (1,1,1) (CAuto (catOf (mkpatch 1 [farB]))) true]%Z in HR2.
  change (auto3Jobs exCats) with
    [mkJ3 (0,0,0) (0,0,0) (CAuto (catOf (mkpatch 0 [exA; exB]))) true;
     job12 (0,1,1) (0,1,1) O0 (mkpatch 0 [exA; exB]) (mkpatch 1 [exC]) false;
     job12 (0,1,1) (0,0,1) O0 (mkpatch 1 [exC]) (mkpatch 0 [exA; exB]) false;
     mkJ3 (1,1,1) (1,1,1) (CAuto (catOf (mkpatch 1 [exC]))) true]%Z in Sd.
  assert (SELF : k3acc (s3self st') TNtri 1%Z = 1).
  { rewrite (jobs3_get exPC TNtri 1 st _ st' OM HK) with (2 := HR2).
    - rewrite A1. cbn. lra.
    - intros J [<-|[<-|[<-|[<-|[]]]]] temp HT; cbn [jcall job12 temp3 catOf pobjs fst] in HT; rewrite ?T1, ?T2 in HT.
      + destruct HT as [t [HT ->]]. apply CF in HT; [|reflexivity]. cbn. rewrite HT. lra.
      + subst temp. cbn. unfold cleared3. lra.
      + subst temp. cbn. unfold cleared3. lra.
      + destruct HT as [t [HT ->]]. apply CF in HT; [|reflexivity]. cbn. rewrite HT. lra. }
  split; [exact SELF|]. clear SELF.
  inversion Sd as [|J0 v0 Js0 d0 [S0 [D0 _]] Sd0|? ? ? Q]; [|discriminate Q]. subst J0 Js0.
  inversion Sd0 as [|J0 v1 Js0 d1 [S1 [D1 _]] Sd1|? ? ? Q]; [|discriminate Q]. subst J0 Js0.
  inversion Sd1 as [|J0 v2 Js0 d2 [S2 [D2 _]] Sd2|? ? ? Q]; [|discriminate Q]. subst J0 Js0.
  inversion Sd2 as [|J0 v3 Js0 d3 [S3 [D3 _]] Sd3|? ? ? Q]; [|discriminate Q]. subst J0 Js0.
  inversion Sd3. subst d3 d2 d1 d0. assert (HD : [((0,0,0)%Z, v0); ((0,1,1)%Z, v1); ((0,0,1)%Z, v2); ((1,1,1)%Z, v3)] = s3res st) by (rewrite Ed; assumption). cbn [jkey job12] in *.
  cbn [jcall callVal catOf fst pobjs sumTriplesU upairs map app sumR] in S0, S3.
  inversion HR2 as [|? ? e1 ? ? [t0 [U0 E1]] HR3]; subst e1.
  inversion HR3 as [|? ? e2 ? ? [t1 [V1 E2]] HR4]; subst e2.
  inversion HR4 as [|? ? e3 ? ? [t2 [V2 E3]] HR5]; subst e3.
  inversion HR5 as [|? ? e4 ? ? [t3 [U3 E4]] HR6]; subst e4.
  inversion HR6. subst st'. clear HR2 HR3 HR4 HR5 HR6.
  cbn [jcall job12 temp3 catOf pobjs fst] in U0, U3, V1, V2. rewrite T1 in V1. rewrite T2 in V2. subst t1 t2.
  destruct U0 as [u0 [U0 ->]], U3 as [u3 [U3 ->]].
  pose proof (runAuto3_cons (p3R exPC) _ _ _ OM cleared3_cons U0) as Q0.
  pose proof (runAuto3_cons (p3R exPC) _ _ _ OM cleared3_cons U3) as Q3.
  apply CF in U0; [|reflexivity]. apply CF in U3; [|reflexivity].
  set (m0 := mkK3 u0 _) in *. set (m3 := mkK3 u3 _) in *.
  set (w0 := if anyTri (p3P exPC) (k3acc v0) then k3add (p3P exPC) v0 m0 else m0).
  set (w3 := if anyTri (p3P exPC) (k3acc v3) then k3add (p3P exPC) v3 m3 else m3).
  assert (W0 : k3acc w0 TNtri 1%Z = 0 /\ cons3 (k3acc w0)).
  { unfold w0. destruct (anyTri (p3P exPC) (k3acc v0)); [|split; auto]. split; [|apply k3add_cons; auto]. rewrite k3add_get, S0; auto. cbn. lra. }
  assert (W3 : k3acc w3 TNtri 1%Z = 0 /\ cons3 (k3acc w3)).
  { unfold w3. destruct (anyTri (p3P exPC) (k3acc v3)); [|split; auto]. split; [|apply k3add_cons; auto]. rewrite k3add_get, S3; auto. cbn. lra. }
  match goal with |- k3acc (k3sum _ (map snd (s3res ?s))) _ _ = _ => assert (RES : exists x1 x2, s3res s =
    [((0,0,0)%Z, w0); ((0,1,1)%Z, mkK3 cleared3 x1); ((0,0,1)%Z, mkK3 cleared3 x2); ((1,1,1)%Z, w3)]) end.
  { do 2 eexists.
    assert (F1 : forall J t s r, jforce J = true -> d3get (jkey J) (s3res s) = Some r ->
      s3res (add3 exPC J t s) = d3set (jkey J) (if anyTri (p3P exPC) (k3acc r) then k3add (p3P exPC) r t else t) (s3res s)).
    { intros J9 t s r EF ER. unfold add3. cbv zeta. rewrite EF, orb_true_r. cbn [s3res]. rewrite ER. destruct (anyTri (p3P exPC) (k3acc r)); reflexivity. }
    assert (F2 : forall J s, jforce J = false ->
      s3res (add3 exPC J k3clear s) = d3set (jkey J) (mkK3 cleared3 (callTot (jcall J))) (s3res s)).
    { intros J9 s EF. unfold add3. cbv zeta. rewrite EF, orb_false_r. cbn [k3acc k3clear]. rewrite anyTri_clear. reflexivity. }
    rewrite (F1 _ m3 _ v3); [|reflexivity|].
    - rewrite F2, F2 by reflexivity. rewrite (F1 _ m0 _ v0); [|reflexivity|rewrite <- HD; reflexivity].
      rewrite <- HD. reflexivity.
    - rewrite F2, F2 by reflexivity. rewrite (F1 _ m0 _ v0); [|reflexivity|rewrite <- HD; reflexivity].
      rewrite <- HD. reflexivity. }
  destruct RES as [x1 [x2 RES]]. rewrite RES. rewrite k3sum_get; auto.
  - cbn [map snd sumR]. rewrite (proj1 W0), (proj1 W3). cbn. unfold cleared3. lra.
  - cbn [map snd]. destruct W0, W3. intros c [<-|[<-|[<-|[<-|[]]]]]; auto using cleared3_cons.
Qed.
