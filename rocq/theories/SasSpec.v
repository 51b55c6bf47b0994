(** LogSAS: the bins computed by isTriangleInRange are those of the specification; flat trees. *)
From Coq Require Import Reals Lra Lia List ZArith Bool Permutation Psatz Classical_Prop.
From Verif Require Import Base Geometry Tree Traverse Spec GeomFacts SumFacts TreeFacts TravFacts
  MetricFacts Cover Runs Corr3 TriCover TriStop SpecTri TriFacts TriSpec PropsTri PropsArc SasGeom SasStop
  SpecSas SasFacts.
Import ListNotations.
Open Scope R_scope.

(** ** Trees of flat catalogs *)
Lemma sum_pz l : (forall o, In o l -> pz (opos o) = 0) -> sumR (fun o => owpos o * pz (opos o)) l = 0.
Proof. intro H. apply sumR_0. intros o Ho. rewrite H by auto. ring. Qed.
Lemma centroid_flat l : (forall o, In o l -> pz (opos o) = 0) -> pz (centroid Flat l) = 0.
Proof.
  intro H. unfold centroid. destruct Req_EM_T.
  - destruct l as [|o t]; [reflexivity|]. apply H. left; auto.
  - cbn [normalize pscale pz]. rewrite sum_pz by auto. ring.
Qed.
Lemma builds_flat sm m br l t : builds Flat sm m br l t ->
  (forall o, In o l -> pz (opos o) = 0) -> flatTree t.
Proof.
  induction 1 as [o|l L Rr cl cr HL2 HS HD HB1 IHb1 HB2 IHb2|l HL2 HS]; intros HF c' Hc.
  - inversion Hc; subst. apply HF. left; auto.
  - assert (HL : forall o, In o L \/ In o Rr -> pz (opos o) = 0).
    { intros x Hx. apply HF. eapply Permutation_in; [eapply splitData_perm; eauto|]. apply in_or_app; auto. }
    inversion Hc; subst.
    + apply centroid_flat; auto.
    + apply IHb1; auto.
    + apply IHb2; auto.
  - inversion Hc; subst. apply centroid_flat; auto.
Qed.
Lemma field_flat F cat cells : fcoord F = Flat -> buildField F cat cells ->
  (forall o, In o cat -> pz (opos o) = 0) -> forall c, In c cells -> flatTree c.
Proof.
  intros HC [g [Hg Hf]] HF. rewrite HC in *. apply setupTop_perm in Hg.
  assert (HG : forall l o, In l g -> In o l -> pz (opos o) = 0).
  { intros l o Hl Ho. apply HF. eapply Permutation_in; [apply Hg|]. apply in_concat. eauto. }
  clear Hg. induction Hf; intros c Hc; [destruct Hc|]. destruct Hc as [<-|Hc].
  - eapply builds_flat; eauto. intros; apply (HG x); auto. left; auto.
  - apply IHHf; auto. intros; apply (HG l0); auto. right; auto.
Qed.

Lemma field3_minS R : validSAS (r3P R) -> noSlopSAS (r3P R) -> tmetric (r3P R) = Euclidean ->
  fminsize (field3 R) = 0.
Proof.
  intros V [N1 [N2 N4]] HE. unfold field3, minMaxSize3. rewrite HE, (vs_type _ V), N1, N2.
  cbn [fst fminsize]. rewrite (Rmin_right (ta (r3P R)) 0) by auto.
  replace (tminsep (r3P R) * 0 / (2 + 3 * 0)) with 0 by field.
  replace (2 * tminsep (r3P R) * tan (tminu (r3P R) / 2) * 0 / (2 + 3 * 0)) with 0 by field.
  apply Rmin_left; lra.
Qed.

Section BinsS.
Variable P : tparams.
Hypothesis V : validSAS P.
Hypothesis HE : tmetric P = Euclidean.

Lemma ntotS : tntot P = (tnbins P * tnbins P * tnubins P)%Z.
Proof. unfold tntot. rewrite (vs_type _ V). auto. Qed.
Definition placeS (k2 k3 kp : Z) : Z := ((k2 * tnbins P + k3) * tnubins P + kp)%Z.
Lemma placeS_range k2 k3 kp : (0 <= k2 < tnbins P)%Z -> (0 <= k3 < tnbins P)%Z -> (0 <= kp < tnubins P)%Z ->
  (0 <= placeS k2 k3 kp < tntot P)%Z.
Proof.
  intros H1 H2 H3. rewrite ntotS. unfold placeS.
  assert (0 <= k2 * tnbins P + k3)%Z by nia.
  assert (k2 * tnbins P + k3 + 1 <= tnbins P * tnbins P)%Z by nia. nia.
Qed.
Lemma placeS_decode k2 k3 kp : (0 <= k2 < tnbins P)%Z -> (0 <= k3 < tnbins P)%Z -> (0 <= kp < tnubins P)%Z ->
  k2Of P (placeS k2 k3 kp) = k2 /\ k3Of P (placeS k2 k3 kp) = k3 /\ kpOf P (placeS k2 k3 kp) = kp.
Proof.
  intros H1 H2 H3. unfold k2Of, k3Of, kpOf, placeS.
  assert (Q : (((k2 * tnbins P + k3) * tnubins P + kp) / tnubins P = k2 * tnbins P + k3)%Z).
  { symmetry. apply Z.div_unique with (r := kp); [left; auto|ring]. }
  rewrite Q. split; [|split].
  - symmetry. apply Z.div_unique with (r := k3); [left; auto|ring].
  - symmetry. apply Z.mod_unique with (q := k2); [left; auto|ring].
  - symmetry. apply Z.mod_unique with (q := (k2 * tnbins P + k3)%Z); [left; auto|ring].
Qed.
Lemma placeS_encode k : placeS (k2Of P k) (k3Of P k) (kpOf P k) = k.
Proof.
  pose proof (vs_nb _ V). pose proof (vs_nu _ V). unfold placeS, k2Of, k3Of, kpOf.
  assert (E1 := Z.div_mod k (tnubins P) ltac:(lia)).
  assert (E2 := Z.div_mod (k / tnubins P) (tnbins P) ltac:(lia)).
  set (q := (k / tnubins P)%Z) in *. rewrite Z.mul_comm in E2. rewrite <- E2. lia.
Qed.
Lemma decode_rangeS k : (0 <= k < tnbins P * tnbins P * tnubins P)%Z ->
  (0 <= k2Of P k < tnbins P)%Z /\ (0 <= k3Of P k < tnbins P)%Z /\ (0 <= kpOf P k < tnubins P)%Z.
Proof.
  intro H. pose proof (vs_nb _ V). pose proof (vs_nu _ V). unfold k2Of, k3Of, kpOf.
  split; [|split].
  - split; [apply Z.div_pos; [apply Z.div_pos; lia|lia]|].
    apply Z.div_lt_upper_bound; [lia|]. apply Z.div_lt_upper_bound; [lia|]. lia.
  - apply Z.mod_pos_bound; lia.
  - apply Z.mod_pos_bound; lia.
Qed.

Definition inBinsS (k2 k3 kp : Z) (d2 d3 ph : R) : Prop :=
  0 < d2 /\ 0 < d3 /\ (0 <= k2 < tnbins P)%Z /\ (0 <= k3 < tnbins P)%Z /\ (0 <= kp < tnubins P)%Z /\
  Int_part ((ln d2 - ln (tminsep P)) / tbinsize P) = k2 /\
  Int_part ((ln d3 - ln (tminsep P)) / tbinsize P) = k3 /\
  Int_part ((ph - tminu P) / tubinsize P) = kp.

Lemma logBin_iff j d : 0 < d ->
  (logBin P j d = true <-> Int_part ((ln d - ln (tminsep P)) / tbinsize P) = j).
Proof.
  intro Hd. unfold logBin. rewrite andb_true_iff, Rleb_true, Rltb_true, floor_iff.
  rewrite log_iff, log_iff_lt by (try apply (vs_minsep _ V); try apply (vs_bs _ V); auto). tauto.
Qed.
Lemma logBin_pos j d : logBin P j d = true -> 0 < d.
Proof.
  unfold logBin. rewrite andb_true_iff, Rleb_true. intros [H _].
  assert (0 < tminsep P * exp (IZR j * tbinsize P)); [|lra].
  apply Rmult_lt_0_compat; [apply (vs_minsep _ V)|apply exp_pos].
Qed.

Lemma rangeSAS_iff p1 p2 p3 d2 d3 ph u v k : 0 <= ph <= PI -> 0 < d2 -> 0 < d3 ->
  rangeSAS P O3 p1 p2 p3 d2 d3 (cos ph) = Some (u, v, k) <->
  ccw (tmetric P) (tcoord P) p1 p3 p2 = true /\ u = ph /\ v = cos ph /\
  exists k2 k3 kp, inBinsS k2 k3 kp d2 d3 ph /\ k = placeS k2 k3 kp.
Proof.
  intros PB D2 D3. unfold rangeSAS. rewrite (clip_phi ph PB). cbn [ord3 andb].
  pose proof (vs_minsep _ V) as V1. pose proof (vs_bs _ V) as V2. pose proof (vs_ubs _ V) as V3.
  assert (KR : forall d, 0 < d -> tminsep P <= d < tmaxsep P <->
               0 <= (ln d - ln (tminsep P)) / tbinsize P < IZR (tnbins P)).
  { intros d Hd. rewrite (vs_maxsep _ V). rewrite (log_iff_lt _ _ d) by auto.
    rewrite <- (log_iff _ _ d 0) by auto. rewrite Rmult_0_l, exp_0, Rmult_1_r. tauto. }
  assert (KP : tminu P <= ph < tmaxu P <-> 0 <= (ph - tminu P) / tubinsize P < IZR (tnubins P)).
  { rewrite (vs_maxu _ V), (lin_iff_lt _ _ ph) by auto. rewrite <- (lin_iff _ _ ph 0) by auto.
    rewrite Rmult_0_l, Rplus_0_r. tauto. }
  split.
  - intro H.
    destruct (Rltb d2 (tminsep P) || Rleb (tmaxsep P) d2) eqn:A2; [discriminate|].
    destruct (Rltb d3 (tminsep P) || Rleb (tmaxsep P) d3) eqn:A3; [discriminate|].
    destruct (ccw (tmetric P) (tcoord P) p1 p3 p2) eqn:AC; [cbn [negb] in H|discriminate].
    destruct (Rltb ph (tminu P) || Rleb (tmaxu P) ph) eqn:AP; [discriminate|]. btrue.
    assert (K2 := proj1 (KR d2 D2) ltac:(lra)). assert (K3 := proj1 (KR d3 D3) ltac:(lra)).
    assert (K4 := proj1 KP ltac:(lra)).
    rewrite (floorTo_in _ _ K2), (floorTo_in _ _ K3), (floorGe_in _ _ K4) in H.
    match type of H with (if ?b then _ else _) = _ => destruct b; [discriminate|] end.
    injection H; intros E1 E2 E3. split; auto. split; auto. split; auto.
    pose proof (Int_part_range _ _ K2). pose proof (Int_part_range _ _ K3). pose proof (Int_part_range _ _ K4).
    eexists _, _, _. split; [|symmetry; exact E1]. unfold inBinsS. repeat split; auto; lia.
  - intros [HC [-> [-> [k2 [k3 [kp [HB Hk]]]]]]].
    destruct HB as [_ [_ [B2 [B3 [B4 [I2 [I3 I4]]]]]]].
    assert (IN : forall x j n, Int_part x = j -> (0 <= j < n)%Z -> 0 <= x < IZR n).
    { intros x j n E Hj. apply floor_iff in E. assert (IZR 0 <= IZR j) by (apply IZR_le; lia).
      assert (IZR (j + 1) <= IZR n) by (apply IZR_le; lia). lra. }
    assert (K2 := IN _ _ _ I2 B2). assert (K3 := IN _ _ _ I3 B3). assert (K4 := IN _ _ _ I4 B4).
    assert (R2 := proj2 (KR d2 D2) K2). assert (R3 := proj2 (KR d3 D3) K3). assert (R4 := proj2 KP K4).
    assert (T2 : Rltb d2 (tminsep P) || Rleb (tmaxsep P) d2 = false).
    { apply orb_false_iff. split; [apply Rltb_false|apply Rleb_false]; lra. }
    assert (T3 : Rltb d3 (tminsep P) || Rleb (tmaxsep P) d3 = false).
    { apply orb_false_iff. split; [apply Rltb_false|apply Rleb_false]; lra. }
    assert (T4 : Rltb ph (tminu P) || Rleb (tmaxu P) ph = false).
    { apply orb_false_iff. split; [apply Rltb_false|apply Rleb_false]; lra. }
    rewrite T2, T3, T4, HC. cbn [negb].
    rewrite (floorTo_in _ _ K2), (floorTo_in _ _ K3), (floorGe_in _ _ K4), I2, I3, I4.
    pose proof (placeS_range k2 k3 kp B2 B3 B4) as PR. unfold placeS in PR, Hk. rewrite <- Hk in *.
    assert (X1 : (k <? 0)%Z = false) by (apply Z.ltb_ge; lia).
    assert (X2 : (k >=? tntot P)%Z = false) by (rewrite Z.geb_leb; apply Z.leb_gt; lia).
    rewrite X1, X2. reflexivity.
Qed.

Lemma ccwS_spec a b c : ccw (tmetric P) (tcoord P) (opos a) (opos b) (opos c) = ccwSpec (tcoord P) a b c.
Proof. apply ccw_spec; auto. Qed.
Lemma pd_side a b : pdist (opos a) (opos b) = euclid (opos a) (opos b).
Proof. unfold euclid, pdist, norm, normSq, psub. cbn [px py pz]. f_equal; ring. Qed.
Lemma angleAt_phi a b c : angleAt a b c = phiOf (opos a) (opos b) (opos c).
Proof.
  unfold angleAt, phiOf, angle, side2, side3. rewrite !pdist_psub, !pd_side. reflexivity.
Qed.

Lemma selSAS_iff k a b c : selSAS P k a b c = true <->
  (0 <= k < tnbins P * tnbins P * tnubins P)%Z /\ 0 < side1 a b c /\
  inBinsS (k2Of P k) (k3Of P k) (kpOf P k) (side2 a b c) (side3 a b c) (angleAt a b c) /\
  ccwSpec (tcoord P) a c b = true.
Proof.
  unfold selSAS. rewrite !andb_true_iff, Z.leb_le, Z.ltb_lt, !Rltb_true, Rleb_true.
  pose proof (vs_ubs _ V) as V3.
  rewrite lin_iff, lin_iff_lt by auto. unfold inBinsS. rewrite (floor_iff ((angleAt a b c - _) / _)).
  split.
  - intros [[[[[[[H1 H2] H3] H4] H5] H6] H7] H8].
    pose proof (logBin_pos _ _ H4). pose proof (logBin_pos _ _ H5).
    apply logBin_iff in H4, H5; auto. pose proof (decode_rangeS k ltac:(lia)) as [? [? ?]].
    repeat split; auto; lia.
  - intros [H1 [H2 [[H3 [H4 [H5 [H6 [H7 [H8 [H9 H10]]]]]]] H11]]].
    apply logBin_iff in H8, H9; auto. repeat split; auto; try lia; tauto.
Qed.

(** A labelled triangle contributes to place k exactly as specified. *)
Lemma labSG_sel ov k a b c : labSG P (ind k) ov a b c =
  if selSAS P k a b c then
    ov a b c (side1 a b c) (side2 a b c) (side3 a b c) (angleAt a b c) (cos (angleAt a b c))
  else 0.
Proof.
  unfold labSG. rewrite !pd_side. fold (side1 a b c) (side2 a b c) (side3 a b c).
  change (euclid (opos b) (opos c)) with (side1 a b c). change (euclid (opos a) (opos c)) with (side2 a b c).
  change (euclid (opos a) (opos b)) with (side3 a b c).
  destruct (Rltb 0 (side1 a b c)) eqn:E1.
  2:{ apply Rltb_false in E1. destruct (selSAS P k a b c) eqn:S; auto. apply selSAS_iff in S. lra. }
  apply Rltb_true in E1.
  destruct (Rlt_dec 0 (side2 a b c)) as [D2|D2].
  2:{ destruct (selSAS P k a b c) eqn:S; [apply selSAS_iff in S as [_ [_ [[S _] _]]]; contradiction|].
      unfold rangeSAS. assert (T : Rltb (side2 a b c) (tminsep P) = true)
        by (apply Rltb_true; pose proof (vs_minsep _ V); lra).
      rewrite T. auto. }
  destruct (Rlt_dec 0 (side3 a b c)) as [D3|D3].
  2:{ destruct (selSAS P k a b c) eqn:S; [apply selSAS_iff in S as [_ [_ [[_ [S _]] _]]]; contradiction|].
      unfold rangeSAS. assert (T : Rltb (side3 a b c) (tminsep P) = true)
        by (apply Rltb_true; pose proof (vs_minsep _ V); lra).
      rewrite T. destruct (Rltb (side2 a b c) (tminsep P) || _); auto. }
  assert (EC : cosphiOf (side1 a b c * side1 a b c) (side2 a b c * side2 a b c) (side3 a b c * side3 a b c) =
               cos (angleAt a b c)).
  { rewrite angleAt_phi. unfold side1, side2, side3 in *. rewrite <- !pd_side in *. apply cosphi_cos; auto. }
  rewrite EC. assert (PB : 0 <= angleAt a b c <= PI) by (rewrite angleAt_phi; apply phiOf_bound).
  destruct (rangeSAS P O3 (opos a) (opos b) (opos c) (side2 a b c) (side3 a b c) (cos (angleAt a b c)))
    as [[[u v] j]|] eqn:ER.
  - apply rangeSAS_iff in ER; auto. destruct ER as [HC [-> [-> [k2 [k3 [kp [HB Hj]]]]]]].
    rewrite ccwS_spec in HC. pose proof HB as [_ [_ [B2 [B3 [B4 _]]]]].
    destruct (placeS_decode k2 k3 kp B2 B3 B4) as [X2 [X3 X4]].
    unfold ind. destruct (k =? j)%Z eqn:EK.
    + apply Z.eqb_eq in EK. rewrite EK.
      assert (S : selSAS P j a b c = true).
      { apply selSAS_iff. rewrite Hj, X2, X3, X4. split; [|auto].
        pose proof (placeS_range k2 k3 kp B2 B3 B4) as PR. rewrite ntotS in PR. lia. }
      rewrite S, Rmult_1_l. auto.
    + destruct (selSAS P k a b c) eqn:S; [|lra]. exfalso. apply Z.eqb_neq in EK. apply EK.
      apply selSAS_iff in S as [_ [_ [[_ [_ [_ [_ [_ [S2 [S3 S4]]]]]]] _]]].
      destruct HB as [_ [_ [_ [_ [_ [H2 [H3 H4]]]]]]].
      rewrite Hj, <- H2, <- H3, <- H4, S2, S3, S4. symmetry. apply placeS_encode.
  - destruct (selSAS P k a b c) eqn:S; auto. exfalso.
    apply selSAS_iff in S as [_ [_ [S1 S2]]].
    assert (X : rangeSAS P O3 (opos a) (opos b) (opos c) (side2 a b c) (side3 a b c) (cos (angleAt a b c)) =
      Some (angleAt a b c, cos (angleAt a b c), placeS (k2Of P k) (k3Of P k) (kpOf P k))).
    { apply rangeSAS_iff; auto. rewrite ccwS_spec. split; auto. split; auto. split; auto.
      eexists _, _, _. split; [exact S1|auto]. }
    congruence.
Qed.
Lemma labS_sas f k a b c : labS P (ind k) f a b c = sas P f k a b c.
Proof.
  unfold labS. rewrite labSG_sel. unfold sas, oval, sasVal. destruct (selSAS P k a b c); auto.
Qed.
Lemma G_sas f k O a b c : G (hS P (ind k) f O) O a b c =
  match O with O3 => sas P f k a b c | O1 => sas1 P f k a b c | O0 => sas6 P f k a b c end.
Proof. unfold hS, hSG. destruct O; unfold G; fold (labS P (ind k) f); rewrite !labS_sas; unfold sas6, sas1; lra. Qed.

Lemma orientedS l : oriented (tcoord P) l -> forall a b c, In a l -> In b l -> In c l ->
  0 < pdist (opos b) (opos c) -> 0 < pdist (opos a) (opos c) -> 0 < pdist (opos a) (opos b) ->
  ccw (tmetric P) (tcoord P) (opos a) (opos b) (opos c) = true \/
  ccw (tmetric P) (tcoord P) (opos a) (opos c) (opos b) = true.
Proof. intros H a b c Ha Hb Hc. rewrite !pd_side, !ccwS_spec. apply H; auto. Qed.
End BinsS.
