(** C85: refutations and examples for the binning parameters of the three-point correlations. *)
From Coq Require Import Reals Lra Lia List ZArith Bool Psatz.
From Verif Require Import Base Geometry Tree Spec GeomFacts Binning PropsBin Corr3 SpecTri SpecSas Bin3 PropsBin3.
Import ListNotations.
Open Scope R_scope.

Definition noR : rargs := mkRA None None None None.
Lemma radial_simple : radial (Some 1) None (Some 1%Z) (Some 1) = Some (mkPars 1 (exp (1 * 1) * 1) 1 1, 1).
Proof. unfold radial. cbn [c_min c_nbins]. rewrite (proj2 (Rleb_false 1 0)) by lra. reflexivity. Qed.
Lemma posO_some x : 0 < x -> posO (Some x). Proof. intros H s E. injection E as <-. auto. Qed.
Lemma posO_none : posO None. Proof. intros s E. discriminate. Qed.
Lemma posN_some x : (0 < x)%Z -> posN (Some x). Proof. intros H s E. injection E as <-. auto. Qed.
Lemma posN_none : posN None. Proof. intros s E. discriminate. Qed.
#[local] Hint Resolve posO_none posN_none : core.

(** max_v = 1/2, nvbins = 10, vbin_size = 1/10: min_v = -1/2 is accepted; the bins of the positive and of the negative v overlap. *)
Definition negV : args3 := mkA3 LogRUV (Some 1) None (Some 1%Z) (Some 1) (mkRA None None (Some 1%Z) None)
  (mkRA None (Some (1/2)) (Some 10%Z) (Some (1/10))) noR 1 1 0 0.
Lemma negV_sane : sane3 negV.
Proof.
  unfold sane3, saneR. cbn. repeat split; auto; try lra; try (apply posO_some; lra); apply posN_some; lia.
Qed.
Lemma negV_builds m c : exists P, build3 negV m c = Some P /\ tminv P = - (1/2) /\ tmaxv P = 1/2 /\ tnvbins P = 10%Z /\ tvbinsize P = 1/10.
Proof.
  unfold build3, negV. cbn [a_min a_max a_n a_size a_bt a_phi a_u a_v a_sepunits a_slop a_aslop]. rewrite radial_simple. cbn [noneGiven noR r_min r_max r_n r_size isNone andb negb].
  unfold uBins. cbn [r_min r_max r_n r_size get isNone allGiven negb andb]. rewrite (proj2 (Rltb_false 0 0)), (proj2 (Rltb_false 1 1)), (proj2 (Rleb_false 1 0)) by lra. cbn [orb].
  unfold finish at 1. cbn [Z.leb Z.compare].
  unfold vBins. cbn [r_min r_max r_n r_size get isNone allGiven negb andb].
  rewrite (proj2 (Rltb_false 0 0)), (proj2 (Rltb_false 1 (1/2))), (proj2 (Rleb_false (1/2) 0)) by lra. cbn [orb].
  replace (Rmax (1/2 - 10 * (1/10)) (-1)) with (- (1/2)) by (unfold Rmax; destruct Rle_dec; lra).
  unfold finish. cbn [Z.leb Z.compare]. eexists. split; [reflexivity|]. cbn. repeat split; lra.
Qed.
(** v lies in bin k of the positive v; -v in bin k' counts as v in the k'-th bin of the negative v *)
Definition vIn (P : tparams) (k : Z) (v : R) : Prop :=
  (0 <= k < tnvbins P)%Z /\ tminv P + IZR k * tvbinsize P <= v < tminv P + IZR (k + 1) * tvbinsize P.
Theorem C85_minv_refuted m c : exists a P v k k', sane3 a /\ build3 a m c = Some P /\ tminv P < 0 /\
  vIn P k v /\ vIn P k' (- v).
Proof.
  destruct (negV_builds m c) as [P [B [E1 [E2 [E3 E4]]]]]. exists negV, P, (1/4), 7%Z, 2%Z.
  split; [apply negV_sane|]. split; auto. split; [lra|]. unfold vIn. rewrite E1, E3, E4. cbn. repeat split; try lia; lra.
Qed.

(** phi_units applies to min_phi and max_phi and not to phi_bin_size *)
Theorem C85_phi_units mn mx n s pu bs : 0 < pu ->
  phiBins (mkRA mn mx n s) pu bs = phiBins (mkRA (option_map (fun x => x * pu) mn) (option_map (fun x => x * pu) mx) n s) 1 bs.
Proof.
  intro H. unfold phiBins, allGiven. cbn [r_min r_max r_n r_size].
  assert (E1 : get mn 0 * pu = get (option_map (fun x => x * pu) mn) 0 * 1) by (destruct mn; cbn; ring).
  assert (E2 : get mx (PI / pu) * pu = get (option_map (fun x => x * pu) mx) (PI / 1) * 1) by (destruct mx; cbn; field; lra).
  rewrite E1, E2. destruct mn, mx; reflexivity.
Qed.
(** phi_bin_size = 10 with phi_units = degrees gives one bin of 180 degrees *)
Theorem C85_phi_size_refuted : exists a pu bs p s, saneR a /\ 0 < pu /\ 0 < bs /\ phiBins a pu bs = Some p /\ r_size a = Some s /\
  s * pu < c_size p /\ c_nbins p = 1%Z.
Proof.
  exists (mkRA None None None (Some 10)), (PI / 180), 1, (mkPars 0 PI 1 PI), 10.
  assert (HP := PI_RGT_0). assert (H4 := PI_4). assert (H10 : 0 < / 10 ^ 10 < 1) by (split; [apply Rinv_0_lt_compat; lra|lra]).
  assert (H3 := PI2_3_2).
  split; [split; cbn; auto; apply posO_some; lra|]. split; [lra|]. split; [lra|]. split; [|split; [reflexivity|split; [cbn; lra|reflexivity]]].
  unfold phiBins. cbn [r_min r_max r_n r_size get]. replace (PI / (PI / 180) * (PI / 180)) with PI by (field; lra). rewrite Rmult_0_l.
  rewrite (proj2 (Rltb_false 0 0)), (proj2 (Rltb_false PI PI)), (proj2 (Rleb_false PI 0)) by lra. cbn [orb].
  unfold ceilRange. destruct (Req_EM_T 10 0); [lra|].
  assert (E : ceilZ ((PI - 0 - / 10 ^ 10) / 10) = 1%Z).
  { destruct (ceilZ_spec ((PI - 0 - / 10 ^ 10) / 10)) as [C1 C2]. set (z := ceilZ _) in *. assert (0 < IZR z < 2) by lra.
    destruct H as [A B]. apply lt_IZR in A, B. lia. }
  rewrite E. unfold finish. cbn [Z.leb Z.compare]. f_equal. f_equal. lra.
Qed.

(** ** Examples *)
Example C85_ruv_example m c : exists P, let a := mkA3 LogRUV (Some 1) None (Some 1%Z) (Some 1) (mkRA None None (Some 2%Z) (Some (1/5)))
  (mkRA (Some (1/2)) None (Some 4%Z) None) noR 60 1 (-1) (1/10) in
  sane3 a /\ build3 a m c = Some P /\ validRUV P /\ tminu P = 3/5 /\ tvbinsize P = 1/8 /\ tbv P = 1/10.
Proof.
  set (a := mkA3 _ _ _ _ _ _ _ _ _ _ _ _). assert (S : sane3 a).
  { unfold sane3, saneR. cbn. repeat split; auto; try lra; try (apply posO_some; lra); apply posN_some; lia. }
  assert (X : exists P, build3 a m c = Some P /\ tminv P = 1/2 /\ tminu P = 3/5 /\ tvbinsize P = 1/8 /\ tbv P = 1/10).
  { unfold build3, a. cbn [a_min a_max a_n a_size a_bt a_phi a_u a_v a_sepunits a_slop a_aslop]. rewrite radial_simple. cbn [noneGiven noR r_min r_max r_n r_size isNone andb negb].
    unfold uBins. cbn [r_min r_max r_n r_size get isNone allGiven negb andb]. rewrite (proj2 (Rltb_false 0 0)), (proj2 (Rltb_false 1 1)), (proj2 (Rleb_false 1 0)) by lra. cbn [orb].
    unfold finish at 1. cbn [Z.leb Z.compare].
    unfold vBins. cbn [r_min r_max r_n r_size get isNone allGiven negb andb].
    rewrite (proj2 (Rltb_false (1/2) 0)), (proj2 (Rltb_false 1 1)), (proj2 (Rleb_false 1 (1/2))) by lra. cbn [orb].
    unfold finish. cbn [Z.leb Z.compare]. eexists. split; [reflexivity|]. cbn. repeat split; try lra.
    - unfold Rmax. destruct Rle_dec; lra.
    - unfold slopOf. rewrite (proj2 (Rltb_true _ _)) by lra. rewrite (proj2 (Rleb_false _ _)) by lra. reflexivity. }
  destruct X as [P [B [E1 [E2 [E3 E4]]]]]. exists P. cbv zeta. split; auto. split; auto. split; [|auto].
  apply (C85_ruv a m c P S eq_refl B). lra.
Qed.
Example C85_sas_example m c : exists P, let a := mkA3 LogSAS None (Some 100) (Some 20%Z) (Some (1/10)) noR noR
  (mkRA (Some 30) (Some 90) (Some 6%Z) None) 1 (PI / 180) 0 0 in
  sane3 a /\ build3 a m c = Some P /\ validSAS P /\ tubinsize P = PI / 18 /\ noSlopSAS P.
Proof.
  set (a := mkA3 _ _ _ _ _ _ _ _ _ _ _ _). assert (HP := PI_RGT_0). assert (S : sane3 a).
  { unfold sane3, saneR. cbn. repeat split; auto; try lra; try (apply posO_some; lra); apply posN_some; lia. }
  assert (X : exists P, build3 a m c = Some P /\ tubinsize P = PI / 18).
  { unfold build3, a. cbn [a_min a_max a_n a_size a_bt a_phi a_u a_v a_sepunits a_phiunits a_slop a_aslop].
    unfold radial. cbn [c_min c_nbins]. assert (HM : 0 < 100 * exp (- IZR 20 * (1/10))) by (apply Rmult_lt_0_compat; [lra|apply exp_pos]).
    rewrite (proj2 (Rleb_false _ _) HM). cbn [Z.ltb Z.compare noneGiven noR r_min r_max r_n r_size isNone andb negb orb].
    unfold phiBins. cbn [r_min r_max r_n r_size get isNone allGiven negb andb].
    rewrite (proj2 (Rltb_false (30 * (PI / 180)) 0)), (proj2 (Rltb_false PI (90 * (PI / 180)))), (proj2 (Rleb_false (90 * (PI / 180)) (30 * (PI / 180)))) by lra. cbn [orb].
    unfold finish. cbn [Z.leb Z.compare]. eexists. split; [reflexivity|]. cbn. lra. }
  destruct X as [P [B E]]. exists P. cbv zeta. split; auto. split; auto. destruct (C85_sas a m c P S eq_refl B) as [V [_ [_ EA]]]. split; auto. split; auto.
  destruct (C85_slop a m c P S B) as [SL _]. destruct SL as [X1 [X2 _]]; [reflexivity|]. split; auto. split; auto. rewrite EA. cbn. lra.
Qed.
