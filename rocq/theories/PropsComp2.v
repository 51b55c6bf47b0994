(** C75: variance of the compensated estimate, concrete cases and refutations. *)
From Coq Require Import Reals Lra Lia List ZArith Bool Permutation Psatz.
From Verif Require Import Base Geometry Tree Traverse Run Corr Patch Cov Spec SpecRun GeomFacts SumFacts TreeFacts
  BinFacts TravFacts Exact MetricFacts Cover Lift Runs Account PropsCount PropsCorr PatchFacts PropsPatch CovFacts Examples
  PropsCov Comp PropsComp.
Import ListNotations.
Open Scope R_scope.

(** ** Variance *)
Definition shotVar (v w : R) : R := if Req_EM_T w 0 then 0 else v / w.
(** Without patches: var/weight of the data plus var/weight of the randoms. *)
Theorem C75_varxi_unpatched B a n1 n2 v b resr m1 m2 vr s' :
  zcalcXi B VShot VShot (mkNZ (zfinalize B a [] n1 n2 v) None) (Some (zfinalize B b resr m1 m2 vr)) = Some s' ->
  exists x, varxi B VShot s' = Some (s', x) /\ forall k, x k = shotVar v (a ZW k) + shotVar vr (b ZW k).
Proof.
  assert (WF : forall c k, zfin B c ZW k = c ZW k) by (intros; unfold zfin; destruct (Req_EM_T _ 0); auto).
  assert (SV : forall x c k, (if Req_EM_T (zfin B c ZW k) 0 then zfin B c ZW k else x / zfin B c ZW k) = shotVar x (c ZW k)).
  { intros. rewrite WF. unfold shotVar. destruct (Req_EM_T _ 0); auto. }
  assert (SV0 : forall w, shotVar 0 w = 0).
  { intro w. unfold shotVar. destruct (Req_EM_T w 0); auto. unfold Rdiv. ring. }
  unfold zcalcXi. simpl. destruct (((_ =? _)%Z || _) && _); [|discriminate].
  unfold rawVarxi, varxi, covDiag, rawVarxi; simpl. destruct (Req_EM_T v 0) as [E|E].
  - subst v. unfold rawVarxi; simpl. destruct (Req_EM_T vr 0) as [E'|E'].
    + subst vr. intro H. inversion H; subst; simpl. eexists. split; [reflexivity|]. intro k. rewrite !SV0. simpl. lra.
    + unfold covDiag; simpl. intro H. inversion H; subst; simpl. eexists. split; [reflexivity|]. intro k.
      rewrite SV0. simpl. rewrite SV. auto.
  - unfold rawVarxi; simpl. destruct (Req_EM_T vr 0) as [E'|E'].
    + subst vr. intro H. inversion H; subst; simpl. eexists. split; [reflexivity|]. intro k. rewrite SV0. simpl.
      rewrite SV. auto.
    + unfold covDiag; simpl. intro H. inversion H; subst; simpl. eexists. split; [reflexivity|]. intro k. simpl.
      rewrite !SV. auto.
Qed.

(** With patches and jackknife: (1 - 1/n) times the sum of squared deviations of the n compensated estimates
    without patch i. *)
Definition compWithout (o r : zobj) (k i : Z) : R :=
  meanOver (z_res o) X1 (jackPairs (z_n1 o) (z_n2 o) i (zkeys (z_res o))) k
  - meanOver (z_res r) X1 (jackPairs (z_n1 r) (z_n2 r) i (zkeys (z_res r))) k.
Lemma zrows_jack B o r is : compat o r ->
  (forall i, In i is -> jackPairs (z_n1 r) (z_n2 r) i (zkeys (z_res r)) <> []) ->
  let d := addDummies (z_res o) (zkeys (z_res r)) in
  exists rows, zrows B d (Some r) (map (fun i => jackPairs (z_n1 o) (z_n2 o) i (zkeys d)) is) = Some rows /\
    forall k, map (fun a => a X1 k) rows = map (compWithout o r k) is.
Proof.
  intros H HN d. induction is as [|i is IH]; cbn [map].
  - exists []. auto.
  - destruct IH as [rows [Er Hr]]; [intros; apply HN; simpl; auto|].
    pose proof (rz_jack _ _ i H) as P. cbv zeta in P. fold d in P.
    destruct (comp_row B o r (jackPairs (z_n1 o) (z_n2 o) i (zkeys d)) H) as [a [Ea [A1 _]]].
    + intros ij Hi. rewrite jack_filter in Hi. apply filter_In in Hi. tauto.
    + intro E. rewrite E in P. apply Permutation_nil in P. apply (HN i); simpl; auto.
    + fold d in Ea, A1. destruct (jackPairs (z_n1 o) (z_n2 o) i (zkeys d)) as [|p ps] eqn:EP.
      { exfalso. apply (HN i); simpl; auto. unfold rzPairs in P. simpl in P. rewrite andb_false_r in P.
        apply Permutation_nil; auto. }
      cbn [zrows]. rewrite Ea, Er. exists (a :: rows). split; auto. intro k. simpl. rewrite Hr. f_equal.
      rewrite A1. unfold compWithout. f_equal.
      * rewrite <- EP, !jack_filter. apply meanOver_dummies; apply H.
      * apply meanOver_perm; auto.
Qed.
Theorem C75_varxi_jackknife B mr o r : compat o r ->
  (0 < npatchOf (z_n1 o) (z_n2 o))%Z ->
  (forall i, (0 <= i < npatchOf (z_n1 o) (z_n2 o))%Z -> jackPairs (z_n1 r) (z_n2 r) i (zkeys (z_res r)) <> []) ->
  exists s' x, zcalcXi B VJack mr (mkNZ o None) (Some r) = Some s' /\
    varxi B VJack s' = Some (s', x) /\ covDiag B VJack s' = Some (s', x) /\
    let is := zrange (npatchOf (z_n1 o) (z_n2 o)) in let n := IZR (npatchOf (z_n1 o) (z_n2 o)) in
    forall k, let mean := sumR (compWithout o r k) is / n in
      x k = (1 - 1 / n) * sumR (fun i => (compWithout o r k i - mean)²) is.
Proof.
  intros H HP HN.
  assert (RG : forall i, In i (zrange (npatchOf (z_n1 o) (z_n2 o))) -> (0 <= i < npatchOf (z_n1 o) (z_n2 o))%Z).
  { intros i Hi. unfold zrange in Hi. apply in_map_iff in Hi as [x [<- Hx]]. apply in_seq in Hx. lia. }
  destruct (zrows_jack B o r (zrange (npatchOf (z_n1 o) (z_n2 o))) H) as [rows [Er Hr]].
  { intros i Hi. apply HN; auto. }
  unfold zcalcXi. cbn [zo].
  assert (((z_n1 r =? 1)%Z || (z_n1 r =? z_n1 o)%Z) && (z_n2 r =? z_n2 o)%Z = true) as ->.
  { rewrite (cp_n2 _ _ H), Z.eqb_refl, andb_true_r. apply orb_true_iff.
    destruct (cp_n1 _ _ H) as [E|[E _]]; rewrite E; [right; apply Z.eqb_refl|left; reflexivity]. }
  pose proof (cp_ne _ _ H) as NE. destruct (z_res o) as [|kv rest] eqn:EO; [congruence|].
  unfold estimateCov. cbn [zo z_res z_n1 z_n2 zrz].
  destruct (addDummies_spec (z_res o) (zkeys (z_res r))) as [ks' [A _]]; try apply H.
  destruct (addDummies (kv :: rest) (zkeys (z_res r))) as [|kv' rest'] eqn:ED.
  { rewrite EO, ED in A. simpl in A. discriminate. }
  unfold jackRows. cbv zeta in Er. rewrite Er. cbn [option_map].
  eexists. eexists. split; [reflexivity|]. split; [reflexivity|]. split; [reflexivity|].
  cbv zeta. intro k. set (is := zrange (npatchOf (z_n1 o) (z_n2 o))) in *. set (n := IZR (npatchOf (z_n1 o) (z_n2 o))).
  cbn beta. rewrite Hr. unfold jackVar. fold is.
  assert (EN : INR (length (map (compWithout o r k) is)) = n).
  { unfold is, zrange, n. rewrite !map_length, seq_length, INR_IZR_INZ, Z2Nat.id by lia. auto. }
  rewrite EN, !sumR_map. f_equal.
Qed.

(** ** A concrete case: two patches, one bin with values *)
Definition cst (x1 x2 w n : R) : arrs := fun f k =>
  match f with X1 => x1 | X2 => x2 | ZMR => w | ZMLR => 0 | ZW => w | ZNP => n end.
(** lenses: mean 1 in patch 0 (one pair of weight 1), mean 3 in patch 1, none between the patches *)
Definition exRes : zdict := [((0, 0)%Z, cst 1 1 1 1); ((1, 1)%Z, cst 3 0 1 1)].
(** randoms: mean 0, 2, and a pair of patches that the lenses do not have *)
Definition exResR : zdict := [((0, 0)%Z, cst 0 1 1 1); ((0, 1)%Z, cst 1 1 1 1); ((1, 1)%Z, cst 2 1 1 1)].
Definition sumOf (d : zdict) : arrs := zsum (map snd d).
Definition exD : zobj := zfinalize exB (sumOf exRes) exRes 2 2 1.
Definition exR : zobj := zfinalize exB (sumOf exResR) exResR 2 2 1.
Lemma ex_compat : compat exD exR.
Proof.
  constructor; simpl; auto; try discriminate.
  - repeat constructor; simpl; intuition discriminate.
  - repeat constructor; simpl; intuition discriminate.
  - intros ij [<-|[<-|[]]]; unfold inRange; simpl; lia.
  - intros ij [<-|[<-|[<-|[]]]]; unfold inRange; simpl; lia.
Qed.
Example C75_jackknife_example : exists s' x, zcalcXi exB VJack VJack (mkNZ exD None) (Some exR) = Some s' /\
  varxi exB VJack s' = Some (s', x) /\ zxi (zo s') 0%Z = 1 /\ x 0%Z = 0.
Proof.
  destruct (C75_varxi_jackknife exB VJack exD exR ex_compat) as [s' [x [HC [HX [_ HV]]]]].
  { reflexivity. }
  { intros i Hi. assert (i = 0 \/ i = 1)%Z as [->| ->] by (unfold npatchOf in Hi; simpl in Hi; lia); discriminate. }
  exists s', x. split; auto. split; auto. split.
  - destruct (C75_compensated _ _ _ _ _ _ HC) as [-> _]. unfold zxi, exD, exR, zfinalize, zfin, sumOf, zsum; simpl.
    repeat destruct (Req_EM_T _ 0); try lra.
  - rewrite HV. unfold npatchOf. simpl. unfold compWithout, meanOver, wmean, zval. simpl.
    repeat destruct (Req_EM_T _ 0); try lra; try (exfalso; lra). unfold Rsqr. lra.
Qed.
Example C75_all_pairs_example : exists s' a, zcalcXi exB VJack VJack (mkNZ exD None) (Some exR) = Some s' /\
  compFrom exB (z_res (zo s')) (zrz s') (zkeys (z_res (zo s'))) = Some a /\ a X1 0%Z = zxi (zo s') 0%Z.
Proof.
  destruct C75_jackknife_example as [s' [_ [HC _]]]. exists s'.
  destruct (C75_all_pairs exB VJack VJack (mkNZ exD None) exR s' ex_compat HC) as [a [Ha HA]].
  - discriminate.
  - auto.
  - auto.
  - exists a. auto.
Qed.
Example C75_unpatched_example : exists s' x,
  zcalcXi exB VShot VShot (mkNZ (zfinalize exB (cst 4 1 2 2) [] 1 1 3) None)
    (Some (zfinalize exB (cst 1 1 4 4) [] 1 1 3)) = Some s' /\ varxi exB VShot s' = Some (s', x) /\
  zxi (zo s') 0%Z = 7 / 4 /\ zxim (zo s') 0%Z = 1 / 4 /\ x 0%Z = 9 / 4.
Proof.
  assert (E : exists s', zcalcXi exB VShot VShot (mkNZ (zfinalize exB (cst 4 1 2 2) [] 1 1 3) None)
    (Some (zfinalize exB (cst 1 1 4 4) [] 1 1 3)) = Some s').
  { unfold zcalcXi, rawVarxi, varxi, rawVarxi; simpl. repeat (destruct (Req_EM_T _ 0); try (exfalso; lra)).
    eexists; reflexivity. }
  destruct E as [s' E]. destruct (C75_varxi_unpatched _ _ _ _ _ _ _ _ _ _ _ E) as [x [Hx HX]].
  exists s', x. split; auto. split; auto.
  destruct (C75_estimate _ _ _ _ _ _ _ _ _ _ _ _ _ _ 0%Z E) as [A B]; simpl; try lra.
  rewrite A, B, HX. unfold shotVar; simpl. repeat (destruct (Req_EM_T _ 0); try (exfalso; lra)). lra.
Qed.

(** ** Refutations *)
(** The imaginary part is compensated by calculateXi, but not in the resampled estimates: with all patches they
    give back the raw xi_im. *)
Theorem C75_imag_refuted : exists B o r s' a, compat o r /\ zcalcXi B VJack VJack (mkNZ o None) (Some r) = Some s' /\
  (forall f k, z_arr o f k = zfin B (zsum (map snd (z_res o))) f k) /\
  (forall f k, z_arr r f k = zfin B (zsum (map snd (z_res r))) f k) /\
  compFrom B (z_res (zo s')) (zrz s') (zkeys (z_res o)) = Some a /\ zkeys (z_res (zo s')) = zkeys (z_res o) /\
  zxim (zo s') 0%Z = - 1 / 2 /\ a X2 0%Z = 1 / 2.
Proof.
  set (rr := [((0, 0)%Z, cst 0 1 1 1); ((1, 1)%Z, cst 2 1 1 1)]).
  set (r := zfinalize exB (sumOf rr) rr 2 2 1).
  assert (CP : compat exD r).
  { constructor; simpl; auto; try discriminate.
    - repeat constructor; simpl; intuition discriminate.
    - repeat constructor; simpl; intuition discriminate.
    - intros ij [<-|[<-|[]]]; unfold inRange; simpl; lia.
    - intros ij [<-|[<-|[]]]; unfold inRange; simpl; lia. }
  destruct (C75_varxi_jackknife exB VJack exD r CP) as [s' [x [HC _]]].
  { reflexivity. }
  { intros i Hi. assert (i = 0 \/ i = 1)%Z as [->| ->] by (unfold npatchOf in Hi; simpl in Hi; lia); discriminate. }
  destruct (calc_res _ _ _ (mkNZ exD None) _ _ (cp_ne _ _ CP) HC) as [E1 [E2 _]].
  destruct (comp_row exB exD r (zkeys (z_res exD)) CP) as [a [Ea [_ A2]]].
  { intros ij Hi. simpl in *. auto. }
  { discriminate. }
  exists exB, exD, r, s', a. split; auto. split; auto. split; [reflexivity|]. split; [reflexivity|].
  split; [rewrite E1, E2; exact Ea|]. split; [rewrite E1; reflexivity|]. split.
  - destruct (C75_compensated _ _ _ _ _ _ HC) as [_ [-> _]]. unfold zxim; simpl. unfold zfin, sumOf, zsum; simpl.
    repeat (destruct (Req_EM_T _ 0); try (exfalso; lra)). lra.
  - rewrite A2. unfold meanOver, wmean, zval; simpl. repeat (destruct (Req_EM_T _ 0); try (exfalso; lra)). lra.
Qed.

(** The dummy results keep the pair counts of the template: after calculateXi(rk) the stored results sum to more
    pairs than there are. *)
Theorem C75_dummy_refuted : exists B o r s', compat o r /\ zcalcXi B VJack VJack (mkNZ o None) (Some r) = Some s' /\
  (forall k, z_arr o ZNP k = zsum (map snd (z_res o)) ZNP k) /\
  z_arr (zo s') ZNP 0%Z = 2 /\ zsum (map snd (z_res (zo s'))) ZNP 0%Z = 3.
Proof.
  destruct C75_jackknife_example as [s' [_ [HC _]]]. exists exB, exD, exR, s'.
  destruct (calc_res _ _ _ (mkNZ exD None) _ _ (cp_ne _ _ ex_compat) HC) as [E1 _].
  destruct (C75_compensated _ _ _ _ _ _ HC) as [_ [_ [EA _]]].
  split; [apply ex_compat|]. split; auto. split; [|split].
  - intro k. simpl. unfold zfin. destruct (Req_EM_T _ 0); auto.
  - rewrite EA. simpl. unfold zfin, sumOf, zsum. simpl. destruct (Req_EM_T _ 0); lra.
  - rewrite E1. unfold zsum. simpl. lra.
Qed.

(** raw_varxi read after calculateXi(rk) is the compensated variance, although it is documented as that of the
    raw xi, which is what it gives when it is read before. *)
Theorem C75_raw_varxi_refuted : exists B o r s' x y, compat o r /\
  zcalcXi B VJack VJack (mkNZ o None) (Some r) = Some s' /\
  option_map snd (rawVarxi B VJack (mkNZ o None)) = Some x /\ option_map snd (rawVarxi B VJack s') = Some y /\
  x 0%Z = 1 /\ y 0%Z = 0.
Proof.
  destruct (C75_varxi_jackknife exB VJack exD exR ex_compat) as [s' [y [HC [HX [HD HV]]]]].
  { reflexivity. }
  { intros i Hi. assert (i = 0 \/ i = 1)%Z as [->| ->] by (unfold npatchOf in Hi; simpl in Hi; lia); discriminate. }
  assert (NR : z_rvx (zo s') = None /\ z_var (zo s') = 1).
  { unfold zcalcXi in HC. simpl in HC. inversion HC; subst. auto. }
  destruct NR as [NR NV].
  exists exB, exD, exR, s'. eexists. exists y. split; [apply ex_compat|]. split; auto.
  split; [|split; [|split]].
  - unfold rawVarxi. simpl. destruct (Req_EM_T 1 0); [exfalso; lra|]. reflexivity.
  - unfold rawVarxi. rewrite NR, NV. destruct (Req_EM_T 1 0); [exfalso; lra|]. rewrite HD. reflexivity.
  - cbn beta. unfold jackVar, zfin, zsum. simpl. repeat (destruct (Req_EM_T _ 0); try (exfalso; lra)). lra.
  - rewrite HV. unfold npatchOf. simpl. unfold compWithout, meanOver, wmean, zval. simpl.
    repeat destruct (Req_EM_T _ 0); try lra; try (exfalso; lra). unfold Rsqr. lra.
Qed.

(** With var_method='shot' (the default) the noise of the randoms is left out when the catalogs have patches. *)
Theorem C75_shot_refuted : exists B o r o0 s' s0' x x0, compat o r /\ o0 = mkZ (z_arr o) None None [] 1 1 None (z_var o) None None None /\
  zcalcXi B VShot VShot (mkNZ o None) (Some r) = Some s' /\
  zcalcXi B VShot VShot (mkNZ o0 None) (Some (mkZ (z_arr r) None None [] 1 1 None (z_var r) None None None)) = Some s0' /\
  (forall k, zxi (zo s') k = zxi (zo s0') k) /\ option_map snd (varxi B VShot s') = Some x /\
  option_map snd (varxi B VShot s0') = Some x0 /\ x 0%Z = 1 / 2 /\ x0 0%Z = 5 / 6.
Proof.
  set (o0 := mkZ (z_arr exD) None None [] 1 1 None (z_var exD) None None None).
  set (r0 := mkZ (z_arr exR) None None [] 1 1 None (z_var exR) None None None).
  assert (E : exists s' x, zcalcXi exB VShot VShot (mkNZ o0 None) (Some r0) = Some s' /\
     varxi exB VShot s' = Some (s', x) /\ x 0%Z = 5 / 6).
  { assert (E : exists s', zcalcXi exB VShot VShot (mkNZ o0 None) (Some r0) = Some s').
    { unfold zcalcXi, rawVarxi, varxi, rawVarxi, o0, r0; cbn [zo z_res z_n1 z_n2 z_rvx z_vx z_var upd exD exR zfinalize Z.eqb orb andb Pos.eqb].
      destruct (Req_EM_T 1 0); [exfalso; lra|]. eexists; reflexivity. }
    destruct E as [s' E]. destruct (C75_varxi_unpatched exB (sumOf exRes) 1 1 1 (sumOf exResR) [] 1 1 1 s' E) as [x [V X]].
    exists s', x. split; auto. split; auto. rewrite X. unfold shotVar, sumOf, zsum; simpl.
    repeat (destruct (Req_EM_T _ 0); try (exfalso; lra)). lra. }
  destruct E as [s0' [x0 [E0 [V0 HX0]]]].
  assert (E : exists s', zcalcXi exB VShot VShot (mkNZ exD None) (Some exR) = Some s') by (eexists; reflexivity).
  destruct E as [s' E].
  exists exB, exD, exR, o0, s', s0'. eexists. exists x0.
  split; [apply ex_compat|]. split; auto. split; auto. split; auto. split.
  { intro k. destruct (C75_compensated _ _ _ _ _ _ E) as [-> _]. destruct (C75_compensated _ _ _ _ _ _ E0) as [-> _].
    reflexivity. }
  split; [|split; [rewrite V0; reflexivity|split; auto]].
  - unfold zcalcXi in E. simpl in E. inversion E; subst. reflexivity.
  - cbn beta. unfold zfin, sumOf, zsum; simpl. repeat (destruct (Req_EM_T _ 0); try (exfalso; lra)). lra.
Qed.

(** calculateXi() without rk (also what write() without rk does) makes xi raw again, but leaves cov, and
    everything estimate_cov computes, compensated. *)
Theorem C75_reset_refuted : exists B o r s1 s2 x y, compat o r /\
  zcalcXi B VJack VJack (mkNZ o None) (Some r) = Some s1 /\ zcalcXi B VJack VJack s1 None = Some s2 /\
  (forall k, zxi (zo s2) k = z_arr o X1 k) /\
  option_map snd (covDiag B VJack s2) = Some x /\ option_map snd (covDiag B VJack (mkNZ o None)) = Some y /\
  x 0%Z = 0 /\ y 0%Z = 1.
Proof.
  destruct (C75_varxi_jackknife exB VJack exD exR ex_compat) as [s1 [x [HC [HX [HD HV]]]]].
  { reflexivity. }
  { intros i Hi. assert (i = 0 \/ i = 1)%Z as [->| ->] by (unfold npatchOf in Hi; simpl in Hi; lia); discriminate. }
  assert (F : z_rvx (zo s1) = None /\ z_var (zo s1) = 1 /\ z_cov (zo s1) = Some x).
  { unfold covDiag in HD. unfold zcalcXi in HC. simpl in HC. inversion HC; subst. simpl in *. inversion HD; subst. auto. }
  destruct F as [F1 [F2 F3]].
  destruct (C75_compensated _ _ _ _ _ _ HC) as [_ [_ [EA _]]].
  assert (E : exists s2, zcalcXi exB VJack VJack s1 None = Some s2 /\ z_cov (zo s2) = Some x /\
     z_xi (zo s2) = None /\ z_arr (zo s2) = z_arr (zo s1)).
  { unfold zcalcXi, rawVarxi, covDiag. simpl. rewrite F1, F2, F3. destruct (Req_EM_T 1 0); [exfalso; lra|].
    eexists; split; [reflexivity|]. auto. }
  destruct E as [s2 [E2 [C2 [X2' A2]]]].
  exists exB, exD, exR, s1, s2, x. eexists. split; [apply ex_compat|]. split; auto. split; auto. split; [|split; [|split; [|split]]].
  - intro k. unfold zxi. rewrite X2', A2. apply EA.
  - unfold covDiag. rewrite C2. reflexivity.
  - unfold covDiag. simpl. reflexivity.
  - rewrite HV. unfold npatchOf. simpl. unfold compWithout, meanOver, wmean, zval. simpl.
    repeat destruct (Req_EM_T _ 0); try lra; try (exfalso; lra). unfold Rsqr. lra.
  - cbn beta. unfold jackVar, zfin, zsum. simpl. repeat (destruct (Req_EM_T _ 0); try (exfalso; lra)). lra.
Qed.

(** Randoms without patches: for method 'sample' the row of patch 0 subtracts the mean around the randoms of all
    source patches, every other row only that of its own source patch. *)
Theorem C75_sample_refuted : exists B d r a0 a1, z_n1 r = 1%Z /\ z_n2 r = 2%Z /\
  zkeys d = [(0, 0); (0, 1); (1, 0); (1, 1)]%Z /\ zkeys (z_res r) = [(0, 0); (0, 1)]%Z /\
  (forall ij f k, zval d f k ij = zval d f k (1 - fst ij, 1 - snd ij)%Z) /\
  compFrom B d (Some r) (samplePairs 2 2 0 (zkeys d)) = Some a0 /\
  compFrom B d (Some r) (samplePairs 2 2 1 (zkeys d)) = Some a1 /\
  a0 X1 0%Z = meanOver d X1 [(0, 0); (0, 1)]%Z 0 - meanOver (z_res r) X1 [(0, 0); (0, 1)]%Z 0 /\
  a1 X1 0%Z = meanOver d X1 [(1, 0); (1, 1)]%Z 0 - meanOver (z_res r) X1 [(0, 1)]%Z 0 /\
  a0 X1 0%Z = 0 /\ a1 X1 0%Z = -1.
Proof.
  set (d := [((0, 0)%Z, cst 1 0 1 1); ((0, 1)%Z, cst 1 0 1 1); ((1, 0)%Z, cst 1 0 1 1); ((1, 1)%Z, cst 1 0 1 1)]).
  set (rr := [((0, 0)%Z, cst 0 0 1 1); ((0, 1)%Z, cst 2 0 1 1)]).
  exists exB, d, (zfinalize exB (sumOf rr) rr 1 2 1). eexists. eexists.
  split; [reflexivity|]. split; [reflexivity|]. split; [reflexivity|]. split; [reflexivity|].
  split.
  { intros [i j] f k. unfold zval, d. cbn [zget]. unfold keqb. cbn [fst snd].
    assert (A0 : (1 - i =? 0)%Z = (i =? 1)%Z) by (destruct (Z.eqb_spec (1 - i) 0), (Z.eqb_spec i 1); auto; lia).
    assert (A1 : (1 - i =? 1)%Z = (i =? 0)%Z) by (destruct (Z.eqb_spec (1 - i) 1), (Z.eqb_spec i 0); auto; lia).
    assert (B0 : (1 - j =? 0)%Z = (j =? 1)%Z) by (destruct (Z.eqb_spec (1 - j) 0), (Z.eqb_spec j 1); auto; lia).
    assert (B1 : (1 - j =? 1)%Z = (j =? 0)%Z) by (destruct (Z.eqb_spec (1 - j) 1), (Z.eqb_spec j 0); auto; lia).
    rewrite A0, A1, B0, B1. destruct (i =? 0)%Z, (i =? 1)%Z, (j =? 0)%Z, (j =? 1)%Z; reflexivity. }
  split; [reflexivity|]. split; [reflexivity|].
  cbn beta iota. unfold meanOver, wmean, zval, zfin, zsum, d, rr; simpl.
  repeat split; repeat (destruct (Req_EM_T _ 0); try (exfalso; lra)); lra.
Qed.

(** Lens patches only (the sources not split) and randoms without patches: the check of the patches passes, but
    the covariance cannot be computed, as no result of the randoms remains. *)
Theorem C75_unsplit_refuted : exists B o r, z_n1 o = 2%Z /\ z_n2 o = 1%Z /\ z_n1 r = 1%Z /\ z_n2 r = z_n2 o /\
  NoDup (zkeys (z_res o)) /\ (forall ij, In ij (zkeys (z_res o)) -> inRange (z_n1 o) (z_n2 o) ij) /\
  z_res r = [] /\ zcalcXi B VJack VJack (mkNZ o None) (Some r) = None.
Proof.
  set (d := [((0, 0)%Z, cst 1 0 1 1); ((1, 0)%Z, cst 1 0 1 1)]).
  exists exB, (zfinalize exB (sumOf d) d 2 1 1), (zfinalize exB (cst 1 0 1 1) [] 1 1 1).
  do 4 (split; [reflexivity|]). split; [|split; [|split; [reflexivity|]]].
  - repeat constructor; simpl; intuition discriminate.
  - intros ij [<-|[<-|[]]]; unfold inRange; simpl; lia.
  - subst d. reflexivity.
Qed.

Lemma rawVarxi_some B s : exists p, rawVarxi B VShot s = Some p.
Proof.
  unfold rawVarxi. destruct (z_rvx (zo s)); eauto. destruct (Req_EM_T _ 0); eauto.
  unfold covDiag. destruct (z_cov (zo s)); eauto. unfold estimateCov. eauto.
Qed.
Lemma calc_shot_some B s r : z_n1 r = z_n1 (zo s) -> z_n2 r = z_n2 (zo s) ->
  exists s', zcalcXi B VShot VShot s (Some r) = Some s'.
Proof.
  intros E1 E2. unfold zcalcXi. rewrite E1, E2, !Z.eqb_refl, orb_true_r. cbn [andb].
  destruct (z_res (zo s)); [|unfold estimateCov; eauto].
  match goal with |- context [rawVarxi B VShot ?x] => destruct (rawVarxi_some B x) as [[s1 v] ->] end.
  unfold varxi. destruct (z_vx (zo _)); eauto.
  match goal with |- context [rawVarxi B VShot ?x] => destruct (rawVarxi_some B x) as [[s2 v2] ->] end. eauto.
Qed.
Lemma rawVarxi_n B m s p : rawVarxi B m s = Some p -> z_n1 (zo (fst p)) = z_n1 (zo s) /\ z_n2 (zo (fst p)) = z_n2 (zo s).
Proof.
  unfold rawVarxi. destruct (z_rvx (zo s)); [intro X; inversion X; auto|].
  destruct (Req_EM_T _ 0); [intro X; inversion X; auto|].
  unfold covDiag. destruct (z_cov (zo s)); [intro X; inversion X; auto|].
  destruct (estimateCov B m s); [|discriminate]. intro X; inversion X; auto.
Qed.
Lemma calc_n B m mr s r s' : zcalcXi B m mr s (Some r) = Some s' ->
  z_n1 (zo s') = z_n1 (zo s) /\ z_n2 (zo s') = z_n2 (zo s).
Proof.
  unfold zcalcXi. destruct (_ && _); [|discriminate]. destruct (z_res (zo s)).
  - destruct (rawVarxi B m _) as [[s1 v]|] eqn:E; [|discriminate]. apply rawVarxi_n in E.
    destruct (varxi B mr _) as [[s2 v2]|]; [|discriminate]. intro X; inversion X; auto.
  - destruct (estimateCov B m _); [|discriminate]. intro X; inversion X; auto.
Qed.

(** A case of C75_catalogs: in bin 0 the lens of patch 0 sees kappa 1, the random of patch 0 sees kappa 5. *)
Definition kObj (x w kap : R) (i : nat) : obj := mkobj (mkpos x 0 0) w w kap 0 0 i.
Definition exLens : list patch := [mkpatch 0 [kObj 0 1 0 0]; mkpatch 1 [kObj 100 1 0 1]].
Definition exRand : list patch := [mkpatch 0 [kObj 1 1 0 0]; mkpatch 1 [kObj 100 2 0 1]].
Definition exSrc : list patch := [mkpatch 0 [kObj (5/4) 1 1 0; kObj (9/4) 1 5 1]; mkpatch 1 [kObj (405/4) 1 3 2]].
Lemma exLens_off l : l = allRows exLens \/ l = allRows exRand -> offEdges exB euclid l (allRows exSrc).
Proof.
  intros Hl _ o1 o2 j _ H1 H2. rewrite exB_edge.
  assert (HQ : exists n, (n mod 4 <> 0)%Z /\ euclid (opos o1) (opos o2) = IZR n / 4).
  { assert (H1' : px (opos o1) = 0 \/ px (opos o1) = 1 \/ px (opos o1) = 100).
    { destruct Hl as [->| ->]; simpl in H1; destruct H1 as [<-|[<-|[]]]; simpl; auto. }
    assert (HZ : opos o1 = mkpos (px (opos o1)) 0 0).
    { destruct Hl as [->| ->]; simpl in H1; destruct H1 as [<-|[<-|[]]]; simpl; auto. }
    rewrite HZ. simpl in H2.
    destruct H1' as [->|[->| ->]]; destruct H2 as [<-|[<-|[<-|[]]]]; simpl opos; rewrite euclid_x;
    [exists 5%Z|exists 9%Z|exists 405%Z|exists 1%Z|exists 5%Z|exists 401%Z|exists 395%Z|exists 391%Z|exists 5%Z];
    (split; [discriminate|]); rabs. }
  destruct HQ as [n [Hn ->]]. apply not_edge4; auto.
Qed.
Example C75_catalogs_example : exists st str s' a,
  let C := mkPC (exRun Euclidean exB BruteNo) false in
  runJobs C sclear (crossJobs 2 2 exLens exSrc) st /\ runJobs C sclear (crossJobs 2 2 exRand exSrc) str /\
  zcalcXi exB VShot VShot (mkNZ (nkOf exB st 2 2 1) None) (Some (nkOf exB str 2 2 1)) = Some s' /\
  compFrom exB (z_res (zo s')) (zrz s') (jackPairs 2 2 1 (zkeys (z_res (zo s')))) = Some a /\ a X1 0%Z = -4.
Proof.
  set (C := mkPC (exRun Euclidean exB BruteNo) false).
  destruct (jobs_exist C sclear (crossJobs 2 2 exLens exSrc)) as [st H1].
  { apply exB_valid. }
  { simpl. repeat constructor; discriminate. }
  destruct (jobs_exist C sclear (crossJobs 2 2 exRand exSrc)) as [str H2].
  { apply exB_valid. }
  { simpl. repeat constructor; discriminate. }
  assert (EX : exists s', zcalcXi exB VShot VShot (mkNZ (nkOf exB st 2 2 1) None) (Some (nkOf exB str 2 2 1)) = Some s').
  { apply calc_shot_some; reflexivity. }
  destruct EX as [s' HC].
  assert (SX : forall l1 l2 f, sumPairs (selBin exB euclid 0) f [l1] [fst l2; snd l2] =
     (if selBin exB euclid 0 l1 (fst l2) then f l1 (fst l2) else 0) +
     (if selBin exB euclid 0 l1 (snd l2) then f l1 (snd l2) else 0)).
  { intros. unfold sumPairs. simpl. lra. }
  assert (S1 : selBin exB euclid 0 (kObj 0 1 0 0) (kObj (5/4) 1 1 0) = true /\
               selBin exB euclid 0 (kObj 0 1 0 0) (kObj (9/4) 1 5 1) = false /\
               selBin exB euclid 0 (kObj 1 1 0 0) (kObj (5/4) 1 1 0) = false /\
               selBin exB euclid 0 (kObj 1 1 0 0) (kObj (9/4) 1 5 1) = true).
  { unfold selBin. simpl. rewrite !euclid_x, !exB_in by lia.
    repeat match goal with |- context [Rabs ?x] =>
      first [ rewrite (Rabs_left x) by lra | rewrite (Rabs_right x) by lra ] end.
    unfold Rleb, Rltb. simpl. repeat (destruct Rle_dec; destruct Rlt_dec; try (exfalso; lra); simpl). auto. }
  destruct S1 as [S1 [S2 [S3 S4]]].
  pose proof (SX (kObj 0 1 0 0) (kObj (5/4) 1 1 0, kObj (9/4) 1 5 1)) as L1. cbn [fst snd] in L1.
  pose proof (SX (kObj 1 1 0 0) (kObj (5/4) 1 1 0, kObj (9/4) 1 5 1)) as L2. cbn [fst snd] in L2.
  rewrite S1, S2 in L1. rewrite S3, S4 in L2.
  destruct (C75_catalogs C C 2 2 2 exLens exRand exSrc st str 1 1 VShot VShot s' 1 0) as [a [Ha HA]]; auto; simpl; try lia; try discriminate.
  - apply exB_valid.
  - apply exLens_off; auto.
  - apply exLens_off; auto.
  - intros o [<-|[<-|[]]]; simpl; lra.
  - intros o [<-|[<-|[]]]; simpl; lra.
  - intros o [<-|[<-|[<-|[]]]]; simpl; lra.
  - repeat constructor; simpl; intuition lia.
  - repeat constructor; simpl; intuition lia.
  - repeat constructor; simpl; intuition lia.
  - intros c [<-|[<-|[]]]; simpl; lia.
  - intros c [<-|[<-|[]]]; simpl; lia.
  - intros c [<-|[<-|[]]]; simpl; lia.
  - intro E. apply (f_equal (fun x => x)) in E. apply R1_neq_R0. rewrite <- E. symmetry. etransitivity; [apply (L1 v_ww)|].
    unfold v_ww; simpl; lra.
  - intro E. apply R1_neq_R0. rewrite <- E. symmetry. etransitivity; [apply (L2 v_ww)|]. unfold v_ww; simpl; lra.
  - exists st, str, s', a. split; auto. split; auto. split; auto.
    pose proof (calc_n _ _ _ _ _ _ HC) as EN. simpl in EN.
    destruct EN as [EN1 EN2]. rewrite EN1, EN2 in Ha. split; [exact Ha|]. rewrite HA.
    change (allRows (without1 2 2 1 exLens)) with [kObj 0 1 0 0].
    change (allRows (without1 2 2 1 exRand)) with [kObj 1 1 0 0].
    change (allRows (without2 2 2 1 exSrc)) with [kObj (5/4) 1 1 0; kObj (9/4) 1 5 1].
    change (cbin (rP (pR C))) with exB. rewrite !L1, !L2. unfold v_ww, v_nk; simpl. lra.
Qed.
