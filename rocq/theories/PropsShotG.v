(** Property C95: shot-noise variances of shear correlations. *)
From Coq Require Import Reals Lra Lia List ZArith Bool.
From Verif Require Import Base Geometry Binning Tree Traverse Run GeomFacts SumFacts TreeFacts Spec SpecRun
  BinFacts TravFacts Exact MetricFacts Cover Lift Runs Examples PropsCount PatchFacts Spin SpinFacts SpecSpin PropsSpin Catalog CatFacts PropsCat Shot PropsShot.
Import ListNotations.
Open Scope R_scope.

(** _finalize and varxi of KG and GG (corr2base.py:1167-1176, kzcorrelation.py:53-64, zzcorrelation.py:107-126) in bin k. *)
Definition resS (num : R) (f : sfield) (s : accum) (a : saccum) (k : Z) : R * R :=
  (divW (a_weight s k) (a f k), varxiOf num (a_weight s k)).
(** varg of a catalog, catalog.py:1218-1224. *)
Definition gcat1 (t : bool) (cat : list obj) : vcat := mkv t (map (fun o => (ow o, og1 o)) cat).
Definition gcat2 (t : bool) (cat : list obj) : vcat := mkv t (map (fun o => (ow o, og2 o)) cat).
Definition varG (t : bool) (cat : list obj) : R := calculateVar2 [gcat1 t cat] [gcat2 t cat].

(** ** Specification: independent signs of both components *)
Definition setg (a b : R) (o : obj) : obj := mkobj (opos o) (ow o) (owpos o) (okappa o) a b (oidx o).
Fixpoint flipG (s : list R) (cat : list obj) : list obj :=
  match s, cat with a :: b :: s', o :: t => setg (a * og1 o) (b * og2 o) o :: flipG s' t | _, _ => cat end.
Definition signsG (cat : list obj) : list (list R) := signs (2 * length cat).
Definition uniformG (w q : R) (cat : list obj) : Prop := forall o, In o cat -> ow o = w /\ og1 o * og1 o = q /\ og2 o * og2 o = q.

Definition comps (cat : list obj) : list (obj * bool) := flat_map (fun o => [(o, true); (o, false)]) cat.
Definition onec (c : obj * bool) : obj := if snd c then setg (og1 (fst c)) 0 (fst c) else setg 0 (og2 (fst c)) (fst c).
Lemma comps_len cat : length (comps cat) = (2 * length cat)%nat.
Proof. unfold comps. induction cat; cbn [flat_map length app]; auto. rewrite IHcat. lia. Qed.
Lemma comps_sum (g : obj * bool -> R) cat : sumR g (comps cat) = sumR (fun o => g (o, true) + g (o, false)) cat.
Proof. unfold comps. induction cat; cbn [flat_map app sumR]; auto. rewrite IHcat. lra. Qed.
Definition linG (g : obj -> R) : Prop := forall a b o, g (setg (a * og1 o) (b * og2 o) o) = a * g (onec (o, true)) + b * g (onec (o, false)).
Lemma flipG_sum g s cat : length s = (2 * length cat)%nat -> linG g -> sumR g (flipG s cat) = dotS s (map (fun c => g (onec c)) (comps cat)).
Proof.
  intros E H. revert s E. induction cat as [|o cat IH]; intros s E; [destruct s; [reflexivity|discriminate]|].
  destruct s as [|a [|b s]]; cbn [length] in E; try lia. cbn [flipG sumR comps flat_map app map dotS].
  rewrite H, IH by lia. unfold comps. lra.
Qed.
Lemma flipG_in s cat o : In o (flipG s cat) -> exists o', In o' cat /\ opos o = opos o' /\ ow o = ow o'.
Proof.
  revert s. induction cat as [|p cat IH]; intros s H; [destruct s as [|a [|b s]]; destruct H|].
  destruct s as [|a [|b s]]; cbn [flipG] in H; try (exists o; auto; fail).
  destruct H as [<-|H]; [exists p; repeat split; left; auto|]. destruct (IH _ H) as [o' [I E]]. exists o'. split; auto. right. auto.
Qed.
Lemma flipG_pos s cat : posW cat -> posW (flipG s cat).
Proof. intros H o Ho. destruct (flipG_in _ _ _ Ho) as [o' [I [_ ->]]]. auto. Qed.
Lemma posW_nonneg' cat : posW cat -> nonnegW cat.
Proof. intros H o Ho. left. auto. Qed.
Lemma flipG_same (g : obj -> R) s cat : (forall a b o, g (setg a b o) = g o) -> sumR g (flipG s cat) = sumR g cat.
Proof.
  intro H. revert s. induction cat as [|o cat IH]; intros [|a [|b s]]; cbn [flipG sumR]; auto. rewrite H, IH. reflexivity.
Qed.
Lemma flipG_ang ang l1 l2 cat1 cat2 : (forall o, In o l1 -> exists o', In o' cat1 /\ opos o = opos o') -> (forall o, In o l2 -> exists o', In o' cat2 /\ opos o = opos o') ->
  anglesFor ang cat1 cat2 -> anglesFor ang l1 l2.
Proof.
  intros H1 H2 HA o1 o2 I1 I2. destruct (H1 _ I1) as [p [Ip ->]], (H2 _ I2) as [q [Iq ->]]. apply HA; auto.
Qed.
Lemma setg_one o : o = setg (1 * og1 o) (1 * og2 o) o.
Proof. destruct o; unfold setg; cbn. f_equal; lra. Qed.

(** ** Sums over pairs *)
Section bil.
Variables (sel : obj -> obj -> bool) (v : obj -> obj -> R).
Hypothesis S1 : forall a b o1 o2, sel (setg a b o1) o2 = sel o1 o2.
Hypothesis S2 : forall a b o1 o2, sel o1 (setg a b o2) = sel o1 o2.
Lemma SO1 c o2 : sel (onec c) o2 = sel (fst c) o2.
Proof. destruct c as [o [|]]; apply S1. Qed.
Lemma SO2 c o1 : sel o1 (onec c) = sel o1 (fst c).
Proof. destruct c as [o [|]]; apply S2. Qed.
Hypothesis L2 : forall o1, linG (v o1).
Lemma sum2G (l : list obj) t cat2 : length t = (2 * length cat2)%nat ->
  sumPairs sel v l (flipG t cat2) = sumR (fun o1 => dotS t (map (fun c => part (sel o1 (fst c)) (v o1 (onec c))) (comps cat2))) l.
Proof.
  intros E. unfold sumPairs. rewrite sumR_pairs. cbn [fst snd]. apply sumR_ext. intros o1 _.
  rewrite (flipG_sum (fun o2 => if sel o1 o2 then v o1 o2 else 0)); auto.
  - f_equal. apply map_ext. intros c. rewrite SO2. reflexivity.
  - intros a b o. rewrite S2, L2, !SO2. cbn [fst]. destruct sel; lra.
Qed.
Hypothesis L1 : forall o2, linG (fun o1 => v o1 o2).
Lemma sum12G s t cat1 cat2 : length s = (2 * length cat1)%nat -> length t = (2 * length cat2)%nat ->
  sumPairs sel v (flipG s cat1) (flipG t cat2) =
  dotS s (map (fun c1 => dotS t (map (fun c2 => part (sel (fst c1) (fst c2)) (v (onec c1) (onec c2))) (comps cat2))) (comps cat1)).
Proof.
  intros E1 E2. rewrite sum2G by auto. rewrite flipG_sum; auto.
  - f_equal. apply map_ext. intros c. f_equal. apply map_ext. intros c2. rewrite SO1. reflexivity.
  - intros a b o. rewrite <- !dotS_scal, <- dotS_map. f_equal. apply map_ext. intros c2.
    rewrite S1, (L1 (onec c2)), !SO1. cbn [fst]. unfold part. destruct sel; lra.
Qed.
End bil.
Lemma gval_lin2 ang f o1 : linG (gval ang f o1).
Proof.
  intros a b o. destruct f; cbn [gval]; unfold v_ng, v_ngx, v_kg, v_kgx, v_ggp, v_ggpi, v_ggm, v_ggmi, ifApart, gammaT, gammaX, onec, setg;
    cbn [fst snd opos ow okappa og1 og2]; destruct Req_EM_T; lra.
Qed.
Lemma gval_lin1 ang f o2 : f = SPre \/ f = SMre -> linG (fun o1 => gval ang f o1 o2).
Proof.
  intros Hf a b o. destruct Hf as [-> | ->]; cbn [gval]; unfold v_ggp, v_ggm, ifApart, gammaT, gammaX, onec, setg;
    cbn [fst snd opos ow okappa og1 og2]; destruct Req_EM_T; lra.
Qed.
Lemma cs2 x : cos x * cos x = 1 - sin x * sin x.
Proof. pose proof (sin2_cos2 x). unfold Rsqr in H. lra. Qed.
(** The four component pairs of one pair of objects. *)
Lemma gg_four ang f o1 o2 w1 w2 q1 q2 : f = SPre \/ f = SMre -> euclid (opos o1) (opos o2) <> 0 ->
  ow o1 = w1 -> ow o2 = w2 -> og1 o1 * og1 o1 = q1 -> og2 o1 * og2 o1 = q1 -> og1 o2 * og1 o2 = q2 -> og2 o2 * og2 o2 = q2 ->
  let g b c := gval ang f (onec (o1, b)) (onec (o2, c)) * gval ang f (onec (o1, b)) (onec (o2, c)) in
  g true true + g true false + (g false true + g false false) = 2 * (w1 * w2 * (w1 * w2) * (q1 * q2)).
Proof.
  intros Hf HA W1 W2 A1 A2 B1 B2 g.
  destruct Hf as [-> | ->]; unfold g; cbn [gval]; unfold v_ggp, v_ggm, ifApart, gammaT, gammaX, onec, setg; cbn [fst snd opos ow okappa og1 og2];
    (destruct Req_EM_T as [E|_]; [contradiction|]); rewrite W1, W2; set (x := 2 * ang (opos o1) (opos o2)); pose proof (cs2 x) as C;
    set (c := cos x) in *; set (n := sin x) in *; set (a := og1 o1) in *; set (b := og2 o1) in *; set (d := og1 o2) in *; set (e := og2 o2) in *.
  - transitivity (w1 * w2 * (w1 * w2) * ((a * a) * (d * d) * ((c * c + n * n) * (c * c + n * n)) + (b * b) * (e * e) * ((c * c + n * n) * (c * c + n * n)))); [ring|].
    rewrite C, A1, A2, B1, B2. ring.
  - transitivity (w1 * w2 * (w1 * w2) * (((a * a) * (d * d) + (b * b) * (e * e)) * ((c * c - n * n) * (c * c - n * n)) + ((a * a) * (e * e) + (b * b) * (d * d)) * (4 * (c * c) * (n * n)))); [ring|].
    rewrite C, A1, A2, B1, B2. ring.
Qed.
Lemma kg_two ang f o1 o2 w1 w2 q1 q2 : f = SKre \/ f = SKim -> euclid (opos o1) (opos o2) <> 0 ->
  ow o1 = w1 -> ow o2 = w2 -> okappa o1 * okappa o1 = q1 -> og1 o2 * og1 o2 = q2 -> og2 o2 * og2 o2 = q2 ->
  let g c := gval ang f o1 (onec (o2, c)) * gval ang f o1 (onec (o2, c)) in
  g true + g false = w1 * w2 * (w1 * w2) * (q1 * q2).
Proof.
  intros Hf HA W1 W2 A1 B1 B2 g.
  destruct Hf as [-> | ->]; unfold g; cbn [gval]; unfold v_kg, v_kgx, ifApart, gammaT, gammaX, onec, setg; cbn [fst snd opos ow okappa og1 og2];
    (destruct Req_EM_T as [E|_]; [contradiction|]); rewrite W1, W2; set (x := 2 * ang (opos o1) (opos o2)); pose proof (cs2 x) as C;
    set (c := cos x) in *; set (n := sin x) in *; set (a := okappa o1) in *; set (d := og1 o2) in *; set (e := og2 o2) in *.
  - transitivity (w1 * w2 * (w1 * w2) * (a * a) * ((d * d) * (c * c) + (e * e) * (n * n))); [ring|]. rewrite C, A1, B1, B2. ring.
  - transitivity (w1 * w2 * (w1 * w2) * (a * a) * ((d * d) * (n * n) + (e * e) * (c * c))); [ring|]. rewrite C, A1, B1, B2. ring.
Qed.

(** ** varg *)
Theorem C95_uniform_varg t w q cat : cat <> [] -> 0 < w -> (t = false -> w = 1) -> uniformG w q cat ->
  sumR og1 cat = 0 -> sumR og2 cat = 0 -> varG t cat = w * q.
Proof.
  intros N HW HT U M1 M2.
  assert (X : forall g : obj -> R, (forall a b, ow (setk a b) = ow b) -> (forall o, In o cat -> g o * g o = q) -> sumR g cat = 0 ->
    calculateVar [mkv t (map (fun o => (ow o, g o)) cat)] = w * q).
  { intros g _ G M.
    pose proof (C95_uniform_var t w q (map (fun o => setk (g o) o) cat)) as E. unfold varK, kcat in E. rewrite map_map in E.
    rewrite (map_ext _ (fun o => (ow o, g o))) in E by (intros; reflexivity).
    apply E; auto.
    - destruct cat; [contradiction|discriminate].
    - intros o Ho. apply in_map_iff in Ho. destruct Ho as [p [<- I]]. cbn. split; [apply (U p I)|apply G; auto].
    - rewrite sumR_map. exact M. }
  change (varG t cat) with ((calculateVar [mkv t (map (fun o => (ow o, og1 o)) cat)] + calculateVar [mkv t (map (fun o => (ow o, og2 o)) cat)]) / 2).
  rewrite (X og1), (X og2); auto; try lra; intros o Ho; apply (U o Ho).
Qed.

(** ** GG and KG: varxi is exact for equal weights and sizes *)
Definition cfgG (Cf : runcfg) : Prop := validB (cbin (rP Cf)) /\ crpar (rP Cf) = None /\ cmetric (rP Cf) = Euclidean /\ rcoord Cf = Flat /\ slop_a (cbin (rP Cf)) = 0.
Definition apartC (cat1 cat2 : list obj) : Prop := forall o1 o2, In o1 cat1 -> In o2 cat2 -> euclid (opos o1) (opos o2) <> 0.
Lemma weightG Cf k l1 l2 s1 cat1 cat2 w1 w2 : cfgG Cf -> posW l1 -> posW l2 -> runCross Cf l1 l2 cleared s1 ->
  sumPairs (selE Cf k) v_ww l1 l2 = sumPairs (selE Cf k) v_ww cat1 cat2 ->
  (forall o, In o cat1 -> ow o = w1) -> (forall o, In o cat2 -> ow o = w2) ->
  a_weight s1 k = w1 * w2 * sumPairs (selE Cf k) v_one cat1 cat2.
Proof.
  intros [V [Hr [HM [_ HS]]]] P1 P2 H E U1 U2.
  destruct (C59_cross_counts Cf k l1 l2 cleared s1 V Hr HM HS P1 P2 H) as [[_ [A _]] _]. rewrite A. change (a_weight cleared k) with 0. rewrite E.
  unfold sumPairs. rewrite <- sumR_scal. rewrite Rplus_0_l. apply sumR_ext. intros [o1 o2] Ho. apply in_pairs in Ho. destruct Ho as [I1 I2]. cbn [fst snd].
  destruct selBin; [|lra]. unfold v_ww, v_one. rewrite U1, U2; auto. ring.
Qed.
Lemma ww_flipG sel cat1 cat2 l1 s t : (forall a b o1 o2, sel (setg a b o1) o2 = sel o1 o2) -> (forall a b o1 o2, sel o1 (setg a b o2) = sel o1 o2) ->
  (l1 = flipG s cat1 \/ l1 = cat1) -> sumPairs sel v_ww l1 (flipG t cat2) = sumPairs sel v_ww cat1 cat2.
Proof.
  intros S1 S2 HL. unfold sumPairs. rewrite !sumR_pairs. cbn [fst snd].
  transitivity (sumR (fun o1 => sumR (fun o2 => if sel o1 o2 then v_ww o1 o2 else 0) cat2) l1).
  - apply sumR_ext. intros o1 _. apply (flipG_same (fun o2 => if sel o1 o2 then v_ww o1 o2 else 0)). intros. rewrite S2. reflexivity.
  - destruct HL as [-> | ->]; auto.
    apply (flipG_same (fun o1 => sumR (fun o2 => if sel o1 o2 then v_ww o1 o2 else 0) cat2)). intros. apply sumR_ext. intros. rewrite S1. reflexivity.
Qed.
Lemma num_over (c w1 w2 q1 q2 n : R) : 0 < c -> 0 < w1 -> 0 < w2 -> n <> 0 ->
  varxiOf (c * (w1 * q1 * (w2 * q2))) (w1 * w2 * n) = c * (q1 * q2) / n.
Proof.
  intros HC H1 H2 HN. assert (0 < w1 * w2) by (apply Rmult_lt_0_compat; auto). unfold varxiOf, covShot.
  destruct (Req_EM_T _ 0) as [E|E].
  - assert (c * (w1 * w2) * (q1 * q2) = 0) by lra. apply Rmult_integral in H0. destruct H0 as [H0|H0].
    + exfalso. assert (0 < c * (w1 * w2)) by (apply Rmult_lt_0_compat; auto). lra.
    + rewrite H0. unfold Rdiv. ring.
  - destruct (Req_EM_T (w1 * w2 * n) 0) as [E'|_].
    + exfalso. apply Rmult_integral in E'. destruct E'; [lra|auto].
    + field. repeat split; auto; lra.
Qed.
Theorem C95_gg_exact Cf cat1 cat2 (out : list R -> list R -> accum) (sout : list R -> list R -> saccum) f k w1 q1 w2 q2 :
  cfgG Cf -> flatCat cat1 -> flatCat cat2 -> apartC cat1 cat2 -> 0 < w1 -> 0 < w2 -> uniformG w1 q1 cat1 -> uniformG w2 q2 cat2 -> f = SPre \/ f = SMre ->
  (forall s t, In s (signsG cat1) -> In t (signsG cat2) ->
    runCross Cf (flipG s cat1) (flipG t cat2) cleared (out s t) /\ runCrossS Cf Spin2 (flipG s cat1) (flipG t cat2) scleared (sout s t)) ->
  sumPairs (selE Cf k) v_one cat1 cat2 <> 0 ->
  let num := numZZ (w1 * q1) (w2 * q2) in
  forall s0 t0, In s0 (signsG cat1) -> In t0 (signsG cat2) ->
  mean (fun s => mean (fun t => Rsqr (fst (resS num f (out s t) (sout s t) k))) (signsG cat2)) (signsG cat1) =
  snd (resS num f (out s0 t0) (sout s0 t0) k).
Proof.
  intros HC F1 F2 HA W1 W2 U1 U2 Hf HR HN num s0 t0 H0 T0.
  set (n := sumPairs (selE Cf k) v_one cat1 cat2) in *.
  assert (P1 : posW cat1) by (intros o Ho; rewrite (proj1 (U1 o Ho)); auto).
  assert (P2 : posW cat2) by (intros o Ho; rewrite (proj1 (U2 o Ho)); auto).
  destruct (angles_exist cat1 cat2 F1 F2) as [ang HG].
  assert (S1 : forall a b o1 o2, selE Cf k (setg a b o1) o2 = selE Cf k o1 o2) by reflexivity.
  assert (S2 : forall a b o1 o2, selE Cf k o1 (setg a b o2) = selE Cf k o1 o2) by reflexivity.
  assert (EW : forall s t, In s (signsG cat1) -> In t (signsG cat2) -> a_weight (out s t) k = w1 * w2 * n).
  { intros s t Hs Ht. destruct (HR s t Hs Ht) as [R1 _]. apply (weightG Cf k (flipG s cat1) (flipG t cat2) (out s t) cat1 cat2 w1 w2); auto.
    - apply flipG_pos; auto.
    - apply flipG_pos; auto.
    - apply (ww_flipG (selE Cf k) cat1 cat2 (flipG s cat1) s t); auto.
    - intros o Ho. apply (U1 o Ho).
    - intros o Ho. apply (U2 o Ho). }
  set (g := fun c1 c2 : obj * bool => part (selE Cf k (fst c1) (fst c2)) (gval ang f (onec c1) (onec c2))).
  assert (EX : forall s t, In s (signsG cat1) -> In t (signsG cat2) -> sout s t f k = dotS s (map (fun c1 => dotS t (map (g c1) (comps cat2))) (comps cat1))).
  { intros s t Hs Ht. destruct (HR s t Hs Ht) as [_ R2]. destruct HC as [V [Hr [HM [HFl HSl]]]].
    rewrite (C59_cross_shear Cf ang f k (flipG s cat1) (flipG t cat2) scleared (sout s t)); auto.
    - change (scleared f k) with 0. rewrite Rplus_0_l. apply (sum12G (selE Cf k) (gval ang f)); auto.
      + intro. apply gval_lin2.
      + intro. apply gval_lin1; auto.
      + apply signs_len; auto.
      + apply signs_len; auto.
    - left; auto.
    - apply posW_nonneg', flipG_pos; auto.
    - apply posW_nonneg', flipG_pos; auto.
    - apply (flipG_ang ang _ _ cat1 cat2); auto; intros o Ho; destruct (flipG_in _ _ _ Ho) as [o' [I [E _]]]; eauto. }
  assert (WN : w1 * w2 * n <> 0).
  { assert (0 < w1 * w2) by (apply Rmult_lt_0_compat; auto). apply Rmult_integral_contrapositive. split; [lra|auto]. }
  transitivity (mean (fun s => mean (fun t => / (w1 * w2 * n * (w1 * w2 * n)) *
    (dotS s (map (fun c1 => dotS t (map (g c1) (comps cat2))) (comps cat1)) * dotS s (map (fun c1 => dotS t (map (g c1) (comps cat2))) (comps cat1))))
    (signsG cat2)) (signsG cat1)).
  { apply mean_ext. intros s Hs. apply mean_ext. intros t Ht. unfold resS. cbn [fst]. rewrite (EW s t), (EX s t) by auto. unfold divW.
    destruct (Req_EM_T _ 0); [contradiction|]. unfold Rsqr. field. repeat split; auto; lra. }
  rewrite (mean_ext _ (fun s => / (w1 * w2 * n * (w1 * w2 * n)) * mean (fun t => dotS s (map (fun c1 => dotS t (map (g c1) (comps cat2))) (comps cat1)) *
    dotS s (map (fun c1 => dotS t (map (g c1) (comps cat2))) (comps cat1))) (signsG cat2))) by (intros; apply mean_scal).
  rewrite mean_scal. unfold signsG. rewrite <- !comps_len, mean_bil.
  unfold resS. cbn [snd]. rewrite (EW s0 t0) by auto. unfold num, numZZ.
  replace (2 * (w1 * q1) * (w2 * q2)) with (2 * (w1 * q1 * (w2 * q2))) by ring. rewrite num_over by (auto; lra).
  assert (ES : sumR (fun x => sumR (fun y => g x y * g x y) (comps cat2)) (comps cat1) = 2 * (w1 * w2 * (w1 * w2) * (q1 * q2)) * n).
  { rewrite comps_sum. unfold n, sumPairs. rewrite <- sumR_scal, sumR_pairs. apply sumR_ext. intros o1 I1. rewrite !comps_sum. rewrite <- sumR_plus.
    apply sumR_ext. intros o2 I2. cbn [fst snd]. unfold g, part. cbn [fst snd]. destruct (selE Cf k o1 o2); [|lra].
    destruct (U1 o1 I1) as [X1 [X2 X3]], (U2 o2 I2) as [Y1 [Y2 Y3]].
    pose proof (gg_four ang f o1 o2 w1 w2 q1 q2 Hf (HA o1 o2 I1 I2) X1 Y1 X2 X3 Y2 Y3) as G. cbv zeta in G. unfold v_one. lra. }
  rewrite ES. field. repeat split; auto; lra.
Qed.

(** KG: signs of k of the first catalog, and of both components of the second. *)
Theorem C95_kg_exact Cf cat1 cat2 (out : list R -> list R -> accum) (sout : list R -> list R -> saccum) f k w1 q1 w2 q2 :
  cfgG Cf -> flatCat cat1 -> flatCat cat2 -> apartC cat1 cat2 -> 0 < w1 -> 0 < w2 -> uniform w1 q1 cat1 -> uniformG w2 q2 cat2 -> f = SKre \/ f = SKim ->
  (forall s t, In s (signs (length cat1)) -> In t (signsG cat2) ->
    runCross Cf (flip s cat1) (flipG t cat2) cleared (out s t) /\ runCrossS Cf Spin2 (flip s cat1) (flipG t cat2) scleared (sout s t)) ->
  sumPairs (selE Cf k) v_one cat1 cat2 <> 0 ->
  let num := numKZ (w1 * q1) (w2 * q2) in
  forall s0 t0, In s0 (signs (length cat1)) -> In t0 (signsG cat2) ->
  mean (fun s => mean (fun t => Rsqr (fst (resS num f (out s t) (sout s t) k))) (signsG cat2)) (signs (length cat1)) =
  snd (resS num f (out s0 t0) (sout s0 t0) k).
Proof.
  intros HC F1 F2 HA W1 W2 U1 U2 Hf HR HN num s0 t0 H0 T0.
  set (n := sumPairs (selE Cf k) v_one cat1 cat2) in *.
  assert (P1 : posW cat1) by (intros o Ho; rewrite (proj1 (U1 o Ho)); auto).
  assert (P2 : posW cat2) by (intros o Ho; rewrite (proj1 (U2 o Ho)); auto).
  destruct (angles_exist cat1 cat2 F1 F2) as [ang HG].
  assert (S2 : forall a b o1 o2, selE Cf k o1 (setg a b o2) = selE Cf k o1 o2) by reflexivity.
  assert (EW : forall s t, In s (signs (length cat1)) -> In t (signsG cat2) -> a_weight (out s t) k = w1 * w2 * n).
  { intros s t Hs Ht. destruct (HR s t Hs Ht) as [R1 _]. apply (weightG Cf k (flip s cat1) (flipG t cat2) (out s t) cat1 cat2 w1 w2); auto.
    - apply flip_pos; auto.
    - apply flipG_pos; auto.
    - rewrite (ww_flipG (selE Cf k) (flip s cat1) cat2 (flip s cat1) [] t); auto.
      unfold sumPairs. rewrite !sumR_pairs. cbn [fst snd].
      apply (flip_same (fun o1 => sumR (fun o2 => if selE Cf k o1 o2 then v_ww o1 o2 else 0) cat2)). reflexivity.
    - intros o Ho. apply (U1 o Ho).
    - intros o Ho. apply (U2 o Ho). }
  set (g := fun (o1 : obj) (c2 : obj * bool) => part (selE Cf k o1 (fst c2)) (gval ang f o1 (onec c2))).
  assert (EX : forall s t, In s (signs (length cat1)) -> In t (signsG cat2) -> sout s t f k = dotS s (map (fun o1 => dotS t (map (g o1) (comps cat2))) cat1)).
  { intros s t Hs Ht. destruct (HR s t Hs Ht) as [_ R2]. destruct HC as [V [Hr [HM [HFl HSl]]]].
    rewrite (C59_cross_shear Cf ang f k (flip s cat1) (flipG t cat2) scleared (sout s t)); auto.
    - change (scleared f k) with 0. rewrite Rplus_0_l. rewrite (sum2G (selE Cf k) (gval ang f)); auto.
      + apply (flip_sum (fun o1 => dotS t (map (g o1) (comps cat2)))); [apply signs_len; auto|].
        intros a o. rewrite <- dotS_scal. f_equal. apply map_ext. intros c2. unfold g.
        change (selE Cf k (setk (a * okappa o) o) (fst c2)) with (selE Cf k o (fst c2)). unfold part. destruct selBin; [|lra].
        destruct Hf as [-> | ->]; cbn [gval]; unfold v_kg, v_kgx, ifApart, setk; cbn [opos ow okappa]; destruct Req_EM_T; lra.
      + intro. apply gval_lin2.
      + apply signs_len; auto.
    - left; auto.
    - apply posW_nonneg', flip_pos; auto.
    - apply posW_nonneg', flipG_pos; auto.
    - apply (flipG_ang ang _ _ cat1 cat2); auto; intros o Ho.
      + destruct (flip_in _ _ _ Ho) as [o' [I [E _]]]; eauto.
      + destruct (flipG_in _ _ _ Ho) as [o' [I [E _]]]; eauto. }
  assert (WN : w1 * w2 * n <> 0).
  { assert (0 < w1 * w2) by (apply Rmult_lt_0_compat; auto). apply Rmult_integral_contrapositive. split; [lra|auto]. }
  transitivity (mean (fun s => mean (fun t => / (w1 * w2 * n * (w1 * w2 * n)) *
    (dotS s (map (fun c1 => dotS t (map (g c1) (comps cat2))) cat1) * dotS s (map (fun c1 => dotS t (map (g c1) (comps cat2))) cat1)))
    (signsG cat2)) (signs (length cat1))).
  { apply mean_ext. intros s Hs. apply mean_ext. intros t Ht. unfold resS. cbn [fst]. rewrite (EW s t), (EX s t) by auto. unfold divW.
    destruct (Req_EM_T _ 0); [contradiction|]. unfold Rsqr. field. repeat split; auto; lra. }
  rewrite (mean_ext _ (fun s => / (w1 * w2 * n * (w1 * w2 * n)) * mean (fun t => dotS s (map (fun c1 => dotS t (map (g c1) (comps cat2))) cat1) *
    dotS s (map (fun c1 => dotS t (map (g c1) (comps cat2))) cat1)) (signsG cat2))) by (intros; apply mean_scal).
  rewrite mean_scal. unfold signsG. rewrite <- comps_len, mean_bil.
  unfold resS. cbn [snd]. rewrite (EW s0 t0) by auto. unfold num, numKZ.
  replace (w1 * q1 * (w2 * q2)) with (1 * (w1 * q1 * (w2 * q2))) by ring. rewrite num_over by (auto; lra).
  assert (ES : sumR (fun x => sumR (fun y => g x y * g x y) (comps cat2)) cat1 = w1 * w2 * (w1 * w2) * (q1 * q2) * n).
  { unfold n, sumPairs. rewrite <- sumR_scal, sumR_pairs. apply sumR_ext. intros o1 I1. rewrite comps_sum.
    apply sumR_ext. intros o2 I2. cbn [fst snd]. unfold g, part. cbn [fst snd]. destruct (selE Cf k o1 o2); [|lra].
    destruct (U1 o1 I1) as [X1 X2], (U2 o2 I2) as [Y1 [Y2 Y3]].
    pose proof (kg_two ang f o1 o2 w1 w2 q1 q2 Hf (HA o1 o2 I1 I2) X1 Y1 X2 Y2 Y3) as G. cbv zeta in G. unfold v_one. lra. }
  rewrite ES. field. repeat split; auto; lra.
Qed.

(** ** Example: two galaxies at distance 3/2 with shears (1,1) and weights 1: xi+^2 is 2 on average, as is varxip *)
Example C95_gg_example : let l1 := [spObj 0 0 1 1 0] in let l2 := [spObj 0 (3/2) 1 1 0] in let Cf := spRun BruteNo in
  cfgG Cf /\ flatCat l1 /\ flatCat l2 /\ apartC l1 l2 /\ uniformG 1 1 l1 /\ uniformG 1 1 l2 /\ uniform 1 4 l1 /\
  sumPairs (selE Cf 0) v_one l1 l2 = 1 /\
  exists out sout, (forall s t, In s (signsG l1) -> In t (signsG l2) ->
    runCross Cf (flipG s l1) (flipG t l2) cleared (out s t) /\ runCrossS Cf Spin2 (flipG s l1) (flipG t l2) scleared (sout s t)) /\
  mean (fun s => mean (fun t => Rsqr (fst (resS 2 SPre (out s t) (sout s t) 0))) (signsG l2)) (signsG l1) = 2.
Proof.
  intros l1 l2 Cf.
  assert (V : validB (cbin (rP Cf))) by apply spB_valid.
  assert (HC : cfgG Cf) by (repeat split; auto; apply spB_valid).
  assert (F1 : flatCat l1) by (intros o [<-|[]]; reflexivity). assert (F2 : flatCat l2) by (intros o [<-|[]]; reflexivity).
  assert (ED : euclid (mkpos 0 0 0) (mkpos 0 (3/2) 0) = 3/2).
  { unfold euclid. cbn [px py pz]. replace ((0 - 0)^2 + (0 - 3/2)^2 + (0 - 0)^2) with ((3/2) * (3/2)) by ring. apply sqrt_square; lra. }
  assert (HA : apartC l1 l2). { intros a b [<-|[]] [<-|[]]. unfold spObj. cbn [opos]. rewrite ED. lra. }
  assert (U1 : uniformG 1 1 l1) by (intros o [<-|[]]; cbn; lra). assert (U2 : uniformG 1 1 l2) by (intros o [<-|[]]; cbn; lra).
  assert (HN : sumPairs (selE Cf 0) v_one l1 l2 = 1).
  { unfold sumPairs, pairs, l1, l2. cbn [list_prod map app sumR fst snd].
    assert (S : selE Cf 0 (spObj 0 0 1 1 0) (spObj 0 (3/2) 1 1 0) = true).
    { unfold selBin, spObj. cbn [opos]. rewrite ED. unfold inBinb, edge. simpl. rewrite (Rleb_t _ (3/2)), (Rltb_t (3/2)) by lra. reflexivity. }
    rewrite S. unfold v_one. lra. }
  split; [exact HC|]. split; [exact F1|]. split; [exact F2|]. split; [exact HA|]. split; [exact U1|]. split; [exact U2|].
  split; [intros o [<-|[]]; cbn; lra|]. split; [exact HN|].
  assert (EQ : forall x y : list R * list R, {x = y} + {x <> y}) by (intros x y; repeat decide equality; apply Req_EM_T).
  assert (NE : forall s l, l <> [] -> flipG s l <> []) by (intros s [|o l] H; [contradiction|destruct s as [|a [|b s]]; discriminate]).
  destruct (choose EQ (fun st r => runCross Cf (flipG (fst st) l1) (flipG (snd st) l2) cleared r) cleared (list_prod (signsG l1) (signsG l2))) as [out HO].
  { intros st _. apply runCross_exists; auto; apply NE; discriminate. }
  destruct (choose EQ (fun st r => runCrossS Cf Spin2 (flipG (fst st) l1) (flipG (snd st) l2) scleared r) scleared (list_prod (signsG l1) (signsG l2))) as [so HS].
  { intros st _. apply runCrossS_exists; auto; apply NE; discriminate. }
  exists (fun s t => out (s, t)), (fun s t => so (s, t)).
  assert (HR : forall s t, In s (signsG l1) -> In t (signsG l2) ->
    runCross Cf (flipG s l1) (flipG t l2) cleared (out (s, t)) /\ runCrossS Cf Spin2 (flipG s l1) (flipG t l2) scleared (so (s, t))).
  { intros s t Hs Ht. split; [apply (HO (s, t))|apply (HS (s, t))]; apply in_prod; auto. }
  split; [exact HR|].
  assert (I1 : In [1; 1] (signsG l1)) by (cbn; left; reflexivity). assert (I2 : In [1; 1] (signsG l2)) by (cbn; left; reflexivity).
  pose proof (C95_gg_exact Cf l1 l2 (fun s t => out (s, t)) (fun s t => so (s, t)) SPre 0%Z 1 1 1 1 HC F1 F2 HA Rlt_0_1 Rlt_0_1 U1 U2 (or_introl eq_refl) HR ltac:(rewrite HN; lra) [1; 1] [1; 1] I1 I2) as E.
  cbv zeta in E. replace (numZZ (1 * 1) (1 * 1)) with 2 in E by (unfold numZZ; lra). rewrite E.
  unfold resS. cbn [snd].
  rewrite (weightG Cf 0 (flipG [1; 1] l1) (flipG [1; 1] l2) (out ([1; 1], [1; 1])) l1 l2 1 1); auto.
  - rewrite HN. unfold varxiOf, covShot. destruct (Req_EM_T 2 0); [exfalso; lra|]. destruct (Req_EM_T _ 0); [exfalso; lra|]. lra.
  - apply flipG_pos. intros o Ho. rewrite (proj1 (U1 o Ho)). lra.
  - apply flipG_pos. intros o Ho. rewrite (proj1 (U2 o Ho)). lra.
  - apply HR; auto.
  - intros o Ho. apply (U1 o Ho).
  - intros o Ho. apply (U2 o Ho).
Qed.
