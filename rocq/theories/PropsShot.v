(** Property C95: shot-noise variances. *)
From Coq Require Import Reals Lra Lia List ZArith Bool.
From Verif Require Import Base Geometry Binning Tree Traverse Run SumFacts Spec SpecRun Runs Catalog CatFacts PropsCat PropsCount Examples Shot.
Import ListNotations.
Open Scope R_scope.

(** ** Specification: all choices of signs of the values *)
Fixpoint signs (n : nat) : list (list R) :=
  match n with O => [[]] | S n => map (cons 1) (signs n) ++ map (cons (-1)) (signs n) end.
Definition mean {A} (f : A -> R) (l : list A) : R := sumR f l / INR (length l).
Definition setk (k : R) (o : obj) : obj := mkobj (opos o) (ow o) (owpos o) k (og1 o) (og2 o) (oidx o).
Fixpoint flip (s : list R) (cat : list obj) : list obj :=
  match s, cat with a :: s', o :: t => setk (a * okappa o) o :: flip s' t | _, _ => cat end.
Definition scaleW (c : R) (o : obj) : obj := mkobj (opos o) (c * ow o) (c * owpos o) (okappa o) (og1 o) (og2 o) (oidx o).

(** ** Means over signs *)
Lemma signs_len n s : In s (signs n) -> length s = n.
Proof.
  revert s. induction n; cbn [signs]; intros s H.
  - destruct H as [<-|[]]. reflexivity.
  - apply in_app_or in H. destruct H as [H|H]; apply in_map_iff in H; destruct H as [t [<- H]]; cbn; auto.
Qed.
Lemma signs_count n : (0 < length (signs n))%nat.
Proof. induction n; cbn [signs]; [cbn; lia|]. rewrite app_length, !map_length. lia. Qed.
Lemma mean_S n (f : list R -> R) : mean f (signs (S n)) = mean (fun s => (f (1 :: s) + f (-1 :: s)) / 2) (signs n).
Proof.
  unfold mean. cbn [signs]. rewrite sumR_app, !sumR_map, app_length, !map_length, plus_INR.
  pose proof (lt_0_INR _ (signs_count n)).
  replace (sumR (fun s => (f (1 :: s) + f (-1 :: s)) / 2) (signs n)) with
    ((sumR (fun x => f (1 :: x)) (signs n) + sumR (fun x => f (-1 :: x)) (signs n)) * / 2); [field; lra|].
  rewrite <- sumR_plus, <- sumR_scal_r. apply sumR_ext. intros. lra.
Qed.
Lemma mean_ext {A} (f g : A -> R) l : (forall x, In x l -> f x = g x) -> mean f l = mean g l.
Proof. intro H. unfold mean. rewrite (sumR_ext f g); auto. Qed.
Lemma mean_plus {A} (f g : A -> R) l : mean (fun x => f x + g x) l = mean f l + mean g l.
Proof. unfold mean. rewrite sumR_plus. lra. Qed.
Lemma mean_scal {A} c (f : A -> R) l : mean (fun x => c * f x) l = c * mean f l.
Proof. unfold mean. rewrite sumR_scal. lra. Qed.
Lemma mean_const n c : mean (fun _ => c) (signs n) = c.
Proof. unfold mean. rewrite sumR_const. pose proof (lt_0_INR _ (signs_count n)). field. lra. Qed.
Lemma mean_sum {A B} (f : A -> B -> R) (l : list A) (b : list B) : mean (fun x => sumR (f x) b) l = sumR (fun y => mean (fun x => f x y) l) b.
Proof.
  unfold mean. rewrite sumR_swap.
  - unfold Rdiv. rewrite <- sumR_scal_r. reflexivity.
Qed.
Fixpoint dotS (s x : list R) : R := match s, x with a :: s', b :: x' => a * b + dotS s' x' | _, _ => 0 end.
Lemma mean_lin x : mean (fun s => dotS s x) (signs (length x)) = 0.
Proof.
  induction x as [|b x IH]; [unfold mean; cbn; lra|]. cbn [length]. rewrite mean_S. cbn [dotS].
  rewrite (mean_ext _ (fun s => dotS s x)); auto. intros. lra.
Qed.
Lemma mean_sq x : mean (fun s => dotS s x * dotS s x) (signs (length x)) = sumR (fun b => b * b) x.
Proof.
  induction x as [|b x IH]; [unfold mean; cbn; lra|]. cbn [length sumR]. rewrite mean_S. cbn [dotS].
  rewrite (mean_ext _ (fun s => b * b + dotS s x * dotS s x)) by (intros; lra).
  rewrite mean_plus, mean_const, IH. reflexivity.
Qed.
Lemma dotS_map {A} (g : A -> R) (h : A -> R) s l : dotS s (map (fun o => g o + h o) l) = dotS s (map g l) + dotS s (map h l).
Proof. revert s. induction l as [|o l IH]; intros [|a s]; cbn [dotS map]; try lra. rewrite IH. lra. Qed.
Lemma dotS_scal {A} c (g : A -> R) s l : dotS s (map (fun o => c * g o) l) = c * dotS s (map g l).
Proof. revert s. induction l as [|o l IH]; intros [|a s]; cbn [dotS map]; try lra. rewrite IH. lra. Qed.
Lemma dotS_0 {A} s (l : list A) : dotS s (map (fun _ => 0) l) = 0.
Proof. revert s. induction l as [|o l IH]; intros [|a s]; cbn [dotS map]; try lra. rewrite IH. lra. Qed.
Lemma dotS_swap {A B} (a : A -> B -> R) s t l m :
  dotS s (map (fun x => dotS t (map (a x) m)) l) = dotS t (map (fun y => dotS s (map (fun x => a x y) l)) m).
Proof.
  revert s. induction l as [|x l IH]; intros [|c s]; cbn [dotS map].
  1-3: symmetry; apply (dotS_0 t m).
  rewrite IH, <- dotS_scal, <- dotS_map. reflexivity.
Qed.
Lemma dotS_sumR {A B} (a : A -> B -> R) t (l : list A) m :
  sumR (fun x => dotS t (map (a x) m)) l = dotS t (map (fun y => sumR (fun x => a x y) l) m).
Proof. induction l as [|x l IH]; cbn [sumR]; [rewrite dotS_0; reflexivity|]. rewrite IH, <- dotS_map. reflexivity. Qed.
(** Bilinear forms: the noise of both catalogs. *)
Lemma mean_bil {A B} (a : A -> B -> R) l m :
  mean (fun s => mean (fun t => dotS s (map (fun x => dotS t (map (a x) m)) l) * dotS s (map (fun x => dotS t (map (a x) m)) l)) (signs (length m))) (signs (length l)) =
  sumR (fun x => sumR (fun y => a x y * a x y) m) l.
Proof.
  rewrite (mean_ext _ (fun s => sumR (fun y => dotS s (map (fun x => a x y) l) * dotS s (map (fun x => a x y) l)) m)).
  - rewrite mean_sum. rewrite (sumR_swap (fun x y => a x y * a x y)). apply sumR_ext. intros y _.
    pose proof (mean_sq (map (fun x => a x y) l)) as E. rewrite map_length, sumR_map in E. exact E.
  - intros s _. rewrite (mean_ext _ (fun t => dotS t (map (fun y => dotS s (map (fun x => a x y) l)) m) * dotS t (map (fun y => dotS s (map (fun x => a x y) l)) m))).
    + pose proof (mean_sq (map (fun y => dotS s (map (fun x => a x y) l)) m)) as E. rewrite map_length, sumR_map in E. exact E.
    + intros t _. rewrite dotS_swap. reflexivity.
Qed.
(** Quadratic forms: one catalog. *)
Fixpoint quad {A} (a : A -> A -> R) (s : list R) (l : list A) : R :=
  match s, l with c :: s', x :: t => c * dotS s' (map (a x) t) + quad a s' t | _, _ => 0 end.
Lemma mean_quad {A} (a : A -> A -> R) l :
  mean (fun s => quad a s l * quad a s l) (signs (length l)) = sumR (fun q => a (fst q) (snd q) * a (fst q) (snd q)) (upairs l).
Proof.
  induction l as [|x l IH]; [unfold mean; cbn; lra|]. cbn [length]. rewrite mean_S. cbn [quad upairs].
  rewrite (mean_ext _ (fun s => dotS s (map (a x) l) * dotS s (map (a x) l) + quad a s l * quad a s l)) by (intros; lra).
  rewrite mean_plus, IH, sumR_app, sumR_map. cbn [fst snd].
  pose proof (mean_sq (map (a x) l)) as E. rewrite map_length, sumR_map in E. rewrite E. reflexivity.
Qed.

(** ** Catalogs with other signs *)
Lemma flip_sum (g : obj -> R) s cat : length s = length cat -> (forall a o, g (setk (a * okappa o) o) = a * g o) ->
  sumR g (flip s cat) = dotS s (map g cat).
Proof.
  intros E H. revert cat E. induction s as [|a s IH]; intros [|o cat] E; try discriminate; [reflexivity|].
  cbn [flip sumR dotS map]. rewrite H, IH by (cbn in E; lia). reflexivity.
Qed.
Lemma flip_in s cat o : In o (flip s cat) -> exists o', In o' cat /\ opos o = opos o' /\ ow o = ow o'.
Proof.
  revert cat. induction s as [|a s IH]; intros [|p cat] H; cbn [flip] in H; try (exists o; auto; fail).
  destruct H as [<-|H]; [exists p; repeat split; left; auto|]. destruct (IH _ H) as [o' [I E]]. exists o'. split; auto. right. auto.
Qed.
Lemma flip_upairs s cat p q : In (p, q) (upairs (flip s cat)) -> exists p' q', In (p', q') (upairs cat) /\ opos p = opos p' /\ opos q = opos q'.
Proof.
  revert cat. induction s as [|a s IH]; intros [|o cat] H; cbn [flip] in H; try (exists p, q; auto; fail).
  cbn [upairs] in *. apply in_app_or in H. destruct H as [H|H].
  - apply in_map_iff in H. destruct H as [y [E H]]. injection E as <- <-. destruct (flip_in _ _ _ H) as [y' [I [E1 _]]].
    exists o, y'. split; [|auto]. apply in_or_app. left. apply in_map_iff. eauto.
  - destruct (IH _ H) as [p' [q' [I E]]]. exists p', q'. split; auto. apply in_or_app. auto.
Qed.
Lemma flip_nonneg s cat : nonnegW cat -> nonnegW (flip s cat).
Proof. intros H o Ho. destruct (flip_in _ _ _ Ho) as [o' [I [_ ->]]]. auto. Qed.
Lemma flip_pos s cat : posW cat -> posW (flip s cat).
Proof. intros H o Ho. destruct (flip_in _ _ _ Ho) as [o' [I [_ ->]]]. auto. Qed.
Lemma flip_off B s t cat1 cat2 : offEdges B euclid cat1 cat2 -> offEdges B euclid (flip s cat1) (flip t cat2).
Proof.
  intros H L o1 o2 j J I1 I2. destruct (flip_in _ _ _ I1) as [p [Ip [-> _]]]. destruct (flip_in _ _ _ I2) as [q [Iq [-> _]]]. apply H; auto.
Qed.
Lemma flip_min B s cat : offMinSep B euclid cat -> offMinSep B euclid (flip s cat).
Proof. intros H p q I. destruct (flip_upairs _ _ _ _ I) as [p' [q' [I' [-> ->]]]]. apply H; auto. Qed.
Lemma flip_same (g : obj -> R) s cat : (forall k o, g (setk k o) = g o) -> sumR g (flip s cat) = sumR g cat.
Proof.
  intro H. revert cat. induction s as [|a s IH]; intros [|o cat]; cbn [flip sumR]; auto. rewrite H, IH. reflexivity.
Qed.
Definition part (b : bool) (x : R) : R := if b then x else 0.
Lemma pairs_flip sel v s t cat1 cat2 : length s = length cat1 -> length t = length cat2 ->
  (forall a b o1 o2, sel (setk a o1) (setk b o2) = sel o1 o2) ->
  (forall a b o1 o2, v (setk (a * okappa o1) o1) (setk (b * okappa o2) o2) = a * (b * v o1 o2)) ->
  (forall b o1 o2, v o1 (setk (b * okappa o2) o2) = b * v o1 o2) ->
  (forall b o1 o2, sel o1 (setk b o2) = sel o1 o2) ->
  sumPairs sel v (flip s cat1) (flip t cat2) = dotS s (map (fun o1 => dotS t (map (fun o2 => part (sel o1 o2) (v o1 o2)) cat2)) cat1).
Proof.
  intros L1 L2 HS HV HV2 HS2. unfold sumPairs. rewrite sumR_pairs. cbn [fst snd].
  rewrite (sumR_ext _ (fun o1 => dotS t (map (fun o2 => part (sel o1 o2) (v o1 o2)) cat2))).
  2:{ intros o1 _. apply flip_sum; auto. intros b o2. rewrite HS2, HV2. unfold part. destruct sel; lra. }
  apply flip_sum; auto. intros a o. rewrite <- dotS_scal. f_equal. apply map_ext. intro o2.
  assert (E : o2 = setk (okappa o2) o2) by (destruct o2; reflexivity).
  replace (sel (setk (a * okappa o) o) o2) with (sel o o2) by (rewrite E at 2; rewrite HS; reflexivity).
  unfold part. destruct (sel o o2); [|lra]. specialize (HV a 1 o o2). replace (setk (1 * okappa o2) o2) with o2 in HV by (rewrite Rmult_1_l; auto).
  rewrite HV. lra.
Qed.

(** ** KK cross-correlation *)
Definition exactCfg (Cf : runcfg) : Prop :=
  cmetric (rP Cf) = Euclidean /\ crpar (rP Cf) = None /\ validB (cbin (rP Cf)) /\ slop_b (cbin (rP Cf)) = 0 /\ narrowLog (cbin (rP Cf)).
Notation selE Cf k := (selBin (cbin (rP Cf)) euclid k).
Lemma weight_flip Cf k s t cat1 cat2 : sumPairs (selE Cf k) v_ww (flip s cat1) (flip t cat2) = sumPairs (selE Cf k) v_ww cat1 cat2.
Proof.
  unfold sumPairs. rewrite !sumR_pairs. cbn [fst snd].
  rewrite (sumR_ext _ (fun o1 => sumR (fun o2 => if selE Cf k o1 o2 then v_ww o1 o2 else 0) cat2)).
  - apply flip_same. intros; reflexivity.
  - intros o1 _. apply flip_same. intros; reflexivity.
Qed.
(** Independent signs: the mean of xi^2 over all signs of both catalogs. *)
Theorem C95_kk_noise Cf cat1 cat2 (out : list R -> list R -> accum) k :
  exactCfg Cf -> offEdges (cbin (rP Cf)) euclid cat1 cat2 -> nonnegW cat1 -> nonnegW cat2 ->
  (forall s t, In s (signs (length cat1)) -> In t (signs (length cat2)) -> runCross Cf (flip s cat1) (flip t cat2) cleared (out s t)) ->
  let W := sumPairs (selE Cf k) v_ww cat1 cat2 in W <> 0 ->
  (forall v1 v2, mean (fun s => mean (fun t => Rsqr (fst (resKK v1 v2 (out s t) k))) (signs (length cat2))) (signs (length cat1)) =
     sumPairs (selE Cf k) (fun o1 o2 => Rsqr (ow o1 * ow o2) * (Rsqr (okappa o1) * Rsqr (okappa o2))) cat1 cat2 / Rsqr W) /\
  (forall v1 v2 s t, In s (signs (length cat1)) -> In t (signs (length cat2)) -> snd (resKK v1 v2 (out s t) k) = v1 * v2 / W).
Proof.
  intros [HM [Hr [HB [Hb HN]]]] HE N1 N2 HR W HW.
  assert (A : forall s t, In s (signs (length cat1)) -> In t (signs (length cat2)) ->
    a_weight (out s t) k = W /\ a_xi_kk (out s t) k = sumPairs (selE Cf k) v_kk (flip s cat1) (flip t cat2)).
  { intros s t Hs Ht. destruct (C01_cross_exact_weights Cf (flip s cat1) (flip t cat2) cleared (out s t) k) as [X [_ Y]]; auto using flip_off, flip_nonneg.
    rewrite X, Y. change (a_weight cleared k) with 0. change (a_xi_kk cleared k) with 0. rewrite !Rplus_0_l. rewrite weight_flip. split; reflexivity. }
  split.
  - intros v1 v2. unfold resKK. cbn [fst].
    set (a := fun o1 o2 => part (selE Cf k o1 o2) (v_kk o1 o2)).
    rewrite (mean_ext _ (fun s => / Rsqr W * mean (fun t => dotS s (map (fun x => dotS t (map (a x) cat2)) cat1) * dotS s (map (fun x => dotS t (map (a x) cat2)) cat1)) (signs (length cat2)))).
    + rewrite mean_scal, mean_bil. unfold Rdiv. rewrite Rmult_comm. f_equal. unfold sumPairs. rewrite sumR_pairs. cbn [fst snd].
      apply sumR_ext. intros o1 _. apply sumR_ext. intros o2 _. unfold a, part, v_kk, Rsqr. destruct selBin; ring.
    + intros s Hs. rewrite <- mean_scal. apply mean_ext. intros t Ht. destruct (A s t Hs Ht) as [-> ->]. unfold divW.
      destruct (Req_EM_T W 0); [contradiction|].
      rewrite pairs_flip; auto using signs_len; try (intros; unfold v_kk; cbn; ring).
      change (dotS s (map (fun o1 => dotS t (map (fun o2 => part (selE Cf k o1 o2) (v_kk o1 o2)) cat2)) cat1)) with (dotS s (map (fun x => dotS t (map (a x) cat2)) cat1)).
      set (D := dotS s _). unfold Rsqr. field. auto.
  - intros v1 v2 s t Hs Ht. unfold resKK. cbn [snd]. destruct (A s t Hs Ht) as [-> _]. unfold varxiOf, covShot, numKK.
    destruct (Req_EM_T (v1 * v2) 0) as [E|E]; [rewrite E; unfold Rdiv; rewrite Rmult_0_l; reflexivity|].
    destruct (Req_EM_T W 0); [contradiction|reflexivity].
Qed.
(** The catalogs have equal weights and values of equal size. *)
Definition uniform (w q : R) (cat : list obj) : Prop := forall o, In o cat -> ow o = w /\ okappa o * okappa o = q.
(** vark of such a catalog with mean value 0. *)
Theorem C95_uniform_var t w q cat : cat <> [] -> 0 < w -> uniform w q cat -> (t = false -> w = 1) -> sumR okappa cat = 0 ->
  varK None t cat = w * q.
Proof.
  intros NE Hw U HT Z. unfold varK.
  assert (LP : 0 < INR (length cat)) by (apply lt_0_INR; destruct cat; [congruence|cbn; lia]).
  assert (S1 : sumR fst (v_rows (kcat t cat)) = INR (length cat) * w).
  { cbn [kcat v_rows]. rewrite sumR_map. cbn [fst]. rewrite (sumR_ext _ (fun _ => w)); [apply sumR_const|]. intros o Ho. apply U; auto. }
  rewrite C35_single; [| |rewrite S1; nra].
  - unfold wvar. rewrite S1.
    assert (M : wmean (v_rows (kcat t cat)) = 0).
    { unfold wmean. cbn [kcat v_rows]. rewrite !sumR_map. cbn [fst snd].
      rewrite (sumR_ext _ (fun o => w * okappa o)); [rewrite sumR_scal, Z; lra|]. intros o Ho. destruct (U o Ho) as [-> _]. reflexivity. }
    rewrite M. cbn [kcat v_rows]. rewrite sumR_map. cbn [fst snd].
    rewrite (sumR_ext _ (fun _ => w * w * q)).
    + rewrite sumR_const. field. lra.
    + intros o Ho. destruct (U o Ho) as [-> <-]. ring.
  - intros E p Hp. cbn [kcat v_nontriv] in E. cbn [kcat v_rows] in Hp. apply in_map_iff in Hp. destruct Hp as [o [<- Ho]]. cbn [fst].
    rewrite (proj1 (U o Ho)). auto.
Qed.
Lemma uniform_sums sel w1 q1 w2 q2 cat1 cat2 : uniform w1 q1 cat1 -> uniform w2 q2 cat2 ->
  sumPairs sel v_ww cat1 cat2 = w1 * w2 * sumPairs sel v_one cat1 cat2 /\
  sumPairs sel (fun o1 o2 => Rsqr (ow o1 * ow o2) * (Rsqr (okappa o1) * Rsqr (okappa o2))) cat1 cat2 =
    Rsqr (w1 * w2) * (q1 * q2) * sumPairs sel v_one cat1 cat2.
Proof.
  intros U1 U2. unfold sumPairs. rewrite <- !sumR_scal. split; apply sumR_ext; intros [o1 o2] H; apply in_prod_iff in H;
    destruct H as [I1 I2]; cbn [fst snd]; destruct sel; try lra; unfold v_ww, v_one, Rsqr;
    destruct (U1 _ I1) as [-> <-]; destruct (U2 _ I2) as [-> <-]; ring.
Qed.
(** With equal weights and equal sizes varxi is exactly that mean. *)
Theorem C95_kk_exact Cf cat1 cat2 (out : list R -> list R -> accum) k w1 q1 w2 q2 :
  exactCfg Cf -> offEdges (cbin (rP Cf)) euclid cat1 cat2 -> 0 < w1 -> 0 < w2 -> uniform w1 q1 cat1 -> uniform w2 q2 cat2 ->
  (forall s t, In s (signs (length cat1)) -> In t (signs (length cat2)) -> runCross Cf (flip s cat1) (flip t cat2) cleared (out s t)) ->
  sumPairs (selE Cf k) v_one cat1 cat2 <> 0 ->
  let v1 := w1 * q1 in let v2 := w2 * q2 in
  forall s0 t0, In s0 (signs (length cat1)) -> In t0 (signs (length cat2)) ->
  mean (fun s => mean (fun t => Rsqr (fst (resKK v1 v2 (out s t) k))) (signs (length cat2))) (signs (length cat1)) =
  snd (resKK v1 v2 (out s0 t0) k).
Proof.
  intros HX HE P1 P2 U1 U2 HR HN v1 v2 s0 t0 H1 H2.
  assert (N1 : nonnegW cat1) by (intros o Ho; rewrite (proj1 (U1 o Ho)); lra).
  assert (N2 : nonnegW cat2) by (intros o Ho; rewrite (proj1 (U2 o Ho)); lra).
  destruct (uniform_sums (selE Cf k) _ _ _ _ _ _ U1 U2) as [E1 E2].
  set (n := sumPairs (selE Cf k) v_one cat1 cat2) in *.
  assert (HW : sumPairs (selE Cf k) v_ww cat1 cat2 <> 0).
  { rewrite E1. apply Rmult_integral_contrapositive. split; auto. nra. }
  destruct (C95_kk_noise Cf cat1 cat2 out k) as [A B]; auto. rewrite A, B; auto. rewrite E1, E2. unfold v1, v2, Rsqr. field. repeat split; auto; lra.
Qed.

(** ** KK auto-correlation *)
Lemma upairs_flip sel v s cat : length s = length cat ->
  (forall a b o1 o2, sel (setk a o1) (setk b o2) = sel o1 o2) ->
  (forall a b o1 o2, v (setk (a * okappa o1) o1) (setk (b * okappa o2) o2) = a * (b * v o1 o2)) ->
  sumUPairs sel v (flip s cat) = quad (fun o1 o2 => part (sel o1 o2) (v o1 o2)) s cat.
Proof.
  intros L HS HV. unfold sumUPairs. revert cat L. induction s as [|a s IH]; intros [|o cat] L; try discriminate; [reflexivity|].
  cbn [flip upairs quad]. rewrite sumR_app, sumR_map, IH by (cbn in L; lia). cbn [fst snd]. f_equal.
  assert (LL : length s = length cat) by (cbn in L; lia). clear IH L. revert cat LL.
  induction s as [|b s IH]; intros [|p cat] LL; try discriminate; cbn [flip sumR dotS map]; [lra|].
  rewrite IH by (cbn in LL; lia). rewrite HS, HV. unfold part. destruct (sel o p); lra.
Qed.
Lemma uweight_flip Cf k s cat : length s = length cat -> sumUPairs (selE Cf k) v_ww (flip s cat) = sumUPairs (selE Cf k) v_ww cat.
Proof.
  unfold sumUPairs. revert cat. induction s as [|a s IH]; intros [|o cat] L; cbn [flip upairs]; auto.
  rewrite !sumR_app, !sumR_map, IH by (cbn in L; lia). cbn [fst snd]. f_equal. apply flip_same. intros; reflexivity.
Qed.
Theorem C95_kk_auto_noise Cf cat (out : list R -> accum) k :
  exactCfg Cf -> offEdges (cbin (rP Cf)) euclid cat cat -> offMinSep (cbin (rP Cf)) euclid cat -> posW cat ->
  (forall s, In s (signs (length cat)) -> runAuto Cf (flip s cat) cleared (out s)) ->
  let W := sumUPairs (selE Cf k) v_ww cat in W <> 0 ->
  (forall v1 v2, mean (fun s => Rsqr (fst (resKK v1 v2 (out s) k))) (signs (length cat)) =
     sumUPairs (selE Cf k) (fun o1 o2 => Rsqr (ow o1 * ow o2) * (Rsqr (okappa o1) * Rsqr (okappa o2))) cat / Rsqr W) /\
  (forall v1 v2 s, In s (signs (length cat)) -> snd (resKK v1 v2 (out s) k) = v1 * v2 / W).
Proof.
  intros [HM [Hr [HB [Hb HN]]]] HE HO PW HR W HW.
  assert (A : forall s, In s (signs (length cat)) ->
    a_weight (out s) k = W /\ a_xi_kk (out s) k = sumUPairs (selE Cf k) v_kk (flip s cat)).
  { intros s Hs. destruct (C02_auto_exact Cf (flip s cat) cleared (out s) k) as [_ [X Y]]; auto using flip_off, flip_min, flip_pos.
    rewrite X, Y. change (a_weight cleared k) with 0. change (a_xi_kk cleared k) with 0. rewrite !Rplus_0_l. rewrite uweight_flip by (apply signs_len; auto). split; reflexivity. }
  split.
  - intros v1 v2. unfold resKK. cbn [fst].
    set (a := fun o1 o2 => part (selE Cf k o1 o2) (v_kk o1 o2)).
    rewrite (mean_ext _ (fun s => / Rsqr W * (quad a s cat * quad a s cat))).
    + rewrite mean_scal, mean_quad. unfold Rdiv. rewrite Rmult_comm. f_equal. unfold sumUPairs.
      apply sumR_ext. intros [o1 o2] _. cbn [fst snd]. unfold a, part, v_kk, Rsqr. destruct selBin; ring.
    + intros s Hs. destruct (A s Hs) as [-> ->]. unfold divW.
      destruct (Req_EM_T W 0); [contradiction|].
      rewrite upairs_flip; auto using signs_len; try (intros; unfold v_kk; cbn; ring). fold a. unfold Rsqr. field. auto.
  - intros v1 v2 s Hs. unfold resKK. cbn [snd]. destruct (A s Hs) as [-> _]. unfold varxiOf, covShot, numKK.
    destruct (Req_EM_T (v1 * v2) 0) as [E|E]; [rewrite E; unfold Rdiv; rewrite Rmult_0_l; reflexivity|].
    destruct (Req_EM_T W 0); [contradiction|reflexivity].
Qed.
Lemma in_upairs {A} (l : list A) x y : In (x, y) (upairs l) -> In x l /\ In y l.
Proof.
  induction l as [|a l IH]; cbn [upairs]; [intros []|]. intro H. apply in_app_or in H. destruct H as [H|H].
  - apply in_map_iff in H. destruct H as [z [E H]]. injection E as <- <-. split; [left|right]; auto.
  - destruct (IH H). split; right; auto.
Qed.
Theorem C95_kk_auto_exact Cf cat (out : list R -> accum) k w q :
  exactCfg Cf -> offEdges (cbin (rP Cf)) euclid cat cat -> offMinSep (cbin (rP Cf)) euclid cat -> 0 < w -> uniform w q cat ->
  (forall s, In s (signs (length cat)) -> runAuto Cf (flip s cat) cleared (out s)) ->
  sumUPairs (selE Cf k) v_one cat <> 0 ->
  let v := w * q in
  forall s0, In s0 (signs (length cat)) ->
  mean (fun s => Rsqr (fst (resKK v v (out s) k))) (signs (length cat)) = snd (resKK v v (out s0) k).
Proof.
  intros HX HE HO PW U HR HN v s0 H0.
  assert (N1 : posW cat) by (intros o Ho; rewrite (proj1 (U o Ho)); lra).
  assert (E1 : sumUPairs (selE Cf k) v_ww cat = w * w * sumUPairs (selE Cf k) v_one cat).
  { unfold sumUPairs. rewrite <- sumR_scal. apply sumR_ext. intros [o1 o2] H. destruct (in_upairs _ _ _ H) as [I1 I2]. cbn [fst snd].
    destruct selBin; try lra. unfold v_ww, v_one. rewrite (proj1 (U _ I1)), (proj1 (U _ I2)). ring. }
  assert (E2 : sumUPairs (selE Cf k) (fun o1 o2 => Rsqr (ow o1 * ow o2) * (Rsqr (okappa o1) * Rsqr (okappa o2))) cat =
    Rsqr (w * w) * (q * q) * sumUPairs (selE Cf k) v_one cat).
  { unfold sumUPairs. rewrite <- sumR_scal. apply sumR_ext. intros [o1 o2] H. destruct (in_upairs _ _ _ H) as [I1 I2]. cbn [fst snd].
    destruct selBin; try lra. unfold v_one, Rsqr. rewrite (proj1 (U _ I1)), (proj1 (U _ I2)), (proj2 (U _ I1)), (proj2 (U _ I2)). ring. }
  set (n := sumUPairs (selE Cf k) v_one cat) in *.
  assert (HW : sumUPairs (selE Cf k) v_ww cat <> 0).
  { rewrite E1. apply Rmult_integral_contrapositive. split; auto. nra. }
  destruct (C95_kk_auto_noise Cf cat out k) as [A B]; auto. rewrite A, B; auto. rewrite E1, E2. unfold v, Rsqr. field. repeat split; auto; lra.
Qed.

(** ** NK cross-correlation *)
(** The number of lenses of a source in a bin. *)
Definition lenses (sel : obj -> obj -> bool) (cat1 : list obj) (o2 : obj) : R := sumR (fun o1 => if sel o1 o2 then 1 else 0) cat1.
Lemma nk_runs Cf cat1 cat2 (out : list R -> accum) k t :
  exactCfg Cf -> offEdges (cbin (rP Cf)) euclid cat1 cat2 -> nonnegW cat1 -> nonnegW cat2 ->
  In t (signs (length cat2)) -> runCross Cf cat1 (flip t cat2) cleared (out t) ->
  a_weight (out t) k = sumPairs (selE Cf k) v_ww cat1 cat2 /\
  a_xi_nk (out t) k = dotS t (map (fun o2 => sumR (fun o1 => part (selE Cf k o1 o2) (v_nk o1 o2)) cat1) cat2).
Proof.
  intros [HM [Hr [HB [Hb HN]]]] HE N1 N2 Ht HR.
  destruct (C01_cross_exact_weights Cf cat1 (flip t cat2) cleared (out t) k) as [X [Y _]]; auto using (flip_off _ []), flip_nonneg.
  { apply (flip_off _ [] t cat1 cat2). auto. }
  rewrite X, Y. change (a_weight cleared k) with 0. change (a_xi_nk cleared k) with 0. rewrite !Rplus_0_l.
  split; [apply (weight_flip Cf k [] t)|]. rewrite <- dotS_sumR. unfold sumPairs. rewrite sumR_pairs. cbn [fst snd].
  apply sumR_ext. intros o1 _. apply flip_sum; [apply signs_len; auto|]. intros a o. unfold part, v_nk. cbn.
  replace (selE Cf k o1 (setk (a * okappa o) o)) with (selE Cf k o1 o) by reflexivity. destruct selBin; ring.
Qed.
Theorem C95_nk_noise Cf cat1 cat2 (out : list R -> accum) k :
  exactCfg Cf -> offEdges (cbin (rP Cf)) euclid cat1 cat2 -> nonnegW cat1 -> nonnegW cat2 ->
  (forall t, In t (signs (length cat2)) -> runCross Cf cat1 (flip t cat2) cleared (out t)) ->
  let W := sumPairs (selE Cf k) v_ww cat1 cat2 in W <> 0 ->
  (forall v, mean (fun t => Rsqr (fst (resNK v (out t) k))) (signs (length cat2)) =
     sumR (fun o2 => Rsqr (sumR (fun o1 => if selE Cf k o1 o2 then ow o1 else 0) cat1) * (Rsqr (ow o2) * Rsqr (okappa o2))) cat2 / Rsqr W) /\
  (forall v t, In t (signs (length cat2)) -> snd (resNK v (out t) k) = v / W).
Proof.
  intros HX HE N1 N2 HR W HW. split.
  - intro v. unfold resNK. cbn [fst].
    set (x := map (fun o2 => sumR (fun o1 => part (selE Cf k o1 o2) (v_nk o1 o2)) cat1) cat2).
    rewrite (mean_ext _ (fun t => / Rsqr W * (dotS t x * dotS t x))).
    + rewrite mean_scal. assert (LX : length cat2 = length x) by (unfold x; rewrite map_length; auto). rewrite LX, mean_sq.
      unfold Rdiv. rewrite Rmult_comm. f_equal. unfold x. rewrite sumR_map. apply sumR_ext. intros o2 _.
      rewrite (sumR_ext _ (fun o1 => (if selE Cf k o1 o2 then ow o1 else 0) * (ow o2 * okappa o2))).
      * rewrite sumR_scal_r. unfold Rsqr. ring.
      * intros o1 _. unfold part, v_nk. destruct selBin; ring.
    + intros t Ht. destruct (nk_runs Cf cat1 cat2 out k t) as [-> ->]; auto. fold W. fold x. unfold divW. destruct (Req_EM_T W 0); [contradiction|].
      unfold Rsqr. field. auto.
  - intros v t Ht. unfold resNK. cbn [snd]. destruct (nk_runs Cf cat1 cat2 out k t) as [-> _]; auto. fold W. unfold varxiOf, covShot, numNK.
    destruct (Req_EM_T v 0) as [E|E]; [rewrite E; unfold Rdiv; rewrite Rmult_0_l; reflexivity|].
    destruct (Req_EM_T W 0); [contradiction|reflexivity].
Qed.
Lemma lenses_nat sel cat1 o2 : exists n, lenses sel cat1 o2 = INR n.
Proof.
  unfold lenses. induction cat1 as [|o l [n IH]]; cbn [sumR]; [exists 0%nat; reflexivity|]. rewrite IH.
  destruct (sel o o2); [exists (S n); rewrite S_INR; lra|exists n; lra].
Qed.
(** Lenses of weight c, sources with equal weights and values of equal size: the mean of xi^2 is at least
    c * varxi, and it is c * varxi if every source has at most one lens in the bin. *)
Theorem C95_nk_lenses Cf cat1 cat2 (out : list R -> accum) k c w q :
  exactCfg Cf -> offEdges (cbin (rP Cf)) euclid cat1 cat2 -> 0 < c -> 0 < w ->
  (forall o, In o cat1 -> ow o = c) -> uniform w q cat2 ->
  (forall t, In t (signs (length cat2)) -> runCross Cf cat1 (flip t cat2) cleared (out t)) ->
  sumPairs (selE Cf k) v_one cat1 cat2 <> 0 ->
  let v := w * q in
  let M := mean (fun t => Rsqr (fst (resNK v (out t) k))) (signs (length cat2)) in
  forall t0, In t0 (signs (length cat2)) ->
  c * snd (resNK v (out t0) k) <= M /\
  ((forall o2, In o2 cat2 -> lenses (selE Cf k) cat1 o2 <= 1) -> M = c * snd (resNK v (out t0) k)).
Proof.
  intros HX HE HC Hw UC U HR HN v M t0 H0.
  assert (N1 : nonnegW cat1) by (intros o Ho; rewrite (UC o Ho); lra).
  assert (N2 : nonnegW cat2) by (intros o Ho; rewrite (proj1 (U o Ho)); lra).
  set (n := sumPairs (selE Cf k) v_one cat1 cat2) in *.
  set (m := lenses (selE Cf k) cat1).
  assert (EN : n = sumR m cat2).
  { unfold n, sumPairs. rewrite sumR_pairs. cbn [fst snd]. rewrite sumR_swap. reflexivity. }
  assert (EW : sumPairs (selE Cf k) v_ww cat1 cat2 = c * w * n).
  { unfold n, sumPairs. rewrite <- sumR_scal. apply sumR_ext. intros [o1 o2] H. apply in_prod_iff in H. destruct H as [I1 I2]. cbn [fst snd].
    destruct selBin; try lra. unfold v_ww, v_one. rewrite (UC _ I1), (proj1 (U _ I2)). ring. }
  assert (HW : sumPairs (selE Cf k) v_ww cat1 cat2 <> 0).
  { rewrite EW. apply Rmult_integral_contrapositive. split; auto. nra. }
  destruct (C95_nk_noise Cf cat1 cat2 out k) as [A B]; auto.
  assert (EM : M = q * sumR (fun o2 => m o2 * m o2) cat2 / (n * n)).
  { unfold M. rewrite A, EW. rewrite (sumR_ext _ (fun o2 => Rsqr (c * w) * q * (m o2 * m o2))).
    - rewrite sumR_scal. unfold Rsqr. field. repeat split; auto; lra.
    - intros o2 I2. destruct (U _ I2) as [-> <-].
      replace (sumR (fun o1 => if selE Cf k o1 o2 then ow o1 else 0) cat1) with (c * m o2); [unfold Rsqr; ring|].
      unfold m, lenses. rewrite <- sumR_scal. apply sumR_ext. intros o1 I1. rewrite (UC _ I1). destruct selBin; lra. }
  assert (EV : c * snd (resNK v (out t0) k) = q * n / (n * n)).
  { rewrite B, EW by auto. unfold v. field. repeat split; auto; lra. }
  rewrite EM, EV. split.
  - assert (NP : 0 < n * n) by nra. unfold Rdiv. apply Rmult_le_compat_r; [left; apply Rinv_0_lt_compat; auto|].
    assert (Q : 0 <= q).
    { destruct cat2 as [|o2 l]; [exfalso; apply HN; rewrite EN; reflexivity|]. destruct (U o2 (or_introl eq_refl)) as [_ <-]. apply (Rle_0_sqr (okappa o2)). }
    apply Rmult_le_compat_l; auto. rewrite EN. apply sumR_le. intros o2 _. destruct (lenses_nat (selE Cf k) cat1 o2) as [j Ej]. fold m in Ej. rewrite Ej.
    destruct j; [cbn; lra|]. rewrite S_INR. pose proof (pos_INR j). nra.
  - intro L. f_equal. f_equal. rewrite EN. apply sumR_ext. intros o2 I2. specialize (L _ I2). fold m in L.
    destruct (lenses_nat (selE Cf k) cat1 o2) as [j Ej]. fold m in Ej. rewrite Ej in *. destruct j as [|[|j]]; [cbn; lra|cbn; lra|].
    rewrite !S_INR in L. pose proof (pos_INR j). lra.
Qed.

(** ** Rescaling the weights of a catalog *)
Definition scaled (c : R) (cat : list obj) : list obj := map (scaleW c) cat.
Lemma scaled_var t t' c cat : 0 < c -> sumR ow cat <> 0 -> (t = false -> forall o, In o cat -> ow o = 1) ->
  (t' = false -> forall o, In o cat -> c * ow o = 1) ->
  varK None t' (scaled c cat) = c * varK None t cat.
Proof.
  intros HC HS HT HT'. unfold varK.
  assert (R1 : v_rows (kcat t' (scaled c cat)) = map (fun o => (c * ow o, okappa o)) cat).
  { cbn [kcat v_rows]. unfold scaled. rewrite map_map. reflexivity. }
  assert (S1 : sumR fst (v_rows (kcat t cat)) = sumR ow cat) by (cbn [kcat v_rows]; rewrite sumR_map; reflexivity).
  assert (S2 : sumR fst (v_rows (kcat t' (scaled c cat))) = c * sumR ow cat) by (rewrite R1, sumR_map; cbn [fst]; apply sumR_scal).
  rewrite (C35_single (kcat t' (scaled c cat))).
  - rewrite (C35_single (kcat t cat)).
    + assert (M : wmean (v_rows (kcat t' (scaled c cat))) = wmean (v_rows (kcat t cat))).
      { unfold wmean. rewrite S1, S2, R1. cbn [kcat v_rows]. rewrite !sumR_map. cbn [fst snd].
        rewrite (sumR_ext (fun x => c * ow x * okappa x) (fun x => c * (ow x * okappa x))) by (intros; ring).
        rewrite sumR_scal. field. split; auto; lra. }
      unfold wvar. rewrite M, S1, S2, R1. cbn [kcat v_rows]. rewrite !sumR_map. cbn [fst snd].
      set (m := wmean _).
      rewrite (sumR_ext (fun x => c * ow x * (c * ow x) * _) (fun x => c * c * (ow x * ow x * ((okappa x - m) * (okappa x - m))))) by (intros; ring).
      rewrite sumR_scal. field. split; auto; lra.
    + intros E p Hp. cbn [kcat v_rows] in Hp. apply in_map_iff in Hp. destruct Hp as [o [<- Ho]]. cbn [fst]. auto.
    + rewrite S1. auto.
  - intros E p Hp. rewrite R1 in Hp. apply in_map_iff in Hp. destruct Hp as [o [<- Ho]]. cbn [fst]. auto.
  - rewrite S2. apply Rmult_integral_contrapositive. split; auto; lra.
Qed.
Lemma scaled_in c cat o : In o (scaled c cat) -> exists o', In o' cat /\ opos o = opos o' /\ ow o = c * ow o'.
Proof. intro H. apply in_map_iff in H. destruct H as [o' [<- I]]. exists o'. auto. Qed.
Lemma scaled_pairs sel v c1 c2 cat1 cat2 : (forall o1 o2, sel (scaleW c1 o1) (scaleW c2 o2) = sel o1 o2) ->
  (forall o1 o2, v (scaleW c1 o1) (scaleW c2 o2) = c1 * c2 * v o1 o2) ->
  sumPairs sel v (scaled c1 cat1) (scaled c2 cat2) = c1 * c2 * sumPairs sel v cat1 cat2.
Proof.
  intros HS HV. unfold sumPairs, scaled. rewrite !sumR_pairs, sumR_map. cbn [fst snd]. rewrite <- sumR_scal. apply sumR_ext. intros o1 _.
  rewrite sumR_map, <- sumR_scal. apply sumR_ext. intros o2 _. rewrite HS, HV. destruct sel; lra.
Qed.
(** Multiplying all weights of a catalog by a constant changes neither xi nor varxi of KK; for NK the same
    holds for the sources, but varxi is divided by the constant for the lenses. *)
Theorem C95_rescaled Cf cat1 cat2 c1 c2 s s' k t1 t2 t1' t2' :
  exactCfg Cf -> offEdges (cbin (rP Cf)) euclid cat1 cat2 -> 0 < c1 -> 0 < c2 -> nonnegW cat1 -> nonnegW cat2 ->
  sumR ow cat1 <> 0 -> sumR ow cat2 <> 0 ->
  (t1 = false -> forall o, In o cat1 -> ow o = 1) -> (t1' = false -> forall o, In o cat1 -> c1 * ow o = 1) ->
  (t2 = false -> forall o, In o cat2 -> ow o = 1) -> (t2' = false -> forall o, In o cat2 -> c2 * ow o = 1) ->
  runCross Cf cat1 cat2 cleared s -> runCross Cf (scaled c1 cat1) (scaled c2 cat2) cleared s' ->
  let v1 := varK None t1 cat1 in let v2 := varK None t2 cat2 in
  let v1' := varK None t1' (scaled c1 cat1) in let v2' := varK None t2' (scaled c2 cat2) in
  resKK v1' v2' s' k = resKK v1 v2 s k /\
  fst (resNK v2' s' k) = fst (resNK v2 s k) /\ snd (resNK v2' s' k) = snd (resNK v2 s k) / c1.
Proof.
  intros [HM [Hr [HB [Hb HN]]]] HE C1 C2 N1 N2 S1 S2 T1 T1' T2 T2' HR HR' v1 v2 v1' v2'.
  assert (E1 : v1' = c1 * v1) by (apply scaled_var; auto). assert (E2 : v2' = c2 * v2) by (apply scaled_var; auto).
  destruct (C01_cross_exact_weights Cf cat1 cat2 cleared s k) as [X [Y Z0]]; auto.
  destruct (C01_cross_exact_weights Cf (scaled c1 cat1) (scaled c2 cat2) cleared s' k) as [X' [Y' Z']]; auto.
  { intros L o1 o2 j J I1 I2. destruct (scaled_in _ _ _ I1) as [p [Ip [-> _]]]. destruct (scaled_in _ _ _ I2) as [q [Iq [-> _]]]. apply HE; auto. }
  { intros o Ho. destruct (scaled_in _ _ _ Ho) as [p [Ip [_ ->]]]. specialize (N1 _ Ip). nra. }
  { intros o Ho. destruct (scaled_in _ _ _ Ho) as [p [Ip [_ ->]]]. specialize (N2 _ Ip). nra. }
  rewrite scaled_pairs in X', Y', Z' by (intros; unfold v_ww, v_nk, v_kk; cbn; try reflexivity; ring).
  change (a_weight cleared k) with 0 in *. change (a_xi_nk cleared k) with 0 in *. change (a_xi_kk cleared k) with 0 in *.
  rewrite Rplus_0_l in *. unfold resKK, resNK. cbn [fst snd]. rewrite X, Y, Z0, X', Y', Z', E1, E2.
  set (w := sumPairs _ v_ww cat1 cat2). set (a := sumPairs _ v_nk cat1 cat2). set (b := sumPairs _ v_kk cat1 cat2).
  assert (W0 : w = 0 -> a = 0 /\ b = 0).
  { intro E. assert (TZ : forall q, In q (pairs cat1 cat2) -> (if selE Cf k (fst q) (snd q) then v_ww (fst q) (snd q) else 0) = 0).
    { assert (P : forall l, (forall q, In q l -> In q (pairs cat1 cat2)) -> sumR (fun q => if selE Cf k (fst q) (snd q) then v_ww (fst q) (snd q) else 0) l = 0 ->
        forall q, In q l -> (if selE Cf k (fst q) (snd q) then v_ww (fst q) (snd q) else 0) = 0).
      { assert (NN : forall q, In q (pairs cat1 cat2) -> 0 <= (if selE Cf k (fst q) (snd q) then v_ww (fst q) (snd q) else 0)).
        { intros [o1 o2] H. apply in_prod_iff in H. destruct H as [I1 I2]. cbn [fst snd]. destruct selBin; [|lra]. unfold v_ww.
          apply Rmult_le_pos; auto. }
        induction l as [|q l IH]; intros HI E0 q' []; cbn [sumR] in E0.
        - subst q'. pose proof (NN q (HI q (or_introl eq_refl))).
          assert (0 <= sumR (fun q => if selE Cf k (fst q) (snd q) then v_ww (fst q) (snd q) else 0) l) by (apply sumR_nonneg; intros; apply NN; apply HI; right; auto). lra.
        - apply IH; auto; [intros; apply HI; right; auto|].
          pose proof (NN q (HI q (or_introl eq_refl))).
          assert (0 <= sumR (fun q => if selE Cf k (fst q) (snd q) then v_ww (fst q) (snd q) else 0) l) by (apply sumR_nonneg; intros; apply NN; apply HI; right; auto). lra. }
      apply (P (pairs cat1 cat2)); auto. }
    split; apply sumR_0; intros q Hq; specialize (TZ q Hq); destruct selBin; auto; unfold v_ww, v_nk, v_kk in *.
    - replace (ow (fst q) * (ow (snd q) * okappa (snd q))) with (ow (fst q) * ow (snd q) * okappa (snd q)) by ring. rewrite TZ. ring.
    - transitivity (ow (fst q) * ow (snd q) * (okappa (fst q) * okappa (snd q))); [ring|]. rewrite TZ. ring. }
  assert (CC : c1 * c2 <> 0) by nra.
  unfold divW, varxiOf, covShot, numKK, numNK.
  destruct (Req_EM_T w 0) as [E|E].
  - destruct (W0 E) as [-> ->]. rewrite E. rewrite !Rmult_0_r. destruct (Req_EM_T 0 0); [|lra].
    repeat match goal with |- context [if ?d then _ else _] => destruct d end; repeat split; lra.
  - assert (c1 * c2 * w <> 0) by (apply Rmult_integral_contrapositive; auto).
    destruct (Req_EM_T (c1 * c2 * w) 0); [contradiction|].
    assert (Q1 : c1 * v1 * (c2 * v2) = 0 <-> v1 * v2 = 0).
    { replace (c1 * v1 * (c2 * v2)) with (c1 * c2 * (v1 * v2)) by ring. split; intro X0; [apply Rmult_integral in X0; tauto|rewrite X0; ring]. }
    assert (Q2 : c2 * v2 = 0 <-> v2 = 0).
    { split; intro X0; [apply Rmult_integral in X0; destruct X0; auto; lra|rewrite X0; ring]. }
    split; [|split].
    + f_equal; [field; repeat split; auto; lra|].
      destruct (Req_EM_T (c1 * v1 * (c2 * v2)) 0), (Req_EM_T (v1 * v2) 0); try tauto. field. repeat split; auto; lra.
    + field. repeat split; auto; lra.
    + destruct (Req_EM_T (c2 * v2) 0), (Req_EM_T v2 0); try tauto; [lra|]. field. repeat split; auto; lra.
Qed.

(** ** Examples *)
Definition noiseObj (x w k : R) (i : nat) : obj := mkobj (mkpos x 0 0) w w k 0 0 i.
Definition lens95 (w : R) : list obj := [noiseObj 0 w 3 0].
Definition src95 (w : R) : list obj := [noiseObj (3/2) w 2 0; noiseObj (9/4) w (-2) 1].
Notation cfg95 := (exRun Euclidean exB BruteNo).
Lemma cfg95_ok : exactCfg cfg95.
Proof. repeat split; try reflexivity; try apply exB_valid; try lra; try lia; try discriminate. Qed.
Lemma off95 w w' : offEdges exB euclid (lens95 w) (src95 w').
Proof.
  intros _ o1 o2 j _ H1 H2. rewrite exB_edge.
  assert (HQ : exists n, (n mod 4 <> 0)%Z /\ euclid (opos o1) (opos o2) = IZR n / 4).
  { destruct H1 as [<-|[]]; destruct H2 as [<-|[<-|[]]]; simpl opos; rewrite euclid_x.
    - exists 6%Z. split; [discriminate|]. rabs.
    - exists 9%Z. split; [discriminate|]. rabs. }
  destruct HQ as [n [Hn ->]]. apply not_edge4; auto.
Qed.
Lemma sum95 v w w' : sumPairs (selE cfg95 0%Z) v (lens95 w) (src95 w') = v (noiseObj 0 w 3 0) (noiseObj (3/2) w' 2 0).
Proof.
  unfold sumPairs, selBin. cbn [exRun rP cbin]. simpl. rewrite !euclid_x, !exB_in by lia.
  repeat match goal with |- context [Rabs ?x] => first [ rewrite (Rabs_left x) by lra | rewrite (Rabs_right x) by lra ] end.
  unfold Rleb, Rltb. repeat (destruct Rle_dec; destruct Rlt_dec; try (exfalso; lra); simpl). lra.
Qed.
Lemma choose {A B} (eqd : forall x y : A, {x = y} + {x <> y}) (P : A -> B -> Prop) (d : B) l :
  (forall x, In x l -> exists y, P x y) -> exists f : A -> B, forall x, In x l -> P x (f x).
Proof.
  induction l as [|a l IH]; intro H; [exists (fun _ => d); intros x []|].
  destruct IH as [f F]; [intros x Hx; apply H; right; auto|]. destruct (H a (or_introl eq_refl)) as [y Y].
  exists (fun x => if eqd a x then y else f x). intros x Hx. destruct (eqd a x) as [<-|N]; auto. apply F. destruct Hx; [congruence|auto].
Qed.
Lemma flip_nonempty s cat : cat <> [] -> flip s cat <> [].
Proof. destruct s, cat; cbn; congruence. Qed.
Example C95_kk_example : exists out, exactCfg cfg95 /\ offEdges exB euclid (lens95 2) (src95 5) /\ uniform 2 9 (lens95 2) /\ uniform 5 4 (src95 5) /\
  (forall s t, In s (signs (length (lens95 2))) -> In t (signs (length (src95 5))) -> runCross cfg95 (flip s (lens95 2)) (flip t (src95 5)) cleared (out s t)) /\
  sumPairs (selE cfg95 0%Z) v_one (lens95 2) (src95 5) <> 0 /\ sumR okappa (src95 5) = 0 /\ varK None true (src95 5) = 20.
Proof.
  assert (EQ : forall x y : list R * list R, {x = y} + {x <> y}) by (intros x y; repeat decide equality; apply Req_EM_T).
  destruct (choose EQ (fun st r => runCross cfg95 (flip (fst st) (lens95 2)) (flip (snd st) (src95 5)) cleared r) cleared
    (list_prod (signs (length (lens95 2))) (signs (length (src95 5))))) as [f F].
  { intros [s t] _. apply runCross_exists; [apply exB_valid|apply flip_nonempty; discriminate|apply flip_nonempty; discriminate]. }
  exists (fun s t => f (s, t)). split; [apply cfg95_ok|]. split; [apply off95|].
  assert (U : uniform 5 4 (src95 5)) by (intros o [<-|[<-|[]]]; cbn; lra).
  assert (Z0 : sumR okappa (src95 5) = 0) by (cbn; lra).
  split; [intros o [<-|[]]; cbn; lra|]. split; [exact U|].
  split. { intros s t Hs Ht. apply (F (s, t)). apply in_prod; auto. }
  split. { rewrite sum95. unfold v_one. lra. }
  split; auto. rewrite (C95_uniform_var true 5 4); try discriminate; auto; lra.
Qed.
Example C95_auto_example : exists out, exactCfg cfg95 /\ offEdges exB euclid (src95 5) (src95 5) /\ offMinSep exB euclid (src95 5) /\
  uniform 5 4 (src95 5) /\ (forall s, In s (signs (length (src95 5))) -> runAuto cfg95 (flip s (src95 5)) cleared (out s)).
Proof.
  assert (EQ : forall x y : list R, {x = y} + {x <> y}) by (intros x y; repeat decide equality; apply Req_EM_T).
  destruct (choose EQ (fun s r => runAuto cfg95 (flip s (src95 5)) cleared r) cleared (signs (length (src95 5)))) as [f F].
  { intros s _. apply runAuto_exists; [apply exB_valid|apply flip_nonempty; discriminate]. }
  exists f. split; [apply cfg95_ok|].
  assert (Q : forall o1 o2, In o1 (src95 5) -> In o2 (src95 5) -> euclid (opos o1) (opos o2) = 0 \/ euclid (opos o1) (opos o2) = 3 / 4).
  { intros o1 o2 [<-|[<-|[]]] [<-|[<-|[]]]; simpl opos; rewrite euclid_x; rabs. }
  split; [|split; [|split; [intros o [<-|[<-|[]]]; cbn; lra|exact F]]].
  - intros _ o1 o2 j J I1 I2. rewrite exB_edge. assert (1 <= IZR j) by (apply (IZR_le 1); lia). destruct (Q o1 o2 I1 I2) as [->| ->]; lra.
  - intros o1 o2 H. destruct (in_upairs _ _ _ H) as [I1 I2]. cbn. destruct (Q o1 o2 I1 I2) as [->| ->]; lra.
Qed.
Lemma nonneg95 w : 0 < w -> nonnegW (lens95 w) /\ nonnegW (src95 w).
Proof. intro H. split; [intros o [<-|[]]|intros o [<-|[<-|[]]]]; cbn; lra. Qed.
(** The lenses with weight 1 and with weight 4: xi is 2 in both cases, varxi is 4 and 1; the mean of xi^2 over
    the signs of the values of the sources is 4 in both cases. *)
Theorem C95_lens_weights_refuted : exists Cf cat1 cat2 c (out out' : list R -> accum) k t, exactCfg Cf /\ offEdges (cbin (rP Cf)) euclid cat1 cat2 /\
  In t (signs (length cat2)) /\
  (forall t, In t (signs (length cat2)) -> runCross Cf cat1 (flip t cat2) cleared (out t)) /\
  (forall t, In t (signs (length cat2)) -> runCross Cf (scaled c cat1) (flip t cat2) cleared (out' t)) /\
  let v := varK None false cat2 in
  resNK v (out t) k = (2, 4) /\ resNK v (out' t) k = (2, 1) /\
  mean (fun t => Rsqr (fst (resNK v (out t) k))) (signs (length cat2)) = 4 /\
  mean (fun t => Rsqr (fst (resNK v (out' t) k))) (signs (length cat2)) = 4.
Proof.
  assert (EQ : forall x y : list R, {x = y} + {x <> y}) by (intros x y; repeat decide equality; apply Req_EM_T).
  assert (CH : forall w, exists out : list R -> accum, forall t, In t (signs (length (src95 1))) -> runCross cfg95 (lens95 w) (flip t (src95 1)) cleared (out t)).
  { intro w. apply (choose EQ (fun t r => runCross cfg95 (lens95 w) (flip t (src95 1)) cleared r) cleared).
    intros t _. apply runCross_exists; [apply exB_valid|discriminate|apply flip_nonempty; discriminate]. }
  destruct (CH 1) as [out H1]. destruct (CH 4) as [out' H4].
  assert (SC : scaled 4 (lens95 1) = lens95 4) by (unfold scaled, lens95, noiseObj, scaleW; cbn; rewrite !Rmult_1_r; reflexivity).
  assert (V : varK None false (src95 1) = 4).
  { rewrite (C95_uniform_var false 1 4); try discriminate; auto; try lra; [intros o [<-|[<-|[]]]; cbn; lra|cbn; lra]. }
  assert (I0 : In [1; 1] (signs (length (src95 1)))) by (cbn; left; reflexivity).
  assert (K : forall w (o : list R -> accum), 0 < w -> (forall t, In t (signs (length (src95 1))) -> runCross cfg95 (lens95 w) (flip t (src95 1)) cleared (o t)) ->
    resNK 4 (o [1; 1]) 0%Z = (2, 4 / w) /\ mean (fun t => Rsqr (fst (resNK 4 (o t) 0%Z))) (signs (length (src95 1))) = 4).
  { intros w o Hw HR. destruct (nonneg95 w Hw) as [NN _]. destruct (nonneg95 1 Rlt_0_1) as [_ NS].
    assert (UN : sumR (fun o2 => Rsqr (sumR (fun o1 => if selE cfg95 0%Z o1 o2 then ow o1 else 0) (lens95 w)) * (Rsqr (ow o2) * Rsqr (okappa o2))) (src95 1) = 4 * (w * w)).
    { pose proof (sum95 (fun o1 o2 => Rsqr (ow o1) * (Rsqr (ow o2) * Rsqr (okappa o2))) w 1) as E. unfold sumPairs in E. rewrite sumR_pairs in E. cbn [fst snd] in E.
      cbn [lens95 sumR] in E |- *. rewrite Rplus_0_r in E. cbn [noiseObj ow okappa] in E. transitivity (Rsqr w * (Rsqr 1 * Rsqr 2)); [|unfold Rsqr; ring].
      rewrite <- E. apply sumR_ext. intros o2 _. cbn [noiseObj ow]. destruct selBin; unfold Rsqr; ring. }
    destruct (C95_nk_noise cfg95 (lens95 w) (src95 1) o 0%Z cfg95_ok (off95 w 1) NN NS HR) as [A B].
    { rewrite sum95. unfold v_ww. cbn. lra. }
    specialize (A 4). specialize (B 4 [1; 1] I0). rewrite sum95 in A, B. rewrite UN in A. unfold v_ww in A, B. cbn [noiseObj ow] in A, B.
    split; [|rewrite A; unfold Rsqr; field; lra].
    destruct (nk_runs cfg95 (lens95 w) (src95 1) o 0%Z [1; 1] cfg95_ok (off95 w 1) NN NS I0 (HR _ I0)) as [X Y].
    apply injective_projections; [|rewrite B; cbn; field; lra]. unfold resNK. cbn [fst]. rewrite X, Y, sum95. unfold v_ww. cbn [noiseObj ow].
    unfold divW. destruct (Req_EM_T (w * 1) 0); [lra|].
    pose proof (sum95 v_nk w 1) as E. unfold sumPairs in E. rewrite sumR_pairs in E. cbn [fst snd lens95 sumR] in E. rewrite Rplus_0_r in E.
    cbn [lens95 sumR src95 map dotS] in E |- *. rewrite !Rplus_0_r in E |- *. rewrite !Rmult_1_l.
    unfold part. rewrite !Rplus_0_r. rewrite E. unfold v_nk. cbn. field. lra. }
  destruct (K 1 out Rlt_0_1 H1) as [R1 M1]. destruct (K 4 out' ltac:(lra) H4) as [R4 M4].
  exists cfg95, (lens95 1), (src95 1), 4, out, out', 0%Z, [1; 1]. split; [apply cfg95_ok|]. split; [apply off95|]. split; [exact I0|].
  split; [exact H1|]. split; [rewrite SC; exact H4|]. cbv zeta. rewrite V. rewrite R1, R4. repeat split; auto; f_equal; lra.
Qed.
(** The option vark, "Variance of k values to use, rather than calculate directly": for weights other than 1 the
    variance of the values is not what is calculated. *)
Theorem C95_vark_option_refuted : exists cat v s k, runCross cfg95 (lens95 1) cat cleared s /\
  sumR okappa cat = 0 /\ v = sumR (fun o => okappa o * okappa o) cat / INR (length cat) /\ (forall o, In o cat -> ow o = 5) /\
  snd (resNK (varK (Some v) true cat) s k) = 4 / 5 /\ snd (resNK (varK None true cat) s k) = 4.
Proof.
  destruct (runCross_exists cfg95 (lens95 1) (src95 5) cleared) as [s H]; [apply exB_valid|discriminate|discriminate|].
  assert (V : varK None true (src95 5) = 20).
  { rewrite (C95_uniform_var true 5 4); try discriminate; auto; try lra; [intros o [<-|[<-|[]]]; cbn; lra|cbn; lra]. }
  exists (src95 5), 4, s, 0%Z. split; auto. split; [cbn; lra|]. split; [cbn; lra|]. split; [intros o [<-|[<-|[]]]; reflexivity|].
  destruct cfg95_ok as [HM [Hr [HB [Hb HN]]]]. destruct (nonneg95 1 Rlt_0_1) as [NN _]. destruct (nonneg95 5 ltac:(lra)) as [_ NS].
  destruct (C01_cross_exact_weights cfg95 (lens95 1) (src95 5) cleared s 0%Z) as [X _]; auto; [apply off95|].
  rewrite sum95 in X. change (a_weight cleared 0%Z) with 0 in X. unfold v_ww in X. cbn [noiseObj ow] in X.
  unfold resNK. cbn [snd]. rewrite X, V. cbn [varK]. unfold varxiOf, covShot, numNK.
  repeat match goal with |- context [Req_EM_T ?a ?b] => destruct (Req_EM_T a b); try lra end.
Qed.

(** ** NN: varxi does not depend on the units of the weights *)
Definition scaleN (c : R) (n : nnc) : nnc := mkNNC (c * n_tot n) (map (fun b => (fst b, c * snd b)) (n_bins n)).
Definition full (n : nnc) : Prop := avg fst (n_bins n) <> 0 /\ avg snd (n_bins n) <> 0 /\ n_tot n <> 0.
Lemma meanWeight_scale c n : avg fst (n_bins n) <> 0 -> meanWeight (scaleN c n) = c * meanWeight n.
Proof.
  intro H. unfold meanWeight. cbn [scaleN n_bins].
  assert (E1 : avg fst (map (fun b : R * R => (fst b, c * snd b)) (n_bins n)) = avg fst (n_bins n)) by (unfold avg; rewrite sumR_map, map_length; reflexivity).
  assert (E2 : avg snd (map (fun b : R * R => (fst b, c * snd b)) (n_bins n)) = c * avg snd (n_bins n)).
  { unfold avg. rewrite sumR_map, map_length. cbn [snd]. rewrite sumR_scal. lra. }
  rewrite E1, E2. destruct (Req_EM_T _ 0); [contradiction|]. lra.
Qed.
Theorem C95_nn_rescaled dd rr dr rd w a b : 0 < a -> 0 < b -> full dd -> full rr ->
  (forall d, dr = Some d -> full d) -> (forall d, rd = Some d -> full d) ->
  varxiNN (scaleN (a * a) dd) (scaleN (b * b) rr) (option_map (scaleN (a * b)) dr) (option_map (scaleN (a * b)) rd) (b * b * w) =
  varxiNN dd rr dr rd w.
Proof.
  intros Ha Hb [D1 [D2 D3]] [R1 [R2 R3]] HDR HRD.
  assert (MD : meanWeight dd <> 0).
  { unfold meanWeight. destruct (Req_EM_T _ 0); [contradiction|]. apply Rmult_integral_contrapositive. split; auto. apply Rinv_neq_0_compat. auto. }
  assert (A0 : a <> 0) by lra. assert (B0 : b <> 0) by lra.
  assert (AB : a * b <> 0) by (apply Rmult_integral_contrapositive; auto). assert (AA : a * a <> 0) by (apply Rmult_integral_contrapositive; auto).
  assert (BB : b * b <> 0) by (apply Rmult_integral_contrapositive; auto).
  assert (NZ : forall c n, c <> 0 -> n_tot n <> 0 -> c * n_tot n <> 0) by (intros; apply Rmult_integral_contrapositive; auto).
  unfold varxiNN, nnShot. cbn [scaleN n_tot].
  destruct (Req_EM_T (n_tot rr) 0) as [X|_]; [contradiction|]. destruct (Req_EM_T (b * b * n_tot rr) 0) as [X|_]; [exfalso; apply (NZ (b * b) rr); auto|].
  fold (scaleN (a * a) dd). fold (scaleN (b * b) rr).
  rewrite (meanWeight_scale (a * a) dd), (meanWeight_scale (b * b) rr) by auto.
  set (md := meanWeight dd) in *. set (mr := meanWeight rr).
  assert (F : forall x y : R, x = y -> (forall z, match Some z with None => None | Some (num, rw) => Some (covShot num rw) end = Some (covShot (fst z) (snd z))) ->
    Some (covShot (a * a * md * (x * x)) (b * b * w * (a * a * n_tot dd / (b * b * n_tot rr)))) = Some (covShot (md * (y * y)) (w * (n_tot dd / n_tot rr)))).
  { intros x y -> _. f_equal. set (u := w * (n_tot dd / n_tot rr)).
    replace (b * b * w * (a * a * n_tot dd / (b * b * n_tot rr))) with (a * a * u) by (unfold u; field; auto).
    unfold covShot. destruct (Req_EM_T u 0) as [E|E], (Req_EM_T (a * a * u) 0) as [E'|E'].
    - lra.
    - exfalso. apply E'. rewrite E. ring.
    - exfalso. apply Rmult_integral in E'. tauto.
    - field. auto. }
  destruct dr as [d|], rd as [e|]; cbn [option_map].
  - destruct (HDR d eq_refl) as [d1 [d2 d3]]. destruct (HRD e eq_refl) as [e1 [e2 e3]]. cbn [scaleN n_tot]. fold (scaleN (a * b) d). fold (scaleN (a * b) e).
    repeat match goal with |- context [Req_EM_T ?x 0] => destruct (Req_EM_T x 0) as [X|_]; [exfalso; first [contradiction|apply (NZ _ _ AB d3 X)|apply (NZ _ _ AB e3 X)]|] end.
    rewrite !meanWeight_scale by auto. apply F; [|intros []; reflexivity]. field. repeat split; auto.
  - destruct (HDR d eq_refl) as [d1 [d2 d3]]. cbn [scaleN n_tot]. fold (scaleN (a * b) d).
    repeat match goal with |- context [Req_EM_T ?x 0] => destruct (Req_EM_T x 0) as [X|_]; [exfalso; first [contradiction|apply (NZ _ _ AB d3 X)]|] end.
    rewrite !meanWeight_scale by auto. apply F; [|intros []; reflexivity]. field. repeat split; auto.
  - destruct (HRD e eq_refl) as [d1 [d2 d3]]. cbn [scaleN n_tot]. fold (scaleN (a * b) e).
    repeat match goal with |- context [Req_EM_T ?x 0] => destruct (Req_EM_T x 0) as [X|_]; [exfalso; first [contradiction|apply (NZ _ _ AB d3 X)]|] end.
    rewrite !meanWeight_scale by auto. apply F; [|intros []; reflexivity]. field. repeat split; auto.
  - apply F; [|intros []; reflexivity]. field. repeat split; auto.
Qed.
(** Unit weights (weight = npairs in every bin) and f = tot_DD / tot_RR: (1 + f)^2 / (f RR), (1 + 2 f' + f)^2 / (f RR). *)
Definition unitW (n : nnc) : Prop := avg fst (n_bins n) <> 0 /\ forall b, In b (n_bins n) -> snd b = fst b.
Lemma meanWeight_unit n : unitW n -> meanWeight n = 1.
Proof.
  intros [H U]. unfold meanWeight. destruct (Req_EM_T _ 0); [contradiction|].
  replace (avg snd (n_bins n)) with (avg fst (n_bins n)); [field; auto|]. unfold avg. f_equal. apply sumR_ext. intros b Hb. symmetry. auto.
Qed.
Theorem C95_nn_unit dd rr dr rd w : unitW dd -> unitW rr -> unitW dr -> unitW rd -> n_tot dd <> 0 -> n_tot rr <> 0 -> n_tot dr <> 0 -> n_tot rd <> 0 -> w <> 0 ->
  let f := n_tot dd / n_tot rr in let g := n_tot dd / n_tot dr in let h := n_tot dd / n_tot rd in
  varxiNN dd rr None None w = Some (Rsqr (1 + f) / (f * w)) /\
  varxiNN dd rr (Some dr) None w = Some (Rsqr (1 + 2 * g + f) / (f * w)) /\
  varxiNN dd rr (Some dr) (Some rd) w = Some (Rsqr (1 + g + h + f) / (f * w)).
Proof.
  intros U1 U2 U3 U4 D1 D2 D3 D4 W f g h. unfold varxiNN, nnShot. rewrite !meanWeight_unit by auto. fold f. fold g. fold h.
  assert (FZ : w * f <> 0).
  { apply Rmult_integral_contrapositive. split; auto. apply Rmult_integral_contrapositive. split; auto. apply Rinv_neq_0_compat. auto. }
  assert (F0 : f <> 0) by (intro E; apply FZ; rewrite E; ring).
  repeat match goal with |- context [Req_EM_T ?x 0] => destruct (Req_EM_T x 0) as [X|_]; [contradiction|] end. unfold covShot.
  destruct (Req_EM_T (w * f) 0) as [X|_]; [contradiction|]. unfold Rsqr. repeat split; f_equal; field; auto.
Qed.
Example C95_nn_example : full (mkNNC 10 [(3, 6); (4, 9)]) /\ unitW (mkNNC 10 [(3, 3); (4, 4)]) /\
  varxiNN (mkNNC 10 [(3, 3); (4, 4)]) (mkNNC 40 [(8, 8); (12, 12)]) None None 8 = Some (25 / 32).
Proof.
  assert (U : forall x y t, 0 < x -> 0 < y -> unitW (mkNNC t [(x, x); (y, y)])).
  { intros x y t Hx Hy. split; [unfold avg; cbn; lra|intros b [<-|[<-|[]]]; reflexivity]. }
  split; [repeat split; unfold avg; cbn; lra|]. split; [apply U; lra|].
  destruct (C95_nn_unit (mkNNC 10 [(3, 3); (4, 4)]) (mkNNC 40 [(8, 8); (12, 12)]) (mkNNC 40 [(8, 8); (12, 12)]) (mkNNC 40 [(8, 8); (12, 12)]) 8) as [E _];
    try (apply U; lra); try (cbn; lra). rewrite E. cbn. unfold Rsqr. f_equal. lra.
Qed.
