(** C97: the patch centres of a catalog. *)
From Coq Require Import String.
From Coq Require Import Reals Lra Lia List ZArith Bool.
From Verif Require Import Base Geometry GeomFacts SumFacts KMeans KMeansFacts PropsKM Centers.
Import ListNotations.
Open Scope R_scope.

(** ** Specification *)
(** The weight of an object: 1 if the catalog has no weights. *)
Definition rw (c : ccat) (r : crow) : R := if cc_nontriv c then c_w r else 1.
(** The objects with patch number [p]. *)
Definition ofPatch (c : ccat) (p : nat) (r : crow) : Prop := In r (cc_rows c) /\ c_patch r = p.
(** The weighted sum of squared distances of a group of objects to a point. *)
Definition inertiaAt (c : ccat) (l : list crow) (q : pos) : R := sumR (fun r => rw c r * normSq (psub (c_pos r) q)) l.
(** The weighted sum of the positions. *)
Definition moment (c : ccat) (l : list crow) : pos :=
  mkpos (sumR (fun r => rw c r * px (c_pos r)) l) (sumR (fun r => rw c r * py (c_pos r)) l) (sumR (fun r => rw c r * pz (c_pos r)) l).
Definition totW (c : ccat) (l : list crow) : R := sumR (rw c) l.
(** Positions as _generate_xyz makes them. *)
Definition inCoord (co : coord) (q : pos) : Prop :=
  match co with Flat => pz q = 0 | ThreeD => True | Sphere => normSq q = 1 end.
Definition goodCat (c : ccat) : Prop := forall r, In r (cc_rows c) -> inCoord (cc_coord c) (c_pos r) /\ 0 <= rw c r.
(** [m] is the best centre for the group: admissible, and strictly better than all other points. *)
Definition bestCenter (c : ccat) (l : list crow) (m : pos) : Prop :=
  inCoord (cc_coord c) m /\ forall q, inCoord (cc_coord c) q -> q <> m -> inertiaAt c l m < inertiaAt c l q.

Lemma wmean_val c f l : totW c l <> 0 ->
  weightedMean (cc_nontriv c) f l = Some (sumR (fun r => rw c r * f (c_pos r)) l / totW c l).
Proof.
  unfold weightedMean, totW, ndiv. intro H. assert (HE : forall A B C D : R, A = C -> B = D -> D <> 0 -> (if Req_EM_T B 0 then None else Some (A / B)) = Some (C / D)).
  { intros A B C D -> -> N. destruct (Req_EM_T D 0); [contradiction|auto]. }
  unfold rw in *. destruct (cc_nontriv c).
  - apply HE; auto. apply sumR_ext. intros; ring.
  - apply HE; auto.
    + apply sumR_ext. intros; ring.
    + rewrite sumR_const. ring.
Qed.
Lemma wmean_nan c f l : totW c l = 0 -> weightedMean (cc_nontriv c) f l = None.
Proof.
  unfold weightedMean, totW, ndiv, rw. intro H. destruct (cc_nontriv c).
  - destruct (Req_EM_T (sumR c_w l) 0); auto. exfalso. apply n. rewrite <- H. apply sumR_ext; auto.
  - rewrite sumR_const, Rmult_1_r in H. rewrite H. destruct (Req_EM_T 0 0); auto. lra.
Qed.
Lemma mean_val c l : totW c l <> 0 -> (cc_coord c = Flat -> forall r, In r l -> pz (c_pos r) = 0) ->
  meanPos c l = Some (pscale (/ totW c l) (moment c l)).
Proof.
  intros H HZ. unfold meanPos. rewrite !wmean_val by auto.
  assert (E : (match cc_coord c with Flat => Some 0 | _ => Some (sumR (fun r => rw c r * pz (c_pos r)) l / totW c l) end) =
    Some (/ totW c l * pz (moment c l))).
  { destruct (cc_coord c); f_equal; try (unfold moment; cbn; field; auto).
    unfold moment. cbn. rewrite (sumR_0 (fun r => rw c r * pz (c_pos r))); [ring|]. intros x Hx. rewrite HZ; auto. ring. }
  rewrite E. unfold pscale. f_equal. f_equal; cbn; field; auto.
Qed.
Lemma inertia_expand c l q : inertiaAt c l q =
  sumR (fun r => rw c r * normSq (c_pos r)) l - 2 * dot (moment c l) q + totW c l * normSq q.
Proof.
  unfold inertiaAt, moment, totW, dot. cbn [px py pz].
  transitivity (sumR (fun r => rw c r * normSq (c_pos r) - 2 * ((rw c r * px (c_pos r)) * px q + (rw c r * py (c_pos r)) * py q + (rw c r * pz (c_pos r)) * pz q)
     + rw c r * normSq q) l).
  - apply sumR_ext. intros r _. unfold normSq, psub. cbn. ring.
  - rewrite sumR_plus, sumR_minus, sumR_scal, !sumR_plus, !sumR_scal_r. ring.
Qed.
Lemma pos_eq p q : normSq (psub p q) = 0 -> p = q.
Proof.
  destruct p as [a b e], q as [x y z]. unfold normSq, psub. cbn. intro H.
  assert (a - x = 0 /\ b - y = 0 /\ e - z = 0) as [H1 [H2 H3]].
  { pose proof (Rle_0_sqr (a - x)). pose proof (Rle_0_sqr (b - y)). pose proof (Rle_0_sqr (e - z)). unfold Rsqr in *.
    repeat split; apply Rsqr_0_uniq; unfold Rsqr; lra. }
  f_equal; lra.
Qed.
Lemma best_flat c l : cc_coord c <> Sphere -> 0 < totW c l -> (cc_coord c = Flat -> forall r, In r l -> pz (c_pos r) = 0) ->
  bestCenter c l (pscale (/ totW c l) (moment c l)).
Proof.
  intros HS HW HZ. split.
  - destruct (cc_coord c); cbn; auto; [|contradiction].
    rewrite (sumR_0 (fun r => rw c r * pz (c_pos r))); [ring|]. intros x Hx. rewrite HZ; auto. ring.
  - intros q _ Hq. rewrite !inertia_expand. set (m := pscale (/ totW c l) (moment c l)) in *.
    assert (M : moment c l = pscale (totW c l) m).
    { unfold m. generalize (moment c l). intros [a b e]. unfold pscale. cbn. f_equal; field; lra. }
    rewrite M. assert (0 < normSq (psub q m)).
    { destruct (normSq_nonneg (psub q m)) as [|E]; auto. exfalso. apply Hq. apply pos_eq. auto. }
    assert (X : totW c l * normSq q - 2 * dot (pscale (totW c l) m) q - (totW c l * normSq m - 2 * dot (pscale (totW c l) m) m) =
      totW c l * normSq (psub q m)).
    { unfold dot, pscale, normSq, psub. cbn. ring. }
    pose proof (Rmult_lt_0_compat _ _ HW H). lra.
Qed.
Lemma norm_sq p : norm p * norm p = normSq p.
Proof. apply sqrt_sqrt, normSq_nonneg. Qed.
Lemma best_sphere c l m : cc_coord c = Sphere -> 0 < totW c l -> moment c l <> mkpos 0 0 0 ->
  m = pscale (/ norm (moment c l)) (moment c l) -> bestCenter c l m.
Proof.
  intros HS HW HM Em. set (M := moment c l) in *. set (n := norm M) in *.
  assert (Hn : 0 < n).
  { assert (0 <= n) by apply sqrt_pos. destruct H as [|E]; auto. exfalso. apply HM. apply pos_eq.
    replace (psub M (mkpos 0 0 0)) with M by (destruct M; unfold psub; cbn; f_equal; ring). rewrite <- norm_sq. fold n. rewrite <- E. ring. }
  assert (HMm : M = pscale n m).
  { rewrite Em. destruct M as [a b e]. unfold pscale. cbn. f_equal; field; lra. }
  assert (H1 : normSq m = 1).
  { assert (X : normSq M = n * n) by (unfold n; rewrite norm_sq; auto). rewrite HMm in X. unfold normSq, pscale in *. cbn in X.
    apply (Rmult_eq_reg_l (n * n)); [|apply Rgt_not_eq, Rmult_lt_0_compat; auto]. lra. }
  split; [rewrite HS; exact H1|]. rewrite HS. cbn [inCoord]. intros q Hq Hne. rewrite !inertia_expand. fold M. rewrite Hq, H1, HMm.
  assert (0 < normSq (psub q m)).
  { destruct (normSq_nonneg (psub q m)) as [|E]; auto. exfalso. apply Hne. apply pos_eq. auto. }
  assert (X : normSq (psub q m) = 2 - 2 * dot m q) by (unfold normSq, psub, dot in *; cbn; lra).
  assert (Y : dot (pscale n m) m = n) by (unfold dot, pscale, normSq in *; cbn; rewrite <- (Rmult_1_r n) at 4; rewrite <- H1; ring).
  assert (D : dot (pscale n m) q = n * dot m q) by (unfold dot, pscale; cbn; ring).
  rewrite D, Y. assert (0 < n * (1 - dot m q)) by (apply Rmult_lt_0_compat; lra). lra.
Qed.
(** Half spaces: the mean of points on one side is on that side. *)
Lemma half c l a b : 0 < totW c l -> (forall r, In r l -> 0 <= rw c r /\ dot a (c_pos r) <= b) ->
  dot a (pscale (/ totW c l) (moment c l)) <= b.
Proof.
  intros HW H. assert (X : dot a (moment c l) = sumR (fun r => rw c r * dot a (c_pos r)) l).
  { unfold dot, moment. cbn. rewrite <- !sumR_scal, <- !sumR_plus. apply sumR_ext. intros; ring. }
  assert (Y : sumR (fun r => rw c r * dot a (c_pos r)) l <= sumR (fun r => rw c r * b) l).
  { apply sumR_le. intros r Hr. destruct (H r Hr). apply Rmult_le_compat_l; auto. }
  rewrite sumR_scal_r in Y. fold (totW c l) in Y. rewrite <- X in Y.
  replace (dot a (pscale (/ totW c l) (moment c l))) with (dot a (moment c l) / totW c l) by (unfold dot, pscale; cbn; field; lra).
  apply (Rmult_le_reg_r (totW c l)); auto. unfold Rdiv. rewrite Rmult_assoc, Rinv_l by lra. lra.
Qed.

(** Given centres are returned as they are. *)
Theorem C97_given c l : cc_given c = Some l -> getPatchCenters c = Cens (map Some l).
Proof. intro H. unfold getPatchCenters. rewrite H. auto. Qed.
(** The numbers of the patches: 0 .. npatch-1, where npatch - 1 is the largest number used. *)
Theorem C97_npatch c : cc_rows c <> [] ->
  (forall r, In r (cc_rows c) -> (c_patch r < ccNpatch c)%nat) /\ exists r, In r (cc_rows c) /\ S (c_patch r) = ccNpatch c.
Proof.
  unfold ccNpatch. generalize (cc_rows c). induction l as [|r t IH]; intros N; [contradiction|].
  destruct t as [|r' t'].
  - split; [intros x [<-|[]]; cbn; lia|exists r; cbn; split; auto; lia].
  - destruct IH as [I1 [x [I2 I3]]]; [discriminate|]. cbn [map fold_right] in *. split.
    + intros y [<-|Hy]; [lia|]. specialize (I1 y Hy). lia.
    + destruct (Nat.max_spec (c_patch r) (Nat.max (c_patch r') (fold_right Nat.max 0%nat (map c_patch t')))) as [[L E]|[L E]]; rewrite E.
      * exists x. split; [right; auto|lia].
      * exists r. split; [left; auto|lia].
Qed.
Lemma inPatch_spec c p r : In r (inPatch c p) <-> ofPatch c p r.
Proof. unfold inPatch, ofPatch. rewrite filter_In, Nat.eqb_eq. tauto. Qed.
(** RuntimeError exactly when some patch number below npatch is not used. *)
Theorem C97_error c : cc_given c = None ->
  (getPatchCenters c = CenRunErr <-> cc_patch c = true /\ exists p, (p < ccNpatch c)%nat /\ forall r, ~ ofPatch c p r).
Proof.
  intro H. unfold getPatchCenters. rewrite H. destruct (cc_patch c); [|split; [discriminate|intros [X _]; discriminate]].
  destruct (existsb _ _) eqn:E.
  - split; auto. intros _. split; auto. apply existsb_exists in E as [p [Hp E]]. apply in_seq in Hp. exists p. split; [lia|].
    intros r Hr. apply inPatch_spec in Hr. destruct (inPatch c p); [contradiction|discriminate].
  - split; [discriminate|]. intros [_ [p [Hp Hr]]]. exfalso.
    assert (X : existsb (fun p => match inPatch c p with [] => true | _ => false end) (seq 0 (ccNpatch c)) = true); [|congruence].
    apply existsb_exists. exists p. split; [apply in_seq; lia|]. destruct (inPatch c p) as [|r t] eqn:EP; auto.
    exfalso. apply (Hr r). apply inPatch_spec. rewrite EP. left; auto.
Qed.
(** The group of objects of entry [p] of the result: a patch, or the whole catalog without patches. *)
Definition group (c : ccat) (p : nat) : list crow := if cc_patch c then filter (fun r => Nat.eqb (c_patch r) p) (cc_rows c) else cc_rows c.
Definition ncen (c : ccat) : nat := if cc_patch c then ccNpatch c else 1%nat.
Lemma centers_val c l : cc_given c = None -> getPatchCenters c = Cens l ->
  length l = ncen c /\ forall p, (p < ncen c)%nat -> nth p l None = unitPos c (meanPos c (group c p)).
Proof.
  intros H. unfold getPatchCenters, ncen, group. rewrite H. destruct (cc_patch c).
  - destruct (existsb _ _); [discriminate|]. intro E. apply (f_equal (fun r => match r with Cens l => l | _ => [] end)) in E. cbv beta iota in E. subst l. split; [rewrite map_length, seq_length; auto|].
    intros p Hp. rewrite (nth_indep _ _ (unitPos c (meanPos c (inPatch c 0)))) by (rewrite map_length, seq_length; auto).
    rewrite (map_nth (fun p => unitPos c (meanPos c (inPatch c p)))). rewrite seq_nth; auto.
  - intro E. injection E as <-. split; auto. intros p Hp. assert (p = 0%nat) as -> by lia. auto.
Qed.
(** Every computed centre is the best centre of its objects: of all points of the plane (3d: of space;
    spherical: of the unit sphere) the one with the least weighted sum of squared distances.  Flat and
    3d centres lie in every half space which contains the objects of the patch. *)
Theorem C97_best c l p : cc_given c = None -> getPatchCenters c = Cens l -> goodCat c -> (p < ncen c)%nat ->
  0 < totW c (group c p) -> (cc_coord c = Sphere -> moment c (group c p) <> mkpos 0 0 0) ->
  length l = ncen c /\
  exists m, nth p l None = Some m /\ bestCenter c (group c p) m /\
    (cc_coord c <> Sphere -> forall a b, (forall r, In r (group c p) -> dot a (c_pos r) <= b) -> dot a m <= b).
Proof.
  intros H HE HG Hp HW HM. destruct (centers_val c l H HE) as [HL HV]. split; auto. rewrite HV by auto. clear HV.
  assert (HR : forall r, In r (group c p) -> In r (cc_rows c)).
  { intros r. unfold group. destruct (cc_patch c); auto. intro X. apply filter_In in X. tauto. }
  assert (HZ : cc_coord c = Flat -> forall r, In r (group c p) -> pz (c_pos r) = 0).
  { intros F r Hr. destruct (HG r (HR r Hr)) as [I _]. rewrite F in I. exact I. }
  rewrite mean_val; auto; [|lra]. set (M := moment c (group c p)) in *. set (W := totW c (group c p)) in *.
  destruct (cc_coord c) eqn:EC.
  - exists (pscale (/ W) M). unfold unitPos. rewrite EC. split; auto. split; [apply best_flat; auto; congruence|].
    intros _ a b Hab. apply half; auto. intros r Hr. split; auto. apply HG; auto.
  - exists (pscale (/ W) M). unfold unitPos. rewrite EC. split; auto. split; [apply best_flat; auto; congruence|].
    intros _ a b Hab. apply half; auto. intros r Hr. split; auto. apply HG; auto.
  - assert (Hn : 0 < norm M).
    { assert (0 <= norm M) by apply sqrt_pos. destruct H0 as [|E]; auto. exfalso. apply HM; auto. apply pos_eq.
      replace (psub M (mkpos 0 0 0)) with M by (destruct M; unfold psub; cbn; f_equal; ring). rewrite <- norm_sq, <- E. ring. }
    assert (HI : 0 < / W) by (apply Rinv_0_lt_compat; auto).
    assert (HN : norm (pscale (/ W) M) = / W * norm M).
    { unfold norm. replace (normSq (pscale (/ W) M)) with ((/ W) * (/ W) * normSq M) by (unfold normSq, pscale; cbn; ring).
      rewrite sqrt_mult_alt by (apply Rmult_le_pos; lra). rewrite sqrt_square by lra. auto. }
    exists (pscale (/ norm M) M). unfold unitPos. rewrite EC.
    destruct (Req_EM_T (norm (pscale (/ W) M)) 0) as [E0|_].
    + exfalso. rewrite HN in E0. apply Rmult_integral in E0. lra.
    + split; [|split; [apply best_sphere; auto|congruence]]. f_equal. rewrite HN. destruct M as [a b e]. unfold pscale. cbn.
      f_equal; field; split; lra.
Qed.
(** Writing the centres and reading the file gives the same centres. *)
Lemma stack_same l : stack (cenCol px l) (cenCol py l) (cenCol pz l) = l.
Proof. unfold stack, cenCol. induction l as [|[p|] l IH]; cbn; auto; rewrite IH; auto. destruct p; auto. Qed.
Lemma stack_flat l : (forall p, In (Some p) l -> pz p = 0) ->
  stack (cenCol px l) (cenCol py l) (map (fun _ => Some 0) (cenCol px l)) = l.
Proof.
  unfold stack, cenCol. induction l as [|[p|] l IH]; cbn; intro H; auto; rewrite IH; auto.
  specialize (H p (or_introl eq_refl)). destruct p as [x y z]. cbn in *. subst; auto.
Qed.
Theorem C97_round_trip c : (forall l, cc_given c = Some l -> forall p, In p l -> inCoord (cc_coord c) p) ->
  match getPatchCenters c, writePatchCenters c with
  | CenRunErr, None => True
  | Cens l, Some f => readPatchCenters f = Some l /\
      fcol "patch" f = Some (map (fun k => Some (INR k)) (seq 0 (length l)))
  | _, _ => False
  end.
Proof.
  intros HGv. unfold writePatchCenters. destruct (getPatchCenters c) as [|l] eqn:E; auto.
  destruct (cc_coord c) eqn:EC; (split; [|reflexivity]); unfold readPatchCenters; cbn.
  - f_equal. apply stack_flat. intros p Hp. unfold getPatchCenters in E.
    assert (HF : forall g, unitPos c (meanPos c g) = Some p -> pz p = 0).
    { intros g. unfold unitPos, meanPos. rewrite EC. destruct (weightedMean _ px g); [|discriminate].
      destruct (weightedMean _ py g); [|discriminate]. intro X. injection X as <-. auto. }
    destruct (cc_given c) as [gl|] eqn:EG.
    + injection E as <-. apply in_map_iff in Hp as [q [Hq Iq]]. injection Hq as ->. apply (HGv gl eq_refl p Iq).
    + destruct (cc_patch c).
      * destruct (existsb _ _); [discriminate|]. apply (f_equal (fun r => match r with Cens l => l | _ => [] end)) in E. cbv beta iota in E. subst l. apply in_map_iff in Hp as [k [Hk _]]. apply (HF _ Hk).
      * injection E as <-. destruct Hp as [Hp|[]]. apply (HF _ Hp).
  - f_equal. apply stack_same.
  - f_equal. apply stack_same.
Qed.

(** ** Examples and refutations *)
Definition exRows : list crow :=
  [mkCR (mkpos 0 0 0) 1 0; mkCR (mkpos 4 0 0) 3 0; mkCR (mkpos 10 2 0) 1 1; mkCR (mkpos 10 6 0) 1 1].
Definition exCat : ccat := mkCC Flat true true exRows None.
Example C97_example : goodCat exCat /\ 0 < totW exCat (group exCat 0) /\
  getPatchCenters exCat = Cens [Some (mkpos 3 0 0); Some (mkpos 10 4 0)].
Proof.
  split; [|split].
  - intros r Hr. cbn in Hr. destruct Hr as [<-|[<-|[<-|[<-|[]]]]]; cbn; lra.
  - cbn. lra.
  - unfold getPatchCenters. cbn [cc_given exCat cc_patch].
    change (ccNpatch exCat) with 2%nat. cbn [seq existsb map].
    assert (E0 : inPatch exCat 0 = [mkCR (mkpos 0 0 0) 1 0; mkCR (mkpos 4 0 0) 3 0]) by reflexivity.
    assert (E1 : inPatch exCat 1 = [mkCR (mkpos 10 2 0) 1 1; mkCR (mkpos 10 6 0) 1 1]) by reflexivity.
    rewrite E0, E1. cbn [orb]. unfold unitPos. cbn [cc_coord exCat].
    rewrite !mean_val; try (intros _ r [<-|[<-|[]]]; reflexivity); try (cbn; lra).
    unfold moment, totW, rw, pscale. cbn. repeat f_equal; field.
Qed.
(** On the sphere: the centre of two points at a right angle. *)
Definition spRows : list crow := [mkCR (mkpos 1 0 0) 1 0; mkCR (mkpos 0 1 0) 1 0].
Example C97_sphere_example : let c := mkCC Sphere false true spRows None in
  goodCat c /\ 0 < totW c (group c 0) /\ moment c (group c 0) <> mkpos 0 0 0 /\ exists l, getPatchCenters c = Cens l.
Proof.
  cbn zeta. split; [|split; [|split]].
  - intros r [<-|[<-|[]]]; cbn; unfold normSq; cbn; lra.
  - cbn. lra.
  - unfold moment. cbn. intro X. injection X. lra.
  - eexists. reflexivity.
Qed.
(** An antipodal pair has no centre: NaN, without an exception. *)
Theorem C97_antipodal_refuted : exists c, goodCat c /\ cc_rows c <> [] /\ (forall r, In r (cc_rows c) -> 0 < rw c r) /\
  (forall p, (p < ccNpatch c)%nat -> exists r, ofPatch c p r) /\ getPatchCenters c = Cens [None].
Proof.
  exists (mkCC Sphere false true [mkCR (mkpos 1 0 0) 1 0; mkCR (mkpos (-1) 0 0) 1 0] None).
  split; [|split; [|split; [|split]]].
  - intros r [<-|[<-|[]]]; cbn; unfold normSq; cbn; lra.
  - discriminate.
  - intros r _. cbn. lra.
  - intros p Hp. change (p < 1)%nat in Hp. assert (p = 0%nat) as -> by lia. exists (mkCR (mkpos 1 0 0) 1 0). split; cbn; auto.
  - unfold getPatchCenters. cbn [cc_given cc_patch]. match goal with |- (if existsb ?f ?l then _ else _) = _ => change (existsb f l) with false end.
    cbn iota. match goal with |- Cens (map ?f ?l) = _ => change l with [0%nat] end. cbn [map].
    rewrite mean_val; [|cbn; lra|discriminate]. unfold unitPos. cbn [cc_coord].
    match goal with |- context[Req_EM_T ?x 0] => destruct (Req_EM_T x 0) as [_|N]; [reflexivity|exfalso; apply N] end.
    unfold norm, normSq, pscale, moment, totW, rw, inPatch. cbn.
    match goal with |- sqrt ?x = 0 => replace x with 0 by field end. apply sqrt_0.
Qed.
(** A patch whose objects have weight 0 (keep_zero_weight=True): NaN, without an exception, although
    the patch has objects. *)
Theorem C97_weightless_refuted : exists c, goodCat c /\ 0 < totW c (cc_rows c) /\
  (forall p, (p < ccNpatch c)%nat -> exists r, ofPatch c p r) /\ exists m, getPatchCenters c = Cens [Some m; None].
Proof.
  exists (mkCC Flat true true [mkCR (mkpos 1 0 0) 1 0; mkCR (mkpos 5 0 0) 0 1] None).
  split; [|split; [|split]].
  - intros r [<-|[<-|[]]]; cbn; lra.
  - cbn. lra.
  - intros p Hp. change (p < 2)%nat in Hp. assert (p = 0%nat \/ p = 1%nat) as [-> | ->] by lia.
    + eexists. split; [left; reflexivity|reflexivity].
    + eexists. split; [right; left; reflexivity|reflexivity].
  - eexists. unfold getPatchCenters. cbn [cc_given cc_patch]. match goal with |- (if existsb ?f ?l then _ else _) = _ => change (existsb f l) with false end.
    cbn iota. match goal with |- Cens (map ?f ?l) = _ => change l with [0%nat; 1%nat] end. cbn [map].
    rewrite mean_val; [|cbn; lra|intros _ r [<-|[]]; reflexivity].
    set (c := mkCC _ _ _ _ _). assert (E : meanPos c (inPatch c 1) = None).
    { unfold meanPos. rewrite wmean_nan; auto. cbn. ring. }
    rewrite E. cbn. reflexivity.
Qed.
(** The computed centres need not give the patches back. *)
Theorem C97_reassign_refuted : exists c l r, goodCat c /\ getPatchCenters c = Cens (map Some l) /\ In r (cc_rows c) /\
  (forall x, In x (cc_rows c) -> 0 < rw c x) /\ quickAssign l (c_pos r) <> c_patch r.
Proof.
  set (rows := [mkCR (mkpos 0 0 0) 1 0; mkCR (mkpos 10 0 0) 1 0; mkCR (mkpos 9 0 0) 1 1]).
  exists (mkCC Flat false true rows None), [mkpos 5 0 0; mkpos 9 0 0], (mkCR (mkpos 10 0 0) 1 0).
  split; [|split; [|split; [|split]]].
  - intros r [<-|[<-|[<-|[]]]]; cbn; lra.
  - unfold getPatchCenters. cbn [cc_given cc_patch]. match goal with |- (if existsb ?f ?l then _ else _) = _ => change (existsb f l) with false end.
    cbn iota. match goal with |- Cens (map ?f ?l) = _ => change l with [0%nat; 1%nat] end. cbn [map].
    rewrite !mean_val; try (cbn; lra); try (intros _ r Hr; cbn in Hr; repeat destruct Hr as [<-|Hr]; try reflexivity; destruct Hr).
    unfold unitPos, moment, totW, rw, pscale. cbn. repeat f_equal; field.
  - right. left. reflexivity.
  - intros r _. cbn. lra.
  - assert (HC := C30_quick_assign [mkpos 5 0 0; mkpos 9 0 0] (mkpos 10 0 0)). cbn zeta in HC. destruct HC as [H1 [H2 _]]; [discriminate|].
    cbn [c_pos c_patch]. intro E. rewrite E in H2. specialize (H2 1%nat). cbn [length nth] in H2. specialize (H2 ltac:(lia)).
    unfold pdist, norm in H2. apply sqrt_le_0 in H2; unfold normSq, psub in *; cbn in *; lra.
Qed.
(** Centres of a 3d catalog are not on the unit sphere. *)
Theorem C97_unit_3d_refuted : exists c m, cc_coord c = ThreeD /\ goodCat c /\ getPatchCenters c = Cens [Some m] /\ normSq m <> 1.
Proof.
  exists (mkCC ThreeD false true [mkCR (mkpos 0 0 2) 1 0] None), (mkpos 0 0 2).
  split; [reflexivity|]. split; [intros r [<-|[]]; cbn; lra|]. split; [|unfold normSq; cbn; lra].
  unfold getPatchCenters. cbn [cc_given cc_patch]. match goal with |- (if existsb ?f ?l then _ else _) = _ => change (existsb f l) with false end.
  cbn iota. match goal with |- Cens (map ?f ?l) = _ => change l with [0%nat] end. cbn [map].
  rewrite mean_val; [|cbn; lra|discriminate]. unfold unitPos, moment, totW, rw, pscale. cbn. repeat f_equal; field.
Qed.
