(** C23, C24, C50: covariance matrices, the distributed design matrix, and xi from all pairs. *)
From Coq Require Import Reals Lra Lia List ZArith Bool Permutation Psatz.
From Verif Require Import Base Geometry Tree Traverse Run Corr Patch Cov Spec SpecRun GeomFacts SumFacts TreeFacts
  BinFacts TravFacts Exact MetricFacts Cover Lift Runs Account PropsCount PropsCorr PatchFacts PropsPatch CovFacts
  PropsCov Examples.
Import ListNotations.
Open Scope R_scope.

(** ** Complex sums *)
Lemma cplx_eq (a b : cplx) : fst a = fst b -> snd a = snd b -> a = b.
Proof. destruct a, b; simpl; intros -> ->; auto. Qed.
Ltac cring := apply cplx_eq; unfold cadd, csub, cmul, cconj, cscal; cbn [fst snd]; try ring.
Lemma csum_cons {A} (f : A -> cplx) x l : csum f (x :: l) = cadd (f x) (csum f l).
Proof. reflexivity. Qed.
Lemma csum_ext {A} (f g : A -> cplx) l : (forall x, In x l -> f x = g x) -> csum f l = csum g l.
Proof.
  induction l as [|x l IH]; intro H; auto. rewrite !csum_cons, (H x), IH; simpl; auto. intros; apply H; simpl; auto.
Qed.
Lemma csum_cmul_l {A} c (f : A -> cplx) l : csum (fun x => cmul c (f x)) l = cmul c (csum f l).
Proof. induction l as [|x l IH]; [cring; simpl; ring|]. rewrite !csum_cons, IH. cring. Qed.
Lemma csum_cmul_r {A} c (f : A -> cplx) l : csum (fun x => cmul (f x) c) l = cmul (csum f l) c.
Proof. induction l as [|x l IH]; [cring; simpl; ring|]. rewrite !csum_cons, IH. cring. Qed.
Lemma csum_conj {A} (f : A -> cplx) l : csum (fun x => cconj (f x)) l = cconj (csum f l).
Proof. induction l as [|x l IH]; [cring; simpl; ring|]. rewrite !csum_cons, IH. cring. Qed.
Lemma csum_add {A} (f g : A -> cplx) l : csum (fun x => cadd (f x) (g x)) l = cadd (csum f l) (csum g l).
Proof. induction l as [|x l IH]; [cring; simpl; ring|]. rewrite !csum_cons, IH. cring. Qed.
Lemma csum_scal {A} c (f : A -> cplx) l : csum (fun x => cscal c (f x)) l = cscal c (csum f l).
Proof. induction l as [|x l IH]; [cring; simpl; ring|]. rewrite !csum_cons, IH. cring. Qed.
Lemma csum_zero {A} (f : A -> cplx) l : (forall x, f x = (0, 0)) -> csum f l = (0, 0).
Proof. intro H. induction l as [|x l IH]; auto. rewrite csum_cons, H, IH. cring. Qed.
Lemma csum_map {A B} (f : B -> cplx) (g : A -> B) l : csum f (map g l) = csum (fun x => f (g x)) l.
Proof. induction l as [|x l IH]; auto. simpl map. rewrite !csum_cons, IH. auto. Qed.

(** ** C23: the specification *)
Definition hermitian (C : nat -> nat -> cplx) : Prop := forall a b, C b a = cconj (C a b).
(** x^H C x for the d x d matrix *)
Definition quad (d : nat) (C : nat -> nat -> cplx) (x : nat -> cplx) : cplx :=
  csum (fun a => csum (fun b => cmul (cmul (cconj (x a)) (C a b)) (x b)) (seq 0 d)) (seq 0 d).
Definition psd (C : nat -> nat -> cplx) : Prop := forall d x, snd (quad d C x) = 0 /\ 0 <= fst (quad d C x).

Definition wgram (l : list (vrow * R)) (a b : nat) : cplx :=
  csum (fun rw : vrow * R => cscal (snd rw) (cmul (cconj (fst rw a)) (fst rw b))) l.
Lemma wgram_hermitian l : hermitian (wgram l).
Proof.
  intros a b. unfold wgram. rewrite <- csum_conj. apply csum_ext. intros [r w] _. cring.
Qed.
Lemma quad_ext d C C' x : (forall a b, C a b = C' a b) -> quad d C x = quad d C' x.
Proof.
  intro H. unfold quad. apply csum_ext. intros a _. apply csum_ext. intros b _. rewrite H. auto.
Qed.
Definition norm2 (z : cplx) : R := fst z * fst z + snd z * snd z.
Lemma quad_wgram d l x : quad d (wgram l) x =
  (sumR (fun rw : vrow * R => snd rw * norm2 (csum (fun b => cmul (fst rw b) (x b)) (seq 0 d))) l, 0).
Proof.
  induction l as [|[r w] l IH].
  - unfold quad. apply csum_zero. intro a. apply csum_zero. intro b. unfold wgram. cring; simpl; ring.
  - simpl sumR.
    assert (HS : quad d (wgram ((r, w) :: l)) x = cadd
       (csum (fun a => csum (fun b => cscal w (cmul (cconj (cmul (r a) (x a))) (cmul (r b) (x b)))) (seq 0 d)) (seq 0 d))
       (quad d (wgram l) x)).
    { unfold quad. rewrite <- csum_add. apply csum_ext. intros a _. rewrite <- csum_add. apply csum_ext. intros b _.
      unfold wgram. rewrite csum_cons. cbn [fst snd]. cring. }
    rewrite HS, IH.
    rewrite (csum_ext _ (fun a => cmul (cconj (cmul (r a) (x a))) (cscal w (csum (fun b => cmul (r b) (x b)) (seq 0 d))))).
    + rewrite csum_cmul_r, csum_conj. set (s := csum (fun b => cmul (r b) (x b)) (seq 0 d)). cbn [fst snd].
      unfold norm2. cring.
    + intros a _. rewrite csum_scal, csum_cmul_l. cring.
Qed.
Lemma wgram_psd l : (forall rw, In rw l -> 0 <= snd rw) -> psd (wgram l).
Proof.
  intros H d x. rewrite quad_wgram. simpl. split; auto. apply sumR_nonneg. intros rw Hrw.
  apply Rmult_le_pos; auto. unfold norm2. nra.
Qed.
Lemma covJack_wgram v a b : covJack v a b = wgram (map (fun r => (r, 1 - 1 / INR (length v))) (centred v)) a b.
Proof. unfold covJack, gram, wgram. rewrite csum_map. cbn [fst snd]. rewrite csum_scal. auto. Qed.
Lemma covBoot_wgram v a b : covBoot v a b = wgram (map (fun r => (r, 1 / (INR (length v) - 1))) (centred v)) a b.
Proof. unfold covBoot, gram, wgram. rewrite csum_map. cbn [fst snd]. rewrite csum_scal. auto. Qed.
Lemma covSample_wgram v w C a b : covSample v w = Some C ->
  C a b = wgram (map (fun rw => (fst rw, 1 / (INR (length v) - 1) * (snd rw / sumR (fun x => x) w)))
                     (combine (centred v) w)) a b.
Proof.
  unfold covSample. destruct (existsb _ _); [discriminate|]. intro H. injection H as <-.
  unfold wgram. rewrite csum_map. cbn [fst snd]. rewrite <- csum_scal. apply csum_ext. intros [r x] _. cbn [fst snd]. cring.
Qed.
Lemma inv_n1 (n : nat) : (2 <= n)%nat -> 0 <= 1 / (INR n - 1).
Proof.
  intro H. assert (2 <= INR n) by (apply (le_INR 2) in H; simpl in H; lra).
  apply Rmult_le_pos; [lra|]. apply Rlt_le, Rinv_0_lt_compat. lra.
Qed.
Theorem C23_jackknife v : (1 <= length v)%nat -> hermitian (covJack v) /\ psd (covJack v).
Proof.
  intro H. split.
  - intros a b. rewrite !covJack_wgram. apply wgram_hermitian.
  - intros d x. rewrite (quad_ext d _ _ x (covJack_wgram v)). apply wgram_psd.
    intros rw Hrw. apply in_map_iff in Hrw as [r [<- _]]. cbn [snd].
    assert (1 <= INR (length v)) by (apply (le_INR 1) in H; simpl in H; lra).
    assert (1 / INR (length v) <= 1); [|lra]. apply Rmult_le_reg_r with (INR (length v)); [lra|].
    unfold Rdiv. rewrite Rmult_assoc, Rinv_l by lra. lra.
Qed.
(** bootstrap and marked_bootstrap *)
Theorem C23_bootstrap v : (2 <= length v)%nat -> hermitian (covBoot v) /\ psd (covBoot v).
Proof.
  intro H. split.
  - intros a b. rewrite !covBoot_wgram. apply wgram_hermitian.
  - intros d x. rewrite (quad_ext d _ _ x (covBoot_wgram v)). apply wgram_psd.
    intros rw Hrw. apply in_map_iff in Hrw as [r [<- _]]. cbn [snd]. apply inv_n1; auto.
Qed.
Theorem C23_sample v w C : (2 <= length v)%nat -> (forall x, In x w -> 0 <= x) -> covSample v w = Some C ->
  hermitian C /\ psd C.
Proof.
  intros H HW HC. split.
  - intros a b. rewrite !(covSample_wgram v w C); auto. apply wgram_hermitian.
  - intros d x. rewrite (quad_ext d _ _ x (fun a b => covSample_wgram v w C a b HC)). apply wgram_psd.
    intros rw Hrw. apply in_map_iff in Hrw as [[r y] [<- Hy]]. cbn [fst snd].
    apply in_combine_r in Hy. apply Rmult_le_pos; [apply inv_n1; auto|].
    assert (0 <= sumR (fun x => x) w) by (apply sumR_nonneg; auto).
    destruct (Req_dec (sumR (fun x => x) w) 0) as [E|E].
    + rewrite E. unfold Rdiv. rewrite Rinv_0. lra.
    + apply Rmult_le_pos; auto. apply Rlt_le, Rinv_0_lt_compat. lra.
Qed.
(** Shifting every row by the same vector changes nothing. *)
Definition shiftRows (c : vrow) (v : list vrow) : list vrow := map (fun (r : vrow) a => cadd (r a) (c a)) v.
Lemma vmean_shift c v a : v <> [] -> vmean (shiftRows c v) a = cadd (vmean v a) (c a).
Proof.
  intro H. unfold vmean, shiftRows. rewrite map_length, csum_map, csum_add.
  assert (HC : csum (fun _ : vrow => c a) v = cscal (INR (length v)) (c a)).
  { clear H. induction v as [|r v IH]; [cring; simpl; ring|]. rewrite csum_cons, IH.
    cbn [length]. rewrite S_INR. cring. }
  rewrite HC.
  assert (INR (length v) <> 0) by (destruct v; [contradiction|apply not_0_INR; discriminate]).
  cring; rewrite Rmult_plus_distr_l, <- (Rmult_assoc (/ INR (length v))), Rinv_l, Rmult_1_l; auto.
Qed.
Lemma centred_shift c v : Forall2 (fun r s : vrow => forall a, r a = s a) (centred (shiftRows c v)) (centred v).
Proof.
  destruct v as [|r0 v]; [constructor|]. set (u := r0 :: v).
  assert (HU : u <> []) by discriminate. unfold centred.
  assert (H : forall l, Forall2 (fun r s : vrow => forall a, r a = s a)
     (map (fun (r : vrow) a => csub (r a) (vmean (shiftRows c u) a)) (shiftRows c l))
     (map (fun (r : vrow) a => csub (r a) (vmean u a)) l)).
  { induction l as [|r l IH]; [constructor|].
    change (shiftRows c (r :: l)) with ((fun a => cadd (r a) (c a)) :: shiftRows c l). cbn [map].
    constructor; auto. intro a. rewrite vmean_shift by auto. cring. }
  apply H.
Qed.
Lemma gram_ext u v : Forall2 (fun r s : vrow => forall a, r a = s a) u v -> forall a b, gram u a b = gram v a b.
Proof.
  intros H a b. unfold gram. induction H as [|r s u v Hrs H IH]; auto.
  rewrite !csum_cons, IH, !Hrs. auto.
Qed.
Theorem C23_shift_jackknife c v a b : covJack (shiftRows c v) a b = covJack v a b.
Proof.
  unfold covJack. rewrite (gram_ext _ _ (centred_shift c v)). unfold shiftRows. rewrite map_length. auto.
Qed.
Theorem C23_shift_bootstrap c v a b : covBoot (shiftRows c v) a b = covBoot v a b.
Proof.
  unfold covBoot. rewrite (gram_ext _ _ (centred_shift c v)). unfold shiftRows. rewrite map_length. auto.
Qed.
Theorem C23_shift_sample c v w : match covSample (shiftRows c v) w, covSample v w with
  | Some C, Some C' => forall a b, C a b = C' a b
  | None, None => True
  | _, _ => False
  end.
Proof.
  unfold covSample. destruct (existsb _ _); auto. intros a b. unfold shiftRows at 1. rewrite map_length. f_equal.
  pose proof (centred_shift c v) as H. revert H. generalize (centred (shiftRows c v)) (centred v).
  generalize (sumR (fun x => x) w) as tot. intros tot u u' H. revert w.
  induction H as [|r s u u' Hrs H IH]; intros w; auto. destruct w as [|y w]; auto.
  simpl combine. rewrite !csum_cons, IH. cbn [fst snd]. rewrite !Hrs. auto.
Qed.
(** Equal rows: zero covariance. *)
Theorem C23_constant_rows (c : vrow) n a b : covJack (repeat c n) a b = (0, 0) /\ covBoot (repeat c n) a b = (0, 0).
Proof.
  assert (HG : gram (centred (repeat c n)) a b = (0, 0)).
  { assert (HM : n <> 0%nat -> forall x, vmean (repeat c n) x = c x).
    { intros Hn x. unfold vmean. rewrite repeat_length.
      assert (HC : csum (fun r : vrow => r x) (repeat c n) = cscal (INR n) (c x)).
      { clear Hn. induction n as [|n IH]; [cring; simpl; ring|]. cbn [repeat]. rewrite csum_cons, IH, S_INR. cring. }
      etransitivity; [apply f_equal; exact HC|]. assert (INR n <> 0) by (apply not_0_INR; auto). cring; rewrite <- Rmult_assoc, Rinv_l, Rmult_1_l; auto. }
    unfold centred, gram. rewrite csum_map. destruct n as [|n]; auto.
    set (u := repeat c (S n)) in *.
    assert (HU : forall r, In r u -> r = c) by (intros r Hr; apply repeat_spec in Hr; auto).
    rewrite (csum_ext _ (fun _ => (0, 0))); [apply csum_zero; auto|].
    intros r Hr. rewrite (HU r Hr), !HM by discriminate. cring. }
  unfold covJack, covBoot. rewrite HG. split; cring.
Qed.
(** The shot-noise variances are non-negative when the variances and weights are. *)
Theorem C23_shot vn w : 0 <= vn -> 0 <= w -> 0 <= covShot vn w.
Proof.
  intros H1 H2. unfold covShot. destruct (Req_EM_T w 0); [lra|]. apply Rmult_le_pos; auto.
  apply Rlt_le, Rinv_0_lt_compat. lra.
Qed.
Definition exV : list vrow := [(fun a => if Nat.eqb a 0 then (1, 0) else (0, 1)); (fun a => if Nat.eqb a 0 then (3, 0) else (0, 5))].
Example C23_example : (2 <= length exV)%nat /\ covJack exV 0 0 = (1, 0) /\ covJack exV 0 1 = (0, 2) /\ covJack exV 1 0 = (0, -2) /\
  covBoot exV 0 0 = (2, 0) /\ exists C, covSample exV [1; 3] = Some C /\ C 0%nat 0%nat = (1, 0).
Proof.
  split; [simpl; lia|]. unfold covJack, covBoot, gram, centred, vmean, csum, exV. simpl.
  repeat (split; [apply cplx_eq; simpl; lra|]).
  unfold covSample. simpl.
  assert (Reqb 1 0 = false) by (unfold Reqb; destruct Req_EM_T; auto; lra).
  assert (Reqb 3 0 = false) by (unfold Reqb; destruct Req_EM_T; auto; lra).
  rewrite H, H0. simpl. eexists. split; [reflexivity|]. apply cplx_eq; unfold csum; simpl; lra.
Qed.

(** ** C24 *)
Lemma designCore_map {S V} (zero : V) (step : S -> list (list key) -> S) (read : S -> V) (f : list (list key) -> V) size r plist :
  forall n st (Inv : S -> Prop), Inv st ->
  (forall s p, Inv s -> In p plist -> read (step s p) = f p /\ Inv (step s p)) ->
  designCore zero step read size r n st plist =
  map (fun np => if coreRow (fst np) size r then f (snd np) else zero) (combine (seq n (length plist)) plist).
Proof.
  induction plist as [|p t IH]; intros n st Inv HI H; simpl; auto.
  destruct (H st p HI (or_introl eq_refl)) as [H1 H2].
  destruct (coreRow n size r); rewrite ?H1; f_equal; apply (IH _ _ Inv); auto; intros; apply H; auto; right; auto.
Qed.
Lemma combine_seq_in {A} (l : list A) : forall n np, In np (combine (seq n (length l)) l) -> In (snd np) l.
Proof. intros n [k p] H. simpl. apply in_combine_r in H; auto. Qed.
Lemma ranks_in size r : (0 < size)%Z -> In r (ranks size) <-> (0 <= r < size)%Z.
Proof.
  intro Hs. unfold ranks. rewrite in_map_iff. split.
  - intros [n [<- Hn]]. apply in_seq in Hn. lia.
  - intro H. exists (Z.to_nat r). rewrite in_seq. lia.
Qed.
Lemma ranks_nodup size : NoDup (ranks size).
Proof. unfold ranks. apply NoDup_map_in; [apply seq_NoDup|]. intros; lia. Qed.
Lemma map_combine_map {A B C D} (h : B * C -> D) (f : A -> B) (g : A -> C) l :
  map h (combine (map f l) (map g l)) = map (fun a => h (f a, g a)) l.
Proof. induction l; simpl; auto. rewrite IHl; auto. Qed.
Lemma designMpi_serial {S V} (zero : V) (step : S -> list (list key) -> S) (read : S -> V) (add : V -> V -> V)
    (f : list (list key) -> V) (Inv : S -> Prop) size st plist :
  (0 < size)%Z -> Inv st ->
  (forall s p, Inv s -> In p plist -> read (step s p) = f p /\ Inv (step s p)) ->
  add zero zero = zero ->
  (forall p, In p plist -> add zero (f p) = f p /\ add (f p) zero = f p) ->
  designMpi zero step read add size st plist = designSerial zero step read st plist.
Proof.
  intros Hs HI H Hz Hf. unfold designMpi, designSerial.
  rewrite (designCore_map zero step read f 1 0 plist 0 st Inv) by auto.
  set (L := combine (seq 0 (length plist)) plist).
  assert (EL : map (fun _ : list (list key) => zero) plist = map (fun _ => zero) L).
  { unfold L. generalize 0%nat. induction plist as [|p t IH]; intro n; simpl; auto. f_equal. apply IH.
    - intros; apply H; simpl; auto.
    - intros; apply Hf; simpl; auto. }
  rewrite EL.
  assert (HF : forall rs, NoDup rs ->
    fold_right (fun r acc => map (fun ab => add (fst ab) (snd ab)) (combine (designCore zero step read size r 0 st plist) acc))
      (map (fun _ => zero) L) rs =
    map (fun np => if existsb (coreRow (fst np) size) rs then f (snd np) else zero) L).
  { induction rs as [|r rs IH]; intro HN; simpl; auto. inversion HN as [|? ? N1 N2]; subst.
    rewrite IH by auto. rewrite (designCore_map zero step read f size r plist 0 st Inv) by auto. fold L.
    rewrite map_combine_map. cbn [fst snd]. apply map_ext_in. intros np Hnp.
    assert (Hp : In (snd np) plist) by (apply (combine_seq_in plist 0); auto).
    destruct (Hf _ Hp) as [F1 F2].
    destruct (coreRow (fst np) size r) eqn:E; simpl.
    - destruct (existsb (coreRow (fst np) size) rs) eqn:E2; auto. exfalso. apply N1.
      apply existsb_exists in E2 as [r' [Hr' E2]]. unfold coreRow in E, E2. apply Z.eqb_eq in E, E2. congruence.
    - destruct (existsb (coreRow (fst np) size) rs); auto. }
  rewrite HF by apply ranks_nodup. apply map_ext. intros [n p]. cbn [fst snd].
  assert (E : existsb (coreRow n size) (ranks size) = true).
  { apply existsb_exists. exists (Z.of_nat n mod size)%Z. split.
    - apply ranks_in; auto. apply Z.mod_pos_bound; auto.
    - unfold coreRow. apply Z.eqb_refl. }
  rewrite E. unfold coreRow. rewrite Z.mod_1_r. auto.
Qed.
(** A row: the data vector and the total weight; Allreduce adds elementwise. *)
Definition row := (list R * R)%type.
Definition rzero (n : nat) : row := (repeat 0 n, 0).
Definition radd (a b : row) : row := (map (fun xy => fst xy + snd xy) (combine (fst a) (fst b)), snd a + snd b).
Lemma radd_zero n (r : row) : length (fst r) = n -> radd (rzero n) r = r /\ radd r (rzero n) = r.
Proof.
  intros <-. destruct r as [v w]. unfold radd, rzero. cbn [fst snd].
  assert (HV : map (fun xy : R * R => fst xy + snd xy) (combine (repeat 0 (length v)) v) = v /\
               map (fun xy : R * R => fst xy + snd xy) (combine v (repeat 0 (length v))) = v).
  { induction v as [|x v [I1 I2]]; simpl; auto. rewrite I1, I2. split; f_equal; lra. }
  destruct HV as [-> ->]. split; f_equal; lra.
Qed.
Lemma flat_map_len {A B} (g : A -> list B) n l : (forall a, length (g a) = n) -> length (flat_map g l) = (length l * n)%nat.
Proof. intro H. induction l; simpl; auto. rewrite app_length, H, IHl. auto. Qed.
Lemma zipWith3_len {A B C D} (f : A -> B -> C -> D) : forall a b c, length b = length a -> length c = length a ->
  length (zipWith3 f a b c) = length a.
Proof. induction a; destruct b, c; simpl; intros; auto; try discriminate. Qed.
(** KK: every row can be computed from any state, so the distributed result is the serial one.  The
    hypothesis about the keys says that the pairs are stored ones (C22_pairs_stored), i.e. there is
    no KeyError. *)
Theorem C24_kk B ds (sts : list kkst) plist size : (0 < size)%Z -> length sts = length ds ->
  (forall p, In p plist -> length p = length ds /\ forall d l, In (d, l) (combine ds p) ->
     NoDup (keysOf d) /\ forall jk, In jk l -> In jk (keysOf d)) ->
  let read s : row := (kkStat B s, kkWeight B s) in
  let zero := rzero (length ds * length (bins B)) in
  designMpi zero (kkStep ds) read radd size sts plist = designSerial zero (kkStep ds) read sts plist.
Proof.
  intros Hs HL HP read zero.
  assert (HI : forall a b p, length a = length ds -> length b = length ds ->
     In p plist -> kkStep ds a p = kkStep ds b p).
  { intros a b p La Lb Hp. destruct (HP p Hp) as [Lp Hk]. clear HP Hp HL. unfold kkStep. revert a b p La Lb Lp Hk.
    clear zero. induction ds as [|d ds IH]; intros a b p La Lb Lp Hk; auto.
    destruct a as [|x a], b as [|y b], p as [|l p]; simpl in *; try discriminate.
    f_equal; [|apply IH; auto]. unfold kkStep1. destruct l as [|jk l]; auto.
    destruct (Hk d (jk :: l) (or_introl eq_refl)) as [N1 N2].
    destruct (lookup_some d (jk :: l) N1 N2) as [cl [E _]]. rewrite E. auto. }
  apply (designMpi_serial zero (kkStep ds) read radd (fun p => read (kkStep ds sts p)) (fun s => length s = length ds)); auto.
  - intros s p Hls Hp. destruct (HP p Hp) as [Lp _]. rewrite (HI s sts p) by auto. split; auto.
    unfold kkStep. apply zipWith3_len; auto.
  - apply (radd_zero (length ds * length (bins B)) zero). unfold zero; simpl. apply repeat_length.
  - intros p Hp. apply radd_zero. unfold read; cbn [fst]. unfold kkStat.
    rewrite (flat_map_len _ (length (bins B))) by (intro; apply map_length).
    destruct (HP p Hp) as [Lp _]. unfold kkStep. rewrite zipWith3_len; auto.
Qed.
(** NN: the same when no row is without pairs and nothing raises. *)
Theorem C24_nn B Es (sts : list nnst) plist size : (0 < size)%Z -> length sts = length Es ->
  (forall p, In p plist -> length p = length Es /\ forall E l, In (E, l) (combine Es p) ->
     l <> [] /\ calcFromPairs E l <> None) ->
  let read s : row := (nnStat B s, nnWeight B s) in
  let zero := rzero (length Es * length (bins B)) in
  designMpi zero (nnStep Es) read radd size sts plist = designSerial zero (nnStep Es) read sts plist.
Proof.
  intros Hs HL HP read zero.
  assert (HI : forall a b p, length a = length Es -> length b = length Es ->
     In p plist -> nnStep Es a p = nnStep Es b p).
  { intros a b p La Lb Hp. destruct (HP p Hp) as [Lp Hk]. clear HP Hp HL. unfold nnStep. revert a b p La Lb Lp Hk.
    clear zero. induction Es as [|d Es IH]; intros a b p La Lb Lp Hk; auto.
    destruct a as [|x a], b as [|y b], p as [|l p]; simpl in *; try discriminate.
    f_equal; [|apply IH; auto]. unfold nnStep1. destruct (Hk d l (or_introl eq_refl)) as [N1 N2].
    destruct l as [|jk l]; [contradiction|].
    destruct (calcFromPairs d (jk :: l)); auto. contradiction. }
  apply (designMpi_serial zero (nnStep Es) read radd (fun p => read (nnStep Es sts p)) (fun s => length s = length Es)); auto.
  - intros s p Hls Hp. destruct (HP p Hp) as [Lp _]. rewrite (HI s sts p) by auto. split; auto.
    unfold nnStep. apply zipWith3_len; auto.
  - apply (radd_zero (length Es * length (bins B)) zero). unfold zero; simpl. apply repeat_length.
  - intros p Hp. apply radd_zero. unfold read; cbn [fst]. unfold nnStat.
    rewrite (flat_map_len _ (length (bins B))) by (intro; apply map_length).
    destruct (HP p Hp) as [Lp _]. unfold nnStep; rewrite zipWith3_len; auto.
Qed.
(** NN with a row without pairs.  Realistic case: an auto-correlation of a catalog whose patch 1 is
    empty (patch numbers 0 and 2), 'sample' covariance, two MPI ranks: the row of patch 1 repeats the
    previous row's xi in serial, and holds the full xi with MPI. *)
Definition exC (w t : R) : corr := mkK (mkacc (aconst 1) (aconst w) (aconst 0) (aconst 0) (aconst 0) (aconst 0)) t.
Definition exDD : dict := [((0, 0)%Z, exC 3 1); ((0, 2)%Z, exC 1 1); ((2, 2)%Z, exC 1 1)].
Definition exRR : dict := [((0, 0)%Z, exC 1 1); ((0, 2)%Z, exC 1 1); ((2, 2)%Z, exC 1 1)].
Definition exE : nnenv := mkEnv exB exDD (mkRand (ksum exB (map snd exRR)) exRR 3 3) None None.
Lemma exC_any w t : anyPairs exB (kacc (exC w t)) = true.
Proof. unfold anyPairs. simpl. unfold Reqb, aconst. destruct (Req_EM_T 1 0); auto. lra. Qed.
Lemma exC_sum l : l <> [] -> (forall c, In c l -> anyPairs exB (kacc c) = true) ->
  ksum exB l = mkK (accSum (map kacc l)) (sumR ktot l).
Proof.
  intros Hl H. unfold ksum. rewrite filter_all by auto. destruct l; auto.
Qed.
Lemma exE_calc pairs l r : pairs <> [] -> lookup exDD pairs = Some l ->
  lookup exRR (filter (okKey (keysOf exRR)) pairs) = Some r -> l <> [] -> r <> [] ->
  (forall c, In c l \/ In c r -> anyPairs exB (kacc c) = true) ->
  sumR ktot r <> 0 -> sumR ktot l = sumR ktot r -> (forall k, sumR (fun c => a_weight (kacc c) k) r <> 0) ->
  exists s, calcFromPairs exE pairs = Some s /\
    forall k, q_xi s k = (sumR (fun c => a_weight (kacc c) k) l - sumR (fun c => a_weight (kacc c) k) r) /
                          sumR (fun c => a_weight (kacc c) k) r.
Proof.
  intros Hp El Er Hl Hr HA Ht Et Hw. unfold calcFromPairs, rrTerm, drTerm, rdTerm, sumPairsOf. cbn [e_res e_rr e_dr e_rd e_B exE r_res].
  rewrite El. cbn [hasRes exRR]. fold exRR. rewrite Er. eexists. split; [reflexivity|]. intro k. cbn [q_xi].
  rewrite !exC_sum by auto. cbn [ktot kacc a_weight accSum]. rewrite Et.
  rewrite !sumR_map. replace (sumR ktot r / sumR ktot r) with 1 by (field; auto). rewrite Rmult_1_r.
  destruct (Req_EM_T _ 0) as [E|E]; [exfalso; apply (Hw k); auto|]. auto.
Qed.
Theorem C24_nn_empty_row_refuted : exists E s0,
  calcFromPairs E (keysOf (e_res E)) = Some s0 /\
  let plist := map (fun r => [r]) (sampleRows 3 3 (keysOf (e_res E))) in
  (forall p l, In p plist -> In l p -> calcFromPairs E l <> None) /\
  let read s : row := (nnStat exB s, nnWeight exB s) in
  let zero := rzero (1 * length (bins exB)) in
  designMpi zero (nnStep [E]) read radd 2 [s0] plist <> designSerial zero (nnStep [E]) read [s0] plist.
Proof.
  destruct (exE_calc (keysOf exDD) (map snd exDD) (map snd exRR)) as [s0 [E0 X0]]; try discriminate; try reflexivity; auto.
  { intros c [H|H]; simpl in H; repeat (destruct H as [<-|H]; [apply exC_any|]); contradiction. }
  { simpl; lra. }
  { intro k; simpl. unfold aconst. lra. }
  destruct (exE_calc [(0,0); (0,2)]%Z [exC 3 1; exC 1 1] [exC 1 1; exC 1 1]) as [s1 [E1 X1]]; try discriminate; try reflexivity; auto.
  { intros c [H|H]; simpl in H; repeat (destruct H as [<-|H]; [apply exC_any|]); contradiction. }
  { simpl; lra. }
  { intro k; simpl. unfold aconst. lra. }
  destruct (exE_calc [(2,2)]%Z [exC 1 1] [exC 1 1]) as [s2 [E2 X2]]; try discriminate; try reflexivity; auto.
  { intros c [H|H]; simpl in H; repeat (destruct H as [<-|H]; [apply exC_any|]); contradiction. }
  { simpl; lra. }
  { intro k; simpl. unfold aconst. lra. }
  exists exE, s0. split; [exact E0|].
  change (sampleRows 3 3 (keysOf (e_res exE))) with [[(0,0); (0,2)]; []; [(2,2)]]%Z.
  intro plist. cbn [map] in plist. split.
  - intros p l Hp Hl. unfold plist in Hp. simpl in Hp.
    destruct Hp as [<-|[<-|[<-|[]]]]; destruct Hl as [<-|[]]; rewrite ?E1, ?E2; discriminate.
  - intros read zero H.
    assert (HS : designSerial zero (nnStep [exE]) read [s0] plist =
      [read [s1]; read [mkNN kclear (q_xi s1) (q_rrw s1)]; read [s2]]).
    { unfold plist. cbn [designSerial designCore coreRow]. simpl. unfold nnStep. cbn [zipWith3 nnStep1]. rewrite E1, E2. reflexivity. }
    assert (HM : forall r, designCore zero (nnStep [exE]) read 2 r 0 [s0] plist =
      if (r =? 0)%Z then [read [s1]; zero; read [s2]] else
      if (r =? 1)%Z then [zero; read [mkNN kclear (q_xi s0) (q_rrw s0)]; zero] else [zero; zero; zero]).
    { intro r. unfold plist, designCore, coreRow.
      change (Z.of_nat 0 mod 2)%Z with 0%Z. change (Z.of_nat 1 mod 2)%Z with 1%Z. change (Z.of_nat 2 mod 2)%Z with 0%Z.
      destruct (Z.eqb_spec r 0) as [->|N0]; [|destruct (Z.eqb_spec r 1) as [->|N1]].
      - simpl. unfold nnStep. cbn [zipWith3 nnStep1]. rewrite E1, E2. reflexivity.
      - simpl. reflexivity.
      - rewrite (proj2 (Z.eqb_neq 0 r)), (proj2 (Z.eqb_neq 1 r)) by auto. reflexivity. }
    rewrite HS in H. unfold designMpi in H. change (ranks 2) with [0; 1]%Z in H. cbn [fold_right] in H. rewrite !HM in H.
    cbn [Z.eqb] in H. cbn in H. injection H as H1 H2 H3 H4.
    assert (HX : q_xi s0 0%Z = q_xi s1 0%Z) by lra.
    rewrite X0, X1 in HX. simpl in HX. unfold aconst in HX. lra.
Qed.
Example C24_example : let plist := map (fun r => [r]) [[(0,0); (0,2)]; [(2,2)]]%Z in
  (forall p, In p plist -> length p = length [exDD] /\ forall d l, In (d, l) (combine [exDD] p) ->
     NoDup (keysOf d) /\ forall jk, In jk l -> In jk (keysOf d)) /\
  (forall p, In p plist -> length p = length [exE] /\ forall E l, In (E, l) (combine [exE] p) ->
     l <> [] /\ calcFromPairs E l <> None).
Proof.
  split.
  - intros p [<-|[<-|[]]]; (split; [reflexivity|]); intros d l [H|[]]; injection H as <- <-;
      (split; [repeat constructor; simpl; intuition discriminate|]); simpl; intuition.
  - intros p [<-|[<-|[]]]; (split; [reflexivity|]); intros E l [H|[]]; injection H as <- <-;
      (split; [discriminate|]); unfold calcFromPairs; discriminate.
Qed.

(** ** C50: xi computed from all the stored pairs (what the covariance code does) is calculateXi of
    the summed correlations *)
Definition sumAll (B : bparams) (d : dict) : corr := ksum B (map snd d).
Lemma keysOf_filter_true d : filter (fun _ : key => true) (keysOf d) = keysOf d.
Proof. apply filter_true. Qed.
Lemma lookup_all d : NoDup (keysOf d) -> lookup d (keysOf d) = Some (map snd d).
Proof.
  intro H. rewrite <- (filter_true (keysOf d)), (lookup_filter d (fun _ => true) H), filter_true. auto.
Qed.
Lemma lookup_perm d l1 l2 : Permutation l1 l2 -> forall c1, lookup d l1 = Some c1 ->
  exists c2, lookup d l2 = Some c2 /\ Permutation c1 c2.
Proof.
  intro H. induction H as [|x l l' H IH|x y l|l l' l'' H1 IH1 H2 IH2]; intros c1 E.
  - exists c1. auto.
  - simpl in *. destruct (dget x d); [|discriminate]. destruct (lookup d l) as [m|]; [|discriminate].
    injection E as <-. destruct (IH m eq_refl) as [m' [-> HP]]. eauto.
  - simpl in *. destruct (dget x d); [|destruct (dget y d); discriminate].
    destruct (dget y d); [|discriminate]. destruct (lookup d l) as [m|]; [|discriminate]. injection E as <-.
    eexists. split; [reflexivity|]. constructor.
  - destruct (IH1 c1 E) as [m [E1 P1]]. destruct (IH2 m E1) as [m' [E2 P2]]. exists m'. split; auto.
    eapply perm_trans; eauto.
Qed.
(** a sum over a list of pairs that is a rearrangement of the keys *)
Lemma sumPairs_perm B d pairs : resInv d -> Permutation (keysOf d) pairs ->
  exists c, sumPairsOf B d pairs = Some c /\ ktot c = ktot (sumAll B d) /\
    forall f k, In k (bins B) -> aget f (kacc c) k = aget f (kacc (sumAll B d)) k.
Proof.
  intros [HN HC] HP. destruct (lookup_perm d (keysOf d) pairs HP _ (lookup_all d HN)) as [l [E P]].
  unfold sumPairsOf. rewrite E. eexists. split; [reflexivity|]. unfold sumAll. rewrite !ksum_tot. split.
  - symmetry. apply sumR_perm; auto.
  - intros f k Hk.
    assert (HL : forall c, In c (map snd d) -> consistent (kacc c)).
    { intros c Hc. apply in_map_iff in Hc as [[k' v] [<- Hv]]. apply (HC k'); auto. }
    rewrite !ksum_get; auto.
    + symmetry. apply sumR_perm; auto.
    + intros c Hc. apply HL. eapply Permutation_in; [symmetry; exact P|auto].
Qed.
(** The random correlation has results for (at most) the stored pairs of DD: both catalogs in
    patches; or it is DR with unpatched randoms (keys (i,0) for each patch i); or RD likewise. *)
Definition bothPatched (keys : list key) (r : rand) : Prop :=
  resInv (r_res r) /\ r_res r <> [] /\ (forall jk, In jk (keysOf (r_res r)) -> In jk keys).
Definition drUnpatched (keys : list key) (r : rand) : Prop :=
  resInv (r_res r) /\ forall j k, In (j, k) (keysOf (r_res r)) <-> k = 0%Z /\ In (j, j) keys.
Definition rdUnpatched (keys : list key) (r : rand) : Prop :=
  resInv (r_res r) /\ (exists jk, In jk keys /\ fst jk <> 0%Z) /\
  forall j k, In (j, k) (keysOf (r_res r)) <-> j = 0%Z /\ In (k, k) keys.
Definition drFits keys r := (r_n2 r <> 1%Z /\ bothPatched keys r) \/ (r_n2 r = 1%Z /\ drUnpatched keys r).
Definition rdFits keys r := (r_n1 r <> 1%Z /\ bothPatched keys r) \/ (r_n1 r = 1%Z /\ rdUnpatched keys r).
Lemma perm_filter_ok keys r : NoDup keys -> NoDup r -> (forall jk, In jk r -> In jk keys) ->
  Permutation r (filter (okKey r) keys).
Proof.
  intros H1 H2 H. apply NoDup_Permutation; auto using NoDup_filter. intro x. rewrite filter_In, okKey_in. intuition.
Qed.
Lemma diag_in pairs j k : In (j, k) (diag pairs) <-> In (j, k) pairs /\ j = k.
Proof. unfold diag. rewrite filter_In. cbn [fst snd]. rewrite Z.eqb_eq. tauto. Qed.
Lemma perm_dr keys r : NoDup keys -> drUnpatched keys r ->
  Permutation (keysOf (r_res r)) (map (fun ij => (fst ij, 0%Z)) (diag keys)).
Proof.
  intros HN [HI H]. apply NoDup_Permutation.
  - apply HI.
  - apply NoDup_map_in; [apply NoDup_filter; auto|]. intros [a b] [a' b'] Ha Hb E. apply diag_in in Ha, Hb.
    cbn [fst] in E. injection E as ->. destruct Ha as [_ <-]. destruct Hb as [_ <-]. auto.
  - intros [j k]. rewrite H, in_map_iff. split.
    + intros [-> Hj]. exists (j, j). split; auto. apply diag_in. auto.
    + intros [[a b] [E Hab]]. apply diag_in in Hab as [Hab <-]. cbn [fst] in E. injection E as <- <-. auto.
Qed.
Lemma perm_rd keys r : NoDup keys -> rdUnpatched keys r ->
  Permutation (keysOf (r_res r)) (map (fun ij => (0%Z, snd ij)) (diag keys)).
Proof.
  intros HN [HI [_ H]]. apply NoDup_Permutation.
  - apply HI.
  - apply NoDup_map_in; [apply NoDup_filter; auto|]. intros [a b] [a' b'] Ha Hb E. apply diag_in in Ha, Hb.
    cbn [snd] in E. injection E as ->. destruct Ha as [_ ->]. destruct Hb as [_ ->]. auto.
  - intros [j k]. rewrite H, in_map_iff. split.
    + intros [-> Hj]. exists (k, k). split; auto. apply diag_in. auto.
    + intros [[a b] [E Hab]]. apply diag_in in Hab as [Hab <-]. cbn [snd] in E. injection E as <- <-. auto.
Qed.
Definition sameAs B (c d : corr) : Prop := ktot c = ktot d /\ forall k, In k (bins B) -> a_weight (kacc c) k = a_weight (kacc d) k.
Lemma dr_all E r : NoDup (keysOf (e_res E)) -> (forall x, r = Some x -> drFits (keysOf (e_res E)) x) ->
  exists o, drTerm E r (keysOf (e_res E)) = Some o /\
    match r, o with None, None => True | Some x, Some c => sameAs (e_B E) c (sumAll (e_B E) (r_res x)) | _, _ => False end.
Proof.
  intros HN H. destruct r as [r|]; [|exists None; auto]. specialize (H r eq_refl). unfold drTerm.
  match goal with |- context [sumPairsOf _ _ ?p] => set (P := p) end.
  assert (HP : exists c, sumPairsOf (e_B E) (r_res r) P = Some c /\ ktot c = ktot (sumAll (e_B E) (r_res r)) /\
      forall f k, In k (bins (e_B E)) -> aget f (kacc c) k = aget f (kacc (sumAll (e_B E) (r_res r))) k).
  { unfold P. clear P. destruct H as [[Hn [HI [_ HS]]]|[Hn HU]].
    - apply Z.eqb_neq in Hn. rewrite Hn. apply sumPairs_perm; auto. apply perm_filter_ok; auto. apply HI.
    - rewrite Hn. simpl. apply sumPairs_perm; [apply HU|]. apply perm_dr; auto. }
  destruct HP as [c [E1 [E2 E3]]]. rewrite E1. exists (Some c). split; auto. split; auto.
  intros k Hk. apply (E3 FWeight k Hk).
Qed.
Lemma rd_all E r : NoDup (keysOf (e_res E)) -> (forall x, r = Some x -> rdFits (keysOf (e_res E)) x) ->
  exists o, rdTerm E r (keysOf (e_res E)) = Some o /\
    match r, o with None, None => True | Some x, Some c => sameAs (e_B E) c (sumAll (e_B E) (r_res x)) | _, _ => False end.
Proof.
  intros HN H. destruct r as [r|]; [|exists None; auto]. specialize (H r eq_refl). unfold rdTerm.
  match goal with |- context [sumPairsOf _ _ ?p] => set (P := p) end.
  assert (HP : exists c, sumPairsOf (e_B E) (r_res r) P = Some c /\ ktot c = ktot (sumAll (e_B E) (r_res r)) /\
      forall f k, In k (bins (e_B E)) -> aget f (kacc c) k = aget f (kacc (sumAll (e_B E) (r_res r))) k).
  { unfold P. clear P. destruct H as [[Hn [HI [_ HS]]]|[Hn HU]].
    - apply Z.eqb_neq in Hn. rewrite Hn. apply sumPairs_perm; auto. apply perm_filter_ok; auto. apply HI.
    - rewrite Hn. simpl.
      match goal with |- context [forallb ?q ?l] => assert (E0 : forallb q l = false) end.
      { destruct (forallb _ _) eqn:F; auto. rewrite forallb_forall in F. destruct HU as [_ [[jk [Hjk N]] _]].
        exfalso. apply N. apply Z.eqb_eq. apply F; auto. }
      rewrite E0. simpl. apply sumPairs_perm; [apply HU|]. apply perm_rd; auto. }
  destruct HP as [c [E1 [E2 E3]]]. rewrite E1. exists (Some c). split; auto. split; auto.
  intros k Hk. apply (E3 FWeight k Hk).
Qed.
(** RR: with results for stored pairs only, or without patches at all (then its tot is scaled by the
    "area" of the pairs, which for all pairs is 1). *)
Definition rrFits (d : dict) (r : rand) (rr : corr) (B : bparams) : Prop :=
  (bothPatched (keysOf d) r /\ rr = sumAll B (r_res r)) \/
  (r_res r = [] /\ rr = r_corr r /\
   sumR (fun k => match dget k d with Some c => sqrt (ktot c) | None => 0 end) (diag (keysOf d)) <> 0).
Theorem C50_all_pairs_xi E rr xi k :
  let B := e_B E in let dd := sumAll B (e_res E) in
  resInv (e_res E) -> rrFits (e_res E) (e_rr E) rr B ->
  (forall r, e_dr E = Some r -> drFits (keysOf (e_res E)) r) ->
  (forall r, e_rd E = Some r -> rdFits (keysOf (e_res E)) r) ->
  ktot dd <> 0 -> In k (bins B) ->
  calculateXi dd rr (option_map (fun r => sumAll B (r_res r)) (e_dr E))
                    (option_map (fun r => sumAll B (r_res r)) (e_rd E)) = Some xi ->
  exists s, calcFromPairs E (keysOf (e_res E)) = Some s /\ q_xi s k = xi k.
Proof.
  intros B dd HI HRR HDR HRD Ht Hk HX.
  assert (HN : NoDup (keysOf (e_res E))) by apply HI.
  destruct (sumPairs_perm B (e_res E) (keysOf (e_res E)) HI (Permutation_refl _)) as [c [Ec [Tc Wc]]].
  destruct (dr_all E (e_dr E) HN HDR) as [dr [Edr Sdr]]. destruct (rd_all E (e_rd E) HN HRD) as [rd [Erd Srd]].
  assert (HR : exists rr', rrTerm E c (keysOf (e_res E)) = Some (rr', ktot dd) /\ sameAs B rr' rr).
  { unfold rrTerm. destruct HRR as [[[HI' [HE HS]] ->]|[-> [-> HA]]].
    - destruct (r_res (e_rr E)) as [|x l] eqn:El; [contradiction|]. cbn [hasRes]. rewrite <- El in *.
      destruct (sumPairs_perm B (r_res (e_rr E)) (filter (okKey (keysOf (r_res (e_rr E)))) (keysOf (e_res E))) HI')
        as [c' [E1 [E2 E3]]].
      { apply perm_filter_ok; auto. apply HI'. }
      fold B. rewrite E1. exists c'. split; [rewrite Tc; auto|]. split; auto. intros j Hj. apply (E3 FWeight j Hj).
    - cbn [hasRes]. exists (r_corr (e_rr E)). split; [|split; auto]. f_equal. f_equal. unfold areaTot.
      unfold dd, sumAll. rewrite ksum_tot, sumR_map.
      unfold Rdiv. rewrite Rinv_r by auto. ring. }
  destruct HR as [rr' [ER [SR1 SR2]]].
  unfold calcFromPairs. fold B. rewrite Ec, ER, Edr, Erd. eexists. split; [reflexivity|]. cbn [q_xi].
  assert (HW : a_weight (kacc c) k = a_weight (kacc dd) k) by (apply (Wc FWeight k Hk)).
  unfold calculateXi in HX.
  destruct (Reqb (ktot rr) 0 || _ || _) eqn:EB; [discriminate|]. injection HX as <-.
  rewrite !orb_false_iff in EB. destruct EB as [[B1 _] _].
  assert (Trr : ktot rr <> 0) by (unfold Reqb in B1; destruct Req_EM_T; [discriminate|auto]).
  assert (HD : a_weight (kacc rr') k * (ktot dd / ktot rr') = a_weight (kacc rr) k * (ktot dd / ktot rr)).
  { rewrite SR1, SR2; auto. }
  rewrite HD, HW.
  assert (HQ : forall o o' : R, o = o' -> o / (if Req_EM_T (a_weight (kacc rr) k * (ktot dd / ktot rr)) 0 then 1
      else a_weight (kacc rr) k * (ktot dd / ktot rr)) =
      o' / (if Req_EM_T (a_weight (kacc rr) k) 0 then 1 else a_weight (kacc rr) k * (ktot dd / ktot rr))).
  { intros o o' ->. destruct (Req_EM_T (a_weight (kacc rr) k) 0) as [Z|Z].
    - rewrite Z, Rmult_0_l. destruct (Req_EM_T 0 0); [auto|contradiction].
    - destruct (Req_EM_T (a_weight (kacc rr) k * (ktot dd / ktot rr)) 0) as [Z'|Z']; auto.
      exfalso. apply Rmult_integral in Z' as [Z'|Z']; auto. unfold Rdiv in Z'. apply Rmult_integral in Z' as [Z'|Z']; auto.
      revert Z'. apply Rinv_neq_0_compat; auto. }
  apply HQ. destruct (e_dr E) as [r1|], dr as [d1|]; try contradiction; destruct (e_rd E) as [r2|], rd as [d2|]; try contradiction;
    cbn [option_map]; auto.
  - destruct Sdr as [-> Wd]. destruct Srd as [-> Wr]. rewrite Wd, Wr; auto.
  - destruct Sdr as [-> Wd]. rewrite Wd; auto.
  - destruct Srd as [-> Wr]. rewrite Wr; auto.
Qed.
Example C50_example : exists xi, resInv (e_res exE) /\ rrFits (e_res exE) (e_rr exE) (sumAll exB exRR) exB /\
  ktot (sumAll exB exDD) <> 0 /\ In 0%Z (bins exB) /\
  calculateXi (sumAll exB exDD) (sumAll exB exRR) None None = Some xi /\ xi 0%Z = 2/3.
Proof.
  assert (HC : forall w t, 0 <= w -> consistent (kacc (exC w t))).
  { intros w t Hw j. unfold exC; simpl. unfold aconst. split; [lra|]. intro; lra. }
  assert (HD : forall d, d = exDD \/ d = exRR -> resInv d).
  { intros d [->| ->]; constructor; try (repeat constructor; simpl; intuition discriminate);
    intros a b Hab; simpl in Hab; repeat (destruct Hab as [Hab|Hab]; [injection Hab as _ <-; apply HC; lra|]); contradiction. }
  assert (HS : forall d, d = exDD \/ d = exRR -> sumAll exB d = mkK (accSum (map kacc (map snd d))) (sumR ktot (map snd d))).
  { intros d Hd. unfold sumAll. apply exC_sum; [destruct Hd as [->| ->]; discriminate|].
    intros c Hc. destruct Hd as [->| ->]; simpl in Hc; repeat (destruct Hc as [<-|Hc]; [apply exC_any|]); contradiction. }
  assert (HX : exists xi, calculateXi (sumAll exB exDD) (sumAll exB exRR) None None = Some xi /\ xi 0%Z = 2/3).
  { unfold calculateXi. rewrite !HS by auto. cbn [ktot]. simpl. unfold Reqb.
    destruct (Req_EM_T (1 + (1 + (1 + 0))) 0); [lra|]. simpl. eexists. split; [reflexivity|]. cbn beta. unfold aconst.
    destruct Req_EM_T; lra. }
  destruct HX as [xi HX]. exists xi. split; [apply HD; auto|]. split.
  { left. split; [|reflexivity]. split; [apply HD; auto|]. split; [discriminate|]. auto. }
  split; [rewrite HS by auto; simpl; lra|]. split; [left; reflexivity|]. auto.
Qed.

(** ** C51: the arrays of the correlation are the sum of the stored patch results, for any bin_slop,
    metric and split *)
Lemma step_selfres C f k st J st' : okB (pB C) -> In k (bins (pB C)) -> resInv (sres st) ->
  ~ In (jobKey J) (keysOf (sres st)) -> jobStep C st J st' ->
  aget f (kacc (sself st')) k - aget f (kacc (sself st)) k =
  resSum f k (fun _ => true) (sres st') - resSum f k (fun _ => true) (sres st).
Proof.
  intros HB Hk HI HN H. apply step_temp in H as [temp [HT ->]].
  pose proof (temp_consistent C J temp HB HT) as HC. unfold resSum.
  destruct J as [i c|i j c1 sw1 c2 fo]; simpl jobKey in *.
  - unfold addAuto; cbn [sself sres]. rewrite (dget_none _ _ HN), dset_new, sumR_app, kadd_get by auto. simpl. lra.
  - unfold addCross. destruct (anyPairs (pB C) (kacc temp) || fo) eqn:E.
    + cbn [sself sres]. rewrite (dget_none _ _ HN), dset_new, sumR_app, kadd_get by auto. simpl. lra.
    + apply orb_false_iff in E as [E _]. destruct c2 as [[c2 sw2]|]; [destruct (pNN C)|]; cbn [sself sres kacc]; try lra.
      rewrite dset_new, sumR_app by auto. cbn [sumR snd kacc]. rewrite cleared_get. lra.
Qed.
Lemma jobs_selfres C st Js st' : okB (pB C) -> resInv (sres st) -> NoDup (map jobKey Js) ->
  (forall J, In J Js -> ~ In (jobKey J) (keysOf (sres st))) -> runJobs C st Js st' ->
  forall f k, In k (bins (pB C)) ->
  aget f (kacc (sself st')) k - aget f (kacc (sself st)) k =
  resSum f k (fun _ => true) (sres st') - resSum f k (fun _ => true) (sres st).
Proof.
  intros HB HI HN HD H f k Hk. induction H as [st|st J st1 Js st2 HS HR IH]; [lra|].
  simpl in HN. inversion HN as [|? ? HN1 HN2]; subst.
  assert (HJ : ~ In (jobKey J) (keysOf (sres st))) by (apply HD; left; auto).
  destruct (step_keys C st J st1 HB HI HJ HS) as [HI1 HK1].
  assert (HD1 : forall J', In J' Js -> ~ In (jobKey J') (keysOf (sres st1))).
  { intros J' HJ' Hin. apply HK1 in Hin as [E|Hin]; [|apply (HD J'); auto; right; auto].
    apply HN1. rewrite <- E. apply in_map; auto. }
  specialize (IH HI1 HN2 HD1). pose proof (step_selfres C f k st J st1 HB Hk HI HJ HS). lra.
Qed.
Lemma resSum_all B d f k : resInv d -> In k (bins B) -> resSum f k (fun _ => true) d = aget f (kacc (sumAll B d)) k.
Proof.
  intros HI Hk. unfold sumAll. rewrite ksum_get; auto.
  - rewrite sumR_map. auto.
  - intros c Hc. apply in_map_iff in Hc as [[k' v] [<- Hv]]. apply (ri_cons d HI k'); auto.
Qed.
Lemma resTot_all B d : resTot (fun _ => true) d = ktot (sumAll B d).
Proof. unfold sumAll. rewrite ksum_tot, sumR_map. auto. Qed.
Theorem C51_results_sum C Js st : okB (pB C) -> NoDup (map jobKey Js) -> runJobs C sclear Js st ->
  (forall f k, In k (bins (pB C)) -> aget f (kacc (sself st)) k = aget f (kacc (sumAll (pB C) (sres st))) k) /\
  (pNN C = true -> ktot (sself st) = ktot (sumAll (pB C) (sres st))).
Proof.
  intros HB HN H.
  destruct (jobs_res C sclear Js st HB resInv_clear HN) as [HI [_ [_ HT]]]; auto.
  split.
  - intros f k Hk. rewrite <- resSum_all by auto.
    pose proof (jobs_selfres C sclear Js st HB resInv_clear HN (fun _ _ F => F) H f k Hk) as E.
    unfold resSum in E at 2. simpl in E. rewrite cleared_get in E. lra.
  - intro HNN. rewrite <- resTot_all, (HT _ HNN), (jobs_tot C sclear Js st HNN H).
    rewrite filter_true. unfold resTot. simpl. lra.
Qed.
(** The keys of the loops over patches are different, so this applies to both. *)
Theorem C51_auto_and_cross C cats cats2 n1 n2 st st2 : okB (pB C) -> NoDup (map pidx cats) -> NoDup (map pidx cats2) ->
  runJobs C sclear (autoJobs cats) st -> runJobs C sclear (crossJobs n1 n2 cats cats2) st2 ->
  (forall f k, In k (bins (pB C)) -> aget f (kacc (sself st)) k = aget f (kacc (sumAll (pB C) (sres st))) k) /\
  (forall f k, In k (bins (pB C)) -> aget f (kacc (sself st2)) k = aget f (kacc (sumAll (pB C) (sres st2))) k) /\
  (pNN C = true -> ktot (sself st) = ktot (sumAll (pB C) (sres st)) /\ ktot (sself st2) = ktot (sumAll (pB C) (sres st2))).
Proof.
  intros HB N1 N2 H1 H2.
  destruct (C51_results_sum C (autoJobs cats) st HB (autoJobs_keys cats N1) H1).
  destruct (C51_results_sum C (crossJobs n1 n2 cats cats2) st2 HB (crossJobs_keys n1 n2 cats cats2 N1 N2) H2).
  auto.
Qed.
(** With MPI: the results dict of rank 0 after the collection has every stored pair of every rank,
    and again sums to the arrays. *)
Lemma dupdate_app d e : NoDup (keysOf e) -> (forall k, In k (keysOf e) -> ~ In k (keysOf d)) -> dupdate d e = d ++ e.
Proof.
  revert d. induction e as [|[k v] e IH]; intros d HN HD; simpl; [rewrite app_nil_r; auto|].
  unfold dupdate in *. simpl. inversion HN; subst. rewrite dset_new by (apply HD; left; auto).
  rewrite IH; auto; [rewrite <- app_assoc; auto|].
  intros k' Hk' Hin. unfold keysOf in Hin. rewrite map_app in Hin. apply in_app_or in Hin as [Hin|[Hin|[]]].
  - apply (HD k'); [right; auto|auto].
  - simpl in Hin. subst k'. contradiction.
Qed.
Lemma NoDup_app_parts {A} (l1 l2 : list A) : NoDup (l1 ++ l2) -> NoDup l1 /\ NoDup l2 /\ forall x, In x l2 -> ~ In x l1.
Proof.
  induction l1 as [|a l1 IH]; simpl; intro H; [repeat split; auto; constructor|]. inversion H; subst.
  destruct (IH H3) as [I1 [I2 I3]]. split; [constructor; auto; intro; apply H2; apply in_or_app; auto|]. split; auto.
  intros x Hx [->|Hin]; [apply H2; apply in_or_app; auto|eapply I3; eauto].
Qed.
Lemma collect_res C others : forall st0, NoDup (keysOf (sres st0 ++ flat_map sres others)) ->
  sres (mpiCollect C st0 others) = sres st0 ++ flat_map sres others.
Proof.
  induction others as [|s l IH]; intros st0 HN; simpl; [rewrite app_nil_r; auto|].
  unfold mpiCollect in *. simpl. simpl in HN. rewrite app_assoc in HN.
  assert (E : dupdate (sres st0) (sres s) = sres st0 ++ sres s).
  { unfold keysOf in HN. rewrite map_app, map_app in HN. apply NoDup_app_parts in HN as [HN _].
    apply NoDup_app_parts in HN as [_ [H2 H3]]. apply dupdate_app; auto. }
  rewrite IH; cbn [sres]; rewrite E; [rewrite <- app_assoc; auto|auto].
Qed.
Lemma mpi_res C mine size Js init final : okB (pB C) -> (0 < size)%Z -> NoDup (map jobKey Js) ->
  assignsOnce mine size Js -> (forall r, init r = sclear) -> mpiRun C mine size Js init final ->
  resInv (sres final) /\
  (forall f k q, In k (bins (pB C)) -> (forall J, In J Js -> jobExact C f k J) ->
     resSum f k q (sres final) = sumR (jobVal (rP (pR C)) f k) (filter (fun J => q (jobKey J)) Js)) /\
  (forall q, pNN C = true -> resTot q (sres final) = sumR (jobTot C) (filter (fun J => q (jobKey J)) Js)) /\
  (forall f k, In k (bins (pB C)) -> aget f (kacc (sself final)) k = resSum f k (fun _ => true) (sres final)).
Proof.
  intros HB Hs HN HA HI [st [HR ->]].
  assert (HF : forall (p : job -> bool), NoDup (map jobKey (filter p Js))).
  { intro p. clear - HN. induction Js as [|J Js IH]; simpl; [constructor|]. inversion HN; subst.
    destruct (p J); simpl; auto. constructor; auto. intro H. apply in_map_iff in H as [J' [E HJ']].
    apply filter_In in HJ' as [HJ' _]. apply H1. rewrite <- E. apply in_map; auto. }
  assert (HJ : forall r, In r (ranks size) ->
    resInv (sres (st r)) /\
    (forall x, In x (keysOf (sres (st r))) -> In x (map jobKey (filter (fun J => mine r (jobKey J)) Js))) /\
    (forall f k q, In k (bins (pB C)) -> (forall J, In J Js -> jobExact C f k J) ->
     resSum f k q (sres (st r)) =
       sumR (jobVal (rP (pR C)) f k) (filter (fun J => q (jobKey J)) (filter (fun J => mine r (jobKey J)) Js))) /\
    (forall q, pNN C = true -> resTot q (sres (st r)) =
       sumR (jobTot C) (filter (fun J => q (jobKey J)) (filter (fun J => mine r (jobKey J)) Js))) /\
    (forall f k, In k (bins (pB C)) -> aget f (kacc (sself (st r))) k = resSum f k (fun _ => true) (sres (st r)))).
  { intros r Hr. specialize (HR r Hr). rewrite HI in HR.
    destruct (jobs_res C sclear _ (st r) HB resInv_clear (HF _) (fun _ _ F => F) HR) as [H1 [H2 [H3 H4]]].
    split; auto. split; [|split; [|split]].
    - intros x Hx. apply H2 in Hx as [Hx|[]]; auto.
    - intros f k q Hk HE. rewrite H3; auto; [unfold resSum; simpl; lra|].
      intros J HJ. apply filter_In in HJ as [HJ _]; auto.
    - intros q HNN. rewrite H4 by auto. unfold resTot; simpl; lra.
    - intros f k Hk.
      pose proof (jobs_selfres C sclear _ (st r) HB resInv_clear (HF _) (fun _ _ F => F) HR f k Hk) as E.
      unfold resSum in E at 2. simpl in E. rewrite cleared_get in E. lra. }
  assert (HD : NoDup (keysOf (flat_map (fun r => sres (st r)) (ranks size)))).
  { unfold keysOf. rewrite map_flat_map. apply NoDup_flat_map.
    - apply NoDup_ranks.
    - intros r Hr. apply (HJ r Hr).
    - intros a b x Ha Hb X1 X2. apply (HJ a Ha) in X1. apply (HJ b Hb) in X2.
      apply in_map_iff in X1 as [J1 [E1 M1]]. apply in_map_iff in X2 as [J2 [E2 M2]].
      apply filter_In in M1 as [I1 M1]. apply filter_In in M2 as [I2 M2].
      rewrite E1 in M1. rewrite E2 in M2. rewrite <- E1 in M1, M2.
      destruct (HA J1 I1) as [r0 [_ [_ HU]]]. apply in_ranks in Ha, Hb. rewrite (HU a), (HU b); auto. }
  assert (HT : sres (mpiCollect C (st 0%Z) (map st (tl (ranks size)))) = flat_map (fun r => sres (st r)) (ranks size)).
  { assert (E : sres (st 0%Z) ++ flat_map sres (map st (tl (ranks size))) = flat_map (fun r => sres (st r)) (ranks size)).
    { rewrite (ranks_cons size) at 2 by auto. simpl. f_equal. rewrite flat_map_concat_map, map_map, <- flat_map_concat_map. auto. }
    rewrite collect_res; rewrite E; auto. }
  rewrite HT.
  assert (HS : forall f k q, resSum f k q (flat_map (fun r => sres (st r)) (ranks size)) =
     sumR (fun r => resSum f k q (sres (st r))) (ranks size)).
  { intros. unfold resSum. rewrite sumR_flat_map. auto. }
  assert (HS2 : forall q, resTot q (flat_map (fun r => sres (st r)) (ranks size)) =
     sumR (fun r => resTot q (sres (st r))) (ranks size)).
  { intros. unfold resTot. rewrite sumR_flat_map. auto. }
  assert (HAq : forall q, assignsOnce mine size (filter (fun J => q (jobKey J)) Js)).
  { intros q J HJq. apply filter_In in HJq as [HJq _]. auto. }
  split; [|split; [|split]].
  - constructor; auto. intros x v Hv. apply in_flat_map in Hv as [r [Hr Hv]].
    destruct (HJ r Hr) as [[_ HC] _]. eapply HC; eauto.
  - intros f k q Hk HE. rewrite HS, <- (ranks_sum _ mine size _ (HAq q)). apply sumR_ext. intros r Hr.
    destruct (HJ r Hr) as [_ [_ [H3 _]]]. rewrite H3 by auto. rewrite filter_comm. auto.
  - intros q HNN. rewrite HS2, <- (ranks_sum _ mine size _ (HAq q)). apply sumR_ext. intros r Hr.
    destruct (HJ r Hr) as [_ [_ [_ [H4 _]]]]. rewrite H4 by auto. rewrite filter_comm. auto.
  - intros f k Hk. rewrite HS, collect_get; auto.
    + rewrite (ranks_cons size) at 2 by auto. simpl. rewrite sumR_map.
      destruct (HJ 0%Z) as [_ [_ [_ [_ H5]]]]; [apply in_ranks; lia|]. rewrite H5 by auto. f_equal.
      apply sumR_ext. intros r Hr. destruct (HJ r) as [_ [_ [_ [_ H6]]]]; [rewrite (ranks_cons size) by auto; right; auto|].
      apply H6; auto.
    + apply Forall_forall. intros s Hin. apply in_map_iff in Hin as [r [<- Hr]].
      assert (Hr' : In r (ranks size)) by (rewrite (ranks_cons size) by auto; right; auto).
      apply (jobs_consistent C (init r) (filter (fun J => mine r (jobKey J)) Js)); auto.
      rewrite HI. apply cleared_consistent.
Qed.
Theorem C51_results_sum_mpi C mine size Js init final : okB (pB C) -> (0 < size)%Z -> NoDup (map jobKey Js) ->
  assignsOnce mine size Js -> (forall r, init r = sclear) -> mpiRun C mine size Js init final ->
  (forall f k, In k (bins (pB C)) -> aget f (kacc (sself final)) k = aget f (kacc (sumAll (pB C) (sres final))) k) /\
  (pNN C = true -> ktot (sself final) = ktot (sumAll (pB C) (sres final))).
Proof.
  intros HB Hs HN HA HI H. destruct (mpi_res C mine size Js init final) as [H1 [_ [H3 H4]]]; auto. split.
  - intros f k Hk. rewrite H4 by auto. apply resSum_all; auto.
  - intro HNN. rewrite <- resTot_all, H3 by auto. rewrite filter_true.
    rewrite (mpi_tot C mine size Js init final) by auto. rewrite HI. simpl. lra.
Qed.
(** Jackknife after an MPI auto-correlation. *)
Theorem C21_jackknife_auto_mpi C cats n size i init final k :
  let R := pR C in let B := cbin (rP R) in
  cmetric (rP R) = Euclidean -> rcoord R <> Sphere -> crpar (rP R) = None -> validB B ->
  slop_b B = 0 -> narrowLog B ->
  offEdges B euclid (allRows cats) (allRows cats) -> offMinSep B euclid (allRows cats) ->
  posW (allRows cats) -> NoDup (map pidx cats) -> (0 <= k < nbins B)%Z -> n <> 1%Z ->
  (0 < size)%Z -> (forall a, In a cats -> (0 <= pidx a < n)%Z) -> (forall r, init r = sclear) ->
  mpiRun C (myJobAuto n size) size (autoJobs cats) init final ->
  exists c, sumPairsOf B (sres final) (jackPairs n n i (keysOf (sres final))) = Some c /\
    addsAuto (selBin B euclid k) (allRows (without i cats)) cleared (kacc c) k /\
    (pNN C = true -> ktot c = sumw (allRows (without i cats)) * sumw (allRows (without i cats)) / 2).
Proof.
  intros Rc B HM HS Hr HB Hb HN HE HO HW HND Hk Hn Hsz Hp HI H.
  assert (En : (n =? 1)%Z = false) by (apply Z.eqb_neq; auto).
  unfold jackPairs. rewrite En.
  destruct (mpi_res C (myJobAuto n size) size (autoJobs cats) init final) as [H1 [H2 [H3 _]]]; auto.
  { apply validB_okB; auto. }
  { apply autoJobs_keys; auto. }
  { apply auto_assigns; auto. }
  set (q := fun jk : key => negb (fst jk =? i)%Z && negb (snd jk =? i)%Z).
  destruct (sumPairs_filter B (sres final) q H1) as [c [E [X1 X2]]].
  exists c. split; [exact E|].
  pose proof (autoJobs_filter (fun x => negb (x =? i)%Z) cats) as HF. cbn beta in HF.
  change (filter (fun c0 => negb (pidx c0 =? i)%Z) cats) with (without i cats) in *.
  split.
  - apply (addsAuto_of (rP Rc)).
    + intros. apply selM_selBin; auto. rewrite HM. apply mdist_euclidean.
    + intros f Hf Hnk. assert (HK : In k (bins B)) by (apply in_bins; auto).
      rewrite cleared_get, X1, H2; auto.
      * unfold q. rewrite HF. rewrite autoJobs_sum; [rewrite Rplus_0_l; reflexivity| |apply nodup_filter_map; auto].
        intros x y. apply specM_sym; auto. fold Rc. rewrite HM. apply symM_euclid.
      * apply autoJobs_exact; auto; fold Rc; rewrite ?HM.
        -- apply lip_euclid.
        -- apply subEuclid_euclid.
        -- apply symM_euclid.
        -- split; auto. split; auto. rewrite HM. eapply offEdges_ext; [|exact HE]. intros; symmetry; apply mdist_euclidean.
        -- eapply offMinSep_ext; [|exact HO]. intros; symmetry; apply mdist_euclidean.
        -- apply skipOK_lip; auto. rewrite HM. apply lip_euclid.
  - intro HNN. rewrite X2, H3 by auto. unfold q. rewrite HF, autoJobs_tot; auto; [lra|apply nodup_filter_map; auto].
Qed.
(** Concrete runs (bin_slop > 0), serial and with two ranks. *)
Example C51_example : let C := mkPC (exRun Euclidean exBslop BruteNo) true in
  okB (pB C) /\ NoDup (map jobKey (autoJobs exCats3)) /\ (exists st, runJobs C sclear (autoJobs exCats3) st) /\
  assignsOnce (myJobAuto 3 2) 2 (autoJobs exCats3) /\
  exists final, mpiRun C (myJobAuto 3 2) 2 (autoJobs exCats3) (fun _ => sclear) final.
Proof.
  intro C.
  assert (HE : forall Js, (forall J, In J Js -> In J (autoJobs exCats3)) -> exists st, runJobs C sclear Js st).
  { intros Js HJ. apply jobs_exist; [apply exBslop_valid|]. apply Forall_forall. intros J H. apply HJ in H.
    simpl in H. repeat (destruct H as [<-|H]; [repeat split; discriminate|]). contradiction. }
  split; [apply validB_okB, exBslop_valid|].
  split; [apply autoJobs_keys; simpl; repeat constructor; simpl; intuition lia|].
  split; [apply HE; auto|]. split.
  { apply auto_assigns; [lia|]. intros a [<-|[<-|[<-|[]]]]; simpl; lia. }
  destruct (HE (filter (fun J => myJobAuto 3 2 0 (jobKey J)) (autoJobs exCats3))) as [s0 H0].
  { intros J H. apply filter_In in H; tauto. }
  destruct (HE (filter (fun J => myJobAuto 3 2 1 (jobKey J)) (autoJobs exCats3))) as [s1 H1].
  { intros J H. apply filter_In in H; tauto. }
  eexists. exists (fun r => if (r =? 0)%Z then s0 else s1). split; [|reflexivity].
  intros r Hr. apply in_ranks in Hr. assert (r = 0 \/ r = 1)%Z as [-> | ->] by lia; auto.
Qed.
