(** What calculateZeta adds to one entry of the output arrays. *)
From Coq Require Import Reals Lra Lia List ZArith Bool Permutation Psatz.
From Verif Require Import Base Geometry Tree Traverse Spin Run SumFacts TreeFacts TravFacts Cover Multi.
Import ListNotations.
Open Scope R_scope.

Definition getB (b : bumps) (i : Z) : R := sumR (fun iv => if (fst iv =? i)%Z then snd iv else 0) b.
Lemma getB_app b b' i : getB (b ++ b') i = getB b i + getB b' i.
Proof. apply sumR_app. Qed.
Lemma getB_cons x v b i : getB ((x, v) :: b) i = (if (x =? i)%Z then v else 0) + getB b i.
Proof. auto. Qed.
Lemma getB_nil i : getB [] i = 0. Proof. auto. Qed.
Lemma getB_flat {A} (g : A -> bumps) l i : getB (flat_map g l) i = sumR (fun x => getB (g x) i) l.
Proof. induction l; simpl; auto. rewrite getB_app, IHl. auto. Qed.

Lemma bumps_get b : forall (a : Z -> R) i, fold_left bump1 b a i = a i + getB b i.
Proof.
  induction b as [|[x v] b IH]; intros a i; simpl.
  - rewrite getB_nil. lra.
  - rewrite IH, getB_cons. unfold bump1. simpl. rewrite (Z.eqb_sym i x).
    destruct (x =? i)%Z; lra.
Qed.

Lemma in_zrange a b k : In k (zrange a b) <-> (a <= k < b)%Z.
Proof.
  unfold zrange. rewrite in_map_iff. split.
  - intros [j [<- Hj]]. apply in_seq in Hj. lia.
  - intros H. exists (Z.to_nat (k - a)). split; [lia|]. apply in_seq. lia.
Qed.
Lemma sumR_seq_pick (v : nat -> R) : forall n s m,
  sumR (fun j => if (j =? m)%nat then v j else 0) (seq s n) =
  if (s <=? m)%nat && (m <? s + n)%nat then v m else 0.
Proof.
  induction n as [|n IH]; intros s m; cbn [seq].
  - simpl. destruct (Nat.leb_spec s m), (Nat.ltb_spec m (s + 0)); simpl; auto; lia.
  - change (sumR ?f (?x :: ?l)) with (f x + sumR f l). cbv beta. rewrite IH.
    destruct (Nat.eqb_spec s m) as [->|Hne].
    + destruct (Nat.leb_spec (S m) m); [lia|]. simpl.
      destruct (Nat.leb_spec m m); [|lia]. destruct (Nat.ltb_spec m (m + S n)); [|lia]. simpl. lra.
    + rewrite Rplus_0_l.
      destruct (Nat.leb_spec (S s) m), (Nat.leb_spec s m), (Nat.ltb_spec m (S s + n)), (Nat.ltb_spec m (s + S n));
        simpl; auto; lia.
Qed.
Lemma sumR_zrange_pick (v : Z -> R) a b k0 :
  sumR (fun k => if (k =? k0)%Z then v k else 0) (zrange a b) =
  if (a <=? k0)%Z && (k0 <? b)%Z then v k0 else 0.
Proof.
  unfold zrange. rewrite sumR_map.
  destruct (Z.leb_spec a k0).
  - transitivity (sumR (fun j => if (j =? Z.to_nat (k0 - a))%nat then v k0 else 0) (seq 0 (Z.to_nat (b - a)))).
    + apply sumR_ext. intros j _.
      destruct (Z.eqb_spec (a + Z.of_nat j) k0), (Nat.eqb_spec j (Z.to_nat (k0 - a))); try lia; auto. congruence.
    + rewrite (sumR_seq_pick (fun _ => v k0)).
      destruct (Nat.leb_spec 0 (Z.to_nat (k0 - a))); [|lia].
      destruct (Nat.ltb_spec (Z.to_nat (k0 - a)) (0 + Z.to_nat (b - a))), (Z.ltb_spec k0 b); simpl; auto; lia.
  - simpl. apply sumR_0. intros j _. destruct (Z.eqb_spec (a + Z.of_nat j) k0); auto; lia.
Qed.

Lemma forloop_range {S A} (next : S -> S) (body : S -> list A) (st : Z -> S) n : forall a,
  (forall k, (a <= k < a + Z.of_nat n)%Z -> next (st k) = st (k + 1)%Z) ->
  forloop n next body (st a) = flat_map (fun k => body (st k)) (zrange a (a + Z.of_nat n)).
Proof.
  induction n as [|n IH]; intros a H.
  - cbn [forloop]. unfold zrange. replace (Z.to_nat (a + Z.of_nat 0 - a)) with 0%nat by lia. auto.
  - cbn [forloop]. rewrite H by lia. rewrite IH.
    2:{ intros k Hk. apply H. lia. }
    replace (zrange a (a + Z.of_nat (Datatypes.S n))) with (a :: zrange (a + 1) (a + 1 + Z.of_nat n)); [auto|].
    unfold zrange. replace (Z.to_nat (a + Z.of_nat (Datatypes.S n) - a)) with (Datatypes.S n) by lia.
    replace (Z.to_nat (a + 1 + Z.of_nat n - (a + 1))) with n by lia.
    cbn [seq map]. f_equal; [lia|]. rewrite <- seq_shift, map_map. apply map_ext. intro j. lia.
Qed.

Section I.
Variable P : mparams.
Let nb := nbins (mB P).
Let N := nnb P.
Definition ix (k2 k3 n : Z) : Z := ((k2 * nb + k3) * N + mxn P + n)%Z.

Lemma ix_inj a b m k2 k3 n : (0 <= a < nb)%Z -> (0 <= b < nb)%Z -> (0 <= k2 < nb)%Z -> (0 <= k3 < nb)%Z ->
  (- mxn P <= m <= mxn P)%Z -> (- mxn P <= n <= mxn P)%Z ->
  ix a b m = ix k2 k3 n -> a = k2 /\ b = k3 /\ m = n.
Proof.
  intros Ha Hb H2 H3 Hm Hn H. unfold ix in H.
  assert (HN : (N = 2 * mxn P + 1)%Z) by reflexivity.
  assert (0 <= mxn P)%Z by (unfold mxn; lia).
  destruct (Z.div_mod_unique N (a * nb + b) (k2 * nb + k3) (mxn P + m) (mxn P + n)) as [E1 E2]; try lia.
  destruct (Z.div_mod_unique nb a k2 b k3) as [E3 E4]; try lia.
Qed.
Lemma ix_eqb a b m k2 k3 n : (0 <= a < nb)%Z -> (0 <= b < nb)%Z -> (0 <= k2 < nb)%Z -> (0 <= k3 < nb)%Z ->
  (- mxn P <= m <= mxn P)%Z -> (- mxn P <= n <= mxn P)%Z ->
  (ix a b m =? ix k2 k3 n)%Z = (a =? k2)%Z && (b =? k3)%Z && (m =? n)%Z.
Proof.
  intros. destruct (Z.eqb_spec (ix a b m) (ix k2 k3 n)) as [E|E].
  - apply ix_inj in E as [-> [-> ->]]; auto. rewrite !Z.eqb_refl. auto.
  - destruct (Z.eqb_spec a k2) as [->|]; auto. destruct (Z.eqb_spec b k3) as [->|]; auto.
    destruct (Z.eqb_spec m n) as [->|]; auto.
Qed.

(** n = 0 and +-n entries of one (a,b) block. *)
Definition sgnPick (v v' : nat -> R) (n : Z) : R :=
  if (n <? 0)%Z then v' (Z.to_nat (- n)) else v (Z.to_nat n).
Lemma npart a b (v v' : nat -> R) k2 k3 n :
  (0 <= a < nb)%Z -> (0 <= b < nb)%Z -> (0 <= k2 < nb)%Z -> (0 <= k3 < nb)%Z ->
  (- mxn P <= n <= mxn P)%Z ->
  getB ((ix a b 0, v 0%nat) :: flat_map (fun m => [((ix a b 0 + Z.of_nat m)%Z, v m);
           ((ix a b 0 - Z.of_nat m)%Z, v' m)]) (seq 1 (mmaxn P))) (ix k2 k3 n)
  = if (a =? k2)%Z && (b =? k3)%Z then sgnPick v v' n else 0.
Proof.
  intros Ha Hb H2 H3 Hn.
  assert (HI : forall m, ix a b m = (ix a b 0 + m)%Z) by (intro; unfold ix; lia).
  assert (Hx : (0 <= mxn P)%Z) by (unfold mxn; lia).
  rewrite getB_cons, getB_flat. rewrite (ix_eqb a b 0) by (auto; lia).
  transitivity (if (a =? k2)%Z && (b =? k3)%Z then
      (if (0 =? n)%Z then v 0%nat else 0) +
      sumR (fun m => (if (m =? Z.to_nat n)%nat then v m else 0) + (if (m =? Z.to_nat (- n))%nat then v' m else 0))
        (seq 1 (mmaxn P)) else 0).
  - assert (HS : forall m, In m (seq 1 (mmaxn P)) ->
       getB [((ix a b 0 + Z.of_nat m)%Z, v m); ((ix a b 0 - Z.of_nat m)%Z, v' m)] (ix k2 k3 n) =
       if (a =? k2)%Z && (b =? k3)%Z then
       (if (m =? Z.to_nat n)%nat then v m else 0) + (if (m =? Z.to_nat (- n))%nat then v' m else 0) else 0).
    { intros m Hm. apply in_seq in Hm. rewrite !getB_cons, getB_nil.
      replace (ix a b 0 - Z.of_nat m)%Z with (ix a b (- Z.of_nat m)) by (unfold ix; lia).
      rewrite <- (HI (Z.of_nat m)).
      unfold mxn in *. rewrite !ix_eqb by (auto; unfold mxn; lia).
      destruct ((a =? k2)%Z && (b =? k3)%Z); simpl; [|lra].
      destruct (Z.eqb_spec (Z.of_nat m) n), (Nat.eqb_spec m (Z.to_nat n)); try lia;
      destruct (Z.eqb_spec (- Z.of_nat m) n), (Nat.eqb_spec m (Z.to_nat (- n))); try lia; lra. }
    rewrite (sumR_ext _ _ _ HS).
    destruct ((a =? k2)%Z && (b =? k3)%Z); simpl; [auto|]. rewrite sumR_0; auto. lra.
  - destruct ((a =? k2)%Z && (b =? k3)%Z); auto.
    rewrite sumR_plus, !sumR_seq_pick. unfold sgnPick, mxn in *.
    destruct (Z.ltb_spec n 0).
    + replace (Z.to_nat n) with 0%nat by lia. change (1 <=? 0)%nat with false. cbn [andb].
      destruct (Z.eqb_spec 0 n); [lia|].
      destruct (Nat.leb_spec 1 (Z.to_nat (- n))); [|lia].
      destruct (Nat.ltb_spec (Z.to_nat (- n)) (1 + mmaxn P)); [|lia]. cbn [andb]. lra.
    + replace (Z.to_nat (- n)) with 0%nat by lia.
      destruct (Z.eqb_spec 0 n).
      * subst n. change (1 <=? 0)%nat with false. change (1 <=? Z.to_nat 0)%nat with false. cbn [andb].
        change (Z.to_nat 0) with 0%nat. lra.
      * destruct (Nat.leb_spec 1 (Z.to_nat n)); [|lia].
        destruct (Nat.ltb_spec (Z.to_nat n) (1 + mmaxn P)); [|lia].
        change (1 <=? 0)%nat with false. cbn [andb]. lra.
Qed.

(** Loops over k2 <= k3. *)
Definition inReg (lo hi k2 k3 : Z) : bool := (lo <=? Z.min k2 k3)%Z && (Z.min k2 k3 <? hi)%Z.
Definition triVal (D : Z -> R) (A B : Z -> Z -> R) (k2 k3 : Z) : R :=
  if (k2 =? k3)%Z then D k2 else if (k2 <? k3)%Z then A k2 k3 else B k3 k2.
Lemma tri_pick D A B lo hi k2 k3 : (k2 < nb)%Z -> (k3 < nb)%Z ->
  sumR (fun a => (if (a =? k2)%Z && (a =? k3)%Z then D a else 0) +
     sumR (fun b => (if (a =? k2)%Z && (b =? k3)%Z then A a b else 0) +
                    (if (b =? k2)%Z && (a =? k3)%Z then B a b else 0)) (zrange (a + 1) nb)) (zrange lo hi)
  = if inReg lo hi k2 k3 then triVal D A B k2 k3 else 0.
Proof.
  intros H2 H3.
  transitivity (sumR (fun a => (if (a =? Z.min k2 k3)%Z then triVal D A B k2 k3 else 0)) (zrange lo hi)).
  2:{ apply (sumR_zrange_pick (fun _ => triVal D A B k2 k3)). }
  apply sumR_ext. intros a _. rewrite sumR_plus.
  assert (S1 : sumR (fun b => if (a =? k2)%Z && (b =? k3)%Z then A a b else 0) (zrange (a + 1) nb) =
     if (a =? k2)%Z && (a <? k3)%Z then A a k3 else 0).
  { destruct (a =? k2)%Z; simpl; [|apply sumR_0; auto].
    rewrite sumR_zrange_pick. destruct (Z.leb_spec (a + 1) k3), (Z.ltb_spec a k3), (Z.ltb_spec k3 nb); simpl; auto; lia. }
  assert (S2 : sumR (fun b => if (b =? k2)%Z && (a =? k3)%Z then B a b else 0) (zrange (a + 1) nb) =
     if (a =? k3)%Z && (a <? k2)%Z then B a k2 else 0).
  { destruct (a =? k3)%Z; simpl.
    - transitivity (sumR (fun b => if (b =? k2)%Z then B a b else 0) (zrange (a + 1) nb)).
      { apply sumR_ext. intros b _. rewrite andb_true_r. auto. }
      rewrite sumR_zrange_pick. destruct (Z.leb_spec (a + 1) k2), (Z.ltb_spec a k2), (Z.ltb_spec k2 nb); simpl; auto; lia.
    - apply sumR_0. intros b _. rewrite andb_false_r. auto. }
  rewrite S1, S2. unfold triVal.
  destruct (Z.eqb_spec k2 k3) as [<-|Hne].
  - clear S1 S2. rewrite Z.min_id. destruct (Z.eqb_spec a k2) as [Ea|Ea]; simpl; [|lra].
    rewrite Ea, Z.ltb_irrefl. lra.
  - clear S1 S2. destruct (Z.ltb_spec k2 k3); [rewrite Z.min_l by lia|rewrite Z.min_r by lia];
    destruct (Z.eqb_spec a k2) as [Ea|Ea], (Z.eqb_spec a k3) as [Eb|Eb], (Z.ltb_spec a k3), (Z.ltb_spec a k2);
      simpl; try lia; subst; try lra; auto.
Qed.

(** baseAuto *)
Lemma baseAuto_get z a b c k2 k3 n :
  (0 <= zk z)%Z -> (zmink z <= nb)%Z -> (0 <= k2 < nb)%Z -> (0 <= k3 < nb)%Z ->
  (- mxn P <= n <= mxn P)%Z ->
  getB (baseAuto P z a b c) (ix k2 k3 n) =
  if inReg (zk z) (zmink z) k2 k3 && (n =? 0)%Z then triVal a b c k2 k3 else 0.
Proof.
  intros Hz Hm H2 H3 Hn. unfold baseAuto. fold nb N. rewrite getB_flat.
  assert (Hx : (0 <= mxn P)%Z) by (unfold mxn; lia).
  assert (HI : forall x y, ((x * nb + y) * N + mxn P)%Z = ix x y 0) by (intros; unfold ix; lia).
  transitivity (sumR (fun x => (if (x =? k2)%Z && (x =? k3)%Z then (if (n =? 0)%Z then a x else 0) else 0) +
     sumR (fun y => (if (x =? k2)%Z && (y =? k3)%Z then (if (n =? 0)%Z then b x y else 0) else 0) +
                    (if (y =? k2)%Z && (x =? k3)%Z then (if (n =? 0)%Z then c x y else 0) else 0)) (zrange (x + 1) nb))
     (zrange (zk z) (zmink z))).
  - apply sumR_ext. intros x Hxr. apply in_zrange in Hxr. rewrite getB_cons, getB_flat, HI.
    rewrite ix_eqb by (auto; lia). f_equal.
    + rewrite (Z.eqb_sym 0 n). destruct (x =? k2)%Z, (x =? k3)%Z, (n =? 0)%Z; auto.
    + apply sumR_ext. intros y Hy. apply in_zrange in Hy. rewrite !getB_cons, getB_nil, !HI.
      rewrite !ix_eqb by (auto; lia). rewrite (Z.eqb_sym 0 n).
      destruct (x =? k2)%Z, (y =? k3)%Z, (y =? k2)%Z, (x =? k3)%Z, (n =? 0)%Z; simpl; lra.
  - rewrite (tri_pick (fun x => if (n =? 0)%Z then a x else 0) (fun x y => if (n =? 0)%Z then b x y else 0)
       (fun x y => if (n =? 0)%Z then c x y else 0)) by lia.
    unfold triVal. destruct (inReg _ _ _ _), (n =? 0)%Z; simpl; auto.
    destruct (k2 =? k3)%Z; auto. destruct (k2 <? k3)%Z; auto.
Qed.

(** The forloop version of zetaAuto as sums over ranges. *)
Lemma zetaAuto_get z a1 X xx im k2 k3 n :
  (0 <= zk z)%Z -> (zmink z <= nb)%Z -> (0 <= k2 < nb)%Z -> (0 <= k3 < nb)%Z ->
  (- mxn P <= n <= mxn P)%Z ->
  getB (zetaAuto P z a1 X xx im) (ix k2 k3 n) =
  if inReg (zk z) (zmink z) k2 k3 then
    let sg := if im then -1 else 1 in
    triVal (fun a => if im then 0 else let v m := a1 * (cnorm (X a m) - xx a) in sgnPick v v n)
      (fun a b => let v m := part im (www a1 (X a m) (X b m)) in sgnPick v (fun m => sg * v m) n)
      (fun a b => let v m := part im (www a1 (X a m) (X b m)) in sgnPick (fun m => sg * v m) v n) k2 k3
  else 0.
Proof.
  intros Hz Hm H2 H3 Hn. unfold zetaAuto. fold nb N.
  assert (Hx : (0 <= mxn P)%Z) by (unfold mxn; lia).
  set (sg := if im then -1 else 1).
  (* outer loop *)
  match goal with |- context [forloop ?m ?nx ?bd (zk z, ?i0)] =>
    set (next := nx); set (body := bd); set (m0 := m) end.
  replace (zk z, (mxn P + zk z * (nb * N + N))%Z) with ((fun k => (k, ix k k 0)) (zk z)).
  2:{ unfold ix. f_equal. lia. }
  rewrite (forloop_range next body (fun k => (k, ix k k 0))).
  2:{ intros k _. unfold next, ix; simpl. f_equal. lia. }
  assert (HR : zrange (zk z) (zk z + Z.of_nat m0) = zrange (zk z) (zmink z)).
  { unfold zrange, m0. f_equal. f_equal. lia. }
  rewrite HR. clear HR. rewrite getB_flat. cbv zeta.
  rewrite <- tri_pick by lia.
  apply sumR_ext. intros a Ha. apply in_zrange in Ha. unfold body. rewrite getB_app. f_equal.
  - (* diagonal *)
    destruct im; [rewrite getB_nil; destruct (_ && _); auto|].
    apply (npart a a (fun m => a1 * (cnorm (X a m) - xx a)) (fun m => a1 * (cnorm (X a m) - xx a)) k2 k3 n); auto; lia.
  - (* inner loop *)
    clear next body m0.
    match goal with |- getB (forloop ?m ?nx ?bd _) _ = _ => set (next := nx); set (body := bd); set (m0 := m) end.
    replace ((a + 1)%Z, (ix a a 0 + N)%Z, (ix a a 0 + nb * N)%Z)
      with ((fun k => (k, ix a k 0, ix k a 0)) (a + 1)%Z).
    2:{ unfold ix. f_equal; [f_equal|]; lia. }
    rewrite (forloop_range next body (fun k => (k, ix a k 0, ix k a 0))).
    2:{ intros k _. unfold next, ix; simpl. f_equal; [f_equal|]; lia. }
    assert (HR : zrange (a + 1) (a + 1 + Z.of_nat m0) = zrange (a + 1) nb).
    { unfold zrange, m0. f_equal. f_equal. lia. }
    rewrite HR. clear HR. rewrite getB_flat. apply sumR_ext. intros b Hb. apply in_zrange in Hb.
    unfold body. set (v := fun m => part im (www a1 (X a m) (X b m))).
    assert (HA := npart a b v (fun m => sg * v m) k2 k3 n ltac:(lia) ltac:(lia) H2 H3 Hn).
    assert (HC := npart b a (fun m => sg * v m) v k2 k3 n ltac:(lia) ltac:(lia) H2 H3 Hn).
    cbv beta in HC.
    match type of HA with ?x = _ => match type of HC with ?y = _ => transitivity (x + y) end end.
    2:{ rewrite HA, HC. reflexivity. }
    clear HA HC. rewrite !getB_cons, !getB_flat.
    assert (HQ : forall m, In m (seq 1 (mmaxn P)) -> getB [((ix a b 0 + Z.of_nat m)%Z, v m);
       ((ix b a 0 + Z.of_nat m)%Z, sg * v m); ((ix a b 0 - Z.of_nat m)%Z, sg * v m);
       ((ix b a 0 - Z.of_nat m)%Z, v m)] (ix k2 k3 n) =
       getB [((ix a b 0 + Z.of_nat m)%Z, v m); ((ix a b 0 - Z.of_nat m)%Z, sg * v m)] (ix k2 k3 n) +
       getB [((ix b a 0 + Z.of_nat m)%Z, sg * v m); ((ix b a 0 - Z.of_nat m)%Z, v m)] (ix k2 k3 n)).
    { intros m _. rewrite !getB_cons, !getB_nil. lra. }
    apply sumR_ext in HQ. rewrite sumR_plus in HQ. unfold v in *.
    match type of HQ with ?x = _ => match goal with |- _ + (_ + ?y) = _ => change y with x end end.
    rewrite HQ. lra.
Qed.

(** loop2 *)
Lemma loop2_get y body k2 k3 n (val : Z -> Z -> R) :
  (0 <= yk y)%Z -> (ymink y <= nb)%Z -> (0 <= k2 < nb)%Z -> (0 <= k3 < nb)%Z ->
  (forall a b, (0 <= a < nb)%Z -> (0 <= b < nb)%Z ->
     getB (body a b (ix a b 0)) (ix k2 k3 n) = if (a =? k2)%Z && (b =? k3)%Z then val a b else 0) ->
  getB (loop2 P y body) (ix k2 k3 n) = if inReg (yk y) (ymink y) k2 k3 then val k2 k3 else 0.
Proof.
  intros Hy Hm H2 H3 Hbody. unfold loop2. fold nb N.
  match goal with |- context [forloop ?m ?nx ?bd (yk y, ?i0)] =>
    set (next := nx); set (bdy := bd); set (m0 := m) end.
  replace (yk y, (mxn P + yk y * N * nb)%Z) with ((fun k => (k, ix k 0 0)) (yk y)).
  2:{ unfold ix. f_equal. lia. }
  rewrite (forloop_range next bdy (fun k => (k, ix k 0 0))).
  2:{ intros k _. unfold next, ix; simpl. f_equal. lia. }
  assert (HR : zrange (yk y) (yk y + Z.of_nat m0) = zrange (yk y) nb).
  { unfold zrange, m0. f_equal. f_equal. lia. }
  rewrite HR. clear HR. rewrite getB_flat.
  transitivity (sumR (fun a => if (a =? k2)%Z then
     (if (yk y <=? k3)%Z && (k3 <? k3end P y a)%Z then val a k3 else 0) else 0) (zrange (yk y) nb)).
  - apply sumR_ext. intros a Ha. apply in_zrange in Ha. unfold bdy.
    match goal with |- getB (forloop ?m ?nx ?bd _) _ = _ => set (nxt := nx); set (bd2 := bd); set (m1 := m) end.
    replace (yk y, (ix a 0 0 + yk y * N)%Z) with ((fun k => (k, ix a k 0)) (yk y)).
    2:{ unfold ix. f_equal. lia. }
    rewrite (forloop_range nxt bd2 (fun k => (k, ix a k 0))).
    2:{ intros k _. unfold nxt, ix; simpl. f_equal. lia. }
    assert (HR : zrange (yk y) (yk y + Z.of_nat m1) = zrange (yk y) (k3end P y a)).
    { unfold zrange, m1. f_equal. f_equal. lia. }
    rewrite HR. clear HR. rewrite getB_flat. unfold bd2. cbn [fst snd].
    assert (Hle : (k3end P y a <= nb)%Z) by (unfold k3end; fold nb; destruct (_ <? _)%Z; lia).
    transitivity (sumR (fun b => if (b =? k3)%Z then (if (a =? k2)%Z then val a b else 0) else 0)
       (zrange (yk y) (k3end P y a))).
    + apply sumR_ext. intros b Hb. apply in_zrange in Hb. rewrite Hbody by lia.
      destruct (a =? k2)%Z, (b =? k3)%Z; auto.
    + rewrite sumR_zrange_pick. destruct (a =? k2)%Z; auto. destruct (_ && _); auto.
  - rewrite sumR_zrange_pick. unfold inReg, k3end. fold nb.
    destruct (Z.ltb_spec k2 nb); [|lia]. rewrite andb_true_r.
    destruct (Z.leb_spec (yk y) k2), (Z.leb_spec (yk y) (Z.min k2 k3)), (Z.leb_spec (yk y) k3); simpl; try lia; auto;
    destruct (Z.ltb_spec k2 (ymink y)), (Z.ltb_spec (Z.min k2 k3) (ymink y)); simpl; try lia; auto;
    match goal with |- (if ?b then _ else _) = _ => destruct b eqn:E end; auto;
    try (apply Z.ltb_lt in E; lia); try (apply Z.ltb_ge in E; lia).
Qed.
End I.
