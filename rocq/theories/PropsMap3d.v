(** C84: the variance and the symmetries of calculateMap3. *)
From Coq Require Import Reals Lra Lia List ZArith Bool.
From Verif Require Import Base Spin SpinFacts Cplx Corr3 SumFacts Map3 SpecMap3 Map3Facts PropsMap3 PropsMap3b PropsMap3c.
Import ListNotations.
Open Scope R_scope.

(** ** The rows of the variance *)
Definition rowN (m : m3) (n : nat) : Z -> cplx := match n with 0%nat => v0 m | 1%nat => v1 m | 2%nat => v2 m | _ => v3 m end.
Definition Tw (g : g3res) (Rap k2 k3 : R) (p : nat * nat * nat) (n : nat) (k : Z) : cplx :=
  let '(p1, p2, p3) := p in
  (Tn n (calcT (cR (sOf g Rap k)) (tOf g Rap k) (aper k2 k3 p1) (aper k2 k3 p2) (aper k2 k3 p3)) * cR (weightOf g Rap k))%C.
Definition psum (bt : bintype3) (f : nat * nat * nat -> cplx) : cplx := fold_right (fun p acc => (f p + acc)%C) c0 (perms bt).
Lemma psum_ext bt f h : (forall p, In p (perms bt) -> f p = h p) -> psum bt f = psum bt h.
Proof. unfold psum. induction (perms bt) as [|p l IH]; cbn; auto. intro H. rewrite H by auto. f_equal. apply IH. auto. Qed.
Lemma rows_spec g Rap k2 k3 n k : (n <= 3)%nat ->
  rowN (moments g Rap k2 k3) n k = psum (g3_bt g) (fun p => Tw g Rap k2 k3 p n k).
Proof.
  intro Hn. unfold moments, psum.
  destruct (g3_bt g); (destruct (Req_EM_T k2 1) as [->|N2]; [destruct (Req_EM_T k3 1) as [->|N3]|]);
    (destruct n as [|[|[|[|n]]]]; try lia); cbn -[calcT weightOf tArr];
    unfold csc, addRow; unfold Tw, aper; cbn [T0 T1 T2 T3 tArr Tn]; fold (weightOf g Rap k); ring.
Qed.
Lemma mom_psum g Rap k2 k3 j : momentSpec g Rap k2 k3 j =
  psum (g3_bt g) (fun p => csumB (fun k => Tw g Rap k2 k3 p (vertexOf p j) k * gamN g (vertexOf p j) k)%C (g3_bins g)).
Proof. unfold momentSpec, psum. induction (perms (g3_bt g)) as [|[[p1 p2] p3] l IH]; cbn [fold_right]; auto. rewrite IH. reflexivity. Qed.

(** ** The variance is that of map3 and of mx3 *)
(** [g] with other arrays gam0..gam3 *)
Definition withGam (g : g3res) (G : nat -> Z -> cplx) : g3res :=
  mkG3 (g3_bt g) (g3_bins g) (g3_bs g) (g3_ubs g) (g3_vbs g) (g3_phiunits g) (g3_d1 g) (g3_d2 g) (g3_d3 g) (g3_u g) (g3_v g)
    (G 0%nat) (G 1%nat) (G 2%nat) (G 3%nat) (g3_var0 g) (g3_var1 g) (g3_var2 g) (g3_var3 g).
Definition impulse (n0 : nat) (k0 : Z) (z : cplx) : nat -> Z -> cplx :=
  fun n k => if Nat.eqb n n0 then if Z.eqb k k0 then z else c0 else c0.
Definition varN (g : g3res) (n : nat) : Z -> R :=
  match n with 0%nat => g3_var0 g | 1%nat => g3_var1 g | 2%nat => g3_var2 g | _ => g3_var3 g end.
(** Propagation of independent errors of the real and the imaginary parts of every gam, each of variance
    vargam: the squares of the responses of the output times vargam. *)
Definition propagated (f : map3res -> R) (g : g3res) (Rap k2 k3 : R) : R :=
  let resp n k z := f (calculateMap3 (withGam g (impulse n k z)) Rap k2 k3) in
  sumR (fun k => sumR (fun n => (resp n k c1 * resp n k c1 + resp n k ci * resp n k ci) * varN g n k) [0; 1; 2; 3]%nat) (g3_bins g).
Lemma csumB_pick f k0 l : NoDup l -> In k0 l -> (forall k, k <> k0 -> f k = c0) -> csumB f l = f k0.
Proof.
  intros ND IN H. induction l as [|k l IH]; [destruct IN|]. cbn. inversion ND; subst. destruct IN as [->|IN].
  - assert (E : csumB f l = c0).
    { clear IH ND. induction l as [|k' l IH']; cbn; auto. rewrite H by (intros ->; apply H2; left; auto).
      change (fold_right (fun k acc => (f k + acc)%C) c0 l) with (csumB f l). rewrite IH'; [ring|intro X; apply H2; right; auto|inversion H3; auto]. }
    change (fold_right (fun k acc => (f k + acc)%C) c0 l) with (csumB f l). rewrite E. ring.
  - rewrite H by (intros ->; contradiction).
    change (fold_right (fun k acc => (f k + acc)%C) c0 l) with (csumB f l). rewrite IH by auto. ring.
Qed.
Lemma csumB_0 f l : (forall k, f k = c0) -> csumB f l = c0.
Proof. intro H. induction l as [|k l IH]; cbn; auto. rewrite H. change (fold_right (fun k acc => (f k + acc)%C) c0 l) with (csumB f l). rewrite IH. ring. Qed.
Lemma impulse_moment g Rap k2 k3 n0 k0 z j : NoDup (g3_bins g) -> In k0 (g3_bins g) ->
  (j <= 3)%nat -> (n0 <= 3)%nat ->
  momN (moments (withGam g (impulse n0 k0 z)) Rap k2 k3) j =
  psum (g3_bt g) (fun p => if Nat.eqb (vertexOf p j) n0 then (Tw g Rap k2 k3 p n0 k0 * z)%C else c0).
Proof.
  intros ND IN Hj Hn. rewrite C84_perms, mom_psum by auto. cbn [g3_bt g3_bins withGam]. apply psum_ext. intros p Hp.
  assert (V : (vertexOf p j <= 3)%nat).
  { destruct p as [[p1 p2] p3]. unfold vertexOf. destruct (Nat.eqb p1 j), (Nat.eqb p2 j), (Nat.eqb p3 j); lia. }
  assert (G : forall n k, (n <= 3)%nat -> gamN (withGam g (impulse n0 k0 z)) n k = impulse n0 k0 z n k).
  { intros n k H. destruct n as [|[|[|[|n]]]]; try lia; reflexivity. }
  destruct (Nat.eqb_spec (vertexOf p j) n0) as [E|N].
  - rewrite (csumB_pick _ k0); auto.
    + rewrite G by auto. unfold impulse. rewrite E, Nat.eqb_refl, Z.eqb_refl. reflexivity.
    + intros k Hk. rewrite G by auto. unfold impulse. rewrite (proj2 (Z.eqb_neq k k0)) by auto.
      destruct Nat.eqb; ring.
  - apply csumB_0. intro k. rewrite G by auto. unfold impulse. rewrite (proj2 (Nat.eqb_neq _ _)) by auto. ring.
Qed.
(** sum over the four moments: every assignment of the apertures once *)
Lemma four_moments g Rap k2 k3 n0 k0 z : NoDup (g3_bins g) -> In k0 (g3_bins g) -> (n0 <= 3)%nat ->
  let m := moments (withGam g (impulse n0 k0 z)) Rap k2 k3 in
  (mcmm m + mmcm m + mmmc m + mmm m = rowN (moments g Rap k2 k3) n0 k0 * z)%C /\
  (mmm m = if Nat.eqb n0 0 then rowN (moments g Rap k2 k3) n0 k0 * z else c0)%C.
Proof.
  intros ND IN Hn m. assert (M := impulse_moment g Rap k2 k3 n0 k0 z). rewrite rows_spec by auto.
  change (mcmm m) with (momN m 1). change (mmcm m) with (momN m 2). change (mmmc m) with (momN m 3). change (mmm m) with (momN m 0).
  unfold m. rewrite !M by (auto; lia). unfold psum.
  destruct (g3_bt g); (destruct n0 as [|[|[|[|n]]]]; try lia); cbn -[Tw]; split; ring.
Qed.
Theorem C84_variance f g Rap k2 k3 : f = map3 \/ f = mx3 -> NoDup (g3_bins g) ->
  propagated f g Rap k2 k3 = varmap3 (calculateMap3 g Rap k2 k3).
Proof.
  intros Hf ND.
  assert (L : forall n k, (n <= 3)%nat -> In k (g3_bins g) ->
    (let resp z := f (calculateMap3 (withGam g (impulse n k z)) Rap k2 k3) in resp c1 * resp c1 + resp ci * resp ci) =
    cnorm (rowN (moments g Rap k2 k3) n k / IZC 4)%C).
  { intros n k Hn Hk. cbv zeta.
    destruct (four_moments g Rap k2 k3 n k c1 ND Hk Hn) as [S1 Z1]. destruct (four_moments g Rap k2 k3 n k ci ND Hk Hn) as [S2 Z2].
    set (w := rowN (moments g Rap k2 k3) n k) in *.
    replace (w / IZC 4)%C with (cR (1/4) * w)%C by (rewrite cR_div; change (cR 1) with (IZC 1); change (cR 4) with (IZC 4); field).
    destruct Hf as [-> | ->]; unfold calculateMap3, eight; cbn [map3 mx3].
    - rewrite S1, S2. unfold cnorm. cbn [cmul cR c1 ci IZC fst snd]. field.
    - assert (D : forall m, (mcmm m + mmcm m + mmmc m - mmm m = (mcmm m + mmcm m + mmmc m + mmm m) - IZC 2 * mmm m)%C) by (intro; ring).
      rewrite !D, S1, S2, Z1, Z2. destruct (Nat.eqb n 0); unfold cnorm; cbn; field. }
  unfold propagated. cbv zeta in L. cbv zeta.
  transitivity (sumR (fun k => sumR (fun n => cnorm (rowN (moments g Rap k2 k3) n k / IZC 4)%C * varN g n k) [0; 1; 2; 3]%nat) (g3_bins g)).
  { apply sumR_ext. intros k Hk. apply sumR_ext. intros n Hn. rewrite L; auto. cbn in Hn. lia. }
  unfold calculateMap3, eight. cbn [varmap3]. unfold varDot.
  rewrite <- !sumR_plus. apply sumR_ext. intros k Hk. cbn [sumR map fold_right varN rowN]. unfold sumR. cbn [map fold_right]. ring.
Qed.
