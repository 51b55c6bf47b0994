(** Property C95: shot-noise variances of the three-point scalar correlation. *)
From Coq Require Import Reals Lra Lia List ZArith Bool Psatz.
From Verif Require Import Base Geometry Binning Tree Traverse Run SumFacts Spec SpecRun Runs Catalog GeomFacts TreeFacts TravFacts
  MetricFacts Cover Corr3 TriCover TriStop SpecTri TriFacts TriSpec PropsTri TriMirror PropsTri2 Examples PropsTri3
  PropsArc SasGeom SasStop SpecSas SasFacts SasSpec PropsSas PropsSas2 Shot PropsShot.
Import ListNotations.
Open Scope R_scope.

Fixpoint cub {A} (g : A -> A -> A -> R) (s : list R) (l : list A) : R :=
  match s, l with c :: s', a :: t => c * quad (g a) s' t + cub g s' t | _, _ => 0 end.
Lemma mean_cub (g : obj -> obj -> obj -> R) l :
  mean (fun s => cub g s l * cub g s l) (signs (length l)) = sumTriplesU (fun a b c => g a b c * g a b c) l.
Proof.
  induction l as [|x l IH]; [unfold mean; cbn; lra|]. cbn [length]. rewrite mean_S. cbn [cub sumTriplesU].
  rewrite (mean_ext _ (fun s => quad (g x) s l * quad (g x) s l + cub g s l * cub g s l)) by (intros; lra).
  rewrite mean_plus, IH, mean_quad. reflexivity.
Qed.
Lemma upairs_flip1 (v : obj -> obj -> R) s cat : length s = length cat ->
  (forall a b o1 o2, v (setk (a * okappa o1) o1) (setk (b * okappa o2) o2) = a * (b * v o1 o2)) ->
  sumR (fun q => v (fst q) (snd q)) (upairs (flip s cat)) = quad v s cat.
Proof.
  intros L HV. pose proof (upairs_flip (fun _ _ => true) v s cat L ltac:(reflexivity) HV) as E. unfold sumUPairs in E.
  cbv iota in E. rewrite E. reflexivity.
Qed.
Lemma quad_scal {A} c (g : A -> A -> R) s l : quad (fun x y => c * g x y) s l = c * quad g s l.
Proof. revert s. induction l as [|x l IH]; intros [|a s]; cbn [quad]; try lra. rewrite IH, dotS_scal. lra. Qed.
Lemma triples_flip (g : obj -> obj -> obj -> R) s cat : length s = length cat ->
  (forall a b c x y z, g (setk (a * okappa x) x) (setk (b * okappa y) y) (setk (c * okappa z) z) = a * (b * (c * g x y z))) ->
  sumTriplesU g (flip s cat) = cub g s cat.
Proof.
  intros L HG. revert cat L. induction s as [|a s IH]; intros [|o cat] L; try discriminate; [reflexivity|].
  cbn [flip sumTriplesU cub]. rewrite IH by (cbn in L; lia). f_equal.
  assert (LL : length s = length cat) by (cbn in L; lia).
  rewrite <- (quad_scal a (g o)).
  assert (I1 : forall x : obj, x = setk (1 * okappa x) x) by (intros []; cbn; unfold setk; cbn; f_equal; lra).
  assert (E : forall y z, g (setk (a * okappa o) o) y z = a * g o y z).
  { intros y z. rewrite (I1 y), (I1 z) at 1. rewrite HG. lra. }
  rewrite (sumR_ext _ (fun q => (fun y z => a * g o y z) (fst q) (snd q))) by (intros q _; apply E).
  apply (upairs_flip1 (fun y z => a * g o y z)); auto. intros b c y z.
  pose proof (HG 1 b c o y z) as G1. rewrite <- (I1 o) in G1. rewrite G1. ring.
Qed.
Lemma triples_same (g : obj -> obj -> obj -> R) s cat :
  (forall a b c x y z, g (setk a x) (setk b y) (setk c z) = g x y z) -> sumTriplesU g (flip s cat) = sumTriplesU g cat.
Proof.
  intro H.
  assert (J : forall x : obj, x = setk (okappa x) x) by (intros []; reflexivity).
  assert (P : forall (v : obj -> obj -> R) s cat, (forall a b y z, v (setk a y) (setk b z) = v y z) ->
    sumR (fun q => v (fst q) (snd q)) (upairs (flip s cat)) = sumR (fun q => v (fst q) (snd q)) (upairs cat)).
  { intros v s'. induction s' as [|a s' IH]; intros [|o c] HV; cbn [flip upairs]; auto.
    rewrite !sumR_app, !sumR_map, IH by auto. cbn [fst snd]. f_equal.
    rewrite (sumR_ext _ (fun y => v o y)).
    - apply flip_same. intros k y. rewrite (J o), HV, <- (J o). reflexivity.
    - intros y _. rewrite (J y), HV, <- (J y). reflexivity. }
  revert cat. induction s as [|a s IH]; intros [|o cat]; cbn [flip sumTriplesU]; auto. rewrite IH. f_equal.
  rewrite (P (g (setk (a * okappa o) o)) s cat).
  - apply sumR_ext. intros [y z] _. cbn [fst snd]. rewrite (J y), (J z), H, <- (J y), <- (J z). reflexivity.
  - intros b c y z. rewrite (J y), (J z) at 2. rewrite !H. reflexivity.
Qed.
Lemma flip_len s cat : length (flip s cat) = length cat.
Proof. revert cat. induction s as [|a s IH]; intros [|o cat]; cbn; auto. Qed.

(** ** Any three-point binning: a triangle is counted m times in the bin *)
Section noise.
Variable X : tfield -> obj -> obj -> obj -> R.
Notation m := (X TNtri).
Definition kap (o : obj) : R := ow o * okappa o.
Hypothesis Xz : forall a b c, X TZeta a b c = m a b c * (kap a * kap b * kap c).
Hypothesis Xw : forall a b c, X TWeight a b c = m a b c * (ow a * ow b * ow c).
Hypothesis Xm : forall f a b c x y z, f <> TZeta -> X f (setk a x) (setk b y) (setk c z) = X f x y z.
Lemma noise3 sas cat (out : list R -> accum3) k w q :
  0 < w -> uniform w q cat ->
  (forall s, In s (signs (length cat)) -> out s TWeight k = sumTriplesU (X TWeight) (flip s cat) /\ out s TZeta k = sumTriplesU (X TZeta) (flip s cat)) ->
  let n := sumTriplesU m cat in n <> 0 ->
  let v := w * q in
  mean (fun s => Rsqr (fst (resKKK sas v v v (out s) k))) (signs (length cat)) =
    q * q * q * sumTriplesU (fun a b c => m a b c * m a b c) cat / (n * n) /\
  forall s, In s (signs (length cat)) -> snd (resKKK sas v v v (out s) k) = (if sas then 2 else 1) * (q * q * q) / n.
Proof.
  intros HW U HO n HN v.
  assert (TE : forall (g h : obj -> obj -> obj -> R), (forall a b c, In a cat -> In b cat -> In c cat -> g a b c = h a b c) -> sumTriplesU g cat = sumTriplesU h cat).
  { clear -Xz. induction cat as [|o l IH]; intros g h H; [reflexivity|]. cbn [sumTriplesU]. f_equal.
    - apply sumR_ext. intros [y z] Hq. destruct (in_upairs _ _ _ Hq). cbn [fst snd]. apply H; [left; auto|right; auto|right; auto].
    - apply IH. intros. apply H; right; auto. }
  assert (TS : forall c (g : obj -> obj -> obj -> R), sumTriplesU (fun x y z => c * g x y z) cat = c * sumTriplesU g cat).
  { clear. intros c g. induction cat as [|o l IH]; cbn [sumTriplesU]; [lra|]. rewrite IH, sumR_scal. lra. }
  assert (EW : sumTriplesU (X TWeight) cat = w * w * w * n).
  { unfold n. rewrite <- TS. apply TE. intros a b c Ia Ib Ic. rewrite Xw, (proj1 (U _ Ia)), (proj1 (U _ Ib)), (proj1 (U _ Ic)). ring. }
  assert (A : forall s, In s (signs (length cat)) -> out s TWeight k = w * w * w * n /\ out s TZeta k = cub (X TZeta) s cat).
  { intros s Hs. destruct (HO s Hs) as [-> ->]. split.
    - rewrite triples_same; [exact EW|]. intros. apply Xm. discriminate.
    - apply triples_flip; [apply signs_len; auto|]. intros. rewrite !Xz. rewrite Xm by discriminate. unfold kap. cbn. ring. }
  assert (W3 : 0 < w * w * w) by (apply Rmult_lt_0_compat; [apply Rmult_lt_0_compat|]; auto).
  assert (WW : w * w * w * n <> 0) by (apply Rmult_integral_contrapositive; split; [lra|exact HN]).
  split.
  - rewrite (mean_ext _ (fun s => / (w * w * w * n * (w * w * w * n)) * (cub (X TZeta) s cat * cub (X TZeta) s cat))).
    + rewrite mean_scal, mean_cub.
      rewrite (TE _ (fun a b c => w * w * w * (w * w * w) * (q * q * q) * (m a b c * m a b c))).
      * rewrite TS. field. split; auto; lra.
      * intros a b c Ia Ib Ic. rewrite Xz. unfold kap. destruct (U _ Ia) as [-> Q1], (U _ Ib) as [-> Q2], (U _ Ic) as [-> Q3].
        transitivity (w * w * w * (w * w * w) * ((okappa a * okappa a) * (okappa b * okappa b) * (okappa c * okappa c)) * (m a b c * m a b c)); [ring|].
        rewrite Q1, Q2, Q3. reflexivity.
    + intros s Hs. destruct (A s Hs) as [E1 E2]. unfold resKKK. cbn [fst]. rewrite E1, E2. unfold divW. destruct (Req_EM_T _ 0); [contradiction|].
      unfold Rsqr. field. split; auto; lra.
  - intros s Hs. destruct (A s Hs) as [E1 _]. unfold resKKK. cbn [snd]. rewrite E1. unfold varxiOf, covShot, numKKK, v.
    destruct (Req_EM_T (if sas then _ else _) 0) as [E|E].
    + assert (Q : q * q * q = 0).
      { assert (w * w * w * (q * q * q) = 0) by (destruct sas; lra). apply Rmult_integral in H. destruct H as [H|H]; auto.
        exfalso. assert (0 < w * w * w) by (apply Rmult_lt_0_compat; [apply Rmult_lt_0_compat|]; auto). lra. }
      rewrite Q. unfold Rdiv. ring.
    + destruct (Req_EM_T (w * w * w * n) 0); [contradiction|]. destruct sas; field; split; auto; lra.
Qed.
End noise.

(** ** LogRUV: varzeta is exact *)
Lemma tri_m P f k a b c : tri P f k a b c = tri P TNtri k a b c * triVal P f a b c.
Proof. unfold tri. destruct selTri; cbn [triVal]; ring. Qed.
Lemma tri6_m P k a b c : tri6 P TZeta k a b c = tri6 P TNtri k a b c * (kap a * kap b * kap c) /\
  tri6 P TWeight k a b c = tri6 P TNtri k a b c * (ow a * ow b * ow c).
Proof.
  unfold tri6, tri1. split.
  - rewrite (tri_m P TZeta k a b c), (tri_m P TZeta k a c b), (tri_m P TZeta k b a c), (tri_m P TZeta k b c a), (tri_m P TZeta k c a b), (tri_m P TZeta k c b a).
    cbn [triVal]. unfold kap. ring.
  - rewrite (tri_m P TWeight k a b c), (tri_m P TWeight k a c b), (tri_m P TWeight k b a c), (tri_m P TWeight k b c a), (tri_m P TWeight k c a b), (tri_m P TWeight k c b a).
    cbn [triVal]. ring.
Qed.
Lemma sel_sides P k a b c : validRUV P -> selTri P k a b c = true -> 0 < side3 a b c < side2 a b c /\ side2 a b c <= side1 a b c.
Proof.
  intros V H. unfold selTri in H. apply andb_true_iff in H. destruct H as [H _]. apply shape_parts in H; auto.
  destruct H as [H1 [H2 [H3 [H4 _]]]]. split; [|lra]. split; auto. destruct (Req_dec (side3 a b c) (side2 a b c)) as [E|E]; [|lra].
  rewrite E in H4. replace (side2 a b c / side2 a b c) with 1 in H4 by (field; lra). lra.
Qed.
Lemma tri6_once P k l a b c : validRUV P -> noTies l -> In a l -> In b l -> In c l ->
  tri6 P TNtri k a b c * tri6 P TNtri k a b c = tri6 P TNtri k a b c.
Proof.
  intros V NT Ia Ib Ic. unfold tri6, tri1, tri. cbn [triVal].
  assert (S : forall x y z, In x l -> In y l -> In z l -> selTri P k x y z = true ->
    euclid (opos x) (opos y) < euclid (opos x) (opos z) < euclid (opos y) (opos z)).
  { intros x y z Ix Iy Iz H. destruct (sel_sides P k x y z V H) as [A B]. specialize (NT x y z Ix Iy Iz). unfold side1, side2, side3 in *.
    split; [lra|]. destruct B; [auto|]. exfalso. apply NT. split; auto. }
  pose proof (S a b c Ia Ib Ic) as S1. pose proof (S a c b Ia Ic Ib) as S2. pose proof (S b a c Ib Ia Ic) as S3.
  pose proof (S b c a Ib Ic Ia) as S4. pose proof (S c a b Ic Ia Ib) as S5. pose proof (S c b a Ic Ib Ia) as S6.
  rewrite (euclid_sym (opos b) (opos a)), (euclid_sym (opos c) (opos a)), (euclid_sym (opos c) (opos b)) in *.
  destruct (selTri P k a b c), (selTri P k a c b), (selTri P k b a c), (selTri P k b c a), (selTri P k c a b), (selTri P k c b a);
    repeat match goal with H : true = true -> _ |- _ => specialize (H eq_refl) | H : false = true -> _ |- _ => clear H end; lra.
Qed.
Theorem C95_kkk_ruv Cf cat (out : list R -> accum3) k w q :
  validRUV (r3P Cf) -> noSlop3 (r3P Cf) -> tmetric (r3P Cf) = Euclidean -> tminv (r3P Cf) = 0 -> noTies cat ->
  0 < w -> uniform w q cat ->
  (forall s, In s (signs (length cat)) -> runAuto3 Cf (flip s cat) cleared3 (out s)) ->
  sumTriplesU (tri6 (r3P Cf) TNtri k) cat <> 0 ->
  let v := w * q in forall s0, In s0 (signs (length cat)) ->
  mean (fun s => Rsqr (fst (resKKK false v v v (out s) k))) (signs (length cat)) = snd (resKKK false v v v (out s0) k).
Proof.
  intros V NS HE MV NT HW U HR HN v s0 H0.
  destruct (noise3 (fun f => tri6 (r3P Cf) f k)) with (sas := false) (cat := cat) (out := out) (k := k) (w := w) (q := q) as [A B]; auto.
  - intros. apply tri6_m.
  - intros. apply tri6_m.
  - intros f a b c x y z Hf. destruct f; try congruence; reflexivity.
  - intros s Hs. assert (WT : forall f, f <> TNtri -> weights3 f (flip s cat)).
    { intros f Hf o Ho. destruct (flip_in _ _ _ Ho) as [o' [I [_ E]]]. rewrite E, (proj1 (U _ I)). destruct f; try lra. }
    assert (NT' : noTies (flip s cat)).
    { intros a b c Ia Ib Ic. destruct (flip_in _ _ _ Ia) as [a' [Ja [Ea _]]], (flip_in _ _ _ Ib) as [b' [Jb [Eb _]]], (flip_in _ _ _ Ic) as [c' [Jc [Ec _]]].
      specialize (NT a' b' c' Ja Jb Jc). unfold side1, side2, side3 in *. rewrite Ea, Eb, Ec. exact NT. }
    split; (rewrite (C65_auto_exact Cf _ k (flip s cat) cleared3 (out s)); auto; [unfold cleared3; lra|apply WT; discriminate]).
  - fold v in A, B. rewrite A, (B s0 H0).
    assert (TE : forall l, (forall o, In o l -> In o cat) -> sumTriplesU (fun a b c => tri6 (r3P Cf) TNtri k a b c * tri6 (r3P Cf) TNtri k a b c) l = sumTriplesU (tri6 (r3P Cf) TNtri k) l).
    { induction l as [|o l IH]; intro HI; [reflexivity|]. cbn [sumTriplesU]. rewrite IH by (intros; apply HI; right; auto). f_equal.
      apply sumR_ext. intros [y z] Hq. destruct (in_upairs _ _ _ Hq). cbn [fst snd]. apply (tri6_once _ _ cat); auto; apply HI; [left|right|right]; auto. }
    rewrite TE by auto. field. auto.
Qed.

(** The 3-4-5 triangle with values of size 2: the hypotheses hold, and both numbers are 64. *)
Example C95_kkk_ruv_example : let cat := map (setk 2) [exA; exB; exC] in
  validRUV (r3P (triR 0)) /\ noSlop3 (r3P (triR 0)) /\ noTies cat /\ uniform 1 4 cat /\
  sumTriplesU (tri6 (r3P (triR 0)) TNtri 1) cat = 1 /\
  exists out, (forall s, In s (signs (length cat)) -> runAuto3 (triR 0) (flip s cat) cleared3 (out s)) /\
    mean (fun s => Rsqr (fst (resKKK false 4 4 4 (out s) 1))) (signs (length cat)) = 64.
Proof.
  intro cat. destruct C65_example as [V [S [SK [NT [W [_ [s1 [H1 N1]]]]]]]].
  assert (IC : forall o, In o cat -> exists o', In o' [exA; exB; exC] /\ o = setk 2 o').
  { intros o Ho. apply in_map_iff in Ho. destruct Ho as [o' [<- I]]. eauto. }
  assert (NT' : noTies cat).
  { intros a b c Ia Ib Ic. destruct (IC _ Ia) as [a' [Ja ->]], (IC _ Ib) as [b' [Jb ->]], (IC _ Ic) as [c' [Jc ->]]. apply (NT a' b' c'); auto. }
  assert (U : uniform 1 4 cat).
  { intros o Ho. destruct (IC _ Ho) as [o' [[<-|[<-|[<-|[]]]] ->]]; cbn; lra. }
  rewrite (C65_auto_exact (triR 0) TNtri 1 _ _ _ V S eq_refl eq_refl (W TNtri) NT H1) in N1.
  assert (N : sumTriplesU (tri6 (r3P (triR 0)) TNtri 1) cat = 1).
  { transitivity (sumTriplesU (tri6 (r3P (triR 0)) TNtri 1) [exA; exB; exC]); [reflexivity|]. unfold cleared3 in N1. lra. }
  assert (EQ : forall x y : list R, {x = y} + {x <> y}) by (intros x y; repeat decide equality; apply Req_EM_T).
  destruct (choose EQ (fun s r => runAuto3 (triR 0) (flip s cat) cleared3 r) cleared3 (signs (length cat))) as [out HR].
  { intros s _. apply C65_exists; auto. apply flip_nonempty. discriminate. }
  split; [exact V|]. split; [exact S|]. split; [exact NT'|]. split; [exact U|]. split; [exact N|]. exists out. split; [exact HR|].
  assert (I1 : In [1; 1; 1] (signs (length cat))) by (cbn; left; reflexivity).
  pose proof (C95_kkk_ruv (triR 0) cat out 1%Z 1 4 V S eq_refl eq_refl NT' Rlt_0_1 U HR) as E. cbv zeta in E.
  rewrite (Rmult_1_l 4) in E. rewrite (E ltac:(rewrite N; lra) [1; 1; 1] I1).
  unfold resKKK. cbn [snd]. rewrite (C65_auto_exact (triR 0) TWeight 1 (flip [1; 1; 1] cat) cleared3 (out [1; 1; 1]) V S eq_refl eq_refl); [| | |apply HR, I1].
  - assert (NW : sumTriplesU (tri6 (r3P (triR 0)) TWeight 1) (flip [1; 1; 1] cat) = 1).
    { transitivity (sumTriplesU (tri6 (r3P (triR 0)) TWeight 1) [exA; exB; exC]); [reflexivity|].
      cbn [sumTriplesU upairs map app sumR fst snd] in *. rewrite (proj2 (tri6_m _ _ _ _ _)). unfold cleared3 in N1. cbn [exA exB exC triObj ow]. lra. }
    rewrite NW. unfold cleared3, varxiOf, covShot, numKKK. destruct (Req_EM_T (4 * 4 * 4) 0); [exfalso; lra|]. destruct (Req_EM_T (0 + 1) 0); [exfalso; lra|]. lra.
  - intros o Ho. destruct (flip_in _ _ _ Ho) as [o' [I [_ ->]]]. rewrite (proj1 (U _ I)). lra.
  - intros a b c Ia Ib Ic. destruct (flip_in _ _ _ Ia) as [a' [Ja [Ea _]]], (flip_in _ _ _ Ib) as [b' [Jb [Eb _]]], (flip_in _ _ _ Ic) as [c' [Jc [Ec _]]].
    specialize (NT' a' b' c' Ja Jb Jc). unfold side1, side2, side3 in *. rewrite Ea, Eb, Ec. exact NT'.
Qed.

(** ** LogSAS: varzeta is exact only if every triangle is counted twice in the bin *)
Lemma sas_m P f k a b c : sas P f k a b c = sas P TNtri k a b c * sasVal f a b c.
Proof. unfold sas. destruct selSAS; cbn [sasVal]; ring. Qed.
Lemma sas6_m P k a b c : sas6 P TZeta k a b c = sas6 P TNtri k a b c * (kap a * kap b * kap c) /\
  sas6 P TWeight k a b c = sas6 P TNtri k a b c * (ow a * ow b * ow c).
Proof.
  unfold sas6, sas1. split.
  - rewrite (sas_m P TZeta k a b c), (sas_m P TZeta k a c b), (sas_m P TZeta k b a c), (sas_m P TZeta k b c a), (sas_m P TZeta k c a b), (sas_m P TZeta k c b a).
    cbn [sasVal]. unfold kap. ring.
  - rewrite (sas_m P TWeight k a b c), (sas_m P TWeight k a c b), (sas_m P TWeight k b a c), (sas_m P TWeight k b c a), (sas_m P TWeight k c a b), (sas_m P TWeight k c b a).
    cbn [sasVal]. ring.
Qed.
Theorem C95_kkk_sas Cf cat (out : list R -> accum3) k w q :
  validSAS (r3P Cf) -> noSlopSAS (r3P Cf) -> tmetric (r3P Cf) = Euclidean ->
  tminu (r3P Cf) = 0 -> PI / 3 <= tmaxu (r3P Cf) -> oriented (tcoord (r3P Cf)) cat ->
  0 < w -> uniform w q cat ->
  (forall s, In s (signs (length cat)) -> runAuto3 Cf (flip s cat) cleared3 (out s)) ->
  let m := sas6 (r3P Cf) TNtri k in
  let n := sumTriplesU m cat in n <> 0 ->
  let v := w * q in forall s0, In s0 (signs (length cat)) ->
  mean (fun s => Rsqr (fst (resKKK true v v v (out s) k))) (signs (length cat)) =
  snd (resKKK true v v v (out s0) k) * (sumTriplesU (fun a b c => m a b c * m a b c) cat / (2 * n)).
Proof.
  intros V NS HE MU MX OR HW U HR m n HN v s0 H0.
  destruct (noise3 (fun f => sas6 (r3P Cf) f k)) with (sas := true) (cat := cat) (out := out) (k := k) (w := w) (q := q) as [A B]; auto.
  - intros. apply sas6_m.
  - intros. apply sas6_m.
  - intros f a b c x y z Hf. destruct f; try congruence; reflexivity.
  - intros s Hs. assert (WT : forall f, f <> TNtri -> weights3 f (flip s cat)).
    { intros f Hf o Ho. destruct (flip_in _ _ _ Ho) as [o' [I [_ E]]]. rewrite E, (proj1 (U _ I)). destruct f; try lra. }
    assert (OR' : oriented (tcoord (r3P Cf)) (flip s cat)).
    { intros a b c Ia Ib Ic. destruct (flip_in _ _ _ Ia) as [a' [Ja [Ea _]]], (flip_in _ _ _ Ib) as [b' [Jb [Eb _]]], (flip_in _ _ _ Ic) as [c' [Jc [Ec _]]].
      specialize (OR a' b' c' Ja Jb Jc). unfold side1, side2, side3, ccwSpec in *. rewrite Ea, Eb, Ec. exact OR. }
    split; (rewrite (C79_auto Cf _ k (flip s cat) cleared3 (out s)); auto; [unfold cleared3; lra|apply WT; discriminate]).
  - fold v in A, B. rewrite A, (B s0 H0). fold m. fold n. field. auto.
Qed.
(** One 3-4-5 triangle, values of size 1, in one wide bin: zeta^2 is 1 for all signs, and varzeta is 2/3. *)
Theorem C95_kkk_sas_refuted : exists Cf cat (out : list R -> accum3) k s, validSAS (r3P Cf) /\ noSlopSAS (r3P Cf) /\ tmetric (r3P Cf) = Euclidean /\
  oriented (tcoord (r3P Cf)) cat /\ uniform 1 1 cat /\ In s (signs (length cat)) /\
  (forall s, In s (signs (length cat)) -> runAuto3 Cf (flip s cat) cleared3 (out s)) /\
  mean (fun s => Rsqr (fst (resKKK true 1 1 1 (out s) k))) (signs (length cat)) = 1 /\
  snd (resKKK true 1 1 1 (out s) k) = 2 / 3.
Proof.
  destruct C79_example as [V [S [OR [W [M [[s1 [H1 N1]] _]]]]]]. set (Cf := sasR Flat 2 2 0 PI) in *. set (cat := map (setk 1) [exA; exB; exC]).
  assert (IC : forall o, In o cat -> exists o', In o' [exA; exB; exC] /\ o = setk 1 o').
  { intros o Ho. apply in_map_iff in Ho. destruct Ho as [o' [<- I]]. eauto. }
  assert (OR' : oriented (tcoord (r3P Cf)) cat).
  { intros a b c Ia Ib Ic. destruct (IC _ Ia) as [a' [Ja ->]], (IC _ Ib) as [b' [Jb ->]], (IC _ Ic) as [c' [Jc ->]]. apply (OR a' b' c'); auto. }
  assert (U : uniform 1 1 cat).
  { intros o Ho. destruct (IC _ Ho) as [o' [[<-|[<-|[<-|[]]]] ->]]; cbn; lra. }
  assert (EQ : forall x y : list R, {x = y} + {x <> y}) by (intros x y; repeat decide equality; apply Req_EM_T).
  destruct (choose EQ (fun s r => runAuto3 Cf (flip s cat) cleared3 r) cleared3 (signs (length cat))) as [out HR].
  { intros s _. destruct (C79_exists Cf O0 (flip s cat) [exA] [exA] cleared3) as [X _]; auto; try discriminate.
    - cbn. pose proof PI_RGT_0. lra.
    - apply flip_nonempty. discriminate.
    - intros o Ho. rewrite !in_app_iff in Ho. destruct Ho as [Ho|Ho].
      + destruct (flip_in _ _ _ Ho) as [o' [I [_ ->]]]. rewrite (proj1 (U _ I)). lra.
      + apply (W TWeight). simpl in *. tauto.
    - assert (FP : forall o, In o (flip s cat ++ [exA] ++ [exA]) -> exists o', In o' [exA; exB; exC] /\ opos o = opos o').
      { intros o Ho. rewrite !in_app_iff in Ho. destruct Ho as [Ho|Ho].
        - destruct (flip_in _ _ _ Ho) as [o' [I [E _]]]. destruct (IC _ I) as [o2 [I2 ->]]. exists o2. split; auto.
        - exists exA. destruct Ho as [[<-|[]]|[<-|[]]]; split; auto; left; auto. }
      intros a b c Ia Ib Ic. destruct (FP _ Ia) as [a' [Ja Ea]], (FP _ Ib) as [b' [Jb Eb]], (FP _ Ic) as [c' [Jc Ec]].
      specialize (OR a' b' c' Ja Jb Jc). unfold side1, side2, side3, ccwSpec in *. rewrite Ea, Eb, Ec. exact OR. }
  rewrite (C79_auto _ TNtri 0 _ _ _ V S eq_refl eq_refl M (W TNtri) OR H1) in N1.
  assert (N3 : sas6 (r3P Cf) TNtri 0 (setk 1 exA) (setk 1 exB) (setk 1 exC) = 3).
  { unfold cleared3 in N1. cbn [sumTriplesU upairs map app sumR fst snd] in N1. change (sas6 (r3P Cf) TNtri 0 (setk 1 exA) (setk 1 exB) (setk 1 exC)) with (sas6 (r3P Cf) TNtri 0 exA exB exC). lra. }
  assert (NS : sumTriplesU (sas6 (r3P Cf) TNtri 0) cat = 3).
  { unfold cat. cbn [map sumTriplesU upairs app sumR fst snd]. rewrite N3. lra. }
  assert (I1 : In [1; 1; 1] (signs (length cat))) by (cbn; left; reflexivity).
  assert (HN : sumTriplesU (sas6 (r3P Cf) TNtri 0) cat <> 0) by (rewrite NS; lra).
  pose proof (C95_kkk_sas Cf cat out 0%Z 1 1 V S eq_refl eq_refl M OR' Rlt_0_1 U HR HN [1; 1; 1] I1) as E. cbv zeta in E.
  destruct (noise3 (fun f => sas6 (r3P Cf) f 0)) with (sas := true) (cat := cat) (out := out) (k := 0%Z) (w := 1) (q := 1) as [A B]; auto.
  - intros. apply sas6_m.
  - intros. apply sas6_m.
  - intros f a b c x y z Hf. destruct f; try congruence; reflexivity.
  - lra.
  - intros s Hs. assert (WT : forall f, f <> TNtri -> weights3 f (flip s cat)).
    { intros f Hf o Ho. destruct (flip_in _ _ _ Ho) as [o' [I [_ E']]]. rewrite E', (proj1 (U _ I)). destruct f; try lra. }
    assert (OR2 : oriented (tcoord (r3P Cf)) (flip s cat)).
    { intros a b c Ia Ib Ic. destruct (flip_in _ _ _ Ia) as [a' [Ja [Ea _]]], (flip_in _ _ _ Ib) as [b' [Jb [Eb _]]], (flip_in _ _ _ Ic) as [c' [Jc [Ec _]]].
      specialize (OR' a' b' c' Ja Jb Jc). unfold side1, side2, side3, ccwSpec in *. rewrite Ea, Eb, Ec. exact OR'. }
    split; (rewrite (C79_auto Cf _ 0%Z (flip s cat) cleared3 (out s)); auto; [unfold cleared3; lra|apply WT; discriminate]).
  - rewrite Rmult_1_l in *. rewrite NS in *. specialize (B [1; 1; 1] I1).
    assert (SQ : sumTriplesU (fun a b c => sas6 (r3P Cf) TNtri 0 a b c * sas6 (r3P Cf) TNtri 0 a b c) cat = 9).
    { unfold cat. cbn [map sumTriplesU upairs app sumR fst snd]. rewrite N3. lra. }
    rewrite SQ in A. exists Cf, cat, out, 0%Z, [1; 1; 1]. repeat (split; [assumption|]). split; [reflexivity|]. repeat (split; [assumption|]). split; [rewrite A; lra|rewrite B; lra].
Qed.
