(** Structure of the three-point traversal: if every decision on cells is right, the events
    account for every triple of objects exactly once. *)
From Coq Require Import Reals Lra Lia List ZArith Bool Permutation.
From Verif Require Import Base Geometry Tree Traverse Spec GeomFacts SumFacts TreeFacts TravFacts
  Cover Corr3.
Import ListNotations.
Open Scope R_scope.

(** ** Sums over triples *)
Definition sum3 (g : obj -> obj -> obj -> R) (l1 l2 l3 : list obj) : R :=
  sumR (fun a => sumR (fun b => sumR (fun c => g a b c) l3) l2) l1.
(** one object from l1, an unordered pair from l2 *)
Definition sum12 (g : obj -> obj -> obj -> R) (l1 l2 : list obj) : R :=
  sumR (fun a => sumR (fun q => g a (fst q) (snd q)) (upairs l2)) l1.
(** all unordered triples of positions of a list *)
Fixpoint sumU3 (g : obj -> obj -> obj -> R) (l : list obj) : R :=
  match l with
  | [] => 0
  | a :: t => sumR (fun q => g a (fst q) (snd q)) (upairs t) + sumU3 g t
  end.

Lemma sum3_app1 g a b l2 l3 : sum3 g (a ++ b) l2 l3 = sum3 g a l2 l3 + sum3 g b l2 l3.
Proof. apply sumR_app. Qed.
Lemma sum3_app2 g a b l1 l3 : sum3 g l1 (a ++ b) l3 = sum3 g l1 a l3 + sum3 g l1 b l3.
Proof.
  unfold sum3. rewrite <- sumR_plus. apply sumR_ext. intros; apply sumR_app.
Qed.
Lemma sum3_app3 g a b l1 l2 : sum3 g l1 l2 (a ++ b) = sum3 g l1 l2 a + sum3 g l1 l2 b.
Proof.
  unfold sum3. rewrite <- sumR_plus. apply sumR_ext. intros x _.
  rewrite <- sumR_plus. apply sumR_ext. intros; apply sumR_app.
Qed.
Lemma sum3_ext g h l1 l2 l3 :
  (forall a b c, In a l1 -> In b l2 -> In c l3 -> g a b c = h a b c) -> sum3 g l1 l2 l3 = sum3 h l1 l2 l3.
Proof.
  intro H. apply sumR_ext; intros. apply sumR_ext; intros. apply sumR_ext; intros. auto.
Qed.
Lemma sum3_0 g l1 l2 l3 :
  (forall a b c, In a l1 -> In b l2 -> In c l3 -> g a b c = 0) -> sum3 g l1 l2 l3 = 0.
Proof. intro H. apply sumR_0; intros. apply sumR_0; intros. apply sumR_0; intros. auto. Qed.
Lemma sum3_swap23 g l1 l2 l3 : sum3 g l1 l2 l3 = sum3 (fun a c b => g a b c) l1 l3 l2.
Proof. apply sumR_ext; intros. apply sumR_swap. Qed.
Lemma sum3_swap12 g l1 l2 l3 : sum3 g l1 l2 l3 = sum3 (fun b a c => g a b c) l2 l1 l3.
Proof. unfold sum3. apply (sumR_swap (fun a b => sumR (fun c => g a b c) l3)). Qed.
Lemma sum3_plus g h l1 l2 l3 :
  sum3 (fun a b c => g a b c + h a b c) l1 l2 l3 = sum3 g l1 l2 l3 + sum3 h l1 l2 l3.
Proof.
  unfold sum3. rewrite <- sumR_plus. apply sumR_ext; intros. rewrite <- sumR_plus.
  apply sumR_ext; intros. apply sumR_plus.
Qed.
Lemma sum3_nil1 g l2 l3 : sum3 g [] l2 l3 = 0. Proof. reflexivity. Qed.
Lemma sum3_nil2 g l1 l3 : sum3 g l1 [] l3 = 0.
Proof. apply sum3_0. intros a b c _ []. Qed.
Lemma sum3_nil3 g l1 l2 : sum3 g l1 l2 [] = 0.
Proof. apply sum3_0. intros a b c _ _ []. Qed.

Lemma sum12_app1 g a b l : sum12 g (a ++ b) l = sum12 g a l + sum12 g b l.
Proof. apply sumR_app. Qed.
Lemma sum12_app2 g l a b : sum12 g l (a ++ b) = sum12 g l a + sum12 g l b + sum3 g l a b.
Proof.
  unfold sum12, sum3. rewrite <- !sumR_plus. apply sumR_ext. intros x _.
  rewrite (sumR_perm _ _ _ (upairs_app a b)), !sumR_app.
  rewrite (sumR_pairs (fun q => g x (fst q) (snd q))). cbn [fst snd]. lra.
Qed.
Lemma sum12_0 g l1 l2 :
  (forall a b c, In a l1 -> In b l2 -> In c l2 -> g a b c = 0) -> sum12 g l1 l2 = 0.
Proof.
  intro H. apply sumR_0; intros a Ha. apply sumR_0; intros [b c] Hq.
  apply in_upairs in Hq as [Hb Hc]. apply H; auto.
Qed.
Lemma sum12_ext g h l1 l2 :
  (forall a b c, In a l1 -> In b l2 -> In c l2 -> g a b c = h a b c) -> sum12 g l1 l2 = sum12 h l1 l2.
Proof.
  intro H. apply sumR_ext; intros a Ha. apply sumR_ext; intros [b c] Hq.
  apply in_upairs in Hq as [Hb Hc]. apply H; auto.
Qed.

Definition sym23 (g : obj -> obj -> obj -> R) : Prop := forall a b c, g a b c = g a c b.
Definition sym12 (g : obj -> obj -> obj -> R) : Prop := forall a b c, g a b c = g b a c.

Lemma sumU3_app g a b : sym12 g -> sym23 g ->
  sumU3 g (a ++ b) = sumU3 g a + sumU3 g b + sum12 g a b + sum12 g b a.
Proof.
  intros S1 S2. induction a as [|x t IH].
  - simpl. unfold sum12 at 1. simpl.
    assert (sum12 g b [] = 0) by (apply sum12_0; intros ? ? ? _ []). lra.
  - cbn [app sumU3]. rewrite IH, (sumR_perm _ _ _ (upairs_app t b)), !sumR_app.
    rewrite (sumR_pairs (fun q => g x (fst q) (snd q))). cbn [fst snd].
    assert (E1 : sum12 g (x :: t) b = sumR (fun q => g x (fst q) (snd q)) (upairs b) + sum12 g t b)
      by reflexivity.
    assert (E2 : sum12 g b (x :: t) = sumR (fun y => sumR (fun z => g x y z) b) t + sum12 g b t).
    { unfold sum12. cbn [upairs]. rewrite (sumR_swap (fun y z => g x y z) t b), <- sumR_plus. apply sumR_ext. intros z _.
      rewrite sumR_app, sumR_map. cbn [fst snd]. f_equal. apply sumR_ext. intros y _.
      rewrite (S2 x y z), (S1 x z y). auto. }
    rewrite E1, E2. lra.
Qed.
Lemma sum12_perm2 g l l2 l2' : sym23 g -> Permutation l2 l2' -> sum12 g l l2 = sum12 g l l2'.
Proof.
  intros S HP. apply sumR_ext. intros a _. apply sumR_upairs_perm; auto.
Qed.
Lemma sum12_perm1 g l l' l2 : Permutation l l' -> sum12 g l l2 = sum12 g l' l2.
Proof. intro HP. apply sumR_perm; auto. Qed.
Lemma sumU3_perm g l l' : sym12 g -> sym23 g -> Permutation l l' -> sumU3 g l = sumU3 g l'.
Proof.
  intros S1 S2 HP. induction HP; auto.
  - cbn [sumU3]. rewrite IHHP. f_equal. apply sumR_upairs_perm; auto.
  - cbn [sumU3 upairs]. rewrite !sumR_app, !sumR_map. cbn [fst snd].
    assert (sumR (fun z => g x y z) l = sumR (fun z => g y x z) l) by (apply sumR_ext; auto).
    lra.
  - congruence.
Qed.
Lemma sumU3_ext g h l :
  (forall a b c, In a l -> In b l -> In c l -> g a b c = h a b c) -> sumU3 g l = sumU3 h l.
Proof.
  induction l as [|x t IH]; intro H; simpl; auto.
  rewrite IH by (intros; apply H; simpl; auto). f_equal. apply sumR_ext. intros [y z] Hq.
  apply in_upairs in Hq as [? ?]. apply H; simpl; auto.
Qed.
Lemma sum3_perm g l1 l1' l2 l2' l3 l3' : Permutation l1 l1' -> Permutation l2 l2' ->
  Permutation l3 l3' -> sum3 g l1 l2 l3 = sum3 g l1' l2' l3'.
Proof.
  intros P1 P2 P3. unfold sum3. rewrite (sumR_perm _ _ _ P1). apply sumR_ext; intros.
  rewrite (sumR_perm _ _ _ P2). apply sumR_ext; intros. apply sumR_perm; auto.
Qed.

(** ** Events of a process call *)
Definition G (h : obj -> obj -> obj -> R) (O : order) (a b c : obj) : R :=
  match O with
  | O3 => h a b c
  | O1 => h a b c + h a c b
  | O0 => h a b c + h a c b + h b a c + h b c a + h c a b + h c b a
  end.
Lemma G1_sym23 h : sym23 (G h O1). Proof. intros a b c; simpl; lra. Qed.
Lemma G0_sym23 h : sym23 (G h O0). Proof. intros a b c; simpl; lra. Qed.
Lemma G0_sym12 h : sym12 (G h O0). Proof. intros a b c; simpl; lra. Qed.

(** The outcome o is a list of events whose values ev add up to x. *)
Definition adds (ev : event3 -> R) (o : option (list event3)) (x : R) : Prop :=
  exists evs, o = Some evs /\ sumR ev evs = x.
Lemma adds_nil ev : adds ev (Some []) 0.
Proof. exists []; auto. Qed.
Lemma adds_one ev e : adds ev (Some [e]) (ev e).
Proof. exists [e]; split; auto. simpl; lra. Qed.
Lemma adds_oapp ev a b x y : adds ev a x -> adds ev b y -> adds ev (oapp a b) (x + y).
Proof.
  intros [l [-> <-]] [m [-> <-]]. exists (l ++ m). split; auto. apply sumR_app.
Qed.
Lemma adds_eq ev a x y : x = y -> adds ev a x -> adds ev a y.
Proof. intros ->; auto. Qed.
Lemma adds_oconcat {A} ev (f : A -> option (list event3)) (x : A -> R) l :
  (forall a, In a l -> adds ev (f a) (x a)) -> adds ev (oconcat (map f l)) (sumR x l).
Proof.
  induction l as [|a t IH]; intro H; [apply adds_nil|].
  cbn [map oconcat sumR]. apply adds_oapp; [apply H; left; auto|apply IH; intros; apply H; right; auto].
Qed.

Definition isNode (c : cell) : Prop := match c with Node _ _ _ _ => True | _ => False end.
Definition objsL (l : list cell) : list obj := concat (map objs l).

Lemma sum3_prod g l1 l2 l3 :
  sumR (fun t : cell * cell * cell => sum3 g (objs (fst (fst t))) (objs (snd (fst t))) (objs (snd t)))
    (prod3 l1 l2 l3) = sum3 g (objsL l1) (objsL l2) (objsL l3).
Proof.
  unfold prod3. rewrite sumR_flat_map. unfold objsL at 1.
  induction l1 as [|a t1 IH]; [simpl; rewrite sum3_nil1; auto|].
  cbn [map concat sumR]. rewrite sum3_app1, IH. f_equal. clear.
  rewrite sumR_flat_map. unfold objsL at 1.
  induction l2 as [|b t2 IH]; [simpl; rewrite sum3_nil2; auto|].
  cbn [map concat sumR]. rewrite sum3_app2, IH. f_equal. clear.
  rewrite sumR_map. cbn [fst snd]. unfold objsL.
  induction l3 as [|c t3 IH]; [simpl; rewrite sum3_nil3; auto|].
  cbn [map concat sumR]. rewrite sum3_app3, IH. auto.
Qed.

Lemma kids_spec s c : (s = true -> isNode c) -> exists l, kids s c = Some l /\
  objsL l = objs c /\
  (forall c', In c' l -> (c' = c /\ s = false) \/
     (s = true /\ (depth c' < depth c)%nat /\ exists d z a b, c = Node d z a b /\ (c' = a \/ c' = b))).
Proof.
  intro H. unfold kids. destruct s.
  - destruct c as [| |d z l r]; try (exfalso; apply H; auto).
    exists [l; r]. split; auto. split; [unfold objsL; simpl; rewrite app_nil_r; auto|].
    intros c' [<-|[<-|[]]]; right; simpl; (split; [auto|split; [lia|exists d, z, l, r; auto]]).
  - exists [c]. split; auto. split; [unfold objsL; simpl; rewrite app_nil_r; auto|].
    intros c' [<-|[]]; left; auto.
Qed.
Lemma in_prod3 {A} (l1 l2 l3 : list A) a b c : In (a, b, c) (prod3 l1 l2 l3) ->
  In a l1 /\ In b l2 /\ In c l3.
Proof.
  unfold prod3. intro H. apply in_flat_map in H as [x [Hx H]].
  apply in_flat_map in H as [y [Hy H]]. apply in_map_iff in H as [z [E Hz]].
  injection E; intros; subst; auto.
Qed.

Section Cover3.
Variable P : tparams.
Variable ev : event3 -> R.
Variable h : order -> obj -> obj -> obj -> R.
Variable Ok : order -> Prop.
Variable J : cell -> Prop.
Notation D a b := (distSq (tmetric P) (getPos a) (getPos b)).
Notation CC a b c := (ccw (tmetric P) (tcoord P) (getPos a) (getPos b) (getPos c)).

(** What process111 establishes before calling process111Sorted. *)
Definition pre (O : order) (c1 c2 c3 : cell) : Prop :=
  match tbt P, O with
  | LogRUV, O0 => D c1 c3 <= D c2 c3 /\ D c1 c2 <= D c1 c3
  | LogRUV, O1 => D c1 c2 <= D c1 c3
  | LogSAS, O1 => CC c1 c3 c2 = true \/ CC c1 c2 c3 = false
  | LogSAS, O0 => False
  | _, _ => True
  end.

Hypothesis Jkids : forall d z l r, J (Node d z l r) -> J l /\ J r.
Hypothesis Dsym : forall p q, distSq (tmetric P) p q = distSq (tmetric P) q p.
Hypothesis hSAS : tbt P = LogSAS -> h O0 = h O1.
Hypothesis OkSAS : tbt P = LogSAS -> Ok O0 -> Ok O1.
Hypothesis CCcyc : tbt P = LogSAS ->
  forall p q r, ccw (tmetric P) (tcoord P) p q r = ccw (tmetric P) (tcoord P) q r p.
Hypothesis W0 : forall O c1 c2 c3, Ok O -> J c1 -> J c2 -> J c3 ->
  getW c1 = 0 \/ getW c2 = 0 \/ getW c3 = 0 -> sum3 (G (h O) O) (objs c1) (objs c2) (objs c3) = 0.
Hypothesis Hdec : forall O c1 c2 c3, Ok O -> J c1 -> J c2 -> J c3 -> pre O c1 c2 c3 ->
  match decide3 P O c1 c2 c3 (D c2 c3) (D c1 c3) (D c1 c2) with
  | Drop3 => sum3 (G (h O) O) (objs c1) (objs c2) (objs c3) = 0
  | Direct3 u v k =>
      ev (mkev3 c1 c2 c3 (sqrt (D c2 c3)) (sqrt (D c1 c3)) (sqrt (D c1 c2)) u v k)
      = sum3 (G (h O) O) (objs c1) (objs c2) (objs c3)
  | Split3 a b c => (a = true -> isNode c1) /\ (b = true -> isNode c2) /\ (c = true -> isNode c3) /\
      a || b || c = true
  end.

Definition sorted111 (O : order) (fuel : nat) (c1 c2 c3 : cell) : option (list event3) :=
  match decide3 P O c1 c2 c3 (D c2 c3) (D c1 c3) (D c1 c2) with
  | Drop3 => Some []
  | Direct3 u v k =>
      Some [mkev3 c1 c2 c3 (sqrt (D c2 c3)) (sqrt (D c1 c3)) (sqrt (D c1 c2)) u v k]
  | Split3 a b c =>
      match fuel with
      | 0%nat => None
      | S n =>
          match kids a c1, kids b c2, kids c c3 with
          | Some l1, Some l2, Some l3 =>
              oconcat (map (fun t => process111 P O n (fst (fst t)) (snd (fst t)) (snd t)
                                       (keep (only1 a b c) (D c2 c3)) (keep (only1 b a c) (D c1 c3))
                                       (keep (only1 c a b) (D c1 c2)))
                           (prod3 l1 l2 l3))
          | _, _, _ => None
          end
      end
  end.

Lemma known_id q d : q = 0 \/ q = d -> (if Reqb q 0 then d else q) = d.
Proof.
  intros [->| ->]; unfold Reqb; destruct Req_EM_T; auto. congruence.
Qed.

(** process111 in terms of process111Sorted *)
Lemma process111_eq O fuel c1 c2 c3 q1 q2 q3 :
  q1 = 0 \/ q1 = D c2 c3 -> q2 = 0 \/ q2 = D c1 c3 -> q3 = 0 \/ q3 = D c1 c2 ->
  process111 P O fuel c1 c2 c3 q1 q2 q3 =
  if Reqb (getW c1) 0 || Reqb (getW c2) 0 || Reqb (getW c3) 0 then Some [] else
  match tbt P, O with
  | LogRUV, O0 =>
      if Rltb (D c1 c3) (D c2 c3) then
        if Rltb (D c1 c2) (D c1 c3) then sorted111 O0 fuel c1 c2 c3
        else if Rltb (D c1 c2) (D c2 c3) then sorted111 O0 fuel c1 c3 c2
        else sorted111 O0 fuel c3 c1 c2
      else
        if Rltb (D c1 c2) (D c2 c3) then sorted111 O0 fuel c2 c1 c3
        else if Rltb (D c1 c2) (D c1 c3) then sorted111 O0 fuel c2 c3 c1
        else sorted111 O0 fuel c3 c2 c1
  | LogSAS, O0 =>
      if negb (CC c1 c3 c2) then
        oapp (sorted111 O1 fuel c1 c3 c2)
       (oapp (sorted111 O1 fuel c2 c1 c3) (sorted111 O1 fuel c3 c2 c1))
      else
        oapp (sorted111 O1 fuel c1 c2 c3)
       (oapp (sorted111 O1 fuel c3 c1 c2) (sorted111 O1 fuel c2 c3 c1))
  | LogRUV, O1 =>
      if Rltb (D c1 c2) (D c1 c3) then sorted111 O1 fuel c1 c2 c3 else sorted111 O1 fuel c1 c3 c2
  | LogSAS, O1 =>
      if negb (CC c1 c3 c2) then sorted111 O1 fuel c1 c3 c2 else sorted111 O1 fuel c1 c2 c3
  | _, O3 => sorted111 O3 fuel c1 c2 c3
  end.
Proof.
  intros K1 K2 K3.
  destruct fuel as [|n]; cbn [process111];
    rewrite (known_id q1 (D c2 c3) K1), (known_id q2 (D c1 c3) K2), (known_id q3 (D c1 c2) K3);
    unfold sorted111;
    rewrite (Dsym (getPos c3) (getPos c2)), (Dsym (getPos c2) (getPos c1)), (Dsym (getPos c3) (getPos c1));
    reflexivity.
Qed.

Lemma sumG_swap23 O c1 c2 c3 : O <> O3 ->
  sum3 (G (h O) O) (objs c1) (objs c2) (objs c3) = sum3 (G (h O) O) (objs c1) (objs c3) (objs c2).
Proof.
  intro HO. rewrite sum3_swap23. apply sum3_ext. intros a b c _ _ _.
  destruct O; [apply G0_sym23|apply G1_sym23|congruence].
Qed.
Lemma sumG0_swap12 c1 c2 c3 :
  sum3 (G (h O0) O0) (objs c1) (objs c2) (objs c3) = sum3 (G (h O0) O0) (objs c2) (objs c1) (objs c3).
Proof. rewrite sum3_swap12. apply sum3_ext. intros; apply G0_sym12. Qed.

Lemma sumG0_split c1 c2 c3 : tbt P = LogSAS ->
  sum3 (G (h O0) O0) (objs c1) (objs c2) (objs c3) =
  sum3 (G (h O1) O1) (objs c1) (objs c2) (objs c3) + sum3 (G (h O1) O1) (objs c2) (objs c1) (objs c3) +
  sum3 (G (h O1) O1) (objs c3) (objs c1) (objs c2).
Proof.
  intro HB. rewrite (hSAS HB). rewrite (sum3_swap12 (G (h O1) O1) (objs c2)).
  rewrite (sum3_swap12 (G (h O1) O1) (objs c3)), (sum3_swap23 _ (objs c1) (objs c3) (objs c2)).
  rewrite <- !sum3_plus. apply sum3_ext. intros; simpl; lra.
Qed.

Lemma process111_ok fuel : forall O c1 c2 c3 q1 q2 q3, Ok O -> J c1 -> J c2 -> J c3 ->
  (fuel3 c1 c2 c3 <= fuel)%nat ->
  q1 = 0 \/ q1 = D c2 c3 -> q2 = 0 \/ q2 = D c1 c3 -> q3 = 0 \/ q3 = D c1 c2 ->
  adds ev (process111 P O fuel c1 c2 c3 q1 q2 q3) (sum3 (G (h O) O) (objs c1) (objs c2) (objs c3)).
Proof.
  induction fuel as [fuel IHf] using lt_wf_ind.
  assert (HS : forall O c1 c2 c3, Ok O -> J c1 -> J c2 -> J c3 -> (fuel3 c1 c2 c3 <= fuel)%nat ->
    pre O c1 c2 c3 ->
    adds ev (sorted111 O fuel c1 c2 c3) (sum3 (G (h O) O) (objs c1) (objs c2) (objs c3))).
  { intros O c1 c2 c3 HOk J1 J2 J3 HF HP. unfold sorted111.
    pose proof (Hdec O c1 c2 c3 HOk J1 J2 J3 HP) as HD.
    destruct decide3 as [|u v k|a b c].
    - rewrite HD. apply adds_nil.
    - rewrite <- HD. apply adds_one.
    - destruct HD as [Ha [Hb [Hc Hany]]].
      destruct (kids_spec a c1 Ha) as [l1 [E1 [O1' K1]]].
      destruct (kids_spec b c2 Hb) as [l2 [E2 [O2' K2]]].
      destruct (kids_spec c c3 Hc) as [l3 [E3 [O3' K3]]].
      destruct fuel as [|n].
      + exfalso. unfold fuel3 in HF. destruct a; [destruct c1; simpl in *; auto; lia|].
        destruct b; [destruct c2; simpl in *; auto; lia|].
        destruct c; [destruct c3; simpl in *; auto; lia|discriminate].
      + rewrite E1, E2, E3. rewrite <- O1', <- O2', <- O3', <- sum3_prod.
        apply adds_oconcat. intros [[x y] z] Hin. cbn [fst snd].
        apply in_prod3 in Hin as [I1 [I2 I3]]. specialize (K1 _ I1). specialize (K2 _ I2). specialize (K3 _ I3).
        assert (Jx : J x).
        { destruct K1 as [[-> _]|[_ [_ [d0 [z0 [aa [bb [-> HK]]]]]]]]; auto.
          destruct (Jkids _ _ _ _ J1). destruct HK as [->| ->]; auto. }
        assert (Jy : J y).
        { destruct K2 as [[-> _]|[_ [_ [d0 [z0 [aa [bb [-> HK]]]]]]]]; auto.
          destruct (Jkids _ _ _ _ J2). destruct HK as [->| ->]; auto. }
        assert (Jz : J z).
        { destruct K3 as [[-> _]|[_ [_ [d0 [z0 [aa [bb [-> HK]]]]]]]]; auto.
          destruct (Jkids _ _ _ _ J3). destruct HK as [->| ->]; auto. }
        apply IHf; auto.
        * unfold fuel3 in *.
          destruct K1 as [[-> Fa]|[Fa [L1 _]]]; destruct K2 as [[-> Fb]|[Fb [L2 _]]];
            destruct K3 as [[-> Fc]|[Fc [L3 _]]]; subst; try discriminate; lia.
        * unfold keep, only1. destruct a; simpl; auto. destruct b; simpl; auto. destruct c; simpl; auto.
          destruct K2 as [[-> _]|[? _]]; [|discriminate]. destruct K3 as [[-> _]|[? _]]; [|discriminate].
          auto.
        * unfold keep, only1. destruct b; simpl; auto. destruct a; simpl; auto. destruct c; simpl; auto.
          destruct K1 as [[-> _]|[? _]]; [|discriminate]. destruct K3 as [[-> _]|[? _]]; [|discriminate].
          auto.
        * unfold keep, only1. destruct c; simpl; auto. destruct a; simpl; auto. destruct b; simpl; auto.
          destruct K1 as [[-> _]|[? _]]; [|discriminate]. destruct K2 as [[-> _]|[? _]]; [|discriminate].
          auto. }
  intros O c1 c2 c3 q1 q2 q3 HOk J1 J2 J3 HF K1 K2 K3.
  rewrite process111_eq by auto.
  destruct (Reqb (getW c1) 0 || Reqb (getW c2) 0 || Reqb (getW c3) 0) eqn:EW.
  { rewrite W0; auto; [apply adds_nil|].
    unfold Reqb in EW. destruct Req_EM_T; auto. destruct Req_EM_T; auto. destruct Req_EM_T; auto.
    discriminate. }
  assert (S132 : sum3 (G (h O0) O0) (objs c1) (objs c3) (objs c2) = sum3 (G (h O0) O0) (objs c1) (objs c2) (objs c3))
    by (rewrite sumG_swap23; auto; discriminate).
  assert (S312 : sum3 (G (h O0) O0) (objs c3) (objs c1) (objs c2) = sum3 (G (h O0) O0) (objs c1) (objs c2) (objs c3))
    by (rewrite sumG0_swap12, sumG_swap23; auto; discriminate).
  assert (S213 : sum3 (G (h O0) O0) (objs c2) (objs c1) (objs c3) = sum3 (G (h O0) O0) (objs c1) (objs c2) (objs c3))
    by (rewrite sumG0_swap12; auto).
  assert (S231 : sum3 (G (h O0) O0) (objs c2) (objs c3) (objs c1) = sum3 (G (h O0) O0) (objs c1) (objs c2) (objs c3))
    by (rewrite sumG_swap23; auto; discriminate).
  assert (S321 : sum3 (G (h O0) O0) (objs c3) (objs c2) (objs c1) = sum3 (G (h O0) O0) (objs c1) (objs c2) (objs c3))
    by (rewrite sumG_swap23; auto; discriminate).
  assert (F132 : (fuel3 c1 c3 c2 <= fuel)%nat) by (unfold fuel3 in *; lia).
  assert (F312 : (fuel3 c3 c1 c2 <= fuel)%nat) by (unfold fuel3 in *; lia).
  assert (F213 : (fuel3 c2 c1 c3 <= fuel)%nat) by (unfold fuel3 in *; lia).
  assert (F231 : (fuel3 c2 c3 c1 <= fuel)%nat) by (unfold fuel3 in *; lia).
  assert (F321 : (fuel3 c3 c2 c1 <= fuel)%nat) by (unfold fuel3 in *; lia).
  assert (D21 := Dsym (getPos c2) (getPos c1)). assert (D31 := Dsym (getPos c3) (getPos c1)).
  assert (D32 := Dsym (getPos c3) (getPos c2)).
  assert (SP := sumG0_split c1 c2 c3).
  destruct (tbt P) eqn:EB; destruct O.
  - destruct (Rltb (D c1 c3) (D c2 c3)) eqn:L1; [apply Rltb_true in L1|apply Rltb_false in L1].
    + destruct (Rltb (D c1 c2) (D c1 c3)) eqn:L2; [apply Rltb_true in L2|apply Rltb_false in L2].
      * apply HS; auto. unfold pre; rewrite EB; lra.
      * destruct (Rltb (D c1 c2) (D c2 c3)) eqn:L3; [apply Rltb_true in L3|apply Rltb_false in L3].
        -- rewrite <- S132. apply HS; auto. unfold pre; rewrite EB; lra.
        -- rewrite <- S312. apply HS; auto. unfold pre; rewrite EB; lra.
    + destruct (Rltb (D c1 c2) (D c2 c3)) eqn:L2; [apply Rltb_true in L2|apply Rltb_false in L2].
      * rewrite <- S213. apply HS; auto. unfold pre; rewrite EB; lra.
      * destruct (Rltb (D c1 c2) (D c1 c3)) eqn:L3; [apply Rltb_true in L3|apply Rltb_false in L3].
        -- rewrite <- S231. apply HS; auto. unfold pre; rewrite EB; lra.
        -- rewrite <- S321. apply HS; auto. unfold pre; rewrite EB; lra.
  - destruct (Rltb (D c1 c2) (D c1 c3)) eqn:L2; [apply Rltb_true in L2|apply Rltb_false in L2].
    + apply HS; auto. unfold pre; rewrite EB; lra.
    + rewrite sumG_swap23 by discriminate. apply HS; auto. unfold pre; rewrite EB; lra.
  - apply HS; auto. unfold pre; rewrite EB; auto.
  - specialize (CCcyc eq_refl).
    assert (E1 := CCcyc (getPos c1) (getPos c3) (getPos c2)).
    assert (E2 := CCcyc (getPos c3) (getPos c2) (getPos c1)).
    rewrite (SP eq_refl). specialize (OkSAS eq_refl HOk).
    destruct (CC c1 c3 c2) eqn:EC; simpl.
    + apply adds_eq with (x := sum3 (G (h O1) O1) (objs c1) (objs c2) (objs c3) +
        (sum3 (G (h O1) O1) (objs c3) (objs c1) (objs c2) + sum3 (G (h O1) O1) (objs c2) (objs c3) (objs c1))).
      { rewrite (sumG_swap23 O1 c2 c3 c1) by discriminate. lra. }
      apply adds_oapp; [|apply adds_oapp]; apply HS; auto; unfold pre; rewrite EB; left; congruence.
    + apply adds_eq with (x := sum3 (G (h O1) O1) (objs c1) (objs c3) (objs c2) +
        (sum3 (G (h O1) O1) (objs c2) (objs c1) (objs c3) + sum3 (G (h O1) O1) (objs c3) (objs c2) (objs c1))).
      { rewrite (sumG_swap23 O1 c3 c2 c1), (sumG_swap23 O1 c1 c3 c2) by discriminate. lra. }
      apply adds_oapp; [|apply adds_oapp]; apply HS; auto; unfold pre; rewrite EB; right; congruence.
  - destruct (CC c1 c3 c2) eqn:EC; simpl.
    + apply HS; auto. unfold pre; rewrite EB; auto.
    + rewrite sumG_swap23 by discriminate. apply HS; auto. unfold pre; rewrite EB; auto.
  - apply HS; auto. unfold pre; rewrite EB; auto.
Qed.

Lemma run111_ok O c1 c2 c3 : Ok O -> J c1 -> J c2 -> J c3 ->
  adds ev (run111 P O c1 c2 c3) (sum3 (G (h O) O) (objs c1) (objs c2) (objs c3)).
Proof. intros. apply process111_ok; auto. Qed.

(** ** process12 *)
Notation E1 c1 c2 := (efin (fst (effSize (tmetric P) (getPos c1) (getPos c2) (Fin (csize c1)) (Fin (csize c2))))).
Notation E2 c1 c2 := (efin (snd (effSize (tmetric P) (getPos c1) (getPos c2) (Fin (csize c1)) (Fin (csize c2))))).

Definition stop12 (O : order) (c1 c2 : cell) : Prop :=
  tooSmallS2 P (csize c2) = true \/ tooSmall3 P (D c1 c2) (E1 c1 c2 + E2 c1 c2) = true \/
  tooLarge3 P (D c1 c2) (E1 c1 c2 + E2 c1 c2) = true \/
  noAllowedAngles P O (D c1 c2) (E1 c1 c2) (E2 c1 c2) = true.

Hypothesis W12 : forall O c1 c2, Ok O -> O <> O3 -> J c1 -> J c2 -> getW c1 = 0 \/ getW c2 = 0 ->
  sum12 (G (h O) O) (objs c1) (objs c2) = 0.
Hypothesis H12 : forall O c1 c2, Ok O -> O <> O3 -> J c1 -> J c2 -> stop12 O c1 c2 ->
  sum12 (G (h O) O) (objs c1) (objs c2) = 0.
Hypothesis N12 : forall c1 c2, J c1 -> J c2 -> tooSmallS2 P (csize c2) = false ->
  isNode c2 /\ (E2 c1 c2 < E1 c1 c2 -> isNode c1).

Lemma process12_ok fuel : forall O c1 c2, Ok O -> O <> O3 -> J c1 -> J c2 ->
  (depth c1 + depth c2 <= fuel)%nat ->
  adds ev (process12 P O fuel c1 c2) (sum12 (G (h O) O) (objs c1) (objs c2)).
Proof.
  induction fuel as [fuel IHf] using lt_wf_ind. intros O c1 c2 HOk HO J1 J2 HF.
  assert (U : process12 P O fuel c1 c2 =
    if Reqb (getW c1) 0 || Reqb (getW c2) 0 then Some [] else
    if tooSmallS2 P (csize c2) then Some [] else
    if tooSmall3 P (D c1 c2) (E1 c1 c2 + E2 c1 c2) then Some [] else
    if tooLarge3 P (D c1 c2) (E1 c1 c2 + E2 c1 c2) then Some [] else
    if noAllowedAngles P O (D c1 c2) (E1 c1 c2) (E2 c1 c2) then Some [] else
    match fuel with
    | 0%nat => None
    | S n =>
      match c2 with
      | Node _ _ l2 r2 =>
          if Rltb (E2 c1 c2) (E1 c1 c2) then
            match c1 with
            | Node _ _ l1 r1 =>
                oapp (process12 P O n l1 l2) (oapp (process12 P O n l1 r2)
               (oapp (process12 P O n r1 l2) (oapp (process12 P O n r1 r2)
               (oapp (run111 P O l1 l2 r2) (run111 P O r1 l2 r2)))))
            | _ => None
            end
          else
            oapp (process12 P O n c1 l2) (oapp (process12 P O n c1 r2) (run111 P O c1 l2 r2))
      | _ => None
      end
    end) by (destruct fuel; reflexivity).
  rewrite U; clear U.
  destruct (Reqb (getW c1) 0 || Reqb (getW c2) 0) eqn:A1.
  { rewrite W12; auto; [apply adds_nil|]. unfold Reqb in A1.
    destruct Req_EM_T; auto. destruct Req_EM_T; auto. discriminate. }
  destruct (tooSmallS2 P (csize c2)) eqn:A2;
    [rewrite H12 by (auto; left; auto); apply adds_nil|].
  destruct (tooSmall3 P (D c1 c2) (E1 c1 c2 + E2 c1 c2)) eqn:A3;
    [rewrite H12 by (auto; right; left; auto); apply adds_nil|].
  destruct (tooLarge3 P (D c1 c2) (E1 c1 c2 + E2 c1 c2)) eqn:A4;
    [rewrite H12 by (auto; right; right; left; auto); apply adds_nil|].
  destruct (noAllowedAngles P O (D c1 c2) (E1 c1 c2) (E2 c1 c2)) eqn:A5;
    [rewrite H12 by (auto; right; right; right; auto); apply adds_nil|].
  destruct (N12 c1 c2 J1 J2 A2) as [Nd2 Nd1].
  destruct c2 as [| |d2 z2 l2 r2]; try contradiction.
  destruct (Jkids _ _ _ _ J2) as [Jl2 Jr2].
  destruct fuel as [|n]; [simpl in HF; lia|].
  assert (ES : forall l1, sum12 (G (h O) O) l1 (objs (Node d2 z2 l2 r2)) =
            sum12 (G (h O) O) l1 (objs l2) + sum12 (G (h O) O) l1 (objs r2) +
            sum3 (G (h O) O) l1 (objs l2) (objs r2)) by (intro; apply sum12_app2).
  destruct (Rltb (E2 c1 (Node d2 z2 l2 r2)) (E1 c1 (Node d2 z2 l2 r2))) eqn:L.
  - apply Rltb_true in L. specialize (Nd1 L).
    destruct c1 as [| |d1 z1 l1 r1]; try contradiction.
    destruct (Jkids _ _ _ _ J1) as [Jl1 Jr1].
    eapply adds_eq; [|apply adds_oapp; [apply IHf; auto; simpl in *; lia|
      apply adds_oapp; [apply IHf; auto; simpl in *; lia|
      apply adds_oapp; [apply IHf; auto; simpl in *; lia|
      apply adds_oapp; [apply IHf; auto; simpl in *; lia|
      apply adds_oapp; apply run111_ok; auto]]]]].
    change (objs (Node d1 z1 l1 r1)) with (objs l1 ++ objs r1).
    rewrite sum12_app1, !ES. lra.
  - rewrite ES.
    eapply adds_eq; [|apply adds_oapp; [apply IHf; auto; simpl in *; lia|
      apply adds_oapp; [apply IHf; auto; simpl in *; lia|apply run111_ok; auto]]]. lra.
Qed.
Lemma run12_ok O c1 c2 : Ok O -> O <> O3 -> J c1 -> J c2 ->
  adds ev (run12 P O c1 c2) (sum12 (G (h O) O) (objs c1) (objs c2)).
Proof. intros. apply process12_ok; auto. Qed.

(** ** process3 and the loops over top-level cells *)
Hypothesis W3 : forall c, Ok O0 -> J c -> getW c = 0 -> sumU3 (G (h O0) O0) (objs c) = 0.
Hypothesis H3 : forall c, Ok O0 -> J c -> csize c < thalfminsep P -> sumU3 (G (h O0) O0) (objs c) = 0.
Hypothesis N3 : forall c, J c -> thalfminsep P <= csize c -> isNode c.

Lemma process3_ok c : Ok O0 -> J c -> adds ev (process3 P c) (sumU3 (G (h O0) O0) (objs c)).
Proof.
  intro HOk. induction c as [d i|d l|d z l IHl r IHr]; intro Jc; cbn [process3].
  1, 2: destruct (Reqb _ 0) eqn:EW;
    [rewrite W3; auto; [apply adds_nil|unfold Reqb in EW; destruct Req_EM_T; auto; discriminate]|];
    destruct (Rltb _ (thalfminsep P)) eqn:ES;
    [apply Rltb_true in ES; rewrite H3; auto; apply adds_nil|
     apply Rltb_false in ES; destruct (N3 _ Jc); auto].
  destruct (Reqb _ 0) eqn:EW.
  { rewrite W3; auto; [apply adds_nil|unfold Reqb in EW; destruct Req_EM_T; auto; discriminate]. }
  destruct (Rltb _ (thalfminsep P)) eqn:ES.
  { apply Rltb_true in ES. rewrite H3; auto; apply adds_nil. }
  destruct (Jkids _ _ _ _ Jc) as [Jl Jr].
  change (objs (Node d z l r)) with (objs l ++ objs r).
  rewrite sumU3_app; [|apply G0_sym12|apply G0_sym23].
  eapply adds_eq; [|apply adds_oapp; [apply IHl; auto|apply adds_oapp; [apply IHr; auto|
    apply adds_oapp; apply run12_ok; auto; discriminate]]]. lra.
Qed.

Lemma over2_ok O c1 l : Ok O -> O <> O3 -> J c1 -> (forall c, In c l -> J c) ->
  adds ev (over2 P O c1 l) (sum12 (G (h O) O) (objs c1) (objsL l)).
Proof.
  intros HOk HO J1. induction l as [|c2 t IH]; intro Jl; cbn [over2].
  - eapply adds_eq; [|apply adds_nil]. symmetry. apply sum12_0. intros ? ? ? _ [].
  - assert (J c2) by (apply Jl; left; auto).
    assert (Jt : forall c, In c t -> J c) by (intros; apply Jl; right; auto).
    unfold objsL. cbn [map concat]. fold (objsL t). rewrite sum12_app2.
    eapply adds_eq; [|apply adds_oapp; [apply run12_ok; auto|apply adds_oapp;
      [apply (adds_oconcat ev (run111 P O c1 c2)
                (fun c => sum3 (G (h O) O) (objs c1) (objs c2) (objs c)));
       intros; apply run111_ok; auto|apply IH; auto]]].
    assert (sumR (fun c => sum3 (G (h O) O) (objs c1) (objs c2) (objs c)) t =
            sum3 (G (h O) O) (objs c1) (objs c2) (objsL t)).
    { unfold objsL. clear. induction t as [|c t IH]; [simpl; rewrite sum3_nil3; auto|].
      cbn [map concat sumR]. rewrite sum3_app3, IH. auto. }
    lra.
Qed.
Lemma autoOver_ok c1 l : Ok O0 -> J c1 -> (forall c, In c l -> J c) ->
  adds ev (autoOver P c1 l) (sum12 (G (h O0) O0) (objs c1) (objsL l) + sum12 (G (h O0) O0) (objsL l) (objs c1)).
Proof.
  intros HOk J1. induction l as [|c2 t IH]; intro Jl; cbn [autoOver].
  - eapply adds_eq; [|apply adds_nil]. symmetry.
    rewrite sum12_0 by (intros ? ? ? _ []). unfold objsL, sum12; simpl; lra.
  - assert (J c2) by (apply Jl; left; auto).
    assert (Jt : forall c, In c t -> J c) by (intros; apply Jl; right; auto).
    unfold objsL. cbn [map concat]. fold (objsL t). rewrite sum12_app2, sum12_app1.
    eapply adds_eq; [|apply adds_oapp; [apply run12_ok; auto; discriminate|
      apply adds_oapp; [apply run12_ok; auto; discriminate|apply adds_oapp;
      [apply (adds_oconcat ev (run111 P O0 c1 c2)
                (fun c => sum3 (G (h O0) O0) (objs c1) (objs c2) (objs c)));
       intros; apply run111_ok; auto|apply IH; auto]]]].
    assert (sumR (fun c => sum3 (G (h O0) O0) (objs c1) (objs c2) (objs c)) t =
            sum3 (G (h O0) O0) (objs c1) (objs c2) (objsL t)).
    { unfold objsL. clear. induction t as [|c t IH]; [simpl; rewrite sum3_nil3; auto|].
      cbn [map concat sumR]. rewrite sum3_app3, IH. auto. }
    lra.
Qed.

(** A list of iterations, all without failure, whose events add up to x. *)
Definition addsL (iters : list (option (list event3))) (x : R) : Prop :=
  exists evs, iters = map Some evs /\ sumR (sumR ev) evs = x.
Lemma addsL_cons o l x y : adds ev o x -> addsL l y -> addsL (o :: l) (x + y).
Proof.
  intros [e [-> <-]] [es [-> <-]]. exists (e :: es). auto.
Qed.
Lemma addsL_map {A} (f : A -> option (list event3)) x l :
  (forall a, In a l -> adds ev (f a) (x a)) -> addsL (map f l) (sumR x l).
Proof.
  induction l as [|a t IH]; intro H; [exists []; auto|].
  cbn [map sumR]. apply addsL_cons; [apply H; left; auto|apply IH; intros; apply H; right; auto].
Qed.

Lemma auto3_ok cells : Ok O0 -> (forall c, In c cells -> J c) ->
  addsL (auto3Iters P cells) (sumU3 (G (h O0) O0) (objsL cells)).
Proof.
  intro HOk. induction cells as [|c t IH]; intro Jl; cbn [auto3Iters].
  - exists []; auto.
  - unfold objsL. cbn [map concat]. fold (objsL t).
    rewrite sumU3_app; [|apply G0_sym12|apply G0_sym23].
    assert (J c) by (apply Jl; left; auto).
    assert (Jt : forall c, In c t -> J c) by (intros; apply Jl; right; auto).
    destruct (addsL_cons _ _ _ _ (adds_oapp _ _ _ _ _ (process3_ok c HOk H) (autoOver_ok c t HOk H Jt)) (IH Jt))
      as [evs [E S]]. exists evs. split; auto. rewrite S. lra.
Qed.
Lemma cross12_ok O cs1 cs2 : Ok O -> O <> O3 -> (forall c, In c cs1 -> J c) -> (forall c, In c cs2 -> J c) ->
  addsL (cross12Iters P O cs1 cs2) (sum12 (G (h O) O) (objsL cs1) (objsL cs2)).
Proof.
  intros HOk HO J1 J2.
  assert (sum12 (G (h O) O) (objsL cs1) (objsL cs2) =
          sumR (fun c => sum12 (G (h O) O) (objs c) (objsL cs2)) cs1) as ->.
  { clear J1. unfold objsL at 1. induction cs1 as [|c t IH]; auto. cbn [map concat sumR].
    rewrite sum12_app1, IH. auto. }
  apply addsL_map. intros. apply over2_ok; auto.
Qed.
Lemma cross3_ok O cs1 cs2 cs3 : Ok O -> (forall c, In c cs1 -> J c) -> (forall c, In c cs2 -> J c) ->
  (forall c, In c cs3 -> J c) ->
  addsL (cross3Iters P O cs1 cs2 cs3) (sum3 (G (h O) O) (objsL cs1) (objsL cs2) (objsL cs3)).
Proof.
  intros HOk J1 J2 J3.
  assert (sum3 (G (h O) O) (objsL cs1) (objsL cs2) (objsL cs3) =
          sumR (fun c1 => sumR (fun c2 => sumR (fun c3 =>
            sum3 (G (h O) O) (objs c1) (objs c2) (objs c3)) cs3) cs2) cs1) as ->.
  { rewrite <- sum3_prod. unfold prod3. rewrite sumR_flat_map. apply sumR_ext; intros.
    rewrite sumR_flat_map. apply sumR_ext; intros. rewrite sumR_map. auto. }
  apply addsL_map. intros c1 I1.
  apply (adds_oconcat ev (fun c2 => oconcat (map (run111 P O c1 c2) cs3))). intros c2 I2.
  apply (adds_oconcat ev (run111 P O c1 c2)). intros c3 I3. apply run111_ok; auto.
Qed.

End Cover3.
