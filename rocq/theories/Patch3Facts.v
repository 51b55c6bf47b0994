(** Facts about three-point patch processing. *)
From Coq Require Import Reals Lra Lia List ZArith Bool Permutation Psatz.
From Verif Require Import Base Geometry Tree Traverse Run Corr Patch Spec SpecRun GeomFacts SumFacts TreeFacts
  BinFacts TravFacts Exact MetricFacts Cover Lift Runs Examples Account PropsCount PropsRun PropsCorr PatchFacts
  PropsPatch PropsLocal Corr3 TriCover TriStop SpecTri TriFacts TriSpec PropsTri Patch3.
Import ListNotations.
Open Scope R_scope.

(** ** Events have at least one object in each cell *)
Definition evN (e : event3) : Prop := (1 <= getN (tc1 e) /\ 1 <= getN (tc2 e) /\ 1 <= getN (tc3 e))%nat.
Definition allN (o : option (list event3)) : Prop := forall l, o = Some l -> Forall evN l.
Lemma allN_nil : allN (Some []).
Proof. intros l H. injection H as <-. constructor. Qed.
Lemma allN_None : allN None.
Proof. intros l H. discriminate. Qed.
Lemma allN_oapp a b : allN a -> allN b -> allN (oapp a b).
Proof.
  intros Ha Hb l H. destruct a as [x|]; [|discriminate]. destruct b as [y|]; [|discriminate].
  simpl in H. injection H as <-. apply Forall_app. split; auto.
Qed.
Lemma allN_oconcat {A} (f : A -> option (list event3)) l :
  (forall a, In a l -> allN (f a)) -> allN (oconcat (map f l)).
Proof.
  induction l as [|a t IH]; intro H; [apply allN_nil|]. simpl.
  apply allN_oapp; [apply H; left; auto|apply IH; intros; apply H; right; auto].
Qed.

Section EvN.
Variable P : tparams.
Variable J : cell -> Prop.
Hypothesis Jkids : forall d z l r, J (Node d z l r) -> J l /\ J r.
Hypothesis JN : forall c, J c -> (1 <= getN c)%nat.

Lemma kids_J s c l c' : J c -> kids s c = Some l -> In c' l -> J c'.
Proof.
  intros H E Hi. unfold kids in E. destruct s.
  - destruct c; try discriminate. injection E as <-. apply Jkids in H as [? ?].
    destruct Hi as [<-|[<-|[]]]; auto.
  - injection E as <-. destruct Hi as [<-|[]]; auto.
Qed.
Lemma process111_N fuel : forall O c1 c2 c3 q1 q2 q3, J c1 -> J c2 -> J c3 ->
  allN (process111 P O fuel c1 c2 c3 q1 q2 q3).
Proof.
  induction fuel as [|n IH]; intros O c1 c2 c3 q1 q2 q3 H1 H2 H3.
  - cbn [process111]. destruct (_ || _); [apply allN_nil|].
    cbv zeta.
    assert (S : forall O c1 c2 c3 d1 d2 d3, J c1 -> J c2 -> J c3 ->
      allN (match decide3 P O c1 c2 c3 d1 d2 d3 with
            | Drop3 => Some [] | Split3 _ _ _ => None
            | Direct3 u v k => Some [mkev3 c1 c2 c3 (sqrt d1) (sqrt d2) (sqrt d3) u v k] end)).
    { clear - JN. intros O c1 c2 c3 d1 d2 d3 H1 H2 H3. destruct decide3.
      - apply allN_nil.
      - intros l E. injection E as <-. constructor; [|constructor]. split; [|split]; simpl; auto.
      - apply allN_None. }
    destruct (tbt P), O; repeat (destruct (Rltb _ _)); repeat (destruct (negb _));
      try apply allN_oapp; try apply allN_oapp; apply S; auto.
  - cbn [process111]. destruct (_ || _); [apply allN_nil|].
    cbv zeta.
    assert (S : forall O c1 c2 c3 d1 d2 d3, J c1 -> J c2 -> J c3 ->
      allN (match decide3 P O c1 c2 c3 d1 d2 d3 with
            | Drop3 => Some []
            | Direct3 u v k => Some [mkev3 c1 c2 c3 (sqrt d1) (sqrt d2) (sqrt d3) u v k]
            | Split3 a b c =>
              match kids a c1, kids b c2, kids c c3 with
              | Some l1, Some l2, Some l3 =>
                oconcat (map (fun t => process111 P O n (fst (fst t)) (snd (fst t)) (snd t)
                                         (keep (only1 a b c) d1) (keep (only1 b a c) d2)
                                         (keep (only1 c a b) d3))
                             (prod3 l1 l2 l3))
              | _, _, _ => None
              end end)).
    { intros O' a1 a2 a3 d1 d2 d3 A1 A2 A3. destruct decide3 as [|u v k|a b c].
      - apply allN_nil.
      - intros l E. injection E as <-. constructor; [|constructor]. split; [|split]; simpl; auto.
      - destruct (kids a a1) as [l1|] eqn:E1; [|apply allN_None].
        destruct (kids b a2) as [l2|] eqn:E2; [|apply allN_None].
        destruct (kids c a3) as [l3|] eqn:E3; [|apply allN_None].
        apply allN_oconcat. intros [[y1 y2] y3] Hy. apply in_prod3 in Hy as [Y1 [Y2 Y3]]. cbn [fst snd].
        apply IH; eauto using kids_J. }
    destruct (tbt P), O; repeat (destruct (Rltb _ _)); repeat (destruct (negb _));
      try apply allN_oapp; try apply allN_oapp; apply S; auto.
Qed.
Lemma run111_N O c1 c2 c3 : J c1 -> J c2 -> J c3 -> allN (run111 P O c1 c2 c3).
Proof. apply process111_N. Qed.
Lemma process12_N O fuel : forall c1 c2, J c1 -> J c2 -> allN (process12 P O fuel c1 c2).
Proof.
  induction fuel as [|n IH]; intros c1 c2 H1 H2; cbn [process12]; cbv zeta;
    repeat (match goal with |- allN (if ?b then Some [] else _) => destruct b; [apply allN_nil|] end).
  - apply allN_None.
  - destruct c2 as [| |d2 s2 l2 r2]; try apply allN_None. destruct (Jkids _ _ _ _ H2).
    destruct (Rltb _ _).
    + destruct c1 as [| |d1 s1 l1 r1]; try apply allN_None. destruct (Jkids _ _ _ _ H1).
      repeat apply allN_oapp; auto using run111_N.
    + repeat apply allN_oapp; auto using run111_N.
Qed.
Lemma run12_N O c1 c2 : J c1 -> J c2 -> allN (run12 P O c1 c2).
Proof. apply process12_N. Qed.
Lemma process3_N c : J c -> allN (process3 P c).
Proof.
  induction c as [| |d s l IHl r IHr]; intro H; cbn [process3];
    repeat (match goal with |- allN (if ?b then Some [] else _) => destruct b; [apply allN_nil|] end);
    try apply allN_None.
  destruct (Jkids _ _ _ _ H). repeat apply allN_oapp; auto using run12_N.
Qed.
Lemma over2_N O c1 l : J c1 -> (forall c, In c l -> J c) -> allN (over2 P O c1 l).
Proof.
  induction l as [|c2 t IH]; intros H1 H; cbn [over2]; [apply allN_nil|].
  assert (J c2) by (apply H; left; auto). assert (forall c, In c t -> J c) by (intros; apply H; right; auto).
  repeat apply allN_oapp; auto using run12_N. apply allN_oconcat. auto using run111_N.
Qed.
Lemma autoOver_N c1 l : J c1 -> (forall c, In c l -> J c) -> allN (autoOver P c1 l).
Proof.
  induction l as [|c2 t IH]; intros H1 H; cbn [autoOver]; [apply allN_nil|].
  assert (J c2) by (apply H; left; auto). assert (forall c, In c t -> J c) by (intros; apply H; right; auto).
  repeat apply allN_oapp; auto using run12_N. apply allN_oconcat. auto using run111_N.
Qed.
Lemma auto3Iters_N l : (forall c, In c l -> J c) -> Forall allN (auto3Iters P l).
Proof.
  induction l as [|c t IH]; intro H; cbn [auto3Iters]; constructor.
  - apply allN_oapp; [apply process3_N; apply H; left; auto|].
    apply autoOver_N; [apply H; left; auto|intros; apply H; right; auto].
  - apply IH. intros; apply H; right; auto.
Qed.
Lemma cross12Iters_N O l1 l2 : (forall c, In c l1 -> J c) -> (forall c, In c l2 -> J c) ->
  Forall allN (cross12Iters P O l1 l2).
Proof.
  intros H1 H2. apply Forall_forall. intros o Ho. unfold cross12Iters in Ho.
  apply in_map_iff in Ho as [c [<- Hc]]. apply over2_N; auto.
Qed.
Lemma cross3Iters_N O l1 l2 l3 : (forall c, In c l1 -> J c) -> (forall c, In c l2 -> J c) ->
  (forall c, In c l3 -> J c) -> Forall allN (cross3Iters P O l1 l2 l3).
Proof.
  intros H1 H2 H3. apply Forall_forall. intros o Ho. unfold cross3Iters in Ho.
  apply in_map_iff in Ho as [c [<- Hc]]. apply allN_oconcat. intros c2 Hc2. apply allN_oconcat.
  auto using run111_N.
Qed.
End EvN.

(** ** ntri = 0 means nothing was added *)
Definition cons3 (s : accum3) : Prop := forall k, 0 <= s TNtri k /\ (s TNtri k = 0 -> forall f, s f k = 0).
Lemma cleared3_cons : cons3 cleared3.
Proof. intro k. unfold cleared3. split; [lra|auto]. Qed.
Lemma acc3Add_cons s t : cons3 s -> cons3 t -> cons3 (acc3Add s t).
Proof.
  intros Hs Ht k. destruct (Hs k) as [S1 S2], (Ht k) as [T1 T2]. unfold acc3Add. split; [lra|].
  intros E f. rewrite S2, T2 by lra. lra.
Qed.
Lemma finish3_cons s e : evN e -> cons3 s -> cons3 (finish3 s e).
Proof.
  intros [N1 [N2 N3]] Hs k. destruct (Hs k) as [S1 S2]. unfold finish3.
  destruct (k =? tk e)%Z; [|auto]. cbn [tval].
  assert (H : 0 < INR (getN (tc1 e)) * INR (getN (tc2 e)) * INR (getN (tc3 e))).
  { repeat apply Rmult_lt_0_compat; apply lt_0_INR; lia. }
  split; [lra|]. intro E. exfalso. lra.
Qed.
Lemma thread3_cons iters : Forall (Forall evN) iters -> cons3 (thread3 iters).
Proof.
  intro H. unfold thread3. assert (G : forall s, cons3 s -> cons3 (fold_left (fun s evs => fold_left finish3 evs s) iters s)).
  { induction H as [|evs l HE HF IH]; intros s Hs; simpl; auto. apply IH.
    revert s Hs. induction HE; intros s Hs; simpl; auto. apply IHHE. apply finish3_cons; auto. }
  apply G, cleared3_cons.
Qed.
Lemma parallel3_cons s0 threads : cons3 s0 -> Forall (Forall (Forall evN)) threads -> cons3 (parallel3 s0 threads).
Proof.
  intros Hs H. revert s0 Hs. unfold parallel3. induction H; intros s0 Hs; simpl; auto.
  apply IHForall. apply acc3Add_cons; auto. apply thread3_cons; auto.
Qed.
Lemma processIters_cons iters s0 s1 : Forall allN iters -> cons3 s0 -> processIters iters s0 s1 -> cons3 s1.
Proof.
  intros HA H0 [evs [threads [E [HS ->]]]]. apply parallel3_cons; auto. subst iters.
  assert (HE : Forall (Forall evN) evs).
  { apply Forall_forall. intros x Hx. rewrite Forall_forall in HA. apply (HA (Some x)); auto. apply in_map; auto. }
  apply Forall_forall. intros th Hth. apply Forall_forall. intros x Hx. rewrite Forall_forall in HE. apply HE.
  eapply Permutation_in; [symmetry; exact HS|]. apply in_concat. eauto.
Qed.
Lemma field_N F cat cells : 0 <= fminsize F -> buildField F cat cells ->
  forall c, In c cells -> wf (fminsize F) c.
Proof.
  intros H0 H c Hc. pose proof (buildField_wf F cat cells H0 H) as W. rewrite Forall_forall in W. auto.
Qed.
Lemma wf_N m c : wf m c -> (1 <= getN c)%nat.
Proof.
  intro H. apply wf_ok in H. rewrite (ok_n _ _ H). pose proof (ok_ne _ _ H). destruct (objs c); [congruence|simpl; lia].
Qed.
Lemma runAuto3_cons R cat s0 s1 : 0 <= fminsize (field3 R) -> cons3 s0 -> runAuto3 R cat s0 s1 -> cons3 s1.
Proof.
  intros H0 HC [cells [HF HI]]. eapply processIters_cons; [|exact HC|exact HI].
  apply (auto3Iters_N (r3P R) (wf (fminsize (field3 R)))); eauto using wf_node, wf_N, field_N.
Qed.
Lemma runCross12_cons R O cat1 cat2 s0 s1 : 0 <= fminsize (field3 R) -> cons3 s0 ->
  runCross12 R O cat1 cat2 s0 s1 -> cons3 s1.
Proof.
  intros H0 HC [cs1 [cs2 [HF1 [HF2 HI]]]]. eapply processIters_cons; [|exact HC|exact HI].
  apply (cross12Iters_N (r3P R) (wf (fminsize (field3 R)))); eauto using wf_node, wf_N, field_N.
Qed.
Lemma runCross3_cons R O cat1 cat2 cat3 s0 s1 : 0 <= fminsize (field3 R) -> cons3 s0 ->
  runCross3 R O cat1 cat2 cat3 s0 s1 -> cons3 s1.
Proof.
  intros H0 HC [cs1 [cs2 [cs3 [HF1 [HF2 [HF3 HI]]]]]]. eapply processIters_cons; [|exact HC|exact HI].
  apply (cross3Iters_N (r3P R) (wf (fminsize (field3 R)))); eauto using wf_node, wf_N, field_N.
Qed.

(** ** += *)
Lemma in_places P k : In k (places P) <-> (0 <= k < tntot P)%Z.
Proof.
  unfold places. rewrite in_map_iff. split.
  - intros [n [<- H]]. apply in_seq in H. lia.
  - intro H. exists (Z.to_nat k). split; [lia|]. apply in_seq. lia.
Qed.
Lemma anyTri_f P s : anyTri P s = false <-> (forall k, In k (places P) -> s TNtri k = 0).
Proof.
  unfold anyTri. split.
  - intros H k Hk. destruct (Req_dec (s TNtri k) 0) as [E|E]; auto. exfalso.
    assert (X : existsb (fun k => negb (Reqb (s TNtri k) 0)) (places P) = true).
    { apply existsb_exists. exists k. split; auto. unfold Reqb. destruct Req_EM_T; auto. }
    congruence.
  - intro H. destruct existsb eqn:E; auto. apply existsb_exists in E as [k [Hk E]].
    rewrite (H k Hk) in E. unfold Reqb in E. destruct Req_EM_T as [_|N]; [discriminate|congruence].
Qed.
Lemma anyTri_clear P : anyTri P cleared3 = false.
Proof. apply anyTri_f. reflexivity. Qed.
Lemma k3add_get P s t f k : cons3 (k3acc t) -> In k (places P) ->
  k3acc (k3add P s t) f k = k3acc s f k + k3acc t f k.
Proof.
  intros Ht Hk. unfold k3add. destruct (anyTri P (k3acc t)) eqn:E; simpl; [reflexivity|].
  pose proof (proj1 (anyTri_f _ _) E k Hk) as Z. rewrite (proj2 (Ht k) Z). lra.
Qed.
Lemma k3add_cons P s t : cons3 (k3acc s) -> cons3 (k3acc t) -> cons3 (k3acc (k3add P s t)).
Proof. intros Hs Ht. unfold k3add. simpl. destruct anyTri; auto. apply acc3Add_cons; auto. Qed.

(** ** Values of jobs *)
Definition ordG (P : tparams) (f : tfield) (k : Z) (O : order) : obj -> obj -> obj -> R :=
  match O with O3 => tri P f k | O1 => tri1 P f k | O0 => tri6 P f k end.
Definition callVal (P : tparams) (f : tfield) (k : Z) (c : call3) : R :=
  match c with
  | CAuto c => sumTriplesU (tri6 P f k) (fst c)
  | C12 o c1 (Some c2) => sumPairs12 (ordG P f k o) (fst c1) (fst c2)
  | C123 o c1 (Some c2) (Some c3) => sumTriples (ordG P f k o) (fst c1) (fst c2) (fst c3)
  | _ => 0
  end.
(** The value of a call, from a process function of the arrays. *)
Definition callExact (C : pcfg3) (f : tfield) (k : Z) (c : call3) : Prop :=
  forall temp, temp3 C c temp -> k3acc temp f k = callVal (p3P C) f k c.
Definition okMin (C : pcfg3) : Prop := 0 <= fminsize (field3 (p3R C)).
Lemma temp3_cons C c temp : okMin C -> temp3 C c temp -> cons3 (k3acc temp).
Proof.
  intros H0 H. destruct c as [c|o c1 [c2|]|o c1 [c2|] [c3|]]; simpl in H;
    try (subst; apply cleared3_cons).
  - destruct H as [t [H ->]]. eapply runAuto3_cons; eauto using cleared3_cons.
  - destruct triv3; [subst; apply cleared3_cons|]. destruct H as [t [H ->]].
    eapply runCross12_cons; eauto using cleared3_cons.
  - destruct triv3; [subst; apply cleared3_cons|]. destruct H as [t [H ->]].
    eapply runCross3_cons; eauto using cleared3_cons.
Qed.
Lemma step3_get C f k st J st' : okMin C -> In k (places (p3P C)) -> callExact C f k (jcall J) -> step3 C st J st' ->
  k3acc (s3self st') f k = k3acc (s3self st) f k + callVal (p3P C) f k (jcall J).
Proof.
  intros H0 Hk HE [temp [HT ->]]. pose proof (temp3_cons C _ temp H0 HT) as HC.
  rewrite <- (HE temp HT). unfold add3. destruct (anyTri _ (k3acc temp)) eqn:E; [|destruct (jforce J)]; cbn [orb].
  - cbn [s3self]. apply k3add_get; auto.
  - cbn [s3self]. apply k3add_get; auto.
  - pose proof (proj1 (anyTri_f _ _) E k Hk) as Z. rewrite (proj2 (HC k) Z).
    destruct (p3NNN C); simpl; lra.
Qed.
Lemma jobs3_get C f k st Js st' : okMin C -> In k (places (p3P C)) ->
  (forall J, In J Js -> callExact C f k (jcall J)) -> runJobs3 C st Js st' ->
  k3acc (s3self st') f k = k3acc (s3self st) f k + sumR (fun J => callVal (p3P C) f k (jcall J)) Js.
Proof.
  intros H0 Hk HE H. induction H as [st|st J st1 Js st2 HS HR IH]; simpl; [lra|].
  rewrite IH by (intros; apply HE; right; auto).
  rewrite (step3_get C f k st J st1); auto; [lra|apply HE; left; auto].
Qed.
Lemma step3_cons C st J st' : okMin C -> cons3 (k3acc (s3self st)) -> step3 C st J st' -> cons3 (k3acc (s3self st')).
Proof.
  intros H0 HS [temp [HT ->]]. pose proof (temp3_cons C _ temp H0 HT) as HC.
  unfold add3. destruct (_ || _); [apply k3add_cons; auto|]. destruct (p3NNN C); auto.
Qed.
Lemma jobs3_cons C st Js st' : okMin C -> cons3 (k3acc (s3self st)) -> runJobs3 C st Js st' ->
  cons3 (k3acc (s3self st')).
Proof. intros H0 HS H. induction H; auto. apply IHrunJobs3. eapply step3_cons; eauto. Qed.

(** tot: a forced job which is trivially zero adds nothing. *)
Definition callTriv (P : tparams) (c : call3) : bool :=
  match c with
  | CAuto _ => false
  | C12 _ c1 (Some c2) => triv3 P (fst c1) (fst c2) (fst c2)
  | C123 _ c1 (Some c2) (Some c3) => triv3 P (fst c1) (fst c2) (fst c3)
  | _ => true
  end.
Definition jobTot3 (C : pcfg3) (J : job3) : R :=
  if callTriv (p3P C) (jcall J) && jforce J then 0 else callTot (jcall J).
Lemma temp3_tot C c temp : p3NNN C = true -> temp3 C c temp ->
  if callTriv (p3P C) c then temp = k3clear else k3tot temp = callTot c.
Proof.
  intros HN H. destruct c as [c|o c1 [c2|]|o c1 [c2|] [c3|]]; simpl in *; try rewrite HN in H; auto.
  - destruct H as [t [_ ->]]. simpl. lra.
  - destruct triv3; auto. destruct H as [t [_ ->]]. simpl. lra.
  - destruct triv3; auto. destruct H as [t [_ ->]]. simpl. lra.
Qed.
Lemma step3_tot C st J st' : p3NNN C = true -> step3 C st J st' ->
  k3tot (s3self st') = k3tot (s3self st) + jobTot3 C J.
Proof.
  intros HN [temp [HT ->]]. pose proof (temp3_tot C _ temp HN HT) as H. unfold jobTot3, add3.
  destruct (callTriv _ _).
  - subst temp. cbn [k3acc k3clear]. rewrite anyTri_clear. cbn [orb andb]. destruct (jforce J); [simpl; lra|].
    rewrite HN. simpl. lra.
  - cbn [andb]. destruct (_ || _); [simpl; lra|]. rewrite HN. simpl. lra.
Qed.
Lemma jobs3_tot C st Js st' : p3NNN C = true -> runJobs3 C st Js st' ->
  k3tot (s3self st') = k3tot (s3self st) + sumR (jobTot3 C) Js.
Proof.
  intros HN H. induction H as [st|st J st1 Js st2 HS HR IH]; simpl; [lra|].
  rewrite IH, (step3_tot C st J st1); auto. lra.
Qed.
