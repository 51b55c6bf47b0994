(** C69: three-point processing with patch_method='local'. *)
From Coq Require Import Reals Lra Lia List ZArith Bool Permutation Psatz.
From Verif Require Import Base Geometry Tree Traverse Run Corr Patch Spec SpecRun GeomFacts SumFacts TreeFacts
  BinFacts TravFacts Exact MetricFacts Cover Lift Runs Examples Account PropsCount PropsRun PropsCorr PatchFacts
  PropsPatch PropsLocal Corr3 TriCover TriStop SpecTri TriFacts TriSpec PropsTri TriMirror PropsTri2
  Patch3 Patch3Facts Patch3Sum Patch3Res PropsPatch3.
Import ListNotations.
Open Scope R_scope.

(** The expanded patch and the rows left out, which are all at max_sep or further. *)
Lemma filter_split {A} (p : A -> bool) l : Permutation (filter p l ++ filter (fun x => negb (p x)) l) l.
Proof.
  induction l as [|x t IH]; simpl; auto. destruct (p x); simpl.
  - apply perm_skip; auto.
  - rewrite <- Permutation_middle. apply perm_skip; auto.
Qed.
Lemma local_split Rc c1 cats2 : rcoord Rc <> ThreeD -> exists X,
  Permutation (localRows Rc c1 cats2 ++ X) (allRows cats2) /\
  forall o1 o, In o1 c1 -> In o X -> maxsep (cbin (rP Rc)) <= pdist (opos o1) (opos o).
Proof.
  intro HC. induction cats2 as [|p t [X [HP HX]]].
  - exists []. rewrite localRows_eq. simpl. split; auto. intros o1 o _ [].
  - rewrite localRows_eq in *. cbn [flat_map].
    set (l := if usePatch Rc c1 p then _ else []).
    assert (exists Y, Permutation (l ++ Y) (pobjs p) /\
      forall o1 o, In o1 c1 -> In o Y -> maxsep (cbin (rP Rc)) <= pdist (opos o1) (opos o)) as [Y [HY HF]].
    { subst l. unfold usePatch. rewrite !collapse_id by auto.
      destruct Rltb eqn:E; cbn [negb].
      - apply Rltb_true in E. exists (pobjs p). split; auto. intros o1 o I1 I2.
        pose proof (size_bound (meanPos c1) c1 o1 I1) as S1. fold (maxDist (meanPos c1) c1) in S1.
        pose proof (size_bound (meanPos (pobjs p)) (pobjs p) o I2) as S2. fold (maxDist (meanPos (pobjs p)) (pobjs p)) in S2.
        pose proof (pdist_triangle (opos o) (opos o1) (meanPos c1)) as T1.
        pose proof (pdist_triangle (meanPos (pobjs p)) (opos o) (meanPos c1)) as T2.
        rewrite (pdist_sym (opos o) (opos o1)) in T1. rewrite (pdist_sym (meanPos c1) (opos o1)) in S1.
        change (norm (psub (meanPos (pobjs p)) (meanPos c1))) with (pdist (meanPos (pobjs p)) (meanPos c1)) in E.
        rewrite ?(pdist_sym (opos o1) (meanPos c1)) in *. rewrite ?(pdist_sym (opos o) (meanPos (pobjs p))) in *. lra.
      - unfold nearRows. eexists. split; [apply filter_split|]. intros o1 o I1 I2. apply filter_In in I2 as [I2 N].
        rewrite collapse_id in N by auto. apply negb_true_iff in N.
        change (norm (psub (opos o) (meanPos c1))) with (pdist (opos o) (meanPos c1)) in N.
        unfold Rltb in N. destruct Rlt_dec as [L|L]; [discriminate|].
        pose proof (size_bound (meanPos c1) c1 o1 I1) as S1. fold (maxDist (meanPos c1) c1) in S1.
        pose proof (pdist_triangle (opos o) (opos o1) (meanPos c1)) as T1.
        rewrite (pdist_sym (opos o) (opos o1)) in T1. rewrite ?(pdist_sym (opos o1) (meanPos c1)) in *. lra. }
    exists (Y ++ X). split.
    + unfold allRows. cbn [map concat]. fold (allRows t). rewrite <- HY, <- HP.
      rewrite <- !app_assoc. apply Permutation_app_head. rewrite !app_assoc. apply Permutation_app_tail.
      apply Permutation_app_comm.
    + intros o1 o I1 I2. apply in_app_or in I2 as [I2|I2]; auto.
Qed.

(** Sums over an expanded patch. *)
Lemma local_sum12 Rc c1 cats g : rcoord Rc <> ThreeD -> sym23 g ->
  (forall a b c, In a c1 -> maxsep (cbin (rP Rc)) <= pdist (opos a) (opos b) -> g a b c = 0) ->
  sum12 g c1 (localRows Rc c1 cats) = sum12 g c1 (allRows cats).
Proof.
  intros HC HS HG. destruct (local_split Rc c1 cats HC) as [X [HP HX]].
  rewrite <- (sum12_perm2 g c1 _ _ HS HP), sum12_app2.
  rewrite (sum12_0 g c1 X), (sum3_0 g c1 _ X); [lra| |].
  - intros a b c Ha _ Hc. rewrite HS. eauto.
  - intros a b c Ha Hb _. eauto.
Qed.
Lemma local_sum3 Rc c1 cats2 cats3 g : rcoord Rc <> ThreeD ->
  (forall a b c, In a c1 -> maxsep (cbin (rP Rc)) <= pdist (opos a) (opos b) -> g a b c = 0) ->
  (forall a b c, In a c1 -> maxsep (cbin (rP Rc)) <= pdist (opos a) (opos c) -> g a b c = 0) ->
  sum3 g c1 (localRows Rc c1 cats2) (localRows Rc c1 cats3) = sum3 g c1 (allRows cats2) (allRows cats3).
Proof.
  intros HC HG1 HG2. destruct (local_split Rc c1 cats2 HC) as [X [HP HX]].
  destruct (local_split Rc c1 cats3 HC) as [Y [HP' HY]].
  rewrite <- (sum3_perm g c1 c1 _ _ _ _ (Permutation_refl _) HP HP'), sum3_app2, !sum3_app3.
  rewrite (sum3_0 g c1 (localRows _ _ _) Y), (sum3_0 g c1 X (localRows _ _ _)), (sum3_0 g c1 X Y); [lra| | |];
    intros a b c Ha Hb Hc; eauto.
Qed.
(** Triangles with each row as vertex 1. *)
Lemma square_upairs {A} (h : A -> A -> R) l : (forall a, In a l -> h a a = 0) ->
  sumR (fun a => sumR (fun b => h a b) l) l = sumR (fun q => h (fst q) (snd q) + h (snd q) (fst q)) (upairs l).
Proof.
  induction l as [|x t IH]; intro H0; simpl; auto. rewrite sumR_app, sumR_map. cbn [fst snd].
  rewrite (sumR_plus (fun a => h a x)), !(sumR_plus (fun b => h x b)), IH by (intros; apply H0; right; auto).
  rewrite (H0 x) by (left; auto). lra.
Qed.
Lemma sum12_all g (l : list obj) : sym23 g -> (forall a b, In a l -> In b l -> g a a b = 0) ->
  sum12 g l l = sumU3 (fun a b c => g a b c + g b a c + g c a b) l.
Proof.
  intros HS. unfold sum12. induction l as [|x t IH]; intro H0; auto.
  cbn [sumU3 upairs]. cbn [sumR].
  rewrite (sumR_ext (fun a => sumR (fun q => g a (fst q) (snd q)) (map (fun y => (x, y)) t ++ upairs t))
    (fun a => sumR (fun y => g a x y) t + sumR (fun q => g a (fst q) (snd q)) (upairs t)))
    by (intros; rewrite sumR_app, sumR_map; reflexivity).
  rewrite sumR_plus, sumR_app, sumR_map. cbn [fst snd].
  rewrite (sumR_0 (fun a => g x x a)) by (intros; apply H0; simpl; auto).
  rewrite IH by (intros; apply H0; right; auto).
  rewrite (square_upairs (fun a y => g a x y)).
  2: { intros a Ha. rewrite HS. apply H0; simpl; auto. }
  rewrite Rplus_0_l, <- Rplus_assoc, <- sumR_plus.
  f_equal. apply sumR_ext. intros [b c] Hq. simpl. rewrite (HS c x b), (HS b x c). 
  rewrite (HS b c x), (HS c b x). lra.
Qed.
Lemma sum3_square g (l1 l2 : list obj) : (forall a b, g b a b = 0) ->
  sum3 g l2 l1 l2 = sumR (fun a => sumR (fun q => g (fst q) a (snd q) + g (snd q) a (fst q)) (upairs l2)) l1.
Proof.
  intro H0. rewrite sum3_swap12. unfold sum3. apply sumR_ext. intros a _.
  apply (square_upairs (fun b c => g b a c)). auto.
Qed.

Section Loc.
Context (C : pcfg3) (f : tfield) (k : Z).
Let P := p3P C.
Context (X : exact3 P) (HC : tcoord P <> ThreeD) (Hk : (0 <= k < tntot P)%Z).
Let V : validRUV P := e3V _ X.
Lemma far_tri a b c : tmaxsep P <= pdist (opos a) (opos b) -> tri P f k a b c = 0 /\ tri P f k a c b = 0.
Proof.
  intro H. split; apply Rnot_lt_ge in H || idtac.
  - destruct (Req_dec (tri P f k a b c) 0) as [E|E]; auto. apply (tri_sides P V) in E as [_ E].
    unfold side3 in E. rewrite euclid_pdist in E. exfalso; lra.
  - destruct (Req_dec (tri P f k a c b) 0) as [E|E]; auto. apply (tri_sides P V) in E as [E _].
    unfold side2 in E. rewrite euclid_pdist in E. exfalso; lra.
Qed.
Lemma far_tri1 a b c : tmaxsep P <= pdist (opos a) (opos b) -> tri1 P f k a b c = 0.
Proof. intro H. unfold tri1. destruct (far_tri a b c H) as [-> ->]. lra. Qed.
Lemma tri_pos a b c : tri P f k a b c <> 0 -> 0 < pdist (opos a) (opos b) /\ 0 < pdist (opos a) (opos c).
Proof.
  unfold tri. destruct (selTri P k a b c) eqn:E; [|congruence]. intros _.
  apply (selTri_iff P V) in E as [[[H1 H2] _] _]. unfold side1, side2, side3 in *. rewrite <- !euclid_pdist. lra.
Qed.
Lemma tri1_diag a b : tri1 P f k a a b = 0.
Proof.
  unfold tri1. 
  destruct (Req_dec (tri P f k a a b) 0) as [->|E]; [|apply tri_pos in E as [E _]; rewrite pdist_refl in E; lra].
  destruct (Req_dec (tri P f k a b a) 0) as [->|E]; [|apply tri_pos in E as [_ E]; rewrite pdist_refl in E; lra].
  lra.
Qed.
Lemma tri6_tri1 a b c : tri6 P f k a b c = tri1 P f k a b c + tri1 P f k b a c + tri1 P f k c a b.
Proof. unfold tri6, tri1. lra. Qed.
Lemma s23 : sym23 (tri1 P f k). Proof. intros a b c. apply tri1_sym23. Qed.
Let Rc := exp3cfg (p3R C).
Lemma expval12 c cats : callVal P f k (C12 O1 (catOf c) (expand3 (p3R C) c cats)) =
  sum12 (tri1 P f k) (pobjs c) (allRows cats).
Proof.
  rewrite <- (local_sum12 Rc (pobjs c) cats (tri1 P f k) HC s23).
  - unfold callVal, expand3, localRows. fold Rc. destruct (expandedPatch Rc (pobjs c) cats) as [[l w]|]; cbn [fst catOf].
    + rewrite sumPairs12_eq. reflexivity.
    + unfold sum12. rewrite sumR_0; auto.
  - intros a b d _ H. apply far_tri1. exact H.
Qed.
Lemma expval123 O c cats2 cats3 : O <> O0 ->
  callVal P f k (C123 O (catOf c) (expand3 (p3R C) c cats2) (expand3 (p3R C) c cats3)) =
  sum3 (ordG P f k O) (pobjs c) (allRows cats2) (allRows cats3).
Proof.
  intro HO. rewrite <- (local_sum3 Rc (pobjs c) cats2 cats3 (ordG P f k O) HC).
  - unfold callVal, expand3, localRows. fold Rc. destruct (expandedPatch Rc (pobjs c) cats2) as [[l w]|];
      destruct (expandedPatch Rc (pobjs c) cats3) as [[l' w']|]; cbn [fst catOf];
      rewrite ?sum3_nil2, ?sum3_nil3; auto.
  - intros a b d _ H. destruct O; simpl; [congruence|apply far_tri1; exact H|apply (far_tri a b d); exact H].
  - intros a b d _ H. destruct O; simpl; [congruence|rewrite s23; apply far_tri1; exact H|apply (far_tri a d b); exact H].
Qed.
Lemma sum12_rows g cats l : sumR (fun c => sum12 g (pobjs c) l) cats = sum12 g (allRows cats) l.
Proof. unfold allRows. rewrite sum12_concat1, sumR_map. reflexivity. Qed.
Lemma sum3_rows g cats l l' : sumR (fun c => sum3 g (pobjs c) l l') cats = sum3 g (allRows cats) l l'.
Proof. unfold allRows. induction cats as [|c t IH]; simpl; auto. rewrite sum3_app1, IH. reflexivity. Qed.
Lemma local3_val cats : sumR (fun J => callVal P f k (jcall J)) (local3Auto (p3R C) cats) =
  sumTriplesU (tri6 P f k) (allRows cats).
Proof.
  unfold local3Auto. rewrite sumR_map. cbn [jcall].
  rewrite (sumR_ext _ (fun c => sum12 (tri1 P f k) (pobjs c) (allRows cats))) by (intros; apply expval12).
  rewrite sum12_rows, sum12_all; [|apply s23|intros; apply tri1_diag].
  apply sumU3_ext. intros. symmetry. apply tri6_tri1.
Qed.
Lemma local12_val ordered cats1 cats2 : sumR (fun J => callVal P f k (jcall J)) (local12 (p3R C) ordered cats1 cats2) =
  sumPairs12 (if ordered then tri1 P f k else tri6 P f k) (allRows cats1) (allRows cats2).
Proof.
  unfold local12. rewrite sumR_app, sumR_map. cbn [jcall].
  rewrite (sumR_ext _ (fun c => sum12 (tri1 P f k) (pobjs c) (allRows cats2))) by (intros; apply expval12).
  rewrite sum12_rows. etransitivity; [|symmetry; apply sumPairs12_eq]. destruct ordered; [simpl; lra|].
  rewrite sumR_map. cbn [jcall].
  rewrite (sumR_ext _ (fun c => sum3 (tri1 P f k) (pobjs c) (allRows cats1) (allRows cats2))).
  2: { intros c _. apply (expval123 O1). discriminate. }
  rewrite sum3_rows, sum3_square.
  2: { intros. rewrite s23. apply tri1_diag. }
  unfold sum12. rewrite <- sumR_plus. apply sumR_ext. intros a _. rewrite <- sumR_plus. apply sumR_ext.
  intros [b c] _. simpl. rewrite tri6_tri1. lra.
Qed.
Lemma local123_val O cats1 cats2 cats3 :
  sumR (fun J => callVal P f k (jcall J)) (local123 (p3R C) O cats1 cats2 cats3) =
  sumTriples (ordG P f k O) (allRows cats1) (allRows cats2) (allRows cats3).
Proof.
  unfold local123. rewrite sumR_app, sumR_map. cbn [jcall]. etransitivity; [|symmetry; apply sumTriples_eq].
  rewrite (sumR_ext _ (fun c => sum3 (ordG P f k (match O with O0 => O1 | _ => O end)) (pobjs c) (allRows cats2) (allRows cats3))).
  2: { intros c _. apply expval123. destruct O; discriminate. }
  rewrite sum3_rows. destruct O; [|simpl; lra|simpl; lra].
  rewrite sumR_app, !sumR_map. cbn [jcall].
  rewrite (sumR_ext _ (fun c => sum3 (tri1 P f k) (pobjs c) (allRows cats1) (allRows cats3)) cats2)
    by (intros; apply (expval123 O1); discriminate).
  rewrite (sumR_ext _ (fun c => sum3 (tri1 P f k) (pobjs c) (allRows cats1) (allRows cats2)) cats3)
    by (intros; apply (expval123 O1); discriminate).
  rewrite !sum3_rows. cbn [ordG].
  rewrite (sum3_swap12 _ (allRows cats2)).
  rewrite (sum3_swap12 _ (allRows cats3)). rewrite (sum3_swap23 _ (allRows cats1) (allRows cats3)).
  rewrite <- !sum3_plus. apply sum3_ext. intros. rewrite tri6_tri1. lra.
Qed.
End Loc.

Lemma expand_rows R c cats o : In o (match expand3 R c cats with Some x => fst x | None => [] end) -> In o (allRows cats).
Proof.
  intro H. apply (localRows_sub (exp3cfg R) (pobjs c) cats). unfold localRows, expand3 in *.
  destruct (expandedPatch (exp3cfg R) (pobjs c) cats) as [[l w]|]; auto.
Qed.
Ltac locRows := match goal with H : In _ (callRows _) |- _ =>
  cbn [callRows jcall catOf fst] in H; rewrite ?in_app_iff in H;
  repeat match goal with K : _ \/ _ |- _ => destruct K as [K|K] end;
  first [apply expand_rows in H | eapply in_allRows in H; [|eassumption]]; rewrite ?in_app_iff; auto end.
Theorem C69_auto C cats f k st :
  exact3 (p3P C) -> tcoord (p3P C) <> ThreeD -> weights3 f (allRows cats) -> (0 <= k < tntot (p3P C))%Z ->
  runJobs3 C s3clear (local3Auto (p3R C) cats) st ->
  k3acc (s3self st) f k = sumTriplesU (tri6 (p3P C) f k) (allRows cats) /\
  (forall st', noTies (allRows cats) -> NoDup (map pidx cats) -> runJobs3 C s3clear (auto3Jobs cats) st' ->
     k3acc (s3self st) f k = k3acc (s3self st') f k) /\
  (forall s, noTies (allRows cats) -> runAuto3 (p3R C) (allRows cats) cleared3 s -> k3acc (s3self st) f k = s f k).
Proof.
  intros X HC W Hk HR.
  assert (E : k3acc (s3self st) f k = sumTriplesU (tri6 (p3P C) f k) (allRows cats)).
  { rewrite (jobs3_get C f k s3clear (local3Auto (p3R C) cats) st); auto using exact3_okMin.
    - rewrite local3_val by auto. simpl. unfold cleared3. lra.
    - apply in_places; auto.
    - apply (calls_exact C f k (allRows cats)); auto.
      + intros [J [HJ EJ]]. apply in_map_iff in HJ as [p [<- Hp]]. discriminate.
      + intros J HJ. apply in_map_iff in HJ as [p [<- Hp]]. split; [discriminate|]. intros o Ho. locRows. }
  split; auto. rewrite E. split.
  - intros st' NT HN HR'. symmetry. rewrite (jobs3_get C f k s3clear (auto3Jobs cats) st'); auto using exact3_okMin.
    + rewrite auto3Jobs_val by auto. simpl. unfold cleared3. lra.
    + apply in_places; auto.
    + apply (calls_exact C f k (allRows cats)); auto. intros; apply auto3_calls; auto.
  - intros s NT HS. destruct X as [V S E' MV].
    rewrite (C65_auto_exact (p3R C) f k (allRows cats) cleared3 s); auto. unfold cleared3, p3P. lra.
Qed.
Theorem C69_cross12 C ordered cats1 cats2 f k st :
  exact3 (p3P C) -> tcoord (p3P C) <> ThreeD -> weights3 f (allRows cats1 ++ allRows cats2) ->
  (0 <= k < tntot (p3P C))%Z ->
  runJobs3 C s3clear (local12 (p3R C) ordered cats1 cats2) st ->
  k3acc (s3self st) f k =
    sumPairs12 (if ordered then tri1 (p3P C) f k else tri6 (p3P C) f k) (allRows cats1) (allRows cats2).
Proof.
  intros X HC W Hk HR.
  rewrite (jobs3_get C f k s3clear (local12 (p3R C) ordered cats1 cats2) st); auto using exact3_okMin.
  - rewrite local12_val by auto. simpl. unfold cleared3. lra.
  - apply in_places; auto.
  - apply (calls_exact C f k (allRows cats1 ++ allRows cats2)); auto; unfold local12.
    + intros [J [HJ EJ]]. apply in_app_or in HJ as [HJ|HJ]; [|destruct ordered; [contradiction|]];
        apply in_map_iff in HJ as [p [<- Hp]]; discriminate.
    + intros J HJ. apply in_app_or in HJ as [HJ|HJ]; [|destruct ordered; [contradiction|]];
        apply in_map_iff in HJ as [p [<- Hp]]; (split; [try discriminate; exact I|]); intros o Ho; locRows.
Qed.
Theorem C69_cross C O cats1 cats2 cats3 f k st :
  exact3 (p3P C) -> tcoord (p3P C) <> ThreeD -> weights3 f (allRows cats1 ++ allRows cats2 ++ allRows cats3) ->
  (0 <= k < tntot (p3P C))%Z ->
  runJobs3 C s3clear (local123 (p3R C) O cats1 cats2 cats3) st ->
  k3acc (s3self st) f k =
    sumTriples (match O with O3 => tri (p3P C) f k | O1 => tri1 (p3P C) f k | O0 => tri6 (p3P C) f k end)
      (allRows cats1) (allRows cats2) (allRows cats3).
Proof.
  intros X HC W Hk HR.
  rewrite (jobs3_get C f k s3clear (local123 (p3R C) O cats1 cats2 cats3) st); auto using exact3_okMin.
  - rewrite local123_val by auto. simpl. unfold cleared3. rewrite Rplus_0_l. destruct O; reflexivity.
  - apply in_places; auto.
  - apply (calls_exact C f k (allRows cats1 ++ allRows cats2 ++ allRows cats3)); auto; unfold local123.
    + intros [J [HJ EJ]]. apply in_app_or in HJ as [HJ|HJ].
      * apply in_map_iff in HJ as [p [<- Hp]]. destruct O; discriminate.
      * destruct O; try contradiction. apply in_app_or in HJ as [HJ|HJ]; apply in_map_iff in HJ as [p [<- Hp]]; discriminate.
    + intros J HJ. apply in_app_or in HJ as [HJ|HJ].
      * apply in_map_iff in HJ as [p [<- Hp]]; (split; [exact I|]); intros o Ho; locRows.
      * destruct O; try contradiction. apply in_app_or in HJ as [HJ|HJ]; apply in_map_iff in HJ as [p [<- Hp]];
          (split; [exact I|]); intros o Ho; locRows.
Qed.
