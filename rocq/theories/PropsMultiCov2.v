(** C92: method='shot' of estimate_multi_cov, and the func option of estimate_cov. *)
From Coq Require Import Reals Lra Lia List ZArith Bool.
From Verif Require Import Base Geometry Tree Traverse Run Corr Patch Cov Spec SpecRun GeomFacts SumFacts CovFacts PropsCov PropsCov2 MultiCov PropsMultiCov.
Import ListNotations.
Open Scope R_scope.

(** method='shot': func is a ValueError, and so is an empty list.  Otherwise the result has one entry
    for every bin of every object, in order: the variance of the object (its own _var_num) over the
    weight of the bin, or 0 where the weight is 0. *)
Theorem C92_shot draws func os :
  match func with
  | Some _ => estimateMultiCov Shot draws func os = ValErr
  | None =>
    match os with
    | [] => estimateMultiCov Shot draws func os = ValErr
    | _ => exists v, estimateMultiCov Shot draws func os = Diag v /\ length v = length (flat_map getWeight os) /\
        forall pre o post i, os = pre ++ o :: post -> (i < length (getWeight o))%nat ->
          let w := nth i (getWeight o) 0 in let x := nth (length (flat_map getWeight pre) + i) v 0 in
          (w = 0 -> x = 0) /\ (w <> 0 -> x * w = o_varnum o)
    end
  end.
Proof.
  destruct func as [f|]; [destruct os; reflexivity|].
  destruct os as [|c t]; [reflexivity|].
  assert (L : forall l, length (flat_map (fun o => map (covShot (o_varnum o)) (getWeight o)) l) = length (flat_map getWeight l)).
  { induction l as [|o l IH]; auto. cbn [flat_map]. rewrite !app_length, map_length, IH. auto. }
  exists (flat_map (fun o => map (covShot (o_varnum o)) (getWeight o)) (c :: t)). split; [reflexivity|]. split; [apply L|].
  intros pre o post i E Hi w x.
  assert (X : x = covShot (o_varnum o) w).
  { unfold x, w. rewrite E, flat_map_app. cbn [flat_map]. rewrite app_nth2 by (rewrite L; lia). rewrite L. rewrite app_nth1 by (rewrite map_length; lia).
    replace (length (flat_map getWeight pre) + i - length (flat_map getWeight pre))%nat with i by lia.
    apply (nth_map_in (covShot (o_varnum o))); auto. }
  rewrite X. unfold covShot. destruct (Req_EM_T w 0); split; intros; try lra. field; auto.
Qed.

(** What the function of a row sees: the object after the selections so far. *)
Fixpoint ownStates (o : cobj) (pl : list (list key)) : list cobj :=
  match pl with [] => [] | p :: t => advance o p :: ownStates (advance o p) t end.
Lemma design_ownF f o pl : map fst (multiDesign f [o] (map (fun p => [p]) pl)) = map (fun c => f [c]) (ownStates o pl).
Proof.
  revert o. induction pl as [|p t IH]; intro o; auto. cbn [map]. rewrite design_cons. cbn [stepAll ownStates map fst].
  rewrite IH. auto.
Qed.
(** estimate_cov with func: the covariance of what func returns for the object in each row. *)
Theorem C92_estimate_cov m draws f o : m <> Shot -> m <> Sample -> o_keys o = true ->
  exists C, estimateCov m draws (Some f) o = Mat C /\
  forall i j, let sts := ownStates o (selOf m draws (o_num o) o) in
    C i j = cscal (factor m (length sts))
              (covSum (map (fun c => nth i (f c) (0, 0)) sts) (map (fun c => nth j (f c) (0, 0)) sts)).
Proof.
  intros Hm Hs K. unfold estimateCov. cbn [option_map].
  set (g := fun os => match os with c :: _ => f c | [] => [] end).
  assert (HP : plistOf m draws [o] = map (fun p => [p]) (selOf m draws (o_num o) o)).
  { destruct m; try contradiction; cbn [plistOf selOf map zipRows fold_right]; auto;
    rewrite ?Nat.max_0_r; rewrite map_map; reflexivity. }
  set (v := map (fun r => rowOf (fst r)) (multiDesign g [o] (plistOf m draws [o]))).
  assert (HV : forall i, map (fun r : vrow => r i) v = map (fun c => nth i (f c) (0, 0)) (ownStates o (selOf m draws (o_num o) o))).
  { intro i. unfold v. rewrite HP, map_map. unfold rowOf.
    rewrite <- (map_map fst (fun l : list cplx => nth i l (0, 0))), design_ownF, map_map. reflexivity. }
  assert (HL : length v = length (ownStates o (selOf m draws (o_num o) o))).
  { rewrite <- (map_length (fun r : vrow => r 0%nat)), HV, map_length. auto. }
  exists (match m with Jackknife => covJack v | _ => covBoot v end). split.
  - unfold estimateMultiCov. unfold checkPatchNums. cbn [existsb]. rewrite K. cbn [negb orb]. destruct m; try contradiction; reflexivity.
  - intros i j. cbv zeta. set (sts := ownStates o (selOf m draws (o_num o) o)) in *. assert (X := gram_covSum v i j). rewrite !HV in X. rewrite <- X, <- HL.
    clearbody v. destruct m; try contradiction; reflexivity.
Qed.
(** Two objects with different variances; and func = twice the data vector. *)
Definition shO (var w : R) : cobj := kkObj mcB mcD1 3 3 10 var (mkKK (mkacc (fun _ => 1) (fun _ => w) (fun _ => 0) (fun _ => 0) (fun _ => 0) (fun _ => 0))).
Example C92_shot_example : exists v, estimateMultiCov Shot (fun _ => []) None [shO 6 2; shO 8 0; shO 5 4] = Diag v /\
  v = [3; 0; 5/4] /\ estimateMultiCov Shot (fun _ => []) (Some concatStat) [shO 6 2; shO 8 0; shO 5 4] = ValErr.
Proof.
  exists (map (covShot 6) (getWeight (shO 6 2)) ++ map (covShot 8) (getWeight (shO 8 0)) ++ map (covShot 5) (getWeight (shO 5 4)) ++ []).
  split; [reflexivity|]. split; [|reflexivity].
  assert (G : forall a w, getWeight (shO a w) = [w]) by reflexivity. rewrite !G. cbn [map app]. unfold covShot.
  destruct (Req_EM_T 2 0); [lra|]. destruct (Req_EM_T 0 0); [|lra]. destruct (Req_EM_T 4 0); [lra|].
  apply f_equal2; [lra|]. apply f_equal2; [lra|]. apply f_equal2; [lra|reflexivity].
Qed.
Example C92_estimate_cov_example : exists C, estimateCov Jackknife (fun _ => []) (Some (fun c => map (cscal 2) (getStat c))) mcO1 = Mat C /\
  C 0%nat 0%nat = (4, 0).
Proof.
  destruct (C92_estimate_cov Jackknife (fun _ => []) (fun c => map (cscal 2) (getStat c)) mcO1) as [C [E H]]; try discriminate; auto.
  exists C. split; auto. rewrite H.
  assert (X : map (fun c => nth 0 (map (cscal 2) (getStat c)) (0, 0)) (ownStates mcO1 (o_jack mcO1)) = map (cscal 2) (ownCol mcO1 (o_jack mcO1) 0)).
  { unfold ownCol. rewrite map_map. generalize (o_jack mcO1). intro l.
    assert (G : forall o, (forall s, length (o_stat o s) = 1%nat) -> map (fun c => nth 0 (map (cscal 2) (getStat c)) (0, 0)) (ownStates o l) =
       map (fun x => cscal 2 (nth 0 (fst x) (0, 0))) (ownRows o l)).
    { induction l as [|p t IH]; intros o Ho; auto. cbn [ownStates ownRows map fst]. rewrite IH by exact Ho. f_equal.
      rewrite (nth_map_in (cscal 2) _ _ (0, 0)); auto. unfold getStat, advance. cbn. rewrite Ho. lia. }
    apply G. intro s. apply mc_good. }
  cbn [selOf]. rewrite X. destruct mc_cols as [_ [HJ _]]. rewrite HJ.
  replace (length (ownStates mcO1 (o_jack mcO1))) with 3%nat.
  - unfold covSum, cmean. cbn [map combine length]. unfold factor. rewrite !csum3. unfold cscal, cmul, cconj, csub, cadd. cbn [fst snd INR]. apply f_equal2; field.
  - rewrite <- (map_length (cscal 2)) in HJ || idtac. assert (Y := f_equal (@length _) HJ). unfold ownCol in Y. rewrite map_length, ownRows_length in Y.
    rewrite <- (map_length (fun c => nth 0 (map (cscal 2) (getStat c)) (0, 0))), X, HJ. reflexivity.
Qed.
