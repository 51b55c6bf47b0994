(** Row-wise description of what _finish_input does (Catalog.v). *)
From Coq Require Import Reals Lra Lia List ZArith Bool.
From Verif Require Import Base Geometry Tree Traverse SumFacts Catalog.
Import ListNotations.
Open Scope R_scope.

(** ** The rows that should be excluded, and the weights that the others should have *)
Section Rows.
Variable ign : Z.
Variable c : rawcat.
Definition flagged (r : row) : bool := has_flag c && negb (Z.land (rflag r) ign =? 0)%Z.
Definition nanRow (r : row) : bool := existsb isnan (rcols r).
Definition clean (v : fl) : fl := match v with NaN => Num 0 | Num x => Num x end.
Definition inputW (r : row) : fl := if has_w c then rw r else Num 1.
Definition finalWpos (r : row) : fl := if flagged r then Num 0 else clean (rwpos r).
Definition finalW (r : row) : fl :=
  if flagged r || nanRow r || (has_wpos c && iszero (finalWpos r)) then Num 0 else clean (inputW r).
Definition cleanRow (r : row) : row :=
  mkrow (map clean (rcols r)) (finalW r) (if has_wpos c then finalWpos r else rwpos r) (rflag r).
Definition weighted : bool :=
  has_w c || has_flag c || existsb nanRow (rrows c) || (has_wpos c && existsb (fun r => iszero (finalWpos r)) (rrows c)).
End Rows.

Lemma existsb_map {A B} (f : A -> B) p l : existsb p (map f l) = existsb (fun a => p (f a)) l.
Proof. induction l; simpl; congruence. Qed.
Lemma existsb_ext {A} (p q : A -> bool) l : (forall a, In a l -> p a = q a) -> existsb p l = existsb q l.
Proof. induction l; simpl; intros H; auto. rewrite H, IHl; auto. Qed.
Lemma existsb_orb {A} (p q : A -> bool) l : existsb (fun a => p a || q a) l = existsb p l || existsb q l.
Proof. induction l; simpl; auto. rewrite IHl. destruct (p a), (q a), (existsb p l); simpl; auto. Qed.
Lemma existsb_false {A} (p : A -> bool) l : existsb p l = false -> forall a, In a l -> p a = false.
Proof.
  intros H a Ha. destruct (p a) eqn:E; auto.
  assert (existsb p l = true) by (apply existsb_exists; eauto). congruence.
Qed.

(** The rows with the weight column filled in. *)
Definition view (c : rawcat) : list row := rrows (ensureW c).
Lemma ensureW_wpos c : has_wpos (ensureW c) = has_wpos c.
Proof. unfold ensureW. destruct (has_w c); reflexivity. Qed.
Lemma ensureW_flag c : has_flag (ensureW c) = has_flag c.
Proof. unfold ensureW. destruct (has_w c); reflexivity. Qed.
Lemma ensureW_w c : has_w (ensureW c) = true.
Proof. unfold ensureW. destruct (has_w c) eqn:E; auto. Qed.
Lemma view_w c : has_w c = true -> view c = rrows c.
Proof. unfold view, ensureW. intros ->. reflexivity. Qed.
Lemma exists_view c (p : row -> bool) : (forall v r, p (setw v r) = p r) -> existsb p (view c) = existsb p (rrows c).
Proof.
  intros H. unfold view, ensureW. destruct (has_w c); auto. simpl. rewrite existsb_map.
  apply existsb_ext. intros. apply H.
Qed.
Lemma map_id_when {A} (g : A -> A) (p : A -> bool) l :
  (forall a, p a = false -> g a = a) -> existsb p l = false -> map g l = l.
Proof.
  intros H He. rewrite <- (map_id l) at 2. apply map_ext_in. intros a Ha. apply H. eapply existsb_false; eauto.
Qed.

(** One conditional pass over the rows. *)
Lemma pass (c : rawcat) (b : bool) (p : row -> bool) (g : row -> row) :
  (forall v r, p (setw v r) = p r) -> (forall r, p r = false -> g r = r) ->
  let c' := if b && existsb p (rrows c) then withRows (ensureW c) (map g (rrows (ensureW c))) else c in
  has_wpos c' = has_wpos c /\ has_flag c' = has_flag c /\ has_w c' = has_w c || (b && existsb p (view c)) /\
  view c' = (if b then map g (view c) else view c).
Proof.
  intros Hp Hg c'. rewrite (exists_view c p Hp). unfold c'. clear c'. destruct b; simpl.
  - destruct (existsb p (rrows c)) eqn:E.
    + unfold withRows. simpl. rewrite ensureW_wpos, ensureW_flag, ensureW_w, orb_true_r. repeat split; auto.
    + rewrite orb_false_r. repeat split; auto. symmetry. apply (map_id_when g p); auto. rewrite exists_view; auto.
  - rewrite orb_false_r. auto.
Qed.

Definition flagRow (ign : Z) (wp : bool) (r : row) : row :=
  if (Z.land (rflag r) ign =? 0)%Z then r
  else let r1 := setw (Num 0) r in if wp then setwpos (Num 0) r1 else r1.
Lemma applyFlag_view ign c : let c' := applyFlag ign c in
  has_wpos c' = has_wpos c /\ has_flag c' = has_flag c /\ has_w c' = has_w c || has_flag c /\
  view c' = (if has_flag c then map (flagRow ign (has_wpos c)) (view c) else view c).
Proof.
  unfold applyFlag. simpl. destruct (has_flag c) eqn:E.
  - unfold withRows. cbn [has_wpos has_flag has_w]. rewrite ensureW_wpos, ensureW_flag, ensureW_w, orb_true_r.
    repeat split; auto.
  - rewrite orb_false_r. auto.
Qed.

Definition colRow (j : nat) (r : row) : row :=
  if colNaN j r then mkrow (zeroAt j (rcols r)) (Num 0) (rwpos r) (rflag r) else r.
Lemma checkCol_view j c : let c' := checkCol c j in
  has_wpos c' = has_wpos c /\ has_flag c' = has_flag c /\ has_w c' = has_w c || existsb (colNaN j) (view c) /\
  view c' = map (colRow j) (view c).
Proof.
  intros c'. destruct (pass c true (colNaN j) (colRow j)) as (A & B & C & D); auto.
  intros r H. unfold colRow. rewrite H. reflexivity.
Qed.
Definition wRow (r : row) : row := if isnan (rw r) then setw (Num 0) r else r.
Lemma checkW_view c : let c' := checkW c in
  has_wpos c' = has_wpos c /\ has_flag c' = has_flag c /\ has_w c' = has_w c /\ view c' = map wRow (view c).
Proof.
  intros c'. unfold c', checkW. destruct (has_w c) eqn:E; simpl.
  - destruct (existsb _ (rrows c)) eqn:E2.
    + simpl. repeat split; auto. unfold view, ensureW. simpl. rewrite E. reflexivity.
    + repeat split; auto. rewrite (view_w c E). symmetry. apply (map_id_when wRow (fun r => isnan (rw r))); auto.
      intros r H. unfold wRow. rewrite H. reflexivity.
  - repeat split; auto. unfold view, ensureW. rewrite E. simpl. rewrite map_map. apply map_ext. intros. reflexivity.
Qed.
Definition wposRow (r : row) : row := if isnan (rwpos r) then setwpos (Num 0) (setw (Num 0) r) else r.
Lemma checkWpos_view c : let c' := checkWpos c in
  has_wpos c' = has_wpos c /\ has_flag c' = has_flag c /\
  has_w c' = has_w c || (has_wpos c && existsb (fun r => isnan (rwpos r)) (view c)) /\
  view c' = (if has_wpos c then map wposRow (view c) else view c).
Proof.
  intros c'. destruct (pass c (has_wpos c) (fun r => isnan (rwpos r)) wposRow) as (A & B & C & D); auto.
  intros r H. unfold wposRow. rewrite H. reflexivity.
Qed.
Definition fixRow (r : row) : row := if iszero (rwpos r) then setw (Num 0) r else r.
Lemma fixWpos_view c : let c' := fixWpos c in
  has_wpos c' = has_wpos c /\ has_flag c' = has_flag c /\
  has_w c' = has_w c || (has_wpos c && existsb (fun r => iszero (rwpos r)) (view c)) /\
  view c' = (if has_wpos c then map fixRow (view c) else view c).
Proof.
  intros c'. destruct (pass c (has_wpos c) (fun r => iszero (rwpos r)) fixRow) as (A & B & C & D); auto.
  intros r H. unfold fixRow. rewrite H. reflexivity.
Qed.

(** The data columns. *)
Lemma firstn_S_nth {A} (d : A) n l : (n < length l)%nat -> firstn (S n) l = firstn n l ++ [nth n l d].
Proof. revert l; induction n; intros [|a l] H; simpl in *; try lia; auto. f_equal. apply IHn. lia. Qed.
Lemma skipn_nth {A} (d : A) n l : (n < length l)%nat -> skipn n l = nth n l d :: skipn (S n) l.
Proof. revert l; induction n; intros [|a l] H; simpl in *; try lia; auto. rewrite IHn by lia. destruct l; reflexivity. Qed.
Lemma zeroAt_app l1 l2 v : zeroAt (length l1) (l1 ++ v :: l2) = l1 ++ Num 0 :: l2.
Proof. induction l1; simpl; congruence. Qed.

Definition colsRow (n : nat) (r : row) : row :=
  mkrow (map clean (firstn n (rcols r)) ++ skipn n (rcols r))
        (if existsb isnan (firstn n (rcols r)) then Num 0 else rw r) (rwpos r) (rflag r).
Lemma row_eta r : r = mkrow (rcols r) (rw r) (rwpos r) (rflag r).
Proof. destruct r; reflexivity. Qed.
Lemma nth_after n r : (n < length (rcols r))%nat -> nth n (rcols (colsRow n r)) (Num 0) = nth n (rcols r) (Num 0).
Proof.
  intros H. simpl. rewrite app_nth2; rewrite map_length, firstn_length_le by lia; [|lia].
  rewrite Nat.sub_diag, (skipn_nth (Num 0)) by auto. reflexivity.
Qed.
Lemma colsRow_S n r : (n < length (rcols r))%nat -> colRow n (colsRow n r) = colsRow (S n) r.
Proof.
  intros H. unfold colRow, colNaN. rewrite nth_after by auto. unfold colsRow. simpl rcols.
  rewrite (firstn_S_nth (Num 0)), map_app, existsb_app, <- app_assoc by auto.
  rewrite (skipn_nth (Num 0) n) by auto. cbn [map existsb rw rwpos rflag].
  assert (L : length (map clean (firstn n (rcols r))) = n) by (rewrite map_length, firstn_length_le; lia).
  destruct (nth n (rcols r) (Num 0)) eqn:E; cbn [isnan].
  - rewrite orb_true_r. rewrite <- L at 1. rewrite zeroAt_app. reflexivity.
  - rewrite !orb_false_r. reflexivity.
Qed.
Lemma cols_view n c : (forall r, In r (rrows c) -> (n <= length (rcols r))%nat) ->
  let c' := fold_left checkCol (seq 0 n) c in
  has_wpos c' = has_wpos c /\ has_flag c' = has_flag c /\
  has_w c' = has_w c || existsb (fun r => existsb isnan (firstn n (rcols r))) (view c) /\
  view c' = map (colsRow n) (view c).
Proof.
  intros Hl. assert (Hv : forall r, In r (view c) -> (n <= length (rcols r))%nat).
  { intros r Hr. unfold view, ensureW in Hr. destruct (has_w c); auto. simpl in Hr. apply in_map_iff in Hr.
    destruct Hr as (r0 & <- & Hr). simpl. auto. }
  clear Hl. induction n as [|n IH]; intros c'.
  - simpl in c'. unfold c'. repeat split; auto.
    + assert (existsb (fun _ : row => false) (view c) = false) by (clear; induction (view c) as [|x l IHl]; simpl; auto).
      simpl. rewrite H, orb_false_r. reflexivity.
    + symmetry. rewrite <- (map_id (view c)) at 2. apply map_ext. intros []. reflexivity.
  - destruct IH as (A & B & C & D). { intros r Hr. apply Hv in Hr. lia. }
    unfold c'. rewrite seq_S, fold_left_app. cbn [fold_left]. rewrite Nat.add_0_l.
    set (d := fold_left checkCol (seq 0 n) c) in *.
    destruct (checkCol_view n d) as (A' & B' & C' & D'). rewrite A', B', C', D', A, B, C, D. repeat split; auto.
    + rewrite <- orb_assoc. f_equal. rewrite existsb_map, <- existsb_orb. apply existsb_ext. intros r Hr.
      rewrite (firstn_S_nth (Num 0)) by (apply Hv in Hr; lia). rewrite existsb_app.
      unfold colNaN. rewrite nth_after by (apply Hv in Hr; lia). simpl. rewrite orb_false_r. reflexivity.
    + rewrite map_map. apply map_ext_in. intros r Hr. apply colsRow_S. apply Hv in Hr. lia.
Qed.

(** ** All of the passes *)
Lemma iszero_0 : iszero (Num 0) = true.
Proof. unfold iszero. destruct (Req_EM_T 0 0); [reflexivity|lra]. Qed.
Lemma wpos_wRow r : rwpos (wRow r) = rwpos r.
Proof. unfold wRow. destruct (isnan (rw r)); reflexivity. Qed.
Lemma zero_wposRow r : isnan (rwpos r) || iszero (rwpos (wposRow r)) = iszero (clean (rwpos r)).
Proof. unfold wposRow. destruct (rwpos r) eqn:E; cbn [isnan orb clean]; rewrite ?iszero_0, ?E; reflexivity. Qed.
Lemma row_calc ign c r :
  (if has_wpos c then fixRow (wposRow (wRow (colsRow (length (rcols r))
      ((if has_flag c then flagRow ign (has_wpos c) else fun r => r) (mkrow (rcols r) (inputW c r) (rwpos r) (rflag r))))))
   else wRow (colsRow (length (rcols r))
      ((if has_flag c then flagRow ign (has_wpos c) else fun r => r) (mkrow (rcols r) (inputW c r) (rwpos r) (rflag r)))))
  = cleanRow ign c r.
Proof.
  unfold cleanRow, finalW, finalWpos, flagged, nanRow. generalize (inputW c r). intros w0.
  destruct r as [cs w wp f]. cbn [rcols rw rwpos rflag].
  assert (Hc : forall w' wp', colsRow (length cs) (mkrow cs w' wp' f) =
     mkrow (map clean cs) (if existsb isnan cs then Num 0 else w') wp' f).
  { intros. unfold colsRow. cbn [rcols rw rwpos rflag]. rewrite firstn_all, skipn_all, app_nil_r. reflexivity. }
  assert (Hw : forall cs w' wp', wRow (mkrow cs w' wp' f) = mkrow cs (clean w') wp' f).
  { intros ? [] ?; reflexivity. }
  assert (Hp : forall cs w' wp', fixRow (wposRow (mkrow cs w' wp' f)) =
     mkrow cs (if iszero (clean wp') then Num 0 else w') (clean wp') f).
  { intros ? ? [|p]; unfold fixRow, wposRow; cbn; destruct (Req_EM_T _ 0); try reflexivity; lra. }
  assert (Hf : forall b, (if has_flag c then flagRow ign b else fun r => r) (mkrow cs w0 wp f) =
     if has_flag c && negb (Z.land f ign =? 0)%Z then mkrow cs (Num 0) (if b then Num 0 else wp) f else mkrow cs w0 wp f).
  { intros b. destruct (has_flag c); [|reflexivity]. unfold flagRow. cbn.
    destruct (Z.land f ign =? 0)%Z; cbn; [reflexivity|]. destruct b; reflexivity. }
  rewrite Hf. destruct (has_flag c && _).
  - rewrite Hc, Hw. replace (if existsb isnan cs then Num 0 else Num 0) with (Num 0) by (destruct existsb; reflexivity).
    destruct (has_wpos c); [|reflexivity]. rewrite Hp. cbn [clean orb]. destruct (iszero (Num 0)); reflexivity.
  - rewrite Hc, Hw. cbn [orb]. replace (clean (if existsb isnan cs then Num 0 else w0)) with
      (if existsb isnan cs then Num 0 else clean w0) by (destruct existsb; reflexivity).
    destruct (has_wpos c).
    + rewrite Hp. cbn [andb]. destruct (existsb isnan cs); cbn [orb]; [|reflexivity]. destruct (iszero _); reflexivity.
    + cbn [andb]. rewrite orb_false_r. reflexivity.
Qed.
Lemma finish_rows ncol ign c : (forall r, In r (rrows c) -> length (rcols r) = ncol) ->
  let c' := fixWpos (checkNaNs ncol (applyFlag ign c)) in
  has_wpos c' = has_wpos c /\ has_w c' = weighted ign c /\ view c' = map (cleanRow ign c) (rrows c).
Proof.
  intros Hl. unfold checkNaNs.
  destruct (applyFlag_view ign c) as (A0 & B0 & C0 & D0). set (c0 := applyFlag ign c) in *.
  assert (Hv : forall r, In r (rrows c0) -> length (rcols r) = ncol).
  { intros r Hr. unfold c0, applyFlag in Hr. unfold ensureW in Hr. destruct (has_flag c), (has_w c); simpl in Hr; auto;
      apply in_map_iff in Hr; destruct Hr as (r0 & <- & Hr).
    - destruct (_ =? _)%Z, (has_wpos c); simpl; auto.
    - apply in_map_iff in Hr; destruct Hr as (r1 & <- & Hr). destruct (_ =? _)%Z, (has_wpos c); simpl; auto. }
  destruct (cols_view ncol c0) as (A1 & B1 & C1 & D1). { intros r Hr. rewrite (Hv r Hr). lia. }
  set (c1 := fold_left checkCol (seq 0 ncol) c0) in *.
  destruct (checkW_view c1) as (A2 & B2 & C2 & D2). set (c2 := checkW c1) in *.
  destruct (checkWpos_view c2) as (A3 & B3 & C3 & D3). set (c3 := checkWpos c2) in *.
  destruct (fixWpos_view c3) as (A4 & B4 & C4 & D4). set (c4 := fixWpos c3) in *.
  assert (Hwp : has_wpos c3 = has_wpos c) by congruence.
  assert (Hwp2 : has_wpos c2 = has_wpos c) by congruence.
  rewrite Hwp in *. rewrite Hwp2 in *.
  assert (V0 : view c0 = map (fun r => (if has_flag c then flagRow ign (has_wpos c) else fun r => r)
     (mkrow (rcols r) (inputW c r) (rwpos r) (rflag r))) (rrows c)).
  { rewrite D0. unfold view, ensureW, inputW.
    destruct (has_flag c), (has_w c); cbn [rrows]; rewrite ?map_map; try reflexivity.
    - apply map_ext. intros []. reflexivity.
    - rewrite <- (map_id (rrows c)) at 1. apply map_ext. intros []. reflexivity. }
  split; [congruence|]. rewrite D4, D3, D2, D1, V0. split.
  - rewrite C4, C3, C2, C1, C0. rewrite D3, D2, D1, V0. unfold weighted. rewrite <- !orb_assoc. f_equal. f_equal. f_equal.
    + rewrite existsb_map. apply existsb_ext. intros r Hr. unfold nanRow.
      assert (Hc : rcols ((if has_flag c then flagRow ign (has_wpos c) else fun r0 : row => r0)
        (mkrow (rcols r) (inputW c r) (rwpos r) (rflag r))) = rcols r).
      { destruct (has_flag c); [|reflexivity]. unfold flagRow. cbn.
        destruct (Z.land (rflag r) ign =? 0)%Z; [reflexivity|]. destruct (has_wpos c); reflexivity. }
      rewrite Hc.
      rewrite <- (Hl r Hr), firstn_all. reflexivity.
    + destruct (has_wpos c); [|reflexivity]. cbn [andb]. rewrite !map_map, !existsb_map, <- existsb_orb.
      apply existsb_ext. intros r Hr. rewrite zero_wposRow, wpos_wRow. unfold finalWpos, flagged, flagRow.
      destruct (has_flag c); [|reflexivity]. cbn.
      destruct (Z.land (rflag r) ign =? 0)%Z; cbn [negb]; reflexivity.
  - assert (Hh : forall x : list row, (if has_wpos c then map fixRow (if has_wpos c then map wposRow x else x) else
       (if has_wpos c then map wposRow x else x)) = map (fun r => if has_wpos c then fixRow (wposRow r) else r) x).
    { intros x. destruct (has_wpos c). - rewrite map_map. reflexivity. - symmetry. apply map_id. }
    rewrite Hh, !map_map. apply map_ext_in. intros r Hr. specialize (Hl r Hr). subst ncol.
    rewrite row_calc. reflexivity.
Qed.

(** finishInput in one formula. *)
Definition finalRows (keep : bool) (ign : Z) (c : rawcat) : list row :=
  let rows := map (cleanRow ign c) (rrows c) in
  if negb keep && weighted ign c
  then filter (fun r => negb (iszero (if has_wpos c then rwpos r else rw r))) rows else rows.
Lemma filter_id {A} (p : A -> bool) l : existsb (fun a => negb (p a)) l = false -> filter p l = l.
Proof.
  induction l; simpl; auto. intros H. apply orb_false_elim in H. destruct H as [H H2].
  apply negb_false_iff in H. rewrite H, IHl; auto.
Qed.
Lemma finish_spec ncol ign keep c : (forall r, In r (rrows c) -> length (rcols r) = ncol) ->
  finishInput ncol ign keep c =
    let sw := sumR (fun r => flval (finalW ign c r)) (rrows c) in
    if weighted ign c && (if Req_EM_T sw 0 then true else false) then None
    else Some (mkcat (weighted ign c) sw (has_wpos c) (finalRows keep ign c)).
Proof.
  intros Hl. destruct (finish_rows ncol ign c Hl) as (A & B & C). unfold finishInput, finishW.
  set (c' := fixWpos (checkNaNs ncol (applyFlag ign c))) in *. rewrite A, B. unfold finalRows.
  destruct (weighted ign c) eqn:W.
  - rewrite view_w in C by congruence. rewrite C, sumR_map.
    change (sumR (fun a => flval (rw (cleanRow ign c a))) (rrows c)) with (sumR (fun r => flval (finalW ign c r)) (rrows c)).
    cbn zeta. cbn [andb]. destruct (Req_EM_T _ 0); auto. rewrite andb_true_r. do 2 f_equal.
    destruct keep; cbn [negb andb]; auto.
    destruct (existsb _ (map _ _)) eqn:E; auto. symmetry. apply filter_id.
    rewrite <- E. apply existsb_ext. intros. apply negb_involutive.
  - cbn [andb]. rewrite andb_false_r. do 2 f_equal.
    + rewrite <- (sumR_ext (fun _ => 1)).
      * replace (length (rrows c')) with (length (rrows c)).
        { clear. induction (rrows c); [reflexivity|]. cbn [length]. rewrite S_INR. cbn [sumR]. rewrite IHl. lra. }
        transitivity (length (map (cleanRow ign c) (rrows c))); [symmetry; apply map_length|]. rewrite <- C.
        unfold view, ensureW. rewrite B. cbn [rrows]. apply map_length.
      * intros r Hr. unfold weighted in W. repeat (apply orb_false_elim in W; destruct W as [W ?]).
        unfold finalW, flagged, inputW. rewrite W. rewrite H1. cbn [andb orb].
        rewrite (existsb_false _ _ H0 r Hr). cbn [orb].
        destruct (has_wpos c); cbn [andb] in *; [rewrite (existsb_false _ _ H r Hr)|]; reflexivity.
    + rewrite <- C. unfold view, ensureW. rewrite B. reflexivity.
Qed.
