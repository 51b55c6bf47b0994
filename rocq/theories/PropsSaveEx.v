(** C94: where saved patches differ from the patches in memory; examples. *)
From Coq Require Import String Reals Lra Lia List ZArith Bool.
From Verif Require Import Base Geometry Tree Traverse SumFacts Catalog CatFacts PropsCat SavePatch PropsSave.
Import ListNotations.
Open Scope R_scope.

(** The files after the first call, also when there are zero weights. *)
Lemma saved_files o low fs c : okSrc (o_src o) -> (1 < o_np o)%nat -> load (o_centers o) (o_src o) None = Some c ->
  (forall i, (i < o_np o)%nat -> sumW (want c i) <> 0) -> (exists i, (i < o_np o)%nat /\ fs (o_file o) i = None) ->
  exists (g : nat -> R * R * fcat) fs1 ld l0,
    (forall i, (i < o_np o)%nat -> fs1 (o_file o) i = Some (writeCat (fst (g i)) (snd (g i)))) /\
    (forall i, (i < o_np o)%nat -> fc_names (snd (g i)) = s_names (o_src o) /\ cat_haswpos (fc_cat (snd (g i))) = s_wpos (o_src o) /\
       cat_rows (fc_cat (snd (g i))) = want c i /\
       (~ lowFile o low -> fst (g i) = (1, 1) /\ cat_nontriv (fc_cat (snd (g i))) = cat_nontriv (fc_cat c)) /\
       (lowFile o low -> fst (g i) = unitsOf (o_src o))) /\
    (~ lowFile o low -> ld = true) /\ (lowFile o low -> o_centers o = true -> ld = o_loaded o) /\
    (lowFile o low -> o_centers o = true -> forall i, (i < o_np o)%nat -> load true (o_src o) (Some i) = Some (snd (g i))) /\
    getPatches o low true fs =
      (if low then match readPatches (mkCO (o_src o) (o_file o) (o_np o) (o_centers o) ld) fs1 with Got l => (Some l, fs1) | _ => (None, fs1) end
       else (Some l0, fs1)).
Proof.
  intros OK HN L HS [i0 [Hi0 F0]].
  destruct (build_all o low c OK L HS) as [g [ld [EB [HG [LD1 [LD2 LD3]]]]]].
  destruct (writeAll_ok (o_file o) g (o_np o) 0 (removeAll o fs)) as [fs1 [EW [W1 W2]]].
  exists g, fs1, ld, (map snd (map (fun i => (fst (g i), Some (snd (g i)))) (seq 0 (o_np o)))).
  split; [intros i Hi; apply W1; lia|]. split.
  { intros i Hi. destruct (HG i Hi) as [A [B [C [D E]]]]. repeat split; auto; try (apply D; auto). intro X. apply E. auto. }
  split; [auto|].
  assert (EBc : lowFile o low -> o_centers o = true ->
    Some (map (fun i => (fst (g i), Some (snd (g i)))) (seq 0 (o_np o)), ld) =
    Some (map (fun i => (unitsOf (o_src o), load true (o_src o) (Some i))) (seq 0 (o_np o)), o_loaded o)).
  { intros [-> HF] EC. rewrite <- EB. unfold build. destruct (o_file o); [|contradiction]. rewrite EC. reflexivity. }
  split; [intros X Y; specialize (EBc X Y); congruence|]. split.
  { intros X Y i Hi. specialize (EBc X Y). injection EBc as E _.
    assert (Q : nth i (map (fun i => (fst (g i), Some (snd (g i)))) (seq 0 (o_np o))) ((1, 1), None) =
                nth i (map (fun i => (unitsOf (o_src o), load true (o_src o) (Some i))) (seq 0 (o_np o))) ((1, 1), None)) by (rewrite E; auto).
    rewrite (nth_indep _ _ (fst (g 0%nat), Some (snd (g 0%nat)))) in Q by (rewrite map_length, seq_length; auto).
    rewrite (nth_indep (map (fun i => (unitsOf (o_src o), _)) _) _ (unitsOf (o_src o), load true (o_src o) (Some 0%nat))) in Q by (rewrite map_length, seq_length; auto).
    rewrite (map_nth (fun i => (fst (g i), Some (snd (g i))))) in Q.
    rewrite (map_nth (fun i => (unitsOf (o_src o), load true (o_src o) (Some i)))) in Q. rewrite seq_nth in Q by auto. cbn [plus] in Q. congruence. }
  assert (NF : readPatches o fs = NoFile).
  { unfold readPatches. rewrite (collect_none _ _ i0); auto. apply in_seq. lia. }
  unfold getPatches at 1. destruct (Nat.eqb_spec (o_np o) 1); [lia|]. rewrite NF, EB, EW. destruct low; reflexivity.
Qed.
(** With low_mem and two patches. *)
Lemma saved_two o fs c : okSrc (o_src o) -> o_np o = 2%nat -> load (o_centers o) (o_src o) None = Some c ->
  sumW (want c 0) <> 0 -> sumW (want c 1) <> 0 -> fs (o_file o) 0%nat = None ->
  exists (g : nat -> R * R * fcat) fs1 ld,
    (forall i, (i < 2)%nat -> fc_names (snd (g i)) = s_names (o_src o) /\ cat_haswpos (fc_cat (snd (g i))) = s_wpos (o_src o) /\
       cat_rows (fc_cat (snd (g i))) = want c i /\
       (o_file o = None -> fst (g i) = (1, 1) /\ cat_nontriv (fc_cat (snd (g i))) = cat_nontriv (fc_cat c)) /\
       (o_file o <> None -> fst (g i) = unitsOf (o_src o)) /\
       (o_file o <> None -> o_centers o = true -> load true (o_src o) (Some i) = Some (snd (g i)))) /\
    (o_file o = None -> ld = true) /\ (o_file o <> None -> o_centers o = true -> ld = o_loaded o) /\
    let o' := mkCO (o_src o) (o_file o) 2 (o_centers o) ld in
    let f i := writeCat (fst (g i)) (snd (g i)) in
    let chk := checkFile (readNames o') (readW o') (readWpos o') in
    let rd := readFile (readNames o') (readW o') (readWpos o') in
    getPatches o true true fs = (if chk (f 0%nat) && chk (f 1%nat) then (Some [rd (f 0%nat); rd (f 1%nat)], fs1) else (None, fs1)).
Proof.
  intros OK E2 L S0 S1 F0.
  destruct (saved_files o true fs c OK) as [g [fs1 [ld [l0 [A [B [C [C' [C2 D]]]]]]]]]; auto; try lia.
  { intros i Hi. destruct i as [|[|i]]; auto. lia. }
  { exists 0%nat. split; auto. lia. }
  exists g, fs1, ld. rewrite E2 in *.
  assert (NL : o_file o = None -> ~ lowFile o true) by (intros E [_ X]; auto).
  assert (YL : o_file o <> None -> lowFile o true) by (intro X; split; auto).
  split.
  { intros i Hi. destruct (B i Hi) as [X1 [X2 [X3 [X4 X5]]]]. repeat split; auto; try (apply X4; auto). }
  split; [auto|]. split; [auto|]. cbv zeta. rewrite D. unfold readPatches. cbn [o_np o_file seq map].
  rewrite (A 0%nat), (A 1%nat) by lia. cbn [collect forallb map]. rewrite andb_true_r. destruct (_ && _); reflexivity.
Qed.
(** Loading input without NaN and flags. *)
Lemma load_clean ce s : okSrc s -> s_flag s = false -> okRows (length (s_names s)) (s_wpos s) (posRows s) ->
  s_keep s = true \/ nozero (s_wpos s) (posRows s) -> (s_w s = true -> sumW (posRows s) <> 0) ->
  (s_w s = false -> nozero (s_wpos s) (posRows s) /\ forall r, In r (posRows s) -> rw r = Num 1) ->
  exists c, load ce s None = Some c /\ cat_rows (fc_cat c) = posRows s /\ cat_nontriv (fc_cat c) = s_w s /\ cat_haswpos (fc_cat c) = s_wpos s.
Proof.
  intros OK NF HR HK H1 H2. unfold load. rewrite NF.
  destruct (finish_clean (length (s_names s)) (s_ign s) (s_keep s) (s_w s) (s_wpos s) (posRows s) HR HK H1 H2) as [k [E [A [B C]]]].
  fold (posRows s). rewrite E. eexists. split; [reflexivity|]. auto.
Qed.

Ltac req := repeat match goal with |- context [Req_EM_T ?a ?b] =>
  let e := fresh in let n := fresh in destruct (Req_EM_T a b) as [e|n]; [try (exfalso; cbn in e; clear - e; lra)|try (exfalso; apply n; clear; cbn; lra)] end.
Definition xy : list string := ["x"; "y"]%string.
Lemma xy_ok ev w wp fl u ig k rows : (forall r, In r rows -> okRow 2 r) -> okSrc (mkSrc xy ev w wp fl u ig k rows).
Proof. intro H. split; [|exact H]. exists xy, (fun _ => false). split; [left; reflexivity|]. reflexivity. Qed.
Definition pt (p x w : R) : row := mkrow [Num p; Num x; Num 0] (Num w) (Num 1) 0.
Lemma pt_ok p x w : okRow 2 (pt p x w).
Proof. exists p, (Num x), (Num 0), []. auto. Qed.
Lemma pt_scale u p x w : scalePos (u, u) (pt p x w) = pt p (u * x) w.
Proof. unfold scalePos, pt. cbn. rewrite Rmult_0_r. reflexivity. Qed.
Lemma pt_rows wp l : (forall r, In r l -> exists p x w, r = pt p x w) -> okRows 2 wp l.
Proof.
  intros H r Hr. destruct (H r Hr) as [p [x [w ->]]]. split; [apply pt_ok|]. cbn.
  split; [intuition discriminate|]. split; [discriminate|]. intros _. split; [discriminate|]. intro E. injection E. intros. lra.
Qed.
Lemma pt_nozero l : (forall r, In r l -> exists p x w, r = pt p x w /\ w <> 0) -> nozero false l.
Proof. intros H r Hr. destruct (H r Hr) as [p [x [w [-> N]]]]. cbn. req; auto; contradiction. Qed.
Definition noFiles : fsys := fun _ _ => None.

(** ** An example of the theorems: ra/dec from a file, three objects in two patches *)
Definition exSrc : source := mkSrc xy (fun _ => false) true false false (1, 1) 0 false [pt 0 1 2; pt 1 3 1; pt 0 2 3].
Lemma ex_rows : posRows exSrc = [pt 0 1 2; pt 1 3 1; pt 0 2 3].
Proof. unfold posRows, exSrc. cbn [s_units s_rows map]. rewrite !pt_scale, !Rmult_1_l. reflexivity. Qed.
Lemma ex_ok : okSrc exSrc.
Proof. apply xy_ok. intros r [<-|[<-|[<-|[]]]]; apply pt_ok. Qed.
Lemma ex_load ce : exists c, load ce exSrc None = Some c /\ cat_rows (fc_cat c) = [pt 0 1 2; pt 1 3 1; pt 0 2 3] /\
  cat_nontriv (fc_cat c) = true /\ cat_haswpos (fc_cat c) = false.
Proof.
  rewrite <- ex_rows. apply (load_clean ce exSrc ex_ok eq_refl); rewrite ?ex_rows.
  - apply pt_rows. intros r [<-|[<-|[<-|[]]]]; eauto.
  - right. apply pt_nozero. intros r [<-|[<-|[<-|[]]]]; do 3 eexists; (split; [reflexivity|lra]).
  - intros _. unfold sumW, pt. simpl. lra.
  - discriminate.
Qed.
Lemma ex_want c : cat_rows (fc_cat c) = [pt 0 1 2; pt 1 3 1; pt 0 2 3] -> want c 0 = [pt 0 1 2; pt 0 2 3] /\ want c 1 = [pt 1 3 1].
Proof. intro E. unfold want. rewrite E. unfold inPatch, pt. cbn. req. auto. Qed.
Example C94_example : forall f low ce, let o := mkCO exSrc f 2 ce false in exists c,
  okSrc (o_src o) /\ (1 < o_np o)%nat /\ load (o_centers o) (o_src o) None = Some c /\
  (forall r, In r (cat_rows (fc_cat c)) -> iszero (weightCol (fc_cat c) r) = false) /\
  (forall i, (i < o_np o)%nat -> sumW (want c i) <> 0) /\ (exists i, (i < o_np o)%nat /\ noFiles (o_file o) i = None) /\
  (lowFile o low -> wOK (o_src o) c /\ (o_loaded o = true \/ noEval (o_src o)) /\ (radec (s_names (o_src o)) = true \/ s_units (o_src o) = (1, 1))) /\
  want c 0 = [pt 0 1 2; pt 0 2 3].
Proof.
  intros f low ce o. destruct (ex_load ce) as [c [L [E [T HP]]]]. destruct (ex_want c E) as [W0 W1]. exists c.
  split; [apply ex_ok|]. split; [cbn; lia|]. split; auto. split.
  { intros r Hr. rewrite E in Hr. unfold weightCol. rewrite HP. destruct Hr as [<-|[<-|[<-|[]]]]; cbn; req; auto. }
  split.
  { intros i Hi. cbn [o o_np] in Hi. destruct i as [|[|i]]; [rewrite W0|rewrite W1|lia]; unfold sumW, pt; simpl; lra. }
  split; [exists 0%nat; split; [cbn; lia|reflexivity]|]. split; auto.
  intros _. split; [left; reflexivity|]. split; [right; intro n; reflexivity|]. right. reflexivity.
Qed.

(** ** keep_zero_weight is forgotten *)
Definition zSrc : source := mkSrc xy (fun _ => false) true false false (1, 1) 0 true [pt 0 1 2; pt 1 3 1; pt 0 2 0].
Theorem C94_zero_weight_refuted : exists o c fs l l' fs1 p, okSrc (o_src o) /\ load (o_centers o) (o_src o) None = Some c /\
  getPatches o true false fs = (Some l, fs) /\ Forall2 (sameData (o_src o) c) (seq 0 (o_np o)) l /\
  getPatches o true true fs = (Some l', fs1) /\ nth_error l' 0 = Some (Some p) /\
  length (want c 0) = 2%nat /\ length (cat_rows (fc_cat p)) = 1%nat.
Proof.
  assert (OK : okSrc zSrc) by (apply xy_ok; intros r [<-|[<-|[<-|[]]]]; apply pt_ok).
  assert (ER : posRows zSrc = [pt 0 1 2; pt 1 3 1; pt 0 2 0]).
  { unfold posRows, zSrc. cbn [s_units s_rows map]. rewrite !pt_scale, !Rmult_1_l. reflexivity. }
  destruct (load_clean false zSrc OK eq_refl) as [c [L [E [T HP]]]]; rewrite ?ER; try discriminate.
  { apply pt_rows. intros r [<-|[<-|[<-|[]]]]; eauto. }
  { left. reflexivity. }
  { intros _. unfold sumW, pt. simpl. lra. }
  rewrite ER in E.
  assert (W : want c 0 = [pt 0 1 2; pt 0 2 0] /\ want c 1 = [pt 1 3 1]).
  { unfold want. rewrite E. unfold inPatch, pt. cbn. req. auto. }
  destruct W as [W0 W1].
  set (o := mkCO zSrc None 2 false true).
  assert (HS : forall i, (i < o_np o)%nat -> sumW (want c i) <> 0).
  { intros i Hi. cbn [o o_np] in Hi. destruct i as [|[|i]]; [rewrite W0|rewrite W1|lia]; unfold sumW, pt; simpl; lra. }
  destruct (C94_unsaved o true noFiles c OK) as [l [G F]]; auto.
  destruct (saved_two o noFiles c OK) as [g [fs1 [ld [B [C [_ D]]]]]]; auto; try (apply HS; cbn; lia).
  rewrite (C eq_refl) in D. set (o2 := mkCO _ _ _ _ _) in D. cbv zeta in D.
  assert (RW : readW o2 = true).
  { unfold readW. cbn [o2 o o_src o_loaded o_centers]. rewrite L, T. reflexivity. }
  assert (RN : readNames o2 = xy) by reflexivity. assert (RP : readWpos o2 = false) by reflexivity.
  rewrite RW, RN, RP in D.
  assert (CK : forall i, (i < 2)%nat -> checkFile xy true false (writeCat (fst (g i)) (snd (g i))) = true).
  { intros i Hi. destruct (B i Hi) as [N0 [P0 [R0 [Q0 _]]]]. destruct (Q0 eq_refl) as [_ T0].
    unfold checkFile, writeCat. cbn [f_names f_w f_wpos]. rewrite N0, T0, T. reflexivity. }
  rewrite (CK 0%nat), (CK 1%nat) in D by lia. cbn [andb] in D.
  destruct (B 0%nat ltac:(lia)) as [N0 [P0 [R0 [Q0 _]]]]. destruct (Q0 eq_refl) as [U0 T0].
  assert (RD : exists k, readFile xy true false (writeCat (fst (g 0%nat)) (snd (g 0%nat))) = Some (mkFC xy k) /\ cat_rows k = [pt 0 1 2]).
  { unfold readFile, writeCat. cbn [f_names f_rows]. rewrite N0, U0, R0, W0. cbn [fst snd map].
    replace (1 / 1) with 1 by lra. rewrite !pt_scale, !Rmult_1_l.
    change (restrict (s_names (o_src o)) xy (pt 0 1 2)) with (pt 0 1 2). change (restrict (s_names (o_src o)) xy (pt 0 2 0)) with (pt 0 2 0).
    change (filter (fun n => mem n xy) (s_names (o_src o))) with xy.
    rewrite finish_ok.
    - eexists. split; [reflexivity|]. cbn [cat_rows]. unfold pt. cbn. req. reflexivity.
    - intros r Hr. destruct (pt_rows false [pt 0 1 2; pt 0 2 0]) with (r := r) as [X [Y [Z0 V]]]; auto.
      { intros r' [<-|[<-|[]]]; eauto. }
      split; [apply okRow_len in X; exact X|auto].
    - unfold pt. simpl. lra. }
  destruct RD as [k [RD RK]]. rewrite RD in D.
  exists o, c, noFiles, l; eexists; exists fs1, (mkFC xy k). split; [exact OK|]. split; [exact L|]. split; [exact G|]. split; [exact F|]. split; [exact D|].
  split; [reflexivity|]. rewrite W0. cbn [fc_cat]. rewrite RK. auto.
Qed.

(** ** x_units are applied once too little *)
Definition uSrc : source := mkSrc xy (fun _ => false) true false false (2, 2) 0 false [pt 0 1 1; pt 1 3 1].
Theorem C94_units_refuted : exists o c fs l l' fs1 p, okSrc (o_src o) /\ load (o_centers o) (o_src o) None = Some c /\
  getPatches o true false fs = (Some l, fs) /\ Forall2 (sameData (o_src o) c) (seq 0 (o_np o)) l /\
  getPatches o true true fs = (Some l', fs1) /\ nth_error l' 0 = Some (Some p) /\
  map rcols (want c 0) = [[Num 0; Num 2; Num 0]] /\ map rcols (cat_rows (fc_cat p)) = [[Num 0; Num 1; Num 0]].
Proof.
  assert (OK : okSrc uSrc) by (apply xy_ok; intros r [<-|[<-|[]]]; apply pt_ok).
  assert (ER : posRows uSrc = [pt 0 2 1; pt 1 6 1]).
  { unfold posRows, uSrc. cbn [s_units s_rows map]. rewrite !pt_scale. repeat f_equal; lra. }
  destruct (load_clean true uSrc OK eq_refl) as [c [L [E [T HP]]]]; rewrite ?ER; try discriminate.
  { apply pt_rows. intros r [<-|[<-|[]]]; eauto. }
  { right. apply pt_nozero. intros r [<-|[<-|[]]]; do 3 eexists; (split; [reflexivity|lra]). }
  { intros _. unfold sumW, pt. simpl. lra. }
  rewrite ER in E.
  assert (W : want c 0 = [pt 0 2 1] /\ want c 1 = [pt 1 6 1]).
  { unfold want. rewrite E. unfold inPatch, pt. cbn. req. auto. }
  destruct W as [W0 W1].
  set (o := mkCO uSrc (Some "cat"%string) 2 true false).
  assert (HS : forall i, (i < o_np o)%nat -> sumW (want c i) <> 0).
  { intros i Hi. cbn [o o_np] in Hi. destruct i as [|[|i]]; [rewrite W0|rewrite W1|lia]; unfold sumW, pt; simpl; lra. }
  destruct (C94_unsaved o true noFiles c OK) as [l [G F]]; auto.
  destruct (saved_two o noFiles c OK) as [g [fs1 [ld [B [_ [C D]]]]]]; auto; try (apply HS; cbn; lia).
  assert (NF : o_file o <> None) by discriminate.
  rewrite (C NF eq_refl) in D. set (o2 := mkCO _ _ _ _ _) in D. cbv zeta in D.
  assert (RW : readW o2 = true) by reflexivity.
  assert (RN : readNames o2 = xy) by reflexivity. assert (RP : readWpos o2 = false) by reflexivity.
  rewrite RW, RN, RP in D.
  assert (CK : forall i, (i < 2)%nat -> checkFile xy true false (writeCat (fst (g i)) (snd (g i))) = true).
  { intros i Hi. destruct (B i Hi) as [N0 [P0 [R0 [_ [_ Q0]]]]]. specialize (Q0 NF eq_refl).
    destruct (load_patch true true uSrc c i OK L) as [q [Eq [_ [_ [_ [Tq _]]]]]]; [apply HS; auto|].
    assert (EQ : Some q = Some (snd (g i))) by (rewrite <- Eq; exact Q0). injection EQ as EQ.
    unfold checkFile, writeCat. cbn [f_names f_w f_wpos]. rewrite N0, <- EQ, (Tq eq_refl). reflexivity. }
  rewrite (CK 0%nat), (CK 1%nat) in D by lia. cbn [andb] in D.
  destruct (B 0%nat ltac:(lia)) as [N0 [P0 [R0 [_ [U0 _]]]]]. specialize (U0 NF).
  assert (RD : exists k, readFile xy true false (writeCat (fst (g 0%nat)) (snd (g 0%nat))) = Some (mkFC xy k) /\ cat_rows k = [pt 0 1 1]).
  { unfold readFile, writeCat. cbn [f_names f_rows]. rewrite N0, U0, R0, W0.
    change (unitsOf (o_src o)) with (2, 2). cbn [fst snd map].
    rewrite !pt_scale. replace (1 / 2 * 2) with 1 by lra.
    change (restrict (s_names (o_src o)) xy (pt 0 1 1)) with (pt 0 1 1).
    change (filter (fun n => mem n xy) (s_names (o_src o))) with xy.
    rewrite finish_ok.
    - eexists. split; [reflexivity|]. cbn [cat_rows]. unfold pt. cbn. req. reflexivity.
    - intros r Hr. destruct (pt_rows false [pt 0 1 1]) with (r := r) as [X [Y [Z0 V]]]; auto.
      { intros r' [<-|[]]; eauto. }
      split; [apply okRow_len in X; exact X|auto].
    - unfold pt. simpl. lra. }
  destruct RD as [k [RD RK]]. rewrite RD in D.
  exists o, c, noFiles, l; eexists; exists fs1, (mkFC xy k). split; [exact OK|]. split; [exact L|]. split; [exact G|]. split; [exact F|]. split; [exact D|].
  split; [reflexivity|]. rewrite W0. cbn [fc_cat]. rewrite RK. auto.
Qed.

(** ** Columns given by *_eval are not read from the files when the catalog is not loaded *)
Definition xyk : list string := ["x"; "y"; "k"]%string.
Definition ptk (p x : R) (k : fl) : row := mkrow [Num p; Num x; Num 0; k] (Num 1) (Num 1) 0.
Lemma ptk_ok p x k : okRow 3 (ptk p x k).
Proof. exists p, (Num x), (Num 0), [k]. auto. Qed.
Lemma ptk_scale p x k : scalePos (1, 1) (ptk p x k) = ptk p x k.
Proof. unfold scalePos, ptk. cbn. rewrite !Rmult_1_l. reflexivity. Qed.
Lemma xyk_ok ev w wp fl u ig kp rows : (forall r, In r rows -> okRow 3 r) -> okSrc (mkSrc xyk ev w wp fl u ig kp rows).
Proof.
  intro H. split; [|exact H]. exists xy, (String.eqb "k"). split; [left; reflexivity|]. reflexivity.
Qed.
Definition eSrc : source := mkSrc xyk (String.eqb "k") false false false (1, 1) 0 false [ptk 0 1 (Num 5); ptk 1 3 (Num 6)].
Theorem C94_eval_refuted : exists o c fs l l' fs1 p, okSrc (o_src o) /\ load (o_centers o) (o_src o) None = Some c /\
  getPatches o true false fs = (Some l, fs) /\ Forall2 (sameData (o_src o) c) (seq 0 (o_np o)) l /\
  getPatches o true true fs = (Some l', fs1) /\ nth_error l' 0 = Some (Some p) /\
  fc_names c = ["x"; "y"; "k"]%string /\ fc_names p = ["x"; "y"]%string.
Proof.
  assert (OK : okSrc eSrc) by (apply xyk_ok; intros r [<-|[<-|[]]]; apply ptk_ok).
  assert (ER : posRows eSrc = [ptk 0 1 (Num 5); ptk 1 3 (Num 6)]).
  { unfold posRows, eSrc. cbn [s_units s_rows map]. rewrite !ptk_scale. reflexivity. }
  destruct (load_clean true eSrc OK eq_refl) as [c [L [E [T HP]]]]; rewrite ?ER; try discriminate.
  { intros r [<-|[<-|[]]]; (split; [apply ptk_ok|]); cbn; (split; [intuition discriminate|]); (split; [discriminate|]); discriminate. }
  { right. intros r [<-|[<-|[]]]; cbn; req; auto. }
  { intros _. split; [|intros r [<-|[<-|[]]]; reflexivity]. intros r [<-|[<-|[]]]; cbn; req; auto. }
  rewrite ER in E.
  assert (W : want c 0 = [ptk 0 1 (Num 5)] /\ want c 1 = [ptk 1 3 (Num 6)]).
  { unfold want. rewrite E. unfold inPatch, ptk. cbn. req. auto. }
  destruct W as [W0 W1].
  set (o := mkCO eSrc (Some "cat"%string) 2 true false).
  assert (HS : forall i, (i < o_np o)%nat -> sumW (want c i) <> 0).
  { intros i Hi. cbn [o o_np] in Hi. destruct i as [|[|i]]; [rewrite W0|rewrite W1|lia]; unfold sumW, ptk; simpl; lra. }
  destruct (C94_unsaved o true noFiles c OK) as [l [G F]]; auto.
  destruct (saved_two o noFiles c OK) as [g [fs1 [ld [B [_ [C D]]]]]]; auto; try (apply HS; cbn; lia).
  assert (NF : o_file o <> None) by discriminate.
  rewrite (C NF eq_refl) in D. set (o2 := mkCO _ _ _ _ _) in D. cbv zeta in D.
  assert (RW : readW o2 = false) by reflexivity.
  assert (RN : readNames o2 = xy) by reflexivity. assert (RP : readWpos o2 = false) by reflexivity.
  rewrite RW, RN, RP in D.
  assert (CK : forall i, (i < 2)%nat -> checkFile xy false false (writeCat (fst (g i)) (snd (g i))) = true).
  { intros i Hi. destruct (B i Hi) as [N0 _]. unfold checkFile, writeCat. cbn [f_names f_w f_wpos]. rewrite N0. reflexivity. }
  rewrite (CK 0%nat), (CK 1%nat) in D by lia. cbn [andb] in D.
  destruct (B 0%nat ltac:(lia)) as [N0 [P0 [R0 [_ [U0 _]]]]]. specialize (U0 NF).
  assert (RD : exists k, readFile xy false false (writeCat (fst (g 0%nat)) (snd (g 0%nat))) = Some (mkFC xy k)).
  { unfold readFile, writeCat. cbn [f_names f_rows]. rewrite N0, U0, R0, W0.
    change (unitsOf (o_src o)) with (1, 1). cbn [fst snd map].
    replace (1 / 1) with 1 by lra. rewrite ptk_scale.
    change (restrict (s_names (o_src o)) xy (ptk 0 1 (Num 5))) with (pt 0 1 1).
    change (filter (fun n => mem n xy) (s_names (o_src o))) with xy.
    destruct (finish_clean 2 (Z.lnot 0) false false false [pt 0 1 1]) as [k [Ek _]].
    - apply pt_rows. intros r [<-|[]]; eauto.
    - right. apply pt_nozero. intros r [<-|[]]; do 3 eexists; (split; [reflexivity|lra]).
    - discriminate.
    - intros _. split; [apply pt_nozero; intros r [<-|[]]; do 3 eexists; (split; [reflexivity|lra])|]. intros r [<-|[]]. reflexivity.
    - change (length xy) with 2%nat. rewrite Ek. eauto. }
  destruct RD as [k RD]. rewrite RD in D.
  destruct (load_facts _ _ _ OK L) as [NC _].
  exists o, c, noFiles, l; eexists; exists fs1, (mkFC xy k). split; [exact OK|]. split; [exact L|]. split; [exact G|]. split; [exact F|]. split; [exact D|].
  split; [reflexivity|]. split; [exact NC|reflexivity].
Qed.

(** ** A NaN in one patch of a loaded catalog: the other files have no column w, and get_patches fails *)
Definition nSrc : source := mkSrc xyk (fun _ => false) false false false (1, 1) 0 false [ptk 0 1 NaN; ptk 0 2 (Num 5); ptk 1 3 (Num 6)].
Theorem C94_nan_refuted : exists o c fs l fs1, okSrc (o_src o) /\ noEval (o_src o) /\ load (o_centers o) (o_src o) None = Some c /\
  s_keep (o_src o) = false /\ s_units (o_src o) = (1, 1) /\
  getPatches o true false fs = (Some l, fs) /\ Forall2 (sameData (o_src o) c) (seq 0 (o_np o)) l /\
  getPatches o true true fs = (None, fs1).
Proof.
  assert (OK : okSrc nSrc) by (apply xyk_ok; intros r [<-|[<-|[<-|[]]]]; apply ptk_ok).
  assert (ER : posRows nSrc = [ptk 0 1 NaN; ptk 0 2 (Num 5); ptk 1 3 (Num 6)]).
  { unfold posRows, nSrc. cbn [s_units s_rows map]. rewrite !ptk_scale. reflexivity. }
  assert (L : exists k, load true nSrc None = Some (mkFC xyk k) /\ cat_nontriv k = true /\ cat_rows k = [ptk 0 2 (Num 5); ptk 1 3 (Num 6)]).
  { unfold load. fold (posRows nSrc). change (mkraw (s_w nSrc) (s_wpos nSrc) (s_flag nSrc) (posRows nSrc)) with (rawOf nSrc (posRows nSrc)).
    rewrite finishSpec by (apply posRows_ok; auto). cbv zeta. rewrite ER.
    assert (S2 : sumR (fun r => flval (finalW (s_ign nSrc) (rawOf nSrc [ptk 0 1 NaN; ptk 0 2 (Num 5); ptk 1 3 (Num 6)]) r))
       [ptk 0 1 NaN; ptk 0 2 (Num 5); ptk 1 3 (Num 6)] = 2) by (cbn; lra).
    rewrite S2. destruct (Req_EM_T 2 0); [lra|]. rewrite andb_false_r. eexists. split; [reflexivity|]. cbn [cat_nontriv cat_rows].
    split; [reflexivity|]. unfold finalRows. cbn. req. reflexivity. }
  destruct L as [k [L [T E]]]. set (c := mkFC xyk k) in *.
  assert (W : want c 0 = [ptk 0 2 (Num 5)] /\ want c 1 = [ptk 1 3 (Num 6)]).
  { unfold want. cbn [fc_cat c]. rewrite E. unfold inPatch, ptk. cbn. req. auto. }
  destruct W as [W0 W1].
  set (o := mkCO nSrc (Some "cat"%string) 2 true true).
  assert (HS : forall i, (i < o_np o)%nat -> sumW (want c i) <> 0).
  { intros i Hi. cbn [o o_np] in Hi. destruct i as [|[|i]]; [rewrite W0|rewrite W1|lia]; unfold sumW, ptk; simpl; lra. }
  destruct (C94_unsaved o true noFiles c OK) as [l [G F]]; auto.
  destruct (saved_two o noFiles c OK) as [g [fs1 [ld [B [_ [C D]]]]]]; auto; try (apply HS; cbn; lia).
  assert (NF : o_file o <> None) by discriminate.
  rewrite (C NF eq_refl) in D. set (o2 := mkCO _ _ _ _ _) in D. cbv zeta in D.
  assert (RW : readW o2 = true).
  { unfold readW. cbn [o2 o o_src o_loaded o_centers]. rewrite L. cbn [fc_cat c]. rewrite T. reflexivity. }
  assert (TW : cat_nontriv (fc_cat (snd (g 1%nat))) = false).
  { destruct (B 1%nat ltac:(lia)) as [_ [_ [_ [_ [_ Q]]]]]. specialize (Q NF eq_refl). unfold load in Q. change (o_src o) with nSrc in Q.
    fold (posRows nSrc) in Q. rewrite ER in Q.
    assert (EU : filter (inPatch 1) [ptk 0 1 NaN; ptk 0 2 (Num 5); ptk 1 3 (Num 6)] = [ptk 1 3 (Num 6)]).
    { unfold inPatch, ptk. cbn. req. reflexivity. }
    rewrite EU in Q. cbn [length Nat.eqb] in Q.
    change (mkraw (s_w nSrc) (s_wpos nSrc) (s_flag nSrc) [ptk 1 3 (Num 6)]) with (rawOf nSrc [ptk 1 3 (Num 6)]) in Q.
    rewrite finishSpec in Q by (intros r [<-|[]]; apply ptk_ok). cbv zeta in Q.
    change (weighted (s_ign nSrc) (rawOf nSrc [ptk 1 3 (Num 6)])) with false in Q. cbn [andb] in Q. injection Q as Q. rewrite <- Q. reflexivity. }
  rewrite RW in D. unfold checkFile in D. cbn [writeCat f_w] in D. rewrite TW in D. cbn [negb orb] in D. rewrite !andb_false_r, ?andb_false_l, ?andb_false_r in D.
  exists o, c, noFiles, l, fs1. split; [exact OK|]. split; [intro; reflexivity|]. split; [exact L|]. split; [reflexivity|]. split; [reflexivity|].
  split; [exact G|]. split; [exact F|exact D].
Qed.

(** ** Two catalogs made from arrays use the same files *)
Definition aSrc : source := mkSrc xy (fun _ => false) true false false (1, 1) 0 false [pt 0 7 2; pt 1 8 1; pt 0 9 3].
Theorem C94_same_names_refuted : exists o1 o2 c1 c2 fs l1 l2 fs1,
  okSrc (o_src o1) /\ okSrc (o_src o2) /\ o_file o1 = None /\ o_file o2 = None /\
  load (o_centers o1) (o_src o1) None = Some c1 /\ load (o_centers o2) (o_src o2) None = Some c2 /\
  getPatches o1 false true fs = (Some l1, fs1) /\ getPatches o2 false true fs1 = (Some l2, fs1) /\
  Forall2 (sameData (o_src o1) c1) (seq 0 (o_np o2)) l2 /\ want c2 0 = [pt 0 7 2; pt 0 9 3] /\ want c1 0 = [pt 0 1 2; pt 0 2 3].
Proof.
  destruct (C94_example None false false) as [c1 [OK [HN [L1 [NZ [HS [NF [HL W0]]]]]]]]. cbv zeta in *.
  set (o1 := mkCO exSrc None 2 false false) in *.
  assert (OK2 : okSrc aSrc) by (apply xy_ok; intros r [<-|[<-|[<-|[]]]]; apply pt_ok).
  assert (ER : posRows aSrc = [pt 0 7 2; pt 1 8 1; pt 0 9 3]).
  { unfold posRows, aSrc. cbn [s_units s_rows map]. rewrite !pt_scale, !Rmult_1_l. reflexivity. }
  destruct (load_clean false aSrc OK2 eq_refl) as [c2 [L2 [E [T HP]]]]; rewrite ?ER; try discriminate.
  { apply pt_rows. intros r [<-|[<-|[<-|[]]]]; eauto. }
  { right. apply pt_nozero. intros r [<-|[<-|[<-|[]]]]; do 3 eexists; (split; [reflexivity|lra]). }
  { intros _. unfold sumW, pt. simpl. lra. }
  rewrite ER in E.
  destruct (C94_saved o1 false noFiles c1 OK HN L1 NZ HS NF HL) as [l1 [fs1 [G1 [F1 [_ LATER]]]]].
  set (o2 := mkCO aSrc None 2 false true).
  destruct (LATER (mkCO exSrc None 2 false true) false eq_refl eq_refl eq_refl) as [l2 [G2 F2]]; [discriminate|].
  assert (RW1 : readW (mkCO exSrc None 2 false true) = true).
  { unfold readW. cbn [o_src s_w exSrc s_eval negb andb]. apply orb_true_r. }
  assert (RW2 : readW o2 = true).
  { unfold readW. cbn [o2 o_src s_w aSrc s_eval negb andb]. apply orb_true_r. }
  assert (EP : readPatches o2 fs1 = readPatches (mkCO exSrc None 2 false true) fs1).
  { unfold readPatches. rewrite RW1, RW2. reflexivity. }
  assert (G2' : getPatches o2 false true fs1 = (Some l2, fs1)).
  { rewrite <- G2. unfold getPatches. cbn [o2 o_np Nat.eqb]. fold o2. rewrite EP.
    destruct (readPatches (mkCO exSrc None 2 false true) fs1) eqn:ERD; auto.
    exfalso. unfold getPatches in G2. cbn [o_np Nat.eqb] in G2. rewrite ERD in G2.
    unfold readPatches in ERD. destruct (collect _) eqn:EC; [destruct (forallb _ _); discriminate|].
    destruct (saved_files o1 false noFiles c1 OK HN L1 HS NF) as [g [fs2 [ld [l0 [A [_ [_ [_ [_ GG]]]]]]]]].
    rewrite G1 in GG. injection GG as _ <-. cbn [o_np o_file seq map] in EC.
    pose proof (A 0%nat ltac:(cbn; lia)) as A0. pose proof (A 1%nat ltac:(cbn; lia)) as A1. cbn [o1 o_file] in A0, A1.
    rewrite A0, A1 in EC. discriminate. }
  exists o1, o2, c1, c2, noFiles, l1, l2, fs1. repeat (split; [solve [auto]|]). split; [|exact W0].
  unfold want. rewrite E. unfold inPatch, pt. cbn. req. auto.
Qed.

(** ** A patch number without objects: with low_mem get_patches fails *)
Definition gSrc : source := mkSrc xy (fun _ => false) true false false (1, 1) 0 false [pt 0 1 1; pt 2 3 1].
Theorem C94_gap_refuted : exists o c fs l fs1, okSrc (o_src o) /\ load (o_centers o) (o_src o) None = Some c /\
  getPatches o true false fs = (Some l, fs) /\ getPatches o false true fs = (Some l, fs1) /\
  Forall2 (sameData (o_src o) c) [0; 2]%nat l /\ getPatches o true true fs = (None, fs1).
Proof.
  assert (OK : okSrc gSrc) by (apply xy_ok; intros r [<-|[<-|[]]]; apply pt_ok).
  assert (ER : posRows gSrc = [pt 0 1 1; pt 2 3 1]).
  { unfold posRows, gSrc. cbn [s_units s_rows map]. rewrite !pt_scale, !Rmult_1_l. reflexivity. }
  destruct (load_clean false gSrc OK eq_refl) as [c [L [E [T HP]]]]; rewrite ?ER; try discriminate.
  { apply pt_rows. intros r [<-|[<-|[]]]; eauto. }
  { right. apply pt_nozero. intros r [<-|[<-|[]]]; do 3 eexists; (split; [reflexivity|lra]). }
  { intros _. unfold sumW, pt. simpl. lra. }
  rewrite ER in E.
  assert (W : want c 0 = [pt 0 1 1] /\ want c 2 = [pt 2 3 1]).
  { unfold want. rewrite E. unfold inPatch, pt. cbn. req. auto. }
  destruct W as [W0 W2].
  assert (PS : patchSet 3 c = [0; 2]%nat).
  { unfold patchSet. rewrite E. unfold inPatch, pt. cbn. req. reflexivity. }
  destruct (mem_patch false gSrc c 0 OK L) as [q0 [E0 [N0 [H0 [R0 T0]]]]]; [rewrite W0; unfold sumW, pt; simpl; lra|].
  destruct (mem_patch false gSrc c 2 OK L) as [q2 [E2 [N2 [H2 [R2 T2]]]]]; [rewrite W2; unfold sumW, pt; simpl; lra|].
  set (o := mkCO gSrc None 3 false true).
  assert (EB : forall low, build o low = Some ([((1, 1), Some q0); ((1, 1), Some q2)], true)).
  { intro low. assert (X : match load (o_centers o) gSrc None with
        | Some c => Some (map (fun i => ((1, 1), memPatch c i)) (patchSet 3 c), true) | None => None end =
      Some ([((1, 1), Some q0); ((1, 1), Some q2)], true)).
    { cbn [o o_centers]. rewrite L, PS. cbn [map]. rewrite E0, E2. reflexivity. }
    rewrite <- X. destruct low; reflexivity. }
  set (fs1 := setFile (setFile (removeAll o noFiles) None 0 (Some (writeCat (1, 1) q0))) None 1 (Some (writeCat (1, 1) q2))).
  exists o, c, noFiles, [Some q0; Some q2], fs1.
  split; [exact OK|]. split; [exact L|].
  split; [unfold getPatches; rewrite EB; reflexivity|]. split; [unfold getPatches; rewrite EB; reflexivity|].
  split; [constructor; [exists q0; auto|constructor; [exists q2; auto|constructor]]|].
  unfold getPatches. rewrite EB. reflexivity.
Qed.
