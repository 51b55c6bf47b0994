(** C76: what is read back from a file that was written. *)
From Coq Require Import Reals List ZArith Bool Lra Lia.
From Verif Require Import Base Geometry Tree Traverse Corr Patch Cov Comp CorrIO SumFacts CovFacts PropsComp.
Import ListNotations.
Open Scope R_scope.

Section RT.
Variable rnd : nat -> R -> R.
(** the number read back for x *)
Definition back (ascii : bool) (p : nat) (x : R) : R := if ascii then rnd p x else x.

Lemma bins_len B : length (bins B) = Z.to_nat (nbins B).
Proof. unfold bins. now rewrite map_length, seq_length. Qed.
Lemma bins_nth B k : In k (bins B) -> (Z.to_nat k < length (bins B))%nat /\ nth (Z.to_nat k) (bins B) 0%Z = k.
Proof.
  intros H. rewrite bins_len. unfold bins in *. apply in_map_iff in H as (i & <- & Hi).
  apply in_seq in Hi. rewrite Nat2Z.id. split; [lia|].
  rewrite (nth_indep _ 0%Z (Z.of_nat 0)) by (rewrite map_length, seq_length; lia).
  rewrite map_nth, seq_nth by lia. reflexivity.
Qed.
Lemma col_table r B a xi xim vx j k : In k (bins B) -> (j < 8)%nat ->
  colOf (map (map r) (tableOf B a xi xim vx)) j k = r (nth j (rowOf B a xi xim vx k) 0).
Proof.
  intros H Hj. destruct (bins_nth _ _ H) as [Hl Hn]. unfold colOf, tableOf. rewrite map_map.
  rewrite (nth_indep _ [] (map r (rowOf B a xi xim vx 0%Z))) by (rewrite map_length; exact Hl).
  rewrite (map_nth (fun x => map r (rowOf B a xi xim vx x))), Hn.
  rewrite (nth_indep _ 0 (r 0)) by (rewrite map_length; exact Hj). now rewrite map_nth.
Qed.
Lemma arr_table r B a xi xim vx f k : In k (bins B) ->
  arrOf (map (map r) (tableOf B a xi xim vx)) f k =
  r (match f with X1 => xi k | X2 => xim k | _ => a f k end).
Proof. intros H. destruct f; cbn [arrOf]; rewrite col_table by (exact H || lia); reflexivity. Qed.

(** ** reading one table *)
Lemma take_none rs : takeRows None (map LRow rs) = (rs, []).
Proof. induction rs as [|r t IH]; cbn; [reflexivity|]. now rewrite IH. Qed.
Lemma take_some rs t : takeRows (Some (length rs)) (map LRow rs ++ t) = (rs, t).
Proof. induction rs as [|r u IH]; cbn; [destruct t; reflexivity|]. now rewrite IH. Qed.
Lemma same_table r B a xi xim vx : sameLen (map (map r) (tableOf B a xi xim vx)) = true.
Proof.
  unfold tableOf. rewrite map_map. destruct (bins B) as [|k l]; [reflexivity|]. cbn [map sameLen].
  apply forallb_forall. intros x Hx. apply in_map_iff in Hx as (q & <- & _). rewrite !map_length. reflexivity.
Qed.
Lemma table_len B a xi xim vx : length (tableOf B a xi xim vx) = length (bins B).
Proof. unfold tableOf. apply map_length. Qed.
Lemma ascii_table p b : asciiCall rnd (WTable p b) =
  extLine (b_ext b) ++ [LParams (b_params b); LHeader] ++ map LRow (map (map (rnd p)) (b_rows b)).
Proof. unfold asciiCall. now rewrite map_map. Qed.
Lemma ascii_array p b : asciiCall rnd (WArray p b) = extLine (b_ext b) ++ map LRow (map (map (rnd p)) (b_rows b)).
Proof. unfold asciiCall. now rewrite map_map. Qed.

(** ** the loop over the results *)
Definition resBack (r : R -> R) (B : bparams) (m : vmethod) (rv : R) (res : zdict) : zdict :=
  map (fun ka => (fst ka, arrOf (map (map r) (tableOf B (snd ka) (snd ka X1) (snd ka X2)
         (match resVx B m rv (snd ka) with Some v => v | None => fun _ => 0 end))))) res.
Lemma zdset_new k v d : ~ In k (zkeys d) -> zdset k v d = d ++ [(k, v)].
Proof.
  induction d as [|(k', v') t IH]; cbn; intros H; [reflexivity|].
  destruct (keqb k k') eqn:E; [apply keqb_eq in E; subst; tauto|]. rewrite IH by tauto. reflexivity.
Qed.
Lemma readPP_ascii B m rv res : forall i l acc tl, ppCalls B m rv i res = Some l ->
  NoDup (zkeys acc ++ zkeys res) ->
  readPP B (Some (length (bins B))) (FAscii (flat_map (asciiCall rnd) l ++ tl)) i (length res) acc =
  Some (acc ++ resBack (rnd 16) B m rv res, FAscii tl).
Proof.
  induction res as [|(ky, a) t IH]; intros i l acc tl Hl Hd.
  - injection Hl as <-. cbn. now rewrite app_nil_r.
  - cbn [ppCalls] in Hl. destruct (resVx B m rv a) as [vx|] eqn:Ev; [|discriminate].
    destruct (ppCalls B m rv (S i) t) as [l'|] eqn:El; [|discriminate]. injection Hl as <-.
    cbn [flat_map]. rewrite ascii_table. cbn [b_ext b_params b_rows extLine app].
    rewrite <- app_assoc. cbn [length readPP readParams extn_eqb negb]. rewrite Nat.eqb_refl. cbn [negb].
    cbn [readData].
    pose proof (take_some (map (map (rnd 16)) (tableOf B a (a X1) (a X2) vx)) (flat_map (asciiCall rnd) l' ++ tl)) as Ht.
    rewrite map_length, table_len in Ht. rewrite Ht, same_table. rewrite map_length, table_len, Nat.eqb_refl.
    cbn [w_key]. rewrite zdset_new.
    + rewrite (IH (S i) l' _ tl El).
      * rewrite <- app_assoc. cbn [resBack map fst snd app]. rewrite Ev. reflexivity.
      * rewrite zkeys_app, <- app_assoc. exact Hd.
    + intros Hin. cbn [zkeys map fst] in Hd. apply NoDup_remove_2 in Hd. apply Hd, in_or_app. now left.
Qed.
Lemma pp_find B m rv res : forall i l j, ppCalls B m rv i res = Some l -> (j < i)%nat ->
  forall tl, findBlk (Some (EPP j)) (map binCall l ++ tl) = findBlk (Some (EPP j)) tl.
Proof.
  induction res as [|(ky, a) t IH]; intros i l j Hl Hj tl.
  - injection Hl as <-. reflexivity.
  - cbn [ppCalls] in Hl. destruct (resVx B m rv a); [|discriminate].
    destruct (ppCalls B m rv (S i) t) as [l'|] eqn:El; [|discriminate]. injection Hl as <-.
    unfold findBlk. cbn [map app find binCall b_ext oext_eqb extn_eqb].
    destruct (Nat.eqb j i) eqn:E; [apply Nat.eqb_eq in E; lia|]. apply (IH (S i) l' j El); lia.
Qed.
Lemma readPP_bin B m rv res bs : forall i l acc tl, ppCalls B m rv i res = Some l ->
  NoDup (zkeys acc ++ zkeys res) ->
  (forall j, (i <= j)%nat -> findBlk (Some (EPP j)) bs = findBlk (Some (EPP j)) (map binCall l ++ tl)) ->
  readPP B (Some (length (bins B))) (FBin bs) i (length res) acc =
  Some (acc ++ resBack (fun x => x) B m rv res, FBin bs).
Proof.
  induction res as [|(ky, a) t IH]; intros i l acc tl Hl Hd Hf.
  - cbn. now rewrite app_nil_r.
  - cbn [ppCalls] in Hl. destruct (resVx B m rv a) as [vx|] eqn:Ev; [|discriminate].
    destruct (ppCalls B m rv (S i) t) as [l'|] eqn:El; [|discriminate]. injection Hl as <-.
    assert (Hi : findBlk (Some (EPP i)) bs = Some (mkBlk (Some (EPP i)) (mkW None None None None (Some ky))
                                                   (tableOf B a (a X1) (a X2) vx))).
    { rewrite (Hf i (le_n i)). unfold findBlk. cbn [map app find binCall b_ext oext_eqb extn_eqb].
      now rewrite Nat.eqb_refl. }
    cbn [length readPP readParams]. rewrite Hi. cbn [readData b_params]. rewrite Hi. cbn [b_params b_rows w_key].
    rewrite <- (table_len B a (a X1) (a X2) vx), firstn_all, Nat.eqb_refl, table_len.
    rewrite zdset_new.
    + rewrite (IH (S i) l' _ tl El).
      * rewrite <- app_assoc. cbn [resBack map fst snd app]. rewrite Ev.
        rewrite (map_ext (map (fun x : R => x)) (fun x => x)) by (intros; apply map_id). rewrite map_id. reflexivity.
      * rewrite zkeys_app, <- app_assoc. exact Hd.
      * intros j Hj. rewrite Hf by lia. unfold findBlk at 1. cbn [map app find binCall b_ext oext_eqb extn_eqb].
        destruct (Nat.eqb j i) eqn:E; [apply Nat.eqb_eq in E; lia|]. reflexivity.
    + intros Hin. cbn [zkeys map fst] in Hd. apply NoDup_remove_2 in Hd. apply Hd, in_or_app. now left.
Qed.

Lemma pp_nocov B m rv res : forall i l tl, ppCalls B m rv i res = Some l ->
  findBlk (Some ECov) (map binCall l ++ tl) = findBlk (Some ECov) tl.
Proof.
  induction res as [|(ky, a) t IH]; intros i l tl Hl.
  - injection Hl as <-. reflexivity.
  - cbn [ppCalls] in Hl. destruct (resVx B m rv a); [|discriminate].
    destruct (ppCalls B m rv (S i) t) as [l'|] eqn:El; [|discriminate]. injection Hl as <-.
    unfold findBlk. cbn [map app find binCall b_ext oext_eqb extn_eqb]. apply (IH (S i) l' tl El).
Qed.
Lemma pp_some B m rv i res : (m = VShot \/ rv = 0) -> exists l, ppCalls B m rv i res = Some l.
Proof.
  intros H. revert i; induction res as [|(ky, a) t IH]; intros i; cbn [ppCalls]; [eauto|].
  destruct (IH (S i)) as (l & ->). assert (exists v, resVx B m rv a = Some v) as (v & ->).
  { unfold resVx, varxi, rawVarxi. cbn [z_vx z_rvx zo z_var]. destruct (Req_EM_T rv 0) as [E|E]; [cbn; eauto|].
    destruct H as [-> | H]; [|contradiction]. cbn. eauto. }
  eauto.
Qed.

(** *** the whole file *)
Definition square (n : nat) (c : list row) : Prop := length c = n /\ Forall (fun r => length r = n) c.
Lemma square_same r n c : square n c -> sameLen (map (map r) c) = true.
Proof.
  intros [H F]. destruct F as [|x t Hx Ht]; [reflexivity|]. cbn [map sameLen]. apply forallb_forall.
  intros y Hy. apply in_map_iff in Hy as (z & <- & Hz). rewrite !map_length, Hx.
  rewrite Forall_forall in Ht. rewrite (Ht z Hz). apply Nat.eqb_refl.
Qed.

Lemma array_ascii p n c t e : square n c -> n <> 1%nat -> n <> 0%nat ->
  readArray (FAscii (LExt ECov :: map LRow (map (map (rnd p)) c) ++ t)) n e = Some ((map (map (rnd p)) c : list row), FAscii t).
Proof.
  intros Hsq H1 H0. set (c' := (map (map (rnd p)) c : list row)).
  assert (Hl : length c' = n) by (etransitivity; [apply map_length|apply Hsq]).
  assert (Hs : sameLen c' = true) by apply (square_same _ _ _ Hsq).
  assert (Hf : Forall (fun r : row => length r = n) c').
  { apply Forall_forall. intros x Hx. apply in_map_iff in Hx as (y & <- & Hy). destruct Hsq as [_ F].
    rewrite Forall_forall in F. rewrite map_length. now apply F. }
  clearbody c'. unfold readArray. 
  assert (Ht : takeRows (Some n) (LExt ECov :: map LRow c' ++ t) = (c', t)).
  { destruct n as [|n]; [congruence|]. cbn [takeRows]. rewrite <- Hl. apply take_some. }
  rewrite Ht, Hs. destruct (Nat.eqb_spec (length c') n); [|congruence].
  destruct (Nat.eqb_spec n 1); [congruence|]. cbn [andb negb].
  destruct Hf as [|x u Hx Hu]; [cbn in Hl; congruence|]. rewrite Hx, Nat.eqb_refl. reflexivity.
Qed.
Definition readObj (r r16 : R -> R) (B : bparams) (m : vmethod) (rv : R) (wpr : bool) (o : zobj) (vx : Z -> R) (t : nz)
   (cd : option (Z -> R)) : nz :=
  let rs := map (map r) (tableOf B (z_arr o) (zxi o) (zxim o) vx) in
  let v := fun k => colOf rs 5 k * colOf rs 5 k in
  upd t (mkZ (arrOf rs) None None (if wpr then resBack r16 B m rv (z_res o) else [])
    (if wpr then z_n1 o else 1%Z) (if wpr then z_n2 o else 1%Z) (z_ok (zo t)) (z_var (zo t))
    (match cd with Some c => Some c | None => z_cov (zo t) end) (Some v) (Some v)).

Lemma map_idid (l : list row) : map (map (fun x : R => x)) l = l.
Proof. rewrite (map_ext (map (fun x : R => x)) (fun x => x)) by (intros; apply map_id). apply map_id. Qed.

Lemma read_bin B m rv p wpr wcov o vx cov t f :
  NoDup (zkeys (z_res o)) -> writeCorr rnd false B m rv p wpr wcov o vx cov = Some f ->
  readCorr B t f = Some (readObj (fun x => x) (fun x => x) B m rv wpr o vx t (if wcov then Some (diagOf cov) else None),
                         if wcov then Some cov else None).
Proof.
  intros Hd Hw. unfold writeCorr, writeCalls in Hw.
  destruct (if wpr then ppCalls B m rv 0 (z_res o) else Some []) as [l|] eqn:El; [|discriminate].
  cbn [option_map fileOf] in Hw. injection Hw as <-.
  set (T := tableOf B (z_arr o) (zxi o) (zxim o) vx).
  assert (HT : length T = length (bins B)) by apply table_len.
  unfold readObj. fold T. rewrite map_idid.
  destruct wpr.
  - cbn [orb map binCall]. unfold readCorr. cbn [hasMain existsb b_ext oext_eqb extn_eqb orb readParams].
    unfold findBlk at 1. cbn [find b_ext oext_eqb extn_eqb b_params w_npp w_numrows w_npatch w_covshape].
    cbn [readData]. unfold findBlk at 1. cbn [find b_ext oext_eqb extn_eqb b_rows].
    rewrite <- HT, firstn_all. unfold fromData. rewrite HT, Nat.eqb_refl. cbn [w_npatch fst snd].
    erewrite readPP_bin with (l := l) (m := m) (rv := rv)
      (tl := map binCall (if wcov then [WArray 16 {| b_ext := Some ECov; b_params := noparams; b_rows := cov |}] else []));
      [|exact El|exact Hd|].
    2:{ intros j _. unfold findBlk at 1. cbn [find b_ext oext_eqb extn_eqb]. rewrite map_app. reflexivity. }
    cbn [app z_arr z_n1 z_n2 z_ok z_var z_cov z_rvx z_vx]. destruct wcov.
    + cbn [readArray].
      assert (Hn : forall b0, b_ext b0 = Some EMain -> findBlk (Some ECov) (b0 :: map binCall
        (l ++ [WArray 16 {| b_ext := Some ECov; b_params := noparams; b_rows := cov |}])) =
        Some {| b_ext := Some ECov; b_params := noparams; b_rows := cov |}).
      { intros b0 E0. unfold findBlk. cbn [find]. rewrite E0. cbn [oext_eqb extn_eqb]. rewrite map_app.
        etransitivity; [exact (pp_nocov _ _ _ _ _ _ _ El)|]. reflexivity. }
      rewrite Hn by reflexivity. reflexivity.
    + reflexivity.
  - injection El as <-. destruct wcov; cbn [orb app map binCall].
    + unfold readCorr. cbn [hasMain existsb b_ext oext_eqb extn_eqb orb readParams findBlk find b_params w_npp w_numrows
        w_npatch w_covshape readData b_rows readPP readArray]. unfold fromData. rewrite HT, Nat.eqb_refl. reflexivity.
    + unfold readCorr. cbn [hasMain existsb b_ext oext_eqb extn_eqb orb readParams findBlk find b_params w_npp w_numrows
        w_npatch w_covshape readData b_rows readPP readArray Nat.eqb]. unfold fromData. rewrite HT, Nat.eqb_refl. reflexivity.
Qed.

Lemma read_ascii B m rv p wpr wcov o vx cov t f :
  NoDup (zkeys (z_res o)) -> (wcov = true -> wpr = true /\ square (length (bins B)) cov /\ length (bins B) <> 1%nat /\
                                             length (bins B) <> 0%nat) ->
  writeCorr rnd true B m rv p wpr wcov o vx cov = Some f ->
  readCorr B t f = Some (readObj (rnd p) (rnd 16) B m rv wpr o vx t
                                (if wcov then Some (diagOf (map (map (rnd 16)) cov)) else None),
                         if wcov then Some (map (map (rnd 16)) cov) else None).
Proof.
  intros Hd Hc Hw. unfold writeCorr, writeCalls in Hw.
  destruct (if wpr then ppCalls B m rv 0 (z_res o) else Some []) as [l|] eqn:El; [|discriminate].
  cbn [option_map fileOf] in Hw. injection Hw as <-.
  unfold readObj. set (T := (map (map (rnd p)) (tableOf B (z_arr o) (zxi o) (zxim o) vx) : list row)).
  change (map (map (rnd p)) (tableOf B (z_arr o) (zxi o) (zxim o) vx)) with T.
  assert (HT : length T = length (bins B)) by (unfold T; rewrite map_length; apply table_len).
  assert (HE : Nat.eqb (length T) (length (bins B)) = true) by (apply Nat.eqb_eq; exact HT).
  assert (HS : sameLen T = true) by apply same_table.
  unfold fileOf. cbn [flat_map asciiCall b_ext b_params b_rows app].
  assert (HR : map (fun r : list R => LRow (map (rnd p) r)) (tableOf B (z_arr o) (zxi o) (zxim o) vx) = map LRow T)
    by (unfold T; now rewrite map_map).
  rewrite HR. change (@length (list R)) with (@length row).
  destruct wpr.
  - cbn [orb extLine app]. unfold readCorr. cbn [hasMain readParams w_npp w_numrows w_npatch w_covshape readData].
    assert (Ht0 : forall u, takeRows (Some (length (bins B))) (map LRow T ++ u) = (T, u))
      by (intros u; rewrite <- HT; apply take_some).
    rewrite Ht0, HS. unfold fromData. change (@length (list R)) with (@length row). rewrite HE. cbn [w_npatch fst snd].
    rewrite flat_map_app. erewrite readPP_ascii; [|exact El|exact Hd].
    cbn [app z_arr z_n1 z_n2 z_ok z_var z_cov z_rvx z_vx]. destruct wcov; [|reflexivity].
    destruct (Hc eq_refl) as (_ & Hsq & H1 & H0). cbn [flat_map]. rewrite ascii_array.
    cbn [b_ext b_rows extLine app].
    match goal with |- context [readArray ?f ?n ?e] =>
      replace (readArray f n e) with (Some ((map (map (rnd 16)) cov : list row), FAscii [])) end; [reflexivity|].
    symmetry. replace (length cov) with (length (bins B)) by (symmetry; apply Hsq).
    apply array_ascii; assumption.
  - destruct wcov; [destruct (Hc eq_refl); discriminate|]. injection El as <-.
    cbn [orb extLine app flat_map]. unfold readCorr. rewrite !app_nil_r.
    cbn [hasMain readParams w_npp w_numrows w_npatch w_covshape readData Nat.eqb].
    rewrite take_none, HS. unfold fromData. change (@length (list R)) with (@length row). rewrite HE. reflexivity.
Qed.
End RT.
