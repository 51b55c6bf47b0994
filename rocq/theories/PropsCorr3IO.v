(** C99: a three-point correlation read from its file has the values of the one that was written. *)
From Coq Require Import String.
From Coq Require Import Reals Lra Lia List ZArith Bool.
From Verif Require Import Corr3IO.
Import ListNotations.
Open Scope R_scope.

(** ** Spec *)
(** The public values of an object, apart from the zeta and varzeta of NNN. *)
Definition sameVals (vr vr' : obj3 -> nat -> arr3) (c : cls3) (bt : bint3) (a b : obj3) : Prop :=
  (o_at a MeanD1 = o_at b MeanD1 /\ o_at a MeanLD1 = o_at b MeanLD1 /\ o_at a MeanD2 = o_at b MeanD2 /\
   o_at a MeanLD2 = o_at b MeanLD2 /\ o_at a MeanD3 = o_at b MeanD3 /\ o_at a MeanLD3 = o_at b MeanLD3) /\
  (bt = RUV -> o_at a MeanU = o_at b MeanU /\ o_at a MeanV = o_at b MeanV) /\
  (bt = SAS -> o_at a MeanU = o_at b MeanU) /\
  o_at a WR = o_at b WR /\ o_at a WI = o_at b WI /\ o_at a NTri = o_at b NTri /\
  o_coords a = o_coords b /\ o_metric a = o_metric b /\
  (c = KKK3 -> o_at a Z1 = o_at b Z1 /\ (bt = MP -> o_at a Z2 = o_at b Z2) /\ vr a 0%nat = vr' b 0%nat) /\
  (c = GGG3 -> o_at a Z1 = o_at b Z1 /\ o_at a Z2 = o_at b Z2 /\ o_at a Z3 = o_at b Z3 /\ o_at a Z4 = o_at b Z4 /\
               o_at a Z5 = o_at b Z5 /\ o_at a Z6 = o_at b Z6 /\ o_at a Z7 = o_at b Z7 /\ o_at a Z8 = o_at b Z8 /\
               forall i, (i < 4)%nat -> vr a i = vr' b i) /\
  (c = NNN3 -> o_tot a = o_tot b).
(** results is a dict *)
Fixpoint getK {A} (k : key3) (l : list (key3 * A)) : option A :=
  match l with
  | [] => None
  | (k', x) :: t => if (Z.eqb (fst (fst k)) (fst (fst k')) && Z.eqb (snd (fst k)) (snd (fst k')) && Z.eqb (snd k) (snd k'))%bool
                    then Some x else getK k t
  end.
Definition sameEnt (vr : obj3 -> nat -> arr3) (c : cls3) (bt : bint3) (x y : option rent) : Prop :=
  match x, y with
  | None, None => True
  | Some (RZero t), Some (RZero u) => t = u
  | Some (RNon a), Some (RNon b) => sameVals vr vr c bt a b
  | _, _ => False
  end.
Definition sameRes (vr : obj3 -> nat -> arr3) (c : cls3) (bt : bint3) (l l' : list (key3 * rent)) : Prop :=
  forall k, sameEnt vr c bt (getK k l) (getK k l').

(** An object read back: without patch results in the file there are none afterwards *)
Definition sameSub (vr : obj3 -> nat -> arr3) (c : cls3) (bt : bint3) (wpr : bool) (s s' : sub3) : Prop :=
  sameVals vr vr c bt (s_o s) (s_o s') /\
  if wpr then o_np (s_o s') = o_np (s_o s) /\ sameRes vr c bt (s_res s) (s_res s')
  else o_np (s_o s') = (1, 1, 1)%Z /\ s_res s' = [].
Definition sameRand (vr : obj3 -> nat -> arr3) (bt : bint3) (wpr : bool) (r r' : option sub3) : Prop :=
  if wpr then match r, r' with None, None => True | Some s, Some s' => sameSub vr NNN3 bt true s s' | _, _ => False end
  else r' = None.

(** ** Hypotheses on the objects: the arrays have the shape of the bins, variances are not negative *)
Definition nonneg (v : arr3) : Prop := forall x, In x v -> 0 <= x.
Definition shaped (nb : nat) (est : obj3 -> nat -> arr3) (c : cls3) (bt : bint3) (o : obj3) : Prop :=
  (forall a, In a [MeanD1; MeanLD1; MeanD2; MeanLD2; MeanD3; MeanLD3; MeanU; MeanV; WR; NTri] -> length (o_at o a) = nb) /\
  match bt with MP => length (o_at o WI) = nb | _ => o_at o WI = [] end /\
  match c with
  | KKK3 => length (o_at o Z1) = nb /\ (bt = MP -> length (o_at o Z2) = nb) /\
            length (vr3 est o 0) = nb /\ nonneg (vr3 est o 0)
  | GGG3 => (forall a, In a [Z1; Z2; Z3; Z4; Z5; Z6; Z7; Z8] -> length (o_at o a) = nb) /\
            forall i, (i < 4)%nat -> length (vr3 est o i) = nb /\ nonneg (vr3 est o i)
  | NNN3 => forall z v, o_zeta o = Some (z, v) -> length z = nb /\ length v = nb /\ nonneg v
  end.
Definition goodRes (nb : nat) (est : obj3 -> nat -> arr3) (c : cls3) (bt : bint3) (l : list (key3 * rent)) : Prop :=
  NoDup (map fst l) /\
  forall k e, In (k, e) l -> match e with RNon o => shaped nb est c bt o | RZero _ => c = NNN3 end.

(** ** Proofs *)
Section P.
Variable nb : nat.
Hypothesis Hnb : (0 < nb)%nat.
Variable nom : nat -> arr3.
Variable est : obj3 -> nat -> arr3.
Variable zval : full3 -> sub3 -> option (sub3 * sub3) -> res3 ((arr3 * arr3) * list (key3 * R)).
Notation vr := (vr3 est).

Definition okmx (mx : option nat) : Prop := mx = None \/ mx = Some nb.
Lemma col3_ok : forall mx d n a, assoc3 n d = Some a -> length a = nb -> okmx mx -> col3 nb mx d n = Ok3 a.
Proof using Hnb.
  intros mx d n a A L [-> | ->]; unfold col3; rewrite A; cbv zeta.
  - now rewrite L, Nat.eqb_refl.
  - rewrite firstn_all2 by lia. now rewrite L, Nat.eqb_refl.
Qed.
Lemma sq_sqrt : forall v, nonneg v -> sq3 (map sqrt v) = v.
Proof using Hnb.
  intros v H. unfold sq3. rewrite map_map. rewrite <- (map_id v) at 2. apply map_ext_in. intros x Hx.
  apply sqrt_sqrt. exact (H x Hx).
Qed.
Ltac lens := first [ eassumption | rewrite map_length; eassumption ].
Ltac cols := repeat (cbn [readCols readVars bind3];
                     erewrite col3_ok; [ | reflexivity | lens | assumption ]); cbn [readCols readVars bind3].

Definition zetaOf (c : cls3) (o o0 : obj3) : option (arr3 * arr3) :=
  match c with NNN3 => match o_zeta o with Some z => Some z | None => o_zeta o0 end | _ => o_zeta o0 end.
Lemma readData_ok : forall c bt mx p o o0, shaped nb est c bt o -> okmx mx ->
  (bt <> MP -> o_at o0 WI = []) -> p_coords p = o_coords o -> p_metric p = o_metric o -> p_tot p = totOf c o ->
  exists o', readData3 nb c mx bt (colsOf nom est c bt o) p o0 = Ok3 o' /\ sameVals vr vr c bt o o' /\
    o_zeta o' = zetaOf c o o0 /\ o_np o' = match p_np p with Some n => n | None => (1, 1, 1)%Z end /\
    (bt <> MP -> o_at o' WI = []).
Proof using Hnb.
  intros c bt mx p o o0 (S1 & S2 & S3) M W0 Pc Pm Pt.
  pose proof (S1 MeanD1 ltac:(cbn; tauto)) as L1. pose proof (S1 MeanLD1 ltac:(cbn; tauto)) as L2.
  pose proof (S1 MeanD2 ltac:(cbn; tauto)) as L3. pose proof (S1 MeanLD2 ltac:(cbn; tauto)) as L4.
  pose proof (S1 MeanD3 ltac:(cbn; tauto)) as L5. pose proof (S1 MeanLD3 ltac:(cbn; tauto)) as L6.
  pose proof (S1 MeanU ltac:(cbn; tauto)) as L7. pose proof (S1 MeanV ltac:(cbn; tauto)) as L8.
  pose proof (S1 WR ltac:(cbn; tauto)) as L9. pose proof (S1 NTri ltac:(cbn; tauto)) as L10.
  destruct c.
  - destruct S3 as (Q1 & Q2 & Q3 & Q4).
    destruct bt; unfold readData3, readBase; cbn [colsOf]; try pose proof (Q2 eq_refl) as Q2';
      try pose proof (W0 ltac:(discriminate)) as W0';
      [ change (assoc3 "weight" (colsKKK nom est RUV o)) with (Some (o_at o WR))
      | change (assoc3 "weight" (colsKKK nom est SAS o)) with (Some (o_at o WR)) | ];
      cbv iota; cols; (eexists; split; [reflexivity|]); unfold vr3 at 1 2;
      (split; [ unfold sameVals; cbn; rewrite ?sq_sqrt by exact Q4; unfold vr3;
                repeat split; try congruence; intros; try discriminate; auto; repeat split; congruence
              | split; [reflexivity | split; [reflexivity | cbn; congruence]] ]).
  - destruct S3 as (Q1 & Q2).
    pose proof (Q1 Z1 ltac:(cbn; tauto)) as M1. pose proof (Q1 Z2 ltac:(cbn; tauto)) as M2.
    pose proof (Q1 Z3 ltac:(cbn; tauto)) as M3. pose proof (Q1 Z4 ltac:(cbn; tauto)) as M4.
    pose proof (Q1 Z5 ltac:(cbn; tauto)) as M5. pose proof (Q1 Z6 ltac:(cbn; tauto)) as M6.
    pose proof (Q1 Z7 ltac:(cbn; tauto)) as M7. pose proof (Q1 Z8 ltac:(cbn; tauto)) as M8.
    destruct (Q2 0%nat ltac:(lia)) as [V0 N0]. destruct (Q2 1%nat ltac:(lia)) as [V1 N1].
    destruct (Q2 2%nat ltac:(lia)) as [V2 N2]. destruct (Q2 3%nat ltac:(lia)) as [V3 N3].
    destruct bt; unfold readData3, readBase; cbn [colsOf]; try pose proof (W0 ltac:(discriminate)) as W0';
      [ change (assoc3 "weight" (colsGGG nom est RUV o)) with (Some (o_at o WR))
      | change (assoc3 "weight" (colsGGG nom est SAS o)) with (Some (o_at o WR)) | ];
      cbv iota; cols; (eexists; split; [reflexivity|]);
      (split; [ unfold sameVals; cbn; repeat split; try congruence; intros; try discriminate;
                repeat split; try congruence; intros;
                match goal with i : nat, H : (_ < 4)%nat |- _ => destruct i as [|[|[|[|i]]]]; [ | | | | lia] end;
                unfold vr3 at 2; cbn; rewrite sq_sqrt by assumption; reflexivity
              | split; [reflexivity | split; [reflexivity | cbn; congruence]] ]).
  - cbn [colsOf totOf] in *. unfold readData3, readBase, zetaOf. unfold colsNNN.
    destruct bt; try pose proof (W0 ltac:(discriminate)) as W0'.
    1, 2: rewrite S2; destruct (o_zeta o) as [[z v]|] eqn:Ez;
      [ destruct (S3 z v eq_refl) as (Y1 & Y2 & Y3) | ];
      cbn [app commonCols assoc3 String.eqb Ascii.eqb Bool.eqb]; cols; rewrite Pt; cbn [bind3];
      (eexists; split; [reflexivity|]);
      (split; [ unfold sameVals; cbn; repeat split; try congruence; intros; try discriminate; auto
              | split; [cbn; rewrite ?sq_sqrt by assumption; reflexivity | split; [reflexivity | cbn; congruence]] ]).
    destruct (o_at o WI) as [|w ws] eqn:Ew; [cbn in S2; lia|]. rewrite <- Ew in *.
    destruct (o_zeta o) as [[z v]|] eqn:Ez;
      [ destruct (S3 z v eq_refl) as (Y1 & Y2 & Y3) | ];
      cbn [app commonCols assoc3 String.eqb Ascii.eqb Bool.eqb]; cols; rewrite Pt; cbn [bind3];
      (eexists; split; [reflexivity|]);
      (split; [ unfold sameVals; cbn; repeat split; try congruence; intros; try discriminate; auto
              | split; [cbn; rewrite ?sq_sqrt by assumption; reflexivity | split; [reflexivity | cbn; congruence]] ]).
Qed.

(** Looking up tables *)
Definition fnd (e : ext3) (l : list blk3) : option blk3 := find (fun b => ext3_eqb e (blk3_ext b)) l.
Lemma fnd_app : forall e a b, fnd e (a ++ b) = match fnd e a with Some x => Some x | None => fnd e b end.
Proof. induction a as [|x a IH]; intros b; [reflexivity|]. cbn. destruct (ext3_eqb e (blk3_ext x)); [reflexivity|apply IH]. Qed.
Lemma fnd_cons : forall e b l, ext3_eqb e (blk3_ext b) = false -> fnd e (b :: l) = fnd e l.
Proof using. intros e b l H. unfold fnd. cbn [find]. now rewrite H. Qed.
Lemma base3_refl : forall b, base3_eqb b b = true. Proof. now destruct b. Qed.
Lemma base3_neq : forall a b, a <> b -> base3_eqb a b = false. Proof. destruct a, b; intros H; auto; now elim H. Qed.
Definition ppTab (c : cls3) (bt : bint3) (b : base3) (i : nat) (k : key3) (o : obj3) : blk3 :=
  Tab3 (EPP3 b i) (mkP3 c (o_coords o) (o_metric o) (totOf c o) None None None None None (Some k) None None None)
    (colsOf nom est c bt o).
Lemma fnd_pp : forall c bt b l i j k o, nth_error l j = Some (k, o) ->
  fnd (EPP3 b (i + j)) (ppBlks nom est c bt b i l) = Some (ppTab c bt b (i + j) k o).
Proof using Hnb.
  intros c bt b. induction l as [|[k0 o0] l IH]; intros i j k o H; [now destruct j|]. destruct j as [|j]; cbn in *.
  - injection H as -> ->. rewrite Nat.add_0_r, base3_refl, Nat.eqb_refl. reflexivity.
  - rewrite base3_refl. replace (Nat.eqb (i + S j) i) with false by (symmetry; apply Nat.eqb_neq; lia). cbn.
    replace (i + S j)%nat with (S i + j)%nat by lia. exact (IH (S i) j k o H).
Qed.
Lemma fnd_pp_none : forall c bt b e l i, match e with EPP3 b' _ => b' <> b | _ => True end ->
  fnd e (ppBlks nom est c bt b i l) = None.
Proof using Hnb.
  intros c bt b e. induction l as [|[k o] l IH]; intros i H; [reflexivity|]. cbn.
  destruct e; cbn; try (apply IH; exact H). rewrite base3_neq by exact H. cbn. apply IH. exact H.
Qed.
Lemma find3_fnd : forall f e, e <> ENone3 -> find3 f e = fnd e (fl_blks f).
Proof. intros f e H. unfold find3. destruct e; try reflexivity. now elim H. Qed.
Lemma readPP_ok : forall c bt f mx b o0 l i, okmx mx -> (bt <> MP -> o_at o0 WI = []) ->
  (forall j k o, nth_error l j = Some (k, o) -> find3 f (EPP3 b (i + j)) = Some (ppTab c bt b (i + j) k o)) ->
  (forall k o, In (k, o) l -> shaped nb est c bt o) ->
  exists rs, readPP nb c bt f mx b o0 i (length l) = Ok3 rs /\
    Forall2 (fun p q => fst q = fst p /\ exists o', snd q = RNon o' /\ sameVals vr vr c bt (snd p) o') l rs.
Proof using Hnb.
  intros c bt f mx b o0. induction l as [|[k o] l IH]; intros i M W F G; [exists []; split; [reflexivity|constructor]|].
  cbn [length readPP]. pose proof (F 0%nat k o eq_refl) as F0. rewrite Nat.add_0_r in F0. rewrite F0. unfold ppTab. cbv iota.
  destruct (readData_ok c bt mx (mkP3 c (o_coords o) (o_metric o) (totOf c o) None None None None None (Some k) None None None)
              o o0 (G k o (or_introl eq_refl)) M W eq_refl eq_refl eq_refl) as (o' & E & Sv & _).
  rewrite E. cbn [bind3 p_key].
  destruct (IH (S i) M W) as (rs & Er & Fr).
  - intros j k' o1 H. specialize (F (S j) k' o1 H). now replace (S i + j)%nat with (i + S j)%nat by lia.
  - intros k' o1 H. apply (G k' o1). now right.
  - rewrite Er. cbn [bind3]. exists ((k, RNon o') :: rs). split; [reflexivity|]. constructor; [|exact Fr].
    cbn. split; [reflexivity|]. exists o'. auto.
Qed.
(** results as a dict *)
Lemma getK_app : forall A k (a b : list (key3 * A)), getK k (a ++ b) = match getK k a with Some x => Some x | None => getK k b end.
Proof. induction a as [|[k' x] a IH]; intros b; [reflexivity|]. cbn. destruct (_ && _ && _); [reflexivity|apply IH]. Qed.
Lemma getK_none : forall A k (l : list (key3 * A)), ~ In k (map fst l) -> getK k l = None.
Proof using Hnb.
  induction l as [|[k' x] l IH]; intros H; [reflexivity|]. cbn.
  destruct (_ && _ && _) eqn:E; [|apply IH; intros I0; apply H; now right].
  elim H. left. cbn. apply andb_true_iff in E as [E E3]. apply andb_true_iff in E as [E1 E2].
  apply Z.eqb_eq in E1, E2, E3. destruct k as [[a b] c], k' as [[a' b'] c']. cbn in *. congruence.
Qed.
Lemma getK_hit : forall (k k' : key3),
  (Z.eqb (fst (fst k)) (fst (fst k')) && Z.eqb (snd (fst k)) (snd (fst k')) && Z.eqb (snd k) (snd k'))%bool = true -> k = k'.
Proof using Hnb.
  intros k k' E. apply andb_true_iff in E as [E E3]. apply andb_true_iff in E as [E1 E2].
  apply Z.eqb_eq in E1, E2, E3. destruct k as [[a b] c], k' as [[a' b'] c']. cbn in *. congruence.
Qed.
Lemma getK_zeros : forall k l, NoDup (map fst l) -> getK k (map (fun q => (fst q, RZero (snd q))) (zeros3 l)) =
  match getK k l with Some (RZero t) => Some (RZero t) | _ => None end.
Proof using Hnb.
  induction l as [|[k' e] l IH]; intros N; [reflexivity|]. inversion N as [|? ? N1 N2]; subst. specialize (IH N2).
  destruct e as [o|t]; cbn; destruct (_ && _ && _) eqn:E; try reflexivity; try exact IH.
  apply getK_hit in E. subst k'. rewrite IH. rewrite getK_none by exact N1. reflexivity.
Qed.
Lemma getK_nonz : forall k l, NoDup (map fst l) -> getK k (nonz3 l) =
  match getK k l with Some (RNon o) => Some o | _ => None end.
Proof using Hnb.
  induction l as [|[k' e] l IH]; intros N; [reflexivity|]. inversion N as [|? ? N1 N2]; subst. specialize (IH N2).
  destruct e as [o|t]; cbn; destruct (_ && _ && _) eqn:E; try reflexivity; try exact IH.
  apply getK_hit in E. subst k'. rewrite IH. rewrite getK_none by exact N1. reflexivity.
Qed.
Lemma nonz_in : forall k o l, In (k, o) (nonz3 l) -> In (k, RNon o) l.
Proof using Hnb.
  induction l as [|[k' e] l IH]; intros H; [exact H|]. destruct e as [o'|t]; cbn in H.
  - destruct H as [H|H]; [left; congruence|right; auto].
  - right. auto.
Qed.
Lemma sameRes_ok : forall c bt l rs, NoDup (map fst l) ->
  Forall2 (fun p q => fst q = fst p /\ exists o', snd q = RNon o' /\ sameVals vr vr c bt (snd p) o') (nonz3 l) rs ->
  sameRes vr c bt l (map (fun q => (fst q, RZero (snd q))) (zeros3 l) ++ rs).
Proof using Hnb.
  intros c bt l rs N F k. rewrite getK_app, getK_zeros by exact N.
  assert (G : match getK k (nonz3 l) with
              | Some o => exists o', getK k rs = Some (RNon o') /\ sameVals vr vr c bt o o'
              | None => getK k rs = None end).
  { clear N. induction F as [|[k1 o1] [k2 e2] l1 l2 H F IH]; [reflexivity|]. cbn in H. destruct H as (-> & o' & -> & Sv).
    cbn. destruct (_ && _ && _); [exists o'; auto|exact IH]. }
  rewrite getK_nonz in G by exact N. destruct (getK k l) as [[o|t]|].
  - destruct G as (o' & -> & Sv). exact Sv.
  - reflexivity.
  - now rewrite G.
Qed.

(** One object with its results *)
Definition subPar (c : cls3) (wpr : bool) (cov : option (list arr3)) (flags : option (bool * bool * bool)) (s : sub3) : par3 :=
  mkP3 c (o_coords (s_o s)) (o_metric (s_o s)) (totOf c (s_o s))
            (if wpr then Some (o_np (s_o s)) else None) (if wpr then Some nb else None)
            (if wpr then Some (List.length (nonz3 (s_res s))) else None)
            (if wpr then match c with NNN3 => Some (zeros3 (s_res s)) | _ => None end else None)
            (option_map (@List.length arr3) cov) None
            (option_map (fun x => fst (fst x)) flags) (option_map (fun x => snd (fst x)) flags) (option_map snd flags).
Notation subOk := (sameSub vr).
Lemma zeros_nil : forall c bt l, goodRes nb est c bt l -> c <> NNN3 -> zeros3 l = [].
Proof using Hnb.
  intros c bt l [_ G] C. induction l as [|[k e] l IH]; [reflexivity|]. destruct e as [o|t].
  - cbn. apply IH. intros k' e' H. apply (G k' e'). now right.
  - elim C. exact (G k (RZero t) (or_introl eq_refl)).
Qed.
Lemma readSub_ok : forall c bt f name nm e cols (wpr : bool) cov flags s s0 cov0,
  nm = (if hasMain3 f && negb (isSome3 name) then Some Main3 else name) ->
  find3 f (match nm with Some b => EB3 b | None => ENone3 end) = Some (Tab3 e (subPar c wpr cov flags s) cols) ->
  (bt <> MP -> o_at (s_o s0) WI = []) ->
  (exists o, readData3 nb c (if wpr then Some nb else None) bt cols (subPar c wpr cov flags s) (s_o s0) = Ok3 o /\
     sameVals vr vr c bt (s_o s) o /\ o_zeta o = zetaOf c (s_o s) (s_o s0) /\
     o_np o = match p_np (subPar c wpr cov flags s) with Some n => n | None => (1, 1, 1)%Z end /\ (bt <> MP -> o_at o WI = [])) ->
  (if wpr then goodRes nb est c bt (s_res s) /\ (nm <> None \/ zeros3 (s_res s) = [] \/ nonz3 (s_res s) <> []) /\
     (forall j k o, nth_error (nonz3 (s_res s)) j = Some (k, o) ->
        find3 f (EPP3 (match nm with Some b => b | None => Main3 end) j)
        = Some (ppTab c bt (match nm with Some b => b | None => Main3 end) j k o)) else True) ->
  match cov with Some m => find3 f ECov3 = Some (Arr3 ECov3 m) | None => True end ->
  exists s', readSub nb c bt f name s0 cov0 = Ok3 (s', subPar c wpr cov flags s, match cov with Some m => Some m | None => cov0 end) /\
    subOk c bt wpr s s' /\ o_zeta (s_o s') = zetaOf c (s_o s) (s_o s0) /\ (bt <> MP -> o_at (s_o s') WI = []).
Proof using Hnb.
  intros c bt f name nm e cols wpr cov flags s s0 cov0 Hnm Ff W (o & Eo & Sv & Ez & En & Wo) G Cv.
  unfold readSub. rewrite <- Hnm. rewrite Ff. cbv zeta.
  assert (Ec : match p_cov (subPar c wpr cov flags s) with
            | None => Ok3 cov0
            | Some _ => match find3 f ECov3 with Some (Arr3 _ m) => Ok3 (Some m) | _ => ErrKey3 end
            end = Ok3 (match cov with Some m => Some m | None => cov0 end)).
  { destruct cov; cbn [subPar p_cov option_map]; [now rewrite Cv|reflexivity]. }
  rewrite Ec. clear Ec. destruct wpr.
  - destruct G as (G & Gn & Gp).
    assert (Ezp : match p_zp (subPar c true cov flags s) with Some l => l | None => [] end = zeros3 (s_res s)).
    { destruct c; cbn; try reflexivity; symmetry; eapply zeros_nil; eauto; discriminate. }
    rewrite Ezp. cbn [subPar p_ntri p_rows]. cbn [subPar p_np] in En. rewrite Eo. cbn [bind3].
    set (nm2 := if _ && negb (isSome3 nm) then Some Main3 else nm).
    assert (E2 : match nm2 with Some b => b | None => Main3 end = match nm with Some b => b | None => Main3 end).
    { subst nm2. destruct nm; cbn; [now rewrite andb_false_r|]. now destruct (Nat.eqb _ 0). }
    rewrite E2.
    assert (Eq : match zeros3 (s_res s), nm2 with
             | [], _ => Ok3 []
             | _, Some _ => Ok3 (map (fun q => (fst q, RZero (snd q))) (zeros3 (s_res s)))
             | _, None => ErrType3 end = Ok3 (map (fun q : key3 * R => (fst q, RZero (snd q))) (zeros3 (s_res s)))).
    { destruct (zeros3 (s_res s)) eqn:Z0; [reflexivity|]. destruct nm2 eqn:E3; [reflexivity|]. subst nm2.
      destruct nm; [cbn in E3; rewrite andb_false_r in E3; discriminate|]. destruct Gn as [Gn|[Gn|Gn]]; [now elim Gn|discriminate|].
      destruct (nonz3 (s_res s)); [now elim Gn|discriminate]. }
    rewrite Eq. cbn [bind3].
    destruct (readPP_ok c bt f (Some nb) (match nm with Some b => b | None => Main3 end) o (nonz3 (s_res s)) 0
                (or_intror eq_refl) Wo) as (rs & Er & Fr).
    + intros j k o1 H. exact (Gp j k o1 H).
    + intros k o1 H. apply nonz_in in H. exact (proj2 G _ _ H).
    + rewrite Er. cbn [bind3]. eexists. split; [reflexivity|]. cbn. split; [|auto].
      split; [exact Sv|]. split; [exact En|]. apply sameRes_ok; [exact (proj1 G)|exact Fr].
  - cbn [subPar p_ntri p_zp p_rows]. rewrite Eo. cbn. eexists. split; [reflexivity|]. cbn. split; [|auto]. split; auto.
Qed.

(** The main object of a file *)
Lemma main_ok : forall c bt (ascii : bool) cols (wpr : bool) cov flags s s0 cov0 rest f,
  f = mkFile3 ascii (writeSub nb nom est c bt None wpr cov flags s cols ++ rest) ->
  existsb (fun b => ext3_eqb (EB3 Main3) (blk3_ext b)) rest = false ->
  (ascii = true -> cov = None) ->
  (bt <> MP -> o_at (s_o s0) WI = []) ->
  (exists o, readData3 nb c (if wpr then Some nb else None) bt cols (subPar c wpr cov flags s) (s_o s0) = Ok3 o /\
     sameVals vr vr c bt (s_o s) o /\ o_zeta o = zetaOf c (s_o s) (s_o s0) /\
     o_np o = match p_np (subPar c wpr cov flags s) with Some n => n | None => (1, 1, 1)%Z end /\ (bt <> MP -> o_at o WI = [])) ->
  (wpr = true -> goodRes nb est c bt (s_res s)) ->
  (wpr = true -> ascii = true -> zeros3 (s_res s) = [] \/ nonz3 (s_res s) <> []) ->
  (exists e, find3 f (if hasMain3 f then EB3 Main3 else ENone3) = Some (Tab3 e (subPar c wpr cov flags s) cols)) /\
  exists s', readSub nb c bt f None s0 cov0 = Ok3 (s', subPar c wpr cov flags s, match cov with Some m => Some m | None => cov0 end) /\
    subOk c bt wpr s s' /\ o_zeta (s_o s') = zetaOf c (s_o s) (s_o s0) /\ (bt <> MP -> o_at (s_o s') WI = []).
Proof using Hnb.
  intros c bt ascii cols wpr cov flags s s0 cov0 rest f Hf Hr Hc W Hd G Ga.
  set (e := if wpr || isSome3 cov then EB3 Main3 else ENone3).
  set (tl := ((if wpr then ppBlks nom est c bt Main3 0 (nonz3 (s_res s)) else [])
     ++ match cov with Some m => [Arr3 ECov3 m] | None => [] end) ++ rest).
  assert (Ef : f = mkFile3 ascii (Tab3 e (subPar c wpr cov flags s) cols :: tl)) by (rewrite Hf; reflexivity).
  assert (Hm : hasMain3 f = negb ascii && (wpr || isSome3 cov)).
  { rewrite Ef. unfold hasMain3. cbn [fl_ascii fl_blks]. f_equal. cbn [existsb blk3_ext]. subst e tl.
    destruct wpr; [reflexivity|]. destruct cov; [reflexivity|]. cbn. exact Hr. }
  assert (Hh : find3 f (if hasMain3 f then EB3 Main3 else ENone3) = Some (Tab3 e (subPar c wpr cov flags s) cols)).
  { rewrite Hm, Ef. subst e. destruct ascii; [reflexivity|]. cbn [negb andb]. destruct (wpr || isSome3 cov); reflexivity. }
  split; [exists e; exact Hh|].
  set (nm := if hasMain3 f && negb (isSome3 (@None base3)) then Some Main3 else None).
  assert (Eb : match nm with Some b => b | None => Main3 end = Main3) by (subst nm; destruct (hasMain3 f); reflexivity).
  apply (readSub_ok c bt f None nm e cols wpr cov flags s s0 cov0 eq_refl).
  - rewrite <- Hh. subst nm. rewrite andb_true_r. now destruct (hasMain3 f).
  - exact W.
  - exact Hd.
  - destruct wpr; [|exact I]. split; [exact (G eq_refl)|]. split.
    + subst nm. rewrite Hm. destruct ascii; cbn; [|left; discriminate]. right. exact (Ga eq_refl eq_refl).
    + intros j k o H. rewrite Eb. rewrite find3_fnd by discriminate. rewrite Ef. cbn [fl_blks].
      rewrite fnd_cons by reflexivity. subst tl. rewrite !fnd_app. pose proof (fnd_pp c bt Main3 (nonz3 (s_res s)) 0 j k o H) as F0. cbn [Nat.add] in F0. now rewrite F0.
  - destruct cov as [m|]; [|exact I]. rewrite find3_fnd by discriminate. rewrite Ef. cbn [fl_blks].
    rewrite fnd_cons by (subst e; cbn [blk3_ext isSome3]; rewrite orb_true_r; reflexivity). subst tl. rewrite !fnd_app.
    destruct wpr; [rewrite fnd_pp_none by exact I|]; reflexivity.
Qed.

(** Randoms *)
Definition baseOf (e : ext3) : option base3 := match e with EB3 b => Some b | EPP3 b _ => Some b | _ => None end.
Lemma fnd_main_none : forall c bt wpr cov flags s cols e, (exists b, baseOf e = Some b /\ b <> Main3) ->
  fnd e (writeSub nb nom est c bt None wpr cov flags s cols) = None.
Proof using Hnb.
  intros c bt wpr cov flags s cols e (b & E & B). unfold writeSub. rewrite fnd_cons.
  2:{ cbn [blk3_ext]. destruct (wpr || _); destruct e; try discriminate E; try reflexivity. cbn in *. injection E as ->.
      now rewrite base3_neq. }
  rewrite fnd_app.
  replace (fnd e (if wpr then ppBlks nom est c bt Main3 0 (nonz3 (s_res s)) else [])) with (@None blk3).
  2:{ destruct wpr; [|reflexivity]. symmetry. apply fnd_pp_none. destruct e; auto. cbn in E. congruence. }
  destruct cov; [|reflexivity]. now destruct e.
Qed.
Lemma fnd_opt_none : forall bt b r e, baseOf e <> Some b -> e <> ENone3 -> fnd e (optSub nb nom est bt b r) = None.
Proof using Hnb.
  intros bt b r e H Hn. destruct r as [s|]; [|reflexivity]. unfold optSub, writeSub. rewrite fnd_cons.
  2:{ cbn [blk3_ext]. destruct e; try reflexivity. cbn in *. rewrite base3_neq; [reflexivity|congruence]. }
  rewrite fnd_app.
  rewrite fnd_pp_none; [reflexivity|]. destruct e; auto. cbn in H. congruence.
Qed.
Lemma fnd_opt_head : forall bt b s, fnd (EB3 b) (optSub nb nom est bt b (Some s))
  = Some (Tab3 (EB3 b) (subPar NNN3 true None None s) (colsNNN nom bt (s_o s))).
Proof using. intros. unfold optSub, writeSub, fnd. cbn [find blk3_ext ext3_eqb]. now rewrite base3_refl. Qed.
Lemma fnd_opt_pp : forall bt b s j k o, nth_error (nonz3 (s_res s)) j = Some (k, o) ->
  fnd (EPP3 b j) (optSub nb nom est bt b (Some s)) = Some (ppTab NNN3 bt b j k o).
Proof using Hnb.
  intros bt b s j k o H. unfold optSub, writeSub. rewrite fnd_cons by reflexivity. rewrite fnd_app.
  pose proof (fnd_pp NNN3 bt b (nonz3 (s_res s)) 0 j k o H) as F0. cbn [Nat.add] in F0. now rewrite F0.
Qed.
Lemma hasMain_opt : forall bt b r, b <> Main3 ->
  existsb (fun x => ext3_eqb (EB3 Main3) (blk3_ext x)) (optSub nb nom est bt b r) = false.
Proof using Hnb.
  intros bt b r B. destruct (existsb _ _) eqn:E; [|reflexivity]. apply existsb_exists in E as (x & Hx & Ex).
  assert (F : fnd (EB3 Main3) (optSub nb nom est bt b r) = None) by (apply fnd_opt_none; [cbn; congruence|discriminate]).
  unfold fnd in F. eapply find_none in F; [|exact Hx]. congruence.
Qed.
Lemma rand_ok : forall bt f b r s0, b <> Main3 -> (bt <> MP -> o_at (s_o s0) WI = []) ->
  (forall e, baseOf e = Some b -> find3 f e = fnd e (optSub nb nom est bt b r)) ->
  (forall s, r = Some s -> shaped nb est NNN3 bt (s_o s) /\ goodRes nb est NNN3 bt (s_res s)) ->
  exists r', readRand nb bt f b s0 (Some (isSome3 r)) = Ok3 r' /\ sameRand vr bt true r r'.
Proof using Hnb.
  intros bt f b r s0 B W F G. destruct r as [s|]; [|exists None; split; [reflexivity|exact I]].
  destruct (G s eq_refl) as [G1 G2]. cbn [isSome3 readRand].
  destruct (readSub_ok NNN3 bt f (Some b) (Some b) (EB3 b) (colsNNN nom bt (s_o s)) true None None s s0 None) as (s' & E & Sb & _).
  - cbn. now rewrite andb_false_r.
  - rewrite F by reflexivity. apply fnd_opt_head.
  - exact W.
  - apply (readData_ok NNN3 bt (Some nb) (subPar NNN3 true None None s) (s_o s) (s_o s0) G1 (or_intror eq_refl) W eq_refl eq_refl eq_refl).
  - split; [exact G2|]. split; [left; discriminate|]. intros j k o H. rewrite F by reflexivity. now apply fnd_opt_pp.
  - exact I.
  - rewrite E. cbn. eexists. split; [reflexivity|]. exact Sb.
Qed.
Lemma readDataR_ok : forall bt mx p o o0 rrr dr, bt <> MP -> shaped nb est NNN3 bt o -> o_zeta o <> None -> okmx mx ->
  o_at o0 WI = [] -> p_coords p = o_coords o -> p_metric p = o_metric o -> p_tot p = Some (o_tot o) ->
  exists o', readData3 nb NNN3 mx bt (colsNNNr nom bt o rrr dr) p o0 = Ok3 o' /\ sameVals vr vr NNN3 bt o o' /\
    o_zeta o' = zetaOf NNN3 o o0 /\ o_np o' = match p_np p with Some n => n | None => (1, 1, 1)%Z end /\
    (bt <> MP -> o_at o' WI = []).
Proof using Hnb.
  intros bt mx p o o0 rrr dr Bt (S1 & S2 & S3) Hz M W0 Pc Pm Pt.
  pose proof (S1 MeanD1 ltac:(cbn; tauto)) as L1. pose proof (S1 MeanLD1 ltac:(cbn; tauto)) as L2.
  pose proof (S1 MeanD2 ltac:(cbn; tauto)) as L3. pose proof (S1 MeanLD2 ltac:(cbn; tauto)) as L4.
  pose proof (S1 MeanD3 ltac:(cbn; tauto)) as L5. pose proof (S1 MeanLD3 ltac:(cbn; tauto)) as L6.
  pose proof (S1 MeanU ltac:(cbn; tauto)) as L7. pose proof (S1 MeanV ltac:(cbn; tauto)) as L8.
  pose proof (S1 WR ltac:(cbn; tauto)) as L9. pose proof (S1 NTri ltac:(cbn; tauto)) as L10.
  unfold readData3, readBase, zetaOf, colsNNNr.
  destruct (o_zeta o) as [[z v]|] eqn:Ez; [|now elim Hz]. destruct (S3 z v eq_refl) as (Y1 & Y2 & Y3).
  destruct bt; [ | | now elim Bt]; destruct dr as [[drr rdd]|];
      cbn [app commonCols assoc3 String.eqb Ascii.eqb Bool.eqb]; cols; rewrite Pt; cbn [bind3];
      (eexists; split; [reflexivity|]);
      (split; [ unfold sameVals; cbn; repeat split; try congruence; intros; try discriminate; auto
              | split; [cbn; rewrite ?sq_sqrt by assumption; reflexivity | split; [reflexivity | cbn; congruence]] ]).
Qed.
End P.

(** ** Theorems *)
Section T.
Variable nb : nat.
Hypothesis Hnb : (0 < nb)%nat.
Variable nom : nat -> arr3.
Variable est : obj3 -> nat -> arr3.
Variable zval : full3 -> sub3 -> option (sub3 * sub3) -> res3 ((arr3 * arr3) * list (key3 * R)).
Notation vr := (vr3 est).

(** KKK and GGG: every value, the results by patch triples and the covariance come back. *)
Theorem C99_kkk_ggg : forall (ascii : bool) c bt (wpr : bool) cov s x, c <> NNN3 ->
  shaped nb est c bt (s_o s) -> (wpr = true -> goodRes nb est c bt (s_res s)) -> (ascii = true -> cov = None) ->
  (bt <> MP -> o_at (s_o (f_s x)) WI = []) ->
  exists g, readFull nb c bt (writeKG nb nom est ascii c bt wpr cov s) x = Ok3 g /\
    sameSub vr c bt wpr s (f_s g) /\ f_cov g = match cov with Some m => Some m | None => f_cov x end.
Proof using Hnb.
  intros ascii c bt wpr cov s x C Sh G Hc W.
  destruct (main_ok nb Hnb nom est c bt ascii (colsOf nom est c bt (s_o s)) wpr cov None s (f_s x) (f_cov x) []
              (writeKG nb nom est ascii c bt wpr cov s)) as (_ & s' & E & Sb & _).
  - unfold writeKG. now rewrite app_nil_r.
  - reflexivity.
  - exact Hc.
  - exact W.
  - apply (readData_ok nb Hnb nom est c bt); auto. destruct wpr; [right|left]; reflexivity.
  - exact G.
  - intros Hw _. left. exact (zeros_nil nb Hnb est c bt (s_res s) (G Hw) C).
  - exists (mkF3 s' None None None (match cov with Some m => Some m | None => f_cov x end)).
    split; [|split; [exact Sb|reflexivity]]. unfold readFull. rewrite E. cbn [bind3]. now destruct c.
Qed.

(** NNN, with or without rrr (and drr, rdd) in write: the values of the object after write, its zeta and varzeta,
    the results with their zero entries, and the randoms with their results. *)
Theorem C99_nnn : forall (ascii : bool) bt (wpr : bool) cov f randoms f' fl x,
  writeNNN nb nom est zval ascii bt wpr cov f randoms = Ok3 (f', fl) ->
  shaped nb est NNN3 bt (s_o (f_s f')) -> (wpr = true -> goodRes nb est NNN3 bt (s_res (f_s f'))) ->
  (wpr = true -> forall r, In (Some r) [f_rrr f'; f_drr f'; f_rdd f'] ->
     shaped nb est NNN3 bt (s_o r) /\ goodRes nb est NNN3 bt (s_res r)) ->
  (ascii = true -> cov f' = None) ->
  (ascii = true -> wpr = true -> zeros3 (s_res (f_s f')) = [] \/ nonz3 (s_res (f_s f')) <> []) ->
  (bt <> MP -> o_at (s_o (f_s x)) WI = []) ->
  exists g, readFull nb NNN3 bt fl x = Ok3 g /\ sameSub vr NNN3 bt wpr (f_s f') (f_s g) /\
    o_zeta (s_o (f_s g)) = match o_zeta (s_o (f_s f')) with Some z => Some z | None => o_zeta (s_o (f_s x)) end /\
    f_cov g = match cov f' with Some m => Some m | None => f_cov x end /\
    sameRand vr bt wpr (f_rrr f') (f_rrr g) /\ sameRand vr bt wpr (f_drr f') (f_drr g) /\
    sameRand vr bt wpr (f_rdd f') (f_rdd g).
Proof using Hnb.
  intros ascii bt wpr cov f randoms f' fl x Ew Sh G Gr Hc Ha W.
  set (flags := if wpr then Some (isSome3 (f_rrr f'), isSome3 (f_drr f'), isSome3 (f_rdd f')) else None).
  set (rest := if wpr then optSub nb nom est bt Rrr3 (f_rrr f') ++ optSub nb nom est bt Drr3 (f_drr f')
                      ++ optSub nb nom est bt Rdd3 (f_rdd f') else []).
  assert (Hw : exists cols, fl = mkFile3 ascii (writeSub nb nom est NNN3 bt None wpr (cov f') flags (f_s f') cols ++ rest) /\
     exists o, readData3 nb NNN3 (if wpr then Some nb else None) bt cols (subPar nb NNN3 wpr (cov f') flags (f_s f')) (s_o (f_s x)) = Ok3 o /\
     sameVals vr vr NNN3 bt (s_o (f_s f')) o /\ o_zeta o = zetaOf NNN3 (s_o (f_s f')) (s_o (f_s x)) /\
     o_np o = match p_np (subPar nb NNN3 wpr (cov f') flags (f_s f')) with Some n => n | None => (1, 1, 1)%Z end /\ (bt <> MP -> o_at o WI = [])).
  { assert (Mx : okmx nb (if wpr then Some nb else None)) by (destruct wpr; [right|left]; reflexivity).
    unfold writeNNN in Ew. destruct randoms as [[rrr dr]|].
    - assert (Bt : bt <> MP) by (intros ->; discriminate Ew). specialize (W Bt).
      assert (Ew' : (fc <~ (f' <~ calcZ zval f rrr dr ;; Ok3 (f', colsNNNr nom bt (s_o (f_s f')) rrr dr)) ;;
                let f' := fst fc in Ok3 (f', mkFile3 ascii (writeSub nb nom est NNN3 bt None wpr (cov f')
                  (if wpr then Some (isSome3 (f_rrr f'), isSome3 (f_drr f'), isSome3 (f_rdd f')) else None) (f_s f') (snd fc) ++
                  (if wpr then optSub nb nom est bt Rrr3 (Some rrr) ++ optSub nb nom est bt Drr3 (orElse3 (option_map fst dr) (f_drr f'))
                      ++ optSub nb nom est bt Rdd3 (orElse3 (option_map snd dr) (f_rdd f')) else []))) ) = Ok3 (f', fl)).
      { rewrite <- Ew. destruct bt; [ | | now elim Bt]; destruct dr as [[drr rdd]|]; reflexivity. }
      clear Ew. unfold calcZ in Ew'. destruct (zval f rrr dr) as [z| | | |]; try discriminate Ew'. cbn [bind3 fst snd] in Ew'.
      cbv zeta in Ew'. injection Ew' as E1 E2. exists (colsNNNr nom bt (s_o (f_s f')) rrr dr). split.
      + rewrite <- E2. subst rest flags. rewrite <- E1. cbn [f_rrr f_drr f_rdd f_s]. f_equal. f_equal.
        destruct dr as [[drr rdd]|]; reflexivity.
      + apply readDataR_ok; auto. rewrite <- E1. cbn. discriminate.
    - cbn [bind3 fst snd] in Ew. cbv zeta in Ew. injection Ew as E1 E2. subst f'. exists (colsNNN nom bt (s_o (f_s f))). split.
      + rewrite <- E2. reflexivity.
      + apply (readData_ok nb Hnb nom est NNN3 bt); auto. }
  destruct Hw as (cols & Ef & Hd).
  destruct (main_ok nb Hnb nom est NNN3 bt ascii cols wpr (cov f') flags (f_s f') (f_s x) (f_cov x) rest fl Ef)
    as (_ & s' & E & Sb & Ez & Ws).
  - subst rest. destruct wpr; [|reflexivity]. rewrite !existsb_app. rewrite !hasMain_opt by (try exact Hnb; discriminate). reflexivity.
  - exact Hc.
  - exact W.
  - exact Hd.
  - exact G.
  - auto.
  - unfold readFull. rewrite E. cbn [bind3 fst snd].
    destruct wpr.
    + assert (L : forall b r, b <> Main3 -> (b = Rrr3 /\ r = f_rrr f' \/ b = Drr3 /\ r = f_drr f' \/ b = Rdd3 /\ r = f_rdd f') ->
        forall e, baseOf e = Some b -> find3 fl e = fnd e (optSub nb nom est bt b r)).
      { intros b r B H e He. rewrite find3_fnd by (intros ->; discriminate He). rewrite Ef. cbn [fl_blks]. subst rest.
        rewrite !fnd_app. rewrite fnd_main_none by (try exact Hnb; eauto).
        assert (Q : forall b' r', b' <> b -> fnd e (optSub nb nom est bt b' r') = None).
        { intros b' r' Hb. apply fnd_opt_none; [exact Hnb|congruence|intros ->; discriminate He]. }
        destruct H as [[-> ->]|[[-> ->]|[-> ->]]].
        - rewrite (Q Drr3), (Q Rdd3) by discriminate. now destruct (fnd e _).
        - rewrite (Q Rrr3), (Q Rdd3) by discriminate. now destruct (fnd e _).
        - rewrite (Q Rrr3), (Q Drr3) by discriminate. reflexivity. }
      destruct (rand_ok nb Hnb nom est bt fl Rrr3 (f_rrr f') s' ltac:(discriminate) Ws) as (r1 & E1 & R1).
      { apply L; [discriminate|auto]. } { intros s Hs. apply (Gr eq_refl). rewrite Hs. now left. }
      destruct (rand_ok nb Hnb nom est bt fl Drr3 (f_drr f') s' ltac:(discriminate) Ws) as (r2 & E2 & R2).
      { apply L; [discriminate|auto]. } { intros s Hs. apply (Gr eq_refl). rewrite Hs. right. now left. }
      destruct (rand_ok nb Hnb nom est bt fl Rdd3 (f_rdd f') s' ltac:(discriminate) Ws) as (r3 & E3 & R3).
      { apply L; [discriminate|auto]. } { intros s Hs. apply (Gr eq_refl). rewrite Hs. right. right. now left. }
      cbn [subPar p_rrr p_drr p_rdd flags option_map fst snd].
      rewrite E1. cbn [bind3]. rewrite E2. cbn [bind3]. rewrite E3. cbn [bind3].
      eexists. split; [reflexivity|]. cbn [f_s f_cov f_rrr f_drr f_rdd]. auto 10.
    + cbn. eexists. split; [reflexivity|]. cbn. auto 10.
Qed.

(** from_file makes a new object and reads into it; a file of another class is an OSError. *)
Lemma head_ok : forall c bt (ascii : bool) cols (wpr : bool) cov flags s rest f,
  f = mkFile3 ascii (writeSub nb nom est c bt None wpr cov flags s cols ++ rest) ->
  existsb (fun b => ext3_eqb (EB3 Main3) (blk3_ext b)) rest = false ->
  exists e p, find3 f (if hasMain3 f then EB3 Main3 else ENone3) = Some (Tab3 e p cols) /\ p_corr p = c.
Proof.
  intros c bt ascii cols wpr cov flags s rest f -> Hr. unfold hasMain3, find3, writeSub. cbn [fl_ascii fl_blks app].
  destruct ascii.
  - cbn [negb andb hd_error]. eexists _, _. split; reflexivity.
  - cbn [negb andb existsb blk3_ext]. destruct wpr; [cbn; eexists _, _; split; reflexivity|].
    destruct cov; [cbn; eexists _, _; split; reflexivity|]. cbn in Hr |- *. rewrite Hr. cbn. eexists _, _; split; reflexivity.
Qed.
Theorem C99_from_file_kkk_ggg : forall ascii c c' bt wpr cov s,
  fromFile3 nb c' bt (writeKG nb nom est ascii c bt wpr cov s) =
  if cls3_eqb c c' then readFull nb c' bt (writeKG nb nom est ascii c bt wpr cov s) (fresh3 nb c' bt) else ErrOS3.
Proof.
  intros ascii c c' bt wpr cov s.
  destruct (head_ok c bt ascii (colsOf nom est c bt (s_o s)) wpr cov None s [] (writeKG nb nom est ascii c bt wpr cov s))
    as (e & p & F & P); [unfold writeKG; now rewrite app_nil_r|reflexivity|].
  unfold fromFile3. rewrite F, P. reflexivity.
Qed.
Theorem C99_from_file_nnn : forall ascii c' bt wpr cov f randoms f' fl,
  writeNNN nb nom est zval ascii bt wpr cov f randoms = Ok3 (f', fl) ->
  fromFile3 nb c' bt fl = if cls3_eqb NNN3 c' then readFull nb c' bt fl (fresh3 nb c' bt) else ErrOS3.
Proof using Hnb.
  intros ascii c' bt wpr cov f randoms f' fl H. unfold writeNNN in H.
  destruct (match randoms with None => _ | Some _ => _ end) as [fc| | | |]; try discriminate H. cbn [bind3] in H.
  cbv zeta in H. injection H as H1 H2. symmetry in H2. apply head_ok in H2.
  - destruct H2 as (e & p & F & P). unfold fromFile3. rewrite F, P. reflexivity.
  - destruct wpr; [|reflexivity]. rewrite !existsb_app. rewrite !hasMain_opt by (try exact Hnb; discriminate). reflexivity.
Qed.
(** The columns of the randoms in a file written with rrr hold their weights for the total of the data: x / tot = w / tot_r. *)
Definition mainCols (f : file3) : cols3 := match fl_blks f with Tab3 _ _ d :: _ => d | _ => [] end.
Definition commensurate (col : option arr3) (data rand : obj3) : Prop :=
  exists l, col = Some l /\ length l = length (o_at rand WR) /\
    forall k, nth k l 0 * o_tot rand = nth k (o_at rand WR) 0 * o_tot data.
Lemma rescaled_ok : forall a b, o_tot b <> 0 -> commensurate (Some (rescaled a b)) a b.
Proof.
  intros a b Hb. exists (rescaled a b). split; [reflexivity|]. split; [apply map_length|]. intros k. unfold rescaled.
  destruct (Nat.lt_ge_cases k (length (o_at b WR))) as [H|H].
  - rewrite (nth_indep _ 0 (0 * (o_tot a / o_tot b))) by now rewrite map_length.
    rewrite (map_nth (fun w => w * (o_tot a / o_tot b))). field. exact Hb.
  - rewrite !nth_overflow by (rewrite ?map_length; exact H). ring.
Qed.
Theorem C99_random_columns : forall ascii bt wpr cov f rrr dr f' fl,
  writeNNN nb nom est zval ascii bt wpr cov f (Some (rrr, dr)) = Ok3 (f', fl) -> o_tot (s_o rrr) <> 0 ->
  commensurate (assoc3 "RRR" (mainCols fl)) (s_o (f_s f')) (s_o rrr) /\
  match dr with
  | Some (drr, rdd) => o_tot (s_o drr) <> 0 -> o_tot (s_o rdd) <> 0 ->
      commensurate (assoc3 "DRR" (mainCols fl)) (s_o (f_s f')) (s_o drr) /\
      commensurate (assoc3 "RDD" (mainCols fl)) (s_o (f_s f')) (s_o rdd)
  | None => assoc3 "DRR" (mainCols fl) = None /\ assoc3 "RDD" (mainCols fl) = None
  end.
Proof.
  intros ascii bt wpr cov f rrr dr f' fl H Hr. unfold writeNNN, calcZ in H.
  assert (B : bt <> MP) by (intros ->; discriminate H).
  destruct (zval f rrr dr) as [z| | | |] eqn:Ez; try (destruct bt; discriminate H).
  assert (E : f' = mkF3 (mkS3 (setZeta (s_o (f_s f)) (fst z)) (s_res (f_s f) ++ map (fun q => (fst q, RZero (snd q))) (snd z)))
        (Some rrr) (option_map fst dr) (option_map snd dr) None /\ mainCols fl = colsNNNr nom bt (s_o (f_s f')) rrr dr).
  { destruct bt; [ | | now elim B]; cbn [bind3 fst snd] in H; cbv zeta in H; injection H as H1 H2; rewrite <- H1, <- H2; split; reflexivity. }
  destruct E as [E1 ->].
  assert (Z0 : o_zeta (s_o (f_s f')) = Some (fst z)) by (rewrite E1; reflexivity).
  unfold colsNNNr. rewrite Z0. destruct (fst z) as [z1 z2].
  destruct dr as [[drr rdd]|]; (destruct bt; [ | | now elim B]); cbn [app commonCols assoc3 String.eqb Ascii.eqb Bool.eqb];
    (split; [now apply rescaled_ok|]); try (intros; split; now apply rescaled_ok); split; reflexivity.
Qed.
(** calculateZeta rejects LogMultipole, so write with rrr does too. *)
Theorem C99_multipole : forall ascii wpr cov f r, writeNNN nb nom est zval ascii MP wpr cov f (Some r) = ErrType3.
Proof. intros. destruct r as [rrr dr]. reflexivity. Qed.
End T.

(** ** Cases *)
Definition exO (c : cls3) (u : R) (z : option (arr3 * arr3)) : obj3 :=
  mkO3 (fun a => match a, c with
        | WI, _ => []
        | Z2, KKK3 => []
        | (Z1 | Z2 | Z3 | Z4 | Z5 | Z6 | Z7 | Z8), NNN3 => []
        | _, _ => [u] end) (fun _ => None) z u (2, 2, 2)%Z "flat" "Euclidean".
Definition exEst : obj3 -> nat -> arr3 := fun _ _ => [4].
Lemma exO_shaped : forall c bt u z, bt <> MP -> c <> NNN3 -> shaped 1 exEst c bt (exO c u z).
Proof.
  intros c bt u z B C. split; [|split].
  - intros a Ha. cbn in Ha. decompose [or] Ha; subst; try reflexivity; contradiction.
  - now destruct bt.
  - destruct c; [ | | now elim C].
    + repeat split; auto. { intros ->. now elim B. } intros y [<-|[]]. lra.
    + split; [intros a Ha; cbn in Ha; decompose [or] Ha; subst; try reflexivity; contradiction|].
      intros i _. split; [reflexivity|]. intros y [<-|[]]. lra.
Qed.
Lemma exN_shaped : forall bt u z, bt <> MP -> (forall a b, z = Some (a, b) -> length a = 1%nat /\ length b = 1%nat /\ nonneg b) ->
  shaped 1 exEst NNN3 bt (exO NNN3 u z).
Proof.
  intros bt u z B Z. split; [|split].
  - intros a Ha. cbn in Ha. decompose [or] Ha; subst; try reflexivity; contradiction.
  - now destruct bt.
  - exact Z.
Qed.
Example C99_example_kkk : let s := mkS3 (exO KKK3 3 None) [((0, 0, 0)%Z, RNon (exO KKK3 1 None)); ((0, 1, 1)%Z, RNon (exO KKK3 2 None))] in
  shaped 1 exEst KKK3 SAS (s_o s) /\ goodRes 1 exEst KKK3 SAS (s_res s).
Proof.
  cbv zeta. split; [apply exO_shaped; discriminate|]. split.
  - cbn. constructor; [intros [H|[]]; discriminate|]. constructor; [intros []|constructor].
  - intros k e [H|[H|[]]]; injection H as <- <-; apply exO_shaped; discriminate.
Qed.
(** write(rrr, drr, rdd) with patch results, one of them zero *)
Definition exRand (u : R) : sub3 := mkS3 (exO NNN3 u None) [((1, 1, 1)%Z, RNon (exO NNN3 u None))].
Definition exF : full3 :=
  mkF3 (mkS3 (exO NNN3 3 None) [((0, 0, 0)%Z, RNon (exO NNN3 1 None)); ((0, 1, 1)%Z, RZero 7)]) None None None None.
Definition exZ : full3 -> sub3 -> option (sub3 * sub3) -> res3 ((arr3 * arr3) * list (key3 * R)) :=
  fun _ _ _ => Ok3 (([5], [9]), [((1, 1, 1)%Z, 0)]).
Example C99_example_nnn : exists f' fl,
  writeNNN 1 (fun _ => [1]) exEst exZ true RUV true (fun _ => None) exF (Some (exRand 1, Some (exRand 2, exRand 3))) = Ok3 (f', fl) /\
  shaped 1 exEst NNN3 RUV (s_o (f_s f')) /\ goodRes 1 exEst NNN3 RUV (s_res (f_s f')) /\
  (forall r, In (Some r) [f_rrr f'; f_drr f'; f_rdd f'] -> shaped 1 exEst NNN3 RUV (s_o r) /\ goodRes 1 exEst NNN3 RUV (s_res r)) /\
  (zeros3 (s_res (f_s f')) = [] \/ nonz3 (s_res (f_s f')) <> []).
Proof.
  eexists _, _. split; [reflexivity|]. cbn [f_s f_rrr f_drr f_rdd s_o s_res fst snd option_map].
  assert (N : forall u, shaped 1 exEst NNN3 RUV (exO NNN3 u None)) by (intros u; apply exN_shaped; [discriminate|intros; discriminate]).
  split; [apply (exN_shaped RUV 3 (Some ([5], [9]))); [discriminate|]; intros a b H; injection H as <- <-; repeat split; intros y [<-|[]]; lra|].
  split; [|split].
  - split.
    + cbn. repeat constructor; cbn; intros H; decompose [or] H; try discriminate; contradiction.
    + intros k e H. cbn in H. decompose [or] H; try contradiction;
        match goal with E : _ = (k, e) |- _ => injection E as <- <- end; try reflexivity; apply N.
  - intros r H. cbn in H. decompose [or] H; try contradiction;
      match goal with E : Some _ = Some r |- _ => injection E as <- end;
      (split; [apply N|split; [cbn; constructor; [intros []|constructor]|intros k e [E|[]]; injection E as <- <-; apply N]]).
  - right. discriminate.
Qed.

(** ** Refuted: read on an object that has a zeta already.  A file without zeta leaves the old one, beside the new counts. *)
Theorem C99_stale_refuted : exists f x f' fl g,
  writeNNN 1 (fun _ => [1]) exEst exZ false RUV false (fun _ => None) f None = Ok3 (f', fl) /\
  shaped 1 exEst NNN3 RUV (s_o (f_s f')) /\ o_at (s_o (f_s x)) WI = [] /\
  readFull 1 NNN3 RUV fl x = Ok3 g /\ o_at (s_o (f_s g)) WR = [3] /\ o_zeta (s_o (f_s f')) = None /\
  o_zeta (s_o (f_s g)) = Some ([5], [9]) /\ f_cov g = Some [[9]].
Proof.
  exists (mkF3 (mkS3 (exO NNN3 3 None) []) None None None None),
         (mkF3 (mkS3 (exO NNN3 8 (Some ([5], [9]))) []) None None None (Some [[9]])).
  eexists _, _, _. split; [reflexivity|]. split; [apply exN_shaped; [discriminate|intros; discriminate]|].
  split; [reflexivity|]. split; [reflexivity|]. repeat split.
Qed.
(** ** Refuted: an ASCII file in which all patch results are zero cannot be read: None + '_zp_0' is a TypeError. *)
Theorem C99_ascii_zero_refuted : exists f f' fl,
  writeNNN 1 (fun _ => [1]) exEst exZ true RUV true (fun _ => None) f None = Ok3 (f', fl) /\
  shaped 1 exEst NNN3 RUV (s_o (f_s f')) /\ goodRes 1 exEst NNN3 RUV (s_res (f_s f')) /\
  fromFile3 1 NNN3 RUV fl = ErrType3.
Proof.
  exists (mkF3 (mkS3 (exO NNN3 0 None) [((0, 0, 0)%Z, RZero 7)]) None None None None).
  eexists _, _. split; [reflexivity|]. split; [apply exN_shaped; [discriminate|intros; discriminate]|]. split; [|reflexivity].
  split; [cbn; constructor; [intros []|constructor]|]. intros k e [E|[]]. injection E as <- <-. reflexivity.
Qed.
