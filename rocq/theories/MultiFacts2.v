(** Facts about the multipole traversal with separate lists for points 2 and 3. *)
From Coq Require Import Reals Lra Lia List ZArith Bool Permutation Psatz.
From Verif Require Import Base Geometry Tree Traverse Spin Run Spec SpecRun GeomFacts SumFacts TreeFacts
  BinFacts TravFacts Exact MetricFacts Cover Lift Runs Multi MultiFacts.
Import ListNotations.
Open Scope R_scope.

Section G2.
Variable P : cparams.
Hypothesis HM : plainM (cmetric P).
Hypothesis HR : crpar P = None.
Hypothesis HB : validB (cbin P).
Hypothesis HT : btype (cbin P) = BLog.
Variables J1 J2 J3 : cell -> Prop.
Hypothesis HJ1 : childClosed J1.
Hypothesis HJ2 : childClosed J2.
Hypothesis HJ3 : childClosed J3.
Hypothesis HG2 : forall a b, J1 a -> J2 b -> good P a b.
Hypothesis HG3 : forall a b, J1 a -> J3 b -> good P a b.

Definition ycover (k : Z) (h : obj -> R) (zs : list zev2) : R :=
  sumR (fun z => if (yk z <=? k)%Z && (k <? ymink z)%Z then sumR h (objs (y1 z)) else 0) zs.
Definition ygood (L2 L3 : list obj) (z : zev2) : Prop :=
  J1 (y1 z) /\ (0 <= yk z)%Z /\ (ymink z <= nbins (cbin P))%Z /\
  (forall v f, CV P J1 J2 v f -> forall i K, In i (objs (y1 z)) -> (yk z <= K)%Z ->
    mpSum v (ymp2 z) K = selSum P f i K L2) /\
  (forall v f, CV P J1 J3 v f -> forall i K, In i (objs (y1 z)) -> (yk z <= K)%Z ->
    mpSum v (ymp3 z) K = selSum P f i K L3).
Lemma ycover_app k h a b : ycover k h (a ++ b) = ycover k h a + ycover k h b.
Proof. apply sumR_app. Qed.

Lemma mfinish2_spec L2 L3 : forall fuel c1 l2 l3 mp2 mp3 mink maxr2 maxr3 zs,
  J1 c1 -> (forall c, In c l2 -> J2 c) -> (forall c, In c l3 -> J3 c) ->
  (mink <= nbins (cbin P))%Z -> inv P J1 J2 L2 c1 l2 mp2 -> inv P J1 J3 L3 c1 l3 mp3 ->
  mfinish2 P fuel c1 l2 l3 mp2 mp3 mink maxr2 maxr3 = Some zs ->
  Forall (ygood L2 L3) zs /\
  forall h k, (0 <= k)%Z -> ycover k h zs = if (k <? mink)%Z then sumR h (objs c1) else 0.
Proof.
  assert (HI' : forall J L c1 l mp g, (forall v f, CV P J1 J v f -> forall i K, In i (objs c1) ->
     selSum P f i K (objsL l) = mpSum v (nEv g) K + selSum P f i K (objsL (nList g))) ->
     inv P J1 J L c1 l mp -> inv P J1 J L c1 (nList g) (mp ++ nEv g)).
  { intros J L c1 l mp g GB HI v f Hv i K Hi. rewrite mpSum_app.
    rewrite <- (HI v f Hv i K Hi), (GB v f Hv i K Hi); lra. }
  induction fuel as [|n IH]; intros c1 l2 l3 mp2 mp3 mink maxr2 maxr3 zs H1 Hl2 Hl3 Hk I2 I3 H;
  cbn [mfinish2] in H;
  (destruct (splitGn P c1 (getSize c1) l2 maxr2) as [g|] eqn:EG; [|discriminate]);
  (destruct (splitGn P c1 (getSize c1) l3 maxr3) as [q|] eqn:EQ; [|discriminate]);
  destruct (splitGn_spec P HM HR HB HT J1 J2 HJ2 HG2 c1 maxr2 H1 l2 g Hl2 EG) as [GA [GB GC]];
  destruct (splitGn_spec P HM HR HB HT J1 J3 HJ3 HG3 c1 maxr3 H1 l3 q Hl3 EQ) as [QA [QB QC]];
  pose proof (HI' _ _ _ _ _ _ GB I2) as I2'; pose proof (HI' _ _ _ _ _ _ QB I3) as I3';
  (assert (HD : (nList g = [] /\ nList q = [] /\ Some [mkZ2 c1 (mp2 ++ nEv g) (mp3 ++ nEv q) 0 mink] = Some zs)
     \/ match early (cbin P) (getPos c1) (emax (nMax g) (nMax q)) mink with
        | Some k => ([mkZ2 c1 (mp2 ++ nEv g) (mp3 ++ nEv q) k mink], k)
        | None => ([], mink) end =
        match early (cbin P) (getPos c1) (emax (nMax g) (nMax q)) mink with
        | Some k => ([mkZ2 c1 (mp2 ++ nEv g) (mp3 ++ nEv q) k mink], k)
        | None => ([], mink) end /\ (nList g <> [] \/ nList q <> []))
   by (destruct (nList g), (nList q); auto; right; split; auto; [right|left|left]; discriminate));
  (destruct HD as [[N1 [N2 HD]]|[_ HD]];
   [injection HD; intros <-; rewrite N1 in I2'; rewrite N2 in I3'; split;
    [constructor; [|constructor]; split; [exact H1|]; cbn [y1 yk ymink ymp2 ymp3];
     split; [lia|]; split; [lia|]; split; intros v f Hv i K Hi _;
     [rewrite <- (I2' v f Hv i K Hi)|rewrite <- (I3' v f Hv i K Hi)]; unfold selSum, objsL; simpl; lra
    |intros h k Hk0; unfold ycover; simpl; rewrite Rplus_0_r;
     destruct (Z.leb_spec 0 k); [|lia]; simpl; auto]|]).
  - exfalso. destruct (early _ _ _ _); destruct (nList g), (nList q); try discriminate; destruct HD; congruence.
  - assert (H' : (let '(zs, mink) :=
            match early (cbin P) (getPos c1) (emax (nMax g) (nMax q)) mink with
            | Some k => ([mkZ2 c1 (mp2 ++ nEv g) (mp3 ++ nEv q) k mink], k)
            | None => ([], mink)
            end in
              oapp (Some zs)
                (if nAny g || nAny q
                 then match c1 with
                      | Node _ _ a b =>
                          oapp (mfinish2 P n a (nList g) (nList q) (mp2 ++ nEv g) (mp3 ++ nEv q) mink (nMax g) (nMax q))
                               (mfinish2 P n b (nList g) (nList q) (mp2 ++ nEv g) (mp3 ++ nEv q) mink (nMax g) (nMax q))
                      | _ => None
                      end
                 else mfinish2 P n c1 (nList g) (nList q) (mp2 ++ nEv g) (mp3 ++ nEv q) mink (nMax g) (nMax q))) = Some zs).
    { clear -H HD. destruct (nList g), (nList q); try exact H. destruct HD; congruence. }
    clear H HD. rename H' into H.
    assert (HE : exists zs0 mink', (match early (cbin P) (getPos c1) (emax (nMax g) (nMax q)) mink with
            | Some k => ([mkZ2 c1 (mp2 ++ nEv g) (mp3 ++ nEv q) k mink], k)
            | None => ([], mink)
            end) = (zs0, mink') /\ Forall (ygood L2 L3) zs0 /\ (mink' <= nbins (cbin P))%Z /\
            forall h k, (0 <= k)%Z ->
            ycover k h zs0 + (if (k <? mink')%Z then sumR h (objs c1) else 0)
            = if (k <? mink)%Z then sumR h (objs c1) else 0).
    { destruct (early (cbin P) (getPos c1) (emax (nMax g) (nMax q)) mink) as [k|] eqn:EE.
      - do 2 eexists. split; [reflexivity|].
        apply (early_spec P HB HT) in EE as [Hk0 [m [Hm HK]]]. split; [|split; [lia|]].
        + apply emax_fin in Hm as [mx [my [Hmx [Hmy [Lx Ly]]]]].
          constructor; [|constructor]. split; [exact H1|]. cbn [y1 yk ymink ymp2 ymp3].
          split; [lia|]. split; [lia|]. split; intros v f Hv i K Hi HKk.
          * rewrite <- (I2' v f Hv i K Hi).
            assert (selSum P f i K (objsL (nList g)) = 0) as ->; [|lra].
            apply sumR_0. intros j Hj. rewrite (selM_bin P HR).
            destruct (inBinb _ _ _) eqn:EB; auto. apply inBinb_true in EB.
            pose proof (GC mx i j Hmx Hi Hj) as Hle. assert (Hle' := Rle_trans _ _ _ Hle Lx).
            specialize (HK _ _ EB Hle'). lia.
          * rewrite <- (I3' v f Hv i K Hi).
            assert (selSum P f i K (objsL (nList q)) = 0) as ->; [|lra].
            apply sumR_0. intros j Hj. rewrite (selM_bin P HR).
            destruct (inBinb _ _ _) eqn:EB; auto. apply inBinb_true in EB.
            pose proof (QC my i j Hmy Hi Hj) as Hle. assert (Hle' := Rle_trans _ _ _ Hle Ly).
            specialize (HK _ _ EB Hle'). lia.
        + intros h k' Hk'. unfold ycover. cbn [sumR map fold_right y1 yk ymink].
          simpl. rewrite Rplus_0_r.
          destruct (Z.ltb_spec k' k); destruct (Z.leb_spec k k'); try lia; simpl;
          destruct (Z.ltb_spec k' mink); try lia; simpl; lra.
      - do 2 eexists. split; [reflexivity|]. split; [constructor|]. split; auto.
        intros. unfold ycover; simpl. lra. }
    destruct HE as [zs0 [mink' [-> [HZ [Hmk HC]]]]] in H.
    apply oapp_some in H as [x [y [E1 [E2 ->]]]]. injection E1; intros <-.
    destruct (nAny g || nAny q).
    + destruct c1 as [| |d s a b]; try discriminate.
      destruct (HJ1 _ _ _ _ H1) as [Ha Hb].
      apply oapp_some in E2 as [u [w [U [V ->]]]].
      assert (Sub : forall c J L l mp, (forall i, In i (objs c) -> In i (objs (Node d s a b))) ->
        inv P J1 J L (Node d s a b) l mp -> inv P J1 J L c l mp).
      { intros c J L l mp Hs HI v f Hv i K Hi. apply HI; auto. }
      assert (Sa : forall i, In i (objs a) -> In i (objs (Node d s a b))) by (intros; simpl; apply in_or_app; auto).
      assert (Sb : forall i, In i (objs b) -> In i (objs (Node d s a b))) by (intros; simpl; apply in_or_app; auto).
      destruct (IH _ _ _ _ _ _ _ _ _ Ha GA QA Hmk (Sub _ _ _ _ _ Sa I2') (Sub _ _ _ _ _ Sa I3') U) as [U1 U2].
      destruct (IH _ _ _ _ _ _ _ _ _ Hb GA QA Hmk (Sub _ _ _ _ _ Sb I2') (Sub _ _ _ _ _ Sb I3') V) as [V1 V2].
      split.
      * apply Forall_app; split; auto. apply Forall_app; auto.
      * intros h k Hk0. rewrite !ycover_app, U2, V2 by auto. rewrite <- (HC h k Hk0).
        cbn [objs]. rewrite sumR_app. destruct (k <? mink')%Z; lra.
    + destruct (IH _ _ _ _ _ _ _ _ _ H1 GA QA Hmk I2' I3' E2) as [U1 U2]. split.
      * apply Forall_app; auto.
      * intros h k Hk0. rewrite ycover_app, U2 by auto. auto.
Qed.

Lemma msplit2_spec : forall c1 l2 l3 zs, J1 c1 -> (forall c, In c l2 -> J2 c) -> (forall c, In c l3 -> J3 c) ->
  msplit2 P c1 l2 l3 = Some zs ->
  forall L2 L3, (forall f i K, In i (objs c1) -> selSum P f i K (objsL l2) = selSum P f i K L2) ->
  (forall f i K, In i (objs c1) -> selSum P f i K (objsL l3) = selSum P f i K L3) ->
  Forall (ygood L2 L3) zs /\
  forall h k, (0 <= k < nbins (cbin P))%Z -> ycover k h zs = sumR h (objs c1).
Proof.
  assert (HF : forall J c1 l new, childClosed J -> (forall a b, J1 a -> J b -> good P a b) ->
    J1 c1 -> (forall c, In c l -> J c) ->
    splitC2 P c1 (getSize c1) l = Some new ->
    forall L, (forall f i K, In i (objs c1) -> selSum P f i K (objsL l) = selSum P f i K L) ->
    (forall c, In c new -> J c) /\
    (forall f i K, In i (objs c1) -> selSum P f i K (objsL new) = selSum P f i K L)).
  { intros J c1 l new HJ HG H1 Hl HS L HL.
    destruct (splitC2_spec P HM HR HB HT J1 J HJ HG c1 H1 l new Hl HS) as [A B].
    split; auto. intros. rewrite <- B; auto. }
  assert (HE : forall c1 l2 l3 new2 new3 zs n, J1 c1 ->
    (forall c, In c l2 -> J2 c) -> (forall c, In c l3 -> J3 c) ->
    splitC2 P c1 (getSize c1) l2 = Some new2 -> splitC2 P c1 (getSize c1) l3 = Some new3 ->
    mfinish2 P n c1 new2 new3 [] [] (nbins (cbin P)) (Fin 0) (Fin 0) = Some zs ->
    forall L2 L3, (forall f i K, In i (objs c1) -> selSum P f i K (objsL l2) = selSum P f i K L2) ->
    (forall f i K, In i (objs c1) -> selSum P f i K (objsL l3) = selSum P f i K L3) ->
    Forall (ygood L2 L3) zs /\
    forall h k, (0 <= k < nbins (cbin P))%Z -> ycover k h zs = sumR h (objs c1)).
  { intros c1 l2 l3 new2 new3 zs n H1 Hl2 Hl3 S2 S3 HH L2 L3 HL2 HL3.
    destruct (HF J2 _ _ _ HJ2 HG2 H1 Hl2 S2 L2 HL2) as [A2 B2].
    destruct (HF J3 _ _ _ HJ3 HG3 H1 Hl3 S3 L3 HL3) as [A3 B3].
    assert (I2 : inv P J1 J2 L2 c1 new2 []).
    { intros v f Hv i K Hi. unfold mpSum. simpl. rewrite Rplus_0_l. auto. }
    assert (I3 : inv P J1 J3 L3 c1 new3 []).
    { intros v f Hv i K Hi. unfold mpSum. simpl. rewrite Rplus_0_l. auto. }
    destruct (mfinish2_spec L2 L3 _ _ _ _ _ _ _ _ _ _ H1 A2 A3 (Z.le_refl _) I2 I3 HH) as [C D].
    split; auto. intros h k Hk. rewrite D by lia. destruct (Z.ltb_spec k (nbins (cbin P))); [auto|lia]. }
  induction c1 as [d o|d os|d s a IHa b IHb]; intros l2 l3 zs H1 Hl2 Hl3 H L2 L3 HL2 HL3; cbn [msplit2] in H;
  (destruct (splitC2 P _ _ l2) as [new2|] eqn:ES2; [|discriminate]);
  (destruct (splitC2 P _ _ l3) as [new3|] eqn:ES3; [|discriminate]);
  (destruct (stillTooBig P _);
   [|eapply HE; [exact H1|exact Hl2|exact Hl3|exact ES2|exact ES3|exact H|exact HL2|exact HL3]]); try discriminate.
  destruct (HF J2 _ _ _ HJ2 HG2 H1 Hl2 ES2 L2 HL2) as [A2 B2].
  destruct (HF J3 _ _ _ HJ3 HG3 H1 Hl3 ES3 L3 HL3) as [A3 B3].
  apply oapp_some in H as [u [w [U [V ->]]]].
  destruct (HJ1 _ _ _ _ H1) as [Ha Hb].
  destruct (IHa _ _ _ Ha A2 A3 U L2 L3) as [U1 U2].
  { intros; apply B2. simpl. apply in_or_app; auto. }
  { intros; apply B3. simpl. apply in_or_app; auto. }
  destruct (IHb _ _ _ Hb A2 A3 V L2 L3) as [V1 V2].
  { intros; apply B2. simpl. apply in_or_app; auto. }
  { intros; apply B3. simpl. apply in_or_app; auto. }
  split; [apply Forall_app; auto|].
  intros h k Hk. rewrite ycover_app, U2, V2 by auto. cbn [objs]. rewrite sumR_app. auto.
Qed.
End G2.
