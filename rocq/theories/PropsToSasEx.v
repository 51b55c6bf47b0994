(** C88, continued: whole runs, what is not true, and concrete cases. *)
From Coq Require Import Reals Lra Lia List ZArith Bool Permutation Psatz.
From Verif Require Import Base Geometry Tree Traverse Spin Run Corr3 Spec SpecRun GeomFacts SumFacts BinFacts TravFacts Exact Cover Runs SpinFacts
  SpecGGG GGG Cplx Multi SpecMulti MultiFacts MultiTot PropsMulti PropsMultiEx MultiG SpecMultiG MultiGFacts PropsMultiG PropsMultiGEx
  ToSas SpecToSas PropsToSas.
Import ListNotations.
Open Scope R_scope.

(** ** Lists of triangles *)
Lemma tsumL_app T l m : tsumL T (l ++ m) = tsumL T l + tsumL T m. Proof. apply sumR_app. Qed.
Lemma sumR_filter {A} (b : A -> bool) (f : A -> R) l : sumR f (filter b l) = sumR (fun x => if b x then f x else 0) l.
Proof. induction l as [|x l IH]; simpl; auto. destruct (b x); simpl; rewrite IH; ring. Qed.
Lemma sumR_prod {A B} (f : A * B -> R) l m : sumR f (list_prod l m) = sumR (fun x => sumR (fun y => f (x, y)) m) l.
Proof. induction l as [|x l IH]; simpl; auto. rewrite sumR_app, IH, sumR_map. auto. Qed.
Lemma tris_in B d k2 k3 cat1 l T : tris B d cat1 l T k2 k3 = tsumL T (trisIn B d k2 k3 cat1 l).
Proof. unfold tris, triSum, tsumL, trisIn. rewrite sumR_filter, sumR_prod. reflexivity. Qed.
Lemma tris12_in B d o k2 k3 cat1 cat2 T : tris12 B d o cat1 cat2 T k2 k3 = tsumL T (trisIn12 B d k2 k3 o cat1 cat2).
Proof. unfold tris12, trisIn12. destruct o; unfold tplus; rewrite !tris_in, ?tsumL_app; auto. Qed.
Lemma tris3_in B d o k2 k3 cat1 cat2 cat3 T : tris3 B d o cat1 cat2 cat3 T k2 k3 = tsumL T (trisIn3 B d k2 k3 o cat1 cat2 cat3).
Proof. unfold tris3, trisIn3. destruct o; unfold tplus; rewrite !tris_in, ?tsumL_app; auto. Qed.

(** ** The arrays of a run, for (k2,k3) *)
Definition arr (P : mparams) (s : accumM) (re im : mfield) (k2 k3 : Z) : Z -> cplx :=
  fun n => (s re (entry P k2 k3 n), s im (entry P k2 k3 n)).
Definition arrG (P : mparams) (s : accumG) (c : nat) (k2 k3 : Z) : Z -> cplx :=
  fun n => (s (gamArr c false) (entry P k2 k3 n), s (gamArr c true) (entry P k2 k3 n)).
Definition okBins (P : mparams) (k2 k3 : Z) : Prop :=
  (0 <= k2 < nbins (cbin (mC P)))%Z /\ (0 <= k3 < nbins (cbin (mC P)))%Z.
Lemma phases_mult P th s1 S k2 k3 L : gainsPhases P th clearedM s1 S -> okBins P k2 k3 ->
  (forall T, S T k2 k3 = tsumL T L) ->
  isMult th (mmaxn P) t_www L (arr P s1 MWr MWi k2 k3) /\ isMult th (mmaxn P) t_kkk L (arr P s1 MZr MZi k2 k3).
Proof.
  intros H HB HL. split; intros n Hn; (destruct (H k2 k3 n) as [A [B [C D]]]; [unfold validEntry; destruct HB; tauto|]);
    unfold addsE, clearedM in *; unfold arr; rewrite Rplus_0_l in *; rewrite <- !HL; f_equal; auto.
Qed.
Lemma gamma_mult P th s1 S k2 k3 L c : gainsGamma P th clearedM s1 S -> okBins P k2 k3 ->
  (forall T, S T k2 k3 = tsumL T L) -> (c <= 3)%nat -> isMultG th (mmaxn P) c L (arrG P s1 c k2 k3).
Proof.
  intros H HB HL Hc n Hn.
  assert (VE : validEntry P k2 k3 n) by (unfold validEntry; destruct HB; tauto).
  pose proof (H c false k2 k3 n Hc VE) as A. pose proof (H c true k2 k3 n Hc VE) as B.
  unfold clearedM in *. unfold arrG. rewrite Rplus_0_l in *. rewrite <- !HL. f_equal; auto.
Qed.

(** What toSAS makes of the row [r] (weights) and the rows Z. *)
Definition sasOK (P : mparams) (th : pos -> pos -> R) (g : grid) (pu : R) (s1 : accumM) (L : Z -> Z -> list tri) : Prop :=
  forall r k2 k3 j, okBins P k2 k3 -> m_w r = arr P s1 MWr MWi k2 k3 ->
    let N := mmaxn P in
    let W := tsumL (spread N th (phi1d g j) t_www) (L k2 k3) in
    s_w (toSas N g pu r j) = gsize g / (2 * PI) * W /\
    (gsize g <> 0 -> W <> 0 ->
       toSasK N g r (arr P s1 MZr MZi k2 k3) j = tsumL (spread N th (phi1d g j) t_kkk) (L k2 k3) / W).
Lemma sasOK_of P th g pu s1 S L : gainsPhases P th clearedM s1 S ->
  (forall T k2 k3, S T k2 k3 = tsumL T (L k2 k3)) -> sasOK P th g pu s1 L.
Proof.
  intros H HL r k2 k3 j HB E. destruct (phases_mult P th s1 S k2 k3 (L k2 k3) H HB) as [HW HZ]; [intro; apply HL|].
  rewrite <- E in HW. split; [apply C88_weight; auto|]. intros Hg HN. apply C88_zeta with (L := L k2 k3); auto.
Qed.
Theorem C88_run_auto P th cat s1 g pu :
  validM P -> cmetric (mC P) = Euclidean -> mcoord P = Flat -> pointMode P (bruteAuto (mbrute P)) ->
  distinctPos cat -> flatCat cat -> polar th -> runMAuto P cat clearedM s1 ->
  sasOK P th g pu s1 (fun k2 k3 => trisInAuto (cbin (mC P)) euclid k2 k3 cat).
Proof.
  intros. apply sasOK_of with (S := trisAuto (cbin (mC P)) euclid cat).
  - apply C72_auto_phases; auto.
  - intros. apply tris_in.
Qed.
Theorem C88_run_cross12 P th ordered cat1 cat2 s1 g pu :
  validM P -> cmetric (mC P) = Euclidean -> mcoord P = Flat -> pointMode P (bruteAll P) -> distinctPos cat2 ->
  flatCat cat1 -> flatCat cat2 -> polar th -> runMCross12 P ordered cat1 cat2 clearedM s1 ->
  sasOK P th g pu s1 (fun k2 k3 => trisIn12 (cbin (mC P)) euclid k2 k3 ordered cat1 cat2).
Proof.
  intros. apply sasOK_of with (S := tris12 (cbin (mC P)) euclid ordered cat1 cat2).
  - apply C73_cross12_phases; auto.
  - intros. apply tris12_in.
Qed.
Theorem C88_run_cross P th o cat1 cat2 cat3 s1 g pu :
  validM P -> cmetric (mC P) = Euclidean -> mcoord P = Flat -> pointMode P (bruteAll P) ->
  flatCat cat1 -> flatCat cat2 -> flatCat cat3 -> polar th -> runMCross P o cat1 cat2 cat3 clearedM s1 ->
  sasOK P th g pu s1 (fun k2 k3 => trisIn3 (cbin (mC P)) euclid k2 k3 o cat1 cat2 cat3).
Proof.
  intros. apply sasOK_of with (S := tris3 (cbin (mC P)) euclid o cat1 cat2 cat3).
  - apply C73_cross_phases; auto.
  - intros. apply tris3_in.
Qed.
(** Shears: a bin all of whose triangles have the shape of the bin. *)
Lemma gammaRun P th g pu s1 t1 S L k2 k3 r c j : polar th -> gainsPhases P th clearedM t1 S -> gainsGamma P th clearedM s1 S ->
  (forall T, S T k2 k3 = tsumL T L) -> okBins P k2 k3 -> (c <= 3)%nat -> m_w r = arr P t1 MWr MWi k2 k3 ->
  pu <> 0 -> gsize g <> 0 -> 0 < m_d2 r -> 0 < m_d3 r -> sin (phi1d g j) <> 0 ->
  (forall t, In t L -> similarTo th (m_d2 r) (m_d3 r) (phi1d g j) t) -> tsumL t_www L <> 0 ->
  toSasG (mmaxn P) g pu r c (arrG P s1 c k2 k3) j =
    (tsumL (gamVal Flat c false) L / tsumL t_www L, tsumL (gamVal Flat c true) L / tsumL t_www L).
Proof.
  intros Hth HP HG HL HB Hc E Hpu Hg H2 H3 HS HT HN.
  destruct (phases_mult P th t1 S k2 k3 L HP HB HL) as [HW _]. rewrite <- E in HW.
  apply C88_gamma_similar with (th := th); auto. apply gamma_mult with (S := S); auto.
Qed.
Theorem C88_run_gamma P th cat s1 g pu k2 k3 r c j :
  validM P -> cmetric (mC P) = Euclidean -> mcoord P = Flat -> pointMode P (bruteAuto (mbrute P)) ->
  distinctPos cat -> flatCat cat -> polar th -> runGAuto P cat clearedM s1 ->
  let L := trisInAuto (cbin (mC P)) euclid k2 k3 cat in
  okBins P k2 k3 -> (c <= 3)%nat -> m_w r = arr P (baseOf s1) MWr MWi k2 k3 ->
  pu <> 0 -> gsize g <> 0 -> 0 < m_d2 r -> 0 < m_d3 r -> sin (phi1d g j) <> 0 ->
  (forall t, In t L -> similarTo th (m_d2 r) (m_d3 r) (phi1d g j) t) -> tsumL t_www L <> 0 ->
  toSasG (mmaxn P) g pu r c (arrG P s1 c k2 k3) j =
    (tsumL (gamVal Flat c false) L / tsumL t_www L, tsumL (gamVal Flat c true) L / tsumL t_www L).
Proof.
  intros HV HM HF HE HD HZ Hth HR L HB Hc E Hpu Hg H2 H3 HS HT HN.
  destruct (C86_base_auto P cat clearedM s1 HR) as [t1 [R1 SB]].
  apply gammaRun with (th := th) (t1 := t1) (S := trisAuto (cbin (mC P)) euclid cat); auto.
  - apply C72_auto_phases; auto.
  - apply C86_auto; auto.
  - intros T. apply tris_in.
  - rewrite E. unfold arr, baseOf.
    assert (X : forall n, (s1 (GB MWr) (entry P k2 k3 n), s1 (GB MWi) (entry P k2 k3 n)) = (t1 MWr (entry P k2 k3 n), t1 MWi (entry P k2 k3 n)))
      by (intro n; f_equal; apply SB; split; discriminate).
    apply FunctionalExtensionality.functional_extensionality. exact X.
Qed.

(** *** The total weight of an auto-correlation *)
Lemma sumR_dpairs_swap {A} (F : A * A -> R) l : sumR F (dpairs l) = sumR (fun q => F (snd q, fst q)) (dpairs l).
Proof.
  induction l as [|x l IH]; [reflexivity|]. cbn [dpairs]. rewrite !sumR_app, !sumR_map, IH. cbn [fst snd]. ring.
Qed.
Lemma tsumL_swap_auto B d k2 k3 cat T :
  tsumL T (trisInAuto B d k3 k2 cat) = tsumL (fun p1 p2 p3 => T p1 p3 p2) (trisInAuto B d k2 k3 cat).
Proof.
  unfold trisInAuto. rewrite <- !tris_in. unfold tris, triSum. apply sumR_ext. intros p1 _.
  rewrite sumR_dpairs_swap. apply sumR_ext. intros q _. cbn [fst snd]. rewrite andb_comm. reflexivity.
Qed.
Theorem C88_run_total P th cat s1 n g pu r r' k2 k3 :
  validM P -> cmetric (mC P) = Euclidean -> mcoord P = Flat -> pointMode P (bruteAuto (mbrute P)) ->
  distinctPos cat -> flatCat cat -> polar th -> runMAuto P cat clearedM s1 ->
  (0 < n)%nat -> (mmaxn P < 2 * n)%nat -> g = mkG 0 PI n -> okBins P k2 k3 ->
  m_w r = arr P s1 MWr MWi k2 k3 -> m_w r' = arr P s1 MWr MWi k3 k2 ->
  sumR (fun j => s_w (toSas (mmaxn P) g pu r j) + s_w (toSas (mmaxn P) g pu r' j)) (phis g)
    = tsumL t_www (trisInAuto (cbin (mC P)) euclid k2 k3 cat).
Proof.
  intros HV HM HF HE HD HZ Hth HR Hn HN Hg HB E E'.
  assert (PH := C72_auto_phases P th cat clearedM s1 HV HM HF HE HD HZ Hth HR).
  set (L := trisInAuto (cbin (mC P)) euclid k2 k3 cat).
  destruct (phases_mult P th s1 _ k2 k3 L PH HB) as [M _]; [intro; apply tris_in|].
  destruct (phases_mult P th s1 _ k3 k2 (trisInAuto (cbin (mC P)) euclid k3 k2 cat) PH) as [M' _];
    [destruct HB; split; auto|intro; apply tris_in|].
  rewrite <- E in M. rewrite <- E' in M'.
  assert (CJ : forall m, (- Z.of_nat (mmaxn P) <= m <= Z.of_nat (mmaxn P))%Z -> m_w r' m = cconj (m_w r m)).
  { intros m Hm. rewrite M, M' by auto. unfold cconj. cbn [fst snd]. rewrite !(tsumL_swap_auto _ _ k2 k3). fold L. f_equal.
    - unfold tsumL. apply sumR_ext. intros [p1 [p2 p3]] _. cbn [fst snd]. unfold t_cos, t_www.
      set (a := th (opos p1) (opos p3)). set (b := th (opos p1) (opos p2)).
      replace (IZR m * (b - a)) with (- (IZR m * (a - b))) by ring. rewrite cos_neg. ring.
    - unfold tsumL. match goal with |- _ = - sumR ?f L => replace (- sumR f L) with (sumR (fun t => -1 * f t) L) by (rewrite sumR_scal; ring) end.
      apply sumR_ext. intros [p1 [p2 p3]] _. cbn [fst snd]. unfold t_sin, t_www.
      set (a := th (opos p1) (opos p3)). set (b := th (opos p1) (opos p2)).
      replace (IZR m * (b - a)) with (- (IZR m * (a - b))) by ring. rewrite sin_neg. ring. }
  (* only the multipoles up to max_n are used *)
  set (cut := fun (V : Z -> cplx) m => if ((- Z.of_nat (mmaxn P) <=? m) && (m <=? Z.of_nat (mmaxn P)))%Z then V m else c0).
  assert (DE : forall V phi, dotExp (mmaxn P) (cut V) phi = dotExp (mmaxn P) V phi).
  { intros V phi. apply csumL_ext. intros m Hm. apply n1d_in in Hm. unfold cut.
    destruct (Z.leb_spec (- Z.of_nat (mmaxn P)) m); [|lia]. destruct (Z.leb_spec m (Z.of_nat (mmaxn P))); [|lia]. auto. }
  pose (q := fun x : mrow => mkM (cut (m_w x)) (m_ntri x) (m_d2 x) (m_ld2 x) (m_d3 x) (m_ld3 x)).
  assert (SW : forall x j, s_w (toSas (mmaxn P) g pu (q x) j) = s_w (toSas (mmaxn P) g pu x j)).
  { intros x j. cbn [toSas s_w q m_w]. unfold ftRe. rewrite DE. auto. }
  rewrite (sumR_ext _ (fun j => s_w (toSas (mmaxn P) g pu (q r) j) + s_w (toSas (mmaxn P) g pu (q r') j))) by (intros; rewrite !SW; auto).
  rewrite (C88_total (mmaxn P) n g pu (q r) (q r') Hn HN Hg).
  - cbn [q m_w]. unfold cut. destruct (Z.leb_spec (- Z.of_nat (mmaxn P)) 0); [|lia]. destruct (Z.leb_spec 0 (Z.of_nat (mmaxn P))); [|lia].
    cbn [andb]. rewrite M by lia. cbn [fst]. unfold tsumL. apply sumR_ext. intros t _. unfold t_cos. rewrite Rmult_0_l, cos_0. ring.
  - intro m. cbn [q m_w]. unfold cut.
    destruct (Z.leb_spec (- Z.of_nat (mmaxn P)) m), (Z.leb_spec m (Z.of_nat (mmaxn P))); cbn [andb]; auto; cx; ring.
Qed.

(** ** A run: the weights of the bins (1,0) and (0,1) add up to the weight of the two triangles *)
Definition rowM (P : mparams) (s : accumM) (k2 k3 : Z) : mrow := ToSas.mkM (arr P s MWr MWi k2 k3) 2 1 0 1 0.
Example C88_run_example : exists s1, let P := mlP Euclidean BruteNo in let g := mkG 0 PI 2 in
  validM P /\ pointMode P false /\ distinctPos mlCat /\ flatCat mlCat /\ polar dirOf /\ okBins P 1 0 /\
  runMAuto P mlCat clearedM s1 /\ (mmaxn P < 2 * 2)%nat /\
  sumR (fun j => s_w (toSas (mmaxn P) g 1 (rowM P s1 1 0) j) + s_w (toSas (mmaxn P) g 1 (rowM P s1 0 1) j)) (phis g) = 12.
Proof.
  destruct (C74_runs_exist (mlP Euclidean BruteNo) mlCat mlCat mlCat clearedM (mlP_valid _ _) ml_unch) as [[s1 H] _]; try discriminate.
  exists s1. intros P g.
  assert (OK : okBins P 1 0) by (split; simpl; lia).
  split; [apply mlP_valid|]. split; [apply ml_point|]. split; [apply ml_distinct|]. split; [apply ml_flat|].
  split; [apply dirOf_polar|]. split; auto. split; [exact H|]. split; [simpl; lia|].
  rewrite (C88_run_total P dirOf mlCat s1 2 g 1 (rowM P s1 1 0) (rowM P s1 0 1) 1 0 (mlP_valid _ _) eq_refl eq_refl (ml_point _ _ _)
    ml_distinct ml_flat dirOf_polar H); auto; [|simpl; lia].
  unfold trisInAuto. rewrite <- tris_in. change (cbin (mC P)) with mlB. pose proof (ml_tris t_www) as E. unfold trisAuto in E. rewrite E.
  unfold t_www, mA, mBo, mCo, mlObj; cbn. ring.
Qed.

(** ** A bin with one triangle *)
Definition gsA := mkobj (mkpos 0 0 0) 1 1 0 1 0 0.
Definition gsB := mkobj (mkpos (3/2) 0 0) 2 2 0 0 1 1.
Definition gsC := mkobj (mkpos (-2) 2 0) 3 3 0 1 0 2.
Definition gsCat := [gsA; gsB; gsC].
Lemma r8 : 2 <= 2 * sqrt 2 < 4 /\ sqrt 2 * sqrt 2 = 2.
Proof. assert (E : sqrt 2 * sqrt 2 = 2) by (apply sqrt_sqrt; lra). pose proof (sqrt_pos 2). split; auto. nra. Qed.
Lemma gs_AB : euclid (opos gsA) (opos gsB) = 3/2 /\ euclid (opos gsB) (opos gsA) = 3/2.
Proof. split; apply euc'; simpl; lra. Qed.
Lemma gs_AC : euclid (opos gsA) (opos gsC) = 2 * sqrt 2 /\ euclid (opos gsC) (opos gsA) = 2 * sqrt 2.
Proof. pose proof r8. split; apply euc'; simpl; lra. Qed.
Lemma gs_far k : inBinb mlB k (euclid (opos gsB) (opos gsC)) = false /\ inBinb mlB k (euclid (opos gsC) (opos gsB)) = false.
Proof.
  assert (F : forall x, 4 < x -> inBinb mlB k x = false).
  { intros x Hx. destruct (inBinb mlB k x) eqn:K; auto. apply inBinb_true in K. pose proof (BinFacts.inBin_range _ _ _ mlB_valid K) as [_ B].
    change (maxsep mlB) with (1 * exp (2 * ln 2)) in B. replace (2 * ln 2) with (ln 2 + ln 2) in B by ring. rewrite exp_plus, exp_ln in B; lra. }
  split; apply F.
  - pose proof (euclid2 (opos gsB) (opos gsC)) as E. pose proof (euclid_nn (opos gsB) (opos gsC)).
    set (e := euclid (opos gsB) (opos gsC)) in *. cbn [opos px py pz gsB gsC] in E. nra.
  - pose proof (euclid2 (opos gsC) (opos gsB)) as E. pose proof (euclid_nn (opos gsC) (opos gsB)).
    set (e := euclid (opos gsC) (opos gsB)) in *. cbn [opos px py pz gsB gsC] in E. nra.
Qed.
Lemma filter_step {A} (f : A -> bool) x l b : f x = b -> filter f (x :: l) = if b then x :: filter f l else filter f l.
Proof. intro H. cbn [filter]. rewrite H. auto. Qed.
Lemma gs_tris : trisInAuto mlB euclid 0 1 gsCat = [(gsA, (gsC, gsB))].
Proof.
  unfold trisInAuto, trisIn, gsCat. cbn [dpairs map app list_prod].
  destruct gs_AB as [AB BA], gs_AC as [AC CA]. destruct r8 as [R8 _].
  destruct (ml_bin0 (3/2)) as [X1 X2]; [lra|]. destruct (ml_bin1 (2 * sqrt 2)) as [Y1 Y2]; [lra|].
  assert (F1 := fun k => proj1 (gs_far k)). assert (F2 := fun k => proj2 (gs_far k)).
  repeat (erewrite filter_step;
    [|cbn [fst snd]; rewrite ?ml_zero, ?AB, ?BA, ?AC, ?CA, ?F1, ?F2, ?X1, ?X2, ?Y1, ?Y2; cbn [andb]; reflexivity]; cbv iota).
  reflexivity.
Qed.
Lemma gs_distinct : distinctPos gsCat.
Proof.
  unfold distinctPos, gsCat. cbn. repeat constructor; cbn; intros H;
    repeat destruct H as [H|H]; try contradiction; apply (f_equal px) in H; cbn in H; lra.
Qed.
Example C88_gamma_example : exists s1, let P := mlP Euclidean BruteNo in let g := mkG (PI / 2) PI 1 in
  let r := ToSas.mkM (arr P (baseOf s1) MWr MWi 0 1) 1 (3/2) 0 (2 * sqrt 2) 0 in
  runGAuto P gsCat clearedM s1 /\ distinctPos gsCat /\ flatCat gsCat /\ okBins P 0 1 /\
  (forall t, In t (trisInAuto mlB euclid 0 1 gsCat) -> similarTo dirOf (m_d2 r) (m_d3 r) (phi1d g 0) t) /\
  forall c, (c <= 3)%nat -> toSasG (mmaxn P) g 1 r c (arrG P s1 c 0 1) 0 =
    (gamVal Flat c false gsA gsC gsB / 6, gamVal Flat c true gsA gsC gsB / 6).
Proof.
  destruct (C86_runs_exist (mlP Euclidean BruteNo) gsCat gsCat gsCat clearedM (mlP_valid _ _) ml_unch) as [[s1 H] _]; try discriminate.
  exists s1. intros P g r.
  assert (FL : flatCat gsCat) by (intros o [<- | [<- | [<- | []]]]; reflexivity).
  assert (OK : okBins P 0 1) by (split; simpl; lia).
  pose proof PI_RGT_0 as HP. destruct r8 as [R8 R2].
  assert (PG : phi1d g 0 = 3 * (PI / 4)) by (unfold phi1d, gsize, g; cbn; field).
  assert (SN : sin (3 * (PI / 4)) = / sqrt 2).
  { replace (3 * (PI / 4)) with (PI - PI / 4) by field. rewrite sin_PI_x, sin_PI4. field. lra. }
  assert (CS : cos (3 * (PI / 4)) = - / sqrt 2).
  { replace (3 * (PI / 4)) with (PI - PI / 4) by field. rewrite Rtrigo_facts.cos_pi_minus, cos_PI4. field. lra. }
  assert (SI : forall t, In t (trisInAuto mlB euclid 0 1 gsCat) -> similarTo dirOf (m_d2 r) (m_d3 r) (phi1d g 0) t).
  { rewrite gs_tris. intros t [<- | []]. cbn [similarTo]. repeat split. exists 1.
    destruct gs_AB as [AB _], gs_AC as [AC _].
    destruct (dirOf_polar (opos gsA) (opos gsB) eq_refl eq_refl) as [B1 B2]. rewrite AB in B1, B2.
    destruct (dirOf_polar (opos gsA) (opos gsC) eq_refl eq_refl) as [C1 C2]. rewrite AC in C1, C2.
    cbn [px py gsA gsB gsC opos] in B1, B2, C1, C2.
    assert (cos (dirOf (opos gsA) (opos gsB)) = 1) as EB by (cbn; lra). assert (sin (dirOf (opos gsA) (opos gsB)) = 0) as FB by (cbn; lra).
    assert (cos (dirOf (opos gsA) (opos gsC)) = - / sqrt 2) as EC.
    { apply Rmult_eq_reg_l with (2 * sqrt 2); [|lra]. cbn. rewrite <- C1. field. lra. }
    assert (sin (dirOf (opos gsA) (opos gsC)) = / sqrt 2) as FC.
    { apply Rmult_eq_reg_l with (2 * sqrt 2); [|lra]. cbn. rewrite <- C2. field. lra. }
    unfold phiOf. rewrite cos_minus, sin_minus, EB, FB, EC, FC, PG, SN, CS. cbn [r m_d2 m_d3].
    repeat split; try lra; auto. }
  split; [exact H|]. split; [apply gs_distinct|]. split; [exact FL|]. split; [exact OK|]. split; [exact SI|].
  intros c Hc.
  rewrite (C88_run_gamma P dirOf gsCat s1 g 1 0 1 r c 0%nat (mlP_valid _ _) eq_refl eq_refl (ml_point _ _ _)
    gs_distinct FL dirOf_polar H); auto.
  - change (cbin (mC P)) with mlB. rewrite gs_tris. unfold tsumL, t_www; cbn [sumR fst snd ow gsA gsB gsC].
    rewrite !Rplus_0_r. f_equal; f_equal; ring.
  - unfold gsize, g; cbn. lra.
  - cbn. lra.
  - cbn. lra.
  - rewrite PG, SN. apply Rinv_neq_0_compat. lra.
  - change (cbin (mC P)) with mlB. rewrite gs_tris. unfold tsumL, t_www; cbn. lra.
Qed.

(** ** What does not hold *)
(** A right angle, phi = pi/2, or -pi/2 with points 2 and 3 exchanged. *)
Definition raX := mkobj (mkpos 0 0 0) 1 1 0 0 0 0.
Definition raY := mkobj (mkpos 1 0 0) 1 1 0 0 0 1.
Definition raZ := mkobj (mkpos 0 1 0) 1 1 0 0 0 2.
Lemma ra_dirs th : polar th -> cos (th (opos raX) (opos raY)) = 1 /\ sin (th (opos raX) (opos raY)) = 0 /\
  cos (th (opos raX) (opos raZ)) = 0 /\ sin (th (opos raX) (opos raZ)) = 1.
Proof.
  intro H. destruct (H (opos raX) (opos raY) eq_refl eq_refl) as [A B]. destruct (H (opos raX) (opos raZ) eq_refl eq_refl) as [C D].
  assert (E1 : euclid (opos raX) (opos raY) = 1) by (apply euc'; simpl; lra).
  assert (E2 : euclid (opos raX) (opos raZ) = 1) by (apply euc'; simpl; lra).
  rewrite E1 in A, B. rewrite E2 in C, D. cbn [px py raX raY raZ opos] in *. lra.
Qed.
Definition rowOf (th : pos -> pos -> R) (L : list tri) : mrow :=
  ToSas.mkM (fun n => (tsumL (t_cos t_www th n) L, tsumL (t_sin t_www th n) L)) (INR (length L)) 1 0 1 0.
Lemma rowOf_mult th N L : isMult th N t_www L (m_w (rowOf th L)). Proof. intros n _. reflexivity. Qed.
Lemma D3 x : dirichlet 3 x = 1 + 2 * cos x + 2 * cos (2 * x) + 2 * cos (3 * x).
Proof. cbn [dirichlet]. rewrite Rmult_1_l. repeat f_equal; cbn; ring. Qed.
Lemma D3c x : dirichlet 3 x = 8 * cos x * cos x * cos x + 4 * cos x * cos x - 4 * cos x - 1.
Proof.
  rewrite D3. replace (3 * x) with (2 * x + x) by ring. rewrite cos_plus, cos_2a, sin_2a.
  pose proof (sin2_cos2 x) as E. unfold Rsqr in E. set (c := cos x) in *. set (s := sin x) in *.
  assert (S : s * s = 1 - c * c) by lra.
  replace (2 * ((c * c - s * s) * c - 2 * s * c * s)) with (2 * ((c * c - s * s) * c - 2 * (s * s) * c)) by ring.
  rewrite S. ring.
Qed.
Lemma g3_phi : phi1d (mkG 0 PI 3) 0 = PI / 6 /\ phi1d (mkG 0 PI 3) 1 = PI / 2 /\ phi1d (mkG 0 PI 3) 2 = PI - PI / 6.
Proof. unfold phi1d, gsize; cbn. repeat split; field. Qed.
Lemma spread_right s th L phi p2 p3 : L = [(raX, (p2, p3))] ->
  cos (phiOf th raX p2 p3) = 0 -> sin (phiOf th raX p2 p3) = s -> ow p2 = 1 -> ow p3 = 1 ->
  tsumL (spread 3 th phi t_www) L = let c := s * sin phi in 8 * c * c * c + 4 * c * c - 4 * c - 1.
Proof.
  intros -> HC HS H2 H3. unfold tsumL, spread, t_www. cbn [sumR fst snd]. rewrite H2, H3, D3c, cos_minus, HC, HS. cbn. ring.
Qed.
(** Weights and numbers of triangles can be negative. *)
Theorem C88_negative_refuted : exists th L, polar th /\
  (forall t, In t L -> 0 < ow (fst t) /\ 0 < ow (fst (snd t)) /\ 0 < ow (snd (snd t))) /\
  let r := rowOf th L in isMult th 3 t_www L (m_w r) /\
  s_w (toSas 3 (mkG 0 PI 3) 1 r 0) < 0 /\ s_ntri (toSas 3 (mkG 0 PI 3) 1 r 0) < 0.
Proof.
  exists dirOf, [(raX, (raZ, raY))]. split; [apply dirOf_polar|]. split; [intros t [<- | []]; cbn; lra|].
  intro r. split; [apply rowOf_mult|].
  destruct (ra_dirs dirOf dirOf_polar) as [A [B [C D]]]. destruct g3_phi as [G0 [G1 G2]]. pose proof PI_RGT_0 as HP.
  assert (SR : forall phi, tsumL (spread 3 dirOf phi t_www) [(raX, (raZ, raY))] = let c := 1 * sin phi in 8 * c * c * c + 4 * c * c - 4 * c - 1).
  { intro phi. apply (spread_right 1 dirOf _ phi raZ raY); auto; unfold phiOf; rewrite ?cos_minus, ?sin_minus, A, B, C, D; ring. }
  assert (W : forall j, s_w (toSas 3 (mkG 0 PI 3) 1 r j) = 1 / 6 * (let c := 1 * sin (phi1d (mkG 0 PI 3) j) in 8 * c * c * c + 4 * c * c - 4 * c - 1)).
  { intro j. rewrite (C88_weight dirOf 3 _ 1 r _ j (rowOf_mult _ _ _)), SR. unfold gsize; cbn -[phi1d]. field. lra. }
  assert (S3 : sin (PI - PI / 6) = 1 / 2) by (rewrite sin_PI_x; apply sin_PI6).
  assert (W0 : s_w (toSas 3 (mkG 0 PI 3) 1 r 0) = - 1 / 6) by (rewrite W, G0, sin_PI6; cbv zeta; field).
  assert (W1 : s_w (toSas 3 (mkG 0 PI 3) 1 r 1) = 7 / 6) by (rewrite W, G1, sin_PI2; cbv zeta; field).
  assert (W2 : s_w (toSas 3 (mkG 0 PI 3) 1 r 2) = - 1 / 6) by (rewrite W, G2, S3; cbv zeta; field).
  split; [lra|].
  destruct (C88_ntri 3 (mkG 0 PI 3) 1 r) as [K _]. cbn [phis gnum seq sumR] in K. rewrite W0, W1, W2 in K.
  destruct K as [_ K]; [lra|]. rewrite K, W0. cbn [gmax gmin r rowOf m_ntri length INR].
  replace (1 * ((PI - 0) / (2 * PI)) * (- 1 / 6 / (- 1 / 6 + (7 / 6 + (- 1 / 6 + 0))))) with (-1 / 10) by (field; lra). lra.
Qed.
(** The number of triangles of (k2,k3) is not the number of those with phi in the range: here the
    only triangle has phi = -pi/2. *)
Theorem C88_side_refuted : exists th L, polar th /\
  (forall t, In t L -> sin (phiOf th (fst t) (fst (snd t)) (snd (snd t))) < 0) /\
  let r := rowOf th L in isMult th 3 t_www L (m_w r) /\
  sumR (fun j => s_ntri (toSas 3 (mkG 0 PI 3) 1 r j)) (phis (mkG 0 PI 3)) = 1 / 2.
Proof.
  exists dirOf, [(raX, (raY, raZ))]. split; [apply dirOf_polar|].
  destruct (ra_dirs dirOf dirOf_polar) as [A [B [C D]]]. destruct g3_phi as [G0 [G1 G2]]. pose proof PI_RGT_0 as HP.
  split; [intros t [<- | []]; cbn [fst snd]; unfold phiOf; rewrite sin_minus, A, B, C, D; lra|].
  intro r. split; [apply rowOf_mult|].
  assert (SR : forall phi, tsumL (spread 3 dirOf phi t_www) [(raX, (raY, raZ))] = let c := -1 * sin phi in 8 * c * c * c + 4 * c * c - 4 * c - 1).
  { intro phi. apply (spread_right (-1) dirOf _ phi raY raZ); auto; unfold phiOf; rewrite ?cos_minus, ?sin_minus, A, B, C, D; ring. }
  assert (W : forall j, s_w (toSas 3 (mkG 0 PI 3) 1 r j) = 1 / 6 * (let c := -1 * sin (phi1d (mkG 0 PI 3) j) in 8 * c * c * c + 4 * c * c - 4 * c - 1)).
  { intro j. rewrite (C88_weight dirOf 3 _ 1 r _ j (rowOf_mult _ _ _)), SR. unfold gsize; cbn -[phi1d]. field. lra. }
  assert (S3 : sin (PI - PI / 6) = 1 / 2) by (rewrite sin_PI_x; apply sin_PI6).
  assert (W0 : s_w (toSas 3 (mkG 0 PI 3) 1 r 0) = 1 / 6) by (rewrite W, G0, sin_PI6; cbv zeta; field).
  assert (W1 : s_w (toSas 3 (mkG 0 PI 3) 1 r 1) = - 1 / 6) by (rewrite W, G1, sin_PI2; cbv zeta; field).
  assert (W2 : s_w (toSas 3 (mkG 0 PI 3) 1 r 2) = 1 / 6) by (rewrite W, G2, S3; cbv zeta; field).
  destruct (C88_ntri 3 (mkG 0 PI 3) 1 r) as [K _].
  destruct K as [K _]; [cbn [phis gnum seq sumR]; rewrite W0, W1, W2; lra|]. rewrite K.
  cbn [gmax gmin r rowOf m_ntri length INR]. field. lra.
Qed.
(** The items of results: two patches. *)
Example C88_results_example : let V (k : bool) (n : Z) := if k then c1 else cR 2 in
  let r := ToSas.mkM (fun _ => cR 3) 3 1 0 1 0 in
  (forall n, m_w r n = csumL (fun k => V k n) [true; false]) /\
  sumR (fun k => s_ntri (toSasRes 0 (mkG 0 PI 1) 1 r (V k) 0)) [true; false] = 3 / 2.
Proof.
  intros V r.
  assert (H : forall n, m_w r n = csumL (fun k => V k n) [true; false]) by (intro n; cbn; unfold V; cx; ring).
  split; auto. destruct (C88_results 0 (mkG 0 PI 1) 1 r V [true; false] 0%nat H) as [_ [E _]]. rewrite E.
  pose proof PI_RGT_0 as HP.
  assert (W : s_w (toSas 0 (mkG 0 PI 1) 1 r 0) = 3 / 2).
  { cbn [toSas s_w]. unfold ftRe, dotExp, gsize. cbn. rewrite Rmult_0_l, cos_0, sin_0. field. lra. }
  destruct (C88_ntri 0 (mkG 0 PI 1) 1 r) as [K _]. cbn [phis gnum seq sumR] in K. rewrite W in K.
  destruct K as [_ K]; [lra|]. rewrite K, W. cbn. field. lra.
Qed.
