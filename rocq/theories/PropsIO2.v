(** C76, the theorems.  Notation: [back rnd ascii p x] is x itself for FITS and HDF files, and the number that is read for
    x written with p digits in an ASCII file. *)
From Coq Require Import Reals List ZArith Bool Lra Lia.
From Verif Require Import Base Geometry Tree Traverse Corr Patch Cov Comp CorrIO SumFacts CovFacts Examples PropsCov PropsComp PropsComp2 PropsIO.
Import ListNotations.
Open Scope R_scope.

(** What a fresh object holds after reading: [xi], [xim] etc. of the object written. *)
Definition dictBack (r : R -> R) (B : bparams) (d d' : zdict) : Prop :=
  zkeys d' = zkeys d /\
  forall ij a, zget ij d = Some a -> exists a', zget ij d' = Some a' /\ forall f k, In k (bins B) -> a' f k = r (a f k).

Lemma resBack_dict r B m rv d : dictBack r B d (resBack r B m rv d).
Proof.
  split.
  - unfold zkeys, resBack. rewrite map_map. reflexivity.
  - intros ij a. induction d as [|(k0, v0) t IH]; cbn; [discriminate|].
    destruct (keqb ij k0) eqn:E.
    + intros H. injection H as <-. eexists. split; [reflexivity|]. intros f k Hk. rewrite arr_table by exact Hk.
      destruct f; reflexivity.
    + exact IH.
Qed.

(** [t]: the object that reads (fresh, or used before). *)
Theorem C76_roundtrip rnd ascii B m rv p wpr wcov o vx cov t :
  NoDup (zkeys (z_res o)) -> square (length (bins B)) cov ->
  (m = VShot \/ rv = 0) ->
  (ascii = true -> wcov = true -> wpr = true /\ (2 <= length (bins B))%nat) ->
  let r := back rnd ascii in
  exists f o' c v,
    writeCorr rnd ascii B m rv p wpr wcov o vx cov = Some f /\
    readCorr B t f = Some (mkNZ o' (zrz t), c) /\
    (forall k, In k (bins B) -> zxi o' k = r p (zxi o k) /\ zxim o' k = r p (zxim o k)) /\
    (forall g k, In g [ZMR; ZMLR; ZW; ZNP] -> In k (bins B) -> z_arr o' g k = r p (z_arr o g k)) /\
    varxi B m (mkNZ o' (zrz t)) = Some (mkNZ o' (zrz t), v) /\
    (forall k, In k (bins B) -> v k = (r p (sqrt (vx k)))²) /\
    (if wpr then z_n1 o' = z_n1 o /\ z_n2 o' = z_n2 o /\ dictBack (r 16%nat) B (z_res o) (z_res o')
     else z_n1 o' = 1%Z /\ z_n2 o' = 1%Z /\ z_res o' = []) /\
    c = (if wcov then Some (map (map (r (if wpr then 16%nat else p))) cov) else None).
Proof.
  intros Hd Hsq Hm Ha r.
  assert (exists f, writeCorr rnd ascii B m rv p wpr wcov o vx cov = Some f) as (f & Hf).
  { unfold writeCorr, writeCalls. destruct wpr; [destruct (pp_some B m rv 0 (z_res o) Hm) as (l & ->)|]; cbn; eauto. }
  exists f.
  assert (HR : readCorr B t f = Some (readObj (r p) (r 16%nat) B m rv wpr o vx t
      (if wcov then Some (diagOf (map (map (r (if wpr then 16%nat else p))) cov)) else None),
      if wcov then Some (map (map (r (if wpr then 16%nat else p))) cov) else None)).
  { unfold r. destruct ascii.
    - etransitivity; [apply (read_ascii rnd B m rv p wpr wcov o vx cov t f Hd)|].
      + intros Hw. destruct (Ha eq_refl Hw). repeat split; try apply Hsq; auto; lia.
      + exact Hf.
      + destruct wcov; [|reflexivity]. destruct (Ha eq_refl eq_refl) as (-> & _). reflexivity.
    - etransitivity; [apply (read_bin rnd B m rv p wpr wcov o vx cov t f Hd Hf)|].
      assert (E : forall q, back rnd false q = (fun x => x)) by reflexivity.
      rewrite !E. destruct wcov; [|reflexivity]. rewrite map_idid. reflexivity. }
  unfold readObj, upd in HR.
  do 3 eexists. split; [exact Hf|]. split; [exact HR|].
  split; [|split; [|split; [|split; [|split]]]].
  - intros k Hk. unfold zxi at 1, zxim at 1. cbn [z_xi z_xim z_arr]. split; (etransitivity; [apply arr_table; exact Hk|]); reflexivity.
  - intros g k Hg Hk. cbn [z_arr]. etransitivity; [apply arr_table; exact Hk|]. destruct g; try reflexivity; cbn in Hg; intuition discriminate.
  - unfold varxi. cbn [zo z_vx]. reflexivity.
  - intros k Hk. cbv beta. unfold Rsqr. f_equal; (etransitivity; [apply col_table; [exact Hk|lia]|]); reflexivity.
  - destruct wpr; cbn [z_n1 z_n2 z_res]; [|auto]. split; [reflexivity|]. split; [reflexivity|]. apply resBack_dict.
  - reflexivity.
Qed.

Lemma roundtrip_fresh rnd ascii B m rv p wpr wcov o vx cov :
  NoDup (zkeys (z_res o)) -> square (length (bins B)) cov ->
  (m = VShot \/ rv = 0) ->
  (ascii = true -> wcov = true -> wpr = true /\ (2 <= length (bins B))%nat) ->
  let r := back rnd ascii in
  exists f o' c v,
    writeCorr rnd ascii B m rv p wpr wcov o vx cov = Some f /\
    readCorr B fresh f = Some (mkNZ o' None, c) /\
    (forall k, In k (bins B) -> zxi o' k = r p (zxi o k) /\ zxim o' k = r p (zxim o k)) /\
    (forall g k, In g [ZMR; ZMLR; ZW; ZNP] -> In k (bins B) -> z_arr o' g k = r p (z_arr o g k)) /\
    varxi B m (mkNZ o' None) = Some (mkNZ o' None, v) /\
    (forall k, In k (bins B) -> v k = (r p (sqrt (vx k)))²) /\
    (if wpr then z_n1 o' = z_n1 o /\ z_n2 o' = z_n2 o /\ dictBack (r 16%nat) B (z_res o) (z_res o')
     else z_n1 o' = 1%Z /\ z_n2 o' = 1%Z /\ z_res o' = []) /\
    c = (if wcov then Some (map (map (r (if wpr then 16%nat else p))) cov) else None).
Proof. exact (C76_roundtrip rnd ascii B m rv p wpr wcov o vx cov fresh). Qed.

(** With FITS or HDF the values are the same. *)
Theorem C76_exact rnd B m rv p wpr wcov o vx cov :
  NoDup (zkeys (z_res o)) -> square (length (bins B)) cov -> (m = VShot \/ rv = 0) ->
  (forall k, In k (bins B) -> 0 <= vx k) ->
  exists f o' v,
    writeCorr rnd false B m rv p wpr wcov o vx cov = Some f /\
    readCorr B fresh f = Some (mkNZ o' None, if wcov then Some cov else None) /\
    (forall k, In k (bins B) -> zxi o' k = zxi o k /\ zxim o' k = zxim o k) /\
    (forall g k, In g [ZMR; ZMLR; ZW; ZNP] -> In k (bins B) -> z_arr o' g k = z_arr o g k) /\
    varxi B m (mkNZ o' None) = Some (mkNZ o' None, v) /\ (forall k, In k (bins B) -> v k = vx k).
Proof.
  intros Hd Hsq Hm Hv.
  destruct (roundtrip_fresh rnd false B m rv p wpr wcov o vx cov Hd Hsq Hm) as (f & o' & c & v & Hf & Hr & Hx & Ha & Hvx & Hvv & _ & Hc).
  { discriminate. }
  exists f, o', v. split; [exact Hf|]. split; [|split; [|split; [|split]]]; auto.
  - rewrite Hr, Hc. destruct wcov; [|reflexivity]. unfold back. now rewrite map_idid.
  - intros k Hk. rewrite Hvv by exact Hk. cbn [back]. rewrite Rsqr_sqrt; auto.
Qed.

(** The jackknife estimate of what is read is that of what was written (if that was not compensated). *)
Lemma lookup_back B d d' ps : dictBack (fun x => x) B d d' ->
  match zlookup d ps, zlookup d' ps with
  | Some l, Some l' => forall f k, In k (bins B) -> zsum l f k = zsum l' f k
  | None, None => True
  | _, _ => False
  end.
Proof.
  intros [Hk Hv]. induction ps as [|ij t IH]; cbn [zlookup]; [reflexivity|].
  destruct (zget ij d) as [a|] eqn:E.
  - destruct (Hv _ _ E) as (a' & -> & Ha).
    destruct (zlookup d t), (zlookup d' t); try tauto.
    intros f k Hb. unfold zsum in *. cbn [sumR]. rewrite (IH f k Hb). now rewrite (Ha f k Hb).
  - rewrite (zget_none ij d'); [exact I|]. rewrite Hk. intros Hin. destruct (zget_key _ _ Hin) as (a & Ea). congruence.
Qed.
Lemma fin_ext B a b k : (forall f, a f k = b f k) -> forall f, zfin B a f k = zfin B b f k.
Proof. intros H f. unfold zfin. rewrite (H ZW). destruct (Req_EM_T (b ZW k) 0), f; rewrite ?H; reflexivity. Qed.
Lemma plain_back B d d' ps : dictBack (fun x => x) B d d' ->
  match plainFrom B d ps, plainFrom B d' ps with
  | Some l, Some l' => forall f k, In k (bins B) -> l f k = l' f k
  | None, None => True
  | _, _ => False
  end.
Proof.
  intros H. pose proof (lookup_back B d d' ps H) as L. unfold plainFrom. destruct ps as [|p t]; [exact I|].
  destruct (zlookup d (p :: t)), (zlookup d' (p :: t)); cbn [option_map]; try tauto.
  intros f k Hk. apply fin_ext. intros g. apply L; exact Hk.
Qed.
Lemma zrows_back B d d' pl : dictBack (fun x => x) B d d' ->
  match zrows B d None pl, zrows B d' None pl with
  | Some l, Some l' => forall f k, In k (bins B) -> map (fun a => a f k) l = map (fun a => a f k) l'
  | None, None => True
  | _, _ => False
  end.
Proof.
  intros H. induction pl as [|p t IH]; cbn [zrows]; [reflexivity|].
  destruct p as [|q u].
  - destruct (zrows B d None t), (zrows B d' None t); cbn [option_map]; try tauto.
    intros f k Hk. cbn [map]. now rewrite (IH f k Hk).
  - pose proof (plain_back B d d' (q :: u) H) as P. cbn [compFrom] in *.
    destruct (plainFrom B d (q :: u)), (plainFrom B d' (q :: u)); try tauto.
    destruct (zrows B d None t), (zrows B d' None t); try tauto.
    intros f k Hk. cbn [map]. rewrite (IH f k Hk). now rewrite (P f k Hk).
Qed.
Lemma est_back B o o' : dictBack (fun x => x) B (z_res o) (z_res o') -> z_n1 o' = z_n1 o -> z_n2 o' = z_n2 o ->
  match estimateCov B VJack (mkNZ o None), estimateCov B VJack (mkNZ o' None) with
  | Some x, Some y => forall k, In k (bins B) -> x k = y k
  | None, None => True
  | _, _ => False
  end.
Proof.
  intros H H1 H2. cbn [estimateCov zo zrz]. rewrite H1, H2. pose proof (proj1 H) as Hk. rewrite Hk.
  pose proof (zrows_back B _ _ (jackRows (z_n1 o) (z_n2 o) (zkeys (z_res o))) H) as Z.
  destruct (z_res o) as [|x t], (z_res o') as [|x' t']; cbn in Hk; try discriminate; [exact I|].
  destruct (zrows B (x :: t) None _), (zrows B (x' :: t') None _); cbn [option_map]; try tauto.
  intros k Hb. now rewrite (Z X1 k Hb).
Qed.
Theorem C76_jackknife rnd B m rv p wcov o vx cov x :
  NoDup (zkeys (z_res o)) -> square (length (bins B)) cov -> (m = VShot \/ rv = 0) ->
  estimateCov B VJack (mkNZ o None) = Some x ->
  exists f o' c y, writeCorr rnd false B m rv p true wcov o vx cov = Some f /\
    readCorr B fresh f = Some (mkNZ o' None, c) /\
    estimateCov B VJack (mkNZ o' None) = Some y /\ forall k, In k (bins B) -> y k = x k.
Proof.
  intros Hd Hsq Hm He.
  destruct (roundtrip_fresh rnd false B m rv p true wcov o vx cov Hd Hsq Hm) as (f & o' & c & v & Hf & Hr & _ & _ & _ & _ & (H1 & H2 & HD) & _).
  { discriminate. }
  pose proof (est_back B o o' HD H1 H2) as E. rewrite He in E.
  destruct (estimateCov B VJack (mkNZ o' None)) as [y|] eqn:Ey; [|contradiction].
  exists f, o', c, y. repeat split; auto. intros k Hk. symmetry. now apply E.
Qed.

(** ** Concrete cases *)
Definition exCov : list row := [[1; 1/2]; [1/2; 2]].
Lemma exCov_sq : square (length (bins exB)) exCov.
Proof. split; [reflexivity|]. repeat constructor. Qed.
Lemma exD_nd : NoDup (zkeys (z_res exD)).
Proof. apply (cp_nd _ _ ex_compat). Qed.
(** An ASCII file with results and covariance; rnd is any function. *)
Example C76_roundtrip_example rnd : exists f o' c,
  writeCorr rnd true exB VJack 0 4 true true exD (fun _ => 1) exCov = Some f /\
  readCorr exB fresh f = Some (mkNZ o' None, Some c) /\ zxi o' 1%Z = rnd 4%nat 2 /\ zkeys (z_res o') = [(0,0);(1,1)]%Z /\
  c = map (map (rnd 16%nat)) exCov.
Proof.
  destruct (roundtrip_fresh rnd true exB VJack 0 4 true true exD (fun _ => 1) exCov exD_nd exCov_sq) as
    (f & o' & c & v & Hf & Hr & Hx & _ & _ & _ & (_ & _ & (Hk & _)) & Hc); auto.
  subst c. exists f, o'. eexists. split; [exact Hf|]. split; [exact Hr|]. split; [|split; [exact Hk|reflexivity]].
  destruct (Hx 1%Z) as (-> & _); [simpl; auto|]. cbn [back]. f_equal.
  unfold zxi, exD, zfinalize, zfin, sumOf, zsum; cbn. repeat destruct (Req_EM_T _ 0); (lra || (exfalso; lra)).
Qed.
Example C76_exact_example rnd : exists f o', writeCorr rnd false exB VShot 3 4 false true exD (fun _ => 1) exCov = Some f /\
  readCorr exB fresh f = Some (mkNZ o' None, Some exCov) /\ zxi o' 1%Z = 2.
Proof.
  destruct (C76_exact rnd exB VShot 3 4 false true exD (fun _ => 1) exCov exD_nd exCov_sq) as
    (f & o' & v & Hf & Hr & Hx & _); auto.
  { intros; lra. }
  exists f, o'. split; [exact Hf|]. split; [exact Hr|].
  destruct (Hx 1%Z) as (-> & _); [simpl; auto|].
  unfold zxi, exD, zfinalize, zfin, sumOf, zsum; cbn. repeat destruct (Req_EM_T _ 0); (lra || (exfalso; lra)).
Qed.
Lemma exD_jack : exists x, estimateCov exB VJack (mkNZ exD None) = Some x /\ x 0%Z = 1.
Proof.
  eexists. split; [reflexivity|]. cbv beta. unfold jackVar, zfin, zsum. simpl.
  repeat (destruct (Req_EM_T _ 0); try (exfalso; lra)). lra.
Qed.
Example C76_jackknife_example rnd : exists f o' c y, writeCorr rnd false exB VJack 0 4 true false exD (fun _ => 1) exCov = Some f /\
  readCorr exB fresh f = Some (mkNZ o' None, c) /\ estimateCov exB VJack (mkNZ o' None) = Some y /\ y 0%Z = 1.
Proof.
  destruct exD_jack as (x & Hx & Hx0).
  destruct (C76_jackknife rnd exB VJack 0 4 false exD (fun _ => 1) exCov x exD_nd exCov_sq) as (f & o' & c & y & Hf & Hr & Hy & Hk); auto.
  exists f, o', c, y. repeat split; auto. rewrite Hk, Hx0; [reflexivity|simpl; auto].
Qed.

(** ** Refutations *)
(** A compensated correlation that is written with its results and read back has the compensated values as raw_xi and no
    _rk: its jackknife covariance is the uncompensated one, and calculateXi(rk) subtracts rk.xi a second time. *)
Theorem C76_compensated_refuted rnd : exists B o r s1 vx cov f s2 c s3 x y, compat o r /\
  zcalcXi B VJack VJack (mkNZ o None) (Some r) = Some s1 /\
  writeCorr rnd false B VJack 0 4 true false (zo s1) vx cov = Some f /\ readCorr B fresh f = Some (s2, c) /\
  option_map snd (covDiag B VJack s1) = Some x /\ option_map snd (covDiag B VJack s2) = Some y /\ x 0%Z = 0 /\ y 0%Z = 1 /\
  zcalcXi B VJack VJack s2 (Some r) = Some s3 /\ zxi (zo s1) 0%Z = 1 /\ zxi (zo s2) 0%Z = 1 /\ zxi (zo s3) 0%Z = 0.
Proof.
  assert (HJ : forall i, (0 <= i < npatchOf (z_n1 exD) (z_n2 exD))%Z -> jackPairs (z_n1 exR) (z_n2 exR) i (zkeys (z_res exR)) <> []).
  { intros i Hi. assert (i = 0 \/ i = 1)%Z as [->| ->] by (unfold npatchOf in Hi; simpl in Hi; lia); discriminate. }
  destruct (C75_varxi_jackknife exB VJack exD exR ex_compat) as [s1 [x [HC [_ [HD HV]]]]]; [reflexivity|exact HJ|].
  destruct (calc_res exB VJack VJack (mkNZ exD None) exR s1 (cp_ne _ _ ex_compat) HC) as [E1 [_ [E3 E4]]].
  destruct (C75_compensated _ _ _ _ _ _ HC) as [X _].
  assert (H0 : In 0%Z (bins exB)) by (simpl; auto).
  assert (Hr0 : zxi exR 0%Z = 1) by (unfold zxi, exR, zfinalize, zfin, sumOf, zsum; cbn; repeat destruct (Req_EM_T _ 0); (lra || (exfalso; lra))).
  assert (Hx1 : zxi (zo s1) 0%Z = 1).
  { rewrite X, Hr0. unfold exD, zfinalize, zfin, sumOf, zsum; cbn. repeat destruct (Req_EM_T _ 0); (lra || (exfalso; lra)). }
  assert (ND : NoDup (zkeys (z_res (zo s1)))).
  { rewrite E1. cbn. repeat constructor; cbn; intuition discriminate. }
  destruct (roundtrip_fresh rnd false exB VJack 0 4 true false (zo s1) x exCov ND exCov_sq) as
    (f & o2 & c & v & Hf & Hr & HX & _ & _ & _ & (N1 & N2 & DB) & _); auto.
  assert (CP : compat o2 exR).
  { pose proof (proj1 DB) as Hk. rewrite E1 in Hk. cbn in Hk. constructor; rewrite ?Hk.
    - repeat constructor; cbn; intuition discriminate.
    - apply (cp_ndr _ _ ex_compat).
    - rewrite N1, N2, E3, E4. cbn. intros ij [<-|[<-|[<-|[]]]]; unfold inRange; cbn; lia.
    - apply (cp_inr _ _ ex_compat).
    - rewrite N2, E4. reflexivity.
    - left. rewrite N1, E3. reflexivity.
    - reflexivity.
    - intros E. rewrite E in Hk. discriminate. }
  assert (HX2 : zxi o2 0%Z = 1) by (destruct (HX 0%Z H0) as (-> & _); exact Hx1).
  destruct (C75_varxi_jackknife exB VJack o2 exR CP) as [s3 [x3 [HC3 _]]].
  { rewrite N1, N2, E3, E4. reflexivity. }
  { intros i. rewrite N1, N2, E3, E4. apply HJ. }
  destruct (C75_compensated _ _ _ _ _ _ HC3) as [X3 _].
  pose proof (est_back exB (zo s1) o2 DB N1 N2) as EB.
  assert (exists y, estimateCov exB VJack (mkNZ (zo s1) None) = Some y /\ y 0%Z = 1) as (y & Hy & Hy1).
  { unfold estimateCov. cbn [zo zrz]. rewrite E1, E3, E4. cbn. eexists. split; [reflexivity|].
    cbv beta. unfold jackVar, zfin, zsum. simpl. repeat (destruct (Req_EM_T _ 0); try (exfalso; lra)). lra. }
  rewrite Hy in EB. destruct (estimateCov exB VJack (mkNZ o2 None)) as [y2|] eqn:Ey2; [|contradiction].
  assert (Zc : z_cov o2 = None).
  { pose proof (read_bin rnd exB VJack 0 4 true false (zo s1) x exCov fresh f ND Hf) as Q. rewrite Hr in Q.
    injection Q as -> _. reflexivity. }
  exists exB, exD, exR, s1, x, exCov, f, (mkNZ o2 None), c, s3, x, y2.
  split; [apply ex_compat|]. split; [exact HC|]. split; [exact Hf|]. split; [exact Hr|].
  split; [rewrite HD; reflexivity|].
  split; [unfold covDiag; cbn [zo]; rewrite Zc, Ey2; reflexivity|].
  split.
  { rewrite HV. unfold npatchOf. simpl. unfold compWithout, meanOver, wmean, zval. simpl.
    repeat destruct (Req_EM_T _ 0); try lra; try (exfalso; lra). unfold Rsqr. lra. }
  split; [rewrite <- EB by exact H0; exact Hy1|]. split; [exact HC3|]. split; [exact Hx1|]. split; [exact HX2|].
  rewrite X3, Hr0. unfold zxi in HX2. assert (z_xi o2 = None) as Ex.
  { pose proof (read_bin rnd exB VJack 0 4 true false (zo s1) x exCov fresh f ND Hf) as Q. rewrite Hr in Q.
    injection Q as -> _. reflexivity. }
  rewrite Ex in HX2. cbn [zo]. rewrite HX2. lra.
Qed.

(** The shot-noise covariance of what is read is 0, whatever it was when written (varxi is right). *)
Theorem C76_shot_refuted rnd : exists B o vx f s c x y z,
  estimateCov B VShot (mkNZ o None) = Some x /\ vx = x /\ writeCorr rnd false B VShot 0 4 true false o vx exCov = Some f /\
  readCorr B fresh f = Some (s, c) /\ option_map snd (covDiag B VShot s) = Some y /\
  option_map snd (varxi B VShot s) = Some z /\ x 0%Z = 1/2 /\ z 0%Z = 1/2 /\ y 0%Z = 0.
Proof.
  set (x := fun k => if Req_EM_T (z_arr exD ZW k) 0 then z_arr exD ZW k else z_var exD / z_arr exD ZW k).
  assert (Hx : x 0%Z = 1/2).
  { unfold x, exD, zfinalize, zfin, sumOf, zsum; cbn. repeat destruct (Req_EM_T _ 0); try lra; try (exfalso; lra). }
  assert (H0 : In 0%Z (bins exB)) by (simpl; auto).
  destruct (roundtrip_fresh rnd false exB VShot 0 4 true false exD x exCov exD_nd exCov_sq) as
    (f & o2 & c & v & Hf & Hr & HX & HA & HV & HVV & _); auto.
  assert (z_cov o2 = None /\ z_var o2 = 0) as (Zc & Zv).
  { pose proof (read_bin rnd exB VShot 0 4 true false exD x exCov fresh f exD_nd Hf) as Q. rewrite Hr in Q.
    injection Q as -> _. split; reflexivity. }
  exists exB, exD, x, f, (mkNZ o2 None), c, x. eexists. exists v.
  split; [reflexivity|]. split; [reflexivity|]. split; [exact Hf|]. split; [exact Hr|].
  split; [unfold covDiag; cbn [zo]; rewrite Zc; reflexivity|]. rewrite HV. split; [reflexivity|]. split; [exact Hx|].
  split.
  - rewrite HVV by exact H0. cbn [back]. rewrite Rsqr_sqrt; rewrite Hx; lra.
  - cbn [zo snd]. rewrite Zv. destruct (Req_EM_T _ 0) as [E|E]; [exact E|]. unfold Rdiv. apply Rmult_0_l.
Qed.

(** ASCII, write_cov=True without write_patch_results: the number of rows is not written, and the rows of the covariance
    are read as rows of the table; reading fails. *)
Theorem C76_ascii_cov_refuted rnd : exists B o vx cov f, square (length (bins B)) cov /\
  writeCorr rnd true B VShot 0 4 false true o vx cov = Some f /\ readCorr B fresh f = None.
Proof. exists exB, exD, (fun _ => 1), exCov. eexists. split; [apply exCov_sq|]. split; reflexivity. Qed.
(** ASCII with one bin: a 1x1 covariance is read as an array without dimensions; reading fails. *)
Definition exB1 : bparams := mkB BLinear 1 2 1 1 0 1.
Theorem C76_onebin_refuted rnd : exists B o vx cov f, square (length (bins B)) cov /\ nbins B = 1%Z /\
  writeCorr rnd true B VShot 0 4 true true o vx cov = Some f /\ readCorr B fresh f = None.
Proof.
  exists exB1, (zfinalize exB1 (sumOf []) [] 2 2 1), (fun _ => 1), [[1]]. eexists. split.
  { split; [reflexivity|]. repeat constructor. }
  split; [reflexivity|]. split; reflexivity.
Qed.
(** Processing a second time leaves _var_num in the stored results; with var_method='jackknife' writing them fails. *)
Theorem C76_reprocess_refuted rnd : exists B o vx cov, NoDup (zkeys (z_res o)) /\ square (length (bins B)) cov /\
  (exists x, estimateCov B VJack (mkNZ o None) = Some x) /\ z_var o <> 0 /\
  forall ascii p wcov, writeCorr rnd ascii B VJack (z_var o) p true wcov o vx cov = None.
Proof.
  exists exB, exD, (fun _ => 1), exCov. split; [apply exD_nd|]. split; [apply exCov_sq|].
  split; [destruct exD_jack as (x & Hx & _); eauto|]. split; [cbn; lra|]. intros ascii p wcov.
  unfold writeCorr, writeCalls. cbn. unfold resVx, varxi, rawVarxi. cbn. destruct (Req_EM_T 1 0); [exfalso; lra|]. reflexivity.
Qed.
(** read() on an object that was used before keeps its _cov: cov is that of the earlier data. *)
Theorem C76_stale_refuted rnd : exists B o vx cov f t s c x y,
  estimateCov B VJack (mkNZ o None) = Some x /\ writeCorr rnd false B VJack 0 4 true false o vx cov = Some f /\
  readCorr B t f = Some (s, c) /\ option_map snd (covDiag B VJack s) = Some y /\
  (forall k, In k (bins B) -> zxi (zo s) k = zxi o k) /\ x 0%Z = 1 /\ y 0%Z = 5.
Proof.
  destruct exD_jack as (x & Hx & Hx0).
  set (t := mkNZ (mkZ (fun _ _ => 0) None None [] 1 1 None 1 (Some (fun _ => 5)) None None) None).
  destruct (roundtrip_fresh rnd false exB VJack 0 4 true false exD (fun _ => 1) exCov exD_nd exCov_sq) as (f & _ & _ & _ & Hf & _); auto; try discriminate.
  pose proof (read_bin rnd exB VJack 0 4 true false exD (fun _ => 1) exCov t f exD_nd Hf) as Q.
  exists exB, exD, (fun _ => 1), exCov, f, t. do 2 eexists. exists x. eexists.
  split; [exact Hx|]. split; [exact Hf|]. split; [exact Q|]. split; [reflexivity|]. split; [|split; [exact Hx0|reflexivity]].
  intros k Hk. unfold readObj, upd, zxi at 1. cbn [zo z_xi z_arr]. etransitivity; [apply arr_table; exact Hk|]. reflexivity.
Qed.
