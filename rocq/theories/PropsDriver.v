(** C98: what corr2 and corr3 write. *)
From Coq Require Import String.
From Coq Require Import List Bool Lia.
From Verif Require Import Driver.
Import ListNotations.

(** ** Specification *)
(** The order in which the files are written. *)
Definition order : list key :=
  [KCorr FN FN; KCorr FN FK; KCorr FK FK; KCorr FN FG; KNMap; KNorm; KCorr FK FG; KCorr FG FG; KMapSq;
   KCorr FN FZ; KCorr FK FZ; KCorr FZ FZ; KCorr FN FV; KCorr FK FV; KCorr FV FV;
   KCorr FN FT; KCorr FK FT; KCorr FT FT; KCorr FN FQ; KCorr FK FQ; KCorr FQ FQ].
Definition order3 : list key3 := [K3GGG; K3Map3; K3NNN; K3KKK].
Section Spec.
Context {cats corr C : Type} (proc : C -> cats -> option cats -> exn + corr).
(** [x] is the processed object of class [c] for the lists [a] and [b]. *)
Definition made (x : corr) (c : C) (a b : option cats) : Prop := exists l, a = Some l /\ proc c l b = inr x.
(** [o] is that object if [P], and None otherwise. *)
Definition optional (P : Prop) (o : option corr) (c : C) (a b : option cats) : Prop :=
  (P -> exists x, o = Some x /\ made x c a b) /\ (~ P -> o = None).
End Spec.
Section Spec2.
Context {cats corr : Type} (proc : fld * fld -> cats -> option cats -> exn + corr) (wr : content corr -> option exn).
Variables (I : inputs cats) (Cf : config).
Notation cat1 := (i_cat1 _ I). Notation cat2 := (i_cat2 _ I). Notation rand1 := (i_rand1 _ I). Notation rand2 := (i_rand2 _ I).
Definition crossRight (z : fld) (x : corr) (rx : option corr) : Prop :=
  cat2 <> None /\ made proc x (FN, z) cat1 cat2 /\ optional proc (rand1 <> None /\ c_stat Cf z <> Some false) rx (FN, z) rand1 cat2.
(** What the file of a key has to hold. *)
Definition right (k : key) (w : content corr) : Prop :=
  match k, w with
  | KCorr FN FN, WNN _ dd rr dr rd =>
      made proc dd (FN, FN) cat1 cat2 /\ optional proc (rand1 <> None) rr (FN, FN) rand1 rand2 /\
      optional proc (rand1 <> None /\ c_nncomp Cf = true) dr (FN, FN) cat1 (match cat2 with None => rand1 | Some _ => rand2 end) /\
      optional proc (rand1 <> None /\ c_nncomp Cf = true /\ cat2 <> None) rd (FN, FN) rand1 cat2 /\
      (rand1 <> None -> cat2 <> None -> rand2 <> None)
  | KCorr FN FN, _ => False
  | KCorr FN z, WCross _ x rx => crossRight z x rx
  | KCorr FN _, _ => False
  | KCorr FK FK, WPlain _ x => made proc x (FK, FK) cat1 cat2
  | KCorr FK z, WPlain _ x => cat2 <> None /\ made proc x (FK, z) cat1 cat2
  | KCorr a b, WPlain _ x => made proc x (a, b) cat1 cat2
  | KNMap, WNMap _ ng rg => crossRight FG ng rg
  | KNorm, WNorm _ ng gg dd rr dr rg => crossRight FG ng rg /\ made proc gg (FG, FG) cat2 None /\ made proc dd (FN, FN) cat1 None /\
      made proc rr (FN, FN) rand1 None /\ optional proc (c_nncomp Cf = true) dr (FN, FN) cat1 rand1
  | KMapSq, WMapSq _ gg => made proc gg (FG, FG) cat1 cat2
  | _, _ => False
  end.
(** The field of the sources of a file of a correlation with points. *)
Definition source (k : key) : option fld :=
  match k with KCorr FN FN => None | KCorr FN z => Some z | KNMap | KNorm => Some FG | _ => None end.
Definition needs2 (k : key) : bool :=
  match k with KCorr FN FN => false | KCorr FN _ => true | KCorr FK FK => false | KCorr FK _ => true | KNMap | KNorm => true | _ => false end.
(** Why the file of a key cannot be made, and the exception. *)
Definition cause (k : key) (e : exn) : Prop :=
  (e = TypeErr /\ needs2 k = true /\ cat2 = None) \/
  (e = TypeErr /\ exists z, source k = Some z /\ rand1 = None /\ c_stat Cf z = Some true) \/
  (e = TypeErr /\ k = KCorr FN FN /\ rand1 <> None /\ cat2 <> None /\ rand2 = None) \/
  (e = AttrErr /\ k = KNorm /\ rand1 = None) \/
  (exists c l b, proc c l b = inl e) \/
  (exists w, right k w /\ wr w = Some e).
End Spec2.
Section Spec3.
Context {cats corr : Type} (proc : fld -> cats -> option cats -> exn + corr) (wr : content3 corr -> option exn).
Variables (cat1 rand1 : option cats) (Cf : config3).
Definition right3 (k : key3) (w : content3 corr) : Prop :=
  match k, w with
  | K3NNN, W3NNN _ ddd rrr drr rdd =>
      made proc ddd FN cat1 None /\ optional proc (rand1 <> None) rrr FN rand1 None /\
      optional proc (rand1 <> None /\ c3_comp Cf = true) drr FN cat1 rand1 /\
      optional proc (rand1 <> None /\ c3_comp Cf = true) rdd FN rand1 cat1
  | K3GGG, W3Plain _ x => made proc x FG cat1 None
  | K3Map3, W3Map3 _ x => made proc x FG cat1 None
  | K3KKK, W3Plain _ x => made proc x FK cat1 None
  | _, _ => False
  end.
Definition cause3 (k : key3) (e : exn) : Prop :=
  (exists c l b, proc c l b = inl e) \/ (exists w, right3 k w /\ wr w = Some e).
End Spec3.
(** A run that writes the requested files one after the other: all of them, or those before the first
    one for which there is a cause of failure. *)
Definition sequential {K W} (file : K -> option string) (ok : K -> W -> Prop) (why : K -> exn -> Prop) (ks : list K)
    (run : list (string * W) * (exn + unit)) : Prop :=
  exists done rest,
    filter (fun k => match file k with None => false | Some _ => true end) ks = done ++ rest /\
    Forall2 (fun k nw => file k = Some (fst nw) /\ ok k (snd nw)) done (fst run) /\
    match snd run with
    | inr _ => rest = []
    | inl e => exists k rest', rest = k :: rest' /\ why k e
    end.

(** ** One file at a time *)
Section Keys.
Context {K W : Type} (file : K -> option string) (con : K -> exn + W) (wr : W -> option exn).
Definition runKey (k : K) : M W unit :=
  match file k with None => ret tt | Some n => fun log => match con k with inl e => (log, inl e) | inr w => write wr n w log end end.
Fixpoint runKeys (ks : list K) : M W unit :=
  match ks with [] => ret tt | k :: t => bind (runKey k) (fun _ => runKeys t) end.
Lemma runKeys_app a b log : runKeys (a ++ b) log = bind (runKeys a) (fun _ => runKeys b) log.
Proof.
  revert log. induction a as [|k a IH]; intro log; auto. cbn [app runKeys]. unfold bind in *.
  destruct (runKey k log) as [l [e|[]]]; auto.
Qed.
Lemma runKeys_seq (ok : K -> W -> Prop) (why : K -> exn -> Prop) :
  (forall k w, con k = inr w -> ok k w) -> (forall k e, con k = inl e -> why k e) ->
  (forall k w e, ok k w -> wr w = Some e -> why k e) ->
  forall ks log, exists new, fst (runKeys ks log) = log ++ new /\ sequential file ok why ks (new, snd (runKeys ks log)).
Proof.
  intros H1 H2 H3. induction ks as [|k t IH]; intro log.
  - exists []. cbn. rewrite app_nil_r. split; auto. exists [], []. split; [auto|split; [constructor|reflexivity]].
  - cbn [runKeys]. unfold bind, runKey. destruct (file k) as [n|] eqn:F.
    + destruct (con k) as [e|w] eqn:E.
      * exists []. cbn. rewrite app_nil_r. split; auto. exists [], (k :: filter (fun k => match file k with None => false | Some _ => true end) t). cbn. rewrite F. split; auto.
        split; auto. exists k. eexists. split; auto.
      * unfold write. destruct (wr w) as [e|] eqn:Ew.
        -- exists []. cbn. rewrite app_nil_r. split; auto. exists [], (k :: filter (fun k => match file k with None => false | Some _ => true end) t). cbn. rewrite F. split; auto.
           split; auto. exists k. eexists. split; auto. eapply H3; eauto.
        -- destruct (IH (log ++ [(n, w)])) as [new [L [d [r [A [B D]]]]]]. exists ((n, w) :: new). split; [rewrite L, <- app_assoc; auto|].
           exists (k :: d), r. cbn [filter fst snd] in *. rewrite F, A. split; auto.
    + destruct (IH log) as [new [L S]]. exists new. split; [exact L|]. cbn [ret].
      destruct S as [d [r [A [B D]]]]. exists d, r. cbn [filter]. rewrite F. auto.
Qed.
Lemma runKeys_none ks log : (forall k, In k ks -> file k = None) -> runKeys ks log = (log, inr tt).
Proof.
  induction ks as [|k t IH]; intro H; auto. cbn [runKeys]. unfold bind, runKey. rewrite (H k) by (left; auto). cbn. apply IH. intros; apply H; right; auto.
Qed.
Lemma runKeys_in ks k n : forall log new, runKeys ks log = (log ++ new, inr tt) -> In k ks -> file k = Some n ->
  exists w, con k = inr w /\ wr w = None /\ In (n, w) new.
Proof.
  induction ks as [|x t IH]; intros log new H HI F; [destruct HI|]. cbn [runKeys] in H. unfold bind in H.
  assert (HS : exists n1, fst (runKeys t (fst (runKey x log))) = fst (runKey x log) ++ n1).
  { destruct (runKeys_seq (fun _ _ => True) (fun _ _ => True)) with (ks := t) (log := fst (runKey x log)) as [n1 [X _]]; auto. exists n1; auto. }
  destruct HS as [n1 HS].
  destruct (runKey x log) as [l [e|[]]] eqn:RX; [discriminate|]. cbn [fst] in HS. rewrite H in HS. cbn [fst] in HS.
  destruct HI as [->|HI].
  - unfold runKey in RX. rewrite F in RX. destruct (con k) as [e|w] eqn:E; [discriminate|]. unfold write in RX. destruct (wr w) eqn:Ew; [discriminate|].
    injection RX as <-. rewrite <- app_assoc in HS. apply app_inv_head in HS. exists w. split; auto. split; auto. rewrite HS. left; auto.
  - rewrite HS in H. destruct (IH l n1 H HI F) as [w [A [B D]]]. exists w. split; auto. split; auto.
    unfold runKey in RX. destruct (file x) as [m|].
    + destruct (con x); [discriminate|]. unfold write in RX. destruct (wr w0); [discriminate|]. injection RX as <-.
      rewrite <- app_assoc in HS. apply app_inv_head in HS. rewrite HS. right; auto.
    + injection RX as <-. apply app_inv_head in HS. rewrite HS. auto.
Qed.
End Keys.

(** ** corr2 *)
Section C2.
Context {cats corr : Type} (proc : fld * fld -> cats -> option cats -> exn + corr) (wr : content corr -> option exn).
Variable (I : inputs cats).
Notation cat1 := (i_cat1 _ I). Notation cat2 := (i_cat2 _ I). Notation rand1 := (i_rand1 _ I). Notation rand2 := (i_rand2 _ I).
Definition eb {A B} (m : exn + A) (f : A -> exn + B) : exn + B := match m with inl e => inl e | inr a => f a end.
Definition pr (c : fld * fld) (a b : option cats) : exn + corr := match a with None => inl AttrErr | Some a => proc c a b end.
Definition os {A} (m : exn + A) : exn + option A := eb m (fun x => inr (Some x)).
Definition conRand (Cf : config) (z : fld) : exn + option corr :=
  match rand1 with
  | None => match c_stat Cf z with Some true => inl TypeErr | _ => inr None end
  | Some _ => if match c_stat Cf z with Some b => b | None => true end then os (pr (FN, z) rand1 cat2) else inr None
  end.
Definition conCross (Cf : config) (z : fld) (f : corr -> option corr -> exn + content corr) : exn + content corr :=
  match cat2 with None => inl TypeErr | Some _ => eb (pr (FN, z) cat1 cat2) (fun x => eb (conRand Cf z) (f x)) end.
Definition con (Cf : config) (k : key) : exn + content corr :=
  match k with
  | KCorr FN FN =>
      eb (pr (FN, FN) cat1 cat2) (fun dd =>
        match rand1, cat2 with
        | None, _ => inr (WNN _ dd None None None)
        | Some _, None =>
            eb (pr (FN, FN) rand1 None) (fun rr =>
            eb (if c_nncomp Cf then os (pr (FN, FN) cat1 rand1) else inr None) (fun dr => inr (WNN _ dd (Some rr) dr None)))
        | Some _, Some _ =>
            match rand2 with
            | None => inl TypeErr
            | Some _ => eb (pr (FN, FN) rand1 rand2) (fun rr =>
                if c_nncomp Cf then eb (pr (FN, FN) cat1 rand2) (fun dr => eb (pr (FN, FN) rand1 cat2) (fun rd => inr (WNN _ dd (Some rr) (Some dr) (Some rd))))
                else inr (WNN _ dd (Some rr) None None))
            end
        end)
  | KCorr FN z => conCross Cf z (fun x rx => inr (WCross _ x rx))
  | KCorr FK FK => eb (pr (FK, FK) cat1 cat2) (fun x => inr (WPlain _ x))
  | KCorr FK z => match cat2 with None => inl TypeErr | Some _ => eb (pr (FK, z) cat1 cat2) (fun x => inr (WPlain _ x)) end
  | KCorr a b => eb (pr (a, b) cat1 cat2) (fun x => inr (WPlain _ x))
  | KNMap => conCross Cf FG (fun x rx => inr (WNMap _ x rx))
  | KNorm => conCross Cf FG (fun x rx => eb (pr (FG, FG) cat2 None) (fun gg => eb (pr (FN, FN) cat1 None) (fun dd => eb (pr (FN, FN) rand1 None) (fun rr =>
      eb (if c_nncomp Cf then os (pr (FN, FN) cat1 rand1) else inr None) (fun dr => inr (WNorm _ x gg dd rr dr rx))))))
  | KMapSq => eb (pr (FG, FG) cat1 cat2) (fun x => inr (WMapSq _ x))
  end.
Notation rk Cf := (runKey (c_file Cf) (con Cf) wr).
Notation rks Cf := (runKeys (c_file Cf) (con Cf) wr).
Lemma process_eq {A} c a b (f : corr -> M (content corr) A) log :
  bind (process proc c a b) f log = match pr c a b with inl e => (log, inl e) | inr x => f x log end.
Proof. unfold bind, process, pr. destruct a as [a|]; auto. Qed.
Lemma bind_ret {W A B} (a : A) (f : A -> M W B) log : bind (ret a) f log = f a log.
Proof. reflexivity. Qed.
Lemma bind_tt {W} (m : M W unit) log : bind m (fun _ => ret tt) log = m log.
Proof. unfold bind, ret. destruct (m log) as [l [e|[]]]; auto. Qed.
Lemma bind_ext {W A B} (a b : M W A) (f g : M W B) log : (forall l, a l = b l) -> (forall l, f l = g l) ->
  bind a (fun _ => f) log = bind b (fun _ => g) log.
Proof. intros H1 H2. unfold bind. rewrite H1. destruct (b log) as [l [e|x]]; auto. Qed.
Lemma rand_eq {A} Cf z (f : option corr -> M (content corr) A) log :
  bind (randBlock _ _ proc I Cf z) f log = match conRand Cf z with inl e => (log, inl e) | inr x => f x log end.
Proof.
  unfold randBlock, conRand. destruct (rand1) as [r|] eqn:E.
  - destruct (match c_stat Cf z with Some b => b | None => true end); auto.
    unfold some, os, eb, bind, process, pr. destruct (proc (FN, z) r cat2); auto.
  - destruct (c_stat Cf z) as [[|]|]; auto.
Qed.
Lemma nn_eq Cf log : nnBlock _ _ proc wr I Cf log = rk Cf (KCorr FN FN) log.
Proof.
  unfold nnBlock, ifFile, runKey. destruct (c_file Cf (KCorr FN FN)) as [n|]; auto. rewrite process_eq. cbn [con]. unfold eb at 1.
  destruct (pr (FN, FN) cat1 cat2) as [e|dd]; auto.
  destruct (rand1) as [r1|] eqn:E1; auto. destruct (cat2) as [c2|] eqn:E2.
  - destruct (rand2) as [r2|] eqn:E3; auto. rewrite process_eq. unfold eb at 1. destruct (pr (FN, FN) (Some r1) (Some r2)); auto.
    destruct (c_nncomp Cf); auto. rewrite process_eq. unfold eb. destruct (pr (FN, FN) cat1 (Some r2)); auto.
    rewrite process_eq. destruct (pr (FN, FN) (Some r1) (Some c2)); auto.
  - rewrite process_eq. unfold eb at 1. destruct (pr (FN, FN) (Some r1) None); auto. destruct (c_nncomp Cf); auto.
    unfold os, eb, bind, some, bind, ret, process, pr. destruct (cat1) as [c1|]; auto. destruct (proc (FN, FN) c1 (Some r1)); auto.
Qed.
Lemma nx_eq Cf z log : z <> FN -> nxBlock _ _ proc wr I Cf z log = rk Cf (KCorr FN z) log.
Proof.
  intro Hz. unfold nxBlock, ifFile, runKey. destruct (c_file Cf (KCorr FN z)) as [n|]; auto.
  replace (con Cf (KCorr FN z)) with (conCross Cf z (fun x rx => inr (WCross _ x rx))) by (destruct z; auto; contradiction).
  unfold needCat2, conCross. destruct (cat2) as [c2|] eqn:E2; auto. rewrite bind_ret, process_eq. unfold eb.
  destruct (pr (FN, z) cat1 (Some c2)) as [e|x]; auto. rewrite rand_eq. destruct (conRand Cf z); auto.
Qed.
Lemma kx_eq Cf z log : z <> FK -> kxBlock _ _ proc wr I Cf z log = rk Cf (KCorr FK z) log.
Proof.
  intro Hz. unfold kxBlock, ifFile, runKey. destruct (c_file Cf (KCorr FK z)) as [n|]; auto.
  replace (con Cf (KCorr FK z)) with (match cat2 with None => inl TypeErr | Some _ => eb (pr (FK, z) cat1 cat2) (fun x => inr (WPlain _ x)) end)
    by (destruct z; auto; contradiction).
  unfold needCat2. destruct (cat2) as [c2|] eqn:E2; auto. rewrite bind_ret, process_eq. unfold eb.
  destruct (pr (FK, z) cat1 (Some c2)) as [e|x]; auto.
Qed.
Lemma xx_eq Cf z log : z <> FN -> xxBlock _ _ proc wr I Cf z log = rk Cf (KCorr z z) log.
Proof.
  intro Hz. unfold xxBlock, ifFile, runKey. destruct (c_file Cf (KCorr z z)) as [n|]; auto.
  replace (con Cf (KCorr z z)) with (eb (pr (z, z) cat1 cat2) (fun x => inr (WPlain _ x))) by (destruct z; auto; contradiction).
  rewrite process_eq. unfold eb. destruct (pr (z, z) cat1 (cat2)) as [e|x]; auto.
Qed.
Lemma gg_eq Cf log : ggBlock _ _ proc wr I Cf log = rks Cf [KCorr FG FG; KMapSq] log.
Proof.
  unfold ggBlock, ifFile, asked, runKeys, runKey. cbn [con].
  destruct (c_file Cf (KCorr FG FG)) as [n|], (c_file Cf KMapSq) as [m|]; cbn [orb]; auto; rewrite process_eq; unfold eb, bind, ret;
  destruct (pr (FG, FG) cat1 cat2) as [e|x]; auto; unfold write; destruct (wr _); auto; try destruct (wr _); auto.
Qed.
Lemma ng_eq Cf log : ngBlock _ _ proc wr I Cf log = rks Cf [KCorr FN FG; KNMap; KNorm] log.
Proof.
  unfold ngBlock. destruct (asked Cf (KCorr FN FG) || asked Cf KNMap || asked Cf KNorm) eqn:A.
  - unfold needCat2. cbn [runKeys]. unfold runKey. cbn [con]. unfold conCross.
    destruct (cat2) as [c2|] eqn:E2.
    2:{ unfold asked, bind, ret, raise in *. destruct (c_file Cf (KCorr FN FG)); auto. destruct (c_file Cf KNMap); auto. destruct (c_file Cf KNorm); auto. discriminate. }
    rewrite bind_ret, process_eq. destruct (pr (FN, FG) cat1 (Some c2)) as [e|ng] eqn:P.
    { unfold eb. unfold asked, bind, ret, raise in *. destruct (c_file Cf (KCorr FN FG)); auto. destruct (c_file Cf KNMap); auto. destruct (c_file Cf KNorm); auto. discriminate. }
    rewrite rand_eq. destruct (conRand Cf FG) as [e|rg] eqn:Rg.
    { unfold eb. unfold asked, bind, ret, raise in *. destruct (c_file Cf (KCorr FN FG)); auto. destruct (c_file Cf KNMap); auto. destruct (c_file Cf KNorm); auto. discriminate. }
    assert (HN : forall l, ifFile _ Cf KNorm (fun n =>
      bind (process proc (FG, FG) (Some c2) None) (fun gg =>
      bind (process proc (FN, FN) cat1 None) (fun dd =>
      bind (process proc (FN, FN) rand1 None) (fun rr =>
      bind (if c_nncomp Cf then some (process proc (FN, FN) cat1 rand1) else ret None) (fun dr =>
      write wr n (WNorm _ ng gg dd rr dr rg)))))) l =
      bind (match c_file Cf KNorm with None => ret tt | Some n => fun log => match
        eb (inr ng) (fun x => eb (inr rg) (fun rx => eb (pr (FG, FG) (Some c2) None) (fun gg => eb (pr (FN, FN) cat1 None) (fun dd => eb (pr (FN, FN) rand1 None) (fun rr =>
        eb (if c_nncomp Cf then os (pr (FN, FN) cat1 rand1) else inr None) (fun dr => inr (WNorm _ x gg dd rr dr rx)))))))
        with inl e => (log, inl e) | inr w => write wr n w log end end) (fun _ => ret tt) l).
    { intro l. rewrite bind_tt. unfold ifFile. destruct (c_file Cf KNorm) as [n|]; auto. rewrite process_eq. unfold eb.
      destruct (pr (FG, FG) (Some c2) None) as [e|gg]; auto. rewrite process_eq. destruct (pr (FN, FN) cat1 None) as [e|dd]; auto.
      rewrite process_eq. destruct (pr (FN, FN) rand1 None) as [e|rr]; auto. destruct (c_nncomp Cf).
      - unfold os, eb, bind, some, bind, ret, process, pr. destruct (cat1) as [c1|]; auto. destruct (proc (FN, FN) c1 rand1); auto.
      - reflexivity. }
    apply bind_ext; [intro l; unfold ifFile; destruct (c_file Cf (KCorr FN FG)); reflexivity|]. intro l1.
    apply bind_ext; [intro l; unfold ifFile; destruct (c_file Cf KNMap); reflexivity|]. intro l2.
    apply HN.
  - symmetry. apply runKeys_none. intros k Hk. unfold asked in A. cbn in Hk.
    destruct Hk as [<-|[<-|[<-|[]]]]; destruct (c_file Cf (KCorr FN FG)), (c_file Cf KNMap), (c_file Cf KNorm); auto; discriminate.
Qed.
Lemma corr2_eq Cf log : cat1 <> None -> (cat2 = None -> rand2 = None) -> corr2 _ _ proc wr I Cf log = rks Cf order log.
Proof.
  intros H1 H2. transitivity (bind (nnBlock _ _ proc wr I Cf) (fun _ => bind (nxBlock _ _ proc wr I Cf FK) (fun _ => bind (xxBlock _ _ proc wr I Cf FK) (fun _ =>
    bind (ngBlock _ _ proc wr I Cf) (fun _ => bind (kxBlock _ _ proc wr I Cf FG) (fun _ => bind (ggBlock _ _ proc wr I Cf) (fun _ =>
    bind (nxBlock _ _ proc wr I Cf FZ) (fun _ => bind (kxBlock _ _ proc wr I Cf FZ) (fun _ => bind (xxBlock _ _ proc wr I Cf FZ) (fun _ =>
    bind (nxBlock _ _ proc wr I Cf FV) (fun _ => bind (kxBlock _ _ proc wr I Cf FV) (fun _ => bind (xxBlock _ _ proc wr I Cf FV) (fun _ =>
    bind (nxBlock _ _ proc wr I Cf FT) (fun _ => bind (kxBlock _ _ proc wr I Cf FT) (fun _ => bind (xxBlock _ _ proc wr I Cf FT) (fun _ =>
    bind (nxBlock _ _ proc wr I Cf FQ) (fun _ => bind (kxBlock _ _ proc wr I Cf FQ) (fun _ => xxBlock _ _ proc wr I Cf FQ))))))))))))))))) log).
  { unfold corr2. destruct (cat1) as [c1|]; [|contradiction]. destruct (cat2) as [c2|]; [destruct (rand2); reflexivity|].
    rewrite H2 by auto. reflexivity. }
  unfold order. cbn [runKeys].
  apply bind_ext; [intro; apply nn_eq|intro; clear log].
  apply bind_ext; [intro; apply nx_eq; discriminate|intro].
  apply bind_ext; [intro; apply xx_eq; discriminate|intro].
  transitivity (bind (rks Cf [KCorr FN FG; KNMap; KNorm]) (fun _ => rks Cf (skipn 6 order)) l1).
  2:{ rewrite <- runKeys_app. reflexivity. }
  apply bind_ext; [intro; apply ng_eq|intro]. unfold order. cbn [skipn runKeys].
  apply bind_ext; [intro; apply kx_eq; discriminate|intro].
  transitivity (bind (rks Cf [KCorr FG FG; KMapSq]) (fun _ => rks Cf (skipn 9 order)) l3).
  2:{ rewrite <- runKeys_app. reflexivity. }
  apply bind_ext; [intro; apply gg_eq|intro]. unfold order. cbn [skipn runKeys].
  do 3 (apply bind_ext; [intro; apply nx_eq; discriminate|intro]; apply bind_ext; [intro; apply kx_eq; discriminate|intro];
        apply bind_ext; [intro; apply xx_eq; discriminate|intro]).
  apply bind_ext; [intro; apply nx_eq; discriminate|intro]. apply bind_ext; [intro; apply kx_eq; discriminate|intro].
  rewrite bind_tt. apply xx_eq. discriminate.
Qed.
Lemma pr_made c a b x : pr c a b = inr x -> made proc x c a b.
Proof. unfold pr. destruct a as [l|]; [|discriminate]. intro H. exists l. auto. Qed.
Lemma pr_err c a b e : a <> None -> pr c a b = inl e -> exists c l b, proc c l b = inl e.
Proof. unfold pr. destruct a as [l|]; [|contradiction]. intros _ H. eauto. Qed.
Lemma rand_right Cf z rx : conRand Cf z = inr rx -> optional proc (rand1 <> None /\ c_stat Cf z <> Some false) rx (FN, z) rand1 cat2.
Proof.
  unfold conRand, optional. destruct (rand1) as [r|] eqn:E1.
  - destruct (c_stat Cf z) as [[|]|] eqn:ES; unfold os, eb.
    + destruct (pr (FN, z) (Some r) cat2) as [e|x] eqn:P; intro H; inversion H; subst. split; [intros _; exists x; split; auto; apply pr_made; auto|].
      intro N. exfalso. apply N. split; discriminate.
    + intro H; inversion H. split; auto. intros [_ N]. contradiction.
    + destruct (pr (FN, z) (Some r) cat2) as [e|x] eqn:P; intro H; inversion H; subst. split; [intros _; exists x; split; auto; apply pr_made; auto|].
      intro N. exfalso. apply N. split; discriminate.
  - intro H. assert (rx = None) as -> by (destruct (c_stat Cf z) as [[|]|]; inversion H; auto). split; auto. intros [N _]. contradiction.
Qed.
Lemma cross_right Cf z f w : conCross Cf z f = inr w -> exists x rx, crossRight proc I Cf z x rx /\ f x rx = inr w.
Proof.
  unfold conCross, crossRight. destruct (cat2) as [c2|] eqn:E2; [|discriminate]. unfold eb.
  destruct (pr (FN, z) cat1 (Some c2)) as [e|x] eqn:P; [discriminate|]. destruct (conRand Cf z) as [e|rx] eqn:Rr; [discriminate|]. intro H.
  exists x, rx. split; auto. split; [discriminate|]. split; [apply pr_made; auto|]. apply rand_right in Rr. rewrite E2 in Rr. auto.
Qed.
Lemma opt_yes (P : Prop) x c a b : P -> pr c a b = inr x -> optional proc P (Some x) c a b.
Proof. intros H1 H2. split; [intros _; exists x; split; auto; apply pr_made; auto|contradiction]. Qed.
Lemma opt_no (P : Prop) c a b : ~ P -> optional proc P (@None corr) c a b.
Proof. intro H. split; auto. intro N. contradiction. Qed.
Lemma opt_if (b0 : bool) (P : Prop) dr c a b : (P <-> b0 = true) -> (if b0 then os (pr c a b) else inr None) = inr dr -> optional proc P dr c a b.
Proof.
  intros HP. destruct b0.
  - unfold os, eb. destruct (pr c a b) as [e|x] eqn:E; [discriminate|]. intro H. injection H as <-. apply opt_yes; auto. apply HP; auto.
  - intro H. injection H as <-. apply opt_no. intro N. apply HP in N. discriminate.
Qed.
Lemma con_right Cf k w : cat1 <> None -> (cat2 = None -> rand2 = None) -> In k order -> con Cf k = inr w -> right proc I Cf k w.
Proof.
  intros H1 H2 HI HC.
  assert (HX : forall z f, conCross Cf z f = inr w -> exists x rx, crossRight proc I Cf z x rx /\ f x rx = inr w) by (intros; apply cross_right; auto).
  assert (HP : forall c f, eb (pr c cat1 cat2) f = inr w -> exists x, made proc x c cat1 cat2 /\ f x = inr w).
  { intros c f. unfold eb. destruct (pr c cat1 cat2) as [e|x] eqn:E; [discriminate|]. intro H. exists x. split; auto. apply pr_made; auto. }
  unfold order in HI. cbn [In] in HI.
  repeat (destruct HI as [<-|HI]; [cbn [con right] in *;
    try (apply HX in HC as [x [rx [A B]]]; injection B as <-; exact A);
    try (apply HP in HC as [x [A B]]; injection B as <-; exact A);
    try (destruct (cat2) as [c2|] eqn:E2; [|discriminate]; apply HP in HC as [x [A B]]; injection B as <-; split; [discriminate|exact A])|]);
    [| |destruct HI].
  - unfold eb at 1 in HC. destruct (pr (FN, FN) cat1 cat2) as [e|dd] eqn:PD; [discriminate|]. apply pr_made in PD.
    destruct (rand1) as [r1|] eqn:E1.
    + assert (N1 : Some r1 <> None) by discriminate. destruct (cat2) as [c2|] eqn:E2.
      * assert (N2 : Some c2 <> None) by discriminate. destruct (rand2) as [r2|] eqn:E3; [|discriminate]. unfold eb in HC.
        destruct (pr (FN, FN) (Some r1) (Some r2)) as [e|rr] eqn:PR; [discriminate|]. destruct (c_nncomp Cf) eqn:EN.
        -- destruct (pr (FN, FN) cat1 (Some r2)) as [e|dr] eqn:PDR; [discriminate|]. destruct (pr (FN, FN) (Some r1) (Some c2)) as [e|rd] eqn:PRD; [discriminate|].
           injection HC as <-. split; auto. split; [apply opt_yes; auto|]. split; [apply opt_yes; auto|]. split; [apply opt_yes; auto|]. discriminate.
        -- injection HC as <-. split; auto. split; [apply opt_yes; auto|]. split; [apply opt_no; intros [_ N]; discriminate|].
           split; [apply opt_no; intros [_ [N _]]; discriminate|]. discriminate.
      * unfold eb at 1 in HC. rewrite H2 by auto. destruct (pr (FN, FN) (Some r1) None) as [e|rr] eqn:PR; [discriminate|].
        destruct (if c_nncomp Cf then os (pr (FN, FN) cat1 (Some r1)) else inr None) as [e|dr] eqn:PDR; [discriminate|]. cbn [eb] in HC. injection HC as <-.
        split; auto. split; [apply opt_yes; auto|]. split; [apply (opt_if (c_nncomp Cf)); auto; tauto|]. split; [apply opt_no; tauto|]. auto.
    + injection HC as <-. split; auto. split; [apply opt_no; tauto|]. split; [apply opt_no; tauto|]. split; [apply opt_no; tauto|]. tauto.
  - apply HX in HC as [x [rx [A B]]]. unfold eb in B.
    destruct (pr (FG, FG) cat2 None) as [e|gg] eqn:PG; [discriminate|]. destruct (pr (FN, FN) cat1 None) as [e|dd] eqn:PD; [discriminate|].
    destruct (pr (FN, FN) rand1 None) as [e|rr] eqn:PR; [discriminate|].
    destruct (if c_nncomp Cf then os (pr (FN, FN) cat1 rand1) else inr None) as [e|dr] eqn:PDR; [discriminate|]. injection B as <-.
    split; auto. split; [apply pr_made; auto|]. split; [apply pr_made; auto|]. split; [apply pr_made; auto|]. apply (opt_if (c_nncomp Cf)); auto. tauto.
Qed.
Lemma cross_err Cf k z f e : cat1 <> None -> source k = Some z -> needs2 k = true -> conCross Cf z f = inl e ->
  cause proc wr I Cf k e \/ exists x rx, crossRight proc I Cf z x rx /\ f x rx = inl e.
Proof.
  intros H1 HS HN H. assert (H0 := H). unfold conCross in H. destruct (cat2) as [c2|] eqn:E2; [|injection H as <-; left; left; auto].
  unfold eb in H. destruct (pr (FN, z) cat1 (Some c2)) as [e0|x] eqn:P.
  - injection H as <-. left. apply pr_err in P; auto. right; right; right; right; left. auto.
  - destruct (conRand Cf z) as [e0|rx] eqn:Rr.
    + injection H as <-. left. unfold conRand in Rr. destruct (rand1) as [r1|] eqn:E1.
      * assert (X : os (pr (FN, z) (Some r1) cat2) = inl e0) by (destruct (c_stat Cf z) as [[|]|]; auto; discriminate).
        unfold os, eb in X. destruct (pr (FN, z) (Some r1) cat2) as [e1|] eqn:P2; [|discriminate]. injection X as ->. apply pr_err in P2; [|discriminate].
        right; right; right; right; left. auto.
      * destruct (c_stat Cf z) as [[|]|] eqn:ES; try discriminate. injection Rr as <-. right; left. split; auto. exists z. auto.
    + right. exists x, rx. split; auto. unfold crossRight. rewrite E2. split; [discriminate|]. split; [apply pr_made; auto|].
      apply rand_right in Rr. rewrite E2 in Rr. auto.
Qed.
Lemma con_cause Cf k e : cat1 <> None -> In k order -> con Cf k = inl e -> cause proc wr I Cf k e.
Proof.
  intros H1 HI HC.
  assert (HX : forall z f, source k = Some z -> needs2 k = true -> (forall x rx, f x rx <> inl e) -> conCross Cf z f = inl e -> cause proc wr I Cf k e).
  { intros z f S N F H. destruct (cross_err Cf k z f e H1 S N H) as [X|[x [rx [_ X]]]]; auto. exfalso. apply (F x rx X). }
  assert (HP : forall c (f : corr -> exn + content corr), (forall x, f x <> inl e) -> eb (pr c cat1 cat2) f = inl e -> cause proc wr I Cf k e).
  { intros c f F. unfold eb. destruct (pr c cat1 cat2) as [e0|x] eqn:E; intro H; [|exfalso; apply (F x H)]. injection H as ->.
    apply pr_err in E; auto. right; right; right; right; left. auto. }
  assert (HE : forall c a b e0, a <> None -> pr c a b = inl e0 -> inl e0 = @inl exn (content corr) e -> cause proc wr I Cf k e).
  { intros c a b e0 N P H. injection H as ->. apply pr_err in P; auto. right; right; right; right; left. auto. }
  unfold order in HI. cbn [In] in HI.
  repeat (destruct HI as [<-|HI]; [cbn [con] in *;
    try (eapply HX; [reflexivity|reflexivity| |exact HC]; discriminate);
    try (eapply HP; [|exact HC]; discriminate);
    try (destruct (cat2) as [c2|] eqn:E2; [eapply HP; [|exact HC]; discriminate|]; injection HC as <-; left; auto)|]);
    [| |destruct HI].
  - unfold eb at 1 in HC. destruct (pr (FN, FN) cat1 cat2) as [e0|dd] eqn:PD; [eapply HE; eauto|].
    destruct (rand1) as [r1|] eqn:E1; [|discriminate]. assert (N1 : Some r1 <> None) by discriminate. destruct (cat2) as [c2|] eqn:E2.
    + destruct (rand2) as [r2|] eqn:E3.
      2:{ injection HC as <-. right; right; left. rewrite E1, E2, E3. repeat split; auto; discriminate. }
      unfold eb in HC.
      destruct (pr (FN, FN) (Some r1) (Some r2)) as [e0|rr] eqn:PR; [eapply HE; [|exact PR|]; auto|]. destruct (c_nncomp Cf); [|discriminate].
      destruct (pr (FN, FN) cat1 (Some r2)) as [e0|dr] eqn:PDR; [eapply HE; [|exact PDR|]; auto|].
      destruct (pr (FN, FN) (Some r1) (Some c2)) as [e0|rd] eqn:PRD; [eapply HE; [|exact PRD|]; auto|discriminate].
    + unfold eb at 1 in HC. destruct (pr (FN, FN) (Some r1) None) as [e0|rr] eqn:PR; [eapply HE; [|exact PR|]; auto|].
      destruct (c_nncomp Cf); [|discriminate]. unfold os, eb in HC.
      destruct (pr (FN, FN) cat1 (Some r1)) as [e0|dr] eqn:PDR; [eapply HE; [|exact PDR|]; auto|discriminate].
  - destruct (cross_err Cf KNorm FG _ e H1 eq_refl eq_refl HC) as [X|[x [rx [[A _] B]]]]; auto. unfold eb in B.
    destruct (pr (FG, FG) cat2 None) as [e0|gg] eqn:PG; [eapply HE; [|exact PG|]; auto|].
    destruct (pr (FN, FN) cat1 None) as [e0|dd] eqn:PD; [eapply HE; [|exact PD|]; auto|].
    destruct (rand1) as [r1|] eqn:E1; [|injection B as <-; right; right; right; left; auto].
    destruct (pr (FN, FN) (Some r1) None) as [e0|rr] eqn:PR; [eapply HE; [|exact PR|]; auto; discriminate|].
    destruct (c_nncomp Cf); [|discriminate]. unfold os, eb in B.
    destruct (pr (FN, FN) cat1 (Some r1)) as [e0|dr] eqn:PDR; [eapply HE; [|exact PDR|]; auto|discriminate].
Qed.
End C2.
Lemma seq_in {K W} file (ok ok' : K -> W -> Prop) (why why' : K -> exn -> Prop) ks run :
  (forall k w, In k ks -> ok k w -> ok' k w) -> (forall k e, In k ks -> why k e -> why' k e) ->
  sequential file ok why ks run -> sequential file ok' why' ks run.
Proof.
  intros H1 H2 [d [r [A [B D]]]]. exists d, r. split; auto.
  assert (HD : forall k, In k (d ++ r) -> In k ks) by (intros k Hk; rewrite <- A in Hk; apply filter_In in Hk; tauto).
  split.
  - assert (HD' : forall k, In k d -> In k ks) by (intros; apply HD; apply in_or_app; auto). clear A D HD.
    induction B as [|k nw d l X _ IH]; constructor; [|apply IH; intros; apply HD'; right; auto].
    split; [apply X|]. apply H1; [apply HD'; left; auto|apply X].
  - destruct (snd run); auto. destruct D as [k [r' [-> X]]]. exists k, r'. split; auto. apply H2; auto. apply HD. apply in_or_app. right; left; auto.
Qed.

(** corr2 writes the requested files one after the other in the order [order], each with the right
    content.  It stops at the first one for which there is a cause to fail, with that exception; the
    files before it have been written. *)
Theorem C98_corr2 {cats corr} (proc : fld * fld -> cats -> option cats -> exn + corr) wr I Cf :
  i_cat1 _ I <> None -> (i_cat2 _ I = None -> i_rand2 _ I = None) ->
  sequential (c_file Cf) (right proc I Cf) (cause proc wr I Cf) order (corr2 _ _ proc wr I Cf []).
Proof.
  intros H1 H2. rewrite corr2_eq by auto.
  destruct (runKeys_seq (c_file Cf) (con proc I Cf) wr (fun k w => con proc I Cf k = inr w) (fun k e => con proc I Cf k = inl e \/ exists w, con proc I Cf k = inr w /\ wr w = Some e))
    with (ks := order) (log := @nil (string * content corr)) as [new [L S]]; auto.
  { intros k w e A B. right. exists w. auto. }
  cbn [app] in L. rewrite <- L in S. rewrite <- surjective_pairing in S. eapply seq_in; [| |exact S]; cbn beta.
  - intros k w Hk Hw. apply con_right; auto.
  - intros k e Hk [H|[w [A B]]]; [apply con_cause; auto|]. right; right; right; right; right. exists w. split; auto. apply con_right; auto.
Qed.
(** TypeError before anything is written: no input, or rand_file_name2 without file_name2. *)
Theorem C98_inputs {cats corr} (proc : fld * fld -> cats -> option cats -> exn + corr) wr I Cf :
  i_cat1 _ I = None \/ i_cat2 _ I = None /\ i_rand2 _ I <> None -> corr2 _ _ proc wr I Cf [] = ([], inl TypeErr).
Proof.
  intros [H|[H1 H2]]; unfold corr2.
  - rewrite H. reflexivity.
  - rewrite H1. destruct (i_cat1 _ I); [|reflexivity]. destruct (i_rand2 _ I); [reflexivity|contradiction].
Qed.
(** Each file has the content that it has when it is the only one requested. *)
Definition key_dec (a b : key) : {a = b} + {a <> b}.
Proof. decide equality; apply (fun x y : fld => ltac:(decide equality) : {x = y} + {x <> y}). Defined.
Definition only (k : key) (Cf : config) : config :=
  mkC (fun k' => if key_dec k' k then c_file Cf k else None) (c_nncomp Cf) (c_stat Cf).
Lemma only_run {W} (file : key -> option string) (con0 : key -> exn + W) wr k n w : con0 k = inr w -> wr w = None -> file k = Some n ->
  forall ks log, NoDup ks -> runKeys (fun k' => if key_dec k' k then file k else None) con0 wr ks log =
    (log ++ (if in_dec key_dec k ks then [(n, w)] else []), inr tt).
Proof.
  intros A B F. rewrite F. induction ks as [|x t IH]; intros log ND; [cbn; rewrite app_nil_r; auto|]. inversion ND as [|? ? N1 N2]; subst.
  cbn [runKeys]. unfold bind, runKey. destruct (key_dec x k) as [->|Ne].
  - rewrite A. unfold write. rewrite B. rewrite IH by auto. destruct (in_dec key_dec k t); [contradiction|].
    destruct (in_dec key_dec k (k :: t)) as [_|N]; [rewrite app_nil_r; auto|exfalso; apply N; left; auto].
  - unfold ret. rewrite IH by auto. f_equal. f_equal. destruct (in_dec key_dec k t) as [i|i], (in_dec key_dec k (x :: t)) as [j|j]; auto; exfalso.
    + apply j. right; auto.
    + destruct j as [E|E]; [apply Ne; auto|contradiction].
Qed.
Theorem C98_alone {cats corr} (proc : fld * fld -> cats -> option cats -> exn + corr) wr I Cf log k n :
  corr2 _ _ proc wr I Cf [] = (log, inr tt) -> In k order -> c_file Cf k = Some n ->
  exists w, In (n, w) log /\ corr2 _ _ proc wr I (only k Cf) [] = ([(n, w)], inr tt).
Proof.
  intros H HI F.
  assert (H1 : i_cat1 _ I <> None) by (intro N; rewrite C98_inputs in H by auto; discriminate).
  assert (H2 : i_cat2 _ I = None -> i_rand2 _ I = None).
  { intro N. destruct (i_rand2 _ I) eqn:E; auto. rewrite C98_inputs in H; [discriminate|]. right. split; auto. rewrite E. discriminate. }
  rewrite corr2_eq in H by auto. destruct (runKeys_in (c_file Cf) (con proc I Cf) wr order k n [] log H HI F) as [w [A [B D]]].
  exists w. split; auto. rewrite corr2_eq by auto. cbn [c_file only].
  assert (HC : forall k, con proc I (only k Cf) k = con proc I Cf k) by (intro k'; destruct k' as [[] []| | |]; reflexivity).
  assert (E : con proc I (only k Cf) = con proc I Cf) by reflexivity. rewrite E.
  rewrite (only_run (c_file Cf) (con proc I Cf) wr k n w A B F).
  - destruct (in_dec key_dec k order); [auto|contradiction].
  - unfold order. repeat constructor; cbn; intuition discriminate.
Qed.

(** ** corr3 *)
Section C3.
Context {cats corr : Type} (proc : fld -> cats -> option cats -> exn + corr) (wr : content3 corr -> option exn).
Variables (cat1 rand1 : option cats) (Cf : config3).
Definition pr3 (c : fld) (a b : option cats) : exn + corr := match a with None => inl AttrErr | Some a => proc c a b end.
Definition con3 (k : key3) : exn + content3 corr :=
  match k with
  | K3GGG => eb (pr3 FG cat1 None) (fun x => inr (W3Plain _ x))
  | K3Map3 => eb (pr3 FG cat1 None) (fun x => inr (W3Map3 _ x))
  | K3KKK => eb (pr3 FK cat1 None) (fun x => inr (W3Plain _ x))
  | K3NNN => eb (pr3 FN cat1 None) (fun ddd =>
      match rand1 with
      | None => inr (W3NNN _ ddd None None None)
      | Some _ => eb (pr3 FN rand1 None) (fun rrr =>
          if c3_comp Cf then eb (pr3 FN cat1 rand1) (fun drr => eb (pr3 FN rand1 cat1) (fun rdd => inr (W3NNN _ ddd (Some rrr) (Some drr) (Some rdd))))
          else inr (W3NNN _ ddd (Some rrr) None None))
      end)
  end.
Lemma process3_eq {A} c a b (f : corr -> M (content3 corr) A) log :
  bind (process proc c a b) f log = match pr3 c a b with inl e => (log, inl e) | inr x => f x log end.
Proof. unfold bind, process, pr3. destruct a as [a|]; auto. Qed.
Lemma corr3_eq log : cat1 <> None -> corr3 _ _ proc wr cat1 rand1 Cf log = runKeys (c3_file Cf) con3 wr order3 log.
Proof.
  intro H. destruct cat1 as [c1|] eqn:E1; [|contradiction]. unfold corr3, order3. rewrite <- E1.
  transitivity (bind (runKeys (c3_file Cf) con3 wr [K3GGG; K3Map3]) (fun _ => runKeys (c3_file Cf) con3 wr [K3NNN; K3KKK]) log).
  2:{ rewrite <- runKeys_app. reflexivity. }
  apply bind_ext; clear log.
  - intro log. unfold asked3, ifFile3. cbn [runKeys]. unfold runKey. cbn [con3].
    destruct (c3_file Cf K3GGG) as [n|], (c3_file Cf K3Map3) as [m|]; cbn [orb]; auto; rewrite process3_eq; unfold eb, bind, ret;
    destruct (pr3 FG cat1 None) as [e|x]; auto; unfold write; destruct (wr _); auto; try destruct (wr _); auto.
  - intro log. cbn [runKeys]. apply bind_ext; clear log; intro log.
    + unfold ifFile3, runKey. destruct (c3_file Cf K3NNN) as [n|]; auto. rewrite process3_eq. cbn [con3]. unfold eb at 1.
      destruct (pr3 FN cat1 None) as [e|ddd]; auto. destruct rand1 as [r1|]; auto. rewrite process3_eq. unfold eb.
      destruct (pr3 FN (Some r1) None) as [e|rrr]; auto. destruct (c3_comp Cf); auto. rewrite process3_eq.
      destruct (pr3 FN cat1 (Some r1)) as [e|drr]; auto. rewrite process3_eq. destruct (pr3 FN (Some r1) cat1) as [e|rdd]; auto.
    + rewrite bind_tt. unfold ifFile3, runKey. destruct (c3_file Cf K3KKK) as [n|]; auto. rewrite process3_eq. cbn [con3]. unfold eb.
      destruct (pr3 FK cat1 None) as [e|x]; auto.
Qed.
Lemma pr3_made c a b x : pr3 c a b = inr x -> made proc x c a b.
Proof. unfold pr3. destruct a as [l|]; [|discriminate]. intro H. exists l. auto. Qed.
Lemma opt3_yes (P : Prop) x c a b : P -> pr3 c a b = inr x -> optional proc P (Some x) c a b.
Proof. intros H1 H2. split; [intros _; exists x; split; auto; apply pr3_made; auto|contradiction]. Qed.
Lemma opt3_no (P : Prop) c a b : ~ P -> optional proc P (@None corr) c a b.
Proof. intro H. split; auto. intro N. contradiction. Qed.
Lemma con3_right k w : con3 k = inr w -> right3 proc cat1 rand1 Cf k w.
Proof.
  assert (HP : forall c f, eb (pr3 c cat1 None) f = inr w -> exists x, made proc x c cat1 None /\ f x = inr w).
  { intros c f. unfold eb. destruct (pr3 c cat1 None) as [e|x] eqn:E; [discriminate|]. intro H. exists x. split; auto. apply pr3_made; auto. }
  destruct k; cbn [con3]; intro H; apply HP in H as [x [A B]]; try (injection B as <-; exact A).
  destruct rand1 as [r1|] eqn:E1.
  - assert (N1 : Some r1 <> None) by discriminate. unfold eb in B. destruct (pr3 FN (Some r1) None) as [e|rrr] eqn:P1; [discriminate|].
    destruct (c3_comp Cf) eqn:EC.
    + destruct (pr3 FN cat1 (Some r1)) as [e|drr] eqn:P2; [discriminate|]. destruct (pr3 FN (Some r1) cat1) as [e|rdd] eqn:P3; [discriminate|].
      injection B as <-. cbn. split; auto. split; [apply opt3_yes; auto|]. split; [apply opt3_yes; auto|apply opt3_yes; auto].
    + injection B as <-. cbn. split; auto. split; [apply opt3_yes; auto|]. rewrite EC. split; apply opt3_no; intros [_ N]; discriminate.
  - injection B as <-. cbn. split; auto. split; [apply opt3_no; tauto|]. split; apply opt3_no; tauto.
Qed.
Lemma con3_cause k e : cat1 <> None -> con3 k = inl e -> cause3 proc wr cat1 rand1 Cf k e.
Proof.
  intros H1 H. left.
  assert (HP : forall c a b e0, a <> None -> pr3 c a b = inl e0 -> inl e0 = @inl exn (content3 corr) e -> exists c l b, proc c l b = inl e).
  { intros c a b e0 N. unfold pr3. destruct a as [l|]; [|contradiction]. intros P X. injection X as ->. eauto. }
  destruct k; cbn [con3] in H; unfold eb in H.
  - destruct (pr3 FG cat1 None) eqn:E; [eapply HP; eauto|discriminate].
  - destruct (pr3 FG cat1 None) eqn:E; [eapply HP; eauto|discriminate].
  - destruct (pr3 FN cat1 None) eqn:E; [eapply HP; eauto|]. destruct rand1 as [r1|]; [|discriminate].
    assert (N1 : Some r1 <> None) by discriminate.
    destruct (pr3 FN (Some r1) None) eqn:E2; [eapply HP; [|exact E2|]; auto|]. destruct (c3_comp Cf); [|discriminate].
    destruct (pr3 FN cat1 (Some r1)) eqn:E3; [eapply HP; [|exact E3|]; auto|].
    destruct (pr3 FN (Some r1) cat1) eqn:E4; [eapply HP; [|exact E4|]; auto|discriminate].
  - destruct (pr3 FK cat1 None) eqn:E; [eapply HP; eauto|discriminate].
Qed.
End C3.
(** The same for corr3: here only processing and writing can raise. *)
Theorem C98_corr3 {cats corr} (proc : fld -> cats -> option cats -> exn + corr) wr cat1 rand1 Cf :
  match cat1 with
  | None => corr3 _ _ proc wr cat1 rand1 Cf [] = ([], inl TypeErr)
  | Some _ => sequential (c3_file Cf) (right3 proc cat1 rand1 Cf) (cause3 proc wr cat1 rand1 Cf) order3 (corr3 _ _ proc wr cat1 rand1 Cf [])
  end.
Proof.
  destruct cat1 as [c1|]; [|reflexivity]. assert (N1 : Some c1 <> None) by discriminate. rewrite corr3_eq by auto.
  destruct (runKeys_seq (c3_file Cf) (con3 proc (Some c1) rand1 Cf) wr (right3 proc (Some c1) rand1 Cf) (cause3 proc wr (Some c1) rand1 Cf))
    with (ks := order3) (log := @nil (string * content3 corr)) as [new [L S]].
  - intros. apply con3_right. auto.
  - intros. apply con3_cause; auto.
  - intros k w e A B. right. exists w. auto.
  - cbn [app] in L. rewrite <- L in S. rewrite <- surjective_pairing in S. exact S.
Qed.

(** ** Examples *)
Open Scope string_scope.
(** Objects that remember what was processed. *)
Definition tproc (c : fld * fld) (a : nat) (b : option nat) : exn + (fld * fld * nat * option nat) := inr (c, a, b).
Definition tfile (k : key) : option string :=
  match k with KCorr FN FN => Some "nn" | KCorr FN FG => Some "ng" | KNorm => Some "norm" | KCorr FG FG => Some "gg" | _ => None end.
Definition tC : config := mkC tfile true (fun _ => None).
Example C98_example : corr2 _ _ tproc (fun _ => None) (mkIn nat (Some 1) (Some 2) (Some 3) (Some 4)) tC [] =
  (let nn a b := ((FN, FN), a, b) in let ng a := ((FN, FG), a, Some 2) in
   [("nn", WNN _ (nn 1 (Some 2)) (Some (nn 3 (Some 4))) (Some (nn 1 (Some 4))) (Some (nn 3 (Some 2))));
    ("ng", WCross _ (ng 1) (Some (ng 3)));
    ("norm", WNorm _ (ng 1) ((FG, FG), 2, None) (nn 1 None) (nn 3 None) (Some (nn 1 (Some 3))) (Some (ng 3)));
    ("gg", WPlain _ ((FG, FG), 1, Some 2))], inr tt).
Proof. reflexivity. Qed.
Example C98_corr3_example : corr3 nat (fld * nat * option nat) (fun c a b => inr (c, a, b)) (fun _ => None) (Some 1) (Some 2)
    (mkC3 (fun k => match k with K3Map3 => Some "m3" | K3NNN => Some "nnn" | _ => None end) true) [] =
  ([("m3", W3Map3 _ (FG, 1, None)); ("nnn", W3NNN _ (FN, 1, None) (Some (FN, 2, None)) (Some (FN, 1, Some 2)) (Some (FN, 2, Some 1)))], inr tt).
Proof. reflexivity. Qed.
(** norm_file_name without random files: an AttributeError instead of a message, after the NG file has
    been written. *)
Theorem C98_norm_refuted : exists (I : inputs nat) Cf log,
  i_rand1 _ I = None /\ c_stat Cf FG = None /\ corr2 _ _ tproc (fun _ => None) I Cf [] = (log, inl AttrErr) /\ log <> [].
Proof.
  exists (mkIn nat (Some 1) (Some 2) None None), (mkC (fun k => match k with KCorr FN FG => Some "ng" | KNorm => Some "norm" | _ => None end) true (fun _ => None)).
  eexists. split; [reflexivity|]. split; [reflexivity|]. split; [reflexivity|discriminate].
Qed.
(** rand_file_name2 without rand_file_name: no exception, and the randoms are not used. *)
Theorem C98_rand2_refuted : exists (I : inputs nat) Cf n dd,
  i_cat2 _ I <> None /\ i_rand2 _ I <> None /\ c_nncomp Cf = true /\
  corr2 _ _ tproc (fun _ => None) I Cf [] = ([(n, WNN _ dd None None None)], inr tt).
Proof.
  exists (mkIn nat (Some 1) (Some 2) None (Some 4)), (mkC (fun k => match k with KCorr FN FN => Some "nn" | _ => None end) true (fun _ => None)).
  do 2 eexists. split; [discriminate|]. split; [discriminate|]. split; reflexivity.
Qed.
