(** Model of the patch-based processing of the python layer: treecorr/corr2base.py:720-992,
    treecorr/catalog.py (get_patches, _get_center_size), NN tot bookkeeping. *)
From Coq Require Import Reals List ZArith Bool.
From Verif Require Import Base Geometry Tree Traverse Run Corr.
Import ListNotations.
Open Scope R_scope.

(** A patch catalog: its number (_single_patch, or the position in the list,
    corr2base.py:864, 876, 878, 955, 963, 966) and its rows. *)
Record patch := mkpatch { pidx : Z; pobjs : list obj }.
(** Catalog.sumw *)
Definition sumw (l : list obj) : R := sumR ow l.

(** ** get_patches, catalog.py:2917-2998 (the in-memory branch) *)
(** sorted(set(self.patch)) *)
Fixpoint zinsert (z : Z) (l : list Z) : list Z :=
  match l with
  | [] => [z]
  | a :: t => if (z =? a)%Z then l else if (z <? a)%Z then z :: l else a :: zinsert z t
  end.
Definition sortedSet (l : list Z) : list Z := fold_right zinsert [] l.
(** for i in patch_set: rows where patch == i.  The patch column is given as a function of the row
    (rows are (patch number, object)). *)
Definition getPatches (rows : list (Z * obj)) : list patch :=
  map (fun i => mkpatch i (map snd (filter (fun r => (fst r =? i)%Z) rows)))
      (sortedSet (map fst rows)).

(** ** _get_center_size, catalog.py:1289-1300 *)
Definition meanPos (l : list obj) : pos :=
  pscale (/ INR (length l)) (fold_right padd (mkpos 0 0 0) (map opos l)).
Definition maxDist (c : pos) (l : list obj) : R := sqrt (calculateSizeSq c l).
(** _trivially_zero, corr2base.py:724-728.  The C++ layer makes a Position<C> of the mean
    (src/Corr2.cpp:1189-1199), which normalizes it on the sphere (Position.h:229-233). *)
Definition patchCen (R : runcfg) (l : list obj) : pos := normalize (rcoord R) (meanPos l).
Definition patchTrivZero (R : runcfg) (l1 l2 : list obj) : bool :=
  triviallyZero (rP R) (patchCen R l1) (patchCen R l2) (maxDist (meanPos l1) l1) (maxDist (meanPos l2) l2).

(** ** The state of the object being processed: its arrays and its results dict *)
Definition key := (Z * Z)%type.
Definition keqb (a b : key) : bool := ((fst a =? fst b) && (snd a =? snd b))%Z.
Definition dict := list (key * corr).
Fixpoint dget (k : key) (d : dict) : option corr :=
  match d with [] => None | (k', v) :: t => if keqb k k' then Some v else dget k t end.
Fixpoint dset (k : key) (v : corr) (d : dict) : dict :=
  match d with
  | [] => [(k, v)]
  | (k', v') :: t => if keqb k k' then (k', v) :: t else (k', v') :: dset k v t
  end.
(** dict.update *)
Definition dupdate (d e : dict) : dict := fold_left (fun a kv => dset (fst kv) (snd kv) a) e d.
Record pstate := mkS { sself : corr; sres : dict }.
Definition sclear : pstate := mkS kclear [].

(** nn: the class is NNCorrelation (only then tot and _add_tot do something). *)
Record pcfg := mkPC { pR : runcfg; pNN : bool }.
Definition pB (C : pcfg) : bparams := cbin (rP (pR C)).

(** ** Jobs, in the order in which the loops visit them *)
Inductive job :=
  | JAuto (i : Z) (c : list obj)
  | JCross (i j : Z) (c1 : list obj) (sw1 : R) (c2 : option (list obj * R)) (force : bool).

(** temp.process_auto(c1) on a cleared temp (nncorrelation.py:161-178). *)
Definition tempAuto (C : pcfg) (c : list obj) (temp : corr) : Prop :=
  exists t, runAuto (pR C) c cleared t /\
    temp = mkK t (if pNN C then 0 + 1/2 * (sumw c * sumw c) else 0).
(** _single_process12 up to temp.process_cross, corr2base.py:784-792; nncorrelation.py:180-198. *)
Definition tempCross (C : pcfg) (c1 : list obj) (sw1 : R) (c2 : option (list obj * R)) (temp : corr) : Prop :=
  match c2 with
  | None => temp = kclear
  | Some (o2, sw2) =>
      if patchTrivZero (pR C) c1 o2 then temp = kclear
      else exists t, runCross (pR C) c1 o2 cleared t /\
             temp = mkK t (if pNN C then 0 + sw1 * sw2 else 0)
  end.

(** One iteration of the loops. JAuto: corr2base.py:877-885.  JCross: _single_process12, 784-800,
    with _add_tot of nncorrelation.py:250-260 (a no-op in the other classes, 720-722). *)
Definition addAuto (C : pcfg) (ij : key) (temp : corr) (st : pstate) : pstate :=
  mkS (kadd (pB C) (sself st) temp)
      (match dget ij (sres st) with
       | None => dset ij temp (sres st)
       | Some r => dset ij (kadd (pB C) r temp) (sres st)
       end).
Definition addCross (C : pcfg) (ij : key) (sw1 : R) (c2 : option (list obj * R)) (force : bool)
    (temp : corr) (st : pstate) : pstate :=
  if anyPairs (pB C) (kacc temp) || force then
    mkS (kadd (pB C) (sself st) temp)
        (match dget ij (sres st) with
         | Some r => if anyPairs (pB C) (kacc r) then dset ij (kadd (pB C) r temp) (sres st)
                     else dset ij temp (sres st)
         | None => dset ij temp (sres st)
         end)
  else
    match c2 with
    | Some (_, sw2) =>
        if pNN C then
          let tot := sw1 * sw2 in
          mkS (mkK (kacc (sself st)) (ktot (sself st) + tot)) (dset ij (mkK cleared tot) (sres st))
        else st
    | None => st
    end.
Definition jobStep (C : pcfg) (st : pstate) (J : job) (st' : pstate) : Prop :=
  match J with
  | JAuto i c => exists temp, tempAuto C c temp /\ st' = addAuto C (i, i) temp st
  | JCross i j c1 sw1 c2 force =>
      exists temp, tempCross C c1 sw1 c2 temp /\ st' = addCross C (i, j) sw1 c2 force temp st
  end.
Inductive runJobs (C : pcfg) : pstate -> list job -> pstate -> Prop :=
  | rj_nil : forall st, runJobs C st [] st
  | rj_cons : forall st J st1 Js st2,
      jobStep C st J st1 -> runJobs C st1 Js st2 -> runJobs C st (J :: Js) st2.

(** The loops of _process_all_auto, 875-895. *)
Definition crossJob (force : bool) (a b : patch) : job :=
  JCross (pidx a) (pidx b) (pobjs a) (sumw (pobjs a)) (Some (pobjs b, sumw (pobjs b))) force.
Definition autoJobs (cats : list patch) : list job :=
  flat_map (fun c1 => JAuto (pidx c1) (pobjs c1) ::
              map (crossJob false c1) (filter (fun c2 => (pidx c1 <? pidx c2)%Z) (rev cats))) cats.
(** The loops of _process_all_cross, 962-975; n1, n2 are self.npatch1, self.npatch2. *)
Definition forced (n1 n2 : Z) (a b : patch) : bool :=
  ((pidx a =? pidx b) || (n1 =? 1) || (n2 =? 1))%Z.
Definition crossJobs (n1 n2 : Z) (cats1 cats2 : list patch) : list job :=
  flat_map (fun c1 => map (fun c2 => crossJob (forced n1 n2 c1 c2) c1 c2) cats2) cats1.

(** ** patch_method='local' *)
(** _make_expanded_patch, 730-782.  [collapse] is the division by r for 3d coordinates. *)
Definition collapse (R : runcfg) (p : pos) : pos :=
  match rcoord R with
  | ThreeD => if Req_EM_T (norm p) 0 then p else pscale (/ norm p) p
  | _ => p
  end.
Definition nearRows (Rc : runcfg) (cen : pos) (lim : R) (l : list obj) : list obj :=
  filter (fun o => Rltb (norm (psub (collapse Rc (opos o)) cen)) lim) l.
Definition expandedPatch (Rc : runcfg) (c1 : list obj) (cats2 : list patch) : option (list obj * R) :=
  let m := maxsep (cbin (rP Rc)) in
  let cen := collapse Rc (meanPos c1) in
  let s1 := maxDist (meanPos c1) c1 in
  let use p := negb (Rltb (m + s1 + maxDist (meanPos (pobjs p)) (pobjs p))
                          (norm (psub (collapse Rc (meanPos (pobjs p))) cen))) in
  let rows := flat_map (fun p => if use p then nearRows Rc cen (s1 + m) (pobjs p) else []) cats2 in
  match rows with
  | [] => None
  | _ => Some (rows, sumR (fun p => sumw (pobjs p)) cats2)
  end.
(** 863-872 and 954-961 *)
Definition localJobs (R : runcfg) (cats1 cats2 : list patch) : list job :=
  map (fun c1 => JCross (pidx c1) (pidx c1) (pobjs c1) (sumw (pobjs c1))
                   (expandedPatch R (pobjs c1) cats2) true) cats1.

(** ** MPI *)
Definition jobKey (J : job) : key :=
  match J with JAuto i _ => (i, i) | JCross i j _ _ _ _ => (i, j) end.
(** my_indices, 850-853 and 944-946: np.arange(n*rank//size, n*(rank+1)//size) *)
Definition inMine (n size rank i : Z) : bool :=
  ((n * rank / size <=? i) && (i <? n * (rank + 1) / size))%Z.
(** is_my_job for auto-correlations, 804-842. *)
Definition myJobAuto (n size rank : Z) (ij : key) : bool :=
  let (i, j) := ij in
  let mi := inMine n size rank i in
  let mj := inMine n size rank j in
  if mi && mj then true
  else if negb mi && negb mj then false
  else if (j - i <? n / 2)%Z then (i mod 2 =? (if mi then 0 else 1))%Z
  else (j mod 2 =? (if mj then 0 else 1))%Z.
(** is_my_job for cross-correlations, 912-930 (with n = max(n1,n2), 945). *)
Definition myJobCross (n1 n2 size rank : Z) (ij : key) : bool :=
  let (i, j) := ij in
  inMine (Z.max n1 n2) size rank (if (n2 <? n1)%Z then i else j).

(** Rank r runs its own jobs from its own initial state; rank 0 then receives the others in order
    and adds them: 896-908, 976-992. *)
Definition mpiCollect (C : pcfg) (st0 : pstate) (others : list pstate) : pstate :=
  fold_left (fun a b => mkS (kadd (pB C) (sself a) (sself b)) (dupdate (sres a) (sres b))) others st0.
Definition ranks (size : Z) : list Z := map Z.of_nat (seq 0 (Z.to_nat size)).
Definition mpiRun (C : pcfg) (mine : Z -> key -> bool) (size : Z) (Js : list job)
    (init : Z -> pstate) (final : pstate) : Prop :=
  exists st : Z -> pstate,
    (forall r, In r (ranks size) -> runJobs C (init r) (filter (fun J => mine r (jobKey J)) Js) (st r)) /\
    final = mpiCollect C (st 0%Z) (map st (tl (ranks size))).
