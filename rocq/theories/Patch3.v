(** Model of patch processing for three-point correlations: treecorr/corr3base.py
    (_trivially_zero, _single_process12, _single_process123, _process_all_auto,
    _process_all_cross12, _process_all_cross, __iadd__, _jackknife_pairs) and
    treecorr/nnncorrelation.py (tot, _add_tot, _sum, calculateZeta).

    Simplifications: as in Patch.v a patch is its number and its rows, low_mem (unloading and
    reloading of rows) has no effect on the rows, logging is left out, and MPI ranks exchange
    whole states.  The arrays are those of Corr3.v (LogRUV and LogSAS, triangle algorithm). *)
From Coq Require Import Reals Lra List ZArith Bool.
From Verif Require Import Base Geometry Tree Traverse Run Corr Patch Corr3.
Import ListNotations.
Open Scope R_scope.

(** The arrays plus tot (only NNNCorrelation has tot: nnncorrelation.py:177). *)
Record corr3 := mkK3 { k3acc : accum3; k3tot : R }.
Definition k3clear : corr3 := mkK3 cleared3 0.

(** The indices of the flattened arrays. *)
Definition places (P : tparams) : list Z := map Z.of_nat (seq 0 (Z.to_nat (tntot P))).
(** nonzero, corr3base.py:1103-1107: np.any(self.ntri). *)
Definition anyTri (P : tparams) (s : accum3) : bool :=
  existsb (fun k => negb (Reqb (s TNtri k) 0)) (places P).
(** __iadd__, corr3base.py:1902-1938 (after the compatibility checks); tot: nnncorrelation.py:365-375. *)
Definition k3add (P : tparams) (s t : corr3) : corr3 :=
  mkK3 (if anyTri P (k3acc t) then acc3Add (k3acc s) (k3acc t) else k3acc s) (k3tot s + k3tot t).

(** ** The results dict, keyed by (i,j,k) *)
Definition key3 := (Z * Z * Z)%type.
Definition k3eqb (a b : key3) : bool :=
  ((fst (fst a) =? fst (fst b)) && (snd (fst a) =? snd (fst b)) && (snd a =? snd b))%Z.
Definition results3 := list (key3 * corr3).
Fixpoint d3get (ij : key3) (d : results3) : option corr3 :=
  match d with [] => None | (k, v) :: t => if k3eqb ij k then Some v else d3get ij t end.
Fixpoint d3set (ij : key3) (v : corr3) (d : results3) : results3 :=
  match d with
  | [] => [(ij, v)]
  | (k, w) :: t => if k3eqb ij k then (k, v) :: t else (k, w) :: d3set ij v t
  end.
Definition d3update (d e : results3) : results3 := fold_left (fun a p => d3set (fst p) (snd p) a) e d.

Record pstate3 := mkS3 { s3self : corr3; s3res : results3 }.
Definition s3clear : pstate3 := mkS3 k3clear [].
(** Parameters, and whether the class is NNNCorrelation. *)
Record pcfg3 := mkPC3 { p3R : runcfg3; p3NNN : bool }.
Definition p3P (C : pcfg3) : tparams := r3P (p3R C).

(** ** Skipping of patches *)
(** sorted([a,b,c])[1] *)
Definition mid3 (a b c : R) : R := Rmax (Rmin a b) (Rmin (Rmax a b) c).
(** _trivially_zero, corr3base.py:1113-1122; _get_center_size, catalog.py:1289-1300.  The metric
    is not used: "For now, ignore the metric.  Just be conservative". *)
Definition triv3 (P : tparams) (l1 l2 l3 : list obj) : bool :=
  let m1 := meanPos l1 in let m2 := meanPos l2 in let m3 := meanPos l3 in
  let d3 := norm (psub m1 m2) in
  let d1 := norm (psub m2 m3) in
  let d2 := norm (psub m3 m1) in
  Rltb (maxDist m1 l1 + maxDist m2 l2 + maxDist m3 l3 + 2 * tmaxsep P) (mid3 d1 d2 d3).

(** ** Jobs *)
(** A catalog and its sumw attribute (None: no catalog; _make_expanded_patch may return None). *)
Definition ocat := option (list obj * R).
Definition catOf (p : patch) : list obj * R := (pobjs p, sumw (pobjs p)).
Inductive call3 :=
  | CAuto (c : list obj * R)
  | C12 (O : order) (c1 : list obj * R) (c2 : ocat)
  | C123 (O : order) (c1 : list obj * R) (c2 c3 : ocat).
(** jmine: the arguments of is_my_job; jkey: the key of the results dict; jforce: force_write.
    (The auto jobs of 1226-1236 are stored whatever they contain, so they count as forced.) *)
Record job3 := mkJ3 { jmine : key3; jkey : key3; jcall : call3; jforce : bool }.

(** The weight added to tot: nnncorrelation.py:253, 279, 304. *)
Definition callTot (c : call3) : R :=
  match c with
  | CAuto c => 1/6 * (snd c * snd c * snd c)
  | C12 _ c1 (Some c2) => 1/2 * snd c1 * (snd c2 * snd c2)
  | C123 _ c1 (Some c2) (Some c3) => snd c1 * snd c2 * snd c3
  | _ => 0
  end.
(** temp after temp._clear() and the process call of _single_process12 (1126-1135) or
    _single_process123 (1146-1155), or process_auto. *)
Definition temp3 (C : pcfg3) (c : call3) (temp : corr3) : Prop :=
  let P := p3P C in
  let ran t := mkK3 t (if p3NNN C then 0 + callTot c else 0) in
  match c with
  | CAuto c => exists t, runAuto3 (p3R C) (fst c) cleared3 t /\ temp = ran t
  | C12 o c1 (Some c2) =>
      if triv3 P (fst c1) (fst c2) (fst c2) then temp = k3clear
      else exists t, runCross12 (p3R C) o (fst c1) (fst c2) cleared3 t /\ temp = ran t
  | C123 o c1 (Some c2) (Some c3) =>
      if triv3 P (fst c1) (fst c2) (fst c3) then temp = k3clear
      else exists t, runCross3 (p3R C) o (fst c1) (fst c2) (fst c3) cleared3 t /\ temp = ran t
  | _ => temp = k3clear
  end.
(** The rest of _single_process12 / _single_process123 (1136-1144, 1156-1164), with _add_tot of
    nnncorrelation.py:351-363, whose tot is callTot again (the division by 2 when c2 is c3 is the
    factor of C12).  With c2 or c3 None the call is always forced. *)
Definition add3 (C : pcfg3) (J : job3) (temp : corr3) (st : pstate3) : pstate3 :=
  let P := p3P C in
  if anyTri P (k3acc temp) || jforce J then
    mkS3 (k3add P (s3self st) temp)
         (match d3get (jkey J) (s3res st) with
          | Some r => if anyTri P (k3acc r) then d3set (jkey J) (k3add P r temp) (s3res st)
                      else d3set (jkey J) temp (s3res st)
          | None => d3set (jkey J) temp (s3res st)
          end)
  else if p3NNN C then
    mkS3 (mkK3 (k3acc (s3self st)) (k3tot (s3self st) + callTot (jcall J)))
         (d3set (jkey J) (mkK3 cleared3 (callTot (jcall J))) (s3res st))
  else st.
Definition step3 (C : pcfg3) (st : pstate3) (J : job3) (st' : pstate3) : Prop :=
  exists temp, temp3 C (jcall J) temp /\ st' = add3 C J temp st.
Inductive runJobs3 (C : pcfg3) : pstate3 -> list job3 -> pstate3 -> Prop :=
  | r3_nil : forall st, runJobs3 C st [] st
  | r3_cons : forall st J st1 Js st2,
      step3 C st J st1 -> runJobs3 C st1 Js st2 -> runJobs3 C st (J :: Js) st2.

(** ** The loops with patch_method='global' *)
Definition job12 (mine key : key3) (O : order) (a b : patch) (force : bool) : job3 :=
  mkJ3 mine key (C12 O (catOf a) (Some (catOf b))) force.
Definition job123 (key : key3) (O : order) (a b c : patch) (force : bool) : job3 :=
  mkJ3 key key (C123 O (catOf a) (Some (catOf b)) (Some (catOf c))) force.
(** _process_all_auto, 1222-1262. *)
Definition auto3Jobs (cats : list patch) : list job3 :=
  flat_map (fun c1 =>
    let i := pidx c1 in
    mkJ3 (i, i, i) (i, i, i) (CAuto (catOf c1)) true ::
    flat_map (fun c2 =>
      let j := pidx c2 in
      job12 (i, j, j) (i, j, j) O0 c1 c2 false ::
      job12 (i, j, j) (i, i, j) O0 c2 c1 false ::
      map (fun c3 => job123 (i, j, pidx c3) O0 c1 c2 c3 false)
          (filter (fun c3 => (j <? pidx c3)%Z) cats))
      (filter (fun c2 => (i <? pidx c2)%Z) (rev cats))) cats.
(** _process_all_cross12, 1379-1400; ordered is O1 or O0 here. *)
Definition cross12Jobs (O : order) (n1 n2 : Z) (cats1 cats2 : list patch) : list job3 :=
  flat_map (fun c1 => flat_map (fun c2 =>
    let i := pidx c1 in let j := pidx c2 in
    job12 (i, j, j) (i, j, j) O c1 c2 ((i =? j) || (n1 =? 1) || (n2 =? 1))%Z ::
    map (fun c3 => job123 (i, j, pidx c3) O c1 c2 c3 false)
        (filter (fun c3 => (j <? pidx c3)%Z) (rev cats2))) cats2) cats1.
(** _process_all_cross, 1510-1525. *)
Definition cross3Jobs (O : order) (n1 n2 n3 : Z) (cats1 cats2 cats3 : list patch) : list job3 :=
  flat_map (fun c1 => flat_map (fun c2 => map (fun c3 =>
    let i := pidx c1 in let j := pidx c2 in let k := pidx c3 in
    job123 (i, j, k) O c1 c2 c3
      (((i =? j) && (j =? k)) || (n1 =? 1) || (n2 =? 1) || (n3 =? 1))%Z) cats3) cats2) cats1.

(** ** patch_method='local' *)
(** _make_expanded_patch is taken from Corr2 (1124): only max_sep and the coordinates matter. *)
Definition exp3cfg (R : runcfg3) : runcfg :=
  let P := r3P R in
  mkR (mkC (tmetric P) None (mkB BLog (tminsep P) (tmaxsep P) (tnbins P) (tbinsize P) (tb P) (ta P)))
      (tcoord P) (r3sm R) BruteNo (r3mintop R) (r3maxtop R).
Definition expand3 (R : runcfg3) (c : patch) (cats : list patch) : ocat :=
  expandedPatch (exp3cfg R) (pobjs c) cats.
Definition lkey (p : patch) : key3 := (pidx p, pidx p, pidx p).
(** 1212-1220 *)
Definition local3Auto (R : runcfg3) (cats : list patch) : list job3 :=
  map (fun c => mkJ3 (lkey c) (lkey c) (C12 O1 (catOf c) (expand3 R c cats)) true) cats.
(** 1354-1378 *)
Definition local12 (R : runcfg3) (ordered : bool) (cats1 cats2 : list patch) : list job3 :=
  map (fun c => mkJ3 (lkey c) (lkey c) (C12 O1 (catOf c) (expand3 R c cats2)) true) cats1 ++
  (if ordered then [] else
   map (fun c => mkJ3 (lkey c) (lkey c) (C123 O1 (catOf c) (expand3 R c cats1) (expand3 R c cats2)) true) cats2).
(** 1470-1509; O is O3 (ordered=True), O1 (ordered=1) or O0 (ordered=False). *)
Definition local123 (R : runcfg3) (O : order) (cats1 cats2 cats3 : list patch) : list job3 :=
  let O' := match O with O0 => O1 | _ => O end in
  map (fun c => mkJ3 (lkey c) (lkey c) (C123 O' (catOf c) (expand3 R c cats2) (expand3 R c cats3)) true) cats1 ++
  (match O with
   | O0 =>
     map (fun c => mkJ3 (lkey c) (lkey c) (C123 O1 (catOf c) (expand3 R c cats1) (expand3 R c cats3)) true) cats2 ++
     map (fun c => mkJ3 (lkey c) (lkey c) (C123 O1 (catOf c) (expand3 R c cats1) (expand3 R c cats2)) true) cats3
   | _ => [] end).

(** ** MPI *)
(** is_my_job of _process_all_auto, 1169-1199. *)
Definition mine3Auto (n size rank : Z) (ijk : key3) : bool :=
  let '(i, j, k) := ijk in
  let m := inMine n size rank in
  if m i && m j && m k then true
  else if negb (m i) && negb (m j) && negb (m k) then false
  else ((i mod 3 =? 0) && m i || (i mod 3 =? 1) && m j || (i mod 3 =? 2) && m k)%Z.
(** is_my_job of _process_all_cross12, 1287-1316. *)
Definition mine3Cross12 (n1 n2 size rank : Z) (ijk : key3) : bool :=
  let '(i, j, k) := ijk in
  let n := Z.max n1 n2 in
  let m := inMine n size rank in
  if (n1 =? n)%Z then m i
  else if m j && m k then true
  else if negb (m j) && negb (m k) then false
  else if (k - j <? n / 2)%Z then (j mod 2 =? (if m j then 0 else 1))%Z
  else (k mod 2 =? (if m k then 0 else 1))%Z.
(** is_my_job of _process_all_cross, 1413-1434. *)
Definition mine3Cross (n1 n2 n3 size rank : Z) (ijk : key3) : bool :=
  let '(i, j, k) := ijk in
  let n := Z.max n1 (Z.max n2 n3) in
  inMine n size rank (if (n1 =? n)%Z then i else if (n2 =? n)%Z then j else k).
(** 1263-1275 and the same lines of the other two functions. *)
Definition mpi3Collect (C : pcfg3) (st0 : pstate3) (others : list pstate3) : pstate3 :=
  fold_left (fun a b => mkS3 (k3add (p3P C) (s3self a) (s3self b)) (d3update (s3res a) (s3res b))) others st0.
Definition mpi3Run (C : pcfg3) (mine : Z -> key3 -> bool) (size : Z) (Js : list job3) (final : pstate3) : Prop :=
  exists st : Z -> pstate3,
    (forall r, In r (ranks size) -> runJobs3 C s3clear (filter (fun J => mine r (jmine J)) Js) (st r)) /\
    final = mpi3Collect C (st 0%Z) (map st (tl (ranks size))).

(** ** Sums over stored results *)
(** _sum: nnncorrelation.py:324-349 (and kkkcorrelation.py:276-300, where nothing is left out). *)
Definition k3sum (P : tparams) (l : list corr3) : corr3 :=
  mkK3 (fun f k => sumR (fun c => k3acc c f k) (filter (fun c => anyTri P (k3acc c)) l)) (sumR k3tot l).
(** _jackknife_pairs for an auto-correlation (npatch1 = npatch2 = npatch3), 2305-2308. *)
Definition jackKeys (i : Z) (d : results3) : list key3 :=
  filter (fun q => (negb (fst (fst q) =? i) && negb (snd (fst q) =? i) && negb (snd q =? i))%Z) (map fst d).
Definition getRes3 (d : results3) (q : key3) : corr3 :=
  match d3get q d with Some c => c | None => k3clear end.
Definition jackSum (P : tparams) (i : Z) (d : results3) : corr3 :=
  k3sum P (map (getRes3 d) (jackKeys i d)).

(** ** calculateZeta, nnncorrelation.py:485-530 (LogRUV, LogSAS) *)
Definition zetaOf (ddd rrr : corr3) (others : option (corr3 * corr3)) (k : Z) : R :=
  let w c := k3acc c TWeight k in
  let f c := k3tot ddd / k3tot c in
  let denom := w rrr * f rrr in
  let num := match others with
             | None => w ddd - denom
             | Some (drr, rdd) => w ddd - w rdd * f rdd + w drr * f drr - denom
             end in
  num / (if Req_EM_T (w rrr) 0 then 1 else denom).
