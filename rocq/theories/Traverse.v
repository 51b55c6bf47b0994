(** Model of the 2-point traversal: src/Corr2.cpp.

    The side effects of a traversal are the calls to finishProcess; the model returns the list
    of these calls in program order ([event]) and [applyEvents] folds them into the output
    arrays.  [None] models dereferencing a null child (or exhausted fuel); theorems show it
    never happens for trees built by Field. *)
From Coq Require Import Reals Lra List ZArith Bool.
From Verif Require Import Base Geometry Tree.
Import ListNotations.
Open Scope R_scope.

(** Everything that is fixed during a run: metric, rpar limits, binning. *)
Record cparams := mkC { cmetric : metric; crpar : rparlim; cbin : bparams }.

(** Arguments of one finishProcess call (Corr2.cpp:632-662).  [ek2] is meaningful when
    R (reverse) is true. *)
Record event := mkev {
  ec1 : cell; ec2 : cell; er : R; elogr : R; ek : Z; ek2 : option Z }.

(** directProcess11, Corr2.cpp:581-630.  (Assert statements are not active code for the result;
    that k ends up in range is proved, not assumed.) *)
Definition directProcess11 (P : cparams) (rev : bool) (c1 c2 : cell) (rsq : R)
    (k : Z) (r logr : R) : event :=
  let B := cbin P in
  let p1 := getPos c1 in
  let p2 := getPos c2 in
  let '(k, r, logr) :=
    if (k <? 0)%Z
    then let r := sqrt rsq in let logr := ln r in (calculateBinK B p1 p2 r logr, r, logr)
    else (k, r, logr) in
  let k := if (k =? nbins B)%Z then (k - 1)%Z else k in
  let k2 := if rev
            then let k2 := calculateBinK B p2 p1 r logr in
                 Some (if (k2 =? nbins B)%Z then (k2 - 1)%Z else k2)
            else None in
  mkev c1 c2 r logr k k2.

(** What process11 does with a pair of cells before recursing. *)
Inductive verdict :=
  | Drop                                   (* an early return *)
  | Direct (rsq : R) (k : Z) (r logr : R)  (* directProcess11(c1,c2,rsq,k,r,logr) *)
  | Split (split1 split2 : bool).

(** The body of process11 up to the recursive calls, Corr2.cpp:296-351. *)
Definition decide11 (P : cparams) (c1 c2 : cell) : verdict :=
  let B := cbin P in
  let M := cmetric P in
  if Req_EM_T (getW c1) 0 then Drop else
  if Req_EM_T (getW c2) 0 then Drop else
  let p1 := getPos c1 in
  let p2 := getPos c2 in
  let '(s1, s2) := effSize M p1 p2 (getSize c1) (getSize c2) in
  let rsq := distSq M p1 p2 in
  let s1ps2 := eadd s1 s2 in
  if isRParOutsideRange M (crpar P) p1 p2 s1ps2 then Drop else
  if tooSmallDist B rsq s1ps2 && tooSmallM M p1 p2 rsq s1ps2 (minsep B) then Drop else
  if tooLargeDist B rsq s1ps2 && tooLargeM M p1 p2 rsq s1ps2 (fullmaxsep B) then Drop else
  match (if isRParInsideRange M (crpar P) p1 p2 s1ps2
         then singleBin B rsq s1ps2 p1 p2 else None) with
  | Some (k, r, logr) =>
      if isRSqInRange B rsq p1 p2 then Direct rsq k r logr else Drop
  | None => let '(a, b) := calcSplitSq s1 s2 (getEffectiveBSq B rsq) in Split a b
  end.

Definition oapp {A} (a b : option (list A)) : option (list A) :=
  match a, b with Some x, Some y => Some (x ++ y) | _, _ => None end.

(** process11, Corr2.cpp:292-373.  [fuel] bounds the recursion depth. *)
Fixpoint process11 (P : cparams) (rev : bool) (fuel : nat) (c1 c2 : cell)
  : option (list event) :=
  match decide11 P c1 c2 with
  | Drop => Some []
  | Direct rsq k r logr => Some [directProcess11 P rev c1 c2 rsq k r logr]
  | Split split1 split2 =>
      match fuel with
      | O => None
      | S n =>
        if split1 && split2 then
          match getLeft c1, getRight c1, getLeft c2, getRight c2 with
          | Some l1, Some r1, Some l2, Some r2 =>
              oapp (process11 P rev n l1 l2)
             (oapp (process11 P rev n l1 r2)
             (oapp (process11 P rev n r1 l2) (process11 P rev n r1 r2)))
          | _, _, _, _ => None
          end
        else if split1 then
          match getLeft c1, getRight c1 with
          | Some l1, Some r1 => oapp (process11 P rev n l1 c2) (process11 P rev n r1 c2)
          | _, _ => None
          end
        else
          match getLeft c2, getRight c2 with
          | Some l2, Some r2 => oapp (process11 P rev n c1 l2) (process11 P rev n c1 r2)
          | _, _ => None
          end
      end
  end.

Fixpoint depth (c : cell) : nat :=
  match c with Node _ _ l r => S (Nat.max (depth l) (depth r)) | _ => O end.
Definition fuel11 (c1 c2 : cell) : nat := (depth c1 + depth c2)%nat.
Definition run11 (P : cparams) (rev : bool) (c1 c2 : cell) : option (list event) :=
  process11 P rev (fuel11 c1 c2) c1 c2.

(** Test [c12.getSize() <= _halfminsep]. *)
Definition eleb_fin (e : ext) (x : R) : bool :=
  match e with Fin y => Rleb y x | Inf => false end.

(** process2, Corr2.cpp:279-290. *)
Fixpoint process2 (P : cparams) (c12 : cell) : option (list event) :=
  if Req_EM_T (getW c12) 0 then Some [] else
  if eleb_fin (getSize c12) (halfminsep (cbin P)) then Some [] else
  match c12 with
  | Node _ _ l r =>
      oapp (process2 P l) (oapp (process2 P r) (run11 P (do_reverse (cbin P)) l r))
  | _ => None
  end.

(** Iteration i of the loop over top-level cells, auto: Corr2.cpp:174-191. *)
Fixpoint oconcat {A} (l : list (option (list A))) : option (list A) :=
  match l with [] => Some [] | a :: t => oapp a (oconcat t) end.
Definition autoIter (P : cparams) (ci : cell) (later : list cell) : option (list event) :=
  oapp (process2 P ci) (oconcat (map (run11 P (do_reverse (cbin P)) ci) later)).
(** All iterations, one entry per i. *)
Fixpoint autoIters (P : cparams) (cells : list cell) : list (option (list event)) :=
  match cells with
  | [] => []
  | ci :: later => autoIter P ci later :: autoIters P later
  end.
(** Iteration i of the cross loop, Corr2.cpp:253-268. *)
Definition crossIters (P : cparams) (c1list c2list : list cell) : list (option (list event)) :=
  map (fun c1 => oconcat (map (run11 P false c1) c2list)) c1list.

(** The early-exit test at the start of the cross process, Corr2.cpp:209-228. *)
Definition crossEarlyExit (P : cparams) (p1 p2 : pos) (s1 s2 : R) : bool :=
  let B := cbin P in
  let M := cmetric P in
  let '(e1, e2) := effSize M p1 p2 (Fin s1) (Fin s2) in
  let rsq := distSq M p1 p2 in
  let s1ps2 := eadd e1 e2 in
  isRParOutsideRange M (crpar P) p1 p2 s1ps2
  || (tooSmallDist B rsq s1ps2 && tooSmallM M p1 p2 rsq s1ps2 (minsep B))
  || (tooLargeDist B rsq s1ps2 && tooLargeM M p1 p2 rsq s1ps2 (fullmaxsep B)).

(** triviallyZero, Corr2.cpp:686-698. *)
Definition triviallyZero (P : cparams) (p1 p2 : pos) (s1 s2 : R) : bool :=
  let B := cbin P in
  let M := cmetric P in
  let '(e1, e2) := effSize M p1 p2 (Fin s1) (Fin s2) in
  let rsq := distSq M p1 p2 in
  let s1ps2 := eadd e1 e2 in
  tooLargeDist B rsq s1ps2 && tooLargeM M p1 p2 rsq s1ps2 (fullmaxsep B).

(** ** Accumulation *)

(** The output arrays (Corr2.h: _npairs, _weight, _meanr, _meanlogr, _xi) as functions of the
    bin index.  [xi_nk] is the NK accumulator (Corr2.cpp:399-407), [xi_kk] the KK accumulator
    (445-460); a real run fills only one of them. *)
Record accum := mkacc {
  a_npairs : Z -> R; a_weight : Z -> R; a_meanr : Z -> R; a_meanlogr : Z -> R;
  a_xi_nk : Z -> R; a_xi_kk : Z -> R }.

Definition aconst (x : R) : Z -> R := fun _ => x.
(** clear(), Corr2.cpp:135-145 *)
Definition cleared : accum :=
  mkacc (aconst 0) (aconst 0) (aconst 0) (aconst 0) (aconst 0) (aconst 0).
(** arr[k] += v *)
Definition bump (f : Z -> R) (k : Z) (v : R) : Z -> R :=
  fun j => if (j =? k)%Z then f j + v else f j.
Definition bump2 (f : Z -> R) (k : Z) (k2 : option Z) (v : R) : Z -> R :=
  match k2 with None => bump f k v | Some k' => bump (bump f k v) k' v end.

(** finishProcess, Corr2.cpp:632-662, with DirectHelper2<1,NData,KData> (399-407) and
    DirectHelper2<3,KData,KData> (445-460). NK never runs with R = 1. *)
Definition finishProcess (s : accum) (e : event) : accum :=
  let n1 := INR (getN (ec1 e)) in
  let n2 := INR (getN (ec2 e)) in
  let nn := n1 * n2 in
  let ww := getW (ec1 e) * getW (ec2 e) in
  let wkk := dwk (getData (ec1 e)) * dwk (getData (ec2 e)) in
  mkacc (bump2 (a_npairs s) (ek e) (ek2 e) nn)
        (bump2 (a_weight s) (ek e) (ek2 e) ww)
        (bump2 (a_meanr s) (ek e) (ek2 e) (ww * er e))
        (bump2 (a_meanlogr s) (ek e) (ek2 e) (ww * elogr e))
        (bump (a_xi_nk s) (ek e) (getW (ec1 e) * dwk (getData (ec2 e))))
        (bump2 (a_xi_kk s) (ek e) (ek2 e) wkk).
Definition applyEvents (s : accum) (l : list event) : accum := fold_left finishProcess l s.

(** operator+=, Corr2.cpp:675-684 (addData). *)
Definition accAdd (s t : accum) : accum :=
  mkacc (fun k => a_npairs s k + a_npairs t k) (fun k => a_weight s k + a_weight t k)
        (fun k => a_meanr s k + a_meanr t k) (fun k => a_meanlogr s k + a_meanlogr t k)
        (fun k => a_xi_nk s k + a_xi_nk t k) (fun k => a_xi_kk s k + a_xi_kk t k).

(** One OpenMP thread: a cleared duplicate (Corr2.cpp:163, 102-117) that runs some of the
    iterations in some order. *)
Definition threadRun (iters : list (list event)) : accum :=
  fold_left applyEvents iters cleared.
(** The whole parallel region: each thread's private result is added to the shared object in the
    critical section (Corr2.cpp:192-197, 269-274), in the order given by [threads]. *)
Definition parallelRun (s0 : accum) (threads : list (list (list event))) : accum :=
  fold_left (fun s th => accAdd s (threadRun th)) threads s0.

(** [schedule iters threads]: threads is a way of distributing the iterations over threads
    (omp for schedule(dynamic)): every iteration is run exactly once, by one thread. *)
Definition schedule {A} (iters : list A) (threads : list (list A)) : Prop :=
  Permutation.Permutation iters (concat threads).

(** BaseCorr2::process (auto), Corr2.cpp:146-200: all possible final states. *)
Definition processAuto (P : cparams) (cells : list cell) (s0 s1 : accum) : Prop :=
  exists evs threads,
    map Some evs = autoIters P cells /\ schedule evs threads /\ s1 = parallelRun s0 threads.
(** BaseCorr2::process (cross), Corr2.cpp:202-277. [ctr1],[sz1] etc. are the field centres and
    sizes used for the early exit. *)
Definition processCross (P : cparams) (ctr1 ctr2 : pos) (sz1 sz2 : R)
    (cells1 cells2 : list cell) (s0 s1 : accum) : Prop :=
  if crossEarlyExit P ctr1 ctr2 sz1 sz2 then s1 = s0
  else exists evs threads,
    map Some evs = crossIters P cells1 cells2 /\ schedule evs threads /\
    s1 = parallelRun s0 threads.
