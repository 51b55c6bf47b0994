(** Model of estimate_multi_cov, build_multi_cov_design_matrix and estimate_cov
    (treecorr/corr2base.py:1305-1310, 1349-1354, 1943-1956, 1993-2005, 2007-2250), for a list of correlation
    objects of any classes. *)
From Coq Require Import Reals List ZArith Bool.
From Verif Require Import Base Geometry Tree Traverse Corr Patch Cov.
Import ListNotations.
Open Scope R_scope.

(** What these functions use of a correlation object.  [o_cur] are the attributes changed by a row;
    [o_step] is _calculate_xi_from_pairs, or _clear when there are no pairs (2044-2054); [o_stat] is
    getStat and [o_wt] getWeight.  [o_keys] says whether results is not empty, [o_npatch] is _get_npatch.
    The pairs of a three-point object are triples; any encoding of them as keys will do. *)
Record cobj := mkObj {
  o_S : Type; o_cur : o_S;
  o_keys : bool; o_npatch : Z; o_num : nat; o_varnum : R;
  o_jack : list (list key); o_sample : list (list key);
  o_boot : list Z -> list key; o_marked : list Z -> list key;
  o_step : o_S -> list key -> o_S; o_stat : o_S -> list cplx; o_wt : o_S -> list R }.
Definition advance (o : cobj) (pairs : list key) : cobj :=
  mkObj (o_S o) (o_step o (o_cur o) pairs) (o_keys o) (o_npatch o) (o_num o) (o_varnum o) (o_jack o) (o_sample o)
    (o_boot o) (o_marked o) (o_step o) (o_stat o) (o_wt o).
Definition getStat (o : cobj) : list cplx := o_stat o (o_cur o).
Definition getWeight (o : cobj) : list R := o_wt o (o_cur o).
(** 2026-2027: the default func. *)
Definition concatStat (os : list cobj) : list cplx := flat_map getStat os.
(** 2056 *)
Definition totWeight (os : list cobj) : R := sumR (fun o => sumR (fun x => x) (getWeight o)) os.
(** 2043: for c, cpairs in zip(corrs, pairs). *)
Fixpoint stepAll (os : list cobj) (pairs : list (list key)) : list cobj :=
  match os, pairs with
  | o :: os', p :: ps => advance o p :: stepAll os' ps
  | _, _ => os
  end.
(** 2007-2057 without MPI (for MPI see C24): rows of v and w. *)
Definition multiDesign (func : list cobj -> list cplx) (os : list cobj) (plist : list (list (list key)))
  : list (list cplx * R) :=
  designSerial ([], 0) stepAll (fun os => (func os, totWeight os)) os plist.
(** plist = list(zip( *plist ))  (2114, 2138): by row. *)
Fixpoint zipRows (pls : list (list (list key))) : list (list (list key)) :=
  match pls with
  | [] => []
  | [l] => map (fun p => [p]) l
  | l :: t => map (fun xy => fst xy :: snd xy) (combine l (zipRows t))
  end.

Inductive cmethod := Shot | Jackknife | Sample | Bootstrap | Marked.
Inductive covres := ValErr | RunErr | IdxErr | Diag (v : list R) | Mat (C : nat -> nat -> cplx).
Definition rowOf (l : list cplx) : vrow := fun a => nth a l (0, 0).

(** _check_patch_nums, 2095-2107. *)
Definition checkPatchNums (os : list cobj) : option covres :=
  if existsb (fun o => negb (o_keys o)) os then Some ValErr
  else match os with
       | [] => Some IdxErr
       | o :: t => if existsb (fun c => negb (o_npatch c =? o_npatch o)%Z) t then Some RunErr else None
       end.
(** 2111-2114, 2135-2138, 2166-2177, 2206-2213.  [draws k] is the k-th selection by corrs[0].rng. *)
Definition plistOf (m : cmethod) (draws : nat -> list Z) (os : list cobj) : list (list (list key)) :=
  let nboot := fold_right Nat.max 0%nat (map o_num os) in
  match m with
  | Shot => []
  | Jackknife => zipRows (map o_jack os)
  | Sample => zipRows (map o_sample os)
  | Bootstrap => map (fun k => map (fun o => o_boot o (draws k)) os) (seq 0 nboot)
  | Marked => map (fun k => map (fun o => o_marked o (draws k)) os) (seq 0 nboot)
  end.
(** _cov_jackknife, _cov_sample, _cov_marked, _cov_bootstrap (Cov.v). *)
Definition covFrom (m : cmethod) (rows : list (list cplx * R)) : covres :=
  let v := map (fun r => rowOf (fst r)) rows in
  match m with
  | Shot => ValErr
  | Jackknife => Mat (covJack v)
  | Sample => match covSample v (map snd rows) with None => RunErr | Some C => Mat C end
  | Bootstrap | Marked => Mat (covBoot v)
  end.
(** estimate_multi_cov, 1943-1956.  (np.concatenate of no arrays is a ValueError, 2090.) *)
Definition estimateMultiCov (m : cmethod) (draws : nat -> list Z) (func : option (list cobj -> list cplx))
    (os : list cobj) : covres :=
  match m with
  | Shot => match func, os with
            | None, _ :: _ => Diag (flat_map (fun o => map (covShot (o_varnum o)) (getWeight o)) os)
            | _, _ => ValErr
            end
  | _ => match checkPatchNums os with
         | Some e => e
         | None => covFrom m (multiDesign (match func with Some f => f | None => concatStat end) os (plistOf m draws os))
         end
  end.
(** estimate_cov, 1305-1310: func acts on the object itself. *)
Definition estimateCov (m : cmethod) (draws : nat -> list Z) (func : option (cobj -> list cplx)) (o : cobj) : covres :=
  estimateMultiCov m draws
    (option_map (fun f os => match os with c :: _ => f c | [] => [] end) func) [o].

(** KK objects: results, npatch1, npatch2, num_bootstrap, _var_num, current arrays. *)
Definition kkObj (B : bparams) (d : dict) (n1 n2 : Z) (nb : nat) (var : R) (s : kkst) : cobj :=
  mkObj kkst s (hasRes d) (Z.max n1 n2) nb var (jackRows n1 n2 (keysOf d)) (sampleRows n1 n2 (keysOf d))
    (fun index => bootPairs n1 n2 index (keysOf d)) (fun index => markedPairs n1 n2 index (keysOf d))
    (kkStep1 d) (fun s => map (fun k => (a_xi_kk (kk_acc s) k, 0)) (bins B)) (fun s => map (a_weight (kk_acc s)) (bins B)).
(** NN objects after calculateXi. *)
Definition nnObj (E : nnenv) (n1 n2 : Z) (nb : nat) (var : R) (s : nnst) : cobj :=
  mkObj nnst s (hasRes (e_res E)) (Z.max n1 n2) nb var (jackRows n1 n2 (keysOf (e_res E))) (sampleRows n1 n2 (keysOf (e_res E)))
    (fun index => bootPairs n1 n2 index (keysOf (e_res E))) (fun index => markedPairs n1 n2 index (keysOf (e_res E)))
    (nnStep1 E) (fun s => map (fun k => (q_xi s k, 0)) (bins (e_B E))) (fun s => map (q_rrw s) (bins (e_B E))).
