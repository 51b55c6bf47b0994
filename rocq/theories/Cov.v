(** Model of the covariance estimation: treecorr/corr2base.py:1544-1692, 2007-2250,
    nncorrelation.py:441-509. *)
From Coq Require Import Reals List ZArith Bool.
From Verif Require Import Base Geometry Tree Traverse Corr Patch.
Import ListNotations.
Open Scope R_scope.

(** ** Which patch pairs are used *)
(** JackknifePairIterator, 1596-1608.  (With n1, n2 both different from 1 the code asserts n1 = n2.) *)
Definition jackPairs (n1 n2 i : Z) (keys : list key) : list key :=
  if (n2 =? 1)%Z then filter (fun jk => negb (fst jk =? i)%Z) keys
  else if (n1 =? 1)%Z then filter (fun jk => negb (snd jk =? i)%Z) keys
  else filter (fun jk => negb (fst jk =? i)%Z && negb (snd jk =? i)%Z) keys.
(** SamplePairIterator, 1615-1635 *)
Definition samplePairs (n1 n2 i : Z) (keys : list key) : list key :=
  if (n2 =? 1)%Z then filter (fun jk => (fst jk =? i)%Z) keys
  else if (n1 =? 1)%Z then filter (fun jk => (snd jk =? i)%Z) keys
  else filter (fun jk => (fst jk =? i)%Z) keys.
Definition zrange (n : Z) : list Z := map Z.of_nat (seq 0 (Z.to_nat n)).
(** _jackknife_pairs 1610-1613, _sample_pairs 1637-1640 *)
Definition npatchOf (n1 n2 : Z) : Z := if (n1 =? 1)%Z then n2 else n1.
Definition jackRows (n1 n2 : Z) (keys : list key) : list (list key) :=
  map (fun i => jackPairs n1 n2 i keys) (zrange (npatchOf n1 n2)).
Definition sampleRows (n1 n2 : Z) (keys : list key) : list (list key) :=
  map (fun i => samplePairs n1 n2 i keys) (zrange (npatchOf n1 n2)).
(** _ok, 1642-1649 *)
Definition okKey (keys : list key) (k : key) : bool := existsb (keqb k) keys.
(** MarkedPairIterator, 1651-1660; [index] is the list of resampled patches. *)
Definition markedPairs (n1 n2 : Z) (index : list Z) (keys : list key) : list key :=
  if (n2 =? 1)%Z then filter (okKey keys) (map (fun i => (i, 0%Z)) index)
  else if (n1 =? 1)%Z then filter (okKey keys) (map (fun i => (0%Z, i)) index)
  else filter (okKey keys) (flat_map (fun i => map (fun j => (i, j)) (zrange n2)) index).
(** BootstrapPairIterator, 1665-1689 *)
Definition bootPairs (n1 n2 : Z) (index : list Z) (keys : list key) : list key :=
  if (n2 =? 1)%Z then filter (okKey keys) (map (fun i => (i, 0%Z)) index)
  else if (n1 =? 1)%Z then filter (okKey keys) (map (fun i => (0%Z, i)) index)
  else filter (okKey keys) (map (fun i => (i, i)) index) ++
       filter (fun ij => okKey keys ij && negb (fst ij =? snd ij)%Z)
              (flat_map (fun i => map (fun j => (i, j)) index) index).

(** ** Summing stored results *)
Definition keysOf (d : dict) : list key := map fst d.
(** [self.results[ij] for ij in pairs]; None models the KeyError. *)
Fixpoint lookup (d : dict) (pairs : list key) : option (list corr) :=
  match pairs with
  | [] => Some []
  | ij :: t => match dget ij d, lookup d t with Some c, Some l => Some (c :: l) | _, _ => None end
  end.
Definition sumPairsOf (B : bparams) (d : dict) (pairs : list key) : option corr :=
  match lookup d pairs with Some l => Some (ksum B l) | None => None end.

(** ** NNCorrelation._calculate_xi_from_pairs, nncorrelation.py:441-509.
    A random correlation: its own arrays (used when it has no patch results) and its results.
    (Only tot and weight matter; the mean separations recomputed by _finalize are not kept.) *)
Record rand := mkRand { r_corr : corr; r_res : dict; r_n1 : Z; r_n2 : Z }.
Record nnenv := mkEnv { e_B : bparams; e_res : dict; e_rr : rand; e_dr : option rand; e_rd : option rand }.
(** state of the NN object that is reused for all rows: arrays and tot, xi, _rr_weight *)
Record nnst := mkNN { q_corr : corr; q_xi : Z -> R; q_rrw : Z -> R }.

Definition hasRes (d : dict) : bool := match d with [] => false | _ => true end.
Definition diag (pairs : list key) : list key := filter (fun ij => (fst ij =? snd ij)%Z) pairs.
(** 453-467 *)
Definition areaTot (d : dict) (pairs : list key) : R :=
  let rt k := match dget k d with Some c => sqrt (ktot c) | None => 0 end in
  sumR (fun kv => ktot (snd kv)) d * (sumR rt (diag pairs) / sumR rt (diag (keysOf d))).
(** One random term: the summed (or fixed) correlation. *)
Definition rrTerm (E : nnenv) (c : corr) (pairs : list key) : option (corr * R) :=
  if hasRes (r_res (e_rr E)) then
    match sumPairsOf (e_B E) (r_res (e_rr E)) (filter (okKey (keysOf (r_res (e_rr E)))) pairs) with
    | Some rr => Some (rr, ktot c)
    | None => None
    end
  else Some (r_corr (e_rr E), areaTot (e_res E) pairs).
Definition drTerm (E : nnenv) (r : option rand) (pairs : list key) : option (option corr) :=
  match r with
  | None => Some None
  | Some r =>
      let pairs2 := if (r_n2 r =? 1)%Z then map (fun ij => (fst ij, 0%Z)) (diag pairs)
                    else filter (okKey (keysOf (r_res r))) pairs in
      option_map Some (sumPairsOf (e_B E) (r_res r) pairs2)
  end.
Definition rdTerm (E : nnenv) (r : option rand) (pairs : list key) : option (option corr) :=
  match r with
  | None => Some None
  | Some r =>
      let pairs3 := if (r_n1 r =? 1)%Z && negb (forallb (fun p => (fst p =? 0)%Z) pairs)
                    then map (fun ij => (0%Z, snd ij)) (diag pairs)
                    else filter (okKey (keysOf (r_res r))) pairs in
      option_map Some (sumPairsOf (e_B E) (r_res r) pairs3)
  end.
Definition xiFrom (dd : corr) (dd_tot : R) (rr : corr) (dr rd : option corr) : (Z -> R) * (Z -> R) :=
  let f (c : corr) := dd_tot / ktot c in
  let w (c : corr) := a_weight (kacc c) in
  let denom k := w rr k * f rr in
  let num k :=
    match dr, rd with
    | None, None => w dd k - denom k
    | None, Some rd => w dd k - 2 * w rd k * f rd + denom k
    | Some dr, None => w dd k - 2 * w dr k * f dr + denom k
    | Some dr, Some rd => w dd k - w dr k * f dr - w rd k * f rd + denom k
    end in
  let denom' k := if Req_EM_T (denom k) 0 then 1 else denom k in
  (fun k => num k / denom' k, denom').
Definition calcFromPairs (E : nnenv) (pairs : list key) : option nnst :=
  match sumPairsOf (e_B E) (e_res E) pairs with
  | None => None
  | Some c =>
      match rrTerm E c pairs, drTerm E (e_dr E) pairs, rdTerm E (e_rd E) pairs with
      | Some (rr, tot), Some dr, Some rd =>
          let (xi, rrw) := xiFrom c tot rr dr rd in Some (mkNN c xi rrw)
      | _, _, _ => None
      end
  end.

(** ** The design matrix, corr2base.py:2007-2077.
    [step] is what a row does to the (copied) correlation objects, [stat] and [wt] read the row of
    v and w from them; the objects are reused from row to row. *)
Definition coreRow (n : nat) (size rank : Z) : bool := (Z.of_nat n mod size =? rank)%Z.
Fixpoint designCore {S V : Type} (zero : V) (step : S -> list (list key) -> S) (read : S -> V)
    (size rank : Z) (n : nat) (st : S) (plist : list (list (list key))) : list V :=
  match plist with
  | [] => []
  | pairs :: t =>
      if coreRow n size rank then
        let st' := step st pairs in
        read st' :: designCore zero step read size rank (Datatypes.S n) st' t
      else zero :: designCore zero step read size rank (Datatypes.S n) st t
  end.
(** Without MPI: rank 0 of 1. *)
Definition designSerial {S V : Type} (zero : V) (step : S -> list (list key) -> S) (read : S -> V)
    (st : S) (plist : list (list (list key))) : list V := designCore zero step read 1 0 0 st plist.
(** With MPI: every rank fills its rows, Allreduce adds them. *)
Definition designMpi {S V : Type} (zero : V) (step : S -> list (list key) -> S) (read : S -> V)
    (add : V -> V -> V) (size : Z) (st : S) (plist : list (list (list key))) : list V :=
  fold_right (fun r acc => map (fun ab => add (fst ab) (snd ab))
                             (combine (designCore zero step read size r 0 st plist) acc))
    (map (fun _ => zero) plist) (ranks size).

(** The rows for a list of NN objects (each with its randoms).  An empty list of pairs calls
    NNCorrelation._clear (nncorrelation.py:214-218), which clears the arrays and tot but neither xi
    nor _rr_weight.  KeyErrors are not modelled here (see lookup_some). *)
Definition nnStep1 (E : nnenv) (st : nnst) (pairs : list key) : nnst :=
  match pairs with
  | [] => mkNN kclear (q_xi st) (q_rrw st)
  | _ => match calcFromPairs E pairs with Some s => s | None => st end
  end.
Fixpoint zipWith3 {A B C D} (f : A -> B -> C -> D) (a : list A) (b : list B) (c : list C) : list D :=
  match a, b, c with
  | x :: a, y :: b, z :: c => f x y z :: zipWith3 f a b c
  | _, _, _ => []
  end.
Definition nnStep (Es : list nnenv) (sts : list nnst) (pairs : list (list key)) : list nnst :=
  zipWith3 nnStep1 Es sts pairs.
(** getStat / getWeight of the objects, concatenated (row of v; the total weight is the row of w) *)
Definition nnStat (B : bparams) (sts : list nnst) : list R :=
  flat_map (fun s => map (q_xi s) (bins B)) sts.
Definition nnWeight (B : bparams) (sts : list nnst) : R :=
  sumR (fun s => sumR (q_rrw s) (bins B)) sts.

(** KK (and the other classes with _xi1 arrays): kkcorrelation.py:166-184.  _clear clears
    everything. *)
Record kkst := mkKK { kk_acc : accum }.
Definition kkFinal (s : accum) : accum :=
  mkacc (a_npairs s) (a_weight s) (a_meanr s) (a_meanlogr s) (a_xi_nk s) (finalXi (a_xi_kk s) s).
Definition kkStep1 (d : dict) (st : kkst) (pairs : list key) : kkst :=
  match pairs with
  | [] => mkKK cleared
  | _ => match lookup d pairs with
         | Some l => mkKK (kkFinal (accSum (map kacc l)))
         | None => st
         end
  end.
Definition kkStep (ds : list dict) (sts : list kkst) (pairs : list (list key)) : list kkst :=
  zipWith3 kkStep1 ds sts pairs.
Definition kkStat (B : bparams) (sts : list kkst) : list R :=
  flat_map (fun s => map (a_xi_kk (kk_acc s)) (bins B)) sts.
Definition kkWeight (B : bparams) (sts : list kkst) : R :=
  sumR (fun s => sumR (a_weight (kk_acc s)) (bins B)) sts.

(** ** The covariance matrix from the design matrix.  Entries are complex numbers (re, im). *)
Definition cplx := (R * R)%type.
Definition cadd (a b : cplx) : cplx := (fst a + fst b, snd a + snd b).
Definition csub (a b : cplx) : cplx := (fst a - fst b, snd a - snd b).
Definition cmul (a b : cplx) : cplx := (fst a * fst b - snd a * snd b, fst a * snd b + snd a * fst b).
Definition cconj (a : cplx) : cplx := (fst a, - snd a).
Definition cscal (x : R) (a : cplx) : cplx := (x * fst a, x * snd a).
Definition csum {A} (f : A -> cplx) (l : list A) : cplx := (sumR (fun x => fst (f x)) l, sumR (fun x => snd (f x)) l).
(** A row is indexed by the position in the data vector. *)
Definition vrow := nat -> cplx.
(** np.mean(v, axis=0); v -= vmean *)
Definition vmean (v : list vrow) (a : nat) : cplx := cscal (/ INR (length v)) (csum (fun r => r a) v).
Definition centred (v : list vrow) : list vrow := map (fun (r : vrow) (a : nat) => csub (r a) (vmean v a)) v.
(** v.conj().T.dot(v) *)
Definition gram (v : list vrow) (a b : nat) : cplx := csum (fun r => cmul (cconj (r a)) (r b)) v.
Definition covJack (v : list vrow) (a b : nat) : cplx := cscal (1 - 1 / INR (length v)) (gram (centred v) a b).
(** _cov_bootstrap and _cov_marked *)
Definition covBoot (v : list vrow) (a b : nat) : cplx := cscal (1 / (INR (length v) - 1)) (gram (centred v) a b).
(** _cov_sample: the weights are divided by their sum; None models the RuntimeError for a patch
    without weight. *)
Definition covSample (v : list vrow) (w : list R) : option (nat -> nat -> cplx) :=
  if existsb (fun x => Reqb x 0) w then None else
  let tot := sumR (fun x => x) w in
  Some (fun a b => cscal (1 / (INR (length v) - 1))
    (csum (fun rw : vrow * R => cmul (cscal (snd rw / tot) (cconj (fst rw a))) (fst rw b)) (combine (centred v) w))).
(** _cov_shot, one object *)
Definition covShot (var_num : R) (w : R) : R := if Req_EM_T w 0 then w else var_num / w.
