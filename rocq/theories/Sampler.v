(** Model of sample_pairs: src/Corr2.cpp:700-930 (Sampler), 1110-1133 (SamplePairs) and
    treecorr/corr2base.py:1495-1540.

    urand() is a stream of numbers supplied from outside ([us]); a computation that needs more
    numbers than supplied is None.  The C++ reads it one number at a time. *)
From Coq Require Import Reals Lra List ZArith Bool Arith.
From Verif Require Import Base Geometry Tree Traverse Run.
Import ListNotations.
Open Scope R_scope.

(** v[i] = x; outside the vector: no effect in the model (shown not to happen) *)
Fixpoint setAt {A} (i : nat) (x : A) (l : list A) : list A :=
  match l, i with
  | [], _ => []
  | _ :: t, O => x :: t
  | y :: t, S i' => y :: setAt i' x t
  end.
(** std::swap(v[i], v[j]) *)
Definition swapAt {A} (d : A) (i j : nat) (l : list A) : list A :=
  let a := nth i l d in let b := nth j l d in setAt j a (setAt i b l).

(** long j = long(urd * m); if (j == m) j = m-1;  Corr2.cpp:735-737 *)
Definition draw (u : R) (m : nat) : nat :=
  let j := Z.to_nat (trunc (u * INR m)) in if Nat.eqb j m then (m - 1)%nat else j.
(** The while loop of Floyd's algorithm, Corr2.cpp:733-744; [sel] is the part of the selection
    already filled (its elements are the elements of the std::set). *)
Fixpoint floyd (m n : nat) (sel : list nat) (us : list R) : option (list nat * list R) :=
  if Nat.leb n (length sel) then Some (sel, us)
  else match us with
       | [] => None
       | u :: us' => let j := draw u m in
                     if in_dec Nat.eq_dec j sel then floyd m n sel us' else floyd m n (sel ++ [j]) us'
       end.
(** The loop of the Fisher-Yates shuffle, Corr2.cpp:750-756, from i upwards, [c] iterations. *)
Fixpoint fisherYates (m i c : nat) (full : list nat) (us : list R) : option (list nat * list R) :=
  match c with
  | O => Some (full, us)
  | S c' => match us with
            | [] => None
            | u :: us' =>
                let j := (Z.to_nat (trunc (u * INR (m - i))) + i)%nat in
                let j := if Nat.eqb j m then (m - 1)%nat else j in
                fisherYates m (S i) c' (swapAt 0%nat i j full) us'
            end
  end.
(** SelectRandomFrom(m, selection) with selection of size n, Corr2.cpp:719-758 *)
Definition selectRandomFrom (m n : nat) (us : list R) : option (list nat * list R) :=
  if Nat.ltb (3 * n) m then floyd m n [] us
  else match fisherYates m 0 n (seq 0 m) us with
       | Some (full, us') => Some (firstn n full, us')
       | None => None
       end.

(** One sampled pair: _i1[j], _i2[j], _sep[j]. *)
Definition entry := (nat * nat * R)%type.
Record sampler := mkS { s_arr : list entry; s_k : nat }.

(** Case 1, Corr2.cpp:813-835: [ps] are the index pairs in loop order. *)
Fixpoint takeAll (ps : list entry) (s : sampler) : sampler :=
  match ps with
  | [] => s
  | e :: r => takeAll r (mkS (setAt (s_k s) e (s_arr s)) (S (s_k s)))
  end.
(** Case 2, 836-865.  int(urd*(_k+1)): no guard against j = k+1. *)
Fixpoint oneAtATime (n : nat) (ps : list entry) (s : sampler) (us : list R) : option (sampler * list R) :=
  match ps with
  | [] => Some (s, us)
  | e :: r =>
      if Nat.leb n (s_k s)
      then match us with
           | [] => None
           | u :: us' => let j := Z.to_nat (trunc (u * INR (s_k s + 1))) in
                         let arr := if Nat.ltb j n then setAt j e (s_arr s) else s_arr s in
                         oneAtATime n r (mkS arr (S (s_k s))) us'
           end
      else oneAtATime n r (mkS (setAt (s_k s) e (s_arr s)) (S (s_k s))) us
  end.
(** Case 3, 866-929. *)
(** for(i=_k;i<_n;++i) { j = selection[i]; if (j < _n) swap(selection[i], selection[j]); } *)
Fixpoint putBack (n i c : nat) (sel : list nat) : list nat :=
  match c with
  | O => sel
  | S c' => let j := nth i sel 0%nat in
            putBack n (S i) c' (if Nat.ltb j n then swapAt 0%nat i j sel else sel)
  end.
(** std::map<long,long>: association list sorted by key; places[j] = i *)
Fixpoint mapSet (k v : nat) (m : list (nat * nat)) : list (nat * nat) :=
  match m with
  | [] => [(k, v)]
  | (k', v') :: r => if Nat.ltb k k' then (k, v) :: m
                     else if Nat.eqb k k' then (k, v) :: r
                     else (k', v') :: mapSet k v r
  end.
Fixpoint places (k : nat) (i : nat) (sel : list nat) (acc : list (nat * nat)) : list (nat * nat) :=
  match sel with
  | [] => acc
  | j :: r => places k (S i) r (if Nat.leb k j then mapSet j i acc else acc)
  end.
(** The inner double loop over leaf2, q2 for one index1: [i] counts, [nxt] is the rest of the map
    starting at the iterator next.  The bool is "next == places.end(), break". *)
Fixpoint walkRow (row : list entry) (i : nat) (nxt : list (nat * nat)) (arr : list entry)
  : nat * list (nat * nat) * list entry :=
  match row with
  | [] => (i, nxt, arr)
  | e :: r =>
      match nxt with
      | [] => (i, nxt, arr)
      | (key, pl) :: nxt' =>
          let '(nxt1, arr1) := if Nat.eqb i key then (nxt', setAt pl e arr) else (nxt, arr) in
          match nxt1 with
          | [] => (i, nxt1, arr1)
          | _ => walkRow r (S i) nxt1 arr1
          end
      end
  end.
(** The outer double loop over leaf1, q1; [rows] has one row of n2 entries per index1. *)
Fixpoint walkRows (n2 : nat) (rows : list (list entry)) (i : nat) (nxt : list (nat * nat)) (arr : list entry) : list entry :=
  match rows with
  | [] => arr
  | row :: rows' =>
      match nxt with
      | [] => arr
      | (key, _) :: _ =>
          if Nat.ltb (i + n2) key then walkRows n2 rows' (i + n2) nxt arr
          else let '(i1, nxt1, arr1) := walkRow row i nxt arr in
               match nxt1 with
               | [] => arr1
               | _ => walkRows n2 rows' i1 nxt1 arr1
               end
      end
  end.

(** The pairs of a cell pair in loop order (leaf1, q1, leaf2, q2), one row per index1. *)
Definition rowsOf (idx1 idx2 : list nat) (r : R) : list (list entry) :=
  map (fun a => map (fun b => (a, b, r)) idx2) idx1.

(** Sampler::finishProcess, Corr2.cpp:760-930, for cells with indices idx1, idx2 and separation r. *)
Definition sampleFrom (n : nat) (idx1 idx2 : list nat) (r : R) (s : sampler) (us : list R)
  : option (sampler * list R) :=
  let n1 := length idx1 in
  let n2 := length idx2 in
  let m := (n1 * n2)%nat in
  let k := s_k s in
  let rows := rowsOf idx1 idx2 r in
  if Nat.leb (k + m) n then Some (takeAll (concat rows) s, us)
  else if Nat.leb m n then oneAtATime n (concat rows) s us
  else match selectRandomFrom (k + m) n us with
       | None => None
       | Some (sel, us') =>
           let sel := putBack n k (n - k) sel in
           match places k 0 sel [] with
           | [] => Some (mkS (s_arr s) (k + m), us')
           | pls => Some (mkS (walkRows n2 rows k pls (s_arr s)) (k + m), us')
           end
       end.
(** finishProcess on an event of the traversal: n1 = c1.getN() etc.; for trees built by Field these
    are the lengths of the index lists.  "if (r == 0.) r = sqrt(rsq)" is part of directProcess11 in
    the model (er e). *)
Definition sampleEvent (n : nat) (e : event) := sampleFrom n (getAllIndices (ec1 e)) (getAllIndices (ec2 e)) (er e).
Fixpoint sampleEvents (n : nat) (evs : list event) (s : sampler) (us : list R) : option (sampler * list R) :=
  match evs with
  | [] => Some (s, us)
  | e :: r => match sampleEvent n e s us with Some (s', us') => sampleEvents n r s' us' | None => None end
  end.

(** Sampler::Sampler, Corr2.cpp:700-717: only the range is replaced; bin size, number of bins and
    slops stay those of the correlation object. *)
Definition withRange (P : cparams) (mn mx : R) : cparams :=
  let B := cbin P in
  mkC (cmetric P) (crpar P) (mkB (btype B) mn mx (nbins B) (binsize B) (slop_b B) (slop_a B)).
(** SamplePairs, Corr2.cpp:1110-1133, with one thread (1128), on fields built with parameters F1, F2;
    sample_pairs, corr2base.py:1499-1540: the result is the arrays (i1, i2, sep) cut to min(n, ntot),
    and ntot.  sep_units are not modelled. *)
Definition samplePairsWith (F1 F2 : fparams) (P : cparams) (cat1 cat2 : list obj) (n : nat) (mn mx : R)
    (us : list R) (out : list entry) (ntot : nat) : Prop :=
  let P := withRange P mn mx in
  exists cells1 cells2 evs s us', buildField F1 cat1 cells1 /\ buildField F2 cat2 cells2 /\
    (if crossEarlyExit P (fieldCenter F1 cat1) (fieldCenter F2 cat2) (fieldSize F1 cat1) (fieldSize F2 cat2)
     then evs = []
     else map Some evs = crossIters P cells1 cells2) /\
    sampleEvents n (concat evs) (mkS (repeat (0%nat, 0%nat, 0) n) 0) us = Some (s, us') /\
    out = firstn (Nat.min n (s_k s)) (s_arr s) /\ ntot = s_k s.
(** corr2base.py:1494-1516 when the catalogs have no current field (cat.field is None): the fields are
    built for the range of the correlation object, not for [mn, mx].  (When cat.field is not None,
    the existing field is used whatever its min_size and brute were: samplePairsWith.) *)
Definition samplePairs (Q : runcfg) (cat1 cat2 : list obj) : nat -> R -> R -> list R -> list entry -> nat -> Prop :=
  samplePairsWith (fieldParams Q (brute1 (rbrute Q))) (fieldParams Q (brute2 (rbrute Q))) (rP Q) cat1 cat2.
