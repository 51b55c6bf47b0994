(** Model of NNNCorrelation.calculateZeta and _calculate_xi_from_pairs with patches,
    treecorr/nnncorrelation.py:485-648, with the lists of patch triples of corr3base.py:2274-2415 and
    the rows of the design matrix (corr2base.py:2037-2060).

    Simplifications: bin_type is not LogMultipole; the mean separations set by _finalize, the shot
    noise values and logging are left out; _ok is computed from the results (not cached); looking up
    _ok outside its shape is taken as False. *)
From Coq Require Import Reals List ZArith Bool.
From Verif Require Import Base Geometry Tree Traverse Run Corr Patch Cov Comp Corr3 Patch3.
Import ListNotations.
Open Scope R_scope.

(** An NNNCorrelation after process(): its arrays and tot, results, npatch1, npatch2, npatch3. *)
Record nnn := mkN3 { n_corr : corr3; n_res : results3; n_n1 : Z; n_n2 : Z; n_n3 : Z }.
Definition keys3 (d : results3) : list key3 := map fst d.
Definition ok3 (keys : list key3) (q : key3) : bool := existsb (k3eqb q) keys.

(** ** Lists of patch triples *)
Definition c1 (q : key3) : Z := fst (fst q).
Definition c2 (q : key3) : Z := snd (fst q).
Definition c3 (q : key3) : Z := snd q.
(** _jackknife_pairs, 2274-2308: the triples of row i *)
Definition jack3 (n1 n2 n3 i : Z) (keys : list key3) : list key3 :=
  filter (fun q =>
    if (n3 =? 1)%Z then
      if (n2 =? 1)%Z then negb (c1 q =? i)%Z
      else if (n1 =? 1)%Z then negb (c2 q =? i)%Z
      else negb (c1 q =? i)%Z && negb (c2 q =? i)%Z
    else if (n2 =? 1)%Z then
      if (n1 =? 1)%Z then negb (c3 q =? i)%Z else negb (c1 q =? i)%Z && negb (c3 q =? i)%Z
    else if (n1 =? 1)%Z then negb (c2 q =? i)%Z && negb (c3 q =? i)%Z
    else negb (c1 q =? i)%Z && negb (c2 q =? i)%Z && negb (c3 q =? i)%Z) keys.
(** _sample_pairs, 2310-2344 *)
Definition sample3 (n1 n2 n3 i : Z) (keys : list key3) : list key3 :=
  filter (fun q =>
    if (n3 =? 1)%Z then
      if (n2 =? 1)%Z then (c1 q =? i)%Z
      else if (n1 =? 1)%Z then (c2 q =? i)%Z else (c1 q =? i)%Z
    else if (n2 =? 1)%Z then
      if (n1 =? 1)%Z then (c3 q =? i)%Z else (c1 q =? i)%Z
    else if (n1 =? 1)%Z then (c2 q =? i)%Z
    else (c1 q =? i)%Z) keys.
(** the number of rows: range(self.npatch1) etc. *)
Definition rows3 (n1 n2 n3 : Z) : list Z :=
  zrange (if (n1 =? 1)%Z then if (n2 =? 1)%Z then if (n3 =? 1)%Z then n1 else n3 else n2 else n1).
(** _marked_pairs, 2353-2382 *)
Definition marked3 (n1 n2 n3 : Z) (idx : list Z) (keys : list key3) : list key3 :=
  filter (ok3 keys)
    (if (n3 =? 1)%Z then
       if (n2 =? 1)%Z then map (fun i => (i, 0, 0)%Z) idx
       else if (n1 =? 1)%Z then map (fun i => (0, i, 0)%Z) idx
       else flat_map (fun i => map (fun j => (i, j, 0)%Z) (zrange n2)) idx
     else if (n2 =? 1)%Z then
       if (n1 =? 1)%Z then map (fun i => (0, 0, i)%Z) idx
       else flat_map (fun i => map (fun j => (i, 0%Z, j)) (zrange n3)) idx
     else if (n1 =? 1)%Z then flat_map (fun i => map (fun j => (0%Z, i, j)) (zrange n3)) idx
     else flat_map (fun i => flat_map (fun j => map (fun k => (i, j, k)) (zrange n3)) (zrange n2)) idx).
(** _bootstrap_pairs, 2384-2420 *)
Definition boot2 (mk : Z -> Z -> key3) (idx : list Z) (keys : list key3) : list key3 :=
  flat_map (fun i => flat_map (fun j =>
    if ok3 keys (mk i j) && negb (i =? j)%Z then [mk i j] else []) idx) idx.
Definition boot3 (n1 n2 n3 : Z) (idx : list Z) (keys : list key3) : list key3 :=
  if (n3 =? 1)%Z then
    if (n2 =? 1)%Z then filter (ok3 keys) (map (fun i => (i, 0, 0)%Z) idx)
    else if (n1 =? 1)%Z then filter (ok3 keys) (map (fun i => (0, i, 0)%Z) idx)
    else filter (ok3 keys) (map (fun i => (i, i, 0)%Z) idx) ++ boot2 (fun i j => (i, j, 0)%Z) idx keys
  else if (n2 =? 1)%Z then
    if (n1 =? 1)%Z then filter (ok3 keys) (map (fun i => (0, 0, i)%Z) idx)
    else filter (ok3 keys) (map (fun i => (i, 0%Z, i)) idx) ++ boot2 (fun i j => (i, 0%Z, j)) idx keys
  else if (n1 =? 1)%Z then
    filter (ok3 keys) (map (fun i => (0%Z, i, i)) idx) ++ boot2 (fun i j => (0%Z, i, j)) idx keys
  else
    filter (ok3 keys) (map (fun i => (i, i, i)) idx) ++
    boot2 (fun i j => (i, i, j)) idx keys ++
    boot2 (fun i j => (i, j, i)) idx keys ++
    boot2 (fun i j => (j, i, i)) idx keys ++
    flat_map (fun i => flat_map (fun j => if (i =? j)%Z then [] else
      flat_map (fun k => if ok3 keys (i, j, k) && (negb (i =? k)%Z && negb (j =? k)%Z) then [(i, j, k)] else [])
        idx) idx) idx.

(** ** Sums; None models the KeyError of self.results[ij] *)
Fixpoint lookup3 (d : results3) (pairs : list key3) : option (list corr3) :=
  match pairs with
  | [] => Some []
  | q :: t => match d3get q d, lookup3 d t with Some c, Some l => Some (c :: l) | _, _ => None end
  end.
Definition sum3Of (P : tparams) (d : results3) (pairs : list key3) : option corr3 :=
  option_map (k3sum P) (lookup3 d pairs).

(** ** _calculate_xi_from_pairs, 588-648 *)
Definition hasRes3 (d : results3) : bool := match d with [] => false | _ => true end.
Definition allEq (q : key3) : bool := (c1 q =? c2 q)%Z && (c2 q =? c3 q)%Z.
(** tot**(1/3) *)
Definition cbrt (x : R) : R := if Req_EM_T x 0 then 0 else Rpower x (1/3).
(** 609-620 *)
Definition areaTot3 (d : results3) (pairs : list key3) : R :=
  let rt q := cbrt (k3tot (getRes3 d q)) in
  sumR (fun e => k3tot (snd e)) d *
  (sumR rt (filter allEq pairs) / sumR rt (filter allEq (keys3 d))).
Definition rrrTerm (P : tparams) (d : results3) (ddd : corr3) (rrr : nnn) (pairs : list key3) : option (corr3 * R) :=
  if hasRes3 (n_res rrr) then
    option_map (fun c => (c, k3tot ddd)) (sum3Of P (n_res rrr) (filter (ok3 (keys3 (n_res rrr))) pairs))
  else Some (n_corr rrr, areaTot3 d pairs).
Definition drrPairs (drr : nnn) (pairs : list key3) : list key3 :=
  if (n_n2 drr =? 1)%Z then map (fun q => (c1 q, 0, 0)%Z) (filter allEq pairs)
  else filter (ok3 (keys3 (n_res drr))) pairs.
Definition rddPairs (rdd : nnn) (pairs : list key3) : list key3 :=
  if (n_n1 rdd =? 1)%Z && negb (forallb (fun q => (c1 q =? 0)%Z) pairs)
  then map (fun q => (0%Z, c2 q, c3 q)) (filter (fun q => (c1 q =? c2 q)%Z || (c1 q =? c3 q)%Z) pairs)
  else filter (ok3 (keys3 (n_res rdd))) pairs.
(** 627-648; [tot]: ddd_tot.  The results are zeta and _rrr_weight. *)
Definition zetaRow (ddd : corr3) (tot : R) (rrr : corr3) (others : option (corr3 * corr3)) : (Z -> R) * (Z -> R) :=
  let w c := k3acc c TWeight in
  let f c := tot / k3tot c in
  let denom k := w rrr k * f rrr in
  let num k := match others with
               | None => w ddd k - denom k
               | Some (drr, rdd) => w ddd k - w rdd k * f rdd + w drr k * f drr - denom k
               end in
  let denom' k := if Req_EM_T (denom k) 0 then 1 else denom k in
  (fun k => num k / denom' k, denom').
(** The state that is reused for all rows: arrays and tot, zeta, _rrr_weight. *)
Record z3st := mkZ3 { q3_corr : corr3; q3_zeta : Z -> R; q3_rrw : Z -> R }.
Definition zetaFrom (P : tparams) (d : results3) (rrr : nnn) (others : option (nnn * nnn)) (pairs : list key3)
  : option z3st :=
  match sum3Of P d pairs with
  | None => None
  | Some ddd =>
      match rrrTerm P d ddd rrr pairs with
      | None => None
      | Some (r, tot) =>
          match others with
          | None => let (z, w) := zetaRow ddd tot r None in Some (mkZ3 ddd z w)
          | Some (drr, rdd) =>
              match sum3Of P (n_res drr) (drrPairs drr pairs), sum3Of P (n_res rdd) (rddPairs rdd pairs) with
              | Some x, Some y => let (z, w) := zetaRow ddd tot r (Some (x, y)) in Some (mkZ3 ddd z w)
              | _, _ => None
              end
          end
      end
  end.

(** ** calculateZeta, 485-586 *)
(** The dummy results, 556-581: _zero_copy(0) for every triple of the randoms that the data lack. *)
Definition addZero (d : results3) (keys : list key3) : results3 :=
  fold_left (fun d q => if ok3 (keys3 d) q then d else d ++ [(q, k3clear)]) keys d.
Definition patchesOK (ddd rrr : nnn) (others : option (nnn * nnn)) : bool :=
  ((n_n1 rrr =? 1) || (n_n1 rrr =? n_n1 ddd))%Z &&
  match others with
  | None => true
  | Some (drr, rdd) =>
      hasRes3 (n_res drr) && (n_n1 drr =? n_n1 ddd)%Z && ((n_n2 drr =? n_n2 ddd)%Z || (n_n2 drr =? 1)%Z) &&
      (hasRes3 (n_res rdd) && (n_n2 rdd =? n_n2 ddd)%Z && ((n_n1 rdd =? n_n1 ddd)%Z || (n_n1 rdd =? 1)%Z))
  end.
Definition withDummies (ddd rrr : nnn) (others : option (nnn * nnn)) : results3 :=
  let d1 := if (n_n1 rrr =? 1)%Z then n_res ddd else addZero (n_res ddd) (keys3 (n_res rrr)) in
  match others with
  | None => d1
  | Some (drr, rdd) =>
      let d2 := if (n_n2 drr =? 1)%Z then d1 else addZero d1 (keys3 (n_res drr)) in
      if (n_n1 rdd =? 1)%Z then d2 else addZero d2 (keys3 (n_res rdd))
  end.
(** None: the ValueError for tot=0 or the RuntimeError for different patches.  The result: zeta and
    self.results (the object itself keeps its arrays). *)
Definition calcZeta (ddd rrr : nnn) (others : option (nnn * nnn)) : option ((Z -> R) * results3) :=
  let t c := k3tot (n_corr c) in
  let zero := match others with
              | None => Reqb (t rrr) 0
              | Some (drr, rdd) => Reqb (t rrr) 0 || (Reqb (t drr) 0 || Reqb (t rdd) 0)
              end in
  let o := option_map (fun p => (n_corr (fst p), n_corr (snd p))) others in
  if zero then None
  else match n_res ddd with
       | [] => Some (zetaOf (n_corr ddd) (n_corr rrr) o, [])
       | _ => if patchesOK ddd rrr others
              then Some (zetaOf (n_corr ddd) (n_corr rrr) o, withDummies ddd rrr others) else None
       end.
(** The rows of the design matrix; a row without triples calls _clear (nnncorrelation.py:320-322), which
    clears the arrays and tot but neither zeta nor _rrr_weight. *)
Definition zetaStep (P : tparams) (d : results3) (rrr : nnn) (others : option (nnn * nnn)) (st : z3st)
    (pairs : list key3) : option z3st :=
  match pairs with
  | [] => Some (mkZ3 k3clear (q3_zeta st) (q3_rrw st))
  | _ => zetaFrom P d rrr others pairs
  end.
Fixpoint zetaRows (P : tparams) (d : results3) (rrr : nnn) (others : option (nnn * nnn)) (st : z3st)
    (plist : list (list key3)) : option (list z3st) :=
  match plist with
  | [] => Some []
  | p :: t =>
      match zetaStep P d rrr others st p with
      | None => None
      | Some s => option_map (cons s) (zetaRows P d rrr others s t)
      end
  end.
(** varzeta for var_method='jackknife' (583-585, corr2base.py:2182-2195); [z0]: the object's zeta and
    _rrr_weight before the first row. *)
Definition zetaVar (P : tparams) (d : results3) (ddd rrr : nnn) (others : option (nnn * nnn)) (z0 w0 : Z -> R)
  : option (Z -> R) :=
  let n1 := n_n1 ddd in let n2 := n_n2 ddd in let n3 := n_n3 ddd in
  option_map (fun rows k => jackVar (map (fun s => q3_zeta s k) rows))
    (zetaRows P d rrr others (mkZ3 (n_corr ddd) z0 w0)
       (map (fun i => jack3 n1 n2 n3 i (keys3 d)) (rows3 n1 n2 n3))).
