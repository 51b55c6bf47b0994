(** Model of the processing of the input columns by Catalog (treecorr/catalog.py): row selection,
    flags, NaNs, zero weights, select, combine, and the variance computations. *)
From Coq Require Import Reals Lra Lia List ZArith Bool.
From Verif Require Import Base Geometry Tree Traverse.
Import ListNotations.
Open Scope R_scope.

(** A float of an input column. *)
Inductive fl := NaN | Num (x : R).
Definition isnan (v : fl) : bool := match v with NaN => true | Num _ => false end.
Definition iszero (v : fl) : bool := match v with NaN => false | Num x => if Req_EM_T x 0 then true else false end.
(** A row: the columns x,y,z,ra,dec,r,k,z1,...,q2 that were given, in the order of the checkForNaN
    calls; w, wpos and flag (meaningful only if the catalog has these columns).  All columns have the
    same length (checked in the constructor, catalog.py:959-1000), so the columns are stored row-wise. *)
Record row := mkrow { rcols : list fl; rw : fl; rwpos : fl; rflag : Z }.
Record rawcat := mkraw { has_w : bool; has_wpos : bool; has_flag : bool; rrows : list row }.

(** makeArray, catalog.py:1619-1641: col[start:end:every_nth]; first_row/last_row/every_nth 811-829. *)
Fixpoint everyNth {A} (n skip : nat) (l : list A) : list A :=
  match l with
  | [] => []
  | a :: t => match skip with O => a :: everyNth n (n - 1) t | S s => everyNth n s t end
  end.
Definition sliceRows {A} (start : nat) (stop : option nat) (n : nat) (l : list A) : list A :=
  everyNth n 0 (skipn start (match stop with None => l | Some e => firstn e l end)).

Definition setw (v : fl) (r : row) : row := mkrow (rcols r) v (rwpos r) (rflag r).
Definition setwpos (v : fl) (r : row) : row := mkrow (rcols r) (rw r) v (rflag r).
Definition withRows (c : rawcat) (l : list row) : rawcat := mkraw (has_w c) (has_wpos c) (has_flag c) l.
(** "if self._w is None: self._w = np.ones_like(...)". *)
Definition ensureW (c : rawcat) : rawcat :=
  if has_w c then c else mkraw true (has_wpos c) (has_flag c) (map (setw (Num 1)) (rrows c)).

(** "Convert the flag to a weight", catalog.py:1347-1360; ign is the ignore_flag. *)
Definition ignoreFlag (ignore_flag : option Z) (ok_flag : Z) : Z :=
  match ignore_flag with Some f => f | None => Z.lnot ok_flag end.
Definition applyFlag (ign : Z) (c : rawcat) : rawcat :=
  if has_flag c then
    let c1 := ensureW c in
    withRows c1 (map (fun r => if (Z.land (rflag r) ign =? 0)%Z then r
                               else let r1 := setw (Num 0) r in
                                    if has_wpos c1 then setwpos (Num 0) r1 else r1) (rrows c1))
  else c.

(** checkForNaN, catalog.py:1643-1662, on data column j, on w and on wpos. *)
Fixpoint zeroAt (j : nat) (l : list fl) : list fl :=
  match l, j with
  | [], _ => []
  | _ :: t, O => Num 0 :: t
  | v :: t, S j => v :: zeroAt j t
  end.
Definition colNaN (j : nat) (r : row) : bool := isnan (nth j (rcols r) (Num 0)).
Definition checkCol (c : rawcat) (j : nat) : rawcat :=
  if existsb (colNaN j) (rrows c) then
    let c1 := ensureW c in
    withRows c1 (map (fun r => if colNaN j r
                               then mkrow (zeroAt j (rcols r)) (Num 0) (rwpos r) (rflag r) else r) (rrows c1))
  else c.
Definition checkW (c : rawcat) : rawcat :=
  if has_w c && existsb (fun r => isnan (rw r)) (rrows c)
  then withRows c (map (fun r => if isnan (rw r) then setw (Num 0) r else r) (rrows c))
  else c.
Definition checkWpos (c : rawcat) : rawcat :=
  if has_wpos c && existsb (fun r => isnan (rwpos r)) (rrows c) then
    let c1 := ensureW c in
    withRows c1 (map (fun r => if isnan (rwpos r) then setwpos (Num 0) (setw (Num 0) r) else r) (rrows c1))
  else c.
Definition checkNaNs (ncol : nat) (c : rawcat) : rawcat :=
  checkWpos (checkW (fold_left checkCol (seq 0 ncol) c)).

(** "Check that any wpos == 0 points also have w == 0", catalog.py:1393-1405. *)
Definition fixWpos (c : rawcat) : rawcat :=
  if has_wpos c && existsb (fun r => iszero (rwpos r)) (rrows c) then
    let c1 := ensureW c in
    withRows c1 (map (fun r => if iszero (rwpos r) then setw (Num 0) r else r) (rrows c1))
  else c.

(** The catalog that results: nontrivial_w, sumw, and the rows (with w). *)
Definition flval (v : fl) : R := match v with NaN => 0 | Num x => x end.
Record catalog := mkcat { cat_nontriv : bool; cat_sumw : R; cat_haswpos : bool; cat_rows : list row }.
(** catalog.py:1407-1420; None is the ValueError "Catalog has invalid sumw == 0". *)
Definition finishW (keep_zero_weight : bool) (c : rawcat) : option catalog :=
  if has_w c then
    let sw := sumR (fun r => flval (rw r)) (rrows c) in
    if Req_EM_T sw 0 then None else
    let wp r := if has_wpos c then rwpos r else rw r in
    let rows :=
      if negb keep_zero_weight && existsb (fun r => iszero (wp r)) (rrows c)
      then filter (fun r => negb (iszero (wp r))) (rrows c) else rrows c in
    Some (mkcat true sw (has_wpos c) rows)
  else
    Some (mkcat false (INR (length (rrows c))) (has_wpos c) (map (setw (Num 1)) (rrows c))).
(** _finish_input, catalog.py:1302-1420 without the flips and without the patches;
    _generate_xyz (a function of ra, dec, r, row by row) is not modelled. *)
Definition finishInput (ncol : nat) (ign : Z) (keep_zero_weight : bool) (c : rawcat) : option catalog :=
  finishW keep_zero_weight (fixWpos (checkNaNs ncol (applyFlag ign c))).

(** Catalog.select(indx) with an array of row numbers, catalog.py:1592-1617.  The columns are trimmed; the cached
    sumw (computed by _finish_input) is not touched. *)
Definition emptyRow : row := mkrow [] (Num 0) (Num 0) 0%Z.
Definition selectRows (idx : list nat) (c : catalog) : catalog :=
  mkcat (cat_nontriv c) (cat_sumw c) (cat_haswpos c) (map (fun i => nth i (cat_rows c) emptyRow) idx).

(** Catalog.combine (without masks), catalog.py:1449-1513: keep_zero_weight is decided by the first
    catalog; w is a column of every loaded catalog; wpos is taken if the first catalog has it. *)
Definition weightCol (c : catalog) (r : row) : fl := if cat_haswpos c then rwpos r else rw r.
Definition combine (ncol : nat) (c0 : catalog) (cs : list catalog) : option catalog :=
  if existsb (fun c => cat_haswpos c0 && negb (cat_haswpos c)) cs then None (* "Column wpos not found" *)
  else finishInput ncol 0 (existsb (fun r => iszero (weightCol c0 r)) (cat_rows c0))
    (mkraw true (cat_haswpos c0) false (concat (map cat_rows (c0 :: cs)))).

(** ** Variances *)
(** A catalog with one column of values: (w, k) of each row. *)
Definition nonz (x : R) : bool := if Req_EM_T x 0 then false else true.
Definition sumOf (f : R * R -> R) (l : list (R * R)) : R := sumR f l.
Record vcat := mkv { v_nontriv : bool; v_rows : list (R * R) }.
(** sumw (1407-1417) and sumw2 (1267-1274); for a trivial catalog w is all 1s. *)
Definition v_sumw (c : vcat) : R := if v_nontriv c then sumR fst (v_rows c) else INR (length (v_rows c)).
Definition v_sumw2 (c : vcat) : R := if v_nontriv c then sumR (fun p => fst p * fst p) (v_rows c) else INR (length (v_rows c)).
(** _calculate_weighted_var, catalog.py:1181-1196: (meank, altmeank, vark). *)
Definition weightedVar (c : vcat) : R * R * R :=
  if v_nontriv c then
    let use := filter (fun p => nonz (fst p)) (v_rows c) in
    let meank := sumR (fun p => fst p * snd p) use / v_sumw c in
    let altmeank := sumR (fun p => fst p * fst p * snd p) use / v_sumw2 c in
    let vark := sumR (fun p => fst p * fst p * ((snd p - meank) * (snd p - meank))) use / v_sumw c in
    (meank, altmeank, vark)
  else
    let meank := sumR snd (v_rows c) / INR (length (v_rows c)) in
    (meank, meank, sumR (fun p => (snd p - meank) * (snd p - meank)) (v_rows c) / INR (length (v_rows c))).
(** _compute_var_multi_cat, catalog.py:3273-3298: the accumulation over the catalogs. *)
Record vacc := mkva { a_var : R; a_mean : R; a_alt : R; a_w : R; a_w2 : R }.
Definition varStep (s : vacc) (c : vcat) : vacc :=
  let '(m, a, v) := weightedVar c in
  mkva (a_var s + (v * v_sumw c + m * v_sumw2 c * (2 * a - m)))
       (a_mean s + m * v_sumw c) (a_alt s + a * v_sumw2 c) (a_w s + v_sumw c) (a_w2 s + v_sumw2 c).
Definition varMulti (cats : list vcat) : R :=
  let s := fold_left varStep cats (mkva 0 0 0 0 0) in
  let m := a_mean s / a_w s in
  let a := a_alt s / a_w2 s in
  (a_var s - m * a_w2 s * (2 * a - m)) / a_w s.
(** calculateVarK, 3300-3322 (also for one component of z, v, g, t, q). *)
Definition calculateVar (cats : list vcat) : R :=
  match cats with [c] => snd (weightedVar c) | _ => varMulti cats end.
(** calculateVarZ/V/G/T/Q: mean over the two components. *)
Definition calculateVar2 (cats1 cats2 : list vcat) : R :=
  match cats1, cats2 with
  | [c1], [c2] => (snd (weightedVar c1) + snd (weightedVar c2)) / 2
  | _, _ => (varMulti cats1 + varMulti cats2) / 2
  end.
