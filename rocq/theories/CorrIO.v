(** Model of writing and reading a two-point correlation: corr2base.py:1692-1830 (_write, _read, _read_from_data),
    nzcorrelation.py:163-190 (columns), writer.py (AsciiWriter, FitsWriter, HdfWriter), reader.py:30-190 (AsciiReader) and
    the access by extension name of the FITS and HDF readers.  The object is the one of Comp.v (a class with the columns
    r_nom, meanr, meanlogr, real, imag, sigma, weight, npairs; NK has no imag column).
    Simplifications: extension names are constructors; the construction parameters, coords and metric in the header are
    not kept; the params dict is a record. *)
From Coq Require Import Reals List ZArith Bool.
From Verif Require Import Base Geometry Tree Traverse Corr Patch Cov Comp.
Import ListNotations.
Open Scope R_scope.

Inductive extn := EMain | EPP (i : nat) | ECov.
Definition extn_eqb (a b : extn) : bool :=
  match a, b with EMain, EMain => true | ECov, ECov => true | EPP i, EPP j => Nat.eqb i j | _, _ => false end.
(** The entries of params that _read uses; None: not in the dict. *)
Record wparams := mkW { w_npatch : option (Z * Z); w_numrows : option nat; w_npp : option nat;
                        w_covshape : option nat; w_key : option key }.
Definition noparams : wparams := mkW None None None None None.
Definition row := list R.
Record blk := mkBlk { b_ext : option extn; b_params : wparams; b_rows : list row }.
(** The lines of an ASCII file: "## name", "## {...}", "# col names", numbers *)
Inductive line := LExt (e : extn) | LParams (p : wparams) | LHeader | LRow (r : row).
(** FITS and HDF: named groups.  ASCII: lines, read from the current position. *)
Inductive cfile := FBin (l : list blk) | FAscii (l : list line).

Section IO.
(** The value that is read back for a number written with the given precision in an ASCII file. *)
Variable rnd : nat -> R -> R.

(** ** Writers.  The calls of writer.write / write_array, with the precision set at that time. *)
Inductive wcall := WTable (prec : nat) (b : blk) | WArray (prec : nat) (b : blk).
Definition extLine (e : option extn) : list line := match e with Some e => [LExt e] | None => [] end.
Definition asciiCall (c : wcall) : list line :=
  match c with
  | WTable p b => extLine (b_ext b) ++ [LParams (b_params b); LHeader] ++ map (fun r => LRow (map (rnd p) r)) (b_rows b)
  | WArray p b => extLine (b_ext b) ++ map (fun r => LRow (map (rnd p) r)) (b_rows b)
  end.
Definition binCall (c : wcall) : blk := match c with WTable _ b | WArray _ b => b end.
Definition fileOf (ascii : bool) (cs : list wcall) : cfile :=
  if ascii then FAscii (flat_map asciiCall cs) else FBin (map binCall cs).

(** _write_data, nzcorrelation.py:174-180 *)
Definition rowOf (B : bparams) (a : arrs) (xi xim vx : Z -> R) (k : Z) : row :=
  [rnomOf B k; a ZMR k; a ZMLR k; xi k; xim k; sqrt (vx k); a ZW k; a ZNP k].
Definition tableOf (B : bparams) (a : arrs) (xi xim vx : Z -> R) : list row :=
  map (rowOf B a xi xim vx) (bins B).
(** _write, corr2base.py:1700-1743 (zero_tot is False for these classes).  [vx]: self.varxi, [cov]: self.cov.
    [rv]: the _var_num of the stored results.  They are copies of a copy of the object (956, 1189-1203), whose _var_num
    is 0 before the first finalize and the old one when process is called again, since clear does not reset it.
    None: the ValueError of estimate_cov (2100-2102) for the sigma column of a result. *)
Definition resVx (B : bparams) (m : vmethod) (rv : R) (a : arrs) : option (Z -> R) :=
  option_map snd (varxi B m (mkNZ (mkZ a None None [] 1 1 None rv None None None) None)).
Fixpoint ppCalls (B : bparams) (m : vmethod) (rv : R) (i : nat) (res : zdict) : option (list wcall) :=
  match res with
  | [] => Some []
  | (key, a) :: t =>
      match resVx B m rv a, ppCalls B m rv (S i) t with
      | Some vx, Some l =>
          Some (WTable 16 (mkBlk (Some (EPP i)) (mkW None None None None (Some key)) (tableOf B a (a X1) (a X2) vx)) :: l)
      | _, _ => None
      end
  end.
Definition writeCalls (B : bparams) (m : vmethod) (rv : R) (prec : nat) (wpr wcov : bool) (o : zobj) (vx : Z -> R)
    (cov : list row) : option (list wcall) :=
  let name := if wpr || wcov then Some EMain else None in
  let params := mkW (if wpr then Some (z_n1 o, z_n2 o) else None)
                    (if wpr then Some (length (bins B)) else None)
                    (if wpr then Some (length (z_res o)) else None)
                    (if wcov then Some (length cov) else None) None in
  match (if wpr then ppCalls B m rv 0 (z_res o) else Some []) with
  | None => None
  | Some l =>
      Some (WTable prec (mkBlk name params (tableOf B (z_arr o) (zxi o) (zxim o) vx))
            :: l ++ (if wcov then [WArray (if wpr then 16%nat else prec) (mkBlk (Some ECov) noparams cov)] else []))
  end.
Definition writeCorr (ascii : bool) (B : bparams) (m : vmethod) (rv : R) (prec : nat) (wpr wcov : bool) (o : zobj)
    (vx : Z -> R) (cov : list row) : option cfile :=
  option_map (fileOf ascii) (writeCalls B m rv prec wpr wcov o vx cov).

(** ** Readers *)
Definition oext_eqb (a b : option extn) : bool :=
  match a, b with None, None => true | Some a, Some b => extn_eqb a b | _, _ => false end.
Definition findBlk (e : option extn) (l : list blk) : option blk := find (fun b => oext_eqb e (b_ext b)) l.
(** 'main' in reader (only None is in an AsciiReader) *)
Definition hasMain (f : cfile) : bool :=
  match f with FBin l => existsb (fun b => oext_eqb (Some EMain) (b_ext b)) l | FAscii _ => false end.
(** read_params, reader.py:126-152 *)
Definition readParams (f : cfile) (e : option extn) : option (wparams * cfile) :=
  match f with
  | FBin l => match findBlk e l with Some b => Some (b_params b, f) | None => None end
  | FAscii ls =>
      match ls with
      | LExt n :: t =>
          if match e with Some x => negb (extn_eqb x n) | None => false end then None
          else match t with
               | LParams p :: _ :: t' => Some (p, FAscii t')
               | LHeader :: t' => Some (noparams, FAscii t')
               | _ => None
               end
      | LParams p :: _ :: t' => Some (p, FAscii t')
      | LHeader :: t' => Some (noparams, FAscii t')
      | _ => None
      end
  end.
(** np.genfromtxt(self.file, max_rows=...): comment lines are skipped; all rows must have the same length. *)
Fixpoint takeRows (mx : option nat) (ls : list line) : list row * list line :=
  match mx with
  | Some O => ([], ls)
  | _ =>
      match ls with
      | [] => ([], [])
      | LRow r :: t => let (rs, t') := takeRows (match mx with Some (S n) => Some n | _ => None end) t in (r :: rs, t')
      | _ :: t => takeRows mx t
      end
  end.
Definition sameLen (rs : list row) : bool :=
  match rs with [] => true | r :: t => forallb (fun x => Nat.eqb (length x) (length r)) t end.
Definition readData (f : cfile) (mx : option nat) (e : option extn) : option (list row * cfile) :=
  match f with
  | FBin l => match findBlk e l with
              | Some b => Some (match mx with Some n => firstn n (b_rows b) | None => b_rows b end, f)
              | None => None
              end
  | FAscii ls => let (rs, t) := takeRows mx ls in if sameLen rs then Some (rs, FAscii t) else None
  end.
(** read_array, reader.py:166-178: the shape is checked; one row with one number has no dimension. *)
Definition readArray (f : cfile) (n : nat) (e : option extn) : option (list row * cfile) :=
  match f with
  | FBin l => match findBlk e l with Some b => Some (b_rows b, f) | None => None end
  | FAscii ls =>
      let (rs, t) := takeRows (Some n) ls in
      if sameLen rs && Nat.eqb (length rs) n && negb (Nat.eqb n 1) &&
         match rs with r :: _ => Nat.eqb (length r) n | [] => false end
      then Some (rs, FAscii t) else None
  end.
(** _read_from_data, corr2base.py:1779-1791, nzcorrelation.py:182-190: reshape needs the right number of rows. *)
Definition colOf (rs : list row) (j : nat) (k : Z) : R := nth j (nth (Z.to_nat k) rs []) 0.
Definition arrOf (rs : list row) : arrs := fun f =>
  match f with ZMR => colOf rs 1 | ZMLR => colOf rs 2 | X1 => colOf rs 3 | X2 => colOf rs 4
             | ZW => colOf rs 6 | ZNP => colOf rs 7 end.
Definition fromData (B : bparams) (t : zobj) (rs : list row) (p : wparams) : option zobj :=
  if Nat.eqb (length rs) (length (bins B)) then
    let vx := fun k => colOf rs 5 k * colOf rs 5 k in
    let np := match w_npatch p with Some n => n | None => (1, 1)%Z end in
    Some (mkZ (arrOf rs) None None (z_res t) (fst np) (snd np) (z_ok t) (z_var t) (z_cov t) (Some vx) (Some vx))
  else None.
(** the loop over the patch pairs, 1766-1773 *)
Fixpoint zdset (k : key) (v : arrs) (d : zdict) : zdict :=
  match d with
  | [] => [(k, v)]
  | (k', v') :: t => if keqb k k' then (k', v) :: t else (k', v') :: zdset k v t
  end.
Fixpoint readPP (B : bparams) (nr : option nat) (f : cfile) (i n : nat) (res : zdict) : option (zdict * cfile) :=
  match n with
  | O => Some (res, f)
  | S n' =>
      match readParams f (Some (EPP i)) with
      | None => None
      | Some (p, f1) =>
          match readData f1 nr (Some (EPP i)) with
          | None => None
          | Some (rs, f2) =>
              if Nat.eqb (length rs) (length (bins B)) then
                match w_key p with
                | None => None
                | Some key => readPP B nr f2 (S i) n' (zdset key (arrOf rs) res)
                end
              else None
          end
      end
  end.
(** _read, 1745-1777.  [t]: the object (and its _rk / _rz) that reads; the cov matrix is returned as well. *)
Definition diagOf (c : list row) (k : Z) : R := nth (Z.to_nat k) (nth (Z.to_nat k) c []) 0.
Definition readCorr (B : bparams) (t : nz) (f : cfile) : option (nz * option (list row)) :=
  let name := if hasMain f then Some EMain else None in
  match readParams f name with
  | None => None
  | Some (p, f1) =>
      let npp := match w_npp p with Some n => n | None => O end in
      let name := match name with None => if Nat.eqb npp 0 then None else Some EMain | _ => name end in
      match readData f1 (w_numrows p) name with
      | None => None
      | Some (rs, f2) =>
          match fromData B (zo t) rs p with
          | None => None
          | Some o =>
              match readPP B (w_numrows p) f2 0 npp [] with
              | None => None
              | Some (res, f3) =>
                  let o1 c := mkZ (z_arr o) None None res (z_n1 o) (z_n2 o) (z_ok o) (z_var o) c (z_rvx o) (z_vx o) in
                  match w_covshape p with
                  | None => Some (upd t (o1 (z_cov o)), None)
                  | Some n =>
                      match readArray f3 n (Some ECov) with
                      | None => None
                      | Some (c, _) => Some (upd t (o1 (Some (diagOf c))), Some c)
                      end
                  end
              end
          end
      end
  end.
(** from_file: the object just constructed (corr2base.py:1850-1866) *)
Definition fresh : nz := mkNZ (mkZ (fun _ _ => 0) None None [] 1 1 None 0 None None None) None.
End IO.
