(** Model of Catalog.get_patches with save_patch_dir and low_mem, write_patches, read_patches, write and
    the loading of a single patch (treecorr/catalog.py:1925-2183, 2795-3131).
    Simplifications.  A row of rcols starts with the patch number of the row (from patch_col, from the
    centers or from k-means), which is no column of the file of a patch; then come the columns in [fc_names],
    the position first.  x, y, z of an ra/dec catalog are functions of ra, dec, r and are left out.  The
    files do not change between get_patches and the loading of the patches.  Any exception is None, and the
    files after an exception are not described. *)
From Coq Require Import String Reals List ZArith Bool.
From Verif Require Import Base Catalog.
Import ListNotations.
Open Scope R_scope.

(** A loaded catalog: the names of its columns, and its data. *)
Record fcat := mkFC { fc_names : list string; fc_cat : catalog }.
(** What the constructor is given: the columns (of the file, or arrays); which of them (also "w", "wpos")
    are given by an *_eval option instead of *_col; w, wpos, flag; x_units and y_units, or ra_units and
    dec_units; ignore_flag; keep_zero_weight. *)
Record source := mkSrc { s_names : list string; s_eval : string -> bool; s_w : bool; s_wpos : bool; s_flag : bool;
  s_units : R * R; s_ign : Z; s_keep : bool; s_rows : list row }.
Definition mem (n : string) (l : list string) : bool := existsb (String.eqb n) l.
Definition radec (l : list string) : bool := mem "ra" l.
Definition flmul (u : R) (v : fl) : fl := match v with NaN => NaN | Num x => Num (u * x) end.
(** _apply_xyz_units, _apply_radec_units (1556-1566); also the division by the units in write. *)
Definition scalePos (u : R * R) (r : row) : row :=
  match rcols r with
  | p :: a :: b :: t => mkrow (p :: flmul (fst u) a :: flmul (snd u) b :: t) (rw r) (rwpos r) (rflag r)
  | _ => r
  end.
Definition inPatch (i : nat) (r : row) : bool :=
  match rcols r with Num p :: _ => if Req_EM_T p (INR i) then true else false | _ => false end.
Definition posNames : list string := ["x"; "y"; "z"; "ra"; "dec"; "r"]%string.
(** load: _read_file and _finish_input.  For a single patch the rows of this patch are selected first
    (2103-2135); when there are none, _read_file returns early: with centers the positions (no rows) have
    been read, with patch_col nothing has. *)
Definition load (centers : bool) (s : source) (single : option nat) : option fcat :=
  let rows := map (scalePos (s_units s)) (s_rows s) in
  let fin rows :=
    match finishInput (S (length (s_names s))) (s_ign s) (s_keep s) (mkraw (s_w s) (s_wpos s) (s_flag s) rows) with
    | Some k => Some (mkFC (s_names s) k)
    | None => None
    end in
  match single with
  | None => fin rows
  | Some i =>
      let use := filter (inPatch i) rows in
      if Nat.eqb (length use) 0 then
        if centers then Some (mkFC (filter (fun n => mem n posNames) (s_names s)) (mkcat false 0 false [])) else None
      else fin use
  end.

(** A catalog object.  [o_file] is the base name of its file (2800-2807), None for arrays; [o_centers] says
    whether _centers is known; [o_loaded] whether the data is loaded (always so for arrays). *)
Record catobj := mkCO { o_src : source; o_file : option string; o_np : nat; o_centers : bool; o_loaded : bool }.
(** A file of a patch, and the files in save_patch_dir: get_patch_file_names (2795-2808) depends on the
    base name, and the number; the names of array catalogs are patch000.fits, ... *)
Record pfile := mkPF { f_names : list string; f_w : bool; f_wpos : bool; f_rows : list row }.
Definition fsys := option string -> nat -> option pfile.
(** Catalog.write (3070-3131). *)
Definition writeCat (u : R * R) (c : fcat) : pfile :=
  mkPF (fc_names c) (cat_nontriv (fc_cat c)) (cat_haswpos (fc_cat c))
    (map (scalePos (1 / fst u, 1 / snd u)) (cat_rows (fc_cat c))).

(** read_patches (2863-2905): the columns that will be read.  _n is set iff the catalog is loaded and has n. *)
Definition wants (o : catobj) (n : string) : bool :=
  mem n (s_names (o_src o)) && (o_loaded o || negb (s_eval (o_src o) n)).
Definition fieldNames : list string := ["k"; "z1"; "z2"; "v1"; "v2"; "g1"; "g2"; "t1"; "t2"; "q1"; "q2"]%string.
Definition readNames (o : catobj) : list string :=
  (if wants o "ra" then ["ra"%string; "dec"%string] ++ (if wants o "r" then ["r"%string] else [])
   else ["x"%string; "y"%string] ++ (if wants o "z" then ["z"%string] else [])) ++ filter (wants o) fieldNames.
Definition readW (o : catobj) : bool :=
  (o_loaded o && match load (o_centers o) (o_src o) None with Some c => cat_nontriv (fc_cat c) | None => false end) ||
  (s_w (o_src o) && negb (s_eval (o_src o) "w")).
Definition readWpos (o : catobj) : bool :=
  s_wpos (o_src o) && (o_loaded o || negb (s_eval (o_src o) "wpos")).
(** Reading a file with these columns and no other options; None is the ValueError of _check_file. *)
Definition restrict (names : list string) (req : list string) (r : row) : row :=
  mkrow (match rcols r with [] => [] | p :: t => p :: map snd (filter (fun q => mem (fst q) req) (List.combine names t)) end)
    (rw r) (rwpos r) (rflag r).
Definition checkFile (req : list string) (w wpos : bool) (f : pfile) : bool :=
  forallb (fun n => mem n (f_names f)) req && (negb w || f_w f) && (negb wpos || f_wpos f).
Definition readFile (req : list string) (w wpos : bool) (f : pfile) : option fcat :=
  let names := filter (fun n => mem n req) (f_names f) in
  match finishInput (S (length names)) (Z.lnot 0) false (mkraw w wpos false (map (restrict (f_names f) req) (f_rows f))) with
  | Some k => Some (mkFC names k)
  | None => None
  end.
Inductive readres := NoFile | BadCol | Got (l : list (option fcat)).
Fixpoint collect {A} (l : list (option A)) : option (list A) :=
  match l with
  | [] => Some []
  | Some a :: t => match collect t with Some t' => Some (a :: t') | None => None end
  | None :: _ => None
  end.
(** 2907-2914 *)
Definition readPatches (o : catobj) (fs : fsys) : readres :=
  match collect (map (fs (o_file o)) (seq 0 (o_np o))) with
  | None => NoFile
  | Some files =>
      if forallb (checkFile (readNames o) (readW o) (readWpos o)) files
      then Got (map (readFile (readNames o) (readW o) (readWpos o)) files) else BadCol
  end.

(** The numbers of the patches with objects: sorted(set(self.patch)). *)
Definition patchSet (n : nat) (c : fcat) : list nat := filter (fun i => existsb (inPatch i) (cat_rows (fc_cat c))) (seq 0 n).
(** 2967-2998: a patch made from the loaded catalog. *)
Definition memPatch (c : fcat) (i : nat) : option fcat :=
  let k := fc_cat c in
  match finishInput (S (length (fc_names c))) (Z.lnot 0) (existsb (fun r => iszero (weightCol k r)) (cat_rows k))
          (mkraw (cat_nontriv k) (cat_haswpos k) false (filter (inPatch i) (cat_rows k))) with
  | Some k' => Some (mkFC (fc_names c) k')
  | None => None
  end.
(** 2948-2998: the patches with the units that write will use (2834-2836: p.ra_units = p.dec_units = 1 for
    ra, dec), and whether self is loaded now. *)
Definition unitsOf (s : source) : R * R := if radec (s_names s) then (1, 1) else s_units s.
Definition build (o : catobj) (low : bool) : option (list (R * R * option fcat) * bool) :=
  let s := o_src o in
  match low, o_file o with
  | true, Some _ =>
      if o_centers o then Some (map (fun i => (unitsOf s, load true s (Some i))) (seq 0 (o_np o)), o_loaded o)
      else match load false s None with
           | Some c => Some (map (fun i => (unitsOf s, load false s (Some i))) (patchSet (o_np o) c), true)
           | None => None
           end
  | _, _ =>
      match load (o_centers o) s None with
      | Some c => Some (map (fun i => ((1, 1), memPatch c i)) (patchSet (o_np o) c), true)
      | None => None
      end
  end.
(** write_patches (2827-2838): for i, p, file_name in zip(range(self.npatch), self.patches, file_names). *)
Definition setFile (fs : fsys) (b : option string) (i : nat) (f : option pfile) : fsys :=
  fun b' j => if (match b, b' with Some x, Some y => String.eqb x y | None, None => true | _, _ => false end) && Nat.eqb i j
              then f else fs b' j.
Definition removeAll (o : catobj) (fs : fsys) : fsys :=
  fold_left (fun fs i => setFile fs (o_file o) i None) (seq 0 (o_np o)) fs.
Fixpoint writeAll (b : option string) (l : list (nat * (R * R * option fcat))) (fs : fsys) : option fsys :=
  match l with
  | [] => Some fs
  | (i, (u, Some c)) :: t => writeAll b t (setFile fs b i (Some (writeCat u c)))
  | (_, (_, None)) :: _ => None
  end.
(** get_patches (2917-3009) when patches is not set yet and self is not itself a single patch; the contents
    of the patches (None: loading it fails), and the files. *)
Definition getPatches (o : catobj) (low save : bool) (fs : fsys) : option (list (option fcat)) * fsys :=
  if Nat.eqb (o_np o) 1 then (Some [load (o_centers o) (o_src o) None], fs)
  else
  match (if save then readPatches o fs else NoFile) with
  | Got l => (Some l, fs)
  | BadCol => (None, fs)
  | NoFile =>
      match build o low with
      | None => (None, fs)
      | Some (ps, loaded) =>
          if save then
            match writeAll (o_file o) (List.combine (seq 0 (o_np o)) ps) (removeAll o fs) with
            | None => (None, fs)
            | Some fs1 =>
                if low then
                  match readPatches (mkCO (o_src o) (o_file o) (o_np o) (o_centers o) loaded) fs1 with
                  | Got l => (Some l, fs1)
                  | _ => (None, fs1)
                  end
                else (Some (map snd ps), fs1)
            end
          else (Some (map snd ps), fs)
      end
  end.
