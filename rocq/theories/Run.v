(** Model of one process_auto / process_cross call of the python layer
    (treecorr/corr2base.py), from the objects of the catalogs to the accumulated arrays. *)
From Coq Require Import Reals Lra List ZArith Bool.
From Verif Require Import Base Geometry Tree Traverse.
Import ListNotations.
Open Scope R_scope.

(** The brute parameter: False, True, 1 or 2 (corr2base.py:489; docs of [brute]). *)
Inductive brutemode := BruteNo | BruteBoth | BruteFirst | BruteSecond.

(** Everything a Corr2 object knows at the time of a process call.  rmintop/rmaxtop are the
    values after Field._determine_top (field.py:94-105). *)
Record runcfg := mkR {
  rP : cparams; rcoord : coord; rsm : splitmethod; rbrute : brutemode;
  rmintop : Z; rmaxtop : Z }.

(** _get_minmax_size, corr2base.py:1409-1439. *)
Definition getMinMaxSize (P : cparams) : R * R :=
  let B := cbin P in
  let b := slop_b B in
  let a := slop_a B in
  match cmetric P with
  | Euclidean =>
      match btype B with
      | BLog =>
          let b1 := Rmin a b in
          (minsep B * b1 / (2 + 3 * b1), maxsep B * b1)
      | _ => (Rmin (a * minsep B / (2 + 3 * a)) (b / 2), Rmin (a * maxsep B) b)
      end
  | _ => (0, 0)
  end.

(** The getField calls: corr2base.py:1023-1029 (auto), 1061-1074 (cross); the field.py
    constructors set min_size to 0 when brute (field.py:547, 610, 673, ...) and pass the rest on
    unchanged to the C++ Field.  The Field cache of Catalog is not modelled (it
    returns a field built from the same arguments; see C29 for the cache itself). *)
Definition fieldParams (R : runcfg) (brute : bool) : fparams :=
  let mm := getMinMaxSize (rP R) in
  mkF (rcoord R) (rsm R) (if brute then 0 else fst mm) (Fin (snd mm)) brute (rmintop R) (rmaxtop R).
Definition bruteAuto (b : brutemode) : bool := match b with BruteNo => false | _ => true end.
Definition brute1 (b : brutemode) : bool :=
  match b with BruteBoth | BruteFirst => true | _ => false end.
Definition brute2 (b : brutemode) : bool :=
  match b with BruteBoth | BruteSecond => true | _ => false end.

(** process_auto, corr2base.py:1012-1032: all possible effects on the accumulators. *)
Definition runAuto (R : runcfg) (cat : list obj) (s0 s1 : accum) : Prop :=
  exists cells, buildField (fieldParams R (bruteAuto (rbrute R))) cat cells /\
    processAuto (rP R) cells s0 s1.

(** process_cross, corr2base.py:1034-1077. *)
Definition runCross (R : runcfg) (cat1 cat2 : list obj) (s0 s1 : accum) : Prop :=
  let F1 := fieldParams R (brute1 (rbrute R)) in
  let F2 := fieldParams R (brute2 (rbrute R)) in
  exists cells1 cells2, buildField F1 cat1 cells1 /\ buildField F2 cat2 cells2 /\
    processCross (rP R) (fieldCenter F1 cat1) (fieldCenter F2 cat2)
      (fieldSize F1 cat1) (fieldSize F2 cat2) cells1 cells2 s0 s1.
