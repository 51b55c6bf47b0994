(** Model of the patch centres of a catalog (treecorr/catalog.py:2621-2735): _weighted_mean,
    get_patch_centers, write_patch_centers, read_patch_centers.

    NaN is [None].  The 16 digits of an ASCII file are not modelled: numbers are written exactly. *)
From Coq Require Import String.
From Coq Require Import Reals List ZArith Bool.
From Verif Require Import Base Geometry.
Import ListNotations.
Open Scope R_scope.

(** An object: position (z = 0 for flat coordinates, unit length for spherical ones, as made by
    _generate_xyz), weight, patch number. *)
Record crow := mkCR { c_pos : pos; c_w : R; c_patch : nat }.
(** [cc_patch] is whether _patch is not None; [cc_given] is _centers (from k-means or from the
    patch_centers argument, 842-845). *)
Record ccat := mkCC { cc_coord : coord; cc_nontriv : bool; cc_patch : bool; cc_rows : list crow; cc_given : option (list pos) }.
(** npatch = max(patch) + 1 (1523-1529). *)
Definition ccNpatch (c : ccat) : nat := S (fold_right Nat.max 0%nat (map c_patch (cc_rows c))).
(** x / y in numpy *)
Definition ndiv (x y : R) : option R := if Req_EM_T y 0 then None else Some (x / y).
(** 2621-2631 *)
Definition weightedMean (nontriv : bool) (f : pos -> R) (l : list crow) : option R :=
  if nontriv then ndiv (sumR (fun r => f (c_pos r) * c_w r) l) (sumR c_w l)
  else ndiv (sumR (fun r => f (c_pos r)) l) (INR (length l)).
(** 2659-2665, 2672-2679: two columns for flat coordinates, else three. *)
Definition meanPos (c : ccat) (l : list crow) : option pos :=
  match weightedMean (cc_nontriv c) px l, weightedMean (cc_nontriv c) py l,
        match cc_coord c with Flat => Some 0 | _ => weightedMean (cc_nontriv c) pz l end with
  | Some x, Some y, Some z => Some (mkpos x y z)
  | _, _, _ => None
  end.
(** 2680-2681 *)
Definition unitPos (c : ccat) (m : option pos) : option pos :=
  match cc_coord c, m with
  | Sphere, Some p => if Req_EM_T (norm p) 0 then None else Some (pscale (/ norm p) p)
  | _, _ => m
  end.
Inductive cenres := CenRunErr | Cens (l : list (option pos)).
Definition inPatch (c : ccat) (p : nat) : list crow := filter (fun r => Nat.eqb (c_patch r) p) (cc_rows c).
(** 2649-2683.  The loop raises at the first patch without objects; nothing is stored then. *)
Definition getPatchCenters (c : ccat) : cenres :=
  match cc_given c with
  | Some l => Cens (map Some l)
  | None =>
    if cc_patch c then
      if existsb (fun p => match inPatch c p with [] => true | _ => false end) (seq 0 (ccNpatch c)) then CenRunErr
      else Cens (map (fun p => unitPos c (meanPos c (inPatch c p))) (seq 0 (ccNpatch c)))
    else Cens [unitPos c (meanPos c (cc_rows c))]
  end.

(** A file: named columns. *)
Open Scope string_scope.
Definition cfile := list (string * list (option R)).
Definition cenCol (f : pos -> R) (l : list (option pos)) : list (option R) := map (option_map f) l.
(** write_patch_centers, 2706-2715.  None: the exception of get_patch_centers. *)
Definition writePatchCenters (c : ccat) : option cfile :=
  match getPatchCenters c with
  | CenRunErr => None
  | Cens l => Some (List.combine (["patch"; "x"; "y"] ++ match cc_coord c with Flat => [] | _ => ["z"] end)
                      ([map (fun k => Some (INR k)) (seq 0 (length l)); cenCol px l; cenCol py l] ++
                       match cc_coord c with Flat => [] | _ => [cenCol pz l] end))
  end.
Definition fcol (n : string) (f : cfile) : option (list (option R)) :=
  option_map snd (find (fun x => String.eqb (fst x) n) f).
(** Rows of three (or two) columns; a row with a NaN is a NaN centre. *)
Definition stack (x y z : list (option R)) : list (option pos) :=
  map (fun t => match t with (Some a, (Some b, Some e)) => Some (mkpos a b e) | _ => None end) (List.combine x (List.combine y z)).
(** read_patch_centers, 2729-2735.  None: KeyError. *)
Definition readPatchCenters (f : cfile) : option (list (option pos)) :=
  match fcol "x" f, fcol "y" f, fcol "z" f with
  | Some x, Some y, Some z => Some (stack x y z)
  | Some x, Some y, None => Some (stack x y (map (fun _ => Some 0) x))
  | _, _, _ => None
  end.
