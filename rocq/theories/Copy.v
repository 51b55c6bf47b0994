(** Model of Corr2.copy, clear, += and process(initialize) as operations on objects that refer to their
    results dict (treecorr/corr2base.py:669-685, 706-712, 1114-1115, 1202-1227; corr3base.py:1061-1074 is
    the same).  copy copies the arrays, and the reference to the results dict (677-683).
    Simplification: the values in a results dict are copies that belong to this dict only (796, 882), so
    their in-place += (794, 884) is modelled as a replacement in the dict. *)
From Coq Require Import Reals List ZArith Bool Arith.
From Verif Require Import Base Geometry Tree Traverse Run Corr Patch.
Import ListNotations.
Open Scope R_scope.

(** A correlation object: its arrays (and tot), and the address of its results dict. *)
Record hobj := mkHO { h_corr : corr; h_addr : nat }.
(** All objects of the program, and all dicts. *)
Record hstate := mkH { h_objs : list hobj; h_dicts : list dict }.
Inductive hop :=
  | OCopy (i : nat)
  | OClear (i : nat)
  | OAdd (i j : nat)
  | OProcess (i : nat) (initialize : bool) (jobs : list job).

Fixpoint setNth {A} (i : nat) (x : A) (l : list A) : list A :=
  match l, i with
  | [], _ => []
  | _ :: t, O => x :: t
  | y :: t, S i => y :: setNth i x t
  end.
Definition hnew (c : corr) (d : dict) (i : nat) (s : hstate) : hstate :=
  mkH (setNth i (mkHO c (length (h_dicts s))) (h_objs s)) (h_dicts s ++ [d]).
Inductive hstep (C : pcfg) : hstate -> hop -> hstate -> Prop :=
  (** ret.__dict__[key] = item.copy() for arrays, = item for the others *)
  | hs_copy s i o : nth_error (h_objs s) i = Some o ->
      hstep C s (OCopy i) (mkH (h_objs s ++ [mkHO (h_corr o) (h_addr o)]) (h_dicts s))
  (** self._clear(); self.results = {} *)
  | hs_clear s i o : nth_error (h_objs s) i = Some o -> hstep C s (OClear i) (hnew kclear [] i s)
  (** __iadd__ adds the arrays only *)
  | hs_add s i j o o2 : nth_error (h_objs s) i = Some o -> nth_error (h_objs s) j = Some o2 ->
      hstep C s (OAdd i j) (mkH (setNth i (mkHO (kadd (pB C) (h_corr o) (h_corr o2)) (h_addr o)) (h_objs s)) (h_dicts s))
  (** if initialize: self.clear() *)
  | hs_init s i o jobs st : nth_error (h_objs s) i = Some o -> runJobs C sclear jobs st ->
      hstep C s (OProcess i true jobs) (hnew (sself st) (sres st) i s)
  (** the loops change self's arrays and the dict that self.results refers to *)
  | hs_more s i o jobs st : nth_error (h_objs s) i = Some o ->
      runJobs C (mkS (h_corr o) (nth (h_addr o) (h_dicts s) [])) jobs st ->
      hstep C s (OProcess i false jobs)
        (mkH (setNth i (mkHO (sself st) (h_addr o)) (h_objs s)) (setNth (h_addr o) (sres st) (h_dicts s))).
Inductive hsteps (C : pcfg) : hstate -> list hop -> hstate -> Prop :=
  | hh_nil s : hsteps C s [] s
  | hh_cons s op s1 ops s2 : hstep C s op s1 -> hsteps C s1 ops s2 -> hsteps C s (op :: ops) s2.
(** What a user sees of object [i]: arrays, tot and results. *)
Definition view (s : hstate) (i : nat) : option pstate :=
  match nth_error (h_objs s) i with
  | Some o => Some (mkS (h_corr o) (nth (h_addr o) (h_dicts s) []))
  | None => None
  end.
