(** Model of the functions corr2 and corr3 (treecorr/exec_corr2.py:147-510, exec_corr3.py:70-165): which
    correlations are computed from which inputs, in which order, what is written to which file, and
    which exceptions end the run.

    [proc] stands for making an object of a class and processing it, [wr] for writing: both may raise.
    Their results are functions of what they are given (Exec2.v has the NN part in full).  Not modelled:
    check_config and reading of the input (they come before all of this), logging, set_omp_threads;
    a write that raises is taken to leave no file. *)
From Coq Require Import String.
From Coq Require Import List Bool.
Import ListNotations.

Inductive fld := FN | FK | FG | FZ | FV | FT | FQ.
(** The output files of corr2: xy_file_name, nm_file_name, norm_file_name, m2_file_name. *)
Inductive key := KCorr (a b : fld) | KNMap | KNorm | KMapSq.
Inductive exn := TypeErr | AttrErr | OtherErr (n : nat).

(** A step: the files written so far, and a result or an exception.  [W]: what is written. *)
Definition M (W A : Type) := list (string * W) -> list (string * W) * (exn + A).
Definition ret {W A} (a : A) : M W A := fun log => (log, inr a).
Definition raise {W A} (e : exn) : M W A := fun log => (log, inl e).
Definition bind {W A B} (m : M W A) (f : A -> M W B) : M W B :=
  fun log => match m log with (log', inl e) => (log', inl e) | (log', inr a) => f a log' end.
Definition some {W A} (m : M W A) : M W (option A) := bind m (fun x => ret (Some x)).
Definition write {W} (wr : W -> option exn) (n : string) (c : W) : M W unit :=
  fun log => match wr c with Some e => (log, inl e) | None => (log ++ [(n, c)], inr tt) end.
(** process(None) is an AttributeError (corr2base.py:1123-1124). *)
Definition process {W cats corr C} (proc : C -> cats -> option cats -> exn + corr) (c : C) (a b : option cats) : M W corr :=
  fun log => (log, match a with None => inl AttrErr | Some a => proc c a b end).
Notation "x <- a ;; b" := (bind a (fun x => b)) (at level 61, a at next level, right associativity).
Notation "a ;;; b" := (bind a (fun _ => b)) (at level 61, right associativity).

Section Corr2.
Variables (cats corr : Type).
Variable proc : fld * fld -> cats -> option cats -> exn + corr.
(** What is given to write, writeNMap, writeNorm, writeMapSq. *)
Inductive content :=
| WNN (dd : corr) (rr dr rd : option corr)
| WCross (x : corr) (rx : option corr)
| WPlain (x : corr)
| WNMap (ng : corr) (rg : option corr)
| WNorm (ng gg dd rr : corr) (dr rg : option corr)
| WMapSq (gg : corr).
Variable wr : content -> option exn.
(** Lists of input catalogs; None: the list is empty (206-209). *)
Record inputs := mkIn { i_cat1 : option cats; i_cat2 : option cats; i_rand1 : option cats; i_rand2 : option cats }.
(** [c_file]: the file names in config.  [c_nncomp]: config['nn_statistic'] == 'compensated' (its
    default).  [c_stat]: config.get('nk_statistic') etc., true for 'compensated'. *)
Record config := mkC { c_file : key -> option string; c_nncomp : bool; c_stat : fld -> option bool }.
Variables (I : inputs) (Cf : config).

Notation MM := (M content).
Notation process := (process proc).
Notation write := (write wr).
Definition ifFile (k : key) (f : string -> MM unit) : MM unit :=
  match c_file Cf k with None => ret tt | Some n => f n end.

(** 215-253 *)
Definition nnBlock : MM unit := ifFile (KCorr FN FN) (fun n =>
  dd <- process (FN, FN) (i_cat1 I) (i_cat2 I) ;;
  match i_rand1 I, i_cat2 I with
  | None, _ => write n (WNN dd None None None)
  | Some _, None =>
      rr <- process (FN, FN) (i_rand1 I) None ;;
      dr <- (if c_nncomp Cf then some (process (FN, FN) (i_cat1 I) (i_rand1 I)) else ret None) ;;
      write n (WNN dd (Some rr) dr None)
  | Some _, Some _ =>
      match i_rand2 I with
      | None => raise TypeErr
      | Some _ =>
          rr <- process (FN, FN) (i_rand1 I) (i_rand2 I) ;;
          if c_nncomp Cf then
            dr <- process (FN, FN) (i_cat1 I) (i_rand2 I) ;;
            rd <- process (FN, FN) (i_rand1 I) (i_cat2 I) ;;
            write n (WNN dd (Some rr) (Some dr) (Some rd))
          else write n (WNN dd (Some rr) None None)
      end
  end).
(** The first lines of the blocks of cross correlations, and the randoms of NK, NG, NZ, NV, NT, NQ
    (256-271, 283-301, ...). *)
Definition needCat2 : MM unit := match i_cat2 I with None => raise TypeErr | Some _ => ret tt end.
Definition randBlock (z : fld) : MM (option corr) :=
  match i_rand1 I with
  | None => match c_stat Cf z with Some true => raise TypeErr | _ => ret None end
  | Some _ => if match c_stat Cf z with Some b => b | None => true end
              then some (process (FN, z) (i_rand1 I) (i_cat2 I)) else ret None
  end.
(** 255-274, 363-384, 407-428, 451-472, 495-516 (NK, NZ, NV, NT, NQ) *)
Definition nxBlock (z : fld) : MM unit := ifFile (KCorr FN z) (fun n =>
  needCat2 ;;; x <- process (FN, z) (i_cat1 I) (i_cat2 I) ;; rx <- randBlock z ;; write n (WCross x rx)).
(** KG, KZ, KV, KT, KQ *)
Definition kxBlock (z : fld) : MM unit := ifFile (KCorr FK z) (fun n =>
  needCat2 ;;; x <- process (FK, z) (i_cat1 I) (i_cat2 I) ;; write n (WPlain x)).
(** KK, ZZ, VV, TT, QQ *)
Definition xxBlock (z : fld) : MM unit := ifFile (KCorr z z) (fun n =>
  x <- process (z, z) (i_cat1 I) (i_cat2 I) ;; write n (WPlain x)).
Definition asked (k : key) : bool := match c_file Cf k with None => false | Some _ => true end.
(** 285-337 *)
Definition ngBlock : MM unit :=
  if asked (KCorr FN FG) || asked KNMap || asked KNorm then
    needCat2 ;;; ng <- process (FN, FG) (i_cat1 I) (i_cat2 I) ;; rg <- randBlock FG ;;
    ifFile (KCorr FN FG) (fun n => write n (WCross ng rg)) ;;;
    ifFile KNMap (fun n => write n (WNMap ng rg)) ;;;
    ifFile KNorm (fun n =>
      gg <- process (FG, FG) (i_cat2 I) None ;;
      dd <- process (FN, FN) (i_cat1 I) None ;;
      rr <- process (FN, FN) (i_rand1 I) None ;;
      dr <- (if c_nncomp Cf then some (process (FN, FN) (i_cat1 I) (i_rand1 I)) else ret None) ;;
      write n (WNorm ng gg dd rr dr rg))
  else ret tt.
(** 350-361 *)
Definition ggBlock : MM unit :=
  if asked (KCorr FG FG) || asked KMapSq then
    gg <- process (FG, FG) (i_cat1 I) (i_cat2 I) ;;
    ifFile (KCorr FG FG) (fun n => write n (WPlain gg)) ;;;
    ifFile KMapSq (fun n => write n (WMapSq gg))
  else ret tt.
(** 199-213 and the order of the blocks. *)
Definition corr2 : MM unit :=
  match i_cat1 I, i_cat2 I, i_rand2 I with
  | None, _, _ => raise TypeErr
  | _, None, Some _ => raise TypeErr
  | _, _, _ =>
      nnBlock ;;; nxBlock FK ;;; xxBlock FK ;;; ngBlock ;;; kxBlock FG ;;; ggBlock ;;;
      nxBlock FZ ;;; kxBlock FZ ;;; xxBlock FZ ;;; nxBlock FV ;;; kxBlock FV ;;; xxBlock FV ;;;
      nxBlock FT ;;; kxBlock FT ;;; xxBlock FT ;;; nxBlock FQ ;;; kxBlock FQ ;;; xxBlock FQ
  end.
End Corr2.

(** The output files of corr3: ggg_file_name, m3_file_name, nnn_file_name, kkk_file_name. *)
Inductive key3 := K3GGG | K3Map3 | K3NNN | K3KKK.
Section Corr3.
Variables (cats corr : Type).
(** [proc3 F a None] is process(a); [proc3 F a (Some b)] is process(a, b, ordered=False). *)
Variable proc3 : fld -> cats -> option cats -> exn + corr.
Inductive content3 :=
| W3NNN (ddd : corr) (rrr drr rdd : option corr)
| W3Plain (x : corr)
| W3Map3 (ggg : corr).
Variable wr3 : content3 -> option exn.
Record config3 := mkC3 { c3_file : key3 -> option string; c3_comp : bool }.
Variables (cat1 rand1 : option cats) (Cf : config3).
Notation process := (process proc3).
Notation write := (write wr3).
Definition ifFile3 (k : key3) (f : string -> M content3 unit) : M content3 unit :=
  match c3_file Cf k with None => ret tt | Some n => f n end.
Definition asked3 (k : key3) : bool := match c3_file Cf k with None => false | Some _ => true end.
(** exec_corr3.py:112-163 *)
Definition corr3 : M content3 unit :=
  match cat1 with
  | None => raise TypeErr
  | Some _ =>
    (if asked3 K3GGG || asked3 K3Map3 then
       ggg <- process FG cat1 None ;;
       ifFile3 K3GGG (fun n => write n (W3Plain ggg)) ;;;
       ifFile3 K3Map3 (fun n => write n (W3Map3 ggg))
     else ret tt) ;;;
    ifFile3 K3NNN (fun n =>
      ddd <- process FN cat1 None ;;
      match rand1 with
      | None => write n (W3NNN ddd None None None)
      | Some _ =>
          rrr <- process FN rand1 None ;;
          if c3_comp Cf then
            drr <- process FN cat1 rand1 ;;
            rdd <- process FN rand1 cat1 ;;
            write n (W3NNN ddd (Some rrr) (Some drr) (Some rdd))
          else write n (W3NNN ddd (Some rrr) None None)
      end) ;;;
    ifFile3 K3KKK (fun n => kkk <- process FK cat1 None ;; write n (W3Plain kkk))
  end.
End Corr3.
