(** Shared vocabulary: finite sums, extended sizes, decidable tests on reals.
    These are the small building blocks used both by the model and by the
    specifications. *)
From Coq Require Import Reals Lra List ZArith Bool.
Import ListNotations.
Open Scope R_scope.

(** Sum of [f] over a list. *)
Fixpoint sumR {A} (f : A -> R) (l : list A) : R :=
  match l with
  | [] => 0
  | x :: t => f x + sumR f t
  end.

(** All ordered pairs (x in l1, y in l2). *)
Definition pairs {A B} (l1 : list A) (l2 : list B) : list (A * B) := list_prod l1 l2.

(** All unordered pairs of positions i<j of a list. *)
Fixpoint upairs {A} (l : list A) : list (A * A) :=
  match l with
  | [] => []
  | x :: t => map (fun y => (x, y)) t ++ upairs t
  end.

(** Boolean tests on reals. *)
Definition Rltb (x y : R) : bool := if Rlt_dec x y then true else false.
Definition Rleb (x y : R) : bool := if Rle_dec x y then true else false.
Definition Reqb (x y : R) : bool := if Req_EM_T x y then true else false.

(** A non-negative size that may be +infinity.  Cell.cpp:594-595 stores
    std::numeric_limits<double>::infinity() as the size of a cell when brute=true;
    this is the only IEEE special value used on purpose in the code modelled here. *)
Inductive ext := Fin (x : R) | Inf.

Definition eadd (a b : ext) : ext :=
  match a, b with Fin x, Fin y => Fin (x + y) | _, _ => Inf end.
Definition escale (k : R) (a : ext) : ext :=
  match a with Fin x => Fin (k * x) | Inf => Inf end.
(** a < b with a, b extended *)
Definition eltb (a b : ext) : bool :=
  match a, b with
  | Fin x, Fin y => Rltb x y
  | Fin _, Inf => true
  | Inf, _ => false
  end.

(** C++ [int(x)]: truncation toward zero. *)
Definition trunc (x : R) : Z :=
  if Rle_dec 0 x then Int_part x else (- Int_part (- x))%Z.
