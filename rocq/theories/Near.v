(** Model of Field.count_near and Field.get_near: src/Field.cpp:287-409, treecorr/field.py:171-270,
    and of the coordinate conversion treecorr/util.py:551-584. *)
From Coq Require Import Reals Lra List ZArith Bool.
From Verif Require Import Base Geometry Tree.
Import ListNotations.
Open Scope R_scope.

Definition SQR (x : R) : R := x * x.

(** CountNear, Field.cpp:287-328.  getSize of a Leaf/ListLeaf is 0, so these take the first branch;
    a Node whose size is Inf (brute) fails all comparisons and is split. *)
Fixpoint countNear1 (c : cell) (p : pos) (sep : R) : nat :=
  let sepsq := SQR sep in
  let dsq := normSq (psub (getPos c) p) in
  match c with
  | Node d (Fin s) l r =>
      if Req_EM_T s 0 then (if Rleb dsq sepsq then getN c else 0%nat)
      else if Rltb sepsq dsq && Rltb (SQR (sep + s)) dsq then 0%nat
      else if Rleb dsq sepsq && Rltb s sep && Rleb dsq (SQR (sep - s)) then getN c
      else (countNear1 l p sep + countNear1 r p sep)%nat
  | Node d Inf l r => (countNear1 l p sep + countNear1 r p sep)%nat
  | _ => if Rleb dsq sepsq then getN c else 0%nat
  end.
(** BaseField::countNear, Field.cpp:330-344 *)
Definition countNear (cells : list cell) (p : pos) (sep : R) : nat :=
  fold_left (fun n c => (n + countNear1 c p sep)%nat) cells 0%nat.

(** indices[k] = v on an array of fixed length: None is a write outside the array. *)
Fixpoint store (a : list nat) (k : nat) (v : nat) : option (list nat) :=
  match a, k with
  | [], _ => None
  | _ :: t, O => Some (v :: t)
  | x :: t, S k' => option_map (cons x) (store t k' v)
  end.
Fixpoint storeAll (a : list nat) (k : nat) (vs : list nat) : option (list nat * nat) :=
  match vs with
  | [] => Some (a, k)
  | v :: r => match store a k v with Some a' => storeAll a' (S k) r | None => None end
  end.
(** getInfo().index / getListInfo().indices; an internal Node has neither (its size is never 0, so
    the code does not reach this: the model writes nothing). *)
Definition leafIndices (c : cell) : list nat :=
  match c with Leaf _ o => [oidx o] | ListLeaf _ os => map oidx os | Node _ _ _ _ => [] end.
(** GetNear, Field.cpp:346-393: [n] is the length of the array, the state is (indices, k). *)
Definition take (c : cell) (n : nat) (st : list nat * nat) : option (list nat * nat) :=
  let (a, k) := st in
  if Nat.ltb n (k + getN c) then Some st else storeAll a k (leafIndices c).
Fixpoint getNear1 (c : cell) (p : pos) (sep : R) (n : nat) (st : list nat * nat) : option (list nat * nat) :=
  let sepsq := SQR sep in
  let dsq := normSq (psub (getPos c) p) in
  match c with
  | Node d (Fin s) l r =>
      if Req_EM_T s 0 then (if Rleb dsq sepsq then take c n st else Some st)
      else if Rltb sepsq dsq && Rltb (SQR (sep + s)) dsq then Some st
      else match getNear1 l p sep n st with Some st' => getNear1 r p sep n st' | None => None end
  | Node d Inf l r =>
      match getNear1 l p sep n st with Some st' => getNear1 r p sep n st' | None => None end
  | _ => if Rleb dsq sepsq then take c n st else Some st
  end.
(** BaseField::getNear, Field.cpp:395-409.  The result is the array. *)
Fixpoint getNearAll (cells : list cell) (p : pos) (sep : R) (n : nat) (st : list nat * nat) : option (list nat * nat) :=
  match cells with
  | [] => Some st
  | c :: r => match getNear1 c p sep n st with Some st' => getNearAll r p sep n st' | None => None end
  end.
Definition getNear (cells : list cell) (p : pos) (sep : R) (mem : list nat) : option (list nat) :=
  option_map fst (getNearAll cells p sep (length mem) (mem, 0%nat)).

(** np.sort *)
Fixpoint insertN (x : nat) (l : list nat) : list nat :=
  match l with [] => [x] | y :: t => if Nat.leb x y then x :: y :: t else y :: insertN x t end.
Definition npsort (l : list nat) : list nat := fold_right insertN [] l.

(** cat.x[ind], cat.y[ind], cat.z[ind]: an index outside the catalog raises (None). *)
Fixpoint lookup (cat : list obj) (ind : list nat) : option (list (nat * obj)) :=
  match ind with
  | [] => Some []
  | i :: r => match nth_error cat i, lookup cat r with
              | Some o, Some l => Some ((i, o) :: l) | _, _ => None end
  end.
(** Field._get_near, field.py:263-270: [mem] is what np.empty(n) contains, so length mem must be n. *)
Definition get_near_ (cells : list cell) (p : pos) (sep : R) (mem : list nat) : option (list nat) :=
  getNear cells p sep mem.
(** Field.get_near, field.py:244-261. *)
Definition get_near (F : fparams) (cat : list obj) (cells : list cell) (p : pos) (sep : R) (mem : list nat)
  : option (list nat) :=
  if Req_EM_T (fminsize F) 0 then option_map npsort (get_near_ cells p sep mem)
  else match get_near_ cells p (sep + fminsize F) mem with
       | None => None
       | Some ind =>
           match lookup cat ind with
           | None => None
           | Some io => Some (npsort (map fst (filter (fun q => Rltb (normSq (psub (opos (snd q)) p)) (SQR sep)) io)))
           end
       end.
(** the length np.empty gets *)
Definition allocated (F : fparams) (cells : list cell) (p : pos) (sep : R) : nat :=
  if Req_EM_T (fminsize F) 0 then countNear cells p sep else countNear cells p (sep + fminsize F).
(** Field.count_near, field.py:177-186. *)
Definition count_near (F : fparams) (cat : list obj) (cells : list cell) (p : pos) (sep : R) (mem : list nat)
  : option nat :=
  if Req_EM_T (fminsize F) 0 then Some (countNear cells p sep)
  else option_map (@length nat) (get_near F cat cells p sep mem).

(** util.py:565-566 (spherical separations) and 568-581 (positions; CelestialCoord.get_xyz and
    GenerateXYZ in src/Catalog.cpp use the same formula) *)
Definition chord (sep : R) : R := 2 * sin (sep / 2).
Definition xyz (ra dec r : R) : pos := mkpos (r * (cos dec * cos ra)) (r * (cos dec * sin ra)) (r * sin dec).
