(** Model of treecorr/util.py:164-289, class LRU_Cache, at the level of the linked list: links are
    mutable objects [PREV, NEXT, KEY, RESULT] at addresses of a heap.  The cached function [f] is
    deterministic, does not call the cache, and depends on the positional arguments only (keyword
    arguments are not part of the key).  A result of [None] stands for an exception (TypeError on
    None[...], KeyError, ValueError). *)
From Coq Require Import List Arith ZArith Bool.
Import ListNotations.

Section Cache.
Variables K V : Type.
Variable keq : forall a b : K, {a = b} + {a <> b}.
Variable f : K -> V.

(** root[2] is None; unused links have an object() of their own as key *)
Inductive okey := KNone | KDummy (n : nat) | KReal (k : K).
Definition okey_eq (a b : okey) : bool :=
  match a, b with
  | KNone, KNone => true
  | KDummy m, KDummy n => Nat.eqb m n
  | KReal k, KReal l => if keq k l then true else false
  | _, _ => false
  end.
Record link := mkLink { prev : option nat; next : option nat; lkey : okey; res : option V }.
Record cache := mkCache {
  root : nat;                       (* self.root *)
  tab : list (okey * nat);          (* self.cache *)
  hp : nat -> link;                 (* the heap *)
  newA : nat; newK : nat;           (* next free address, next object() *)
  count : nat }.
Definition upd (h : nat -> link) (a : nat) (l : link) : nat -> link := fun b => if Nat.eqb b a then l else h b.
Definition setPrev h a p := upd h a (mkLink p (next (h a)) (lkey (h a)) (res (h a))).
Definition setNext h a n := upd h a (mkLink (prev (h a)) n (lkey (h a)) (res (h a))).
Definition setKey h a k := upd h a (mkLink (prev (h a)) (next (h a)) k (res (h a))).
Definition setRes h a r := upd h a (mkLink (prev (h a)) (next (h a)) (lkey (h a)) r).
(** the dict self.cache *)
Fixpoint tget (t : list (okey * nat)) (k : okey) : option nat :=
  match t with [] => None | (k', a) :: t' => if okey_eq k' k then Some a else tget t' k end.
Fixpoint tset (t : list (okey * nat)) (k : okey) (a : nat) : list (okey * nat) :=
  match t with
  | [] => [(k, a)]
  | (k', a') :: t' => if okey_eq k' k then (k', a) :: t' else (k', a') :: tset t' k a
  end.
Definition tdel (t : list (okey * nat)) (k : okey) := filter (fun p => negb (okey_eq (fst p) k)) t.
Definition size (c : cache) : nat := length (tab c).

(** 200-203, 280-283: append [n] unused links after [last]; [sever]: also last[3] = None (clear) *)
Fixpoint addLinks (sever : bool) (n : nat) (c : cache) (last : nat) : cache * nat :=
  match n with
  | O => (c, last)
  | S n' =>
      let h := if sever then setRes (hp c) last None else hp c in
      let a := newA c in
      let h := upd h a (mkLink (Some last) (Some (root c)) (KDummy (newK c)) None) in
      let h := setNext h last (Some a) in
      addLinks sever n' (mkCache (root c) (tset (tab c) (KDummy (newK c)) a) h (S a) (S (newK c)) (count c)) a
  end.
(** __init__, 193-204 *)
Definition init (maxsize : nat) : cache :=
  let c := mkCache 0 [] (fun _ => mkLink None None KNone None) 1 0 0 in
  let (c, last) := addLinks false maxsize c 0 in
  mkCache (root c) (tab c) (setPrev (hp c) (root c) (Some last)) (newA c) (newK c) 0.

(** __call__, 206-230; the second component tells whether the function was evaluated *)
Definition call (c : cache) (k : K) : option (cache * V * bool) :=
  match tget (tab c) (KReal k) with
  | Some link =>
      let h := hp c in
      match prev (h link), next (h link), res (h link) with
      | Some lp, Some ln, Some r =>
          let h := setNext h lp (Some ln) in
          let h := setPrev h ln (Some lp) in
          match prev (h (root c)) with
          | None => None
          | Some last =>
              let h := setNext h last (Some link) in
              let h := setPrev h (root c) (Some link) in
              let h := setPrev h link (Some last) in
              let h := setNext h link (Some (root c)) in
              Some (mkCache (root c) (tab c) h (newA c) (newK c) (count c), r, false)
          end
      | _, _, _ => None
      end
  | None =>
      let r := f k in
      let h := setRes (setKey (hp c) (root c) (KReal k)) (root c) (Some r) in
      let oldroot := root c in
      match next (h (root c)) with
      | None => None
      | Some rt =>
          let oldkey := lkey (h rt) in
          let h := setRes (setKey h rt KNone) rt None in
          let t := tset (tab c) (KReal k) oldroot in
          match tget t oldkey with
          | None => None
          | Some _ =>
              let t := tdel t oldkey in
              Some (mkCache rt t h (newA c) (newK c) (if Nat.ltb (count c) (length t) then S (count c) else count c), r, true)
          end
      end
  end.

(** resize, 243-270: one step down, one step up *)
Definition dropOne (c : cache) : option cache :=
  match next (hp c (root c)) with
  | None => None
  | Some cn =>
      match next (hp c cn) with
      | None => None
      | Some nn =>
          let h := setNext (hp c) (root c) (Some nn) in
          let h := setPrev h nn (Some (root c)) in
          let k := lkey (h cn) in
          match tget (tab c) k with
          | None => None
          | Some _ => Some (mkCache (root c) (tdel (tab c) k) h (newA c) (newK c) (count c))
          end
      end
  end.
Definition addOne (c : cache) : option cache :=
  let a := newA c in
  match next (hp c (root c)) with
  | None => None
  | Some rn =>
      let h := upd (hp c) a (mkLink (Some (root c)) (Some rn) (KDummy (newK c)) None) in
      let h := setPrev h rn (Some a) in
      let h := setNext h (root c) (Some a) in
      Some (mkCache (root c) (tset (tab c) (KDummy (newK c)) a) h (S a) (S (newK c)) (count c))
  end.
Fixpoint iter (n : nat) (s : cache -> option cache) (c : cache) : option cache :=
  match n with O => Some c | S n' => match s c with Some c' => iter n' s c' | None => None end end.
Definition setCount (c : cache) (n : nat) := mkCache (root c) (tab c) (hp c) (newA c) (newK c) n.
Definition resize (c : cache) (maxsize : Z) : option cache :=
  let old := size c in
  if (maxsize =? Z.of_nat old)%Z then Some c
  else if (maxsize <? 0)%Z then None
  else let m := Z.to_nat maxsize in
       if Nat.ltb m old
       then option_map (fun c => setCount c (Nat.min (count c) m)) (iter (old - m) dropOne c)
       else iter (m - old) addOne c.
(** clear, 272-284 *)
Definition clear (c : cache) : cache :=
  let c0 := mkCache (root c) [] (hp c) (newA c) (newK c) (count c) in
  let (c1, last) := addLinks true (size c) c0 (root c) in
  mkCache (root c1) (tab c1) (setPrev (hp c1) (root c1) (Some last)) (newA c1) (newK c1) 0.
(** last_value, 238-241 *)
Definition last_value (c : cache) : option (option V) :=
  match prev (hp c (root c)) with Some a => Some (res (hp c a)) | None => None end.

(** Programs using the cache. *)
Inductive op := OCall (k : K) | OResize (m : Z) | OClear.
Inductive obs := RVal (v : V) (evaluated : bool) | RDone | RErr.
(** resize with a negative size raises ValueError and changes nothing; any other exception ends the
    program: [None] *)
Definition step (c : cache) (o : op) : option (cache * obs) :=
  match o with
  | OCall k => match call c k with Some (c', v, e) => Some (c', RVal v e) | None => None end
  | OResize m => if (m <? 0)%Z then Some (c, RErr)
                 else match resize c m with Some c' => Some (c', RDone) | None => None end
  | OClear => Some (clear c, RDone)
  end.
Fixpoint run (c : cache) (os : list op) : option (cache * list obs) :=
  match os with
  | [] => Some (c, [])
  | o :: r => match step c o with
              | None => None
              | Some (c', x) => match run c' r with Some (c'', xs) => Some (c'', x :: xs) | None => None end
              end
  end.

(** ** Specification: a bounded list of (key, value), least recently used first *)
Record spec := mkSp { bound : nat; items : list (K * V) }.
Definition known (s : spec) (k : K) : option V :=
  match find (fun p => if keq (fst p) k then true else false) (items s) with Some p => Some (snd p) | None => None end.
Definition others (s : spec) (k : K) := filter (fun p => if keq (fst p) k then false else true) (items s).
Definition keepLast {A} (n : nat) (l : list A) : list A := skipn (length l - n) l.
Definition specStep (s : spec) (o : op) : spec * obs :=
  match o with
  | OCall k => match known s k with
               | Some v => (mkSp (bound s) (others s k ++ [(k, v)]), RVal v false)
               | None => (mkSp (bound s) (keepLast (bound s) (items s ++ [(k, f k)])), RVal (f k) true)
               end
  | OResize m => if (m <? 0)%Z then (s, RErr) else (mkSp (Z.to_nat m) (keepLast (Z.to_nat m) (items s)), RDone)
  | OClear => (mkSp (bound s) [], RDone)
  end.
Fixpoint specRun (s : spec) (os : list op) : spec * list obs :=
  match os with
  | [] => (s, [])
  | o :: r => let (s', x) := specStep s o in let (s'', xs) := specRun s' r in (s'', x :: xs)
  end.
End Cache.
