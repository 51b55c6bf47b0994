(** Model of the k-means code: src/KMeans.cpp, treecorr/field.py:370-510 and the patch assignment of
    treecorr/catalog.py:1515-1556. *)
From Coq Require Import Reals Lra List ZArith Bool.
From Verif Require Import Base Geometry Tree Traverse Run Sampler.
Import ListNotations.
Open Scope R_scope.

(** Position<C>(): Position.h:42, 136, 239. *)
Definition pos0 : pos := mkpos 0 0 0.
Definition cen (centers : list pos) (i : nat) : pos := nth i centers pos0.
(** (p - centers[i]).normSq() *)
Definition dsqTo (centers : list pos) (p : pos) (i : nat) : R := normSq (psub p (cen centers i)).
(** The possibly modified squared distance: dsq + inertia[i], KMeans.cpp:556-575. *)
Definition inert (inertia : option (list R)) (i : nat) : R :=
  match inertia with None => 0 | Some ins => nth i ins 0 end.
Definition costTo (centers : list pos) (inertia : option (list R)) (p : pos) (i : nat) : R :=
  dsqTo centers p i + inert inertia i.

(** ** FindCellsInPatches, KMeans.cpp:543-643 *)
(** The array patches is represented by its first ncand entries; entry 0 is the best so far.
    Loop 568-584: a strictly closer centre is swapped with entry 0. *)
Fixpoint closest (f : nat -> R) (best : nat) (rest : list nat) : nat * list nat :=
  match rest with
  | [] => (best, [])
  | i :: t => if Rlt_dec (f i) (f best)
              then let '(b, r) := closest f i t in (b, best :: r)
              else let '(b, r) := closest f best t in (b, i :: r)
  end.
(** Removal loop 603-630, from the last candidate down to entry 1: a bad candidate is swapped with
    the last remaining one.  Result: entries 1..ncand-1 that remain, and the removed ones after them. *)
Fixpoint prune (bad : nat -> bool) (rest : list nat) : list nat * list nat :=
  match rest with
  | [] => ([], [])
  | i :: t => let '(K, Rm) := prune bad t in
              if bad i then
                match K with
                | [] => ([], i :: Rm)
                | k :: K' => (last K k :: removelast K, i :: Rm)
                end
              else (i :: K, Rm)
  end.
(** 588-617: candidate j cannot be the right centre for any point of the cell. *)
Definition badCand (centers : list pos) (inertia : option (list R)) (p : pos) (s : ext) (b j : nat) : bool :=
  match s with
  | Inf => false
  | Fin s =>
    let min_d := sqrt (dsqTo centers p b) in
    match inertia with
    | None => if Rlt_dec ((min_d + 2 * s) * (min_d + 2 * s)) (dsqTo centers p j) then true else false
    | Some ins =>
        let d := sqrt (dsqTo centers p j) in
        let dsq := if Rlt_dec d s then 0 else (d - s) * (d - s) + nth j ins 0 in
        if Rlt_dec ((min_d + s) * (min_d + s) + nth b ins 0) dsq then true else false
    end
  end.
Definition sizeZero (s : ext) : bool := match s with Inf => false | Fin x => if Req_EM_T x 0 then true else false end.
(** The result is the list of calls f.run(patch, cell), in order, and the new order of the candidates. *)
Fixpoint findCells (centers : list pos) (inertia : option (list R)) (c : cell) (cand : list nat)
  : list (nat * cell) * list nat :=
  match cand with
  | [] => ([], [])
  | p0 :: rest =>
    let '(b, rest1) := closest (costTo centers inertia (getPos c)) p0 rest in
    let '(K, Rm) := prune (badCand centers inertia (getPos c) (getSize c) b) rest1 in
    if (match K with [] => true | _ => false end) || sizeZero (getSize c) then ([(b, c)], b :: K ++ Rm)
    else match c with
         | Node _ _ l r =>
             let '(ev1, c1) := findCells centers inertia l (b :: K) in
             let '(ev2, c2) := findCells centers inertia r c1 in
             (ev1 ++ ev2, c2 ++ Rm)
         | _ => ([(b, c)], b :: K ++ Rm) (* not reached: leaves have size 0 *)
         end
  end.
(** The loop over cells of one thread, 660-676: the order of the candidates is carried over. *)
Fixpoint findMany (centers : list pos) (inertia : option (list R)) (cells : list cell) (cand : list nat) : list (nat * cell) :=
  match cells with
  | [] => []
  | c :: t => let '(ev, cand') := findCells centers inertia c cand in ev ++ findMany centers inertia t cand'
  end.
(** All threads: each has its own copy of patches; chunks are the cells of the threads (static schedule). *)
Definition kmCalls (centers : list pos) (inertia : option (list R)) (chunks : list (list cell)) : list (nat * cell) :=
  flat_map (fun ch => findMany centers inertia ch (seq 0 (length centers))) chunks.

(** ** The function classes *)
(** AssignPatches::run, 482-510: writes patches[index] = patch_num for all indices of the cell. *)
Definition assignWrites (calls : list (nat * cell)) : list (nat * nat) :=
  flat_map (fun pc => map (fun i => (i, fst pc)) (getAllIndices (snd pc))) calls.
Definition applyWrites {A} (ws : list (nat * A)) (arr : list A) : list A :=
  fold_left (fun a w => setAt (fst w) (snd w) a) ws arr.
(** UpdateCenters, 347-384 (the copies of the threads are added up). *)
Definition callsOf (i : nat) (calls : list (nat * cell)) : list cell :=
  map snd (filter (fun pc => Nat.eqb (fst pc) i) calls).
Definition sumPos (f : cell -> R) (cs : list cell) : pos :=
  mkpos (sumR (fun c => px (getPos c) * f c) cs) (sumR (fun c => py (getPos c) * f c) cs)
        (sumR (fun c => pz (getPos c) * f c) cs).
Definition newCenter (co : coord) (cs : list cell) : pos :=
  let w := sumR getW cs in
  if Rlt_dec 0 w then normalize co (pscale (/ w) (sumPos getW cs)) else sumPos getW cs.
Definition updateCenters (co : coord) (n : nat) (calls : list (nat * cell)) : list pos :=
  map (fun i => newCenter co (callsOf i calls)) (seq 0 n).
(** CalculateInertia, 386-462.  (alt=True on a brute field would give infinities: not modelled.) *)
Definition sizeSq (c : cell) : R := match getSize c with Fin s => s * s | Inf => 0 end.
Definition patchInertia (centers : list pos) (i : nat) (cs : list cell) : R :=
  sumR (fun c => normSq (psub (getPos c) (cen centers i)) * getW c +
                 (if Rlt_dec 0 (sizeSq c) then 3/4 * sizeSq c * getW c else 0)) cs.
Definition calcInertia (centers : list pos) (calls : list (nat * cell)) : list R :=
  let n := length centers in
  let meanw := sumR (fun pc => getW (snd pc)) calls / INR n / 3 in
  map (fun i => patchInertia centers i (callsOf i calls) / meanw) (seq 0 n).

(** ** KMeansRun1, 768-836, and KMeansAssign1, 838-851 *)
Definition kmStep (co : coord) (alt : bool) (cells : list cell) (c c' : list pos) : Prop :=
  exists chunks1 chunks2, concat chunks1 = cells /\ concat chunks2 = cells /\
    c' = updateCenters co (length c)
           (kmCalls c (if alt then Some (calcInertia c (kmCalls c None chunks1)) else None) chunks2).
Fixpoint shiftSq (c c' : list pos) : R :=
  match c, c' with
  | p :: t, p' :: t' => normSq (psub p p') + shiftSq t t'
  | _, _ => 0
  end.
Inductive kmRun (co : coord) (alt : bool) (cells : list cell) (tolsq : R) : nat -> list pos -> list pos -> Prop :=
| km_done c : kmRun co alt cells tolsq 0 c c
| km_stop n c c' : kmStep co alt cells c c' -> shiftSq c c' < tolsq -> kmRun co alt cells tolsq (S n) c c'
| km_go n c c' c'' : kmStep co alt cells c c' -> ~ shiftSq c c' < tolsq -> kmRun co alt cells tolsq n c' c'' ->
    kmRun co alt cells tolsq (S n) c c''.
(** ReadCenters, 728-760: the constructor Position<Sphere>(x,y,z) normalises. *)
Definition readCenters (co : coord) (centers : list pos) : list pos := map (normalize co) centers.
(** kmeans_refine_centers(centers, max_iter, tol, alt) *)
Definition kmRefine (F : fparams) (alt : bool) (cat : list obj) (cells : list cell) (tol : R) (max_iter : nat) (c c' : list pos) : Prop :=
  kmRun (fcoord F) alt cells (tol * fieldSize F cat * (tol * fieldSize F cat) * INR (length c)) max_iter (readCenters (fcoord F) c) c'.
(** kmeans_assign_patches(centers); arr is the uninitialised array. *)
Definition kmAssign (co : coord) (cells : list cell) (centers : list pos) (arr arr' : list nat) : Prop :=
  exists chunks, concat chunks = cells /\ arr' = applyWrites (assignWrites (kmCalls (readCenters co centers) None chunks)) arr.

(** ** QuickAssign and SelectPatch, KMeans.cpp:889-1009 *)
Definition quickAssign (centers : list pos) (p : pos) : nat :=
  fold_left (fun kmin k => if Rlt_dec (dsqTo centers p k) (dsqTo centers p kmin) then k else kmin)
            (seq 1 (length centers - 1)) 0%nat.
Definition selectPatch (centers : list pos) (patch : nat) (p : pos) : bool :=
  negb (existsb (fun q => negb (Nat.eqb q patch) &&
                          if Rlt_dec (dsqTo centers p q) (dsqTo centers p patch) then true else false)
                (seq 0 (length centers))).

(** ** InitializeCentersTree, KMeans.cpp:28-109 *)
(** Position<C>(p * a): normalised on the sphere (Position.h:241), a plain product otherwise. *)
Definition makePos (co : coord) (p : pos) : pos := normalize co p.
(** The loop over the centres of a leaf, 56-59. *)
Fixpoint jitter (co : coord) (p : pos) (first n : nat) (us : list R) : option (list (nat * pos) * list R) :=
  match n with
  | O => Some ([], us)
  | S n' => match us with
            | [] => None
            | u :: us' => match jitter co p (S first) n' us' with
                          | Some (ws, us'') => Some ((first, makePos co (pscale (1 + u * / 100000000) p)) :: ws, us'')
                          | None => None
                          end
            end
  end.
(** The recursive function; the result is the list of assignments centers[i] = pos, in order. *)
Fixpoint initCell (co : coord) (c : cell) (first n : nat) (us : list R) : option (list (nat * pos) * list R) :=
  if Nat.eqb n 1 then Some ([(first, getPos c)], us)
  else match c with
       | Node _ _ l r =>
           match us with
           | [] => None
           | u :: us1 =>
               let a := (n / 2)%nat in
               let b := (n - a)%nat in
               let '(m1, m2) := if Rlt_dec u (1/2) then (b, a) else (a, b) in
               match initCell co l first m1 us1 with
               | None => None
               | Some (w1, us2) =>
                   match initCell co r (first + m1) m2 us2 with
                   | None => None
                   | Some (w2, us3) => Some (w1 ++ w2, us3)
                   end
               end
           end
       | _ => jitter co (getPos c) first n us
       end.
(** The Fisher-Yates shuffle of nvalues, 92-95, for k = ncells down to 2.  long j = int(urand()*k);
    an index outside the vector is undefined behaviour: None. *)
Fixpoint shuffle (k : nat) (l : list nat) (us : list R) : option (list nat * list R) :=
  match k with
  | S (S k') =>
      match us with
      | [] => None
      | u :: us' =>
          let j := Z.to_nat (trunc (u * INR k)) in
          if Nat.ltb j (length l)
          then shuffle (S k') (if Nat.eqb j (S k') then l else swapAt 0%nat j (S k') l) us'
          else None
      end
  | _ => Some (l, us)
  end.
Fixpoint initCells (co : coord) (cells : list cell) (ns : list nat) (first : nat) (us : list R)
  : option (list (nat * pos) * list R) :=
  match cells, ns with
  | c :: cs, n :: ns' =>
      match initCell co c first n us with
      | None => None
      | Some (w1, us1) =>
          match initCells co cs ns' (first + n) us1 with
          | None => None
          | Some (w2, us2) => Some (w1 ++ w2, us2)
          end
      end
  | _, _ => Some ([], us)
  end.
Definition initTree (co : coord) (cells : list cell) (ncenters : nat) (us : list R) : option (list (nat * pos) * list R) :=
  let ncells := length cells in
  if Nat.ltb ncenters ncells then
    match selectRandomFrom ncells ncenters us with
    | None => None
    | Some (sel, us') =>
        Some (map (fun ik => (fst ik, getPos (nth (snd ik) cells (ListLeaf (dataN co []) []))))
                  (combine (seq 0 ncenters) sel), us')
    end
  else
    let n1 := (ncenters / ncells)%nat in
    let k2 := (ncenters mod ncells)%nat in
    match shuffle ncells (repeat n1 (ncells - k2) ++ repeat (n1 + 1)%nat k2) us with
    | None => None
    | Some (ns, us') => initCells co cells ns 0 us'
    end.
(** kmeans_initialize_centers(npatch, 'tree'): the array of centres (std::vector<Position<C>> of size npatch). *)
Definition initTreeCenters (co : coord) (cells : list cell) (ncenters : nat) (us : list R) : option (list pos) :=
  match initTree co cells ncenters us with
  | None => None
  | Some (ws, _) => Some (applyWrites ws (repeat pos0 ncenters))
  end.
