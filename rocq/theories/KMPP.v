(** Model of the other ways to start k-means: InitializeCentersRand, KMeans.cpp:111-157, and
    InitializeCentersKMPP, KMeans.cpp:159-315 (init='random' and init='kmeans++'). *)
From Coq Require Import Reals Lra List ZArith Bool.
From Verif Require Import Base Geometry Tree Traverse Run Sampler KMeans.
Import ListNotations.
Open Scope R_scope.

(** Position.h:99-100, 198-199 *)
Definition posEq (p q : pos) : bool :=
  if Req_EM_T (px p) (px q) then if Req_EM_T (py p) (py q) then if Req_EM_T (pz p) (pz q) then true else false else false else false.
(** Cell.cpp:674-685 *)
Fixpoint getLeafNumber (c : cell) (i : nat) : cell :=
  match c with
  | Node _ _ l r => if Nat.ltb i (getN l) then getLeafNumber l i else getLeafNumber r (i - getN l)
  | _ => c
  end.
(** The loop 136-146 (also 243-254): the number of the cell and the leaf with index m. *)
Fixpoint pickLeaf (cells : list cell) (k m : nat) : option (nat * cell) :=
  match cells with
  | [] => None
  | c :: t => if Nat.ltb m (getN c) then Some (k, getLeafNumber c m) else pickLeaf t (S k) (m - getN c)
  end.
Definition ntotOf (cells : list cell) : nat := fold_right (fun c n => (getN c + n)%nat) 0%nat cells.

(** ** InitializeCentersRand *)
(** 152-157: a repeated centre is multiplied by 1 + urand()*1e-8. *)
Fixpoint nudge (before : list pos) (p : pos) (us : list R) : option (pos * list R) :=
  match before with
  | [] => Some (p, us)
  | q :: t => if posEq q p then
                match us with [] => None | u :: us' => nudge t (pscale (1 + u * / 100000000) p) us' end
              else nudge t p us
  end.
Fixpoint randCenters (cells : list cell) (index : list nat) (done : list pos) (us : list R) : option (list pos * list R) :=
  match index with
  | [] => Some (done, us)
  | m :: t =>
      (* centers[i] keeps its initial value if no cell has the index *)
      let p := match pickLeaf cells 0 m with Some (_, c) => getPos c | None => pos0 end in
      match nudge done p us with
      | None => None
      | Some (p', us') => randCenters cells t (done ++ [p']) us'
      end
  end.
Definition initRand (cells : list cell) (ncenters : nat) (us : list R) : option (list pos * list R) :=
  match selectRandomFrom (ntotOf cells) ncenters us with
  | None => None
  | Some (index, us') => randCenters cells index [] us'
  end.

(** ** InitializeCentersKMPP *)
(** The result of the recursive function: a position, the exception LeafAlreadyUsed, or no more draws. *)
Inductive kres := KPos (p : pos) (us : list R) | KUsed (us : list R) | KStuck.
(** min over j < ncen of (p - centers[j]).normSq(), 181-190. *)
Definition minTo (centers : list pos) (ncen : nat) (p : pos) : R :=
  fold_left (fun m j => if Rlt_dec (dsqTo centers p j) m then dsqTo centers p j else m) (seq 1 (ncen - 1)) (dsqTo centers p 0).
Definition usedPos (centers : list pos) (ncen : nat) (p : pos) : bool := existsb (fun j => posEq p (cen centers j)) (seq 0 ncen).
Fixpoint kmppCell (centers : list pos) (ncen : nat) (c : cell) (us : list R) : kres :=
  match c with
  | Node _ _ l r =>
      let d1 := minTo centers ncen (getPos l) in
      let d2 := minTo centers ncen (getPos r) in
      if Req_EM_T (d1 + d2) 0 then KUsed us
      else match us with
           | [] => KStuck
           | u :: us1 =>
               if Rlt_dec (u * (d1 + d2)) d1
               then match kmppCell centers ncen l us1 with KUsed us2 => kmppCell centers ncen r us2 | x => x end
               else match kmppCell centers ncen r us1 with KUsed us2 => kmppCell centers ncen l us2 | x => x end
           end
  | _ => if usedPos centers ncen (getPos c) then KUsed us else KPos (getPos c) us
  end.
(** p[k], 268-294; s is the cell size (finite: not a brute field). *)
Definition sizeVal (c : cell) : R := match getSize c with Fin s => s | Inf => 0 end.
Definition kmppProb (co : coord) (centers : list pos) (i : nat) (per_cell : list nat) (k : nat) (c : cell) : R :=
  (INR (getN c) - INR (nth k per_cell 0%nat)) *
  (minTo centers i (getPos c) + (match co with ThreeD => 3/5 | _ => 1/2 end) * (sizeVal c * sizeVal c)).
(** The loop 297-312: the first k with u < p[k]/sump after subtracting the previous ones; None: no cell. *)
Fixpoint chooseCell (ps : list R) (k : nat) (u : R) : option nat :=
  match ps with
  | [] => None
  | p :: t => if Rlt_dec u p then Some k else chooseCell t (S k) (u - p)
  end.
Inductive kmpp_out := KOk (centers : list pos) (us : list R) | KException | KOut.
(** Loop over i = 1 .. ncenters-1, 259-313.  Note: the recursive function is given ncenters, not i. *)
Fixpoint kmppLoop (co : coord) (cells : list cell) (todo : list nat) (centers : list pos) (per_cell : list nat) (us : list R) : kmpp_out :=
  match todo with
  | [] => KOk centers us
  | i :: t =>
      let p := map (fun kc => kmppProb co centers i per_cell (fst kc) (snd kc)) (combine (seq 0 (length cells)) cells) in
      let sump := sumR (fun x => x) p in
      match us with
      | [] => KOut
      | u :: us1 =>
          match chooseCell (map (fun x => x / sump) p) 0 u with
          | None => kmppLoop co cells t centers per_cell us1 (* centers[i] is left as it is *)
          | Some k =>
              match kmppCell centers (length centers) (nth k cells (ListLeaf (dataN co []) [])) us1 with
              | KStuck => KOut
              | KUsed _ => KException
              | KPos q us2 => kmppLoop co cells t (setAt i q centers) (setAt k (S (nth k per_cell 0%nat)) per_cell) us2
              end
          end
      end
  end.
Definition initKMPP (co : coord) (cells : list cell) (ncenters : nat) (us : list R) : kmpp_out :=
  let centers := repeat pos0 ncenters in
  let per_cell := repeat 0%nat (length cells) in
  match us with
  | [] => KOut
  | u :: us1 =>
      let m := Z.to_nat (trunc (u * INR (ntotOf cells))) in
      match pickLeaf cells 0 m with
      | None => kmppLoop co cells (seq 1 (ncenters - 1)) centers per_cell us1
      | Some (k, c) => kmppLoop co cells (seq 1 (ncenters - 1)) (setAt 0 (getPos c) centers) (setAt k 1%nat per_cell) us1
      end
  end.
