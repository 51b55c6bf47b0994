(** Model of the count-value correlations with their compensated estimate: treecorr/nkcorrelation.py:140-262
    (NK, where the second component is not used) and treecorr/nzcorrelation.py:60-161 (NZ, NV, NG, NT, NQ),
    with estimate_cov, cov_diag (corr2base.py:605-630, 1886-1956, 2007-2220) for var_method shot and jackknife. *)
From Coq Require Import Reals List ZArith Bool.
From Verif Require Import Base Geometry Tree Traverse Corr Patch Cov.
Import ListNotations.
Open Scope R_scope.

(** The arrays: _xi1 (raw_xi), _xi2 (raw_xi_im), meanr, meanlogr, weight, npairs. *)
Inductive zf := X1 | X2 | ZMR | ZMLR | ZW | ZNP.
Definition arrs := zf -> Z -> R.
Definition zdict := list (key * arrs).
Fixpoint zget (k : key) (d : zdict) : option arrs :=
  match d with [] => None | (k', v) :: t => if keqb k k' then Some v else zget k t end.
Definition zkeys (d : zdict) : list key := map fst d.

(** A correlation object (its results are summed, not finalized; its arrays are finalized).
    z_xi, z_xim: attributes xi, xi_im; None means that they are the arrays raw_xi, raw_xi_im themselves
    (the code sets self.xi = self.raw_xi, and later changes of the one are changes of the other).
    z_ok: the cached _ok (a lazy_property); z_cov: the diagonal of _cov; z_rvx, z_vx: _raw_varxi, _varxi. *)
Record zobj := mkZ { z_arr : arrs; z_xi : option (Z -> R); z_xim : option (Z -> R); z_res : zdict;
  z_n1 : Z; z_n2 : Z; z_ok : option (list key); z_var : R;
  z_cov : option (Z -> R); z_rvx : option (Z -> R); z_vx : option (Z -> R) }.
(** The object with its _rk / _rz (a count-value correlation with randoms, itself not compensated). *)
Record nz := mkNZ { zo : zobj; zrz : option zobj }.
Definition zxi (o : zobj) : Z -> R := match z_xi o with Some x => x | None => z_arr o X1 end.
Definition zxim (o : zobj) : Z -> R := match z_xim o with Some x => x | None => z_arr o X2 end.

(** _sum, nkcorrelation.py:177-193, nzcorrelation.py:99-115; None models the KeyError of self.results[ij]. *)
Definition zsum (l : list arrs) : arrs := fun f k => sumR (fun a => a f k) l.
Fixpoint zlookup (d : zdict) (pairs : list key) : option (list arrs) :=
  match pairs with
  | [] => Some []
  | ij :: t => match zget ij d, zlookup d t with Some c, Some l => Some (c :: l) | _, _ => None end
  end.
(** _finalize, corr2base.py:1167-1187 (flat or 3d coordinates without sep_units) *)
Definition zfin (B : bparams) (a : arrs) : arrs := fun f k =>
  if Req_EM_T (a ZW k) 0 then match f with ZMR => rnomOf B k | ZMLR => logrOf B k | _ => a f k end
  else match f with ZW | ZNP => a f k | _ => a f k / a ZW k end.
(** finalize, nkcorrelation.py:138-152, nzcorrelation.py:69-74: the object after process(), where
    [a] are the summed arrays. *)
Definition zfinalize (B : bparams) (a : arrs) (res : zdict) (n1 n2 : Z) (var : R) : zobj :=
  mkZ (zfin B a) None None res n1 n2 None var None None None.

(** _calculate_xi_from_pairs, nkcorrelation.py:251-262, nzcorrelation.py:150-161.  The result are the arrays;
    xi and xi_im are raw_xi and raw_xi_im (set by _sum), so self.xi -= self._rk.xi changes raw_xi, and xi_im is
    not changed. *)
Definition okKeys (o : zobj) : list key := match z_ok o with Some l => l | None => zkeys (z_res o) end.
Definition rzPairs (r : zobj) (pairs : list key) : list key :=
  filter (okKey (okKeys r))
    (if (z_n1 r =? 1)%Z && negb (forallb (fun p => (fst p =? 0)%Z) pairs)
     then map (fun ij => (0%Z, snd ij)) (diag pairs) else pairs).
(** np.sum([], axis=0, out=...) of no arrays at all raises a ValueError (the result has no dimension). *)
Definition plainFrom (B : bparams) (d : zdict) (pairs : list key) : option arrs :=
  match pairs with
  | [] => None
  | _ => option_map (fun l => zfin B (zsum l)) (zlookup d pairs)
  end.
Definition compFrom (B : bparams) (d : zdict) (rz : option zobj) (pairs : list key) : option arrs :=
  match rz with
  | None => plainFrom B d pairs
  | Some r =>
      match plainFrom B d pairs, plainFrom B (z_res r) (rzPairs r pairs) with
      | Some a, Some b => Some (fun f k => match f with X1 => a X1 k - b X1 k | _ => a f k end)
      | _, _ => None
      end
  end.

(** The rows of the design matrix, corr2base.py:2050-2068; getStat is xi.  Rows without pairs call _clear,
    which also sets _rk / _rz to None (nkcorrelation.py:168-175, nzcorrelation.py:89-97). *)
Fixpoint zrows (B : bparams) (d : zdict) (rz : option zobj) (plist : list (list key)) : option (list arrs) :=
  match plist with
  | [] => Some []
  | [] :: t => option_map (cons (fun _ _ => 0)) (zrows B d None t)
  | p :: t => match compFrom B d rz p, zrows B d rz t with Some a, Some l => Some (a :: l) | _, _ => None end
  end.
(** _cov_jackknife, corr2base.py:2182-2195: the diagonal. *)
Definition jackVar (vs : list R) : R :=
  let n := INR (length vs) in
  let m := sumR (fun v => v) vs / n in
  (1 - 1 / n) * sumR (fun v => (v - m) * (v - m)) vs.

Inductive vmethod := VShot | VJack.
(** estimate_cov(self.var_method): the diagonal.  _cov_shot, corr2base.py:2079-2094 (getWeight is weight);
    jackknife without results raises. *)
Definition estimateCov (B : bparams) (m : vmethod) (s : nz) : option (Z -> R) :=
  let o := zo s in
  match m with
  | VShot => Some (fun k => if Req_EM_T (z_arr o ZW k) 0 then z_arr o ZW k else z_var o / z_arr o ZW k)
  | VJack =>
      match z_res o with
      | [] => None
      | _ => option_map (fun rows k => jackVar (map (fun a => a X1 k) rows))
               (zrows B (z_res o) (zrz s) (jackRows (z_n1 o) (z_n2 o) (zkeys (z_res o))))
      end
  end.
Definition upd (s : nz) (o : zobj) : nz := mkNZ o (zrz s).
(** cov_diag, corr2base.py:617-629 (and cov, 605-615) *)
Definition covDiag (B : bparams) (m : vmethod) (s : nz) : option (nz * (Z -> R)) :=
  match z_cov (zo s) with
  | Some c => Some (s, c)
  | None =>
      match estimateCov B m s with
      | None => None
      | Some c => let o := zo s in
          Some (upd s (mkZ (z_arr o) (z_xi o) (z_xim o) (z_res o) (z_n1 o) (z_n2 o) (z_ok o) (z_var o)
                           (Some c) (z_rvx o) (z_vx o)), c)
      end
  end.
(** raw_varxi, nkcorrelation.py:154-160, nzcorrelation.py:76-82 *)
Definition setRvx (o : zobj) (v : Z -> R) : zobj :=
  mkZ (z_arr o) (z_xi o) (z_xim o) (z_res o) (z_n1 o) (z_n2 o) (z_ok o) (z_var o) (z_cov o) (Some v) (z_vx o).
Definition setVx (o : zobj) (v : Z -> R) : zobj :=
  mkZ (z_arr o) (z_xi o) (z_xim o) (z_res o) (z_n1 o) (z_n2 o) (z_ok o) (z_var o) (z_cov o) (z_rvx o) (Some v).
Definition rawVarxi (B : bparams) (m : vmethod) (s : nz) : option (nz * (Z -> R)) :=
  match z_rvx (zo s) with
  | Some v => Some (s, v)
  | None =>
      if Req_EM_T (z_var (zo s)) 0 then Some (upd s (setRvx (zo s) (fun _ => 0)), fun _ => 0)
      else match covDiag B m s with
           | None => None
           | Some (s1, c) => Some (upd s1 (setRvx (zo s1) c), c)
           end
  end.
(** varxi, nkcorrelation.py:162-166, nzcorrelation.py:84-88 *)
Definition varxi (B : bparams) (m : vmethod) (s : nz) : option (nz * (Z -> R)) :=
  match z_vx (zo s) with
  | Some v => Some (s, v)
  | None => match rawVarxi B m s with
            | None => None
            | Some (s1, v) => Some (upd s1 (setVx (zo s1) v), v)
            end
  end.

(** The dummy results, nkcorrelation.py:222-231, nzcorrelation.py:134-143: copies of the first stored result
    with xi (which is raw_xi) and weight set to 0. *)
Definition dummy (t : arrs) : arrs := fun f k => match f with X1 | ZW => 0 | _ => t f k end.
Definition addDummies (res : zdict) (rkeys : list key) : zdict :=
  match res with
  | [] => []
  | (_, t) :: _ =>
      fold_left (fun d ij => if okKey (zkeys d) ij then d else d ++ [(ij, dummy t)]) rkeys res
  end.
(** calculateXi, nkcorrelation.py:195-249, nzcorrelation.py:117-148; None: the RuntimeError for incompatible
    patches or an error of estimate_cov.  [mr]: the var_method of rk. *)
Definition zcalcXi (B : bparams) (m mr : vmethod) (s : nz) (rz : option zobj) : option nz :=
  let o := zo s in
  match rz with
  | None =>
      let s0 := upd s (mkZ (z_arr o) None None (z_res o) (z_n1 o) (z_n2 o) (z_ok o) (z_var o)
                           (z_cov o) (z_rvx o) (z_vx o)) in
      match rawVarxi B m s0 with
      | None => None
      | Some (s1, v) => Some (upd s1 (setVx (zo s1) v))
      end
  | Some r =>
      let xi := fun k => z_arr o X1 k - zxi r k in
      let xim := fun k => z_arr o X2 k - zxim r k in
      if ((z_n1 r =? 1)%Z || (z_n1 r =? z_n1 o)%Z) && (z_n2 r =? z_n2 o)%Z then
        match z_res o with
        | [] =>
            let s0 := mkNZ (mkZ (z_arr o) (Some xi) (Some xim) [] (z_n1 o) (z_n2 o) (z_ok o) (z_var o)
                                (z_cov o) (z_rvx o) (z_vx o)) (Some r) in
            match rawVarxi B m s0, varxi B mr (mkNZ r None) with
            | Some (s1, v), Some (_, vr) => Some (upd s1 (setVx (zo s1) (fun k => v k + vr k)))
            | _, _ => None
            end
        | _ =>
            let s0 := mkNZ (mkZ (z_arr o) (Some xi) (Some xim) (addDummies (z_res o) (zkeys (z_res r)))
                                (z_n1 o) (z_n2 o) (z_ok o) (z_var o) (z_cov o) (z_rvx o) (z_vx o)) (Some r) in
            match estimateCov B m s0 with
            | None => None
            | Some c => let o0 := zo s0 in
                Some (upd s0 (mkZ (z_arr o0) (z_xi o0) (z_xim o0) (z_res o0) (z_n1 o0) (z_n2 o0) (z_ok o0)
                                  (z_var o0) (Some c) (z_rvx o0) (Some c)))
            end
        end
      else None
  end.
