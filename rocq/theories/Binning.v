(** Model of the completion of the binning parameters: treecorr/corr2base.py:326-476, and of the
    parameters handed to the C++ code (natural units), 455-461, 472-476 and builder.
    [None] stands for any exception (TypeError, ValueError, ZeroDivisionError).  float() and int()
    conversions are identities here, min_sep=None explicitly given for TwoD is not modelled. *)
From Coq Require Import Reals ZArith Bool.
From Verif Require Import Base Geometry.
Open Scope R_scope.

(** math.ceil *)
Definition ceilZ (x : R) : Z := (- Int_part (- x))%Z.
(** What the user gives: None = parameter absent. *)
Record binargs := mkArgs { g_type : bintype; g_min : option R; g_max : option R; g_nbins : option Z; g_size : option R }.
Record binpars := mkPars { c_min : R; c_max : R; c_nbins : Z; c_size : R }.
Definition is2d (t : bintype) : bool := match t with BTwoD => true | _ => false end.

(** self.config.get('min_sep', 0) after the check that min_sep is there unless bin_type is TwoD *)
Definition needMin (a : binargs) : option R :=
  match g_min a with Some x => Some x | None => if is2d (g_type a) then Some 0 else None end.
(** number of bins from the range: int(math.ceil(range/bin_size)); 0 then fails in the division,
    a negative number in np.linspace *)
Definition ceilBins (range size : R) : option Z :=
  if Req_EM_T size 0 then None
  else let n := ceilZ (range / size) in if (n <=? 0)%Z then None else Some n.
Definition rangeOf (t : bintype) (mn mx : R) : R :=
  match t with BLog => ln (mx / mn) | BLinear => mx - mn | BTwoD => 2 * mx end.
(** 383: math.log(self.min_sep) is evaluated in every Log case *)
Definition logOK (t : bintype) (mn : R) : bool := match t with BLog => Rltb 0 mn | _ => true end.
Definition complete (a : binargs) : option binpars :=
  let t := g_type a in
  let res :=
    match g_nbins a with
    | None =>
        match g_max a, needMin a, g_size a with
        | Some mx, Some mn, Some size =>
            if Rleb mx mn then None else
            if negb (logOK t mn) then None else
            match ceilBins (rangeOf t mn mx) size with
            | None => None
            | Some n => Some (mkPars mn mx n (rangeOf t mn mx / IZR n))
            end
        | _, _, _ => None
        end
    | Some n =>
        if (n <? 0)%Z then None else
        match g_size a with
        | None =>
            match g_max a, needMin a with
            | Some mx, Some mn =>
                if Rleb mx mn then None else
                if negb (logOK t mn) then None else
                if (n =? 0)%Z then None else
                Some (mkPars mn mx n (rangeOf t mn mx / IZR n))
            | _, _ => None
            end
        | Some size =>
            match g_max a with
            | None =>
                match needMin a with
                | None => None
                | Some mn =>
                    Some (mkPars mn (match t with
                                     | BLog => exp (IZR n * size) * mn
                                     | BLinear => mn + IZR n * size
                                     | BTwoD => IZR n * size / 2
                                     end) n size)
                end
            | Some mx =>
                if is2d t then None else
                match g_min a with
                | Some _ => None
                | None => Some (mkPars (match t with
                                        | BLog => mx * exp (- IZR n * size)
                                        | _ => mx - IZR n * size
                                        end) mx n size)
                end
            end
        end
    end in
  match res with
  | None => None
  | Some p => if negb (logOK t (c_min p)) then None else
              (* max_good_slop divides by bin_size, 394 and 424 *)
              if negb (is2d t) && Reqb (c_size p) 0 then None else Some p
  end.

(** max_good_slop: 394, 424, 449; bin_slop and b: 468-476 (a negative bin_slop means default) *)
Definition maxGoodSlop (t : bintype) (p : binpars) : R :=
  match t with
  | BLog => (1/10) / c_size p
  | BLinear => (1/10) * (c_min p + c_size p / 2) / c_size p
  | BTwoD => 1/10
  end.
Definition binSlop (t : bintype) (p : binpars) (slop : R) : R :=
  if Rltb slop 0 then Rmin (maxGoodSlop t p) 1 else slop.
(** The C++ parameters; [u] is _sep_units (radians per unit, 1 without units), [aslop] angle_slop.
    455-461: _min_sep, _max_sep, _bin_size; b is used as it is. *)
Definition natural (t : bintype) (u slop aslop : R) (p : binpars) : bparams :=
  mkB t (c_min p * u) (c_max p * u)
      (match t with BTwoD => (c_nbins p * c_nbins p)%Z | _ => c_nbins p end)
      (match t with BLog => c_size p | _ => c_size p * u end)
      (c_size p * binSlop t p slop) aslop.
