(** Model of the completion of the binning parameters of the three-point correlations:
    treecorr/corr3base.py:406-573 (LogRUV and LogSAS; LogMultipole is not included) and 575-624, and of
    the parameters handed to the C++ code, 465-467, 970-978.
    [None] stands for any exception (TypeError, ValueError, ZeroDivisionError).  float() and int()
    conversions are identities here; a parameter given explicitly as None is the same as an absent one,
    which for nubins, nvbins, nphi_bins and the ranges is not so in the code (an exception). *)
From Coq Require Import Reals ZArith Bool.
From Verif Require Import Base Geometry Binning Corr3.
Open Scope R_scope.

Definition get {A} (x : option A) (d : A) : A := match x with Some y => y | None => d end.
Definition isNone {A} (x : option A) : bool := match x with Some _ => false | None => true end.

(** ** Separations: corr3base.py:413-456; the second value is the nominal bin size, the default for
    the bins of u, v and phi.  math.log(min_sep) at 641 is evaluated in every case; np.linspace at 638
    fails for a negative number of bins. *)
Definition radial (mn mx : option R) (nb : option Z) (size : option R) : option (binpars * R) :=
  let res :=
    match nb with
    | None =>
        match mx, mn, size with
        | Some mx, Some mn, Some s =>
            if Rleb mx mn then None else if Rleb mn 0 then None else
            match ceilBins (ln (mx / mn)) s with
            | None => None
            | Some n => Some (mkPars mn mx n (ln (mx / mn) / IZR n), s)
            end
        | _, _, _ => None
        end
    | Some n =>
        match size with
        | None =>
            match mx, mn with
            | Some mx, Some mn =>
                if Rleb mx mn then None else if Rleb mn 0 then None else
                if (n =? 0)%Z then None else Some (mkPars mn mx n (ln (mx / mn) / IZR n), ln (mx / mn) / IZR n)
            | _, _ => None
            end
        | Some s =>
            match mx with
            | None => match mn with None => None | Some mn => Some (mkPars mn (exp (IZR n * s) * mn) n s, s) end
            | Some mx => match mn with Some _ => None | None => Some (mkPars (mx * exp (- IZR n * s)) mx n s, s) end
            end
        end
    end in
  match res with
  | None => None
  | Some (p, s) => if Rleb (c_min p) 0 then None else if (c_nbins p <? 0)%Z then None else Some (p, s)
  end.

(** ** u, v and phi *)
Record rargs := mkRA { r_min : option R; r_max : option R; r_n : option Z; r_size : option R }.
(** the last lines of each block: the size is set from the range and the number of bins; the division
    fails for 0 bins, np.linspace (645, 649, 670) for a negative number *)
Definition finish (mn mx : R) (n : Z) : option binpars :=
  if (n <=? 0)%Z then None else Some (mkPars mn mx n ((mx - mn) / IZR n)).
(** int(math.ceil((max-min-1.e-10)/size)) *)
Definition ceilRange (mn mx s : R) : option Z := if Req_EM_T s 0 then None else Some (ceilZ ((mx - mn - / 10 ^ 10) / s)).
Definition allGiven (a : rargs) : bool := negb (isNone (r_min a)) && negb (isNone (r_max a)) && negb (isNone (r_size a)).
(** corr3base.py:475-495 *)
Definition uBins (a : rargs) (bs : R) : option binpars :=
  let mn := get (r_min a) 0 in let mx := get (r_max a) 1 in
  if Rltb mn 0 || Rltb 1 mx then None else if Rleb mx mn then None else
  let s := get (r_size a) bs in
  match r_n a with
  | None => match ceilRange mn mx s with None => None | Some n => finish mn mx n end
  | Some n =>
      if allGiven a then None else
      match r_size a with
      | None => finish mn mx n
      | Some s =>
          let mn' := if isNone (r_min a) then Rmax (mx - IZR n * s) 0 else mn in
          let mx' := if isNone (r_max a) then Rmin (mn' + IZR n * s) 1 else mx in
          finish mn' mx' n
      end
  end.
(** corr3base.py:499-519 *)
Definition vBins (a : rargs) (bs : R) : option binpars :=
  let mn := get (r_min a) 0 in let mx := get (r_max a) 1 in
  if Rltb mn 0 || Rltb 1 mx then None else if Rleb mx mn then None else
  let s := get (r_size a) bs in
  match r_n a with
  | None => match ceilRange mn mx s with None => None | Some n => finish mn mx n end
  | Some n =>
      if allGiven a then None else
      match r_size a with
      | None => finish mn mx n
      | Some s =>
          if isNone (r_max a) then finish mn (Rmin (mn + IZR n * s) 1) n
          else finish (Rmax (mx - IZR n * s) (-1)) mx n
      end
  end.
(** corr3base.py:529-559; [pu] is _phi_units *)
Definition phiBins (a : rargs) (pu bs : R) : option binpars :=
  let mn := get (r_min a) 0 * pu in let mx := get (r_max a) (PI / pu) * pu in
  if Rltb mn 0 || Rltb PI mx then None else if Rleb mx mn then None else
  let s := get (r_size a) bs in
  match r_n a with
  | None => match ceilRange mn mx s with None => None | Some n => finish mn mx n end
  | Some n =>
      if allGiven a then None else
      match r_size a with
      | None => finish mn mx n
      | Some s =>
          if isNone (r_max a) then finish mn (Rmin (mn + IZR n * s) PI) n
          else finish (Rmax (mx - IZR n * s) 0) mx n
      end
  end.
Definition noneGiven (a : rargs) : bool := isNone (r_min a) && isNone (r_max a) && isNone (r_n a) && isNone (r_size a).

(** ** Everything *)
Record args3 := mkA3 { a_bt : bintype3; a_min : option R; a_max : option R; a_n : option Z; a_size : option R;
  a_u : rargs; a_v : rargs; a_phi : rargs; a_sepunits : R; a_phiunits : R; a_slop : R; a_aslop : R }.
(** b, bu, bv: corr3base.py:584-624 *)
Definition slopOf (slop size : R) : R := if Rltb slop 0 then if Rleb size (1/10) then size else 1/10 else size * slop.
Definition build3 (a : args3) (m : metric) (c : coord) : option tparams :=
  match radial (a_min a) (a_max a) (a_n a) (a_size a) with
  | None => None
  | Some (p, bs) =>
      let sl := slopOf (a_slop a) in
      match a_bt a with
      | LogRUV =>
          if negb (noneGiven (a_phi a)) then None else
          match uBins (a_u a) bs with
          | None => None
          | Some u =>
              match vBins (a_v a) bs with
              | None => None
              | Some v => Some (mkT m c LogRUV (c_min p * a_sepunits a) (c_max p * a_sepunits a) (c_nbins p) (c_size p) (sl (c_size p)) (a_aslop a)
                  (c_min u) (c_max u) (c_nbins u) (c_size u) (sl (c_size u)) (c_min v) (c_max v) (c_nbins v) (c_size v) (sl (c_size v)))
              end
          end
      | LogSAS =>
          if negb (noneGiven (a_u a)) || negb (noneGiven (a_v a)) then None else
          match phiBins (a_phi a) (a_phiunits a) bs with
          | None => None
          | Some u => Some (mkT m c LogSAS (c_min p * a_sepunits a) (c_max p * a_sepunits a) (c_nbins p) (c_size p) (sl (c_size p)) (a_aslop a)
                  (c_min u) (c_max u) (c_nbins u) (c_size u) (sl (c_size u)) 0 0 0%Z 0 0)
          end
      end
  end.
