(** Model of writing and reading a three-point correlation: corr3base.py:2415-2604 (_write_params, _write, _read,
    _read_from_data, read, from_file), nnncorrelation.py:766-955 (write, columns, _do_read), kkkcorrelation.py:418-467 and
    gggcorrelation.py:635-702 (columns).  Columns are looked up by name, as the readers do.
    An array is the list of its flattened values; reshape (data_shape) needs the right number of values.
    Simplifications: the numbers of an ASCII file are not rounded (see CorrIO.v for that) and its tables are looked up by name
    too (they are written in the order in which they are read); the construction parameters in the header are not kept: the
    object that reads has the same configuration; the variances are those of the given [est] when they have not been computed
    before (property varzeta, kkkcorrelation.py:265-270; vargam0.., gggcorrelation.py:336-365); the zeta, varzeta and added
    zero results of calculateZeta, which write calls when rrr is given, are those of the given function [zval].
    A result of NNN without triangles (not _nonzero) is an [RZero], since its arrays are zero.  The covariance in an ASCII file
    is in CorrIO.v; the theorems about this model leave it out. *)
From Coq Require Import String.
From Coq Require Import Reals List ZArith Bool.
Import ListNotations.
Open Scope R_scope.

Inductive bint3 := RUV | SAS | MP.
Inductive cls3 := KKK3 | GGG3 | NNN3.
Definition cls3_eqb (a b : cls3) : bool :=
  match a, b with KKK3, KKK3 | GGG3, GGG3 | NNN3, NNN3 => true | _, _ => false end.
Definition arr3 := list R.
Inductive at3 := MeanD1 | MeanLD1 | MeanD2 | MeanLD2 | MeanD3 | MeanLD3 | MeanU | MeanV | WR | WI | NTri
               | Z1 | Z2 | Z3 | Z4 | Z5 | Z6 | Z7 | Z8.
(** The attributes of an object.  [o_zeta]: zeta and varzeta of NNN (None before calculateZeta); [o_var]: _varzeta (index 0)
    or _vargam0.. (0 to 3). *)
Record obj3 := mkO3 { o_at : at3 -> arr3; o_var : nat -> option arr3; o_zeta : option (arr3 * arr3); o_tot : R;
                      o_np : Z * Z * Z; o_coords : string; o_metric : string }.
Definition key3 := (Z * Z * Z)%type.
(** An entry of results: an object, or the _zero_copy of NNN with its tot *)
Inductive rent := RNon (o : obj3) | RZero (tot : R).
Record sub3 := mkS3 { s_o : obj3; s_res : list (key3 * rent) }.
Record full3 := mkF3 { f_s : sub3; f_rrr : option sub3; f_drr : option sub3; f_rdd : option sub3; f_cov : option (list arr3) }.

(** ** Files *)
Inductive base3 := Main3 | Rrr3 | Drr3 | Rdd3.
Definition base3_eqb (a b : base3) : bool :=
  match a, b with Main3, Main3 | Rrr3, Rrr3 | Drr3, Drr3 | Rdd3, Rdd3 => true | _, _ => false end.
Inductive ext3 := ENone3 | EB3 (b : base3) | EPP3 (b : base3) (i : nat) | ECov3.
Definition ext3_eqb (a b : ext3) : bool :=
  match a, b with
  | ENone3, ENone3 => true | ECov3, ECov3 => true
  | EB3 x, EB3 y => base3_eqb x y | EPP3 x i, EPP3 y j => base3_eqb x y && Nat.eqb i j | _, _ => false
  end.
Record par3 := mkP3 { p_corr : cls3; p_coords : string; p_metric : string; p_tot : option R; p_np : option (Z * Z * Z);
                      p_rows : option nat; p_ntri : option nat; p_zp : option (list (key3 * R)); p_cov : option nat;
                      p_key : option key3; p_rrr : option bool; p_drr : option bool; p_rdd : option bool }.
Definition cols3 := list (string * arr3).
Inductive blk3 := Tab3 (e : ext3) (p : par3) (d : cols3) | Arr3 (e : ext3) (m : list arr3).
Definition blk3_ext (b : blk3) : ext3 := match b with Tab3 e _ _ => e | Arr3 e _ => e end.
Record file3 := mkFile3 { fl_ascii : bool; fl_blks : list blk3 }.

Inductive res3 (A : Type) := Ok3 (a : A) | ErrKey3 | ErrType3 | ErrValue3 | ErrOS3.
Arguments Ok3 {A} a. Arguments ErrKey3 {A}. Arguments ErrType3 {A}. Arguments ErrValue3 {A}. Arguments ErrOS3 {A}.
Definition bind3 {A B} (x : res3 A) (f : A -> res3 B) : res3 B :=
  match x with Ok3 a => f a | ErrKey3 => ErrKey3 | ErrType3 => ErrType3 | ErrValue3 => ErrValue3 | ErrOS3 => ErrOS3 end.
Notation "x <~ e ;; f" := (bind3 e (fun x => f)) (at level 61, e at next level, right associativity).

Section IO3.
Variable nb : nat.                 (* _nbins *)
Variable nom : nat -> arr3.        (* rnom,u,v / d2nom,d3nom,phi / d2nom,d3nom,n *)
Variable est : obj3 -> nat -> arr3.
Variable zval : full3 -> sub3 -> option (sub3 * sub3) -> res3 ((arr3 * arr3) * list (key3 * R)).

Definition vr3 (o : obj3) (i : nat) : arr3 := match o_var o i with Some v => v | None => est o i end.

(** ** Columns: _write_col_names and _write_data *)
Open Scope string_scope. Open Scope list_scope.
Definition commonCols (bt : bint3) (o : obj3) : cols3 :=
  match bt with
  | RUV => [("r_nom", nom 0); ("u_nom", nom 1); ("v_nom", nom 2)]
  | SAS => [("d2_nom", nom 0); ("d3_nom", nom 1); ("phi_nom", nom 2)]
  | MP => [("d2_nom", nom 0); ("d3_nom", nom 1); ("n", nom 2)]
  end ++
  [("meand1", o_at o MeanD1); ("meanlogd1", o_at o MeanLD1); ("meand2", o_at o MeanD2); ("meanlogd2", o_at o MeanLD2);
   ("meand3", o_at o MeanD3); ("meanlogd3", o_at o MeanLD3)] ++
  match bt with
  | RUV => [("meanu", o_at o MeanU); ("meanv", o_at o MeanV)]
  | SAS => [("meanphi", o_at o MeanU)]
  | MP => []
  end.
(** kkkcorrelation.py:431-434, 451-455 *)
Definition colsKKK (bt : bint3) (o : obj3) : cols3 :=
  commonCols bt o ++
  match bt with
  | MP => [("zeta_re", o_at o Z1); ("zeta_im", o_at o Z2); ("sigma_zeta", map sqrt (vr3 o 0)); ("weight_re", o_at o WR);
           ("weight_im", o_at o WI); ("ntri", o_at o NTri)]
  | _ => [("zeta", o_at o Z1); ("sigma_zeta", map sqrt (vr3 o 0)); ("weight", o_at o WR); ("ntri", o_at o NTri)]
  end.
(** gggcorrelation.py:650-658, 673-681 *)
Definition colsGGG (bt : bint3) (o : obj3) : cols3 :=
  commonCols bt o ++
  [("gam0r", o_at o Z1); ("gam0i", o_at o Z2); ("gam1r", o_at o Z3); ("gam1i", o_at o Z4);
   ("gam2r", o_at o Z5); ("gam2i", o_at o Z6); ("gam3r", o_at o Z7); ("gam3i", o_at o Z8);
   ("sigma_gam0", map sqrt (vr3 o 0)); ("sigma_gam1", map sqrt (vr3 o 1)); ("sigma_gam2", map sqrt (vr3 o 2));
   ("sigma_gam3", map sqrt (vr3 o 3))] ++
  match bt with
  | MP => [("weight_re", o_at o WR); ("weight_im", o_at o WI); ("ntri", o_at o NTri)]
  | _ => [("weight", o_at o WR); ("ntri", o_at o NTri)]
  end.
(** nnncorrelation.py:807-812, 840-851: no rrr *)
Definition absW (o : obj3) : arr3 := map (fun p => sqrt (fst p * fst p + snd p * snd p)) (List.combine (o_at o WR) (o_at o WI)).
Definition colsNNN (bt : bint3) (o : obj3) : cols3 :=
  commonCols bt o ++
  match o_zeta o with Some (z, v) => [("zeta", z); ("sigma_zeta", map sqrt v)] | None => [] end ++
  match o_at o WI with
  | [] => [("DDD", o_at o WR)]
  | _ => [("weight_re", o_at o WR); ("weight_im", o_at o WI); ("DDD", absW o)]
  end ++ [("ntri", o_at o NTri)].
(** nnncorrelation.py:813-817, 852-861: with rrr *)
Definition rescaled (a b : obj3) : arr3 := map (fun w => w * (o_tot a / o_tot b)) (o_at b WR).
Definition colsNNNr (bt : bint3) (o : obj3) (rrr : sub3) (dr : option (sub3 * sub3)) : cols3 :=
  commonCols bt o ++
  match o_zeta o with Some (z, v) => [("zeta", z); ("sigma_zeta", map sqrt v)] | None => [] end ++
  [("DDD", o_at o WR); ("RRR", rescaled o (s_o rrr))] ++
  match dr with
  | Some (drr, rdd) => [("DRR", rescaled o (s_o drr)); ("RDD", rescaled o (s_o rdd))]
  | None => []
  end ++ [("ntri", o_at o NTri)].
Definition colsOf (c : cls3) (bt : bint3) (o : obj3) : cols3 :=
  match c with KKK3 => colsKKK bt o | GGG3 => colsGGG bt o | NNN3 => colsNNN bt o end.

(** calculateZeta, nnncorrelation.py:485-580: zeta, varzeta, _rrr, _drr, _rdd and dummy results *)
Definition setZeta (o : obj3) (z : arr3 * arr3) : obj3 :=
  mkO3 (o_at o) (o_var o) (Some z) (o_tot o) (o_np o) (o_coords o) (o_metric o).
Definition calcZ (f : full3) (rrr : sub3) (dr : option (sub3 * sub3)) : res3 full3 :=
  z <~ zval f rrr dr ;;
  Ok3 (mkF3 (mkS3 (setZeta (s_o (f_s f)) (fst z)) (s_res (f_s f) ++ map (fun q => (fst q, RZero (snd q))) (snd z)))
        (Some rrr) (option_map fst dr) (option_map snd dr) None).

(** ** _write, corr3base.py:2424-2469 *)
Definition totOf (c : cls3) (o : obj3) : option R := match c with NNN3 => Some (o_tot o) | _ => None end.
Fixpoint zeros3 (l : list (key3 * rent)) : list (key3 * R) :=
  match l with [] => [] | (k, RZero t) :: r => (k, t) :: zeros3 r | _ :: r => zeros3 r end.
Fixpoint nonz3 (l : list (key3 * rent)) : list (key3 * obj3) :=
  match l with [] => [] | (k, RNon o) :: r => (k, o) :: nonz3 r | _ :: r => nonz3 r end.
Fixpoint ppBlks (c : cls3) (bt : bint3) (b : base3) (i : nat) (l : list (key3 * obj3)) : list blk3 :=
  match l with
  | [] => []
  | (k, o) :: r =>
      Tab3 (EPP3 b i) (mkP3 c (o_coords o) (o_metric o) (totOf c o) None None None None None (Some k) None None None)
        (colsOf c bt o) :: ppBlks c bt b (S i) r
  end.
(** [cols]: the columns of the main table; [flags]: _rrr, _drr, _rdd of nnncorrelation.py:866-869 *)
Definition writeSub (c : cls3) (bt : bint3) (name : option base3) (wpr : bool) (cov : option (list arr3))
    (flags : option (bool * bool * bool)) (s : sub3) (cols : cols3) : list blk3 :=
  let o := s_o s in
  let wcov := match cov with Some _ => true | None => false end in
  let b := match name with Some b => b | None => Main3 end in
  let e := match name with Some b => EB3 b | None => if wpr || wcov then EB3 Main3 else ENone3 end in
  Tab3 e (mkP3 c (o_coords o) (o_metric o) (totOf c o)
            (if wpr then Some (o_np o) else None) (if wpr then Some nb else None)
            (if wpr then Some (List.length (nonz3 (s_res s))) else None)
            (if wpr then match c with NNN3 => Some (zeros3 (s_res s)) | _ => None end else None)
            (option_map (@List.length arr3) cov) None
            (option_map (fun x => fst (fst x)) flags) (option_map (fun x => snd (fst x)) flags) (option_map snd flags)) cols
  :: (if wpr then ppBlks c bt b 0 (nonz3 (s_res s)) else [])
  ++ match cov with Some m => [Arr3 ECov3 m] | None => [] end.
Definition isSome3 {A} (x : option A) : bool := match x with Some _ => true | None => false end.
(** write: kkkcorrelation.py:413-416, gggcorrelation.py:630-633 *)
Definition writeKG (ascii : bool) (c : cls3) (bt : bint3) (wpr : bool) (cov : option (list arr3)) (s : sub3) : file3 :=
  mkFile3 ascii (writeSub c bt None wpr cov None s (colsOf c bt (s_o s))).
(** write of NNN, nnncorrelation.py:766-787; [randoms]: the arguments rrr and (drr, rdd).  calculateZeta raises TypeError
    for LogMultipole (492-493).  [cov]: self.cov of the state that is written, if write_cov. *)
Definition optSub (bt : bint3) (b : base3) (s : option sub3) : list blk3 :=
  match s with Some s => writeSub NNN3 bt (Some b) true None None s (colsNNN bt (s_o s)) | None => [] end.
Definition orElse3 {A} (a b : option A) : option A := match a with Some _ => a | None => b end.
Definition writeNNN (ascii : bool) (bt : bint3) (wpr : bool) (cov : full3 -> option (list arr3)) (f : full3)
    (randoms : option (sub3 * option (sub3 * sub3))) : res3 (full3 * file3) :=
  fc <~ match randoms with
        | None => Ok3 (f, colsNNN bt (s_o (f_s f)))
        | Some (rrr, dr) =>
            match bt with
            | MP => ErrType3
            | _ => f' <~ calcZ f rrr dr ;; Ok3 (f', colsNNNr bt (s_o (f_s f')) rrr dr)
            end
        end ;;
  let f' := fst fc in
  let flags := if wpr then Some (isSome3 (f_rrr f'), isSome3 (f_drr f'), isSome3 (f_rdd f')) else None in
  let rr := match randoms with Some (rrr, _) => Some rrr | None => None end in
  let dr := match randoms with Some (_, Some (drr, _)) => Some drr | _ => None end in
  let rd := match randoms with Some (_, Some (_, rdd)) => Some rdd | _ => None end in
  Ok3 (f', mkFile3 ascii
        (writeSub NNN3 bt None wpr (cov f') flags (f_s f') (snd fc) ++
         (if wpr then optSub bt Rrr3 (orElse3 rr (f_rrr f')) ++ optSub bt Drr3 (orElse3 dr (f_drr f'))
                      ++ optSub bt Rdd3 (orElse3 rd (f_rdd f')) else []))).

(** ** _read_from_data *)
Fixpoint assoc3 (n : string) (d : cols3) : option arr3 :=
  match d with [] => None | (m, a) :: t => if String.eqb n m then Some a else assoc3 n t end.
(** data[name].reshape(s), after read_data(max_rows) *)
Definition col3 (mx : option nat) (d : cols3) (n : string) : res3 arr3 :=
  match assoc3 n d with
  | None => ErrKey3
  | Some a => let a := match mx with Some m => firstn m a | None => a end in
              if Nat.eqb (List.length a) nb then Ok3 a else ErrValue3
  end.
Definition set3 (o : obj3) (a : at3) (v : arr3) : obj3 :=
  mkO3 (fun x => match x, a with
        | MeanD1, MeanD1 | MeanLD1, MeanLD1 | MeanD2, MeanD2 | MeanLD2, MeanLD2 | MeanD3, MeanD3 | MeanLD3, MeanLD3
        | MeanU, MeanU | MeanV, MeanV | WR, WR | WI, WI | NTri, NTri
        | Z1, Z1 | Z2, Z2 | Z3, Z3 | Z4, Z4 | Z5, Z5 | Z6, Z6 | Z7, Z7 | Z8, Z8 => v
        | _, _ => o_at o x end) (o_var o) (o_zeta o) (o_tot o) (o_np o) (o_coords o) (o_metric o).
Definition setVar (o : obj3) (i : nat) (v : arr3) : obj3 :=
  mkO3 (o_at o) (fun j => if Nat.eqb j i then Some v else o_var o j) (o_zeta o) (o_tot o) (o_np o) (o_coords o) (o_metric o).
Definition setTot (o : obj3) (t : R) : obj3 :=
  mkO3 (o_at o) (o_var o) (o_zeta o) t (o_np o) (o_coords o) (o_metric o).
Definition setHead (o : obj3) (p : par3) : obj3 :=
  mkO3 (o_at o) (o_var o) (o_zeta o) (o_tot o) (match p_np p with Some n => n | None => (1, 1, 1)%Z end)
    (p_coords p) (p_metric p).
Fixpoint readCols (mx : option nat) (d : cols3) (l : list (at3 * string)) (o : obj3) : res3 obj3 :=
  match l with
  | [] => Ok3 o
  | (a, n) :: t => v <~ col3 mx d n ;; readCols mx d t (set3 o a v)
  end.
(** corr3base.py:2504-2532 *)
Definition readBase (mx : option nat) (bt : bint3) (d : cols3) (p : par3) (o : obj3) : res3 obj3 :=
  o <~ readCols mx d [(MeanD1, "meand1"); (MeanLD1, "meanlogd1"); (MeanD2, "meand2"); (MeanLD2, "meanlogd2");
                      (MeanD3, "meand3"); (MeanLD3, "meanlogd3")] o ;;
  o <~ readCols mx d match bt with
                     | RUV => [(MeanU, "meanu"); (MeanV, "meanv")] | SAS => [(MeanU, "meanphi")] | MP => []
                     end o ;;
  o <~ readCols mx d match bt with
                     | MP => [(WR, "weight_re"); (WI, "weight_im")]
                     | _ => match assoc3 "weight" d with Some _ => [(WR, "weight")] | None => [] end
                     end o ;;
  o <~ readCols mx d [(NTri, "ntri")] o ;;
  Ok3 (setHead o p).
Definition sq3 (a : arr3) : arr3 := map (fun x => x * x) a.
Fixpoint readVars (mx : option nat) (d : cols3) (l : list (nat * string)) (o : obj3) : res3 obj3 :=
  match l with
  | [] => Ok3 o
  | (i, n) :: t => v <~ col3 mx d n ;; readVars mx d t (setVar o i (sq3 v))
  end.
Definition readData3 (c : cls3) (mx : option nat) (bt : bint3) (d : cols3) (p : par3) (o : obj3) : res3 obj3 :=
  o <~ readBase mx bt d p o ;;
  match c with
  | KKK3 =>                                                          (* kkkcorrelation.py:459-467 *)
      o <~ readCols mx d match bt with MP => [(Z1, "zeta_re"); (Z2, "zeta_im")] | _ => [(Z1, "zeta")] end o ;;
      readVars mx d [(0%nat, "sigma_zeta")] o
  | GGG3 =>                                                          (* gggcorrelation.py:684-699 *)
      o <~ readCols mx d [(Z1, "gam0r"); (Z2, "gam0i"); (Z3, "gam1r"); (Z4, "gam1i"); (Z5, "gam2r"); (Z6, "gam2i");
                          (Z7, "gam3r"); (Z8, "gam3i")] o ;;
      readVars mx d [(0%nat, "sigma_gam0"); (1%nat, "sigma_gam1"); (2%nat, "sigma_gam2"); (3%nat, "sigma_gam3")] o
  | NNN3 =>                                                          (* nnncorrelation.py:943-951 *)
      o <~ match assoc3 "zeta" d with
           | Some _ => z <~ col3 mx d "zeta" ;; s <~ col3 mx d "sigma_zeta" ;; Ok3 (setZeta o (z, sq3 s))
           | None => Ok3 o
           end ;;
      o <~ readCols mx d match bt with MP => [] | _ => [(WR, "DDD")] end o ;;
      match p_tot p with Some t => Ok3 (setTot o t) | None => ErrKey3 end
  end.

(** ** _read, corr3base.py:2471-2502 *)
Definition find3 (f : file3) (e : ext3) : option blk3 :=
  match e, fl_ascii f with
  | ENone3, true => hd_error (fl_blks f)
  | _, _ => find (fun b => ext3_eqb e (blk3_ext b)) (fl_blks f)
  end.
Definition hasMain3 (f : file3) : bool :=
  negb (fl_ascii f) && existsb (fun b => ext3_eqb (EB3 Main3) (blk3_ext b)) (fl_blks f).
Fixpoint readPP (c : cls3) (bt : bint3) (f : file3) (mx : option nat) (b : base3) (o : obj3) (i n : nat)
    : res3 (list (key3 * rent)) :=
  match n with
  | O => Ok3 []
  | S n' =>
      match find3 f (EPP3 b i) with
      | Some (Tab3 _ p d) =>
          r <~ readData3 c mx bt d p o ;;
          match p_key p with
          | Some k => l <~ readPP c bt f mx b o (S i) n' ;; Ok3 ((k, RNon r) :: l)
          | None => ErrKey3
          end
      | _ => ErrKey3
      end
  end.
Definition readSub (c : cls3) (bt : bint3) (f : file3) (name : option base3) (s : sub3) (cov0 : option (list arr3))
    : res3 (sub3 * par3 * option (list arr3)) :=
  let name := if hasMain3 f && negb (isSome3 name) then Some Main3 else name in
  match find3 f (match name with Some b => EB3 b | None => ENone3 end) with
  | Some (Tab3 _ p d) =>
      let npt := match p_ntri p with Some n => n | None => 0%nat end in
      let zp := match p_zp p with Some l => l | None => [] end in
      let name := if negb (Nat.eqb npt 0) && negb (isSome3 name) then Some Main3 else name in
      o <~ readData3 c (p_rows p) bt d p (s_o s) ;;
      zs <~ match zp, name with
            | [], _ => Ok3 []
            | _, Some _ => Ok3 (map (fun q => (fst q, RZero (snd q))) zp)
            | _, None => ErrType3                                    (* None + '_zp_0' *)
            end ;;
      rs <~ readPP c bt f (p_rows p) (match name with Some b => b | None => Main3 end) o 0 npt ;;
      cv <~ match p_cov p with
            | None => Ok3 cov0
            | Some _ => match find3 f ECov3 with Some (Arr3 _ m) => Ok3 (Some m) | _ => ErrKey3 end
            end ;;
      Ok3 (mkS3 o (zs ++ rs), p, cv)
  | _ => ErrKey3
  end.
(** read: _do_read of NNN (nnncorrelation.py:929-941).  rrr = self.copy(): it starts with the values just read. *)
Definition readRand (bt : bint3) (f : file3) (b : base3) (s : sub3) (fl : option bool) : res3 (option sub3) :=
  match fl with
  | Some true => q <~ readSub NNN3 bt f (Some b) s None ;; Ok3 (Some (fst (fst q)))
  | _ => Ok3 None
  end.
Definition readFull (c : cls3) (bt : bint3) (f : file3) (x : full3) : res3 full3 :=
  q <~ readSub c bt f None (f_s x) (f_cov x) ;;
  let s := fst (fst q) in let p := snd (fst q) in
  match c with
  | NNN3 =>
      rrr <~ readRand bt f Rrr3 s (p_rrr p) ;; drr <~ readRand bt f Drr3 s (p_drr p) ;; rdd <~ readRand bt f Rdd3 s (p_rdd p) ;;
      Ok3 (mkF3 s rrr drr rdd (snd q))
  | _ => Ok3 (mkF3 s None None None (snd q))
  end.
(** The object that from_file makes first *)
Definition fresh3 (c : cls3) (bt : bint3) : full3 :=
  let z := repeat 0 nb in
  mkF3 (mkS3 (mkO3 (fun a => match a, c with
                     | WI, _ => match bt with MP => z | _ => [] end
                     | (Z1 | Z3 | Z4 | Z5 | Z6 | Z7 | Z8), GGG3 | Z1, KKK3 => z
                     | Z2, GGG3 => z
                     | Z2, KKK3 => match bt with MP => z | _ => [] end
                     | (Z1 | Z2 | Z3 | Z4 | Z5 | Z6 | Z7 | Z8), _ => []
                     | _, _ => z end) (fun _ => None) None 0 (1, 1, 1)%Z "" "") []) None None None None.
(** from_file, corr3base.py:2588-2604, nnncorrelation.py:885-899 *)
Definition fromFile3 (c : cls3) (bt : bint3) (f : file3) : res3 full3 :=
  match find3 f (if hasMain3 f then EB3 Main3 else ENone3) with
  | Some (Tab3 _ p _) => if cls3_eqb (p_corr p) c then readFull c bt f (fresh3 c bt) else ErrOS3
  | _ => ErrKey3
  end.
End IO3.
