(** Model of the NN part of the corr2 function (treecorr/exec_corr2.py), from the contents of the
    input files to the columns of the output file, and of the parts of Corr2.process and
    NNCorrelation.write which it uses.  Not modelled: parsing of the config dict and of the files, the
    sigma_xi column, the other correlation functions of the same run (each is a separate block). *)
From Coq Require Import Reals List ZArith Bool.
From Verif Require Import Base Geometry Tree Traverse Run Corr Patch.
Import ListNotations.
Open Scope R_scope.

(** An input file after it was read: no patch information, or patch_col (catalog.py:1527-1533:
    npatch = max(patch) + 1). *)
Inductive infile := FPlain (l : list obj) | FPatch (rows : list (Z * obj)).
Definition fileRows (f : infile) : list obj := match f with FPlain l => l | FPatch r => map snd r end.
Definition fileNPatch (f : infile) : Z :=
  match f with FPlain _ => 1 | FPatch r => fold_right Z.max 0 (map fst r) + 1 end%Z.
(** An element of the lists given to process: _single_patch, npatch and the rows. *)
Record cat := mkcat { csingle : option Z; cnpatch : Z; crows : list obj }.
(** Catalog.get_patches, catalog.py:2935-2937 and 2961-3003. *)
Definition filePatches (f : infile) : list cat :=
  match f with
  | FPlain l => [mkcat None 1 l]
  | FPatch r => if (fileNPatch f =? 1)%Z then [mkcat None 1 (map snd r)]
                else map (fun p => mkcat (Some (pidx p)) (fileNPatch f) (pobjs p)) (getPatches r)
  end.
(** read_catalogs, catalog.py:3268-3271 (no key in config: the empty list, 3258-3260). *)
Definition readCatalogs (fs : list infile) : list cat := flat_map filePatches fs.

(** c1._single_patch if c1._single_patch is not None else ii  (corr2base.py:866, 876, 887, 963, 965). *)
Fixpoint numberFrom (ii : Z) (l : list cat) : list patch :=
  match l with
  | [] => []
  | c :: t => mkpatch (match csingle c with Some i => i | None => ii end) (crows c) :: numberFrom (ii + 1) t
  end.
Definition number : list cat -> list patch := numberFrom 0.

(** A processed NNCorrelation: arrays, tot and results; npatch1, npatch2 (1 from the constructor). *)
Record nnres := mkNN { nst : pstate; nnp1 : Z; nnp2 : Z }.
Definition ncorr (r : nnres) : corr := sself (nst r).
(** cat1[0].npatch if cat1[0].npatch != 1 else len(cat1)  (corr2base.py:844, 935, 937). *)
Definition npatchOfList (l : list cat) : Z :=
  match l with
  | [] => 0
  | c :: _ => if (cnpatch c =? 1)%Z then Z.of_nat (length l) else cnpatch c
  end.
Definition oneUnpatched (l : list cat) : bool :=
  match l with [c] => (cnpatch c =? 1)%Z | _ => false end.
(** _process_all_auto, corr2base.py:839-895 (no MPI, patch_method='global'), after clear. *)
Definition procAuto (C : pcfg) (l : list cat) (r : nnres) : Prop :=
  if oneUnpatched l then
    exists temp, tempAuto C (flat_map crows l) temp /\ r = mkNN (mkS temp []) 1 1
  else exists st, runJobs C sclear (autoJobs (number l)) st /\ r = mkNN st (npatchOfList l) (npatchOfList l).
(** _process_all_cross, corr2base.py:930-975.  None is the RuntimeError of 938-939. *)
Definition procCross (C : pcfg) (l1 l2 : list cat) (r : option nnres) : Prop :=
  if oneUnpatched l1 && oneUnpatched l2 then
    exists t, runCross (pR C) (flat_map crows l1) (flat_map crows l2) cleared t /\
      r = Some (mkNN (mkS (mkK t (0 + sumw (flat_map crows l1) * sumw (flat_map crows l2))) []) 1 1)
  else
    let n1 := npatchOfList l1 in let n2 := npatchOfList l2 in
    if negb (n1 =? n2)%Z && negb (n1 =? 1)%Z && negb (n2 =? 1)%Z then r = None
    else exists st, runJobs C sclear (crossJobs n1 n2 (number l1) (number l2)) st /\ r = Some (mkNN st n1 n2).

(** The columns of the output file besides r_nom, meanr, meanlogr and sigma_xi
    (nncorrelation.py:584-625). *)
Record nnout := mkOut { o_xi : option (Z -> R); o_DD : Z -> R; o_RR : option (Z -> R);
                        o_DR : option (Z -> R); o_RD : option (Z -> R); o_npairs : Z -> R }.
Inductive outcome := TypeErr | RuntimeErr | ValueErr | Wrote (o : nnout).

(** The checks of calculateXi that the randoms use the same patches, nncorrelation.py:380-394. *)
Definition patchesDiffer (dd rr : nnres) (dr rd : option nnres) : bool :=
  match sres (nst dd) with
  | [] => false
  | _ =>
      (negb (nnp1 rr =? 1)%Z && negb (nnp2 rr =? 1)%Z &&
       (negb (nnp1 rr =? nnp1 dd)%Z || negb (nnp2 rr =? nnp2 dd)%Z)) ||
      match dr with
      | None => false
      | Some c => match sres (nst c) with [] => true | _ => false end || negb (nnp1 c =? nnp1 dd)%Z ||
                  negb ((nnp2 c =? nnp2 dd)%Z || (nnp2 c =? 1)%Z)
      end ||
      match rd with
      | None => false
      | Some c => match sres (nst c) with [] => true | _ => false end || negb (nnp2 c =? nnp2 dd)%Z ||
                  negb ((nnp1 c =? nnp1 dd)%Z || (nnp1 c =? 1)%Z)
      end
  end.
(** dd.write(rr, dr, rd): _write_data, nncorrelation.py:603-625. *)
Definition nnWrite (dd : nnres) (rr dr rd : option nnres) : outcome :=
  let w c := a_weight (kacc (ncorr c)) in
  let scaled c k := w c k * (ktot (ncorr dd) / ktot (ncorr c)) in
  match rr with
  | None => match dr, rd with
            | None, None => Wrote (mkOut None (w dd) None None None (a_npairs (kacc (ncorr dd))))
            | _, _ => TypeErr
            end
  | Some rr =>
      match calculateXi (ncorr dd) (ncorr rr) (option_map ncorr dr) (option_map ncorr rd) with
      | None => ValueErr
      | Some xi =>
          if patchesDiffer dd rr dr rd then RuntimeErr else
          let two := match dr, rd with
                     | Some a, Some b => (Some (scaled a), Some (scaled b))
                     | Some a, None => (Some (scaled a), None)
                     | None, Some b => (Some (scaled b), None)
                     | None, None => (None, None)
                     end in
          Wrote (mkOut (Some xi) (w dd) (Some (scaled rr)) (fst two) (snd two) (a_npairs (kacc (ncorr dd))))
      end
  end.

Definition cross_then (C : pcfg) (l1 l2 : list cat) (next : nnres -> outcome -> Prop) (o : outcome) : Prop :=
  exists r, procCross C l1 l2 r /\ match r with None => o = RuntimeErr | Some c => next c o end.
Definition auto_then (C : pcfg) (l : list cat) (next : nnres -> outcome -> Prop) (o : outcome) : Prop :=
  exists r, procAuto C l r /\ next r o.

(** corr2 with nn_file_name in config, exec_corr2.py:187-240.  [comp]: nn_statistic ==
    'compensated'. *)
Definition corr2NN (C : pcfg) (comp : bool) (file_name file_name2 rand_file_name rand_file_name2 : list infile)
    (o : outcome) : Prop :=
  let cat1 := readCatalogs file_name in
  let cat2 := readCatalogs file_name2 in
  let rand1 := readCatalogs rand_file_name in
  let rand2 := readCatalogs rand_file_name2 in
  match cat1, cat2, rand2 with
  | [], _, _ => o = TypeErr
  | _, [], _ :: _ => o = TypeErr
  | _, [], [] =>
      auto_then C cat1 (fun dd o =>
        match rand1 with
        | [] => o = nnWrite dd None None None
        | _ => auto_then C rand1 (fun rr o =>
                 if comp then cross_then C cat1 rand1 (fun dr o => o = nnWrite dd (Some rr) (Some dr) None) o
                 else o = nnWrite dd (Some rr) None None) o
        end) o
  | _, _ :: _, _ =>
      cross_then C cat1 cat2 (fun dd o =>
        match rand1 with
        | [] => o = nnWrite dd None None None
        | _ => match rand2 with
               | [] => o = TypeErr
               | _ => cross_then C rand1 rand2 (fun rr o =>
                        if comp then
                          cross_then C cat1 rand2 (fun dr o =>
                            cross_then C rand1 cat2 (fun rd o =>
                              o = nnWrite dd (Some rr) (Some dr) (Some rd)) o) o
                        else o = nnWrite dd (Some rr) None None) o
               end
        end) o
  end.
