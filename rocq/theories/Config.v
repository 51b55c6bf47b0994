(** Model of treecorr/config.py: parse_variable (26-51), parse_bool (54-85), _read_params_file
    (146-159), parse (200-212 region), check_config (215-293), convert, get_from_list, get (325-397),
    merge_config (399-420), make_minimal_config (422-432).
    [None] of an option result stands for a raised exception.  Dicts are association lists in
    insertion order.  Strings are lists of 8-bit characters; the calls value_type(value) for
    int/float/str and parse_unit are taken as given functions (record [pyenv]). *)
From Coq Require Import String Ascii ZArith QArith Bool List.
Import ListNotations.
Open Scope list_scope.

(** ** Values *)
Inductive pyval :=
| VNone | VBool (b : bool) | VInt (z : Z) | VFloat (q : Q) | VStr (s : string) | VList (l : list pyval).
Definition numOf (v : pyval) : option Q :=
  match v with
  | VBool b => Some (if b then 1 else 0)%Q
  | VInt z => Some (inject_Z z)
  | VFloat q => Some q
  | _ => None
  end.
(** Python ==: True == 1 == 1.0 *)
Fixpoint pyeq (v w : pyval) {struct v} : bool :=
  match v, w with
  | VNone, VNone => true
  | VStr a, VStr b => String.eqb a b
  | VList a, VList b =>
      (fix go (a b : list pyval) {struct a} : bool :=
         match a, b with
         | [], [] => true
         | x :: a', y :: b' => pyeq x y && go a' b'
         | _, _ => false
         end) a b
  | _, _ => match numOf v, numOf w with Some p, Some q => Qeq_bool p q | _, _ => false end
  end.
Definition isNone (v : pyval) : bool := match v with VNone => true | _ => false end.

Definition dict (A : Type) := list (string * A).
Fixpoint get {A} (d : dict A) (k : string) : option A :=
  match d with [] => None | (k', v) :: d' => if String.eqb k' k then Some v else get d' k end.
Fixpoint set {A} (d : dict A) (k : string) (v : A) : dict A :=
  match d with
  | [] => [(k, v)]
  | (k', v') :: d' => if String.eqb k' k then (k', v) :: d' else (k', v') :: set d' k v
  end.
Definition del {A} (d : dict A) (k : string) : dict A := filter (fun p => negb (String.eqb (fst p) k)) d.
Definition has {A} (d : dict A) (k : string) : bool := match get d k with Some _ => true | None => false end.
Definition keys {A} (d : dict A) : list string := map fst d.

(** ** Strings *)
Definition isSpace (c : ascii) : bool :=
  let n := nat_of_ascii c in
  ((9 <=? n) && (n <=? 13) || (28 <=? n) && (n <=? 32))%nat.
Fixpoint lstrip (s : list ascii) : list ascii :=
  match s with [] => [] | c :: s' => if isSpace c then lstrip s' else s end.
Definition strip (s : list ascii) : list ascii := rev (lstrip (rev (lstrip s))).
Definition upc (c : ascii) : ascii :=
  let n := nat_of_ascii c in if ((97 <=? n) && (n <=? 122))%nat then ascii_of_nat (n - 32) else c.
Definition upper (s : list ascii) : list ascii := map upc s.
Definition chars := list_ascii_of_string.
Definition str := string_of_list_ascii.
Definition startswith (s pre : string) : bool := String.prefix pre s.
(** s.split(c) *)
Fixpoint splitOn (c : ascii) (s : list ascii) : list (list ascii) :=
  match s with
  | [] => [[]]
  | a :: s' => match splitOn c s' with
               | w :: ws => if Ascii.eqb a c then [] :: w :: ws else (a :: w) :: ws
               | [] => [[]]
               end
  end.
(** s.split(c,1) when c occurs: the parts before and after the first occurrence *)
Fixpoint splitOnce (c : ascii) (s : list ascii) : option (list ascii * list ascii) :=
  match s with
  | [] => None
  | a :: s' => if Ascii.eqb a c then Some ([], s')
               else match splitOnce c s' with Some (l, r) => Some (a :: l, r) | None => None end
  end.
(** s.split(): maximal runs of non-space characters; [cur] is the run being read, reversed *)
Fixpoint words (cur : list ascii) (s : list ascii) : list (list ascii) :=
  match s with
  | [] => match cur with [] => [] | _ => [rev cur] end
  | a :: s' => if isSpace a then match cur with [] => words [] s' | _ => rev cur :: words [] s' end
               else words (a :: cur) s'
  end.
Definition has_char (c : ascii) (s : list ascii) : bool := existsb (Ascii.eqb c) s.

(** parse_variable, 26-51 *)
Definition oneOf (l : list ascii) (c : ascii) : bool := existsb (Ascii.eqb c) l.
Definition parse_variable (config : dict pyval) (v : list ascii) : option (dict pyval) :=
  match splitOnce "="%char v with
  | None => None
  | Some (key, value) =>
      let key := strip key in
      let value := if has_char "#"%char value then hd [] (splitOn "#"%char value) else value in
      let value := strip value in
      match value with
      | [] => None                                      (* value[0]: IndexError *)
      | c :: _ =>
          let values :=
            if oneOf ["{"; "["; "("]%char c then
              if oneOf ["}"; "]"; ")"]%char (last value c)
              then Some (map strip (splitOn ","%char (removelast (tl value))))
              else None
            else Some (words [] value) in
          match values with
          | None => None
          | Some [x] => Some (set config (str key) (VStr (str x)))
          | Some l => Some (set config (str key) (VList (map (fun x => VStr (str x)) l)))
          end
      end
  end.
(** _read_params_file, 146-159; [incl] is read_config of the included file; a line is given without
    regard to its newline, which strip removes *)
Definition updateDict {A} (d e : dict A) : dict A := fold_left (fun d p => set d (fst p) (snd p)) e d.
Definition paramLine (incl : list ascii -> option (dict pyval)) (config : dict pyval) (line : list ascii)
  : option (dict pyval) :=
  match strip line with
  | [] => Some config
  | c :: v' =>
      if Ascii.eqb c "#" then Some config
      else if Ascii.eqb c "+" then match incl v' with Some e => Some (updateDict config e) | None => None end
      else parse_variable config (c :: v')
  end.
Fixpoint paramLines incl (config : dict pyval) (lines : list (list ascii)) : option (dict pyval) :=
  match lines with
  | [] => Some config
  | l :: ls => match paramLine incl config l with Some c => paramLines incl c ls | None => None end
  end.
Definition read_params incl lines := paramLines incl [] lines.

(** ** Parsing of values *)
Inductive ptype := TInt | TFloat | TBool | TStr.
Definition ptype_eqb (a b : ptype) : bool :=
  match a, b with TInt, TInt | TFloat, TFloat | TBool, TBool | TStr, TStr => true | _, _ => false end.
Record pyenv := mkEnv {
  conv : ptype -> pyval -> option pyval;   (* int(v), float(v), str(v), bool(v) *)
  parseUnit : pyval -> option pyval        (* parse_unit(v) *)
}.
(** parse_bool, 54-85 *)
Definition trueNames := ["TRUE"; "YES"; "T"; "Y"]%string.
Definition falseNames := ["FALSE"; "NO"; "F"; "N"; "NONE"]%string.
Definition parse_bool (E : pyenv) (v : pyval) : option pyval :=
  match v with
  | VStr s =>
      let u := str (upper (strip (chars s))) in
      if existsb (String.eqb u) trueNames then Some (VBool true)
      else if existsb (String.eqb u) falseNames then Some (VBool false)
      else conv E TInt v
  | VBool _ | VInt _ => Some v
  | _ => None
  end.
Definition parse (E : pyenv) (v : pyval) (t : ptype) : option pyval :=
  match t with
  | TBool => parse_bool E v
  | _ => if isNone v then Some VNone else conv E t v
  end.
Fixpoint mapM {A B} (f : A -> option B) (l : list A) : option (list B) :=
  match l with
  | [] => Some []
  | x :: r => match f x, mapM f r with Some y, Some ys => Some (y :: ys) | _, _ => None end
  end.

(** ** check_config *)
Record pspec := mkSpec { p_type : ptype; p_list : bool; p_default : pyval; p_valid : option (list pyval) }.
(** 254-283: the value to write back; [Some None] is the [continue] for value None *)
Definition checkValid (t : ptype) (valid : list pyval) (v : pyval) : option pyval :=
  match t with
  | TStr =>
      match filter (pyeq v) valid with
      | [m] => Some m
      | [] =>
          match v with
          | VStr s => match filter (fun w => match w with VStr p => startswith s p | _ => false end) valid with
                      | [m] => Some m
                      | _ => None
                      end
          | _ => None                          (* no startswith, or no match *)
          end
      | _ => None
      end
  | _ => if existsb (pyeq v) valid then Some v else None
  end.
Definition checkOpt (sp : pspec) (v : pyval) : option pyval :=
  match p_valid sp with None => Some v | Some l => checkValid (p_type sp) l v end.
Definition checkValue (E : pyenv) (sp : pspec) (v : pyval) : option (option pyval) :=
  match p_list sp, v with
  | true, VList l =>
      match mapM (fun x => parse E x (p_type sp)) l with
      | None => None
      | Some l' => option_map Some (checkOpt sp (VList l'))
      end
  | _, _ =>
      match parse E v (p_type sp) with
      | None => None
      | Some VNone => Some None
      | Some v' => option_map Some (checkOpt sp v')
      end
  end.
Definition params := dict pspec.
Definition checkKey (E : pyenv) (P : params) (aliases : dict string) (cfg : dict pyval) (key0 : string)
  : option (dict pyval) :=
  let moved :=
    match get aliases key0 with
    | None => Some (cfg, key0)
    | Some nk => match get cfg key0 with
                 | None => None
                 | Some v => Some (del (set cfg nk v) key0, nk)
                 end
    end in
  match moved with
  | None => None
  | Some (cfg, key) =>
      match get P key, get cfg key with
      | Some sp, Some v =>
          match checkValue E sp v with
          | None => None
          | Some None => Some cfg
          | Some (Some v') => Some (set cfg key v')
          end
      | _, _ => None
      end
  end.
Fixpoint checkKeys E P aliases cfg ks : option (dict pyval) :=
  match ks with
  | [] => Some cfg
  | k :: r => match checkKey E P aliases cfg k with Some c => checkKeys E P aliases c r | None => None end
  end.
(** 285-291 *)
Definition fillDefaults (P : params) (cfg : dict pyval) : dict pyval :=
  fold_left (fun c p => if has c (fst p) then c
                        else if isNone (p_default (snd p)) then c else set c (fst p) (p_default (snd p))) P cfg.
Definition check_config E P aliases cfg : option (dict pyval) :=
  option_map (fillDefaults P) (checkKeys E P aliases cfg (keys cfg)).
(** merge_config, 412-420 (a kwargs or config of None is the empty dict) *)
Definition addMissing (P : params) (config kwargs : dict pyval) : dict pyval :=
  fold_left (fun kw p => if has P (fst p) && negb (has kw (fst p)) then set kw (fst p) (snd p) else kw) config kwargs.
Definition merge_config E P aliases config kwargs := check_config E P aliases (addMissing P config kwargs).
(** make_minimal_config, 432 *)
Definition make_minimal_config (P : params) (config : dict pyval) : dict pyval :=
  filter (fun p => match get P (fst p) with Some sp => negb (pyeq (snd p) (p_default sp)) | None => false end) config.

(** ** Getting values *)
Fixpoint isInfix (p : string) (s : string) : bool :=
  String.prefix p s || match s with EmptyString => false | String _ s' => isInfix p s' end.
(** convert, 325-345 *)
Definition convert (E : pyenv) (v : pyval) (t : ptype) (key : string) : option pyval :=
  if isNone v then Some VNone
  else if isInfix "unit" key then parseUnit E v
  else match t with TBool => parse_bool E v | _ => conv E t v end.
(** l[num] with Python's negative indices *)
Definition pyIndex {A} (l : list A) (num : Z) : option A :=
  let n := Z.of_nat (length l) in
  if ((0 <=? num) && (num <? n))%Z then nth_error l (Z.to_nat num)
  else if ((- n <=? num) && (num <? 0))%Z then nth_error l (Z.to_nat (n + num))
  else None.
(** 366-378 *)
Definition orDefault (E : pyenv) (v default : pyval) (t : ptype) (key : string) : option pyval :=
  if isNone v then (if isNone default then Some VNone else convert E default t key) else convert E v t key.
Definition get_from_list (E : pyenv) (config : dict pyval) (key : string) (num : Z) (t : ptype) (default : pyval)
  : option pyval :=
  match get config key with
  | Some (VList l) => match pyIndex l num with
                      | None => None
                      | Some v => orDefault E v default t key
                      end
  | Some v => orDefault E v default t key
  | None => orDefault E VNone default t key
  end.
(** get, 381-397 *)
Definition cget (E : pyenv) (config : dict pyval) (key : string) (t : ptype) (default : pyval) : option pyval :=
  orDefault E (match get config key with Some v => v | None => default end) default t key.
