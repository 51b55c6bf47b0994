(** C52: 'key = value' lines and .params files. *)
From Coq Require Import String Ascii ZArith Bool List Lia.
From Verif Require Import Config PropsConfig.
Import ListNotations.
Open Scope list_scope.

Definition allSpace (s : list ascii) : Prop := Forall (fun c => isSpace c = true) s.
Definition noSpace (s : list ascii) : Prop := Forall (fun c => isSpace c = false) s.
Definition lacks (c : ascii) (s : list ascii) : Prop := ~ In c s.
(** A text that neither starts nor ends with white space and is not empty. *)
Definition trimmed (s : list ascii) : Prop :=
  exists a z, hd_error s = Some a /\ hd_error (rev s) = Some z /\ isSpace a = false /\ isSpace z = false.

Lemma splitOnce_app c a b : lacks c a -> splitOnce c (a ++ c :: b) = Some (a, b).
Proof.
  induction a as [|x a IH]; intro H; cbn.
  - rewrite Ascii.eqb_refl. auto.
  - destruct (Ascii.eqb_spec x c) as [->|N]; [exfalso; apply H; left; auto|].
    rewrite IH; auto. intro. apply H. right; auto.
Qed.
Lemma splitOnce_none c a : lacks c a -> splitOnce c a = None.
Proof.
  induction a as [|x a IH]; intro H; cbn; auto.
  destruct (Ascii.eqb_spec x c) as [->|N]; [exfalso; apply H; left; auto|].
  rewrite IH; auto. intro. apply H. right; auto.
Qed.
Lemma splitOn_nonempty c a : splitOn c a <> [].
Proof. induction a as [|x a IH]; cbn; [discriminate|]. destruct (splitOn c a); [congruence|]. destruct (Ascii.eqb x c); discriminate. Qed.
Lemma splitOn_lacks c a : lacks c a -> splitOn c a = [a].
Proof.
  induction a as [|x a IH]; intro H; cbn; auto. rewrite IH by (intro; apply H; right; auto).
  destruct (Ascii.eqb_spec x c) as [->|N]; auto. exfalso; apply H; left; auto.
Qed.
Lemma splitOn_app c a b : lacks c a -> splitOn c (a ++ c :: b) = a :: splitOn c b.
Proof.
  induction a as [|x a IH]; intro H; cbn.
  - rewrite Ascii.eqb_refl. pose proof (splitOn_nonempty c b). destruct (splitOn c b); congruence.
  - rewrite IH by (intro; apply H; right; auto).
    destruct (Ascii.eqb_spec x c) as [->|N]; auto. exfalso; apply H; left; auto.
Qed.
Lemma has_char_in c s : has_char c s = true <-> In c s.
Proof.
  unfold has_char. rewrite existsb_exists. split.
  - intros [x [H1 H2]]. apply Ascii.eqb_eq in H2. subst; auto.
  - intro H. exists c. rewrite Ascii.eqb_refl. auto.
Qed.
Lemma lstrip_space w s : allSpace w -> lstrip (w ++ s) = lstrip s.
Proof. induction 1; cbn; auto. rewrite H. auto. Qed.
Lemma lstrip_hd s a : hd_error s = Some a -> isSpace a = false -> lstrip s = s.
Proof. destruct s; cbn; [discriminate|]. intro H. injection H as ->. intros ->. auto. Qed.
Lemma allSpace_rev w : allSpace w -> allSpace (rev w).
Proof. unfold allSpace. rewrite !Forall_forall. intros H x Hx. apply H. apply in_rev. auto. Qed.
Lemma hd_app {A} (a : list A) x b : hd_error a = Some x -> hd_error (a ++ b) = Some x.
Proof. destruct a; cbn; auto. discriminate. Qed.
Lemma strip_trim w1 s w2 : allSpace w1 -> allSpace w2 -> trimmed s -> strip (w1 ++ s ++ w2) = s.
Proof.
  intros H1 H2 [a [z [A1 [A2 [A3 A4]]]]]. unfold strip. rewrite lstrip_space by auto.
  rewrite (lstrip_hd (s ++ w2) a); auto using hd_app. rewrite rev_app_distr.
  rewrite lstrip_space by (apply allSpace_rev; auto). rewrite (lstrip_hd (rev s) z); auto. apply rev_involutive.
Qed.
Lemma lstrip_all w : allSpace w -> lstrip w = [].
Proof. intro H. rewrite <- (app_nil_r w), lstrip_space; auto. Qed.
Lemma strip_all w : allSpace w -> strip w = [].
Proof. intro H. unfold strip. rewrite (lstrip_all w H). reflexivity. Qed.

(** ** The syntax of a value *)
(** words separated by white space *)
Inductive spaced : list (list ascii) -> list ascii -> Prop :=
| sp_one t : t <> [] -> noSpace t -> spaced [t] t
| sp_cons t w ts s : t <> [] -> noSpace t -> w <> [] -> allSpace w -> spaced ts s -> spaced (t :: ts) (t ++ w ++ s).
(** parts separated by commas *)
Inductive commas : list (list ascii) -> list ascii -> Prop :=
| cm_one t : lacks "," t -> commas [t] t
| cm_cons t ts s : lacks "," t -> commas ts s -> commas (t :: ts) (t ++ ","%char :: s).
Definition brackets (c : ascii) := oneOf ["{"; "["; "("]%char c = true.
Definition brackets' (c : ascii) := oneOf ["}"; "]"; ")"]%char c = true.
(** the values a text stands for *)
Inductive means : list (list ascii) -> list ascii -> Prop :=
| m_words ts s : spaced ts s -> (forall c, hd_error s = Some c -> ~ brackets c) -> means ts s
| m_list o ts s c : brackets o -> brackets' c -> commas ts s -> means (map strip ts) (o :: s ++ [c]).
Definition valueOf (ts : list (list ascii)) : pyval :=
  match ts with [x] => VStr (str x) | _ => VList (map (fun x => VStr (str x)) ts) end.

Lemma words_app t rest : noSpace t -> forall cur, words cur (t ++ rest) = words (rev t ++ cur) rest.
Proof.
  induction 1 as [|c t Hc Ht IH]; intro cur; cbn; auto. rewrite Hc, IH. rewrite <- app_assoc. auto.
Qed.
Lemma words_space w rest : allSpace w -> words [] (w ++ rest) = words [] rest.
Proof. induction 1 as [|c w Hc Hw IH]; cbn; auto. rewrite Hc. auto. Qed.
Lemma rev_nil {A} (t : list A) : t <> [] -> exists x r, rev t = x :: r.
Proof.
  intro H. destruct (rev t) eqn:E; eauto. exfalso. apply H. rewrite <- (rev_involutive t), E. auto.
Qed.
Lemma words_spaced ts s : spaced ts s -> words [] s = ts.
Proof.
  induction 1 as [t H1 H2|t w ts s H1 H2 H3 H4 H5 IH].
  - rewrite <- (app_nil_r t) at 1. rewrite words_app, app_nil_r by auto. cbn.
    destruct (rev_nil t H1) as [x [r E]]. rewrite E. rewrite <- E, rev_involutive. auto.
  - rewrite words_app, app_nil_r by auto. destruct w as [|c w]; [congruence|]. inversion H4; subst. cbn. rewrite H6.
    destruct (rev_nil t H1) as [x [r E]]. rewrite E. rewrite <- E, rev_involutive. f_equal. rewrite words_space; auto.
Qed.
Lemma splitOn_commas ts s : commas ts s -> splitOn "," s = ts.
Proof.
  induction 1 as [t H|t ts s H1 H2 IH]; [apply splitOn_lacks; auto|]. rewrite splitOn_app by auto. rewrite IH. auto.
Qed.
Lemma noSpace_hd t : t <> [] -> noSpace t -> exists a, hd_error t = Some a /\ isSpace a = false.
Proof. destruct t as [|a t]; [congruence|]. intros _ H. inversion H; subst. exists a. auto. Qed.
Lemma noSpace_rev t : noSpace t -> noSpace (rev t).
Proof. unfold noSpace. rewrite !Forall_forall. intros H x Hx. apply H. apply in_rev. auto. Qed.
Lemma rev_ne {A} (t : list A) : t <> [] -> rev t <> [].
Proof. intros H E. destruct (rev_nil t H) as [x [r E2]]. congruence. Qed.
Lemma spaced_trimmed ts s : spaced ts s -> trimmed s.
Proof.
  induction 1 as [t H1 H2|t w ts s H1 H2 H3 H4 H5 IH].
  - destruct (noSpace_hd t H1 H2) as [a [A1 A2]].
    destruct (noSpace_hd (rev t) (rev_ne t H1) (noSpace_rev t H2)) as [z [Z1 Z2]]. exists a, z. auto.
  - destruct (noSpace_hd t H1 H2) as [a [A1 A2]]. destruct IH as [b [z [_ [Z1 [_ Z2]]]]]. exists a, z.
    repeat split; auto; [apply hd_app; auto|]. rewrite !rev_app_distr, <- app_assoc. apply hd_app; auto.
Qed.
Lemma bracket_not_space c : brackets c \/ brackets' c -> isSpace c = false.
Proof.
  unfold brackets, brackets', oneOf. cbn [existsb]. rewrite !orb_true_iff, !Ascii.eqb_eq.
  intros [[->|[->|[->|H]]]|[->|[->|[->|H]]]]; auto; discriminate.
Qed.
Lemma means_trimmed ts s : means ts s -> trimmed s.
Proof.
  destruct 1 as [ts s H _|o ts s c H1 H2 H3].
  - eapply spaced_trimmed; eauto.
  - exists o, c. repeat split; auto; try (apply bracket_not_space; auto). cbn. rewrite rev_app_distr. auto.
Qed.

(** C52: a line  key = value # comment  stores the value (one word, or the list of words or of
    comma-separated parts in brackets) under the key, whatever the white space. *)
Theorem C52_parse_variable config key w1 body w2 comment ts :
  lacks "=" key -> allSpace w1 -> allSpace w2 -> lacks "#" body -> means ts body ->
  (comment = [] \/ exists r, comment = "#"%char :: r) ->
  parse_variable config (key ++ "="%char :: w1 ++ body ++ w2 ++ comment) =
    Some (set config (str (strip key)) (valueOf ts)).
Proof.
  intros HK H1 H2 HB HM HC. unfold parse_variable. rewrite splitOnce_app by auto.
  assert (HS : forall w, allSpace w -> lacks "#" w).
  { intros w Hw HI. unfold allSpace in Hw. rewrite Forall_forall in Hw. specialize (Hw _ HI). discriminate. }
  assert (HL : lacks "#" (w1 ++ body ++ w2)).
  { intro HI. apply in_app_or in HI as [HI|HI]; [exact (HS w1 H1 HI)|].
    apply in_app_or in HI as [HI|HI]; [exact (HB HI)|exact (HS w2 H2 HI)]. }
  assert (HV : (if has_char "#" (w1 ++ body ++ w2 ++ comment) then hd [] (splitOn "#" (w1 ++ body ++ w2 ++ comment))
                else w1 ++ body ++ w2 ++ comment) = w1 ++ body ++ w2).
  { destruct HC as [->|[r ->]].
    - rewrite app_nil_r. destruct (has_char "#" (w1 ++ body ++ w2)) eqn:E; auto. apply has_char_in in E. contradiction.
    - replace (has_char "#" (w1 ++ body ++ w2 ++ "#"%char :: r)) with true.
      + replace (w1 ++ body ++ w2 ++ "#"%char :: r) with ((w1 ++ body ++ w2) ++ "#"%char :: r) by (rewrite <- !app_assoc; auto).
        rewrite splitOn_app by auto. auto.
      + symmetry. apply has_char_in. apply in_or_app. right. apply in_or_app. right. apply in_or_app. right. left; auto. }
  rewrite HV. rewrite strip_trim by (eauto using means_trimmed).
  destruct HM as [ts s Hs Hb|o ts s c Ho Hc Hs].
  - pose proof (words_spaced ts s Hs) as HW. destruct (spaced_trimmed ts s Hs) as [a [z [A1 _]]].
    destruct s as [|x s]; [discriminate|]. injection A1 as ->. specialize (Hb a eq_refl). unfold brackets in Hb.
    destruct (oneOf ["{"%char; "["%char; "("%char] a); [congruence|]. rewrite HW.
    destruct ts as [|t [|]]; auto.
  - cbn [tl]. rewrite Ho. rewrite removelast_last.
    assert (HLa : last (o :: s ++ [c]) o = c) by (change (o :: s ++ [c]) with ((o :: s) ++ [c]); apply last_last).
    rewrite HLa, Hc. rewrite (splitOn_commas ts s Hs). destruct (map strip ts) as [|t [|]]; auto.
Qed.
(** The rest raises an exception: no '=', an unclosed bracket, or nothing after '='. *)
Theorem C52_no_equals config v : lacks "=" v -> parse_variable config v = None.
Proof. intro H. unfold parse_variable. rewrite splitOnce_none; auto. Qed.
Theorem C52_unclosed config key w1 o s w2 : lacks "=" key -> allSpace w1 -> allSpace w2 -> lacks "#" (o :: s) ->
  brackets o -> trimmed (o :: s) -> ~ brackets' (last (o :: s) o) ->
  parse_variable config (key ++ "="%char :: w1 ++ (o :: s) ++ w2) = None.
Proof.
  intros HK H1 H2 HB Ho HT HL. unfold parse_variable. rewrite splitOnce_app by auto.
  destruct (has_char "#" (w1 ++ (o :: s) ++ w2)) eqn:E.
  - exfalso. apply has_char_in in E.
    assert (HS : forall w, allSpace w -> lacks "#" w).
    { intros w Hw HI. unfold allSpace in Hw. rewrite Forall_forall in Hw. specialize (Hw _ HI). discriminate. }
    apply in_app_or in E as [HI|HI]; [exact (HS w1 H1 HI)|].
    apply in_app_or in HI as [HI|HI]; [exact (HB HI)|exact (HS w2 H2 HI)].
  - rewrite strip_trim by auto. rewrite Ho. unfold brackets' in HL.
    destruct (oneOf ["}"%char; "]"%char; ")"%char] (last (o :: s) o)); [congruence|auto].
Qed.
Theorem C52_empty_value config key w comment : lacks "=" key -> allSpace w ->
  (comment = [] \/ exists r, comment = "#"%char :: r) ->
  parse_variable config (key ++ "="%char :: w ++ comment) = None.
Proof.
  intros HK Hw HC. unfold parse_variable. rewrite splitOnce_app by auto.
  assert (HS : lacks "#" w).
  { intros HI. unfold allSpace in Hw. rewrite Forall_forall in Hw. specialize (Hw _ HI). discriminate. }
  assert (HV : (if has_char "#" (w ++ comment) then hd [] (splitOn "#" (w ++ comment)) else w ++ comment) = w).
  { destruct HC as [->|[r ->]].
    - rewrite app_nil_r. destruct (has_char "#" w) eqn:E; auto. apply has_char_in in E. contradiction.
    - rewrite splitOn_app by auto. replace (has_char "#" (w ++ "#"%char :: r)) with true; auto.
      symmetry. apply has_char_in. apply in_or_app. right. left; auto. }
  rewrite HV, strip_all; auto.
Qed.

(** ** Files *)
(** What a line of a .params file means: nothing, or an assignment. *)
Inductive lineIs : list ascii -> option (string * pyval) -> Prop :=
| l_blank w : allSpace w -> lineIs w None
| l_comment w r : allSpace w -> lineIs (w ++ "#"%char :: r) None
| l_assign w key wk w1 body w2 comment ts :
    allSpace w -> trimmed key -> allSpace wk -> (forall c, hd_error key = Some c -> c <> "#"%char /\ c <> "+"%char) ->
    lacks "=" key -> allSpace w1 -> allSpace w2 -> lacks "#" body -> means ts body ->
    (comment = [] \/ exists r, comment = "#"%char :: r) ->
    lineIs (w ++ (key ++ wk) ++ "="%char :: w1 ++ body ++ w2 ++ comment) (Some (str key, valueOf ts)).
(** the last assignment to k *)
Fixpoint lastOf (ms : list (option (string * pyval))) (k : string) : option pyval :=
  match ms with
  | [] => None
  | m :: r => match lastOf r k with
              | Some v => Some v
              | None => match m with Some (k', v) => if String.eqb k' k then Some v else None | None => None end
              end
  end.
Lemma lstrip_tail s : exists w, allSpace w /\ s = w ++ lstrip s.
Proof.
  induction s as [|c s [w [H1 H2]]]; cbn.
  - exists []. split; [constructor|auto].
  - destruct (isSpace c) eqn:E.
    + exists (c :: w). split; [constructor; auto|]. cbn. f_equal. auto.
    + exists []. split; [constructor|auto].
Qed.
(** strip only removes white space at the end *)
Lemma rstrip_tail s : exists w, allSpace w /\ s = rev (lstrip (rev s)) ++ w.
Proof.
  destruct (lstrip_tail (rev s)) as [w [H1 H2]]. exists (rev w). split; [apply allSpace_rev; auto|].
  rewrite <- rev_app_distr, <- H2, rev_involutive. auto.
Qed.
Lemma all_hd w : allSpace w -> forall a, hd_error w = Some a -> isSpace a = true.
Proof. intros H a. destruct w; [discriminate|]. inversion H; subst. intro X; injection X as <-; auto. Qed.
(** the end of a stripped line, as comment *)
Lemma strip_cut w1 s rest : allSpace w1 -> trimmed s -> exists rest' wz,
  strip (w1 ++ s ++ rest) = s ++ rest' /\ rest = rest' ++ wz /\ allSpace wz.
Proof.
  intros H1 [a [z [A1 [A2 [A3 A4]]]]]. unfold strip. rewrite lstrip_space by auto.
  rewrite (lstrip_hd (s ++ rest) a) by (auto using hd_app).
  rewrite rev_app_distr. destruct (lstrip_tail (rev rest)) as [w [W1 W2]].
  remember (lstrip (rev rest)) as L. destruct L as [|c L].
  - rewrite app_nil_r in W2. rewrite W2, lstrip_space by auto. rewrite (lstrip_hd (rev s) z) by auto. rewrite rev_involutive.
    exists [], rest. rewrite app_nil_r. split; auto. split; auto. rewrite <- (rev_involutive rest), W2. apply allSpace_rev; auto.
  - assert (HC : isSpace c = false).
    { clear - HeqL. induction (rev rest) as [|x r IH]; cbn in HeqL; [discriminate|]. destruct (isSpace x) eqn:E; auto. congruence. }
    rewrite W2, <- app_assoc, lstrip_space by auto. cbn [app lstrip]. rewrite HC.
    exists (rev (c :: L)), (rev w). split; [|split].
    + change (c :: L ++ rev s) with ((c :: L) ++ rev s). rewrite rev_app_distr, rev_involutive. auto.
    + rewrite <- (rev_involutive rest), W2, rev_app_distr. auto.
    + apply allSpace_rev; auto.
Qed.
Lemma lineIs_line incl config l m : lineIs l m ->
  paramLine incl config l = Some (match m with None => config | Some (k, v) => set config k v end).
Proof.
  destruct 1 as [w H|w r H|w key wk w1 body w2 comment ts H HT HW HK HL H1 H2 HB HM HC]; unfold paramLine.
  - rewrite strip_all; auto.
  - assert (HT : trimmed ["#"%char]) by (exists "#"%char, "#"%char; auto).
    destruct (strip_cut w ["#"%char] r H HT) as [r' [wz [E _]]]. cbn [app] in E. rewrite E. auto.
  - (* cut the trailing white space after the '=' *)
    pose proof HT as [a [z [A1 [A2 [A3 A4]]]]].
    pose proof (strip_trim [] key wk (Forall_nil _) HW HT) as HSK. cbn [app] in HSK.
    assert (HL' : lacks "=" (key ++ wk)).
    { intro HI. apply in_app_or in HI as [HI|HI]; [auto|]. unfold allSpace in HW. rewrite Forall_forall in HW.
      specialize (HW _ HI). discriminate. }
    apply (hd_app key a wk) in A1. set (key' := key ++ wk) in *.
    assert (HK' : forall c, hd_error key' = Some c -> c <> "#"%char /\ c <> "+"%char).
    { intros c Hc. apply HK. destruct HT as [a' [_ [X _]]]. unfold key' in Hc. rewrite (hd_app key a' wk X) in Hc. congruence. }
    clearbody key'. clear HL HK.
    (* strip the whole line: it begins with key and '=' and contains body *)
    assert (HTB : trimmed (key' ++ "="%char :: w1 ++ body)).
    { destruct (means_trimmed _ _ HM) as [b [y [_ [Y1 [_ Y2]]]]]. exists a, y. repeat split; auto; [apply hd_app; auto|].
      rewrite rev_app_distr. cbn [rev]. rewrite rev_app_distr, <- !app_assoc. apply hd_app; auto. }
    destruct (strip_cut w (key' ++ "="%char :: w1 ++ body) (w2 ++ comment) H HTB) as [r' [wz [E1 [E2 E3]]]].
    replace (w ++ key' ++ "="%char :: w1 ++ body ++ w2 ++ comment)
      with (w ++ (key' ++ "="%char :: w1 ++ body) ++ w2 ++ comment) by (rewrite <- app_assoc; cbn [app]; rewrite <- app_assoc; auto).
    rewrite E1. destruct key' as [|k0 key']; [discriminate|]. injection A1 as ->. destruct (HK' a eq_refl) as [N1 N2].
    cbn [app]. destruct (Ascii.eqb_spec a "#"); [congruence|]. destruct (Ascii.eqb_spec a "+"); [congruence|].
    (* what is left of w2 ++ comment is again white space and comment *)
    assert (HR : exists w2' comment', r' = w2' ++ comment' /\ allSpace w2' /\ (comment' = [] \/ exists r, comment' = "#"%char :: r)).
    { destruct HC as [->|[r ->]].
      - rewrite app_nil_r in E2. exists r', []. rewrite app_nil_r. repeat split; auto. subst w2.
        unfold allSpace in *. apply Forall_app in H2. tauto.
      - clear - E2 H2 E3. revert r' E2. induction w2 as [|c w2 IH]; intros r' E2.
        + cbn in E2. destruct r' as [|x r'].
          * cbn in E2. subst wz. inversion E3; discriminate.
          * injection E2 as <- _. exists [], ("#"%char :: r'). repeat split; [constructor|right; eauto].
        + inversion H2; subst. destruct r' as [|x r'].
          * exists [], []. repeat split; [constructor|auto].
          * injection E2 as <- E2. destruct (IH H3 r' E2) as [w2' [c' [J1 [J2 J3]]]].
            exists (c :: w2'), c'. subst. repeat split; auto. constructor; auto. }
    destruct HR as [w2' [c' [-> [R1 R2]]]].
    change (a :: (key' ++ "="%char :: w1 ++ body) ++ w2' ++ c') with (((a :: key') ++ "="%char :: w1 ++ body) ++ w2' ++ c').
    replace (((a :: key') ++ "="%char :: w1 ++ body) ++ w2' ++ c') with ((a :: key') ++ "="%char :: w1 ++ body ++ w2' ++ c')
      by (rewrite <- app_assoc; cbn [app]; rewrite <- app_assoc; auto).
    rewrite (C52_parse_variable config (a :: key') w1 body w2' c' ts HL' H1 R1 HB HM R2).
    rewrite HSK. auto.
Qed.
(** C52: after reading a file of blank lines, comments and assignments each key has the last value
    assigned to it. *)
Theorem C52_file incl lines ms : Forall2 lineIs lines ms ->
  exists r, read_params incl lines = Some r /\ forall k, get r k = lastOf ms k.
Proof.
  unfold read_params. intro H.
  assert (HG : forall c, exists r, paramLines incl c lines = Some r /\
            forall k, get r k = match lastOf ms k with Some v => Some v | None => get c k end).
  { induction H as [|l m lines ms H1 H2 IH]; intro c; cbn.
    - exists c. split; auto.
    - rewrite (lineIs_line incl c l m H1). destruct (IH (match m with None => c | Some (k, v) => set c k v end)) as [r [R1 R2]].
      exists r. split; auto. intro k. rewrite R2. destruct (lastOf ms k); auto.
      destruct m as [[k' v]|]; auto. rewrite get_set. destruct (String.eqb k' k); auto. }
  destruct (HG []) as [r [R1 R2]]. exists r. split; auto. intro k. rewrite R2. destruct (lastOf ms k); auto.
Qed.
Definition L (s : string) := list_ascii_of_string s.
Example C52_example : exists r,
  read_params (fun _ => None) [L "# test"; L " min_sep = 1.  # arcmin"; L ""; L "file_name={a.dat, b.dat}"; L "min_sep =2 "; L "cols = 1  2 3"] = Some r /\
  r = [("min_sep", VStr "2"); ("file_name", VList [VStr "a.dat"; VStr "b.dat"]);
       ("cols", VList [VStr "1"; VStr "2"; VStr "3"])]%string.
Proof. eexists. split; reflexivity. Qed.
Example C52_example_line : lineIs (L " min_sep = 1.  # arcmin") (Some ("min_sep", VStr "1.")%string).
Proof.
  apply (l_assign (L " ") (L "min_sep") (L " ") (L " ") (L "1.") (L "  ") (L "# arcmin") [L "1."]).
  - repeat constructor.
  - exists "m"%char, "p"%char. auto.
  - repeat constructor.
  - intros c H. injection H as <-. split; discriminate.
  - intro H. cbn in H. repeat destruct H as [H|H]; try discriminate H; destruct H.
  - repeat constructor.
  - repeat constructor.
  - intro H. cbn in H. repeat destruct H as [H|H]; try discriminate H; destruct H.
  - apply m_words.
    + apply sp_one; [discriminate|repeat constructor].
    + intros c H. injection H as <-. unfold brackets. cbn. discriminate.
  - right. eexists. reflexivity.
Qed.
