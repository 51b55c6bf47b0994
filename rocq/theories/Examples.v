(** Concrete catalogs and configurations used to show that the hypotheses of the theorems can be
    met by non-trivial inputs. *)
From Coq Require Import Reals Lra Lia List ZArith Bool.
From Verif Require Import Base Geometry Tree Traverse Run Spec SpecRun GeomFacts SumFacts TreeFacts BinFacts.
Import ListNotations.
Open Scope R_scope.

Definition exObj (x w : R) (i : nat) : obj := mkobj (mkpos x 0 0) w w 2 0 0 i.
(** Objects on a line; separations cat1-cat2: 3/2, 5/2, 21/4 and 1/4, 3/4, 7/2. *)
Definition exCat1 : list obj := [exObj 0 1 0; exObj (7/4) 2 1].
Definition exCat2 : list obj := [exObj (3/2) 1 0; exObj (5/2) 3 1; exObj (21/4) 1 2].
(** Linear bins [1,2), [2,3); bin_slop = 0, angle_slop = 1. *)
Definition exB : bparams := mkB BLinear 1 3 2 1 0 1.
Definition exBslop : bparams := mkB BLinear 1 3 2 1 (1/10) 1.
(** Log bins with edges 1, e^(1/2), e; bin_slop = 0. *)
Definition exBlog : bparams := mkB BLog 1 (1 * exp (IZR 2 * (1/2))) 2 (1/2) 0 1.
Definition exRun (M : metric) (B : bparams) (br : brutemode) : runcfg :=
  mkR (mkC M None B) ThreeD Mean br 0 10.

Lemma exB_valid : validB exB.
Proof. constructor; simpl; try lra; try lia; try discriminate. unfold edge; simpl; lra. Qed.
Lemma exBslop_valid : validB exBslop.
Proof. constructor; simpl; try lra; try lia; try discriminate. unfold edge; simpl; lra. Qed.
Lemma exBlog_valid : validB exBlog.
Proof. constructor; simpl; try lra; try lia; try discriminate. unfold edge; simpl; lra. Qed.
Lemma exB_narrow : narrowLog exB.
Proof. intro H; discriminate. Qed.
Lemma exBslop_narrow : narrowLog exBslop.
Proof. intro H; discriminate. Qed.
Lemma exBlog_narrow : narrowLog exBlog.
Proof. intro H. right. simpl. lra. Qed.

Lemma euclid_x x y : euclid (mkpos x 0 0) (mkpos y 0 0) = Rabs (x - y).
Proof.
  unfold euclid; simpl. replace ((x - y) * ((x - y) * 1) + (0 - 0) * ((0 - 0) * 1) + (0 - 0) * ((0 - 0) * 1))
    with (Rsqr (x - y)) by (unfold Rsqr; ring). apply sqrt_Rsqr_abs.
Qed.
Lemma exB_edge j : edge exB j = 1 + IZR j.
Proof. unfold edge; simpl; lra. Qed.

Lemma not_edge4 (n j : Z) : (n mod 4 <> 0)%Z -> IZR n / 4 <> 1 + IZR j.
Proof.
  intros Hn H. assert (IZR n = IZR (4 + 4 * j)) by (rewrite plus_IZR, mult_IZR; lra).
  apply eq_IZR in H0. subst n. apply Hn.
  replace (4 + 4 * j)%Z with ((1 + j) * 4)%Z by ring. apply Z.mod_mul. lia.
Qed.
Ltac rabs := unfold Rabs; repeat destruct Rcase_abs; try lra.

Lemma exCats_off : offEdges exB euclid exCat1 exCat2.
Proof.
  intros _ o1 o2 j _ H1 H2. rewrite exB_edge. unfold exCat1, exCat2 in *; simpl in H1, H2.
  assert (HQ : exists n, (n mod 4 <> 0)%Z /\ euclid (opos o1) (opos o2) = IZR n / 4).
  { destruct H1 as [<-|[<-|[]]]; destruct H2 as [<-|[<-|[<-|[]]]]; simpl opos; rewrite euclid_x.
    - exists 6%Z. split; [discriminate|]. rabs.
    - exists 10%Z. split; [discriminate|]. rabs.
    - exists 21%Z. split; [discriminate|]. rabs.
    - exists 1%Z. split; [discriminate|]. rabs.
    - exists 3%Z. split; [discriminate|]. rabs.
    - exists 14%Z. split; [discriminate|]. rabs. }
  destruct HQ as [n [Hn ->]]. apply not_edge4; auto.
Qed.
Lemma exCat1_pos : posW exCat1.
Proof. intros o [<-|[<-|[]]]; simpl; lra. Qed.
Lemma exCat2_pos : posW exCat2.
Proof. intros o [<-|[<-|[<-|[]]]]; simpl; lra. Qed.

(** An auto-correlation example: separations 3/2, 9/4, 3/4. *)
Definition exCatA : list obj := [exObj 0 1 0; exObj (3/2) 2 1; exObj (9/4) 1 2].
Lemma exCatA_pos : posW exCatA.
Proof. intros o [<-|[<-|[<-|[]]]]; simpl; lra. Qed.
Lemma exCatA_pairs o1 o2 : In (o1, o2) (upairs exCatA) ->
  exists n, (n mod 4 <> 0)%Z /\ euclid (opos o1) (opos o2) = IZR n / 4.
Proof.
  simpl. intros [H|[H|[H|[]]]]; injection H; intros; subst; simpl opos; rewrite euclid_x.
  - exists 6%Z. split; [discriminate|]. rabs.
  - exists 9%Z. split; [discriminate|]. rabs.
  - exists 3%Z. split; [discriminate|]. rabs.
Qed.
Lemma exCatA_off : offEdges exB euclid exCatA exCatA.
Proof.
  intros _ o1 o2 j Hj H1 H2. rewrite exB_edge.
  assert (1 <= IZR j) by (apply (IZR_le 1); lia).
  unfold exCatA in *; simpl in H1, H2.
  assert (HQ : euclid (opos o1) (opos o2) = 0 \/
               exists n, (n mod 4 <> 0)%Z /\ euclid (opos o1) (opos o2) = IZR n / 4).
  { destruct H1 as [<-|[<-|[<-|[]]]]; destruct H2 as [<-|[<-|[<-|[]]]]; simpl opos; rewrite euclid_x;
    try (left; rabs; fail); right.
    - exists 6%Z. split; [discriminate|]. rabs.
    - exists 9%Z. split; [discriminate|]. rabs.
    - exists 6%Z. split; [discriminate|]. rabs.
    - exists 3%Z. split; [discriminate|]. rabs.
    - exists 9%Z. split; [discriminate|]. rabs.
    - exists 3%Z. split; [discriminate|]. rabs. }
  destruct HQ as [->|[n [Hn ->]]]; [lra|]. apply not_edge4; auto.
Qed.
Lemma exCatA_min : offMinSep exB euclid exCatA.
Proof.
  intros o1 o2 H. destruct (exCatA_pairs o1 o2 H) as [n [Hn ->]].
  pose proof (not_edge4 n 0 Hn). simpl minsep. lra.
Qed.
Lemma exCatA_log : offMinSep exBlog euclid exCatA.
Proof.
  intros o1 o2 H. destruct (exCatA_pairs o1 o2 H) as [n [Hn ->]].
  pose proof (not_edge4 n 0 Hn). simpl minsep. lra.
Qed.
(** Deciding the Boolean tests in examples. *)
Lemma Rleb_t x y : x <= y -> Rleb x y = true.
Proof. intro. unfold Rleb. destruct Rle_dec; auto; lra. Qed.
Lemma Rleb_f x y : y < x -> Rleb x y = false.
Proof. intro. unfold Rleb. destruct Rle_dec; auto; lra. Qed.
Lemma Rltb_t x y : x < y -> Rltb x y = true.
Proof. intro. unfold Rltb. destruct Rlt_dec; auto; lra. Qed.
Lemma Rltb_f x y : y <= x -> Rltb x y = false.
Proof. intro. unfold Rltb. destruct Rlt_dec; auto; lra. Qed.
Lemma exB_in k d : (k = 0 \/ k = 1)%Z ->
  inBinb exB k d = Rleb (1 + IZR k) d && Rltb d (2 + IZR k).
Proof.
  intros [-> | ->]; unfold inBinb; rewrite !exB_edge; simpl; f_equal; f_equal; lra.
Qed.
