(** C84: concrete cases that meet the hypotheses. *)
From Coq Require Import Reals Lra Lia List ZArith Bool Permutation.
From Verif Require Import Base Geometry Tree Spec Spin SpinFacts Cplx Corr3 SumFacts SpecTri SpecSas SpecGGG
  Map3 SpecMap3 Map3Facts PropsMap3 PropsMap3b PropsMap3c PropsMap3d PropsMap3e PropsMap3f.
Import ListNotations.
Open Scope R_scope.

Lemma c_neq a b c d : a <> c \/ b <> d -> ((a, b) - (c, d))%C <> c0.
Proof. intros H E. apply (f_equal fst) in E as E1. apply (f_equal snd) in E as E2. cbn in E1, E2. lra. Qed.
Example C84_T_example gam : tripleIntegral 1 ((0, 0), (1, 1), (2, 0)) gam (1, 2, 3)
  (Tn 1 (calcT ((2, 0) - (0, 0)) ((1, 1) - (0, 0)) 1 2 3) * natural 1 ((0, 0), (1, 1), (2, 0)) gam)%C.
Proof.
  apply C84_T; [lia| |repeat split; lra]. unfold properC.
  assert (E : centroidC ((0, 0), (1, 1), (2, 0)) = (1, 1/3)).
  { unfold centroidC, cdiv, IZC. rewrite <- cR_inv. cx; field. }
  cbv zeta. match goal with |- context [centroidC ?x] => change (centroidC x) with (centroidC ((0, 0), (1, 1), (2, 0))) end.
  rewrite E. repeat split; apply c_neq; lra.
Qed.

(** the triangle with the sides 5, 4, 3: the right angle at the first vertex *)
Definition oAt (x y : R) : obj := mkobj (mkpos x y 0) 2 3 0 (1/10) (1/20) 0%nat.
Definition m3a := oAt 0 0. Definition m3b := oAt 0 3. Definition m3c := oAt 4 0.
Lemma sq_of x y : 0 <= x -> y = x * x -> sqrt y = x. Proof. intros H ->. apply sqrt_square; auto. Qed.
Lemma m3_sides : side1 m3a m3b m3c = 5 /\ side2 m3a m3b m3c = 4 /\ side3 m3a m3b m3c = 3.
Proof. repeat split; apply sq_of; cbn; lra. Qed.
Lemma m3_flat : flatTri m3a m3b m3c. Proof. repeat split. Qed.
Lemma m3_area : area2 m3a m3b m3c = -12. Proof. unfold area2. cbn. ring. Qed.
Definition ruvG : g3res := mkG3 LogRUV [0%Z; 1%Z] (1/10) (1/10) (1/10) 1 (fun _ => 5) (fun _ => 4) (fun _ => 3) (fun _ => 3/4)
  (fun k => if Z.eqb k 0 then - (1/3) else 1/3)
  (fun k => (1, IZR k)) (fun k => (2, IZR k)) (fun _ => ci) (fun _ => c1) (fun _ => 1) (fun _ => 2) (fun _ => 3) (fun _ => 4).
Example C84_triangle_example n : (n <= 3)%nat ->
  tripleIntegral n (scaleV (1 / 2) (triC m3a m3b m3c)) (shearC m3a, shearC m3b, shearC m3c) (1, 2, 3)
    (Tn n (calcT (cR (sOf ruvG 2 0)) (tOf ruvG 2 0) 1 2 3) * (gamVal Flat n false m3a m3b m3c, gamVal Flat n true m3a m3b m3c))%C.
Proof.
  intro Hn. destruct m3_sides as [E1 [E2 E3]].
  apply C84_triangle; auto; try lra; [repeat split; lra|apply m3_flat|rewrite m3_area; lra|]. left.
  unfold placeRUV. rewrite E1, E2, E3. cbn [ruvG g3_bt g3_d1 g3_d2 g3_d3 g3_u g3_v Z.eqb]. repeat split; auto.
  - rewrite Rabs_left; lra.
  - intro H. lra.
  - unfold ccwSpec, ccwFlat, Rltb. fold (area2 m3a m3b m3c). rewrite m3_area. destruct Rlt_dec; [lra|discriminate].
Qed.
Definition sasG : g3res := mkG3 LogSAS [0%Z] (1/10) (1/10) 1 1 (fun _ => 5) (fun _ => 4) (fun _ => 3) (fun _ => PI / 2) (fun _ => 0)
  (fun _ => c1) (fun _ => c1) (fun _ => ci) (fun _ => c1) (fun _ => 1) (fun _ => 2) (fun _ => 3) (fun _ => 4).
Example C84_triangle_sas_example n : (n <= 3)%nat ->
  tripleIntegral n (scaleV (1 / 2) (triC m3a m3b m3c)) (shearC m3a, shearC m3b, shearC m3c) (1, 2, 3)
    (Tn n (calcT (cR (sOf sasG 2 0)) (tOf sasG 2 0) 1 2 3) * (gamVal Flat n false m3a m3b m3c, gamVal Flat n true m3a m3b m3c))%C.
Proof.
  intro Hn. destruct m3_sides as [E1 [E2 E3]].
  apply C84_triangle; auto; try lra; [repeat split; lra|apply m3_flat|rewrite m3_area; lra|]. right.
  unfold placeSAS. rewrite E2, E3. cbn [sasG g3_bt g3_d2 g3_d3 g3_u g3_phiunits]. repeat split; auto.
  - unfold angleAt. rewrite E2, E3. cbn. rewrite <- acos_0. rewrite Rmult_1_r. f_equal. field.
  - unfold ccwSpec, ccwFlat, Rltb. cbn. destruct Rlt_dec as [|N]; auto. exfalso. apply N. lra.
Qed.
Example C84_turned_example s t : calcT (ci * s)%C (ci * t)%C 1 2 3 = calcT s t 1 2 3.
Proof. apply C84_turned. unfold cnorm, ci. cbn. ring. Qed.
Example C84_variance_example : propagated map3 ruvG 2 (1/2) 3 = varmap3 (calculateMap3 ruvG 2 (1/2) 3).
Proof. apply C84_variance; auto. repeat constructor; cbn; intuition lia. Qed.
Example C84_first_example : calculateMap3 ruvG (2 * 5) (1/2) (3/2) = swap12 (calculateMap3 ruvG 5 2 3).
Proof. apply C84_first; auto; lra. Qed.
(** the bins of v and -v exchanged *)
Example C84_parity_example : calculateMap3 (mirrorG (fun k => 1 - k)%Z ruvG) 2 1 3 = mirrorRes (calculateMap3 ruvG 2 1 3).
Proof.
  apply C84_parity; [reflexivity| |].
  - intros k _. cbn. destruct Z.eqb; lra.
  - cbn. apply perm_swap.
Qed.
Example C84_jacobian_example : badTri (4 * (3/4)) (3/4) (1/3) = false.
Proof.
  apply bad_h; [lra|]. unfold hOf. rewrite Rabs_right by lra. lra.
Qed.
Example C84_eight_example : let l := [mkSample (fun j => INR j) (fun j => 2) 1; mkSample (fun j => 1) (fun j => - INR j) 3] in
  map3 (eight (momS l 0) (momS l 1) (momS l 2) (momS l 3) 0) = 9.
Proof. intro l. destruct (C84_eight l 0) as [-> _]. unfold meanS, sumR, l. cbn. ring. Qed.
