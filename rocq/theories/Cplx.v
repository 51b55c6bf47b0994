(** Complex arithmetic (numpy's complex128 as pairs of reals): division, powers, and the ring and
    field tactics for it. *)
From Coq Require Import Reals Lra ZArith Ring Field.
From Verif Require Import Base Spin SpinFacts.
Open Scope R_scope.

Definition copp (z : cplx) : cplx := (- fst z, - snd z).
Definition csub (z w : cplx) : cplx := (fst z - fst w, snd z - snd w).
(** 1/z = conj(z)/|z|^2; the value for z = 0 (where numpy gives inf or nan) has no meaning. *)
Definition cinv (z : cplx) : cplx := (fst z / cnorm z, - snd z / cnorm z).
Definition cdiv (z w : cplx) : cplx := cmul z (cinv w).
Definition cR (x : R) : cplx := (x, 0).
Definition ci : cplx := (0, 1).
Definition IZC (n : Z) : cplx := cR (IZR n).
Definition c0 : cplx := IZC 0.
Definition c1 : cplx := IZC 1.
Definition csq (z : cplx) : cplx := cmul z z.

Declare Scope cx_scope.
Delimit Scope cx_scope with C.
Notation "a + b" := (cadd a b) : cx_scope.
Notation "a - b" := (csub a b) : cx_scope.
Notation "a * b" := (cmul a b) : cx_scope.
Notation "a / b" := (cdiv a b) : cx_scope.
Notation "- a" := (copp a) : cx_scope.

Ltac cx := apply cplx_eq; unfold csq, c0, c1, ci, IZC, cR, cadd, csub, cmul, copp, cconj, cscale; cbn [fst snd].
Lemma cnorm_pos z : z <> c0 -> 0 < cnorm z.
Proof.
  intro H. unfold cnorm.
  destruct (Req_dec (fst z) 0) as [E1|E1]; [|nra].
  destruct (Req_dec (snd z) 0) as [E2|E2]; [|nra].
  exfalso. apply H. cx; auto.
Qed.
Lemma cring : ring_theory c0 c1 cadd cmul csub copp eq.
Proof. constructor; intros; cx; ring. Qed.
Lemma cfield : field_theory c0 c1 cadd cmul csub copp cdiv cinv eq.
Proof.
  constructor.
  - apply cring.
  - intro H. apply (f_equal fst) in H. cbn in H. lra.
  - reflexivity.
  - intros z Hz. assert (HP := cnorm_pos z Hz). unfold cinv. cx; unfold cnorm in *; field; lra.
Qed.
Lemma cmorph : ring_morph c0 c1 cadd cmul csub copp eq 0%Z 1%Z Z.add Z.mul Z.sub Z.opp Zeq_bool IZC.
Proof.
  constructor; try reflexivity; intros; unfold IZC.
  - rewrite plus_IZR. cx; ring.
  - rewrite minus_IZR. cx; ring.
  - rewrite mult_IZR. cx; ring.
  - rewrite opp_IZR. cx; ring.
  - f_equal. f_equal. apply Zeq_bool_eq; auto.
Qed.
Lemma ccomplete a b : IZC a = IZC b -> Zeq_bool a b = true.
Proof. intro H. apply (f_equal fst) in H. cbn in H. apply eq_IZR in H. subst. apply Zeq_is_eq_bool. reflexivity. Qed.
Ltac izc_tac t :=
  match t with
  | c0 => constr:(0%Z) | c1 => constr:(1%Z)
  | IZC ?z => match isZcst z with true => z | _ => constr:(InitialRing.NotConstant) end
  | _ => constr:(InitialRing.NotConstant)
  end.
Add Field Cfield : cfield (completeness ccomplete, morphism cmorph, constants [izc_tac]).

(** *** conjugate and reals *)
Lemma conj_add z w : cconj (z + w)%C = (cconj z + cconj w)%C. Proof. cx; ring. Qed.
Lemma conj_sub z w : cconj (z - w)%C = (cconj z - cconj w)%C. Proof. cx; ring. Qed.
Lemma conj_mul z w : cconj (z * w)%C = (cconj z * cconj w)%C. Proof. cx; ring. Qed.
Lemma conj_opp z : cconj (- z)%C = (- cconj z)%C. Proof. cx; ring. Qed.
Lemma conj_inv z : cconj (cinv z) = cinv (cconj z).
Proof.
  unfold cinv, cconj. assert (E : cnorm (fst z, - snd z) = cnorm z) by (unfold cnorm; cbn [fst snd]; ring).
  cbn [fst snd]. rewrite E. apply cplx_eq; cbn [fst snd]; unfold Rdiv; ring.
Qed.
Lemma conj_div z w : cconj (z / w)%C = (cconj z / cconj w)%C.
Proof. unfold cdiv. rewrite conj_mul, conj_inv. reflexivity. Qed.
Lemma conj_R x : cconj (cR x) = cR x. Proof. cx; ring. Qed.
Lemma conj_Z n : cconj (IZC n) = IZC n. Proof. apply conj_R. Qed.
Lemma conj_sq z : cconj (csq z) = csq (cconj z). Proof. apply conj_mul. Qed.
Lemma conj_conj z : cconj (cconj z) = z. Proof. cx; ring. Qed.
Lemma conj_0 z : z <> c0 -> cconj z <> c0.
Proof. intros H E. apply H. rewrite <- (conj_conj z), E. cx; ring. Qed.
Lemma cR_add x y : cR (x + y) = (cR x + cR y)%C. Proof. cx; ring. Qed.
Lemma cR_sub x y : cR (x - y) = (cR x - cR y)%C. Proof. cx; ring. Qed.
Lemma cR_mul x y : cR (x * y) = (cR x * cR y)%C. Proof. cx; ring. Qed.
Lemma cR_opp x : cR (- x) = (- cR x)%C. Proof. cx; ring. Qed.
Lemma cR_inv x : cR (/ x) = cinv (cR x).
Proof.
  destruct (Req_dec x 0) as [->|N].
  - unfold cinv, cnorm, cR. cbn [fst snd]. apply cplx_eq; cbn [fst snd]; unfold Rdiv; rewrite ?Rmult_0_l, ?Ropp_0, ?Rmult_0_l; auto.
    apply Rinv_0.
  - unfold cinv, cnorm, cR. apply cplx_eq; cbn [fst snd]; field; auto.
Qed.
Lemma cR_div x y : cR (x / y) = (cR x / cR y)%C.
Proof. unfold Rdiv, cdiv. rewrite cR_mul, cR_inv. reflexivity. Qed.
Lemma cR_Z n : cR (IZR n) = IZC n. Proof. reflexivity. Qed.
Lemma cR_0 x : x <> 0 -> cR x <> c0.
Proof. intros H E. apply H. apply (f_equal fst) in E. exact E. Qed.
Lemma cR_norm z : cR (cnorm z) = (z * cconj z)%C. Proof. unfold cnorm. cx; ring. Qed.
Lemma IZC_0 n : n <> 0%Z -> IZC n <> c0.
Proof. intro H. apply cR_0. apply not_0_IZR; auto. Qed.
Lemma cscale_R x z : cscale x z = (cR x * z)%C. Proof. cx; ring. Qed.
Lemma cmul_integral z w : (z * w)%C = c0 -> z = c0 \/ w = c0.
Proof.
  intro H. destruct (Req_EM_T (cnorm z) 0) as [E|N].
  - left. unfold cnorm in E. cx; nra.
  - right. replace w with ((cinv z * (z * w)))%C. { rewrite H. ring. }
    assert (z <> c0) by (intros ->; apply N; unfold cnorm; cbn; ring). field. auto.
Qed.
Lemma cmul_n0 z w : z <> c0 -> w <> c0 -> (z * w)%C <> c0.
Proof. intros H1 H2 E. destruct (cmul_integral _ _ E); auto. Qed.
Ltac cpush := unfold csq; repeat (rewrite ?conj_add, ?conj_sub, ?conj_mul, ?conj_opp, ?conj_div, ?conj_inv, ?conj_R, ?conj_Z, ?conj_conj,
  ?cR_add, ?cR_sub, ?cR_mul, ?cR_opp, ?cR_div, ?cR_inv, ?cR_Z, ?cscale_R).
