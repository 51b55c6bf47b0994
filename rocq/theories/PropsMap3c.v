(** C84: the sums over the permutations of the apertures, the eight combinations, the variance and the
    symmetries of calculateMap3. *)
From Coq Require Import Reals Lra Lia List ZArith Bool.
From Verif Require Import Base Spin SpinFacts Cplx Corr3 SumFacts Map3 SpecMap3 Map3Facts PropsMap3 PropsMap3b.
Import ListNotations.
Open Scope R_scope.

(** ** Specification: the apertures 1, 2, 3 assigned to the vertices 1, 2, 3 in every order *)
Definition aper (k2 k3 : R) (j : nat) : R := match j with 1%nat => 1 | 2%nat => k2 | _ => k3 end.
Definition perms (bt : bintype3) : list (nat * nat * nat) :=
  match bt with
  | LogRUV => [(1,2,3); (1,3,2); (2,1,3); (2,3,1); (3,1,2); (3,2,1)]%nat
  | LogSAS => [(1,2,3); (1,3,2)]%nat
  end.
(** the vertex with the aperture j; 0 for none *)
Definition vertexOf (p : nat * nat * nat) (j : nat) : nat :=
  let '(p1, p2, p3) := p in
  if Nat.eqb p1 j then 1%nat else if Nat.eqb p2 j then 2%nat else if Nat.eqb p3 j then 3%nat else 0%nat.
Definition gamN (g : g3res) (n : nat) : Z -> cplx :=
  match n with 0%nat => g3_gam0 g | 1%nat => g3_gam1 g | 2%nat => g3_gam2 g | _ => g3_gam3 g end.
Definition weightOf (g : g3res) (Rap : R) (k : Z) : R := sdsOf g Rap k * d2tOf g Rap k.
(** the moment with the aperture j conjugated (none: j = 0) *)
Definition momentSpec (g : g3res) (Rap k2 k3 : R) (j : nat) : cplx :=
  fold_right (fun (p : nat * nat * nat) acc => let '(p1, p2, p3) := p in let n := vertexOf p j in
    (csumB (fun k => Tn n (calcT (cR (sOf g Rap k)) (tOf g Rap k) (aper k2 k3 p1) (aper k2 k3 p2) (aper k2 k3 p3)) *
                     cR (weightOf g Rap k) * gamN g n k)%C (g3_bins g) + acc)%C) c0 (perms (g3_bt g)).
Definition momN (m : m3) (j : nat) : cplx :=
  match j with 0%nat => mmm m | 1%nat => mcmm m | 2%nat => mmcm m | _ => mmmc m end.

(** which of the vertices is conjugated: sums *)
Definition dotN (g : g3res) (Rap k1 k2 k3 : R) (n : nat) : cplx :=
  csumB (fun k => Tn n (calcT (cR (sOf g Rap k)) (tOf g Rap k) k1 k2 k3) * cR (weightOf g Rap k) * gamN g n k)%C (g3_bins g).
Lemma csumB_ext f h l : (forall k, In k l -> f k = h k) -> csumB f l = csumB h l.
Proof. intro H. induction l as [|k l IH]; cbn; auto. rewrite H by (left; auto). f_equal. apply IH. intros; apply H; right; auto. Qed.
Lemma onePass_dots g Rap k1 k2 k3 : let P := onePass g Rap k1 k2 k3 in
  d0 P = dotN g Rap k1 k2 k3 0 /\ dd1 P = dotN g Rap k1 k2 k3 1 /\ dd2 P = dotN g Rap k1 k2 k3 2 /\ dd3 P = dotN g Rap k1 k2 k3 3.
Proof. repeat split. Qed.
Theorem C84_perms g Rap k2 k3 j : (j <= 3)%nat -> momN (moments g Rap k2 k3) j = momentSpec g Rap k2 k3 j.
Proof.
  intro Hj. unfold moments, momentSpec.
  change (fold_right _ c0 (perms (g3_bt g))) with
    (fold_right (fun (p : nat * nat * nat) acc => let '(p1, p2, p3) := p in
      (dotN g Rap (aper k2 k3 p1) (aper k2 k3 p2) (aper k2 k3 p3) (vertexOf p j) + acc)%C) c0 (perms (g3_bt g))).
  destruct (g3_bt g).
  - destruct (Req_EM_T k2 1) as [->|N2]; [destruct (Req_EM_T k3 1) as [->|N3]|].
    + destruct j as [|[|[|[|j]]]]; try lia; cbn -[dotN onePass]; unfold csc;
        change (d0 (onePass g Rap 1 1 1)) with (dotN g Rap 1 1 1 0); change (dd1 (onePass g Rap 1 1 1)) with (dotN g Rap 1 1 1 1);
        change (dd2 (onePass g Rap 1 1 1)) with (dotN g Rap 1 1 1 2); change (dd3 (onePass g Rap 1 1 1)) with (dotN g Rap 1 1 1 3); ring.
    + destruct j as [|[|[|[|j]]]]; try lia; cbn -[dotN onePass];
        repeat match goal with |- context [d0 (onePass ?a ?b ?c ?d ?e)] => change (d0 (onePass a b c d e)) with (dotN a b c d e 0)
               | |- context [dd1 (onePass ?a ?b ?c ?d ?e)] => change (dd1 (onePass a b c d e)) with (dotN a b c d e 1)
               | |- context [dd2 (onePass ?a ?b ?c ?d ?e)] => change (dd2 (onePass a b c d e)) with (dotN a b c d e 2)
               | |- context [dd3 (onePass ?a ?b ?c ?d ?e)] => change (dd3 (onePass a b c d e)) with (dotN a b c d e 3) end; ring.
    + destruct j as [|[|[|[|j]]]]; try lia; cbn -[dotN onePass];
        repeat match goal with |- context [d0 (onePass ?a ?b ?c ?d ?e)] => change (d0 (onePass a b c d e)) with (dotN a b c d e 0)
               | |- context [dd1 (onePass ?a ?b ?c ?d ?e)] => change (dd1 (onePass a b c d e)) with (dotN a b c d e 1)
               | |- context [dd2 (onePass ?a ?b ?c ?d ?e)] => change (dd2 (onePass a b c d e)) with (dotN a b c d e 2)
               | |- context [dd3 (onePass ?a ?b ?c ?d ?e)] => change (dd3 (onePass a b c d e)) with (dotN a b c d e 3) end; ring.
  - destruct (Req_EM_T k2 1) as [->|N2]; [destruct (Req_EM_T k3 1) as [->|N3]|].
    + destruct j as [|[|[|[|j]]]]; try lia; cbn -[dotN onePass]; unfold csc;
        change (d0 (onePass g Rap 1 1 1)) with (dotN g Rap 1 1 1 0); change (dd1 (onePass g Rap 1 1 1)) with (dotN g Rap 1 1 1 1);
        change (dd2 (onePass g Rap 1 1 1)) with (dotN g Rap 1 1 1 2); change (dd3 (onePass g Rap 1 1 1)) with (dotN g Rap 1 1 1 3); ring.
    + destruct j as [|[|[|[|j]]]]; try lia; cbn -[dotN onePass];
        repeat match goal with |- context [d0 (onePass ?a ?b ?c ?d ?e)] => change (d0 (onePass a b c d e)) with (dotN a b c d e 0)
               | |- context [dd1 (onePass ?a ?b ?c ?d ?e)] => change (dd1 (onePass a b c d e)) with (dotN a b c d e 1)
               | |- context [dd2 (onePass ?a ?b ?c ?d ?e)] => change (dd2 (onePass a b c d e)) with (dotN a b c d e 2)
               | |- context [dd3 (onePass ?a ?b ?c ?d ?e)] => change (dd3 (onePass a b c d e)) with (dotN a b c d e 3) end; ring.
    + destruct j as [|[|[|[|j]]]]; try lia; cbn -[dotN onePass];
        repeat match goal with |- context [d0 (onePass ?a ?b ?c ?d ?e)] => change (d0 (onePass a b c d e)) with (dotN a b c d e 0)
               | |- context [dd1 (onePass ?a ?b ?c ?d ?e)] => change (dd1 (onePass a b c d e)) with (dotN a b c d e 1)
               | |- context [dd2 (onePass ?a ?b ?c ?d ?e)] => change (dd2 (onePass a b c d e)) with (dotN a b c d e 2)
               | |- context [dd3 (onePass ?a ?b ?c ?d ?e)] => change (dd3 (onePass a b c d e)) with (dotN a b c d e 3) end; ring.
Qed.

(** ** The eight combinations: M_i = A_i + i B_i at each point of a sample *)
Record sample := mkSample { sA : nat -> R; sB : nat -> R; sw : R }.
Definition Mj (x : sample) (i j : nat) : cplx := cIf (Nat.eqb i j) (sA x i, sB x i).
Definition momS (l : list sample) (j : nat) : cplx :=
  fold_right (fun x acc => (cR (sw x) * (Mj x 1 j * Mj x 2 j * Mj x 3 j) + acc)%C) c0 l.
Definition meanS (l : list sample) (f : sample -> R) : R := sumR (fun x => sw x * f x) l.
Theorem C84_eight l var : let r := eight (momS l 0) (momS l 1) (momS l 2) (momS l 3) var in
  map3 r = meanS l (fun x => sA x 1 * sA x 2 * sA x 3) /\
  mapmapmx r = meanS l (fun x => sA x 1 * sA x 2 * sB x 3) /\
  mapmxmap r = meanS l (fun x => sA x 1 * sB x 2 * sA x 3) /\
  mxmapmap r = meanS l (fun x => sB x 1 * sA x 2 * sA x 3) /\
  mxmxmap r = meanS l (fun x => sB x 1 * sB x 2 * sA x 3) /\
  mxmapmx r = meanS l (fun x => sB x 1 * sA x 2 * sB x 3) /\
  mapmxmx r = meanS l (fun x => sA x 1 * sB x 2 * sB x 3) /\
  mx3 r = meanS l (fun x => sB x 1 * sB x 2 * sB x 3).
Proof.
  intro r. unfold r, eight, meanS. cbn [map3 mapmapmx mapmxmap mxmapmap mxmxmap mxmapmx mapmxmx mx3].
  induction l as [|x l [I1 [I2 [I3 [I4 [I5 [I6 [I7 I8]]]]]]]].
  - unfold momS, cadd, csub, copp, c0, IZC, cR. cbn. repeat split; lra.
  - assert (E : forall j, momS (x :: l) j = (cR (sw x) * (Mj x 1 j * Mj x 2 j * Mj x 3 j) + momS l j)%C) by reflexivity.
    rewrite !E. cbn [sumR map fold_right]. unfold Mj. cbn [Nat.eqb cIf].
    unfold cadd, csub, copp, cmul, cconj, cR in *. cbn [fst snd] in *. unfold sumR in *. cbn [map fold_right].
    repeat split; lra.
Qed.
