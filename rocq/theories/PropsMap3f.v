(** C84: parity and the Jacobians; the polynomials of the specification; examples. *)
From Coq Require Import Reals Lra Lia List ZArith Bool Permutation.
From Verif Require Import Base Geometry Tree Spec Spin SpinFacts Cplx Corr3 SumFacts SpecTri SpecSas SpecGGG
  Map3 SpecMap3 Map3Facts PropsMap3 PropsMap3b PropsMap3c PropsMap3d PropsMap3e.
Import ListNotations.
Open Scope R_scope.

(** ** The polynomials of the specification are the products they stand for *)
Lemma cpow_add z m n : cpow z (m + n) = (cpow z m * cpow z n)%C.
Proof. induction m as [|m IH]; cbn -[cmul]; [ring|]. rewrite IH. ring. Qed.
Lemma cpow_conj z n : cpow (cconj z) n = cconj (cpow z n).
Proof. induction n as [|n IH]; cbn -[cmul cconj]; [symmetry; apply conj_Z|]. rewrite IH, conj_mul. reflexivity. Qed.
Lemma peval_app p q z : peval (p ++ q) z = (peval p z + peval q z)%C.
Proof.
  unfold peval. induction p as [|[[c m] n] p IH]; cbn [app fold_right].
  - match goal with |- ?x = _ => generalize x end. intro x. ring.
  - rewrite IH. ring.
Qed.
Lemma peval_shift c m n q z : peval (map (fun '(d, m', n') => ((c * d)%C, (m + m')%nat, (n + n')%nat)) q) z = (c * cpow z m * cpow (cconj z) n * peval q z)%C.
Proof.
  induction q as [|[[d m'] n'] q IHq]; [cbn; cx; ring|].
  cbn [map]. change (peval (((c * d)%C, (m + m')%nat, (n + n')%nat) :: map (fun '(d, m', n') => ((c * d)%C, (m + m')%nat, (n + n')%nat)) q) z)
    with (c * d * cpow z (m + m') * cpow (cconj z) (n + n') + peval (map (fun '(d, m', n') => ((c * d)%C, (m + m')%nat, (n + n')%nat)) q) z)%C.
  rewrite IHq. change (peval ((d, m', n') :: q) z) with (d * cpow z m' * cpow (cconj z) n' + peval q z)%C. rewrite !cpow_add. ring.
Qed.
Lemma peval_mul p q z : peval (pmul p q) z = (peval p z * peval q z)%C.
Proof.
  induction p as [|[[c m] n] p IH].
  - cbn. cx; ring.
  - change (pmul ((c, m, n) :: p) q) with (map (fun '(d, m', n') => ((c * d)%C, (m + m')%nat, (n + n')%nat)) q ++ pmul p q).
    rewrite peval_app, IH. change (peval ((c, m, n) :: p) z) with (c * cpow z m * cpow (cconj z) n + peval p z)%C.
    rewrite peval_shift. ring.
Qed.
Lemma peval_conj p z : peval (pconj p) z = cconj (peval p z).
Proof.
  induction p as [|[[c m] n] p IH]; [symmetry; apply conj_Z|].
  change (peval (pconj ((c, m, n) :: p)) z) with (cconj c * cpow z n * cpow (cconj z) m + peval (pconj p) z)%C.
  change (peval ((c, m, n) :: p) z) with (c * cpow z m * cpow (cconj z) n + peval p z)%C.
  rewrite IH, conj_add, !conj_mul, !cpow_conj, conj_conj. ring.
Qed.
Lemma peval_if b p z : peval (pIf b p) z = cIf b (peval p z).
Proof. destruct b; [apply peval_conj|reflexivity]. Qed.
Lemma peval_factor x y0 z : peval (spinFactor x y0) z = csq (cconj (x - (y0 + z))%C).
Proof.
  unfold spinFactor. rewrite peval_conj, peval_mul, conj_mul. unfold csq, offset. cbn [peval fold_right cpow].
  cx; ring.
Qed.
(** at the centre y = y0 + z the polynomial is the product of the three factors, one of them conjugated *)
Theorem C84_factors n x1 x2 x3 y0 z :
  peval (pmul (pIf (Nat.eqb n 1) (spinFactor x1 y0)) (pmul (pIf (Nat.eqb n 2) (spinFactor x2 y0)) (pIf (Nat.eqb n 3) (spinFactor x3 y0)))) z =
  let y := (y0 + z)%C in
  (cIf (Nat.eqb n 1) (csq (cconj (x1 - y))) * cIf (Nat.eqb n 2) (csq (cconj (x2 - y))) * cIf (Nat.eqb n 3) (csq (cconj (x3 - y))))%C.
Proof. cbv zeta. rewrite !peval_mul, !peval_if, !peval_factor. ring. Qed.

(** ** Parity: positions and shears mirrored, LogRUV *)
Lemma norm_conj z : cnorm (cconj z) = cnorm z. Proof. unfold cnorm, cconj. cbn [fst snd]. ring. Qed.
Lemma calcT_conj n s t k1 k2 k3 : Tn n (calcT (cconj s) (cconj t) k1 k2 k3) = cconj (Tn n (calcT s t k1 k2 k3)).
Proof.
  rewrite !calcT_gen. set (q1 := ((s + t) / IZC 3)%C). set (q2 := (q1 - t)%C). set (q3 := (q1 - s)%C).
  replace ((cconj s + cconj t) / IZC 3)%C with (cconj q1) by (unfold q1; rewrite conj_div, conj_add, conj_Z; reflexivity).
  replace (cconj q1 - cconj t)%C with (cconj q2) by (unfold q2; rewrite conj_sub; reflexivity).
  replace (cconj q1 - cconj s)%C with (cconj q3) by (unfold q3; rewrite conj_sub; reflexivity).
  rewrite !norm_conj. generalize (cnorm q1) (cnorm q2) (cnorm q3). intros a1 a2 a3.
  unfold calcTgen. cbv zeta. set (h := sqrt _). set (u1 := k1 * k1 / h). set (u2 := k2 * k2 / h). set (u3 := k3 * k3 / h).
  set (e := exp _).
  destruct n as [|[|[|n]]]; cbn [Tn T0 T1 T2 T3]; unfold csq;
    repeat (rewrite ?conj_add, ?conj_sub, ?conj_mul, ?conj_div, ?conj_R, ?conj_Z, ?conj_conj); reflexivity.
Qed.
Definition mirrorG (sg : Z -> Z) (g : g3res) : g3res :=
  let c (f : Z -> R) k := f (sg k) in
  mkG3 (g3_bt g) (g3_bins g) (g3_bs g) (g3_ubs g) (g3_vbs g) (g3_phiunits g) (c (g3_d1 g)) (c (g3_d2 g)) (c (g3_d3 g)) (c (g3_u g))
    (fun k => - g3_v g (sg k))
    (fun k => cconj (g3_gam0 g (sg k))) (fun k => cconj (g3_gam1 g (sg k))) (fun k => cconj (g3_gam2 g (sg k))) (fun k => cconj (g3_gam3 g (sg k)))
    (c (g3_var0 g)) (c (g3_var1 g)) (c (g3_var2 g)) (c (g3_var3 g)).
Definition mirrorRes (r : map3res) : map3res :=
  mkMap3 (map3 r) (- mapmapmx r) (- mapmxmap r) (- mxmapmap r) (mxmxmap r) (mxmapmx r) (mapmxmx r) (- mx3 r) (varmap3 r).
Lemma csumB_perm f l l' : Permutation l l' -> csumB f l = csumB f l'.
Proof. unfold csumB. induction 1; cbn -[cadd]; auto; try congruence. ring. Qed.
Lemma csumB_map f (h : Z -> Z) l : csumB f (map h l) = csumB (fun k => f (h k)) l.
Proof. unfold csumB. induction l as [|k l IH]; cbn; auto. rewrite IH. auto. Qed.
Lemma csumB_conj f l : csumB (fun k => cconj (f k)) l = cconj (csumB f l).
Proof. unfold csumB. induction l as [|k l IH]; cbn -[cadd cconj]; [symmetry; apply conj_Z|]. rewrite IH, conj_add. auto. Qed.
Lemma psum_conj bt f : psum bt (fun p => cconj (f p)) = cconj (psum bt f).
Proof. unfold psum. induction (perms bt) as [|k l IH]; cbn -[cadd cconj]; [symmetry; apply conj_Z|]. rewrite IH, conj_add. auto. Qed.
Lemma tRUV_mirror d3 u v : v <> 0 -> tRUV d3 u (- v) = cconj (tRUV d3 u v).
Proof.
  intro N. assert (EX : txRaw d3 u (- v) = txRaw d3 u v) by (unfold txRaw; rewrite Rabs_Ropp; f_equal; f_equal; f_equal; f_equal; ring).
  assert (EB : badTri d3 u (- v) = badTri d3 u v) by (unfold badTri; rewrite EX; auto).
  unfold tRUV. rewrite EB, EX. unfold cconj. cbn [fst snd]. f_equal. destruct (Rlt_dec 0 (-v)), (Rlt_dec 0 v); lra.
Qed.
Theorem C84_parity sg g Rap k2 k3 : g3_bt g = LogRUV -> (forall k, In k (g3_bins g) -> g3_v g k <> 0) ->
  Permutation (map sg (g3_bins g)) (g3_bins g) ->
  calculateMap3 (mirrorG sg g) Rap k2 k3 = mirrorRes (calculateMap3 g Rap k2 k3).
Proof.
  intros HB HV HP. rewrite !calc_spec.
  assert (IN : forall k, In k (g3_bins g) -> In (sg k) (g3_bins g)) by (intros k Hk; apply (Permutation_in _ HP); apply in_map; auto).
  assert (W : forall p n k, In k (g3_bins g) -> Tw (mirrorG sg g) Rap k2 k3 p n k = cconj (Tw g Rap k2 k3 p n (sg k))).
  { intros [[p1 p2] p3] n k Hk. unfold Tw. rewrite conj_mul, conj_R, <- calcT_conj, conj_R.
    assert (ET : tOf (mirrorG sg g) Rap k = cconj (tOf g Rap (sg k))).
    { unfold tOf. cbn [mirrorG g3_bt g3_d3 g3_u g3_v]. rewrite HB. apply tRUV_mirror. auto. }
    rewrite ET. f_equal. f_equal. unfold weightOf, d2tOf. rewrite ET. cbn [mirrorG g3_bt g3_d3 g3_d1 g3_u g3_v g3_ubs g3_vbs g3_bs]. rewrite HB.
    assert (EX : forall d3 u v, txRaw d3 u (- v) = txRaw d3 u v) by (intros; unfold txRaw; rewrite Rabs_Ropp; f_equal; f_equal; f_equal; f_equal; ring).
    assert (EB : forall d3 u v, badTri d3 u (- v) = badTri d3 u v) by (intros; unfold badTri; rewrite EX; auto).
    rewrite EB. change (sdsOf (mirrorG sg g) Rap k) with (sdsOf g Rap (sg k)). f_equal. f_equal. f_equal. f_equal.
    destruct badTri; auto. unfold cconj. cbn [snd]. unfold Rdiv. rewrite Rinv_opp, <- Ropp_mult_distr_r, Rabs_Ropp. reflexivity. }
  assert (M : forall j, (j <= 3)%nat -> momentSpec (mirrorG sg g) Rap k2 k3 j = cconj (momentSpec g Rap k2 k3 j)).
  { intros j Hj. rewrite !mom_psum. change (g3_bt (mirrorG sg g)) with (g3_bt g). rewrite <- psum_conj. apply psum_ext. intros p Hp.
    rewrite <- (csumB_perm (fun k => (Tw g Rap k2 k3 p (vertexOf p j) k * gamN g (vertexOf p j) k)%C) _ _ HP), csumB_map, <- csumB_conj.
    change (g3_bins (mirrorG sg g)) with (g3_bins g). apply csumB_ext. intros k Hk. rewrite W, conj_mul by auto. f_equal.
    generalize (vertexOf p j). intros [|[|[|n]]]; reflexivity. }
  rewrite !M by lia.
  assert (V : forall n, vrow (mirrorG sg g) Rap k2 k3 n = vrow g Rap k2 k3 n).
  { intro n. unfold vrow, varDot. change (g3_bins (mirrorG sg g)) with (g3_bins g).
    rewrite <- (sumR_perm (fun k => cnorm (psum (g3_bt g) (fun p => Tw g Rap k2 k3 p n k) / IZC 4)%C * varN g n k) _ _ HP), sumR_map.
    apply sumR_ext. intros k Hk. f_equal.
    - rewrite <- (norm_conj (_ / _)%C), conj_div, conj_Z, <- psum_conj. f_equal. f_equal. apply psum_ext. intros p Hp. rewrite W, conj_conj; auto.
    - destruct n as [|[|[|n]]]; reflexivity. }
  rewrite !V.
  generalize (momentSpec g Rap k2 k3 0) (momentSpec g Rap k2 k3 1) (momentSpec g Rap k2 k3 2) (momentSpec g Rap k2 k3 3).
  intros a b c d. unfold eight, mirrorRes. cbn -[vrow]. unfold cadd, csub, copp, cconj. cbn [fst snd]. f_equal; ring.
Qed.

(** ** The Jacobians *)
Lemma near_open f x : continuity_pt f x -> -1 < f x < 1 -> exists d, 0 < d /\ forall z, x - d < z < x + d -> -1 < f z < 1.
Proof.
  intros HC HB. assert (HE : 0 < Rmin (f x + 1) (1 - f x)) by (apply Rmin_glb_lt; lra).
  destruct (HC _ HE) as [d [Hd H]]. exists d. split; auto. intros z Hz.
  destruct (Req_dec x z) as [<-|N]; auto. assert (D : R_dist (f z) (f x) < Rmin (f x + 1) (1 - f x)).
  { apply H. split; [split; [exact I|auto]|]. unfold R_dist. apply Rabs_def1; lra. }
  unfold R_dist in D. apply Rabs_def2 in D. pose proof (Rmin_l (f x + 1) (1 - f x)). pose proof (Rmin_r (f x + 1) (1 - f x)). lra.
Qed.
(** cosine of the angle at the first vertex *)
Definition hOf (u v : R) : R := 1/2 * u * (1 - v ^ 2) - Rabs v.
Lemma bad_h d u v : 0 < d -> (badTri d u v = false <-> -1 < hOf u v < 1).
Proof.
  intro Hd. unfold badTri, txRaw. fold (hOf u v). split; intro H.
  - repeat destruct Rle_dec; try discriminate. split; nra.
  - repeat destruct Rle_dec; auto; exfalso; nra.
Qed.
Lemma tRUV_h d u v : 0 < d -> -1 < hOf u v < 1 ->
  tRUV d u v = (d * hOf u v, (if Rlt_dec 0 v then -1 else 1) * (d * sqrt (1 - hOf u v ^ 2))).
Proof.
  intros Hd H. unfold tRUV. rewrite (proj2 (bad_h d u v Hd) H). unfold txRaw. fold (hOf u v).
  replace (d ^ 2 - (d * hOf u v) ^ 2) with ((d * d) * (1 - hOf u v ^ 2)) by ring.
  rewrite sqrt_mult_alt, sqrt_square by nra. f_equal. destruct Rlt_dec; ring.
Qed.
Lemma lim_sqrt1 f x l : -1 < f x < 1 -> derivable_pt_lim f x l ->
  derivable_pt_lim (fun z => sqrt (1 - f z ^ 2)) x (- (f x * l) / sqrt (1 - f x ^ 2)).
Proof.
  intros HB HD. assert (HP : 0 < 1 - f x ^ 2) by nra. assert (HS := sqrt_lt_R0 _ HP).
  assert (H1 : derivable_pt_lim (fun z => 1 - f z ^ 2) x (0 - (f x * l + l * f x))).
  { apply (derivable_pt_lim_ext (minus_fct (fct_cte 1) (mult_fct f f))); [intro z; unfold minus_fct, fct_cte, mult_fct; ring|].
    apply derivable_pt_lim_minus; [apply derivable_pt_lim_const|].
    replace (f x * l + l * f x) with (l * f x + f x * l) by ring. apply derivable_pt_lim_mult; auto. }
  assert (H2 := derivable_pt_lim_sqrt _ HP).
  assert (H3 := derivable_pt_lim_comp (fun z => 1 - f z ^ 2) sqrt x _ _ H1 H2). unfold comp in H3.
  replace (- (f x * l) / sqrt (1 - f x ^ 2)) with (/ (2 * sqrt (1 - f x ^ 2)) * (0 - (f x * l + l * f x))) by (field; lra). exact H3.
Qed.
Theorem C84_jacobian s u v : 0 < s -> 0 < u -> v <> 0 -> badTri (s * u) u v = false ->
  exists xu xv yu yv,
    derivable_pt_lim (fun u => fst (tRUV (s * u) u v)) u xu /\ derivable_pt_lim (fun v => fst (tRUV (s * u) u v)) v xv /\
    derivable_pt_lim (fun u => snd (tRUV (s * u) u v)) u yu /\ derivable_pt_lim (fun v => snd (tRUV (s * u) u v)) v yv /\
    Rabs (xu * yv - xv * yu) =
      Rabs (s * u * (s * u) * (s + s * u * Rabs v) / snd (tRUV (s * u) u v)).
Proof.
  intros Hs Hu Hv Hb. assert (Hd : 0 < s * u) by nra. assert (HB := proj1 (bad_h _ _ _ Hd) Hb).
  set (sv := if Rlt_dec 0 v then 1 else -1).
  assert (Ev : Rabs v = sv * v) by (unfold sv; destruct Rlt_dec; [rewrite Rabs_right|rewrite Rabs_left1]; lra).
  assert (Hsv : sv * sv = 1) by (unfold sv; destruct Rlt_dec; ring).
  set (hu := 1/2 * (1 - v ^ 2)). set (hv := - (u * v) - sv).
  assert (DU : derivable_pt_lim (fun u => hOf u v) u hu).
  { apply (derivable_pt_lim_ext (minus_fct (mult_real_fct hu id) (fct_cte (Rabs v)))); [intro z; unfold minus_fct, mult_real_fct, fct_cte, id, hOf, hu; ring|].
    replace hu with (hu * 1 - 0) at 2 by ring. apply derivable_pt_lim_minus; [apply derivable_pt_lim_scal; apply derivable_pt_lim_id|apply derivable_pt_lim_const]. }
  assert (HN : exists d, 0 < d /\ forall z, v - d < z < v + d -> Rabs z = sv * z /\ (if Rlt_dec 0 z then -1 else 1) = - sv).
  { exists (Rabs v). split; [apply Rabs_pos_lt; auto|]. intros z Hz. revert Hz. unfold sv. destruct (Rlt_dec 0 v).
    - rewrite Rabs_right by lra. intro Hz. rewrite Rabs_right by lra. split; [ring|]. destruct Rlt_dec; lra.
    - rewrite Rabs_left1 by lra. intro Hz. rewrite Rabs_left1 by lra. split; [ring|]. destruct Rlt_dec; lra. }
  destruct HN as [d [Pd HN]].
  assert (DV : derivable_pt_lim (fun v => hOf u v) v hv).
  { apply (derivable_pt_lim_locally_ext (fun z => 1/2 * u * (1 - z ^ 2) - sv * z) _ v (v - d) (v + d)); [lra| |].
    - intros z Hz. unfold hOf. rewrite (proj1 (HN z Hz)). reflexivity.
    - apply (derivable_pt_lim_ext (minus_fct (mult_real_fct (1/2 * u) (minus_fct (fct_cte 1) (mult_fct id id))) (mult_real_fct sv id)));
        [intro z; unfold minus_fct, mult_real_fct, fct_cte, mult_fct, id; ring|].
      replace hv with (1/2 * u * (0 - (1 * id v + id v * 1)) - sv * 1) by (unfold hv, id; field).
      apply derivable_pt_lim_minus; [|apply derivable_pt_lim_scal; apply derivable_pt_lim_id].
      apply derivable_pt_lim_scal. apply derivable_pt_lim_minus; [apply derivable_pt_lim_const|].
      apply derivable_pt_lim_mult; apply derivable_pt_lim_id. }
  assert (CU : continuity_pt (fun u => hOf u v) u) by (apply derivable_continuous_pt; exists hu; exact DU).
  assert (CV : continuity_pt (fun v => hOf u v) v) by (apply derivable_continuous_pt; exists hv; exact DV).
  destruct (near_open _ _ CU HB) as [e [Pe HE]]. destruct (near_open _ _ CV HB) as [e' [Pe' HE']].
  set (h := hOf u v) in *. set (w := sqrt (1 - h ^ 2)).
  assert (Pw : 0 < w) by (apply sqrt_lt_R0; nra). assert (Ww : w * w = 1 - h * h) by (unfold w; rewrite sqrt_sqrt; nra).
  assert (SU := lim_sqrt1 (fun u => hOf u v) u hu HB DU). assert (SV := lim_sqrt1 (fun v => hOf u v) v hv HB DV).
  cbv beta in SU, SV. fold h in SU, SV. fold w in SU, SV.
  set (eu := Rmin e u). set (ev := Rmin d e').
  assert (Leu : 0 < eu /\ eu <= e /\ eu <= u) by (unfold eu; split; [apply Rmin_glb_lt; lra|split; [apply Rmin_l|apply Rmin_r]]).
  assert (Lev : 0 < ev /\ ev <= d /\ ev <= e') by (unfold ev; split; [apply Rmin_glb_lt; lra|split; [apply Rmin_l|apply Rmin_r]]).
  assert (SG : (if Rlt_dec 0 v then -1 else 1) = - sv) by (unfold sv; destruct Rlt_dec; lra).
  exists (s * (h + u * hu)), (s * u * hv), (- sv * (s * (w + u * (- (h * hu) / w)))), (- sv * (s * u) * (- (h * hv) / w)).
  assert (DI : derivable_pt_lim (fun z => s * z) u s).
  { apply (derivable_pt_lim_ext (mult_real_fct s id)); [intro z; reflexivity|]. replace s with (s * 1) at 2 by ring. apply derivable_pt_lim_scal. apply derivable_pt_lim_id. }
  split; [|split; [|split; [|split]]].
  - apply (derivable_pt_lim_locally_ext (mult_fct (fun z => s * z) (fun z => hOf z v)) _ u (u - eu) (u + eu)); [lra| |].
    + intros z Hz. rewrite tRUV_h; [reflexivity|nra|apply HE; lra].
    + replace (s * (h + u * hu)) with (s * h + s * u * hu) by ring. apply (derivable_pt_lim_mult (fun z => s * z) (fun z => hOf z v)); auto.
  - apply (derivable_pt_lim_locally_ext (mult_real_fct (s * u) (fun z => hOf u z)) _ v (v - ev) (v + ev)); [lra| |].
    + intros z Hz. rewrite tRUV_h; [reflexivity|nra|apply HE'; lra].
    + apply derivable_pt_lim_scal; auto.
  - apply (derivable_pt_lim_locally_ext (mult_real_fct (- sv) (mult_fct (fun z => s * z) (fun z => sqrt (1 - hOf z v ^ 2)))) _ u (u - eu) (u + eu)); [lra| |].
    + intros z Hz. rewrite tRUV_h; [|nra|apply HE; lra]. cbn [snd]. rewrite SG. reflexivity.
    + apply derivable_pt_lim_scal. replace (s * (w + u * (- (h * hu) / w))) with (s * w + s * u * (- (h * hu) / w)) by ring.
      apply (derivable_pt_lim_mult (fun z => s * z) (fun z => sqrt (1 - hOf z v ^ 2))); auto.
  - apply (derivable_pt_lim_locally_ext (mult_real_fct (- sv * (s * u)) (fun z => sqrt (1 - hOf u z ^ 2))) _ v (v - ev) (v + ev)); [lra| |].
    + intros z Hz. rewrite tRUV_h; [|nra|apply HE'; lra]. cbn [snd]. rewrite (proj2 (HN z ltac:(lra))). unfold mult_real_fct. ring.
    + apply derivable_pt_lim_scal; auto.
  - rewrite tRUV_h by auto. cbn [snd]. rewrite SG. fold h w.
    assert (EJ : s * (h + u * hu) * (- sv * (s * u) * (- (h * hv) / w)) - s * u * hv * (- sv * (s * (w + u * (- (h * hu) / w)))) = sv * s * s * u * hv / w).
    { transitivity (sv * s * s * u * hv * (h * h + w * w) / w); [field; lra|]. rewrite Ww. f_equal. ring. }
    rewrite EJ, Ev.
    assert (ER : s * u * (s * u) * (s + s * u * (sv * v)) / (- sv * (s * u * w)) = - / sv * (s * s * u * (1 + u * (sv * v)) / w)).
    { assert (sv <> 0) by (intro X; rewrite X in Hsv; lra). field. repeat split; lra. }
    assert (E1 : / sv = sv) by (apply (Rmult_eq_reg_l sv); [rewrite Rinv_r; [lra|]|]; intro X; rewrite X in Hsv; lra).
    rewrite ER, E1.
    replace (sv * s * s * u * hv / w) with (- sv * (s * s * u * (- hv) / w)) by (field; lra).
    assert (EH : - hv = sv * (1 + u * (sv * v))).
    { unfold hv. transitivity (u * v * (sv * sv) + sv); [rewrite Hsv; ring|ring]. }
    rewrite EH. replace (- sv * (s * s * u * (sv * (1 + u * (sv * v))) / w)) with (- (sv * sv) * (s * s * u * (1 + u * (sv * v)) / w)) by (field; lra).
    rewrite Hsv. rewrite !Rabs_mult, !Rabs_Ropp, Rabs_R1.
    assert (ES : Rabs sv = 1) by (unfold sv; destruct Rlt_dec; [rewrite Rabs_right|rewrite Rabs_left]; lra). rewrite ES. reflexivity.
Qed.
Theorem C84_jacobian_sas L phi : exists xl xp yl yp,
  derivable_pt_lim (fun L => fst (tSAS (exp L) phi)) L xl /\ derivable_pt_lim (fun p => fst (tSAS (exp L) p)) phi xp /\
  derivable_pt_lim (fun L => snd (tSAS (exp L) phi)) L yl /\ derivable_pt_lim (fun p => snd (tSAS (exp L) p)) phi yp /\
  xl * yp - xp * yl = exp L * exp L.
Proof.
  exists (exp L * cos phi), (exp L * - sin phi), (exp L * sin phi), (exp L * cos phi). cbn [fst snd tSAS].
  assert (DC : forall c, derivable_pt_lim (fun z => exp z * c) L (exp L * c)).
  { intro c. apply (derivable_pt_lim_ext (mult_real_fct c exp)); [intro; unfold mult_real_fct; ring|].
    rewrite Rmult_comm. apply derivable_pt_lim_scal. apply derivable_pt_lim_exp. }
  repeat split; auto.
  - apply (derivable_pt_lim_ext (mult_real_fct (exp L) cos)); [reflexivity|]. apply derivable_pt_lim_scal. apply derivable_pt_lim_cos.
  - apply (derivable_pt_lim_ext (mult_real_fct (exp L) sin)); [reflexivity|]. apply derivable_pt_lim_scal. apply derivable_pt_lim_sin.
  - pose proof (sin2_cos2 phi) as H. unfold Rsqr in H. transitivity (exp L * exp L * (sin phi * sin phi + cos phi * cos phi)); [ring|rewrite H; ring].
Qed.
