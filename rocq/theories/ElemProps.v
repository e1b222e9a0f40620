(** * Properties of the elements: C42, C45, C46, C48-C52, C74-C76 *)
From Coq Require Import Reals List Arith Bool Lia Lra Psatz Permutation.
From Flocq Require Import Core.
From Verif Require Import Vec Sums StdModel MeshModel MeshProof ElemModel ElemProof AvgModel.
Import ListNotations.
Local Open Scope R_scope.

(** ** Specification vocabulary *)
(** volume of the tetrahedron with vertices a, b, c, d *)
Definition volume4 (a b c d : vec) : R := Rabs (dot (vsub b a) (cross (vsub c a) (vsub d a))) / 6.
Definition unitary (u : vec) : Prop := dot u u = 1.
Definition orthonormal (a b c : vec) : Prop :=
  unitary a /\ unitary b /\ unitary c /\ dot a b = 0 /\ dot b c = 0 /\ dot c a = 0.
Definition four (a b c d : vec) (i : nat) : vec := nth i [a; b; c; d] vzero.

(** the reference tetrahedron, for the examples *)
Definition ref_tet : nat -> vec := four (V 0 0 0) (V 1 0 0) (V 0 1 0) (V 0 0 1).
Lemma ref_det : detJ ref_tet = 1.
Proof. unfold detJ, det3, jac, ref_tet, four, edge1, edge2, edge3, vsub. simpl. ring. Qed.

(** ** C45: orientation and volume *)
Theorem C45_orientation : forall (epsilon : R) (p : nat -> vec) (a b c d : nat),
  0 < epsilon ->
  (orientate epsilon p [a; b; c; d] = None <-> volume4 (p a) (p b) (p c) (p d) < epsilon / 6) /\
  (forall ind, orientate epsilon p [a; b; c; d] = Some ind ->
     let q i := p (nth i ind 0%nat) in
     Permutation [a; b; c; d] ind /\
     0 < detJ q /\
     calc_vol q = volume4 (p a) (p b) (p c) (p d) /\
     sumn 5 (weight q) = volume4 (p a) (p b) (p c) (p d)).
Proof.
  intros eps p a b c d He. unfold orientate, volume4.
  set (q := fun i => p (nth i [a; b; c; d] 0%nat)).
  assert (Hq : mixed_prod q = dot (vsub (p b) (p a)) (cross (vsub (p c) (p a)) (vsub (p d) (p a)))) by reflexivity.
  rewrite <- Hq. split.
  - destruct (Rlt_bool_spec (Rabs (mixed_prod q)) eps) as [H|H].
    + split; auto. intros _. lra.
    + split; [|intros; lra]. destruct (Rlt_bool (mixed_prod q) 0); discriminate.
  - intros ind H. destruct (Rlt_bool_spec (Rabs (mixed_prod q)) eps) as [|Hge]; [discriminate|].
    destruct (Rlt_bool_spec (mixed_prod q) 0) as [Hn|Hp]; inversion H; subst ind; cbv zeta.
    + set (q' := fun i => p (nth i [a; b; d; c] 0%nat)).
      assert (E : mixed_prod q' = - mixed_prod q).
      { unfold mixed_prod, q', q, edge1, edge2, edge3. cbn [nth]. vsimpl. ring. }
      split. { apply perm_skip, perm_skip, perm_swap. }
      change (sumn 5 (weight q')) with (calc_vol q'). rewrite vol_det, detJ_mixed, E. rewrite Rabs_left by exact Hn. lra.
    + fold q. split; auto. change (sumn 5 (weight q)) with (calc_vol q). rewrite vol_det, detJ_mixed. rewrite Rabs_pos_eq in * by exact Hp. lra.
Qed.

(** a badly oriented tetrahedron has its last two nodes exchanged *)
Example C45_nonvacuous :
  orientate (1 / 2) (four (V 0 0 0) (V 0 1 0) (V 1 0 0) (V 0 0 1)) [0; 1; 2; 3]%nat = Some [0; 1; 3; 2]%nat.
Proof.
  unfold orientate, mixed_prod, edge1, edge2, edge3, four. cbn [nth]. vsimpl.
  match goal with |- context [Rabs ?x] => replace x with (-1) by ring end.
  rewrite Rabs_left by lra. rewrite Rlt_bool_false by lra. rewrite Rlt_bool_true by lra. reflexivity.
Qed.

(** ** C46: gradients *)
Theorem C46_gradient_affine : forall (q : nat -> vec) (c : R) (g : vec),
  detJ q <> 0 ->
  let f x := c + dot g x in
  calc_gradV q (fun i => f (q i)) = g /\
  interp_field q (fun i => f (q i)) = vscale (-1) g /\
  (forall j, (j < 5)%nat -> interp (fun i => f (q i)) j = f (interpV q j)).
Proof.
  intros q c g H f. split; [|split].
  - apply gradV_affine. exact H.
  - unfold interp_field. fold (calc_gradV q (fun i => f (q i))). unfold f. rewrite (gradV_affine q c g H). vring.
  - intros j Hj. unfold f. rewrite interp_dot. unfold interp. cbn [sumn]. unfold sh. ring.
Qed.

(** affine vector fields: u(x) = u0 + (gx . x, gy . x, gz . x) has the exact partial derivatives *)
Theorem C46_derivatives_affine : forall (q : nat -> vec) (u0 gx gy gz : vec),
  detJ q <> 0 ->
  let f x := vadd u0 (V (dot gx x) (dot gy x) (dot gz x)) in
  deriv q (fun i => f (q i)) 0 = V (vx gx) (vx gy) (vx gz) /\
  deriv q (fun i => f (q i)) 1 = V (vy gx) (vy gy) (vy gz) /\
  deriv q (fun i => f (q i)) 2 = V (vz gx) (vz gy) (vz gz).
Proof.
  intros q u0 gx gy gz H f. rewrite !deriv_grad. unfold f, vadd. cbn [vx vy vz].
  rewrite !gradV_affine by exact H. auto.
Qed.

Example C46_nonvacuous : calc_gradV ref_tet (fun i => 2 + dot (V 3 (-1) 5) (ref_tet i)) = V 3 (-1) 5.
Proof. apply C46_gradient_affine. rewrite ref_det. lra. Qed.

(** ** C48: effective damping. It lies within 10 % of alpha, equals alpha for a zero field, never decreases with
    the field and its slope is at most gamma0*dt/2 (in particular it is continuous). *)
Theorem C48_alpha_eff : forall (gamma0 dt alpha : R), 0 < gamma0 -> 0 < dt -> 0 < alpha ->
  (forall h, alpha / (1 + 1 / 10) <= alpha_eff gamma0 dt alpha h <= alpha * (1 + 1 / 10)) /\
  alpha_eff gamma0 dt alpha 0 = alpha /\
  (forall h h', h <= h' ->
     0 <= alpha_eff gamma0 dt alpha h' - alpha_eff gamma0 dt alpha h <= gamma0 * dt / 2 * (h' - h)).
Proof.
  intros g dt al Hg Hd Ha. split; [|split].
  - intros h. replace (1 + 1 / 10) with (11 / 10) by field. apply alpha_eff_bounds; assumption.
  - apply alpha_eff_zero; assumption.
  - intros h h' H. apply alpha_eff_incr; assumption.
Qed.

(** the field saturates the damping in both directions, and acts linearly near zero *)
Example C48_nonvacuous : alpha_eff 1 1 1 5 = 11 / 10 /\ alpha_eff 1 1 1 (-5) = 10 / 11 /\ alpha_eff 1 1 1 (1 / 10) = 21 / 20.
Proof.
  assert (H1 : 0 < 1) by lra. split; [|split].
  - rewrite (proj1 (alpha_eff_cases 1 1 1 5 H1 H1 H1)); lra.
  - rewrite (proj2 (proj2 (proj2 (alpha_eff_cases 1 1 1 (-5) H1 H1 H1)))); lra.
  - rewrite (proj1 (proj2 (alpha_eff_cases 1 1 1 (1 / 10) H1 H1 H1))); lra.
Qed.

(** ** C49: the element matrix is positive *)
(** x . (AE x), AE k l i j being the coefficient of row (component k, node i) and column (component l, node j) *)
Definition form (AE : nat -> nat -> nat -> nat -> R) (x : nat -> vec) : R :=
  sumn 3 (fun k => sumn 4 (fun i => comp k (x i) * sumn 3 (fun l => sumn 4 (fun j => AE k l i j * comp l (x j))))).

Lemma form_quad : forall AE x, form AE x = quad AE x.
Proof.
  intros AE x. unfold form, quad. apply sumn_ext. intros k _.
  rewrite sumn_exchange. apply sumn_ext. intros i _.
  rewrite <- sumn_scale. apply sumn_ext. intros l _. rewrite <- sumn_scale. apply sumn_ext. intros j _. ring.
Qed.

Theorem C49_local_matrix_positive : forall (q : nat -> vec) (gamma0 dt alpha prefactor : R) (h : nat -> R) (u x : nat -> vec),
  0 < detJ q -> 0 < gamma0 -> 0 < dt -> 0 < alpha -> 0 <= prefactor ->
  let AE := lumping q (fun j => alpha_eff gamma0 dt alpha (h j)) prefactor u in
  52 / 275 * alpha * calc_vol q * sumn 4 (fun i => dot (x i) (x i)) <= form AE x.
Proof.
  intros q g dt al c h u x Hd Hg Ht Ha Hc. cbv zeta. rewrite form_quad, quad_lumping.
  assert (Hv : 0 < calc_vol q) by (rewrite vol_det; lra).
  assert (E : 0 <= c * calc_vol q * (sqn (deriv q x 0) + sqn (deriv q x 1) + sqn (deriv q x 2))).
  { apply Rmult_le_pos. { nra. } unfold sqn. pose proof (dot_self_nonneg (deriv q x 0)). pose proof (dot_self_nonneg (deriv q x 1)).
    pose proof (dot_self_nonneg (deriv q x 2)). lra. }
  assert (K : forall i, (i < 4)%nat -> 52 / 275 * al * calc_vol q <= contrib q (fun j => alpha_eff g dt al (h j)) i).
  { intros i Hi. apply contrib_bound; auto. intros j _. apply alpha_eff_bounds; assumption. }
  assert (S4 : forall i, (i < 4)%nat -> 52 / 275 * al * calc_vol q * dot (x i) (x i) <=
    contrib q (fun j => alpha_eff g dt al (h j)) i * sqn (x i)).
  { intros i Hi. unfold sqn. apply Rmult_le_compat_r. { apply dot_self_nonneg. } auto. }
  pose proof (S4 0%nat ltac:(lia)). pose proof (S4 1%nat ltac:(lia)). pose proof (S4 2%nat ltac:(lia)). pose proof (S4 3%nat ltac:(lia)).
  cbn [sumn]. lra.
Qed.

(** the gyroscopic part is there: the matrix is not symmetric *)
Example C49_nonvacuous :
  let AE := lumping ref_tet (fun j => alpha_eff 1 1 1 0) 1 (fun _ => V 0 0 1) in
  0 < detJ ref_tet /\ AE 0%nat 1%nat 0%nat 0%nat = - / 24 /\ AE 1%nat 0%nat 0%nat 0%nat = / 24.
Proof.
  cbv zeta. rewrite ref_det. split; [lra|]. unfold lumping. cbn [Nat.eqb comp vz]. unfold a_w, weight. rewrite ref_det.
  unfold sh, gu, gv, gw, pds, NPI. cbn [sumn nth]. split; field.
Qed.

(** ** C50: energies *)
Definition mean4 (u : nat -> vec) : vec := vscale (/ 4) (vsumn 4 u).

Lemma gradV_const : forall q x c, (forall i, (i < 4)%nat -> x i = c) -> calc_gradV q x = vzero.
Proof.
  intros q x c H. rewrite gradV_edges, (H 0%nat), (H 1%nat), (H 2%nat), (H 3%nat) by lia. apply vec_eq; vsimpl; ring.
Qed.
Lemma deriv_const : forall q u (c : vec) k, (forall i, (i < 4)%nat -> u i = c) -> deriv q u k = vzero.
Proof.
  intros q u c k H. rewrite deriv_grad.
  rewrite (gradV_const q (fun i => vx (u i)) (vx c)), (gradV_const q (fun i => vy (u i)) (vy c)), (gradV_const q (fun i => vz (u i)) (vz c)).
  { destruct k as [|[|k]]; reflexivity. }
  all: intros i Hi; rewrite (H i Hi); reflexivity.
Qed.
Lemma vec_parts : forall a b c, V a b c = vzero -> a = 0 /\ b = 0 /\ c = 0.
Proof. intros a b c H. injection H. auto. Qed.

Theorem C50_exchange : forall (prm : tprm) (q u : nat -> vec), 0 < detJ q ->
  (0 <= p_A prm -> 0 <= exchangeEnergy prm q u) /\
  (0 < p_A prm -> (exchangeEnergy prm q u = 0 <-> forall i, (i < 4)%nat -> u i = u 0%nat)).
Proof.
  intros prm q u Hd. assert (Hv : 0 < calc_vol q) by (rewrite vol_det; lra).
  unfold exchangeEnergy. rewrite wdot_const. unfold sqn.
  pose proof (dot_self_nonneg (deriv q u 0)) as H0. pose proof (dot_self_nonneg (deriv q u 1)) as H1. pose proof (dot_self_nonneg (deriv q u 2)) as H2.
  split.
  - intros HA. apply Rmult_le_pos; auto. apply Rmult_le_pos; lra.
  - intros HA. split.
    + intros E. apply Rmult_integral in E. destruct E as [E|E]; [lra|]. apply Rmult_integral in E. destruct E as [E|E]; [lra|].
      assert (E0 : deriv q u 0 = vzero) by (apply dot_self_zero; lra).
      assert (E1 : deriv q u 1 = vzero) by (apply dot_self_zero; lra).
      assert (E2 : deriv q u 2 = vzero) by (apply dot_self_zero; lra).
      rewrite deriv_grad in E0, E1, E2.
      apply vec_parts in E0, E1, E2. destruct E0 as (X0 & Y0 & Z0), E1 as (X1 & Y1 & Z1), E2 as (X2 & Y2 & Z2). cbn [comp] in *.
      assert (G : forall x, vx (calc_gradV q x) = 0 -> vy (calc_gradV q x) = 0 -> vz (calc_gradV q x) = 0 ->
        x 1%nat = x 0%nat /\ x 2%nat = x 0%nat /\ x 3%nat = x 0%nat).
      { intros x Gx Gy Gz. assert (Gv : calc_gradV q x = vzero) by (apply vec_eq; assumption).
        rewrite gradV_edges in Gv.
        assert (D1 : forall e, dot (vadd (vadd (vscale (x 1%nat - x 0%nat) (da q 1)) (vscale (x 2%nat - x 0%nat) (da q 2))) (vscale (x 3%nat - x 0%nat) (da q 3))) e = 0)
          by (intros e; rewrite Gv; vsimpl; ring).
        pose proof (D1 (edge1 q)) as A1. pose proof (D1 (edge2 q)) as A2. pose proof (D1 (edge3 q)) as A3. clear D1 Gv.
        rewrite !dot_add_l, !dot_scale_l in A1, A2, A3. rewrite da_1, da_2, da_3, !dot_scale_l in A1, A2, A3.
        assert (M1 : dot (cross (edge2 q) (edge3 q)) (edge1 q) = detJ q) by (rewrite detJ_mixed; unfold mixed_prod; apply dot_comm).
        assert (M2 : dot (cross (edge3 q) (edge1 q)) (edge2 q) = detJ q) by (rewrite detJ_mixed; unfold mixed_prod; vsimpl; ring).
        assert (M3 : dot (cross (edge1 q) (edge2 q)) (edge3 q) = detJ q) by (rewrite detJ_mixed; unfold mixed_prod; vsimpl; ring).
        assert (Z : forall a b, dot (cross a b) a = 0 /\ dot (cross a b) b = 0) by (intros; split; vsimpl; ring).
        rewrite M1, (proj2 (Z (edge3 q) (edge1 q))), (proj1 (Z (edge1 q) (edge2 q))) in A1.
        rewrite M2, (proj1 (Z (edge2 q) (edge3 q))), (proj2 (Z (edge1 q) (edge2 q))) in A2.
        rewrite M3, (proj2 (Z (edge2 q) (edge3 q))), (proj1 (Z (edge3 q) (edge1 q))) in A3.
        rewrite Rinv_l in A1, A2, A3 by lra. lra. }
      destruct (G _ X0 X1 X2) as (P1 & P2 & P3). destruct (G _ Y0 Y1 Y2) as (Q1 & Q2 & Q3). destruct (G _ Z0 Z1 Z2) as (R1 & R2 & R3).
      intros i Hi. destruct i as [|[|[|[|i]]]]; [reflexivity| | | |lia]; apply vec_eq; assumption.
    + intros E. assert (K : forall k, deriv q u k = vzero).
      { intros k. apply (deriv_const q u (u 0%nat)). exact E. }
      rewrite !K. vsimpl. ring.
Qed.

Lemma sq_bound : forall c x, - c <= x <= c -> 0 <= x² <= c * c.
Proof. intros c x H. unfold Rsqr. split; nra. Qed.
Lemma dot_bound : forall a b, unitary a -> unitary b -> -1 <= dot a b <= 1.
Proof.
  intros a b Ha Hb. unfold unitary in *. pose proof (dot_self_nonneg (vsub a b)) as H1. pose proof (dot_self_nonneg (vadd a b)) as H2.
  rewrite dot_sub_l, !dot_sub_r in H1. rewrite dot_add_l, !dot_add_r in H2. rewrite (dot_comm b a) in *. lra.
Qed.

(** the quadrature is exact for the square of an interpolated component, so that the bounds hold for any
    magnetization of the nodes although one Gauss weight is negative *)
Theorem C50_uniaxial : forall (prm : tprm) (q u : nat -> vec), 0 < detJ q -> 0 <= p_K prm -> unitary (p_uk prm) ->
  (forall i, (i < 4)%nat -> unitary (u i)) ->
  - p_K prm * calc_vol q <= uniaxialEnergy prm q (interpV u) <= 0 /\
  ((forall i, (i < 4)%nat -> u i = p_uk prm) -> uniaxialEnergy prm q (interpV u) = - p_K prm * calc_vol q).
Proof.
  intros prm q u Hd HK Huk Hu. assert (Hv : 0 < calc_vol q) by (rewrite vol_det; lra).
  assert (E : uniaxialEnergy prm q (interpV u) = - p_K prm * wdot q (fun j => interp (fun i => dot (p_uk prm) (u i)) j * interp (fun i => dot (p_uk prm) (u i)) j)).
  { unfold uniaxialEnergy. f_equal. apply wdot_ext. intros j _. rewrite interp_dot. reflexivity. }
  rewrite E, wdot_square. clear E. split.
  - pose proof (dot_bound _ _ Huk (Hu 0%nat ltac:(lia))) as B0. pose proof (dot_bound _ _ Huk (Hu 1%nat ltac:(lia))) as B1.
    pose proof (dot_bound _ _ Huk (Hu 2%nat ltac:(lia))) as B2. pose proof (dot_bound _ _ Huk (Hu 3%nat ltac:(lia))) as B3.
    set (x0 := dot (p_uk prm) (u 0%nat)) in *. set (x1 := dot (p_uk prm) (u 1%nat)) in *.
    set (x2 := dot (p_uk prm) (u 2%nat)) in *. set (x3 := dot (p_uk prm) (u 3%nat)) in *.
    assert (S0 : 0 <= (x0² + x1² + x2² + x3² + (x0 + x1 + x2 + x3)²) / 20 <= 1).
    { assert (forall x, -1 <= x <= 1 -> 0 <= x² <= 1) by (intros; unfold Rsqr; nra).
      pose proof (H x0 B0). pose proof (H x1 B1). pose proof (H x2 B2). pose proof (H x3 B3).
      pose proof (sq_bound 4 (x0 + x1 + x2 + x3) ltac:(lra)). lra. }
    set (s := (x0² + x1² + x2² + x3² + (x0 + x1 + x2 + x3)²) / 20) in *. clearbody s.
    assert (0 <= calc_vol q * s <= calc_vol q) by nra. nra.
  - intros E. rewrite !E by lia. unfold unitary in Huk. rewrite Huk. unfold Rsqr. field.
Qed.

Theorem C50_cubic_uniform : forall (prm : tprm) (q u : nat -> vec) (m : vec), 0 < detJ q -> 0 <= p_K3 prm ->
  orthonormal (p_ex prm) (p_ey prm) (p_ez prm) -> unitary m -> (forall i, (i < 4)%nat -> u i = m) ->
  0 <= cubicEnergy prm q (interpV u) <= p_K3 prm * calc_vol q / 3 /\
  (m = p_ex prm \/ m = p_ey prm \/ m = p_ez prm -> cubicEnergy prm q (interpV u) = 0).
Proof.
  intros prm q u m Hd HK (Hx & Hy & Hz & Hxy & Hyz & Hzx) Hm Hu. assert (Hv : 0 < calc_vol q) by (rewrite vol_det; lra).
  unfold cubicEnergy. set (x := dot m (p_ex prm)). set (y := dot m (p_ey prm)). set (z := dot m (p_ez prm)).
  rewrite (wdot_ext q _ (fun _ => x * y * (x * y) + y * z * (y * z) + z * x * (z * x))).
  2: { intros j Hj. rewrite (interp_const u m j Hj Hu). reflexivity. }
  rewrite wdot_const.
  assert (P : x * x + y * y + z * z <= 1).
  { (* Bessel *)
    pose proof (dot_self_nonneg (vsub m (vadd (vadd (vscale x (p_ex prm)) (vscale y (p_ey prm))) (vscale z (p_ez prm))))) as B.
    assert (EB : dot (vsub m (vadd (vadd (vscale x (p_ex prm)) (vscale y (p_ey prm))) (vscale z (p_ez prm))))
      (vsub m (vadd (vadd (vscale x (p_ex prm)) (vscale y (p_ey prm))) (vscale z (p_ez prm)))) =
      dot m m - 2 * (x * x + y * y + z * z) + (x * x * dot (p_ex prm) (p_ex prm) + y * y * dot (p_ey prm) (p_ey prm) + z * z * dot (p_ez prm) (p_ez prm)
      + 2 * x * y * dot (p_ex prm) (p_ey prm) + 2 * y * z * dot (p_ey prm) (p_ez prm) + 2 * z * x * dot (p_ez prm) (p_ex prm))).
    { unfold x, y, z. vsimpl. ring. }
    rewrite EB in B. unfold unitary in *. rewrite Hm, Hx, Hy, Hz, Hxy, Hyz, Hzx in B. lra. }
  split.
  - assert (0 <= x * y * (x * y) + y * z * (y * z) + z * x * (z * x) <= 1 / 3).
    { split; [nra|]. pose proof (Rle_0_sqr (x * x - y * y)). pose proof (Rle_0_sqr (y * y - z * z)). pose proof (Rle_0_sqr (z * z - x * x)).
      unfold Rsqr in *. assert (0 <= x * x + y * y + z * z) by nra.
      assert ((x * x + y * y + z * z) * (x * x + y * y + z * z) <= 1) by nra. nra. }
    set (s := x * y * (x * y) + y * z * (y * z) + z * x * (z * x)) in *. clearbody s.
    assert (0 <= calc_vol q * s <= calc_vol q / 3) by nra. nra.
  - unfold unitary in *. intros [E|[E|E]]; unfold x, y, z; rewrite E.
    + rewrite (dot_comm (p_ex prm) (p_ez prm)), Hzx, Hxy. ring.
    + rewrite (dot_comm (p_ey prm) (p_ex prm)), Hxy, Hyz. ring.
    + rewrite (dot_comm (p_ez prm) (p_ey prm)), Hyz, Hzx. ring.
Qed.

Theorem C50_zeeman : forall (mu0 : R) (prm : tprm) (q u : nat -> vec) (H : vec), 0 < detJ q -> 0 < mu0 -> 0 <= p_Ms prm ->
  (forall i, (i < 4)%nat -> unitary (u i)) ->
  zeemanEnergy mu0 prm q H (interpV u) = - mu0 * p_Ms prm * calc_vol q * dot (mean4 u) H /\
  - mu0 * p_Ms prm * calc_vol q * vnorm H <= zeemanEnergy mu0 prm q H (interpV u) /\
  ((forall i, (i < 4)%nat -> vscale (vnorm H) (u i) = H) ->
   zeemanEnergy mu0 prm q H (interpV u) = - mu0 * p_Ms prm * calc_vol q * vnorm H).
Proof.
  intros mu0 prm q u H Hd Hmu HMs Hu. assert (Hv : 0 < calc_vol q) by (rewrite vol_det; lra).
  assert (E : zeemanEnergy mu0 prm q H (interpV u) = - mu0 * p_Ms prm * calc_vol q * dot (mean4 u) H).
  { unfold zeemanEnergy. rewrite (wdot_ext q _ (interp (fun i => dot H (u i)))).
    2: { intros j _. rewrite <- interp_dot. apply dot_comm. }
    rewrite wdot_linear. unfold mean4, vsumn. cbn [sumn]. vsimpl. field. }
  rewrite E. split; auto.
  assert (B : forall i, (i < 4)%nat -> dot (u i) H <= vnorm H).
  { intros i Hi. pose proof (Hu i Hi) as U. unfold unitary in U.
    pose proof (dot_self_nonneg (vsub (vscale (vnorm H) (u i)) H)) as D.
    rewrite dot_sub_l, !dot_sub_r, !dot_scale_l, !dot_scale_r, U in D. rewrite (dot_comm H (u i)) in D.
    pose proof (vnorm_sq H) as N. pose proof (vnorm_pos H) as P.
    destruct (Req_dec (vnorm H) 0) as [Z|Z].
    - rewrite Z in *. assert (dot H H = 0) by lra. apply dot_self_zero in H0. rewrite H0. vsimpl. lra.
    - apply Rmult_le_reg_l with (vnorm H); nra. }
  assert (M : dot (mean4 u) H = (dot (u 0%nat) H + dot (u 1%nat) H + dot (u 2%nat) H + dot (u 3%nat) H) / 4).
  { unfold mean4, vsumn. cbn [sumn]. vsimpl. field. }
  assert (C : 0 <= mu0 * p_Ms prm * calc_vol q) by (apply Rmult_le_pos; [apply Rmult_le_pos|]; lra).
  split.
  - rewrite M. pose proof (B 0%nat ltac:(lia)). pose proof (B 1%nat ltac:(lia)). pose proof (B 2%nat ltac:(lia)). pose proof (B 3%nat ltac:(lia)). nra.
  - intros A. assert (D : forall i, (i < 4)%nat -> dot (u i) H = vnorm H).
    { intros i Hi. rewrite <- (A i Hi) at 1. rewrite dot_scale_r. pose proof (Hu i Hi) as U. unfold unitary in U. rewrite U. ring. }
    rewrite M, !D by lia. field.
Qed.

Lemma tri_wdot_square : forall q x, sumn tNPI (fun j => tweight q j * (tinterp x j * tinterp x j)) =
  calc_surf q * (((x 0%nat)² + (x 1%nat)² + (x 2%nat)² + (x 0%nat + x 1%nat + x 2%nat)²) / 12).
Proof. intros q x. unfold tweight, tinterp, Rsqr. generalize (calc_surf q). intros s. tabs. field. Qed.

Lemma tinterp_dot : forall u n j, dot (tinterpV u j) n = tinterp (fun i => dot (u i) n) j.
Proof. intros u n j. unfold tinterpV, tinterp, vsumn. cbn [sumn]. vsimpl. ring. Qed.

Theorem C50_surface_anisotropy : forall (Ks : R) (uk : vec) (q u : nat -> vec), 0 <= Ks -> unitary uk ->
  (forall i, (i < 3)%nat -> unitary (u i)) ->
  - Ks * calc_surf q <= tri_anisotropyEnergy Ks uk q (tinterpV u) <= 0.
Proof.
  intros Ks uk q u HK Huk Hu. assert (Hs : 0 <= calc_surf q). { unfold calc_surf. pose proof (vnorm_pos (normal_vect q)). lra. }
  unfold tri_anisotropyEnergy.
  rewrite (sumn_ext tNPI _ (fun j => tweight q j * (tinterp (fun i => dot (u i) uk) j * tinterp (fun i => dot (u i) uk) j))).
  2: { intros j _. rewrite tinterp_dot. reflexivity. }
  rewrite tri_wdot_square.
  pose proof (dot_bound _ _ (Hu 0%nat ltac:(lia)) Huk) as B0. pose proof (dot_bound _ _ (Hu 1%nat ltac:(lia)) Huk) as B1.
  pose proof (dot_bound _ _ (Hu 2%nat ltac:(lia)) Huk) as B2.
  set (x0 := dot (u 0%nat) uk) in *. set (x1 := dot (u 1%nat) uk) in *. set (x2 := dot (u 2%nat) uk) in *.
  assert (S0 : 0 <= (x0² + x1² + x2² + (x0 + x1 + x2)²) / 12 <= 1).
  { assert (forall x, -1 <= x <= 1 -> 0 <= x² <= 1) by (intros; unfold Rsqr; nra).
    pose proof (H x0 B0). pose proof (H x1 B1). pose proof (H x2 B2).
    pose proof (sq_bound 3 (x0 + x1 + x2) ltac:(lra)). lra. }
  set (s := (x0² + x1² + x2² + (x0 + x1 + x2)²) / 12) in *. clearbody s.
  assert (0 <= calc_surf q * s <= calc_surf q) by nra. nra.
Qed.

Definition ex_prm : tprm := mkTprm 1 1 1 2 (V 0 0 1) 3 (V 1 0 0) (V 0 1 0) (V 0 0 1).
Example C50_nonvacuous :
  0 < detJ ref_tet /\ 0 <= p_K ex_prm /\ unitary (p_uk ex_prm) /\ orthonormal (p_ex ex_prm) (p_ey ex_prm) (p_ez ex_prm) /\
  (forall i, (i < 4)%nat -> unitary (four (V 1 0 0) (V 0 1 0) (V 0 0 1) (V 1 0 0) i)) /\
  uniaxialEnergy ex_prm ref_tet (interpV (four (V 1 0 0) (V 0 1 0) (V 0 0 1) (V 1 0 0))) = - (2 * (/ 6 * (2 / 20))).
Proof.
  rewrite ref_det. split; [lra|]. split; [simpl; lra|]. split. { unfold unitary, dot; simpl; ring. }
  split. { unfold orthonormal, unitary, dot; simpl; repeat split; ring. }
  split. { intros i Hi. destruct i as [|[|[|[|i]]]]; [| | | |lia]; unfold unitary, dot, four; simpl; ring. }
  unfold uniaxialEnergy. rewrite (wdot_ext _ _ (fun j => interp (fun i => dot (p_uk ex_prm) (four (V 1 0 0) (V 0 1 0) (V 0 0 1) (V 1 0 0) i)) j *
    interp (fun i => dot (p_uk ex_prm) (four (V 1 0 0) (V 0 1 0) (V 0 0 1) (V 1 0 0) i)) j)).
  2: { intros j _. rewrite interp_dot. reflexivity. }
  rewrite wdot_square, vol_det, ref_det. unfold ex_prm, four, Rsqr, dot. simpl. field.
Qed.

(** ** C52: triangle area and normal *)
Lemma surf_normal : forall q, vscale (2 * calc_surf q) (calc_norm q) = normal_vect q.
Proof.
  intros q. unfold calc_surf, calc_norm, vnormalize, vnorm. destruct (Rlt_dec 0 (dot (normal_vect q) (normal_vect q))) as [H|H].
  - assert (Hs : 0 < sqrt (dot (normal_vect q) (normal_vect q))) by (apply sqrt_lt_R0; exact H).
    apply vec_eq; unfold vscale; cbn [vx vy vz]; field; lra.
  - assert (E : dot (normal_vect q) (normal_vect q) = 0) by (pose proof (dot_self_nonneg (normal_vect q)); lra).
    apply dot_self_zero in E. rewrite E. vring.
Qed.

Theorem C52_triangle : forall (a b c : vec),
  let q i := nth i [a; b; c] vzero in
  let q' i := nth i [a; c; b] vzero in
  let n := cross (vsub b a) (vsub c a) in
  calc_surf q = vnorm n / 2 /\
  sumn 4 (tweight q) = calc_surf q /\
  (n <> vzero -> unitary (calc_norm q) /\ dot (calc_norm q) (vsub b a) = 0 /\ dot (calc_norm q) (vsub c a) = 0 /\
                 0 < dot (calc_norm q) n) /\
  calc_norm q' = vscale (-1) (calc_norm q) /\ calc_surf q' = calc_surf q.
Proof.
  intros a b c q q' n. assert (En : normal_vect q = n) by reflexivity.
  assert (E' : normal_vect q' = vscale (-1) n). { unfold normal_vect, q', n. cbn [nth]. vring. }
  split. { unfold calc_surf. rewrite En. lra. }
  split. { unfold tweight. tabs. field. }
  split.
  - intros Hn. assert (H : 0 < dot n n). { destruct (dot_self_nonneg n) as [?|K]; auto. symmetry in K. apply dot_self_zero in K. contradiction. }
    unfold calc_norm. rewrite En. split. { apply normalize_unit. exact H. }
    rewrite !normalize_dot by exact H. assert (Hs : 0 < sqrt (dot n n)) by (apply sqrt_lt_R0; exact H).
    split; [|split].
    + replace (dot n (vsub b a)) with 0 by (unfold n; vsimpl; ring). unfold Rdiv. ring.
    + replace (dot n (vsub c a)) with 0 by (unfold n; vsimpl; ring). unfold Rdiv. ring.
    + apply Rdiv_lt_0_compat; assumption.
  - assert (D : dot (vscale (-1) n) (vscale (-1) n) = dot n n) by (vsimpl; ring). split.
    + unfold calc_norm. rewrite E', En. unfold vnormalize. rewrite D. destruct (Rlt_dec 0 (dot n n)); vring.
    + unfold calc_surf, vnorm. rewrite E', En, D. reflexivity.
Qed.

Example C52_nonvacuous :
  let q i := nth i [V 0 0 0; V 2 0 0; V 0 1 0] vzero in calc_norm q = V 0 0 1 /\ calc_surf q = 1.
Proof.
  cbv zeta. assert (E : normal_vect (fun i => nth i [V 0 0 0; V 2 0 0; V 0 1 0] vzero) = V 0 0 2).
  { unfold normal_vect. cbn [nth]. apply vec_eq; vsimpl; ring. }
  unfold calc_norm, calc_surf, vnormalize, vnorm. rewrite E.
  assert (D : dot (V 0 0 2) (V 0 0 2) = 2 * 2) by (vsimpl; ring). rewrite D. rewrite sqrt_square by lra.
  split; [|lra]. destruct (Rlt_dec 0 (2 * 2)); [|lra]. apply vec_eq; vsimpl; field.
Qed.

(** ** C51: the charges of a tetrahedron and of its faces sum to zero *)
(** the four faces, each with its nodes in the order that makes its normal point outwards *)
Definition faces : list (list nat) := [[0; 2; 1]; [1; 2; 3]; [2; 0; 3]; [3; 0; 1]]%nat.
Definition on_face {X} (f : list nat) (x : nat -> X) (i : nat) : X := x (nth i f 0%nat).

Lemma tri_charges_sum : forall dMs q u, sumn tNPI (tri_charges dMs q u) =
  dMs * (dot (vadd (vadd (u 0%nat) (u 1%nat)) (u 2%nat)) (normal_vect q) / 6).
Proof.
  intros dMs q u. unfold tri_charges. destruct (Req_bool_spec dMs 0) as [->|Hn].
  - tabs. ring.
  - transitivity (sumn tNPI (fun j => dMs * (tpds j * dot (tinterpV u j) (normal_vect q)))).
    + apply sumn_ext. intros j _. unfold tweight. rewrite <- (surf_normal q), dot_scale_r. ring.
    + generalize (normal_vect q) as n. intros n. unfold tinterpV, vsumn. tabs. vsimpl. field.
Qed.

Lemma divergence_det : forall q u, divergence q u * detJ q * detJ q = detJ q * (
  dot (vsub (u 1%nat) (u 0%nat)) (cross (edge2 q) (edge3 q)) + dot (vsub (u 2%nat) (u 0%nat)) (cross (edge3 q) (edge1 q)) +
  dot (vsub (u 3%nat) (u 0%nat)) (cross (edge1 q) (edge2 q))).
Proof.
  intros q u. destruct (Req_dec (detJ q) 0) as [E|E]; [rewrite E; ring|].
  unfold divergence. cbn [sumn]. rewrite da_0, da_1, da_2, da_3. vsimpl. field. exact E.
Qed.

Theorem C51_charges_sum : forall (Ms : R) (q u : nat -> vec), 0 < detJ q ->
  sumn 5 (tet_charges Ms q u) +
  lsum (map (fun f => sumn 4 (tri_charges Ms (on_face f q) (on_face f u))) faces) = 0.
Proof.
  intros Ms q u Hd. unfold faces. cbn [map lsum]. change (sumn 4) with (sumn tNPI). rewrite !tri_charges_sum.
  assert (E : sumn 5 (tet_charges Ms q u) = - Ms * (divergence q u * detJ q) / 6).
  { unfold tet_charges, weight. generalize (divergence q u) (detJ q). intros. tabs. field. }
  rewrite E.
  assert (D : divergence q u * detJ q = dot (vsub (u 1%nat) (u 0%nat)) (cross (edge2 q) (edge3 q)) + dot (vsub (u 2%nat) (u 0%nat)) (cross (edge3 q) (edge1 q)) +
    dot (vsub (u 3%nat) (u 0%nat)) (cross (edge1 q) (edge2 q))).
  { apply Rmult_eq_reg_r with (detJ q); [|lra]. rewrite divergence_det. ring. }
  rewrite D. unfold on_face, normal_vect, edge1, edge2, edge3. cbn [nth].
  destruct (q 0%nat) as [a1 a2 a3], (q 1%nat) as [b1 b2 b3], (q 2%nat) as [c1 c2 c3], (q 3%nat) as [d1 d2 d3].
  destruct (u 0%nat) as [e1 e2 e3], (u 1%nat) as [f1 f2 f3], (u 2%nat) as [g1 g2 g3], (u 3%nat) as [h1 h2 h3].
  unfold dot, vsub, vadd, cross. cbn [vx vy vz]. field.
Qed.

(** the normals of the faces do point outwards *)
Theorem C51_faces_outwards : forall (q : nat -> vec), 0 < detJ q ->
  forall f k, In (f, k) (combine faces [3; 0; 1; 2]%nat) ->
  0 < dot (normal_vect (on_face f q)) (vsub (q (nth 0 f 0%nat)) (q k)).
Proof.
  intros q Hd f k H. rewrite detJ_mixed in Hd. unfold mixed_prod, edge1, edge2, edge3 in Hd. simpl in H.
  unfold normal_vect, on_face.
  repeat (destruct H as [H|H]; [inversion H; subst f k; cbn [nth] in *; vsimpl; lra|]). contradiction.
Qed.

Example C51_nonvacuous : sumn 5 (tet_charges 2 ref_tet (four (V 1 0 0) (V 0 1 0) (V 0 0 1) (V 1 0 0))) <> 0.
Proof.
  intros H. pose proof (C51_charges_sum 2 ref_tet (four (V 1 0 0) (V 0 1 0) (V 0 0 1) (V 1 0 0)) ltac:(rewrite ref_det; lra)) as C.
  rewrite H in C. unfold faces in C. cbn [map lsum] in C. change (sumn 4) with (sumn tNPI) in C. rewrite !tri_charges_sum in C.
  unfold on_face, normal_vect, ref_tet, four in C. cbn [nth] in C. vsimpl. lra.
Qed.

(** ** C75: the demagnetizing energy of a tetrahedron with its faces is minus half the moment times the field *)
Lemma tri_demag_sum : forall mu0 dMs q u phi, tri_demagEnergy mu0 dMs q (tinterpV u) (tinterp phi) =
  1 / 2 * mu0 * dMs * ((dot (vscale (phi 0%nat) (u 0%nat)) (normal_vect q) + dot (vscale (phi 1%nat) (u 1%nat)) (normal_vect q) +
    dot (vscale (phi 2%nat) (u 2%nat)) (normal_vect q) +
    (phi 0%nat + phi 1%nat + phi 2%nat) * dot (vadd (vadd (u 0%nat) (u 1%nat)) (u 2%nat)) (normal_vect q)) / 24).
Proof.
  intros mu0 dMs q u phi. unfold tri_demagEnergy. f_equal.
  transitivity (sumn tNPI (fun j => tpds j * (tinterp phi j * dot (tinterpV u j) (normal_vect q)))).
  - apply sumn_ext. intros j _. unfold tweight. rewrite <- (surf_normal q), dot_scale_r. ring.
  - generalize (normal_vect q) as n. intros n. unfold tinterpV, tinterp, vsumn. tabs. vsimpl. field.
Qed.

Theorem C75_demag_energy : forall (mu0 : R) (prm : tprm) (q u : nat -> vec) (phi : nat -> R), 0 < detJ q ->
  tet_demagEnergy mu0 prm q u (interp phi) +
  lsum (map (fun f => tri_demagEnergy mu0 (p_Ms prm) (on_face f q) (tinterpV (on_face f u)) (tinterp (on_face f phi))) faces) =
  - (1 / 2) * mu0 * p_Ms prm * calc_vol q * dot (mean4 u) (interp_field q phi).
Proof.
  intros mu0 prm q u phi Hd. unfold faces. cbn [map lsum]. rewrite !tri_demag_sum.
  assert (E : tet_demagEnergy mu0 prm q u (interp phi) =
    - (1 / 2) * mu0 * p_Ms prm * (divergence q u * detJ q / 6 * ((phi 0%nat + phi 1%nat + phi 2%nat + phi 3%nat) / 4))).
  { unfold tet_demagEnergy. f_equal.
    assert (Ed : vx (deriv q u 0) + vy (deriv q u 1) + vz (deriv q u 2) = divergence q u).
    { unfold deriv, divergence, vsumn. cbn [sumn comp]. vsimpl. ring. }
    rewrite Ed. transitivity (divergence q u * wdot q (interp phi)).
    - unfold wdot. rewrite <- sumn_scale. apply sumn_ext. intros. ring.
    - rewrite wdot_linear, vol_det. field. }
  rewrite E. clear E.
  assert (D : divergence q u * detJ q = dot (vsub (u 1%nat) (u 0%nat)) (cross (edge2 q) (edge3 q)) + dot (vsub (u 2%nat) (u 0%nat)) (cross (edge3 q) (edge1 q)) +
    dot (vsub (u 3%nat) (u 0%nat)) (cross (edge1 q) (edge2 q))).
  { apply Rmult_eq_reg_r with (detJ q); [|lra]. rewrite divergence_det. ring. }
  rewrite D. clear D. rewrite vol_det.
  assert (G : detJ q / 6 * dot (mean4 u) (interp_field q phi) = - / 24 * dot (vadd (vadd (vadd (u 0%nat) (u 1%nat)) (u 2%nat)) (u 3%nat))
    (vadd (vadd (vscale (phi 1%nat - phi 0%nat) (cross (edge2 q) (edge3 q))) (vscale (phi 2%nat - phi 0%nat) (cross (edge3 q) (edge1 q))))
       (vscale (phi 3%nat - phi 0%nat) (cross (edge1 q) (edge2 q))))).
  { unfold interp_field. fold (calc_gradV q phi). rewrite gradV_edges, da_1, da_2, da_3. unfold mean4, vsumn. cbn [sumn].
    vsimpl. field. lra. }
  rewrite !Rmult_assoc. rewrite <- (Rmult_assoc (detJ q / 6)) || idtac.
  replace (mu0 * (p_Ms prm * (detJ q / 6 * dot (mean4 u) (interp_field q phi)))) with
    (mu0 * (p_Ms prm * (- / 24 * dot (vadd (vadd (vadd (u 0%nat) (u 1%nat)) (u 2%nat)) (u 3%nat))
    (vadd (vadd (vscale (phi 1%nat - phi 0%nat) (cross (edge2 q) (edge3 q))) (vscale (phi 2%nat - phi 0%nat) (cross (edge3 q) (edge1 q))))
       (vscale (phi 3%nat - phi 0%nat) (cross (edge1 q) (edge2 q))))))) by (rewrite <- G; reflexivity).
  unfold on_face, normal_vect, edge1, edge2, edge3. cbn [nth].
  destruct (q 0%nat) as [a1 a2 a3], (q 1%nat) as [b1 b2 b3], (q 2%nat) as [c1 c2 c3], (q 3%nat) as [d1 d2 d3].
  destruct (u 0%nat) as [e1 e2 e3], (u 1%nat) as [f1 f2 f3], (u 2%nat) as [g1 g2 g3], (u 3%nat) as [h1 h2 h3].
  unfold dot, vsub, vadd, cross, vscale. cbn [vx vy vz]. field.
Qed.

Lemma interp_field_ext : forall q x y, (forall i, x i = y i) -> interp_field q x = interp_field q y.
Proof. intros q x y H. unfold interp_field, vsumn. cbn [sumn]. rewrite !H. reflexivity. Qed.

Example C75_nonvacuous : dot (mean4 (fun _ => V 1 0 0)) (interp_field ref_tet (fun i => vx (ref_tet i))) = -1.
Proof.
  assert (H : detJ ref_tet <> 0) by (rewrite ref_det; lra).
  pose proof (proj1 (proj2 (C46_gradient_affine ref_tet 0 (V 1 0 0) H))) as E. cbv zeta in E.
  rewrite (interp_field_ext ref_tet _ (fun i => 0 + dot (V 1 0 0) (ref_tet i))).
  - rewrite E. unfold mean4, vsumn. cbn [sumn]. vsimpl. field.
  - intros i. generalize (ref_tet i). intros v. unfold dot. cbn [vx vy vz]. ring.
Qed.

(** ** C74: anisotropy fields *)
(** densities of energy of C50, as functions of the magnetization *)
Definition uniax_density (K : R) (uk m : vec) : R := - K * (dot uk m * dot uk m).
Definition cubic_density (K3 : R) (ex ey ez m : vec) : R :=
  K3 * ((dot m ex * dot m ey) * (dot m ex * dot m ey) + (dot m ey * dot m ez) * (dot m ey * dot m ez) + (dot m ez * dot m ex) * (dot m ez * dot m ex)).

Lemma poly_deriv : forall (f : R -> R) (b : R), (exists c d e, forall s, f s = f 0 + b * s + c * (s * s) + d * (s * s * s) + e * (s * s * s * s)) ->
  derivable_pt_lim f 0 b.
Proof.
  intros f b (c & d & e & Hf).
  assert (H : derivable_pt_lim (fun s => f 0 + b * s + c * (s * s) + d * (s * s * s) + e * (s * s * s * s)) 0 b).
  { cut (forall b', b' = 0 + b * 1 + c * (1 * 0 + 0 * 1) + d * ((1 * 0 + 0 * 1) * 0 + 0 * 0 * 1) + e * (((1 * 0 + 0 * 1) * 0 + 0 * 0 * 1) * 0 + 0 * 0 * 0 * 1) ->
      derivable_pt_lim (fun s => f 0 + b * s + c * (s * s) + d * (s * s * s) + e * (s * s * s * s)) 0 b').
    { intros H. apply H. ring. }
    intros b' ->.
    pose proof (derivable_pt_lim_id 0) as I.
    assert (I2 : derivable_pt_lim (fun s => s * s) 0 (1 * 0 + 0 * 1)) by (apply (derivable_pt_lim_mult id id 0 1 1); exact I).
    assert (I3 : derivable_pt_lim (fun s => s * s * s) 0 ((1 * 0 + 0 * 1) * 0 + 0 * 0 * 1)).
    { apply (derivable_pt_lim_mult (fun s => s * s) id 0 _ 1); assumption. }
    assert (I4 : derivable_pt_lim (fun s => s * s * s * s) 0 (((1 * 0 + 0 * 1) * 0 + 0 * 0 * 1) * 0 + 0 * 0 * 0 * 1)).
    { apply (derivable_pt_lim_mult (fun s => s * s * s) id 0 _ 1); assumption. }
    apply (derivable_pt_lim_plus (fun s => f 0 + b * s + c * (s * s) + d * (s * s * s)) (fun s => e * (s * s * s * s))).
    2: { apply (derivable_pt_lim_scal (fun s => s * s * s * s) e); exact I4. }
    apply (derivable_pt_lim_plus (fun s => f 0 + b * s + c * (s * s)) (fun s => d * (s * s * s))).
    2: { apply (derivable_pt_lim_scal (fun s => s * s * s) d); exact I3. }
    apply (derivable_pt_lim_plus (fun s => f 0 + b * s) (fun s => c * (s * s))).
    2: { apply (derivable_pt_lim_scal (fun s => s * s) c); exact I2. }
    apply (derivable_pt_lim_plus (fun s => f 0) (fun s => b * s)). { apply derivable_pt_lim_const. }
    apply (derivable_pt_lim_scal (fun s => s) b). exact I. }
  intros eps He. destruct (H eps He) as [delta Hd]. exists delta. intros h Hh Hlt. specialize (Hd h Hh Hlt).
  match type of Hd with Rabs ?a < _ => match goal with |- Rabs ?g < _ => replace g with a; [exact Hd|] end end.
  rewrite (Hf (0 + h)). field. exact Hh.
Qed.

(** the field without second order correction is minus the gradient of the energy density: along any direction
    [d] the density varies as - mu0 Ms H.d (for a unit magnetization in the cubic case) *)
Theorem C74_field_is_gradient : forall (mu0 Ms K : R) (e1 e2 e3 m d w : vec), 0 < mu0 -> 0 < Ms ->
  derivable_pt_lim (fun s => uniax_density K e1 (vadd m (vscale s d))) 0
    (- (mu0 * Ms) * dot (fst (aniso_uniax e1 (2 * K / (mu0 * Ms)) 0 m w)) d) /\
  (orthonormal e1 e2 e3 -> dot m e1 * dot m e1 + dot m e2 * dot m e2 + dot m e3 * dot m e3 = 1 ->
   derivable_pt_lim (fun s => cubic_density K e1 e2 e3 (vadd m (vscale s d))) 0
    (- (mu0 * Ms) * dot (fst (aniso_cub e1 e2 e3 (2 * K / (mu0 * Ms)) 0 m w)) d)).
Proof.
  intros mu0 Ms K e1 e2 e3 m d w Hmu HMs. split.
  - apply poly_deriv. unfold uniax_density. exists (- K * (dot e1 d * dot e1 d)), 0, 0. intros s.
    unfold aniso_uniax. cbn [fst]. rewrite !dot_add_r, !dot_scale_r, !dot_scale_l. field. split; lra.
  - intros _ Hm. apply poly_deriv. unfold cubic_density.
    set (x := dot m e1) in *. set (y := dot m e2) in *. set (z := dot m e3) in *.
    set (a := dot d e1). set (b := dot d e2). set (c := dot d e3).
    exists (K * ((a * a * y * y + 4 * x * a * y * b + x * x * b * b) + (b * b * z * z + 4 * y * b * z * c + y * y * c * c) + (c * c * x * x + 4 * z * c * x * a + z * z * a * a))),
      (K * ((2 * a * a * y * b + 2 * x * a * b * b) + (2 * b * b * z * c + 2 * y * b * c * c) + (2 * c * c * x * a + 2 * z * c * a * a))),
      (K * (a * a * b * b + b * b * c * c + c * c * a * a)).
    intros s.
    assert (EF : - (mu0 * Ms) * dot (fst (aniso_cub e1 e2 e3 (2 * K / (mu0 * Ms)) 0 m w)) d =
      2 * K * (x * (1 - x * x) * a + y * (1 - y * y) * b + z * (1 - z * z) * c)).
    { unfold aniso_cub. cbn [fst vx vy vz]. rewrite (dot_comm e1 m), (dot_comm e2 m), (dot_comm e3 m). fold x y z.
      rewrite dot_scale_l, !dot_add_l, !dot_scale_l.
      rewrite (dot_comm e1 d), (dot_comm e2 d), (dot_comm e3 d). fold a b c. unfold uuu. field. split; lra. }
    rewrite EF. rewrite !dot_add_l, !dot_scale_l. fold x y z a b c.
    replace (1 - x * x) with (y * y + z * z) by lra. replace (1 - y * y) with (x * x + z * z) by lra.
    replace (1 - z * z) with (x * x + y * y) by lra. ring.
Qed.

(** uniaxial anisotropy: the second order correction is the exact change of the field along the motion *)
Theorem C74_uniaxial_second_order : forall (uk U W : vec) (Kbis s : R),
  fst (aniso_uniax uk Kbis s U W) = fst (aniso_uniax uk Kbis 0 (vadd U (vscale s W)) W).
Proof. intros uk U W Kbis s. unfold aniso_uniax. cbn [fst]. apply vec_eq; vsimpl; ring. Qed.

(** Finding (tetra.cpp lines 199-203): for cubic anisotropy the correction is not the derivative of the field
    along the velocity, even for the canonical axes: here the z component of the field grows at rate -K3bis
    when the magnetization moves from y towards z, and the code adds nothing. *)
Lemma cub_canonical : forall k s U W, vz (fst (aniso_cub (V 1 0 0) (V 0 1 0) (V 0 0 1) k s U W)) = - k * (vz U * (1 - vz U * vz U)).
Proof. intros k s [a b c] [d e f]. cbv [aniso_cub uuu cwise fst vz vscale vadd vsub dot vx vy]. ring. Qed.
Theorem C74_cubic_second_order_refuted : exists (ex ey ez U W : vec) (rate : R),
  orthonormal ex ey ez /\ unitary U /\ dot U W = 0 /\
  derivable_pt_lim (fun s => vz (fst (aniso_cub ex ey ez 1 0 (vadd U (vscale s W)) W))) 0 rate /\ rate = -1 /\
  forall s, vz (fst (aniso_cub ex ey ez 1 s U W)) = vz (fst (aniso_cub ex ey ez 1 0 U W)).
Proof.
  exists (V 1 0 0), (V 0 1 0), (V 0 0 1), (V 0 1 0), (V 0 0 1), (-1).
  split. { unfold orthonormal, unitary, dot; simpl; repeat split; ring. }
  split. { unfold unitary, dot; simpl; ring. } split. { unfold dot; simpl; ring. }
  split; [|split; [reflexivity|]].
  - apply poly_deriv. exists 0, 1, 0. intros s. rewrite !cub_canonical. cbn [vadd vscale vx vy vz]. ring.
  - intros s. rewrite !cub_canonical. cbn [vadd vscale vx vy vz]. ring.
Qed.

Example C74_nonvacuous : fst (aniso_cub (V 1 0 0) (V 0 1 0) (V 0 0 1) 2 0 (V (3/5) (4/5) 0) vzero) <> vzero.
Proof. unfold aniso_cub, uuu, cwise. cbn [fst]. intros H. injection H as H _ _. vsimpl. lra. Qed.

(** ** C76: equilibrium. A uniform magnetization parallel to a uniform applied field, with an easy or hard axis,
    at rest and without demagnetizing field, produces a zero right-hand side: nothing moves. *)
Theorem C76_equilibrium : forall (mu0 gamma0 theta dt prefactor : R) (prm : tprm) (q : nat -> vec) (nod : tnod)
    (m : vec) (Hext : nat -> vec) (idx_dir : option nat) (Vdrift : R) (ep eq : nat -> vec) (b i : nat),
  (forall k, (k < 4)%nat -> n_u nod k = m /\ n_v nod k = vzero /\ n_phi nod k = n_phi nod 0%nat /\ n_phiv nod k = n_phiv nod 0%nat) ->
  (forall j, exists c, Hext j = vscale c m) ->
  p_K prm = 0 \/ cross (p_uk prm) m = vzero \/ dot (p_uk prm) m = 0 ->
  p_K3 prm = 0 ->
  (i < 4)%nat -> dot (ep i) m = 0 -> dot (eq i) m = 0 ->
  tet_Lp mu0 gamma0 theta prm dt Hext (fun _ => vzero) idx_dir Vdrift q nod ep eq b i = 0.
Proof.
  intros mu0 gamma0 theta dt prefactor prm q nod m Hext idx_dir Vdrift ep eq b i Hn HH HK HK3 Hi Hep Heq.
  assert (Hu : forall k, deriv q (n_u nod) k = vzero).
  { intros k. apply (deriv_const q (n_u nod) m). intros j Hj. apply Hn. exact Hj. }
  assert (Hdv : forall k, deriv q (n_v nod) k = vzero).
  { intros k. apply (deriv_const q (n_v nod) vzero). intros j Hj. apply Hn. exact Hj. }
  assert (HU : forall j, (j < 5)%nat -> gU nod j = m).
  { intros j Hj. unfold gU. apply interp_const; auto. intros k Hk. apply Hn. exact Hk. }
  assert (HV : forall j, (j < 5)%nat -> gV nod j = vzero).
  { intros j Hj. unfold gV. apply interp_const; auto. intros k Hk. apply Hn. exact Hk. }
  assert (Hp : forall x : nat -> R, (forall k, (k < 4)%nat -> x k = x 0%nat) -> interp_field q x = vzero).
  { intros x Hx. unfold interp_field. fold (calc_gradV q x). rewrite (gradV_const q x (x 0%nat) Hx). vring. }
  assert (Hd0 : Hd q nod = vzero) by (apply Hp; intros k Hk; apply Hn; exact Hk).
  assert (Hv0 : Hv q nod = vzero) by (apply Hp; intros k Hk; apply Hn; exact Hk).
  (* the anisotropy field is parallel to m *)
  assert (HA : forall j, (j < 5)%nat -> dot (ep i) (fst (H_aniso mu0 gamma0 theta prm dt nod j)) = 0 /\ dot (eq i) (fst (H_aniso mu0 gamma0 theta prm dt nod j)) = 0).
  { intros j Hj. unfold H_aniso. rewrite HK3, (Req_bool_true 0 0 eq_refl). rewrite HU, HV by exact Hj.
    destruct (Req_bool_spec (p_K prm) 0) as [E|E].
    - cbn [fst]. split; vsimpl; ring.
    - destruct HK as [HK|HK]; [contradiction|]. unfold aniso_uniax. cbn [fst].
      set (uk := p_uk prm) in *. set (kb := 2 * p_K prm / (mu0 * p_Ms prm)).
      replace (vadd m (vscale (s_dt gamma0 theta dt / gamma0) vzero)) with m by vring.
      rewrite !dot_add_r, !dot_scale_r. replace (dot (ep i) vzero) with 0 by (vsimpl; ring). replace (dot (eq i) vzero) with 0 by (vsimpl; ring).
      destruct HK as [HK|HK].
      + (* uk parallel to m: (uk.m) e.uk = (uk.uk) e.m - e.(uk x (uk x m)) *)
        assert (P : forall e, dot e m = 0 -> dot uk m * dot e uk = 0).
        { intros e He. assert (C : dot e (cross uk (cross uk m)) = dot uk m * dot e uk - dot uk uk * dot e m) by (vsimpl; ring).
          rewrite HK in C. replace (dot e (cross uk vzero)) with 0 in C by (vsimpl; ring). rewrite He in C. lra. }
        pose proof (P (ep i) Hep). pose proof (P (eq i) Heq).
        split; [rewrite Rmult_assoc, H | rewrite Rmult_assoc, H0]; ring.
      + rewrite HK. split; ring. }
  assert (HB : forall e, dot e m = 0 -> (forall j, (j < 5)%nat -> dot e (fst (H_aniso mu0 gamma0 theta prm dt nod j)) = 0) ->
    dot e (BE mu0 gamma0 theta prm dt Hext (fun _ => vzero) idx_dir Vdrift q nod i) = 0).
  { intros e He Ha. unfold BE. rewrite !Hu, dot_add_r.
    assert (Dr : drift_BE gamma0 theta prm dt idx_dir Vdrift q nod i = vzero).
    { unfold drift_BE. destruct idx_dir as [k|]; auto. rewrite Hu, Hdv. unfold vsumn. apply vec_eq; cbn [vx vy vz vzero];
        apply sumn_zero; intros j Hj; rewrite HU, HV by exact Hj; vsimpl; ring. }
    rewrite Dr. unfold vsumn. rewrite !Hd0, !Hv0.
    assert (X : forall (f : nat -> vec), (forall j, (j < 5)%nat -> dot e (f j) = 0) ->
      dot e (V (sumn NPI (fun j => vx (f j))) (sumn NPI (fun j => vy (f j))) (sumn NPI (fun j => vz (f j)))) = 0).
    { intros f Hf. unfold NPI. pose proof (Hf 0%nat ltac:(lia)). pose proof (Hf 1%nat ltac:(lia)). pose proof (Hf 2%nat ltac:(lia)).
      pose proof (Hf 3%nat ltac:(lia)). pose proof (Hf 4%nat ltac:(lia)). cbn [sumn]. vsimpl. lra. }
    rewrite X.
    - vsimpl. ring.
    - intros j Hj. cbv zeta. rewrite HV by exact Hj. destruct (HH j) as [c Hc]. rewrite Hc.
      rewrite !dot_add_r, !dot_scale_r, !dot_add_r, !dot_scale_r, Ha, He by exact Hj.
      replace (dot e vzero) with 0 by (vsimpl; ring). ring. }
  unfold tet_Lp, matP. destruct b as [|b]; cbn [perm].
  - transitivity (dot (eq i) (BE mu0 gamma0 theta prm dt Hext (fun _ => vzero) idx_dir Vdrift q nod i)).
    + cbn [sumn comp]. unfold dot. ring.
    + apply HB; auto. intros j Hj. apply HA. exact Hj.
  - transitivity (dot (ep i) (BE mu0 gamma0 theta prm dt Hext (fun _ => vzero) idx_dir Vdrift q nod i)).
    + cbn [sumn comp]. unfold dot. ring.
    + apply HB; auto. intros j Hj. apply HA. exact Hj.
Qed.

(** the hypotheses are met with an easy axis along the magnetization *)
Definition rest (m : vec) : tnod := mkTnod (fun _ => m) (fun _ => vzero) (fun _ => 3) (fun _ => 0).
Example C76_nonvacuous :
  let prm := mkTprm 1 1 1 2 (V 0 0 1) 0 (V 1 0 0) (V 0 1 0) (V 0 0 1) in
  tet_Lp 1 1 (1 / 2) prm 1 (fun _ => V 0 0 7) (fun _ => vzero) (Some 2%nat) 3 ref_tet (rest (V 0 0 1)) (fun _ => V 1 0 0) (fun _ => V 0 1 0) 0 0 = 0.
Proof.
  apply (C76_equilibrium 1 1 (1/2) 1 1 _ ref_tet (rest (V 0 0 1)) (V 0 0 1)); try (unfold dot; simpl; ring); try lia.
  - intros k Hk. unfold rest. simpl. auto.
  - intros j. exists 7. apply vec_eq; vsimpl; ring.
  - right. left. simpl. apply vec_eq; vsimpl; ring.
Qed.

(** ** C42: averages *)
Lemma nth_magTets : forall Ms n tets, nth_tets tets (magTet_of Ms n tets) = filter (mag_tet Ms) tets.
Proof.
  intros Ms n tets. unfold nth_tets, magTet_of, mark.
  assert (G : forall l (st : list bool * list nat) pre, (forall k, In k (snd st) -> (k < length pre)%nat) ->
    map (fun k => nth k (pre ++ l) (mkTet 0 0 0 0 0)) (snd (fold_left (mark_tet Ms) (combine (seq (length pre) (length l)) l) st)) =
    map (fun k => nth k (pre ++ l) (mkTet 0 0 0 0 0)) (snd st) ++ filter (mag_tet Ms) l).
  { induction l as [|t l IH]; intros st pre Hst; cbn [length seq combine fold_left filter].
    - symmetry. apply app_nil_r.
    - replace (pre ++ t :: l) with ((pre ++ [t]) ++ l) by (rewrite <- app_assoc; reflexivity).
      replace (S (length pre)) with (length (pre ++ [t])) by (rewrite app_length; simpl; lia).
      rewrite IH.
      + unfold mark_tet. cbn [fst snd]. destruct (mag_tet Ms t); cbn [snd]; auto.
        rewrite map_app, <- app_assoc. cbn [map]. f_equal. cbn [app]. f_equal.
        rewrite <- app_assoc, app_nth2 by lia. rewrite Nat.sub_diag. reflexivity.
      + unfold mark_tet. cbn [fst snd]. destruct (mag_tet Ms t); cbn [snd]; intros k Hk; rewrite app_length; simpl.
        * apply in_app_or in Hk. destruct Hk as [Hk|[<-|[]]]; [specialize (Hst k Hk)|]; lia.
        * specialize (Hst k Hk). lia. }
  specialize (G tets (repeat false n, []) []). cbn [length app snd map] in G. apply G. intros k [].
Qed.

(** the tetrahedrons an average runs over *)
Definition selected (Ms : list R) (region : option nat) (t : tet) : Prop :=
  0 < nth (t_reg t) Ms 0 /\ (forall r, region = Some r -> t_reg t = r).

Definition mean_of (x : nat -> R) (t : tet) : R := lsum (map x (tet_nodes t)) / 4.

Theorem C42_average : forall (Ms : list R) (p : nat -> vec) (nregions nnodes : nat) (tets : list tet) (region : option nat),
  (forall t, In t tets -> (t_reg t < nregions)%nat) ->
  (forall t, In t tets -> 0 < detJ (corner p t)) ->
  (forall r, region = Some r -> 0 < nth r Ms 0) ->
  (exists t, In t tets /\ selected Ms region t) ->
  exists sel : list tet,
    (forall t, In t sel <-> In t tets /\ selected Ms region t) /\
    let vols := volumes Ms (tet_vol p) nregions tets in
    let magTet := magTet_of Ms nnodes tets in
    0 < lsum (map (tet_vol p) sel) /\
    (* the volume-weighted mean of the means over the tetrahedrons *)
    (forall x r, avg_result p x tets magTet vols region r ->
       r * lsum (map (tet_vol p) sel) = lsum (map (fun t => tet_vol p t * mean_of x t) sel)) /\
    (* uniform values *)
    (forall x c r, (forall i, x i = c) -> avg_result p x tets magTet vols region r -> r = c) /\
    (* the average of unit vectors has norm at most one *)
    (forall (u : nat -> vec) rx ry rz, (forall i, unitary (u i)) ->
       avg_result p (fun i => vx (u i)) tets magTet vols region rx ->
       avg_result p (fun i => vy (u i)) tets magTet vols region ry ->
       avg_result p (fun i => vz (u i)) tets magTet vols region rz ->
       vnorm (V rx ry rz) <= 1).
Proof.
  intros Ms p nregions nnodes tets region Hr Hd Hreg Hex.
  set (sel := filter (in_reg region) (filter (mag_tet Ms) tets)). exists sel.
  assert (HM : forall t, mag_tet Ms t = true <-> 0 < nth (t_reg t) Ms 0).
  { intros t. unfold mag_tet. destruct (Rlt_bool_spec 0 (nth (t_reg t) Ms 0)); split; intros; auto; try discriminate; lra. }
  assert (Hsel : forall t, In t sel <-> In t tets /\ selected Ms region t).
  { intros t. unfold sel, selected. rewrite !filter_In, HM. unfold in_reg. destruct region as [r|].
    - rewrite Nat.eqb_eq. split.
      + intros [[H1 H2] H3]. split; auto. split; auto. intros r' E. congruence.
      + intros (H1 & H2 & H3). split; auto.
    - split; [|tauto]. intros [[H1 H2] _]. split; auto. split; auto. discriminate. }
  split; auto. cbv zeta.
  assert (Hpos : forall t, In t sel -> 0 < tet_vol p t).
  { intros t Ht. apply Hsel in Ht. unfold tet_vol. rewrite vol_det. specialize (Hd t (proj1 Ht)). lra. }
  assert (HV : 0 < lsum (map (tet_vol p) sel)).
  { destruct Hex as (t & H1 & H2). assert (Ht : In t sel) by (apply Hsel; auto).
    apply in_split in Ht. destruct Ht as (l1 & l2 & E). rewrite E in *. rewrite map_app, lsum_app. cbn [map lsum].
    assert (0 <= lsum (map (tet_vol p) l1)) by (apply lsum_nonneg; intros; apply Rlt_le, Hpos, in_or_app; auto).
    assert (0 <= lsum (map (tet_vol p) l2)) by (apply lsum_nonneg; intros; apply Rlt_le, Hpos, in_or_app; simpl; auto).
    assert (0 < tet_vol p t) by (apply Hpos, in_or_app; simpl; auto). lra. }
  split; auto.
  (* the volume used by the code *)
  assert (Evol : avg_volume (volumes Ms (tet_vol p) nregions tets) region = lsum (map (tet_vol p) sel)).
  { destruct (volumes_spec Ms (tet_vol p) nregions tets Hr) as (_ & V1 & V2). unfold avg_volume. destruct region as [r|].
    - destruct Hex as (t & H1 & H2 & H3). specialize (H3 r eq_refl). rewrite V1 by (rewrite <- H3; auto).
      unfold sel. f_equal. f_equal. clear - Hreg HM. specialize (Hreg r eq_refl).
      induction tets as [|t' l IH]; auto. cbn [filter]. unfold in_reg at 1.
      destruct (mag_tet Ms t') eqn:M; cbn [filter in_reg].
      + rewrite IH. reflexivity.
      + destruct (t_reg t' =? r)%nat eqn:E; auto. apply Nat.eqb_eq in E.
        assert (mag_tet Ms t' = true) by (apply HM; rewrite E; exact Hreg). congruence.
    - rewrite V2. unfold sel. f_equal. f_equal. clear. induction (filter (mag_tet Ms) tets) as [|t l IH]; auto.
      cbn [filter in_reg]. rewrite <- IH. reflexivity. }
  assert (Eavg : forall x r, avg_result p x tets (magTet_of Ms nnodes tets) (volumes Ms (tet_vol p) nregions tets) region r ->
    r * lsum (map (tet_vol p) sel) = lsum (map (fun t => tet_vol p t * mean_of x t) sel)).
  { intros x r (s & Hs & E). rewrite Evol in E. subst r. apply reduce_sum in Hs. rewrite Rplus_0_l in Hs.
    unfold Rdiv. rewrite Rmult_assoc, Rinv_l, Rmult_1_r by lra. rewrite Hs, nth_magTets. unfold sel.
    generalize (filter (mag_tet Ms) tets). clear. induction l as [|t l IH]; auto. cbn [map lsum filter]. rewrite IH.
    unfold avg_term at 1. destruct (in_reg region t); cbn [map lsum]; [|ring]. f_equal.
    rewrite wdot_linear. unfold tet_vol, mean_of. f_equal. unfold corner, tet_nodes. cbn [nth map lsum]. field. }
  split; auto. split.
  - intros x c r Hx Hr'. apply Eavg in Hr'.
    assert (E : lsum (map (fun t => tet_vol p t * mean_of x t) sel) = c * lsum (map (tet_vol p) sel)).
    { rewrite <- lsum_map_scale. apply lsum_map_ext. intros t _. unfold mean_of, tet_nodes. cbn [map lsum]. rewrite !Hx. field. }
    rewrite E in Hr'. apply Rmult_eq_reg_r with (lsum (map (tet_vol p) sel)); lra.
  - intros u rx ry rz Hu Hx Hy Hz. apply Eavg in Hx, Hy, Hz.
    set (a := V rx ry rz). set (vol := lsum (map (tet_vol p) sel)) in *.
    assert (E : dot a a * vol = lsum (map (fun t => tet_vol p t * mean_of (fun i => dot a (u i)) t) sel)).
    { transitivity (rx * (rx * vol) + ry * (ry * vol) + rz * (rz * vol)). { unfold a, dot. cbn [vx vy vz]. ring. }
      rewrite Hx, Hy, Hz, <- !lsum_map_scale, <- !lsum_map_plus. apply lsum_map_ext. intros t _.
      unfold mean_of, tet_nodes, dot, a. cbn [map lsum vx vy vz]. field. }
    assert (B : forall i, dot a (u i) <= vnorm a).
    { intros i. pose proof (Hu i) as U. unfold unitary in U.
      pose proof (dot_self_nonneg (vsub (vscale (vnorm a) (u i)) a)) as D.
      rewrite dot_sub_l, !dot_sub_r, !dot_scale_l, !dot_scale_r, U in D. rewrite (dot_comm (u i) a) in D.
      pose proof (vnorm_sq a) as N. pose proof (vnorm_pos a) as P.
      destruct (Req_dec (vnorm a) 0) as [Z|Z].
      - assert (Za : dot a a = 0) by (rewrite <- N, Z; ring). apply dot_self_zero in Za. rewrite Z.
        replace (dot a (u i)) with 0 by (rewrite Za; vsimpl; ring). lra.
      - apply Rmult_le_reg_l with (vnorm a); nra. }
    assert (L : dot a a * vol <= vnorm a * vol).
    { rewrite E. unfold vol. rewrite <- lsum_map_scale.
      assert (G : forall l, (forall t, In t l -> 0 < tet_vol p t) ->
        lsum (map (fun t => tet_vol p t * mean_of (fun i => dot a (u i)) t) l) <= lsum (map (fun t => vnorm a * tet_vol p t) l)).
      { induction l as [|t l IH]; intros Hl; cbn [map lsum]; [lra|].
        specialize (IH (fun t H => Hl t (or_intror H))). specialize (Hl t (or_introl eq_refl)).
        assert (mean_of (fun i => dot a (u i)) t <= vnorm a).
        { unfold mean_of, tet_nodes. cbn [map lsum]. pose proof (B (t0 t)). pose proof (B (t1 t)). pose proof (B (t2 t)). pose proof (B (t3 t)). lra. }
        nra. }
      apply G. exact Hpos. }
    apply Rmult_le_reg_r in L; [|exact HV]. rewrite <- vnorm_sq in L. pose proof (vnorm_pos a).
    destruct (Rle_dec (vnorm a) 1); auto. exfalso. nra.
Qed.

Example C42_nonvacuous :
  let p := four (V 0 0 0) (V 1 0 0) (V 0 1 0) (V 0 0 1) in
  exists r, avg_result p (fun i => INR i) [mkTet 0 1 2 3 1] [0%nat] ([0; / 6], / 6) (Some 1%nat) r /\ r = 3 / 2.
Proof.
  cbv zeta. eexists. split.
  - eexists. split. { apply reduce_exists. } reflexivity.
  - cbn [nth_tets map nth fold_left avg_volume fst]. unfold avg_term, in_reg. cbn [t_reg Nat.eqb]. rewrite wdot_linear, vol_det.
    replace (detJ _) with (detJ ref_tet).
    + rewrite ref_det. unfold corner. cbn [tet_nodes t0 t1 t2 t3 nth INR]. field.
    + unfold detJ, det3, jac, ref_tet, corner, edge1, edge2, edge3. cbn [tet_nodes t0 t1 t2 t3 nth]. reflexivity.
Qed.

Print Assumptions C42_average.
Print Assumptions C45_orientation.
Print Assumptions C46_gradient_affine.
Print Assumptions C46_derivatives_affine.
Print Assumptions C48_alpha_eff.
Print Assumptions C49_local_matrix_positive.
Print Assumptions C50_exchange.
Print Assumptions C50_uniaxial.
Print Assumptions C50_cubic_uniform.
Print Assumptions C50_zeeman.
Print Assumptions C50_surface_anisotropy.
Print Assumptions C51_charges_sum.
Print Assumptions C51_faces_outwards.
Print Assumptions C52_triangle.
Print Assumptions C74_field_is_gradient.
Print Assumptions C74_uniaxial_second_order.
Print Assumptions C74_cubic_second_order_refuted.
Print Assumptions C75_demag_energy.
Print Assumptions C76_equilibrium.
