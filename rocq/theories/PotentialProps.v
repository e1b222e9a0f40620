(** * C86: the potential of a charged triangle at one of its vertices is the exact integral *)
From Coq Require Import Reals List Arith Bool Lia Lra.
From Verif Require Import Vec Sums ElemModel ElemProof DemagModel.
Import ListNotations.
Local Open Scope R_scope.

(** ** Specification, with the Riemann integral of the standard library *)
Definition integral (f : R -> R) (a b v : R) : Prop := exists pr : Riemann_integrable f a b, RiemannInt pr = v.

Section param.
(** a triangle with vertices [a], [b], [c], and the charge density which is affine on it with values [sa], [sb], [sc] *)
Variables (a b c : vec) (sa sb sc : R).
(** the points of the triangle: y = a + rho ((1 - tau) (b - a) + tau (c - a)), rho and tau from 0 to 1 *)
Definition spoke (tau : R) : vec := vadd (vscale (1 - tau) (vsub b a)) (vscale tau (vsub c a)).
Definition point (rho tau : R) : vec := vadd a (vscale rho (spoke tau)).
Definition affine_density (rho tau : R) : R := sa + rho * ((1 - tau) * (sb - sa) + tau * (sc - sa)).
(** the partial derivatives of the point, and the element of area *)
Definition along_rho (tau : R) : vec := spoke tau.
Definition along_tau (rho : R) : vec := vscale rho (vsub c b).
Definition area_element (rho tau : R) : R := vnorm (cross (along_rho tau) (along_tau rho)).
(** the potential at [a]: the integral over the triangle of density / distance. The integrand is bounded: at rho = 0 it
    is given by continuity. *)
Definition potential_of_triangle (V : R) : Prop :=
  exists (g : R -> R -> R) (G : R -> R),
    (forall rho tau, 0 < rho -> g rho tau = affine_density rho tau / vnorm (vsub (point rho tau) a) * area_element rho tau) /\
    (forall tau, continuity (fun rho => g rho tau)) /\
    (forall tau, integral (fun rho => g rho tau) 0 1 (G tau)) /\
    continuity G /\
    integral G 0 1 V.
End param.

(** ** Derivatives *)
Lemma affine_deriv : forall (f : R -> R) m l x0, (forall x, f x = m + l * x) -> derivable_pt_lim f x0 l.
Proof.
  intros f m l x0 H eps He. exists (mkposreal 1 Rlt_0_1). intros h Hh _. rewrite !H.
  replace ((m + l * (x0 + h) - (m + l * x0)) / h - l) with 0 by (field; exact Hh). rewrite Rabs_R0. exact He.
Qed.

Lemma deriv_ext : forall (f g : R -> R), (forall x, f x = g x) -> forall x l l', derivable_pt_lim g x l -> l = l' -> derivable_pt_lim f x l'.
Proof. intros f g H x l l' D <- eps He. destruct (D eps He) as (d & Hd). exists d. intros h H1 H2. rewrite !H. auto. Qed.

(** the partial derivatives used in the specification are those of the point *)
Lemma point_derivatives : forall a b c rho tau k, (k < 3)%nat ->
  derivable_pt_lim (fun x => comp k (point a b c x tau)) rho (comp k (along_rho a b c tau)) /\
  derivable_pt_lim (fun x => comp k (point a b c rho x)) tau (comp k (along_tau b c rho)).
Proof.
  intros a b c rho tau k Hk. split.
  - apply affine_deriv with (comp k a). intros x. unfold point, along_rho, spoke.
    do 3 (destruct k as [|k]; [cbn [comp vadd vscale vsub vx vy vz]; ring|]). lia.
  - apply affine_deriv with (comp k a + rho * comp k (vsub b a)). intros x. unfold point, along_tau, spoke.
    do 3 (destruct k as [|k]; [cbn [comp vadd vscale vsub vx vy vz]; ring|]). lia.
Qed.

Lemma integral_of_deriv : forall f F a b, (forall x, derivable_pt_lim F x (f x)) -> continuity f -> integral f a b (F b - F a).
Proof.
  intros f F a b D C. set (d := fun x => exist (fun l => derivable_pt_abs F x l) (f x) (D x) : derivable_pt F x).
  set (g := @mkC1 F d C). exists (RiemannInt_P32 g a b). exact (FTC_Riemann g _).
Qed.

Lemma deriv_cont : forall f F : R -> R, (forall x, derivable_pt_lim F x (f x)) -> continuity F.
Proof. intros f F D. apply derivable_continuous. intros x. exists (f x). apply D. Qed.

(** ** The distance to the far edge: L(y)^2 = (b + c y)^2 + y^2 *)
Section far_edge.
Variables (b c : R).
Hypothesis (Hb : 0 < b).
Definition edgeQ (y : R) : R := (1 + c * c) * (y * y) + 2 * b * c * y + b * b.
Definition edgeL (y : R) : R := sqrt (edgeQ y).
Definition edgeN (y : R) : R := (1 + c * c) * y + b * c.

Lemma edgeQ_pos : forall y, 0 < edgeQ y.
Proof.
  intros y. assert (0 < (1 + c * c) * edgeQ y).
  { replace ((1 + c * c) * edgeQ y) with (edgeN y * edgeN y + b * b) by (unfold edgeQ, edgeN; ring). nra. }
  assert (0 < 1 + c * c) by nra. nra.
Qed.
Lemma edgeL_pos : forall y, 0 < edgeL y.
Proof. intros y. apply sqrt_lt_R0, edgeQ_pos. Qed.
Lemma edgeL_sq : forall y, edgeL y * edgeL y = edgeQ y.
Proof. intros y. apply sqrt_sqrt. pose proof (edgeQ_pos y). lra. Qed.
Lemma f_pos : forall x, 0 < f_ x.
Proof. intros x. apply sqrt_lt_R0. nra. Qed.
Lemma f_sq : forall x, f_ x * f_ x = 1 + x * x.
Proof. intros x. apply sqrt_sqrt. nra. Qed.

Lemma log_pos : forall y, 0 < edgeN y + f_ c * edgeL y.
Proof.
  intros y. pose proof (edgeL_pos y) as HL. pose proof (f_pos c) as Hf.
  assert (E : (f_ c * edgeL y) * (f_ c * edgeL y) = edgeN y * edgeN y + b * b).
  { replace ((f_ c * edgeL y) * (f_ c * edgeL y)) with ((f_ c * f_ c) * (edgeL y * edgeL y)) by ring. rewrite f_sq, edgeL_sq. unfold edgeQ, edgeN. ring. }
  assert (0 < f_ c * edgeL y) by nra. set (w := f_ c * edgeL y) in *. clearbody w. nra.
Qed.

Lemma edgeQ_deriv : forall y, derivable_pt_lim edgeQ y (2 * edgeN y).
Proof.
  intros y eps He. exists (mkposreal (eps / (1 + c * c)) ltac:(apply Rdiv_lt_0_compat; nra)). intros h Hh Hd. cbn [pos] in Hd.
  unfold edgeQ, edgeN.
  match goal with |- Rabs ?X < _ => replace X with ((1 + c * c) * h) by (field; exact Hh) end.
  rewrite Rabs_mult, (Rabs_pos_eq (1 + c * c)) by nra.
  apply Rmult_lt_reg_r with (/ (1 + c * c)). { apply Rinv_0_lt_compat. nra. }
  replace ((1 + c * c) * Rabs h * / (1 + c * c)) with (Rabs h) by (field; nra). exact Hd.
Qed.
Lemma edgeL_deriv : forall y, derivable_pt_lim edgeL y (edgeN y / edgeL y).
Proof.
  intros y. pose proof (edgeL_pos y) as HL.
  eapply deriv_ext; [intros x; reflexivity|apply (derivable_pt_lim_comp edgeQ sqrt y _ _ (edgeQ_deriv y) (derivable_pt_lim_sqrt _ (edgeQ_pos y)))|].
  fold (edgeL y). field. lra.
Qed.
Lemma edgeN_deriv : forall y, derivable_pt_lim edgeN y (1 + c * c).
Proof. intros y. apply affine_deriv with (b * c). intros x. unfold edgeN. ring. Qed.

(** primitives, in the variable tau = y / h *)
Variable (h : R).
Hypothesis (Hh : 0 < h).
Definition prim0 (tau : R) : R := ln (edgeN (tau * h) + f_ c * edgeL (tau * h)) / (h * f_ c).
Definition prim1 (tau : R) : R := (edgeL (tau * h) - b * c * h * prim0 tau) / ((1 + c * c) * (h * h)).

Lemma scale_deriv : forall F l tau, derivable_pt_lim F (tau * h) l -> derivable_pt_lim (fun x => F (x * h)) tau (l * h).
Proof.
  intros F l tau D. apply (derivable_pt_lim_comp (fun x => x * h) F tau h l); auto. apply affine_deriv with 0. intros x. ring.
Qed.

Lemma prim0_deriv : forall tau, derivable_pt_lim prim0 tau (/ edgeL (tau * h)).
Proof.
  intros tau. pose proof (edgeL_pos (tau * h)) as HL. pose proof (f_pos c) as Hf. pose proof (log_pos (tau * h)) as Hp.
  pose proof (f_sq c) as F2.
  assert (D : derivable_pt_lim (fun y => edgeN y + f_ c * edgeL y) (tau * h) (1 + c * c + f_ c * (edgeN (tau * h) / edgeL (tau * h)))).
  { apply (derivable_pt_lim_plus edgeN (mult_real_fct (f_ c) edgeL)); [apply edgeN_deriv|]. apply derivable_pt_lim_scal. apply edgeL_deriv. }
  pose proof (derivable_pt_lim_comp _ ln _ _ _ D (derivable_pt_lim_ln _ Hp)) as D2.
  apply (scale_deriv (Ranalysis1.comp ln (fun y => edgeN y + f_ c * edgeL y))) in D2.
  apply (derivable_pt_lim_scal _ (/ (h * f_ c))) in D2.
  eapply deriv_ext; [|exact D2|].
  - intros x. unfold prim0, mult_real_fct, Ranalysis1.comp, Rdiv. ring.
  - rewrite <- F2. cbv beta. field. repeat split; lra.
Qed.

Lemma prim1_deriv : forall tau, derivable_pt_lim prim1 tau (tau / edgeL (tau * h)).
Proof.
  intros tau. pose proof (edgeL_pos (tau * h)) as HL.
  pose proof (scale_deriv edgeL _ tau (edgeL_deriv (tau * h))) as D1.
  pose proof (derivable_pt_lim_scal _ (b * c * h) _ _ (prim0_deriv tau)) as D2.
  pose proof (derivable_pt_lim_minus _ _ _ _ _ D1 D2) as D3.
  apply (derivable_pt_lim_scal _ (/ ((1 + c * c) * (h * h)))) in D3.
  eapply deriv_ext; [|exact D3|].
  - intros x. unfold prim1, mult_real_fct, minus_fct, Rdiv. ring.
  - unfold edgeN. field. repeat split; nra.
Qed.

Lemma inv_cont : continuity (fun tau => / edgeL (tau * h)).
Proof.
  assert (C : continuity (fun tau => edgeL (tau * h))).
  { eapply deriv_cont. intros tau. apply scale_deriv. apply edgeL_deriv. }
  apply (continuity_inv (fun tau => edgeL (tau * h)) C). intros x. pose proof (edgeL_pos (x * h)). lra.
Qed.

(** the integral of an affine function over the distance *)
Lemma affine_over_distance : forall k0 k1,
  continuity (fun tau => (k0 + tau * k1) / edgeL (tau * h)) /\
  integral (fun tau => (k0 + tau * k1) / edgeL (tau * h)) 0 1 (k0 * (prim0 1 - prim0 0) + k1 * (prim1 1 - prim1 0)).
Proof.
  intros k0 k1.
  assert (C : continuity (fun tau => (k0 + tau * k1) / edgeL (tau * h))).
  { apply (continuity_mult (fun tau => k0 + tau * k1) (fun tau => / edgeL (tau * h))); [|apply inv_cont].
    apply (deriv_cont (fun _ => k1)). intros x. apply affine_deriv with k0. intros y. ring. }
  split; auto.
  replace (k0 * (prim0 1 - prim0 0) + k1 * (prim1 1 - prim1 0)) with ((k0 * prim0 1 + k1 * prim1 1) - (k0 * prim0 0 + k1 * prim1 0)) by ring.
  apply (integral_of_deriv _ (fun tau => k0 * prim0 tau + k1 * prim1 tau)); auto. intros x.
  pose proof (derivable_pt_lim_plus _ _ _ _ _ (derivable_pt_lim_scal _ k0 _ _ (prim0_deriv x)) (derivable_pt_lim_scal _ k1 _ _ (prim1_deriv x))) as D.
  eapply deriv_ext; [|exact D|].
  - intros y. reflexivity.
  - pose proof (edgeL_pos (x * h)). field. lra.
Qed.
End far_edge.

Lemma ln_quot : forall x y, 0 < x -> 0 < y -> ln (x / y) = ln x - ln y.
Proof. intros x y Hx Hy. unfold Rdiv. rewrite ln_mult, ln_Rinv; auto. apply Rinv_0_lt_compat. exact Hy. Qed.

(** ** The triangle seen from a vertex *)
Lemma normal_rotation : forall q i, (i < 3)%nat ->
  cross (vsub (q (next3 i)) (q i)) (vsub (q (next3 (next3 i))) (q i)) = normal_vect q.
Proof.
  intros q i Hi. unfold normal_vect. do 3 (destruct i as [|i]; [apply vec_eq; cbn [next3 cross vsub vx vy vz]; ring|]). lia.
Qed.

(** C86: on every triangle of non zero area, for every affine density of surface charges, the value computed for the
    potential at a vertex is the jump of magnetization times the exact integral over the triangle of density / distance *)
Theorem C86_vertex_potential : forall dMs q s i, (i < 3)%nat -> 0 < calc_surf q ->
  exists V, potential_of_triangle (q i) (q (next3 i)) (q (next3 (next3 i))) (s i) (s (next3 i)) (s (next3 (next3 i))) V /\
    tri_potential dMs q s i = dMs * V.
Proof.
  intros dMs q s i Hi HS. unfold tri_potential.
  pose proof (normal_rotation q i Hi) as HN.
  set (a := q i) in *. set (b' := q (next3 i)) in *. set (c' := q (next3 (next3 i))) in *.
  set (sa := s i). set (sb := s (next3 i)). set (sc := s (next3 (next3 i))).
  set (e2 := vsub b' a) in *. set (e3 := vsub c' a) in *.
  assert (HSn : calc_surf q = 1 / 2 * vnorm (cross e2 e3)) by (unfold calc_surf; rewrite HN; reflexivity).
  set (S := calc_surf q) in *. set (b := vnorm e2). set (t := dot e2 e3 / b). set (h := 2 * S / b). set (c := (t - b) / h).
  assert (Lg : (2 * S) * (2 * S) = dot e2 e2 * dot e3 e3 - dot e2 e3 * dot e2 e3).
  { rewrite <- lagrange, <- vnorm_sq, HSn. field. }
  assert (Hb2 : b * b = dot e2 e2) by apply vnorm_sq.
  assert (Hb : 0 < b).
  { destruct (vnorm_pos e2) as [|E]; auto. fold b in E. exfalso. rewrite <- Hb2, <- E in Lg. pose proof (Rle_0_sqr (dot e2 e3)) as Q. unfold Rsqr in Q. nra. }
  assert (Hh : 0 < h) by (apply Rdiv_lt_0_compat; lra).
  assert (Ht : dot e2 e3 = t * b) by (unfold t; field; lra).
  assert (H3 : dot e3 e3 = t * t + h * h).
  { apply Rmult_eq_reg_l with (b * b); [|nra]. unfold h. rewrite Hb2 at 1. rewrite Ht in Lg.
    transitivity ((2 * S) * (2 * S) + t * b * (t * b)); [lra|]. field. lra. }
  assert (Htc : t = b + c * h) by (unfold c; field; lra).
  assert (Hr : h * f_ (t / h) = edgeL b c h).
  { unfold edgeL, f_. rewrite <- (sqrt_square h) at 1 by lra. rewrite <- sqrt_mult; [|nra|].
    - f_equal. unfold edgeQ. rewrite Htc. field. lra.
    - assert (0 <= t / h * (t / h)) by (apply Rle_0_sqr). lra. }
  rewrite Hr. set (r := edgeL b c h).
  assert (HL : forall tau, vnorm (spoke a b' c' tau) = edgeL b c (tau * h)).
  { intros tau. unfold vnorm, edgeL. f_equal. unfold spoke. fold e2 e3.
    rewrite !dot_add_l, !dot_add_r, !dot_scale_l, !dot_scale_r, (dot_comm e3 e2), Ht, H3, <- Hb2. unfold edgeQ. rewrite Htc. ring. }
  assert (HA : forall rho tau, 0 <= rho -> area_element a b' c' rho tau = rho * (2 * S)).
  { intros rho tau Hrho. unfold area_element, along_rho, along_tau, spoke. fold e2 e3.
    replace (cross (vadd (vscale (1 - tau) e2) (vscale tau e3)) (vscale rho (vsub c' b'))) with (vscale rho (cross e2 e3)).
    - unfold vnorm. rewrite dot_scale_l, dot_scale_r, <- Rmult_assoc, sqrt_mult; [|nra|apply dot_self_nonneg].
      rewrite sqrt_square by exact Hrho. fold (vnorm (cross e2 e3)). rewrite HSn. field.
    - unfold e2, e3. apply vec_eq; cbn [cross vadd vscale vsub vx vy vz]; ring. }
  set (k0 := S * (sa + sb)). set (k1 := S * (sc - sb)).
  destruct (affine_over_distance b c Hb h Hh k0 k1) as [C I].
  exists (k0 * (prim0 b c h 1 - prim0 b c h 0) + k1 * (prim1 b c h 1 - prim1 b c h 0)). split.
  - exists (fun rho tau => affine_density sa sb sc rho tau * (2 * S) / edgeL b c (tau * h)).
    exists (fun tau => (k0 + tau * k1) / edgeL b c (tau * h)). split; [|split; [|split; [|split]]]; auto.
    + intros rho tau Hrho. rewrite HA by lra.
      assert (D : vnorm (vsub (point a b' c' rho tau) a) = rho * edgeL b c (tau * h)).
      { rewrite <- HL. unfold point. set (w := spoke a b' c' tau).
        replace (vsub (vadd a (vscale rho w)) a) with (vscale rho w).
        - unfold vnorm. rewrite dot_scale_l, dot_scale_r, <- Rmult_assoc, sqrt_mult; [|nra|apply dot_self_nonneg].
          rewrite sqrt_square by lra. reflexivity.
        - apply vec_eq; cbn [vadd vscale vsub vx vy vz]; ring. }
      rewrite D. pose proof (edgeL_pos b c Hb (tau * h)). field. split; lra.
    + intros tau. apply (deriv_cont (fun _ => ((1 - tau) * (sb - sa) + tau * (sc - sa)) * (2 * S) / edgeL b c (tau * h))). intros x. pose proof (edgeL_pos b c Hb (tau * h)).
      apply affine_deriv with (m := sa * (2 * S) / edgeL b c (tau * h)). intros y.
      unfold affine_density. field. lra.
    + intros tau. pose proof (edgeL_pos b c Hb (tau * h)) as Hp. set (L := edgeL b c (tau * h)) in *.
      set (m := (1 - tau) * (sb - sa) + tau * (sc - sa)).
      replace ((k0 + tau * k1) / L) with
        ((fun rho => (2 * S / L) * (sa * rho + 1 / 2 * m * (rho * rho))) 1 - (fun rho => (2 * S / L) * (sa * rho + 1 / 2 * m * (rho * rho))) 0).
      * apply integral_of_deriv with (F := fun rho => (2 * S / L) * (sa * rho + 1 / 2 * m * (rho * rho))).
        { intros x. unfold affine_density. fold m.
          pose proof (derivable_pt_lim_scal _ sa _ _ (derivable_pt_lim_id x)) as D1.
          pose proof (derivable_pt_lim_scal _ (1 / 2 * m) _ _ (derivable_pt_lim_mult _ _ _ _ _ (derivable_pt_lim_id x) (derivable_pt_lim_id x))) as D2.
          pose proof (derivable_pt_lim_scal _ (2 * S / L) _ _ (derivable_pt_lim_plus _ _ _ _ _ D1 D2)) as D3.
          eapply deriv_ext; [|exact D3|].
          - intros y. reflexivity.
          - unfold id. field. lra. }
        { apply (deriv_cont (fun _ => m * (2 * S) / L)). intros x. apply affine_deriv with (m := sa * (2 * S) / L). intros y. unfold affine_density. fold m. field. lra. }
      * unfold k0, k1, m. field. lra.
  - (* the closed formula *)
    assert (P0 : prim0 b c h 1 - prim0 b c h 0 = ln ((c * t + h + f_ c * r) / (b * (c + f_ c))) / (h * f_ c)).
    { unfold prim0. rewrite Rmult_1_l, Rmult_0_l.
      assert (E0 : edgeN b c 0 + f_ c * edgeL b c 0 = b * (c + f_ c)).
      { unfold edgeN, edgeL, edgeQ. replace ((1 + c * c) * (0 * 0) + 2 * b * c * 0 + b * b) with (b * b) by ring. rewrite sqrt_square by lra. ring. }
      assert (E1 : edgeN b c h + f_ c * edgeL b c h = c * t + h + f_ c * r).
      { fold r. unfold edgeN. rewrite Htc. ring. }
      pose proof (log_pos b c Hb 0) as Q0. pose proof (log_pos b c Hb h) as Q1. rewrite E0 in Q0. rewrite E1 in Q1.
      rewrite E0, E1, (ln_quot _ _ Q1 Q0).
      pose proof (f_pos c). field. split; lra. }
    set (lg := ln ((c * t + h + f_ c * r) / (b * (c + f_ c)))) in *.
    assert (E0 : edgeL b c 0 = b).
    { unfold edgeL, edgeQ. replace ((1 + c * c) * (0 * 0) + 2 * b * c * 0 + b * b) with (b * b) by ring. apply sqrt_square. lra. }
    assert (P1 : prim1 b c h 1 - prim1 b c h 0 = (r - b - b * c * h * (lg / (h * f_ c))) / ((1 + c * c) * (h * h))).
    { rewrite <- P0. unfold prim1. rewrite Rmult_1_l, Rmult_0_l, E0. fold r. field. split; nra. }
    rewrite P0, P1. unfold k0, k1.
    assert (HS2 : S = b * h / 2) by (unfold h; field; lra).
    rewrite HS2. pose proof (f_pos c) as Hf. rewrite Htc.
    field. repeat split; try lra; nra.
Qed.

Example C86_nonvacuous : 0 < calc_surf (fun i => match i with O => V 0 0 0 | 1%nat => V 2 0 0 | _ => V 1 3 0 end).
Proof.
  unfold calc_surf. apply Rmult_lt_0_compat; [lra|]. unfold vnorm. apply sqrt_lt_R0.
  unfold normal_vect, dot, cross, vsub. cbn [vx vy vz]. lra.
Qed.

(** the integral is determined by the triangle and the density *)
Theorem C86_integral_unique : forall a b c sa sb sc V V',
  potential_of_triangle a b c sa sb sc V -> potential_of_triangle a b c sa sb sc V' -> V = V'.
Proof.
  intros a b c sa sb sc V V' (g & G & H1 & _ & H2 & _ & pr & <-) (g' & G' & H1' & _ & H2' & _ & pr' & <-).
  apply RiemannInt_P18; [lra|]. intros tau _. destruct (H2 tau) as [p1 <-], (H2' tau) as [p2 <-]. apply RiemannInt_P18; [lra|].
  intros rho [Hr _]. rewrite H1, H1' by exact Hr. reflexivity.
Qed.

Print Assumptions C86_vertex_potential.
Print Assumptions C86_integral_unique.
