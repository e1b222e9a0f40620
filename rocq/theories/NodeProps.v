(** * Properties C17-C20: local basis, unit sphere, velocities *)

From Coq Require Import Reals List Lra Lia.
From Verif Require Import Vec NodeModel.
Import ListNotations.
Local Open Scope R_scope.

(** ** C17 *)
Lemma unit_far_dot : forall u, dot u u = 1 ->
  let e := unit_far u in dot e e = 1 /\ dot e u * dot e u <= 1 / 3.
Proof.
  intros [x y z] Hu e. vsimpl. unfold e, unit_far. simpl.
  assert (Hs : forall a b, ~ Rabs a < Rabs b -> b * b <= a * a).
  { intros a b H. apply Rnot_lt_le in H. apply Rsqr_le_abs_1 in H. exact H. }
  assert (Hl : forall a b, Rabs a < Rabs b -> a * a < b * b).
  { intros a b H. apply Rsqr_lt_abs_1 in H. exact H. }
  destruct (Rlt_dec (Rabs y) (Rabs x)) as [H1|H1];
    [destruct (Rlt_dec (Rabs z) (Rabs y)) as [H2|H2]|destruct (Rlt_dec (Rabs z) (Rabs x)) as [H2|H2]];
    simpl; try apply Hl in H1; try apply Hl in H2; try apply Hs in H1; try apply Hs in H2;
    split; nra.
Qed.

Lemma sin2_cos2' : forall r, sin r * sin r + cos r * cos r = 1.
Proof. intros r. exact (sin2_cos2 r). Qed.

Lemma normalize_self : forall a, dot a a = 1 -> vnormalize a = a.
Proof.
  intros a H. unfold vnormalize. rewrite H. destruct (Rlt_dec 0 1); [|lra].
  rewrite sqrt_1, Rinv_1. vring.
Qed.

Lemma project_out : forall a u, dot a u = 0 -> vsub a (vscale (dot a u) u) = a.
Proof. intros a u H. rewrite H. vring. Qed.

Lemma rotate_orthonormal : forall u p q r, orthonormal u p q ->
  orthonormal u (vsub (vscale (cos r) p) (vscale (sin r) q)) (vadd (vscale (sin r) p) (vscale (cos r) q)).
Proof.
  intros u p q r (Huu & Hpp & Hqq & Hup & Huq & Hpq & Eq).
  pose proof (sin2_cos2' r) as Hr.
  assert (Hqp : dot q p = 0) by (rewrite dot_comm; exact Hpq).
  assert (Hcq : cross u q = vscale (-1) p).
  { rewrite Eq, cross_cross, Hup, Huu. vring. }
  repeat split; auto;
    rewrite ?dot_sub_l, ?dot_sub_r, ?dot_add_l, ?dot_add_r, ?dot_scale_l, ?dot_scale_r, ?dot_sub_l, ?dot_sub_r,
      ?dot_add_l, ?dot_add_r, ?dot_scale_l, ?dot_scale_r, ?Hpp, ?Hqq, ?Hpq, ?Hqp, ?Hup, ?Huq; try nra.
  replace (cross u (vsub (vscale (cos r) p) (vscale (sin r) q))) with
    (vsub (vscale (cos r) (cross u p)) (vscale (sin r) (cross u q))) by vring.
  rewrite Hcq, <- Eq. vring.
Qed.

Lemma setBasis_orthonormal : forall par r n, dot (d_u (cur n)) (d_u (cur n)) = 1 ->
  orthonormal (d_u (cur n)) (ep (setBasis par r n)) (eq_ (setBasis par r n)).
Proof.
  intros par r n Hu. set (u := d_u (cur n)) in *.
  destruct (unit_far_dot u Hu) as [He Hd].
  set (e := unit_far u) in *.
  assert (Hpos : 0 < dot (vsub e (vscale (dot e u) u)) (vsub e (vscale (dot e u) u))).
  { rewrite !dot_sub_l, !dot_sub_r, !dot_scale_l, !dot_scale_r, He, Hu, (dot_comm u e). nra. }
  set (e1 := vnormalize (vsub e (vscale (dot e u) u))).
  assert (He1 : dot e1 e1 = 1) by (apply normalize_unit; exact Hpos).
  assert (Hue1 : dot u e1 = 0).
  { rewrite dot_comm. unfold e1. rewrite normalize_dot by exact Hpos.
    rewrite dot_sub_l, dot_scale_l, Hu. unfold Rdiv. rewrite Rmult_1_r, Rminus_eq_0. ring. }
  pose proof (orthonormal_intro u e1 Hu He1 Hue1) as Ho.
  pose proof (rotate_orthonormal u e1 (cross u e1) r Ho) as Hr.
  unfold setBasis. fold u. fold e. fold e1.
  set (p' := vsub (vscale (cos r) e1) (vscale (sin r) (cross u e1))) in *.
  set (q' := vadd (vscale (sin r) e1) (vscale (cos r) (cross u e1))) in *.
  destruct par; [|exact Hr].
  pose proof Hr as (_ & Hpp & Hqq & Hup & Huq & Hpq & Eq).
  cbn [ep eq_].
  rewrite (project_out p' u) by (rewrite dot_comm; exact Hup).
  rewrite (normalize_self p' Hpp).
  rewrite (project_out q' u) by (rewrite dot_comm; exact Huq).
  rewrite (project_out q' p') by (rewrite dot_comm; exact Hpq).
  rewrite (normalize_self q' Hqq). exact Hr.
Qed.

(** For every unit reference magnetization and every angle (with or without the extra
    orthonormalization): unit vectors, orthogonal to each other and to u0, and eq = u0 x ep. *)
Theorem C17_basis_orthonormal : forall paranoid r n, vnorm (d_u (cur n)) = 1 ->
  let u := d_u (cur n) in
  let p := ep (setBasis paranoid r n) in
  let q := eq_ (setBasis paranoid r n) in
  vnorm p = 1 /\ vnorm q = 1 /\ dot u p = 0 /\ dot u q = 0 /\ dot p q = 0 /\
  cross u p = q /\ cross p q = u /\ cross q u = p.
Proof.
  intros par r n Hu u p q. apply vnorm_1 in Hu.
  pose proof (setBasis_orthonormal par r n Hu) as (Huu & Hpp & Hqq & Hup & Huq & Hpq & Eq).
  fold u p q in Huu, Hpp, Hqq, Hup, Huq, Hpq, Eq. rewrite !vnorm_1. repeat split; auto.
  - rewrite Eq, cross_cross, Hpp, (dot_comm p u), Hup. vring.
  - assert (H : cross u q = vscale (-1) p). { rewrite Eq, cross_cross, Hup, Huu. vring. }
    replace (cross q u) with (vscale (-1) (cross u q)) by vring. rewrite H. vring.
Qed.

Definition ex_node : node :=
  mkNode vzero vzero vzero (mkData (V 0 (3/5) (4/5)) vzero 0 0) (mkData (V 0 (3/5) (4/5)) vzero 0 0).
Example C17_nonvacuous : vnorm (d_u (cur ex_node)) = 1.
Proof. apply vnorm_1. vsimpl. lra. Qed.

(** ** C19 *)
(** After setBasis, the velocity written by make_evol is tangent and its projections are vp and vq. *)
Theorem C19_velocity_tangent : forall paranoid r n vp vq dt, vnorm (d_u (cur n)) = 1 ->
  let n' := make_evol vp vq dt (setBasis paranoid r n) in
  dot (d_v (nxt n')) (d_u (cur n)) = 0 /\ proj_ep n' = vp /\ proj_eq n' = vq /\
  vnorm (d_v (nxt n')) = sqrt (vp * vp + vq * vq) /\
  cur n' = cur n.
Proof.
  intros par r n vp vq dt Hu n'. apply vnorm_1 in Hu.
  pose proof (setBasis_orthonormal par r n Hu) as (Huu & Hpp & Hqq & Hup & Huq & Hpq & Eq).
  unfold proj_ep, proj_eq, n', make_evol. cbn [nxt d_v ep eq_ cur].
  set (p := ep (setBasis par r n)) in *. set (q := eq_ (setBasis par r n)) in *.
  repeat split.
  - rewrite dot_add_l, !dot_scale_l, (dot_comm p), (dot_comm q), Hup, Huq. ring.
  - rewrite dot_add_l, !dot_scale_l, (dot_comm q), Hpp, Hpq. ring.
  - rewrite dot_add_l, !dot_scale_l, Hqq, Hpq. ring.
  - unfold vnorm. f_equal. rewrite dot_add_l, !dot_add_r, !dot_scale_l, !dot_scale_r, (dot_comm q p), Hpp, Hqq, Hpq.
    ring.
  - unfold setBasis. destruct par; reflexivity.
Qed.

Example C19_nonvacuous : vnorm (d_u (cur ex_node)) = 1.
Proof. exact C17_nonvacuous. Qed.

(** ** C18 *)
Lemma cur_setBasis : forall par r n, cur (setBasis par r n) = cur n.
Proof. intros par r n. unfold setBasis. destruct par; reflexivity. Qed.
Lemma nxt_setBasis : forall par r n, nxt (setBasis par r n) = nxt n.
Proof. intros par r n. unfold setBasis. destruct par; reflexivity. Qed.

Lemma advance_dot : forall u v dt, dot u u = 1 -> dot v u = 0 ->
  dot (vadd u (vscale dt v)) (vadd u (vscale dt v)) = 1 + (dt * dt) * dot v v /\
  dot (vadd u (vscale dt v)) u = 1.
Proof.
  intros u v dt Hu Hv. split.
  - rewrite dot_add_l, !dot_add_r, !dot_scale_l, !dot_scale_r, Hu, Hv, (dot_comm u v), Hv. ring.
  - rewrite dot_add_l, dot_scale_l, Hu, Hv. ring.
Qed.

(** One step: unit, in the open hemisphere of u0, at angle arctan(|dt|*|v|) from it. *)
Theorem C18_step_on_sphere : forall paranoid r n vp vq dt, vnorm (d_u (cur n)) = 1 ->
  let n' := make_evol vp vq dt (setBasis paranoid r n) in
  let u0 := d_u (cur n) in let u := d_u (nxt n') in
  vnorm u = 1 /\ 0 < dot u0 u /\ acos (dot u0 u) = atan (Rabs dt * sqrt (vp * vp + vq * vq)).
Proof.
  intros par r n vp vq dt Hu n' u0 u.
  destruct (C19_velocity_tangent par r n vp vq dt Hu) as (Hv & _ & _ & Hnv & _). fold n' in Hv, Hnv.
  set (v := d_v (nxt n')) in *. apply vnorm_1 in Hu. fold u0 in Hu, Hv.
  destruct (advance_dot u0 v dt Hu Hv) as [H1 H2].
  assert (Eu : u = vnormalize (vadd u0 (vscale dt v))).
  { unfold u, v, n', make_evol. cbn [nxt d_u d_v]. rewrite cur_setBasis. reflexivity. }
  pose proof (dot_self_nonneg v) as Hvv.
  assert (Hpos : 0 < dot (vadd u0 (vscale dt v)) (vadd u0 (vscale dt v))) by (rewrite H1; nra).
  assert (Hd : dot u0 u = / sqrt (1 + (dt * dt) * dot v v)).
  { rewrite dot_comm, Eu, normalize_dot by exact Hpos. rewrite H1, H2. unfold Rdiv. ring. }
  assert (Hs : 0 < sqrt (1 + (dt * dt) * dot v v)) by (apply sqrt_lt_R0; nra).
  split; [|split].
  - rewrite Eu. apply vnorm_1. apply normalize_unit. exact Hpos.
  - rewrite Hd. apply Rinv_0_lt_compat. exact Hs.
  - rewrite Hd. rewrite acos_atan by (apply Rinv_0_lt_compat; exact Hs). f_equal.
    set (w := dt * dt * dot v v) in *.
    assert (Hw : 0 <= w) by (unfold w; nra).
    replace (1 - (/ sqrt (1 + w))²) with (w / (1 + w)).
    + unfold Rdiv at 1. rewrite Rinv_inv. rewrite <- sqrt_mult_alt by (apply Rmult_le_pos; [lra|left; apply Rinv_0_lt_compat; lra]).
      replace (w / (1 + w) * (1 + w)) with w by (field; lra).
      unfold w. rewrite <- Hnv. unfold vnorm.
      rewrite sqrt_mult_alt by nra. change (dt * dt) with (Rsqr dt). rewrite sqrt_Rsqr_abs. reflexivity.
    + unfold Rsqr. replace (/ sqrt (1 + w) * / sqrt (1 + w)) with (/ (sqrt (1 + w) * sqrt (1 + w))) by (field; lra).
      rewrite sqrt_sqrt by lra. field. lra.
Qed.

Example C18_nonvacuous : vnorm (d_u (cur ex_node)) = 1.
Proof. exact C17_nonvacuous. Qed.

(** Histories *)
Definition unit_node (n : node) : Prop := vnorm (d_u (cur n)) = 1 /\ vnorm (d_u (nxt n)) = 1.
(** every magnetic node has a unit magnetization, at both time levels *)
Definition unit_mesh (l : mesh_nodes) : Prop := forall n, In (true, n) l -> unit_node n.

(** additionally, the basis of a node is orthonormal (it is after setBasis) *)
Definition basis_node (n : node) : Prop := orthonormal (d_u (cur n)) (ep n) (eq_ n).

Lemma in_mapi : forall {X Y} (f : nat -> X -> Y) l i y, In y (mapi_from f i l) ->
  exists j x, In x l /\ y = f j x.
Proof.
  induction l as [|x l IH]; intros i y H; simpl in H. { contradiction. }
  destruct H as [<-|H].
  - exists i, x. split; simpl; auto.
  - destruct (IH _ _ H) as (j & x' & H1 & H2). exists j, x'. split; simpl; auto.
Qed.

Lemma trial_unit : forall par t l, unit_mesh l ->
  unit_mesh (fold_left (fun l o => do_op par o l) (trial_ops t) l).
Proof.
  intros par t l Hl. unfold trial_ops. cbn [fold_left].
  set (l1 := do_op par (OpBasis (t_angle t)) l).
  assert (H1 : forall n, In (true, n) l1 -> unit_node n /\ basis_node n).
  { intros n H. unfold l1, do_op in H. apply in_map_iff in H. destruct H as ((b & n1) & E & H).
    simpl in E. inversion E; subst. pose proof (Hl n1 H) as [Hu1 Hu2].
    split.
    - unfold unit_node. rewrite cur_setBasis, nxt_setBasis. auto.
    - unfold basis_node. rewrite cur_setBasis. apply setBasis_orthonormal. apply vnorm_1. exact Hu1. }
  destruct (t_solution t) as [X|]; cbn [fold_left].
  2: { intros n H. apply H1; auto. }
  set (l2 := do_op par (OpUpdate (t_gamma0 t) (t_dt t) X) l1).
  assert (H2 : unit_mesh l2).
  { intros n H. unfold l2, do_op in H. apply in_mapi in H. destruct H as (j & (b & n1) & H & E).
    simpl in E. destruct b; [|discriminate]. inversion E; subst. clear E.
    destruct (H1 n1 H) as [[Hu1 Hu2] (Huu & Hpp & Hqq & Hup & Huq & Hpq & Eq)].
    unfold unit_node, make_evol. cbn [cur nxt d_u]. split; auto.
    apply vnorm_1. apply normalize_unit.
    match goal with |- context [vscale (t_dt t) ?w] => set (v := w) end.
    assert (Hv : dot v (d_u (cur n1)) = 0).
    { unfold v. rewrite dot_add_l, !dot_scale_l, (dot_comm (ep n1)), (dot_comm (eq_ n1)), Hup, Huq. ring. }
    destruct (advance_dot (d_u (cur n1)) v (t_dt t) Huu Hv) as [-> _].
    pose proof (dot_self_nonneg v). nra. }
  destruct (t_accepted t); cbn [fold_left]; auto.
  intros n H. unfold do_op at 1 in H. apply in_map_iff in H. destruct H as ((b & n1) & E & H).
  simpl in E. inversion E; subst. clear E.
  unfold do_op in H. apply in_mapi in H. destruct H as (j & (b & n2) & H & E).
  simpl in E. destruct b; [|discriminate]. inversion E; subst. clear E.
  destruct (H2 n2 H) as [Hu1 Hu2]. unfold unit_node, evolution. simpl. auto.
Qed.

(** Starting from unit magnetizations, after any sequence of trial steps (failed, refused or
    accepted) every magnetic node has unit magnetization at both time levels. *)
Theorem C18_unit_sphere_invariant : forall paranoid ts l, unit_mesh l ->
  unit_mesh (run_trials paranoid ts l).
Proof.
  intros par ts. unfold run_trials. induction ts as [|t ts IH]; intros l Hl; cbn [flat_map].
  - exact Hl.
  - rewrite fold_left_app. apply IH. apply trial_unit. exact Hl.
Qed.

Example C18_history_nonvacuous : unit_mesh [(true, ex_node); (false, mkNode vzero vzero vzero (mkData vzero vzero 0 0) (mkData vzero vzero 0 0))].
Proof.
  intros n [H|[H|[]]]; inversion H; subst. split; exact C17_nonvacuous.
Qed.

(** ** C20 *)
(** A tangent velocity v, expressed in the basis of either of two angles, leads to the same updated
    node data; the components determine v. *)
Theorem C20_angle_irrelevant : forall par1 par2 r1 r2 n v dt, vnorm (d_u (cur n)) = 1 ->
  dot v (d_u (cur n)) = 0 ->
  let b1 := setBasis par1 r1 n in let b2 := setBasis par2 r2 n in
  vadd (vscale (dot v (ep b1)) (ep b1)) (vscale (dot v (eq_ b1)) (eq_ b1)) = v /\
  nxt (make_evol (dot v (ep b1)) (dot v (eq_ b1)) dt b1) =
  nxt (make_evol (dot v (ep b2)) (dot v (eq_ b2)) dt b2).
Proof.
  intros par1 par2 r1 r2 n v dt Hu Hv b1 b2. apply vnorm_1 in Hu.
  assert (H : forall par r, vadd (vscale (dot v (ep (setBasis par r n))) (ep (setBasis par r n)))
      (vscale (dot v (eq_ (setBasis par r n))) (eq_ (setBasis par r n))) = v).
  { intros par r. pose proof (expand _ _ _ v (setBasis_orthonormal par r n Hu)) as E.
    rewrite Hv in E. transitivity (vadd (vscale 0 (d_u (cur n))) (vadd (vscale (dot v (ep (setBasis par r n))) (ep (setBasis par r n)))
      (vscale (dot v (eq_ (setBasis par r n))) (eq_ (setBasis par r n))))). { vring. }
    symmetry. rewrite E at 1. vring. }
  split. { apply H. }
  unfold make_evol. cbn [nxt]. unfold b1, b2. rewrite !H, !cur_setBasis, !nxt_setBasis. reflexivity.
Qed.

Example C20_nonvacuous : vnorm (d_u (cur ex_node)) = 1 /\ dot (V 7 0 0) (d_u (cur ex_node)) = 0.
Proof. split. { exact C17_nonvacuous. } vsimpl. lra. Qed.

(** ** C80 *)
Lemma nth_mapi : forall {X Y} (f : nat -> X -> Y) l k i, nth_error (mapi_from f k l) i = option_map (f (k + i)%nat) (nth_error l i).
Proof.
  induction l as [|x l IH]; intros k i; destruct i; cbn; auto.
  - now rewrite Nat.add_0_r.
  - rewrite IH. now rewrite Nat.add_succ_r.
Qed.

(** A trial whose solve fails, or which is refused, leaves the reference configuration (level CURRENT) of every node
    as it was. An accepted trial makes the new configuration the reference: on a magnetic node of unit magnetization u,
    for some velocity v orthogonal to u whose components in the basis of the node are those of the solution times
    gamma0, both levels hold the magnetization (u + dt v)/|u + dt v|, the velocity v and the computed potentials; a
    node that is not magnetic takes its pending contents. *)
Theorem C80_trial_history : forall paranoid ts t l i b n,
  nth_error (run_trials paranoid ts l) i = Some (b, n) ->
  exists n', nth_error (run_trials paranoid (ts ++ [t]) l) i = Some (b, n') /\ n_p n' = n_p n /\
  match t_solution t with
  | Some X =>
      if t_accepted t then
        cur n' = nxt n' /\
        if b then
          vnorm (d_u (cur n)) = 1 ->
          exists p q v, orthonormal (d_u (cur n)) p q /\
            dot v (d_u (cur n)) = 0 /\ dot v p = fst (X i) * t_gamma0 t /\ dot v q = snd (X i) * t_gamma0 t /\
            cur n' = mkData (vnormalize (vadd (d_u (cur n)) (vscale (t_dt t) v))) v (t_phi t i) (t_phiv t i)
        else cur n' = nxt n
      else cur n' = cur n
  | None => cur n' = cur n /\ nxt n' = nxt n
  end.
Proof.
  intros par ts t l i b n H. unfold run_trials in *. rewrite flat_map_app. cbn [flat_map]. rewrite app_nil_r, fold_left_app.
  set (l1 := fold_left _ _ _) in *. clearbody l1. unfold trial_ops. cbn [fold_left].
  set (n1 := setBasis par (t_angle t) n).
  assert (H1 : nth_error (do_op par (OpBasis (t_angle t)) l1) i = Some (b, n1)).
  { cbn [do_op]. rewrite nth_error_map, H. reflexivity. }
  assert (P1 : n_p n1 = n_p n). { unfold n1, setBasis. cbv zeta. destruct par; reflexivity. }
  set (l2 := do_op par (OpBasis (t_angle t)) l1) in *. clearbody l2.
  destruct (t_solution t) as [X|]; cbn [fold_left].
  2: { exists n1. split; [exact H1|]. split; [exact P1|]. unfold n1. now rewrite cur_setBasis, nxt_setBasis. }
  set (n2 := if b then make_evol (fst (X i) * t_gamma0 t) (snd (X i) * t_gamma0 t) (t_dt t) n1 else n1).
  assert (H2 : nth_error (do_op par (OpUpdate (t_gamma0 t) (t_dt t) X) l2) i = Some (b, n2)).
  { cbn [do_op]. rewrite nth_mapi, H1. cbn. unfold n2. destruct b; reflexivity. }
  set (l3 := do_op par (OpUpdate (t_gamma0 t) (t_dt t) X) l2) in *. clearbody l3.
  destruct (t_accepted t); cbn [fold_left].
  2: { exists n2. split; [exact H2|]. unfold n2. destruct b; cbn [make_evol n_p cur]; unfold n1; rewrite cur_setBasis; auto. }
  set (n3 := if b then set_phiv (t_phiv t i) (set_phi (t_phi t i) n2) else n2).
  exists (evolution n3). split; [|split; [|split]].
  - cbn [do_op]. rewrite nth_error_map, nth_mapi, H2. cbn. unfold n3. destruct b; reflexivity.
  - unfold n3, n2. destruct b; exact P1.
  - reflexivity.
  - destruct b.
    + intros Hu. apply vnorm_1 in Hu. pose proof (setBasis_orthonormal par (t_angle t) n Hu) as Ho. fold n1 in Ho.
      set (v := vadd (vscale (fst (X i) * t_gamma0 t) (ep n1)) (vscale (snd (X i) * t_gamma0 t) (eq_ n1))).
      exists (ep n1), (eq_ n1), v. split; [exact Ho|].
      destruct Ho as (Huu & Hpp & Hqq & Hup & Huq & Hpq & _).
      unfold v. rewrite !dot_add_l, !dot_scale_l. rewrite (dot_comm (ep n1) (d_u (cur n))), (dot_comm (eq_ n1) (d_u (cur n))), (dot_comm (eq_ n1) (ep n1)).
      rewrite Hup, Huq, Hpq, Hpp, Hqq. split; [ring|]. split; [ring|]. split; [ring|].
      unfold n3, n2, evolution, set_phiv, set_phi, make_evol. cbn [cur nxt d_u d_v d_phi d_phiv]. unfold n1 at 1. rewrite cur_setBasis. reflexivity.
    + unfold n3, n2, evolution. cbn [cur]. unfold n1. apply nxt_setBasis.
Qed.

Example C80_nonvacuous : exists n, nth_error (run_trials false [] [(true, ex_node)]) 0 = Some (true, n) /\ vnorm (d_u (cur n)) = 1.
Proof. exists ex_node. split; [reflexivity|exact C17_nonvacuous]. Qed.

Print Assumptions C17_basis_orthonormal.
Print Assumptions C18_step_on_sphere.
Print Assumptions C18_unit_sphere_invariant.
Print Assumptions C19_velocity_tangent.
Print Assumptions C20_angle_irrelevant.
Print Assumptions C80_trial_history.
