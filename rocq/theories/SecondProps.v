(** * The computed motion of a uniformly magnetized sample is accurate to second order in the time step (C109) *)
From Coq Require Import List ZArith Arith Bool Lia Reals Lra Permutation.
From Flocq Require Import Core.
From Verif Require Import Arith ArithLaws Vec Sums LinAlg SparseModel SparseProof ConcModel ConcProof SparseProps
  IterModel IterProof Ieee IterMask IterExact IterProps StdModel MeshModel MeshProof MeshProps ElemModel ElemProof AvgModel ElemProps
  AsmModel AsmProof AsmProps LlgProps WeakProps NodeModel NodeProps CgProof DissipProps PrecessProps ConvProps.
Import ListNotations.
Local Open Scope R_scope.

(** ** Bounded and Lipschitz functions of a moment *)
Definition tame (f : vec -> vec) : Prop := exists B L, 0 <= B /\ 0 <= L /\ (forall m, dot m m = 1 -> vnorm (f m) <= B) /\
  forall m n, dot m m = 1 -> dot n n = 1 -> vnorm (vsub (f m) (f n)) <= L * vnorm (vsub m n).

Lemma tame_id : tame (fun m => m).
Proof. exists 1, 1. repeat split; try lra; intros; [apply vnorm_1 in H; lra|lra]. Qed.
Lemma tame_add : forall f g, tame f -> tame g -> tame (fun m => vadd (f m) (g m)).
Proof.
  intros f g (B & L & B0 & L0 & F1 & F2) (B' & L' & B0' & L0' & G1 & G2). exists (B + B'), (L + L'). split; [lra|]. split; [lra|]. split.
  - intros m Hm. eapply Rle_trans; [apply norm_add|]. specialize (F1 m Hm). specialize (G1 m Hm). lra.
  - intros m n Hm Hn. replace (vsub (vadd (f m) (g m)) (vadd (f n) (g n))) with (vadd (vsub (f m) (f n)) (vsub (g m) (g n))) by vring.
    eapply Rle_trans; [apply norm_add|]. specialize (F2 m n Hm Hn). specialize (G2 m n Hm Hn). lra.
Qed.
Lemma tame_scale : forall k f, tame f -> tame (fun m => vscale k (f m)).
Proof.
  intros k f (B & L & B0 & L0 & F1 & F2). pose proof (Rabs_pos k) as K. exists (Rabs k * B), (Rabs k * L). split; [nra|]. split; [nra|]. split.
  - intros m Hm. rewrite norm_scale. apply Rmult_le_compat_l; auto.
  - intros m n Hm Hn. replace (vsub (vscale k (f m)) (vscale k (f n))) with (vscale k (vsub (f m) (f n))) by vring.
    rewrite norm_scale, Rmult_assoc. apply Rmult_le_compat_l; auto.
Qed.
Lemma tame_cross : forall f g, tame f -> tame g -> tame (fun m => cross (f m) (g m)).
Proof.
  intros f g (B & L & B0 & L0 & F1 & F2) (B' & L' & B0' & L0' & G1 & G2). exists (B * B'), (L * B' + B * L').
  split; [nra|]. split; [nra|]. split.
  - intros m Hm. eapply Rle_trans; [apply norm_cross|]. apply Rmult_le_compat; auto using vnorm_pos.
  - intros m n Hm Hn. replace (vsub (cross (f m) (g m)) (cross (f n) (g n))) with (vadd (cross (vsub (f m) (f n)) (g m)) (cross (f n) (vsub (g m) (g n)))) by vring.
    eapply Rle_trans; [apply norm_add|]. pose proof (norm_cross (vsub (f m) (f n)) (g m)) as A1. pose proof (norm_cross (f n) (vsub (g m) (g n))) as A2.
    assert (vnorm (vsub (f m) (f n)) * vnorm (g m) <= L * vnorm (vsub m n) * B') by (apply Rmult_le_compat; auto using vnorm_pos).
    assert (vnorm (f n) * vnorm (vsub (g m) (g n)) <= B * (L' * vnorm (vsub m n))) by (apply Rmult_le_compat; auto using vnorm_pos). lra.
Qed.
Lemma lin_sub : forall A k, linear A k -> forall x y, A (vsub x y) = vsub (A x) (A y).
Proof. intros A k HA x y. replace (vsub x y) with (vadd x (vscale (-1) y)) by vring. rewrite (lin_add _ _ HA), (lin_scale _ _ HA). vring. Qed.
Lemma tame_lin : forall A k f, 0 <= k -> linear A k -> tame f -> tame (fun m => A (f m)).
Proof.
  intros A k f K HA (B & L & B0 & L0 & F1 & F2). exists (k * B), (k * L). split; [nra|]. split; [nra|]. split.
  - intros m Hm. eapply Rle_trans; [apply (lin_bound _ _ HA)|]. apply Rmult_le_compat_l; auto.
  - intros m n Hm Hn. rewrite <- (lin_sub A k HA). eapply Rle_trans; [apply (lin_bound _ _ HA)|]. rewrite Rmult_assoc. apply Rmult_le_compat_l; auto.
Qed.

(** ** Derivatives of vectors *)
Definition vderiv (f : R -> vec) (t : R) (w : vec) : Prop :=
  derivable_pt_lim (fun s => vx (f s)) t (vx w) /\ derivable_pt_lim (fun s => vy (f s)) t (vy w) /\ derivable_pt_lim (fun s => vz (f s)) t (vz w).
Lemma vderiv_const : forall c t, vderiv (fun _ => c) t vzero.
Proof. intros c t. repeat split; apply derivable_pt_lim_const. Qed.
Lemma vderiv_add : forall f g t a b, vderiv f t a -> vderiv g t b -> vderiv (fun s => vadd (f s) (g s)) t (vadd a b).
Proof.
  intros f g t a b (A1 & A2 & A3) (B1 & B2 & B3). repeat split; cbn [vadd vx vy vz].
  - apply (derivable_pt_lim_plus (fun s => vx (f s)) (fun s => vx (g s))); assumption.
  - apply (derivable_pt_lim_plus (fun s => vy (f s)) (fun s => vy (g s))); assumption.
  - apply (derivable_pt_lim_plus (fun s => vz (f s)) (fun s => vz (g s))); assumption.
Qed.
Lemma vderiv_scale : forall k f t a, vderiv f t a -> vderiv (fun s => vscale k (f s)) t (vscale k a).
Proof.
  intros k f t a (A1 & A2 & A3). repeat split; cbn [vscale vx vy vz].
  - apply (derivable_pt_lim_scal (fun s => vx (f s))); assumption.
  - apply (derivable_pt_lim_scal (fun s => vy (f s))); assumption.
  - apply (derivable_pt_lim_scal (fun s => vz (f s))); assumption.
Qed.
Lemma lim_prod2 : forall p q r s t p' q' r' s', derivable_pt_lim p t p' -> derivable_pt_lim q t q' -> derivable_pt_lim r t r' -> derivable_pt_lim s t s' ->
  derivable_pt_lim (fun x => p x * q x - r x * s x) t ((p' * q t - r' * s t) + (p t * q' - r t * s')).
Proof.
  intros p q r s t p' q' r' s' P Q R S.
  replace ((p' * q t - r' * s t) + (p t * q' - r t * s')) with ((p' * q t + p t * q') - (r' * s t + r t * s')) by ring.
  apply (derivable_pt_lim_minus (fun x => p x * q x) (fun x => r x * s x)).
  - apply (derivable_pt_lim_mult p q); assumption.
  - apply (derivable_pt_lim_mult r s); assumption.
Qed.
Lemma vderiv_cross : forall f g t a b, vderiv f t a -> vderiv g t b -> vderiv (fun s => cross (f s) (g s)) t (vadd (cross a (g t)) (cross (f t) b)).
Proof.
  intros f g t a b (A1 & A2 & A3) (B1 & B2 & B3). repeat split; cbn [vadd cross vx vy vz].
  - apply (lim_prod2 (fun s => vy (f s)) (fun s => vz (g s)) (fun s => vz (f s)) (fun s => vy (g s))); assumption.
  - apply (lim_prod2 (fun s => vz (f s)) (fun s => vx (g s)) (fun s => vx (f s)) (fun s => vz (g s))); assumption.
  - apply (lim_prod2 (fun s => vx (f s)) (fun s => vy (g s)) (fun s => vy (f s)) (fun s => vx (g s))); assumption.
Qed.
Lemma vderiv_ext : forall f g t a b, (forall s, f s = g s) -> a = b -> vderiv f t a -> vderiv g t b.
Proof.
  intros f g t a b H -> (A1 & A2 & A3). repeat split.
  - intros e He. destruct (A1 e He) as (d & Hd). exists d. intros y. rewrite <- !H. apply Hd.
  - intros e He. destruct (A2 e He) as (d & Hd). exists d. intros y. rewrite <- !H. apply Hd.
  - intros e He. destruct (A3 e He) as (d & Hd). exists d. intros y. rewrite <- !H. apply Hd.
Qed.
Lemma vderiv_times : forall (p : R -> R) c t p', derivable_pt_lim p t p' -> vderiv (fun s => vscale (p s) c) t (vscale p' c).
Proof.
  intros p c t p' P.
  assert (K : forall k, derivable_pt_lim (fun s => p s * k) t (p' * k)).
  { intros k. rewrite Rmult_comm. pose proof (derivable_pt_lim_scal p k t p' P) as Q. intros e He. destruct (Q e He) as (d & Hd). exists d. intros y Y1 Y2. specialize (Hd y Y1 Y2).
    unfold mult_real_fct in Hd. rewrite (Rmult_comm (p (t + y))), (Rmult_comm (p t)). exact Hd. }
  repeat split; cbn [vscale vx vy vz]; apply K.
Qed.
Lemma vderiv_lin : forall A k f t a, linear A k -> vderiv f t a -> vderiv (fun s => A (f s)) t (A a).
Proof.
  intros A k f t a HA (A1 & A2 & A3).
  assert (E : forall x, vadd (vadd (vscale (vx x) (A (V 1 0 0))) (vscale (vy x) (A (V 0 1 0)))) (vscale (vz x) (A (V 0 0 1))) = A x).
  { intros x. rewrite <- !(lin_scale _ _ HA), <- !(lin_add _ _ HA). f_equal. destruct x. vring. }
  refine (vderiv_ext (fun s => vadd (vadd (vscale (vx (f s)) (A (V 1 0 0))) (vscale (vy (f s)) (A (V 0 1 0)))) (vscale (vz (f s)) (A (V 0 0 1)))) _ t _ _ (fun s => E (f s)) (E a) _).
  apply (vderiv_add (fun s => vadd (vscale (vx (f s)) (A (V 1 0 0))) (vscale (vy (f s)) (A (V 0 1 0)))) (fun s => vscale (vz (f s)) (A (V 0 0 1)))).
  - apply (vderiv_add (fun s => vscale (vx (f s)) (A (V 1 0 0))) (fun s => vscale (vy (f s)) (A (V 0 1 0)))).
    + apply (vderiv_times (fun s => vx (f s))); assumption.
    + apply (vderiv_times (fun s => vy (f s))); assumption.
  - apply (vderiv_times (fun s => vz (f s))); assumption.
Qed.

Lemma taylor2 : forall (p p1 p2 : R -> R) t dt K, 0 < dt -> 0 <= K ->
  (forall r, t <= r <= t + dt -> derivable_pt_lim p r (p1 r) /\ derivable_pt_lim p1 r (p2 r)) ->
  (forall r, t <= r <= t + dt -> Rabs (p2 r - p2 t) <= K * (r - t)) ->
  Rabs (p (t + dt) - p t - dt * p1 t - dt * dt / 2 * p2 t) <= K * (dt * dt * dt).
Proof.
  intros p p1 p2 t dt K Hdt HK Hd Hl.
  destruct (MVT_cor2 (fun s => p s - (p1 t * (s - t) + p2 t / 2 * Rsqr (s - t))) (fun s => p1 s - (p1 t * (1 - 0) + p2 t / 2 * (2 * (s - t) * (1 - 0)))) t (t + dt) ltac:(lra)) as (c & E & Hc).
  { intros c Hc.
    assert (I : derivable_pt_lim (fun s => s - t) c (1 - 0)).
    { apply (derivable_pt_lim_minus (fun s => s) (fun _ => t)); [apply derivable_pt_lim_id|apply derivable_pt_lim_const]. }
    apply (derivable_pt_lim_minus p (fun s => p1 t * (s - t) + p2 t / 2 * Rsqr (s - t))); [apply Hd; lra|].
    apply (derivable_pt_lim_plus (fun s => p1 t * (s - t)) (fun s => p2 t / 2 * Rsqr (s - t))).
    - apply (derivable_pt_lim_scal (fun s => s - t)). exact I.
    - apply (derivable_pt_lim_scal (fun s => Rsqr (s - t))). rewrite Rmult_comm.
      pose proof (derivable_pt_lim_comp (fun s => s - t) Rsqr c (1 - 0) (2 * (c - t)) I (derivable_pt_lim_Rsqr (c - t))) as Q. rewrite Rmult_comm. exact Q. }
  destruct (MVT_cor2 p1 p2 t c ltac:(lra)) as (c' & E' & Hc').
  { intros r Hr. apply Hd. lra. }
  unfold Rsqr in E.
  replace (p (t + dt) - p t - dt * p1 t - dt * dt / 2 * p2 t) with ((c - t) * (p2 c' - p2 t) * dt).
  2: { replace (p1 c) with (p1 t + p2 c' * (c - t)) in E by lra. ring_simplify in E. ring_simplify. lra. }
  rewrite !Rabs_mult, (Rabs_pos_eq dt), (Rabs_pos_eq (c - t)) by lra. specialize (Hl c' ltac:(lra)).
  pose proof (Rabs_pos (p2 c' - p2 t)) as P.
  assert (X : Rabs (p2 c' - p2 t) <= K * dt). { eapply Rle_trans; [exact Hl|]. apply Rmult_le_compat_l; lra. }
  replace (K * (dt * dt * dt)) with (dt * (K * dt) * dt) by ring. apply Rmult_le_compat_r; [lra|]. apply Rmult_le_compat; lra.
Qed.

(** ** The damping and the normalization, to second order *)
Lemma damping_second : forall g dt al b x, 0 < g -> 0 < dt -> 0 < al -> g * dt * b <= al / 5 -> Rabs x <= b ->
  Rabs (alpha_eff g dt al x - al - g * dt / 2 * x) <= dt * dt * (g * b * (g * b) / (4 * al)).
Proof.
  intros g dt al b x Hg Hdt Hal Hs Hx. assert (Hr : 0 < g * dt) by (apply Rmult_lt_0_compat; assumption).
  destruct (alpha_eff_cases g dt al x Hg Hdt Hal) as (_ & C2 & C3 & _). cbv zeta in C2, C3.
  assert (HM : b <= 2 * al * (1 / 10) / (g * dt)).
  { apply Rmult_le_reg_r with (g * dt); [exact Hr|]. replace (2 * al * (1 / 10) / (g * dt) * (g * dt)) with (al / 5) by (field; lra). lra. }
  apply Rabs_le_inv in Hx.
  assert (B0 : 0 <= dt * dt * (g * b * (g * b) / (4 * al))).
  { apply Rmult_le_pos; [nra|]. apply Rmult_le_pos; [nra|]. apply Rlt_le, Rinv_0_lt_compat. lra. }
  destruct (Rle_or_lt 0 x) as [P|N].
  - rewrite C2 by lra. replace (al + g * dt / 2 * x - al - g * dt / 2 * x) with 0 by ring. rewrite Rabs_R0. exact B0.
  - rewrite C3 by lra. set (y := - (g * dt / 2 * x)). assert (Y0 : 0 < y) by (unfold y; nra).
    assert (Y1 : y <= dt * (g * b) / 2) by (unfold y; nra).
    replace (al - g * dt / 2 * x) with (al + y) by (unfold y; ring). replace (al * al / (al + y) - al - g * dt / 2 * x) with (y * y * / (al + y)) by (unfold y at 4; unfold y; field; unfold y in Y0; lra).
    assert (I : 0 < / (al + y) <= / al). { split; [apply Rinv_0_lt_compat; lra|apply Rinv_le_contravar; lra]. }
    rewrite Rabs_pos_eq by nra.
    assert (Q : y * y <= dt * (g * b) / 2 * (dt * (g * b) / 2)) by (apply Rmult_le_compat; lra).
    replace (dt * dt * (g * b * (g * b) / (4 * al))) with (dt * (g * b) / 2 * (dt * (g * b) / 2) * / al) by (field; lra).
    apply Rmult_le_compat; nra.
Qed.

Lemma norm_second : forall x y, dot x x = 1 -> dot x y = 0 -> dot y y <= 1 ->
  vnorm (vsub (vnormalize (vadd x y)) (vsub (vadd x y) (vscale (dot y y / 2) x))) <= dot y y * vnorm y.
Proof.
  intros x y Hx Hy Hy1. set (z := vadd x y). set (e := dot y y) in *.
  assert (Ez : dot z z = 1 + e). { unfold z, e. rewrite dot_add_l, !dot_add_r, (dot_comm y x), Hx, Hy. ring. }
  assert (Pe : 0 <= e) by apply dot_self_nonneg. unfold vnormalize. destruct (Rlt_dec 0 (dot z z)) as [L|L]; [|exfalso; lra].
  set (s := sqrt (dot z z)). assert (Es : s * s = 1 + e) by (unfold s; rewrite <- Ez; apply sqrt_sqrt; lra).
  assert (Hs : 1 <= s). { unfold s. rewrite <- sqrt_1. apply sqrt_le_1_alt. lra. }
  assert (I : / s * s = 1) by (apply Rinv_l; lra).
  replace (vsub (vscale (/ s) z) (vsub z (vscale (e / 2) x))) with (vadd (vscale (/ s - 1 + e / 2) z) (vscale (- (e / 2)) y)).
  2: { replace x with (vsub z y) by (unfold z; vring). vring. }
  eapply Rle_trans; [apply norm_add|]. rewrite !norm_scale. change (vnorm z) with s. rewrite (Rabs_left1 (- (e / 2))) by lra.
  assert (S1 : s <= 1 + e / 2) by nra. assert (S2 : 1 + e / 2 - e * e / 8 <= s).
  { destruct (Rle_or_lt (1 + e / 2 - e * e / 8) s) as [A|A]; [exact A|]. exfalso.
    assert (s * s < (1 + e / 2 - e * e / 8) * (1 + e / 2 - e * e / 8)) by (apply Rmult_le_0_lt_compat; lra). nra. }
  assert (Q : Rabs (/ s - 1 + e / 2) * s = 1 - s + e / 2 * s).
  { rewrite <- (Rabs_pos_eq s) at 2 by lra. rewrite <- Rabs_mult. replace ((/ s - 1 + e / 2) * s) with (1 - s + e / 2 * s) by (ring_simplify; lra).
    apply Rabs_pos_eq. nra. }
  rewrite Q. assert (Nv : vnorm y * vnorm y = e) by apply vnorm_sq. pose proof (vnorm_pos y) as Py. set (n := vnorm y) in *.
  assert (Hn : n <= 1) by nra. assert (Een : e <= n) by nra.
  assert (R1 : 1 - s + e / 2 * s <= 3 / 8 * (e * e)) by nra. assert (R2 : e * e <= e * n) by (apply Rmult_le_compat_l; lra). lra.
Qed.

Lemma proj_norm : forall m z, dot m m = 1 -> vnorm (vsub z (vscale (dot m z) m)) <= vnorm z.
Proof.
  intros m z Hm. apply norm_sq_le; [apply vnorm_pos|]. rewrite vnorm_sq, !dot_sub_l, !dot_sub_r, !dot_scale_l, !dot_scale_r, Hm, (dot_comm z m).
  pose proof (Rle_0_sqr (dot m z)) as S. unfold Rsqr in S. lra.
Qed.

(** the operator of the equation does not shrink tangent vectors *)
Lemma force_norm : forall al m u, dot m m = 1 -> dot m u = 0 -> vnorm u <= vnorm (vadd (vscale al u) (cross m u)).
Proof.
  intros al m u Hm Hu. apply norm_sq_le; [apply vnorm_pos|]. rewrite vnorm_sq.
  assert (E : dot (vadd (vscale al u) (cross m u)) (vadd (vscale al u) (cross m u)) = al * al * dot u u + dot (cross m u) (cross m u)).
  { rewrite dot_add_l, !dot_add_r, !dot_scale_l, !dot_scale_r, (dot_comm (cross m u) u), cross_dot_r. ring. }
  rewrite E, lagrange, Hm, Hu. pose proof (dot_self_nonneg u). nra.
Qed.

Lemma split_force : forall a al c m w f g, let u := vsub w (vadd f (vscale c g)) in
  vadd (vscale al u) (cross m u) =
  vsub (vsub (vsub (vadd (vscale a w) (cross m w)) (vscale (a - al) w)) (vadd (vscale al f) (cross m f))) (vscale c (vadd (vscale al g) (cross m g))).
Proof. intros. unfold u. vring. Qed.
Lemma split_next : forall dt n m w f g A u ff ww, A = vsub g (vscale ff m) -> u = vsub w (vadd f (vscale (dt / 2) g)) ->
  vsub n (vadd m (vadd (vscale dt f) (vscale (dt * dt / 2) A))) =
  vadd (vadd (vsub n (vsub (vadd m (vscale dt w)) (vscale (dt * (dt * ww) / 2) m))) (vscale dt u)) (vscale (dt * dt / 2 * (ff - ww)) m).
Proof. intros dt n m w f g A u ff ww -> ->. unfold Rdiv. vring. Qed.
Lemma split_squares : forall f w, dot f f - dot w w = - dot (vsub w f) (vadd f w).
Proof. intros. vsimpl. ring. Qed.

(** ** The acceleration *)
(** the derivative of the velocity of the equation, of a moment m of velocity w in the field F which changes at the rate G *)
Definition accel (g al : R) (m w F G : vec) : vec :=
  vscale (/ (1 + al * al)) (vadd (vscale (- g) (vadd (cross w F) (cross m G)))
    (vscale (- (g * al)) (vadd (cross w (cross m F)) (cross m (vadd (cross w F) (cross m G)))))).

Lemma accel_along : forall g al m F G, let w := precession g al m F in dot m (accel g al m w F G) = - dot w w.
Proof.
  intros g al m F G w. assert (E : dot w w = dot w (precession g al m F)) by reflexivity. rewrite E. unfold precession, accel. generalize w. clear. intros w.
  generalize (/ (1 + al * al)). intros k. vsimpl. ring.
Qed.

Lemma accel_force : forall g al m w F G, dot m m = 1 -> dot m w = 0 ->
  let c := vsub (accel g al m w F G) (vscale (dot m (accel g al m w F G)) m) in
  vadd (vscale al c) (cross m c) = vscale g (vsub (vsub G (vscale (dot m G) m)) (vscale (dot m F) w)).
Proof.
  intros g al m w F G Hm Hw. cbv zeta. set (Y := vadd (cross w F) (cross m G)). set (X := cross m F). set (k := / (1 + al * al)).
  assert (Hk : k * (1 + al * al) = 1) by (apply Rinv_l, one_aa).
  assert (Ea : accel g al m w F G = vscale k (vadd (vscale (- g) Y) (vscale (- (g * al)) (vadd (cross w X) (cross m Y))))) by reflexivity.
  assert (E1 : cross w X = vscale (dot w F) m). { unfold X. rewrite cross_cross, (dot_comm w m), Hw. vring. }
  assert (E2 : cross m (cross m Y) = vsub (vscale (dot m Y) m) Y) by (apply unit_cross; exact Hm).
  assert (E3 : cross m Y = vadd (vscale (dot m F) w) (vsub (vscale (dot m G) m) G)).
  { unfold Y. replace (cross m (vadd (cross w F) (cross m G))) with (vadd (cross m (cross w F)) (cross m (cross m G))) by vring.
    rewrite (unit_cross m G Hm), cross_cross, Hw. vring. }
  assert (E4 : dot m (cross m Y) = 0) by apply cross_dot_l.
  set (acc := accel g al m w F G) in *.
  assert (Ec : cross m acc = vscale k (vadd (vscale (- g) (cross m Y)) (vscale (- (g * al)) (vsub (vscale (dot m Y) m) Y)))).
  { rewrite Ea, E1. replace (cross m (vscale k (vadd (vscale (- g) Y) (vscale (- (g * al)) (vadd (vscale (dot w F) m) (cross m Y))))))
      with (vscale k (vadd (vscale (- g) (cross m Y)) (vscale (- (g * al)) (cross m (cross m Y))))) by vring. rewrite E2. reflexivity. }
  assert (Ed : dot m acc = k * (- g * dot m Y - g * al * dot w F)).
  { rewrite Ea, E1, !dot_scale_r, !dot_add_r, !dot_scale_r, dot_add_r, dot_scale_r, Hm, E4. ring. }
  replace (cross m (vsub acc (vscale (dot m acc) m))) with (cross m acc) by vring.
  rewrite Ec, Ed, Ea, E1.
  transitivity (vscale (- g) (cross m Y)). 2: { rewrite E3. vring. }
  transitivity (vscale (- g * (k * (1 + al * al))) (cross m Y)). 2: { rewrite Hk. vring. }
  generalize (dot m Y) (dot w F) (cross m Y). intros. vring.
Qed.

Section second.
Variables (gamma0 alpha hk d T : R) (uk H0 : vec) (D : vec -> vec) (mu : R -> vec).
Hypothesis Hg : 0 < gamma0.
Hypothesis Hal : 0 < alpha.
Hypothesis HD : linear D d.
Notation field := (total_field H0 D hk uk).
Notation wex m := (precession gamma0 alpha m (field m)).
Notation kap := (kappa hk d uk).
Notation bg := (big hk d uk H0).
Notation vm := (vmax gamma0 hk d uk H0).
Notation lp := (lips gamma0 hk d uk H0).
Notation sv := (scheme_velocity false gamma0 (1 / 2) alpha hk uk H0 D).

(** the part of the field that follows the moment *)
Definition follows (x : vec) : vec := vadd (D x) (axis_field hk uk x).
Notation acc m := (accel gamma0 alpha m (wex m) (field m) (follows (wex m))).

Lemma follows_linear : linear follows kap.
Proof.
  constructor; unfold follows, axis_field.
  - intros x y. rewrite (lin_add _ _ HD), dot_add_r. generalize (D x) (D y). intros. vring.
  - intros k x. rewrite (lin_scale _ _ HD), dot_scale_r. generalize (D x). intros. vring.
  - intros x. apply (follow hk d uk D HD).
Qed.

Lemma field_follows : forall m, field m = vadd H0 (follows m).
Proof. intros m. unfold total_field, follows. generalize (D m) (axis_field hk uk m). intros. vring. Qed.

Lemma tame_field : tame field.
Proof.
  exists bg, kap. split; [apply (big_pos hk d uk H0 D HD)|]. split; [apply (kappa_pos hk d uk D HD)|]. split.
  - apply (field_big hk d uk H0 D HD).
  - intros. apply (field_lip hk d uk H0 D HD).
Qed.
Lemma tame_wex : tame (fun m => wex m).
Proof.
  pose proof tame_field. pose proof tame_id.
  unfold precession. apply tame_scale, tame_add; apply tame_scale; repeat apply tame_cross; assumption.
Qed.
Lemma tame_acc : tame (fun m => acc m).
Proof.
  pose proof tame_field as F. pose proof tame_id as I. pose proof tame_wex as W.
  assert (G : tame (fun m => follows (wex m))) by (apply (tame_lin follows kap); [apply (kappa_pos hk d uk D HD)|apply follows_linear|exact W]).
  unfold accel. apply tame_scale, tame_add; apply tame_scale; [|].
  - apply tame_add; apply tame_cross; assumption.
  - apply (tame_add (fun m => cross (wex m) (cross m (field m)))).
    + apply tame_cross; [exact W|]. apply tame_cross; assumption.
    + apply (tame_cross (fun m => m) (fun m => vadd (cross (wex m) (field m)) (cross m (follows (wex m))))); [exact I|].
      apply tame_add; apply tame_cross; assumption.
Qed.

(** ** One step of the scheme *)
Lemma scheme_second : exists C, 0 <= C /\ forall dt m v, 0 < dt <= 1 -> dt * gamma0 * kap <= 1 / 2 -> gamma0 * dt * bg <= alpha / 5 -> dt * vm <= 1 ->
  dot m m = 1 -> vnorm v <= vm ->
  vnorm (vsub (next_moment dt m (sv dt m v)) (vadd m (vadd (vscale dt (wex m)) (vscale (dt * dt / 2) (acc m))))) <= dt * dt * (C * (vnorm (vsub v (wex m)) + dt)).
Proof.
  pose proof (kappa_pos hk d uk D HD) as Kp. pose proof (big_pos hk d uk H0 D HD) as Bp.
  assert (Vp : 0 <= vm) by (unfold vmax; nra).
  set (cw := gamma0 * kap * vm + gamma0 * gamma0 * bg * bg). set (ca := gamma0 * bg * (gamma0 * bg) / (4 * alpha)).
  assert (cwp : 0 <= cw). { unfold cw. assert (0 <= gamma0 * kap * vm) by (repeat apply Rmult_le_pos; lra). assert (0 <= gamma0 * gamma0 * bg * bg) by (repeat apply Rmult_le_pos; lra). lra. }
  assert (cap : 0 <= ca). { unfold ca. apply Rmult_le_pos; [|apply Rlt_le, Rinv_0_lt_compat; lra]. repeat apply Rmult_le_pos; lra. }
  set (C2 := ca * vm + gamma0 / 2 * bg * cw). set (C1 := gamma0 / 2 * kap).
  assert (C1p : 0 <= C1) by (unfold C1; nra).
  assert (C2p : 0 <= C2). { unfold C2. assert (0 <= ca * vm) by nra. assert (0 <= gamma0 / 2 * bg * cw) by (repeat apply Rmult_le_pos; lra). lra. }
  exists (vm * vm * vm + C1 + C2 + cw * vm).
  assert (V3 : 0 <= vm * vm * vm) by (repeat apply Rmult_le_pos; lra). assert (CV : 0 <= cw * vm) by nra.
  split; [lra|].
  intros dt m v [Hdt Hd1] Hs1 Hs2 Hs3 Hm Hv.
  destruct (scheme_step false gamma0 (1 / 2) alpha hk d uk H0 D Hg ltac:(lra) Hal HD dt m v Hdt Hs1 Hm Hv) as (NW & DW & _). fold cw in DW.
  pose proof (wex_big gamma0 alpha hk d uk H0 D Hg HD m Hm) as Nf0.
  assert (Nf : vnorm (wex m) <= vm) by (unfold vmax; nra).
  assert (Tf : dot m (wex m) = 0) by apply precession_tangent.
  assert (Tw : dot m (sv dt m v) = 0) by apply precession_tangent.
  pose proof (accel_along gamma0 alpha m (field m) (follows (wex m))) as Aal. cbv zeta in Aal.
  pose proof (accel_force gamma0 alpha m (wex m) (field m) (follows (wex m)) Hm Tf) as Afo. cbv zeta in Afo.
  set (f := wex m) in *. set (A := accel gamma0 alpha m f (field m) (follows f)) in *.
  set (g := vsub A (vscale (dot m A) m)) in *.
  set (w := sv dt m v) in *.
  (* the damping *)
  set (a := scheme_damping gamma0 dt alpha hk uk (vadd H0 (D m)) m).
  set (x := dot m (field m)) in *.
  assert (Ax : Rabs x <= bg). { unfold x. eapply Rle_trans; [apply cauchy|]. pose proof (field_big hk d uk H0 D HD m Hm). apply vnorm_1 in Hm. rewrite Hm. lra. }
  assert (Da : Rabs (a - alpha - gamma0 * dt / 2 * x) <= dt * dt * ca) by (apply (damping_second gamma0 dt alpha bg x Hg Hdt Hal Hs2 Ax)).
  (* the field *)
  set (F := scheme_field (1 / 2) dt hk uk (vadd H0 (D m)) (D v) m v).
  assert (EF : F = vadd (field m) (vscale (dt / 2) (follows v))).
  { unfold F, scheme_field, total_field, follows, axis_field. generalize (D m) (D v). intros. rewrite dot_add_r, dot_scale_r. generalize (dot uk m) (dot uk v). intros. unfold Rdiv. vring. }
  assert (Fw : vadd (vscale a w) (cross m w) = vscale gamma0 (vsub F (vscale (dot m F) m))) by (apply precession_force; exact Hm).
  assert (Ff : vadd (vscale alpha f) (cross m f) = vscale gamma0 (vsub (field m) (vscale x m))) by (apply precession_force; exact Hm).
  (* the error on the velocity *)
  set (u := vsub w (vadd f (vscale (dt / 2) g))).
  assert (Tu : dot m u = 0). { unfold u, g. rewrite dot_sub_r, dot_add_r, dot_scale_r, dot_sub_r, dot_scale_r, Tw, Tf, Hm. ring. }
  assert (Eu : vadd (vscale alpha u) (cross m u) =
    vsub (vsub (vscale (gamma0 * dt / 2) (vsub (follows (vsub v f)) (vscale (dot m (follows (vsub v f))) m))) (vscale (a - alpha - gamma0 * dt / 2 * x) w))
      (vscale (gamma0 * dt / 2 * x) (vsub w f))).
  { transitivity (vsub (vsub (vsub (vadd (vscale a w) (cross m w)) (vscale (a - alpha) w)) (vadd (vscale alpha f) (cross m f))) (vscale (dt / 2) (vadd (vscale alpha g) (cross m g)))).
    { apply split_force. }
    rewrite Fw, Ff, Afo, EF, (lin_sub follows kap follows_linear), dot_add_r, dot_sub_r, dot_scale_r. fold x.
    generalize (follows v) (follows f). intros P Q. generalize (dot m P) (dot m Q). intros. unfold Rdiv. vring. }
  assert (Nu : vnorm u <= dt * (C1 * vnorm (vsub v f)) + dt * dt * C2).
  { eapply Rle_trans; [apply (force_norm alpha m u Hm Tu)|]. rewrite Eu.
    eapply Rle_trans; [apply (norm_tri _ vzero)|].
    assert (Z : forall z, vnorm (vsub vzero z) = vnorm z). { intros z. rewrite norm_sub_sym. f_equal. vring. }
    assert (Z' : forall z, vnorm (vsub z vzero) = vnorm z). { intros z. f_equal. vring. }
    rewrite Z, Z'.
    match goal with |- vnorm (vsub ?p ?q) + _ <= _ => pose proof (norm_tri p vzero q) as Tr end. rewrite Z, Z' in Tr. rewrite !norm_scale in *.
    rewrite (Rabs_pos_eq (gamma0 * dt / 2)) in Tr by nra. rewrite Rabs_mult, (Rabs_pos_eq (gamma0 * dt / 2)) by nra.
    pose proof (proj_norm m (follows (vsub v f)) Hm) as P1. pose proof (lin_bound _ _ follows_linear (vsub v f)) as P2.
    pose proof (vnorm_pos w) as Wp. pose proof (vnorm_pos (vsub w f)) as Wfp. pose proof (vnorm_pos (vsub v f)) as Vfp.
    assert (T1 : gamma0 * dt / 2 * vnorm (vsub (follows (vsub v f)) (vscale (dot m (follows (vsub v f))) m)) <= gamma0 * dt / 2 * (kap * vnorm (vsub v f))).
    { apply Rmult_le_compat_l; [nra|]. lra. }
    assert (T2 : Rabs (a - alpha - gamma0 * dt / 2 * x) * vnorm w <= dt * dt * ca * vm) by (apply Rmult_le_compat; auto using Rabs_pos).
    assert (T3 : gamma0 * dt / 2 * Rabs x * vnorm (vsub w f) <= gamma0 * dt / 2 * bg * (dt * cw)).
    { apply Rmult_le_compat; [|exact Wfp| |exact DW].
      - apply Rmult_le_pos; [nra|apply Rabs_pos].
      - apply Rmult_le_compat_l; [nra|exact Ax]. }
    replace (dt * (C1 * vnorm (vsub v f)) + dt * dt * C2) with (gamma0 * dt / 2 * (kap * vnorm (vsub v f)) + dt * dt * ca * vm + gamma0 * dt / 2 * bg * (dt * cw)) by (unfold C1, C2; field).
    lra. }
  (* the normalization *)
  assert (Nn : vnorm (vsub (next_moment dt m w) (vsub (vadd m (vscale dt w)) (vscale (dot (vscale dt w) (vscale dt w) / 2) m))) <= dt * dt * (dt * (vm * vm * vm))).
  { unfold next_moment. pose proof (vnorm_pos w) as Wp.
    assert (Ed : dot (vscale dt w) (vscale dt w) = dt * vnorm w * (dt * vnorm w)). { rewrite dot_scale_l, dot_scale_r, <- vnorm_sq. ring. }
    assert (Dw : dt * vnorm w <= dt * vm) by (apply Rmult_le_compat_l; lra).
    eapply Rle_trans; [apply norm_second; [exact Hm| |]|].
    - rewrite dot_scale_r, Tw. ring.
    - rewrite Ed. assert (0 <= dt * vnorm w) by nra. nra.
    - rewrite Ed, norm_scale, (Rabs_pos_eq dt) by lra. replace (dt * dt * (dt * (vm * vm * vm))) with (dt * vm * (dt * vm) * (dt * vm)) by ring.
      assert (0 <= dt * vnorm w) by nra. apply Rmult_le_compat; [nra|lra| |lra]. apply Rmult_le_compat; lra. }
  assert (Nq : Rabs (dt * dt / 2 * (dot f f - dot w w)) <= dt * dt * (dt * (cw * vm))).
  { rewrite split_squares.
    rewrite Rabs_mult, Rabs_Ropp, (Rabs_pos_eq (dt * dt / 2)) by nra.
    pose proof (cauchy (vsub w f) (vadd f w)) as Cy. pose proof (norm_add f w) as Na.
    assert (vnorm (vsub w f) * vnorm (vadd f w) <= dt * cw * (2 * vm)) by (apply Rmult_le_compat; auto using vnorm_pos; lra).
    replace (dt * dt * (dt * (cw * vm))) with (dt * dt / 2 * (dt * cw * (2 * vm))) by field. apply Rmult_le_compat_l; [nra|]. lra. }
  assert (Split : vsub (next_moment dt m w) (vadd m (vadd (vscale dt f) (vscale (dt * dt / 2) A))) =
    vadd (vadd (vsub (next_moment dt m w) (vsub (vadd m (vscale dt w)) (vscale (dot (vscale dt w) (vscale dt w) / 2) m))) (vscale dt u))
      (vscale (dt * dt / 2 * (dot f f - dot w w)) m)).
  { assert (EA : A = vsub g (vscale (dot f f) m)). { unfold g. rewrite Aal. clear. generalize A (dot f f). intros. vring. }
    rewrite (dot_scale_l dt w), (dot_scale_r dt w w). apply (split_next dt _ m w f g A u (dot f f) (dot w w) EA). reflexivity. }
  rewrite Split. eapply Rle_trans; [apply norm_add|]. rewrite norm_scale. apply vnorm_1 in Hm. rewrite Hm, Rmult_1_r.
  match goal with |- vnorm (vadd ?p ?q) + _ <= _ => pose proof (norm_add p q) as Na end. rewrite norm_scale, (Rabs_pos_eq dt) in Na by lra.
  assert (Du : dt * vnorm u <= dt * (dt * (C1 * vnorm (vsub v f)) + dt * dt * C2)) by (apply Rmult_le_compat_l; lra).
  pose proof (vnorm_pos (vsub v f)) as Vfp. set (n := vnorm (vsub v f)) in *.
  assert (Fin : dt * (dt * (C1 * n) + dt * dt * C2) + dt * dt * (dt * (vm * vm * vm)) + dt * dt * (dt * (cw * vm)) <= dt * dt * ((vm * vm * vm + C1 + C2 + cw * vm) * (n + dt))).
  { replace (dt * (dt * (C1 * n) + dt * dt * C2) + dt * dt * (dt * (vm * vm * vm)) + dt * dt * (dt * (cw * vm))) with (dt * dt * (C1 * n + (vm * vm * vm + C2 + cw * vm) * dt)) by ring.
    apply Rmult_le_compat_l; [nra|]. assert (0 <= C1 * dt) by nra. assert (0 <= (vm * vm * vm + C2 + cw * vm) * n) by (apply Rmult_le_pos; lra). lra. }
  lra.
Qed.
(** ** The motion, to second order *)
Hypothesis Hmu : motion gamma0 alpha field T mu.
Hypothesis Hmu0 : dot (mu 0) (mu 0) = 1.

Lemma motion_vderiv : forall t, 0 <= t <= T -> vderiv mu t (wex (mu t)).
Proof. intros t Ht. apply (motion_deriv gamma0 alpha hk T uk H0 D mu Hmu Hmu0 t Ht). Qed.

Lemma velocity_vderiv : forall t, 0 <= t <= T -> vderiv (fun s => wex (mu s)) t (acc (mu t)).
Proof.
  intros t Ht. pose proof (motion_vderiv t Ht) as M.
  assert (F : vderiv (fun s => field (mu s)) t (follows (wex (mu t)))).
  { refine (vderiv_ext (fun s => vadd H0 (follows (mu s))) _ t (vadd vzero (follows (wex (mu t)))) _ (fun s => eq_sym (field_follows (mu s))) _ _).
    - generalize (follows (wex (mu t))). intros. vring.
    - apply (vderiv_add (fun _ => H0) (fun s => follows (mu s))); [apply vderiv_const|]. apply (vderiv_lin follows kap mu); [apply follows_linear|exact M]. }
  unfold accel. set (w := wex (mu t)) in *. set (G := follows w) in *. unfold precession.
  pose proof (vderiv_cross mu (fun s => field (mu s)) t w G M F) as C.
  pose proof (vderiv_cross mu (fun s => cross (mu s) (field (mu s))) t w _ M C) as C'.
  apply (vderiv_scale _ (fun s => vadd (vscale (- gamma0) (cross (mu s) (field (mu s)))) (vscale (- (gamma0 * alpha)) (cross (mu s) (cross (mu s) (field (mu s))))))).
  apply (vderiv_add (fun s => vscale (- gamma0) (cross (mu s) (field (mu s)))) (fun s => vscale (- (gamma0 * alpha)) (cross (mu s) (cross (mu s) (field (mu s)))))).
  - apply (vderiv_scale _ (fun s => cross (mu s) (field (mu s)))). exact C.
  - apply (vderiv_scale _ (fun s => cross (mu s) (cross (mu s) (field (mu s))))). exact C'.
Qed.

Lemma motion_second : exists C, 0 <= C /\ forall t dt, 0 <= t -> 0 < dt -> t + dt <= T ->
  vnorm (vsub (mu (t + dt)) (vadd (mu t) (vadd (vscale dt (wex (mu t))) (vscale (dt * dt / 2) (acc (mu t)))))) <= C * (dt * dt * dt).
Proof.
  destruct tame_acc as (B & L & B0 & L0 & _ & A2). pose proof (big_pos hk d uk H0 D HD) as Bp.
  set (K := L * (3 * (gamma0 * bg))). assert (K0 : 0 <= K). { unfold K. apply Rmult_le_pos; [exact L0|]. nra. }
  exists (3 * K). split; [lra|]. intros t dt Ht Hdt HT.
  assert (S : forall (c : vec -> R), (forall x, Rabs (c x) <= vnorm x) -> (forall x y, c (vsub x y) = c x - c y) ->
    (forall f r w, vderiv f r w -> derivable_pt_lim (fun s => c (f s)) r (c w)) ->
    Rabs (c (mu (t + dt)) - c (mu t) - dt * c (wex (mu t)) - dt * dt / 2 * c (acc (mu t))) <= K * (dt * dt * dt)).
  { intros c c1 c2 c3. apply (taylor2 (fun s => c (mu s)) (fun s => c (wex (mu s))) (fun s => c (acc (mu s))) t dt K Hdt K0).
    - intros r Hr. split; [apply (c3 mu), motion_vderiv; lra|]. apply (c3 (fun s => wex (mu s))), velocity_vderiv. lra.
    - intros r Hr. rewrite <- c2. eapply Rle_trans; [apply c1|]. eapply Rle_trans; [apply A2|].
      + apply (motion_unit gamma0 alpha hk T uk H0 D mu Hmu Hmu0). lra.
      + apply (motion_unit gamma0 alpha hk T uk H0 D mu Hmu Hmu0). lra.
      + unfold K. rewrite (Rmult_assoc L). apply Rmult_le_compat_l; [exact L0|].
        apply (motion_near gamma0 alpha hk d T uk H0 D mu Hg HD Hmu Hmu0); lra. }
  eapply Rle_trans; [apply norm_sum|]. cbn [vsub vadd vscale vx vy vz].
  pose proof (S vx (fun x => proj1 (norm_comp x)) ltac:(reflexivity) (fun f r w H => proj1 H)) as X1.
  pose proof (S vy (fun x => proj1 (proj2 (norm_comp x))) ltac:(reflexivity) (fun f r w H => proj1 (proj2 H))) as X2.
  pose proof (S vz (fun x => proj2 (proj2 (norm_comp x))) ltac:(reflexivity) (fun f r w H => proj2 (proj2 H))) as X3.
  set (a := acc (mu t)) in *. set (f := wex (mu t)) in *.
  replace (vx (mu (t + dt)) - (vx (mu t) + (dt * vx f + dt * dt / 2 * vx a))) with (vx (mu (t + dt)) - vx (mu t) - dt * vx f - dt * dt / 2 * vx a) by ring.
  replace (vy (mu (t + dt)) - (vy (mu t) + (dt * vy f + dt * dt / 2 * vy a))) with (vy (mu (t + dt)) - vy (mu t) - dt * vy f - dt * dt / 2 * vy a) by ring.
  replace (vz (mu (t + dt)) - (vz (mu t) + (dt * vz f + dt * dt / 2 * vz a))) with (vz (mu (t + dt)) - vz (mu t) - dt * vz f - dt * dt / 2 * vz a) by ring.
  lra.
Qed.

(** steps short enough for the damping of the scheme not to be capped *)
Definition short (h : R) : Prop := h <= 1 /\ h * gamma0 * kap <= 1 / 2 /\ gamma0 * h * bg <= alpha / 5 /\ h * vm <= 1.

Lemma short_le : forall dt h, 0 < dt <= h -> short h -> short dt.
Proof.
  intros dt h [Hdt Hh] (S1 & S2 & S3 & S4). pose proof (kappa_pos hk d uk D HD) as Kp. pose proof (big_pos hk d uk H0 D HD) as Bp.
  assert (Vp : 0 <= vm) by (unfold vmax; nra).
  repeat split; [lra| | |].
  - eapply Rle_trans; [|exact S2]. rewrite !Rmult_assoc. apply Rmult_le_compat_r; [nra|exact Hh].
  - eapply Rle_trans; [|exact S3]. apply Rmult_le_compat_r; [exact Bp|]. apply Rmult_le_compat_l; lra.
  - eapply Rle_trans; [|exact S4]. apply Rmult_le_compat_r; assumption.
Qed.

(** one step: the error, and how far the velocity kept for the next step is from the one of the equation *)
Lemma step_second : exists L C E, 0 <= L /\ 0 <= C /\ 0 <= E /\ forall t dt m v e, 0 <= t -> 0 < dt -> t + dt <= T -> short dt -> dot m m = 1 -> vnorm v <= vm ->
  vnorm (vsub m (mu t)) <= e ->
  let w := sv dt m v in let m' := next_moment dt m w in
  dot m' m' = 1 /\ vnorm w <= vm /\ vnorm (vsub w (wex m')) <= E * dt /\
  vnorm (vsub m' (mu (t + dt))) <= (1 + L * dt) * e + dt * dt * (C * (vnorm (vsub v (wex m)) + dt)).
Proof.
  destruct scheme_second as (C1 & C1p & S). destruct motion_second as (C2 & C2p & M). destruct tame_acc as (B & La & B0 & La0 & _ & A2).
  pose proof (lips_pos gamma0 hk d uk H0 D Hg HD) as Lp. pose proof (kappa_pos hk d uk D HD) as Kp. pose proof (big_pos hk d uk H0 D HD) as Bp.
  assert (Vp : 0 <= vm) by (unfold vmax; nra).
  set (cw := gamma0 * kap * vm + gamma0 * gamma0 * bg * bg).
  assert (cwp : 0 <= cw). { unfold cw. assert (0 <= gamma0 * kap * vm) by (repeat apply Rmult_le_pos; lra). assert (0 <= gamma0 * gamma0 * bg * bg) by (repeat apply Rmult_le_pos; lra). lra. }
  exists (lp + La), (C1 + C2), (cw + lp * (2 * vm)). split; [lra|]. split; [lra|]. split; [nra|].
  intros t dt m v e Ht Hdt HT (s1 & s2 & s3 & s4) Hm Hv He w m'.
  destruct (scheme_step false gamma0 (1 / 2) alpha hk d uk H0 D Hg ltac:(lra) Hal HD dt m v Hdt s2 Hm Hv) as (NW & DW & _). fold w cw in NW, DW.
  assert (Tw : dot m w = 0) by apply precession_tangent.
  assert (Hm' : dot m' m' = 1). { apply next_unit; [exact Hm|]. rewrite dot_comm. exact Tw. }
  split; [exact Hm'|]. split; [exact NW|].
  pose proof (motion_unit gamma0 alpha hk T uk H0 D mu Hmu Hmu0 t ltac:(lra)) as Hu.
  split.
  - assert (Mv : vnorm (vsub m m') <= 2 * vm * dt).
    { rewrite norm_sub_sym. eapply Rle_trans; [apply (norm_tri _ (vadd m (vscale dt w)))|].
      pose proof (norm_small m (vscale dt w) Hm ltac:(rewrite dot_scale_r, Tw; ring)) as N1. fold (next_moment dt m w) in N1. fold m' in N1.
      rewrite dot_scale_l, dot_scale_r, <- vnorm_sq in N1.
      replace (vsub (vadd m (vscale dt w)) m) with (vscale dt w) by (clear; vring). rewrite norm_scale, Rabs_pos_eq by lra.
      pose proof (vnorm_pos w) as Wp. assert (Q1 : dt * vnorm w <= dt * vm) by (apply Rmult_le_compat_l; lra).
      assert (Q2 : dt * vnorm w * (dt * vnorm w) <= dt * vm * 1) by (apply Rmult_le_compat; [nra|nra|exact Q1|lra]).
      assert (0 <= dt * vm) by nra. lra. }
    eapply Rle_trans; [apply (norm_tri _ (wex m))|].
    pose proof (wex_lip gamma0 alpha hk d uk H0 D Hg HD m m' Hm Hm') as WL.
    assert (lp * vnorm (vsub m m') <= lp * (2 * vm * dt)) by (apply Rmult_le_compat_l; lra). lra.
  - specialize (S dt m v ltac:(lra) s2 s3 s4 Hm Hv). specialize (M t dt Ht Hdt HT). fold w in S. fold m' in S.
    pose proof (wex_lip gamma0 alpha hk d uk H0 D Hg HD m (mu t) Hm Hu) as L1. pose proof (A2 m (mu t) Hm Hu) as L2.
    set (q := vadd m (vadd (vscale dt (wex m)) (vscale (dt * dt / 2) (acc m)))) in *.
    set (q' := vadd (mu t) (vadd (vscale dt (wex (mu t))) (vscale (dt * dt / 2) (acc (mu t))))) in *.
    eapply Rle_trans; [apply (norm_tri _ q)|]. pose proof (norm_tri q q' (mu (t + dt))) as Tr. rewrite (norm_sub_sym q' (mu (t + dt))) in Tr.
    assert (Nq : vnorm (vsub q q') <= (1 + (lp + La) * dt) * e).
    { replace (vsub q q') with (vadd (vsub m (mu t)) (vadd (vscale dt (vsub (wex m) (wex (mu t)))) (vscale (dt * dt / 2) (vsub (acc m) (acc (mu t)))))).
      2: { unfold q, q'. clear. generalize (acc m) (acc (mu t)) (wex m) (wex (mu t)) (mu t). intros. unfold Rdiv. vring. }
      eapply Rle_trans; [apply norm_add|]. 
      match goal with |- _ + vnorm (vadd ?x ?y) <= _ => pose proof (norm_add x y) as Na end.
      rewrite !norm_scale, (Rabs_pos_eq dt), (Rabs_pos_eq (dt * dt / 2)) in Na by nra.
      pose proof (vnorm_pos (vsub m (mu t))) as Pm.
      assert (E1 : lp * vnorm (vsub m (mu t)) <= lp * e) by (apply Rmult_le_compat_l; lra).
      assert (E2 : La * vnorm (vsub m (mu t)) <= La * e) by (apply Rmult_le_compat_l; lra).
      assert (E3 : dt * vnorm (vsub (wex m) (wex (mu t))) <= dt * (lp * e)) by (apply Rmult_le_compat_l; lra).
      assert (E4 : dt * dt / 2 * vnorm (vsub (acc m) (acc (mu t))) <= dt * (La * e)).
      { apply Rmult_le_compat; [nra|apply vnorm_pos|nra|lra]. }
      lra. }
    assert (Fin : dt * dt * (C1 * (vnorm (vsub v (wex m)) + dt)) + C2 * (dt * dt * dt) <= dt * dt * ((C1 + C2) * (vnorm (vsub v (wex m)) + dt))).
    { pose proof (vnorm_pos (vsub v (wex m))) as Pv. assert (Z : 0 <= dt * dt * (C2 * vnorm (vsub v (wex m)))) by (apply Rmult_le_pos; nra). lra. }
    lra.
Qed.

(** ** A run *)
Section run.
Variables (h L C E : R).
Hypothesis HL : 0 <= L.
Hypothesis HC : 0 <= C.
Hypothesis HE : 0 <= E.
Hypothesis Hsh : short h.
Hypothesis Hstep : forall t dt m v e, 0 <= t -> 0 < dt -> t + dt <= T -> short dt -> dot m m = 1 -> vnorm v <= vm ->
  vnorm (vsub m (mu t)) <= e ->
  let w := sv dt m v in let m' := next_moment dt m w in
  dot m' m' = 1 /\ vnorm w <= vm /\ vnorm (vsub w (wex m')) <= E * dt /\
  vnorm (vsub m' (mu (t + dt))) <= (1 + L * dt) * e + dt * dt * (C * (vnorm (vsub v (wex m)) + dt)).

Definition bound2 (t : R) : R := C * (2 * vm + E + 1) * (h * h) * (1 + t) * exp (L * t).

(** before the first accepted step, and after *)
Definition close (t : R) (s : vec * vec) : Prop :=
  (t = 0 /\ fst s = mu 0) \/ (vnorm (vsub (snd s) (wex (fst s))) <= E * h /\ vnorm (vsub (fst s) (mu t)) <= bound2 t).

Lemma run_second : forall fs s t, 0 <= t -> t + elapsed fs <= T -> in_field false gamma0 (1 / 2) alpha hk h uk H0 D fs s ->
  dot (fst s) (fst s) = 1 -> vnorm (snd s) <= vm -> close t s ->
  close (t + elapsed fs) (moment_run gamma0 (1 / 2) alpha hk uk fs s).
Proof.
  pose proof (big_pos hk d uk H0 D HD) as Bp. assert (Vp : 0 <= vm) by (unfold vmax; nra).
  induction fs as [|f fs IH]; intros s t Ht HT Hf Hm Hv Hc.
  { unfold elapsed. cbn [map lsum]. rewrite Rplus_0_r. exact Hc. }
  destruct Hf as (F1 & F2 & [F3 F4] & Hf). pose proof (elapsed_pos false gamma0 (1 / 2) alpha hk h uk H0 D fs _ Hf) as Ep.
  unfold moment_run. cbn [fold_left]. fold (moment_run gamma0 (1 / 2) alpha hk uk fs (moment_pass gamma0 (1 / 2) alpha hk uk s f)).
  assert (Skip : moment_pass gamma0 (1 / 2) alpha hk uk s f = s -> elapsed (f :: fs) = elapsed fs ->
    close (t + elapsed (f :: fs)) (moment_run gamma0 (1 / 2) alpha hk uk fs (moment_pass gamma0 (1 / 2) alpha hk uk s f))).
  { intros E1 E2. rewrite E1 in *. rewrite E2 in *. apply IH; assumption. }
  destruct s as [m v]. cbn [fst snd] in *.
  destruct (t_solution (f_trial f)) as [X|] eqn:EX.
  2: { apply Skip; [unfold moment_pass; rewrite EX; reflexivity|]. unfold elapsed. cbn [map lsum]. rewrite EX. ring. }
  destruct (t_accepted (f_trial f)) eqn:EA.
  2: { apply Skip; [unfold moment_pass; rewrite EX, EA; reflexivity|]. unfold elapsed. cbn [map lsum]. rewrite EX, EA. ring. }
  clear Skip. set (dt := t_dt (f_trial f)) in *.
  assert (EM : moment_pass gamma0 (1 / 2) alpha hk uk (m, v) f = (next_moment dt m (sv dt m v), sv dt m v)).
  { unfold moment_pass. rewrite EX, EA, F1, F2. reflexivity. }
  rewrite EM in *.
  assert (EE : elapsed (f :: fs) = dt + elapsed fs). { unfold elapsed. cbn [map lsum]. rewrite EX, EA. reflexivity. }
  rewrite EE in *. replace (t + (dt + elapsed fs)) with ((t + dt) + elapsed fs) in * by ring.
  pose proof (short_le dt h (conj F3 F4) Hsh) as Hs. destruct Hsh as (h1 & _).
  pose proof (vnorm_pos (vsub v (wex m))) as Pv.
  destruct (Hstep t dt m v (vnorm (vsub m (mu t))) Ht F3 ltac:(lra) Hs Hm Hv ltac:(lra)) as (G1 & G2 & G3 & G4).
  apply IH; try assumption; try lra; cbn [fst snd]. right. cbn [fst snd]. split.
  { eapply Rle_trans; [exact G3|]. apply Rmult_le_compat_l; assumption. }
  eapply Rle_trans; [exact G4|]. unfold bound2.
  assert (X0 : 1 <= exp (L * t)). { apply Rle_trans with (1 + L * t); [nra|]. apply exp_ineq1_le. }
  assert (X1 : 1 + L * dt <= exp (L * dt)) by apply exp_ineq1_le.
  replace (L * (t + dt)) with (L * t + L * dt) by ring. rewrite exp_plus. set (p := exp (L * t)) in *. set (q := exp (L * dt)) in *.
  assert (X2 : 1 <= q) by nra. assert (X3 : 1 <= p * q) by nra.
  assert (Dd : 0 <= dt * dt <= h * h) by (split; nra).
  destruct Hc as [[-> Em]|[Hc1 Hc2]]; cbn [fst snd] in *.
  - subst m. replace (vsub (mu 0) (mu 0)) with (vscale 0 (mu 0)) by (clear; vring). rewrite norm_scale, Rabs_R0, Rmult_0_l, Rmult_0_r, !Rplus_0_l.
    assert (Nv : vnorm (vsub v (wex (mu 0))) <= 2 * vm).
    { pose proof (norm_tri v vzero (wex (mu 0))) as Tr. replace (vnorm (vsub vzero (wex (mu 0)))) with (vnorm (wex (mu 0))) in Tr.
      2: { rewrite norm_sub_sym. f_equal. clear. vring. }
      replace (vsub v vzero) with v in Tr by (clear; vring). pose proof (wex_big gamma0 alpha hk d uk H0 D Hg HD (mu 0) Hm) as W. unfold vmax in *. lra. }
    apply Rle_trans with (h * h * (C * (2 * vm + E + 1))).
    + apply Rmult_le_compat; [lra|apply Rmult_le_pos; lra|lra|]. apply Rmult_le_compat_l; lra.
    + assert (Z : 0 <= C * (2 * vm + E + 1) * (h * h)) by (apply Rmult_le_pos; [apply Rmult_le_pos; lra|lra]).
      assert (Y : 1 <= (1 + dt) * (p * q)) by nra.
      replace (C * (2 * vm + E + 1) * (h * h) * (1 + dt) * (p * q)) with (C * (2 * vm + E + 1) * (h * h) * ((1 + dt) * (p * q))) by ring.
      replace (h * h * (C * (2 * vm + E + 1))) with (C * (2 * vm + E + 1) * (h * h) * 1) by ring. apply Rmult_le_compat_l; assumption.
  - set (K := C * (2 * vm + E + 1) * (h * h)) in *. assert (K0 : 0 <= K) by (unfold K; apply Rmult_le_pos; [apply Rmult_le_pos; lra|lra]).
    unfold bound2 in Hc2. fold p K in Hc2.
    assert (Y1 : (1 + L * dt) * vnorm (vsub m (mu t)) <= q * (K * (1 + t) * p)).
    { apply Rmult_le_compat; [nra|apply vnorm_pos|exact X1|exact Hc2]. }
    assert (Y2 : dt * dt * (C * (vnorm (vsub v (wex m)) + dt)) <= K * dt * (p * q)).
    { apply Rle_trans with (K * dt * 1).
      - unfold K. replace (C * (2 * vm + E + 1) * (h * h) * dt * 1) with (dt * h * (C * ((2 * vm + E + 1) * h))) by ring.
        apply Rmult_le_compat; [lra|apply Rmult_le_pos; lra|apply Rmult_le_compat_l; lra|]. apply Rmult_le_compat_l; [exact HC|].
        assert (0 <= 2 * vm * h) by nra. lra.
      - apply Rmult_le_compat_l; [nra|exact X3]. }
    replace (K * (1 + (t + dt)) * (p * q)) with (q * (K * (1 + t) * p) + K * dt * (p * q)) by ring. lra.
Qed.
End run.
End second.

(** ** C109 *)
(** With the value of THETA of config.h.in (1/2), the computed motion is accurate to second order: there are C and h0 such that, for every mesh and
    every run whose steps do not exceed h <= h0, the magnetization computed at every magnetic node is within C h^2 of the one of the motion
    at the time the run has reached. The steps need not be equal, and trials may fail or be refused. *)
Theorem C109_second_order : forall gamma0 alpha hk uk d H0 D T mu,
  0 < gamma0 -> 0 < alpha -> linear D d -> 0 <= T ->
  motion gamma0 alpha (total_field H0 D hk uk) T mu -> dot (mu 0) (mu 0) = 1 ->
  exists C h0, 0 < h0 /\
  forall mu0 pref paranoid body l fs h,
    0 <= pref -> same_anisotropy mu0 alpha hk uk body -> sample mu0 l body -> uniform_state l (mu 0, vzero) ->
    run_of mu0 gamma0 (1 / 2) pref paranoid body l fs ->
    in_field false gamma0 (1 / 2) alpha hk h uk H0 D fs (mu 0, vzero) -> 0 <= h <= h0 -> elapsed fs <= T ->
    let l' := run_trials paranoid (map f_trial fs) l in
    forall i, (i < length l')%nat -> fst (nth i l' (false, no_node)) = true ->
    vnorm (vsub (u_of l' i) (mu (elapsed fs))) <= C * (h * h).
Proof.
  intros gamma0 alpha hk uk d H0 D T mu Hg Hal HD HT Hmu H1.
  set (K := kappa hk d uk). set (B := big hk d uk H0). set (W := vmax gamma0 hk d uk H0).
  pose proof (kappa_pos hk d uk D HD) as Kp. fold K in Kp. pose proof (big_pos hk d uk H0 D HD) as Bp. fold B in Bp.
  assert (Wp : 0 <= W) by (unfold W, vmax; fold B; nra).
  destruct (step_second gamma0 alpha hk d T uk H0 D mu Hg Hal HD Hmu H1) as (L & C & E & HL & HC & HE & Hstep).
  set (P := 1 + 2 * gamma0 * K + 5 * (gamma0 * B / alpha) + W).
  assert (Q : 0 <= gamma0 * B / alpha). { apply Rmult_le_pos; [nra|]. apply Rlt_le, Rinv_0_lt_compat, Hal. }
  assert (P0 : 0 < P) by (unfold P; nra). pose proof (Rinv_0_lt_compat _ P0) as Pi. assert (PP : / P * P = 1) by (apply Rinv_l; lra).
  exists (C * (2 * W + E + 1) * (1 + T) * exp (L * T)), (/ P). split; [exact Pi|].
  intros mu0 pref paranoid body l fs h Hp Hm Hs Hu Hr Hf [Hh0 Hh] He l' i Hi Em.
  pose proof (C107_run mu0 gamma0 (1 / 2) pref alpha hk uk paranoid body fs l (mu 0) vzero Hg ltac:(lra) Hp Hm Hs Hu H1 Hr i Hi Em) as U.
  fold l' in U.
  assert (Eu : u_of l' i = fst (moment_run gamma0 (1 / 2) alpha hk uk fs (mu 0, vzero))) by (rewrite <- U; reflexivity).
  rewrite Eu.
  assert (Hsh : short gamma0 alpha hk d uk H0 h).
  { assert (X : forall x, 0 <= x <= P -> h * x <= 1). { intros x [x0 x1]. apply Rle_trans with (/ P * P); [|lra]. apply Rmult_le_compat; assumption. }
    assert (X1 : 1 <= P) by (unfold P; nra). assert (X2 : 0 <= 2 * gamma0 * K <= P) by (unfold P; nra).
    assert (X3 : 0 <= 5 * (gamma0 * B / alpha) <= P) by (unfold P; nra). assert (X4 : 0 <= W <= P) by (unfold P; nra).
    pose proof (X 1 ltac:(lra)). pose proof (X _ X2). pose proof (X _ X3) as Y3. pose proof (X _ X4).
    unfold short. fold K B W. repeat split; [lra|lra| |assumption].
    replace (gamma0 * h * B) with (h * (5 * (gamma0 * B / alpha)) * (alpha / 5)) by (field; lra).
    rewrite <- (Rmult_1_l (alpha / 5)) at 2. apply Rmult_le_compat_r; lra. }
  pose proof (elapsed_pos false gamma0 (1 / 2) alpha hk h uk H0 D fs _ Hf) as Ep.
  pose proof (run_second gamma0 alpha hk d T uk H0 D mu Hg HD h L C E HL HC HE Hsh Hstep fs (mu 0, vzero) 0 ltac:(lra) ltac:(lra) Hf H1) as R.
  rewrite Rplus_0_l in R. cbn [fst snd] in R.
  assert (Z : 0 <= C * (2 * W + E + 1)) by (apply Rmult_le_pos; lra).
  destruct R as [[Et Ef]|[_ R]].
  - replace vzero with (vscale 0 vzero) by vring. rewrite norm_scale, Rabs_R0, Rmult_0_l. exact Wp.
  - left. split; reflexivity.
  - rewrite Et, Ef. replace (vsub (mu 0) (mu 0)) with (vscale 0 (mu 0)) by vring. rewrite norm_scale, Rabs_R0, Rmult_0_l.
    pose proof (exp_pos (L * T)). apply Rmult_le_pos; [|nra]. repeat apply Rmult_le_pos; lra.
  - eapply Rle_trans; [exact R|]. unfold bound2. fold W.
    assert (X : exp (L * elapsed fs) <= exp (L * T)).
    { destruct (Rle_lt_or_eq_dec (L * elapsed fs) (L * T)) as [Lt|Eq]; [nra| |rewrite Eq; lra]. apply Rlt_le, exp_increasing, Lt. }
    pose proof (exp_pos (L * elapsed fs)) as Xp.
    replace (C * (2 * W + E + 1) * (1 + T) * exp (L * T) * (h * h)) with (C * (2 * W + E + 1) * (h * h) * ((1 + T) * exp (L * T))) by ring.
    replace (C * (2 * W + E + 1) * (h * h) * (1 + elapsed fs) * exp (L * elapsed fs)) with (C * (2 * W + E + 1) * (h * h) * ((1 + elapsed fs) * exp (L * elapsed fs))) by ring.
    apply Rmult_le_compat_l; [nra|]. apply Rmult_le_compat; lra.
Qed.

(** ** The hypotheses are met: a moment which relaxes towards its easy axis, turning around it, without applied field; runs of any length and any step *)
Definition relax (t : R) : vec := spiral (5 / 2 * arcsinh (exp (2 / 5 * t))).

Lemma relax_z : forall x, sinh (2 / 5 * (5 / 2 * arcsinh x)) / cosh (2 / 5 * (5 / 2 * arcsinh x)) = x / sqrt (x ^ 2 + 1).
Proof.
  intros x. replace (2 / 5 * (5 / 2 * arcsinh x)) with (arcsinh x) by field. rewrite sinh_arcsinh. f_equal.
  pose proof (cosh_sinh (arcsinh x)) as E. rewrite sinh_arcsinh in E. pose proof (cosh_pos (arcsinh x)) as P.
  symmetry. apply sqrt_lem_1; [nra|lra|]. simpl. lra.
Qed.

Lemma relax_motion : forall T, motion 1 (1 / 2) (total_field vzero (fun _ => vzero) 1 (V 0 0 1)) T relax.
Proof.
  intros T t _. set (x := exp (2 / 5 * t)). set (tau := 5 / 2 * arcsinh x).
  destruct (spiral_motion (tau + Rabs tau) tau) as (w & Gw & D1 & D2 & D3).
  { assert (A : 0 <= arcsinh x). { rewrite <- arcsinh_0. destruct (Rle_or_lt 0 x) as [P|N]; [apply arcsinh_le; exact P|]. pose proof (exp_pos (2 / 5 * t)). unfold x in N. lra. }
    pose proof (Rabs_pos tau). unfold tau in *. lra. }
  set (c := vz (spiral tau)).
  assert (Ec : c = x / sqrt (x ^ 2 + 1)) by (unfold c, tau; cbn [spiral vz]; apply relax_z).
  assert (Sp : 0 < sqrt (x ^ 2 + 1)) by (apply sqrt_lt_R0; simpl; nra).
  assert (Dt : derivable_pt_lim (fun s => 5 / 2 * arcsinh (exp (2 / 5 * s))) t c).
  { assert (E1 : derivable_pt_lim (fun s => exp (2 / 5 * s)) t (2 / 5 * x)) by (apply (lim_comp exp), derivable_pt_lim_exp).
    pose proof (derivable_pt_lim_comp _ arcsinh t _ _ E1 (derivable_pt_lim_arcsinh x)) as E2.
    pose proof (derivable_pt_lim_scal _ (5 / 2) t _ E2) as E3. unfold comp, mult_real_fct in E3. rewrite Ec.
    replace (x / sqrt (x ^ 2 + 1)) with (5 / 2 * (/ sqrt (x ^ 2 + 1) * (2 / 5 * x))) by (field; lra). exact E3. }
  exists (vscale c w). split; [|cbn [vscale vx vy vz]; split; [|split]].
  - change (relax t) with (spiral tau).
    replace (total_field vzero (fun _ => vzero) 1 (V 0 0 1) (spiral tau)) with (vscale c (total_field (V 0 0 1) (fun _ => vzero) 0 (V 0 0 1) (spiral tau))).
    + unfold gilbert in *. generalize dependent (total_field (V 0 0 1) (fun _ => vzero) 0 (V 0 0 1) (spiral tau)). intros F Gw. rewrite Gw at 1. clear. 
      generalize (spiral tau) c. intros m k. vring.
    + assert (Ez : dot (V 0 0 1) (spiral tau) = c) by (unfold dot; cbn [vx vy vz]; fold c; ring).
      unfold total_field, axis_field. rewrite Ez. clear. generalize c. intros k. vring.
  - rewrite Rmult_comm. apply (derivable_pt_lim_comp (fun s => 5 / 2 * arcsinh (exp (2 / 5 * s))) (fun s => vx (spiral s))); assumption.
  - rewrite Rmult_comm. apply (derivable_pt_lim_comp (fun s => 5 / 2 * arcsinh (exp (2 / 5 * s))) (fun s => vy (spiral s))); assumption.
  - rewrite Rmult_comm. apply (derivable_pt_lim_comp (fun s => 5 / 2 * arcsinh (exp (2 / 5 * s))) (fun s => vz (spiral s))); assumption.
Qed.

Lemma spiral_unit : forall t, dot (spiral t) (spiral t) = 1.
Proof.
  intros t. unfold spiral, dot. cbn [vx vy vz]. pose proof (cosh_pos (2 / 5 * t)) as P. pose proof (cosh_sinh (2 / 5 * t)) as E. pose proof (sin2_cos2 (4 / 5 * t)) as F. unfold Rsqr in F.
  set (c := cosh (2 / 5 * t)) in *. set (s := sinh (2 / 5 * t)) in *. set (x := cos (4 / 5 * t)) in *. set (y := sin (4 / 5 * t)) in *.
  replace (x / c * (x / c) + y / c * (y / c) + s / c * (s / c)) with ((x * x + y * y + s * s) / (c * c)) by (field; lra).
  replace (x * x + y * y + s * s) with (c * c) by lra. field. lra.
Qed.

Definition mesh_at (m : vec) : mesh_nodes := map (fun i => (true, mkNode (two_pos i) vzero vzero (mkData m vzero 0 0) no_data)) (seq 0 5).

Lemma sample_at : forall k m, sample 1 (mesh_at m) (ex_body k).
Proof.
  intros k m. destruct (ex_sample k) as [S1 S2 S3].
  assert (P : forall i, n_p (nd (mesh_at m) i) = n_p (nd ex_mesh i)). { intros i. do 5 (destruct i as [|i]; [reflexivity|]). destruct i; reflexivity. }
  constructor.
  - intros b Hb. specialize (S1 b Hb). destruct b as [t prm].
    assert (E : (fun i => n_p (nd (mesh_at m) i)) = (fun i => n_p (nd ex_mesh i))) by (apply FunctionalExtensionality.functional_extensionality; exact P).
    cbv beta in *. rewrite E. exact S1.
  - exact S2.
  - intros i Hi. destruct (S3 i Hi) as [A B]. split.
    + intros _. apply A. cbn in Hi. do 5 (destruct i as [|i]; [reflexivity|]). lia.
    + intros _. cbn in Hi. do 5 (destruct i as [|i]; [reflexivity|]). lia.
Qed.

Example C109_nonvacuous : forall T h N, 0 < h ->
  linear (fun _ => vzero) 0 /\ motion 1 (1 / 2) (total_field vzero (fun _ => vzero) 1 (V 0 0 1)) T relax /\ dot (relax 0) (relax 0) = 1 /\
  same_anisotropy 1 (1 / 2) 1 (V 0 0 1) (ex_body 1) /\ sample 1 (mesh_at (relax 0)) (ex_body 1) /\ uniform_state (mesh_at (relax 0)) (relax 0, vzero) /\
  exists fs, run_of 1 1 (1 / 2) 1 false (ex_body 1) (mesh_at (relax 0)) fs /\
    in_field false 1 (1 / 2) (1 / 2) 1 h (V 0 0 1) vzero (fun _ => vzero) fs (relax 0, vzero) /\ elapsed fs = INR N * h.
Proof.
  intros T h N Hh. 
  assert (U : uniform_state (mesh_at (relax 0)) (relax 0, vzero)). { intros i Hi _. cbn in Hi. do 5 (destruct i as [|i]; [reflexivity|]). lia. }
  split. { apply (C108_nonvacuous false 0 1 0%nat ltac:(lra)). }
  split; [apply relax_motion|]. split; [apply spiral_unit|]. split; [apply ex_anisotropy|]. split; [apply sample_at|]. split; [exact U|].
  destruct (ex_runs 1 h vzero N (mesh_at (relax 0)) (relax 0) vzero Hh (sample_at 1 _) U (spiral_unit _)) as (Xs & L & R).
  { intros i Hi _. cbn in Hi. do 5 (destruct i as [|i]; [split; reflexivity|]). lia. }
  exists (map (ex_pass h vzero) Xs). split; [exact R|]. split.
  - clear - Hh. generalize (relax 0, vzero). induction Xs as [|X Xs IH]; intros st; cbn [map in_field]; auto.
    split; [cbn [ex_pass f_H]; vring|]. split; [reflexivity|]. split; [cbn [ex_pass f_trial ex_trial t_dt]; lra|]. apply IH.
  - subst N. clear - Hh. unfold elapsed. induction Xs as [|X Xs IH]; cbn [map lsum length]; [cbn; ring|].
    rewrite IH, S_INR. cbn [ex_pass f_trial ex_trial t_solution t_accepted t_dt]. ring.
Qed.

Print Assumptions C109_second_order.
