(** * The computed motion of a uniformly magnetized sample converges to the solution of the Landau-Lifshitz-Gilbert equation (C108) *)
From Coq Require Import List ZArith Arith Bool Lia Reals Lra Permutation.
From Flocq Require Import Core.
From Verif Require Import Arith ArithLaws Vec Sums LinAlg SparseModel SparseProof ConcModel ConcProof SparseProps
  IterModel IterProof Ieee IterMask IterExact IterProps StdModel MeshModel MeshProof MeshProps ElemModel ElemProof AvgModel ElemProps
  AsmModel AsmProof AsmProps LlgProps WeakProps NodeModel NodeProps CgProof DissipProps PrecessProps.
Import ListNotations.
Local Open Scope R_scope.

(** ** Specification *)
(** a field which depends on the moment: a linear one (the demagnetizing field of an ellipsoid) and an applied one *)
Record linear (D : vec -> vec) (d : R) : Prop := mkLinear {
  lin_add : forall x y, D (vadd x y) = vadd (D x) (D y);
  lin_scale : forall k x, D (vscale k x) = vscale k (D x);
  lin_bound : forall x, vnorm (D x) <= d * vnorm x }.
(** the field on the moment m: applied, demagnetizing, anisotropy *)
Definition total_field (H0 : vec) (D : vec -> vec) (hk : R) (uk m : vec) : vec := vadd (vadd H0 (D m)) (axis_field hk uk m).
(** mu is a motion of the moment over [0, T]: at every time its velocity is the one of the equation of Gilbert in the field *)
Definition motion (gamma0 alpha : R) (field : vec -> vec) (T : R) (mu : R -> vec) : Prop :=
  forall t, 0 <= t <= T -> exists w, gilbert gamma0 alpha (mu t) (field (mu t)) w /\
    derivable_pt_lim (fun s => vx (mu s)) t (vx w) /\ derivable_pt_lim (fun s => vy (mu s)) t (vy w) /\ derivable_pt_lim (fun s => vz (mu s)) t (vz w).

(** ** Norms *)
Lemma norm_sq_le : forall a x, 0 <= x -> dot a a <= x * x -> vnorm a <= x.
Proof. intros a x Hx H. unfold vnorm. rewrite <- (sqrt_square x Hx). apply sqrt_le_1_alt. exact H. Qed.
Lemma norm_add : forall a b, vnorm (vadd a b) <= vnorm a + vnorm b.
Proof.
  intros a b. apply norm_sq_le. { pose proof (vnorm_pos a); pose proof (vnorm_pos b); lra. }
  rewrite dot_add_l, !dot_add_r, (dot_comm b a). pose proof (cauchy a b) as C. pose proof (Rle_abs (dot a b)).
  pose proof (vnorm_sq a). pose proof (vnorm_sq b). nra.
Qed.
Lemma norm_scale : forall k a, vnorm (vscale k a) = Rabs k * vnorm a.
Proof.
  intros k a. unfold vnorm. rewrite dot_scale_l, dot_scale_r, <- Rmult_assoc. rewrite sqrt_mult_alt by (apply Rle_0_sqr). f_equal. apply sqrt_Rsqr_abs.
Qed.
Lemma norm_cross : forall a b, vnorm (cross a b) <= vnorm a * vnorm b.
Proof.
  intros a b. apply norm_sq_le. { pose proof (vnorm_pos a); pose proof (vnorm_pos b); nra. }
  rewrite lagrange, <- !vnorm_sq. pose proof (Rle_0_sqr (dot a b)) as S. unfold Rsqr in S. lra.
Qed.
Lemma norm_sub_sym : forall a b, vnorm (vsub a b) = vnorm (vsub b a).
Proof. intros a b. replace (vsub a b) with (vscale (-1) (vsub b a)) by vring. rewrite norm_scale, Rabs_left by lra. ring. Qed.
Lemma norm_tri : forall a b c, vnorm (vsub a c) <= vnorm (vsub a b) + vnorm (vsub b c).
Proof. intros a b c. replace (vsub a c) with (vadd (vsub a b) (vsub b c)) by vring. apply norm_add. Qed.
Lemma norm_comp : forall a, Rabs (vx a) <= vnorm a /\ Rabs (vy a) <= vnorm a /\ Rabs (vz a) <= vnorm a.
Proof.
  intros a. unfold vnorm. repeat split; rewrite <- sqrt_Rsqr_abs; apply sqrt_le_1_alt; unfold Rsqr, dot; nra.
Qed.
Lemma norm_sum : forall a, vnorm a <= Rabs (vx a) + Rabs (vy a) + Rabs (vz a).
Proof.
  intros a. pose proof (Rabs_pos (vx a)). pose proof (Rabs_pos (vy a)). pose proof (Rabs_pos (vz a)). apply norm_sq_le; [lra|].
  unfold dot. replace (vx a * vx a) with (Rabs (vx a) * Rabs (vx a)) by (rewrite <- Rabs_mult; apply Rabs_pos_eq; nra).
  replace (vy a * vy a) with (Rabs (vy a) * Rabs (vy a)) by (rewrite <- Rabs_mult; apply Rabs_pos_eq; nra).
  replace (vz a * vz a) with (Rabs (vz a) * Rabs (vz a)) by (rewrite <- Rabs_mult; apply Rabs_pos_eq; nra). nra.
Qed.

(** ** The velocity of the equation *)
Lemma prec_norm : forall g a m F, 0 < g -> dot m m = 1 -> vnorm (precession g a m F) <= g * vnorm F.
Proof.
  intros g a m F Hg Hm. apply norm_sq_le. { pose proof (vnorm_pos F). nra. }
  assert (P2 : cross m (cross m F) = vsub (vscale (dot m F) m) F) by (apply unit_cross; exact Hm).
  assert (E : dot (precession g a m F) (precession g a m F) = g * g / (1 + a * a) * dot (cross m F) (cross m F)).
  { unfold precession. rewrite P2. rewrite !dot_scale_l, !dot_scale_r, !dot_add_l, !dot_add_r, !dot_scale_l, !dot_scale_r, !dot_sub_l, !dot_sub_r, !dot_scale_l, !dot_scale_r.
    rewrite (dot_comm (cross m F) m), (dot_comm (cross m F) F), cross_dot_l, cross_dot_r, (dot_comm F m), Hm, lagrange, Hm. field. apply one_aa. }
  rewrite E, lagrange, Hm. pose proof (vnorm_sq F) as N.
  assert (I1 : g * g / (1 + a * a) <= g * g).
  { apply Rmult_le_reg_r with (1 + a * a); [nra|]. unfold Rdiv. rewrite Rmult_assoc, Rinv_l by apply one_aa. nra. }
  assert (I0 : 0 <= g * g / (1 + a * a)). { apply Rmult_le_pos; [nra|]. apply Rlt_le, Rinv_0_lt_compat. nra. }
  assert (J : 0 <= 1 * dot F F - dot m F * dot m F <= dot F F).
  { rewrite <- Hm, <- lagrange. split; [apply dot_self_nonneg|]. rewrite lagrange, Hm. nra. }
  nra.
Qed.

Lemma prec_sub : forall g a m F F', vsub (precession g a m F) (precession g a m F') = precession g a m (vsub F F').
Proof. intros. unfold precession. vring. Qed.

Lemma coef_lip : forall a b, Rabs (/ (1 + a * a) - / (1 + b * b)) <= Rabs (a - b) /\ Rabs (a / (1 + a * a) - b / (1 + b * b)) <= Rabs (a - b).
Proof.
  intros a b. pose proof (one_aa a) as Ha. pose proof (one_aa b) as Hb.
  set (q := / ((1 + a * a) * (1 + b * b))).
  assert (Hq : 0 < q) by (apply Rinv_0_lt_compat; nra).
  assert (Q : q * ((1 + a * a) * (1 + b * b)) = 1) by (apply Rinv_l; nra).
  split.
  - replace (/ (1 + a * a) - / (1 + b * b)) with ((a - b) * (- (a + b) * q)) by (unfold q; field; auto).
    rewrite Rabs_mult. rewrite <- (Rmult_1_r (Rabs (a - b))) at 2. apply Rmult_le_compat_l; [apply Rabs_pos|].
    apply Rabs_le. pose proof (Rle_0_sqr (a - 1/2)) as S1. pose proof (Rle_0_sqr (b - 1/2)) as S2. pose proof (Rle_0_sqr (a + 1/2)) as S3. pose proof (Rle_0_sqr (b + 1/2)) as S4.
    pose proof (Rle_0_sqr (a * b)) as S5. unfold Rsqr in *. rewrite <- Q. split; nra.
  - replace (a / (1 + a * a) - b / (1 + b * b)) with ((a - b) * ((1 - a * b) * q)) by (unfold q; field; auto).
    rewrite Rabs_mult. rewrite <- (Rmult_1_r (Rabs (a - b))) at 2. apply Rmult_le_compat_l; [apply Rabs_pos|].
    apply Rabs_le. pose proof (Rle_0_sqr (a - b)) as S1. pose proof (Rle_0_sqr (a + b)) as S2. pose proof (Rle_0_sqr (a * b)) as S5. unfold Rsqr in *.
    rewrite <- Q. split; nra.
Qed.

Lemma prec_damping : forall g a b m F, 0 < g -> dot m m = 1 ->
  vnorm (vsub (precession g a m F) (precession g b m F)) <= 2 * g * Rabs (a - b) * vnorm F.
Proof.
  intros g a b m F Hg Hm. apply vnorm_1 in Hm.
  replace (vsub (precession g a m F) (precession g b m F)) with
    (vadd (vscale (- g * (/ (1 + a * a) - / (1 + b * b))) (cross m F)) (vscale (- g * (a / (1 + a * a) - b / (1 + b * b))) (cross m (cross m F)))).
  2: { unfold precession, Rdiv. vring. }
  eapply Rle_trans; [apply norm_add|]. rewrite !norm_scale, !Rabs_mult, (Rabs_left (- g)) by lra.
  destruct (coef_lip a b) as [C1 C2]. pose proof (norm_cross m F) as N1. pose proof (norm_cross m (cross m F)) as N2. rewrite Hm in N1, N2.
  pose proof (vnorm_pos F). pose proof (vnorm_pos (cross m F)). pose proof (vnorm_pos (cross m (cross m F))).
  pose proof (Rabs_pos (/ (1 + a * a) - / (1 + b * b))). pose proof (Rabs_pos (a / (1 + a * a) - b / (1 + b * b))).
  set (c1 := Rabs (/ (1 + a * a) - / (1 + b * b))) in *. set (c2 := Rabs (a / (1 + a * a) - b / (1 + b * b))) in *. set (x := Rabs (a - b)) in *.
  set (n1 := vnorm (cross m F)) in *. set (n2 := vnorm (cross m (cross m F))) in *. set (f := vnorm F) in *.
  assert (c1 * n1 <= x * f) by (apply Rmult_le_compat; lra). assert (c2 * n2 <= x * f) by (apply Rmult_le_compat; lra). nra.
Qed.

(** the velocity changes little with the moment and the field *)
Lemma prec_lip : forall g a m n F F' G e k, 0 < g -> dot m m = 1 -> dot n n = 1 -> vnorm F <= G -> vnorm (vsub m n) <= e -> vnorm (vsub F F') <= k * e -> 0 <= k ->
  vnorm (vsub (precession g a m F) (precession g a n F')) <= g * (3 * G + 2 * k) * e.
Proof.
  intros g a m n F F' G e k Hg Hm Hn HF He HFF Hk. apply vnorm_1 in Hm. apply vnorm_1 in Hn.
  assert (He0 : 0 <= e) by (pose proof (vnorm_pos (vsub m n)); lra).
  set (X := cross m F). set (X' := cross n F').
  assert (DX : vnorm (vsub X X') <= (G + k) * e).
  { replace (vsub X X') with (vadd (cross (vsub m n) F) (cross n (vsub F F'))) by (unfold X, X'; vring).
    eapply Rle_trans; [apply norm_add|]. pose proof (norm_cross (vsub m n) F) as A1. pose proof (norm_cross n (vsub F F')) as A2. rewrite Hn in A2.
    assert (vnorm (vsub m n) * vnorm F <= e * G) by (apply Rmult_le_compat; auto using vnorm_pos). nra. }
  assert (NX : vnorm X <= G). { pose proof (norm_cross m F) as A. rewrite Hm in A. unfold X. lra. }
  assert (DY : vnorm (vsub (cross m X) (cross n X')) <= (2 * G + k) * e).
  { replace (vsub (cross m X) (cross n X')) with (vadd (cross (vsub m n) X) (cross n (vsub X X'))) by vring.
    eapply Rle_trans; [apply norm_add|]. pose proof (norm_cross (vsub m n) X) as A1. pose proof (norm_cross n (vsub X X')) as A2. rewrite Hn in A2.
    assert (vnorm (vsub m n) * vnorm X <= e * G) by (apply Rmult_le_compat; auto using vnorm_pos). nra. }
  unfold precession. fold X X'.
  replace (vsub (vscale (/ (1 + a * a)) (vadd (vscale (- g) X) (vscale (- (g * a)) (cross m X)))) (vscale (/ (1 + a * a)) (vadd (vscale (- g) X') (vscale (- (g * a)) (cross n X')))))
    with (vadd (vscale (- g * / (1 + a * a)) (vsub X X')) (vscale (- g * (a / (1 + a * a))) (vsub (cross m X) (cross n X')))) by (unfold Rdiv; vring).
  eapply Rle_trans; [apply norm_add|]. rewrite !norm_scale, !Rabs_mult, (Rabs_left (- g)) by lra.
  assert (K1 : Rabs (/ (1 + a * a)) <= 1).
  { rewrite Rabs_pos_eq by (apply Rlt_le, Rinv_0_lt_compat; nra). rewrite <- Rinv_1. apply Rinv_le_contravar; nra. }
  assert (K2 : Rabs (a / (1 + a * a)) <= 1).
  { unfold Rdiv. assert (P : 0 < / (1 + a * a)) by (apply Rinv_0_lt_compat; nra). assert (Q : / (1 + a * a) * (1 + a * a) = 1) by (apply Rinv_l, one_aa).
    pose proof (Rle_0_sqr (a - 1)) as S1. pose proof (Rle_0_sqr (a + 1)) as S2. unfold Rsqr in *.
    assert (U1 : a * / (1 + a * a) <= (1 + a * a) * / (1 + a * a)) by (apply Rmult_le_compat_r; nra).
    assert (U2 : - a * / (1 + a * a) <= (1 + a * a) * / (1 + a * a)) by (apply Rmult_le_compat_r; nra).
    apply Rabs_le. lra. }
  pose proof (vnorm_pos (vsub X X')). pose proof (vnorm_pos (vsub (cross m X) (cross n X'))).
  set (c1 := Rabs (/ (1 + a * a))) in *. set (c2 := Rabs (a / (1 + a * a))) in *.
  pose proof (Rabs_pos (/ (1 + a * a))) as Z1. pose proof (Rabs_pos (a / (1 + a * a))) as Z2. fold c1 in Z1. fold c2 in Z2.
  set (n1 := vnorm (vsub X X')) in *. set (n2 := vnorm (vsub (cross m X) (cross n X'))) in *.
  assert (c1 * n1 <= 1 * n1) by (apply Rmult_le_compat_r; lra). assert (c2 * n2 <= 1 * n2) by (apply Rmult_le_compat_r; lra).
  assert (T : c1 * n1 + c2 * n2 <= (3 * G + 2 * k) * e) by lra.
  replace (- - g * c1 * n1 + - - g * c2 * n2) with (g * (c1 * n1 + c2 * n2)) by ring. rewrite Rmult_assoc. apply Rmult_le_compat_l; lra.
Qed.

(** ** One step *)
Section conv.
Variables (first_order : bool) (gamma0 theta alpha hk d h T : R) (uk H0 : vec) (D : vec -> vec) (mu : R -> vec).
Hypothesis Hg : 0 < gamma0.
Hypothesis Hth : 0 <= theta <= 1.
Hypothesis Hal : 0 < alpha.
Hypothesis HD : linear D d.
Notation field := (total_field H0 D hk uk).

(** the field changes by at most [kappa] times the change of the moment, and is at most [big] *)
Definition kappa : R := d + Rabs hk * dot uk uk.
Definition big : R := vnorm H0 + kappa.
(** no velocity exceeds this *)
Definition vmax : R := 2 * gamma0 * big.
Definition lips : R := gamma0 * (3 * big + 2 * kappa).
Notation wex m := (precession gamma0 alpha m (field m)).

Lemma d_pos : 0 <= d.
Proof.
  pose proof (lin_bound _ _ HD (V 1 0 0)) as B. pose proof (vnorm_pos (D (V 1 0 0))) as P.
  assert (N : vnorm (V 1 0 0) = 1) by (apply vnorm_1; unfold dot; cbn [vx vy vz]; ring). rewrite N in B. lra.
Qed.
Lemma kappa_pos : 0 <= kappa.
Proof. unfold kappa. pose proof d_pos. pose proof (Rabs_pos hk). pose proof (dot_self_nonneg uk). nra. Qed.
Lemma big_pos : 0 <= big.
Proof. unfold big. pose proof kappa_pos. pose proof (vnorm_pos H0). lra. Qed.
Lemma lips_pos : 0 <= lips.
Proof. unfold lips. pose proof kappa_pos. pose proof big_pos. nra. Qed.

Lemma axis_norm : forall m, vnorm (axis_field hk uk m) <= Rabs hk * dot uk uk * vnorm m.
Proof.
  intros m. unfold axis_field. rewrite norm_scale, Rabs_mult. rewrite <- vnorm_sq. pose proof (cauchy uk m) as C.
  pose proof (Rabs_pos hk). pose proof (vnorm_pos uk). pose proof (vnorm_pos m).
  replace (Rabs hk * (vnorm uk * vnorm uk) * vnorm m) with (Rabs hk * (vnorm uk * vnorm m) * vnorm uk) by ring.
  apply Rmult_le_compat_r; [assumption|]. apply Rmult_le_compat_l; assumption.
Qed.

(** the part of the field that follows the moment *)
Lemma follow : forall v, vnorm (vadd (D v) (axis_field hk uk v)) <= kappa * vnorm v.
Proof. intros v. eapply Rle_trans; [apply norm_add|]. pose proof (lin_bound _ _ HD v). pose proof (axis_norm v). unfold kappa. lra. Qed.

Lemma field_big : forall m, dot m m = 1 -> vnorm (field m) <= big.
Proof.
  intros m Hm. unfold total_field. replace (vadd (vadd H0 (D m)) (axis_field hk uk m)) with (vadd H0 (vadd (D m) (axis_field hk uk m))) by vring.
  eapply Rle_trans; [apply norm_add|]. pose proof (follow m) as F. apply vnorm_1 in Hm. rewrite Hm in F. unfold big. lra.
Qed.

Lemma D_sub : forall x y, D (vsub x y) = vsub (D x) (D y).
Proof.
  intros x y. replace (vsub x y) with (vadd x (vscale (-1) y)) by vring. rewrite (lin_add _ _ HD), (lin_scale _ _ HD). vring.
Qed.

Lemma field_lip : forall m n, vnorm (vsub (field m) (field n)) <= kappa * vnorm (vsub m n).
Proof.
  intros m n. replace (vsub (field m) (field n)) with (vadd (D (vsub m n)) (axis_field hk uk (vsub m n))).
  - apply follow.
  - rewrite D_sub. unfold total_field, axis_field. rewrite dot_sub_r. generalize (D m) (D n). intros. generalize (dot uk m) (dot uk n). intros. vring.
Qed.

Lemma wex_lip : forall m n, dot m m = 1 -> dot n n = 1 -> vnorm (vsub (wex m) (wex n)) <= lips * vnorm (vsub m n).
Proof.
  intros m n Hm Hn. unfold lips. apply (prec_lip gamma0 alpha m n (field m) (field n) big (vnorm (vsub m n)) kappa); auto.
  - apply field_big. exact Hm.
  - lra.
  - apply field_lip.
  - apply kappa_pos.
Qed.

Lemma wex_big : forall m, dot m m = 1 -> vnorm (wex m) <= gamma0 * big.
Proof.
  intros m Hm. eapply Rle_trans; [apply prec_norm; assumption|]. apply Rmult_le_compat_l; [lra|]. apply field_big. exact Hm.
Qed.

Lemma norm_small : forall x y, dot x x = 1 -> dot x y = 0 -> vnorm (vsub (vnormalize (vadd x y)) (vadd x y)) <= dot y y / 2.
Proof.
  intros x y Hx Hy. set (z := vadd x y).
  assert (Ez : dot z z = 1 + dot y y). { unfold z. rewrite dot_add_l, !dot_add_r, (dot_comm y x), Hx, Hy. ring. }
  pose proof (dot_self_nonneg y) as Py. unfold vnormalize. destruct (Rlt_dec 0 (dot z z)) as [L|L]; [|exfalso; lra].
  set (s := sqrt (dot z z)). assert (Es : s * s = 1 + dot y y) by (unfold s; rewrite <- Ez; apply sqrt_sqrt; lra).
  assert (Hs : 1 <= s). { unfold s. rewrite <- sqrt_1. apply sqrt_le_1_alt. lra. }
  replace (vsub (vscale (/ s) z) z) with (vscale (/ s - 1) z) by vring. rewrite norm_scale. change (vnorm z) with s.
  assert (I : / s * s = 1) by (apply Rinv_l; lra).
  assert (Hi : / s <= 1) by (rewrite <- Rinv_1; apply Rinv_le_contravar; lra).
  rewrite Rabs_left1 by lra. nra.
Qed.

(** the rate of change of the demagnetizing field given to the scheme (fmm_demag.h lines 92-103): none with the compilation option FIRST_ORDER *)
Definition rate (v : vec) : vec := if first_order then vzero else D v.
Lemma follow_rate : forall v, vnorm (vadd (rate v) (axis_field hk uk v)) <= kappa * vnorm v.
Proof.
  intros v. unfold rate. destruct first_order; [|apply follow]. replace (vadd vzero (axis_field hk uk v)) with (axis_field hk uk v) by vring.
  pose proof (axis_norm v) as A. pose proof d_pos as Dp. pose proof (vnorm_pos v) as P. unfold kappa. nra.
Qed.

(** the velocity of the scheme, in the moment m which had the velocity v *)
Definition scheme_velocity (dt : R) (m v : vec) : vec :=
  precession gamma0 (scheme_damping gamma0 dt alpha hk uk (vadd H0 (D m)) m) m (scheme_field theta dt hk uk (vadd H0 (D m)) (rate v) m v).

Definition step_const : R := gamma0 * kappa * vmax + gamma0 * gamma0 * big * big + vmax * vmax / 2.

Lemma scheme_step : forall dt m v, 0 < dt -> dt * gamma0 * kappa <= 1 / 2 -> dot m m = 1 -> vnorm v <= vmax ->
  vnorm (scheme_velocity dt m v) <= vmax /\
  vnorm (vsub (scheme_velocity dt m v) (wex m)) <= dt * (gamma0 * kappa * vmax + gamma0 * gamma0 * big * big) /\
  vnorm (vsub (next_moment dt m (scheme_velocity dt m v)) (vadd m (vscale dt (wex m)))) <= dt * dt * step_const.
Proof.
  intros dt m v Hdt Hsm Hm Hv. set (w := scheme_velocity dt m v).
  pose proof kappa_pos as Kp. pose proof big_pos as Bp. pose proof (vnorm_pos v) as Vp.
  assert (EF : scheme_field theta dt hk uk (vadd H0 (D m)) (rate v) m v = vadd (field m) (vscale (theta * dt) (vadd (rate v) (axis_field hk uk v)))).
  { unfold scheme_field, total_field, axis_field. generalize (D m) (rate v). intros. rewrite dot_add_r, dot_scale_r. generalize (dot uk m) (dot uk v). intros. vring. }
  set (F := scheme_field theta dt hk uk (vadd H0 (D m)) (rate v) m v) in *.
  assert (dF : vnorm (vsub F (field m)) <= dt * (kappa * vmax)).
  { replace (vsub F (field m)) with (vscale (theta * dt) (vadd (rate v) (axis_field hk uk v))) by (rewrite EF; vring).
    rewrite norm_scale, Rabs_pos_eq by nra. pose proof (follow_rate v) as F1. pose proof (vnorm_pos (vadd (rate v) (axis_field hk uk v))) as F0.
    assert (kappa * vnorm v <= kappa * vmax) by (apply Rmult_le_compat_l; lra).
    apply Rmult_le_compat; [nra|assumption|nra|lra]. }
  assert (NF : vnorm F <= big + dt * (kappa * vmax)).
  { replace F with (vadd (field m) (vsub F (field m))) by vring. eapply Rle_trans; [apply norm_add|]. pose proof (field_big m Hm). lra. }
  assert (NW : vnorm w <= vmax).
  { unfold w, scheme_velocity. fold F. eapply Rle_trans; [apply prec_norm; assumption|].
    apply Rle_trans with (gamma0 * (big + dt * (kappa * vmax))). { apply Rmult_le_compat_l; lra. }
    replace (gamma0 * (big + dt * (kappa * vmax))) with (gamma0 * big + dt * gamma0 * kappa * vmax) by ring.
    assert (0 <= vmax) by (unfold vmax; nra). assert (dt * gamma0 * kappa * vmax <= 1 / 2 * vmax) by (apply Rmult_le_compat_r; assumption). unfold vmax in *. lra. }
  split; [exact NW|].
  assert (DA : Rabs (scheme_damping gamma0 dt alpha hk uk (vadd H0 (D m)) m - alpha) <= gamma0 * dt / 2 * big).
  { unfold scheme_damping. fold (field m). set (x := dot m (field m)).
    assert (Ax : Rabs x <= big). { unfold x. eapply Rle_trans; [apply cauchy|]. pose proof (field_big m Hm). apply vnorm_1 in Hm. rewrite Hm. lra. }
    destruct (C48_alpha_eff gamma0 dt alpha Hg Hdt Hal) as (_ & Z & I).
    assert (Gd : 0 <= gamma0 * dt / 2) by nra. apply Rabs_le_inv in Ax.
    destruct (Rle_or_lt x 0) as [L|L].
    - pose proof (I x 0 L) as J. rewrite Z in J. apply Rabs_le. split; [nra|]. nra.
    - pose proof (I 0 x ltac:(lra)) as J. rewrite Z in J. apply Rabs_le. split; nra. }
  set (a := scheme_damping gamma0 dt alpha hk uk (vadd H0 (D m)) m) in *.
  assert (DW : vnorm (vsub w (wex m)) <= dt * (gamma0 * kappa * vmax + gamma0 * gamma0 * big * big)).
  { eapply Rle_trans; [apply (norm_tri w (precession gamma0 a m (field m)))|]. unfold w, scheme_velocity. fold F a. rewrite prec_sub.
    pose proof (prec_norm gamma0 a m (vsub F (field m)) Hg Hm) as P1. pose proof (prec_damping gamma0 a alpha m (field m) Hg Hm) as P2.
    pose proof (field_big m Hm) as P3. pose proof (vnorm_pos (field m)) as P4. pose proof (Rabs_pos (a - alpha)) as P5.
    assert (Q1 : gamma0 * vnorm (vsub F (field m)) <= gamma0 * (dt * (kappa * vmax))) by (apply Rmult_le_compat_l; lra).
    assert (Q2 : Rabs (a - alpha) * vnorm (field m) <= gamma0 * dt / 2 * big * big) by (apply Rmult_le_compat; assumption).
    replace (2 * gamma0 * Rabs (a - alpha) * vnorm (field m)) with (2 * gamma0 * (Rabs (a - alpha) * vnorm (field m))) in P2 by ring.
    assert (Q3 : 2 * gamma0 * (Rabs (a - alpha) * vnorm (field m)) <= 2 * gamma0 * (gamma0 * dt / 2 * big * big)) by (apply Rmult_le_compat_l; lra).
    lra. }
  split; [exact DW|].
  eapply Rle_trans; [apply (norm_tri _ (vadd m (vscale dt w)))|].
  assert (N1 : vnorm (vsub (next_moment dt m w) (vadd m (vscale dt w))) <= dt * dt * (vmax * vmax / 2)).
  { unfold next_moment. eapply Rle_trans; [apply norm_small; [exact Hm|]|].
    - rewrite dot_scale_r. unfold w, scheme_velocity. rewrite precession_tangent. ring.
    - rewrite dot_scale_l, dot_scale_r, <- vnorm_sq. pose proof (vnorm_pos w).
      assert (vnorm w * vnorm w <= vmax * vmax) by (apply Rmult_le_compat; lra).
      assert (dt * dt * (vnorm w * vnorm w) <= dt * dt * (vmax * vmax)) by (apply Rmult_le_compat_l; [nra|assumption]). lra. }
  assert (N2 : vnorm (vsub (vadd m (vscale dt w)) (vadd m (vscale dt (wex m)))) <= dt * (dt * (gamma0 * kappa * vmax + gamma0 * gamma0 * big * big))).
  { replace (vsub (vadd m (vscale dt w)) (vadd m (vscale dt (wex m)))) with (vscale dt (vsub w (wex m))) by vring.
    rewrite norm_scale, Rabs_pos_eq by lra. apply Rmult_le_compat_l; lra. }
  unfold step_const. lra.
Qed.

(** ** The motion *)
Hypothesis Hmu : motion gamma0 alpha field T mu.
Hypothesis Hmu0 : dot (mu 0) (mu 0) = 1.

Lemma gilbert_tangent : forall g a m F w, gilbert g a m F w -> dot m w = 0.
Proof. intros g a m F w E. rewrite E, dot_add_r, !dot_scale_r, !cross_dot_l. ring. Qed.

Lemma motion_unit : forall t, 0 <= t <= T -> dot (mu t) (mu t) = 1.
Proof.
  intros t Ht. destruct (Req_dec t 0) as [->|N]; [exact Hmu0|].
  destruct (MVT_cor2 (fun s => dot (mu s) (mu s)) (fun _ => 0) 0 t ltac:(lra)) as (c & E & _).
  - intros c Hc. destruct (Hmu c ltac:(lra)) as (w & Gw & D1 & D2 & D3). apply gilbert_tangent in Gw.
    unfold dot.
    replace 0 with ((vx w * vx (mu c) + vx (mu c) * vx w) + (vy w * vy (mu c) + vy (mu c) * vy w) + (vz w * vz (mu c) + vz (mu c) * vz w)) by (unfold dot in Gw; lra).
    apply (derivable_pt_lim_plus (fun s => vx (mu s) * vx (mu s) + vy (mu s) * vy (mu s)) (fun s => vz (mu s) * vz (mu s))).
    + apply (derivable_pt_lim_plus (fun s => vx (mu s) * vx (mu s)) (fun s => vy (mu s) * vy (mu s))).
      * apply (derivable_pt_lim_mult (fun s => vx (mu s)) (fun s => vx (mu s))); assumption.
      * apply (derivable_pt_lim_mult (fun s => vy (mu s)) (fun s => vy (mu s))); assumption.
    + apply (derivable_pt_lim_mult (fun s => vz (mu s)) (fun s => vz (mu s))); assumption.
  - lra.
Qed.

Lemma motion_deriv : forall t, 0 <= t <= T ->
  derivable_pt_lim (fun s => vx (mu s)) t (vx (wex (mu t))) /\ derivable_pt_lim (fun s => vy (mu s)) t (vy (wex (mu t))) /\ derivable_pt_lim (fun s => vz (mu s)) t (vz (wex (mu t))).
Proof.
  intros t Ht. destruct (Hmu t Ht) as (w & Gw & D1). apply C107_equation in Gw; [|apply motion_unit; exact Ht]. rewrite <- Gw. exact D1.
Qed.

Lemma motion_near : forall t s, 0 <= t -> t <= s -> s <= T -> vnorm (vsub (mu s) (mu t)) <= 3 * (gamma0 * big) * (s - t).
Proof.
  intros t s Ht Hts Hs. destruct (Req_dec s t) as [->|N].
  { replace (vsub (mu t) (mu t)) with (vscale 0 (mu t)) by vring. rewrite norm_scale, Rabs_R0. lra. }
  pose proof (vnorm_pos (wex (mu t))) as P0. 
  assert (B : forall (f : vec -> R), (forall x, Rabs (f x) <= vnorm x) -> (forall r, 0 <= r <= T -> derivable_pt_lim (fun s => f (mu s)) r (f (wex (mu r)))) ->
    Rabs (f (mu s) - f (mu t)) <= gamma0 * big * (s - t)).
  { intros f F1 F2. destruct (MVT_cor2 (fun s => f (mu s)) (fun r => f (wex (mu r))) t s ltac:(lra)) as (c & E & Hc).
    - intros c Hc. apply F2. lra.
    - rewrite E, Rabs_mult, (Rabs_pos_eq (s - t)) by lra. apply Rmult_le_compat_r; [lra|]. eapply Rle_trans; [apply F1|]. apply wex_big. apply motion_unit. lra. }
  eapply Rle_trans; [apply norm_sum|]. cbn [vsub vx vy vz].
  pose proof (B vx (fun x => proj1 (norm_comp x)) (fun r Hr => proj1 (motion_deriv r Hr))).
  pose proof (B vy (fun x => proj1 (proj2 (norm_comp x))) (fun r Hr => proj1 (proj2 (motion_deriv r Hr)))).
  pose proof (B vz (fun x => proj2 (proj2 (norm_comp x))) (fun r Hr => proj2 (proj2 (motion_deriv r Hr)))). lra.
Qed.

Lemma motion_step : forall t dt, 0 <= t -> 0 < dt -> t + dt <= T ->
  vnorm (vsub (mu (t + dt)) (vadd (mu t) (vscale dt (wex (mu t))))) <= dt * dt * (9 * lips * gamma0 * big).
Proof.
  intros t dt Ht Hdt HT. pose proof lips_pos as Lp. pose proof big_pos as Bp.
  assert (B : forall (f : vec -> R), (forall x, Rabs (f x) <= vnorm x) -> (forall x y, f (vsub x y) = f x - f y) -> (forall r, 0 <= r <= T -> derivable_pt_lim (fun s => f (mu s)) r (f (wex (mu r)))) ->
    Rabs (f (mu (t + dt)) - f (mu t) - dt * f (wex (mu t))) <= dt * dt * (3 * lips * gamma0 * big)).
  { intros f F1 F3 F2. destruct (MVT_cor2 (fun s => f (mu s)) (fun r => f (wex (mu r))) t (t + dt) ltac:(lra)) as (c & E & Hc).
    - intros c Hc. apply F2. lra.
    - rewrite E. replace (f (wex (mu c)) * (t + dt - t) - dt * f (wex (mu t))) with (dt * f (vsub (wex (mu c)) (wex (mu t)))) by (rewrite F3; ring).
      rewrite Rabs_mult, (Rabs_pos_eq dt) by lra. rewrite (Rmult_assoc dt dt). apply Rmult_le_compat_l; [lra|]. eapply Rle_trans; [apply F1|].
      eapply Rle_trans; [apply wex_lip; apply motion_unit; lra|].
      pose proof (motion_near t c Ht ltac:(lra) ltac:(lra)) as Nc.
      apply Rle_trans with (lips * (3 * (gamma0 * big) * dt)); [|lra]. apply Rmult_le_compat_l; [exact Lp|]. eapply Rle_trans; [exact Nc|].
      apply Rmult_le_compat_l; [nra|lra]. }
  eapply Rle_trans; [apply norm_sum|]. cbn [vsub vadd vscale vx vy vz].
  pose proof (B vx (fun x => proj1 (norm_comp x)) ltac:(reflexivity) (fun r Hr => proj1 (motion_deriv r Hr))) as X1.
  pose proof (B vy (fun x => proj1 (proj2 (norm_comp x))) ltac:(reflexivity) (fun r Hr => proj1 (proj2 (motion_deriv r Hr)))) as X2.
  pose proof (B vz (fun x => proj2 (proj2 (norm_comp x))) ltac:(reflexivity) (fun r Hr => proj2 (proj2 (motion_deriv r Hr)))) as X3.
  replace (vx (mu (t + dt)) - (vx (mu t) + dt * vx (wex (mu t)))) with (vx (mu (t + dt)) - vx (mu t) - dt * vx (wex (mu t))) by ring.
  replace (vy (mu (t + dt)) - (vy (mu t) + dt * vy (wex (mu t)))) with (vy (mu (t + dt)) - vy (mu t) - dt * vy (wex (mu t))) by ring.
  replace (vz (mu (t + dt)) - (vz (mu t) + dt * vz (wex (mu t)))) with (vz (mu (t + dt)) - vz (mu t) - dt * vz (wex (mu t))) by ring.
  lra.
Qed.

(** error of one step *)
Definition conv_const : R := step_const + 9 * lips * gamma0 * big.

Lemma step_const_pos : 0 <= step_const.
Proof.
  unfold step_const. pose proof kappa_pos. pose proof big_pos. assert (0 <= vmax) by (unfold vmax; nra).
  assert (0 <= gamma0 * kappa * vmax) by (apply Rmult_le_pos; [apply Rmult_le_pos|]; lra).
  assert (0 <= gamma0 * gamma0 * big * big) by (apply Rmult_le_pos; [apply Rmult_le_pos|]; nra). nra.
Qed.
Lemma conv_const_pos : 0 <= conv_const.
Proof.
  unfold conv_const. pose proof step_const_pos. pose proof lips_pos. pose proof big_pos.
  assert (0 <= 9 * lips * gamma0 * big) by (apply Rmult_le_pos; [apply Rmult_le_pos|]; lra). lra.
Qed.

Lemma error_step : forall t dt m v e, 0 <= t -> 0 < dt -> t + dt <= T -> dt * gamma0 * kappa <= 1 / 2 -> dot m m = 1 -> vnorm v <= vmax ->
  vnorm (vsub m (mu t)) <= e ->
  vnorm (vsub (next_moment dt m (scheme_velocity dt m v)) (mu (t + dt))) <= (1 + lips * dt) * e + dt * dt * conv_const.
Proof.
  intros t dt m v e Ht Hdt HT Hsm Hm Hv He. destruct (scheme_step dt m v Hdt Hsm Hm Hv) as (_ & _ & S). pose proof (motion_step t dt Ht Hdt HT) as M.
  pose proof (motion_unit t ltac:(lra)) as Hu. pose proof (wex_lip m (mu t) Hm Hu) as L. pose proof lips_pos as Lp.
  eapply Rle_trans; [apply (norm_tri _ (vadd m (vscale dt (wex m))))|].
  assert (N : vnorm (vsub (vadd m (vscale dt (wex m))) (vadd (mu t) (vscale dt (wex (mu t))))) <= (1 + lips * dt) * e).
  { replace (vsub (vadd m (vscale dt (wex m))) (vadd (mu t) (vscale dt (wex (mu t))))) with (vadd (vsub m (mu t)) (vscale dt (vsub (wex m) (wex (mu t))))) by vring.
    eapply Rle_trans; [apply norm_add|]. rewrite norm_scale, Rabs_pos_eq by lra.
    assert (lips * vnorm (vsub m (mu t)) <= lips * e) by (apply Rmult_le_compat_l; lra).
    assert (dt * vnorm (vsub (wex m) (wex (mu t))) <= dt * (lips * e)) by (apply Rmult_le_compat_l; lra). lra. }
  pose proof (norm_tri (vadd m (vscale dt (wex m))) (vadd (mu t) (vscale dt (wex (mu t)))) (mu (t + dt))) as Tr.
  rewrite (norm_sub_sym (vadd (mu t) (vscale dt (wex (mu t)))) (mu (t + dt))) in Tr. unfold conv_const. lra.
Qed.

(** ** A run *)
(** simulated time: the sum of the accepted steps *)
Definition elapsed (fs : list pass) : R :=
  lsum (map (fun f => match t_solution (f_trial f) with Some _ => if t_accepted (f_trial f) then t_dt (f_trial f) else 0 | None => 0 end) fs).

(** the demagnetizing field of every pass is the one of the moment at that time, and changes with its velocity (it is not changing for the scheme if FIRST_ORDER); no step exceeds h *)
Fixpoint in_field (fs : list pass) (s : vec * vec) : Prop :=
  match fs with
  | [] => True
  | f :: fs' => f_H f = vadd H0 (D (fst s)) /\ f_Hdot f = rate (snd s) /\ 0 < t_dt (f_trial f) <= h /\
      in_field fs' (moment_pass gamma0 theta alpha hk uk s f)
  end.

Lemma elapsed_pos : forall fs s, in_field fs s -> 0 <= elapsed fs.
Proof.
  induction fs as [|f fs IH]; intros s Hf; unfold elapsed; cbn [map lsum]; [lra|]. destruct Hf as (_ & _ & Hd & Hf). apply IH in Hf. unfold elapsed in Hf.
  destruct (t_solution (f_trial f)); [destruct (t_accepted (f_trial f))|]; lra.
Qed.

Definition bound (t : R) : R := conv_const * h * t * exp (lips * t).

Lemma run_error : h * gamma0 * kappa <= 1 / 2 -> forall fs s t, 0 <= t -> t + elapsed fs <= T -> in_field fs s -> dot (fst s) (fst s) = 1 -> vnorm (snd s) <= vmax ->
  vnorm (vsub (fst s) (mu t)) <= bound t ->
  vnorm (vsub (fst (moment_run gamma0 theta alpha hk uk fs s)) (mu (t + elapsed fs))) <= bound (t + elapsed fs).
Proof.
  intros Hsm. induction fs as [|f fs IH]; intros s t Ht HT Hf Hm Hv He.
  { unfold elapsed. cbn [map lsum]. rewrite Rplus_0_r. exact He. }
  destruct Hf as (F1 & F2 & [F3 F4] & Hf). pose proof (elapsed_pos fs _ Hf) as Ep.
  unfold moment_run. cbn [fold_left]. fold (moment_run gamma0 theta alpha hk uk fs (moment_pass gamma0 theta alpha hk uk s f)).
  assert (Skip : moment_pass gamma0 theta alpha hk uk s f = s -> elapsed (f :: fs) = elapsed fs ->
    vnorm (vsub (fst (moment_run gamma0 theta alpha hk uk fs (moment_pass gamma0 theta alpha hk uk s f))) (mu (t + elapsed (f :: fs)))) <= bound (t + elapsed (f :: fs))).
  { intros E1 E2. rewrite E1 in *. rewrite E2 in *. apply IH; assumption. }
  destruct s as [m v]. cbn [fst snd] in *.
  destruct (t_solution (f_trial f)) as [X|] eqn:EX.
  2: { apply Skip; [unfold moment_pass; rewrite EX; reflexivity|]. unfold elapsed. cbn [map lsum]. rewrite EX. ring. }
  destruct (t_accepted (f_trial f)) eqn:EA.
  2: { apply Skip; [unfold moment_pass; rewrite EX, EA; reflexivity|]. unfold elapsed. cbn [map lsum]. rewrite EX, EA. ring. }
  clear Skip. set (dt := t_dt (f_trial f)) in *.
  assert (EM : moment_pass gamma0 theta alpha hk uk (m, v) f = (next_moment dt m (scheme_velocity dt m v), scheme_velocity dt m v)).
  { unfold moment_pass. rewrite EX, EA, F1, F2. reflexivity. }
  rewrite EM in *.
  assert (EE : elapsed (f :: fs) = dt + elapsed fs). { unfold elapsed. cbn [map lsum]. rewrite EX, EA. reflexivity. }
  rewrite EE in *. replace (t + (dt + elapsed fs)) with ((t + dt) + elapsed fs) in * by ring.
  pose proof kappa_pos as Kp. assert (Hs' : dt * gamma0 * kappa <= 1 / 2).
  { apply Rle_trans with (h * gamma0 * kappa); [|exact Hsm]. apply Rmult_le_compat_r; [exact Kp|]. apply Rmult_le_compat_r; lra. }
  destruct (scheme_step dt m v F3 Hs' Hm Hv) as [NW _].
  apply IH; try assumption; try lra; cbn [fst snd].
  - apply next_unit; [exact Hm|]. rewrite dot_comm. apply precession_tangent.
  - eapply Rle_trans; [apply (error_step t dt m v (bound t)); try assumption; lra|].
    unfold bound. pose proof conv_const_pos as Cp. pose proof lips_pos as Lp.
    replace (lips * (t + dt)) with (lips * t + lips * dt) by ring. rewrite exp_plus.
    assert (X1 : 1 + lips * dt <= exp (lips * dt)). { apply exp_ineq1_le. }
    assert (X2 : 1 <= exp (lips * t)). { apply Rle_trans with (1 + lips * t); [nra|]. apply exp_ineq1_le. }
    set (p := exp (lips * t)) in *. set (q := exp (lips * dt)) in *.
    assert (Y1 : (1 + lips * dt) * (conv_const * h * t * p) <= q * (conv_const * h * t * p)).
    { apply Rmult_le_compat_r; [|exact X1]. repeat apply Rmult_le_pos; lra. }
    assert (Y2 : dt * dt * conv_const <= conv_const * h * dt * (p * q)).
    { assert (1 <= p * q). { assert (1 <= q) by nra. nra. }
      apply Rle_trans with (conv_const * h * dt * 1).
      - replace (dt * dt * conv_const) with (conv_const * dt * dt) by ring. rewrite Rmult_1_r. apply Rmult_le_compat_r; [lra|]. apply Rmult_le_compat_l; lra.
      - apply Rmult_le_compat_l; [|assumption]. repeat apply Rmult_le_pos; lra. }
    replace (conv_const * h * (t + dt) * (p * q)) with (q * (conv_const * h * t * p) + conv_const * h * dt * (p * q)) by ring. lra.
Qed.
End conv.

(** ** C108 *)
(** For a given applied field, a demagnetizing field linear in the moment and an anisotropy, and a motion of the moment over [0, T]: there are C and h0
    such that, for every mesh and every run whose steps do not exceed h <= h0, whatever trials fail or are refused, with or without the compilation option FIRST_ORDER, the magnetization computed
    at every magnetic node is within C h of the one of the motion at the time the run has reached. *)
Theorem C108_convergence : forall first_order gamma0 theta alpha hk uk d H0 D T mu,
  0 < gamma0 -> 0 <= theta <= 1 -> 0 < alpha -> linear D d -> 0 <= T ->
  motion gamma0 alpha (total_field H0 D hk uk) T mu -> dot (mu 0) (mu 0) = 1 ->
  exists C h0, 0 < h0 /\
  forall mu0 pref paranoid body l fs h,
    0 <= pref -> same_anisotropy mu0 alpha hk uk body -> sample mu0 l body -> uniform_state l (mu 0, vzero) ->
    run_of mu0 gamma0 theta pref paranoid body l fs ->
    in_field first_order gamma0 theta alpha hk h uk H0 D fs (mu 0, vzero) -> 0 <= h <= h0 -> elapsed fs <= T ->
    let l' := run_trials paranoid (map f_trial fs) l in
    forall i, (i < length l')%nat -> fst (nth i l' (false, no_node)) = true ->
    vnorm (vsub (u_of l' i) (mu (elapsed fs))) <= C * h.
Proof.
  intros fo gamma0 theta alpha hk uk d H0 D T mu Hg Hth Hal HD HT Hmu H1.
  set (K := kappa hk d uk). set (C := conv_const gamma0 hk d uk H0). set (L := lips gamma0 hk d uk H0).
  pose proof (kappa_pos hk d uk D HD) as Kp. fold K in Kp.
  pose proof (conv_const_pos gamma0 hk d uk H0 D Hg HD) as Cp. fold C in Cp.
  pose proof (lips_pos gamma0 hk d uk H0 D Hg HD) as Lp. fold L in Lp.
  exists (C * T * exp (L * T)), (/ (2 * gamma0 * K + 1)).
  assert (P : 0 < 2 * gamma0 * K + 1) by nra. split; [apply Rinv_0_lt_compat; exact P|].
  intros mu0 pref paranoid body l fs h Hp Hm Hs Hu Hr Hf [Hh0 Hh] He l' i Hi Em.
  pose proof (C107_run mu0 gamma0 theta pref alpha hk uk paranoid body fs l (mu 0) vzero Hg (proj1 Hth) Hp Hm Hs Hu H1 Hr i Hi Em) as U.
  fold l' in U.
  assert (E : u_of l' i = fst (moment_run gamma0 theta alpha hk uk fs (mu 0, vzero))) by (rewrite <- U; reflexivity).
  rewrite E.
  assert (Hsm : h * gamma0 * K <= 1 / 2).
  { assert (Q : / (2 * gamma0 * K + 1) * (2 * gamma0 * K + 1) = 1) by (apply Rinv_l; lra). pose proof (Rinv_0_lt_compat _ P) as Q0.
    assert (h * (gamma0 * K) <= / (2 * gamma0 * K + 1) * (gamma0 * K)) by (apply Rmult_le_compat_r; [nra|exact Hh]). nra. }
  pose proof (elapsed_pos fo gamma0 theta alpha hk h uk H0 D fs _ Hf) as Ep.
  pose proof (run_error fo gamma0 theta alpha hk d h T uk H0 D mu Hg Hth Hal HD Hmu H1 Hsm fs (mu 0, vzero) 0 ltac:(lra) ltac:(lra) Hf H1) as B.
  rewrite Rplus_0_l in B. cbn [fst snd] in B. eapply Rle_trans; [apply B|].
  - replace vzero with (vscale 0 vzero) by vring. rewrite norm_scale, Rabs_R0, Rmult_0_l. unfold vmax.
    pose proof (big_pos hk d uk H0 D HD). nra.
  - replace (vsub (mu 0) (mu 0)) with (vscale 0 (mu 0)) by vring. rewrite norm_scale, Rabs_R0. unfold bound. lra.
  - unfold bound. fold C L.
    assert (X : exp (L * elapsed fs) <= exp (L * T)).
    { destruct (Rle_lt_or_eq_dec (L * elapsed fs) (L * T)) as [Lt|Eq]; [nra| |rewrite Eq; lra]. apply Rlt_le, exp_increasing, Lt. }
    pose proof (exp_pos (L * elapsed fs)).
    replace (C * T * exp (L * T) * h) with (C * h * (T * exp (L * T))) by ring. replace (C * h * elapsed fs * exp (L * elapsed fs)) with (C * h * (elapsed fs * exp (L * elapsed fs))) by ring.
    apply Rmult_le_compat_l; [nra|]. apply Rmult_le_compat; lra.
Qed.

(** ** The hypotheses are met: the spiral of a moment, at first along x, around a field along z; runs of any length and any step *)
Definition spiral (t : R) : vec :=
  V (cos (4 / 5 * t) / cosh (2 / 5 * t)) (sin (4 / 5 * t) / cosh (2 / 5 * t)) (sinh (2 / 5 * t) / cosh (2 / 5 * t)).

Lemma cosh_pos : forall x, 0 < cosh x.
Proof. intros x. unfold cosh. pose proof (exp_pos x). pose proof (exp_pos (- x)). lra. Qed.
Lemma cosh_sinh : forall x, cosh x * cosh x - sinh x * sinh x = 1.
Proof.
  intros x. unfold cosh, sinh. replace 1 with (exp x * exp (- x)). { field. } rewrite <- exp_plus, Rplus_opp_r. apply exp_0.
Qed.

Lemma lim_comp : forall (f : R -> R) k t d, derivable_pt_lim f (k * t) d -> derivable_pt_lim (fun s => f (k * s)) t (k * d).
Proof.
  intros f k t d Hf. rewrite Rmult_comm. apply (derivable_pt_lim_comp (fun s => k * s) f t k d); [|exact Hf].
  pose proof (derivable_pt_lim_scal id k t 1 (derivable_pt_lim_id t)) as L. rewrite Rmult_1_r in L. exact L.
Qed.

Lemma spiral_motion : forall T, motion 1 (1 / 2) (total_field (V 0 0 1) (fun _ => vzero) 0 (V 0 0 1)) T spiral.
Proof.
  intros T t _. set (c := cosh (2 / 5 * t)). set (s := sinh (2 / 5 * t)). set (x := cos (4 / 5 * t)). set (y := sin (4 / 5 * t)).
  assert (Hc : c <> 0) by (pose proof (cosh_pos (2 / 5 * t)); unfold c; lra).
  assert (E1 : c * c - s * s = 1) by apply cosh_sinh.
  assert (E2 : x * x + y * y = 1) by (pose proof (sin2_cos2 (4 / 5 * t)) as E; unfold Rsqr in E; unfold x, y; lra).
  assert (DC : derivable_pt_lim (fun r => cosh (2 / 5 * r)) t (2 / 5 * s)) by (apply (lim_comp cosh), derivable_pt_lim_cosh).
  assert (DS : derivable_pt_lim (fun r => sinh (2 / 5 * r)) t (2 / 5 * c)) by (apply (lim_comp sinh), derivable_pt_lim_sinh).
  assert (DX : derivable_pt_lim (fun r => cos (4 / 5 * r)) t (4 / 5 * (- y))) by (apply (lim_comp cos), derivable_pt_lim_cos).
  assert (DY : derivable_pt_lim (fun r => sin (4 / 5 * r)) t (4 / 5 * x)) by (apply (lim_comp sin), derivable_pt_lim_sin).
  exists (V ((4 / 5 * (- y) * c - 2 / 5 * s * x) / Rsqr c) ((4 / 5 * x * c - 2 / 5 * s * y) / Rsqr c) ((2 / 5 * c * c - 2 / 5 * s * s) / Rsqr c)).
  split; [|cbn [vx vy vz spiral]; split; [|split]].
  - assert (Hd : dot (spiral t) (spiral t) = 1).
    { unfold spiral, dot. cbn [vx vy vz]. fold c s x y. replace (x / c * (x / c) + y / c * (y / c) + s / c * (s / c)) with ((x * x + y * y + s * s) / (c * c)) by (field; exact Hc).
      rewrite E2. replace (1 + s * s) with (c * c) by lra. field. exact Hc. }
    apply C107_equation; [exact Hd|]. unfold precession, total_field, axis_field, spiral. fold c s x y. unfold Rsqr.
    apply vec_eq; unfold vadd, vscale, cross, dot, vzero; cbn [vx vy vz].
    + field. exact Hc.
    + field. exact Hc.
    + replace (2 / 5 * c * c - 2 / 5 * s * s) with (2 / 5 * (x * x + y * y)) by (rewrite E2; lra). field. exact Hc.
  - apply (derivable_pt_lim_div (fun r => cos (4 / 5 * r)) (fun r => cosh (2 / 5 * r))); assumption.
  - apply (derivable_pt_lim_div (fun r => sin (4 / 5 * r)) (fun r => cosh (2 / 5 * r))); assumption.
  - apply (derivable_pt_lim_div (fun r => sinh (2 / 5 * r)) (fun r => cosh (2 / 5 * r))); assumption.
Qed.

Lemma spiral_0 : spiral 0 = V 1 0 0.
Proof. unfold spiral. rewrite !Rmult_0_r, cos_0, sin_0, cosh_0, sinh_0. f_equal; field. Qed.

Example C108_nonvacuous : forall first_order T h N, 0 < h ->
  linear (fun _ => vzero) 0 /\ motion 1 (1 / 2) (total_field (V 0 0 1) (fun _ => vzero) 0 (V 0 0 1)) T spiral /\ dot (spiral 0) (spiral 0) = 1 /\
  same_anisotropy 1 (1 / 2) 0 (V 0 0 1) (ex_body 0) /\ sample 1 ex_mesh (ex_body 0) /\ uniform_state ex_mesh (spiral 0, vzero) /\
  exists fs, run_of 1 1 (1 / 2) 1 false (ex_body 0) ex_mesh fs /\
    in_field first_order 1 (1 / 2) (1 / 2) 0 h (V 0 0 1) (V 0 0 1) (fun _ => vzero) fs (spiral 0, vzero) /\ elapsed fs = INR N * h.
Proof.
  intros fo T h N Hh. rewrite spiral_0. destruct (C107_nonvacuous 0 h (V 0 0 1) N Hh) as (Xs & L & A & S & U & R).
  split. { constructor; intros; [vring|vring|]. replace (vnorm vzero) with 0; [lra|]. unfold vnorm, dot, vzero. cbn [vx vy vz]. replace (0 * 0 + 0 * 0 + 0 * 0) with 0 by ring. symmetry. apply sqrt_0. }
  split; [apply spiral_motion|]. split. { unfold dot. cbn [vx vy vz]. ring. }
  split; [exact A|]. split; [exact S|]. split; [exact U|].
  exists (map (ex_pass h (V 0 0 1)) Xs). split; [exact R|]. split.
  - clear - Hh. generalize (V 1 0 0, vzero). induction Xs as [|X Xs IH]; intros st; cbn [map in_field]; auto.
    split; [cbn [ex_pass f_H]; vring|]. split; [unfold rate; destruct fo; reflexivity|]. split; [cbn [ex_pass f_trial ex_trial t_dt]; lra|]. apply IH.
  - subst N. clear - Hh. unfold elapsed. induction Xs as [|X Xs IH]; cbn [map lsum length]; [cbn; ring|].
    rewrite IH, S_INR. cbn [ex_pass f_trial ex_trial t_solution t_accepted t_dt]. ring.
Qed.

Print Assumptions C108_convergence.
