(** * Vectors of R^3: the operations of Eigen::Vector3d used by the code, over exact reals *)

From Coq Require Import Reals Lra.
Local Open Scope R_scope.

Record vec := V { vx : R; vy : R; vz : R }.

Definition vadd (a b : vec) : vec := V (vx a + vx b) (vy a + vy b) (vz a + vz b).
Definition vsub (a b : vec) : vec := V (vx a - vx b) (vy a - vy b) (vz a - vz b).
Definition vscale (k : R) (a : vec) : vec := V (k * vx a) (k * vy a) (k * vz a).
Definition dot (a b : vec) : R := vx a * vx b + vy a * vy b + vz a * vz b.
Definition cross (a b : vec) : vec :=
  V (vy a * vz b - vz a * vy b) (vz a * vx b - vx a * vz b) (vx a * vy b - vy a * vx b).
Definition vzero : vec := V 0 0 0.
Definition vnorm (a : vec) : R := sqrt (dot a a).

(** Eigen's MatrixBase::normalize (3.3 and later): the vector is left alone when its squared norm is
    not positive *)
Definition vnormalize (a : vec) : vec :=
  if Rlt_dec 0 (dot a a) then vscale (/ sqrt (dot a a)) a else a.

Lemma vec_eq : forall a b : vec, vx a = vx b -> vy a = vy b -> vz a = vz b -> a = b.
Proof. intros [] []; simpl; intros; subst; reflexivity. Qed.

Ltac vsimpl := unfold vadd, vsub, vscale, dot, cross, vzero in *; simpl in *.
Ltac vring := apply vec_eq; vsimpl; ring.

Lemma dot_comm : forall a b, dot a b = dot b a.
Proof. intros. vsimpl. ring. Qed.
Lemma dot_add_l : forall a b c, dot (vadd a b) c = dot a c + dot b c.
Proof. intros. vsimpl. ring. Qed.
Lemma dot_sub_l : forall a b c, dot (vsub a b) c = dot a c - dot b c.
Proof. intros. vsimpl. ring. Qed.
Lemma dot_scale_l : forall k a b, dot (vscale k a) b = k * dot a b.
Proof. intros. vsimpl. ring. Qed.
Lemma dot_add_r : forall a b c, dot c (vadd a b) = dot c a + dot c b.
Proof. intros. vsimpl. ring. Qed.
Lemma dot_sub_r : forall a b c, dot c (vsub a b) = dot c a - dot c b.
Proof. intros. vsimpl. ring. Qed.
Lemma dot_scale_r : forall k a b, dot b (vscale k a) = k * dot b a.
Proof. intros. vsimpl. ring. Qed.
Lemma dot_self_nonneg : forall a, 0 <= dot a a.
Proof. intros [x y z]. vsimpl. nra. Qed.
Lemma dot_self_zero : forall a, dot a a = 0 -> a = vzero.
Proof.
  intros [x y z] H. vsimpl. assert (x = 0) by nra. assert (y = 0) by nra. assert (z = 0) by nra.
  subst. reflexivity.
Qed.
Lemma vnorm_sq : forall a, vnorm a * vnorm a = dot a a.
Proof. intros a. unfold vnorm. apply sqrt_sqrt. apply dot_self_nonneg. Qed.
Lemma vnorm_pos : forall a, 0 <= vnorm a.
Proof. intros a. apply sqrt_pos. Qed.
Lemma vnorm_1 : forall a, vnorm a = 1 <-> dot a a = 1.
Proof.
  intros a. split; intros H.
  - rewrite <- vnorm_sq, H. ring.
  - unfold vnorm. rewrite H. apply sqrt_1.
Qed.

(** Lagrange's identity *)
Lemma lagrange : forall a b, dot (cross a b) (cross a b) = dot a a * dot b b - dot a b * dot a b.
Proof. intros. vsimpl. ring. Qed.
Lemma cross_dot_l : forall a b, dot a (cross a b) = 0.
Proof. intros. vsimpl. ring. Qed.
Lemma cross_dot_r : forall a b, dot b (cross a b) = 0.
Proof. intros. vsimpl. ring. Qed.
Lemma cross_cross : forall w a b, cross w (cross a b) = vsub (vscale (dot w b) a) (vscale (dot w a) b).
Proof. intros. vring. Qed.

Lemma normalize_unit : forall a, 0 < dot a a -> dot (vnormalize a) (vnormalize a) = 1.
Proof.
  intros a H. unfold vnormalize. destruct (Rlt_dec 0 (dot a a)); [|contradiction].
  rewrite dot_scale_l, dot_scale_r.
  assert (Hs : sqrt (dot a a) <> 0). { apply Rgt_not_eq. apply sqrt_lt_R0. exact H. }
  replace (/ sqrt (dot a a) * (/ sqrt (dot a a) * dot a a)) with
    (dot a a / (sqrt (dot a a) * sqrt (dot a a))) by (field; exact Hs).
  rewrite sqrt_sqrt by lra. field. lra.
Qed.

Lemma normalize_dot : forall a b, 0 < dot a a -> dot (vnormalize a) b = dot a b / sqrt (dot a a).
Proof.
  intros a b H. unfold vnormalize. destruct (Rlt_dec 0 (dot a a)); [|contradiction].
  rewrite dot_scale_l. unfold Rdiv. ring.
Qed.

(** a vector orthogonal to two independent vectors and to their cross product is zero *)
Lemma orth_zero : forall w a b, dot (cross a b) (cross a b) = 1 ->
  dot w a = 0 -> dot w b = 0 -> dot w (cross a b) = 0 -> w = vzero.
Proof.
  intros w a b Hq Ha Hb Hc. apply dot_self_zero.
  pose proof (lagrange w (cross a b)) as HL. rewrite Hq, Hc in HL.
  rewrite cross_cross, Ha, Hb in HL.
  replace (dot _ _) with 0 in HL at 1 by (vsimpl; ring). lra.
Qed.

(** right-handed orthonormal basis *)
Definition orthonormal (u p q : vec) : Prop :=
  dot u u = 1 /\ dot p p = 1 /\ dot q q = 1 /\ dot u p = 0 /\ dot u q = 0 /\ dot p q = 0 /\
  q = cross u p.

Lemma orthonormal_intro : forall u p, dot u u = 1 -> dot p p = 1 -> dot u p = 0 ->
  orthonormal u p (cross u p).
Proof.
  intros u p Hu Hp Hup. repeat split; auto.
  - rewrite lagrange, Hu, Hp, Hup. ring.
  - apply cross_dot_l.
  - apply cross_dot_r.
Qed.

Lemma expand : forall u p q v, orthonormal u p q ->
  v = vadd (vscale (dot v u) u) (vadd (vscale (dot v p) p) (vscale (dot v q) q)).
Proof.
  intros u p q v (Huu & Hpp & Hqq & Hup & Huq & Hpq & Eq).
  set (w := vsub v (vadd (vscale (dot v u) u) (vadd (vscale (dot v p) p) (vscale (dot v q) q)))).
  assert (Hw : w = vzero).
  { apply (orth_zero w u p).
    - rewrite <- Eq. exact Hqq.
    - unfold w. rewrite dot_sub_l, !dot_add_l, !dot_scale_l, Huu, (dot_comm p u), (dot_comm q u), Hup, Huq. ring.
    - unfold w. rewrite dot_sub_l, !dot_add_l, !dot_scale_l, Hpp, Hup, (dot_comm q p), Hpq. ring.
    - rewrite <- Eq. unfold w. rewrite dot_sub_l, !dot_add_l, !dot_scale_l, Hqq, Huq, Hpq. ring. }
  apply (f_equal vx) in Hw as Hx. apply (f_equal vy) in Hw as Hy. apply (f_equal vz) in Hw as Hz.
  unfold w in Hx, Hy, Hz. unfold vsub, vzero in Hx, Hy, Hz.
  cbn [vx vy vz] in Hx, Hy, Hz.
  apply vec_eq; lra.
Qed.
