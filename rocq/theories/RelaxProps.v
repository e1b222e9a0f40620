(** * A uniformly magnetized sample relaxes (C110) *)
From Coq Require Import List ZArith Arith Bool Lia Reals Lra Permutation.
From Flocq Require Import Core.
From Verif Require Import Arith ArithLaws Vec Sums LinAlg SparseModel SparseProof ConcModel ConcProof SparseProps
  IterModel IterProof Ieee IterMask IterExact IterProps StdModel MeshModel MeshProof MeshProps ElemModel ElemProof AvgModel ElemProps
  AsmModel AsmProof AsmProps LlgProps WeakProps NodeModel NodeProps CgProof DissipProps PrecessProps ConvProps SecondProps.
Import ListNotations.
Local Open Scope R_scope.

(** ** Specification *)
(** energy of the moment, in units of mu0 Ms times the volume: Zeeman, demagnetizing, anisotropy *)
Definition moment_energy (H0 : vec) (D : vec -> vec) (hk : R) (uk m : vec) : R :=
  - dot H0 m - dot m (D m) / 2 - hk / 2 * (dot uk m * dot uk m).
(** the torque on the moment *)
Definition torque (H0 : vec) (D : vec -> vec) (hk : R) (uk m : vec) : R := vnorm (cross m (total_field H0 D hk uk m)).

(** ** Lemmas *)
Lemma tangent_force : forall m F y, dot m m = 1 -> dot m y = 0 -> Rabs (dot F y) <= vnorm (cross m F) * vnorm y.
Proof.
  intros m F y Hm Hy. assert (E : dot F y = dot (cross m F) (cross m y)).
  { replace (dot (cross m F) (cross m y)) with (dot m m * dot F y - dot m y * dot m F) by (clear; vsimpl; ring). rewrite Hm, Hy. ring. }
  rewrite E. eapply Rle_trans; [apply cauchy|]. apply Rmult_le_compat_l; [apply vnorm_pos|]. pose proof (norm_cross m y) as N. apply vnorm_1 in Hm. rewrite Hm in N. lra.
Qed.

Lemma prec_size : forall g a m F, dot m m = 1 -> dot (precession g a m F) (precession g a m F) = g * g / (1 + a * a) * dot (cross m F) (cross m F).
Proof.
  intros g a m F Hm. assert (P2 : cross m (cross m F) = vsub (vscale (dot m F) m) F) by (apply unit_cross; exact Hm).
  unfold precession. rewrite P2. rewrite !dot_scale_l, !dot_scale_r, !dot_add_l, !dot_add_r, !dot_scale_l, !dot_scale_r, !dot_sub_l, !dot_sub_r, !dot_scale_l, !dot_scale_r.
  rewrite (dot_comm (cross m F) m), (dot_comm (cross m F) F), cross_dot_l, cross_dot_r, (dot_comm F m), Hm, lagrange, Hm. field. apply one_aa.
Qed.

Lemma prec_torque : forall g a m F, 0 < g -> 0 < a -> dot m m = 1 ->
  vnorm (precession g a m F) <= g * vnorm (cross m F) /\ g * vnorm (cross m F) <= (1 + a) * vnorm (precession g a m F).
Proof.
  intros g a m F Hg Ha Hm. pose proof (prec_size g a m F Hm) as E. rewrite <- !vnorm_sq in E. set (f := vnorm (precession g a m F)) in *. set (r := vnorm (cross m F)) in *.
  assert (f0 : 0 <= f) by apply vnorm_pos. assert (r0 : 0 <= r) by apply vnorm_pos.
  assert (E' : (1 + a * a) * (f * f) = g * g * (r * r)). { rewrite E. field. apply one_aa. }
  split.
  - destruct (Rle_or_lt f (g * r)) as [A|A]; [exact A|]. exfalso. assert (g * r * (g * r) < f * f) by (apply Rmult_le_0_lt_compat; nra). nra.
  - destruct (Rle_or_lt (g * r) ((1 + a) * f)) as [A|A]; [exact A|]. exfalso.
    assert ((1 + a) * f * ((1 + a) * f) < g * r * (g * r)) by (apply Rmult_le_0_lt_compat; nra). assert (0 <= a * (f * f)) by nra. nra.
Qed.

Lemma prec_damping_torque : forall g a b m F, 0 < g -> dot m m = 1 ->
  vnorm (vsub (precession g a m F) (precession g b m F)) <= 2 * g * Rabs (a - b) * vnorm (cross m F).
Proof.
  intros g a b m F Hg Hm. apply vnorm_1 in Hm.
  replace (vsub (precession g a m F) (precession g b m F)) with
    (vadd (vscale (- g * (/ (1 + a * a) - / (1 + b * b))) (cross m F)) (vscale (- g * (a / (1 + a * a) - b / (1 + b * b))) (cross m (cross m F)))).
  2: { unfold precession, Rdiv. vring. }
  eapply Rle_trans; [apply norm_add|]. rewrite !norm_scale, !Rabs_mult, (Rabs_left (- g)) by lra.
  destruct (coef_lip a b) as [C1 C2]. pose proof (norm_cross m (cross m F)) as N2. rewrite Hm in N2.
  pose proof (vnorm_pos (cross m F)). pose proof (vnorm_pos (cross m (cross m F))).
  pose proof (Rabs_pos (/ (1 + a * a) - / (1 + b * b))). pose proof (Rabs_pos (a / (1 + a * a) - b / (1 + b * b))).
  set (c1 := Rabs (/ (1 + a * a) - / (1 + b * b))) in *. set (c2 := Rabs (a / (1 + a * a) - b / (1 + b * b))) in *. set (x := Rabs (a - b)) in *.
  set (n1 := vnorm (cross m F)) in *. set (n2 := vnorm (cross m (cross m F))) in *.
  assert (c1 * n1 <= x * n1) by (apply Rmult_le_compat; lra). assert (c2 * n2 <= x * n1) by (apply Rmult_le_compat; lra). nra.
Qed.

Section relax.
Variables (first_order : bool) (gamma0 theta alpha hk d : R) (uk H0 : vec) (D : vec -> vec).
Hypothesis Hg : 0 < gamma0.
Hypothesis Hth : 0 <= theta <= 1.
Hypothesis Hal : 0 < alpha.
Hypothesis HD : linear D d.
Hypothesis Hsym : forall x y, dot x (D y) = dot (D x) y.
Notation field := (total_field H0 D hk uk).
Notation wex m := (precession gamma0 alpha m (field m)).
Notation kap := (kappa hk d uk).
Notation bg := (big hk d uk H0).
Notation lp := (lips gamma0 hk d uk H0).
Notation sv := (scheme_velocity first_order gamma0 theta alpha hk uk H0 D).
Notation A := (follows hk uk D).
Notation en := (moment_energy H0 D hk uk).
Notation rho m := (vnorm (cross m (field m))).

Lemma A_sym : forall x y, dot x (A y) = dot (A x) y.
Proof. intros x y. unfold follows, axis_field. rewrite dot_add_l, dot_add_r, Hsym, dot_scale_l, dot_scale_r, (dot_comm x uk). ring. Qed.

Lemma energy_change : forall m m', en m' - en m = - dot (field m) (vsub m' m) - dot (vsub m' m) (A (vsub m' m)) / 2.
Proof.
  intros m m'. assert (E : forall x, en x = - dot H0 x - dot x (A x) / 2).
  { intros x. unfold moment_energy, follows, axis_field. rewrite dot_add_r, dot_scale_r, (dot_comm x uk). field. }
  rewrite !E, field_follows. set (y := vsub m' m). replace m' with (vadd m y) by (unfold y; clear; vring).
  rewrite (lin_add _ _ (follows_linear hk d uk D HD)). rewrite !dot_add_l, !dot_add_r, (A_sym m y), (dot_comm y (A m)). field.
Qed.

Definition c1 : R := 2 * gamma0 * kap + gamma0 * bg * (1 + alpha).
Definition c2 : R := (1 + alpha) / gamma0 * c1 + 9 / 8 * bg + 9 / 2 * kap.
Definition gentle (h : R) : Prop := h * c1 <= 1 / 2 /\ h * gamma0 * bg <= 1 /\ lp * (3 * h) <= 1 / 4 /\ h * c2 <= alpha / (2 * gamma0).
(** the velocity kept from the last step is not much larger than the one of the equation *)
Definition settled (s : vec * vec) : Prop := dot (fst s) (fst s) = 1 /\ vnorm (snd s) <= 2 * vnorm (wex (fst s)).
Definition rate_of_loss : R := alpha * gamma0 / (2 * ((1 + alpha) * (1 + alpha))).

Lemma rate_pos : 0 < rate_of_loss.
Proof. unfold rate_of_loss. apply Rdiv_lt_0_compat; nra. Qed.
Lemma c1_pos : 0 <= c1.
Proof.
  pose proof (kappa_pos hk d uk D HD). pose proof (big_pos hk d uk H0 D HD). unfold c1.
  assert (0 <= 2 * gamma0 * kap) by (repeat apply Rmult_le_pos; lra). assert (0 <= gamma0 * bg * (1 + alpha)) by (repeat apply Rmult_le_pos; lra). lra.
Qed.
Lemma c2_pos : 0 <= c2.
Proof.
  pose proof (kappa_pos hk d uk D HD). pose proof (big_pos hk d uk H0 D HD). pose proof c1_pos. unfold c2.
  assert (0 <= (1 + alpha) / gamma0). { apply Rmult_le_pos; [lra|apply Rlt_le, Rinv_0_lt_compat; lra]. }
  assert (0 <= (1 + alpha) / gamma0 * c1) by (apply Rmult_le_pos; lra). lra.
Qed.

Lemma relax_step : forall dt m v, 0 < dt -> gentle dt -> settled (m, v) ->
  let w := sv dt m v in let m' := next_moment dt m w in
  settled (m', w) /\ en m' <= en m - rate_of_loss * dt * (rho m * rho m).
Proof.
  intros dt m v Hdt (G1 & G2 & G3 & G4) [Hm Hv] w m'. cbn [fst snd] in Hm, Hv.
  pose proof (kappa_pos hk d uk D HD) as Kp. pose proof (big_pos hk d uk H0 D HD) as Bp. pose proof c1_pos as C1p. pose proof c2_pos as C2p.
  pose proof (lips_pos gamma0 hk d uk H0 D Hg HD) as Lp.
  destruct (prec_torque gamma0 alpha m (field m) Hg Hal Hm) as [T1 T2]. pose proof (wex_big gamma0 alpha hk d uk H0 D Hg HD m Hm) as Nf.
  assert (Tf : dot m (wex m) = 0) by apply precession_tangent.
  assert (Tw : dot m w = 0) by apply precession_tangent.
  assert (Ff : vadd (vscale alpha (wex m)) (cross m (wex m)) = vscale gamma0 (vsub (field m) (vscale (dot m (field m)) m))) by (apply precession_force; exact Hm).
  assert (DA : Rabs (scheme_damping gamma0 dt alpha hk uk (vadd H0 (D m)) m - alpha) <= gamma0 * dt / 2 * bg).
  { unfold scheme_damping. fold (field m). set (x := dot m (field m)).
    assert (Ax : Rabs x <= bg). { unfold x. eapply Rle_trans; [apply cauchy|]. pose proof (field_big hk d uk H0 D HD m Hm). apply vnorm_1 in Hm. rewrite Hm. lra. }
    destruct (C48_alpha_eff gamma0 dt alpha Hg Hdt Hal) as (_ & Z & I).
    assert (Gd : 0 <= gamma0 * dt / 2) by nra. apply Rabs_le_inv in Ax.
    destruct (Rle_or_lt x 0) as [L|L].
    - pose proof (I x 0 L) as J. rewrite Z in J. apply Rabs_le. split; [nra|]. nra.
    - pose proof (I 0 x ltac:(lra)) as J. rewrite Z in J. apply Rabs_le. split; nra. }
  set (a := scheme_damping gamma0 dt alpha hk uk (vadd H0 (D m)) m) in *.
  set (F := scheme_field theta dt hk uk (vadd H0 (D m)) (rate first_order D v) m v).
  assert (EF : F = vadd (field m) (vscale (theta * dt) (vadd (rate first_order D v) (axis_field hk uk v)))).
  { unfold F, scheme_field, total_field, axis_field. generalize (D m) (rate first_order D v). intros. rewrite dot_add_r, dot_scale_r. generalize (dot uk m) (dot uk v). intros. clear. vring. }
  set (f := wex m) in *. set (r := rho m) in *.
  assert (f0 : 0 <= vnorm f) by apply vnorm_pos. assert (r0 : 0 <= r) by apply vnorm_pos.
  assert (DW : vnorm (vsub w f) <= dt * c1 * vnorm f).
  { eapply Rle_trans; [apply (norm_tri w (precession gamma0 a m (field m)))|]. change w with (precession gamma0 a m F). rewrite prec_sub.
    pose proof (prec_norm gamma0 a m (vsub F (field m)) Hg Hm) as P1. pose proof (prec_damping_torque gamma0 a alpha m (field m) Hg Hm) as P2. fold r in P2. fold f in P2.
    assert (dF : vnorm (vsub F (field m)) <= dt * (kap * (2 * vnorm f))).
    { replace (vsub F (field m)) with (vscale (theta * dt) (vadd (rate first_order D v) (axis_field hk uk v))).
      2: { rewrite EF. generalize (field m) (vadd (rate first_order D v) (axis_field hk uk v)). intros. clear. vring. }
      rewrite norm_scale, Rabs_pos_eq by nra. pose proof (follow_rate first_order hk d uk D HD v) as F1.
      pose proof (vnorm_pos (vadd (rate first_order D v) (axis_field hk uk v))) as F0.
      assert (kap * vnorm v <= kap * (2 * vnorm f)) by (apply Rmult_le_compat_l; lra).
      apply Rmult_le_compat; [nra|assumption|nra|lra]. }
    assert (Q1 : gamma0 * vnorm (vsub F (field m)) <= gamma0 * (dt * (kap * (2 * vnorm f)))) by (apply Rmult_le_compat_l; lra).
    assert (Q2 : 2 * Rabs (a - alpha) * (gamma0 * r) <= gamma0 * dt * bg * ((1 + alpha) * vnorm f)).
    { apply Rmult_le_compat; [pose proof (Rabs_pos (a - alpha)); lra|nra|lra|exact T2]. }
    replace (dt * c1 * vnorm f) with (gamma0 * (dt * (kap * (2 * vnorm f))) + gamma0 * dt * bg * ((1 + alpha) * vnorm f)) by (unfold c1; ring). lra. }
  assert (Dh : dt * c1 * vnorm f <= 1 / 2 * vnorm f) by (apply Rmult_le_compat_r; assumption).
  assert (NW : vnorm w <= 3 / 2 * vnorm f).
  { replace w with (vadd f (vsub w f)) by (clear; vring). eapply Rle_trans; [apply norm_add|]. lra. }
  assert (Wp : 0 <= vnorm w) by apply vnorm_pos.
  assert (Dw1 : dt * vnorm w <= 3 / 2).
  { apply Rle_trans with (3 / 2 * (dt * gamma0 * bg)); [|lra]. apply Rle_trans with (dt * (3 / 2 * (gamma0 * bg))); [|lra]. apply Rmult_le_compat_l; lra. }
  assert (Hm' : dot m' m' = 1). { apply next_unit; [exact Hm|]. rewrite dot_comm. exact Tw. }
  assert (Nz : vnorm (vsub m' (vadd m (vscale dt w))) <= dt * vnorm w * (dt * vnorm w) / 2).
  { pose proof (norm_small m (vscale dt w) Hm ltac:(rewrite dot_scale_r, Tw; ring)) as N1. fold (next_moment dt m w) in N1. fold m' in N1.
    rewrite dot_scale_l, dot_scale_r, <- vnorm_sq in N1. lra. }
  assert (Nd : vnorm (vsub m' m) <= 3 * dt * vnorm f).
  { eapply Rle_trans; [apply (norm_tri _ (vadd m (vscale dt w)))|].
    replace (vsub (vadd m (vscale dt w)) m) with (vscale dt w) by (clear; vring). rewrite norm_scale, Rabs_pos_eq by lra.
    assert (X : dt * vnorm w * (dt * vnorm w) <= dt * vnorm w * (3 / 2)) by (apply Rmult_le_compat_l; nra).
    assert (Y : dt * vnorm w <= dt * (3 / 2 * vnorm f)) by (apply Rmult_le_compat_l; lra). assert (0 <= dt * vnorm f) by nra. lra. }
  split.
  - split; cbn [fst snd]; [exact Hm'|].
    pose proof (wex_lip gamma0 alpha hk d uk H0 D Hg HD m m' Hm Hm') as WL. fold f in WL. rewrite (norm_sub_sym m m') in WL.
    assert (X : lp * vnorm (vsub m' m) <= lp * (3 * dt * vnorm f)) by (apply Rmult_le_compat_l; assumption).
    assert (Y : lp * (3 * dt) * vnorm f <= 1 / 4 * vnorm f) by (apply Rmult_le_compat_r; assumption).
    assert (Z : vnorm f <= vnorm (vsub f (wex m')) + vnorm (wex m')).
    { set (f' := wex m'). replace f with (vadd (vsub f f') f') at 1 by (clear; vring). apply norm_add. }
    lra.
  - assert (Ff2 : dot (field m) f = alpha / gamma0 * (vnorm f * vnorm f)).
    { pose proof (f_equal (dot f) Ff) as E. rewrite dot_add_r, !dot_scale_r, dot_sub_r, dot_scale_r, cross_dot_r, (dot_comm f m), Tf, (dot_comm f (field m)) in E.
      rewrite vnorm_sq. replace (dot (field m) f) with (gamma0 * (dot (field m) f - dot m (field m) * 0) / gamma0) by (field; lra). rewrite <- E. field. lra. }
    assert (Fe : Rabs (dot (field m) (vsub w f)) <= r * (dt * c1 * vnorm f)).
    { eapply Rle_trans; [apply (tangent_force m); [exact Hm|rewrite dot_sub_r, Tw, Tf; ring]|]. apply Rmult_le_compat_l; [exact r0|exact DW]. }
    assert (Fz : Rabs (dot (field m) (vsub m' (vadd m (vscale dt w)))) <= bg * (dt * vnorm w * (dt * vnorm w) / 2)).
    { eapply Rle_trans; [apply cauchy|]. apply Rmult_le_compat; auto using vnorm_pos. apply (field_big hk d uk H0 D HD). exact Hm. }
    assert (Aq : Rabs (dot (vsub m' m) (A (vsub m' m))) <= kap * (3 * dt * vnorm f * (3 * dt * vnorm f))).
    { eapply Rle_trans; [apply cauchy|]. pose proof (lin_bound _ _ (follows_linear hk d uk D HD) (vsub m' m)) as LB.
      apply Rle_trans with (vnorm (vsub m' m) * (kap * vnorm (vsub m' m))). { apply Rmult_le_compat_l; [apply vnorm_pos|exact LB]. }
      replace (vnorm (vsub m' m) * (kap * vnorm (vsub m' m))) with (kap * (vnorm (vsub m' m) * vnorm (vsub m' m))) by ring.
      apply Rmult_le_compat_l; [exact Kp|]. apply Rmult_le_compat; auto using vnorm_pos. }
    pose proof (energy_change m m') as EC.
    assert (Ed : dot (field m) (vsub m' m) = dt * (dot (field m) f + dot (field m) (vsub w f)) + dot (field m) (vsub m' (vadd m (vscale dt w)))).
    { rewrite !dot_sub_r, dot_add_r, dot_scale_r. ring. }
    rewrite Ed, Ff2 in EC. apply Rabs_le_inv in Fe. apply Rabs_le_inv in Fz. apply Rabs_le_inv in Aq.
    assert (Ww : dt * vnorm w * (dt * vnorm w) <= dt * dt * (9 / 4 * (vnorm f * vnorm f))).
    { assert (dt * vnorm w <= dt * (3 / 2 * vnorm f)) by (apply Rmult_le_compat_l; lra).
      replace (dt * dt * (9 / 4 * (vnorm f * vnorm f))) with (dt * (3 / 2 * vnorm f) * (dt * (3 / 2 * vnorm f))) by field. apply Rmult_le_compat; nra. }
    assert (Bw : bg * (dt * vnorm w * (dt * vnorm w) / 2) <= bg * (dt * dt * (9 / 8 * (vnorm f * vnorm f)))) by (apply Rmult_le_compat_l; lra).
    assert (Rf : r * vnorm f <= (1 + alpha) / gamma0 * (vnorm f * vnorm f)).
    { assert (r <= (1 + alpha) / gamma0 * vnorm f).
      { apply Rmult_le_reg_l with gamma0; [exact Hg|]. replace (gamma0 * ((1 + alpha) / gamma0 * vnorm f)) with ((1 + alpha) * vnorm f) by (field; lra). exact T2. }
      replace ((1 + alpha) / gamma0 * (vnorm f * vnorm f)) with ((1 + alpha) / gamma0 * vnorm f * vnorm f) by ring. apply Rmult_le_compat_r; assumption. }
    assert (Rg : dt * (r * (dt * c1 * vnorm f)) <= dt * dt * ((1 + alpha) / gamma0 * c1 * (vnorm f * vnorm f))).
    { replace (dt * (r * (dt * c1 * vnorm f))) with (dt * dt * c1 * (r * vnorm f)) by ring.
      replace (dt * dt * ((1 + alpha) / gamma0 * c1 * (vnorm f * vnorm f))) with (dt * dt * c1 * ((1 + alpha) / gamma0 * (vnorm f * vnorm f))) by ring.
      apply Rmult_le_compat_l; [|exact Rf]. apply Rmult_le_pos; nra. }
    assert (De : - dt * (r * (dt * c1 * vnorm f)) <= dt * dot (field m) (vsub w f)).
    { replace (- dt * (r * (dt * c1 * vnorm f))) with (dt * - (r * (dt * c1 * vnorm f))) by ring. apply Rmult_le_compat_l; lra. }
    assert (S2 : dt * dt * (c2 * (vnorm f * vnorm f)) <= dt * (alpha / (2 * gamma0) * (vnorm f * vnorm f))).
    { rewrite (Rmult_assoc dt dt). apply Rmult_le_compat_l; [lra|]. rewrite <- Rmult_assoc. apply Rmult_le_compat_r; [nra|exact G4]. }
    assert (S1 : en m' - en m <= - (dt * (alpha / gamma0 * (vnorm f * vnorm f))) + dt * dt * (c2 * (vnorm f * vnorm f))) by (unfold c2; lra).
    assert (S3 : rate_of_loss * dt * (r * r) <= dt * (alpha / (2 * gamma0) * (vnorm f * vnorm f))).
    { unfold rate_of_loss. assert (Sq : gamma0 * r * (gamma0 * r) <= (1 + alpha) * vnorm f * ((1 + alpha) * vnorm f)) by (apply Rmult_le_compat; nra).
      replace (alpha * gamma0 / (2 * ((1 + alpha) * (1 + alpha))) * dt * (r * r)) with (dt * alpha / (2 * gamma0 * ((1 + alpha) * (1 + alpha))) * (gamma0 * r * (gamma0 * r))) by (field; lra).
      replace (dt * (alpha / (2 * gamma0) * (vnorm f * vnorm f))) with (dt * alpha / (2 * gamma0 * ((1 + alpha) * (1 + alpha))) * ((1 + alpha) * vnorm f * ((1 + alpha) * vnorm f))) by (field; lra).
      apply Rmult_le_compat_l; [|exact Sq]. apply Rmult_le_pos; [nra|]. apply Rlt_le, Rinv_0_lt_compat. repeat apply Rmult_lt_0_compat; lra. }
    assert (Half : dt * (alpha / gamma0 * (vnorm f * vnorm f)) = 2 * (dt * (alpha / (2 * gamma0) * (vnorm f * vnorm f)))) by (field; lra).
    lra.
Qed.
Lemma energy_bounded : forall m, dot m m = 1 -> Rabs (en m) <= bg.
Proof.
  intros m Hm. assert (E : en m = - dot H0 m - dot m (A m) / 2).
  { unfold moment_energy, follows, axis_field. rewrite dot_add_r, dot_scale_r, (dot_comm m uk). field. }
  rewrite E. pose proof (cauchy H0 m) as C1. pose proof (cauchy m (A m)) as C2. pose proof (lin_bound _ _ (follows_linear hk d uk D HD) m) as LB.
  apply vnorm_1 in Hm. rewrite Hm in *. apply Rabs_le_inv in C1. apply Rabs_le_inv in C2. pose proof (kappa_pos hk d uk D HD). apply Rabs_le. unfold big. lra.
Qed.

Lemma gentle_le : forall dt h, 0 < dt <= h -> gentle h -> gentle dt.
Proof.
  intros dt h [Hdt Hh] (G1 & G2 & G3 & G4). pose proof (big_pos hk d uk H0 D HD) as Bp. pose proof c1_pos as C1p. pose proof c2_pos as C2p.
  pose proof (lips_pos gamma0 hk d uk H0 D Hg HD) as Lp. repeat split.
  - eapply Rle_trans; [|exact G1]. apply Rmult_le_compat_r; assumption.
  - eapply Rle_trans; [|exact G2]. rewrite !Rmult_assoc. apply Rmult_le_compat_r; [nra|exact Hh].
  - eapply Rle_trans; [|exact G3]. apply Rmult_le_compat_l; [exact Lp|lra].
  - eapply Rle_trans; [|exact G4]. apply Rmult_le_compat_r; assumption.
Qed.

Lemma gentle_exists : exists h0, 0 < h0 /\ forall h, 0 <= h <= h0 -> gentle h.
Proof.
  pose proof (big_pos hk d uk H0 D HD) as Bp. pose proof c1_pos as C1p. pose proof c2_pos as C2p. pose proof (lips_pos gamma0 hk d uk H0 D Hg HD) as Lp.
  set (q := c2 * (2 * gamma0) / alpha). assert (Q : 0 <= q). { unfold q. apply Rmult_le_pos; [nra|]. apply Rlt_le, Rinv_0_lt_compat, Hal. }
  set (P := 1 + 2 * c1 + gamma0 * bg + 12 * lp + q). assert (P0 : 0 < P) by (unfold P; nra).
  pose proof (Rinv_0_lt_compat _ P0) as Pi. assert (PP : / P * P = 1) by (apply Rinv_l; lra).
  exists (/ P). split; [exact Pi|]. intros h [Hh0 Hh].
  assert (X : forall x, 0 <= x <= P -> h * x <= 1). { intros x [x0 x1]. apply Rle_trans with (/ P * P); [|lra]. apply Rmult_le_compat; assumption. }
  pose proof (X (2 * c1) ltac:(unfold P; nra)). pose proof (X (gamma0 * bg) ltac:(unfold P; nra)). pose proof (X (12 * lp) ltac:(unfold P; nra)). pose proof (X q ltac:(unfold P; nra)) as Y.
  repeat split; [lra|lra|lra|].
  replace (h * c2) with (h * q * (alpha / (2 * gamma0))) by (unfold q; field; lra).
  rewrite <- (Rmult_1_l (alpha / (2 * gamma0))) at 2. apply Rmult_le_compat_r; [|exact Y]. apply Rmult_le_pos; [lra|]. apply Rlt_le, Rinv_0_lt_compat. lra.
Qed.

(** one pass of a run *)
Lemma relax_pass : forall f s h, gentle h -> f_H f = vadd H0 (D (fst s)) -> f_Hdot f = rate first_order D (snd s) -> 0 < t_dt (f_trial f) <= h -> settled s ->
  let s' := moment_pass gamma0 theta alpha hk uk s f in
  settled s' /\ 0 <= elapsed [f] /\ en (fst s') <= en (fst s) - rate_of_loss * elapsed [f] * (rho (fst s) * rho (fst s)).
Proof.
  intros f s h Gh F1 F2 F3 Hs. destruct s as [m v]. cbn [fst snd] in *. unfold elapsed. cbn [map lsum]. unfold moment_pass.
  destruct (t_solution (f_trial f)) as [X|]; [|cbn [fst]; split; [exact Hs|lra]].
  destruct (t_accepted (f_trial f)); [|cbn [fst]; split; [exact Hs|lra]].
  rewrite F1, F2. set (dt := t_dt (f_trial f)) in *.
  pose proof (relax_step dt m v ltac:(lra) (gentle_le dt h F3 Gh) Hs) as [R1 R2]. cbv zeta. fold (sv dt m v). cbn [fst].
  split; [exact R1|]. split; [lra|]. rewrite Rplus_0_r. exact R2.
Qed.
End relax.

(** ** C110 *)
(** the run of a uniform sample: C107 and C108 *)
Definition uniform_run (first_order : bool) (gamma0 theta alpha hk : R) (uk H0 : vec) (D : vec -> vec) (h mu0 pref : R) (paranoid : bool)
    (body : material_body) (l : mesh_nodes) (fs : list pass) (m0 : vec) : Prop :=
  0 <= pref /\ same_anisotropy mu0 alpha hk uk body /\ sample mu0 l body /\ uniform_state l (m0, vzero) /\ dot m0 m0 = 1 /\
  run_of mu0 gamma0 theta pref paranoid body l fs /\ in_field first_order gamma0 theta alpha hk h uk H0 D fs (m0, vzero).
(** the simulated time that the run has spent with a torque on node i above eps *)
Fixpoint time_above (paranoid : bool) (tq : vec -> R) (eps : R) (i : nat) (l : mesh_nodes) (fs : list pass) : R :=
  match fs with
  | [] => 0
  | f :: fs' => (if Rlt_dec eps (tq (u_of l i)) then elapsed [f] else 0) + time_above paranoid tq eps i (run_trials paranoid [f_trial f] l) fs'
  end.

Lemma run_trials_cons : forall paranoid f fs l, run_trials paranoid (map f_trial (f :: fs)) l = run_trials paranoid (map f_trial fs) (run_trials paranoid [f_trial f] l).
Proof. intros. unfold run_trials. cbn [map flat_map]. rewrite app_nil_r, fold_left_app. reflexivity. Qed.

Lemma run_state : forall first_order gamma0 theta alpha hk uk H0 D d h mu0 pref paranoid body, 0 < gamma0 -> 0 <= theta <= 1 -> 0 < alpha -> linear D d -> (forall x y, dot x (D y) = dot (D x) y) ->
  gentle gamma0 alpha hk d uk H0 h -> 0 <= pref -> same_anisotropy mu0 alpha hk uk body ->
  forall f fs l s, sample mu0 l body -> uniform_state l s -> settled gamma0 alpha hk uk H0 D s -> run_of mu0 gamma0 theta pref paranoid body l (f :: fs) ->
  in_field first_order gamma0 theta alpha hk h uk H0 D (f :: fs) s ->
  let l' := run_trials paranoid [f_trial f] l in let s' := moment_pass gamma0 theta alpha hk uk s f in
  sample mu0 l' body /\ uniform_state l' s' /\ settled gamma0 alpha hk uk H0 D s' /\ run_of mu0 gamma0 theta pref paranoid body l' fs /\
  in_field first_order gamma0 theta alpha hk h uk H0 D fs s' /\ 0 <= elapsed [f] /\
  moment_energy H0 D hk uk (fst s') <= moment_energy H0 D hk uk (fst s) - rate_of_loss gamma0 alpha * elapsed [f] * (torque H0 D hk uk (fst s) * torque H0 D hk uk (fst s)).
Proof.
  intros fo gamma0 theta alpha hk uk H0 D d h mu0 pref paranoid body Hg Hth Hal HD Hsy Gh Hp Hm f fs l s Hs Hu Se [Hf Hr] (F1 & F2 & F3 & Hi) l' s'.
  destruct s as [m v].
  destruct (pass_uniform mu0 gamma0 theta pref alpha hk uk paranoid body Hg (proj1 Hth) Hp Hm l f (m, v) Hs Hu (proj1 Se) Hf) as [U N].
  destruct (relax_pass fo gamma0 theta alpha hk d uk H0 D Hg Hth Hal HD Hsy f (m, v) h Gh F1 F2 F3 Se) as (R1 & R2 & R3).
  split; [apply pass_sample; exact Hs|]. split; [exact U|]. split; [exact R1|]. split; [exact Hr|]. split; [exact Hi|]. split; [exact R2|exact R3].
Qed.

Lemma start_settled : forall gamma0 alpha hk uk H0 D m0, dot m0 m0 = 1 -> settled gamma0 alpha hk uk H0 D (m0, vzero).
Proof.
  intros. split; cbn [fst snd]; [assumption|]. replace vzero with (vscale 0 vzero) by vring. rewrite norm_scale, Rabs_R0, Rmult_0_l.
  pose proof (vnorm_pos (precession gamma0 alpha m0 (total_field H0 D hk uk m0))). lra.
Qed.

(** For given fields (the demagnetizing tensor being symmetric) there are a threshold h0 and a rate c such that, in every run whose steps do not exceed h0,
    on every mesh: every accepted step lowers the energy of the moment by at least c times its duration times the square of the torque. *)
Theorem C110_dissipation : forall first_order gamma0 theta alpha hk uk d H0 D,
  0 < gamma0 -> 0 <= theta <= 1 -> 0 < alpha -> linear D d -> (forall x y, dot x (D y) = dot (D x) y) ->
  exists c h0, 0 < c /\ 0 < h0 /\
  forall mu0 pref paranoid body l fs m0 h, 0 <= h <= h0 -> uniform_run first_order gamma0 theta alpha hk uk H0 D h mu0 pref paranoid body l fs m0 ->
  forall fs1 f fs2, fs = fs1 ++ f :: fs2 ->
  let l1 := run_trials paranoid (map f_trial fs1) l in
  let l2 := run_trials paranoid (map f_trial (fs1 ++ [f])) l in
  forall i, (i < length l)%nat -> fst (nth i l (false, no_node)) = true ->
  0 <= elapsed [f] /\
  moment_energy H0 D hk uk (u_of l2 i) <= moment_energy H0 D hk uk (u_of l1 i) - c * elapsed [f] * (torque H0 D hk uk (u_of l1 i) * torque H0 D hk uk (u_of l1 i)).
Proof.
  intros fo gamma0 theta alpha hk uk d H0 D Hg Hth Hal HD Hsy.
  destruct (gentle_exists gamma0 alpha hk d uk H0 D Hg Hal HD) as (h0 & Hh0 & Gen).
  exists (rate_of_loss gamma0 alpha), h0. split; [apply rate_pos; assumption|]. split; [exact Hh0|].
  intros mu0 pref paranoid body l fs m0 h Hh (Hp & Hm & Hs & Hu & H1 & Hr & Hi). specialize (Gen h Hh).
  pose proof (start_settled gamma0 alpha hk uk H0 D m0 H1) as Se. generalize dependent (m0, vzero). clear H1 m0. revert l fs Hs Hr.
  intros l fs Hs Hr s Hu Hi Se fs1. revert l fs Hs Hr s Hu Hi Se.
  induction fs1 as [|f1 fs1 IH]; intros l fs Hs Hr s Hu Hi Se f fs2 ->.
  - cbn [app] in Hr, Hi. cbn [app map]. cbv zeta. intros i Li Em.
    destruct (run_state fo gamma0 theta alpha hk uk H0 D d h mu0 pref paranoid body Hg Hth Hal HD Hsy Gen Hp Hm f fs2 l s Hs Hu Se Hr Hi) as (A1 & A2 & A3 & A4 & A5 & A6 & A7).
    assert (E1 : u_of (run_trials paranoid [] l) i = fst s) by (rewrite <- (Hu i Li Em); reflexivity).
    assert (E2 : u_of (run_trials paranoid [f_trial f] l) i = fst (moment_pass gamma0 theta alpha hk uk s f)).
    { destruct (pass_nd paranoid (f_trial f) l i Li) as [P1 P2]. rewrite <- (A2 i); [reflexivity|rewrite pass_length; exact Li|rewrite P1; exact Em]. }
    rewrite E1, E2. split; assumption.
  - cbn [app] in Hr, Hi. cbv zeta. intros i Li Em. rewrite <- app_comm_cons. rewrite !run_trials_cons.
    destruct (run_state fo gamma0 theta alpha hk uk H0 D d h mu0 pref paranoid body Hg Hth Hal HD Hsy Gen Hp Hm f1 (fs1 ++ f :: fs2) l s Hs Hu Se Hr Hi) as (A1 & A2 & A3 & A4 & A5 & A6 & A7).
    destruct (pass_nd paranoid (f_trial f1) l i Li) as [P1 P2].
    apply (IH (run_trials paranoid [f_trial f1] l) (fs1 ++ f :: fs2) A1 A4 _ A2 A5 A3 f fs2 eq_refl i); [rewrite pass_length; exact Li|rewrite P1; exact Em].
Qed.

(** Then, for every eps there is a time T such that in every such run, however long, the simulated time spent with a torque above eps does not exceed T. *)
Theorem C110_relaxation : forall first_order gamma0 theta alpha hk uk d H0 D,
  0 < gamma0 -> 0 <= theta <= 1 -> 0 < alpha -> linear D d -> (forall x y, dot x (D y) = dot (D x) y) ->
  exists h0, 0 < h0 /\ forall eps, 0 < eps -> exists T,
  forall mu0 pref paranoid body l fs m0 h, 0 <= h <= h0 -> uniform_run first_order gamma0 theta alpha hk uk H0 D h mu0 pref paranoid body l fs m0 ->
  forall i, (i < length l)%nat -> fst (nth i l (false, no_node)) = true ->
  time_above paranoid (torque H0 D hk uk) eps i l fs <= T.
Proof.
  intros fo gamma0 theta alpha hk uk d H0 D Hg Hth Hal HD Hsy.
  destruct (gentle_exists gamma0 alpha hk d uk H0 D Hg Hal HD) as (h0 & Hh0 & Gen).
  exists h0. split; [exact Hh0|]. intros eps He. pose proof (rate_pos gamma0 alpha Hg Hal) as Rp. set (c := rate_of_loss gamma0 alpha) in *.
  set (B := big hk d uk H0). assert (Ce : 0 < c * (eps * eps)) by (apply Rmult_lt_0_compat; nra).
  exists (2 * B / (c * (eps * eps))).
  intros mu0 pref paranoid body l fs m0 h Hh (Hp & Hm & Hs & Hu & H1 & Hr & Hi). specialize (Gen h Hh).
  pose proof (start_settled gamma0 alpha hk uk H0 D m0 H1) as Se.
  intros i Li Em.
  assert (Key : c * (eps * eps) * time_above paranoid (torque H0 D hk uk) eps i l fs <= moment_energy H0 D hk uk m0 + B).
  { change m0 with (fst (m0, vzero)). generalize dependent (m0, vzero). clear H1 m0. revert l Hs Li Em Hr.
    induction fs as [|f fs IH]; intros l Hs Li Em Hr s Hu Hi Se.
    - cbn [time_above]. pose proof (energy_bounded hk d uk H0 D HD (fst s) (proj1 Se)) as Eb. apply Rabs_le_inv in Eb. fold B in Eb. lra.
    - destruct (run_state fo gamma0 theta alpha hk uk H0 D d h mu0 pref paranoid body Hg Hth Hal HD Hsy Gen Hp Hm f fs l s Hs Hu Se Hr Hi) as (A1 & A2 & A3 & A4 & A5 & A6 & A7).
      destruct (pass_nd paranoid (f_trial f) l i Li) as [P1 P2].
      specialize (IH (run_trials paranoid [f_trial f] l) A1 ltac:(rewrite pass_length; exact Li) ltac:(rewrite P1; exact Em) A4 _ A2 A5 A3).
      cbn [time_above]. assert (E1 : u_of l i = fst s) by (rewrite <- (Hu i Li Em); reflexivity). rewrite E1. fold c in A7.
      set (r := torque H0 D hk uk (fst s)) in *. set (e := elapsed [f]) in *. rewrite Rmult_plus_distr_l.
      destruct (Rlt_dec eps r) as [Lt|Ge].
      + assert (X : eps * eps <= r * r) by nra. assert (Y : c * e * (eps * eps) <= c * e * (r * r)) by (apply Rmult_le_compat_l; [nra|exact X]). lra.
      + assert (0 <= c * e * (r * r)) by (apply Rmult_le_pos; nra). lra. }
  pose proof (energy_bounded hk d uk H0 D HD m0 H1) as Eb. apply Rabs_le_inv in Eb. fold B in Eb.
  apply Rmult_le_reg_l with (c * (eps * eps)); [exact Ce|]. replace (c * (eps * eps) * (2 * B / (c * (eps * eps)))) with (2 * B) by (field; nra). lra.
Qed.

(** ** The hypotheses are met by runs of any length of C109: no applied field, an easy axis; the torque is not zero at first *)
Example C110_nonvacuous : forall first_order h N, 0 < h -> linear (fun _ => vzero) 0 /\ (forall x y : vec, dot x vzero = dot vzero y) /\
  exists fs, uniform_run first_order 1 (1 / 2) (1 / 2) 1 (V 0 0 1) vzero (fun _ => vzero) h 1 1 false (ex_body 1) (mesh_at (relax 0)) fs (relax 0) /\
    elapsed fs = INR N * h /\ 0 < torque vzero (fun _ => vzero) 1 (V 0 0 1) (relax 0).
Proof.
  intros fo h N Hh. destruct (C109_nonvacuous 0 h N Hh) as (L & _ & U1 & A & S & U & fs & R & I & E).
  split; [exact L|]. split. { intros x y. unfold dot, vzero. cbn [vx vy vz]. ring. }
  exists fs. split; [|split; [exact E|]].
  - unfold uniform_run. repeat (split; [first [lra|assumption]|]). clear - I. revert I. generalize (relax 0, vzero). induction fs as [|f fs IH]; intros s I; [exact I|].
    destruct I as (I1 & I2 & I3 & I4). cbn [in_field]. split; [exact I1|]. split; [rewrite I2; unfold rate; destruct fo; reflexivity|]. split; [exact I3|]. apply IH. exact I4.
  - assert (X1 : 0 < exp (2 / 5 * 0)) by apply exp_pos. set (x := exp (2 / 5 * 0)) in *.
    assert (Z : vz (relax 0) = x / sqrt (x ^ 2 + 1)) by (unfold relax; fold x; cbn [spiral vz]; apply relax_z).
    assert (Sp : 0 < sqrt (x ^ 2 + 1)) by (apply sqrt_lt_R0; simpl; nra). assert (Ss : sqrt (x ^ 2 + 1) * sqrt (x ^ 2 + 1) = x * x + 1) by (rewrite sqrt_sqrt; [simpl; ring|simpl; nra]).
    set (s := sqrt (x ^ 2 + 1)) in *. set (m := relax 0) in *. set (z := vz m) in *.
    assert (Zp : 0 < z) by (rewrite Z; apply Rdiv_lt_0_compat; assumption).
    assert (Zs : z * z < 1). { rewrite Z. replace (x / s * (x / s)) with (x * x / (s * s)) by (field; lra). rewrite Ss. apply Rmult_lt_reg_r with (x * x + 1); [nra|]. replace (x * x / (x * x + 1) * (x * x + 1)) with (x * x) by (field; nra). lra. }
    unfold torque. assert (Ef : total_field vzero (fun _ => vzero) 1 (V 0 0 1) m = vscale z (V 0 0 1)).
    { unfold total_field, axis_field. replace (dot (V 0 0 1) m) with z by (unfold dot; cbn [vx vy vz]; fold z; ring). clear. generalize z. intros k. vring. }
    rewrite Ef. unfold vnorm. apply sqrt_lt_R0. rewrite lagrange, U1, !dot_scale_r, dot_scale_l.
    replace (dot m (V 0 0 1)) with z by (unfold dot; cbn [vx vy vz]; fold z; ring). replace (dot (V 0 0 1) (V 0 0 1)) with 1 by (unfold dot; cbn [vx vy vz]; ring).
    pose proof (Rmult_lt_0_compat (z * z) (1 - z * z) ltac:(nra) ltac:(lra)). lra.
Qed.

Print Assumptions C110_dissipation.
Print Assumptions C110_relaxation.
