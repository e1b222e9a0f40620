(** * Property C96: the magnetization stays on the unit sphere in binary64 *)
From Coq Require Import Reals ZArith Bool List Lra Lia Psatz Floats.SpecFloat.
From Flocq Require Import Core BinarySingleNaN.
From Verif Require Import Arith ArithLaws Vec NodeModel RoundModel RoundProof.
Import ListNotations.
Local Open Scope R_scope.

(** ** Specification *)
(** the exact value of a vector of doubles *)
Definition value (a : vec3 B64) : vec := V (B2R (cx a : b64)) (B2R (cy a : b64)) (B2R (cz a : b64)).
(** no infinity, no NaN *)
Definition finite3 (a : vec3 B64) : Prop :=
  is_finite (cx a : b64) = true /\ is_finite (cy a : b64) = true /\ is_finite (cz a : b64) = true.
(** of norm one up to 2^-51 (four halves of the spacing of doubles at 1), without infinity or NaN *)
Definition unit64 (a : vec3 B64) : Prop := finite3 a /\ Rabs (vnorm (value a) - 1) <= / 2 ^ 51.

(** the computed displacement dt*v of one step *)
Definition displacement (m : move B64) : vec3 B64 := times3 (m_dt m) (step_v (m_vp m) (m_vq m) (m_ep m) (m_eq m)).

(** What a step is asked: its displacement is finite, of components below 2^248, and does not point
    backwards by more than 1/4 along the magnetization (without rounding it is orthogonal to it). *)
Definition ordinary (m : move B64) (u : vec3 B64) : Prop :=
  let d := displacement m in
  finite3 d /\ Rabs (vx (value d)) <= 2 ^ 248 /\ Rabs (vy (value d)) <= 2 ^ 248 /\ Rabs (vz (value d)) <= 2 ^ 248 /\
  - (1/4) <= dot (value u) (value d).

Fixpoint ordinary_history (left : bool) (ms : list (move B64)) (u : vec3 B64) : Prop :=
  match ms with [] => True | m :: r => ordinary m u /\ ordinary_history left r (moved left m u) end.

(** ** Proofs *)
Lemma bpow_nat : forall n, bpow radix2 (Z.of_nat n) = 2 ^ n.
Proof.
  induction n as [|n IH]; [reflexivity|].
  rewrite Nat2Z.inj_succ. unfold Z.succ. rewrite bpow_plus, IH. simpl. change (Z.pow_pos 2 1) with 2%Z. ring.
Qed.
Lemma bpow_neg_nat : forall n, bpow radix2 (- Z.of_nat n) = / 2 ^ n.
Proof. intros n. rewrite bpow_opp, bpow_nat. reflexivity. Qed.

Lemma value_sq : forall a, dot (value a) (value a) = sq3 a.
Proof. reflexivity. Qed.

Lemma uu_51 : / 2 ^ 51 = 4 * uu.
Proof.
  rewrite <- bpow_neg_nat. change (- Z.of_nat 51)%Z with (2 + -53)%Z. rewrite bpow_plus. simpl (bpow radix2 2). reflexivity.
Qed.

Lemma norm_of_square : forall a, Rabs (sq3 a - 1) <= 71/10 * uu -> Rabs (vnorm (value a) - 1) <= / 2 ^ 51.
Proof.
  intros a H. rewrite uu_51. unfold vnorm. rewrite value_sq. pose proof uu_small as Hu.
  set (u := uu) in *. clearbody u. apply Rabs_le_inv in H.
  assert (P : 0 <= sq3 a) by lra. pose proof (sqrt_sqrt _ P) as E. pose proof (sqrt_pos (sq3 a)) as S.
  set (n := sqrt (sq3 a)) in *. set (k := sq3 a) in *. clearbody n k. clear P. subst k.
  apply Rabs_le. split; apply Rnot_lt_le; intro C; nra.
Qed.

(** The normalization of Node::make_evol in double precision: any vector without infinity or NaN, of
    squared norm between 2^-500 and 2^500, becomes a unit vector up to 2^-51, whichever way the three
    squares are added. *)
Theorem C96_normalize_partial : forall left a, finite3 a ->
  / 2 ^ 500 <= dot (value a) (value a) <= 2 ^ 500 -> unit64 (normalize left a).
Proof.
  intros left a F H. rewrite value_sq, <- bpow_neg_nat, <- bpow_nat in H.
  destruct (normalize64 left a F) as [F' E].
  - change (- Z.of_nat 500)%Z with (-500)%Z in H. split; [lra|].
    apply Rle_trans with (bpow radix2 (Z.of_nat 500)); [lra|]. apply bpow_le. lia.
  - split; [exact F'|]. apply norm_of_square. exact E.
Qed.

Lemma add_comp : forall (x y : b64), is_finite x = true -> is_finite y = true -> Rabs (B2R x) <= 2 -> Rabs (B2R y) <= bpow radix2 248 ->
  is_finite (Bplus mode_NE x y) = true /\
  (B2R x + B2R y) * (B2R x + B2R y) * (9/10) - / 100 <= B2R (Bplus mode_NE x y) * B2R (Bplus mode_NE x y) <= bpow radix2 500.
Proof.
  intros x y Fx Fy Hx Hy.
  assert (B1 : 2 <= bpow radix2 248) by (change 2 with (bpow radix2 1); apply bpow_le; lia).
  assert (B2 : Rabs (B2R x + B2R y) <= bpow radix2 249).
  { eapply Rle_trans; [apply Rabs_triang|]. change 249%Z with (1 + 248)%Z. rewrite bpow_plus. simpl (bpow radix2 1). lra. }
  destruct (Badd64 x y Fx Fy) as [F V].
  - apply ok64_small. apply Rle_trans with (1 := B2). apply bpow_le. lia.
  - split; [exact F|]. rewrite V. pose proof (TimeB64.err64 (B2R x + B2R y)) as E.
    set (t := B2R x + B2R y) in *. set (w := rnd64 t) in *.
    assert (Hu : 0 < uu <= / 1000000) by exact uu_small.
    assert (He : 0 < ee <= / 1000000).
    { split; [apply bpow_gt_0|]. apply Rle_trans with (bpow radix2 (-20)); [apply bpow_le; lia|cbn; lra]. }
    assert (B250 : bpow radix2 500 = bpow radix2 249 * bpow radix2 249 * 4).
    { rewrite <- bpow_plus. change 4 with (bpow radix2 2). rewrite <- bpow_plus. reflexivity. }
    rewrite B250.
    assert (B9 : 1 <= bpow radix2 249) by (change 1 with (bpow radix2 0); apply bpow_le; lia).
    set (b := bpow radix2 249) in *. set (u := uu) in *. set (e := ee) in *. clearbody b u e w t.
    assert (T : t * t = Rabs t * Rabs t) by (rewrite <- Rabs_mult; symmetry; apply Rabs_pos_eq; nra).
    assert (W : w * w = Rabs w * Rabs w) by (rewrite <- Rabs_mult; symmetry; apply Rabs_pos_eq; nra).
    assert (L : Rabs t * (1 - u) - e <= Rabs w).
    { assert (Rabs t <= Rabs w + Rabs (w - t)). { replace t with (w - (w - t)) at 1 by ring. eapply Rle_trans; [apply Rabs_triang|]. rewrite Rabs_Ropp. lra. } lra. }
    assert (U : Rabs w <= Rabs t * (1 + u) + e).
    { replace w with (t + (w - t)) at 1 by ring. eapply Rle_trans; [apply Rabs_triang|]. lra. }
    rewrite T, W. pose proof (Rabs_pos t) as Pt. pose proof (Rabs_pos w) as Pw.
    set (a := Rabs t) in *. set (c := Rabs w) in *. clearbody a c. clear T W E V.
    split.
    + assert (L2 : a * (99/100) - / 1000000 <= c) by nra.
      destruct (Rle_or_lt (a * (99/100) - / 1000000) 0) as [N|N].
      * assert (a <= / 1000) by lra. nra.
      * assert ((a * (99/100) - / 1000000) * (a * (99/100) - / 1000000) <= c * c) by (apply Rmult_le_compat; lra). nra.
    + assert (c <= 2 * b) by nra. nra.
Qed.

Lemma unit_bound : forall u, unit64 u -> Rabs (B2R (cx u : b64)) <= 2 /\ Rabs (B2R (cy u : b64)) <= 2 /\ Rabs (B2R (cz u : b64)) <= 2 /\
  99/100 <= sq3 u.
Proof.
  intros u [F H]. rewrite uu_51 in H. pose proof uu_small as Hu. apply Rabs_le_inv in H.
  unfold vnorm in H. rewrite value_sq in H.
  assert (P : 0 <= sq3 u) by (unfold sq3; nra). pose proof (sqrt_sqrt _ P) as E. pose proof (sqrt_pos (sq3 u)) as S.
  set (n := sqrt (sq3 u)) in *.
  assert (N : 999/1000 <= n <= 2) by lra. assert (Q : 99/100 <= sq3 u <= 4) by nra.
  unfold sq3 in Q. repeat split; try (apply Rabs_sqr_le; nra). unfold sq3. lra.
Qed.

(** One step from a unit vector. *)
Theorem C96_step_partial : forall left m u, unit64 u -> ordinary m u -> unit64 (moved left m u).
Proof.
  intros left m u Hu (Fd & Dx & Dy & Dz & Hd). unfold moved, step_u. fold (displacement m).
  destruct (unit_bound u Hu) as (Ux & Uy & Uz & Q). destruct Hu as [(F1 & F2 & F3) _]. destruct Fd as (G1 & G2 & G3).
  set (d := displacement m) in *. clearbody d. clear m.
  rewrite <- bpow_nat in Dx, Dy, Dz. change (Z.of_nat 248) with 248%Z in *. unfold value in Dx, Dy, Dz, Hd. cbn [vx vy vz] in Dx, Dy, Dz.
  destruct (add_comp _ _ F1 G1 Ux Dx) as [A1 [L1 U1]]. destruct (add_comp _ _ F2 G2 Uy Dy) as [A2 [L2 U2]].
  destruct (add_comp _ _ F3 G3 Uz Dz) as [A3 [L3 U3]].
  destruct (normalize64 left (plus3 u d)) as [F' E].
  - repeat split; unfold plus3; cbn [cx cy cz nadd B64]; assumption.
  - unfold sq3, plus3. cbn [cx cy cz nadd B64]. unfold sq3 in Q. unfold dot in Hd. cbn [vx vy vz] in Hd.
    assert (B500 : bpow radix2 502 = 4 * bpow radix2 500) by (change 502%Z with (2 + 500)%Z; rewrite bpow_plus; reflexivity).
    pose proof (bpow_gt_0 radix2 500).
    split; [|rewrite B500; lra].
    apply Rle_trans with (/ 4); [change (/4) with (bpow radix2 (-2)); apply bpow_le; lia|].
    set (a := B2R (cx u : b64)) in *. set (b := B2R (cy u : b64)) in *. set (c := B2R (cz u : b64)) in *.
    set (x := B2R (cx d : b64)) in *. set (y := B2R (cy d : b64)) in *. set (z := B2R (cz d : b64)) in *.
    assert (K : 99/100 - 1/2 <= (a + x) * (a + x) + (b + y) * (b + y) + (c + z) * (c + z)).
    { assert (0 <= x * x) by nra. assert (0 <= y * y) by nra. assert (0 <= z * z) by nra. lra. }
    lra.
  - split; [exact F'|]. apply norm_of_square. exact E.
Qed.

(** Any number of steps: the error does not accumulate. *)
Theorem C96_history_partial : forall left ms u, unit64 u -> ordinary_history left ms u -> unit64 (history left ms u).
Proof.
  intros left ms. induction ms as [|m r IH]; intros u Hu H; [exact Hu|].
  destruct H as [H1 H2]. cbn [history]. apply IH; [|exact H2]. apply C96_step_partial; assumption.
Qed.

(** With exact arithmetic the same text is the step of [NodeModel.make_evol], of C17-C19. *)
Definition exact3 (a : vec) : vec3 XA := @mkV3 XA (Fin (vx a)) (Fin (vy a)) (Fin (vz a)).
Lemma exact_step : forall left u v dt,
  @step_u XA left (exact3 u) (exact3 v) (Fin dt) = exact3 (vnormalize (vadd u (vscale dt v))).
Proof.
  intros left u v dt. unfold step_u.
  assert (E : @plus3 XA (exact3 u) (@times3 XA (Fin dt) (exact3 v)) = exact3 (vadd u (vscale dt v))) by reflexivity.
  rewrite E. set (w := vadd u (vscale dt v)). clearbody w.
  unfold normalize.
  assert (S : @squared_norm XA left (exact3 w) = (Fin (dot w w) : num XA)).
  { unfold squared_norm, dot, exact3. cbn [cx cy cz nmul nadd XA xmul xadd]. destruct left; f_equal; ring. }
  rewrite S. cbv zeta. unfold vnormalize.
  assert (L : nlt (n0 : num XA) (Fin (dot w w) : num XA) = Rlt_bool 0 (dot w w)).
  { unfold n0. cbn [nlt nlit XA xlt]. replace (0 / 1) with 0 by lra. reflexivity. }
  rewrite L. destruct (Rlt_dec 0 (dot w w)) as [P|P].
  - rewrite Rlt_bool_true by exact P. cbn [nsqrt XA xsqrt]. rewrite Rlt_bool_false by lra.
    pose proof (sqrt_lt_R0 _ P) as Q. set (r := sqrt (dot w w)) in *.
    unfold exact3. cbn [cx cy cz ndiv XA xdiv]. rewrite Req_bool_false by lra. unfold vscale. cbn [vx vy vz].
    unfold Rdiv. rewrite !(Rmult_comm _ (/ r)). reflexivity.
  - rewrite Rlt_bool_false by lra. reflexivity.
Qed.

Theorem C96_same_step : forall left m n vp vq dt,
  @m_vp XA m = Fin vp -> m_vq m = Fin vq -> m_dt m = Fin dt -> m_ep m = exact3 (ep n) -> m_eq m = exact3 (eq_ n) ->
  moved left m (exact3 (d_u (cur n))) = exact3 (d_u (nxt (make_evol vp vq dt n))).
Proof.
  intros left [mvp mvq mep meq mdt] n vp vq dt Ep Eq Et E1 E2. cbn [m_vp m_vq m_ep m_eq m_dt] in *. subst.
  unfold moved, make_evol. cbn [nxt d_u m_vp m_vq m_ep m_eq m_dt]. rewrite <- (exact_step left). reflexivity.
Qed.

(** ** Outside the range: a displacement of 2^520 (finite) sends the unit vector to zero. *)
Definition z3 (x y z : Z) : vec3 B64 := @mkV3 B64 (b64_of_Z x) (b64_of_Z y) (b64_of_Z z).
Definition huge : move B64 := @mkMove B64 (b64_of_Z (2 ^ 520)) (b64_of_Z 0) (z3 0 1 0) (z3 0 0 1) (b64_of_Z 1).

Lemma B2R_zero : forall x : b64, match x with B754_zero _ => true | _ => false end = true -> B2R x = 0.
Proof. intros x H. destruct x; try discriminate. reflexivity. Qed.

Theorem C96_overflow_refuted : exists m u,
  unit64 u /\ finite3 (displacement m) /\ dot (value u) (value (displacement m)) = 0 /\
  forall left, value (moved left m u) = vzero.
Proof.
  exists huge, (z3 1 0 0). split; [|split; [|split]].
  - split; [repeat split; vm_compute; reflexivity|].
    assert (E : value (z3 1 0 0) = V 1 0 0).
    { unfold value, z3. cbn [cx cy cz].
      rewrite (proj2 (b64_of_Z_correct 1 ltac:(lia))), (proj2 (b64_of_Z_correct 0 ltac:(lia))). reflexivity. }
    rewrite E. unfold vnorm, dot. cbn [vx vy vz]. replace (1 * 1 + 0 * 0 + 0 * 0) with 1 by ring. rewrite sqrt_1.
    replace (1 - 1) with 0 by ring. rewrite Rabs_R0. left. apply Rinv_0_lt_compat. apply pow_lt. lra.
  - repeat split; vm_compute; reflexivity.
  - unfold dot, value. cbn [vx vy vz].
    rewrite (B2R_zero (cx (displacement huge))) by (vm_compute; reflexivity).
    rewrite (B2R_zero (cy (z3 1 0 0))) by (vm_compute; reflexivity).
    rewrite (B2R_zero (cz (z3 1 0 0))) by (vm_compute; reflexivity). ring.
  - intros left. unfold value, vzero. f_equal; apply B2R_zero; destruct left; vm_compute; reflexivity.
Qed.

(** ** Non-vacuity: two steps of 1/8 and 1/4 rad or so *)
Definition tilt : move B64 := @mkMove B64 (b64_of_Z 1) (b64_of_Z 2) (z3 0 1 0) (z3 0 0 1) (@nlit B64 1 8).

Lemma B2R_SF : forall (x : b64) s, B2SF x = s -> B2R x = SF2R radix2 s.
Proof. intros x s H. rewrite <- H. symmetry. apply SF2R_B2SF. Qed.

Ltac b2r s := etransitivity; [apply (B2R_SF _ s); vm_compute; reflexivity|].

Lemma unit_x : unit64 (z3 1 0 0).
Proof.
  split; [repeat split; vm_compute; reflexivity|].
  assert (E : value (z3 1 0 0) = V 1 0 0).
  { unfold value, z3. cbn [cx cy cz].
    rewrite (proj2 (b64_of_Z_correct 1 ltac:(lia))), (proj2 (b64_of_Z_correct 0 ltac:(lia))). reflexivity. }
  rewrite E. unfold vnorm, dot. cbn [vx vy vz]. replace (1 * 1 + 0 * 0 + 0 * 0) with 1 by ring. rewrite sqrt_1.
  replace (1 - 1) with 0 by ring. rewrite Rabs_R0. left. apply Rinv_0_lt_compat. apply pow_lt. lra.
Qed.

Lemma tilt_value : value (displacement tilt) = V 0 (1/8) (1/4).
Proof.
  assert (H : forall a b c d e f, a = d -> b = e -> c = f -> V a b c = V d e f) by (intros; subst; reflexivity).
  unfold value. apply H.
  - b2r (S754_zero false). reflexivity.
  - b2r (S754_finite false 4503599627370496 (-55)).
    unfold SF2R, F2R. cbn [Fnum Fexp cond_Zopp]. change (bpow radix2 (-55)) with (/ IZR (Z.pow_pos 2 55)). change (Z.pow_pos 2 55) with 36028797018963968%Z. lra.
  - b2r (S754_finite false 4503599627370496 (-54)).
    unfold SF2R, F2R. cbn [Fnum Fexp cond_Zopp]. change (bpow radix2 (-54)) with (/ IZR (Z.pow_pos 2 54)). change (Z.pow_pos 2 54) with 18014398509481984%Z. lra.
Qed.

Lemma tilt_ordinary : forall u : vec3 B64, 0 <= B2R (cy u : b64) -> 0 <= B2R (cz u : b64) -> ordinary tilt u.
Proof.
  intros u Hy Hz. unfold ordinary. rewrite tilt_value. cbn [vx vy vz].
  assert (P : 1 <= 2 ^ 248) by (apply pow_R1_Rle; lra).
  repeat split; try (vm_compute; reflexivity); try (rewrite Rabs_pos_eq by lra; lra).
  unfold dot, value. cbn [vx vy vz]. lra.
Qed.

Lemma nonneg_sign : forall x : b64, Bsign x = false -> 0 <= B2R x.
Proof.
  intros x H. destruct x as [s|s| |s m e B]; simpl in *; try lra. subst s. apply F2R_ge_0. simpl. lia.
Qed.

Example C96_nonvacuous : unit64 (z3 1 0 0) /\ ordinary_history true [tilt; tilt] (z3 1 0 0).
Proof.
  split; [exact unit_x|]. split; [|split; [|exact I]]; apply tilt_ordinary; apply nonneg_sign; vm_compute; reflexivity.
Qed.

Print Assumptions C96_normalize_partial.
Print Assumptions C96_step_partial.
Print Assumptions C96_history_partial.
Print Assumptions C96_same_step.
Print Assumptions C96_overflow_refuted.
