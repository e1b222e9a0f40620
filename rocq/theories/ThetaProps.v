(** * Property C98: the weights of the time scheme *)
From Coq Require Import List Reals ZArith Lra Lia.
From Flocq Require Import Core.
From Verif Require Import Vec Sums LinAlg SparseModel IterModel MeshModel ElemModel ElemProof ElemProps AvgModel AsmModel AsmProof AsmProps LlgProps NodeModel CgProof DissipProps ThetaModel.
Local Open Scope R_scope.

Lemma exp_ge : forall x, 0 <= x -> 1 + x <= exp x.
Proof. intros x Hx. destruct (Req_dec x 0) as [->|]; [rewrite exp_0; lra|apply Rlt_le, exp_ineq1; lra]. Qed.
Lemma ln_le_sub : forall x, 0 < x -> ln x <= x - 1.
Proof.
  intros x Hx. destruct (Rle_or_lt (ln x) (x - 1)) as [H|H]; [exact H|exfalso].
  assert (E : 1 + ln x <= exp (ln x)). { destruct (Req_dec (ln x) 0) as [->|N]; [rewrite exp_0; lra|apply Rlt_le, exp_ineq1; exact N]. }
  rewrite exp_ln in E by exact Hx. lra.
Qed.
Lemma exp_nat : forall n x, exp (INR n * x) = exp x ^ n.
Proof.
  induction n as [|n IH]; intros x; [cbn [INR]; rewrite Rmult_0_l, exp_0; reflexivity|].
  rewrite S_INR, Rmult_plus_distr_r, Rmult_1_l, exp_plus, IH. cbn [pow]. ring.
Qed.
Lemma ln100 : 1 <= ln 100 <= 5.
Proof.
  split.
  - rewrite <- (ln_exp 1). destruct (Rle_lt_or_eq_dec (exp 1) 100) as [H|H]; [pose proof exp_le_3; lra|left; apply ln_increasing; [apply exp_pos|exact H]|rewrite H; lra].
  - rewrite <- (ln_exp 5). left. apply ln_increasing; [lra|].
    replace 5 with (INR 64 * (5 / 64)) by (rewrite INR_IZR_INZ; simpl; lra). rewrite exp_nat.
    apply Rlt_le_trans with ((69 / 64) ^ 64).
    + unfold Rdiv. rewrite Rpow_mult_distr, pow_inv by lra. apply Rmult_lt_reg_r with (64 ^ 64); [apply pow_lt; lra|].
      rewrite Rmult_assoc, Rinv_l, Rmult_1_r by (apply pow_nonzero; lra).
      rewrite !pow_IZR, <- mult_IZR. apply IZR_lt. vm_compute. reflexivity.
    + apply pow_incr. split; [lra|]. pose proof (exp_ge (5 / 64) ltac:(lra)). lra.
Qed.

Lemma small_log : forall t, 0 < t <= 1 / 100 -> 0 <= - ln t /\ t * - ln t <= 1 / 20.
Proof.
  intros t [H0 H1]. pose proof ln100 as [L1 L2].
  assert (E : - ln t = ln 100 + ln (/ (100 * t))).
  { rewrite ln_Rinv, ln_mult by lra. ring. }
  assert (B : ln (/ (100 * t)) <= / (100 * t) - 1) by (apply ln_le_sub, Rinv_0_lt_compat; lra).
  assert (P : 0 <= ln (/ (100 * t))).
  { rewrite <- ln_1. destruct (Req_dec (/ (100 * t)) 1) as [->|N]; [lra|]. left. apply ln_increasing; [lra|].
    assert (1 <= / (100 * t)) by (rewrite <- Rinv_1; apply Rinv_le; lra). lra. }
  split; [lra|]. rewrite E.
  assert (M : t * (ln 100 + ln (/ (100 * t))) <= t * (ln 100 + (/ (100 * t) - 1))) by (apply Rmult_le_compat_l; lra).
  replace (t * (ln 100 + (/ (100 * t) - 1))) with (t * (ln 100 - 1) + 1 / 100) in M by (field; lra).
  assert (t * (ln 100 - 1) <= 1 / 100 * 4) by (apply Rmult_le_compat; lra). lra.
Qed.
Lemma root_log : forall t, 0 < t < 1 -> t * - ln t <= 2 * sqrt t.
Proof.
  intros t [H0 H1]. assert (S : 0 < sqrt t) by (apply sqrt_lt_R0; exact H0). assert (Q : sqrt t * sqrt t = t) by (apply sqrt_sqrt; lra).
  assert (E : - ln t = 2 * ln (/ sqrt t)). { rewrite ln_Rinv by exact S. rewrite <- Q at 1. rewrite ln_mult by exact S. ring. }
  pose proof (ln_le_sub (/ sqrt t) (Rinv_0_lt_compat _ S)) as B. rewrite E.
  apply Rle_trans with (t * (2 * / sqrt t)). { apply Rmult_le_compat_l; [lra|]. pose proof (Rinv_0_lt_compat _ S). lra. }
  rewrite <- Q at 1. right. field. lra.
Qed.

(** both readings of abs: between 0 and the opposite of a negative argument *)
Lemma abs_bounds : forall abs_ x, (abs_ = abs_double \/ abs_ = abs_int) -> 0 <= - x -> 0 <= abs_ x <= - x.
Proof.
  intros abs_ x [-> | ->] Hx.
  - unfold abs_double. rewrite Rabs_left1 by lra. lra.
  - unfold abs_int. rewrite Ztrunc_ceil by lra. unfold Zceil.
    assert (F : (0 <= Zfloor (- x))%Z) by (apply Zfloor_lub; exact Hx). rewrite Z.abs_opp, Z.abs_eq by exact F.
    split; [apply IZR_le; exact F|apply Zfloor_lb].
Qed.

(** C98: for every time step in ]0, DTMAX] the weight THETA * prefactor of the implicit part lies between 1/2 and 21/40, whichever abs
    is meant: the scheme is never less implicit than Crank-Nicolson, the condition under which C95 shows that the energy decreases. *)
Theorem C98_weight : forall abs_ DTMAX dt, (abs_ = abs_double \/ abs_ = abs_int) -> 0 < dt <= DTMAX ->
  1 / 2 <= THETA * prefactor abs_ DTMAX dt <= 21 / 40.
Proof.
  intros abs_ DTMAX dt Ha [H0 H1]. unfold THETA, prefactor. set (t := dt / TAUR DTMAX).
  assert (Ht : 0 < t <= 1 / 100).
  { unfold t, TAUR. split. { apply Rdiv_lt_0_compat; lra. } apply Rmult_le_reg_r with (100 * DTMAX); [lra|]. unfold Rdiv at 1. rewrite Rmult_assoc, Rinv_l by lra. lra. }
  destruct (small_log t Ht) as [A B]. destruct (abs_bounds abs_ (ln t) Ha A) as [C D].
  assert (0 <= t * abs_ (ln t)) by (apply Rmult_le_pos; lra).
  assert (t * abs_ (ln t) <= t * - ln t) by (apply Rmult_le_compat_l; lra). lra.
Qed.

(** and the correction vanishes with the time step: the scheme tends to Crank-Nicolson, of order 2 *)
Theorem C98_correction_vanishes : forall abs_ DTMAX dt, (abs_ = abs_double \/ abs_ = abs_int) -> 0 < dt <= DTMAX ->
  0 <= prefactor abs_ DTMAX dt - 1 <= 1 / 5 * sqrt (dt / DTMAX).
Proof.
  intros abs_ DTMAX dt Ha [H0 H1]. unfold prefactor. set (t := dt / TAUR DTMAX).
  assert (Ht : 0 < t <= 1 / 100).
  { unfold t, TAUR. split. { apply Rdiv_lt_0_compat; lra. } apply Rmult_le_reg_r with (100 * DTMAX); [lra|]. unfold Rdiv at 1. rewrite Rmult_assoc, Rinv_l by lra. lra. }
  destruct (small_log t Ht) as [A B]. destruct (abs_bounds abs_ (ln t) Ha A) as [C D]. pose proof (root_log t ltac:(lra)) as E.
  assert (0 <= t * abs_ (ln t)) by (apply Rmult_le_pos; lra).
  assert (t * abs_ (ln t) <= t * - ln t) by (apply Rmult_le_compat_l; lra).
  assert (S : sqrt (dt / DTMAX) = 10 * sqrt t).
  { replace (dt / DTMAX) with (10 * 10 * t) by (unfold t, TAUR; field; lra). rewrite sqrt_mult, sqrt_square by lra. reflexivity. }
  rewrite S. lra.
Qed.

(** With the weights of the code the energy of C95 decreases over a whole step, under the other hypotheses of C95_full_step_partial. *)
Theorem C98_energy_partial : forall abs_ DTMAX mu0 gamma0 dt Ms mag p u v phi phiv Hext ep eq body rhs y hmax,
  (abs_ = abs_double \/ abs_ = abs_int) -> 0 < dt <= DTMAX ->
  0 < mu0 -> 0 < Ms ->
  let ds := map (step_data mu0 gamma0 THETA dt (prefactor abs_ DTMAX dt) p u v phi phiv Hext ep eq) body in
  let els := map (llg_elem gamma0 dt p u ep eq) ds in
  let potential := fun i => phi i + THETA * dt * phiv i in
  llg_problem gamma0 dt mag p u ep eq ds -> one_material Ms body ->
  (forall m, In m body -> p_K (snd m) = 0 /\ 0 <= p_A (snd m) /\ nonobtuse (corner p (fst m)) /\
     gamma0 * dt * hmax <= 32 / 55 * p_alpha (snd m) /\
     forall j, (j < NPI)%nat -> vnorm (vadd (Hext (fst m) j) (interp_field (corner p (fst m)) (corner potential (fst m)))) <= hmax) ->
  loads (length mag) els rhs -> solves mag (system_matrix mag els) rhs y ->
  body_energy mu0 p Hext potential body (stepped gamma0 dt u ep eq y) <= body_energy mu0 p Hext potential body u.
Proof.
  intros abs_ DTMAX mu0 gamma0 dt Ms mag p u v phi phiv Hext ep eq body rhs y hmax Ha Hdt Hmu HMs ds els potential HP Hone HB Hl Hs.
  destruct (C98_weight abs_ DTMAX dt Ha Hdt) as [W _].
  pose proof (C95_full_step_partial mu0 gamma0 THETA dt (prefactor abs_ DTMAX dt) Ms mag p u v phi phiv Hext ep eq body rhs y hmax Hmu HMs ltac:(lra) HP Hone HB Hl Hs) as B.
  cbv zeta in B. fold potential in B.
  refine (Rle_trans _ _ _ _ B).
  assert (P : 0 <= gamma0 * dt * mu0 * Ms). { pose proof (lp_gamma _ _ _ _ _ _ _ _ HP). repeat apply Rmult_le_pos; lra. }
  assert (Q : 0 <= lsum (map (fun m => (52 / 275 * p_alpha (snd m) - 13 / 40 * (gamma0 * dt * hmax)) * tet_vol p (fst m)
        * lsum (map (fun i => sqn (velocity ep eq y i)) (tet_nodes (fst m)))) body)).
  { apply lsum_nonneg. intros m Hm. destruct (HB m Hm) as (_ & _ & _ & Hh & _).
    destruct (lp_tet _ _ _ _ _ _ _ _ HP (step_data mu0 gamma0 THETA dt (prefactor abs_ DTMAX dt) p u v phi phiv Hext ep eq m) (in_map _ _ _ Hm)) as [Hd _].
    rewrite datum_tet in Hd. repeat apply Rmult_le_pos; [lra| |].
    - unfold tet_vol. rewrite vol_det. lra.
    - apply lsum_nonneg. intros i _. apply dot_self_nonneg. }
  pose proof (Rmult_le_pos _ _ P Q). lra.
Qed.

(** At the largest time step the correction is there *)
Example C98_nonvacuous : 0 < 1 <= 1 /\ 1 < prefactor abs_double 1 1.
Proof.
  split; [lra|]. unfold prefactor, abs_double, TAUR. replace (1 / (100 * 1)) with (/ 100) by field. rewrite ln_Rinv by lra. rewrite Rabs_Ropp, Rabs_right; pose proof ln100; lra.
Qed.

Print Assumptions C98_weight.
Print Assumptions C98_correction_vanishes.
Print Assumptions C98_energy_partial.
