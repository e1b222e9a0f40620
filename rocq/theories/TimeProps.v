(** * Properties C01-C14: the adaptive time loop

    In every statement [o] (linear solver, signals, potentials, recentering) is arbitrary, [C] is
    any type of node contents, and the run is observed at any point ([fuel] passes of each inner
    loop) and in any outcome. *)

From Coq Require Import Reals ZArith List Bool Lra Lia.
From Flocq Require Import Core BinarySingleNaN.
From Verif Require Import Arith ArithLaws TimeModel TimeSpec TimeProof TimeNum TimeTerm TimeMain.
Import ListNotations.
Local Open Scope R_scope.

#[local] Opaque propose stepper_call.

(** ** A concrete run, used to show that the hypotheses can be met: binary64, t0 = 0, output every
    1/4 until 1, min(dt) = 2^-10, max(dt) = 1/8, max(du) = 1/64, snapshots every 2 lines. The fourth
    linear solve fails and the sixth reports a large velocity. *)
Definition ex_params : params B64 := @mkParams B64
  (b64_of 1 (-10)) (b64_of 1 (-3)) (b64_of 1 0) (b64_of 1 (-6)) (b64_of 1 (-2)) 2 false.
Definition ex_oracles (signal : nat -> bool) : oracles B64 nat := @mkOracles B64 nat signal
  (fun n _ _ _ _ => if (n =? 3)%nat then (None, b64_of 0 0)
                    else (Some n, if (n =? 5)%nat then b64_of 4 0 else b64_of 1 (-4)))
  (fun c => c) (fun c n => Some (c, n)).
Definition ex_dt0 : num B64 := timing_initial_dt (DTMIN ex_params) (DTMAX ex_params).
Definition ex_run : outcome B64 nat :=
  time_integration 40 ex_params (ex_oracles (fun _ => false)) (b64_of 0 0) ex_dt0 n0 0%nat 0%nat.
Definition ev_kind {A : arith} {C : Type} (e : event A C) : Z :=
  match e with
  | EvTrial _ _ _ _ => 0 | EvSolverFailed _ _ _ => 1 | EvTooLarge _ _ _ _ => 2
  | EvAccepted _ _ _ _ _ => 3 | EvLine _ _ _ => 4 | EvSnapshot _ _ _ => 5 | EvAtExit _ _ => 6
  end.

Definition ex_summary : list Z := map ev_kind (events ex_run).
Definition ex_count (k : Z) : nat := length (filter (Z.eqb k) ex_summary).

(** the example: 5 lines, 3 snapshots, 1 solver failure, 1 refused trial, and status 0 *)
Example ex_run_shape : ex_count 4 = 5%nat /\ ex_count 5 = 3%nat /\ ex_count 1 = 1%nat /\
  ex_count 2 = 1%nat /\ ex_count 0 = (ex_count 1 + ex_count 2 + ex_count 3)%nat /\
  match ex_run with Returned 0 _ => True | _ => False end.
Proof. vm_compute. repeat split. Qed.

Lemma ex_b64_params : b64_params ex_params (b64_of 0 0).
Proof.
  assert (Hs : B2R (t_step ex_params : b64) = 1 / 4).
  { change (SF2R radix2 (B2SF (t_step ex_params : b64)) = 1 / 4) || rewrite <- SF2R_B2SF.
    replace (B2SF (t_step ex_params : b64)) with (SpecFloat.S754_finite false 4503599627370496 (-54))
      by (vm_compute; reflexivity).
    unfold SF2R, F2R. simpl. lra. }
  assert (Hm : B2R (DTMIN ex_params : b64) = 1 / 1024).
  { rewrite <- SF2R_B2SF.
    replace (B2SF (DTMIN ex_params : b64)) with (SpecFloat.S754_finite false 4503599627370496 (-62))
      by (vm_compute; reflexivity).
    unfold SF2R, F2R. simpl. lra. }
  repeat split.
  - rewrite Hs. lra.
  - rewrite Hm. lra.
  - replace (B2R (b64_of 0 0 : b64)) with 0.
    + rewrite Rabs_R0. apply bpow_ge_0.
    + symmetry. rewrite <- SF2R_B2SF.
      replace (B2SF (b64_of 0 0 : b64)) with (SpecFloat.S754_zero false) by (vm_compute; reflexivity).
      reflexivity.
  - intros N HN. replace (step_count ex_params (b64_of 0 0)) with (Some 4%Z) in HN
      by (vm_compute; reflexivity).
    inversion HN; subst. rewrite Hs. apply Rle_trans with (bpow radix2 0); [simpl; lra|].
    apply bpow_le. lia.
Qed.

(** the same parameters in exact arithmetic *)
Definition ex_xparams : params XA := @mkParams XA
  (Fin (1/1024)) (Fin (1/8)) (Fin 1) (Fin (1/64)) (Fin (1/4)) 2 false.

Lemma ex_real_params : real_params ex_xparams (Fin 0 : num XA).
Proof.
  split. { exists 0. reflexivity. } split.
  - exists (1/4). split; [reflexivity|lra].
  - exists (1/1024). split; [reflexivity|lra].
Qed.

Lemma nearest_int : forall z x, x = IZR z -> ZnearestA x = z.
Proof. intros z x ->. apply Znearest_imp. rewrite Rminus_diag_eq by reflexivity. rewrite Rabs_R0. lra. Qed.

Lemma ex_xcount : step_count ex_xparams (Fin 0 : num XA) = Some 4%Z.
Proof.
  unfold step_count, ex_xparams. cbn. rewrite Req_bool_false by lra. cbn.
  rewrite (nearest_int 4) by field. reflexivity.
Qed.

(** ** C01 *)
(** Exact arithmetic: line number k is written at exactly t0 + k*t_step; lines are numbered 0, 1, 2,
    ... without gap or repetition; a run that completes has written all of them. *)
Theorem C01_output_times_exact : forall C (o : oracles XA C) fuel p t0 dt0 v0 c0 c1 N,
  real_params p t0 -> step_count p t0 = Some N ->
  let r := time_integration fuel p o t0 dt0 v0 c0 c1 in
  map fst (lines (events r)) = upto (length (lines (events r))) /\
  (length (lines (events r)) <= Z.to_nat (N + 1))%nat /\
  (forall k t, In (k, t) (lines (events r)) -> t = nadd t0 (nmul (nZ k) (t_step p))) /\
  (forall s, r = Returned 0 s -> length (lines (events r)) = Z.to_nat (N + 1)).
Proof.
  intros C o fuel p t0 dt0 v0 c0 c1 N Hp HN r.
  destruct (real_targets p t0 Hp) as (F0 & Fm & Hm & HT).
  destruct (run_line_numbers p o dt0 fuel t0 v0 c0 c1 N HN) as (H1 & H2 & H3). fold r in H1, H2, H3.
  split; auto. split; auto. split.
  - intros k t Hin.
    destruct (run_num XA_laws p o t0 dt0 N F0 Fm Hm HN (HT N HN) fuel v0 c0 c1) as (Hl & _).
    specialize (Hl k t Hin).
    change (nadd t0 (nmul (nZ k) (t_step p))) with (target_time p t0 k).
    destruct Hp as ((a & ->) & (ts & Hts & _) & _).
    unfold target_time in Hl |- *. rewrite Hts in Hl |- *. cbn in Hl |- *.
    destruct t as [t| | |]; cbn in Hl; try discriminate. apply Req_bool_iff in Hl. congruence.
  - intros s Hr. rewrite Hr in H3 |- *. exact H3.
Qed.

Example C01_nonvacuous : real_params ex_xparams (Fin 0 : num XA) /\
  step_count ex_xparams (Fin 0 : num XA) = Some 4%Z.
Proof. split; [exact ex_real_params|exact ex_xcount]. Qed.

(** binary64: the time of line k compares equal to the double t0 + k*t_step *)
Theorem C01_output_times_exact_b64 : forall C (o : oracles B64 C) fuel p t0 dt0 v0 c0 c1 N,
  b64_params p t0 -> step_count p t0 = Some N ->
  let r := time_integration fuel p o t0 dt0 v0 c0 c1 in
  map fst (lines (events r)) = upto (length (lines (events r))) /\
  (length (lines (events r)) <= Z.to_nat (N + 1))%nat /\
  (forall k t, In (k, t) (lines (events r)) ->
     neq t (nadd t0 (nmul (nZ k) (t_step p))) = true) /\
  (forall s, r = Returned 0 s -> length (lines (events r)) = Z.to_nat (N + 1)).
Proof.
  intros C o fuel p t0 dt0 v0 c0 c1 N Hp HN r.
  destruct (b64_targets p t0 Hp) as (F0 & Fm & Hm & HT).
  destruct (run_line_numbers p o dt0 fuel t0 v0 c0 c1 N HN) as (H1 & H2 & H3). fold r in H1, H2, H3.
  split; auto. split; auto. split.
  - intros k t Hin.
    destruct (run_num B64_laws p o t0 dt0 N F0 Fm Hm HN (HT N HN) fuel v0 c0 c1) as (Hl & _).
    exact (Hl k t Hin).
  - intros s Hr. rewrite Hr in H3 |- *. exact H3.
Qed.

Example C01_b64_nonvacuous : b64_params ex_params (b64_of 0 0) /\
  step_count ex_params (b64_of 0 0) = Some 4%Z.
Proof. split; [exact ex_b64_params|vm_compute; reflexivity]. Qed.

(** ** C02 *)
(** After j lines, no accepted step moves the time beyond output time number j. *)
Theorem C02_no_overshoot : forall C (o : oracles XA C) fuel p t0 dt0 v0 c0 c1,
  real_params p t0 ->
  forall l1 l2 d v t c n,
  events (time_integration fuel p o t0 dt0 v0 c0 c1) = l1 ++ EvAccepted d v t c n :: l2 ->
  nle t (nadd t0 (nmul (nZ (Z.of_nat (length (lines l1)))) (t_step p))) = true.
Proof.
  intros C o fuel p t0 dt0 v0 c0 c1 Hp l1 l2 d v t c n E.
  destruct (real_targets p t0 Hp) as (F0 & Fm & Hm & HT).
  destruct (step_count p t0) as [N|] eqn:HN.
  2: { apply run_undefined with (o := o) (dt0 := dt0) (fuel := fuel) (v0 := v0) (c0 := c0) (n0 := c1) in HN.
       rewrite HN in E. destruct l1; discriminate. }
  destruct (run_num XA_laws p o t0 dt0 N F0 Fm Hm HN (HT N eq_refl) fuel v0 c0 c1) as (_ & Ho & _).
  destruct (Ho _ _ _ _ _ _ _ E) as [[Ft FT] Hv].
  apply (le_fin _ XA_laws); auto.
Qed.

(** Same in binary64 (the sums and products are the rounded ones). *)
Theorem C02_no_overshoot_b64 : forall C (o : oracles B64 C) fuel p t0 dt0 v0 c0 c1,
  b64_params p t0 ->
  forall l1 l2 d v t c n,
  events (time_integration fuel p o t0 dt0 v0 c0 c1) = l1 ++ EvAccepted d v t c n :: l2 ->
  nle t (nadd t0 (nmul (nZ (Z.of_nat (length (lines l1)))) (t_step p))) = true.
Proof.
  intros C o fuel p t0 dt0 v0 c0 c1 Hp l1 l2 d v t c n E.
  destruct (b64_targets p t0 Hp) as (F0 & Fm & Hm & HT).
  destruct (step_count p t0) as [N|] eqn:HN.
  2: { apply run_undefined with (o := o) (dt0 := dt0) (fuel := fuel) (v0 := v0) (c0 := c0) (n0 := c1) in HN.
       rewrite HN in E. destruct l1; discriminate. }
  destruct (run_num B64_laws p o t0 dt0 N F0 Fm Hm HN (HT N eq_refl) fuel v0 c0 c1) as (_ & Ho & _).
  destruct (Ho _ _ _ _ _ _ _ E) as [[Ft FT] Hv].
  apply (le_fin _ B64_laws); auto.
Qed.

Example C02_nonvacuous : exists l1 l2 d v t c n,
  events ex_run = l1 ++ EvAccepted d v t c n :: l2 /\ length (lines l1) = 1%nat.
Proof.
  assert (H : exists k, match nth_error (events ex_run) k with
     | Some (EvAccepted _ _ _ _ _) => length (lines (firstn k (events ex_run))) = 1%nat
     | _ => False end).
  { exists 3%nat. vm_compute. reflexivity. }
  destruct H as [k H]. destruct (nth_error (events ex_run) k) as [[]|] eqn:E; try contradiction.
  destruct (nth_error_split _ _ E) as (l1 & l2 & E1 & E2).
  exists l1, l2. do 5 eexists. split. { exact E1. }
  rewrite E1 in H. rewrite <- E2 in H. rewrite firstn_app, Nat.sub_diag, firstn_all in H.
  simpl in H. rewrite app_nil_r in H. exact H.
Qed.

(** ** C03 *)
(** Any arithmetic, NaN included: neither an attempted nor an accepted step has dt < min(dt). *)
Theorem C03_dt_at_least_min : forall A C (o : oracles A C) fuel p t0 dt0 v0 c0 c1,
  let r := time_integration fuel p o t0 dt0 v0 c0 c1 in
  (forall n t d c, In (EvTrial n t d c) (events r) -> nlt d (DTMIN p) = false) /\
  (forall d v t c n, In (EvAccepted d v t c n) (events r) -> nlt d (DTMIN p) = false).
Proof.
  intros A C o fuel p t0 dt0 v0 c0 c1 r. split.
  - intros n t d c H. apply (run_events p o dt0 fuel t0 v0 c0 c1 _ H).
  - intros d v t c n H. apply (run_events p o dt0 fuel t0 v0 c0 c1 _ H).
Qed.

(** Upper bound, exact arithmetic: with the initial step chosen by the program. *)
Theorem C03_dt_at_most_max : forall C (o : oracles XA C) fuel (p : params XA) t0 v0 c0 c1 m M,
  real_params p t0 -> DTMIN p = Fin m -> DTMAX p = Fin M -> m <= M ->
  forall n t d c,
  In (EvTrial n t d c)
     (events (time_integration fuel p o t0 (timing_initial_dt (DTMIN p) (DTMAX p)) v0 c0 c1)) ->
  exists x, d = Fin x /\ m <= x <= M * (1 + 1 / 8388608).
Proof.
  intros C o fuel p t0 v0 c0 c1 m M Hp Hm HM HmM n t d c H.
  destruct (real_targets p t0 Hp) as (F0 & Fm & Hm0 & HT).
  assert (Hm0' : 0 <= m) by (rewrite Hm in Hm0; exact Hm0).
  assert (Fd : fin XA_laws d).
  { destruct (step_count p t0) as [N|] eqn:HN.
    - destruct (run_num XA_laws p o t0 (timing_initial_dt (DTMIN p) (DTMAX p)) N F0 Fm Hm0 HN (HT N eq_refl) fuel v0 c0 c1)
        as (_ & _ & _ & Hf). apply (Hf _ H).
    - apply run_undefined with (o := o) (dt0 := timing_initial_dt (DTMIN p) (DTMAX p))
        (fuel := fuel) (v0 := v0) (c0 := c0) (n0 := c1) in HN. rewrite HN in H. contradiction. }
  destruct (run_events p o _ fuel t0 v0 c0 c1 _ H) as (H1 & _ & st & stride & Hr & Hd).
  assert (E0 : timing_initial_dt (DTMIN p) (DTMAX p) = (Fin (sqrt (m * M)) : num XA)).
  { unfold timing_initial_dt. rewrite Hm, HM. cbn. rewrite Rlt_bool_false; auto.
    apply Rmult_le_pos; lra. }
  rewrite E0 in Hr.
  assert (Hs : sqrt (m * M) <= M).
  { rewrite <- (sqrt_Rsqr M) at 2 by lra. apply sqrt_le_1_alt. unfold Rsqr.
    apply Rmult_le_compat_r; lra. }
  assert (HB : nlt (nmul (DTMAX p) one_plus_flt_epsilon) (Fin (sqrt (m * M)) : num XA) = false).
  { rewrite HM. cbn. apply Rlt_bool_iff_false. lra. }
  pose proof (step_le_hmax XA_laws p (Fin (sqrt (m * M)) : num XA) eq_refl HB st stride Hr) as H2.
  rewrite <- Hd in H2. rewrite HM in H2. rewrite Hm in H1. cbn in H1, H2.
  destruct d as [x| | |]; try contradiction. cbn in H1, H2.
  exists x. split; auto. apply Rlt_bool_iff_false in H1, H2. lra.
Qed.

Example C03_nonvacuous : real_params ex_xparams (Fin 0 : num XA) /\
  DTMIN ex_xparams = (Fin (1/1024) : num XA) /\ DTMAX ex_xparams = (Fin (1/8) : num XA) /\ 1/1024 <= 1/8.
Proof. split. { exact ex_real_params. } split; auto. split; auto. lra. Qed.

(** Upper bound in binary64, for an initial step that is itself within the bound. *)
Theorem C03_dt_at_most_max_b64 : forall C (o : oracles B64 C) fuel (p : params B64) t0 dt0 v0 c0 c1,
  nisnan dt0 = false -> nlt (nmul (DTMAX p) one_plus_flt_epsilon) dt0 = false ->
  forall n t d c,
  In (EvTrial n t d c) (events (time_integration fuel p o t0 dt0 v0 c0 c1)) ->
  nlt (nmul (DTMAX p) one_plus_flt_epsilon) d = false.
Proof.
  intros C o fuel p t0 dt0 v0 c0 c1 H0 HB n t d c H.
  destruct (run_events p o dt0 fuel t0 v0 c0 c1 _ H) as (H1 & _ & st & stride & Hr & ->).
  apply (step_le_hmax B64_laws p dt0 H0 HB st stride Hr).
Qed.

Example C03_b64_nonvacuous : nisnan ex_dt0 = false /\
  nlt (nmul (DTMAX ex_params) one_plus_flt_epsilon) ex_dt0 = false.
Proof. vm_compute. auto. Qed.

(** ** C04 *)
(** Any arithmetic: every acceptance follows a trial from the same step, passed the test on
    dt*vmax where vmax is what that trial's solve reported, and (unless the wall is being recentred)
    installs exactly that solve's result, completed with its potentials; and the step counter counts
    the acceptances. *)
Theorem C04_accepted_within_dumax : forall A C (o : oracles A C) fuel p t0 dt0 v0 c0 c1,
  let r := time_integration fuel p o t0 dt0 v0 c0 c1 in
  (forall d v t c n, In (EvAccepted d v t c n) (events r) -> nlt (DUMAX p) (nmul d v) = false) /\
  (forall e d v t c n, follows (events r) e (EvAccepted d v t c n) ->
     exists k t1 c', e = EvTrial k t1 d c' /\
     exists x y, o_solve o k c' x t1 d = (Some y, v) /\
       (recenter_on p = false -> c = o_potentials o y /\ n = o_potentials o y)) /\
  (forall s, final r = Some s -> (forall s', r <> Exited s') -> nt s = accepted_count (events r)).
Proof.
  intros A C o fuel p t0 dt0 v0 c0 c1 r. split; [|split].
  - intros d v t c n H. apply (run_events p o dt0 fuel t0 v0 c0 c1 _ H).
  - intros e d v t c n H. pose proof (run_chain p o dt0 fuel t0 v0 c0 c1 _ _ H) as Hn.
    destruct e; simpl in Hn; try contradiction.
    destruct Hn as (-> & _ & _ & x & y & H1 & H2). do 3 eexists. split. { reflexivity. } eauto.
  - intros s E Hx. apply (run_nt p o dt0 fuel t0 v0 c0 c1 s E Hx).
Qed.

Example C04_nonvacuous : (0 < ex_count 3)%nat.
Proof. vm_compute. lia. Qed.

(** ** C05 *)
(** Any arithmetic. A rejected trial started at time t from configuration c. Afterwards the time is t
    and the reference configuration is c: they are what the next trial starts from, nothing is
    written to the output files in between, and they are the final ones if the run stops there. *)
Theorem C05_rejected_trial_rolled_back : forall A C (o : oracles A C) fuel p t0 dt0 v0 c0 c1,
  let r := time_integration fuel p o t0 dt0 v0 c0 c1 in
  forall l1 l2 n t d c e,
  events r = l1 ++ EvTrial n t d c :: e :: l2 ->
  (forall d' v' t' c' n', e <> EvAccepted d' v' t' c' n') ->
  (e = EvSolverFailed d t c \/ exists v, e = EvTooLarge d v t c) /\
  match l2 with
  | EvTrial n' t' d' c' :: _ => t' = t /\ c' = c
  | EvAtExit t' _ :: _ => t' = t
  | [] => forall s, final r = Some s -> time s = t /\ cur s = c
  | _ => False
  end.
Proof.
  intros A C o fuel p t0 dt0 v0 c0 c1 r l1 l2 n t d c e E Hna.
  pose proof (run_chain p o dt0 fuel t0 v0 c0 c1) as Hc. fold r in Hc.
  assert (H1 : next_ok p o dt0 (EvTrial n t d c) e). { apply Hc. exists l1, l2. exact E. }
  assert (He : e = EvSolverFailed d t c \/ exists v, e = EvTooLarge d v t c).
  { destruct e; simpl in H1; try contradiction.
    - destruct H1 as (-> & -> & -> & _). auto.
    - destruct H1 as (-> & -> & -> & _). eauto.
    - exfalso. eapply Hna. reflexivity. }
  split; auto. clear H1.
  destruct l2 as [|e2 l2].
  - intros s Hs. apply (run_last_rejected p o dt0 fuel t0 v0 c0 c1 s (l1 ++ [EvTrial n t d c]) e t c Hs).
    + rewrite <- app_assoc. exact E.
    + destruct He as [->|[v ->]]; eauto.
  - assert (H2 : next_ok p o dt0 e e2).
    { apply Hc. exists (l1 ++ [EvTrial n t d c]), l2. rewrite <- app_assoc. exact E. }
    destruct He as [->|[v ->]]; destruct e2; simpl in H2; try contradiction; tauto.
Qed.

Example C05_nonvacuous : ex_count 1 = 1%nat /\ ex_count 2 = 1%nat.
Proof. vm_compute. auto. Qed.

(** ** C06 *)
(** Exact arithmetic, min(dt) > 0: accepting a trial of step d started at time t sets the time to
    t + d, and d >= min(dt) > 0. *)
Theorem C06_time_forward : forall C (o : oracles XA C) fuel p t0 dt0 v0 c0 c1,
  real_params p t0 -> nlt n0 (DTMIN p) = true ->
  let r := time_integration fuel p o t0 dt0 v0 c0 c1 in
  forall n t d c d' v t' c' n',
  follows (events r) (EvTrial n t d c) (EvAccepted d' v t' c' n') ->
  t' = nadd t d /\ nlt t t' = true.
Proof.
  intros C o fuel p t0 dt0 v0 c0 c1 Hp Hpos r n t d c d' v t' c' n' H.
  destruct (real_targets p t0 Hp) as (F0 & Fm & Hm & HT).
  pose proof (run_chain p o dt0 fuel t0 v0 c0 c1 _ _ H) as Hc. simpl in Hc.
  destruct Hc as (-> & _ & (T & HltT & ->) & _).
  destruct (step_count p t0) as [N|] eqn:HN.
  2: { apply run_undefined with (o := o) (dt0 := dt0) (fuel := fuel) (v0 := v0) (c0 := c0) (n0 := c1) in HN.
       unfold r in H. rewrite HN in H. destruct H as (l1 & l2 & H). destruct l1; discriminate. }
  destruct (run_num XA_laws p o t0 dt0 N F0 Fm Hm HN (HT N eq_refl) fuel v0 c0 c1) as (_ & _ & _ & Hf).
  assert (Hin : In (EvTrial n t d c) (events r)).
  { destruct H as (l1 & l2 & H). rewrite H. apply in_or_app. right. left. reflexivity. }
  specialize (Hf _ Hin). simpl in Hf. destruct Hf as (Ft & Fd & Hd).
  destruct Hp as (_ & _ & m & Em & _). rewrite Em in Hd, Hpos. cbn in Hpos.
  apply Rlt_bool_iff in Hpos.
  destruct t as [t| | |]; try contradiction. destruct d as [d| | |]; try contradiction.
  cbn in Hd. destruct T as [T| | |]; cbn in HltT |- *; try discriminate.
  - apply Rlt_bool_iff in HltT. destruct (Req_bool_spec d (T + - t)) as [E|E]; cbn.
    + split. { f_equal. lra. } apply Rlt_bool_iff. lra.
    + split; auto. apply Rlt_bool_iff. lra.
  - split; auto. cbn. apply Rlt_bool_iff. lra.
Qed.

Example C06_nonvacuous : real_params ex_xparams (Fin 0 : num XA) /\
  nlt n0 (DTMIN ex_xparams) = true.
Proof. split. { exact ex_real_params. } cbn. apply Rlt_bool_iff. lra. Qed.

(** binary64: from one event to the next the time never decreases. *)
Theorem C06_time_never_decreases_b64 : forall C (o : oracles B64 C) fuel p t0 dt0 v0 c0 c1,
  b64_params p t0 ->
  forall e1 e2, follows (events (time_integration fuel p o t0 dt0 v0 c0 c1)) e1 e2 ->
  nlt (ev_time e2) (ev_time e1) = false.
Proof.
  intros C o fuel p t0 dt0 v0 c0 c1 Hp e1 e2 H.
  destruct (b64_targets p t0 Hp) as (F0 & Fm & Hm & HT).
  destruct (step_count p t0) as [N|] eqn:HN.
  2: { apply run_undefined with (o := o) (dt0 := dt0) (fuel := fuel) (v0 := v0) (c0 := c0) (n0 := c1) in HN.
       rewrite HN in H. destruct H as (l1 & l2 & H). destruct l1; discriminate. }
  destruct (run_num B64_laws p o t0 dt0 N F0 Fm Hm HN (HT N eq_refl) fuel v0 c0 c1) as (_ & _ & Hf & _).
  apply Hf. exact H.
Qed.

Example C06_b64_nonvacuous : b64_params ex_params (b64_of 0 0).
Proof. exact ex_b64_params. Qed.

(** ** C07 *)
(** Exact arithmetic: the run ends, for every behaviour of the solver, after a number of passes that
    depends on the parameters only. *)
Theorem C07_time_loop_ends_partial : forall (p : params XA) (t0 ts m : R) (dt0 : num XA),
  DTMIN p = Fin m -> 0 < m -> t_step p = Fin ts -> nlt n0 (DUMAX p) = true -> nisnan dt0 = false ->
  exists F, forall (C : Type) (o : oracles XA C) v0 c0 c1 fuel, (F <= fuel)%nat ->
  forall s, time_integration fuel p o (Fin t0 : num XA) dt0 v0 c0 c1 <> Running s.
Proof. exact run_ends. Qed.

Example C07_nonvacuous : DTMIN ex_xparams = (Fin (1/1024) : num XA) /\ 0 < 1/1024 /\
  t_step ex_xparams = (Fin (1/4) : num XA) /\ nlt n0 (DUMAX ex_xparams) = true.
Proof. split; auto. split. { lra. } split; auto. cbn. apply Rlt_bool_iff. lra. Qed.

(** binary64: false. With t0 = 1 and min(dt) = max(dt) = 2^-60 every accepted step leaves the time
    unchanged and the loop never ends, although the solver always succeeds. *)
Theorem C07_time_loop_ends_refuted : exists (p : params B64) (o : oracles B64 unit) t0,
  nlt n0 (DTMIN p) = true /\ nlt n0 (DUMAX p) = true /\
  forall fuel, exists s,
  time_integration fuel p o t0 (timing_initial_dt (DTMIN p) (DTMAX p)) n0 tt tt = Running s.
Proof.
  exists stall_params, stall_oracles, (b64_of 1 0).
  split. { vm_compute. reflexivity. } split. { vm_compute. reflexivity. }
  exact run_stalls.
Qed.

(** ** C08 *)
(** Any arithmetic: the status is 0 and then all output lines were written, or it is 1 and then some
    are missing and the step proposed last was below min(dt). *)
Theorem C08_exit_status : forall A C (o : oracles A C) fuel p t0 dt0 v0 c0 c1 st s N,
  step_count p t0 = Some N ->
  time_integration fuel p o t0 dt0 v0 c0 c1 = Returned st s ->
  let r := time_integration fuel p o t0 dt0 v0 c0 c1 in
  (st = 0%Z <-> length (lines (events r)) = Z.to_nat (N + 1)) /\
  (st = 1%Z <-> length (lines (events r)) <> Z.to_nat (N + 1)) /\
  (st = 1%Z -> nlt (dt s) (DTMIN p) = true).
Proof.
  intros A C o fuel p t0 dt0 v0 c0 c1 st s N HN Hr r.
  destruct (run_line_numbers p o dt0 fuel t0 v0 c0 c1 N HN) as (_ & _ & H3).
  rewrite Hr in H3. unfold r. rewrite Hr. destruct st as [|q|q].
  - split; [|split].
    + tauto.
    + split; [discriminate|]. intros H. contradiction.
    + discriminate.
  - destruct H3 as (E & H3 & H4). split; [|split; auto].
    + split; [discriminate|]. intros H. rewrite H in H3. lia.
    + split; auto. intros _. lia.
  - destruct H3 as (E & _). discriminate.
Qed.

(** both outcomes occur *)
Example C08_nonvacuous : (exists s, ex_run = Returned 0 s) /\
  (exists s, time_integration 40 ex_params
     (@mkOracles B64 nat (fun _ => false) (fun _ _ _ _ _ => (None, n0)) (fun c => c) (fun c n => Some (c, n)))
     (b64_of 0 0) ex_dt0 n0 0%nat 0%nat = Returned 1 s).
Proof.
  split.
  - assert (H : match ex_run with Returned 0 _ => True | _ => False end) by (vm_compute; exact I).
    destruct ex_run as [[]| | | |]; try contradiction. eauto.
  - match goal with |- exists s, ?x = _ =>
      assert (H : match x with Returned 1 _ => True | _ => False end) by (vm_compute; exact I);
      destruct x as [[|[]|]| | | |]; try contradiction; eauto end.
Qed.

(** ** C09 *)
(** Exact arithmetic, 0 <= min(dt). The trial that follows a solver failure uses at most half the
    step; the trial that follows a refusal by max(du) uses at most 0.95 times the refused step. *)
Theorem C09_retry_smaller : forall C (o : oracles XA C) fuel p t0 dt0 v0 c0 c1,
  real_params p t0 -> nisnan dt0 = false ->
  let r := time_integration fuel p o t0 dt0 v0 c0 c1 in
  (forall d t c n t' d' c', follows (events r) (EvSolverFailed d t c) (EvTrial n t' d' c') ->
     exists x y, d = Fin x /\ d' = Fin y /\ y <= x / 2) /\
  (forall d v t c n t' d' c', nlt n0 (DTMIN p) = true -> nlt n0 (DUMAX p) = true ->
     follows (events r) (EvTooLarge d v t c) (EvTrial n t' d' c') ->
     exists x y, d = Fin x /\ d' = Fin y /\ y <= 95 / 100 * x /\
       (forall u w, DUMAX p = Fin u -> v = Fin w -> y <= 95 / 100 * (u / w))).
Proof.
  intros C o fuel p t0 dt0 v0 c0 c1 Hp H0 r.
  destruct (real_targets p t0 Hp) as (F0 & Fm & Hm & HT).
  destruct (step_count p t0) as [N|] eqn:HN.
  2: { apply run_undefined with (o := o) (dt0 := dt0) (fuel := fuel) (v0 := v0) (c0 := c0) (n0 := c1) in HN.
       unfold r. rewrite HN. split; intros; exfalso;
       match goal with H : follows _ _ _ |- _ => destruct H as (l1 & l2 & H); destruct l1; discriminate end. }
  destruct (run_num XA_laws p o t0 dt0 N F0 Fm Hm HN (HT N eq_refl) fuel v0 c0 c1) as (_ & _ & _ & Hf).
  fold r in Hf.
  assert (Hin : forall e1 e2, follows (events r) e1 e2 -> In e1 (events r) /\ In e2 (events r)).
  { intros e1 e2 (l1 & l2 & H). rewrite H. split; apply in_or_app; right; simpl; auto. }
  split.
  - intros d t c n t' d' c' H. destruct (Hin _ _ H) as [Hi1 Hi2].
    pose proof (Hf _ Hi1) as [_ Fd]. pose proof (Hf _ Hi2) as (_ & Fd' & _).
    pose proof (run_chain p o dt0 fuel t0 v0 c0 c1 _ _ H) as Hc. unfold next_ok in Hc; cbv beta iota in Hc.
    destruct Hc as (_ & _ & Hr). apply (retry_le XA_laws p dt0 H0) in Hr.
    destruct d as [x| | |]; try contradiction. destruct d' as [y| | |]; try contradiction.
    exists x, y. split; auto. split; auto.
    cbn in Hr. rewrite Req_bool_false in Hr by lra. apply Rlt_bool_iff_false in Hr. lra.
  - intros d v t c n t' d' c' Hpos Hdu H. destruct (Hin _ _ H) as [Hi1 Hi2].
    pose proof (Hf _ Hi1) as [_ Fd]. pose proof (Hf _ Hi2) as (_ & Fd' & _).
    destruct (run_events p o dt0 fuel t0 v0 c0 c1 _ Hi1) as [Hl Hd].
    pose proof (run_chain p o dt0 fuel t0 v0 c0 c1 _ _ H) as Hc. unfold next_ok in Hc; cbv beta iota in Hc.
    destruct Hc as (_ & _ & Hr). apply (retry_le XA_laws p dt0 H0) in Hr.
    destruct d as [x| | |]; try contradiction. destruct d' as [y| | |]; try contradiction.
    exists x, y. split; auto. split; auto.
    assert (Hx : 0 < x).
    { destruct Hp as (_ & _ & m & Em & _). rewrite Em in Hpos, Hd. cbn in Hpos, Hd.
      apply Rlt_bool_iff in Hpos. apply Rlt_bool_iff_false in Hd. lra. }
    destruct (limit_too_large p Hdu x v Hx Hl) as (l & El & Hle).
    pose proof Hr as Hr'. rewrite El in Hr'. cbn in Hr'. apply Rlt_bool_iff_false in Hr'.
    split. { lra. }
    intros u w Hu ->. rewrite Hu in Hr, Hl, Hdu. cbn in Hr, Hl, Hdu.
    apply Rlt_bool_iff in Hl, Hdu.
    assert (Hw : 0 < w). { apply Rnot_le_lt. intros H1. nra. }
    rewrite Req_bool_false in Hr by lra. cbn in Hr. apply Rlt_bool_iff_false in Hr. lra.
Qed.

Example C09_nonvacuous : real_params ex_xparams (Fin 0 : num XA) /\
  nlt n0 (DTMIN ex_xparams) = true /\ nlt n0 (DUMAX ex_xparams) = true /\
  ex_count 1 = 1%nat /\ ex_count 2 = 1%nat.
Proof.
  split. { exact ex_real_params. } split. { cbn. apply Rlt_bool_iff. lra. }
  split. { cbn. apply Rlt_bool_iff. lra. } vm_compute. auto.
Qed.

(** binary64: never above the rounded d/2, respectively the rounded 0.95*(DUMAX/vmax). *)
Theorem C09_retry_smaller_b64 : forall C (o : oracles B64 C) fuel (p : params B64) t0 dt0 v0 c0 c1,
  nisnan dt0 = false ->
  let r := time_integration fuel p o t0 dt0 v0 c0 c1 in
  (forall d t c n t' d' c', follows (events r) (EvSolverFailed d t c) (EvTrial n t' d' c') ->
     nlt (ndiv d (nZ 2)) d' = false) /\
  (forall d v t c n t' d' c', follows (events r) (EvTooLarge d v t c) (EvTrial n t' d' c') ->
     nlt (nmul (ndiv (DUMAX p) v) (nlit 95 100)) d' = false).
Proof.
  intros C o fuel p t0 dt0 v0 c0 c1 H0 r. split.
  - intros d t c n t' d' c' H.
    pose proof (run_chain p o dt0 fuel t0 v0 c0 c1 _ _ H) as Hc. unfold next_ok in Hc; cbv beta iota in Hc.
    destruct Hc as (_ & _ & Hr). exact (retry_le B64_laws p dt0 H0 _ _ Hr).
  - intros d v t c n t' d' c' H.
    pose proof (run_chain p o dt0 fuel t0 v0 c0 c1 _ _ H) as Hc. unfold next_ok in Hc; cbv beta iota in Hc.
    destruct Hc as (_ & _ & Hr). exact (retry_le B64_laws p dt0 H0 _ _ Hr).
Qed.

Example C09_b64_nonvacuous : nisnan ex_dt0 = false /\ ex_count 1 = 1%nat /\ ex_count 2 = 1%nat.
Proof. vm_compute. auto. Qed.

(** ** C10 and C11: the stepper, exact arithmetic *)
#[local] Transparent stepper_call.

Definition real_stepper (hmin hmax soft : R) : stepper XA :=
  @mkStepper XA (Fin hmin) (Fin hmax) (Fin soft).

Lemma std_min_fin : forall a b : R, std_min (Fin a : num XA) (Fin b : num XA) = Fin (Rmin a b).
Proof.
  intros a b. unfold std_min. cbn. destruct (Rlt_bool_spec b a); rewrite Rmin_comm; f_equal.
  - rewrite Rmin_left; lra.
  - rewrite Rmin_right; lra.
Qed.

Lemma std_max_fin : forall a b : R, std_max (Fin a : num XA) (Fin b : num XA) = Fin (Rmax a b).
Proof.
  intros a b. unfold std_max. cbn. destruct (Rlt_bool_spec a b); f_equal.
  - rewrite Rmax_right; lra.
  - rewrite Rmax_left; lra.
Qed.

(** the step proposed by a stepper with ordinary numbers, and the stepper afterwards *)
Definition real_step (hmin soft stride : R) : R :=
  let s := Rmin stride soft in
  if Rlt_bool (stride - 2 * hmin) s && Rlt_bool s stride then stride - 2 * hmin else s.

Lemma real_call : forall hmin hmax soft stride,
  let x := real_step hmin soft stride in
  fst (stepper_call (real_stepper hmin hmax soft) (Fin stride : num XA)) = Fin x /\
  snd (stepper_call (real_stepper hmin hmax soft) (Fin stride : num XA)) =
    real_stepper hmin hmax (Rmax soft (Rmin (x * (11 / 10)) hmax)).
Proof.
  intros hmin hmax soft stride x.
  assert (H1 : fst (stepper_call (real_stepper hmin hmax soft) (Fin stride : num XA)) = Fin x).
  { unfold stepper_call, real_stepper. cbn [soft_max hard_min hard_max fst].
    rewrite std_min_fin. cbn. unfold x, real_step.
    replace (stride + - (2 / 1 * hmin)) with (stride - 2 * hmin) by field.
    destruct (Rlt_bool (stride - 2 * hmin) (Rmin stride soft) && Rlt_bool (Rmin stride soft) stride); auto. }
  split; auto.
  assert (H2 : forall st str, snd (@stepper_call XA st str) =
    {| hard_min := hard_min st; hard_max := hard_max st;
       soft_max := std_max (soft_max st)
         (std_min (nmul (fst (stepper_call st str)) (nlit 11 10)) (hard_max st)) |}).
  { reflexivity. }
  rewrite H2, H1. unfold real_stepper. cbn [soft_max hard_min hard_max].
  change (nmul (Fin x : num XA) (nlit 11 10)) with (Fin (x * (11 / 10)) : num XA).
  rewrite std_min_fin, std_max_fin. reflexivity.
Qed.

Lemma real_limits : forall ls hmin hmax soft,
  exists soft', fold_left (@set_soft_limit XA) (map Fin ls) (real_stepper hmin hmax soft) =
    real_stepper hmin hmax soft' /\ soft' <= soft /\ Forall (fun l => soft' <= l) ls.
Proof.
  induction ls as [|l ls IH]; intros hmin hmax soft.
  - exists soft. simpl. repeat split; auto. lra.
  - simpl. change (set_soft_limit (real_stepper hmin hmax soft) (Fin l : num XA)) with
      (@mkStepper XA (Fin hmin) (Fin hmax) (std_min (Fin soft : num XA) (Fin l : num XA))).
    rewrite std_min_fin.
    destruct (IH hmin hmax (Rmin soft l)) as (s' & E & H1 & H2).
    exists s'. split. { exact E. } pose proof (Rmin_l soft l). pose proof (Rmin_r soft l).
    split. { lra. } constructor; auto. lra.
Qed.

(** what a caller can do with a stepper *)
Inductive stepper_cmd := Limit (l : R) | Step (stride : R).
Definition stepper_do (st : stepper XA) (c : stepper_cmd) : stepper XA :=
  match c with
  | Limit l => set_soft_limit st (Fin l : num XA)
  | Step s => snd (stepper_call st (Fin s : num XA))
  end.

Lemma real_reach : forall cmds hmin hmax soft, exists soft',
  fold_left stepper_do cmds (real_stepper hmin hmax soft) = real_stepper hmin hmax soft'.
Proof.
  induction cmds as [|c cmds IH]; intros hmin hmax soft. { exists soft. reflexivity. }
  simpl. destruct c as [l|s]; cbn [stepper_do].
  - destruct (real_limits [l] hmin hmax soft) as (s' & E & _). simpl in E. rewrite E. apply IH.
  - destruct (real_call hmin hmax soft s) as [_ ->]. apply IH.
Qed.

Lemma real_step_le : forall hmin soft stride, real_step hmin soft stride <= soft /\
  real_step hmin soft stride <= stride.
Proof.
  intros. unfold real_step. pose proof (Rmin_l stride soft). pose proof (Rmin_r stride soft).
  destruct (Rlt_bool_spec (stride - 2 * hmin) (Rmin stride soft)); simpl.
  - destruct (Rlt_bool_spec (Rmin stride soft) stride); simpl; lra.
  - lra.
Qed.

(** After any history of limits and steps, let the stepper have soft limit s and propose x1, then let
    the caller request limits ls, then let it propose x2. *)
Theorem C10_growth_bounded : forall hmin hmax soft0 cmds a ls b,
  let st := fold_left stepper_do cmds (real_stepper hmin hmax soft0) in
  let st1 := snd (stepper_call st (Fin a : num XA)) in
  let st2 := fold_left (@set_soft_limit XA) (map Fin ls) st1 in
  exists s x1 x2, soft_max st = Fin s /\
    fst (stepper_call st (Fin a : num XA)) = Fin x1 /\
    fst (stepper_call st2 (Fin b : num XA)) = Fin x2 /\
    x1 <= s /\ x1 <= a /\ x2 <= b /\
    x2 <= Rmax s (11 / 10 * x1) /\ x2 <= Rmax s hmax /\
    Forall (fun l => x2 <= l) ls.
Proof.
  intros hmin hmax soft0 cmds a ls b st st1 st2.
  destruct (real_reach cmds hmin hmax soft0) as [s Es]. fold st in Es.
  destruct (real_call hmin hmax s a) as [E1 E2].
  destruct (real_step_le hmin s a) as [L1 L2].
  set (x1 := real_step hmin s a) in *.
  assert (E3 : st1 = real_stepper hmin hmax (Rmax s (Rmin (x1 * (11 / 10)) hmax))).
  { unfold st1. rewrite Es. exact E2. }
  destruct (real_limits ls hmin hmax (Rmax s (Rmin (x1 * (11 / 10)) hmax))) as (s2 & E4 & L3 & L4).
  assert (E5 : st2 = real_stepper hmin hmax s2) by (unfold st2; rewrite E3; exact E4).
  destruct (real_call hmin hmax s2 b) as [E6 _].
  destruct (real_step_le hmin s2 b) as [L5 L6].
  exists s, x1, (real_step hmin s2 b).
  split. { rewrite Es. reflexivity. } split. { rewrite Es. exact E1. }
  split. { rewrite E5. exact E6. } split; auto. split; auto. split; auto.
  split; [|split].
  - apply Rle_trans with s2; auto. apply Rle_trans with (1 := L3).
    apply Rmax_lub. { apply Rmax_l. }
    apply Rle_trans with (x1 * (11 / 10)). { apply Rmin_l. }
    rewrite Rmult_comm. apply Rmax_r.
  - apply Rle_trans with s2; auto. apply Rle_trans with (1 := L3).
    apply Rmax_lub. { apply Rmax_l. }
    apply Rle_trans with hmax. { apply Rmin_r. } apply Rmax_r.
  - eapply Forall_impl; [|exact L4]. intros l Hl. simpl in Hl. lra.
Qed.

(** the growth is real: 1/10 then 11/100 *)
Example C10_nonvacuous :
  let st := real_stepper (1/1000) 1 (1/10) in
  fst (stepper_call st (Fin 10 : num XA)) = Fin (1/10) /\
  fst (stepper_call (snd (stepper_call st (Fin 10 : num XA))) (Fin 10 : num XA)) = Fin (11/100).
Proof.
  intros st. destruct (real_call (1/1000) 1 (1/10) 10) as [E1 E2].
  assert (H1 : real_step (1/1000) (1/10) 10 = 1/10).
  { unfold real_step. rewrite Rmin_right by lra. rewrite Rlt_bool_false by lra. reflexivity. }
  rewrite H1 in E1, E2. split; auto. unfold st. rewrite E2.
  destruct (real_call (1/1000) 1 (Rmax (1/10) (Rmin (1/10*(11/10)) 1)) 10) as [E3 _].
  rewrite E3. rewrite Rmin_left by lra. rewrite Rmax_right by lra.
  unfold real_step. rewrite Rmin_right by lra. rewrite Rlt_bool_false by lra. cbn [andb]. f_equal. lra.
Qed.

(** ** C11 *)
Theorem C11_no_sliver : forall hmin hmax soft0 cmds stride,
  0 <= hmin ->
  let st := fold_left stepper_do cmds (real_stepper hmin hmax soft0) in
  exists s x, soft_max st = Fin s /\ fst (stepper_call st (Fin stride : num XA)) = Fin x /\
    (x = stride \/ x <= stride - 2 * hmin) /\
    (hmin <= s -> 3 * hmin <= stride -> hmin <= x).
Proof.
  intros hmin hmax soft0 cmds stride Hh st.
  destruct (real_reach cmds hmin hmax soft0) as [s Es]. fold st in Es.
  destruct (real_call hmin hmax s stride) as [E1 _].
  exists s, (real_step hmin s stride).
  split. { rewrite Es. reflexivity. } split. { rewrite Es. exact E1. }
  unfold real_step. pose proof (Rmin_l stride s). pose proof (Rmin_r stride s).
  assert (Hmin : hmin <= s -> 3 * hmin <= stride -> hmin <= Rmin stride s).
  { intros. apply Rmin_glb; lra. }
  destruct (Rlt_bool_spec (stride - 2 * hmin) (Rmin stride s)) as [H1|H1]; simpl.
  - destruct (Rlt_bool_spec (Rmin stride s) stride) as [H2|H2]; simpl.
    + split. { right. lra. } intros. lra.
    + split; auto. left. lra.
  - split; auto.
Qed.

Example C11_nonvacuous : 0 <= 1/1024 /\ 1/1024 <= 1/100 /\ 3 * (1/1024) <= 1/4.
Proof. lra. Qed.

(** Below 3*min(dt) the guard is needed: an output period of 2.5*min(dt) with max(dt) = 4*min(dt)
    makes the program propose half of min(dt) and give up, although every linear solve would
    succeed. *)
Theorem C11_short_stride_aborts_refuted : exists (p : params B64) (o : oracles B64 unit),
  nlt (DTMIN p) (t_step p) = true /\ nlt (DTMIN p) (DTMAX p) = true /\
  (forall n c c' t d, exists y, o_solve o n c c' t d = (Some y, n0)) /\
  exists s, time_integration 10 p o n0 (timing_initial_dt (DTMIN p) (DTMAX p)) n0 tt tt =
    Returned 1 s.
Proof.
  exists (@mkParams B64 (b64_of 1 (-10)) (b64_of 1 (-8)) (b64_of 1 0) (b64_of 1 0) (b64_of 5 (-11)) 0 false).
  exists (@mkOracles B64 unit (fun _ => false) (fun _ _ _ _ _ => (Some tt, n0)) (fun c => c)
            (fun c n => Some (c, n))).
  split. { vm_compute. reflexivity. } split. { vm_compute. reflexivity. }
  split. { intros. exists tt. reflexivity. }
  match goal with |- exists s, ?x = _ =>
      assert (H : match x with Returned 1 _ => True | _ => False end) by (vm_compute; exact I);
      destruct x as [[|[]|]| | | |]; try contradiction; eauto end.
Qed.

(** ** C12 *)
(** Exact arithmetic, t_step > 0: the number of lines of a completed run, and how far the last one is
    from final_time. *)
Theorem C12_line_count : forall C (o : oracles XA C) fuel p (a tf ts : R) dt0 v0 c0 c1 s,
  real_params p (Fin a : num XA) -> p_tf p = Fin tf -> t_step p = Fin ts -> 0 < ts ->
  let r := time_integration fuel p o (Fin a : num XA) dt0 v0 c0 c1 in
  r = Returned 0 s ->
  exists N, Rabs (IZR N - (tf - a) / ts) <= 1 / 2 /\
    length (lines (events r)) = Z.to_nat (N + 1) /\
    Rabs ((a + IZR N * ts) - tf) <= ts / 2 /\
    ((0 <= N)%Z -> In (N, Fin (a + IZR N * ts) : num XA) (lines (events r))) /\
    (forall n, tf - a = IZR n * ts -> N = n /\ a + IZR N * ts = tf).
Proof.
  intros C o fuel p a tf ts dt0 v0 c0 c1 s Hp Htf Hts Hpos r Hr.
  destruct (step_count p (Fin a : num XA)) as [N|] eqn:HN.
  2: { apply run_undefined with (o := o) (dt0 := dt0) (fuel := fuel) (v0 := v0) (c0 := c0) (n0 := c1) in HN.
       fold r in HN. rewrite Hr in HN. discriminate. }
  destruct (C01_output_times_exact C o fuel p (Fin a : num XA) dt0 v0 c0 c1 N Hp HN) as (H1 & H2 & H3 & H4).
  fold r in H1, H2, H3, H4. specialize (H4 s Hr).
  assert (EN : N = ZnearestA ((tf - a) / ts)).
  { unfold step_count in HN. rewrite Htf, Hts in HN. cbn in HN. rewrite Req_bool_false in HN by lra.
    cbn in HN.
    destruct ((-2147483648 <=? ZnearestA ((tf + - a) / ts)) && (ZnearestA ((tf + - a) / ts) <? 2147483647))%Z;
      inversion HN. reflexivity. }
  assert (Hn : Rabs (IZR N - (tf - a) / ts) <= 1 / 2).
  { rewrite EN. rewrite Rabs_minus_sym. replace (1/2) with (/2) by lra. apply Znearest_half. }
  exists N. split; auto. split; auto. split; [|split].
  - replace (a + IZR N * ts - tf) with ((IZR N - (tf - a) / ts) * ts) by (field; lra).
    rewrite Rabs_mult, (Rabs_pos_eq ts) by lra. replace (ts / 2) with (1 / 2 * ts) by lra.
    apply Rmult_le_compat_r; lra.
  - intros HN0.
    assert (Hin : In N (map fst (lines (events r)))).
    { rewrite H1, H4. unfold upto. apply in_map_iff. exists (Z.to_nat N).
      split. { lia. } apply in_seq. lia. }
    apply in_map_iff in Hin. destruct Hin as ([k t] & Ek & Hin). simpl in Ek. subst k.
    pose proof (H3 _ _ Hin) as Et. rewrite Hts in Et. cbn in Et.
    replace (a + IZR N / 1 * ts) with (a + IZR N * ts) in Et by field. rewrite Et in Hin. exact Hin.
  - intros n Hn'. assert (N = n).
    { rewrite EN. apply nearest_int. rewrite Hn'. field. lra. }
    subst n. split; auto. lra.
Qed.

Example C12_nonvacuous : real_params ex_xparams (Fin 0 : num XA) /\
  p_tf ex_xparams = (Fin 1 : num XA) /\ t_step ex_xparams = (Fin (1/4) : num XA) /\
  (1 - 0 = IZR 4 * (1/4)) /\ exists s, ex_run = Returned 0 s.
Proof.
  split. { exact ex_real_params. } split; auto. split; auto. split. { lra. }
  apply C08_nonvacuous.
Qed.

(** When final_time is not a whole number of output periods away, a completed run stops short of it
    or goes past it: with t0 = 0, final_time = 1 and period 2/5 the last line is at 6/5. *)
Theorem C12_last_line_past_final_time : forall C (o : oracles XA C) fuel dt0 v0 c0 c1 s,
  let p := @mkParams XA (Fin (1/1024)) (Fin 1) (Fin 1) (Fin 1) (Fin (2/5)) 0 false in
  let r := time_integration fuel p o (Fin 0 : num XA) dt0 v0 c0 c1 in
  r = Returned 0 s -> length (lines (events r)) = 4%nat /\ In (3%Z, Fin (6/5) : num XA) (lines (events r)).
Proof.
  intros C o fuel dt0 v0 c0 c1 s p r Hr.
  assert (Hp : real_params p (Fin 0 : num XA)).
  { split. { exists 0. reflexivity. } split.
    - exists (2/5). split; [reflexivity|lra].
    - exists (1/1024). split; [reflexivity|lra]. }
  assert (HN : step_count p (Fin 0 : num XA) = Some 3%Z).
  { unfold step_count, p. cbn. rewrite Req_bool_false by lra. cbn.
    replace ((1 + -0) / (2 / 5)) with (5 / 2) by field.
    replace (ZnearestA (5/2)) with 3%Z; [reflexivity|].
    unfold Znearest. replace (Zfloor (5/2)) with 2%Z.
    - rewrite Rcompare_Eq by lra. simpl.
      symmetry. apply Zceil_imp. simpl. lra.
    - symmetry. apply Zfloor_imp. simpl. lra. }
  destruct (C01_output_times_exact C o fuel p (Fin 0 : num XA) dt0 v0 c0 c1 3 Hp HN) as (H1 & H2 & H3 & H4).
  fold r in H1, H2, H3, H4. specialize (H4 s Hr). split. { exact H4. }
  assert (Hin : In 3%Z (map fst (lines (events r)))).
  { rewrite H1, H4. vm_compute. tauto. }
  apply in_map_iff in Hin. destruct Hin as ([k t] & Ek & Hin). simpl in Ek. subst k.
  pose proof (H3 _ _ Hin) as Et. cbn in Et.
  replace (0 + 3 / 1 * (2/5)) with (6/5) in Et by field. rewrite Et in Hin. exact Hin.
Qed.

(** ** C13 *)
(** Any arithmetic. (1) No trial is started at or after the first check that sees the signal. (2) A
    run terminated by a signal has, as its last event and nowhere else, the handling of the request,
    labelled with the current time; it saves a configuration if and only if mag_config_every > 0.
    (3) That configuration is the last accepted one provided recentering is off and no trial was
    refused by max(du) since. Missing from the full property: (3) without the proviso, which is
    false, see below. *)
Theorem C13_signals_partial : forall A C (o : oracles A C) fuel p t0 dt0 v0 c0 c1,
  let r := time_integration fuel p o t0 dt0 v0 c0 c1 in
  (forall n t d c, In (EvTrial n t d c) (events r) -> forall m, (m <= n)%nat -> o_signal o m = false) /\
  match r with
  | Signalled s => exists l saved, events r = l ++ [EvAtExit (time s) saved] /\
      (forall t x, ~ In (EvAtExit t x) l) /\
      (saved <> None <-> (0 < save_period p)%Z) /\
      (exists n, o_signal o n = true) /\
      (recenter_on p = false ->
       (forall l1 l2 d v t c, l = l1 ++ EvTooLarge d v t c :: l2 ->
          exists d' v' t' c' n', In (EvAccepted d' v' t' c' n') l2) ->
       forall x, saved = Some x -> x = cur s)
  | _ => forall t x, ~ In (EvAtExit t x) (events r)
  end.
Proof.
  intros A C o fuel p t0 dt0 v0 c0 c1 r. split.
  - intros n t d c H. apply (run_events p o dt0 fuel t0 v0 c0 c1 _ H).
  - pose proof (run_signal p o dt0 fuel t0 v0 c0 c1) as H. fold r in H.
    destruct r as [st s|s|s|s|]; auto.
    destruct H as ((l & E & Hno & Hcl) & Hs).
    exists l, (if (0 <? save_period p)%Z then Some (nxt s) else None).
    split; auto. split; auto. split; [|split; auto].
    + destruct (Z.ltb_spec 0 (save_period p)); split; intros; try congruence; try lia; auto.
    + intros Hrc Hall x Hx. destruct (0 <? save_period p)%Z; [|discriminate]. inversion Hx; subst.
      apply Hcl; auto. clear - Hall.
      revert Hall. generalize (rev_involutive l). generalize (rev l). intros m Hm. subst l.
      induction m as [|e m IH]; simpl; auto. intros Hall.
      assert (HI : (forall d' v' t' c' n', e <> EvAccepted d' v' t' c' n') -> clean m).
      { intros He. apply IH. intros l1 l2 d v t c E.
        destruct (Hall l1 (l2 ++ [e]) d v t c) as (d' & v' & t' & c' & n' & Hin).
        - rewrite E, <- app_assoc. reflexivity.
        - apply in_app_or in Hin. destruct Hin as [Hin|[Hin|[]]]; [eauto 10|].
          exfalso. eapply He. exact Hin. }
      destruct e; auto; try (apply HI; intros; discriminate).
      destruct (Hall (rev m) [] _ _ _ _ eq_refl) as (d' & v' & t' & c' & n' & []).
Qed.

(** the property as stated is false: the configuration saved on a signal that follows a refused trial
    is the refused one. In the example the sixth trial (number 5) is refused; the signal is seen at
    the next check; what is saved is its result, 5, while the accepted configuration is 4. *)
Theorem C13_saved_is_accepted_refuted : exists s l t,
  time_integration 40 ex_params (ex_oracles (fun n => (6 <=? n)%nat)) (b64_of 0 0) ex_dt0 n0 0%nat 0%nat
    = Signalled s /\ log s = EvAtExit t (Some 5%nat) :: l /\ cur s = 4%nat.
Proof.
  match goal with |- exists s l t, ?x = _ /\ _ =>
    assert (H : match x with
      | Signalled s => match log s with
          | EvAtExit _ (Some c) :: _ => c = 5%nat /\ cur s = 4%nat | _ => False end
      | _ => False end) by (vm_compute; auto);
    destruct x as [st s|s|s|s|]; try contradiction; exists s end.
  destruct (log s) as [|e l] eqn:E; try contradiction. destruct e; try contradiction.
  destruct saved as [c|]; try contradiction. destruct H as [-> H]. eauto 10.
Qed.

(** ** C14 *)
(** Any arithmetic: there is a snapshot k at time t exactly when there is a line k at that time and
    mag_config_every > 0 divides k (with [mag_config_every] not negative, as read from the settings);
    it directly follows the line. *)
Theorem C14_snapshots : forall A C (o : oracles A C) fuel p t0 dt0 v0 c0 c1,
  (0 <= save_period p)%Z ->
  let r := time_integration fuel p o t0 dt0 v0 c0 c1 in
  (forall k t n, In (EvSnapshot k t n) (events r) <->
     In (EvLine k t n) (events r) /\ (0 < save_period p)%Z /\ (save_period p | k)%Z) /\
  (forall e k t n, follows (events r) e (EvSnapshot k t n) -> e = EvLine k t n).
Proof.
  intros A C o fuel p t0 dt0 v0 c0 c1 H0 r. split.
  - intros k t n. unfold r. rewrite (run_snapshots p o dt0 fuel t0 v0 c0 c1 k t n).
    destruct (Z.eq_dec (save_period p) 0) as [E|E].
    + rewrite E. unfold snapshot_due. simpl. split; [intros [_ H]; discriminate|]. lia.
    + rewrite snapshot_due_spec by lia. split; [|tauto]. intros [H1 H2]. split; auto. split; auto. lia.
  - intros e k t n H. pose proof (run_chain p o dt0 fuel t0 v0 c0 c1 _ _ H) as Hn.
    destruct e; simpl in Hn; try contradiction. decompose [and] Hn. subst. reflexivity.
Qed.

Example C14_nonvacuous : (0 <= save_period ex_params)%Z /\ ex_count 5 = 3%nat /\ ex_count 4 = 5%nat.
Proof. vm_compute. split; auto. discriminate. Qed.

Print Assumptions C01_output_times_exact.
Print Assumptions C01_output_times_exact_b64.
Print Assumptions C02_no_overshoot.
Print Assumptions C02_no_overshoot_b64.
Print Assumptions C03_dt_at_least_min.
Print Assumptions C03_dt_at_most_max.
Print Assumptions C03_dt_at_most_max_b64.
Print Assumptions C04_accepted_within_dumax.
Print Assumptions C05_rejected_trial_rolled_back.
Print Assumptions C06_time_forward.
Print Assumptions C06_time_never_decreases_b64.
Print Assumptions C07_time_loop_ends_partial.
Print Assumptions C07_time_loop_ends_refuted.
Print Assumptions C08_exit_status.
Print Assumptions C09_retry_smaller.
Print Assumptions C09_retry_smaller_b64.
Print Assumptions C10_growth_bounded.
Print Assumptions C11_no_sliver.
Print Assumptions C11_short_stride_aborts_refuted.
Print Assumptions C12_line_count.
Print Assumptions C12_last_line_past_final_time.
Print Assumptions C13_signals_partial.
Print Assumptions C13_saved_is_accepted_refuted.
Print Assumptions C14_snapshots.
