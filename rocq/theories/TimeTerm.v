(** * The time loop ends (exact arithmetic), and can stall (binary64) *)

From Coq Require Import ZArith List Bool Lia Reals Lra Psatz.
From Flocq Require Import Core BinarySingleNaN.
From Verif Require Import Arith ArithLaws TimeModel TimeSpec TimeProof TimeNum.
Import ListNotations.
Local Open Scope R_scope.

#[local] Opaque propose.

Section Term.
Context {C : Type}.
Variable p : params XA.
Variable o : oracles XA C.
Variable m : R.
Hypothesis Hm : 0 < m.
Hypothesis Hmin : DTMIN p = Fin m.
Hypothesis Hdu : nlt n0 (DUMAX p) = true.

Notation LX := XA_laws.

Lemma limit_too_large : forall d v, 0 < d -> xlt (DUMAX p) (xmul (Fin d) v) = true ->
  exists l, nmul (ndiv (DUMAX p) v) (nlit 95 100) = Fin l /\ l <= 19 / 20 * d.
Proof.
  intros d v Hd Hl. cbn in Hdu |- *.
  destruct (DUMAX p) as [u| | |]; cbn in *; try discriminate.
  2: { destruct v as [v| | |]; cbn in Hl; try discriminate.
       - unfold inf_times in Hl. rewrite Rlt_bool_true in Hl by exact Hd. discriminate.
       - unfold inf_times in Hl. rewrite Rlt_bool_true in Hl by exact Hd. discriminate. }
  assert (Hu : 0 < u). { apply Rlt_bool_iff in Hdu. lra. }
  destruct v as [v| | |]; cbn in *; try discriminate.
  - apply Rlt_bool_iff in Hl.
    assert (Hv : 0 < v). { apply Rnot_le_lt. intros H. nra. }
    rewrite Req_bool_false by lra. eexists. split. { reflexivity. }
    assert (u / v < d). { apply Rmult_lt_reg_r with v; auto. unfold Rdiv. rewrite Rmult_assoc,
      Rinv_l by lra. lra. }
    lra.
  - eexists. split. { reflexivity. } lra.
  - unfold inf_times in Hl. rewrite Rlt_bool_true in Hl by exact Hd. discriminate.
Qed.

(** after set_soft_limit(l) with l <= b, the soft limit is at most b *)
Lemma soft_limited : forall (st : stepper XA) l b, nisnan (soft_max st) = false -> l <= b ->
  nlt (Fin b : num XA) (soft_max (set_soft_limit st (Fin l : num XA))) = false.
Proof.
  intros st l b Hn Hlb. cbn. unfold std_min. cbn. cbn in Hn.
  destruct (soft_max st) as [x| | |]; cbn in *; try discriminate; auto.
  - destruct (Rlt_bool_spec l x); cbn; apply Rlt_bool_iff_false; lra.
  - apply Rlt_bool_iff_false; lra.
Qed.

Lemma step_le_bound : forall (st : stepper XA) stride b, nisnan (soft_max st) = false ->
  nlt (Fin b : num XA) (soft_max st) = false ->
  nlt (Fin b : num XA) (fst (stepper_call st stride)) = false.
Proof.
  intros st stride b Hn Hb. pose proof (call_le_soft LX st stride Hn) as Hc.
  destruct (nlt (Fin b : num XA) (fst (stepper_call st stride))) eqn:E; auto.
  rewrite (lt_neg_trans _ LX _ _ _ Hn Hb E) in Hc. discriminate.
Qed.

Definition q : R := 20 / 19.

Lemma inner_ends : forall tau K fuel n k (s : state XA C) t,
  time s = Fin t -> nisnan (soft_max (stp s)) = false ->
  tau - t <= INR n * m -> tau - t < m * q ^ K ->
  (exists b, b < m * q ^ k /\ (tau - t <= b \/ nlt (Fin b : num XA) (soft_max (stp s)) = false)) ->
  (n * S K + k <= fuel)%nat ->
  forall s', inner fuel p o (Fin tau : num XA) s <> IFuel s'.
Proof.
  intros tau K. induction fuel as [|f IH]; intros n k s t Et Hn Hrem HK (b & Hb & Hbs) Hf s'.
  - simpl. rewrite Et. cbn. destruct (Rlt_bool_spec t tau) as [Hlt|Hlt]; try discriminate.
    exfalso. assert (n = 0)%nat by nia. subst n. cbn in Hrem. lra.
  - simpl. rewrite Et. cbn [nlt XA xlt]. destruct (Rlt_bool_spec t tau) as [Hlt|Hlt]; try discriminate.
    assert (Hn1 : exists n', n = S n').
    { destruct n as [|n']; [exfalso; cbn in Hrem; lra|eauto]. }
    destruct Hn1 as [n' En].
    assert (Hq : 0 < q) by (unfold q; lra).
    set (T := Fin tau : num XA).
    generalize (attempt_ok p o T s). destruct (attempt p o T s) as [s2|s2|s2|s2]; intros Ha;
      try discriminate.
    (* the step *)
    assert (Ed : dt (propose T s) = fst (stepper_call (stp s) (nsub T (time s))))
      by apply propose_dt.
    assert (Est : stp (propose T s) = snd (stepper_call (stp s) (nsub T (time s))))
      by apply propose_stp.
    assert (Estride : nsub T (time s) = Fin (tau - t)).
    { rewrite Et. unfold T. cbn. reflexivity. }
    assert (Hstep : nlt (dt (propose T s)) (DTMIN p) = false ->
      exists d, dt (propose T s) = Fin d /\ m <= d <= tau - t /\ d <= b).
    { intros Hd. rewrite Hmin in Hd.
      destruct (fin_step LX (stp s) (nsub T (time s)) (Fin m)) as (Fd & H2 & _).
      - rewrite Estride. exact I.
      - exact I.
      - rewrite <- Ed. exact Hd.
      - rewrite <- Ed in Fd, H2. rewrite Estride in H2. cbn in Fd, H2.
        assert (Hbd : tau - t <= b \/ nlt (Fin b : num XA) (dt (propose T s)) = false).
        { destruct Hbs as [H|H]; auto. right. rewrite Ed. apply step_le_bound; auto. }
        destruct (dt (propose T s)) as [d| | |]; cbn in Fd; try contradiction.
        exists d. cbn in H2. split; auto. split; auto.
        destruct Hbd as [H|H]. { lra. } cbn in H. apply Rlt_bool_iff_false in H. exact H. }
    assert (Hn2 : nisnan (soft_max (stp (propose T s))) = false).
    { rewrite Est. cbn [stepper_call snd soft_max]. apply (max_notnan LX). exact Hn. }
    assert (Hqk : nlt (dt (propose T s)) (DTMIN p) = false -> exists k', k = S k').
    { intros Hd. destruct (Hstep Hd) as (d & _ & H1 & H2). destruct k as [|k']; eauto.
      exfalso. cbn in Hb. lra. }
    inversion Ha as [ | | s1 vm Hs H1 Hd Hso | s1 c vm Hs H1 Hd Hso Hl | |
                    s1 s3 c vm c' n'' Hs H1 Hd Hso Hl H2 Hr1 Hr2 ]; subst s2; clear Ha.
    + (* failure *)
      destruct (Hstep Hd) as (d & Hdd & Hd1 & Hd2). destruct (Hqk Hd) as [k' ->].
      apply (IH n k' _ t); auto.
      * subst s1. simpl. rewrite propose_time. exact Et.
      * subst s1. simpl. apply (min_notnan LX). exact Hn2.
      * exists (d / 2). split.
        { cbn in Hb. unfold q in *. nra. }
        right. subst s1. cbn [stp solver_failed add_event dt]. rewrite Hdd.
        assert (E2 : @ndiv XA (Fin d) (nZ 2) = Fin (d / 2)).
        { cbn. rewrite Req_bool_false by lra. f_equal. field. }
        rewrite E2. apply soft_limited; auto. lra.
      * lia.
    + (* too large *)
      destruct (Hstep Hd) as (d & Hdd & Hd1 & Hd2). destruct (Hqk Hd) as [k' ->].
      rewrite Hdd in Hl. destruct (limit_too_large d vm ltac:(lra) Hl) as (l & El & Hle).
      apply (IH n k' _ t); auto.
      * subst s1. simpl. rewrite propose_time. exact Et.
      * subst s1. simpl. apply (min_notnan LX). exact Hn2.
      * exists (19 / 20 * d). split.
        { cbn in Hb. unfold q in *. nra. }
        right. subst s1. cbn [stp too_large solver_done add_event dt]. rewrite El.
        apply soft_limited; auto.
      * lia.
    + (* accepted *)
      destruct (Hstep Hd) as (d & Hdd & Hd1 & Hd2).
      assert (Ht' : exists t', time (log_accepted (recentered c' n'' s3)) = Fin t' /\
                t + m <= t' /\ t' <= tau \/ time (log_accepted (recentered c' n'' s3)) = Fin tau /\ t' = tau).
      { subst s3 s1.
        cbn [time dt log_accepted recentered accept compute_all solver_done add_event].
        rewrite propose_time, Hdd, Estride, Et. cbn.
        destruct (Req_bool (d) (tau - t)).
        - exists tau. right. split; reflexivity.
        - exists (t + d). left. repeat split; lra. }
      destruct Ht' as (t' & Ht').
      assert (Ht'' : time (log_accepted (recentered c' n'' s3)) = Fin t' /\ t <= t' <= tau /\
                     tau - t' <= INR n' * m).
      { rewrite En, S_INR in Hrem. pose proof (pos_INR n').
        destruct Ht' as [(E1 & E2 & E3)|(E1 & E2)].
        - repeat split; auto; nra.
        - subst t'. repeat split; auto; nra. }
      destruct Ht'' as (E1 & E2 & E3).
      apply (IH n' K _ t'); auto.
      * subst s3 s1. simpl. apply (min_notnan LX). exact Hn2.
      * lra.
      * exists (tau - t'). split. { lra. } left. lra.
      * lia.
Qed.

End Term.

Section Uniform.
Context {C : Type}.
Variable p : params XA.
Variable o : oracles XA C.

(** state reached when the inner loop is left normally *)
Lemma inner_done_inv : forall m tau fuel (s s' : state XA C) t, 0 < m -> DTMIN p = Fin m ->
  time s = Fin t -> nisnan (soft_max (stp s)) = false ->
  inner fuel p o (Fin tau : num XA) s = IDone s' ->
  exists t', time s' = Fin t' /\ t <= t' /\ nisnan (soft_max (stp s')) = false.
Proof.
  intros m tau fuel s s' t Hm Hmin Et Hn Hi.
  set (T := Fin tau : num XA) in *.
  pose proof (inner_inv p o (fun s => exists t', time s = Fin t' /\ t <= t' /\
     nisnan (soft_max (stp s)) = false) T) as H.
  assert (H0 : exists t', time s = Fin t' /\ t <= t' /\ nisnan (soft_max (stp s)) = false).
  { exists t. repeat split; auto. lra. }
  specialize (fun Hp => H Hp fuel s H0). rewrite Hi in H. apply H. clear H Hi s s' Et Hn H0.
  intros s s' (t1 & Et & Ht1 & Hn) Hlt Ha.
  assert (Hn2 : nisnan (soft_max (stp (propose T s))) = false).
  { rewrite propose_stp. cbn [stepper_call snd soft_max]. apply (max_notnan XA_laws). exact Hn. }
  inversion Ha as [ | | s1 vm Hs H1 Hd Hso | s1 c vm Hs H1 Hd Hso Hl | |
                    s1 s3 c vm c' n'' Hs H1 Hd Hso Hl H2 Hr1 Hr2 ]; subst s'; clear Ha.
  - exists t1. subst s1. simpl. rewrite propose_time. repeat split; auto.
    apply (min_notnan XA_laws). exact Hn2.
  - exists t1. subst s1. simpl. rewrite propose_time. repeat split; auto.
    apply (min_notnan XA_laws). exact Hn2.
  - assert (Estride : nsub T (time s) = Fin (tau - t1)) by (rewrite Et; reflexivity).
    destruct (fin_step XA_laws (stp s) (nsub T (time s)) (Fin m)) as (Fd & H3 & _).
    { rewrite Estride. exact I. } { exact I. }
    { rewrite <- propose_dt, <- Hmin. exact Hd. }
    rewrite <- propose_dt, Estride in *. cbn in H3, Fd.
    destruct (dt (propose T s)) as [d| | |] eqn:Ed; cbn in Fd; try contradiction.
    subst s3 s1. cbn [time dt stp log_accepted recentered accept compute_all solver_done add_event].
    rewrite propose_time, Ed, Et. cbn.
    rewrite Et in Hlt. cbn in Hlt. apply Rlt_bool_iff in Hlt. cbn in H3.
    destruct (Req_bool d (tau - t1)).
    + exists tau. repeat split; auto. { lra. } apply (min_notnan XA_laws). exact Hn2.
    + exists (t1 + d). repeat split; auto. { lra. } apply (min_notnan XA_laws). exact Hn2.
Qed.

Lemma outer_ends : forall m M K nb, 0 < m -> DTMIN p = Fin m -> nlt n0 (DUMAX p) = true ->
  M <= INR nb * m -> M < m * q ^ K ->
  forall t0 fuel, (nb * S K + K <= fuel)%nat ->
  forall n k (s : state XA C) t, time s = Fin t -> t0 <= t -> nisnan (soft_max (stp s)) = false ->
  (0 <= k)%Z ->
  (forall j, (k <= j < k + Z.of_nat n)%Z ->
     exists tau, target_time p (Fin t0 : num XA) j = Fin tau /\ tau - t0 <= M) ->
  forall s', outer fuel p o (Fin t0 : num XA) n k s <> Running s'.
Proof.
  intros m M K nb Hm Hmin Hdu H1 H2 t0 fuel Hf.
  induction n as [|n IH]; intros k s t Et Ht Hn Hk HT s'; cbn [outer]. { discriminate. }
  destruct (HT k ltac:(lia)) as (tau & Etau & Htau). rewrite Etau.
  assert (Hno : forall s2, inner fuel p o (Fin tau : num XA) s <> IFuel s2).
  { apply (inner_ends p o m Hm Hmin Hdu tau K fuel nb K s t); auto; try lra.
    exists (tau - t). split; [lra|left; lra]. }
  destruct (inner fuel p o (Fin tau : num XA) s) as [s1|s1|s1|s1|s1] eqn:Ei; try discriminate.
  - destruct (inner_done_inv m tau fuel s s1 t Hm Hmin Et Hn Ei) as (t1 & E1 & E2 & E3).
    assert (Es : time (saver_events p k s1) = Fin t1 /\
                 nisnan (soft_max (stp (saver_events p k s1))) = false).
    { unfold saver_events. destruct (snapshot_due (save_period p) k); simpl; auto. }
    destruct Es as [Es1 Es2].
    apply (IH (k + 1)%Z _ t1); auto; try lra; try lia.
    intros j Hj. apply HT. lia.
  - exfalso. apply (Hno s1). reflexivity.
Qed.

End Uniform.

Lemma exists_INR_above : forall r, exists n, r < INR n.
Proof.
  intros r. exists (Z.to_nat (Z.max 0 (up r))). rewrite INR_IZR_INZ, Z2Nat.id by lia.
  destruct (archimed r) as [H _]. apply Rlt_le_trans with (1 := H). apply IZR_le. lia.
Qed.

Lemma run_ends : forall (p : params XA) (t0 ts m : R) (dt0 : num XA),
  DTMIN p = Fin m -> 0 < m -> t_step p = Fin ts -> nlt n0 (DUMAX p) = true -> nisnan dt0 = false ->
  exists F, forall (C : Type) (o : oracles XA C) v0 c0 c1 fuel, (F <= fuel)%nat ->
  forall s, time_integration fuel p o (Fin t0 : num XA) dt0 v0 c0 c1 <> Running s.
Proof.
  intros p t0 ts m dt0 Hmin Hm Hts Hdu Hd0.
  destruct (step_count p (Fin t0 : num XA)) as [N|] eqn:HN.
  2: { exists 0%nat. intros. unfold time_integration. simpl time. rewrite HN. discriminate. }
  set (M := Rabs (IZR N) * Rabs ts).
  destruct (exists_INR_above (M / m)) as [nb Hnb].
  destruct (Pow_x_infinity q) with (b := (M / m + 1)) as [K HK].
  { unfold q. rewrite Rabs_pos_eq; lra. }
  specialize (HK K (Nat.le_refl K)).
  assert (Hq : 0 < q ^ K) by (apply pow_lt; unfold q; lra).
  rewrite Rabs_pos_eq in HK by lra.
  assert (E1 : M = M / m * m) by (field; lra).
  assert (Hb1 : M <= INR nb * m) by (rewrite E1; apply Rmult_le_compat_r; lra).
  assert (Hb2 : M < m * q ^ K) by (rewrite E1; nra).
  exists (nb * S K + K)%nat. intros C o v0 c0 c1 fuel Hf s.
  unfold time_integration. simpl time. rewrite HN.
  apply (outer_ends p o m M K nb Hm Hmin Hdu Hb1 Hb2 t0 fuel Hf _ _ _ t0); auto; try lra; try lia.
  intros j Hj. eexists. split.
  - unfold target_time. rewrite Hts. cbn. reflexivity.
  - unfold M. assert (0 <= IZR j <= Rabs (IZR N)).
    { rewrite <- abs_IZR. split; [apply (IZR_le 0)|apply IZR_le]; lia. }
    pose proof (Rabs_pos ts). pose proof (RRle_abs ts).
    replace (IZR j / 1) with (IZR j) by field. nra.
Qed.

(** ** Binary64: the loop can run for ever *)
Definition b64_of (z : Z) (e : Z) : num B64 := binary_normalize 53 1024 prec53 emax1024 mode_NE z e false.

(** t0 = 1, one output per second until 2, min(dt) = max(dt) = 2^-60, max(du) = 1 *)
Definition stall_params : params B64 := @mkParams B64
  (b64_of 1 (-60)) (b64_of 1 (-60)) (b64_of 2 0) (b64_of 1 0) (b64_of 1 0) 0 false.

(** every linear solve succeeds, the largest velocity is always 1, no signal *)
Definition stall_oracles : oracles B64 unit := @mkOracles B64 unit
  (fun _ => false) (fun _ _ _ _ _ => (Some tt, b64_of 1 0)) (fun c => c)
  (fun c n => Some (c, n)).

Definition stall_stepper (soft : num B64) : stepper B64 :=
  {| hard_min := b64_of 1 (-60);
     hard_max := hard_max (stepper_new (b64_of 1 (-60)) (b64_of 1 (-60)) (b64_of 1 (-60)));
     soft_max := soft |}.

(** equality of binary64 numbers through their sign, mantissa and exponent *)
Definition same (x y : num B64) : Prop := B2SF (x : b64) = B2SF (y : b64).
Lemma same_eq : forall x y, same x y -> x = y.
Proof. intros x y H. apply B2SF_inj. exact H. Qed.

Definition soft1 : num B64 := b64_of 1 (-60).
Definition soft2 : num B64 := b64_of 8388609 (-83).

Definition stalled (s : state B64 unit) : Prop :=
  time s = b64_of 1 0 /\ exists x, (x = soft1 \/ x = soft2) /\ stp s = stall_stepper x.

Definition btarget : num B64 := b64_of 2 0.

Lemma snd_call : forall {A} (st : stepper A) stride,
  snd (stepper_call st stride) =
  {| hard_min := hard_min st; hard_max := hard_max st;
     soft_max := soft_max (snd (stepper_call st stride)) |}.
Proof. reflexivity. Qed.

Lemma stall_call : forall x, x = soft1 \/ x = soft2 ->
  fst (stepper_call (stall_stepper x) (nsub btarget (b64_of 1 0))) = x /\
  snd (stepper_call (stall_stepper x) (nsub btarget (b64_of 1 0))) = stall_stepper soft2.
Proof.
  intros x Hx. split.
  - apply same_eq. destruct Hx as [-> | ->]; vm_compute; reflexivity.
  - rewrite snd_call. 
    assert (E : soft_max (snd (stepper_call (stall_stepper x) (nsub btarget (b64_of 1 0)))) = soft2).
    { apply same_eq. destruct Hx as [-> | ->]; vm_compute; reflexivity. }
    rewrite E. reflexivity.
Qed.

Lemma stalled_step : forall s, stalled s -> nlt (time s) btarget = true /\
  exists s', attempt stall_params stall_oracles btarget s = ACont s' /\ stalled s'.
Proof.
  intros s [Ht (x & Hx & Hst)]. rewrite Ht. split. { vm_compute. reflexivity. }
  pose proof (stall_call x Hx) as Hc.
  assert (Hd : dt (propose btarget s) = x).
  { rewrite propose_dt, Hst, Ht. apply Hc. }
  assert (Hs : stp (propose btarget s) = stall_stepper soft2).
  { rewrite propose_stp, Hst, Ht. apply Hc. }
  assert (Ed1 : nlt x (DTMIN stall_params) = false)
    by (destruct Hx as [-> | ->]; vm_compute; reflexivity).
  assert (Ed2 : nlt (DUMAX stall_params) (nmul x (b64_of 1 0)) = false)
    by (destruct Hx as [-> | ->]; vm_compute; reflexivity).
  assert (Ed3 : neq x (nsub btarget (b64_of 1 0)) = false)
    by (destruct Hx as [-> | ->]; vm_compute; reflexivity).
  assert (Ed4 : nadd (b64_of 1 0) x = b64_of 1 0)
    by (apply same_eq; destruct Hx as [-> | ->]; vm_compute; reflexivity).
  generalize (attempt_ok stall_params stall_oracles btarget s). intros Ha.
  inversion Ha as [Hsig Hq| Hsig Hsm Hq | s1 vm Hsig H1 Hdd Hso Hq | s1 c vm Hsig H1 Hdd Hso Hl Hq
                   | s1 s2 c vm Hrec Hsig H1 Hdd Hso Hl H2 Hq
                   | s1 s2 c vm c' n' Hsig H1 Hdd Hso Hl H2 Hr1 Hr2 Hq]; clear Ha.
  - discriminate.
  - rewrite Hd in Hsm. congruence.
  - discriminate.
  - assert (Ev : vm = b64_of 1 0) by (symmetry; exact (f_equal snd Hso)).
    rewrite Hd, Ev in Hl. congruence.
  - discriminate.
  - eexists. split. { reflexivity. }
    subst s2 s1. split.
    + cbn [time dt log_accepted recentered accept compute_all solver_done add_event].
      rewrite propose_time, Hd, Ht, Ed3. exact Ed4.
    + exists soft2. split; auto.
      cbn [stp log_accepted recentered accept compute_all solver_done add_event].
      assert (Ev : vm = b64_of 1 0) by (symmetry; exact (f_equal snd Hso)).
      rewrite Hs, Ev. unfold set_soft_limit, stall_stepper.
      cbn [hard_min hard_max soft_max]. f_equal.
Qed.

Lemma inner_stalls : forall fuel s, stalled s ->
  exists s', inner fuel stall_params stall_oracles (btarget : num B64) s = IFuel s'.
Proof.
  induction fuel as [|f IH]; intros s Hs; destruct (stalled_step s Hs) as [H1 (s1 & H2 & H3)];
    cbn [inner]; rewrite H1.
  - eauto.
  - rewrite H2. apply IH. exact H3.
Qed.

Lemma stall_target : target_time stall_params (b64_of 1 0) 1 = btarget.
Proof. apply same_eq. vm_compute. reflexivity. Qed.
Lemma stall_dt0 : timing_initial_dt (DTMIN stall_params) (DTMAX stall_params) = soft1.
Proof. apply same_eq. vm_compute. reflexivity. Qed.
Lemma stall_count : step_count stall_params (b64_of 1 0) = Some 1%Z.
Proof. vm_compute. reflexivity. Qed.
Lemma stall_first : nlt (b64_of 1 0) (target_time stall_params (b64_of 1 0) 0) = false.
Proof. vm_compute. reflexivity. Qed.

Lemma run_stalls : forall fuel, exists s,
  time_integration fuel stall_params stall_oracles (b64_of 1 0)
    (timing_initial_dt (DTMIN stall_params) (DTMAX stall_params)) n0 tt tt = Running s.
Proof.
  intros fuel. rewrite stall_dt0. unfold time_integration.
  set (s0 := compute_all stall_oracles _).
  assert (Et : time s0 = b64_of 1 0) by reflexivity.
  rewrite Et, stall_count. change (Z.to_nat (1 + 1)) with 2%nat.
  cbn [outer].
  assert (Ei : inner fuel stall_params stall_oracles
                 (target_time stall_params (b64_of 1 0) 0) s0 = IDone s0).
  { destruct fuel; cbn [inner]; rewrite Et, stall_first; reflexivity. }
  rewrite Ei. change (0 + 1)%Z with 1%Z. rewrite stall_target.
  destruct (inner_stalls fuel (saver_events stall_params 0 s0)) as [s' Hs'].
  - split. { reflexivity. } exists soft1. split; auto.
  - rewrite Hs'. eauto.
Qed.
