(** * Proofs about the time loop: control flow, for every arithmetic *)

From Coq Require Import ZArith List Bool Lia Reals Lra.
From Verif Require Import Arith ArithLaws TimeModel TimeSpec.
Import ListNotations.

Section Any.
Context {A : arith} {C : Type}.
Variable p : params A.
Variable o : oracles A C.
Notation state := (state A C).
Notation event := (event A C).

(** ** What one pass of the inner loop can do *)
Inductive attempt_spec (T : num A) (s : state) : attempt_result A C -> Prop :=
| AS_signal : o_signal o (trials s) = true -> attempt_spec T s (ASignal (at_exit p s))
| AS_abort : o_signal o (trials s) = false ->
    nlt (dt (propose T s)) (DTMIN p) = true -> attempt_spec T s (AAbort (propose T s))
| AS_fail : forall s1 vm,
    o_signal o (trials s) = false ->
    s1 = add_event (EvTrial (trials s) (time s) (dt (propose T s)) (cur s)) (propose T s) ->
    nlt (dt (propose T s)) (DTMIN p) = false ->
    o_solve o (trials s) (cur s) (nxt s) (time s) (dt (propose T s)) = (None, vm) ->
    attempt_spec T s (ACont (solver_failed vm s1))
| AS_large : forall s1 c vm,
    o_signal o (trials s) = false ->
    s1 = add_event (EvTrial (trials s) (time s) (dt (propose T s)) (cur s)) (propose T s) ->
    nlt (dt (propose T s)) (DTMIN p) = false ->
    o_solve o (trials s) (cur s) (nxt s) (time s) (dt (propose T s)) = (Some c, vm) ->
    nlt (DUMAX p) (nmul (dt (propose T s)) vm) = true ->
    attempt_spec T s (ACont (too_large (solver_done p c vm s1)))
| AS_exit : forall s1 s2 c vm,
    recenter_on p = true ->
    o_signal o (trials s) = false ->
    s1 = add_event (EvTrial (trials s) (time s) (dt (propose T s)) (cur s)) (propose T s) ->
    nlt (dt (propose T s)) (DTMIN p) = false ->
    o_solve o (trials s) (cur s) (nxt s) (time s) (dt (propose T s)) = (Some c, vm) ->
    nlt (DUMAX p) (nmul (dt (propose T s)) vm) = false ->
    s2 = accept o T (neq (dt (propose T s)) (nsub T (time s))) (solver_done p c vm s1) ->
    attempt_spec T s (AExit s2)
| AS_accept : forall s1 s2 c vm c' n',
    o_signal o (trials s) = false ->
    s1 = add_event (EvTrial (trials s) (time s) (dt (propose T s)) (cur s)) (propose T s) ->
    nlt (dt (propose T s)) (DTMIN p) = false ->
    o_solve o (trials s) (cur s) (nxt s) (time s) (dt (propose T s)) = (Some c, vm) ->
    nlt (DUMAX p) (nmul (dt (propose T s)) vm) = false ->
    s2 = accept o T (neq (dt (propose T s)) (nsub T (time s))) (solver_done p c vm s1) ->
    (recenter_on p = false -> c' = cur s2 /\ n' = nxt s2) ->
    (recenter_on p = true -> o_recenter o (cur s2) (nxt s2) = Some (c', n')) ->
    attempt_spec T s (ACont (log_accepted (recentered c' n' s2))).

Lemma propose_time : forall T (s : state), time (propose T s) = time s.
Proof. intros. unfold propose. destruct stepper_call. reflexivity. Qed.
Lemma propose_cur : forall T (s : state), cur (propose T s) = cur s.
Proof. intros. unfold propose. destruct stepper_call. reflexivity. Qed.
Lemma propose_nxt : forall T (s : state), nxt (propose T s) = nxt s.
Proof. intros. unfold propose. destruct stepper_call. reflexivity. Qed.
Lemma propose_nt : forall T (s : state), nt (propose T s) = nt s.
Proof. intros. unfold propose. destruct stepper_call. reflexivity. Qed.
Lemma propose_log : forall T (s : state), log (propose T s) = log s.
Proof. intros. unfold propose. destruct stepper_call. reflexivity. Qed.
Lemma propose_trials : forall T (s : state), trials (propose T s) = S (trials s).
Proof. intros. unfold propose. destruct stepper_call. reflexivity. Qed.
Lemma propose_good : forall T (s : state), good_dt (propose T s) = good_dt s.
Proof. intros. unfold propose. destruct stepper_call. reflexivity. Qed.
Lemma propose_bad : forall T (s : state), bad_dt (propose T s) = bad_dt s.
Proof. intros. unfold propose. destruct stepper_call. reflexivity. Qed.
Lemma propose_dt : forall T (s : state),
  dt (propose T s) = fst (stepper_call (stp s) (nsub T (time s))).
Proof. intros. unfold propose. destruct stepper_call. reflexivity. Qed.
Lemma propose_stp : forall T (s : state),
  stp (propose T s) = snd (stepper_call (stp s) (nsub T (time s))).
Proof. intros. unfold propose. destruct stepper_call. reflexivity. Qed.

#[local] Opaque propose.

Lemma attempt_ok : forall T s, attempt_spec T s (attempt p o T s).
Proof.
  intros T s. unfold attempt.
  destruct (o_signal o (trials s)) eqn:Es. { constructor; auto. }
  cbv zeta. rewrite propose_time, propose_cur. unfold is_dt_too_small.
  destruct (nlt (dt (propose T s)) (DTMIN p)) eqn:Ed. { constructor; auto. }
  remember (add_event (EvTrial (trials s) (time s) (dt (propose T s)) (cur s)) (propose T s)) as s1
    eqn:Hs1.
  replace (cur s1) with (cur s) by (rewrite Hs1; simpl; rewrite propose_cur; reflexivity).
  replace (nxt s1) with (nxt s) by (rewrite Hs1; simpl; rewrite propose_nxt; reflexivity).
  replace (time s1) with (time s) by (rewrite Hs1; simpl; rewrite propose_time; reflexivity).
  replace (dt s1) with (dt (propose T s)) by (rewrite Hs1; reflexivity).
  destruct (o_solve o (trials s) (cur s) (nxt s) (time s) (dt (propose T s))) as [[c|] vm] eqn:Eo.
  - replace (dt (solver_done p c vm s1)) with (dt (propose T s)) by (rewrite Hs1; reflexivity).
    destruct (nlt (DUMAX p) (nmul (dt (propose T s)) vm)) eqn:El.
    { econstructor; eauto. }
    remember (accept o T (neq (dt (propose T s)) (nsub T (time s))) (solver_done p c vm s1)) as s2
      eqn:Hs2.
    destruct (recenter_on p) eqn:Er.
    + destruct (o_recenter o (cur s2) (nxt s2)) as [[c' n']|] eqn:Ec.
      * eapply AS_accept; eauto. congruence.
      * eapply AS_exit; eauto.
    + replace (log_accepted s2) with (log_accepted (recentered (cur s2) (nxt s2) s2)).
      * eapply AS_accept; eauto. congruence.
      * destruct s2. reflexivity.
  - econstructor; eauto.
Qed.

(** ** Induction principles *)
Lemma inner_inv : forall (P : state -> Prop) T,
  (forall s s', P s -> nlt (time s) T = true -> attempt_spec T s (ACont s') -> P s') ->
  forall fuel s, P s ->
  match inner fuel p o T s with
  | IDone s' => P s' /\ nlt (time s') T = false
  | IFuel s' => P s' /\ nlt (time s') T = true
  | IAbort s' => exists s1, P s1 /\ nlt (time s1) T = true /\ attempt_spec T s1 (AAbort s')
  | ISignal s' => exists s1, P s1 /\ nlt (time s1) T = true /\ attempt_spec T s1 (ASignal s')
  | IExit s' => exists s1, P s1 /\ nlt (time s1) T = true /\ attempt_spec T s1 (AExit s')
  end.
Proof.
  intros P T HP. induction fuel as [|f IH]; intros s Hs; simpl.
  - destruct (nlt (time s) T) eqn:E; auto.
  - destruct (nlt (time s) T) eqn:E; auto.
    generalize (attempt_ok T s). destruct (attempt p o T s) as [s'|s'|s'|s']; intros Ha.
    + apply IH. eapply HP; eauto.
    + exists s. auto.
    + exists s. auto.
    + exists s. auto.
Qed.

(** [P k s]: invariant of the inner loop towards output number k. *)
Lemma outer_inv : forall (P : Z -> state -> Prop) t0 N,
  (forall k s s', (0 <= k <= N)%Z -> P k s -> nlt (time s) (target_time p t0 k) = true ->
      attempt_spec (target_time p t0 k) s (ACont s') -> P k s') ->
  (forall k s, (0 <= k <= N)%Z -> P k s -> nlt (time s) (target_time p t0 k) = false ->
      P (k + 1)%Z (saver_events p k s)) ->
  forall fuel n k s, (0 <= k)%Z -> (k + Z.of_nat n = N + 1)%Z -> P k s ->
  match outer fuel p o t0 n k s with
  | Returned 0 s' => P (N + 1)%Z s'
  | Returned st s' => st = 1%Z /\ exists k' s1, (0 <= k' <= N)%Z /\ P k' s1 /\
      nlt (time s1) (target_time p t0 k') = true /\
      attempt_spec (target_time p t0 k') s1 (AAbort s')
  | Signalled s' => exists k' s1, (0 <= k' <= N)%Z /\ P k' s1 /\
      nlt (time s1) (target_time p t0 k') = true /\
      attempt_spec (target_time p t0 k') s1 (ASignal s')
  | Exited s' => exists k' s1, (0 <= k' <= N)%Z /\ P k' s1 /\
      nlt (time s1) (target_time p t0 k') = true /\
      attempt_spec (target_time p t0 k') s1 (AExit s')
  | Running s' => exists k', (0 <= k' <= N)%Z /\ P k' s' /\
      nlt (time s') (target_time p t0 k') = true
  | Undefined => False
  end.
Proof.
  intros P t0 N Ha Hl fuel. induction n as [|n IH]; intros k s Hk Hn Hs; simpl.
  - replace (N + 1)%Z with k by lia. exact Hs.
  - assert (Hk' : (0 <= k <= N)%Z) by lia.
    generalize (inner_inv (P k) (target_time p t0 k) (fun s s' => Ha k s s' Hk') fuel s Hs).
    destruct (inner fuel p o (target_time p t0 k) s) as [s'|s'|s'|s'|s'].
    + intros (H1 & H2). apply IH; auto; lia.
    + intros (s1 & H1 & H2 & H3). split; auto. exists k, s1. auto.
    + intros (s1 & H1 & H2 & H3). exists k, s1. auto.
    + intros (s1 & H1 & H2 & H3). exists k, s1. auto.
    + intros H1. exists k. auto.
Qed.

(** ** The trace relation: what may follow what *)

(** the states of a stepper created with initial step [dt0] *)
Inductive stepper_reach (dt0 : num A) : stepper A -> Prop :=
| SR_new : stepper_reach dt0 (stepper_new dt0 (DTMIN p) (DTMAX p))
| SR_limit : forall st lim, stepper_reach dt0 st -> stepper_reach dt0 (set_soft_limit st lim)
| SR_call : forall st stride, stepper_reach dt0 st ->
    stepper_reach dt0 (snd (stepper_call st stride)).

Variable dt0 : num A.

(** [d] was proposed by the stepper just after [set_soft_limit(lim)] *)
Definition retry (d lim : num A) : Prop :=
  exists st stride, stepper_reach dt0 st /\ d = fst (stepper_call (set_soft_limit st lim) stride).

Definition saved_config (c : C) : option C := if (0 <? save_period p)%Z then Some c else None.

Definition next_ok (e1 e2 : event) : Prop :=
  match e1, e2 with
  | EvTrial n t d c, EvSolverFailed d' t' c' => d' = d /\ t' = t /\ c' = c /\
      exists x v, o_solve o n c x t d = (None, v)
  | EvTrial n t d c, EvTooLarge d' v t' c' =>
      d' = d /\ t' = t /\ c' = c /\ nlt (DUMAX p) (nmul d v) = true /\
      exists x y, o_solve o n c x t d = (Some y, v)
  | EvTrial n t d c, EvAccepted d' v t' c' n' =>
      d' = d /\ nlt (DUMAX p) (nmul d v) = false /\
      (exists T, nlt t T = true /\ t' = if neq d (nsub T t) then T else nadd t d) /\
      (exists x y, o_solve o n c x t d = (Some y, v) /\
         (recenter_on p = false -> c' = o_potentials o y /\ n' = o_potentials o y))
  | EvTrial _ _ _ _, _ => False
  | EvAtExit _ _, _ => False
  | _, EvSolverFailed _ _ _ => False
  | _, EvTooLarge _ _ _ _ => False
  | _, EvAccepted _ _ _ _ _ => False
  | EvSolverFailed d t c, EvTrial _ t' d' c' =>
      t' = t /\ c' = c /\ retry d' (ndiv d (nZ 2))
  | EvTooLarge d v t c, EvTrial _ t' d' c' =>
      t' = t /\ c' = c /\ retry d' (nmul (ndiv (DUMAX p) v) (nlit 95 100))
  | EvAccepted _ _ t c _, EvTrial _ t' _ c' => t' = t /\ c' = c
  | EvLine k t _, EvTrial _ t' _ _ => t' = t /\ snapshot_due (save_period p) k = false
  | EvSnapshot _ t _, EvTrial _ t' _ _ => t' = t
  | EvAccepted _ _ t _ n, EvLine _ t' n' => t' = t /\ n' = n
  | EvLine k t n, EvLine k' t' n' =>
      k' = (k + 1)%Z /\ t' = t /\ n' = n /\ snapshot_due (save_period p) k = false
  | EvSnapshot k t n, EvLine k' t' n' => k' = (k + 1)%Z /\ t' = t /\ n' = n
  | _, EvLine _ _ _ => False
  | EvLine k t n, EvSnapshot k' t' n' =>
      k' = k /\ t' = t /\ n' = n /\ snapshot_due (save_period p) k = true
  | _, EvSnapshot _ _ _ => False
  | EvAccepted _ _ t _ n, EvAtExit t' x => t' = t /\ x = saved_config n
  | EvLine k t n, EvAtExit t' x =>
      t' = t /\ x = saved_config n /\ snapshot_due (save_period p) k = false
  | EvSnapshot _ t n, EvAtExit t' x => t' = t /\ x = saved_config n
  | _, EvAtExit t' _ => t' = ev_time e1
  end.

(** log entries are latest first *)
Fixpoint chain (l : list event) : Prop :=
  match l with
  | e2 :: ((e1 :: _) as l') => next_ok e1 e2 /\ chain l'
  | _ => True
  end.

Lemma chain_follows : forall l e1 e2, chain l -> follows (rev l) e1 e2 -> next_ok e1 e2.
Proof.
  intros l e1 e2 Hc (l1 & l2 & E).
  assert (E' : l = rev l2 ++ e2 :: e1 :: rev l1).
  { rewrite <- (rev_involutive l), E. rewrite rev_app_distr. simpl.
    rewrite <- !app_assoc. reflexivity. }
  clear E. subst l. revert Hc. induction (rev l2) as [|x l IH]; intros Hc.
  - destruct Hc. auto.
  - apply IH. destruct (l ++ e2 :: e1 :: rev l1) eqn:El.
    + destruct l; discriminate.
    + simpl in Hc. rewrite El in Hc. destruct Hc. auto.
Qed.

(** what the latest event says about the state at the loop conditions; [k] is the number of the next
    output line *)
Definition head_ok (t0 : num A) (k : Z) (s : state) (e : event) : Prop :=
  match e with
  | EvTrial _ _ _ _ => False
  | EvAtExit _ _ => False
  | EvSolverFailed d t c => t = time s /\ c = cur s /\ nlt t (target_time p t0 k) = true /\
      (exists st, stepper_reach dt0 st /\ stp s = set_soft_limit st (ndiv d (nZ 2)))
  | EvTooLarge d v t c => t = time s /\ c = cur s /\ nlt t (target_time p t0 k) = true /\
      (exists st, stepper_reach dt0 st /\
        stp s = set_soft_limit st (nmul (ndiv (DUMAX p) v) (nlit 95 100)))
  | EvAccepted _ _ t c n => t = time s /\ c = cur s /\ n = nxt s
  | EvLine k' t n => k = (k' + 1)%Z /\ t = time s /\ n = nxt s /\
      snapshot_due (save_period p) k' = false
  | EvSnapshot k' t n => k = (k' + 1)%Z /\ t = time s /\ n = nxt s
  end.

Definition head_state_ok (t0 : num A) (k : Z) (s : state) : Prop :=
  match log s with [] => k = 0%Z | e :: _ => head_ok t0 k s e end.

Lemma lines_app : forall l1 l2 : list event, lines (l1 ++ l2) = lines l1 ++ lines l2.
Proof. induction l1 as [|e l1 IH]; intros l2; simpl; auto. destruct e; auto. simpl. f_equal. auto. Qed.

Lemma accepted_count_app : forall l1 l2 : list event,
  accepted_count (l1 ++ l2) = (accepted_count l1 + accepted_count l2)%Z.
Proof. intros. unfold accepted_count. rewrite filter_app, app_length. lia. Qed.

Lemma upto_S : forall n, upto (S n) = upto n ++ [Z.of_nat n].
Proof. intros. unfold upto. rewrite seq_S, map_app. reflexivity. Qed.

(** facts about single events *)
Definition event_ok (s : state) (e : event) : Prop :=
  match e with
  | EvTrial n _ d _ => nlt d (DTMIN p) = false /\ o_signal o n = false /\ n < trials s /\
      exists st stride, stepper_reach dt0 st /\ d = fst (stepper_call st stride)
  | EvTooLarge d v _ _ => nlt (DUMAX p) (nmul d v) = true /\ nlt d (DTMIN p) = false
  | EvAccepted d v _ _ _ => nlt (DUMAX p) (nmul d v) = false /\ nlt d (DTMIN p) = false
  | EvSnapshot k _ _ => snapshot_due (save_period p) k = true
  | _ => True
  end.

(** there is no refused-as-too-large trial since the last accepted step *)
Fixpoint clean (l : list event) : Prop :=
  match l with
  | [] => True
  | EvTooLarge _ _ _ _ :: _ => False
  | EvAccepted _ _ _ _ _ :: _ => True
  | _ :: l' => clean l'
  end.

Record inv (t0 : num A) (k : Z) (s : state) : Prop := mkInv {
  i_chain : chain (log s);
  i_head : head_state_ok t0 k s;
  i_lines : map fst (lines (rev (log s))) = upto (Z.to_nat k);
  i_nt : nt s = accepted_count (rev (log s));
  i_reach : stepper_reach dt0 (stp s);
  i_events : Forall (event_ok s) (log s);
  i_signal : forall n, n < trials s -> o_signal o n = false;
  i_clean : recenter_on p = false -> clean (log s) -> nxt s = cur s;
  i_noexit : forall t x, ~ In (EvAtExit t x) (log s)
}.

Lemma event_ok_mono : forall s s' e, trials s <= trials s' -> event_ok s e -> event_ok s' e.
Proof. intros s s' [] H; simpl; auto. intros (H1 & H2 & H3 & H4). repeat split; auto. lia. Qed.

(** the trial event that opens a pass *)
Lemma trial_next : forall t0 k s, inv t0 k s -> nlt (time s) (target_time p t0 k) = true ->
  chain (EvTrial (trials s) (time s) (dt (propose (target_time p t0 k) s)) (cur s) :: log s).
Proof.
  intros t0 k s H Hlt. destruct H as [Hc Hh _ _ Hre _ _ _ _].
  unfold head_state_ok in Hh. destruct (log s) as [|e l] eqn:El; simpl; auto.
  split; auto. destruct e; simpl in Hh |- *; try contradiction.
  - destruct Hh as (H1 & H2 & H3 & st & H4 & H5). repeat split; auto.
    exists st, (nsub (target_time p t0 k) (time s)). rewrite propose_dt, H5. auto.
  - destruct Hh as (H1 & H2 & H3 & st & H4 & H5). repeat split; auto.
    exists st, (nsub (target_time p t0 k) (time s)). rewrite propose_dt, H5. auto.
  - destruct Hh as (H1 & H2 & H3). split; auto.
  - destruct Hh as (H1 & H2 & H3 & H4). split; auto.
  - destruct Hh as (H1 & H2 & H3). auto.
Qed.

Ltac psimpl := rewrite ?propose_time, ?propose_cur, ?propose_nxt, ?propose_nt, ?propose_log,
  ?propose_trials, ?propose_good, ?propose_bad.

Lemma inv_attempt : forall t0 k s s', (0 <= k)%Z -> inv t0 k s ->
  nlt (time s) (target_time p t0 k) = true ->
  attempt_spec (target_time p t0 k) s (ACont s') -> inv t0 k s'.
Proof.
  intros t0 k s s' Hk0 Hi Hlt Ha.
  pose proof (trial_next t0 k s Hi Hlt) as Htr.
  destruct Hi as [Hc Hh Hli Hnt Hre Hev Hsig Hcl Hne].
  set (T := target_time p t0 k) in *.
  inversion Ha as [ | | s1 vm Hs H1 Hd Hso | s1 c vm Hs H1 Hd Hso Hl | |
                    s1 s2 c vm c' n' Hs H1 Hd Hso Hl H2 Hr1 Hr2 ]; subst s'; clear Ha.
  - (* solver failure *)
    subst s1. constructor; simpl; psimpl.
    + simpl in Htr. repeat split; eauto.
    + unfold head_state_ok; simpl; psimpl. repeat split; auto.
      exists (stp (propose T s)). split; auto. rewrite propose_stp. constructor. exact Hre.
    + rewrite <- !app_assoc, !lines_app. simpl. rewrite app_nil_r. auto.
    + rewrite Hnt, !accepted_count_app. unfold accepted_count; simpl. lia.
    + rewrite propose_stp. repeat constructor. exact Hre.
    + constructor; simpl; auto. constructor.
      * simpl. psimpl. repeat split; auto. exists (stp s), (nsub T (time s)).
        rewrite propose_dt. auto.
      * eapply Forall_impl; [|exact Hev]. intros e He. eapply event_ok_mono; [|exact He].
        simpl. psimpl. lia.
    + intros n Hn. apply Nat.lt_succ_r in Hn. destruct (Nat.eq_dec n (trials s)); subst; auto.
      apply Hsig. lia.
    + auto.
    + intros t x [H|[H|H]]; try discriminate. eapply Hne; eauto.
  - (* too large *)
    subst s1. constructor; simpl; psimpl.
    + simpl in Htr. repeat split; eauto.
    + unfold head_state_ok; simpl; psimpl. repeat split; auto.
      exists (stp (propose T s)). split; auto. rewrite propose_stp. constructor. exact Hre.
    + rewrite <- !app_assoc, !lines_app. simpl. rewrite app_nil_r. auto.
    + rewrite Hnt, !accepted_count_app. unfold accepted_count; simpl. lia.
    + rewrite propose_stp. repeat constructor. exact Hre.
    + constructor; simpl; auto. constructor.
      * simpl. psimpl. repeat split; auto. exists (stp s), (nsub T (time s)).
        rewrite propose_dt. auto.
      * eapply Forall_impl; [|exact Hev]. intros e He. eapply event_ok_mono; [|exact He].
        simpl. psimpl. lia.
    + intros n Hn. apply Nat.lt_succ_r in Hn. destruct (Nat.eq_dec n (trials s)); subst; auto.
      apply Hsig. lia.
    + intros _ [].
    + intros t x [H|[H|H]]; try discriminate. eapply Hne; eauto.
  - (* accepted *)
    subst s2 s1. constructor; simpl; psimpl.
    + simpl in Htr. split; auto. split; auto. split; auto. split.
      { exists T. split; auto. }
      exists (nxt s), c. split; [exact Hso|]. intros Hr. destruct (Hr1 Hr) as [-> ->]. auto.
    + unfold head_state_ok; simpl; psimpl. repeat split; auto.
    + rewrite <- !app_assoc, !lines_app. simpl. rewrite app_nil_r. auto.
    + rewrite Hnt, !accepted_count_app. unfold accepted_count; simpl. lia.
    + rewrite propose_stp. repeat constructor. exact Hre.
    + constructor; simpl; auto. constructor.
      * simpl. psimpl. repeat split; auto. exists (stp s), (nsub T (time s)).
        rewrite propose_dt. auto.
      * eapply Forall_impl; [|exact Hev]. intros e He. eapply event_ok_mono; [|exact He].
        simpl. psimpl. lia.
    + intros n Hn. apply Nat.lt_succ_r in Hn. destruct (Nat.eq_dec n (trials s)); subst; auto.
      apply Hsig. lia.
    + intros Hr _. destruct (Hr1 Hr) as [-> ->]. reflexivity.
    + intros t x [H|[H|H]]; try discriminate. eapply Hne; eauto.
Qed.

Lemma inv_saver : forall t0 k s, (0 <= k)%Z -> inv t0 k s ->
  nlt (time s) (target_time p t0 k) = false -> inv t0 (k + 1) (saver_events p k s).
Proof.
  intros t0 k s Hk0 [Hc Hh Hli Hnt Hre Hev Hsig Hcl Hne] Hlt.
  assert (E1 : chain (EvLine k (time s) (nxt s) :: log s)).
  { unfold head_state_ok in Hh. simpl. destruct (log s) as [|e l] eqn:El; simpl; auto.
    split; auto. destruct e; simpl in Hh |- *; try contradiction.
    - destruct Hh as (H1 & _ & H2 & _). subst. congruence.
    - destruct Hh as (H1 & _ & H2 & _). subst. congruence.
    - destruct Hh as (H1 & H2 & H3). auto.
    - destruct Hh as (H1 & H2 & H3 & H4). auto.
    - destruct Hh as (H1 & H2 & H3). auto. }
  assert (E2 : map fst (lines (rev (EvLine k (time s) (nxt s) :: log s))) = upto (Z.to_nat (k + 1))).
  { simpl. rewrite lines_app, map_app, Hli. simpl.
    replace (Z.to_nat (k + 1)) with (S (Z.to_nat k)) by lia. rewrite upto_S.
    rewrite Z2Nat.id by lia. reflexivity. }
  unfold saver_events. destruct (snapshot_due (save_period p) k) eqn:Es.
  - constructor; simpl.
    + repeat split; auto.
    + unfold head_state_ok; simpl. auto.
    + rewrite lines_app. simpl. rewrite app_nil_r. exact E2.
    + rewrite !accepted_count_app, <- Hnt. unfold accepted_count; simpl. lia.
    + auto.
    + constructor; simpl; auto. constructor; simpl; auto.
    + auto.
    + auto.
    + intros t x [H|[H|H]]; try discriminate. eapply Hne; eauto.
  - constructor; simpl.
    + auto.
    + unfold head_state_ok; simpl. auto.
    + exact E2.
    + rewrite !accepted_count_app, <- Hnt. unfold accepted_count; simpl. lia.
    + auto.
    + constructor; simpl; auto.
    + auto.
    + auto.
    + intros t x [H|H]; try discriminate. eapply Hne; eauto.
Qed.

Lemma inv_init : forall t0 v0 c0 n0,
  inv t0 0 (compute_all o (initial_state p o t0 dt0 v0 c0 n0)).
Proof.
  intros. constructor; simpl; auto.
  - unfold head_state_ok; simpl; auto.
  - constructor.
  - intros n Hn. lia.
Qed.

(** ** Runs *)
Lemma run_inv : forall (P : Z -> state -> Prop) fuel t0 v0 c0 n0 N,
  step_count p t0 = Some N -> 
  P 0%Z (compute_all o (initial_state p o t0 dt0 v0 c0 n0)) ->
  (forall k s s', (0 <= k <= N)%Z -> inv t0 k s -> P k s ->
      nlt (time s) (target_time p t0 k) = true ->
      attempt_spec (target_time p t0 k) s (ACont s') -> P k s') ->
  (forall k s, (0 <= k <= N)%Z -> inv t0 k s -> P k s ->
      nlt (time s) (target_time p t0 k) = false -> P (k + 1)%Z (saver_events p k s)) ->
  match time_integration fuel p o t0 dt0 v0 c0 n0 with
  | Returned 0 s' => exists k', k' = Z.max 0 (N + 1) /\ inv t0 k' s' /\ P k' s'
  | Returned st s' => st = 1%Z /\ exists k' s1, (0 <= k' <= N)%Z /\ inv t0 k' s1 /\ P k' s1 /\
      nlt (time s1) (target_time p t0 k') = true /\
      attempt_spec (target_time p t0 k') s1 (AAbort s')
  | Signalled s' => exists k' s1, (0 <= k' <= N)%Z /\ inv t0 k' s1 /\ P k' s1 /\
      nlt (time s1) (target_time p t0 k') = true /\
      attempt_spec (target_time p t0 k') s1 (ASignal s')
  | Exited s' => exists k' s1, (0 <= k' <= N)%Z /\ inv t0 k' s1 /\ P k' s1 /\
      nlt (time s1) (target_time p t0 k') = true /\
      attempt_spec (target_time p t0 k') s1 (AExit s')
  | Running s' => exists k', (0 <= k' <= N)%Z /\ inv t0 k' s' /\ P k' s' /\
      nlt (time s') (target_time p t0 k') = true
  | Undefined => False
  end.
Proof.
  intros P fuel t0 v0 c0 n0 N HN H0 Ha Hl.
  unfold time_integration. simpl time. rewrite HN.
  pose proof (inv_init t0 v0 c0 n0) as Hi.
  destruct (Z_lt_le_dec N 0) as [Hneg|Hpos].
  - replace (Z.to_nat (N + 1)) with 0 by lia. simpl. exists 0%Z. split; auto. lia.
  - assert (E1 : forall k s s', (0 <= k <= N)%Z -> (inv t0 k s /\ P k s) ->
      nlt (time s) (target_time p t0 k) = true ->
      attempt_spec (target_time p t0 k) s (ACont s') -> inv t0 k s' /\ P k s').
    { intros k s s' Hk (I1 & I2) Hlt Has. split.
      - eapply inv_attempt; eauto. lia.
      - eapply Ha; eauto. }
    assert (E2 : forall k s, (0 <= k <= N)%Z -> (inv t0 k s /\ P k s) ->
      nlt (time s) (target_time p t0 k) = false ->
      inv t0 (k + 1) (saver_events p k s) /\ P (k + 1)%Z (saver_events p k s)).
    { intros k s Hk (I1 & I2) Hlt. split.
      - apply inv_saver; auto. lia.
      - apply Hl; auto. }
    generalize (outer_inv (fun k s => inv t0 k s /\ P k s) t0 N E1 E2 fuel (Z.to_nat (N + 1)) 0
      (compute_all o (initial_state p o t0 dt0 v0 c0 n0)) ltac:(lia) ltac:(lia) (conj Hi H0)).
    destruct (outer fuel p o t0 (Z.to_nat (N + 1)) 0
      (compute_all o (initial_state p o t0 dt0 v0 c0 n0))) as [st s|s|s|s|].
    + destruct st.
      * intros H. exists (N + 1)%Z. split; auto. lia.
      * intros (E & k' & s1 & H1 & (H2 & H3) & H4 & H5). split; auto. exists k', s1. auto.
      * intros (E & k' & s1 & H1 & (H2 & H3) & H4 & H5). discriminate.
    + intros (k' & s1 & H1 & (H2 & H3) & H4 & H5). exists k', s1. auto.
    + intros (k' & s1 & H1 & (H2 & H3) & H4 & H5). exists k', s1. auto.
    + intros (k' & H1 & (H2 & H3) & H4). exists k'. auto.
    + auto.
Qed.

(** The state of a run in any of its outcomes is a loop state satisfying the invariant, possibly
    followed by a last, unfinished pass. *)
Inductive tail_state (s1 : state) (T : num A) : state -> Prop :=
| TS_none : tail_state s1 T s1
| TS_abort : forall s, nlt (time s1) T = true -> attempt_spec T s1 (AAbort s) -> tail_state s1 T s
| TS_signal : forall s, nlt (time s1) T = true -> attempt_spec T s1 (ASignal s) -> tail_state s1 T s
| TS_exit : forall s, nlt (time s1) T = true -> attempt_spec T s1 (AExit s) -> tail_state s1 T s.

Inductive tail_events (s1 : state) (T : num A) : list event -> Prop :=
| TE_none : tail_events s1 T (log s1)
| TE_exit : nlt (time s1) T = true -> o_signal o (trials s1) = true ->
    tail_events s1 T (EvAtExit (time s1) (saved_config (nxt s1)) :: log s1)
| TE_trial : nlt (time s1) T = true -> o_signal o (trials s1) = false ->
    nlt (dt (propose T s1)) (DTMIN p) = false ->
    tail_events s1 T (EvTrial (trials s1) (time s1) (dt (propose T s1)) (cur s1) :: log s1).

Lemma tail_state_events : forall s1 T s, tail_state s1 T s -> tail_events s1 T (log s).
Proof.
  intros s1 T s H. destruct H as [|s Hlt Ha|s Hlt Ha|s Hlt Ha].
  - apply TE_none.
  - inversion Ha; subst. rewrite propose_log. apply TE_none.
  - inversion Ha; subst. apply TE_exit; auto.
  - inversion Ha; subst. simpl. rewrite propose_log. apply TE_trial; auto.
Qed.

Definition run_status (r : outcome A C) (s1 : state) (k N : Z) (T : num A) : Prop :=
  match r with
  | Returned st s => (st = 0%Z /\ k = Z.max 0 (N + 1) /\ s = s1) \/
      (st = 1%Z /\ (k <= N)%Z /\ nlt (time s1) T = true /\ attempt_spec T s1 (AAbort s))
  | Signalled s => (k <= N)%Z /\ nlt (time s1) T = true /\ attempt_spec T s1 (ASignal s)
  | Exited s => (k <= N)%Z /\ nlt (time s1) T = true /\ attempt_spec T s1 (AExit s)
  | Running s => (k <= N)%Z /\ nlt (time s1) T = true /\ s = s1
  | Undefined => False
  end.

Lemma run_tail : forall (P : Z -> state -> Prop) fuel t0 v0 c0 n0 s,
  final (time_integration fuel p o t0 dt0 v0 c0 n0) = Some s ->
  P 0%Z (compute_all o (initial_state p o t0 dt0 v0 c0 n0)) ->
  (forall N, step_count p t0 = Some N ->
   forall k s s', (0 <= k <= N)%Z -> inv t0 k s -> P k s ->
      nlt (time s) (target_time p t0 k) = true ->
      attempt_spec (target_time p t0 k) s (ACont s') -> P k s') ->
  (forall N, step_count p t0 = Some N ->
   forall k s, (0 <= k <= N)%Z -> inv t0 k s -> P k s ->
      nlt (time s) (target_time p t0 k) = false -> P (k + 1)%Z (saver_events p k s)) ->
  exists N k s1, step_count p t0 = Some N /\ (0 <= k <= Z.max 0 (N + 1))%Z /\ inv t0 k s1 /\
    P k s1 /\ tail_state s1 (target_time p t0 k) s /\ (s = s1 \/ (k <= N)%Z) /\
    run_status (time_integration fuel p o t0 dt0 v0 c0 n0) s1 k N (target_time p t0 k).
Proof.
  intros P fuel t0 v0 c0 n0 s Hf H0 Ha Hl.
  destruct (step_count p t0) as [N|] eqn:HN.
  2: { unfold time_integration in Hf. simpl time in Hf. rewrite HN in Hf. discriminate. }
  pose proof (run_inv P fuel t0 v0 c0 n0 N HN H0 (Ha N eq_refl) (Hl N eq_refl)) as H.
  exists N. destruct (time_integration fuel p o t0 dt0 v0 c0 n0) as [st s'|s'|s'|s'|]; simpl in Hf;
    inversion Hf; subst; clear Hf.
  - destruct st as [|q|q].
    + destruct H as (k & Hk & I1 & I2). exists k, s. split; [reflexivity|]. split; [lia|].
      split; [exact I1|]. split; [exact I2|]. split; [apply TS_none|]. split; auto. left. auto.
    + destruct H as (E & k & s1 & Hk & I1 & I2 & Hlt & Has). exists k, s1.
      split; [reflexivity|]. split; [lia|]. split; [exact I1|]. split; [exact I2|].
      split; [apply TS_abort; auto|]. split; [right; lia|]. right. repeat split; auto. lia.
    + destruct H as (E & _). discriminate.
  - destruct H as (k & s1 & Hk & I1 & I2 & Hlt & Has). exists k, s1.
    split; [reflexivity|]. split; [lia|]. split; [exact I1|]. split; [exact I2|].
    split; [apply TS_signal; auto|]. split; [right; lia|]. repeat split; auto. lia.
  - destruct H as (k & s1 & Hk & I1 & I2 & Hlt & Has). exists k, s1.
    split; [reflexivity|]. split; [lia|]. split; [exact I1|]. split; [exact I2|].
    split; [apply TS_exit; auto|]. split; [right; lia|]. repeat split; auto. lia.
  - destruct H as (k & Hk & I1 & I2 & Hlt). exists k, s.
    split; [reflexivity|]. split; [lia|]. split; [exact I1|]. split; [exact I2|].
    split; [apply TS_none|]. split; auto. repeat split; auto. lia.
Qed.

Lemma tail_chain : forall t0 k s1 l, inv t0 k s1 -> tail_events s1 (target_time p t0 k) l -> chain l.
Proof.
  intros t0 k s1 l Hi Ht. destruct Ht as [|Hlt Hs|Hlt Hs Hd].
  - apply Hi.
  - destruct Hi as [Hc Hh _ _ _ _ _ _ _]. unfold head_state_ok in Hh. simpl.
    destruct (log s1) as [|e l] eqn:El; auto. split; auto.
    destruct e; simpl in Hh |- *; try contradiction.
    + destruct Hh as (H1 & _). congruence.
    + destruct Hh as (H1 & _). congruence.
    + destruct Hh as (H1 & H2 & H3). subst. auto.
    + destruct Hh as (H1 & H2 & H3 & H4). subst. auto.
    + destruct Hh as (H1 & H2 & H3). subst. auto.
  - apply trial_next; auto.
Qed.

Lemma run_chain : forall fuel t0 v0 c0 n0 e1 e2,
  follows (events (time_integration fuel p o t0 dt0 v0 c0 n0)) e1 e2 -> next_ok e1 e2.
Proof.
  intros fuel t0 v0 c0 n0 e1 e2 Hf. unfold events in Hf.
  destruct (final (time_integration fuel p o t0 dt0 v0 c0 n0)) as [s|] eqn:E.
  - destruct (run_tail (fun _ _ => True) fuel t0 v0 c0 n0 s E I) as
      (N & k & s1 & HN & Hk & Hi & _ & Ht & _); auto.
    apply tail_state_events in Ht.
    eapply chain_follows; [|exact Hf]. eapply tail_chain; eauto.
  - destruct Hf as (l1 & l2 & H). destruct l1; discriminate.
Qed.

Lemma run_events : forall fuel t0 v0 c0 n0 e,
  In e (events (time_integration fuel p o t0 dt0 v0 c0 n0)) ->
  match e with
  | EvTrial n _ d _ => nlt d (DTMIN p) = false /\ (forall m, m <= n -> o_signal o m = false) /\
      exists st stride, stepper_reach dt0 st /\ d = fst (stepper_call st stride)
  | EvTooLarge d v _ _ => nlt (DUMAX p) (nmul d v) = true /\ nlt d (DTMIN p) = false
  | EvAccepted d v _ _ _ => nlt (DUMAX p) (nmul d v) = false /\ nlt d (DTMIN p) = false
  | EvSnapshot k _ _ => snapshot_due (save_period p) k = true
  | _ => True
  end.
Proof.
  intros fuel t0 v0 c0 n0 e He. unfold events in He.
  destruct (final (time_integration fuel p o t0 dt0 v0 c0 n0)) as [s|] eqn:E; [|contradiction].
  rewrite <- in_rev in He.
  destruct (run_tail (fun _ _ => True) fuel t0 v0 c0 n0 s E I) as
    (N & k & s1 & HN & Hk & Hi & _ & Ht & _); auto.
  apply tail_state_events in Ht.
  assert (Ho : forall e', In e' (log s1) -> match e' with
    | EvTrial n _ d _ => nlt d (DTMIN p) = false /\ (forall m, m <= n -> o_signal o m = false) /\
      exists st stride, stepper_reach dt0 st /\ d = fst (stepper_call st stride)
    | EvTooLarge d v _ _ => nlt (DUMAX p) (nmul d v) = true /\ nlt d (DTMIN p) = false
    | EvAccepted d v _ _ _ => nlt (DUMAX p) (nmul d v) = false /\ nlt d (DTMIN p) = false
    | EvSnapshot k _ _ => snapshot_due (save_period p) k = true
    | _ => True end).
  { intros e' He'. pose proof (proj1 (Forall_forall _ _) (i_events _ _ _ Hi) e' He') as Hev.
    destruct e'; simpl in Hev |- *; auto. destruct Hev as (H1 & H2 & H3 & H4).
    split; auto. split; auto. intros m Hm. apply (i_signal _ _ _ Hi). lia. }
  destruct Ht as [|Hlt Hs|Hlt Hs Hd].
  - apply Ho; exact He.
  - destruct He as [<-|He]; [exact I|apply Ho; exact He].
  - destruct He as [<-|He]; [|apply Ho; exact He]. split; auto. split.
    + intros m Hm. destruct (Nat.eq_dec m (trials s1)); subst; auto.
      apply (i_signal _ _ _ Hi). lia.
    + exists (stp s1), (nsub (target_time p t0 k) (time s1)). rewrite propose_dt. split; auto.
      apply Hi.
Qed.

(** every line that is due a snapshot gets it, in the next event *)
Lemma line_snapshot : forall l k t n, chain l -> In (EvLine k t n) l ->
  snapshot_due (save_period p) k = true ->
  In (EvSnapshot k t n) l \/ hd_error l = Some (EvLine k t n).
Proof.
  intros l k t n. induction l as [|e l IH]; intros Hc Hin Hd. { contradiction. }
  destruct Hin as [->|Hin]. { right. reflexivity. }
  destruct l as [|e1 l]. { contradiction. }
  destruct Hc as [Hn Hc]. destruct (IH Hc Hin Hd) as [H|H]. { left. right. exact H. }
  simpl in H. inversion H; subst. left. left.
  destruct e; simpl in Hn; try contradiction; decompose [and] Hn; try congruence.
Qed.

End Any.
