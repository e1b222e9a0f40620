(** * C79: the time step statistics count every trial *)
From Coq Require Import ZArith List Bool Lia.
From Flocq Require Import Core BinarySingleNaN.
From Verif Require Import Arith ArithLaws TimeModel TimeSpec TimeProof TimeNum TimeTerm TimeMain TimeProps.
Import ListNotations.

Section Spec.
Context {A : arith} {C : Type}.

(** steps of the trials whose linear system was not solved *)
Fixpoint failed_steps (l : list (event A C)) : list (num A) :=
  match l with [] => [] | EvSolverFailed d _ _ :: l' => d :: failed_steps l' | _ :: l' => failed_steps l' end.
(** steps of the trials whose linear system was solved, whether the trial was then accepted or refused *)
Fixpoint solved_steps (l : list (event A C)) : list (num A) :=
  match l with
  | [] => [] | EvTooLarge d _ _ _ :: l' => d :: solved_steps l' | EvAccepted d _ _ _ _ :: l' => d :: solved_steps l'
  | _ :: l' => solved_steps l'
  end.
(** their largest magnetization changes, dt * vmax *)
Fixpoint solved_dumax (l : list (event A C)) : list (num A) :=
  match l with
  | [] => [] | EvTooLarge d v _ _ :: l' => nmul d v :: solved_dumax l' | EvAccepted d v _ _ _ :: l' => nmul d v :: solved_dumax l'
  | _ :: l' => solved_dumax l'
  end.
(** number of trials refused since the last accepted one; the latest event comes first *)
Fixpoint refused_since (l : list (event A C)) : Z :=
  match l with
  | [] => 0 | EvAccepted _ _ _ _ _ :: _ => 0
  | EvSolverFailed _ _ _ :: l' => 1 + refused_since l' | EvTooLarge _ _ _ _ :: l' => 1 + refused_since l'
  | _ :: l' => refused_since l'
  end.
(** number of trials that reached the linear solver *)
Definition is_trial (e : event A C) : bool := match e with EvTrial _ _ _ _ => true | _ => false end.

Definition counted (s : state A C) : Prop :=
  bad_dt s = failed_steps (log s) /\ good_dt s = solved_steps (log s) /\ good_dumax s = solved_dumax (log s) /\
  flag s = refused_since (log s) /\ length (filter is_trial (log s)) = (length (bad_dt s) + length (good_dt s))%nat.
End Spec.

Section Proof.
Context {A : arith} {C : Type}.
Variable p : params A.
Variable o : oracles A C.

Lemma propose_fields : forall T (s : state A C), let s' := propose T s in
  bad_dt s' = bad_dt s /\ good_dt s' = good_dt s /\ good_dumax s' = good_dumax s /\ flag s' = flag s /\ log s' = log s.
Proof. intros. unfold s', propose. destruct stepper_call. repeat split. Qed.

#[local] Opaque propose stepper_call.

Lemma counted_attempt : forall T s s', counted s -> attempt_spec p o T s (ACont s') -> counted s'.
Proof.
  intros T s s' (H1 & H2 & H3 & H4 & H5) Ha. destruct (propose_fields T s) as (P1 & P2 & P3 & P4 & P5).
  inversion Ha; subst; unfold counted;
    cbn [solver_failed too_large solver_done log_accepted recentered accept compute_all add_event bad_dt good_dt good_dumax flag log dt vmax failed_steps solved_steps solved_dumax refused_since filter is_trial length];
    rewrite ?P1, ?P2, ?P3, ?P4, ?P5, ?H1, ?H2, ?H3, ?H4; repeat split; try lia; rewrite ?H1, ?H2 in H5; cbn [length]; lia.
Qed.

Lemma counted_saver : forall k (s : state A C), counted s -> counted (saver_events p k s).
Proof.
  intros k s (H1 & H2 & H3 & H4 & H5). unfold saver_events. destruct snapshot_due; unfold counted, add_event;
  cbn [bad_dt good_dt good_dumax flag log dt vmax failed_steps solved_steps solved_dumax refused_since filter is_trial length]; auto 6.
Qed.
End Proof.

(** In every run, at any time, and unless recentering ended the program: the statistics printed at the end hold, in
    order, the step of every trial whose solve failed on one side, the steps and largest changes of all the other
    trials on the other side; the counter shown in the messages is the number of trials refused since the last
    accepted one; every trial is counted once; and the number of iterations is the number of accepted trials. *)
Theorem C79_trial_statistics : forall (A : arith) (C : Type) (p : params A) (o : oracles A C) fuel t0 dt0 v0 c0 n0 s,
  let r := time_integration fuel p o t0 dt0 v0 c0 n0 in
  final r = Some s -> (forall s', r <> Exited s') ->
  rev (bad_dt s) = failed_steps (events r) /\ rev (good_dt s) = solved_steps (events r) /\
  rev (good_dumax s) = solved_dumax (events r) /\ flag s = refused_since (rev (events r)) /\
  length (filter is_trial (events r)) = (length (bad_dt s) + length (good_dt s))%nat /\
  nt s = accepted_count (events r).
Proof.
  intros A C p o fuel t0 dt0 v0 c0 n0 s r Hf Hx.
  pose proof (run_nt p o dt0 fuel t0 v0 c0 n0 s Hf Hx) as Hnt.
  destruct (run_tail p o dt0 (fun _ s => counted s) fuel t0 v0 c0 n0 s Hf) as (N & k & s1 & HN & Hk & _ & Hc & Ht & _ & Hst).
  - unfold counted. cbn. repeat split.
  - intros. eapply counted_attempt; eauto.
  - intros. now apply counted_saver.
  - assert (Hs : counted s).
    { fold r in Hst. unfold final in Hf. destruct r as [st s'|s'|s'|s'|]; inversion Hf; subst; cbn in Hst.
      - destruct Hst as [(_ & _ & ->)|(_ & _ & _ & Ha)]; auto.
        inversion Ha; subst. destruct (propose_fields (target_time p t0 k) s1) as (P1 & P2 & P3 & P4 & P5).
        unfold counted in *. rewrite P1, P2, P3, P4, P5. exact Hc.
      - destruct Hst as (_ & _ & Ha). inversion Ha; subst. destruct Hc as (H1 & H2 & H3 & H4 & H5).
        unfold counted, at_exit, add_event. cbn. auto 6.
      - exfalso. eapply Hx; reflexivity.
      - destruct Hst as (_ & _ & ->). exact Hc. }
    destruct Hs as (H1 & H2 & H3 & H4 & H5).
    unfold events at 1 2 3 4 5. rewrite Hf. rewrite H1, H2, H3, H4, rev_involutive.
    assert (R1 : forall l : list (event A C), failed_steps (rev l) = rev (failed_steps l)).
    { assert (K : forall l l' : list (event A C), failed_steps (l ++ l') = failed_steps l ++ failed_steps l').
      { induction l as [|e l IH]; intros; [reflexivity|]. destruct e; cbn; rewrite IH; reflexivity. }
      induction l as [|e l IH]; [reflexivity|]. cbn [rev]. rewrite K, IH. destruct e; cbn; rewrite ?app_nil_r; reflexivity. }
    assert (R2 : forall l : list (event A C), solved_steps (rev l) = rev (solved_steps l)).
    { assert (K : forall l l' : list (event A C), solved_steps (l ++ l') = solved_steps l ++ solved_steps l').
      { induction l as [|e l IH]; intros; [reflexivity|]. destruct e; cbn; rewrite IH; reflexivity. }
      induction l as [|e l IH]; [reflexivity|]. cbn [rev]. rewrite K, IH. destruct e; cbn; rewrite ?app_nil_r; reflexivity. }
    assert (R3 : forall l : list (event A C), solved_dumax (rev l) = rev (solved_dumax l)).
    { assert (K : forall l l' : list (event A C), solved_dumax (l ++ l') = solved_dumax l ++ solved_dumax l').
      { induction l as [|e l IH]; intros; [reflexivity|]. destruct e; cbn; rewrite IH; reflexivity. }
      induction l as [|e l IH]; [reflexivity|]. cbn [rev]. rewrite K, IH. destruct e; cbn; rewrite ?app_nil_r; reflexivity. }
    rewrite R1, R2, R3. split; [reflexivity|]. split; [reflexivity|]. split; [reflexivity|]. split; [reflexivity|].
    split; [|exact Hnt]. rewrite H1, H2 in H5. rewrite <- H5. rewrite <- (rev_length (filter is_trial (log s))). f_equal.
    assert (K : forall l : list (event A C), filter is_trial (rev l) = rev (filter is_trial l)).
    { induction l as [|e l IH]; [reflexivity|]. cbn [rev]. rewrite filter_app, IH. cbn. destruct (is_trial e); cbn; rewrite ?app_nil_r; reflexivity. }
    apply K.
Qed.

(** "successful" steps of the printed statistics include the refused ones: in the example run the sixth solve gives a
    change above max(du), and there is one more successful step than iterations. *)
Lemma ex_run_counts : exists s, ex_run = Returned 0 s /\ Z.of_nat (length (good_dt s)) = (nt s + 1)%Z.
Proof.
  assert (H : match ex_run with Returned 0 s => Z.of_nat (length (good_dt s)) = (nt s + 1)%Z | _ => False end) by (vm_compute; reflexivity).
  destruct ex_run as [[]| | | |]; try contradiction. eauto.
Qed.

#[local] Strategy expand [ex_run].

Theorem C79_successful_refuted : exists (p : params B64) (o : oracles B64 nat) t0 dt0 v0 c0 n0 fuel s,
  time_integration fuel p o t0 dt0 v0 c0 n0 = Returned 0 s /\ Z.of_nat (length (good_dt s)) = (nt s + 1)%Z.
Proof.
  destruct ex_run_counts as (s & E & Hs).
  exists ex_params, (ex_oracles (fun _ => false)), (b64_of 0 0), ex_dt0, n0, 0%nat, 0%nat, 40%nat, s. exact (conj E Hs).
Qed.

(** the example run: a failed solve and a refused trial *)
Example C79_nonvacuous : exists s, final ex_run = Some s /\ (forall s', ex_run <> Exited s') /\ length (bad_dt s) = 1%nat /\ (length (good_dt s) = length (filter is_trial (events ex_run)) - 1)%nat.
Proof.
  assert (H : match ex_run with Returned 0 s => length (bad_dt s) = 1%nat /\ (length (good_dt s) = length (filter is_trial (rev (log s))) - 1)%nat | _ => False end)
    by (vm_compute; auto).
  unfold events, final. destruct ex_run as [[]| | | |]; try contradiction. exists s. repeat split; try tauto. discriminate.
Qed.

Print Assumptions C79_trial_statistics.
Print Assumptions C79_successful_refuted.
