(** * Lemmas that assemble the properties of the time loop *)

From Coq Require Import Reals ZArith List Bool Lra Lia.
From Flocq Require Import Core BinarySingleNaN.
From Verif Require Import Arith ArithLaws TimeModel TimeSpec TimeProof TimeNum TimeTerm.
Import ListNotations.

#[local] Opaque propose stepper_call.

(** ** Any arithmetic *)
Section Any.
Context {A : arith} {C : Type}.
Variables (p : params A) (o : oracles A C) (dt0 : num A).
Notation run fuel t0 v0 c0 n0 := (time_integration fuel p o t0 dt0 v0 c0 n0).

Lemma tail_lines : forall s1 T s, tail_state p o s1 T s ->
  lines (rev (log s)) = lines (rev (log s1)) /\
  accepted_count (rev (log s)) = accepted_count (rev (log s1)).
Proof.
  intros s1 T s H. apply tail_state_events in H. inversion H; simpl; rewrite ?lines_app, ?accepted_count_app;
    unfold accepted_count at 2; simpl; rewrite ?app_nil_r; split; auto; lia.
Qed.

Lemma length_upto : forall l : list (Z * num A), forall n, map fst l = upto n -> length l = n.
Proof.
  intros l n H. apply (f_equal (@length _)) in H. rewrite map_length in H. rewrite H.
  unfold upto. rewrite map_length, seq_length. reflexivity.
Qed.

Lemma run_line_numbers : forall fuel t0 v0 c0 n0 N, step_count p t0 = Some N ->
  let r := run fuel t0 v0 c0 n0 in
  map fst (lines (events r)) = upto (length (lines (events r))) /\
  length (lines (events r)) <= Z.to_nat (N + 1) /\
  match r with
  | Returned 0 s => length (lines (events r)) = Z.to_nat (N + 1)
  | Returned st s => st = 1%Z /\ length (lines (events r)) < Z.to_nat (N + 1) /\
      nlt (dt s) (DTMIN p) = true
  | Signalled _ => length (lines (events r)) < Z.to_nat (N + 1)
  | Exited _ => length (lines (events r)) < Z.to_nat (N + 1)
  | Running _ => length (lines (events r)) < Z.to_nat (N + 1)
  | Undefined => False
  end.
Proof.
  intros fuel t0 v0 c0 n0 N HN r.
  destruct (final r) as [s|] eqn:E.
  - destruct (run_tail p o dt0 (fun _ _ => True) fuel t0 v0 c0 n0 s E I) as
      (N' & k & s1 & HN' & Hk & Hi & _ & Ht & Hs & Hst); auto.
    rewrite HN in HN'. inversion HN'; subst N'. clear HN'.
    assert (El : lines (events r) = lines (rev (log s1))).
    { unfold events. rewrite E. apply (tail_lines s1 _ s Ht). }
    pose proof (i_lines _ _ _ _ _ _ Hi) as Hl. rewrite <- El in Hl.
    pose proof (length_upto _ _ Hl) as Hlen.
    rewrite Hlen. split; auto. split. { lia. }
    fold r in Hst. destruct r as [st s'|s'|s'|s'|]; simpl in Hst; try lia; try tauto.
    destruct Hst as [(-> & Hk2 & _)|(-> & Hk2 & _ & Ha)]. { lia. }
    split; auto. split. { lia. } inversion Ha; auto.
  - unfold r, time_integration in E. simpl time in E. rewrite HN in E.
    fold r. unfold r. simpl.
    exfalso. revert E. generalize (compute_all o (initial_state p o t0 dt0 v0 c0 n0)).
    generalize 0%Z. induction (Z.to_nat (N + 1)) as [|n IH]; intros z s E; simpl in E.
    + discriminate.
    + destruct (inner fuel p o (target_time p t0 z) s); try discriminate. eapply IH; eauto.
Qed.

Lemma run_undefined : forall fuel t0 v0 c0 n0,
  run fuel t0 v0 c0 n0 = Undefined <-> step_count p t0 = None.
Proof.
  intros. destruct (step_count p t0) as [N|] eqn:E.
  - pose proof (run_line_numbers fuel t0 v0 c0 n0 N E) as (_ & _ & H). split; intros H1; try discriminate.
    rewrite H1 in H. contradiction.
  - unfold time_integration. simpl time. rewrite E. tauto.
Qed.

(** the reference state and the counter after a rejected trial *)
Lemma run_nt : forall fuel t0 v0 c0 n0 s, final (run fuel t0 v0 c0 n0) = Some s ->
  (forall s', run fuel t0 v0 c0 n0 <> Exited s') ->
  nt s = accepted_count (events (run fuel t0 v0 c0 n0)).
Proof.
  intros fuel t0 v0 c0 n0 s E Hx.
  destruct (run_tail p o dt0 (fun _ _ => True) fuel t0 v0 c0 n0 s E I) as
      (N' & k & s1 & HN' & Hk & Hi & _ & Ht & Hs & Hst); auto.
  unfold events. rewrite E. destruct (tail_lines _ _ _ Ht) as [_ ->].
  rewrite <- (i_nt _ _ _ _ _ _ Hi).
  destruct (run fuel t0 v0 c0 n0) as [st s'|s'|s'|s'|]; simpl in E, Hst; inversion E; subst.
  - destruct Hst as [(_ & _ & ->)|(_ & _ & _ & Ha)]; auto.
    inversion Ha; subst. apply propose_nt.
  - destruct Hst as (_ & _ & Ha). inversion Ha; subst. reflexivity.
  - exfalso. apply (Hx s). reflexivity.
  - destruct Hst as (_ & _ & ->). reflexivity.
Qed.

Lemma last_event : forall (l : list (event A C)) l1 e, l = rev (l1 ++ [e]) -> exists l', l = e :: l'.
Proof. intros l l1 e ->. rewrite rev_app_distr. simpl. eauto. Qed.

Lemma run_last_rejected : forall fuel t0 v0 c0 n0 s l1 e t c,
  final (run fuel t0 v0 c0 n0) = Some s ->
  events (run fuel t0 v0 c0 n0) = l1 ++ [e] ->
  (exists d, e = EvSolverFailed d t c) \/ (exists d v, e = EvTooLarge d v t c) ->
  time s = t /\ cur s = c.
Proof.
  intros fuel t0 v0 c0 n0 s l1 e t c E El He.
  destruct (run_tail p o dt0 (fun _ _ => True) fuel t0 v0 c0 n0 s E I) as
      (N' & k & s1 & HN' & Hk & Hi & _ & Ht & Hs & Hst); auto.
  unfold events in El. rewrite E in El.
  assert (El' : log s = e :: rev l1).
  { rewrite <- (rev_involutive (log s)), El, rev_app_distr. reflexivity. }
  assert (Hh : forall l', log s1 = e :: l' -> time s1 = t /\ cur s1 = c).
  { intros l' Hl. pose proof (i_head _ _ _ _ _ _ Hi) as Hh. unfold head_state_ok in Hh.
    rewrite Hl in Hh. destruct He as [[d ->]|[d [v ->]]]; simpl in Hh;
      destruct Hh as (-> & -> & _); auto. }
  inversion Ht as [Es|s' Hlt Ha Es|s' Hlt Ha Es|s' Hlt Ha Es]; subst.
  - eauto.
  - inversion Ha; subst. rewrite propose_log in El'. rewrite propose_time, propose_cur. eauto.
  - inversion Ha; subst. simpl in El'. inversion El'; subst.
    destruct He as [[d H]|[d [v H]]]; discriminate.
  - inversion Ha; subst. simpl in El'. inversion El'; subst.
    destruct He as [[d H]|[d [v H]]]; discriminate.
Qed.

(** termination requests *)
Lemma run_signal : forall fuel t0 v0 c0 n0,
  match run fuel t0 v0 c0 n0 with
  | Signalled s => (exists l, events (run fuel t0 v0 c0 n0) =
      l ++ [EvAtExit (time s) (if (0 <? save_period p)%Z then Some (nxt s) else None)] /\
      (forall t x, ~ In (EvAtExit t x) l) /\
      (recenter_on p = false -> clean (rev l) -> nxt s = cur s)) /\
      exists n, o_signal o n = true
  | r => forall t x, ~ In (EvAtExit t x) (events r)
  end.
Proof.
  intros fuel t0 v0 c0 n0.
  destruct (final (run fuel t0 v0 c0 n0)) as [s|] eqn:E.
  2: { destruct (run fuel t0 v0 c0 n0); try discriminate. simpl. auto. }
  destruct (run_tail p o dt0 (fun _ _ => True) fuel t0 v0 c0 n0 s E I) as
      (N' & k & s1 & HN' & Hk & Hi & _ & Ht & Hs & Hst); auto.
  pose proof (i_noexit _ _ _ _ _ _ Hi) as Hno.
  assert (Hno' : forall t x, ~ In (EvAtExit t x) (rev (log s1))).
  { intros t x Hin. rewrite <- in_rev in Hin. eapply Hno; eauto. }
  destruct (run fuel t0 v0 c0 n0) as [st s'|s'|s'|s'|] eqn:Er; simpl in E, Hst; inversion E; subst;
    unfold events; simpl.
  - destruct Hst as [(_ & _ & ->)|(_ & _ & _ & Ha)]; auto.
    inversion Ha; subst. rewrite propose_log. auto.
  - destruct Hst as (_ & _ & Ha). inversion Ha as [ |s2 Hsi Es| | | |]; subst. split.
    + exists (rev (log s1)). split. { reflexivity. } split; auto.
      simpl. rewrite rev_involutive. apply (i_clean _ _ _ _ _ _ Hi).
    + eauto.
  - destruct Hst as (_ & _ & Ha). inversion Ha; subst. simpl. rewrite propose_log.
    intros t x Hin. apply in_app_or in Hin. destruct Hin as [Hin|[Hin|[]]].
    + eapply Hno'; eauto.
    + discriminate.
  - destruct Hst as (_ & _ & ->). auto.
Qed.

Lemma snapshot_due_spec : forall period k, (0 < period)%Z ->
  (snapshot_due period k = true <-> (period | k)%Z).
Proof.
  intros q k Hp. unfold snapshot_due. rewrite andb_true_iff, negb_true_iff.
  rewrite Z.eqb_neq, Z.eqb_eq. split.
  - intros [_ H]. apply Z.rem_divide in H; auto. lia.
  - intros H. split. { lia. } apply Z.rem_divide; auto. lia.
Qed.

(** snapshots correspond to lines, in both directions *)
Lemma snap_line : forall (l : list (event A C)) k t n, chain p o dt0 l -> In (EvSnapshot k t n) l ->
  In (EvLine k t n) l \/ exists l1, l = l1 ++ [EvSnapshot k t n].
Proof.
  intros l k t n. induction l as [|e l IH]; intros Hc Hin. { contradiction. }
  destruct Hin as [->|Hin].
  - destruct l as [|e1 l]. { right. exists []. reflexivity. }
    destruct Hc as [Hn Hc]. left. right. left.
    destruct e1; simpl in Hn; try contradiction. decompose [and] Hn. congruence.
  - destruct l as [|e1 l]. { contradiction. }
    destruct Hc as [Hn Hc]. destruct (IH Hc Hin) as [H|[l1 H]]; auto.
    + left. right. exact H.
    + right. exists (e :: l1). rewrite H. reflexivity.
Qed.

Fixpoint first_ok (l : list (event A C)) : Prop :=
  match l with
  | [] => True
  | [e] => match e with EvSnapshot _ _ _ => False | _ => True end
  | _ :: l' => first_ok l'
  end.

Lemma first_ok_cons : forall e l, l <> [] -> first_ok l -> first_ok (e :: l).
Proof. intros e [|e1 l] H; simpl; auto; tauto. Qed.

Lemma first_ok_cons2 : forall e l, (match e with EvSnapshot _ _ _ => False | _ => True end) ->
  first_ok l -> first_ok (e :: l).
Proof. intros e [|e1 l] H; simpl; auto; tauto. Qed.

Lemma first_ok_snap : forall l1 k t n, ~ first_ok (l1 ++ [EvSnapshot k t n]).
Proof.
  induction l1 as [|e l1 IH]; intros k t n H. { exact H. }
  simpl in H. destruct (l1 ++ [EvSnapshot k t n]) eqn:E.
  - destruct l1; discriminate.
  - apply (IH k t n). rewrite E. exact H.
Qed.

Lemma run_first_ok : forall fuel t0 v0 c0 n0 s,
  final (run fuel t0 v0 c0 n0) = Some s -> first_ok (log s) /\
  (forall l k t n, log s = EvLine k t n :: l -> snapshot_due (save_period p) k = false).
Proof.
  intros fuel t0 v0 c0 n0 s E.
  destruct (run_tail p o dt0 (fun _ s => first_ok (log s)) fuel t0 v0 c0 n0 s E I) as
      (N' & k & s1 & HN' & Hk & Hi & Hp & Ht & Hs & Hst); auto.
  - intros N HN k s1 s' Hk Hi Hp Hlt Ha. inversion Ha; subst; simpl;
      rewrite propose_log; destruct (log s1); auto.
  - intros N HN k s1 Hk Hi Hp Hlt. unfold saver_events.
    destruct (snapshot_due (save_period p) k).
    + apply (first_ok_cons _ (EvLine _ _ _ :: log s1)); try discriminate.
      apply first_ok_cons2; auto; exact I.
    + apply first_ok_cons2; auto; exact I.
  - assert (Hh : forall l k t n, log s1 = EvLine k t n :: l ->
      snapshot_due (save_period p) k = false).
    { intros l k' t n Hl. pose proof (i_head _ _ _ _ _ _ Hi) as Hh. unfold head_state_ok in Hh.
      rewrite Hl in Hh. simpl in Hh. tauto. }
    apply tail_state_events in Ht. destruct Ht as [|Hlt Hsi|Hlt Hsi Hd].
    + auto.
    + split. { apply first_ok_cons2; auto; exact I. } intros l k' t n H. discriminate.
    + split. { apply first_ok_cons2; auto; exact I. } intros l k' t n H. discriminate.
Qed.

Lemma run_snapshots : forall fuel t0 v0 c0 n0 k t n,
  In (EvSnapshot k t n) (events (run fuel t0 v0 c0 n0)) <->
  In (EvLine k t n) (events (run fuel t0 v0 c0 n0)) /\ snapshot_due (save_period p) k = true.
Proof.
  intros fuel t0 v0 c0 n0 k t n.
  pose proof (run_events p o dt0 fuel t0 v0 c0 n0) as Hev.
  unfold events in *. destruct (final (run fuel t0 v0 c0 n0)) as [s|] eqn:E; [|simpl; tauto].
  destruct (run_first_ok fuel t0 v0 c0 n0 s E) as [Hf Hl].
  destruct (run_tail p o dt0 (fun _ _ => True) fuel t0 v0 c0 n0 s E I) as
      (N' & j & s1 & HN' & Hk & Hi & _ & Ht & Hs & Hst); auto.
  assert (Hc : chain p o dt0 (log s)).
  { eapply tail_chain; [exact Hi|]. apply tail_state_events in Ht. exact Ht. }
  split.
  - intros H. pose proof (Hev _ H) as Hd. simpl in Hd. split; auto.
    rewrite <- in_rev in H |- *. destruct (snap_line _ _ _ _ Hc H) as [H1|[l1 H1]]; auto.
    rewrite H1 in Hf. exfalso. eapply first_ok_snap; eauto.
  - intros [H Hd]. rewrite <- in_rev in H |- *.
    destruct (line_snapshot p o dt0 _ _ _ _ Hc H Hd) as [H1|H1]; auto.
    destruct (log s) as [|e l] eqn:El; [contradiction|]. simpl in H1. inversion H1; subst.
    rewrite (Hl _ _ _ _ eq_refl) in Hd. discriminate.
Qed.

End Any.

(** ** With the laws of the arithmetic *)
Local Open Scope R_scope.

Section Num.
Context {A : arith} {C : Type} (L : fl_laws A).
Notation fin := (fin L).
Notation val := (val L).
Variables (p : params A) (o : oracles A C) (t0 dt0 : num A) (N : Z).
Hypothesis Ft0 : fin t0.
Hypothesis Fmin : fin (DTMIN p).
Hypothesis Hmin : 0 <= val (DTMIN p).
Hypothesis HN : step_count p t0 = Some N.
Hypothesis Tok :
  (forall k, (0 <= k <= N)%Z -> fin (target_time p t0 k) /\ ok L (val (target_time p t0 k) - val t0))
  /\ ((0 <= N)%Z -> val (target_time p t0 0) = val t0)
  /\ (forall k, (0 <= k)%Z -> (k + 1 <= N)%Z ->
       val (target_time p t0 k) <= val (target_time p t0 (k + 1))).
Notation run fuel v0 c0 n0 := (time_integration fuel p o t0 dt0 v0 c0 n0).

Lemma run_num : forall fuel v0 c0 n0,
  let r := run fuel v0 c0 n0 in
  (forall k t, In (k, t) (lines (events r)) -> neq t (target_time p t0 k) = true) /\
  (forall l1 l2 d v t c n, events r = l1 ++ EvAccepted d v t c n :: l2 ->
     (fin t /\ fin (target_time p t0 (Z.of_nat (length (lines l1))))) /\
     val t <= val (target_time p t0 (Z.of_nat (length (lines l1))))) /\
  (forall e1 e2, follows (events r) e1 e2 -> nlt (ev_time e2) (ev_time e1) = false) /\
  (forall e, In e (events r) -> ev_fin L p e).
Proof.
  intros fuel v0 c0 n0 r.
  destruct Tok as (FT & T0 & Tm).
  unfold events. destruct (final r) as [s|] eqn:E.
  2: { split; [intros k t []|]. split.
       { intros l1 l2 d v t c n H. destruct l1; discriminate. }
       split; [|intros e []]. intros e1 e2 (l1 & l2 & H). destruct l1; discriminate. }
  destruct (run_ninv L p o t0 dt0 N Ft0 Fmin Hmin HN FT T0 Tm fuel v0 c0 n0 s E)
    as (Hl & Ho & Hc & Hf).
  split; [|split; [|split]].
  - intros k t Hin. rewrite Forall_forall in Hl. exact (Hl _ Hin).
  - intros l1 l2 d v t c n El.
    assert (El' : log s = rev l2 ++ EvAccepted d v t c n :: rev l1).
    { rewrite <- (rev_involutive (log s)), El, rev_app_distr. simpl. rewrite <- app_assoc. reflexivity. }
    rewrite El' in Ho. clear - Ho.
    induction (rev l2) as [|e l IH].
    + simpl in Ho. rewrite rev_involutive in Ho. tauto.
    + apply IH. simpl in Ho. destruct e; tauto.
  - intros e1 e2 Hfo. apply (chainR_follows _ _ _ _ Hc Hfo).
  - intros e He. rewrite <- in_rev in He. rewrite Forall_forall in Hf. auto.
Qed.

End Num.

(** ** Exact arithmetic *)
Lemma step_count_bound : forall {A} (p : params A) t0 N, step_count p t0 = Some N ->
  (Z.abs N <= 2147483648)%Z.
Proof.
  intros A p t0 N HN. unfold step_count in HN. destruct (nround _) as [z|]; try discriminate.
  destruct ((-2147483648 <=? z) && (z <? 2147483647))%Z eqn:E; try discriminate.
  inversion HN; subst. lia.
Qed.

Lemma real_targets : forall (p : params XA) (t0 : num XA), real_params p t0 ->
  fin XA_laws t0 /\ fin XA_laws (DTMIN p) /\ 0 <= val XA_laws (DTMIN p) /\
  forall N, step_count p t0 = Some N ->
  (forall k, (0 <= k <= N)%Z -> fin XA_laws (target_time p t0 k) /\
     ok XA_laws (val XA_laws (target_time p t0 k) - val XA_laws t0))
  /\ ((0 <= N)%Z -> val XA_laws (target_time p t0 0) = val XA_laws t0)
  /\ (forall k, (0 <= k)%Z -> (k + 1 <= N)%Z ->
       val XA_laws (target_time p t0 k) <= val XA_laws (target_time p t0 (k + 1))).
Proof.
  intros p t0 ((a & ->) & (ts & Hts & Hts0) & (m & Hm & Hm0)).
  rewrite Hm. split. { exact I. } split. { exact I. } split. { exact Hm0. }
  intros N HN.
  apply (targets_ok XA_laws); rewrite ?Hts; try exact I; auto.
  - pose proof (step_count_bound _ _ _ HN). lia.
  - intros. exact I.
Qed.

(** ** binary64 *)
Lemma rnd64_bpow : forall x e, (e <= 1000)%Z -> (-1000 <= e)%Z -> Rabs x <= bpow radix2 e -> Rabs (rnd64 x) <= bpow radix2 e.
Proof.
  intros x e H1 H2 H. rewrite rnd64_abs.
  apply Rle_trans with (rnd64 (bpow radix2 e)). { apply rnd64_mono. exact H. }
  apply Req_le. unfold rnd64. apply round_generic. { apply valid_rnd_N. }
  apply generic_format_bpow. unfold FLT_exp, SpecFloat.fexp, SpecFloat.emin. simpl. lia.
Qed.

Lemma b64_targets : forall (p : params B64) (t0 : num B64), b64_params p t0 ->
  fin B64_laws t0 /\ fin B64_laws (DTMIN p) /\ 0 <= val B64_laws (DTMIN p) /\
  forall N, step_count p t0 = Some N ->
  (forall k, (0 <= k <= N)%Z -> fin B64_laws (target_time p t0 k) /\
     ok B64_laws (val B64_laws (target_time p t0 k) - val B64_laws t0))
  /\ ((0 <= N)%Z -> val B64_laws (target_time p t0 0) = val B64_laws t0)
  /\ (forall k, (0 <= k)%Z -> (k + 1 <= N)%Z ->
       val B64_laws (target_time p t0 k) <= val B64_laws (target_time p t0 (k + 1))).
Proof.
  intros p t0 (F0 & Fs & Fm & Hs & Hm & Ht & Hb).
  split. { exact F0. } split. { exact Fm. } split. { exact Hm. }
  intros N HN. specialize (Hb N HN). pose proof (step_count_bound p t0 N HN) as HNb.
  destruct (Z_lt_le_dec N 0) as [Hneg|Hpos].
  { split; [|split]; intros; lia. }
  assert (H0 : 0 <= IZR N) by (apply (IZR_le 0); lia).
  assert (Hp : 0 <= IZR N * B2R (t_step p : b64)) by (apply Rmult_le_pos; lra).
  set (b := bpow radix2 1000) in *.
  assert (Hb0 : 0 < b) by apply bpow_gt_0.
  assert (Hb4 : 4 * b <= bpow radix2 1023).
  { unfold b. change 4 with (bpow radix2 2). rewrite <- bpow_plus. apply bpow_le. lia. }
  assert (Hb2 : 2 * b = bpow radix2 1001).
  { unfold b. change 2 with (bpow radix2 1). rewrite <- bpow_plus. reflexivity. }
  assert (Hr : forall k, (0 <= k <= N)%Z ->
    0 <= rnd64 (IZR k * B2R (t_step p : b64)) <= b).
  { intros k Hk. assert (0 <= IZR k <= IZR N) by (split; [apply (IZR_le 0)|apply IZR_le]; lia).
    assert (0 <= IZR k * B2R (t_step p : b64) <= b).
    { split. { apply Rmult_le_pos; lra. }
      apply Rle_trans with (2 := Hb). apply Rmult_le_compat_r; lra. }
    split.
    - rewrite <- rnd64_0. apply rnd64_mono. lra.
    - pose proof (rnd64_bpow (IZR k * B2R (t_step p : b64)) 1000 ltac:(lia) ltac:(lia)) as H3.
      rewrite Rabs_pos_eq in H3 by lra. specialize (H3 ltac:(unfold b in *; lra)).
      apply Rle_trans with (2 := H3). apply RRle_abs. }
  apply (targets_ok B64_laws); auto.
  - lia.
  - apply ok64_small. change (val B64_laws (t_step p)) with (B2R (t_step p : b64)).
    rewrite Rabs_pos_eq; lra.
  - apply ok64_small. change (val B64_laws (t_step p)) with (B2R (t_step p : b64)).
    change (val B64_laws t0) with (B2R (t0 : b64)). change (rnd B64_laws) with rnd64.
    specialize (Hr N ltac:(lia)). pose proof (Rabs_pos (B2R (t0 : b64))).
    rewrite Rabs_pos_eq; lra.
  - intros k Hk. apply ok64_small. change (val B64_laws (t_step p)) with (B2R (t_step p : b64)).
    change (val B64_laws t0) with (B2R (t0 : b64)). change (rnd B64_laws) with rnd64.
    specialize (Hr k Hk).
    assert (H1 : Rabs (rnd64 (B2R (t0 : b64) + rnd64 (IZR k * B2R (t_step p : b64)))) <= 2 * b).
    { rewrite Hb2. rewrite rnd64_abs.
      apply Rle_trans with (rnd64 (bpow radix2 1001)).
      - apply rnd64_mono. rewrite <- Hb2. apply Rle_trans with (1 := Rabs_triang _ _).
        rewrite (Rabs_pos_eq (rnd64 _)); lra.
      - apply Req_le. unfold rnd64. apply round_generic. { apply valid_rnd_N. }
        apply generic_format_bpow. unfold SpecFloat.fexp, SpecFloat.emin. simpl. lia. }
    apply Rle_trans with (1 := Rabs_triang _ _). rewrite Rabs_Ropp. lra.
  - apply rnd64_0.
Qed.
