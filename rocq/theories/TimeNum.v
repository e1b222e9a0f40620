(** * Proofs about the time loop: numeric facts, for exact arithmetic and for binary64 *)

From Coq Require Import ZArith List Bool Lia Reals Lra.
From Flocq Require Import Core BinarySingleNaN.
From Verif Require Import Arith ArithLaws TimeModel TimeSpec TimeProof.
Import ListNotations.
Local Open Scope R_scope.

Section Laws.
Context {A : arith} (L : fl_laws A) {C : Type}.
Notation fin := (fin L).
Notation val := (val L).

(** ** The stepper *)

(** a proposed step is the whole stride or less than it *)
Lemma call_stride : forall (st : stepper A) stride,
  fst (stepper_call st stride) = stride \/ nlt (fst (stepper_call st stride)) stride = true.
Proof.
  intros st stride. unfold stepper_call; simpl.
  set (m := nsub stride (nmul (nZ 2) (hard_min st))).
  set (d0 := std_min stride (soft_max st)).
  assert (H0 : d0 = stride \/ nlt d0 stride = true).
  { unfold d0, std_min. destruct (nlt (soft_max st) stride) eqn:E; auto. }
  destruct (nlt m d0 && nlt d0 stride) eqn:E2; auto.
  apply andb_true_iff in E2. destruct E2 as [E2 E3]. right. eapply (lt_trans A L); eauto.
Qed.

Lemma call_le_soft : forall (st : stepper A) stride, nisnan (soft_max st) = false ->
  nlt (soft_max st) (fst (stepper_call st stride)) = false.
Proof.
  intros st stride Hn. unfold stepper_call; simpl.
  set (m := nsub stride (nmul (nZ 2) (hard_min st))).
  set (d0 := std_min stride (soft_max st)).
  assert (H0 : nlt (soft_max st) d0 = false).
  { unfold d0, std_min. destruct (nlt (soft_max st) stride) eqn:E; auto. apply (lt_irrefl A L). }
  destruct (nlt m d0 && nlt d0 stride) eqn:E2; auto.
  apply andb_true_iff in E2. destruct E2 as [E2 _].
  destruct (nlt (soft_max st) m) eqn:E3; auto.
  rewrite (lt_trans A L _ _ _ E3 E2) in H0. discriminate.
Qed.

Lemma fin_step : forall (st : stepper A) stride lo, fin stride -> fin lo ->
  nlt (fst (stepper_call st stride)) lo = false ->
  fin (fst (stepper_call st stride)) /\ val lo <= val (fst (stepper_call st stride)) <= val stride /\
  (neq (fst (stepper_call st stride)) stride = false ->
   val (fst (stepper_call st stride)) < val stride).
Proof.
  intros st stride lo Fs Fl Hlo. set (d := fst (stepper_call st stride)) in *.
  assert (Fd : fin d).
  { destruct (call_stride st stride) as [E|E]; fold d in E.
    - rewrite E. exact Fs.
    - destruct (lt_below A L _ _ Fs E) as [H|H]; auto. rewrite (H lo Fl) in Hlo. discriminate. }
  split; auto.
  assert (H1 : val lo <= val d) by (apply (lt_fin_false L); auto).
  assert (H2 : val d <= val stride).
  { destruct (call_stride st stride) as [E|E]; fold d in E.
    - rewrite E. lra.
    - apply (lt_fin A L) in E; auto. lra. }
  split; auto. intros Hne. apply (eq_fin_false L) in Hne; auto. lra.
Qed.

Section Reach.
Variable p : params A.
Variable dt0 : num A.
Hypothesis Hdt0 : nisnan dt0 = false.

Lemma min_notnan : forall x y : num A, nisnan x = false -> nisnan (std_min x y) = false.
Proof.
  intros x y Hx. unfold std_min. destruct (nlt y x) eqn:E; auto. apply (lt_notnan A L) in E. tauto.
Qed.
Lemma max_notnan : forall x y : num A, nisnan x = false -> nisnan (std_max x y) = false.
Proof.
  intros x y Hx. unfold std_max. destruct (nlt x y) eqn:E; auto. apply (lt_notnan A L) in E. tauto.
Qed.

Lemma reach_notnan : forall st, stepper_reach p dt0 st -> nisnan (soft_max st) = false.
Proof.
  induction 1; simpl; auto.
  - apply min_notnan; auto.
  - apply max_notnan; auto.
Qed.

Lemma reach_hmin : forall st, stepper_reach p dt0 st -> hard_min st = DTMIN p.
Proof. induction 1; simpl; auto. Qed.

Lemma reach_hmax : forall st, stepper_reach p dt0 st ->
  hard_max st = nmul (DTMAX p) one_plus_flt_epsilon.
Proof. induction 1; simpl; auto. Qed.

Lemma reach_soft_hmax : nlt (nmul (DTMAX p) one_plus_flt_epsilon) dt0 = false ->
  forall st, stepper_reach p dt0 st -> nlt (hard_max st) (soft_max st) = false.
Proof.
  intros H0 st H. induction H as [|st lim H IH|st stride H IH]; simpl; auto.
  - unfold std_min. destruct (nlt lim (soft_max st)) eqn:E; auto.
    destruct (nlt (hard_max st) lim) eqn:E2; auto.
    rewrite (lt_trans A L _ _ _ E2 E) in IH. discriminate.
  - unfold std_max. destruct (nlt (soft_max st) _) eqn:E; auto.
    unfold std_min at 1.
    match goal with |- context [if nlt (hard_max st) ?d then _ else _] =>
      destruct (nlt (hard_max st) d) eqn:E2; auto end.
    apply (lt_irrefl A L).
Qed.

Lemma step_le_hmax : nlt (nmul (DTMAX p) one_plus_flt_epsilon) dt0 = false ->
  forall st stride, stepper_reach p dt0 st ->
  nlt (nmul (DTMAX p) one_plus_flt_epsilon) (fst (stepper_call st stride)) = false.
Proof.
  intros H0 st stride H. rewrite <- (reach_hmax st H).
  pose proof (reach_soft_hmax H0 st H) as H1.
  pose proof (reach_notnan st H) as H2.
  pose proof (call_le_soft st stride H2) as H3.
  destruct (nlt (hard_max st) (fst (stepper_call st stride))) eqn:E; auto.
  rewrite (lt_neg_trans A L _ _ _ H2 H1 E) in H3. discriminate.
Qed.

Lemma retry_le : forall d lim, retry p dt0 d lim -> nlt lim d = false.
Proof.
  intros d lim (st & stride & Hr & ->).
  pose proof (reach_notnan st Hr) as Hn.
  pose proof (call_le_soft (set_soft_limit st lim) stride (min_notnan _ _ Hn)) as Hc.
  set (d := fst (stepper_call (set_soft_limit st lim) stride)) in *. clearbody d.
  simpl in Hc. unfold std_min in Hc. destruct (nlt lim (soft_max st)) eqn:E; auto.
  destruct (nlt lim d) eqn:E2; auto.
  rewrite (lt_neg_trans A L _ _ _ Hn E E2) in Hc. discriminate.
Qed.

End Reach.

(** ** Time never overshoots *)
Lemma advance : forall t T (d : num A) st, fin t -> fin T -> fin d -> ok L (val T - val t) ->
  val t < val T -> 0 <= val d ->
  d = fst (stepper_call st (nsub T t)) ->
  fin (if neq d (nsub T t) then T else nadd t d) /\
  val t <= val (if neq d (nsub T t) then T else nadd t d) <= val T.
Proof.
  intros t T d st Ft FT Fd Hok Hlt Hd Hcall.
  destruct (sub_fin A L T t FT Ft Hok) as [Fs Vs].
  destruct (fin_step st (nsub T t) d Fs Fd) as (_ & H2 & H3).
  { rewrite <- Hcall. apply (lt_irrefl A L). }
  rewrite <- Hcall in H2, H3.
  destruct (neq d (nsub T t)) eqn:E.
  - split; auto. lra.
  - specialize (H3 eq_refl).
    assert (H4 : val d <= val T - val t).
    { apply Rnot_lt_le. intros H5. rewrite Vs in H3.
      pose proof (rnd_mono A L (val T - val t) (val d) ltac:(lra)) as H6.
      rewrite (rnd_val A L d Fd) in H6. lra. }
    assert (Hok2 : ok L (val t + val d)).
    { destruct (Rle_dec 0 (val t + val d)).
      - apply (ok_mono A L) with (val T). 2: apply (ok_fin A L); auto.
        rewrite !Rabs_pos_eq; lra.
      - apply (ok_mono A L) with (val t). 2: apply (ok_fin A L); auto.
        rewrite !Rabs_left; lra. }
    destruct (add_fin A L t d Ft Fd Hok2) as [Fa Va].
    split; auto. rewrite Va. split.
    + rewrite <- (rnd_val A L t Ft) at 1. apply (rnd_mono A L). lra.
    + rewrite <- (rnd_val A L T FT). apply (rnd_mono A L). lra.
Qed.

(** ** Runs *)
#[local] Opaque propose.
#[local] Arguments Z.min : simpl never.
Section Run.
Variable p : params A.
Variable o : oracles A C.
Variable t0 : num A.
Variable dt0 : num A.
Variable N : Z.
Notation T k := (target_time p t0 k).
Hypothesis Ft0 : fin t0.
Hypothesis Fmin : fin (DTMIN p).
Hypothesis Hmin : 0 <= val (DTMIN p).
Hypothesis HN : step_count p t0 = Some N.
Hypothesis FT : forall k, (0 <= k <= N)%Z -> fin (T k) /\ ok L (val (T k) - val t0).
Hypothesis T0 : (0 <= N)%Z -> val (T 0) = val t0.
Hypothesis Tmono : forall k, (0 <= k)%Z -> (k + 1 <= N)%Z -> val (T k) <= val (T (k + 1)).

(** the time carried by a trial and by its acceptance are finite *)
Definition fin_pair (e1 e2 : event A C) : Prop :=
  nlt (ev_time e2) (ev_time e1) = false /\
  match e1, e2 with
  | EvTrial _ t d _, EvAccepted _ _ t' _ _ => fin t /\ fin d /\ fin t'
  | _, _ => True
  end.

Fixpoint chainR (R : event A C -> event A C -> Prop) (l : list (event A C)) : Prop :=
  match l with
  | e2 :: ((e1 :: _) as l') => R e1 e2 /\ chainR R l'
  | _ => True
  end.

Lemma chainR_follows : forall R l e1 e2, chainR R l -> follows (rev l) e1 e2 -> R e1 e2.
Proof.
  intros R l e1 e2 Hc (l1 & l2 & E).
  assert (E' : l = rev l2 ++ e2 :: e1 :: rev l1).
  { rewrite <- (rev_involutive l), E. rewrite rev_app_distr. simpl.
    rewrite <- !app_assoc. reflexivity. }
  clear E. subst l. revert Hc. induction (rev l2) as [|x l IH]; intros Hc.
  - destruct Hc. auto.
  - apply IH. destruct (l ++ e2 :: e1 :: rev l1) eqn:El.
    + destruct l; discriminate.
    + simpl in Hc. rewrite El in Hc. destruct Hc. auto.
Qed.

Definition line_ok (kt : Z * num A) : Prop := neq (snd kt) (T (fst kt)) = true.

(** accepted steps do not pass the next output time; entries are latest first *)
Fixpoint no_overshoot (l : list (event A C)) : Prop :=
  match l with
  | [] => True
  | EvAccepted _ _ t _ _ :: l' =>
      (fin t /\ fin (T (Z.of_nat (length (lines (rev l')))))) /\
      val t <= val (T (Z.of_nat (length (lines (rev l'))))) /\ no_overshoot l'
  | _ :: l' => no_overshoot l'
  end.

(** steps and times are finite *)
Definition ev_fin (e : event A C) : Prop :=
  match e with
  | EvTrial _ t d _ => fin t /\ fin d /\ val (DTMIN p) <= val d
  | EvSolverFailed d t _ => fin t /\ fin d
  | EvTooLarge d _ t _ => fin t /\ fin d
  | EvAccepted d _ t _ _ => fin t /\ fin d
  | _ => True
  end.

Record ninv (k : Z) (s : state A C) : Prop := mkNinv {
  n_fin : fin (time s);
  n_lo : val t0 <= val (time s);
  n_hi : (0 <= N)%Z -> val (time s) <= val (T (Z.min k N));
  n_lines : Forall line_ok (lines (rev (log s)));
  n_over : no_overshoot (log s);
  n_chain : chainR fin_pair (log s);
  n_evfin : Forall ev_fin (log s)
}.

Lemma nlt_irrefl_ev : forall (t : num A), nlt t t = false.
Proof. exact (lt_irrefl A L). Qed.

Lemma head_time : forall k s e l, inv p o dt0 t0 k s -> log s = e :: l -> ev_time e = time s.
Proof.
  intros k s e l Hi El. pose proof (i_head _ _ _ _ _ _ Hi) as Hh. unfold head_state_ok in Hh.
  rewrite El in Hh. destruct e; simpl in Hh |- *; try contradiction; tauto.
Qed.

(** value of the time after an accepted step, whatever else happened *)
Lemma accept_time : forall k s, (0 <= k <= N)%Z -> inv p o dt0 t0 k s -> ninv k s ->
  nlt (time s) (T k) = true ->
  nlt (dt (propose (T k) s)) (DTMIN p) = false ->
  let d := dt (propose (T k) s) in
  let t' := if neq d (nsub (T k) (time s)) then T k else nadd (time s) d in
  fin d /\ fin t' /\ val (time s) <= val t' <= val (T k) /\ val (DTMIN p) <= val d.
Proof.
  intros k s Hk Hi Hn Hlt Hd d t'.
  destruct (FT k Hk) as [Fk Ok].
  assert (Hv : val (time s) < val (T k)). { apply (lt_fin A L); auto. apply Hn. }
  assert (Hok : ok L (val (T k) - val (time s))).
  { apply (ok_mono A L) with (2 := Ok). pose proof (n_lo _ _ Hn). rewrite !Rabs_pos_eq; lra. }
  assert (Ed : d = fst (stepper_call (stp s) (nsub (T k) (time s)))) by apply propose_dt.
  destruct (sub_fin A L (T k) (time s) Fk (n_fin _ _ Hn) Hok) as [Fs Vs].
  destruct (fin_step (stp s) _ (DTMIN p) Fs Fmin) as (Fd & H2 & _).
  { rewrite <- Ed. exact Hd. }
  rewrite <- Ed in Fd, H2. split; auto.
  destruct (advance (time s) (T k) d (stp s)) as (Q1 & Q2 & Q3); auto. { apply Hn. } { lra. }
  split; auto. split; auto. lra.
Qed.

Lemma chainR_cons : forall R e (l : list (event A C)),
  chainR R l -> (forall e1 l', l = e1 :: l' -> R e1 e) -> chainR R (e :: l).
Proof. intros R e l Hc H. destruct l as [|e1 l']; simpl; auto. split; auto. eapply H. reflexivity. Qed.

Lemma trial_chainR : forall k s d n, inv p o dt0 t0 k s -> ninv k s ->
  chainR fin_pair (EvTrial n (time s) d (cur s) :: log s).
Proof.
  intros k s d n Hi Hn. apply chainR_cons. { apply Hn. }
  intros e1 l' El. split; simpl.
  - rewrite (head_time k s e1 l' Hi El). apply nlt_irrefl_ev.
  - pose proof (i_head _ _ _ _ _ _ Hi) as Hh. unfold head_state_ok in Hh. rewrite El in Hh.
    destruct e1; auto.
Qed.

Lemma ninv_attempt : forall k s s', (0 <= k <= N)%Z -> inv p o dt0 t0 k s -> ninv k s ->
  nlt (time s) (T k) = true -> attempt_spec p o (T k) s (ACont s') -> ninv k s'.
Proof.
  intros k s s' Hk Hi Hn Hlt Ha.
  assert (Htr : nlt (dt (propose (T k) s)) (DTMIN p) = false ->
    ev_fin (EvTrial (trials s) (time s) (dt (propose (T k) s)) (cur s))).
  { intros Hd. destruct (accept_time k s Hk Hi Hn Hlt Hd) as (Fd & _ & _ & Hd2).
    simpl. split; auto. apply Hn. }
  pose proof Hn as Hn0. destruct Hn0 as [N1 N2 N3 N4 N5 N6 N7].
  inversion Ha as [ | | s1 vm Hs H1 Hd Hso | s1 c vm Hs H1 Hd Hso Hl | |
                    s1 s2 c vm c' n' Hs H1 Hd Hso Hl H2 Hr1 Hr2 ]; subst s'; clear Ha.
  - subst s1. constructor; simpl; rewrite ?propose_time, ?propose_log, ?propose_cur; auto.
    + rewrite <- !app_assoc, !lines_app. simpl. rewrite app_nil_r. auto.
    + split. { split; simpl; auto. apply nlt_irrefl_ev. }
      apply trial_chainR with (k := k); auto.
    + specialize (Htr Hd). constructor; [|constructor]; auto. simpl in *. tauto.
  - subst s1. constructor; simpl; rewrite ?propose_time, ?propose_log, ?propose_cur; auto.
    + rewrite <- !app_assoc, !lines_app. simpl. rewrite app_nil_r. auto.
    + split. { split; simpl; auto. apply nlt_irrefl_ev. }
      apply trial_chainR with (k := k); auto.
    + specialize (Htr Hd). constructor; [|constructor]; auto. simpl in *. tauto.
  - subst s2 s1.
    destruct (accept_time k s Hk Hi Hn Hlt Hd) as (Fd & Ft & (Hv1 & Hv2) & Hd2).
    destruct (FT k Hk) as [Fk _].
    constructor; simpl; rewrite ?propose_time, ?propose_log, ?propose_cur; auto.
    + lra.
    + intros _. rewrite Z.min_l by (apply Hk). exact Hv2.
    + rewrite <- !app_assoc, !lines_app. simpl. rewrite app_nil_r. auto.
    + assert (Elen : Z.of_nat (length (lines (rev (log s) ++
                 [EvTrial (trials s) (time s) (dt (propose (T k) s)) (cur s)]))) = k).
      { rewrite lines_app. simpl. rewrite app_nil_r.
        pose proof (i_lines _ _ _ _ _ _ Hi) as Hli. apply (f_equal (@length _)) in Hli.
        rewrite map_length in Hli. unfold upto in Hli. rewrite map_length, seq_length in Hli.
        rewrite Hli. lia. }
      rewrite Elen. repeat split; auto.
    + split. { split; simpl; auto. apply (lt_fin_false L); auto. }
      apply trial_chainR with (k := k); auto.
    + specialize (Htr Hd). constructor; [|constructor]; auto. simpl in *. tauto.
Qed.

Lemma ninv_saver : forall k s, (0 <= k <= N)%Z -> inv p o dt0 t0 k s -> ninv k s ->
  nlt (time s) (T k) = false -> ninv (k + 1) (saver_events p k s).
Proof.
  intros k s Hk Hi [N1 N2 N3 N4 N5 N6 N7] Hlt.
  destruct (FT k Hk) as [Fk _].
  assert (Hhi : val (time s) <= val (T k)).
  { specialize (N3 ltac:(lia)). replace (Z.min k N) with k in N3 by lia. exact N3. }
  assert (Heq : neq (time s) (T k) = true).
  { apply (eq_fin A L); auto. apply (lt_fin_false L) in Hlt; auto. lra. }
  assert (Hnext : (0 <= N)%Z -> val (time s) <= val (T (Z.min (k + 1) N))).
  { intros _. destruct (Z_le_gt_dec (k + 1) N).
    - replace (Z.min (k + 1) N) with (k + 1)%Z by lia.
      apply Rle_trans with (1 := Hhi). apply Tmono; lia.
    - replace (Z.min (k + 1) N) with k by lia. exact Hhi. }
  assert (Hl1 : Forall line_ok (lines (rev (log s) ++ [EvLine k (time s) (nxt s)]))).
  { rewrite lines_app. apply Forall_app. split; auto. repeat constructor. exact Heq. }
  assert (Hc1 : chainR fin_pair (EvLine k (time s) (nxt s) :: log s)).
  { apply chainR_cons; auto. intros e1 l' El. split; simpl.
    - rewrite (head_time k s e1 l' Hi El). apply nlt_irrefl_ev.
    - destruct e1; auto. }
  unfold saver_events. destruct (snapshot_due (save_period p) k).
  - constructor; simpl; auto.
    + rewrite lines_app. simpl. rewrite app_nil_r. exact Hl1.
    + split; auto. split; simpl; auto. apply nlt_irrefl_ev.
    + constructor; [exact I|]. constructor; [exact I|]. exact N7.
  - constructor; simpl; auto. constructor; [exact I|]. exact N7.
Qed.

Lemma ninv_init : forall v0 c0 n0,
  ninv 0 (compute_all o (initial_state p o t0 dt0 v0 c0 n0)).
Proof.
  intros. constructor; simpl; auto.
  - lra.
  - intros H. replace (Z.min 0 N) with 0%Z by lia. rewrite T0 by exact H. lra.
Qed.

Lemma run_ninv : forall fuel v0 c0 n0 s,
  final (time_integration fuel p o t0 dt0 v0 c0 n0) = Some s ->
  Forall line_ok (lines (rev (log s))) /\ no_overshoot (log s) /\ chainR fin_pair (log s) /\
  Forall ev_fin (log s).
Proof.
  intros fuel v0 c0 n0 s Hf.
  destruct (run_tail p o dt0 ninv fuel t0 v0 c0 n0 s Hf (ninv_init v0 c0 n0)) as
    (N' & k & s1 & HN' & Hk & Hi & Hn & Ht & Hst & _).
  - intros N' HN'. replace N' with N by congruence. intros. eapply ninv_attempt; eauto.
  - intros N' HN'. replace N' with N by congruence. intros. eapply ninv_saver; eauto.
  - apply tail_state_events in Ht.
    pose proof Hn as Hn0. destruct Hn0 as [N1 N2 N3 N4 N5 N6 N7].
    remember (log s) as L0 eqn:El. destruct Ht as [|Hlt Hs|Hlt Hs Hd].
    + auto.
    + simpl. split.
      { rewrite lines_app. simpl. rewrite app_nil_r. exact N4. }
      split; auto. split.
      * apply chainR_cons; auto. intros e1 l' El'. split; simpl.
        -- rewrite (head_time k s1 e1 l' Hi El'). apply nlt_irrefl_ev.
        -- destruct e1; auto.
      * constructor; auto. exact I.
    + simpl. split.
      { rewrite lines_app. simpl. rewrite app_nil_r. exact N4. }
      split; auto. split; [apply trial_chainR with (k := k); auto|].
      constructor; auto.
      destruct Hst as [Es|Hk2].
      { exfalso. apply (f_equal (@length _)) in El. rewrite Es in El. simpl in El. lia. }
      assert (Hk' : (0 <= k <= N)%Z) by (rewrite HN in HN'; inversion HN'; subst; lia).
      destruct (accept_time k s1 Hk' Hi Hn Hlt Hd) as (Fd & _ & _ & Hd2). simpl. auto.
Qed.

End Run.

(** targets in terms of t0 and t_step *)
Lemma targets_ok : forall p t0 N, fin t0 -> fin (t_step p) -> 0 <= val (t_step p) ->
  (N <= 2147483648)%Z ->
  ok L (IZR N * val (t_step p)) ->
  ok L (Rabs (val t0) + rnd L (IZR N * val (t_step p))) ->
  (forall k, (0 <= k <= N)%Z -> ok L (rnd L (val t0 + rnd L (IZR k * val (t_step p))) - val t0)) ->
  rnd L 0 = 0 ->
  (forall k, (0 <= k <= N)%Z -> fin (target_time p t0 k) /\ ok L (val (target_time p t0 k) - val t0))
  /\ ((0 <= N)%Z -> val (target_time p t0 0) = val t0)
  /\ (forall k, (0 <= k)%Z -> (k + 1 <= N)%Z ->
       val (target_time p t0 k) <= val (target_time p t0 (k + 1))).
Proof.
  intros p t0 N F0 Fs Hs HN O1 O2 O3 R0.
  assert (HK : forall k, (0 <= k <= N)%Z -> fin (nmul (nZ k) (t_step p)) /\
    val (nmul (nZ k) (t_step p)) = rnd L (IZR k * val (t_step p)) /\
    fin (target_time p t0 k) /\
    val (target_time p t0 k) = rnd L (val t0 + rnd L (IZR k * val (t_step p)))).
  { intros k Hk.
    destruct (int_fin A L k ltac:(lia)) as [Fk Vk].
    assert (0 <= IZR k <= IZR N) by (split; [apply (IZR_le 0)|apply IZR_le]; lia).
    assert (Hp : 0 <= IZR k * val (t_step p) <= IZR N * val (t_step p)).
    { split. { apply Rmult_le_pos; lra. } apply Rmult_le_compat_r; lra. }
    destruct (mul_fin A L (nZ k) (t_step p) Fk Fs) as [Fm Vm].
    { rewrite Vk. apply (ok_mono A L) with (2 := O1). rewrite !Rabs_pos_eq; lra. }
    rewrite Vk in Vm. split; auto. split; auto.
    assert (Hr : 0 <= rnd L (IZR k * val (t_step p)) <= rnd L (IZR N * val (t_step p))).
    { rewrite <- R0 at 1. split; apply (rnd_mono A L); lra. }
    destruct (add_fin A L t0 (nmul (nZ k) (t_step p)) F0 Fm) as [Fa Va].
    { rewrite Vm. apply (ok_mono A L) with (2 := O2).
      apply Rle_trans with (1 := Rabs_triang _ _).
      rewrite (Rabs_pos_eq (rnd L (IZR k * val (t_step p)))) by lra.
      rewrite (Rabs_pos_eq (Rabs (val t0) + rnd L (IZR N * val (t_step p)))).
      - lra.
      - pose proof (Rabs_pos (val t0)). lra. }
    split; auto. unfold target_time. rewrite Va, Vm. reflexivity. }
  split; [|split].
  - intros k Hk. destruct (HK k Hk) as (_ & _ & Hf & Hv). split; auto. rewrite Hv. auto.
  - intros H. destruct (HK 0%Z ltac:(lia)) as (_ & _ & _ & ->).
    rewrite Rmult_0_l, R0, Rplus_0_r. apply (rnd_val A L); auto.
  - intros k Hk1 Hk2. destruct (HK k ltac:(lia)) as (_ & _ & _ & ->).
    destruct (HK (k + 1)%Z ltac:(lia)) as (_ & _ & _ & ->).
    apply (rnd_mono A L). apply Rplus_le_compat_l. apply (rnd_mono A L).
    apply Rmult_le_compat_r; auto. apply IZR_le. lia.
Qed.

End Laws.
