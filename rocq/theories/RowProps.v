(** * What the lines of the output table are made from, and the demagnetizing field a step uses: C102, C103

    The run is that of TimeModel.v: any arithmetic, any solver, potentials, signals and recentering, any point of the
    run. [rows s] is what the lines written so far are made from; the energies of a line are those that Fem::energy
    computed for time [row_et] and configuration [row_ec]. *)
From Coq Require Import Reals ZArith List Bool Lia Lra.
From Flocq Require Import Core BinarySingleNaN.
From Verif Require Import Arith ArithLaws TimeModel TimeSpec TimeProof TimeTerm TimeMain Vec MeshModel RecenterModel TimeProps.
Import ListNotations.

#[local] Opaque propose stepper_call.

Section rows.
Context {A : arith} {C : Type}.
Variables (p : params A) (o : oracles A C) (dt0 t0 v0 : num A) (c0 n0 : C).

Definition table (r : outcome A C) : list (row A C) := match final r with Some s => rev (rows s) | None => [] end.

(** the line was made at the start of the run, from the initial configuration *)
Definition initial_row (w : row A C) : Prop :=
  row_t w = t0 /\ row_et w = t0 /\ row_dt w = dt0 /\ row_dm w = nmul v0 dt0 /\
  row_c w = o_potentials o n0 /\ row_ec w = o_potentials o n0.

(** the line was made just after an accepted step *)
Definition step_row (l : list (event A C)) (w : row A C) : Prop :=
  exists m cu v c, follows l (EvTrial m (row_et w) (row_dt w) cu) (EvAccepted (row_dt w) v (row_t w) c (row_c w)) /\
    row_dm w = nmul v (row_dt w) /\
    (recenter_on p = false -> c = row_ec w /\ row_c w = row_ec w) /\
    (recenter_on p = true -> o_recenter o (row_ec w) (row_ec w) = Some (c, row_c w)) /\
    exists y, row_ec w = o_potentials o y.

Definition row_ok l w := initial_row w \/ step_row l w.

(** the line that would be written in state s *)
Definition row_of (s : state A C) : row A C := mkRow 0%Z (time s) (dt s) (nmul (vmax s) (dt s)) (nxt s) (en_t s) (en_c s).

Definition P (k : Z) (s : state A C) : Prop :=
  Forall (row_ok (rev (log s))) (rows s) /\ map (fun w => (row_k w, row_t w)) (rev (rows s)) = lines (rev (log s)) /\
  (nlt (time s) (target_time p t0 k) = true \/ row_ok (rev (log s)) (row_of s)).

Lemma follows_app : forall (l m : list (event A C)) e1 e2, follows l e1 e2 -> follows (l ++ m) e1 e2.
Proof. intros l m e1 e2 (a & b & ->). exists a, (b ++ m). now rewrite <- app_assoc. Qed.

Lemma row_ok_app : forall l m w, row_ok l w -> row_ok (l ++ m) w.
Proof.
  intros l m w [H|(q & cu & v & c & F & R)]; [left; exact H|]. right. exists q, cu, v, c. split; [|exact R].
  now apply follows_app.
Qed.

Lemma rows_app : forall l m ws, Forall (row_ok l) ws -> Forall (row_ok (l ++ m)) ws.
Proof. intros l m ws H. eapply Forall_impl; [|exact H]. intros w. apply row_ok_app. Qed.

Lemma propose_rows : forall T (s : state A C), rows (propose T s) = rows s.
Proof. intros T s. Transparent propose. unfold propose. destruct (stepper_call _ _). reflexivity. Qed.
#[local] Opaque propose.

Lemma P_init : P 0 (compute_all o (initial_state p o t0 dt0 v0 c0 n0)).
Proof. split; [constructor|]. split; [reflexivity|]. right. left. repeat split. Qed.

Lemma P_attempt : forall k s s', P k s -> nlt (time s) (target_time p t0 k) = true ->
  attempt_spec p o (target_time p t0 k) s (ACont s') -> P k s'.
Proof.
  intros k s s' (F & L & _) Hlt Ha. unfold P. inversion Ha; subst.
  - cbn [solver_failed add_event log rows time]. rewrite propose_log, propose_rows, propose_time. cbn [rev]. rewrite <- !app_assoc.
    split; [apply rows_app, F|]. split; [|left; exact Hlt].
    rewrite L, lines_app. cbn. now rewrite app_nil_r.
  - cbn [too_large solver_done add_event log rows time]. rewrite propose_log, propose_rows, propose_time. cbn [rev]. rewrite <- !app_assoc.
    split; [apply rows_app, F|]. split; [|left; exact Hlt].
    rewrite L, lines_app. cbn. now rewrite app_nil_r.
  - cbn [log_accepted recentered accept compute_all solver_done add_event log rows]. rewrite propose_log, propose_rows. cbn [rev]. rewrite <- !app_assoc.
    split; [apply rows_app, F|]. split. { rewrite L, lines_app. cbn. now rewrite app_nil_r. }
    right. right. unfold step_row, row_of. cbn [log_accepted recentered accept compute_all solver_done add_event row_t row_et row_dt row_dm row_c row_ec time dt vmax cur nxt en_t en_c].
    match goal with H : recenter_on p = false -> _, G : recenter_on p = true -> _ |- _ => rename H into Hoff; rename G into Hon end.
    cbn [accept compute_all solver_done add_event cur nxt] in Hoff, Hon. rewrite !propose_time.
    exists (trials s), (cur s), vm, c'. split.
    { exists (rev (log s)), []. reflexivity. }
    split; [reflexivity|]. split. { intros Hr. destruct (Hoff Hr) as [-> ->]. now split. }
    split; [exact Hon|]. now exists c.
Qed.

Lemma P_saver : forall k s, P k s -> nlt (time s) (target_time p t0 k) = false -> P (k + 1) (saver_events p k s).
Proof.
  intros k s (F & L & R) Hlt. destruct R as [R|R]; [congruence|].
  assert (R' : row_ok (rev (log s)) (mkRow k (time s) (dt s) (nmul (vmax s) (dt s)) (nxt s) (en_t s) (en_c s))) by exact R.
  assert (G : forall m s', log s' = m ++ log s -> rows s' = mkRow k (time s) (dt s) (nmul (vmax s) (dt s)) (nxt s) (en_t s) (en_c s) :: rows s ->
     lines (rev m) = [(k, time s)] -> time s' = time s -> dt s' = dt s -> vmax s' = vmax s -> nxt s' = nxt s -> en_t s' = en_t s -> en_c s' = en_c s -> P (k + 1) s').
  { intros m s' El Er Em E1 E2 E3 E4 E5 E6. unfold P, row_of. rewrite El, Er, E1, E2, E3, E4, E5, E6, rev_app_distr.
    split. { constructor; [apply row_ok_app; exact R'|apply rows_app; exact F]. }
    split. { cbn [rev]. rewrite map_app, L, lines_app, Em. reflexivity. }
    right. apply row_ok_app. exact R. }
  unfold saver_events. destruct (snapshot_due (save_period p) k).
  - apply (G [EvSnapshot k (time s) (nxt s); EvLine k (time s) (nxt s)]); reflexivity.
  - apply (G [EvLine k (time s) (nxt s)]); reflexivity.
Qed.

Lemma run_rows : forall fuel, let r := time_integration fuel p o t0 dt0 v0 c0 n0 in
  map (fun w => (row_k w, row_t w)) (table r) = lines (events r) /\ Forall (row_ok (events r)) (table r).
Proof.
  intros fuel r. unfold table, events. destruct (final r) as [s|] eqn:E; [|split; constructor].
  destruct (run_tail p o dt0 P fuel t0 v0 c0 n0 s E P_init) as (N & k & s1 & _ & _ & _ & (F & L & _) & T & _).
  { intros N _ k s2 s' _ _ H. now apply P_attempt. }
  { intros N _ k s2 _ _ H. now apply P_saver. }
  assert (G : exists m, log s = m ++ log s1 /\ lines (rev m) = [] /\ rows s = rows s1).
  { destruct T as [|s Hl Ha|s Hl Ha|s Hl Ha].
    - exists []. auto.
    - inversion Ha; subst. exists []. rewrite propose_log, propose_rows. auto.
    - inversion Ha; subst. exists [EvAtExit (time s1) (if (0 <? save_period p)%Z then Some (nxt s1) else None)]. auto.
    - inversion Ha; subst. cbn [accept compute_all solver_done add_event log rows]. rewrite propose_log, propose_rows.
      exists [EvTrial (trials s1) (time s1) (dt (propose (target_time p t0 k) s1)) (cur s1)]. auto. }
  destruct G as (m & El & Em & Er). rewrite El, Er, rev_app_distr. split.
  - rewrite L, lines_app, Em. now rewrite app_nil_r.
  - rewrite Forall_forall. intros w Hw. apply in_rev in Hw. apply row_ok_app. rewrite Forall_forall in F. auto.
Qed.
End rows.

Arguments table {A C}.

(** ** C102 *)

(** What every line is made from: either the initial configuration, or the last accepted step. In the second case dt
    and max_dm are those of that step, the averages are those of the configuration it led to, and the energies were
    computed for the time at which that step started. *)
Theorem C102_line_partial : forall (A : arith) C (o : oracles A C) fuel p t0 dt0 v0 c0 n0,
  let r := time_integration fuel p o t0 dt0 v0 c0 n0 in
  map (fun w => (row_k w, row_t w)) (table r) = lines (events r) /\
  forall w, In w (table r) ->
    initial_row o dt0 t0 v0 n0 w \/
    exists m cu v c,
      follows (events r) (EvTrial m (row_et w) (row_dt w) cu) (EvAccepted (row_dt w) v (row_t w) c (row_c w)) /\
      row_dm w = nmul v (row_dt w) /\ (recenter_on p = false -> row_ec w = row_c w).
Proof.
  intros A C o fuel p t0 dt0 v0 c0 n0 r. destruct (run_rows p o dt0 t0 v0 c0 n0 fuel) as [H1 H2]. fold r in H1, H2.
  split; [exact H1|]. intros w Hw. rewrite Forall_forall in H2. destruct (H2 w Hw) as [H|(m & cu & v & c & F & D & N & _)]; [left; exact H|].
  right. exists m, cu, v, c. split; [exact F|]. split; [exact D|]. intros Hr. destruct (N Hr) as [_ H]. now symmetry.
Qed.

(** When the applied field does not change with time, the energies of a line are those of the configuration whose
    averages are on the same line. [view] is what the energies depend on (magnetization and potentials); recentering,
    if it is used, must not change it in the level the averages are taken of, see C102_recenter_view. *)
Theorem C102_energies_partial : forall (A : arith) C V X (view : C -> V) (energy : num A -> V -> X) (o : oracles A C) fuel p t0 dt0 v0 c0 n0,
  (forall t t' c, energy t c = energy t' c) ->
  (recenter_on p = false \/ forall c n c' n', o_recenter o c n = Some (c', n') -> view n' = view n) ->
  forall w, In w (table (time_integration fuel p o t0 dt0 v0 c0 n0)) ->
    energy (row_et w) (view (row_ec w)) = energy (row_t w) (view (row_c w)).
Proof.
  intros A C V X view energy o fuel p t0 dt0 v0 c0 n0 HE HR w Hw.
  destruct (run_rows p o dt0 t0 v0 c0 n0 fuel) as [_ H2]. rewrite Forall_forall in H2.
  destruct (H2 w Hw) as [(H3 & H4 & _ & _ & H5 & H6)|(m & cu & v & c & _ & _ & Off & On & _)].
  - now rewrite H3, H4, H5, H6.
  - rewrite (HE (row_et w) (row_t w)). f_equal. destruct (recenter_on p) eqn:Er.
    + destruct HR as [HR|HR]; [discriminate|]. symmetry. eapply HR. apply On. reflexivity.
    + destruct (Off eq_refl) as [_ H]. now rewrite H.
Qed.

(** The first line is made from the initial configuration, for the initial time, whatever the field. *)
Theorem C102_first_line : forall (A : arith) C (o : oracles A C) fuel p t0 dt0 v0 c0 n0,
  nlt t0 (target_time p t0 0) = false ->
  forall w, In w (table (time_integration fuel p o t0 dt0 v0 c0 n0)) -> row_k w = 0%Z -> initial_row o dt0 t0 v0 n0 w.
Proof.
  intros A C o fuel p t0 dt0 v0 c0 n0 H0 w Hw Hk. unfold table in Hw.
  destruct (final (time_integration fuel p o t0 dt0 v0 c0 n0)) as [s|] eqn:E; [|contradiction]. apply in_rev in Hw.
  set (s0 := compute_all o (initial_state p o t0 dt0 v0 c0 n0)).
  set (Q := fun k (s : state A C) => (0 <= k)%Z /\ (k = 0%Z -> s = s0) /\ Forall (fun w => row_k w = 0%Z -> initial_row o dt0 t0 v0 n0 w) (rows s)).
  destruct (run_tail p o dt0 Q fuel t0 v0 c0 n0 s E) as (N & k & s1 & _ & _ & _ & (_ & _ & F) & T & _).
  { split; [lia|]. split; [reflexivity|constructor]. }
  { intros N _ k s2 s' Hk' _ (K1 & K2 & K3) Hlt Ha. split; [lia|]. split.
    - intros ->. exfalso. rewrite (K2 eq_refl) in Hlt. unfold s0 in Hlt. cbn [compute_all initial_state time] in Hlt. congruence.
    - inversion Ha; subst; cbn [solver_failed too_large log_accepted recentered accept compute_all solver_done add_event rows]; rewrite propose_rows; exact K3. }
  { intros N _ k s2 Hk' _ (K1 & K2 & K3) Hlt. split; [lia|]. split; [lia|].
    unfold saver_events. assert (G : Forall (fun w => row_k w = 0%Z -> initial_row o dt0 t0 v0 n0 w)
       (mkRow k (time s2) (dt s2) (nmul (vmax s2) (dt s2)) (nxt s2) (en_t s2) (en_c s2) :: rows s2)).
    { constructor; [|exact K3]. cbn [row_k]. intros ->. rewrite (K2 eq_refl). repeat split. }
    destruct (snapshot_due (save_period p) k); exact G. }
  rewrite Forall_forall in F. apply F; [|exact Hk].
  destruct T as [|s Hl Ha|s Hl Ha|s Hl Ha]; [exact Hw| | |]; inversion Ha; subst; revert Hw;
    cbn [at_exit accept compute_all solver_done add_event rows]; rewrite ?propose_rows; auto.
Qed.

Local Open Scope R_scope.

(** A line that follows a step was given the energies of an earlier time than its own, and its max_dm is at most max(du).
    Exact arithmetic. *)
Theorem C102_energy_time_refuted : forall C (o : oracles XA C) fuel (p : params XA) t0 dt0 v0 c0 n0 dmin,
  DTMIN p = (Fin dmin : num XA) -> 0 < dmin -> real_params p t0 ->
  forall w, In w (table (time_integration fuel p o t0 dt0 v0 c0 n0)) ->
    initial_row o dt0 t0 v0 n0 w \/ row_et w <> row_t w.
Proof.
  intros C o fuel p t0 dt0 v0 c0 n0 dmin Hm Hpos Hp w Hw.
  destruct (C102_line_partial XA C o fuel p t0 dt0 v0 c0 n0) as [HL H].
  assert (Hx : exists x, row_t w = (Fin x : num XA)).
  { destruct (step_count p t0) as [N|] eqn:HN.
    2: { apply (run_undefined p o dt0 fuel t0 v0 c0 n0) in HN. rewrite HN in Hw. contradiction. }
    destruct (C01_output_times_exact C o fuel p t0 dt0 v0 c0 n0 N Hp HN) as (_ & _ & G & _).
    rewrite (G (row_k w) (row_t w)). 2: { rewrite <- HL. apply (in_map (fun w => (row_k w, row_t w))) in Hw. exact Hw. }
    destruct Hp as ((a & ->) & (b & -> & _) & _). eexists. reflexivity. }
  destruct Hx as (x & Hx).
  destruct (H w Hw) as [H1|(m & cu & v & c & F & _)]; [left; exact H1|]. right.
  pose proof (run_chain p o dt0 fuel t0 v0 c0 n0 _ _ F) as (_ & _ & (T & HT & Ht) & _).
  assert (Hd : nlt (row_dt w) (DTMIN p) = false).
  { apply (run_events p o dt0 fuel t0 v0 c0 n0 (EvTrial m (row_et w) (row_dt w) cu)).
    destruct F as (l1 & l2 & ->). apply in_or_app. right. left. reflexivity. }
  intros Ee. rewrite Hm in Hd. rewrite Ee, Hx in *. destruct (neq (row_dt w) (nsub T (Fin x : num XA))).
  - rewrite <- Ht in HT. cbn in HT. rewrite Rlt_bool_false in HT by lra. discriminate.
  - destruct (row_dt w) as [y| | |]; cbn in Ht, Hd; try discriminate.
    destruct (Rlt_bool_spec y dmin); [discriminate|]. inversion Ht. lra.
Qed.

(** max_dm never exceeds max(du) on a line that follows a step *)
Theorem C102_max_dm : forall C (o : oracles XA C) fuel p t0 dt0 v0 c0 n0,
  forall w, In w (table (time_integration fuel p o t0 dt0 v0 c0 n0)) ->
    initial_row o dt0 t0 v0 n0 w \/ nlt (DUMAX p) (row_dm w) = false.
Proof.
  intros C o fuel p t0 dt0 v0 c0 n0 w Hw.
  destruct (C102_line_partial XA C o fuel p t0 dt0 v0 c0 n0) as [_ H].
  destruct (H w Hw) as [H1|(m & cu & v & c & F & D & _)]; [left; exact H1|]. right.
  pose proof (run_chain p o dt0 fuel t0 v0 c0 n0 _ _ F) as (_ & Hd & _). rewrite D.
  replace (nmul v (row_dt w)) with (nmul (row_dt w) v); [exact Hd|].
  destruct v as [x| | |]; destruct (row_dt w) as [y| | |]; cbn; try reflexivity. f_equal. ring.
Qed.

(** Recentering keeps, in the level of which the averages are taken, the magnetizations and the potentials, on which
    alone the energies depend; it sets the velocities to zero when it moves the wall. *)
Lemma map_nth_seq : forall {X Y} (f : X -> Y) (d : X) (l : list X), map (fun i => f (nth i l d)) (seq 0 (length l)) = map f l.
Proof.
  intros X Y f d l. induction l as [|x l IH]; [reflexivity|]. cbn [length seq map nth]. f_equal. rewrite <- seq_shift, map_map. exact IH.
Qed.

Theorem C102_recenter_view : forall c l nearest avg pos thres dir cur nxt cur' nxt',
  recenter_levels c l nearest avg pos thres dir cur nxt = Some (Some (cur', nxt')) ->
  map (fun n => (l_u n, l_phi n)) nxt' = map (fun n => (l_u n, l_phi n)) nxt.
Proof.
  intros c l nearest avg pos thres dir cur nxt cur' nxt' H. unfold recenter_levels in H.
  destruct (recenter c l nearest (avg nxt) (rnodes pos cur nxt) thres dir) as [| | |ns]; try discriminate.
  - inversion H. reflexivity.
  - assert (E : nxt' = map (fun i => let n := nth i nxt dlnode in mkL (l_u n) (rn_v (nth i ns dnode)) (l_phi n)) (seq 0 (length nxt))) by (injection H as _ H2; symmetry; exact H2).
    rewrite E, map_map. cbn [l_u l_phi]. exact (map_nth_seq (fun n => (l_u n, l_phi n)) dlnode nxt).
Qed.

(** ** C103: the demagnetizing field that a step uses *)
Section start.
Context {A : arith} {C : Type}.
Variables (p : params A) (o : oracles A C) (dt0 t0 v0 : num A) (c0 n0 : C).

(** how the configuration a step starts from was obtained *)
Definition start_ok (c : C) : Prop :=
  exists y, c = o_potentials o y \/
    (recenter_on p = true /\ exists n, o_recenter o (o_potentials o y) (o_potentials o y) = Some (c, n)).
Definition trial_ok (e : event A C) : Prop := match e with EvTrial _ _ _ c => start_ok c | _ => True end.

Lemma run_start : forall fuel e, In e (events (time_integration fuel p o t0 dt0 v0 c0 n0)) -> trial_ok e.
Proof.
  intros fuel e He. unfold events in He.
  destruct (final (time_integration fuel p o t0 dt0 v0 c0 n0)) as [s|] eqn:E; [|contradiction]. apply in_rev in He.
  set (Q := fun (_ : Z) (s : state A C) => start_ok (cur s) /\ Forall trial_ok (log s)).
  destruct (run_tail p o dt0 Q fuel t0 v0 c0 n0 s E) as (N & k & s1 & _ & _ & _ & (S1 & F) & T & _).
  { split; [|constructor]. exists n0. left. reflexivity. }
  { intros N _ k s2 s' _ _ (K1 & K2) Hlt Ha. inversion Ha; subst.
    - split; cbn [solver_failed add_event cur log]; rewrite ?propose_cur, ?propose_log; [exact K1|].
      constructor; [exact I|]. constructor; [exact K1|exact K2].
    - split; cbn [too_large solver_done add_event cur log]; rewrite ?propose_cur, ?propose_log; [exact K1|].
      constructor; [exact I|]. constructor; [exact K1|exact K2].
    - match goal with H : recenter_on p = false -> _, G : recenter_on p = true -> _ |- _ => rename H into Hoff; rename G into Hon end.
      split; cbn [log_accepted recentered accept compute_all solver_done add_event cur log] in *; rewrite ?propose_log.
      + exists c. destruct (recenter_on p); [right; split; [reflexivity|]; exists n'; auto|left]. now destruct Hoff.
      + constructor; [exact I|]. constructor; [exact K1|exact K2]. }
  { intros N _ k s2 _ _ (K1 & K2) Hlt. unfold saver_events.
    destruct (snapshot_due (save_period p) k); (split; [exact K1|]); cbn [write_row add_event log]; repeat (constructor; [exact I|]); exact K2. }
  assert (G : Forall trial_ok (log s)).
  { destruct T as [|s Hl Ha|s Hl Ha|s Hl Ha]; [exact F| | |]; inversion Ha; subst;
      cbn [at_exit accept compute_all solver_done add_event log]; rewrite ?propose_log; repeat (constructor; [first [exact I|exact S1]|]); exact F. }
  rewrite Forall_forall in G. auto.
Qed.
End start.

(** Without recentering, every trial step starts from a configuration whose potentials have been computed for it. *)
Theorem C103_potentials_partial : forall (A : arith) C (o : oracles A C) fuel p t0 dt0 v0 c0 n0,
  recenter_on p = false ->
  forall m t d c, In (EvTrial m t d c) (events (time_integration fuel p o t0 dt0 v0 c0 n0)) -> exists y, c = o_potentials o y.
Proof.
  intros A C o fuel p t0 dt0 v0 c0 n0 Hr m t d c Hc. destruct (run_start p o dt0 t0 v0 c0 n0 fuel _ Hc) as (y & [H|[H _]]); [now exists y|congruence].
Qed.

(** With recentering, the potentials are those of the configuration before the shift: [phi_of] are the potentials that
    calc_demag computes for given magnetizations. *)
Theorem C103_stale_potentials : forall (A : arith) (o : oracles A (list lnode)) fuel p t0 dt0 v0 c0 n0 cc ll nearest avg pos thres dir phi_of,
  let levels := recenter_levels cc ll nearest avg pos thres dir in
  (forall c n r, levels c n = Some r -> o_recenter o c n = r) ->
  (forall c, map l_u (o_potentials o c) = map l_u c /\ map l_phi (o_potentials o c) = phi_of (map l_u c)) ->
  forall m t d c, In (EvTrial m t d c) (events (time_integration fuel p o t0 dt0 v0 c0 n0)) ->
    exists y,
      (map l_u c = map l_u y /\ map l_phi c = phi_of (map l_u c)) \/
      (recenter_on p = true /\
       (levels y y = None \/
        (map l_phi c = phi_of (map l_u y) /\ exists D, forall i, (i < length pos)%nat -> (i < length y)%nat ->
          l_u (nth i c dlnode) = rn_u (nth (nearest (shifted cc ll (dir_of_char dir) D (nth i pos vzero))) (rnodes pos y y) dnode)))).
Proof.
  intros A o fuel p t0 dt0 v0 c0 n0 cc ll nearest avg pos thres dir phi_of levels HR HP m t d c Hc.
  destruct (run_start p o dt0 t0 v0 c0 n0 fuel _ Hc) as (y & [H|(Hr & n & H)]).
  - exists y. left. rewrite H. destruct (HP y) as [-> ->]. auto.
  - destruct (HP y) as [Hu Hphi]. rewrite <- Hu in Hphi. revert H Hphi. generalize (o_potentials o y) as w. clear Hu y. intros w H Hphi. exists w.
    destruct (levels w w) as [r|] eqn:El; [|right; auto].
    pose proof (HR w w r El) as E. rewrite H in E. subst r. unfold levels, recenter_levels in El.
    destruct (recenter cc ll nearest (avg w) (rnodes pos w w) thres dir) as [| | |ns] eqn:Er; try discriminate.
    + left. inversion El; subst. auto.
    + right. split; [exact Hr|]. right.
      assert (Ec : c = map (fun i => let n := nth i w dlnode in mkL (rn_u0 (nth i ns dnode)) (l_v n) (l_phi n)) (seq 0 (length w))) by (injection El as E1 _; symmetry; exact E1).
      rewrite Ec. split.
      { rewrite map_map. cbn [l_phi]. rewrite (map_nth_seq l_phi dlnode w). exact Hphi. }
      unfold recenter in Er. destruct (Rlt_bool _ _); [discriminate|].
      assert (G : exists D, ns = map (recenter_node cc ll nearest (rnodes pos w w) (dir_of_char dir) D) (rnodes pos w w)).
      { destruct (node_u _ (nearest (left_pt _ _ _))) as [uL|]; [|discriminate].
        destruct (node_u _ (nearest (right_pt _ _ _))) as [uR|].
        - destruct (Rlt_bool _ _); [discriminate|]. inversion Er. eexists. reflexivity.
        - inversion Er. eexists. reflexivity. }
      destruct G as (D & ->). exists D. intros i Hi Hi'.
      rewrite (nth_indep _ dlnode (let n := nth 0 w dlnode in mkL (rn_u0 (nth 0 (map (recenter_node cc ll nearest (rnodes pos w w) (dir_of_char dir) D) (rnodes pos w w)) dnode)) (l_v n) (l_phi n)))
        by (rewrite map_length, seq_length; exact Hi').
      rewrite (map_nth (fun i => let n := nth i w dlnode in mkL (rn_u0 (nth i (map (recenter_node cc ll nearest (rnodes pos w w) (dir_of_char dir) D) (rnodes pos w w)) dnode)) (l_v n) (l_phi n))).
      rewrite seq_nth by exact Hi'. cbn [l_u Nat.add].
      assert (Li : (i < length (rnodes pos w w))%nat) by (unfold rnodes; rewrite map_length, seq_length; exact Hi).
      rewrite (nth_indep _ dnode (recenter_node cc ll nearest (rnodes pos w w) (dir_of_char dir) D dnode)) by (rewrite map_length; exact Li).
      rewrite map_nth. unfold recenter_node. cbn [rn_u0]. unfold node_u. f_equal. f_equal. f_equal. f_equal.
      unfold rnodes. rewrite (nth_indep _ dnode (mkR (nth 0 pos vzero) (l_u (nth 0 w dlnode)) (l_u (nth 0 w dlnode)) (l_v (nth 0 w dlnode)))) by (rewrite map_length, seq_length; exact Hi).
      rewrite (map_nth (fun i => mkR (nth i pos vzero) (l_u (nth i w dlnode)) (l_u (nth i w dlnode)) (l_v (nth i w dlnode)))).
      rewrite seq_nth by exact Hi. reflexivity.
Qed.

(** oracles that meet these hypotheses: the potential of a node is, say, its vertical magnetization *)
Definition uz (u : option vec) : R := match u with Some w => vz w | None => 0 end.
Definition level_oracles (cc ll : vec) nearest avg pos thres dir : oracles B64 (list lnode) := @mkOracles B64 (list lnode)
  (fun _ => false) (fun _ c _ _ _ => (Some c, b64_of 1 (-4)))
  (fun c => map (fun n => mkL (l_u n) (l_v n) (uz (l_u n))) c)
  (fun c n => match recenter_levels cc ll nearest avg pos thres dir c n with Some r => r | None => None end).
Example C103_stale_nonvacuous : forall cc ll nearest avg pos thres dir,
  let o := level_oracles cc ll nearest avg pos thres dir in
  (forall c n r, recenter_levels cc ll nearest avg pos thres dir c n = Some r -> o_recenter o c n = r) /\
  (forall c, map l_u (o_potentials o c) = map l_u c /\ map l_phi (o_potentials o c) = map uz (map l_u c)).
Proof.
  intros cc ll nearest avg pos thres dir o. split.
  - intros c n r H. cbn. now rewrite H.
  - intros c. cbn. rewrite !map_map. cbn [l_u l_phi]. auto.
Qed.

(** A run with recentering in which a step starts from a configuration whose potentials are those of another one. A
    configuration is the pair of its magnetization and of the magnetization its potentials were computed for. As in the
    code (C103_stale_potentials), recentering replaces the magnetization of CURRENT and nothing else of it. *)
Definition pair_oracles : oracles B64 (nat * nat) := @mkOracles B64 (nat * nat)
  (fun _ => false) (fun n _ _ _ _ => (Some (10 * n, 0)%nat, b64_of 1 (-4)))
  (fun c => (fst c, fst c)) (fun c n => Some ((S (fst n), snd c), n)).
Definition pair_params : params B64 := @mkParams B64
  (b64_of 1 (-10)) (b64_of 1 (-3)) (b64_of 1 0) (b64_of 1 (-6)) (b64_of 1 (-2)) 2 true.
Definition stale (e : event B64 (nat * nat)) : bool := match e with EvTrial _ _ _ c => negb (Nat.eqb (fst c) (snd c)) | _ => false end.
Theorem C103_recenter_refuted : exists m t d c,
  In (EvTrial m t d c) (events (time_integration 40 pair_params pair_oracles (b64_of 0 0) ex_dt0 n0 (0, 0)%nat (0, 0)%nat)) /\
  c <> o_potentials pair_oracles c.
Proof.
  assert (H : existsb stale (events (time_integration 40 pair_params pair_oracles (b64_of 0 0) ex_dt0 n0 (0, 0)%nat (0, 0)%nat)) = true) by (vm_compute; reflexivity).
  revert H. generalize (events (time_integration 40 pair_params pair_oracles (b64_of 0 0) ex_dt0 n0 (0, 0)%nat (0, 0)%nat)). intros l H.
  apply existsb_exists in H. destruct H as (e & He & Hs). destruct e as [m t d c| | | | | |]; try discriminate.
  exists m, t, d, c. split; [exact He|]. destruct c as [a b]. unfold stale in Hs. cbn [fst snd] in Hs.
  change (o_potentials pair_oracles (a, b)) with (a, a). intros E. injection E as ->. now rewrite Nat.eqb_refl in Hs.
Qed.

(** ** Concrete cases of C102: the run of TimeProps.v, where the third line is made after steps *)
Definition moved (w : row B64 nat) : bool := negb (neq (row_et w) (row_t w)).
Example C102_nonvacuous : length (table ex_run) = 5%nat /\ length (filter moved (table ex_run)) = 4%nat /\
  forallb (fun w => Nat.eqb (row_c w) (row_ec w)) (table ex_run) = true.
Proof. vm_compute. repeat split. Qed.
Example C102_first_nonvacuous : nlt (b64_of 0 0 : num B64) (target_time ex_params (b64_of 0 0) 0) = false.
Proof. vm_compute. reflexivity. Qed.
Example C102_real_nonvacuous : DTMIN ex_xparams = (Fin (1 / 1024) : num XA) /\ 0 < 1 / 1024 /\ real_params ex_xparams (Fin 0 : num XA).
Proof. split; [reflexivity|]. split; [lra|exact ex_real_params]. Qed.
Example C103_nonvacuous : existsb (fun e => match e with EvTrial _ _ _ _ => true | _ => false end) (events ex_run) = true.
Proof. vm_compute. reflexivity. Qed.

Print Assumptions C102_line_partial.
Print Assumptions C102_energies_partial.
Print Assumptions C102_first_line.
Print Assumptions C102_energy_time_refuted.
Print Assumptions C102_max_dm.
Print Assumptions C102_recenter_view.
Print Assumptions C103_potentials_partial.
Print Assumptions C103_stale_potentials.
Print Assumptions C103_recenter_refuted.
