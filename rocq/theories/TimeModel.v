(** * Model of the adaptive time loop

    /repo/src/time_integration.cpp, /repo/src/time_integration.h, the parts of /repo/src/fem.h,
    /repo/src/node.h and /repo/src/save.cpp it drives. Definitions only. *)

From Coq Require Import ZArith List Bool.
From Verif Require Import Arith.
Import ListNotations.

Section Time.
Context {A : arith}.

(** ** class TimeStepper: time_integration.cpp lines 11-38 *)
Record stepper := mkStepper {
  hard_min : num A;    (* line 13 *)
  hard_max : num A;    (* line 14 *)
  soft_max : num A     (* line 15 *)
}.

(** [1 + FLT_EPSILON]: the int 1 is converted to float, the sum 1 + 2^-23 is exact in float and is
    then converted to double without error. time_integration.cpp line 19 *)
Definition one_plus_flt_epsilon : num A := nlit 8388609 8388608.

(** constructor, time_integration.cpp lines 18-21 *)
Definition stepper_new (initial mn mx : num A) : stepper :=
  {| hard_min := mn; hard_max := nmul mx one_plus_flt_epsilon; soft_max := initial |}.

(** [set_soft_limit], time_integration.cpp line 24 *)
Definition set_soft_limit (st : stepper) (mx : num A) : stepper :=
  {| hard_min := hard_min st; hard_max := hard_max st; soft_max := std_min (soft_max st) mx |}.

(** [operator()], time_integration.cpp lines 28-37: returns the step and the updated stepper *)
Definition stepper_call (st : stepper) (stride : num A) : num A * stepper :=
  let step := std_min stride (soft_max st) in
  let margin := nsub stride (nmul (nZ 2) (hard_min st)) in
  let step := if nlt margin step && nlt step stride then margin else step in
  let soft := std_max (soft_max st) (std_min (nmul step (nlit 11 10)) (hard_max st)) in
  (step, {| hard_min := hard_min st; hard_max := hard_max st; soft_max := soft |}).

(** ** class timing: time_integration.h lines 6-59
    The member [prefactor] is a function of [dt] and TAUR only (line 41); it is used by the element
    integrals, not by the loop, so it is not part of this state. *)
Record params := mkParams {
  DTMIN : num A;         (* time_integration.h line 21 *)
  DTMAX : num A;         (* time_integration.h line 24 *)
  p_tf : num A;          (* time_integration.h line 18 *)
  DUMAX : num A;         (* settings.DUMAX *)
  t_step : num A;        (* settings.time_step *)
  save_period : Z;       (* settings.save_period *)
  recenter_on : bool     (* settings.recenter *)
}.

(** initial dt of the constructor, time_integration.h line 14 *)
Definition timing_initial_dt (dtmin dtmax : num A) : num A := nsqrt (nmul dtmin dtmax).

(** [is_dt_TooSmall], time_integration.h line 45 *)
Definition is_dt_too_small (p : params) (dt : num A) : bool := nlt dt (DTMIN p).

(** ** Observable events of a run. [C] is the type of the contents of one time level of all nodes
    (magnetization, velocity, potentials): node.h [d[CURRENT]] or [d[NEXT]]. *)
Context {C : Type}.

Inductive event :=
| EvTrial (n : nat) (t dt : num A) (cur : C)
    (** the n-th trial step is started from time t and reference configuration cur *)
| EvSolverFailed (dt t : num A) (cur : C)
    (** the linear solver reported an error: time and reference configuration afterwards *)
| EvTooLarge (dt vmax t : num A) (cur : C)
    (** the trial is refused because dumax > DUMAX: time and reference afterwards *)
| EvAccepted (dt vmax t : num A) (cur nxt : C)
    (** the trial is accepted: time and configurations afterwards *)
| EvLine (k : Z) (t : num A) (nxt : C)
    (** a line is written to the .evol file *)
| EvSnapshot (k : Z) (t : num A) (nxt : C)
    (** <base>_iter<k>.sol is written *)
| EvAtExit (t : num A) (saved : option C).
    (** a termination signal was noticed; what is saved in <base>_at_exit.sol *)

(** What a line of the .evol file is made from (save.cpp lines 13-144): its number, the time, dt,
    vmax * dt, time level NEXT, of which the averages and the maximum angle
    are taken (node.h lines 157-162, mesh.h line 156), and the
    time and configuration given to the last call of Fem::energy, whose results are the columns E_ex,
    E_aniso, E_demag, E_zeeman and E_tot. *)
Record row := mkRow {
  row_k : Z; row_t : num A; row_dt : num A; row_dm : num A; row_c : C; row_et : num A; row_ec : C
}.

(** State of the loop. [trials] counts the passes of the inner loop (ghost: it only indexes the
    oracles). [flag], [nt], [vmax] as in the code; [good_dt], [bad_dt] are the samples given to the
    statistics, latest first; [log] are the events so far, latest first. *)
Record state := mkState {
  time : num A;
  dt : num A;
  stp : stepper;
  cur : C;
  nxt : C;
  vmax : num A;
  nt : Z;
  flag : Z;
  trials : nat;
  good_dt : list (num A);
  good_dumax : list (num A);
  bad_dt : list (num A);
  log : list event;
  en_t : num A;     (* ghost: the argument t of the last call of Fem::energy *)
  en_c : C;         (* ghost: level NEXT at the last call of Fem::energy *)
  rows : list row   (* what the lines written so far are made from, latest first *)
}.

(** Everything outside the loop. *)
Record oracles := mkOracles {
  (** value of [received_signal] at the n-th check (main.cpp sets it asynchronously) *)
  o_signal : nat -> bool;
  (** base_projection + prepareElements + LinAlgebra::solve + get_v_max (lines 193-206) on the n-th
      trial, from the two time levels, the time and dt: [None] is an error (which changes no node,
      see the model of LinAlgebra::solve), [Some c] the new contents of level NEXT; and v_max *)
  o_solve : nat -> C -> C -> num A -> num A -> option C * num A;
  (** calc_demag (fem.h, fmm_demag.h line 96): fills the potentials of level NEXT *)
  o_potentials : C -> C;
  (** Fem::recenter: [None] is exit(1), [Some (cur, nxt)] the two levels afterwards *)
  o_recenter : C -> C -> option (C * C)
}.

(** Fem::compute_all, fem.h: calc_demag then energies then evolution (CURRENT := NEXT for all nodes).
    The spin accumulation solver and the energies do not touch the two levels; the energies are those
    of level NEXT at time [t_prm.get_t()]. *)
Definition compute_all (o : oracles) (s : state) : state :=
  let c := o_potentials o (nxt s) in
  {| time := time s; dt := dt s; stp := stp s; cur := c; nxt := c; vmax := vmax s; nt := nt s;
     flag := flag s; trials := trials s; good_dt := good_dt s; good_dumax := good_dumax s;
     bad_dt := bad_dt s; log := log s; en_t := time s; en_c := c; rows := rows s |}.

Definition add_event (e : event) (s : state) : state :=
  {| time := time s; dt := dt s; stp := stp s; cur := cur s; nxt := nxt s; vmax := vmax s;
     nt := nt s; flag := flag s; trials := trials s; good_dt := good_dt s;
     good_dumax := good_dumax s; bad_dt := bad_dt s; log := e :: log s; en_t := en_t s; en_c := en_c s; rows := rows s |}.

Inductive attempt_result :=
| ACont (s : state)        (* go back to the loop condition *)
| AAbort (s : state)       (* dt < DTMIN: goto bailout *)
| ASignal (s : state)      (* the program re-raises the signal *)
| AExit (s : state).       (* exit(1) *)

(** exit_if_signal_received, time_integration.cpp lines 101-134: [savesol] writes level NEXT *)
Definition at_exit (p : params) (s : state) : state :=
  add_event (EvAtExit (time s) (if (0 <? save_period p)%Z then Some (nxt s) else None)) s.

(** time_integration.cpp lines 174-175, up to the verbose messages: propose a step *)
Definition propose (target : num A) (s : state) : state :=
  let '(d, st) := stepper_call (stp s) (nsub target (time s)) in
  {| time := time s; dt := d; stp := st; cur := cur s; nxt := nxt s; vmax := vmax s; nt := nt s;
     flag := flag s; trials := S (trials s); good_dt := good_dt s; good_dumax := good_dumax s;
     bad_dt := bad_dt s; log := log s; en_t := en_t s; en_c := en_c s; rows := rows s |}.

(** time_integration.cpp lines 206-214: the solver failed *)
Definition solver_failed (vm : num A) (s : state) : state :=
  {| time := time s; dt := dt s; stp := set_soft_limit (stp s) (ndiv (dt s) (nZ 2));
     cur := cur s; nxt := nxt s; vmax := vm; nt := nt s; flag := (flag s + 1)%Z;
     trials := trials s; good_dt := good_dt s; good_dumax := good_dumax s;
     bad_dt := dt s :: bad_dt s; log := EvSolverFailed (dt s) (time s) (cur s) :: log s;
     en_t := en_t s; en_c := en_c s; rows := rows s |}.

(** time_integration.cpp lines 206, 216-224: the solver succeeded and wrote level NEXT *)
Definition solver_done (p : params) (c : C) (vm : num A) (s : state) : state :=
  {| time := time s; dt := dt s;
     stp := set_soft_limit (stp s) (nmul (ndiv (DUMAX p) vm) (nlit 95 100));
     cur := cur s; nxt := c; vmax := vm; nt := nt s; flag := flag s; trials := trials s;
     good_dt := dt s :: good_dt s; good_dumax := nmul (dt s) vm :: good_dumax s;
     bad_dt := bad_dt s; log := log s; en_t := en_t s; en_c := en_c s; rows := rows s |}.

(** time_integration.cpp lines 225-229: dumax > DUMAX *)
Definition too_large (s : state) : state :=
  {| time := time s; dt := dt s; stp := stp s; cur := cur s; nxt := nxt s; vmax := vmax s;
     nt := nt s; flag := (flag s + 1)%Z; trials := trials s; good_dt := good_dt s;
     good_dumax := good_dumax s; bad_dt := bad_dt s;
     log := EvTooLarge (dt s) (vmax s) (time s) (cur s) :: log s;
     en_t := en_t s; en_c := en_c s; rows := rows s |}.

(** time_integration.cpp lines 231-239: the trial is accepted. [last_step] was computed on line 175 *)
Definition accept (o : oracles) (target : num A) (last_step : bool) (s : state) : state :=
  let s := compute_all o s in
  {| time := if last_step then target else nadd (time s) (dt s);
     dt := dt s; stp := stp s; cur := cur s; nxt := nxt s; vmax := vmax s; nt := (nt s + 1)%Z;
     flag := 0%Z; trials := trials s; good_dt := good_dt s; good_dumax := good_dumax s;
     bad_dt := bad_dt s; log := log s; en_t := en_t s; en_c := en_c s; rows := rows s |}.

(** time_integration.cpp line 241 *)
Definition recentered (c n : C) (s : state) : state :=
  {| time := time s; dt := dt s; stp := stp s; cur := c; nxt := n; vmax := vmax s; nt := nt s;
     flag := flag s; trials := trials s; good_dt := good_dt s; good_dumax := good_dumax s;
     bad_dt := bad_dt s; log := log s; en_t := en_t s; en_c := en_c s; rows := rows s |}.

Definition log_accepted (s : state) : state :=
  add_event (EvAccepted (dt s) (vmax s) (time s) (cur s) (nxt s)) s.

(** Body of the inner loop, time_integration.cpp lines 172-244 (messages and max_angle left out). *)
Definition attempt (p : params) (o : oracles) (target : num A) (s : state) : attempt_result :=
  if o_signal o (trials s) then ASignal (at_exit p s)
  else
    let n := trials s in
    let s := propose target s in
    let last_step := neq (dt s) (nsub target (time s)) in
    if is_dt_too_small p (dt s) then AAbort s
    else
      let s := add_event (EvTrial n (time s) (dt s) (cur s)) s in
      match o_solve o n (cur s) (nxt s) (time s) (dt s) with
      | (None, vm) => ACont (solver_failed vm s)
      | (Some c, vm) =>
          let s := solver_done p c vm s in
          if nlt (DUMAX p) (nmul (dt s) vm) then ACont (too_large s)
          else
            let s := accept o target last_step s in
            if recenter_on p then
              match o_recenter o (cur s) (nxt s) with
              | None => AExit s
              | Some (c', n') => ACont (log_accepted (recentered c' n' s))
              end
            else ACont (log_accepted s)
      end.

Inductive inner_result :=
| IDone (s : state)
| IAbort (s : state)
| ISignal (s : state)
| IExit (s : state)
| IFuel (s : state).

(** [while (t < t_target)], time_integration.cpp lines 170-245; [fuel] bounds the passes and running
    out of it is a distinct result. *)
Fixpoint inner (fuel : nat) (p : params) (o : oracles) (target : num A) (s : state)
  : inner_result :=
  if nlt (time s) target then
    match fuel with
    | O => IFuel s
    | S f =>
        match attempt p o target s with
        | ACont s' => inner f p o target s'
        | AAbort s' => IAbort s'
        | ASignal s' => ISignal s'
        | AExit s' => IExit s'
        end
    end
  else IDone s.

(** The decision of Fem::saver to write a snapshot, save.cpp lines 146-161: [save_period] non-zero and
    [nt % save_period == 0]; C++ [%] truncates, which is [Z.rem]. *)
Definition snapshot_due (period k : Z) : bool :=
  negb (period =? 0)%Z && (Z.rem k period =? 0)%Z.

(** the values of the columns, save.cpp lines 55-144 *)
Definition write_row (k : Z) (s : state) : state :=
  {| time := time s; dt := dt s; stp := stp s; cur := cur s; nxt := nxt s; vmax := vmax s;
     nt := nt s; flag := flag s; trials := trials s; good_dt := good_dt s;
     good_dumax := good_dumax s; bad_dt := bad_dt s; log := log s; en_t := en_t s; en_c := en_c s;
     rows := mkRow k (time s) (dt s) (nmul (vmax s) (dt s)) (nxt s) (en_t s) (en_c s) :: rows s |}.

(** Fem::saver as seen by the loop, save.cpp lines 13-162: one line, then possibly a snapshot. *)
Definition saver_events (p : params) (k : Z) (s : state) : state :=
  let s := write_row k (add_event (EvLine k (time s) (nxt s)) s) in
  if snapshot_due (save_period p) k then add_event (EvSnapshot k (time s) (nxt s)) s else s.

(** output time number k, time_integration.cpp line 168 *)
Definition target_time (p : params) (t_initial : num A) (k : Z) : num A :=
  nadd t_initial (nmul (nZ k) (t_step p)).

Inductive outcome :=
| Returned (status : Z) (s : state)   (* time_integration returned status *)
| Signalled (s : state)               (* the process was terminated by re-raising the signal *)
| Exited (s : state)                  (* exit(1) from recenter *)
| Running (s : state)                 (* fuel exhausted: the run is still going *)
| Undefined.                          (* conversion of an out of range double to int *)

(** [for (step_nb = k; step_nb <= step_count; step_nb++)], time_integration.cpp lines 166-247, with
    [n] = number of remaining values of step_nb. *)
Fixpoint outer (fuel : nat) (p : params) (o : oracles) (t_initial : num A) (n : nat) (k : Z)
  (s : state) : outcome :=
  match n with
  | O => Returned 0 s
  | S n' =>
      match inner fuel p o (target_time p t_initial k) s with
      | IDone s' => outer fuel p o t_initial n' (k + 1)%Z (saver_events p k s')
      | IAbort s' => Returned 1 s'
      | ISignal s' => Signalled s'
      | IExit s' => Exited s'
      | IFuel s' => Running s'
      end
  end.

(** [int step_count = std::round(...)], time_integration.cpp line 159. Conversion of a value outside
    the range of int is undefined behaviour; INT_MAX is excluded too because step_nb++ then
    overflows. *)
Definition step_count (p : params) (t_initial : num A) : option Z :=
  match nround (ndiv (nsub (p_tf p) t_initial) (t_step p)) with
  | Some z => if ((- 2147483648 <=? z) && (z <? 2147483647))%Z then Some z else None
  | None => None
  end.

(** State on entry: [t0], initial dt and the two levels come from Fem's constructor and timing's. *)
Definition initial_state (p : params) (o : oracles) (t0 dt0 v0 : num A) (c0 n0 : C) : state :=
  {| time := t0; dt := dt0; stp := stepper_new dt0 (DTMIN p) (DTMAX p);
     cur := c0; nxt := n0; vmax := v0; nt := 0%Z; flag := 0%Z; trials := 0; good_dt := [];
     good_dumax := []; bad_dt := []; log := []; en_t := t0; en_c := n0; rows := [] |}.

(** Fem::time_integration, time_integration.cpp lines 136-254. The loop runs step_count + 1 times
    when step_count >= 0 and not at all otherwise. *)
Definition time_integration (fuel : nat) (p : params) (o : oracles) (t0 dt0 v0 : num A)
  (c0 n0 : C) : outcome :=
  let s := compute_all o (initial_state p o t0 dt0 v0 c0 n0) in
  match step_count p (time s) with
  | None => Undefined
  | Some z => outer fuel p o (time s) (Z.to_nat (z + 1)) 0 s
  end.

End Time.

Arguments stepper : clear implicits.
Arguments params : clear implicits.
Arguments row : clear implicits.
Arguments event : clear implicits.
Arguments state : clear implicits.
Arguments oracles : clear implicits.
Arguments outcome : clear implicits.
Arguments attempt_result : clear implicits.
Arguments inner_result : clear implicits.
