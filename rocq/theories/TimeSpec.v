(** * Vocabulary for the properties of the time loop

    A run is observed through its events, in chronological order, and through the state in which it
    stops (or has got to, when it is still running). *)

From Coq Require Import Reals ZArith List Bool.
From Flocq Require Import Core BinarySingleNaN.
From Verif Require Import Arith TimeModel.
Import ListNotations.

Section Spec.
Context {A : arith} {C : Type}.

(** the state in which a run stopped or has got to *)
Definition final (r : outcome A C) : option (state A C) :=
  match r with
  | Returned _ s => Some s | Signalled s => Some s | Exited s => Some s | Running s => Some s
  | Undefined => None
  end.

(** all events of the run, oldest first *)
Definition events (r : outcome A C) : list (event A C) :=
  match final r with Some s => rev (log s) | None => [] end.

(** [e2] immediately follows [e1] *)
Definition follows (l : list (event A C)) (e1 e2 : event A C) : Prop :=
  exists l1 l2, l = l1 ++ e1 :: e2 :: l2.

(** the simulated time carried by an event *)
Definition ev_time (e : event A C) : num A :=
  match e with
  | EvTrial _ t _ _ => t | EvSolverFailed _ t _ => t | EvTooLarge _ _ t _ => t
  | EvAccepted _ _ t _ _ => t | EvLine _ t _ => t | EvSnapshot _ t _ => t | EvAtExit t _ => t
  end.

(** the output lines: number and simulated time, in the order in which they are written *)
Fixpoint lines (l : list (event A C)) : list (Z * num A) :=
  match l with
  | [] => []
  | EvLine k t _ :: l' => (k, t) :: lines l'
  | _ :: l' => lines l'
  end.

Definition is_accepted (e : event A C) : bool :=
  match e with EvAccepted _ _ _ _ _ => true | _ => false end.

(** number of accepted steps *)
Definition accepted_count (l : list (event A C)) : Z := Z.of_nat (length (filter is_accepted l)).

(** 0, 1, ..., n-1 *)
Definition upto (n : nat) : list Z := map Z.of_nat (seq 0 n).

End Spec.

(** ** Hypotheses on the parameters *)
Local Open Scope R_scope.

(** exact arithmetic: initial time, output period and min(dt) are ordinary numbers, the last two not
    negative *)
Definition real_params (p : params XA) (t0 : num XA) : Prop :=
  (exists a : R, t0 = Fin a) /\ (exists ts : R, t_step p = Fin ts /\ 0 <= ts) /\
  (exists m : R, DTMIN p = Fin m /\ 0 <= m).

(** binary64: finite, not negative, and far from overflow up to the last output time *)
Definition b64_params (p : params B64) (t0 : num B64) : Prop :=
  is_finite (t0 : b64) = true /\ is_finite (t_step p : b64) = true /\
  is_finite (DTMIN p : b64) = true /\
  0 <= B2R (t_step p : b64) /\ 0 <= B2R (DTMIN p : b64) /\
  Rabs (B2R (t0 : b64)) <= bpow radix2 1000 /\
  (forall N, step_count p t0 = Some N -> IZR N * B2R (t_step p : b64) <= bpow radix2 1000).
