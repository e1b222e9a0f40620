(** * Model of the weights of the time scheme: THETA (/repo/src/config.h.in line 59) and timing::set_dt
      (/repo/src/time_integration.h lines 12, 37-42)

    Exact real arithmetic; log is the natural logarithm. *)
From Coq Require Import Reals ZArith.
From Flocq Require Import Core.
Local Open Scope R_scope.

(** config.h.in line 59 *)
Definition THETA : R := 1 / 2.

(** time_integration.h line 12 *)
Definition TAUR (DTMAX : R) : R := 100 * DTMAX.

(** The name abs of line 41 is not qualified: according to the headers in scope it is the absolute value of a double, or the one of
    an int, whose argument is truncated. *)
Definition abs_double (x : R) : R := Rabs x.
Definition abs_int (x : R) : R := IZR (Z.abs (Ztrunc x)).

(** lines 40-41 *)
Definition prefactor (abs_ : R -> R) (DTMAX dt : R) : R :=
  let t_tilde := dt / TAUR DTMAX in
  1 + t_tilde * abs_ (ln t_tilde).
