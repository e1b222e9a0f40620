(** * Model of class LogStats: /repo/src/log-stats.h lines 18-61, over exact reals *)

From Coq Require Import Reals ZArith List.
Import ListNotations.
Local Open Scope R_scope.

(** log-stats.h lines 57-60 *)
Record log_stats := mkStats { st_n : Z; st_m : R; st_s : R }.

(** log-stats.h lines 58-60 *)
Definition stats_new : log_stats := mkStats 0 0 0.

(** LogStats::add, lines 22-30 *)
Definition stats_add (st : log_stats) (x : R) : log_stats :=
  let x := ln x in
  let n := (st_n st + 1)%Z in
  let delta1 := x - st_m st in
  let m := st_m st + delta1 / IZR n in
  let delta2 := x - m in
  mkStats n m (st_s st + delta1 * delta2).

(** LogStats::count line 33, mean line 43, stddev line 55 *)
Definition stats_count (st : log_stats) : Z := st_n st.
Definition stats_mean (st : log_stats) : R := exp (st_m st).
Definition stats_stddev (st : log_stats) : R := sqrt (st_s st / IZR (st_n st)).

(** samples in the order in which they were added *)
Definition stats_of (xs : list R) : log_stats := fold_left stats_add xs stats_new.
