(** * The files of a run: names, the potential file, and what a run starts from
      (/repo/src/save.cpp, time_integration.cpp, electrostatSolver.cpp, spinAccumulationSolver.cpp, fem.h) *)
From Coq Require Import String Ascii Reals ZArith Bool List Lia.
From Flocq Require Import Core BinarySingleNaN.
From Verif Require Import Arith ArithLaws TextModel SolModel TimeModel.
Import ListNotations.
Open Scope Z_scope.

(** ** Names. [dir] is settings.r_path_output_dir, [sim] is settings.getSimName() *)
(** time_integration.cpp line 141 and 112, save.cpp line 144 *)
Definition base_name (dir sim : text) : text := dir ++ "/"%char :: sim.
(** time_integration.cpp line 142 *)
Definition evol_name (dir sim : text) : text := base_name dir sim ++ txt ".evol".
(** save.cpp line 148; std::to_string of a non-negative int *)
Definition snapshot_name (dir sim : text) (nt : Z) : text := base_name dir sim ++ txt "_iter" ++ print_nat nt ++ txt ".sol".
(** time_integration.cpp lines 111-112 *)
Definition at_exit_name (dir sim : text) : text := base_name dir sim ++ txt "_at_exit.sol".
(** spinAccumulationSolver.cpp lines 25-27: empty when no file is asked for *)
Definition potential_name (sim : text) (V_file : bool) : text := if V_file then sim ++ txt "_V.sol" else [].

(** the file that an event of the time loop writes. The .evol file is opened once, before the loop
    (time_integration.cpp line 143), and written line after line. *)
Definition file_of_event {A C} (dir sim : text) (e : event A C) : list text :=
  match e with
  | EvSnapshot k _ _ => [snapshot_name dir sim k]
  | EvAtExit _ (Some _) => [at_exit_name dir sim]
  | _ => []
  end.
(** the files a run opens for writing, in order: the potential (main.cpp line 252, in the constructor of the spin
    accumulation solver), the table, then those of the loop. std::ofstream empties an existing file when it opens it. *)
Definition files_of_run {A C} (dir sim : text) (spin_acc V_file : bool) (l : list (event A C)) : list text :=
  (if spin_acc && V_file then [potential_name sim V_file] else []) ++ evol_name dir sim :: flat_map (file_of_event dir sim) l.

(** ** The file system: contents by name. Opening a file for writing and closing it leaves exactly what was written. *)
Definition write (fs : text -> option text) (name content : text) : text -> option text :=
  fun n => if list_eq_dec Ascii.ascii_dec n name then Some content else fs n.
Definition write_all (fs : text -> option text) (l : list (text * text)) : text -> option text :=
  fold_left (fun fs f => write fs (fst f) (snd f)) l fs.

(** ** electrostatSolver::save, electrostatSolver.cpp lines 138-157, [precision] is 8 (electrostatSolver.h line 70) *)
Definition V_line (i : nat) (v : b64) : text := print_nat (Z.of_nat i) ++ TAB :: print_sci 8 v ++ [NL].
(** [None]: an index is out of range *)
Fixpoint V_lines (i : nat) (node_index : list nat) (V : list b64) : option text :=
  match node_index with
  | [] => Some []
  | j :: idx' => bind (nth_error V j) (fun v => bind (V_lines (S i) idx' V) (fun rest => Some (V_line i v ++ rest)))
  end.
Definition V_metadata : text := txt "## columns: index" ++ TAB :: txt "V" ++ [NL].
Definition V_content (date : text) (node_index : list nat) (V : list b64) : option text :=
  bind (V_lines 0 node_index V) (fun l => Some (txt "## real-world time:" ++ " "%char :: date ++ [NL] ++ V_metadata ++ l)).

(** electrostatSolver::compute, lines 78-94. [good] is fout.good() after closing the file, so that save returns
    [negb good]. The result: whether a file was written and whether the message "file ... written" is printed; [None] is
    exit(1). *)
Definition elec_compute (converged verbose : bool) (name : text) (good : bool) : option (bool * bool) :=
  if converged then
    match name with
    | [] => Some (false, false)
    | _ => let iznogood := negb good in Some (true, verbose && iznogood)
    end
  else None.

(** ** What a run starts from: constructor of Fem, fem.h lines 101-116; the time of [timing] is 0 at first
    (time_integration.h line 12). [init] is what init_distrib computes, [restore] the contents of the file of
    settings.restoreFileName, [None] when that name is empty; initial_time is NaN when it is not set (settings.h line 196). *)
Definition fem_start (restore : option text) (initial_time : b64) (node_index : list nat) (nodes init : list sol_node)
    : SolModel.outcome (b64 * list sol_node) :=
  let r := match restore with
           | None => Restored (B754_zero false, init)
           | Some file => read_sol file node_index nodes
           end in
  match r with
  | Restored (t, l) => Restored ((if is_nan initial_time then t else initial_time), l)
  | ExitFailure => ExitFailure
  | Throws => Throws
  | SolModel.Undefined => SolModel.Undefined
  end.
