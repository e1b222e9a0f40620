(** * One line of the .evol file and the periodic .sol files: Fem::saver (/repo/src/save.cpp lines 13-161) *)
From Coq Require Import String Ascii List Arith Bool ZArith.
From Verif Require Import TextModel SolModel.
Import ListNotations.
Local Open Scope nat_scope.

Inductive axis := AX | AY | AZ.
Inductive energy_term := EXCHANGE | ANISOTROPY | DEMAG | ZEEMAN.

(** what a field of the line shows. [region = None] is the int -1: the whole mesh.
    [Undefined_field] is a component of Eigen::Vector3d(NAN, NAN, NAN), line 22 *)
Inductive quantity :=
  | Iteration                                  (* nt *)
  | TimeNow                                    (* t_prm.get_t() *)
  | TimeStep                                   (* t_prm.get_dt() *)
  | MaxVariation                               (* vmax * t_prm.get_dt() *)
  | MaxAngle                                   (* msh.max_angle() *)
  | MeanM (a : axis) (region : option nat)     (* msh.avg(Nodes::get_u_comp, a, region) *)
  | MeanDM (a : axis) (region : option nat)    (* msh.avg(Nodes::get_v_comp, a, region) *)
  | Thiele (region : option nat)               (* msh.thiele(region) *)
  | Energy (e : energy_term)                   (* E[e] *)
  | TotalEnergy                                (* Etot *)
  | AppliedField (a : axis)                    (* settings.getField(t_prm.get_t()) *)
  | Undefined_field.

(** lines 19-21: col_name[0] == 'H' && col_name[1] >= 'x' && col_name[1] <= 'z'; operator[](size()) is '\0' *)
Definition starts_with_field (col : text) : bool :=
  match col with
  | c :: d :: _ => Ascii.eqb c "H"%char && (byte "x"%char <=? byte d)%N && (byte d <=? byte "z"%char)%N
  | _ => false
  end.
(** lines 19-24 *)
Definition field_needed (cols : list text) : bool := existsb starts_with_field cols.
Definition applied_field (cached : bool) (a : axis) : quantity := if cached then AppliedField a else Undefined_field.

(** lines 31-43: the region and the key; [None]: no region of that name, exit *)
Definition split_column (regions : list text) (col : text) : option (option nat * text) :=
  match rfind ":"%char col with
  | None => Some (None, col)
  | Some pos => match find_region regions (firstn pos col) with
                | None => None
                | Some r => Some (Some r, skipn (pos + 1) col)
                end
  end.

(** the chain of tests, lines 56-140; [None]: invalid column name, exit *)
Definition key_quantity (cached : bool) (region : option nat) (key : text) : option quantity :=
  if text_eqb key (txt "iter") then Some Iteration
  else if text_eqb key (txt "t") then Some TimeNow
  else if text_eqb key (txt "dt") then Some TimeStep
  else if text_eqb key (txt "max_dm") then Some MaxVariation
  else if text_eqb key (txt "max_angle") then Some MaxAngle
  else if text_eqb key (txt "<Mx>") then Some (MeanM AX region)
  else if text_eqb key (txt "<My>") then Some (MeanM AY region)
  else if text_eqb key (txt "<Mz>") then Some (MeanM AZ region)
  else if text_eqb key (txt "<dMx/dt>") then Some (MeanDM AX region)
  else if text_eqb key (txt "<dMy/dt>") then Some (MeanDM AY region)
  else if text_eqb key (txt "<dMz/dt>") then Some (MeanDM AZ region)
  else if text_eqb key (txt "Thiele_length") then Some (Thiele region)
  else if text_eqb key (txt "E_ex") then Some (Energy EXCHANGE)
  else if text_eqb key (txt "E_aniso") then Some (Energy ANISOTROPY)
  else if text_eqb key (txt "E_demag") then Some (Energy DEMAG)
  else if text_eqb key (txt "E_zeeman") then Some (Energy ZEEMAN)
  else if text_eqb key (txt "E_tot") then Some TotalEnergy
  else if text_eqb key (txt "Hx") then Some (applied_field cached AX)
  else if text_eqb key (txt "Hy") then Some (applied_field cached AY)
  else if text_eqb key (txt "Hz") then Some (applied_field cached AZ)
  else None.

Definition column_quantity (cached : bool) (regions : list text) (col : text) : option quantity :=
  match split_column regions col with
  | None => None
  | Some (region, key) => key_quantity cached region key
  end.

(** the loop, lines 26-141: [print] is the stream's conversion of the value of a quantity (evaluated in the state of
    the simulation), [n] the number of columns. [Exit written]: SYSTEM_ERROR, after the fields already given to the
    stream. *)
Inductive saved := Line (s : text) | Exit (written : text).
Fixpoint save_columns (print : quantity -> text) (cached : bool) (regions : list text) (n i : nat) (cols : list text) (out : text) : saved :=
  match cols with
  | [] => Line out
  | col :: l =>
      match column_quantity cached regions col with
      | None => Exit out
      | Some q => save_columns print cached regions n (S i) l (out ++ print q ++ (if (i =? n - 1)%nat then [NL] else [TAB]))
      end
  end.
Definition saver_line (print : quantity -> text) (regions : list text) (cols : list text) : saved :=
  save_columns print (field_needed cols) regions (List.length cols) 0 cols [].

(** lines 144-148: the .sol file of iteration nt, if any. [save_period] is the setting (never negative:
    settings.cpp lines 334-341, [period_setting]) *)
Definition sol_file (dir sim : text) (save_period nt : Z) : option text :=
  if negb (save_period =? 0)%Z && (Z.rem nt save_period =? 0)%Z
  then Some ((dir ++ "/"%char :: sim) ++ txt "_iter" ++ print_nat nt ++ txt ".sol") else None.

(** settings.cpp lines 334-341. [scalar = None]: not a scalar node, its Scalar() is empty and the assignment does
    nothing; [as_int] is the conversion of a YAML scalar to int ([None]: exception). Outcome: [None] on error *)
Definition period_setting (as_int : text -> option Z) (scalar : option text) (previous : Z) : option Z :=
  match scalar with
  | None => Some previous
  | Some s => if text_eqb s (txt "true") then None
              else if text_eqb s (txt "false") then Some 0%Z
              else match as_int s with None => None | Some p => Some (if (p <? 0)%Z then 0%Z else p) end
  end.

(** the visible iterations 0 .. n of a run (time_integration.cpp lines 166-277 call saver once per visible step with
    nt_output = 0, 1, ...): the files it writes, in order *)
Definition sol_files (dir sim : text) (save_period : Z) (n : nat) : list text :=
  List.concat (map (fun k => match sol_file dir sim save_period (Z.of_nat k) with Some f => [f] | None => [] end) (seq 0 (S n))).
