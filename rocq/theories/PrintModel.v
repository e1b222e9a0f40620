(** * Printing the settings as a YAML document: Settings::toYaml (/repo/src/settings.cpp lines 155-271), for the options
      --verify and --verbose (/repo/src/main.cpp lines 188-194 and 238-243)

    The model gives the shape of the document: what is printed after each key, and how. The layout (the indentation, the
    dashes) is not modelled. The printing of a number (operator<<, or %g in a vector, both with 6 significant digits) and of an
    integer are arguments. *)
From Coq Require Import String Ascii List Arith Bool ZArith.
From Verif Require Import Arith TextModel ColumnModel SettingsModel.
Import ListNotations.
Local Open Scope nat_scope.

(** what is printed for a value: nothing; characters, as they are; the result of str() for a string (None: str() does not
    terminate); a bracketed list of numbers, of characters between quotes; one line per element; one line per key *)
Inductive printed :=
  | PNothing
  | PPlain (t : text)
  | PStr (t : option text)
  | PNumbers (l : list text)
  | PQuoted (l : list text)
  | PItems (l : list text)
  | PKeys (l : list (text * printed)).

Section Print.
Context {A : arith}.
Variable pd : num A -> text.
Variable pz : Z -> text.

Definition number (x : num A) : printed := PPlain (pd x).
(** str(bool), line 78 *)
Definition str_bool (b : bool) : printed := PPlain (if b then txt "true" else txt "false").
(** str(Vector3d), lines 83-88 *)
Definition str_vec (v : @vec3 A) : printed := let '(x, y, z) := v in PNumbers [pd x; pd y; pd z].
Definition nonzero (x : num A) : bool := negb (neq x n0).
Definition unless_nan (x : num A) : printed := if nisnan x then PNothing else number x.
(** the name __default__ is skipped: lines 177, 202 *)
Definition is_default (name : text) : bool := text_eqb name (txt "__default__").

(** lines 157-169 *)
Definition print_outputs (o : @outputs_t A) : printed := PKeys
  [(txt "directory", PPlain (o_dir o)); (txt "file_basename", PPlain (o_sim o)); (txt "evol_time_step", number (o_step o));
   (txt "final_time", number (o_tf o)); (txt "evol_columns", PItems (o_columns o)); (txt "mag_config_every", PPlain (pz (o_period o)));
   (txt "metadata", PKeys (map (fun kv => (fst kv, PStr (str_yaml (snd kv) 2))) (o_meta o)))].

(** lines 180-197 *)
Definition print_tetra (p : @tetra_prm A) : printed := PKeys (
  [(txt "Ae", number (t_A p)); (txt "Ms", number (t_Ms p)); (txt "K", number (t_K p))] ++
  (if nonzero (t_K p) then [(txt "uk", str_vec (t_uk p))] else []) ++
  [(txt "K3", number (t_K3 p))] ++
  (if nonzero (t_K3 p) then [(txt "ex", str_vec (t_ex p)); (txt "ey", str_vec (t_ey p)); (txt "ez", str_vec (t_ez p))] else []) ++
  [(txt "alpha_LLG", number (t_alpha p)); (txt "sigma", number (t_sigma p)); (txt "dens_state", number (t_N0 p));
   (txt "P", number (t_P p)); (txt "l_sd", number (t_lsd p)); (txt "l_sf", number (t_lsf p))]).

(** lines 205-223; the current density is printed under the key J, line 209 *)
Definition print_tri (spin_acc : bool) (p : @tri_prm A) : printed := PKeys (
  [(txt "suppress_charges", str_bool (s_suppress p)); (txt "Ks", number (s_Ks p))] ++
  (if nonzero (s_Ks p) then [(txt "uk", str_vec (s_uk p))] else []) ++
  [(txt "J", unless_nan (s_jn p)); (txt "V", unless_nan (s_V p))] ++
  (if spin_acc then [(txt "uP", str_vec (s_uP p)); (txt "s", str_vec (s_s p))] else [])).

Definition print_regions {P} (name : P -> text) (pr : P -> printed) (l : list P) : printed :=
  PKeys (map (fun p => (name p, pr p)) (filter (fun p => negb (is_default (name p))) l)).

(** lines 171-224 *)
Definition print_mesh (spin_acc : bool) (m : @mesh_t A) : printed := PKeys
  [(txt "filename", PPlain (m_pb m)); (txt "length_unit", number (m_scale m));
   (txt "volume_regions", print_regions t_name print_tetra (m_tetra m)); (txt "surface_regions", print_regions s_name (print_tri spin_acc) (m_tri m))].

(** lines 225-231 *)
Definition print_mag (g : mag_t) : printed :=
  match g_sM g, g_restore g with
  | _ :: _, _ => PStr (str_yaml (g_sM g) 0)
  | [], [] => PQuoted [g_sMx g; g_sMy g; g_sMz g]
  | [], _ => PPlain (g_restore g)
  end.

(** lines 237-250 *)
Definition axis_name (a : axis) : text := match a with AX => txt "X" | AY => txt "Y" | AZ => txt "Z" end.
Definition print_rec (r : @rec_t A) : printed := PKeys (
  [(txt "enable", str_bool (r_enable r))] ++
  (if r_enable r then [(txt "direction", PPlain (axis_name (r_direction r))); (txt "threshold", number (r_threshold r))] else [])).

(** lines 251-257 *)
Definition print_field (f : field_t) : printed :=
  match f_kind f with
  | R4toR3 => PKeys [(txt "space", PStr (str_yaml (f_sB_space f) 1)); (txt "time", PStr (str_yaml (f_sB_time f) 1))]
  | _ => match f_sB f with
         | [] => PQuoted [f_sBx f; f_sBy f; f_sBz f]
         | _ => PStr (str_yaml (f_sB f) 0)
         end
  end.

(** lines 258-261 *)
Definition print_spin (a : spin_t) : printed :=
  PKeys ([(txt "enable", str_bool (a_enable a))] ++ (if a_enable a then [(txt "V_file", str_bool (a_V_file a))] else [])).

(** Settings::toYaml, lines 155-271 *)
Definition to_yaml (s : @settings A) : printed := PKeys
  [(txt "outputs", print_outputs (outputs s));
   (txt "mesh", print_mesh (a_enable (spin s)) (mesh s));
   (txt "initial_magnetization", print_mag (mag s));
   (txt "initial_time", unless_nan (initial_time s));
   (txt "recentering", print_rec (recentering s));
   (txt "Bext", print_field (field s));
   (txt "spin_accumulation", print_spin (spin s));
   (txt "demagnetizing_field_solver", PKeys [(txt "nb_threads", PPlain (pz (threads s)))]);
   (txt "finite_element_solver", PKeys [(txt "max(iter)", PPlain (pz (v_maxiter (solver s)))); (txt "tolerance", number (v_tol (solver s)))]);
   (txt "time_integration", PKeys [(txt "max(du)", number (i_dumax (time_int s))); (txt "min(dt)", number (i_dt_min (time_int s)));
      (txt "max(dt)", number (i_dt_max (time_int s)))])].

End Print.

(** ** The built-in defaults: default-settings.yml (/repo/src/default-settings.yml, whole file) as the tree it is loaded to *)
Definition word (t : string) : yaml := YScalar (txt t).
Definition words (l : list string) : yaml := YSeq (map word l).
Definition default_document : yaml := YMap
  [(txt "outputs", YMap [(txt "directory", word "."); (txt "file_basename", YNull); (txt "evol_time_step", word "5e-13"); (txt "final_time", word "1e-10");
     (txt "evol_columns", words ["t"; "<Mx>"; "<My>"; "<Mz>"; "E_ex"; "E_demag"; "E_zeeman"; "E_tot"]%string); (txt "mag_config_every", word "100"); (txt "metadata", YNull)]);
   (txt "mesh", YMap [(txt "filename", YNull); (txt "length_unit", word "1e-9");
     (txt "volume_regions", YMap [(txt "__default__", YMap [(txt "Ae", word "1e-11"); (txt "Ms", word "795774.7"); (txt "K", word "0"); (txt "uk", words ["0"; "0"; "1"]%string);
        (txt "K3", word "0"); (txt "ex", words ["1"; "0"; "0"]%string); (txt "ey", words ["0"; "1"; "0"]%string); (txt "ez", words ["0"; "0"; "1"]%string);
        (txt "alpha_LLG", word "0.5"); (txt "sigma", word "0"); (txt "dens_state", word "0"); (txt "P", word "0"); (txt "l_sd", word "0"); (txt "l_sf", word "0")])]);
     (txt "surface_regions", YMap [(txt "__default__", YMap [(txt "suppress_charges", word "false"); (txt "Ks", word "0"); (txt "uk", words ["0"; "0"; "1"]%string);
        (txt "jn", YNull); (txt "V", YNull); (txt "uP", words ["0"; "0"; "1"]%string); (txt "s", YNull)])])]);
   (txt "initial_magnetization", words ["0"; "0"; "1"]%string); (txt "initial_time", YNull);
   (txt "recentering", YMap [(txt "enable", word "false"); (txt "direction", word "Z"); (txt "threshold", word "0.1")]);
   (txt "Bext", words ["0"; "0"; "0"]%string);
   (txt "spin_accumulation", YMap [(txt "enable", word "false"); (txt "V_file", word "false")]);
   (txt "demagnetizing_field_solver", YMap [(txt "nb_threads", word "0")]);
   (txt "finite_element_solver", YMap [(txt "max(iter)", word "700"); (txt "tolerance", word "1e-6")]);
   (txt "time_integration", YMap [(txt "max(du)", word "0.02"); (txt "min(dt)", word "1e-16"); (txt "max(dt)", word "5e-13")])].

(** The members when the constructor calls read (Settings::Settings, lines 134-143; settings.h lines 133-300): the strings
    and the vectors are empty, field_type, spin_acc and initial_time have a value, the other members have any value. *)
Record constructed {A : arith} (s : @settings A) : Prop := {
  cs_dir : o_dir (outputs s) = []; cs_sim : o_sim (outputs s) = []; cs_columns : o_columns (outputs s) = []; cs_meta : o_meta (outputs s) = [];
  cs_pb : m_pb (mesh s) = []; cs_tetra : m_tetra (mesh s) = []; cs_tri : m_tri (mesh s) = [];
  cs_mag : mag s = mkMag [] [] [] [] [] NoSource;
  cs_field : field s = mkField [] [] [] [] [] [] UNDEF NoSource NoSource NoSource;
  cs_spin : a_enable (spin s) = false;
  cs_time : initial_time s = nan }.
