(** * Reading the settings: Settings::read (/repo/src/settings.cpp lines 314-619) and Settings::Settings (lines 134-143)

    A YAML document is a tree. Simplifications: the keys of a map are strings, and a key that is given twice in the same
    map is looked up where it is given first. The conversions of a scalar to a number or to a boolean are those of
    yaml-cpp: the model takes them as arguments ([conv]), and so all theorems hold for any conversions. The compilation
    of the user's expressions is not modelled here: a parser is represented by the sources it was last given. Messages
    are not modelled. *)
From Coq Require Import String Ascii List Arith Bool ZArith.
From Verif Require Import Arith TextModel ColumnModel.
Import ListNotations.
Local Open Scope nat_scope.

Inductive yaml := YNull | YScalar (s : text) | YSeq (l : list yaml) | YMap (l : list (text * yaml)).

(** outcome: error() prints a message and exits with status 1; [Throw] is an exception of yaml-cpp, which nobody catches *)
Inductive res (X : Type) := Ok (x : X) | Error | Throw.
Arguments Ok {X} _. Arguments Error {X}. Arguments Throw {X}.
Definition rbind {X Y} (x : res X) (f : X -> res Y) : res Y := match x with Ok a => f a | Error => Error | Throw => Throw end.
Notation "'let!' x ':=' e 'in' f" := (rbind e (fun x => f)) (at level 200, x name, e at level 100, f at level 200).

(** node["key"]: [None] is an undefined node. Indexing a scalar throws; a null node or a sequence has no string key. *)
Fixpoint assoc {X} (key : text) (l : list (text * X)) : option X :=
  match l with [] => None | (k, v) :: r => if text_eqb k key then Some v else assoc key r end.
Definition child (node : yaml) (key : text) : res (option yaml) :=
  match node with
  | YMap l => Ok (assoc key l)
  | YScalar _ => Throw
  | YNull | YSeq _ => Ok None
  end.

Section Settings.
Context {A : arith}.

(** conversions of yaml-cpp ([None]: TypedBadConversion); [as_other] is as<std::string>() on a node which is not a scalar *)
Record conv := mkConv { as_double : text -> option (num A); as_int : text -> option Z; as_bool : text -> option bool;
  as_other : yaml -> option text }.
Variable c : conv.
Definition as_string (y : yaml) : option text := match y with YScalar s => Some s | _ => as_other c y end.
Definition get {X} (o : option X) : res X := match o with Some x => Ok x | None => Throw end.

(** assign for a scalar, lines 44-53: [None] when the node is not a scalar (nothing is assigned, false is returned) *)
Definition scalar {X} (f : text -> option X) (node : option yaml) : res (option X) :=
  match node with Some (YScalar s) => let! x := get (f s) in Ok (Some x) | _ => Ok None end.
Definition keep {X} (o : option X) (old : X) : X := match o with Some x => x | None => old end.

(** assign for a vector, lines 56-67 *)
Definition vec3 : Type := num A * num A * num A.
Definition scalar_double (y : yaml) : res (num A) := match y with YScalar s => get (as_double c s) | _ => Throw end.
(** Eigen's normalize(): division by the norm when the squared norm is positive *)
Definition normalize3 (v : vec3) : vec3 :=
  let '(x, y, z) := v in
  let n2 := nadd (nadd (nmul x x) (nmul y y)) (nmul z z) in
  if nlt n0 n2 then let n := nsqrt n2 in (ndiv x n, ndiv y n, ndiv z n) else v.
Definition vector (normalize : bool) (node : option yaml) : res (option vec3) :=
  match node with
  | None | Some YNull => Ok None
  | Some (YSeq [a; b; d]) =>
      let! x := scalar_double a in let! y := scalar_double b in let! z := scalar_double d in
      Ok (Some (if normalize then normalize3 (x, y, z) else (x, y, z)))
  | Some _ => Error
  end.

(** ** The settings *)
(** Tetra::prm, tetra.h lines 86-112 *)
Record tetra_prm := mkTetra { t_name : text; t_alpha : num A; t_A : num A; t_Ms : num A; t_K : num A; t_uk : vec3; t_K3 : num A;
  t_ex : vec3; t_ey : vec3; t_ez : vec3; t_P : num A; t_N0 : num A; t_sigma : num A; t_lsd : num A; t_lsf : num A }.
(** Triangle::prm, triangle.h lines 69-81 *)
Record tri_prm := mkTri { s_name : text; s_suppress : bool; s_Ks : num A; s_uk : vec3; s_V : num A; s_jn : num A; s_uP : vec3; s_s : vec3 }.
(** an element emplaced in a std::vector is value-initialised: all zero *)
Definition zero3 : vec3 := (n0, n0, n0).
Definition zero_tetra : tetra_prm := mkTetra [] n0 n0 n0 n0 zero3 n0 zero3 zero3 zero3 n0 n0 n0 n0 n0.
Definition zero_tri : tri_prm := mkTri [] false n0 zero3 n0 n0 zero3 zero3.
Definition nan : num A := ndiv n0 n0.

(** what an ExpressionParser was last given: one function, or the list of its expressions *)
Inductive source := NoSource | FunctionSource (f : text) | Expressions (params x y z : text).
Inductive field_kind := UNDEF | RtoR3 | R4toR3.

Record outputs_t := mkOutputs { o_dir : text; o_sim : text; o_step : num A; o_tf : num A; o_period : Z; o_columns : list text;
  o_meta : list (text * text) }.
Record mesh_t := mkMesh { m_pb : text; m_scale : num A; m_tetra : list tetra_prm; m_tri : list tri_prm }.
Record mag_t := mkMag { g_restore : text; g_sM : text; g_sMx : text; g_sMy : text; g_sMz : text; g_parser : source }.
Record rec_t := mkRec { r_enable : bool; r_direction : axis; r_threshold : num A }.
Record field_t := mkField { f_sB : text; f_sBx : text; f_sBy : text; f_sBz : text; f_sB_space : text; f_sB_time : text; f_kind : field_kind;
  f_parser : source; f_space_parser : source; f_time_parser : source }.
Record spin_t := mkSpin { a_enable : bool; a_V_file : bool }.
Record solver_t := mkSolver { v_maxiter : Z; v_tol : num A }.
Record time_t := mkTime { i_dumax : num A; i_dt_min : num A; i_dt_max : num A }.
Record settings := mkSettings { outputs : outputs_t; mesh : mesh_t; mag : mag_t; initial_time : num A; recentering : rec_t; field : field_t;
  spin : spin_t; threads : Z; solver : solver_t; time_int : time_t }.

(** a section which is present and not null *)
Definition section {X} (node : option yaml) (old : X) (f : yaml -> res X) : res X :=
  match node with None | Some YNull => Ok old | Some y => f y end.
Definition is_map (y : yaml) : bool := match y with YMap _ => true | _ => false end.

(** *** outputs, lines 316-371 *)
Fixpoint strings (l : list yaml) : res (list text) :=
  match l with [] => Ok [] | y :: r => let! s := get (as_string y) in let! ss := strings r in Ok (s :: ss) end.
(** the loop over the metadata, lines 357-368 ([set_meta]: TextModel) *)
Fixpoint metadata (l : list (text * yaml)) (m : list (text * text)) : res (list (text * text)) :=
  match l with
  | [] => Ok m
  | (k, y) :: r => let! v := get (as_string y) in metadata r (set_meta (k, v) m)
  end.
Definition read_outputs (o : outputs_t) (y : yaml) : res outputs_t :=
  if negb (is_map y) then Error else
  let! n := child y (txt "directory") in let! d := scalar Some n in
  let! n := child y (txt "file_basename") in let! sim := scalar Some n in
  let! n := child y (txt "evol_time_step") in let! step := scalar (as_double c) n in
  let! n := child y (txt "final_time") in let! tf := scalar (as_double c) n in
  let! n := child y (txt "mag_config_every") in
  let! period := match n with
                 | Some (YScalar s) => if text_eqb s (txt "true") then Error
                                       else if text_eqb s (txt "false") then Ok 0%Z
                                       else let! p := get (as_int c s) in Ok (if (p <? 0)%Z then 0%Z else p)
                 | _ => Ok (o_period o)
                 end in
  let! n := child y (txt "evol_columns") in
  let! columns := match n with
                  | None | Some YNull => Ok (o_columns o)
                  | Some (YSeq l) => strings l
                  | Some _ => Error
                  end in
  let! n := child y (txt "metadata") in
  let! meta := match n with
               | None | Some YNull => Ok (o_meta o)
               | Some (YMap l) => metadata l (o_meta o)
               | Some _ => Error
               end in
  Ok (mkOutputs (match d with Some d => normalize_dir d | None => o_dir o end) (keep sim (o_sim o)) (keep step (o_step o)) (keep tf (o_tf o))
                period columns meta).

(** *** mesh, lines 373-454. [mu0]: config.h.in *)
Variable mu0 : num A.
(** one volume region, lines 388-420 *)
Definition read_tetra (base : tetra_prm) (name : text) (y : yaml) : res tetra_prm :=
  let! n := child y (txt "Ae") in let! a := scalar (as_double c) n in
  let! n := child y (txt "Ms") in let! ms := scalar (as_double c) n in
  let! n := child y (txt "Js") in let! js := scalar (as_double c) n in
  match ms, js with
  | Some _, Some _ => Error
  | _, _ =>
  let! n := child y (txt "K") in let! k := scalar (as_double c) n in
  let! n := child y (txt "uk") in let! uk := vector true n in
  let! n := child y (txt "K3") in let! k3 := scalar (as_double c) n in
  let! n := child y (txt "ex") in let! ex := vector true n in
  let! n := child y (txt "ey") in let! ey := vector true n in
  let! n := child y (txt "ez") in let! ez := vector true n in
  let! n := child y (txt "alpha_LLG") in let! alpha := scalar (as_double c) n in
  let! n := child y (txt "sigma") in let! sigma := scalar (as_double c) n in
  let! n := child y (txt "dens_state") in let! n0 := scalar (as_double c) n in
  let! n := child y (txt "P") in let! p := scalar (as_double c) n in
  let! n := child y (txt "l_sd") in let! lsd := scalar (as_double c) n in
  let! n := child y (txt "l_sf") in let! lsf := scalar (as_double c) n in
  Ok (mkTetra name (keep alpha (t_alpha base)) (keep a (t_A base))
        (match js with Some js => ndiv js mu0 | None => keep ms (t_Ms base) end)
        (keep k (t_K base)) (keep uk (t_uk base)) (keep k3 (t_K3 base)) (keep ex (t_ex base)) (keep ey (t_ey base)) (keep ez (t_ez base))
        (keep p (t_P base)) (keep n0 (t_N0 base)) (keep sigma (t_sigma base)) (keep lsd (t_lsd base)) (keep lsf (t_lsf base)))
  end.
Definition nan3 : vec3 := (nan, nan, nan).
(** one surface region, lines 429-452 *)
Definition read_tri (base : tri_prm) (name : text) (y : yaml) : res tri_prm :=
  let! n := child y (txt "suppress_charges") in let! sup := scalar (as_bool c) n in
  let! n := child y (txt "Ks") in let! ks := scalar (as_double c) n in
  let! n := child y (txt "uk") in let! uk := vector true n in
  let! n := child y (txt "jn") in let! jn := scalar (as_double c) n in
  let! n := child y (txt "V") in let! v := scalar (as_double c) n in
  if negb (nisnan (keep jn nan)) && negb (nisnan (keep v nan)) then Error else
  let! n := child y (txt "uP") in let! up := vector true n in
  let! n := child y (txt "s") in let! s := vector false n in
  Ok (mkTri name (keep sup (s_suppress base)) (keep ks (s_Ks base)) (keep uk (s_uk base)) (keep v nan) (keep jn nan) (keep up nan3) (keep s nan3)).
(** the loops of lines 386-421 and 427-453: one new region per entry, copied from the first region called __default__
    among those known before the loop (findRegionIdx: TextModel.find_region) *)
Fixpoint read_regions {P} (rd : text -> yaml -> res P) (l : list (text * yaml)) : res (list P) :=
  match l with [] => Ok [] | (name, y) :: r => let! p := rd name y in let! ps := read_regions rd r in Ok (p :: ps) end.
Definition default_of {P} (name : P -> text) (zero : P) (ps : list P) : P :=
  match find_region (map name ps) (txt "__default__") with Some i => nth i ps zero | None => zero end.
Definition regions {P} (name : P -> text) (zero : P) (rd : P -> text -> yaml -> res P) (node : option yaml) (ps : list P) : res (list P) :=
  match node with
  | None | Some YNull => Ok ps
  | Some (YMap l) => let! new := read_regions (rd (default_of name zero ps)) l in Ok (ps ++ new)
  | Some _ => Error
  end.
Definition read_mesh (m : mesh_t) (y : yaml) : res mesh_t :=
  if negb (is_map y) then Error else
  let! n := child y (txt "filename") in let! pb := scalar Some n in
  let! n := child y (txt "length_unit") in let! sc := scalar (as_double c) n in
  if match sc with Some x => nle x n0 | None => false end then Error else
  let! n := child y (txt "volume_regions") in let! ts := regions t_name zero_tetra read_tetra n (m_tetra m) in
  let! n := child y (txt "surface_regions") in let! ss := regions s_name zero_tri read_tri n (m_tri m) in
  Ok (mkMesh (keep pb (m_pb m)) (keep sc (m_scale m)) ts ss).

(** *** initial_magnetization, lines 456-479 *)
Definition read_mag (m : mag_t) (y : yaml) : res mag_t :=
  match y with
  | YScalar s =>
      match find_first (txt "function") s, find_first (txt "{") s with
      | Some _, Some _ => Ok (mkMag (g_restore m) s (g_sMx m) (g_sMy m) (g_sMz m) (FunctionSource s))
      | _, _ => Ok (mkMag s (g_sM m) (g_sMx m) (g_sMy m) (g_sMz m) (g_parser m))
      end
  | YSeq [a; b; d] =>
      let! x := get (as_string a) in let! y := get (as_string b) in let! z := get (as_string d) in
      Ok (mkMag (g_restore m) (g_sM m) x y z (Expressions (txt "x,y,z") x y z))
  | _ => Error
  end.

(** *** recentering, lines 483-497 *)
Definition read_rec (r : rec_t) (y : yaml) : res rec_t :=
  let! n := child y (txt "enable") in let! en := scalar (as_bool c) n in
  let! n := child y (txt "direction") in
  let d := match n with Some y => match as_string y with Some s => s | None => txt "Z" end | None => txt "Z" end in
  let! dir := (if text_eqb d (txt "X") then Ok AX else if text_eqb d (txt "Y") then Ok AY else if text_eqb d (txt "Z") then Ok AZ else Error) in
  let! n := child y (txt "threshold") in let! th := scalar (as_double c) n in
  Ok (mkRec (keep en (r_enable r)) dir (keep th (r_threshold r))).

(** *** Bext, lines 499-541 *)
Definition read_field (f : field_t) (y : yaml) : res field_t :=
  match y with
  | YScalar s => Ok (mkField s (f_sBx f) (f_sBy f) (f_sBz f) (f_sB_space f) (f_sB_time f) RtoR3 (FunctionSource s) (f_space_parser f) (f_time_parser f))
  | YSeq [a; b; d] =>
      let! x := get (as_string a) in let! y := get (as_string b) in let! z := get (as_string d) in
      Ok (mkField (f_sB f) x y z (f_sB_space f) (f_sB_time f) RtoR3 (Expressions (txt "t") x y z) (f_space_parser f) (f_time_parser f))
  | YSeq _ => Error
  | _ =>
      let! sp := child y (txt "space") in let! ti := child y (txt "time") in
      match sp, ti with
      | Some sp, Some ti =>
          let f := match sp with YScalar s => mkField (f_sB f) (f_sBx f) (f_sBy f) (f_sBz f) s (f_sB_time f) (f_kind f) (f_parser f) (FunctionSource s) (f_time_parser f) | _ => f end in
          let f := match ti with YScalar s => mkField (f_sB f) (f_sBx f) (f_sBy f) (f_sBz f) (f_sB_space f) s (f_kind f) (f_parser f) (f_space_parser f) (FunctionSource s) | _ => f end in
          Ok (mkField (f_sB f) (f_sBx f) (f_sBy f) (f_sBz f) (f_sB_space f) (f_sB_time f) R4toR3 (f_parser f) (f_space_parser f) (f_time_parser f))
      | _, _ => Error
      end
  end.

(** *** spin_accumulation, lines 543-548 *)
Definition read_spin (a : spin_t) (y : yaml) : res spin_t :=
  let! n := child y (txt "enable") in let! en := scalar (as_bool c) n in
  let! n := child y (txt "V_file") in let! vf := scalar (as_bool c) n in
  Ok (mkSpin (keep en (a_enable a)) (keep vf (a_V_file a))).

(** *** demagnetizing_field_solver, lines 550-560; [cpus]: sysconf(_SC_NPROCESSORS_ONLN) *)
Variable cpus : Z.
Definition read_threads (t : Z) (y : yaml) : res Z :=
  let! n := child y (txt "nb_threads") in let! nb := scalar (as_int c) n in
  let t := keep nb t in Ok (if (t <=? 0)%Z then cpus else t).

(** *** finite_element_solver, lines 562-567 *)
Definition read_solver (v : solver_t) (y : yaml) : res solver_t :=
  let! n := child y (txt "max(iter)") in let! mi := scalar (as_int c) n in
  let! n := child y (txt "tolerance") in let! tol := scalar (as_double c) n in
  Ok (mkSolver (keep mi (v_maxiter v)) (keep tol (v_tol v))).

(** *** time_integration, lines 569-575 *)
Definition read_time (t : time_t) (y : yaml) : res time_t :=
  let! n := child y (txt "max(du)") in let! du := scalar (as_double c) n in
  let! n := child y (txt "min(dt)") in let! mi := scalar (as_double c) n in
  let! n := child y (txt "max(dt)") in let! ma := scalar (as_double c) n in
  Ok (mkTime (keep du (i_dumax t)) (keep mi (i_dt_min t)) (keep ma (i_dt_max t))).

(** ** Settings::read(YAML::Node), lines 314-594 *)
Definition read (s : settings) (doc : yaml) : res settings :=
  let! n := child doc (txt "outputs") in let! o := section n (outputs s) (read_outputs (outputs s)) in
  let! n := child doc (txt "mesh") in let! m := section n (mesh s) (read_mesh (mesh s)) in
  let! n := child doc (txt "initial_magnetization") in let! g := section n (mag s) (read_mag (mag s)) in
  let! n := child doc (txt "initial_time") in let! it := scalar (as_double c) n in
  let! n := child doc (txt "recentering") in let! r := section n (recentering s) (read_rec (recentering s)) in
  let! n := child doc (txt "Bext") in let! f := section n (field s) (read_field (field s)) in
  let! n := child doc (txt "spin_accumulation") in let! a := section n (spin s) (read_spin (spin s)) in
  let! n := child doc (txt "demagnetizing_field_solver") in let! t := section n (threads s) (read_threads (threads s)) in
  let! n := child doc (txt "finite_element_solver") in let! v := section n (solver s) (read_solver (solver s)) in
  let! n := child doc (txt "time_integration") in let! i := section n (time_int s) (read_time (time_int s)) in
  Ok (mkSettings (mkOutputs (o_dir o) (sim_name (o_sim o) (m_pb m)) (o_step o) (o_tf o) (o_period o) (o_columns o) (o_meta o))
                 m g (keep it (initial_time s)) r f a t v i).

(** ** Settings::read(filename), lines 596-619, for a document that could be loaded: a null document changes nothing and
    is reported as no settings (false) *)
Definition read_document (s : settings) (doc : yaml) : res (settings * bool) :=
  match doc with YNull => Ok (s, false) | _ => let! s := read s doc in Ok (s, true) end.

(** the documents of a run, in order: the built-in defaults (constructor), the user's defaults file, the settings file
    (main.cpp lines 206-232) *)
Fixpoint read_all (s : settings) (docs : list yaml) : res settings :=
  match docs with [] => Ok s | d :: r => let! s := read s d in read_all s r end.

(** fem.h lines 100-108: the origin of the initial magnetization *)
Inductive origin := FromFile (f : text) | FromExpression (s : source).
Definition initial_magnetization (s : settings) : origin :=
  match g_restore (mag s) with [] => FromExpression (g_parser (mag s)) | f => FromFile f end.

End Settings.
