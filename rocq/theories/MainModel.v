(** * Start of the program (/repo/src/main.cpp) and chronometer (/repo/src/chronometer.h) *)
From Coq Require Import String Ascii List Arith Bool ZArith.
From Verif Require Import Arith TextModel SolModel.
Import ListNotations.
Local Open Scope nat_scope.

(** ** Command line: parseOptions, main.cpp lines 103-202 *)

(** the seven options, lines 118-126, in order *)
Inductive opt := Help | Version | PrintDefaults | PrintTemplate | Verify | Verbose | SeedOpt.
(** (short_opt, long_opt, setting); the sentinel of line 126 is the end of the list *)
Definition options : list (text * text * opt) :=
  [(txt "-h", txt "--help", Help);
   (txt "-V", txt "--version", Version);
   ([], txt "--print-defaults", PrintDefaults);
   ([], txt "--print-template", PrintTemplate);
   ([], txt "--verify", Verify);
   (txt "-v", txt "--verbose", Verbose);
   ([], txt "--seed", SeedOpt)].

(** lines 134-145: the first option whose short or long name is the argument *)
Fixpoint find_option (os : list (text * text * opt)) (arg : text) : option (text * text * opt) :=
  match os with
  | [] => None
  | o :: l => if text_eqb arg (fst (fst o)) || text_eqb arg (snd (fst o)) then Some o else find_option l arg
  end.

(** the local counters, settings.verbose, and the value of random_seed ([None]: still uninitialised) *)
Record flags := mkFlags { n_help : nat; n_version : nat; n_defaults : nat; n_template : nat; n_verify : nat; n_verbose : nat;
  n_seed : nat; seed_value : option Z }.
Definition no_flags : flags := mkFlags 0 0 0 0 0 0 0 None.
(** line 137: ( *o->setting)++ *)
Definition count (o : opt) (f : flags) : flags :=
  let '(mkFlags h v d t y b s x) := f in
  match o with
  | Help => mkFlags (S h) v d t y b s x
  | Version => mkFlags h (S v) d t y b s x
  | PrintDefaults => mkFlags h v (S d) t y b s x
  | PrintTemplate => mkFlags h v d (S t) y b s x
  | Verify => mkFlags h v d t (S y) b s x
  | Verbose => mkFlags h v d t y (S b) s x
  | SeedOpt => mkFlags h v d t y b (S s) x
  end.
Definition set_seed (z : Z) (f : flags) : flags :=
  let '(mkFlags h v d t y b s _) := f in mkFlags h v d t y b s (Some z).

(** atol (glibc: strtol in base 10, which saturates), then the conversion of long to unsigned int *)
Definition atol (s : text) : Z :=
  let '(sg, s) := take_sign (skip_ws s) in
  let '(ds, _) := span s in
  let v := if sg then (- digits_val ds)%Z else digits_val ds in
  Z.max (- 2 ^ 63) (Z.min (2 ^ 63 - 1) v).
Definition to_unsigned (z : Z) : Z := (z mod 2 ^ 32)%Z.

(** the loop of lines 129-149; the result is what is left of the arguments at optind *)
Fixpoint read_options (args : list text) (f : flags) : flags * list text :=
  match args with
  | [] => (f, [])
  | arg :: l =>
      match find_option options arg with
      | None => (f, args)
      | Some o =>
          let f := count (snd o) f in
          if text_eqb (snd (fst o)) (txt "--seed")
          then match l with
               | [] => read_options l f
               | v :: l' => read_options l' (set_seed (to_unsigned (atol v)) f)
               end
          else read_options l f
      end
  end.

Inductive seed := Given (z : Z) | Uninitialised | FromDevice.
(** what parseOptions does; all but [Run] and [UsageError] exit with status 0, [UsageError] with status 1; [VerifyFile]
    reads the user defaults and the file, prints the settings and exits with status 0 *)
Inductive command :=
  | ShowHelp | ShowVersion | ShowDefaults | ShowTemplate | UsageError
  | VerifyFile (verbose : nat) (file : text)
  | Run (verbose : nat) (file : text) (s : seed).

(** lines 150-201 *)
Definition parse_options (args : list text) : command :=
  let '(f, rest) := read_options args no_flags in
  if negb (n_help f =? 0) then ShowHelp
  else if negb (n_version f =? 0) then ShowVersion
  else if negb (n_defaults f =? 0) then ShowDefaults
  else if negb (n_template f =? 0) then ShowTemplate
  else match rest with
       | [file] =>
           if negb (n_verify f =? 0) then VerifyFile (n_verbose f) file
           else Run (n_verbose f) file (if n_seed f =? 0 then FromDevice
                                        else match seed_value f with Some z => Given z | None => Uninitialised end)
       | _ => UsageError
       end.

(** ** User defaults file, main.cpp lines 21-34; [None]: unset *)
Definition get_env_var (v : option text) : text := match v with Some s => s | None => [] end.
Definition user_defaults_filename (xdg_config_home home : option text) : text :=
  let config_home := get_env_var xdg_config_home in
  let config_home := match config_home with [] => get_env_var home ++ txt "/.config" | _ => config_home end in
  config_home ++ txt "/feellgood/default.yml".

(** ** Chronometer, chronometer.h. Time points of the clock are integers (nanoseconds). *)
Record chronometer := mkChrono { c_start : Z; c_end : Z }.
(** constructors and reset, lines 20-24 and 54-55 *)
Definition chrono_reset (now : Z) : chronometer := mkChrono now now.
(** fp_elapsed, millis and micros, lines 27-33, 46-51, 70-81: the duration end - start *)
Definition chrono_lap (now : Z) (c : chronometer) : chronometer * Z :=
  let start := c_end c in let c := mkChrono start now in (c, (c_end c - c_start c)%Z).
Inductive chrono_call := Reset (now : Z) | Lap (now : Z).
Fixpoint chrono_run (c : chronometer) (calls : list chrono_call) : chronometer * list Z :=
  match calls with
  | [] => (c, [])
  | Reset now :: l => chrono_run (chrono_reset now) l
  | Lap now :: l => let '(c, d) := chrono_lap now c in let '(c, ds) := chrono_run c l in (c, d :: ds)
  end.

(** convertSeconds, lines 36-43; [print] is the conversion of a double by the stream *)
Definition convert_seconds {A : arith} (print : num A -> text) (d : num A) : text :=
  print d ++ txt " s" ++
  (if nle (nZ 3600) d then txt " (" ++ print (ndiv d (nZ 3600)) ++ txt " h)"
   else if nle (nZ 60) d then txt " (" ++ print (ndiv d (nZ 60)) ++ txt " min)" else []) ++ [NL].
