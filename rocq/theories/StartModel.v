(** * From the command line to the settings of a run: main (/repo/src/main.cpp lines 187-232) and
      Settings::read(filename) (/repo/src/settings.cpp lines 596-616)

    What YAML::LoadFile and YAML::Load(std::cin) give is an argument of the model. Messages, the mesh and what follows the
    reading of the settings are not modelled here. *)
From Coq Require Import String Ascii List Arith Bool ZArith.
From Verif Require Import Arith TextModel ColumnModel SettingsModel MainModel PrintModel.
Import ListNotations.

(** YAML::BadFile, another exception of yaml-cpp (nobody catches it), or the document *)
Inductive file := Unreadable | Malformed | Document (doc : yaml).

Section start.
Context {A : arith}.
Variables (c : @conv A) (mu0 : num A) (cpus : Z).
(** the files by name, and the standard input *)
Variables (files : text -> file) (stdin : file).
(** the environment variables XDG_CONFIG_HOME and HOME *)
Variables (xdg home : option text).

(** Settings::read(filename), lines 596-616 *)
Definition read_named (s : @settings A) (filename : text) : res (settings * bool) :=
  match (if text_eqb filename (txt "-") then stdin else files filename) with
  | Unreadable => Ok (s, false)
  | Malformed => Throw
  | Document doc => read_document c mu0 cpus s doc
  end.

(** how the program goes on: [Shown] is an exit with status 0 after printing the settings (--verify), [NoSettings] the exit
    with status 1 of main.cpp lines 227-231, [Rejected] the exit with status 1 of Settings::error, [Aborted] an exception
    that nobody catches, [Started] is main at line 232, [Other] the commands that read no file *)
Inductive outcome := Other (k : command) | Shown (s : @settings A) | NoSettings | Rejected | Aborted | Started (s : @settings A) (sd : seed).

(** [s] is the object built at main.cpp line 206, by the constructor of settings.cpp lines 134-143 *)
Definition start (s : @settings A) (args : list text) : outcome :=
  match parse_options args with
  | VerifyFile _ file =>
      match (let! r := read_named s (user_defaults_filename xdg home) in read_named (fst r) file) with
      | Ok (s, _) => Shown s
      | Error => Rejected
      | Throw => Aborted
      end
  | Run _ file sd =>
      match (let! r := read_named s (user_defaults_filename xdg home) in read_named (fst r) file) with
      | Ok (s, true) => Started s sd
      | Ok (_, false) => NoSettings
      | Error => Rejected
      | Throw => Aborted
      end
  | k => Other k
  end.
(** the whole: the constructor reads the built-in defaults into the members [raw] *)
Definition program (raw : @settings A) (args : list text) : outcome :=
  match read c mu0 cpus raw default_document with
  | Ok s => start s args
  | Error => Rejected
  | Throw => Aborted
  end.
End start.
