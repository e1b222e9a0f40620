(** * Model of the creation of the output directory (/repo/src/main.cpp lines 36-70, called on line 234)

    The file system is a map from paths to what they hold; stat and mkdir are those of POSIX restricted to the errors on which the
    program depends: a missing component (ENOENT), a component that is not a directory (ENOTDIR), a permission (EACCES), an existing
    name (EEXIST). Symbolic links, full disks and the removal of directories by other programs are left out. *)
From Coq Require Import String List Bool Arith.
Import ListNotations.

Definition path := list string.
Inductive kind := KDir | KFile.
Inductive err := ENOENT | ENOTDIR | EACCES | EEXIST.
Definition fsys := path -> option kind.

Section model.
(** the directories that may be searched, and those in which a name may be created *)
Variables (search write : path -> bool).

(** the walk through the components of a path, up to the last one excluded *)
Fixpoint walk (fs : fsys) (base : path) (rest : list string) : option err :=
  match rest with
  | [] => None
  | c :: r =>
      match fs base with
      | None => Some ENOENT
      | Some KFile => Some ENOTDIR
      | Some KDir => if search base then walk fs (base ++ [c]) r else Some EACCES
      end
  end.

(** stat(2) *)
Definition stat (fs : fsys) (p : path) : err + kind :=
  match walk fs [] p with
  | Some e => inl e
  | None => match fs p with Some k => inr k | None => inl ENOENT end
  end.

(** mkdir(2) *)
Definition mkdir (fs : fsys) (p : path) : err + fsys :=
  match walk fs [] p with
  | Some e => inl e
  | None =>
      match fs p with
      | Some _ => inl EEXIST
      | None => if write (removelast p) then inr (fun q => if list_eq_dec string_dec q p then Some KDir else fs q) else inl EACCES
      end
  end.

(** create_dir_if_needed, lines 37-70: before the call of stat, before the call of mkdir, returned (with the message "created" or
    "already exists"), exit(1) *)
Inductive progress := AtStat | AtMkdir | Ready (created : bool) | Stopped.

(** one system call and what follows it: lines 41-60, lines 63-69 *)
Definition advance (p : path) (fs : fsys) (s : progress) : fsys * progress :=
  match s with
  | AtStat =>
      match stat fs p with
      | inl ENOENT => (fs, AtMkdir)
      | inl _ => (fs, Stopped)
      | inr KDir => (fs, Ready false)
      | inr KFile => (fs, Stopped)
      end
  | AtMkdir => match mkdir fs p with inr fs' => (fs', Ready true) | inl _ => (fs, Stopped) end
  | Ready c => (fs, Ready c)
  | Stopped => (fs, Stopped)
  end.

(** one program alone *)
Definition create_dir_if_needed (p : path) (fs : fsys) : fsys * progress :=
  let '(fs, s) := advance p fs AtStat in advance p fs s.

(** several programs, each with its own output directory; [sched] says which one makes the next system call *)
Definition program := (path * progress)%type.
Fixpoint replace_nth {X} (i : nat) (x : X) (l : list X) : list X :=
  match l with [] => [] | y :: r => match i with O => x :: r | S j => y :: replace_nth j x r end end.
Definition turn (st : fsys * list program) (i : nat) : fsys * list program :=
  match nth_error (snd st) i with
  | None => st
  | Some (p, s) => let '(fs, s') := advance p (fst st) s in (fs, replace_nth i (p, s') (snd st))
  end.
Definition together (sched : list nat) (st : fsys * list program) : fsys * list program := fold_left turn sched st.
End model.
