(** * Concurrent calls of SparseMatrix::add: /repo/src/algebra/sparseMat.h lines 114-124

    Any number of threads each run a sequence of [add] calls (the parallel assembly of
    solver.cpp/solver.h). One call is four actions: lock the mutex of the row, read the value, write
    the sum, unlock. The look-up of the reference (line 120) reads the indices only, which no thread
    writes. Memory is sequentially consistent: the accesses between lock and unlock are ordered by
    the mutex (that no unordered accesses to one row exist is what [mutual exclusion] proves). *)

From Coq Require Import List Arith Bool.
From Verif Require Import Arith SparseModel.
Import ListNotations.

Section model.
Context {A : arith}.

(** one pending call of [add]: row, column, value *)
Definition call := (nat * nat * num A)%type.

Inductive phase := Idle | Locked | HasRead (x : num A) | Written.

Record thread := mkThread { prog : list call; ph : phase }.

Record gstate := mkG {
  g_mat : matrix A;
  g_mutex : nat -> option nat;      (* row -> number of the thread that holds its mutex *)
  g_threads : list thread
}.

Definition fupd {X} (f : nat -> X) (i : nat) (x : X) : nat -> X := fun k => if k =? i then x else f k.

(** the reference of line 120, read *)
Definition mref (m : matrix A) (i j : nat) : option (num A) :=
  match nth_error m i with
  | Some r => nth_error (values r) (lower_bound (indices r) j)
  | None => None
  end.

(** One action of thread [t]; [None] when the thread is finished, or blocked on a mutex (or about to
    make an access that is undefined behaviour). *)
Definition cstep (g : gstate) (t : nat) : option gstate :=
  match nth_error (g_threads g) t with
  | None => None
  | Some (mkThread p f) =>
      match p with
      | [] => None
      | (i, j, val) :: rest =>
          match f with
          | Idle =>                                        (* mutex.lock(), line 121 *)
              match g_mutex g i with
              | None => Some (mkG (g_mat g) (fupd (g_mutex g) i (Some t))
                                  (set_nth t (mkThread p Locked) (g_threads g)))
              | Some _ => None
              end
          | Locked =>                                      (* line 122: load *)
              match mref (g_mat g) i j with
              | Some x => Some (mkG (g_mat g) (g_mutex g)
                                  (set_nth t (mkThread p (HasRead x)) (g_threads g)))
              | None => None
              end
          | HasRead x =>                                   (* line 122: store *)
              match mset (g_mat g) i j (nadd x val) with
              | Some m' => Some (mkG m' (g_mutex g)
                                  (set_nth t (mkThread p Written) (g_threads g)))
              | None => None
              end
          | Written =>                                     (* mutex.unlock(), line 123 *)
              Some (mkG (g_mat g) (fupd (g_mutex g) i None)
                        (set_nth t (mkThread rest Idle) (g_threads g)))
          end
      end
  end.

(** A schedule names the thread to run at each instant; a thread that cannot act waits. *)
Definition crun (g : gstate) (sched : list nat) : gstate :=
  fold_left (fun g t => match cstep g t with Some g' => g' | None => g end) sched g.

Definition start (m : matrix A) (progs : list (list call)) : gstate :=
  mkG m (fun _ => None) (map (fun p => mkThread p Idle) progs).

Definition all_done (g : gstate) : Prop := Forall (fun th => prog th = []) (g_threads g).
End model.

Arguments call : clear implicits.
Arguments gstate : clear implicits.
Arguments thread : clear implicits.
