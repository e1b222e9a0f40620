(** * Model of class SparseMatrix: /repo/src/algebra/sparseMat.h

    Over any arithmetic. Indices are natural numbers: the code takes [int]s and asserts that they are
    not negative. An access that is undefined behaviour in C++ (a row or a coefficient past the end of
    its vector) gives [None]. *)

From Coq Require Import List Arith Bool.
From Verif Require Import Arith.
Import ListNotations.

(** MatrixShape, sparseMat.h line 38: one std::set<int> per row, here the ascending list of its
    elements *)
Definition shape := list (list nat).

(** [l[i] = x] on a std::vector (i in range) *)
Fixpoint set_nth {X} (i : nat) (x : X) (l : list X) : list X :=
  match l, i with
  | [], _ => []
  | _ :: l', O => x :: l'
  | y :: l', S i' => y :: set_nth i' x l'
  end.

Section model.
Context {A : arith}.

(** SparseVector, lines 59-75 (the mutex is in ConcModel.v) *)
Record srow := mkRow { indices : list nat; values : list (num A) }.
(** line 190 *)
Definition matrix := list srow.

(** std::lower_bound on a sorted range: position of the first element not less than j, or the length *)
Fixpoint lower_bound (l : list nat) (j : nat) : nat :=
  match l with [] => 0 | x :: l' => if x <? j then S (lower_bound l' j) else 0 end.

(** constructor, lines 79-90 (resize value-initialises to 0) *)
Definition new_matrix (sh : shape) : matrix :=
  map (fun row => mkRow row (repeat n0 (length row))) sh.

(** clear, lines 93-98 *)
Definition clear (m : matrix) : matrix :=
  map (fun r => mkRow (indices r) (map (fun _ => n0) (values r))) m.

(** SparseVector::operator[], lines 68-74, followed by a store of [f] of the value referred to. The
    assertion of line 71 is compiled out of release builds: when the index is not in the shape but a
    larger one is, the reference is to that one's value. *)
Definition update_row (r : srow) (j : nat) (f : num A -> num A) : option srow :=
  let k := lower_bound (indices r) j in
  match nth_error (values r) k with
  | Some v => Some (mkRow (indices r) (set_nth k (f v) (values r)))
  | None => None
  end.

Definition update (m : matrix) (i j : nat) (f : num A -> num A) : option matrix :=
  match nth_error m i with
  | Some r => match update_row r j f with
              | Some r' => Some (set_nth i r' m)
              | None => None
              end
  | None => None
  end.

(** set, lines 103-108 *)
Definition mset (m : matrix) (i j : nat) (val : num A) : option matrix := update m i j (fun _ => val).
(** add, lines 114-124, run by one thread *)
Definition madd (m : matrix) (i j : nat) (val : num A) : option matrix :=
  update m i j (fun v => nadd v val).

(** operator(), lines 144-154 *)
Definition mget (m : matrix) (i j : nat) : option (num A) :=
  match nth_error m i with
  | None => None
  | Some r =>
      let k := lower_bound (indices r) j in
      match nth_error (indices r) k with
      | Some j' => if j' =? j then nth_error (values r) k else Some n0
      | None => Some n0
      end
  end.

(** the lambda of mult, lines 163-169. The loop accesses [X[row.indices[k]]]; an index past the end of
    X reads as 0 here, the theorems require X as long as the matrix. *)
Definition row_dot (r : srow) (X : list (num A)) : num A :=
  fold_left (fun val kv => nadd val (nmul (snd kv) (nth (fst kv) X n0)))
    (combine (indices r) (values r)) n0.

(** mult, lines 157-170: a std::transform with an execution policy; [order] is the order in which the
    rows are processed, Y the previous contents of the result *)
Definition mult_in_order (order : list nat) (m : matrix) (X Y : list (num A)) : list (num A) :=
  fold_left (fun Y i => match nth_error m i with Some r => set_nth i (row_dot r X) Y | None => Y end)
    order Y.

(** the same, all rows at once *)
Definition mmult (m : matrix) (X : list (num A)) : list (num A) := map (fun r => row_dot r X) m.

(** build_diag_precond, lines 173-183 *)
Definition diag_precond (m : matrix) : list (num A) :=
  map (fun i => ndiv n1 (match mget m i i with Some c => c | None => n0 end)) (seq 0 (length m)).

(** print, lines 127-141, is not modelled. *)

(** calls a client can make *)
Inductive mop := MClear | MSet (i j : nat) (v : num A) | MAdd (i j : nat) (v : num A).
Definition mstep (m : matrix) (o : mop) : option matrix :=
  match o with
  | MClear => Some (clear m)
  | MSet i j v => mset m i j v
  | MAdd i j v => madd m i j v
  end.
Fixpoint mrun (m : matrix) (os : list mop) : option matrix :=
  match os with
  | [] => Some m
  | o :: os' => match mstep m o with Some m' => mrun m' os' | None => None end
  end.
End model.

Arguments srow : clear implicits.
Arguments matrix : clear implicits.
Arguments mop : clear implicits.
