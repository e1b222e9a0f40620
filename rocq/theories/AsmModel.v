(** * Model of the assembly and of the solution of the linear system of a time step:
      /repo/src/solver.h, /repo/src/solver.cpp, /repo/src/linear_algebra.h, /repo/src/linear_algebra.cpp

    Over any arithmetic. Indices are natural numbers. *)
From Coq Require Import List ZArith Arith Bool.
From Verif Require Import Arith SparseModel ConcModel IterModel.
Import ListNotations.

(** ** Shape of the matrix, solver.h lines 75-104 *)
(** std::set<int>::insert on the ascending list of the elements *)
Fixpoint set_insert (x : nat) (l : list nat) : list nat :=
  match l with
  | [] => [x]
  | y :: l' => if x <? y then x :: l else if y <? x then y :: set_insert x l' else l
  end.
(** shape[i].insert(j) *)
Definition shape_insert (sh : shape) (ij : nat * nat) : shape :=
  set_nth (fst ij) (set_insert (snd ij) (nth (fst ij) sh [])) sh.
(** add_block, lines 81-88: the positions in the order of the loops *)
Definition block (D i j : nat) : list (nat * nat) :=
  flat_map (fun k => map (fun l => (D * i + k, D * j + l)) (seq 0 D)) (seq 0 D).
(** lines 77, 90-101 *)
Definition build_shape (D NOD : nat) (edges : list (nat * nat)) (edge_filter : nat * nat -> bool) : shape :=
  let sh := fold_left (fun sh i => fold_left shape_insert (block D i i) sh) (seq 0 NOD) (repeat [] (D * NOD)) in
  fold_left (fun sh e => if edge_filter e
    then fold_left shape_insert (block D (snd e) (fst e)) (fold_left shape_insert (block D (fst e) (snd e)) sh)
    else sh) edges sh.

(** an element as the assembly sees it: its nodes, matrix and vector *)
Record elem (V : Type) := mkElem { e_ind : list nat; e_Ke : nat -> nat -> V; e_Le : nat -> V }.
Arguments mkElem {V}. Arguments e_ind {V}. Arguments e_Ke {V}. Arguments e_Le {V}.

Section elements.
Context {V : Type}.
Definition e_N (e : elem V) : nat := length (e_ind e).
Definition e_nod (e : elem V) (k : nat) : nat := nth k (e_ind e) 0.

(** buildMat, lines 109-129: the calls of SparseMatrix::add it makes, in order *)
Definition mat_calls (D : nat) (e : elem V) : list (nat * nat * V) :=
  flat_map (fun ie => flat_map (fun je => flat_map (fun di => map (fun dj =>
    (D * e_nod e ie + di, D * e_nod e je + dj, e_Ke e (di * e_N e + ie) (dj * e_N e + je)))
      (seq 0 D)) (seq 0 D)) (seq 0 (e_N e))) (seq 0 (e_N e)).

(** buildVect, lines 134-143: the updates of L_rhs, in order *)
Definition vect_calls (D : nat) (e : elem V) : list (nat * V) :=
  flat_map (fun ie => map (fun di => (D * e_nod e ie + di, e_Le e (di * e_N e + ie))) (seq 0 D)) (seq 0 (e_N e)).
End elements.

Section model.
Context {A : arith}.

(** line 141 *)
Definition vect_add (L : list (num A)) (c : nat * num A) : list (num A) :=
  set_nth (fst c) (nadd (nth (fst c) L n0) (snd c)) L.
Definition buildVect (D : nat) (L : list (num A)) (e : elem (num A)) : list (num A) := fold_left vect_add (vect_calls D e) L.

(** ** LinAlgebra *)
(** linear_algebra.h line 43: the edge filter *)
Definition mag_filter (magNode : list bool) (e : nat * nat) : bool := nth (fst e) magNode false && nth (snd e) magNode false.
(** linear_algebra.h lines 55-62 *)
Definition lvd_of (magNode : list bool) : list nat :=
  flat_map (fun i => if nth i magNode false then [] else [2 * i; 2 * i + 1]) (seq 0 (length magNode)).
(** buildInitGuess, linear_algebra.cpp lines 13-24; [proj i] is (getProj_ep(i), getProj_eq(i)) *)
Definition init_guess (gamma0 : num A) (magNode : list bool) (proj : nat -> num A * num A) : list (num A) :=
  flat_map (fun i => if nth i magNode false then [ndiv (fst (proj i)) gamma0; ndiv (snd (proj i)) gamma0] else [n0; n0])
    (seq 0 (length magNode)).

(** the right-hand side, solver.cpp lines 25-42: tetrahedrons, then triangles *)
Definition rhs_of (NOD : nat) (tets tris : list (elem (num A))) : list (num A) :=
  fold_left (buildVect 2) tris (fold_left (buildVect 2) tets (repeat n0 (2 * NOD))).

(** solver.cpp lines 47-48 *)
Fixpoint set_diag (K : matrix A) (lvd : list nat) : option (matrix A) :=
  match lvd with
  | [] => Some K
  | i :: l => match mset K i i n1 with Some K' => set_diag K' l | None => None end
  end.

(** lines 74-84: the largest squared speed over the magnetic nodes *)
Definition v2_of (X : list (num A)) (i : nat) : num A :=
  nadd (nmul (nth (2 * i) X n0) (nth (2 * i) X n0)) (nmul (nth (2 * i + 1) X n0) (nth (2 * i + 1) X n0)).
Definition v2max_of (magNode : list bool) (X : list (num A)) : num A :=
  fold_left (fun m i => if nth i magNode false then (if nlt m (v2_of X i) then v2_of X i else m) else m)
    (seq 0 (length magNode)) n0.

(** LinAlgebra::solve, solver.cpp lines 6-90, without the messages.
    - [K] is the matrix left by the previous call, [it] the monitor;
    - [work] is a distribution of the magnetic tetrahedrons over the threads of line 12, [sched] a schedule of
      these threads long enough for all of them to finish (otherwise the result is [None]);
    - [passes] bounds the passes of the solver ([None] when it is not enough);
    - [upd i vp vq] is mesh::updateNode(i, vp, vq, dt).
    The answer: the value returned, the nodes, v_max (None: not written), and what the next call starts with. *)
Record solve_out (N : Type) := mkOut { o_fail : bool; o_nodes : list N; o_vmax : option (num A); o_K : matrix A; o_iter : iteration A; o_X : list (num A) }.

Definition solve_failed (it : iteration A) : bool :=
  match status it with ITER_OVERFLOW | CANNOT_CONVERGE => true | _ => nlt (resmax it) (res it) end.

Fixpoint update_from {N} (upd : num A -> num A -> N -> N) (magNode : list bool) (X : list (num A)) (i : nat) (nodes : list N) : list N :=
  match nodes with
  | [] => []
  | nd :: l => (if nth i magNode false then upd (nth (2 * i) X n0) (nth (2 * i + 1) X n0) nd else nd)
               :: update_from upd magNode X (S i) l
  end.

Definition done_b (g : gstate A) : bool := forallb (fun th => match prog th with [] => true | _ => false end) (g_threads g).

Definition lin_solve {N : Type} (upd : num A -> num A -> N -> N) (gamma0 : num A)
    (passes : nat) (magNode : list bool) (it : iteration A) (K : matrix A) (proj : nat -> num A * num A)
    (work : list (list (elem (num A)))) (sched : list nat) (tets tris : list (elem (num A))) (nodes : list N) : option (solve_out N) :=
  let g := crun (start (clear K) (map (flat_map (mat_calls 2)) work)) sched in
  if done_b g then
    let lvd := lvd_of magNode in
    let L := applyMask lvd (rhs_of (length magNode) tets tris) in
    match set_diag (g_mat g) lvd with
    | None => None
    | Some K' =>
        match bicg_dir0 passes (reset it) K' (init_guess gamma0 magNode proj) L lvd with
        | None => None
        | Some (it', X) =>
            if solve_failed it' then Some (mkOut N true nodes None K' it' X)
            else Some (mkOut N false (update_from upd magNode X 0 nodes) (Some (nmul gamma0 (nsqrt (v2max_of magNode X)))) K' it' X)
        end
    end
  else None.
End model.
