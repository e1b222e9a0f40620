(** * Model of the nodes: /repo/src/node.h, and the loops over nodes of /repo/src/mesh.h

    Exact reals. The random angle is an argument. *)

From Coq Require Import Reals List.
From Verif Require Import Vec.
Import ListNotations.
Local Open Scope R_scope.

(** node.h lines 46-52 *)
Record dataNode := mkData { d_u : vec; d_v : vec; d_phi : R; d_phiv : R }.

(** node.h lines 58-70: [d[CURRENT]] is [cur], [d[NEXT]] is [nxt] *)
Record node := mkNode { n_p : vec; ep : vec; eq_ : vec; cur : dataNode; nxt : dataNode }.

(** [ep.setUnit(minIdx)] where minIdx is the first index of the smallest absolute component,
    node.h lines 76-78 *)
Definition unit_far (u : vec) : vec :=
  if Rlt_dec (Rabs (vy u)) (Rabs (vx u)) then
    (if Rlt_dec (Rabs (vz u)) (Rabs (vy u)) then V 0 0 1 else V 0 1 0)
  else
    (if Rlt_dec (Rabs (vz u)) (Rabs (vx u)) then V 0 0 1 else V 1 0 0).

(** Node::setBasis, node.h lines 73-102. [paranoid] is the compile-time constant
    PARANOID_ORTHONORMALIZATION of config.h. *)
Definition setBasis (paranoid : bool) (r : R) (n : node) : node :=
  let u := d_u (cur n) in
  let e := unit_far u in                                        (* 78 *)
  let e := vnormalize (vsub e (vscale (dot e u) u)) in          (* 80-81 *)
  let q := cross u e in                                         (* 84 *)
  let e' := vsub (vscale (cos r) e) (vscale (sin r) q) in       (* 87 *)
  let q' := vadd (vscale (sin r) e) (vscale (cos r) q) in       (* 88 *)
  let '(e', q') :=
    if paranoid then                                            (* 93-101 *)
      let e'' := vnormalize (vsub e' (vscale (dot e' u) u)) in
      let q'' := vsub q' (vscale (dot q' u) u) in
      let q'' := vsub q'' (vscale (dot q'' e'') e'') in
      (e'', vnormalize q'')
    else (e', q') in
  {| n_p := n_p n; ep := e'; eq_ := q'; cur := cur n; nxt := nxt n |}.

(** Node::evolution, node.h line 107 *)
Definition evolution (n : node) : node :=
  {| n_p := n_p n; ep := ep n; eq_ := eq_ n; cur := nxt n; nxt := nxt n |}.

(** Node::make_evol, node.h lines 116-122 *)
Definition make_evol (vp vq dt : R) (n : node) : node :=
  let v := vadd (vscale vp (ep n)) (vscale vq (eq_ n)) in
  {| n_p := n_p n; ep := ep n; eq_ := eq_ n; cur := cur n;
     nxt := {| d_u := vnormalize (vadd (d_u (cur n)) (vscale dt v)); d_v := v;
               d_phi := d_phi (nxt n); d_phiv := d_phiv (nxt n) |} |}.

(** Node::proj_ep, proj_eq, node.h lines 125-128 *)
Definition proj_ep (n : node) : R := dot (d_v (nxt n)) (ep n).
Definition proj_eq (n : node) : R := dot (d_v (nxt n)) (eq_ n).

(** set_phi, set_phiv, node.h lines 165-168 *)
Definition set_phi (x : R) (n : node) : node :=
  {| n_p := n_p n; ep := ep n; eq_ := eq_ n; cur := cur n;
     nxt := {| d_u := d_u (nxt n); d_v := d_v (nxt n); d_phi := x; d_phiv := d_phiv (nxt n) |} |}.
Definition set_phiv (x : R) (n : node) : node :=
  {| n_p := n_p n; ep := ep n; eq_ := eq_ n; cur := cur n;
     nxt := {| d_u := d_u (nxt n); d_v := d_v (nxt n); d_phi := d_phi (nxt n); d_phiv := x |} |}.

(** ** What a run does to the nodes of the mesh *)
Definition mesh_nodes := list (bool * node).   (* flag: magNode[i] *)

(** nodes with their index *)
Fixpoint mapi_from {X Y} (f : nat -> X -> Y) (i : nat) (l : list X) : list Y :=
  match l with [] => [] | x :: l' => f i x :: mapi_from f (S i) l' end.

Inductive mesh_op :=
| OpBasis (r : R)
    (** mesh::setBasis, mesh.h lines 178-182: every node *)
| OpUpdate (gamma0 dt : R) (X : nat -> R * R)
    (** the loop of LinAlgebra::solve, solver.cpp lines 74-87: mesh::updateNode (mesh.h line 186) on
        the magnetic nodes, with the solution X of the linear system *)
| OpPotentials (phi phiv : nat -> R)
    (** fmm_demag.h: the potentials of the magnetic nodes *)
| OpEvolution.
    (** mesh::evolution, mesh.h lines 189-193: every node *)

Definition do_op (paranoid : bool) (o : mesh_op) (l : mesh_nodes) : mesh_nodes :=
  match o with
  | OpBasis r => map (fun x => (fst x, setBasis paranoid r (snd x))) l
  | OpUpdate g dt X => mapi_from (fun i (x : bool * node) =>
      if fst x then (true, make_evol (fst (X i) * g) (snd (X i) * g) dt (snd x)) else x) 0 l
  | OpPotentials f g => mapi_from (fun i (x : bool * node) =>
      if fst x then (true, set_phiv (g i) (set_phi (f i) (snd x))) else x) 0 l
  | OpEvolution => map (fun x => (fst x, evolution (snd x))) l
  end.

(** One pass of the time loop (time_integration.cpp lines 193-241): the basis is set, then the solver
    fails ([None]), or its solution is written; a refused trial stops there; an accepted one has its
    potentials computed and copied. *)
Record trial := mkTrial {
  t_angle : R;
  t_solution : option (nat -> R * R);
  t_gamma0 : R;
  t_dt : R;
  t_accepted : bool;
  t_phi : nat -> R;
  t_phiv : nat -> R
}.

Definition trial_ops (t : trial) : list mesh_op :=
  OpBasis (t_angle t) ::
  match t_solution t with
  | None => []
  | Some X => OpUpdate (t_gamma0 t) (t_dt t) X ::
      if t_accepted t then [OpPotentials (t_phi t) (t_phiv t); OpEvolution] else []
  end.

Definition run_trials (paranoid : bool) (ts : list trial) (l : mesh_nodes) : mesh_nodes :=
  fold_left (fun l o => do_op paranoid o l) (flat_map trial_ops ts) l.
