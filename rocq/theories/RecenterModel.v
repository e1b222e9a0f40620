(** * Model of Fem::recenter, /repo/src/recentering.cpp lines 47-131

    Exact real arithmetic. The magnetization of a node is an [option vec] whose [None] is (NAN, NAN, NAN), which
    init_distrib gives to the nodes that are not magnetic (mesh.h lines 230-235). *)
From Coq Require Import Reals List Arith Bool ZArith.
From Flocq Require Import Core.
From Verif Require Import Vec MeshModel.
Import ListNotations.
Local Open Scope R_scope.

(** what recenter reads and writes of a node: position, CURRENT and NEXT magnetization, NEXT velocity *)
Record rnode := mkR { rn_p : vec; rn_u0 : option vec; rn_u : option vec; rn_v : option vec }.

(** enum index, node.h lines 24-30: IDX_UNDEF = -1, IDX_X = 0, IDX_Y = 1, IDX_Z = 2. The parameter of recenter has
    type char and its argument is settings.recentering_direction, of type Nodes::index
    (time_integration.cpp line 241), so that the char is the number of the axis *)
Definition index_of (a : axis) : Z := match a with AX => 0 | AY => 1 | AZ => 2 end.
(** lines 51-57; 'X', 'Y', 'Z' are 88, 89, 90 *)
Definition dir_of_char (c : Z) : axis :=
  if (c =? 88)%Z then AX else if (c =? 89)%Z then AY else if (c =? 90)%Z then AZ else AZ.

Definition unit_of (a : axis) : vec := match a with AX => V 1 0 0 | AY => V 0 1 0 | AZ => V 0 0 1 end.

Inductive recenter_out :=
| Unchanged                       (* returns false *)
| NoWall                          (* exit(1) *)
| UndefinedBehaviour              (* a point with NaN coordinates is searched *)
| Recentered (l : list rnode).    (* returns true *)

Section recenter.
(** centre and extents of the mesh; kdtree->annkSearch(q, 1, nnIdx, dists, 0), nnIdx[0]; msh.avg *)
Variables (c l : vec) (nearest : vec -> nat) (avg : axis -> R).
Variable nodes : list rnode.
Definition dnode : rnode := mkR vzero None None None.
(** msh.getNode_u, mesh.h line 156 *)
Definition node_u (i : nat) : option vec := rn_u (nth i nodes dnode).

(** lines 73 and 85 *)
Definition left_pt (a : axis) : vec := vsub c (vscale (1 / 2) (V (vx (unit_of a) * vx l) (vy (unit_of a) * vy l) (vz (unit_of a) * vz l))).
Definition right_pt (a : axis) : vec := vadd c (vscale (1 / 2) (V (vx (unit_of a) * vx l) (vy (unit_of a) * vy l) (vz (unit_of a) * vz l))).

(** lines 105-114: the point whose magnetization node i receives *)
Definition shifted (a : axis) (D : R) (p : vec) : vec :=
  let p := vadd p (vscale D (unit_of a)) in
  let p := if Rlt_bool (1 / 2 * coord a l) (coord a p - coord a c) then vadd c (vscale (1 / 2 * coord a l) (unit_of a)) else p in
  if Rlt_bool (coord a p - coord a c) (- (1 / 2) * coord a l) then vsub c (vscale (1 / 2 * coord a l) (unit_of a)) else p.

(** lines 119-123; mesh.h lines 168-172 *)
Definition recenter_node (a : axis) (D : R) (n : rnode) : rnode :=
  mkR (rn_p n) (node_u (nearest (shifted a D (rn_p n)))) (rn_u n) (Some vzero).

(** lines 47-131. The assertion of line 100 is compiled out of release builds. *)
Definition recenter (thres : R) (recentering_direction : Z) : recenter_out :=
  let a := dir_of_char recentering_direction in
  let m_i := avg a in
  if Rlt_bool (Rabs m_i) (Rabs thres) then Unchanged
  else
    match node_u (nearest (left_pt a)), node_u (nearest (right_pt a)) with
    | Some uL, Some uR =>
        if Rlt_bool 0 (coord a uL * coord a uR) then NoWall
        else Recentered (map (recenter_node a (m_i * (1 / 2) * coord a l * coord a uL)) nodes)
    | None, _ => UndefinedBehaviour     (* the shift is NaN *)
    | Some uL, None => Recentered (map (recenter_node a (m_i * (1 / 2) * coord a l * coord a uL)) nodes)
    end.
End recenter.

(** ** The two time levels of the nodes, as the time loop sees them (node.h lines 32-52): magnetization, velocity and
    magnetostatic potential of each node. [None] is (NAN, NAN, NAN). *)
Record lnode := mkL { l_u : option vec; l_v : option vec; l_phi : R }.
Definition dlnode : lnode := mkL None None 0.

(** what recenter is given: the positions, CURRENT and NEXT *)
Definition rnodes (pos : list vec) (cur nxt : list lnode) : list rnode :=
  map (fun i => mkR (nth i pos vzero) (l_u (nth i cur dlnode)) (l_u (nth i nxt dlnode)) (l_v (nth i nxt dlnode))) (seq 0 (length pos)).

(** time_integration.cpp line 241: the two levels after the call of recenter. set_node_u0 writes the magnetization of
    CURRENT, set_node_zero_v the velocity of NEXT (mesh.h lines 168-172); nothing else is written. [None]: exit(1). The
    undefined case is kept apart by the inner option. *)
Definition recenter_levels (c l : vec) (nearest : vec -> nat) (avg : list lnode -> axis -> R) (pos : list vec) (thres : R) (dir : Z)
    (cur nxt : list lnode) : option (option (list lnode * list lnode)) :=
  match recenter c l nearest (avg nxt) (rnodes pos cur nxt) thres dir with
  | Unchanged => Some (Some (cur, nxt))
  | NoWall => Some None
  | UndefinedBehaviour => None
  | Recentered ns =>
      Some (Some (map (fun i => let n := nth i cur dlnode in mkL (rn_u0 (nth i ns dnode)) (l_v n) (l_phi n)) (seq 0 (length cur)),
                  map (fun i => let n := nth i nxt dlnode in mkL (l_u n) (rn_v (nth i ns dnode)) (l_phi n)) (seq 0 (length nxt))))
  end.
