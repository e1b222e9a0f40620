(** * Model of mesh::avg and mesh::thiele, /repo/src/mesh.cpp lines 61-106 *)
From Coq Require Import Reals List Arith Bool.
From Verif Require Import Vec Sums StdModel MeshModel ElemModel.
Import ListNotations.
Local Open Scope R_scope.

(** the position of local node i of a tetrahedron, [p] giving the position of every node *)
Definition corner {X} (p : nat -> X) (t : tet) (i : nat) : X := p (nth i (tet_nodes t) 0%nat).

(** the volume of a tetrahedron of the mesh *)
Definition tet_vol (p : nat -> vec) (t : tet) : R := calc_vol (corner p t).

(** the tetrahedrons listed in magTet *)
Definition nth_tets (tets : list tet) (l : list nat) : list tet := map (fun k => nth k tets (mkTet 0 0 0 0 0)) l.

(** lines 96-103: [region] is None for -1; [x] gives the component of each node *)
Definition in_reg (region : option nat) (t : tet) : bool := match region with None => true | Some r => Nat.eqb (t_reg t) r end.
Definition avg_term (p : nat -> vec) (x : nat -> R) (region : option nat) (t : tet) : R :=
  if in_reg region t then wdot (corner p t) (interp (corner x t)) else 0.

(** line 104: [vols] holds the volumes of the regions and the total magnetic volume *)
Definition avg_volume (vols : list R * R) (region : option nat) : R :=
  match region with None => snd vols | Some r => nth r (fst vols) 0 end.

(** lines 93-105, for any order of the parallel reduction *)
Definition avg_result (p : nat -> vec) (x : nat -> R) (tets : list tet) (magTet : list nat) (vols : list R * R)
    (region : option nat) (r : R) : Prop :=
  exists sum, reduce_result Rplus 0 (map (avg_term p x region) (nth_tets tets magTet)) sum /\
    r = sum / avg_volume vols region.

(** thiele, lines 61-86: [lz] is the length of the sample along z *)
Definition thiele_term (p : nat -> vec) (u : nat -> vec) (region : option nat) (t : tet) : R :=
  if in_reg region t then wdot (corner p t) (fun _ => sqn (deriv (corner p t) (corner u t) 2)) else 0.
Definition thiele_result (p : nat -> vec) (u : nat -> vec) (tets : list tet) (magTet : list nat) (vols : list R * R) (lz : R)
    (region : option nat) (r : R) : Prop :=
  exists sum, reduce_result Rplus 0 (map (thiele_term p u region) (nth_tets tets magTet)) sum /\
    r = 2 * (avg_volume vols region / lz) / sum.
