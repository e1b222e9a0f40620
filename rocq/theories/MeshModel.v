(** * Model of the mesh: the constructor of class mesh (/repo/src/mesh.h lines 38-135 from line 50 on),
    mesh::sortNodes and doOnNodes (/repo/src/mesh.cpp), mesh::init_distrib and max_angle (mesh.h)

    Coordinates are exact reals. Node and region indices are natural numbers that address existing nodes
    and regions (the theorems require it where it matters). The mesh file itself is read by gmsh and is not
    modelled: the model starts from the lists of nodes, tetrahedrons and triangles. *)

From Coq Require Import Reals List Arith Bool.
From Flocq Require Import Core.
From Verif Require Import Vec Sums SparseModel StdModel.
Import ListNotations.
Local Open Scope R_scope.

(** The part of Tetra::Tet used here: indices of the four nodes and of the region. [idx] is the position in
    the vector [tet] (read.cpp lines 24-25), so it is not stored. *)
Record tet := mkTet { t0 : nat; t1 : nat; t2 : nat; t3 : nat; t_reg : nat }.
Definition tet_nodes (t : tet) : list nat := [t0 t; t1 t; t2 t; t3 t].

(** The part of Triangle::Tri used here *)
Record tri := mkTri { r0 : nat; r1 : nat; r2 : nat; r_reg : nat }.
Definition tri_nodes (t : tri) : list nat := [r0 t; r1 t; r2 t].

(** ** Bounds and long axis *)
Inductive axis := AX | AY | AZ.
Definition coord (a : axis) (p : vec) : R := match a with AX => vx p | AY => vy p | AZ => vz p end.

(** __DBL_MAX__ and __DBL_MIN__ (the smallest positive normal number) *)
Definition DBL_MAX : R := IZR ((2 ^ 53 - 1) * 2 ^ 971).
Definition DBL_MIN : R := bpow radix2 (-1022).

(** mesh::doOnNodes, mesh.cpp lines 108-119 *)
Definition doOnNodes (init : R) (a : axis) (better : R -> R -> bool) (ps : list vec) : R :=
  fold_left (fun result p => let val := coord a p in if better val result then val else result) ps init.
(** minNodes, maxNodes, mesh.h lines 412-423 *)
Definition minNodes (a : axis) (ps : list vec) : R := doOnNodes DBL_MAX a Rlt_bool ps.
Definition maxNodes (a : axis) (ps : list vec) : R := doOnNodes DBL_MIN a (fun x y => Rlt_bool y x) ps.
(** the length along an axis, mesh.h lines 51-60 *)
Definition extent (a : axis) (ps : list vec) : R := maxNodes a ps - minNodes a ps.
(** mesh.h lines 63-79 *)
Definition long_axis (ps : list vec) : axis :=
  if Rlt_bool (extent AY ps) (extent AX ps) then
    (if Rlt_bool (extent AZ ps) (extent AX ps) then AX else AZ)
  else
    (if Rlt_bool (extent AZ ps) (extent AY ps) then AY else AZ).

(** ** mesh::sortNodes, mesh.cpp lines 334-367 *)

(** lines 337-341: what std::sort may produce from iota *)
Definition sorted_permutation (a : axis) (ps : list vec) (perm : list nat) : Prop :=
  sort_result (fun i j => coord a (nth i ps vzero) < coord a (nth j ps vzero)) (seq 0 (length ps)) perm.

(** lines 342-344: node_index[permutation[i]] = i for i = 0, 1, ... *)
Fixpoint fill_index (i : nat) (perm : list nat) (index : list nat) : list nat :=
  match perm with [] => index | p :: perm' => fill_index (S i) perm' (set_nth p i index) end.
Definition node_index (perm : list nat) : list nat := fill_index 0 perm (repeat 0%nat (length perm)).

(** lines 346-349, for any type of node *)
Definition permuted {X} (perm : list nat) (nodes : list X) (d : X) : list X := map (fun p => nth p nodes d) perm.

(** lines 351-366 *)
Definition renumber_tet (index : list nat) (t : tet) : tet :=
  let f i := nth i index 0%nat in mkTet (f (t0 t)) (f (t1 t)) (f (t2 t)) (f (t3 t)) (t_reg t).
Definition renumber_tri (index : list nat) (t : tri) : tri :=
  let f i := nth i index 0%nat in mkTri (f (r0 t)) (f (r1 t)) (f (r2 t)) (r_reg t).

(** ** Edges, mesh.h lines 99-114 *)
Definition edge := (nat * nat)%type.
(** std::minmax(a, b) *)
Definition minmax (a b : nat) : edge := if (b <? a)%nat then (b, a) else (a, b).
(** lines 104-108 *)
Definition tet_edges (t : tet) : list edge :=
  [minmax (t0 t) (t1 t); minmax (t0 t) (t2 t); minmax (t0 t) (t3 t);
   minmax (t1 t) (t2 t); minmax (t1 t) (t3 t); minmax (t2 t) (t3 t)].
(** std::pair::operator< *)
Definition edge_ltb (e f : edge) : bool :=
  (fst e <? fst f)%nat || (negb (fst f <? fst e)%nat && (snd e <? snd f)%nat).
Definition edge_eqb (e f : edge) : bool := (fst e =? fst f)%nat && (snd e =? snd f)%nat.
(** lines 101-112: what the vector [edges] may be at the end *)
Definition edges_result (tets : list tet) (edges : list edge) : Prop :=
  exists sorted, sort_result (fun e f => edge_ltb e f = true) (flat_map tet_edges tets) sorted /\
    edges = unique edge_eqb sorted.

(** ** Magnetic elements and nodes. [Ms] is the list of the Ms of the volume regions. *)
(** isMagnetic(Tet), mesh.h lines 331-332 *)
Definition mag_tet (Ms : list R) (t : tet) : bool := Rlt_bool 0 (nth (t_reg t) Ms 0).
(** isMagnetic(Tri), mesh.h lines 335-336 *)
Definition mag_tri (magNode : list bool) (f : tri) : bool :=
  nth (r0 f) magNode false && nth (r1 f) magNode false && nth (r2 f) magNode false.

(** lines 115-126: magNode and magTet *)
Definition mark_tet (Ms : list R) (st : list bool * list nat) (it : nat * tet) : list bool * list nat :=
  if mag_tet Ms (snd it) then
    (fold_left (fun m i => set_nth i true m) (tet_nodes (snd it)) (fst st), snd st ++ [fst it])
  else st.
Definition mark (Ms : list R) (nodes : nat) (tets : list tet) : list bool * list nat :=
  fold_left (mark_tet Ms) (combine (seq 0 (length tets)) tets) (repeat false nodes, []).
Definition magNode_of Ms nodes tets := fst (mark Ms nodes tets).
Definition magTet_of Ms nodes tets := snd (mark Ms nodes tets).

(** lines 128-132; [suppress] holds the flag of each surface region *)
Definition magTri_of (magNode : list bool) (suppress : list bool) (tris : list tri) : list nat :=
  fold_left (fun l (it : nat * tri) =>
    if mag_tri magNode (snd it) && negb (nth (r_reg (snd it)) suppress false) then l ++ [fst it] else l)
    (combine (seq 0 (length tris)) tris) [].

(** lines 93-97: volumeRegions *)
Definition volume_regions (regions : nat) (tets : list tet) : list (list nat) :=
  fold_left (fun l (it : nat * tet) =>
    set_nth (t_reg (snd it)) (nth (t_reg (snd it)) l [] ++ [fst it]) l)
    (combine (seq 0 (length tets)) tets) (repeat [] regions).

(** lines 81-92: the volumes of the regions and the total magnetic volume; [vol] is Tet::calc_vol.
    Region volumes start at 0 (tetra.h, struct prm). *)
Definition add_volume (Ms : list R) (vol : tet -> R) (st : list R * R) (t : tet) : list R * R :=
  (set_nth (t_reg t) (nth (t_reg t) (fst st) 0 + vol t) (fst st),
   if mag_tet Ms t then snd st + vol t else snd st).
Definition volumes (Ms : list R) (vol : tet -> R) (regions : nat) (tets : list tet) : list R * R :=
  fold_left (add_volume Ms vol) tets (repeat 0 regions, 0).

(** ** mesh::max_angle, mesh.h lines 295-306; [u] gives the NEXT magnetization of a node *)
Definition max_angle_result (edges : list edge) (u : nat -> vec) (r : R) : Prop :=
  exists m, reduce_result Rmin 1 (map (fun e => dot (u (fst e)) (u (snd e))) edges) m /\ r = acos m.

(** ** mesh::init_distrib, mesh.h lines 221-277 *)
Section init.
Variables (regName : Type) (names : list regName) (noname : regName).
(** the user's functions: mag_parser.get_vector(p) and get_vector(p, regions) *)
Variables (of_position : vec -> vec) (of_regions : vec -> list regName -> vec).
Variables (tets : list tet) (magNode : list bool) (regions : list (list nat)).

(** lines 255-262: does the node belong to a tetrahedron of the list? *)
Definition in_region (i : nat) (l : list nat) : bool :=
  existsb (fun k => existsb (Nat.eqb i) (tet_nodes (nth k tets (mkTet 0 0 0 0 0)))) l.

(** lines 246-268: indices of the regions, from 1 on (region 0 is __default__), ascending as std::set
    iterates *)
Definition node_regions (i : nat) : list nat :=
  filter (fun r => in_region i (nth r regions [])) (seq 1 (length regions - 1)).

(** [None]: the vector (NAN, NAN, NAN), lines 230-235; [position_only]: getMagType() == POSITION_ONLY.
    The result is assigned to both time levels of the node (lines 233-234, 241-242, 274-275);
    settings.h lines 267-284 normalize the user's vector. *)
Definition init_u (position_only : bool) (i : nat) (p : vec) : option vec :=
  if nth i magNode false then
    Some (vnormalize (if position_only then of_position p
                      else of_regions p (map (fun r => nth r names noname) (node_regions i))))
  else None.

(** both time levels after init_distrib, with potentials set to zero at NEXT (lines 226-227) *)
Definition init_distrib (position_only : bool) (ps : list vec) : list (option vec * option vec) :=
  map (fun ip => let u := init_u position_only (fst ip) (snd ip) in (u, u)) (combine (seq 0 (length ps)) ps).
End init.
