(** * Model of the computation of the demagnetizing potential: class fmm (/repo/src/fmm_demag.h) and
      Tri::correctionCharges, Tri::potential (/repo/src/triangle.cpp lines 61-78, 87-125)

    Exact real arithmetic. The octree of ScalFMM is seen as a list of leaves among which it distributes the particles
    inserted in it, in any way; the fast multipole algorithm is a function of the values and positions of the sources,
    given as an argument ([exec]). *)
From Coq Require Import Reals List Arith Bool Permutation.
From Verif Require Import Vec Sums SparseModel StdModel MeshModel ElemModel AvgModel EnergyModel.
Import ListNotations.
Local Open Scope R_scope.

(** ** Potential of a charged triangle at one of its vertices, triangle.cpp lines 87-125. [q] gives the positions of
    the three nodes, [s] the values of getter(node).dot(n). The test of lines 104-108 never succeeds, since surf is half a
    norm; it is left out. *)
Definition f_ (x : R) : R := sqrt (1 + x * x).
Definition next3 (i : nat) : nat := match i with O => 1%nat | 1%nat => 2%nat | _ => 0%nat end.
Definition tri_potential (dMs : R) (q : nat -> vec) (s : nat -> R) (i : nat) : R :=
  let ii := next3 i in                                   (* (i + 1) % 3 *)
  let iii := next3 (next3 i) in                          (* (i + 2) % 3 *)
  let p1p2 := vsub (q ii) (q i) in
  let p1p3 := vsub (q iii) (q i) in
  let b := vnorm p1p2 in
  let t := dot p1p2 p1p3 / b in
  let s2_ := 2 * calc_surf q in
  let h := s2_ / b in
  let c := (t - b) / h in
  let r := h * f_ (t / h) in
  let log_1 := ln ((c * t + h + f_ c * r) / (b * (c + f_ c))) in
  let xi := b * log_1 / f_ c in
  let pot := xi * s i + ((xi * (h + c * t) - b * (r - b)) * s ii + b * (r - b - c * xi) * s iii) * b / (s2_ * (1 + c * c)) in
  1 / 2 * dMs * pot.

(** ** Particles of the tree *)
Record particle := mkParticle { pt_index : nat; pt_pos : vec }.

Section tree.
(** positions of the nodes, normalization and center *)
Variables (p : nat -> vec) (norm : R) (c : vec).

Definition scaled (x : vec) : vec := vscale norm (vsub x c).

(** constructor, fmm_demag.h lines 73-82: the targets *)
Definition targets (magNode : list bool) : list particle :=
  flat_map (fun i => if nth i magNode false then [mkParticle i (scaled (p i))] else []) (seq 0 (length magNode)).

(** insertCharges, lines 125-146: [gauss e j] is the Gauss point j of element e; the state is the particles inserted and
    the counter idx *)
Definition insertCharges (NPI : nat) (gauss : nat -> nat -> vec) (idxContainer : list nat) (st : list particle * nat) : list particle * nat :=
  fold_left (fun st e => fold_left (fun st j => (fst st ++ [mkParticle (snd st) (scaled (gauss e j))], S (snd st))) (seq 0 NPI) st)
    idxContainer st.

(** the Gauss points: getPtGauss, tetra.h lines 344-352 and triangle.h *)
Variables (tets : list tet) (tris : list tri).
Definition the_tet (k : nat) : tet := nth k tets (mkTet 0 0 0 0 0).
Definition the_tri (k : nat) : tri := nth k tris (mkTri 0 0 0 0).
Definition tet_gauss (k j : nat) : vec := interpV (corner p (the_tet k)) j.
Definition tri_gauss (k j : nat) : vec := tinterpV (tri_corner p (the_tri k)) j.

(** lines 84-85: after the loop of line 73 idxPart is magNode.size() *)
Definition sources (nodes : nat) (magTet magTri : list nat) : list particle :=
  fst (insertCharges tNPI tri_gauss magTri (insertCharges NPI tet_gauss magTet ([], nodes))).

(** ** Charges, calc_charges, lines 148-176 *)
(** one element: srcDen[nsrc+i] = result(i), nsrc += NPI *)
Definition fill_src (NPI : nat) (charge : nat -> nat -> R) (st : list R * nat) (e : nat) : list R * nat :=
  (fold_left (fun d i => set_nth (snd st + i) (charge e i) d) (seq 0 NPI) (fst st), (snd st + NPI)%nat).

(** the regions, the jumps of magnetization of the triangles, and the vectors of the nodes given by the getter *)
Variables (Ms : list R) (dMs : list R).
Definition tet_charge (u : nat -> vec) (k j : nat) : R :=
  tet_charges (nth (t_reg (the_tet k)) Ms 0) (corner p (the_tet k)) (corner u (the_tet k)) j.
Definition tri_charge (u : nat -> vec) (k j : nat) : R :=
  tri_charges (nth k dMs 0) (tri_corner p (the_tri k)) (tri_corner u (the_tri k)) j.

(** correctionCharges, triangle.cpp lines 61-78 *)
Definition vertex_potential (u : nat -> vec) (k i : nat) : R :=
  let q := tri_corner p (the_tri k) in
  tri_potential (nth k dMs 0) q (fun a => dot (tri_corner u (the_tri k) a) (calc_norm q)) i.
Definition correction (u : nat -> vec) (corr : list R) (k : nat) : list R :=
  fold_left (fun corr i =>
    let i_ := nth i (tri_nodes (the_tri k)) 0%nat in
    let corr := fold_left (fun corr j =>
        set_nth i_ (nth i_ corr 0 - tri_charge u k j / vnorm (vsub (p i_) (tri_gauss k j))) corr) (seq 0 tNPI) corr in
    set_nth i_ (nth i_ corr 0 + vertex_potential u k i) corr) (seq 0 3) corr.

(** lines 151-175; srcDen and corr have the sizes of lines 87-88 *)
Definition calc_charges (nodes : nat) (u : nat -> vec) (magTet magTri : list nat) : list R * list R :=
  let srcDen := repeat 0 (length magTri * tNPI + length magTet * NPI) in
  let '(srcDen, nsrc) := fold_left (fill_src NPI (tet_charge u)) magTet (srcDen, 0%nat) in
  let '(srcDen, _) := fold_left (fill_src tNPI (tri_charge u)) magTri (srcDen, nsrc) in
  (srcDen, fold_left (correction u) magTri (repeat 0 nodes)).

(** ** demag, lines 181-222 *)
(** a leaf: its sources and its targets *)
Definition leaf := (list particle * list particle)%type.
(** the tree holds each inserted particle once *)
Definition tree_of (srcs tgts : list particle) (leaves : list leaf) : Prop :=
  Permutation (flat_map fst leaves) srcs /\ Permutation (flat_map snd leaves) tgts.

(** lines 191-201: [None] when srcDen is read out of its bounds. The subtraction is on unsigned numbers: an index less
    than nodes would also be out of bounds. *)
Fixpoint physical_values (nodes : nat) (srcDen : list R) (l : list particle) : option (list (vec * R)) :=
  match l with
  | [] => Some []
  | s :: l' => if (pt_index s <? nodes)%nat then None else
      match nth_error srcDen (pt_index s - nodes), physical_values nodes srcDen l' with
      | Some v, Some vs => Some ((pt_pos s, v) :: vs)
      | _, _ => None
      end
  end.

(** algo.execute(): the potential at a point of the sources (position, value) *)
Variable (exec : list (vec * R) -> vec -> R).

(** lines 209-221 *)
Definition demag (magNode : list bool) (u : nat -> vec) (magTet magTri : list nat) (leaves : list leaf) (phi : list R) : option (list R) :=
  let '(srcDen, corr) := calc_charges (length magNode) u magTet magTri in
  match physical_values (length magNode) srcDen (flat_map fst leaves) with
  | None => None
  | Some vs =>
      Some (fold_left (fun phi (t : particle) =>
        set_nth (pt_index t) ((exec vs (pt_pos t) * norm + nth (pt_index t) corr 0) / (4 * PI)) phi) (flat_map snd leaves) phi)
  end.

(** calc_demag, lines 95-100, with FIRST_ORDER off: NEXT.phi from NEXT.u and NEXT.phiv from NEXT.v *)
Definition calc_demag (magNode : list bool) (u v : nat -> vec) (magTet magTri : list nat) (leaves : list leaf) (phi phiv : list R)
  : option (list R * list R) :=
  match demag magNode u magTet magTri leaves phi, demag magNode v magTet magTri leaves phiv with
  | Some a, Some b => Some (a, b)
  | _, _ => None
  end.
End tree.

(** norm = 2 / l.maxCoeff(), line 71 *)
Definition max_coeff (l : vec) : R := Rmax (vx l) (Rmax (vy l) (vz l)).
Definition norm_of (l : vec) : R := 2 / max_coeff l.
(** line 54 *)
Definition boxWidth : R := 201 / 100.
