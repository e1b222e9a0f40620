(** * Vocabulary of the properties of the triangles: which tetrahedrons share a face, and the outward area *)
From Coq Require Import Reals List Arith Bool.
From Flocq Require Import Core.
From Verif Require Import Vec MeshModel.
Import ListNotations.
Local Open Scope R_scope.

Definition mem (x : nat) (l : list nat) : bool := existsb (Nat.eqb x) l.
Fixpoint distinct (l : list nat) : bool := match l with [] => true | x :: l' => negb (mem x l') && distinct l' end.

(** the three nodes [f], in any order, are a face of the tetrahedron *)
Definition face_of (t : tet) (f : list nat) : bool :=
  (length f =? 3)%nat && distinct f && forallb (fun x => mem x (tet_nodes t)) f.
(** the tetrahedrons that have this face *)
Definition adjacent (tets : list tet) (f : list nat) : list tet := filter (fun t => face_of t f) tets.
(** the node of the tetrahedron that is not on the face *)
Definition opposite (t : tet) (f : list nat) : nat := hd 0%nat (filter (fun x => negb (mem x f)) (tet_nodes t)).

(** area vector of a triangle: the area times the unit normal given by the order of the nodes *)
Definition area_vec (p : nat -> vec) (f : list nat) : vec :=
  let a := p (nth 0 f 0%nat) in let b := p (nth 1 f 0%nat) in let c := p (nth 2 f 0%nat) in
  vscale (1 / 2) (cross (vsub b a) (vsub c a)).
(** on which side of the face, seen along its area vector, is the point x *)
Definition side (p : nat -> vec) (f : list nat) (x : vec) : R := dot (area_vec p f) (vsub x (p (nth 0 f 0%nat))).
(** the area vector of the face pointing out of the tetrahedron *)
Definition out_area (p : nat -> vec) (t : tet) (f : list nat) : vec :=
  if Rlt_bool (side p f (p (opposite t f))) 0 then area_vec p f else vscale (-1) (area_vec p f).
(** volume with its sign *)
Definition det4 (p : nat -> vec) (t : tet) : R :=
  dot (vsub (p (t1 t)) (p (t0 t))) (cross (vsub (p (t2 t)) (p (t0 t))) (vsub (p (t3 t)) (p (t0 t)))).

Definition vsum (l : list vec) : vec := fold_right vadd vzero l.
