(** * Reading the mesh file: mesh::readMesh (/repo/src/read.cpp lines 12-197), the templates of /repo/src/meshUtils.h
      and the constructors of the elements (/repo/src/element.h lines 33-52, tetra.h lines 140-163, triangle.h lines 113-127)

    The file is parsed by the library gmsh; the record [msh] holds what the functions of its API answer.  Coordinates
    are exact reals, tags are natural numbers small enough for int (read.cpp converts size_t to int).  Messages are not
    modelled. *)
From Coq Require Import Reals String Ascii List Arith Bool ZArith.
From Verif Require Import Vec Sums SparseModel TextModel MeshModel ElemModel.
Import ListNotations.
Local Open Scope nat_scope.

(** an entity: the names of its physical groups in the order of getPhysicalGroupsForEntity, and the answer of
    getElements: the types of its elements and, for each type, the node tags of all elements of that type, in a row *)
Record entity := mkEntity { en_groups : list text; en_types : list Z; en_tags : list (list nat) }.
Record msh := mkMsh {
  m_dim : Z;                      (* model::getDimension() *)
  m_types3 : list Z;              (* mesh::getElementTypes, dimension 3 *)
  m_types2 : list Z;              (* the same, dimension 2 *)
  m_names3 : list text;           (* names of model::getPhysicalGroups, dimension 3 *)
  m_names2 : list text;           (* the same, dimension 2 *)
  m_nodes : list (nat * vec);     (* mesh::getNodes: tags and coordinates *)
  m_vols : list entity;           (* getEntities, dimension 3 *)
  m_surfs : list entity           (* getEntities, dimension 2 *)
}.

(** [Exit]: exit(1) or SYSTEM_ERROR; [UB]: undefined behaviour (a vector is read outside of its bounds, or a node whose
    position was never set) *)
Inductive outcome (X : Type) := Ok (x : X) | Exit | UB.
Arguments Ok {X}. Arguments Exit {X}. Arguments UB {X}.
Definition bind {X Y} (a : outcome X) (f : X -> outcome Y) : outcome Y := match a with Ok x => f x | Exit => Exit | UB => UB end.
Notation "'let+' x := a 'in' b" := (bind a (fun x => b)) (at level 200, x name, a at level 100, b at level 200).

(** tags.h lines 34-41 *)
Definition TRIANGLE : Z := 2%Z.
Definition TETRAEDRON : Z := 4%Z.

(** all_elems_are, meshUtils.h lines 9-13 *)
Definition all_elems_are (type : Z) (types : list Z) : bool := forallb (fun t => (t =? type)%Z) types.

(** checkNamedObjects, meshUtils.h lines 19-46; [regions] are the names of the settings, [names] those of the file *)
Definition check_named (regions names : list text) : bool :=
  forallb (fun r => text_eqb r (txt "__default__") || existsb (fun n => text_eqb r n) names) regions.

(** checkMeshFile, read.cpp lines 35-71; [regs3], [regs2]: the names of paramTetra and paramTriangle *)
Definition check_file (regs3 regs2 : list text) (f : msh) : outcome unit :=
  if negb (m_dim f =? 3)%Z then Exit
  else if negb (match m_types3 f with [t] => (t =? TETRAEDRON)%Z | _ => false end) then Exit
  else if negb (match m_types2 f with [] => true | [t] => (t =? TRIANGLE)%Z | _ => false end) then Exit
  else if check_named regs2 (m_names2 f) && check_named regs3 (m_names3 f) then Ok tt else Exit.

(** readNodes, lines 73-92: [None] is the position of a node which is not yet set (Eigen does not initialise it); the tag
    is a size_t, so that 0 - 1 is the largest one *)
Fixpoint read_nodes (scale : R) (l : list (nat * vec)) (nodes : list (option vec)) : outcome (list (option vec)) :=
  match l with
  | [] => Ok nodes
  | (O, _) :: _ => Exit
  | (S j, p) :: r => if j <? length nodes then read_nodes scale r (set_nth j (Some (vscale scale p)) nodes) else Exit
  end.

(** an element: indices of its nodes (int) and of its region *)
Record elt := mkElt { el_ind : list Z; el_reg : nat }.
(** element.h line 42: the tags of gmsh start from one *)
Definition zero_based (tags : list nat) : list Z := map (fun t => (Z.of_nat t - 1)%Z) tags.
(** existNodes, element.h lines 118-127 *)
Definition exist_nodes (n : nat) (ind : list Z) : bool := forallb (fun i => (0 <=? i)%Z && (i <? Z.of_nat n)%Z) ind.
(** the position of a node *)
Definition position (nodes : list (option vec)) (i : nat) : option vec := match nth_error nodes i with Some p => p | None => None end.
Definition known (nodes : list (option vec)) (i : nat) : vec := match position nodes i with Some p => p | None => vzero end.

(** constructor of Tet, tetra.h lines 140-163: with an index out of bounds there is only a message *)
Definition new_tet (epsilon : R) (nodes : list (option vec)) (region : nat) (tags : list nat) : outcome elt :=
  let ind := zero_based tags in
  if exist_nodes (length nodes) ind then
    if forallb (fun i => match position nodes (Z.to_nat i) with Some _ => true | None => false end) ind then
      match orientate epsilon (known nodes) (map Z.to_nat ind) with
      | Some ind => Ok (mkElt (map Z.of_nat ind) region)
      | None => Exit
      end
    else UB
  else Ok (mkElt ind region).
(** constructor of Tri, triangle.h lines 113-127: the same; nothing is oriented *)
Definition new_tri (nodes : list (option vec)) (region : nat) (tags : list nat) : outcome elt :=
  let ind := zero_based tags in
  if exist_nodes (length nodes) ind then
    if forallb (fun i => match position nodes (Z.to_nat i) with Some _ => true | None => false end) ind then Ok (mkElt ind region) else UB
  else Ok (mkElt ind region).

(** the loops of lines 125-135 and 179-185: elements of [size] nodes; tags read past the end of the vector: UB.
    [fuel]: as many turns as there are tags are enough *)
Fixpoint read_elements (fuel size : nat) (make : list nat -> outcome elt) (tags : list nat) (acc : list elt) : outcome (list elt) :=
  match fuel, tags with
  | _, [] => Ok acc
  | O, _ => UB
  | S k, _ => if length tags <? size then UB
              else let+ e := make (firstn size tags) in read_elements k size make (skipn size tags) (acc ++ [e])
  end.

(** lines 100-146 and 155-196 for one entity: each of its groups whose name is that of a region of the settings *)
Fixpoint read_groups (size : nat) (type : Z) (regions : list text) (make : nat -> list nat -> outcome elt)
    (e : entity) (groups : list text) (acc : list elt) : outcome (list elt) :=
  match groups with
  | [] => Ok acc
  | g :: r =>
      match find_region regions g with
      | None => read_groups size type regions make e r acc
      | Some idx =>
          if all_elems_are type (en_types e) then
            match en_tags e with
            | [] => UB                                        (* elemNodeTags[0] of an empty vector *)
            | tags :: _ => let+ acc := read_elements (length tags) size (make idx) tags acc in read_groups size type regions make e r acc
            end
          else Exit
      end
  end.
Fixpoint read_entities (size : nat) (type : Z) (regions : list text) (make : nat -> list nat -> outcome elt)
    (es : list entity) (acc : list elt) : outcome (list elt) :=
  match es with
  | [] => Ok acc
  | e :: r => let+ acc := read_groups size type regions make e (en_groups e) acc in read_entities size type regions make r acc
  end.

(** readMesh, lines 12-33: positions of the nodes, tetrahedrons, triangles *)
Definition read_mesh (epsilon scale : R) (regs3 regs2 : list text) (f : msh) : outcome (list (option vec) * list elt * list elt) :=
  let+ _ := check_file regs3 regs2 f in
  let+ nodes := read_nodes scale (m_nodes f) (repeat None (length (m_nodes f))) in
  let+ tets := read_entities 4 TETRAEDRON regs3 (new_tet epsilon nodes) (m_vols f) [] in
  let+ tris := read_entities 3 TRIANGLE regs2 (new_tri nodes) (m_surfs f) [] in
  Ok (nodes, tets, tris).
