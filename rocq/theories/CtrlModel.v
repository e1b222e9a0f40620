(** * Model of mesh::controlTriangles (/repo/src/mesh.cpp lines 13-50 and 121-332)

    Messages are not modelled. Region indices are natural numbers; region 0 of the surfaces is the default
    one. The surface parameters other than the name have an arbitrary type P, as they are only copied. *)
From Coq Require Import Reals List Arith Bool ZArith String DecimalString.
From Verif Require Import Vec Sums StdModel MeshModel.
Import ListNotations.
Local Open Scope R_scope.

(** ** class BasicTri, lines 13-50 *)
Record basic := mkBasic { b_nodes : list nat; b_reg : nat; b_surf : bool; b_flip : bool }.

(** std::sort of three integers: the result is unique, so it is computed *)
Definition sort3 (l : list nat) : list nat := isort Nat.ltb l.
(** lines 22-26: the parity of the number of inversions *)
Definition inversions (a b c : nat) : nat :=
  ((if b <? a then 1 else 0) + (if c <? b then 1 else 0) + (if c <? a then 1 else 0))%nat.
Definition basic_tri (a b c : nat) (reg : nat) (surface : bool) : basic :=
  mkBasic (sort3 [a; b; c]) reg surface (Nat.odd (inversions a b c)).
(** lines 30-32 *)
Definition basic_of_tri (x : tri) : basic := basic_tri (r0 x) (r1 x) (r2 x) (r_reg x) true.
(** lines 139-145 *)
Definition basic_of_tet (t : tet) : list basic :=
  [basic_tri (t0 t) (t2 t) (t1 t) (t_reg t) false; basic_tri (t1 t) (t2 t) (t3 t) (t_reg t) false;
   basic_tri (t2 t) (t0 t) (t3 t) (t_reg t) false; basic_tri (t3 t) (t0 t) (t1 t) (t_reg t) false].

(** operator< of std::array, lines 35-36 *)
Fixpoint lex_ltb (l l' : list nat) : bool :=
  match l, l' with
  | [], [] => false
  | [], _ :: _ => true
  | _ :: _, [] => false
  | x :: k, y :: k' => (x <? y)%nat || (negb (y <? x)%nat && lex_ltb k k')
  end.
Definition basic_ltb (x y : basic) : bool := lex_ltb (b_nodes x) (b_nodes y).
Definition nodes_eqb (l l' : list nat) : bool := if list_eq_dec Nat.eq_dec l l' then true else false.
Definition same_nodes (x y : basic) : bool := nodes_eqb (b_nodes x) (b_nodes y).

(** lines 131-149: the faces of the tetrahedrons, then the surface elements *)
Definition all_tri (tets : list tet) (tris : list tri) : list basic :=
  flat_map basic_of_tet tets ++ map basic_of_tri tris.
(** line 153: what allTriCtnr may be after std::sort *)
Definition all_sorted (tets : list tet) (tris : list tri) (sorted : list basic) : Prop :=
  sort_result (fun x y => basic_ltb x y = true) (all_tri tets tris) sorted.

(** ** diffTriHandler and assertNoErrInTriangle, lines 247-332 *)
Record stats := mkStats { nbTetraFaces : nat; nbSurfTri : nat; volRegs : Z * Z }.
(** lines 258-277; idCurSurfReg is only used in messages *)
Definition stat_step (s : stats) (x : basic) : stats :=
  if b_surf x then mkStats (nbTetraFaces s) (S (nbSurfTri s)) (volRegs s)
  else mkStats (S (nbTetraFaces s)) (nbSurfTri s)
    (let r := Z.of_nat (b_reg x) in
     if (fst (volRegs s) <? r)%Z then (r, fst (volRegs s)) else (fst (volRegs s), r)).
Definition group_stats (g : list basic) : stats := fold_left stat_step g (mkStats 0 0 (-1, -1)%Z).

(** lines 279-286: what to add to indNodTriToAdd and to regsTriToAdd, one list for both *)
Definition missing := (list nat * (Z * Z))%type.
Definition to_add (g : list basic) : list missing :=
  let s := group_stats g in
  if (nbSurfTri s =? 0)%nat && ((nbTetraFaces s =? 1)%nat ||
       ((nbTetraFaces s =? 2)%nat && negb (fst (volRegs s) =? snd (volRegs s))%Z))
  then match g with x :: _ => [(b_nodes x, volRegs s)] | [] => [] end
  else [].

(** lines 293-332 *)
Definition no_error (s : stats) : bool :=
  if (1 <? nbSurfTri s)%nat then false
  else if (nbTetraFaces s =? 0)%nat then false
  else if (2 <? nbTetraFaces s)%nat then false
  else if (nbTetraFaces s =? 2)%nat && (nbSurfTri s =? 1)%nat && (fst (volRegs s) =? snd (volRegs s))%Z then false
  else true.

(** lines 247-291; [None] is the value false *)
Definition diff_tri_handler (g : list basic) (acc : list missing) : option (list missing) :=
  if no_error (group_stats g) then Some (acc ++ to_add g) else None.

(** lines 159-172: the loop on [up]; [g] is the range from low to up, [rest] what follows *)
Fixpoint walk (g rest : list basic) (acc : list missing) : option (list missing) :=
  match rest with
  | [] => diff_tri_handler g acc
  | x :: rest' =>
      match g with
      | y :: _ =>
          if same_nodes x y then walk (g ++ [x]) rest' acc
          else match diff_tri_handler g acc with None => None | Some acc' => walk [x] rest' acc' end
      | [] => walk [x] rest' acc
      end
  end.
Definition walk_all (sorted : list basic) : option (list missing) :=
  match sorted with [] => Some [] | x :: l => walk [x] l [] end.

(** ** The missing surface regions, lines 180-217 *)
Local Open Scope string_scope.
(** std::to_string of a non-negative int *)
Definition to_string (i : nat) : string := NilEmpty.string_of_uint (Nat.to_uint i).

Definition base_name (names : list string) (pair : Z * Z) : string :=
  let reg z := nth (Z.to_nat z) names "" in
  if (snd pair =? -1)%Z then ("surface(" ++ reg (fst pair)) ++ ")"
  else ("interface(" ++ reg (fst pair)) ++ ((", " ++ reg (snd pair)) ++ ")").

(** lines 200-208: the i-th name that is tried *)
Definition nth_name (base : string) (i : nat) : string :=
  match i with O => base | _ => base ++ "." ++ to_string i end.

Section regions.
Context {P : Type}.
Definition surf_prm := (string * P)%type.
Definition name_used (params : list surf_prm) (name : string) : bool :=
  existsb (fun r => String.eqb (fst r) name) params.
(** the loop of lines 202-209, which has no bound; fuel for one more name than there are regions is enough
    (CtrlProof.find_name_spec) *)
Fixpoint find_name (fuel i : nat) (base : string) (params : list surf_prm) : option string :=
  match fuel with
  | O => None
  | S f => let name := nth_name base i in if name_used params name then find_name f (S i) base params else Some name
  end.

(** std::map<std::pair<int,int>,size_t> *)
Definition regmap := list ((Z * Z) * nat).
Definition pair_eqb (a b : Z * Z) : bool := (fst a =? fst b)%Z && (snd a =? snd b)%Z.
Definition lookup (m : regmap) (k : Z * Z) : option nat := option_map snd (find (fun e => pair_eqb (fst e) k) m).

(** lines 182-217 *)
Fixpoint create_regions (names : list string) (dflt : surf_prm) (pairs : list (Z * Z)) (params : list surf_prm) (m : regmap) : option (list surf_prm * regmap) :=
  match pairs with
  | [] => Some (params, m)
  | k :: pairs' =>
      match lookup m k with
      | Some _ => create_regions names dflt pairs' params m
      | None =>
          match find_name (S (List.length params)) 0 (base_name names k) params with
          | None => None
          | Some name => create_regions names dflt pairs' (params ++ [(name, snd dflt)])%list (m ++ [(k, List.length params)])%list
          end
      end
  end.

(** ** controlTriangles *)
Record control_out := mkControl { c_tris : list tri; c_dMs : list R; c_params : list surf_prm }.

(** std::lower_bound on the sorted vector, line 235 *)
Fixpoint lower_bound (x : basic) (l : list basic) : list basic :=
  match l with [] => [] | y :: l' => if basic_ltb y x then lower_bound x l' else l end.
(** lines 236-244; exact arithmetic *)
Fixpoint jump (Ms : nat -> R) (x : basic) (l : list basic) (dMs : R) : R :=
  match l with
  | [] => dMs
  | f :: l' =>
      if same_nodes f x then
        jump Ms x l' (if b_surf f then dMs
                      else dMs + (if xorb (b_flip x) (b_flip f) then - Ms (b_reg f) else Ms (b_reg f)))
      else dMs
  end.
Definition dMs_of (Ms : nat -> R) (sorted : list basic) (x : tri) : R :=
  let b := basic_of_tri x in jump Ms b (lower_bound b sorted) 0.

(** line 226: the nodes in sorted order *)
Definition new_tri (m : regmap) (a : missing) : tri :=
  mkTri (nth 0 (fst a) 0%nat) (nth 1 (fst a) 0%nat) (nth 2 (fst a) 0%nat)
    (match lookup m (snd a) with Some i => i | None => 0%nat end).

(** lines 121-245. [sorted] is the sorted vector; [None] when the function returns false (dMs of a triangle is
    zero before the call, triangle.h line 118). An empty [params], which would be undefined behaviour on
    line 174, does not exist: the settings always hold the default region. *)
Definition controlTriangles (names : list string) (Ms : nat -> R) (params : list surf_prm)
    (tets : list tet) (tris : list tri) (sorted : list basic) : option control_out :=
  match tets with
  | [] => None
  | _ =>
    match walk_all sorted with
    | None => None
    | Some miss =>
      match params with
      | [] => None
      | dflt :: _ =>
        if String.eqb (fst dflt) "__default__" then
          match create_regions names dflt (map snd miss) params [] with
          | None => None
          | Some (params', m) =>
              let tris' := (tris ++ map (new_tri m) miss)%list in
              Some (mkControl tris' (map (dMs_of Ms sorted) tris') params')
          end
        else None
      end
    end
  end.
End regions.
