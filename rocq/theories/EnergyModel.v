(** * Model of Fem::energy (/repo/src/energy.cpp lines 5-68), of mesh::setExtSpaceField (mesh.cpp lines 377-389)
      and of the bookkeeping of the total energy (fem.h lines 50-51, 161-165, 222-223)

    Exact real arithmetic; a value that may be NaN is an [option R] whose [None] is NaN. *)
From Coq Require Import Reals List Arith Bool.
From Flocq Require Import Core.
From Verif Require Import Vec Sums StdModel MeshModel ElemModel AvgModel.
Import ListNotations.
Local Open Scope R_scope.

(** the field type and what settings.getField(t) or getFieldTime(t) answers: settings.h lines 290-318 *)
Inductive field := RtoR3 (Hext : vec) | R4toR3 (fieldAmp : R) | UNDEF.

(** the parameters of a surface region used here: Ks and uk *)
Record sprm := mkSprm { s_Ks : R; s_uk : vec }.

(** the array E, fem.h lines 26-36, 139-140; E[ZEEMAN] may be set to NaN *)
Record energies := mkE { E_ex : R; E_aniso : R; E_demag : R; E_zeeman : option R }.
Definition E_zero : energies := mkE 0 0 0 (Some 0).

Definition nan_add (a : option R) (b : R) : option R := match a with Some x => Some (x + b) | None => None end.

(** triangle nodes *)
Definition tri_corner {X} (x : nat -> X) (f : tri) (i : nat) : X := x (nth i (tri_nodes f) 0%nat).

(** mesh::setExtSpaceField, mesh.cpp lines 377-389: one matrix for each element of magTet, in that order;
    getPtGauss is tetra.h lines 344-352 *)
Definition ext_space_field (space : vec -> vec) (p : nat -> vec) (tets : list tet) (magTet : list nat) : list (nat -> vec) :=
  map (fun t j => space (interpV (corner p t) j)) (nth_tets tets magTet).

Section energy.
Variables (mu0 : R) (prms : list tprm) (sprms : list sprm) (dprm : tprm) (dsprm : sprm).
(** positions, and the NEXT magnetization and potential of the nodes *)
Variables (p u : nat -> vec) (phi : nat -> R).
Variables (tets : list tet) (tris : list tri) (dMs : list R) (magTet magTri : list nat).
Variables (f : field) (extSpaceField : list (nat -> vec)).

(** lines 18-47. tet[k].idx is k (read.cpp lines 24-25). [None]: extSpaceField is read past its end,
    undefined behaviour *)
Definition tet_energy (E : energies) (k : nat) : option energies :=
  let te := nth k tets (mkTet 0 0 0 0 0) in
  let param := nth (t_reg te) prms dprm in
  let q := corner p te in
  let un := corner u te in
  let U := interpV un in
  let ex := E_ex E + exchangeEnergy param q un in
  let de := E_demag E + tet_demagEnergy mu0 param q un (interp (corner phi te)) in
  let an := if Req_bool (p_K param) 0 then E_aniso E else E_aniso E + uniaxialEnergy param q U in
  let an := if Req_bool (p_K3 param) 0 then an else an + cubicEnergy param q U in
  match f with
  | RtoR3 Hext => Some (mkE ex an de (nan_add (E_zeeman E) (zeemanEnergy mu0 param q Hext U)))
  | R4toR3 amp =>
      match nth_error extSpaceField k with
      | Some H => Some (mkE ex an de (nan_add (E_zeeman E) (zeemanEnergy_space mu0 param amp q H U)))
      | None => None
      end
  | UNDEF => Some (mkE ex an de None)
  end.

(** lines 49-63 *)
Definition tri_energy (E : energies) (k : nat) : energies :=
  let fa := nth k tris (mkTri 0 0 0 0) in
  let param := nth (r_reg fa) sprms dsprm in
  let q := tri_corner p fa in
  let U := tinterpV (tri_corner u fa) in
  let an := if Req_bool (s_Ks param) 0 then E_aniso E else E_aniso E + tri_anisotropyEnergy (s_Ks param) (s_uk param) q U in
  mkE (E_ex E) an (E_demag E + tri_demagEnergy mu0 (nth k dMs 0) q U (tinterp (tri_corner phi fa))) (E_zeeman E).

Definition tets_energy (l : list nat) (E : option energies) : option energies :=
  fold_left (fun E k => match E with Some E => tet_energy E k | None => None end) l E.

(** lines 7-63 *)
Definition energy : option energies :=
  match tets_energy magTet (Some E_zero) with
  | Some E => Some (fold_left tri_energy magTri E)
  | None => None
  end.

(** line 64: std::reduce may add the four terms in any order *)
Definition total_result (E : energies) (Etot : option R) : Prop :=
  match E_zeeman E with
  | None => Etot = None
  | Some z => exists r, reduce_result Rplus 0 [E_ex E; E_aniso E; E_demag E; z] r /\ Etot = Some r
  end.
End energy.

(** ** The history of the total energy. Etot0 is INFINITY at first (fem.h line 50), then the value of Etot at the
    last call of evolution (fem.h line 164). *)
Inductive etot0 := Infinite | Was (E : option R).

(** [a > b] on doubles *)
Definition exceeds (Etot : option R) (E0 : etot0) : bool :=
  match E0, Etot with Was (Some e0), Some e => Rlt_bool e0 e | _, _ => false end.

(** energy.cpp lines 65-66 then Fem::evolution: one call of compute_all whose total is [Etot]; answers whether the
    warning is printed *)
Definition monitor (verbose : bool) (E0 : etot0) (Etot : option R) : bool * etot0 := (verbose && exceeds Etot E0, Was Etot).

Fixpoint warnings (verbose : bool) (E0 : etot0) (l : list (option R)) : list bool :=
  match l with [] => [] | e :: l' => let '(w, E1) := monitor verbose E0 e in w :: warnings verbose E1 l' end.

(** ** The time at which the energies are evaluated: time_integration.cpp lines 140 and 231-239. [eval t] is the
    call energy(t, settings); the list holds the times of the accepted steps (line 237 or 239). The pair is the
    time and the energies of the state afterwards, which the next line of output prints. *)
Fixpoint energies_at {X} (eval : R -> X) (t0 : R) (E : X) (steps : list R) : R * X :=
  match steps with
  | [] => (t0, E)
  | t1 :: l => energies_at eval t1 (eval t0) l      (* compute_all(t0), then the time becomes t1 *)
  end.
Definition energies_line {X} (eval : R -> X) (t_initial : R) (steps : list R) : R * X :=
  energies_at eval t_initial (eval t_initial) steps.
