(** * Model of the effective field of the spin accumulation: spinAcc::prepareExtraField, /repo/src/spinAccumulationSolver.cpp *)
From Coq Require Import List Arith Bool Reals.
From Verif Require Import Arith Vec Sums MeshModel ElemModel AvgModel AsmModel TransportModel.
From Verif Require SettingsModel.
Import ListNotations.
Local Open Scope R_scope.

(** lines 142-145: the prefactor of a tetrahedron; [e] is CHARGE_ELECTRON *)
Definition st_prefactor (gamma0 e : R) (prm : vol_prm XA) : R :=
  let D0 := diffusion_cst e (real (SettingsModel.t_sigma prm)) (real (SettingsModel.t_N0 prm)) in
  D0 / (real (SettingsModel.t_lsd prm) * real (SettingsModel.t_lsd prm) * gamma0 * real (SettingsModel.t_Ms prm)).

(** the vector [s] of the object, read at a node (a node index is always smaller than its size NOD) *)
Definition s_at (s : list (num XA * num XA * num XA)) (i : nat) : vec := real3 (nth i s (n0, n0, n0)).

(** what extraField adds to Hst at the Gauss points of a tetrahedron. The loop of lines 140-148 runs on msh->magTet, the
    tetrahedra with isMagnetic; for the others extraField is the empty function of tetra.h line 159. *)
Definition extra_field (gamma0 e : R) (vols : list (vol_prm XA)) (s : list (num XA * num XA * num XA)) (t : tet) (npi : nat) : vec :=
  let prm := vol_of vols t in
  if is_magnetic prm then calc_Hst (st_prefactor gamma0 e prm) (corner (s_at s) t) npi else vzero.
