(** * Model of the transport problems: /repo/src/electrostatSolver.cpp and /repo/src/spinAccumulationSolver.cpp

    The checks, the Dirichlet data, the assembly and the calls of the solvers are written over any arithmetic; the
    coefficients of the elements are real numbers (exact arithmetic, as in ElemModel), computed from finite parameters.
    The files written and the messages are not modelled. *)
From Coq Require Import Reals String List ZArith Arith Bool.
From Verif Require Import Arith Vec Sums SparseModel ConcModel IterModel StdModel TextModel MeshModel ElemModel AvgModel AsmModel.
From Verif Require SettingsModel.
Import ListNotations.
Local Open Scope nat_scope.

(** parameters of the volume and of the surface regions, as the settings give them *)
Notation vol_prm := (@SettingsModel.tetra_prm).
Notation surf_prm := (@SettingsModel.tri_prm).

Section checks.
Context {A : arith}.

(** std::isfinite: x - x is a NaN exactly for the infinities and the NaNs *)
Definition isfinite (x : num A) : bool := negb (nisnan (nsub x x)).
(** norm() of an Eigen::Vector3d *)
Definition norm3 (v : num A * num A * num A) : num A :=
  let '(x, y, z) := v in nsqrt (nadd (nadd (nmul x x) (nmul y y)) (nmul z z)).

(** a counter incremented for the elements that pass a test *)
Definition count_from {X} (start : nat) (test : X -> bool) (l : list X) : nat :=
  fold_left (fun n x => if test x then S n else n) l start.

(** electrostatSolver::checkBoundaryConditions, electrostatSolver.cpp lines 10-28: false is exit(1) *)
Definition elec_check (surfs : list (surf_prm A)) : bool :=
  (count_from 0 (fun p => isfinite (SettingsModel.s_jn p)) surfs =? 1) &&
  (count_from 0 (fun p => isfinite (SettingsModel.s_V p)) surfs =? 1).

Definition default_name : text := txt "__default__".

(** spinAcc::checkBoundaryConditions, spinAccumulationSolver.cpp lines 41-80 *)
Definition spin_check (vols : list (vol_prm A)) (surfs : list (surf_prm A)) : bool :=
  let named {X} (name : X -> text) (p : X) := negb (text_eqb (name p) default_name) in
  let nbVolN0 := count_from 1 (fun p => named SettingsModel.t_name p &&
    (isfinite (SettingsModel.t_N0 p) && negb (neq (SettingsModel.t_N0 p) n0))) vols in
  let nbVolP := count_from 1 (fun p => named SettingsModel.t_name p &&
    (isfinite (SettingsModel.t_P p) && nle n0 (SettingsModel.t_P p) && nlt (SettingsModel.t_P p) n1)) vols in
  let nbSurfJ := count_from 0 (fun p => named SettingsModel.s_name p && isfinite (SettingsModel.s_jn p)) surfs in
  let nbSurfS := count_from 0 (fun p => named SettingsModel.s_name p && isfinite (norm3 (SettingsModel.s_s p))) surfs in
  (nbSurfJ =? 1) && (nbSurfS =? 1) && (nbVolN0 =? length vols) && (nbVolP =? length vols).

(** ** Dirichlet data *)
(** suppress_copies, meshUtils.h lines 49-55: std::sort, std::unique and erase. Integers that are equal are the same, so
    that std::sort has only one result *)
Definition suppress_copies (l : list nat) : list nat := unique Nat.eqb (isort Nat.ltb l).

(** the region of a triangle: paramTri[tri.idxPrm] *)
Definition surf_of (surfs : list (surf_prm A)) (t : tri) : surf_prm A := nth (r_reg t) surfs SettingsModel.zero_tri.

(** electrostatSolver::solve, lines 114-131: the nodes and the values of the potential *)
Definition elec_dirichlet (n : nat) (surfs : list (surf_prm A)) (tris : list tri) : list nat * list (num A) :=
  let '(ld, vd) := fold_left (fun st t =>
      let v := SettingsModel.s_V (surf_of surfs t) in
      if nisnan v then st
      else fold_left (fun st i => (fst st ++ [i], set_nth i v (snd st))) (tri_nodes t) st)
    tris ([], repeat n0 n) in
  (suppress_copies ld, vd).

(** product of a number and a vector *)
Definition scale3 (k : num A) (v : num A * num A * num A) : num A * num A * num A :=
  let '(x, y, z) := v in (nmul k x, nmul k y, nmul k z).

(** spinAcc::fillDirichletData, lines 82-90, DIM_PB = 3 *)
Definition fill_dirichlet (v : num A * num A * num A) (st : list nat * list (num A)) (k : nat) : list nat * list (num A) :=
  let '(x, y, z) := v in
  (fst st ++ [3 * k; 3 * k + 1; 3 * k + 2], set_nth (3 * k + 2) z (set_nth (3 * k + 1) y (set_nth (3 * k) x (snd st)))).

(** spinAcc::boundaryConditions, lines 92-116, for one region: the value it imposes. [ratio] is BOHRS_MUB/CHARGE_ELECTRON *)
Definition spin_value (ratio : num A) (p : surf_prm A) : option (num A * num A * num A) :=
  if nisnan (norm3 (SettingsModel.s_s p)) && isfinite (SettingsModel.s_jn p)
  then Some (scale3 (nmul (nopp (SettingsModel.s_jn p)) ratio) (SettingsModel.s_uP p))
  else if isfinite (norm3 (SettingsModel.s_s p)) && nisnan (SettingsModel.s_jn p) then Some (SettingsModel.s_s p)
  else None.
Definition spin_dirichlet (ratio : num A) (n : nat) (surfs : list (surf_prm A)) (tris : list tri) : list nat * list (num A) :=
  let '(idx, vals) := fold_left (fun st t =>
      match spin_value ratio (surf_of surfs t) with
      | Some v => fold_left (fill_dirichlet v) (tri_nodes t) st
      | None => st
      end) tris ([], repeat n0 (3 * n)) in
  (suppress_copies idx, vals).

(** ** The two solvers: the elements are given by their coefficients *)
(** buildMat called for each element in turn, by one thread *)
Definition build_mats (D : nat) (K : matrix A) (els : list (elem (num A))) : option (matrix A) :=
  mrun K (map (fun c => MAdd (fst (fst c)) (snd (fst c)) (snd c)) (flat_map (mat_calls D) els)).

(** electrostatSolver::solve, lines 96-136; [K] is the null matrix of the constructor, [V] the null vector of size n (the
    caller resizes it). The answer: the monitor and the potential. *)
Definition elec_solve (passes : nat) (it : iteration A) (K : matrix A) (n : nat) (tets tris : list (elem (num A)))
    (dirichlet : list nat * list (num A)) : option (iteration A * list (num A)) :=
  match build_mats 1 K tets with
  | None => None
  | Some K' => cg_dir passes (reset it) K' (repeat n0 n) (fold_left (buildVect 1) tris (repeat n0 (1 * n))) (snd dirichlet) (fst dirichlet)
  end.

(** what a spinAcc object keeps from a call to the next one: monitor, matrix, right-hand side, spin accumulation *)
Record spin_state := mkSpinState { ss_it : iteration A; ss_K : matrix A; ss_L : list (num A); ss_s : list (num A * num A * num A) }.

(** lines 211-215 *)
Definition triples (n : nat) (X : list (num A)) : list (num A * num A * num A) :=
  map (fun i => (nth (3 * i) X n0, nth (3 * i + 1) X n0, nth (3 * i + 2) X n0)) (seq 0 n).

(** spinAcc::solve, lines 166-217. The matrix and the right-hand side are those of the object: they are not set to zero. *)
Definition spin_solve (passes n : nat) (tets tris : list (elem (num A))) (dirichlet : list nat * list (num A)) (st : spin_state)
  : option (bool * spin_state) :=
  match build_mats 3 (ss_K st) tets with
  | None => None
  | Some K =>
      let L := fold_left (buildVect 3) tris (fold_left (buildVect 3) tets (ss_L st)) in
      match bicg_dir passes (reset (ss_it st)) K (repeat n0 (3 * n)) L (snd dirichlet) (fst dirichlet) with
      | None => None
      | Some (it, X) => Some (match status it with CONVERGED => true | _ => false end, mkSpinState it K L (triples n X))
      end
  end.

(** spinAcc::compute, lines 151-164 *)
Definition spin_compute (passes n : nat) (tets tris : list (elem (num A))) (dirichlet : list nat * list (num A)) (st : spin_state)
  : option (bool * spin_state) :=
  match spin_solve passes n tets tris dirichlet st with
  | Some (true, st') => Some (true, st')
  | Some (false, st') => Some (false, mkSpinState (ss_it st') (ss_K st') (ss_L st') (repeat (n0, n0, n0) n))
  | None => None
  end.

(** the object after its construction: solver.h lines 40-53 (null matrix, null vector); the shape has all the edges *)
Definition spin_fresh (it : iteration A) (n : nat) (edges : list (nat * nat)) : spin_state :=
  mkSpinState it (new_matrix (build_shape 3 n edges (fun _ => true))) (repeat n0 (3 * n)) [].

(** successive calls of compute, the elements being those of the magnetization of the moment (fem.h lines 203-225) *)
Fixpoint spin_calls (passes n : nat) (calls : list (list (elem (num A)))) (tris : list (elem (num A)))
    (dirichlet : list nat * list (num A)) (st : spin_state) : option (bool * spin_state) :=
  match calls with
  | [] => Some (true, st)
  | [tets] => spin_compute passes n tets tris dirichlet st
  | tets :: rest =>
      match spin_compute passes n tets tris dirichlet st with
      | Some (_, st') => spin_calls passes n rest tris dirichlet st'
      | None => None
      end
  end.
End checks.

Arguments spin_state : clear implicits.

(** ** The coefficients of the elements *)
Local Open Scope R_scope.

(** the real number that a finite parameter is *)
Definition real (x : num XA) : R := match x with Fin r => r | _ => 0 end.
Definition real3 (v : num XA * num XA * num XA) : vec := let '(x, y, z) := v in V (real x) (real y) (real z).
Definition corner3 {X} (p : nat -> X) (t : tri) (i : nat) : X := p (nth i (tri_nodes t) 0%nat).

(** electrostatSolver::integrales for a tetrahedron, lines 42-64, from AE = 0 *)
Definition elec_Ke (sigma : R) (q : nat -> vec) (i j : nat) : R :=
  sumn NPI (fun npi => sigma * weight q npi *
    (vx (da q i) * vx (da q j) + vy (da q i) * vy (da q j) + vz (da q i) * vz (da q j))).
(** electrostatSolver::integrales for a triangle, lines 66-76, from BE = 0 *)
Definition elec_Le (J : R) (q : nat -> vec) (i : nat) : R := - sumn tNPI (fun npi => tsh i npi * (J * tweight q npi)).
(** getCurrentDensity, lines 162-168 *)
Definition current_density (p : surf_prm XA) : R :=
  if isfinite (SettingsModel.s_jn p) then real (SettingsModel.s_jn p) else 0.
Definition vol_of (vols : list (vol_prm XA)) (t : tet) : vol_prm XA := nth (t_reg t) vols SettingsModel.zero_tetra.
(** lines 100-113: the elements as the assembly sees them *)
Definition elec_tet (p : nat -> vec) (vols : list (vol_prm XA)) (t : tet) : elem R :=
  mkElem (tet_nodes t) (elec_Ke (real (SettingsModel.t_sigma (vol_of vols t))) (corner p t)) (fun _ => 0).
Definition elec_tri (p : nat -> vec) (surfs : list (surf_prm XA)) (t : tri) : elem R :=
  mkElem (tri_nodes t) (fun _ _ => 0) (elec_Le (current_density (surf_of surfs t)) (corner3 p t)).

(** spinAcc::getDiffusionCst, spinAccumulationSolver.cpp lines 124-128; [e] is CHARGE_ELECTRON *)
Definition diffusion_cst (e sigma N0 : R) : R := 2 * sigma / (e * e * N0).
(** spinAcc::integrales for the matrix, lines 219-258, from AE = 0: the coefficient at row 4*k+i and column 4*l+j; [m] is
    the CURRENT magnetization of the nodes, [magnetic] is isMagnetic(tet) *)
Definition spin_Ke (D0 lsf lsd : R) (magnetic : bool) (q : nat -> vec) (m : nat -> vec) (k l i j : nat) : R :=
  let diag c := if magnetic then (if Nat.eqb i j then D0 / (lsd * lsd) * (a_w q i * comp c (m i)) else 0) else 0 in
  match k, l with
  | 0%nat, 0%nat | 1%nat, 1%nat | 2%nat, 2%nat => diag_block q D0 (fun i => D0 / (lsf * lsf) * a_w q i) i j
  | 1%nat, 2%nat => diag 0%nat
  | 2%nat, 1%nat => - diag 0%nat
  | 0%nat, 2%nat => - diag 1%nat
  | 2%nat, 0%nat => diag 1%nat
  | 0%nat, 1%nat => diag 2%nat
  | 1%nat, 0%nat => - diag 2%nat
  | _, _ => 0
  end.
(** spinAcc::integrales for the vector, lines 260-286, from BE = 0: the component at row 4*k+i; [mub] is BOHRS_MUB, [x] the
    potential of the nodes *)
Definition spin_Le (mub e P sigma : R) (magnetic : bool) (q : nat -> vec) (x : nat -> R) (m : nat -> vec) (k i : nat) : R :=
  let cst0 := mub * P * sigma / e in
  if magnetic
  then sumn NPI (fun npi => dot (vscale (cst0 * weight q npi) (calc_gradV q x)) (da q i) * comp k (m i))
  else 0.
(** the triangles, lines 184-207: the value used on a region, and the vector *)
Definition spin_surface_value (ratio : R) (p : surf_prm XA) : option vec :=
  let s_value := if isfinite (SettingsModel.s_jn p) && isfinite (norm3 (SettingsModel.s_uP p))
    then scale3 (nmul (nopp (SettingsModel.s_jn p)) (Fin ratio : num XA)) (SettingsModel.s_uP p)
    else SettingsModel.s_s p in
  if isfinite (norm3 s_value) then Some (real3 s_value) else None.
Definition spin_surface_Le (v : option vec) (q : nat -> vec) (k i : nat) : R :=
  match v with Some s => - sumn tNPI (fun npi => comp k s * (tweight q npi * tsh i npi)) | None => 0 end.

(** Mesh::mesh::isMagnetic(tet), mesh.h: Ms > 0 *)
Definition is_magnetic (prm : vol_prm XA) : bool := nlt n0 (SettingsModel.t_Ms prm).
Definition spin_tet (mub e : R) (p : nat -> vec) (x : nat -> R) (m : nat -> vec) (vols : list (vol_prm XA)) (t : tet) : elem R :=
  let prm := vol_of vols t in
  let sigma := real (SettingsModel.t_sigma prm) in
  let D0 := diffusion_cst e sigma (real (SettingsModel.t_N0 prm)) in
  mkElem (tet_nodes t)
    (fun r c => spin_Ke D0 (real (SettingsModel.t_lsf prm)) (real (SettingsModel.t_lsd prm)) (is_magnetic prm)
                  (corner p t) (corner m t) (r / 4) (c / 4) (r mod 4) (c mod 4))
    (fun r => spin_Le mub e (real (SettingsModel.t_P prm)) sigma (is_magnetic prm) (corner p t) (corner x t) (corner m t) (r / 4) (r mod 4)).
Definition spin_tri (ratio : R) (p : nat -> vec) (surfs : list (surf_prm XA)) (t : tri) : elem R :=
  mkElem (tri_nodes t) (fun _ _ => 0)
    (fun r => spin_surface_Le (spin_surface_value ratio (surf_of surfs t)) (corner3 p t) (r / 3) (r mod 3)).

(** ** The constructor of spinAcc with spin_acc set, lines 8-39, then the following calls of compute.
    [None]: [passes] is not enough; [Some None]: exit(1). [u 0], [u 1], ... are the magnetizations at the successive calls. *)
Definition lift (e : elem R) : elem (num XA) := mkElem (e_ind e) (fun r c => Fin (e_Ke e r c)) (fun r => Fin (e_Le e r)).

Definition spin_start (passes : nat) (it_e it_s : iteration XA) (mub e : R) (p : nat -> vec) (u : nat -> vec) (n : nat)
    (edges : list (nat * nat)) (tets : list tet) (tris : list tri) (vols : list (vol_prm XA)) (surfs : list (surf_prm XA))
  : option (option (list (num XA) * spin_state XA)) :=
  if spin_check vols surfs then
    if elec_check surfs then
      match elec_solve passes it_e (new_matrix (build_shape 1 n edges (fun _ => true))) n
              (map (fun t => lift (elec_tet p vols t)) tets) (map (fun t => lift (elec_tri p surfs t)) tris)
              (elec_dirichlet n surfs tris) with
      | None => None
      | Some (it, X) =>
          match status it with
          | CONVERGED =>
              match spin_compute passes n (map (fun t => lift (spin_tet mub e p (fun i => real (nth i X n0)) u vols t)) tets)
                      (map (fun t => lift (spin_tri (mub / e) p surfs t)) tris)
                      (spin_dirichlet (Fin (mub / e) : num XA) n surfs tris) (spin_fresh it_s n edges) with
              | None => None
              | Some (true, st) => Some (Some (X, st))
              | Some (false, _) => Some None
              end
          | _ => Some None
          end
      end
    else Some None
  else Some None.
