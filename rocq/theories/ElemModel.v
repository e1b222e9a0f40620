(** * Model of the elements: classes Tet (/repo/src/tetra.h, tetra.cpp) and Tri (triangle.h, triangle.cpp)

    Exact real arithmetic. The decimal constants of the quadrature tables are the fractions written in the
    source. ONE_GAUSS_POINT is 0 (the default, /repo/CMakeLists.txt), so NPI = 5 and 4.

    An element is given by the positions of its nodes, [q i] for local node i (getNode(i).p); matrices are
    functions of their indices, row first. Eigen's products are the sums of their definition. *)

From Coq Require Import Reals List Arith Bool.
From Flocq Require Import Core.
From Verif Require Import Vec Sums.
Import ListNotations.
Local Open Scope R_scope.

(** component number k of a vector (operator() of Eigen::Vector3d) *)
Definition comp (k : nat) (u : vec) : R := match k with O => vx u | 1%nat => vy u | _ => vz u end.
(** weighted sum of n vectors *)
Definition vsumn (n : nat) (f : nat -> vec) : vec :=
  V (sumn n (fun i => vx (f i))) (sumn n (fun i => vy (f i))) (sumn n (fun i => vz (f i))).
(** square of a norm *)
Definition sqn (u : vec) : R := dot u u.

(** ** Quadrature of the tetrahedron *)
(** tetra.h lines 50-60 *)
Definition NPI : nat := 5.
Definition gu (j : nat) : R := nth j [1/4; 1/6; 1/6; 1/6; 1/2] 0.
Definition gv (j : nat) : R := nth j [1/4; 1/6; 1/6; 1/2; 1/6] 0.
Definition gw (j : nat) : R := nth j [1/4; 1/6; 1/2; 1/6; 1/6] 0.
Definition pds (j : nat) : R := nth j [-2/15; 3/40; 3/40; 3/40; 3/40] 0.
(** lines 68-80: shape function i at Gauss point j *)
Definition sh (i j : nat) : R :=
  match i with O => 1 - gu j - gv j - gw j | 1%nat => gu j | 2%nat => gv j | _ => gw j end.

(** ** Geometry of the tetrahedron *)
Definition edge1 (q : nat -> vec) := vsub (q 1%nat) (q 0%nat).
Definition edge2 (q : nat -> vec) := vsub (q 2%nat) (q 0%nat).
Definition edge3 (q : nat -> vec) := vsub (q 3%nat) (q 0%nat).

(** 3 by 3 matrices, for J; determinant, and inverse by cofactors (Eigen computes fixed size inverses so) *)
Definition mat := nat -> nat -> R.
Definition det3 (m : mat) : R :=
  m 0%nat 0%nat * (m 1%nat 1%nat * m 2%nat 2%nat - m 1%nat 2%nat * m 2%nat 1%nat)
  - m 0%nat 1%nat * (m 1%nat 0%nat * m 2%nat 2%nat - m 1%nat 2%nat * m 2%nat 0%nat)
  + m 0%nat 2%nat * (m 1%nat 0%nat * m 2%nat 1%nat - m 1%nat 1%nat * m 2%nat 0%nat).
Definition nxt (k : nat) : nat := match k with O => 1%nat | 1%nat => 2%nat | _ => 0%nat end.
Definition inv3 (m : mat) : mat := fun r c =>
  (m (nxt c) (nxt r) * m (nxt (nxt c)) (nxt (nxt r)) - m (nxt c) (nxt (nxt r)) * m (nxt (nxt c)) (nxt r)) / det3 m.

(** Tet::Jacobian, tetra.cpp lines 393-408 *)
Definition jac (q : nat -> vec) : mat := fun r c =>
  comp r (match c with O => edge1 q | 1%nat => edge2 q | _ => edge3 q end).
Definition detJ (q : nat -> vec) : R := det3 (jac q).

(** constructor, tetra.h lines 151-154 *)
Definition dadu (i k : nat) : R :=
  nth k (nth i [[-1; -1; -1]; [1; 0; 0]; [0; 1; 0]; [0; 0; 1]] []) 0.
Definition da_entry (q : nat -> vec) (i c : nat) : R := sumn 3 (fun k => dadu i k * inv3 (jac q) k c).
(** row i of the matrix da *)
Definition da (q : nat -> vec) (i : nat) : vec := V (da_entry q i 0) (da_entry q i 1) (da_entry q i 2).

(** lines 156-157 *)
Definition weight (q : nat -> vec) (j : nat) : R := detJ q * pds j.
(** Tet::calc_vol, tetra.cpp lines 426-427 *)
Definition calc_vol (q : nat -> vec) : R := sumn NPI (weight q).

(** Tet::orientate, tetra.cpp lines 410-424: [None] is exit(1). The list holds the four node numbers. *)
Definition mixed_prod (q : nat -> vec) : R := dot (edge1 q) (cross (edge2 q) (edge3 q)).
Definition orientate (epsilon : R) (p : nat -> vec) (ind : list nat) : option (list nat) :=
  match ind with
  | [a; b; c; d] =>
      let q i := p (nth i ind 0%nat) in
      if Rlt_bool (Rabs (mixed_prod q)) epsilon then None
      else if Rlt_bool (mixed_prod q) 0 then Some [a; b; d; c] else Some ind
  | _ => None
  end.

(** ** Interpolation, tetra.h lines 173-232, 344-352 *)
Definition interp (x : nat -> R) (j : nat) : R := sumn 4 (fun i => x i * sh i j).
Definition interpV (u : nat -> vec) (j : nat) : vec := vsumn 4 (fun i => vscale (sh i j) (u i)).
(** Tx, Ty, Tz (lines 196-198): derivative along coordinate k; the same at every Gauss point *)
Definition deriv (q : nat -> vec) (u : nat -> vec) (k : nat) : vec :=
  vsumn 4 (fun i => vscale (comp k (da q i)) (u i)).
(** interpolation_field (lines 204-218): minus the gradient *)
Definition interp_field (q : nat -> vec) (x : nat -> R) : vec :=
  vsub vzero (vsumn 4 (fun i => vscale (x i) (da q i))).
(** Tetra::calc_gradV, tetra.cpp lines 77-91 *)
Definition calc_gradV (q : nat -> vec) (x : nat -> R) : vec := vsumn 4 (fun i => vscale (x i) (da q i)).
(** Tetra::calc_Hst, lines 93-106 *)
Definition calc_Hst (prefactor : R) (s : nat -> vec) (j : nat) : vec := vscale prefactor (interpV s j).

(** ** Effective damping: one component of Tetra::calc_alpha_eff, tetra.cpp lines 47-75 *)
Definition alpha_eff (gamma0 dt alpha h : R) : R :=
  let reduced_dt := gamma0 * dt in
  let r := 1 / 10 in
  let M := 2 * alpha * r / reduced_dt in
  if Rlt_bool 0 h then
    (if Rlt_bool M h then alpha + reduced_dt / 2 * M else alpha + reduced_dt / 2 * h)
  else
    (if Rlt_bool h (- M) then alpha / (1 + reduced_dt / (2 * alpha) * M)
     else alpha / (1 - reduced_dt / (2 * alpha) * h)).

(** ** Element matrix *)
(** Tet::calcDiagBlock, lines 133-140 *)
Definition diag_block (q : nat -> vec) (c : R) (x : nat -> R) (i j : nat) : R :=
  dot (da q i) (da q j) * (c * calc_vol q) + (if Nat.eqb i j then x i else 0).
(** lines 114 and 121 *)
Definition contrib (q : nat -> vec) (al : nat -> R) (i : nat) : R := sumn NPI (fun j => sh i j * (weight q j * al j)).
Definition a_w (q : nat -> vec) (i : nat) : R := sumn NPI (fun j => sh i j * weight q j).
(** Tet::lumping, lines 108-131, from AE = 0: the coefficient at row 4*k+i and column 4*l+j, [u] being the
    CURRENT magnetization of the nodes *)
Definition lumping (q : nat -> vec) (al : nat -> R) (prefactor : R) (u : nat -> vec) (k l i j : nat) : R :=
  let diag c := if Nat.eqb i j then a_w q i * comp c (u i) else 0 in
  match k, l with
  | 0%nat, 0%nat | 1%nat, 1%nat | 2%nat, 2%nat => diag_block q prefactor (contrib q al) i j
  | 1%nat, 2%nat => - diag 0%nat
  | 2%nat, 1%nat => diag 0%nat
  | 0%nat, 2%nat => diag 1%nat
  | 2%nat, 0%nat => - diag 1%nat
  | 0%nat, 1%nat => - diag 2%nat
  | 1%nat, 0%nat => diag 2%nat
  | _, _ => 0
  end.

(** element::buildMatP, element.h lines 81-96: the diagonal coefficient of node i in block (b, k), b = 0 for ep
    and 1 for eq *)
Definition matP (ep eq : nat -> vec) (b k i : nat) : R := comp k (match b with O => ep i | _ => eq i end).
(** Perm (tetra.cpp lines 270-271, triangle.cpp) exchanges the two blocks of rows *)
Definition perm (b : nat) : nat := match b with O => 1%nat | _ => 0%nat end.
(** line 274: Kp at row 4*b+i and column 4*b'+j *)
Definition Kp (q : nat -> vec) (al : nat -> R) (prefactor : R) (u ep eq : nat -> vec) (b b' i j : nat) : R :=
  sumn 3 (fun k => sumn 3 (fun l =>
    matP ep eq (perm b) k i * lumping q al prefactor u k l i j * matP ep eq b' l j)).

(** ** Anisotropy fields *)
(** Tet::calc_aniso_uniax, lines 171-181, one Gauss point: the field added and the contribution to uHeff *)
Definition aniso_uniax (uk : vec) (Kbis s_dt : R) (U W : vec) : vec * R :=
  (vscale (Kbis * dot uk (vadd U (vscale s_dt W))) uk, Kbis * (dot U uk * dot U uk)).
(** Tet::calc_aniso_cub, lines 183-208 *)
Definition cwise (a b : vec) : vec := V (vx a * vx b) (vy a * vy b) (vz a * vz b).
Definition uuu (x : R) : R := x * (1 - x * x).
Definition aniso_cub (ex ey ez : vec) (K3bis s_dt : R) (U W : vec) : vec * R :=
  let uk_u := V (dot ex U) (dot ey U) (dot ez U) in
  let uk_v := V (dot ex W) (dot ey W) (dot ez W) in
  let uk_uuu := V (uuu (vx uk_u)) (uuu (vy uk_u)) (uuu (vz uk_u)) in
  let tmp := cwise uk_v ex in
  (vscale (- K3bis)
     (vadd (vadd (vadd (vscale (vx uk_uuu) ex) (vscale (vy uk_uuu) ey)) (vscale (vz uk_uuu) ez))
        (vscale s_dt (cwise tmp (vsub (V 1 1 1) (vscale 3 (cwise uk_u uk_u)))))),
   - K3bis * dot uk_u uk_uuu).

(** ** Tet::integrales, lines 210-307 *)
Record tprm := mkTprm { p_alpha : R; p_A : R; p_Ms : R; p_K : R; p_uk : vec; p_K3 : R; p_ex : vec; p_ey : vec; p_ez : vec }.

(** what is read from the nodes: CURRENT u, v, phi, phiv *)
Record tnod := mkTnod { n_u : nat -> vec; n_v : nat -> vec; n_phi : nat -> R; n_phiv : nat -> R }.

Section integrales.
Variables (mu0 gamma0 theta : R) (prm : tprm) (dt dt_prefactor : R).
(** external field at the Gauss points, and what the function extraField adds to Hst = 0 *)
Variables (Hext Hst : nat -> vec).
(** recentering drift: the coordinate (None for IDX_UNDEF) and the speed *)
Variables (idx_dir : option nat) (Vdrift : R).
Variables (q : nat -> vec) (nod : tnod).

Definition Abis : R := 2 * p_A prm / (mu0 * p_Ms prm).
Definition s_dt : R := theta * dt * gamma0.
Definition gU := interpV (n_u nod).
Definition gV := interpV (n_v nod).
Definition Hd : vec := interp_field q (n_phi nod).
Definition Hv : vec := interp_field q (n_phiv nod).

(** lines 237-246 *)
Definition H_aniso (j : nat) : vec * R :=
  let '(h1, e1) := if Req_bool (p_K prm) 0 then (vzero, 0)
                   else aniso_uniax (p_uk prm) (2 * p_K prm / (mu0 * p_Ms prm)) (s_dt / gamma0) (gU j) (gV j) in
  let '(h2, e2) := if Req_bool (p_K3 prm) 0 then (vzero, 0)
                   else aniso_cub (p_ex prm) (p_ey prm) (p_ez prm) (2 * p_K3 prm / (mu0 * p_Ms prm)) (s_dt / gamma0) (gU j) (gV j) in
  (vadd h1 h2, e1 + e2).

(** lines 232-255 *)
Definition uHeff (j : nat) : R :=
  - Abis * (sqn (deriv q (n_u nod) 0) + sqn (deriv q (n_u nod) 1) + sqn (deriv q (n_u nod) 2))
  + snd (H_aniso j) + dot (gU j) (vadd (vadd Hd (Hext j)) (Hst j)).

Definition a_eff (j : nat) : R := alpha_eff gamma0 dt (p_alpha prm) (uHeff j).

(** lines 259-274 *)
Definition tet_Kp (ep eq : nat -> vec) := Kp q a_eff (dt_prefactor * s_dt * Abis) (n_u nod) ep eq.

(** Tet::add_drift_BE, lines 150-169, from BE = 0 *)
Definition drift_BE (i : nat) : vec :=
  match idx_dir with
  | None => vzero
  | Some k =>
      let dU := deriv q (n_u nod) k in
      let dV := deriv q (n_v nod) k in
      vsumn NPI (fun j => vscale (Vdrift * weight q j) (vscale (sh i j)
        (vadd (vadd (vscale (p_alpha prm) dU) (cross (gU j) dU))
              (vscale s_dt (vadd (vadd (vscale (p_alpha prm) dV) (cross (gU j) dV)) (cross (gV j) dU))))))
  end.

(** lines 289-303: column i of BE *)
Definition BE (i : nat) : vec :=
  vadd (drift_BE i) (vsumn NPI (fun j =>
    let w := weight q j in
    let ai_w := w * sh i j in
    let H := vadd (vadd Hd (Hext j)) (vadd (fst (H_aniso j)) (vscale (s_dt / gamma0) Hv)) in
    vadd (vadd
      (vscale (- (w * Abis)) (vadd (vadd (vscale (comp 0 (da q i)) (deriv q (n_u nod) 0))
                                         (vscale (comp 1 (da q i)) (deriv q (n_u nod) 1)))
                                   (vscale (comp 2 (da q i)) (deriv q (n_u nod) 2))))
      (vscale ai_w (vadd H (Hst j))))
      (vscale (- (ai_w * dot (Hst j) (gU j) * s_dt)) (gV j)))).

(** line 306: Lp at row 4*b+i *)
Definition tet_Lp (ep eq : nat -> vec) (b i : nat) : R :=
  sumn 3 (fun k => matP ep eq (perm b) k i * comp k (BE i)).
End integrales.

(** ** Energies and charges of a tetrahedron, tetra.cpp lines 309-391. They take values at Gauss points. *)
Definition wdot (q : nat -> vec) (dens : nat -> R) : R := sumn NPI (fun j => weight q j * dens j).
Definition exchangeEnergy (prm : tprm) (q : nat -> vec) (u : nat -> vec) : R :=
  p_A prm * wdot q (fun _ => sqn (deriv q u 0) + sqn (deriv q u 1) + sqn (deriv q u 2)).
Definition uniaxialEnergy (prm : tprm) (q : nat -> vec) (U : nat -> vec) : R :=
  - p_K prm * wdot q (fun j => dot (p_uk prm) (U j) * dot (p_uk prm) (U j)).
Definition cubicEnergy (prm : tprm) (q : nat -> vec) (U : nat -> vec) : R :=
  p_K3 prm * wdot q (fun j =>
    let al0 := dot (U j) (p_ex prm) in let al1 := dot (U j) (p_ey prm) in let al2 := dot (U j) (p_ez prm) in
    (al0 * al1) * (al0 * al1) + (al1 * al2) * (al1 * al2) + (al2 * al0) * (al2 * al0)).
Definition divergence (q : nat -> vec) (u : nat -> vec) : R :=
  sumn 4 (fun i => vx (u i) * vx (da q i)) + sumn 4 (fun i => vy (u i) * vy (da q i)) + sumn 4 (fun i => vz (u i) * vz (da q i)).
Definition tet_charges (Ms : R) (q : nat -> vec) (u : nat -> vec) (j : nat) : R := - Ms * weight q j * divergence q u.
Definition tet_demagEnergy (mu0 : R) (prm : tprm) (q : nat -> vec) (u : nat -> vec) (phi : nat -> R) : R :=
  - (1 / 2) * mu0 * p_Ms prm *
  wdot q (fun j => (vx (deriv q u 0) + vy (deriv q u 1) + vz (deriv q u 2)) * phi j).
Definition zeemanEnergy (mu0 : R) (prm : tprm) (q : nat -> vec) (Hext : vec) (U : nat -> vec) : R :=
  - mu0 * p_Ms prm * wdot q (fun j => dot (U j) Hext).
(** zeemanEnergy for a field varying in space: [field] is spaceField[idx] *)
Definition zeemanEnergy_space (mu0 : R) (prm : tprm) (fieldAmp : R) (q : nat -> vec) (field : nat -> vec) (U : nat -> vec) : R :=
  - mu0 * p_Ms prm * fieldAmp * wdot q (fun j => dot (U j) (field j)).

(** ** Triangles *)
(** triangle.h lines 43-64 *)
Definition tNPI : nat := 4.
Definition tu (j : nat) : R := nth j [1/3; 1/5; 3/5; 1/5] 0.
Definition tv (j : nat) : R := nth j [1/3; 1/5; 1/5; 3/5] 0.
Definition tpds (j : nat) : R := nth j [-27/96; 25/96; 25/96; 25/96] 0.
Definition tsh (i j : nat) : R := match i with O => 1 - tu j - tv j | 1%nat => tu j | _ => tv j end.
(** normal_vect, calc_surf, calc_norm, lines 201-206, 220-233 *)
Definition normal_vect (q : nat -> vec) : vec := cross (vsub (q 1%nat) (q 0%nat)) (vsub (q 2%nat) (q 0%nat)).
Definition calc_surf (q : nat -> vec) : R := 1 / 2 * vnorm (normal_vect q).
Definition calc_norm (q : nat -> vec) : vec := vnormalize (normal_vect q).
(** constructor, lines 122-123 *)
Definition tweight (q : nat -> vec) (j : nat) : R := 2 * calc_surf q * tpds j.
(** interpolation, lines 142-161 *)
Definition tinterp (x : nat -> R) (j : nat) : R := sumn 3 (fun i => x i * tsh i j).
Definition tinterpV (u : nat -> vec) (j : nat) : vec := vsumn 3 (fun i => vscale (tsh i j) (u i)).
(** anisotropyEnergy, charges, demagEnergy: triangle.cpp lines 38-43, 45-59, 80-85 *)
Definition tri_anisotropyEnergy (Ks : R) (uk : vec) (q : nat -> vec) (U : nat -> vec) : R :=
  - Ks * sumn tNPI (fun j => tweight q j * (dot (U j) uk * dot (U j) uk)).
Definition tri_charges (dMs : R) (q : nat -> vec) (u : nat -> vec) (j : nat) : R :=
  if Req_bool dMs 0 then 0 else dMs * (tweight q j * dot (tinterpV u j) (calc_norm q)).
Definition tri_demagEnergy (mu0 dMs : R) (q : nat -> vec) (U : nat -> vec) (phi : nat -> R) : R :=
  1 / 2 * mu0 * dMs * sumn tNPI (fun j => dot (U j) (calc_norm q) * phi j * tweight q j).
(** integrales, lines 6-36: column i of BE, and Lp at row 3*b+i *)
Definition tri_BE (Ks dMs : R) (uk : vec) (q : nat -> vec) (u : nat -> vec) (i : nat) : vec :=
  let Kbis := 2 * Ks / dMs in
  vsumn tNPI (fun j => vscale (tweight q j * Kbis * dot uk (tinterpV u j) * tsh i j) uk).
Definition tri_Lp (Ks dMs : R) (uk : vec) (q : nat -> vec) (u ep eq : nat -> vec) (b i : nat) : R :=
  sumn 3 (fun k => matP ep eq (perm b) k i * comp k (tri_BE Ks dMs uk q u i)).
