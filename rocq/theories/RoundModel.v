(** * The step of a node, with rounding *)
From Coq Require Import Reals ZArith Bool List.
From Verif Require Import Arith.

(** Eigen::Vector3d *)
Record vec3 (A : arith) : Type := mkV3 { cx : num A; cy : num A; cz : num A }.
Arguments mkV3 {A}. Arguments cx {A}. Arguments cy {A}. Arguments cz {A}.

Section Round.
  Variable A : arith.

  (** operators + and * of Eigen vectors, used at node.h lines 119-120: coefficient by coefficient *)
  Definition plus3 (a b : vec3 A) : vec3 A := mkV3 (nadd (cx a) (cx b)) (nadd (cy a) (cy b)) (nadd (cz a) (cz b)).
  Definition times3 (k : num A) (a : vec3 A) : vec3 A := mkV3 (nmul k (cx a)) (nmul k (cy a)) (nmul k (cz a)).

  (** Eigen's squaredNorm (called by [normalize], node.h line 121): three products and two sums. The
      order of the sums is the one of the library and of its unrolling, so both are considered:
      [left = true] is (xx + yy) + zz, [left = false] is xx + (yy + zz). The project is compiled without
      extensions (CMakeLists.txt line 7), so products and sums are rounded separately. *)
  Definition squared_norm (left : bool) (a : vec3 A) : num A :=
    let xx := nmul (cx a) (cx a) in let yy := nmul (cy a) (cy a) in let zz := nmul (cz a) (cz a) in
    if left then nadd (nadd xx yy) zz else nadd xx (nadd yy zz).

  (** Eigen's normalize (3.3 and later), called at node.h line 121: every coefficient is divided by the
      square root of the squared norm, if that is positive. *)
  Definition normalize (left : bool) (a : vec3 A) : vec3 A :=
    let s := squared_norm left a in
    if nlt n0 s then let r := nsqrt s in mkV3 (ndiv (cx a) r) (ndiv (cy a) r) (ndiv (cz a) r) else a.

  (** The part of Node::make_evol, node.h lines 116-122, that computes NEXT's v and u *)
  Definition step_v (vp vq : num A) (ep eq : vec3 A) : vec3 A := plus3 (times3 vp ep) (times3 vq eq).
  Definition step_u (left : bool) (u v : vec3 A) (dt : num A) : vec3 A := normalize left (plus3 u (times3 dt v)).

  (** Eigen's dot product, with the same two orders as [squared_norm]; operator - of vectors; cross product *)
  Definition dot3 (left : bool) (a b : vec3 A) : num A :=
    let xx := nmul (cx a) (cx b) in let yy := nmul (cy a) (cy b) in let zz := nmul (cz a) (cz b) in
    if left then nadd (nadd xx yy) zz else nadd xx (nadd yy zz).
  Definition minus3 (a b : vec3 A) : vec3 A := mkV3 (nsub (cx a) (cx b)) (nsub (cy a) (cy b)) (nsub (cz a) (cz b)).
  Definition cross3 (a b : vec3 A) : vec3 A :=
    mkV3 (nsub (nmul (cy a) (cz b)) (nmul (cz a) (cy b))) (nsub (nmul (cz a) (cx b)) (nmul (cx a) (cz b)))
         (nsub (nmul (cx a) (cy b)) (nmul (cy a) (cx b))).
  (** cwiseAbs().minCoeff(&minIdx), node.h line 77: the index of the first smallest coefficient *)
  Definition min_index (u : vec3 A) : nat :=
    let x := nabs (cx u) in let y := nabs (cy u) in let z := nabs (cz u) in
    if nlt y x then (if nlt z y then 2 else 1)%nat else (if nlt z x then 2 else 0)%nat.
  (** setUnit(minIdx), line 78 *)
  Definition unit_vector (i : nat) : vec3 A :=
    match i with 0%nat => mkV3 (nZ 1) (nZ 0) (nZ 0) | 1%nat => mkV3 (nZ 0) (nZ 1) (nZ 0) | _ => mkV3 (nZ 0) (nZ 0) (nZ 1) end.
  (** Node::setBasis, node.h lines 73-89 (PARANOID_ORTHONORMALIZATION is false, config.h.in line 56); [c] and [s] are cos(r) and sin(r) *)
  Definition set_basis (left : bool) (u : vec3 A) (c s : num A) : vec3 A * vec3 A :=
    let ep := unit_vector (min_index u) in
    let ep := minus3 ep (times3 (dot3 left ep u) u) in
    let ep := normalize left ep in
    let eq := cross3 u ep in
    (minus3 (times3 c ep) (times3 s eq), plus3 (times3 s ep) (times3 c eq)).

  (** What one accepted time step gives to a node: the projections of its velocity, its local basis
      (Node::setBasis, redrawn at every step) and the time step. *)
  Record move : Type := mkMove { m_vp : num A; m_vq : num A; m_ep : vec3 A; m_eq : vec3 A; m_dt : num A }.

  Definition moved (left : bool) (m : move) (u : vec3 A) : vec3 A :=
    step_u left u (step_v (m_vp m) (m_vq m) (m_ep m) (m_eq m)) (m_dt m).

  (** A history of accepted steps: make_evol then evolution (node.h line 107) *)
  Fixpoint history (left : bool) (ms : list move) (u : vec3 A) : vec3 A :=
    match ms with nil => u | (m :: r)%list => history left r (moved left m u) end.

  (** One accepted step of a run, as a node sees it: the angle drawn for the bases (mesh.h lines 177-182,
      setBasis of every node, called by base_projection, linear_algebra.cpp lines 5-11), given by its cosine and sine; the solution of
      the linear system at this node; the time step. The solution may depend on everything else, so it is arbitrary. *)
  Record kick : Type := mkKick { k_vp : num A; k_vq : num A; k_c : num A; k_s : num A; k_dt : num A }.
  Definition drawn (left : bool) (u : vec3 A) (k : kick) : move :=
    mkMove (k_vp k) (k_vq k) (fst (set_basis left u (k_c k) (k_s k))) (snd (set_basis left u (k_c k) (k_s k))) (k_dt k).
  Fixpoint run (left : bool) (ks : list kick) (u : vec3 A) : vec3 A :=
    match ks with nil => u | (k :: r)%list => run left r (moved left (drawn left u k) u) end.
End Round.

Arguments plus3 {A}. Arguments times3 {A}. Arguments squared_norm {A}. Arguments normalize {A}.
Arguments dot3 {A}. Arguments minus3 {A}. Arguments cross3 {A}. Arguments min_index {A}. Arguments unit_vector {A}. Arguments set_basis {A}.
Arguments step_v {A}. Arguments step_u {A}. Arguments moved {A}. Arguments history {A}.
Arguments mkMove {A}. Arguments m_vp {A}. Arguments m_vq {A}. Arguments m_ep {A}. Arguments m_eq {A}. Arguments m_dt {A}.
Arguments mkKick {A}. Arguments k_vp {A}. Arguments k_vq {A}. Arguments k_c {A}. Arguments k_s {A}. Arguments k_dt {A}. Arguments drawn {A}. Arguments run {A}.
