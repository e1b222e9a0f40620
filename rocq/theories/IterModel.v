(** * Model of the iterative solvers: /repo/src/algebra/{algebraCore,algebra,iter,bicg,cg}.h

    Over any arithmetic. Vectors are lists; all vectors of one call have the size of the matrix (the
    theorems require it). *)

From Coq Require Import List ZArith Bool.
From Verif Require Import Arith SparseModel.
Import ListNotations.

Section model.
Context {A : arith}.
Notation vect := (list (num A)).

Fixpoint zip_with (f : num A -> num A -> num A) (X Y : vect) : vect :=
  match X, Y with x :: X', y :: Y' => f x y :: zip_with f X' Y' | _, _ => [] end.

(** [-alpha]: the product with -1 is exact and has the same sign rules *)
Definition nopp (a : num A) : num A := nmul (nlit (-1) 1) a.

(** algebraCore.h lines 10-13: std::inner_product from (T)0 *)
Definition vdot (X Y : vect) : num A :=
  fold_left (fun acc xy => nadd acc (nmul (fst xy) (snd xy))) (combine X Y) n0.
(** algebraCore.h line 17 *)
Definition vnorm2 (X : vect) : num A := nsqrt (nabs (vdot X X)).

(** algebra.h lines 35-36: Y *= alpha *)
Definition scaled (alpha : num A) (Y : vect) : vect := map (fun y => nmul y alpha) Y.
(** algebra.h lines 40-41 *)
Definition p_direct (X Y : vect) : vect := zip_with nmul X Y.
(** algebra.h lines 45-49: Y += X *)
Definition vadd_to (X Y : vect) : vect := zip_with nadd Y X.
(** algebra.h lines 53-57: Y -= X *)
Definition vsub_from (X Y : vect) : vect := zip_with nsub Y X.
(** algebra.h lines 61-65: Y += alpha*X *)
Definition scaled_add (X : vect) (alpha : num A) (Y : vect) : vect :=
  zip_with (fun y x => nadd y (nmul alpha x)) Y X.
(** algebra.h lines 76-77 *)
Definition applyMask (mask : list nat) (X : vect) : vect :=
  fold_left (fun X i => set_nth i n0 X) mask X.

(** iter.h lines 24-30 *)
Inductive algoStatus := UNDEFINED | CONVERGED | ITER_OVERFLOW | CANNOT_CONVERGE.

(** class iteration, iter.h lines 37-96 (without the solver name) *)
Record iteration := mkIter {
  rhsn : num A; maxiter : Z; noise : bool; nit : Z; res : num A; written : bool;
  status : algoStatus; resmax : num A }.

(** std::numeric_limits<double>::max() *)
Definition dbl_max : num A := nlit ((2 ^ 53 - 1) * 2 ^ 971) 1.

(** constructor, iter.h lines 87-90 *)
Definition new_iter (r : num A) (_noise : bool) (_maxiter : Z) : iteration :=
  mkIter n1 _maxiter _noise 0 dbl_max false UNDEFINED r.

(** reset, iter.h lines 99-106 *)
Definition reset (it : iteration) : iteration :=
  mkIter n1 (maxiter it) (noise it) 0 dbl_max false UNDEFINED (resmax it).

Definition set_status (it : iteration) (st : algoStatus) : iteration :=
  mkIter (rhsn it) (maxiter it) (noise it) (nit it) (res it) (written it) st (resmax it).

(** operator++, iter.h lines 119-128 *)
Definition incr (it : iteration) : iteration :=
  let it := mkIter (rhsn it) (maxiter it) (noise it) (nit it + 1) (res it) false (status it) (resmax it) in
  if (maxiter it <=? nit it)%Z then set_status it ITER_OVERFLOW else it.

(** set_rhsnorm, iter.h line 140 *)
Definition set_rhsnorm (it : iteration) (r : num A) : iteration :=
  mkIter r (maxiter it) (noise it) (nit it) (res it) (written it) (status it) (resmax it).

(** converged(), iter.h lines 144-156 *)
Definition converged0 (it : iteration) : bool * iteration :=
  if nisnan (res it) then (false, set_status it CANNOT_CONVERGE)
  else
    let cv := nle (res it) (nmul (rhsn it) (resmax it)) in
    (cv, if cv then set_status it CONVERGED else it).

(** converged(nr), iter.h lines 159-163 *)
Definition converged (it : iteration) (nr : num A) : bool * iteration :=
  converged0 (mkIter (rhsn it) (maxiter it) (noise it) (nit it) (nabs nr) (written it) (status it) (resmax it)).

(** finished, iter.h lines 167-178 (the printed line itself is not modelled) *)
Definition finished (it : iteration) (nr : num A) : bool * iteration :=
  let it :=
    if noise it && negb (written it) then
      let it := snd (converged it nr) in
      mkIter (rhsn it) (maxiter it) (noise it) (nit it) (res it) true (status it) (resmax it)
    else it in
  converged it nr.

(** ** bicg.h *)

(** variables of the loop *)
Record bstate := mkB {
  b_it : iteration; b_x : vect; b_r : vect; b_p : vect; b_v : vect;
  b_alpha : num A; b_omega : num A; b_rho2 : num A }.

(** what one pass does: leave the loop, or go on *)
Inductive outcome (S : Type) := Stop (it : iteration) (x : vect) | Next (s : S).
Arguments Stop {S}. Arguments Next {S}.

Definition is_stop (st : algoStatus) : bool :=
  match st with ITER_OVERFLOW | CANNOT_CONVERGE => true | _ => false end.

(** One evaluation of the loop condition and of the body: bicg lines 29-72, bicg_dir lines 105-152 and
    185-232. The three loops are the same but for the masks ([ld] is empty in bicg: applyMask with an
    empty mask does nothing) and for the way bicg computes beta, by the same operations in the same
    order. [D] is diag_precond. *)
Definition bicg_pass (M : matrix A) (ld : list nat) (D rt : vect) (s : bstate) : outcome bstate :=
  let '(fin, it) := finished (b_it s) (vnorm2 (b_r s)) in
  if fin then Stop it (b_x s)
  else
    let rho1 := vdot rt (b_r s) in
    if (0 <? nit it)%Z && (neq (b_rho2 s) n0 || neq (b_omega s) n0) then
      Stop (set_status it CANNOT_CONVERGE) (b_x s)
    else
      let p :=
        if (0 <? nit it)%Z then
          let beta := nmul (ndiv rho1 (b_rho2 s)) (ndiv (b_alpha s) (b_omega s)) in
          vadd_to (b_r s) (scaled beta (vsub_from (scaled (b_omega s) (b_v s)) (b_p s)))
        else b_p s in
      let phat := p_direct D p in
      let v := applyMask ld (mmult M phat) in
      let alpha := ndiv rho1 (vdot v rt) in
      let ss := scaled_add v (nopp alpha) (b_r s) in
      let '(fin2, it) := finished it (vnorm2 ss) in
      if fin2 then Stop it (scaled_add phat alpha (b_x s))
      else if is_stop (status it) then Stop it (b_x s)
      else
        let shat := p_direct D ss in
        let t := applyMask ld (mmult M shat) in
        let omega := ndiv (vdot t ss) (vdot t t) in
        let x := scaled_add shat omega (scaled_add phat alpha (b_x s)) in
        let r := vsub_from (scaled omega t) ss in
        Next (mkB (incr it) x r p v alpha omega rho1).

(** the loop; [None]: still running after [fuel] passes *)
Fixpoint bicg_loop (fuel : nat) (M : matrix A) (ld : list nat) (D rt : vect) (s : bstate)
  : option (iteration * vect) :=
  match fuel with
  | O => None
  | S fuel' =>
      match bicg_pass M ld D rt s with
      | Stop it x => Some (it, x)
      | Next s' => bicg_loop fuel' M ld D rt s'
      end
  end.

(** bicg, bicg.h lines 14-73 *)
Definition bicg (fuel : nat) (it : iteration) (M : matrix A) (x rhs : vect) : option (iteration * vect) :=
  let D := diag_precond M in
  let it := set_rhsnorm it (vnorm2 rhs) in
  let v := mmult M x in
  let r := vsub_from v rhs in
  bicg_loop fuel M [] D r (mkB it x r r v n0 n0 n0).

(** bicg_dir with values, bicg.h lines 83-154 *)
Definition bicg_dir (fuel : nat) (it : iteration) (M : matrix A) (x rhs xd : vect) (ld : list nat)
  : option (iteration * vect) :=
  let D := applyMask ld (diag_precond M) in
  let b := applyMask ld (vsub_from (mmult M xd) rhs) in
  let it := set_rhsnorm it (vnorm2 b) in
  let v := mmult M x in
  let r := applyMask ld (vsub_from v b) in
  match bicg_loop fuel M ld D r (mkB it x r r v n0 n0 n0) with
  | Some (it, x) => Some (it, vadd_to xd x)
  | None => None
  end.

(** bicg_dir without values, bicg.h lines 163-234 (the value returned, a ratio of the monitor's
    numbers, is not modelled; sizes are equal) *)
Definition bicg_dir0 (fuel : nat) (it : iteration) (M : matrix A) (x rhs : vect) (ld : list nat)
  : option (iteration * vect) :=
  let D := applyMask ld (diag_precond M) in
  let b := applyMask ld rhs in
  let it := set_rhsnorm it (vnorm2 b) in
  let v := mmult M x in
  let r := applyMask ld (vsub_from v b) in
  bicg_loop fuel M ld D r (mkB it x r r v n0 n0 n0).

(** ** cg.h *)
Record cstate := mkC {
  c_it : iteration; c_x : vect; c_r : vect; c_p : vect; c_rho : num A; c_rho1 : num A }.

(** cg lines 31-55, cg_dir lines 92-118 (no mask in cg) *)
Definition cg_pass (M : matrix A) (ld : list nat) (D : vect) (s : cstate) : outcome cstate :=
  let '(fin, it) := finished (c_it s) (vnorm2 (c_r s)) in
  if fin || is_stop (status it) then Stop it (c_x s)
  else
    let '(p, rho) :=
      if (0 <? nit it)%Z then
        let z := p_direct D (c_r s) in
        let rho := vdot z (c_r s) in
        (vadd_to z (scaled (ndiv rho (c_rho1 s)) (c_p s)), rho)
      else (c_p s, c_rho s) in
    let q := applyMask ld (mmult M p) in
    let qp := vdot q p in
    if neq qp n0 then Stop (set_status it CANNOT_CONVERGE) (c_x s)
    else
      let a := ndiv rho qp in
      Next (mkC (incr it) (scaled_add p a (c_x s)) (scaled_add q (nopp a) (c_r s)) p rho rho).

Fixpoint cg_loop (fuel : nat) (M : matrix A) (ld : list nat) (D : vect) (s : cstate)
  : option (iteration * vect) :=
  match fuel with
  | O => None
  | S fuel' =>
      match cg_pass M ld D s with
      | Stop it x => Some (it, x)
      | Next s' => cg_loop fuel' M ld D s'
      end
  end.

(** cg, cg.h lines 15-57 *)
Definition cg (fuel : nat) (it : iteration) (M : matrix A) (x rhs : vect) : option (iteration * vect) :=
  let D := diag_precond M in
  let it := set_rhsnorm it (vnorm2 rhs) in
  let r := vsub_from (mmult M x) rhs in
  let z := p_direct D r in
  cg_loop fuel M [] D (mkC it x r z (vdot z r) n0).

(** cg_dir, cg.h lines 68-121 *)
Definition cg_dir (fuel : nat) (it : iteration) (M : matrix A) (x rhs xd : vect) (ld : list nat)
  : option (iteration * vect) :=
  let D := applyMask ld (diag_precond M) in
  let b := applyMask ld (vsub_from (mmult M xd) rhs) in
  let it := set_rhsnorm it (vnorm2 b) in
  let r := applyMask ld (vsub_from (mmult M x) b) in
  let z := p_direct D r in
  match cg_loop fuel M ld D (mkC it x r z (vdot z r) n0) with
  | Some (it, x) => Some (it, vadd_to xd x)
  | None => None
  end.
End model.

Arguments iteration : clear implicits.
Arguments bstate : clear implicits.
Arguments cstate : clear implicits.
Arguments Stop {_ _}. Arguments Next {_ _}.
