(** * Triangle::Tri::integrales over any arithmetic: /repo/src/triangle.cpp lines 6-36

    ElemModel.v has the same function over the real numbers; this one keeps the operations, so that it can be run in
    double precision. [w] is the array weight (triangle.h lines 122-123) and [a] the table a[i][npi] of triangle.h
    lines 57-64, both computed once; vectors are functions of the coordinate 0, 1, 2. Eigen may add the terms of a
    product in another order: here they are added from left to right. *)
From Coq Require Import ZArith List Arith Bool.
From Verif Require Import Arith SparseModel IterModel AsmModel.
Import ListNotations.

Section model.
Context {A : arith}.
Notation nvec := (nat -> num A).
Variables (w : nat -> num A) (a : nat -> nat -> num A).

Definition acc (n : nat) (g : nat -> num A) : num A := fold_left (fun s k => nadd s (g k)) (seq 0 n) n0.

(** interpolation(get_u<CURRENT>, u), triangle.h lines 142-149 *)
Definition neel_u (u : nat -> nvec) (npi k : nat) : num A := acc 3 (fun i => nmul (u i k) (a i npi)).
(** line 8 *)
Definition neel_Kbis (Ks dMs : num A) : num A := ndiv (nmul (nlit 2%Z 1%positive) Ks) dMs.
(** line 18; the product is evaluated from left to right *)
Definition neel_prefactor (Ks dMs : num A) (uk : nvec) (u : nat -> nvec) (npi : nat) : num A :=
  nmul (nmul (w npi) (neel_Kbis Ks dMs)) (acc 3 (fun k => nmul (uk k) (neel_u u npi k))).
(** lines 13-25: BE(k,i) *)
Definition neel_BE (Ks dMs : num A) (uk : nvec) (u : nat -> nvec) (k i : nat) : num A :=
  acc 4 (fun npi => nmul (nmul (neel_prefactor Ks dMs uk u npi) (a i npi)) (uk k)).
(** buildMatP, element.h lines 81-96, for N = 3: entry (r, c) *)
Definition neel_P (ep eq : nat -> nvec) (r c : nat) : num A :=
  if r mod 3 =? c mod 3 then (if r <? 3 then ep (c mod 3) (c / 3) else eq (c mod 3) (c / 3)) else n0.
(** lines 30-35: row r of Lp; the permutation exchanges the halves of P *)
Definition neel_Lp (Ks dMs : num A) (uk : nvec) (u ep eq : nat -> nvec) (r : nat) : num A :=
  acc 9 (fun c => nmul (neel_P ep eq ((r + 3) mod 6) c) (neel_BE Ks dMs uk u (c / 3) (c mod 3))).

(** what solver.cpp lines 34-41 reads of a triangle: Lp is zero (element.h line 49) unless the call of
    linear_algebra.cpp lines 49-50 was made. Triangles have no part in the matrix. *)
Definition neel_elem (magnetic : bool) (ind : list nat) (Ks dMs : num A) (uk : nvec) (u ep eq : nat -> nvec) : elem (num A) :=
  mkElem ind (fun _ _ => n0) (if magnetic && negb (neq Ks n0) then neel_Lp Ks dMs uk u ep eq else fun _ => n0).
End model.
