(** * Arithmetic interfaces

    Numeric C++ code works on [double]. The model is written once, over a record of operations, and
    instantiated three times: theorems on control flow hold for every instance, exact statements are
    proved for [XA], rounding statements and executable examples use [B64]. *)

From Coq Require Import Reals ZArith Bool Lra Lia.
From Flocq Require Import Core BinarySingleNaN.

(** Operations on numbers. [nlit p q] is the C++ literal whose decimal value is p/q; [nround] is
    [std::round] followed by a conversion to an integer ([None]: NaN or infinite operand, for which
    the conversion is undefined behaviour). *)
Record arith : Type := mkArith {
  num : Type;
  nlit : Z -> positive -> num;
  nadd : num -> num -> num;
  nsub : num -> num -> num;
  nmul : num -> num -> num;
  ndiv : num -> num -> num;
  nabs : num -> num;
  nsqrt : num -> num;
  nlt : num -> num -> bool;
  nle : num -> num -> bool;
  neq : num -> num -> bool;
  nisnan : num -> bool;
  nround : num -> option Z
}.

Arguments nlit {_} _ _.
Arguments nadd {_} _ _.
Arguments nsub {_} _ _.
Arguments nmul {_} _ _.
Arguments ndiv {_} _ _.
Arguments nabs {_} _.
Arguments nsqrt {_} _.
Arguments nlt {_} _ _.
Arguments nle {_} _ _.
Arguments neq {_} _ _.
Arguments nisnan {_} _.
Arguments nround {_} _.

Definition n0 {A : arith} : num A := nlit 0 1.
Definition n1 {A : arith} : num A := nlit 1 1.
(** conversion of an [int] to [double] *)
Definition nZ {A : arith} (z : Z) : num A := nlit z 1.

(** [std::min(a,b)] is [(b < a) ? b : a] and [std::max(a,b)] is [(a < b) ? b : a]: with a NaN among
    the operands both return the first one. *)
Definition std_min {A : arith} (a b : num A) : num A := if nlt b a then b else a.
Definition std_max {A : arith} (a b : num A) : num A := if nlt a b then b else a.

(** ** Exact real numbers extended with the IEEE special values *)
Inductive xr : Type := Fin (r : R) | PInf | NInf | NaN.

Local Open Scope R_scope.

Definition xopp (x : xr) : xr :=
  match x with Fin a => Fin (- a) | PInf => NInf | NInf => PInf | NaN => NaN end.

Definition xadd (x y : xr) : xr :=
  match x, y with
  | NaN, _ => NaN | _, NaN => NaN
  | Fin a, Fin b => Fin (a + b)
  | PInf, NInf => NaN | NInf, PInf => NaN
  | PInf, _ => PInf | _, PInf => PInf
  | NInf, _ => NInf | _, NInf => NInf
  end.

Definition xsub (x y : xr) : xr := xadd x (xopp y).

(** infinity of the sign of [r]; NaN for zero (inf * 0) *)
Definition inf_times (pos : bool) (r : R) : xr :=
  if Rlt_bool 0 r then (if pos then PInf else NInf)
  else if Rlt_bool r 0 then (if pos then NInf else PInf)
  else NaN.

Definition xmul (x y : xr) : xr :=
  match x, y with
  | NaN, _ => NaN | _, NaN => NaN
  | Fin a, Fin b => Fin (a * b)
  | PInf, PInf => PInf | NInf, NInf => PInf
  | PInf, NInf => NInf | NInf, PInf => NInf
  | PInf, Fin b => inf_times true b
  | NInf, Fin b => inf_times false b
  | Fin a, PInf => inf_times true a
  | Fin a, NInf => inf_times false a
  end.

(** Division: zero is unsigned here, so a finite non-zero number divided by zero is the infinity of
    its own sign (IEEE would also use the sign of the zero). *)
Definition xdiv (x y : xr) : xr :=
  match x, y with
  | NaN, _ => NaN | _, NaN => NaN
  | Fin a, Fin b =>
      if Req_bool b 0 then
        (if Req_bool a 0 then NaN else if Rlt_bool 0 a then PInf else NInf)
      else Fin (a / b)
  | Fin a, _ => Fin 0
  | PInf, Fin b => if Rlt_bool b 0 then NInf else PInf
  | NInf, Fin b => if Rlt_bool b 0 then PInf else NInf
  | _, _ => NaN
  end.

Definition xabs (x : xr) : xr :=
  match x with Fin a => Fin (Rabs a) | PInf => PInf | NInf => PInf | NaN => NaN end.

Definition xsqrt (x : xr) : xr :=
  match x with
  | Fin a => if Rlt_bool a 0 then NaN else Fin (sqrt a)
  | PInf => PInf | NInf => NaN | NaN => NaN
  end.

Definition xlt (x y : xr) : bool :=
  match x, y with
  | NaN, _ => false | _, NaN => false
  | Fin a, Fin b => Rlt_bool a b
  | PInf, _ => false | _, NInf => false
  | _, PInf => true | NInf, _ => true
  end.

Definition xeq (x y : xr) : bool :=
  match x, y with
  | Fin a, Fin b => Req_bool a b
  | PInf, PInf => true | NInf, NInf => true
  | _, _ => false
  end.

Definition xle (x y : xr) : bool := xlt x y || xeq x y.

Definition xisnan (x : xr) : bool := match x with NaN => true | _ => false end.

(** [std::round]: nearest integer, halfway cases away from zero. *)
Definition xround (x : xr) : option Z :=
  match x with Fin a => Some (ZnearestA a) | _ => None end.

Definition XA : arith := {|
  num := xr;
  nlit := fun p q => Fin (IZR p / IZR (Zpos q));
  nadd := xadd; nsub := xsub; nmul := xmul; ndiv := xdiv;
  nabs := xabs; nsqrt := xsqrt;
  nlt := xlt; nle := xle; neq := xeq;
  nisnan := xisnan; nround := xround |}.

(** ** IEEE-754 binary64, round to nearest even (Flocq) *)
Definition b64 : Type := binary_float 53 1024.

Lemma prec53 : Prec_gt_0 53. Proof. reflexivity. Qed.
Lemma emax1024 : Prec_lt_emax 53 1024. Proof. reflexivity. Qed.
#[global] Existing Instance prec53.
#[global] Existing Instance emax1024.

Definition b64_of_Z (z : Z) : b64 := binary_normalize 53 1024 prec53 emax1024 mode_NE z 0 false.

(** [std::round] on a double, exactly: floor(|x| + 1/2) with the sign of x. *)
Definition b64_round (x : b64) : option Z :=
  match x with
  | B754_zero _ => Some 0%Z
  | B754_finite s m e _ =>
      let a := if (0 <=? e)%Z then (Zpos m * 2 ^ e)%Z
               else ((2 * Zpos m + 2 ^ (- e)) / 2 ^ (1 - e))%Z in
      Some (if s then (- a)%Z else a)
  | _ => None
  end.

(** The literal p/q is correctly rounded when p and q are exactly representable, which is the case of
    all literals of the model (|p|, q < 2^53): a quotient of two exact doubles is rounded once. *)
Definition B64 : arith := {|
  num := b64;
  nlit := fun p q => Bdiv mode_NE (b64_of_Z p) (b64_of_Z (Zpos q));
  nadd := Bplus mode_NE; nsub := Bminus mode_NE; nmul := Bmult mode_NE; ndiv := Bdiv mode_NE;
  nabs := @Babs 53 1024; nsqrt := Bsqrt mode_NE;
  nlt := @Bltb 53 1024; nle := @Bleb 53 1024; neq := @Beqb 53 1024;
  nisnan := @is_nan 53 1024; nround := b64_round |}.
