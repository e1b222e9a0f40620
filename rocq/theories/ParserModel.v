(** * The functions given by the user: class ExpressionParser (/repo/src/expression_parser.cpp, expression_parser.h)
      and the functions of class Settings which evaluate them (/repo/src/settings.h lines 256-317)

    The JavaScript interpreter is Duktape, a library: what it compiles, and what a call returns, are the fields of a
    record [engine] over which every theorem is quantified.  A call may change the memory of the interpreter (global
    variables of the script): the [heap] goes through all operations.  What is modelled concretely is the value stack
    of the Duktape API, through which the program talks to the interpreter. *)
From Coq Require Import String Ascii List Arith Bool.
From Verif Require Import TextModel.
Import ListNotations.

(** JavaScript values as the API sees them: [Arr] is an array built by the program itself (duk_push_array), which
    nothing else can reach before the call; [Ref] anything made by the script (functions, objects, arrays) *)
Inductive value (N O : Type) := Undefined | Null | Boolean (b : bool) | Num (x : N) | Str (s : text) | Arr (l : list (value N O)) | Ref (o : O).
Arguments Undefined {N O}. Arguments Null {N O}. Arguments Boolean {N O}. Arguments Num {N O}. Arguments Str {N O}.
Arguments Arr {N O}. Arguments Ref {N O}.

Record engine (N : Type) := mkEngine {
  heap : Type;
  obj : Type;
  started : heap;                                                             (* duk_create_heap_default, with print *)
  library : heap -> option heap;                     (* duk_peval_string of the library, lines 9-31; None: an error *)
  compile : heap -> text -> heap * (value N obj + value N obj);   (* duk_pcompile_string: inl function, inr error *)
  apply : heap -> value N obj -> list (value N obj) -> heap * (value N obj + value N obj);                (* duk_pcall *)
  property : heap -> value N obj -> nat -> heap * option (bool * value N obj);
      (* duk_get_prop with an integer key: found or not, and the value; None: the access throws *)
  arity : heap -> value N obj -> nat;                                                              (* duk_get_length *)
  of_index : nat -> N;                                                             (* conversion of an int to double *)
  nan : N;
  capacity : nat                       (* the number of values the stack can hold (DUK_API_ENTRY_STACK, 64 by default) *)
}.
Arguments heap {N}. Arguments obj {N}. Arguments started {N}. Arguments library {N}. Arguments compile {N}. Arguments apply {N}.
Arguments property {N}. Arguments arity {N}. Arguments of_index {N}. Arguments nan {N}. Arguments capacity {N}.

Section Parser.
Context {N : Type} (E : engine N).
Notation value := (value N (obj E)).

(** what an operation of the program ends with: a result, exit(EXIT_FAILURE) after a message, or the fatal error
    handler of Duktape, which calls abort(): an error is thrown outside a protected call *)
Record state := mkState { mem : heap E; stack : list value (* the top is the head *) }.
Inductive outcome (X : Type) := Done (x : X) (s : state) | Exit | Abort.
Arguments Done {X}. Arguments Exit {X}. Arguments Abort {X}.
Definition bind {X Y} (a : outcome X) (f : X -> state -> outcome Y) : outcome Y :=
  match a with Done x s => f x s | Exit => Exit | Abort => Abort end.
Notation "'let*' x , s := a 'in' b" := (bind a (fun x s => b)) (at level 200, x name, s name, a at level 100, b at level 200).

(** ** The functions of the Duktape API used by the program.  An index outside of the stack, or a push on a full
    stack, throws. *)
Definition push (v : value) (s : state) : outcome unit :=
  if length (stack s) <? capacity E then Done tt (mkState (mem s) (v :: stack s)) else Abort.
(** duk_dup(ctx, -1) *)
Definition dup (s : state) : outcome unit := match stack s with v :: _ => push v s | [] => Abort end.
(** duk_pop *)
Definition pop (s : state) : outcome unit := match stack s with _ :: l => Done tt (mkState (mem s) l) | [] => Abort end.
(** duk_set_top(ctx, 0) *)
Definition clear (s : state) : outcome unit := Done tt (mkState (mem s) []).
(** duk_pcompile_string(ctx, DUK_COMPILE_FUNCTION, src): pushes the function or the error; true: an error *)
Definition pcompile (src : text) (s : state) : outcome bool :=
  let (h, r) := compile E (mem s) src in
  match r with
  | inl f => let* _, s := push f (mkState h (stack s)) in Done false s
  | inr e => let* _, s := push e (mkState h (stack s)) in Done true s
  end.
(** duk_pcall(ctx, n): the function is below its n arguments; all are replaced by the result or the error *)
Definition pcall (n : nat) (s : state) : outcome bool :=
  match skipn n (stack s) with
  | f :: l => let (h, r) := apply E (mem s) f (rev (firstn n (stack s))) in
              match r with inl v => Done false (mkState h (v :: l)) | inr e => Done true (mkState h (e :: l)) end
  | [] => Abort
  end.
(** duk_push_int(ctx, i); duk_get_prop(ctx, -2): the key is replaced by the value; the result tells if it was found *)
Definition get_prop (i : nat) (s : state) : outcome bool :=
  let* _, s := push (Num (of_index E i)) s in
  match stack s with
  | _ :: v :: l => match property E (mem s) v i with
                   | (h, Some (found, w)) => Done found (mkState h (w :: v :: l))
                   | (_, None) => Abort
                   end
  | _ => Abort
  end.
(** duk_put_prop_index(ctx, -2, i) on an array built by the program: the value on top becomes its element i.  Only
    i = length happens in get_vector; other indices are not modelled (they would leave holes) *)
Definition put_prop_index (i : nat) (s : state) : outcome unit :=
  match stack s with
  | v :: Arr l :: r => if length l =? i then Done tt (mkState (mem s) (Arr (l ++ [v]) :: r)) else Abort
  | _ => Abort
  end.
(** duk_get_number(ctx, -1): no conversion, NaN if the value is not a number or the index is invalid *)
Definition get_number (s : state) : N := match stack s with Num x :: _ => x | _ => nan E end.
(** std::string::c_str() read as a C string: up to the first NUL *)
Fixpoint c_str (s : text) : text := match s with [] => [] | c :: s' => if Ascii.eqb c "000"%char then [] else c :: c_str s' end.

(** ** ExpressionParser *)
(** constructor, lines 42-50: print is registered and the library is evaluated; the stack is empty again *)
Definition create : outcome unit :=
  match library E (started E) with Some h => Done tt (mkState h []) | None => Exit end.

(** die_if_error, lines 54-59 *)
Definition die_if_error (err : bool) (s : state) : outcome unit := if err then Exit else Done tt s.

(** set_function, lines 62-72 *)
Definition set_function (f : text) (s : state) : outcome unit :=
  let* _, s := clear s in
  let* err, s := pcompile (c_str f) s in
  let* _, s := die_if_error err s in
  if length (stack s) =? 1 then Done tt s else Exit.

(** set_expressions, lines 74-79 *)
Definition set_expressions (params x y z : text) (s : state) : outcome unit :=
  set_function (txt "function(" ++ params ++ txt ") { return [(" ++ x ++ txt "), (" ++ y ++ txt "), (" ++ z ++ txt ")]; }") s.

(** parameter_count, expression_parser.h line 51: 0 if the stack is empty *)
Definition parameter_count (s : state) : nat := match stack s with v :: _ => arity E (mem s) v | [] => 0 end.

(** get_scalar, lines 81-90 *)
Definition get_scalar (a : N) (s : state) : outcome N :=
  let* _, s := dup s in
  let* _, s := push (Num a) s in
  let* err, s := pcall 1 s in
  let* _, s := die_if_error err s in
  let r := get_number s in
  let* _, s := pop s in
  Done r s.

(** get_vector_component, lines 92-104 *)
Definition get_vector_component (i : nat) (s : state) : outcome N :=
  let* success, s := get_prop i s in
  if success then let r := get_number s in let* _, s := pop s in Done r s else Exit.

(** compute_vector, lines 106-115 *)
Definition compute_vector (n : nat) (s : state) : outcome (N * N * N) :=
  let* err, s := pcall n s in
  let* _, s := die_if_error err s in
  let* x, s := get_vector_component 0 s in
  let* y, s := get_vector_component 1 s in
  let* z, s := get_vector_component 2 s in
  let* _, s := pop s in
  Done (x, y, z) s.

(** get_vector(double), lines 117-122 *)
Definition get_vector_t (t : N) (s : state) : outcome (N * N * N) :=
  let* _, s := dup s in
  let* _, s := push (Num t) s in
  compute_vector 1 s.

(** get_vector(Vector3d), lines 124-131 *)
Definition get_vector_p (x y z : N) (s : state) : outcome (N * N * N) :=
  let* _, s := dup s in
  let* _, s := push (Num x) s in
  let* _, s := push (Num y) s in
  let* _, s := push (Num z) s in
  compute_vector 3 s.

(** get_vector(Vector3d, regions), lines 133-147 *)
Fixpoint push_regions (i : nat) (regions : list text) (s : state) : outcome unit :=
  match regions with
  | [] => Done tt s
  | r :: regions => let* _, s := push (Str (c_str r)) s in
                    let* _, s := put_prop_index i s in
                    push_regions (S i) regions s
  end.
Definition get_vector_r (x y z : N) (regions : list text) (s : state) : outcome (N * N * N) :=
  let* _, s := dup s in
  let* _, s := push (Num x) s in
  let* _, s := push (Num y) s in
  let* _, s := push (Num z) s in
  let* _, s := push (Arr []) s in
  let* _, s := push_regions 0 regions s in
  compute_vector 4 s.

(** ** A history of uses of one parser *)
Inductive use :=
  | SetFunction (f : text) | SetExpressions (params x y z : text) | Count
  | Scalar (a : N) | VectorT (t : N) | VectorP (x y z : N) | VectorR (x y z : N) (regions : list text).
Inductive answer := Nothing | AnsCount (n : nat) | AnsScalar (x : N) | AnsVector (x y z : N).
Definition perform (u : use) (s : state) : outcome answer :=
  match u with
  | SetFunction f => let* _, s := set_function f s in Done Nothing s
  | SetExpressions p x y z => let* _, s := set_expressions p x y z s in Done Nothing s
  | Count => Done (AnsCount (parameter_count s)) s
  | Scalar a => let* r, s := get_scalar a s in Done (AnsScalar r) s
  | VectorT t => let* r, s := get_vector_t t s in Done (let '(x, y, z) := r in AnsVector x y z) s
  | VectorP x y z => let* r, s := get_vector_p x y z s in Done (let '(x, y, z) := r in AnsVector x y z) s
  | VectorR x y z regions => let* r, s := get_vector_r x y z regions s in Done (let '(x, y, z) := r in AnsVector x y z) s
  end.
Fixpoint session (us : list use) (s : state) : outcome (list answer) :=
  match us with
  | [] => Done [] s
  | u :: us => let* a, s := perform u s in let* l, s := session us s in Done (a :: l) s
  end.

(** the initial magnetization before normalization, settings.h lines 256-285 and mesh.h lines 238-274: the regions
    are given only to a function with four parameters or more *)
Definition magnetization_of (x y z : N) (regions : list text) (s : state) : outcome (N * N * N) :=
  if parameter_count s <? 4 then get_vector_p x y z s else get_vector_r x y z regions s.
End Parser.
Arguments Done {N E X}. Arguments Exit {N E X}. Arguments Abort {N E X}.
Arguments mkState {N E}. Arguments mem {N E}. Arguments stack {N E}.
