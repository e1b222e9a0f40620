(** * Numbers in text, and the .sol files
      (/repo/src/save.cpp, /repo/src/read.cpp, /repo/src/settings.cpp)

    The program prints and reads numbers through the C++ streams. This file models the parts of the streams it uses:
    printing a double in scientific notation, printing an integer, and the operators >> for double and unsigned int, as
    in the libstdc++ implementation on which the program is built. *)
From Coq Require Import String Ascii Reals ZArith Bool List Lia.
From Flocq Require Import Core BinarySingleNaN.
From Flocq Require Calc.Div.
From Verif Require Import Arith ArithLaws TextModel.
Import ListNotations.
Open Scope Z_scope.

Definition radix10 : radix := Build_radix 10 eq_refl.

(** ** Printing *)
Definition digit (d : Z) : ascii := ascii_of_nat (48 + Z.to_nat d).
(** the last [n] decimal digits of [z], the most significant first *)
Fixpoint digits (n : nat) (z : Z) : text :=
  match n with O => [] | S m => digits m (z / 10) ++ [digit (z mod 10)] end.
Definition ndigits (z : Z) : nat := Z.to_nat (Z.max 1 (Zdigits radix10 z)).
(** operator<< of an unsigned integer *)
Definition print_nat (z : Z) : text := digits (ndigits z) z.

(** the quotient rounded to nearest, ties to even *)
Definition rdiv (a b : Z) : Z :=
  let q := a / b in
  match Z.compare (2 * (a mod b)) b with Lt => q | Gt => q + 1 | Eq => if Z.even q then q else q + 1 end.
(** the k such that 10^k <= a/b < 10^(k+1) *)
Definition pow10 (k : Z) : Z := Zpower radix10 k.
Definition ilog10 (a b : Z) : Z :=
  let d := Zdigits radix10 a - Zdigits radix10 b in
  if (if 0 <=? d then b * pow10 d <=? a else b <=? a * pow10 (- d)) then d else d - 1.
(** a/b with p+1 significant digits: n * 10^(k-p), 10^p <= n < 10^(p+1) *)
Definition sig_digits (p : Z) (a b : Z) : Z * Z :=
  let k := ilog10 a b in
  let n := if 0 <=? p - k then rdiv (a * pow10 (p - k)) b else rdiv a (b * pow10 (k - p)) in
  if n =? pow10 (p + 1) then (pow10 p, k + 1) else (n, k).
(** the exponent has at least two digits *)
Definition print_exp (k : Z) : text :=
  "e"%char :: (if k <? 0 then "-"%char else "+"%char) :: digits (Nat.max 2 (ndigits (Z.abs k))) (Z.abs k).
Definition print_sign (s : bool) : text := if s then ["-"%char] else [].
Definition print_mantissa (p : nat) (n : Z) : text :=
  digits 1 (n / pow10 (Z.of_nat p)) ++ match p with O => [] | _ => "."%char :: digits p n end.
(** operator<< of a double with std::scientific and setprecision(p). The sign of a NaN is not modelled. *)
Definition print_sci (p : nat) (x : b64) : text :=
  match x with
  | B754_zero s => print_sign s ++ print_mantissa p 0 ++ print_exp 0
  | B754_infinity s => print_sign s ++ txt "inf"
  | B754_nan => txt "nan"
  | B754_finite s m e _ =>
      let '(n, k) := sig_digits (Z.of_nat p) (Zpos m * (if 0 <=? e then 2 ^ e else 1)) (if 0 <=? e then 1 else 2 ^ (- e)) in
      print_sign s ++ print_mantissa p n ++ print_exp k
  end.

(** ** Reading *)
Definition is_space (c : ascii) : bool :=
  let n := N_of_ascii c in ((n =? 32) || ((9 <=? n) && (n <=? 13)))%N.
Definition is_digit (c : ascii) : bool := let n := N_of_ascii c in ((48 <=? n) && (n <=? 57))%N.
Definition digit_val (c : ascii) : Z := Z.of_N (N_of_ascii c) - 48.
Fixpoint skip_ws (s : text) : text := match s with c :: s' => if is_space c then skip_ws s' else s | [] => [] end.
Fixpoint span (s : text) : text * text :=
  match s with
  | c :: s' => if is_digit c then let '(a, b) := span s' in (c :: a, b) else ([], s)
  | [] => ([], [])
  end.
Definition digits_val (s : text) : Z := fold_left (fun v c => 10 * v + digit_val c) s 0.
Definition take_sign (s : text) : bool * text :=
  match s with
  | c :: s' => if Ascii.eqb c "-"%char then (true, s') else if Ascii.eqb c "+"%char then (false, s') else (false, s)
  | [] => (false, s)
  end.

(** the double nearest to (-1)^s a 10^k, ties to even; infinite in case of overflow (strtod) *)
Definition sf_to_b64 (z : SpecFloat.spec_float) : b64 :=
  match SpecFloat.valid_binary 53 1024 z as b return SpecFloat.valid_binary 53 1024 z = b -> b64 with
  | true => fun H => SF2B z H
  | false => fun _ => B754_nan
  end eq_refl.
Definition of_decimal (s : bool) (a k : Z) : b64 :=
  if a =? 0 then B754_zero s
  else let '(m, e, l) := Flocq.Calc.Div.Fdiv fexp64 (Float radix2 (a * (if 0 <=? k then pow10 k else 1)) 0)
                                                 (Float radix2 (if 0 <=? k then 1 else pow10 (- k)) 0) in
       sf_to_b64 (binary_round_aux 53 1024 mode_NE s m e l).

(** largest finite double *)
Definition max64 (s : bool) : b64 := sf_to_b64 (SpecFloat.S754_finite s 9007199254740991 971).

(** sign, digits, an optional point followed by digits; [None] when there is no digit *)
Definition scan_mantissa (s : text) : option (bool * Z * Z * text) :=
  let '(sg, s) := take_sign s in
  let '(ip, s) := span s in
  let '(fp, s) := match s with c :: s' => if Ascii.eqb c "."%char then span s' else ([], s) | [] => ([], s) end in
  match ip ++ fp with [] => None | ds => Some (sg, digits_val ds, - Z.of_nat (List.length fp), s) end.
Definition is_e (c : ascii) : bool := Ascii.eqb c "e"%char || Ascii.eqb c "E"%char.

(** operator>> of a double: the value stored, and what remains of the stream, [None] once it is in the failed state
    (no number: 0 is stored; overflow: the largest double is stored). *)
Definition read_double (s : text) : b64 * option text :=
  match scan_mantissa (skip_ws s) with
  | None => (B754_zero false, None)
  | Some (sg, a, k, s) =>
      let finish k s := let v := of_decimal sg a k in
                        if is_finite v then (v, Some s) else (max64 sg, None) in
      match s with
      | c :: s' => if is_e c then
                     let '(se, s') := take_sign s' in
                     let '(ex, s') := span s' in
                     match ex with
                     | [] => (B754_zero false, None)
                     | _ => finish (k + (if se then - digits_val ex else digits_val ex)) s'
                     end
                   else finish k s
      | [] => finish k s
      end
  end.
(** operator>> of an unsigned int (32 bits): a minus sign wraps around, and too large a number is the largest one and a
    failure *)
Definition read_unsigned (s : text) : Z * option text :=
  let '(sg, s) := take_sign (skip_ws s) in
  let '(ds, s) := span s in
  match ds with
  | [] => (0, None)
  | _ => let v := digits_val ds in
         if v <? 2 ^ 32 then ((if sg then (- v) mod 2 ^ 32 else v), Some s) else (2 ^ 32 - 1, None)
  end.

(** std::stod: [None] when it throws (no number, overflow, underflow). What follows the number is ignored. Numbers in
    hexadecimal, "inf" and "nan" are not modelled: no double printed by the program but an infinite or undefined time is. *)
Definition stod (s : text) : option b64 :=
  match scan_mantissa (skip_ws s) with
  | None => None
  | Some (sg, a, k, s) =>
      let k := match s with
               | c :: s' => if is_e c then
                              let '(se, s') := take_sign s' in
                              let '(ex, _) := span s' in
                              k + (if se then - digits_val ex else digits_val ex)
                            else k
               | [] => k
               end in
      let v := of_decimal sg a k in
      let tiny := match v with
                  | B754_finite _ m e _ => (e =? -1074) && (Zpos m <? 2 ^ 52)
                  | B754_zero _ => negb (a =? 0)
                  | _ => true
                  end in
      if is_finite v && negb tiny then Some v else None
  end.

(** ** Writing: Mesh::savesol, save.cpp lines 164-188, with the potential and the magnetization of the level NEXT.
    Eigen prints the three components with the precision of the stream, separated by tabs. *)
Record sol_node := mkSol { s_x : b64; s_y : b64; s_z : b64; s_phi : b64 }.
Definition print3 (p : nat) (x y z : b64) : text := print_sci p x ++ TAB :: print_sci p y ++ TAB :: print_sci p z.
(** [spin]: the three components of the spin accumulation, when it is computed *)
Definition sol_line (p : nat) (i : nat) (n : sol_node) (spin : option (b64 * b64 * b64)) : text :=
  print_nat (Z.of_nat i) ++ TAB :: print3 p (s_x n) (s_y n) (s_z n) ++ TAB :: print_sci p (s_phi n)
  ++ match spin with Some (x, y, z) => TAB :: print3 p x y z | None => [] end ++ [NL].
Fixpoint sol_lines (p : nat) (i : nat) (idx : list nat) (nodes : list sol_node) (spin : option (list (b64 * b64 * b64))) : option text :=
  match idx with
  | [] => Some []
  | j :: idx' =>
      bind (nth_error nodes j) (fun n =>
      bind (match spin with None => Some None | Some s => option_map Some (nth_error s j) end) (fun sp =>
      bind (sol_lines p (S i) idx' nodes spin) (fun rest => Some (sol_line p i n sp ++ rest))))
  end.
(** [None]: an index is out of range *)
Definition savesol (p : nat) (header : text) (node_index : list nat) (nodes : list sol_node)
    (spin : option (list (b64 * b64 * b64))) : option text :=
  bind (sol_lines p 0 node_index nodes spin) (fun l => Some (header ++ l)).

(** Settings::solMetadata, settings.cpp lines 303-312: the common lines, the time with the default precision 6, the columns *)
Definition time_tag : text := txt "## time:".
Definition sol_metadata (h : header_info) (spin : bool) (t : b64) : option text :=
  bind (common_metadata h) (fun m =>
  Some (m ++ tag_line time_tag (print_sci 6 t)
          ++ tag_line (txt "## columns:") (join_tab (map txt ["idx"; "mx"; "my"; "mz"; "phi"]%string
                                                     ++ if spin then map txt ["sx"; "sy"; "sz"]%string else [])))).

(** ** Reading: mesh::readSol, read.cpp lines 199-248 *)
Inductive outcome (X : Type) :=
| Restored (x : X)
| ExitFailure           (* error message and exit(1) *)
| Throws                (* an exception which nothing catches *)
| Undefined.            (* a variable is read which has not been set *)
Arguments Restored {X} _.
Arguments ExitFailure {X}.
Arguments Throws {X}.
Arguments Undefined {X}.

Fixpoint getline (s : text) : text * text :=
  match s with
  | [] => ([], [])
  | c :: s' => if Ascii.eqb c NL then ([], s') else let '(l, r) := getline s' in (c :: l, r)
  end.

(** lines 210-220: the time found so far and the rest of the file. Each pass consumes a character at least: as many passes
    as the file has characters are enough (SolProof.read_header_enough) *)
Fixpoint read_header (fuel : nat) (s : text) (t : option b64) : outcome (option b64 * text) :=
  match fuel with
  | O => Restored (t, s)
  | S f =>
      match s with
      | c :: _ => if Ascii.eqb c "#"%char || Ascii.eqb c NL then
                    let '(str, s') := getline s in
                    match find_first time_tag str with
                    | Some k => match stod (skipn (k + List.length time_tag) str) with
                                | Some v => read_header f s' (Some v)
                                | None => Throws
                                end
                    | None => read_header f s' t
                    end
                  else Restored (t, s)
      | [] => Restored (t, s)
      end
  end.

(** one extraction: a stream in the failed state sets nothing, and neither does one with no more than white space before
    its end, which fails *)
Definition extract {X} (read : text -> X * option text) (st : option text) : option X * option text :=
  match st with
  | None => (None, None)
  | Some s => match skip_ws s with
              | [] => (None, None)
              | _ => let '(v, st') := read s in (Some v, st')
              end
  end.
Fixpoint upd {X} (l : list X) (i : nat) (x : X) : list X :=
  match l, i with
  | [], _ => []
  | _ :: l', O => x :: l'
  | y :: l', S j => y :: upd l' j x
  end.
(** lines 234-246: [mx], [my], [mz] and [i_] are not initialised, while the potential is that of the node *)
Fixpoint read_nodes (i : nat) (idx : list nat) (st : option text) (nodes : list sol_node) : outcome (list sol_node) :=
  match idx with
  | [] => Restored nodes
  | j :: idx' =>
      match nth_error nodes j with
      | None => Undefined
      | Some n =>
          let '(i_, st) := extract read_unsigned st in
          let '(mx, st) := extract read_double st in
          let '(my, st) := extract read_double st in
          let '(mz, st) := extract read_double st in
          let '(phi, st) := extract read_double st in
          match i_, mx, my, mz with
          | Some i_, Some mx, Some my, Some mz =>
              if Z.of_nat i =? i_
              then read_nodes (S i) idx' st (upd nodes j (mkSol mx my mz (match phi with Some v => v | None => s_phi n end)))
              else ExitFailure
          | _, _, _, _ => Undefined
          end
      end
  end.
Definition read_sol (file : text) (node_index : list nat) (nodes : list sol_node) : outcome (b64 * list sol_node) :=
  match read_header (S (List.length file)) file None with
  | Restored (Some t, s) =>
      match read_nodes 0 node_index (Some s) nodes with
      | Restored l => Restored (t, l)
      | ExitFailure => ExitFailure
      | Throws => Throws
      | Undefined => Undefined
      end
  | Restored (None, _) => ExitFailure
  | ExitFailure => ExitFailure
  | Throws => Throws
  | Undefined => Undefined
  end.
