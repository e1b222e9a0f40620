(** * Strings: the operations of std::string used by the program, and the functions built on them
      (/repo/src/settings.cpp, /repo/src/settings.h, /repo/src/main.cpp)

    A std::string is the list of its characters (bytes). *)
From Coq Require Import String Ascii List Arith Bool ZArith.
Import ListNotations.

Definition text := list ascii.
Definition txt (s : string) : text := list_ascii_of_string s.
Definition NL : ascii := "010"%char.
Definition TAB : ascii := "009"%char.

(** equality and prefixes *)
Definition text_eqb (s t : text) : bool := if list_eq_dec ascii_dec s t then true else false.
Fixpoint prefixb (x s : text) : bool :=
  match x, s with
  | [], _ => true
  | c :: x', d :: s' => Ascii.eqb c d && prefixb x' s'
  | _ :: _, [] => false
  end.

(** std::string::find(x, pos): the first position from pos on where x occurs; [None] is npos *)
Fixpoint find_first (x s : text) : option nat :=
  if prefixb x s then Some 0
  else match s with [] => None | _ :: s' => option_map S (find_first x s') end.
Definition find_from (x s : text) (pos : nat) : option nat :=
  if pos <=? List.length s then option_map (Nat.add pos) (find_first x (skipn pos s)) else None.

(** std::string::rfind(c) for one character: the last position *)
Fixpoint rfind (c : ascii) (s : text) : option nat :=
  match s with
  | [] => None
  | d :: s' => match rfind c s' with Some k => Some (S k) | None => if Ascii.eqb c d then Some 0 else None end
  end.

(** s.replace(pos, n, y) *)
Definition replace_at (s : text) (pos n : nat) (y : text) : text := firstn pos s ++ y ++ skipn (pos + n) s.

(** the static function replace of settings.cpp, lines 70-77; the loop has no bound: [fuel] passes, [None] when it
    is still running *)
Fixpoint replace_loop (fuel : nat) (x y s : text) (pos : nat) : option text :=
  match fuel with
  | O => None
  | S f => match find_from x s pos with
           | None => Some s
           | Some k => replace_loop f x y (replace_at s k (List.length x) y) (k + List.length y)
           end
  end.
(** as many passes as the string has characters, and one to stop, are enough when x is not empty
    (TextProps.C59_replace) *)
Definition replace (x y s : text) : option text := replace_loop (S (List.length s)) x y s 0.

(** std::string::back(); on an empty string the behaviour is undefined: [None] *)
Fixpoint back (s : text) : option ascii :=
  match s with [] => None | [c] => Some c | _ :: s' => back s' end.
(** s.resize(s.size() - 1) *)
Definition drop_last (s : text) : text := firstn (List.length s - 1) s.

(** ** Header of the output files *)
Definition bind {X Y} (x : option X) (f : X -> option Y) : option Y := match x with Some a => f a | None => None end.

(** one entry of the user metadata, settings.cpp lines 283-289; [None]: undefined behaviour (empty value) *)
Definition meta_entry (kv : text * text) : option text :=
  bind (back (snd kv)) (fun c =>
  let value := if Ascii.eqb c NL then drop_last (snd kv) else snd kv in
  bind (replace [NL] (NL :: txt "##  ") value) (fun value =>
  Some (txt "## " ++ fst kv ++ txt ": " ++ value ++ [NL]))).

Fixpoint concat_opt (l : list (option text)) : option text :=
  match l with
  | [] => Some []
  | x :: l' => bind x (fun a => bind (concat_opt l') (fun b => Some (a ++ b)))
  end.

(** Settings::commonMetadata, settings.cpp lines 273-291; [hostname] is [None] when gethostname fails so;
    tags.h lines 20-28 *)
Record header_info := mkHeader { h_version : text; h_hostname : option text; h_date : text; h_file : text; h_meta : list (text * text) }.
Definition tag_line (tag value : text) : text := tag ++ " "%char :: value ++ [NL].
Definition common_metadata (h : header_info) : option text :=
  bind (concat_opt (map meta_entry (h_meta h))) (fun m =>
  Some (tag_line (txt "## feeLLGood version:") (h_version h)
        ++ match h_hostname h with Some n => tag_line (txt "## hostname:") n | None => [] end
        ++ tag_line (txt "## real-world time:") (h_date h)
        ++ tag_line (txt "## settings file:") (h_file h) ++ m)).

(** Settings::evolMetadata, lines 293-301; [None] also when there is no column: size() - 1 wraps around and the vector
    is read past its end *)
Fixpoint join_tab (cols : list text) : text :=
  match cols with [] => [] | [c] => c | c :: l => c ++ TAB :: join_tab l end.
Definition evol_metadata (h : header_info) (columns : list text) : option text :=
  match columns with
  | [] => None
  | _ => bind (common_metadata h) (fun m => Some (m ++ tag_line (txt "## columns:") (join_tab columns)))
  end.

(** ** Default base name of the output files, settings.cpp lines 579-593 *)
Definition base_name (pbName : text) : text :=
  let s := match rfind "/"%char pbName with Some pos => skipn (pos + 1) pbName | None => pbName end in
  match rfind "."%char s with Some pos => firstn pos s | None => s end.
Definition sim_name (simName pbName : text) : text :=
  match simName, pbName with [], _ :: _ => base_name pbName | _, _ => simName end.

(** ** Padding, main.cpp lines 75-92. The bytes are those of s.c_str() up to the first zero byte. *)
Definition byte (c : ascii) : N := N_of_ascii c.
Definition char_length (s : text) : nat :=
  (fix go (s : text) (len : nat) : nat :=
     match s with
     | [] => len
     | c :: s' => if (byte c =? 0)%N then len
                  else go s' (if (N.land (byte c) 192 =? 128)%N then len else S len)
     end) s 0.
(** [length] is an int, which may be negative *)
Definition pad (s : text) (length : Z) : text :=
  let n := (length - Z.of_nat (char_length s))%Z in
  let n := if (n <? 0)%Z then 0%Z else n in
  s ++ repeat " "%char (Z.to_nat n).

(** ** Output directory, settings.cpp lines 321-329 *)
Definition normalize_dir (d : text) : text :=
  let d := match d with [] => txt "." | _ => d end in
  match back d with
  | Some c => if (1 <? List.length d) && Ascii.eqb c "/"%char then drop_last d else d
  | None => d
  end.

(** ** Strings printed in YAML, settings.cpp lines 92-119 *)
Definition QUOTE : ascii := """"%char.
Definition BACKSLASH : ascii := "\"%char.
Definition str_yaml (s : text) (level : nat) : option text :=
  match find_first [NL] s with
  | None => bind (replace [QUOTE] [BACKSLASH; QUOTE] s) (fun s => Some (QUOTE :: s ++ [QUOTE]))
  | Some _ =>
      let indent := repeat " "%char ((level + 1) * 2) in
      let s := txt "|" ++ NL :: s in
      let s := match back s with Some c => if Ascii.eqb c NL then drop_last s else s | None => s end in
      replace [NL] (NL :: indent) s
  end.

(** ** Region names, settings.h lines 215-232 (findRegionIdx): [None] is -1 *)
Fixpoint find_region_from (i : nat) (name : text) (names : list text) : option nat :=
  match names with
  | [] => None
  | r :: l => if text_eqb r name then Some i else find_region_from (S i) name l
  end.
Definition find_region (names : list text) (name : text) : option nat := find_region_from 0 name names.

(** ** User metadata, settings.cpp lines 352-369: one document, as the list of its entries in the order of the map *)
Fixpoint set_meta (kv : text * text) (l : list (text * text)) : list (text * text) :=
  match l with
  | [] => [kv]
  | x :: l' => if text_eqb (fst x) (fst kv) then kv :: l' else x :: set_meta kv l'
  end.
Definition read_metadata (doc : list (text * text)) (l : list (text * text)) : list (text * text) :=
  fold_left (fun l kv => set_meta kv l) doc l.
