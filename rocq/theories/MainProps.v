(** * Properties of the command line and of the chronometer *)
From Coq Require Import Reals String Ascii List Arith Bool ZArith Lia Lra.
From Flocq Require Import Core.
From Verif Require Import Arith TextModel TextProof TextProps SolModel SolProof MainModel.
Import ListNotations.
Local Open Scope nat_scope.

(** ** C63: the command line *)
(** specification: the words of the command line *)
Inductive item := Flag (o : opt) | Seed (value : text).
Inductive word : item -> list text -> Prop :=
  | w_h : word (Flag Help) [txt "-h"]
  | w_help : word (Flag Help) [txt "--help"]
  | w_V : word (Flag Version) [txt "-V"]
  | w_version : word (Flag Version) [txt "--version"]
  | w_defaults : word (Flag PrintDefaults) [txt "--print-defaults"]
  | w_template : word (Flag PrintTemplate) [txt "--print-template"]
  | w_verify : word (Flag Verify) [txt "--verify"]
  | w_v : word (Flag Verbose) [txt "-v"]
  | w_verbose : word (Flag Verbose) [txt "--verbose"]
  | w_seed v : word (Seed v) [txt "--seed"; v].
Inductive words : list item -> list text -> Prop :=
  | no_words : words [] []
  | one_word i l a b : word i a -> words l b -> words (i :: l) (a ++ b).
Definition option_names : list text :=
  [txt "-h"; txt "--help"; txt "-V"; txt "--version"; txt "--print-defaults"; txt "--print-template"; txt "--verify";
   txt "-v"; txt "--verbose"; txt "--seed"].
(** where the options end: at the end of the line, at an argument which is not the name of an option, or at an option
    --seed without value *)
Definition options_end (rest : list text) : Prop :=
  rest = [] \/ rest = [txt "--seed"] \/ exists arg l, rest = arg :: l /\ ~ In arg option_names.

Definition opt_eqb (a b : opt) : bool :=
  match a, b with
  | Help, Help | Version, Version | PrintDefaults, PrintDefaults | PrintTemplate, PrintTemplate | Verify, Verify
  | Verbose, Verbose | SeedOpt, SeedOpt => true
  | _, _ => false
  end.
Definition occurrences (o : opt) (items : list item) : nat :=
  List.length (filter (fun i => match i with Flag p => opt_eqb p o | Seed _ => false end) items).
Definition given (o : opt) (items : list item) : bool := negb (occurrences o items =? 0).
(** the last seed *)
Fixpoint last_seed (items : list item) : option text :=
  match items with
  | [] => None
  | Seed v :: l => match last_seed l with Some w => Some w | None => Some v end
  | _ :: l => last_seed l
  end.

(** what the program does: help, version, defaults and template come first, in this order; otherwise exactly one argument
    has to follow the options *)
Definition meaning (items : list item) (rest : list text) : command :=
  if given Help items then ShowHelp
  else if given Version items then ShowVersion
  else if given PrintDefaults items then ShowDefaults
  else if given PrintTemplate items then ShowTemplate
  else match rest with
       | [file] =>
           if text_eqb file (txt "--seed") then UsageError
           else if given Verify items then VerifyFile (occurrences Verbose items) file
           else Run (occurrences Verbose items) file
                    (match last_seed items with Some v => Given (to_unsigned (atol v)) | None => FromDevice end)
       | _ => UsageError
       end.

(** the state of the loop after the items *)
Fixpoint after (items : list item) (f : flags) : flags :=
  match items with
  | [] => f
  | Flag o :: l => after l (count o f)
  | Seed v :: l => after l (set_seed (to_unsigned (atol v)) (count SeedOpt f))
  end.

Lemma word_read i a rest f : word i a -> read_options (a ++ rest) f = read_options rest (after [i] f).
Proof. intros H. destruct H; reflexivity. Qed.
Lemma word_not_seed i a : word i a -> match i with Flag SeedOpt => False | _ => True end.
Proof. intros H. destruct H; exact I. Qed.

Lemma words_read items a rest : words items a -> forall f, read_options (a ++ rest) f = read_options rest (after items f).
Proof.
  induction 1 as [|i l a b Hw H IH]; intros f; [reflexivity|]. rewrite <- app_assoc. rewrite (word_read _ _ _ _ Hw). rewrite IH.
  f_equal. destruct i; reflexivity.
Qed.

Definition flag_count (o : opt) (f : flags) : nat :=
  match o with Help => n_help f | Version => n_version f | PrintDefaults => n_defaults f | PrintTemplate => n_template f
  | Verify => n_verify f | Verbose => n_verbose f | SeedOpt => n_seed f end.

Lemma count_flag o p f : flag_count o (count p f) = (if opt_eqb p o then 1 else 0) + flag_count o f.
Proof. destruct f, o, p; reflexivity. Qed.
Lemma set_flag o z f : flag_count o (set_seed z f) = flag_count o f.
Proof. destruct f, o; reflexivity. Qed.

Lemma occurrences_cons o i l : occurrences o (i :: l) = match i with Flag p => if opt_eqb p o then 1 else 0 | Seed _ => 0 end + occurrences o l.
Proof. unfold occurrences. cbn [filter]. destruct i as [p|v]; [destruct (opt_eqb p o)|]; reflexivity. Qed.

Lemma after_flag o items : o <> SeedOpt -> forall f, flag_count o (after items f) = flag_count o f + occurrences o items.
Proof.
  intros Ho. induction items as [|i l IH]; intros f; [cbn; lia|]. rewrite occurrences_cons. destruct i as [p|v]; cbn [after]; rewrite IH.
  - rewrite count_flag. lia.
  - rewrite set_flag, count_flag. destruct o; cbn; try lia; congruence.
Qed.

Lemma count_seed p f : seed_value (count p f) = seed_value f.
Proof. destruct f, p; reflexivity. Qed.

Lemma after_seed items : forall f, (forall i, In i items -> match i with Flag SeedOpt => False | _ => True end) ->
  match last_seed items with
  | Some v => n_seed (after items f) <> 0 /\ seed_value (after items f) = Some (to_unsigned (atol v))
  | None => n_seed (after items f) = n_seed f /\ seed_value (after items f) = seed_value f
  end.
Proof.
  induction items as [|i l IH]; intros f H; [cbn; auto|].
  assert (Hl : forall i, In i l -> match i with Flag SeedOpt => False | _ => True end) by (intros j Hj; apply H; now right).
  destruct i as [p|v]; cbn [last_seed after].
  - specialize (IH (count p f) Hl). destruct (last_seed l); [exact IH|]. destruct IH as (I1 & I2). rewrite I1, I2, count_seed. split; [|reflexivity].
    specialize (H (Flag p) (or_introl eq_refl)). destruct f, p; try reflexivity. destruct H.
  - set (g := set_seed (to_unsigned (atol v)) (count SeedOpt f)). specialize (IH g Hl). destruct (last_seed l) as [w|] eqn:E; [exact IH|].
    destruct IH as (I1 & I2). rewrite I1, I2. unfold g. destruct f; cbn. split; [lia|reflexivity].
Qed.

Lemma find_option_none arg : arg <> [] -> ~ In arg option_names -> find_option options arg = None.
Proof.
  intros He H. unfold options, option_names in *. cbn [In] in H. cbn [find_option fst snd].
  assert (N : forall t, arg <> t -> text_eqb arg t = false).
  { intros t Ht. destruct (text_eqb arg t) eqn:E; [|reflexivity]. apply text_eqb_spec in E. congruence. }
  rewrite !N by (first [exact He | intros ->; tauto]). reflexivity.
Qed.

Lemma words_no_seed items a : words items a -> forall i, In i items -> match i with Flag SeedOpt => False | _ => True end.
Proof. induction 1 as [|i l a b Hw H IH]; intros j Hj; [destruct Hj|]. destruct Hj as [<-|Hj]; [exact (word_not_seed _ _ Hw)|exact (IH _ Hj)]. Qed.

(** the arguments always have a reading, and the program does what its reading means, except when the options are
    followed by an empty argument (see [C63_empty_refuted]) *)
Theorem C63_command_line_partial : forall args items a rest,
  args = a ++ rest -> words items a -> options_end rest -> hd (txt "x") rest <> [] ->
  parse_options args = meaning items rest.
Proof.
  intros args items a rest -> W E He. unfold parse_options. rewrite (words_read _ _ _ W).
  pose proof (after_seed items no_flags (words_no_seed _ _ W)) as S0.
  assert (C : forall o, o <> SeedOpt -> flag_count o (after items no_flags) = occurrences o items).
  { intros o Ho. rewrite after_flag by exact Ho. destruct o; reflexivity. }
  assert (P : forall g r, read_options rest (after items no_flags) = (g, r) ->
    (forall o, o <> SeedOpt -> flag_count o g = occurrences o items) ->
    (r = rest /\ g = after items no_flags /\ (forall f l, rest = f :: l -> ~ In f option_names)) \/ (rest = [txt "--seed"] /\ r = []) ->
    (let '(f, rest) := read_options rest (after items no_flags) in
      if negb (n_help f =? 0) then ShowHelp
      else if negb (n_version f =? 0) then ShowVersion
      else if negb (n_defaults f =? 0) then ShowDefaults
      else if negb (n_template f =? 0) then ShowTemplate
      else match rest with
       | [file] =>
           if negb (n_verify f =? 0) then VerifyFile (n_verbose f) file
           else Run (n_verbose f) file (if n_seed f =? 0 then FromDevice
                                        else match seed_value f with Some z => Given z | None => Uninitialised end)
       | _ => UsageError
       end) = meaning items rest).
  { intros g r -> Hc Hr. unfold meaning, given.
    rewrite <- (Hc Help), <- (Hc Version), <- (Hc PrintDefaults), <- (Hc PrintTemplate), <- (Hc Verify), <- (Hc Verbose) by discriminate. cbn [flag_count].
    destruct (negb (n_help g =? 0)); [reflexivity|]. destruct (negb (n_version g =? 0)); [reflexivity|].
    destruct (negb (n_defaults g =? 0)); [reflexivity|]. destruct (negb (n_template g =? 0)); [reflexivity|].
    destruct Hr as [(-> & -> & Hr)|(-> & ->)]; [|reflexivity].
    destruct rest as [|file [|x l]]; [reflexivity| |reflexivity].
    destruct (text_eqb file (txt "--seed")) eqn:Ef.
    { exfalso. apply text_eqb_spec in Ef as ->. apply (Hr _ _ eq_refl). unfold option_names. cbn [In]. tauto. }
    destruct (negb (n_verify (after items no_flags) =? 0)); [reflexivity|]. f_equal.
    destruct (last_seed items) as [v|].
    - destruct S0 as (S1 & S2). rewrite S2. replace (n_seed (after items no_flags) =? 0) with false by (symmetry; now apply Nat.eqb_neq). reflexivity.
    - destruct S0 as (S1 & _). rewrite S1. reflexivity. }
  destruct E as [-> | [-> | (arg & l & -> & Ha)]].
  - eapply P; [reflexivity|exact C|]. left. split; [reflexivity|]. split; [reflexivity|]. intros f l H. discriminate.
  - eapply P; [reflexivity| |now right]. intros o Ho. rewrite count_flag. cbn [opt_eqb snd]. destruct o; try (rewrite <- C by discriminate; reflexivity). congruence.
  - cbn [hd] in He. assert (R : forall f, read_options (arg :: l) f = (f, arg :: l)) by (intros f; cbn [read_options]; now rewrite find_option_none).
    eapply P; [apply R|exact C|]. left. split; [reflexivity|]. split; [reflexivity|]. intros f l0 H. injection H as <- <-. exact Ha.
Qed.

Theorem C63_reading_exists : forall args, exists items a rest, args = a ++ rest /\ words items a /\ options_end rest.
Proof.
  assert (G : forall n args, List.length args < n -> exists items a rest, args = a ++ rest /\ words items a /\ options_end rest).
  { induction n as [|n IH]; intros args Hn; [lia|]. destruct args as [|arg l].
    { exists [], [], []. split; [reflexivity|]. split; [constructor|now left]. }
    cbn [List.length] in Hn.
    assert (One : forall o, word (Flag o) [arg] -> exists items a rest, arg :: l = a ++ rest /\ words items a /\ options_end rest).
    { intros o Ho. destruct (IH l) as (items & a & rest & -> & W & E); [lia|]. exists (Flag o :: items), ([arg] ++ a), rest.
      split; [reflexivity|]. split; [now constructor|exact E]. }
    destruct (in_dec (list_eq_dec ascii_dec) arg option_names) as [H|H].
    - unfold option_names in H. cbn [In] in H.
      repeat match type of H with _ \/ _ => destruct H as [H|H] end; try (subst arg; eapply One; constructor; fail); [|destruct H].
      subst arg. destruct l as [|v l].
      + exists [], [], [txt "--seed"]. split; [reflexivity|]. split; [constructor|]. right. now left.
      + cbn [List.length] in Hn. destruct (IH l) as (items & a & rest & -> & W & E); [lia|].
        exists (Seed v :: items), ([txt "--seed"; v] ++ a), rest. split; [reflexivity|]. split; [constructor; [constructor|exact W]|exact E].
    - exists [], [], (arg :: l). split; [reflexivity|]. split; [constructor|]. right. right. exists arg, l. auto. }
  intros args. apply (G (S (List.length args))). lia.
Qed.

(** a seed written in decimal is the seed used *)
Theorem C63_seed_value : forall n, (0 <= n < 2 ^ 32)%Z -> to_unsigned (atol (print_nat n)) = n.
Proof.
  intros n Hn. unfold to_unsigned, atol, print_nat.
  destruct (digits_head (ndigits n) n (ndigits_pos n)) as (c & l & E & H1 & H2 & H3 & H4 & _).
  assert (W : skip_ws (digits (ndigits n) n) = digits (ndigits n) n) by (rewrite E; cbn [skip_ws]; now rewrite H2).
  rewrite W. assert (T : take_sign (digits (ndigits n) n) = (false, digits (ndigits n) n)) by (rewrite E; cbn [take_sign]; now rewrite H3, H4).
  rewrite T. pose proof (span_digits (ndigits n) n [] I) as Sp. rewrite app_nil_r in Sp. rewrite Sp.
  assert (V : digits_val (digits (ndigits n) n) = n).
  { rewrite digits_val_digits by lia. apply Z.mod_small. split; [lia|]. apply ndigits_bound. lia. }
  rewrite V. assert (B : (2 ^ 32 <= 2 ^ 63 - 1)%Z) by (vm_compute; discriminate). rewrite Z.min_r by lia. rewrite Z.max_r by lia.
  now apply Z.mod_small.
Qed.

(** a negative seed is taken modulo 2^32 *)
Theorem C63_seed_negative : forall n, (0 < n < 2 ^ 32)%Z -> to_unsigned (atol ("-"%char :: print_nat n)) = (2 ^ 32 - n)%Z.
Proof.
  intros n Hn. unfold to_unsigned, atol, print_nat.
  pose proof (span_digits (ndigits n) n [] I) as Sp. rewrite app_nil_r in Sp.
  change (skip_ws ("-"%char :: digits (ndigits n) n)) with ("-"%char :: digits (ndigits n) n).
  change (take_sign ("-"%char :: digits (ndigits n) n)) with (true, digits (ndigits n) n). cbv iota. rewrite Sp.
  assert (V : digits_val (digits (ndigits n) n) = n).
  { rewrite digits_val_digits by lia. apply Z.mod_small. split; [lia|]. apply ndigits_bound. lia. }
  rewrite V. assert (B : (2 ^ 32 <= 2 ^ 63 - 1)%Z) by (vm_compute; discriminate). rewrite Z.min_r by lia. rewrite Z.max_r by lia.
  rewrite Z_mod_nz_opp_full; rewrite Z.mod_small; lia.
Qed.

(** any integer: the seed is taken modulo 2^32, beyond the range of long it is 2^32 - 1 or 0 *)
Theorem C63_seed_any : forall n, (0 <= n)%Z ->
  to_unsigned (atol (print_nat n)) = (if n <? 2 ^ 63 then n mod 2 ^ 32 else 2 ^ 32 - 1)%Z /\
  to_unsigned (atol ("-"%char :: print_nat n)) = (if n <=? 2 ^ 63 then (- n) mod 2 ^ 32 else 0)%Z.
Proof.
  intros n Hn. unfold to_unsigned, atol, print_nat.
  assert (V : digits_val (digits (ndigits n) n) = n).
  { rewrite digits_val_digits by lia. apply Z.mod_small. split; [lia|]. apply ndigits_bound. lia. }
  pose proof (span_digits (ndigits n) n [] I) as Sp. rewrite app_nil_r in Sp.
  assert (P : (0 < 2 ^ 63)%Z) by (vm_compute; reflexivity).
  split.
  - destruct (digits_head (ndigits n) n (ndigits_pos n)) as (c & l & E & H1 & H2 & H3 & H4 & _).
    assert (W : skip_ws (digits (ndigits n) n) = digits (ndigits n) n) by (rewrite E; cbn [skip_ws]; now rewrite H2).
    rewrite W. assert (T : take_sign (digits (ndigits n) n) = (false, digits (ndigits n) n)) by (rewrite E; cbn [take_sign]; now rewrite H3, H4).
    rewrite T, Sp, V. destruct (Z.ltb_spec n (2 ^ 63)) as [C|C].
    + rewrite Z.min_r by lia. rewrite Z.max_r by lia. reflexivity.
    + rewrite Z.min_l by lia. rewrite Z.max_r by lia. vm_compute. reflexivity.
  - change (skip_ws ("-"%char :: digits (ndigits n) n)) with ("-"%char :: digits (ndigits n) n).
    change (take_sign ("-"%char :: digits (ndigits n) n)) with (true, digits (ndigits n) n). cbv iota. rewrite Sp, V.
    rewrite Z.min_r by lia. destruct (Z.leb_spec n (2 ^ 63)) as [C|C].
    + rewrite Z.max_r by lia. reflexivity.
    + rewrite Z.max_l by lia. vm_compute. reflexivity.
Qed.

(** an empty argument is taken for the missing short name of --print-defaults, although it is neither a request for the
    defaults nor the name of a settings file: the program prints the defaults and exits with status 0 *)
Theorem C63_empty_refuted : exists args, words [] [] /\ options_end args /\ meaning [] args = Run 0 [] FromDevice /\ parse_options args = ShowDefaults.
Proof.
  exists [[]]. split; [constructor|]. split; [|split; reflexivity]. right. right. exists [], []. split; [reflexivity|].
  unfold option_names. cbn. intros H. repeat destruct H as [H|H]; try discriminate. destruct H.
Qed.

Example C63_nonvacuous :
  parse_options [txt "-v"; txt "--seed"; txt "42"; txt "-v"; txt "run.yml"] = Run 2 (txt "run.yml") (Given 42) /\
  parse_options [txt "--seed"; txt "run.yml"] = UsageError /\ parse_options [txt "run.yml"; txt "-v"] = UsageError /\
  parse_options [txt "--version"; txt "-h"; txt "x"; txt "y"] = ShowHelp /\
  parse_options [txt "--verify"; txt "-"] = VerifyFile 0 (txt "-") /\
  words [Flag Verbose; Seed (txt "42")] [txt "-v"; txt "--seed"; txt "42"] /\ options_end [txt "run.yml"].
Proof.
  repeat (split; [reflexivity|]). split.
  - change [txt "-v"; txt "--seed"; txt "42"] with ([txt "-v"] ++ [txt "--seed"; txt "42"] ++ []).
    constructor; [constructor|]. constructor; [constructor|constructor].
  - right. right. exists (txt "run.yml"), []. split; [reflexivity|]. unfold option_names. cbn. intros H. repeat destruct H as [H|H]; try discriminate. destruct H.
Qed.

(** ** C83: the user's defaults file *)
Theorem C83_user_defaults : forall home, 
  (forall d, d <> [] -> user_defaults_filename (Some d) home = d ++ txt "/feellgood/default.yml") /\
  (forall h, home = Some h -> user_defaults_filename None home = h ++ txt "/.config/feellgood/default.yml"
             /\ user_defaults_filename (Some []) home = h ++ txt "/.config/feellgood/default.yml").
Proof.
  intros home. split.
  - intros [|c d] H; [congruence|]. reflexivity.
  - intros h ->. unfold user_defaults_filename. cbn [get_env_var]. rewrite <- app_assoc. split; reflexivity.
Qed.

(** ** C72: the chronometer *)
(** specification: the calls of a chronometer, cut at the last reset *)
Fixpoint sum (l : list Z) : Z := match l with [] => 0%Z | x :: r => (x + sum r)%Z end.
Definition laps (times : list Z) : list chrono_call := map Lap times.

(** after any history, a reset and then some readings: the readings are the lengths of the consecutive intervals, and
    their sum is the time from the reset to the last reading *)
Theorem C72_laps : forall now0 history reset times,
  let '(_, before) := chrono_run (chrono_reset now0) history in
  let '(_, all) := chrono_run (chrono_reset now0) (history ++ Reset reset :: laps times) in
  exists readings, all = before ++ readings /\ List.length readings = List.length times /\
    (forall i, i < List.length times -> nth i readings 0%Z = (nth i times 0 - nth i (reset :: times) 0)%Z) /\
    sum readings = (last times reset - reset)%Z.
Proof.
  intros now0 history reset times.
  assert (R : forall times c, snd (chrono_run c (laps times)) = 
     (fix go p l := match l with [] => [] | t :: r => (t - p)%Z :: go t r end) (c_end c) times).
  { clear. induction times as [|t times IH]; intros c; [reflexivity|]. cbn [laps map chrono_run]. cbn [chrono_lap c_end c_start].
    specialize (IH (mkChrono (c_end c) t)). unfold laps in IH. destruct (chrono_run (mkChrono (c_end c) t) (map Lap times)) as [c' ds]. cbn [snd] in *. now rewrite IH. }
  assert (G : forall history c, snd (chrono_run c (history ++ Reset reset :: laps times)) =
     snd (chrono_run c history) ++ snd (chrono_run (chrono_reset reset) (laps times))).
  { induction history0 as [|[now|now] l IH]; intros c; cbn [app chrono_run]; [reflexivity|apply IH|].
    destruct (chrono_lap now c) as [c' d]. specialize (IH c'). destruct (chrono_run c' (l ++ Reset reset :: laps times)), (chrono_run c' l). cbn [snd] in *. rewrite IH. reflexivity. }
  specialize (G history (chrono_reset now0)).
  destruct (chrono_run (chrono_reset now0) history) as [c1 before]. destruct (chrono_run (chrono_reset now0) (history ++ Reset reset :: laps times)) as [c2 all].
  cbn [snd] in G. exists (snd (chrono_run (chrono_reset reset) (laps times))). split; [exact G|]. rewrite R. cbn [chrono_reset c_end]. clear.
  revert reset. induction times as [|t times IH]; intros reset.
  - split; [reflexivity|]. split; [intros i Hi; cbn in Hi; lia|]. cbn. lia.
  - destruct (IH t) as (I1 & I2 & I3). split; [cbn [List.length]; now rewrite I1|]. split.
    + intros [|i] Hi; [reflexivity|]. cbn [nth List.length] in *. apply I2. lia.
    + cbn [sum]. rewrite I3. destruct times as [|u r]; [cbn; lia|]. 
      change (last (t :: u :: r) reset) with (last (u :: r) reset).
      assert (D : forall (r : list Z) u a b, last (u :: r) a = last (u :: r) b).
      { clear. induction r as [|v r IH]; intros; [reflexivity|]. apply (IH v). }
      rewrite (D r u t reset). lia.
Qed.

Example C72_nonvacuous : snd (chrono_run (chrono_reset 100) [Lap 130; Reset 140; Lap 150; Lap 155]) = [30; 10; 5]%Z.
Proof. reflexivity. Qed.

(** a duration of an hour or more is also given in hours, one of a minute or more in minutes *)
Theorem C72_seconds : forall (print : num XA -> text) (d : R),
  (3600 <= d -> convert_seconds (A := XA) print (Fin d) = print (Fin d) ++ txt " s (" ++ print (Fin (d / 3600)) ++ txt " h)" ++ [NL])%R /\
  (60 <= d < 3600 -> convert_seconds (A := XA) print (Fin d) = print (Fin d) ++ txt " s (" ++ print (Fin (d / 60)) ++ txt " min)" ++ [NL])%R /\
  (d < 60 -> convert_seconds (A := XA) print (Fin d) = print (Fin d) ++ txt " s" ++ [NL])%R.
Proof.
  intros print d.
  assert (L : forall z, (0 < z)%Z -> @nle XA (nZ z) (Fin d) = Rle_bool (IZR z) d /\ @ndiv XA (Fin d) (nZ z) = Fin (d / IZR z)).
  { intros z Hz. cbn [nle ndiv nZ nlit XA]. replace (IZR z / IZR (Z.pos 1))%R with (IZR z) by (unfold Rdiv; rewrite Rinv_1; ring).
    split.
    - unfold xle. cbn [xlt xeq]. destruct (Rle_bool_spec (IZR z) d) as [H|H].
      + destruct (Rlt_bool_spec (IZR z) d) as [H1|H1]; [reflexivity|]. cbn [orb]. apply Req_bool_true. lra.
      + rewrite Rlt_bool_false by lra. cbn [orb]. apply Req_bool_false. lra.
    - cbn [xdiv]. rewrite Req_bool_false; [reflexivity|]. intros E. apply (IZR_lt 0) in Hz. lra. }
  unfold convert_seconds. destruct (L 3600%Z) as (L1 & L2); [lia|]. destruct (L 60%Z) as (L3 & L4); [lia|].
  rewrite L1, L2, L3, L4. split; [|split]; intros H.
  - rewrite Rle_bool_true by lra. rewrite <- !app_assoc. reflexivity.
  - rewrite Rle_bool_false by lra. rewrite Rle_bool_true by lra. rewrite <- !app_assoc. reflexivity.
  - rewrite !Rle_bool_false by lra. reflexivity.
Qed.

Print Assumptions C63_command_line_partial.
Print Assumptions C63_reading_exists.
Print Assumptions C63_seed_negative.
Print Assumptions C63_seed_any.
Print Assumptions C72_laps.
Print Assumptions C72_seconds.
