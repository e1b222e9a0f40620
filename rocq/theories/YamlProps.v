(** * Strings printed in YAML: property C61 *)
From Coq Require Import String Ascii List Arith Bool ZArith Lia.
From Verif Require Import TextModel TextProof TextProps.
Import ListNotations.

(** ** Specification: two of the scalar styles of YAML 1.2 *)
(** a double-quoted scalar on one line (YAML 1.2, sections 5.7 and 7.3.1): the usual escapes *)
Definition yaml_escape (c : ascii) : option ascii :=
  if Ascii.eqb c QUOTE then Some QUOTE
  else if Ascii.eqb c BACKSLASH then Some BACKSLASH
  else if Ascii.eqb c "/"%char then Some "/"%char
  else if Ascii.eqb c "n"%char then Some NL
  else if Ascii.eqb c "t"%char then Some TAB
  else if Ascii.eqb c "0"%char then Some "000"%char
  else if Ascii.eqb c "r"%char then Some "013"%char
  else if Ascii.eqb c " "%char then Some " "%char
  else None.
(** the characters up to and including the closing quote, which must be the last character *)
Fixpoint quoted_rest (s : text) : option text :=
  match s with
  | [] => None
  | c :: s' =>
      if Ascii.eqb c QUOTE then match s' with [] => Some [] | _ => None end
      else if Ascii.eqb c BACKSLASH then
        match s' with
        | e :: s'' => match yaml_escape e, quoted_rest s'' with Some v, Some r => Some (v :: r) | _, _ => None end
        | [] => None
        end
      else option_map (cons c) (quoted_rest s')
  end.
Definition yaml_quoted (s : text) : option text :=
  match s with c :: s' => if Ascii.eqb c QUOTE then quoted_rest s' else None | [] => None end.

(** a literal block scalar (section 8.1): the indentation is that of the first line which is not blank, it is removed from
    every line, and of the final newlines one is kept ("clip") *)
Fixpoint spaces (s : text) : nat := match s with c :: s' => if Ascii.eqb c " "%char then S (spaces s') else 0 | [] => 0 end.
Definition blank (s : text) : bool := spaces s =? List.length s.
Definition block_indent (ls : list text) : option nat := option_map spaces (find (fun l => negb (blank l)) ls).
Definition strip (n : nat) (l : text) : option text :=
  if n <=? spaces l then Some (skipn n l) else if blank l then Some [] else None.
Fixpoint strip_all (n : nat) (ls : list text) : option (list text) :=
  match ls with
  | [] => Some []
  | l :: ls' => match strip n l, strip_all n ls' with Some x, Some r => Some (x :: r) | _, _ => None end
  end.
Fixpoint drop_empty (ls : list text) : list text := match ls with [] :: l => drop_empty l | _ => ls end.
Definition clip (ls : list text) : text := unlines (rev (drop_empty (rev ls))).
Definition yaml_literal (s : text) : option text :=
  match lines s with
  | header :: ls => if text_eqb header (txt "|")
                    then match block_indent ls with Some n => option_map clip (strip_all n ls) | None => Some [] end
                    else None
  | [] => None
  end.
Definition yaml_scalar (s : text) : option text :=
  match s with
  | c :: _ => if Ascii.eqb c QUOTE then yaml_quoted s else if Ascii.eqb c "|"%char then yaml_literal s else None
  | [] => None
  end.

(** ** Proofs *)
Lemma find_newline s : find_first [NL] s = None <-> no_newline s.
Proof.
  induction s as [|c s IH]; cbn [find_first prefixb]. { split; [intros _ []|reflexivity]. }
  rewrite andb_true_r. destruct (Ascii.eqb_spec NL c) as [<-|Hn].
  - split; [discriminate|]. intros H. exfalso. apply H. now left.
  - destruct (find_first [NL] s); cbn [option_map].
    + split; [discriminate|]. intros H. exfalso. assert (K : Some n = None) by (apply IH; intros K; apply H; now right). discriminate.
    + split; [|reflexivity]. intros _ [E|E]; [congruence|]. now apply IH.
Qed.

Lemma quoted_subst : forall s r, Subst [QUOTE] [BACKSLASH; QUOTE] s r -> ~ In BACKSLASH s -> quoted_rest (r ++ [QUOTE]) = Some s.
Proof.
  intros s r H. induction H as [|s r H IH|c s r Hn H IH]; intros Hb.
  - reflexivity.
  - cbn [app]. cbn [quoted_rest]. change (Ascii.eqb BACKSLASH QUOTE) with false. rewrite Ascii.eqb_refl. cbv iota.
    change (yaml_escape QUOTE) with (Some QUOTE). rewrite IH; [reflexivity|]. intros K. apply Hb. now right.
  - cbn [app quoted_rest]. destruct (Ascii.eqb_spec c QUOTE) as [->|_]. { exfalso. apply Hn. now exists s. }
    destruct (Ascii.eqb_spec c BACKSLASH) as [->|_]. { exfalso. apply Hb. now left. }
    rewrite IH; [reflexivity|]. intros K. apply Hb. now right.
Qed.

(** a string on one line, without backslash, is printed between quotes and reads back the same *)
Theorem C61_quoted_partial : forall s level, no_newline s -> ~ In BACKSLASH s ->
  exists t, str_yaml s level = Some t /\ yaml_scalar t = Some s.
Proof.
  intros s level Hn Hb. unfold str_yaml. apply find_newline in Hn as E. rewrite E.
  destruct (C59_replace [QUOTE] [BACKSLASH; QUOTE] s) as (r & H1 & H2 & _); [discriminate|]. rewrite H1. cbn [bind].
  eexists. split; [reflexivity|]. unfold yaml_scalar. rewrite Ascii.eqb_refl. unfold yaml_quoted. rewrite Ascii.eqb_refl. now apply quoted_subst.
Qed.

Lemma lines_single l : no_newline l -> lines l = [l].
Proof.
  induction l as [|c l IH]; intros H; [reflexivity|]. cbn [lines]. destruct (Ascii.eqb_spec c NL) as [->|_]. { exfalso. apply H. now left. }
  rewrite IH; [reflexivity|]. intros K. apply H. now right.
Qed.

Lemma lines_app l t : no_newline l -> lines (l ++ NL :: t) = l :: lines t.
Proof.
  induction l as [|c l IH]; intros H; cbn [app lines]; [now rewrite Ascii.eqb_refl|].
  destruct (Ascii.eqb_spec c NL) as [->|_]. { exfalso. apply H. now left. }
  rewrite IH; [reflexivity|]. intros K. apply H. now right.
Qed.

(** the lines of a text joined by newlines *)
Lemma lines_join : forall ls l y, no_newline l -> Forall no_newline ls -> no_newline y ->
  lines (l ++ List.concat (map (fun t => (NL :: y) ++ t) ls)) = l :: map (fun t => y ++ t) ls.
Proof.
  induction ls as [|t ls IH]; intros l y Hl Hls Hy; cbn [map List.concat].
  - rewrite app_nil_r. now apply lines_single.
  - inversion Hls; subst. cbn [app]. rewrite lines_app by exact Hl. f_equal. apply (IH (y ++ t) y); auto. now apply no_newline_app.
Qed.

Lemma spaces_repeat n l : (forall l', l <> " "%char :: l') -> spaces (repeat " "%char n ++ l) = n.
Proof.
  induction n as [|n IH]; intros H; cbn [repeat app spaces].
  - destruct l as [|c l]; [reflexivity|]. cbn [spaces]. destruct (Ascii.eqb_spec c " "%char) as [->|_]; [|reflexivity]. exfalso. eapply H. reflexivity.
  - rewrite Ascii.eqb_refl. f_equal. now apply IH.
Qed.

Lemma spaces_repeat_ge n l : n <= spaces (repeat " "%char n ++ l).
Proof. induction n as [|n IH]; [lia|]. cbn [repeat app spaces]. rewrite Ascii.eqb_refl. lia. Qed.

Lemma no_newline_indent n : no_newline (repeat " "%char n).
Proof. intros H. apply repeat_spec in H. discriminate. Qed.

Lemma strip_all_indent n : forall ls, strip_all n (map (fun t => repeat " "%char n ++ t) ls) = Some ls.
Proof.
  induction ls as [|l ls IH]; [reflexivity|]. cbn [map strip_all]. rewrite IH. unfold strip.
  replace (n <=? spaces (repeat " "%char n ++ l)) with true by (symmetry; apply Nat.leb_le, spaces_repeat_ge).
  do 2 f_equal. rewrite skipn_app, repeat_length, Nat.sub_diag. rewrite skipn_all2 by (rewrite repeat_length; lia). reflexivity.
Qed.

Lemma unlines_join : forall l ls, unlines (l :: ls) = (l ++ List.concat (map (fun t => NL :: t) ls)) ++ [NL].
Proof.
  intros l ls. revert l. induction ls as [|m ls IH]; intros l; unfold unlines; cbn [map List.concat].
  - now rewrite !app_nil_r.
  - fold (unlines (m :: ls)). change (List.concat (map (fun s => s ++ [NL]) ls)) with (unlines ls).
    change ((m ++ [NL]) ++ unlines ls) with (unlines (m :: ls)). rewrite IH. rewrite <- !app_assoc. reflexivity.
Qed.

(** a string of several lines, the first not empty and not beginning with a space, the last not empty and ended by one
    newline, is printed as a literal block and reads back the same *)
Theorem C61_literal_partial : forall first rest level, Forall no_newline (first :: rest) ->
  (exists c l, first = c :: l /\ c <> " "%char) -> last (first :: rest) [] <> [] ->
  exists t, str_yaml (unlines (first :: rest)) level = Some t /\ yaml_scalar t = Some (unlines (first :: rest)).
Proof.
  intros first rest level Hn (c & l & Ef & Hc) Hl. unfold str_yaml.
  destruct (find_first [NL] (unlines (first :: rest))) eqn:E.
  2:{ exfalso. apply find_newline in E. apply E. rewrite unlines_join. apply in_or_app. right. now left. }
  clear E. set (k := (level + 1) * 2).
  replace (txt "|" ++ NL :: unlines (first :: rest)) with ((txt "|" ++ List.concat (map (fun t => NL :: t) (first :: rest))) ++ [NL])
    by (rewrite unlines_join; cbn [map List.concat]; rewrite <- !app_assoc; reflexivity).
  match goal with |- context [back (?s ++ [NL])] => assert (B : back (s ++ [NL]) = Some NL) by (apply back_spec; eauto); rewrite B; clear B end.
  rewrite Ascii.eqb_refl, drop_last_app.
  destruct (C59_replace [NL] (NL :: repeat " "%char k) (txt "|" ++ List.concat (map (fun t => NL :: t) (first :: rest)))) as (r & H1 & H2 & _); [discriminate|].
  rewrite H1. exists r. split; [reflexivity|].
  destruct (subst_lines _ _ _ H2) as (h & ls & H3 & ->).
  pose proof (lines_join (first :: rest) (txt "|") [] (no_newline_txt (txt "|") eq_refl) Hn (fun x => x)) as H4. cbn [app] in H4. cbn [app] in H3. 
  rewrite H3 in H4. clear H3. change (map (fun t : text => t) (first :: rest)) with (map id (first :: rest)) in H4. rewrite map_id in H4. injection H4 as -> ->.
  unfold yaml_scalar. cbn [txt list_ascii_of_string app]. change (Ascii.eqb "|" QUOTE) with false. cbv iota. rewrite Ascii.eqb_refl.
  unfold yaml_literal.
  change ("|"%char :: List.concat (map (fun t : list ascii => NL :: repeat " "%char k ++ t) (first :: rest)))
    with (txt "|" ++ List.concat (map (fun t : list ascii => (NL :: repeat " "%char k) ++ t) (first :: rest))).
  rewrite lines_join; [|now apply no_newline_txt|exact Hn|apply no_newline_indent].
  rewrite text_eqb_refl.
  assert (B : block_indent (map (fun t => repeat " "%char k ++ t) (first :: rest)) = Some k).
  { unfold block_indent. cbn [map find]. unfold blank. rewrite spaces_repeat by (subst first; intros l' K; congruence).
    rewrite app_length, repeat_length. subst first. cbn [List.length].
    replace (k =? k + S (List.length l)) with false by (symmetry; apply Nat.eqb_neq; lia). cbn [negb option_map]. f_equal.
    apply spaces_repeat. intros l' K. congruence. }
  rewrite B, strip_all_indent. cbn [option_map]. f_equal. unfold clip. f_equal.
  assert (R : rev (first :: rest) = last (first :: rest) [] :: tl (rev (first :: rest))).
  { destruct (exists_last (l := first :: rest)) as (p & z & ->); [discriminate|]. rewrite last_last, rev_app_distr. reflexivity. }
  rewrite R. destruct (last (first :: rest) []) as [|c0 l0]; [congruence|]. cbn [drop_empty]. rewrite <- R. apply rev_involutive.
Qed.

(** a backslash is not escaped: it starts an escape sequence for the reader, or swallows the closing quote *)
Theorem C61_backslash_refuted :
  (exists s t, no_newline s /\ str_yaml s 0 = Some t /\ yaml_scalar t <> Some s /\ yaml_scalar t <> None) /\
  (exists s t, no_newline s /\ str_yaml s 0 = Some t /\ yaml_scalar t = None).
Proof.
  split.
  - exists (txt "C:\new"), (QUOTE :: txt "C:\new" ++ [QUOTE]). split; [now apply no_newline_txt|]. split; [reflexivity|]. split; vm_compute; discriminate.
  - exists (txt "dir\"), (QUOTE :: txt "dir\" ++ [QUOTE]). split; [now apply no_newline_txt|]. split; reflexivity.
Qed.

(** several lines: the final newline appears or disappears, and spaces at the beginning of the first line are lost *)
Theorem C61_lines_refuted :
  (exists s t, str_yaml s 0 = Some t /\ yaml_scalar t = Some (s ++ [NL])) /\
  (exists s t, str_yaml (s ++ [NL]) 0 = Some t /\ yaml_scalar t = Some s) /\
  (exists s t, str_yaml (txt "  " ++ s) 0 = Some t /\ yaml_scalar t = Some s).
Proof.
  split; [|split].
  - exists ("a"%char :: NL :: txt "b"). eexists. split; [reflexivity|]. reflexivity.
  - exists ("a"%char :: NL :: txt "b" ++ [NL]). eexists. split; [reflexivity|]. reflexivity.
  - exists ("a"%char :: NL :: []). eexists. split; [reflexivity|]. reflexivity.
Qed.

Example C61_nonvacuous :
  let f := [txt "function(x, y, z) {"; txt "    let r = Math.hypot(x, y);"; []; txt "    return [-y/r, x/r, ""0""];"; txt "}"] in
  yaml_scalar (txt "|" ++ List.concat (map (fun l => NL :: txt "    " ++ l) f)) = Some (unlines f) /\
  str_yaml (unlines f) 1 = Some (txt "|" ++ List.concat (map (fun l => NL :: txt "    " ++ l) f)) /\
  str_yaml (txt "say ""hi""") 1 = Some (QUOTE :: txt "say \""hi\""" ++ [QUOTE]).
Proof. vm_compute. repeat split. Qed.

Print Assumptions C61_quoted_partial.
Print Assumptions C61_literal_partial.
