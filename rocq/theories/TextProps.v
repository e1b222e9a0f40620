(** * Strings: properties C57 to C60, C62, C64 *)
From Coq Require Import String Ascii List Arith Bool ZArith NArith Lia.
From Verif Require Import TextModel TextProof.
Import ListNotations.

(** ** C59: replacing a pattern in a string *)
(** specification: TextProof.Subst *)
Theorem C59_replace : forall x y s, x <> [] ->
  exists r, replace x y s = Some r /\ Subst x y s r /\ forall r', Subst x y s r' -> r' = r.
Proof.
  intros x y s Hx. destruct (replace_loop_ok x y Hx (S (List.length s)) [] s) as (r & H1 & H2); [lia|].
  exists r. split; [exact H1|]. split; [exact H2|]. intros r' H'. eapply subst_fun; eauto.
Qed.

(** the number of passes needed is one more than the number of characters at most: whatever larger bound is allowed, the
    answer is the same *)
Theorem C59_terminates : forall x y s fuel, x <> [] -> List.length s < fuel -> replace_loop fuel x y s 0 = replace x y s.
Proof.
  intros x y s fuel Hx Hf. destruct (replace_loop_ok x y Hx (S (List.length s)) [] s) as (r & H1 & H2); [lia|].
  destruct (replace_loop_ok x y Hx fuel [] s Hf) as (r' & H1' & H2'). unfold replace. cbn [app List.length] in *.
  rewrite H1, H1'. f_equal. eapply subst_fun; eauto.
Qed.

(** the empty pattern occurs everywhere: the loop never stops *)
Theorem C59_empty_refuted : forall y s fuel pos, pos <= List.length s -> replace_loop fuel [] y s pos = None.
Proof.
  intros y s fuel. revert s. induction fuel as [|f IH]; intros s pos Hp; [reflexivity|]. cbn [replace_loop]. unfold find_from.
  apply Nat.leb_le in Hp as E. rewrite E. assert (F : forall t, find_first [] t = Some 0) by (destruct t; reflexivity). rewrite F. cbn [option_map].
  apply IH. unfold replace_at. rewrite !app_length, firstn_length, skipn_length. lia.
Qed.

Example C59_nonvacuous : replace (txt "aa") (txt "aab") (txt "aaaba") = Some (txt "aababa").
Proof. reflexivity. Qed.

(** ** C58: the header of the output files *)
(** specification: the lines of a string, and the header as a list of lines *)
Fixpoint lines (s : text) : list text :=
  match s with
  | [] => [[]]
  | c :: s' => if Ascii.eqb c NL then [] :: lines s'
               else match lines s' with l :: ls => (c :: l) :: ls | [] => [[c]] end
  end.
Definition unlines (l : list text) : text := List.concat (map (fun s => s ++ [NL]) l).
(** a final newline in a value does not count *)
Definition entry_lines (key value : text) : list text :=
  let body := match back value with Some c => if Ascii.eqb c NL then drop_last value else value | None => value end in
  match lines body with
  | first :: rest => (txt "## " ++ key ++ txt ": " ++ first) :: map (fun l => txt "##  " ++ l) rest
  | [] => []
  end.
Definition common_lines (h : header_info) : list text :=
  [txt "## feeLLGood version: " ++ h_version h]
  ++ match h_hostname h with Some n => [txt "## hostname: " ++ n] | None => [] end
  ++ [txt "## real-world time: " ++ h_date h; txt "## settings file: " ++ h_file h]
  ++ flat_map (fun kv => entry_lines (fst kv) (snd kv)) (h_meta h).
Definition header_lines (h : header_info) (columns : list text) : list text :=
  common_lines h ++ [txt "## columns: " ++ join_tab columns].

(** every character which begins a line is a '#', and the text ends with a complete line *)
Definition starts_line (pre : text) : Prop := pre = [] \/ exists p, pre = p ++ [NL].
Definition commented (s : text) : Prop :=
  (forall pre c post, s = pre ++ c :: post -> starts_line pre -> c = "#"%char) /\ (s = [] \/ exists p, s = p ++ [NL]).

Lemma lines_ne s : lines s <> [].
Proof. destruct s as [|c s]; cbn; [discriminate|]. destruct (Ascii.eqb c NL); [discriminate|]. destruct (lines s); discriminate. Qed.

Lemma subst_lines y : forall s r, Subst [NL] y s r ->
  exists l ls, lines s = l :: ls /\ r = l ++ List.concat (map (fun t => y ++ t) ls).
Proof.
  intros s r H. induction H as [|s r H (l & ls & E & ->)|c s r Hn H (l & ls & E & ->)].
  - exists [], []. split; reflexivity.
  - exists [], (l :: ls). cbn [app lines]. rewrite Ascii.eqb_refl, E. cbn. split; [reflexivity|]. now rewrite <- app_assoc.
  - exists (c :: l), ls. cbn [lines]. destruct (Ascii.eqb_spec c NL) as [->|_].
    + exfalso. apply Hn. now exists s.
    + rewrite E. split; reflexivity.
Qed.

Lemma entry_unlines k v : v <> [] -> meta_entry (k, v) = Some (unlines (entry_lines k v)).
Proof.
  intros Hv. unfold meta_entry, entry_lines. cbn [fst snd]. destruct (back v) as [c|] eqn:E; [|apply back_none in E; congruence]. cbn [bind].
  set (body := if Ascii.eqb c NL then drop_last v else v).
  destruct (C59_replace [NL] (NL :: txt "##  ") body) as (r & H1 & H2 & _); [discriminate|]. rewrite H1. cbn [bind].
  destruct (subst_lines _ _ _ H2) as (l & ls & -> & ->). f_equal. unfold unlines. cbn [map List.concat].
  rewrite <- !app_assoc. 
  assert (G : forall ls, List.concat (map (fun t => (NL :: txt "##  ") ++ t) ls) ++ [NL] = NL :: List.concat (map (fun s => s ++ [NL]) (map (fun l => txt "##  " ++ l) ls))).
  { clear. induction ls as [|t ls IH]; [reflexivity|]. cbn [map List.concat]. rewrite <- !app_assoc. rewrite IH. reflexivity. }
  rewrite G. reflexivity.
Qed.

Lemma unlines_app a b : unlines (a ++ b) = unlines a ++ unlines b.
Proof. unfold unlines. now rewrite map_app, concat_app. Qed.

Lemma metas_unlines : forall l, (forall k v, In (k, v) l -> v <> []) ->
  concat_opt (map meta_entry l) = Some (unlines (flat_map (fun kv => entry_lines (fst kv) (snd kv)) l)).
Proof.
  induction l as [|(k, v) l IH]; intros H; [reflexivity|]. cbn [map concat_opt flat_map fst snd]. rewrite entry_unlines by (eapply H; now left).
  cbn [bind]. rewrite IH by (intros; eapply H; right; eauto). cbn [bind]. now rewrite unlines_app.
Qed.

Lemma unlines_single a : unlines [a] = a ++ [NL].
Proof. apply app_nil_r. Qed.

Lemma common_unlines h : (forall k v, In (k, v) (h_meta h) -> v <> []) -> common_metadata h = Some (unlines (common_lines h)).
Proof.
  intros Hm. unfold common_metadata. rewrite metas_unlines by exact Hm. cbn [bind]. f_equal. unfold common_lines. rewrite !unlines_app.
  assert (U2 : forall a b, unlines [a; b] = (a ++ [NL]) ++ b ++ [NL]) by (intros a b; unfold unlines; cbn [map List.concat]; now rewrite app_nil_r).
  rewrite U2, !unlines_single. set (M := unlines (flat_map _ _)). clearbody M. rewrite <- !app_assoc.
  destruct (h_hostname h); [rewrite unlines_single|]; unfold tag_line; cbn; rewrite <- ?app_assoc; reflexivity.
Qed.

(** the header, line by line *)
Theorem C58_header_partial : forall h columns, columns <> [] -> (forall k v, In (k, v) (h_meta h) -> v <> []) ->
  evol_metadata h columns = Some (unlines (header_lines h columns)).
Proof.
  intros h columns Hc Hm. unfold evol_metadata. destruct columns as [|c cols]; [congruence|]. remember (c :: cols) as columns.
  rewrite common_unlines by exact Hm. cbn [bind]. f_equal. unfold header_lines. rewrite unlines_app, unlines_single. f_equal.
Qed.

Definition no_newline (s : text) : Prop := ~ In NL s.

Lemma lines_no_newline : forall s, Forall no_newline (lines s).
Proof.
  induction s as [|c s IH]; cbn [lines]. { constructor; [intros []|constructor]. }
  destruct (Ascii.eqb_spec c NL) as [->|Hn]. { constructor; [intros []|exact IH]. }
  destruct (lines s) as [|l ls]. { constructor; [|constructor]. intros [E|[]]. congruence. }
  inversion IH; subst. constructor; [|assumption]. intros [E|E]; [congruence|contradiction].
Qed.

Lemma line_commented : forall l, (exists l', l = "#"%char :: l') -> no_newline l -> commented (l ++ [NL]).
Proof.
  intros l (l' & ->) Hn. split; [|right; now exists ("#"%char :: l')]. intros pre c post E [->|(p & ->)].
  - cbn in E. congruence.
  - exfalso. rewrite <- app_assoc in E. remember ("#"%char :: l') as l eqn:El. clear El l'. cbn in E.
    revert l E Hn. induction p as [|d p IH]; intros l E Hn.
    + destruct l as [|e l]; cbn in E; [injection E as E|]; try discriminate. injection E as -> E. apply Hn. now left.
    + destruct l as [|e l]; cbn in E. { destruct p; discriminate. } injection E as -> E. apply (IH l E). intros K. apply Hn. now right.
Qed.

Lemma commented_app s t : commented s -> commented t -> commented (s ++ t).
Proof.
  intros (H1 & H2) (K1 & K2). split.
  - intros pre c post E Hs. apply app_eq_app in E as (m & [(E1 & E2)|(E1 & E2)]).
    + destruct m as [|d m].
      * cbn in E2. rewrite app_nil_r in E1. subst. apply (K1 [] c post); [reflexivity|now left].
      * injection E2 as -> E2. apply (H1 pre d m); [exact E1|exact Hs].
    + apply (K1 m c post); [exact E2|]. clear K2 K1 E2. subst pre. destruct m as [|d m] using rev_ind; [now left|]. right. exists m.
      destruct Hs as [E|(p & E)]. { destruct s; [|discriminate]. destruct m; discriminate. }
      rewrite app_assoc in E. apply app_inj_tail in E as (_ & ->). reflexivity.
  - destruct K2 as [->|(p & ->)]; [rewrite app_nil_r; exact H2|]. right. exists (s ++ p). now rewrite app_assoc.
Qed.

Lemma unlines_commented : forall l, Forall (fun s => (exists s', s = "#"%char :: s') /\ no_newline s) l -> commented (unlines l).
Proof.
  induction 1 as [|s l (H1 & H2) H IH].
  - split; [|now left]. intros pre c post E. destruct pre; discriminate.
  - unfold unlines. cbn [map List.concat]. apply commented_app; [now apply line_commented|exact IH].
Qed.

Lemma no_newline_app s t : no_newline s -> no_newline t -> no_newline (s ++ t).
Proof. unfold no_newline. intros H K E. apply in_app_or in E. tauto. Qed.

Lemma no_newline_txt (s : text) : forallb (fun c => negb (Ascii.eqb c NL)) s = true -> no_newline s.
Proof. intros H K. rewrite forallb_forall in H. specialize (H _ K). rewrite Ascii.eqb_refl in H. discriminate. Qed.

Lemma join_tab_no_newline : forall cols, Forall no_newline cols -> no_newline (join_tab cols).
Proof.
  induction 1 as [|c l Hc H IH]; [intros []|]. cbn [join_tab]. destruct l as [|d l]; [exact Hc|].
  apply no_newline_app; [exact Hc|]. intros [E|E]; [discriminate|]. now apply IH.
Qed.

(** a comment line *)
Definition comment_line (s : text) : Prop := (exists s', s = "#"%char :: s') /\ no_newline s.

Lemma comment_tag (tag : string) s : (exists t, txt tag = "#"%char :: t) -> forallb (fun c => negb (Ascii.eqb c NL)) (txt tag) = true -> no_newline s ->
  comment_line (txt tag ++ s).
Proof.
  intros (t & E) H1 H2. split; [rewrite E; cbn; eauto|]. apply no_newline_app; [now apply no_newline_txt|exact H2].
Qed.

(** the names which the header copies have no newline *)
Definition plain_header (h : header_info) : Prop :=
  no_newline (h_version h) /\ (forall n, h_hostname h = Some n -> no_newline n) /\ no_newline (h_date h) /\ no_newline (h_file h) /\
  (forall k v, In (k, v) (h_meta h) -> no_newline k).

Lemma common_comments h : plain_header h -> Forall comment_line (common_lines h).
Proof.
  intros (Hv & Hh & Hd & Hf & Hk). unfold common_lines. rewrite !Forall_app. split; [|split; [|split]].
  - constructor; [|constructor]. apply comment_tag; [eexists; reflexivity|reflexivity|exact Hv].
  - destruct (h_hostname h) as [n|]; constructor; [|constructor]. apply comment_tag; [eexists; reflexivity|reflexivity|auto].
  - constructor; [|constructor; [|constructor]]; (apply comment_tag; [eexists; reflexivity|reflexivity|assumption]).
  - apply Forall_flat_map. apply Forall_forall. intros (k, v) Hin. cbn [fst snd]. unfold entry_lines.
    match goal with |- context [lines ?b] => pose proof (lines_no_newline b) as L; destruct (lines b) as [|first rest]; [constructor|] end.
    inversion L; subst. constructor.
    + apply comment_tag; [eexists; reflexivity|reflexivity|]. apply no_newline_app; [eapply Hk; eauto|]. apply no_newline_app; [now apply no_newline_txt|assumption].
    + apply Forall_map. eapply Forall_impl; [|eassumption]. intros s Hs. apply comment_tag; [eexists; reflexivity|reflexivity|exact Hs].
Qed.

(** every line of the header is a comment, whatever the values of the user metadata hold, newlines included *)
Theorem C58_commented_partial : forall h columns, columns <> [] -> (forall k v, In (k, v) (h_meta h) -> v <> []) ->
  plain_header h -> Forall no_newline columns ->
  exists s, evol_metadata h columns = Some s /\ commented s.
Proof.
  intros h columns Hc Hm Hp Hcol. exists (unlines (header_lines h columns)). split; [now apply C58_header_partial|].
  apply unlines_commented. unfold header_lines. apply Forall_app. split; [now apply common_comments|].
  constructor; [|constructor]. apply comment_tag; [eexists; reflexivity|reflexivity|now apply join_tab_no_newline].
Qed.

(** an empty value reads the last character of an empty string; so does an evolution file without columns *)
Theorem C58_empty_value_refuted : forall k, meta_entry (k, []) = None.
Proof. reflexivity. Qed.
Theorem C58_no_column_refuted : forall h, evol_metadata h [] = None.
Proof. reflexivity. Qed.
(** a newline in a key is copied as it is *)
Theorem C58_key_refuted : exists h s, evol_metadata h [txt "t"] = Some s /\ ~ commented s.
Proof.
  exists (mkHeader (txt "1") None (txt "now") (txt "f.yml") [("a"%char :: NL :: txt "b", txt "v")]).
  eexists. split; [vm_compute; reflexivity|]. intros (H & _).
  assert (K := H (unlines [txt "## feeLLGood version: 1"; txt "## real-world time: now"; txt "## settings file: f.yml"; txt "## a"]) "b"%char
                 (txt ": v" ++ [NL] ++ txt "## columns: t" ++ [NL])).
  assert (E : "b"%char = "#"%char); [|discriminate]. apply K; [vm_compute; reflexivity|]. right.
  exists (txt "## feeLLGood version: 1" ++ [NL] ++ txt "## real-world time: now" ++ [NL] ++ txt "## settings file: f.yml" ++ [NL] ++ txt "## a"). vm_compute. reflexivity.
Qed.

Example C58_nonvacuous : let h := mkHeader (txt "1.2") (Some (txt "host")) (txt "now") (txt "f.yml")
    [(txt "comment", txt "one" ++ NL :: txt "two" ++ [NL]); (txt "who", txt "me")] in
  evol_metadata h [txt "t"; txt "<mx>"] = Some (unlines
    [txt "## feeLLGood version: 1.2"; txt "## hostname: host"; txt "## real-world time: now"; txt "## settings file: f.yml";
     txt "## comment: one"; txt "##  two"; txt "## who: me"; txt "## columns: t" ++ TAB :: txt "<mx>"])
  /\ exists s, evol_metadata h [txt "t"; txt "<mx>"] = Some s /\ commented s.
Proof.
  intros h. split; [vm_compute; reflexivity|]. apply C58_commented_partial; try discriminate.
  - intros k v [E|[E|[]]]; injection E as <- <-; discriminate.
  - split; [apply no_newline_txt; reflexivity|]. split. { intros n E. injection E as <-. apply no_newline_txt. reflexivity. }
    split; [apply no_newline_txt; reflexivity|]. split; [apply no_newline_txt; reflexivity|].
    intros k v [E|[E|[]]]; injection E as <- <-; apply no_newline_txt; reflexivity.
  - repeat constructor; apply no_newline_txt; reflexivity.
Qed.

(** ** C60: the base name of the output files *)
(** specification: the path without its directories, and without its last extension *)
Definition is_base_name (path base : text) : Prop :=
  exists dir file, path = dir ++ file /\ ~ In "/"%char file /\ (dir = [] \/ exists d, dir = d ++ ["/"%char]) /\
    ((~ In "."%char file /\ base = file) \/ exists ext, file = base ++ "."%char :: ext /\ ~ In "."%char ext).

Lemma base_name_spec path : is_base_name path (base_name path).
Proof.
  unfold base_name, is_base_name.
  assert (G : forall file, ~ In "/"%char file ->
    let b := match rfind "."%char file with Some pos => firstn pos file | None => file end in
    (~ In "."%char file /\ b = file) \/ exists ext, file = b ++ "."%char :: ext /\ ~ In "."%char ext).
  { intros file _. cbv zeta. destruct (rfind "."%char file) as [k|] eqn:E.
    - right. destruct (rfind_some _ _ _ E) as (a & b & -> & <- & Hb). exists b. rewrite firstn_app, firstn_all, Nat.sub_diag. cbn [firstn].
      rewrite app_nil_r. auto.
    - left. split; [now apply rfind_none|reflexivity]. }
  destruct (rfind "/"%char path) as [k|] eqn:E.
  - destruct (rfind_some _ _ _ E) as (a & b & -> & <- & Hb). exists (a ++ ["/"%char]), b.
    replace (skipn (List.length a + 1) (a ++ "/"%char :: b)) with b.
    2:{ rewrite skipn_app, skipn_all2 by lia. replace (List.length a + 1 - List.length a) with 1 by lia. reflexivity. }
    split; [now rewrite <- app_assoc|]. split; [exact Hb|]. split; [right; now exists a|]. now apply G.
  - exists [], path. apply rfind_none in E. split; [reflexivity|]. split; [exact E|]. split; [now left|]. now apply G.
Qed.

Lemma split_last (c : ascii) : forall a b a' b', ~ In c b -> ~ In c b' -> a ++ c :: b = a' ++ c :: b' -> a = a' /\ b = b'.
Proof.
  induction a as [|d a IH]; intros b a' b' Hb Hb' E.
  - destruct a' as [|e a']; [injection E as ->; auto|]. injection E as -> ->. exfalso. apply Hb. apply in_or_app. right. now left.
  - destruct a' as [|e a'].
    + injection E as -> <-. exfalso. apply Hb'. apply in_or_app. right. now left.
    + injection E as -> E. destruct (IH b a' b' Hb Hb' E) as (-> & ->). auto.
Qed.

Lemma is_base_name_fun path b b' : is_base_name path b -> is_base_name path b' -> b = b'.
Proof.
  intros (d & f & E & Hf & Hd & K) (d' & f' & E' & Hf' & Hd' & K').
  assert (Ef : f = f').
  { destruct Hd as [->|(p & ->)], Hd' as [->|(p' & ->)]; cbn [app] in *.
    - congruence.
    - exfalso. apply Hf. rewrite <- E, E', <- app_assoc. apply in_or_app. right. now left.
    - exfalso. apply Hf'. rewrite <- E', E, <- app_assoc. apply in_or_app. right. now left.
    - rewrite E in E'. rewrite <- !app_assoc in E'. cbn [app] in E'. now apply split_last in E' as (_ & ->). }
  subst f'. destruct K as [(H1 & ->)|(e & H1 & H2)], K' as [(H1' & ->)|(e' & H1' & H2')].
  - reflexivity.
  - exfalso. apply H1. rewrite H1'. apply in_or_app. right. now left.
  - exfalso. apply H1'. rewrite H1. apply in_or_app. right. now left.
  - rewrite H1 in H1'. now apply split_last in H1' as (-> & _).
Qed.

(** a configured name is kept; otherwise the name of the mesh file gives it *)
Theorem C60_base_name : forall simName pbName,
  (simName <> [] -> sim_name simName pbName = simName) /\
  (simName = [] -> pbName <> [] -> forall b, sim_name simName pbName = b <-> is_base_name pbName b).
Proof.
  intros simName pbName. split.
  - intros H. unfold sim_name. destruct simName; [congruence|]. reflexivity.
  - intros -> H b. unfold sim_name. destruct pbName as [|c l]; [congruence|]. split.
    + intros <-. apply base_name_spec.
    + intros K. eapply is_base_name_fun; [apply base_name_spec|exact K].
Qed.

Example C60_nonvacuous : sim_name [] (txt "dir.d/mesh.fine.msh") = txt "mesh.fine" /\ sim_name [] (txt "a/b") = txt "b" /\ sim_name [] (txt "d/.msh") = [] /\
  sim_name (txt "run") (txt "mesh.msh") = txt "run".
Proof. repeat split. Qed.

(** ** C62: looking a region up by its name *)
Theorem C62_find_region : forall names name,
  (forall i, find_region names name = Some i <-> nth_error names i = Some name /\ forall j, j < i -> nth_error names j <> Some name) /\
  (find_region names name = None <-> ~ In name names).
Proof.
  intros names name. unfold find_region.
  assert (G : forall k, (forall i, find_region_from k name names = Some i <->
      exists n, i = k + n /\ nth_error names n = Some name /\ forall j, j < n -> nth_error names j <> Some name)
      /\ (find_region_from k name names = None <-> ~ In name names)).
  { induction names as [|r l IH]; intros k; cbn [find_region_from].
    - split; [|split; [intros _ []|reflexivity]]. intros i. split; [discriminate|]. intros (n & _ & H & _). destruct n; discriminate.
    - destruct (text_eqb r name) eqn:E.
      + apply text_eqb_spec in E as ->. split.
        * intros i. split.
          -- intros H. injection H as <-. exists 0. split; [lia|]. split; [reflexivity|]. intros j Hj. lia.
          -- intros (n & -> & H & K). destruct n as [|n]; [f_equal; lia|]. exfalso. apply (K 0); [lia|reflexivity].
        * split; [discriminate|]. intros H. exfalso. apply H. now left.
      + assert (Hn : r <> name) by (intros ->; assert (text_eqb name name = true) by (now apply text_eqb_spec); congruence).
        destruct (IH (S k)) as (I1 & I2). split.
        * intros i. rewrite I1. split.
          -- intros (n & -> & H & K). exists (S n). split; [lia|]. split; [exact H|]. intros [|j] Hj; [cbn; congruence|]. apply K. lia.
          -- intros (n & -> & H & K). destruct n as [|n]; [cbn in H; congruence|]. exists n. split; [lia|]. split; [exact H|]. intros j Hj. apply (K (S j)). lia.
        * rewrite I2. cbn [In]. tauto. }
  destruct (G 0) as (G1 & G2). split; [|exact G2]. intros i. rewrite G1. split.
  - intros (n & -> & H). exact H.
  - intros H. exists i. auto.
Qed.

Example C62_nonvacuous : find_region [txt "__default__"; txt "core"; txt "shell"; txt "core"] (txt "core") = Some 1 /\
  find_region [txt "__default__"] (txt "core") = None.
Proof. split; reflexivity. Qed.

(** ** C57: the user metadata of several documents *)
(** specification *)
Fixpoint lookup (k : text) (l : list (text * text)) : option text :=
  match l with [] => None | (k', v) :: l' => if text_eqb k' k then Some v else lookup k l' end.
(** the last definition of a key *)
Fixpoint last_def (k : text) (l : list (text * text)) : option text :=
  match l with [] => None | (k', v) :: l' => match last_def k l' with Some w => Some w | None => if text_eqb k' k then Some v else None end end.
(** the keys in the order in which they first appear *)
Fixpoint first_keys (seen : list text) (l : list (text * text)) : list text :=
  match l with [] => [] | (k, _) :: l' => if in_dec (list_eq_dec ascii_dec) k seen then first_keys seen l' else k :: first_keys (k :: seen) l' end.

Lemma text_eqb_refl s : text_eqb s s = true.
Proof. now apply text_eqb_spec. Qed.
Lemma text_eqb_sym s t : text_eqb s t = text_eqb t s.
Proof. destruct (text_eqb t s) eqn:E; [apply text_eqb_spec in E as ->; apply text_eqb_refl|]. destruct (text_eqb s t) eqn:F; [|reflexivity]. apply text_eqb_spec in F as ->. rewrite text_eqb_refl in E. discriminate. Qed.

Lemma set_meta_lookup k v : forall l k', lookup k' (set_meta (k, v) l) = if text_eqb k k' then Some v else lookup k' l.
Proof.
  induction l as [|(k0, v0) l IH]; intros k'; cbn [set_meta lookup fst].
  - reflexivity.
  - destruct (text_eqb k0 k) eqn:E.
    + apply text_eqb_spec in E as ->. cbn [lookup]. destruct (text_eqb k k'); reflexivity.
    + cbn [lookup]. rewrite IH. destruct (text_eqb k0 k') eqn:F; [|reflexivity]. apply text_eqb_spec in F as ->.
      rewrite text_eqb_sym, E. reflexivity.
Qed.

Lemma set_meta_keys k v : forall l, map fst (set_meta (k, v) l) = if in_dec (list_eq_dec ascii_dec) k (map fst l) then map fst l else map fst l ++ [k].
Proof.
  induction l as [|(k0, v0) l IH]; cbn [set_meta map fst].
  - reflexivity.
  - destruct (text_eqb k0 k) eqn:E.
    + apply text_eqb_spec in E as ->. cbn [map fst]. destruct (in_dec (list_eq_dec ascii_dec) k (k :: map fst l)) as [_|H]; [reflexivity|]. exfalso. apply H. now left.
    + cbn [map fst]. rewrite IH. destruct (in_dec (list_eq_dec ascii_dec) k (map fst l)) as [H|H], (in_dec (list_eq_dec ascii_dec) k (k0 :: map fst l)) as [H'|H']; try reflexivity.
      * exfalso. apply H'. now right.
      * exfalso. destruct H' as [H'|H']; [|contradiction]. subst. rewrite text_eqb_refl in E. discriminate.
Qed.

Lemma first_keys_ext : forall l s s', (forall k, In k s <-> In k s') -> first_keys s l = first_keys s' l.
Proof.
  induction l as [|(k, v) l IH]; intros s s' H; [reflexivity|]. cbn [first_keys].
  destruct (in_dec (list_eq_dec ascii_dec) k s) as [Hi|Hi], (in_dec (list_eq_dec ascii_dec) k s') as [Hi'|Hi'].
  - now apply IH.
  - exfalso. apply Hi', H, Hi.
  - exfalso. apply Hi, H, Hi'.
  - f_equal. apply IH. intros k'. cbn [In]. now rewrite H.
Qed.

(** reading one more document: a key it defines has its last definition, the others keep their value; the keys come in the
    order of their first definition, each once *)
Theorem C57_metadata : forall doc l, NoDup (map fst l) ->
  NoDup (map fst (read_metadata doc l)) /\
  (forall k, lookup k (read_metadata doc l) = match last_def k doc with Some v => Some v | None => lookup k l end) /\
  map fst (read_metadata doc l) = map fst l ++ first_keys (map fst l) doc.
Proof.
  induction doc as [|(k, v) doc IH]; intros l Hl; unfold read_metadata; cbn [fold_left].
  - split; [exact Hl|]. split; [reflexivity|]. cbn. now rewrite app_nil_r.
  - assert (Hn : NoDup (map fst (set_meta (k, v) l))).
    { rewrite set_meta_keys. destruct (in_dec (list_eq_dec ascii_dec) k (map fst l)) as [H|H]; [exact Hl|]. apply NoDup_rev in Hl. rewrite <- (rev_involutive (map fst l ++ [k])).
      apply NoDup_rev. rewrite rev_app_distr. cbn. constructor; [|exact Hl]. rewrite <- in_rev. exact H. }
    destruct (IH _ Hn) as (I1 & I2 & I3). fold (read_metadata doc (set_meta (k, v) l)). split; [exact I1|]. split.
    + intros k'. rewrite I2, set_meta_lookup. cbn [last_def]. destruct (last_def k' doc); [reflexivity|]. destruct (text_eqb k k'); reflexivity.
    + rewrite I3, set_meta_keys. cbn [first_keys]. destruct (in_dec (list_eq_dec ascii_dec) k (map fst l)) as [H|H]; [reflexivity|].
      rewrite <- app_assoc. cbn [app]. do 2 f_equal. apply first_keys_ext. intros k'. rewrite in_app_iff. cbn [In]. tauto.
Qed.

Example C57_nonvacuous : read_metadata [(txt "b", txt "3"); (txt "c", txt "4"); (txt "c", txt "5")] (read_metadata [(txt "a", txt "1"); (txt "b", txt "2")] [])
  = [(txt "a", txt "1"); (txt "b", txt "3"); (txt "c", txt "5")].
Proof. reflexivity. Qed.

(** ** C64: padding to a number of characters *)
(** specification: UTF-8 *)
Definition utf8 (cp : N) : text :=
  (if cp <? 128 then [ascii_of_N cp]
   else if cp <? 2048 then [ascii_of_N (192 + cp / 64); ascii_of_N (128 + cp mod 64)]
   else if cp <? 65536 then [ascii_of_N (224 + cp / 4096); ascii_of_N (128 + (cp / 64) mod 64); ascii_of_N (128 + cp mod 64)]
   else [ascii_of_N (240 + cp / 262144); ascii_of_N (128 + (cp / 4096) mod 64); ascii_of_N (128 + (cp / 64) mod 64); ascii_of_N (128 + cp mod 64)])%N.
Definition code_point (cp : N) : Prop := (0 < cp < 1114112)%N.

Lemma cont_byte : forall c, (N.land (byte c) 192 =? 128)%N = (128 <=? byte c)%N && (byte c <? 192)%N.
Proof. intros [[] [] [] [] [] [] [] []]; reflexivity. Qed.

Lemma byte_of n : (n < 256)%N -> byte (ascii_of_N n) = n.
Proof. intros H. unfold byte. now apply N_ascii_embedding. Qed.

Lemma char_length_go : forall s n, (fix go (s : text) (len : nat) : nat :=
     match s with
     | [] => len
     | c :: s' => if (byte c =? 0)%N then len
                  else go s' (if (N.land (byte c) 192 =? 128)%N then len else S len)
     end) s n = n + char_length s.
Proof.
  unfold char_length. induction s as [|c s IH]; intros n; [lia|]. destruct (byte c =? 0)%N; [lia|].
  rewrite IH. rewrite (IH (if (N.land (byte c) 192 =? 128)%N then 0 else 1)). destruct (N.land (byte c) 192 =? 128)%N; lia.
Qed.

Lemma char_length_cons c s : char_length (c :: s) = if (byte c =? 0)%N then 0 else (if (N.land (byte c) 192 =? 128)%N then 0 else 1) + char_length s.
Proof. unfold char_length at 1. destruct (byte c =? 0)%N; [reflexivity|]. rewrite char_length_go. reflexivity. Qed.

Lemma char_length_lead n s : (0 < n < 128 \/ 192 <= n < 256)%N -> char_length (ascii_of_N n :: s) = S (char_length s).
Proof.
  intros H. rewrite char_length_cons, cont_byte, byte_of by lia.
  replace (n =? 0)%N with false by (symmetry; apply N.eqb_neq; lia).
  replace ((128 <=? n)%N && (n <? 192)%N) with false; [reflexivity|]. symmetry.
  destruct (N.leb_spec 128 n), (N.ltb_spec n 192); cbn; try reflexivity. lia.
Qed.

Lemma char_length_cont n s : (128 <= n < 192)%N -> char_length (ascii_of_N n :: s) = char_length s.
Proof.
  intros H. rewrite char_length_cons, cont_byte, byte_of by lia.
  replace (n =? 0)%N with false by (symmetry; apply N.eqb_neq; lia).
  replace ((128 <=? n)%N && (n <? 192)%N) with true; [reflexivity|]. symmetry.
  apply andb_true_intro. split; [apply N.leb_le|apply N.ltb_lt]; lia.
Qed.

Lemma char_length_utf8 cp s : code_point cp -> char_length (utf8 cp ++ s) = S (char_length s).
Proof.
  intros H. unfold code_point in H. unfold utf8.
  assert (M : forall x, (128 <= 128 + x mod 64 < 192)%N).
  { intros x. assert (x mod 64 < 64)%N by (apply N.mod_upper_bound; discriminate). generalize dependent (x mod 64)%N. intros. lia. }
  destruct (N.ltb_spec cp 128). { apply char_length_lead. lia. }
  destruct (N.ltb_spec cp 2048).
  { assert (L : (cp / 64 < 32)%N) by (apply N.div_lt_upper_bound; [discriminate|exact H1]). cbn [app].
    rewrite char_length_lead; [rewrite char_length_cont; [reflexivity|apply M]|]. generalize dependent (cp / 64)%N. intros. lia. }
  destruct (N.ltb_spec cp 65536).
  { assert (L : (cp / 4096 < 16)%N) by (apply N.div_lt_upper_bound; [discriminate|exact H2]). cbn [app].
    rewrite char_length_lead; [rewrite !char_length_cont; [reflexivity|apply M..]|]. generalize dependent (cp / 4096)%N. intros. lia. }
  assert (L : (cp / 262144 < 8)%N) by (apply N.div_lt_upper_bound; [discriminate|lia]). cbn [app].
  rewrite char_length_lead; [rewrite !char_length_cont; [reflexivity|apply M..]|]. generalize dependent (cp / 262144)%N. intros. lia.
Qed.

Theorem C64_pad : forall cps width, Forall code_point cps ->
  let s := List.concat (map utf8 cps) in
  char_length s = List.length cps /\
  exists k, pad s width = s ++ repeat " "%char k /\ Z.of_nat (List.length cps + k) = Z.max width (Z.of_nat (List.length cps)).
Proof.
  intros cps width H s.
  assert (E : char_length s = List.length cps).
  { unfold s. clear s. induction H as [|cp cps Hc H IH]; [reflexivity|]. cbn [map List.concat]. rewrite char_length_utf8 by exact Hc. cbn. congruence. }
  split; [exact E|]. unfold pad. rewrite E. cbv zeta. eexists. split; [reflexivity|].
  destruct (Z.ltb_spec (width - Z.of_nat (List.length cps)) 0); lia.
Qed.

Example C64_nonvacuous : let cps := [181; 109; 8364; 128512]%N in
  Forall code_point cps /\ List.length (List.concat (map utf8 cps)) = 10 /\
  pad (List.concat (map utf8 cps)) 6 = List.concat (map utf8 cps) ++ txt "  ".
Proof. cbv zeta. split; [repeat constructor; reflexivity|]. split; reflexivity. Qed.

(** ** the output directory *)
(** C81: an empty directory is the current one, and one final '/' is dropped, except from the root directory *)
Theorem C81_directory : forall d,
  (d = [] -> normalize_dir d = txt ".") /\
  (forall e c, d = e ++ [c; "/"%char] -> normalize_dir d = e ++ [c]) /\
  (d <> [] -> (forall e c, d <> e ++ [c; "/"%char]) -> normalize_dir d = d).
Proof.
  intros d. split; [intros ->; reflexivity|]. split.
  - intros e c ->. unfold normalize_dir. replace (e ++ [c; "/"%char]) with ((e ++ [c]) ++ ["/"%char]) by (rewrite <- app_assoc; reflexivity).
    destruct ((e ++ [c]) ++ ["/"%char]) as [|x l] eqn:E. { destruct e; discriminate. }
    rewrite <- E. assert (B : back ((e ++ [c]) ++ ["/"%char]) = Some "/"%char) by (apply back_spec; eauto). rewrite B.
    replace (1 <? List.length ((e ++ [c]) ++ ["/"%char])) with true by (symmetry; apply Nat.ltb_lt; rewrite !app_length; cbn; lia).
    cbn [andb]. rewrite Ascii.eqb_refl. apply drop_last_app.
  - intros Hd H. unfold normalize_dir. destruct d as [|x l]; [congruence|]. remember (x :: l) as d. destruct (back d) as [c|] eqn:B; [|reflexivity].
    destruct (1 <? List.length d) eqn:E; [|reflexivity]. cbn [andb]. destruct (Ascii.eqb_spec c "/"%char) as [->|]; [|reflexivity].
    exfalso. apply back_spec in B as (e & ->). apply Nat.ltb_lt in E. rewrite app_length in E. cbn in E.
    destruct e as [|y e] using rev_ind; [cbn in E; lia|]. apply (H e y). now rewrite <- app_assoc.
Qed.

Example C81_nonvacuous : normalize_dir (txt "out/") = txt "out" /\ normalize_dir (txt "/") = txt "/" /\ normalize_dir (txt "out//") = txt "out/" /\ normalize_dir [] = txt ".".
Proof. repeat split. Qed.

Print Assumptions C57_metadata.
Print Assumptions C58_header_partial.
Print Assumptions C58_commented_partial.
Print Assumptions C59_replace.
Print Assumptions C59_terminates.
Print Assumptions C60_base_name.
Print Assumptions C62_find_region.
Print Assumptions C64_pad.
Print Assumptions C81_directory.
