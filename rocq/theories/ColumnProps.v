(** * Properties of the output lines and of the periodic configuration files *)
From Coq Require Import String Ascii List Arith Bool ZArith Lia.
From Verif Require Import TextModel TextProof TextProps SolModel SolProof ColumnModel.
Import ListNotations.
Local Open Scope nat_scope.

(** ** C67: the lines of the .evol file *)
(** specification: the names documented in default-settings.yml lines 48-71 and the quantity each one stands for;
    those which are averages over a part of the mesh take the region *)
Definition documented : list (string * (option nat -> quantity)) :=
  [("iter", fun _ => Iteration); ("t", fun _ => TimeNow); ("dt", fun _ => TimeStep);
   ("max_dm", fun _ => MaxVariation); ("max_angle", fun _ => MaxAngle);
   ("<Mx>", MeanM AX); ("<My>", MeanM AY); ("<Mz>", MeanM AZ);
   ("<dMx/dt>", MeanDM AX); ("<dMy/dt>", MeanDM AY); ("<dMz/dt>", MeanDM AZ);
   ("Thiele_length", Thiele);
   ("E_ex", fun _ => Energy EXCHANGE); ("E_aniso", fun _ => Energy ANISOTROPY);
   ("E_demag", fun _ => Energy DEMAG); ("E_zeeman", fun _ => Energy ZEEMAN); ("E_tot", fun _ => TotalEnergy);
   ("Hx", fun _ => AppliedField AX); ("Hy", fun _ => AppliedField AY); ("Hz", fun _ => AppliedField AZ)]%string.

(** [names col region key]: the column is a key alone (the whole mesh), or a region of the settings and a key *)
Definition names (regions : list text) (col : text) (region : option nat) (key : text) : Prop :=
  (region = None /\ col = key /\ ~ In ":"%char key) \/
  (exists name i, region = Some i /\ col = name ++ ":"%char :: key /\ ~ In ":"%char key /\
     nth_error regions i = Some name /\ forall j, j < i -> nth_error regions j <> Some name).
(** the quantity a column asks for *)
Definition asks (regions : list text) (col : text) (q : quantity) : Prop :=
  exists region key f, names regions col region (txt key) /\ In (key, f) documented /\ q = f region.

Definition plain_field (col : text) : Prop := col = txt "Hx" \/ col = txt "Hy" \/ col = txt "Hz".
Definition region_field (col : text) : Prop :=
  exists name key, col = name ++ ":"%char :: key /\ plain_field key.

Lemma split_names regions col region key :
  split_column regions col = Some (region, key) <-> names regions col region key.
Proof.
  unfold split_column, names. destruct (rfind ":"%char col) as [pos|] eqn:E.
  - destruct (rfind_some _ _ _ E) as (a & b & -> & <- & Hb).
    rewrite firstn_app, firstn_all, Nat.sub_diag. cbn [firstn]. rewrite app_nil_r.
    replace (skipn (List.length a + 1) (a ++ ":"%char :: b)) with b.
    2:{ rewrite skipn_app, skipn_all2 by lia. replace (List.length a + 1 - List.length a) with 1 by lia. reflexivity. }
    destruct (C62_find_region regions a) as (F1 & F2). split.
    + destruct (find_region regions a) as [i|] eqn:F; [|discriminate]. intros H. injection H as <- <-. right. exists a, i.
      split; [reflexivity|]. split; [reflexivity|]. split; [exact Hb|]. now apply F1.
    + intros [(-> & H & Hk)|(name & i & -> & H & Hk & K)].
      * exfalso. apply Hk. rewrite <- H. apply in_or_app. right. now left.
      * apply split_last in H as (-> & ->); [|exact Hb|exact Hk]. now rewrite (proj2 (F1 i) K).
  - apply rfind_none in E. split.
    + intros H. injection H as <- <-. left. auto.
    + intros [(-> & -> & _)|(name & i & _ & -> & _)]; [reflexivity|]. exfalso. apply E. apply in_or_app. right. now left.
Qed.

(** every documented key is recognised, and nothing else *)
Lemma key_documented region key :
  (forall q, key_quantity true region key = Some q <-> exists k f, key = txt k /\ In (k, f) documented /\ q = f region).
Proof.
  intros q. split.
  - unfold key_quantity. intros H.
    repeat match type of H with
    | (if text_eqb key (txt ?k) then Some _ else _) = _ =>
        let E := fresh "E" in destruct (text_eqb key (txt k)) eqn:E;
        [apply text_eqb_spec in E; injection H as <-; exists k; eexists; split; [exact E|]; split; [|reflexivity]; unfold documented; cbn [In]; tauto|]
    end. discriminate.
  - intros (k & f & -> & H & ->). unfold documented in H. cbn [In] in H.
    repeat match type of H with _ \/ _ => destruct H as [H|H] end; try (injection H as <- <-; reflexivity). destruct H.
Qed.

Lemma key_uncached region key :
  key_quantity false region key = match key_quantity true region key with
    | Some (AppliedField _) => Some Undefined_field | o => o end.
Proof.
  unfold key_quantity. repeat match goal with |- context[if ?b then _ else _] => destruct b; [reflexivity|] end. reflexivity.
Qed.

(** the quantity shown in a column *)
Definition shown (cached : bool) (q : quantity) : quantity :=
  match q with AppliedField _ => if cached then q else Undefined_field | _ => q end.

Lemma column_asks cached regions col q :
  column_quantity cached regions col = Some q <-> exists q0, asks regions col q0 /\ q = shown cached q0.
Proof.
  unfold column_quantity, asks. split.
  - destruct (split_column regions col) as [(region, key)|] eqn:E; [|discriminate]. apply split_names in E. intros H.
    destruct (key_quantity true region key) as [q0|] eqn:K.
    + exists q0. split.
      * apply key_documented in K as (k & f & -> & K). exists region, k, f. tauto.
      * destruct cached; [|rewrite key_uncached in H]; rewrite K in H; [injection H as <-; destruct q0; reflexivity|].
        destruct q0; injection H as <-; reflexivity.
    + destruct cached; [|rewrite key_uncached in H]; rewrite K in H; discriminate.
  - intros (q0 & (region & key & f & H1 & H2 & ->) & ->). apply split_names in H1. rewrite H1.
    assert (K : key_quantity true region (txt key) = Some (f region)) by (apply key_documented; eauto).
    destruct cached; [|rewrite key_uncached]; rewrite K; destruct (f region); reflexivity.
Qed.

Lemma asks_fun regions col q q' : asks regions col q -> asks regions col q' -> q = q'.
Proof.
  intros H H'. assert (A : column_quantity true regions col = Some q) by (apply column_asks; exists q; split; [exact H|destruct q; reflexivity]).
  assert (B : column_quantity true regions col = Some q') by (apply column_asks; exists q'; split; [exact H'|destruct q'; reflexivity]). congruence.
Qed.

Lemma save_join print cached regions : forall cols qs n i out, n = i + List.length cols ->
  Forall2 (fun c q => column_quantity cached regions c = Some q) cols qs ->
  save_columns print cached regions n i cols out = Line (out ++ match cols with [] => [] | _ => join_tab (map print qs) ++ [NL] end).
Proof.
  induction cols as [|c cols IH]; intros qs n i out Hn F; inversion F; subst; cbn [save_columns map].
  - now rewrite app_nil_r.
  - rewrite H1. erewrite IH; [|cbn [List.length]; lia|exact H3]. f_equal. cbn [List.length]. destruct cols as [|d cols].
    + inversion H3; subst. cbn [map join_tab List.length]. replace (i =? i + 1 - 1) with true by (symmetry; apply Nat.eqb_eq; lia).
      now rewrite app_nil_r.
    + inversion H3; subst. replace (i =? i + S (List.length (d :: cols)) - 1) with false by (symmetry; apply Nat.eqb_neq; cbn [List.length]; lia).
      change (join_tab (print y :: map print (y0 :: l'0))) with (print y ++ [TAB] ++ join_tab (map print (y0 :: l'0))).
      rewrite <- !app_assoc. reflexivity.
Qed.

Lemma save_exit print cached regions : forall cols n i out,
  Exists (fun c => column_quantity cached regions c = None) cols -> exists written, save_columns print cached regions n i cols out = Exit written.
Proof.
  induction cols as [|c cols IH]; intros n i out H; inversion H; subst; cbn [save_columns].
  - rewrite H1. eauto.
  - destruct (column_quantity cached regions c); [|eauto]. now apply IH.
Qed.

Definition starts (col : text) : Prop := exists c s, col = "H"%char :: c :: s /\ (c = "x"%char \/ c = "y"%char \/ c = "z"%char).

Lemma starts_spec col : starts_with_field col = true <-> starts col.
Proof.
  unfold starts. split.
  - destruct col as [|c [|d s]]; try discriminate. cbn [starts_with_field]. intros H. apply andb_true_iff in H as (H & H3). apply andb_true_iff in H as (H1 & H2).
    apply Ascii.eqb_eq in H1 as ->. apply N.leb_le in H2, H3. exists d, s. split; [reflexivity|].
    assert (K : (byte d = 120 \/ byte d = 121 \/ byte d = 122)%N) by (change (byte "x"%char) with 120%N in H2; change (byte "z"%char) with 122%N in H3; lia).
    unfold byte in K. rewrite <- (ascii_N_embedding d). destruct K as [-> | [-> | ->]]; auto.
  - intros (c & s & -> & [-> | [-> | ->]]); reflexivity.
Qed.

(** when every column asks for something, the line has the printed quantities in the order of the columns, separated by
    tabs and ended by a newline. The applied field of a column without region is shown; that of a column with a region is
    shown only if another column asks for the field without region (see [C67_region_field_refuted]). *)
Theorem C67_line : forall print regions cols qs, cols <> [] ->
  Forall2 (asks regions) cols qs ->
  (forall c, In c cols -> region_field c -> exists c', In c' cols /\ plain_field c') ->
  saver_line print regions cols = Line (join_tab (map print qs) ++ [NL]).
Proof.
  intros print regions cols qs Hne F G. unfold saver_line.
  rewrite (save_join print _ regions cols qs _ 0 [] eq_refl).
  - destruct cols; [congruence|reflexivity].
  - assert (K : Forall (fun c => forall q, asks regions c q -> column_quantity (field_needed cols) regions c = Some q) cols).
    { apply Forall_forall. intros c Hc q Hq. apply column_asks. exists q. split; [exact Hq|].
      destruct q; try reflexivity. cbn [shown].
      assert (N : field_needed cols = true).
      { assert (N : exists c', In c' cols /\ plain_field c').
        { destruct Hq as (region & key & f & Hn & Hd & E).
          assert (P : plain_field (txt key)).
          { unfold documented in Hd. cbn [In] in Hd. repeat match type of Hd with _ \/ _ => destruct Hd as [Hd|Hd] end;
              try (injection Hd as <- <-; discriminate); try (injection Hd as <- <-; unfold plain_field; tauto). destruct Hd. }
          destruct Hn as [(_ & -> & _)|(name & i & _ & -> & _)]; [now exists (txt key)|].
          apply (G _ Hc). exists name, (txt key). auto. }
        destruct N as (c' & Hc' & P). unfold field_needed. apply existsb_exists. exists c'. split; [exact Hc'|].
        destruct P as [-> | [-> | ->]]; reflexivity. }
      now rewrite N. }
    clear -F K. induction F as [|c q cols qs H F IH]; [constructor|]. inversion K; subst. constructor; [auto|].
    assert (L : forall l, Forall (fun c => forall q, asks regions c q -> column_quantity l regions c = Some q) cols ->
       Forall2 (fun c q => column_quantity l regions c = Some q) cols qs).
    { intros l. clear -F. induction F as [|c q cols qs H F IH]; intros K; [constructor|]. inversion K; subst. constructor; auto. }
    now apply L.
Qed.

(** a column that asks for nothing documented, or names an unknown region, ends the program; and only then *)
Theorem C67_refused : forall print regions cols,
  (exists written, saver_line print regions cols = Exit written) <-> exists c, In c cols /\ forall q, ~ asks regions c q.
Proof.
  intros print regions cols. split.
  - intros (w & H). destruct (Exists_dec (fun c => column_quantity (field_needed cols) regions c = None) cols) as [E|E].
    { intros c. destruct (column_quantity (field_needed cols) regions c); [right; discriminate|now left]. }
    + apply Exists_exists in E as (c & Hc & E). exists c. split; [exact Hc|]. intros q Hq.
      assert (K : column_quantity (field_needed cols) regions c = Some (shown (field_needed cols) q)) by (apply column_asks; eauto). congruence.
    + exfalso. assert (F : exists qs, Forall2 (fun c q => column_quantity (field_needed cols) regions c = Some q) cols qs).
      { unfold saver_line in H. clear H. revert E. generalize (field_needed cols). intros b E. induction cols as [|c l IH]; [exists []; constructor|].
        destruct IH as (qs & IH). { intros K. apply E. now right. }
        destruct (column_quantity b regions c) as [q|] eqn:Q; [exists (q :: qs); now constructor|]. exfalso. apply E. now left. }
      destruct F as (qs & F). unfold saver_line in H. rewrite (save_join print _ regions cols qs (List.length cols) 0 [] eq_refl F) in H. discriminate.
  - intros (c & Hc & H). apply save_exit. apply Exists_exists. exists c. split; [exact Hc|].
    destruct (column_quantity (field_needed cols) regions c) as [q|] eqn:E; [|reflexivity]. apply column_asks in E as (q0 & E & _). exfalso. now apply (H q0).
Qed.

(** specification: cutting a text at the tabs *)
Fixpoint cut_tabs (s : text) : list text :=
  match s with
  | [] => [[]]
  | c :: s' => if Ascii.eqb c TAB then [] :: cut_tabs s'
               else match cut_tabs s' with [] => [[c]] | x :: l => (c :: x) :: l end
  end.

Lemma cut_plain s r : ~ In TAB s -> cut_tabs (s ++ r) = match cut_tabs r with [] => [s] | x :: l => (s ++ x) :: l end.
Proof.
  induction s as [|c s IH]; intros H; cbn [app cut_tabs].
  - destruct r; cbn; [reflexivity|]. destruct (Ascii.eqb a TAB); [reflexivity|]. destruct (cut_tabs r); reflexivity.
  - destruct (Ascii.eqb c TAB) eqn:E; [apply Ascii.eqb_eq in E; exfalso; apply H; now left|].
    rewrite IH by (intros K; apply H; now right). destruct (cut_tabs r); reflexivity.
Qed.

Lemma cut_join l : l <> [] -> Forall (fun s => ~ In TAB s) l -> cut_tabs (join_tab l) = l.
Proof.
  intros Hne F. induction F as [|s l Hs F IH]; [congruence|]. destruct l as [|t l].
  - cbn [join_tab]. rewrite <- (app_nil_r s) at 1. rewrite cut_plain by exact Hs. cbn. now rewrite app_nil_r.
  - change (join_tab (s :: t :: l)) with (s ++ TAB :: join_tab (t :: l)). rewrite cut_plain by exact Hs. cbn [cut_tabs].
    rewrite Ascii.eqb_refl. rewrite IH by discriminate. now rewrite app_nil_r.
Qed.

(** whatever the columns: a line, when one is written, is ended by its only newline, and cutting it at the tabs gives one
    field per column, provided the printed numbers contain neither tab nor newline *)
Theorem C67_one_field_per_column : forall print regions cols s, cols <> [] ->
  (forall q, ~ In TAB (print q) /\ ~ In NL (print q)) ->
  saver_line print regions cols = Line s ->
  exists body, s = body ++ [NL] /\ ~ In NL body /\ List.length (cut_tabs body) = List.length cols /\
    Forall2 (fun c field => exists q q0, asks regions c q0 /\ (q = q0 \/ q = Undefined_field) /\ field = print q) cols (cut_tabs body).
Proof.
  intros print regions cols s Hne Hp H. unfold saver_line in H.
  destruct (Exists_dec (fun c => column_quantity (field_needed cols) regions c = None) cols) as [E|E].
  { intros c. destruct (column_quantity (field_needed cols) regions c); [right; discriminate|now left]. }
  - destruct (save_exit print _ _ _ (List.length cols) 0 [] E) as (w & K). congruence.
  - assert (F : exists qs, Forall2 (fun c q => column_quantity (field_needed cols) regions c = Some q) cols qs).
    { clear H. revert E. generalize (field_needed cols). intros b E. clear Hne. induction cols as [|c l IH]; [exists []; constructor|].
      destruct IH as (qs & IH). { intros K. apply E. now right. }
      destruct (column_quantity b regions c) as [q|] eqn:Q; [exists (q :: qs); now constructor|]. exfalso. apply E. now left. }
    destruct F as (qs & F). rewrite (save_join print _ regions cols qs (List.length cols) 0 [] eq_refl F) in H. injection H as <-.
    assert (L : List.length cols = List.length qs) by (clear -F; induction F; cbn [List.length]; congruence).
    assert (Hq : map print qs <> []) by (destruct qs; [destruct cols; [congruence|discriminate]|discriminate]).
    exists (join_tab (map print qs)). cbn [app]. split; [destruct cols; [congruence|reflexivity]|].
    assert (C : cut_tabs (join_tab (map print qs)) = map print qs).
    { apply cut_join; [exact Hq|]. apply Forall_map. apply Forall_forall. intros q _. apply Hp. }
    split; [|split].
    + apply join_tab_no_newline. apply Forall_map. apply Forall_forall. intros q _. apply Hp.
    + rewrite C, map_length. now symmetry.
    + rewrite C. clear -F. revert F. generalize (field_needed cols). intros b F. induction F as [|c q cols qs H F IH]; [constructor|]. cbn [map]. constructor; [|exact IH].
      apply column_asks in H as (q0 & H & ->). exists (shown b q0), q0. split; [exact H|]. split; [|reflexivity].
      destruct q0; try (now left). destruct b; [now left|now right].
Qed.

(** an applied-field column with a region, alone, shows NaN whatever the field is *)
Theorem C67_region_field_refuted : exists regions cols, Forall2 (asks regions) cols [AppliedField AX] /\
  forall print, saver_line print regions cols = Line (print Undefined_field ++ [NL]).
Proof.
  exists [txt "core"], [txt "core:Hx"]. split; [|reflexivity]. constructor; [|constructor].
  exists (Some 0), "Hx"%string, (fun _ => AppliedField AX). split.
  - right. exists (txt "core"), 0. split; [reflexivity|]. split; [reflexivity|]. split; [cbn; intros [H|[H|[]]]; discriminate|].
    split; [reflexivity|]. intros j Hj. lia.
  - split; [|reflexivity]. unfold documented. cbn [In]. tauto.
Qed.

Example C67_nonvacuous : forall print,
  Forall2 (asks [txt "__default__"; txt "a:b"]) [txt "t"; txt "a:b:<My>"; txt "Hz"] [TimeNow; MeanM AY (Some 1); AppliedField AZ] /\
  saver_line print [txt "__default__"; txt "a:b"] [txt "t"; txt "a:b:<My>"; txt "Hz"] =
    Line (print TimeNow ++ TAB :: print (MeanM AY (Some 1)) ++ TAB :: print (AppliedField AZ) ++ [NL]) /\
  exists w, saver_line print [txt "__default__"] [txt "t"; txt "<mx>"] = Exit w.
Proof.
  intros print. split; [|split].
  - assert (A : forall c q, column_quantity true [txt "__default__"; txt "a:b"] c = Some q -> (forall a, q = AppliedField a -> True) -> q <> Undefined_field -> asks [txt "__default__"; txt "a:b"] c q).
    { intros c q H _ Hq. apply column_asks in H as (q0 & H & ->). destruct q0; exact H. }
    repeat (constructor; [apply A; [reflexivity|auto|discriminate]|]). constructor.
  - transitivity (Line (((print TimeNow ++ [TAB]) ++ print (MeanM AY (Some 1)) ++ [TAB]) ++ print (AppliedField AZ) ++ [NL])); [reflexivity|].
    now rewrite <- !app_assoc.
  - eexists. reflexivity.
Qed.

(** ** C82: the configurations saved during a run *)
(** the setting: a positive number is a period, 0, a negative number and false disable the feature, true is refused *)
Theorem C82_period : forall as_int scalar previous,
  period_setting as_int scalar previous =
  match scalar with
  | None => Some previous
  | Some s => if text_eqb s (txt "true") then None else if text_eqb s (txt "false") then Some 0%Z
              else option_map (Z.max 0) (as_int s)
  end.
Proof.
  intros as_int [s|] previous; [|reflexivity]. cbn [period_setting]. destruct (text_eqb s (txt "true")); [reflexivity|].
  destruct (text_eqb s (txt "false")); [reflexivity|]. destruct (as_int s) as [p|]; [|reflexivity]. cbn [option_map]. f_equal.
  destruct (Z.ltb_spec p 0); lia.
Qed.

Definition sol_name (dir sim : text) (nt : nat) : text := dir ++ txt "/" ++ sim ++ txt "_iter" ++ print_nat (Z.of_nat nt) ++ txt ".sol".

Lemma print_nat_inj i j : (0 <= i)%Z -> (0 <= j)%Z -> print_nat i = print_nat j -> i = j.
Proof.
  intros Hi Hj H. assert (V : forall z, (0 <= z)%Z -> digits_val (print_nat z) = z).
  { intros z Hz. unfold print_nat. rewrite digits_val_digits by exact Hz. apply Z.mod_small. split; [exact Hz|now apply ndigits_bound]. }
  rewrite <- (V i Hi), <- (V j Hj), H. reflexivity.
Qed.

(** a run of n+1 visible iterations writes one file for each multiple of the period, named after the iteration; the names
    are all different, so no configuration is lost *)
Theorem C82_files : forall dir sim period n,
  (forall f, In f (sol_files dir sim (Z.of_nat period) n) <-> exists k, 0 < period /\ k * period <= n /\ f = sol_name dir sim (k * period)) /\
  NoDup (sol_files dir sim (Z.of_nat period) n) /\
  (period = 0 -> sol_files dir sim (Z.of_nat period) n = []) /\
  (forall i j, sol_name dir sim i = sol_name dir sim j -> i = j).
Proof.
  intros dir sim period n.
  assert (Inj : forall i j, sol_name dir sim i = sol_name dir sim j -> i = j).
  { intros i j H. unfold sol_name in H. do 4 apply app_inv_head in H. apply app_inv_tail in H. apply print_nat_inj in H; lia. }
  assert (D : forall k, sol_file dir sim (Z.of_nat period) (Z.of_nat k) =
    if negb (period =? 0) && (k mod period =? 0) then Some (sol_name dir sim k) else None).
  { intros k. unfold sol_file, sol_name. rewrite <- !app_assoc.
    replace (Z.of_nat period =? 0)%Z with (period =? 0).
    2:{ destruct (Nat.eqb_spec period 0), (Z.eqb_spec (Z.of_nat period) 0); lia || reflexivity. }
    destruct (Nat.eqb_spec period 0) as [E|E]; [reflexivity|]. cbn [negb andb].
    rewrite Z.rem_mod_nonneg by lia. rewrite <- Nat2Z.inj_mod.
    replace (Z.of_nat (k mod period) =? 0)%Z with (k mod period =? 0); [reflexivity|].
    generalize (k mod period). intros m. destruct (Nat.eqb_spec m 0), (Z.eqb_spec (Z.of_nat m) 0); lia || reflexivity. }
  split; [|split; [|split; [|exact Inj]]].
  - intros f. unfold sol_files. rewrite in_concat. split.
    + intros (x & Hx & Hf). apply in_map_iff in Hx as (k & <- & Hk). apply in_seq in Hk. rewrite D in Hf.
      destruct (Nat.eqb_spec period 0) as [E|E]; [destruct Hf|]. cbn [negb andb] in Hf. destruct (Nat.eqb_spec (k mod period) 0) as [M|M]; [|destruct Hf].
      destruct Hf as [<-|[]]. exists (k / period). assert (K : k / period * period = k) by (pose proof (Nat.div_mod k period E); lia). rewrite K. split; [lia|]. split; [lia|reflexivity].
    + intros (k & Hp & Hk & ->). exists [sol_name dir sim (k * period)]. split; [|now left]. apply in_map_iff. exists (k * period). split; [|apply in_seq; lia].
      rewrite D. replace (period =? 0) with false by (symmetry; apply Nat.eqb_neq; lia). rewrite Nat.mod_mul by lia. reflexivity.
  - unfold sol_files. assert (G : forall l, NoDup l -> NoDup (List.concat (map (fun k => match sol_file dir sim (Z.of_nat period) (Z.of_nat k) with Some f => [f] | None => [] end) l))).
    { intros l N. induction N as [|k l Hk N IH]; [constructor|]. cbn [map List.concat]. rewrite D. destruct (negb (period =? 0) && (k mod period =? 0)); [|exact IH].
      constructor; [|exact IH]. intros H. apply in_concat in H as (x & Hx & Hf). apply in_map_iff in Hx as (j & <- & Hj). rewrite D in Hf.
      destruct (negb (period =? 0) && (j mod period =? 0)); [|destruct Hf]. destruct Hf as [Hf|[]]. apply Inj in Hf as ->. now apply Hk. }
    apply G. apply seq_NoDup.
  - intros ->. unfold sol_files. assert (G : forall l, List.concat (map (fun k => match sol_file dir sim (Z.of_nat 0) (Z.of_nat k) with Some f => [f] | None => [] end) l) = []).
    { induction l as [|k l IH]; [reflexivity|]. cbn [map List.concat]. rewrite D. exact IH. }
    apply G.
Qed.

Example C82_nonvacuous : sol_files (txt "out") (txt "run") 5 12 = [txt "out/run_iter0.sol"; txt "out/run_iter5.sol"; txt "out/run_iter10.sol"].
Proof. reflexivity. Qed.

Print Assumptions C67_line.
Print Assumptions C67_refused.
Print Assumptions C67_one_field_per_column.
Print Assumptions C82_files.
