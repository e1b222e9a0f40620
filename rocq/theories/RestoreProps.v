(** * Files which are not a configuration of the mesh: property C92 *)
From Coq Require Import String Ascii Reals ZArith Bool List Permutation Lia Lra.
From Flocq Require Import Core BinarySingleNaN Relative.
From Verif Require Import Arith ArithLaws TextModel TextProof TextProps SolModel SolProof SolProps.
Import ListNotations.
Open Scope Z_scope.

(** the lines of a part of the nodes, the others after them *)
Lemma read_nodes_prefix p src : Forall node_in_range src -> forall idx idx' i old pre body,
  (pre = [] \/ pre = [NL]) -> List.length idx' = List.length idx ->
  (forall j, In j idx' -> (j < List.length old)%nat) -> NoDup idx' ->
  Z.of_nat (i + List.length idx) <= 2 ^ 32 ->
  sol_lines p i idx src None = Some body ->
  exists new, List.length new = List.length old /\
    (forall j, ~ In j idx' -> nth_error new j = nth_error old j) /\
    (forall k j j' n, nth_error idx k = Some j -> nth_error idx' k = Some j' -> nth_error src j = Some n ->
       exists n', nth_error new j' = Some n' /\ node_reread p n n') /\
  exists pre', (pre' = [] \/ pre' = [NL]) /\
  forall more rest,
  read_nodes i (idx' ++ more) (@Some text (pre ++ body ++ rest)) old = read_nodes (i + List.length idx) more (@Some text (pre' ++ rest)) new.
Proof.
  intros Hr. induction idx as [|j idx IH]; intros idx' i old pre body Hp El Hj ND Hi Hb.
  - destruct idx'; [|discriminate]. injection Hb as <-. exists old. split; [reflexivity|]. split; [auto|]. split.
    + intros k j j' n H. destruct k; discriminate.
    + exists pre. split; [exact Hp|]. intros more rest. cbn [app List.length]. now rewrite Nat.add_0_r.
  - destruct idx' as [|j' idx']; [discriminate|]. cbn [sol_lines] in Hb. destruct (nth_error src j) as [n|] eqn:En; [|discriminate]. cbn [bind option_map] in Hb.
    destruct (sol_lines p (S i) idx src None) as [rest1|] eqn:Er; [|discriminate]. cbn [bind] in Hb. injection Hb as <-.
    assert (Hjl : (j' < List.length old)%nat) by (apply Hj; now left).
    assert (Nr : node_in_range n). { rewrite Forall_forall in Hr. apply Hr. eapply nth_error_In; eauto. }
    destruct Nr as (Rx & Ry & Rz & Rp). inversion ND as [|? ? Nin ND']; subst.
    assert (Ru : forall s, stops s -> read_unsigned (pre ++ print_nat (Z.of_nat i) ++ s) = (Z.of_nat i, Some s)).
    { intros s Hs. cbn [List.length] in Hi. destruct Hp as [->| ->]; cbn [app].
      - apply read_unsigned_print; [lia|exact Hs].
      - rewrite readu_skip by reflexivity. apply read_unsigned_print; [lia|exact Hs]. }
    assert (Rd : forall x, in_range x -> exists y, reread p x y /\ forall s, stops s -> read_double (TAB :: print_sci p x ++ s) = (y, Some s)).
    { intros x Hx. destruct (read_print p x [NL]) as (y & Y1 & Y2); [apply Hx|now apply in_range_ok|reflexivity|].
      exists y. split; [exact Y2|]. intros s Hs. rewrite read_skip by reflexivity.
      destruct (read_print p x s) as (y' & Y1' & Y2'); [apply Hx|now apply in_range_ok|exact Hs|]. rewrite Y1'. f_equal.
      destruct Y2 as (F & V & G), Y2' as (F' & V' & G'). apply B2R_Bsign_inj; [exact F'|exact F|congruence|congruence]. }
    destruct (Rd (s_x n) Rx) as (vx & X2 & X1). destruct (Rd (s_y n) Ry) as (vy & Y2 & Y1).
    destruct (Rd (s_z n) Rz) as (vz & Z2 & Z1). destruct (Rd (s_phi n) Rp) as (vp & P2 & P1).
    destruct (IH idx' (S i) (upd old j' (mkSol vx vy vz vp)) [NL] rest1) as (new & I1 & I2 & I3 & pre' & I4 & I5).
    { now right. } { cbn in El. lia. } { intros k H. rewrite upd_length. apply Hj. now right. } { exact ND'. } { cbn [List.length] in Hi. lia. } { exact Er. }
    exists new. split; [now rewrite I1, upd_length|]. split; [|split].
    + intros k H. rewrite I2 by (intros K; apply H; now right). apply upd_other. intros ->. apply H. now left.
    + intros [|k] a a' m E1 E2 E3; cbn [nth_error] in E1, E2.
      * injection E1 as <-. injection E2 as <-. assert (m = n) by congruence. subst m. exists (mkSol vx vy vz vp). split.
        -- rewrite I2 by exact Nin. apply upd_same. exact Hjl.
        -- repeat split; try apply X2; try apply Y2; try apply Z2; apply P2.
      * eapply I3; eassumption.
    + exists pre'. split; [exact I4|]. intros more rest. cbn [app read_nodes List.length].
      destruct (nth_error old j') as [o|] eqn:Eo. 2:{ apply nth_error_None in Eo. lia. }
      unfold sol_line, print3. repeat (rewrite <- app_assoc; cbn [app]).
      rewrite (extract_u _ _ _ (Ru _ (stops_tab _))), (extract_d _ _ _ (X1 _ (stops_tab _))), (extract_d _ _ _ (Y1 _ (stops_tab _))),
        (extract_d _ _ _ (Z1 _ (stops_tab _))), (extract_d _ _ _ (P1 _ (stops_nl _))), Z.eqb_refl.
      replace (i + S (List.length idx))%nat with (S i + List.length idx)%nat by lia. rewrite <- (I5 more rest). cbn [app]. reflexivity.
Qed.

Lemma sol_lines_app p src : forall a b i, sol_lines p i (a ++ b) src None =
  bind (sol_lines p i a src None) (fun x => bind (sol_lines p (i + List.length a) b src None) (fun y => Some (x ++ y))).
Proof.
  induction a as [|j a IH]; intros b i; cbn [app sol_lines bind List.length].
  - rewrite Nat.add_0_r. now destruct (sol_lines p i b src None).
  - destruct (nth_error src j) as [n|]; cbn [bind option_map]; [|reflexivity]. rewrite IH. replace (S i + List.length a)%nat with (i + S (List.length a))%nat by lia.
    destruct (sol_lines p (S i) a src None) as [x|]; cbn [bind]; [|reflexivity].
    destruct (sol_lines p (i + S (List.length a)) b src None) as [y|]; cbn [bind]; [|reflexivity]. now rewrite app_assoc.
Qed.

(** what follows the header *)
Definition body_start (body : text) : Prop := body = [] \/ exists c b, body = c :: b /\ Ascii.eqb c "#"%char = false /\ Ascii.eqb c NL = false.

Lemma written_header h t metadata : time_in_range t ->
  plain_header h -> (forall k v, In (k, v) (h_meta h) -> v <> []) -> Forall quiet (common_lines h) ->
  sol_metadata h false t = Some metadata ->
  exists t', reread 6 t t' /\ forall body index nodes, body_start body ->
    read_sol (metadata ++ body) index nodes =
    match read_nodes 0 index (Some body) nodes with Restored l => Restored (t', l) | ExitFailure => ExitFailure | Throws => Throws | Undefined => Undefined end.
Proof.
  intros Ht Hp Hm Hq Hmd. destruct (stod_print t Ht) as (t' & Et & Rt). exists t'. split; [exact Rt|]. intros body index nodes Hb.
  unfold sol_metadata in Hmd. rewrite common_unlines in Hmd by exact Hm. cbn [bind] in Hmd.
  apply (f_equal (fun o => match o with Some x => x | None => [] end)) in Hmd. cbv beta iota in Hmd.
  set (tl := time_tag ++ " "%char :: print_sci 6 t).
  set (cl := txt "## columns:" ++ " "%char :: join_tab (map txt ["idx"; "mx"; "my"; "mz"; "phi"]%string)).
  assert (Emd : metadata = unlines (common_lines h ++ [tl; cl])).
  { rewrite <- Hmd, unlines_app. f_equal. }
  rewrite Emd. clear Emd Hmd.
  assert (Ptl : comment_line tl).
  { split; [eexists; reflexivity|]. unfold tl. apply no_newline_app; [apply no_newline_txt; reflexivity|]. intros [K|K]; [discriminate|].
    destruct Ht as (F & _). destruct (print_finite 6 t F) as (n & k & E & _). rewrite E in K.
    assert (Dg : forall q z, ~ In NL (digits q z)).
    { intros q z K'. pose proof (digits_Forall q z) as D. rewrite Forall_forall in D. apply D in K'. discriminate. }
    apply in_app_or in K as [K|K]; [destruct (Bsign t); [destruct K as [K|[]]; discriminate|destruct K]|].
    apply in_app_or in K as [K|K].
    - unfold print_mantissa in K. apply in_app_or in K as [K|[K|K]]; [now apply Dg in K|discriminate|now apply Dg in K].
    - unfold print_exp in K. destruct K as [K|[K|K]]; [discriminate|destruct (k <? 0); discriminate|now apply Dg in K]. }
  assert (Pcl : comment_line cl) by (split; [eexists; reflexivity|apply no_newline_txt; reflexivity]).
  assert (Qtl : quiet tl).
  { intros k K. unfold tl in K. rewrite find_first_time in K. injection K as <-. exists t'. exact Et. }
  assert (Qcl : quiet cl) by (intros k K; vm_compute in K; discriminate).
  set (ls := common_lines h ++ [tl; cl]).
  assert (Hc : Forall comment_line ls) by (apply Forall_app; split; [now apply common_comments|repeat constructor; assumption || apply Ptl || apply Pcl]).
  assert (Hq' : Forall quiet ls) by (apply Forall_app; split; [exact Hq|repeat constructor; assumption]).
  unfold read_sol.
  replace (S (List.length (unlines ls ++ body))) with (List.length ls + (S (List.length (unlines ls ++ body)) - List.length ls))%nat
    by (pose proof (unlines_length ls); rewrite app_length; lia).
  rewrite read_header_lines by assumption.
  assert (Tm : fold_left line_time ls None = Some t').
  { unfold ls. rewrite fold_left_app. cbn [fold_left]. unfold line_time at 1.
    replace (find_first time_tag cl) with (@None nat) by (vm_compute; reflexivity). unfold line_time at 1. unfold tl at 1. rewrite find_first_time. exact Et. }
  rewrite Tm. set (fuel := (S _ - _)%nat).
  assert (Hd : read_header fuel body (Some t') = Restored (Some t', body)).
  { destruct fuel; [reflexivity|]. destruct Hb as [->|(c & b & -> & C1 & C2)]; [reflexivity|]. cbn [read_header]. now rewrite C1, C2. }
  rewrite Hd. reflexivity.
Qed.

(** ** C92: a file without time is refused *)
(** the lines of a header: comments and empty lines; [body_start]: what follows is not such a line *)
Definition header_line (l : text) : Prop := no_newline l /\ (l = [] \/ exists l', l = "#"%char :: l').
Theorem C92_no_time_partial : forall ls body node_index nodes,
  Forall header_line ls -> Forall (fun l => forall a b, l <> a ++ time_tag ++ b) ls -> body_start body ->
  read_sol (unlines ls ++ body) node_index nodes = ExitFailure.
Proof.
  intros ls body idx nodes Hl Ht Hb. unfold read_sol.
  assert (G : forall ls fuel, Forall header_line ls -> Forall (fun l => forall a b, l <> a ++ time_tag ++ b) ls -> 
     (List.length ls <= fuel)%nat -> read_header fuel (unlines ls ++ body) None = Restored (None, body)).
  { clear Hl Ht ls. induction ls as [|l ls IH]; intros fuel Hl Ht Hf.
    - cbn [unlines map List.concat app]. destruct fuel; [reflexivity|]. destruct Hb as [->|(c & b & -> & C1 & C2)]; [reflexivity|]. cbn [read_header]. now rewrite C1, C2.
    - destruct fuel as [|fuel]; [cbn in Hf; lia|]. inversion Hl as [|? ? (Hn & Hs) Hl']; inversion Ht as [|? ? Hq Ht']; subst.
      unfold unlines. cbn [map List.concat]. rewrite <- !app_assoc. fold (unlines ls). cbn [app].
      assert (Nf : find_first time_tag l = None).
      { destruct (find_first time_tag l) as [k|] eqn:Ef; [|reflexivity]. destruct (find_first_some _ _ _ Ef) as (a & b & E & _). exfalso. apply (Hq a b). exact E. }
      pose proof (getline_app l (unlines ls ++ body) Hn) as Eg.
      destruct Hs as [->|(l' & ->)]; cbn [app] in *.
      + cbn [read_header]. change (Ascii.eqb NL "#"%char || Ascii.eqb NL NL) with true. cbv iota. rewrite Eg, Nf. apply IH; [assumption..|cbn in Hf; lia].
      + cbn [read_header]. change (Ascii.eqb "#"%char "#"%char || Ascii.eqb "#"%char NL) with true. cbv iota. rewrite Eg, Nf. apply IH; [assumption..|cbn in Hf; lia]. }
  rewrite G; [reflexivity|exact Hl|exact Ht|]. pose proof (unlines_length ls). rewrite app_length. lia.
Qed.

Lemma line_start p i n r : body_start (sol_line p i n None ++ r).
Proof.
  right. unfold sol_line, print_nat. destruct (digits_head (ndigits (Z.of_nat i)) (Z.of_nat i) (ndigits_pos _)) as (c & l & E & _ & _ & _ & _ & H1 & H2).
  rewrite E. cbn [app]. eauto 6.
Qed.
Lemma body_start_app a b : body_start a -> body_start b -> body_start (a ++ b).
Proof. intros [->|(c & x & -> & H)] Hb; [exact Hb|]. right. cbn [app]. eauto. Qed.

Lemma split_at {X} (k : nat) (l : list X) : (k < List.length l)%nat -> exists a j b, l = a ++ j :: b /\ List.length a = k.
Proof.
  intros H. pose proof (firstn_skipn k l) as E. destruct (skipn k l) as [|j b] eqn:Ek.
  - rewrite app_nil_r in E. assert (L := f_equal (@List.length X) E). rewrite firstn_length in L. lia.
  - exists (firstn k l), j, b. split; [congruence|]. rewrite firstn_length. lia.
Qed.
Lemma NoDup_front {X} (a b : list X) : NoDup (a ++ b) -> NoDup a.
Proof. induction a as [|x a IH]; intros H; constructor; inversion H; subst; [|now apply IH]. intros K. apply H2. apply in_or_app. now left. Qed.

(** the facts on a file written by the program *)
Record written (h : header_info) (t : b64) (metadata : text) : Prop := {
  w_time : time_in_range t; w_plain : plain_header h; w_meta : forall k v, In (k, v) (h_meta h) -> v <> [];
  w_quiet : Forall quiet (common_lines h); w_text : sol_metadata h false t = Some metadata }.

(** ** a line with another number than that of its node is refused, whatever follows *)
Theorem C92_line_number_partial : forall p h t metadata src idx body i n rest node_index nodes k,
  written h t metadata -> Forall node_in_range src -> node_in_range n ->
  sol_lines p 0 idx src None = Some body -> List.length idx = k ->           (* k good lines, *)
  i <> k -> Z.of_nat i < 2 ^ 32 ->                                            (* then one numbered i *)
  (k < List.length node_index)%nat -> Permutation node_index (seq 0 (List.length nodes)) -> Z.of_nat (List.length nodes) <= 2 ^ 32 ->
  read_sol (metadata ++ body ++ sol_line p i n None ++ rest) node_index nodes = ExitFailure.
Proof.
  intros p h t metadata src idx body i n rest node_index nodes k [Ht Hp Hm Hq Hmd] Hr Hn Hb Hk Hi Hi32 Hlen Hperm H32.
  destruct (written_header h t metadata Ht Hp Hm Hq Hmd) as (t' & _ & E). rewrite E.
  2:{ apply body_start_app; [exact (body_head p 0 idx src body Hb)|apply line_start]. }
  pose proof (Permutation_length Hperm) as Lp. rewrite seq_length in Lp.
  assert (Hin : forall j, In j node_index -> (j < List.length nodes)%nat) by (intros j Hj; apply (Permutation_in _ Hperm), in_seq in Hj; lia).
  assert (ND : NoDup node_index) by (apply (Permutation_NoDup (Permutation_sym Hperm)), seq_NoDup).
  destruct (split_at k node_index Hlen) as (front & j & more & -> & Lf).
  destruct (read_nodes_prefix p src Hr idx front 0 nodes [] body) as (new & N1 & _ & _ & pre & N4 & N5).
  { now left. } { lia. } { intros x Hx. apply Hin. apply in_or_app. now left. } { apply NoDup_front in ND. exact ND. } { rewrite Hk. lia. } { exact Hb. }
  specialize (N5 (j :: more) (sol_line p i n None ++ rest)). change ([] ++ body ++ sol_line p i n None ++ rest) with (body ++ sol_line p i n None ++ rest) in N5.
  rewrite N5. rewrite Hk. cbn [Nat.add read_nodes].
  destruct (nth_error new j) as [o|] eqn:Eo.
  2:{ exfalso. apply nth_error_None in Eo. assert (j < List.length nodes)%nat by (apply Hin; apply in_or_app; right; now left). lia. }
  destruct Hn as (Rx & Ry & Rz & Rp). unfold sol_line, print3. repeat (rewrite <- app_assoc; cbn [app]).
  assert (Ru : forall s, stops s -> read_unsigned (pre ++ print_nat (Z.of_nat i) ++ s) = (Z.of_nat i, Some s)).
  { intros s Hs. destruct N4 as [->| ->]; cbn [app].
    - apply read_unsigned_print; [lia|exact Hs].
    - rewrite readu_skip by reflexivity. apply read_unsigned_print; [lia|exact Hs]. }
  assert (Rd : forall x s, in_range x -> stops s -> exists y, read_double (TAB :: print_sci p x ++ s) = (y, Some s)).
  { intros x s Hx Hs. rewrite read_skip by reflexivity. destruct (read_print p x s) as (y & Y & _); [apply Hx|now apply in_range_ok|exact Hs|]. eauto. }
  rewrite (extract_u _ _ _ (Ru _ (stops_tab _))).
  destruct (Rd (s_x n) (TAB :: print_sci p (s_y n) ++ TAB :: print_sci p (s_z n) ++ TAB :: print_sci p (s_phi n) ++ NL :: rest) Rx (stops_tab _)) as (vx & X1).
  rewrite (extract_d _ _ _ X1).
  destruct (Rd (s_y n) (TAB :: print_sci p (s_z n) ++ TAB :: print_sci p (s_phi n) ++ NL :: rest) Ry (stops_tab _)) as (vy & Y1).
  rewrite (extract_d _ _ _ Y1).
  destruct (Rd (s_z n) (TAB :: print_sci p (s_phi n) ++ NL :: rest) Rz (stops_tab _)) as (vz & Z1).
  rewrite (extract_d _ _ _ Z1).
  destruct (Rd (s_phi n) (NL :: rest) Rp (stops_nl _)) as (vp & P1).
  rewrite (extract_d _ _ _ P1). destruct (Z.eqb_spec (Z.of_nat k) (Z.of_nat i)) as [K|_]; [exfalso; lia|]. reflexivity.
Qed.

(** ** findings: the file of a mesh with another number of nodes is not refused.
    With more nodes in the file, the first lines are given to the nodes; *)
Theorem C92_larger_mesh_refuted : forall p h t metadata node_index src file node_index' nodes,
  written h t metadata -> Forall node_in_range src ->
  Permutation node_index (seq 0 (List.length src)) -> savesol p metadata node_index src None = Some file ->
  Permutation node_index' (seq 0 (List.length nodes)) -> (List.length nodes <= List.length src)%nat -> Z.of_nat (List.length src) <= 2 ^ 32 ->
  exists t' new, read_sol file node_index' nodes = Restored (t', new) /\ reread 6 t t' /\ List.length new = List.length nodes /\
  forall k j j' n, nth_error node_index k = Some j -> nth_error node_index' k = Some j' -> nth_error src j = Some n ->
    exists n', nth_error new j' = Some n' /\ node_reread p n n'.
Proof.
  intros p h t metadata index src file index' nodes [Ht Hp Hm Hq Hmd] Hr P S P' L H32.
  destruct (written_header h t metadata Ht Hp Hm Hq Hmd) as (t' & Rt & E).
  unfold savesol in S. destruct (sol_lines p 0 index src None) as [body|] eqn:Eb; [|discriminate]. cbn [bind] in S. injection S as <-.
  pose proof (Permutation_length P) as L1. rewrite seq_length in L1. pose proof (Permutation_length P') as L2. rewrite seq_length in L2.
  pose proof Eb as Eb'. rewrite <- (firstn_skipn (List.length nodes) index), sol_lines_app in Eb'.
  destruct (sol_lines p 0 (firstn (List.length nodes) index) src None) as [b1|] eqn:E1; [|discriminate]. cbn [bind] in Eb'.
  destruct (sol_lines p (0 + List.length (firstn (List.length nodes) index)) (skipn (List.length nodes) index) src None) as [b2|] eqn:E2; [|discriminate].
  cbn [bind] in Eb'. injection Eb' as Eb'.
  destruct (read_nodes_prefix p src Hr (firstn (List.length nodes) index) index' 0 nodes [] b1) as (new & N1 & _ & N3 & pre & N4 & N5).
  { now left. } { rewrite firstn_length. lia. } { intros j Hj. apply (Permutation_in _ P'), in_seq in Hj. lia. }
  { apply (Permutation_NoDup (Permutation_sym P')), seq_NoDup. } { rewrite firstn_length. lia. } { exact E1. }
  exists t', new. rewrite E by exact (body_head p 0 index src body Eb).
  specialize (N5 [] b2). rewrite app_nil_r, Eb' in N5. change ([] ++ body) with body in N5. rewrite N5. cbn [read_nodes].
  split; [reflexivity|]. split; [exact Rt|]. split; [exact N1|]. intros k j j' n Hj Hj' Hn. apply (N3 k j j' n); [|exact Hj'|exact Hn].
  rewrite <- Hj.
  assert (K : (k < List.length nodes)%nat) by (rewrite <- L2; apply nth_error_Some; congruence).
  clear -K. revert k K. generalize (List.length nodes) as m. revert index. induction index as [|x l IH]; intros m k K.
  - now rewrite firstn_nil.
  - destruct m; [lia|]. destruct k; [reflexivity|]. cbn [firstn nth_error]. apply IH. lia.
Qed.

(** with fewer, variables which have not been set are read *)
Theorem C92_smaller_mesh_refuted : forall p h t metadata node_index src file node_index' nodes,
  written h t metadata -> Forall node_in_range src ->
  Permutation node_index (seq 0 (List.length src)) -> savesol p metadata node_index src None = Some file ->
  Permutation node_index' (seq 0 (List.length nodes)) -> (List.length src < List.length nodes)%nat -> Z.of_nat (List.length nodes) <= 2 ^ 32 ->
  read_sol file node_index' nodes = Undefined.
Proof.
  intros p h t metadata index src file index' nodes [Ht Hp Hm Hq Hmd] Hr P S P' L H32.
  destruct (written_header h t metadata Ht Hp Hm Hq Hmd) as (t' & Rt & E).
  unfold savesol in S. destruct (sol_lines p 0 index src None) as [body|] eqn:Eb; [|discriminate]. cbn [bind] in S. injection S as <-.
  pose proof (Permutation_length P) as L1. rewrite seq_length in L1. pose proof (Permutation_length P') as L2. rewrite seq_length in L2.
  assert (ND : NoDup index') by (apply (Permutation_NoDup (Permutation_sym P')), seq_NoDup).
  assert (Hin : forall j, In j index' -> (j < List.length nodes)%nat) by (intros j Hj; apply (Permutation_in _ P'), in_seq in Hj; lia).
  destruct (split_at (List.length src) index') as (front & j & more & -> & Lf); [lia|].
  destruct (read_nodes_prefix p src Hr index front 0 nodes [] body) as (new & N1 & _ & _ & pre & N4 & N5).
  { now left. } { lia. } { intros x Hx. apply Hin. apply in_or_app. now left. } { apply NoDup_front in ND. exact ND. } { lia. } { exact Eb. }
  rewrite E by exact (body_head p 0 index src body Eb).
  specialize (N5 (j :: more) []). rewrite !app_nil_r in N5. change ([] ++ body) with body in N5. rewrite N5. cbn [read_nodes].
  destruct (nth_error new j) as [o|]; [|reflexivity]. destruct N4 as [->| ->]; reflexivity.
Qed.

Definition two_nodes : list sol_node := [mkSol one64 zero64 zero64 zero64; mkSol zero64 one64 zero64 zero64].
Example C92_nonvacuous :
  written (plain_h [(txt "comment", txt "x")]) zero64 (md [(txt "comment", txt "x")] false) /\ Forall node_in_range two_nodes /\
  (let blank := mkSol zero64 zero64 zero64 zero64 in
   let file := file_of (savesol 7 (md [(txt "comment", txt "x")] false) [1; 0]%nat two_nodes None) in
   (exists t one, read_sol file [0]%nat [blank] = Restored (t, [mkSol zero64 one zero64 zero64]) /\ B2SF one = B2SF one64) /\
   read_sol file [0; 1; 2]%nat [blank; blank; blank] = Undefined /\
   read_sol (md [] false ++ sol_line 7 1 blank None) [0; 1]%nat [blank; blank] = ExitFailure /\
   read_sol (unlines [txt "## columns: idx"; []] ++ sol_line 7 0 blank None) [0]%nat [blank] = ExitFailure).
Proof.
  assert (R1 : in_range one64). { split; [reflexivity|]. unfold one64. rewrite (proj2 (b64_of_Z_correct 1 ltac:(lia))). rewrite Rabs_pos_eq by lra. change 1%R with (bpow radix10 0). apply bpow_le. lia. }
  assert (R0 : in_range zero64). { split; [reflexivity|]. cbn [B2R zero64]. rewrite Rabs_R0. apply bpow_ge_0. }
  split; [|split; [|split; [|split; [|split]]]].
  - split.
    + split; [reflexivity|now left].
    + split; [apply no_newline_txt; reflexivity|]. split; [discriminate|]. split; [apply no_newline_txt; reflexivity|]. split; [apply no_newline_txt; reflexivity|].
      intros k v [E|[]]. injection E as <- <-. apply no_newline_txt. reflexivity.
    + intros k v [E|[]]. injection E as <- <-. discriminate.
    + assert (Q : Forall (fun l => find_first time_tag l = None) (common_lines (plain_h [(txt "comment", txt "x")]))) by (repeat constructor).
      eapply Forall_impl; [|exact Q]. intros l El k K. congruence.
    + vm_compute. reflexivity.
  - constructor; [exact (node_range _ _ _ _ R1 R0 R0 R0)|constructor; [exact (node_range _ _ _ _ R0 R1 R0 R0)|constructor]].
  - eexists. eexists. split; vm_compute; reflexivity.
  - vm_compute. reflexivity.
  - vm_compute. reflexivity.
  - vm_compute. reflexivity.
Qed.

Print Assumptions C92_no_time_partial.
Print Assumptions C92_line_number_partial.
Print Assumptions C92_larger_mesh_refuted.
Print Assumptions C92_smaller_mesh_refuted.
