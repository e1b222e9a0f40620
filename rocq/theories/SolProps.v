(** * Saving and restoring a configuration: property C41 *)
From Coq Require Import String Ascii Reals ZArith Bool List Permutation Lia Lra.
From Flocq Require Import Core BinarySingleNaN Relative.
From Verif Require Import Arith ArithLaws TextModel TextProof TextProps SolModel SolProof.
Import ListNotations.
Open Scope Z_scope.

(** ** Specification
    [rnd10 q x] (SolProof) is x rounded to q significant decimal digits and [rnd64] (ArithLaws) the rounding to the
    nearest double; both are roundings of the Flocq library. [reread p x y] (SolProof): y is the double, of the sign of x,
    nearest to x rounded to p+1 digits. *)
Definition in_range (x : b64) : Prop := is_finite x = true /\ (Rabs (B2R x) <= bpow radix10 300)%R.
Definition node_in_range (n : sol_node) : Prop := in_range (s_x n) /\ in_range (s_y n) /\ in_range (s_z n) /\ in_range (s_phi n).
Definition node_reread (p : nat) (n n' : sol_node) : Prop :=
  reread p (s_x n) (s_x n') /\ reread p (s_y n) (s_y n') /\ reread p (s_z n) (s_z n') /\ reread p (s_phi n) (s_phi n').
(** zero, or neither too small nor too large *)
Definition time_in_range (t : b64) : Prop :=
  is_finite t = true /\ (B2R t = 0%R \/ (bpow radix10 (-300) <= Rabs (B2R t) <= bpow radix10 300)%R).
(** a line of the header which does not disturb the search of the time: it does not hold the tag, or a number follows it *)
Definition quiet (l : text) : Prop :=
  forall k, find_first time_tag l = Some k -> exists v, stod (skipn (k + List.length time_tag) l) = Some v.

(** ** Ranges *)
Lemma pow300 : (bpow radix10 300 <= bpow radix2 1023)%R.
Proof. rewrite <- !IZR_Zpower by lia. apply IZR_le. apply Z.leb_le. vm_compute. reflexivity. Qed.
Lemma pow_300 : (bpow radix2 (-1022) <= bpow radix10 (-300))%R.
Proof.
  change (-1022) with (- (1022)). change (-300) with (- (300)). rewrite !bpow_opp. apply Rinv_le; [apply bpow_gt_0|].
  rewrite <- !IZR_Zpower by lia. apply IZR_le. apply Z.leb_le. vm_compute. reflexivity.
Qed.

Lemma FLX_ok p : Valid_exp (FLX_exp (Z.of_nat p + 1)).
Proof. apply FLX_exp_valid. unfold Prec_gt_0. lia. Qed.

Lemma rnd10_abs q x : 0 < q -> Rabs (rnd10 q x) = rnd10 q (Rabs x).
Proof.
  intros Hq. assert (V : Valid_exp (FLX_exp q)) by (apply FLX_exp_valid; exact Hq).
  unfold Rabs at 2. destruct (Rcase_abs x) as [H|H].
  - rewrite rnd10_opp. apply Rabs_left1. rewrite <- (rnd10_0 q). apply round_le; [exact V|typeclasses eauto|lra].
  - apply Rabs_pos_eq. rewrite <- (rnd10_0 q). apply round_le; [exact V|typeclasses eauto|lra].
Qed.

Lemma rnd10_bpow q e : 0 < q -> rnd10 q (bpow radix10 e) = bpow radix10 e.
Proof.
  intros Hq. assert (V : Valid_exp (FLX_exp q)) by (apply FLX_exp_valid; exact Hq).
  apply round_generic; [typeclasses eauto|]. apply generic_format_bpow. unfold FLX_exp. lia.
Qed.

Lemma in_range_ok p x : in_range x -> ok64 (rnd10 (Z.of_nat p + 1) (B2R x)).
Proof.
  intros (_ & H). apply ok64_small. rewrite rnd10_abs by lia. eapply Rle_trans; [|apply pow300].
  rewrite <- (rnd10_bpow (Z.of_nat p + 1) 300) by lia. apply round_le; [apply FLX_ok|typeclasses eauto|exact H].
Qed.

(** ** The time *)
Lemma stod_print t : time_in_range t -> exists v, stod (" "%char :: print_sci 6 t) = Some v /\ reread 6 t v.
Proof.
  intros (F & Rg). destruct (print_finite 6 t F) as (n & k & E & Hn & V & Vn & V0).
  change (Z.of_nat 6 + 1) with 7 in *.
  assert (O : ok64 (rnd10 7 (B2R t))).
  { apply (in_range_ok 6). split; [exact F|]. destruct Rg as [->|Rg]; [rewrite Rabs_R0; apply bpow_ge_0|apply Rg]. }
  pose proof (exp_print k [] I) as X. rewrite app_nil_r in X. unfold print_exp in X. cbn [tl] in X.
  unfold stod. cbn [skip_ws]. change (is_space " "%char) with true. cbv iota.
  assert (Sk : skip_ws (print_sci 6 t) = print_sci 6 t) by (rewrite E; apply skip_print).
  rewrite Sk, E. unfold print_exp. rewrite scan_print by exact Hn. change (is_e "e"%char) with true. cbv iota.
  destruct (take_sign _) as (se, s1). destruct (span s1) as (ex, s2). destruct X as (_ & _ & X3).
  rewrite X3. replace (- Z.of_nat 6 + k) with (k - Z.of_nat 6) by lia.
  destruct (of_decimal_spec (Bsign t) n (k - Z.of_nat 6)) as (Fv & Vv & Gv); [lia|rewrite V; now apply ok64_abs|].
  rewrite V in Vv. set (v := of_decimal (Bsign t) n (k - Z.of_nat 6)) in *.
  assert (RR : reread 6 t v).
  { split; [exact Fv|]. split; [|exact Gv]. change (Z.of_nat 6 + 1) with 7. rewrite Vv. pose proof (rnd10_sign 6 t F) as G. change (Z.of_nat 6 + 1) with 7 in G.
    destruct (Bsign t); rewrite G at 2; [now rewrite rnd64_opp|reflexivity]. }
  exists v. split; [|exact RR]. rewrite Fv. cbn [andb].
  match goal with |- (if negb ?b then _ else _) = _ => assert (T : b = false); [|rewrite T; reflexivity] end.
  destruct Rg as [Z0|Rg].
  - destruct (V0 Z0) as (-> & ->). subst v. reflexivity.
  - assert (Lb : (bpow radix2 (-1022) <= Rabs (B2R v))%R).
    { assert (Q : (bpow radix10 (-300) <= Rabs (rnd10 7 (B2R t)))%R).
      { rewrite rnd10_abs by lia. rewrite <- (rnd10_bpow 7 (-300)) by lia. apply round_le; [apply (FLX_ok 6)|typeclasses eauto|apply Rg]. }
      assert (Rn : (bpow radix2 (-1022) <= rnd64 (Rabs (rnd10 7 (B2R t))))%R).
      { replace (bpow radix2 (-1022)) with (rnd64 (bpow radix2 (-1022))).
        - apply rnd64_mono. eapply Rle_trans; [apply pow_300|exact Q].
        - apply round_generic; [typeclasses eauto|]. apply generic_format_bpow. unfold fexp64, SpecFloat.fexp, SpecFloat.emin. lia. }
      rewrite Vv. destruct (Bsign t); [rewrite Rabs_Ropp|]; (eapply Rle_trans; [exact Rn|apply Rle_abs]). }
    destruct v as [s|s| |s m e Hb]; try discriminate.
    + exfalso. cbn in Lb. rewrite Rabs_R0 in Lb. pose proof (bpow_gt_0 radix2 (-1022)). lra.
    + destruct (Z.eqb_spec e (-1074)) as [->|]; [|reflexivity]. cbn [andb]. apply Z.ltb_ge. apply le_IZR.
      cbn [B2R] in Lb. rewrite <- F2R_Zabs, abs_cond_Zopp in Lb. unfold F2R in Lb. cbn [Fnum Fexp] in Lb.
      change (2 ^ 52) with (Zpower radix2 52). rewrite IZR_Zpower by lia.
      apply (Rmult_le_reg_r (bpow radix2 (-1074))); [apply bpow_gt_0|]. rewrite <- bpow_plus. exact Lb.
Qed.

(** ** The header *)
Lemma getline_app l r : no_newline l -> getline (l ++ NL :: r) = (l, r).
Proof.
  induction l as [|c l IH]; intros H; cbn [app getline]. { now rewrite Ascii.eqb_refl. }
  destruct (Ascii.eqb_spec c NL) as [->|_]. { exfalso. apply H. now left. }
  rewrite IH; [reflexivity|]. intros K. apply H. now right.
Qed.

(** the time found in one more line *)
Definition line_time (t : option b64) (l : text) : option b64 :=
  match find_first time_tag l with Some k => stod (skipn (k + List.length time_tag) l) | None => t end.

Lemma read_header_lines : forall ls fuel rest t, Forall comment_line ls -> Forall quiet ls ->
  read_header (List.length ls + fuel) (unlines ls ++ rest) t = read_header fuel rest (fold_left line_time ls t).
Proof.
  induction ls as [|l ls IH]; intros fuel rest t Hc Hq; [reflexivity|].
  inversion Hc as [|? ? ((l' & El) & Hn) Hc']; inversion Hq as [|? ? Ql Hq']; subst. set (l := "#"%char :: l') in *.
  cbn [List.length Nat.add fold_left]. unfold unlines. cbn [map List.concat]. rewrite <- !app_assoc. fold (unlines ls).
  cbn [read_header]. change (l ++ [NL] ++ unlines ls ++ rest) with ("#"%char :: l' ++ [NL] ++ unlines ls ++ rest).
  change (Ascii.eqb "#"%char "#"%char || Ascii.eqb "#"%char NL) with true. cbv iota.
  change ("#"%char :: l' ++ [NL] ++ unlines ls ++ rest) with (l ++ NL :: unlines ls ++ rest). rewrite getline_app by exact Hn.
  unfold line_time at 2. destruct (find_first time_tag l) as [k|] eqn:Ef.
  - destruct (Ql k Ef) as (v & Ev). rewrite Ev. now apply IH.
  - now apply IH.
Qed.

Lemma unlines_length ls : (List.length ls <= List.length (unlines ls))%nat.
Proof. induction ls as [|l ls IH]; [cbn; lia|]. unfold unlines in *. cbn [map List.concat List.length]. rewrite !app_length. cbn [List.length]. lia. Qed.

(** ** The lines of the nodes *)
Lemma stops_tab s : stops (TAB :: s).
Proof. reflexivity. Qed.
Lemma stops_nl s : stops (NL :: s).
Proof. reflexivity. Qed.

(** a tab or a newline before a number is skipped *)
Lemma read_skip c s : is_space c = true -> read_double (c :: s) = read_double s.
Proof. intros H. unfold read_double. cbn [skip_ws]. now rewrite H. Qed.
Lemma readu_skip c s : is_space c = true -> read_unsigned (c :: s) = read_unsigned s.
Proof. intros H. unfold read_unsigned. cbn [skip_ws]. now rewrite H. Qed.

Lemma upd_same {X} : forall (l : list X) i x, (i < List.length l)%nat -> nth_error (upd l i x) i = Some x.
Proof. induction l as [|y l IH]; intros [|i] x H; cbn in *; try lia; [reflexivity|]. apply IH. lia. Qed.
Lemma upd_other {X} : forall (l : list X) i j x, i <> j -> nth_error (upd l i x) j = nth_error l j.
Proof. induction l as [|y l IH]; intros [|i] [|j] x H; cbn; try reflexivity; try congruence. apply IH. congruence. Qed.
Lemma upd_length {X} : forall (l : list X) i x, List.length (upd l i x) = List.length l.
Proof. induction l as [|y l IH]; intros [|i] x; cbn; auto. Qed.

Lemma extract_u s v r : read_unsigned s = (v, Some r) -> extract read_unsigned (Some s) = (Some v, Some r).
Proof. intros H. cbn [extract]. destruct (skip_ws s) eqn:E; [|now rewrite H]. unfold read_unsigned in H. rewrite E in H. discriminate. Qed.
Lemma extract_d s v r : read_double s = (v, Some r) -> extract read_double (Some s) = (Some v, Some r).
Proof. intros H. cbn [extract]. destruct (skip_ws s) eqn:E; [|now rewrite H]. unfold read_double in H. rewrite E in H. discriminate. Qed.

Lemma read_nodes_ok p src : Forall node_in_range src -> forall idx i old pre body,
  (pre = [] \/ pre = [NL]) ->
  (forall j, In j idx -> (j < List.length src)%nat) -> List.length old = List.length src ->
  Z.of_nat (i + List.length idx) <= 2 ^ 32 ->
  sol_lines p i idx src None = Some body ->
  exists new, read_nodes i idx (Some (pre ++ body)) old = Restored new /\ List.length new = List.length src /\
    (forall j, ~ In j idx -> nth_error new j = nth_error old j) /\
    (forall j n, In j idx -> nth_error src j = Some n -> exists n', nth_error new j = Some n' /\ node_reread p n n').
Proof.
  intros Hr. induction idx as [|j idx IH]; intros i old pre body Hp Hj Hl Hi Hb.
  - injection Hb as <-. exists old. split; [reflexivity|]. split; [exact Hl|]. split; [auto|]. intros j n [].
  - cbn [sol_lines] in Hb. destruct (nth_error src j) as [n|] eqn:En; [|discriminate]. cbn [bind option_map] in Hb.
    destruct (sol_lines p (S i) idx src None) as [rest|] eqn:Er; [|discriminate]. cbn [bind] in Hb. injection Hb as <-.
    assert (Hjl : (j < List.length src)%nat) by (apply Hj; now left).
    cbn [read_nodes]. destruct (nth_error old j) as [o|] eqn:Eo. 2:{ apply nth_error_None in Eo. lia. }
    assert (Nr : node_in_range n). { rewrite Forall_forall in Hr. apply Hr. eapply nth_error_In; eauto. }
    destruct Nr as (Rx & Ry & Rz & Rp).
    unfold sol_line, print3. repeat (rewrite <- app_assoc; cbn [app]).
    assert (Ru : forall s, stops s -> read_unsigned (pre ++ print_nat (Z.of_nat i) ++ s) = (Z.of_nat i, Some s)).
    { intros s Hs. cbn [List.length] in Hi. destruct Hp as [->| ->]; cbn [app].
      - apply read_unsigned_print; [lia|exact Hs].
      - rewrite readu_skip by reflexivity. apply read_unsigned_print; [lia|exact Hs]. }
    rewrite (extract_u _ _ _ (Ru _ (stops_tab _))).
    assert (Rd : forall x s, in_range x -> stops s -> exists y, read_double (TAB :: print_sci p x ++ s) = (y, Some s) /\ reread p x y).
    { intros x s Hx Hs. rewrite read_skip by reflexivity. apply read_print; [apply Hx|now apply in_range_ok|exact Hs]. }
    destruct (Rd (s_x n) (TAB :: print_sci p (s_y n) ++ TAB :: print_sci p (s_z n) ++ TAB :: print_sci p (s_phi n) ++ NL :: rest) Rx (stops_tab _)) as (vx & X1 & X2).
    rewrite (extract_d _ _ _ X1).
    destruct (Rd (s_y n) (TAB :: print_sci p (s_z n) ++ TAB :: print_sci p (s_phi n) ++ NL :: rest) Ry (stops_tab _)) as (vy & Y1 & Y2).
    rewrite (extract_d _ _ _ Y1).
    destruct (Rd (s_z n) (TAB :: print_sci p (s_phi n) ++ NL :: rest) Rz (stops_tab _)) as (vz & Z1 & Z2).
    rewrite (extract_d _ _ _ Z1).
    destruct (Rd (s_phi n) (NL :: rest) Rp (stops_nl _)) as (vp & P1 & P2).
    rewrite (extract_d _ _ _ P1). rewrite Z.eqb_refl.
    destruct (IH (S i) (upd old j (mkSol vx vy vz vp)) [NL] rest) as (new & I1 & I2 & I3 & I4).
    { now right. } { intros j' H. apply Hj. now right. } { now rewrite upd_length. } { cbn [List.length] in Hi. lia. } { exact Er. }
    exists new. split; [exact I1|]. split; [exact I2|]. split.
    + intros j' H. rewrite I3 by (intros K; apply H; now right). apply upd_other. intros ->. apply H. now left.
    + intros j' n' H E'. destruct (in_dec Nat.eq_dec j' idx) as [H'|H']; [now apply I4|].
      destruct H as [<-|H]; [|contradiction]. assert (n' = n) by congruence. subst n'. exists (mkSol vx vy vz vp).
      split; [|repeat split; try apply X2; try apply Y2; try apply Z2; apply P2].
      rewrite I3 by exact H'. apply upd_same. lia.
Qed.

Lemma Forall2_nth {X Y} (P : X -> Y -> Prop) : forall l l', List.length l' = List.length l ->
  (forall j n, nth_error l j = Some n -> exists n', nth_error l' j = Some n' /\ P n n') -> Forall2 P l l'.
Proof.
  induction l as [|x l IH]; intros [|y l'] E H; try discriminate; [constructor|]. constructor.
  - destruct (H 0%nat x eq_refl) as (n' & E' & K). cbn in E'. congruence.
  - apply IH; [cbn in E; lia|]. intros j n Hn. apply (H (S j)). exact Hn.
Qed.

Lemma sol_lines_some p src : forall idx i, (forall j, In j idx -> (j < List.length src)%nat) -> exists body, sol_lines p i idx src None = Some body.
Proof.
  induction idx as [|j idx IH]; intros i H; [now exists []|]. cbn [sol_lines].
  destruct (nth_error src j) as [n|] eqn:En. 2:{ apply nth_error_None in En. assert (j < List.length src)%nat by (apply H; now left). lia. }
  cbn [bind option_map]. destruct (IH (S i)) as (b & ->). { intros; apply H; now right. } cbn [bind]. eauto.
Qed.

Lemma find_first_time s : find_first time_tag (time_tag ++ s) = Some 0%nat.
Proof.
  assert (P : prefixb time_tag (time_tag ++ s) = true) by (apply prefixb_spec; now exists s).
  destruct (time_tag ++ s) as [|c l]; cbn [find_first]; now rewrite P.
Qed.

(** the first line of a body does not look like a header line *)
Lemma body_head p i idx src body : sol_lines p i idx src None = Some body ->
  body = [] \/ exists c b, body = c :: b /\ Ascii.eqb c "#"%char = false /\ Ascii.eqb c NL = false.
Proof.
  destruct idx as [|j idx]; cbn [sol_lines]; intros H. { left. congruence. }
  destruct (nth_error src j) as [n|]; [|discriminate]. cbn [bind option_map] in H.
  destruct (sol_lines p (S i) idx src None) as [rest|]; [|discriminate]. cbn [bind] in H. injection H as <-. right.
  unfold sol_line, print_nat. destruct (digits_head (ndigits (Z.of_nat i)) (Z.of_nat i) (ndigits_pos _)) as (c & l & E & _ & _ & _ & _ & H1 & H2).
  rewrite E. cbn [app]. eauto 6.
Qed.

(** ** C41 *)
(** A file written by the program and read for the same mesh gives back, for every node, the magnetization and the potential
    rounded to p+1 significant digits, and the time rounded to 7 digits. *)
Theorem C41_restore_partial : forall p h t node_index src old metadata,
  Permutation node_index (seq 0 (List.length src)) -> List.length old = List.length src -> Z.of_nat (List.length src) <= 2 ^ 32 ->
  Forall node_in_range src -> time_in_range t ->
  plain_header h -> (forall k v, In (k, v) (h_meta h) -> v <> []) -> Forall quiet (common_lines h) ->
  sol_metadata h false t = Some metadata ->
  exists file, savesol p metadata node_index src None = Some file /\
  exists t' new, read_sol file node_index old = Restored (t', new) /\ reread 6 t t' /\ Forall2 (node_reread p) src new.
Proof.
  intros p h t idx src old metadata Hperm Hl Hn Hr Ht Hp Hm Hq Hmd.
  assert (Hj : forall j, In j idx -> (j < List.length src)%nat).
  { intros j Hj. apply (Permutation_in _ Hperm) in Hj. apply in_seq in Hj. lia. }
  destruct (sol_lines_some p src idx 0 Hj) as (body & Eb). unfold savesol. rewrite Eb. cbn [bind]. eexists. split; [reflexivity|].
  destruct (stod_print t Ht) as (t' & Et & Rt). exists t'.
  destruct (read_nodes_ok p src Hr idx 0 old [] body (or_introl eq_refl) Hj Hl) as (new & N1 & N2 & _ & N4); [|exact Eb|].
  { rewrite (Permutation_length Hperm), seq_length. cbn [Nat.add]. exact Hn. }
  exists new. split.
  - unfold sol_metadata in Hmd. rewrite common_unlines in Hmd by exact Hm. cbn [bind] in Hmd.
    apply (f_equal (fun o => match o with Some x => x | None => [] end)) in Hmd. cbv beta iota in Hmd.
    set (tl := time_tag ++ " "%char :: print_sci 6 t). 
    set (cl := txt "## columns:" ++ " "%char :: join_tab (map txt ["idx"; "mx"; "my"; "mz"; "phi"]%string)).
    assert (Emd : metadata = unlines (common_lines h ++ [tl; cl])).
    { rewrite <- Hmd, unlines_app. f_equal. }
    rewrite Emd. clear Emd Hmd.
    assert (Ptl : comment_line tl).
    { split; [eexists; reflexivity|]. unfold tl. apply no_newline_app; [apply no_newline_txt; reflexivity|]. intros [K|K]; [discriminate|].
      destruct Ht as (F & _). destruct (print_finite 6 t F) as (n & k & E & _). rewrite E in K.
      assert (Dg : forall q z, ~ In NL (digits q z)).
      { intros q z K'. pose proof (digits_Forall q z) as D. rewrite Forall_forall in D. apply D in K'. discriminate. }
      apply in_app_or in K as [K|K]; [destruct (Bsign t); [destruct K as [K|[]]; discriminate|destruct K]|].
      apply in_app_or in K as [K|K].
      - unfold print_mantissa in K. apply in_app_or in K as [K|[K|K]]; [now apply Dg in K|discriminate|now apply Dg in K].
      - unfold print_exp in K. destruct K as [K|[K|K]]; [discriminate|destruct (k <? 0); discriminate|now apply Dg in K]. }
    assert (Pcl : comment_line cl) by (split; [eexists; reflexivity|apply no_newline_txt; reflexivity]).
    assert (Qtl : quiet tl).
    { intros k K. unfold tl in K. rewrite find_first_time in K. injection K as <-. exists t'. exact Et. }
    assert (Qcl : quiet cl) by (intros k K; vm_compute in K; discriminate).
    set (ls := common_lines h ++ [tl; cl]).
    assert (Hc : Forall comment_line ls) by (apply Forall_app; split; [now apply common_comments|repeat constructor; assumption || apply Ptl || apply Pcl]).
    assert (Hq' : Forall quiet ls) by (apply Forall_app; split; [exact Hq|repeat constructor; assumption]).
    unfold read_sol.
    replace (S (List.length (unlines ls ++ body))) with (List.length ls + (S (List.length (unlines ls ++ body)) - List.length ls))%nat
      by (pose proof (unlines_length ls); rewrite app_length; lia).
    rewrite read_header_lines by assumption.
    assert (Tm : fold_left line_time ls None = Some t').
    { unfold ls. rewrite fold_left_app. cbn [fold_left]. unfold line_time at 1.
      replace (find_first time_tag cl) with (@None nat) by (vm_compute; reflexivity). unfold line_time at 1. unfold tl at 1. rewrite find_first_time. exact Et. }
    rewrite Tm. set (fuel := (S _ - _)%nat).
    assert (Hd : read_header fuel body (Some t') = Restored (Some t', body)).
    { destruct fuel; [reflexivity|]. destruct (body_head p 0 idx src body Eb) as [->|(c & b & -> & C1 & C2)]; [reflexivity|]. cbn [read_header]. now rewrite C1, C2. }
    rewrite Hd. change (Some body) with (Some ([] ++ body)). rewrite N1. reflexivity.
  - split; [exact Rt|]. apply Forall2_nth; [exact N2|]. intros j n E. apply N4; [|exact E].
    apply (Permutation_in _ (Permutation_sym Hperm)). apply in_seq. assert (j < List.length src)%nat by (apply nth_error_Some; congruence). lia.
Qed.

(** ** How far the restored values are from the saved ones *)
(** distinct neighbours of a floating-point format with [prec] digits at least are apart by a relative distance *)
Lemma gap beta fexp `{Valid_exp fexp} `{Monotone_exp fexp} prec : (forall e, e - prec <= fexp e)%Z -> forall x y, generic_format beta fexp x -> generic_format beta fexp y ->
  (0 < x)%R -> (x < y)%R -> (x * bpow beta (- prec) <= y - x)%R.
Proof.
  intros Hf x y Fx Fy Hx Hxy. pose proof (succ_le_lt beta fexp x y Fx Fy Hxy) as S1. rewrite succ_eq_pos in S1 by lra.
  rewrite ulp_neq_0 in S1 by lra. unfold cexp in S1. pose proof (Hf (mag beta x)) as L. apply (bpow_le beta) in L.
  assert (B : (x < bpow beta (mag beta x))%R) by (rewrite <- (Rabs_pos_eq x) at 1 by lra; apply bpow_mag_gt).
  unfold Z.sub in L. rewrite bpow_plus in L. assert (x * bpow beta (- prec) <= bpow beta (mag beta x) * bpow beta (- prec))%R by (apply Rmult_le_compat_r; [apply bpow_ge_0|lra]). lra.
Qed.

Lemma stays beta fexp `{Valid_exp fexp} `{Monotone_exp fexp} prec : (forall e, e - prec <= fexp e)%Z -> forall x d delta, generic_format beta fexp x ->
  (0 < x)%R -> (Rabs (d - x) <= delta * x)%R -> (2 * delta < bpow beta (- prec) * (1 - 2 * delta))%R -> (2 * delta < 1)%R -> round beta fexp ZnearestE d = x.
Proof.
  intros Hf x d delta Fx Hx Hd Hs H1. set (y := round beta fexp ZnearestE d).
  destruct (round_N_pt beta fexp (fun z => negb (Z.even z)) d) as (Fy & Hn). fold y in Fy, Hn. specialize (Hn x Fx).
  assert (Hn' : (Rabs (y - d) <= Rabs (d - x))%R) by (rewrite (Rabs_minus_sym d x); exact Hn).
  assert (Hy : (Rabs (y - x) <= 2 * delta * x)%R).
  { replace (y - x)%R with ((y - d) + (d - x))%R by ring. eapply Rle_trans; [apply Rabs_triang|]. lra. }
  apply Rabs_le_inv in Hy. assert (Pg : (0 < bpow beta (- prec))%R) by apply bpow_gt_0.
  assert (Py : (0 < y)%R) by nra.
  destruct (Rtotal_order y x) as [L|[E|L]]; [|exact E|].
  - pose proof (gap beta fexp prec Hf y x Fy Fx Py L) as G. assert (x * (1 - 2 * delta) <= y)%R by lra.
    assert (x * (1 - 2 * delta) * bpow beta (- prec) <= y * bpow beta (- prec))%R by (apply Rmult_le_compat_r; lra). nra.
  - pose proof (gap beta fexp prec Hf x y Fx Fy Hx L) as G. assert (0 <= delta)%R by (pose proof (Rabs_pos (d - x)); nra). nra.
Qed.

Lemma fexp64_gap e : e - 53 <= fexp64 e.
Proof. unfold fexp64, SpecFloat.fexp, SpecFloat.emin. lia. Qed.

Lemma rnd10_error q x : 0 < q -> (Rabs (rnd10 q x - x) <= /2 * bpow radix10 (- q + 1) * Rabs x)%R.
Proof. intros Hq. apply relative_error_N_FLX. exact Hq. Qed.

(** with 17 significant digits every double comes back as it was *)
Theorem C41_exact : forall p x y, (16 <= p)%nat -> is_finite x = true -> reread p x y -> y = x.
Proof.
  intros p x y Hp F (Fy & V & G). apply B2R_Bsign_inj; auto. rewrite V. clear V G Fy y.
  assert (Pos : forall r, (0 < r)%R -> generic_format radix2 fexp64 r -> rnd64 (rnd10 (Z.of_nat p + 1) r) = r).
  { intros r Hr Fr. unfold rnd64. apply (stays radix2 fexp64 53 fexp64_gap r _ (/ 2 * bpow radix10 (-16))%R Fr Hr).
    - eapply Rle_trans; [apply rnd10_error; lia|]. rewrite (Rabs_pos_eq r) by lra. apply Rmult_le_compat_r; [lra|].
      apply Rmult_le_compat_l; [lra|]. apply bpow_le. lia.
    - change (bpow radix10 (-16)) with (/ IZR 10000000000000000)%R. change (bpow radix2 (-(53))) with (/ IZR 9007199254740992)%R. lra.
    - change (bpow radix10 (-16)) with (/ IZR 10000000000000000)%R. lra. }
  destruct (Rtotal_order (B2R x) 0) as [L|[E|L]].
  - rewrite <- (Ropp_involutive (B2R x)) at 1. rewrite rnd10_opp, rnd64_opp, Pos; [ring|lra|]. apply generic_format_opp, generic_format_B2R.
  - rewrite E, rnd10_0, rnd64_0. reflexivity.
  - apply Pos; [exact L|apply generic_format_B2R].
Qed.

Lemma rnd64_error r : (bpow radix2 (-1022) <= Rabs r)%R -> (Rabs (rnd64 r - r) <= /2 * bpow radix2 (-52) * Rabs r)%R.
Proof.
  intros H. change (-52) with (-(53) + 1). unfold rnd64. apply (relative_error_N_FLT radix2 (-1074) 53); [reflexivity|]. exact H.
Qed.

Definition normal (x : b64) : Prop := B2R x = 0%R \/ (bpow radix10 (-300) <= Rabs (B2R x))%R.

Lemma rnd10_low q x : 0 < q -> (bpow radix10 (-300) <= Rabs x)%R -> (bpow radix10 (-300) <= Rabs (rnd10 q x))%R.
Proof.
  intros Hq H. rewrite rnd10_abs by exact Hq. rewrite <- (rnd10_bpow q (-300)) by exact Hq.
  assert (V : Valid_exp (FLX_exp q)) by (apply FLX_exp_valid; exact Hq). apply round_le; [exact V|typeclasses eauto|exact H].
Qed.

(** with the 8 digits of the program a restored value differs from the saved one by less than 5.1e-8 of it *)
Theorem C41_error : forall x y, normal x -> reread 7 x y -> (Rabs (B2R y - B2R x) <= 51 / 1000000000 * Rabs (B2R x))%R.
Proof.
  intros x y Hx (_ & V & _). change (Z.of_nat 7 + 1) with 8 in V. destruct Hx as [E|Hx].
  - rewrite V, E, rnd10_0, rnd64_0. rewrite Rminus_0_r, Rabs_R0. lra.
  - rewrite V. set (d := rnd10 8 (B2R x)). pose proof (rnd10_error 8 (B2R x) ltac:(lia)) as E1. fold d in E1.
    assert (Hd : (bpow radix10 (-300) <= Rabs d)%R) by (apply rnd10_low; [lia|exact Hx]).
    pose proof (rnd64_error d (Rle_trans _ _ _ pow_300 Hd)) as E2.
    change (bpow radix10 (- (8) + 1)) with (/ IZR 10000000)%R in E1. change (bpow radix2 (-52)) with (/ IZR 4503599627370496)%R in E2.
    assert (T : (Rabs d <= Rabs (B2R x) + Rabs (d - B2R x))%R).
    { replace d with (B2R x + (d - B2R x))%R at 1 by ring. apply Rabs_triang. }
    assert (U : (Rabs (rnd64 d - B2R x) <= Rabs (rnd64 d - d) + Rabs (d - B2R x))%R).
    { replace (rnd64 d - B2R x)%R with ((rnd64 d - d) + (d - B2R x))%R by ring. apply Rabs_triang. }
    pose proof (Rabs_pos (B2R x)). lra.
Qed.

(** the restored value prints as the saved one *)
Lemma rnd10_again p x y : (p <= 14)%nat -> is_finite x = true -> normal x -> reread p x y -> rnd10 (Z.of_nat p + 1) (B2R y) = rnd10 (Z.of_nat p + 1) (B2R x).
Proof.
  intros Hp F Hx (Fy & V & G). rewrite V. set (q := Z.of_nat p + 1). assert (Hq : 0 < q) by (unfold q; lia).
  assert (Vq : Valid_exp (FLX_exp q)) by (apply FLX_exp_valid; exact Hq).
  assert (Pos : forall d, (bpow radix10 (-300) <= d)%R -> generic_format radix10 (FLX_exp q) d -> rnd10 q (rnd64 d) = d).
  { intros d Hd Fd. assert (Hd0 : (0 < d)%R) by (eapply Rlt_le_trans; [apply bpow_gt_0|exact Hd]). unfold rnd10.
    apply (stays radix10 (FLX_exp q) q) with (delta := (/ 2 * bpow radix2 (-52))%R); [intros e; unfold FLX_exp; lia|exact Fd|exact Hd0| | |].
    - rewrite <- (Rabs_pos_eq d) at 3 by lra. apply rnd64_error. rewrite Rabs_pos_eq by lra. eapply Rle_trans; [apply pow_300|exact Hd].
    - assert (L : (bpow radix10 (-15) <= bpow radix10 (- q))%R) by (apply bpow_le; unfold q; lia).
      change (bpow radix10 (-15)) with (/ IZR 1000000000000000)%R in L. change (bpow radix2 (-52)) with (/ IZR 4503599627370496)%R. lra.
    - change (bpow radix2 (-52)) with (/ IZR 4503599627370496)%R. lra. }
  destruct Hx as [E|Hx]. { rewrite E, rnd10_0, rnd64_0, rnd10_0. reflexivity. }
  pose proof (rnd10_low q (B2R x) Hq Hx) as Hd. set (d := rnd10 q (B2R x)) in *.
  assert (Fd : generic_format radix10 (FLX_exp q) d) by (apply generic_format_round; [exact Vq|typeclasses eauto]).
  destruct (Rcase_abs d) as [L|L].
  - rewrite Rabs_left in Hd by exact L. rewrite <- (Ropp_involutive d) at 1. rewrite rnd64_opp, rnd10_opp, Pos; [ring|exact Hd|now apply generic_format_opp].
  - rewrite Rabs_pos_eq in Hd by lra. now apply Pos.
Qed.

Lemma repr_unique p n k n' k' : 0 <= p -> pow10 p <= n < pow10 (p + 1) -> pow10 p <= n' < pow10 (p + 1) ->
  (IZR n * bpow radix10 (k - p) = IZR n' * bpow radix10 (k' - p))%R -> n = n' /\ k = k'.
Proof.
  intros Hp. assert (G : forall n k, pow10 p <= n < pow10 (p + 1) -> mag radix10 (IZR n * bpow radix10 (k - p)) = (k + 1)%Z :> Z).
  { intros m l (M1 & M2). apply mag_unique_pos. apply IZR_le in M1. apply IZR_lt in M2. rewrite pow10_bpow in M1, M2 by lia.
    pose proof (bpow_gt_0 radix10 (l - p)) as P. split.
    - replace (l + 1 - 1) with (p + (l - p)) by lia. rewrite bpow_plus. apply Rmult_le_compat_r; lra.
    - replace (l + 1) with ((p + 1) + (l - p)) by lia. rewrite bpow_plus. apply Rmult_lt_compat_r; lra. }
  intros H H' E. pose proof (G n k H) as M. rewrite E, (G n' k' H') in M. assert (Ek : k = k') by lia. subst k'. split; [|reflexivity].
  apply eq_IZR. apply Rmult_eq_reg_r in E; [exact E|]. pose proof (bpow_gt_0 radix10 (k - p)). lra.
Qed.

Lemma print_again p x y : (p <= 14)%nat -> is_finite x = true -> normal x -> reread p x y -> print_sci p y = print_sci p x.
Proof.
  intros Hp F Hx R. pose proof (rnd10_again p x y Hp F Hx R) as E. destruct R as (Fy & V & G).
  destruct (print_finite p x F) as (n & k & P1 & N & P2 & P3 & P4). destruct (print_finite p y Fy) as (n' & k' & P1' & N' & P2' & P3' & P4').
  rewrite P1, P1', G. assert (EE : n' = n /\ k' = k); [|destruct EE as (-> & ->); reflexivity].
  destruct Hx as [E0|Hx].
  - rewrite E0, rnd10_0, rnd64_0 in V. destruct (P4 E0) as (-> & ->). destruct (P4' V) as (-> & ->). split; reflexivity.
  - assert (Nx : B2R x <> 0%R). { intros K. rewrite K, Rabs_R0 in Hx. pose proof (bpow_gt_0 radix10 (-300)). lra. }
    assert (Ny : B2R y <> 0%R).
    { intros K. rewrite K, rnd10_0 in E. pose proof (rnd10_low (Z.of_nat p + 1) (B2R x) ltac:(lia) Hx) as L. rewrite <- E, Rabs_R0 in L. pose proof (bpow_gt_0 radix10 (-300)). lra. }
    specialize (P3 Nx). specialize (P3' Ny). rewrite E in P2'. rewrite <- P2 in P2'.
    apply (repr_unique (Z.of_nat p)) in P2'; [exact P2'|lia|lia|lia].
Qed.

Lemma lines_again p : (p <= 14)%nat -> forall idx i src new, Forall2 (node_reread p) src new ->
  Forall (fun n => node_in_range n /\ normal (s_x n) /\ normal (s_y n) /\ normal (s_z n) /\ normal (s_phi n)) src ->
  sol_lines p i idx new None = sol_lines p i idx src None.
Proof.
  intros Hp. induction idx as [|j idx IH]; intros i src new H2 Hs; [reflexivity|]. cbn [sol_lines].
  rewrite (IH (S i) src new H2 Hs).
  assert (Q : forall j, match nth_error src j, nth_error new j with Some n, Some n' => forall i, sol_line p i n' None = sol_line p i n None | None, None => True | _, _ => False end).
  { clear IH idx j i. induction H2 as [|n n' src new Hn H2 IH]; intros j. { destruct j; exact I. }
    inversion Hs as [|? ? ((Rx & Ry & Rz & Rp) & Nx & Ny & Nz & Np) Hs']; subst. destruct j as [|j]; [|exact (IH Hs' j)].
    cbn [nth_error]. intros i. destruct Hn as (Hx & Hy & Hz & Hph). unfold sol_line, print3.
    rewrite (print_again p _ _ Hp (proj1 Rx) Nx Hx), (print_again p _ _ Hp (proj1 Ry) Ny Hy), (print_again p _ _ Hp (proj1 Rz) Nz Hz), (print_again p _ _ Hp (proj1 Rp) Np Hph). reflexivity. }
  specialize (Q j). destruct (nth_error src j) as [n|], (nth_error new j) as [n'|]; try contradiction; [|reflexivity].
  cbn [bind option_map]. now rewrite (Q i).
Qed.

(** saving the restored configuration writes the same file again, whatever the number of times *)
Theorem C41_same_file : forall h t t' node_index src new,
  Forall (fun n => node_in_range n /\ normal (s_x n) /\ normal (s_y n) /\ normal (s_z n) /\ normal (s_phi n)) src -> time_in_range t ->
  reread 6 t t' -> Forall2 (node_reread 7) src new ->
  bind (sol_metadata h false t') (fun m => savesol 7 m node_index new None) = bind (sol_metadata h false t) (fun m => savesol 7 m node_index src None).
Proof.
  intros h t t' idx src new Hs Ht Rt H2.
  assert (E : sol_metadata h false t' = sol_metadata h false t).
  { unfold sol_metadata. rewrite (print_again 6 t t'); [reflexivity|lia|apply Ht| |exact Rt]. destruct Ht as (_ & [Z0|(L & _)]); [now left|now right]. }
  rewrite E. destruct (sol_metadata h false t) as [m|]; [|reflexivity]. cbn [bind]. unfold savesol. rewrite (lines_again 7 ltac:(lia) idx 0 src new H2 Hs). reflexivity.
Qed.

(** ** What breaks it *)
Definition one64 : b64 := b64_of_Z 1.
Definition zero64 : b64 := B754_zero false.
Definition plain_h (meta : list (text * text)) : header_info := mkHeader (txt "1") None (txt "now") (txt "f.yml") meta.
Lemma node_range a b c d : in_range a -> in_range b -> in_range c -> in_range d -> node_in_range (mkSol a b c d).
Proof. intros H1 H2 H3 H4. split; [exact H1|]. split; [exact H2|]. split; [exact H3|exact H4]. Qed.
Definition md (meta : list (text * text)) (spin : bool) : text :=
  match sol_metadata (plain_h meta) spin zero64 with Some s => s | None => [] end.
Definition file_of (o : option text) : text := match o with Some s => s | None => [] end.

(** a user metadata named "time" which is not a number is taken for the time: the file cannot be read *)
Theorem C41_metadata_refuted :
  savesol 7 (md [(txt "time", txt "noon")] false) [0%nat] [mkSol one64 zero64 zero64 zero64] None <> None /\
  read_sol (file_of (savesol 7 (md [(txt "time", txt "noon")] false) [0%nat] [mkSol one64 zero64 zero64 zero64] None)) [0%nat] [mkSol zero64 zero64 zero64 zero64] = Throws.
Proof. split; [vm_compute; discriminate|vm_compute; reflexivity]. Qed.

(** the magnetization of a node without magnetization is NaN: it is printed as "nan", which the stream does not read *)
Theorem C41_nan_refuted :
  read_sol (file_of (savesol 7 (md [] false) [0%nat] [mkSol B754_nan B754_nan B754_nan zero64] None)) [0%nat] [mkSol zero64 zero64 zero64 zero64] = Undefined.
Proof. vm_compute. reflexivity. Qed.

(** with the spin accumulation the columns are shifted from the second node on: the file is refused, or misread without a
    word *)
Theorem C41_spin_refuted :
  (exists nodes spin, read_sol (file_of (savesol 7 (md [] true) [0; 1]%nat nodes (Some spin))) [0; 1]%nat nodes = ExitFailure) /\
  (exists nodes spin t new, read_sol (file_of (savesol 7 (md [] true) [0; 1]%nat nodes (Some spin))) [0; 1]%nat nodes = Restored (t, new)
      /\ Forall node_in_range nodes /\ nth_error (map s_x nodes) 1 = Some one64 /\ nth_error (map s_x new) 1 = Some zero64).
Proof.
  split.
  - exists [mkSol one64 zero64 zero64 zero64; mkSol one64 zero64 zero64 zero64], [(zero64, zero64, zero64); (zero64, zero64, zero64)]. vm_compute. reflexivity.
  - exists [mkSol one64 zero64 zero64 zero64; mkSol one64 zero64 zero64 zero64], [(one64, zero64, zero64); (zero64, zero64, zero64)].
    eexists. eexists. split; [vm_compute; reflexivity|]. split; [|split; [reflexivity|vm_compute; reflexivity]].
    assert (R1 : in_range one64). { split; [reflexivity|]. unfold one64. rewrite (proj2 (b64_of_Z_correct 1 ltac:(lia))). rewrite Rabs_pos_eq by lra. change 1%R with (bpow radix10 0). apply bpow_le. lia. }
    assert (R0 : in_range zero64). { split; [reflexivity|]. cbn [B2R zero64]. rewrite Rabs_R0. apply bpow_ge_0. }
    constructor; [exact (node_range _ _ _ _ R1 R0 R0 R0)|]. constructor; [exact (node_range _ _ _ _ R1 R0 R0 R0)|constructor].
Qed.

Example C41_nonvacuous : let third := Bdiv mode_NE (b64_of_Z 1) (b64_of_Z 3) in
  let src := [mkSol one64 zero64 third third; mkSol third one64 zero64 (Bopp third); mkSol zero64 zero64 one64 zero64] in
  let file := file_of (savesol 7 (md [(txt "comment", txt "two" ++ NL :: txt "lines")] false) [2; 0; 1]%nat src None) in
  exists t new, read_sol file [2; 0; 1]%nat [mkSol zero64 zero64 zero64 zero64; mkSol zero64 zero64 zero64 zero64; mkSol zero64 zero64 zero64 zero64] = Restored (t, new)
    /\ Forall2 (node_reread 7) src new.
Proof.
  intros third src file.
  assert (R1 : in_range one64). { split; [reflexivity|]. unfold one64. rewrite (proj2 (b64_of_Z_correct 1 ltac:(lia))). rewrite Rabs_pos_eq by lra. change 1%R with (bpow radix10 0). apply bpow_le. lia. }
  assert (R0 : in_range zero64). { split; [reflexivity|]. cbn [B2R zero64]. rewrite Rabs_R0. apply bpow_ge_0. }
  assert (R3 : in_range third).
  { destruct (b64_of_Z_correct 1 ltac:(lia)) as (F1 & V1). destruct (b64_of_Z_correct 3 ltac:(lia)) as (F3 & V3).
    assert (O : ok64 (B2R (b64_of_Z 1) / B2R (b64_of_Z 3))).
    { rewrite V1, V3. apply ok64_small. rewrite Rabs_pos_eq by lra. apply Rle_trans with (bpow radix2 0); [cbn; lra|]. apply bpow_le. lia. }
    destruct (Bdiv64 _ _ F1 F3 ltac:(rewrite V3; lra) O) as (F & V). split; [exact F|]. unfold third. rewrite V, V1, V3.
    rewrite rnd64_abs. apply Rle_trans with 1%R.
    - apply Rle_trans with (rnd64 1); [apply rnd64_mono; rewrite Rabs_pos_eq by lra; lra|]. rewrite <- V1, rnd64_val, V1. lra.
    - change 1%R with (bpow radix10 0). apply bpow_le. lia. }
  assert (R3' : in_range (Bopp third)) by (destruct R3 as (F & V); split; [now rewrite is_finite_Bopp|rewrite B2R_Bopp, Rabs_Ropp; exact V]).
  assert (Hs : Forall node_in_range src) by (constructor; [exact (node_range _ _ _ _ R1 R0 R3 R3)|constructor; [exact (node_range _ _ _ _ R3 R1 R0 R3')|constructor; [exact (node_range _ _ _ _ R0 R0 R1 R0)|constructor]]]).
  destruct (C41_restore_partial 7 (plain_h [(txt "comment", txt "two" ++ NL :: txt "lines")]) zero64 [2; 0; 1]%nat src
     [mkSol zero64 zero64 zero64 zero64; mkSol zero64 zero64 zero64 zero64; mkSol zero64 zero64 zero64 zero64] (md [(txt "comment", txt "two" ++ NL :: txt "lines")] false))
    as (f & F1 & t & new & F2 & _ & F3).
  - cbn [seq List.length src]. apply (Permutation_app_comm [2%nat] [0; 1]%nat).
  - reflexivity.
  - cbn. lia.
  - exact Hs.
  - split; [reflexivity|now left].
  - split; [apply no_newline_txt; reflexivity|]. split; [discriminate|]. split; [apply no_newline_txt; reflexivity|]. split; [apply no_newline_txt; reflexivity|].
    intros k v [E|[]]. injection E as <- <-. apply no_newline_txt. reflexivity.
  - intros k v [E|[]]. injection E as <- <-. discriminate.
  - assert (Q : Forall (fun l => find_first time_tag l = None) (common_lines (plain_h [(txt "comment", txt "two" ++ NL :: txt "lines")]))) by (repeat constructor).
    eapply Forall_impl; [|exact Q]. intros l El k K. congruence.
  - vm_compute. reflexivity.
  - assert (Ef : file = f) by (unfold file; rewrite F1; reflexivity). exists t, new. rewrite Ef. split; [exact F2|]. exact F3.
Qed.
(** the rounding is not the identity *)
Example C41_rounding : exists x y, read_double (print_sci 7 x) = (y, Some []) /\ y <> x /\ read_double (print_sci 16 x) = (x, Some []).
Proof.
  exists (@B754_finite 53 1024 false 6004799503160661 (-54) eq_refl). eexists. split; [vm_compute; reflexivity|]. split; [|vm_compute; reflexivity].
  intros E. apply (f_equal B2SF) in E. vm_compute in E. discriminate.
Qed.

Print Assumptions C41_restore_partial.
Print Assumptions C41_exact.
Print Assumptions C41_error.
Print Assumptions C41_same_file.
