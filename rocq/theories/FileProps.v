(** * Starting a run, the file of the potential, the names of the files: properties C104, C105, C106 *)
From Coq Require Import String Ascii Reals ZArith Bool List Permutation Lia Lra.
From Flocq Require Import Core BinarySingleNaN.
From Verif Require Import Arith ArithLaws TextModel TextProof TextProps SolModel SolProof SolProps TimeModel TimeSpec TimeProof TimeMain TimeTerm TimeProps RowProps FileModel.
Import ListNotations.
Open Scope Z_scope.

(** ** Names *)
Lemma print_nat_inj k k' : 0 <= k -> 0 <= k' -> print_nat k = print_nat k' -> k = k'.
Proof.
  intros H H' E. apply (f_equal digits_val) in E. unfold print_nat in E. rewrite !digits_val_digits in E by assumption.
  rewrite !Z.mod_small in E by (split; [assumption|now apply ndigits_bound]). exact E.
Qed.

Lemma digits_split : forall a b x y l m, Forall (fun c => is_digit c = true) a -> Forall (fun c => is_digit c = true) b ->
  is_digit x = false -> is_digit y = false -> a ++ x :: l = b ++ y :: m -> a = b /\ x :: l = y :: m.
Proof.
  induction a as [|c a IH]; intros [|d b] x y l m Ha Hb Hx Hy E; cbn [app] in E.
  - auto.
  - inversion Hb; subst. injection E as -> _. congruence.
  - inversion Ha; subst. injection E as -> _. congruence.
  - inversion Ha; inversion Hb; subst. injection E as -> E. destruct (IH b x y l m) as (-> & E'); auto.
Qed.

Lemma rev_inj {X} (a b : list X) : rev a = rev b -> a = b.
Proof. intros E. rewrite <- (rev_involutive a), E. apply rev_involutive. Qed.

(** reading a name from its end *)
Lemma rev_snapshot b k : rev (b ++ txt "_iter" ++ print_nat k ++ txt ".sol") = rev (txt ".sol") ++ rev (print_nat k) ++ rev (txt "_iter") ++ rev b.
Proof. now rewrite !rev_app_distr, <- !app_assoc. Qed.
Lemma rev_digits k : Forall (fun c => is_digit c = true) (rev (print_nat k)).
Proof. apply Forall_rev, digits_Forall. Qed.
Lemma rev_digits_cons k : exists c l, rev (print_nat k) = c :: l /\ is_digit c = true.
Proof.
  pose proof (rev_digits k) as H. destruct (rev (print_nat k)) as [|c l] eqn:E.
  - exfalso. apply (f_equal (@rev ascii)) in E. rewrite rev_involutive in E. unfold print_nat in E.
    destruct (digits_head (ndigits k) k (ndigits_pos k)) as (c & l & E' & _). rewrite E' in E. discriminate.
  - inversion H; subst. eauto.
Qed.

Lemma snapshot_inj b b' k k' : b ++ txt "_iter" ++ print_nat k ++ txt ".sol" = b' ++ txt "_iter" ++ print_nat k' ++ txt ".sol" ->
  b = b' /\ print_nat k = print_nat k'.
Proof.
  intros E. apply (f_equal (@rev ascii)) in E. rewrite !rev_snapshot in E. apply app_inv_head in E.
  change (rev (txt "_iter")) with ("r"%char :: rev (txt "_ite")) in E. cbn [app] in E.
  apply digits_split in E as (E1 & E2); [|apply rev_digits|apply rev_digits|reflexivity|reflexivity].
  injection E2 as E2. split; [|now apply rev_inj]. apply rev_inj. exact E2.
Qed.
Lemma snapshot_end b k s c : is_digit c = false -> b ++ txt "_iter" ++ print_nat k ++ txt ".sol" <> s ++ c :: txt ".sol".
Proof.
  intros Hc E. apply (f_equal (@rev ascii)) in E. rewrite rev_snapshot in E. rewrite rev_app_distr in E.
  change (rev (c :: txt ".sol")) with (rev (txt ".sol") ++ [c]) in E. rewrite <- app_assoc in E. apply app_inv_head in E.
  destruct (rev_digits_cons k) as (d & l & Ed & Hd). rewrite Ed in E. cbn [app] in E. injection E as -> _. congruence.
Qed.
Lemma evol_end b s : b ++ txt ".evol" <> s ++ txt ".sol".
Proof.
  intros E. apply (f_equal (@rev ascii)) in E. rewrite !rev_app_distr in E. discriminate.
Qed.
Lemma sol_end b k : exists s, b ++ txt "_iter" ++ print_nat k ++ txt ".sol" = s ++ txt ".sol".
Proof. exists (b ++ txt "_iter" ++ print_nat k). now rewrite <- !app_assoc. Qed.
Lemma end_inj (s s' : text) c c' e : s ++ c :: e = s' ++ c' :: e -> c = c' /\ s = s'.
Proof.
  intros E. change (c :: e) with ([c] ++ e) in E. change (c' :: e) with ([c'] ++ e) in E. rewrite !app_assoc in E.
  apply app_inv_tail in E. apply app_inj_tail in E as (-> & ->). auto.
Qed.

(** the four kinds of names *)
Inductive kind := KEvol | KSnap (k : Z) | KExit | KPot.
Definition name (dir sim : text) (x : kind) : text :=
  match x with KEvol => evol_name dir sim | KSnap k => snapshot_name dir sim k | KExit => at_exit_name dir sim | KPot => potential_name sim true end.
Definition kind_ok (x : kind) : Prop := match x with KSnap k => 0 <= k | _ => True end.

Lemma name_inj dir sim dir' sim' x y : kind_ok x -> kind_ok y -> name dir sim x = name dir' sim' y ->
  x = y /\ match x with KPot => sim = sim' | _ => base_name dir sim = base_name dir' sim' end.
Proof.
  intros Hx Hy E.
  assert (X : at_exit_name dir sim = (base_name dir sim ++ txt "_at_exi") ++ "t"%char :: txt ".sol") by (unfold at_exit_name; now rewrite <- app_assoc).
  assert (X' : at_exit_name dir' sim' = (base_name dir' sim' ++ txt "_at_exi") ++ "t"%char :: txt ".sol") by (unfold at_exit_name; now rewrite <- app_assoc).
  assert (P : potential_name sim true = (sim ++ txt "_") ++ "V"%char :: txt ".sol") by (unfold potential_name; now rewrite <- app_assoc).
  assert (P' : potential_name sim' true = (sim' ++ txt "_") ++ "V"%char :: txt ".sol") by (unfold potential_name; now rewrite <- app_assoc).
  assert (SP : forall s c, s ++ c :: txt ".sol" = (s ++ [c]) ++ txt ".sol") by (intros; now rewrite <- app_assoc).
  destruct x, y; cbn [name kind_ok] in *; rewrite ?X, ?X', ?P, ?P' in E; unfold evol_name, snapshot_name in E.
  - apply app_inv_tail in E. auto.
  - destruct (sol_end (base_name dir' sim') k) as (s & Es). rewrite Es in E. now apply evol_end in E.
  - rewrite SP in E. now apply evol_end in E.
  - rewrite SP in E. now apply evol_end in E.
  - destruct (sol_end (base_name dir sim) k) as (s & Es). rewrite Es in E. symmetry in E. now apply evol_end in E.
  - apply snapshot_inj in E as (E & K). apply print_nat_inj in K; auto. subst. auto.
  - now apply snapshot_end in E.
  - now apply snapshot_end in E.
  - rewrite SP in E. symmetry in E. now apply evol_end in E.
  - symmetry in E. now apply snapshot_end in E.
  - apply end_inj in E as (_ & E). apply app_inv_tail in E. auto.
  - apply end_inj in E as (E & _). discriminate.
  - rewrite SP in E. symmetry in E. now apply evol_end in E.
  - symmetry in E. now apply snapshot_end in E.
  - apply end_inj in E as (E & _). discriminate.
  - apply end_inj in E as (_ & E). apply app_inv_tail in E. auto.
Qed.

(** *** The snapshots of a run *)
Section Run.
Context {A : arith} {C : Type} (p : params A) (o : oracles A C) (dt0 : num A).

Definition ev_kind (e : event A C) : list kind :=
  match e with EvSnapshot k _ _ => [KSnap k] | EvAtExit _ (Some _) => [KExit] | _ => [] end.

Lemma file_of_event_kind dir sim (l : list (event A C)) : flat_map (file_of_event dir sim) l = map (name dir sim) (flat_map ev_kind l).
Proof. induction l as [|e l IH]; [reflexivity|]. cbn [flat_map]. rewrite map_app, IH. f_equal. destruct e; try reflexivity. destruct saved; reflexivity. Qed.

Definition snaps_below (k : Z) (l : list (event A C)) : Prop :=
  NoDup (flat_map ev_kind l) /\ Forall (fun x => match x with KSnap j => 0 <= j < k | _ => False end) (flat_map ev_kind l).

Lemma snaps_weaken k l : snaps_below k l -> snaps_below (k + 1) l.
Proof. intros (H1 & H2). split; [exact H1|]. eapply Forall_impl; [|exact H2]. intros []; try tauto. lia. Qed.

Lemma run_kinds fuel t0 v0 c0 n0 : NoDup (flat_map ev_kind (events (time_integration fuel p o t0 dt0 v0 c0 n0))) /\
  Forall (fun x => kind_ok x /\ x <> KEvol /\ x <> KPot) (flat_map ev_kind (events (time_integration fuel p o t0 dt0 v0 c0 n0))).
Proof.
  unfold events. destruct (final (time_integration fuel p o t0 dt0 v0 c0 n0)) as [s|] eqn:E; [|split; constructor].
  assert (R : forall l : list (event A C), Permutation (flat_map ev_kind (rev l)) (flat_map ev_kind l)).
  { intros l. apply Permutation_flat_map, Permutation_sym, Permutation_rev. }
  assert (H : NoDup (flat_map ev_kind (log s)) /\ Forall (fun x => kind_ok x /\ x <> KEvol /\ x <> KPot) (flat_map ev_kind (log s))).
  2:{ destruct H as (H1 & H2). split; [exact (Permutation_NoDup (Permutation_sym (R _)) H1)|exact (Permutation_Forall (Permutation_sym (R _)) H2)]. }
  destruct (run_tail p o dt0 (fun k s => 0 <= k /\ snaps_below k (log s)) fuel t0 v0 c0 n0 s E) as (N & k & s1 & _ & _ & _ & (K0 & (K1 & K2)) & T & _).
  - split; [lia|]. split; constructor.
  - intros N _ k s2 s' Hk _ (K0 & K) _ Ha. split; [exact K0|]. inversion Ha; subst;
      cbn [solver_failed too_large log_accepted recentered accept compute_all solver_done add_event log]; rewrite propose_log; exact K.
  - intros N _ k s2 Hk _ (K0 & K) _. split; [lia|]. unfold saver_events.
    destruct (snapshot_due (save_period p) k); cbn [write_row add_event log]; [|exact (snaps_weaken k _ K)].
    destruct K as (K1 & K2). split.
    + cbn [flat_map ev_kind app]. constructor; [|exact K1]. intros Hin. rewrite Forall_forall in K2. apply K2 in Hin. lia.
    + cbn [flat_map ev_kind app]. constructor; [lia|]. apply (snaps_weaken k). split; assumption.
  - assert (K2' : Forall (fun x => kind_ok x /\ x <> KEvol /\ x <> KPot) (flat_map ev_kind (log s1))).
    { eapply Forall_impl; [|exact K2]. intros []; try tauto. intros H. split; [cbn; lia|]. split; discriminate. }
    apply tail_state_events in T. destruct T as [|Hl Hs|Hl Hs Hd]; [auto| |auto].
    cbn [flat_map ev_kind]. unfold saved_config. destruct (0 <? save_period p); [|auto]. cbn [app]. split.
    + constructor; [|exact K1]. intros Hin. rewrite Forall_forall in K2. exact (K2 _ Hin).
    + constructor; [|exact K2']. split; [exact I|]. split; discriminate.
Qed.
End Run.

Lemma NoDup_map_inj {X Y} (f : X -> Y) (P : X -> Prop) : (forall x y, P x -> P y -> f x = f y -> x = y) -> forall l, Forall P l -> NoDup l -> NoDup (map f l).
Proof.
  intros Hf l HP HN. induction HN as [|x l Hx HN IH]; [constructor|]. inversion HP; subst. cbn [map]. constructor; [|now apply IH].
  intros Hin. apply in_map_iff in Hin as (y & E & Hy). apply Hx. replace x with y; [exact Hy|]. rewrite Forall_forall in H2. apply Hf; auto.
Qed.

Definition run_kinds_all {A C} (spin_acc V_file : bool) (l : list (event A C)) : list kind :=
  (if spin_acc && V_file then [KPot] else []) ++ KEvol :: flat_map ev_kind l.
Lemma files_kinds {A C} dir sim sa vf (l : list (event A C)) : files_of_run dir sim sa vf l = map (name dir sim) (run_kinds_all sa vf l).
Proof.
  unfold files_of_run, run_kinds_all. rewrite map_app. cbn [map]. rewrite file_of_event_kind. f_equal.
  destruct sa, vf; reflexivity.
Qed.
Lemma all_kinds_ok {A C} (o : oracles A C) fuel p t0 dt0 v0 c0 n0 sa vf :
  let l := run_kinds_all sa vf (events (time_integration fuel p o t0 dt0 v0 c0 n0)) in NoDup l /\ Forall kind_ok l.
Proof.
  cbv zeta. destruct (run_kinds p o dt0 fuel t0 v0 c0 n0) as (N & F). unfold run_kinds_all.
  set (l := flat_map ev_kind _) in *.
  assert (N1 : NoDup (KEvol :: l)). { constructor; [|exact N]. intros K. rewrite Forall_forall in F. destruct (F _ K) as (_ & K' & _). congruence. }
  assert (F1 : Forall kind_ok (KEvol :: l)). { constructor; [exact I|]. eapply Forall_impl; [|exact F]. intros a (K & _). exact K. }
  destruct (sa && vf); cbn [app]; split; auto.
  - constructor; [|exact N1]. intros [K|K]; [discriminate|]. rewrite Forall_forall in F. destruct (F _ K) as (_ & _ & K'). congruence.
  - constructor; [exact I|exact F1].
Qed.

(** ** C106 *)
(** Whatever happens in a run, it opens no file twice, and all its files but that of the potential are in the output
    directory and start with the name of the simulation. Missing: the file of the potential, see below. *)
Theorem C106_names_partial : forall A C (o : oracles A C) fuel p t0 dt0 v0 c0 c1 dir sim spin_acc V_file,
  let l := files_of_run dir sim spin_acc V_file (events (time_integration fuel p o t0 dt0 v0 c0 c1)) in
  NoDup l /\ In (dir ++ txt "/" ++ sim ++ txt ".evol") l /\
  forall f, In f l -> (exists s, f = dir ++ txt "/" ++ sim ++ s) \/ (spin_acc = true /\ V_file = true /\ f = sim ++ txt "_V.sol").
Proof.
  intros A C o fuel p t0 dt0 v0 c0 c1 dir sim sa vf. cbv zeta. set (ev := events _).
  destruct (all_kinds_ok o fuel p t0 dt0 v0 c0 c1 sa vf) as (N & F). fold ev in N, F. split; [|split].
  - rewrite files_kinds. eapply NoDup_map_inj; [|exact F|exact N]. intros x y Hx Hy E. now apply (name_inj dir sim dir sim).
  - unfold files_of_run. apply in_or_app. right. left. unfold evol_name, base_name. now rewrite <- app_assoc.
  - intros f Hf. rewrite files_kinds in Hf. apply in_map_iff in Hf as (x & <- & Hx).
    assert (B : forall s, base_name dir sim ++ s = dir ++ txt "/" ++ sim ++ s) by (intros; unfold base_name; now rewrite <- app_assoc).
    unfold run_kinds_all in Hx. destruct x; cbn [name]; [left|left|left|right].
    + unfold evol_name. rewrite B. eauto.
    + unfold snapshot_name. rewrite B. eauto.
    + unfold at_exit_name. rewrite B. eauto.
    + apply in_app_or in Hx as [Hx|[Hx|Hx]]; [|discriminate|].
      * destruct sa, vf; cbn [andb] in Hx; try (destruct Hx; fail). auto.
      * exfalso. destruct (run_kinds p o dt0 fuel t0 v0 c0 c1) as (_ & F'). fold ev in F'. rewrite Forall_forall in F'. destruct (F' _ Hx) as (_ & _ & K). congruence.
Qed.

(** *** What is on the disk afterwards *)
Lemma write_all_other : forall l fs f, ~ In f (map fst l) -> write_all fs l f = fs f.
Proof.
  induction l as [|[n c] l IH]; intros fs f H; [reflexivity|]. change (write_all fs ((n, c) :: l) f) with (write_all (write fs n c) l f). cbn [map fst In] in H.
  rewrite IH by tauto. unfold write. destruct (list_eq_dec Ascii.ascii_dec f n); [exfalso; apply H; auto|reflexivity].
Qed.
Lemma write_all_in : forall l fs f c, NoDup (map fst l) -> In (f, c) l -> write_all fs l f = Some c.
Proof.
  induction l as [|[n d] l IH]; intros fs f c N H; [contradiction|]. cbn [map fst] in N. inversion N; subst. change (write_all fs ((n, d) :: l) f) with (write_all (write fs n d) l f).
  destruct H as [H|H]; [|now apply IH]. injection H as -> ->. rewrite write_all_other by assumption. unfold write. destruct (list_eq_dec Ascii.ascii_dec f f); congruence.
Qed.

(** Once a run has ended, each of its files holds what the run wrote in it, and every other file is what it was: snapshots,
    table and final configuration never replace each other. *)
Theorem C106_contents : forall A C (o : oracles A C) fuel p t0 dt0 v0 c0 c1 dir sim spin_acc V_file fs writes,
  map fst writes = files_of_run dir sim spin_acc V_file (events (time_integration fuel p o t0 dt0 v0 c0 c1)) ->
  (forall f c, In (f, c) writes -> write_all fs writes f = Some c) /\
  (forall f, ~ In f (map fst writes) -> write_all fs writes f = fs f).
Proof.
  intros A C o fuel p t0 dt0 v0 c0 c1 dir sim sa vf fs writes E. split.
  - intros f c H. apply write_all_in; [|exact H]. rewrite E. apply C106_names_partial.
  - intros f H. now apply write_all_other.
Qed.

(** Two runs whose simulations have different names write no file in common, if they write in the same directory; in general
    they have none in common when neither the names nor "directory/name" are equal. *)
Theorem C106_two_runs : forall A C (o o' : oracles A C) fuel fuel' p p' t0 t0' dt0 dt0' v0 v0' c0 c0' c1 c1' dir dir' sim sim' sa sa' vf vf',
  sim <> sim' -> dir ++ txt "/" ++ sim <> dir' ++ txt "/" ++ sim' ->
  forall f, In f (files_of_run dir sim sa vf (events (time_integration fuel p o t0 dt0 v0 c0 c1))) ->
            ~ In f (files_of_run dir' sim' sa' vf' (events (time_integration fuel' p' o' t0' dt0' v0' c0' c1'))).
Proof.
  intros A C o o' fuel fuel' p p' t0 t0' dt0 dt0' v0 v0' c0 c0' c1 c1' dir dir' sim sim' sa sa' vf vf' Hs Hd f Hf Hf'.
  rewrite files_kinds in Hf, Hf'. apply in_map_iff in Hf as (x & <- & Hx). apply in_map_iff in Hf' as (y & E & Hy).
  destruct (all_kinds_ok o fuel p t0 dt0 v0 c0 c1 sa vf) as (_ & F). destruct (all_kinds_ok o' fuel' p' t0' dt0' v0' c0' c1' sa' vf') as (_ & F').
  rewrite Forall_forall in F, F'. destruct (name_inj dir' sim' dir sim y x (F' _ Hy) (F _ Hx) E) as (_ & K).
  unfold base_name in K. cbn [txt app list_ascii_of_string] in Hd. destruct y; try (apply Hd; symmetry; exact K). apply Hs. symmetry. exact K.
Qed.

Lemma same_directory (dir sim sim' : text) : sim <> sim' -> dir ++ txt "/" ++ sim <> dir ++ txt "/" ++ sim'.
Proof. intros H E. apply app_inv_head in E. apply app_inv_head in E. contradiction. Qed.

(** The file of the potential is not written in the output directory: two runs of the same name write it in the same file,
    whatever their directories are. *)
Theorem C106_directory_refuted : forall A C (o o' : oracles A C) fuel fuel' p p' t0 t0' dt0 dt0' v0 v0' c0 c0' c1 c1' dir dir' sim,
  exists f, In f (files_of_run dir sim true true (events (time_integration fuel p o t0 dt0 v0 c0 c1))) /\
            In f (files_of_run dir' sim true true (events (time_integration fuel' p' o' t0' dt0' v0' c0' c1'))).
Proof. intros. exists (sim ++ txt "_V.sol"). split; left; reflexivity. Qed.

(** Nothing protects the files of an earlier run: a second one with the same names, such as a run that restarts from the last
    snapshot of the first, empties the table of the first, and its snapshot number 0 is written over that of the first. *)
Theorem C106_earlier_run_refuted : forall A C (o o' : oracles A C) fuel fuel' p p' t0 t0' dt0 dt0' v0 v0' c0 c0' c1 c1' dir sim sa vf fs w w',
  map fst w = files_of_run dir sim sa vf (events (time_integration fuel p o t0 dt0 v0 c0 c1)) ->
  map fst w' = files_of_run dir sim sa vf (events (time_integration fuel' p' o' t0' dt0' v0' c0' c1')) ->
  exists c', In (dir ++ txt "/" ++ sim ++ txt ".evol", c') w' /\
    write_all (write_all fs w) w' (dir ++ txt "/" ++ sim ++ txt ".evol") = Some c' /\
    forall k f, f = dir ++ txt "/" ++ sim ++ txt "_iter" ++ print_nat k ++ txt ".sol" -> In f (map fst w) -> In f (map fst w') ->
      exists d', In (f, d') w' /\ write_all (write_all fs w) w' f = Some d'.
Proof.
  intros A C o o' fuel fuel' p p' t0 t0' dt0 dt0' v0 v0' c0 c0' c1 c1' dir sim sa vf fs w w' E E'.
  assert (G : forall f, In f (map fst w') -> exists d', In (f, d') w' /\ write_all (write_all fs w) w' f = Some d').
  { intros f Hf. apply in_map_iff in Hf as ([f' d'] & Ef & Hf). cbn [fst] in Ef. subst f'. exists d'. split; [exact Hf|].
    eapply C106_contents; eauto. }
  destruct (G (dir ++ txt "/" ++ sim ++ txt ".evol")) as (c' & H1 & H2). { rewrite E'. apply C106_names_partial. }
  exists c'. split; [exact H1|]. split; [exact H2|]. intros k f _ _ Hf. now apply G.
Qed.

(** ** C105 *)
(** reading [n] lines made of an index and a number with the operators >> *)
Fixpoint read_pairs (n : nat) (st : option text) : option (list (Z * b64)) :=
  match n with
  | O => Some []
  | S n' => match extract read_unsigned st with
            | (Some i, st1) => match extract read_double st1 with
                               | (Some v, st2) => option_map (cons (i, v)) (read_pairs n' st2)
                               | (None, _) => None
                               end
            | (None, _) => None
            end
  end.

Lemma V_lines_read V : Forall in_range V -> forall idx i pre body, (pre = [] \/ pre = [NL]) ->
  Z.of_nat (i + List.length idx) <= 2 ^ 32 -> V_lines i idx V = Some body ->
  exists l, read_pairs (List.length idx) (Some (pre ++ body)) = Some l /\
    forall j n, nth_error idx j = Some n -> exists v v', nth_error V n = Some v /\ nth_error l j = Some (Z.of_nat (i + j), v') /\ reread 8 v v'.
Proof.
  intros HV. induction idx as [|n idx IH]; intros i pre body Hp Hi Hb; cbn [V_lines] in Hb.
  - injection Hb as <-. exists []. split; [reflexivity|]. intros [|j] n' K; discriminate.
  - destruct (nth_error V n) as [v|] eqn:En; [|discriminate]. cbn [bind] in Hb. destruct (V_lines (S i) idx V) as [rest|] eqn:Er; [|discriminate].
    cbn [bind] in Hb. injection Hb as <-. cbn [List.length] in Hi. change (List.length (n :: idx)) with (S (List.length idx)). cbn [read_pairs]. unfold V_line. repeat (rewrite <- app_assoc; cbn [app]).
    assert (Ru : forall s, stops s -> read_unsigned (pre ++ print_nat (Z.of_nat i) ++ s) = (Z.of_nat i, Some s)).
    { intros s Hs. destruct Hp as [->| ->]; cbn [app].
      - apply read_unsigned_print; [lia|exact Hs].
      - rewrite readu_skip by reflexivity. apply read_unsigned_print; [lia|exact Hs]. }
    rewrite (extract_u _ _ _ (Ru _ (stops_tab _))).
    assert (Hv : in_range v). { rewrite Forall_forall in HV. apply HV. eapply nth_error_In; eauto. }
    destruct (read_print 8 v (NL :: rest) (proj1 Hv) (in_range_ok 8 v Hv) (stops_nl _)) as (v' & R1 & R2).
    assert (R1' : read_double (TAB :: print_sci 8 v ++ NL :: rest) = (v', Some (NL :: rest))) by (rewrite read_skip by reflexivity; exact R1).
    rewrite (extract_d _ _ _ R1'). destruct (IH (S i) [NL] rest) as (l & L1 & L2); [now right|lia|exact Er|].
    exists ((Z.of_nat i, v') :: l). split. { apply (f_equal (option_map (cons (Z.of_nat i, v')))) in L1. exact L1. }
    intros [|j] n' K; cbn [nth_error] in K |- *.
    + injection K as <-. exists v, v'. rewrite Nat.add_0_r. auto.
    + destruct (L2 j n' K) as (w & w' & W1 & W2 & W3). exists w, w'. replace (i + S j)%nat with (S i + j)%nat by lia. auto.
Qed.

Lemma V_lines_some V : forall idx i, (forall j, In j idx -> (j < List.length V)%nat) -> exists body, V_lines i idx V = Some body.
Proof.
  induction idx as [|j idx IH]; intros i H; [now exists []|]. cbn [V_lines].
  destruct (nth_error V j) as [v|] eqn:En. 2:{ apply nth_error_None in En. assert (j < List.length V)%nat by (apply H; now left). lia. }
  cbn [bind]. destruct (IH (S i)) as (b & ->). { intros; apply H; now right. } cbn [bind]. eauto.
Qed.

(** The file of the potential: two lines that start with #, then one line for each node of the mesh file, in the order of that
    file: its number from 0 and the potential of that node, rounded to 9 significant digits. *)
Theorem C105_potential_file : forall date node_index V,
  no_newline date -> (forall j, In j node_index -> (j < List.length V)%nat) -> Forall in_range V -> Z.of_nat (List.length node_index) <= 2 ^ 32 ->
  exists file l1 l2 body l, V_content date node_index V = Some file /\ file = unlines [l1; l2] ++ body /\
    comment_line l1 /\ comment_line l2 /\ l2 = txt "## columns: index" ++ TAB :: txt "V" /\
    read_pairs (List.length node_index) (Some body) = Some l /\
    forall i n, nth_error node_index i = Some n ->
      exists v v', nth_error V n = Some v /\ nth_error l i = Some (Z.of_nat i, v') /\ reread 8 v v'.
Proof.
  intros date idx V Hd Hj HV Hn. destruct (V_lines_some V idx 0 Hj) as (body & Eb).
  destruct (V_lines_read V HV idx 0 [] body (or_introl eq_refl) Hn Eb) as (l & L1 & L2).
  exists (unlines [txt "## real-world time:" ++ " "%char :: date; txt "## columns: index" ++ TAB :: txt "V"] ++ body),
    (txt "## real-world time:" ++ " "%char :: date), (txt "## columns: index" ++ TAB :: txt "V"), body, l.
  split. { unfold V_content. rewrite Eb. cbn [bind]. f_equal. unfold unlines, V_metadata. cbn [map List.concat]. rewrite app_nil_r. repeat (rewrite <- app_assoc; cbn [app]). reflexivity. }
  split; [reflexivity|]. split.
  { split; [eexists; reflexivity|]. apply no_newline_app; [apply no_newline_txt; reflexivity|]. intros [K|K]; [discriminate|now apply Hd]. }
  split. { split; [eexists; reflexivity|apply no_newline_txt; reflexivity]. }
  split; [reflexivity|]. split; [exact L1|]. exact L2.
Qed.

(** no potential is used which the solver did not solve for; the file is written exactly when it is asked for *)
Theorem C105_solved : forall converged verbose name good w m,
  elec_compute converged verbose name good = Some (w, m) -> converged = true /\ (w = true <-> name <> []).
Proof.
  intros [] verbose nm good w m E; unfold elec_compute in E; [|discriminate]. split; [reflexivity|].
  destruct nm; injection E as <- <-; split; congruence.
Qed.

(** The message that says that the file is written comes exactly when it could not be written. *)
Theorem C105_message_refuted : forall verbose name good m,
  elec_compute true verbose name good = Some (true, m) -> (m = true <-> verbose = true /\ good = false).
Proof.
  intros verbose nm good m E. unfold elec_compute in E. destruct nm; [discriminate|]. injection E as <-.
  destruct verbose, good; cbn [andb negb]; split; try tauto; try discriminate; intros [? ?]; discriminate.
Qed.

(** ** C104 *)
(** [nodes] is what a .sol file holds of a configuration. A run that starts from a file written by an earlier run, whichever
    snapshot or final configuration it is: it starts from the saved magnetization and potential, with the digits that the
    file gives, and its time is initial_time when it is set, else the saved one rounded to 7 digits; the first line it
    writes is for that time and that configuration. Missing: the time itself, see C104_time_refuted; the rest is as in C41. *)
Theorem C104_restart_partial : forall C (nodes : C -> list sol_node) (t : b64) (c : C) prec h node_index old init metadata (initial_time : b64),
  Permutation node_index (seq 0 (List.length (nodes c))) -> List.length old = List.length (nodes c) -> Z.of_nat (List.length (nodes c)) <= 2 ^ 32 ->
  Forall node_in_range (nodes c) -> time_in_range t ->
  plain_header h -> (forall k v, In (k, v) (h_meta h) -> v <> []) -> Forall quiet (common_lines h) -> sol_metadata h false t = Some metadata ->
  exists file t' new, savesol prec metadata node_index (nodes c) None = Some file /\
    fem_start (Some file) initial_time node_index old init = Restored (t', new) /\
    Forall2 (node_reread prec) (nodes c) new /\ ((16 <= prec)%nat -> new = nodes c) /\
    (is_nan initial_time = true -> reread 6 t t') /\ (is_nan initial_time = false -> t' = initial_time) /\
    forall (o' : oracles B64 C) fuel' p' dt0' v0' c0' n0' w, nodes n0' = new ->
      nlt (t' : num B64) (target_time p' (t' : num B64) 0) = false ->
      In w (table (time_integration fuel' p' o' (t' : num B64) dt0' v0' c0' n0')) -> row_k w = 0 ->
      row_t w = t' /\ row_c w = o_potentials o' n0'.
Proof.
  intros C nodes t c prec h idx old init md it Hperm Hl Hn Hr Ht Hp Hm Hq Hmd.
  destruct (C41_restore_partial prec h t idx (nodes c) old md Hperm Hl Hn Hr Ht Hp Hm Hq Hmd) as (file & F1 & t1 & new & F2 & F3 & F4).
  exists file, (if is_nan it then t1 else it), new. split; [exact F1|]. split. { unfold fem_start. now rewrite F2. }
  split; [exact F4|]. split.
  - intros H16. symmetry. clear -F4 H16 Hr. induction F4 as [|x y l l' (Nx & Ny & Nz & Np) F IH]; [reflexivity|]. inversion Hr as [|? ? (Rx & Ry & Rz & Rp) Hr']; subst. f_equal; [|now apply IH].
    destruct x as [x1 x2 x3 x4], y as [y1 y2 y3 y4]. cbn [s_x s_y s_z s_phi] in *.
    rewrite (C41_exact prec x1 y1 H16 (proj1 Rx) Nx), (C41_exact prec x2 y2 H16 (proj1 Ry) Ny), (C41_exact prec x3 y3 H16 (proj1 Rz) Nz), (C41_exact prec x4 y4 H16 (proj1 Rp) Np). reflexivity.
  - split. { intros ->. exact F3. } split. { intros ->. reflexivity. }
    intros o' fuel' p' dt0' v0' c0' n0' w _ H0 Hw Hk.
    destruct (C102_first_line _ _ o' fuel' p' _ dt0' v0' c0' n0' H0 w Hw Hk) as (K1 & _ & _ & _ & K2 & _). auto.
Qed.

Definition is_line {A C} (e : event A C) : bool := match e with EvLine _ _ _ => true | _ => false end.
Lemma table_events {A C} (o : oracles A C) fuel p t0 dt0 v0 c0 n0 :
  let r := time_integration fuel p o t0 dt0 v0 c0 n0 in
  map (fun w => EvLine (row_k w) (row_t w) (row_c w)) (table r) = filter is_line (events r).
Proof.
  cbv zeta. unfold table, events. destruct (final (time_integration fuel p o t0 dt0 v0 c0 n0)) as [s|] eqn:E; [|reflexivity].
  assert (FR : forall l : list (event A C), filter is_line (rev l) = rev (filter is_line l)).
  { induction l as [|e l IH]; [reflexivity|]. cbn [rev]. rewrite filter_app, IH. cbn [filter]. destruct (is_line e); cbn [rev app]; [reflexivity|apply app_nil_r]. }
  rewrite FR, map_rev. f_equal.
  destruct (run_tail p o dt0 (fun k s => map (fun w => EvLine (row_k w) (row_t w) (row_c w)) (rows s) = filter is_line (log s)) fuel t0 v0 c0 n0 s E) as (N & k & s1 & _ & _ & _ & K & T & _).
  - reflexivity.
  - intros N _ k s2 s' _ _ K _ Ha. inversion Ha; subst;
      cbn [solver_failed too_large log_accepted recentered accept compute_all solver_done add_event log rows]; rewrite propose_log, propose_rows; exact K.
  - intros N _ k s2 _ _ K _. unfold saver_events.
    destruct (snapshot_due (save_period p) k); cbn [write_row add_event log rows map filter is_line row_k row_t row_c time nxt]; now rewrite K.
  - destruct T as [|s Hl Ha|s Hl Ha|s Hl Ha]; [exact K| | |]; inversion Ha; subst;
      cbn [at_exit accept compute_all solver_done add_event log rows]; rewrite ?propose_log, ?propose_rows; exact K.
Qed.
Lemma table_line {A C} (o : oracles A C) fuel p t0 dt0 v0 c0 n0 k t c : recenter_on p = false ->
  In (EvLine k t c) (events (time_integration fuel p o t0 dt0 v0 c0 n0)) ->
  exists w, In w (table (time_integration fuel p o t0 dt0 v0 c0 n0)) /\ row_k w = k /\ row_t w = t /\ row_c w = c /\ exists y, row_c w = o_potentials o y.
Proof.
  intros Hrc HL. assert (Hf : In (EvLine k t c) (filter is_line (events (time_integration fuel p o t0 dt0 v0 c0 n0)))) by (apply filter_In; auto).
  rewrite <- (table_events o fuel p t0 dt0 v0 c0 n0) in Hf. apply in_map_iff in Hf as (w & Ew & Hw). injection Ew as K1 K2 K3.
  exists w. split; [exact Hw|]. split; [exact K1|]. split; [exact K2|]. split; [exact K3|].
  destruct (run_rows p o dt0 t0 v0 c0 n0 fuel) as [_ H2]. rewrite Forall_forall in H2.
  destruct (H2 w Hw) as [(_ & _ & _ & _ & H5 & _)|(m & cu & v & c' & _ & _ & Off & _ & (y & Hy))]; [eauto|].
  exists y. destruct (Off Hrc) as (_ & ->). exact Hy.
Qed.

(** Without recentering, with 17 digits in the files and initial_time set to the time of the snapshot, the first line of the
    restarted run repeats the line at which the snapshot was taken: the same time and the same magnetization and potential,
    provided that the potential is a function of the magnetization that does not depend on the potential it replaces. *)
Theorem C104_repeat : forall (o o' : oracles B64 (list sol_node)) fuel p t0 dt0 v0 c0 n0 k (t : b64) c prec h node_index old init metadata file,
  recenter_on p = false -> (0 <= save_period p) ->
  (forall x, o_potentials o (o_potentials o x) = o_potentials o x) -> (forall x, o_potentials o' x = o_potentials o x) ->
  In (EvSnapshot k (t : num B64) c) (events (time_integration fuel p o t0 dt0 v0 c0 n0)) ->
  Permutation node_index (seq 0 (List.length c)) -> List.length old = List.length c -> Z.of_nat (List.length c) <= 2 ^ 32 ->
  Forall node_in_range c -> time_in_range t ->
  plain_header h -> (forall k v, In (k, v) (h_meta h) -> v <> []) -> Forall quiet (common_lines h) -> sol_metadata h false t = Some metadata ->
  (16 <= prec)%nat -> savesol prec metadata node_index c None = Some file ->
  exists w, In w (table (time_integration fuel p o t0 dt0 v0 c0 n0)) /\ row_k w = k /\ row_t w = t /\ row_c w = c /\
  exists t' new, fem_start (Some file) t node_index old init = Restored (t', new) /\
    forall fuel' p' dt0' v0' c0' w',
      nlt (t' : num B64) (target_time p' (t' : num B64) 0) = false ->
      In w' (table (time_integration fuel' p' o' (t' : num B64) dt0' v0' c0' new)) -> row_k w' = 0 ->
      row_t w' = row_t w /\ row_c w' = row_c w.
Proof.
  intros o o' fuel p t0 dt0 v0 c0 n0 k t c prec h idx old init md file Hrc Hsp Hi Ho He Hperm Hl Hn Hr Ht Hp Hm Hq Hmd H16 Hf.
  destruct (proj1 (proj1 (C14_snapshots _ _ o fuel p t0 dt0 v0 c0 n0 Hsp) k (t : num B64) c) He) as (HL & _).
  destruct (table_line o fuel p t0 dt0 v0 c0 n0 k t c Hrc HL) as (w & W1 & W2 & W3 & W4 & (y & W5)).
  exists w. split; [exact W1|]. split; [exact W2|]. split; [exact W3|]. split; [exact W4|].
  destruct (C104_restart_partial _ (fun x => x) t c prec h idx old init md t Hperm Hl Hn Hr Ht Hp Hm Hq Hmd) as (file' & t' & new & F1 & F2 & _ & F3 & _ & F4 & F5).
  assert (E : file' = file) by congruence. subst file'. specialize (F3 H16). subst new.
  assert (Nt : is_nan t = false). { destruct Ht as (F & _). destruct t; try discriminate; reflexivity. }
  specialize (F4 Nt). subst t'. exists t, c. split; [exact F2|].
  intros fuel' p' dt0' v0' c0' w' H0 Hw Hk. destruct (F5 o' fuel' p' dt0' v0' c0' c w' eq_refl H0 Hw Hk) as (K1 & K2).
  rewrite K1, K2, W3, W4, Ho. split; [reflexivity|]. rewrite <- W4, W5. apply Hi.
Qed.

(** A run that does not restart: time 0, or initial_time, and the configuration of the expression or of the components of the
    settings. *)
Example C104_fresh : forall initial_time node_index nodes init,
  fem_start None initial_time node_index nodes init = Restored ((if is_nan initial_time then B754_zero false else initial_time), init).
Proof. reflexivity. Qed.

(** A file that cannot be read never lets a run start, whatever initial_time is. *)
Theorem C104_bad_file : forall file initial_time node_index nodes init t l,
  fem_start (Some file) initial_time node_index nodes init = Restored (t, l) -> exists t0, read_sol file node_index nodes = Restored (t0, l).
Proof.
  intros file it idx nodes init t l E. unfold fem_start in E. destruct (read_sol file idx nodes) as [[t0 l']| | |]; try discriminate.
  injection E as _ <-. now exists t0.
Qed.

(** The time is not kept, whatever the precision of the file: what is saved at 123456789 is restored at 123456800 (powers of
    two and of ten change nothing to this: the time is printed with 7 digits). *)
Definition ex_t : b64 := b64_of_Z 123456789.
Definition ex_file : option text := savesol 17 (file_of (sol_metadata (plain_h []) false ex_t)) [0%nat] [mkSol one64 zero64 zero64 zero64] None.
Definition ex_start := fem_start (Some (file_of ex_file)) B754_nan [0%nat] [mkSol zero64 zero64 zero64 zero64] [].
Lemma ex_start_time : match ex_start with Restored (t', _) => is_finite t' && Beqb t' (b64_of_Z 123456800) | _ => false end = true.
Proof. vm_compute. reflexivity. Qed.
Lemma ex_file_some : match ex_file with Some _ => true | None => false end = true.
Proof. vm_compute. reflexivity. Qed.
Theorem C104_time_refuted : exists (file : text) (t' : b64) new,
  savesol 17 (file_of (sol_metadata (plain_h []) false ex_t)) [0%nat] [mkSol one64 zero64 zero64 zero64] None = Some file /\
  time_in_range ex_t /\
  fem_start (Some file) B754_nan [0%nat] [mkSol zero64 zero64 zero64 zero64] [] = Restored (t', new) /\ B2R ex_t = 123456789%R /\ B2R t' = 123456800%R.
Proof.
  pose proof ex_start_time as H. pose proof ex_file_some as Hf. unfold ex_start in H. unfold ex_file in *.
  destruct (savesol 17 _ _ _ _) as [file|]; [|discriminate Hf]. clear Hf. exists file. change (file_of (Some file)) with file in H.
  destruct (fem_start _ _ _ _ _) as [[t' new]| | |]; [|discriminate H|discriminate H|discriminate H].
  destruct (b64_of_Z_correct 123456789 ltac:(lia)) as (F & V). destruct (b64_of_Z_correct 123456800 ltac:(lia)) as (F' & V').
  apply andb_prop in H as (H1 & H2). rewrite Beqb_correct in H2 by assumption. rewrite V' in H2.
  destruct (Req_bool_spec (B2R t') 123456800) as [E|]; [|discriminate H2].
  exists t', new. split; [reflexivity|].
  split. { split; [exact F|]. right. unfold ex_t. rewrite V. rewrite Rabs_pos_eq by lra. split.
    - apply Rle_trans with (bpow radix10 0); [apply bpow_le; lia|cbn; lra].
    - apply Rle_trans with (bpow radix10 9); [cbn; lra|apply bpow_le; lia]. }
  split; [reflexivity|]. split; [exact V|exact E].
Qed.

(** ** Examples *)
Example C106_example : snapshot_name (txt "out") (txt "film") 120 = txt "out/film_iter120.sol" /\
  evol_name (txt "out") (txt "film") = txt "out/film.evol" /\ at_exit_name (txt "out") (txt "film") = txt "out/film_at_exit.sol".
Proof. vm_compute. auto. Qed.

Example C105_example : V_content (txt "now") [1; 0]%nat [one64; zero64] =
  Some (txt "## real-world time: now" ++ [NL] ++ txt "## columns: index" ++ [TAB] ++ txt "V" ++ [NL] ++
        txt "0" ++ [TAB] ++ txt "0.00000000e+00" ++ [NL] ++ txt "1" ++ [TAB] ++ txt "1.00000000e+00" ++ [NL]).
Proof. vm_compute. reflexivity. Qed.

(** a run which was interrupted: two snapshots, the final configuration, the table, the potential *)
Example C106_nonvacuous :
  let l := files_of_run (txt "out") (txt "film") true true
             (events (time_integration 200 ex_params (ex_oracles (fun n => (36 <=? n)%nat)) (b64_of 0 0) ex_dt0 Arith.n0 0%nat 0%nat)) in
  l = map txt ["film_V.sol"; "out/film.evol"; "out/film_iter0.sol"; "out/film_iter2.sol"; "out/film_at_exit.sol"]%string.
Proof. vm_compute. reflexivity. Qed.

(** the hypotheses of C104_repeat can be met: the snapshot of line 0 of a run from any configuration in range *)
Definition still : oracles B64 (list sol_node) := @mkOracles B64 (list sol_node) (fun _ => false) (fun _ _ nx _ _ => (Some nx, b64_of 1 (-4))) (fun c => c) (fun c n => Some (c, n)).
Lemma snapshot_0 : forall c, In (EvSnapshot 0 (b64_of 0 0) c) (events (time_integration 0 ex_params still (b64_of 0 0) ex_dt0 Arith.n0 c c)).
Proof.
  intros c.
  assert (H : match events (time_integration 0 ex_params still (b64_of 0 0) ex_dt0 Arith.n0 c c) with
              | _ :: EvSnapshot k t c' :: _ => k = 0 /\ (t : b64) = B754_zero false /\ c' = c | _ => False end) by (vm_compute; auto).
  revert H. generalize (events (time_integration 0 ex_params still (b64_of 0 0) ex_dt0 Arith.n0 c c)). intros l H.
  destruct l as [|e [|e' l]]; [contradiction|contradiction|]. destruct e'; try contradiction. destruct H as (-> & -> & ->).
  right. left. reflexivity.
Qed.
Example C104_nonvacuous : forall c, List.length c = 2%nat -> Forall node_in_range c ->
  exists w, In w (table (time_integration 0 ex_params still (b64_of 0 0) ex_dt0 Arith.n0 c c)) /\ row_k w = 0 /\ row_c w = c /\
    exists file t' new, fem_start (Some file) (b64_of 0 0) [1; 0]%nat c [] = Restored (t', new) /\
      forall fuel' p' dt0' v0' c0' w', nlt (t' : num B64) (target_time p' (t' : num B64) 0) = false ->
        In w' (table (time_integration fuel' p' still (t' : num B64) dt0' v0' c0' new)) -> row_k w' = 0 -> row_t w' = row_t w /\ row_c w' = row_c w.
Proof.
  intros c Hl Hr.
  destruct (savesol 17 (md [] false) [1; 0]%nat c None) as [file|] eqn:Ef.
  2:{ exfalso. destruct c as [|a [|b [|]]]; try discriminate Hl. cbv [savesol sol_lines bind nth_error] in Ef. discriminate Ef. }
  destruct (C104_repeat still still 0 ex_params (b64_of 0 0) ex_dt0 Arith.n0 c c 0 (b64_of 0 0) c 17 (plain_h []) [1; 0]%nat c [] (md [] false) file)
    as (w & W1 & W2 & W3 & W4 & t' & new & F1 & F2); [reflexivity| | | |apply snapshot_0| | | | | | | | | | |exact Ef|].
  - apply Z.leb_le. vm_compute. reflexivity.
  - intros x. reflexivity.
  - intros x. reflexivity.
  - rewrite Hl. cbn [seq]. apply perm_swap.
  - reflexivity.
  - rewrite Hl. cbn. lia.
  - exact Hr.
  - split; [reflexivity|now left].
  - split; [apply no_newline_txt; reflexivity|]. split; [discriminate|]. split; [apply no_newline_txt; reflexivity|]. split; [apply no_newline_txt; reflexivity|]. intros k v [].
  - intros k v [].
  - assert (Q : Forall (fun l => find_first time_tag l = None) (common_lines (plain_h []))) by (repeat constructor).
    eapply Forall_impl; [|exact Q]. intros l El k K. congruence.
  - vm_compute. reflexivity.
  - lia.
  - exists w. split; [exact W1|]. split; [exact W2|]. split; [exact W4|]. exists file, t', new. split; [exact F1|exact F2].
Qed.

Print Assumptions C104_restart_partial.
Print Assumptions C104_repeat.
Print Assumptions C104_bad_file.
Print Assumptions C104_time_refuted.
Print Assumptions C105_potential_file.
Print Assumptions C105_solved.
Print Assumptions C105_message_refuted.
Print Assumptions C106_names_partial.
Print Assumptions C106_contents.
Print Assumptions C106_two_runs.
Print Assumptions C106_directory_refuted.
Print Assumptions C106_earlier_run_refuted.
