(** * Property C100: from the files to the settings of a run *)
From Coq Require Import String Ascii List Arith Bool ZArith Lia.
From Verif Require Import Arith TextModel TextProof ColumnModel SettingsModel MainModel PrintModel PrintProps StartModel.
Import ListNotations.

(** ** Specification *)
(** what a file says: nothing when it cannot be read or is empty (a null document) *)
Definition says (f : file) : option yaml :=
  match f with Document YNull => None | Document d => Some d | _ => None end.
Definition listed (o : option yaml) : list yaml := match o with Some d => [d] | None => [] end.
(** the name "-" is the standard input *)
Definition content (files : text -> file) (stdin : file) (name : text) (f : file) : Prop :=
  (name = txt "-" /\ f = stdin) \/ (name <> txt "-" /\ f = files name).

Section start.
Context {A : arith}.
Variables (c : @conv A) (mu0 : num A) (cpus : Z) (files : text -> file) (stdin : file) (xdg home : option text).
Notation begin := (start c mu0 cpus files stdin xdg home).
Notation readall := (read_all c mu0 cpus).
(** the file of the user's defaults *)
Notation user := (files (user_defaults_filename xdg home)).

Lemma named : forall s name f, content files stdin name f ->
  read_named c mu0 cpus files stdin s name = match f with Malformed => Throw | _ =>
    match readall s (listed (says f)) with Ok s' => Ok (s', match says f with Some _ => true | None => false end) | Error => Error | Throw => Throw end end.
Proof.
  intros s name f H. unfold read_named. destruct H as [[-> ->]|[H ->]].
  - replace (text_eqb (txt "-") (txt "-")) with true by reflexivity. destruct stdin as [| |[| | |]]; try reflexivity; cbn [says listed read_all]; unfold read_document, rbind;
      destruct (read c mu0 cpus s _); reflexivity.
  - destruct (text_eqb name (txt "-")) eqn:E; [apply text_eqb_spec in E; contradiction|].
    destruct (files name) as [| |[| | |]]; try reflexivity; cbn [says listed read_all]; unfold read_document, rbind; destruct (read c mu0 cpus s _); reflexivity.
Qed.
Lemma user_named : user_defaults_filename xdg home <> txt "-".
Proof.
  unfold user_defaults_filename. intros H. apply (f_equal (@length ascii)) in H. rewrite app_length in H. cbn in H. lia.
Qed.
Lemma user_content : content files stdin (user_defaults_filename xdg home) user.
Proof. right. split; [exact user_named|reflexivity]. Qed.
Lemma readall_app : forall l1 l2 s, readall s (l1 ++ l2) = match readall s l1 with Ok s' => readall s' l2 | Error => Error | Throw => Throw end.
Proof. induction l1 as [|d l1 IH]; intros l2 s; cbn [app read_all]; [reflexivity|]. unfold rbind. destruct (read c mu0 cpus s d); auto. Qed.
Lemma both : forall s name f, content files stdin name f ->
  (let! r := read_named c mu0 cpus files stdin s (user_defaults_filename xdg home) in read_named c mu0 cpus files stdin (fst r) name) =
  match user with Malformed => Throw | _ =>
    match readall s (listed (says user)) with
    | Ok s1 => match f with Malformed => Throw | _ =>
        match readall s1 (listed (says f)) with Ok s' => Ok (s', match says f with Some _ => true | None => false end) | Error => Error | Throw => Throw end end
    | Error => Error | Throw => Throw end end.
Proof.
  intros s name f H. rewrite (named s _ _ user_content). destruct user; try reflexivity;
    (destruct (readall s _) as [s1| |]; cbn [rbind fst]; [apply (named s1 name f H)|reflexivity|reflexivity]).
Qed.
End start.

(** ** C100 *)
(** A run starts exactly when the command line asks for a run of a file that can be read and says something; its settings
    are what is read from the user's defaults, if there are any, then from that file. *)
Theorem C100_started : forall (A : arith) (c : @conv A) mu0 cpus files stdin xdg home s args s' sd,
  start c mu0 cpus files stdin xdg home s args = Started s' sd <->
  exists verbose name doc,
    parse_options args = Run verbose name sd /\ content files stdin name (Document doc) /\ doc <> YNull /\
    files (user_defaults_filename xdg home) <> Malformed /\
    read_all c mu0 cpus s (listed (says (files (user_defaults_filename xdg home))) ++ [doc]) = Ok s'.
Proof.
  intros A c mu0 cpus files stdin xdg home s args s' sd.
  assert (CC : forall name, exists f, content files stdin name f).
  { intros name. destruct (text_eqb name (txt "-")) eqn:E; [apply text_eqb_spec in E; exists stdin; left; auto|].
    exists (files name). right. split; auto. intros ->. rewrite (proj2 (text_eqb_spec _ _) eq_refl) in E. discriminate. }
  unfold start. split.
  - destruct (parse_options args) as [| | | | |vb name|vb name sd'] eqn:EP; try discriminate.
    + intros H. destruct (let! r := _ in _) as [[? ?]| |]; discriminate.
    + destruct (CC name) as [f Hf]. rewrite (both c mu0 cpus files stdin xdg home s name f Hf).
      intros H. exists vb, name.
      destruct (files (user_defaults_filename xdg home)) eqn:EU; try discriminate;
      (destruct (read_all c mu0 cpus s (listed (says _))) as [s1| |] eqn:E1; try discriminate;
       destruct f as [| |dc]; try discriminate; destruct (says (Document dc)) as [d|] eqn:ES;
       [|destruct (read_all _ _ _ _ (listed None)); discriminate];
       assert (d = dc /\ dc <> YNull) as [-> Hn] by (destruct dc; try discriminate; injection ES as <-; split; congruence);
       exists dc; cbn [listed] in H; destruct (read_all c mu0 cpus s1 [dc]) as [s2| |] eqn:E2; try discriminate; injection H as <- <-;
       split; [reflexivity|]; split; [exact Hf|]; split; [exact Hn|]; split; [discriminate|rewrite readall_app, E1; exact E2]).
  - intros (vb & name & doc & EP & HC & Hn & HU & HR). rewrite EP. rewrite (both c mu0 cpus files stdin xdg home s name _ HC).
    rewrite readall_app in HR.
    assert (ES : says (Document doc) = Some doc) by (destruct doc; [contradiction|reflexivity..]).
    destruct (files (user_defaults_filename xdg home)) eqn:EU; try contradiction;
    (destruct (read_all c mu0 cpus s (listed _)) as [s1| |]; try discriminate; rewrite ES; cbn [listed]; rewrite HR; reflexivity).
Qed.

(** Without settings (a file that cannot be read, or says nothing) the program stops with an error, provided the user's
    defaults are correct. *)
Theorem C100_no_settings : forall (A : arith) (c : @conv A) mu0 cpus files stdin xdg home s args verbose name sd f s1,
  parse_options args = Run verbose name sd -> content files stdin name f -> f <> Malformed -> says f = None ->
  files (user_defaults_filename xdg home) <> Malformed ->
  read_all c mu0 cpus s (listed (says (files (user_defaults_filename xdg home)))) = Ok s1 ->
  start c mu0 cpus files stdin xdg home s args = NoSettings.
Proof.
  intros A c mu0 cpus files stdin xdg home s args vb name sd f s1 EP HC HM HN HU HR. unfold start. rewrite EP, (both c mu0 cpus files stdin xdg home s name f HC).
  destruct (files (user_defaults_filename xdg home)); try contradiction; rewrite HR, HN; cbn [listed read_all]; destruct f; try contradiction; reflexivity.
Qed.

(** --verify shows the settings that a run of the same file uses, when that file says something. *)
Theorem C100_verify_partial : forall (A : arith) (c : @conv A) mu0 cpus files stdin xdg home s args args' v1 v2 name sd doc s',
  parse_options args = VerifyFile v1 name -> parse_options args' = Run v2 name sd ->
  content files stdin name (Document doc) -> doc <> YNull ->
  (start c mu0 cpus files stdin xdg home s args = Shown s' <-> start c mu0 cpus files stdin xdg home s args' = Started s' sd).
Proof.
  intros A c mu0 cpus files stdin xdg home s args args' v1 v2 name sd doc s' E1 E2 HC Hn. unfold start. rewrite E1, E2, (both c mu0 cpus files stdin xdg home s name _ HC).
  assert (ES : says (Document doc) = Some doc) by (destruct doc; [contradiction|reflexivity..]). rewrite ES.
  destruct (files (user_defaults_filename xdg home)); try (split; discriminate);
  (destruct (read_all c mu0 cpus s (listed _)) as [s1| |]; try (split; discriminate);
   destruct (read_all c mu0 cpus s1 _) as [s2| |]; try (split; discriminate); split; intros H; injection H as ->; reflexivity).
Qed.

(** It also shows settings, with status 0, for a file that does not exist, which a run refuses. *)
Theorem C100_verify_refuted : forall (A : arith) (c : @conv A) mu0 cpus s, exists files stdin name,
  files name = Unreadable /\ name <> txt "-" /\
  start c mu0 cpus files stdin None None s [txt "--verify"; name] = Shown s /\
  start c mu0 cpus files stdin None None s [name] = NoSettings.
Proof.
  intros A c mu0 cpus s. exists (fun _ => Unreadable), Unreadable, (txt "missing.yml").
  split; [reflexivity|]. split; [discriminate|]. split; reflexivity.
Qed.

(** A settings file that is a list is accepted, as an empty map: the run starts with the defaults. *)
Theorem C100_list_refuted : forall (A : arith) (c : @conv A) mu0 cpus s0 s l, read c mu0 cpus s0 default_document = Ok s -> exists files s1,
  files (txt "list.yml") = Document (YSeq l) /\
  program c mu0 cpus files Unreadable None None s0 [txt "list.yml"] = Started s1 FromDevice /\
  mesh s1 = mesh s /\ mag s1 = mag s /\ field s1 = field s /\ time_int s1 = time_int s.
Proof.
  intros A c mu0 cpus s0 s l HD. set (files := fun name => if text_eqb name (txt "list.yml") then Document (YSeq l) else Unreadable). exists files.
  destruct (read c mu0 cpus s (YSeq l)) as [s1| |] eqn:E; try discriminate E.
  exists s1. split; [reflexivity|]. split.
  - unfold program. rewrite HD. unfold start. change (parse_options [txt "list.yml"]) with (Run 0 (txt "list.yml") FromDevice).
    change (read_named c mu0 cpus files Unreadable s (user_defaults_filename None None)) with (Ok (s, false)). cbn [rbind fst].
    change (read_named c mu0 cpus files Unreadable s (txt "list.yml")) with (let! x := read c mu0 cpus s (YSeq l) in Ok (x, true)).
    rewrite E. reflexivity.
  - injection E as <-. repeat split.
Qed.

(** a run with user's defaults and a settings file *)
Example C100_nonvacuous : exists d s', let args := [txt "-v"; txt "--seed"; txt "2"; txt "run.yml"] in
  let files := fun name => if text_eqb name (txt "/home/me/.config/feellgood/default.yml") then Document user_defaults
                           else if text_eqb name (txt "run.yml") then Document run_document else Unreadable in
  read64 raw64 default_document = Ok d /\ d <> s' /\
  start conv64 (value_of (1, 1000000)%Z) 4%Z files Unreadable None (Some (txt "/home/me")) d args = Started s' (Given 2).
Proof.
  destruct C93_user_defaults_refuted as (d & u & s & y & s' & H1 & H2 & H3 & H4). exists d, s. cbv zeta.
  split; [exact H1|]. split.
  { intros ->. assert (K : match read64 raw64 default_document with Ok d => match m_pb (mesh d) with [] => true | _ => false end | _ => false end = true) by (vm_compute; reflexivity).
    assert (K' : match read64 raw64 default_document with Ok d => match read64 d user_defaults with Ok u => match read64 u run_document with Ok s => match m_pb (mesh s) with [] => false | _ => true end | _ => false end | _ => false end | _ => false end = true) by (vm_compute; reflexivity).
    rewrite H1 in K, K'. rewrite H2, H3 in K'. destruct (m_pb (mesh s)); discriminate. }
  unfold start. change (parse_options [txt "-v"; txt "--seed"; txt "2"; txt "run.yml"]) with (Run 1 (txt "run.yml") (Given 2)).
  set (files := fun name => _).
  change (read_named conv64 (value_of (1, 1000000)%Z) 4%Z files Unreadable d (user_defaults_filename None (Some (txt "/home/me")))) with (let! x := read64 d user_defaults in Ok (x, true)).
  rewrite H2. cbn [rbind fst].
  change (read_named conv64 (value_of (1, 1000000)%Z) 4%Z files Unreadable u (txt "run.yml")) with (let! x := read64 u run_document in Ok (x, true)).
  rewrite H3. reflexivity.
Qed.

(** A section whose name is not one of the ten is ignored, whatever it contains. *)
Definition sections : list text := map txt ["outputs"; "mesh"; "initial_magnetization"; "initial_time"; "recentering"; "Bext"; "spin_accumulation";
  "demagnetizing_field_solver"; "finite_element_solver"; "time_integration"]%string.
Theorem C100_unknown_section : forall (A : arith) (c : @conv A) mu0 cpus s l1 key value l2, ~ In key sections ->
  read c mu0 cpus s (YMap (l1 ++ (key, value) :: l2)) = read c mu0 cpus s (YMap (l1 ++ l2)).
Proof.
  intros A c mu0 cpus s l1 key value l2 H.
  assert (K : forall k, In k sections -> child (YMap (l1 ++ (key, value) :: l2)) k = child (YMap (l1 ++ l2)) k).
  { intros k Hk. cbn [child]. f_equal. induction l1 as [|[k' v'] l1 IH]; cbn [app assoc].
    - destruct (text_eqb key k) eqn:E; [apply text_eqb_spec in E; subst; contradiction|reflexivity].
    - rewrite IH. reflexivity. }
  unfold read. rewrite !K by (cbn; tauto). reflexivity.
Qed.

Print Assumptions C100_started.
Print Assumptions C100_no_settings.
Print Assumptions C100_verify_partial.
Print Assumptions C100_verify_refuted.
Print Assumptions C100_list_refuted.
Print Assumptions C100_unknown_section.
