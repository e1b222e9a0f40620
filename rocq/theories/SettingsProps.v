(** * Properties of the reading of the settings *)
From Coq Require Import Reals String Ascii List Arith Bool ZArith Lia Lra.
From Flocq Require Raux.
From Verif Require Import Arith TextModel TextProof TextProps ColumnModel SettingsModel.
Import ListNotations.
Local Open Scope nat_scope.

(** ** Specification: what a document defines *)
(** the node at section.key, when the section is a map *)
Definition node_at (sec key : string) (doc : yaml) : option yaml :=
  match doc with
  | YMap d => match assoc (txt sec) d with Some (YMap m) => assoc (txt key) m | _ => None end
  | _ => None
  end.
Definition scalar_at (sec key : string) (doc : yaml) : option text :=
  match node_at sec key doc with Some (YScalar s) => Some s | _ => None end.
Definition top_scalar (key : string) (doc : yaml) : option text :=
  match doc with YMap d => match assoc (txt key) d with Some (YScalar s) => Some s | _ => None end | _ => None end.
(** the last of the documents that defines something *)
Fixpoint last_defined {X} (at_doc : yaml -> option X) (docs : list yaml) : option X :=
  match docs with
  | [] => None
  | d :: r => match last_defined at_doc r with Some x => Some x | None => at_doc d end
  end.

(** the scalar settings *)
Section Tables.
Context {A : arith}.
Let S := @settings A.
Definition double_settings : list (string * string * (S -> num A)) :=
  [("outputs", "evol_time_step", fun s => o_step (outputs s)); ("outputs", "final_time", fun s => o_tf (outputs s));
   ("mesh", "length_unit", fun s => m_scale (mesh s)); ("recentering", "threshold", fun s => r_threshold (recentering s));
   ("finite_element_solver", "tolerance", fun s => v_tol (solver s)); ("time_integration", "max(du)", fun s => i_dumax (time_int s));
   ("time_integration", "min(dt)", fun s => i_dt_min (time_int s)); ("time_integration", "max(dt)", fun s => i_dt_max (time_int s))]%string.
Definition int_settings : list (string * string * (S -> Z)) :=
  [("finite_element_solver", "max(iter)", fun s => v_maxiter (solver s))]%string.
Definition bool_settings : list (string * string * (S -> bool)) :=
  [("recentering", "enable", fun s => r_enable (recentering s)); ("spin_accumulation", "enable", fun s => a_enable (spin s));
   ("spin_accumulation", "V_file", fun s => a_V_file (spin s))]%string.
Definition string_settings : list (string * string * (S -> text)) :=
  [("mesh", "filename", fun s => m_pb (mesh s))]%string.
End Tables.

Lemma rbind_ok {X Y} (x : res X) (f : X -> res Y) y : rbind x f = Ok y -> exists a, x = Ok a /\ f a = Ok y.
Proof. destruct x as [a| |]; [eauto|discriminate|discriminate]. Qed.

Lemma ok_inj {X} (a b : X) : Ok a = Ok b -> a = b.
Proof. intros H. now injection H. Qed.
Ltac break H := apply rbind_ok in H as (? & ? & H).
Ltac breaks H := repeat (let E := fresh "E" in let x := fresh "x" in apply rbind_ok in H as (x & E & H); cbv beta in H).

Section Proofs.
Context {A : arith}.
Variables (c : @conv A) (mu0 : num A) (cpus : Z).

(** the effect of one document on the value of a scalar setting *)
Definition follows {X} (f : text -> option X) (o : option text) (old new : X) : Prop :=
  match o with Some t => f t = Some new | None => new = old end.

Lemma scalar_follows {X} (f : text -> option X) node o old : scalar f node = Ok o ->
  follows f (match node with Some (YScalar s) => Some s | _ => None end) old (keep o old).
Proof.
  unfold scalar, follows. destruct node as [[| s | |]|]; try (intros H; injection H as <-; reflexivity).
  intros H. break H. injection H as <-. destruct (f s) eqn:E; [injection H0 as <-; reflexivity|discriminate].
Qed.

Lemma child_scalar (y : yaml) key n : child y (txt key) = Ok n -> match y with YScalar _ => False | YMap m => n = assoc (txt key) m | _ => n = None end.
Proof. destruct y; cbn [child]; intros H; try discriminate; now apply ok_inj in H. Qed.

(** the same for a section of the document *)
Lemma section_follows {X Y} (f : text -> option Y) sec key doc n (old new : X) (rd : yaml -> res X) (g : X -> Y) :
  child doc (txt sec) = Ok n -> section n old rd = Ok new ->
  (forall y, rd y = Ok new -> match y with
    | YScalar _ => False
    | YMap m => follows f (match assoc (txt key) m with Some (YScalar s) => Some s | _ => None end) (g old) (g new)
    | _ => g new = g old end) ->
  follows f (scalar_at sec key doc) (g old) (g new).
Proof.
  intros Hc Hs Hr. unfold scalar_at, node_at. apply child_scalar in Hc. destruct doc as [|s|l|d]; [subst n| destruct Hc | subst n | ].
  - injection Hs as ->. reflexivity.
  - injection Hs as ->. reflexivity.
  - subst n. destruct (assoc (txt sec) d) as [[|s|l|m]|]; cbn [section] in Hs.
    + injection Hs as ->. reflexivity.
    + apply Hr in Hs. destruct Hs.
    + apply Hr in Hs. exact Hs.
    + apply Hr in Hs. exact Hs.
    + injection Hs as ->. reflexivity.
Qed.

(** the readers of the sections *)
Ltac clean_child := repeat match goal with E : child (YMap _) _ = Ok ?v |- _ => cbn [child] in E; apply ok_inj in E; subst v end.

Lemma read_outputs_keys (o o' : @outputs_t A) y : read_outputs c o y = Ok o' -> match y with
  | YMap m => follows (as_double c) (match assoc (txt "evol_time_step") m with Some (YScalar s) => Some s | _ => None end) (o_step o) (o_step o') /\
              follows (as_double c) (match assoc (txt "final_time") m with Some (YScalar s) => Some s | _ => None end) (o_tf o) (o_tf o') /\
              follows (fun d => Some (normalize_dir d)) (match assoc (txt "directory") m with Some (YScalar s) => Some s | _ => None end) (o_dir o) (o_dir o') /\
              follows Some (match assoc (txt "file_basename") m with Some (YScalar s) => Some s | _ => None end) (o_sim o) (o_sim o') /\
              period_setting (as_int c) (match assoc (txt "mag_config_every") m with Some (YScalar s) => Some s | _ => None end) (o_period o) = Some (o_period o') /\
              (match assoc (txt "evol_columns") m with Some (YSeq l) => strings c l = Ok (o_columns o') | _ => o_columns o' = o_columns o end)
  | _ => False end.
Proof.
  unfold read_outputs. destruct y as [| |l|m]; cbn [is_map negb]; try discriminate. intros H. breaks H. clean_child.
  injection H as <-. cbn [o_step o_tf o_dir o_sim o_period o_columns].
  repeat split.
  - now apply scalar_follows.
  - now apply scalar_follows.
  - unfold follows. destruct (assoc (txt "directory") m) as [[|d| |]|]; cbn [scalar get rbind] in E0; injection E0 as <-; reflexivity.
  - now apply scalar_follows.
  - clear -E8. unfold period_setting. destruct (assoc (txt "mag_config_every") m) as [[|s| |]|]; try (injection E8 as <-; reflexivity).
    destruct (text_eqb s (txt "true")); [discriminate|]. destruct (text_eqb s (txt "false")); [injection E8 as <-; reflexivity|].
    break E8. injection E8 as <-. destruct (as_int c s); [injection H as <-; reflexivity|discriminate].
  - clear -E10. destruct (assoc (txt "evol_columns") m) as [[|s|l|]|]; try discriminate; try (injection E10 as <-; reflexivity). exact E10.
Qed.

Lemma read_mesh_keys (o o' : @mesh_t A) y : read_mesh c mu0 o y = Ok o' -> match y with
  | YMap m => follows (as_double c) (match assoc (txt "length_unit") m with Some (YScalar s) => Some s | _ => None end) (m_scale o) (m_scale o') /\
              follows Some (match assoc (txt "filename") m with Some (YScalar s) => Some s | _ => None end) (m_pb o) (m_pb o') /\
              regions t_name zero_tetra (read_tetra c mu0) (assoc (txt "volume_regions") m) (m_tetra o) = Ok (m_tetra o') /\
              regions s_name zero_tri (read_tri c) (assoc (txt "surface_regions") m) (m_tri o) = Ok (m_tri o') /\
              (forall s x, assoc (txt "length_unit") m = Some (YScalar s) -> as_double c s = Some x -> nle x n0 = false)
  | _ => False end.
Proof.
  unfold read_mesh. destruct y as [| |l|m]; cbn [is_map negb]; try discriminate. intros H.
  breaks H. destruct (match x2 with Some x => nle x n0 | None => false end) eqn:Esc; [discriminate|]. breaks H. clean_child.
  injection H as <-. cbn [m_scale m_pb m_tetra m_tri].
  split; [now apply scalar_follows|]. split; [now apply scalar_follows|]. split; [assumption|]. split; [assumption|].
  intros s x Hs Hx. rewrite Hs in E2. cbn [scalar] in E2. break E2. injection E2 as <-. rewrite Hx in H. injection H as <-. exact Esc.
Qed.

Lemma read_rec_keys (o o' : @rec_t A) y : read_rec c o y = Ok o' -> match y with
  | YScalar _ => False
  | YMap m => follows (as_bool c) (match assoc (txt "enable") m with Some (YScalar s) => Some s | _ => None end) (r_enable o) (r_enable o') /\
              follows (as_double c) (match assoc (txt "threshold") m with Some (YScalar s) => Some s | _ => None end) (r_threshold o) (r_threshold o')
  | _ => r_enable o' = r_enable o /\ r_threshold o' = r_threshold o end.
Proof.
  unfold read_rec. destruct y as [|s|l|m]; cbn [child]; intros H; try discriminate; breaks H;
    repeat match goal with E : Ok _ = Ok _ |- _ => apply ok_inj in E; try subst end; cbn [r_enable r_threshold].
  - cbn [scalar] in *. repeat match goal with E : Ok _ = Ok _ |- _ => apply ok_inj in E; try subst end. auto.
  - cbn [scalar] in *. repeat match goal with E : Ok _ = Ok _ |- _ => apply ok_inj in E; try subst end. auto.
  - split; now apply scalar_follows.
Qed.

Lemma read_spin_keys o o' y : read_spin c o y = Ok o' -> match y with
  | YScalar _ => False
  | YMap m => follows (as_bool c) (match assoc (txt "enable") m with Some (YScalar s) => Some s | _ => None end) (a_enable o) (a_enable o') /\
              follows (as_bool c) (match assoc (txt "V_file") m with Some (YScalar s) => Some s | _ => None end) (a_V_file o) (a_V_file o')
  | _ => a_enable o' = a_enable o /\ a_V_file o' = a_V_file o end.
Proof.
  unfold read_spin. destruct y as [|s|l|m]; cbn [child]; intros H; try discriminate; breaks H;
    repeat match goal with E : Ok _ = Ok _ |- _ => apply ok_inj in E; try subst end; cbn [a_enable a_V_file].
  - cbn [scalar] in *. repeat match goal with E : Ok _ = Ok _ |- _ => apply ok_inj in E; try subst end. auto.
  - cbn [scalar] in *. repeat match goal with E : Ok _ = Ok _ |- _ => apply ok_inj in E; try subst end. auto.
  - split; now apply scalar_follows.
Qed.

Lemma read_solver_keys (o o' : @solver_t A) y : read_solver c o y = Ok o' -> match y with
  | YScalar _ => False
  | YMap m => follows (as_int c) (match assoc (txt "max(iter)") m with Some (YScalar s) => Some s | _ => None end) (v_maxiter o) (v_maxiter o') /\
              follows (as_double c) (match assoc (txt "tolerance") m with Some (YScalar s) => Some s | _ => None end) (v_tol o) (v_tol o')
  | _ => v_maxiter o' = v_maxiter o /\ v_tol o' = v_tol o end.
Proof.
  unfold read_solver. destruct y as [|s|l|m]; cbn [child]; intros H; try discriminate; breaks H;
    repeat match goal with E : Ok _ = Ok _ |- _ => apply ok_inj in E; try subst end; cbn [v_maxiter v_tol].
  - cbn [scalar] in *. repeat match goal with E : Ok _ = Ok _ |- _ => apply ok_inj in E; try subst end. auto.
  - cbn [scalar] in *. repeat match goal with E : Ok _ = Ok _ |- _ => apply ok_inj in E; try subst end. auto.
  - split; now apply scalar_follows.
Qed.

Lemma read_time_keys (o o' : @time_t A) y : read_time c o y = Ok o' -> match y with
  | YScalar _ => False
  | YMap m => follows (as_double c) (match assoc (txt "max(du)") m with Some (YScalar s) => Some s | _ => None end) (i_dumax o) (i_dumax o') /\
              follows (as_double c) (match assoc (txt "min(dt)") m with Some (YScalar s) => Some s | _ => None end) (i_dt_min o) (i_dt_min o') /\
              follows (as_double c) (match assoc (txt "max(dt)") m with Some (YScalar s) => Some s | _ => None end) (i_dt_max o) (i_dt_max o')
  | _ => i_dumax o' = i_dumax o /\ i_dt_min o' = i_dt_min o /\ i_dt_max o' = i_dt_max o end.
Proof.
  unfold read_time. destruct y as [|s|l|m]; cbn [child]; intros H; try discriminate; breaks H;
    repeat match goal with E : Ok _ = Ok _ |- _ => apply ok_inj in E; try subst end; cbn [i_dumax i_dt_min i_dt_max].
  - cbn [scalar] in *. repeat match goal with E : Ok _ = Ok _ |- _ => apply ok_inj in E; try subst end. auto.
  - cbn [scalar] in *. repeat match goal with E : Ok _ = Ok _ |- _ => apply ok_inj in E; try subst end. auto.
  - split; [|split]; now apply scalar_follows.
Qed.

Lemma read_threads_keys o o' y : read_threads c cpus o y = Ok o' -> match y with
  | YScalar _ => False
  | YMap m => exists n, follows (as_int c) (match assoc (txt "nb_threads") m with Some (YScalar s) => Some s | _ => None end) o n /\ o' = if (n <=? 0)%Z then cpus else n
  | _ => o' = if (o <=? 0)%Z then cpus else o end.
Proof.
  unfold read_threads. destruct y as [|s|l|m]; cbn [child]; intros H; try discriminate; breaks H;
    repeat match goal with E : Ok _ = Ok _ |- _ => apply ok_inj in E; try subst end.
  - cbn [scalar] in *. repeat match goal with E : Ok _ = Ok _ |- _ => apply ok_inj in E; try subst end. reflexivity.
  - cbn [scalar] in *. repeat match goal with E : Ok _ = Ok _ |- _ => apply ok_inj in E; try subst end. reflexivity.
  - eexists. split; [eapply scalar_follows; eassumption|reflexivity].
Qed.

(** what one document does to the settings *)
Record one_document (s s' : @settings A) (doc : yaml) : Prop := {
  d_double : forall sec key g, In (sec, key, g) double_settings -> follows (as_double c) (scalar_at sec key doc) (g s) (g s');
  d_int : forall sec key g, In (sec, key, g) int_settings -> follows (as_int c) (scalar_at sec key doc) (g s) (g s');
  d_bool : forall sec key g, In (sec, key, g) bool_settings -> follows (as_bool c) (scalar_at sec key doc) (g s) (g s');
  d_string : forall sec key g, In (sec, key, g) string_settings -> follows Some (scalar_at sec key doc) (g s) (g s');
  d_time : follows (as_double c) (top_scalar "initial_time" doc) (initial_time s) (initial_time s');
  d_dir : follows (fun d => Some (normalize_dir d)) (scalar_at "outputs" "directory" doc) (o_dir (outputs s)) (o_dir (outputs s'));
  d_period : period_setting (as_int c) (scalar_at "outputs" "mag_config_every" doc) (o_period (outputs s)) = Some (o_period (outputs s'));
  d_columns : match node_at "outputs" "evol_columns" doc with Some (YSeq l) => strings c l = Ok (o_columns (outputs s')) | _ => o_columns (outputs s') = o_columns (outputs s) end;
  d_sim : exists base, follows Some (scalar_at "outputs" "file_basename" doc) (o_sim (outputs s)) base /\ o_sim (outputs s') = sim_name base (m_pb (mesh s'));
  d_tetra : regions t_name zero_tetra (read_tetra c mu0) (node_at "mesh" "volume_regions" doc) (m_tetra (mesh s)) = Ok (m_tetra (mesh s'));
  d_tri : regions s_name zero_tri (read_tri c) (node_at "mesh" "surface_regions" doc) (m_tri (mesh s)) = Ok (m_tri (mesh s'))
}.

Lemma read_one s doc s' : read c mu0 cpus s doc = Ok s' -> one_document s s' doc.
Proof.
  unfold read. intros H. breaks H. injection H as <-.
  assert (Out : forall (P : option yaml -> outputs_t -> Prop) key, 
    (forall y, read_outputs c (outputs s) y = Ok x0 -> match y with YMap m => P (assoc (txt key) m) x0 | _ => False end) -> P None (outputs s) -> P (node_at "outputs" key doc) x0).
  { intros P key Hy Hn. unfold node_at. apply child_scalar in E. destruct doc as [|t|l|d]; [subst x|destruct E|subst x|].
    - cbn [section] in E0. injection E0 as <-. exact Hn.
    - cbn [section] in E0. injection E0 as <-. exact Hn.
    - subst x. destruct (assoc (txt "outputs") d) as [[|t|l|m]|]; cbn [section] in E0; try (injection E0 as <-; exact Hn); apply Hy in E0; try destruct E0; exact E0. }
  assert (Me : forall (P : option yaml -> mesh_t -> Prop) key, 
    (forall y, read_mesh c mu0 (mesh s) y = Ok x2 -> match y with YMap m => P (assoc (txt key) m) x2 | _ => False end) -> P None (mesh s) -> P (node_at "mesh" key doc) x2).
  { intros P key Hy Hn. unfold node_at. apply child_scalar in E1. destruct doc as [|t|l|d]; [subst x1|destruct E1|subst x1|].
    - cbn [section] in E2. injection E2 as <-. exact Hn.
    - cbn [section] in E2. injection E2 as <-. exact Hn.
    - subst x1. destruct (assoc (txt "mesh") d) as [[|t|l|m]|]; cbn [section] in E2; try (injection E2 as <-; exact Hn); apply Hy in E2; try destruct E2; exact E2. }
  constructor; cbn [outputs mesh recentering spin solver time_int initial_time o_dir o_sim o_step o_tf o_period o_columns threads].
  - intros sec key g Hg. unfold double_settings in Hg. cbn [In] in Hg.
    repeat match type of Hg with _ \/ _ => destruct Hg as [Hg|Hg] end; try (destruct Hg; fail); injection Hg as <- <- <-; cbn [outputs mesh recentering spin solver time_int o_step o_tf].
    + eapply (section_follows _ _ _ _ _ _ _ _ (fun o => o_step o) E E0). intros y Hy. apply read_outputs_keys in Hy. destruct y; tauto.
    + eapply (section_follows _ _ _ _ _ _ _ _ (fun o => o_tf o) E E0). intros y Hy. apply read_outputs_keys in Hy. destruct y; tauto.
    + eapply (section_follows _ _ _ _ _ _ _ _ (fun o => m_scale o) E1 E2). intros y Hy. apply read_mesh_keys in Hy. destruct y; tauto.
    + eapply (section_follows _ _ _ _ _ _ _ _ (fun o => r_threshold o) E7 E8). intros y Hy. apply read_rec_keys in Hy. destruct y; tauto.
    + eapply (section_follows _ _ _ _ _ _ _ _ (fun o => v_tol o) E15 E16). intros y Hy. apply read_solver_keys in Hy. destruct y; tauto.
    + eapply (section_follows _ _ _ _ _ _ _ _ (fun o => i_dumax o) E17 E18). intros y Hy. apply read_time_keys in Hy. destruct y; tauto.
    + eapply (section_follows _ _ _ _ _ _ _ _ (fun o => i_dt_min o) E17 E18). intros y Hy. apply read_time_keys in Hy. destruct y; tauto.
    + eapply (section_follows _ _ _ _ _ _ _ _ (fun o => i_dt_max o) E17 E18). intros y Hy. apply read_time_keys in Hy. destruct y; tauto.
  - intros sec key g Hg. unfold int_settings in Hg. cbn [In] in Hg. destruct Hg as [Hg|[]]. injection Hg as <- <- <-. cbn [solver].
    eapply (section_follows _ _ _ _ _ _ _ _ (fun o => v_maxiter o) E15 E16). intros y Hy. apply read_solver_keys in Hy. destruct y; tauto.
  - intros sec key g Hg. unfold bool_settings in Hg. cbn [In] in Hg.
    repeat match type of Hg with _ \/ _ => destruct Hg as [Hg|Hg] end; try (destruct Hg; fail); injection Hg as <- <- <-; cbn [recentering spin].
    + eapply (section_follows _ _ _ _ _ _ _ _ (fun o => r_enable o) E7 E8). intros y Hy. apply read_rec_keys in Hy. destruct y; tauto.
    + eapply (section_follows _ _ _ _ _ _ _ _ (fun o => a_enable o) E11 E12). intros y Hy. apply read_spin_keys in Hy. destruct y; tauto.
    + eapply (section_follows _ _ _ _ _ _ _ _ (fun o => a_V_file o) E11 E12). intros y Hy. apply read_spin_keys in Hy. destruct y; tauto.
  - intros sec key g Hg. unfold string_settings in Hg. cbn [In] in Hg. destruct Hg as [Hg|[]]. injection Hg as <- <- <-. cbn [mesh].
    eapply (section_follows _ _ _ _ _ _ _ _ (fun o => m_pb o) E1 E2). intros y Hy. apply read_mesh_keys in Hy. destruct y; tauto.
  - unfold top_scalar. apply child_scalar in E5. pose proof (scalar_follows _ _ _ (initial_time s) E6) as F.
    destruct doc as [|t|l|d]; [subst x5; exact F|destruct E5|subst x5; exact F|subst x5; exact F].
  - eapply (section_follows _ _ _ _ _ _ _ _ (fun o => o_dir o) E E0). intros y Hy. apply read_outputs_keys in Hy. destruct y; tauto.
  - unfold scalar_at. apply (Out (fun n o => period_setting (as_int c) (match n with Some (YScalar t) => Some t | _ => None end) (o_period (outputs s)) = Some (o_period o)) "mag_config_every"%string); [|reflexivity].
    intros y Hy. apply read_outputs_keys in Hy. destruct y; tauto.
  - apply (Out (fun n o => match n with Some (YSeq l) => strings c l = Ok (o_columns o) | _ => o_columns o = o_columns (outputs s) end) "evol_columns"%string); [|reflexivity].
    intros y Hy. apply read_outputs_keys in Hy. destruct y; tauto.
  - exists (o_sim x0). split; [|reflexivity]. eapply (section_follows _ _ _ _ _ _ _ _ (fun o => o_sim o) E E0). intros y Hy. apply read_outputs_keys in Hy. destruct y; tauto.
  - apply (Me (fun n o => regions t_name zero_tetra (read_tetra c mu0) n (m_tetra (mesh s)) = Ok (m_tetra o)) "volume_regions"%string); [|reflexivity].
    intros y Hy. apply read_mesh_keys in Hy. destruct y; tauto.
  - apply (Me (fun n o => regions s_name zero_tri (read_tri c) n (m_tri (mesh s)) = Ok (m_tri o)) "surface_regions"%string); [|reflexivity].
    intros y Hy. apply read_mesh_keys in Hy. destruct y; tauto.
Qed.

Lemma read_all_cons s d docs s' : read_all c mu0 cpus s (d :: docs) = Ok s' -> exists s1, read c mu0 cpus s d = Ok s1 /\ read_all c mu0 cpus s1 docs = Ok s'.
Proof. cbn [read_all]. apply rbind_ok. Qed.

Lemma follows_all {X} (f : text -> option X) (at_doc : yaml -> option text) (g : @settings A -> X) :
  (forall s doc s', read c mu0 cpus s doc = Ok s' -> follows f (at_doc doc) (g s) (g s')) ->
  forall docs s s', read_all c mu0 cpus s docs = Ok s' -> follows f (last_defined at_doc docs) (g s) (g s').
Proof.
  intros H. induction docs as [|d docs IH]; intros s s' R.
  - cbn in R. injection R as <-. reflexivity.
  - apply read_all_cons in R as (s1 & R1 & R2). specialize (IH _ _ R2). specialize (H _ _ _ R1). cbn [last_defined].
    destruct (last_defined at_doc docs); [exact IH|]. cbn [follows] in IH. rewrite IH. exact H.
Qed.

End Proofs.

(** ** C55: reading several documents *)
(** each scalar setting has the value given by the last document that defines it, and its old value when none does *)
Theorem C55_last_definition_partial : forall (A : arith) (c : @conv A) mu0 cpus docs s s',
  read_all c mu0 cpus s docs = Ok s' ->
  (forall sec key g, In (sec, key, g) double_settings ->
     match last_defined (scalar_at sec key) docs with Some t => as_double c t = Some (g s') | None => g s' = g s end) /\
  (forall sec key g, In (sec, key, g) int_settings ->
     match last_defined (scalar_at sec key) docs with Some t => as_int c t = Some (g s') | None => g s' = g s end) /\
  (forall sec key g, In (sec, key, g) bool_settings ->
     match last_defined (scalar_at sec key) docs with Some t => as_bool c t = Some (g s') | None => g s' = g s end) /\
  (forall sec key g, In (sec, key, g) string_settings ->
     match last_defined (scalar_at sec key) docs with Some t => g s' = t | None => g s' = g s end) /\
  match last_defined (top_scalar "initial_time") docs with
    Some t => as_double c t = Some (initial_time s') | None => initial_time s' = initial_time s end /\
  match last_defined (scalar_at "outputs" "directory") docs with
    Some t => o_dir (outputs s') = normalize_dir t | None => o_dir (outputs s') = o_dir (outputs s) end.
Proof.
  intros A c mu0 cpus docs s s' R.
  split; [|split; [|split; [|split; [|split]]]].
  - intros sec key g Hg. apply (follows_all c mu0 cpus (as_double c) (scalar_at sec key) g) with (docs := docs); [|exact R].
    intros s0 doc s1 H. apply read_one in H. now apply (d_double _ _ _ _ _ H).
  - intros sec key g Hg. apply (follows_all c mu0 cpus (as_int c) (scalar_at sec key) g) with (docs := docs); [|exact R].
    intros s0 doc s1 H. apply read_one in H. now apply (d_int _ _ _ _ _ H).
  - intros sec key g Hg. apply (follows_all c mu0 cpus (as_bool c) (scalar_at sec key) g) with (docs := docs); [|exact R].
    intros s0 doc s1 H. apply read_one in H. now apply (d_bool _ _ _ _ _ H).
  - intros sec key g Hg. pose proof (follows_all c mu0 cpus Some (scalar_at sec key) g) as F.
    specialize (F (fun s0 doc s1 H => d_string _ _ _ _ _ (read_one c mu0 cpus _ _ _ H) sec key g Hg) docs s s' R).
    unfold follows in F. destruct (last_defined (scalar_at sec key) docs); [now injection F as ->|exact F].
  - apply (follows_all c mu0 cpus (as_double c) (top_scalar "initial_time") (fun s => initial_time s)) with (docs := docs); [|exact R].
    intros s0 doc s1 H. apply read_one in H. apply (d_time _ _ _ _ _ H).
  - pose proof (follows_all c mu0 cpus (fun d => Some (normalize_dir d)) (scalar_at "outputs" "directory") (fun s => o_dir (outputs s))) as F.
    specialize (F (fun s0 doc s1 H => d_dir _ _ _ _ _ (read_one c mu0 cpus _ _ _ H)) docs s s' R).
    unfold follows in F. destruct (last_defined (scalar_at "outputs" "directory") docs); [now injection F as ->|exact F].
Qed.

(** the columns and the period of the configurations *)
Theorem C55_columns : forall (A : arith) (c : @conv A) mu0 cpus docs s s',
  read_all c mu0 cpus s docs = Ok s' ->
  match last_defined (fun d => match node_at "outputs" "evol_columns" d with Some (YSeq l) => Some l | _ => None end) docs with
  | Some l => map (as_string c) l = map Some (o_columns (outputs s'))
  | None => o_columns (outputs s') = o_columns (outputs s)
  end.
Proof.
  intros A c mu0 cpus docs. induction docs as [|d docs IH]; intros s s' R.
  - cbn in R. injection R as <-. reflexivity.
  - apply read_all_cons in R as (s1 & R1 & R2). specialize (IH _ _ R2). apply read_one in R1. pose proof (d_columns _ _ _ _ _ R1) as D. cbn [last_defined].
    destruct (last_defined _ docs); [exact IH|]. rewrite IH. destruct (node_at "outputs" "evol_columns" d) as [[| |l|]|]; try exact D.
    clear -D. revert D. generalize (o_columns (outputs s1)). induction l as [|y l IH]; intros cols D; cbn [strings] in D; [injection D as <-; reflexivity|].
    break D. break D. injection D as <-. cbn [map]. rewrite (IH _ H0). f_equal. destruct (as_string c y); [now injection H as ->|discriminate].
Qed.

Theorem C55_period : forall (A : arith) (c : @conv A) mu0 cpus docs s s',
  read_all c mu0 cpus s docs = Ok s' ->
  match last_defined (scalar_at "outputs" "mag_config_every") docs with
  | Some t => t <> txt "true" /\
              (t = txt "false" /\ o_period (outputs s') = 0%Z \/
               t <> txt "false" /\ exists p, as_int c t = Some p /\ o_period (outputs s') = Z.max 0 p)
  | None => o_period (outputs s') = o_period (outputs s)
  end.
Proof.
  intros A c mu0 cpus docs. induction docs as [|d docs IH]; intros s s' R.
  - cbn in R. injection R as <-. reflexivity.
  - apply read_all_cons in R as (s1 & R1 & R2). specialize (IH _ _ R2). apply read_one in R1. pose proof (d_period _ _ _ _ _ R1) as D. cbn [last_defined].
    destruct (last_defined _ docs); [exact IH|]. rewrite IH. destruct (scalar_at "outputs" "mag_config_every" d) as [t|]; cbn [period_setting] in D; [|now injection D as <-].
    destruct (text_eqb t (txt "true")) eqn:T; [discriminate|].
    assert (N : forall u, text_eqb t u = false -> t <> u) by (intros u Hu ->; rewrite (proj2 (text_eqb_spec u u) eq_refl) in Hu; discriminate).
    split; [now apply N|]. destruct (text_eqb t (txt "false")) eqn:F.
    + left. apply text_eqb_spec in F. injection D as <-. auto.
    + right. split; [now apply N|]. destruct (as_int c t) as [p|]; [|discriminate]. exists p. split; [reflexivity|]. injection D as <-. destruct (Z.ltb_spec p 0); lia.
Qed.

(** concrete conversions for the examples *)
Definition demo : @conv XA := @mkConv XA (fun t => if text_eqb t (txt "1") then Some (Fin 1%R) else if text_eqb t (txt "2") then Some (Fin 2%R) else None)
  (fun t => if text_eqb t (txt "1") then Some 1%Z else if text_eqb t (txt "-3") then Some (-3)%Z else None)
  (fun t => Some (text_eqb t (txt "true"))) (fun _ => None).
Definition num0 : num XA := Fin 0%R.
Definition num1 : num XA := Fin 1%R.
Definition start : @settings XA := mkSettings (mkOutputs (txt ".") [] num0 num0 100 [txt "t"] []) (mkMesh [] num1 [] [])
  (mkMag [] [] (txt "0") (txt "0") (txt "1") (Expressions (txt "x,y,z") (txt "0") (txt "0") (txt "1"))) num0
  (mkRec false AZ num0) (mkField [] [] [] [] [] [] UNDEF NoSource NoSource NoSource) (mkSpin false false) 4 (mkSolver 700 num0) (mkTime num0 num0 num0).
Definition sec (s k : string) (y : yaml) : yaml := YMap [(txt s, YMap [(txt k, y)])].

(** a document with a recentering section that does not mention the direction sets the direction to Z *)
Theorem C55_direction_refuted : exists s', 
  read_all demo num1 4 start [sec "recentering" "direction" (YScalar (txt "X")); sec "recentering" "enable" (YScalar (txt "true"))] = Ok s' /\
  r_direction (recentering s') = AZ.
Proof. eexists. split; reflexivity. Qed.

(** the magnetization read from a file by one document wins over the expressions of the following ones *)
Theorem C55_magnetization_refuted : exists s',
  read_all demo num1 4 start [YMap [(txt "initial_magnetization", YScalar (txt "old.sol"))];
                        YMap [(txt "initial_magnetization", YSeq [YScalar (txt "1"); YScalar (txt "0"); YScalar (txt "0")])]] = Ok s' /\
  initial_magnetization s' = FromFile (txt "old.sol").
Proof. eexists. split; reflexivity. Qed.

(** the base name deduced from the mesh of one document is kept for the mesh of the following ones *)
Theorem C55_basename_refuted : exists s',
  read_all demo num1 4 start [sec "mesh" "filename" (YScalar (txt "old.msh")); sec "mesh" "filename" (YScalar (txt "new.msh"))] = Ok s' /\
  m_pb (mesh s') = txt "new.msh" /\ o_sim (outputs s') = txt "old".
Proof. eexists. split; [|split]; reflexivity. Qed.

(** a region described by two documents has the parameters of the first one *)
Theorem C55_region_refuted : exists s', let doc v := sec "mesh" "volume_regions" (YMap [(txt "core", YMap [(txt "Ae", YScalar (txt v))])]) in
  read_all demo num1 4 start [doc "1"%string; doc "2"%string] = Ok s' /\
  find_region (map t_name (m_tetra (mesh s'))) (txt "core") = Some 0 /\ map t_A (m_tetra (mesh s')) = [Fin 1%R; Fin 2%R].
Proof. eexists. split; [|split]; reflexivity. Qed.

Example C55_nonvacuous : exists s',
  read_all demo num1 4 start [sec "outputs" "final_time" (YScalar (txt "1")); sec "time_integration" "max(du)" (YScalar (txt "2"));
    YMap [(txt "outputs", YMap [(txt "final_time", YScalar (txt "2")); (txt "mag_config_every", YScalar (txt "-3"))])]] = Ok s' /\
  o_tf (outputs s') = Fin 2%R /\ o_step (outputs s') = num0 /\ i_dumax (time_int s') = Fin 2%R /\ o_period (outputs s') = 0%Z.
Proof. eexists. split; [|repeat split]; reflexivity. Qed.


(** *** the direction of the recentering, the applied field and the initial magnetization *)
(** a section which is there and not null *)
Definition top_node (key : string) (doc : yaml) : option yaml :=
  match doc with YMap d => match assoc (txt key) d with Some YNull => None | o => o end | _ => None end.
Definition axis_names : list (string * axis) := [("X", AX); ("Y", AY); ("Z", AZ)]%string.

Section Whole.
Context {A : arith}.
Variables (c : @conv A) (mu0 : num A) (cpus : Z).

Lemma section_top {X} key doc n (old new : X) (rd : yaml -> res X) : child doc (txt key) = Ok n -> section n old rd = Ok new ->
  match top_node key doc with Some y => rd y = Ok new | None => new = old end.
Proof.
  intros Hc Hs. apply child_scalar in Hc. unfold top_node.
  destruct doc as [|t|l|d]; [subst n; now apply ok_inj in Hs|destruct Hc|subst n; now apply ok_inj in Hs|].
  subst n. destruct (assoc (txt key) d) as [[|t|l|m]|]; cbn [section] in Hs; try exact Hs; now apply ok_inj in Hs.
Qed.

Lemma read_sections s doc s' : read c mu0 cpus s doc = Ok s' ->
  match top_node "recentering" doc with Some y => read_rec c (recentering s) y = Ok (recentering s') | None => recentering s' = recentering s end /\
  match top_node "Bext" doc with Some y => read_field c (field s) y = Ok (field s') | None => field s' = field s end /\
  match top_node "initial_magnetization" doc with Some y => read_mag c (mag s) y = Ok (mag s') | None => mag s' = mag s end /\
  match top_node "demagnetizing_field_solver" doc with Some y => read_threads c cpus (threads s) y = Ok (threads s') | None => threads s' = threads s end.
Proof.
  unfold read. intros H. breaks H. apply ok_inj in H. subst s'. cbn [recentering field mag threads].
  split; [eapply section_top; eassumption|]. split; [eapply section_top; eassumption|]. split; eapply section_top; eassumption.
Qed.

Lemma last_all {X Y} (at_doc : yaml -> option Y) (g : @settings A -> X) (P : Y -> X -> Prop) :
  (forall s doc s', read c mu0 cpus s doc = Ok s' -> match at_doc doc with Some y => P y (g s') | None => g s' = g s end) ->
  forall docs s s', read_all c mu0 cpus s docs = Ok s' ->
  match last_defined at_doc docs with Some y => P y (g s') | None => g s' = g s end.
Proof.
  intros H. induction docs as [|d docs IH]; intros s s' R.
  - cbn in R. apply ok_inj in R. now subst s'.
  - apply read_all_cons in R as (s1 & R1 & R2). specialize (IH _ _ R2). specialize (H _ _ _ R1). cbn [last_defined].
    destruct (last_defined at_doc docs); [exact IH|]. rewrite IH. exact H.
Qed.

Lemma get_ok {X} (o : option X) x : get o = Ok x -> o = Some x.
Proof. destruct o; intros H; [apply ok_inj in H; congruence|discriminate]. Qed.

End Whole.

(** the direction is the one named by the last document with a recentering section, Z when it does not name any *)
Theorem C55_direction : forall (A : arith) (c : @conv A) mu0 cpus docs s s',
  read_all c mu0 cpus s docs = Ok s' ->
  match last_defined (top_node "recentering") docs with
  | Some (YMap m) => match assoc (txt "direction") m with
                     | Some (YScalar t) => exists n, t = txt n /\ In (n, r_direction (recentering s')) axis_names
                     | None => r_direction (recentering s') = AZ
                     | _ => True
                     end
  | Some _ => r_direction (recentering s') = AZ
  | None => r_direction (recentering s') = r_direction (recentering s)
  end.
Proof.
  intros A c mu0 cpus docs s s' R.
  pose proof (last_all c mu0 cpus (top_node "recentering") (fun s => r_direction (recentering s))
    (fun y d => match y with YMap m => match assoc (txt "direction") m with
                     | Some (YScalar t) => exists n, t = txt n /\ In (n, d) axis_names
                     | None => d = AZ | _ => True end | _ => d = AZ end)) as L.
  cbv beta in L. specialize (fun H => L H docs s s' R).
  assert (L' : match last_defined (top_node "recentering") docs with
    | Some y => match y with YMap m => match assoc (txt "direction") m with
                     | Some (YScalar t) => exists n, t = txt n /\ In (n, r_direction (recentering s')) axis_names
                     | None => r_direction (recentering s') = AZ | _ => True end | _ => r_direction (recentering s') = AZ end
    | None => r_direction (recentering s') = r_direction (recentering s) end).
  { apply L. clear. intros s doc s' H. apply read_sections in H as (H & _). destruct (top_node "recentering" doc) as [y|]; [|now rewrite H].
    unfold read_rec in H. breaks H. apply ok_inj in H. rewrite <- H. clear H. cbn [r_direction].
    rename E1 into Ec, E2 into Ed. apply child_scalar in Ec. destruct y as [|t|l|m]; [subst x1|destruct Ec|subst x1|subst x1].
    - cbn in Ed. now apply ok_inj in Ed.
    - cbn in Ed. now apply ok_inj in Ed.
    - destruct (assoc (txt "direction") m) as [[|t|l|k]|]; try exact I.
      + cbn [as_string] in Ed. unfold axis_names. cbn [In].
        destruct (text_eqb t (txt "X")) eqn:T1; [apply text_eqb_spec in T1; apply ok_inj in Ed; subst; exists "X"%string; auto|].
        destruct (text_eqb t (txt "Y")) eqn:T2; [apply text_eqb_spec in T2; apply ok_inj in Ed; subst; exists "Y"%string; auto|].
        destruct (text_eqb t (txt "Z")) eqn:T3; [apply text_eqb_spec in T3; apply ok_inj in Ed; subst; exists "Z"%string; auto|]. discriminate.
      + cbn in Ed. now apply ok_inj in Ed. }
  destruct (last_defined (top_node "recentering") docs) as [[| | |]|]; exact L'.
Qed.

(** the applied field is that of the last document that gives one: a function of time, three expressions, or a function
    of space and a function of time *)
Definition field_of {A : arith} (c : @conv A) (y : yaml) (f : @field_t) : Prop :=
  match y with
  | YScalar t => f_kind f = RtoR3 /\ f_parser f = FunctionSource t
  | YSeq l => exists ex ey ez, map (as_string c) l = [Some ex; Some ey; Some ez] /\ f_kind f = RtoR3 /\ f_parser f = Expressions (txt "t") ex ey ez
  | YMap m => f_kind f = R4toR3 /\ (forall t, assoc (txt "space") m = Some (YScalar t) -> f_space_parser f = FunctionSource t) /\
              (forall t, assoc (txt "time") m = Some (YScalar t) -> f_time_parser f = FunctionSource t)
  | YNull => False
  end.
Theorem C55_field : forall (A : arith) (c : @conv A) mu0 cpus docs s s',
  read_all c mu0 cpus s docs = Ok s' ->
  match last_defined (top_node "Bext") docs with Some y => field_of c y (field s') | None => field s' = field s end.
Proof.
  intros A c mu0 cpus docs s s' R. apply (last_all c mu0 cpus (top_node "Bext") (fun s => field s) (field_of c)) with (docs := docs) (s := s); [|exact R].
  clear. intros s doc s' H. apply read_sections in H as (_ & H & _). unfold top_node in *.
  assert (G : forall y f', y <> YNull -> read_field c (field s) y = Ok f' -> field_of c y f').
  { clear. intros y f' Hy H. destruct y as [|t|l|m]; [congruence| | |].
    - cbn [read_field] in H. apply ok_inj in H. subst f'. split; reflexivity.
    - destruct l as [|y1 [|y2 [|y3 [|y4 l]]]]; try discriminate. cbn [read_field] in H. breaks H. apply ok_inj in H. subst f'.
      apply get_ok in E, E0, E1. exists x, x0, x1. cbn [map]. rewrite E, E0, E1. repeat split.
    - cbn [read_field child rbind] in H. destruct (assoc (txt "space") m) as [sp|] eqn:Es; [|discriminate].
      destruct (assoc (txt "time") m) as [ti|] eqn:Et; [|discriminate]. apply ok_inj in H. subst f'. cbn [field_of f_kind f_space_parser f_time_parser]. split; [reflexivity|]. split.
      + intros t E. rewrite Es in E. injection E as ->. destruct ti; reflexivity.
      + intros t E. rewrite Et in E. injection E as ->. destruct sp; reflexivity. }
  destruct doc as [|t|l|d]; try exact H. destruct (assoc (txt "Bext") d) as [[|t|l|m]|]; try exact H; apply G; try discriminate; exact H.
Qed.

(** the initial magnetization is that of the last document that gives one, as long as no earlier one names a file *)
Definition is_function (t : text) : bool := match find_first (txt "function") t, find_first (txt "{") t with Some _, Some _ => true | _, _ => false end.
Definition names_file (y : yaml) : bool := match y with YScalar t => negb (is_function t) | _ => false end.
Definition magnetization_of {A : arith} (c : @conv A) (y : yaml) (g : origin) : Prop :=
  match y with
  | YScalar t => if is_function t then g = FromExpression (FunctionSource t) else t <> [] -> g = FromFile t
  | YSeq l => exists ex ey ez, map (as_string c) l = [Some ex; Some ey; Some ez] /\ g = FromExpression (Expressions (txt "x,y,z") ex ey ez)
  | _ => False
  end.
Theorem C55_magnetization_partial : forall (A : arith) (c : @conv A) mu0 cpus docs doc s s' y,
  read_all c mu0 cpus s (docs ++ [doc]) = Ok s' -> g_restore (mag s) = [] ->
  (forall d y, In d docs -> top_node "initial_magnetization" d = Some y -> names_file y = false) ->
  top_node "initial_magnetization" doc = Some y -> magnetization_of c y (initial_magnetization s').
Proof.
  intros A c mu0 cpus docs doc s s' y R Hr Hd Hy. revert s R Hr.
  assert (M : forall s d s', read c mu0 cpus s d = Ok s' -> match top_node "initial_magnetization" d with Some y => read_mag c (mag s) y = Ok (mag s') | None => mag s' = mag s end).
  { intros s d s1 H. now apply read_sections in H as (_ & _ & H & _). }
  induction docs as [|d docs IH]; intros s R Hr.
  - cbn [app] in R. apply read_all_cons in R as (s1 & R1 & R2). cbn in R2. apply ok_inj in R2. subst s1. apply M in R1. rewrite Hy in R1.
    unfold initial_magnetization. unfold magnetization_of. destruct y as [|t|l|m]; cbn [read_mag] in R1; try discriminate.
    + unfold is_function. destruct (find_first (txt "function") t), (find_first (txt "{") t); apply ok_inj in R1; rewrite <- R1; cbn [g_restore g_parser];
        try (rewrite Hr; reflexivity); destruct t; congruence.
    + destruct l as [|y1 [|y2 [|y3 [|y4 l]]]]; try discriminate. breaks R1. apply ok_inj in R1. rewrite <- R1. cbn [g_restore g_parser]. rewrite Hr.
      apply get_ok in E, E0, E1. exists x, x0, x1. cbn [map]. rewrite E, E0, E1. split; reflexivity.
  - cbn [app] in R. apply read_all_cons in R as (s1 & R1 & R2). apply (IH (fun d0 y0 Hin => Hd d0 y0 (or_intror Hin)) s1 R2).
    apply M in R1. destruct (top_node "initial_magnetization" d) as [y0|] eqn:E0; [|now rewrite R1].
    specialize (Hd d y0 (or_introl eq_refl) E0). destruct y0 as [|t|l|m]; cbn [read_mag] in R1; try discriminate.
    + unfold names_file, is_function in Hd. destruct (find_first (txt "function") t), (find_first (txt "{") t); try discriminate. apply ok_inj in R1. now rewrite <- R1.
    + destruct l as [|y1 [|y2 [|y3 [|y4 l]]]]; try discriminate. breaks R1. apply ok_inj in R1. now rewrite <- R1.
Qed.

(** the number of threads: that of the last document that gives it, the number of processors when it is not positive *)
Theorem C55_threads : forall (A : arith) (c : @conv A) mu0 cpus docs s s',
  read_all c mu0 cpus s docs = Ok s' -> (0 < threads s)%Z -> (0 < cpus)%Z ->
  match last_defined (scalar_at "demagnetizing_field_solver" "nb_threads") docs with
  | Some t => exists n, as_int c t = Some n /\ threads s' = if (n <=? 0)%Z then cpus else n
  | None => threads s' = threads s
  end.
Proof.
  intros A c mu0 cpus docs s s' R P Hc.
  revert s R P. induction docs as [|d docs IH]; intros s R P.
  - cbn in R. apply ok_inj in R. now subst s'.
  - apply read_all_cons in R as (s1 & R1 & R2). apply read_sections in R1 as (_ & _ & _ & R1). cbn [last_defined].
    assert (O : (0 < threads s1)%Z /\ match scalar_at "demagnetizing_field_solver" "nb_threads" d with
      Some t => exists n, as_int c t = Some n /\ threads s1 = if (n <=? 0)%Z then cpus else n | None => threads s1 = threads s end).
    { assert (Z0 : forall n, (0 < if (n <=? 0)%Z then cpus else n)%Z) by (intros n; destruct (Z.leb_spec n 0); lia).
      unfold top_node in R1. unfold scalar_at, node_at. destruct d as [|t|l|m]; try (rewrite R1; now split).
      destruct (assoc (txt "demagnetizing_field_solver") m) as [[|t|l|k]|]; try (rewrite R1; now split); apply read_threads_keys in R1.
      - destruct R1.
      - rewrite R1. split; [apply Z0|]. destruct (Z.leb_spec (threads s) 0); lia.
      - destruct R1 as (n & F & ->). split; [apply Z0|]. unfold follows in F. destruct (assoc (txt "nb_threads") k) as [[|t|l|k']|]; try (subst n; destruct (Z.leb_spec (threads s) 0); lia); eauto. }
    destruct O as [P1 O]. specialize (IH s1 R2 P1). destruct (last_defined _ docs); [exact IH|]. rewrite IH. exact O.
Qed.

Example C55_whole_nonvacuous : exists s',
  read_all demo num1 4 start [YMap [(txt "recentering", YMap [(txt "direction", YScalar (txt "Y"))]);
     (txt "Bext", YSeq [YScalar (txt "0"); YScalar (txt "1e-3*t"); YScalar (txt "0.1")]);
     (txt "initial_magnetization", YSeq [YScalar (txt "1"); YScalar (txt "x"); YScalar (txt "0")]);
     (txt "demagnetizing_field_solver", YMap [(txt "nb_threads", YScalar (txt "-3"))])]] = Ok s' /\
  r_direction (recentering s') = AY /\ threads s' = 4%Z /\
  initial_magnetization s' = FromExpression (Expressions (txt "x,y,z") (txt "1") (txt "x") (txt "0")).
Proof. eexists. split; [reflexivity|]. repeat split. Qed.

(** ** C56: the regions *)
(** specification: what an entry says about a key *)
Definition entry (key : string) (body : yaml) : option yaml := match body with YMap m => assoc (txt key) m | _ => None end.
Definition entry_scalar (key : string) (body : yaml) : option text := match entry key body with Some (YScalar t) => Some t | _ => None end.

Section Regions.
Context {A : arith}.
Variables (c : @conv A) (mu0 : num A) (cpus : Z).

Definition tetra_numbers : list (string * (@tetra_prm A -> num A)) :=
  [("Ae", t_A); ("K", t_K); ("K3", t_K3); ("alpha_LLG", t_alpha); ("sigma", t_sigma); ("dens_state", t_N0); ("P", t_P); ("l_sd", t_lsd); ("l_sf", t_lsf)]%string.
Definition tetra_axes : list (string * (@tetra_prm A -> @vec3 A)) := [("uk", t_uk); ("ex", t_ex); ("ey", t_ey); ("ez", t_ez)]%string.

(** a number is that of the entry, or that of the default region *)
Definition own_or {X} (f : text -> option X) (key : string) (body : yaml) (default value : X) : Prop :=
  match entry_scalar key body with Some t => f t = Some value | None => value = default end.
(** a vector is given as a sequence of three numbers, and normalised *)
Definition own_vector (norm : @vec3 A -> @vec3 A) (key : string) (body : yaml) (default value : @vec3 A) : Prop :=
  match entry key body with
  | None | Some YNull => value = default
  | Some y => exists a b d x1 x2 x3, y = YSeq [YScalar a; YScalar b; YScalar d] /\
      as_double c a = Some x1 /\ as_double c b = Some x2 /\ as_double c d = Some x3 /\ value = norm (x1, x2, x3)
  end.

(** a volume region [p] made of the entry [body] and of the default region [D] *)
Definition volume_region (D : @tetra_prm A) (name : text) (body : yaml) (p : @tetra_prm A) : Prop :=
  t_name p = name /\
  (forall key g, In (key, g) tetra_numbers -> own_or (as_double c) key body (g D) (g p)) /\
  (forall key g, In (key, g) tetra_axes -> own_vector normalize3 key body (g D) (g p)) /\
  match entry_scalar "Ms" body, entry_scalar "Js" body with
  | Some t, None => as_double c t = Some (t_Ms p)
  | None, Some t => exists js, as_double c t = Some js /\ t_Ms p = ndiv js mu0
  | None, None => t_Ms p = t_Ms D
  | Some _, Some _ => False
  end.
(** a surface region: the boundary values are not inherited *)
Definition surface_region (D : @tri_prm A) (name : text) (body : yaml) (p : @tri_prm A) : Prop :=
  s_name p = name /\
  own_or (as_bool c) "suppress_charges" body (s_suppress D) (s_suppress p) /\
  own_or (as_double c) "Ks" body (s_Ks D) (s_Ks p) /\
  own_vector normalize3 "uk" body (s_uk D) (s_uk p) /\
  own_or (as_double c) "jn" body nan (s_jn p) /\ own_or (as_double c) "V" body nan (s_V p) /\
  own_vector normalize3 "uP" body nan3 (s_uP p) /\ own_vector (fun v => v) "s" body nan3 (s_s p) /\
  (nisnan (s_jn p) = true \/ nisnan (s_V p) = true).

Lemma scalar_own {X} (f : text -> option X) key body n o (default : X) : child body (txt key) = Ok n -> scalar f n = Ok o ->
  own_or f key body default (keep o default).
Proof.
  intros Hc Hs. unfold own_or, entry_scalar, entry. apply child_scalar in Hc. apply (scalar_follows _ _ _ default) in Hs.
  destruct body; [subst n; exact Hs|destruct Hc|subst n; exact Hs|subst n; exact Hs].
Qed.

Lemma vector_own b key body n o default : child body (txt key) = Ok n -> vector c b n = Ok o ->
  own_vector (if b then normalize3 else fun v => v) key body default (keep o default).
Proof.
  intros Hc Hs. unfold own_vector, entry. apply child_scalar in Hc.
  assert (G : forall n, vector c b n = Ok o -> match n with None | Some YNull => keep o default = default
     | Some y => exists a b0 d x1 x2 x3, y = YSeq [YScalar a; YScalar b0; YScalar d] /\
      as_double c a = Some x1 /\ as_double c b0 = Some x2 /\ as_double c d = Some x3 /\ keep o default = (if b then normalize3 else fun v => v) (x1, x2, x3) end).
  { clear. intros n H. unfold vector in H. destruct n as [[|t|l|m]|]; try discriminate; try (apply ok_inj in H; subst o; reflexivity).
    destruct l as [|y1 [|y2 [|y3 [|y4 l]]]]; try discriminate.
    break H. break H. break H. apply ok_inj in H. subst o.
    assert (N : forall y v, scalar_double c y = Ok v -> exists t, y = YScalar t /\ as_double c t = Some v).
    { intros y v Hy. destruct y; try discriminate. cbn [scalar_double get] in Hy. eexists. split; [reflexivity|]. destruct (as_double c s); [now injection Hy as ->|discriminate]. }
    apply N in H0 as (t1 & -> & K1). apply N in H1 as (t2 & -> & K2). apply N in H2 as (t3 & -> & K3).
    do 6 eexists. split; [reflexivity|]. split; [exact K1|]. split; [exact K2|]. split; [exact K3|]. destruct b; reflexivity. }
  specialize (G n Hs). destruct body; [subst n; exact G|destruct Hc|subst n; exact G|subst n; exact G].
Qed.

Lemma read_tetra_ok D name body p : read_tetra c mu0 D name body = Ok p -> volume_region D name body p.
Proof.
  unfold read_tetra. intros H. breaks H.
  assert (Hms : match x2 with Some _ => exists t, entry_scalar "Ms" body = Some t | None => entry_scalar "Ms" body = None end).
  { pose proof (scalar_own _ _ _ _ _ (t_Ms D) E1 E2) as F. unfold own_or in F.
    apply child_scalar in E1. unfold entry_scalar, entry in *. destruct body as [| | |m]; [subst x1|destruct E1|subst x1|subst x1];
      try (injection E2 as <-; reflexivity). destruct (assoc (txt "Ms") m) as [[|t| |]|]; cbn [scalar] in E2; try (apply ok_inj in E2; subst x2; reflexivity).
    destruct x2; [eauto|]. break E2. discriminate. }
  assert (Hjs : match x4 with Some v => exists t, entry_scalar "Js" body = Some t /\ as_double c t = Some v | None => entry_scalar "Js" body = None end).
  { pose proof (scalar_own _ _ _ _ _ (t_Ms D) E3 E4) as F. unfold own_or in F.
    apply child_scalar in E3. unfold entry_scalar, entry in *. destruct body as [| | |m]; [subst x3|destruct E3|subst x3|subst x3];
      try (injection E4 as <-; reflexivity). destruct (assoc (txt "Js") m) as [[|t| |]|]; cbn [scalar] in E4; try (apply ok_inj in E4; subst x4; reflexivity).
    break E4. apply ok_inj in E4. subst x4. cbn [keep] in F. eauto. }
  assert (K : forall p', (match x4 with Some js => ndiv js mu0 | None => keep x2 (t_Ms D) end) = t_Ms p' -> (x2 = None \/ x4 = None) ->
     match entry_scalar "Ms" body, entry_scalar "Js" body with
     | Some t, None => as_double c t = Some (t_Ms p')
     | None, Some t => exists js, as_double c t = Some js /\ t_Ms p' = ndiv js mu0
     | None, None => t_Ms p' = t_Ms D
     | Some _, Some _ => False end).
  { intros p' <- Hn. pose proof (scalar_own _ _ _ _ _ (t_Ms D) E1 E2) as F. unfold own_or in F.
    destruct x2 as [ms|], x4 as [js|].
    - destruct Hn; discriminate.
    - destruct Hms as (t & Hms). rewrite Hms, Hjs in *. exact F.
    - destruct Hjs as (t & Hjs & Hv). rewrite Hms, Hjs. eauto.
    - rewrite Hms, Hjs. reflexivity. }
  assert (C : (x2 = None \/ x4 = None)) by (destruct x2, x4; auto; discriminate).
  assert (H' : (let! n := child body (txt "K") in let! k := scalar (as_double c) n in
  let! n := child body (txt "uk") in let! uk := vector c true n in
  let! n := child body (txt "K3") in let! k3 := scalar (as_double c) n in
  let! n := child body (txt "ex") in let! ex := vector c true n in
  let! n := child body (txt "ey") in let! ey := vector c true n in
  let! n := child body (txt "ez") in let! ez := vector c true n in
  let! n := child body (txt "alpha_LLG") in let! alpha := scalar (as_double c) n in
  let! n := child body (txt "sigma") in let! sigma := scalar (as_double c) n in
  let! n := child body (txt "dens_state") in let! n0 := scalar (as_double c) n in
  let! n := child body (txt "P") in let! p := scalar (as_double c) n in
  let! n := child body (txt "l_sd") in let! lsd := scalar (as_double c) n in
  let! n := child body (txt "l_sf") in let! lsf := scalar (as_double c) n in
  Ok (mkTetra name (keep alpha (t_alpha D)) (keep x0 (t_A D))
        (match x4 with Some js => ndiv js mu0 | None => keep x2 (t_Ms D) end)
        (keep k (t_K D)) (keep uk (t_uk D)) (keep k3 (t_K3 D)) (keep ex (t_ex D)) (keep ey (t_ey D)) (keep ez (t_ez D))
        (keep p (t_P D)) (keep n0 (t_N0 D)) (keep sigma (t_sigma D)) (keep lsd (t_lsd D)) (keep lsf (t_lsf D)))) = Ok p).
  { destruct x2, x4; try exact H. discriminate. }
  clear H. rename H' into H. breaks H. apply ok_inj in H. subst p.
  split; [reflexivity|]. split; [|split].
  - intros key g Hg. unfold tetra_numbers in Hg. cbn [In] in Hg.
    repeat match type of Hg with _ \/ _ => destruct Hg as [Hg|Hg] end; try (destruct Hg; fail); injection Hg as <- <-;
      cbn [t_A t_K t_K3 t_alpha t_sigma t_N0 t_P t_lsd t_lsf]; eapply scalar_own; eassumption.
  - intros key g Hg. unfold tetra_axes in Hg. cbn [In] in Hg.
    repeat match type of Hg with _ \/ _ => destruct Hg as [Hg|Hg] end; try (destruct Hg; fail); injection Hg as <- <-;
      cbn [t_uk t_ex t_ey t_ez]; eapply (vector_own true); eassumption.
  - apply K; [reflexivity|exact C].
Qed.

Lemma read_tri_ok D name body p : read_tri c D name body = Ok p -> surface_region D name body p.
Proof.
  unfold read_tri. intros H. breaks H. destruct (negb (nisnan (keep x6 nan)) && negb (nisnan (keep x8 nan))) eqn:N; [discriminate|].
  breaks H. apply ok_inj in H. subst p. unfold surface_region. cbn [s_name s_suppress s_Ks s_uk s_jn s_V s_uP s_s].
  split; [reflexivity|]. split; [eapply scalar_own; eassumption|]. split; [eapply scalar_own; eassumption|].
  split; [eapply (vector_own true); eassumption|]. split; [eapply scalar_own; eassumption|]. split; [eapply scalar_own; eassumption|].
  split; [eapply (vector_own true); eassumption|]. split; [eapply (vector_own false); eassumption|].
  apply andb_false_iff in N as [N|N]; apply negb_false_iff in N; auto.
Qed.

(** the regions known after a document: those known before, unchanged, followed by one region per entry in the order of
    the document *)
Definition first_default {P} (name : P -> text) (ps : list P) (D : P) : Prop :=
  exists i, nth_error ps i = Some D /\ name D = txt "__default__" /\ forall j q, j < i -> nth_error ps j = Some q -> name q <> txt "__default__".

Lemma default_first {P} (name : P -> text) zero ps D : first_default name ps D -> default_of name zero ps = D.
Proof.
  intros (i & Hi & Hn & Hj). unfold default_of.
  assert (F : find_region (map name ps) (txt "__default__") = Some i).
  { apply C62_find_region. split.
    - rewrite nth_error_map, Hi. cbn [option_map]. now rewrite Hn.
    - intros j Lj K. rewrite nth_error_map in K. destruct (nth_error ps j) as [q|] eqn:Q; [|discriminate]. cbn [option_map] in K. injection K as K. exact (Hj _ _ Lj Q K). }
  rewrite F. now apply nth_error_nth.
Qed.

Lemma regions_spec {P} (name : P -> text) zero rd node ps ps' D (Q : text -> yaml -> P -> Prop) :
  first_default name ps D -> (forall n b p, rd D n b = Ok p -> Q n b p) ->
  regions name zero rd node ps = Ok ps' ->
  match node with
  | Some (YMap l) => exists new, ps' = ps ++ new /\ Forall2 (fun e p => Q (fst e) (snd e) p) l new
  | _ => ps' = ps
  end.
Proof.
  intros HD HQ H. unfold regions in H. destruct node as [[|t|l|m]|]; try discriminate; try (now apply ok_inj in H).
  break H. apply ok_inj in H. subst ps'. rewrite (default_first name zero ps D HD) in H0. exists x. split; [reflexivity|].
  revert x H0. induction m as [|(n, b) m IH]; intros new H; cbn [read_regions] in H; [apply ok_inj in H; subst new; constructor|].
  break H. break H. apply ok_inj in H. subst new. constructor; [now apply HQ|now apply IH].
Qed.

End Regions.

(** *** every region of a document has its own values, else those of the default region *)
Theorem C56_regions : forall (A : arith) (c : @conv A) mu0 cpus s doc s' Dt Ds,
  read c mu0 cpus s doc = Ok s' ->
  first_default t_name (m_tetra (mesh s)) Dt -> first_default s_name (m_tri (mesh s)) Ds ->
  match node_at "mesh" "volume_regions" doc with
  | Some (YMap l) => exists new, m_tetra (mesh s') = m_tetra (mesh s) ++ new /\ Forall2 (fun e p => volume_region c mu0 Dt (fst e) (snd e) p) l new
  | _ => m_tetra (mesh s') = m_tetra (mesh s)
  end /\
  match node_at "mesh" "surface_regions" doc with
  | Some (YMap l) => exists new, m_tri (mesh s') = m_tri (mesh s) ++ new /\ Forall2 (fun e p => surface_region c Ds (fst e) (snd e) p) l new
  | _ => m_tri (mesh s') = m_tri (mesh s)
  end.
Proof.
  intros A c mu0 cpus s doc s' Dt Ds H Ft Fs. apply read_one in H. split.
  - eapply regions_spec; [exact Ft| |exact (d_tetra _ _ _ _ _ H)]. intros n b p. apply read_tetra_ok.
  - eapply regions_spec; [exact Fs| |exact (d_tri _ _ _ _ _ H)]. intros n b p. apply read_tri_ok.
Qed.

(** *** contradictory definitions are refused, whatever the rest of the document *)
Theorem C56_refused : forall (A : arith) (c : @conv A) mu0 cpus s doc l,
  (node_at "mesh" "volume_regions" doc = Some (YMap l) ->
   (exists name body, In (name, body) l /\ entry_scalar "Ms" body <> None /\ entry_scalar "Js" body <> None) ->
   forall s', read c mu0 cpus s doc <> Ok s') /\
  (node_at "mesh" "surface_regions" doc = Some (YMap l) ->
   (exists name body t1 t2 x1 x2, In (name, body) l /\ entry_scalar "jn" body = Some t1 /\ entry_scalar "V" body = Some t2 /\
      as_double c t1 = Some x1 /\ as_double c t2 = Some x2 /\ nisnan x1 = false /\ nisnan x2 = false) ->
   forall s', read c mu0 cpus s doc <> Ok s').
Proof.
  intros A c mu0 cpus s doc l.
  assert (G : forall P (rd : text -> yaml -> res P) l new, read_regions rd l = Ok new -> forall n b, In (n, b) l -> exists p, rd n b = Ok p).
  { clear. induction l as [|(n0, b0) l IH]; intros new H n b Hin; [destruct Hin|]. cbn [read_regions] in H. break H. break H.
    destruct Hin as [E|Hin]; [injection E as <- <-; eauto|]. eapply IH; eassumption. }
  split.
  - intros Hn (name & body & Hin & Hms & Hjs) s' H. apply read_one in H. pose proof (d_tetra _ _ _ _ _ H) as D. rewrite Hn in D. cbn [regions] in D.
    break D. destruct (G _ _ _ _ H0 _ _ Hin) as (p & Hp). apply read_tetra_ok in Hp as (_ & _ & _ & K).
    destruct (entry_scalar "Ms" body), (entry_scalar "Js" body); congruence || exact K.
  - intros Hn (name & body & t1 & t2 & x1 & x2 & Hin & H1 & H2 & K1 & K2 & N1 & N2) s' H. apply read_one in H. pose proof (d_tri _ _ _ _ _ H) as D.
    rewrite Hn in D. cbn [regions] in D. break D. destruct (G _ _ _ _ H0 _ _ Hin) as (p & Hp). apply read_tri_ok in Hp as (_ & _ & _ & _ & J & V & _ & _ & N).
    unfold own_or in J, V. rewrite H1 in J. rewrite H2 in V. destruct N as [N|N]; congruence.
Qed.

(** the axes given by the user are made unit vectors, unless they are null *)
Theorem C56_axes_unit : forall x y z : R, (x, y, z) <> (0, 0, 0)%R ->
  @normalize3 XA (Fin x, Fin y, Fin z) = (let n := sqrt (x * x + y * y + z * z) in (Fin (x / n), Fin (y / n), Fin (z / n)))%R.
Proof.
  intros x y z H. unfold normalize3. cbn [nadd nmul nlt nsqrt ndiv XA xadd xmul].
  assert (P : (0 < x * x + y * y + z * z)%R).
  { assert (Q : (x <> 0 \/ y <> 0 \/ z <> 0)%R).
    { destruct (Req_dec x 0) as [->|]; [|auto]. destruct (Req_dec y 0) as [->|]; [|auto]. destruct (Req_dec z 0) as [->|]; [|auto]. congruence. }
    pose proof (Rle_0_sqr x). pose proof (Rle_0_sqr y). pose proof (Rle_0_sqr z). unfold Rsqr in *.
    destruct Q as [Q|[Q|Q]]; apply Rsqr_pos_lt in Q; unfold Rsqr in Q; lra. }
  assert (N0 : @n0 XA = Fin 0%R) by (unfold n0; cbn [nlit XA]; f_equal; lra).
  rewrite N0. cbn [xlt]. rewrite Raux.Rlt_bool_true by exact P. cbn [xsqrt]. rewrite Raux.Rlt_bool_false by lra.
  pose proof (sqrt_lt_R0 _ P) as S. cbn [xdiv]. rewrite Raux.Req_bool_false by lra. reflexivity.
Qed.

Definition default_tetra : @tetra_prm XA := mkTetra (txt "__default__") num1 (Fin 2%R) (Fin 7%R) num0 (num0, num0, num1) num0 (num1, num0, num0) (num0, num1, num0) (num0, num0, num1) num0 num0 num0 num0 num0.
Definition default_tri : @tri_prm XA := mkTri (txt "__default__") false num0 (num0, num0, num1) NaN NaN (num0, num0, num1) (NaN, NaN, NaN).
Definition with_defaults : @settings XA := mkSettings (outputs start) (mkMesh [] num1 [default_tetra] [default_tri])
  (mag start) num0 (recentering start) (field start) (spin start) 4 (solver start) (time_int start).

(** the built-in default of the polarisation is never used: a surface region without uP has none *)
Example C56_nonvacuous : exists s', read demo num1 4 with_defaults
    (YMap [(txt "mesh", YMap [(txt "volume_regions", YMap [(txt "core", YMap [(txt "Js", YScalar (txt "2"))])]);
                              (txt "surface_regions", YMap [(txt "top", YMap [(txt "V", YScalar (txt "1"))])])])]) = Ok s' /\
  map t_name (m_tetra (mesh s')) = [txt "__default__"; txt "core"] /\ map t_A (m_tetra (mesh s')) = [Fin 2%R; Fin 2%R] /\
  map s_uP (m_tri (mesh s')) = [(num0, num0, num1); nan3] /\
  first_default t_name (m_tetra (mesh with_defaults)) default_tetra /\ first_default s_name (m_tri (mesh with_defaults)) default_tri.
Proof.
  eexists. split; [|split; [|split; [|split]]].
  - assert (N : nisnan (@nan XA) = true).
    { unfold nan, n0. cbn. rewrite Raux.Req_bool_true by lra. reflexivity. }
    cbv -[nan nisnan ndiv num0 num1 XA]. rewrite N. cbv -[nan nisnan ndiv num0 num1 XA]. reflexivity.
  - reflexivity.
  - reflexivity.
  - reflexivity.
  - split; exists 0; (split; [reflexivity|]; split; [reflexivity|]; intros j q Hj; lia).
Qed.

Print Assumptions C55_last_definition_partial.
Print Assumptions C55_direction.
Print Assumptions C55_field.
Print Assumptions C55_magnetization_partial.
Print Assumptions C55_threads.
Print Assumptions C56_regions.
Print Assumptions C56_refused.
Print Assumptions C56_axes_unit.
