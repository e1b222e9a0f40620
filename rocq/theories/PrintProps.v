(** * Properties of the printed settings *)
From Coq Require Import String Ascii List Arith Bool ZArith Lia Floats.SpecFloat.
From Flocq Require Import BinarySingleNaN.
From Verif Require Import Arith TextModel TextProof TextProps ColumnModel SettingsModel SettingsProps YamlProps PrintModel.
Import ListNotations.
Local Open Scope nat_scope.

(** ** Specification: the YAML document that is printed *)
(** plain scalars (YAML 1.2, section 7.3.3), restricted to characters that never have a meaning *)
Definition plain_char (c : ascii) : bool :=
  let n := nat_of_ascii c in
  (48 <=? n) && (n <=? 57) || (65 <=? n) && (n <=? 90) || (97 <=? n) && (n <=? 122) ||
  existsb (Ascii.eqb c) (txt "_./+-<>() ").
Definition plain_first (t : text) : bool :=
  match t with
  | [] => false
  | c :: r => if existsb (Ascii.eqb c) (txt "> ") then false
              else if Ascii.eqb c "-"%char then match r with d :: _ => (48 <=? nat_of_ascii d) && (nat_of_ascii d <=? 57) | [] => false end
              else true
  end.
Definition plain_last (t : text) : bool := match back t with Some c => negb (Ascii.eqb c " "%char) | None => false end.
Definition load_plain (t : text) : option yaml :=
  if existsb (text_eqb t) [[]; txt "~"; txt "null"; txt "Null"; txt "NULL"] then Some YNull
  else if forallb plain_char t && plain_first t && plain_last t then Some (YScalar t) else None.
Definition plain (t : text) : Prop := load_plain t = Some (YScalar t).
(** a list of texts that must all be scalars *)
Fixpoint all_some {X Y} (f : X -> option Y) (l : list X) : option (list Y) :=
  match l with [] => Some [] | x :: r => match f x, all_some f r with Some y, Some ys => Some (y :: ys) | _, _ => None end end.
Definition load_scalar (t : text) : option yaml := match load_plain t with Some (YScalar t) => Some (YScalar t) | _ => None end.
Definition load_quoted (t : text) : option yaml :=
  match find_first [NL] t with None => option_map YScalar (yaml_quoted (QUOTE :: t ++ [QUOTE])) | Some _ => None end.

(** the tree of the printed document; an empty list prints nothing, which is null *)
Fixpoint load (p : printed) : option yaml :=
  match p with
  | PNothing => Some YNull
  | PPlain t => load_plain t
  | PStr (Some t) => option_map YScalar (yaml_scalar t)
  | PStr None => None
  | PNumbers l => option_map YSeq (all_some load_scalar l)
  | PQuoted l => option_map YSeq (all_some load_quoted l)
  | PItems [] => Some YNull
  | PItems l => option_map YSeq (all_some load_plain l)
  | PKeys [] => Some YNull
  | PKeys l => option_map YMap ((fix go l := match l with
      | [] => Some []
      | (k, v) :: r => match load_scalar k, load v, go r with Some (YScalar k), Some y, Some ys => Some ((k, y) :: ys) | _, _, _ => None end
      end) l)
  end.
Definition load_keys : list (text * printed) -> option (list (text * yaml)) :=
  fix go l := match l with
      | [] => Some []
      | (k, v) :: r => match load_scalar k, load v, go r with Some (YScalar k), Some y, Some ys => Some ((k, y) :: ys) | _, _, _ => None end
      end.

(** ** Specification: two settings that define the same run *)
Section Same.
Context {A : arith}.
Definition same_number (x y : num A) : Prop := x = y \/ nisnan x = true /\ nisnan y = true.
(** an axis matters only when its constant is not zero *)
Definition same_volume (p p' : @tetra_prm A) : Prop :=
  t_name p' = t_name p /\ t_A p' = t_A p /\ t_Ms p' = t_Ms p /\ t_K p' = t_K p /\ t_K3 p' = t_K3 p /\ t_alpha p' = t_alpha p /\
  t_sigma p' = t_sigma p /\ t_N0 p' = t_N0 p /\ t_P p' = t_P p /\ t_lsd p' = t_lsd p /\ t_lsf p' = t_lsf p /\
  (neq (t_K p) n0 = false -> t_uk p' = t_uk p) /\
  (neq (t_K3 p) n0 = false -> t_ex p' = t_ex p /\ t_ey p' = t_ey p /\ t_ez p' = t_ez p).
(** the boundary conditions of the spin diffusion matter only when it is computed *)
Definition same_surface (spin_acc : bool) (p p' : @tri_prm A) : Prop :=
  s_name p' = s_name p /\ s_suppress p' = s_suppress p /\ s_Ks p' = s_Ks p /\ (neq (s_Ks p) n0 = false -> s_uk p' = s_uk p) /\
  same_number (s_jn p) (s_jn p') /\ same_number (s_V p) (s_V p') /\
  (spin_acc = true -> s_uP p' = s_uP p /\ s_s p' = s_s p).
Definition named {P} (name : P -> text) (l : list P) : list P := filter (fun p => negb (text_eqb (name p) (txt "__default__"))) l.
(** the field in use *)
Definition same_field (f f' : field_t) : Prop :=
  f_kind f' = f_kind f /\
  match f_kind f with
  | R4toR3 => f_space_parser f' = f_space_parser f /\ f_time_parser f' = f_time_parser f
  | _ => f_parser f' = f_parser f
  end.
Record same_run (s s' : @settings A) : Prop := {
  sr_outputs : outputs s' = outputs s;
  sr_mesh : m_pb (mesh s') = m_pb (mesh s) /\ m_scale (mesh s') = m_scale (mesh s);
  sr_volumes : Forall2 same_volume (named t_name (m_tetra (mesh s))) (named t_name (m_tetra (mesh s')));
  sr_surfaces : Forall2 (same_surface (a_enable (spin s))) (named s_name (m_tri (mesh s))) (named s_name (m_tri (mesh s')));
  sr_mag : initial_magnetization s' = initial_magnetization s;
  sr_time : same_number (initial_time s) (initial_time s');
  sr_rec : r_enable (recentering s') = r_enable (recentering s) /\
           (r_enable (recentering s) = true -> recentering s' = recentering s);
  sr_field : same_field (field s) (field s');
  sr_spin : a_enable (spin s') = a_enable (spin s) /\ (a_enable (spin s) = true -> spin s' = spin s);
  sr_threads : threads s' = threads s;
  sr_solver : solver s' = solver s;
  sr_steps : time_int s' = time_int s
}.

(** the settings after the constructor, which reads the built-in defaults (see C94_fresh) *)
Record fresh (d : @settings A) : Prop := {
  fr_sim : o_sim (outputs d) = []; fr_meta : o_meta (outputs d) = []; fr_period : (0 <= o_period (outputs d))%Z;
  fr_pb : m_pb (mesh d) = []; fr_scale : nle (m_scale (mesh d)) n0 = false;
  fr_tetra : exists D, m_tetra (mesh d) = [D] /\ t_name D = txt "__default__";
  fr_tri : exists D, m_tri (mesh d) = [D] /\ s_name D = txt "__default__";
  fr_mag : g_restore (mag d) = [] /\ g_sM (mag d) = [] /\ g_parser (mag d) = Expressions (txt "x,y,z") (g_sMx (mag d)) (g_sMy (mag d)) (g_sMz (mag d));
  fr_time : nisnan (initial_time d) = true;
  fr_field : f_sB (field d) = [] /\ f_kind (field d) = RtoR3 /\ f_parser (field d) = Expressions (txt "t") (f_sBx (field d)) (f_sBy (field d)) (f_sBz (field d)) /\
             f_space_parser (field d) = NoSource /\ f_time_parser (field d) = NoSource;
  fr_threads : (0 < threads d)%Z
}.
End Same.

(** ** What must hold for the printed document to be readable *)
Section Writable.
Context {A : arith}.
Variables (c : @conv A) (pd : num A -> text) (pz : Z -> text).
(** a number with at most 6 significant digits, an integer, a vector whose norm is exactly 1, a string: they read back *)
Definition num_ok (x : num A) : Prop := plain (pd x) /\ as_double c (pd x) = Some x.
Definition int_ok (z : Z) : Prop := plain (pz z) /\ as_int c (pz z) = Some z.
Definition vec_ok (v : @vec3 A) : Prop := let '(x, y, z) := v in num_ok x /\ num_ok y /\ num_ok z.
Definition axis_ok (v : @vec3 A) : Prop := vec_ok v /\ normalize3 v = v.
Definition str_ok (level : nat) (t : text) : Prop := exists u, str_yaml t level = Some u /\ yaml_scalar u = Some t.
Definition name_or_empty (t : text) : Prop := t = [] \/ plain t.
Definition volume_ok (p : @tetra_prm A) : Prop :=
  plain (t_name p) /\ Forall num_ok [t_A p; t_Ms p; t_K p; t_K3 p; t_alpha p; t_sigma p; t_N0 p; t_P p; t_lsd p; t_lsf p] /\
  (neq (t_K p) n0 = false -> axis_ok (t_uk p)) /\ (neq (t_K3 p) n0 = false -> Forall axis_ok [t_ex p; t_ey p; t_ez p]).
(** in particular: no current density *)
Definition surface_ok (spin_acc : bool) (p : @tri_prm A) : Prop :=
  plain (s_name p) /\ num_ok (s_Ks p) /\ (neq (s_Ks p) n0 = false -> axis_ok (s_uk p)) /\
  nisnan (s_jn p) = true /\ (nisnan (s_V p) = true \/ num_ok (s_V p)) /\
  (spin_acc = true -> axis_ok (s_uP p) /\ vec_ok (s_s p)).
Record writable (s : @settings A) : Prop := {
  w_bool : as_bool c (txt "true") = Some true /\ as_bool c (txt "false") = Some false;
  w_numbers : Forall num_ok [o_step (outputs s); o_tf (outputs s); m_scale (mesh s); v_tol (solver s);
                             i_dumax (time_int s); i_dt_min (time_int s); i_dt_max (time_int s)];
  w_ints : Forall int_ok [o_period (outputs s); threads s; v_maxiter (solver s)] /\
           pz (o_period (outputs s)) <> txt "true" /\ pz (o_period (outputs s)) <> txt "false";
  w_dir : plain (o_dir (outputs s)) /\ normalize_dir (o_dir (outputs s)) = o_dir (outputs s);
  w_files : name_or_empty (o_sim (outputs s)) /\ name_or_empty (m_pb (mesh s));
  w_columns : o_columns (outputs s) <> [] /\ Forall plain (o_columns (outputs s));
  w_meta : NoDup (map fst (o_meta (outputs s))) /\ Forall (fun kv => plain (fst kv) /\ str_ok 2 (snd kv)) (o_meta (outputs s));
  w_volumes : Forall volume_ok (named t_name (m_tetra (mesh s)));
  w_surfaces : Forall (surface_ok (a_enable (spin s))) (named s_name (m_tri (mesh s)));
  w_mag : match initial_magnetization s with
          | FromFile f => plain f
          | FromExpression (FunctionSource f) => str_ok 0 f
          | FromExpression (Expressions _ x y z) => Forall (fun t => load_quoted t = Some (YScalar t)) [x; y; z]
          | FromExpression NoSource => False
          end;
  w_time : nisnan (initial_time s) = true \/ num_ok (initial_time s);
  w_threshold : r_enable (recentering s) = true -> num_ok (r_threshold (recentering s));
  w_field : match f_kind (field s) with
            | R4toR3 => match f_space_parser (field s), f_time_parser (field s) with
                        | FunctionSource f, FunctionSource g => str_ok 1 f /\ str_ok 1 g
                        | _, _ => False
                        end
            | _ => match f_parser (field s) with
                   | FunctionSource f => f <> [] /\ str_ok 0 f
                   | Expressions _ x y z => Forall (fun t => load_quoted t = Some (YScalar t)) [x; y; z]
                   | NoSource => False
                   end
            end
}.
End Writable.

(** ** The printed document is loaded *)
Section Load.
Lemma load_scalar_plain : forall t, plain t -> load_scalar t = Some (YScalar t).
Proof. intros t H. unfold load_scalar. rewrite H. reflexivity. Qed.
Lemma load_keys_cons : forall k v r y ys, plain k -> load v = Some y -> load_keys r = Some ys -> load_keys ((k, v) :: r) = Some ((k, y) :: ys).
Proof. intros k v r y ys H1 H2 H3. cbn [load_keys]. rewrite (load_scalar_plain k H1), H2, H3. reflexivity. Qed.
Lemma load_PKeys : forall kv l ys, load_keys (kv :: l) = Some ys -> load (PKeys (kv :: l)) = Some (YMap ys).
Proof. intros kv l ys H. change (load (PKeys (kv :: l))) with (option_map YMap (load_keys (kv :: l))). rewrite H. reflexivity. Qed.
Lemma all_some_map : forall {X Y} (f : X -> option Y) (g : X -> Y) l, Forall (fun x => f x = Some (g x)) l -> all_some f l = Some (map g l).
Proof. intros X Y f g l H. induction H as [|x l H1 _ IH]; [reflexivity|]. cbn [all_some map]. rewrite H1, IH. reflexivity. Qed.
Lemma text_eqb_refl : forall t, text_eqb t t = true.
Proof. intros t. apply text_eqb_spec. reflexivity. Qed.
Lemma assoc_hit : forall {X} k (v : X) r, assoc k ((k, v) :: r) = Some v.
Proof. intros X k v r. cbn [assoc]. rewrite text_eqb_refl. reflexivity. Qed.
Lemma assoc_miss : forall {X} k k' (v : X) r, text_eqb k' k = false -> assoc k ((k', v) :: r) = assoc k r.
Proof. intros X k k' v r H. cbn [assoc]. rewrite H. reflexivity. Qed.
Lemma assoc_none : forall {X} k, assoc k (@nil (text * X)) = None.
Proof. reflexivity. Qed.
End Load.
Lemma scalar_none : forall {X} (f : text -> option X), scalar f None = Ok None.
Proof. reflexivity. Qed.
Lemma scalar_null : forall {X} (f : text -> option X), scalar f (Some YNull) = Ok None.
Proof. reflexivity. Qed.
Lemma vector_none : forall {A : arith} (c : @conv A) b, vector c b None = Ok None.
Proof. reflexivity. Qed.
Lemma child_map : forall l k, child (YMap l) k = Ok (assoc k l).
Proof. reflexivity. Qed.
Lemma rbind_Ok : forall {X Y} (x : X) (f : X -> res Y), rbind (Ok x) f = f x.
Proof. reflexivity. Qed.
Ltac find_key := repeat (rewrite assoc_hit || rewrite assoc_miss by reflexivity); rewrite ?assoc_none.
Ltac node := rewrite child_map; find_key; rewrite rbind_Ok; cbv beta.
Ltac ok := rewrite rbind_Ok; cbv beta.

Section Back.
Context {A : arith}.
Variables (c : @conv A) (pd : num A -> text) (pz : Z -> text) (mu0 : num A) (cpus : Z).
Notation num_ok := (num_ok c pd).
Notation vec_ok := (vec_ok c pd).
Notation axis_ok := (axis_ok c pd).

Definition ynum (x : num A) : yaml := YScalar (pd x).
Definition yvec (v : @vec3 A) : yaml := let '(x, y, z) := v in YSeq [ynum x; ynum y; ynum z].
Lemma load_number : forall x, num_ok x -> load (number pd x) = Some (ynum x).
Proof. intros x [H _]. exact H. Qed.
Lemma back_number : forall x, num_ok x -> scalar (as_double c) (Some (ynum x)) = Ok (Some x).
Proof. intros x [_ H]. cbn [scalar ynum get]. rewrite H. reflexivity. Qed.
Lemma load_vec : forall v, vec_ok v -> load (str_vec pd v) = Some (yvec v).
Proof.
  intros [[x y] z] (Hx & Hy & Hz). cbn [str_vec load all_some yvec].
  rewrite (load_scalar_plain _ (proj1 Hx)), (load_scalar_plain _ (proj1 Hy)), (load_scalar_plain _ (proj1 Hz)). reflexivity.
Qed.
Lemma back_vec : forall b v, vec_ok v -> vector c b (Some (yvec v)) = Ok (Some (if b then normalize3 v else v)).
Proof.
  intros b [[x y] z] (Hx & Hy & Hz). cbn [yvec vector scalar_double ynum get].
  rewrite (proj2 Hx), (proj2 Hy), (proj2 Hz). reflexivity.
Qed.
Lemma back_axis : forall v, axis_ok v -> vector c true (Some (yvec v)) = Ok (Some v).
Proof. intros v [H E]. rewrite (back_vec true v H), E. reflexivity. Qed.
Lemma load_axis : forall v, axis_ok v -> load (str_vec pd v) = Some (yvec v).
Proof. intros v [H _]. apply load_vec. exact H. Qed.

(** one key at a time *)
Lemma at_number : forall {Y} l k x (f : option (num A) -> res Y) y, assoc k l = Some (ynum x) -> num_ok x -> f (Some x) = y ->
  rbind (child (YMap l) k) (fun n => rbind (scalar (as_double c) n) f) = y.
Proof. intros Y l k x f y H1 H2 H3. rewrite child_map, H1, rbind_Ok, (back_number x H2), rbind_Ok. exact H3. Qed.
Lemma at_nothing : forall {X Y} l k (g : text -> option X) (f : option X -> res Y) y, assoc k l = None \/ assoc k l = Some YNull -> f None = y ->
  rbind (child (YMap l) k) (fun n => rbind (scalar g n) f) = y.
Proof. intros X Y l k g f y [H1|H1] H3; rewrite child_map, H1, rbind_Ok; exact H3. Qed.
Lemma at_scalar : forall {X Y} l k t x (g : text -> option X) (f : option X -> res Y) y, assoc k l = Some (YScalar t) -> g t = Some x -> f (Some x) = y ->
  rbind (child (YMap l) k) (fun n => rbind (scalar g n) f) = y.
Proof. intros X Y l k t x g f y H1 H2 H3. rewrite child_map, H1, rbind_Ok. cbn [scalar get]. rewrite H2. exact H3. Qed.
Lemma at_axis : forall {Y} l k v (f : option (@vec3 A) -> res Y) y, assoc k l = Some (yvec v) -> axis_ok v -> f (Some v) = y ->
  rbind (child (YMap l) k) (fun n => rbind (vector c true n) f) = y.
Proof. intros Y l k v f y H1 H2 H3. rewrite child_map, H1, rbind_Ok, (back_axis v H2), rbind_Ok. exact H3. Qed.
Lemma at_vec : forall {Y} l k v (f : option (@vec3 A) -> res Y) y, assoc k l = Some (yvec v) -> vec_ok v -> f (Some v) = y ->
  rbind (child (YMap l) k) (fun n => rbind (vector c false n) f) = y.
Proof. intros Y l k v f y H1 H2 H3. rewrite child_map, H1, rbind_Ok, (back_vec false v H2), rbind_Ok. exact H3. Qed.
Lemma at_no_vec : forall {Y} b l k (f : option (@vec3 A) -> res Y) y, assoc k l = None -> f None = y ->
  rbind (child (YMap l) k) (fun n => rbind (vector c b n) f) = y.
Proof. intros Y b l k f y H1 H3. rewrite child_map, H1, rbind_Ok. exact H3. Qed.
Ltac one_key := first
  [ eapply at_number; [reflexivity|assumption|]
  | eapply at_nothing; [first [left; reflexivity | right; reflexivity]|]
  | eapply at_axis; [reflexivity|assumption|]
  | eapply at_vec; [reflexivity|assumption|]
  | eapply at_no_vec; [reflexivity|]
  | eapply at_scalar; [reflexivity|eassumption|] ]; cbv beta iota.

Ltac inv_forall := repeat match goal with
  | H : Forall _ (_ :: _) |- _ => apply Forall_cons_iff in H as [? H]
  | H : Forall _ [] |- _ => clear H
  end.

Lemma volume_back : forall p, volume_ok c pd p -> exists y, load (print_tetra pd p) = Some y /\
  forall base, exists p', read_tetra c mu0 base (t_name p) y = Ok p' /\ same_volume p p'.
Proof.
  intros p (_ & Hn & Hu & He). inv_forall. unfold print_tetra, nonzero. unfold same_volume.
  destruct (neq (t_K p) n0) eqn:EK; destruct (neq (t_K3 p) n0) eqn:EK3; cbn [negb app];
    try specialize (Hu eq_refl); try specialize (He eq_refl); inv_forall; eexists;
    (split; [apply load_PKeys; repeat (apply load_keys_cons; [reflexivity|first [now apply load_number | now apply load_axis]|]); reflexivity|]);
    intros base; eexists; (split; [unfold read_tetra; repeat one_key; reflexivity|]);
    cbn [keep t_name t_A t_Ms t_K t_K3 t_alpha t_sigma t_N0 t_P t_lsd t_lsf t_uk t_ex t_ey t_ez]; repeat split; auto; discriminate.
Qed.

Lemma surface_back : forall spin_acc p, nisnan (@nan A) = true -> as_bool c (txt "true") = Some true -> as_bool c (txt "false") = Some false ->
  surface_ok c pd spin_acc p -> exists y, load (print_tri pd spin_acc p) = Some y /\
  forall base, exists p', read_tri c base (s_name p) y = Ok p' /\ same_surface spin_acc p p'.
Proof.
  intros spin_acc p HN Ht Hf (_ & Hk & Hu & Hj & Hv & Hs). unfold print_tri, nonzero, unless_nan. rewrite Hj. unfold same_surface.
  assert (Bo : as_bool c (if s_suppress p then txt "true" else txt "false") = Some (s_suppress p)) by (destruct (s_suppress p); assumption).
  assert (Lb : load (str_bool (s_suppress p)) = Some (YScalar (if s_suppress p then txt "true" else txt "false"))).
  { destruct (s_suppress p); reflexivity. }
  destruct (neq (s_Ks p) n0) eqn:EK; destruct (nisnan (s_V p)) eqn:EV; destruct spin_acc; cbn [negb app];
    try specialize (Hu eq_refl); try (destruct Hv as [Hv|Hv]; [congruence|]); try (destruct (Hs eq_refl) as [Hs1 Hs2]); eexists;
    (split; [apply load_PKeys; repeat (apply load_keys_cons; [reflexivity|first [exact Lb | reflexivity | now apply load_number | now apply load_axis | now apply load_vec]|]); reflexivity|]);
    intros base; eexists; (split; [unfold read_tri; repeat one_key; cbn [keep]; rewrite HN; cbn [negb andb]; repeat one_key; reflexivity|]);
    cbn [keep s_name s_suppress s_Ks s_uk s_jn s_V s_uP s_s]; unfold same_number; repeat split; auto; discriminate.
Qed.

Lemma named_not : forall {P} (name : P -> text) l p, In p (named name l) -> text_eqb (name p) (txt "__default__") = false.
Proof. intros P name l p H. unfold named in H. apply filter_In in H as [_ H]. now apply negb_true_iff in H. Qed.
Lemma regions_back : forall {P} (name : P -> text) zero pr (rd : P -> text -> yaml -> res P) (same : P -> P -> Prop) l,
  (forall p p', same p p' -> name p' = name p) ->
  (forall p, In p (named name l) -> plain (name p) /\ exists y, load (pr p) = Some y /\ forall base, exists p', rd base (name p) y = Ok p' /\ same p p') ->
  exists y, load (print_regions name pr l) = Some y /\
  forall ps, named name ps = [] -> exists ps', regions name zero rd (Some y) ps = Ok ps' /\ Forall2 same (named name l) (named name ps').
Proof.
  intros P name zero pr rd same l Hs Hl. unfold print_regions. change (filter (fun p => negb (is_default (name p))) l) with (named name l).
  pose proof (named_not name l) as Hn. generalize dependent (named name l). intros L Hl Hn.
  assert (K : exists ys, load_keys (map (fun p => (name p, pr p)) L) = Some ys /\
    forall base, exists new, read_regions (rd base) ys = Ok new /\ Forall2 same L new /\ named name new = new).
  { induction L as [|p L IH].
    - exists []. split; [reflexivity|]. intros base. exists []. split; [reflexivity|]. split; [constructor|reflexivity].
    - destruct IH as (ys & E1 & E2). { intros q Hq. apply Hl. right. exact Hq. } { intros q Hq. apply Hn. right. exact Hq. }
      destruct (Hl p (or_introl eq_refl)) as (Hp & y & Ey & Hy). exists ((name p, y) :: ys). split.
      + cbn [map]. apply load_keys_cons; assumption.
      + intros base. destruct (Hy base) as (p' & Ep & Sp). destruct (E2 base) as (new & En & Sn & Nn). exists (p' :: new).
        cbn [read_regions]. rewrite Ep, rbind_Ok, En, rbind_Ok. split; [reflexivity|]. split; [constructor; assumption|].
        unfold named in *. cbn [filter]. rewrite (Hs _ _ Sp), (Hn p (or_introl eq_refl)). cbn [negb]. rewrite Nn. reflexivity. }
  destruct K as (ys & E1 & E2). destruct L as [|p L].
  - exists YNull. split; [reflexivity|]. intros ps Hps. exists ps. split; [reflexivity|]. rewrite Hps. constructor.
  - exists (YMap ys). split; [cbn [map] in *; apply load_PKeys; exact E1|]. intros ps Hps.
    destruct (E2 (default_of name zero ps)) as (new & En & Sn & Nn). exists (ps ++ new). cbn [regions]. rewrite En, rbind_Ok. split; [reflexivity|].
    unfold named in *. rewrite filter_app, Hps, Nn. exact Sn.
Qed.

(** the metadata, given to settings that have none *)
Lemma meta_back : forall l acc, NoDup (map fst (acc ++ l)) -> Forall (fun kv => plain (fst kv) /\ str_ok 2 (snd kv)) l ->
  exists ys, load_keys (map (fun kv => (fst kv, PStr (str_yaml (snd kv) 2))) l) = Some ys /\ metadata c ys acc = Ok (acc ++ l).
Proof.
  induction l as [|[k v] l IH]; intros acc Hd Hf.
  - exists []. rewrite app_nil_r. split; reflexivity.
  - apply Forall_cons_iff in Hf as [[Hk (u & E1 & E2)] Hf]. cbn [fst snd] in *.
    destruct (IH (acc ++ [(k, v)])) as (ys & E3 & E4). { rewrite <- app_assoc. exact Hd. } { exact Hf. }
    exists ((k, YScalar v) :: ys). split.
    + cbn [map fst snd]. apply load_keys_cons; auto. rewrite E1. cbn [load]. rewrite E2. reflexivity.
    + cbn [metadata as_string get]. rewrite rbind_Ok. replace (set_meta (k, v) acc) with (acc ++ [(k, v)]).
      { rewrite E4, <- app_assoc. reflexivity. }
      symmetry. rewrite map_app in Hd. cbn [map fst] in Hd. apply NoDup_remove_2 in Hd. assert (Hn : ~ In k (map fst acc)) by (intros H; apply Hd, in_or_app; left; exact H).
      clear - Hn. induction acc as [|[k' v'] acc IH]; [reflexivity|]. cbn [set_meta fst app]. cbn [map fst In] in Hn.
      destruct (text_eqb k' k) eqn:E; [apply text_eqb_spec in E; subst; tauto|]. rewrite IH by tauto. reflexivity.
Qed.

Lemma load_name : forall t, name_or_empty t -> load (PPlain t) = Some (match t with [] => YNull | _ => YScalar t end).
Proof. intros t [->|H]; [reflexivity|]. destruct t; [reflexivity|exact H]. Qed.
Lemma items_back : forall l, l <> [] -> Forall plain l -> load (PItems l) = Some (YSeq (map YScalar l)) /\ strings c (map YScalar l) = Ok l.
Proof.
  intros l Hne Hl. split.
  - destruct l as [|t l]; [congruence|]. change (load (PItems (t :: l))) with (option_map YSeq (all_some load_plain (t :: l))).
    rewrite (all_some_map load_plain YScalar) by exact Hl. reflexivity.
  - clear Hne Hl. induction l as [|t l IH]; [reflexivity|]. cbn [map strings as_string get]. rewrite rbind_Ok, IH. reflexivity.
Qed.

Lemma outputs_back : forall s (d : @outputs_t A), writable c pd pz s -> o_sim d = [] -> o_meta d = [] -> (0 <= o_period (outputs s))%Z ->
  exists y, load (print_outputs pd pz (outputs s)) = Some y /\ section (Some y) d (read_outputs c d) = Ok (outputs s).
Proof.
  intros s d W Hsim Hmeta Hper. pose proof (w_numbers _ _ _ _ W) as Hn. inv_forall. destruct (w_ints _ _ _ _ W) as (Hi & T1 & T2). inv_forall.
  destruct (w_dir _ _ _ _ W) as [Hd1 Hd2]. destruct (w_files _ _ _ _ W) as [Hf1 _]. destruct (w_columns _ _ _ _ W) as [Hc1 Hc2].
  destruct (w_meta _ _ _ _ W) as [Hm1 Hm2]. destruct (outputs s) as [dir sim step tf period columns meta]. cbn [o_dir o_sim o_step o_tf o_period o_columns o_meta] in *.
  destruct (meta_back meta [] Hm1 Hm2) as (ys & M1 & M2). cbn [app] in M2. destruct (items_back columns Hc1 Hc2) as [C1 C2].
  assert (HM : exists ym, load (PKeys (map (fun kv => (fst kv, PStr (str_yaml (snd kv) 2))) meta)) = Some ym /\
    match ym with YNull => meta = [] | YMap l => metadata c l [] = Ok meta | _ => False end).
  { destruct meta as [|kv meta]; [exists YNull; split; reflexivity|]. exists (YMap ys). split; [cbn [map] in *; apply load_PKeys; exact M1|exact M2]. }
  destruct HM as (ym & L1 & L2).
  assert (Ip : forall z, int_ok c pz z -> plain (pz z)) by (intros z [H' _]; exact H').
  eexists. split.
  { unfold print_outputs. apply load_PKeys. cbn [o_dir o_sim o_step o_tf o_period o_columns o_meta].
    repeat (apply load_keys_cons; [reflexivity|first [exact Hd1 | now apply load_name | now apply load_number | exact C1 | now apply Ip | exact L1]|]). reflexivity. }
  cbn [section]. unfold read_outputs. cbn [is_map negb].
  eapply at_scalar; [reflexivity|reflexivity|]. cbv beta.
  assert (Q : forall l (f : option text -> res (@outputs_t A)) r, assoc (txt "file_basename") l = Some (match sim with [] => YNull | _ => YScalar sim end) ->
    f (match sim with [] => None | _ => Some sim end) = r -> rbind (child (YMap l) (txt "file_basename")) (fun n => rbind (scalar Some n) f) = r).
  { intros l f r H1' H2'. rewrite child_map, H1', rbind_Ok. destruct sim; exact H2'. }
  apply Q; [reflexivity|]. cbv beta. clear Q. repeat one_key.
  rewrite child_map. find_key. rewrite rbind_Ok. cbv beta iota.
  match goal with H' : int_ok c pz period |- _ => destruct H' as [_ Hp] end.
  destruct (text_eqb (pz period) (txt "true")) eqn:B1; [apply text_eqb_spec in B1; contradiction|].
  destruct (text_eqb (pz period) (txt "false")) eqn:B2; [apply text_eqb_spec in B2; contradiction|]. rewrite Hp. cbn [get]. rewrite !rbind_Ok.
  destruct (Z.ltb_spec period 0); [lia|]. cbv beta.
  rewrite child_map. find_key. rewrite rbind_Ok. cbv beta iota. rewrite C2, rbind_Ok. cbv beta.
  rewrite child_map. find_key. rewrite rbind_Ok. cbv beta iota. rewrite Hmeta.
  assert (E : match ym with YNull => Ok [] | YMap l => metadata c l [] | _ => Error end = Ok meta).
  { destruct ym; try contradiction; [rewrite L2; reflexivity|exact L2]. }
  rewrite E, rbind_Ok. cbn [keep]. rewrite Hd2, Hsim. destruct sim; reflexivity.
Qed.

Lemma mesh_back : forall s (d : @mesh_t A), writable c pd pz s -> nisnan (@nan A) = true -> m_pb d = [] -> nle (m_scale (mesh s)) n0 = false ->
  named t_name (m_tetra d) = [] -> named s_name (m_tri d) = [] ->
  exists y m, load (print_mesh pd (a_enable (spin s)) (mesh s)) = Some y /\ section (Some y) d (read_mesh c mu0 d) = Ok m /\
    m_pb m = m_pb (mesh s) /\ m_scale m = m_scale (mesh s) /\
    Forall2 same_volume (named t_name (m_tetra (mesh s))) (named t_name (m_tetra m)) /\
    Forall2 (same_surface (a_enable (spin s))) (named s_name (m_tri (mesh s))) (named s_name (m_tri m)).
Proof.
  intros s d W HN Hpb Hsc Ht Hs. pose proof (w_numbers _ _ _ _ W) as Hn. inv_forall. destruct (w_bool _ _ _ _ W) as [B1 B2]. destruct (w_files _ _ _ _ W) as [_ Hf].
  destruct (regions_back t_name (zero_tetra (A := A)) (print_tetra pd) (read_tetra c mu0) same_volume (m_tetra (mesh s))) as (yt & Lt & Rt).
  { intros p p' (H' & _). exact H'. }
  { intros p Hp. pose proof (proj1 (Forall_forall _ _) (w_volumes _ _ _ _ W) p Hp) as V. split; [apply V|]. apply volume_back. exact V. }
  destruct (Rt _ Ht) as (ts & Et & St).
  destruct (regions_back s_name (zero_tri (A := A)) (print_tri pd (a_enable (spin s))) (read_tri c) (same_surface (a_enable (spin s))) (m_tri (mesh s))) as (ys & Ls & Rs).
  { intros p p' (H' & _). exact H'. }
  { intros p Hp. pose proof (proj1 (Forall_forall _ _) (w_surfaces _ _ _ _ W) p Hp) as V. split; [apply V|]. apply surface_back; auto. }
  destruct (Rs _ Hs) as (ss & Es & Ss).
  eexists. eexists. split; [|split].
  { unfold print_mesh. apply load_PKeys.
    repeat (apply load_keys_cons; [reflexivity|first [now apply load_name | now apply load_number | exact Lt | exact Ls]|]). reflexivity. }
  { cbn [section]. unfold read_mesh. cbn [is_map negb].
    assert (Q : forall l (f : option text -> res (@mesh_t A)) r, assoc (txt "filename") l = Some (match m_pb (mesh s) with [] => YNull | _ => YScalar (m_pb (mesh s)) end) ->
      f (match m_pb (mesh s) with [] => None | _ => Some (m_pb (mesh s)) end) = r -> rbind (child (YMap l) (txt "filename")) (fun n => rbind (scalar Some n) f) = r).
    { intros l f r H1' H2'. rewrite child_map, H1', rbind_Ok. destruct (m_pb (mesh s)); exact H2'. }
    apply Q; [reflexivity|]. cbv beta. clear Q. eapply at_number; [reflexivity|assumption|]. cbv beta iota. rewrite Hsc.
    rewrite child_map. find_key. rewrite rbind_Ok. rewrite Et, rbind_Ok.
    rewrite child_map. find_key. rewrite rbind_Ok. rewrite Es, rbind_Ok. reflexivity. }
  cbn [m_pb m_scale m_tetra m_tri keep]. rewrite Hpb. split; [destruct (m_pb (mesh s)); reflexivity|]. auto.
Qed.

(** the magnetization in settings that were read over the built-in ones *)
Inductive mag_read (d : mag_t) : mag_t -> Prop :=
  | mag_function : forall f b, find_first (txt "function") f = Some b -> (exists b', find_first (txt "{") f = Some b') ->
      mag_read d (mkMag (g_restore d) f (g_sMx d) (g_sMy d) (g_sMz d) (FunctionSource f))
  | mag_file : forall f, (forall b b', find_first (txt "function") f = Some b -> find_first (txt "{") f = Some b' -> False) ->
      mag_read d (mkMag f (g_sM d) (g_sMx d) (g_sMy d) (g_sMz d) (g_parser d))
  | mag_expressions : forall x y z, mag_read d (mkMag (g_restore d) (g_sM d) x y z (Expressions (txt "x,y,z") x y z)).
Lemma read_mag_inv : forall (d : mag_t) y g, read_mag c d y = Ok g -> mag_read d g.
Proof.
  intros d y g H. destruct y as [|f|l|l]; try discriminate.
  - cbn [read_mag] in H. destruct (find_first (txt "function") f) as [b|] eqn:E1; [destruct (find_first (txt "{") f) as [b'|] eqn:E2|];
      apply ok_inj in H; subst g; econstructor; eauto; intros; congruence.
  - destruct l as [|a [|b [|e [|h l]]]]; try discriminate. cbn [read_mag] in H. breaks H. apply ok_inj in H. subst g. constructor.
Qed.
Lemma find_nil : forall p, p <> [] -> find_first p [] = None.
Proof. intros [|a p] H; [congruence|reflexivity]. Qed.
Lemma mag_back : forall (d : mag_t) (s : @settings A), writable c pd pz s ->
  g_restore d = [] -> g_sM d = [] -> g_parser d = Expressions (txt "x,y,z") (g_sMx d) (g_sMy d) (g_sMz d) ->
  mag_read d (mag s) \/ mag s = d ->
  exists y g, load (print_mag (mag s)) = Some y /\ section (Some y) d (read_mag c d) = Ok g /\
    match g_restore g with [] => FromExpression (g_parser g) | f => FromFile f end = initial_magnetization s.
Proof.
  intros d s W Hr Hm Hp H. pose proof (w_mag _ _ _ _ W) as Q. unfold initial_magnetization in *.
  assert (Ex : forall x y z, g_restore (mag s) = [] -> g_sM (mag s) = [] -> g_sMx (mag s) = x -> g_sMy (mag s) = y -> g_sMz (mag s) = z ->
    g_parser (mag s) = Expressions (txt "x,y,z") x y z ->
    exists y g, load (print_mag (mag s)) = Some y /\ section (Some y) d (read_mag c d) = Ok g /\
      match g_restore g with [] => FromExpression (g_parser g) | f => FromFile f end = FromExpression (g_parser (mag s))).
  { intros x y z E1 E2 Ex Ey Ez E3. rewrite E1, E3 in Q. inv_forall. unfold print_mag. rewrite E1, E2, Ex, Ey, Ez, E3. cbn [load all_some].
    repeat match goal with H' : load_quoted _ = _ |- _ => rewrite H'; clear H' end. cbn [option_map]. do 2 eexists. split; [reflexivity|].
    cbn [section read_mag as_string get rbind]. split; [reflexivity|]. cbn [g_restore g_parser]. rewrite Hr. reflexivity. }
  destruct H as [H|H].
  - remember (mag s) as gs eqn:EM. destruct H as [f b E1 [b' E2]|f E1|x y z].
    + cbn [g_restore g_parser g_sM] in Q |- *. rewrite Hr in Q |- *. destruct Q as (u & U1 & U2).
      assert (Hf : f <> []). { intros ->. rewrite find_nil in E1 by discriminate. discriminate. }
      exists (YScalar f). eexists. split; [|split].
      * destruct f as [|a f]; [congruence|]. cbn [print_mag g_sM g_restore load]. rewrite U1. cbn [load]. rewrite U2. reflexivity.
      * cbn [section read_mag]. rewrite E1, E2. reflexivity.
      * cbn [g_restore g_parser]. rewrite Hr. reflexivity.
    + destruct f as [|a f].
      * cbn [g_restore g_sM g_sMx g_sMy g_sMz g_parser] in Ex |- *. exact (Ex _ _ _ eq_refl Hm eq_refl eq_refl eq_refl Hp).
      * cbn [g_restore] in Q |- *. exists (YScalar (a :: f)). eexists. split; [|split].
        -- unfold print_mag. cbn [g_sM g_restore]. rewrite Hm. exact Q.
        -- cbn [section read_mag]. destruct (find_first (txt "function") (a :: f)) as [b|] eqn:F1; [destruct (find_first (txt "{") (a :: f)) as [b'|] eqn:F2|].
           ++ exfalso. exact (E1 b b' eq_refl eq_refl).
           ++ reflexivity.
           ++ reflexivity.
        -- reflexivity.
    + cbn [g_restore g_sM g_sMx g_sMy g_sMz g_parser] in Ex |- *. rewrite Hr in Ex |- *.
      exact (Ex _ _ _ eq_refl Hm eq_refl eq_refl eq_refl eq_refl).
  - rewrite H in Ex |- *. rewrite Hr in Ex |- *. exact (Ex _ _ _ eq_refl Hm eq_refl eq_refl eq_refl Hp).
Qed.

Lemma bool_text : forall s b, writable c pd pz s -> load (str_bool b) = Some (YScalar (if b then txt "true" else txt "false")) /\
  as_bool c (if b then txt "true" else txt "false") = Some b.
Proof. intros s b W. destruct (w_bool _ _ _ _ W). destruct b; split; auto. Qed.

Lemma rec_back : forall s (d : @rec_t A), writable c pd pz s ->
  exists y r, load (print_rec pd (recentering s)) = Some y /\ section (Some y) d (read_rec c d) = Ok r /\
    r_enable r = r_enable (recentering s) /\ (r_enable (recentering s) = true -> r = recentering s).
Proof.
  intros s d W. pose proof (w_threshold _ _ _ _ W) as Ht. destruct (recentering s) as [en dir th]. cbn [r_enable r_threshold] in *.
  destruct (bool_text s en W) as [Lb Bb]. unfold print_rec. cbn [r_enable r_direction r_threshold]. destruct en.
  - specialize (Ht eq_refl). exists (YMap [(txt "enable", YScalar (txt "true")); (txt "direction", YScalar (axis_name dir)); (txt "threshold", ynum th)]).
    eexists. split; [|split].
    + apply load_PKeys. repeat (apply load_keys_cons; [reflexivity|first [exact Lb | now apply load_number | destruct dir; reflexivity]|]). reflexivity.
    + cbn [section]. unfold read_rec. eapply at_scalar; [reflexivity|exact Bb|]. cbv beta.
      rewrite child_map. find_key. rewrite rbind_Ok. cbn [as_string]. cbv zeta.
      replace (if text_eqb (axis_name dir) (txt "X") then Ok AX else if text_eqb (axis_name dir) (txt "Y") then Ok AY else if text_eqb (axis_name dir) (txt "Z") then Ok AZ else Error)
        with (Ok dir) by (destruct dir; reflexivity).
      rewrite rbind_Ok. one_key. reflexivity.
    + split; reflexivity.
  - exists (YMap [(txt "enable", YScalar (txt "false"))]). eexists. split; [|split].
    + apply load_PKeys. apply load_keys_cons; [reflexivity|exact Lb|reflexivity].
    + cbn [section]. unfold read_rec. eapply at_scalar; [reflexivity|exact Bb|]. cbv beta.
      rewrite child_map. find_key. rewrite rbind_Ok. cbv zeta iota. change (text_eqb (txt "Z") (txt "X")) with false. change (text_eqb (txt "Z") (txt "Y")) with false.
      change (text_eqb (txt "Z") (txt "Z")) with true. cbv iota. rewrite rbind_Ok. one_key. reflexivity.
    + split; [reflexivity|discriminate].
Qed.

Lemma spin_back : forall s d, writable c pd pz s ->
  exists y a, load (print_spin (spin s)) = Some y /\ section (Some y) d (read_spin c d) = Ok a /\
    a_enable a = a_enable (spin s) /\ (a_enable (spin s) = true -> a = spin s).
Proof.
  intros s d W. destruct (spin s) as [en vf]. cbn [a_enable]. destruct (bool_text s en W) as [Lb Bb]. destruct (bool_text s vf W) as [Lv Bv].
  unfold print_spin. cbn [a_enable a_V_file]. destruct en.
  - exists (YMap [(txt "enable", YScalar (txt "true")); (txt "V_file", YScalar (if vf then txt "true" else txt "false"))]). eexists. split; [|split].
    + apply load_PKeys. repeat (apply load_keys_cons; [reflexivity|first [exact Lb | exact Lv]|]). reflexivity.
    + cbn [section]. unfold read_spin. eapply at_scalar; [reflexivity|exact Bb|]. cbv beta. eapply at_scalar; [reflexivity|exact Bv|]. reflexivity.
    + split; reflexivity.
  - exists (YMap [(txt "enable", YScalar (txt "false"))]). eexists. split; [|split].
    + apply load_PKeys. apply load_keys_cons; [reflexivity|exact Lb|reflexivity].
    + cbn [section]. unfold read_spin. eapply at_scalar; [reflexivity|exact Bb|]. cbv beta. one_key. reflexivity.
    + split; [reflexivity|discriminate].
Qed.

(** the field in settings that were read over the built-in ones *)
Inductive field_read (d : field_t) : field_t -> Prop :=
  | field_function : forall f, field_read d (mkField f (f_sBx d) (f_sBy d) (f_sBz d) (f_sB_space d) (f_sB_time d) RtoR3 (FunctionSource f) (f_space_parser d) (f_time_parser d))
  | field_expressions : forall x y z, field_read d (mkField (f_sB d) x y z (f_sB_space d) (f_sB_time d) RtoR3 (Expressions (txt "t") x y z) (f_space_parser d) (f_time_parser d))
  | field_space_time : forall f, f_kind f = R4toR3 ->
      (f_space_parser f = f_space_parser d \/ f_space_parser f = FunctionSource (f_sB_space f)) ->
      (f_time_parser f = f_time_parser d \/ f_time_parser f = FunctionSource (f_sB_time f)) -> field_read d f.
Lemma read_field_inv : forall (d : field_t) y f, y <> YNull -> read_field c d y = Ok f -> field_read d f.
Proof.
  intros d y f Hy H. destruct y as [|t|l|l]; [congruence| | |].
  - cbn [read_field] in H. apply ok_inj in H. subst f. constructor.
  - destruct l as [|a [|b [|e [|h l]]]]; try discriminate. cbn [read_field] in H. breaks H. apply ok_inj in H. subst f. constructor.
  - cbn [read_field child rbind] in H. destruct (assoc (txt "space") l) as [sp|]; [|discriminate]. destruct (assoc (txt "time") l) as [ti|]; [|discriminate].
    apply ok_inj in H. subst f. apply field_space_time; [reflexivity| |]; destruct sp, ti; cbn; auto.
Qed.
Lemma field_back : forall (d : field_t) (s : @settings A), writable c pd pz s ->
  f_sB d = [] -> f_kind d = RtoR3 -> f_parser d = Expressions (txt "t") (f_sBx d) (f_sBy d) (f_sBz d) ->
  f_space_parser d = NoSource -> f_time_parser d = NoSource -> field_read d (field s) \/ field s = d ->
  exists y f, load (print_field (field s)) = Some y /\ section (Some y) d (read_field c d) = Ok f /\ same_field (field s) f.
Proof.
  intros d s W HB Hk Hp Hsp Hti H. pose proof (w_field _ _ _ _ W) as Q. unfold same_field.
  assert (Ex : forall x y z, f_kind (field s) = RtoR3 -> f_sB (field s) = [] -> f_sBx (field s) = x -> f_sBy (field s) = y -> f_sBz (field s) = z ->
    f_parser (field s) = Expressions (txt "t") x y z ->
    exists y f, load (print_field (field s)) = Some y /\ section (Some y) d (read_field c d) = Ok f /\ f_kind f = RtoR3 /\ f_parser f = f_parser (field s)).
  { intros x y z E1 E2 Ex Ey Ez E3. rewrite E1, E3 in Q. inv_forall. unfold print_field. rewrite E1, E2, Ex, Ey, Ez, E3. cbn [load all_some].
    repeat match goal with H' : load_quoted _ = _ |- _ => rewrite H'; clear H' end. cbn [option_map]. do 2 eexists. split; [reflexivity|].
    cbn [section read_field as_string get rbind]. split; [reflexivity|]. split; reflexivity. }
  destruct H as [H|H].
  - remember (field s) as fs eqn:EF. destruct H as [f|x y z|f E1 E2 E3].
    + cbn [f_kind f_parser] in Q |- *. destruct Q as [Hf (u & U1 & U2)]. exists (YScalar f). eexists. split; [|split].
      * destruct f as [|a f]; [congruence|]. cbn [print_field f_kind f_sB]. rewrite U1. cbn [load]. rewrite U2. reflexivity.
      * reflexivity.
      * split; reflexivity.
    + cbn [f_kind f_parser f_sB f_sBx f_sBy f_sBz] in Ex |- *. exact (Ex _ _ _ eq_refl HB eq_refl eq_refl eq_refl eq_refl).
    + rewrite E1 in Q. rewrite E1. destruct (f_space_parser f) as [|f1|] eqn:P1; try contradiction. destruct (f_time_parser f) as [|f2|] eqn:P2; try contradiction.
      destruct Q as [(u1 & U1 & U2) (u2 & U3 & U4)]. destruct E2 as [E2|E2]; [congruence|]. destruct E3 as [E3|E3]; [congruence|].
      injection E2 as E2. injection E3 as E3. subst f1 f2.
      exists (YMap [(txt "space", YScalar (f_sB_space f)); (txt "time", YScalar (f_sB_time f))]). eexists. split; [|split].
      * unfold print_field. rewrite E1. apply load_PKeys. apply load_keys_cons; [reflexivity|rewrite U1; cbn [load]; rewrite U2; reflexivity|].
        apply load_keys_cons; [reflexivity|rewrite U3; cbn [load]; rewrite U4; reflexivity|reflexivity].
      * reflexivity.
      * repeat split; reflexivity.
  - rewrite H in Ex |- *. rewrite Hk. exact (Ex _ _ _ Hk HB eq_refl eq_refl eq_refl Hp).
Qed.

Lemma threads_back : forall s t, writable c pd pz s -> (0 < threads s)%Z ->
  exists y, load (PKeys [(txt "nb_threads", PPlain (pz (threads s)))]) = Some y /\ section (Some y) t (read_threads c cpus t) = Ok (threads s).
Proof.
  intros s t W H. destruct (w_ints _ _ _ _ W) as (Hi & _ & _). inv_forall. eexists. split.
  - apply load_PKeys. apply load_keys_cons; [reflexivity| |reflexivity]. match goal with H' : int_ok c pz (threads s) |- _ => apply H' end.
  - cbn [section]. unfold read_threads. eapply at_scalar; [reflexivity|match goal with H' : int_ok c pz (threads s) |- _ => apply H' end|]. cbv beta zeta. cbn [keep].
    destruct (Z.leb_spec (threads s) 0); [lia|reflexivity].
Qed.
Lemma solver_back : forall s (v : @solver_t A), writable c pd pz s ->
  exists y, load (PKeys [(txt "max(iter)", PPlain (pz (v_maxiter (solver s)))); (txt "tolerance", number pd (v_tol (solver s)))]) = Some y /\
    section (Some y) v (read_solver c v) = Ok (solver s).
Proof.
  intros s v W. destruct (w_ints _ _ _ _ W) as (Hi & _ & _). pose proof (w_numbers _ _ _ _ W) as Hn. inv_forall. destruct (solver s) as [mi tol]. cbn [v_maxiter v_tol] in *. eexists. split.
  - apply load_PKeys. apply load_keys_cons; [reflexivity| |]. { match goal with H' : int_ok c pz mi |- _ => apply H' end. }
    apply load_keys_cons; [reflexivity|now apply load_number|reflexivity].
  - cbn [section]. unfold read_solver. eapply at_scalar; [reflexivity|match goal with H' : int_ok c pz mi |- _ => apply H' end|]. cbv beta. one_key. reflexivity.
Qed.
Lemma time_back : forall s (v : @time_t A), writable c pd pz s ->
  exists y, load (PKeys [(txt "max(du)", number pd (i_dumax (time_int s))); (txt "min(dt)", number pd (i_dt_min (time_int s))); (txt "max(dt)", number pd (i_dt_max (time_int s)))]) = Some y /\
    section (Some y) v (read_time c v) = Ok (time_int s).
Proof.
  intros s v W. pose proof (w_numbers _ _ _ _ W) as Hn. inv_forall. destruct (time_int s) as [du mi ma]. cbn [i_dumax i_dt_min i_dt_max] in *. eexists. split.
  - apply load_PKeys. repeat (apply load_keys_cons; [reflexivity|now apply load_number|]). reflexivity.
  - cbn [section]. unfold read_time. repeat one_key. reflexivity.
Qed.
End Back.

(** what reading one document ensures *)
Lemma sim_again : forall x pb, sim_name (sim_name x pb) pb = sim_name x pb.
Proof. intros [|a x] [|b pb]; try reflexivity. cbn [sim_name]. destruct (base_name (b :: pb)) eqn:E; cbn [sim_name]; auto. Qed.
Lemma read_facts : forall {A : arith} (c : @conv A) mu0 cpus d doc s, fresh d -> (0 < cpus)%Z -> read c mu0 cpus d doc = Ok s ->
  (0 <= o_period (outputs s))%Z /\ nle (m_scale (mesh s)) n0 = false /\ sim_name (o_sim (outputs s)) (m_pb (mesh s)) = o_sim (outputs s) /\
  (0 < threads s)%Z /\ (mag_read (mag d) (mag s) \/ mag s = mag d) /\ (field_read (field d) (field s) \/ field s = field d).
Proof.
  intros A c mu0 cpus d doc s F Hc R. pose proof (read_sections c mu0 cpus d doc s R) as (_ & RF & RM & RT). unfold read in R. breaks R. apply ok_inj in R. subst s.
  cbn [outputs mesh threads mag field o_period o_sim] in *. split; [|split; [|split; [|split; [|split]]]].
  - pose proof (section_top _ _ _ _ _ _ E E0) as T. destruct (top_node "outputs" doc) as [y|]; [|rewrite T; apply F].
    unfold read_outputs in T. destruct (negb (is_map y)); [discriminate|]. breaks T. apply ok_inj in T. subst x0. cbn [o_period].
    match goal with |- (0 <= ?q)%Z => match goal with H : _ = Ok q |- _ => rename H into P; revert P; generalize q end end.
    match goal with |- forall z, match ?n with _ => _ end = _ -> _ => destruct n as [[|t|l|l]|] end; intros z P; try (apply ok_inj in P; rewrite <- P; apply F).
    destruct (text_eqb t (txt "true")); [discriminate|]. destruct (text_eqb t (txt "false")); [apply ok_inj in P; lia|].
    apply rbind_ok in P as (q & _ & P). apply ok_inj in P. destruct (Z.ltb_spec q 0); lia.
  - pose proof (section_top _ _ _ _ _ _ E1 E2) as T. destruct (top_node "mesh" doc) as [y|]; [|rewrite T; apply F].
    unfold read_mesh in T. destruct (negb (is_map y)); [discriminate|]. breaks T.
    match type of T with (if ?b then _ else _) = _ => destruct b eqn:B end; [discriminate|]. breaks T. apply ok_inj in T. subst x2. cbn [m_scale].
    match goal with |- nle (keep ?o _) n0 = false => destruct o; cbn [keep]; [exact B|apply F] end.
  - apply sim_again.
  - destruct (top_node "demagnetizing_field_solver" doc) as [y|]; [|rewrite RT; apply F].
    unfold read_threads in RT. breaks RT. apply ok_inj in RT. rewrite <- RT. match goal with |- context [(?t <=? 0)%Z] => destruct (Z.leb_spec t 0) end; assumption.
  - destruct (top_node "initial_magnetization" doc) as [y|]; [left; eapply read_mag_inv; eassumption|right; exact RM].
  - destruct (top_node "Bext" doc) as [y|] eqn:T; [left|right; exact RF]. eapply read_field_inv; [|exact RF]. intros ->.
    unfold top_node in T. destruct doc as [| | |m]; try discriminate; destruct (assoc (txt "Bext") m) as [[]|]; congruence.
Qed.

(** ** C93 *)
(** The settings that are printed, given as a settings file, define the same run. It is partial: the current densities are
    excluded (they are lost, see below), as well as vectors that are not exactly of norm 1, numbers of more than 6
    significant digits, and names that have a meaning in YAML; and the settings are those of one file read over the built-in
    ones (with a file of user defaults what is printed may not be what is used, see below). *)
Theorem C93_printed_settings_partial : forall (A : arith) (c : @conv A) pd pz mu0 cpus d doc s,
  nisnan (@nan A) = true -> fresh d -> (0 < cpus)%Z -> read c mu0 cpus d doc = Ok s -> writable c pd pz s ->
  exists y s', load (to_yaml pd pz s) = Some y /\ read c mu0 cpus d y = Ok s' /\ same_run s s'.
Proof.
  intros A c pd pz mu0 cpus d doc s HN F Hc R W. destruct (read_facts c mu0 cpus d doc s F Hc R) as (Fp & Fs & Fn & Ft & Fm & Ff). clear doc R.
  destruct (outputs_back c pd pz s (outputs d) W (fr_sim _ F) (fr_meta _ F) Fp) as (y1 & L1 & R1).
  destruct (fr_tetra _ F) as (Dt & Et & Nt). destruct (fr_tri _ F) as (Ds & Es & Ns).
  destruct (mesh_back c pd pz mu0 s (mesh d) W HN (fr_pb _ F) Fs) as (y2 & m & L2 & R2 & M1 & M2 & M3 & M4).
  { rewrite Et. unfold named. cbn [filter]. rewrite Nt. reflexivity. } { rewrite Es. unfold named. cbn [filter]. rewrite Ns. reflexivity. }
  destruct (fr_mag _ F) as (G1 & G2 & G3). destruct (mag_back c pd pz (mag d) s W G1 G2 G3 Fm) as (y3 & g & L3 & R3 & S3).
  destruct (rec_back c pd pz s (recentering d) W) as (y5 & r & L5 & R5 & S5 & S5').
  destruct (fr_field _ F) as (B1 & B2 & B3 & B4 & B5). destruct (field_back c pd pz (field d) s W B1 B2 B3 B4 B5 Ff) as (y6 & f & L6 & R6 & S6).
  destruct (spin_back c pd pz s (spin d) W) as (y7 & a & L7 & R7 & S7 & S7').
  destruct (threads_back c pd pz cpus s (threads d) W Ft) as (y8 & L8 & R8).
  destruct (solver_back c pd pz s (solver d) W) as (y9 & L9 & R9). destruct (time_back c pd pz s (time_int d) W) as (y10 & L10 & R10).
  assert (HT : exists y4 o, load (unless_nan pd (initial_time s)) = Some y4 /\ scalar (as_double c) (Some y4) = Ok o /\ same_number (initial_time s) (keep o (initial_time d))).
  { unfold unless_nan, same_number. destruct (nisnan (initial_time s)) eqn:E.
    - exists YNull, None. split; [reflexivity|]. split; [reflexivity|]. right. split; [reflexivity|apply F].
    - destruct (w_time _ _ _ _ W) as [H|H]; [congruence|]. exists (ynum pd (initial_time s)), (Some (initial_time s)).
      split; [apply (load_number c); exact H|]. split; [apply back_number; exact H|]. left. reflexivity. }
  destruct HT as (y4 & o & L4 & R4 & S4). unfold to_yaml.
  exists (YMap [(txt "outputs", y1); (txt "mesh", y2); (txt "initial_magnetization", y3); (txt "initial_time", y4); (txt "recentering", y5); (txt "Bext", y6);
    (txt "spin_accumulation", y7); (txt "demagnetizing_field_solver", y8); (txt "finite_element_solver", y9); (txt "time_integration", y10)]).
  eexists. split; [apply load_PKeys; repeat (apply load_keys_cons; [reflexivity|eassumption|]); reflexivity|]. split.
  - unfold read. node. rewrite R1, rbind_Ok. node. rewrite R2, rbind_Ok. node. rewrite R3, rbind_Ok. node. rewrite R4, rbind_Ok. node. rewrite R5, rbind_Ok.
    node. rewrite R6, rbind_Ok. node. rewrite R7, rbind_Ok. node. rewrite R8, rbind_Ok. node. rewrite R9, rbind_Ok. node. rewrite R10, rbind_Ok. reflexivity.
  - constructor; cbn [outputs mesh initial_time recentering field spin threads solver time_int]; auto.
    rewrite M1, Fn. destruct (outputs s). reflexivity.
Qed.

(** ** C94 *)
Lemma rbind_ext : forall {X Y} (x : res X) (f g : X -> res Y), (forall a, x = Ok a -> f a = g a) -> rbind x f = rbind x g.
Proof. intros X Y [a| |] f g H; [apply H|..]; reflexivity. Qed.
Lemma eq_scalar : forall {X Y} l k t (g : text -> option X) (f1 f2 : option X -> res Y), assoc k l = Some (YScalar t) -> (forall x, f1 (Some x) = f2 (Some x)) ->
  rbind (child (YMap l) k) (fun n => rbind (scalar g n) f1) = rbind (child (YMap l) k) (fun n => rbind (scalar g n) f2).
Proof. intros X Y l k t g f1 f2 H1 H2. rewrite child_map, H1, !rbind_Ok. cbn [scalar]. destruct (g t); [apply H2|reflexivity]. Qed.
Lemma eq_null : forall {X Y} l k (g : text -> option X) (f1 f2 : option X -> res Y), assoc k l = Some YNull -> f1 None = f2 None ->
  rbind (child (YMap l) k) (fun n => rbind (scalar g n) f1) = rbind (child (YMap l) k) (fun n => rbind (scalar g n) f2).
Proof. intros X Y l k g f1 f2 H1 H2. rewrite child_map, H1, !rbind_Ok. exact H2. Qed.
Ltac eq_key := first [eapply eq_scalar; [reflexivity|intros ?] | eapply eq_null; [reflexivity|]]; cbv beta.

(** The built-in defaults give a value to every setting: what the constructor makes of them does not depend on the members
    that it leaves uninitialised before it reads them. *)
Theorem C94_no_undefined_setting : forall (A : arith) (c : @conv A) mu0 cpus s1 s2,
  constructed s1 -> constructed s2 -> read c mu0 cpus s1 default_document = read c mu0 cpus s2 default_document.
Proof.
  intros A c mu0 cpus [o1 m1 g1 t1 r1 f1 a1 n1 v1 i1] [o2 m2 g2 t2 r2 f2 a2 n2 v2 i2] [D1 S1 C1 M1 P1 T1 U1 G1 F1 A1 I1] [D2 S2 C2 M2 P2 T2 U2 G2 F2 A2 I2].
  destruct o1 as [x1 x2 x3 x4 x5 x6 x7], o2 as [y1 y2 y3 y4 y5 y6 y7], m1 as [z1 z2 z3 z4], m2 as [w1 w2 w3 w4], a1 as [e1 e2], a2 as [e3 e4].
  cbn [outputs mesh mag field spin initial_time o_dir o_sim o_columns o_meta m_pb m_tetra m_tri a_enable] in *. subst.
  unfold read, default_document. cbn [outputs mesh mag field spin initial_time recentering threads solver time_int].
  assert (Sec : forall {X Y} l k y (old1 old2 : X) rd1 rd2 (h1 h2 : X -> res Y), assoc k l = Some y -> y <> YNull -> rd1 y = rd2 y -> (forall a, h1 a = h2 a) ->
    rbind (child (YMap l) k) (fun n => rbind (section n old1 rd1) h1) = rbind (child (YMap l) k) (fun n => rbind (section n old2 rd2) h2)).
  { intros X Y l k y old1 old2 rd1 rd2 h1 h2 H1 H2 H3 H4. rewrite child_map, H1, !rbind_Ok. destruct y; try congruence; cbn [section]; rewrite H3; apply rbind_ext; auto. }
  eapply Sec; [reflexivity|discriminate| |intros o].
  { unfold read_outputs. cbn [is_map negb]. repeat eq_key. apply rbind_ext. intros n Hn. rewrite child_map in Hn. apply ok_inj in Hn.
    match type of Hn with ?a = _ => change a with (Some (word "100")) in Hn end. subst n. cbn [word]. apply rbind_ext. intros p _.
    apply rbind_ext. intros n Hn. rewrite child_map in Hn. apply ok_inj in Hn.
    match type of Hn with ?a = _ => change a with (Some (words ["t"; "<Mx>"; "<My>"; "<Mz>"; "E_ex"; "E_demag"; "E_zeeman"; "E_tot"]%string)) in Hn end. subst n. cbn [words].
    apply rbind_ext. intros q _. apply rbind_ext. intros n Hn. rewrite child_map in Hn. apply ok_inj in Hn.
    match type of Hn with ?a = _ => change a with (Some YNull) in Hn end. subst n. reflexivity. }
  eapply Sec; [reflexivity|discriminate| |intros m].
  { unfold read_mesh. cbn [is_map negb m_pb m_scale m_tetra m_tri]. repeat eq_key. match goal with |- (if ?b then _ else _) = _ => destruct b end; [reflexivity|].
    apply rbind_ext. intros n _. apply rbind_ext. intros p _. apply rbind_ext. intros q _. apply rbind_ext. intros r _. reflexivity. }
  eapply Sec; [reflexivity|discriminate|reflexivity|intros g].
  eapply eq_null; [reflexivity|]. cbv beta.
  eapply Sec; [reflexivity|discriminate| |intros r].
  { unfold read_rec. eq_key. apply rbind_ext. intros n _. cbv zeta. apply rbind_ext. intros dir _. eq_key. reflexivity. }
  eapply Sec; [reflexivity|discriminate|reflexivity|intros f].
  eapply Sec; [reflexivity|discriminate| |intros a]. { unfold read_spin. repeat eq_key. reflexivity. }
  eapply Sec; [reflexivity|discriminate| |intros t]. { unfold read_threads. repeat eq_key. reflexivity. }
  eapply Sec; [reflexivity|discriminate| |intros v]. { unfold read_solver. repeat eq_key. reflexivity. }
  eapply Sec; [reflexivity|discriminate| |intros i]. { unfold read_time. repeat eq_key. reflexivity. }
  reflexivity.
Qed.

(** every section of a document that is read *)
Lemma read_every_section : forall {A : arith} (c : @conv A) mu0 cpus s doc s', read c mu0 cpus s doc = Ok s' ->
  (exists o, match top_node "outputs" doc with Some y => read_outputs c (outputs s) y = Ok o | None => o = outputs s end /\
     outputs s' = mkOutputs (o_dir o) (sim_name (o_sim o) (m_pb (mesh s'))) (o_step o) (o_tf o) (o_period o) (o_columns o) (o_meta o)) /\
  match top_node "mesh" doc with Some y => read_mesh c mu0 (mesh s) y = Ok (mesh s') | None => mesh s' = mesh s end /\
  match top_node "initial_magnetization" doc with Some y => read_mag c (mag s) y = Ok (mag s') | None => mag s' = mag s end /\
  match top_node "initial_time" doc with Some (YScalar t) => as_double c t = Some (initial_time s') | _ => initial_time s' = initial_time s end /\
  match top_node "recentering" doc with Some y => read_rec c (recentering s) y = Ok (recentering s') | None => recentering s' = recentering s end /\
  match top_node "Bext" doc with Some y => read_field c (field s) y = Ok (field s') | None => field s' = field s end /\
  match top_node "spin_accumulation" doc with Some y => read_spin c (spin s) y = Ok (spin s') | None => spin s' = spin s end /\
  match top_node "demagnetizing_field_solver" doc with Some y => read_threads c cpus (threads s) y = Ok (threads s') | None => threads s' = threads s end /\
  match top_node "finite_element_solver" doc with Some y => read_solver c (solver s) y = Ok (solver s') | None => solver s' = solver s end /\
  match top_node "time_integration" doc with Some y => read_time c (time_int s) y = Ok (time_int s') | None => time_int s' = time_int s end.
Proof.
  intros A c mu0 cpus s doc s' H. unfold read in H. breaks H. apply ok_inj in H. subst s'. cbn [outputs mesh mag initial_time recentering field spin threads solver time_int].
  split; [eexists; split; [eapply section_top; eassumption|reflexivity]|].
  split; [eapply section_top; eassumption|]. split; [eapply section_top; eassumption|]. split.
  { clear - E5 E6. apply child_scalar in E5. unfold top_node. destruct doc as [| | |l]; try contradiction; subst x5; try (apply ok_inj in E6; now subst x6).
    destruct (assoc (txt "initial_time") l) as [[|t| |]|]; cbn [scalar] in E6; try (apply ok_inj in E6; now subst x6).
    apply rbind_ok in E6 as (v & Ev & E6). apply ok_inj in E6. subst x6. apply get_ok in Ev. exact Ev. }
  repeat (split; [eapply section_top; eassumption|]). eapply section_top; eassumption.
Qed.

(** inversion of one key *)
Lemma inv_scalar : forall {X Y} l k t (g : text -> option X) (f : option X -> res Y) r, assoc k l = Some (YScalar t) ->
  rbind (child (YMap l) k) (fun n => rbind (scalar g n) f) = Ok r -> exists x, g t = Some x /\ f (Some x) = Ok r.
Proof. intros X Y l k t g f r H1 H2. rewrite child_map, H1, rbind_Ok in H2. cbn [scalar] in H2. destruct (g t) as [x|]; [exists x; auto|discriminate]. Qed.
Lemma inv_null : forall {X Y} l k (g : text -> option X) (f : option X -> res Y) r, assoc k l = Some YNull \/ assoc k l = None ->
  rbind (child (YMap l) k) (fun n => rbind (scalar g n) f) = Ok r -> f None = Ok r.
Proof. intros X Y l k g f r [H1|H1] H2; rewrite child_map, H1, rbind_Ok in H2; exact H2. Qed.
Lemma inv_vector : forall {A : arith} (c : @conv A) b {Y} l k t1 t2 t3 (f : option vec3 -> res Y) r, assoc k l = Some (YSeq [YScalar t1; YScalar t2; YScalar t3]) ->
  rbind (child (YMap l) k) (fun n => rbind (vector c b n) f) = Ok r ->
  exists x1 x2 x3, as_double c t1 = Some x1 /\ as_double c t2 = Some x2 /\ as_double c t3 = Some x3 /\ f (Some (if b then normalize3 (x1, x2, x3) else (x1, x2, x3))) = Ok r.
Proof.
  intros A c b Y l k t1 t2 t3 f r H1 H2. rewrite child_map, H1, rbind_Ok in H2. cbn [vector scalar_double] in H2.
  destruct (as_double c t1) as [x1|]; [|discriminate]. destruct (as_double c t2) as [x2|]; [|discriminate]. destruct (as_double c t3) as [x3|]; [|discriminate]. exists x1, x2, x3. auto.
Qed.
Lemma inv_no_vector : forall {A : arith} (c : @conv A) b {Y} l k (f : option vec3 -> res Y) r, assoc k l = Some YNull ->
  rbind (child (YMap l) k) (fun n => rbind (vector c b n) f) = Ok r -> f None = Ok r.
Proof. intros A c b Y l k f r H1 H2. rewrite child_map, H1, rbind_Ok in H2. exact H2. Qed.
Ltac inv_key H := first
  [ eapply inv_scalar in H as (? & ? & H); [|reflexivity] | eapply inv_null in H; [|first [left; reflexivity | right; reflexivity]]
  | eapply inv_vector in H as (? & ? & ? & ? & ? & ? & H); [|reflexivity] | eapply inv_no_vector in H; [|reflexivity] ]; cbv beta iota in H.

Ltac at_key H := repeat (rewrite assoc_hit in H || rewrite assoc_miss in H by reflexivity); cbv iota in H.

(** the documented default values of the numbers; the texts are those of default-settings.yml *)
Definition default_numbers {A : arith} (D : @tetra_prm A) (E : @tri_prm A) (d : @settings A) : list (string * num A) :=
  [("5e-13", o_step (outputs d)); ("1e-10", o_tf (outputs d)); ("1e-9", m_scale (mesh d)); ("1e-11", t_A D); ("795774.7", t_Ms D); ("0", t_K D); ("0", t_K3 D);
   ("0.5", t_alpha D); ("0", t_sigma D); ("0", t_N0 D); ("0", t_P D); ("0", t_lsd D); ("0", t_lsf D); ("0", s_Ks E); ("0.1", r_threshold (recentering d));
   ("1e-6", v_tol (solver d)); ("0.02", i_dumax (time_int d)); ("1e-16", i_dt_min (time_int d)); ("5e-13", i_dt_max (time_int d))]%string.
(** and of the axes, which are normalised *)
Definition default_axes {A : arith} (D : @tetra_prm A) (E : @tri_prm A) : list ((string * string * string) * @vec3 A) :=
  [(("0", "0", "1"), t_uk D); (("1", "0", "0"), t_ex D); (("0", "1", "0"), t_ey D); (("0", "0", "1"), t_ez D); (("0", "0", "1"), s_uk E); (("0", "0", "1"), s_uP E)]%string.
Theorem C94_default_values : forall (A : arith) (c : @conv A) mu0 cpus s d,
  constructed s -> read c mu0 cpus s default_document = Ok d ->
  exists D E, m_tetra (mesh d) = [D] /\ m_tri (mesh d) = [E] /\ t_name D = txt "__default__" /\ s_name E = txt "__default__" /\
    (forall t x, In (t, x) (default_numbers D E d) -> as_double c (txt t) = Some x) /\
    (forall a b e v, In (a, b, e, v) (default_axes D E) ->
       exists x y z, as_double c (txt a) = Some x /\ as_double c (txt b) = Some y /\ as_double c (txt e) = Some z /\ v = normalize3 (x, y, z)) /\
    s_V E = nan /\ s_jn E = nan /\ s_s E = nan3 /\ as_bool c (txt "false") = Some (s_suppress E) /\
    o_dir (outputs d) = txt "." /\ o_sim (outputs d) = [] /\ m_pb (mesh d) = [] /\ o_meta (outputs d) = [] /\
    o_columns (outputs d) = map txt ["t"; "<Mx>"; "<My>"; "<Mz>"; "E_ex"; "E_demag"; "E_zeeman"; "E_tot"]%string /\
    (exists n, as_int c (txt "100") = Some n /\ o_period (outputs d) = Z.max 0 n) /\
    initial_magnetization d = FromExpression (Expressions (txt "x,y,z") (txt "0") (txt "0") (txt "1")) /\ initial_time d = nan /\
    as_bool c (txt "false") = Some (r_enable (recentering d)) /\ r_direction (recentering d) = AZ /\
    f_kind (field d) = RtoR3 /\ f_parser (field d) = Expressions (txt "t") (txt "0") (txt "0") (txt "0") /\
    as_bool c (txt "false") = Some (a_enable (spin d)) /\ as_bool c (txt "false") = Some (a_V_file (spin d)) /\
    (exists n, as_int c (txt "0") = Some n /\ threads d = if (n <=? 0)%Z then cpus else n) /\
    as_int c (txt "700") = Some (v_maxiter (solver d)) /\ nle (m_scale (mesh d)) n0 = false /\
    g_restore (mag d) = [] /\ g_sM (mag d) = [] /\ g_parser (mag d) = Expressions (txt "x,y,z") (g_sMx (mag d)) (g_sMy (mag d)) (g_sMz (mag d)) /\
    f_sB (field d) = [] /\ f_parser (field d) = Expressions (txt "t") (f_sBx (field d)) (f_sBy (field d)) (f_sBz (field d)) /\
    f_space_parser (field d) = NoSource /\ f_time_parser (field d) = NoSource.
Proof.
  intros A c mu0 cpus s d Hs R. destruct (read_every_section c mu0 cpus s _ d R) as ((o & Ro & Eo) & Rm & Rg & Rt & Rr & Rf & Ra & Rn & Rv & Ri). clear R.
  unfold top_node, default_document in Ro, Rm, Rg, Rt, Rr, Rf, Ra, Rn, Rv, Ri.
  at_key Ro. at_key Rm. at_key Rg. at_key Rt. at_key Rr. at_key Rf. at_key Ra. at_key Rn. at_key Rv. at_key Ri.
  destruct Hs as [Hdir Hsim Hcol Hmeta Hpb Htet Htri Hmag Hfld Hspin Htime].
  (* outputs *)
  unfold read_outputs in Ro. cbn [is_map negb] in Ro. repeat inv_key Ro.
  rewrite child_map in Ro. at_key Ro. rewrite rbind_Ok in Ro. cbn [word] in Ro. cbv beta iota in Ro.
  change (text_eqb (txt "100") (txt "true")) with false in Ro. change (text_eqb (txt "100") (txt "false")) with false in Ro. cbv iota in Ro.
  apply rbind_ok in Ro as (per & Hper & Ro). apply rbind_ok in Hper as (per0 & Hper0 & Hper). apply get_ok in Hper0. apply ok_inj in Hper.
  rewrite child_map in Ro. at_key Ro. rewrite rbind_Ok in Ro. cbv beta iota in Ro. cbn [words map word strings as_string get rbind] in Ro.
  rewrite child_map in Ro. at_key Ro. rewrite rbind_Ok in Ro. cbv beta iota in Ro. rewrite rbind_Ok in Ro. apply ok_inj in Ro. subst o.
  (* mesh *)
  unfold read_mesh in Rm. cbn [is_map negb] in Rm. repeat inv_key Rm. rewrite Htet, Htri, Hpb in Rm.
  match type of Rm with (if ?b then _ else _) = _ => destruct b eqn:Bs; [discriminate|] end.
  rewrite child_map in Rm. at_key Rm. rewrite rbind_Ok in Rm. apply rbind_ok in Rm as (ts & Rts & Rm).
  rewrite child_map in Rm. at_key Rm. rewrite rbind_Ok in Rm. apply rbind_ok in Rm as (ss & Rss & Rm). apply ok_inj in Rm.
  cbn [regions] in Rts, Rss. apply rbind_ok in Rts as (nt & Rnt & Rts). apply ok_inj in Rts. apply rbind_ok in Rss as (ns & Rns & Rss). apply ok_inj in Rss.
  cbn [read_regions] in Rnt, Rns. apply rbind_ok in Rnt as (D & RD & Rnt). rewrite rbind_Ok in Rnt. apply ok_inj in Rnt.
  apply rbind_ok in Rns as (E & RE & Rns). rewrite rbind_Ok in Rns. apply ok_inj in Rns. subst nt ns ts ss. cbn [app] in Rm.
  unfold read_tetra in RD. repeat inv_key RD. apply ok_inj in RD.
  unfold read_tri in RE. repeat inv_key RE.
  match type of RE with (if ?b then _ else _) = _ => destruct b eqn:Bb; [discriminate|] end. repeat inv_key RE. apply ok_inj in RE.
  (* the rest *)
  rewrite Hmag in Rg. cbn [words map word read_mag as_string get rbind g_restore g_sM] in Rg. apply ok_inj in Rg.
  rewrite Hfld in Rf. cbn [words map word read_field as_string get rbind] in Rf. apply ok_inj in Rf.
  unfold read_rec in Rr. inv_key Rr. rewrite child_map in Rr. at_key Rr. rewrite rbind_Ok in Rr. cbn [word as_string] in Rr. cbv zeta iota in Rr.
  change (text_eqb (txt "Z") (txt "X")) with false in Rr. change (text_eqb (txt "Z") (txt "Y")) with false in Rr. change (text_eqb (txt "Z") (txt "Z")) with true in Rr.
  cbv iota in Rr. rewrite rbind_Ok in Rr. inv_key Rr. apply ok_inj in Rr.
  unfold read_spin in Ra. repeat inv_key Ra. apply ok_inj in Ra.
  unfold read_threads in Rn. repeat inv_key Rn. cbv zeta in Rn. apply ok_inj in Rn.
  unfold read_solver in Rv. repeat inv_key Rv. apply ok_inj in Rv.
  unfold read_time in Ri. repeat inv_key Ri. apply ok_inj in Ri.
  exists D, E. unfold default_numbers, default_axes, initial_magnetization.
  rewrite <- Rr, <- Ra, <- Rn, <- Rv, <- Ri, <- Rg, <- Rf, Eo, <- Rm, Rt, Htime. subst D E.
  cbn [outputs mesh o_dir o_sim o_step o_tf o_period o_columns o_meta m_pb m_scale m_tetra m_tri t_name t_alpha t_A t_Ms t_K t_uk t_K3 t_ex t_ey t_ez t_P t_N0 t_sigma t_lsd t_lsf
    s_name s_suppress s_Ks s_uk s_V s_jn s_uP s_s keep g_restore g_sM g_sMx g_sMy g_sMz g_parser r_enable r_direction r_threshold f_sB f_sBx f_sBy f_sBz f_kind f_parser f_space_parser f_time_parser
    a_enable a_V_file v_maxiter v_tol i_dumax i_dt_min i_dt_max].
  rewrite Hsim, Hmeta.
  split; [reflexivity|]. split; [reflexivity|]. split; [reflexivity|]. split; [reflexivity|]. split.
  { intros name value Hin. cbn [In] in Hin.
    repeat (destruct Hin as [Hin|Hin]; [injection Hin as <- <-; assumption|]). destruct Hin. }
  split.
  { intros name1 name2 name3 value Hin. cbn [In] in Hin.
    repeat (destruct Hin as [Hin|Hin]; [injection Hin as <- <- <- <-; do 3 eexists; rewrite <- and_assoc, <- and_assoc; (split; [|reflexivity]); repeat split; eassumption|]). destruct Hin. }
  repeat match goal with |- _ /\ _ => split end; try reflexivity; try assumption; try (eexists; split; [eassumption|]); try reflexivity.
  { match goal with H : Some _ = Some ?a |- normalize_dir ?a = _ => injection H as H; rewrite <- H; reflexivity end. }
  rewrite <- Hper. destruct (Z.ltb_spec per0 0); lia.
Qed.

(** The settings of the constructor are those that C93 starts from. *)
Theorem C94_fresh : forall (A : arith) (c : @conv A) mu0 cpus s d,
  nisnan (@nan A) = true -> (0 < cpus)%Z -> constructed s -> read c mu0 cpus s default_document = Ok d -> fresh d.
Proof.
  intros A c mu0 cpus s d HN Hc Hs R.
  destruct (C94_default_values A c mu0 cpus s d Hs R) as (D & E & H1 & H2 & H3 & H4 & _ & _ & _ & _ & _ & _ & _ & H5 & H6 & H7 & _ & (n & _ & H8) & _ & H9 & _ & _ & H10 & _ & _ & _ &
    (k & _ & H11) & _ & H12 & H13 & H14 & H15 & H16 & H17 & H18 & H19).
  constructor; auto.
  - rewrite H8. lia. - eauto. - eauto. - rewrite H9. exact HN. - rewrite H11. destruct (Z.leb_spec k 0); lia.
Qed.

(** ** A concrete case, in binary64 *)
(** the numbers of the example: the text that denotes them, numerator and denominator *)
Definition table : list (text * (Z * Z)) :=
  [(txt "0", (0, 1)); (txt "1", (1, 1)); (txt "2", (2, 1)); (txt "0.5", (1, 2)); (txt "0.1", (1, 10)); (txt "0.02", (2, 100));
   (txt "5e-13", (5, 10000000000000)); (txt "1e-10", (1, 10000000000)); (txt "1e-09", (1, 1000000000)); (txt "1e-9", (1, 1000000000)); (txt "1e-11", (1, 100000000000));
   (txt "1e-06", (1, 1000000)); (txt "1e-6", (1, 1000000)); (txt "1e-16", (1, 10000000000000000)); (txt "800000", (800000, 1)); (txt "1000", (1000, 1));
   (txt "795775", (795775, 1)); (txt "795774.7", (7957747, 10))]%Z.
Definition value_of (e : Z * Z) : num B64 := nlit (a := B64) (fst e) (Z.to_pos (snd e)).
Definition ints : list (text * Z) := [(txt "0", 0); (txt "4", 4); (txt "100", 100); (txt "700", 700)]%Z.
Definition conv64 : @conv B64 := mkConv (fun t => option_map value_of (assoc t table)) (fun t => assoc t ints)
  (fun t => if text_eqb t (txt "true") then Some true else if text_eqb t (txt "false") then Some false else None) (fun _ => None).
(** printing with 6 digits: 795774.7 gives 795775; another number of the table gives its first text *)
Definition pd64 (x : num B64) : text :=
  if neq (a := B64) x (value_of (7957747, 10)%Z) then txt "795775"
  else match find (fun e => neq (a := B64) x (value_of (snd e))) table with Some e => fst e | None => txt "nan" end.
Definition pz64 (z : Z) : text := match find (fun e => Z.eqb z (snd e)) ints with Some e => fst e | None => txt "?" end.
(** the members before the constructor reads the built-in defaults: any value would do for the numbers (C94) *)
Definition raw64 : @settings B64 :=
  mkSettings (A := B64) (mkOutputs (A := B64) [] [] n0 n0 0 [] []) (mkMesh (A := B64) [] n0 [] []) (mkMag [] [] [] [] [] NoSource) nan (mkRec (A := B64) false AX n0)
    (mkField [] [] [] [] [] [] UNDEF NoSource NoSource NoSource) (mkSpin false false) 0%Z (mkSolver (A := B64) 0%Z n0) (mkTime (A := B64) n0 n0 n0).
Definition read64 := read conv64 (value_of (1, 1000000)%Z) 4%Z.

(** a decision procedure for [writable] in this case *)
Definition sf_eqb (x y : spec_float) : bool :=
  match x, y with
  | S754_zero a, S754_zero b | S754_infinity a, S754_infinity b => Bool.eqb a b
  | S754_nan, S754_nan => true
  | S754_finite a m e, S754_finite b n f => Bool.eqb a b && Pos.eqb m n && Z.eqb e f
  | _, _ => false
  end.
Definition b64_same (x y : num B64) : bool := sf_eqb (B2SF x) (B2SF y).
Lemma b64_same_eq : forall x y, b64_same x y = true -> x = y.
Proof.
  intros x y H. apply B2SF_inj. unfold b64_same in H. destruct (B2SF x) as [a|a| |a m e], (B2SF y) as [b|b| |b n f]; try discriminate H; cbn [sf_eqb] in H.
  - apply eqb_prop in H. congruence.
  - apply eqb_prop in H. congruence.
  - reflexivity.
  - apply andb_prop in H. destruct H as (H & H3). apply andb_prop in H. destruct H as (H1 & H2). apply eqb_prop in H1. apply Pos.eqb_eq in H2. apply Z.eqb_eq in H3. congruence.
Qed.
Definition plainb (t : text) : bool := match load_plain t with Some (YScalar u) => text_eqb u t | _ => false end.
Lemma plainb_ok : forall t, plainb t = true -> plain t.
Proof. intros t H. unfold plainb in H. unfold plain. destruct (load_plain t) as [[| u | |]|]; try discriminate H. apply text_eqb_spec in H. congruence. Qed.
Definition num_okb (x : num B64) : bool := plainb (pd64 x) && match as_double conv64 (pd64 x) with Some y => b64_same y x | None => false end.
Definition int_okb (z : Z) : bool := plainb (pz64 z) && match as_int conv64 (pz64 z) with Some y => Z.eqb y z | None => false end.
Definition vec_okb (v : @vec3 B64) : bool := let '(x, y, z) := v in num_okb x && num_okb y && num_okb z.
Definition axis_okb (v : @vec3 B64) : bool :=
  vec_okb v && let '(x, y, z) := v in let '(a, b, d) := normalize3 v in b64_same a x && b64_same b y && b64_same d z.
Definition str_okb (level : nat) (t : text) : bool :=
  match str_yaml t level with Some u => match yaml_scalar u with Some w => text_eqb w t | None => false end | None => false end.
Definition quoted_okb (t : text) : bool := match load_quoted t with Some (YScalar u) => text_eqb u t | _ => false end.
Definition name_or_emptyb (t : text) : bool := match t with [] => true | _ => plainb t end.
Definition volume_okb (p : @tetra_prm B64) : bool :=
  plainb (t_name p) && forallb num_okb [t_A p; t_Ms p; t_K p; t_K3 p; t_alpha p; t_sigma p; t_N0 p; t_P p; t_lsd p; t_lsf p] &&
  (neq (a := B64) (t_K p) n0 || axis_okb (t_uk p)) && (neq (a := B64) (t_K3 p) n0 || forallb axis_okb [t_ex p; t_ey p; t_ez p]).
Definition surface_okb (spin_acc : bool) (p : @tri_prm B64) : bool :=
  plainb (s_name p) && num_okb (s_Ks p) && (neq (a := B64) (s_Ks p) n0 || axis_okb (s_uk p)) && nisnan (a := B64) (s_jn p) && (nisnan (a := B64) (s_V p) || num_okb (s_V p)) &&
  (negb spin_acc || axis_okb (s_uP p) && vec_okb (s_s p)).
Fixpoint nodupb (l : list text) : bool := match l with [] => true | x :: r => negb (existsb (text_eqb x) r) && nodupb r end.
Definition writableb (s : @settings B64) : bool :=
  forallb num_okb [o_step (outputs s); o_tf (outputs s); m_scale (mesh s); v_tol (solver s); i_dumax (time_int s); i_dt_min (time_int s); i_dt_max (time_int s)] &&
  (forallb int_okb [o_period (outputs s); threads s; v_maxiter (solver s)] &&
   negb (text_eqb (pz64 (o_period (outputs s))) (txt "true")) && negb (text_eqb (pz64 (o_period (outputs s))) (txt "false"))) &&
  (plainb (o_dir (outputs s)) && text_eqb (normalize_dir (o_dir (outputs s))) (o_dir (outputs s))) &&
  (name_or_emptyb (o_sim (outputs s)) && name_or_emptyb (m_pb (mesh s))) &&
  (match o_columns (outputs s) with [] => false | _ => true end && forallb plainb (o_columns (outputs s))) &&
  (nodupb (map fst (o_meta (outputs s))) && forallb (fun kv => plainb (fst kv) && str_okb 2 (snd kv)) (o_meta (outputs s))) &&
  forallb volume_okb (named t_name (m_tetra (mesh s))) &&
  forallb (surface_okb (a_enable (spin s))) (named s_name (m_tri (mesh s))) &&
  match initial_magnetization s with
  | FromFile f => plainb f
  | FromExpression (FunctionSource f) => str_okb 0 f
  | FromExpression (Expressions _ x y z) => forallb quoted_okb [x; y; z]
  | FromExpression NoSource => false
  end &&
  (nisnan (a := B64) (initial_time s) || num_okb (initial_time s)) &&
  (negb (r_enable (recentering s)) || num_okb (r_threshold (recentering s))) &&
  match f_kind (field s) with
  | R4toR3 => match f_space_parser (field s), f_time_parser (field s) with FunctionSource f, FunctionSource g => str_okb 1 f && str_okb 1 g | _, _ => false end
  | _ => match f_parser (field s) with
         | FunctionSource f => negb (text_eqb f []) && str_okb 0 f
         | Expressions _ x y z => forallb quoted_okb [x; y; z]
         | NoSource => false
         end
  end.
Ltac ands H := repeat match type of H with _ && _ = true => let H' := fresh "B" in apply andb_prop in H; destruct H as (H & H') end.
Lemma forallb_all : forall {X} (f : X -> bool) (P : X -> Prop) l, (forall x, f x = true -> P x) -> forallb f l = true -> Forall P l.
Proof. intros X f P l H. induction l as [|x l IH]; intros E; [constructor|]. cbn [forallb] in E. apply andb_prop in E. destruct E as (E1 & E2). constructor; auto. Qed.
Lemma num_okb_ok : forall x, num_okb x = true -> num_ok conv64 pd64 x.
Proof.
  intros x H. unfold num_okb in H. apply andb_prop in H. destruct H as (H1 & H2). split; [apply plainb_ok; exact H1|].
  destruct (as_double conv64 (pd64 x)) as [y|]; [|discriminate H2]. apply b64_same_eq in H2. congruence.
Qed.
Lemma int_okb_ok : forall x, int_okb x = true -> int_ok conv64 pz64 x.
Proof.
  intros x H. unfold int_okb in H. apply andb_prop in H. destruct H as (H1 & H2). split; [apply plainb_ok; exact H1|].
  destruct (as_int conv64 (pz64 x)) as [y|]; [|discriminate H2]. apply Z.eqb_eq in H2. congruence.
Qed.
Lemma vec_okb_ok : forall x, vec_okb x = true -> vec_ok conv64 pd64 x.
Proof. intros [[x y] z] H. unfold vec_okb in H. ands H. repeat split; apply num_okb_ok; assumption. Qed.
Lemma axis_okb_ok : forall x, axis_okb x = true -> axis_ok conv64 pd64 x.
Proof.
  intros [[x y] z] H. unfold axis_okb in H. apply andb_prop in H. destruct H as (H1 & H2). split; [apply vec_okb_ok; exact H1|].
  remember (normalize3 (x, y, z)) as n eqn:E. clear E. destruct n as [[a b] d]. ands H2. apply b64_same_eq in H2, B, B0. congruence.
Qed.
Lemma str_okb_ok : forall l t, str_okb l t = true -> str_ok l t.
Proof.
  intros l t H. unfold str_okb in H. destruct (str_yaml t l) as [u|] eqn:E; [|discriminate H]. exists u. split; [exact E|]. destruct (yaml_scalar u) as [w|]; [|discriminate H].
  apply text_eqb_spec in H. congruence.
Qed.
Lemma quoted_okb_ok : forall t, quoted_okb t = true -> load_quoted t = Some (YScalar t).
Proof. intros t H. unfold quoted_okb in H. destruct (load_quoted t) as [[|u| |]|]; try discriminate H. apply text_eqb_spec in H. congruence. Qed.
Lemma name_or_emptyb_ok : forall t, name_or_emptyb t = true -> name_or_empty t.
Proof. intros [|c t] H; [left; reflexivity|right; apply plainb_ok; exact H]. Qed.
Lemma nodupb_ok : forall l, nodupb l = true -> NoDup l.
Proof.
  intros l. induction l as [|x l IH]; intros H; [constructor|]. cbn [nodupb] in H. apply andb_prop in H. destruct H as (H1 & H2). constructor; [|auto].
  intros K. apply negb_true_iff in H1. assert (E : existsb (text_eqb x) l = true); [|congruence]. apply existsb_exists. exists x. split; [exact K|apply text_eqb_refl].
Qed.
Lemma volume_okb_ok : forall p, volume_okb p = true -> volume_ok conv64 pd64 p.
Proof.
  intros p H. unfold volume_okb in H. ands H. split; [apply plainb_ok; exact H|]. split; [eapply forallb_all; [apply num_okb_ok|exact B1]|]. split; intros E.
  - rewrite E in B0. apply axis_okb_ok. exact B0.
  - rewrite E in B. eapply forallb_all; [apply axis_okb_ok|exact B].
Qed.
Lemma surface_okb_ok : forall b p, surface_okb b p = true -> surface_ok conv64 pd64 b p.
Proof.
  intros b p H. unfold surface_okb in H. ands H. split; [apply plainb_ok; exact H|]. split; [apply num_okb_ok; assumption|]. split; [|split; [|split]].
  - intros E. rewrite E in B2. apply axis_okb_ok. exact B2.
  - exact B1.
  - apply orb_prop in B0. destruct B0 as [B0|B0]; [left; exact B0|right; apply num_okb_ok; exact B0].
  - intros E. rewrite E in B. cbn [negb orb] in B. apply andb_prop in B. destruct B as (B & B'). split; [apply axis_okb_ok|apply vec_okb_ok]; assumption.
Qed.
Lemma writableb_ok : forall s, writableb s = true -> writable conv64 pd64 pz64 s.
Proof.
  intros s H. unfold writableb in H. do 11 (apply andb_prop in H; let H' := fresh "K" in destruct H as (H & H')).
  constructor.
  - split; reflexivity.
  - eapply forallb_all; [apply num_okb_ok|exact H].
  - ands K9. split; [eapply forallb_all; [apply int_okb_ok|exact K9]|].
    apply negb_true_iff in B, B0. split; intros E; rewrite E, text_eqb_refl in *; discriminate.
  - ands K8. split; [apply plainb_ok; exact K8|]. apply text_eqb_spec. exact B.
  - ands K7. split; apply name_or_emptyb_ok; assumption.
  - ands K6. split; [intros E; rewrite E in K6; discriminate K6|]. eapply forallb_all; [apply plainb_ok|exact B].
  - ands K5. split; [apply nodupb_ok; exact K5|]. eapply forallb_all; [|exact B]. intros x E. apply andb_prop in E. destruct E. split; [apply plainb_ok|apply str_okb_ok]; assumption.
  - eapply forallb_all; [apply volume_okb_ok|exact K4].
  - eapply forallb_all; [apply surface_okb_ok|exact K3].
  - destruct (initial_magnetization s) as [f|[|f|x y z w]]; [apply plainb_ok; exact K2|discriminate K2|apply str_okb_ok; exact K2|eapply forallb_all; [apply quoted_okb_ok|exact K2]].
  - apply orb_prop in K1. destruct K1 as [E|E]; [left; exact E|right; apply num_okb_ok; exact E].
  - intros E. rewrite E in K0. apply num_okb_ok. exact K0.
  - destruct (f_kind (field s)).
    + destruct (f_parser (field s)) as [|f|x y z w]; [discriminate K| |eapply forallb_all; [apply quoted_okb_ok|exact K]].
      ands K. split; [intros E; rewrite E in K; discriminate K|apply str_okb_ok; exact B].
    + destruct (f_parser (field s)) as [|f|x y z w]; [discriminate K| |eapply forallb_all; [apply quoted_okb_ok|exact K]].
      ands K. split; [intros E; rewrite E in K; discriminate K|apply str_okb_ok; exact B].
    + destruct (f_space_parser (field s)) as [|f|x y z w], (f_time_parser (field s)) as [|g|x' y' z' w']; try discriminate K. ands K. split; apply str_okb_ok; assumption.
Qed.

(** the settings after the constructor and the files that are given, then the settings of the printed document: what the
    test says of the two *)
Definition files (docs : list yaml) : res (@settings B64) :=
  fold_left (fun r doc => rbind r (fun s => read64 s doc)) docs (read64 raw64 default_document).
Definition round_trip (docs : list yaml) (test : @settings B64 -> @settings B64 -> bool) : bool :=
  match read64 raw64 default_document, files docs with
  | Ok d, Ok s => match load (to_yaml pd64 pz64 s) with
                  | Some y => match read64 d y with Ok s' => test s s' | _ => false end
                  | None => false
                  end
  | _, _ => false
  end.
Lemma raw64_constructed : constructed raw64.
Proof. constructor; reflexivity. Qed.
Lemma round_trip_sound : forall docs test, round_trip docs test = true ->
  exists d s y s', read64 raw64 default_document = Ok d /\ files docs = Ok s /\ load (to_yaml pd64 pz64 s) = Some y /\ read64 d y = Ok s' /\ test s s' = true.
Proof.
  intros docs test H. unfold round_trip in H. destruct (read64 raw64 default_document) as [d| |] eqn:E1; try discriminate H.
  destruct (files docs) as [s| |] eqn:E2; try discriminate H. destruct (load (to_yaml pd64 pz64 s)) as [y|] eqn:E3; [|discriminate H].
  destruct (read64 d y) as [s'| |] eqn:E4; try discriminate H. exists d, s, y, s'. auto.
Qed.

(** a settings file with a mesh, two volume regions (one with an anisotropy axis), a surface with a potential and a surface
    anisotropy, metadata on two lines, a magnetization given by a function, the recentering *)
Definition example_document : yaml := YMap
  [(txt "outputs", YMap [(txt "directory", word "out/"); (txt "final_time", word "1e-9"); (txt "mag_config_every", word "false"); (txt "evol_columns", words ["t"; "<Mx>"; "E_tot"]%string);
     (txt "metadata", YMap [(txt "Author", word "A. U. Thor"); (txt "Note", YScalar (txt "one" ++ NL :: txt "two" ++ [NL]))])]);
   (txt "mesh", YMap [(txt "filename", word "cube.msh"); (txt "length_unit", word "1e-9");
     (txt "volume_regions", YMap [(txt "core", YMap [(txt "Ms", word "800000"); (txt "K", word "1000"); (txt "uk", words ["0"; "0"; "2"]%string)]); (txt "shell", YMap [(txt "Ms", word "0")])]);
     (txt "surface_regions", YMap [(txt "top", YMap [(txt "V", word "0.1"); (txt "Ks", word "1e-6"); (txt "uk", words ["2"; "0"; "0"]%string)])])]);
   (txt "initial_magnetization", YScalar (txt "function(x, y, z) {" ++ NL :: txt "  return [x, 0, 1]; }" ++ [NL]));
   (txt "recentering", YMap [(txt "enable", word "true"); (txt "direction", word "X")]);
   (txt "Bext", YSeq [word "0.1*sin(t)"; word "0"; word "0"])].
Example C93_printed_settings_nonvacuous : exists d s y s',
  constructed raw64 /\ read64 raw64 default_document = Ok d /\ fresh d /\ read64 d example_document = Ok s /\ writable conv64 pd64 pz64 s /\
  load (to_yaml pd64 pz64 s) = Some y /\ read64 d y = Ok s' /\ same_run s s' /\ map t_name (named t_name (m_tetra (mesh s'))) = [txt "core"; txt "shell"].
Proof.
  assert (H : exists d s y s', read64 raw64 default_document = Ok d /\ files [example_document] = Ok s /\ load (to_yaml pd64 pz64 s) = Some y /\ read64 d y = Ok s' /\
    (writableb s && match map t_name (named t_name (m_tetra (mesh s'))) with [a; b] => text_eqb a (txt "core") && text_eqb b (txt "shell") | _ => false end) = true).
  { apply (round_trip_sound [example_document] (fun s s' => writableb s && match map t_name (named t_name (m_tetra (mesh s'))) with [a; b] => text_eqb a (txt "core") && text_eqb b (txt "shell") | _ => false end)).
    vm_compute. reflexivity. }
  destruct H as (d & s & y & s' & H1 & H2 & H3 & H4 & H5). apply andb_prop in H5. destruct H5 as (H5 & H6). apply writableb_ok in H5.
  assert (R : read64 d example_document = Ok s). { unfold files in H2. cbn [fold_left] in H2. rewrite H1 in H2. exact H2. }
  assert (F : fresh d) by (eapply C94_fresh; [vm_compute; reflexivity| |apply raw64_constructed|exact H1]; reflexivity).
  exists d, s, y, s'. split; [apply raw64_constructed|]. split; [exact H1|]. split; [exact F|]. split; [exact R|]. split; [exact H5|]. split; [exact H3|]. split; [exact H4|]. split.
  - destruct (C93_printed_settings_partial B64 conv64 pd64 pz64 (value_of (1, 1000000)%Z) 4%Z d example_document s) as (y' & s'' & L & R' & S); [vm_compute; reflexivity|exact F|reflexivity|exact R|exact H5|].
    rewrite H3 in L. injection L as <-. assert (Ok s' = Ok s'') as E by (rewrite <- H4; exact R'). injection E as ->. exact S.
  - destruct (map t_name (named t_name (m_tetra (mesh s')))) as [|a [|b [|? ?]]]; try discriminate H6. apply andb_prop in H6. destruct H6 as (H6 & H7).
    apply text_eqb_spec in H6, H7. congruence.
Qed.

(** ** Where the printed settings define another run *)
Definition is_nan_of (o : option (num B64)) : option bool := option_map (nisnan (a := B64)) o.
(** The current density is printed under the key J and read under the key jn: it is lost. *)
Definition current_document : yaml := YMap
  [(txt "mesh", YMap [(txt "filename", word "cube.msh"); (txt "surface_regions", YMap [(txt "top", YMap [(txt "jn", word "1000")])])])].
Theorem C93_current_density_refuted : exists d s y s', read64 raw64 default_document = Ok d /\ read64 d current_document = Ok s /\
  load (to_yaml pd64 pz64 s) = Some y /\ read64 d y = Ok s' /\
  option_map s_name (hd_error (named s_name (m_tri (mesh s)))) = Some (txt "top") /\
  option_map s_jn (hd_error (named s_name (m_tri (mesh s)))) = as_double conv64 (txt "1000") /\
  is_nan_of (option_map s_jn (hd_error (named s_name (m_tri (mesh s'))))) = Some true.
Proof.
  set (test := fun s s' : @settings B64 =>
    match hd_error (named s_name (m_tri (mesh s))), hd_error (named s_name (m_tri (mesh s'))) with
    | Some p, Some p' => text_eqb (s_name p) (txt "top") && b64_same (s_jn p) (value_of (1000, 1)%Z) && nisnan (a := B64) (s_jn p')
    | _, _ => false
    end).
  destruct (round_trip_sound [current_document] test) as (d & s & y & s' & H1 & H2 & H3 & H4 & H5); [vm_compute; reflexivity|].
  exists d, s, y, s'. split; [exact H1|]. split. { unfold files in H2. cbn [fold_left] in H2. rewrite H1 in H2. exact H2. } split; [exact H3|]. split; [exact H4|].
  unfold test in H5. destruct (hd_error (named s_name (m_tri (mesh s)))) as [p|]; [|discriminate H5]. destruct (hd_error (named s_name (m_tri (mesh s')))) as [p'|]; [|discriminate H5].
  ands H5. apply text_eqb_spec in H5. apply b64_same_eq in B0. unfold is_nan_of. cbn [option_map]. rewrite H5, B0, B. repeat split; reflexivity.
Qed.

(** With a file of user defaults that gives a function, and a settings file that gives expressions or a file, the function is
    printed and the settings file is used. *)
Definition user_function : text := txt "function(x, y, z) { return [1, 0, 0]; }".
Definition user_defaults : yaml := YMap [(txt "initial_magnetization", YScalar user_function)].
Definition run_document : yaml := YMap [(txt "mesh", YMap [(txt "filename", word "cube.msh")]); (txt "initial_magnetization", words ["0"; "1"; "0"]%string)].
Theorem C93_user_defaults_refuted : exists d u s y s', read64 raw64 default_document = Ok d /\ read64 d user_defaults = Ok u /\ read64 u run_document = Ok s /\
  load (to_yaml pd64 pz64 s) = Some y /\ read64 d y = Ok s' /\
  initial_magnetization s = FromExpression (Expressions (txt "x,y,z") (txt "0") (txt "1") (txt "0")) /\
  initial_magnetization s' = FromExpression (FunctionSource user_function).
Proof.
  set (test := fun s s' : @settings B64 =>
    match initial_magnetization s, initial_magnetization s' with
    | FromExpression (Expressions p x y z), FromExpression (FunctionSource f) =>
        text_eqb p (txt "x,y,z") && text_eqb x (txt "0") && text_eqb y (txt "1") && text_eqb z (txt "0") && text_eqb f user_function
    | _, _ => false
    end).
  destruct (round_trip_sound [user_defaults; run_document] test) as (d & s & y & s' & H1 & H2 & H3 & H4 & H5); [vm_compute; reflexivity|].
  unfold files in H2. cbn [fold_left] in H2. rewrite H1 in H2. rewrite rbind_Ok in H2.
  destruct (read64 d user_defaults) as [u| |] eqn:E; try discriminate H2. rewrite rbind_Ok in H2.
  exists d, u, s, y, s'. split; [exact H1|]. split; [exact E|]. split; [exact H2|]. split; [exact H3|]. split; [exact H4|].
  unfold test in H5. destruct (initial_magnetization s) as [|[|f|p a b e]]; try discriminate H5. destruct (initial_magnetization s') as [|[|f| ]]; try discriminate H5.
  ands H5. apply text_eqb_spec in H5, B, B0, B1, B2. subst. split; reflexivity.
Qed.

(** Numbers are printed with 6 significant digits: the default magnetization 795774.7 A/m is read back as 795775 A/m. *)
Definition plain_document : yaml := YMap [(txt "mesh", YMap [(txt "filename", word "cube.msh"); (txt "volume_regions", YMap [(txt "core", YMap [(txt "Ae", word "1e-11")])])])].
Theorem C93_digits_refuted : exists d s y s', read64 raw64 default_document = Ok d /\ read64 d plain_document = Ok s /\
  load (to_yaml pd64 pz64 s) = Some y /\ read64 d y = Ok s' /\
  option_map t_Ms (hd_error (named t_name (m_tetra (mesh s)))) = as_double conv64 (txt "795774.7") /\
  option_map t_Ms (hd_error (named t_name (m_tetra (mesh s')))) = as_double conv64 (txt "795775") /\ as_double conv64 (txt "795774.7") <> as_double conv64 (txt "795775").
Proof.
  set (test := fun s s' : @settings B64 =>
    match hd_error (named t_name (m_tetra (mesh s))), hd_error (named t_name (m_tetra (mesh s'))) with
    | Some p, Some p' => b64_same (t_Ms p) (value_of (7957747, 10)%Z) && b64_same (t_Ms p') (value_of (795775, 1)%Z)
    | _, _ => false
    end).
  destruct (round_trip_sound [plain_document] test) as (d & s & y & s' & H1 & H2 & H3 & H4 & H5); [vm_compute; reflexivity|].
  exists d, s, y, s'. split; [exact H1|]. split. { unfold files in H2. cbn [fold_left] in H2. rewrite H1 in H2. exact H2. } split; [exact H3|]. split; [exact H4|].
  unfold test in H5. destruct (hd_error (named t_name (m_tetra (mesh s)))) as [p|]; [|discriminate H5]. destruct (hd_error (named t_name (m_tetra (mesh s')))) as [p'|]; [|discriminate H5].
  ands H5. apply b64_same_eq in H5, B. cbn [option_map]. rewrite H5, B. split; [reflexivity|]. split; [reflexivity|]. intros E.
  apply (f_equal (fun o => match o with Some x => neq (a := B64) x (value_of (795775, 1)%Z) | None => false end)) in E. vm_compute in E. discriminate E.
Qed.

(** With the spin accumulation, a surface region without a polarization is printed with [nan, nan, nan], and the conversion
    (as<double>, which knows .nan but not nan) throws: the printed document is not accepted. *)
Definition spin_document : yaml := YMap
  [(txt "mesh", YMap [(txt "filename", word "cube.msh"); (txt "surface_regions", YMap [(txt "top", YMap [(txt "V", word "0.1")])])]); (txt "spin_accumulation", YMap [(txt "enable", word "true")])].
Theorem C93_no_polarization_refuted : exists d s y, read64 raw64 default_document = Ok d /\ read64 d spin_document = Ok s /\
  load (to_yaml pd64 pz64 s) = Some y /\ read64 d y = Throw.
Proof.
  assert (H : match read64 raw64 default_document with Ok d => match read64 d spin_document with Ok s => match load (to_yaml pd64 pz64 s) with
    Some y => match read64 d y with Throw => true | _ => false end | None => false end | _ => false end | _ => false end = true) by (vm_compute; reflexivity).
  destruct (read64 raw64 default_document) as [d| |] eqn:E1; try discriminate H. destruct (read64 d spin_document) as [s| |] eqn:E2; try discriminate H.
  destruct (load (to_yaml pd64 pz64 s)) as [y|] eqn:E3; [|discriminate H]. destruct (read64 d y) eqn:E4; try discriminate H. exists d, s, y. auto.
Qed.

(** a constructed state for which the built-in defaults are read (C94) *)
Example C94_nonvacuous : exists d, constructed raw64 /\ read64 raw64 default_document = Ok d /\ fresh d /\ threads d = 4%Z /\
  default_numbers (hd zero_tetra (m_tetra (mesh d))) (hd zero_tri (m_tri (mesh d))) d <> [].
Proof.
  destruct C93_printed_settings_nonvacuous as (d & s & y & s' & H1 & H2 & H3 & _). exists d. split; [exact H1|]. split; [exact H2|]. split; [exact H3|]. split; [|discriminate].
  assert (match read64 raw64 default_document with Ok d => Z.eqb (threads d) 4 | _ => false end = true) as K by (vm_compute; reflexivity). rewrite H2 in K. apply Z.eqb_eq. exact K.
Qed.

Print Assumptions C93_printed_settings_partial.
Print Assumptions C93_current_density_refuted.
Print Assumptions C93_user_defaults_refuted.
Print Assumptions C93_digits_refuted.
Print Assumptions C93_no_polarization_refuted.
Print Assumptions C94_no_undefined_setting.
Print Assumptions C94_default_values.
Print Assumptions C94_fresh.
