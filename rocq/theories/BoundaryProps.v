(** * C68, C69: boundary conditions of the transport problems *)
From Coq Require Import Reals String List ZArith Arith Bool Lia Lra Sorted Permutation.
From Flocq Require Import Core BinarySingleNaN.
From Verif Require Import Arith ArithLaws Vec Sums SparseModel SparseProof StdModel TextModel TextProof MeshModel IterModel ElemModel TransportModel.
From Verif Require Import SettingsModel.
From Verif Require SettingsProps.
Import ListNotations.
Local Open Scope nat_scope.

(** ** Specification *)
(** exactly one element of the list has the property *)
Definition exactly_one {X} (P : X -> Prop) (l : list X) : Prop :=
  exists l1 x l2, l = l1 ++ x :: l2 /\ P x /\ forall y, In y (l1 ++ l2) -> ~ P y.
(** a finite number, a vector of finite numbers, a vector with a NaN *)
Definition finite (x : num XA) : Prop := exists r, x = Fin r.
Definition finite3 (v : num XA * num XA * num XA) : Prop := let '(x, y, z) := v in finite x /\ finite y /\ finite z.
Definition has_nan (v : num XA * num XA * num XA) : Prop := let '(x, y, z) := v in x = NaN \/ y = NaN \/ z = NaN.

(** ** Counting *)
Lemma count_filter : forall {X} (test : X -> bool) l k, count_from k test l = k + length (filter test l).
Proof.
  unfold count_from. intros X test. induction l as [|x l IH]; intros k; cbn [fold_left filter]; [simpl; lia|].
  destruct (test x); rewrite IH; simpl; lia.
Qed.

Lemma filter_none : forall {X} (test : X -> bool) l, length (filter test l) = 0 <-> forall y, In y l -> test y <> true.
Proof.
  intros X test. induction l as [|x l IH]; cbn [filter].
  - split; auto; intros _ y [].
  - destruct (test x) eqn:E; cbn [length].
    + split; [lia|]. intros H. exfalso. apply (H x); [left; auto|exact E].
    + rewrite IH. split; intros H y; [intros [<-|Hy]; [congruence|auto]|intros Hy; apply H; right; auto].
Qed.

Lemma filter_one : forall {X} (test : X -> bool) l, length (filter test l) = 1 <-> exactly_one (fun x => test x = true) l.
Proof.
  intros X test. induction l as [|x l IH]; cbn [filter].
  - split; [cbn; lia|]. intros (l1 & y & l2 & E & _). destruct l1; discriminate.
  - destruct (test x) eqn:T; cbn [length].
    + split.
      * intros H. exists [], x, l. split; auto. split; auto. cbn [app]. apply filter_none. lia.
      * intros (l1 & y & l2 & E & Hy & N). f_equal. apply filter_none. destruct l1 as [|z l1]; cbn [app] in E; injection E as E1 E2.
        { subst. exact N. }
        { subst z. exfalso. apply (N x); [left; auto|exact T]. }
    + rewrite IH. split.
      * intros (l1 & y & l2 & E & Hy & N). exists (x :: l1), y, l2. subst l. split; auto. split; auto.
        intros z [<-|Hz]; [congruence|auto].
      * intros (l1 & y & l2 & E & Hy & N). destruct l1 as [|z l1]; cbn [app] in E; injection E as E1 E2; [congruence|].
        subst z l. exists l1, y, l2. split; auto. split; auto. intros w Hw. apply N. right. exact Hw.
Qed.

Lemma count_one : forall {X} (test : X -> bool) (P : X -> Prop) l, (forall x, test x = true <-> P x) ->
  (count_from 0 test l =? 1) = true <-> exactly_one P l.
Proof.
  intros X test P l H. rewrite Nat.eqb_eq, count_filter. cbn [plus]. rewrite filter_one. unfold exactly_one.
  split; intros (l1 & x & l2 & E & Hx & N); exists l1, x, l2; split; auto; split; try (apply H; exact Hx);
    intros y Hy Py; apply (N y Hy); apply H; exact Py.
Qed.

(** the elements that fail the test are those of one position *)
Lemma count_all_but : forall {X} (test : X -> bool) (special : X -> Prop) (good : X -> Prop) l,
  (forall x, test x = true <-> ~ special x /\ good x) -> exactly_one special l ->
  (count_from 1 test l =? length l) = true <-> forall x, In x l -> ~ special x -> good x.
Proof.
  intros X test special good l H (l1 & s & l2 & E & Hs & N). rewrite Nat.eqb_eq, count_filter. subst l.
  rewrite filter_app. cbn [filter].
  assert (Ts : test s = false). { destruct (test s) eqn:T; auto. apply H in T. tauto. }
  rewrite Ts, !app_length. cbn [length].
  assert (F : forall l : list X, length (filter test l) <= length l).
  { induction l as [|x l IH]; cbn [filter length]; [lia|]. destruct (test x); cbn [length]; lia. }
  assert (G : forall l, (forall y, In y l -> ~ special y) -> (length (filter test l) = length l <-> forall y, In y l -> good y)).
  { induction l as [|x l IH]; intros Hn; cbn [filter length]. { split; auto. intros _ y []. }
    assert (Hn' : forall y, In y l -> ~ special y) by (intros y Hy; apply Hn; right; exact Hy).
    specialize (IH Hn'). pose proof (F l). destruct (test x) eqn:T; cbn [length].
    - apply H in T. split.
      + intros K y [<-|Hy]; [tauto|]. apply IH; auto; lia.
      + intros K. f_equal. apply IH. intros y Hy. apply K. right. exact Hy.
    - split; [lia|]. intros K. exfalso. assert (test x = true); [|congruence]. apply H. split.
      + apply Hn. left. auto.
      + apply K. left. auto. }
  pose proof (F l1). pose proof (F l2).
  assert (N1 : forall y, In y l1 -> ~ special y) by (intros y Hy; apply N; apply in_app_iff; auto).
  assert (N2 : forall y, In y l2 -> ~ special y) by (intros y Hy; apply N; apply in_app_iff; auto).
  specialize (G l1 N1) as G1. specialize (G l2 N2) as G2. split.
  - intros K x Hx Sx. assert (K1 : length (filter test l1) = length l1) by lia. assert (K2 : length (filter test l2) = length l2) by lia.
    apply in_app_iff in Hx. destruct Hx as [Hx|[<-|Hx]]; [apply G1; auto|contradiction|apply G2; auto].
  - intros K. enough (length (filter test l1) = length l1 /\ length (filter test l2) = length l2) by lia. split.
    + apply G1. intros y Hy. apply K; auto. apply in_app_iff. auto.
    + apply G2. intros y Hy. apply K; auto. apply in_app_iff. right. right. exact Hy.
Qed.

(** ** Finite numbers *)
Lemma isfinite_xa : forall x : num XA, isfinite x = true <-> finite x.
Proof.
  intros x. unfold isfinite, finite. destruct x; cbn; split; intros H; try discriminate; eauto; destruct H as [y H]; discriminate.
Qed.

Lemma isfinite_b64 : forall x : num B64, isfinite x = true <-> is_finite (x : b64) = true.
Proof.
  intros x. unfold isfinite. destruct (is_finite (x : b64)) eqn:F.
  - split; auto. intros _. change (nsub x x) with (Bminus mode_NE (x : b64) (x : b64)).
    destruct (Bsub64 (x : b64) (x : b64) F F) as [H _].
    { unfold ok64, rnd64. rewrite Rminus_diag_eq by reflexivity. rewrite round_0 by apply valid_rnd_N. rewrite Rabs_R0. apply bpow_gt_0. }
    change (nisnan ?y) with (is_nan (y : b64)). revert H. generalize (Bminus mode_NE (x : b64) (x : b64)). intros [?|?| |? ? ? ?]; cbn; congruence.
  - split; [|discriminate]. destruct x as [s|[|]| |s m e H]; try discriminate.
Qed.

Lemma norm3_finite : forall v : num XA * num XA * num XA, isfinite (norm3 v) = true <-> finite3 v.
Proof.
  intros [[x y] z]. rewrite isfinite_xa. unfold finite3, norm3. split.
  - intros [r H]. destruct x, y, z; cbn in H; try discriminate; unfold finite; repeat split; eexists; reflexivity.
  - intros ((a & ->) & (b & ->) & (c & ->)). cbn. rewrite Rlt_bool_false; [eexists; reflexivity|]. nra.
Qed.

Lemma norm3_nan : forall v : num XA * num XA * num XA, nisnan (norm3 v) = true <-> has_nan v.
Proof.
  intros [[x y] z]. unfold has_nan, norm3. split.
  - destruct x, y, z; cbn; intros H; try discriminate; auto.
    exfalso. revert H. rewrite Rlt_bool_false; [cbn; discriminate|]. nra.
  - intros [->|[->| ->]].
    + destruct y, z; reflexivity.
    + destruct x, z; reflexivity.
    + destruct x, y; reflexivity.
Qed.

(** ** C68 *)
(** the electrostatic problem is attempted exactly when one surface region has a (finite) current density and one a
    potential *)
Theorem C68_electrostatic : forall surfs : list (@tri_prm XA),
  elec_check surfs = true <-> exactly_one (fun p => finite (s_jn p)) surfs /\ exactly_one (fun p => finite (s_V p)) surfs.
Proof.
  intros surfs. unfold elec_check. rewrite andb_true_iff.
  rewrite (count_one _ (fun p : @tri_prm XA => finite (s_jn p))) by (intros; apply isfinite_xa).
  rewrite (count_one _ (fun p : @tri_prm XA => finite (s_V p))) by (intros; apply isfinite_xa). reflexivity.
Qed.

(** the same with the numbers of the machine *)
Theorem C68_electrostatic_binary64 : forall surfs : list (@tri_prm B64),
  elec_check surfs = true <->
  exactly_one (fun p : @tri_prm B64 => is_finite (s_jn p : b64) = true) surfs /\
  exactly_one (fun p : @tri_prm B64 => is_finite (s_V p : b64) = true) surfs.
Proof.
  intros surfs. unfold elec_check. rewrite andb_true_iff.
  rewrite (count_one _ (fun p : @tri_prm B64 => is_finite (s_jn p : b64) = true)) by (intros; apply isfinite_b64).
  rewrite (count_one _ (fun p : @tri_prm B64 => is_finite (s_V p : b64) = true)) by (intros; apply isfinite_b64). reflexivity.
Qed.

(** the region of the default parameters *)
Definition is_default {X} (name : X -> text) (p : X) : Prop := name p = txt "__default__".

(** The spin problem, the list of the volume regions holding the default parameters once (as the built-in settings
    make it). It is partial: the claim is that the material parameters are valid, and only the density of states and the
    polarization rate are looked at (see the theorem that follows). *)
Theorem C68_spin_partial : forall (vols : list (@tetra_prm XA)) (surfs : list (@tri_prm XA)),
  exactly_one (is_default t_name) vols ->
  spin_check vols surfs = true <->
  exactly_one (fun p => ~ is_default s_name p /\ finite (s_jn p)) surfs /\
  exactly_one (fun p => ~ is_default s_name p /\ finite3 (s_s p)) surfs /\
  (forall p, In p vols -> ~ is_default t_name p ->
     (exists x, t_N0 p = Fin x /\ x <> 0%R) /\ (exists x, t_P p = Fin x /\ (0 <= x < 1)%R)).
Proof.
  intros vols surfs Hd. unfold spin_check. cbv zeta. rewrite !andb_true_iff.
  assert (Nm : forall {X} (name : X -> text) (p : X), negb (text_eqb (name p) default_name) = true <-> ~ is_default name p).
  { intros X name p. unfold is_default. rewrite negb_true_iff, <- not_true_iff_false, text_eqb_spec. reflexivity. }
  rewrite (count_one _ (fun p : @tri_prm XA => ~ is_default s_name p /\ finite (s_jn p))).
  2: { intros p. rewrite andb_true_iff, Nm, isfinite_xa. reflexivity. }
  rewrite (count_one _ (fun p : @tri_prm XA => ~ is_default s_name p /\ finite3 (s_s p))).
  2: { intros p. rewrite andb_true_iff, Nm, norm3_finite. reflexivity. }
  rewrite (count_all_but _ (is_default t_name) (fun p : @tetra_prm XA => exists x, t_N0 p = Fin x /\ x <> 0%R) vols); auto.
  2: { intros p. rewrite !andb_true_iff, Nm. apply and_iff_compat_l. rewrite isfinite_xa, negb_true_iff. unfold finite, n0. split.
       - intros [[x E] H]. exists x. split; auto. rewrite E in H. intros ->.
         assert (neq (a := XA) (Fin 0%R) n0 = true); [|unfold n0 in *; congruence].
         cbn. apply Req_bool_true. lra.
       - intros (x & E & H). rewrite E. split; eauto. cbn. apply Req_bool_false. intros K. apply H. rewrite K. lra. }
  rewrite (count_all_but _ (is_default t_name) (fun p : @tetra_prm XA => exists x, t_P p = Fin x /\ (0 <= x < 1)%R) vols); auto.
  2: { intros p. rewrite !andb_true_iff, Nm. apply and_iff_compat_l. rewrite isfinite_xa. unfold finite. split.
       - intros [[[x E] H1] H2]. exists x. split; auto. rewrite E in H1, H2.
         change (xle (Fin (0 / 1)) (Fin x) = true) in H1. change (Rlt_bool x (1 / 1) = true) in H2.
         apply (xle_fin (Fin (0 / 1)) (Fin x) I I) in H1. cbn in H1. revert H2. case Rlt_bool_spec; intros; [lra|discriminate].
       - intros (x & E & H). rewrite E. split; [split|]; eauto.
         + change (xle (Fin (0 / 1)) (Fin x) = true). apply (xle_fin (Fin (0 / 1)) (Fin x) I I). cbn. lra.
         + change (Rlt_bool x (1 / 1) = true). apply Rlt_bool_true. lra. }
  split.
  - intros [[[H1 H2] H3] H4]. split; auto.
  - intros (H1 & H2 & H3). split; [split; [split; auto|]|]; intros p Hp Hn; apply (H3 p Hp Hn).
Qed.

(** a second entry for the default parameters (a settings file may have one, C56) makes the check refuse everything *)
Theorem C68_second_default_refused : forall (vols : list (@tetra_prm XA)) (surfs : list (@tri_prm XA)) i j a b,
  i < j -> nth_error vols i = Some a -> nth_error vols j = Some b -> is_default t_name a -> is_default t_name b ->
  spin_check vols surfs = false.
Proof.
  intros vols surfs i j a b Hij Ei Ej Da Db. apply not_true_is_false. unfold spin_check. cbv zeta. rewrite !andb_true_iff.
  intros [[_ H] _]. revert H. rewrite Nat.eqb_eq, count_filter.
  set (test := fun p : @tetra_prm XA => _).
  assert (Ta : forall p, is_default t_name p -> test p = false).
  { intros p Hp. unfold test. replace (text_eqb (t_name p) default_name) with true; [reflexivity|]. symmetry. apply text_eqb_spec. exact Hp. }
  assert (F : forall l, length (filter test l) <= length l).
  { induction l as [|x l IH]; cbn [filter length]; [lia|]. destruct (test x); cbn [length]; lia. }
  apply nth_error_split in Ei. destruct Ei as (l1 & l2 & -> & El).
  rewrite nth_error_app2 in Ej by lia. destruct (j - length l1) as [|k] eqn:Ek; [lia|]. cbn [nth_error] in Ej.
  apply nth_error_split in Ej. destruct Ej as (l3 & l4 & -> & _).
  rewrite !filter_app. cbn [filter]. rewrite (Ta a Da). rewrite filter_app. cbn [filter]. rewrite (Ta b Db).
  rewrite !app_length. cbn [length]. rewrite !app_length. cbn [length]. pose proof (F l1). pose proof (F l3). pose proof (F l4). lia.
Qed.

(** what is not looked at: the two checks accept a region whose conductivity and spin-diffusion length are zero (the
    default values) and a current surface without polarization vector *)
Definition bad_vols : list (@tetra_prm XA) :=
  let d := zero_tetra (A := XA) in
  [mkTetra (txt "__default__") n0 n0 n0 n0 zero3 n0 zero3 zero3 zero3 n0 n0 n0 n0 n0;
   mkTetra (txt "metal") n0 n0 n0 n0 zero3 n0 zero3 zero3 zero3 n0 n1 n0 n0 n0].
Definition bad_surfs : list (@tri_prm XA) :=
  let v := (NaN : num XA, NaN : num XA, NaN : num XA) in
  [mkTri (txt "__default__") false n0 zero3 (NaN : num XA) (NaN : num XA) v v;
   mkTri (txt "in") false n0 zero3 (NaN : num XA) n1 v v;
   mkTri (txt "out") false n0 zero3 n0 (NaN : num XA) v zero3].

Lemma xn0 : @n0 XA = Fin 0%R. Proof. unfold n0. cbn. f_equal. lra. Qed.
Lemma xn1 : @n1 XA = Fin 1%R. Proof. unfold n1. cbn. f_equal. lra. Qed.

Theorem C68_unchecked_parameters_refuted : exists (vols : list (@tetra_prm XA)) (surfs : list (@tri_prm XA)) p s,
  spin_check vols surfs = true /\ elec_check surfs = true /\
  In p vols /\ ~ is_default t_name p /\ t_sigma p = Fin 0%R /\ t_lsf p = Fin 0%R /\
  In s surfs /\ finite (s_jn s) /\ ~ finite3 (s_uP s).
Proof.
  exists bad_vols, bad_surfs. eexists. eexists. split; [|split; [|split; [right; left; reflexivity|split; [discriminate|split; [exact xn0|split; [exact xn0|split; [right; left; reflexivity|split]]]]]]].
  - apply C68_spin_partial.
    + exists []. eexists. eexists. split; [reflexivity|]. split; [reflexivity|]. intros y [<-|[]]. discriminate.
    + split; [|split].
      * eexists [_]. eexists. eexists. split; [reflexivity|]. split; [split; [discriminate|]|].
        { exists 1%R. exact xn1. } { intros y [<-|[<-|[]]] [H1 [r H2]]; try discriminate H2. }
      * eexists [_; _]. eexists. eexists. split; [reflexivity|]. split; [split; [discriminate|]|].
        { change (finite n0 /\ finite n0 /\ finite n0). rewrite xn0. unfold finite. repeat split; eexists; reflexivity. } { intros y [<-|[<-|[]]] [H1 H2]; destruct H2 as [[r H2] _]; discriminate H2. }
      * intros p [<-|[<-|[]]] Hp; [exfalso; apply Hp; reflexivity|]. cbn [t_N0 t_P]. rewrite xn0, xn1. split; eexists; (split; [reflexivity|lra]).
  - apply C68_electrostatic. split.
    + eexists [_]. eexists. eexists. split; [reflexivity|]. split; [exists 1%R; exact xn1|].
      intros y [<-|[<-|[]]] [r H2]; discriminate H2.
    + eexists [_; _]. eexists. eexists. split; [reflexivity|]. split; [exists 0%R; exact xn0|].
      intros y [<-|[<-|[]]] [r H2]; discriminate H2.
  - exists 1%R. exact xn1.
  - intros [[r H] _]. discriminate H.
Qed.

(** one surface may carry the current density and the spin: the check accepts it, and it imposes nothing *)
Theorem C68_both_on_one_surface_refuted : exists (vols : list (@tetra_prm XA)) (surfs : list (@tri_prm XA)),
  spin_check vols surfs = true /\ elec_check surfs = true /\ (forall ratio p, In p surfs -> spin_value ratio p = None).
Proof.
  set (v := (NaN : num XA, NaN : num XA, NaN : num XA)).
  exists bad_vols, [mkTri (txt "__default__") false n0 zero3 (NaN : num XA) (NaN : num XA) v v;
   mkTri (txt "in") false n0 zero3 (NaN : num XA) n1 v zero3;
   mkTri (txt "out") false n0 zero3 n0 (NaN : num XA) v v].
  split; [|split].
  - apply C68_spin_partial.
    + exists []. eexists. eexists. split; [reflexivity|]. split; [reflexivity|]. intros y [<-|[]]. discriminate.
    + split; [|split].
      * eexists [_]. eexists. eexists. split; [reflexivity|]. split; [split; [discriminate|]|].
        { exists 1%R. exact xn1. } { intros y [<-|[<-|[]]] [H1 [r H2]]; try discriminate H2. }
      * eexists [_]. eexists. eexists. split; [reflexivity|]. split; [split; [discriminate|]|].
        { change (finite n0 /\ finite n0 /\ finite n0). rewrite xn0. unfold finite. repeat split; eexists; reflexivity. } { intros y [<-|[<-|[]]] [H1 H2]; destruct H2 as [[r H2] _]; discriminate H2. }
      * intros p [<-|[<-|[]]] Hp; [exfalso; apply Hp; reflexivity|]. cbn [t_N0 t_P]. rewrite xn0, xn1. split; eexists; (split; [reflexivity|lra]).
  - apply C68_electrostatic. split.
    + eexists [_]. eexists. eexists. split; [reflexivity|]. split; [exists 1%R; exact xn1|].
      intros y [<-|[<-|[]]] [r H2]; discriminate H2.
    + eexists [_; _]. eexists. eexists. split; [reflexivity|]. split; [exists 0%R; exact xn0|].
      intros y [<-|[<-|[]]] [r H2]; discriminate H2.
  - intros ratio p Hp. unfold spin_value. cbn [In] in Hp. destruct Hp as [<-|[<-|[<-|[]]]]; cbn [s_s s_jn].
    + reflexivity.
    + destruct (nisnan (norm3 zero3)) eqn:N.
      { apply norm3_nan in N. unfold zero3, has_nan in N. rewrite xn0 in N. destruct N as [N|[N|N]]; discriminate. }
      cbn [andb]. rewrite xn1. cbn [nisnan XA xisnan]. rewrite andb_false_r. reflexivity.
    + rewrite xn0. reflexivity.
Qed.

(** the list of the volume regions holds the default parameters once when the previous settings did and the document has
    no entry of that name *)
Theorem C68_default_once : forall (c : @conv XA) mu0 cpus s doc s' Dt Ds,
  read c mu0 cpus s doc = Ok s' -> SettingsProps.first_default t_name (m_tetra (mesh s)) Dt -> SettingsProps.first_default s_name (m_tri (mesh s)) Ds ->
  exactly_one (is_default t_name) (m_tetra (mesh s)) ->
  (forall l, SettingsProps.node_at "mesh" "volume_regions" doc = Some (YMap l) -> forall name body, In (name, body) l -> name <> txt "__default__") ->
  exactly_one (is_default t_name) (m_tetra (mesh s')).
Proof.
  intros c mu0 cpus s doc s' Dt Ds H Ft Fs (l1 & x & l2 & E & Hx & N) Hl.
  destruct (SettingsProps.C56_regions XA c mu0 cpus s doc s' Dt Ds H Ft Fs) as [R _].
  assert (Same : m_tetra (mesh s') = m_tetra (mesh s) -> exactly_one (is_default t_name) (m_tetra (mesh s'))).
  { intros ->. exists l1, x, l2. auto. }
  destruct (SettingsProps.node_at "mesh" "volume_regions" doc) as [[|t|l|l]|]; auto.
  destruct R as (new & En & F). exists l1, x, (l2 ++ new). split. { rewrite En, E, <- app_assoc. reflexivity. } split; auto.
  intros y Hy. rewrite app_assoc in Hy. apply in_app_iff in Hy. destruct Hy as [Hy|Hy]; auto.
  specialize (Hl l eq_refl). clear - F Hy Hl.
  induction F as [|[name body] p l new Hp F IH]; [destruct Hy|]. destruct Hy as [<-|Hy].
  - destruct Hp as (Hn & _). cbn [fst] in Hn. unfold is_default. rewrite Hn. apply (Hl name body). left. reflexivity.
  - apply IH; auto. intros name' body' Hin. apply (Hl name' body'). right. exact Hin.
Qed.

(** ** C69 *)
(** what a surface region imposes on the spin accumulation: the polarized current when it has a current density and no
    spin vector, its spin vector when it has no current density *)
Definition imposes (ratio : R) (p : @tri_prm XA) (v : num XA * num XA * num XA) : Prop :=
  (has_nan (s_s p) /\ (exists j, s_jn p = Fin j /\ let '(x, y, z) := s_uP p in
     v = (xmul (Fin (- j * ratio)) x, xmul (Fin (- j * ratio)) y, xmul (Fin (- j * ratio)) z)))
  \/ (finite3 (s_s p) /\ s_jn p = NaN /\ v = s_s p).
Definition comp3 {X} (d : nat) (v : X * X * X) : X := let '(x, y, z) := v in match d with O => x | 1 => y | _ => z end.

Lemma spin_value_spec : forall ratio p v, spin_value (Fin ratio : num XA) p = Some v <-> imposes ratio p v.
Proof.
  intros ratio p v. unfold spin_value, imposes.
  assert (Sc : forall j (u : num XA * num XA * num XA), scale3 (nmul (nopp (Fin j : num XA)) (Fin ratio : num XA)) u =
    let '(x, y, z) := u in (xmul (Fin (- j * ratio)) x, xmul (Fin (- j * ratio)) y, xmul (Fin (- j * ratio)) z)).
  { intros j [[x y] z]. unfold scale3. cbn [nmul XA].
    replace (xmul (nopp (Fin j : num XA)) (Fin ratio)) with (Fin (- j * ratio)); [reflexivity|].
    unfold nopp, nZ. cbn. f_equal. lra. }
  destruct (nisnan (norm3 (s_s p))) eqn:N1.
  - apply norm3_nan in N1.
    assert (NF : ~ finite3 (s_s p)).
    { intros F. destruct (s_s p) as [[x y] z]. destruct F as ((a & ->) & (b & ->) & (d & ->)). destruct N1 as [N|[N|N]]; discriminate. }
    cbn [andb]. destruct (isfinite (s_jn p)) eqn:F1.
    + apply isfinite_xa in F1. destruct F1 as [j Ej]. rewrite Ej, Sc. split.
      * intros H. injection H as <-. left. split; auto. exists j. split; auto. destruct (s_uP p) as [[x y] z]. reflexivity.
      * intros [[_ (j' & E' & Hv)]|[H _]]; [|contradiction]. injection E' as <-. destruct (s_uP p) as [[x y] z]. subst v. reflexivity.
    + replace (isfinite (norm3 (s_s p))) with false. 2: { symmetry. apply not_true_is_false. rewrite norm3_finite. exact NF. }
      cbn [andb]. split; [discriminate|]. intros [[_ (j' & E' & _)]|[H _]]; [|contradiction].
      rewrite E' in F1. discriminate.
  - assert (NN : ~ has_nan (s_s p)) by (rewrite <- norm3_nan, N1; discriminate).
    cbn [andb]. destruct (isfinite (norm3 (s_s p))) eqn:F1; cbn [andb].
    + apply norm3_finite in F1. destruct (nisnan (s_jn p)) eqn:J.
      * assert (s_jn p = NaN) by (destruct (s_jn p); try discriminate; reflexivity). split.
        { intros H1. injection H1 as <-. right. auto. }
        { intros [[H1 _]|(_ & _ & ->)]; [contradiction|reflexivity]. }
      * split; [discriminate|]. intros [[H1 _]|(_ & H1 & _)]; [contradiction|]. rewrite H1 in J. discriminate.
    + split; [discriminate|]. intros [[H1 _]|(H1 & _)]; [contradiction|]. apply norm3_finite in H1. congruence.
Qed.

(** *** sorted without copies *)
Lemma isort_nat : forall l, Permutation l (isort Nat.ltb l) /\ StronglySorted le (isort Nat.ltb l).
Proof.
  intros l. destruct (isort_ok Nat.ltb) with (l := l) as [H1 H2].
  - intros a b. rewrite Nat.ltb_lt, Nat.ltb_ge. lia.
  - intros a b c. rewrite !Nat.ltb_ge. lia.
  - split; auto. clear H1. induction H2 as [|x l' H2 IH F]; constructor; auto.
    eapply Forall_impl; [|exact F]. intros a Ha. cbv beta in Ha. rewrite Nat.ltb_lt in Ha. lia.
Qed.

Lemma unique_nat_in : forall l k, In k (unique Nat.eqb l) <-> In k l.
Proof.
  induction l as [|x l IH]; intros e; [reflexivity|]. cbn [unique]. destruct l as [|y l]; [reflexivity|].
  destruct (Nat.eqb x y) eqn:E.
  - apply Nat.eqb_eq in E. subst. rewrite IH. simpl. tauto.
  - simpl In. rewrite IH. simpl. tauto.
Qed.

Lemma unique_nat_sorted : forall l, StronglySorted le l -> StronglySorted lt (unique Nat.eqb l).
Proof.
  induction l as [|x l IH]; intros H; [constructor|]. inversion H as [|? ? H1 H2]; subst. cbn [unique].
  destruct l as [|y l]. { repeat constructor. }
  destruct (Nat.eqb x y) eqn:E; auto. apply Nat.eqb_neq in E. constructor; auto.
  rewrite Forall_forall in *. intros e He. rewrite unique_nat_in in He.
  inversion H1 as [|? ? H3 H4]; subst. rewrite Forall_forall in H4.
  assert (x <= y) by (apply H2; left; reflexivity).
  destruct He as [<-|He]; [lia|]. specialize (H4 e He). lia.
Qed.

Lemma suppress_spec : forall l, StronglySorted lt (suppress_copies l) /\ forall k, In k (suppress_copies l) <-> In k l.
Proof.
  intros l. unfold suppress_copies. destruct (isort_nat l) as [H1 H2]. split; [apply unique_nat_sorted; exact H2|].
  intros k. rewrite unique_nat_in. split; apply Permutation_in; [apply Permutation_sym|]; exact H1.
Qed.

(** *** the successive writes *)
Section writes.
Context {X : Type}.
Definition write (v : list X) (w : nat * X) : list X := set_nth (fst w) (snd w) v.

Lemma writes_length : forall W v, length (fold_left write W v) = length v.
Proof. induction W as [|w W IH]; intros v; cbn [fold_left]; auto. rewrite IH. apply set_nth_length. Qed.

Lemma writes_none : forall W v k d, ~ In k (map fst W) -> nth k (fold_left write W v) d = nth k v d.
Proof.
  induction W as [|w W IH]; intros v k d H; cbn [fold_left map In] in *; auto. rewrite IH by tauto. unfold write.
  destruct (Nat.lt_ge_cases (fst w) (length v)).
  - rewrite set_nth_nth by assumption. destruct (Nat.eqb_spec (fst w) k); tauto.
  - f_equal. clear - H0. destruct w as [i x]. cbn [fst snd] in *. revert i H0.
    induction v as [|y v IH]; intros [|i] H; cbn in *; auto; try lia. f_equal. apply IH. lia.
Qed.

Lemma writes_last : forall W1 k x W2 v d, k < length v -> ~ In k (map fst W2) ->
  nth k (fold_left write (W1 ++ (k, x) :: W2) v) d = x.
Proof.
  intros W1 k x W2 v d Hk H. rewrite fold_left_app. cbn [fold_left]. rewrite writes_none by exact H.
  unfold write at 1. cbn [fst snd]. rewrite set_nth_nth by (rewrite writes_length; exact Hk). rewrite Nat.eqb_refl. reflexivity.
Qed.
End writes.

Definition spin_writes (value : tri -> option (num XA * num XA * num XA)) (tris : list tri) : list (nat * num XA) :=
  flat_map (fun t => match value t with
    | Some (x, y, z) => flat_map (fun i => [(3 * i, x); (3 * i + 1, y); (3 * i + 2, z)]) (tri_nodes t)
    | None => [] end) tris.

Lemma spin_dirichlet_writes : forall ratio n surfs tris,
  spin_dirichlet ratio n surfs tris =
  let W := spin_writes (fun t => spin_value ratio (surf_of surfs t)) tris in
  (suppress_copies (map fst W), fold_left write W (repeat n0 (3 * n))).
Proof.
  intros ratio n surfs tris. cbv zeta. unfold spin_dirichlet.
  set (val := fun t => spin_value ratio (surf_of surfs t)).
  set (f := fun st t => match spin_value ratio (surf_of surfs t) with Some v => fold_left (fill_dirichlet v) (tri_nodes t) st | None => st end).
  assert (H : forall tris st, fold_left f tris st = (fst st ++ map fst (spin_writes val tris), fold_left write (spin_writes val tris) (snd st))).
  { induction tris0 as [|t l IH]; intros st; unfold spin_writes; cbn [flat_map]. { cbn. rewrite app_nil_r. destruct st; reflexivity. }
    fold (spin_writes val l). cbn [fold_left]. rewrite IH. unfold f, val. destruct (spin_value ratio (surf_of surfs t)) as [[[x y] z]|]; cbn [app]; auto.
    rewrite map_app, fold_left_app, app_assoc.
    assert (G : forall ns st, fold_left (fill_dirichlet (x, y, z)) ns st =
      (fst st ++ map fst (flat_map (fun i => [(3 * i, x); (3 * i + 1, y); (3 * i + 2, z)]) ns),
       fold_left write (flat_map (fun i => [(3 * i, x); (3 * i + 1, y); (3 * i + 2, z)]) ns) (snd st))).
    { induction ns as [|i ns IHn]; intros st0; cbn [fold_left flat_map map]. { rewrite app_nil_r. destruct st0; reflexivity. }
      rewrite IHn. unfold fill_dirichlet at 1 2. cbn [fst snd app map fold_left]. rewrite <- app_assoc. reflexivity. }
    rewrite G. reflexivity. }
  rewrite H. cbn [fst snd app]. reflexivity.
Qed.

(** the unknown number 3*i+d is component d of node i *)
Theorem C69_dirichlet : forall (ratio : R) (n : nat) (surfs : list (@tri_prm XA)) (tris : list tri) idx vals,
  (forall t i, In t tris -> In i (tri_nodes t) -> i < n) ->
  spin_dirichlet (Fin ratio : num XA) n surfs tris = (idx, vals) ->
  let on_boundary i := exists t v, In t tris /\ In i (tri_nodes t) /\ imposes ratio (surf_of surfs t) v in
  StronglySorted lt idx /\
  (forall k, In k idx <-> exists i d, k = 3 * i + d /\ d < 3 /\ on_boundary i) /\
  length vals = 3 * n /\
  (forall i d, ~ on_boundary i -> d < 3 -> nth (3 * i + d) vals (Fin 0%R) = Fin 0%R) /\
  (forall l1 t l2 i d v, tris = l1 ++ t :: l2 -> In i (tri_nodes t) -> d < 3 -> imposes ratio (surf_of surfs t) v ->
     (forall t' v', In t' l2 -> In i (tri_nodes t') -> ~ imposes ratio (surf_of surfs t') v') ->
     nth (3 * i + d) vals (Fin 0%R) = comp3 d v).
Proof.
  intros ratio n surfs tris idx vals Hn H on_boundary. rewrite spin_dirichlet_writes in H. cbv zeta in H.
  set (val := fun t => spin_value (Fin ratio : num XA) (surf_of surfs t)) in H.
  pose proof (f_equal fst H) as Ei. pose proof (f_equal snd H) as Ev. cbn [fst snd] in Ei, Ev. clear H. destruct (suppress_spec (map fst (spin_writes val tris))) as [S1 S2]. rewrite Ei in S1, S2.
  assert (InW : forall tris k, In k (map fst (spin_writes val tris)) <->
     exists i d, k = 3 * i + d /\ d < 3 /\ exists t v, In t tris /\ In i (tri_nodes t) /\ imposes ratio (surf_of surfs t) v).
  { intros tris0 k. rewrite in_map_iff. unfold spin_writes. split.
    - intros ((k' & x) & E & Hin). cbn [fst] in E. subst k'. apply in_flat_map in Hin. destruct Hin as (t & Ht & Hin).
      destruct (val t) as [[[x1 x2] x3]|] eqn:Et; [|destruct Hin]. apply in_flat_map in Hin. destruct Hin as (i & Hi & Hin).
      assert (Hi' : exists d, k = 3 * i + d /\ d < 3).
      { destruct Hin as [E|[E|[E|[]]]]; injection E as <- <-; [exists 0|exists 1|exists 2]; lia. }
      destruct Hi' as (d & Ed & Hd). exists i, d. split; auto. split; auto. exists t, (x1, x2, x3). split; auto. split; auto.
      apply spin_value_spec. exact Et.
    - intros (i & d & -> & Hd & t & v & Ht & Hi & Hv). apply spin_value_spec in Hv. destruct v as [[x1 x2] x3].
      exists (3 * i + d, comp3 d (x1, x2, x3)). split; auto. apply in_flat_map. exists t. split; auto. unfold val. rewrite Hv.
      apply in_flat_map. exists i. split; auto. destruct d as [|[|[|d]]]; [| | |lia]; cbn [comp3 In]; rewrite ?Nat.add_0_r; auto. }
  split; auto. split. { intros k. rewrite S2, InW. reflexivity. }
  split. { rewrite <- Ev, writes_length. apply repeat_length. }
  split.
  - intros i d Hno Hd. rewrite <- Ev, writes_none.
    + rewrite xn0. clear. generalize (3 * n), (3 * i + d). induction n0 as [|m IH]; intros [|k]; cbn; auto.
    + rewrite InW. intros (i' & d' & E & Hd' & Hb). apply Hno. assert (i' = i) by lia. subst i'. exact Hb.
  - intros l1 t l2 i d v Et Hi Hd Hv Hlast.
    assert (Hin : i < n). { apply (Hn t); auto. rewrite Et. apply in_app_iff. right. left. reflexivity. }
    pose proof Hv as Hv'. apply spin_value_spec in Hv'. destruct v as [[x1 x2] x3].
    assert (Esw : spin_writes val tris = spin_writes val l1 ++ flat_map (fun i => [(3 * i, x1); (3 * i + 1, x2); (3 * i + 2, x3)]) (tri_nodes t) ++ spin_writes val l2).
    { rewrite Et. unfold spin_writes. rewrite flat_map_app. cbn [flat_map]. unfold val at 2. rewrite Hv'. reflexivity. }
    assert (Sp : exists P S, flat_map (fun i => [(3 * i, x1); (3 * i + 1, x2); (3 * i + 2, x3)]) (tri_nodes t) =
                   P ++ (3 * i + d, comp3 d (x1, x2, x3)) :: S /\ ~ In (3 * i + d) (map fst S)).
    { revert Hi. generalize (tri_nodes t). clear - Hd. induction l as [|a l IH]; intros Hi; [destruct Hi|].
      destruct (in_dec Nat.eq_dec i l) as [Hl|Hl].
      - destruct (IH Hl) as (P & S & E & HS). exists ([(3 * a, x1); (3 * a + 1, x2); (3 * a + 2, x3)] ++ P), S. split; auto.
        cbn [flat_map]. rewrite E, app_assoc. reflexivity.
      - destruct Hi as [->|Hi]; [|contradiction].
        assert (NS : forall y, In y (map fst (flat_map (fun i => [(3 * i, x1); (3 * i + 1, x2); (3 * i + 2, x3)]) l)) -> y / 3 <> i).
        { intros y Hy Ey. apply Hl. apply in_map_iff in Hy. destruct Hy as ((y' & x) & E & Hy). cbn [fst] in E. subst y'.
          apply in_flat_map in Hy. destruct Hy as (b & Hb & Hy). assert (y / 3 = b); [|congruence].
          assert (Er : exists r, y = r + b * 3 /\ r < 3). { destruct Hy as [E|[E|[E|[]]]]; injection E as E _; [exists 0|exists 1|exists 2]; lia. }
          destruct Er as (r & -> & Hr). rewrite Nat.div_add, Nat.div_small by lia. reflexivity. }
        assert (D3 : (3 * i + d) / 3 = i). { replace (3 * i + d) with (d + i * 3) by lia. rewrite Nat.div_add by lia. rewrite Nat.div_small by lia. reflexivity. }
        cbn [flat_map app]. set (r := flat_map _ l) in *. destruct d as [|[|[|d]]]; [| | |lia]; cbn [comp3].
        + exists [], ((3 * i + 1, x2) :: (3 * i + 2, x3) :: r). rewrite Nat.add_0_r. split; auto. cbn [map fst In].
          intros [E|[E|E]]; [lia|lia|]. apply (NS _ E). rewrite Nat.add_0_r in D3. exact D3.
        + exists [(3 * i, x1)], ((3 * i + 2, x3) :: r). split; auto. cbn [map fst In]. intros [E|E]; [lia|]. apply (NS _ E). exact D3.
        + exists [(3 * i, x1); (3 * i + 1, x2)], r. split; auto. intros E. apply (NS _ E). exact D3. }
    destruct Sp as (P & S & E & HS). rewrite <- Ev, Esw, E.
    replace (spin_writes val l1 ++ (P ++ (3 * i + d, comp3 d (x1, x2, x3)) :: S) ++ spin_writes val l2)
      with ((spin_writes val l1 ++ P) ++ (3 * i + d, comp3 d (x1, x2, x3)) :: (S ++ spin_writes val l2)) by (rewrite <- !app_assoc; reflexivity).
    apply writes_last.
    + rewrite repeat_length. lia.
    + rewrite map_app, in_app_iff. intros [K|K]; [contradiction|]. apply InW in K.
      destruct K as (i' & d' & E' & Hd' & t' & v' & Ht' & Hi' & Hv''). assert (i' = i) by lia. subst i'. exact (Hlast t' v' Ht' Hi' Hv'').
Qed.

(** two triangles that share an edge, one on each surface: the shared nodes have the value of the second one *)
Example C69_nonvacuous :
  let tris := [MeshModel.mkTri 0 1 2 1; MeshModel.mkTri 1 2 3 2] in
  let surfs := [nth 0 bad_surfs zero_tri; SettingsModel.mkTri (txt "in") false n0 zero3 (NaN : num XA) (Fin 2%R : num XA)
                  (Fin 0%R : num XA, Fin 0%R : num XA, Fin 1%R : num XA) (NaN : num XA, NaN : num XA, NaN : num XA); nth 2 bad_surfs zero_tri] in
  (forall t i, In t tris -> In i (tri_nodes t) -> i < 5) /\
  (exists v, imposes 3 (surf_of surfs (MeshModel.mkTri 0 1 2 1)) v /\ comp3 2 v = Fin (-6)%R) /\
  imposes 3 (surf_of surfs (MeshModel.mkTri 1 2 3 2)) zero3 /\
  fst (spin_dirichlet (Fin 3%R : num XA) 5 surfs tris) = seq 0 12.
Proof.
  cbv zeta. split; [|split; [|split]].
  - intros t i [<-|[<-|[]]]; cbn; lia.
  - eexists. split.
    + left. split; [left; reflexivity|]. exists 2%R. split; [reflexivity|]. reflexivity.
    + cbn [comp3]. cbn. f_equal. lra.
  - right. split; [|split; reflexivity]. cbn [surf_of r_reg nth bad_surfs s_s]. change (finite n0 /\ finite n0 /\ finite n0). rewrite xn0.
    repeat split; eexists; reflexivity.
  - rewrite spin_dirichlet_writes. cbn [fst].
    assert (E1 : spin_value (Fin 3%R : num XA) (surf_of [nth 0 bad_surfs zero_tri; SettingsModel.mkTri (txt "in") false n0 zero3 (NaN : num XA) (Fin 2%R : num XA)
       (Fin 0%R : num XA, Fin 0%R : num XA, Fin 1%R : num XA) (NaN : num XA, NaN : num XA, NaN : num XA); nth 2 bad_surfs zero_tri] (MeshModel.mkTri 0 1 2 1))
       = Some (xmul (Fin (- 2 * 3)) (Fin 0%R), xmul (Fin (- 2 * 3)) (Fin 0%R), xmul (Fin (- 2 * 3)) (Fin 1%R))).
    { apply spin_value_spec. left. split; [left; reflexivity|]. exists 2%R. split; reflexivity. }
    assert (E2 : spin_value (Fin 3%R : num XA) (surf_of [nth 0 bad_surfs zero_tri; SettingsModel.mkTri (txt "in") false n0 zero3 (NaN : num XA) (Fin 2%R : num XA)
       (Fin 0%R : num XA, Fin 0%R : num XA, Fin 1%R : num XA) (NaN : num XA, NaN : num XA, NaN : num XA); nth 2 bad_surfs zero_tri] (MeshModel.mkTri 1 2 3 2))
       = Some zero3).
    { apply spin_value_spec. right. split; [|split; reflexivity]. change (finite n0 /\ finite n0 /\ finite n0). rewrite xn0. repeat split; eexists; reflexivity. }
    unfold spin_writes. cbn [flat_map]. rewrite E1, E2. reflexivity.
Qed.

(** *** the imposed values of the potential *)
Definition elec_writes (surfs : list (@tri_prm XA)) (tris : list tri) : list (nat * num XA) :=
  flat_map (fun t => if nisnan (s_V (surf_of surfs t)) then [] else map (fun i => (i, s_V (surf_of surfs t))) (tri_nodes t)) tris.

Lemma elec_dirichlet_writes : forall n surfs tris,
  elec_dirichlet n surfs tris = let W := elec_writes surfs tris in (suppress_copies (map fst W), fold_left write W (repeat n0 n)).
Proof.
  intros n surfs tris. cbv zeta. unfold elec_dirichlet.
  set (f := fun st t => if nisnan (s_V (surf_of surfs t)) then st else _).
  assert (H : forall tris st, fold_left f tris st = (fst st ++ map fst (elec_writes surfs tris), fold_left write (elec_writes surfs tris) (snd st))).
  { induction tris0 as [|t l IH]; intros st; unfold elec_writes; cbn [flat_map]. { cbn. rewrite app_nil_r. destruct st; reflexivity. }
    fold (elec_writes surfs l). cbn [fold_left]. rewrite IH. unfold f. destruct (nisnan (s_V (surf_of surfs t))); cbn [app]; auto.
    rewrite map_app, fold_left_app, app_assoc.
    assert (G : forall (x : num XA) ns (st : list nat * list (num XA)), fold_left (fun st i => (fst st ++ [i], set_nth i x (snd st))) ns st =
      (fst st ++ map fst (map (fun i => (i, x)) ns), fold_left write (map (fun i => (i, x)) ns) (snd st))).
    { induction ns as [|i ns IHn]; intros st0; cbn [fold_left map]. { rewrite app_nil_r. destruct st0; reflexivity. }
      rewrite IHn. cbn [fst snd app map fold_left]. rewrite <- app_assoc. reflexivity. }
    rewrite G. reflexivity. }
  rewrite H. cbn [fst snd app]. reflexivity.
Qed.

Theorem C69_potential : forall (n : nat) (surfs : list (@tri_prm XA)) (tris : list tri) ld vd,
  (forall t i, In t tris -> In i (tri_nodes t) -> i < n) ->
  elec_dirichlet n surfs tris = (ld, vd) ->
  let fixed i := exists t, In t tris /\ In i (tri_nodes t) /\ s_V (surf_of surfs t) <> NaN in
  StronglySorted lt ld /\ (forall i, In i ld <-> fixed i) /\ length vd = n /\
  (forall i, ~ fixed i -> nth i vd (Fin 0%R) = Fin 0%R) /\
  (forall l1 t l2 i, tris = l1 ++ t :: l2 -> In i (tri_nodes t) -> s_V (surf_of surfs t) <> NaN ->
     (forall t', In t' l2 -> In i (tri_nodes t') -> s_V (surf_of surfs t') = NaN) -> nth i vd (Fin 0%R) = s_V (surf_of surfs t)).
Proof.
  intros n surfs tris ld vd Hn H fixed. rewrite elec_dirichlet_writes in H. cbv zeta in H.
  pose proof (f_equal fst H) as Ei. pose proof (f_equal snd H) as Ev. cbn [fst snd] in Ei, Ev. clear H.
  destruct (suppress_spec (map fst (elec_writes surfs tris))) as [S1 S2]. rewrite Ei in S1, S2.
  assert (Nn : forall x : num XA, nisnan x = false <-> x <> NaN). { intros []; cbn; split; congruence. }
  assert (InW : forall tris k, In k (map fst (elec_writes surfs tris)) <-> exists t, In t tris /\ In k (tri_nodes t) /\ s_V (surf_of surfs t) <> NaN).
  { intros tris0 k. rewrite in_map_iff. unfold elec_writes. split.
    - intros ((k' & x) & E & Hin). cbn [fst] in E. subst k'. apply in_flat_map in Hin. destruct Hin as (t & Ht & Hin).
      destruct (nisnan (s_V (surf_of surfs t))) eqn:Et; [destruct Hin|]. apply in_map_iff in Hin. destruct Hin as (i & E & Hi). injection E as -> _.
      exists t. split; auto. split; auto. apply Nn. exact Et.
    - intros (t & Ht & Hi & Hv). exists (k, s_V (surf_of surfs t)). split; auto. apply in_flat_map. exists t. split; auto.
      rewrite (proj2 (Nn _) Hv). apply in_map_iff. eauto. }
  split; auto. split. { intros k. rewrite S2, InW. reflexivity. }
  split. { rewrite <- Ev, writes_length. apply repeat_length. }
  split.
  - intros i Hno. rewrite <- Ev, writes_none.
    + rewrite xn0. clear. revert i. induction n as [|m IH]; intros [|k]; cbn; auto.
    + rewrite InW. exact Hno.
  - intros l1 t l2 i Et Hi Hv Hlast.
    assert (Hin : i < n). { apply (Hn t); auto. rewrite Et. apply in_app_iff. right. left. reflexivity. }
    assert (Sp : exists P S, map (fun i => (i, s_V (surf_of surfs t))) (tri_nodes t) = P ++ (i, s_V (surf_of surfs t)) :: S /\ ~ In i (map fst S)).
    { revert Hi. generalize (tri_nodes t). induction l as [|a l IH]; intros Hi; [destruct Hi|].
      destruct (in_dec Nat.eq_dec i l) as [Hl|Hl].
      - destruct (IH Hl) as (P & S & E & HS). exists ((a, s_V (surf_of surfs t)) :: P), S. split; auto. cbn [map app]. rewrite E. reflexivity.
      - destruct Hi as [->|Hi]; [|contradiction]. exists [], (map (fun i => (i, s_V (surf_of surfs t))) l). split; auto.
        rewrite map_map. cbn [fst]. rewrite map_id. exact Hl. }
    destruct Sp as (P & S & E & HS).
    assert (Esw : elec_writes surfs tris = (elec_writes surfs l1 ++ P) ++ (i, s_V (surf_of surfs t)) :: (S ++ elec_writes surfs l2)).
    { rewrite Et. unfold elec_writes. rewrite flat_map_app. cbn [flat_map]. rewrite (proj2 (Nn _) Hv), E, <- !app_assoc. reflexivity. }
    rewrite <- Ev, Esw. apply writes_last.
    + rewrite repeat_length. exact Hin.
    + rewrite map_app, in_app_iff. intros [K|K]; [contradiction|]. apply InW in K.
      destruct K as (t' & Ht' & Hi' & Hv'). apply Hv'. apply (Hlast t'); auto.
Qed.

Print Assumptions C68_electrostatic.
Print Assumptions C68_electrostatic_binary64.
Print Assumptions C68_spin_partial.
Print Assumptions C68_second_default_refused.
Print Assumptions C68_default_once.
Print Assumptions C68_unchecked_parameters_refuted.
Print Assumptions C68_both_on_one_surface_refuted.
Print Assumptions C69_dirichlet.
Print Assumptions C69_potential.
