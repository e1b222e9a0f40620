(** * C115: the output directory *)
From Coq Require Import String List Bool Arith Lia.
From Verif Require Import DirModel.
Import ListNotations.

(** ** Specification *)
(** every directory above [p] exists and may be searched *)
Definition reachable (search : path -> bool) (fs : fsys) (p : path) : Prop :=
  forall q r, r <> [] -> p = q ++ r -> fs q = Some KDir /\ search q = true.
(** [p] is an existing directory; [p] does not exist and its parent, which does, accepts it *)
Definition existing search fs p := reachable search fs p /\ fs p = Some KDir.
Definition creatable search (write : path -> bool) fs p := reachable search fs p /\ fs p = None /\ write (removelast p) = true.

(** ** Proofs *)
Section proofs.
Variables (search write : path -> bool).

Lemma walk_spec : forall rest fs base, walk search fs base rest = None <->
  (forall q r, r <> [] -> rest = q ++ r -> fs (base ++ q) = Some KDir /\ search (base ++ q) = true).
Proof.
  induction rest as [|c rest IH]; intros fs base; cbn [walk].
  - split; [|reflexivity]. intros _ q r Hr E. destruct q; destruct r; try discriminate. contradiction.
  - split.
    + intros H q r Hr E. destruct (fs base) as [[|]|] eqn:Eb; try discriminate. destruct (search base) eqn:Es; [|discriminate].
      destruct q as [|d q]; [rewrite app_nil_r; auto|]. injection E as -> E. apply (proj1 (IH fs (base ++ [d])) H q r Hr) in E.
      rewrite <- app_assoc in E. exact E.
    + intros H. destruct (H [] (c :: rest)) as [H1 H2]; [discriminate|reflexivity|]. rewrite app_nil_r in H1, H2. rewrite H1, H2.
      apply IH. intros q r Hr E. rewrite <- app_assoc. apply (H (c :: q) r Hr). rewrite E. reflexivity.
Qed.
Lemma walk_reachable : forall fs p, walk search fs [] p = None <-> reachable search fs p.
Proof. intros. rewrite walk_spec. reflexivity. Qed.

Lemma advance_mkdir : forall fs p, 
  (creatable search write fs p /\ advance search write p fs AtMkdir = ((fun q => if list_eq_dec string_dec q p then Some KDir else fs q), Ready true)) \/
  (~ creatable search write fs p /\ advance search write p fs AtMkdir = (fs, Stopped)).
Proof.
  intros fs p. unfold advance, mkdir, creatable. destruct (walk search fs [] p) eqn:W.
  - right. split; [|reflexivity]. intros (R & _). apply walk_reachable in R. congruence.
  - apply walk_reachable in W. destruct (fs p) eqn:E; [right; split; [|reflexivity]; intros (_ & H & _); discriminate|].
    destruct (write (removelast p)) eqn:Wr; [left; auto|right; split; [|reflexivity]; intros (_ & _ & H); discriminate].
Qed.
Lemma advance_stat : forall fs p,
  fst (advance search write p fs AtStat) = fs /\
  (snd (advance search write p fs AtStat) = Ready false <-> existing search fs p) /\
  (reachable search fs p -> fs p = None -> snd (advance search write p fs AtStat) = AtMkdir) /\
  (snd (advance search write p fs AtStat) = Ready false \/ snd (advance search write p fs AtStat) = AtMkdir \/ snd (advance search write p fs AtStat) = Stopped).
Proof.
  intros fs p. unfold advance, stat, existing. destruct (walk search fs [] p) as [e|] eqn:W.
  - assert (N : ~ reachable search fs p) by (intros R; apply walk_reachable in R; congruence).
    destruct e; cbn; (split; [reflexivity|]); (split; [split; [discriminate|tauto]|]); (split; [tauto|auto]).
  - apply walk_reachable in W. destruct (fs p) as [[|]|] eqn:E; cbn; (split; [reflexivity|]); (split; [split; [try discriminate; auto|try reflexivity; intros (_ & H); discriminate]|]); (split; [intros; try discriminate; reflexivity|auto]).
Qed.

Lemma reachable_grows : forall fs p, fs p = None -> reachable search fs p -> reachable search (fun q => if list_eq_dec string_dec q p then Some KDir else fs q) p.
Proof.
  intros fs p N R q r Hr E. destruct (R q r Hr E) as [H1 H2]. split; [|exact H2]. destruct (list_eq_dec string_dec q p); [reflexivity|exact H1].
Qed.
End proofs.

(** ** C115 *)
(** A program alone: it goes on exactly when the directory exists or can be created; then the directory exists, and nothing else has
    changed; when it stops, nothing has changed. *)
Theorem C115_alone : forall search write p fs fs' s, create_dir_if_needed search write p fs = (fs', s) ->
  ((exists c, s = Ready c) \/ s = Stopped) /\
  ((exists c, s = Ready c) <-> existing search fs p \/ creatable search write fs p) /\
  ((exists c, s = Ready c) -> existing search fs' p) /\ (s = Stopped -> fs' = fs) /\
  (forall q, q <> p -> fs' q = fs q) /\ (forall k, fs p = Some k -> fs' p = Some k).
Proof.
  intros search write p fs fs' s H. unfold create_dir_if_needed in H.
  destruct (advance_stat search write fs p) as (S1 & S2 & S3 & S4). destruct (advance search write p fs AtStat) as [fs1 s1]. cbn [fst snd] in *. subst fs1.
  destruct S4 as [->|[->| ->]].
  - injection H as <- <-. pose proof (proj1 S2 eq_refl) as X. split; [left; eexists; reflexivity|]. split; [split; [auto|intros _; eexists; reflexivity]|]. split; [auto|]. split; [discriminate|]. auto.
  - assert (NX : ~ existing search fs p) by (intros X; apply S2 in X; discriminate).
    destruct (advance_mkdir search write fs p) as [[C E]|[C E]]; rewrite E in H; injection H as <- <-.
    + split; [left; eexists; reflexivity|]. split; [split; [auto|intros _; eexists; reflexivity]|]. destruct C as (R & N & W). split.
      { intros _. split; [apply reachable_grows; assumption|]. destruct (list_eq_dec string_dec p p); [reflexivity|contradiction]. }
      split; [discriminate|]. split; [intros q Hq; destruct (list_eq_dec string_dec q p); [contradiction|reflexivity]|]. intros k Hk. rewrite N in Hk. discriminate.
    + split; [right; reflexivity|]. split; [split; [intros [c X]; discriminate|tauto]|]. split; [intros [c X]; discriminate|]. auto.
  - injection H as <- <-. assert (NX : ~ existing search fs p) by (intros X; apply S2 in X; discriminate).
    assert (NC : ~ creatable search write fs p) by (intros (R & N & _); specialize (S3 R N); discriminate).
    split; [right; reflexivity|]. split; [split; [intros [c X]; discriminate|tauto]|]. split; [intros [c X]; discriminate|]. auto.
Qed.

Lemma nth_replace : forall {X} (x : X) l i j y, nth_error l i = Some y -> nth_error (replace_nth i x l) j = if Nat.eqb j i then Some x else nth_error l j.
Proof.
  induction l as [|z l IH]; intros i j y H; [destruct i; discriminate|]. destruct i as [|i]; cbn [replace_nth]; [destruct j; reflexivity|].
  destruct j as [|j]; [reflexivity|]. cbn [nth_error Nat.eqb] in *. eapply IH. exact H.
Qed.

Section several.
Variables (search write : path -> bool).
Lemma advance_keeps : forall p fs s fs' s', advance search write p fs s = (fs', s') ->
  (forall q k, fs q = Some k -> fs' q = Some k) /\
  (forall q k, fs q = None -> fs' q = Some k -> k = KDir /\ q = p /\ s' = Ready true) /\
  (forall c, s' = Ready c -> s = Ready c \/ fs' p = Some KDir) /\ (forall c, s = Ready c -> s' = Ready c).
Proof.
  intros p fs s fs' s' H. destruct s.
  - destruct (advance_stat search write fs p) as (S1 & S2 & _ & _). rewrite H in S1, S2. cbn [fst snd] in *. subst fs'.
    split; [auto|]. split; [intros q k A B; congruence|]. split; [|intros c X; discriminate].
    intros c E. right. assert (C : c = false).
    { unfold advance in H. destruct (stat search fs p) as [[]|[]]; injection H as <-; try discriminate; injection E as <-; reflexivity. }
    subst c. apply S2 in E. apply E.
  - destruct (advance_mkdir search write fs p) as [[C E]|[C E]]; rewrite E in H; injection H as <- <-.
    + destruct C as (_ & N & _). split. { intros q k Hq. destruct (list_eq_dec string_dec q p); [congruence|exact Hq]. }
      split. { intros q k Hq X. destruct (list_eq_dec string_dec q p) as [->|]; [injection X as <-; auto|congruence]. }
      split; [intros c _; right; destruct (list_eq_dec string_dec p p); [reflexivity|contradiction]|intros c X; discriminate].
    + split; [auto|]. split; [intros q k A B; congruence|]. split; intros c X; discriminate.
  - injection H as <- <-. split; [auto|]. split; [intros q k A B; congruence|]. split; auto.
  - injection H as <- <-. split; [auto|]. split; [intros q k A B; congruence|]. split; [intros c X; discriminate|auto].
Qed.

(** what holds at every moment; [fs0] is the file system before the programs start *)
Definition history (fs0 : fsys) (st : fsys * list program) : Prop :=
  (forall q k, fs0 q = Some k -> fst st q = Some k) /\
  (forall q k, fs0 q = None -> fst st q = Some k -> k = KDir /\ exists i, nth_error (snd st) i = Some (q, Ready true)) /\
  (forall i p c, nth_error (snd st) i = Some (p, Ready c) -> fst st p = Some KDir).

Lemma turn_history : forall fs0 st i, history fs0 st -> history fs0 (turn search write st i).
Proof.
  intros fs0 [fs ps] i (H1 & H2 & H3). unfold turn. cbn [fst snd] in *. destruct (nth_error ps i) as [[p s]|] eqn:E; [|split; [|split]; assumption].
  destruct (advance search write p fs s) as [fs' s'] eqn:A. destruct (advance_keeps p fs s fs' s' A) as (K1 & K2 & K3 & K4).
  unfold history. cbn [fst snd]. split; [auto|]. split.
  - intros q k N X. destruct (fs q) as [k'|] eqn:Q.
    + pose proof (K1 q k' Q) as Q'. rewrite X in Q'. injection Q' as <-. destruct (H2 q k N Q) as (Hk & j & Hj). split; [exact Hk|]. exists j.
      rewrite (nth_replace _ _ _ _ _ E). destruct (Nat.eqb_spec j i) as [->|]; [|exact Hj]. rewrite E in Hj. injection Hj as <- ->. rewrite (K4 true eq_refl). reflexivity.
    + destruct (K2 q k Q X) as (Hk & -> & ->). split; [exact Hk|]. exists i. rewrite (nth_replace _ _ _ _ _ E), Nat.eqb_refl. reflexivity.
  - intros j p' c Hj. rewrite (nth_replace _ _ _ _ _ E) in Hj. destruct (Nat.eqb_spec j i) as [->|].
    + injection Hj as <- ->. destruct (K3 c eq_refl) as [->|D]; [|exact D]. apply K1. apply (H3 i p c). exact E.
    + apply K1. apply (H3 j p' c). exact Hj.
Qed.

(** Any number of programs, each with its output directory, started at any moments, the system calls of each one coming in any order
    with those of the others: no file and no directory disappears or changes, the only new names are the directories that the programs
    report as created, and a program that goes on has its directory. *)
Theorem C115_concurrent_partial : forall fs0 paths sched fs ps,
  together search write sched (fs0, map (fun p => (p, AtStat)) paths) = (fs, ps) ->
  (forall q k, fs0 q = Some k -> fs q = Some k) /\
  (forall q k, fs0 q = None -> fs q = Some k -> k = KDir /\ exists i, nth_error ps i = Some (q, Ready true)) /\
  (forall i p c, nth_error ps i = Some (p, Ready c) -> fs p = Some KDir).
Proof.
  intros fs0 paths sched fs ps H.
  assert (G : forall l st, history fs0 st -> history fs0 (together search write l st)).
  { induction l as [|i l IH]; intros st Hst; [exact Hst|]. apply IH. apply turn_history. exact Hst. }
  assert (I : history fs0 (fs0, map (fun p => (p, AtStat)) paths)).
  { split; [auto|]. split; [intros q k A B; cbn in B; congruence|]. intros i p c E. cbn [snd] in E. rewrite nth_error_map in E. destruct (nth_error paths i); discriminate. }
  apply (G sched) in I. rewrite H in I. exact I.
Qed.

(** Among programs that are given the same new directory and that have all finished, one has created it. *)
Theorem C115_one_starts : forall fs0 p n sched fs ps, creatable search write fs0 p -> 0 < n ->
  together search write sched (fs0, map (fun p => (p, AtStat)) (repeat p n)) = (fs, ps) ->
  (forall i s, nth_error ps i = Some (p, s) -> s <> AtStat /\ s <> AtMkdir) ->
  exists i, nth_error ps i = Some (p, Ready true).
Proof.
  intros fs0 p n sched fs ps C Hn H F.
  set (inv := fun st : fsys * list program => length (snd st) = n /\ (forall i q s, nth_error (snd st) i = Some (q, s) -> q = p) /\
    ((fst st = fs0 /\ forall i q s, nth_error (snd st) i = Some (q, s) -> s = AtStat \/ s = AtMkdir) \/ exists i, nth_error (snd st) i = Some (p, Ready true))).
  assert (L : forall X (x : X) l i, length (replace_nth i x l) = length l) by (induction l as [|y l IH]; intros [|i]; cbn; auto).
  assert (T : forall st i, inv st -> inv (turn search write st i)).
  { intros [f l] i (I1 & I2 & I3). unfold turn. cbn [fst snd] in *. destruct (nth_error l i) as [[q s]|] eqn:E; [|split; [|split]; assumption].
    destruct (advance search write q f s) as [f' s'] eqn:A. pose proof (I2 i q s E) as ->. unfold inv. cbn [fst snd]. rewrite L. split; [exact I1|]. split.
    - intros j q s0 Hj. rewrite (nth_replace _ _ _ _ _ E) in Hj. destruct (Nat.eqb j i); [injection Hj as <- _; reflexivity|apply (I2 j q s0 Hj)].
    - destruct I3 as [[-> I3]|[j Hj]].
      + destruct (I3 i p s E) as [->| ->].
        * left. destruct (advance_stat search write fs0 p) as (S1 & _ & S3 & _). rewrite A in S1, S3. cbn [fst snd] in *. destruct C as (R & N & _). split; [exact S1|].
          intros j q s0 Hj. rewrite (nth_replace _ _ _ _ _ E) in Hj. destruct (Nat.eqb j i); [injection Hj as <- <-; right; apply S3; assumption|apply (I3 j q s0 Hj)].
        * right. destruct (advance_mkdir search write fs0 p) as [[_ X]|[X _]]; [|contradiction]. rewrite A in X. injection X as _ ->. exists i. rewrite (nth_replace _ _ _ _ _ E), Nat.eqb_refl. reflexivity.
      + right. exists j. rewrite (nth_replace _ _ _ _ _ E). destruct (Nat.eqb_spec j i) as [->|]; [|exact Hj]. rewrite E in Hj. injection Hj as ->.
        destruct (advance_keeps p f (Ready true) f' s' A) as (_ & _ & _ & K4). rewrite (K4 true eq_refl). reflexivity. }
  assert (G : forall l st, inv st -> inv (together search write l st)).
  { induction l as [|i l IH]; intros st Hst; [exact Hst|]. apply IH. apply T. exact Hst. }
  assert (I0 : inv (fs0, map (fun p => (p, AtStat)) (repeat p n))).
  { unfold inv. cbn [fst snd]. rewrite map_length, repeat_length. split; [reflexivity|].
    assert (Q : forall i q s, nth_error (map (fun p => (p, AtStat)) (repeat p n)) i = Some (q, s) -> q = p /\ s = AtStat).
    { intros i q s E. apply nth_error_In in E. apply in_map_iff in E. destruct E as (y & E & Hy). apply repeat_spec in Hy. injection E as <- <-. subst. auto. }
    split; [intros i q s E; apply (Q i q s E)|]. left. split; [reflexivity|]. intros i q s E. left. apply (Q i q s E). }
  apply (G sched) in I0. rewrite H in I0. destruct I0 as (I1 & I2 & [[_ I3]|I3]); [|exact I3]. cbn [fst snd] in *.
  exfalso. destruct (nth_error ps 0) as [[q s]|] eqn:E; [|apply nth_error_None in E; lia].
  pose proof (I2 0 q s E) as ->. destruct (F 0 s E). destruct (I3 0 p s E); contradiction.
Qed.
End several.

(** ** Where the documentation ("If the directory does not exist, it will be created") is not followed *)
Local Open Scope string_scope.
Definition all (_ : path) := true.
Definition home : fsys := fun q => match q with [] => Some KDir | ["data"] => Some KDir | ["notes"] => Some KFile | _ => None end.

(** The directories above are not created: the program stops when one of them is missing. *)
Theorem C115_parents_refuted : exists fs p, (forall q, fs q <> Some KFile) /\ fs [] = Some KDir /\ fs p = None /\
  create_dir_if_needed all all p fs = (fs, Stopped).
Proof.
  exists (fun q => match q with [] => Some KDir | _ => None end), ["runs"; "first"]. split; [intros [|s q]; discriminate|]. repeat split.
Qed.

(** Two programs started together with the same new directory: the second one stops because the first has just created it. *)
Theorem C115_together_refuted : exists fs p sched fs' ps, creatable all all fs p /\
  together all all sched (fs, [(p, AtStat); (p, AtStat)]) = (fs', ps) /\ existing all fs' p /\ ps = [(p, Ready true); (p, Stopped)].
Proof.
  exists home, ["data"; "run"], [0; 1; 0; 1]. eexists. eexists. split; [|split; [reflexivity|split; [|reflexivity]]].
  - split; [|split; reflexivity]. apply walk_reachable. reflexivity.
  - split; [apply walk_reachable; reflexivity|]. reflexivity.
Qed.

(** ** The hypotheses are met *)
Example C115_nonvacuous : creatable all all home ["data"; "run"] /\ existing all home ["data"] /\
  snd (create_dir_if_needed all all ["data"; "run"] home) = Ready true /\ snd (create_dir_if_needed all all ["data"] home) = Ready false /\
  snd (create_dir_if_needed all all ["notes"] home) = Stopped /\ snd (create_dir_if_needed all all ["notes"; "x"] home) = Stopped /\
  map snd (snd (together all all [0; 0; 2; 1; 2; 1] (home, map (fun p => (p, AtStat)) [["data"; "run"]; ["data"; "run"]; ["data"; "other"]]))) = [Ready true; Ready false; Ready true].
Proof.
  split; [split; [apply walk_reachable; reflexivity|split; reflexivity]|]. split; [split; [apply walk_reachable; reflexivity|reflexivity]|]. repeat split.
Qed.

Print Assumptions C115_alone.
Print Assumptions C115_concurrent_partial.
Print Assumptions C115_one_starts.
Print Assumptions C115_parents_refuted.
Print Assumptions C115_together_refuted.
