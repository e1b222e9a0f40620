(** * Proofs about concurrent add *)
From Coq Require Import List Arith Bool Lia Permutation.
From Verif Require Import Arith SparseModel SparseProof ConcModel.
Import ListNotations.

Lemma fupd_same : forall {X} (f : nat -> X) i x, fupd f i x i = x.
Proof. intros. unfold fupd. rewrite Nat.eqb_refl. reflexivity. Qed.
Lemma fupd_other : forall {X} (f : nat -> X) i k x, k <> i -> fupd f i x k = f k.
Proof. intros. unfold fupd. destruct (k =? i) eqn:E; auto. apply Nat.eqb_eq in E. contradiction. Qed.

Section proof.
Context {A : arith}.
Implicit Types (m : matrix A) (g : gstate A).

Lemma mref_mget : forall m i j, wf m -> in_shape (shape_of m) i j -> mref m i j = mget m i j.
Proof.
  intros m i j Hw Hs. destruct (in_shape_row _ _ _ Hs) as (r & Er & Hj).
  destruct (wf_row _ _ _ Hw Er) as [Hso Hl]. unfold mref, mget. rewrite Er.
  rewrite (lower_bound_in _ _ Hso Hj), Nat.eqb_refl. reflexivity.
Qed.

Lemma update_ext : forall m i j f f' v, wf m -> in_shape (shape_of m) i j -> mget m i j = Some v ->
  f v = f' v -> update m i j f = update m i j f'.
Proof.
  intros m i j f f' v Hw Hs Hg Hf. rewrite <- (mref_mget _ _ _ Hw Hs) in Hg.
  unfold mref in Hg. unfold update, update_row.
  destruct (nth_error m i) as [r|]; auto. rewrite Hg, Hf. reflexivity.
Qed.

(** calls of one thread in a log of (thread, call) *)
Definition proj (t : nat) (log : list (nat * call A)) : list (call A) :=
  map snd (filter (fun x => fst x =? t) log).

Lemma proj_app : forall t l l', proj t (l ++ l') = proj t l ++ proj t l'.
Proof. intros. unfold proj. rewrite filter_app, map_app. reflexivity. Qed.

Definition op_of (c : call A) : mop A := let '(i, j, v) := c in MAdd i j v.

Lemma mrun_app : forall (l l' : list (mop A)) m,
  mrun m (l ++ l') = match mrun m l with Some m' => mrun m' l' | None => None end.
Proof.
  induction l as [|o l IH]; intros l' m; simpl; auto. destruct (mstep m o); auto.
Qed.

(** what is still to be written by a thread *)
Definition rest_of (th : thread A) : list (call A) :=
  match ph th with Written => tl (prog th) | _ => prog th end.

Definition row_of (th : thread A) : option nat :=
  match prog th with (i, _, _) :: _ => Some i | [] => None end.

Definition busy (th : thread A) : Prop := ph th <> Idle.

Record inv (m0 : matrix A) (progs : list (list (call A))) (g : gstate A) (log : list (nat * call A)) : Prop := mkInv {
  inv_mat : mrun m0 (map (fun x => op_of (snd x)) log) = Some (g_mat g);
  inv_wf : wf (g_mat g);
  inv_shape : shape_of (g_mat g) = shape_of m0;
  inv_len : length (g_threads g) = length progs;
  inv_tid : forall x, In x log -> fst x < length progs;
  inv_prog : forall t th p, nth_error (g_threads g) t = Some th -> nth_error progs t = Some p ->
      p = proj t log ++ rest_of th;
  inv_in : forall t th i j v, nth_error (g_threads g) t = Some th -> In (i, j, v) (prog th) ->
      in_shape (shape_of m0) i j;
  inv_busy : forall t th, nth_error (g_threads g) t = Some th -> busy th ->
      exists i, row_of th = Some i /\ g_mutex g i = Some t;
  inv_owner : forall i t, g_mutex g i = Some t -> exists th, nth_error (g_threads g) t = Some th /\ busy th /\ row_of th = Some i;
  inv_read : forall t th x i j v rest, nth_error (g_threads g) t = Some th -> ph th = HasRead x ->
      prog th = (i, j, v) :: rest -> mget (g_mat g) i j = Some x
}.

Lemma inv_start : forall m (progs : list (list (call A))), wf m ->
  (forall p i j v, In p progs -> In (i, j, v) p -> in_shape (shape_of m) i j) ->
  inv m progs (start m progs) [].
Proof.
  intros m progs Hw Hin. unfold start. constructor; cbn [g_mat g_mutex g_threads]; auto.
  - apply map_length.
  - intros x [].
  - intros t th p H1 H2. rewrite nth_error_map, H2 in H1. simpl in H1. inversion H1; subst. reflexivity.
  - intros t th i j v H1 H2. rewrite nth_error_map in H1. destruct (nth_error progs t) as [p|] eqn:Ep; [|simpl in H1; inversion H1].
    simpl in H1. inversion H1; subst. apply nth_error_In in Ep. eauto.
  - intros t th H1 H2. rewrite nth_error_map in H1. destruct (nth_error progs t); [|simpl in H1; inversion H1].
    simpl in H1. inversion H1; subst. exfalso. apply H2. reflexivity.
  - intros i t H. discriminate.
  - intros t th x i j v rest H1 H2 H3. rewrite nth_error_map in H1. destruct (nth_error progs t); [|simpl in H1; inversion H1].
    simpl in H1. inversion H1; subst. simpl in *. discriminate.
Qed.

Lemma inv_step : forall m0 progs g log t g', inv m0 progs g log -> cstep g t = Some g' ->
  exists log', inv m0 progs g' log'.
Proof.
  intros m0 progs g log t g' I H. unfold cstep in H.
  destruct (nth_error (g_threads g) t) as [[p f]|] eqn:Et; [|discriminate].
  destruct p as [|[[i j] val] rest]; [discriminate|].
  assert (Htl : t < length (g_threads g)). { apply nth_error_Some. rewrite Et. discriminate. }
  assert (Hsh : in_shape (shape_of m0) i j). { eapply (inv_in _ _ _ _ I); eauto. simpl. auto. }
  destruct f.
  - (* lock *)
    destruct (g_mutex g i) eqn:Em; [discriminate|]. inversion H; subst g'; clear H. exists log.
    constructor; cbn [g_mat g_mutex g_threads]; try apply I.
    + rewrite set_nth_length. apply I.
    + intros t' th p H1 H2. destruct (Nat.eq_dec t t') as [<-|Hn].
      * rewrite set_nth_same in H1 by exact Htl. inversion H1; subst.
        exact (inv_prog _ _ _ _ I _ _ _ Et H2).
      * rewrite set_nth_other in H1 by exact Hn. exact (inv_prog _ _ _ _ I _ _ _ H1 H2).
    + intros t' th i' j' v H1 H2. destruct (Nat.eq_dec t t') as [<-|Hn].
      * rewrite set_nth_same in H1 by exact Htl. inversion H1; subst. exact (inv_in _ _ _ _ I _ _ _ _ _ Et H2).
      * rewrite set_nth_other in H1 by exact Hn. exact (inv_in _ _ _ _ I _ _ _ _ _ H1 H2).
    + intros t' th H1 H2. destruct (Nat.eq_dec t t') as [<-|Hn].
      * rewrite set_nth_same in H1 by exact Htl. inversion H1; subst. exists i. split; auto. apply fupd_same.
      * rewrite set_nth_other in H1 by exact Hn. destruct (inv_busy _ _ _ _ I _ _ H1 H2) as (i' & E1 & E2).
        exists i'. split; auto. rewrite fupd_other; auto. intros ->. congruence.
    + intros i' t' H1. destruct (Nat.eq_dec i' i) as [->|Hn].
      * rewrite fupd_same in H1. inversion H1; subst t'. exists (mkThread ((i, j, val) :: rest) Locked).
        rewrite set_nth_same by exact Htl. repeat split; auto. discriminate.
      * rewrite fupd_other in H1 by exact Hn. destruct (inv_owner _ _ _ _ I _ _ H1) as (th & E1 & E2 & E3).
        exists th. split; auto. rewrite set_nth_other; auto. intros <-. rewrite Et in E1. inversion E1; subst.
        apply E2. reflexivity.
    + intros t' th x i' j' v r' H1 H2 H3. destruct (Nat.eq_dec t t') as [<-|Hn].
      * rewrite set_nth_same in H1 by exact Htl. inversion H1; subst. simpl in *. discriminate.
      * rewrite set_nth_other in H1 by exact Hn. exact (inv_read _ _ _ _ I _ _ _ _ _ _ _ H1 H2 H3).
  - (* read *)
    destruct (mref (g_mat g) i j) as [x|] eqn:Ex; [|discriminate]. inversion H; subst g'; clear H. exists log.
    constructor; cbn [g_mat g_mutex g_threads]; try apply I.
    + rewrite set_nth_length. apply I.
    + intros t' th p H1 H2. destruct (Nat.eq_dec t t') as [<-|Hn].
      * rewrite set_nth_same in H1 by exact Htl. inversion H1; subst.
        exact (inv_prog _ _ _ _ I _ _ _ Et H2).
      * rewrite set_nth_other in H1 by exact Hn. exact (inv_prog _ _ _ _ I _ _ _ H1 H2).
    + intros t' th i' j' v H1 H2. destruct (Nat.eq_dec t t') as [<-|Hn].
      * rewrite set_nth_same in H1 by exact Htl. inversion H1; subst. exact (inv_in _ _ _ _ I _ _ _ _ _ Et H2).
      * rewrite set_nth_other in H1 by exact Hn. exact (inv_in _ _ _ _ I _ _ _ _ _ H1 H2).
    + intros t' th H1 H2. destruct (Nat.eq_dec t t') as [<-|Hn].
      * rewrite set_nth_same in H1 by exact Htl. inversion H1; subst.
        destruct (inv_busy _ _ _ _ I _ _ Et ltac:(discriminate)) as (i' & E1 & E2). exists i'. split; auto.
      * rewrite set_nth_other in H1 by exact Hn. exact (inv_busy _ _ _ _ I _ _ H1 H2).
    + intros i' t' H1. destruct (inv_owner _ _ _ _ I _ _ H1) as (th & E1 & E2 & E3).
      destruct (Nat.eq_dec t t') as [<-|Hn].
      * rewrite Et in E1. inversion E1; subst. eexists. rewrite set_nth_same by exact Htl. repeat split; auto. discriminate.
      * exists th. rewrite set_nth_other by exact Hn. auto.
    + intros t' th x' i' j' v r' H1 H2 H3. destruct (Nat.eq_dec t t') as [<-|Hn].
      * rewrite set_nth_same in H1 by exact Htl. inversion H1; subst. simpl in H2, H3.
        inversion H2; subst. inversion H3; subst.
        rewrite <- mref_mget; auto. { apply I. } rewrite (inv_shape _ _ _ _ I). auto.
      * rewrite set_nth_other in H1 by exact Hn. exact (inv_read _ _ _ _ I _ _ _ _ _ _ _ H1 H2 H3).
  - (* write *)
    destruct (mset (g_mat g) i j (nadd x val)) as [m'|] eqn:Em; [|discriminate]. inversion H; subst g'; clear H.
    pose proof (inv_read _ _ _ _ I _ _ _ _ _ _ _ Et eq_refl eq_refl) as Hx.
    assert (Hsh' : in_shape (shape_of (g_mat g)) i j) by (rewrite (inv_shape _ _ _ _ I); exact Hsh).
    assert (Ea : madd (g_mat g) i j val = Some m').
    { unfold madd. rewrite <- Em. unfold mset. eapply update_ext; eauto. apply I. }
    destruct (update_ok (g_mat g) i j (fun v => nadd v val) (inv_wf _ _ _ _ I) Hsh')
      as (m'' & v0 & U1 & U2 & U3 & U4 & U5 & U6).
    unfold madd in Ea. rewrite Ea in U1. inversion U1; subst m''; clear U1.
    destruct (inv_busy _ _ _ _ I _ _ Et ltac:(discriminate)) as (i0 & E1 & E2). simpl in E1. simpl in E1; inversion E1; subst i0.
    exists (log ++ [(t, (i, j, val))]).
    constructor; cbn [g_mat g_mutex g_threads]; auto.
    + rewrite map_app, mrun_app, (inv_mat _ _ _ _ I). simpl. unfold madd. rewrite Ea. reflexivity.
    + rewrite U3. apply I.
    + rewrite set_nth_length. apply I.
    + intros y Hy. apply in_app_or in Hy. destruct Hy as [Hy|[<-|[]]].
      * apply (inv_tid _ _ _ _ I). exact Hy.
      * simpl. rewrite <- (inv_len _ _ _ _ I). exact Htl.
    + intros t' th p H1 H2. rewrite proj_app. destruct (Nat.eq_dec t t') as [<-|Hn].
      * rewrite set_nth_same in H1 by exact Htl. inversion H1; subst.
        rewrite (inv_prog _ _ _ _ I _ _ _ Et H2). unfold proj at 3. simpl. rewrite Nat.eqb_refl. simpl.
        rewrite <- app_assoc. reflexivity.
      * rewrite set_nth_other in H1 by exact Hn. rewrite (inv_prog _ _ _ _ I _ _ _ H1 H2).
        unfold proj at 3. simpl. apply Nat.eqb_neq in Hn. rewrite Hn. simpl. rewrite app_nil_r. reflexivity.
    + intros t' th i' j' v H1 H2. destruct (Nat.eq_dec t t') as [<-|Hn].
      * rewrite set_nth_same in H1 by exact Htl. inversion H1; subst. exact (inv_in _ _ _ _ I _ _ _ _ _ Et H2).
      * rewrite set_nth_other in H1 by exact Hn. exact (inv_in _ _ _ _ I _ _ _ _ _ H1 H2).
    + intros t' th H1 H2. destruct (Nat.eq_dec t t') as [<-|Hn].
      * rewrite set_nth_same in H1 by exact Htl. inversion H1; subst. exists i. auto.
      * rewrite set_nth_other in H1 by exact Hn. exact (inv_busy _ _ _ _ I _ _ H1 H2).
    + intros i' t' H1. destruct (inv_owner _ _ _ _ I _ _ H1) as (th & F1 & F2 & F3).
      destruct (Nat.eq_dec t t') as [<-|Hn].
      * rewrite Et in F1. inversion F1; subst. eexists. rewrite set_nth_same by exact Htl. repeat split; auto. discriminate.
      * exists th. rewrite set_nth_other by exact Hn. auto.
    + intros t' th x' i' j' v r' H1 H2 H3. destruct (Nat.eq_dec t t') as [<-|Hn].
      * rewrite set_nth_same in H1 by exact Htl. inversion H1; subst. simpl in *. discriminate.
      * rewrite set_nth_other in H1 by exact Hn.
        pose proof (inv_read _ _ _ _ I _ _ _ _ _ _ _ H1 H2 H3) as Hr. rewrite U6; auto.
        intros Heq. inversion Heq; subst i' j'.
        destruct (inv_busy _ _ _ _ I _ _ H1) as (i0 & G1 & G2). { unfold busy. rewrite H2. discriminate. }
        unfold row_of in G1. rewrite H3 in G1. inversion G1; subst i0. congruence.
  - (* unlock *)
    inversion H; subst g'; clear H. exists log.
    destruct (inv_busy _ _ _ _ I _ _ Et ltac:(discriminate)) as (i0 & E1 & E2). simpl in E1. simpl in E1; inversion E1; subst i0.
    constructor; cbn [g_mat g_mutex g_threads]; try apply I.
    + rewrite set_nth_length. apply I.
    + intros t' th p H1 H2. destruct (Nat.eq_dec t t') as [<-|Hn].
      * rewrite set_nth_same in H1 by exact Htl. inversion H1; subst.
        exact (inv_prog _ _ _ _ I _ _ _ Et H2).
      * rewrite set_nth_other in H1 by exact Hn. exact (inv_prog _ _ _ _ I _ _ _ H1 H2).
    + intros t' th i' j' v H1 H2. destruct (Nat.eq_dec t t') as [<-|Hn].
      * rewrite set_nth_same in H1 by exact Htl. inversion H1; subst. simpl in H2.
        eapply (inv_in _ _ _ _ I); eauto. simpl. eauto.
      * rewrite set_nth_other in H1 by exact Hn. exact (inv_in _ _ _ _ I _ _ _ _ _ H1 H2).
    + intros t' th H1 H2. destruct (Nat.eq_dec t t') as [<-|Hn].
      * rewrite set_nth_same in H1 by exact Htl. inversion H1; subst. exfalso. apply H2. reflexivity.
      * rewrite set_nth_other in H1 by exact Hn. destruct (inv_busy _ _ _ _ I _ _ H1 H2) as (i' & F1 & F2).
        exists i'. split; auto. rewrite fupd_other; auto. intros ->. congruence.
    + intros i' t' H1. destruct (Nat.eq_dec i' i) as [->|Hn].
      * rewrite fupd_same in H1. discriminate.
      * rewrite fupd_other in H1 by exact Hn. destruct (inv_owner _ _ _ _ I _ _ H1) as (th & F1 & F2 & F3).
        exists th. split; auto. rewrite set_nth_other; auto. intros <-. rewrite Et in F1. inversion F1; subst.
        simpl in F3. congruence.
    + intros t' th x i' j' v r' H1 H2 H3. destruct (Nat.eq_dec t t') as [<-|Hn].
      * rewrite set_nth_same in H1 by exact Htl. inversion H1; subst. simpl in *. discriminate.
      * rewrite set_nth_other in H1 by exact Hn. exact (inv_read _ _ _ _ I _ _ _ _ _ _ _ H1 H2 H3).
Qed.

Lemma inv_run : forall m0 progs sched g log, inv m0 progs g log ->
  exists log', inv m0 progs (crun g sched) log'.
Proof.
  intros m0 progs. induction sched as [|t sched IH]; intros g log I.
  - exists log. exact I.
  - unfold crun. cbn [fold_left]. fold (crun (A := A)).
    destruct (cstep g t) as [g'|] eqn:E.
    + destruct (inv_step _ _ _ _ _ _ I E) as [log' I']. exact (IH _ _ I').
    + exact (IH _ _ I).
Qed.

(** some thread can act until all are done *)
Lemma inv_progress : forall m0 progs g log, inv m0 progs g log -> ~ all_done g ->
  exists t, cstep g t <> None.
Proof.
  intros m0 progs g log I Hn.
  assert (Hex : exists t th, nth_error (g_threads g) t = Some th /\ prog th <> []).
  { unfold all_done in Hn. clear I. revert Hn. induction (g_threads g) as [|th l IH]; intros Hn.
    - exfalso. apply Hn. constructor.
    - destruct (prog th) eqn:E.
      + destruct IH as (t & th' & H1 & H2). { intros H. apply Hn. constructor; auto. }
        exists (S t), th'. auto.
      + exists 0, th. split; auto. rewrite E. discriminate. }
  assert (Hbusy : forall t th, nth_error (g_threads g) t = Some th -> busy th -> cstep g t <> None).
  { intros t th H1 H2. destruct (inv_busy _ _ _ _ I _ _ H1 H2) as (i & E1 & E2). unfold row_of in E1.
    destruct th as [p f]. simpl in E1. destruct p as [|[[i' j] v] rest]; [discriminate|]. inversion E1; subst i'.
    assert (Hsh : in_shape (shape_of (g_mat g)) i j).
    { rewrite (inv_shape _ _ _ _ I). eapply (inv_in _ _ _ _ I); eauto. simpl. auto. }
    unfold cstep. rewrite H1. destruct f.
    - exfalso. apply H2. reflexivity.
    - rewrite mref_mget by (auto; apply I). 
      destruct (update_ok (g_mat g) i j (fun v => v) (inv_wf _ _ _ _ I) Hsh) as (m' & v0 & _ & _ & _ & U & _).
      rewrite U. discriminate.
    - unfold mset. destruct (update_ok (g_mat g) i j (fun _ => nadd x v) (inv_wf _ _ _ _ I) Hsh) as (m' & v0 & U & _).
      rewrite U. discriminate.
    - discriminate. }
  destruct Hex as (t & th & E & Hp). destruct th as [p f]. simpl in Hp.
  destruct p as [|[[i j] v] rest]; [congruence|]. destruct f; try (exists t; eapply Hbusy; [exact E|discriminate]).
  destruct (g_mutex g i) as [t'|] eqn:Em.
  - destruct (inv_owner _ _ _ _ I _ _ Em) as (th & F1 & F2 & _). exists t'. eauto.
  - exists t. unfold cstep. rewrite E, Em. discriminate.
Qed.

Definition load (th : thread A) : nat :=
  4 * length (prog th) - match ph th with Idle => 0 | Locked => 1 | HasRead _ => 2 | Written => 3 end.
Definition total_load (g : gstate A) : nat := fold_right (fun th n => load th + n) 0 (g_threads g).

Lemma total_set : forall (l : list (thread A)) t th th', nth_error l t = Some th -> load th = S (load th') ->
  fold_right (fun th n => load th + n) 0 l = S (fold_right (fun th n => load th + n) 0 (set_nth t th' l)).
Proof.
  induction l as [|x l IH]; intros t th th' E H; destruct t; simpl in *; try discriminate.
  - inversion E; subst. lia.
  - rewrite (IH _ _ _ E H). lia.
Qed.

(** every action takes one off the total amount of work *)
Lemma step_load : forall g t g', cstep g t = Some g' -> total_load g = S (total_load g').
Proof.
  intros g t g' H. unfold cstep in H.
  destruct (nth_error (g_threads g) t) as [[p f]|] eqn:Et; [|discriminate].
  destruct p as [|[[i j] val] rest]; [discriminate|].
  destruct f.
  - destruct (g_mutex g i); [discriminate|]. inversion H; subst. unfold total_load. simpl.
    eapply total_set; eauto. unfold load. cbn [prog ph length]. lia.
  - destruct (mref (g_mat g) i j); [|discriminate]. inversion H; subst. unfold total_load. simpl.
    eapply total_set; eauto. unfold load. cbn [prog ph length]. lia.
  - destruct (mset (g_mat g) i j (nadd x val)); [|discriminate]. inversion H; subst. unfold total_load. simpl.
    eapply total_set; eauto. unfold load. cbn [prog ph length]. lia.
  - inversion H; subst. unfold total_load. simpl.
    eapply total_set; eauto. unfold load. cbn [prog ph length]. lia.
Qed.

(** a log that contains the program of each thread is a permutation of all programs *)
Lemma proj_perm : forall progs (log : list (nat * call A)),
  (forall x, In x log -> fst x < length progs) ->
  (forall t p, nth_error progs t = Some p -> proj t log = p) ->
  Permutation (map snd log) (concat progs).
Proof.
  intros progs. induction progs as [|p progs IH] using rev_ind; intros log Ht Hp.
  - destruct log as [|x log]; [constructor|]. specialize (Ht x (or_introl eq_refl)). simpl in Ht. lia.
  - rewrite concat_app. simpl. rewrite app_nil_r. set (n := length progs) in *.
    assert (Hf : Permutation log (filter (fun x => negb (fst x =? n)) log ++ filter (fun x => fst x =? n) log)).
    { clear Ht Hp. induction log as [|x log IHl]; simpl. { constructor. }
      destruct (fst x =? n); simpl.
      - apply Permutation_cons_app. exact IHl.
      - constructor. exact IHl. }
    eapply Permutation_trans. { apply Permutation_map. exact Hf. }
    rewrite map_app. apply Permutation_app.
    + apply IH.
      * intros x Hx. apply filter_In in Hx. destruct Hx as [Hx Hb]. apply negb_true_iff, Nat.eqb_neq in Hb.
        specialize (Ht x Hx). rewrite app_length in Ht. simpl in Ht. fold n in Ht. lia.
      * intros t p' E. assert (Hlt : t < n) by (apply nth_error_Some; rewrite E; discriminate).
        rewrite <- (Hp t p') by (rewrite nth_error_app1 by exact Hlt; exact E).
        unfold proj. f_equal. clear - Hlt. induction log as [|x log IHl]; simpl; auto.
        destruct (fst x =? n) eqn:E1; simpl.
        -- destruct (fst x =? t) eqn:E2; auto. apply Nat.eqb_eq in E1, E2. lia.
        -- destruct (fst x =? t); congruence.
    + specialize (Hp n p). unfold proj in Hp. rewrite Hp. { apply Permutation_refl. }
      rewrite nth_error_app2 by lia. unfold n. rewrite Nat.sub_diag. reflexivity.
Qed.
End proof.
