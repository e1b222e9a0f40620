(** * Properties C21-C24: the sparse matrix *)
From Coq Require Import Reals List Arith Bool Lia Lra Permutation Sorted.
From Verif Require Import Arith ArithLaws Sums SparseModel SparseProof ConcModel ConcProof.
Import ListNotations.

(** ** C21 *)
(** The mathematical map: value of position (i, j) after a sequence of calls. *)
Definition map_value {A : arith} (ops : list (mop A)) (i j : nat) : num A :=
  fold_left (fun v o =>
    match o with
    | MClear => n0
    | MSet i' j' w => if (i' =? i) && (j' =? j) then w else v
    | MAdd i' j' w => if (i' =? i) && (j' =? j) then nadd v w else v
    end) ops n0.

Definition position {A : arith} (o : mop A) : option (nat * nat) :=
  match o with MClear => None | MSet i j _ => Some (i, j) | MAdd i j _ => Some (i, j) end.

(** the calls are at positions of the shape, as the documentation requires *)
Definition ops_in {A : arith} (sh : shape) (ops : list (mop A)) : Prop :=
  forall o i j, In o ops -> position o = Some (i, j) -> in_shape sh i j.

Theorem C21_sparse_map : forall (A : arith) (sh : shape) (ops : list (mop A)),
  Forall sorted sh -> ops_in sh ops ->
  exists m, mrun (new_matrix sh) ops = Some m /\ shape_of m = sh /\
    (forall i j, i < length sh -> mget m i j = Some (map_value ops i j)) /\
    (forall i j, i < length sh -> ~ in_shape sh i j -> mget m i j = Some n0).
Proof.
  intros A sh ops Hs Hops.
  assert (H : exists m, mrun (new_matrix sh) ops = Some m /\ wf m /\ shape_of m = sh /\
    (forall i j, i < length sh -> mget m i j = Some (map_value ops i j))).
  { induction ops as [|o ops IH] using rev_ind.
    - exists (new_matrix sh). destruct (wf_new (A := A) sh Hs) as [H1 H2]. repeat split; auto.
      intros i j Hi. apply mget_new. exact Hi.
    - destruct IH as (m & E & Hw & Hsh & Hv). { intros o' i j H. apply Hops. apply in_or_app. auto. }
      rewrite mrun_app, E. cbn [mrun].
      assert (Ho : forall i j, position o = Some (i, j) -> in_shape (shape_of m) i j).
      { intros i j H. rewrite Hsh. apply (Hops o); auto. apply in_or_app. simpl. auto. }
      assert (Hm : forall i j, map_value (ops ++ [o]) i j =
        match o with
        | MClear => n0
        | MSet i' j' w => if (i' =? i) && (j' =? j) then w else map_value ops i j
        | MAdd i' j' w => if (i' =? i) && (j' =? j) then nadd (map_value ops i j) w else map_value ops i j
        end).
      { intros i j. unfold map_value. rewrite fold_left_app. reflexivity. }
      assert (Hup : forall i0 j0 f, in_shape (shape_of m) i0 j0 ->
        exists m', update m i0 j0 f = Some m' /\ wf m' /\ shape_of m' = sh /\
          forall i j, i < length sh -> mget m' i j =
            Some (if (i0 =? i) && (j0 =? j) then f (map_value ops i j) else map_value ops i j)).
      { intros i0 j0 f H0. destruct (update_ok m i0 j0 f Hw H0) as (m' & v & U1 & U2 & U3 & U4 & U5 & U6).
        exists m'. repeat split; auto. { congruence. }
        intros i j Hi. destruct ((i0 =? i) && (j0 =? j)) eqn:Eb.
        - apply andb_prop in Eb. destruct Eb as [E1 E2]. apply Nat.eqb_eq in E1, E2. subst i0 j0.
          rewrite U5. rewrite (Hv i j Hi) in U4. inversion U4; subst. reflexivity.
        - rewrite U6; auto. intros Heq. inversion Heq; subst. rewrite !Nat.eqb_refl in Eb. discriminate. }
      destruct o as [|i0 j0 w|i0 j0 w].
      + exists (clear m). destruct (wf_clear m Hw) as [H1 H2]. simpl. repeat split; auto. { congruence. }
        intros i j Hi. rewrite mget_clear; auto. { rewrite Hm. reflexivity. }
        rewrite <- shape_length, Hsh. exact Hi.
      + destruct (Hup i0 j0 (fun _ => w) (Ho _ _ eq_refl)) as (m' & U1 & U2 & U3 & U4).
        exists m'. simpl. unfold mset. rewrite U1. repeat split; auto.
        intros i j Hi. rewrite U4, Hm by exact Hi. destruct ((i0 =? i) && (j0 =? j)); reflexivity.
      + destruct (Hup i0 j0 (fun v => nadd v w) (Ho _ _ eq_refl)) as (m' & U1 & U2 & U3 & U4).
        exists m'. simpl. unfold madd. rewrite U1. repeat split; auto.
        intros i j Hi. rewrite U4, Hm by exact Hi. destruct ((i0 =? i) && (j0 =? j)); reflexivity. }
  destruct H as (m & E & Hw & Hsh & Hv). exists m. repeat split; auto.
  intros i j Hi Hn. apply mget_out. { rewrite <- shape_length, Hsh. exact Hi. } rewrite Hsh. exact Hn.
Qed.

Definition ex_shape : shape := [[0; 2]; [1]; [0; 1; 2]].
Definition ex_ops : list (mop XA) :=
  [MAdd (A := XA) 2 1 (Fin 3); MSet (A := XA) 0 2 (Fin 5); MClear; MAdd (A := XA) 2 1 (Fin 1);
   MAdd (A := XA) 2 1 (Fin 4)].

Example C21_nonvacuous : Forall sorted ex_shape /\ ops_in ex_shape ex_ops.
Proof.
  split.
  - repeat constructor.
  - intros o i j H E. assert (H2 : in_shape ex_shape 2 1) by (exists [0; 1; 2]; simpl; auto).
    assert (H0 : in_shape ex_shape 0 2) by (exists [0; 2]; simpl; auto).
    simpl in H. destruct H as [<-|[<-|[<-|[<-|[<-|[]]]]]]; simpl in E; inversion E; subst; auto.
Qed.

(** The documentation's condition is needed: with assertions compiled out, a call of [set] at a
    position outside the shape overwrites another coefficient. *)
Theorem C21_outside_shape_refuted : exists (sh : shape) (i j : nat) m, Forall sorted sh /\
  ~ in_shape sh i j /\ mset (A := XA) (new_matrix sh) i j (Fin 1) = Some m /\ mget m i (S j) = Some (Fin 1).
Proof.
  exists [[0; 2]], 0, 1. eexists. split; [|split; [|split]].
  - repeat constructor.
  - intros (row & E & H). simpl in E. inversion E; subst. simpl in H. lia.
  - reflexivity.
  - reflexivity.
Qed.

(** ** C22 *)
(** For every number of threads, every sequence of calls of [add] in each of them and every
    schedule: when all threads are done the matrix is the one obtained by a single thread making
    the same calls in some order that respects the order of each thread (any arithmetic). *)
Theorem C22_concurrent_add_serializable : forall (A : arith) (m : matrix A) (progs : list (list (call A))) sched,
  wf m -> (forall p i j v, In p progs -> In (i, j, v) p -> in_shape (shape_of m) i j) ->
  let g := crun (start m progs) sched in
  all_done g ->
  exists log : list (nat * call A),
    mrun m (map (fun x => op_of (snd x)) log) = Some (g_mat g) /\
    Permutation (map snd log) (concat progs) /\
    (forall t p, nth_error progs t = Some p -> map snd (filter (fun x => fst x =? t) log) = p).
Proof.
  intros A m progs sched Hw Hin g Hd.
  destruct (inv_run m progs sched (start m progs) [] (inv_start m progs Hw Hin)) as [log I]. fold g in I.
  assert (Hp : forall t p, nth_error progs t = Some p -> proj t log = p).
  { intros t p E. assert (Hl : t < length (g_threads g)).
    { rewrite (inv_len _ _ _ _ I). apply nth_error_Some. rewrite E. discriminate. }
    destruct (nth_error (g_threads g) t) as [th|] eqn:Et. 2: { apply nth_error_None in Et. lia. }
    rewrite (inv_prog _ _ _ _ I _ _ _ Et E). unfold all_done in Hd. rewrite Forall_forall in Hd.
    specialize (Hd th (nth_error_In _ _ Et)). unfold rest_of. rewrite Hd. destruct (ph th); simpl; rewrite app_nil_r; reflexivity. }
  exists log. split; [|split].
  - apply I.
  - apply proj_perm; auto. apply I.
  - exact Hp.
Qed.

(** sum of the values added at (i, j) by a list of calls *)
Definition added (i j : nat) (cs : list (nat * nat * R)) : R :=
  lsum (map (fun c => let '(i', j', v) := c in if (i' =? i) && (j' =? j) then v else 0%R) cs).

Definition fcall (c : nat * nat * R) : call XA := let '(i, j, v) := c in (i, j, Fin v).

Lemma mrun_adds : forall (cs : list (nat * nat * R)) (m m' : matrix XA) i j a, wf m ->
  (forall i' j' v, In (i', j', v) cs -> in_shape (shape_of m) i' j') ->
  mget m i j = Some (Fin a) ->
  mrun m (map (fun c => op_of (fcall c)) cs) = Some m' ->
  mget m' i j = Some (Fin (a + added i j cs)).
Proof.
  unfold added. induction cs as [|[[i' j'] v] cs IH]; intros m m' i j a Hw Hin Hg Hr.
  - simpl in *. inversion Hr; subst. rewrite Rplus_0_r. exact Hg.
  - cbn [map fcall op_of mrun mstep] in Hr.
    destruct (update_ok m i' j' (fun w => nadd (a := XA) w (Fin v)) Hw) as (m1 & w & U1 & U2 & U3 & U4 & U5 & U6).
    { eapply Hin. left. reflexivity. }
    unfold madd in Hr. rewrite U1 in Hr. cbn [map lsum].
    destruct ((i' =? i) && (j' =? j)) eqn:Eb.
    + apply andb_prop in Eb. destruct Eb as [E1 E2]. apply Nat.eqb_eq in E1, E2. subst i' j'.
      rewrite Hg in U4. inversion U4; subst w. cbn in U5.
      rewrite <- Rplus_assoc. eapply IH; eauto. rewrite U3. intros. eapply Hin. right. eauto.
    + rewrite Rplus_0_l. eapply IH; eauto. { rewrite U3. intros. eapply Hin. right. eauto. }
      rewrite U6; auto. intros E. inversion E; subst. rewrite !Nat.eqb_refl in Eb. discriminate.
Qed.

(** Exact arithmetic: every coefficient is its initial value plus the sum of all values added to it
    by all threads. *)
Theorem C22_no_lost_update : forall (m : matrix XA) (progs : list (list (nat * nat * R))) sched i j a,
  wf m -> (forall p i j v, In p progs -> In (i, j, v) p -> in_shape (shape_of m) i j) ->
  mget m i j = Some (Fin a) ->
  let g := crun (start m (map (map fcall) progs)) sched in
  all_done g ->
  mget (g_mat g) i j = Some (Fin (a + added i j (concat progs))).
Proof.
  intros m progs sched i j a Hw Hin Hg g Hd.
  destruct (C22_concurrent_add_serializable XA m (map (map fcall) progs) sched Hw) as (log & H1 & H2 & _); auto.
  { intros p i' j' v Hp Hv. apply in_map_iff in Hp. destruct Hp as (p' & <- & Hp').
    apply in_map_iff in Hv. destruct Hv as ([[i0 j0] v0] & E & Hv). simpl in E. inversion E; subst. eauto. }
  fold g in H1. rewrite concat_map in H2 || rewrite <- concat_map in H2.
  apply Permutation_map_inv in H2. destruct H2 as (cs & E & P).
  assert (El : map (fun x => op_of (snd x)) log = map (fun c => op_of (fcall c)) cs).
  { transitivity (map op_of (map snd log)). { rewrite map_map. reflexivity. } rewrite E, map_map. reflexivity. }
  rewrite El in H1.
  assert (Ea : added i j (concat progs) = added i j cs).
  { unfold added. apply lsum_perm. apply Permutation_map. exact P. }
  rewrite Ea. eapply mrun_adds; eauto.
  intros i' j' v Hv. apply (Permutation_in _ (Permutation_sym P)) in Hv. apply in_concat in Hv.
  destruct Hv as (p & Hp & Hv). eauto.
Qed.

(** No deadlock, and no endless run: some thread can act until all are done, and every action
    consumes one of the 4 actions of each call. *)
Theorem C22_progress : forall (A : arith) (m : matrix A) (progs : list (list (call A))) sched,
  wf m -> (forall p i j v, In p progs -> In (i, j, v) p -> in_shape (shape_of m) i j) ->
  let g := crun (start m progs) sched in
  (~ all_done g -> exists t g', cstep g t = Some g') /\
  (forall t g', cstep g t = Some g' -> total_load g' < total_load g) /\
  total_load (start m progs) = 4 * length (concat progs).
Proof.
  intros A m progs sched Hw Hin g.
  destruct (inv_run m progs sched (start m progs) [] (inv_start m progs Hw Hin)) as [log I]. fold g in I.
  split; [|split].
  - intros Hn. destruct (inv_progress _ _ _ _ I Hn) as (t & H). destruct (cstep g t) as [g'|] eqn:E; [|congruence]. eauto.
  - intros t g' E. rewrite (step_load _ _ _ E). lia.
  - unfold start, total_load. cbn [g_threads]. clear. induction progs as [|p progs IH]; simpl map; simpl fold_right; auto.
    rewrite IH. simpl concat. rewrite app_length. unfold load. simpl. lia.
Qed.

(** Mutual exclusion: two threads are never both inside [add] on the same row. *)
Theorem C22_mutual_exclusion : forall (A : arith) (m : matrix A) (progs : list (list (call A))) sched t t' th th' i,
  wf m -> (forall p i j v, In p progs -> In (i, j, v) p -> in_shape (shape_of m) i j) ->
  let g := crun (start m progs) sched in
  nth_error (g_threads g) t = Some th -> nth_error (g_threads g) t' = Some th' ->
  ph th <> Idle -> ph th' <> Idle -> row_of th = Some i -> row_of th' = Some i -> t = t'.
Proof.
  intros A m progs sched t t' th th' i Hw Hin g E E' H H' R R'.
  destruct (inv_run m progs sched (start m progs) [] (inv_start m progs Hw Hin)) as [log I]. fold g in I.
  destruct (inv_busy _ _ _ _ I _ _ E H) as (a & A1 & A2). destruct (inv_busy _ _ _ _ I _ _ E' H') as (b & B1 & B2).
  congruence.
Qed.

Definition ex_progs : list (list (nat * nat * R)) := [[(0, 0, 1%R); (0, 0, 2%R)]; [(0, 0, 3%R)]].
Definition ex_sched : list nat := [0; 1; 0; 1; 0; 0; 1; 0; 1; 1; 1; 0; 0; 0; 0].
Example C22_nonvacuous :
  wf (new_matrix (A := XA) [[0; 2]]) /\
  (forall p i j v, In p ex_progs -> In (i, j, v) p -> in_shape (shape_of (new_matrix (A := XA) [[0; 2]])) i j) /\
  all_done (crun (start (new_matrix (A := XA) [[0; 2]]) (map (map fcall) ex_progs)) ex_sched).
Proof.
  split; [|split].
  - apply wf_new. repeat constructor.
  - intros p i j v Hp Hv. simpl in Hp. destruct Hp as [<-|[<-|[]]]; simpl in Hv;
      repeat (destruct Hv as [Hv|Hv]; [inversion Hv; subst; exists [0; 2]; simpl; auto|]); contradiction.
  - repeat constructor.
Qed.

(** ** C23 *)
Local Open Scope R_scope.

Lemma row_dot_fin : forall (l : list nat) (a : nat -> R) (xs : list R),
  row_dot (A := XA) (mkRow l (map (fun j => Fin (a j) : num XA) l)) (map (fun x => Fin x : num XA) xs) =
  Fin (lsum (map (fun j => a j * nth j xs 0) l)).
Proof.
  intros l a xs. unfold row_dot. cbn [indices values].
  assert (H : forall l acc, fold_left (fun val (kv : nat * num XA) => nadd val (nmul (snd kv) (nth (fst kv) (map (fun x => Fin x : num XA) xs) n0)))
     (combine l (map (fun j => Fin (a j) : num XA) l)) (Fin acc : num XA) = (Fin (acc + lsum (map (fun j => a j * nth j xs 0) l)) : num XA)).
  { clear l. induction l as [|j l IH]; intros acc; cbn [map combine fold_left lsum]. { rewrite Rplus_0_r. reflexivity. }
    cbn [fst snd].
    assert (En : nth j (map (fun x => Fin x : num XA) xs) n0 = Fin (nth j xs 0)).
    { replace (@n0 XA) with (Fin 0 : num XA).
      - apply (map_nth (fun x => Fin x : num XA)).
      - unfold n0. cbn. f_equal. lra. }
    rewrite En. change (nadd (a := XA) (Fin acc) (nmul (a := XA) (Fin (a j)) (Fin (nth j xs 0)))) with (Fin (acc + a j * nth j xs 0) : num XA).
    rewrite IH. f_equal. lra. }
  assert (Hz : @n0 XA = (Fin 0 : num XA)) by (unfold n0; cbn; f_equal; lra).
  pattern (@n0 XA) at 2. rewrite Hz. rewrite H. f_equal. lra.
Qed.

Lemma row_values_map : forall (r : srow XA) (a : nat -> R), sorted (indices r) -> length (values r) = length (indices r) ->
  (forall k j, nth_error (indices r) k = Some j -> nth_error (values r) k = Some (Fin (a j) : num XA)) ->
  r = mkRow (indices r) (map (fun j => Fin (a j) : num XA) (indices r)).
Proof.
  intros [ix vs] a Hs Hl H. cbn [indices values] in *. f_equal.
  apply list_eq_nth_error. intros k. rewrite nth_error_map.
  destruct (nth_error ix k) as [j|] eqn:E.
  - rewrite (H k j E). reflexivity.
  - apply nth_error_None in E. simpl. apply nth_error_None.
    exact (eq_ind_r (fun n => (n <= k)%nat) E Hl).
Qed.

Lemma sorted_NoDup : forall l, sorted l -> NoDup l.
Proof.
  induction 1 as [|x l Hs IH Hf]; constructor; auto. intros Hi. rewrite Forall_forall in Hf. specialize (Hf x Hi). lia.
Qed.

(** mult, whatever the previous contents of Y and the order in which the rows are processed *)
Theorem C23_mult : forall (m : matrix XA) (a : nat -> nat -> R) (xs : list R) (Y : list (num XA)) order i,
  wf m -> (forall i j, in_shape (shape_of m) i j -> (j < length m)%nat) ->
  (forall i j, (i < length m)%nat -> mget m i j = Some (Fin (a i j))) ->
  length xs = length m -> length Y = length m -> Permutation order (seq 0 (length m)) ->
  (i < length m)%nat ->
  nth_error (mult_in_order order m (map (fun x => Fin x : num XA) xs) Y) i =
  Some (Fin (sumn (length m) (fun j => a i j * nth j xs 0))).
Proof.
  intros m a xs Y order i Hw Hc Ha Hx HY Hp Hi.
  rewrite mult_any_order; auto.
  2: { intros k Hk. apply (Permutation_in _ (Permutation_sym Hp)). apply in_seq. lia. }
  unfold mmult. rewrite nth_error_map. destruct (nth_error m i) as [r|] eqn:Er.
  2: { apply nth_error_None in Er. lia. }
  destruct (wf_row _ _ _ Hw Er) as [Hso Hl].
  assert (Hg : forall k j, nth_error (indices r) k = Some j -> nth_error (values r) k = Some (Fin (a i j) : num XA)).
  { intros k j Ek. assert (Hj : In j (indices r)) by (eapply nth_error_In; eauto).
    pose proof (lower_bound_in _ _ Hso Hj) as Eb. pose proof (sorted_inj _ _ _ _ Hso Ek Eb) as ->.
    specialize (Ha i j Hi). unfold mget in Ha. rewrite Er, Eb, Nat.eqb_refl in Ha. exact Ha. }
  rewrite (row_values_map r (a i) Hso Hl Hg). cbn [option_map]. rewrite row_dot_fin. f_equal. f_equal.
  symmetry. apply (sumn_support (length m) (indices r) (fun j => a i j * nth j xs 0)).
  - apply sorted_NoDup. exact Hso.
  - intros j Hj. apply (Hc i). exists (indices r). rewrite shape_row, Er. auto.
  - intros j Hj Hn. assert (E0 : mget m i j = Some n0).
    { apply mget_out; auto. intros (row & E1 & E2). rewrite shape_row, Er in E1. simpl in E1. inversion E1; subst. auto. }
    rewrite (Ha i j Hi) in E0. inversion E0 as [E1]. rewrite E1. lra.
Qed.

Definition ex_m : matrix XA := [mkRow (A := XA) [0; 1]%nat [Fin 2; Fin 3]; mkRow (A := XA) [1]%nat [Fin 4]].
Definition ex_a (i j : nat) : R :=
  match i, j with 0%nat, 0%nat => 2 | 0%nat, 1%nat => 3 | 1%nat, 1%nat => 4 | _, _ => 0 end.
Example C23_nonvacuous : wf ex_m /\ (forall i j, in_shape (shape_of ex_m) i j -> (j < length ex_m)%nat) /\
  (forall i j, (i < length ex_m)%nat -> mget ex_m i j = Some (Fin (ex_a i j))) /\
  length [5; 6] = length ex_m /\ length [NaN; NaN] = length ex_m /\ Permutation [1; 0]%nat (seq 0 (length ex_m)).
Proof.
  split; [|split; [|split; [|split; [|split]]]]; auto.
  - repeat constructor.
  - intros i j (row & E & H). simpl. destruct i as [|[|i]]; simpl in E.
    + inversion E; subst. simpl in H. lia.
    + inversion E; subst. simpl in H. lia.
    + destruct i; discriminate.
  - assert (Hz : (@n0 XA) = Fin 0) by (unfold n0; cbn; f_equal; lra).
    intros i j Hi. simpl in Hi. destruct i as [|[|i]]; [| |lia].
    + destruct j as [|[|j]]; try reflexivity. cbn. do 2 f_equal. lra.
    + destruct j as [|[|j]]; try reflexivity; cbn; do 2 f_equal; lra.
  - simpl. apply perm_swap.
Qed.

(** ** C24 *)
(** any arithmetic, then exact arithmetic *)
Theorem C24_diag_precond : forall (A : arith) (m : matrix A) i c, (i < length m)%nat ->
  mget m i i = Some c ->
  length (diag_precond m) = length m /\ nth_error (diag_precond m) i = Some (ndiv n1 c).
Proof.
  intros A m i c Hi E. unfold diag_precond. split. { rewrite map_length, seq_length. reflexivity. }
  rewrite nth_error_map, (nth_error_nth_d _ _ 0%nat) by (rewrite seq_length; exact Hi).
  rewrite seq_nth by exact Hi. simpl. rewrite E. reflexivity.
Qed.

Theorem C24_diag_precond_exact : forall (m : matrix XA) i (a : R), (i < length m)%nat ->
  mget m i i = Some (Fin a) -> a <> 0 -> nth_error (diag_precond m) i = Some (Fin (/ a)).
Proof.
  intros m i a Hi E Ha. destruct (C24_diag_precond XA m i (Fin a) Hi E) as [_ ->].
  unfold n1. cbn. rewrite Flocq.Core.Raux.Req_bool_false by exact Ha. do 2 f_equal. field. exact Ha.
Qed.

Example C24_nonvacuous : (1 < length ex_m)%nat /\ mget ex_m 1 1 = Some (Fin 4) /\ 4 <> 0.
Proof. repeat split; auto; lra. Qed.

Print Assumptions C21_sparse_map.
Print Assumptions C21_outside_shape_refuted.
Print Assumptions C22_concurrent_add_serializable.
Print Assumptions C22_no_lost_update.
Print Assumptions C22_progress.
Print Assumptions C22_mutual_exclusion.
Print Assumptions C23_mult.
Print Assumptions C24_diag_precond.
Print Assumptions C24_diag_precond_exact.
