(** * Lemmas on sparse matrices *)
From Coq Require Import List Arith Bool Lia Sorted.
From Verif Require Import Arith SparseModel.
Import ListNotations.

Lemma set_nth_length : forall {X} i (x : X) l, length (set_nth i x l) = length l.
Proof. induction i; destruct l; simpl; auto. Qed.

Lemma set_nth_same : forall {X} i (x : X) l, i < length l -> nth_error (set_nth i x l) i = Some x.
Proof. induction i; destruct l; simpl; intros H; try lia; auto. apply IHi. lia. Qed.

Lemma set_nth_other : forall {X} i j (x : X) l, i <> j -> nth_error (set_nth i x l) j = nth_error l j.
Proof. induction i; destruct l, j; simpl; intros H; try lia; auto. Qed.

Lemma nth_error_nth_d : forall {X} (l : list X) i d, i < length l -> nth_error l i = Some (nth i l d).
Proof. induction l; destruct i; simpl; intros; try lia; auto. apply IHl. lia. Qed.

Lemma set_nth_nth : forall {X} i j (x : X) l d, i < length l ->
  nth j (set_nth i x l) d = if i =? j then x else nth j l d.
Proof.
  induction i; destruct l, j; simpl; intros; try lia; auto. apply IHi. lia.
Qed.

Lemma list_eq_nth_error : forall {X} (l l' : list X), (forall i, nth_error l i = nth_error l' i) -> l = l'.
Proof.
  induction l as [|x l IH]; intros l' H; destruct l' as [|x' l'].
  - reflexivity.
  - specialize (H 0). discriminate.
  - specialize (H 0). discriminate.
  - pose proof (H 0) as H0. simpl in H0. inversion H0. subst. f_equal. apply IH. intros i. exact (H (S i)).
Qed.

(** ** shapes *)
Definition sorted (l : list nat) : Prop := StronglySorted lt l.

Definition in_shape (sh : shape) (i j : nat) : Prop := exists row, nth_error sh i = Some row /\ In j row.

Lemma lower_bound_in : forall l j, sorted l -> In j l -> nth_error l (lower_bound l j) = Some j.
Proof.
  induction l as [|x l IH]; intros j Hs Hi; simpl in *. { contradiction. }
  inversion Hs as [|? ? Hs' Hf]; subst.
  destruct (x <? j) eqn:E.
  - apply Nat.ltb_lt in E. simpl. apply IH; auto. destruct Hi as [->|Hi]; auto; lia.
  - apply Nat.ltb_ge in E. simpl. destruct Hi as [->|Hi]; auto.
    rewrite Forall_forall in Hf. specialize (Hf j Hi). lia.
Qed.

Lemma lower_bound_not : forall l j, ~ In j l ->
  match nth_error l (lower_bound l j) with Some j' => j' <> j | None => True end.
Proof.
  induction l as [|x l IH]; intros j Hi; simpl in *; auto.
  destruct (x <? j) eqn:E; simpl.
  - apply IH. tauto.
  - intros ->. tauto.
Qed.

Lemma sorted_inj : forall l k k' j, sorted l -> nth_error l k = Some j -> nth_error l k' = Some j -> k = k'.
Proof.
  induction l as [|x l IH]; intros k k' j Hs H H'. { destruct k; discriminate. }
  inversion Hs as [|? ? Hs' Hf]; subst. rewrite Forall_forall in Hf.
  destruct k, k'; simpl in *; auto.
  - inversion H; subst. apply nth_error_In in H'. specialize (Hf _ H'). lia.
  - inversion H'; subst. apply nth_error_In in H. specialize (Hf _ H). lia.
  - f_equal. eauto.
Qed.

Section proof.
Context {A : arith}.

(** the shape of a matrix *)
Definition shape_of (m : matrix A) : shape := map (@indices A) m.

Definition wf (m : matrix A) : Prop :=
  Forall (fun r => sorted (indices r) /\ length (values r) = length (indices r)) m.

Lemma wf_new : forall sh, Forall sorted sh -> wf (new_matrix sh) /\ shape_of (new_matrix sh) = sh.
Proof.
  intros sh H. unfold wf, shape_of, new_matrix. split.
  - rewrite Forall_map. eapply Forall_impl; [|exact H]. intros r Hr. simpl. rewrite repeat_length. auto.
  - rewrite map_map. simpl. apply map_id.
Qed.

Lemma wf_clear : forall m : matrix A, wf m -> wf (clear m) /\ shape_of (clear m) = shape_of m.
Proof.
  intros m H. unfold wf, shape_of, clear. split.
  - rewrite Forall_map. eapply Forall_impl; [|exact H]. intros r [Hr Hl]. simpl. rewrite map_length. auto.
  - rewrite map_map. reflexivity.
Qed.

Lemma wf_row : forall (m : matrix A) i r, wf m -> nth_error m i = Some r ->
  sorted (indices r) /\ length (values r) = length (indices r).
Proof. intros m i r H E. apply nth_error_In in E. unfold wf in H. rewrite Forall_forall in H. auto. Qed.

Lemma shape_row : forall (m : matrix A) i, nth_error (shape_of m) i = option_map (@indices A) (nth_error m i).
Proof. intros m i. unfold shape_of. apply nth_error_map. Qed.

Lemma in_shape_row : forall (m : matrix A) i j, in_shape (shape_of m) i j ->
  exists r, nth_error m i = Some r /\ In j (indices r).
Proof.
  intros m i j (row & E & Hj). rewrite shape_row in E. destruct (nth_error m i) as [r|]; [|discriminate].
  simpl in E. inversion E; subst. eauto.
Qed.

Lemma update_ok : forall (m : matrix A) i j f, wf m -> in_shape (shape_of m) i j ->
  exists m' v, update m i j f = Some m' /\ wf m' /\ shape_of m' = shape_of m /\
    mget m i j = Some v /\ mget m' i j = Some (f v) /\
    (forall i' j', (i', j') <> (i, j) -> mget m' i' j' = mget m i' j').
Proof.
  intros m i j f Hw Hs. destruct (in_shape_row _ _ _ Hs) as (r & Er & Hj).
  destruct (wf_row _ _ _ Hw Er) as [Hso Hl].
  pose proof (lower_bound_in _ _ Hso Hj) as Hk. set (k := lower_bound (indices r) j) in *.
  assert (Hkl : k < length (indices r)). { apply nth_error_Some. rewrite Hk. discriminate. }
  destruct (nth_error (values r) k) as [v|] eqn:Ev.
  2: { apply nth_error_None in Ev. lia. }
  exists (set_nth i (mkRow (indices r) (set_nth k (f v) (values r))) m), v.
  assert (Hi : i < length m). { apply nth_error_Some. rewrite Er. discriminate. }
  unfold update. rewrite Er. unfold update_row. fold k. rewrite Ev. split; [reflexivity|].
  split; [|split; [|split; [|split]]].
  - unfold wf. apply Forall_forall. intros r' H'. apply In_nth_error in H'. destruct H' as [i' E'].
    destruct (Nat.eq_dec i i') as [<-|Hn].
    + rewrite set_nth_same in E' by exact Hi. inversion E'; subst. simpl. rewrite set_nth_length. auto.
    + rewrite set_nth_other in E' by exact Hn. eapply wf_row; eauto.
  - apply list_eq_nth_error. intros i'. rewrite !shape_row. destruct (Nat.eq_dec i i') as [<-|Hn].
    + rewrite set_nth_same by exact Hi. rewrite Er. reflexivity.
    + rewrite set_nth_other by exact Hn. reflexivity.
  - unfold mget. rewrite Er. fold k. rewrite Hk, Nat.eqb_refl. exact Ev.
  - unfold mget. rewrite set_nth_same by exact Hi. cbn [indices values]. fold k. rewrite Hk, Nat.eqb_refl.
    apply set_nth_same. lia.
  - intros i' j' Hne. unfold mget. destruct (Nat.eq_dec i i') as [<-|Hn].
    + rewrite set_nth_same by exact Hi. rewrite Er. cbn [indices values].
      destruct (nth_error (indices r) (lower_bound (indices r) j')) as [j''|] eqn:E'; auto.
      destruct (j'' =? j') eqn:Ej; auto. apply Nat.eqb_eq in Ej. subst j''.
      rewrite set_nth_other; auto. intros Ek. rewrite <- Ek in E'.
      rewrite Hk in E'. inversion E'; subst. apply Hne. reflexivity.
    + rewrite set_nth_other by exact Hn. reflexivity.
Qed.

Lemma mget_clear : forall (m : matrix A) i j, wf m -> i < length m -> mget (clear m) i j = Some n0.
Proof.
  intros m i j Hw Hi. unfold mget, clear. rewrite nth_error_map.
  destruct (nth_error m i) as [r|] eqn:Er. 2: { apply nth_error_None in Er. lia. }
  simpl. destruct (wf_row _ _ _ Hw Er) as [_ Hl].
  destruct (nth_error (indices r) _) as [j'|] eqn:E; auto. destruct (j' =? j); auto.
  rewrite nth_error_map. destruct (nth_error (values r) _) eqn:Ev; auto.
  apply nth_error_None in Ev. assert (lower_bound (indices r) j < length (indices r)).
  { apply nth_error_Some. rewrite E. discriminate. } lia.
Qed.

Lemma mget_new : forall sh i j, i < length sh -> mget (A := A) (new_matrix sh) i j = Some n0.
Proof.
  intros sh i j Hi. unfold mget, new_matrix. rewrite nth_error_map.
  destruct (nth_error sh i) as [r|] eqn:Er. 2: { apply nth_error_None in Er. lia. }
  simpl. destruct (nth_error r _) as [j'|] eqn:E; auto. destruct (j' =? j); auto.
  assert (H : lower_bound r j < length r). { apply nth_error_Some. rewrite E. discriminate. }
  rewrite (nth_error_nth_d _ _ n0) by (rewrite repeat_length; exact H). f_equal.
  apply nth_repeat.
Qed.

Lemma mget_out : forall (m : matrix A) i j, i < length m -> ~ in_shape (shape_of m) i j ->
  mget m i j = Some n0.
Proof.
  intros m i j Hi Hn. unfold mget. destruct (nth_error m i) as [r|] eqn:Er.
  2: { apply nth_error_None in Er. lia. }
  assert (H : ~ In j (indices r)).
  { intros H. apply Hn. exists (indices r). rewrite shape_row, Er. auto. }
  pose proof (lower_bound_not _ _ H) as K.
  destruct (nth_error (indices r) _) as [j'|]; auto. apply Nat.eqb_neq in K. rewrite K. reflexivity.
Qed.

Lemma shape_length : forall m : matrix A, length (shape_of m) = length m.
Proof. intros m. unfold shape_of. apply map_length. Qed.

(** ** mult *)
Lemma mult_in_order_spec : forall (m : matrix A) X order Y, length Y = length m ->
  length (mult_in_order order m X Y) = length m /\
  forall i, nth_error (mult_in_order order m X Y) i =
    if in_dec Nat.eq_dec i order then
      match nth_error m i with Some r => Some (row_dot r X) | None => nth_error Y i end
    else nth_error Y i.
Proof.
  intros m X order. induction order as [|o order IH]; intros Y HY.
  - simpl. auto.
  - unfold mult_in_order. cbn [fold_left]. fold (mult_in_order order m X).
    destruct (nth_error m o) as [r|] eqn:Er.
    + destruct (IH (set_nth o (row_dot r X) Y)) as [H1 H2]. { rewrite set_nth_length. exact HY. }
      split. { exact H1. }
      intros i. unfold mult_in_order in H2. rewrite H2.
      assert (Ho : o < length Y). { rewrite HY. apply nth_error_Some. rewrite Er. discriminate. }
      destruct (Nat.eq_dec o i) as [<-|Hn].
      * rewrite Er. rewrite set_nth_same by exact Ho.
        destruct (in_dec Nat.eq_dec o order), (in_dec Nat.eq_dec o (o :: order)); auto; exfalso; simpl in *; tauto.
      * rewrite set_nth_other by exact Hn.
        destruct (in_dec Nat.eq_dec i order), (in_dec Nat.eq_dec i (o :: order)); auto; exfalso; simpl in *; tauto.
    + destruct (IH Y HY) as [H1 H2]. split. { exact H1. }
      intros i. unfold mult_in_order in H2. rewrite H2.
      destruct (in_dec Nat.eq_dec i order), (in_dec Nat.eq_dec i (o :: order)); auto.
      -- exfalso. simpl in *. tauto.
      -- destruct i0 as [->|K]; [|tauto]. rewrite Er. reflexivity.
Qed.

Lemma mult_any_order : forall (m : matrix A) X Y order, length Y = length m ->
  (forall i, i < length m -> In i order) ->
  mult_in_order order m X Y = mmult m X.
Proof.
  intros m X Y order HY Ho. destruct (mult_in_order_spec m X order Y HY) as [H1 H2].
  apply list_eq_nth_error. intros i. rewrite H2. unfold mmult. rewrite nth_error_map.
  destruct (nth_error m i) as [r|] eqn:Er; simpl.
  - destruct (in_dec Nat.eq_dec i order) as [|K]; auto. exfalso. apply K. apply Ho.
    apply nth_error_Some. rewrite Er. discriminate.
  - apply nth_error_None in Er. rewrite <- HY in Er. apply nth_error_None in Er. rewrite Er.
    destruct (in_dec Nat.eq_dec i order); reflexivity.
Qed.
End proof.
