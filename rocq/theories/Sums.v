(** * Finite sums of reals (specification vocabulary) *)
From Coq Require Import Reals List Arith Lia Lra Permutation.
Import ListNotations.
Local Open Scope R_scope.

(** sum of a list *)
Fixpoint lsum (l : list R) : R := match l with [] => 0 | x :: l' => x + lsum l' end.

(** f 0 + f 1 + ... + f (n-1) *)
Fixpoint sumn (n : nat) (f : nat -> R) : R := match n with O => 0 | S k => sumn k f + f k end.

Lemma lsum_app : forall l l', lsum (l ++ l') = lsum l + lsum l'.
Proof. induction l; intros l'; simpl; [lra|]. rewrite IHl. lra. Qed.

Lemma lsum_perm : forall l l', Permutation l l' -> lsum l = lsum l'.
Proof. induction 1; simpl; lra. Qed.

Lemma lsum_map_plus : forall {X} (f g : X -> R) l, lsum (map (fun x => f x + g x) l) = lsum (map f l) + lsum (map g l).
Proof. induction l; simpl; [lra|]. rewrite IHl. lra. Qed.

Lemma lsum_map_scale : forall {X} k (f : X -> R) l, lsum (map (fun x => k * f x) l) = k * lsum (map f l).
Proof. induction l; simpl; [lra|]. rewrite IHl. lra. Qed.

Lemma lsum_map_ext : forall {X} (f g : X -> R) l, (forall x, In x l -> f x = g x) -> lsum (map f l) = lsum (map g l).
Proof. intros X f g l H. f_equal. apply map_ext_in. exact H. Qed.

Lemma lsum_zero : forall {X} (f : X -> R) l, (forall x, In x l -> f x = 0) -> lsum (map f l) = 0.
Proof.
  induction l as [|x l IH]; intros H; simpl; [lra|]. rewrite H by (simpl; auto).
  rewrite IH by (intros; apply H; simpl; auto). lra.
Qed.

Lemma lsum_nonneg : forall {X} (f : X -> R) l, (forall x, In x l -> 0 <= f x) -> 0 <= lsum (map f l).
Proof.
  induction l as [|x l IH]; intros H; simpl; [lra|]. pose proof (H x (or_introl eq_refl)).
  assert (0 <= lsum (map f l)) by (apply IH; intros; apply H; simpl; auto). lra.
Qed.

Lemma sumn_ext : forall n f g, (forall i, (i < n)%nat -> f i = g i) -> sumn n f = sumn n g.
Proof. induction n; intros f g H; simpl; auto. rewrite (IHn f g), (H n); auto. Qed.

Lemma sumn_plus : forall n f g, sumn n (fun i => f i + g i) = sumn n f + sumn n g.
Proof. induction n; intros f g; simpl; [lra|]. rewrite IHn. lra. Qed.

Lemma sumn_minus : forall n f g, sumn n (fun i => f i - g i) = sumn n f - sumn n g.
Proof. induction n; intros f g; simpl; [lra|]. rewrite IHn. lra. Qed.

Lemma sumn_scale : forall n k f, sumn n (fun i => k * f i) = k * sumn n f.
Proof. induction n; intros k f; simpl; [lra|]. rewrite IHn. lra. Qed.

Lemma sumn_zero : forall n f, (forall i, (i < n)%nat -> f i = 0) -> sumn n f = 0.
Proof. induction n; intros f H; simpl; auto. rewrite IHn, H; auto. lra. Qed.

Lemma sumn_nonneg : forall n f, (forall i, (i < n)%nat -> 0 <= f i) -> 0 <= sumn n f.
Proof. induction n; intros f H; simpl; [lra|]. pose proof (H n). pose proof (IHn f). assert (0 <= sumn n f) by auto. assert (0 <= f n) by auto. lra. Qed.

Lemma sumn_delta : forall n k f, (k < n)%nat -> sumn n (fun i => if Nat.eqb i k then f i else 0) = f k.
Proof.
  induction n; intros k f H; [lia|]. simpl. destruct (Nat.eqb n k) eqn:E.
  - apply Nat.eqb_eq in E. subst. rewrite sumn_zero. { lra. }
    intros i Hi. destruct (Nat.eqb i k) eqn:E; auto. apply Nat.eqb_eq in E. lia.
  - apply Nat.eqb_neq in E. rewrite IHn by lia. lra.
Qed.

Lemma sumn_exchange : forall n m f, sumn n (fun i => sumn m (fun j => f i j)) = sumn m (fun j => sumn n (fun i => f i j)).
Proof.
  induction n; intros m f; simpl.
  - rewrite sumn_zero; auto.
  - rewrite IHn, <- sumn_plus. reflexivity.
Qed.

Lemma lsum_sumn : forall {X} (f : X -> R) (l : list X) d, lsum (map f l) = sumn (length l) (fun i => f (nth i l d)).
Proof.
  intros X f l d. induction l as [|x l IH] using rev_ind; simpl; auto.
  rewrite map_app, lsum_app, app_length, Nat.add_1_r. simpl.
  rewrite IH. f_equal.
  - apply sumn_ext. intros i Hi. rewrite app_nth1; auto.
  - rewrite app_nth2 by lia. rewrite Nat.sub_diag. simpl. lra.
Qed.

Lemma sumn_lsum : forall n f, sumn n f = lsum (map f (seq 0 n)).
Proof.
  induction n; intros f; simpl; auto. rewrite IHn.
  change (f 0%nat + lsum (map f (seq 1 n))) with (lsum (map f (seq 0 (S n)))).
  rewrite seq_S, map_app, lsum_app. simpl. lra.
Qed.

(** a sum whose terms vanish outside a duplicate-free list of indices *)
Lemma sumn_support : forall n l f, NoDup l -> (forall j, In j l -> (j < n)%nat) ->
  (forall j, (j < n)%nat -> ~ In j l -> f j = 0) -> sumn n f = lsum (map f l).
Proof.
  intros n l. revert n. induction l as [|x l IH]; intros n f Hd Hl Hz.
  - simpl. apply sumn_zero. intros i Hi. apply Hz; auto.
  - inversion Hd; subst. simpl.
    rewrite <- (sumn_delta n x f) by (apply Hl; simpl; auto).
    rewrite (sumn_ext n f (fun i => (if Nat.eqb i x then f i else 0) + (if Nat.eqb i x then 0 else f i))).
    2: { intros i Hi. destruct (Nat.eqb i x); lra. }
    rewrite sumn_plus. f_equal.
    rewrite (IH n (fun i => if Nat.eqb i x then 0 else f i)); auto.
    + apply lsum_map_ext. intros j Hj. destruct (Nat.eqb j x) eqn:E; auto. apply Nat.eqb_eq in E. congruence.
    + intros j Hj. apply Hl. simpl; auto.
    + intros j Hj Hn. destruct (Nat.eqb j x) eqn:E; auto. apply Hz; auto. simpl. apply Nat.eqb_neq in E. intuition.
Qed.

Lemma fold_left_lsum : forall {X} (f : X -> R) l a, fold_left (fun v x => v + f x) l a = a + lsum (map f l).
Proof. induction l; intros a0; simpl; [lra|]. rewrite IHl. lra. Qed.
