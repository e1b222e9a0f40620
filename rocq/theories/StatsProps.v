(** * Properties C15, C16: running statistics *)

From Coq Require Import Reals ZArith List Permutation Lra Lia.
From Verif Require Import StatsModel.
Import ListNotations.
Local Open Scope R_scope.

(** ** Specification: the textbook statistics of a list of samples *)
Fixpoint sum (l : list R) : R := match l with [] => 0 | x :: l' => x + sum l' end.
Fixpoint prod (l : list R) : R := match l with [] => 1 | x :: l' => x * prod l' end.
Definition average (l : list R) : R := sum l / INR (length l).
Definition variance (l : list R) : R :=
  sum (map (fun x => (x - average l) ^ 2) l) / INR (length l).

(** ** Lemmas *)
Lemma sum_app : forall l1 l2, sum (l1 ++ l2) = sum l1 + sum l2.
Proof. induction l1; intros; simpl; [lra|]. rewrite IHl1. lra. Qed.

Lemma sum_sq_dev : forall l m, sum (map (fun x => (x - m) ^ 2) l) =
  sum (map (fun x => x ^ 2) l) - 2 * m * sum l + INR (length l) * m ^ 2.
Proof.
  induction l as [|x l IH]; intros m. { simpl. ring. }
  cbn [map sum length]. rewrite IH, S_INR. ring.
Qed.

Lemma INR_pos : forall {X} (l : list X), l <> [] -> 0 < INR (length l).
Proof. intros X l H. apply lt_0_INR. destruct l; [congruence|simpl; lia]. Qed.

(** n, mean and sum of squares, for the logarithms *)
Lemma stats_inv : forall xs,
  let st := stats_of xs in let ys := map ln xs in
  st_n st = Z.of_nat (length xs) /\
  INR (length xs) * st_m st = sum ys /\
  st_s st = sum (map (fun y => y ^ 2) ys) - INR (length xs) * st_m st ^ 2.
Proof.
  intros xs. unfold stats_of. induction xs as [|x xs IH] using rev_ind.
  - simpl. repeat split; ring.
  - rewrite fold_left_app. cbn [fold_left]. set (st := fold_left stats_add xs stats_new) in *.
    destruct IH as (H1 & H2 & H3). cbn zeta.
    rewrite app_length, !map_app, !sum_app. simpl length. cbn [map sum].
    replace (length xs + 1)%nat with (S (length xs)) by lia. rewrite S_INR.
    set (n := INR (length xs)) in *. set (y := ln x) in *.
    assert (En : IZR (Z.of_nat (length xs) + 1) = n + 1).
    { rewrite plus_IZR, <- INR_IZR_INZ. reflexivity. }
    assert (Hn : 0 <= n) by apply pos_INR.
    unfold stats_add. fold y. cbn [st_n st_m st_s]. rewrite H1, En. split.
    + rewrite Nat2Z.inj_succ. lia.
    + split.
      * replace ((n + 1) * (st_m st + (y - st_m st) / (n + 1))) with (n * st_m st + y) by (field; lra).
        rewrite H2. ring.
      * rewrite H3. field. lra.
Qed.

Lemma exp_sum_ln : forall xs, Forall (fun x => 0 < x) xs -> exp (sum (map ln xs)) = prod xs.
Proof.
  induction 1 as [|x xs Hx H IH]; simpl. { apply exp_0. }
  rewrite exp_plus, exp_ln, IH; auto.
Qed.

Lemma exp_mul_INR : forall n a, exp a ^ n = exp (INR n * a).
Proof.
  induction n as [|n IH]; intros a. { simpl. rewrite Rmult_0_l, exp_0. reflexivity. }
  rewrite S_INR. simpl. rewrite IH, <- exp_plus. f_equal. ring.
Qed.

(** ** C15 *)
(** The n-th power of the reported mean is the product of the samples (geometric mean); the mean is
    also the exponential of the average logarithm; stddev is the standard deviation of the
    logarithms. *)
Theorem C15_statistics : forall xs, xs <> [] -> Forall (fun x => 0 < x) xs ->
  let st := stats_of xs in
  stats_count st = Z.of_nat (length xs) /\
  0 < stats_mean st /\ stats_mean st ^ length xs = prod xs /\
  stats_mean st = exp (average (map ln xs)) /\
  stats_stddev st = sqrt (variance (map ln xs)).
Proof.
  intros xs Hne Hpos st. destruct (stats_inv xs) as (H1 & H2 & H3). fold st in H1, H2, H3.
  pose proof (INR_pos xs Hne) as Hn.
  assert (Hm : st_m st = average (map ln xs)).
  { unfold average. rewrite map_length, <- H2. field. lra. }
  unfold stats_count, stats_mean, stats_stddev.
  split; auto. split. { apply exp_pos. } split; [|split].
  - rewrite exp_mul_INR, H2. apply exp_sum_ln. exact Hpos.
  - rewrite Hm. reflexivity.
  - f_equal. unfold variance. rewrite map_length, H1, <- INR_IZR_INZ. f_equal.
    rewrite sum_sq_dev, <- Hm, map_length, <- H2, H3. ring.
Qed.

Example C15_nonvacuous : [1; 2; 4] <> [] /\ Forall (fun x => 0 < x) [1; 2; 4].
Proof. split. { discriminate. } repeat constructor; lra. Qed.

(** ** C16 *)
Lemma sum_perm : forall l l', Permutation l l' -> sum l = sum l'.
Proof. induction 1; simpl; lra. Qed.

Lemma sum_sq_nonneg : forall l m, 0 <= sum (map (fun y => (y - m) ^ 2) l).
Proof.
  induction l as [|y l IH]; intros m; cbn [map sum]; [lra|].
  pose proof (pow2_ge_0 (y - m)). specialize (IH m). lra.
Qed.

Theorem C16_order_irrelevant : forall xs ys, Permutation xs ys ->
  stats_count (stats_of xs) = stats_count (stats_of ys) /\
  stats_mean (stats_of xs) = stats_mean (stats_of ys) /\
  stats_stddev (stats_of xs) = stats_stddev (stats_of ys) /\
  0 <= st_s (stats_of xs) / IZR (st_n (stats_of xs)).
Proof.
  intros xs ys P.
  destruct (stats_inv xs) as (H1 & H2 & H3). destruct (stats_inv ys) as (K1 & K2 & K3).
  pose proof (Permutation_length P) as Hl.
  pose proof (sum_perm _ _ (Permutation_map ln P)) as Hs.
  pose proof (sum_perm _ _ (Permutation_map (fun y => y ^ 2) (Permutation_map ln P))) as Hq.
  destruct xs as [|x xs].
  - apply Permutation_nil in P. subst ys. repeat split. simpl. unfold Rdiv. rewrite Rmult_0_l. lra.
  - pose proof (INR_pos (x :: xs) ltac:(discriminate)) as Hn.
    assert (Em : st_m (stats_of (x :: xs)) = st_m (stats_of ys)).
    { apply Rmult_eq_reg_l with (INR (length (x :: xs))); [|lra].
      rewrite H2, Hs, <- K2, Hl. reflexivity. }
    assert (Es : st_s (stats_of (x :: xs)) = st_s (stats_of ys)).
    { rewrite H3, K3, Hq, Hl, Em. reflexivity. }
    assert (En : st_n (stats_of (x :: xs)) = st_n (stats_of ys)) by congruence.
    unfold stats_count, stats_mean, stats_stddev. rewrite Em, Es, En. repeat split.
    rewrite <- Es, <- En, H1, <- INR_IZR_INZ.
    assert (E : st_s (stats_of (x :: xs)) =
      sum (map (fun y => (y - st_m (stats_of (x :: xs))) ^ 2) (map ln (x :: xs)))).
    { rewrite sum_sq_dev, map_length, H3, <- H2. ring. }
    rewrite E. apply Rmult_le_pos.
    + apply sum_sq_nonneg.
    + left. apply Rinv_0_lt_compat. exact Hn.
Qed.

Example C16_nonvacuous : Permutation [1; 2; 4] [4; 1; 2].
Proof. apply Permutation_sym. apply (Permutation_cons_app [1; 2] []). simpl. apply Permutation_refl. Qed.

Print Assumptions C15_statistics.
Print Assumptions C16_order_irrelevant.
