(** * Linear algebra over R: Cauchy-Schwarz, and injective square systems are solvable *)
From Coq Require Import Reals Lra Lia Arith.
From Verif Require Import Sums.
Local Open Scope R_scope.

Lemma cauchy_schwarz : forall n f g,
  Rsqr (sumn n (fun i => f i * g i)) <= sumn n (fun i => Rsqr (f i)) * sumn n (fun i => Rsqr (g i)).
Proof.
  intros n f g.
  set (F := sumn n (fun i => Rsqr (f i))). set (G := sumn n (fun i => Rsqr (g i))). set (P := sumn n (fun i => f i * g i)).
  assert (HF : 0 <= F) by (apply sumn_nonneg; intros; apply Rle_0_sqr).
  assert (HG : 0 <= G) by (apply sumn_nonneg; intros; apply Rle_0_sqr).
  assert (H : forall s t, 0 <= s * s * F + 2 * s * t * P + t * t * G).
  { intros s t. unfold F, P, G. rewrite <- !sumn_scale, <- !sumn_plus. apply sumn_nonneg. intros i _.
    replace (_ + _ + _) with (Rsqr (s * f i + t * g i)) by (unfold Rsqr; ring). apply Rle_0_sqr. }
  unfold Rsqr. destruct (Req_dec F 0) as [E|E].
  - rewrite E. pose proof (H (- (P * (G + 1))) (P * P)) as K. rewrite E in K.
    destruct (Req_dec P 0) as [EP|EP]; [rewrite EP; lra|].
    exfalso. assert (0 < P * P) by nra. assert (0 < (P * P) * (P * P)) by nra.
    replace (_ + _ + _) with ((P * P) * (P * P) * (- G - 2)) in K by ring. nra.
  - pose proof (H (- P) F) as K. replace (_ + _ + _) with (F * (F * G - P * P)) in K by ring.
    assert (0 < F) by lra. assert (0 <= F * G - P * P); [|lra].
    destruct (Rle_lt_dec 0 (F * G - P * P)); auto. exfalso. nra.
Qed.

(** Homogeneous systems with more unknowns than equations *)
Definition swap (p q i : nat) : nat := if Nat.eqb i p then q else if Nat.eqb i q then p else i.

Lemma sumn_S_split : forall n p f, (p <= n)%nat -> sumn (S n) f = f p + sumn n (fun j => f (swap p n j)).
Proof.
  intros n p f Hp. cbn [sumn]. destruct (Nat.eq_dec p n) as [->|Hn].
  - rewrite Rplus_comm. f_equal. apply sumn_ext. intros i Hi. unfold swap.
    replace (Nat.eqb i n) with false by (symmetry; apply Nat.eqb_neq; lia). reflexivity.
  - rewrite (sumn_ext n (fun j => f (swap p n j)) (fun j => f j + (if Nat.eqb j p then f n - f p else 0))).
    + rewrite sumn_plus, (sumn_delta n p (fun _ => f n - f p)) by lia. ring.
    + intros j Hj. unfold swap. destruct (Nat.eqb j p) eqn:E.
      * apply Nat.eqb_eq in E. subst. ring.
      * replace (Nat.eqb j n) with false by (symmetry; apply Nat.eqb_neq; lia). ring.
Qed.

Lemma swap_invol : forall p q i, swap p q (swap p q i) = i.
Proof.
  intros p q i. unfold swap. destruct (Nat.eqb i p) eqn:E.
  - apply Nat.eqb_eq in E. subst. rewrite Nat.eqb_refl. destruct (Nat.eqb q p) eqn:E; auto. apply Nat.eqb_eq in E. auto.
  - destruct (Nat.eqb i q) eqn:E'.
    + apply Nat.eqb_eq in E'. subst. rewrite Nat.eqb_refl. reflexivity.
    + rewrite E, E'. reflexivity.
Qed.

Lemma homogeneous : forall n (a : nat -> nat -> R), exists x : nat -> R,
  (exists j, (j <= n)%nat /\ x j <> 0) /\ forall i, (i < n)%nat -> sumn (S n) (fun j => a i j * x j) = 0.
Proof.
  induction n as [|n IH]; intros a.
  - exists (fun _ => 1). split. { exists 0%nat. split; auto. } intros; lia.
  - destruct (Nat.eq_dec 0 0) as [_|]; [|lia].
    assert (D : (exists p, (p <= S n)%nat /\ a n p <> 0) \/ (forall p, (p <= S n)%nat -> a n p = 0)).
    { generalize (S n). intros m. induction m as [|m [(p & H1 & H2)|H]].
      - destruct (Req_dec (a n 0%nat) 0); [right|left]. { intros p Hp. replace p with 0%nat by lia. auto. } exists 0%nat. auto.
      - left. exists p. split; auto.
      - destruct (Req_dec (a n (S m)) 0) as [E|E]; [right|left; eauto].
        intros p Hp. destruct (Nat.eq_dec p (S m)) as [->|]; auto. apply H. lia. }
    destruct D as [(p & Hp & Ha)|H0].
    + (* eliminate unknown p *)
      set (c := fun j => - (a n (swap p (S n) j)) / a n p).
      destruct (IH (fun i j => a i (swap p (S n) j) + a i p * c j)) as (y & (j0 & Hj0 & Hy) & Hs).
      exists (fun j => if Nat.eqb j p then sumn (S n) (fun j => c j * y j) else y (swap p (S n) j)).
      assert (Hsw : forall j, (j < S n)%nat -> swap p (S n) j <> p).
      { intros j Hj E. unfold swap in E. destruct (Nat.eqb j p) eqn:E1. { apply Nat.eqb_eq in E1. lia. }
        destruct (Nat.eqb j (S n)) eqn:E2. { apply Nat.eqb_eq in E2. lia. } apply Nat.eqb_neq in E1. lia. }
      split.
      * exists (swap p (S n) j0). split.
        { unfold swap. destruct (Nat.eqb j0 p); [lia|]. destruct (Nat.eqb j0 (S n)); lia. }
        replace (Nat.eqb (swap p (S n) j0) p) with false by (symmetry; apply Nat.eqb_neq; apply Hsw; lia).
        rewrite swap_invol. exact Hy.
      * assert (G : forall i, sumn (S (S n)) (fun j => a i j * (if Nat.eqb j p then sumn (S n) (fun j => c j * y j) else y (swap p (S n) j))) =
          sumn (S n) (fun j => (a i (swap p (S n) j) + a i p * c j) * y j)).
        { intros i. rewrite (sumn_S_split (S n) p) by exact Hp. rewrite Nat.eqb_refl.
          rewrite <- sumn_scale, <- sumn_plus. apply sumn_ext. intros j Hj.
          replace (Nat.eqb (swap p (S n) j) p) with false by (symmetry; apply Nat.eqb_neq; auto).
          rewrite swap_invol. ring. }
        intros i Hi. rewrite G. destruct (Nat.eq_dec i n) as [->|Hin].
        { apply sumn_zero. intros j _. unfold c. field. exact Ha. }
        apply Hs. lia.
    + destruct (IH a) as (y & (j0 & Hj0 & Hy) & Hs).
      exists (fun j => if Nat.eqb j (S n) then 0 else y j). split.
      * exists j0. split; [lia|]. replace (Nat.eqb j0 (S n)) with false by (symmetry; apply Nat.eqb_neq; lia). exact Hy.
      * intros i Hi. change (sumn (S (S n)) ?f) with (sumn (S n) f + f (S n)). cbv beta. rewrite Nat.eqb_refl.
        destruct (Nat.eq_dec i n) as [->|Hin].
        { rewrite H0 by lia. rewrite sumn_zero; [ring|]. intros j Hj. rewrite H0 by lia. ring. }
        rewrite (sumn_ext (S n) _ (fun j => a i j * y j)). { rewrite Hs by lia. ring. }
        intros j Hj. replace (Nat.eqb j (S n)) with false by (symmetry; apply Nat.eqb_neq; lia). reflexivity.
Qed.

Theorem injective_solvable : forall n (a : nat -> nat -> R) (b : nat -> R),
  (forall x, (forall i, (i < n)%nat -> sumn n (fun j => a i j * x j) = 0) -> forall i, (i < n)%nat -> x i = 0) ->
  exists x, forall i, (i < n)%nat -> sumn n (fun j => a i j * x j) = b i.
Proof.
  intros n a b Hinj.
  destruct (homogeneous n (fun i j => if Nat.eqb j n then - b i else a i j)) as (y & (j0 & Hj0 & Hy) & Hs).
  assert (G : forall i, (i < n)%nat -> sumn n (fun j => a i j * y j) = b i * y n).
  { intros i Hi. specialize (Hs i Hi). cbn [sumn] in Hs. rewrite Nat.eqb_refl in Hs.
    rewrite (sumn_ext n _ (fun j => a i j * y j)) in Hs. { lra. }
    intros j Hj. replace (Nat.eqb j n) with false by (symmetry; apply Nat.eqb_neq; lia). reflexivity. }
  assert (Hn : y n <> 0).
  { intros E. apply Hy. destruct (Nat.eq_dec j0 n) as [->|Hne]; auto. apply Hinj; [|lia].
    intros i Hi. rewrite G by exact Hi. rewrite E. ring. }
  exists (fun j => y j / y n). intros i Hi.
  rewrite (sumn_ext n _ (fun j => / y n * (a i j * y j))) by (intros; field; exact Hn).
  rewrite sumn_scale, G by exact Hi. field. exact Hn.
Qed.
