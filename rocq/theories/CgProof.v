(** * The conjugate gradients with exact arithmetic: the residuals are orthogonal, so there are few of them *)
From Coq Require Import Reals List ZArith Arith Bool Lia Lra Psatz.
From Verif Require Import Sums LinAlg.
Import ListNotations.
Local Open Scope R_scope.

Section bessel.
Variable n : nat.
Definition dotn (f g : nat -> R) : R := sumn n (fun i => f i * g i).

Lemma dotn_comm : forall f g, dotn f g = dotn g f.
Proof. intros. unfold dotn. apply sumn_ext. intros. ring. Qed.
Lemma dotn_ext : forall f g f' g', (forall i, (i < n)%nat -> f i = f' i) -> (forall i, (i < n)%nat -> g i = g' i) -> dotn f g = dotn f' g'.
Proof. intros f g f' g' H1 H2. unfold dotn. apply sumn_ext. intros i Hi. rewrite H1, H2 by exact Hi. reflexivity. Qed.
Lemma dotn_add_r : forall f g h k, dotn f (fun i => g i + k * h i) = dotn f g + k * dotn f h.
Proof. intros. unfold dotn. rewrite <- sumn_scale, <- sumn_plus. apply sumn_ext. intros. ring. Qed.
Lemma dotn_add_l : forall f g h k, dotn (fun i => g i + k * h i) f = dotn g f + k * dotn h f.
Proof. intros. rewrite dotn_comm, dotn_add_r, (dotn_comm f g), (dotn_comm f h). reflexivity. Qed.
Lemma dotn_sub_r : forall f g h k, dotn f (fun i => g i - k * h i) = dotn f g - k * dotn f h.
Proof. intros. unfold dotn. rewrite <- sumn_scale, <- sumn_minus. apply sumn_ext. intros. ring. Qed.
Lemma dotn_self_nonneg : forall f, 0 <= dotn f f.
Proof. intros. apply sumn_nonneg. intros. apply Rle_0_sqr. Qed.

Lemma dotn_sum_r : forall K f (v : nat -> nat -> R) c, dotn f (fun j => sumn K (fun i => c i * v i j)) = sumn K (fun i => c i * dotn f (v i)).
Proof.
  intros K f v c. unfold dotn. rewrite (sumn_ext n _ (fun i => sumn K (fun k => c k * (f i * v k i)))).
  - rewrite sumn_exchange. apply sumn_ext. intros k _. apply sumn_scale.
  - intros i _. rewrite <- sumn_scale. apply sumn_ext. intros. ring.
Qed.

(** an orthonormal family that vanishes where [m] is true has at most as many vectors as there are other indices *)
Definition free (m : nat -> bool) : nat := length (filter (fun i => negb (m i)) (seq 0 n)).

Lemma sumn_free : forall m : nat -> bool, sumn n (fun i => if m i then 0 else 1) = INR (free m).
Proof.
  intros m. rewrite sumn_lsum. unfold free. generalize (seq 0 n). induction l as [|i l IH]; [reflexivity|].
  cbn [map lsum filter]. destruct (m i); cbn [negb]; rewrite IH; [ring|]. cbn [length]. rewrite S_INR. ring.
Qed.

Lemma sumn_le : forall K f g, (forall i, (i < K)%nat -> f i <= g i) -> sumn K f <= sumn K g.
Proof. induction K as [|K IH]; intros f g H; cbn [sumn]; [lra|]. pose proof (IH f g (fun i Hi => H i ltac:(lia))). pose proof (H K ltac:(lia)). lra. Qed.

Lemma bessel : forall K (v : nat -> nat -> R) (m : nat -> bool),
  (forall i j, (i < K)%nat -> (j < K)%nat -> dotn (v i) (v j) = if (i =? j)%nat then 1 else 0) ->
  (forall i j, (i < K)%nat -> m j = true -> v i j = 0) -> (K <= free m)%nat.
Proof.
  intros K v m Ho Hm.
  assert (B : forall j, (j < n)%nat -> sumn K (fun i => v i j * v i j) <= if m j then 0 else 1).
  { intros j Hj. destruct (m j) eqn:Mj.
    - rewrite sumn_zero; [lra|]. intros i Hi. rewrite (Hm i j Hi Mj). ring.
    - set (e := fun k => if (k =? j)%nat then 1 else 0). set (w := fun k => sumn K (fun i => v i j * v i k)).
      assert (E1 : forall f, dotn e f = f j).
      { intros f. unfold dotn. rewrite <- (sumn_delta n j f Hj). apply sumn_ext. intros k _. unfold e. destruct (k =? j)%nat; ring. }
      assert (E2 : dotn e w = sumn K (fun i => v i j * v i j)). { rewrite E1. reflexivity. }
      assert (E3 : dotn w w = sumn K (fun i => v i j * v i j)).
      { unfold w at 2. rewrite dotn_sum_r. apply sumn_ext. intros i Hi. f_equal. unfold w. rewrite dotn_comm, dotn_sum_r.
        rewrite <- (sumn_delta K i (fun k => v k j) Hi). apply sumn_ext. intros k Hk. rewrite Ho by auto.
        rewrite (Nat.eqb_sym i k). destruct (k =? i)%nat; ring. }
      pose proof (dotn_self_nonneg (fun k => e k + (-1) * w k)) as P. rewrite dotn_add_r, !dotn_add_l, (dotn_comm w e), E2, E3, E1 in P.
      unfold e in P. rewrite Nat.eqb_refl in P. lra. }
  pose proof (sumn_le n _ _ B) as S. rewrite sumn_free, sumn_exchange in S.
  rewrite (sumn_ext K _ (fun i => 1)) in S.
  - apply INR_le. assert (Q : forall k, sumn k (fun _ => 1) = INR k). { induction k; [reflexivity|]. cbn [sumn]. rewrite IHk, S_INR. reflexivity. }
    rewrite Q in S. exact S.
  - intros i Hi. pose proof (Ho i i Hi Hi) as O. rewrite Nat.eqb_refl in O. exact O.
Qed.

(** the same with weights, positive outside [m] *)
Lemma bessel_weighted : forall K (v : nat -> nat -> R) (m : nat -> bool) (d : nat -> R),
  (forall j, (j < n)%nat -> 0 <= d j) ->
  (forall i j, (i < j)%nat -> (j < K)%nat -> dotn (v i) (fun k => d k * v j k) = 0) ->
  (forall i, (i < K)%nat -> 0 < dotn (v i) (fun k => d k * v i k)) ->
  (forall i j, (i < K)%nat -> m j = true -> v i j = 0) -> (K <= free m)%nat.
Proof.
  intros K v m d Hd Ho Hp Hm.
  set (q := fun i => dotn (v i) (fun k => d k * v i k)) in *.
  assert (W : forall i j, dotn (fun k => sqrt (d k) * v i k / sqrt (q i)) (fun k => sqrt (d k) * v j k / sqrt (q j)) =
                          dotn (v i) (fun k => d k * v j k) * / (sqrt (q i) * sqrt (q j)) \/ (q i <= 0 \/ q j <= 0)).
  { intros i j. destruct (Rle_dec (q i) 0); [auto|]. destruct (Rle_dec (q j) 0); [auto|]. left.
    assert (0 < sqrt (q i)) by (apply sqrt_lt_R0; lra). assert (0 < sqrt (q j)) by (apply sqrt_lt_R0; lra).
    unfold dotn. rewrite Rmult_comm, <- sumn_scale. apply sumn_ext. intros k Hk.
    rewrite <- (sqrt_sqrt (d k) (Hd k Hk)) at 3. field. lra. }
  apply (bessel K (fun i k => sqrt (d k) * v i k / sqrt (q i)) m).
  - intros i j Hi Hj. destruct (W i j) as [->|[F|F]]; [|pose proof (Hp i Hi); unfold q in *; lra|pose proof (Hp j Hj); unfold q in *; lra].
    destruct (i =? j)%nat eqn:E.
    + apply Nat.eqb_eq in E. subst j. fold (q i). pose proof (Hp i Hi). rewrite sqrt_sqrt by (unfold q in *; lra). apply Rinv_r. unfold q in *; lra.
    + apply Nat.eqb_neq in E. destruct (Nat.lt_ge_cases i j).
      * rewrite Ho by assumption. ring.
      * replace (dotn (v i) (fun k => d k * v j k)) with (dotn (v j) (fun k => d k * v i k)). { rewrite Ho by lia. ring. }
        unfold dotn. apply sumn_ext. intros. ring.
  - intros i j Hi Mj. rewrite (Hm i j Hi Mj). unfold Rdiv. ring.
Qed.
End bessel.

Section gradients.
Variables (n : nat) (a : nat -> nat -> R) (m : nat -> bool).
Notation "f · g" := (dotn n f g) (at level 40).
Definition msk (f : nat -> R) : Prop := forall i, m i = true -> f i = 0.
Definition nz (f : nat -> R) : Prop := exists i, (i < n)%nat /\ f i <> 0.
Definition Av (f : nat -> R) (i : nat) : R := sumn n (fun j => a i j * f j).
Definition Ax (f : nat -> R) (i : nat) : R := if m i then 0 else Av f i.
Definition dg (i : nat) : R := if m i then 0 else / a i i.

Hypothesis Hsym : forall i j, (i < n)%nat -> (j < n)%nat -> a i j = a j i.
Hypothesis Hpos : forall z, msk z -> nz z -> 0 < z · Av z.

Lemma Ax_msk : forall f, msk (Ax f). Proof. intros f i Hi. unfold Ax. rewrite Hi. reflexivity. Qed.
Lemma Ax_dot : forall f g, msk f -> f · Ax g = f · Av g.
Proof. intros f g Hf. unfold dotn. apply sumn_ext. intros i _. unfold Ax. destruct (m i) eqn:E; auto. rewrite (Hf i E). ring. Qed.
Lemma Av_sym : forall f g, f · Av g = g · Av f.
Proof.
  intros f g. unfold dotn, Av. rewrite (sumn_ext n _ (fun i => sumn n (fun j => f i * a i j * g j))).
  - rewrite sumn_exchange. apply sumn_ext. intros j Hj. rewrite <- sumn_scale. apply sumn_ext. intros i Hi. rewrite (Hsym i j Hi Hj). ring.
  - intros i _. rewrite <- sumn_scale. apply sumn_ext. intros. ring.
Qed.
Lemma Ax_sym : forall f g, msk f -> msk g -> f · Ax g = g · Ax f.
Proof. intros f g Hf Hg. rewrite !Ax_dot by assumption. apply Av_sym. Qed.

Lemma diag_pos : forall i, (i < n)%nat -> m i = false -> 0 < a i i.
Proof.
  intros i Hi Mi. set (e := fun k => if (k =? i)%nat then 1 else 0).
  assert (E : forall f, e · f = f i).
  { intros f. unfold dotn. rewrite <- (sumn_delta n i f Hi). apply sumn_ext. intros k _. unfold e. destruct (k =? i)%nat; ring. }
  pose proof (Hpos e) as P. rewrite E in P. unfold Av in P. fold (dotn n (fun j => a i j) e) in P. rewrite dotn_comm, E in P. apply P.
  - intros k Hk. unfold e. destruct (k =? i)%nat eqn:Ek; auto. apply Nat.eqb_eq in Ek. congruence.
  - exists i. split; auto. unfold e. rewrite Nat.eqb_refl. lra.
Qed.

Lemma dg_nonneg : forall i, (i < n)%nat -> 0 <= dg i.
Proof. intros i Hi. unfold dg. destruct (m i) eqn:E; [lra|]. left. apply Rinv_0_lt_compat. apply diag_pos; auto. Qed.

Definition rho (r : nat -> R) : R := r · (fun i => dg i * r i).

Lemma rho_pos : forall r, msk r -> nz r -> 0 < rho r.
Proof.
  intros r Hr (i & Hi & Hne). unfold rho, dotn.
  assert (Mi : m i = false). { destruct (m i) eqn:E; auto. exfalso. apply Hne. apply Hr. exact E. }
  assert (L : (fun k => if (k =? i)%nat then r k * (dg k * r k) else 0) i <= sumn n (fun k => r k * (dg k * r k))).
  { cbv beta. rewrite Nat.eqb_refl. rewrite <- (sumn_delta n i (fun k => r k * (dg k * r k)) Hi). apply sumn_le. intros k Hk.
    pose proof (dg_nonneg k Hk). assert (0 <= r k * (dg k * r k)). { replace (r k * (dg k * r k)) with (dg k * Rsqr (r k)) by (unfold Rsqr; ring). apply Rmult_le_pos; auto. apply Rle_0_sqr. }
    destruct (k =? i)%nat; lra. }
  cbv beta in L. rewrite Nat.eqb_refl in L. eapply Rlt_le_trans; [|exact L].
  replace (r i * (dg i * r i)) with (dg i * Rsqr (r i)) by (unfold Rsqr; ring). apply Rmult_lt_0_compat.
  - unfold dg. rewrite Mi. apply Rinv_0_lt_compat. apply diag_pos; auto.
  - apply Rlt_0_sqr. exact Hne.
Qed.

(** the sequences of the residuals and of the directions *)
Variable r0 : nat -> R.
Fixpoint cgs (k : nat) : (nat -> R) * (nat -> R) :=
  match k with
  | O => (r0, fun i => dg i * r0 i)
  | S k =>
      let '(r, p) := cgs k in
      let al := rho r / (p · Ax p) in
      let r' := fun i => r i - al * Ax p i in
      (r', fun i => dg i * r' i + rho r' / rho r * p i)
  end.
Notation rr k := (fst (cgs k)). Notation pp k := (snd (cgs k)).
Definition alpha (k : nat) : R := rho (rr k) / (pp k · Ax (pp k)).

Lemma r_S : forall k, rr (S k) = fun i => rr k i - alpha k * Ax (pp k) i.
Proof. intros k. cbn [cgs]. unfold alpha. destruct (cgs k). reflexivity. Qed.
Lemma p_S : forall k, pp (S k) = fun i => dg i * rr (S k) i + rho (rr (S k)) / rho (rr k) * pp k i.
Proof. intros k. cbn [cgs]. destruct (cgs k). reflexivity. Qed.

Hypothesis H0 : msk r0.
Lemma seq_msk : forall k, msk (rr k) /\ msk (pp k).
Proof.
  induction k as [|k [IHr IHp]].
  - split; [exact H0|]. intros i Hi. cbn. rewrite (H0 i Hi). ring.
  - assert (R1 : msk (rr (S k))). { rewrite r_S. intros i Hi. rewrite (IHr i Hi), (Ax_msk _ i Hi). ring. }
    split; auto. rewrite p_S. intros i Hi. rewrite (R1 i Hi), (IHp i Hi). ring.
Qed.

Lemma p_nz : forall k, nz (rr k) -> pp k · rr k = rho (rr k) -> nz (pp k).
Proof.
  intros k Hr E. destruct (seq_msk k) as [Mr _]. pose proof (rho_pos _ Mr Hr) as P. rewrite <- E in P.
  assert (D : nz (pp k) \/ forall i, (i < n)%nat -> pp k i = 0).
  { clear. generalize (pp k). intros f. unfold nz. induction n as [|N IH]. { right. intros. lia. }
    destruct IH as [(i & Hi & Hne)|Z]; [left; exists i; split; auto|]. destruct (Req_dec (f N) 0) as [E|E].
    - right. intros i Hi. destruct (Nat.eq_dec i N) as [->|]; auto. apply Z. lia.
    - left. exists N. split; auto. }
  destruct D as [D|D]; auto. exfalso. unfold dotn in P. rewrite sumn_zero in P; [lra|]. intros i Hi. rewrite D by exact Hi. ring.
Qed.

Lemma conjugate : forall k, (forall j, (j < k)%nat -> nz (rr j)) ->
  (forall i j, (i < j <= k)%nat -> rr i · (fun x => dg x * rr j x) = 0) /\
  (forall i j, (i < j <= k)%nat -> pp i · Ax (pp j) = 0) /\
  (forall i j, (i < j <= k)%nat -> pp i · rr j = 0) /\
  (forall j, (j <= k)%nat -> pp j · rr j = rho (rr j)).
Proof.
  induction k as [|k IH]; intros Hnz.
  - repeat split; try (intros; lia). intros j Hj. assert (j = 0)%nat by lia. subst j. cbn [cgs fst snd]. unfold rho. rewrite dotn_comm. reflexivity.
  - destruct (IH (fun j Hj => Hnz j ltac:(lia))) as (Ia & Ib & Ic & Id). clear IH.
    pose proof (Hnz k ltac:(lia)) as Nk. destruct (seq_msk k) as [Mr Mp]. destruct (seq_msk (S k)) as [Mr' Mp'].
    assert (Pp : forall j, (j <= k)%nat -> 0 < pp j · Ax (pp j)).
    { intros j Hj. destruct (seq_msk j) as [_ Mj]. rewrite Ax_dot by exact Mj. apply Hpos; auto. apply p_nz; [apply Hnz; lia|apply Id; lia]. }
    assert (Pr : forall j, (j <= k)%nat -> 0 < rho (rr j)).
    { intros j Hj. apply rho_pos; [apply (seq_msk j)|apply Hnz; lia]. }
    assert (Al : forall j, (j <= k)%nat -> alpha j <> 0).
    { intros j Hj. unfold alpha. apply Rgt_not_eq. apply Rdiv_lt_0_compat; auto. }
    assert (C' : forall i, (i <= k)%nat -> pp i · rr (S k) = 0).
    { intros i Hi. rewrite r_S, dotn_sub_r. destruct (Nat.eq_dec i k) as [->|Hne].
      - rewrite Id by lia. unfold alpha. pose proof (Pp k ltac:(lia)). field. lra.
      - rewrite Ic, Ib by lia. ring. }
    assert (A' : forall i, (i <= k)%nat -> rr i · (fun x => dg x * rr (S k) x) = 0).
    { intros i Hi. replace (rr i · (fun x => dg x * rr (S k) x)) with ((fun x => dg x * rr i x) · rr (S k)) by (unfold dotn; apply sumn_ext; intros; ring).
      destruct i as [|i].
      - apply (C' 0%nat). lia.
      - assert (E : (fun x => dg x * rr (S i) x) · rr (S k) = pp (S i) · rr (S k) - rho (rr (S i)) / rho (rr i) * (pp i · rr (S k))).
        { rewrite (p_S i). rewrite dotn_add_l. ring. }
        rewrite E, !C' by lia. ring. }
    assert (Ap : forall i f, (i <= k)%nat -> f · Ax (pp i) = (f · rr i - f · rr (S i)) / alpha i).
    { intros i f Hi. rewrite r_S, dotn_sub_r. field. apply Al. exact Hi. }
    assert (B' : forall i, (i <= k)%nat -> pp i · Ax (pp (S k)) = 0).
    { intros i Hi. destruct (seq_msk i) as [_ Mi]. rewrite Ax_sym by assumption. rewrite (p_S k) at 1. rewrite dotn_add_l.
      rewrite Ap by exact Hi. rewrite (dotn_comm n (fun x => dg x * rr (S k) x) (rr i)), A' by lia. destruct (Nat.eq_dec i k) as [->|Hne].
      - rewrite (dotn_comm n (fun x => dg x * rr (S k) x) (rr (S k))). fold (rho (rr (S k))).
        rewrite <- (Rmult_1_l (pp k · Ax (pp k))). pose proof (Pp k ltac:(lia)). pose proof (Pr k ltac:(lia)). unfold alpha. field. lra.
      - rewrite (dotn_comm n (fun x => dg x * rr (S k) x) (rr (S i))), A' by lia. rewrite (Ax_sym (pp k) (pp i)) by assumption. rewrite Ib by lia.
        unfold Rdiv. ring. }
    repeat split.
    + intros i j Hij. destruct (Nat.eq_dec j (S k)) as [->|]; [apply A'; lia|apply Ia; lia].
    + intros i j Hij. destruct (Nat.eq_dec j (S k)) as [->|]; [apply B'; lia|apply Ib; lia].
    + intros i j Hij. destruct (Nat.eq_dec j (S k)) as [->|]; [apply C'; lia|apply Ic; lia].
    + intros j Hj. destruct (Nat.eq_dec j (S k)) as [->|]; [|apply Id; lia].
      rewrite (p_S k) at 1. rewrite dotn_add_l, C' by lia. unfold rho. rewrite dotn_comm. ring.
Qed.

(** there are not more non-zero residuals than free unknowns *)
Lemma cg_bound : forall k, (forall j, (j <= k)%nat -> nz (rr j)) -> (k < free n m)%nat.
Proof.
  intros k Hnz. destruct (conjugate k (fun j Hj => Hnz j ltac:(lia))) as (Ia & _).
  apply (bessel_weighted n (S k) (fun i => rr i) m dg).
  - apply dg_nonneg.
  - intros i j Hij Hj. apply Ia. lia.
  - intros i Hi. apply rho_pos; [apply (seq_msk i)|apply Hnz; lia].
  - intros i j Hi Mj. apply (seq_msk i). exact Mj.
Qed.

Lemma cg_curvature : forall k, (forall j, (j <= k)%nat -> nz (rr j)) -> 0 < pp k · Ax (pp k) /\ 0 < rho (rr k).
Proof.
  intros k Hnz. destruct (conjugate k (fun j Hj => Hnz j ltac:(lia))) as (_ & _ & _ & Id). destruct (seq_msk k) as [Mr Mp].
  split; [|apply rho_pos; auto]. rewrite Ax_dot by exact Mp. apply Hpos; auto. apply p_nz; auto.
Qed.
End gradients.
