(** * C89: the conjugate gradients reach the solution *)
From Coq Require Import Reals List ZArith Arith Bool Lia Lra Psatz.
From Verif Require Import Arith ArithLaws Sums LinAlg SparseModel SparseProof SparseProps IterModel IterProof Ieee IterMask IterExact IterProps CgProof.
Import ListNotations.
Local Open Scope R_scope.

(** ** Specification *)
(** number of unknowns that are not imposed *)
Definition unknowns (n : nat) (ld : list nat) : nat := length (filter (fun i => if in_dec Nat.eq_dec i ld then false else true) (seq 0 n)).
(** a symmetric matrix that is positive definite on the vectors with zeros at the imposed positions *)
Record symmetric_positive (n : nat) (a : nat -> nat -> R) (ld : list nat) : Prop := mkSpd {
  spd_sym : forall i j, (i < n)%nat -> (j < n)%nat -> a i j = a j i;
  spd_pos : forall z, (forall i, In i ld -> z i = 0) -> (exists i, (i < n)%nat /\ z i <> 0) ->
    0 < sumn n (fun i => z i * sumn n (fun j => a i j * z j)) }.

Section loop.
Variables (M : matrix XA) (n : nat) (a : nat -> nat -> R) (ld : list nat).
Hypothesis HM : square_matrix M n a ld.
Hypothesis HS : symmetric_positive n a ld.
Variables (rn tol : R).
Hypothesis Hrn : 0 <= rn.
Hypothesis Htol : 0 <= tol.
Variable r0 : nat -> R.
Hypothesis Hr0 : msk (masked ld) r0.

Notation m := (masked ld).
Notation rr k := (fst (cgs n a m r0 k)).
Notation pp k := (snd (cgs n a m r0 k)).

Lemma m_pos : forall z, msk m z -> nz n z -> 0 < dotn n z (Av n a z).
Proof.
  intros z Hz Hn. apply (spd_pos _ _ _ HS); auto. intros i Hi. apply Hz. unfold masked. destruct (in_dec Nat.eq_dec i ld); auto.
Qed.

Record cst (k : nat) (s : cstate XA) : Prop := mkCst {
  cs_it : goodit rn tol (c_it s);
  cs_nit : nit (c_it s) = Z.of_nat k;
  cs_stop : is_stop (status (c_it s)) = true -> (maxiter (c_it s) <= Z.of_nat k)%Z;
  cs_x : exists fx, isv n (c_x s) fx;
  cs_r : isv n (c_r s) (rr k);
  cs_p : match k with
         | O => isv n (c_p s) (pp 0) /\ c_rho s = (Fin (rho n a m (rr 0)) : num XA)
         | S k => isv n (c_p s) (pp k) /\ c_rho1 s = (Fin (rho n a m (rr k)) : num XA)
         end }.

Lemma nz_dec : forall f, nz n f \/ forall i, (i < n)%nat -> f i = 0.
Proof.
  intros f. unfold nz. clear. induction n as [|N IH]. { right. intros. lia. }
  destruct IH as [(i & Hi & Hne)|Z]; [left; exists i; split; auto|]. destruct (Req_dec (f N) 0) as [E|E].
  - right. intros i Hi. destruct (Nat.eq_dec i N) as [->|]; auto. apply Z. lia.
  - left. exists N. split; auto.
Qed.

Lemma free_unknowns : free n m = unknowns n ld.
Proof.
  unfold free, unknowns. f_equal. apply filter_ext. intros i. unfold masked. destruct (in_dec Nat.eq_dec i ld); reflexivity.
Qed.

Lemma cg_pass_seq : forall k s, cst k s -> (forall j, (j < k)%nat -> nz n (rr j)) -> (Z.of_nat (unknowns n ld) <= maxiter (c_it s))%Z ->
  match cg_pass M ld (applyMask ld (diag_precond M)) s with
  | Stop it x => status it = CONVERGED /\ nit it = Z.of_nat k /\ (exists fx, isv n x fx)
  | Next s' => cst (S k) s' /\ nz n (rr k) /\ maxiter (c_it s') = maxiter (c_it s)
  end.
Proof.
  intros k s [Git Hnit Hstop Hx Hr Hp] Hnz Hmax.
  pose proof (spd_sym _ _ _ HS) as Hsym.
  unfold cg_pass. destruct (finished (c_it s) (vnorm2 (c_r s))) as [b it] eqn:E.
  apply finished_spec in E. destruct E as (E1 & E2 & E3 & _ & E4).
  rewrite (isv_norm n _ _ Hr) in E1, E4.
  change (nisnan (a := XA) (nabs (a := XA) (Fin (sqrt (sumn n (fun i => rr k i * rr k i)))))) with false in E4.
  destruct b.
  { cbn [orb]. split; auto. split; [congruence|auto]. }
  assert (Nk : nz n (rr k)).
  { destruct (nz_dec (rr k)) as [|Z]; auto. exfalso. rewrite sumn_zero in E1 by (intros i Hi; rewrite (Z i Hi); ring). rewrite sqrt_0 in E1.
    destruct Git as [G1 G2]. unfold small in E1. rewrite G1, G2 in E1. cbn in E1. rewrite Rabs_R0 in E1.
    change (false = xle (Fin 0) (Fin (rn * tol))) in E1. assert (T : xle (Fin 0) (Fin (rn * tol)) = true); [|congruence].
    apply (xle_fin (Fin 0) (Fin (rn * tol)) I I). cbn. apply Rmult_le_pos; assumption. }
  assert (Hall : forall j, (j <= k)%nat -> nz n (rr j)). { intros j Hj. destruct (Nat.eq_dec j k) as [->|]; auto. apply Hnz. lia. }
  pose proof (cg_bound n a m Hsym m_pos r0 Hr0 k Hall) as Hk. rewrite free_unknowns in Hk.
  destruct (cg_curvature n a m Hsym m_pos r0 Hr0 k Hall) as [Hcurv Hrho].
  assert (Es : is_stop (status it) = false).
  { rewrite E4. destruct (is_stop (status (c_it s))) eqn:Es; auto. specialize (Hstop eq_refl). lia. }
  rewrite Es. cbn [orb].
  pose proof (diag_isv M n a ld HM) as HD.
  assert (EP : exists p, (if (0 <? nit it)%Z
     then (vadd_to (p_direct (applyMask ld (diag_precond M)) (c_r s))
             (scaled (ndiv (vdot (p_direct (applyMask ld (diag_precond M)) (c_r s)) (c_r s)) (c_rho1 s)) (c_p s)),
           vdot (p_direct (applyMask ld (diag_precond M)) (c_r s)) (c_r s))
     else (c_p s, c_rho s)) = (p, (Fin (rho n a m (rr k)) : num XA)) /\ isv n p (pp k)).
  { rewrite E3, Hnit. destruct k as [|k].
    - destruct Hp as [Hp1 Hp2]. exists (c_p s). split; auto. rewrite Hp2. reflexivity.
    - replace (0 <? Z.of_nat (S k))%Z with true by (symmetry; apply Z.ltb_lt; lia).
      destruct Hp as [Hp1 Hp2]. pose proof (isv_direct n _ _ _ _ HD Hr) as Hz.
      assert (Er : vdot (p_direct (applyMask ld (diag_precond M)) (c_r s)) (c_r s) = (Fin (rho n a m (rr (S k))) : num XA)).
      { rewrite (isv_dot n _ _ _ _ Hz Hr). f_equal. unfold rho, dotn, dg. apply sumn_ext. intros i Hi. ring. }
      rewrite Er, Hp2, xdiv_fin.
      2: { destruct (cg_curvature n a m Hsym m_pos r0 Hr0 k (fun j Hj => Hall j ltac:(lia))) as [_ P]. lra. }
      eexists. split; [reflexivity|]. eapply isv_ext. { apply isv_add; [exact Hz|]. apply isv_scaled. exact Hp1. }
      intros i Hi. cbv beta. rewrite (p_S n a m r0 k). unfold dg. ring. }
  destruct EP as (p & EP & Hpk).
  match type of EP with ?l = _ => change (if (0 <? nit it)%Z then _ else (c_p s, c_rho s)) with l end.
  cbv zeta. rewrite EP.
  assert (Hq : isv n (applyMask ld (mmult M p)) (Ax n a m (pp k))).
  { eapply isv_ext. { apply isv_mask. apply (isv_A M n a ld HM). exact Hpk. }
    intros i Hi. unfold Ax, Av, av. rewrite (sq_size _ _ _ _ HM). reflexivity. }
  rewrite (isv_dot n _ _ _ _ Hq Hpk).
  assert (Eqp : sumn n (fun i => Ax n a m (pp k) i * pp k i) = dotn n (pp k) (Ax n a m (pp k))).
  { unfold dotn. apply sumn_ext. intros. ring. }
  rewrite Eqp.
  assert (Eneq : neq (a := XA) (Fin (dotn n (pp k) (Ax n a m (pp k)))) n0 = false).
  { rewrite xn0. cbn. apply Flocq.Core.Raux.Req_bool_false. lra. }
  rewrite Eneq, xdiv_fin by lra. rewrite xopp_fin.
  destruct (incr_spec it) as (I1 & I2 & I3).
  split; [|split; auto].
  2: { cbn [c_it]. rewrite (sp_max _ _ I1), (sp_max _ _ E2). reflexivity. }
  constructor; cbn [c_it c_x c_r c_p c_rho c_rho1].
  - eapply goodit_same; [exact I1|]. eapply goodit_same; [exact E2|exact Git].
  - rewrite I2, E3, Hnit. lia.
  - rewrite I3. rewrite (sp_max _ _ I1). destruct (maxiter it <=? nit it + 1)%Z eqn:Em.
    + intros _. apply Z.leb_le in Em. rewrite E3, Hnit in Em. lia.
    + rewrite Es. discriminate.
  - destruct Hx as [fx Hx]. eexists. apply isv_scaled_add; [exact Hpk|exact Hx].
  - eapply isv_ext. { apply isv_scaled_add; [exact Hq|exact Hr]. }
    intros i Hi. rewrite (r_S n a m r0 k). unfold alpha. cbv beta. ring.
  - split; auto.
Qed.

Lemma cg_loop_seq : forall fuel k s, cst k s -> (forall j, (j < k)%nat -> nz n (rr j)) -> (Z.of_nat (unknowns n ld) <= maxiter (c_it s))%Z ->
  (unknowns n ld < k + fuel)%nat ->
  exists it x, cg_loop fuel M ld (applyMask ld (diag_precond M)) s = Some (it, x) /\ status it = CONVERGED /\
    (nit it <= Z.of_nat (unknowns n ld))%Z /\ exists fx, isv n x fx.
Proof.
  induction fuel as [|fuel IH]; intros k s Hs Hnz Hmax Hf.
  - exfalso. destruct k as [|k]; [lia|].
    pose proof (cg_bound n a m (spd_sym _ _ _ HS) m_pos r0 Hr0 k (fun j Hj => Hnz j ltac:(lia))) as B. rewrite free_unknowns in B. lia.
  - cbn [cg_loop]. pose proof (cg_pass_seq k s Hs Hnz Hmax) as P. destruct (cg_pass _ _ _ _) as [it x|s'].
    + destruct P as (P1 & P2 & P3). exists it, x. split; auto. split; auto. split; auto. rewrite P2.
      destruct k as [|k]; [lia|].
      pose proof (cg_bound n a m (spd_sym _ _ _ HS) m_pos r0 Hr0 k (fun j Hj => Hnz j ltac:(lia))) as B. rewrite free_unknowns in B. lia.
    + destruct P as (P1 & P2 & P3). apply (IH (S k) s'); auto; try lia.
      intros j Hj. destruct (Nat.eq_dec j k) as [->|]; auto. apply Hnz. lia.
Qed.
End loop.

(** With real numbers, the conjugate gradients answer CONVERGED after at most as many iterations as there are unknowns,
    whatever the tolerance (even zero): for every symmetric positive definite matrix, every second member, guess and set
    of imposed values. *)
Theorem C89_gradients_converge : forall (s : solver) (passes : nat) (it : iteration XA) (M : matrix XA) (n : nat) (a : nat -> nat -> R)
    (x rhs xd : list R) (ld : list nat) (tol : R),
  s = Cg \/ s = CgDir ->
  square_matrix M n a (imposed s ld) -> symmetric_positive n a (imposed s ld) -> (0 < n)%nat ->
  length x = n -> length rhs = n -> length xd = n ->
  resmax it = (Fin tol : num XA) -> 0 <= tol ->
  nit it = 0%Z -> status it = UNDEFINED ->
  (Z.of_nat (unknowns n (imposed s ld)) <= maxiter it)%Z -> (unknowns n (imposed s ld) < passes)%nat ->
  exists it' y, solve s passes it M (vF x) (vF rhs) (vF xd) ld = Some (it', vF y) /\
    status it' = CONVERGED /\ (nit it' <= Z.of_nat (unknowns n (imposed s ld)))%Z /\ length y = n /\
    residual n a (imposed s ld) rhs y <= tol * residual n a (imposed s ld) rhs (origin s n xd).
Proof.
  intros s passes it M n a x rhs xd ld tol Hs HM HS Hn Hx Hr Hd Ht Htol Hnit Hst Hmax Hf.
  assert (K : forall ld w, square_matrix M n a ld -> symmetric_positive n a ld ->
    (Z.of_nat (unknowns n ld) <= maxiter it)%Z -> (unknowns n ld < passes)%nat ->
    exists it' x', cg_loop passes M ld (applyMask ld (diag_precond M)) (init_cg M ld x rhs xd it w) = Some (it', x') /\ status it' = CONVERGED /\
      (nit it' <= Z.of_nat (unknowns n ld))%Z).
  { clear ld HM HS Hmax Hf. intros ld w HM HS Hmax Hf.
    set (r0 := resid M a ld (beff M a ld rhs xd w) (fun i => nth i x 0)).
    pose proof (isv_r0 M n a ld HM x rhs xd Hx w _ (isv_b M n a ld HM rhs xd Hr Hd w)) as Hr0. fold r0 in Hr0.
    pose proof (isv_direct n _ _ _ _ (diag_isv M n a ld HM) Hr0) as Hz.
    destruct (cg_loop_seq M n a ld HM HS (residual n a ld rhs (if w then xd else repeat 0 n)) tol (sqrt_pos _) Htol r0) with (fuel := passes) (k := 0%nat) (s := init_cg M ld x rhs xd it w)
      as (it' & x' & E1 & E2 & E3 & _); auto.
    - intros i Hi. unfold r0, resid. rewrite Hi. reflexivity.
    - constructor; cbn [init_cg c_it c_x c_r c_p c_rho c_rho1].
      + apply (init_good M n a ld HM rhs xd Hr Hd it tol Ht w).
      + exact Hnit.
      + cbn [status set_rhsnorm]. rewrite Hst. discriminate.
      + eexists. apply isv_vF. exact Hx.
      + exact Hr0.
      + split.
        * eapply isv_ext; [exact Hz|]. intros i Hi. reflexivity.
        * etransitivity; [apply (isv_dot n _ _ _ _ Hz Hr0)|]. f_equal. unfold rho, dotn, dg. apply sumn_ext. intros i _. cbn [cgs fst]. ring.
    - intros j Hj. lia.
    - eauto. }
  assert (E : exists it' x', solve s passes it M (vF x) (vF rhs) (vF xd) ld = Some (it', x') /\ status it' = CONVERGED /\ (nit it' <= Z.of_nat (unknowns n (imposed s ld)))%Z).
  { destruct Hs as [-> | ->]; cbn [imposed solve] in *.
    - destruct (K [] false HM HS Hmax Hf) as (it' & x' & E1 & E2 & E3). exists it', x'. split; auto.
    - destruct (K ld true HM HS Hmax Hf) as (it' & x' & E1 & E2 & E3). exists it', (vadd_to (vF xd) x'). split; auto.
      unfold cg_dir. unfold init_cg, init_r, init_b in E1. rewrite E1. reflexivity. }
  destruct E as (it' & x' & E1 & E2 & E3).
  destruct (C27_converged_residual s passes it it' M n a x rhs xd ld tol x') as (y & -> & Ly & Ry); auto.
  exists it', y. auto.
Qed.

(** the matrix ((2, 1), (1, 2)), tolerance zero *)
Definition spd_m : matrix XA := [mkRow (A := XA) [0; 1]%nat [Fin 2; Fin 1]; mkRow (A := XA) [0; 1]%nat [Fin 1; Fin 2]].
Definition spd_a (i j : nat) : R := match i, j with O, O | S O, S O => 2 | O, S O | S O, O => 1 | _, _ => 0 end.
Lemma spd_square : square_matrix spd_m 2 spd_a [].
Proof.
  assert (Hz : (@n0 XA) = Fin 0) by (unfold n0; cbn; f_equal; lra).
  constructor; auto.
  - repeat constructor.
  - intros i j (row & E & H). destruct i as [|[|i]]; cbn in E; [| |destruct i; discriminate]; injection E as <-; cbn in H; lia.
  - intros i j Hi. destruct i as [|[|i]]; [| |lia]; destruct j as [|[|j]]; try reflexivity; cbn; do 2 f_equal; lra.
  - intros i Hi _. destruct i as [|[|i]]; cbn; [lra|lra|lia].
Qed.
Lemma spd_ok : symmetric_positive 2 spd_a [].
Proof.
  constructor.
  - intros i j Hi Hj. destruct i as [|[|i]], j as [|[|j]]; try reflexivity; lia.
  - intros z _ (i & Hi & Hz). cbn [sumn spd_a].
    assert (P : z 0%nat <> 0 \/ z 1%nat <> 0) by (destruct i as [|[|i]]; auto; lia).
    assert (0 <= Rsqr (z 0%nat + z 1%nat)) by apply Rle_0_sqr. assert (0 <= Rsqr (z 0%nat)) by apply Rle_0_sqr. assert (0 <= Rsqr (z 1%nat)) by apply Rle_0_sqr.
    assert (Q : 0 < Rsqr (z 0%nat) \/ 0 < Rsqr (z 1%nat)). { destruct P as [P|P]; [left|right]; apply Rlt_0_sqr; exact P. }
    unfold Rsqr in *. nra.
Qed.

Example C89_nonvacuous : exists it' y,
  solve Cg 3 (new_iter (Fin 0 : num XA) false 2) spd_m (vF [0; 0]) (vF [3; 5]) (vF [0; 0]) [] = Some (it', vF y) /\ status it' = CONVERGED /\
  2 * nth 0 y 0 + nth 1 y 0 = 3 /\ nth 0 y 0 + 2 * nth 1 y 0 = 5.
Proof.
  destruct (C89_gradients_converge Cg 3 (new_iter (Fin 0 : num XA) false 2) spd_m 2 spd_a [0; 0] [3; 5] [0; 0] [] 0) as (it' & y & E & S & _ & L & Hr);
    auto using spd_square, spd_ok; try lra; try (cbn; lia).
  exists it', y. split; auto. split; auto. rewrite Rmult_0_l in Hr. cbn [imposed] in Hr. unfold residual in Hr.
  set (Q := sumn 2 _) in Hr.
  assert (Q0 : Q = 0). { apply sqrt_eq_0. { apply sumn_nonneg. intros i _. destruct (masked [] i); [lra|]. apply Rle_0_sqr. } apply Rle_antisym; [exact Hr|apply sqrt_pos]. }
  unfold Q in Q0. cbn [sumn masked in_dec] in Q0. unfold masked in Q0. cbn [in_dec list_rec list_rect nth sumn spd_a] in Q0.
  match type of Q0 with _ + Rsqr ?u + Rsqr ?v = 0 => pose proof (Rle_0_sqr u); pose proof (Rle_0_sqr v); assert (U : Rsqr u = 0) by lra; assert (V : Rsqr v = 0) by lra end.
  apply Rsqr_0_uniq in U. apply Rsqr_0_uniq in V. lra.
Qed.

Print Assumptions C89_gradients_converge.
