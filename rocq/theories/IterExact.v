(** * Exact arithmetic: the residual of the recurrences is the true residual *)
From Coq Require Import Reals List ZArith Arith Bool Lia Lra Psatz.
From Flocq Require Import Core.
From Verif Require Import Arith ArithLaws Sums SparseModel SparseProof IterModel IterProof Ieee IterMask SparseProps.
Import ListNotations.
Local Open Scope R_scope.

Definition masked (ld : list nat) (i : nat) : bool := if in_dec Nat.eq_dec i ld then true else false.

Definition vF (xs : list R) : list (num XA) := map (fun x => Fin x : num XA) xs.

Lemma xn0 : @n0 XA = (Fin 0 : num XA).
Proof. unfold n0. cbn. f_equal. lra. Qed.

Lemma xneq0 : forall r, neq (a := XA) (Fin r) n0 = false -> r <> 0.
Proof. intros r H. rewrite xn0 in H. cbn in H. intros E. rewrite Req_bool_true in H by exact E. discriminate. Qed.

Lemma xneq0t : forall r, neq (a := XA) (Fin r) n0 = true -> r = 0.
Proof. intros r H. rewrite xn0 in H. cbn in H. apply Req_bool_iff in H. exact H. Qed.

Lemma xdiv_fin : forall a b, b <> 0 -> ndiv (a := XA) (Fin a) (Fin b) = Fin (a / b).
Proof. intros a b H. cbn. rewrite Req_bool_false by exact H. reflexivity. Qed.

Lemma xfin_dec : forall x : xr, {r | x = Fin r} + {~ xfin x}.
Proof. intros [r| | |]; [left; eauto|right; auto|right; auto|right; auto]. Qed.

Lemma xopp_fin : forall r, nopp (A := XA) (Fin r) = (Fin (- r) : num XA).
Proof. intros r. unfold nopp. cbn. f_equal. lra. Qed.

Lemma xopp_nf : forall x : xr, ~ xfin x -> ~ xfin (nopp (A := XA) x).
Proof. intros x H. unfold nopp. apply (nf_mul_r XA XA_ieee). exact H. Qed.

Lemma xsub_nf_r : forall a b : xr, ~ xfin b -> ~ xfin (nsub (a := XA) a b).
Proof. intros a b H. destruct a, b; simpl in *; auto. Qed.

(** [v] is the vector (f 0, ..., f (n-1)) *)
Definition isv (n : nat) (v : list (num XA)) (f : nat -> R) : Prop :=
  length v = n /\ forall i, (i < n)%nat -> nth i v n0 = (Fin (f i) : num XA).

Section ops.
Variable n : nat.

Lemma isv_ext : forall v f g, isv n v f -> (forall i, (i < n)%nat -> f i = g i) -> isv n v g.
Proof. intros v f g [H1 H2] E. split; auto. intros i Hi. rewrite <- E by exact Hi. auto. Qed.

Lemma isv_vF : forall xs, length xs = n -> isv n (vF xs) (fun i => nth i xs 0).
Proof.
  intros xs H. unfold vF. split. { rewrite map_length. exact H. }
  intros i Hi. rewrite xn0. apply (map_nth (fun x => Fin x : num XA)).
Qed.

Lemma isv_vF_inv : forall v f, isv n v f -> v = vF (map f (seq 0 n)).
Proof.
  intros v f [Hl Hv]. apply (nth_ext _ _ n0 n0).
  - unfold vF. rewrite !map_length, seq_length. exact Hl.
  - intros i Hi. rewrite Hl in Hi. rewrite Hv by exact Hi. unfold vF. rewrite map_map.
    symmetry. apply nth_error_nth. rewrite nth_error_map, (nth_error_nth_d _ _ 0%nat) by (rewrite seq_length; exact Hi).
    rewrite seq_nth by exact Hi. reflexivity.
Qed.

Lemma isv_scaled_add : forall x y f g a, isv n x f -> isv n y g ->
  isv n (scaled_add x (Fin a : num XA) y) (fun i => g i + a * f i).
Proof.
  intros x y f g a [Hx Ex] [Hy Ey]. split. { len. }
  intros i Hi. unfold scaled_add. rewrite (zip_nth' n) by (auto; len). rewrite Ex, Ey by exact Hi. reflexivity.
Qed.

Lemma isv_add : forall x y f g, isv n x f -> isv n y g -> isv n (vadd_to x y) (fun i => g i + f i).
Proof.
  intros x y f g [Hx Ex] [Hy Ey]. split. { len. }
  intros i Hi. unfold vadd_to. rewrite (zip_nth' n) by (auto; len). rewrite Ex, Ey by exact Hi. reflexivity.
Qed.

Lemma isv_sub : forall x y f g, isv n x f -> isv n y g -> isv n (vsub_from x y) (fun i => g i - f i).
Proof.
  intros x y f g [Hx Ex] [Hy Ey]. split. { len. }
  intros i Hi. unfold vsub_from. rewrite (zip_nth' n) by (auto; len). rewrite Ex, Ey by exact Hi. reflexivity.
Qed.

Lemma isv_scaled : forall x f a, isv n x f -> isv n (scaled (Fin a : num XA) x) (fun i => f i * a).
Proof.
  intros x f a [Hx Ex]. split. { len. }
  intros i Hi. rewrite (scaled_nth' n) by auto. rewrite Ex by exact Hi. reflexivity.
Qed.

Lemma isv_direct : forall x y f g, isv n x f -> isv n y g -> isv n (p_direct x y) (fun i => f i * g i).
Proof.
  intros x y f g [Hx Ex] [Hy Ey]. split. { len. }
  intros i Hi. unfold p_direct. rewrite (zip_nth' n) by (auto; len). rewrite Ex, Ey by exact Hi. reflexivity.
Qed.

Lemma isv_mask : forall ld x f, isv n x f -> isv n (applyMask ld x) (fun i => if masked ld i then 0 else f i).
Proof.
  intros ld x f [Hx Ex]. split. { len. }
  intros i Hi. unfold masked. destruct (in_dec Nat.eq_dec i ld) as [H|H].
  - rewrite mask_nth_in by (auto; lia). apply xn0.
  - rewrite mask_nth_out by exact H. auto.
Qed.

Lemma isv_dot : forall x y f g, isv n x f -> isv n y g -> vdot x y = (Fin (sumn n (fun i => f i * g i)) : num XA).
Proof.
  intros x y f g Hx Hy.
  rewrite (isv_vF_inv _ _ Hx), (isv_vF_inv _ _ Hy). clear Hx Hy x y. unfold vdot.
  assert (E : forall (l : list nat) (acc : R),
    fold_left (fun (s : num XA) p => nadd s (nmul (fst p) (snd p))) (combine (vF (map f l)) (vF (map g l))) (Fin acc : num XA)
    = (Fin (acc + lsum (map (fun i => f i * g i) l)) : num XA)).
  { induction l as [|i l IH]; intros acc.
    - cbn. f_equal. lra.
    - cbn [map vF combine fold_left lsum fst snd].
      change (nadd (a := XA) (Fin acc) (nmul (a := XA) (Fin (f i)) (Fin (g i)))) with (Fin (acc + f i * g i) : num XA).
      unfold vF in IH. rewrite IH. cbn [lsum]. f_equal. lra. }
  rewrite xn0. etransitivity. { apply E. } f_equal. rewrite sumn_lsum. lra.
Qed.

Lemma isv_norm : forall x f, isv n x f -> vnorm2 x = (Fin (sqrt (sumn n (fun i => f i * f i))) : num XA).
Proof.
  intros x f Hx. unfold vnorm2. rewrite (isv_dot _ _ _ _ Hx Hx). cbn.
  assert (H : 0 <= sumn n (fun i => f i * f i)) by (apply sumn_nonneg; intros; apply Rle_0_sqr).
  rewrite Rabs_right by lra. rewrite Rlt_bool_false by exact H. reflexivity.
Qed.

(** a vector with an entry that is not finite *)
Definition notfin (v : list (num XA)) : Prop := length v = n /\ exists i, (i < n)%nat /\ ~ xfin (nth i v n0).

Lemma notfin_norm : forall v, notfin v -> ~ xfin (nabs (a := XA) (vnorm2 v)).
Proof.
  intros v [Hl (i & Hi & Hn)].
  assert (H : ~ xfin (vdot v v)).
  { apply (dot_nf XA_ieee v v i); try lia. apply (nf_mul_l XA XA_ieee). exact Hn. }
  unfold vnorm2. cbn. destruct (vdot v v); simpl in *; auto.
Qed.

Lemma notfin_small : forall (it : iteration XA) v r t, rhsn it = (Fin r : num XA) -> resmax it = (Fin t : num XA) -> notfin v ->
  small it (vnorm2 v) = false.
Proof.
  intros it v r t Hr Ht Hv. apply notfin_norm in Hv. unfold small. rewrite Hr, Ht.
  revert Hv. generalize (vnorm2 v). intros y Hy.
  change (negb (xisnan (xabs y)) && xle (xabs y) (Fin (r * t)) = false). change (~ xfin (xabs y)) in Hy.
  destruct y as [y| | |]; [exfalso; apply Hy; exact I|reflexivity|reflexivity|reflexivity].
Qed.

Lemma small_le : forall (it : iteration XA) r t y, rhsn it = (Fin r : num XA) -> resmax it = (Fin t : num XA) -> 0 <= y ->
  small it (Fin y : num XA) = true -> y <= r * t.
Proof.
  intros it r t y Hr Ht Hy H. unfold small in H. rewrite Hr, Ht in H. cbn in H. rewrite Rabs_right in H by lra.
  change (xle (Fin y) (Fin (r * t)) = true) in H. apply (xle_fin (Fin y) (Fin (r * t)) I I) in H. exact H.
Qed.
End ops.

(** ** The matrix *)
Section matrix.
Variables (M : matrix XA) (a : nat -> nat -> R).
Notation n := (length M).
Hypothesis HwfM : wf M.
Hypothesis Hcol : forall i j, in_shape (shape_of M) i j -> (j < n)%nat.
Hypothesis Hval : forall i j, (i < n)%nat -> mget M i j = Some (Fin (a i j)).

Definition av (f : nat -> R) (i : nat) : R := sumn n (fun j => a i j * f j).

Lemma isv_mult : forall x f, isv n x f -> isv n (mmult M x) (av f).
Proof.
  intros x f Hx. split. { apply mmult_length. }
  intros i Hi. rewrite (isv_vF_inv _ _ _ Hx).
  pose proof (C23_mult M a (map f (seq 0 n)) (mmult M (vF (map f (seq 0 n)))) (seq 0 n) i HwfM Hcol Hval) as H.
  rewrite map_length, seq_length in H.
  specialize (H eq_refl (mmult_length _ _) (Permutation.Permutation_refl _) Hi).
  rewrite mult_any_order in H.
  2: apply mmult_length.
  2: { intros k Hk. apply in_seq. lia. }
  pose proof (@nth_error_nth (num XA) _ _ _ n0 H) as H'. clear H. unfold vF in *. etransitivity. { exact H'. } f_equal. unfold av. apply sumn_ext. intros j Hj.
  f_equal. rewrite (nth_indep _ 0 (f 0%nat)) by (rewrite map_length, seq_length; exact Hj).
  rewrite map_nth, seq_nth by exact Hj. reflexivity.
Qed.

Lemma av_add : forall f g k i, av (fun j => f j + k * g j) i = av f i + k * av g i.
Proof.
  intros f g k i. unfold av. rewrite <- sumn_scale, <- sumn_plus. apply sumn_ext. intros. ring.
Qed.

Variable ld : list nat.
Hypothesis Hdiag : forall i, (i < n)%nat -> ~ In i ld -> a i i <> 0.

Lemma isv_diag : isv n (applyMask ld (diag_precond M)) (fun i => if masked ld i then 0 else / a i i).
Proof.
  split. { len. }
  intros i Hi. unfold masked. destruct (in_dec Nat.eq_dec i ld) as [H|H].
  - rewrite mask_nth_in by (auto; rewrite diag_length; exact Hi). apply xn0.
  - rewrite mask_nth_out by exact H. apply nth_error_nth. apply C24_diag_precond_exact; auto.
Qed.

Lemma diag_in : forall i r, nth_error M i = Some r -> ~ In i ld -> In i (indices r).
Proof.
  intros i r Er Hn. assert (Hi : (i < n)%nat) by (apply nth_error_Some; rewrite Er; discriminate).
  destruct (in_dec Nat.eq_dec i (indices r)) as [|Hni]; auto. exfalso. apply (Hdiag i Hi Hn).
  assert (E : mget M i i = Some n0).
  { apply mget_out; auto. intros (row & E & Hin). rewrite shape_row, Er in E. simpl in E. inversion E; subst. auto. }
  rewrite Hval in E by exact Hi. rewrite xn0 in E. injection E as E. exact E.
Qed.

Variables (D rt : list (num XA)) (fd frt fb : nat -> R) (rn tol : R).
Hypothesis HD : isv n D fd.
Hypothesis Hrt : isv n rt frt.
Hypothesis Hn : (0 < n)%nat.

(** residual of the masked system with right-hand side b *)
Definition resid (f : nat -> R) (i : nat) : R := if masked ld i then 0 else fb i - av f i.
Definition resnorm (f : nat -> R) : R := sqrt (sumn n (fun i => resid f i * resid f i)).

Definition goodit (it : iteration XA) : Prop := rhsn it = (Fin rn : num XA) /\ resmax it = (Fin tol : num XA).

Lemma goodit_same : forall it it', same_params it it' -> goodit it -> goodit it'.
Proof. intros it it' [E1 _ _ E2] [H1 H2]. split; congruence. Qed.

Definition solved (x : list (num XA)) : Prop := exists fx, isv n x fx /\ resnorm fx <= rn * tol.

Lemma resid_norm : forall v f, isv n v (resid f) -> vnorm2 v = (Fin (resnorm f) : num XA).
Proof. intros v f H. apply isv_norm. exact H. Qed.

Lemma resnorm_pos : forall f, 0 <= resnorm f.
Proof. intros. apply sqrt_pos. Qed.

(** residual after a step of length k in direction g *)
Lemma resid_step : forall f g k i,
  resid (fun j => f j + k * g j) i = resid f i - k * (if masked ld i then 0 else av g i).
Proof. intros f g k i. unfold resid. rewrite av_add. destruct (masked ld i); lra. Qed.

(** ** bicg *)
Record bfine (s : bstate XA) : Prop := mkBfine {
  bf_x : exists fx, isv n (b_x s) fx /\ isv n (b_r s) (resid fx);
  bf_p : exists f, isv n (b_p s) f;
  bf_v : exists f, isv n (b_v s) f;
  bf_s : exists al om rh, b_alpha s = (Fin al : num XA) /\ b_omega s = (Fin om : num XA) /\ b_rho2 s = (Fin rh : num XA) }.

Record bex (s : bstate XA) : Prop := mkBex {
  be_it : goodit (b_it s);
  be_or : bfine s \/ notfin n (b_r s) }.

Lemma bicg_pass_exact : forall s, bex s ->
  match bicg_pass M ld D rt s with
  | Stop it x => status it = CONVERGED -> solved x
  | Next s' => bex s'
  end.
Proof.
  intros s [Git Hor]. unfold bicg_pass.
  destruct (finished (b_it s) (vnorm2 (b_r s))) as [f1 it1] eqn:E1.
  apply finished_spec in E1. destruct E1 as (B1 & P1 & N1 & R1 & S1).
  pose proof (goodit_same _ _ P1 Git) as G1.
  destruct Hor as [G|Bad].
  2: { (* not finite *)
    rewrite (notfin_small n _ _ _ _ (proj1 Git) (proj2 Git) Bad) in B1. subst f1. cbv zeta.
    destruct ((0 <? nit it1)%Z && _). { simpl. discriminate. }
    match goal with |- context [finished it1 (vnorm2 ?v)] => set (ss := v) end.
    assert (Hss : notfin n ss).
    { destruct Bad as [Lr (i & Hi & Hnf)]. split. { unfold ss. len. }
      exists i. split; auto. unfold ss, scaled_add. rewrite (zip_nth' n) by (auto; len).
      apply (nf_add_l XA XA_ieee). exact Hnf. }
    destruct (finished it1 (vnorm2 ss)) as [f2 it2] eqn:E2.
    apply finished_spec in E2. destruct E2 as (B2 & P2 & N2 & R2 & S2).
    rewrite (notfin_small n _ _ _ _ (proj1 G1) (proj2 G1) Hss) in B2. subst f2.
    destruct (is_stop (status it2)) eqn:Es. { intros E. rewrite E in Es. discriminate. }
    constructor; cbn [b_it b_r].
    - eapply goodit_same; [|exact G1]. eapply same_trans; [exact P2|]. apply incr_spec.
    - right. destruct Hss as [Ls (i & Hi & Hnf)]. split. { len. }
      exists i. split; auto. unfold vsub_from. rewrite (zip_nth' n) by (auto; len). apply (nf_sub_l XA XA_ieee). exact Hnf. }
  destruct G as [(fx & Hx & Hr) (fp & Hp) (fv & Hv) (al & om & rh & Ea & Eo & Er)].
  destruct f1.
  { intros _. exists fx. split; auto. symmetry in B1. rewrite (resid_norm _ _ Hr) in B1.
    eapply small_le; eauto; try apply Git. apply resnorm_pos. }
  cbv zeta. rewrite Ea, Eo, Er.
  rewrite (isv_dot _ _ _ _ _ Hrt Hr). set (rho1 := sumn n (fun i => frt i * resid fx i)).
  destruct ((0 <? nit it1)%Z && (neq (a := XA) (Fin rh) n0 || neq (a := XA) (Fin om) n0)) eqn:Ec. { simpl. discriminate. }
  match goal with |- context [p_direct D ?q] => set (p := q) end.
  assert (Hp' : exists f, isv n p f).
  { unfold p. destruct (0 <? nit it1)%Z; eauto.
    cbn [andb] in Ec. apply orb_false_elim in Ec. destruct Ec as [Ec1 Ec2].
    rewrite !xdiv_fin by (apply xneq0; assumption).
    change (nmul (a := XA) (Fin (rho1 / rh)) (Fin (al / om))) with (Fin (rho1 / rh * (al / om)) : num XA).
    eexists. apply isv_add; [exact Hr|]. apply isv_scaled. apply isv_sub; [|exact Hp]. apply isv_scaled. exact Hv. }
  clearbody p. destruct Hp' as (fp' & Hp').
  pose proof (isv_direct _ _ _ _ _ HD Hp') as Hph. set (phat := p_direct D p) in *.
  set (fph := fun i => fd i * fp' i) in *.
  pose proof (isv_mask _ ld _ _ (isv_mult _ _ Hph)) as Hv'. set (v := applyMask ld (mmult M phat)) in *.
  rewrite (isv_dot _ _ _ _ _ Hv' Hrt). set (den := sumn n _).
  destruct (xfin_dec (ndiv (a := XA) (Fin rho1) (Fin den))) as [[alpha Eal]|Nal].
  2: { set (alpha := ndiv (a := XA) (Fin rho1) (Fin den)) in *. set (ss := scaled_add v (nopp alpha) (b_r s)).
    assert (Hss : notfin n ss).
    { split. { unfold ss. destruct Hv', Hr. len. }
      exists 0%nat. split; auto. unfold ss, scaled_add. destruct Hv', Hr. rewrite (zip_nth' n) by (auto; len).
      apply (nf_add_r XA XA_ieee). apply (nf_mul_l XA XA_ieee). apply xopp_nf. exact Nal. }
    destruct (finished it1 (vnorm2 ss)) as [f2 it2] eqn:E2.
    apply finished_spec in E2. destruct E2 as (B2 & P2 & N2 & R2 & S2).
    rewrite (notfin_small n _ _ _ _ (proj1 G1) (proj2 G1) Hss) in B2. subst f2.
    destruct (is_stop (status it2)) eqn:Es. { intros E. rewrite E in Es. discriminate. }
    constructor; cbn [b_it b_r].
    - eapply goodit_same; [|exact G1]. eapply same_trans; [exact P2|]. apply incr_spec.
    - right. destruct Hss as [Ls (i & Hi & Hnf)]. split. { len. }
      exists i. split; auto. unfold vsub_from. rewrite (zip_nth' n) by (auto; len). apply (nf_sub_l XA XA_ieee). exact Hnf. }
  rewrite Eal. rewrite xopp_fin.
  set (ss := scaled_add v (Fin (- alpha) : num XA) (b_r s)).
  set (fx1 := fun i => fx i + alpha * fph i).
  assert (Hss : isv n ss (resid fx1)).
  { eapply isv_ext. { apply isv_scaled_add; [exact Hv'|exact Hr]. }
    intros i Hi. unfold fx1. rewrite resid_step. cbn beta. lra. }
  pose proof (isv_scaled_add _ _ _ _ _ alpha Hph Hx) as Hx1. fold fx1 in Hx1.
  destruct (finished it1 (vnorm2 ss)) as [f2 it2] eqn:E2.
  apply finished_spec in E2. destruct E2 as (B2 & P2 & N2 & R2 & S2).
  destruct f2.
  { intros _. exists fx1. split; auto. symmetry in B2. rewrite (resid_norm _ _ Hss) in B2.
    eapply small_le; eauto; try apply G1. apply resnorm_pos. }
  destruct (is_stop (status it2)) eqn:Es. { intros E. rewrite E in Es. discriminate. }
  pose proof (isv_direct _ _ _ _ _ HD Hss) as Hsh. set (shat := p_direct D ss) in *.
  set (fsh := fun i => fd i * resid fx1 i) in *.
  pose proof (isv_mask _ ld _ _ (isv_mult _ _ Hsh)) as Ht. set (t := applyMask ld (mmult M shat)) in *.
  rewrite (isv_dot _ _ _ _ _ Ht Hss), (isv_dot _ _ _ _ _ Ht Ht).
  set (num_ := sumn n _). set (den2 := sumn n _).
  constructor; cbn [b_it b_r].
  { eapply goodit_same; [|exact G1]. eapply same_trans; [exact P2|]. apply incr_spec. }
  destruct (xfin_dec (ndiv (a := XA) (Fin num_) (Fin den2))) as [[omega Eom]|Nom].
  - left. rewrite Eom. constructor; cbn [b_x b_r b_p b_v b_alpha b_omega b_rho2]; eauto.
    + exists (fun i => fx1 i + omega * fsh i). split. { apply isv_scaled_add; auto. }
      eapply isv_ext. { apply isv_sub; [|exact Hss]. apply isv_scaled. exact Ht. }
      intros i Hi. rewrite resid_step. cbn beta. lra.
    + exists alpha, omega, rho1. auto.
  - right. split. { destruct Ht, Hss. len. }
    exists 0%nat. split; auto. unfold vsub_from. destruct Ht as [Lt _], Hss as [Ls _]. rewrite (zip_nth' n) by (auto; len).
    apply xsub_nf_r. rewrite (scaled_nth' n) by (auto; len). apply (nf_mul_r XA XA_ieee). exact Nom.
Qed.

Lemma bicg_loop_exact : forall fuel s it x, bex s -> bicg_loop fuel M ld D rt s = Some (it, x) ->
  status it = CONVERGED -> solved x.
Proof.
  induction fuel as [|fuel IH]; intros s it x H E; [discriminate|]. cbn [bicg_loop] in E.
  pose proof (bicg_pass_exact s H) as K. destruct (bicg_pass M ld D rt s) as [it' x'|s'].
  - inversion E; subst. exact K.
  - eauto.
Qed.

(** ** cg *)
Record cfine (s : cstate XA) : Prop := mkCfine {
  cf_x : exists fx, isv n (c_x s) fx /\ isv n (c_r s) (resid fx);
  cf_p : exists f, isv n (c_p s) f;
  cf_s : exists rh rh1, c_rho s = (Fin rh : num XA) /\ c_rho1 s = (Fin rh1 : num XA) }.

Record cex (s : cstate XA) : Prop := mkCex {
  ce_it : goodit (c_it s);
  ce_or : cfine s \/ notfin n (c_r s) }.

Lemma cg_pass_exact : forall s, cex s ->
  match cg_pass M ld D s with
  | Stop it x => status it = CONVERGED -> solved x
  | Next s' => cex s'
  end.
Proof.
  intros s [Git Hor]. unfold cg_pass.
  destruct (finished (c_it s) (vnorm2 (c_r s))) as [f1 it1] eqn:E1.
  apply finished_spec in E1. destruct E1 as (B1 & P1 & N1 & R1 & S1).
  pose proof (goodit_same _ _ P1 Git) as G1.
  assert (G2 : goodit (incr it1)). { eapply goodit_same; [|exact G1]. apply incr_spec. }
  destruct Hor as [G|Bad].
  2: { rewrite (notfin_small n _ _ _ _ (proj1 Git) (proj2 Git) Bad) in B1. subst f1. cbn [orb].
    destruct (is_stop (status it1)) eqn:Es. { intros E. rewrite E in Es. discriminate. }
    destruct (if (0 <? nit it1)%Z then _ else _) as [p rho]. cbv zeta.
    destruct (neq _ n0). { simpl. discriminate. }
    constructor; cbn [c_it c_r]; auto. right.
    destruct Bad as [Lr (i & Hi & Hnf)]. split. { len. }
    exists i. split; auto. unfold scaled_add. rewrite (zip_nth' n) by (auto; len). apply (nf_add_l XA XA_ieee). exact Hnf. }
  destruct G as [(fx & Hx & Hr) (fp & Hp) (rh & rh1 & Er & Er1)].
  destruct f1.
  { cbn [orb]. intros _. exists fx. split; auto. symmetry in B1. rewrite (resid_norm _ _ Hr) in B1.
    eapply small_le; eauto; try apply Git. apply resnorm_pos. }
  cbn [orb]. destruct (is_stop (status it1)) eqn:Es. { intros E. rewrite E in Es. discriminate. }
  rewrite Er, Er1.
  pose proof (isv_direct _ _ _ _ _ HD Hr) as Hz. rewrite (isv_dot _ _ _ _ _ Hz Hr).
  set (z := p_direct D (c_r s)) in *. set (rho' := sumn n _).
  (* direction: finite, or none of its entries is *)
  assert (Hdir : forall p rho, (if (0 <? nit it1)%Z then
      (vadd_to z (scaled (ndiv (a := XA) (Fin rho') (Fin rh1)) (c_p s)), (Fin rho' : num XA)) else (c_p s, (Fin rh : num XA))) = (p, rho) ->
      length p = n /\ (exists r0, rho = (Fin r0 : num XA)) /\ ((exists f, isv n p f) \/ forall i, (i < n)%nat -> ~ xfin (nth i p n0))).
  { intros p rho E. destruct (0 <? nit it1)%Z; pose proof (f_equal fst E) as E'; pose proof (f_equal snd E) as E''; cbn [fst snd] in E', E'';
      clear E; subst p rho.
    - destruct (xfin_dec (ndiv (a := XA) (Fin rho') (Fin rh1))) as [[q Eq]|Nq].
      + rewrite Eq. pose proof (isv_add _ _ _ _ _ Hz (isv_scaled _ _ _ q Hp)) as H. split. { apply H. } split; eauto.
      + destruct Hz as [Lz _], Hp as [Lp _]. split. { len. } split; eauto. right. intros i Hi.
        unfold vadd_to. rewrite (zip_nth' n) by (auto; len). apply (nf_add_l XA XA_ieee).
        rewrite (scaled_nth' n) by (auto; len). apply (nf_mul_r XA XA_ieee). exact Nq.
    - split. { apply Hp. } split; eauto. }
  destruct (if (0 <? nit it1)%Z then _ else _) as [p rho].
  destruct (Hdir p rho eq_refl) as (Lp & (r0 & ->) & Hpf). clear Hdir. cbv zeta.
  destruct Hr as [Lr Hr0]. pose proof (conj Lr Hr0 : isv n (c_r s) (resid fx)) as Hr.
  destruct Hpf as [(f & Hpf)|Hnf].
  - pose proof (isv_mask _ ld _ _ (isv_mult _ _ Hpf)) as Hq. set (q := applyMask ld (mmult M p)) in *.
    rewrite (isv_dot _ _ _ _ _ Hq Hpf). set (qp := sumn n _).
    destruct (neq (a := XA) (Fin qp) n0) eqn:Eqp. { simpl. discriminate. }
    rewrite xdiv_fin by (apply xneq0; exact Eqp). set (k := r0 / qp). rewrite xopp_fin.
    constructor; cbn [c_it]; auto. left. constructor; cbn [c_x c_r c_p c_rho c_rho1]; eauto.
    exists (fun i => fx i + k * f i). split. { apply isv_scaled_add; auto. }
    eapply isv_ext. { apply isv_scaled_add; [exact Hq|exact Hr]. }
    intros i Hi. rewrite resid_step. cbn beta. lra.
  - set (q := applyMask ld (mmult M p)).
    assert (Lq : length q = n) by (unfold q; len).
    destruct (neq (vdot q p) n0). { simpl. discriminate. }
    constructor; cbn [c_it c_r]; auto. right. split. { len. }
    exists 0%nat. split; auto. unfold scaled_add. rewrite (zip_nth' n) by (auto; len). apply (nf_add_r XA XA_ieee).
    destruct (in_dec Nat.eq_dec 0%nat ld) as [Hm|Hm].
    + apply (nf_mul_l XA XA_ieee). apply xopp_nf. apply (nan_fin XA XA_ieee). apply (nan_div_r XA XA_ieee).
      apply (dot_nan XA_ieee) with (i := 0%nat); try lia. unfold q. rewrite mask_nth_in by (auto; rewrite mmult_length; auto).
      apply (mul_zn XA XA_ieee). { apply (zer_n0 XA XA_ieee). } apply Hnf. exact Hn.
    + apply (nf_mul_r XA XA_ieee). unfold q. rewrite mask_nth_out by exact Hm.
      destruct (nth_error M 0) as [r|] eqn:E0. 2: { apply nth_error_None in E0. lia. }
      rewrite (mmult_nth _ _ _ _ E0). apply (row_nf XA_ieee) with (k := 0%nat).
      * exact (proj2 (wf_row _ _ _ HwfM E0)).
      * eapply diag_in; eauto.
      * apply Hnf. exact Hn.
Qed.

Lemma cg_loop_exact : forall fuel s it x, cex s -> cg_loop fuel M ld D s = Some (it, x) ->
  status it = CONVERGED -> solved x.
Proof.
  induction fuel as [|fuel IH]; intros s it x H E; [discriminate|]. cbn [cg_loop] in E.
  pose proof (cg_pass_exact s H) as K. destruct (cg_pass M ld D s) as [it' x'|s'].
  - inversion E; subst. exact K.
  - eauto.
Qed.
End matrix.
