(** * Properties C25-C29: the iterative solvers *)
From Coq Require Import Reals List ZArith Arith Bool Lia Lra.
From Flocq Require Import Core IEEE754.BinarySingleNaN.
From Verif Require Import Arith ArithLaws Sums SparseModel SparseProof IterModel IterProof Ieee IterMask IterExact SparseProps.
Import ListNotations.

(** ** C25: the monitor *)
Theorem C25_monitor_verdict : forall (A : arith) (it it' : iteration A) (nr : num A) (b : bool),
  finished it nr = (b, it') ->
  (b = true <-> nisnan (nabs nr) = false /\ nle (nabs nr) (nmul (rhsn it) (resmax it)) = true) /\
  status it' = (if nisnan (nabs nr) then CANNOT_CONVERGE else if b then CONVERGED else status it) /\
  res it' = nabs nr /\ nit it' = nit it /\ maxiter it' = maxiter it /\ resmax it' = resmax it /\ rhsn it' = rhsn it.
Proof.
  intros A it it' nr b H. apply finished_spec in H. destruct H as (Hb & P & N & R0 & S0). split; [|split; auto].
  - rewrite Hb. unfold small. destruct (nisnan (nabs nr)); simpl; intuition congruence.
  - destruct P. auto.
Qed.

(** with real numbers *)
Theorem C25_monitor_exact : forall (it it' : iteration XA) (y r tol : R) (b : bool),
  rhsn it = Fin r -> resmax it = Fin tol -> finished it (Fin y : num XA) = (b, it') ->
  (b = true <-> (Rabs y <= tol * r)%R) /\ (b = true -> status it' = CONVERGED).
Proof.
  intros it it' y r tol b Hr Ht H. apply C25_monitor_verdict in H. destruct H as (H1 & H2 & _). rewrite Hr, Ht in H1. split.
  - rewrite H1. change (xisnan (xabs (Fin y)) = false /\ xle (Fin (Rabs y)) (Fin (r * tol)) = true <-> (Rabs y <= tol * r)%R).
    rewrite (xle_fin (Fin (Rabs y)) (Fin (r * tol)) I I). simpl. rewrite (Rmult_comm tol r). tauto.
  - intros Hb. subst b. rewrite H2. reflexivity.
Qed.

Theorem C25_monitor_nan : forall (it it' : iteration B64) (b : bool),
  finished it (B754_nan : num B64) = (b, it') -> b = false /\ status it' = CANNOT_CONVERGE.
Proof.
  intros it it' b H. apply C25_monitor_verdict in H. destruct H as (H1 & H2 & _).
  change (nisnan (a := B64) (nabs (a := B64) B754_nan)) with true in *. split; auto.
  destruct b; auto. destruct (proj1 H1 eq_refl). discriminate.
Qed.

Theorem C25_counter : forall (A : arith) (it : iteration A),
  nit (incr it) = (nit it + 1)%Z /\
  status (incr it) = (if (maxiter it <=? nit it + 1)%Z then ITER_OVERFLOW else status it) /\
  maxiter (incr it) = maxiter it /\ resmax (incr it) = resmax it /\ rhsn (incr it) = rhsn it.
Proof. intros A it. destruct (incr_spec it) as (P & N & S0). destruct P. auto. Qed.

Example C25_example : fst (finished (new_iter (Fin (1 / 2) : num XA) false 10) (Fin (- (1 / 4)) : num XA)) = true.
Proof.
  destruct (finished _ _) as [b it'] eqn:E. simpl.
  apply C25_monitor_exact with (r := (1 / 1)%R) (tol := (1 / 2)%R) in E; try reflexivity. apply E.
  rewrite Rabs_Ropp, Rabs_right; lra.
Qed.

(** ** The five entry points (cg, cg_dir, bicg and the two forms of bicg_dir) *)
Inductive solver := Bicg | BicgDir0 | BicgDir | Cg | CgDir.

Definition solve {A : arith} (s : solver) (fuel : nat) (it : iteration A) (M : matrix A) (x rhs xd : list (num A)) (ld : list nat)
  : option (iteration A * list (num A)) :=
  match s with
  | Bicg => bicg fuel it M x rhs
  | BicgDir0 => bicg_dir0 fuel it M x rhs ld
  | BicgDir => bicg_dir fuel it M x rhs xd ld
  | Cg => cg fuel it M x rhs
  | CgDir => cg_dir fuel it M x rhs xd ld
  end.

(** the unknowns that are imposed *)
Definition imposed (s : solver) (ld : list nat) : list nat := match s with Bicg | Cg => [] | _ => ld end.
(** does the call take prescribed values? *)
Definition with_values (s : solver) : bool := match s with BicgDir | CgDir => true | _ => false end.

(** ** C26, C29: the solvers stop, with a verdict *)
Theorem C26_solvers_stop : forall (A : arith) (s : solver) (it : iteration A) (M : matrix A) (x rhs xd : list (num A)) (ld : list nat),
  exists it' x',
    (forall passes, Nat.max 1 (Z.to_nat (maxiter it - nit it)) < passes -> solve s passes it M x rhs xd ld = Some (it', x')) /\
    (nit it <= nit it' <= Z.max (nit it + 1) (maxiter it))%Z /\
    (status it' = CONVERGED \/ status it' = ITER_OVERFLOW \/ status it' = CANNOT_CONVERGE) /\
    maxiter it' = maxiter it /\ resmax it' = resmax it.
Proof.
  intros A s it M x rhs xd ld.
  set (k := Z.to_nat (maxiter it - nit it)).
  assert (Hb : forall ld D rt (st : bstate A), maxiter (b_it st) = maxiter it -> nit (b_it st) = nit it -> resmax (b_it st) = resmax it ->
    exists it' x', (forall passes, Nat.max 1 k < passes -> bicg_loop passes M ld D rt st = Some (it', x')) /\
    (nit it <= nit it' <= Z.max (nit it + 1) (maxiter it))%Z /\
    (status it' = CONVERGED \/ status it' = ITER_OVERFLOW \/ status it' = CANNOT_CONVERGE) /\
    maxiter it' = maxiter it /\ resmax it' = resmax it).
  { intros ld0 D rt st E1 E2 E3.
    destruct (bicg_loop_ends M ld0 D rt k st (S (Nat.max 1 k))) as (it' & x' & H & P & N & S0 & _).
    { rewrite E1, E2. apply Nat.le_refl. } { left. lia. }
    exists it', x'. rewrite E1, E2 in N. repeat split; try apply N; auto.
    - intros p Hp. eapply bicg_loop_fuel; [exact H|]. lia.
    - destruct P. congruence.
    - destruct P. congruence. }
  assert (Hc : forall ld D (st : cstate A), maxiter (c_it st) = maxiter it -> nit (c_it st) = nit it -> resmax (c_it st) = resmax it ->
    exists it' x', (forall passes, Nat.max 1 k < passes -> cg_loop passes M ld D st = Some (it', x')) /\
    (nit it <= nit it' <= Z.max (nit it + 1) (maxiter it))%Z /\
    (status it' = CONVERGED \/ status it' = ITER_OVERFLOW \/ status it' = CANNOT_CONVERGE) /\
    maxiter it' = maxiter it /\ resmax it' = resmax it).
  { intros ld0 D st E1 E2 E3.
    destruct (cg_loop_ends M ld0 D k st (S (Nat.max 1 k))) as (it' & x' & H & P & N & S0 & _).
    { rewrite E1, E2. apply Nat.le_refl. } { left. lia. }
    exists it', x'. rewrite E1, E2 in N. repeat split; try apply N; auto.
    - intros p Hp. eapply cg_loop_fuel; [exact H|]. lia.
    - destruct P. congruence.
    - destruct P. congruence. }
  destruct s; unfold solve, bicg, bicg_dir, bicg_dir0, cg, cg_dir.
  - apply Hb; reflexivity.
  - apply Hb; reflexivity.
  - match goal with |- context [bicg_loop _ M ld ?D ?rt ?st] => destruct (Hb ld D rt st) as (it' & x' & H & K); try reflexivity end.
    exists it', (vadd_to xd x'). split; auto. intros p Hp. rewrite H by exact Hp. reflexivity.
  - apply Hc; reflexivity.
  - match goal with |- context [cg_loop _ M ld ?D ?st] => destruct (Hc ld D st) as (it' & x' & H & K); try reflexivity end.
    exists it', (vadd_to xd x'). split; auto. intros p Hp. rewrite H by exact Hp. reflexivity.
Qed.

(** ** C27 *)
Local Open Scope R_scope.

(** Euclidean norm of rhs - A x over the equations that are not replaced by an imposed value *)
Definition residual (n : nat) (a : nat -> nat -> R) (ld : list nat) (rhs x : list R) : R :=
  sqrt (sumn n (fun i => if masked ld i then 0
    else Rsqr (nth i rhs 0 - sumn n (fun j => a i j * nth j x 0)))).

(** [M] is the finite square matrix [a] with a non-zero diagonal outside [ld] *)
Record square_matrix (M : matrix XA) (n : nat) (a : nat -> nat -> R) (ld : list nat) : Prop := mkSquare {
  sq_size : length M = n;
  sq_wf : wf M;
  sq_col : forall i j, in_shape (shape_of M) i j -> (j < n)%nat;
  sq_val : forall i j, (i < n)%nat -> mget M i j = Some (Fin (a i j));
  sq_diag : forall i, (i < n)%nat -> ~ In i ld -> a i i <> 0 }.

(** where the relative criterion starts from: the imposed values, and zero elsewhere *)
Definition origin (s : solver) (n : nat) (xd : list R) : list R := if with_values s then xd else repeat 0 n.

Definition lplus (x y : list R) : list R := map (fun p => fst p + snd p) (combine x y).
(** the guess that the solver really starts from *)
Definition guess (s : solver) (x xd : list R) : list R := if with_values s then lplus x xd else x.

Lemma nth_lplus : forall n x y i, length x = n -> length y = n -> (i < n)%nat -> nth i (lplus x y) 0 = nth i x 0 + nth i y 0.
Proof.
  intros n x y i Hx Hy Hi. unfold lplus.
  rewrite (nth_indep _ 0 ((fun p => fst p + snd p) (0, 0))) by (rewrite map_length, combine_length; lia).
  rewrite (map_nth (fun p : R * R => fst p + snd p)), combine_nth by congruence. reflexivity.
Qed.

Lemma lplus_length : forall n x y, length x = n -> length y = n -> length (lplus x y) = n.
Proof. intros. unfold lplus. rewrite map_length, combine_length. lia. Qed.

Lemma masked_nil : forall i, masked [] i = false.
Proof. reflexivity. Qed.

Section exact.
Variables (M : matrix XA) (n : nat) (a : nat -> nat -> R) (ld : list nat).
Hypothesis HM : square_matrix M n a ld.
Hypothesis Hn : (0 < n)%nat.
Variables (xs rhs xd : list R).
Hypothesis Hxs : length xs = n.
Hypothesis Hrhs : length rhs = n.
Hypothesis Hxd : length xd = n.

Notation fx := (fun i => nth i xs 0).

(** the effective right-hand side *)
Definition beff (w : bool) (i : nat) : R :=
  if masked ld i then 0 else if w then nth i rhs 0 - av M a (fun j => nth j xd 0) i else nth i rhs 0.

Lemma resnorm_residual : forall (w : bool) (f : nat -> R) (ys : list R), length ys = n ->
  (forall i, (i < n)%nat -> nth i ys 0 = if w then f i + nth i xd 0 else f i) ->
  resnorm M a ld (beff w) f = residual n a ld rhs ys.
Proof.
  intros w f ys Hl Hy. unfold resnorm, residual. rewrite (sq_size _ _ _ _ HM). f_equal. apply sumn_ext. intros i Hi.
  unfold resid, beff. destruct (masked ld i); try ring. unfold Rsqr, av. rewrite (sq_size _ _ _ _ HM).
  rewrite (sumn_ext n (fun j => a i j * nth j ys 0)
    (fun j => a i j * f j + (if w then a i j * nth j xd 0 else 0))).
  2: { intros j Hj. rewrite Hy by exact Hj. destruct w; ring. }
  rewrite sumn_plus. destruct w.
  - ring.
  - rewrite (sumn_zero n (fun _ => 0)) by auto. ring.
Qed.

Lemma norm_beff : forall w : bool, sqrt (sumn n (fun i => beff w i * beff w i)) =
  residual n a ld rhs (if w then xd else repeat 0 n).
Proof.
  intros w. unfold residual. f_equal. apply sumn_ext. intros i Hi. unfold beff.
  destruct (masked ld i); try ring. unfold Rsqr. destruct w.
  - unfold av. rewrite (sq_size _ _ _ _ HM). reflexivity.
  - rewrite sumn_zero. { ring. } intros j Hj. rewrite nth_repeat. ring.
Qed.

Lemma isv_A : forall x f, isv n x f -> isv n (mmult M x) (av M a f).
Proof.
  pose proof (isv_mult M a (sq_wf _ _ _ _ HM)) as HA. rewrite (sq_size _ _ _ _ HM) in HA.
  exact (HA (sq_col _ _ _ _ HM) (sq_val _ _ _ _ HM)).
Qed.

Lemma isv_b : forall w : bool, isv n (applyMask ld (if w then vsub_from (mmult M (vF xd)) (vF rhs) else vF rhs)) (beff w).
Proof.
  intros w. pose proof (isv_vF n rhs Hrhs) as H1. pose proof (isv_vF n xd Hxd) as H2.
  destruct w.
  - eapply isv_ext. { apply isv_mask. apply isv_sub; [|exact H1]. apply isv_A. exact H2. }
    intros i Hi. reflexivity.
  - eapply isv_ext. { apply isv_mask. exact H1. } intros i Hi. reflexivity.
Qed.

Lemma isv_r0 : forall (w : bool) b, isv n b (beff w) -> isv n (applyMask ld (vsub_from (mmult M (vF xs)) b)) (resid M a ld (beff w) fx).
Proof.
  intros w b Hb. pose proof (isv_vF n xs Hxs) as H2.
  eapply isv_ext. { apply isv_mask. apply isv_sub; [|exact Hb]. apply isv_A. exact H2. }
  intros i Hi. reflexivity.
Qed.

Variables (it : iteration XA) (tol : R).
Hypothesis Htol : resmax it = (Fin tol : num XA).

Definition init_b (w : bool) : list (num XA) := applyMask ld (if w then vsub_from (mmult M (vF xd)) (vF rhs) else vF rhs).
Definition init_r (w : bool) : list (num XA) := applyMask ld (vsub_from (mmult M (vF xs)) (init_b w)).
Definition init_bicg (w : bool) : bstate XA :=
  mkB (set_rhsnorm it (vnorm2 (init_b w))) (vF xs) (init_r w) (init_r w) (mmult M (vF xs)) n0 n0 n0.
Definition init_cg (w : bool) : cstate XA :=
  let z := p_direct (applyMask ld (diag_precond M)) (init_r w) in
  mkC (set_rhsnorm it (vnorm2 (init_b w))) (vF xs) (init_r w) z (vdot z (init_r w)) n0.

Notation rn w := (residual n a ld rhs (if w then xd else repeat 0 n)).

Lemma init_good : forall w : bool, goodit (rn w) tol (set_rhsnorm it (vnorm2 (init_b w))).
Proof.
  intros w. split; [|exact Htol]. cbn [rhsn set_rhsnorm]. unfold init_b.
  rewrite (isv_norm n _ _ (isv_b w)). f_equal. apply norm_beff.
Qed.

Lemma diag_isv : isv n (applyMask ld (diag_precond M)) (fun i => if masked ld i then 0 else / a i i).
Proof.
  pose proof (isv_diag M a) as H. rewrite (sq_size _ _ _ _ HM) in H. apply H.
  - apply (sq_val _ _ _ _ HM). - apply (sq_diag _ _ _ _ HM).
Qed.

Lemma init_bex : forall w : bool, bex M a ld (beff w) (rn w) tol (init_bicg w).
Proof.
  intros w. constructor; cbn [init_bicg b_it b_x b_r b_p b_v b_alpha b_omega b_rho2]. { apply init_good. }
  left. pose proof (isv_r0 w _ (isv_b w)) as Hr. fold (init_b w) in Hr. fold (init_r w) in Hr.
  constructor; cbn [init_bicg b_it b_x b_r b_p b_v b_alpha b_omega b_rho2]; try rewrite (sq_size _ _ _ _ HM); eauto.
  - exists fx. split; auto. apply isv_vF. exact Hxs.
  - eexists. apply isv_A. apply isv_vF. exact Hxs.
  - exists 0, 0, 0. rewrite !xn0. auto.
Qed.

Lemma init_cex : forall w : bool, cex M a ld (beff w) (rn w) tol (init_cg w).
Proof.
  intros w. constructor; cbn [init_cg c_it c_x c_r c_p c_rho c_rho1]. { apply init_good. }
  left. pose proof (isv_r0 w _ (isv_b w)) as Hr. fold (init_b w) in Hr. fold (init_r w) in Hr.
  pose proof (isv_direct n _ _ _ _ diag_isv Hr) as Hz.
  constructor; cbn [init_cg c_it c_x c_r c_p c_rho c_rho1]; try rewrite (sq_size _ _ _ _ HM); eauto.
  - exists fx. split; auto. apply isv_vF. exact Hxs.
  - rewrite (isv_dot n _ _ _ _ Hz Hr), xn0. eauto.
Qed.

Lemma solved_residual : forall (w : bool) x, solved M a ld (beff w) (rn w) tol x ->
  exists ys, (if w then vadd_to (vF xd) x else x) = vF ys /\ length ys = n /\
    residual n a ld rhs ys <= tol * rn w.
Proof.
  intros w x (f & Hf & Hr). rewrite (sq_size _ _ _ _ HM) in Hf.
  set (g := if w then (fun i => f i + nth i xd 0) else f).
  assert (Hg : isv n (if w then vadd_to (vF xd) x else x) g).
  { destruct w; unfold g; auto. apply isv_add; auto. apply isv_vF. exact Hxd. }
  exists (map g (seq 0 n)). split; [|split].
  - apply isv_vF_inv. exact Hg.
  - rewrite map_length, seq_length. reflexivity.
  - rewrite <- (resnorm_residual w f). { lra. }
    + rewrite map_length, seq_length. reflexivity.
    + intros i Hi. rewrite (nth_indep _ 0 (g 0%nat)) by (rewrite map_length, seq_length; exact Hi).
      rewrite map_nth, seq_nth by exact Hi. unfold g. destruct w; reflexivity.
Qed.

Lemma bicg_solved : forall (w : bool) fuel it' x',
  bicg_loop fuel M ld (applyMask ld (diag_precond M)) (init_r w) (init_bicg w) = Some (it', x') -> status it' = CONVERGED ->
  solved M a ld (beff w) (rn w) tol x'.
Proof.
  intros w fuel it' x' H Hs. pose proof (isv_r0 w _ (isv_b w)) as Hr. fold (init_b w) in Hr. fold (init_r w) in Hr.
  pose proof diag_isv as HD.
  pose proof (bicg_loop_exact M a (sq_wf _ _ _ _ HM)) as K. rewrite (sq_size _ _ _ _ HM) in K.
  eapply (K (sq_col _ _ _ _ HM) (sq_val _ _ _ _ HM) ld _ _ _ _ (beff w) (rn w) tol HD Hr Hn); eauto.
  apply init_bex.
Qed.

Lemma cg_solved : forall (w : bool) fuel it' x',
  cg_loop fuel M ld (applyMask ld (diag_precond M)) (init_cg w) = Some (it', x') -> status it' = CONVERGED ->
  solved M a ld (beff w) (rn w) tol x'.
Proof.
  intros w fuel it' x' H Hs. pose proof diag_isv as HD.
  pose proof (cg_loop_exact M a (sq_wf _ _ _ _ HM)) as K. rewrite (sq_size _ _ _ _ HM) in K.
  eapply (K (sq_col _ _ _ _ HM) (sq_val _ _ _ _ HM) ld (sq_diag _ _ _ _ HM) _ _ (beff w) (rn w) tol HD Hn); eauto.
  apply init_cex.
Qed.

(** a guess that is already good enough *)
Lemma init_small : forall w : bool, resnorm M a ld (beff w) fx <= tol * rn w ->
  small (set_rhsnorm it (vnorm2 (init_b w))) (vnorm2 (init_r w)) = true.
Proof.
  intros w H. pose proof (isv_r0 w _ (isv_b w)) as Hr. fold (init_b w) in Hr. fold (init_r w) in Hr.
  rewrite <- (sq_size _ _ _ _ HM) in Hr.
  rewrite (resid_norm _ _ _ _ _ _ Hr). unfold small. destruct (init_good w) as [E1 E2]. rewrite E1, E2.
  change (negb (xisnan (xabs (Fin (resnorm M a ld (beff w) fx)))) && xle (xabs (Fin (resnorm M a ld (beff w) fx))) (Fin (rn w * tol)) = true).
  cbn [xabs xisnan negb andb]. rewrite Rabs_right by (pose proof (resnorm_pos M a ld (beff w) fx); lra).
  apply (xle_fin (Fin _) (Fin _) I I). simpl. lra.
Qed.

Lemma bicg_untouched : forall (w : bool) fuel, resnorm M a ld (beff w) fx <= tol * rn w ->
  exists it', bicg_loop (S fuel) M ld (applyMask ld (diag_precond M)) (init_r w) (init_bicg w) = Some (it', vF xs) /\
    status it' = CONVERGED /\ nit it' = nit it.
Proof.
  intros w fuel H. apply init_small in H. cbn [bicg_loop]. unfold bicg_pass. cbn [init_bicg b_it b_x b_r].
  destruct (finished _ _) as [b it'] eqn:E. apply finished_spec in E. destruct E as (E1 & _ & E2 & _ & E4).
  rewrite H in E1. subst b. exists it'. split; auto. split; auto.
  rewrite E4. unfold small in H. apply andb_prop in H. destruct H as [H _].
  match goal with |- context [nisnan ?x] => destruct (nisnan x) end; auto. discriminate.
Qed.

Lemma cg_untouched : forall (w : bool) fuel, resnorm M a ld (beff w) fx <= tol * rn w ->
  exists it', cg_loop (S fuel) M ld (applyMask ld (diag_precond M)) (init_cg w) = Some (it', vF xs) /\
    status it' = CONVERGED /\ nit it' = nit it.
Proof.
  intros w fuel H. apply init_small in H. cbn [cg_loop]. unfold cg_pass. cbn [init_cg c_it c_x c_r].
  destruct (finished _ _) as [b it'] eqn:E. apply finished_spec in E. destruct E as (E1 & _ & E2 & _ & E4).
  rewrite H in E1. subst b. exists it'. split; auto. split; auto.
  rewrite E4. unfold small in H. apply andb_prop in H. destruct H as [H _].
  match goal with |- context [nisnan ?x] => destruct (nisnan x) end; auto. discriminate.
Qed.
End exact.

(** If the solver answers CONVERGED, all unknowns are finite and the true residual is small. *)
Theorem C27_converged_residual :
  forall (s : solver) (passes : nat) (it it' : iteration XA) (M : matrix XA) (n : nat) (a : nat -> nat -> R)
    (x rhs xd : list R) (ld : list nat) (tol : R) (x' : list (num XA)),
  square_matrix M n a (imposed s ld) -> (0 < n)%nat ->
  length x = n -> length rhs = n -> length xd = n -> resmax it = (Fin tol : num XA) ->
  solve s passes it M (vF x) (vF rhs) (vF xd) ld = Some (it', x') -> status it' = CONVERGED ->
  exists y : list R, x' = vF y /\ length y = n /\
    residual n a (imposed s ld) rhs y <= tol * residual n a (imposed s ld) rhs (origin s n xd).
Proof.
  intros s passes it it' M n a x rhs xd ld tol x' HM Hn Hx Hr Hd Ht H Hs.
  destruct s; cbn [imposed origin with_values solve] in *.
  - apply (solved_residual M n a [] HM rhs xd Hd tol false x').
    eapply (bicg_solved M n a [] HM Hn x rhs xd Hx Hr Hd it tol Ht false); eauto.
  - apply (solved_residual M n a ld HM rhs xd Hd tol false x').
    eapply (bicg_solved M n a ld HM Hn x rhs xd Hx Hr Hd it tol Ht false); eauto.
  - unfold bicg_dir in H. destruct (bicg_loop _ _ _ _ _ _) as [[i y]|] eqn:E; [|discriminate]. inversion H; subst i x'.
    apply (solved_residual M n a ld HM rhs xd Hd tol true y).
    eapply (bicg_solved M n a ld HM Hn x rhs xd Hx Hr Hd it tol Ht true); eauto.
  - apply (solved_residual M n a [] HM rhs xd Hd tol false x').
    eapply (cg_solved M n a [] HM Hn x rhs xd Hx Hr Hd it tol Ht false); eauto.
  - unfold cg_dir in H. destruct (cg_loop _ _ _ _ _) as [[i y]|] eqn:E; [|discriminate]. inversion H; subst i x'.
    apply (solved_residual M n a ld HM rhs xd Hd tol true y).
    eapply (cg_solved M n a ld HM Hn x rhs xd Hx Hr Hd it tol Ht true); eauto.
Qed.

(** ** C29, second part: a guess that is good enough is returned untouched *)
Lemma vadd_vF : forall n x y, length x = n -> length y = n -> vadd_to (vF y) (vF x) = vF (lplus x y).
Proof.
  intros n x y Hx Hy.
  pose proof (isv_add n _ _ _ _ (isv_vF n y Hy) (isv_vF n x Hx)) as H.
  pose proof (isv_vF n (lplus x y) (lplus_length n x y Hx Hy)) as K.
  rewrite (isv_vF_inv _ _ _ H), (isv_vF_inv _ _ _ K). f_equal. apply map_ext_in. intros i Hi. apply in_seq in Hi.
  symmetry. apply (nth_lplus n); auto. lia.
Qed.

Theorem C29_good_guess_untouched :
  forall (s : solver) (passes : nat) (it : iteration XA) (M : matrix XA) (n : nat) (a : nat -> nat -> R)
    (x rhs xd : list R) (ld : list nat) (tol : R),
  square_matrix M n a (imposed s ld) -> (0 < n)%nat ->
  length x = n -> length rhs = n -> length xd = n -> resmax it = (Fin tol : num XA) ->
  residual n a (imposed s ld) rhs (guess s x xd) <= tol * residual n a (imposed s ld) rhs (origin s n xd) ->
  exists it', solve s (S passes) it M (vF x) (vF rhs) (vF xd) ld = Some (it', vF (guess s x xd)) /\
    status it' = CONVERGED /\ nit it' = nit it.
Proof.
  intros s passes it M n a x rhs xd ld tol HM Hn Hx Hr Hd Ht H.
  destruct s; cbn [imposed origin guess with_values solve] in *.
  - rewrite <- (resnorm_residual M n a [] HM rhs xd false (fun i => nth i x 0) x Hx (fun i _ => eq_refl)) in H.
    exact (bicg_untouched M n a [] HM x rhs xd Hx Hr Hd it tol Ht false passes H).
  - rewrite <- (resnorm_residual M n a ld HM rhs xd false (fun i => nth i x 0) x Hx (fun i _ => eq_refl)) in H.
    exact (bicg_untouched M n a ld HM x rhs xd Hx Hr Hd it tol Ht false passes H).
  - rewrite <- (resnorm_residual M n a ld HM rhs xd true (fun i => nth i x 0) (lplus x xd)) in H.
    2: { apply lplus_length; auto. } 2: { intros i Hi. apply (nth_lplus n); auto. }
    destruct (bicg_untouched M n a ld HM x rhs xd Hx Hr Hd it tol Ht true passes H) as (it' & E & K).
    exists it'. split; auto. unfold bicg_dir. unfold init_bicg, init_r, init_b in E. rewrite E. f_equal. f_equal.
    apply (vadd_vF n); auto.
  - rewrite <- (resnorm_residual M n a [] HM rhs xd false (fun i => nth i x 0) x Hx (fun i _ => eq_refl)) in H.
    exact (cg_untouched M n a [] HM x rhs xd Hx Hr Hd it tol Ht false passes H).
  - rewrite <- (resnorm_residual M n a ld HM rhs xd true (fun i => nth i x 0) (lplus x xd)) in H.
    2: { apply lplus_length; auto. } 2: { intros i Hi. apply (nth_lplus n); auto. }
    destruct (cg_untouched M n a ld HM x rhs xd Hx Hr Hd it tol Ht true passes H) as (it' & E & K).
    exists it'. split; auto. unfold cg_dir. unfold init_cg, init_r, init_b in E. rewrite E. f_equal. f_equal.
    apply (vadd_vF n); auto.
Qed.

(** ** C28: the imposed values *)
Local Close Scope R_scope.

Section dirichlet.
Context {A : arith} (L : ieee A).

Theorem C28_dirichlet_generic :
  forall (s : solver) (passes : nat) (it it' : iteration A) (M : matrix A) (x rhs xd x' : list (num A)) (ld : list nat) (m : nat),
  wf M -> (forall i r, nth_error M i = Some r -> ~ In i ld -> In i (indices r)) ->
  length x = length M -> length rhs = length M -> length xd = length M ->
  In m (imposed s ld) -> m < length M ->
  solve s passes it M x rhs xd ld = Some (it', x') -> status it' <> CANNOT_CONVERGE ->
  if with_values s
  then zer L (nth m x n0) -> fin L (nth m xd n0) -> neq (nth m x' n0) (nth m xd n0) = true
  else fin L (nth m x n0) -> neq (nth m x' n0) (nth m x n0) = true.
Proof.
  intros s passes it it' M x rhs xd x' ld m Hw Hdiag Hx Hr Hd Hm Hmn H Hs.
  assert (HD : length (applyMask ld (diag_precond M)) = length M) by len.
  assert (HDm : forall k, In k ld -> k < length M -> nth k (applyMask ld (diag_precond M)) n0 = n0).
  { intros k Hk Hl. apply mask_nth_in; auto. rewrite diag_length. exact Hl. }
  (* the loops, from residual r0 = applyMask ld y *)
  assert (Hb : forall y it0 it1 x1, length y = length M ->
    bicg_loop passes M ld (applyMask ld (diag_precond M)) (applyMask ld y)
      (mkB it0 x (applyMask ld y) (applyMask ld y) (mmult M x) n0 n0 n0) = Some (it1, x1) ->
    length x1 = length M /\ (status it1 = CANNOT_CONVERGE \/ (In m ld -> fin L (nth m x n0) -> neq (nth m x1 n0) (nth m x n0) = true))).
  { intros y it0 it1 x1 Hy E.
    destruct (in_dec Nat.eq_dec m ld) as [Hml|Hml].
    2: { destruct s; simpl in Hm; tauto. }
    assert (Hz : forall k, In k ld -> k < length M -> zer L (nth k (applyMask ld y) n0)).
    { intros k Hk Hl. rewrite mask_nth_in by (auto; lia). apply zer_n0. }
    edestruct (fun B => bicg_loop_keep L M ld (applyMask ld (diag_precond M)) (applyMask ld y) x HD
      (len_mask _ _ _ Hy) Hx HDm Hz Hdiag Hw m Hml Hmn passes _ it1 x1 B E) as [K1 K2].
    - constructor; cbn [b_x b_r b_p b_v]; try len. left.
      constructor; cbn [b_x b_r b_p b_v b_rho2 b_omega]; auto.
      + left. apply (eq_refl_fin A L). apply zer_fin, zer_n0.
      + intros k Hk Hl Hf. apply (eq_refl_fin A L). exact Hf.
    - split; auto. destruct K2 as [K2|K2]; auto. }
  assert (Hc : forall y it0 it1 x1, length y = length M ->
    cg_loop passes M ld (applyMask ld (diag_precond M))
      (mkC it0 x (applyMask ld y) (p_direct (applyMask ld (diag_precond M)) (applyMask ld y))
        (vdot (p_direct (applyMask ld (diag_precond M)) (applyMask ld y)) (applyMask ld y)) n0) = Some (it1, x1) ->
    length x1 = length M /\ (status it1 = CANNOT_CONVERGE \/ (In m ld -> fin L (nth m x n0) -> neq (nth m x1 n0) (nth m x n0) = true))).
  { intros y it0 it1 x1 Hy E.
    destruct (in_dec Nat.eq_dec m ld) as [Hml|Hml].
    2: { destruct s; simpl in Hm; tauto. }
    assert (Hz : forall k, In k ld -> k < length M -> zer L (nth k (applyMask ld y) n0)).
    { intros k Hk Hl. rewrite mask_nth_in by (auto; lia). apply zer_n0. }
    edestruct (fun B => cg_loop_keep L M ld (applyMask ld (diag_precond M)) (applyMask ld y) x HD
      (len_mask _ _ _ Hy) Hx HDm m Hml Hmn passes _ it1 x1 B E) as [K1 K2].
    - constructor; cbn [c_x c_r c_p]; try len. left.
      constructor; cbn [c_x c_r c_p]; auto.
      + intros k Hk Hl. unfold p_direct. rewrite (zip_nth' (length M)) by (auto; len).
        rewrite HDm by auto. apply mul_zf. { apply zer_n0. } apply zer_fin. auto.
      + intros k Hk Hl Hf. apply (eq_refl_fin A L). exact Hf.
    - split; auto. destruct K2 as [K2|K2]; auto. }
  assert (Hadd : forall x1, length x1 = length M -> (fin L (nth m x n0) -> neq (nth m x1 n0) (nth m x n0) = true) ->
    zer L (nth m x n0) -> fin L (nth m xd n0) -> neq (nth m (vadd_to xd x1) n0) (nth m xd n0) = true).
  { intros x1 H1 H2 H3 H4. unfold vadd_to. rewrite (zip_nth' (length M)) by auto.
    apply (eq_z_add A L); auto. eapply zer_eq; [|exact H3]. apply H2. apply zer_fin. exact H3. }
  destruct s; cbn [imposed with_values solve] in *; try (destruct Hm; fail).
  - destruct (Hb _ _ _ _ (ltac:(len) : length (vsub_from (mmult M x) (applyMask ld rhs)) = length M) H) as [_ [K|K]]; [contradiction|auto].
  - unfold bicg_dir in H. destruct (bicg_loop _ _ _ _ _ _) as [[i y]|] eqn:E; [|discriminate]. inversion H; subst i x'.
    destruct (Hb (vsub_from (mmult M x) (applyMask ld (vsub_from (mmult M xd) rhs))) _ _ _ ltac:(len) E) as [K1 [K|K]]; [contradiction|].
    apply Hadd; auto.
  - unfold cg_dir in H. destruct (cg_loop _ _ _ _ _) as [[i y]|] eqn:E; [|discriminate]. inversion H; subst i x'.
    destruct (Hc (vsub_from (mmult M x) (applyMask ld (vsub_from (mmult M xd) rhs))) _ _ _ ltac:(len) E) as [K1 [K|K]]; [contradiction|].
    apply Hadd; auto.
Qed.
End dirichlet.

(** In double precision; == is the comparison of doubles. *)
Theorem C28_dirichlet_values :
  forall (s : solver) (passes : nat) (it it' : iteration B64) (M : matrix B64) (x rhs xd x' : list (num B64)) (ld : list nat) (m : nat),
  wf M -> (forall i r, nth_error M i = Some r -> ~ In i ld -> In i (indices r)) ->
  length x = length M -> length rhs = length M -> length xd = length M ->
  In m (imposed s ld) -> m < length M ->
  solve s passes it M x rhs xd ld = Some (it', x') -> status it' <> CANNOT_CONVERGE ->
  if with_values s
  then neq (nth m x n0) (n0 : num B64) = true -> is_finite (nth m xd n0 : b64) = true ->
       neq (nth m x' n0) (nth m xd n0) = true
  else is_finite (nth m x n0 : b64) = true -> neq (nth m x' n0) (nth m x n0) = true.
Proof.
  intros s passes it it' M x rhs xd x' ld m Hw Hdiag Hx Hr Hd Hm Hmn H Hs.
  pose proof (C28_dirichlet_generic B64_ieee s passes it it' M x rhs xd x' ld m Hw Hdiag Hx Hr Hd Hm Hmn H Hs) as K.
  destruct (with_values s); auto.
  intros H1 H2. apply K; auto. eapply (zer_eq B64 B64_ieee); [exact H1|]. apply zer_n0.
Qed.

(** ** Non-vacuity *)
Local Open Scope R_scope.

(** the 2x2 matrix of SparseProps; the guess (1, 2) solves the system *)
Lemma ex_square : forall ld, square_matrix ex_m 2 ex_a ld.
Proof.
  intros ld. destruct C23_nonvacuous as (H1 & H2 & H3 & _).
  constructor; auto. intros i Hi _. unfold ex_a. destruct i as [|[|i]]; [simpl; lra|simpl; lra|lia].
Qed.

Definition ex_it : iteration XA := new_iter (Fin (1 / 10) : num XA) false 10.
Definition ex_rhs : list R := [ex_a 0 0 * 1 + ex_a 0 1 * 2; ex_a 1 0 * 1 + ex_a 1 1 * 2].

Lemma residual_pos : forall n a ld rhs x, 0 <= residual n a ld rhs x.
Proof. intros. apply sqrt_pos. Qed.

Example C27_C29_nonvacuous : exists it',
  solve Bicg 3 ex_it ex_m (vF [1; 2]) (vF ex_rhs) (vF [0; 0]) [] = Some (it', vF [1; 2]) /\ status it' = CONVERGED.
Proof.
  destruct (C29_good_guess_untouched Bicg 2 ex_it ex_m 2 ex_a [1; 2] ex_rhs [0; 0] [] (1 / 10)) as (it' & H & K & _);
    auto using ex_square; [..|eauto].
  pose proof (residual_pos 2 ex_a [] ex_rhs (repeat 0 2)) as H.
  cbn [imposed origin guess with_values]. replace (residual 2 ex_a [] ex_rhs [1; 2]) with 0; [lra|].
  unfold residual. rewrite sumn_zero. { symmetry. apply sqrt_0. }
  intros i Hi. rewrite masked_nil. unfold Rsqr, ex_rhs. destruct i as [|[|i]]; [cbn; ring|cbn; ring|lia].
Qed.

(** in double precision: 3 unknowns, the first one imposed to 5; the solver really iterates *)
Definition b (z : Z) : num B64 := nlit z 1.
Definition ex_bm : matrix B64 :=
  [mkRow (A := B64) [0; 1]%nat [b 2; b (-1)]; mkRow (A := B64) [0; 1; 2]%nat [b (-1); b 2; b (-1)]; mkRow (A := B64) [1; 2]%nat [b (-1); b 2]].
Definition ex_bit : iteration B64 := new_iter (nlit 1 1000000 : num B64) false 10.
Definition ex_run (s : solver) := solve s 12 ex_bit ex_bm [b 0; b 0; b 0] [b 1; b 2; b 3] [b 5; b 0; b 0] [0%nat].

Example C28_nonvacuous : forallb (fun s =>
  match ex_run s with
  | Some (it', x') => (0 <? nit it')%Z && (match status it' with CONVERGED => true | _ => false end) &&
      neq (nth 0 x' n0) (if with_values s then b 5 else b 0)
  | None => false
  end) [BicgDir; BicgDir0; CgDir] = true.
Proof. vm_compute. reflexivity. Qed.

(** Finding: in double precision the criterion compares inf with inf when the squared norm of the right-hand side
    overflows: with A = (1), rhs = 2^600 and guess 0 the solvers answer CONVERGED and return 0. *)
Definition big : num B64 := nlit (2 ^ 600) 1.
Theorem C27_double_overflow_refuted : forallb (fun s =>
  match solve s 12 ex_bit [mkRow (A := B64) [0%nat] [b 1]] [b 0] [big] [b 0] [] with
  | Some (it', x') => (match status it' with CONVERGED => true | _ => false end) && neq (nth 0 x' n0) (b 0) && nlt (b 1) big
  | None => false
  end) [Bicg; BicgDir0; BicgDir; Cg; CgDir] = true.
Proof. vm_compute. reflexivity. Qed.

Print Assumptions C25_monitor_verdict.
Print Assumptions C25_monitor_exact.
Print Assumptions C25_monitor_nan.
Print Assumptions C25_counter.
Print Assumptions C26_solvers_stop.
Print Assumptions C27_converged_residual.
Print Assumptions C28_dirichlet_generic.
Print Assumptions C28_dirichlet_values.
Print Assumptions C29_good_guess_untouched.
