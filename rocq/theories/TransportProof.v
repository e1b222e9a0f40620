(** * Facts on the transport problems: sequential assembly, rows of the assembled matrix, systems with imposed values *)
From Coq Require Import Reals String List ZArith Arith Bool Lia Lra Permutation.
From Verif Require Import Arith ArithLaws Vec Sums LinAlg SparseModel SparseProof ConcModel ConcProof SparseProps
  IterModel IterProof Ieee IterMask IterExact IterProps StdModel MeshModel MeshProof MeshProps ElemModel ElemProof AvgModel ElemProps
  AsmModel AsmProof AsmProps LlgProps TransportModel.
Import ListNotations.
Local Open Scope R_scope.

(** ** positions *)
Lemma split_of : forall D i d, (d < D)%nat -> ((D * i + d) / D = i /\ (D * i + d) mod D = d)%nat.
Proof.
  intros D i d Hd. rewrite (Nat.mul_comm D i). split.
  - rewrite Nat.div_add_l by lia. rewrite (Nat.div_small d D) by lia. lia.
  - rewrite Nat.add_comm, Nat.mod_add by lia. apply Nat.mod_small. exact Hd.
Qed.
Lemma split_at : forall D r, (0 < D)%nat -> (r = D * (r / D) + r mod D /\ r mod D < D)%nat.
Proof. intros D r H. split. { apply Nat.div_mod. lia. } apply Nat.mod_upper_bound. lia. Qed.
Lemma split_lt : forall D n r, (r < D * n -> r / D < n)%nat.
Proof. intros D n r H. apply Nat.div_lt_upper_bound; lia. Qed.

Lemma sumn_blocks : forall D n f, sumn (D * n) f = sumn n (fun i => sumn D (fun d => f (D * i + d)%nat)).
Proof.
  intros D n f. induction n as [|n IH]. { rewrite Nat.mul_0_r. reflexivity. }
  cbn [sumn]. rewrite <- IH, Nat.mul_succ_r.
  assert (G : forall k, sumn (D * n + k) f = sumn (D * n) f + sumn k (fun d => f (D * n + d)%nat)).
  { induction k as [|k IHk]. { rewrite Nat.add_0_r. cbn [sumn]. ring. } rewrite Nat.add_succ_r. cbn [sumn]. rewrite IHk. ring. }
  apply G.
Qed.

(** ** the assembled matrix *)
Definition total (D : nat) (els : list (elem R)) (r c : nat) : R :=
  lsum (map (fun e => coupling e (r / D) (r mod D) (c / D) (c mod D)) els).
Definition loads (D : nat) (els : list (elem R)) (r : nat) : R := lsum (map (fun e => loading e (r / D) (r mod D)) els).

Lemma mrun_ok : forall cs (m : matrix XA), wf m -> (forall i j v, In (i, j, v) cs -> in_shape (shape_of m) i j) ->
  exists m', mrun m (map (fun c => MAdd (fst (fst c)) (snd (fst c)) (snd c)) cs) = Some m' /\ wf m' /\ shape_of m' = shape_of m.
Proof.
  induction cs as [|[[i j] v] cs IH]; intros m Hw H. { exists m. auto. }
  cbn [map mrun mstep fst snd].
  destruct (update_ok m i j (fun w => nadd (a := XA) w v) Hw) as (m1 & w & U1 & U2 & U3 & _). { eapply H. left. reflexivity. }
  unfold madd. rewrite U1. destruct (IH m1 U2) as (m' & E & W & S).
  { intros. rewrite U3. eapply H. right. eassumption. }
  exists m'. split; auto. split; auto. congruence.
Qed.

Lemma build_ok : forall D n edges (els : list (elem R)) (K : matrix XA) (a0 : nat -> nat -> R), (0 < D)%nat ->
  mesh_system D n edges (fun _ => true) els ->
  matrix_of_shape (build_shape D n edges (fun _ => true)) K ->
  (forall r c, (r < D * n)%nat -> mget K r c = Some (Fin (a0 r c) : num XA)) ->
  exists K', build_mats D K (map xelem els) = Some K' /\ matrix_of_shape (build_shape D n edges (fun _ => true)) K' /\
    forall r c, (r < D * n)%nat -> mget K' r c = Some (Fin (a0 r c + total D els r c) : num XA).
Proof.
  intros D n edges els K a0 HD [He Hn Hok] [Hw Hsh] Hv.
  assert (Ec : flat_map (mat_calls D) (map xelem els) = map fcall (flat_map (mat_calls D) els)).
  { rewrite map_flat_map. induction els as [|e l IH]; cbn [map flat_map]; auto. rewrite IH.
    - f_equal. apply mat_calls_emap.
    - intros; eapply Hn; [right; eauto|auto].
    - intros; eapply Hok; right; auto. }
  assert (Hin : forall i j v, In (i, j, v) (flat_map (mat_calls D) els) -> in_shape (shape_of K) i j).
  { intros i j v H. apply in_flat_map in H. destruct H as (e & H1 & H2). rewrite Hsh. eapply calls_in_shape; eauto. }
  assert (Hin' : forall i j v, In (i, j, v) (flat_map (mat_calls D) (map xelem els)) -> in_shape (shape_of K) i j).
  { intros i j v H. rewrite Ec in H. apply in_map_iff in H. destruct H as ([[i' j'] v'] & E & H). injection E as <- <- _. eapply Hin; eauto. }
  destruct (mrun_ok _ K Hw Hin') as (K' & E & W & S).
  exists K'. split; [exact E|]. split. { split; auto. congruence. }
  intros r c Hr. rewrite (mrun_adds (flat_map (mat_calls D) els) K K' r c (a0 r c) Hw Hin (Hv r c Hr)).
  - replace (total D els r c) with (added r c (flat_map (mat_calls D) els)); auto.
    unfold total. rewrite added_flat_map. apply lsum_map_ext. intros e _.
    destruct (split_at D r HD) as [E1 L1]. destruct (split_at D c HD) as [E2 L2].
    rewrite E1 at 1. rewrite E2 at 1. apply added_calls; auto.
  - rewrite <- E. unfold build_mats. f_equal. rewrite Ec, map_map. apply map_ext. intros [[i j] v]. reflexivity.
Qed.

Lemma fresh_ok : forall D n edges, (forall p, In p edges -> (fst p < n)%nat /\ (snd p < n)%nat) ->
  matrix_of_shape (build_shape D n edges (fun _ => true)) (new_matrix (A := XA) (build_shape D n edges (fun _ => true))) /\
  forall r c, (r < D * n)%nat -> mget (A := XA) (new_matrix (build_shape D n edges (fun _ => true))) r c = Some (Fin 0 : num XA).
Proof.
  intros D n edges He. destruct (build_shape_spec D n edges (fun _ => true) He) as [[Hl Hs] _]. split.
  - apply wf_new. exact Hs.
  - intros r c Hr. rewrite mget_new by lia. rewrite xn0. reflexivity.
Qed.

(** what the solvers need to know *)
Lemma square_ok : forall D n edges K a ld, (0 < D)%nat -> (forall p, In p edges -> (fst p < n)%nat /\ (snd p < n)%nat) ->
  matrix_of_shape (build_shape D n edges (fun _ => true)) K ->
  (forall r c, (r < D * n)%nat -> mget K r c = Some (Fin (a r c) : num XA)) ->
  (forall r, (r < D * n)%nat -> ~ In r ld -> a r r <> 0) ->
  square_matrix K (D * n) a ld /\ forall i r, nth_error K i = Some r -> In i (indices r).
Proof.
  intros D n edges K a ld HD He [Hw Hs] Hv Hd. destruct (build_shape_spec D n edges (fun _ => true) He) as [[Hl _] Hin].
  assert (HL : length K = (D * n)%nat) by (rewrite <- shape_length, Hs; exact Hl).
  split.
  - constructor; auto. intros i j H. rewrite Hs in H. apply Hin in H.
    destruct H as (i' & k & j' & l & H1 & H2 & -> & -> & [[<- H3]|(e & H3 & _ & [-> | ->])]).
    + apply pos_lt; auto.
    + apply He in H3. apply pos_lt; tauto.
    + apply He in H3. apply pos_lt; tauto.
  - intros i r E. assert (Hi : (i < D * n)%nat). { rewrite <- HL. apply nth_error_Some. congruence. }
    destruct (split_at D i HD) as [E1 L1].
    assert (S : in_shape (shape_of K) i i).
    { rewrite Hs. apply Hin. exists (i / D)%nat, (i mod D)%nat, (i / D)%nat, (i mod D)%nat. repeat split; auto.
      left. split; auto. apply split_lt. exact Hi. }
    destruct (in_shape_row _ _ _ S) as (r' & E' & H). congruence.
Qed.

(** ** one element in a row of the assembled matrix *)
Definition elem_row (D : nat) (e : elem R) (x : nat -> nat -> R) (ie d : nat) : R :=
  sumn (e_N e) (fun je => sumn D (fun d' => e_Ke e (d * e_N e + ie) (d' * e_N e + je) * x (e_nod e je) d')).

Lemma coupling_row : forall D n e (x : nat -> nat -> R) i d, (forall a, In a (e_ind e) -> (a < n)%nat) ->
  sumn n (fun j => sumn D (fun d' => coupling e i d j d' * x j d')) =
  sumn (e_N e) (fun ie => if (e_nod e ie =? i)%nat then elem_row D e x ie d else 0).
Proof.
  intros D n e x i d Hn. unfold coupling.
  rewrite (sumn_ext n _ (fun j => sumn (e_N e) (fun ie => sumn D (fun d' => sumn (e_N e) (fun je =>
    if (e_nod e ie =? i)%nat && (e_nod e je =? j)%nat then e_Ke e (d * e_N e + ie) (d' * e_N e + je) else 0) * x j d')))).
  2: { intros j _. rewrite <- sumn_exchange. apply sumn_ext. intros d' _. rewrite Rmult_comm, <- sumn_scale. apply sumn_ext. intros; ring. }
  rewrite sumn_exchange. apply sumn_ext. intros ie _.
  destruct (e_nod e ie =? i)%nat; cbn [andb].
  2: { apply sumn_zero. intros j _. apply sumn_zero. intros d' _. rewrite (sumn_zero (e_N e)); auto. ring. }
  unfold elem_row.
  rewrite (sumn_ext n _ (fun j => sumn (e_N e) (fun je => if (e_nod e je =? j)%nat then sumn D (fun d' => e_Ke e (d * e_N e + ie) (d' * e_N e + je) * x j d') else 0))).
  - rewrite sumn_exchange. apply sumn_ext. intros je Hje.
    apply (gather n (e_nod e je) (fun j => sumn D (fun d' => e_Ke e (d * e_N e + ie) (d' * e_N e + je) * x j d'))). apply Hn, nod_in, Hje.
  - intros j _. rewrite (sumn_ext D _ (fun d' => sumn (e_N e) (fun je => x j d' * (if (e_nod e je =? j)%nat then e_Ke e (d * e_N e + ie) (d' * e_N e + je) else 0)))).
    + rewrite sumn_exchange. apply sumn_ext. intros je _. destruct (e_nod e je =? j)%nat.
      * apply sumn_ext. intros; ring.
      * apply sumn_zero. intros; ring.
    + intros d' _. rewrite sumn_scale. ring.
Qed.

Lemma sumn_lsum_swap : forall {X} m (f : X -> nat -> R) l, sumn m (fun i => lsum (map (fun x => f x i) l)) = lsum (map (fun x => sumn m (f x)) l).
Proof.
  intros X m f l. induction l as [|x l IH]; cbn [map lsum]. { apply sumn_zero. auto. } rewrite sumn_plus, IH. reflexivity.
Qed.

Lemma total_row : forall D n els (z : nat -> R) i d, (forall e a, In e els -> In a (e_ind e) -> (a < n)%nat) -> (d < D)%nat ->
  sumn (D * n) (fun c => total D els (D * i + d) c * z c) =
  lsum (map (fun e => sumn (e_N e) (fun ie => if (e_nod e ie =? i)%nat then elem_row D e (fun j d' => z (D * j + d')%nat) ie d else 0)) els).
Proof.
  intros D n els z i d Hn Hd. rewrite sumn_blocks. destruct (split_of D i d Hd) as [E1 E2].
  rewrite (sumn_ext n _ (fun j => lsum (map (fun e => sumn D (fun d' => coupling e i d j d' * z (D * j + d')%nat)) els))).
  - rewrite (sumn_lsum_swap n (fun e j => sumn D (fun d' => coupling e i d j d' * z (D * j + d')%nat))).
    apply lsum_map_ext. intros e He. apply (coupling_row D n e (fun j d' => z (D * j + d')%nat)). intros a Ha. eapply Hn; eauto.
  - intros j _. rewrite <- (sumn_lsum_swap D (fun e d' => coupling e i d j d' * z (D * j + d')%nat)). apply sumn_ext. intros d' Hd'.
    destruct (split_of D j d' Hd') as [E3 E4]. unfold total. rewrite E1, E2, E3, E4, Rmult_comm, <- lsum_map_scale.
    apply lsum_map_ext. intros. ring.
Qed.

(** sum over the mesh of a nodal weight times what is attached to the nodes of an element *)
Lemma scatter : forall n (e : elem R) (y : nat -> R) (g : nat -> R), (forall a, In a (e_ind e) -> (a < n)%nat) ->
  sumn n (fun i => y i * sumn (e_N e) (fun ie => if (e_nod e ie =? i)%nat then g ie else 0)) = sumn (e_N e) (fun ie => y (e_nod e ie) * g ie).
Proof.
  intros n e y g Hn.
  rewrite (sumn_ext n _ (fun i => sumn (e_N e) (fun ie => if (e_nod e ie =? i)%nat then y i * g ie else 0))).
  - rewrite sumn_exchange. apply sumn_ext. intros ie Hie. apply (gather n (e_nod e ie) (fun i => y i * g ie)). apply Hn, nod_in, Hie.
  - intros i _. rewrite <- sumn_scale. apply sumn_ext. intros ie _. destruct (e_nod e ie =? i)%nat; ring.
Qed.

(** the assembled form *)
Lemma total_form : forall D n els (y z : nat -> R), (forall e a, In e els -> In a (e_ind e) -> (a < n)%nat) ->
  sumn (D * n) (fun r => y r * sumn (D * n) (fun c => total D els r c * z c)) =
  lsum (map (fun e => sumn D (fun d => sumn (e_N e) (fun ie => y (D * e_nod e ie + d)%nat * elem_row D e (fun j d' => z (D * j + d')%nat) ie d))) els).
Proof.
  intros D n els y z Hn. rewrite (sumn_blocks D n).
  rewrite (sumn_ext n _ (fun i => lsum (map (fun e => sumn D (fun d => y (D * i + d)%nat *
     sumn (e_N e) (fun ie => if (e_nod e ie =? i)%nat then elem_row D e (fun j d' => z (D * j + d')%nat) ie d else 0))) els))).
  2: { intros i Hi. rewrite <- (sumn_lsum_swap D (fun e d => y (D * i + d)%nat *
     sumn (e_N e) (fun ie => if (e_nod e ie =? i)%nat then elem_row D e (fun j d' => z (D * j + d')%nat) ie d else 0))).
     apply sumn_ext. intros d Hd. rewrite total_row by auto. rewrite <- lsum_map_scale. reflexivity. }
  rewrite (sumn_lsum_swap n (fun e i => sumn D (fun d => y (D * i + d)%nat *
     sumn (e_N e) (fun ie => if (e_nod e ie =? i)%nat then elem_row D e (fun j d' => z (D * j + d')%nat) ie d else 0)))).
  apply lsum_map_ext. intros e He. rewrite sumn_exchange. apply sumn_ext. intros d Hd.
  apply (scatter n e (fun i => y (D * i + d)%nat) (fun ie => elem_row D e (fun j d' => z (D * j + d')%nat) ie d)). intros a Ha. eapply Hn; eauto.
Qed.

Lemma loads_form : forall D n els (y : nat -> R), (forall e a, In e els -> In a (e_ind e) -> (a < n)%nat) ->
  sumn (D * n) (fun r => y r * loads D els r) =
  lsum (map (fun e => sumn D (fun d => sumn (e_N e) (fun ie => y (D * e_nod e ie + d)%nat * e_Le e (d * e_N e + ie)))) els).
Proof.
  intros D n els y Hn. rewrite (sumn_blocks D n).
  rewrite (sumn_ext n _ (fun i => lsum (map (fun e => sumn D (fun d => y (D * i + d)%nat * loading e i d)) els))).
  2: { intros i Hi. rewrite <- (sumn_lsum_swap D (fun e d => y (D * i + d)%nat * loading e i d)).
     apply sumn_ext. intros d Hd. unfold loads. destruct (split_of D i d Hd) as [-> ->]. rewrite <- lsum_map_scale. reflexivity. }
  rewrite (sumn_lsum_swap n (fun e i => sumn D (fun d => y (D * i + d)%nat * loading e i d))).
  apply lsum_map_ext. intros e He. rewrite sumn_exchange. apply sumn_ext. intros d Hd.
  apply (scatter n e (fun i => y (D * i + d)%nat) (fun ie => e_Le e (d * e_N e + ie)%nat)). intros a Ha. eapply Hn; eauto.
Qed.

(** right-hand side assembled after the one that is there *)
Lemma loads_ok : forall D n els (L0 : list R), (0 < D)%nat -> (forall e a, In e els -> In a (e_ind e) -> (a < n)%nat) -> length L0 = (D * n)%nat ->
  exists L, fold_left (buildVect D) (map xelem els) (vF L0) = vF L /\ length L = (D * n)%nat /\
    forall r, (r < D * n)%nat -> nth r L 0 = nth r L0 0 + loads D els r.
Proof.
  intros D n els L0 HD Hn HL. destruct (buildVect_fold D n els L0 HL Hn) as (L & H1 & H2 & H3).
  exists L. split; [exact H2|]. split; auto. intros r Hr. destruct (split_at D r HD) as [E1 L1].
  rewrite E1. rewrite H3 by (auto; apply split_lt; auto). unfold loads. rewrite <- E1. reflexivity.
Qed.

Lemma vF_repeat : forall k, vF (repeat 0 k) = repeat n0 k.
Proof. intros k. unfold vF. rewrite xn0. induction k; cbn [repeat map]; auto. rewrite IHk. reflexivity. Qed.

(** ** systems with imposed values *)
(** [x] takes the imposed values at the positions [ld] and satisfies the other equations *)
Definition constrained (N : nat) (a : nat -> nat -> R) (ld : list nat) (rhs xd x : nat -> R) : Prop :=
  forall r, (r < N)%nat -> if masked ld r then x r = xd r else sumn N (fun c => a r c * x c) = rhs r.

Lemma masked_in : forall ld r, masked ld r = true <-> In r ld.
Proof. intros. unfold masked. destruct (in_dec Nat.eq_dec r ld); split; auto; discriminate. Qed.

Lemma sumn_sq_zero : forall m (z : nat -> R), sumn m (fun r => Rsqr (z r)) = 0 -> forall r, (r < m)%nat -> z r = 0.
Proof.
  induction m as [|m IH]; intros z H0 k Hk; [lia|]. cbn [sumn] in H0.
  pose proof (Rle_0_sqr (z m)). assert (0 <= sumn m (fun r => Rsqr (z r))) by (apply sumn_nonneg; intros; apply Rle_0_sqr).
  destruct (Nat.eq_dec k m) as [->|]; [apply Rsqr_0_uniq; lra|]. apply IH; [lra|lia].
Qed.

Section dirichlet_problem.
Variables (N : nat) (a : nat -> nat -> R) (ld : list nat).
(** the homogeneous problem has only the null solution *)
Hypothesis Hinj : forall z, constrained N a ld (fun _ => 0) (fun _ => 0) z -> forall r, (r < N)%nat -> z r = 0.

Lemma constrained_exists : forall rhs xd, exists x, constrained N a ld rhs xd x.
Proof.
  intros rhs xd.
  set (b := fun r c => if masked ld r then (if (r =? c)%nat then 1 else 0) else a r c).
  assert (Eb : forall z r, (r < N)%nat -> masked ld r = true -> sumn N (fun c => b r c * z c) = z r).
  { intros z r Hr M. rewrite <- (gather N r z Hr). apply sumn_ext. intros c _. unfold b. rewrite M. destruct (r =? c)%nat; ring. }
  destruct (injective_solvable N b (fun r => if masked ld r then xd r else rhs r)) as [x Hx].
  - intros z Hz. apply Hinj. intros r Hr. specialize (Hz r Hr). destruct (masked ld r) eqn:M.
    + rewrite Eb in Hz by auto. exact Hz.
    + rewrite <- Hz. apply sumn_ext. intros c _. unfold b. rewrite M. reflexivity.
  - exists x. intros r Hr. specialize (Hx r Hr). destruct (masked ld r) eqn:M.
    + rewrite Eb in Hx by auto. exact Hx.
    + rewrite <- Hx. apply sumn_ext. intros c _. unfold b. rewrite M. reflexivity.
Qed.

Lemma constrained_unique : forall rhs xd x y, constrained N a ld rhs xd x -> constrained N a ld rhs xd y ->
  forall r, (r < N)%nat -> x r = y r.
Proof.
  intros rhs xd x y Hx Hy r Hr. apply Rminus_diag_uniq. apply (Hinj (fun r => x r - y r)); auto.
  intros k Hk. specialize (Hx k Hk). specialize (Hy k Hk). destruct (masked ld k).
  - lra.
  - rewrite (sumn_ext N _ (fun c => a k c * x c - a k c * y c)) by (intros; ring). rewrite sumn_minus. lra.
Qed.
End dirichlet_problem.

(** a coercive problem *)
Section coercive.
Variables (N : nat) (a : nat -> nat -> R) (ld : list nat) (lam : R).
Hypothesis Hlam : 0 < lam.
Hypothesis Hco : forall z, (forall r, In r ld -> z r = 0) ->
  lam * sumn N (fun r => Rsqr (z r)) <= sumn N (fun r => z r * sumn N (fun c => a r c * z c)).

Lemma coercive_bound : forall (z rho : nat -> R), (forall r, In r ld -> z r = 0) ->
  (forall r, (r < N)%nat -> masked ld r = false -> sumn N (fun c => a r c * z c) = rho r) ->
  lam * sqrt (sumn N (fun r => Rsqr (z r))) <= sqrt (sumn N (fun r => if masked ld r then 0 else Rsqr (rho r))).
Proof.
  intros z rho Hz Hr. specialize (Hco z Hz).
  set (rr := fun r => if masked ld r then 0 else rho r).
  set (Z2 := sumn N (fun r => Rsqr (z r))) in *. set (R2 := sumn N (fun r => if masked ld r then 0 else Rsqr (rho r))).
  assert (HZ : 0 <= Z2) by (apply sumn_nonneg; intros; apply Rle_0_sqr).
  assert (HR : R2 = sumn N (fun r => Rsqr (rr r))).
  { unfold R2. apply sumn_ext. intros r _. unfold rr. destruct (masked ld r); auto. unfold Rsqr. ring. }
  assert (HR0 : 0 <= R2) by (rewrite HR; apply sumn_nonneg; intros; apply Rle_0_sqr).
  assert (F : sumn N (fun r => z r * sumn N (fun c => a r c * z c)) = sumn N (fun r => z r * rr r)).
  { apply sumn_ext. intros r Hr'. unfold rr. destruct (masked ld r) eqn:M.
    - apply masked_in in M. rewrite (Hz r M). ring.
    - rewrite (Hr r Hr' M). reflexivity. }
  rewrite F in Hco. pose proof (cauchy_schwarz N z rr) as C. fold Z2 in C. rewrite <- HR in C.
  set (S := sumn N (fun r => z r * rr r)) in *. clear F HR. clearbody Z2 R2 S.
  apply Rsqr_incr_0_var; [|apply sqrt_pos]. rewrite Rsqr_mult, Rsqr_sqrt, Rsqr_sqrt by assumption.
  assert (0 <= lam * Z2) by nra. assert (Rsqr (lam * Z2) <= Z2 * R2). { eapply Rle_trans; [|exact C]. apply Rsqr_incr_1; lra. }
  destruct (Req_dec Z2 0) as [E0|E0]. { rewrite E0. lra. }
  assert (0 < Z2) by lra. rewrite Rsqr_mult in H0. unfold Rsqr in *. apply (Rmult_le_reg_l Z2); nra.
Qed.

Lemma coercive_injective : forall z, constrained N a ld (fun _ => 0) (fun _ => 0) z -> forall r, (r < N)%nat -> z r = 0.
Proof.
  intros z Hz.
  set (z' := fun r => if masked ld r then 0 else z r).
  assert (E : forall r, (r < N)%nat -> z' r = z r).
  { intros r Hr. unfold z'. specialize (Hz r Hr). destruct (masked ld r); auto. }
  pose proof (coercive_bound z' (fun _ => 0)) as B. cbv beta in B.
  rewrite (sumn_zero N (fun r => if masked ld r then 0 else Rsqr 0)), sqrt_0 in B.
  2: { intros r _. destruct (masked ld r); auto. apply Rsqr_0. }
  set (Q := sumn N (fun r => Rsqr (z' r))) in *.
  assert (Q0 : 0 <= Q) by (apply sumn_nonneg; intros; apply Rle_0_sqr). pose proof (sqrt_pos Q).
  assert (S : sqrt Q = 0).
  { assert (lam * sqrt Q <= 0); [|nra]. apply B.
    - intros r Hr. unfold z'. apply masked_in in Hr. rewrite Hr. reflexivity.
    - intros r Hr M. specialize (Hz r Hr). rewrite M in Hz. rewrite <- Hz. apply sumn_ext. intros c Hc. rewrite E by auto. reflexivity. }
  apply sqrt_eq_0 in S; auto. intros r Hr. rewrite <- E by auto. apply (sumn_sq_zero N); auto.
Qed.

Lemma coercive_error : forall rhs xd x y, constrained N a ld rhs xd x -> (forall r, (r < N)%nat -> In r ld -> y r = xd r) ->
  lam * sqrt (sumn N (fun r => Rsqr (y r - x r))) <=
  sqrt (sumn N (fun r => if masked ld r then 0 else Rsqr (rhs r - sumn N (fun c => a r c * y c)))).
Proof.
  intros rhs xd x y Hx Hy.
  set (z := fun r => if (r <? N)%nat then y r - x r else 0).
  assert (E : forall r, (r < N)%nat -> z r = y r - x r). { intros r Hr. unfold z. apply Nat.ltb_lt in Hr. rewrite Hr. reflexivity. }
  replace (sumn N (fun r => Rsqr (y r - x r))) with (sumn N (fun r => Rsqr (z r))).
  2: { apply sumn_ext. intros r Hr. rewrite E by auto. reflexivity. }
  replace (sumn N (fun r => if masked ld r then 0 else Rsqr (rhs r - sumn N (fun c => a r c * y c))))
    with (sumn N (fun r => if masked ld r then 0 else Rsqr (- (rhs r - sumn N (fun c => a r c * y c))))).
  2: { apply sumn_ext. intros r _. rewrite <- Rsqr_neg. reflexivity. }
  apply (coercive_bound z (fun r => - (rhs r - sumn N (fun c => a r c * y c)))).
  - intros r Hr. unfold z. destruct (r <? N)%nat eqn:L; auto. apply Nat.ltb_lt in L. specialize (Hx r L).
    rewrite (Hy r L Hr). apply masked_in in Hr. rewrite Hr in Hx. lra.
  - intros r Hr M. specialize (Hx r Hr). rewrite M in Hx.
    rewrite (sumn_ext N _ (fun c => a r c * y c - a r c * x c)) by (intros; rewrite E by auto; ring). rewrite sumn_minus. lra.
Qed.
End coercive.

(** ** the solvers with imposed values, from a null guess *)
Lemma dir_solved : forall (s : solver) passes (it it' : iteration XA) (M : matrix XA) N a (rhs : list R) (xd : list R) ld tol X,
  s = CgDir \/ s = BicgDir ->
  square_matrix M N a ld -> (forall i r, nth_error M i = Some r -> In i (indices r)) -> (0 < N)%nat ->
  length rhs = N -> length xd = N -> resmax it = (Fin tol : num XA) ->
  IterProps.solve s passes it M (repeat n0 N) (vF rhs) (vF xd) ld = Some (it', X) -> status it' = CONVERGED ->
  exists y, X = vF y /\ length y = N /\ (forall m, In m ld -> (m < N)%nat -> nth m y 0 = nth m xd 0) /\
    residual N a ld rhs y <= tol * residual N a ld rhs xd.
Proof.
  intros s passes it it' M N a rhs xd ld tol X Hs HM Hdiag HN Hr Hx Ht H Hst.
  assert (EI : imposed s ld = ld) by (destruct Hs as [-> | ->]; reflexivity).
  assert (EW : with_values s = true) by (destruct Hs as [-> | ->]; reflexivity).
  pose proof (sq_size _ _ _ _ HM) as HL.
  assert (H0 : IterProps.solve s passes it M (vF (repeat 0 N)) (vF rhs) (vF xd) ld = Some (it', X)) by (rewrite vF_repeat; exact H).
  destruct (C27_converged_residual s passes it it' M N a (repeat 0 N) rhs xd ld tol X) as (y & Ey & Ly & Ry); auto.
  { rewrite EI. exact HM. } { apply repeat_length. }
  exists y. split; auto. split; auto. split.
  - intros m Hm Hmn.
    pose proof (C28_dirichlet_generic XA_ieee s passes it it' M (repeat n0 N) (vF rhs) (vF xd) X ld m (sq_wf _ _ _ _ HM)) as C.
    rewrite EW, EI in C.
    assert (E : neq (nth m X n0) (nth m (vF xd) n0) = true).
    { apply C; auto.
      - rewrite repeat_length. congruence.
      - unfold vF. rewrite map_length. congruence.
      - unfold vF. rewrite map_length. congruence.
      - rewrite HL. exact Hmn.
      - congruence.
      - rewrite nth_repeat. apply zer_n0.
      - destruct (isv_vF N xd Hx) as [_ J]. rewrite (J m Hmn). exact Logic.I. }
    rewrite Ey in E. destruct (isv_vF N xd Hx) as [_ I1]. destruct (isv_vF N y Ly) as [_ I2]. rewrite (I1 m Hmn), (I2 m Hmn) in E.
    cbn in E. apply Req_bool_iff in E. exact E.
  - rewrite EI in Ry. unfold origin in Ry. rewrite EW in Ry. exact Ry.
Qed.

(** ** the norm of the residual is the best bound on the equations tested by a vector *)
Lemma residual_tested : forall N a ld rhs y (w : nat -> R), (forall r, In r ld -> w r = 0) ->
  Rabs (sumn N (fun r => w r * (sumn N (fun c => a r c * nth c y 0) - nth r rhs 0))) <= residual N a ld rhs y * sqrt (sumn N (fun r => Rsqr (w r))).
Proof.
  intros N a ld rhs y w Hw.
  set (g := fun r => if masked ld r then 0 else sumn N (fun c => a r c * nth c y 0) - nth r rhs 0).
  assert (E : sumn N (fun r => w r * (sumn N (fun c => a r c * nth c y 0) - nth r rhs 0)) = sumn N (fun r => w r * g r)).
  { apply sumn_ext. intros r _. unfold g. destruct (masked ld r) eqn:M; auto. apply masked_in in M. rewrite (Hw r M). ring. }
  rewrite E. pose proof (cauchy_schwarz N w g) as C.
  assert (G : residual N a ld rhs y = sqrt (sumn N (fun r => Rsqr (g r)))).
  { unfold residual. f_equal. apply sumn_ext. intros r _. unfold g. destruct (masked ld r). { unfold Rsqr. ring. } unfold Rsqr. ring. }
  rewrite G, <- sqrt_mult.
  - apply Rsqr_incr_0_var; [|apply sqrt_pos]. rewrite <- Rsqr_abs. rewrite Rsqr_sqrt. { rewrite Rmult_comm. exact C. }
    apply Rmult_le_pos; apply sumn_nonneg; intros; apply Rle_0_sqr.
  - apply sumn_nonneg; intros; apply Rle_0_sqr.
  - apply sumn_nonneg; intros; apply Rle_0_sqr.
Qed.

Lemma residual_best : forall N a ld rhs y B, 0 <= B ->
  (forall w, (forall r, In r ld -> w r = 0) ->
     Rabs (sumn N (fun r => w r * (sumn N (fun c => a r c * nth c y 0) - nth r rhs 0))) <= B * sqrt (sumn N (fun r => Rsqr (w r)))) ->
  residual N a ld rhs y <= B.
Proof.
  intros N a ld rhs y B HB H.
  set (g := fun r => if masked ld r then 0 else sumn N (fun c => a r c * nth c y 0) - nth r rhs 0).
  assert (G : residual N a ld rhs y = sqrt (sumn N (fun r => Rsqr (g r)))).
  { unfold residual. f_equal. apply sumn_ext. intros r _. unfold g. destruct (masked ld r). { unfold Rsqr. ring. } unfold Rsqr. ring. }
  assert (E : sumn N (fun r => g r * (sumn N (fun c => a r c * nth c y 0) - nth r rhs 0)) = sumn N (fun r => Rsqr (g r))).
  { apply sumn_ext. intros r _. unfold g, Rsqr. destruct (masked ld r); ring. }
  specialize (H g). rewrite E in H. rewrite G.
  set (Q := sumn N (fun r => Rsqr (g r))) in *. assert (Q0 : 0 <= Q) by (apply sumn_nonneg; intros; apply Rle_0_sqr).
  rewrite Rabs_right in H by lra.
  assert (L : Q <= B * sqrt Q). { apply H. intros r Hr. unfold g. apply masked_in in Hr. rewrite Hr. reflexivity. }
  pose proof (sqrt_pos Q). pose proof (sqrt_sqrt Q Q0). destruct (Req_dec (sqrt Q) 0); [lra|].
  apply (Rmult_le_reg_r (sqrt Q)); lra.
Qed.
