(** * Property C101: reproducibility of a run under the scheduling of threads; C43 with non-magnetic regions

    The models are those of C22 (ConcModel: threads calling SparseMatrix::add) and of std::transform_reduce
    (StdModel.reduce_result: any order, any grouping), here with doubles. *)
From Coq Require Import Reals ZArith Bool List Lra Lia Psatz Permutation.
From Flocq Require Import Core BinarySingleNaN Plus_error Relative.
From Verif Require Import Arith ArithLaws Sums StdModel SparseModel SparseProof ConcModel ConcProof SparseProps.
Import ListNotations.
Local Open Scope R_scope.

(** ** Specification *)
Definition reals (l : list (num B64)) : list R := map (fun x => B2R (x : b64)) l.
Definition exact_sum (l : list (num B64)) : R := lsum (reals l).
Definition abs_sum (l : list (num B64)) : R := lsum (map Rabs (reals l)).
Definition all_finite (l : list (num B64)) : Prop := Forall (fun x => is_finite (x : b64) = true) l.
(** the values given to coefficient (i, j) by a list of calls of [add], in the order of the list *)
Definition given {A} (i j : nat) (cs : list (call A)) : list (num A) :=
  map snd (filter (fun c => Nat.eqb (fst (fst c)) i && Nat.eqb (snd (fst c)) j) cs).
(** [r] is the sum of [l] up to the rounding of the additions *)
Definition sum_up_to_rounding (l : list (num B64)) (r : num B64) : Prop :=
  is_finite (r : b64) = true /\ Rabs (B2R (r : b64) - exact_sum l) <= INR (length l) * / 2 ^ 52 * abs_sum l.
(** no overflow is near, and fewer than 2^50 terms *)
Definition moderate_sum (l : list (num B64)) : Prop := all_finite l /\ abs_sum l <= 2 ^ 1000 /\ INR (length l) <= 2 ^ 50.

(** ** Rounding of sums *)
Notation uu := (bpow radix2 (-53)).
Lemma uu_pos : 0 < uu. Proof. apply bpow_gt_0. Qed.
Lemma pow2_bpow : forall n, 2 ^ n = bpow radix2 (Z.of_nat n).
Proof.
  induction n as [|n IH]; [reflexivity|]. rewrite Nat2Z.inj_succ. unfold Z.succ. rewrite bpow_plus, <- IH. simpl. change (Z.pow_pos 2 1) with 2%Z. ring.
Qed.

(** the error of an addition is relative: a sum in the subnormal range is exact *)
Lemma add_rel : forall x y : b64, is_finite x = true -> is_finite y = true -> Rabs (B2R x + B2R y) <= bpow radix2 1023 ->
  is_finite (Bplus mode_NE x y) = true /\ Rabs (B2R (Bplus mode_NE x y) - (B2R x + B2R y)) <= uu * Rabs (B2R x + B2R y).
Proof.
  intros x y Fx Fy H. destruct (Badd64 x y Fx Fy (ok64_small _ H)) as [F V]. split; [exact F|]. rewrite V. unfold rnd64.
  destruct (FLT_plus_error_N_ex radix2 (-1074) 53 (fun x => negb (Z.even x)) (B2R x) (B2R y)) as (e & He & E).
  - exact (generic_format_B2R 53 1024 x).
  - exact (generic_format_B2R 53 1024 y).
  - change (round radix2 (SpecFloat.fexp 53 1024) ZnearestE (B2R x + B2R y)) with (round radix2 (FLT_exp (-1074) 53) ZnearestE (B2R x + B2R y)).
    rewrite E. replace ((B2R x + B2R y) * (1 + e) - (B2R x + B2R y)) with (e * (B2R x + B2R y)) by ring. rewrite Rabs_mult.
    apply Rmult_le_compat_r; [apply Rabs_pos|].
    assert (U : u_ro radix2 53 = uu). { unfold u_ro. change (- (53) + 1)%Z with (1 + -53)%Z. rewrite bpow_plus. simpl (bpow radix2 1). lra. }
    rewrite U in He. apply Rle_trans with (1 := He). pose proof uu_pos as P. apply Rmult_le_reg_r with (1 + uu); [lra|].
    unfold Rdiv. rewrite Rmult_assoc, Rinv_l by lra. nra.
Qed.

Lemma lsum_abs : forall l, Rabs (lsum l) <= lsum (map Rabs l).
Proof. induction l as [|x l IH]; simpl; [rewrite Rabs_R0; lra|]. eapply Rle_trans; [apply Rabs_triang|]. lra. Qed.
Lemma lsum_abs_pos : forall l, 0 <= lsum (map Rabs l).
Proof. induction l as [|x l IH]; simpl; [lra|]. pose proof (Rabs_pos x). lra. Qed.
Lemma exact_app : forall l1 l2, exact_sum (l1 ++ l2) = exact_sum l1 + exact_sum l2.
Proof. intros. unfold exact_sum, reals. rewrite map_app, lsum_app. reflexivity. Qed.
Lemma abs_app : forall l1 l2, abs_sum (l1 ++ l2) = abs_sum l1 + abs_sum l2.
Proof. intros. unfold abs_sum, reals. rewrite !map_app, lsum_app. reflexivity. Qed.
Lemma grouping_length : forall X (op : X -> X -> X) l r, grouping op l r -> (0 < length l)%nat.
Proof. induction 1; simpl; [lia|]. rewrite app_length. lia. Qed.

Lemma pow_lin : forall n, INR n <= 2 ^ 50 -> (1 + uu) ^ n <= 1 + 2 * INR n * uu.
Proof.
  assert (P : 2 ^ 50 * uu = / 8). { rewrite pow2_bpow, <- bpow_plus. reflexivity. }
  pose proof uu_pos as U. set (u := uu) in *. clearbody u.
  induction n as [|n IH]; intros H; [simpl; lra|]. rewrite S_INR in *. assert (IN : INR n <= 2 ^ 50) by lra. specialize (IH IN).
  assert (INR n * u <= / 8). { rewrite <- P. apply Rmult_le_compat_r; lra. } pose proof (pos_INR n). simpl. nra.
Qed.

(** any grouping of n doubles is within ((1+u)^(n-1) - 1) of their sum *)
Lemma grouping_error : forall l r, grouping (@nadd B64) l r -> all_finite l -> abs_sum l <= 2 ^ 1000 -> INR (length l) <= 2 ^ 50 ->
  is_finite (r : b64) = true /\ Rabs (B2R (r : b64) - exact_sum l) <= ((1 + uu) ^ (length l - 1) - 1) * abs_sum l.
Proof.
  induction 1 as [x|l1 l2 r1 r2 G1 IH1 G2 IH2]; intros F A N.
  - split; [inversion F; assumption|]. unfold exact_sum, abs_sum, reals. simpl. rewrite Rplus_0_r, Rminus_diag_eq by reflexivity. rewrite Rabs_R0. lra.
  - unfold all_finite in F. apply Forall_app in F. destruct F as [F1 F2]. rewrite abs_app in A |- *. rewrite exact_app.
    assert (A1 : 0 <= abs_sum l1) by apply lsum_abs_pos. assert (A2 : 0 <= abs_sum l2) by apply lsum_abs_pos.
    rewrite app_length, plus_INR in N. pose proof (pos_INR (length l1)) as P1. pose proof (pos_INR (length l2)) as P2.
    destruct (IH1 F1 ltac:(lra) ltac:(lra)) as [H1 E1]. destruct (IH2 F2 ltac:(lra) ltac:(lra)) as [H2 E2].
    pose proof (grouping_length _ _ _ _ G1) as L1. pose proof (grouping_length _ _ _ _ G2) as L2.
    set (n := (length (l1 ++ l2) - 1)%nat). assert (Hn : (n = S (n - 1))%nat) by (unfold n; rewrite app_length; lia).
    pose proof uu_pos as U.
    assert (W : forall k, (k <= n - 1)%nat -> (1 + uu) ^ k <= (1 + uu) ^ (n - 1)) by (intros k Hk; apply Rle_pow; [lra|exact Hk]).
    assert (W1 : (1 + uu) ^ (length l1 - 1) <= (1 + uu) ^ (n - 1)) by (apply W; unfold n; rewrite app_length; lia).
    assert (W2 : (1 + uu) ^ (length l2 - 1) <= (1 + uu) ^ (n - 1)) by (apply W; unfold n; rewrite app_length; lia).
    assert (W3 : (1 + uu) ^ (n - 1) <= 2).
    { apply Rle_trans with (1 + 2 * INR (n - 1) * uu).
      - apply pow_lin. apply Rle_trans with (INR (length l1) + INR (length l2)); [|exact N]. rewrite <- plus_INR. apply le_INR. unfold n. rewrite app_length. lia.
      - assert (INR (n - 1) <= 2 ^ 50). { apply Rle_trans with (INR (length l1) + INR (length l2)); [|exact N]. rewrite <- plus_INR. apply le_INR. unfold n. rewrite app_length. lia. }
        assert (P : 2 ^ 50 * uu = / 8). { rewrite pow2_bpow, <- bpow_plus. reflexivity. }
        assert (INR (n - 1) * uu <= / 8) by (rewrite <- P; apply Rmult_le_compat_r; lra). lra. }
    rewrite Hn. rewrite <- tech_pow_Rmult. set (w := (1 + uu) ^ (n - 1)) in *.
    pose proof (lsum_abs (reals l1)) as B1. pose proof (lsum_abs (reals l2)) as B2.
    fold (exact_sum l1) (abs_sum l1) in B1. fold (exact_sum l2) (abs_sum l2) in B2.
    assert (E1' : Rabs (B2R (r1 : b64) - exact_sum l1) <= (w - 1) * abs_sum l1) by (apply Rle_trans with (1 := E1); apply Rmult_le_compat_r; lra).
    assert (E2' : Rabs (B2R (r2 : b64) - exact_sum l2) <= (w - 1) * abs_sum l2) by (apply Rle_trans with (1 := E2); apply Rmult_le_compat_r; lra).
    assert (T : Rabs (B2R (r1 : b64) + B2R (r2 : b64)) <= w * (abs_sum l1 + abs_sum l2)).
    { replace (B2R (r1 : b64) + B2R (r2 : b64)) with ((B2R (r1 : b64) - exact_sum l1) + (B2R (r2 : b64) - exact_sum l2) + (exact_sum l1 + exact_sum l2)) by ring.
      eapply Rle_trans; [apply Rabs_triang|]. eapply Rle_trans; [apply Rplus_le_compat; apply Rabs_triang|]. lra. }
    destruct (add_rel r1 r2 H1 H2) as [H3 E3].
    { apply Rle_trans with (1 := T). rewrite (pow2_bpow 1000) in A. change (Z.of_nat 1000) with 1000%Z in A.
      apply Rle_trans with (2 * bpow radix2 1000). { apply Rmult_le_compat; try lra. unfold w. apply pow_le. lra. }
      change 2 with (bpow radix2 1). rewrite <- bpow_plus. apply bpow_le. lia. }
    split; [exact H3|]. cbn [nadd B64].
    replace (B2R (Bplus mode_NE r1 r2) - (exact_sum l1 + exact_sum l2)) with
      ((B2R (Bplus mode_NE r1 r2) - (B2R (r1 : b64) + B2R (r2 : b64))) + ((B2R (r1 : b64) - exact_sum l1) + (B2R (r2 : b64) - exact_sum l2))) by ring.
    eapply Rle_trans; [apply Rabs_triang|]. eapply Rle_trans; [apply Rplus_le_compat; [exact E3|apply Rabs_triang]|].
    assert (uu * Rabs (B2R (r1 : b64) + B2R (r2 : b64)) <= uu * (w * (abs_sum l1 + abs_sum l2))) by (apply Rmult_le_compat_l; lra).
    lra.
Qed.

Lemma exact_perm : forall l l', Permutation l l' -> exact_sum l = exact_sum l' /\ abs_sum l = abs_sum l' /\ (all_finite l -> all_finite l') /\ length l = length l'.
Proof.
  intros l l' P. unfold exact_sum, abs_sum, reals, all_finite. repeat split.
  - apply lsum_perm. apply Permutation_map. exact P.
  - apply lsum_perm. apply Permutation_map. apply Permutation_map. exact P.
  - intros F. rewrite Forall_forall in *. intros x Hx. apply F. apply (Permutation_in _ (Permutation_sym P)). exact Hx.
  - apply Permutation_length. exact P.
Qed.

Lemma grouping_rounding : forall l l' r, Permutation l l' -> grouping (@nadd B64) l' r -> moderate_sum l -> sum_up_to_rounding l r.
Proof.
  intros l l' r P G (F & A & N). destruct (exact_perm _ _ P) as (E1 & E2 & E3 & E4). unfold sum_up_to_rounding. rewrite E1, E2, E4 in *.
  destruct (grouping_error l' r G (E3 F) A N) as [H E]. split; [exact H|]. apply Rle_trans with (1 := E).
  apply Rmult_le_compat_r; [apply lsum_abs_pos|].
  assert (U52 : / 2 ^ 52 = 2 * uu). { rewrite pow2_bpow, <- bpow_opp. change (- Z.of_nat 52)%Z with (1 + -53)%Z. rewrite bpow_plus. simpl (bpow radix2 1). reflexivity. }
  rewrite U52. pose proof uu_pos as U.
  assert (M : (1 + uu) ^ (length l' - 1) <= (1 + uu) ^ (length l')) by (apply Rle_pow; [lra|lia]).
  pose proof (pow_lin (length l') N). lra.
Qed.

(** ** the coefficient of the matrix: the values in the order of the calls *)
Lemma mrun_fold : forall (A : arith) (cs : list (call A)) (m m' : matrix A) i j a, wf m ->
  (forall i' j' v, In (i', j', v) cs -> in_shape (shape_of m) i' j') -> mget m i j = Some a -> mrun m (map op_of cs) = Some m' ->
  mget m' i j = Some (fold_left nadd (given i j cs) a).
Proof.
  intros A. induction cs as [|[[i' j'] v] cs IH]; intros m m' i j a Hw Hin Hg Hr.
  - simpl in *. inversion Hr; subst. exact Hg.
  - cbn [map op_of mrun mstep] in Hr.
    destruct (update_ok m i' j' (fun w => nadd w v) Hw) as (m1 & w & U1 & U2 & U3 & U4 & U5 & U6).
    { eapply Hin. left. reflexivity. }
    unfold madd in Hr. rewrite U1 in Hr. unfold given. cbn [filter fst snd].
    destruct (Nat.eqb i' i && Nat.eqb j' j) eqn:Eb.
    + apply andb_prop in Eb. destruct Eb as [E1 E2]. apply Nat.eqb_eq in E1, E2. subst i' j'.
      rewrite Hg in U4. inversion U4; subst w. cbn [map fold_left snd]. eapply IH; eauto. rewrite U3. intros. eapply Hin. right. eauto.
    + eapply IH; eauto. { rewrite U3. intros. eapply Hin. right. eauto. }
      rewrite U6; auto. intros E. inversion E; subst. rewrite !Nat.eqb_refl in Eb. discriminate.
Qed.
Lemma given_perm : forall A i j (cs cs' : list (call A)), Permutation cs cs' -> Permutation (given i j cs) (given i j cs').
Proof.
  intros A i j cs cs' P. unfold given. apply Permutation_map. induction P as [|x l l' P IH|x y l|l l' l'' P1 IH1 P2 IH2]; simpl; auto.
  - destruct (_ && _); auto.
  - destruct (Nat.eqb (fst (fst x)) i && _), (Nat.eqb (fst (fst y)) i && _); auto. apply perm_swap.
  - eapply Permutation_trans; eauto.
Qed.
Lemma fold_grouping : forall X (op : X -> X -> X) a l, grouping op (a :: l) (fold_left op l a).
Proof.
  intros X op a l. cut (forall pre r, grouping op pre r -> grouping op (pre ++ l) (fold_left op l r)).
  { intros H. apply (H [a] a). constructor. }
  induction l as [|x l IH]; intros pre r H; simpl. { rewrite app_nil_r. exact H. }
  replace (pre ++ x :: l) with ((pre ++ [x]) ++ l) by (rewrite <- app_assoc; reflexivity). apply IH. constructor; auto. constructor.
Qed.

(** ** Theorems *)
(** Parallel assembly: for every number of threads and every schedule, each coefficient is the sum of its
    initial value and of the values added to it, up to the rounding of the additions. *)
Theorem C101_assembly_partial : forall (m : matrix B64) (progs : list (list (call B64))) sched i j a,
  wf m -> (forall p i j v, In p progs -> In (i, j, v) p -> in_shape (shape_of m) i j) -> mget m i j = Some a ->
  let l := a :: given i j (concat progs) in moderate_sum l ->
  let g := crun (start m progs) sched in all_done g ->
  exists r, mget (g_mat g) i j = Some r /\ sum_up_to_rounding l r.
Proof.
  intros m progs sched i j a Hw Hin Hg l Hm g Hd.
  destruct (C22_concurrent_add_serializable B64 m progs sched Hw Hin Hd) as (log & H1 & H2 & _). fold g in H1.
  assert (H1' : mrun m (map op_of (map snd log)) = Some (g_mat g)) by (rewrite map_map; exact H1).
  eexists. split.
  - eapply mrun_fold; [exact Hw| |exact Hg|exact H1'].
    intros i' j' v Hv. apply (Permutation_in _ H2) in Hv. apply in_concat in Hv. destruct Hv as (p & Hp & Hv). eauto.
  - eapply grouping_rounding; [|apply fold_grouping|exact Hm]. unfold l. constructor. apply given_perm. apply Permutation_sym. exact H2.
Qed.

(** Two runs: the coefficients differ by rounding only. *)
Theorem C101_two_runs_partial : forall (m : matrix B64) (progs : list (list (call B64))) sched sched' i j a,
  wf m -> (forall p i j v, In p progs -> In (i, j, v) p -> in_shape (shape_of m) i j) -> mget m i j = Some a ->
  let l := a :: given i j (concat progs) in moderate_sum l ->
  let g := crun (start m progs) sched in let g' := crun (start m progs) sched' in all_done g -> all_done g' ->
  exists r r', mget (g_mat g) i j = Some r /\ mget (g_mat g') i j = Some r' /\
    Rabs (B2R (r : b64) - B2R (r' : b64)) <= 2 * (INR (length l) * / 2 ^ 52 * abs_sum l).
Proof.
  intros m progs sched sched' i j a Hw Hin Hg l Hm g g' Hd Hd'.
  destruct (C101_assembly_partial m progs sched i j a Hw Hin Hg Hm Hd) as (r & E & _ & B).
  destruct (C101_assembly_partial m progs sched' i j a Hw Hin Hg Hm Hd') as (r' & E' & _ & B').
  exists r, r'. split; [exact E|]. split; [exact E'|]. fold l in B, B'.
  apply Rabs_le_inv in B. apply Rabs_le_inv in B'. apply Rabs_le. lra.
Qed.

(** Sequential policy (one thread): the same matrix in every run, bit for bit, for any arithmetic. *)
Theorem C101_sequential : forall (A : arith) (m : matrix A) (p : list (call A)) sched sched',
  wf m -> (forall i j v, In (i, j, v) p -> in_shape (shape_of m) i j) ->
  all_done (crun (start m [p]) sched) -> all_done (crun (start m [p]) sched') ->
  g_mat (crun (start m [p]) sched) = g_mat (crun (start m [p]) sched').
Proof.
  intros A m p sched sched' Hw Hin Hd Hd'.
  assert (K : forall s, all_done (crun (start m [p]) s) -> mrun m (map op_of p) = Some (g_mat (crun (start m [p]) s))).
  { intros s Hs. destruct (C22_concurrent_add_serializable A m [p] s Hw) as (log & H1 & H2 & H3); auto.
    { intros q i j v [<-|[]] Hv. eapply Hin. exact Hv. }
    specialize (H3 0%nat p eq_refl). rewrite <- H1. f_equal.
    assert (L : length (map snd log) = length p). { apply Permutation_length in H2. simpl in H2. rewrite app_nil_r in H2. exact H2. }
    assert (F : filter (fun x => Nat.eqb (fst x) 0) log = log).
    { clear - L H3. assert (Q : length (filter (fun x => Nat.eqb (fst x) 0) log) = length log).
      { rewrite <- (map_length snd (filter _ log)), H3, <- L, map_length. reflexivity. }
      clear - Q. induction log as [|x log IH]; [reflexivity|]. simpl in *. destruct (Nat.eqb (fst x) 0); simpl in *.
      - f_equal. apply IH. lia.
      - exfalso. assert (FL : forall l : list (nat * call A), (length (filter (fun x => Nat.eqb (fst x) 0) l) <= length l)%nat).
        { clear. induction l as [|y l IH]; simpl; [lia|]. destruct (Nat.eqb (fst y) 0); simpl; lia. }
        specialize (FL log). lia. }
    rewrite F in H3. rewrite <- H3, map_map. reflexivity. }
  pose proof (K _ Hd) as K1. pose proof (K _ Hd') as K2. rewrite K1 in K2. inversion K2. reflexivity.
Qed.

(** Parallel policy: not bit for bit. Three threads add 1, 2^-53 and 2^-53 to the same coefficient: 1 or 1 + 2^-52. *)
Definition tiny : num B64 := @nlit B64 1 9007199254740992.
Definition race : list (list (call B64)) := [[(0%nat, 0%nat, b64_of_Z 1)]; [(0%nat, 0%nat, tiny)]; [(0%nat, 0%nat, tiny)]].
Definition serial (l : list nat) : list nat := concat (map (fun t => [t; t; t; t]) l).
Definition race_result (l : list nat) : option (num B64) := mget (g_mat (crun (start (new_matrix (A := B64) [[0%nat]]) race) (serial l))) 0 0.
Definition done_b (l : list nat) : bool :=
  forallb (fun th => match prog th with [] => true | _ => false end) (g_threads (crun (start (new_matrix (A := B64) [[0%nat]]) race) (serial l))).
Theorem C101_parallel_refuted : exists sched sched' r r',
  let m := new_matrix (A := B64) [[0%nat]] in
  all_done (crun (start m race) sched) /\ all_done (crun (start m race) sched') /\
  mget (g_mat (crun (start m race) sched)) 0 0 = Some r /\ mget (g_mat (crun (start m race) sched')) 0 0 = Some r' /\
  Bltb (r : b64) (r' : b64) = true.
Proof.
  exists (serial [0; 1; 2]%nat), (serial [1; 2; 0]%nat).
  assert (K : match race_result [0; 1; 2]%nat, race_result [1; 2; 0]%nat with Some x, Some y => Bltb (x : b64) (y : b64) | _, _ => false end = true) by (vm_compute; reflexivity).
  destruct (race_result [0; 1; 2]%nat) as [r|] eqn:E; [|discriminate]. destruct (race_result [1; 2; 0]%nat) as [r'|] eqn:E'; [|discriminate].
  assert (D : forall l, done_b l = true -> all_done (crun (start (new_matrix (A := B64) [[0%nat]]) race) (serial l))).
  { intros l H. unfold all_done. apply Forall_forall. intros th Hth. unfold done_b in H. rewrite forallb_forall in H. specialize (H th Hth). destruct (prog th); [reflexivity|discriminate]. }
  exists r, r'. split; [apply D; vm_compute; reflexivity|]. split; [apply D; vm_compute; reflexivity|]. split; [exact E|]. split; [exact E'|]. exact K.
Qed.

(** Averages and other sums over the elements (std::transform_reduce): any order and any grouping. *)
Theorem C101_reduce_partial : forall (a : num B64) (l : list (num B64)) r,
  moderate_sum (a :: l) -> reduce_result (@nadd B64) a l r -> sum_up_to_rounding (a :: l) r.
Proof. intros a l r Hm (l' & P & G). eapply grouping_rounding; eauto. Qed.

(** ** the minimum of max_angle *)
(** std::min(a, b): b if b < a, else a *)
Definition std_min (a b : num B64) : num B64 := if nlt b a then b else a.
(** Without NaN the minimum does not depend on the order of the reduction. *)
Lemma grouping_std_min : forall l r, grouping std_min l r -> all_finite l -> is_finite (r : b64) = true /\ In r l /\ forall x, In x l -> B2R (r : b64) <= B2R (x : b64).
Proof.
  induction 1 as [x|l1 l2 r1 r2 G1 IH1 G2 IH2]; intros F.
  - split; [inversion F; assumption|]. split; [left; reflexivity|]. intros y [<-|[]]. lra.
  - unfold all_finite in F. apply Forall_app in F. destruct F as [F1 F2]. destruct (IH1 F1) as (H1 & I1 & M1). destruct (IH2 F2) as (H2 & I2 & M2).
    unfold std_min. cbn [nlt B64]. rewrite Bltb_correct by assumption. destruct (Rlt_bool_spec (B2R (r2 : b64)) (B2R (r1 : b64))) as [C|C].
    + split; [exact H2|]. split; [apply in_or_app; auto|]. intros x Hx. apply in_app_or in Hx. destruct Hx as [Hx|Hx]; [specialize (M1 x Hx); lra|auto].
    + split; [exact H1|]. split; [apply in_or_app; auto|]. intros x Hx. apply in_app_or in Hx. destruct Hx as [Hx|Hx]; [auto|specialize (M2 x Hx); lra].
Qed.
Theorem C101_minimum : forall (a : num B64) (l : list (num B64)) r r', all_finite (a :: l) ->
  reduce_result std_min a l r -> reduce_result std_min a l r' -> B2R (r : b64) = B2R (r' : b64) /\ In r (a :: l) /\ (forall x, In x (a :: l) -> B2R (r : b64) <= B2R (x : b64)).
Proof.
  intros a l r r' F (k & P & G) (k' & P' & G').
  destruct (exact_perm _ _ P) as (_ & _ & F1 & _). destruct (exact_perm _ _ P') as (_ & _ & F2 & _).
  destruct (grouping_std_min k r G (F1 F)) as (_ & I & M). destruct (grouping_std_min k' r' G' (F2 F)) as (_ & I' & M').
  split; [|split].
  - apply Rle_antisym.
    + apply M. apply (Permutation_in _ P). apply (Permutation_in _ (Permutation_sym P')). exact I'.
    + apply M'. apply (Permutation_in _ P'). apply (Permutation_in _ (Permutation_sym P)). exact I.
  - apply (Permutation_in _ (Permutation_sym P)). exact I.
  - intros x Hx. apply M. apply (Permutation_in _ P). exact Hx.
Qed.

(** mesh::max_angle (mesh.h lines 295-308) is given all the edges of the mesh. The magnetization of a
    non-magnetic node is NaN (C44), so is the dot product of its edges, and the minimum depends on the
    grouping: with one edge between opposite magnetizations (dot product -1) and one edge of a
    non-magnetic node, the reported minimum is -1 (180 degrees) or 1 (0 degree). *)
Theorem C43_nonmagnetic_refuted : exists r r', 
  reduce_result std_min (b64_of_Z 1) [B754_nan; b64_of_Z (-1)] r /\ reduce_result std_min (b64_of_Z 1) [B754_nan; b64_of_Z (-1)] r' /\
  B2R (r : b64) = -1 /\ B2R (r' : b64) = 1.
Proof.
  exists (std_min (std_min (b64_of_Z 1) B754_nan) (b64_of_Z (-1))), (std_min (b64_of_Z 1) (std_min B754_nan (b64_of_Z (-1)))).
  split; [|split; [|split]].
  - exists [b64_of_Z 1; B754_nan; b64_of_Z (-1)]. split; [apply Permutation_refl|].
    apply (grp_node std_min [b64_of_Z 1; B754_nan] [b64_of_Z (-1)]); [|constructor]. apply (grp_node std_min [b64_of_Z 1] [B754_nan]); constructor.
  - exists [b64_of_Z 1; B754_nan; b64_of_Z (-1)]. split; [apply Permutation_refl|].
    apply (grp_node std_min [b64_of_Z 1] [B754_nan; b64_of_Z (-1)]); [constructor|]. apply (grp_node std_min [B754_nan] [b64_of_Z (-1)]); constructor.
  - assert (E : std_min (std_min (b64_of_Z 1) B754_nan) (b64_of_Z (-1)) = b64_of_Z (-1)) by (apply B2SF_inj; vm_compute; reflexivity).
    rewrite E. apply (proj2 (b64_of_Z_correct (-1) ltac:(lia))).
  - assert (E : std_min (b64_of_Z 1) (std_min B754_nan (b64_of_Z (-1))) = b64_of_Z 1) by (apply B2SF_inj; vm_compute; reflexivity).
    rewrite E. apply (proj2 (b64_of_Z_correct 1 ltac:(lia))).
Qed.

(** ** Non-vacuity *)
Lemma tiny_value : B2R (tiny : b64) = / 2 ^ 53 /\ is_finite (tiny : b64) = true.
Proof.
  split; [|vm_compute; reflexivity].
  assert (S : B2SF (tiny : b64) = SpecFloat.S754_finite false 4503599627370496 (-105)) by (vm_compute; reflexivity).
  rewrite <- SF2R_B2SF, S. unfold SF2R, F2R. cbn [Fnum Fexp cond_Zopp].
  rewrite pow2_bpow, <- bpow_opp. change (IZR 4503599627370496) with (bpow radix2 52). rewrite <- bpow_plus. reflexivity.
Qed.
Example C101_nonvacuous : let m := new_matrix (A := B64) [[0%nat]] in
  wf m /\ (forall p i j v, In p race -> In (i, j, v) p -> in_shape (shape_of m) i j) /\ mget m 0 0 = Some (b64_of_Z 0) /\
  moderate_sum (b64_of_Z 0 :: given 0 0 (concat race)) /\ all_done (crun (start m race) (serial [0; 1; 2]%nat)).
Proof.
  split; [|split; [|split; [|split]]].
  - apply wf_new. repeat constructor.
  - intros p i j v Hp Hv. simpl in Hp. destruct Hp as [<-|[<-|[<-|[]]]]; simpl in Hv; (destruct Hv as [Hv|[]]; inversion Hv; subst; exists [0%nat]; simpl; auto).
  - assert (K : match mget (new_matrix (A := B64) [[0%nat]]) 0 0 with Some x => B2SF (x : b64) | None => SpecFloat.S754_nan end = B2SF (b64_of_Z 0)) by (vm_compute; reflexivity).
    destruct (mget (new_matrix (A := B64) [[0%nat]]) 0 0) as [x|] eqn:E; [|vm_compute in K; discriminate]. f_equal. apply B2SF_inj. exact K.
  - destruct tiny_value as [V F]. destruct (b64_of_Z_correct 0 ltac:(lia)) as [F0 V0]. destruct (b64_of_Z_correct 1 ltac:(lia)) as [F1 V1].
    assert (G : given 0 0 (concat race) = [b64_of_Z 1 : num B64; tiny; tiny]) by reflexivity. rewrite G.
    split; [repeat (apply Forall_cons; [assumption|]); apply Forall_nil|]. split.
    + unfold abs_sum, reals. cbn [map lsum]. rewrite V, V0, V1. assert (0 < / 2 ^ 53 <= 1).
      { split; [apply Rinv_0_lt_compat; apply pow_lt; lra|]. rewrite <- Rinv_1. apply Rinv_le; [lra|]. apply pow_R1_Rle. lra. }
      rewrite Rabs_R0, Rabs_R1, (Rabs_pos_eq (/ 2 ^ 53)) by lra. assert (2 ^ 2 <= 2 ^ 1000) by (apply Rle_pow; [lra|lia]). lra.
    + cbn [length]. assert (2 ^ 2 <= 2 ^ 50) by (apply Rle_pow; [lra|lia]). simpl INR. lra.
  - unfold all_done. apply Forall_forall. intros th Hth. assert (H : done_b [0; 1; 2]%nat = true) by (vm_compute; reflexivity).
    unfold done_b in H. rewrite forallb_forall in H. specialize (H th Hth). destruct (prog th); [reflexivity|discriminate].
Qed.

Print Assumptions C101_assembly_partial.
Print Assumptions C101_two_runs_partial.
Print Assumptions C101_sequential.
Print Assumptions C101_parallel_refuted.
Print Assumptions C101_reduce_partial.
Print Assumptions C101_minimum.
Print Assumptions C43_nonmagnetic_refuted.
