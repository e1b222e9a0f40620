(** * C113: a time step that the program accepts was computed from finite numbers

    In double precision an infinity or a NaN can come out of any sum, product or quotient of the integrals of an
    element. The linear solver and the test that follows it (solver.cpp lines 59-68) refuse every step of which one
    number of the system is such a value. *)
From Coq Require Import Reals ZArith List Arith Bool Lia Lra Permutation.
From Flocq Require Import Core BinarySingleNaN.
From Verif Require Import Arith ArithLaws SparseModel SparseProof ConcModel ConcProof SparseProps IterModel IterProof Ieee IterMask
  AsmModel AsmProof AsmProps.
Import ListNotations.
Local Open Scope nat_scope.

(** more rules of IEEE arithmetic on non-finite numbers *)
Record ieee_more {A : arith} (L : ieee A) : Prop := mkMore {
  div_z : forall a b : num A, zer L b -> ~ fin L (ndiv a b);
  nf_sub_r : forall a b : num A, ~ fin L b -> ~ fin L (nsub a b);
  nf_abs : forall a : num A, ~ fin L a -> ~ fin L (nabs a);
  nf_sqrt : forall a : num A, ~ fin L a -> ~ fin L (nsqrt a);
  nf_div_l : forall a b : num A, ~ fin L a -> ~ fin L (ndiv a b);
  inf_big : forall a m : num A, ~ fin L (nabs a) -> nisnan (nabs a) = false -> fin L m -> nlt m (nabs a) = true }.

Lemma XA_more : ieee_more XA_ieee.
Proof.
  constructor; cbn [fin zer XA_ieee].
  - intros a b ->. destruct a as [r| | |]; cbn; auto.
    + rewrite Req_bool_true by reflexivity. destruct (Req_bool r 0); auto. destruct (Rlt_bool 0 r); auto.
    + rewrite Rlt_bool_false by lra. auto.
    + rewrite Rlt_bool_false by lra. auto.
  - intros a b H. destruct a, b; cbn in *; auto.
  - intros a H. destruct a; cbn in *; auto.
  - intros a H. destruct a; cbn in *; auto.
  - intros a b H. destruct a; cbn in *; try tauto; destruct b; cbn; auto; destruct (Rlt_bool r 0); auto.
  - intros a m H1 H2 H3. destruct a; cbn in *; try tauto; try discriminate; destruct m; cbn in *; tauto.
Qed.

Lemma B64_more : ieee_more B64_ieee.
Proof.
  constructor; cbn [fin zer B64_ieee]; unfold bfin.
  - intros a b H. destruct b as [sb| | |]; cbn in H; try tauto. destruct a as [?|[]| |? ? ? ?]; cbn; discriminate.
  - intros a b H. destruct a as [?|[]| |? ? ? ?], b as [?|[]| |? ? ? ?]; cbn in *; try tauto; discriminate.
  - intros a H. destruct a; cbn in *; tauto.
  - intros a H. destruct a as [?|[]| |? ? ? ?]; cbn in *; try tauto; discriminate.
  - intros a b H. destruct a as [?|[]| |? ? ? ?], b as [?|[]| |? ? ? ?]; cbn in *; try tauto; discriminate.
  - intros a m H1 H2 H3. destruct a as [?|[]| |? ? ? ?]; cbn in *; try tauto; try discriminate;
      destruct m as [?|[]| |[] ? ? ?]; cbn in *; try discriminate; reflexivity.
Qed.

Section generic.
Context {A : arith} (L : ieee A) (HM : ieee_more L).
Notation vect := (list (num A)).
Notation fin := (fin L).

Lemma norm_nf : forall X i, i < length X -> ~ fin (nth i X n0) -> ~ fin (nabs (vnorm2 X)).
Proof.
  intros X i Hi H. unfold vnorm2. apply nf_abs; auto. apply nf_sqrt; auto. apply nf_abs; auto.
  apply (dot_nf L X X i); auto. apply nf_mul_l. exact H.
Qed.

Lemma failed_nf : forall it nr b it', fin (resmax it) -> ~ fin (nabs nr) -> finished it nr = (b, it') -> b = true \/ status it' = CANNOT_CONVERGE ->
  solve_failed it' = true.
Proof.
  intros it nr b it' Hf Hn H Hb. apply finished_spec in H. destruct H as (_ & P & _ & R & S). unfold solve_failed.
  rewrite R. destruct P as [P1 P2 P3 P4]. replace (resmax it') with (resmax it) by congruence.
  destruct (nisnan (nabs nr)) eqn:En. { rewrite S. reflexivity. }
  rewrite (inf_big L HM nr (resmax it)) by auto. destruct (status it'); reflexivity.
Qed.

Section loop.
Variables (M : matrix A) (ld : list nat) (D rt : vect).
Notation n := (length M).

Record ninv (s : bstate A) : Prop := mkNinv {
  ni_r : length (b_r s) = n; ni_p : length (b_p s) = n; ni_v : length (b_v s) = n;
  ni_res : fin (resmax (b_it s)); ni_nf : exists j, j < n /\ ~ fin (nth j (b_r s) n0) }.

Lemma pass_nf : forall s, ninv s -> match bicg_pass M ld D rt s with Stop it x => solve_failed it = true | Next s' => ninv s' end.
Proof.
  intros s [Lr Lp Lv Hr (j & Hj & Hn)]. unfold bicg_pass.
  destruct (finished (b_it s) (vnorm2 (b_r s))) as [f1 it1] eqn:E1.
  assert (N1 : ~ fin (nabs (vnorm2 (b_r s)))). { apply (norm_nf _ j); auto. rewrite Lr. exact Hj. }
  destruct f1. { eapply failed_nf; eauto. }
  assert (R1 : resmax it1 = resmax (b_it s)). { apply finished_spec in E1. destruct E1 as (_ & [] & _). congruence. }
  cbv zeta. destruct ((0 <? nit it1)%Z && _). { reflexivity. }
  match goal with |- context [p_direct D ?q] => set (p := q) end.
  assert (Hlp : length p = n). { unfold p. destruct (0 <? nit it1)%Z; len. }
  match goal with |- context [finished it1 (vnorm2 ?v)] => set (ss := v) end.
  assert (Hls : length ss = n). { unfold ss. len. }
  assert (Hss : ~ fin (nth j ss n0)).
  { unfold ss, scaled_add. rewrite (zip_nth' n) by (auto; len). apply nf_add_l. exact Hn. }
  destruct (finished it1 (vnorm2 ss)) as [f2 it2] eqn:E2.
  assert (N2 : ~ fin (nabs (vnorm2 ss))). { apply (norm_nf _ j); auto. rewrite Hls. exact Hj. }
  destruct f2. { apply (failed_nf _ _ _ _ ltac:(rewrite R1; exact Hr) N2 E2). auto. }
  assert (R2 : resmax it2 = resmax it1). { apply finished_spec in E2. destruct E2 as (_ & [] & _). congruence. }
  destruct (is_stop (status it2)) eqn:Es. { unfold solve_failed. destruct (status it2); try discriminate; reflexivity. }
  constructor; cbn [b_r b_p b_v b_it].
  - len.
  - exact Hlp.
  - len.
  - destruct (incr_spec it2) as ([I1 I2 I3 I4] & _). replace (resmax (incr it2)) with (resmax it2) by congruence. rewrite R2, R1. exact Hr.
  - exists j. split; auto. unfold vsub_from. rewrite (zip_nth' n) by (auto; len). apply nf_sub_l. exact Hss.
Qed.

Lemma loop_nf : forall fuel s it x, ninv s -> bicg_loop fuel M ld D rt s = Some (it, x) -> solve_failed it = true.
Proof.
  induction fuel as [|fuel IH]; intros s it x I H; cbn [bicg_loop] in H. { discriminate. }
  pose proof (pass_nf s I) as P. destruct (bicg_pass M ld D rt s) as [it0 x0|s'].
  - inversion H; subst. exact P.
  - eapply IH; eauto.
Qed.
End loop.

(** the residual of the first guess has a component that is not finite *)
Lemma bicg_dir0_nf : forall passes it M x rhs ld it' x' j, length x = length M -> length rhs = length M -> j < length M -> ~ In j ld ->
  fin (resmax it) -> ~ fin (nsub (nth j rhs n0) (nth j (mmult M x) n0)) ->
  bicg_dir0 passes it M x rhs ld = Some (it', x') -> solve_failed it' = true.
Proof.
  intros passes it M x rhs ld it' x' j Hx Hb Hj Hl Hr Hn H. unfold bicg_dir0 in H.
  eapply loop_nf; [|exact H].
  constructor; cbn [b_r b_p b_v b_it]; [len|len|len|exact Hr|].
  - exists j. split; auto. rewrite mask_nth_out by exact Hl. unfold vsub_from. rewrite (zip_nth' (length M)) by (auto; len).
    rewrite mask_nth_out by exact Hl. exact Hn.
Qed.

(** ** the assembly keeps what is not finite *)
Lemma calls_nf : forall (cs : list (nat * num A)) V k, k < length V -> (exists v, In (k, v) cs /\ ~ fin v) \/ ~ fin (nth k V n0) ->
  ~ fin (nth k (fold_left vect_add cs V) n0).
Proof.
  induction cs as [|[i v] cs IH]; intros V k Hk H; cbn [fold_left].
  - destruct H as [(v & [] & _)|H]; auto.
  - apply IH. { unfold vect_add. rewrite set_nth_length. exact Hk. }
    unfold vect_add. cbn [fst snd].
    destruct H as [(w & [E|Hw] & Hn)|H].
    + inversion E; subst. right. rewrite set_nth_nth by exact Hk. rewrite Nat.eqb_refl. apply nf_add_r. exact Hn.
    + left. eauto.
    + right. destruct (Nat.lt_ge_cases i (length V)) as [Hi|Hi].
      * rewrite set_nth_nth by exact Hi. destruct (i =? k) eqn:E; auto. apply Nat.eqb_eq in E. subst. apply nf_add_l. exact H.
      * replace (set_nth i (nadd (nth i V n0) v) V) with V; auto. symmetry. clear -Hi. generalize (nadd (nth i V n0) v). revert i Hi.
        induction V; destruct i; simpl; intros; auto; try lia. f_equal. apply IHV. lia.
Qed.

Lemma vects_nf : forall (es : list (elem (num A))) V k, k < length V ->
  (exists e v, In e es /\ In (k, v) (vect_calls 2 e) /\ ~ fin v) \/ ~ fin (nth k V n0) -> ~ fin (nth k (fold_left (buildVect 2) es V) n0).
Proof.
  induction es as [|e es IH]; intros V k Hk H; cbn [fold_left].
  - destruct H as [(e & v & [] & _)|H]; auto.
  - apply IH. { pose proof (buildVect_length A 2 [e] V) as Q. cbn [fold_left] in Q. rewrite Q. exact Hk. }
    destruct H as [(e' & v & [->|He] & Hc & Hn)|H].
    + right. apply calls_nf; eauto.
    + left. eauto.
    + right. apply calls_nf; auto.
Qed.

Lemma rhs_nf : forall n tets tris e k v, In e (tets ++ tris) -> In (k, v) (vect_calls 2 e) -> ~ fin v -> k < 2 * n ->
  ~ fin (nth k (rhs_of n tets tris) n0).
Proof.
  intros n tets tris e k v He Hc Hn Hk. unfold rhs_of. apply vects_nf. { rewrite buildVect_length, repeat_length. exact Hk. }
  apply in_app_or in He. destruct He as [He|He]; [right|left; eauto].
  apply vects_nf. { rewrite repeat_length. exact Hk. } left. eauto.
Qed.

Lemma adds_nf : forall (cs : list (call A)) (m m' : matrix A) i j, wf m -> (forall c, In c cs -> in_shape (shape_of m) (fst (fst c)) (snd (fst c))) ->
  mrun m (map op_of cs) = Some m' ->
  (exists v, In (i, j, v) cs /\ ~ fin v) \/ (exists v, mget m i j = Some v /\ ~ fin v) -> exists v, mget m' i j = Some v /\ ~ fin v.
Proof.
  induction cs as [|[[a b] w] cs IH]; intros m m' i j Hw Hs Hr H; cbn [map op_of mrun mstep] in Hr.
  - inversion Hr; subst. destruct H as [(v & [] & _)|H]; auto.
  - destruct (update_ok m a b (fun v => nadd v w) Hw (Hs (a, b, w) (or_introl eq_refl))) as (m1 & x & U1 & U2 & U3 & U4 & U5 & U6).
    unfold madd in Hr. rewrite U1 in Hr. apply (IH m1 m' i j); auto.
    { intros c Hc. rewrite U3. apply Hs. right. exact Hc. }
    destruct H as [(v & [E|Hv] & Hn)|(v & Hg & Hn)].
    + inversion E; subst. right. eexists. split; [exact U5|]. apply nf_add_r. exact Hn.
    + left. eauto.
    + right. destruct (Nat.eq_dec i a) as [->|Ha]; [destruct (Nat.eq_dec j b) as [->|Hb]|].
      * eexists. split; [exact U5|]. rewrite U4 in Hg. inversion Hg; subst. apply nf_add_l. exact Hn.
      * exists v. rewrite U6 by congruence. auto.
      * exists v. rewrite U6 by congruence. auto.
Qed.

Lemma coeff_nf : forall (M : matrix A) i j v X, wf M -> mget M i j = Some v -> ~ fin v -> ~ fin (nth i (mmult M X) n0).
Proof.
  intros M i j v X Hw Hg Hn. unfold mget in Hg. destruct (nth_error M i) as [r|] eqn:Er; [|discriminate].
  destruct (wf_row M i r Hw Er) as [_ Hl]. rewrite (mmult_nth M X i r Er). unfold row_dot.
  apply (fold_nf L (fun kv => nmul (snd kv) (nth (fst kv) X n0))). left.
  destruct (nth_error (indices r) (lower_bound (indices r) j)) as [j'|] eqn:Ei.
  2: { inversion Hg; subst. destruct Hn. apply zer_fin, zer_n0. }
  destruct (j' =? j). 2: { inversion Hg; subst. destruct Hn. apply zer_fin, zer_n0. }
  exists (j', v). split.
  - revert Ei Hg. generalize (lower_bound (indices r) j). generalize (values r), (indices r).
    intros vs l k. revert vs l. induction k as [|k IH]; intros [|y vs] [|z l]; simpl; intros; try discriminate.
    + left. congruence.
    + right. auto.
  - apply nf_mul_l. exact Hn.
Qed.
End generic.

Lemma vect_calls_at : forall {V} (e : elem V) ie di, ie < e_N e -> di < 2 -> In (2 * e_nod e ie + di, e_Le e (di * e_N e + ie)) (vect_calls 2 e).
Proof.
  intros V e ie di H1 H2. unfold vect_calls. apply in_flat_map. exists ie. split. { apply in_seq. lia. }
  apply in_map_iff. exists di. split; auto. apply in_seq. lia.
Qed.
Lemma mat_calls_at : forall {V} (e : elem V) ie je di dj, ie < e_N e -> je < e_N e -> di < 2 -> dj < 2 ->
  In (2 * e_nod e ie + di, 2 * e_nod e je + dj, e_Ke e (di * e_N e + ie) (dj * e_N e + je)) (mat_calls 2 e).
Proof.
  intros V e ie je di dj H1 H2 H3 H4. unfold mat_calls. apply in_flat_map. exists ie. split. { apply in_seq. lia. }
  apply in_flat_map. exists je. split. { apply in_seq. lia. }
  apply in_flat_map. exists di. split. { apply in_seq. lia. }
  apply in_map_iff. exists dj. split; auto. apply in_seq. lia.
Qed.

Lemma unmasked : forall mag i d, nth i mag false = true -> d < 2 -> ~ In (2 * i + d) (lvd_of mag).
Proof.
  intros mag i d Hm Hd H. apply lvd_in in H. destruct H as (k & _ & Hk & E). assert (k = i) by lia. subst. congruence.
Qed.

(** ** The property *)

(** the numbers from which the program computes the speed of the magnetic nodes are all finite: the coefficients of
    the matrices and vectors of the elements in the rows of magnetic nodes, and the first guess *)
Record finite_data {A : arith} (L : ieee A) (mag : list bool) (gamma0 : num A) (proj : nat -> num A * num A)
    (matrix_elems vector_elems : list (elem (num A))) : Prop := mkFinite {
  fd_mat : forall e ie je di dj, In e matrix_elems -> ie < e_N e -> je < e_N e -> di < 2 -> dj < 2 -> nth (e_nod e ie) mag false = true ->
    fin L (e_Ke e (di * e_N e + ie) (dj * e_N e + je));
  fd_vec : forall e ie di, In e vector_elems -> ie < e_N e -> di < 2 -> nth (e_nod e ie) mag false = true -> fin L (e_Le e (di * e_N e + ie));
  fd_guess : forall i, i < length mag -> nth i mag false = true -> fin L (ndiv (fst (proj i)) gamma0) /\ fin L (ndiv (snd (proj i)) gamma0) }.

Theorem C113_accepted : forall (A : arith) (L : ieee A), ieee_more L -> forall (N : Type) upd gamma0 passes mag (it : iteration A) K proj
    work sched tets tris (nodes : list N) (o : solve_out (A := A) N) edges,
  lin_solve upd gamma0 passes mag it K proj work sched tets tris nodes = Some o ->
  mesh_system 2 (length mag) edges (mag_filter mag) (concat work) ->
  wf K -> shape_of K = build_shape 2 (length mag) edges (mag_filter mag) ->
  fin L (resmax it) ->
  o_fail _ o = false -> finite_data L mag gamma0 proj (concat work) (tets ++ tris).
Proof.
  intros A L HM N upd gamma0 passes mag it K proj work sched tets tris nodes o edges Hrun Hms Hwf Hsh Hres Hok.
  destruct (solve_steps upd gamma0 passes mag it K proj work sched tets tris nodes o edges Hrun Hms Hwf Hsh)
    as (Hd & W1 & S1 & W & S & HL & G & E).
  assert (Hf : solve_failed (o_iter _ o) = false).
  { unfold lin_solve in Hrun. destruct (done_b _); [|discriminate]. destruct (set_diag _ _); [|discriminate].
    destruct (bicg_dir0 _ _ _ _ _ _) as [[it' X]|]; [|discriminate].
    destruct (solve_failed it') eqn:F; inversion Hrun; subst; cbn in *; congruence. }
  assert (Key : forall j, j < 2 * length mag -> ~ In j (lvd_of mag) ->
    fin L (nth j (rhs_of (length mag) tets tris) n0) /\ fin L (nth j (mmult (o_K _ o) (init_guess gamma0 mag proj)) n0)).
  { intros j Hj Hl.
    destruct (fin_dec _ L (nsub (nth j (applyMask (lvd_of mag) (rhs_of (length mag) tets tris)) n0)
      (nth j (mmult (o_K _ o) (init_guess gamma0 mag proj)) n0))) as [F|F].
    - rewrite mask_nth_out in F by exact Hl. split.
      + destruct (fin_dec _ L (nth j (rhs_of (length mag) tets tris) n0)) as [F1|F1]; auto. destruct (nf_sub_l _ L _ _ F1 F).
      + destruct (fin_dec _ L (nth j (mmult (o_K _ o) (init_guess gamma0 mag proj)) n0)) as [F1|F1]; auto. destruct (nf_sub_r L HM _ _ F1 F).
    - assert (Hx : solve_failed (o_iter _ o) = true); [|congruence].
      eapply (bicg_dir0_nf L HM); [| | |exact Hl| |exact F|exact E].
      + rewrite guess_length. lia.
      + rewrite mask_length. unfold rhs_of. rewrite !buildVect_length, repeat_length. lia.
      + lia.
      + exact Hres. }
  pose proof Hms as [He Hn Hedge].
  constructor.
  - intros e ie je di dj He1 Hie Hje Hdi Hdj Hm.
    destruct (fin_dec _ L (e_Ke e (di * e_N e + ie) (dj * e_N e + je))) as [F|F]; auto. exfalso.
    assert (Hb : e_nod e ie < length mag). { apply (Hn e); auto. apply nod_in. exact Hie. }
    assert (Hun : ~ In (2 * e_nod e ie + di) (lvd_of mag)) by (apply unmasked; auto).
    destruct (wf_clear K Hwf) as [W0 S0].
    assert (Hin : forall p i j v, In p (map (flat_map (mat_calls 2)) work) -> In (i, j, v) p -> in_shape (shape_of (clear K)) i j).
    { intros p i j v H1 H2. apply in_map_iff in H1. destruct H1 as (l & <- & Hl). apply in_flat_map in H2. destruct H2 as (e' & H3 & H4).
      assert (Hel : In e' (concat work)) by (apply in_concat; eauto).
      rewrite S0, Hsh. eapply calls_in_shape; eauto. }
    destruct (C22_concurrent_add_serializable A (clear K) (map (flat_map (mat_calls 2)) work) sched W0 Hin Hd) as (log & R1 & R2 & _).
    rewrite <- (map_map snd op_of) in R1.
    destruct (adds_nf L (map snd log) (clear K)
      (g_mat (crun (start (clear K) (map (flat_map (mat_calls 2)) work)) sched)) (2 * e_nod e ie + di) (2 * e_nod e je + dj) W0) as (v & Hv1 & Hv2).
    + intros [[a b] w] Hc. cbn [fst snd]. apply (Permutation_in _ R2) in Hc. apply in_concat in Hc. destruct Hc as (p & Hp & Hc). eapply Hin; eauto.
    + exact R1.
    + left. exists (e_Ke e (di * e_N e + ie) (dj * e_N e + je)). split; auto.
      apply (Permutation_in _ (Permutation_sym R2)). apply in_concat. apply in_concat in He1. destruct He1 as (l & Hl1 & Hl2).
      exists (flat_map (mat_calls 2) l). split. { apply in_map. exact Hl1. } apply in_flat_map. exists e. split; auto.
      apply mat_calls_at; auto.
    + destruct (Key (2 * e_nod e ie + di) ltac:(lia) Hun) as [_ K2].
      apply (coeff_nf L (o_K _ o) (2 * e_nod e ie + di) (2 * e_nod e je + dj) v _ W) in K2; auto.
      rewrite G. unfold IterExact.masked. destruct (in_dec Nat.eq_dec (2 * e_nod e ie + di) (lvd_of mag)); [contradiction|]. exact Hv1.
  - intros e ie di He1 Hie Hdi Hm.
    destruct (fin_dec _ L (e_Le e (di * e_N e + ie))) as [F|F]; auto. exfalso.
    assert (Hb : e_nod e ie < length mag).
    { destruct (Nat.lt_ge_cases (e_nod e ie) (length mag)); auto. rewrite nth_overflow in Hm by lia. discriminate. }
    destruct (Key (2 * e_nod e ie + di) ltac:(lia) (unmasked mag _ _ Hm Hdi)) as [K1 _].
    revert K1. eapply rhs_nf; eauto; [|lia]. apply vect_calls_at; auto.
  - intros i Hi Hm.
    assert (Hg : forall d, d < 2 -> fin L (nth (2 * i + d) (init_guess gamma0 mag proj) n0)).
    { intros d Hdd. destruct (fin_dec _ L (nth (2 * i + d) (init_guess gamma0 mag proj) n0)) as [F|F]; auto. exfalso.
      destruct (Key (2 * i + d) ltac:(lia) (unmasked mag _ _ Hm Hdd)) as [_ K2]. revert K2.
      assert (Hin : in_shape (shape_of (o_K _ o)) (2 * i + d) (2 * i + d)).
      { rewrite S. apply (build_shape_spec 2 (length mag) edges (mag_filter mag) He). exists i, d, i, d. repeat split; auto. }
      apply in_shape_row in Hin. destruct Hin as (r & Er & Hr). rewrite (mmult_nth _ _ _ _ Er).
      apply (row_nf L r _ (2 * i + d)); auto. apply (wf_row _ _ _ W Er). }
    assert (Hv : forall d, d < 2 -> nth (2 * i + d) (init_guess gamma0 mag proj) n0 = if d =? 0 then ndiv (fst (proj i)) gamma0 else ndiv (snd (proj i)) gamma0).
    { intros d Hdd. unfold init_guess. rewrite flat2_nth; auto.
      - rewrite Hm. destruct d as [|[|d]]; auto; lia.
      - intros j. destruct (nth j mag false); reflexivity. }
    pose proof (Hg 0 ltac:(lia)) as G0. pose proof (Hg 1 ltac:(lia)) as G1. rewrite (Hv 0) in G0 by lia. rewrite (Hv 1) in G1 by lia.
    split; [exact G0|exact G1].
Qed.

(** The converse reading: one number that is not finite, and the step is refused and the nodes are left as they were *)
Theorem C113_refused : forall (A : arith) (L : ieee A), fl_laws A -> ieee_more L -> forall (N : Type) upd gamma0 passes mag (it : iteration A) K proj
    work sched tets tris (nodes : list N) (o : solve_out (A := A) N) edges,
  lin_solve upd gamma0 passes mag it K proj work sched tets tris nodes = Some o ->
  mesh_system 2 (length mag) edges (mag_filter mag) (concat work) ->
  wf K -> shape_of K = build_shape 2 (length mag) edges (mag_filter mag) ->
  fin L (resmax it) ->
  ~ finite_data L mag gamma0 proj (concat work) (tets ++ tris) -> o_fail _ o = true /\ o_nodes _ o = nodes.
Proof.
  intros A L laws HM N upd gamma0 passes mag it K proj work sched tets tris nodes o edges Hrun Hms Hwf Hsh Hres Hn.
  assert (Hf : o_fail _ o = true).
  { destruct (o_fail _ o) eqn:F; auto. destruct Hn. eapply C113_accepted; eauto. }
  split; auto. destruct (C32_solve_outcome A laws N upd gamma0 passes mag it K proj work sched tets tris nodes o Hrun) as (_ & _ & H & _).
  apply H. exact Hf.
Qed.

(** double precision *)
Theorem C113_double : forall (N : Type) upd gamma0 passes mag (it : iteration B64) K proj
    work sched tets tris (nodes : list N) (o : solve_out (A := B64) N) edges,
  lin_solve upd gamma0 passes mag it K proj work sched tets tris nodes = Some o ->
  mesh_system 2 (length mag) edges (mag_filter mag) (concat work) ->
  wf K -> shape_of K = build_shape 2 (length mag) edges (mag_filter mag) ->
  is_finite (resmax it : b64) = true -> o_fail _ o = false ->
  (forall e ie je di dj, In e (concat work) -> ie < e_N e -> je < e_N e -> di < 2 -> dj < 2 -> nth (e_nod e ie) mag false = true ->
     is_finite (e_Ke e (di * e_N e + ie) (dj * e_N e + je) : b64) = true) /\
  (forall e ie di, In e (tets ++ tris) -> ie < e_N e -> di < 2 -> nth (e_nod e ie) mag false = true -> is_finite (e_Le e (di * e_N e + ie) : b64) = true).
Proof.
  intros N upd gamma0 passes mag it K proj work sched tets tris nodes o edges H1 H2 H3 H4 H5 H6.
  destruct (C113_accepted B64 B64_ieee B64_more N upd gamma0 passes mag it K proj work sched tets tris nodes o edges H1 H2 H3 H4 H5 H6) as [F1 F2 _].
  split; [exact F1|exact F2].
Qed.

(** the hypotheses are met by a run that is accepted; the same run with an infinite coefficient is refused *)
Local Notation b z := (nZ (A := B64) z%Z).
Definition bad_elem (x : num B64) : elem (num B64) :=
  mkElem [0] (fun r c => if r =? c then b 2 else b 0) (fun r => if r =? 0 then x else b 8).
Definition bad_run (x : num B64) := lin_solve (N := num B64 * num B64) (fun x y _ => (x, y)) (b 10) 12 [true; false] (new_iter (A := B64) (nlit 1 1000) false 10%Z)
  (new_matrix (build_shape 2 2 [] (fun _ => true))) (fun _ => (b 0, b 0)) [[bad_elem x]; []] (repeat 0 16) [bad_elem x] [] [(b 0, b 0); (b 7, b 7)].
Example C113_nonvacuous : is_finite (resmax (new_iter (A := B64) (nlit 1 1000) false 10%Z) : b64) = true /\
  match ok_run with Some o => o_fail _ o | None => true end = false /\
  match bad_run (ndiv (b 1) (b 0)) with Some o => o_fail _ o | None => false end = true /\
  match bad_run (ndiv (b 0) (b 0)) with Some o => o_fail _ o | None => false end = true.
Proof. vm_compute. auto. Qed.

Print Assumptions C113_accepted.
Print Assumptions C113_refused.
Print Assumptions C113_double.
