(** * Properties of the assembly and of the solution of the linear system: C30-C33, C77 *)
From Coq Require Import List ZArith Arith Bool Lia Reals Lra Permutation Sorted.
From Verif Require Import Arith ArithLaws Vec Sums LinAlg SparseModel SparseProof ConcModel ConcProof SparseProps
  IterModel IterProof Ieee IterMask IterExact IterProps StdModel MeshModel MeshProof MeshProps ElemModel ElemProof AvgModel ElemProps
  AsmModel AsmProof.
Import ListNotations.

(** ** C30: every position written by the assembly belongs to the shape, and the matrix is the sum of the elements *)
(** real coefficients seen as numbers of the exact arithmetic *)
Definition xelem (e : elem R) : elem (num XA) := emap (fun x => Fin x : num XA) e.

(** the LLG solver keeps the edges with two magnetic ends and assembles the magnetic tetrahedra; the other solvers
    keep all the edges and assemble all the tetrahedra *)
Theorem C30_positions_exist : forall (Ms : list R) (n D : nat) (tets : list tet) (edges : list (nat * nat)) (t : tet)
    (V : Type) (e : elem V) r c v,
  edges_result tets edges -> (forall t, In t tets -> NoDup (tet_nodes t)) ->
  (forall t i, In t tets -> In i (tet_nodes t) -> i < n) ->
  In t tets -> e_ind e = tet_nodes t -> In (r, c, v) (mat_calls D e) ->
  in_shape (build_shape D n edges (fun _ => true)) r c /\
  ((0 < nth (t_reg t) Ms 0)%R -> in_shape (build_shape D n edges (mag_filter (magNode_of Ms n tets))) r c).
Proof.
  intros Ms n D tets edges t V e r c v HE Hnd Hn Ht He Hc.
  destruct (C36_edges tets edges HE Hnd) as [_ HIn].
  assert (Hb : forall p, In p edges -> fst p < n /\ snd p < n).
  { intros [i j] Hp. apply HIn in Hp. destruct Hp as (_ & t' & H1 & H2 & H3). split; eapply Hn; eauto. }
  assert (Hed : forall a b, In a (e_ind e) -> In b (e_ind e) -> a <> b -> In (a, b) edges \/ In (b, a) edges).
  { intros a b Ha Hb' Hab. rewrite He in Ha, Hb'. destruct (Nat.lt_ge_cases a b).
    - left. apply HIn. split; auto. exists t. auto.
    - right. apply HIn. split. { lia. } exists t. auto. }
  assert (Hl : forall a, In a (e_ind e) -> a < n). { intros a Ha. rewrite He in Ha. eauto. }
  split.
  - eapply calls_in_shape; [exact Hb| |exact Hl|exact Hc].
    intros a b Ha Hb' Hab. destruct (Hed a b Ha Hb' Hab); eexists; split; eauto.
  - intros HM. eapply calls_in_shape; [exact Hb| |exact Hl|exact Hc].
    destruct (C37_marking Ms n tets [] []) as [HN _].
    assert (HT : forall a, In a (e_ind e) -> nth a (magNode_of Ms n tets) false = true).
    { intros a Ha. apply HN. { auto. } exists t. rewrite He in Ha. auto. }
    intros a b Ha Hb' Hab.
    destruct (Hed a b Ha Hb' Hab); eexists; (split; [eassumption|]); split; auto; unfold mag_filter; cbn [fst snd]; rewrite !HT; auto.
Qed.

(** conversely, the LLG matrix stores a pair of different nodes only when both are magnetic and share a tetrahedron *)
Theorem C30_stored_positions : forall (Ms : list R) (n : nat) (tets : list tet) (edges : list (nat * nat)) i k j l,
  edges_result tets edges -> (forall t, In t tets -> NoDup (tet_nodes t)) ->
  (forall t i, In t tets -> In i (tet_nodes t) -> i < n) ->
  i < n -> j < n -> k < 2 -> l < 2 ->
  let magnetic a := exists t, In t tets /\ (0 < nth (t_reg t) Ms 0)%R /\ In a (tet_nodes t) in
  (in_shape (build_shape 2 n edges (mag_filter (magNode_of Ms n tets))) (2 * i + k) (2 * j + l) <->
   i = j \/ (magnetic i /\ magnetic j /\ exists t, In t tets /\ In i (tet_nodes t) /\ In j (tet_nodes t))).
Proof.
  intros Ms n tets edges i k j l HE Hnd Hn Hi Hj Hk Hl magnetic.
  destruct (C36_edges tets edges HE Hnd) as [_ HIn].
  assert (Hb : forall p, In p edges -> fst p < n /\ snd p < n).
  { intros [a b] Hp. apply HIn in Hp. destruct Hp as (_ & t' & H1 & H2 & H3). split; eapply Hn; eauto. }
  destruct (C37_marking Ms n tets [] []) as [HN _].
  destruct (build_shape_spec 2 n edges (mag_filter (magNode_of Ms n tets)) Hb) as [_ Hin]. rewrite Hin. clear Hin.
  assert (F : forall a b, a < n -> b < n -> mag_filter (magNode_of Ms n tets) (a, b) = true <-> magnetic a /\ magnetic b).
  { intros a b Ha Hb'. unfold mag_filter. cbn [fst snd]. rewrite andb_true_iff, (HN a Ha), (HN b Hb').
    unfold magnetic. split; intros [H1 H2]; split; firstorder. }
  split.
  - intros (i' & k' & j' & l' & Hk' & Hl' & E1 & E2 & H).
    assert (i' = i) by lia. assert (j' = j) by lia. subst i' j'.
    destruct H as [[H _]|([a b] & H1 & H2 & H3)]; [left; exact H|]. right.
    destruct (proj1 (HIn a b) H1) as (_ & t & T1 & T2 & T3). destruct (Hb _ H1) as [Ba Bb]. cbn [fst snd] in Ba, Bb.
    apply F in H2; auto. destruct H3 as [H3|H3]; injection H3 as -> ->; destruct H2 as [M1 M2]; split; auto; split; auto; exists t; auto.
  - intros [E|(M1 & M2 & t & T1 & T2 & T3)].
    + subst j. exists i, k, i, l. repeat split; auto.
    + destruct (Nat.eq_dec i j) as [E|E].
      * subst j. exists i, k, i, l. repeat split; auto.
      * exists i, k, j, l. split; auto. split; auto. split; auto. split; auto. right. destruct (Nat.lt_ge_cases i j) as [L|L].
        { exists (i, j). split; [apply HIn; split; auto; exists t; auto|]. split; [apply F; auto|]. auto. }
        { exists (j, i). split; [apply HIn; split; [lia|]; exists t; auto|]. split; [apply F; auto|]. auto. }
Qed.

(** two tetrahedrons, the second not magnetic: the pair (0, 3) of the first is stored, the pair (1, 4) of the second is not *)
Example C30_stored_nonvacuous :
  let tets := [mkTet 0 1 2 3 0; mkTet 1 2 3 4 1] in
  (forall t, In t tets -> NoDup (tet_nodes t)) /\ (forall t i, In t tets -> In i (tet_nodes t) -> i < 5) /\
  (exists t, In t tets /\ In 1 (tet_nodes t) /\ In 4 (tet_nodes t)) /\
  ~ (exists t, In t tets /\ (0 < nth (t_reg t) [1; 0] 0)%R /\ In 4 (tet_nodes t)).
Proof.
  cbv zeta. split; [|split; [|split]].
  - intros t [<-|[<-|[]]]; unfold tet_nodes; cbn [t0 t1 t2 t3]; repeat constructor; cbn [In]; lia.
  - intros t i [<-|[<-|[]]]; unfold tet_nodes; cbn [t0 t1 t2 t3 In]; lia.
  - exists (mkTet 1 2 3 4 1). cbn. auto 10.
  - intros (t & [<-|[<-|[]]] & H1 & H2); cbn in *; [lia|lra].
Qed.

(** the mesh seen by the assembly: edges and elements have nodes of the mesh, and every pair of nodes of an element is an
    edge of the shape (which C30_positions_exist shows of the meshes of the program) *)
Record mesh_system {V} (D n : nat) (edges : list (nat * nat)) (filter : nat * nat -> bool) (els : list (elem V)) : Prop := mkSystem {
  ms_edges : forall p, In p edges -> fst p < n /\ snd p < n;
  ms_nodes : forall e a, In e els -> In a (e_ind e) -> a < n;
  ms_ok : forall e, In e els -> edge_ok edges filter e }.

(** K of the program: the matrix made by the constructor from the shape, whatever values previous calls left *)
Definition matrix_of_shape (sh : shape) (K : matrix XA) : Prop := wf K /\ shape_of K = sh.

Theorem C30_assembled : forall D n edges filter (els : list (elem R)) (K : matrix XA) (work : list (list (elem R))) sched,
  mesh_system D n edges filter els ->
  matrix_of_shape (build_shape D n edges filter) K ->
  Permutation (concat work) els ->
  let g := crun (start (clear K) (map (fun l => flat_map (mat_calls D) (map xelem l)) work)) sched in
  all_done g ->
  matrix_of_shape (build_shape D n edges filter) (g_mat g) /\
  forall i di j dj, i < n -> j < n -> di < D -> dj < D ->
    mget (g_mat g) (D * i + di) (D * j + dj) = Some (Fin (lsum (map (fun e => coupling e i di j dj) els)) : num XA).
Proof.
  intros D n edges filter els K work sched [He Hn Hok] [Hw Hsh] Hp g Hd.
  destruct (wf_clear K Hw) as [Hw' Hs'].
  destruct (build_shape_spec D n edges filter He) as [[Hlen Hso] Hin].
  set (rprogs := map (flat_map (mat_calls D)) work).
  assert (Eg : g = crun (start (clear K) (map (map fcall) rprogs)) sched).
  { unfold g. f_equal. f_equal. unfold rprogs. rewrite map_map. apply map_ext. intros l.
    rewrite map_flat_map. induction l as [|e l IH]; cbn [map flat_map]; auto. rewrite <- IH. f_equal. apply mat_calls_emap. }
  assert (Hc : forall p i j v, In p rprogs -> In (i, j, v) p -> in_shape (shape_of (clear K)) i j).
  { intros p i j v H1 H2. unfold rprogs in H1. apply in_map_iff in H1. destruct H1 as (l & <- & Hl).
    apply in_flat_map in H2. destruct H2 as (e & He' & H2). rewrite Hs', Hsh.
    assert (Hels : In e els). { eapply Permutation_in; [exact Hp|]. apply in_concat. eauto. }
    eapply calls_in_shape; eauto. }
  split.
  - unfold matrix_of_shape. rewrite <- Hsh, <- Hs'. apply run_shape; auto.
    intros p i j v H1 H2. apply in_map_iff in H1. destruct H1 as (l & <- & Hl).
    apply in_flat_map in H2. destruct H2 as (e & He' & H2). apply in_map_iff in He'. destruct He' as (e0 & <- & He'). rewrite Hs', Hsh.
    assert (Hels : In e0 els). { eapply Permutation_in; [exact Hp|]. apply in_concat. eauto. }
    eapply (calls_in_shape D n edges filter (xelem e0)); [exact He|exact (Hok _ Hels)|intros a Ha; exact (Hn _ a Hels Ha)|exact H2].
  - intros i di j dj Hi Hj Hdi Hdj. rewrite Eg in *.
    rewrite (C22_no_lost_update (clear K) rprogs sched (D * i + di) (D * j + dj) 0 Hw' Hc); auto.
    + rewrite Rplus_0_l.
      assert (E : concat rprogs = flat_map (mat_calls D) (concat work)).
      { unfold rprogs. rewrite flat_map_concat_map, concat_map, <- flat_map_concat_map.
        clear. induction work; simpl; auto. rewrite concat_app, IHwork, flat_map_concat_map. reflexivity. }
      rewrite E, added_flat_map. rewrite (lsum_perm _ _ (Permutation_map _ Hp)).
      rewrite (lsum_map_ext (fun e => added (D * i + di) (D * j + dj) (mat_calls D e)) (fun e => coupling e i di j dj)). { reflexivity. }
      intros e _. apply added_calls; auto.
    + rewrite mget_clear; auto. { rewrite <- xn0. reflexivity. }
      rewrite <- (map_length (@indices XA)). change (map (@indices XA) K) with (shape_of K). rewrite Hsh, Hlen. apply pos_lt; auto.
Qed.

(** two elements sharing an edge, in two dimensions per node: a shape, and the sums on the shared nodes *)
Definition ex_elem (l : list nat) : elem R := mkElem l (fun r c => INR (r + 10 * c)) (fun r => INR r).
Definition ex_edges : list (nat * nat) := [(0, 1); (0, 2); (1, 2); (1, 3); (2, 3)].
Example C30_nonvacuous :
  mesh_system 2 4 ex_edges (mag_filter [true; true; true; true]) [ex_elem [0; 1; 2]; ex_elem [3; 2; 1]] /\
  matrix_of_shape (build_shape 2 4 ex_edges (mag_filter [true; true; true; true])) (new_matrix (build_shape 2 4 ex_edges (mag_filter [true; true; true; true]))) /\
  nth 2 (build_shape 2 4 ex_edges (mag_filter [true; true; true; true])) [] = [0; 1; 2; 3; 4; 5; 6; 7] /\
  nth 0 (build_shape 2 4 ex_edges (mag_filter [true; true; true; true])) [] = [0; 1; 2; 3; 4; 5] /\
  lsum (map (fun e => coupling e 1 0 2 0) [ex_elem [0; 1; 2]; ex_elem [3; 2; 1]]) = (INR 21 + INR 12)%R.
Proof.
  split; [|split; [|split; [|split]]].
  - constructor.
    + intros p Hp. repeat (destruct Hp as [<-|Hp]; [simpl; lia|]). contradiction.
    + intros e a [<-|[<-|[]]] Ha; simpl in Ha; lia.
    + intros e [<-|[<-|[]]] a b Ha Hb Hab; simpl in Ha, Hb;
      repeat (destruct Ha as [<-|Ha]; [repeat (destruct Hb as [<-|Hb]; [|])|]); try contradiction; try congruence;
      first [exists (0, 1); split; [simpl; tauto|split; [reflexivity|tauto]] | exists (0, 2); split; [simpl; tauto|split; [reflexivity|tauto]]
            | exists (1, 2); split; [simpl; tauto|split; [reflexivity|tauto]] | exists (1, 3); split; [simpl; tauto|split; [reflexivity|tauto]]
            | exists (2, 3); split; [simpl; tauto|split; [reflexivity|tauto]]].
  - apply wf_new. apply build_shape_spec. intros p Hp. repeat (destruct Hp as [<-|Hp]; [simpl; lia|]). contradiction.
  - reflexivity.
  - reflexivity.
  - unfold coupling. cbn [map lsum sumn e_N e_nod ex_elem e_ind length nth Nat.eqb andb e_Ke Nat.mul Nat.add]. ring.
Qed.

(** ** C31: the right-hand side is the sum of the vectors of the elements *)
Theorem C31_vector : forall D n (els : list (elem R)), (forall e a, In e els -> In a (e_ind e) -> a < n) ->
  exists L, fold_left (buildVect D) (map xelem els) (repeat n0 (D * n)) = vF L /\ length L = D * n /\
    forall i di, i < n -> di < D -> nth (D * i + di) L 0%R = lsum (map (fun e => loading e i di) els).
Proof.
  intros D n els Hn.
  destruct (buildVect_fold D n els (repeat 0%R (D * n))) as (L & H1 & H2 & H3); auto. { apply repeat_length. }
  exists L. split; [|split; auto].
  - unfold vF. rewrite <- H2. f_equal. rewrite xn0. generalize (D * n). clear. induction n; cbn [repeat map]; auto. rewrite IHn. reflexivity.
  - intros i di Hi Hd. rewrite H3, nth_repeat, Rplus_0_l by auto. reflexivity.
Qed.

(** the LLG right-hand side: tetrahedra and triangles *)
Theorem C31_rhs : forall n (tets tris : list (elem R)), (forall e a, In e (tets ++ tris) -> In a (e_ind e) -> a < n) ->
  exists L, rhs_of n (map xelem tets) (map xelem tris) = vF L /\ length L = 2 * n /\
    forall i di, i < n -> di < 2 ->
      nth (2 * i + di) L 0%R = (lsum (map (fun e => loading e i di) tets) + lsum (map (fun e => loading e i di) tris))%R.
Proof.
  intros n tets tris Hn. destruct (C31_vector 2 n (tets ++ tris) Hn) as (L & H1 & H2 & H3).
  exists L. split; [|split; auto].
  - unfold rhs_of. rewrite <- fold_left_app, <- map_app. exact H1.
  - intros i di Hi Hd. rewrite H3, map_app, lsum_app by auto. reflexivity.
Qed.

Example C31_nonvacuous : (forall e a, In e ([ex_elem [0; 1; 2]] ++ [ex_elem [2; 1]]) -> In a (e_ind e) -> a < 3) /\
  loading (ex_elem [0; 1; 2]) 1 1 = 4%R /\ loading (ex_elem [2; 1]) 1 1 = 3%R.
Proof.
  split.
  - intros e a [<-|[<-|[]]] Ha; simpl in Ha; lia.
  - unfold loading. cbn [sumn e_N e_nod ex_elem e_ind length nth Nat.eqb e_Le Nat.mul Nat.add INR]. lra.
Qed.

(** ** C32: what solve leaves behind *)
Lemma v2max_spec : forall (A : arith) (L : fl_laws A) mag (X : list (num A)),
  (forall i, i < length mag -> nth i mag false = true -> nlt (v2max_of mag X) (v2_of X i) = false) /\
  (v2max_of mag X = n0 \/ exists i, i < length mag /\ nth i mag false = true /\ v2max_of mag X = v2_of X i).
Proof.
  intros A L mag X. unfold v2max_of.
  assert (G : forall l m, (forall i, In i l -> i < length mag) ->
    let r := fold_left (fun m i => if nth i mag false then (if nlt m (v2_of X i) then v2_of X i else m) else m) l m in
    (forall w, nlt m w = false -> nlt r w = false) /\
    (forall i, In i l -> nth i mag false = true -> nlt r (v2_of X i) = false) /\
    (r = m \/ exists i, i < length mag /\ nth i mag false = true /\ r = v2_of X i)).
  { induction l as [|i l IH]; intros m Hl; cbn [fold_left]; cbv zeta.
    - split; auto. split; auto. intros i [].
    - set (m' := if nth i mag false then (if nlt m (v2_of X i) then v2_of X i else m) else m).
      destruct (IH m' (fun k Hk => Hl k (or_intror Hk))) as (H1 & H2 & H3).
      assert (M : forall w, nlt m w = false -> nlt m' w = false).
      { intros w Hw. unfold m'. destruct (nth i mag false); auto. destruct (nlt m (v2_of X i)) eqn:E; auto.
        destruct (nlt (v2_of X i) w) eqn:E'; auto. rewrite (lt_trans _ L _ _ _ E E') in Hw. discriminate. }
      split; [|split].
      + intros w Hw. apply H1. auto.
      + intros k [<-|Hk] Hm; auto. apply H1. unfold m'. rewrite Hm. destruct (nlt m (v2_of X i)) eqn:E; auto. apply (lt_irrefl _ L).
      + destruct H3 as [->|H3]; auto. unfold m'. destruct (nth i mag false) eqn:Em; auto.
        destruct (nlt m (v2_of X i)); auto. right. exists i. split; auto. apply Hl. left. reflexivity. }
  destruct (G (seq 0 (length mag)) n0) as (_ & H2 & H3). { intros i Hi. apply in_seq in Hi. lia. }
  split; auto. intros i Hi. apply H2. apply in_seq. lia.
Qed.

Theorem C32_solve_outcome : forall (A : arith) (laws : fl_laws A) (N : Type) (upd : num A -> num A -> N -> N) gamma0 passes mag it K proj
    work sched tets tris (nodes : list N) (o : solve_out (A := A) N),
  lin_solve upd gamma0 passes mag it K proj work sched tets tris nodes = Some o ->
  let st := status (o_iter _ o) in
  let node_speed2 i := nadd (nmul (nth (2 * i) (o_X _ o) n0) (nth (2 * i) (o_X _ o) n0)) (nmul (nth (2 * i + 1) (o_X _ o) n0) (nth (2 * i + 1) (o_X _ o) n0)) in
  (st = CONVERGED \/ st = ITER_OVERFLOW \/ st = CANNOT_CONVERGE) /\
  (o_fail _ o = true <-> st = ITER_OVERFLOW \/ st = CANNOT_CONVERGE \/ nlt (resmax it) (res (o_iter _ o)) = true) /\
  (o_fail _ o = true -> o_nodes _ o = nodes /\ o_vmax _ o = None) /\
  (o_fail _ o = false ->
     length (o_nodes _ o) = length nodes /\
     (forall i nd, nth_error nodes i = Some nd ->
        nth_error (o_nodes _ o) i = Some (if nth i mag false then upd (nth (2 * i) (o_X _ o) n0) (nth (2 * i + 1) (o_X _ o) n0) nd else nd)) /\
     exists m, o_vmax _ o = Some (nmul gamma0 (nsqrt m)) /\
       (forall i, i < length mag -> nth i mag false = true -> nlt m (node_speed2 i) = false) /\
       (m = n0 \/ exists i, i < length mag /\ nth i mag false = true /\ m = node_speed2 i)).
Proof.
  intros A laws N upd gamma0 passes mag it K proj work sched tets tris nodes o H. cbv zeta. unfold lin_solve in H.
  destruct (done_b _); [|discriminate]. destruct (set_diag _ _) as [K'|]; [|discriminate].
  destruct (bicg_dir0 _ _ _ _ _ _) as [[it' X]|] eqn:E; [|discriminate].
  assert (S3 : (status it' = CONVERGED \/ status it' = ITER_OVERFLOW \/ status it' = CANNOT_CONVERGE) /\ resmax it' = resmax it).
  { match type of E with bicg_dir0 _ ?a ?b ?c ?d ?e = _ => destruct (C26_solvers_stop A BicgDir0 a b c d [] e) as (i2 & x2 & F1 & _ & F2 & _ & F3) end.
    cbn [solve] in F1.
    specialize (F1 (S (passes + Nat.max 1 (Z.to_nat (maxiter (reset it) - nit (reset it)))))%nat ltac:(lia)).
    unfold bicg_dir0 in E, F1. eapply bicg_loop_fuel with (fuel' := S (passes + Nat.max 1 (Z.to_nat (maxiter (reset it) - nit (reset it))))%nat) in E; [|lia].
    rewrite E in F1. inversion F1; subst. split; auto. }
  destruct S3 as [S3 R3].
  assert (SF : solve_failed it' = true <-> status it' = ITER_OVERFLOW \/ status it' = CANNOT_CONVERGE \/ nlt (resmax it) (res it') = true).
  { unfold solve_failed. rewrite R3. destruct S3 as [S|[S|S]]; rewrite S; intuition discriminate. }
  destruct (solve_failed it') eqn:F; inversion H; subst; cbn [o_fail o_nodes o_vmax o_iter o_X].
  - split; auto. split. { tauto. } split; auto. intros; discriminate.
  - split; auto. split; auto. split. { discriminate. } intros _.
    split; [|split].
    + clear. generalize 0. induction nodes; intros k; cbn [update_from length]; auto.
    + intros i nd Hi. rewrite update_from_nth, Hi. reflexivity.
    + destruct (v2max_spec A laws mag X) as [V1 V2]. exists (v2max_of mag X). auto.
Qed.

(** Finding: the test of line 64 of solver.cpp compares the norm of the residual with the tolerance itself, while the
    monitor compares it with the tolerance times the norm of the right-hand side. The solver converges and the
    step is refused: identity matrix, right-hand side 1000, guess 999.5, tolerance 1/1000. *)
Definition one_node : elem (num B64) :=
  mkElem [0] (fun r c => if r =? c then b 1 else b 0) (fun r => if r =? 0 then b 1000 else b 0).
Definition absolute_run := lin_solve (N := nat) (fun _ _ n => S n) (b 1) 12 [true] (new_iter (A := B64) (nlit 1 1000) false 10%Z)
  (new_matrix (build_shape 2 1 [] (fun _ => true))) (fun _ => (nlit 9995 10 : num B64, b 0)) [[one_node]]
  (repeat 0 16) [one_node] [] [7].
Theorem C32_absolute_check_refuted :
  match absolute_run with
  | Some o => (match status (o_iter _ o) with CONVERGED => true | _ => false end) && o_fail _ o && nle (nth 0 (o_X _ o) n0) (b 1000)
  | None => false
  end = true.
Proof. vm_compute. reflexivity. Qed.

(** a successful run: the unknowns of the magnetic node reach the node, the other node is left alone *)
Definition ok_elem : elem (num B64) :=
  mkElem [0] (fun r c => if r =? c then b 2 else b 0) (fun r => if r =? 0 then b 6 else b 8).
Definition ok_run := lin_solve (N := num B64 * num B64) (fun x y _ => (x, y)) (b 10) 12 [true; false] (new_iter (A := B64) (nlit 1 1000) false 10%Z)
  (new_matrix (build_shape 2 2 [] (fun _ => true))) (fun _ => (b 0, b 0)) [[ok_elem]; []] (repeat 0 16) [ok_elem] [] [(b 0, b 0); (b 7, b 7)].
Example C32_nonvacuous :
  match ok_run with
  | Some o => negb (o_fail _ o) && match o_nodes _ o with [(x, y); (z, _)] => neq x (b 3) && neq y (b 4) && neq z (b 7) | _ => false end &&
      match o_vmax _ o with Some v => neq v (b 50) | None => false end
  | None => false
  end = true.
Proof. vm_compute. reflexivity. Qed.

(** ** C33: the non-magnetic nodes do not take part *)
Lemma guess_length : forall (A : arith) g mag (proj : nat -> num A * num A), length (init_guess g mag proj) = 2 * length mag.
Proof.
  intros A g mag proj. unfold init_guess.
  assert (G : forall (f : nat -> list (num A)) l, (forall i, length (f i) = 2) -> length (flat_map f l) = 2 * length l).
  { intros f l Hf. induction l as [|x l IH]; auto. cbn [flat_map length]. rewrite app_length, Hf, IH. lia. }
  rewrite (G _ (seq 0 (length mag))). { rewrite seq_length. reflexivity. }
  intros i. destruct (nth i mag false); reflexivity.
Qed.

Lemma flat2_nth : forall {X} (f : nat -> list X) n d i k, (forall i, length (f i) = 2) -> i < n -> k < 2 ->
  nth (2 * i + k) (flat_map f (seq 0 n)) d = nth k (f i) d.
Proof.
  intros X f n d i k Hf Hi Hk.
  assert (G : forall m s i, i < m -> nth (2 * i + k) (flat_map f (seq s m)) d = nth k (f (s + i)) d).
  { induction m as [|m IH]; intros s j Hj; [lia|]. cbn [seq flat_map]. destruct j as [|j].
    - rewrite app_nth1 by (rewrite Hf; lia). rewrite Nat.add_0_r. reflexivity.
    - rewrite app_nth2 by (rewrite Hf; lia). rewrite Hf. replace (2 * S j + k - 2) with (2 * j + k) by lia.
      rewrite IH by lia. f_equal. f_equal. lia. }
  rewrite G by exact Hi. reflexivity.
Qed.

Lemma guess_nonmag : forall (A : arith) g mag (proj : nat -> num A * num A) k, In k (lvd_of mag) -> nth k (init_guess g mag proj) n0 = n0.
Proof.
  intros A g mag proj k Hk. apply lvd_in in Hk. destruct Hk as (i & Hi & E & Hk). unfold init_guess.
  assert (Hk' : exists d, d < 2 /\ k = 2 * i + d). { destruct Hk; [exists 0|exists 1]; lia. }
  destruct Hk' as (d & Hd & ->). rewrite flat2_nth; auto.
  - rewrite E. destruct d as [|[|d]]; auto; lia.
  - intros j. destruct (nth j mag false); reflexivity.
Qed.

Lemma buildVect_length : forall (A : arith) D (es : list (elem (num A))) L, length (fold_left (buildVect D) es L) = length L.
Proof.
  intros A D es. induction es as [|e es IH]; intros L; cbn [fold_left]; auto. rewrite IH. unfold buildVect.
  generalize (vect_calls D e). intros cs. revert L. induction cs as [|c cs IHc]; intros L; cbn [fold_left]; auto.
  rewrite IHc. apply set_nth_length.
Qed.

Section solve_facts.
Context {A : arith} {N : Type}.
Variables (upd : num A -> num A -> N -> N) (gamma0 : num A) (passes : nat) (mag : list bool) (it : iteration A) (K : matrix A)
  (proj : nat -> num A * num A) (work : list (list (elem (num A)))) (sched : list nat) (tets tris : list (elem (num A)))
  (nodes : list N) (o : solve_out (A := A) N) (edges : list (nat * nat)).
Hypothesis Hrun : lin_solve upd gamma0 passes mag it K proj work sched tets tris nodes = Some o.
Hypothesis Hms : mesh_system 2 (length mag) edges (mag_filter mag) (concat work).
Hypothesis Hwf : wf K.
Hypothesis Hsh : shape_of K = build_shape 2 (length mag) edges (mag_filter mag).

Notation g := (crun (start (clear K) (map (flat_map (mat_calls 2)) work)) sched).

Lemma solve_steps : all_done g /\ wf (g_mat g) /\ shape_of (g_mat g) = build_shape 2 (length mag) edges (mag_filter mag) /\
  wf (o_K _ o) /\ shape_of (o_K _ o) = build_shape 2 (length mag) edges (mag_filter mag) /\ length (o_K _ o) = 2 * length mag /\
  (forall i j, mget (o_K _ o) i j = if masked (lvd_of mag) i && (i =? j) then Some n1 else mget (g_mat g) i j) /\
  bicg_dir0 passes (reset it) (o_K _ o) (init_guess gamma0 mag proj) (applyMask (lvd_of mag) (rhs_of (length mag) tets tris)) (lvd_of mag) =
    Some (o_iter _ o, o_X _ o).
Proof.
  unfold lin_solve in Hrun. destruct (done_b _) eqn:Ed; [|discriminate]. apply done_b_iff in Ed.
  destruct Hms as [He Hn Hok].
  destruct (build_shape_spec 2 (length mag) edges (mag_filter mag) He) as [[Hlen Hso] Hin].
  destruct (wf_clear K Hwf) as [W0 S0].
  destruct (run_shape (clear K) (map (flat_map (mat_calls 2)) work) sched W0) as [W1 S1].
  { intros p i j v H1 H2. apply in_map_iff in H1. destruct H1 as (l & <- & Hl). apply in_flat_map in H2. destruct H2 as (e & H3 & H4).
    assert (Hel : In e (concat work)) by (apply in_concat; eauto).
    rewrite S0, Hsh. eapply calls_in_shape; eauto. }
  rewrite S0, Hsh in S1.
  destruct (set_diag_ok (lvd_of mag) (g_mat g) W1) as (K' & E1 & W2 & S2 & G2).
  { intros k Hk. rewrite S1. apply lvd_in in Hk. destruct Hk as (i & Hi & _ & Hk). apply Hin.
    destruct Hk; [exists i, 0, i, 0|exists i, 1, i, 1]; repeat split; try lia; left; auto. }
  rewrite E1 in Hrun. destruct (bicg_dir0 _ _ _ _ _ _) as [[it' X]|] eqn:E2; [|discriminate].
  assert (E3 : o_K _ o = K' /\ o_iter _ o = it' /\ o_X _ o = X).
  { destruct (solve_failed it'); inversion Hrun; subst; cbn; auto. }
  destruct E3 as (-> & -> & ->). rewrite S1 in S2. split; auto. split; auto. split; auto. split; auto. split; auto. split.
  - rewrite <- Hlen, <- S2. unfold shape_of. rewrite map_length. reflexivity.
  - split; auto.
Qed.

Theorem nonmag_facts : forall i d, i < length mag -> nth i mag false = false -> d < 2 ->
  mget (o_K _ o) (2 * i + d) (2 * i + d) = Some n1 /\
  (forall (laws : ieee A), status (o_iter _ o) <> CANNOT_CONVERGE -> neq (nth (2 * i + d) (o_X _ o) n0) (n0 : num A) = true).
Proof.
  intros i d Hi Hm Hd. destruct solve_steps as (_ & _ & _ & W & S & L & G & E).
  assert (Hl : In (2 * i + d) (lvd_of mag)). { apply lvd_in. exists i. repeat split; auto. lia. }
  split.
  - rewrite G. unfold masked. destruct (in_dec Nat.eq_dec (2 * i + d) (lvd_of mag)); [|contradiction]. rewrite Nat.eqb_refl. reflexivity.
  - intros laws Hs.
    pose proof (C28_dirichlet_generic laws BicgDir0 passes (reset it) (o_iter _ o) (o_K _ o) (init_guess gamma0 mag proj)
      (applyMask (lvd_of mag) (rhs_of (length mag) tets tris)) (init_guess gamma0 mag proj) (o_X _ o) (lvd_of mag) (2 * i + d)) as C.
    cbn [imposed with_values solve] in C.
    rewrite <- (guess_nonmag A gamma0 mag proj (2 * i + d) Hl) at 2. apply C; auto.
    + intros k r Hk Hnk. destruct Hms as [He _ _].
      assert (Hin : in_shape (shape_of (o_K _ o)) k k).
      { rewrite S. apply (build_shape_spec 2 (length mag) edges (mag_filter mag) He).
        assert (k < length (o_K _ o)) by (apply nth_error_Some; rewrite Hk; discriminate).
        exists (k / 2), (k mod 2), (k / 2), (k mod 2).
        pose proof (Nat.div_mod k 2 ltac:(lia)). pose proof (Nat.mod_upper_bound k 2 ltac:(lia)). split; [lia|]. split; [lia|]. split; [lia|]. split; [lia|].
        left. split; auto. apply Nat.div_lt_upper_bound; lia. }
      apply in_shape_row in Hin. destruct Hin as (r' & E' & Hr'). rewrite E' in Hk. inversion Hk; subst. exact Hr'.
    + rewrite guess_length. lia.
    + rewrite mask_length. unfold rhs_of. rewrite !buildVect_length, repeat_length. lia.
    + rewrite guess_length. lia.
    + lia.
    + rewrite guess_nonmag by exact Hl. apply (zer_fin A laws). apply (zer_n0 A laws).
Qed.
End solve_facts.

(** In any arithmetic (double precision included), after any run: the equations of a non-magnetic node have 1 on the
    diagonal and, unless the solver reports CANNOT_CONVERGE, its unknowns are zero. *)
Theorem C33_nonmagnetic : forall (A : arith) (laws : ieee A) (N : Type) upd gamma0 passes mag (it : iteration A) K proj
    work sched tets tris (nodes : list N) (o : solve_out (A := A) N) edges i d,
  lin_solve upd gamma0 passes mag it K proj work sched tets tris nodes = Some o ->
  mesh_system 2 (length mag) edges (mag_filter mag) (concat work) ->
  wf K -> shape_of K = build_shape 2 (length mag) edges (mag_filter mag) ->
  i < length mag -> nth i mag false = false -> d < 2 ->
  mget (o_K _ o) (2 * i + d) (2 * i + d) = Some n1 /\
  (status (o_iter _ o) <> CANNOT_CONVERGE -> neq (nth (2 * i + d) (o_X _ o) n0) (n0 : num A) = true).
Proof.
  intros A laws N upd gamma0 passes mag it K proj work sched tets tris nodes o edges i d H1 H2 H3 H4 Hi Hm Hd.
  destruct (nonmag_facts upd gamma0 passes mag it K proj work sched tets tris nodes o edges H1 H2 H3 H4 i d Hi Hm Hd). auto.
Qed.

Example C33_nonvacuous : (forall e, In e (concat [[ok_elem]; []]) -> e_ind e = [0]) /\
  mesh_system 2 2 [] (mag_filter [true; false]) (concat [[ok_elem]; []]) /\ build_shape 2 2 [] (fun _ => true) = build_shape 2 2 [] (mag_filter [true; false]) /\
  exists o, ok_run = Some o.
Proof.
  assert (H : forall e, In e (concat [[ok_elem]; []]) -> e_ind e = [0]). { intros e [<-|[]]. reflexivity. }
  split; [exact H|split; [constructor|split; [reflexivity|]]].
  - intros p [].
  - intros e a He Ha. rewrite (H e He) in Ha. destruct Ha as [<-|[]]. lia.
  - intros e He x y Hx Hy. rewrite (H e He) in Hx, Hy. destruct Hx as [<-|[]], Hy as [<-|[]]. congruence.
  - pose proof C32_nonvacuous as K. destruct ok_run as [o|]; [eauto|discriminate].
Qed.

Print Assumptions C30_positions_exist.
Print Assumptions C30_stored_positions.
Print Assumptions C30_assembled.
Print Assumptions C31_vector.
Print Assumptions C31_rhs.
Print Assumptions C32_solve_outcome.
Print Assumptions C32_absolute_check_refuted.
Print Assumptions C33_nonmagnetic.
