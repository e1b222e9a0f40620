(** * Properties of the mesh construction: C34, C35, C36, C37, C43, C44, C73 *)
From Coq Require Import Reals List Arith Bool Lia Lra Permutation Sorted.
From Flocq Require Import Core.
From Verif Require Import Vec Sums SparseModel SparseProof StdModel ArithLaws MeshModel MeshProof.
Import ListNotations.

(** ** C34: renumbering the nodes preserves the mesh *)

(** The node at internal index [internal k] is the node number [k] of the mesh file; the three lists are
    what mesh::sortNodes leaves. *)
Theorem C34_renumbering : forall (a : axis) (ps : list vec) (tets : list tet) (tris : list tri) (perm : list nat),
  sorted_permutation a ps perm ->
  (forall t i, In t tets -> In i (tet_nodes t) -> i < length ps) ->
  (forall t i, In t tris -> In i (tri_nodes t) -> i < length ps) ->
  let internal := node_index perm in
  let ps' := permuted perm ps vzero in
  let tets' := map (renumber_tet internal) tets in
  let tris' := map (renumber_tri internal) tris in
  Permutation ps ps' /\
  Permutation (seq 0 (length ps)) internal /\
  (forall k, k < length ps -> nth (nth k internal 0) ps' vzero = nth k ps vzero) /\
  Forall2 (fun t t' => t_reg t' = t_reg t /\
    map (fun i => nth i ps' vzero) (tet_nodes t') = map (fun i => nth i ps vzero) (tet_nodes t) /\
    (forall i, In i (tet_nodes t') -> i < length ps')) tets tets' /\
  Forall2 (fun t t' => r_reg t' = r_reg t /\
    map (fun i => nth i ps' vzero) (tri_nodes t') = map (fun i => nth i ps vzero) (tri_nodes t) /\
    (forall i, In i (tri_nodes t') -> i < length ps')) tris tris'.
Proof.
  intros a ps tets tris perm [Hp _] Ht Hr. cbv zeta.
  assert (L : length (permuted perm ps vzero) = length ps) by (apply permuted_length; exact Hp).
  split. { apply (permuted_perm (length ps)); auto. }
  split. { apply index_permutation; auto. }
  split. { intros k Hk. apply (permuted_index (length ps)); auto. }
  split.
  - induction tets as [|t tets IH]; simpl; constructor.
    2: { apply IH. intros; eapply Ht; simpl; eauto. }
    assert (H : forall i, In i (tet_nodes t) -> i < length ps) by (intros; eapply Ht; simpl; eauto).
    destruct t as [b0 b1 b2 b3 rg]. unfold tet_nodes, renumber_tet in *. simpl in *.
    split; auto. split.
    + rewrite !(permuted_index (length ps)) by (auto; apply H; tauto). reflexivity.
    + rewrite L. intros i Hi. repeat (destruct Hi as [<-|Hi]; [apply (perm_index (length ps)); auto; apply H; tauto|]). contradiction.
  - induction tris as [|t tris IH]; simpl; constructor.
    2: { apply IH. intros; eapply Hr; simpl; eauto. }
    assert (H : forall i, In i (tri_nodes t) -> i < length ps) by (intros; eapply Hr; simpl; eauto).
    destruct t as [b0 b1 b2 rg]. unfold tri_nodes, renumber_tri in *. simpl in *.
    split; auto. split.
    + rewrite !(permuted_index (length ps)) by (auto; apply H; tauto). reflexivity.
    + rewrite L. intros i Hi. repeat (destruct Hi as [<-|Hi]; [apply (perm_index (length ps)); auto; apply H; tauto|]). contradiction.
Qed.

(** four nodes sorted along x: the permutation is not the identity *)
Definition ex_nodes : list vec := [V 3 0 0; V 1 0 0; V 2 1 0; V 0 0 1]%R.
Example C34_nonvacuous : exists perm, sorted_permutation AX ex_nodes perm /\ perm = [3; 1; 2; 0] /\
  renumber_tet (node_index perm) (mkTet 0 1 2 3 1) = mkTet 3 1 2 0 1.
Proof.
  exists [3; 1; 2; 0]. split; [|split; reflexivity]. split.
  - simpl. change [0; 1; 2; 3] with ([0; 1; 2] ++ [3]). rewrite Permutation_app_comm. simpl. apply perm_skip.
    change [0; 1; 2] with ([0] ++ [1; 2]). rewrite Permutation_app_comm. reflexivity.
  - repeat constructor; simpl; lra.
Qed.

(** ** C35: sorted along the longest axis *)
Theorem C35_sorted : forall (a : axis) (ps : list vec) (perm : list nat),
  sorted_permutation a ps perm ->
  forall i j, i < j < length ps ->
    (coord a (nth i (permuted perm ps vzero) vzero) <= coord a (nth j (permuted perm ps vzero) vzero))%R.
Proof.
  intros a ps perm [Hp Hs] i j Hij. rewrite !(permuted_nth (length ps)) by (auto; lia).
  assert (L : length perm = length ps) by (apply perm_length; exact Hp).
  clear Hp. revert i j L Hij. generalize (length ps). induction Hs as [|p perm Hs IH Hf]; intros n i j L Hij.
  - simpl in L. lia.
  - destruct n as [|n]; [simpl in L; lia|]. simpl in L. destruct j as [|j]; [lia|]. destruct i as [|i]; cbn [nth].
    + rewrite Forall_forall in Hf. specialize (Hf (nth j perm 0)). cbv beta in Hf. apply Rnot_lt_le. apply Hf. apply nth_In. lia.
    + apply (IH n); lia.
Qed.

(** the extent of the nodes along an axis *)
Definition is_extent (a : axis) (ps : list vec) (e : R) : Prop :=
  (forall p q, In p ps -> In q ps -> coord a p - coord a q <= e)%R /\
  (exists p q, In p ps /\ In q ps /\ e = coord a p - coord a q)%R.

Lemma maxNodes_spec : forall a ps m0, let m := doOnNodes m0 a (fun x y => Rlt_bool y x) ps in
  (m0 <= m /\ (forall p, In p ps -> coord a p <= m) /\ (m = m0 \/ exists p, In p ps /\ m = coord a p))%R.
Proof.
  intros a. induction ps as [|p ps IH]; intros m0; unfold doOnNodes in *; cbn [fold_left].
  - cbv zeta. split; [lra|]. split; [intros ? []|auto].
  - specialize (IH (if Rlt_bool m0 (coord a p) then coord a p else m0)). cbv zeta in *.
    set (m := fold_left _ ps _) in *. clearbody m. destruct IH as (H1 & H2 & H3).
    destruct (Rlt_bool_spec m0 (coord a p)) as [E|E].
    + split; [lra|]. split.
      * intros q [<-|Hq]; auto.
      * destruct H3 as [->|(q & Hq & ->)]; right; [exists p; simpl; auto | exists q; simpl; auto].
    + split; auto. split.
      * intros q [<-|Hq]; auto. lra.
      * destruct H3 as [->|(q & Hq & ->)]; [auto | right; exists q; simpl; auto].
Qed.

Lemma minNodes_spec : forall a ps m0, let m := doOnNodes m0 a Rlt_bool ps in
  (m <= m0 /\ (forall p, In p ps -> m <= coord a p) /\ (m = m0 \/ exists p, In p ps /\ m = coord a p))%R.
Proof.
  intros a. induction ps as [|p ps IH]; intros m0; unfold doOnNodes in *; cbn [fold_left].
  - cbv zeta. split; [lra|]. split; [intros ? []|auto].
  - specialize (IH (if Rlt_bool (coord a p) m0 then coord a p else m0)). cbv zeta in *.
    set (m := fold_left _ ps _) in *. clearbody m. destruct IH as (H1 & H2 & H3).
    destruct (Rlt_bool_spec (coord a p) m0) as [E|E].
    + split; [lra|]. split.
      * intros q [<-|Hq]; auto.
      * destruct H3 as [->|(q & Hq & ->)]; right; [exists p; simpl; auto | exists q; simpl; auto].
    + split; auto. split.
      * intros q [<-|Hq]; auto. lra.
      * destruct H3 as [->|(q & Hq & ->)]; [auto | right; exists q; simpl; auto].
Qed.

Lemma extent_spec : forall a ps, (exists p, In p ps /\ DBL_MIN <= coord a p)%R ->
  (forall p, In p ps -> coord a p <= DBL_MAX)%R -> is_extent a ps (extent a ps).
Proof.
  intros a ps (p0 & Hp0 & Hmin) Hmax. unfold extent.
  pose proof (maxNodes_spec a ps DBL_MIN) as M. pose proof (minNodes_spec a ps DBL_MAX) as N. cbv zeta in M, N.
  fold (maxNodes a ps) in M. fold (minNodes a ps) in N.
  destruct M as (M1 & M2 & M3). destruct N as (N1 & N2 & N3). split.
  - intros p q Hp Hq. specialize (M2 p Hp). specialize (N2 q Hq). lra.
  - assert (Ha : exists p, In p ps /\ maxNodes a ps = coord a p).
    { destruct M3 as [E|?]; auto. exists p0. split; auto. specialize (M2 p0 Hp0). lra. }
    assert (Hb : exists p, In p ps /\ minNodes a ps = coord a p).
    { destruct N3 as [E|?]; auto. exists p0. split; auto. specialize (N2 p0 Hp0). specialize (Hmax p0 Hp0). lra. }
    destruct Ha as (p & ? & ->). destruct Hb as (q & ? & ->). exists p, q. auto.
Qed.

(** The full property: the chosen axis has the largest extent of the three, for every mesh. It is proved when
    each axis has a node with a coordinate of at least DBL_MIN (about 2.2e-308, the smallest positive normal
    number). Without that the statement is false, see below. *)
Theorem C35_longest_axis_partial : forall (ps : list vec),
  (forall a, exists p, In p ps /\ DBL_MIN <= coord a p)%R ->
  (forall a p, In p ps -> coord a p <= DBL_MAX)%R ->
  exists e, is_extent (long_axis ps) ps e /\ forall a e', is_extent a ps e' -> (e' <= e)%R.
Proof.
  intros ps H1 H2. exists (extent (long_axis ps) ps). split.
  - apply extent_spec; auto.
  - intros a e' (_ & p & q & Hp & Hq & ->).
    apply Rle_trans with (extent a ps). { apply (extent_spec a ps); auto. }
    unfold long_axis.
    destruct (Rlt_bool_spec (extent AY ps) (extent AX ps)); destruct (Rlt_bool_spec (extent AZ ps) (extent AX ps));
      destruct (Rlt_bool_spec (extent AZ ps) (extent AY ps)); destruct a; lra.
Qed.

Definition long_mesh : list vec := [V 0 0 0; V 1 5 1; V 1 0 1; V 0 1 1]%R.
Lemma DBL_MIN_small : (0 < DBL_MIN < 1)%R.
Proof. unfold DBL_MIN. split. { apply bpow_gt_0. } change 1%R with (bpow radix2 0). apply bpow_lt. lia. Qed.
Lemma DBL_MAX_big : (1000 < DBL_MAX)%R.
Proof. unfold DBL_MAX. apply IZR_lt. reflexivity. Qed.

Ltac rlt := match goal with |- context [Rlt_bool ?x ?y] =>
  lazymatch x with context [Rlt_bool] => fail | _ => lazymatch y with context [Rlt_bool] => fail | _ =>
  first [rewrite (Rlt_bool_true x y) by lra | rewrite (Rlt_bool_false x y) by lra] end end end.

Example C35_nonvacuous :
  (forall a, exists p, In p long_mesh /\ DBL_MIN <= coord a p)%R /\
  (forall a p, In p long_mesh -> coord a p <= DBL_MAX)%R /\ long_axis long_mesh = AY.
Proof.
  pose proof DBL_MIN_small. pose proof DBL_MAX_big. split; [|split].
  - intros a. exists (V 1 5 1). split; [simpl; auto|]. destruct a; simpl; lra.
  - intros a p Hp. simpl in Hp. repeat (destruct Hp as [<-|Hp]; [destruct a; simpl; lra|]). contradiction.
  - unfold long_axis, extent, maxNodes, minNodes, doOnNodes, long_mesh. cbn [fold_left coord vx vy vz].
    repeat rlt. reflexivity.
Qed.

(** Finding: mesh.h line 419 starts the search of the maximum at __DBL_MIN__, which is positive. When all the
    coordinates along an axis are negative, the extent along it is overestimated, and the nodes are sorted along
    an axis that is not the longest. *)
Theorem C35_longest_axis_refuted : exists (ps : list vec) (a : axis) (e e' : R),
  is_extent (long_axis ps) ps e /\ is_extent a ps e' /\ (e < e')%R.
Proof.
  exists [V (-100) 0 0; V (-99) 2 0]%R, AY, 1%R, 2%R.
  pose proof DBL_MIN_small. pose proof DBL_MAX_big.
  assert (E : long_axis [V (-100) 0 0; V (-99) 2 0]%R = AX).
  { unfold long_axis, extent, maxNodes, minNodes, doOnNodes. cbn [fold_left coord vx vy vz].
    repeat rlt. reflexivity. }
  rewrite E. split; [|split; [|lra]]; split.
  - intros p q [<-|[<-|[]]] [<-|[<-|[]]]; simpl; lra.
  - exists (V (-99) 2 0), (V (-100) 0 0). simpl. split; auto. split; auto. lra.
  - intros p q [<-|[<-|[]]] [<-|[<-|[]]]; simpl; lra.
  - exists (V (-99) 2 0), (V (-100) 0 0). simpl. split; auto. split; auto. lra.
Qed.

(** ** C36: the edge list *)
Theorem C36_edges : forall (tets : list tet) (edges : list (nat * nat)),
  edges_result tets edges ->
  (forall t, In t tets -> NoDup (tet_nodes t)) ->
  NoDup edges /\
  (forall i j, In (i, j) edges <-> i < j /\ exists t, In t tets /\ In i (tet_nodes t) /\ In j (tet_nodes t)).
Proof.
  intros tets edges (s & [Hp Hs] & ->) Hn. split.
  - assert (S' : StronglySorted edge_lt (unique edge_eqb s)).
    { apply unique_sorted. eapply StronglySorted_ind with (P := fun l => StronglySorted (fun a b => ~ edge_lt b a) l); [constructor| |exact Hs].
      intros a l _ IH Hf. constructor; auto. eapply Forall_impl; [|exact Hf]. intros b Hb. rewrite <- edge_ltb_iff. exact Hb. }
    induction S' as [|e l _ IH Hf]; constructor; auto. intros He. rewrite Forall_forall in Hf. specialize (Hf e He).
    unfold edge_lt in Hf. lia.
  - intros i j. rewrite unique_in. split.
    + intros H. apply (Permutation_in _ (Permutation_sym Hp)) in H. apply in_flat_map in H. destruct H as (t & Ht & H).
      apply tet_edges_spec in H; auto. destruct H as (? & ? & ?). eauto.
    + intros (H & t & Ht & Hi & Hj). apply (Permutation_in _ Hp). apply in_flat_map. exists t. split; auto.
      apply tet_edges_spec; auto.
Qed.

(** two tetrahedra sharing a face: 9 edges *)
Example C36_nonvacuous :
  edges_result [mkTet 0 1 2 3 1; mkTet 1 3 2 4 1] [(0, 1); (0, 2); (0, 3); (1, 2); (1, 3); (1, 4); (2, 3); (2, 4); (3, 4)].
Proof.
  eexists. split.
  - apply (isort_ok edge_ltb).
    + intros a b H. apply not_true_is_false. rewrite edge_ltb_iff in *. unfold edge_lt in *. lia.
    + intros a b c H K. apply not_true_is_false. apply not_true_iff_false in H, K. rewrite edge_ltb_iff in *. unfold edge_lt in *. lia.
  - reflexivity.
Qed.

(** ** C37: magnetic nodes, tetrahedra and triangles *)
Theorem C37_marking : forall (Ms : list R) (n : nat) (tets : list tet) (tris : list tri) (suppress : list bool),
  let magNode := magNode_of Ms n tets in
  let magTet := magTet_of Ms n tets in
  let magTri := magTri_of magNode suppress tris in
  let magnetic_region r := (0 < nth r Ms 0)%R in
  let magnetic_node i := exists t, In t tets /\ magnetic_region (t_reg t) /\ In i (tet_nodes t) in
  (forall i, i < n -> (nth i magNode false = true <-> magnetic_node i)) /\
  (NoDup magTet /\ forall k, In k magTet <-> exists t, nth_error tets k = Some t /\ magnetic_region (t_reg t)) /\
  ((forall t i, In t tris -> In i (tri_nodes t) -> i < n) ->
   NoDup magTri /\
   forall k, In k magTri <-> exists f, nth_error tris k = Some f /\
     (forall i, In i (tri_nodes f) -> magnetic_node i) /\ nth (r_reg f) suppress false = false).
Proof.
  intros Ms n tets tris suppress. cbv zeta.
  assert (HM : forall t, mag_tet Ms t = true <-> (0 < nth (t_reg t) Ms 0)%R).
  { intros t. unfold mag_tet. destruct (Rlt_bool_spec 0 (nth (t_reg t) Ms 0%R)); split; intros; auto; try discriminate; lra. }
  assert (HS : forall l, StronglySorted lt l -> NoDup l).
  { induction 1 as [|e l _ IH Hf]; constructor; auto. intros He. rewrite Forall_forall in Hf. specialize (Hf e He). lia. }
  destruct (mark_spec Ms n tets) as (L & N & T & S0).
  assert (N' : forall i, i < n -> nth i (magNode_of Ms n tets) false = true <->
    exists t, In t tets /\ (0 < nth (t_reg t) Ms 0)%R /\ In i (tet_nodes t)).
  { intros i Hi. rewrite N by exact Hi. split; intros (t & H1 & H2 & H3); exists t; rewrite HM in *; auto. }
  split; auto. split.
  - split; auto. intros k. rewrite T. split; intros (t & H1 & H2); exists t; rewrite HM in *; auto.
  - intros Hr. destruct (magTri_spec (magNode_of Ms n tets) suppress tris) as (T' & S1). split; auto.
    intros k. rewrite T'. split; intros (f & H1 & H2 & H3); exists f; split; auto; split; auto.
    + intros i Hi. apply N'. { eapply Hr; [eapply nth_error_In; eauto|exact Hi]. }
      unfold mag_tri in H2. apply andb_prop in H2. destruct H2 as [H2 H4]. apply andb_prop in H2. destruct H2 as [H2 H5].
      unfold tri_nodes in Hi. destruct Hi as [<-|[<-|[<-|[]]]]; auto.
    + unfold mag_tri. assert (K : forall i, In i (tri_nodes f) -> nth i (magNode_of Ms n tets) false = true).
      { intros i Hi. apply N'; auto. eapply Hr; [eapply nth_error_In; eauto|exact Hi]. }
      rewrite !K; auto; unfold tri_nodes; simpl; auto.
Qed.

Example C37_nonvacuous :
  let Ms := [0; 8e5; 0]%R in
  let tets := [mkTet 0 1 2 3 1; mkTet 1 3 2 4 2] in
  magNode_of Ms 5 tets = [true; true; true; true; false] /\ magTet_of Ms 5 tets = [0] /\
  magTri_of (magNode_of Ms 5 tets) [false; true] [mkTri 0 1 2 0; mkTri 1 2 3 1; mkTri 1 2 4 0] = [0].
Proof.
  assert (E : magNode_of [0; 8e5; 0]%R 5 [mkTet 0 1 2 3 1; mkTet 1 3 2 4 2] = [true; true; true; true; false] /\
    magTet_of [0; 8e5; 0]%R 5 [mkTet 0 1 2 3 1; mkTet 1 3 2 4 2] = [0]).
  { unfold magNode_of, magTet_of, mark, mark_tet, mag_tet. cbn [fold_left combine seq length snd fst t_reg nth].
    rewrite (Rlt_bool_true 0 8e5) by lra. rewrite (Rlt_bool_false 0 0) by lra. split; reflexivity. }
  cbv zeta. destruct E as [E1 E2]. rewrite E1, E2. repeat split.
Qed.

(** ** C73: volumes of the regions and of the magnetic part *)
Theorem C73_volumes : forall (Ms : list R) (vol : tet -> R) (regions : nat) (tets : list tet),
  (forall t, In t tets -> t_reg t < regions) ->
  let '(by_region, total) := volumes Ms vol regions tets in
  (forall r, r < regions -> nth r by_region 0%R = lsum (map vol (filter (fun t => t_reg t =? r) tets))) /\
  total = lsum (map (fun r => if Rlt_dec 0 (nth r Ms 0%R) then nth r by_region 0%R else 0%R) (seq 0 regions)).
Proof.
  intros Ms vol regions tets H. destruct (volumes Ms vol regions tets) as [v total] eqn:E.
  destruct (volumes_spec Ms vol regions tets H) as (L & V0 & T). rewrite E in *. cbn [fst snd] in *.
  split; auto. rewrite T.
  rewrite (lsum_map_ext _ (fun r => if Rlt_dec 0 (nth r Ms 0%R) then lsum (map vol (filter (fun t => t_reg t =? r) tets)) else 0%R)).
  2: { intros r Hr. apply in_seq in Hr. rewrite V0 by lia. reflexivity. }
  clear E L V0 T. induction tets as [|t tets IH].
  - simpl. symmetry. apply lsum_zero. intros r _. destruct (Rlt_dec 0 (nth r Ms 0%R)); auto.
  - assert (Ht : t_reg t < regions) by (apply H; simpl; auto).
    transitivity ((if Rlt_dec 0 (nth (t_reg t) Ms 0%R) then vol t else 0) + lsum (map vol (filter (mag_tet Ms) tets)))%R.
    { simpl. unfold mag_tet at 1. destruct (Rlt_bool_spec 0 (nth (t_reg t) Ms 0%R)); destruct (Rlt_dec 0 (nth (t_reg t) Ms 0%R)); simpl; lra. }
    rewrite IH by (intros; apply H; simpl; auto).
    rewrite (lsum_map_ext (fun r => if Rlt_dec 0 (nth r Ms 0%R) then lsum (map vol (filter (fun t => t_reg t =? r) (t :: tets))) else 0%R)
      (fun r => ((if (r =? t_reg t)%nat then (if Rlt_dec 0 (nth r Ms 0%R) then vol t else 0) else 0) +
      (if Rlt_dec 0 (nth r Ms 0%R) then lsum (map vol (filter (fun t => (t_reg t =? r)%nat) tets)) else 0))%R) (seq 0 regions)).
    2: { intros r _. cbn [filter]. rewrite (Nat.eqb_sym (t_reg t) r). destruct (r =? t_reg t)%nat; simpl; destruct (Rlt_dec 0 (nth r Ms 0%R)); lra. }
    rewrite lsum_map_plus. f_equal. rewrite <- sumn_lsum.
    rewrite (sumn_delta regions (t_reg t) (fun r => if Rlt_dec 0 (nth r Ms 0%R) then vol t else 0)%R Ht). reflexivity.
Qed.

Example C73_nonvacuous :
  volumes [0; 8e5; 0]%R (fun t => INR (t0 t)) 3 [mkTet 1 0 2 3 1; mkTet 4 3 2 1 2; mkTet 4 3 2 0 1] =
  ([0; 0 + 1 + 4; 0 + 4], 0 + 1 + 4)%R.
Proof.
  unfold volumes, add_volume, mag_tet. cbn [fold_left combine seq length snd fst t_reg nth t0 set_nth repeat].
  rewrite (Rlt_bool_true 0 8e5) by lra. rewrite (Rlt_bool_false 0 0) by lra.
  replace (INR 4) with 4%R by (simpl; lra). replace (INR 1) with 1%R by (simpl; lra). reflexivity.
Qed.

(** ** C43: the largest angle between neighbours *)

(** the angle of two unit vectors *)
Definition angle (a b : vec) : R := acos (dot a b).

Lemma unit_dot_bound : forall a b, dot a a = 1%R -> dot b b = 1%R -> (-1 <= dot a b <= 1)%R.
Proof.
  intros a b Ha Hb. pose proof (dot_self_nonneg (vsub a b)) as H1. pose proof (dot_self_nonneg (vadd a b)) as H2.
  rewrite dot_sub_l, !dot_sub_r in H1. rewrite dot_add_l, !dot_add_r in H2. rewrite (dot_comm b a) in *. lra.
Qed.

Lemma acos_decr : forall x y, (-1 <= x)%R -> (x <= y)%R -> (y <= 1)%R -> (acos y <= acos x)%R.
Proof.
  intros x y Hx Hxy Hy. destruct (Req_dec x y) as [->|Hn]; [lra|].
  apply Rnot_lt_le. intros H.
  pose proof (acos_bound x). pose proof (acos_bound y).
  assert (K : (cos (acos y) < cos (acos x))%R) by (apply cos_decreasing_1; lra).
  rewrite !cos_acos in K by lra. lra.
Qed.

Lemma grouping_min : forall l r, grouping Rmin l r -> In r l /\ (forall x, In x l -> r <= x)%R.
Proof.
  induction 1 as [x|l1 l2 r1 r2 _ [A1 A2] _ [B1 B2]].
  - split; [simpl; auto|]. intros y [<-|[]]. lra.
  - split.
    + apply in_or_app. destruct (Rle_dec r1 r2). { rewrite Rmin_left by assumption. auto. } rewrite Rmin_right by lra. auto.
    + intros x Hx. apply in_app_or in Hx. destruct Hx as [Hx|Hx].
      * specialize (A2 x Hx). pose proof (Rmin_l r1 r2). lra.
      * specialize (B2 x Hx). pose proof (Rmin_r r1 r2). lra.
Qed.

Theorem C43_max_angle : forall (edges : list (nat * nat)) (u : nat -> vec) (r : R),
  (forall i j, In (i, j) edges -> dot (u i) (u i) = 1 /\ dot (u j) (u j) = 1)%R ->
  max_angle_result edges u r ->
  (0 <= r <= PI)%R /\
  (forall i j, In (i, j) edges -> angle (u i) (u j) <= r)%R /\
  (r = 0%R \/ exists i j, In (i, j) edges /\ r = angle (u i) (u j)).
Proof.
  intros edges u r Hu (m & (l & Hp & Hg) & ->). apply grouping_min in Hg. destruct Hg as [Hin Hle].
  assert (Hin' : In m (1%R :: map (fun e => dot (u (fst e)) (u (snd e))) edges)) by (eapply Permutation_in; [apply Permutation_sym; exact Hp|exact Hin]).
  assert (Hb : forall x, In x (1%R :: map (fun e => dot (u (fst e)) (u (snd e))) edges) -> (m <= x)%R).
  { intros x Hx. apply Hle. eapply Permutation_in; eauto. }
  assert (Hm : (-1 <= m <= 1)%R).
  { destruct Hin' as [<-|Hm]; [lra|]. apply in_map_iff in Hm. destruct Hm as ((i, j) & <- & H). apply Hu in H. destruct H.
    apply unit_dot_bound; assumption. }
  split. { apply acos_bound. } split.
  - intros i j H. apply acos_decr.
    + apply Hm.
    + apply Hb. right. apply in_map_iff. exists (i, j). auto.
    + apply Hu in H. destruct H. apply unit_dot_bound; assumption.
  - destruct Hin' as [<-|Hm']. { left. apply acos_1. }
    right. apply in_map_iff in Hm'. destruct Hm' as ((i, j) & <- & H). exists i, j. auto.
Qed.

Example C43_nonvacuous :
  let u i := nth i [V 1 0 0; V 0 1 0; V 1 0 0]%R vzero in
  (forall i j, In (i, j) [(0, 1); (0, 2); (1, 2)] -> dot (u i) (u i) = 1%R /\ dot (u j) (u j) = 1%R) /\
  exists r, max_angle_result [(0, 1); (0, 2); (1, 2)] u r /\ r = (PI / 2)%R.
Proof.
  cbv zeta. split.
  - intros i j [E|[E|[E|[]]]]; inversion E; subst; unfold dot; simpl; split; ring.
  - eexists. split.
    + eexists. split. { apply reduce_exists. } reflexivity.
    + unfold dot. simpl. replace (1 * 0 + 0 * 1 + 0 * 0)%R with 0%R by ring. replace (1 * 1 + 0 * 0 + 0 * 0)%R with 1%R by ring.
      replace (0 * 1 + 1 * 0 + 0 * 0)%R with 0%R by ring.
      rewrite (Rmin_right 1 0) by lra. rewrite (Rmin_left 0 1) by lra. rewrite (Rmin_left 0 0) by lra. apply acos_0.
Qed.

(** ** C44: the initial magnetization *)

(** the named regions a node belongs to: region 0 is __default__ *)
Definition belongs (tets : list tet) (i r : nat) : Prop := exists t, In t tets /\ t_reg t = r /\ In i (tet_nodes t).

Lemma volume_regions_spec : forall n tets, (forall t, In t tets -> t_reg t < n) ->
  length (volume_regions n tets) = n /\
  forall r k, r < n -> (In k (nth r (volume_regions n tets) []) <-> exists t, nth_error tets k = Some t /\ t_reg t = r).
Proof.
  intros n. induction tets as [|t tets IH] using rev_ind; intros H.
  - unfold volume_regions. simpl. rewrite repeat_length. split; auto. intros r k Hr. rewrite nth_repeat. split; [intros []|].
    intros (t & E & _). destruct k; discriminate.
  - destruct IH as [L T]. { intros; apply H; apply in_or_app; auto. }
    assert (Ht : t_reg t < n) by (apply H; apply in_or_app; simpl; auto).
    unfold volume_regions in *. rewrite combine_seq_snoc, fold_left_app. cbn [fold_left fst snd].
    set (st := fold_left _ (combine (seq 0 (length tets)) tets) _) in *.
    rewrite set_nth_length. split; auto. intros r k Hr. rewrite set_nth_nth by lia.
    assert (Hsnoc : forall k f, nth_error (tets ++ [t]) k = Some f <-> nth_error tets k = Some f \/ (k = length tets /\ f = t)).
    { clear. intros k f. destruct (Nat.lt_ge_cases k (length tets)).
      - rewrite nth_error_app1 by assumption. split; auto. intros [|[? _]]; auto; lia.
      - rewrite nth_error_app2 by assumption. destruct (k - length tets) eqn:E; simpl.
        + assert (k = length tets) by lia. split; [intros K; inversion K; auto|]. intros [K|[_ ->]]; auto.
          assert (k < length tets) by (apply nth_error_Some; congruence). lia.
        + split; [destruct n; discriminate|]. intros [K|[K _]]; [|lia].
          assert (k < length tets) by (apply nth_error_Some; congruence). lia. }
    destruct (t_reg t =? r) eqn:E.
    + apply Nat.eqb_eq in E. subst r. rewrite in_app_iff, T by exact Hr. simpl. split.
      * intros [(f & H1 & H2)|[<-|[]]]. { exists f. rewrite Hsnoc. auto. } exists t. rewrite Hsnoc. auto.
      * intros (f & H1 & H2). apply Hsnoc in H1. destruct H1 as [H1|[-> ->]]; eauto.
    + apply Nat.eqb_neq in E. rewrite T by exact Hr. split.
      * intros (f & H1 & H2). exists f. rewrite Hsnoc. auto.
      * intros (f & H1 & H2). apply Hsnoc in H1. destruct H1 as [H1|[-> ->]]; eauto. congruence.
Qed.

(** Both time levels of a non-magnetic node are NaN vectors ([None]); a magnetic node gets the user's vector for
    its position (and the sorted list of the named regions it belongs to), scaled to unit length when it is not
    zero. *)
Theorem C44_initial_magnetization : forall (names : list nat) (noname : nat)
    (of_position : vec -> vec) (of_regions : vec -> list nat -> vec) (position_only : bool)
    (tets : list tet) (magNode : list bool) (nregions : nat) (ps : list vec) (i : nat),
  (forall t, In t tets -> t_reg t < nregions) -> i < length ps ->
  let p := nth i ps vzero in
  let final := init_distrib nat names noname of_position of_regions tets magNode (volume_regions nregions tets) position_only ps in
  exists regs : list nat,
    StronglySorted lt regs /\ (forall r, In r regs <-> 1 <= r /\ r < nregions /\ belongs tets i r) /\
    let user := if position_only then of_position p else of_regions p (map (fun r => nth r names noname) regs) in
    length final = length ps /\
    (nth i magNode false = false -> nth_error final i = Some (None, None)) /\
    (nth i magNode false = true -> user <> vzero ->
       exists u, nth_error final i = Some (Some u, Some u) /\ vnorm u = 1%R /\ exists k, (0 < k)%R /\ user = vscale k u).
Proof.
  intros names noname of_position of_regions position_only tets magNode nregions ps i Ht Hi. cbv zeta.
  destruct (volume_regions_spec nregions tets Ht) as [L T].
  set (regions := volume_regions nregions tets) in *.
  exists (node_regions tets regions i). split; [|split].
  - unfold node_regions. generalize (length regions - 1). intros m. generalize 1.
    induction m as [|m IH]; intros s; [constructor|]. cbn [seq filter].
    assert (Hf : Forall (lt s) (filter (fun r => in_region tets i (nth r regions [])) (seq (S s) m))).
    { apply Forall_forall. intros x Hx. apply filter_In in Hx. destruct Hx as [Hx _]. apply in_seq in Hx. lia. }
    destruct (in_region tets i (nth s regions [])); auto. constructor; auto.
  - intros r. unfold node_regions. rewrite filter_In, in_seq, L. split.
    + intros [Hr He]. assert (Hr' : r < nregions) by lia. split; [lia|]. split; [lia|]. unfold in_region in He. apply existsb_exists in He.
      destruct He as (k & Hk & He). apply T in Hk; [|exact Hr']. destruct Hk as (t & E1 & E2).
      apply existsb_exists in He. destruct He as (x & Hx & E). apply Nat.eqb_eq in E. subst x.
      rewrite (nth_error_nth _ _ _ E1) in Hx. exists t. split; [eapply nth_error_In; eauto|]. auto.
    + intros (H1 & H2 & t & H3 & H4 & H5). split; [lia|]. apply existsb_exists.
      destruct (In_nth_error _ _ H3) as [k Hk]. exists k. split. { apply T; eauto. }
      apply existsb_exists. exists i. rewrite (nth_error_nth _ _ _ Hk). split; auto. apply Nat.eqb_refl.
  - assert (E : forall r, init_u nat names noname of_position of_regions tets magNode regions position_only i (nth i ps vzero) = r ->
      nth_error (init_distrib nat names noname of_position of_regions tets magNode regions position_only ps) i = Some (r, r)).
    { intros r <-. unfold init_distrib. rewrite nth_error_map.
      assert (K : nth_error (combine (seq 0 (length ps)) ps) i = Some (i, nth i ps vzero)).
      { rewrite (nth_error_nth_d _ _ (0, vzero)).
        - rewrite combine_nth by apply seq_length. rewrite seq_nth by exact Hi. reflexivity.
        - rewrite combine_length, seq_length. lia. }
      rewrite K. reflexivity. }
    split. { unfold init_distrib. rewrite map_length, combine_length, seq_length. lia. }
    split.
    + intros Hm. apply E. unfold init_u. rewrite Hm. reflexivity.
    + intros Hm Hu. eexists. split. { apply E. unfold init_u. rewrite Hm. reflexivity. }
      set (w := if position_only then _ else _) in *.
      assert (Hw : (0 < dot w w)%R).
      { destruct (dot_self_nonneg w) as [?|K]; auto. symmetry in K. apply dot_self_zero in K. contradiction. }
      split. { apply vnorm_1. apply normalize_unit. exact Hw. }
      exists (sqrt (dot w w)). split. { apply sqrt_lt_R0. exact Hw. }
      unfold vnormalize. destruct (Rlt_dec 0 (dot w w)); [|contradiction].
      assert (Hs : sqrt (dot w w) <> 0%R). { apply Rgt_not_eq. apply sqrt_lt_R0. exact Hw. }
      generalize dependent (sqrt (dot w w)). intros k Hk. apply vec_eq; unfold vscale; simpl; field; exact Hk.
Qed.

(** Finding: a zero vector given by the user for a magnetic node is left as it is: its magnetization is not a
    unit vector and no error is reported. *)
Theorem C44_zero_vector_refuted : exists (of_position : vec -> vec) (tets : list tet) (ps : list vec) u,
  nth_error (init_distrib nat [] 0 of_position (fun _ _ => vzero) tets [true; true; true; true] [] true ps) 0 = Some (Some u, Some u)
  /\ vnorm u <> 1%R.
Proof.
  exists (fun _ => vzero), [mkTet 0 1 2 3 1], ex_nodes, vzero. split.
  - unfold init_distrib, init_u, vnormalize. cbn [nth combine seq length map ex_nodes fst snd nth_error].
    destruct (Rlt_dec 0 (dot vzero vzero)) as [H|H]; auto. unfold dot, vzero in H. simpl in H. lra.
  - rewrite vnorm_1. unfold dot, vzero. simpl. lra.
Qed.

Example C44_nonvacuous :
  init_distrib nat [10; 11; 12] 0 (fun p => p) (fun p names => V (INR (length names)) 0 0)
    [mkTet 0 1 2 3 1; mkTet 1 3 2 4 2] [true; true; true; true; false]
    (volume_regions 3 [mkTet 0 1 2 3 1; mkTet 1 3 2 4 2]) false [vzero; vzero; vzero; vzero; vzero] =
  let one := Some (vnormalize (V 1 0 0)) in let two := Some (vnormalize (V (1 + 1) 0 0)) in
  [(one, one); (two, two); (two, two); (two, two); (None, None)].
Proof. reflexivity. Qed.

Print Assumptions C34_renumbering.
Print Assumptions C35_sorted.
Print Assumptions C35_longest_axis_partial.
Print Assumptions C35_longest_axis_refuted.
Print Assumptions C36_edges.
Print Assumptions C37_marking.
Print Assumptions C43_max_angle.
Print Assumptions C44_initial_magnetization.
Print Assumptions C44_zero_vector_refuted.
Print Assumptions C73_volumes.
