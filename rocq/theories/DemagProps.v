(** * C66: charges and potentials of the demagnetizing field are attributed to the right elements; the particles fit in the box *)
From Coq Require Import Reals List Arith Bool Permutation Lia Lra.
From Verif Require Import Vec Sums SparseModel SparseProof StdModel MeshModel ElemModel ElemProof AvgModel EnergyModel MeshProps DemagModel DemagProof.
Import ListNotations.
Local Open Scope R_scope.

(** ** Specification *)
(** the potential at [x] of the point charges [l] (position, charge), and the sum of the magnitudes of its terms *)
Definition coulomb (x : vec) (l : list (vec * R)) : R := lsum (map (fun yq => snd yq / vnorm (vsub x (fst yq))) l).
Definition coulomb_abs (x : vec) (l : list (vec * R)) : R := lsum (map (fun yq => Rabs (snd yq) / vnorm (vsub x (fst yq))) l).

Section spec.
Variables (p : nat -> vec) (tets : list tet) (tris : list tri) (Ms dMs : list R).

(** the Gauss points of the magnetic elements with their charges, element by element *)
Definition charged_points (u : nat -> vec) (magTet magTri : list nat) : list (vec * R) :=
  flat_map (fun k => map (fun j => (tet_gauss p tets k j, tet_charge p tets Ms u k j)) (seq 0 5)) magTet ++
  flat_map (fun k => map (fun j => (tri_gauss p tris k j, tri_charge p tris dMs u k j)) (seq 0 4)) magTri.

(** what a magnetic triangle brings to the potential at node [a]: when [a] is one of its vertices, the closed formula of
    the potential of a charged triangle at its vertex, otherwise the charges of its Gauss points *)
Definition tri_part (u : nat -> vec) (a k : nat) : R :=
  let f := nth k tris (mkTri 0 0 0 0) in
  if Nat.eqb a (r0 f) then vertex_potential p tris dMs u k 0
  else if Nat.eqb a (r1 f) then vertex_potential p tris dMs u k 1
  else if Nat.eqb a (r2 f) then vertex_potential p tris dMs u k 2
  else sumn 4 (fun j => tri_charge p tris dMs u k j / vnorm (vsub (p a) (tri_gauss p tris k j))).
Definition tet_part (u : nat -> vec) (a k : nat) : R :=
  sumn 5 (fun j => tet_charge p tets Ms u k j / vnorm (vsub (p a) (tet_gauss p tets k j))).
Definition node_potential (u : nat -> vec) (magTet magTri : list nat) (a : nat) : R :=
  (lsum (map (tet_part u a) magTet) + lsum (map (tri_part u a) magTri)) / (4 * PI).
End spec.

Lemma charged_points_eq : forall p tets tris Ms dMs u magTet magTri, charged_points p tets tris Ms dMs u magTet magTri =
  points NPI (tet_gauss p tets) (tet_charge p tets Ms u) magTet ++ points tNPI (tri_gauss p tris) (tri_charge p tris dMs u) magTri.
Proof. reflexivity. Qed.

Lemma demag_values : forall p norm c tets tris Ms dMs u magTet magTri nodes leaves tgts,
  tree_of (sources p norm c tets tris nodes magTet magTri) tgts leaves ->
  exists vs, physical_values nodes (fst (calc_charges p tets tris Ms dMs nodes u magTet magTri)) (flat_map fst leaves) = Some vs /\
    Permutation vs (map (fun yq => (vscale norm (vsub (fst yq) c), snd yq)) (charged_points p tets tris Ms dMs u magTet magTri)).
Proof.
  intros p norm c tets tris Ms dMs u magTet magTri nodes leaves tgts [P _].
  destruct (charges_spec p tets tris Ms dMs nodes u magTet magTri) as [E _]. rewrite E, <- charged_points_eq.
  set (L := charged_points p tets tris Ms dMs u magTet magTri).
  rewrite (sources_spec p norm c tets tris nodes magTet magTri (tet_charge p tets Ms u) (tri_charge p tris dMs u)), <- charged_points_eq in P.
  fold L in P. eexists. split.
  - apply physical_some. intros s Hs. apply (Permutation_in _ P) in Hs. apply in_map_iff in Hs. destruct Hs as ([k x] & <- & Hk).
    apply numbered_nth in Hk. cbn [particle_of pt_index fst]. rewrite map_length. lia.
  - etransitivity. { apply Permutation_map. exact P. } rewrite values_in_order. reflexivity.
Qed.

(** ** C66: whatever the way the tree distributes the particles among its leaves, the charge of every Gauss point of every
    magnetic element is given to the particle at the position of that Gauss point, once, and no charge is read out of
    bounds *)
Theorem C66_attribution : forall p norm c tets tris Ms dMs u magTet magTri magNode leaves,
  tree_of (sources p norm c tets tris (length magNode) magTet magTri) (targets p norm c magNode) leaves ->
  exists vs, physical_values (length magNode) (fst (calc_charges p tets tris Ms dMs (length magNode) u magTet magTri)) (flat_map fst leaves) = Some vs /\
    Permutation vs (map (fun yq => (vscale norm (vsub (fst yq) c), snd yq)) (charged_points p tets tris Ms dMs u magTet magTri)).
Proof. intros. eapply demag_values. eassumption. Qed.

(** ** The potential *)
Lemma scaled_sub : forall norm c x y, vsub (vscale norm (vsub x c)) (vscale norm (vsub y c)) = vscale norm (vsub x y).
Proof. intros norm c [x1 x2 x3] [y1 y2 y3]. destruct c as [c1 c2 c3]. apply vec_eq; cbn [vsub vscale vx vy vz]; ring. Qed.

Lemma vnorm_scale : forall k x, 0 < k -> vnorm (vscale k x) = k * vnorm x.
Proof.
  intros k x H. unfold vnorm. rewrite dot_scale_l, dot_scale_r, <- Rmult_assoc. rewrite sqrt_mult; [|nra|apply dot_self_nonneg].
  rewrite sqrt_square by lra. reflexivity.
Qed.

Lemma vnorm_nonzero : forall x, x <> vzero -> 0 < vnorm x.
Proof.
  intros x H. destruct (vnorm_pos x) as [|E]; auto. exfalso. apply H. apply dot_self_zero. rewrite <- vnorm_sq, <- E. ring.
Qed.

Lemma coulomb_scaled : forall (g : R -> R) norm c x L, 0 < norm -> (forall yq, In yq L -> x <> fst yq) ->
  lsum (map (fun yq => g (snd yq) / vnorm (vsub (vscale norm (vsub x c)) (fst yq))) (map (fun yq => (vscale norm (vsub (fst yq) c), snd yq)) L)) * norm =
  lsum (map (fun yq => g (snd yq) / vnorm (vsub x (fst yq))) L).
Proof.
  intros g norm c x L Hn H. rewrite map_map. cbn [fst snd]. rewrite Rmult_comm, <- lsum_map_scale. apply lsum_map_ext.
  intros yq Hy. rewrite scaled_sub, vnorm_scale by exact Hn.
  assert (0 < vnorm (vsub x (fst yq))).
  { apply vnorm_nonzero. intros E. apply (H yq Hy). assert (E' := E). destruct x as [x1 x2 x3], (fst yq) as [y1 y2 y3].
    unfold vsub, vzero in E. cbn [vx vy vz] in E. injection E as E1 E2 E3. apply vec_eq; cbn [vx vy vz]; lra. }
  field. split; lra.
Qed.

Lemma sum_points : forall (p : nat -> vec) (a : nat) NPI gauss charge l,
  lsum (map (fun yq => snd yq / vnorm (vsub (p a) (fst yq))) (points NPI gauss charge l)) =
  lsum (map (fun k => sumn NPI (fun j => charge k j / vnorm (vsub (p a) (gauss k j)))) l).
Proof.
  intros p a NPI gauss charge. induction l as [|k l IH]; auto. unfold points in *. cbn [flat_map map lsum].
  rewrite map_app, lsum_app, IH, map_map. cbn [fst snd]. rewrite sumn_lsum. reflexivity.
Qed.

Lemma corrected : forall p tris dMs u a k, NoDup (tri_nodes (the_tri tris k)) ->
  sumn 4 (fun j => tri_charge p tris dMs u k j / vnorm (vsub (p a) (tri_gauss p tris k j))) +
  lsum (map (fun i => if Nat.eqb a (nth i (tri_nodes (the_tri tris k)) 0%nat) then corr_at p tris dMs u k i else 0) (seq 0 3)) =
  tri_part p tris dMs u a k.
Proof.
  intros p tris dMs u a k H. unfold tri_part. change (nth k tris (mkTri 0 0 0 0)) with (the_tri tris k).
  cbn [seq map lsum]. unfold corr_at. set (f := the_tri tris k) in *. unfold tri_nodes in *. cbn [nth].
  inversion H as [|? ? N1 H1]; subst. inversion H1 as [|? ? N2 _]; subst. cbn [In] in N1, N2. clear H H1.
  destruct (Nat.eqb_spec a (r0 f)) as [E0|N0].
  - destruct (Nat.eqb_spec a (r1 f)) as [E1|_]; [exfalso; apply N1; left; congruence|].
    destruct (Nat.eqb_spec a (r2 f)) as [E1|_]; [exfalso; apply N1; right; left; congruence|].
    rewrite <- E0. unfold tNPI. ring.
  - destruct (Nat.eqb_spec a (r1 f)) as [E1|_].
    + destruct (Nat.eqb_spec a (r2 f)) as [E2|_]; [exfalso; apply N2; left; congruence|]. rewrite <- E1. unfold tNPI. ring.
    + destruct (Nat.eqb_spec a (r2 f)) as [E2|_]; [rewrite <- E2; unfold tNPI; ring|ring].
Qed.

(** [exec] approximates the sum of the potentials of its charges with relative accuracy [eps] *)
Definition accurate (eps : R) (exec : list (vec * R) -> vec -> R) : Prop :=
  forall l x, Rabs (exec l x - coulomb x l) <= eps * coulomb_abs x l.

(** C66: the potential stored at each magnetic node is, up to the accuracy of the fast multipole method, the one created
    at that node by the charges of the Gauss points of the tetrahedra, by those of the triangles not containing the node,
    and by the triangles containing it with their closed formula; the potential of the other nodes is left as it was. *)
Theorem C66_node_potential : forall p norm c tets tris Ms dMs exec eps u magTet magTri magNode leaves phi,
  0 < norm -> accurate eps exec ->
  tree_of (sources p norm c tets tris (length magNode) magTet magTri) (targets p norm c magNode) leaves ->
  (forall k, In k magTri -> NoDup (tri_nodes (nth k tris (mkTri 0 0 0 0))) /\
                            forall i, In i (tri_nodes (nth k tris (mkTri 0 0 0 0))) -> (i < length magNode)%nat) ->
  (forall a yq, (a < length magNode)%nat -> In yq (charged_points p tets tris Ms dMs u magTet magTri) -> p a <> fst yq) ->
  length phi = length magNode ->
  exists phi', demag p norm tets tris Ms dMs exec magNode u magTet magTri leaves phi = Some phi' /\
    length phi' = length phi /\
    forall a, (a < length magNode)%nat ->
      (nth a magNode false = true ->
        Rabs (nth a phi' 0 - node_potential p tets tris Ms dMs u magTet magTri a) <=
        eps * coulomb_abs (p a) (charged_points p tets tris Ms dMs u magTet magTri) / (4 * PI)) /\
      (nth a magNode false = false -> nth a phi' 0 = nth a phi 0).
Proof.
  intros p norm c tets tris Ms dMs exec eps u magTet magTri magNode leaves phi Hn Hexec T V D Lphi.
  destruct (demag_values p norm c tets tris Ms dMs u magTet magTri _ leaves _ T) as (vs & E & P).
  destruct (charges_spec p tets tris Ms dMs (length magNode) u magTet magTri) as [_ Ecorr].
  unfold demag. destruct (calc_charges p tets tris Ms dMs (length magNode) u magTet magTri) as [srcDen corr].
  cbn [fst snd] in E, Ecorr. rewrite E. destruct T as [_ T].
  assert (Nd : NoDup (map pt_index (flat_map snd leaves))).
  { apply (Permutation_NoDup (l := map pt_index (targets p norm c magNode))); [|apply targets_nodup].
    apply Permutation_map. symmetry. exact T. }
  assert (Bd : forall t, In t (flat_map snd leaves) -> (pt_index t < length phi)%nat).
  { intros t Ht. apply (Permutation_in _ T) in Ht. apply targets_in in Ht. destruct Ht as (i & Hi & _ & ->). cbn [pt_index]. lia. }
  set (val (t : particle) := (exec vs (pt_pos t) * norm + nth (pt_index t) corr 0) / (4 * PI)).
  exists (fold_left (fun phi t => set_nth (pt_index t) (val t) phi) (flat_map snd leaves) phi). split; [reflexivity|].
  split; [apply (writes_spec val _ phi 0 Nd Bd)|].
  intros a Ha. destruct (writes_spec val (flat_map snd leaves) phi a Nd Bd) as (_ & W1 & W2). split.
  - intros M. set (t := mkParticle a (scaled norm c (p a))).
    rewrite (W1 t); [|apply (Permutation_in _ (Permutation_sym T)), targets_in; exists a; repeat split; auto|reflexivity].
    unfold val, t. cbn [pt_index pt_pos]. unfold scaled.
    set (L := charged_points p tets tris Ms dMs u magTet magTri) in *.
    assert (D' : forall yq, In yq L -> p a <> fst yq) by (intros; apply D; auto).
    pose proof (coulomb_scaled (fun q => q) norm c (p a) L Hn D') as S1.
    pose proof (coulomb_scaled Rabs norm c (p a) L Hn D') as S2.
    pose proof (Hexec vs (vscale norm (vsub (p a) c))) as X. unfold coulomb, coulomb_abs in X.
    rewrite (lsum_perm _ _ (Permutation_map (fun yq => snd yq / vnorm (vsub (vscale norm (vsub (p a) c)) (fst yq))) P)) in X.
    rewrite (lsum_perm _ _ (Permutation_map (fun yq => Rabs (snd yq) / vnorm (vsub (vscale norm (vsub (p a) c)) (fst yq))) P)) in X.
    set (C := lsum (map (fun yq => snd yq / vnorm (vsub (vscale norm (vsub (p a) c)) (fst yq))) _)) in *.
    set (CA := lsum (map (fun yq => Rabs (snd yq) / vnorm (vsub (vscale norm (vsub (p a) c)) (fst yq))) _)) in *.
    fold (coulomb_abs (p a) L) in S2.
    assert (NP : node_potential p tets tris Ms dMs u magTet magTri a = (C * norm + nth a corr 0) / (4 * PI)).
    { rewrite S1. unfold node_potential. f_equal. unfold L. rewrite charged_points_eq, map_app, lsum_app, !sum_points.
      rewrite Ecorr, corrections_spec.
      - rewrite nth_repeat. unfold tet_part. rewrite Rplus_assoc. f_equal. rewrite Rplus_0_l, <- lsum_map_plus. apply lsum_map_ext.
        intros k Hk. symmetry. apply corrected. apply (V k Hk).
      - intros k i Hk Hi. rewrite repeat_length. apply (proj2 (V k Hk)). exact Hi. }
    rewrite NP. pose proof PI_RGT_0 as Hpi.
    replace ((exec vs (vscale norm (vsub (p a) c)) * norm + nth a corr 0) / (4 * PI) - (C * norm + nth a corr 0) / (4 * PI))
      with ((exec vs (vscale norm (vsub (p a) c)) - C) * (norm / (4 * PI))) by (field; lra).
    rewrite Rabs_mult, (Rabs_pos_eq (norm / (4 * PI))) by (apply Rlt_le, Rdiv_lt_0_compat; lra).
    rewrite <- S2. replace (eps * (CA * norm) / (4 * PI)) with (eps * CA * (norm / (4 * PI))) by (field; lra).
    apply Rmult_le_compat_r; [|exact X]. apply Rlt_le, Rdiv_lt_0_compat; lra.
  - intros M. apply W2. intros t Ht Et. apply (Permutation_in _ T) in Ht. apply targets_in in Ht. destruct Ht as (i & Hi & Mi & ->).
    cbn [pt_index] in Et. subst. congruence.
Qed.

(** C66: the first potential of the nodes comes from their magnetization, the second one from their time derivative *)
Theorem C66_both_potentials : forall p norm c tets tris Ms dMs exec eps u v magTet magTri magNode leaves phi phiv,
  0 < norm -> accurate eps exec ->
  tree_of (sources p norm c tets tris (length magNode) magTet magTri) (targets p norm c magNode) leaves ->
  (forall k, In k magTri -> NoDup (tri_nodes (nth k tris (mkTri 0 0 0 0))) /\
                            forall i, In i (tri_nodes (nth k tris (mkTri 0 0 0 0))) -> (i < length magNode)%nat) ->
  (forall a yq, (a < length magNode)%nat -> In yq (charged_points p tets tris Ms dMs u magTet magTri) -> p a <> fst yq) ->
  length phi = length magNode -> length phiv = length magNode ->
  exists phi' phiv', calc_demag p norm tets tris Ms dMs exec magNode u v magTet magTri leaves phi phiv = Some (phi', phiv') /\
    forall a, (a < length magNode)%nat -> nth a magNode false = true ->
      Rabs (nth a phi' 0 - node_potential p tets tris Ms dMs u magTet magTri a) <=
        eps * coulomb_abs (p a) (charged_points p tets tris Ms dMs u magTet magTri) / (4 * PI) /\
      Rabs (nth a phiv' 0 - node_potential p tets tris Ms dMs v magTet magTri a) <=
        eps * coulomb_abs (p a) (charged_points p tets tris Ms dMs v magTet magTri) / (4 * PI).
Proof.
  intros p norm c tets tris Ms dMs exec eps u v magTet magTri magNode leaves phi phiv Hn Hexec T V D L1 L2.
  assert (D' : forall a yq, (a < length magNode)%nat -> In yq (charged_points p tets tris Ms dMs v magTet magTri) -> p a <> fst yq).
  { intros a yq Ha Hy. assert (P : forall w w', map fst (charged_points p tets tris Ms dMs w magTet magTri) = map fst (charged_points p tets tris Ms dMs w' magTet magTri)).
    { assert (Q : forall n g (f f' : nat -> nat -> R) l, map (@fst vec R) (points n g f l) = map fst (points n g f' l)).
      { intros n g f f'. induction l as [|k l IH]; auto. unfold points in *. cbn [flat_map]. rewrite !map_app, IH, !map_map. reflexivity. }
      intros w w'. rewrite !charged_points_eq, !map_app. f_equal; apply Q. }
    assert (I : In (fst yq) (map fst (charged_points p tets tris Ms dMs u magTet magTri))) by (rewrite (P u v); apply in_map; exact Hy).
    apply in_map_iff in I. destruct I as (yq' & E & I). rewrite <- E. apply D; auto. }
  destruct (C66_node_potential p norm c tets tris Ms dMs exec eps u magTet magTri magNode leaves phi Hn Hexec T V D L1) as (phi' & E1 & _ & H1).
  destruct (C66_node_potential p norm c tets tris Ms dMs exec eps v magTet magTri magNode leaves phiv Hn Hexec T V D' L2) as (phiv' & E2 & _ & H2).
  exists phi', phiv'. unfold calc_demag. rewrite E1, E2. split; auto. intros a Ha M. split; [apply H1|apply H2]; auto.
Qed.

(** ** The particles are inside the box of the tree *)
Definition coord_le (x : vec) (m : R) : Prop := Rabs (vx x) <= m /\ Rabs (vy x) <= m /\ Rabs (vz x) <= m.

Lemma convex_bound : forall n (w x : nat -> R) a b, (forall i, (i < n)%nat -> 0 <= w i) -> sumn n w = 1 ->
  (forall i, (i < n)%nat -> a <= x i <= b) -> a <= sumn n (fun i => w i * x i) <= b.
Proof.
  intros n w x a b Hw H1 Hx.
  assert (A : a * sumn n w <= sumn n (fun i => w i * x i) <= b * sumn n w).
  { clear H1. induction n as [|n IH]; cbn [sumn]; [lra|].
    assert (IHn := IH (fun i Hi => Hw i (Nat.lt_lt_succ_r _ _ Hi)) (fun i Hi => Hx i (Nat.lt_lt_succ_r _ _ Hi))).
    pose proof (Hw n (Nat.lt_succ_diag_r n)). pose proof (Hx n (Nat.lt_succ_diag_r n)). nra. }
  rewrite H1 in A. lra.
Qed.

Lemma sh_convex : forall j, (j < 5)%nat -> (forall i, (i < 4)%nat -> 0 <= sh i j) /\ sumn 4 (fun i => sh i j) = 1.
Proof.
  intros j Hj. do 5 (destruct j as [|j]; [split; [intros i Hi; do 4 (destruct i as [|i]; [unfold sh, gu, gv, gw; cbn [nth]; lra|]); lia|
    unfold sh, gu, gv, gw; cbn [sumn nth]; lra]|]). lia.
Qed.
Lemma tsh_convex : forall j, (j < 4)%nat -> (forall i, (i < 3)%nat -> 0 <= tsh i j) /\ sumn 3 (fun i => tsh i j) = 1.
Proof.
  intros j Hj. do 4 (destruct j as [|j]; [split; [intros i Hi; do 3 (destruct i as [|i]; [unfold tsh, tu, tv; cbn [nth]; lra|]); lia|
    unfold tsh, tu, tv; cbn [sumn nth]; lra]|]). lia.
Qed.

(** the nodes of the mesh, its center and its lengths, mesh.h lines 51-61 *)
Definition mesh_center (ps : list vec) : vec :=
  V (1 / 2 * (maxNodes AX ps + minNodes AX ps)) (1 / 2 * (maxNodes AY ps + minNodes AY ps)) (1 / 2 * (maxNodes AZ ps + minNodes AZ ps)).
Definition mesh_lengths (ps : list vec) : vec := V (extent AX ps) (extent AY ps) (extent AZ ps).

(** C66: every particle is strictly inside the box of the tree: no coordinate exceeds 1 whereas the half width is 1.005 *)
Theorem C66_in_box : forall ps tets tris magTet magTri magNode t,
  let p i := nth i ps vzero in
  let norm := norm_of (mesh_lengths ps) in
  let c := mesh_center ps in
  0 < max_coeff (mesh_lengths ps) -> length magNode = length ps ->
  (forall k i, In k magTet -> In i (tet_nodes (nth k tets (mkTet 0 0 0 0 0))) -> (i < length ps)%nat) ->
  (forall k i, In k magTri -> In i (tri_nodes (nth k tris (mkTri 0 0 0 0))) -> (i < length ps)%nat) ->
  In t (targets p norm c magNode) \/ In t (sources p norm c tets tris (length magNode) magTet magTri) ->
  coord_le (pt_pos t) 1 /\ 1 < boxWidth / 2.
Proof.
  intros ps tets tris magTet magTri magNode t p norm c Hl Hlen Ht Hf H. split; [|unfold boxWidth; lra].
  set (ax_le (a : axis) (x : vec) := minNodes a ps <= coord a x <= maxNodes a ps).
  assert (Node : forall i a, (i < length ps)%nat -> ax_le a (p i)).
  { intros i a Hi. pose proof (minNodes_spec a ps DBL_MAX) as M. pose proof (maxNodes_spec a ps DBL_MIN) as N. cbv zeta in M, N.
    destruct M as (_ & M & _), N as (_ & N & _). assert (I : In (p i) ps) by (apply nth_In; exact Hi). split; [apply M|apply N]; exact I. }
  assert (Box : forall x, (forall a, ax_le a x) -> coord_le (scaled norm c x) 1).
  { assert (S : forall mn mx y k, mn <= y <= mx -> 0 < k -> mx - mn <= k -> Rabs (2 / k * (y - 1 / 2 * (mx + mn))) <= 1).
    { intros mn mx y k Hy Hk Hm. rewrite Rabs_mult, (Rabs_pos_eq (2 / k)) by (apply Rlt_le, Rdiv_lt_0_compat; lra).
      apply Rmult_le_reg_l with (k / 2); [lra|]. replace (k / 2 * (2 / k * Rabs (y - 1 / 2 * (mx + mn)))) with (Rabs (y - 1 / 2 * (mx + mn))) by (field; lra).
      apply Rabs_le. lra. }
    assert (Mx : vx (mesh_lengths ps) <= max_coeff (mesh_lengths ps) /\ vy (mesh_lengths ps) <= max_coeff (mesh_lengths ps) /\ vz (mesh_lengths ps) <= max_coeff (mesh_lengths ps)).
    { unfold max_coeff. pose proof (Rmax_l (vx (mesh_lengths ps)) (Rmax (vy (mesh_lengths ps)) (vz (mesh_lengths ps)))).
      pose proof (Rmax_r (vx (mesh_lengths ps)) (Rmax (vy (mesh_lengths ps)) (vz (mesh_lengths ps)))).
      pose proof (Rmax_l (vy (mesh_lengths ps)) (vz (mesh_lengths ps))). pose proof (Rmax_r (vy (mesh_lengths ps)) (vz (mesh_lengths ps))). lra. }
    intros x Hx. pose proof (Hx AX) as X. pose proof (Hx AY) as Y. pose proof (Hx AZ) as Z. unfold ax_le in X, Y, Z. cbn [coord] in X, Y, Z.
    unfold coord_le, scaled, vscale, vsub, norm, norm_of, c, mesh_center. cbn [vx vy vz].
    destruct Mx as (Mx & My & Mz). set (k := max_coeff (mesh_lengths ps)) in *. clearbody k. unfold mesh_lengths, extent in Mx, My, Mz.
    cbn [vx vy vz] in Mx, My, Mz. repeat split; apply S; auto. }
  destruct H as [H|H].
  - apply targets_in in H. destruct H as (i & Hi & _ & ->). cbn [pt_pos]. apply Box. intros a. apply Node. lia.
  - rewrite (sources_spec p norm c tets tris (length magNode) magTet magTri (fun _ _ => 0) (fun _ _ => 0)) in H.
    apply in_map_iff in H. destruct H as ([k [x q]] & <- & H). cbn [particle_of pt_pos fst snd]. apply Box. intros a.
    apply numbered_nth in H. destruct H as [_ H]. apply nth_error_In in H. apply in_app_iff in H. unfold points in H.
    destruct H as [H|H]; apply in_flat_map in H; destruct H as (e & He & H); apply in_map_iff in H; destruct H as (j & E & Hj);
    injection E as E _; subst x; apply in_seq in Hj.
    + destruct (sh_convex j ltac:(unfold NPI in Hj; lia)) as [W1 W2].
      assert (G : ax_le a (tet_gauss p tets e j) <-> minNodes a ps <= sumn 4 (fun i => sh i j * coord a (corner p (the_tet tets e) i)) <= maxNodes a ps).
      { unfold ax_le. replace (coord a (tet_gauss p tets e j)) with (sumn 4 (fun i => sh i j * coord a (corner p (the_tet tets e) i))); [reflexivity|].
        destruct a; reflexivity. }
      apply G. apply convex_bound; auto. intros i Hi. apply Node. apply (Ht e); auto. unfold the_tet. apply nth_In. exact Hi.
    + destruct (tsh_convex j ltac:(unfold tNPI in Hj; lia)) as [W1 W2].
      assert (G : ax_le a (tri_gauss p tris e j) <-> minNodes a ps <= sumn 3 (fun i => tsh i j * coord a (tri_corner p (the_tri tris e) i)) <= maxNodes a ps).
      { unfold ax_le. replace (coord a (tri_gauss p tris e j)) with (sumn 3 (fun i => tsh i j * coord a (tri_corner p (the_tri tris e) i))); [reflexivity|].
        destruct a; reflexivity. }
      apply G. apply convex_bound; auto. intros i Hi. apply Node. apply (Hf e); auto. unfold the_tri. apply nth_In. exact Hi.
Qed.

(** ** Examples: one tetrahedron, one of its faces, and the exact sum as fast multipole method *)
Definition ex_nodes : list vec := [V 0 0 0; V 1 0 0; V 0 1 0; V 0 0 1].
Definition ex_p (i : nat) : vec := nth i ex_nodes vzero.
Definition ex_tets : list tet := [mkTet 0 1 2 3 0].
Definition ex_tris : list tri := [mkTri 0 2 1 0].

Example C66_nonvacuous :
  let u := fun i => match i with O => V 0 0 1 | 1%nat => V 1 0 0 | _ => V 0 1 0 end in
  let magNode := [true; true; true; false] in
  let norm := norm_of (mesh_lengths ex_nodes) in
  let c := mesh_center ex_nodes in
  let leaves := [(sources ex_p norm c ex_tets ex_tris 4 [0%nat] [0%nat], []); ([], targets ex_p norm c magNode)] in
  0 < max_coeff (mesh_lengths ex_nodes) /\ 0 < norm /\ accurate 0 (fun l x => coulomb x l) /\
  tree_of (sources ex_p norm c ex_tets ex_tris 4 [0%nat] [0%nat]) (targets ex_p norm c magNode) leaves /\
  (forall k, In k [0%nat] -> NoDup (tri_nodes (nth k ex_tris (mkTri 0 0 0 0))) /\
                            forall i, In i (tri_nodes (nth k ex_tris (mkTri 0 0 0 0))) -> (i < 4)%nat) /\
  (forall a yq, (a < 4)%nat -> In yq (charged_points ex_p ex_tets ex_tris [1] [1] u [0%nat] [0%nat]) -> ex_p a <> fst yq).
Proof.
  cbv zeta.
  assert (Hl : 0 < max_coeff (mesh_lengths ex_nodes)).
  { unfold max_coeff. apply Rlt_le_trans with (vx (mesh_lengths ex_nodes)); [|apply Rmax_l]. unfold mesh_lengths, extent. cbn [vx].
    pose proof (maxNodes_spec AX ex_nodes DBL_MIN) as M. pose proof (minNodes_spec AX ex_nodes DBL_MAX) as N. cbv zeta in M, N.
    destruct M as (_ & M & _), N as (_ & N & _). pose proof (M (V 1 0 0) ltac:(simpl; auto)) as M1. pose proof (N (V 0 0 0) ltac:(simpl; auto)) as N0.
    cbn [coord vx] in M1, N0. unfold maxNodes, minNodes. lra. }
  split; auto. split. { unfold norm_of. apply Rdiv_lt_0_compat; lra. }
  split. { intros l x. unfold Rminus. rewrite Rplus_opp_r, Rabs_R0, Rmult_0_l. lra. }
  split. { split; cbn [flat_map fst snd app]; rewrite ?app_nil_r; reflexivity. }
  split.
  { intros k [<-|[]]. cbn [nth ex_tris tri_nodes r0 r1 r2]. split; [repeat constructor; simpl; lia|simpl; intros i; lia]. }
  intros a yq Ha Hy. unfold charged_points in Hy. cbn [flat_map] in Hy. rewrite !app_nil_r in Hy.
  apply in_app_iff in Hy. destruct Hy as [H|H]; apply in_map_iff in H; destruct H as (j & <- & Hj); apply in_seq in Hj; cbn [fst];
  intros E; apply (f_equal (fun v => vx v + vy v)) in E.
  - unfold tet_gauss, the_tet, interpV, vsumn, corner, tet_nodes in E. cbn [sumn vx vy vz nth ex_tets t0 t1 t2 t3] in E.
    unfold vscale in E. cbn [vx vy vz ex_p nth ex_nodes] in E. unfold sh in E.
    do 5 (destruct j as [|j]; [unfold gu, gv, gw in E; cbn [nth] in E;
      do 4 (destruct a as [|a]; [cbn [ex_p ex_nodes nth vx vy vz] in E; lra|]); lia|]). lia.
  - unfold tri_gauss, the_tri, tinterpV, vsumn, tri_corner, tri_nodes in E. cbn [sumn vx vy vz nth ex_tris r0 r1 r2] in E.
    unfold vscale in E. cbn [vx vy vz ex_p nth ex_nodes] in E. unfold tsh in E.
    do 4 (destruct j as [|j]; [unfold tu, tv in E; cbn [nth] in E;
      do 4 (destruct a as [|a]; [cbn [ex_p ex_nodes nth vx vy vz] in E; lra|]); lia|]). lia.
Qed.

Print Assumptions C66_attribution.
Print Assumptions C66_node_potential.
Print Assumptions C66_in_box.
Print Assumptions C66_both_potentials.
