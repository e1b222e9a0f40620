(** * C70, C87: the electrostatic problem *)
From Coq Require Import Reals String List ZArith Arith Bool Lia Lra Permutation Relations.
From Verif Require Import Arith ArithLaws Vec Sums LinAlg SparseModel SparseProof ConcModel ConcProof SparseProps
  IterModel IterProof Ieee IterMask IterExact IterProps CgProof CgProps StdModel MeshModel MeshProof MeshProps ElemModel ElemProof AvgModel ElemProps
  AsmModel AsmProof AsmProps LlgProps TransportModel TransportProof BoundaryProps.
From Verif Require SettingsModel.
From Verif Require Import TextModel.
Import ListNotations.
Local Open Scope R_scope.

(** ** Specification *)
(** gradient on a tetrahedron of the nodal values [x]: C46 shows that it is the one of the affine function with these values *)
Definition grad_on (p : nat -> vec) (x : nat -> R) (t : tet) : vec := calc_gradV (corner p t) (corner x t).
(** integral of sigma grad x . grad w *)
Definition conduction (p : nat -> vec) (sigma : tet -> R) (tets : list tet) (x w : nat -> R) : R :=
  lsum (map (fun t => sigma t * tet_vol p t * dot (grad_on p x t) (grad_on p w t)) tets).
(** integral of jn w on the surface, w being affine on the triangles *)
Definition tri_area (p : nat -> vec) (t : tri) : R := calc_surf (corner3 p t).
Definition tri_mean (w : nat -> R) (t : tri) : R := lsum (map w (tri_nodes t)) / 3.
Definition injected (p : nat -> vec) (jn : tri -> R) (tris : list tri) (w : nat -> R) : R :=
  lsum (map (fun t => jn t * tri_area p t * tri_mean w t) tris).
(** norm of the nodal values *)
Definition nodal_norm (n : nat) (w : nat -> R) : R := sqrt (sumn n (fun i => Rsqr (w i))).

(** ** C70: the element matrix *)
Lemma elec_Ke_dot : forall s q i j, elec_Ke s q i j = s * calc_vol q * dot (da q i) (da q j).
Proof.
  intros s q i j. unfold elec_Ke, calc_vol. fold (dot (da q i) (da q j)).
  rewrite (sumn_ext NPI _ (fun npi => (s * dot (da q i) (da q j)) * weight q npi)) by (intros; unfold dot; ring).
  rewrite sumn_scale. ring.
Qed.

Lemma elec_row : forall s q i (x : nat -> R), sumn 4 (fun j => elec_Ke s q i j * x j) = s * calc_vol q * dot (da q i) (calc_gradV q x).
Proof.
  intros s q i x. rewrite (sumn_ext 4 _ (fun j => s * calc_vol q * (x j * dot (da q i) (da q j)))) by (intros; rewrite elec_Ke_dot; ring).
  rewrite sumn_scale. f_equal. unfold calc_gradV, vsumn. cbn [sumn]. vsimpl. ring.
Qed.

Lemma grad_edge : forall q x k, detJ q <> 0 -> (k < 4)%nat -> dot (calc_gradV q x) (vsub (q k) (q 0%nat)) = x k - x 0%nat.
Proof.
  intros q x k H Hk. rewrite gradV_edges, da_1, da_2, da_3. rewrite detJ_mixed in *. unfold mixed_prod, edge1, edge2, edge3 in *.
  assert (E : forall e1 e2 e3 : vec, dot e1 (cross e2 e3) <> 0 -> forall a b c,
    let g := vadd (vadd (vscale a (vscale (/ dot e1 (cross e2 e3)) (cross e2 e3))) (vscale b (vscale (/ dot e1 (cross e2 e3)) (cross e3 e1)))) (vscale c (vscale (/ dot e1 (cross e2 e3)) (cross e1 e2))) in
    dot g e1 = a /\ dot g e2 = b /\ dot g e3 = c).
  { intros [a1 a2 a3] [b1 b2 b3] [c1 c2 c3] D a b c. vsimpl. repeat split; field; exact D. }
  destruct (E _ _ _ H (x 1%nat - x 0%nat) (x 2%nat - x 0%nat) (x 3%nat - x 0%nat)) as (E1 & E2 & E3).
  destruct (four_cases k Hk) as [->|[->|[->| ->]]]; auto.
  rewrite dot_sub_r. ring.
Qed.

Theorem C70_symmetric : forall sigma q i j, elec_Ke sigma q i j = elec_Ke sigma q j i.
Proof. intros. rewrite !elec_Ke_dot, (dot_comm (da q i)). reflexivity. Qed.

Theorem C70_rows_sum_to_zero : forall sigma q i, sumn 4 (fun j => elec_Ke sigma q i j) = 0.
Proof.
  intros sigma q i. rewrite (sumn_ext 4 _ (fun j => elec_Ke sigma q i j * (fun _ => 1) j)) by (intros; ring).
  rewrite (elec_row sigma q i (fun _ => 1)), (gradV_const q (fun _ => 1) 1) by auto. vsimpl. ring.
Qed.

(** the quadratic form is the dissipated power *)
Theorem C70_power : forall sigma q (x : nat -> R),
  sumn 4 (fun i => sumn 4 (fun j => x i * elec_Ke sigma q i j * x j)) = sigma * calc_vol q * dot (calc_gradV q x) (calc_gradV q x).
Proof.
  intros sigma q x.
  rewrite (sumn_ext 4 _ (fun i => sigma * calc_vol q * (x i * dot (da q i) (calc_gradV q x)))).
  - rewrite sumn_scale. f_equal. generalize (calc_gradV q x) at 1 3. intros g. unfold calc_gradV, vsumn. cbn [sumn]. vsimpl. ring.
  - intros i _. rewrite (sumn_ext 4 _ (fun j => x i * (elec_Ke sigma q i j * x j))) by (intros; ring).
    rewrite sumn_scale, elec_row. ring.
Qed.

Theorem C70_positive : forall sigma q (x : nat -> R), 0 <= sigma -> 0 < detJ q ->
  0 <= sumn 4 (fun i => sumn 4 (fun j => x i * elec_Ke sigma q i j * x j)).
Proof.
  intros sigma q x Hs Hq. rewrite C70_power, vol_det. pose proof (dot_self_nonneg (calc_gradV q x)).
  apply Rmult_le_pos; auto. apply Rmult_le_pos; lra.
Qed.

Theorem C70_null_iff_constant : forall sigma q (x : nat -> R), 0 < sigma -> 0 < detJ q ->
  (sumn 4 (fun i => sumn 4 (fun j => x i * elec_Ke sigma q i j * x j)) = 0 <-> forall i, (i < 4)%nat -> x i = x 0%nat).
Proof.
  intros sigma q x Hs Hq. rewrite C70_power, vol_det. split.
  - intros H. assert (D : dot (calc_gradV q x) (calc_gradV q x) = 0).
    { assert (0 < sigma * (detJ q / 6)) by (apply Rmult_lt_0_compat; lra). pose proof (dot_self_nonneg (calc_gradV q x)).
      destruct (Rmult_integral _ _ H); lra. }
    apply dot_self_zero in D. intros i Hi. pose proof (grad_edge q x i ltac:(lra) Hi) as E. rewrite D in E. unfold dot in E. cbn [vzero vx vy vz] in E. lra.
  - intros H. rewrite (gradV_const q x (x 0%nat) H). vsimpl. ring.
Qed.

(** the unit tetrahedron with conductivity 6 *)
Example C70_nonvacuous : 0 < detJ ref_tet /\ elec_Ke 6 ref_tet 1 1 = 1 /\ elec_Ke 6 ref_tet 0 1 = -1.
Proof.
  assert (D : detJ ref_tet = 1). { rewrite detJ_mixed. unfold mixed_prod, edge1, edge2, edge3, ref_tet. vsimpl. cbn. ring. }
  rewrite D. split; [lra|]. rewrite !elec_Ke_dot, vol_det, D, da_0, da_1, da_2, da_3, D. unfold edge1, edge2, edge3, ref_tet. vsimpl. cbn [nth vx vy vz]. split; field.
Qed.

(** ** C87: the potential *)
Section conductor.
Variables (n : nat) (p : nat -> vec) (edges : list (nat * nat)) (tets : list tet) (tris : list tri)
  (vols : list (vol_prm XA)) (surfs : list (surf_prm XA)).

Definition sigma_of (t : tet) : R := real (SettingsModel.t_sigma (vol_of vols t)).
Definition jn_of (t : tri) : R := match SettingsModel.s_jn (surf_of surfs t) with Fin j => j | _ => 0 end.
(** the nodes of the surfaces with a given potential *)
Definition held (i : nat) : Prop := exists t v, In t tris /\ In i (tri_nodes t) /\ SettingsModel.s_V (surf_of surfs t) = Fin v.

(** the mesh and the parameters: consistent indices, oriented tetrahedra that cover the nodes, positive conductivities,
    potentials that are either absent (NaN) or finite *)
Record conductor : Prop := mkConductor {
  cd_edges : edges_result tets edges;
  cd_distinct : forall t, In t tets -> NoDup (tet_nodes t);
  cd_tets : forall t i, In t tets -> In i (tet_nodes t) -> (i < n)%nat;
  cd_tris : forall t i, In t tris -> In i (tri_nodes t) -> (i < n)%nat;
  cd_regions : forall t, In t tris -> (r_reg t < length surfs)%nat;
  cd_oriented : forall t, In t tets -> 0 < detJ (corner p t);
  cd_sigma : forall t, In t tets -> exists s, SettingsModel.t_sigma (vol_of vols t) = Fin s /\ 0 < s;
  cd_V : forall t, In t tris -> SettingsModel.s_V (surf_of surfs t) = NaN \/ finite (SettingsModel.s_V (surf_of surfs t));
  cd_cover : forall i, (i < n)%nat -> exists t, In t tets /\ In i (tet_nodes t) }.

(** unbalanced current tested by [w] when the potential is [x] *)
Definition imbalance (x w : nat -> R) : R := conduction p sigma_of tets x w + injected p jn_of tris w.
Definition vanishes (w : nat -> R) : Prop := forall i, held i -> w i = 0.

Notation els := (map (elec_tet p vols) tets).
Notation bnd := (map (elec_tri p surfs) tris).

Lemma tet_nod : forall t k, e_nod (elec_tet p vols t) k = nth k (tet_nodes t) 0%nat.
Proof. reflexivity. Qed.

Lemma current_spec : forall t, current_density (surf_of surfs t) = jn_of t.
Proof.
  intros t. unfold current_density, jn_of. pose proof (isfinite_xa (SettingsModel.s_jn (surf_of surfs t))) as I.
  destruct (isfinite (SettingsModel.s_jn (surf_of surfs t))) eqn:E.
  - destruct (proj1 I eq_refl) as [j Hj]. rewrite Hj. reflexivity.
  - destruct (SettingsModel.s_jn (surf_of surfs t)) as [j| | |] eqn:Ej; auto. exfalso. assert (false = true); [|discriminate]. apply I. exists j. reflexivity.
Qed.

Section with_conductor.
Hypothesis HC : conductor.

Lemma els_nodes : forall e a, In e els -> In a (e_ind e) -> (a < n)%nat.
Proof. intros e a He Ha. apply in_map_iff in He. destruct He as (t & <- & Ht). eapply (cd_tets HC); eauto. Qed.
Lemma bnd_nodes : forall e a, In e bnd -> In a (e_ind e) -> (a < n)%nat.
Proof. intros e a He Ha. apply in_map_iff in He. destruct He as (t & <- & Ht). eapply (cd_tris HC); eauto. Qed.

Lemma edges_bound : forall e, In e edges -> (fst e < n)%nat /\ (snd e < n)%nat.
Proof.
  destruct (C36_edges tets edges (cd_edges HC) (cd_distinct HC)) as [_ HIn].
  intros [i j] Hp. apply HIn in Hp. destruct Hp as (_ & t' & H1 & H2 & H3). split; eapply (cd_tets HC); eauto.
Qed.

(** ** the assembled matrix and vector as integrals *)
Lemma assembled_conduction : forall w x, sumn n (fun r => w r * sumn n (fun c => total 1 els r c * x c)) = conduction p sigma_of tets x w.
Proof.
  intros w x. pose proof (total_form 1 n els w x els_nodes) as F. rewrite Nat.mul_1_l in F. rewrite F. clear F.
  unfold conduction. rewrite map_map. apply lsum_map_ext. intros t Ht. cbn [sumn]. rewrite Rplus_0_l.
  change (e_N (elec_tet p vols t)) with 4%nat.
  rewrite (sumn_ext 4 _ (fun ie => corner w t ie * (sigma_of t * calc_vol (corner p t) * dot (da (corner p t) ie) (grad_on p x t)))).
  - rewrite (sumn_ext 4 _ (fun ie => sigma_of t * calc_vol (corner p t) * (corner w t ie * dot (da (corner p t) ie) (grad_on p x t)))) by (intros; ring).
    rewrite sumn_scale. unfold tet_vol. f_equal. generalize (grad_on p x t). intros g. unfold grad_on, calc_gradV, vsumn. cbn [sumn]. vsimpl. ring.
  - intros ie Hie. f_equal.
    + unfold corner. rewrite tet_nod. f_equal. lia.
    + unfold grad_on. rewrite <- elec_row. unfold elem_row. change (e_N (elec_tet p vols t)) with 4%nat. apply sumn_ext. intros je Hje. cbn [sumn].
      rewrite Rplus_0_l. cbn [Nat.mul Nat.add]. rewrite tet_nod. unfold elec_tet. cbn [e_Ke]. unfold corner. f_equal. f_equal. lia.
Qed.

Lemma elec_Le_area : forall J q i, (i < 3)%nat -> elec_Le J q i = - (J * calc_surf q / 3).
Proof.
  intros J q i Hi. unfold elec_Le, tweight. generalize (calc_surf q). intros s. tabs.
  destruct i as [|[|[|i]]]; [| | |lia]; field.
Qed.

Lemma assembled_injection : forall w, sumn n (fun r => w r * loads 1 bnd r) = - injected p jn_of tris w.
Proof.
  intros w. pose proof (loads_form 1 n bnd w bnd_nodes) as F. rewrite Nat.mul_1_l in F. rewrite F. clear F.
  unfold injected. rewrite map_map. transitivity (-1 * lsum (map (fun t => jn_of t * tri_area p t * tri_mean w t) tris)); [|ring].
  rewrite <- lsum_map_scale. apply lsum_map_ext. intros t Ht.
  cbn [sumn]. rewrite Rplus_0_l. change (e_N (elec_tri p surfs t)) with 3%nat.
  rewrite (sumn_ext 3 _ (fun ie => w (nth ie (tri_nodes t) 0%nat) * - (jn_of t * tri_area p t / 3))).
  - unfold tri_mean, tri_nodes. cbn [sumn nth map lsum]. field.
  - intros ie Hie. f_equal.
    + f_equal. unfold elec_tri, e_nod. cbn [e_ind]. lia.
    + cbn [Nat.mul Nat.add]. unfold elec_tri. cbn [e_Le]. rewrite elec_Le_area by exact Hie. rewrite current_spec. reflexivity.
Qed.

Lemma imbalance_rows : forall x w rhs, (forall r, (r < n)%nat -> rhs r = loads 1 bnd r) ->
  imbalance x w = sumn n (fun r => w r * (sumn n (fun c => total 1 els r c * x c) - rhs r)).
Proof.
  intros x w rhs Hr. unfold imbalance. rewrite <- assembled_conduction.
  rewrite <- (Ropp_involutive (injected _ _ _ _)), <- assembled_injection.
  rewrite (sumn_ext n (fun r => w r * (_ - _)) (fun r => w r * sumn n (fun c => total 1 els r c * x c) - w r * loads 1 bnd r)).
  - rewrite sumn_minus. ring.
  - intros r Hr'. rewrite Hr by exact Hr'. ring.
Qed.

Lemma sigma_pos : forall t, In t tets -> 0 < sigma_of t.
Proof. intros t Ht. destruct (cd_sigma HC t Ht) as (s & E & Hs). unfold sigma_of. rewrite E. exact Hs. Qed.
Lemma vol_pos : forall t, In t tets -> 0 < tet_vol p t.
Proof. intros t Ht. unfold tet_vol. rewrite vol_det. pose proof (cd_oriented HC t Ht). lra. Qed.

Lemma conduction_zero : forall x, conduction p sigma_of tets x x = 0 -> forall t, In t tets -> forall i j, In i (tet_nodes t) -> In j (tet_nodes t) -> x i = x j.
Proof.
  intros x H t Ht.
  assert (Z : forall l, (forall t, In t l -> In t tets) -> lsum (map (fun t => sigma_of t * tet_vol p t * dot (grad_on p x t) (grad_on p x t)) l) = 0 ->
    forall t, In t l -> dot (grad_on p x t) (grad_on p x t) = 0).
  { induction l as [|a l IH]; intros Hl E t' Ht'; [destruct Ht'|]. cbn [map lsum] in E.
    assert (P : forall t, In t (a :: l) -> 0 <= sigma_of t * tet_vol p t * dot (grad_on p x t) (grad_on p x t)).
    { intros t2 H2. apply Hl in H2. pose proof (sigma_pos t2 H2). pose proof (vol_pos t2 H2). pose proof (dot_self_nonneg (grad_on p x t2)).
      apply Rmult_le_pos; auto. apply Rmult_le_pos; lra. }
    pose proof (P a (or_introl eq_refl)).
    pose proof (lsum_nonneg (fun t => sigma_of t * tet_vol p t * dot (grad_on p x t) (grad_on p x t)) l (fun t Ht => P t (or_intror Ht))).
    destruct Ht' as [<-|Ht'].
    - assert (E' : sigma_of a * tet_vol p a * dot (grad_on p x a) (grad_on p x a) = 0) by lra.
      pose proof (sigma_pos a (Hl a (or_introl eq_refl))). pose proof (vol_pos a (Hl a (or_introl eq_refl))).
      assert (0 < sigma_of a * tet_vol p a) by (apply Rmult_lt_0_compat; assumption).
      destruct (Rmult_integral _ _ E'); lra.
    - apply IH; auto. { intros; apply Hl; right; auto. } lra. }
  specialize (Z tets (fun t H => H) H t Ht). apply dot_self_zero in Z.
  assert (D : detJ (corner p t) <> 0) by (pose proof (cd_oriented HC t Ht); lra).
  assert (C : forall k, (k < 4)%nat -> x (nth k (tet_nodes t) 0%nat) = x (nth 0 (tet_nodes t) 0%nat)).
  { intros k Hk. pose proof (grad_edge (corner p t) (corner x t) k D Hk) as E. unfold grad_on in Z. rewrite Z in E.
    unfold dot in E. cbn [vzero vx vy vz] in E. unfold corner in E. lra. }
  assert (C' : forall i, In i (tet_nodes t) -> x i = x (nth 0 (tet_nodes t) 0%nat)).
  { intros i Hi. destruct (In_nth _ _ 0%nat Hi) as (k & Hk & <-). apply C. exact Hk. }
  intros i j Hi Hj. rewrite (C' i Hi), (C' j Hj). reflexivity.
Qed.

Lemma diagonal_pos : forall i, (i < n)%nat -> total 1 els i i <> 0.
Proof.
  intros i Hi E.
  set (d := fun j => if (j =? i)%nat then 1 else 0).
  assert (F : conduction p sigma_of tets d d = 0).
  { rewrite <- assembled_conduction. rewrite (sumn_ext n _ (fun r => if (r =? i)%nat then total 1 els r i else 0)).
    - rewrite sumn_delta by exact Hi. exact E.
    - intros r Hr. unfold d at 1. destruct (r =? i)%nat; [|ring].
      rewrite (sumn_ext n _ (fun c => if (c =? i)%nat then total 1 els r c else 0)). { rewrite sumn_delta by exact Hi. ring. }
      intros c _. unfold d. destruct (c =? i)%nat; ring. }
  destruct (cd_cover HC i Hi) as (t & Ht & Hin). pose proof (cd_distinct HC t Ht) as ND.
  assert (Hj : exists j, In j (tet_nodes t) /\ j <> i).
  { unfold tet_nodes in *. destruct (Nat.eq_dec (t0 t) i) as [E0|E0].
    - exists (t1 t). split. { cbn; auto. } intros E1. inversion ND as [|? ? Q _]. apply Q. left. congruence.
    - exists (t0 t). split; auto. cbn; auto. }
  destruct Hj as (j & Hj & Hne). pose proof (conduction_zero d F t Ht i j Hin Hj) as G. unfold d in G.
  rewrite Nat.eqb_refl in G. apply Nat.eqb_neq in Hne. rewrite Hne in G. lra.
Qed.

Lemma elec_system : mesh_system 1 n edges (fun _ => true) els.
Proof.
  destruct (C36_edges tets edges (cd_edges HC) (cd_distinct HC)) as [_ HIn].
  constructor.
  - exact edges_bound.
  - exact els_nodes.
  - intros e He a b Ha Hb Hab. apply in_map_iff in He. destruct He as (t & <- & Ht). cbn [elec_tet e_ind] in Ha, Hb.
    destruct (Nat.lt_ge_cases a b).
    + exists (a, b). split; [apply HIn; split; auto; exists t; auto|]. auto.
    + exists (b, a). split; [apply HIn; split; [lia|]; exists t; auto|]. auto.
Qed.
End with_conductor.
End conductor.

Lemma last_with : forall {X} (P : X -> Prop) (l : list X), (forall x, P x \/ ~ P x) -> (exists x, In x l /\ P x) ->
  exists l1 x l2, l = l1 ++ x :: l2 /\ P x /\ forall y, In y l2 -> ~ P y.
Proof.
  intros X P l D. induction l as [|a l IH]; intros (x & Hx & Px); [destruct Hx|].
  assert (E : (exists x, In x l /\ P x) \/ ~ (exists x, In x l /\ P x)).
  { clear - D. induction l as [|b l IH]. { right. intros (x & [] & _). }
    destruct (D b). { left. exists b. split; [left|]; auto. }
    destruct IH as [(x & H1 & H2)|IH]; [left; exists x; split; [right|]; auto|]. right. intros (x & [<-|H1] & H2); [contradiction|]. apply IH. eauto. }
  destruct E as [E|E].
  - destruct (IH E) as (l1 & y & l2 & -> & Py & N). exists (a :: l1), y, l2. auto.
  - destruct Hx as [<-|Hx]; [|exfalso; apply E; eauto]. exists [], a, l. split; auto. split; auto. intros y Hy Py. apply E. eauto.
Qed.

(** the values given to the solver *)
Lemma held_values : forall n p edges tets tris vols surfs ld vd,
  conductor n p edges tets tris vols surfs -> elec_check surfs = true -> elec_dirichlet n surfs tris = (ld, vd) ->
  exists xd, vd = vF xd /\ length xd = n /\ (forall i, In i ld <-> held tris surfs i) /\
    (forall i, ~ held tris surfs i -> nth i xd 0 = 0) /\
    (forall t i v, In t tris -> In i (tri_nodes t) -> SettingsModel.s_V (surf_of surfs t) = Fin v -> nth i xd 0 = v).
Proof.
  intros n p edges tets tris vols surfs ld vd HC Hck HD.
  destruct (C69_potential n surfs tris ld vd (cd_tris _ _ _ _ _ _ _ HC) HD) as (_ & H2 & H3 & H4 & H5).
  apply C68_electrostatic in Hck. destruct Hck as [_ (s1 & s & s2 & Es & Fs & Us)].
  assert (NV : forall t, In t tris -> SettingsModel.s_V (surf_of surfs t) <> NaN -> surf_of surfs t = s).
  { intros t Ht Hv. destruct (cd_V _ _ _ _ _ _ _ HC t Ht) as [K|K]; [contradiction|].
    assert (I : In (surf_of surfs t) surfs) by (apply nth_In; apply (cd_regions _ _ _ _ _ _ _ HC t Ht)).
    set (u := surf_of surfs t) in *. clearbody u. rewrite Es in I. apply in_app_iff in I. destruct I as [I|[I|I]]; auto.
    - exfalso. apply (Us _ (in_or_app s1 s2 _ (or_introl I)) K).
    - exfalso. apply (Us _ (in_or_app s1 s2 _ (or_intror I)) K). }
  assert (HV : forall t i v, In t tris -> In i (tri_nodes t) -> SettingsModel.s_V (surf_of surfs t) = Fin v -> nth i vd (Fin 0) = Fin v).
  { intros t i v Ht Hi Hv.
    destruct (last_with (fun t => In i (tri_nodes t) /\ SettingsModel.s_V (surf_of surfs t) <> NaN) tris) as (l1 & t' & l2 & E & [P1 P2] & N).
    - intros x. destruct (in_dec Nat.eq_dec i (tri_nodes x)); [|right; tauto].
      destruct (SettingsModel.s_V (surf_of surfs x)); [left|left|left|right]; try (split; [auto|discriminate]). intros [_ Q]. apply Q. reflexivity.
    - exists t. split; auto. split; auto. rewrite Hv. discriminate.
    - rewrite (H5 l1 t' l2 i E P1 P2).
      + assert (Ht' : In t' tris) by (rewrite E; apply in_app_iff; right; left; reflexivity).
        rewrite (NV t' Ht' P2). rewrite <- (NV t Ht ltac:(rewrite Hv; discriminate)). exact Hv.
      + intros t2 I2 Hi2. destruct (SettingsModel.s_V (surf_of surfs t2)) eqn:E2; auto; exfalso; apply (N t2 I2); split; auto; rewrite E2; discriminate. }
  assert (HF : forall i, (exists t, In t tris /\ In i (tri_nodes t) /\ SettingsModel.s_V (surf_of surfs t) <> NaN) <-> held tris surfs i).
  { intros i. split.
    - intros (t & Ht & Hi & Hv). destruct (cd_V _ _ _ _ _ _ _ HC t Ht) as [K|[v K]]; [contradiction|]. exists t, v. auto.
    - intros (t & v & Ht & Hi & Hv). exists t. split; auto. split; auto. rewrite Hv. discriminate. }
  set (f := fun i => real (nth i vd (Fin 0))).
  assert (Hf : forall i, nth i vd (Fin 0) = Fin (f i)).
  { intros i. unfold f.
    assert (Dh : (exists t, In t tris /\ In i (tri_nodes t) /\ SettingsModel.s_V (surf_of surfs t) <> NaN) \/
                ~ (exists t, In t tris /\ In i (tri_nodes t) /\ SettingsModel.s_V (surf_of surfs t) <> NaN)).
    { rewrite <- H2. destruct (in_dec Nat.eq_dec i ld); auto. }
    destruct Dh as [Dh|Dh].
    - apply HF in Dh. destruct Dh as (t & v & Ht & Hi & Hv). rewrite (HV t i v Ht Hi Hv). reflexivity.
    - rewrite (H4 i Dh). reflexivity. }
  assert (Hl : forall i, nth i (map f (seq 0 n)) 0 = if (i <? n)%nat then f i else 0).
  { intros i. destruct (i <? n)%nat eqn:L.
    - apply Nat.ltb_lt in L. rewrite (nth_indep _ 0 (f 0%nat)) by (rewrite map_length, seq_length; exact L).
      rewrite map_nth, seq_nth by exact L. reflexivity.
    - apply Nat.ltb_ge in L. apply nth_overflow. rewrite map_length, seq_length. exact L. }
  exists (map f (seq 0 n)). split; [|split; [|split; [|split]]].
  - apply isv_vF_inv. split; auto. intros i Hi. rewrite (nth_indep _ n0 (Fin 0 : num XA)) by lia. apply Hf.
  - rewrite map_length, seq_length. reflexivity.
  - intros i. rewrite H2. apply HF.
  - intros i Hi. rewrite Hl. destruct (i <? n)%nat; auto. unfold f. rewrite (H4 i); auto. rewrite HF. exact Hi.
  - intros t i v Ht Hi Hv. rewrite Hl. pose proof (cd_tris _ _ _ _ _ _ _ HC t i Ht Hi) as L. apply Nat.ltb_lt in L. rewrite L.
    unfold f. rewrite (HV t i v Ht Hi Hv). reflexivity.
Qed.

(** the system that the solver receives *)
Lemma elec_ready : forall n p edges tets tris vols surfs,
  conductor n p edges tets tris vols surfs -> elec_check surfs = true -> (0 < n)%nat ->
  exists K L xd ld,
    (forall passes it, elec_solve passes it (new_matrix (build_shape 1 n edges (fun _ => true))) n
       (map (fun t => lift (elec_tet p vols t)) tets) (map (fun t => lift (elec_tri p surfs t)) tris) (elec_dirichlet n surfs tris) =
       IterProps.solve CgDir passes (reset it) K (repeat n0 n) (vF L) (vF xd) ld) /\
    square_matrix K n (total 1 (map (elec_tet p vols) tets)) ld /\ (forall i r, nth_error K i = Some r -> In i (indices r)) /\
    length L = n /\ (forall r, (r < n)%nat -> nth r L 0 = loads 1 (map (elec_tri p surfs) tris) r) /\
    length xd = n /\ (forall i, In i ld <-> held tris surfs i) /\
    (forall i, ~ held tris surfs i -> nth i xd 0 = 0) /\
    (forall t i v, In t tris -> In i (tri_nodes t) -> SettingsModel.s_V (surf_of surfs t) = Fin v -> nth i xd 0 = v).
Proof.
  intros n p edges tets tris vols surfs HC Hck Hn.
  destruct (elec_dirichlet n surfs tris) as [ld vd] eqn:HD.
  destruct (held_values n p edges tets tris vols surfs ld vd HC Hck HD) as (xd & -> & Lx & Hld & Hz & Hv).
  set (els := map (elec_tet p vols) tets) in *. set (bnd := map (elec_tri p surfs) tris) in *.
  pose proof (elec_system n p edges tets tris vols surfs HC) as HS. fold els in HS.
  destruct (fresh_ok 1 n edges (edges_bound n p edges tets tris vols surfs HC)) as [F1 F2].
  destruct (build_ok 1 n edges els _ (fun _ _ => 0) ltac:(lia) HS F1 F2) as (K & EK & K1 & K2).
  destruct (loads_ok 1 n bnd (repeat 0 (1 * n)) ltac:(lia)) as (L & EL & LL & HL).
  { apply (bnd_nodes n p edges tets tris vols surfs HC). } { apply repeat_length. }
  assert (K3 : forall r c, (r < 1 * n)%nat -> mget K r c = Some (Fin (total 1 els r c) : num XA)).
  { intros r c Hr. rewrite K2 by lia. rewrite Rplus_0_l. reflexivity. }
  destruct (square_ok 1 n edges K (total 1 els) ld ltac:(lia) (edges_bound n p edges tets tris vols surfs HC) K1 K3) as [SQ SD].
  { intros r Hr _. apply (diagonal_pos n p edges tets tris vols surfs HC). lia. }
  rewrite Nat.mul_1_l in SQ, LL.
  exists K, L, xd, ld. split; [|split; [|split; [|split; [|split; [|split; [|split; [|split]]]]]]]; auto.
  - intros passes it. unfold elec_solve. cbn [fst snd].
    rewrite <- (map_map (elec_tet p vols) lift), <- (map_map (elec_tri p surfs) lift). change (@lift) with (xelem). fold els bnd. rewrite EK.
    rewrite <- (vF_repeat (1 * n)), EL. reflexivity.
  - intros r Hr. rewrite HL by lia. rewrite nth_repeat. ring.
Qed.

(** When the solver answers that it has converged: the potential of the held nodes is exactly the one of the settings; the
    currents are balanced at the other nodes, relatively to what they are for the starting potential (the given values on
    the held nodes and zero elsewhere); and the current that enters through the held nodes is the one that is injected. *)
Theorem C87_potential : forall passes (it it' : iteration XA) n p edges tets tris vols surfs tol X,
  conductor n p edges tets tris vols surfs -> elec_check surfs = true ->
  (0 < n)%nat -> resmax it = (Fin tol : num XA) -> 0 <= tol ->
  elec_solve passes it (new_matrix (build_shape 1 n edges (fun _ => true))) n
    (map (fun t => lift (elec_tet p vols t)) tets) (map (fun t => lift (elec_tri p surfs t)) tris) (elec_dirichlet n surfs tris) = Some (it', X) ->
  status it' = CONVERGED ->
  exists y start : list R, X = vF y /\ length y = n /\
    (forall t i v, In t tris -> In i (tri_nodes t) -> SettingsModel.s_V (surf_of surfs t) = Fin v ->
       nth i y 0 = v /\ nth i start 0 = v) /\
    (forall i, ~ held tris surfs i -> nth i start 0 = 0) /\
    forall B, 0 <= B ->
      (forall w, vanishes tris surfs w -> Rabs (imbalance p tets tris vols surfs (fun i => nth i start 0) w) <= B * nodal_norm n w) ->
      (forall w, vanishes tris surfs w -> Rabs (imbalance p tets tris vols surfs (fun i => nth i y 0) w) <= tol * B * nodal_norm n w) /\
      (forall h, (forall i, held tris surfs i -> h i = 1) ->
         Rabs (imbalance p tets tris vols surfs (fun i => nth i y 0) h - lsum (map (fun t => jn_of surfs t * tri_area p t) tris)) <=
         tol * B * nodal_norm n (fun i => 1 - h i)).
Proof.
  intros passes it it' n p edges tets tris vols surfs tol X HC Hck Hn Ht Htol Hrun Hst.
  destruct (elec_ready n p edges tets tris vols surfs HC Hck Hn) as (K & L & xd & ld & ES & SQ & SD & LL & HL' & Lx & Hld & Hz & Hv).
  rewrite ES in Hrun. set (els := map (elec_tet p vols) tets) in *.
  destruct (dir_solved CgDir passes (reset it) it' K n (total 1 els) L xd ld tol X (or_introl eq_refl) SQ SD Hn LL Lx Ht Hrun Hst) as (y & Ey & Ly & Yd & Yr).
  exists y, xd. split; auto. split; auto. split; [|split]; auto.
  { intros t i v H1 H2 H3. split; [|eapply Hv; eauto]. rewrite Yd.
    - eapply Hv; eauto.
    - apply Hld. exists t, v. auto.
    - eapply (cd_tris _ _ _ _ _ _ _ HC); eauto. }
  intros B HB HBw.
  assert (RB : residual n (total 1 els) ld L xd <= B).
  { apply residual_best; auto. intros w Hw.
    pose proof (imbalance_rows n p edges tets tris vols surfs HC (fun i => nth i xd 0) w (fun r => nth r L 0) HL') as E. fold els in E. cbv beta in E.
    rewrite <- E. apply HBw. intros i Hi. apply Hw. apply Hld. exact Hi. }
  assert (W : forall w, vanishes tris surfs w -> Rabs (imbalance p tets tris vols surfs (fun i => nth i y 0) w) <= tol * B * nodal_norm n w).
  { intros w Hw.
    rewrite (imbalance_rows n p edges tets tris vols surfs HC (fun i => nth i y 0) w (fun r => nth r L 0) HL'). fold els.
    eapply Rle_trans. { apply (residual_tested n (total 1 els) ld L y w). intros r Hr. apply Hw. apply Hld. exact Hr. }
    apply Rmult_le_compat_r. { apply sqrt_pos. } eapply Rle_trans; [exact Yr|]. apply Rmult_le_compat_l; auto. }
  split; auto.
  intros h Hh.
  assert (E1 : imbalance p tets tris vols surfs (fun i => nth i y 0) (fun _ => 1) = lsum (map (fun t => jn_of surfs t * tri_area p t) tris)).
  { unfold imbalance, conduction, injected. rewrite lsum_zero.
    - rewrite Rplus_0_l. apply lsum_map_ext. intros t _. unfold tri_mean, tri_nodes. cbn [map lsum]. field.
    - intros t _. unfold grad_on at 2. rewrite (gradV_const (corner p t) (corner (fun _ => 1) t) 1) by auto. vsimpl. ring. }
  set (I := imbalance p tets tris vols surfs (fun i => nth i y 0)) in *.
  assert (E2 : I (fun _ => 1) = I h + I (fun i => 1 - h i)).
  { unfold I. rewrite !(imbalance_rows n p edges tets tris vols surfs HC (fun i => nth i y 0) _ (fun r => nth r L 0) HL'), <- sumn_plus.
    apply sumn_ext. intros r _. ring. }
  rewrite <- E1, E2. replace (I h - (I h + I (fun i => 1 - h i))) with (- I (fun i => 1 - h i)) by ring. rewrite Rabs_Ropp.
  apply W. intros i Hi. rewrite (Hh i Hi). ring.
Qed.

(** ** existence and uniqueness of the exact potential *)
(** two nodes of one tetrahedron *)
Definition together (tets : list tet) (i j : nat) : Prop := exists t, In t tets /\ In i (tet_nodes t) /\ In j (tet_nodes t).
(** the mesh is in one piece *)
Definition in_one_piece (n : nat) (tets : list tet) : Prop := forall i j, (i < n)%nat -> (j < n)%nat -> clos_refl_trans nat (together tets) i j.

Lemma elec_positive : forall n p edges tets tris vols surfs ld, conductor n p edges tets tris vols surfs -> in_one_piece n tets ->
  (exists i, held tris surfs i) -> (forall i, In i ld <-> held tris surfs i) ->
  symmetric_positive n (total 1 (map (elec_tet p vols) tets)) ld.
Proof.
  intros n p edges tets tris vols surfs ld HC Hone (h & Hh) Hld.
  pose proof (assembled_conduction n p edges tets tris vols surfs HC) as AC. set (els := map (elec_tet p vols) tets) in *.
  assert (Sym : forall x w, conduction p (sigma_of vols) tets x w = conduction p (sigma_of vols) tets w x).
  { intros x w. unfold conduction. apply lsum_map_ext. intros t _. rewrite (dot_comm (grad_on p x t)). reflexivity. }
  constructor.
  - intros i j Hi Hj. set (e := fun i k => if (k =? i)%nat then 1 else 0).
    assert (E : forall r c, (r < n)%nat -> (c < n)%nat -> sumn n (fun r' => e r r' * sumn n (fun c' => total 1 els r' c' * e c c')) = total 1 els r c).
    { intros r c Hr Hc. rewrite (sumn_ext n _ (fun r' => if (r' =? r)%nat then total 1 els r' c else 0)). { apply (sumn_delta n r (fun r' => total 1 els r' c)). exact Hr. }
      intros r' _. unfold e at 1. destruct (r' =? r)%nat; [|ring].
      rewrite (sumn_ext n _ (fun c' => if (c' =? c)%nat then total 1 els r' c' else 0)). { rewrite sumn_delta by exact Hc. ring. }
      intros c' _. unfold e. destruct (c' =? c)%nat; ring. }
    rewrite <- (E i j Hi Hj), <- (E j i Hj Hi), !AC. apply Sym.
  - intros z Hz (i & Hi & Hne). rewrite AC.
    assert (NN : 0 <= conduction p (sigma_of vols) tets z z).
    { apply lsum_nonneg. intros t Ht. pose proof (sigma_pos n p edges tets tris vols surfs HC t Ht). pose proof (vol_pos n p edges tets tris vols surfs HC t Ht).
      apply Rmult_le_pos; [apply Rmult_le_pos; lra|apply dot_self_nonneg]. }
    destruct (Req_dec (conduction p (sigma_of vols) tets z z) 0) as [E|E]; [|lra]. exfalso.
    pose proof (conduction_zero n p edges tets tris vols surfs HC z E) as Cst.
    assert (R : forall i j, clos_refl_trans nat (together tets) i j -> z i = z j).
    { intros i' j' H. induction H as [a b (t & H1 & H2 & H3)| |a b c _ I1 _ I2]; [eapply Cst; eauto|reflexivity|congruence]. }
    assert (Hhn : (h < n)%nat). { destruct Hh as (t & v & H1 & H2 & _). eapply (cd_tris _ _ _ _ _ _ _ HC); eauto. }
    apply Hne. rewrite (R i h (Hone i h Hi Hhn)). apply Hz. apply Hld. exact Hh.
Qed.

(** With real numbers the potential of a mesh in one piece with a held node is found: the solver answers that it has
    converged, whatever the tolerance, as soon as it is given as many iterations as there are nodes. *)
Theorem C87_solved : forall passes (it : iteration XA) n p edges tets tris vols surfs tol,
  conductor n p edges tets tris vols surfs -> elec_check surfs = true -> in_one_piece n tets -> (exists i, held tris surfs i) ->
  resmax it = (Fin tol : num XA) -> 0 <= tol -> (Z.of_nat n <= maxiter it)%Z -> (n < passes)%nat ->
  exists it' X,
    elec_solve passes it (new_matrix (build_shape 1 n edges (fun _ => true))) n
      (map (fun t => lift (elec_tet p vols t)) tets) (map (fun t => lift (elec_tri p surfs t)) tris) (elec_dirichlet n surfs tris) = Some (it', X) /\
    status it' = CONVERGED.
Proof.
  intros passes it n p edges tets tris vols surfs tol HC Hck Hone Hh Ht Htol Hmax Hf.
  assert (Hn : (0 < n)%nat). { destruct Hh as (i & t & v & H1 & H2 & _). pose proof (cd_tris _ _ _ _ _ _ _ HC t i H1 H2). lia. }
  destruct (elec_ready n p edges tets tris vols surfs HC Hck Hn) as (K & L & xd & ld & ES & SQ & SD & LL & HL' & Lx & Hld & Hz & Hv).
  assert (U : (unknowns n ld <= n)%nat). { unfold unknowns. rewrite <- (seq_length n 0) at 2. generalize (seq 0 n). induction l as [|c l IHl]; cbn [filter length]; [lia|]. destruct (in_dec Nat.eq_dec c ld); cbn [length]; lia. }
  destruct (C89_gradients_converge CgDir passes (reset it) K n (total 1 (map (elec_tet p vols) tets)) (repeat 0 n) L xd ld tol) as (it' & y & E & St & _);
    auto; try apply repeat_length.
  - apply (elec_positive n p edges tets tris vols surfs ld HC Hone Hh Hld).
  - cbn [imposed maxiter reset]. lia.
  - cbn [imposed]. lia.
  - exists it', (vF y). rewrite ES, <- vF_repeat. auto.
Qed.

(** the exact potential exists and is unique: there is one potential with the given values on the held nodes that balances
    the currents at all other nodes *)
Theorem C87_unique : forall n p edges tets tris vols surfs (given : nat -> R),
  conductor n p edges tets tris vols surfs -> in_one_piece n tets -> (exists i, held tris surfs i) ->
  let solution x := (forall i, held tris surfs i -> x i = given i) /\ (forall w, vanishes tris surfs w -> imbalance p tets tris vols surfs x w = 0) in
  (exists x, solution x) /\ (forall x y, solution x -> solution y -> forall i, (i < n)%nat -> x i = y i).
Proof.
  intros n p edges tets tris vols surfs given HC Hone Hh solution.
  set (ld := flat_map (fun t => match SettingsModel.s_V (surf_of surfs t) with Fin _ => tri_nodes t | _ => [] end) tris).
  assert (Hld : forall i, In i ld <-> held tris surfs i).
  { intros i. unfold ld. rewrite in_flat_map. split.
    - intros (t & Ht & Hi). destruct (SettingsModel.s_V (surf_of surfs t)) as [v| | |] eqn:E; [exists t, v; auto|destruct Hi|destruct Hi|destruct Hi].
    - intros (t & v & Ht & Hi & E). exists t. rewrite E. auto. }
  pose proof (elec_positive n p edges tets tris vols surfs ld HC Hone Hh Hld) as [_ Hpos]. set (els := map (elec_tet p vols) tets) in *.
  set (b := loads 1 (map (elec_tri p surfs) tris)).
  pose proof (fun x w => imbalance_rows n p edges tets tris vols surfs HC x w b (fun r _ => eq_refl)) as IR. fold els in IR.
  assert (Hinj : forall z, constrained n (total 1 els) ld (fun _ => 0) (fun _ => 0) z -> forall r, (r < n)%nat -> z r = 0).
  { intros z Hz. destruct (nz_dec n (fun r => if masked ld r then 0 else z r)) as [(i & Hi & Hne)|Z].
    - exfalso. set (z' := fun r => if masked ld r then 0 else z r) in *.
      assert (E : forall r, (r < n)%nat -> z' r = z r). { intros r Hr. unfold z'. specialize (Hz r Hr). destruct (masked ld r); auto. }
      assert (P : 0 < sumn n (fun r => z' r * sumn n (fun c => total 1 els r c * z' c))).
      { apply Hpos; [|exists i; auto]. intros r Hr. unfold z'. apply masked_in in Hr. rewrite Hr. reflexivity. }
      rewrite sumn_zero in P; [lra|]. intros r Hr. rewrite (sumn_ext n _ (fun c => total 1 els r c * z c)) by (intros; rewrite E by auto; reflexivity).
      specialize (Hz r Hr). unfold z'. destruct (masked ld r); [ring|]. rewrite Hz. ring.
    - intros r Hr. specialize (Z r Hr). cbv beta in Z. specialize (Hz r Hr). destruct (masked ld r); auto. }
  assert (Eq : forall x, solution x <-> (forall i, held tris surfs i -> x i = given i) /\ constrained n (total 1 els) ld b given x).
  { intros x. unfold solution. split; intros [H1 H2]; split; auto.
    - intros r Hr. destruct (masked ld r) eqn:M. { apply H1. apply Hld. apply masked_in. exact M. }
      set (e := fun k => if (k =? r)%nat then 1 else 0). assert (V : vanishes tris surfs e).
      { intros k Hk. apply Hld, masked_in in Hk. unfold e. destruct (k =? r)%nat eqn:Ek; auto. apply Nat.eqb_eq in Ek. congruence. }
      specialize (H2 e V). rewrite IR in H2.
      rewrite (sumn_ext n _ (fun k => if (k =? r)%nat then sumn n (fun c => total 1 els k c * x c) - b k else 0)) in H2.
      2: { intros k _. unfold e. destruct (k =? r)%nat; ring. }
      rewrite sumn_delta in H2 by exact Hr. lra.
    - intros w Hw. rewrite IR. apply sumn_zero. intros r Hr. specialize (H2 r Hr). destruct (masked ld r) eqn:M.
      + rewrite (Hw r); [ring|]. apply Hld, masked_in. exact M.
      + rewrite H2. ring. }
  split.
  - destruct (constrained_exists n (total 1 els) ld Hinj b given) as [x Hx]. exists x. apply Eq. split; auto.
    intros i Hi. assert (L : (i < n)%nat). { destruct Hi as (t & v & H1 & H2 & _). eapply (cd_tris _ _ _ _ _ _ _ HC); eauto. }
    specialize (Hx i L). apply Hld, masked_in in Hi. rewrite Hi in Hx. exact Hx.
  - intros x y Hx Hy. apply Eq in Hx. apply Eq in Hy. apply (constrained_unique n (total 1 els) ld Hinj b given); tauto.
Qed.

(** ** Non-vacuity: the unit tetrahedron, the potential 2 on the nodes 0, 1, 2, the current density 1 on the face 0, 1, 3 *)
Definition nan3 : num XA * num XA * num XA := (NaN : num XA, NaN : num XA, NaN : num XA).
Definition ex_surfs : list (surf_prm XA) :=
  [SettingsModel.mkTri (txt "__default__") false (Fin 0 : num XA) nan3 (NaN : num XA) (NaN : num XA) nan3 nan3;
   SettingsModel.mkTri (txt "in") false (Fin 0 : num XA) nan3 (NaN : num XA) (Fin 1 : num XA) nan3 nan3;
   SettingsModel.mkTri (txt "out") false (Fin 0 : num XA) nan3 (Fin 2 : num XA) (NaN : num XA) nan3 nan3].
Definition ex_vol : vol_prm XA :=
  SettingsModel.mkTetra (txt "metal") (Fin 0 : num XA) (Fin 0 : num XA) (Fin 0 : num XA) (Fin 0 : num XA) nan3 (Fin 0 : num XA) nan3 nan3 nan3 (Fin 0 : num XA) (Fin 0 : num XA) (Fin 6 : num XA) (Fin 0 : num XA) (Fin 0 : num XA).
Definition ex_edges : list edge := [(0, 1); (0, 2); (0, 3); (1, 2); (1, 3); (2, 3)]%nat.
Definition ex_tets : list tet := [mkTet 0 1 2 3 0].
Definition ex_tris : list tri := [mkTri 0 2 1 2; mkTri 0 1 3 1].

Lemma ex_check : elec_check ex_surfs = true.
Proof.
  apply C68_electrostatic. split.
  - eexists [_]. eexists. eexists. split; [reflexivity|]. split; [exists 1; reflexivity|].
    intros y [<-|[<-|[]]] [r H]; discriminate H.
  - eexists [_; _]. eexists. eexists. split; [reflexivity|]. split; [exists 2; reflexivity|].
    intros y [<-|[<-|[]]] [r H]; discriminate H.
Qed.

Lemma ex_conductor : conductor 4 ref_tet ex_edges ex_tets ex_tris [ex_vol] ex_surfs.
Proof.
  constructor.
  - eexists. split.
    + apply (isort_ok edge_ltb).
      * intros a b H. apply not_true_is_false. rewrite edge_ltb_iff in *. unfold edge_lt in *. lia.
      * intros a b c H K. apply not_true_is_false. apply not_true_iff_false in H, K. rewrite edge_ltb_iff in *. unfold edge_lt in *. lia.
    + reflexivity.
  - intros t [<-|[]]. unfold tet_nodes. cbn [t0 t1 t2 t3]. repeat constructor; cbn [In]; intuition discriminate.
  - intros t i [<-|[]] Hi. cbn in Hi. lia.
  - intros t i [<-|[<-|[]]] Hi; cbn in Hi; lia.
  - intros t [<-|[<-|[]]]; cbn; lia.
  - intros t [<-|[]]. rewrite detJ_mixed. unfold mixed_prod, edge1, edge2, edge3, corner, ref_tet. vsimpl. cbn. lra.
  - intros t [<-|[]]. exists 6. split; [reflexivity|lra].
  - intros t [<-|[<-|[]]]; cbn; [right; exists 2; reflexivity|left; reflexivity].
  - intros i Hi. exists (mkTet 0 1 2 3 0). split; [left; reflexivity|]. cbn. lia.
Qed.

Lemma ex_one_piece : in_one_piece 4 ex_tets.
Proof. intros i j Hi Hj. apply rt_step. exists (mkTet 0 1 2 3 0). split; [left; reflexivity|]. split; cbn; lia. Qed.

Example C87_nonvacuous : exists it' X,
  elec_solve 5 (new_iter (Fin (1 / 1000) : num XA) false 4) (new_matrix (build_shape 1 4 ex_edges (fun _ => true))) 4
    (map (fun t => lift (elec_tet ref_tet [ex_vol] t)) ex_tets) (map (fun t => lift (elec_tri ref_tet ex_surfs t)) ex_tris) (elec_dirichlet 4 ex_surfs ex_tris) = Some (it', X) /\
  status it' = CONVERGED /\ jn_of ex_surfs (mkTri 0 1 3 1) * tri_area ref_tet (mkTri 0 1 3 1) = 1 / 2.
Proof.
  destruct (C87_solved 5 (new_iter (Fin (1 / 1000) : num XA) false 4) 4 ref_tet ex_edges ex_tets ex_tris [ex_vol] ex_surfs (1 / 1000)) as (it' & X & E & S).
  - apply ex_conductor. - apply ex_check. - apply ex_one_piece.
  - exists 0%nat, (mkTri 0 2 1 2), 2. split; [left; reflexivity|]. split; [left; reflexivity|reflexivity].
  - reflexivity. - lra. - cbn. lia. - lia.
  - exists it', X. split; auto. split; auto. change (jn_of ex_surfs (mkTri 0 1 3 1)) with 1.
    assert (A : tri_area ref_tet (mkTri 0 1 3 1) = 1 / 2); [|rewrite A; lra].
    unfold tri_area, calc_surf. assert (N : vnorm (normal_vect (corner3 ref_tet (mkTri 0 1 3 1))) = 1); [|rewrite N; lra].
    apply vnorm_1. unfold normal_vect, corner3, tri_nodes, ref_tet. vsimpl. cbn. ring.
Qed.

(** Finding: the check counts the finite values; a second surface with an infinite potential passes, and that value is given
    to the solver *)
Theorem C87_infinite_potential_refuted : exists (surfs : list (surf_prm XA)) (tris : list tri) (t : tri) ld vd,
  elec_check surfs = true /\ In t tris /\ (forall i, In i (tri_nodes t) -> (i < 3)%nat) /\
  elec_dirichlet 3 surfs tris = (ld, vd) /\ forall i, In i (tri_nodes t) -> In i ld /\ nth i vd (Fin 0) = PInf.
Proof.
  set (surfs := ex_surfs ++ [SettingsModel.mkTri (txt "far") false (Fin 0 : num XA) nan3 (PInf : num XA) (NaN : num XA) nan3 nan3]).
  destruct (elec_dirichlet 3 surfs [mkTri 0 1 2 3]) as [ld vd] eqn:E.
  exists surfs, [mkTri 0 1 2 3], (mkTri 0 1 2 3), ld, vd.
  assert (B : forall t i, In t [mkTri 0 1 2 3] -> In i (tri_nodes t) -> (i < 3)%nat). { intros t i [<-|[]] Hi. cbn in Hi. lia. }
  destruct (C69_potential 3 surfs [mkTri 0 1 2 3] ld vd B E) as (_ & H2 & _ & _ & H5).
  split; [|split; [left; reflexivity|split; [|split; [exact E|]]]].
  - apply C68_electrostatic. split.
    + eexists [_]. eexists. eexists. split; [reflexivity|]. split; [exists 1; reflexivity|].
      intros y [<-|[<-|[<-|[]]]] [r H]; discriminate H.
    + eexists [_; _]. eexists. eexists. split; [reflexivity|]. split; [exists 2; reflexivity|].
      intros y [<-|[<-|[<-|[]]]] [r H]; discriminate H.
  - intros i Hi. eapply B; [left; reflexivity|exact Hi].
  - intros i Hi. split.
    + apply H2. exists (mkTri 0 1 2 3). split; [left; reflexivity|]. split; auto. cbn. discriminate.
    + rewrite (H5 [] (mkTri 0 1 2 3) [] i); auto; cbn; [discriminate|]. intros t' [].
Qed.

Print Assumptions C70_symmetric.
Print Assumptions C70_rows_sum_to_zero.
Print Assumptions C70_power.
Print Assumptions C70_positive.
Print Assumptions C70_null_iff_constant.
Print Assumptions C87_potential.
Print Assumptions C87_solved.
Print Assumptions C87_unique.
Print Assumptions C87_infinite_potential_refuted.
