(** * Property C114: a time step does not depend on the numbering of the nodes nor on the order of the elements *)
From Coq Require Import List ZArith Arith Bool Lia Reals Lra Permutation FunctionalExtensionality.
From Flocq Require Import Core.
From Verif Require Import Arith ArithLaws Vec Sums LinAlg SparseModel SparseProof ConcModel ConcProof SparseProps
  IterModel IterProof Ieee IterMask IterExact IterProps StdModel MeshModel MeshProof MeshProps ElemModel ElemProof AvgModel ElemProps
  AsmModel AsmProof AsmProps LlgProps WeakProps NodeModel NodeProps CgProof DissipProps TransportModel EnergyModel EnergyProps DemagModel DemagProof DemagProps RotProps.
Import ListNotations.
Local Open Scope R_scope.

(** ** Specification vocabulary *)
(** the n nodes of a mesh get new numbers: node i becomes node sg i *)
Definition renumbering (n : nat) (sg : nat -> nat) : Prop :=
  (forall i, (i < n)%nat -> (sg i < n)%nat) /\ (forall i j, (i < n)%nat -> (j < n)%nat -> sg i = sg j -> i = j).
(** a quantity known at the nodes is the same in both numberings *)
Definition same_at {X} (n : nat) (sg : nat -> nat) (f f' : nat -> X) : Prop := forall i, (i < n)%nat -> f' (sg i) = f i.
(** the same tetrahedron in both meshes: its four nodes, in any order, and its material; the same triangle *)
Definition same_tet (sg : nat -> nat) (m m' : tet * tprm) : Prop := Permutation (map sg (tet_nodes (fst m))) (tet_nodes (fst m')) /\ snd m' = snd m.
Definition same_surf (sg : nat -> nat) (s s' : surf) : Prop :=
  Permutation (map sg (tri_nodes (sf_tri s))) (tri_nodes (sf_tri s')) /\ sf_Ks s' = sf_Ks s /\ sf_dMs s' = sf_dMs s /\ sf_uk s' = sf_uk s.
(** the same elements, in any order *)
Definition same_list {X} (same : X -> X -> Prop) (l l' : list X) : Prop := exists m, Forall2 same l m /\ Permutation m l'.
(** point j of a tetrahedron and point j' of the same tetrahedron in the other mesh are at the same place: they have the same
    coordinates with respect to the four nodes *)
Definition same_place (sg : nat -> nat) (t t' : tet) (j j' : nat) : Prop := (j < 5)%nat /\ (j' < 5)%nat /\
  forall k k', (k < 4)%nat -> (k' < 4)%nat -> nth k' (tet_nodes t') 0%nat = sg (nth k (tet_nodes t) 0%nat) -> sh k' j' = sh k j.
(** a field known at the points of the tetrahedra is the same in both meshes *)
Definition same_field (n : nat) (sg : nat -> nat) (H H' : tet -> nat -> vec) : Prop :=
  forall t t' j j', (forall a, In a (tet_nodes t) -> (a < n)%nat) -> Permutation (map sg (tet_nodes t)) (tet_nodes t') -> same_place sg t t' j j' -> H' t' j' = H t j.

(** ** Sums over permuted indices *)
Definition shuffle (n : nat) (f : nat -> nat) : Prop := (forall i, (i < n)%nat -> (f i < n)%nat) /\ (forall i j, (i < n)%nat -> (j < n)%nat -> f i = f j -> i = j).

Lemma shuffle_seq : forall n f, shuffle n f -> Permutation (map f (seq 0 n)) (seq 0 n).
Proof.
  intros n f [B I]. apply NoDup_Permutation_bis.
  - assert (G : forall l, NoDup l -> (forall x, In x l -> (x < n)%nat) -> NoDup (map f l)).
    { induction l as [|x l IH]; intros N L; cbn [map]; constructor; inversion N; subst.
      - intros C. apply in_map_iff in C. destruct C as (y & E & Hy). apply I in E; [subst; contradiction|apply L; right; exact Hy|apply L; left; reflexivity].
      - apply IH; [assumption|]. intros; apply L; right; assumption. }
    apply G; [apply seq_NoDup|]. intros x Hx. apply in_seq in Hx. lia.
  - rewrite map_length. lia.
  - intros x Hx. apply in_map_iff in Hx. destruct Hx as (y & <- & Hy). apply in_seq in Hy. apply in_seq. specialize (B y). lia.
Qed.

Lemma shuffle_onto : forall n f k, shuffle n f -> (k < n)%nat -> exists i, (i < n)%nat /\ f i = k.
Proof.
  intros n f k S Hk. assert (X : In k (map f (seq 0 n))). { apply (Permutation_in _ (Permutation_sym (shuffle_seq n f S))). apply in_seq. lia. }
  apply in_map_iff in X. destruct X as (i & E & Hi). apply in_seq in Hi. exists i. split; [lia|exact E].
Qed.

Lemma sumn_shuffle : forall n f (g : nat -> R), shuffle n f -> sumn n (fun i => g (f i)) = sumn n g.
Proof.
  intros n f g S. rewrite !sumn_lsum. rewrite <- (map_map f g). apply lsum_perm. apply Permutation_map. apply shuffle_seq. exact S.
Qed.
Lemma vsumn_shuffle : forall n f (g : nat -> vec), shuffle n f -> vsumn n (fun i => g (f i)) = vsumn n g.
Proof.
  intros n f g S. unfold vsumn. f_equal.
  - exact (sumn_shuffle n f (fun i => vx (g i)) S).
  - exact (sumn_shuffle n f (fun i => vy (g i)) S).
  - exact (sumn_shuffle n f (fun i => vz (g i)) S).
Qed.

Lemma vlsum_perm : forall l l', Permutation l l' -> vlsum l = vlsum l'.
Proof. induction 1; cbn [vlsum fold_right] in *; unfold vlsum in *; cbn [fold_right] in *; try congruence; try (rewrite ?IHPermutation; reflexivity). generalize (fold_right vadd vzero l). intros z. vring. Qed.

(** the corners of the same tetrahedron in both meshes *)
Lemma perm_corners : forall (sg : nat -> nat) l l', Permutation (map sg l) l' ->
  exists pm, shuffle (length l) pm /\ length l' = length l /\ forall k, (k < length l)%nat -> nth k l' 0%nat = sg (nth (pm k) l 0%nat).
Proof.
  intros sg l l' P. destruct (proj1 (Permutation_nth (map sg l) l' (sg 0%nat)) P) as (L & f & B & I & E). rewrite map_length in *.
  exists f. split; [split; assumption|]. split; [exact L|]. intros k Hk. rewrite (nth_indep l' 0%nat (sg 0%nat)) by lia. rewrite E by exact Hk. apply map_nth.
Qed.

(** ** The points of integration of a tetrahedron whose nodes are given in another order *)
Definition node_at (j : nat) : nat := ((5 - j) mod 4)%nat.
Definition point_at (k : nat) : nat := match k with O => 1 | S O => 4 | S (S O) => 3 | _ => 2 end%nat.
Definition points (pm : nat -> nat) (j : nat) : nat := match j with O => 0%nat | _ => point_at (pm (node_at j)) end.

Lemma sh_spec : forall k j, (k < 4)%nat -> (j < 5)%nat -> sh k j = match j with O => 1 / 4 | _ => if (node_at j =? k)%nat then 1 / 2 else 1 / 6 end.
Proof.
  intros k j Hk Hj. destruct j as [|[|[|[|[|j]]]]]; [| | | | |lia]; destruct k as [|[|[|[|k]]]]; try lia;
  unfold sh, gu, gv, gw, node_at; cbn [nth Nat.sub Nat.modulo Nat.divmod Nat.eqb fst snd]; lra.
Qed.
Lemma node_point : forall k, (k < 4)%nat -> node_at (point_at k) = k.
Proof. intros k Hk. destruct k as [|[|[|[|k]]]]; try lia; reflexivity. Qed.
Lemma point_node : forall j, (0 < j < 5)%nat -> point_at (node_at j) = j.
Proof. intros j Hj. destruct j as [|[|[|[|[|j]]]]]; try lia; reflexivity. Qed.
Lemma point_at_range : forall k, (0 < point_at k < 5)%nat.
Proof. intros k. destruct k as [|[|[|k]]]; cbn; lia. Qed.
Lemma node_at_lt : forall j, (node_at j < 4)%nat.
Proof. intros. apply Nat.mod_upper_bound. lia. Qed.

Section Shuffled.
Variable pm : nat -> nat.
Hypothesis PM : shuffle 4 pm.
Notation pi := (points pm).

Lemma points_shuffle : shuffle 5 pi.
Proof.
  destruct PM as [B I]. split.
  - intros j Hj. destruct j; cbn [points]; [lia|]. apply point_at_range.
  - intros i j Hi Hj. destruct i as [|i], j as [|j]; cbn [points]; intros E; auto.
    + pose proof (point_at_range (pm (node_at (S j)))). lia.
    + pose proof (point_at_range (pm (node_at (S i)))). lia.
    + assert (E2 : pm (node_at (S i)) = pm (node_at (S j))).
      { rewrite <- (node_point (pm (node_at (S i)))), <- (node_point (pm (node_at (S j)))) by (apply B; apply node_at_lt). rewrite E. reflexivity. }
      apply I in E2; try apply node_at_lt. rewrite <- (point_node (S i)), <- (point_node (S j)) by lia. rewrite E2. reflexivity.
Qed.
Lemma pi_lt : forall j, (j < 5)%nat -> (pi j < 5)%nat.
Proof. apply points_shuffle. Qed.
Lemma sh_points : forall k j, (k < 4)%nat -> (j < 5)%nat -> sh (pm k) (pi j) = sh k j.
Proof.
  intros k j Hk Hj. destruct PM as [B I]. rewrite !sh_spec by (auto using pi_lt). destruct j as [|j]; [reflexivity|]. cbn [points].
  pose proof (point_at_range (pm (node_at (S j)))) as R. destruct (point_at (pm (node_at (S j)))) eqn:E; [lia|]. rewrite <- E, node_point by (apply B; apply node_at_lt).
  destruct (Nat.eqb_spec (node_at (S j)) k) as [->|N]; [rewrite Nat.eqb_refl; reflexivity|].
  destruct (Nat.eqb_spec (pm (node_at (S j))) (pm k)) as [X|X]; [|reflexivity]. apply I in X; auto using node_at_lt. contradiction.
Qed.
Lemma pds_points : forall j, (j < 5)%nat -> pds (pi j) = pds j.
Proof.
  assert (K : forall j, (0 < j < 5)%nat -> pds j = 3 / 40). { intros j Hj. destruct j as [|[|[|[|[|j]]]]]; try lia; unfold pds; cbn [nth]; lra. }
  intros j Hj. destruct j as [|j]; [reflexivity|]. rewrite !K; [reflexivity|lia|]. cbn [points]. apply point_at_range.
Qed.

(** interpolations *)
(** the values at the corners in the other order *)
Notation like x' x := (forall k, (k < 4)%nat -> x' k = x (pm k)).
Lemma interpV_points : forall u u' j, (j < 5)%nat -> like u' u -> interpV u' j = interpV u (pi j).
Proof.
  intros u u' j Hj L. unfold interpV. rewrite <- (vsumn_shuffle 4 pm (fun i => vscale (sh i (pi j)) (u i)) PM). apply vsumn_ext. intros k Hk. rewrite sh_points, L by assumption. reflexivity.
Qed.
Lemma interp_points : forall u u' j, (j < 5)%nat -> like u' u -> interp u' j = interp u (pi j).
Proof.
  intros u u' j Hj L. unfold interp. rewrite <- (sumn_shuffle 4 pm (fun i => u i * sh i (pi j)) PM). apply sumn_ext. intros k Hk. rewrite sh_points, L by assumption. reflexivity.
Qed.

Lemma da_dual : forall q i k l, detJ q <> 0 -> (i < 4)%nat -> (k < 4)%nat -> (l < 4)%nat ->
  dot (da q i) (vsub (q k) (q l)) = (if (i =? k)%nat then 1 else 0) - (if (i =? l)%nat then 1 else 0).
Proof.
  intros q i k l H Hi Hk Hl.
  assert (G : forall i k, (i < 4)%nat -> (k < 4)%nat -> dot (da q i) (vsub (q k) (q 0%nat)) = (if (i =? k)%nat then 1 else 0) - (if (i =? 0)%nat then 1 else 0)).
  { clear - H.
    assert (Z : forall d, dot d (vsub (q 0%nat) (q 0%nat)) = 0) by (intros; rewrite dot_sub_r; ring).
    assert (E : forall i k, (0 < i < 4)%nat -> (0 < k < 4)%nat -> dot (da q i) (vsub (q k) (q 0%nat)) = if (i =? k)%nat then 1 else 0).
    { intros i k Hi Hk. rewrite ElemProof.detJ_mixed in H. unfold mixed_prod in H.
      destruct i as [|[|[|[|i]]]]; try lia; rewrite ?da_1, ?da_2, ?da_3, ElemProof.detJ_mixed; unfold mixed_prod;
      destruct k as [|[|[|[|k]]]]; try lia; change (vsub (q 1%nat) (q 0%nat)) with (edge1 q); change (vsub (q 2%nat) (q 0%nat)) with (edge2 q); change (vsub (q 3%nat) (q 0%nat)) with (edge3 q);
      generalize dependent (edge1 q); intros e1; generalize dependent (edge2 q); intros e2; generalize dependent (edge3 q); intros e3 H; cbn [Nat.eqb];
      rewrite dot_scale_l; unfold dot, cross in *; cbn [vx vy vz] in *; field; exact H. }
    intros i k Hi Hk. destruct k as [|k].
    - rewrite Z. destruct i; cbn [Nat.eqb]; ring.
    - destruct i as [|i]; [|rewrite E by lia; cbn [Nat.eqb]; ring].
      rewrite da_0, dot_comm, dot_sub_r, !dot_add_r, (dot_comm _ vzero), !(dot_comm (vsub _ _)), !E by lia.
      replace (dot vzero (vsub (q (S k)) (q 0%nat))) with 0 by (unfold dot, vzero; cbn [vx vy vz]; ring).
      destruct k as [|[|[|k]]]; try lia; cbn [Nat.eqb]; ring. }
  replace (vsub (q k) (q l)) with (vsub (vsub (q k) (q 0%nat)) (vsub (q l) (q 0%nat))) by (generalize (q k) (q l) (q 0%nat); intros; vring).
  rewrite dot_sub_r, !G by assumption. ring.
Qed.

(** geometry *)
Variables q q' : nat -> vec.
Hypothesis Lq : like q' q.
Hypothesis Dq : 0 < detJ q.
Hypothesis Dq' : 0 < detJ q'.

Lemma detJ_pm : detJ q' = detJ q.
Proof.
  destruct PM as [B I]. revert Dq Dq'. rewrite !ElemProof.detJ_mixed. unfold mixed_prod, edge1, edge2, edge3. rewrite !Lq by lia.
  pose proof (B 0%nat ltac:(lia)) as B0. pose proof (B 1%nat ltac:(lia)) as B1. pose proof (B 2%nat ltac:(lia)) as B2. pose proof (B 3%nat ltac:(lia)) as B3.
  assert (N01 : pm 0%nat <> pm 1%nat) by (intros E; apply I in E; lia). assert (N02 : pm 0%nat <> pm 2%nat) by (intros E; apply I in E; lia).
  assert (N03 : pm 0%nat <> pm 3%nat) by (intros E; apply I in E; lia). assert (N12 : pm 1%nat <> pm 2%nat) by (intros E; apply I in E; lia).
  assert (N13 : pm 1%nat <> pm 3%nat) by (intros E; apply I in E; lia). assert (N23 : pm 2%nat <> pm 3%nat) by (intros E; apply I in E; lia).
  generalize dependent (pm 0%nat). intros a. generalize dependent (pm 1%nat). intros b. generalize dependent (pm 2%nat). intros c. generalize dependent (pm 3%nat). intros d.
  intros. destruct a as [|[|[|[|a]]]]; try lia; destruct b as [|[|[|[|b]]]]; try lia; destruct c as [|[|[|[|c]]]]; try lia; destruct d as [|[|[|[|d]]]]; try lia;
  match goal with H1 : 0 < ?x, H2 : 0 < ?y |- ?y = ?x =>
    first [ assert (E : y = x) by (clear; unfold dot, cross, vsub; cbn [vx vy vz]; ring); exact E
          | exfalso; assert (E : y = - x) by (clear; unfold dot, cross, vsub; cbn [vx vy vz]; ring); lra ] end.
Qed.
Lemma da_pm : forall i, (i < 4)%nat -> da q' i = da q (pm i).
Proof.
  intros i Hi. destruct PM as [B I]. assert (N : detJ q' <> 0) by lra.
  rewrite <- (grad_dual q' (da q' i) N), <- (grad_dual q' (da q (pm i)) N). unfold edge1, edge2, edge3.
  assert (E : forall k, (k < 4)%nat -> dot (da q' i) (vsub (q' k) (q' 0%nat)) = dot (da q (pm i)) (vsub (q' k) (q' 0%nat))).
  { intros k Hk. rewrite (da_dual q' i k 0) by (auto; lia). rewrite !Lq by lia. rewrite (da_dual q (pm i) (pm k) (pm 0%nat)) by (try lra; apply B; lia).
    assert (X : forall a b, (a < 4)%nat -> (b < 4)%nat -> (pm a =? pm b)%nat = (a =? b)%nat).
    { intros a b Ha Hb. destruct (Nat.eqb_spec a b) as [->|Y]; [apply Nat.eqb_refl|]. apply Nat.eqb_neq. intros Q. apply Y. apply I; assumption. }
    rewrite !X by lia. reflexivity. }
  rewrite !E by lia. reflexivity.
Qed.
Lemma weight_pm : forall j, (j < 5)%nat -> weight q' j = weight q (pi j).
Proof. intros j Hj. unfold weight. rewrite detJ_pm, pds_points by exact Hj. reflexivity. Qed.
Lemma vol_pm : calc_vol q' = calc_vol q.
Proof. rewrite !vol_det, detJ_pm. reflexivity. Qed.
Lemma contrib_pm : forall al al' i, (i < 4)%nat -> (forall j, (j < 5)%nat -> al' j = al (pi j)) -> contrib q' al' i = contrib q al (pm i).
Proof.
  intros al al' i Hi H. unfold contrib, NPI. rewrite <- (sumn_shuffle 5 pi (fun j => sh (pm i) j * (weight q j * al j)) points_shuffle).
  apply sumn_ext. intros j Hj. rewrite sh_points, weight_pm, H by assumption. reflexivity.
Qed.
Lemma a_w_pm : forall i, (i < 4)%nat -> a_w q' i = a_w q (pm i).
Proof.
  intros i Hi. unfold a_w, NPI. rewrite <- (sumn_shuffle 5 pi (fun j => sh (pm i) j * weight q j) points_shuffle).
  apply sumn_ext. intros j Hj. rewrite sh_points, weight_pm by assumption. reflexivity.
Qed.
Lemma wdot_pm : forall f f', (forall j, (j < 5)%nat -> f' j = f (pi j)) -> wdot q' f' = wdot q f.
Proof.
  intros f f' H. unfold wdot, NPI. rewrite <- (sumn_shuffle 5 pi (fun j => weight q j * f j) points_shuffle).
  apply sumn_ext. intros j Hj. rewrite weight_pm, H by assumption. reflexivity.
Qed.
Lemma deriv_pm : forall u u' k, like u' u -> deriv q' u' k = deriv q u k.
Proof.
  intros u u' k L. unfold deriv. rewrite <- (vsumn_shuffle 4 pm (fun i => vscale (comp k (da q i)) (u i)) PM). apply vsumn_ext. intros i Hi. rewrite da_pm, L by exact Hi. reflexivity.
Qed.
Lemma interp_field_pm : forall x x', like x' x -> interp_field q' x' = interp_field q x.
Proof.
  intros x x' L. unfold interp_field. f_equal. rewrite <- (vsumn_shuffle 4 pm (fun i => vscale (x i) (da q i)) PM). apply vsumn_ext. intros i Hi. rewrite da_pm, L by exact Hi. reflexivity.
Qed.

Lemma push_pm : forall al al' pref u u' w w' i, (i < 4)%nat -> (forall j, (j < 5)%nat -> al' j = al (pi j)) -> like u' u -> like w' w ->
  push q' al' pref u' w' i = push q al pref u w (pm i).
Proof.
  intros al al' pref u u' w w' i Hi H Lu Lw. unfold push. rewrite vol_pm, (contrib_pm al al'), a_w_pm, Lu, Lw by assumption. do 3 f_equal.
  rewrite <- (vsumn_shuffle 4 pm (fun j => vscale (dot (da q (pm i)) (da q j)) (w j)) PM). apply vsumn_ext. intros j Hj. rewrite !da_pm, Lw by assumption. reflexivity.
Qed.

(** Tet::integrales *)
Section Physics.
Variables (mu0 gamma0 theta dt : R) (prm : tprm) (Hext Hst Hext' Hst' : nat -> vec) (u v u' v' : nat -> vec) (phi phiv phi' phiv' : nat -> R).
Hypothesis Lu : like u' u.
Hypothesis Lv : like v' v.
Hypothesis Lphi : like phi' phi.
Hypothesis Lphiv : like phiv' phiv.
Hypothesis HX : forall j, (j < 5)%nat -> Hext' j = Hext (pi j).
Hypothesis HT : forall j, (j < 5)%nat -> Hst' j = Hst (pi j).
Notation nod := (mkTnod u v phi phiv).
Notation nod' := (mkTnod u' v' phi' phiv').

Lemma gU_pm : forall j, (j < 5)%nat -> gU nod' j = gU nod (pi j).
Proof. intros. unfold gU. cbn [n_u]. apply interpV_points; assumption. Qed.
Lemma gV_pm : forall j, (j < 5)%nat -> gV nod' j = gV nod (pi j).
Proof. intros. unfold gV. cbn [n_v]. apply interpV_points; assumption. Qed.
Lemma H_aniso_pm : forall j, (j < 5)%nat -> H_aniso mu0 gamma0 theta prm dt nod' j = H_aniso mu0 gamma0 theta prm dt nod (pi j).
Proof. intros j Hj. unfold H_aniso. rewrite gU_pm, gV_pm by exact Hj. reflexivity. Qed.
Lemma uHeff_pm : forall j, (j < 5)%nat -> uHeff mu0 gamma0 theta prm dt Hext' Hst' q' nod' j = uHeff mu0 gamma0 theta prm dt Hext Hst q nod (pi j).
Proof.
  intros j Hj. unfold uHeff, Hd. cbn [n_u n_phi]. rewrite !(deriv_pm u u'), (interp_field_pm phi phi'), H_aniso_pm, gU_pm, HX, HT by assumption. reflexivity.
Qed.
Lemma a_eff_pm : forall j, (j < 5)%nat -> a_eff mu0 gamma0 theta prm dt Hext' Hst' q' nod' j = a_eff mu0 gamma0 theta prm dt Hext Hst q nod (pi j).
Proof. intros j Hj. unfold a_eff. rewrite uHeff_pm by exact Hj. reflexivity. Qed.
Lemma BE_pm : forall i, (i < 4)%nat -> BE mu0 gamma0 theta prm dt Hext' Hst' None 0 q' nod' i = BE mu0 gamma0 theta prm dt Hext Hst None 0 q nod (pm i).
Proof.
  intros i Hi. unfold BE. f_equal. unfold NPI.
  symmetry. etransitivity; [symmetry; apply (vsumn_shuffle 5 pi _ points_shuffle)|]. symmetry.
  apply vsumn_ext. intros j Hj. cbv beta zeta. unfold Hd, Hv. cbn [n_u n_phi n_phiv].
  rewrite !(deriv_pm u u'), (interp_field_pm phi phi'), (interp_field_pm phiv phiv'), H_aniso_pm, gU_pm, gV_pm, HX, HT, weight_pm, sh_points, da_pm by assumption. reflexivity.
Qed.
End Physics.
End Shuffled.

(** ** Triangles *)
Definition tnode_at (j : nat) : nat := match j with 1 => 0 | 2 => 1 | _ => 2 end%nat.
Definition tpoints (pm : nat -> nat) (j : nat) : nat := match j with O => 0%nat | _ => S (pm (tnode_at j)) end.
Lemma tsh_spec : forall k j, (k < 3)%nat -> (j < 4)%nat -> tsh k j = match j with O => 1 / 3 | _ => if (tnode_at j =? k)%nat then 3 / 5 else 1 / 5 end.
Proof.
  intros k j Hk Hj. destruct j as [|[|[|[|j]]]]; try lia; destruct k as [|[|[|k]]]; try lia; unfold tsh, tu, tv; cbn [nth tnode_at Nat.eqb]; lra.
Qed.
Lemma tnode_S : forall k, (k < 3)%nat -> tnode_at (S k) = k.
Proof. intros k Hk. destruct k as [|[|[|k]]]; try lia; reflexivity. Qed.
Lemma tnode_lt : forall j, (tnode_at j < 3)%nat.
Proof. intros j. destruct j as [|[|[|j]]]; cbn; lia. Qed.

Section Shuffled3.
Variable pm : nat -> nat.
Hypothesis PM : shuffle 3 pm.
Notation pi := (tpoints pm).
Lemma tpoints_shuffle : shuffle 4 pi.
Proof.
  destruct PM as [B I]. split.
  - intros j Hj. destruct j; cbn [tpoints]; [lia|]. specialize (B (tnode_at (S j)) (tnode_lt _)). lia.
  - intros i j Hi Hj. destruct i as [|i], j as [|j]; cbn [tpoints]; intros E; try lia. apply Nat.succ_inj in E. assert (E2 : tnode_at (S i) = tnode_at (S j)) by (apply I; [apply tnode_lt|apply tnode_lt|exact E]). rewrite !tnode_S in E2 by lia. lia.
Qed.
Lemma tsh_points : forall k j, (k < 3)%nat -> (j < 4)%nat -> tsh (pm k) (pi j) = tsh k j.
Proof.
  intros k j Hk Hj. destruct PM as [B I]. rewrite !tsh_spec by (auto; apply tpoints_shuffle; assumption). destruct j as [|j]; [reflexivity|]. cbn [tpoints].
  rewrite (tnode_S (pm _)) by (apply B; apply tnode_lt).
  destruct (Nat.eqb_spec (tnode_at (S j)) k) as [->|N]; [rewrite Nat.eqb_refl; reflexivity|].
  destruct (Nat.eqb_spec (pm (tnode_at (S j))) (pm k)) as [X|X]; [|reflexivity]. apply I in X; auto using tnode_lt. contradiction.
Qed.
Notation like x' x := (forall k, (k < 3)%nat -> x' k = x (pm k)).
Lemma surf_pm : forall q q', like q' q -> calc_surf q' = calc_surf q.
Proof.
  intros q q' L. unfold calc_surf, vnorm. do 2 f_equal. unfold normal_vect. rewrite !L by lia. destruct PM as [B I].
  pose proof (B 0%nat ltac:(lia)) as B0. pose proof (B 1%nat ltac:(lia)) as B1. pose proof (B 2%nat ltac:(lia)) as B2.
  assert (N01 : pm 0%nat <> pm 1%nat) by (intros E; apply I in E; lia). assert (N02 : pm 0%nat <> pm 2%nat) by (intros E; apply I in E; lia). assert (N12 : pm 1%nat <> pm 2%nat) by (intros E; apply I in E; lia).
  generalize dependent (pm 0%nat). intros a. generalize dependent (pm 1%nat). intros b. generalize dependent (pm 2%nat). intros c.
  intros. destruct a as [|[|[|a]]]; try lia; destruct b as [|[|[|b]]]; try lia; destruct c as [|[|[|c]]]; try lia;
  clear; unfold dot, cross, vsub; cbn [vx vy vz]; ring.
Qed.
Lemma tweight_pm : forall q q' j, (j < 4)%nat -> like q' q -> tweight q' j = tweight q (pi j).
Proof.
  assert (K : forall j, (0 < j < 4)%nat -> tpds j = 25 / 96). { intros j Hj. destruct j as [|[|[|[|j]]]]; try lia; unfold tpds; cbn [nth]; lra. }
  intros q q' j Hj L. unfold tweight. rewrite (surf_pm q q' L). f_equal. destruct j as [|j]; [reflexivity|]. rewrite !K; [reflexivity| |lia].
  cbn [tpoints]. pose proof (proj1 PM (tnode_at (S j)) (tnode_lt _)). lia.
Qed.
Lemma tinterpV_points : forall u u' j, (j < 4)%nat -> like u' u -> tinterpV u' j = tinterpV u (pi j).
Proof.
  intros u u' j Hj L. unfold tinterpV. rewrite <- (vsumn_shuffle 3 pm (fun i => vscale (tsh i (pi j)) (u i)) PM). apply vsumn_ext. intros k Hk. rewrite tsh_points, L by assumption. reflexivity.
Qed.
Lemma tri_BE_pm : forall Ks dMs uk q q' u u' i, (i < 3)%nat -> like q' q -> like u' u -> tri_BE Ks dMs uk q' u' i = tri_BE Ks dMs uk q u (pm i).
Proof.
  intros Ks dMs uk q q' u u' i Hi Lq Lu. unfold tri_BE, tNPI.
  rewrite <- (vsumn_shuffle 4 pi (fun j => vscale (tweight q j * (2 * Ks / dMs) * dot uk (tinterpV u j) * tsh (pm i) j) uk) tpoints_shuffle).
  apply vsumn_ext. intros j Hj. rewrite (tweight_pm q q'), (tinterpV_points u u'), tsh_points by assumption. reflexivity.
Qed.
End Shuffled3.

(** ** The nodes of the mesh *)
Lemma at_node_same : forall n sg l l' pm i f f', renumbering n sg -> (i < n)%nat -> (forall a, In a l -> (a < n)%nat) ->
  shuffle (length l) pm -> length l' = length l -> (forall k, (k < length l)%nat -> nth k l' 0%nat = sg (nth (pm k) l 0%nat)) ->
  (forall k, (k < length l)%nat -> f' k = f (pm k)) -> at_node l' (sg i) f' = at_node l i f.
Proof.
  intros n sg l l' pm i f f' [_ I] Hi Hl S L E F. unfold at_node. rewrite L.
  rewrite <- (vsumn_shuffle (length l) pm (fun k => if (nth k l 0 =? i)%nat then f k else vzero) S). apply vsumn_ext. intros k Hk.
  rewrite E, F by exact Hk. assert (Hp : (nth (pm k) l 0 < n)%nat) by (apply Hl, nth_In, S; exact Hk).
  destruct (Nat.eqb_spec (nth (pm k) l 0%nat) i) as [->|N]; [rewrite Nat.eqb_refl; reflexivity|].
  destruct (Nat.eqb_spec (sg (nth (pm k) l 0%nat)) (sg i)) as [X|X]; [|reflexivity]. apply I in X; auto. contradiction.
Qed.

Lemma vlsum_same : forall {X} (same : X -> X -> Prop) (f f' : X -> vec) l l', same_list same l l' ->
  (forall x x', In x l -> In x' l' -> same x x' -> f' x' = f x) -> vlsum (map f' l') = vlsum (map f l).
Proof.
  intros X same f f' l l' (m & F & P) H. rewrite <- (vlsum_perm _ _ (Permutation_map f' P)).
  assert (H' : forall x x', In x l -> In x' m -> same x x' -> f' x' = f x). { intros x x' A B C. apply (H x x' A); [apply (Permutation_in _ P B)|exact C]. }
  clear H P l'. induction F as [|x y l m S F IH]; [reflexivity|]. cbn [map vlsum fold_right]. f_equal; [apply H'; [left; reflexivity|left; reflexivity|exact S]|].
  apply IH. intros a b A B. apply H'; right; assumption.
Qed.

Section Meshes.
Variables (n : nat) (sg : nat -> nat).
Hypothesis SG : renumbering n sg.
Variables (mu0 gamma0 theta dt pref : R) (p p' u u' v v' : nat -> vec) (phi phi' phiv phiv' : nat -> R) (Hext Hext' Hst Hst' : tet -> nat -> vec).
Hypothesis Sp : same_at n sg p p'.
Hypothesis Su : same_at n sg u u'.
Hypothesis Sv : same_at n sg v v'.
Hypothesis Sphi : same_at n sg phi phi'.
Hypothesis Sphiv : same_at n sg phiv phiv'.
Hypothesis SX : same_field n sg Hext Hext'.
Hypothesis ST : same_field n sg Hst Hst'.

Lemma same_place_points : forall t t' pm j, (forall a, In a (tet_nodes t) -> (a < n)%nat) -> NoDup (tet_nodes t) -> shuffle 4 pm ->
  (forall k, (k < 4)%nat -> nth k (tet_nodes t') 0%nat = sg (nth (pm k) (tet_nodes t) 0%nat)) -> (j < 5)%nat -> same_place sg t t' (points pm j) j.
Proof.
  intros t t' pm j Hn ND S E Hj. split; [apply pi_lt; assumption|]. split; [exact Hj|]. intros k k' Hk Hk' X. rewrite E in X by exact Hk'.
  apply SG in X; [|apply Hn, nth_In; apply S; exact Hk'|apply Hn, nth_In; exact Hk].
  apply (proj1 (NoDup_nth _ 0%nat) ND) in X; [|apply S; exact Hk'|exact Hk]. rewrite <- X. symmetry. apply sh_points; assumption.
Qed.

Lemma corner_same : forall {X} (f f' : nat -> X) t t' pm, (forall a, In a (tet_nodes t) -> (a < n)%nat) -> shuffle 4 pm ->
  (forall k, (k < 4)%nat -> nth k (tet_nodes t') 0%nat = sg (nth (pm k) (tet_nodes t) 0%nat)) -> same_at n sg f f' ->
  forall k, (k < 4)%nat -> corner f' t' k = corner f t (pm k).
Proof. intros X f f' t t' pm Hn S E Sf k Hk. unfold corner. rewrite E by exact Hk. apply Sf, Hn, nth_In, S, Hk. Qed.

Variables (body body' : material_body) (faces faces' : list surf).
Hypothesis Hb : forall m a, In m body -> In a (tet_nodes (fst m)) -> (a < n)%nat.
Hypothesis Hnd : forall m, In m body -> NoDup (tet_nodes (fst m)).
Hypothesis Hd : forall m, In m body -> 0 < detJ (corner p (fst m)).
Hypothesis Hd' : forall m, In m body' -> 0 < detJ (corner p' (fst m)).
Hypothesis Hf : forall s a, In s faces -> In a (tri_nodes (sf_tri s)) -> (a < n)%nat.
Hypothesis SB : same_list (same_tet sg) body body'.
Hypothesis SF : same_list (same_surf sg) faces faces'.

Lemma node_push_same : forall w w' i, same_at n sg w w' -> (i < n)%nat ->
  node_push mu0 gamma0 theta dt pref p' u' v' phi' phiv' Hext' Hst' body' w' (sg i) = node_push mu0 gamma0 theta dt pref p u v phi phiv Hext Hst body w i.
Proof.
  intros w w' i Sw Hi. unfold node_push. apply (vlsum_same (same_tet sg)); [exact SB|]. intros [t prm] [t' prm'] M M' [P Q]. cbn [fst snd] in *. subst prm'.
  destruct (perm_corners _ _ _ P) as (pm & S & L & E). change (length (tet_nodes t)) with 4%nat in S, E.
  assert (HN : forall a, In a (tet_nodes t) -> (a < n)%nat) by (intros; apply (Hb _ _ M); assumption).
  apply (at_node_same n sg _ _ pm); auto. change (length (tet_nodes t)) with 4%nat. intros k Hk. unfold tet_push, nod_of. cbn [fst snd].
  pose proof (Hd _ M) as D. pose proof (Hd' _ M') as D'. cbn [fst] in D, D'.
  apply (push_pm pm S (corner p t)); auto.
  - apply (corner_same p p'); auto.
  - apply (a_eff_pm pm S (corner p t)); auto; try (apply corner_same; assumption).
    + intros j Hj. apply SX; auto. apply same_place_points; auto. apply (Hnd _ M).
    + intros j Hj. apply ST; auto. apply same_place_points; auto. apply (Hnd _ M).
  - apply (corner_same u u'); auto.
  - apply (corner_same w w'); auto.
Qed.

Lemma node_load_same : forall i, (i < n)%nat ->
  node_load mu0 gamma0 theta dt p' u' v' phi' phiv' Hext' Hst' body' faces' (sg i) = node_load mu0 gamma0 theta dt p u v phi phiv Hext Hst body faces i.
Proof.
  intros i Hi. unfold node_load. f_equal.
  - apply (vlsum_same (same_tet sg)); [exact SB|]. intros [t prm] [t' prm'] M M' [P Q]. cbn [fst snd] in *. subst prm'.
    destruct (perm_corners _ _ _ P) as (pm & S & L & E). change (length (tet_nodes t)) with 4%nat in S, E.
    assert (HN : forall a, In a (tet_nodes t) -> (a < n)%nat) by (intros; apply (Hb _ _ M); assumption).
    apply (at_node_same n sg _ _ pm); auto. change (length (tet_nodes t)) with 4%nat. intros k Hk. unfold tet_load, nod_of. cbn [fst snd].
    pose proof (Hd _ M) as D. pose proof (Hd' _ M') as D'. cbn [fst] in D, D'.
    apply (BE_pm pm S (corner p t)); auto; try (apply corner_same; assumption).
    + intros j Hj. apply SX; auto. apply same_place_points; auto. apply (Hnd _ M).
    + intros j Hj. apply ST; auto. apply same_place_points; auto. apply (Hnd _ M).
  - apply (vlsum_same (same_surf sg)); [exact SF|]. intros s s' M M' (P & Q1 & Q2 & Q3).
    destruct (perm_corners _ _ _ P) as (pm & S & L & E). change (length (tri_nodes (sf_tri s))) with 3%nat in S, E.
    assert (HN : forall a, In a (tri_nodes (sf_tri s)) -> (a < n)%nat) by (intros; apply (Hf _ _ M); assumption).
    apply (at_node_same n sg _ _ pm); auto. change (length (tri_nodes (sf_tri s))) with 3%nat. intros k Hk. unfold face_load. rewrite Q1, Q2, Q3.
    assert (C : forall f f' : nat -> vec, same_at n sg f f' -> forall k, (k < 3)%nat -> corner3 f' (sf_tri s') k = corner3 f (sf_tri s) (pm k)).
    { intros f f' Sf j Hj. unfold corner3. rewrite E by exact Hj. apply Sf, HN, nth_In, S, Hj. }
    apply tri_BE_pm; auto.
Qed.
End Meshes.

(** ** C114 *)
(** The same sample in two mesh files: its nodes are numbered differently, its tetrahedra and triangles are in another order, the nodes of
    an element are given in another order. The velocities found by the solver and the next magnetizations are the same at each node. *)
Theorem C114_step : forall sg mu0 gamma0 theta dt pref mag mag' p p' u u' v v' phi phi' phiv phiv' Hext Hext' Hst Hst' ep eq ep' eq' body body' faces faces' y y',
  renumbering (length mag) sg -> length mag' = length mag -> (forall i, (i < length mag)%nat -> nth (sg i) mag' false = nth i mag false) ->
  same_at (length mag) sg p p' -> same_at (length mag) sg u u' -> same_at (length mag) sg v v' -> same_at (length mag) sg phi phi' -> same_at (length mag) sg phiv phiv' ->
  same_field (length mag) sg Hext Hext' -> same_field (length mag) sg Hst Hst' ->
  same_list (same_tet sg) body body' -> same_list (same_surf sg) faces faces' ->
  (forall s a, In s faces -> In a (tri_nodes (sf_tri s)) -> (a < length mag)%nat) ->
  step_solution mu0 gamma0 theta dt pref mag p u v phi phiv Hext Hst ep eq body faces y ->
  step_solution mu0 gamma0 theta dt pref mag' p' u' v' phi' phiv' Hext' Hst' ep' eq' body' faces' y' ->
  forall i, (i < length mag)%nat -> nth i mag false = true ->
  velocity ep' eq' y' (sg i) = velocity ep eq y i /\ stepped gamma0 dt u' ep' eq' y' (sg i) = stepped gamma0 dt u ep eq y i.
Proof.
  intros sg mu0 gamma0 theta dt pref mag mag' p p' u u' v v' phi phi' phiv phiv' Hext Hext' Hst Hst' ep eq ep' eq' body body' faces faces' y y'
    SG Lm Sm Sp Su Sv Sphi Sphiv SX ST SB SF Hf (HP & rhs & HL & HS) (HP' & rhs' & HL' & HS').
  pose proof (datum_nodes' _ _ _ _ _ _ _ _ HP) as HN. pose proof (datum_nodes' _ _ _ _ _ _ _ _ HP') as HN'.
  assert (Hb : forall m a, In m body -> In a (tet_nodes (fst m)) -> (a < length mag)%nat).
  { intros [t prm] a M A. apply (HN (tet_data mu0 gamma0 theta dt pref p u v phi phiv Hext Hst ep eq (t, prm))); [apply in_map; exact M|exact A]. }
  assert (Hnd : forall m, In m body -> NoDup (tet_nodes (fst m))).
  { intros [t prm] M. apply (lp_tet _ _ _ _ _ _ _ _ HP (tet_data mu0 gamma0 theta dt pref p u v phi phiv Hext Hst ep eq (t, prm))). apply in_map. exact M. }
  assert (Hd : forall m, In m body -> 0 < detJ (corner p (fst m))).
  { intros [t prm] M. apply (lp_tet _ _ _ _ _ _ _ _ HP (tet_data mu0 gamma0 theta dt pref p u v phi phiv Hext Hst ep eq (t, prm))). apply in_map. exact M. }
  assert (Hd' : forall m, In m body' -> 0 < detJ (corner p' (fst m))).
  { intros [t prm] M. apply (lp_tet _ _ _ _ _ _ _ _ HP' (tet_data mu0 gamma0 theta dt pref p' u' v' phi' phiv' Hext' Hst' ep' eq' (t, prm))). apply in_map. exact M. }
  destruct (proj1 (solves_balanced mu0 gamma0 theta dt pref p' u' v' phi' phiv' Hext' Hst' mag' ep' eq' body' faces' rhs' y' HN' HL') HS') as [Ly B].
  rewrite Lm in Ly, B. set (w' := velocity ep' eq' y') in *.
  set (fp := fun i => if nth i mag false then dot (w' (sg i)) (ep i) else 0). set (fq := fun i => if nth i mag false then dot (w' (sg i)) (eq i) else 0).
  set (z := concat (map (fun i => [fp i; fq i]) (seq 0 (length mag)))).
  assert (Nz : forall f g : nat -> R, forall l k i, (i < l)%nat -> nth (2 * i) (concat (map (fun i => [f i; g i]) (seq k l))) 0 = f (k + i)%nat /\ nth (2 * i + 1) (concat (map (fun i => [f i; g i]) (seq k l))) 0 = g (k + i)%nat).
  { intros f g l. induction l as [|l IH]; intros k i Hi; [lia|]. cbn [seq map concat app]. destruct i as [|i].
    - cbn [Nat.mul Nat.add nth]. rewrite Nat.add_0_r. auto.
    - replace (2 * S i)%nat with (S (S (2 * i))) by lia. cbn [nth Nat.add]. specialize (IH (S k) i ltac:(lia)). replace (k + S i)%nat with (S k + i)%nat by lia. exact IH. }
  assert (Lz : length z = (2 * length mag)%nat).
  { assert (G : forall (f g : nat -> R) l k, length (concat (map (fun i => [f i; g i]) (seq k l))) = (2 * l)%nat).
    { intros f g l. induction l as [|l IH]; intros k; [reflexivity|]. cbn [seq map concat app length]. rewrite IH. lia. }
    apply G. }
  assert (Ez : forall i, (i < length mag)%nat -> nth (2 * i) z 0 = fp i /\ nth (2 * i + 1) z 0 = fq i) by (intros i Hi; exact (Nz fp fq (length mag) 0%nat i Hi)).
  assert (Bs : forall i, (i < length mag)%nat -> nth i mag false = true ->
    (orthonormal (u i) (ep i) (eq i) /\ cross (u i) (ep i) = eq i) /\ (orthonormal (u i) (ep' (sg i)) (eq' (sg i)) /\ cross (u i) (ep' (sg i)) = eq' (sg i))).
  { intros i Hi Em. split; [apply (lp_basis _ _ _ _ _ _ _ _ HP i Hi Em)|]. rewrite <- (Su i Hi). apply (lp_basis _ _ _ _ _ _ _ _ HP').
    - rewrite Lm. apply SG. exact Hi.
    - rewrite Sm by exact Hi. exact Em. }
  assert (Vz : forall i, (i < length mag)%nat -> nth i mag false = true -> velocity ep eq z i = w' (sg i)).
  { intros i Hi Em. unfold velocity. destruct (Ez i Hi) as [-> ->]. unfold fp, fq. rewrite Em.
    destruct (Bs i Hi Em) as [[O C] _]. apply (tangent_coords (u i)); auto. rewrite <- (Su i Hi).
    apply (velocity_sq _ _ _ _ _ _ _ _ y' (sg i) HP'); [rewrite Lm; apply SG; exact Hi|rewrite Sm by exact Hi; exact Em]. }
  assert (Sw : same_at (length mag) sg (velocity ep eq z) w').
  { intros i Hi. destruct (nth i mag false) eqn:Em; [symmetry; apply Vz; auto|]. unfold velocity at 1. destruct (Ez i Hi) as [-> ->]. unfold fp, fq. rewrite Em.
    specialize (B (sg i) (proj1 SG i Hi)). rewrite Sm, Em in B by exact Hi. destruct B as [B1 B2]. unfold w', velocity. rewrite B1, B2. unfold tangent.
    generalize (ep i) (eq i) (ep' (sg i)) (eq' (sg i)). intros. vring. }
  assert (HS2 : solves mag (system_matrix mag (map (llg_elem gamma0 dt p u ep eq) (map (tet_data mu0 gamma0 theta dt pref p u v phi phiv Hext Hst ep eq) body))) rhs z).
  { apply (solves_balanced mu0 gamma0 theta dt pref p u v phi phiv Hext Hst mag ep eq body faces rhs z HN HL).
    split; [exact Lz|]. intros i Hi. destruct (nth i mag false) eqn:Em.
    2: { destruct (Ez i Hi) as [-> ->]. unfold fp, fq. rewrite Em. auto. }
    specialize (B (sg i) (proj1 SG i Hi)). rewrite Sm, Em in B by exact Hi. destruct B as [B1 B2].
    assert (NP : node_push mu0 gamma0 theta dt pref p' u' v' phi' phiv' Hext' Hst' body' w' (sg i) = node_push mu0 gamma0 theta dt pref p u v phi phiv Hext Hst body (velocity ep eq z) i)
      by (eapply node_push_same; eassumption).
    assert (NL : node_load mu0 gamma0 theta dt p' u' v' phi' phiv' Hext' Hst' body' faces' (sg i) = node_load mu0 gamma0 theta dt p u v phi phiv Hext Hst body faces i)
      by (eapply node_load_same; eassumption).
    rewrite NP, NL in B1, B2.
    unfold balanced.
    set (F := node_push mu0 gamma0 theta dt pref p u v phi phiv Hext Hst body (velocity ep eq z) i) in *.
    set (G := node_load mu0 gamma0 theta dt p u v phi phiv Hext Hst body faces i) in *.
    destruct (Bs i Hi Em) as [[O C] [O' C']].
    assert (K : forall a, dot (u i) a = 0 -> dot a F = dot a G).
    { intros a Ha. apply Rminus_diag_uniq. rewrite <- dot_sub_r.
      apply (combination _ _ _ a _ O' C' Ha); rewrite dot_sub_r; lra. }
    destruct O as (A1 & A2 & A3 & A4 & A5 & A6). unfold unitary in *.
    assert (U1 : dot (u i) (ep i) = 0) by (first [exact A4 | exact A5 | exact A6 | rewrite dot_comm; first [exact A4 | exact A5 | exact A6]]).
    assert (U2 : dot (u i) (eq i) = 0) by (rewrite <- C; apply cross_dot_l).
    split; apply K; assumption. }
  destruct (C77_unique_solution gamma0 dt mag _ _ _ _ _ rhs HP) as (x & _ & Ux). cbv zeta in Ux.
  assert (Ey : y = z) by (rewrite (Ux y HS), (Ux z HS2); reflexivity).
  intros i Hi Em. assert (V : velocity ep' eq' y' (sg i) = velocity ep eq y i) by (rewrite Ey, Vz by assumption; reflexivity).
  split; [exact V|]. rewrite !stepped_moved. unfold moved. rewrite V, (Su i Hi). reflexivity.
Qed.

(** The fields of the theorem: a uniform field, a field that depends on the position, a field interpolated from the nodes. *)
Lemma same_interp : forall n sg (f f' : nat -> vec) t t' j j', (forall a, In a (tet_nodes t) -> (a < n)%nat) -> Permutation (map sg (tet_nodes t)) (tet_nodes t') ->
  same_place sg t t' j j' -> same_at n sg f f' -> interpV (corner f' t') j' = interpV (corner f t) j.
Proof.
  intros n sg f f' t t' j j' Hn P (Hj & Hj' & HS) Sf. destruct (perm_corners _ _ _ P) as (pm & S & L & E). change (length (tet_nodes t)) with 4%nat in S, E.
  unfold interpV. rewrite <- (vsumn_shuffle 4 pm (fun i => vscale (sh i j) (corner f t i)) S). apply vsumn_ext. intros k Hk.
  rewrite (HS (pm k) k (proj1 S k Hk) Hk (E k Hk)). unfold corner. rewrite E by exact Hk. f_equal. apply Sf, Hn, nth_In, S, Hk.
Qed.
Theorem C114_fields : forall n sg (p p' s s' : nat -> vec) (space : vec -> vec) (H : vec) (k : R), same_at n sg p p' -> same_at n sg s s' ->
  same_field n sg (fun _ _ => H) (fun _ _ => H) /\
  same_field n sg (fun t j => space (interpV (corner p t) j)) (fun t j => space (interpV (corner p' t) j)) /\
  same_field n sg (fun t j => calc_Hst k (corner s t) j) (fun t j => calc_Hst k (corner s' t) j).
Proof.
  intros n sg p p' s s' space H k Sp Ss. split; [|split]; intros t t' j j' Hn P HS.
  - reflexivity.
  - f_equal. apply (same_interp n sg); assumption.
  - unfold calc_Hst. f_equal. apply (same_interp n sg); assumption.
Qed.

(** ** Energies *)
(** the same tetrahedron, and the same triangle: the jump of Ms follows the orientation (see C40_order_of_nodes) *)
Definition same_cell (sg : nat -> nat) (t t' : tet) : Prop := Permutation (map sg (tet_nodes t)) (tet_nodes t') /\ t_reg t' = t_reg t.
Definition same_face (sg : nat -> nat) (p p' : nat -> vec) (x x' : tri * R) : Prop :=
  Permutation (map sg (tri_nodes (fst x))) (tri_nodes (fst x')) /\ r_reg (fst x') = r_reg (fst x) /\
  vscale (snd x') (normal_vect (tri_corner p' (fst x'))) = vscale (snd x) (normal_vect (tri_corner p (fst x))).

Lemma lsum_same : forall {X} (same : X -> X -> Prop) (f f' : X -> R) l l', same_list same l l' ->
  (forall x x', In x l -> In x' l' -> same x x' -> f' x' = f x) -> lsum (map f' l') = lsum (map f l).
Proof.
  intros X same f f' l l' (m & F & P) H. rewrite <- (lsum_perm _ _ (Permutation_map f' P)).
  assert (H' : forall x x', In x l -> In x' m -> same x x' -> f' x' = f x). { intros x x' A B C. apply (H x x' A); [apply (Permutation_in _ P B)|exact C]. }
  clear H P l'. induction F as [|x y l m S F IH]; [reflexivity|]. cbn [map lsum fold_right]. f_equal; [apply H'; [left; reflexivity|left; reflexivity|exact S]|].
  apply IH. intros a b A B. apply H'; right; assumption.
Qed.

Lemma filter_perm : forall {X} (k : X -> bool) l l', Permutation l l' -> Permutation (filter k l) (filter k l').
Proof.
  induction 1; cbn [filter].
  - constructor.
  - destruct (k x); [constructor|]; assumption.
  - destruct (k x), (k y); try apply Permutation_refl. apply perm_swap.
  - eapply Permutation_trans; eassumption.
Qed.

Lemma same_filter : forall {X} (same : X -> X -> Prop) (k k' : X -> bool) l l', same_list same l l' ->
  (forall x x', In x l -> In x' l' -> same x x' -> k' x' = k x) -> same_list same (filter k l) (filter k' l').
Proof.
  intros X same k k' l l' (m & F & P) H.
  assert (H' : forall x x', In x l -> In x' m -> same x x' -> k' x' = k x). { intros x x' A B C. apply (H x x' A); [apply (Permutation_in _ P B)|exact C]. }
  exists (filter k' m). split; [|apply filter_perm; exact P]. clear H P l'.
  induction F as [|x y l m S F IH]; [constructor|]. cbn [filter]. rewrite (H' x y) by (try (left; reflexivity); exact S).
  destruct (k x); [constructor; [exact S|]|]; apply IH; intros a b A B; apply H'; right; assumption.
Qed.

Lemma nth_magTris : forall magNode suppress tris (dMs : list R), length dMs = length tris ->
  map (fun k => (nth k tris (mkTri 0 0 0 0), nth k dMs 0)) (magTri_of magNode suppress tris) =
  filter (fun x => mag_tri magNode (fst x) && negb (nth (r_reg (fst x)) suppress false)) (combine tris dMs).
Proof.
  intros magNode suppress tris dMs HL. unfold magTri_of.
  assert (G : forall l d (st : list nat) pre dpre, length d = length l -> length dpre = length pre -> (forall k, In k st -> (k < length pre)%nat) ->
    map (fun k => (nth k (pre ++ l) (mkTri 0 0 0 0), nth k (dpre ++ d) 0)) (fold_left (fun s (it : nat * tri) =>
      if mag_tri magNode (snd it) && negb (nth (r_reg (snd it)) suppress false) then s ++ [fst it] else s) (combine (seq (length pre) (length l)) l) st) =
    map (fun k => (nth k (pre ++ l) (mkTri 0 0 0 0), nth k (dpre ++ d) 0)) st ++ filter (fun x => mag_tri magNode (fst x) && negb (nth (r_reg (fst x)) suppress false)) (combine l d)).
  { induction l as [|t l IH]; intros d st pre dpre Hd Hp Hst; destruct d as [|e d]; try discriminate; cbn [length seq combine fold_left filter].
    - symmetry. apply app_nil_r.
    - replace (pre ++ t :: l) with ((pre ++ [t]) ++ l) by (rewrite <- app_assoc; reflexivity).
      replace (dpre ++ e :: d) with ((dpre ++ [e]) ++ d) by (rewrite <- app_assoc; reflexivity).
      replace (S (length pre)) with (length (pre ++ [t])) by (rewrite app_length; simpl; lia).
      injection Hd as Hd. rewrite IH; [|exact Hd|rewrite !app_length; simpl; lia|].
      + cbn [fst snd]. destruct (mag_tri magNode t && negb (nth (r_reg t) suppress false)); auto.
        rewrite map_app, <- app_assoc. cbn [map]. f_equal. cbn [app]. f_equal.
        rewrite <- !app_assoc. rewrite (app_nth2 pre) by lia. rewrite (app_nth2 dpre) by lia. rewrite Hp, Nat.sub_diag. reflexivity.
      + cbn [fst snd]. intros k Hk. rewrite app_length; simpl. destruct (mag_tri magNode t && negb (nth (r_reg t) suppress false)).
        * apply in_app_or in Hk. destruct Hk as [Hk|[<-|[]]]; [specialize (Hst k Hk)|]; lia.
        * specialize (Hst k Hk). lia. }
  specialize (G tris dMs [] [] [] HL eq_refl). cbn [length app map] in G. apply G. intros k [].
Qed.

(** The four energies written by the program are the same for both meshes. *)
Theorem C114_energies : forall n sg mu0 prms sprms dprm dsprm p p' u u' phi phi' tets tets' tris tris' dMs dMs' suppress H,
  renumbering n sg -> same_at n sg p p' -> same_at n sg u u' -> same_at n sg phi phi' ->
  (forall t a, In t tets -> In a (tet_nodes t) -> (a < n)%nat) -> (forall x a, In x tris -> In a (tri_nodes x) -> (a < n)%nat) ->
  (forall t, In t tets -> 0 < detJ (corner p t)) -> (forall t, In t tets' -> 0 < detJ (corner p' t)) ->
  same_list (same_cell sg) tets tets' -> length dMs = length tris -> length dMs' = length tris' ->
  same_list (same_face sg p p') (combine tris dMs) (combine tris' dMs') ->
  let magTet := magTet_of (map p_Ms prms) n tets in let magTri := magTri_of (magNode_of (map p_Ms prms) n tets) suppress tris in
  let magTet' := magTet_of (map p_Ms prms) n tets' in let magTri' := magTri_of (magNode_of (map p_Ms prms) n tets') suppress tris' in
  energy mu0 prms sprms dprm dsprm p' u' phi' tets' tris' dMs' magTet' magTri' (RtoR3 H) [] =
  energy mu0 prms sprms dprm dsprm p u phi tets tris dMs magTet magTri (RtoR3 H) [].
Proof.
  intros n sg mu0 prms sprms dprm dsprm p p' u u' phi phi' tets tets' tris tris' dMs dMs' suppress H SG Sp Su Sphi Hn Hnt Hd Hd' ST L L' SF magTet magTri magTet' magTri'.
  assert (MT : nth_tets tets magTet = filter (mag_tet (map p_Ms prms)) tets) by apply nth_magTets.
  assert (MT' : nth_tets tets' magTet' = filter (mag_tet (map p_Ms prms)) tets') by apply nth_magTets.
  assert (SM : same_list (same_cell sg) (nth_tets tets magTet) (nth_tets tets' magTet')).
  { rewrite MT, MT'. apply same_filter; [exact ST|]. intros t t' _ _ [_ E]. unfold mag_tet. rewrite E. reflexivity. }
  (* the magnetic nodes *)
  assert (MN : forall i, (i < n)%nat -> nth (sg i) (magNode_of (map p_Ms prms) n tets') false = nth i (magNode_of (map p_Ms prms) n tets) false).
  { intros i Hi. pose proof (proj1 (C37_marking (map p_Ms prms) n tets tris suppress) i Hi) as A.
    pose proof (proj1 (C37_marking (map p_Ms prms) n tets' tris' suppress) (sg i) (proj1 SG i Hi)) as B. cbv zeta in A, B.
    apply eq_true_iff_eq. rewrite A, B. destruct ST as (m & F & P). split.
    - intros (t' & I & Hr & Hin). apply (Permutation_in _ (Permutation_sym P)) in I.
      assert (X : exists t, In t tets /\ same_cell sg t t'). { clear - F I. induction F as [|a b l m Sm F IH]; [contradiction|]. destruct I as [<-|I]; [exists a; split; [left; reflexivity|exact Sm]|]. destruct (IH I) as (t & T & S). exists t. split; [right; exact T|exact S]. }
      destruct X as (t & T & [Pt Er]). exists t. split; [exact T|]. rewrite <- Er. split; [exact Hr|].
      apply (Permutation_in _ (Permutation_sym Pt)) in Hin. apply in_map_iff in Hin. destruct Hin as (a & E & Ha). apply SG in E; [subst; exact Ha|apply (Hn t); assumption|exact Hi].
    - intros (t & I & Hr & Hin).
      assert (X : exists t', In t' m /\ same_cell sg t t'). { clear - F I. induction F as [|a b l m Sm F IH]; [contradiction|]. destruct I as [<-|I]; [exists b; split; [left; reflexivity|exact Sm]|]. destruct (IH I) as (t' & T & S). exists t'. split; [right; exact T|exact S]. }
      destruct X as (t' & T & [Pt Er]). exists t'. split; [apply (Permutation_in _ P T)|]. rewrite Er. split; [exact Hr|]. apply (Permutation_in _ Pt). apply in_map. exact Hin. }
  assert (HC : forall x d, In (x, d) (combine tris dMs) -> In x tris) by (intros x d I; apply (in_combine_l _ _ _ _ I)).
  set (ent := fun (ts : list tri) (ds : list R) k => (nth k ts (mkTri 0 0 0 0), nth k ds 0)).
  assert (SR : same_list (same_face sg p p') (map (ent tris dMs) magTri) (map (ent tris' dMs') magTri')).
  { unfold ent, magTri, magTri'. rewrite !nth_magTris by assumption. apply same_filter; [exact SF|]. intros [x d] [x' d'] I _ (P & E & _). cbn [fst snd] in *.
    rewrite E. f_equal. pose proof (HC _ _ I) as Ix.
    assert (Y : forall nd y, mag_tri nd y = forallb (fun a => nth a nd false) (tri_nodes y)). { intros nd y. unfold mag_tri, tri_nodes. cbn [forallb]. rewrite andb_true_r, andb_assoc. reflexivity. }
    rewrite !Y. apply eq_true_iff_eq. rewrite !forallb_forall. split; intros Q a Ha.
    - rewrite <- MN by (apply (Hnt x); assumption). apply Q. apply (Permutation_in _ P). apply in_map. exact Ha.
    - apply (Permutation_in _ (Permutation_sym P)) in Ha. apply in_map_iff in Ha. destruct Ha as (b & <- & Hb). rewrite MN by (apply (Hnt x); assumption). apply Q. exact Hb. }
  assert (InM : forall t, In t (nth_tets tets magTet) -> In t tets) by (intros t I; rewrite MT in I; apply filter_In in I; apply I).
  assert (InM' : forall t, In t (nth_tets tets' magTet') -> In t tets') by (intros t I; rewrite MT' in I; apply filter_In in I; apply I).
  assert (InR : forall x, In x (map (ent tris dMs) magTri) -> In (fst x) tris).
  { intros [x d] I. unfold ent, magTri in I. rewrite nth_magTris in I by assumption. apply filter_In in I. apply (HC x d). apply I. }
  (* the sums *)
  assert (T : forall F F' : tprm -> (nat -> vec) -> (nat -> vec) -> (nat -> R) -> R,
    (forall prm q q' un un' ph ph' pm, shuffle 4 pm -> 0 < detJ q -> 0 < detJ q' -> (forall k, (k < 4)%nat -> q' k = q (pm k)) -> (forall k, (k < 4)%nat -> un' k = un (pm k)) ->
       (forall k, (k < 4)%nat -> ph' k = ph (pm k)) -> F' prm q' un' ph' = F prm q un ph) ->
    lsum (map (fun k => let t := nth k tets' (mkTet 0 0 0 0 0) in F' (nth (t_reg t) prms dprm) (corner p' t) (corner u' t) (corner phi' t)) magTet') =
    lsum (map (fun k => let t := nth k tets (mkTet 0 0 0 0 0) in F (nth (t_reg t) prms dprm) (corner p t) (corner u t) (corner phi t)) magTet)).
  { intros F F' HF. cbv zeta.
    rewrite <- (map_map (fun k => nth k tets' (mkTet 0 0 0 0 0)) (fun t => F' (nth (t_reg t) prms dprm) (corner p' t) (corner u' t) (corner phi' t))).
    rewrite <- (map_map (fun k => nth k tets (mkTet 0 0 0 0 0)) (fun t => F (nth (t_reg t) prms dprm) (corner p t) (corner u t) (corner phi t))).
    apply (lsum_same (same_cell sg)); [exact SM|]. intros t t' I I' [P E]. apply InM in I. apply InM' in I'. rewrite E.
    destruct (perm_corners _ _ _ P) as (pm & S & Ll & Ec). change (length (tet_nodes t)) with 4%nat in S, Ec.
    assert (Hnn : forall a, In a (tet_nodes t) -> (a < n)%nat) by (intros a Ha; apply (Hn t); assumption).
    apply (HF _ _ _ _ _ _ _ pm S); auto; apply (corner_same n sg); auto. }
  assert (U : forall F F' : sprm -> R -> (nat -> vec) -> (nat -> vec) -> (nat -> R) -> R,
    (forall prm d d' q q' un un' ph ph' pm, shuffle 3 pm -> (forall k, (k < 3)%nat -> q' k = q (pm k)) -> (forall k, (k < 3)%nat -> un' k = un (pm k)) ->
       (forall k, (k < 3)%nat -> ph' k = ph (pm k)) -> vscale d' (normal_vect q') = vscale d (normal_vect q) -> F' prm d' q' un' ph' = F prm d q un ph) ->
    lsum (map (fun k => let x := nth k tris' (mkTri 0 0 0 0) in F' (nth (r_reg x) sprms dsprm) (nth k dMs' 0) (tri_corner p' x) (tri_corner u' x) (tri_corner phi' x)) magTri') =
    lsum (map (fun k => let x := nth k tris (mkTri 0 0 0 0) in F (nth (r_reg x) sprms dsprm) (nth k dMs 0) (tri_corner p x) (tri_corner u x) (tri_corner phi x)) magTri)).
  { intros F F' HF. cbv zeta.
    rewrite <- (map_map (ent tris' dMs') (fun x => F' (nth (r_reg (fst x)) sprms dsprm) (snd x) (tri_corner p' (fst x)) (tri_corner u' (fst x)) (tri_corner phi' (fst x)))).
    rewrite <- (map_map (ent tris dMs) (fun x => F (nth (r_reg (fst x)) sprms dsprm) (snd x) (tri_corner p (fst x)) (tri_corner u (fst x)) (tri_corner phi (fst x)))).
    apply (lsum_same (same_face sg p p')); [exact SR|]. intros [x d] [x' d'] I I' (P & E & N). apply InR in I. cbn [fst snd] in *. rewrite E.
    destruct (perm_corners _ _ _ P) as (pm & S & Ll & Ec). change (length (tri_nodes x)) with 3%nat in S, Ec.
    assert (C : forall (X : Type) (f f' : nat -> X), same_at n sg f f' -> forall k, (k < 3)%nat -> tri_corner f' x' k = tri_corner f x (pm k)).
    { intros X f f' Sf j Hj. unfold tri_corner. rewrite Ec by exact Hj. apply Sf, (Hnt x), nth_In, S, Hj. exact I. }
    apply (HF _ _ _ _ _ _ _ _ _ pm S); auto. }
  unfold energy. rewrite !tets_sum by (try discriminate; intros; discriminate). rewrite !tris_sum. cbn [E_ex E_aniso E_demag E_zeeman E_zero].
  assert (E1 : lsum (map (t_ex prms dprm p' u' tets') magTet') = lsum (map (t_ex prms dprm p u tets) magTet)).
  { apply (T (fun prm q un _ => exchangeEnergy prm q un) (fun prm q un _ => exchangeEnergy prm q un)). intros prm q q' un un' ph ph' pm S D D' Lq Lu _.
    unfold exchangeEnergy. f_equal. apply (wdot_pm pm S q q' Lq D D'). intros j _. rewrite !(deriv_pm pm S q q' Lq D D' un un') by exact Lu. reflexivity. }
  assert (E2 : lsum (map (t_an prms dprm p' u' tets') magTet') = lsum (map (t_an prms dprm p u tets) magTet)).
  { apply (T (fun prm q un _ => uniaxialEnergy prm q (interpV un) + cubicEnergy prm q (interpV un)) (fun prm q un _ => uniaxialEnergy prm q (interpV un) + cubicEnergy prm q (interpV un))).
    intros prm q q' un un' ph ph' pm S D D' Lq Lu _. unfold uniaxialEnergy, cubicEnergy. f_equal; f_equal; apply (wdot_pm pm S q q' Lq D D'); intros j Hj; cbv zeta;
    rewrite (interpV_points pm S un un') by assumption; reflexivity. }
  assert (E3 : lsum (map (t_de mu0 prms dprm p' u' phi' tets') magTet') = lsum (map (t_de mu0 prms dprm p u phi tets) magTet)).
  { apply (T (fun prm q un ph => tet_demagEnergy mu0 prm q un (interp ph)) (fun prm q un ph => tet_demagEnergy mu0 prm q un (interp ph))).
    intros prm q q' un un' ph ph' pm S D D' Lq Lu Lp. unfold tet_demagEnergy. f_equal. apply (wdot_pm pm S q q' Lq D D'). intros j Hj.
    rewrite !(deriv_pm pm S q q' Lq D D' un un') by exact Lu. rewrite (interp_points pm S ph ph') by assumption. reflexivity. }
  assert (E4 : lsum (map (zeeman_of mu0 prms dprm p' u' tets' (RtoR3 H) []) magTet') = lsum (map (zeeman_of mu0 prms dprm p u tets (RtoR3 H) []) magTet)).
  { apply (T (fun prm q un _ => zeemanEnergy mu0 prm q H (interpV un)) (fun prm q un _ => zeemanEnergy mu0 prm q H (interpV un))).
    intros prm q q' un un' ph ph' pm S D D' Lq Lu _. unfold zeemanEnergy. f_equal. apply (wdot_pm pm S q q' Lq D D'). intros j Hj.
    rewrite (interpV_points pm S un un') by assumption. reflexivity. }
  assert (E5 : lsum (map (s_an sprms dsprm p' u' tris') magTri') = lsum (map (s_an sprms dsprm p u tris) magTri)).
  { apply (U (fun prm _ q un _ => tri_anisotropyEnergy (s_Ks prm) (s_uk prm) q (tinterpV un)) (fun prm _ q un _ => tri_anisotropyEnergy (s_Ks prm) (s_uk prm) q (tinterpV un))).
    intros prm d d' q q' un un' ph ph' pm S Lq Lu _ _. unfold tri_anisotropyEnergy, tNPI. f_equal.
    rewrite <- (sumn_shuffle 4 (tpoints pm) (fun j => tweight q j * (dot (tinterpV un j) (s_uk prm) * dot (tinterpV un j) (s_uk prm))) (tpoints_shuffle pm S)).
    apply sumn_ext. intros j Hj. rewrite (tweight_pm pm S q q'), (tinterpV_points pm S un un') by assumption. reflexivity. }
  assert (E6 : lsum (map (s_de mu0 p' u' phi' tris' dMs') magTri') = lsum (map (s_de mu0 p u phi tris dMs) magTri)).
  { apply (U (fun _ d q un ph => tri_demagEnergy mu0 d q (tinterpV un) (tinterp ph)) (fun _ d q un ph => tri_demagEnergy mu0 d q (tinterpV un) (tinterp ph))).
    intros prm d d' q q' un un' ph ph' pm S Lq Lu Lp N. rewrite !tri_demag_sum.
    assert (Q : forall (k : R) (a b c e A : vec) (s : R), 1 / 2 * mu0 * k * ((dot a A + dot b A + dot c A + s * dot e A) / 24) =
      mu0 * (dot (vadd (vadd (vadd a b) c) (vscale s e)) (vscale k A) / 48)).
    { clear. intros k [] [] [] [] [] s. vsimpl. field. }
    rewrite !Q, N. clear Q. f_equal. f_equal. f_equal.
    assert (Z3 : vadd (vadd (vscale (ph' 0%nat) (un' 0%nat)) (vscale (ph' 1%nat) (un' 1%nat))) (vscale (ph' 2%nat) (un' 2%nat)) = vadd (vadd (vscale (ph 0%nat) (un 0%nat)) (vscale (ph 1%nat) (un 1%nat))) (vscale (ph 2%nat) (un 2%nat))).
    { assert (V3 : forall f : nat -> vec, vadd (vadd (f 0%nat) (f 1%nat)) (f 2%nat) = vsumn 3 f). { intros f. unfold vsumn. cbn [sumn]. generalize (f 0%nat) (f 1%nat) (f 2%nat). intros. vsimpl. f_equal; ring. }
      rewrite (V3 (fun k => vscale (ph' k) (un' k))), (V3 (fun k => vscale (ph k) (un k))). rewrite <- (vsumn_shuffle 3 pm (fun k => vscale (ph k) (un k)) S). apply vsumn_ext. intros k Hk. rewrite Lp, Lu by exact Hk. reflexivity. }
    assert (Z2 : vadd (vadd (un' 0%nat) (un' 1%nat)) (un' 2%nat) = vadd (vadd (un 0%nat) (un 1%nat)) (un 2%nat)).
    { assert (V3 : forall f : nat -> vec, vadd (vadd (f 0%nat) (f 1%nat)) (f 2%nat) = vsumn 3 f). { intros f. unfold vsumn. cbn [sumn]. generalize (f 0%nat) (f 1%nat) (f 2%nat). intros. vsimpl. f_equal; ring. }
      rewrite !V3. rewrite <- (vsumn_shuffle 3 pm un S). apply vsumn_ext. exact Lu. }
    assert (Z1 : ph' 0%nat + ph' 1%nat + ph' 2%nat = ph 0%nat + ph 1%nat + ph 2%nat).
    { transitivity (sumn 3 ph'); [cbn [sumn]; ring|]. transitivity (sumn 3 ph); [|cbn [sumn]; ring]. rewrite <- (sumn_shuffle 3 pm ph S). apply sumn_ext. exact Lp. }
    rewrite Z1, Z2, Z3. reflexivity. }
  rewrite E1, E2, E3, E4, E5, E6. reflexivity.
Qed.

(** ** The hypotheses are met: a mesh of five nodes numbered backwards, the nodes of its tetrahedron and of its triangle in another order *)
Definition backwards (i : nat) : nat := (4 - i)%nat.
Definition back_pos (i : nat) : vec := two_pos (4 - i).
Example C114_nonvacuous :
  let prm := mkTprm (1 / 2) 1 1 3 (V 1 0 0) 0 vzero vzero vzero in
  let H := fun (_ : tet) (_ : nat) => V 0 1 2 in
  let mag' := [false; true; true; true; true] in
  let body := [(mkTet 0 1 2 3 0, prm)] in let body' := [(mkTet 3 4 1 2 7, prm)] in
  let faces := [mkSurf (mkTri 0 1 2 0) 1 2 (V 0 1 0)] in let faces' := [mkSurf (mkTri 3 2 4 5) 1 2 (V 0 1 0)] in
  renumbering (length one_mag) backwards /\ (forall i, (i < length one_mag)%nat -> nth (backwards i) mag' false = nth i one_mag false) /\
  same_at (length one_mag) backwards two_pos back_pos /\
  same_list (same_tet backwards) body body' /\ same_list (same_surf backwards) faces faces' /\
  same_list (same_cell backwards) [mkTet 0 1 2 3 0] [mkTet 3 4 1 2 0] /\
  same_list (same_face backwards two_pos back_pos) (combine [mkTri 0 1 2 0] [2]) (combine [mkTri 3 4 2 0] [- 2]) /\
  (exists y, step_solution 1 1 (1 / 2) (1 / 10) 1 one_mag two_pos uz ux no_phi no_phi H no_field ux uy body faces y) /\
  (exists y', step_solution 1 1 (1 / 2) (1 / 10) 1 mag' back_pos uz ux no_phi no_phi H no_field uy (fun i => vscale (-1) (ux i)) body' faces' y').
Proof.
  intros prm H mag' body body' faces faces'.
  assert (D : detJ (corner two_pos (mkTet 0 1 2 3 0)) = 1).
  { unfold detJ, det3, jac, edge1, edge2, edge3, corner, two_pos, vsub; simpl; ring. }
  assert (D' : detJ (corner back_pos (mkTet 3 4 1 2 7)) = 1).
  { unfold detJ, det3, jac, edge1, edge2, edge3, corner, back_pos, two_pos, vsub; simpl; ring. }
  assert (P1 : Permutation [4; 3; 2; 1]%nat [3; 4; 1; 2]%nat).
  { eapply perm_trans; [apply perm_swap|]. do 2 apply perm_skip. apply perm_swap. }
  split. { unfold renumbering, backwards. cbn [length one_mag]. split; intros; lia. }
  split. { intros i Hi. cbn [length one_mag] in Hi. do 5 (destruct i as [|i]; [reflexivity|]). lia. }
  split. { intros i Hi. cbn [length one_mag] in Hi. unfold back_pos, backwards. f_equal. lia. }
  split. { exists body'. split; [|apply Permutation_refl]. constructor; [|constructor]. split; [exact P1|reflexivity]. }
  split. { exists faces'. split; [|apply Permutation_refl]. constructor; [|constructor]. split; [|auto]. cbn. change (Permutation [4; 3; 2]%nat [3; 2; 4]%nat).
    eapply perm_trans; [apply perm_swap|]. apply perm_skip. apply perm_swap. }
  split. { exists [mkTet 3 4 1 2 0]. split; [|apply Permutation_refl]. constructor; [|constructor]. split; [exact P1|reflexivity]. }
  split. { exists [(mkTri 3 4 2 0, - 2)]. split; [|apply Permutation_refl]. constructor; [|constructor]. split; [apply perm_swap|]. split; [reflexivity|].
    unfold normal_vect, tri_corner, back_pos, two_pos. cbn [fst snd tri_nodes r0 r1 r2 nth Nat.sub]. vsimpl. f_equal; ring. }
  split.
  - apply C97_step_exists. apply single_problem; [rewrite D; lra|cbn; lra|unfold Abis; cbn; lra|].
    intros i _. unfold ux, uy, uz, orthonormal, unitary. repeat split; try (unfold dot; cbn [vx vy vz]; ring). unfold cross. cbn [vx vy vz]. f_equal; ring.
  - apply C97_step_exists. constructor; try lra.
    + intros d [<-|[]]. cbn [tet_data td_tet td_alpha td_pref]. rewrite D'. split; [lra|]. split; [cbn; lra|]. split.
      * unfold s_dt, Abis. cbn. lra.
      * unfold tet_nodes. cbn. repeat constructor; simpl; intuition lia.
    + intros d i [<-|[]] Hi. cbn in Hi |- *. lia.
    + intros i Hi. split.
      * intros Em. eexists. split; [left; reflexivity|]. cbn in Hi. destruct i as [|i]; [discriminate|]. do 4 (destruct i as [|i]; [cbn; tauto|]). lia.
      * intros (d & [<-|[]] & Hin). cbn in Hin. repeat (destruct Hin as [<-|Hin]; [reflexivity|]). contradiction.
    + intros i Hi Em. unfold ux, uy, uz, orthonormal, unitary. repeat split; try (unfold dot, vscale; cbn [vx vy vz]; ring). unfold cross, vscale. cbn [vx vy vz]. f_equal; ring.
Qed.

Print Assumptions C114_step.
Print Assumptions C114_fields.
Print Assumptions C114_energies.
