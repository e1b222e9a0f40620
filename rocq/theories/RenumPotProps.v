(** * Property C114, continued: the demagnetizing potential does not depend on the numbering of the mesh *)
From Coq Require Import List ZArith Arith Bool Lia Reals Lra Permutation.
From Flocq Require Import Core.
From Coquelicot Require RInt Hierarchy.
From Verif Require Import Vec Sums StdModel MeshModel ElemModel ElemProof AvgModel EnergyModel DemagModel DemagProof DemagProps PotentialProps ChargeProps RenumProps.
Import ListNotations.
Local Open Scope R_scope.

(** ** The potential of a charged triangle at a vertex does not depend on the order of the two other vertices *)
Section Swap.
Import Hierarchy RInt.
Lemma RInt_swap_ends : forall (f : R -> R) v, is_RInt f 0 1 v -> is_RInt (fun x => f (1 - x)) 0 1 v.
Proof.
  intros f v I. apply is_RInt_swap in I.
  replace v with (opp (opp v)) by (apply Ropp_involutive).
  apply (is_RInt_ext (fun y => opp (scal (-1) (f (-1 * y + 1))))).
  - intros x _. change (- (-1 * f (-1 * x + 1)) = f (1 - x)). replace (-1 * x + 1) with (1 - x) by ring. ring.
  - apply (is_RInt_opp (V := R_NormedModule) (fun y => scal (-1) (f (-1 * y + 1))) 0 1 (opp v)). apply (is_RInt_comp_lin (V := R_NormedModule) f (-1) 1 0 1 (opp v)).
    replace (-1 * 0 + 1) with 1 by ring. replace (-1 * 1 + 1) with 0 by ring. exact I.
Qed.
Lemma integral_swap : forall f v, integral f 0 1 v -> integral (fun x => f (1 - x)) 0 1 v.
Proof.
  intros f v [pr E].
  assert (I : is_RInt f 0 1 v). { rewrite <- E, <- RInt_Reals. apply (RInt_correct f). apply ex_RInt_Reals_1. exact pr. }
  apply RInt_swap_ends in I.
  assert (X : ex_RInt (fun x => f (1 - x)) 0 1) by (exists v; exact I).
  exists (ex_RInt_Reals_0 _ _ _ X). rewrite <- RInt_Reals. apply is_RInt_unique. exact I.
Qed.
End Swap.

Theorem C114_vertex_order : forall a b c sa sb sc V, potential_of_triangle a b c sa sb sc V -> potential_of_triangle a c b sa sc sb V.
Proof.
  intros a b c sa sb sc V (g & G & H1 & H2 & H3 & H4 & H5).
  assert (Spoke : forall tau, spoke a c b tau = spoke a b c (1 - tau)).
  { intros tau. unfold spoke. generalize (vsub b a) (vsub c a). intros [x1 x2 x3] [y1 y2 y3]. vsimpl. f_equal; ring. }
  exists (fun rho tau => g rho (1 - tau)), (fun tau => G (1 - tau)). split; [|split; [|split; [|split]]].
  - intros rho tau Hr. rewrite H1 by exact Hr. f_equal; [f_equal|].
    + unfold affine_density. ring.
    + unfold point. rewrite Spoke. reflexivity.
    + unfold area_element, along_rho, along_tau. rewrite Spoke. unfold vnorm. f_equal.
      generalize (spoke a b c (1 - tau)). intros [x1 x2 x3]. destruct b as [b1 b2 b3], c as [c1 c2 c3]. unfold dot, cross, vscale, vsub. cbn [vx vy vz]. ring.
  - intros tau. apply H2.
  - intros tau. apply H3.
  - intros x. apply (continuity_pt_comp (fun t => 1 - t) G); [|apply H4].
    apply (continuity_pt_minus (fun _ => 1) (fun t => t)); [apply continuity_pt_const; intros ? ?; reflexivity|apply derivable_continuous_pt, derivable_pt_id].
  - apply integral_swap. exact H5.
Qed.

(** ** One triangle *)
Definition around (pm : nat -> nat) : Prop := forall i, (i < 3)%nat -> pm (next3 i) = next3 (pm i).
Definition backward (pm : nat -> nat) : Prop := forall i, (i < 3)%nat -> pm (next3 i) = next3 (next3 (pm i)).

Lemma shuffle3_cases : forall pm, shuffle 3 pm -> around pm \/ backward pm.
Proof.
  intros pm [B I]. pose proof (B 0%nat ltac:(lia)) as B0. pose proof (B 1%nat ltac:(lia)) as B1. pose proof (B 2%nat ltac:(lia)) as B2.
  assert (N01 : pm 0%nat <> pm 1%nat) by (intros E; apply I in E; lia). assert (N02 : pm 0%nat <> pm 2%nat) by (intros E; apply I in E; lia). assert (N12 : pm 1%nat <> pm 2%nat) by (intros E; apply I in E; lia).
  unfold around, backward.
  assert (C : (pm (next3 0) = next3 (pm 0%nat) /\ pm (next3 1) = next3 (pm 1%nat) /\ pm (next3 2) = next3 (pm 2%nat)) \/
              (pm (next3 0) = next3 (next3 (pm 0%nat)) /\ pm (next3 1) = next3 (next3 (pm 1%nat)) /\ pm (next3 2) = next3 (next3 (pm 2%nat)))).
  { cbn [next3]. clear B I. revert B0 B1 B2 N01 N02 N12. generalize (pm 0%nat) (pm 1%nat) (pm 2%nat). intros a b c.
    destruct a as [|[|[|a]]]; intros; try lia; destruct b as [|[|[|b]]]; try lia; destruct c as [|[|[|c]]]; try lia; cbn [next3]; auto. }
  destruct C as [(C0 & C1 & C2)|(C0 & C1 & C2)]; [left|right]; intros i Hi; destruct i as [|[|[|i]]]; try lia; assumption.
Qed.

Section Face.
Variables (pm : nat -> nat) (q q' u u' : nat -> vec) (d d' : R).
Hypothesis PM : shuffle 3 pm.
Hypothesis Lq : forall k, (k < 3)%nat -> q' k = q (pm k).
Hypothesis Lu : forall k, (k < 3)%nat -> u' k = u (pm k).
Hypothesis HS : 0 < calc_surf q.
Hypothesis HN : vscale d' (normal_vect q') = vscale d (normal_vect q).

(** the sign of the order *)
Lemma face_sign : exists e, ((e = 1 /\ around pm) \/ (e = -1 /\ backward pm)) /\ normal_vect q' = vscale e (normal_vect q).
Proof.
  pose proof (normal_rotation q' 0%nat ltac:(lia)) as R0. cbn [next3] in R0. rewrite <- R0. rewrite !Lq by lia.
  pose proof (normal_rotation q (pm 0%nat) (proj1 PM 0%nat ltac:(lia))) as R1. rewrite <- R1.
  destruct (shuffle3_cases pm PM) as [A|A].
  - exists 1. split; [left; auto|]. pose proof (A 0%nat ltac:(lia)) as A0. pose proof (A 1%nat ltac:(lia)) as A1. cbn [next3] in A0, A1. rewrite A1, A0.
    match goal with |- ?x = _ => destruct x; vsimpl; f_equal; ring end.
  - exists (-1). split; [right; auto|]. pose proof (A 0%nat ltac:(lia)) as A0. pose proof (A 1%nat ltac:(lia)) as A1. cbn [next3] in A0, A1. rewrite A1, A0.
    assert (N3 : next3 (next3 (next3 (next3 (pm 0%nat)))) = next3 (pm 0%nat)).
    { pose proof (proj1 PM 0%nat ltac:(lia)) as B. destruct (pm 0%nat) as [|[|[|x]]]; try lia; reflexivity. }
    rewrite N3. generalize (q (pm 0%nat)) (q (next3 (pm 0%nat))) (q (next3 (next3 (pm 0%nat)))). clear. intros [x1 x2 x3] [y1 y2 y3] [z1 z2 z3]. unfold cross, vscale, vsub. cbn [vx vy vz]. f_equal; ring.
Qed.

Lemma normal_pos : 0 < dot (normal_vect q) (normal_vect q).
Proof.
  pose proof HS as H. unfold calc_surf, vnorm in H. pose proof (dot_self_nonneg (normal_vect q)) as N. destruct N as [N|N]; [exact N|]. rewrite <- N, sqrt_0 in H. lra.
Qed.

(** [face_sign], with the jump and the unit normal *)
Lemma face_facts : exists e, ((e = 1 /\ around pm) \/ (e = -1 /\ backward pm)) /\ d' = e * d /\ calc_norm q' = vscale e (calc_norm q).
Proof.
  destruct face_sign as (e & C & N). exists e. split; [exact C|]. pose proof normal_pos as P. assert (E2 : e * e = 1) by (destruct C as [[-> _]|[-> _]]; ring).
  split.
  - rewrite N in HN. assert (D : dot (vscale d' (vscale e (normal_vect q))) (normal_vect q) = dot (vscale d (normal_vect q)) (normal_vect q)) by (rewrite HN; reflexivity).
    rewrite !dot_scale_l in D. assert (d' * e = d). { apply (Rmult_eq_reg_r (dot (normal_vect q) (normal_vect q))); lra. } rewrite <- H. transitivity (d' * (e * e)); [rewrite E2|]; ring.
  - unfold calc_norm. rewrite N. unfold vnormalize.
    assert (Q : dot (vscale e (normal_vect q)) (vscale e (normal_vect q)) = dot (normal_vect q) (normal_vect q)). { rewrite dot_scale_l, dot_scale_r, <- Rmult_assoc, E2. ring. }
    rewrite Q. destruct (Rlt_dec 0 (dot (normal_vect q) (normal_vect q))); [|lra]. generalize (/ sqrt (dot (normal_vect q) (normal_vect q))). intros k.
    generalize (normal_vect q). clear. intros [x1 x2 x3]. unfold vscale. cbn [vx vy vz]. f_equal; ring.
Qed.

Lemma charges_face : forall j, (j < 4)%nat -> tri_charges d' q' u' j = tri_charges d q u (tpoints pm j).
Proof.
  intros j Hj. destruct face_facts as (e & C & -> & N). assert (E2 : e * e = 1) by (destruct C as [[-> _]|[-> _]]; ring).
  assert (F : forall d (q u : nat -> vec) j, tri_charges d q u j = d * (tweight q j * dot (tinterpV u j) (calc_norm q))).
  { clear. intros. unfold tri_charges. destruct (Req_bool_spec d 0) as [->|]; [ring|reflexivity]. }
  rewrite !F, N, (tweight_pm pm PM q q'), (tinterpV_points pm PM u u') by assumption. rewrite dot_scale_r.
  transitivity ((e * e) * (d * (tweight q (tpoints pm j) * dot (tinterpV u (tpoints pm j)) (calc_norm q)))); [ring|rewrite E2; ring].
Qed.

Lemma vertex_face : forall i, (i < 3)%nat ->
  tri_potential d' q' (fun a => dot (u' a) (calc_norm q')) i = tri_potential d q (fun a => dot (u a) (calc_norm q)) (pm i).
Proof.
  intros i Hi. destruct face_facts as (e & C & -> & N).
  assert (Hni : (next3 i < 3)%nat) by (destruct i as [|[|[|i]]]; cbn; lia). assert (Hnni : (next3 (next3 i) < 3)%nat) by (destruct i as [|[|[|i]]]; cbn; lia).
  assert (HSq' : calc_surf q' = calc_surf q) by (apply (surf_pm pm PM); exact Lq).
  assert (Bi : (pm i < 3)%nat) by (apply PM; exact Hi).
  destruct C as [[-> A]|[-> A]].
  - unfold tri_potential. rewrite HSq', !Lq, !Lu by assumption. rewrite (A (next3 i) Hni), (A i Hi), N.
    replace (vscale 1 (calc_norm q)) with (calc_norm q) by (clear; destruct (calc_norm q) as [x1 x2 x3]; unfold vscale; cbn [vx vy vz]; f_equal; ring). rewrite Rmult_1_l. reflexivity.
  - transitivity (tri_potential d q' (fun a => dot (u' a) (calc_norm q)) i).
    { unfold tri_potential. rewrite N, !dot_scale_r. unfold Rdiv. ring. }
    destruct (C86_vertex_potential d q' (fun a => dot (u' a) (calc_norm q)) i Hi ltac:(rewrite HSq'; exact HS)) as (V' & P' & ->).
    destruct (C86_vertex_potential d q (fun a => dot (u a) (calc_norm q)) (pm i) Bi HS) as (V & P & ->). f_equal.
    rewrite !Lq, !Lu in P' by assumption. rewrite (A (next3 i) Hni), (A i Hi) in P'.
    assert (N3 : next3 (next3 (next3 (next3 (pm i)))) = next3 (pm i)) by (destruct (pm i) as [|[|[|x]]]; try lia; reflexivity).
    rewrite N3 in P'. apply C114_vertex_order in P'. eapply C86_integral_unique; eassumption.
Qed.
End Face.

(** ** The potential at a node *)
(** what an element brings, as functions of the element *)
Definition cell_sum (g : R -> R) (p : nat -> vec) (Ms : list R) (u : nat -> vec) (x : vec) (t : tet) : R :=
  sumn 5 (fun j => g (tet_charges (nth (t_reg t) Ms 0) (corner p t) (corner u t) j) / vnorm (vsub x (interpV (corner p t) j))).
Definition face_sum (g : R -> R) (p u : nat -> vec) (x : vec) (f : tri * R) : R :=
  sumn 4 (fun j => g (tri_charges (snd f) (tri_corner p (fst f)) (tri_corner u (fst f)) j) / vnorm (vsub x (tinterpV (tri_corner p (fst f)) j))).
Definition face_vertex (p u : nat -> vec) (f : tri * R) (i : nat) : R :=
  let q := tri_corner p (fst f) in tri_potential (snd f) q (fun a => dot (tri_corner u (fst f) a) (calc_norm q)) i.
Definition face_part (p u : nat -> vec) (a : nat) (f : tri * R) : R :=
  if Nat.eqb a (r0 (fst f)) then face_vertex p u f 0 else if Nat.eqb a (r1 (fst f)) then face_vertex p u f 1 else if Nat.eqb a (r2 (fst f)) then face_vertex p u f 2
  else face_sum (fun c => c) p u (p a) f.
Definition entries (tris : list tri) (dMs : list R) (l : list nat) : list (tri * R) := map (fun k => (nth k tris (mkTri 0 0 0 0), nth k dMs 0)) l.

Lemma face_part_vertex : forall p u f i, NoDup (tri_nodes (fst f)) -> (i < 3)%nat -> face_part p u (nth i (tri_nodes (fst f)) 0%nat) f = face_vertex p u f i.
Proof.
  intros p u [f d] i H Hi. unfold face_part. cbn [fst]. unfold tri_nodes in *. cbn [fst] in H.
  inversion H as [|? ? N1 H1]; subst. inversion H1 as [|? ? N2 _]; subst. cbn [In] in N1, N2.
  destruct i as [|[|[|i]]]; try lia; cbn [nth].
  - rewrite Nat.eqb_refl. reflexivity.
  - destruct (Nat.eqb_spec (r1 f) (r0 f)) as [E|_]; [exfalso; apply N1; left; congruence|]. rewrite Nat.eqb_refl. reflexivity.
  - destruct (Nat.eqb_spec (r2 f) (r0 f)) as [E|_]; [exfalso; apply N1; right; left; congruence|].
    destruct (Nat.eqb_spec (r2 f) (r1 f)) as [E|_]; [exfalso; apply N2; left; congruence|]. rewrite Nat.eqb_refl. reflexivity.
Qed.
Lemma face_part_out : forall p u f a, ~ In a (tri_nodes (fst f)) -> face_part p u a f = face_sum (fun c => c) p u (p a) f.
Proof.
  intros p u [f d] a H. unfold face_part. cbn [fst] in *. unfold tri_nodes in H. cbn [In] in H.
  destruct (Nat.eqb_spec a (r0 f)); [exfalso; apply H; auto|]. destruct (Nat.eqb_spec a (r1 f)); [exfalso; apply H; auto|]. destruct (Nat.eqb_spec a (r2 f)); [exfalso; apply H; auto|reflexivity].
Qed.

Section Meshes.
Variables (n : nat) (sg : nat -> nat) (p p' u u' : nat -> vec) (Ms : list R).
Hypothesis SG : renumbering n sg.
Hypothesis Sp : same_at n sg p p'.
Hypothesis Su : same_at n sg u u'.

Lemma cell_sum_same : forall g x t t', (forall a, In a (tet_nodes t) -> (a < n)%nat) -> 0 < detJ (corner p t) -> 0 < detJ (corner p' t') -> same_cell sg t t' ->
  cell_sum g p' Ms u' x t' = cell_sum g p Ms u x t.
Proof.
  intros g x t t' Hn D D' [P E]. unfold cell_sum. rewrite E. destruct (perm_corners _ _ _ P) as (pm & S & L & Ec). change (length (tet_nodes t)) with 4%nat in S, Ec.
  assert (Lq : forall k, (k < 4)%nat -> corner p' t' k = corner p t (pm k)) by (apply (corner_same n sg); auto).
  assert (Lu : forall k, (k < 4)%nat -> corner u' t' k = corner u t (pm k)) by (apply (corner_same n sg); auto).
  etransitivity; [|apply (sumn_shuffle 5 (points pm) _ (points_shuffle pm S))]. apply sumn_ext. intros j Hj. cbv beta.
  rewrite (interpV_points pm S (corner p t) (corner p' t')) by assumption. f_equal. f_equal. unfold tet_charges.
  rewrite (weight_pm pm S _ _ Lq D D' j Hj). f_equal. unfold divergence.
  assert (F : forall c : vec -> R, sumn 4 (fun i => c (corner u' t' i) * c (da (corner p' t') i)) = sumn 4 (fun i => c (corner u t i) * c (da (corner p t) i))).
  { intros c. rewrite <- (sumn_shuffle 4 pm (fun i => c (corner u t i) * c (da (corner p t) i)) S). apply sumn_ext. intros k Hk. rewrite Lu, (da_pm pm S _ _ Lq D D') by exact Hk. reflexivity. }
  rewrite (F vx), (F vy), (F vz). reflexivity.
Qed.

Lemma face_corner : forall (f f' : tri * R) pm, (forall a, In a (tri_nodes (fst f)) -> (a < n)%nat) -> shuffle 3 pm ->
  (forall k, (k < 3)%nat -> nth k (tri_nodes (fst f')) 0%nat = sg (nth (pm k) (tri_nodes (fst f)) 0%nat)) ->
  forall (X : Type) (y y' : nat -> X), same_at n sg y y' -> forall k, (k < 3)%nat -> tri_corner y' (fst f') k = tri_corner y (fst f) (pm k).
Proof. intros f f' pm Hn S Ec X y y' Sy k Hk. unfold tri_corner. rewrite Ec by exact Hk. apply Sy, Hn, nth_In, S, Hk. Qed.

Lemma face_sum_same : forall g x f f', (forall a, In a (tri_nodes (fst f)) -> (a < n)%nat) -> 0 < calc_surf (tri_corner p (fst f)) -> same_face sg p p' f f' ->
  face_sum g p' u' x f' = face_sum g p u x f.
Proof.
  intros g x f f' Hn HS (P & _ & N). destruct (perm_corners _ _ _ P) as (pm & S & L & Ec). change (length (tri_nodes (fst f))) with 3%nat in S, Ec.
  pose proof (face_corner f f' pm Hn S Ec) as C. unfold face_sum.
  etransitivity; [|apply (sumn_shuffle 4 (tpoints pm) _ (tpoints_shuffle pm S))]. apply sumn_ext. intros j Hj. cbv beta.
  rewrite (tinterpV_points pm S (tri_corner p (fst f)) (tri_corner p' (fst f'))) by (auto using C).
  rewrite (charges_face pm (tri_corner p (fst f)) (tri_corner p' (fst f')) (tri_corner u (fst f)) (tri_corner u' (fst f')) (snd f) (snd f')); auto; apply C; assumption.
Qed.

Lemma face_part_same : forall f f' a, (a < n)%nat -> NoDup (tri_nodes (fst f)) -> (forall a, In a (tri_nodes (fst f)) -> (a < n)%nat) -> 0 < calc_surf (tri_corner p (fst f)) ->
  same_face sg p p' f f' -> face_part p' u' (sg a) f' = face_part p u a f.
Proof.
  intros f f' a Ha ND Hn HS SF. pose proof SF as (P & _ & N). destruct (perm_corners _ _ _ P) as (pm & S & L & Ec). change (length (tri_nodes (fst f))) with 3%nat in S, Ec.
  pose proof (face_corner f f' pm Hn S Ec) as C.
  assert (ND' : NoDup (tri_nodes (fst f'))).
  { apply (Permutation_NoDup P). clear - SG ND Hn. induction (tri_nodes (fst f)) as [|b l IH]; [constructor|]. inversion ND; subst. cbn [map]. constructor.
    - intros I. apply in_map_iff in I. destruct I as (c & E & Ic). apply SG in E; [subst; contradiction| |]; apply Hn; [right; exact Ic|left; reflexivity].
    - apply IH; [assumption|]. intros c Ic. apply Hn. right. exact Ic. }
  destruct (in_dec Nat.eq_dec a (tri_nodes (fst f))) as [I|O].
  - destruct (In_nth _ _ 0%nat I) as (i & Hi & Ei). change (length (tri_nodes (fst f))) with 3%nat in Hi.
    destruct (shuffle_onto 3 pm i S Hi) as (k & Hk & Ek). rewrite <- Ei. rewrite face_part_vertex by assumption.
    replace (sg (nth i (tri_nodes (fst f)) 0%nat)) with (nth k (tri_nodes (fst f')) 0%nat) by (rewrite Ec, Ek by exact Hk; reflexivity).
    rewrite face_part_vertex by assumption. unfold face_vertex. rewrite <- Ek.
    apply (vertex_face pm (tri_corner p (fst f)) (tri_corner p' (fst f')) (tri_corner u (fst f)) (tri_corner u' (fst f')) (snd f) (snd f')); auto; apply C; assumption.
  - rewrite !face_part_out.
    + rewrite Sp by exact Ha. apply face_sum_same; assumption.
    + exact O.
    + intros I. apply (Permutation_in _ (Permutation_sym P)) in I. apply in_map_iff in I. destruct I as (b & E & Ib). apply SG in E; [subst; contradiction|apply Hn; exact Ib|exact Ha].
Qed.

Variables (tets tets' : list tet) (tris tris' : list tri) (dMs dMs' : list R) (magTet magTet' magTri magTri' : list nat).
Hypothesis ST : same_list (same_cell sg) (nth_tets tets magTet) (nth_tets tets' magTet').
Hypothesis SF : same_list (same_face sg p p') (entries tris dMs magTri) (entries tris' dMs' magTri').
Hypothesis HT : forall t, In t (nth_tets tets magTet) -> 0 < detJ (corner p t) /\ forall a, In a (tet_nodes t) -> (a < n)%nat.
Hypothesis HT' : forall t, In t (nth_tets tets' magTet') -> 0 < detJ (corner p' t).
Hypothesis HF : forall f, In f (entries tris dMs magTri) -> 0 < calc_surf (tri_corner p (fst f)) /\ NoDup (tri_nodes (fst f)) /\ forall a, In a (tri_nodes (fst f)) -> (a < n)%nat.

Lemma node_potential_same : forall a, (a < n)%nat ->
  node_potential p' tets' tris' Ms dMs' u' magTet' magTri' (sg a) = node_potential p tets tris Ms dMs u magTet magTri a.
Proof.
  intros a Ha. unfold node_potential. f_equal. f_equal.
  - transitivity (lsum (map (cell_sum (fun c => c) p' Ms u' (p a)) (nth_tets tets' magTet'))).
    { unfold nth_tets. rewrite map_map. rewrite <- (Sp a Ha). reflexivity. }
    transitivity (lsum (map (cell_sum (fun c => c) p Ms u (p a)) (nth_tets tets magTet))); [|unfold nth_tets; rewrite map_map; reflexivity].
    apply (lsum_same (same_cell sg)); [exact ST|]. intros t t' I I' E. destruct (HT t I). apply cell_sum_same; auto.
  - transitivity (lsum (map (face_part p' u' (sg a)) (entries tris' dMs' magTri'))); [unfold entries; rewrite map_map; reflexivity|].
    transitivity (lsum (map (face_part p u a) (entries tris dMs magTri))); [|unfold entries; rewrite map_map; reflexivity].
    apply (lsum_same (same_face sg p p')); [exact SF|]. intros f f' I _ E. destruct (HF f I) as (A & B & C). apply face_part_same; auto.
Qed.

Lemma coulomb_abs_same : forall a, (a < n)%nat ->
  coulomb_abs (p' (sg a)) (charged_points p' tets' tris' Ms dMs' u' magTet' magTri') = coulomb_abs (p a) (charged_points p tets tris Ms dMs u magTet magTri).
Proof.
  assert (F : forall x p u tets tris dMs magTet magTri, coulomb_abs x (charged_points p tets tris Ms dMs u magTet magTri) =
    lsum (map (cell_sum Rabs p Ms u x) (nth_tets tets magTet)) + lsum (map (face_sum Rabs p u x) (entries tris dMs magTri))).
  { clear. intros. unfold coulomb_abs, charged_points. rewrite map_app, lsum_app, !lsum_flat_map. unfold nth_tets, entries. rewrite !map_map. f_equal; f_equal; apply map_ext; intros k; rewrite map_map; cbn [fst snd].
    - unfold cell_sum. rewrite sumn_lsum. reflexivity.
    - unfold face_sum. rewrite sumn_lsum. reflexivity. }
  intros a Ha. rewrite !F, (Sp a Ha). f_equal.
  - apply (lsum_same (same_cell sg)); [exact ST|]. intros t t' I I' E. destruct (HT t I). apply cell_sum_same; auto.
  - apply (lsum_same (same_face sg p p')); [exact SF|]. intros f f' I _ E. destruct (HF f I) as (A & B & C). apply face_sum_same; auto.
Qed.
End Meshes.

(** ** C114: the potential *)
(** Two meshes of the same sample: the nodes are numbered by [sg], the magnetic tetrahedra and triangles are the same in any order, with
    their nodes in any order; a triangle whose order is reversed has the opposite jump of magnetization ([same_face]). The potential that
    the program approximates at a node ([node_potential], C66) is the same in both. *)
Theorem C114_potential : forall n sg p p' u u' Ms tets tets' tris tris' dMs dMs' magTet magTet' magTri magTri',
  renumbering n sg -> same_at n sg p p' -> same_at n sg u u' ->
  same_list (same_cell sg) (nth_tets tets magTet) (nth_tets tets' magTet') ->
  same_list (same_face sg p p') (entries tris dMs magTri) (entries tris' dMs' magTri') ->
  (forall t, In t (nth_tets tets magTet) -> 0 < detJ (corner p t) /\ forall a, In a (tet_nodes t) -> (a < n)%nat) ->
  (forall t, In t (nth_tets tets' magTet') -> 0 < detJ (corner p' t)) ->
  (forall f, In f (entries tris dMs magTri) -> 0 < calc_surf (tri_corner p (fst f)) /\ NoDup (tri_nodes (fst f)) /\ forall a, In a (tri_nodes (fst f)) -> (a < n)%nat) ->
  forall a, (a < n)%nat ->
  node_potential p' tets' tris' Ms dMs' u' magTet' magTri' (sg a) = node_potential p tets tris Ms dMs u magTet magTri a.
Proof. intros. eapply node_potential_same; eassumption. Qed.

Lemma entries_in : forall tris dMs l k, In k l -> In (nth k tris (mkTri 0 0 0 0), nth k dMs 0) (entries tris dMs l).
Proof. intros. unfold entries. apply (in_map (fun k => (nth k tris (mkTri 0 0 0 0), nth k dMs 0))). assumption. Qed.

(** The potentials computed in both meshes, whatever the trees and with two runs of a fast multipole method of relative accuracy [eps],
    differ at each magnetic node by no more than twice the error allowed to one of them; they are equal if it is exact. *)
Theorem C114_computed_potential : forall sg p p' u u' Ms tets tets' tris tris' dMs dMs' magTet magTet' magTri magTri' magNode magNode'
    norm norm' c c' exec exec' eps leaves leaves' phi phi' r r',
  renumbering (length magNode) sg -> length magNode' = length magNode -> (forall a, (a < length magNode)%nat -> nth (sg a) magNode' false = nth a magNode false) ->
  same_at (length magNode) sg p p' -> same_at (length magNode) sg u u' ->
  same_list (same_cell sg) (nth_tets tets magTet) (nth_tets tets' magTet') ->
  same_list (same_face sg p p') (entries tris dMs magTri) (entries tris' dMs' magTri') ->
  (forall t, In t (nth_tets tets magTet) -> 0 < detJ (corner p t) /\ forall a, In a (tet_nodes t) -> (a < length magNode)%nat) ->
  (forall t, In t (nth_tets tets' magTet') -> 0 < detJ (corner p' t)) ->
  (forall f, In f (entries tris dMs magTri) ->
     0 < calc_surf (tri_corner p (fst f)) /\ NoDup (tri_nodes (fst f)) /\ forall a, In a (tri_nodes (fst f)) -> (a < length magNode)%nat) ->
  0 < norm -> 0 < norm' -> accurate eps exec -> accurate eps exec' ->
  tree_of (sources p norm c tets tris (length magNode) magTet magTri) (targets p norm c magNode) leaves ->
  tree_of (sources p' norm' c' tets' tris' (length magNode') magTet' magTri') (targets p' norm' c' magNode') leaves' ->
  (forall a yq, (a < length magNode)%nat -> In yq (charged_points p tets tris Ms dMs u magTet magTri) -> p a <> fst yq) ->
  (forall a yq, (a < length magNode)%nat -> In yq (charged_points p' tets' tris' Ms dMs' u' magTet' magTri') -> p' a <> fst yq) ->
  length phi = length magNode -> length phi' = length magNode ->
  demag p norm tets tris Ms dMs exec magNode u magTet magTri leaves phi = Some r ->
  demag p' norm' tets' tris' Ms dMs' exec' magNode' u' magTet' magTri' leaves' phi' = Some r' ->
  forall a, (a < length magNode)%nat -> nth a magNode false = true ->
  Rabs (nth (sg a) r' 0 - nth a r 0) <= 2 * (eps * coulomb_abs (p a) (charged_points p tets tris Ms dMs u magTet magTri) / (4 * PI)).
Proof.
  intros sg p p' u u' Ms tets tets' tris tris' dMs dMs' magTet magTet' magTri magTri' magNode magNode' norm norm' c c' exec exec' eps leaves leaves' phi phi' r r'
    SG LM MN Sp Su ST SF HT HT' HF N N' X X' T T' G G' Lp Lp' R R' a Ha Ma.
  assert (B : forall a, In a (seq 0 (length magNode)) -> (a < length magNode)%nat) by (intros b Hb; apply in_seq in Hb; lia).
  destruct (C66_node_potential p norm c tets tris Ms dMs exec eps u magTet magTri magNode leaves phi N X T) as (r1 & E1 & _ & H1); auto.
  { intros k Hk. destruct (HF _ (entries_in tris dMs magTri k Hk)) as (_ & D1 & D2). split; assumption. }
  destruct (C66_node_potential p' norm' c' tets' tris' Ms dMs' exec' eps u' magTet' magTri' magNode' leaves' phi' N' X' T') as (r2 & E2 & _ & H2).
  { intros k Hk. pose proof (entries_in tris' dMs' magTri' k Hk) as I. destruct SF as (m & F & P). apply (Permutation_in _ (Permutation_sym P)) in I.
    assert (Y : exists f, In f (entries tris dMs magTri) /\ same_face sg p p' f (nth k tris' (mkTri 0 0 0 0), nth k dMs' 0)).
    { clear - F I. induction F as [|x y l m Sm F IH]; [contradiction|]. destruct I as [<-|I]; [exists x; split; [left; reflexivity|exact Sm]|].
      destruct (IH I) as (f & Hf & Sf). exists f. split; [right; exact Hf|exact Sf]. }
    destruct Y as (f & Hf & (Pf & _)). destruct (HF f Hf) as (_ & D1 & D2). cbn [fst] in Pf. split.
    - apply (Permutation_NoDup Pf). clear - SG D1 D2. induction (tri_nodes (fst f)) as [|b l IH]; [constructor|]. inversion D1; subst. cbn [map]. constructor.
      + intros I. apply in_map_iff in I. destruct I as (e & E & Ie). apply SG in E; [subst; contradiction| |]; apply D2; [right; exact Ie|left; reflexivity].
      + apply IH; [assumption|]. intros e Ie. apply D2. right. exact Ie.
    - intros i Hi. apply (Permutation_in _ (Permutation_sym Pf)) in Hi. apply in_map_iff in Hi. destruct Hi as (b & <- & Hb). rewrite LM. apply SG, D2, Hb. }
  { intros b yq Hb. rewrite LM in Hb. apply G'. exact Hb. }
  { rewrite LM. exact Lp'. }
  rewrite R in E1. rewrite R' in E2. injection E1 as <-. injection E2 as <-.
  destruct (H1 a Ha) as [Q1 _]. specialize (Q1 Ma). destruct (H2 (sg a) ltac:(rewrite LM; apply SG; exact Ha)) as [Q2 _]. specialize (Q2 ltac:(rewrite MN by exact Ha; exact Ma)).
  rewrite (node_potential_same (length magNode) sg p p' u u' Ms SG Sp Su tets tets' tris tris' dMs dMs' magTet magTet' magTri magTri' ST SF HT HT' HF a Ha) in Q2.
  rewrite (coulomb_abs_same (length magNode) sg p p' u u' Ms Sp Su tets tets' tris tris' dMs dMs' magTet magTet' magTri magTri' ST SF HT HT' HF a Ha) in Q2.
  revert Q1 Q2. generalize (node_potential p tets tris Ms dMs u magTet magTri a) (eps * coulomb_abs (p a) (charged_points p tets tris Ms dMs u magTet magTri) / (4 * PI)) (nth a r 0) (nth (sg a) r' 0).
  clear. intros v b x y Q1 Q2. unfold Rabs in *. repeat destruct Rcase_abs; lra.
Qed.

(** ** The hypotheses are met: the example of C66, numbered backwards, with the triangle reversed *)
Definition turn_p (i : nat) : vec := nth i [V 0 0 1; V 0 1 0; V 1 0 0; V 0 0 0] vzero.
Example C114_potential_nonvacuous :
  let sg := fun i => (3 - i)%nat in let u := fun i => match i with O => V 0 0 1 | 1%nat => V 1 0 0 | _ => V 0 1 0 end in let u' := fun i => u (3 - i)%nat in
  let tets' := [mkTet 2 3 0 1 0] in let tris' := [mkTri 1 3 2 0] in
  renumbering 4 sg /\ same_at 4 sg ex_p turn_p /\ same_at 4 sg u u' /\
  same_list (same_cell sg) (nth_tets ex_tets [0%nat]) (nth_tets tets' [0%nat]) /\
  same_list (same_face sg ex_p turn_p) (entries ex_tris [1] [0%nat]) (entries tris' [-1] [0%nat]) /\
  (forall t, In t (nth_tets ex_tets [0%nat]) -> 0 < detJ (corner ex_p t) /\ forall a, In a (tet_nodes t) -> (a < 4)%nat) /\
  (forall t, In t (nth_tets tets' [0%nat]) -> 0 < detJ (corner turn_p t)) /\
  (forall f, In f (entries ex_tris [1] [0%nat]) -> 0 < calc_surf (tri_corner ex_p (fst f)) /\ NoDup (tri_nodes (fst f)) /\ forall a, In a (tri_nodes (fst f)) -> (a < 4)%nat) /\
  (forall a yq, (a < 4)%nat -> In yq (charged_points turn_p tets' tris' [1] [-1] u' [0%nat] [0%nat]) -> turn_p a <> fst yq).
Proof.
  intros sg u u' tets' tris'.
  split. { unfold renumbering, sg. split; intros; lia. }
  split. { intros i Hi. unfold sg. do 4 (destruct i as [|i]; [reflexivity|]). lia. }
  split. { intros i Hi. unfold u', sg. f_equal. lia. }
  split. { exists tets'. split; [|apply Permutation_refl]. constructor; [|constructor]. split; [|reflexivity]. change (Permutation [3; 2; 1; 0]%nat [2; 3; 0; 1]%nat).
    eapply perm_trans; [apply perm_swap|]. do 2 apply perm_skip. apply perm_swap. }
  split. { exists [(mkTri 1 3 2 0, -1)]. split; [|apply Permutation_refl]. constructor; [|constructor]. split; [|split; [reflexivity|]].
    - change (Permutation [3; 1; 2]%nat [1; 3; 2]%nat). apply perm_swap.
    - unfold normal_vect, tri_corner, turn_p, ex_p, ex_nodes. cbn [fst snd tri_nodes r0 r1 r2 nth ex_tris]. vsimpl. f_equal; ring. }
  split. { intros t [<-|[]]. split; [|intros a; cbn; lia]. unfold detJ, det3, jac, edge1, edge2, edge3, corner, ex_p, ex_nodes, vsub; simpl; lra. }
  split. { intros t [<-|[]]. unfold detJ, det3, jac, edge1, edge2, edge3, corner, turn_p, vsub; simpl; lra. }
  split. { intros f [<-|[]]. cbn [fst ex_tris nth tri_nodes r0 r1 r2]. split; [|split; [repeat constructor; simpl; lia|intros a; simpl; lia]].
    unfold calc_surf, vnorm, normal_vect, tri_corner, ex_p, ex_nodes. cbn [tri_nodes r0 r1 r2 nth]. apply Rmult_lt_0_compat; [lra|]. apply sqrt_lt_R0. unfold dot, cross, vsub. cbn [vx vy vz]. lra. }
  intros a yq Ha Hy. unfold charged_points in Hy. cbn [flat_map] in Hy. rewrite !app_nil_r in Hy.
  apply in_app_iff in Hy. destruct Hy as [H|H]; apply in_map_iff in H; destruct H as (j & <- & Hj); apply in_seq in Hj; cbn [fst];
  intros E; apply (f_equal (fun v => vx v + vy v)) in E.
  - unfold tet_gauss, the_tet, interpV, vsumn, corner, tet_nodes, tets' in E. cbn [sumn vx vy vz nth t0 t1 t2 t3] in E.
    unfold vscale in E. cbn [vx vy vz turn_p nth] in E. unfold sh in E.
    do 5 (destruct j as [|j]; [unfold gu, gv, gw in E; cbn [nth] in E;
      do 4 (destruct a as [|a]; [cbn [turn_p nth vx vy vz] in E; lra|]); lia|]). lia.
  - unfold tri_gauss, the_tri, tinterpV, vsumn, tri_corner, tri_nodes, tris' in E. cbn [sumn vx vy vz nth r0 r1 r2] in E.
    unfold vscale in E. cbn [vx vy vz turn_p nth] in E. unfold tsh in E.
    do 4 (destruct j as [|j]; [unfold tu, tv in E; cbn [nth] in E;
      do 4 (destruct a as [|a]; [cbn [turn_p nth vx vy vz] in E; lra|]); lia|]). lia.
Qed.

Print Assumptions C114_vertex_order.
Print Assumptions C114_potential.
Print Assumptions C114_computed_potential.
