(** * The order in which the mesh gives the nodes of a triangle (C112) *)
From Coq Require Import String Reals List Arith Bool ZArith Lia Lra Permutation Sorted.
From Flocq Require Import Core.
From Verif Require Import Vec Sums StdModel MeshModel MeshProof MeshProps ElemModel ElemProof AvgModel ElemProps WeakProps EnergyModel EnergyProps.
From Verif Require Import CtrlModel CtrlProof CtrlSpec CtrlFace CtrlMain CtrlProps ChargeProps.
Import ListNotations.
Local Open Scope R_scope.
Local Open Scope list_scope.

(** ** Specification *)
(** the triangle, seen as a face of the tetrahedron t, is oriented out of it, or into it *)
Definition outwards (p : nat -> vec) (t : tet) (x : tri) : Prop := side p (tri_nodes x) (p (opposite t (tri_nodes x))) < 0.
Definition inwards (p : nat -> vec) (t : tet) (x : tri) : Prop := 0 < side p (tri_nodes x) (p (opposite t (tri_nodes x))).
(** the values at the three nodes of a triangle *)
Definition at_nodes {X} (f : nat -> X) (x : tri) (k : nat) : X := f (nth k (tri_nodes x) 0%nat).

(** ** Lemmas *)
Lemma perm3 : forall (a b c d e f : nat), Permutation [a; b; c] [d; e; f] ->
  (d = a /\ e = b /\ f = c) \/ (d = a /\ e = c /\ f = b) \/ (d = b /\ e = a /\ f = c) \/ (d = b /\ e = c /\ f = a) \/ (d = c /\ e = a /\ f = b) \/ (d = c /\ e = b /\ f = a).
Proof.
  intros a b c d e f P.
  assert (I : In d [a; b; c]) by (apply (Permutation_in _ (Permutation_sym P)); left; reflexivity).
  assert (two : forall a b d e : nat, Permutation [a; b] [d; e] -> (d = a /\ e = b) \/ (d = b /\ e = a)).
  { intros a' b' d' e' Q. apply Permutation_length_2 in Q. intuition. }
  destruct I as [<-|[<-|[<-|[]]]].
  - apply Permutation_cons_inv in P. apply two in P. intuition.
  - assert (Q : Permutation [b; a; c] [b; e; f]) by (rewrite <- P; constructor). apply Permutation_cons_inv in Q. apply two in Q. intuition.
  - assert (Q : Permutation [c; a; b] [c; e; f]). { rewrite <- P. rewrite (perm_swap a c [b]). apply perm_skip. apply perm_swap. }
    apply Permutation_cons_inv in Q. apply two in Q. intuition.
Qed.

Lemma normal_area : forall p x, normal_vect (at_nodes p x) = vscale 2 (area_vec p (tri_nodes x)).
Proof. intros p x. unfold normal_vect, area_vec, at_nodes. generalize (p (nth 0 (tri_nodes x) 0%nat)) (p (nth 1 (tri_nodes x) 0%nat)) (p (nth 2 (tri_nodes x) 0%nat)). intros [] [] []. vsimpl. f_equal; field. Qed.

Lemma area_perm : forall p x y, Permutation (tri_nodes x) (tri_nodes y) ->
  area_vec p (tri_nodes y) = area_vec p (tri_nodes x) \/ area_vec p (tri_nodes y) = vscale (-1) (area_vec p (tri_nodes x)).
Proof.
  intros p x y P. unfold tri_nodes in P. unfold area_vec, tri_nodes. cbn [nth].
  apply perm3 in P. destruct P as [(->&->&->)|[(->&->&->)|[(->&->&->)|[(->&->&->)|[(->&->&->)|(->&->&->)]]]]];
  generalize (p (r0 x)) (p (r1 x)) (p (r2 x)); intros [] [] []; first [left; vsimpl; f_equal; field|right; vsimpl; f_equal; field].
Qed.

Lemma surf_perm : forall p x y, Permutation (tri_nodes x) (tri_nodes y) -> calc_surf (at_nodes p x) = calc_surf (at_nodes p y).
Proof.
  intros p x y P. unfold calc_surf. rewrite !normal_area. f_equal. unfold vnorm. f_equal.
  destruct (area_perm p x y P) as [-> | ->]; [reflexivity|]. rewrite !dot_scale_l, !dot_scale_r. ring.
Qed.

Lemma tri_aniso_sum : forall Ks uk q u, tri_anisotropyEnergy Ks uk q (tinterpV u) =
  - Ks * (calc_surf q * (((dot (u 0%nat) uk)² + (dot (u 1%nat) uk)² + (dot (u 2%nat) uk)² + (dot (u 0%nat) uk + dot (u 1%nat) uk + dot (u 2%nat) uk)²) / 12)).
Proof.
  intros Ks uk q u. unfold tri_anisotropyEnergy. f_equal. rewrite <- (tri_wdot_square q (fun i => dot (u i) uk)). apply sumn_ext. intros j _. rewrite tinterp_dot. reflexivity.
Qed.

(** ** C112 *)
(** Two mesh files that differ by the order of the nodes of a triangle: its area, its charge, its demagnetizing energy and its anisotropy energy are the same. *)
Theorem C112_energies : forall {P : Type} names Ms (dflt : P) rest tets tris tris' sorted sorted' o o' (p u : nat -> vec) (phi : nat -> R),
  (forall t, In t tets -> NoDup (tet_nodes t)) -> (forall t, In t tets -> 0 < det4 p t) ->
  all_sorted tets tris sorted -> all_sorted tets tris' sorted' ->
  controlTriangles names Ms (("__default__"%string, dflt) :: rest) tets tris sorted = Some o ->
  controlTriangles names Ms (("__default__"%string, dflt) :: rest) tets tris' sorted' = Some o' ->
  forall i j x y d d', nth_error (c_tris o) i = Some x -> nth_error (c_dMs o) i = Some d ->
    nth_error (c_tris o') j = Some y -> nth_error (c_dMs o') j = Some d' -> Permutation (tri_nodes x) (tri_nodes y) ->
  calc_surf (at_nodes p x) = calc_surf (at_nodes p y) /\
  sumn 4 (tri_charges d (at_nodes p x) (at_nodes u x)) = sumn 4 (tri_charges d' (at_nodes p y) (at_nodes u y)) /\
  (forall mu0, tri_demagEnergy mu0 d (at_nodes p x) (tinterpV (at_nodes u x)) (tinterp (at_nodes phi x)) =
               tri_demagEnergy mu0 d' (at_nodes p y) (tinterpV (at_nodes u y)) (tinterp (at_nodes phi y))) /\
  (forall Ks uk, tri_anisotropyEnergy Ks uk (at_nodes p x) (tinterpV (at_nodes u x)) = tri_anisotropyEnergy Ks uk (at_nodes p y) (tinterpV (at_nodes u y))).
Proof.
  intros P names Ms dflt rest tets tris tris' sorted sorted' o o' p u phi Hn Hd Hs Hs' Hr Hr' i j x y d d' Hx Hdx Hy Hdy Pm.
  destruct (C40_order_of_nodes names Ms dflt rest tets tris tris' sorted sorted' o o' p u Hn Hd Hs Hs' Hr Hr' i j x y d d' Hx Hdx Hy Hdy Pm) as [E C].
  split; [apply surf_perm; exact Pm|]. split; [exact C|]. split.
  - intros mu0. rewrite !tri_demag_sum. rewrite !normal_area.
    assert (Q : forall (k : R) (a b c e A : vec) (s : R), 1 / 2 * mu0 * k * ((dot a (vscale 2 A) + dot b (vscale 2 A) + dot c (vscale 2 A) + s * dot e (vscale 2 A)) / 24) =
      mu0 * (dot (vadd (vadd (vadd a b) c) (vscale s e)) (vscale k A) / 24)).
    { intros k [] [] [] [] [] s. vsimpl. field. }
    rewrite !Q, E. f_equal. f_equal. f_equal. unfold at_nodes, tri_nodes. cbn [nth].
    unfold tri_nodes in Pm. apply perm3 in Pm. destruct Pm as [(->&->&->)|[(->&->&->)|[(->&->&->)|[(->&->&->)|[(->&->&->)|(->&->&->)]]]]];
    clear; generalize (u (r0 x)) (u (r1 x)) (u (r2 x)) (phi (r0 x)) (phi (r1 x)) (phi (r2 x)); intros [] [] []; intros; vsimpl; f_equal; ring.
  - intros Ks uk. rewrite !tri_aniso_sum. rewrite (surf_perm p x y Pm). generalize (calc_surf (at_nodes p y)). intros S0. unfold at_nodes, tri_nodes. cbn [nth].
    unfold tri_nodes in Pm. apply perm3 in Pm. destruct Pm as [(->&->&->)|[(->&->&->)|[(->&->&->)|[(->&->&->)|[(->&->&->)|(->&->&->)]]]]]; unfold Rsqr; field.
Qed.

(** A triangle on the outside of the mesh has the jump Ms if it is oriented outwards, and -Ms if it is oriented inwards. *)
Theorem C112_outer_jump : forall {P : Type} names Ms (dflt : P) rest tets tris sorted o (p : nat -> vec),
  (forall t, In t tets -> NoDup (tet_nodes t)) -> all_sorted tets tris sorted ->
  controlTriangles names Ms (("__default__"%string, dflt) :: rest) tets tris sorted = Some o ->
  (forall t, In t tets -> 0 < det4 p t) ->
  forall i x d t, nth_error (c_tris o) i = Some x -> nth_error (c_dMs o) i = Some d -> adjacent tets (tri_nodes x) = [t] ->
  (outwards p t x -> d = Ms (t_reg t)) /\ (inwards p t x -> d = - Ms (t_reg t)).
Proof.
  intros P names Ms dflt rest tets tris sorted o p Hn Hs Hr Hd i x d t Hx Hdx Ha.
  pose proof (proj2 (C40_jump names Ms dflt rest tets tris sorted o p Hn Hs Hr Hd) i x d Hx Hdx) as E. rewrite Ha in E. unfold vsum in E. cbn [map fold_right] in E.
  assert (NZ : forall k l A, vscale k A = vadd (vscale l A) vzero -> dot A A <> 0 -> k = l).
  { intros k l A H N. assert (X : dot (vscale k A) A = dot (vscale l A) A). { rewrite H. f_equal. vring. } rewrite !dot_scale_l in X. apply Rmult_eq_reg_r in X; assumption. }
  assert (A0 : forall s, side p (tri_nodes x) s <> 0 -> dot (area_vec p (tri_nodes x)) (area_vec p (tri_nodes x)) <> 0).
  { intros s H Z. apply H. unfold side. apply dot_self_zero in Z. rewrite Z. unfold dot, vzero. cbn [vx vy vz]. ring. }
  unfold out_area in E. split; intros O; unfold outwards, inwards in O.
  - rewrite Rlt_bool_true in E by exact O. apply (NZ _ _ _ E). eapply A0. apply Rlt_not_eq. exact O.
  - rewrite Rlt_bool_false in E by lra. apply (NZ _ _ (area_vec p (tri_nodes x))); [|eapply A0; apply Rgt_not_eq; exact O].
    rewrite E. clear. generalize (area_vec p (tri_nodes x)) (Ms (t_reg t)). intros. vring.
Qed.

(** The surface anisotropy: what the program adds to the equation derives from the energy it writes when the triangle is oriented outwards... *)
Theorem C112_surface_torque_partial : forall {P : Type} names Ms (dflt : P) rest tets tris sorted o (p u v : nat -> vec) Ks uk,
  (forall t, In t tets -> NoDup (tet_nodes t)) -> all_sorted tets tris sorted ->
  controlTriangles names Ms (("__default__"%string, dflt) :: rest) tets tris sorted = Some o ->
  (forall t, In t tets -> 0 < det4 p t) ->
  forall i x d t, nth_error (c_tris o) i = Some x -> nth_error (c_dMs o) i = Some d -> adjacent tets (tri_nodes x) = [t] -> 0 < Ms (t_reg t) ->
  outwards p t x ->
  exists D, derivable_pt_lim (fun s => tri_anisotropyEnergy Ks uk (at_nodes p x) (tinterpV (moved (at_nodes u x) (at_nodes v x) s))) 0 D /\
    Ms (t_reg t) * paired 3 (tri_BE Ks d uk (at_nodes p x) (at_nodes u x)) (at_nodes v x) = - D.
Proof.
  intros P names Ms dflt rest tets tris sorted o p u v Ks uk Hn Hs Hr Hd i x d t Hx Hdx Ha HM O.
  destruct (C112_outer_jump names Ms dflt rest tets tris sorted o p Hn Hs Hr Hd i x d t Hx Hdx Ha) as [J _]. specialize (J O). subst d.
  apply C84_surface. lra.
Qed.

(** ... and is the opposite, up the slope of the energy, when it is oriented inwards *)
Theorem C112_inward_torque : forall {P : Type} names Ms (dflt : P) rest tets tris sorted o (p u v : nat -> vec) Ks uk,
  (forall t, In t tets -> NoDup (tet_nodes t)) -> all_sorted tets tris sorted ->
  controlTriangles names Ms (("__default__"%string, dflt) :: rest) tets tris sorted = Some o ->
  (forall t, In t tets -> 0 < det4 p t) ->
  forall i x d t, nth_error (c_tris o) i = Some x -> nth_error (c_dMs o) i = Some d -> adjacent tets (tri_nodes x) = [t] -> 0 < Ms (t_reg t) ->
  inwards p t x ->
  exists D, derivable_pt_lim (fun s => tri_anisotropyEnergy Ks uk (at_nodes p x) (tinterpV (moved (at_nodes u x) (at_nodes v x) s))) 0 D /\
    Ms (t_reg t) * paired 3 (tri_BE Ks d uk (at_nodes p x) (at_nodes u x)) (at_nodes v x) = D.
Proof.
  intros P names Ms dflt rest tets tris sorted o p u v Ks uk Hn Hs Hr Hd i x d t Hx Hdx Ha HM O.
  destruct (C112_outer_jump names Ms dflt rest tets tris sorted o p Hn Hs Hr Hd i x d t Hx Hdx Ha) as [_ J]. specialize (J O). subst d.
  destruct (C84_surface Ks (- Ms (t_reg t)) uk (at_nodes p x) (at_nodes u x) (at_nodes v x)) as (D & H1 & H2); [lra|]. exists D. split; [exact H1|]. lra.
Qed.

(** The triangles that the program itself adds to a mesh have both orientations. One tetrahedron, no triangle in the file, the surface anisotropy being the default
    one: the program adds a triangle oriented inwards, on which the anisotropy pushes the magnetization away from the easy axis. *)
Theorem C112_added_triangles_refuted : exists (tets : list tet) (p : nat -> vec) (Ms : nat -> R) sorted o,
  (forall t, In t tets -> NoDup (tet_nodes t)) /\ (forall t, In t tets -> 0 < det4 p t) /\ all_sorted tets [] sorted /\
  controlTriangles ["__default__"; "a"]%string Ms [("__default__"%string, tt)] tets [] sorted = Some o /\
  exists i x d t, nth_error (c_tris o) i = Some x /\ nth_error (c_dMs o) i = Some d /\ adjacent tets (tri_nodes x) = [t] /\ 0 < Ms (t_reg t) /\ inwards p t x /\
  exists D (u v : nat -> vec), (forall n, unitary (u n)) /\
    derivable_pt_lim (fun s => tri_anisotropyEnergy 1 (V 0 0 1) (at_nodes p x) (tinterpV (moved (at_nodes u x) (at_nodes v x) s))) 0 D /\ D < 0 /\
    Ms (t_reg t) * paired 3 (tri_BE 1 d (V 0 0 1) (at_nodes p x) (at_nodes u x)) (at_nodes v x) < 0.
Proof.
  set (tets := [mkTet 0 1 2 3 1]). set (p := fun i => nth i [V 0 0 0; V 1 0 0; V 0 1 0; V 0 0 1] vzero). set (Ms := fun _ : nat => 1).
  set (sorted := isort basic_ltb (all_tri tets [])).
  assert (R : exists o, controlTriangles ["__default__"; "a"]%string Ms [("__default__"%string, tt)] tets [] sorted = Some o /\
    exists x d, nth_error (c_tris o) 0 = Some x /\ nth_error (c_dMs o) 0 = Some d /\ tri_nodes x = [0; 1; 2]%nat).
  { unfold controlTriangles. cbn [fst String.eqb].
    assert (W : walk_all sorted = Some [([0; 1; 2]%nat, (1%Z, (-1)%Z)); ([0; 1; 3]%nat, (1%Z, (-1)%Z)); ([0; 2; 3]%nat, (1%Z, (-1)%Z)); ([1; 2; 3]%nat, (1%Z, (-1)%Z))]) by (vm_compute; reflexivity).
    rewrite W. unfold tets at 1.
    destruct (create_regions_spec ["__default__"; "a"]%string ("__default__"%string, tt) (map snd [([0; 1; 2]%nat, (1%Z, (-1)%Z)); ([0; 1; 3]%nat, (1%Z, (-1)%Z)); ([0; 2; 3]%nat, (1%Z, (-1)%Z)); ([1; 2; 3]%nat, (1%Z, (-1)%Z))]) [("__default__"%string, tt)] []) as (more & m & E & _); [discriminate|discriminate|].
    cbn [Ascii.eqb Bool.eqb]. rewrite E. eexists. split; [reflexivity|]. cbn [c_tris c_dMs app map nth_error]. eexists. eexists. split; [reflexivity|]. split; [reflexivity|]. reflexivity. }
  destruct R as (o & Ho & x & d & Hx & Hd & Nx). exists tets, p, Ms, sorted, o.
  assert (H1 : forall t, In t tets -> NoDup (tet_nodes t)). { intros t [<-|[]]. unfold tet_nodes; cbn [t0 t1 t2 t3]; repeat constructor; simpl; lia. }
  assert (H2 : forall t, In t tets -> 0 < det4 p t). { intros t [<-|[]]. unfold det4; cbn [t0 t1 t2 t3]; unfold p; cbn [nth]; vsimpl; lra. }
  assert (H3 : all_sorted tets [] sorted) by apply sorted_exists.
  split; [exact H1|]. split; [exact H2|]. split; [exact H3|]. split; [exact Ho|].
  assert (Ad : adjacent tets (tri_nodes x) = [mkTet 0 1 2 3 1]) by (rewrite Nx; reflexivity).
  assert (O : inwards p (mkTet 0 1 2 3 1) x).
  { unfold inwards. rewrite Nx. unfold side, area_vec, opposite, tet_nodes, p. cbn -[Rlt IZR Rmult Rplus Rminus Rdiv dot cross vsub vscale]. vsimpl. lra. }
  exists 0%nat, x, d, (mkTet 0 1 2 3 1). split; [exact Hx|]. split; [exact Hd|]. split; [exact Ad|]. split; [unfold Ms; lra|]. split; [exact O|].
  pose proof (proj2 (C112_outer_jump _ Ms tt [] tets [] sorted o p H1 H3 Ho H2 0 x d _ Hx Hd Ad) O) as J.
  destruct (C112_inward_torque _ Ms tt [] tets [] sorted o p (fun _ => V (3 / 5) 0 (4 / 5)) (fun _ => V 0 0 1) 1 (V 0 0 1) H1 H3 Ho H2 0 x d _ Hx Hd Ad) as (D & D1 & D2); [unfold Ms; lra|exact O|].
  assert (S : calc_surf (at_nodes p x) = 1 / 2).
  { unfold calc_surf. rewrite normal_area, Nx. unfold area_vec, p, vnorm. cbn [nth]. replace (dot _ _) with 1 by (vsimpl; field). rewrite sqrt_1. ring. }
  assert (P : paired 3 (tri_BE 1 d (V 0 0 1) (at_nodes p x) (at_nodes (fun _ => V (3 / 5) 0 (4 / 5)) x)) (at_nodes (fun _ => V 0 0 1) x) = - (4 / 5)).
  { rewrite J. unfold paired, tri_BE, tweight. rewrite S. unfold at_nodes, Ms. unfold vsumn, tinterpV, vsumn, tsh, tu, tv, tpds, tNPI. cbn [sumn nth]. vsimpl. field. }
  exists D, (fun _ => V (3 / 5) 0 (4 / 5)), (fun _ => V 0 0 1). split. { intros n. unfold unitary, dot. cbn [vx vy vz]. field. }
  split; [exact D1|]. rewrite P in *. unfold Ms in *. split; lra.
Qed.

(** The flag suppress_charges of a surface also removes its anisotropy: the triangles with the flag are in none of the sums over the triangles (energy.cpp line 49,
    solver.cpp line 35), and the energies written do not depend on the Ks nor on the axis of such a surface. *)
Theorem C112_suppressed_refuted : forall mu0 prms sprms sprms' dprm dsprm p u phi tets tris dMs n suppress f ext,
  let magTri := magTri_of (magNode_of (map p_Ms prms) n tets) suppress tris in
  (forall k, In k magTri -> nth (r_reg (the_tri tris k)) suppress false = false) /\
  ((forall r, nth r suppress false = false -> nth r sprms dsprm = nth r sprms' dsprm) ->
   energy mu0 prms sprms dprm dsprm p u phi tets tris dMs (magTet_of (map p_Ms prms) n tets) magTri f ext =
   energy mu0 prms sprms' dprm dsprm p u phi tets tris dMs (magTet_of (map p_Ms prms) n tets) magTri f ext).
Proof.
  intros mu0 prms sprms sprms' dprm dsprm p u phi tets tris dMs n suppress f ext magTri.
  assert (F : forall k, In k magTri -> nth (r_reg (the_tri tris k)) suppress false = false).
  { intros k Hk. apply (proj1 (magTri_spec _ _ _)) in Hk. destruct Hk as (g & E & _ & S). unfold the_tri. rewrite (nth_error_nth _ _ _ E). exact S. }
  split; [exact F|]. intros Hs. unfold energy. destruct (tets_energy _ _ _ _ _ _ _ _ _ _ _) as [E|]; [|reflexivity]. f_equal.
  revert E F. generalize magTri. intros l. induction l as [|k l IH]; intros E F; [reflexivity|]. cbn [fold_left].
  replace (tri_energy mu0 sprms dsprm p u phi tris dMs E k) with (tri_energy mu0 sprms' dsprm p u phi tris dMs E k).
  - apply IH. intros k' Hk'. apply F. right. exact Hk'.
  - unfold tri_energy. fold (the_tri tris k). rewrite (Hs _ (F k (or_introl eq_refl))). reflexivity.
Qed.

(** ... although the surface has an energy: *)
Example C112_suppressed_nonvacuous : let prms := [mkTprm 1 0 1 0 vzero 0 vzero vzero vzero] in let tets := [mkTet 0 1 2 3 0] in let tris := [mkTri 0 1 2 0] in
  let p := fun i => nth i [V 0 0 0; V 1 0 0; V 0 1 0; V 0 0 1] vzero in
  magTri_of (magNode_of (map p_Ms prms) 4 tets) [false] tris = [0]%nat /\ magTri_of (magNode_of (map p_Ms prms) 4 tets) [true] tris = [] /\
  tri_anisotropyEnergy 1 (V 0 0 1) (at_nodes p (mkTri 0 1 2 0)) (tinterpV (fun _ => V 0 0 1)) = - (1 / 2).
Proof.
  cbv zeta. assert (M : magNode_of (map p_Ms [mkTprm 1 0 1 0 vzero 0 vzero vzero vzero]) 4 [mkTet 0 1 2 3 0] = [true; true; true; true]).
  { unfold magNode_of, mark, mark_tet, mag_tet. cbn [map p_Ms fold_left combine seq length snd fst t_reg nth]. rewrite !Rlt_bool_true by lra. reflexivity. }
  rewrite M. split; [reflexivity|]. split; [reflexivity|]. rewrite tri_aniso_sum.
  assert (S : calc_surf (at_nodes (fun i => nth i [V 0 0 0; V 1 0 0; V 0 1 0; V 0 0 1] vzero) (mkTri 0 1 2 0)) = 1 / 2).
  { unfold calc_surf. rewrite normal_area. unfold area_vec, vnorm, tri_nodes. cbn [nth r0 r1 r2]. replace (dot _ _) with 1 by (vsimpl; field). rewrite sqrt_1. ring. }
  rewrite S. unfold dot, Rsqr. cbn [vx vy vz]. field.
Qed.

(** the hypotheses of the theorems are met by the mesh above and by a file that gives the same face in the other order *)
Example C112_nonvacuous : exists o, let tets := [mkTet 0 1 2 3 1] in let p := fun i => nth i [V 0 0 0; V 1 0 0; V 0 1 0; V 0 0 1] vzero in
  let tris := [mkTri 0 2 1 1] in let sorted := isort basic_ltb (all_tri tets tris) in
  all_sorted tets tris sorted /\ controlTriangles ["__default__"; "a"]%string (fun _ => 1) [("__default__"%string, tt); ("s"%string, tt)] tets tris sorted = Some o /\
  nth_error (c_tris o) 0 = Some (mkTri 0 2 1 1) /\ nth_error (c_dMs o) 0 = Some 1 /\ adjacent tets [0; 2; 1]%nat = [mkTet 0 1 2 3 1] /\ outwards p (mkTet 0 1 2 3 1) (mkTri 0 2 1 1) /\
  Permutation (tri_nodes (mkTri 0 2 1 1)) [0; 1; 2]%nat.
Proof.
  set (tets := [mkTet 0 1 2 3 1]). set (p := fun i => nth i [V 0 0 0; V 1 0 0; V 0 1 0; V 0 0 1] vzero). set (tris := [mkTri 0 2 1 1]).
  set (sorted := isort basic_ltb (all_tri tets tris)).
  assert (R : exists o, controlTriangles ["__default__"; "a"]%string (fun _ => 1) [("__default__"%string, tt); ("s"%string, tt)] tets tris sorted = Some o /\
    nth_error (c_tris o) 0 = Some (mkTri 0 2 1 1) /\ exists d, nth_error (c_dMs o) 0 = Some d).
  { unfold controlTriangles. cbn [fst String.eqb].
    assert (W : exists miss, walk_all sorted = Some miss /\ length miss = 3%nat) by (vm_compute; eexists; split; reflexivity).
    destruct W as (miss & W & L). rewrite W. unfold tets at 1.
    destruct (create_regions_spec ["__default__"; "a"]%string ("__default__"%string, tt) (map snd miss) [("__default__"%string, tt); ("s"%string, tt)] []) as (more & m & E & _); [discriminate|discriminate|].
    cbn [Ascii.eqb Bool.eqb]. rewrite E. eexists. split; [reflexivity|]. split; [reflexivity|]. eexists. reflexivity. }
  destruct R as (o & Ho & Hx & d & Hd). exists o. cbv zeta.
  assert (H3 : all_sorted tets tris sorted) by apply sorted_exists.
  assert (O : outwards p (mkTet 0 1 2 3 1) (mkTri 0 2 1 1)).
  { unfold outwards, side, area_vec, opposite, tet_nodes, tri_nodes, p. cbn -[Rlt IZR Rmult Rplus Rminus Rdiv dot cross vsub vscale]. vsimpl. lra. }
  assert (Ad : adjacent tets (tri_nodes (mkTri 0 2 1 1)) = [mkTet 0 1 2 3 1]) by reflexivity.
  assert (H1 : forall t, In t tets -> NoDup (tet_nodes t)). { intros t [<-|[]]. unfold tet_nodes; cbn [t0 t1 t2 t3]; repeat constructor; simpl; lia. }
  assert (H2 : forall t, In t tets -> 0 < det4 p t). { intros t [<-|[]]. unfold det4; cbn [t0 t1 t2 t3]; unfold p; cbn [nth]; vsimpl; lra. }
  pose proof (proj1 (C112_outer_jump _ (fun _ => 1) tt _ tets tris sorted o p H1 H3 Ho H2 0 _ d _ Hx Hd Ad) O) as J. subst d.
  split; [exact H3|]. split; [exact Ho|]. split; [exact Hx|]. split; [exact Hd|]. split; [exact Ad|]. split; [exact O|]. unfold tri_nodes. cbn [r0 r1 r2]. apply perm_skip. apply perm_swap.
Qed.

Print Assumptions C112_energies.
Print Assumptions C112_outer_jump.
Print Assumptions C112_surface_torque_partial.
Print Assumptions C112_inward_torque.
Print Assumptions C112_added_triangles_refuted.
Print Assumptions C112_suppressed_refuted.
