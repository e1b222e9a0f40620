(** * Property C97: a time step does not depend on the orientation of the sample nor on the local bases *)
From Coq Require Import List ZArith Arith Bool Lia Reals Lra Permutation FunctionalExtensionality.
From Flocq Require Import Core.
From Verif Require Import Arith ArithLaws Vec Sums LinAlg SparseModel SparseProof ConcModel ConcProof SparseProps
  IterModel IterProof Ieee IterMask IterExact IterProps StdModel MeshModel MeshProof MeshProps ElemModel ElemProof AvgModel ElemProps
  AsmModel AsmProof AsmProps LlgProps WeakProps NodeModel NodeProps CgProof DissipProps TransportModel EnergyModel DemagModel DemagProof DemagProps.
Import ListNotations.
Local Open Scope R_scope.

(** ** Specification vocabulary *)
(** a rotation of space, given by the images of the axes: three orthonormal vectors, right-handed *)
Record rotation := mkRot { r1 : vec; r2 : vec; r3 : vec; r_ok : Vec.orthonormal r1 r2 r3 }.
Definition turn (Q : rotation) (a : vec) : vec := vadd (vadd (vscale (vx a) (r1 Q)) (vscale (vy a) (r2 Q))) (vscale (vz a) (r3 Q)).
(** a displacement of the sample: a rotation, then a translation *)
Definition displace (Q : rotation) (c a : vec) : vec := vadd (turn Q a) c.
(** the material of a turned sample: its axes are turned *)
Definition turn_prm (Q : rotation) (m : tprm) : tprm :=
  mkTprm (p_alpha m) (p_A m) (p_Ms m) (p_K m) (turn Q (p_uk m)) (p_K3 m) (turn Q (p_ex m)) (turn Q (p_ey m)) (turn Q (p_ez m)).

(** a triangle with surface anisotropy: Ks, axis, and the jump of Ms across it *)
Record surf := mkSurf { sf_tri : tri; sf_Ks : R; sf_dMs : R; sf_uk : vec }.
Definition turn_surf (Q : rotation) (s : surf) : surf := mkSurf (sf_tri s) (sf_Ks s) (sf_dMs s) (turn Q (sf_uk s)).

(** what Tet::integrales gives to the solver (ElemModel), with an extra field Hst and no moving frame *)
Definition tet_data (mu0 gamma0 theta dt pref : R) (p u v : nat -> vec) (phi phiv : nat -> R) (Hext Hst : tet -> nat -> vec) (ep eq : nat -> vec) (m : tet * tprm) : tdata :=
  let '(t, prm) := m in
  let nod := mkTnod (corner u t) (corner v t) (corner phi t) (corner phiv t) in
  mkTdata t (p_alpha prm) (uHeff mu0 gamma0 theta prm dt (Hext t) (Hst t) (corner p t) nod) (pref * s_dt gamma0 theta dt * Abis mu0 prm)
    (fun r => tet_Lp mu0 gamma0 theta prm dt (Hext t) (Hst t) None 0 (corner p t) nod (corner ep t) (corner eq t) (r / 4) (r mod 4)).
(** and Tri::integrales: no matrix *)
Definition surf_elem (p u ep eq : nat -> vec) (s : surf) : elem R :=
  mkElem (tri_nodes (sf_tri s)) (fun _ _ => 0)
    (fun r => tri_Lp (sf_Ks s) (sf_dMs s) (sf_uk s) (corner3 p (sf_tri s)) (corner3 u (sf_tri s)) (corner3 ep (sf_tri s)) (corner3 eq (sf_tri s)) (r / 3) (r mod 3)).

(** [y] is the solution of the linear system of a time step: matrix from the tetrahedra, right-hand side from
    tetrahedra and triangles *)
Definition step_solution (mu0 gamma0 theta dt pref : R) (mag : list bool) (p u v : nat -> vec) (phi phiv : nat -> R) (Hext Hst : tet -> nat -> vec)
    (ep eq : nat -> vec) (body : material_body) (faces : list surf) (y : list R) : Prop :=
  let ds := map (tet_data mu0 gamma0 theta dt pref p u v phi phiv Hext Hst ep eq) body in
  let els := map (llg_elem gamma0 dt p u ep eq) ds in
  llg_problem gamma0 dt mag p u ep eq ds /\
  exists rhs, loads (length mag) (els ++ map (surf_elem p u ep eq) faces) rhs /\ solves mag (system_matrix mag els) rhs y.

(** these data are those of the code *)
Theorem C97_elements : forall mu0 gamma0 theta dt pref p u v phi phiv Hext Hst ep eq t prm f b b' i j, (i < 4)%nat -> (j < 4)%nat ->
  let nod := mkTnod (corner u t) (corner v t) (corner phi t) (corner phiv t) in
  let e := llg_elem gamma0 dt p u ep eq (tet_data mu0 gamma0 theta dt pref p u v phi phiv Hext Hst ep eq (t, prm)) in
  e_Ke e (b * 4 + i) (b' * 4 + j) =
    tet_Kp mu0 gamma0 theta prm dt pref (Hext t) (Hst t) (corner p t) nod (corner ep t) (corner eq t) b b' i j /\
  e_Le e (b * 4 + i) = tet_Lp mu0 gamma0 theta prm dt (Hext t) (Hst t) None 0 (corner p t) nod (corner ep t) (corner eq t) b i /\
  ((i < 3)%nat -> e_Le (surf_elem p u ep eq f) (b * 3 + i) =
    tri_Lp (sf_Ks f) (sf_dMs f) (sf_uk f) (corner3 p (sf_tri f)) (corner3 u (sf_tri f)) (corner3 ep (sf_tri f)) (corner3 eq (sf_tri f)) b i).
Proof.
  intros. split; [|split].
  - unfold e. rewrite llg_Ke by assumption. reflexivity.
  - cbn [e llg_elem e_Le tet_data td_Le]. destruct (idx4 b i ltac:(assumption)) as [-> ->]. reflexivity.
  - intros H3. cbn [surf_elem e_Le]. replace ((b * 3 + i) / 3)%nat with b by (rewrite Nat.div_add_l, Nat.div_small by lia; lia).
    replace ((b * 3 + i) mod 3)%nat with i by (rewrite Nat.add_comm, Nat.mod_add, Nat.mod_small by lia; lia). reflexivity.
Qed.

(** ** Rotations *)
Section Rotations.
Variable Q : rotation.

Lemma rot_facts : dot (r1 Q) (r1 Q) = 1 /\ dot (r2 Q) (r2 Q) = 1 /\ dot (r3 Q) (r3 Q) = 1 /\
  dot (r1 Q) (r2 Q) = 0 /\ dot (r1 Q) (r3 Q) = 0 /\ dot (r2 Q) (r3 Q) = 0 /\
  cross (r1 Q) (r2 Q) = r3 Q /\ cross (r2 Q) (r3 Q) = r1 Q /\ cross (r3 Q) (r1 Q) = r2 Q.
Proof.
  destruct Q as [a b c (Ha & Hb & Hc & Hab & Hac & Hbc & Ec)]. cbn [r1 r2 r3]. repeat split; auto.
  - rewrite Ec, cross_cross, Hb, (dot_comm b a), Hab. vring.
  - replace (cross c a) with (vscale (-1) (cross a c)) by vring. rewrite Ec, cross_cross, Hab, Ha. vring.
Qed.

Lemma turn_add : forall a b, turn Q (vadd a b) = vadd (turn Q a) (turn Q b).
Proof. intros. unfold turn. vring. Qed.
Lemma turn_sub : forall a b, turn Q (vsub a b) = vsub (turn Q a) (turn Q b).
Proof. intros. unfold turn. vring. Qed.
Lemma turn_scale : forall k a, turn Q (vscale k a) = vscale k (turn Q a).
Proof. intros. unfold turn. vring. Qed.
Lemma turn_zero : turn Q vzero = vzero.
Proof. unfold turn. vring. Qed.
Lemma turn_dot : forall a b, dot (turn Q a) (turn Q b) = dot a b.
Proof.
  intros a b. destruct rot_facts as (A & B & C & D & E & F & _). unfold turn.
  rewrite !dot_add_l, !dot_add_r, !dot_scale_l, !dot_scale_r, (dot_comm (r2 Q) (r1 Q)), (dot_comm (r3 Q) (r1 Q)), (dot_comm (r3 Q) (r2 Q)), A, B, C, D, E, F.
  unfold dot. ring.
Qed.
Lemma turn_cross : forall a b, cross (turn Q a) (turn Q b) = turn Q (cross a b).
Proof.
  intros a b. destruct rot_facts as (_ & _ & _ & _ & _ & _ & A & B & C).
  transitivity (vadd (vadd (vscale (vx (cross a b)) (cross (r2 Q) (r3 Q))) (vscale (vy (cross a b)) (cross (r3 Q) (r1 Q)))) (vscale (vz (cross a b)) (cross (r1 Q) (r2 Q)))).
  - unfold turn. generalize (r1 Q) (r2 Q) (r3 Q). intros x y z. vring.
  - rewrite A, B, C. reflexivity.
Qed.
Lemma turn_sumn : forall n f, turn Q (vsumn n f) = vsumn n (fun i => turn Q (f i)).
Proof.
  intros n f. unfold vsumn, turn. induction n as [|n IH]; cbn [sumn vx vy vz] in *.
  - vring.
  - unfold vadd, vscale in *. cbn [vx vy vz] in *. injection IH as E1 E2 E3. rewrite <- E1, <- E2, <- E3. f_equal; ring.
Qed.
Lemma turn_norm : forall a, vnorm (turn Q a) = vnorm a.
Proof. intros. unfold vnorm. rewrite turn_dot. reflexivity. Qed.
Lemma turn_normalize : forall a, vnormalize (turn Q a) = turn Q (vnormalize a).
Proof. intros. unfold vnormalize. rewrite turn_dot. destruct (Rlt_dec 0 (dot a a)); [rewrite turn_scale|]; reflexivity. Qed.
Lemma turn_eq : forall a b, a = b -> turn Q a = turn Q b.
Proof. intros; subst; reflexivity. Qed.
End Rotations.

Lemma vsumn_ext : forall n f g, (forall i, (i < n)%nat -> f i = g i) -> vsumn n f = vsumn n g.
Proof. intros n f g H. unfold vsumn. f_equal; apply sumn_ext; intros i Hi; rewrite H by exact Hi; reflexivity. Qed.

(** ** Geometry of a displaced element *)
Section Displaced.
Variables (Q : rotation) (c : vec).
Notation T := (turn Q).
Notation D := (displace Q c).

Lemma D_sub : forall a b, vsub (D a) (D b) = T (vsub a b).
Proof. intros. rewrite turn_sub. unfold displace. vring. Qed.

Variable q : nat -> vec.
Notation q' := (fun i => D (q i)).

Lemma edges' : edge1 q' = T (edge1 q) /\ edge2 q' = T (edge2 q) /\ edge3 q' = T (edge3 q).
Proof. unfold edge1, edge2, edge3. rewrite !D_sub. auto. Qed.
Lemma detJ_mixed : forall x, detJ x = mixed_prod x.
Proof. intros x. unfold detJ, det3, jac, mixed_prod, dot, cross. cbn [comp vx vy vz]. ring. Qed.
Lemma detJ' : detJ q' = detJ q.
Proof.
  rewrite !detJ_mixed. unfold mixed_prod. destruct edges' as (-> & -> & ->). rewrite turn_cross, turn_dot. reflexivity.
Qed.
Lemma da' : forall i, (i < 4)%nat -> da q' i = T (da q i).
Proof.
  destruct edges' as (E1 & E2 & E3).
  assert (H1 : da q' 1 = T (da q 1)) by (rewrite !da_1, detJ', E2, E3, turn_cross, turn_scale; reflexivity).
  assert (H2 : da q' 2 = T (da q 2)) by (rewrite !da_2, detJ', E1, E3, turn_cross, turn_scale; reflexivity).
  assert (H3 : da q' 3 = T (da q 3)) by (rewrite !da_3, detJ', E1, E2, turn_cross, turn_scale; reflexivity).
  intros i Hi. destruct i as [|[|[|[|i]]]]; [|exact H1|exact H2|exact H3|lia].
  rewrite !da_0, H1, H2, H3, turn_sub, !turn_add, turn_zero. reflexivity.
Qed.
Lemma weight' : forall j, weight q' j = weight q j.
Proof. intros. unfold weight. rewrite detJ'. reflexivity. Qed.
Lemma vol' : calc_vol q' = calc_vol q.
Proof. unfold calc_vol. apply sumn_ext. intros. apply weight'. Qed.
Lemma wdot' : forall f, wdot q' f = wdot q f.
Proof. intros. unfold wdot. apply sumn_ext. intros. rewrite weight'. reflexivity. Qed.
Lemma interpV' : forall u j, interpV (fun i => T (u i)) j = T (interpV u j).
Proof. intros. unfold interpV. rewrite turn_sumn. apply vsumn_ext. intros. rewrite turn_scale. reflexivity. Qed.
Lemma interp_field' : forall x, interp_field q' x = T (interp_field q x).
Proof.
  intros. unfold interp_field. rewrite turn_sub, turn_zero, turn_sumn. f_equal. apply vsumn_ext. intros i Hi. rewrite da', turn_scale by exact Hi. reflexivity.
Qed.
Lemma grads : forall u i, vadd (vadd (vscale (comp 0 (da q i)) (deriv q u 0)) (vscale (comp 1 (da q i)) (deriv q u 1))) (vscale (comp 2 (da q i)) (deriv q u 2)) =
  vsumn 4 (fun j => vscale (dot (da q i) (da q j)) (u j)).
Proof.
  intros u i. unfold deriv, vsumn. generalize (da q). intros d.
  apply vec_eq; unfold vadd, vscale, dot; cbn [vx vy vz sumn comp]; ring.
Qed.
Lemma grad2 : forall u, sqn (deriv q u 0) + sqn (deriv q u 1) + sqn (deriv q u 2) =
  sumn 4 (fun i => sumn 4 (fun j => dot (da q i) (da q j) * dot (u i) (u j))).
Proof.
  intros u. unfold deriv, vsumn, sqn. generalize (da q). intros d.
  unfold vadd, vscale, dot; cbn [vx vy vz sumn comp]; ring.
Qed.
Lemma divergence_dot : forall u, divergence q u = sumn 4 (fun i => dot (u i) (da q i)).
Proof. intros. unfold divergence, dot. rewrite <- !sumn_plus. reflexivity. Qed.
Lemma trace_dot : forall u, vx (deriv q u 0) + vy (deriv q u 1) + vz (deriv q u 2) = sumn 4 (fun i => dot (u i) (da q i)).
Proof. intros. unfold deriv, vsumn, dot. cbn [vx vy vz]. rewrite <- !sumn_plus. apply sumn_ext. intros. unfold vscale. cbn [vx vy vz comp]. ring. Qed.
End Displaced.

(** ** The system in terms of vectors *)
(** the left-hand side at corner k of a tetrahedron, and the right-hand side, before projection on the local bases *)
Definition push (q : nat -> vec) (al : nat -> R) (pref : R) (u w : nat -> vec) (k : nat) : vec :=
  vadd (vadd (vscale (pref * calc_vol q) (vsumn 4 (fun j => vscale (dot (da q k) (da q j)) (w j)))) (vscale (contrib q al k) (w k)))
    (vscale (a_w q k) (cross (u k) (w k))).

Lemma lumping_push : forall q al pref u w k e, (k < 4)%nat ->
  sumn 3 (fun a => comp a e * sumn 3 (fun l => sumn 4 (fun j => lumping q al pref u a l k j * comp l (w j)))) = dot e (push q al pref u w k).
Proof.
  intros q al pref u w k e Hk. unfold push, lumping, diag_block, vsumn.
  generalize (contrib q al) (a_w q) (calc_vol q) (da q). intros ct aw vol d.
  destruct k as [|[|[|[|k]]]]; [| | | |lia]; cbn [sumn comp Nat.eqb]; unfold vadd, vscale, cross, dot; cbn [vx vy vz]; ring.
Qed.

(** direction of row b *)
Definition side (ep eq : nat -> vec) (b i : nat) : vec := match b with O => eq i | _ => ep i end.

Lemma coupling_row : forall n (e : elem R) (x : nat -> nat -> R) i b, (forall a, In a (e_ind e) -> (a < n)%nat) -> (i < n)%nat -> (b < 2)%nat ->
  sumn n (fun j => sumn 2 (fun b' => coupling e i b j b' * x j b')) =
  sumn (e_N e) (fun k => if (e_nod e k =? i)%nat then sumn (e_N e) (fun je => sumn 2 (fun d' => e_Ke e (b * e_N e + k) (d' * e_N e + je) * x (e_nod e je) d')) else 0).
Proof.
  intros n e x i b Hn Hi Hb.
  pose proof (elem_form (repeat true n) e (fun i' b' => if (i' =? i)%nat then if (b' =? b)%nat then 1 else 0 else 0) x) as F.
  rewrite repeat_length in F. specialize (F Hn).
  assert (L : forall (G : nat -> nat -> R), sumn n (fun i' => sumn 2 (fun b' => (if (i' =? i)%nat then if (b' =? b)%nat then 1 else 0 else 0) * G i' b')) = G i b).
  { intros G. rewrite <- (sumn_delta n i (fun i' => G i' b) Hi). apply sumn_ext. intros i' _. destruct (i' =? i)%nat.
    - rewrite <- (sumn_delta 2 b (G i') Hb). apply sumn_ext. intros b' _. destruct (b' =? b)%nat; ring.
    - apply sumn_zero. intros. ring. }
  rewrite (L (fun i' b' => sumn n (fun j => sumn 2 (fun d' => coupling e i' b' j d' * x j d')))) in F. rewrite F. clear F L.
  apply sumn_ext. intros k Hk. destruct (e_nod e k =? i)%nat.
  - rewrite <- (sumn_delta 2 b (fun d => sumn (e_N e) (fun je => sumn 2 (fun d' => e_Ke e (d * e_N e + k) (d' * e_N e + je) * x (e_nod e je) d'))) Hb).
    apply sumn_ext. intros b' _. destruct (b' =? b)%nat; ring.
  - apply sumn_zero. intros. ring.
Qed.

(** sum over the corners, at node i, of an element *)
Definition at_node (nodes : list nat) (i : nat) (f : nat -> vec) : vec := vsumn (length nodes) (fun k => if (nth k nodes 0%nat =? i)%nat then f k else vzero).
Definition vlsum (l : list vec) : vec := fold_right vadd vzero l.

Lemma at_node_dot : forall nodes i f e, dot e (at_node nodes i f) = sumn (length nodes) (fun k => if (nth k nodes 0%nat =? i)%nat then dot e (f k) else 0).
Proof.
  intros. unfold at_node. rewrite dot_comm, vsumn_dot. apply sumn_ext. intros k _. destruct (_ =? _)%nat; [apply dot_comm|]. vsimpl. ring.
Qed.
Lemma vlsum_dot : forall {X} (f : X -> vec) l e, dot e (vlsum (map f l)) = lsum (map (fun x => dot e (f x)) l).
Proof. intros X f l e. induction l as [|x l IH]; cbn. - vsimpl. ring. - rewrite dot_add_r. f_equal. exact IH. Qed.
Lemma at_node_turn : forall Q nodes i f g, (forall k, (k < length nodes)%nat -> g k = turn Q (f k)) -> at_node nodes i g = turn Q (at_node nodes i f).
Proof.
  intros Q nodes i f g H. unfold at_node. rewrite turn_sumn. apply vsumn_ext. intros k Hk. destruct (_ =? _)%nat; [apply H; exact Hk|]. symmetry. apply turn_zero.
Qed.
Lemma vlsum_turn : forall {X Y} Q (f : X -> vec) (g : Y -> vec) (h : X -> Y) l, (forall x, In x l -> g (h x) = turn Q (f x)) ->
  vlsum (map g (map h l)) = turn Q (vlsum (map f l)).
Proof.
  intros X Y Q f g h l H. induction l as [|x l IH]; cbn. { symmetry. apply turn_zero. }
  rewrite turn_add, H by (left; reflexivity). f_equal. apply IH. intros; apply H; right; assumption.
Qed.

Section Ambient.
Variables (mu0 gamma0 theta dt pref : R) (p u v : nat -> vec) (phi phiv : nat -> R) (Hext Hst : tet -> nat -> vec).
Definition nod_of (t : tet) : tnod := mkTnod (corner u t) (corner v t) (corner phi t) (corner phiv t).
Definition tet_push (m : tet * tprm) (w : nat -> vec) (k : nat) : vec :=
  push (corner p (fst m)) (a_eff mu0 gamma0 theta (snd m) dt (Hext (fst m)) (Hst (fst m)) (corner p (fst m)) (nod_of (fst m)))
    (pref * s_dt gamma0 theta dt * Abis mu0 (snd m)) (corner u (fst m)) (corner w (fst m)) k.
Definition tet_load (m : tet * tprm) (k : nat) : vec :=
  BE mu0 gamma0 theta (snd m) dt (Hext (fst m)) (Hst (fst m)) None 0 (corner p (fst m)) (nod_of (fst m)) k.
Definition face_load (s : surf) (k : nat) : vec := tri_BE (sf_Ks s) (sf_dMs s) (sf_uk s) (corner3 p (sf_tri s)) (corner3 u (sf_tri s)) k.
Definition node_push (body : material_body) (w : nat -> vec) (i : nat) : vec :=
  vlsum (map (fun m => at_node (tet_nodes (fst m)) i (tet_push m w)) body).
Definition node_load (body : material_body) (faces : list surf) (i : nat) : vec :=
  vadd (vlsum (map (fun m => at_node (tet_nodes (fst m)) i (tet_load m)) body))
       (vlsum (map (fun s => at_node (tri_nodes (sf_tri s)) i (face_load s)) faces)).

Variables (mag : list bool) (ep eq : nat -> vec) (body : material_body) (faces : list surf).
Notation datum := (tet_data mu0 gamma0 theta dt pref p u v phi phiv Hext Hst ep eq).
Notation els := (map (llg_elem gamma0 dt p u ep eq) (map datum body)).
Notation n := (length mag).

Lemma rows_push : forall y i b, (forall d a, In d (map datum body) -> In a (tet_nodes (td_tet d)) -> (a < n)%nat) -> (i < n)%nat -> (b < 2)%nat -> nth i mag false = true ->
  sumn (2 * n) (fun c => system_matrix mag els (2 * i + b) c * nth c y 0) = dot (side ep eq b i) (node_push body (velocity ep eq y) i).
Proof.
  intros y i b Hn Hi Hb Em. rewrite sumn_pairs.
  rewrite (sumn_ext n _ (fun j => sumn 2 (fun b' => lsum (map (fun m => coupling (llg_elem gamma0 dt p u ep eq (datum m)) i b j b') body) * nth (2 * j + b') y 0))).
  2: { intros j _. apply sumn_ext. intros b' Hb'. unfold system_matrix.
       destruct (half_of i b Hb) as [-> ->]. destruct (half_of j b' Hb') as [-> ->]. rewrite Em, !map_map. reflexivity. }
  rewrite (row_over body n (fun m => coupling (llg_elem gamma0 dt p u ep eq (datum m)) i b) (fun j b' => nth (2 * j + b') y 0)).
  unfold node_push. rewrite vlsum_dot. apply lsum_map_ext. intros [t prm] Hm.
  rewrite coupling_row; [|intros a Ha; apply (Hn (datum (t, prm)) a); [apply in_map; exact Hm|exact Ha]|exact Hi|exact Hb].
  rewrite at_node_dot. change (e_N (llg_elem gamma0 dt p u ep eq (datum (t, prm)))) with 4%nat. change (length (tet_nodes t)) with 4%nat. cbn [fst].
  apply sumn_ext. intros k Hk. change (e_nod (llg_elem gamma0 dt p u ep eq (datum (t, prm))) k) with (nth k (tet_nodes t) 0%nat).
  destruct (nth k (tet_nodes t) 0 =? i)%nat eqn:Ek; [|reflexivity]. apply Nat.eqb_eq in Ek.
  unfold tet_push. cbn [fst snd]. rewrite <- lumping_push by exact Hk.
  refine (eq_trans _ (eq_trans (Kp_apply (corner p t) (a_eff mu0 gamma0 theta prm dt (Hext t) (Hst t) (corner p t) (nod_of t)) (pref * s_dt gamma0 theta dt * Abis mu0 prm)
     (corner u t) (corner ep t) (corner eq t) b k (fun j b' => nth (2 * nth j (tet_nodes t) 0%nat + b') y 0) Hb) _)).
  - apply sumn_ext. intros je Hje. apply sumn_ext. intros b' _. rewrite (llg_Ke gamma0 dt p u ep eq (datum (t, prm)) k je b b') by assumption. reflexivity.
  - apply sumn_ext. intros a _. f_equal.
    + unfold side, corner. destruct b; rewrite Ek; reflexivity.
    + apply sumn_ext. intros l _. apply sumn_ext. intros j _. f_equal. unfold corner, velocity. rewrite !Nat.add_0_r. reflexivity.
Qed.

Lemma rows_load : forall rhs i b, loads n (els ++ map (surf_elem p u ep eq) faces) rhs -> (i < n)%nat -> (b < 2)%nat ->
  nth (2 * i + b) rhs 0 = dot (side ep eq b i) (node_load body faces i).
Proof.
  intros rhs i b HL Hi Hb. rewrite HL by assumption. rewrite map_app, lsum_app, !map_map. unfold node_load. rewrite dot_add_r, !vlsum_dot. f_equal.
  - apply lsum_map_ext. intros [t prm] _. rewrite at_node_dot. unfold loading. change (e_N (llg_elem gamma0 dt p u ep eq (datum (t, prm)))) with 4%nat.
    change (length (tet_nodes t)) with 4%nat. cbn [fst]. apply sumn_ext. intros k Hk. change (e_nod (llg_elem gamma0 dt p u ep eq (datum (t, prm))) k) with (nth k (tet_nodes t) 0%nat).
    destruct (nth k (tet_nodes t) 0 =? i)%nat eqn:Ek; [|reflexivity]. apply Nat.eqb_eq in Ek.
    cbn [llg_elem e_Le tet_data td_Le]. destruct (idx4 b k Hk) as [-> ->]. unfold tet_Lp, tet_load. cbn [fst snd]. change (mkTnod _ _ _ _) with (nod_of t).
    generalize (BE mu0 gamma0 theta prm dt (Hext t) (Hst t) None 0 (corner p t) (nod_of t) k). intros z.
    unfold matP, side, corner. rewrite Ek. destruct b as [|[|b]]; [| |lia]; cbn [perm sumn]; unfold dot; cbn [comp]; ring.
  - apply lsum_map_ext. intros s _. rewrite at_node_dot. unfold loading. change (e_N (surf_elem p u ep eq s)) with 3%nat.
    change (length (tri_nodes (sf_tri s))) with 3%nat. apply sumn_ext. intros k Hk. change (e_nod (surf_elem p u ep eq s) k) with (nth k (tri_nodes (sf_tri s)) 0%nat).
    destruct (nth k (tri_nodes (sf_tri s)) 0 =? i)%nat eqn:Ek; [|reflexivity]. apply Nat.eqb_eq in Ek.
    cbn [surf_elem e_Le]. replace ((b * 3 + k) / 3)%nat with b by (rewrite Nat.div_add_l, Nat.div_small by lia; lia).
    replace ((b * 3 + k) mod 3)%nat with k by (rewrite Nat.add_comm, Nat.mod_add, Nat.mod_small by lia; lia).
    unfold tri_Lp, face_load. generalize (tri_BE (sf_Ks s) (sf_dMs s) (sf_uk s) (corner3 p (sf_tri s)) (corner3 u (sf_tri s)) k). intros z.
    unfold matP, side, corner3. rewrite Ek. destruct b as [|[|b]]; [| |lia]; cbn [perm sumn]; unfold dot; cbn [comp]; ring.
Qed.

(** the equations of a node: along both vectors of its basis *)
Definition balanced (w : nat -> vec) (i : nat) : Prop :=
  dot (ep i) (node_push body w i) = dot (ep i) (node_load body faces i) /\ dot (eq i) (node_push body w i) = dot (eq i) (node_load body faces i).

Lemma solves_balanced : forall rhs y, (forall d a, In d (map datum body) -> In a (tet_nodes (td_tet d)) -> (a < n)%nat) ->
  loads n (els ++ map (surf_elem p u ep eq) faces) rhs ->
  (solves mag (system_matrix mag els) rhs y <->
   length y = (2 * n)%nat /\ forall i, (i < n)%nat -> if nth i mag false then balanced (velocity ep eq y) i else nth (2 * i) y 0 = 0 /\ nth (2 * i + 1) y 0 = 0).
Proof.
  intros rhs y Hn HL. unfold solves. split; intros [Ly H]; split; auto.
  - intros i Hi. destruct (nth i mag false) eqn:Em.
    + pose proof (H (2 * i + 0)%nat ltac:(lia)) as H0. pose proof (H (2 * i + 1)%nat ltac:(lia)) as H1.
      rewrite (proj1 (half_of i 0 ltac:(lia))), Em, rows_push, (rows_load rhs i 0) in H0 by (auto; lia).
      rewrite (proj1 (half_of i 1 ltac:(lia))), Em, rows_push, (rows_load rhs i 1) in H1 by (auto; lia).
      split; [exact H1|exact H0].
    + pose proof (H (2 * i + 0)%nat ltac:(lia)) as H0. pose proof (H (2 * i + 1)%nat ltac:(lia)) as H1.
      rewrite (proj1 (half_of i 0 ltac:(lia))), Em, Nat.add_0_r in H0. rewrite (proj1 (half_of i 1 ltac:(lia))), Em in H1. auto.
  - intros r Hr. destruct (half r) as [Er Hb]. set (i := (r / 2)%nat) in *. set (b := (r mod 2)%nat) in *. assert (Hi : (i < n)%nat) by lia.
    specialize (H i Hi). destruct (nth i mag false) eqn:Em.
    + rewrite Er, rows_push, (rows_load rhs i b) by auto. destruct H as [H1 H0]. destruct b as [|[|b]]; [exact H0|exact H1|lia].
    + rewrite Er. destruct b as [|[|b]]; [rewrite Nat.add_0_r; apply H|apply H|lia].
Qed.
End Ambient.

(** ** Everything turns with the sample *)
Definition turned (Q : rotation) (f : nat -> vec) : nat -> vec := fun i => turn Q (f i).
Definition displaced (Q : rotation) (c : vec) (f : nat -> vec) : nat -> vec := fun i => displace Q c (f i).
Definition turned_at (Q : rotation) (f : tet -> nat -> vec) : tet -> nat -> vec := fun t j => turn Q (f t j).
Definition turn_body (Q : rotation) (body : material_body) : material_body := map (fun m => (fst m, turn_prm Q (snd m))) body.
Definition turn_faces (Q : rotation) (faces : list surf) : list surf := map (turn_surf Q) faces.

Section Turned.
Variables (Q : rotation) (c : vec) (mu0 gamma0 theta dt pref : R).
Notation T := (turn Q).
Notation D := (displace Q c).
(** no cubic anisotropy, or nothing turns *)
Notation fair prm := (p_K3 prm = 0 \/ forall a, T a = a).
Definition turn_nod (nod : tnod) : tnod := mkTnod (turned Q (n_u nod)) (turned Q (n_v nod)) (n_phi nod) (n_phiv nod).

Lemma gU' : forall nod j, gU (turn_nod nod) j = T (gU nod j).
Proof. intros. apply interpV'. Qed.
Lemma gV' : forall nod j, gV (turn_nod nod) j = T (gV nod j).
Proof. intros. apply interpV'. Qed.
Lemma Hd' : forall q nod, Hd (fun i => D (q i)) (turn_nod nod) = T (Hd q nod).
Proof. intros. apply interp_field'. Qed.
Lemma Hv' : forall q nod, Hv (fun i => D (q i)) (turn_nod nod) = T (Hv q nod).
Proof. intros. apply interp_field'. Qed.

Lemma H_aniso' : forall prm nod j, fair prm ->
  H_aniso mu0 gamma0 theta (turn_prm Q prm) dt (turn_nod nod) j = (T (fst (H_aniso mu0 gamma0 theta prm dt nod j)), snd (H_aniso mu0 gamma0 theta prm dt nod j)).
Proof.
  intros prm nod j HK. unfold H_aniso. cbn [turn_prm p_K p_K3 p_uk p_ex p_ey p_ez p_Ms].
  assert (E2 : (if Req_bool (p_K3 prm) 0 then (vzero, 0) else aniso_cub (T (p_ex prm)) (T (p_ey prm)) (T (p_ez prm)) (2 * p_K3 prm / (mu0 * p_Ms prm)) (s_dt gamma0 theta dt / gamma0) (gU (turn_nod nod) j) (gV (turn_nod nod) j)) =
    (T (fst (if Req_bool (p_K3 prm) 0 then (vzero, 0) else aniso_cub (p_ex prm) (p_ey prm) (p_ez prm) (2 * p_K3 prm / (mu0 * p_Ms prm)) (s_dt gamma0 theta dt / gamma0) (gU nod j) (gV nod j))),
     snd (if Req_bool (p_K3 prm) 0 then (vzero, 0) else aniso_cub (p_ex prm) (p_ey prm) (p_ez prm) (2 * p_K3 prm / (mu0 * p_Ms prm)) (s_dt gamma0 theta dt / gamma0) (gU nod j) (gV nod j)))).
  { destruct HK as [HK|HK]. - rewrite HK, (Req_bool_true 0 0) by reflexivity. cbn [fst snd]. rewrite turn_zero. reflexivity.
    - rewrite gU', gV', !HK. destruct (if Req_bool (p_K3 prm) 0 then _ else _) as [h e]. reflexivity. }
  rewrite E2. clear E2. destruct (if Req_bool (p_K3 prm) 0 then _ else _) as [h2 e2]. cbn [fst snd].
  destruct (Req_bool (p_K prm) 0); cbn [fst snd].
  - rewrite turn_add, turn_zero. reflexivity.
  - unfold aniso_uniax. cbn [fst snd]. rewrite gU', gV', !dot_add_r, !dot_scale_r, !turn_dot, turn_add, turn_scale. reflexivity.
Qed.

Lemma grad2' : forall q u, sqn (deriv (fun i => D (q i)) (turned Q u) 0) + sqn (deriv (fun i => D (q i)) (turned Q u) 1) + sqn (deriv (fun i => D (q i)) (turned Q u) 2) =
  sqn (deriv q u 0) + sqn (deriv q u 1) + sqn (deriv q u 2).
Proof.
  intros. rewrite !grad2. apply sumn_ext. intros i Hi. apply sumn_ext. intros j Hj. rewrite !(da' Q c q) by assumption.
  unfold turned. rewrite !turn_dot. reflexivity.
Qed.

Lemma uHeff' : forall prm q nod He Hs j, fair prm ->
  uHeff mu0 gamma0 theta (turn_prm Q prm) dt (turned Q He) (turned Q Hs) (fun i => D (q i)) (turn_nod nod) j = uHeff mu0 gamma0 theta prm dt He Hs q nod j.
Proof.
  intros prm q nod He Hs j HK. unfold uHeff. rewrite H_aniso' by exact HK. cbn [snd]. rewrite Hd', gU'. change (turned Q He j) with (T (He j)). change (turned Q Hs j) with (T (Hs j)).
  rewrite <- !turn_add, turn_dot. cbn [turn_nod n_u]. rewrite grad2'. reflexivity.
Qed.

Lemma push' : forall q al al' k0 u w k, (k < 4)%nat -> (forall j, al' j = al j) ->
  push (fun i => D (q i)) al' k0 (turned Q u) (turned Q w) k = T (push q al k0 u w k).
Proof.
  intros q al al' k0 u w k Hk Ha. unfold push. rewrite !turn_add, !turn_scale, turn_sumn, vol'. f_equal; [f_equal|].
  - f_equal. apply vsumn_ext. intros j Hj. rewrite !(da' Q c q), turn_dot, turn_scale by assumption. reflexivity.
  - f_equal. unfold contrib. apply sumn_ext. intros j _. rewrite weight', Ha. reflexivity.
  - unfold turned. rewrite turn_cross. f_equal. unfold a_w. apply sumn_ext. intros j _. rewrite weight'. reflexivity.
Qed.

Lemma BE' : forall prm q nod He Hs i, (i < 4)%nat -> fair prm ->
  BE mu0 gamma0 theta (turn_prm Q prm) dt (turned Q He) (turned Q Hs) None 0 (fun i => D (q i)) (turn_nod nod) i = T (BE mu0 gamma0 theta prm dt He Hs None 0 q nod i).
Proof.
  intros prm q nod He Hs i Hi HK. unfold BE. cbn [drift_BE]. rewrite turn_add, turn_zero, turn_sumn. f_equal. apply vsumn_ext. intros j _. cbv zeta.
  rewrite !grads, H_aniso', Hd', Hv', gU', gV', weight' by exact HK. cbn [fst turn_nod n_u].
  change (turned Q He j) with (T (He j)). change (turned Q Hs j) with (T (Hs j)).
  rewrite !turn_add, !turn_scale, !turn_add, !turn_scale, turn_sumn, turn_dot. f_equal. f_equal. f_equal.
  apply vsumn_ext. intros k Hk. rewrite !(da' Q c q), turn_dot, turn_scale by assumption. reflexivity.
Qed.

Lemma calc_surf' : forall q, calc_surf (fun i => D (q i)) = calc_surf q.
Proof. intros. unfold calc_surf, normal_vect. rewrite !D_sub, turn_cross, turn_norm. reflexivity. Qed.
Lemma calc_norm' : forall q, calc_norm (fun i => D (q i)) = T (calc_norm q).
Proof. intros. unfold calc_norm, normal_vect. rewrite !D_sub, turn_cross, turn_normalize. reflexivity. Qed.
Lemma tweight' : forall q j, tweight (fun i => D (q i)) j = tweight q j.
Proof. intros. unfold tweight. rewrite calc_surf'. reflexivity. Qed.
Lemma tinterpV' : forall u j, tinterpV (turned Q u) j = T (tinterpV u j).
Proof. intros. unfold tinterpV. rewrite turn_sumn. apply vsumn_ext. intros. unfold turned. rewrite turn_scale. reflexivity. Qed.
Lemma tri_BE' : forall Ks dMs uk q u i, tri_BE Ks dMs (T uk) (fun i => D (q i)) (turned Q u) i = T (tri_BE Ks dMs uk q u i).
Proof.
  intros. unfold tri_BE. rewrite turn_sumn. apply vsumn_ext. intros j _. rewrite tweight', tinterpV', turn_dot, turn_scale. reflexivity.
Qed.

Variables (p u v : nat -> vec) (phi phiv : nat -> R) (Hext Hst : tet -> nat -> vec).

Lemma node_push' : forall body w i, (forall m, In m body -> fair (snd m)) ->
  node_push mu0 gamma0 theta dt pref (displaced Q c p) (turned Q u) (turned Q v) phi phiv (turned_at Q Hext) (turned_at Q Hst) (turn_body Q body) (turned Q w) i =
  T (node_push mu0 gamma0 theta dt pref p u v phi phiv Hext Hst body w i).
Proof.
  intros body w i HK. unfold node_push, turn_body. apply vlsum_turn. intros [t prm] Hm. cbn [fst snd]. apply at_node_turn. intros k Hk.
  change (length (tet_nodes t)) with 4%nat in Hk. unfold tet_push. cbn [fst snd]. 
  change (Abis mu0 (turn_prm Q prm)) with (Abis mu0 prm).
  apply (push' (corner p t)); [exact Hk|]. intros j. unfold a_eff. cbn [turn_prm p_alpha]. f_equal.
  apply (uHeff' prm (corner p t) (nod_of u v phi phiv t) (Hext t) (Hst t) j). apply (HK _ Hm).
Qed.

Lemma node_load' : forall body faces i, (forall m, In m body -> fair (snd m)) ->
  node_load mu0 gamma0 theta dt (displaced Q c p) (turned Q u) (turned Q v) phi phiv (turned_at Q Hext) (turned_at Q Hst) (turn_body Q body) (turn_faces Q faces) i =
  T (node_load mu0 gamma0 theta dt p u v phi phiv Hext Hst body faces i).
Proof.
  intros body faces i HK. unfold node_load, turn_body, turn_faces. rewrite turn_add. f_equal.
  - apply vlsum_turn. intros [t prm] Hm. cbn [fst snd]. apply at_node_turn. intros k Hk.
    change (length (tet_nodes t)) with 4%nat in Hk. unfold tet_load. cbn [fst snd].
    apply (BE' prm (corner p t) (nod_of u v phi phiv t) (Hext t) (Hst t) k Hk). apply (HK _ Hm).
  - apply vlsum_turn. intros s _. cbn [turn_surf sf_tri]. apply at_node_turn. intros k _. unfold face_load. cbn [turn_surf sf_tri sf_Ks sf_dMs sf_uk].
    apply (tri_BE' (sf_Ks s) (sf_dMs s) (sf_uk s) (corner3 p (sf_tri s)) (corner3 u (sf_tri s)) k).
Qed.
End Turned.

Lemma datum_nodes' : forall gamma0 dt mag p u ep eq ds, llg_problem gamma0 dt mag p u ep eq ds ->
  forall d a, In d ds -> In a (tet_nodes (td_tet d)) -> (a < length mag)%nat.
Proof. intros. eapply lp_nodes; eauto. Qed.

(** a tangent vector is a combination of the two vectors of the basis *)
Lemma tangent_coords : forall u p q w, orthonormal u p q -> cross u p = q -> dot u w = 0 -> tangent p q (dot w p) (dot w q) = w.
Proof.
  intros u p q w (A & B & C & E & F & G) Hq Hw. unfold tangent.
  assert (O : Vec.orthonormal u p q).
  { unfold unitary in *. repeat split; auto. rewrite dot_comm; exact G. }
  pose proof (expand u p q w O) as X. rewrite (dot_comm w u), Hw in X. rewrite X at 3. vring.
Qed.

Lemma combination : forall u p q a b, orthonormal u p q -> cross u p = q -> dot u a = 0 -> dot p b = 0 -> dot q b = 0 -> dot a b = 0.
Proof.
  intros u p q a b O Hq Ha Hp Hb. rewrite <- (tangent_coords u p q a O Hq Ha). unfold tangent. rewrite dot_add_l, !dot_scale_l, Hp, Hb. ring.
Qed.

Lemma velocities_turn : forall Q c mu0 gamma0 theta dt pref mag p u v phi phiv Hext Hst ep eq ep' eq' body faces y y',
  (forall m, In m body -> p_K3 (snd m) = 0 \/ forall a, turn Q a = a) ->
  step_solution mu0 gamma0 theta dt pref mag p u v phi phiv Hext Hst ep eq body faces y ->
  step_solution mu0 gamma0 theta dt pref mag (displaced Q c p) (turned Q u) (turned Q v) phi phiv (turned_at Q Hext) (turned_at Q Hst) ep' eq'
    (turn_body Q body) (turn_faces Q faces) y' ->
  forall i, (i < length mag)%nat -> nth i mag false = true -> velocity ep' eq' y' i = turn Q (velocity ep eq y i).
Proof.
  intros Q c mu0 gamma0 theta dt pref mag p u v phi phiv Hext Hst ep eq ep' eq' body faces y y' HK (HP & rhs & HL & HS) (HP' & rhs' & HL' & HS').
  pose proof (datum_nodes' _ _ _ _ _ _ _ _ HP) as HN. pose proof (datum_nodes' _ _ _ _ _ _ _ _ HP') as HN'.
  destruct (proj1 (solves_balanced mu0 gamma0 theta dt pref p u v phi phiv Hext Hst mag ep eq body faces rhs y HN HL) HS) as [Ly B].
  set (w := velocity ep eq y) in *.
  set (z := flat_map (fun i => if nth i mag false then [dot (turn Q (w i)) (ep' i); dot (turn Q (w i)) (eq' i)] else [0; 0]) (seq 0 (length mag))).
  assert (Hz : forall k l, flat_map (fun i => if nth i mag false then [dot (turn Q (w i)) (ep' i); dot (turn Q (w i)) (eq' i)] else [0; 0]) (seq k l) =
     concat (map (fun i => [if nth i mag false then dot (turn Q (w i)) (ep' i) else 0; if nth i mag false then dot (turn Q (w i)) (eq' i) else 0]) (seq k l))).
  { intros k l. rewrite flat_map_concat_map. f_equal. apply map_ext. intros i. destruct (nth i mag false); reflexivity. }
  assert (Nz : forall f g : nat -> R, forall l k i, (i < l)%nat -> nth (2 * i) (concat (map (fun i => [f i; g i]) (seq k l))) 0 = f (k + i)%nat /\ nth (2 * i + 1) (concat (map (fun i => [f i; g i]) (seq k l))) 0 = g (k + i)%nat).
  { intros f g l. induction l as [|l IH]; intros k i Hi; [lia|]. cbn [seq map concat app]. destruct i as [|i].
    - cbn [Nat.mul Nat.add nth]. rewrite Nat.add_0_r. auto.
    - replace (2 * S i)%nat with (S (S (2 * i))) by lia. cbn [nth Nat.add]. specialize (IH (S k) i ltac:(lia)). replace (k + S i)%nat with (S k + i)%nat by lia. exact IH. }
  assert (Lz : length z = (2 * length mag)%nat).
  { unfold z. rewrite Hz.
    assert (G : forall (f g : nat -> R) l k, length (concat (map (fun i => [f i; g i]) (seq k l))) = (2 * l)%nat).
    { intros f g l. induction l as [|l IH]; intros k; [reflexivity|]. cbn [seq map concat app length]. rewrite IH. lia. }
    apply G. }
  assert (Ez : forall i, (i < length mag)%nat -> nth (2 * i) z 0 = (if nth i mag false then dot (turn Q (w i)) (ep' i) else 0) /\ nth (2 * i + 1) z 0 = (if nth i mag false then dot (turn Q (w i)) (eq' i) else 0)).
  { intros i Hi. unfold z. rewrite Hz. exact (Nz _ _ (length mag) 0%nat i Hi). }
  assert (Vz : forall i, (i < length mag)%nat -> nth i mag false = true -> velocity ep' eq' z i = turn Q (w i)).
  { intros i Hi Em. unfold velocity. destruct (Ez i Hi) as [-> ->]. rewrite Em.
    destruct (lp_basis _ _ _ _ _ _ _ _ HP' i Hi Em) as [O' C']. apply (tangent_coords (turned Q u i)); auto.
    unfold turned. rewrite turn_dot. apply (velocity_sq _ _ _ _ _ _ _ _ y i HP Hi Em). }
  assert (Hw : forall i, (i < length mag)%nat -> nth i mag false = false -> w i = vzero /\ velocity ep' eq' z i = vzero).
  { intros i Hi Em. unfold w, velocity. destruct (Ez i Hi) as [-> ->]. rewrite Em. specialize (B i Hi). rewrite Em in B. destruct B as [-> ->].
    unfold tangent. split; vring. }
  assert (Vz' : forall i, (i < length mag)%nat -> velocity ep' eq' z i = turned Q w i).
  { intros i Hi. destruct (nth i mag false) eqn:Em; [apply Vz; auto|]. destruct (Hw i Hi Em) as [E1 E2]. unfold turned. rewrite E1, E2, turn_zero. reflexivity. }
  assert (HS2 : solves mag (system_matrix mag (map (llg_elem gamma0 dt (displaced Q c p) (turned Q u) ep' eq') (map (tet_data mu0 gamma0 theta dt pref (displaced Q c p) (turned Q u) (turned Q v) phi phiv
     (turned_at Q Hext) (turned_at Q Hst) ep' eq') (turn_body Q body)))) rhs' z).
  { apply (solves_balanced mu0 gamma0 theta dt pref (displaced Q c p) (turned Q u) (turned Q v) phi phiv (turned_at Q Hext) (turned_at Q Hst) mag ep' eq' (turn_body Q body) (turn_faces Q faces) rhs' z HN' HL').
    split; [exact Lz|]. intros i Hi. destruct (nth i mag false) eqn:Em.
    2: { destruct (Ez i Hi) as [-> ->]. rewrite Em. auto. }
    specialize (B i Hi). rewrite Em in B. destruct B as [B1 B2].
    assert (NP : node_push mu0 gamma0 theta dt pref (displaced Q c p) (turned Q u) (turned Q v) phi phiv (turned_at Q Hext) (turned_at Q Hst) (turn_body Q body) (velocity ep' eq' z) i =
      turn Q (node_push mu0 gamma0 theta dt pref p u v phi phiv Hext Hst body w i)).
    { rewrite <- (node_push' Q c) by exact HK. unfold node_push. f_equal. apply map_ext_in. intros m Hm. unfold at_node. apply vsumn_ext. intros k Hk.
      destruct (_ =? _)%nat; [|reflexivity]. unfold tet_push, push. change (length (tet_nodes (fst m))) with 4%nat in Hk.
      assert (Hc : forall j, (j < 4)%nat -> corner (velocity ep' eq' z) (fst m) j = corner (turned Q w) (fst m) j).
      { intros j Hj. apply Vz'. unfold turn_body in Hm. apply in_map_iff in Hm. destruct Hm as ([t prm] & <- & Hm). cbn [fst].
        apply (HN (tet_data mu0 gamma0 theta dt pref p u v phi phiv Hext Hst ep eq (t, prm))); [apply in_map; exact Hm|]. apply nth_In. exact Hj. }
      rewrite Hc by exact Hk. do 3 f_equal. apply vsumn_ext. intros j Hj. rewrite Hc by exact Hj. reflexivity. }
    unfold balanced. rewrite NP, node_load' by exact HK.
    set (F := node_push mu0 gamma0 theta dt pref p u v phi phiv Hext Hst body w i) in *.
    set (G := node_load mu0 gamma0 theta dt p u v phi phiv Hext Hst body faces i) in *.
    destruct (lp_basis _ _ _ _ _ _ _ _ HP i Hi Em) as [O C]. destruct (lp_basis _ _ _ _ _ _ _ _ HP' i Hi Em) as [O' C'].
    assert (O1 : orthonormal (turned Q u i) (turn Q (ep i)) (turn Q (eq i))).
    { destruct O as (A1 & A2 & A3 & A4 & A5 & A6). unfold turned, orthonormal, unitary in *. rewrite !turn_dot. repeat split; assumption. }
    assert (C1 : cross (turned Q u i) (turn Q (ep i)) = turn Q (eq i)) by (unfold turned; rewrite turn_cross, C; reflexivity).
    assert (K : forall a, dot (turned Q u i) a = 0 -> dot a (turn Q F) = dot a (turn Q G)).
    { intros a Ha. apply Rminus_diag_uniq. rewrite <- dot_sub_r, <- turn_sub.
      apply (combination _ _ _ a _ O1 C1 Ha); rewrite turn_dot, dot_sub_r; lra. }
    destruct O' as (A1 & A2 & A3 & A4 & A5 & A6). unfold unitary in *.
    assert (U1 : dot (turned Q u i) (ep' i) = 0) by (first [exact A4 | exact A5 | exact A6 | rewrite dot_comm; first [exact A4 | exact A5 | exact A6]]).
    assert (U2 : dot (turned Q u i) (eq' i) = 0) by (rewrite <- C'; apply cross_dot_l).
    split; apply K; assumption. }
  destruct (C77_unique_solution gamma0 dt mag _ _ _ _ _ rhs' HP') as (x & _ & Ux). cbv zeta in Ux.
  assert (Ey : y' = z) by (rewrite (Ux y' HS'), (Ux z HS2); reflexivity).
  intros i Hi Em. rewrite Ey. apply Vz; auto.
Qed.

(** ** C97 *)
(** Turn and translate the sample, turn its magnetization, velocities, fields and anisotropy axes: the velocities found by the
    solver and the next magnetizations are turned, whatever local bases are used in each case. What is missing: cubic anisotropy, for which this is
    false (C97_cubic_refuted). *)
Theorem C97_step_turns_partial : forall Q c mu0 gamma0 theta dt pref mag p u v phi phiv Hext Hst ep eq ep' eq' body faces y y',
  (forall m, In m body -> p_K3 (snd m) = 0) ->
  step_solution mu0 gamma0 theta dt pref mag p u v phi phiv Hext Hst ep eq body faces y ->
  step_solution mu0 gamma0 theta dt pref mag (displaced Q c p) (turned Q u) (turned Q v) phi phiv (turned_at Q Hext) (turned_at Q Hst) ep' eq'
    (turn_body Q body) (turn_faces Q faces) y' ->
  forall i, (i < length mag)%nat -> nth i mag false = true ->
  velocity ep' eq' y' i = turn Q (velocity ep eq y i) /\
  stepped gamma0 dt (turned Q u) ep' eq' y' i = turn Q (stepped gamma0 dt u ep eq y i).
Proof.
  intros Q c mu0 gamma0 theta dt pref mag p u v phi phiv Hext Hst ep eq ep' eq' body faces y y' HK H H' i Hi Em.
  assert (E : velocity ep' eq' y' i = turn Q (velocity ep eq y i)).
  { apply (velocities_turn Q c mu0 gamma0 theta dt pref mag p u v phi phiv Hext Hst ep eq ep' eq' body faces y y'); auto. }
  split; [exact E|]. rewrite !stepped_moved. unfold moved. rewrite E, <- turn_normalize, turn_add, turn_scale. reflexivity.
Qed.

(** the rotation that does nothing *)
Lemma axes_ok : Vec.orthonormal (V 1 0 0) (V 0 1 0) (V 0 0 1).
Proof. unfold Vec.orthonormal. repeat split; try (unfold dot; cbn [vx vy vz]; ring). unfold cross. cbn [vx vy vz]. f_equal; ring. Qed.
Definition still : rotation := mkRot _ _ _ axes_ok.
Lemma still_turn : forall a, turn still a = a.
Proof. intros [x y z]. unfold turn, still. cbn [r1 r2 r3]. vring. Qed.

(** The local bases (setBasis draws them at random) have no influence on the step, for any material: two runs of the same step
    in different bases give the same velocities and the same next magnetizations. *)
Theorem C97_bases_irrelevant : forall mu0 gamma0 theta dt pref mag p u v phi phiv Hext Hst ep eq ep' eq' body faces y y',
  step_solution mu0 gamma0 theta dt pref mag p u v phi phiv Hext Hst ep eq body faces y ->
  step_solution mu0 gamma0 theta dt pref mag p u v phi phiv Hext Hst ep' eq' body faces y' ->
  forall i, (i < length mag)%nat -> nth i mag false = true ->
  velocity ep' eq' y' i = velocity ep eq y i /\ stepped gamma0 dt u ep' eq' y' i = stepped gamma0 dt u ep eq y i.
Proof.
  intros mu0 gamma0 theta dt pref mag p u v phi phiv Hext Hst ep eq ep' eq' body faces y y' H H' i Hi Em.
  assert (E1 : displaced still vzero p = p). { apply functional_extensionality. intros k. unfold displaced, displace. rewrite still_turn. vring. }
  assert (E2 : forall f, turned still f = f). { intros f. apply functional_extensionality. intros k. apply still_turn. }
  assert (E3 : forall f, turned_at still f = f). { intros f. apply functional_extensionality. intros t. apply functional_extensionality. intros k. apply still_turn. }
  assert (E4 : turn_body still body = body).
  { unfold turn_body. rewrite <- (map_id body) at 2. apply map_ext. intros [t prm]. cbn [fst snd]. f_equal. destruct prm. unfold turn_prm. cbn. rewrite !still_turn. reflexivity. }
  assert (E5 : turn_faces still faces = faces).
  { unfold turn_faces. rewrite <- (map_id faces) at 2. apply map_ext. intros [f Ks dM uk]. unfold turn_surf. cbn. rewrite still_turn. reflexivity. }
  assert (E : velocity ep' eq' y' i = velocity ep eq y i).
  { rewrite <- (still_turn (velocity ep eq y i)).
    apply (velocities_turn still vzero mu0 gamma0 theta dt pref mag p u v phi phiv Hext Hst ep eq ep' eq' body faces y y'); auto.
    - intros; right; apply still_turn.
    - rewrite E1, !E2, !E3, E4, E5. exact H'. }
  split; [exact E|]. rewrite !stepped_moved. unfold moved. rewrite E. reflexivity.
Qed.

(** Such steps exist for any bases: the system of a step has one solution. *)
Theorem C97_step_exists : forall mu0 gamma0 theta dt pref mag p u v phi phiv Hext Hst ep eq body faces,
  llg_problem gamma0 dt mag p u ep eq (map (tet_data mu0 gamma0 theta dt pref p u v phi phiv Hext Hst ep eq) body) ->
  exists y, step_solution mu0 gamma0 theta dt pref mag p u v phi phiv Hext Hst ep eq body faces y.
Proof.
  intros mu0 gamma0 theta dt pref mag p u v phi phiv Hext Hst ep eq body faces HP.
  set (l := map (llg_elem gamma0 dt p u ep eq) (map (tet_data mu0 gamma0 theta dt pref p u v phi phiv Hext Hst ep eq) body) ++ map (surf_elem p u ep eq) faces).
  destruct (C77_unique_solution gamma0 dt mag p u ep eq _ (rhs_list (length mag) l) HP) as (y & Hy & _).
  exists y. split; [exact HP|]. exists (rhs_list (length mag) l). split; [apply rhs_list_loads|exact Hy].
Qed.

(** ** Energies *)
Definition turn_sprm (Q : rotation) (s : sprm) : sprm := mkSprm (s_Ks s) (turn Q (s_uk s)).
Definition turn_field (Q : rotation) (f : field) : field := match f with RtoR3 H => RtoR3 (turn Q H) | R4toR3 a => R4toR3 a | UNDEF => UNDEF end.

Lemma wdot_ext : forall q f g, (forall j, (j < NPI)%nat -> f j = g j) -> wdot q f = wdot q g.
Proof. intros. unfold wdot. apply sumn_ext. intros j Hj. rewrite H by exact Hj. reflexivity. Qed.

Section Energies.
Variables (Q : rotation) (c : vec).
Notation T := (turn Q).
Notation D := (displace Q c).

Lemma div' : forall q u, sumn 4 (fun i => dot (T (u i)) (da (fun k => D (q k)) i)) = sumn 4 (fun i => dot (u i) (da q i)).
Proof. intros. apply sumn_ext. intros i Hi. rewrite (da' Q c q) by exact Hi. apply turn_dot. Qed.

Lemma tet_energy' : forall mu0 prms dprm p u phi tets f esf E k,
  tet_energy mu0 (map (turn_prm Q) prms) (turn_prm Q dprm) (displaced Q c p) (turned Q u) phi tets (turn_field Q f) (map (turned Q) esf) E k =
  tet_energy mu0 prms dprm p u phi tets f esf E k.
Proof.
  intros. unfold tet_energy. rewrite (map_nth (turn_prm Q)). set (te := nth k tets _). set (prm := nth (t_reg te) prms dprm).
  change (corner (displaced Q c p) te) with (fun i => D (corner p te i)). change (corner (turned Q u) te) with (turned Q (corner u te)).
  set (q := corner p te). set (un := corner u te). cbn [turn_prm p_K p_K3].
  assert (IV : forall j, interpV (turned Q un) j = T (interpV un j)) by (intros; apply interpV').
  assert (X1 : exchangeEnergy (turn_prm Q prm) (fun i => D (q i)) (turned Q un) = exchangeEnergy prm q un).
  { unfold exchangeEnergy. cbn [turn_prm p_A]. rewrite wdot'. f_equal. apply wdot_ext. intros j _. apply grad2'. }
  assert (X2 : tet_demagEnergy mu0 (turn_prm Q prm) (fun i => D (q i)) (turned Q un) (interp (corner phi te)) = tet_demagEnergy mu0 prm q un (interp (corner phi te))).
  { unfold tet_demagEnergy. cbn [turn_prm p_Ms]. rewrite wdot'. f_equal. apply wdot_ext. intros j _. f_equal. rewrite !trace_dot. apply div'. }
  assert (X3 : uniaxialEnergy (turn_prm Q prm) (fun i => D (q i)) (interpV (turned Q un)) = uniaxialEnergy prm q (interpV un)).
  { unfold uniaxialEnergy. cbn [turn_prm p_K p_uk]. rewrite wdot'. f_equal. apply wdot_ext. intros j _. rewrite IV, turn_dot. reflexivity. }
  assert (X4 : cubicEnergy (turn_prm Q prm) (fun i => D (q i)) (interpV (turned Q un)) = cubicEnergy prm q (interpV un)).
  { unfold cubicEnergy. cbn [turn_prm p_K3 p_ex p_ey p_ez]. rewrite wdot'. f_equal. apply wdot_ext. intros j _. cbv zeta. rewrite IV, !turn_dot. reflexivity. }
  rewrite X1, X2, X3, X4. destruct f as [H|amp|]; cbn [turn_field]; [| |reflexivity].
  - do 3 f_equal. unfold zeemanEnergy. cbn [turn_prm p_Ms]. rewrite wdot'. f_equal. apply wdot_ext. intros j _. rewrite IV. apply turn_dot.
  - rewrite nth_error_map. destruct (nth_error esf k) as [H|]; cbn [option_map]; [|reflexivity].
    do 3 f_equal. unfold zeemanEnergy_space. cbn [turn_prm p_Ms]. rewrite wdot'. f_equal. apply wdot_ext. intros j _. rewrite IV. unfold turned. apply turn_dot.
Qed.

Lemma tri_energy' : forall mu0 sprms dsprm p u phi tris dMs E k,
  tri_energy mu0 (map (turn_sprm Q) sprms) (turn_sprm Q dsprm) (displaced Q c p) (turned Q u) phi tris dMs E k = tri_energy mu0 sprms dsprm p u phi tris dMs E k.
Proof.
  intros. unfold tri_energy. rewrite (map_nth (turn_sprm Q)). set (fa := nth k tris _). set (prm := nth (r_reg fa) sprms dsprm).
  change (tri_corner (displaced Q c p) fa) with (fun i => D (tri_corner p fa i)). change (tri_corner (turned Q u) fa) with (turned Q (tri_corner u fa)).
  set (q := tri_corner p fa). set (un := tri_corner u fa). cbn [turn_sprm s_Ks s_uk].
  assert (X1 : tri_anisotropyEnergy (s_Ks prm) (T (s_uk prm)) (fun i => D (q i)) (tinterpV (turned Q un)) = tri_anisotropyEnergy (s_Ks prm) (s_uk prm) q (tinterpV un)).
  { unfold tri_anisotropyEnergy. f_equal. apply sumn_ext. intros j _. rewrite tweight', tinterpV', turn_dot. reflexivity. }
  assert (X2 : forall M ph, tri_demagEnergy mu0 M (fun i => D (q i)) (tinterpV (turned Q un)) ph = tri_demagEnergy mu0 M q (tinterpV un) ph).
  { intros. unfold tri_demagEnergy. f_equal. apply sumn_ext. intros j _. rewrite tweight', tinterpV', calc_norm', turn_dot. reflexivity. }
  rewrite X1, X2. reflexivity.
Qed.
End Energies.

(** The four energies of a displaced sample are those of the sample, cubic anisotropy included. *)
Theorem C97_energies : forall Q c mu0 prms sprms dprm dsprm p u phi tets tris dMs magTet magTri f esf,
  energy mu0 (map (turn_prm Q) prms) (map (turn_sprm Q) sprms) (turn_prm Q dprm) (turn_sprm Q dsprm) (displaced Q c p) (turned Q u) phi tets tris dMs magTet magTri
    (turn_field Q f) (map (turned Q) esf) =
  energy mu0 prms sprms dprm dsprm p u phi tets tris dMs magTet magTri f esf.
Proof.
  intros. unfold energy, tets_energy. 
  assert (A : forall l E, fold_left (fun E k => match E with Some E => tet_energy mu0 (map (turn_prm Q) prms) (turn_prm Q dprm) (displaced Q c p) (turned Q u) phi tets (turn_field Q f) (map (turned Q) esf) E k | None => None end) l E =
    fold_left (fun E k => match E with Some E => tet_energy mu0 prms dprm p u phi tets f esf E k | None => None end) l E).
  { induction l as [|k l IH]; intros E; cbn [fold_left]; [reflexivity|]. rewrite IH. f_equal. destruct E as [E|]; [apply tet_energy'|reflexivity]. }
  rewrite A. destruct (fold_left _ magTet _) as [E|]; [|reflexivity]. f_equal.
  revert E. induction magTri as [|k l IH]; intros E; cbn [fold_left]; [reflexivity|]. rewrite tri_energy'. apply IH.
Qed.

(** ** Charges and potentials *)
Section Potential.
Variables (Q : rotation) (c : vec).
Notation T := (turn Q).
Notation D := (displace Q c).

Lemma interp_D : forall q j, interpV (fun i => D (q i)) j = D (interpV q j).
Proof.
  intros q j. unfold displace. rewrite <- interpV'. unfold interpV. apply vec_eq; unfold vsumn, vadd, vscale; cbn [sumn vx vy vz]; unfold sh; ring.
Qed.
Lemma tinterp_D : forall q j, tinterpV (fun i => D (q i)) j = D (tinterpV q j).
Proof.
  intros q j. unfold displace. rewrite <- tinterpV'. unfold tinterpV, turned. apply vec_eq; unfold vsumn, vadd, vscale; cbn [sumn vx vy vz]; unfold tsh; ring.
Qed.
Lemma dist' : forall a b, vnorm (vsub (D a) (D b)) = vnorm (vsub a b).
Proof. intros. rewrite D_sub. apply turn_norm. Qed.
Lemma D_inj : forall a b, D a = D b -> a = b.
Proof.
  intros a b E. assert (Z : sqn (vsub a b) = 0). { unfold sqn. rewrite <- (turn_dot Q), <- (D_sub Q c), E. vsimpl. ring. }
  apply dot_self_zero in Z. replace a with (vadd (vsub a b) b) by vring. rewrite Z. vring.
Qed.

Variables (p u : nat -> vec) (tets : list tet) (tris : list tri) (Ms dMs : list R).
Lemma tet_charge' : forall k j, tet_charge (displaced Q c p) tets Ms (turned Q u) k j = tet_charge p tets Ms u k j.
Proof.
  intros. unfold tet_charge, tet_charges. set (t := the_tet tets k).
  change (corner (displaced Q c p) t) with (fun i => D (corner p t i)). change (corner (turned Q u) t) with (fun i => T (corner u t i)).
  rewrite weight', !divergence_dot, div'. reflexivity.
Qed.
Lemma tri_charge' : forall k j, tri_charge (displaced Q c p) tris dMs (turned Q u) k j = tri_charge p tris dMs u k j.
Proof.
  intros. unfold tri_charge, tri_charges. set (t := the_tri tris k).
  change (tri_corner (displaced Q c p) t) with (fun i => D (tri_corner p t i)). change (tri_corner (turned Q u) t) with (turned Q (tri_corner u t)).
  rewrite tweight', tinterpV', calc_norm', turn_dot. reflexivity.
Qed.
Lemma tet_gauss' : forall k j, tet_gauss (displaced Q c p) tets k j = D (tet_gauss p tets k j).
Proof. intros. apply interp_D. Qed.
Lemma tri_gauss' : forall k j, tri_gauss (displaced Q c p) tris k j = D (tri_gauss p tris k j).
Proof. intros. apply tinterp_D. Qed.

Lemma vertex_potential' : forall k i, vertex_potential (displaced Q c p) tris dMs (turned Q u) k i = vertex_potential p tris dMs u k i.
Proof.
  intros k i. unfold vertex_potential. set (t := the_tri tris k).
  change (tri_corner (displaced Q c p) t) with (fun i => D (tri_corner p t i)). change (tri_corner (turned Q u) t) with (turned Q (tri_corner u t)).
  set (q := tri_corner p t). set (un := tri_corner u t). rewrite calc_norm'.
  unfold tri_potential. rewrite !(D_sub Q c), calc_surf', !turn_norm, !turn_dot. unfold turned. rewrite !turn_dot. reflexivity.
Qed.

Lemma charged_points' : forall magTet magTri, charged_points (displaced Q c p) tets tris Ms dMs (turned Q u) magTet magTri =
  map (fun yq => (D (fst yq), snd yq)) (charged_points p tets tris Ms dMs u magTet magTri).
Proof.
  intros. unfold charged_points. rewrite map_app, !flat_map_concat_map, !concat_map, !map_map. f_equal; f_equal; apply map_ext; intros k; rewrite map_map; apply map_ext; intros j; cbn [fst snd].
  - rewrite tet_gauss', tet_charge'. reflexivity.
  - rewrite tri_gauss', tri_charge'. reflexivity.
Qed.

Lemma node_potential' : forall magTet magTri a, node_potential (displaced Q c p) tets tris Ms dMs (turned Q u) magTet magTri a = node_potential p tets tris Ms dMs u magTet magTri a.
Proof.
  intros. unfold node_potential. do 2 f_equal; f_equal; apply map_ext; intros k.
  - unfold tet_part. apply sumn_ext. intros j _. rewrite tet_charge', tet_gauss'. unfold displaced. rewrite dist'. reflexivity.
  - unfold tri_part. rewrite !vertex_potential'. repeat (destruct (Nat.eqb a _); [reflexivity|]).
    apply sumn_ext. intros j _. rewrite tri_charge', tri_gauss'. unfold displaced. rewrite dist'. reflexivity.
Qed.
Lemma coulomb_abs' : forall x l, coulomb_abs (D x) (map (fun yq => (D (fst yq), snd yq)) l) = coulomb_abs x l.
Proof. intros. unfold coulomb_abs. rewrite map_map. f_equal. apply map_ext. intros yq. cbn [fst snd]. rewrite dist'. reflexivity. Qed.
End Potential.

(** The charges of a displaced sample are those of the sample, at the displaced points; the potentials computed for
    one and the other (whatever the box, the tree and the errors of the fast multipole method in each case) are the same at every magnetic node up to twice
    the accuracy of that method. *)
Theorem C97_potentials : forall Q c p norm c0 norm' c0' tets tris Ms dMs exec exec' eps u magTet magTri magNode leaves leaves' phi phi0,
  0 < norm -> 0 < norm' -> accurate eps exec -> accurate eps exec' ->
  tree_of (sources p norm c0 tets tris (length magNode) magTet magTri) (targets p norm c0 magNode) leaves ->
  tree_of (sources (displaced Q c p) norm' c0' tets tris (length magNode) magTet magTri) (targets (displaced Q c p) norm' c0' magNode) leaves' ->
  (forall k, In k magTri -> NoDup (tri_nodes (nth k tris (mkTri 0 0 0 0))) /\
                            forall i, In i (tri_nodes (nth k tris (mkTri 0 0 0 0))) -> (i < length magNode)%nat) ->
  (forall a yq, (a < length magNode)%nat -> In yq (charged_points p tets tris Ms dMs u magTet magTri) -> p a <> fst yq) ->
  length phi = length magNode -> length phi0 = length magNode ->
  charged_points (displaced Q c p) tets tris Ms dMs (turned Q u) magTet magTri =
    map (fun yq => (displace Q c (fst yq), snd yq)) (charged_points p tets tris Ms dMs u magTet magTri) /\
  exists r r', demag p norm tets tris Ms dMs exec magNode u magTet magTri leaves phi = Some r /\
    demag (displaced Q c p) norm' tets tris Ms dMs exec' magNode (turned Q u) magTet magTri leaves' phi0 = Some r' /\
    forall a, (a < length magNode)%nat -> nth a magNode false = true ->
      Rabs (nth a r' 0 - nth a r 0) <= 2 * (eps * coulomb_abs (p a) (charged_points p tets tris Ms dMs u magTet magTri) / (4 * PI)).
Proof.
  intros Q c p norm c0 norm' c0' tets tris Ms dMs exec exec' eps u magTet magTri magNode leaves leaves' phi phi0 Hn Hn' Ha Ha' Ht Ht' Hf Hne Hl Hl0.
  split; [apply charged_points'|].
  destruct (C66_node_potential p norm c0 tets tris Ms dMs exec eps u magTet magTri magNode leaves phi Hn Ha Ht Hf Hne Hl) as (r & E & _ & P).
  destruct (C66_node_potential (displaced Q c p) norm' c0' tets tris Ms dMs exec' eps (turned Q u) magTet magTri magNode leaves' phi0 Hn' Ha' Ht' Hf) as (r' & E' & _ & P'); [|exact Hl0|].
  { intros a yq Hi Hy. rewrite charged_points' in Hy. apply in_map_iff in Hy. destruct Hy as (z & <- & Hz). cbn [fst]. intros X. apply D_inj in X. exact (Hne a z Hi Hz X). }
  exists r, r'. split; [exact E|]. split; [exact E'|]. intros a Hi Em. pose proof (proj1 (P a Hi) Em) as A. pose proof (proj1 (P' a Hi) Em) as A'.
  rewrite charged_points', node_potential' in A'. change (displaced Q c p a) with (displace Q c (p a)) in A'. rewrite coulomb_abs' in A'.
  set (B := eps * _ / _) in *. revert A A'. unfold Rabs. repeat destruct Rcase_abs; lra.
Qed.

(** ** With cubic anisotropy the step depends on the orientation of the sample *)
(** one tetrahedron, magnetized along z, K3 = 1 with the axes of space, velocity along x, no field; the quarter turn about z *)
Definition cub_prm : tprm := mkTprm (1 / 2) 1 1 0 vzero 1 (V 1 0 0) (V 0 1 0) (V 0 0 1).
Definition cub_body : material_body := [(mkTet 0 1 2 3 0, cub_prm)].
Definition no_field (_ : tet) (_ : nat) : vec := vzero.
Lemma quarter_ok : Vec.orthonormal (V 0 1 0) (V (-1) 0 0) (V 0 0 1).
Proof. unfold Vec.orthonormal. repeat split; try (unfold dot; cbn [vx vy vz]; ring). unfold cross. cbn [vx vy vz]. f_equal; ring. Qed.
Definition quarter : rotation := mkRot _ _ _ quarter_ok.

Lemma single_problem : forall mu0 p u v phi phiv Hext Hst ep eq prm, 0 < detJ (corner p (mkTet 0 1 2 3 0)) -> 0 < p_alpha prm -> 0 <= Abis mu0 prm ->
  (forall i, (i < 4)%nat -> orthonormal (u i) (ep i) (eq i) /\ cross (u i) (ep i) = eq i) ->
  llg_problem 1 (1 / 10) one_mag p u ep eq (map (tet_data mu0 1 (1 / 2) (1 / 10) 1 p u v phi phiv Hext Hst ep eq) [(mkTet 0 1 2 3 0, prm)]).
Proof.
  intros mu0 p u v phi phiv Hext Hst ep eq prm Hd Ha HA HB. constructor; try lra.
  - intros d [<-|[]]. cbn [tet_data td_tet td_alpha td_pref]. split; [exact Hd|]. split; [exact Ha|]. split.
    + unfold s_dt. apply Rmult_le_pos; [lra|exact HA].
    + unfold tet_nodes. cbn. repeat constructor; simpl; intuition lia.
  - intros d i [<-|[]] Hi. cbn in Hi |- *. lia.
  - intros i Hi. split.
    + intros Em. eexists. split; [left; reflexivity|]. cbn in Hi. do 4 (destruct i as [|i]; [cbn; tauto|]). destruct i as [|i]; [discriminate|lia].
    + intros (d & [<-|[]] & Hin). cbn in Hin. repeat (destruct Hin as [<-|Hin]; [reflexivity|]). contradiction.
  - intros i Hi Em. apply HB. cbn in Hi. destruct (Nat.eq_dec i 4) as [->|]; [discriminate|lia].
Qed.

(** the field of cubic anisotropy for a magnetization along z: only the term of the velocity remains *)
Lemma uniform_cubic : forall prm Q1 He q (u0 v0 : vec) i, p_K prm = 0 -> p_K3 prm <> 0 ->
  (forall j, (j < NPI)%nat -> fst (aniso_cub (p_ex prm) (p_ey prm) (p_ez prm) (2 * p_K3 prm / (1 * p_Ms prm)) (s_dt 1 (1 / 2) (1 / 10) / 1)
     (interpV (fun _ => u0) j) (interpV (fun _ => v0) j)) = Q1) ->
  He = (fun _ : nat => vzero) ->
  BE 1 1 (1 / 2) prm (1 / 10) He He None 0 q (mkTnod (fun _ => u0) (fun _ => v0) (fun _ => 0) (fun _ => 0)) i = vscale (sumn NPI (fun j => sh i j * weight q j)) Q1.
Proof.
  intros prm Q1 He q u0 v0 i HK HK3 HQ ->. unfold BE, drift_BE.
  assert (D : forall k, deriv q (fun _ => u0) k = vzero).
  { intros k. unfold deriv, vsumn. cbn [sumn]. rewrite da_0. destruct k as [|[|k]]; unfold comp, vsub, vadd, vzero, vscale; cbn [vx vy vz]; apply vec_eq; cbn [vx vy vz]; ring. }
  set (nod := mkTnod _ _ _ _).
  assert (Hd0 : Hd q nod = vzero) by (unfold Hd, interp_field, vsumn; cbn [nod n_phi sumn]; apply vec_eq; vsimpl; ring).
  assert (Hv0 : Hv q nod = vzero) by (unfold Hv, interp_field, vsumn; cbn [nod n_phiv sumn]; apply vec_eq; vsimpl; ring).
  rewrite (vsumn_ext NPI _ (fun j => vscale (sh i j * weight q j) Q1)).
  - unfold vsumn. apply vec_eq; cbn [vx vy vz vadd vscale vzero]; rewrite Rplus_0_l; cbn [NPI sumn]; ring.
  - intros j Hj. rewrite Hd0, Hv0. cbn [nod n_u]. rewrite !D. unfold H_aniso. rewrite HK, (Req_bool_true 0 0), (Req_bool_false (p_K3 prm)) by auto.
    specialize (HQ j Hj). change (gU nod j) with (interpV (fun _ => u0) j). change (gV nod j) with (interpV (fun _ => v0) j).
    destruct (aniso_cub _ _ _ _ _ _ _) as [h e]. cbn [fst] in HQ |- *. subst h.
    apply vec_eq; vsimpl; ring.
Qed.

Lemma interp_const : forall (a : vec) j, interpV (fun _ => a) j = a.
Proof. intros a j. unfold interpV. apply vec_eq; unfold vsumn, vscale; cbn [sumn vx vy vz]; unfold sh; ring. Qed.

Lemma cub_before : forall K s, fst (aniso_cub (V 1 0 0) (V 0 1 0) (V 0 0 1) K s (V 0 0 1) (V 1 0 0)) = V (- (K * s)) 0 0.
Proof.
  intros K s. unfold aniso_cub. cbn [fst]. unfold dot. cbn [vx vy vz].
  replace (1 * 0 + 0 * 0 + 0 * 1) with 0 by ring. replace (0 * 0 + 1 * 0 + 0 * 1) with 0 by ring. replace (0 * 0 + 0 * 0 + 1 * 1) with 1 by ring.
  replace (1 * 1 + 0 * 0 + 0 * 0) with 1 by ring. replace (0 * 1 + 1 * 0 + 0 * 0) with 0 by ring. replace (0 * 1 + 0 * 0 + 1 * 0) with 0 by ring.
  unfold uuu, cwise, vscale, vadd, vsub. cbn [vx vy vz]. f_equal; ring.
Qed.
Lemma cub_after : forall K s, fst (aniso_cub (V 0 1 0) (V (-1) 0 0) (V 0 0 1) K s (V 0 0 1) (V 0 1 0)) = vzero.
Proof.
  intros K s. unfold aniso_cub. cbn [fst]. unfold dot. cbn [vx vy vz].
  replace (0 * 0 + 1 * 0 + 0 * 1) with 0 by ring. replace (-1 * 0 + 0 * 0 + 0 * 1) with 0 by ring. replace (0 * 0 + 0 * 0 + 1 * 1) with 1 by ring.
  replace (0 * 0 + 1 * 1 + 0 * 0) with 1 by ring. replace (-1 * 0 + 0 * 1 + 0 * 0) with 0 by ring. replace (0 * 0 + 0 * 1 + 1 * 0) with 0 by ring.
  unfold uuu, cwise, vscale, vadd, vsub, vzero. cbn [vx vy vz]. f_equal; ring.
Qed.

Theorem C97_cubic_refuted : exists Q prm y y',
  let body := [(mkTet 0 1 2 3 0, prm)] in
  p_K3 prm <> 0 /\ Vec.orthonormal (p_ex prm) (p_ey prm) (p_ez prm) /\
  step_solution 1 1 (1 / 2) (1 / 10) 1 one_mag two_pos uz ux no_phi no_phi no_field no_field ux uy body [] y /\
  step_solution 1 1 (1 / 2) (1 / 10) 1 one_mag (displaced Q vzero two_pos) (turned Q uz) (turned Q ux) no_phi no_phi (turned_at Q no_field) (turned_at Q no_field)
    ux uy (turn_body Q body) (turn_faces Q []) y' /\
  turned Q uz = uz /\
  exists i, (i < 5)%nat /\ nth i one_mag false = true /\ velocity ux uy y' i <> turn Q (velocity ux uy y i).
Proof.
  assert (D : detJ (corner two_pos (mkTet 0 1 2 3 0)) = 1).
  { unfold detJ, det3, jac, edge1, edge2, edge3, corner, two_pos, vsub; simpl; ring. }
  assert (Z : turned quarter uz = uz). { apply functional_extensionality. intros k. unfold turned, turn, quarter, uz. cbn [r1 r2 r3 vx vy vz]. vring. }
  assert (X : turned quarter ux = uy). { apply functional_extensionality. intros k. unfold turned, turn, quarter, ux, uy. cbn [r1 r2 r3 vx vy vz]. vring. }
  assert (N : turned_at quarter no_field = no_field). { apply functional_extensionality. intros t. apply functional_extensionality. intros k. apply turn_zero. }
  assert (B : forall i : nat, (i < 4)%nat -> orthonormal (uz i) (ux i) (uy i) /\ cross (uz i) (ux i) = uy i).
  { intros i _. unfold ux, uy, uz, orthonormal, unitary. repeat split; try (unfold dot; cbn [vx vy vz]; ring). unfold cross. cbn [vx vy vz]. f_equal; ring. }
  pose proof (single_problem 1 two_pos uz ux no_phi no_phi no_field no_field ux uy cub_prm ltac:(rewrite D; lra) ltac:(cbn; lra) ltac:(unfold Abis; cbn; lra) B) as P.
  assert (D' : 0 < detJ (corner (displaced quarter vzero two_pos) (mkTet 0 1 2 3 0))).
  { change (corner (displaced quarter vzero two_pos) (mkTet 0 1 2 3 0)) with (fun i => displace quarter vzero (corner two_pos (mkTet 0 1 2 3 0) i)). rewrite detJ', D. lra. }
  pose proof (single_problem 1 (displaced quarter vzero two_pos) uz uy no_phi no_phi no_field no_field ux uy (turn_prm quarter cub_prm) D' ltac:(cbn; lra) ltac:(unfold Abis; cbn; lra) B) as P'.
  destruct (C97_step_exists _ _ _ _ _ _ _ _ _ _ _ _ _ _ _ _ [] P) as (y & Sy).
  destruct (C97_step_exists _ _ _ _ _ _ _ _ _ _ _ _ _ _ _ _ [] P') as (y' & Sy').
  exists quarter, cub_prm, y, y'. cbv zeta. split; [cbn; lra|]. split; [exact axes_ok|]. split; [exact Sy|]. split.
  { rewrite Z, X, N. exact Sy'. } split; [exact Z|].
  (* the displaced sample does not move *)
  assert (S0 : forall i, (i < 5)%nat -> nth i one_mag false = true -> velocity ux uy y' i = vzero).
  { destruct Sy' as (_ & rhs' & L' & S').
    assert (R0 : forall r, (r < 2 * length one_mag)%nat -> nth (r / 2) one_mag false = true -> nth r rhs' 0 = 0).
    { intros r Hr Em. destruct (half r) as [Er Hb]. rewrite Er.
      rewrite (rows_load 1 1 (1 / 2) (1 / 10) 1 (displaced quarter vzero two_pos) uz uy no_phi no_phi no_field no_field one_mag ux uy _ [] rhs' (r / 2) (r mod 2) L' ltac:(lia) Hb).
      unfold node_load. cbn [map vlsum fold_right fst]. replace (at_node _ _ _) with vzero. { unfold dot. cbn [vx vy vz vadd vzero]. ring. }
      symmetry. unfold at_node. rewrite (vsumn_ext _ _ (fun _ => vzero)). { unfold vsumn. apply vec_eq; cbn [vx vy vz]; apply sumn_zero; reflexivity. }
      intros k Hk. destruct (_ =? _)%nat; [|reflexivity]. unfold tet_load, nod_of. cbn [fst snd].
      change (mkTnod _ _ _ _) with (mkTnod (fun _ : nat => V 0 0 1) (fun _ : nat => V 0 1 0) (fun _ : nat => 0) (fun _ : nat => 0)).
      rewrite (uniform_cubic (turn_prm quarter cub_prm) vzero (no_field (mkTet 0 1 2 3 0))); [vring|reflexivity|cbn; lra| |reflexivity].
      intros j _. rewrite !interp_const. cbn [turn_prm cub_prm p_K3 p_Ms p_ex p_ey p_ez].
      replace (turn quarter (V 1 0 0)) with (V 0 1 0) by (unfold turn, quarter; cbn [r1 r2 r3]; vring).
      replace (turn quarter (V 0 1 0)) with (V (-1) 0 0) by (unfold turn, quarter; cbn [r1 r2 r3]; vring).
      replace (turn quarter (V 0 0 1)) with (V 0 0 1) by (unfold turn, quarter; cbn [r1 r2 r3]; vring). apply cub_after. }
    destruct (C77_unique_solution 1 (1 / 10) one_mag _ _ _ _ _ rhs' P') as (x & _ & Ux).
    assert (Ey : y' = repeat 0 10).
    { rewrite (Ux y' S'). symmetry. apply Ux. split; [reflexivity|]. intros r Hr. destruct (nth (r / 2) one_mag false) eqn:Em.
      - rewrite R0 by assumption. apply sumn_zero. intros k _. rewrite nth_repeat. ring.
      - apply nth_repeat. }
    intros i Hi Em. rewrite Ey. unfold velocity, tangent. rewrite !nth_repeat. vring. }
  (* the sample moves *)
  destruct Sy as (_ & rhs & L & S).
  destruct (moving_node 1 (1 / 10) one_mag two_pos uz ux uy _ rhs y 1 P S) as (i & Hi & Em & Nz).
  - cbn. lia.
  - reflexivity.
  - change 1%nat with (2 * 0 + 1)%nat. 
    rewrite (rows_load 1 1 (1 / 2) (1 / 10) 1 two_pos uz ux no_phi no_phi no_field no_field one_mag ux uy _ [] rhs 0 1 L ltac:(cbn; lia) ltac:(lia)).
    unfold node_load, cub_body. cbn [map vlsum fold_right fst side]. unfold at_node. cbn [length tet_nodes t0 t1 t2 t3 nth]. unfold vsumn. cbn [sumn nth Nat.eqb]. 
    unfold tet_load, nod_of. cbn [fst snd].
    change (mkTnod _ _ _ _) with (mkTnod (fun _ : nat => V 0 0 1) (fun _ : nat => V 1 0 0) (fun _ : nat => 0) (fun _ : nat => 0)).
    rewrite (uniform_cubic cub_prm (V (- (1 / 10)) 0 0) (no_field (mkTet 0 1 2 3 0))); [|reflexivity|cbn; lra| |reflexivity].
    + fold (a_w (corner two_pos (mkTet 0 1 2 3 0)) 0). rewrite a_w_vol by lia. rewrite vol_det, D. unfold dot, ux, vadd, vscale, vzero. cbn [vx vy vz]. lra.
    + intros j _. rewrite !interp_const. cbn [cub_prm p_K3 p_Ms p_ex p_ey p_ez]. rewrite cub_before. f_equal. unfold s_dt. field.
  - exists i. split; [exact Hi|]. split; [exact Em|]. rewrite (S0 i Hi Em). intros C. apply Nz.
    rewrite <- (turn_zero quarter) in C.
    assert (Q0 : sqn (velocity ux uy y i) = 0). { unfold sqn. rewrite <- (turn_dot quarter), <- C, turn_dot. vsimpl. ring. }
    apply dot_self_zero. exact Q0.
Qed.

(** ** The hypotheses are met: a step with uniaxial anisotropy, a field and a surface anisotropy, for any rotation, translation and bases *)
Example C97_nonvacuous : forall Q c (r : nat -> R),
  let prm := mkTprm (1 / 2) 1 1 3 (V 1 0 0) 0 vzero vzero vzero in
  let body := [(mkTet 0 1 2 3 0, prm)] in
  let faces := [mkSurf (mkTri 0 1 2 0) 1 2 (V 0 1 0)] in
  let H := fun (_ : tet) (_ : nat) => V 0 1 2 in
  let ep' := fun i => turn Q (V (cos (r i)) (sin (r i)) 0) in
  let eq' := fun i => turn Q (V (- sin (r i)) (cos (r i)) 0) in
  (forall m, In m body -> p_K3 (snd m) = 0) /\
  (exists y, step_solution 1 1 (1 / 2) (1 / 10) 1 one_mag two_pos uz ux no_phi no_phi H no_field ux uy body faces y) /\
  (exists y', step_solution 1 1 (1 / 2) (1 / 10) 1 one_mag (displaced Q c two_pos) (turned Q uz) (turned Q ux) no_phi no_phi (turned_at Q H) (turned_at Q no_field)
    ep' eq' (turn_body Q body) (turn_faces Q faces) y').
Proof.
  intros Q c r prm body faces H ep' eq'.
  assert (D : detJ (corner two_pos (mkTet 0 1 2 3 0)) = 1).
  { unfold detJ, det3, jac, edge1, edge2, edge3, corner, two_pos, vsub; simpl; ring. }
  split; [|split].
  - intros m [<-|[]]. reflexivity.
  - apply C97_step_exists. apply single_problem; [rewrite D; lra|cbn; lra|unfold Abis; cbn; lra|].
    intros i _. unfold ux, uy, uz, orthonormal, unitary. repeat split; try (unfold dot; cbn [vx vy vz]; ring). unfold cross. cbn [vx vy vz]. f_equal; ring.
  - apply C97_step_exists. apply single_problem; [|cbn; lra|unfold Abis; cbn; lra|].
    + change (corner (displaced Q c two_pos) (mkTet 0 1 2 3 0)) with (fun i => displace Q c (corner two_pos (mkTet 0 1 2 3 0) i)). rewrite detJ', D. lra.
    + intros i _. pose proof (sin2_cos2 (r i)) as SC. unfold Rsqr in SC. unfold turned, uz, ep', eq', orthonormal, unitary. rewrite turn_cross, !turn_dot.
      repeat split; try (unfold dot; cbn [vx vy vz]; lra). f_equal. unfold cross. cbn [vx vy vz]. f_equal; ring.
Qed.

Print Assumptions C97_elements.
Print Assumptions C97_step_turns_partial.
Print Assumptions C97_bases_irrelevant.
Print Assumptions C97_step_exists.
Print Assumptions C97_energies.
Print Assumptions C97_potentials.
Print Assumptions C97_cubic_refuted.
