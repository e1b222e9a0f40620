(** * The linear system of a time step: solvability, uniqueness and error of the returned solution (C32, C33, C77) *)
From Coq Require Import List ZArith Arith Bool Lia Reals Lra Permutation Sorted.
From Verif Require Import Arith ArithLaws Vec Sums LinAlg SparseModel SparseProof ConcModel ConcProof SparseProps
  IterModel IterProof Ieee IterMask IterExact IterProps StdModel MeshModel MeshProof MeshProps ElemModel ElemProof AvgModel ElemProps
  AsmModel AsmProof AsmProps.
Import ListNotations.
Local Open Scope R_scope.

(** ** the matrix of the system *)
(** coefficient at row r = 2*node+component and column c: the sum of the elements on the rows of magnetic nodes, the
    identity on the others *)
Definition system_matrix (mag : list bool) (els : list (elem R)) (r c : nat) : R :=
  if nth (r / 2) mag false
  then lsum (map (fun e => coupling e (r / 2) (r mod 2) (c / 2) (c mod 2)) els)
  else if (r =? c)%nat then 1 else 0.

(** the assembled tetrahedra have magnetic nodes only *)
Definition on_magnetic (mag : list bool) (els : list (elem R)) : Prop :=
  forall e a, In e els -> In a (e_ind e) -> nth a mag false = true.

Lemma half : forall r, (r = 2 * (r / 2) + r mod 2 /\ r mod 2 < 2)%nat.
Proof. intros r. split. { apply Nat.div_mod. lia. } apply Nat.mod_upper_bound. lia. Qed.
Lemma half_of : forall i d, (d < 2)%nat -> ((2 * i + d) / 2 = i /\ (2 * i + d) mod 2 = d)%nat.
Proof.
  intros i d Hd. rewrite (Nat.mul_comm 2 i). split.
  - rewrite Nat.div_add_l by lia. rewrite (Nat.div_small d 2) by lia. lia.
  - rewrite Nat.add_comm, Nat.mod_add by lia. apply Nat.mod_small. exact Hd.
Qed.
Lemma half_lt : forall r n, (r < 2 * n -> r / 2 < n)%nat.
Proof. intros r n H. apply Nat.div_lt_upper_bound; lia. Qed.

Lemma masked_mag : forall mag r, (r < 2 * length mag)%nat -> masked (lvd_of mag) r = negb (nth (r / 2) mag false).
Proof.
  intros mag r Hr. unfold masked. destruct (half r) as [E L]. destruct (in_dec Nat.eq_dec r (lvd_of mag)) as [H|H].
  - apply lvd_in in H. destruct H as (i & Hi & Em & H).
    assert (r / 2 = i)%nat by lia. subst i. rewrite Em. reflexivity.
  - destruct (nth (r / 2) mag false) eqn:Em; auto. exfalso. apply H. apply lvd_in. exists (r / 2)%nat. split. { apply half_lt. exact Hr. }
    split; auto. lia.
Qed.

Lemma coupling_out_row : forall e i di j dj, ~ In i (e_ind e) -> coupling e i di j dj = 0.
Proof.
  intros e i di j dj H. unfold coupling. apply sumn_zero. intros ie Hie. apply sumn_zero. intros je Hje.
  destruct (e_nod e ie =? i)%nat eqn:E; auto. apply Nat.eqb_eq in E. exfalso. apply H. rewrite <- E. apply nod_in. exact Hie.
Qed.
Lemma coupling_out_col : forall e i di j dj, ~ In j (e_ind e) -> coupling e i di j dj = 0.
Proof.
  intros e i di j dj H. unfold coupling. apply sumn_zero. intros ie Hie. apply sumn_zero. intros je Hje.
  destruct (e_nod e je =? j)%nat eqn:E; [|rewrite andb_false_r; auto]. apply Nat.eqb_eq in E. exfalso. apply H. rewrite <- E. apply nod_in. exact Hje.
Qed.

Section exact_solve.
Context {N : Type}.
Variables (upd : num XA -> num XA -> N -> N) (gamma0 : R) (passes : nat) (mag : list bool) (it : iteration XA) (K : matrix XA)
  (proj : nat -> R * R) (work : list (list (elem R))) (sched : list nat) (tets tris : list (elem R))
  (nodes : list N) (o : solve_out (A := XA) N) (edges : list (nat * nat)) (tol : R).
Notation n := (length mag).
Hypothesis Hrun : lin_solve upd (Fin gamma0 : num XA) passes mag it K (fun i => (Fin (fst (proj i)) : num XA, Fin (snd (proj i)) : num XA))
  (map (map xelem) work) sched (map xelem tets) (map xelem tris) nodes = Some o.
Hypothesis Hg : gamma0 <> 0.
Hypothesis Hwork : Permutation (concat work) tets.
Hypothesis Hms : mesh_system 2 n edges (mag_filter mag) tets.
Hypothesis Hmag : on_magnetic mag tets.
Hypothesis Htri : forall e a, In e tris -> In a (e_ind e) -> (a < n)%nat.
Hypothesis HK : matrix_of_shape (build_shape 2 n edges (mag_filter mag)) K.
Hypothesis Htol : resmax it = (Fin tol : num XA).
Hypothesis Hn : (0 < n)%nat.
Hypothesis Hdiag : forall i d, (i < n)%nat -> (d < 2)%nat -> nth i mag false = true ->
  lsum (map (fun e => coupling e i d i d) tets) <> 0.

Lemma xms : mesh_system 2 n edges (mag_filter mag) (concat (map (map xelem) work)).
Proof.
  destruct Hms as [H1 H2 H3]. rewrite <- concat_map.
  assert (G : forall e, In e (map xelem (concat work)) -> exists e0, In e0 tets /\ e = xelem e0).
  { intros e He. apply in_map_iff in He. destruct He as (e0 & <- & He). exists e0. split; auto. eapply Permutation_in; eauto. }
  constructor; auto.
  - intros e a He Ha. destruct (G e He) as (e0 & H & ->). exact (H2 e0 a H Ha).
  - intros e He. destruct (G e He) as (e0 & H & ->). exact (H3 e0 H).
Qed.

Theorem system_ok : square_matrix (o_K _ o) (2 * n) (system_matrix mag tets) (lvd_of mag).
Proof.
  destruct HK as [Hw Hsh].
  destruct (solve_steps upd _ passes mag it K _ _ sched _ _ nodes o edges Hrun xms Hw Hsh) as (Hd & W1 & S1 & W & S & L & G & _).
  destruct Hms as [He Hnod Hok].
  destruct (build_shape_spec 2 n edges (mag_filter mag) He) as [[Hlen Hso] Hin].
  constructor; auto.
  - intros i j H. rewrite S in H. apply Hin in H. destruct H as (i' & k & j' & l & H1 & H2 & _ & -> & [[<- H3]|(e & H3 & _ & [-> | ->])]).
    + apply pos_lt; auto.
    + apply pos_lt; auto. apply He in H3. simpl in H3. tauto.
    + apply pos_lt; auto. apply He in H3. simpl in H3. tauto.
  - intros r c Hr. rewrite G, masked_mag by exact Hr.
    destruct (half r) as [Er Lr]. destruct (half c) as [Ec Lc]. pose proof (half_lt r n Hr) as Hr2.
    assert (V : mget (g_mat (crun (start (clear K) (map (flat_map (mat_calls 2)) (map (map xelem) work))) sched)) r c =
      Some (Fin (lsum (map (fun e => coupling e (r / 2) (r mod 2) (c / 2) (c mod 2)) tets)) : num XA)).
    { destruct (Nat.lt_ge_cases (c / 2) n) as [Hc|Hc].
      - pose proof (C30_assembled 2 n edges (mag_filter mag) tets K work sched Hms HK Hwork) as C. cbv zeta in C.
        rewrite map_map in Hd |- *. destruct (C Hd) as [_ C2]. rewrite Er at 1. rewrite Ec at 1. apply C2; auto.
      - rewrite (lsum_zero (fun e => coupling e (r / 2) (r mod 2) (c / 2) (c mod 2))).
        + rewrite <- xn0. apply mget_out.
          * rewrite <- shape_length, S1, Hlen. exact Hr.
          * rewrite S1. intros H. apply Hin in H. destruct H as (i' & k & j' & l & H1 & H2 & _ & E & [[<- H3]|(e & H3 & _ & [-> | ->])]).
            -- lia.
            -- apply He in H3. simpl in H3. lia.
            -- apply He in H3. simpl in H3. lia.
        + intros e He'. apply coupling_out_col. intros Hj. pose proof (Hnod e _ He' Hj). lia. }
    rewrite V. unfold system_matrix. destruct (nth (r / 2) mag false) eqn:Em; cbn [negb andb]; auto.
    destruct (r =? c)%nat eqn:Erc.
    + change (@n1 XA) with (Fin (IZR 1 / IZR 1) : num XA). replace (IZR 1 / IZR 1) with 1 by field. reflexivity.
    + rewrite lsum_zero; auto. intros e He'. apply coupling_out_row. intros Hi. rewrite (Hmag e _ He' Hi) in Em. discriminate.
  - intros r Hr Hnl. unfold system_matrix. destruct (half r) as [Er Lr]. pose proof (half_lt r n Hr) as Hr2.
    assert (Em : nth (r / 2) mag false = true).
    { pose proof (masked_mag mag r Hr) as M. unfold masked in M. destruct (in_dec Nat.eq_dec r (lvd_of mag)); [contradiction|].
      destruct (nth (r / 2) mag false); auto. }
    rewrite Em. apply Hdiag; auto.
Qed.

(** the right-hand side, once masked *)
Definition is_rhs (L : list R) : Prop := length L = (2 * n)%nat /\
  forall i d, (i < n)%nat -> (d < 2)%nat -> nth (2 * i + d) L 0 =
    lsum (map (fun e => loading e i d) tets) + lsum (map (fun e => loading e i d) tris).

Theorem solve_exact : status (o_iter _ o) = CONVERGED ->
  exists L y, is_rhs L /\ o_X _ o = vF y /\ length y = (2 * n)%nat /\
    residual (2 * n) (system_matrix mag tets) (lvd_of mag) L y <=
      tol * residual (2 * n) (system_matrix mag tets) (lvd_of mag) L (repeat 0 (2 * n)) /\
    (forall k, In k (lvd_of mag) -> nth k y 0 = 0).
Proof.
  intros Hst. pose proof system_ok as Hsq. destruct HK as [Hw Hsh].
  destruct (solve_steps upd _ passes mag it K _ _ sched _ _ nodes o edges Hrun xms Hw Hsh) as (_ & _ & _ & W & S & Ln & G & E).
  destruct (C31_rhs n tets tris) as (L & E1 & L1 & V1).
  { intros e a He Ha. apply in_app_iff in He. destruct Hms. destruct He; eauto. }
  set (L' := map (fun i => if masked (lvd_of mag) i then 0 else nth i L 0) (seq 0 (2 * n))).
  assert (EL : applyMask (lvd_of mag) (rhs_of n (map xelem tets) (map xelem tris)) = vF L').
  { rewrite E1. apply isv_vF_inv. apply isv_mask. apply isv_vF. exact L1. }
  set (x0 := flat_map (fun i => if nth i mag false then [fst (proj i) / gamma0; snd (proj i) / gamma0] else [0; 0]) (seq 0 n)).
  assert (EG : init_guess (Fin gamma0 : num XA) mag (fun i => (Fin (fst (proj i)) : num XA, Fin (snd (proj i)) : num XA)) = vF x0).
  { unfold init_guess, x0, vF. rewrite map_flat_map. apply flat_map_ext. intros i. destruct (nth i mag false); cbn [fst snd map].
    - rewrite !xdiv_fin by exact Hg. reflexivity.
    - rewrite !xn0. reflexivity. }
  assert (Lx : length x0 = (2 * n)%nat).
  { rewrite <- (map_length (fun x => Fin x : num XA)). fold (vF x0). rewrite <- EG. apply guess_length. }
  rewrite EL, EG in E.
  assert (LL' : length L' = (2 * n)%nat) by (unfold L'; rewrite map_length, seq_length; reflexivity).
  destruct (C27_converged_residual BicgDir0 passes (reset it) (o_iter _ o) (o_K _ o) (2 * n) (system_matrix mag tets) x0 L' x0
    (lvd_of mag) tol (o_X _ o) Hsq ltac:(lia) Lx LL' Lx Htol E Hst) as (y & Ey & Ly & Hr).
  cbn [imposed origin with_values] in Hr.
  assert (RL : forall z, residual (2 * n) (system_matrix mag tets) (lvd_of mag) L' z = residual (2 * n) (system_matrix mag tets) (lvd_of mag) L z).
  { intros z. unfold residual. f_equal. apply sumn_ext. intros k Hk. destruct (masked (lvd_of mag) k) eqn:Em; auto.
    unfold L'. rewrite (nth_indep _ 0 ((fun i => if masked (lvd_of mag) i then 0 else nth i L 0) 0%nat)) by (rewrite map_length, seq_length; exact Hk).
    rewrite (map_nth (fun i => if masked (lvd_of mag) i then 0 else nth i L 0)), seq_nth by exact Hk. cbn [plus]. rewrite Em. reflexivity. }
  rewrite !RL in Hr. exists L, y. split; [split; auto|]. split; auto. split; auto. split; auto.
  intros k Hk. pose proof Hk as Hk'. apply lvd_in in Hk'. destruct Hk' as (i & Hi & Em & Hk').
  assert (Hd : exists d, (d < 2 /\ k = 2 * i + d)%nat). { destruct Hk'; [exists 0%nat|exists 1%nat]; lia. }
  destruct Hd as (d & Hd & Ek).
  destruct (nonmag_facts upd _ passes mag it K _ _ sched _ _ nodes o edges Hrun xms Hw Hsh i d Hi Em Hd) as [_ Z].
  specialize (Z XA_ieee ltac:(rewrite Hst; discriminate)). rewrite <- Ek, Ey in Z.
  assert (Ez : nth k (vF y) n0 = (Fin (nth k y 0) : num XA)).
  { destruct (isv_vF (2 * n) y Ly) as [_ Y]. apply Y. lia. }
  rewrite Ez in Z. apply xneq0t in Z. exact Z.
Qed.
End exact_solve.

(** ** the tetrahedra of the LLG problem *)
(** a magnetic tetrahedron: damping, u.Heff at the Gauss points, prefactor of the exchange matrix, vector *)
Record tdata := mkTdata { td_tet : tet; td_alpha : R; td_h : nat -> R; td_pref : R; td_Le : nat -> R }.

Definition llg_elem (gamma0 dt : R) (p u ep eq : nat -> vec) (d : tdata) : elem R :=
  mkElem (tet_nodes (td_tet d))
    (fun r c => Kp (corner p (td_tet d)) (fun j => alpha_eff gamma0 dt (td_alpha d) (td_h d j)) (td_pref d)
                   (corner u (td_tet d)) (corner ep (td_tet d)) (corner eq (td_tet d)) (r / 4) (c / 4) (r mod 4) (c mod 4))
    (td_Le d).

(** node i of a tetrahedron *)
Definition has_node (i : nat) (d : tdata) : bool := if in_dec Nat.eq_dec i (tet_nodes (td_tet d)) then true else false.

Record llg_problem (gamma0 dt : R) (mag : list bool) (p u ep eq : nat -> vec) (ds : list tdata) : Prop := mkProblem {
  lp_gamma : 0 < gamma0;
  lp_dt : 0 < dt;
  lp_tet : forall d, In d ds -> 0 < detJ (corner p (td_tet d)) /\ 0 < td_alpha d /\ 0 <= td_pref d /\
    NoDup (tet_nodes (td_tet d));
  lp_nodes : forall d i, In d ds -> In i (tet_nodes (td_tet d)) -> (i < length mag)%nat;
  (* the magnetic nodes are the nodes of these tetrahedra (C37) *)
  lp_mag : forall i, (i < length mag)%nat -> (nth i mag false = true <-> exists d, In d ds /\ In i (tet_nodes (td_tet d)));
  (* and have a unit magnetization and the basis of Node::setBasis (C17) *)
  lp_basis : forall i, (i < length mag)%nat -> nth i mag false = true ->
    orthonormal (u i) (ep i) (eq i) /\ cross (u i) (ep i) = eq i }.

Lemma idx4 : forall b i, (i < 4)%nat -> ((b * 4 + i) / 4 = b /\ (b * 4 + i) mod 4 = i)%nat.
Proof.
  intros b i Hi. split.
  - rewrite Nat.div_add_l by lia. rewrite (Nat.div_small i 4) by lia. lia.
  - rewrite Nat.add_comm, Nat.mod_add by lia. apply Nat.mod_small. exact Hi.
Qed.

Lemma four_cases : forall i, (i < 4)%nat -> i = 0%nat \/ i = 1%nat \/ i = 2%nat \/ i = 3%nat.
Proof. intros; lia. Qed.

Lemma a_w_vol : forall q i, (i < 4)%nat -> a_w q i = calc_vol q / 4.
Proof.
  intros q i Hi. unfold a_w. rewrite vol_det. unfold weight, sh, gu, gv, gw, pds, NPI.
  destruct (four_cases i Hi) as [->|[->|[->| ->]]]; cbn [sumn nth]; field.
Qed.

(** row (node i, b) of an element applied to x: the product with the other basis vector of the field of the vectors w *)
Definition tangent (ep eq : vec) (x y : R) : vec := vadd (vscale x ep) (vscale y eq).

Lemma Kp_apply : forall q al c u ep eq b i (x : nat -> nat -> R), (b < 2)%nat ->
  sumn 4 (fun j => sumn 2 (fun b' => Kp q al c u ep eq b b' i j * x j b')) =
  sumn 3 (fun k => comp k (match b with O => eq i | _ => ep i end) *
     sumn 3 (fun l => sumn 4 (fun j => lumping q al c u k l i j * comp l (tangent (ep j) (eq j) (x j 0%nat) (x j 1%nat))))).
Proof.
  intros q al c u ep eq b i x Hb. unfold Kp.
  assert (E : forall j, sumn 2 (fun b' => sumn 3 (fun k => sumn 3 (fun l => matP ep eq (perm b) k i * lumping q al c u k l i j * matP ep eq b' l j)) * x j b') =
    sumn 3 (fun k => sumn 3 (fun l => comp k (match b with O => eq i | _ => ep i end) * (lumping q al c u k l i j * comp l (tangent (ep j) (eq j) (x j 0%nat) (x j 1%nat)))))).
  { intros j. generalize (lumping q al c u). intros lu. unfold matP, tangent, vadd, vscale, perm.
    destruct b as [|[|b]]; [| |lia]; cbn [sumn comp vx vy vz]; ring. }
  rewrite (sumn_ext 4 _ _ (fun j _ => E j)). rewrite sumn_exchange. apply sumn_ext. intros k _.
  rewrite sumn_exchange. rewrite <- sumn_scale. apply sumn_ext. intros l _. rewrite <- sumn_scale. reflexivity.
Qed.

Section quadratic.
Variables (gamma0 dt : R) (mag : list bool) (p u ep eq : nat -> vec) (ds : list tdata).
Hypothesis HP : llg_problem gamma0 dt mag p u ep eq ds.
Notation n := (length mag).
Notation els := (map (llg_elem gamma0 dt p u ep eq) ds).

Lemma llg_Ke : forall d ie je b b', (ie < 4)%nat -> (je < 4)%nat ->
  e_Ke (llg_elem gamma0 dt p u ep eq d) (b * 4 + ie) (b' * 4 + je) =
  Kp (corner p (td_tet d)) (fun j => alpha_eff gamma0 dt (td_alpha d) (td_h d j)) (td_pref d)
     (corner u (td_tet d)) (corner ep (td_tet d)) (corner eq (td_tet d)) b b' ie je.
Proof.
  intros d ie je b b' Hi Hj. unfold llg_elem. cbn [e_Ke].
  destruct (idx4 b ie Hi) as [-> ->]. destruct (idx4 b' je Hj) as [-> ->]. reflexivity.
Qed.

(** sum over the mesh nodes of a value attached to one node *)
Lemma gather : forall m k (f : nat -> R), (k < m)%nat -> sumn m (fun i => if (k =? i)%nat then f i else 0) = f k.
Proof.
  intros m k f Hk. rewrite <- (sumn_delta m k f Hk). apply sumn_ext. intros i _. rewrite Nat.eqb_sym. reflexivity.
Qed.

(** one element in the global form *)
Lemma elem_form : forall e (y x : nat -> nat -> R), (forall a, In a (e_ind e) -> (a < n)%nat) ->
  sumn n (fun i => sumn 2 (fun d => y i d * sumn n (fun j => sumn 2 (fun d' => coupling e i d j d' * x j d')))) =
  sumn (e_N e) (fun ie => sumn 2 (fun d => y (e_nod e ie) d *
    sumn (e_N e) (fun je => sumn 2 (fun d' => e_Ke e (d * e_N e + ie) (d' * e_N e + je) * x (e_nod e je) d')))).
Proof.
  intros e y x Hn.
  assert (In' : forall i d ie, sumn n (fun j => sumn 2 (fun d' => sumn (e_N e) (fun je =>
      if (e_nod e ie =? i)%nat && (e_nod e je =? j)%nat then e_Ke e (d * e_N e + ie) (d' * e_N e + je) else 0) * x j d')) =
    if (e_nod e ie =? i)%nat then sumn (e_N e) (fun je => sumn 2 (fun d' => e_Ke e (d * e_N e + ie) (d' * e_N e + je) * x (e_nod e je) d')) else 0).
  { intros i d ie. destruct (e_nod e ie =? i)%nat; cbn [andb].
    2: { apply sumn_zero. intros j _. apply sumn_zero. intros d' _. rewrite (sumn_zero (e_N e)); auto. ring. }
    rewrite (sumn_ext n _ (fun j => sumn (e_N e) (fun je => if (e_nod e je =? j)%nat then sumn 2 (fun d' => e_Ke e (d * e_N e + ie) (d' * e_N e + je) * x j d') else 0))).
    - rewrite sumn_exchange. apply sumn_ext. intros je Hje. apply (gather n (e_nod e je) (fun j => sumn 2 (fun d' => e_Ke e (d * e_N e + ie) (d' * e_N e + je) * x j d'))).
      apply Hn. apply nod_in. exact Hje.
    - intros j _. rewrite (sumn_ext 2 _ (fun d' => sumn (e_N e) (fun je => x j d' * (if (e_nod e je =? j)%nat then e_Ke e (d * e_N e + ie) (d' * e_N e + je) else 0)))).
      + rewrite sumn_exchange. apply sumn_ext. intros je _. destruct (e_nod e je =? j)%nat.
        * apply sumn_ext. intros; ring.
        * apply sumn_zero. intros; ring.
      + intros d' _. rewrite sumn_scale. ring. }
  rewrite (sumn_ext n _ (fun i => sumn (e_N e) (fun ie => if (e_nod e ie =? i)%nat then sumn 2 (fun d => y i d *
    sumn (e_N e) (fun je => sumn 2 (fun d' => e_Ke e (d * e_N e + ie) (d' * e_N e + je) * x (e_nod e je) d'))) else 0))).
  - rewrite sumn_exchange. apply sumn_ext. intros ie Hie.
    apply (gather n (e_nod e ie) (fun i => sumn 2 (fun d => y i d *
      sumn (e_N e) (fun je => sumn 2 (fun d' => e_Ke e (d * e_N e + ie) (d' * e_N e + je) * x (e_nod e je) d'))))).
    apply Hn. apply nod_in. exact Hie.
  - intros i _.
    rewrite (sumn_ext 2 _ (fun d => sumn (e_N e) (fun ie => y i d * (if (e_nod e ie =? i)%nat then
        sumn (e_N e) (fun je => sumn 2 (fun d' => e_Ke e (d * e_N e + ie) (d' * e_N e + je) * x (e_nod e je) d')) else 0)))).
    + rewrite sumn_exchange. apply sumn_ext. intros ie _. destruct (e_nod e ie =? i)%nat; auto.
      apply sumn_zero. intros; ring.
    + intros d _. rewrite sumn_scale. f_equal. unfold coupling.
      rewrite <- (sumn_ext (e_N e) _ _ (fun ie _ => In' i d ie)).
      rewrite (sumn_ext n _ (fun j => sumn (e_N e) (fun ie => sumn 2 (fun d' => sumn (e_N e) (fun je =>
        if (e_nod e ie =? i)%nat && (e_nod e je =? j)%nat then e_Ke e (d * e_N e + ie) (d' * e_N e + je) else 0) * x j d')))).
      { apply sumn_exchange. }
      intros j _. rewrite <- sumn_exchange. apply sumn_ext. intros d' _.
      rewrite Rmult_comm, <- sumn_scale. apply sumn_ext. intros; ring.
Qed.

Lemma elem_bound : forall d (x : nat -> nat -> R), In d ds ->
  52 / 275 * td_alpha d * tet_vol p (td_tet d) * lsum (map (fun i => Rsqr (x i 0%nat) + Rsqr (x i 1%nat)) (tet_nodes (td_tet d))) <=
  sumn n (fun i => sumn 2 (fun b => x i (1 - b)%nat * sumn n (fun j => sumn 2 (fun b' => coupling (llg_elem gamma0 dt p u ep eq d) i b j b' * x j b')))).
Proof.
  intros d x Hd. destruct (lp_tet _ _ _ _ _ _ _ _ HP d Hd) as (H1 & H2 & H3 & H4).
  rewrite (elem_form (llg_elem gamma0 dt p u ep eq d) (fun i b => x i (1 - b)%nat) x).
  2: { intros a Ha. apply (lp_nodes _ _ _ _ _ _ _ _ HP d a Hd Ha). }
  set (t := td_tet d) in *. change (e_N (llg_elem gamma0 dt p u ep eq d)) with 4%nat.
  assert (En : forall k, e_nod (llg_elem gamma0 dt p u ep eq d) k = nth k (tet_nodes t) 0%nat) by reflexivity.
  set (xx := fun k b => x (nth k (tet_nodes t) 0%nat) b).
  set (w := fun k => tangent (corner ep t k) (corner eq t k) (xx k 0%nat) (xx k 1%nat)).
  set (AE := lumping (corner p t) (fun j => alpha_eff gamma0 dt (td_alpha d) (td_h d j)) (td_pref d) (corner u t)).
  assert (W : forall k, (k < 4)%nat -> dot (w k) (w k) = Rsqr (xx k 0%nat) + Rsqr (xx k 1%nat)).
  { intros k Hk. assert (Hin : In (nth k (tet_nodes t) 0%nat) (tet_nodes t)) by (apply nth_In; exact Hk).
    pose proof (lp_nodes _ _ _ _ _ _ _ _ HP d _ Hd Hin) as Hb.
    assert (Hm : nth (nth k (tet_nodes t) 0%nat) mag false = true). { apply (lp_mag _ _ _ _ _ _ _ _ HP); eauto. }
    destruct (lp_basis _ _ _ _ _ _ _ _ HP _ Hb Hm) as [(_ & B1 & B2 & _ & B3 & _) _].
    unfold w, tangent, corner. rewrite dot_add_l, !dot_add_r, !dot_scale_l, !dot_scale_r.
    rewrite (dot_comm (eq _) (ep _)), B3. unfold unitary in B1, B2. rewrite B1, B2. unfold Rsqr. ring. }
  assert (F : sumn 4 (fun ie => sumn 2 (fun b => x (e_nod (llg_elem gamma0 dt p u ep eq d) ie) (1 - b)%nat *
      sumn 4 (fun je => sumn 2 (fun d' => e_Ke (llg_elem gamma0 dt p u ep eq d) (b * 4 + ie) (d' * 4 + je) * x (e_nod (llg_elem gamma0 dt p u ep eq d) je) d')))) = form AE w).
  { unfold form. rewrite (sumn_exchange 3 4). apply sumn_ext. intros ie Hie.
    assert (B : forall b, (b < 2)%nat -> sumn 4 (fun je => sumn 2 (fun d' => e_Ke (llg_elem gamma0 dt p u ep eq d) (b * 4 + ie) (d' * 4 + je) * x (e_nod (llg_elem gamma0 dt p u ep eq d) je) d')) =
      sumn 3 (fun k => comp k (match b with O => corner eq t ie | _ => corner ep t ie end) * sumn 3 (fun l => sumn 4 (fun j => AE k l ie j * comp l (w j))))).
    { intros b Hb.
      refine (eq_trans _ (Kp_apply (corner p t) (fun j => alpha_eff gamma0 dt (td_alpha d) (td_h d j)) (td_pref d) (corner u t) (corner ep t) (corner eq t) b ie xx Hb)).
      apply sumn_ext. intros je Hje. apply sumn_ext. intros b' _. rewrite llg_Ke by assumption. reflexivity. }
    change (sumn 2 ?f) with (0 + f 0%nat + f 1%nat). cbv beta. rewrite (B 0%nat), (B 1%nat) by lia. clear B. rewrite !En. cbn [Nat.sub].
    fold (xx ie 1%nat). fold (xx ie 0%nat).
    generalize (fun k => sumn 3 (fun l => sumn 4 (fun j => AE k l ie j * comp l (w j)))). intros r.
    unfold w, tangent, vadd, vscale. cbn [sumn comp vx vy vz]. ring. }
  rewrite F. replace (lsum _) with (sumn 4 (fun k => dot (w k) (w k))).
  - unfold tet_vol. apply (C49_local_matrix_positive (corner p t) gamma0 dt (td_alpha d) (td_pref d) (td_h d) (corner u t) w); auto.
    apply (lp_gamma _ _ _ _ _ _ _ _ HP). apply (lp_dt _ _ _ _ _ _ _ _ HP).
  - rewrite (sumn_ext 4 _ _ W). unfold tet_nodes, xx. cbn [sumn map lsum tet_nodes nth]. ring.
Qed.

(** the mass lumped at a node: what bounds the matrix from below *)
Definition node_mass (i : nat) : R :=
  lsum (map (fun d => if has_node i d then 52 / 275 * td_alpha d * tet_vol p (td_tet d) else 0) ds).

Lemma sum_nodes : forall (l : list nat) (f : nat -> R), NoDup l -> (forall a, In a l -> (a < n)%nat) ->
  lsum (map f l) = sumn n (fun i => if in_dec Nat.eq_dec i l then f i else 0).
Proof.
  intros l f Hd Hl. symmetry. rewrite (sumn_support n l); auto.
  - apply lsum_map_ext. intros a Ha. destruct (in_dec Nat.eq_dec a l); [reflexivity|contradiction].
  - intros i Hi Hn. destruct (in_dec Nat.eq_dec i l); [contradiction|reflexivity].
Qed.

(** the form of the global matrix, the two equations of each node exchanged *)
Lemma global_bound : forall (x : nat -> nat -> R),
  sumn n (fun i => node_mass i * (Rsqr (x i 0%nat) + Rsqr (x i 1%nat))) <=
  sumn n (fun i => sumn 2 (fun b => x i (1 - b)%nat * sumn n (fun j => sumn 2 (fun b' => lsum (map (fun e => coupling e i b j b') els) * x j b')))).
Proof.
  intros x.
  assert (E : sumn n (fun i => sumn 2 (fun b => x i (1 - b)%nat * sumn n (fun j => sumn 2 (fun b' => lsum (map (fun e => coupling e i b j b') els) * x j b')))) =
    lsum (map (fun d => sumn n (fun i => sumn 2 (fun b => x i (1 - b)%nat * sumn n (fun j => sumn 2 (fun b' => coupling (llg_elem gamma0 dt p u ep eq d) i b j b' * x j b'))))) ds)).
  { clear HP. induction ds as [|d l IH]; cbn [map lsum].
    - apply sumn_zero. intros i _. apply sumn_zero. intros b _. rewrite sumn_zero; [ring|]. intros j _. apply sumn_zero. intros; ring.
    - rewrite <- IH, <- sumn_plus. apply sumn_ext. intros i _. rewrite <- sumn_plus. apply sumn_ext. intros b _.
      rewrite <- Rmult_plus_distr_l. f_equal. rewrite <- sumn_plus. apply sumn_ext. intros j _. rewrite <- sumn_plus.
      apply sumn_ext. intros b' _. ring. }
  rewrite E.
  assert (M : sumn n (fun i => node_mass i * (Rsqr (x i 0%nat) + Rsqr (x i 1%nat))) =
    lsum (map (fun d => 52 / 275 * td_alpha d * tet_vol p (td_tet d) * lsum (map (fun i => Rsqr (x i 0%nat) + Rsqr (x i 1%nat)) (tet_nodes (td_tet d)))) ds)).
  { unfold node_mass. pose proof (lp_nodes _ _ _ _ _ _ _ _ HP) as Hl'.
    pose proof (lp_tet _ _ _ _ _ _ _ _ HP) as Ht. clear E HP.
    induction ds as [|d l IH]; cbn [map lsum].
    - apply sumn_zero. intros; ring.
    - rewrite <- IH; [|intros; eapply Hl'; [right|]; eauto|intros; apply Ht; right; assumption].
      rewrite (sum_nodes (tet_nodes (td_tet d)) (fun i => Rsqr (x i 0%nat) + Rsqr (x i 1%nat))).
      + rewrite <- sumn_scale, <- sumn_plus. apply sumn_ext. intros i _. unfold has_node. destruct (in_dec Nat.eq_dec i (tet_nodes (td_tet d))); ring.
      + apply Ht. left. reflexivity.
      + intros a. apply Hl'. left. reflexivity. }
  rewrite M.
  assert (G : forall l, (forall d, In d l -> In d ds) -> lsum (map (fun d => 52 / 275 * td_alpha d * tet_vol p (td_tet d) * lsum (map (fun i => Rsqr (x i 0%nat) + Rsqr (x i 1%nat)) (tet_nodes (td_tet d)))) l) <=
    lsum (map (fun d => sumn n (fun i => sumn 2 (fun b => x i (1 - b)%nat * sumn n (fun j => sumn 2 (fun b' => coupling (llg_elem gamma0 dt p u ep eq d) i b j b' * x j b'))))) l)).
  { induction l as [|d l IH]; intros Hl; cbn [map lsum]; [lra|].
    pose proof (elem_bound d x (Hl d (or_introl eq_refl))). specialize (IH (fun d' H => Hl d' (or_intror H))). lra. }
  apply G. auto.
Qed.

Lemma node_mass_pos : forall i, (i < n)%nat -> nth i mag false = true -> 0 < node_mass i.
Proof.
  intros i Hi Hm. apply (lp_mag _ _ _ _ _ _ _ _ HP i Hi) in Hm. destruct Hm as (d & Hd & Hin). unfold node_mass.
  assert (P : forall d, In d ds -> 0 < 52 / 275 * td_alpha d * tet_vol p (td_tet d)).
  { intros d' Hd'. destruct (lp_tet _ _ _ _ _ _ _ _ HP d' Hd') as (H1 & H2 & _). unfold tet_vol. rewrite vol_det.
    apply Rmult_lt_0_compat; lra. }
  assert (G : forall l, (forall d, In d l -> In d ds) -> 0 <= lsum (map (fun d => if has_node i d then 52 / 275 * td_alpha d * tet_vol p (td_tet d) else 0) l) /\
    (In d l -> 0 < lsum (map (fun d => if has_node i d then 52 / 275 * td_alpha d * tet_vol p (td_tet d) else 0) l))).
  { induction l as [|d' l IH]; intros Hl; cbn [map lsum]. { split; [lra|intros []]. }
    destruct (IH (fun d'' H => Hl d'' (or_intror H))) as [I1 I2]. specialize (P d' (Hl d' (or_introl eq_refl))).
    split.
    - destruct (has_node i d'); lra.
    - intros [->|H]. { unfold has_node at 1. destruct (in_dec Nat.eq_dec i (tet_nodes (td_tet d))); [lra|contradiction]. }
      specialize (I2 H). destruct (has_node i d'); lra. }
  apply (G ds); auto.
Qed.

(** the diagonal *)
Lemma diag_elem : forall d i b, In d ds -> (b < 2)%nat ->
  coupling (llg_elem gamma0 dt p u ep eq d) i b i b =
  if has_node i d then (match b with O => 1 | _ => -1 end) * tet_vol p (td_tet d) / 4 else 0.
Proof.
  intros d i b Hd Hb. unfold has_node. destruct (in_dec Nat.eq_dec i (tet_nodes (td_tet d))) as [Hin|Hin].
  2: { apply coupling_out_row. exact Hin. }
  destruct (lp_tet _ _ _ _ _ _ _ _ HP d Hd) as (H1 & H2 & H3 & H4).
  pose proof (lp_nodes _ _ _ _ _ _ _ _ HP d _ Hd Hin) as Hl.
  assert (Hm : nth i mag false = true). { apply (lp_mag _ _ _ _ _ _ _ _ HP); eauto. }
  destruct (lp_basis _ _ _ _ _ _ _ _ HP _ Hl Hm) as [(B0 & B1 & B2 & B3 & B4 & B5) BX].
  apply In_nth_error in Hin. destruct Hin as [k Ek].
  assert (Hk : (k < 4)%nat). { change 4%nat with (length (tet_nodes (td_tet d))). apply nth_error_Some. rewrite Ek. discriminate. }
  assert (Enk : nth k (tet_nodes (td_tet d)) 0%nat = i) by (apply nth_error_nth; exact Ek).
  unfold coupling. change (e_N (llg_elem gamma0 dt p u ep eq d)) with 4%nat.
  assert (En : forall k', e_nod (llg_elem gamma0 dt p u ep eq d) k' = nth k' (tet_nodes (td_tet d)) 0%nat) by reflexivity.
  assert (Eu : forall k', (k' < 4)%nat -> (nth k' (tet_nodes (td_tet d)) 0 =? i)%nat = (k' =? k)%nat).
  { intros k' Hk'. destruct (k' =? k)%nat eqn:E.
    - apply Nat.eqb_eq in E. subst k'. apply Nat.eqb_eq. exact Enk.
    - apply Nat.eqb_neq in E. apply Nat.eqb_neq. intros E'. apply E. apply (proj1 (NoDup_nth _ 0%nat) H4); auto. congruence. }
  rewrite (sumn_ext 4 _ (fun ie => if (ie =? k)%nat then e_Ke (llg_elem gamma0 dt p u ep eq d) (b * 4 + ie) (b * 4 + k) else 0)).
  2: { intros ie Hie. rewrite En, Eu by exact Hie. destruct (ie =? k)%nat; cbn [andb].
    - rewrite <- (sumn_delta 4 k (fun je => e_Ke (llg_elem gamma0 dt p u ep eq d) (b * 4 + ie) (b * 4 + je))) by exact Hk.
      apply sumn_ext. intros je Hje. rewrite En, Eu by exact Hje. reflexivity.
    - apply sumn_zero. reflexivity. }
  rewrite (sumn_delta 4 k (fun ie => e_Ke (llg_elem gamma0 dt p u ep eq d) (b * 4 + ie) (b * 4 + k))) by exact Hk.
  rewrite llg_Ke by assumption. unfold Kp. unfold lumping. rewrite Nat.eqb_refl.
  unfold tet_vol. rewrite a_w_vol by exact Hk.
  assert (Ec : forall f : nat -> vec, corner f (td_tet d) k = f i) by (intros f; unfold corner; rewrite Enk; reflexivity).
  unfold matP. rewrite !Ec.
  generalize (diag_block (corner p (td_tet d)) (td_pref d) (contrib (corner p (td_tet d)) (fun j => alpha_eff gamma0 dt (td_alpha d) (td_h d j))) k k). intros D.
  generalize (calc_vol (corner p (td_tet d))). intros vol.
  unfold unitary in *. rewrite <- BX in *. clear BX.
  set (U := u i) in *. set (E := ep i) in *. clearbody U E.
  assert (Q1 : dot (cross U E) E = 0) by (vsimpl; ring).
  destruct b as [|[|b]]; [| |lia]; cbn [perm sumn comp].
  - match goal with |- ?l = _ => replace l with (D * dot (cross U E) E + vol / 4 * dot (cross U E) (cross U E)) end.
    + rewrite Q1, B2. field.
    + unfold dot, cross. cbn [vx vy vz]. ring.
  - match goal with |- ?l = _ => replace l with (D * dot (cross U E) E + vol / 4 * (- dot (cross U E) (cross U E))) end.
    + rewrite Q1, B2. field.
    + unfold dot, cross. cbn [vx vy vz]. ring.
Qed.
End quadratic.

(** ** C33: the diagonal that preconditions the solver is the volume attached to the node *)
Definition node_volume (p : nat -> vec) (ds : list tdata) (i : nat) : R :=
  lsum (map (fun d => if has_node i d then tet_vol p (td_tet d) / 4 else 0) ds).

Theorem C33_magnetic_diagonal : forall gamma0 dt mag p u ep eq ds i,
  llg_problem gamma0 dt mag p u ep eq ds -> (i < length mag)%nat -> nth i mag false = true ->
  let els := map (llg_elem gamma0 dt p u ep eq) ds in
  system_matrix mag els (2 * i) (2 * i) = node_volume p ds i /\
  system_matrix mag els (2 * i + 1) (2 * i + 1) = - node_volume p ds i /\
  0 < node_volume p ds i.
Proof.
  intros gamma0 dt mag p u ep eq ds i HP Hi Hm els.
  assert (G : forall b, (b < 2)%nat -> lsum (map (fun e => coupling e i b i b) els) = (match b with O => 1 | _ => -1 end) * node_volume p ds i).
  { intros b Hb. unfold els, node_volume. rewrite map_map, <- lsum_map_scale. apply lsum_map_ext. intros d Hd.
    rewrite (diag_elem gamma0 dt mag p u ep eq ds HP d i b Hd Hb). destruct (has_node i d); destruct b; field. }
  unfold system_matrix.
  destruct (half_of i 0 ltac:(lia)) as [E1 E2]. destruct (half_of i 1 ltac:(lia)) as [E3 E4]. rewrite Nat.add_0_r in E1, E2.
  rewrite E1, E2, E3, E4, Hm. rewrite (G 0%nat), (G 1%nat) by lia.
  split; [ring|]. split; [ring|].
  pose proof (node_mass_pos gamma0 dt mag p u ep eq ds HP i Hi Hm) as M.
  pose proof (lp_tet _ _ _ _ _ _ _ _ HP) as Ht. unfold node_volume, node_mass in *. clear - M Ht.
  assert (Q : forall l, (forall d, In d l -> In d ds) -> 0 <= lsum (map (fun d => if has_node i d then tet_vol p (td_tet d) / 4 else 0) l) /\
    (lsum (map (fun d => if has_node i d then tet_vol p (td_tet d) / 4 else 0) l) = 0 ->
     lsum (map (fun d => if has_node i d then 52 / 275 * td_alpha d * tet_vol p (td_tet d) else 0) l) = 0)).
  { induction l as [|d l IH]; intros Hl; cbn [map lsum]. { split; lra. }
    destruct (IH (fun d' H => Hl d' (or_intror H))) as [I1 I2]. destruct (Ht d (Hl d (or_introl eq_refl))) as (V & _).
    assert (0 < tet_vol p (td_tet d)) by (unfold tet_vol; rewrite vol_det; lra).
    destruct (has_node i d); split; lra. }
  destruct (Q ds ltac:(auto)) as [Q1 Q2]. destruct (Req_dec (lsum (map (fun d => if has_node i d then tet_vol p (td_tet d) / 4 else 0) ds)) 0) as [E|E]; [|lra].
  rewrite Q2 in M by exact E. lra.
Qed.

(** ** C77: the system of a time step has one solution, and a small residual means a small error *)
Definition distance (n : nat) (x y : list R) : R := sqrt (sumn n (fun k => Rsqr (nth k x 0 - nth k y 0))).

(** [x] solves the system: every magnetic equation holds, the other unknowns are zero *)
Definition solves (mag : list bool) (a : nat -> nat -> R) (rhs x : list R) : Prop :=
  length x = (2 * length mag)%nat /\
  forall r, (r < 2 * length mag)%nat ->
    if nth (r / 2) mag false then sumn (2 * length mag) (fun c => a r c * nth c x 0) = nth r rhs 0 else nth r x 0 = 0.

Lemma sumn_pairs : forall n f, sumn (2 * n) f = sumn n (fun i => sumn 2 (fun d => f (2 * i + d)%nat)).
Proof.
  induction n as [|n IH]; intros f; auto. replace (2 * S n)%nat with (S (S (2 * n))) by lia. cbn [sumn]. rewrite IH. cbn [sumn].
  replace (2 * n + 0)%nat with (2 * n)%nat by lia. replace (2 * n + 1)%nat with (S (2 * n)) by lia. ring.
Qed.

Section unique.
Variables (gamma0 dt : R) (mag : list bool) (p u ep eq : nat -> vec) (ds : list tdata).
Hypothesis HP : llg_problem gamma0 dt mag p u ep eq ds.
Notation n := (length mag).
Notation els := (map (llg_elem gamma0 dt p u ep eq) ds).
Notation a := (system_matrix mag els).
Variable lam : R.
Hypothesis Hlam : 0 < lam.
Hypothesis Hmass : forall i, (i < n)%nat -> nth i mag false = true -> lam <= node_mass p ds i.

(** z vanishes on the non-magnetic nodes, (A z)_r = rho_r on the magnetic rows *)
Lemma stability : forall (z rho : nat -> R),
  (forall r, (r < 2 * n)%nat -> nth (r / 2) mag false = false -> z r = 0) ->
  (forall r, (r < 2 * n)%nat -> nth (r / 2) mag false = true -> sumn (2 * n) (fun c => a r c * z c) = rho r) ->
  lam * sqrt (sumn (2 * n) (fun r => Rsqr (z r))) <=
  sqrt (sumn (2 * n) (fun r => if nth (r / 2) mag false then Rsqr (rho r) else 0)).
Proof.
  intros z rho Hz Hr.
  set (zz := fun i d => z (2 * i + d)%nat).
  set (rr := fun r => if nth (r / 2) mag false then rho r else 0).
  set (Z2 := sumn (2 * n) (fun r => Rsqr (z r))). set (R2 := sumn (2 * n) (fun r => if nth (r / 2) mag false then Rsqr (rho r) else 0)).
  assert (HZ : 0 <= Z2) by (apply sumn_nonneg; intros; apply Rle_0_sqr).
  assert (HR : R2 = sumn (2 * n) (fun r => Rsqr (rr r))).
  { unfold R2. apply sumn_ext. intros r _. unfold rr. destruct (nth (r / 2) mag false); auto. unfold Rsqr. ring. }
  assert (HR0 : 0 <= R2) by (rewrite HR; apply sumn_nonneg; intros; apply Rle_0_sqr).
  (* lower bound *)
  pose proof (global_bound gamma0 dt mag p u ep eq ds HP zz) as B.
  assert (L : lam * Z2 <= sumn n (fun i => node_mass p ds i * (Rsqr (zz i 0%nat) + Rsqr (zz i 1%nat)))).
  { unfold Z2. rewrite sumn_pairs, <- sumn_scale.
    apply Rminus_le. rewrite <- sumn_minus. apply Rge_le. apply Rle_ge.
    match goal with |- sumn n ?f <= 0 => assert (E : sumn n (fun i => - f i) = - sumn n f)
      by (rewrite <- (Rmult_1_l (sumn n f)), <- Ropp_mult_distr_l_reverse, <- sumn_scale; apply sumn_ext; intros; ring);
      enough (0 <= sumn n (fun i => - f i)) by lra end.
    apply sumn_nonneg. intros i Hi. change (sumn 2 ?g) with (0 + g 0%nat + g 1%nat). cbv beta. fold (zz i 0%nat) (zz i 1%nat).
    destruct (nth i mag false) eqn:Em.
    - specialize (Hmass i Hi Em). pose proof (Rle_0_sqr (zz i 0%nat)). pose proof (Rle_0_sqr (zz i 1%nat)). nra.
    - assert (Z : forall d, (d < 2)%nat -> zz i d = 0).
      { intros d Hd. unfold zz. apply Hz. { lia. } rewrite (proj1 (half_of i d Hd)). exact Em. }
      rewrite !Z by lia. unfold Rsqr. lra. }
  (* the form *)
  assert (F : sumn n (fun i => sumn 2 (fun b => zz i (1 - b)%nat * sumn n (fun j => sumn 2 (fun b' => lsum (map (fun e => coupling e i b j b') els) * zz j b')))) =
    sumn (2 * n) (fun r => z (2 * (r / 2) + (1 - r mod 2))%nat * rr r)).
  { rewrite sumn_pairs. apply sumn_ext. intros i Hi. apply sumn_ext. intros b Hb. destruct (half_of i b Hb) as [E1 E2]. rewrite E1, E2.
    fold (zz i (1 - b)%nat). destruct (nth i mag false) eqn:Em.
    - f_equal. unfold rr. rewrite E1, Em. rewrite <- Hr; [|lia|rewrite E1; exact Em]. rewrite (sumn_pairs n (fun c => a (2 * i + b)%nat c * z c)).
      apply sumn_ext. intros j Hj. apply sumn_ext. intros b' Hb'. unfold system_matrix. rewrite E1, E2, Em. destruct (half_of j b' Hb') as [E3 E4].
      rewrite E3, E4. reflexivity.
    - replace (zz i (1 - b)%nat) with 0; [ring|]. unfold zz. symmetry. apply Hz. { lia. }
      rewrite (proj1 (half_of i (1 - b) ltac:(lia))). exact Em. }
  rewrite F in B.
  pose proof (cauchy_schwarz (2 * n) (fun r => z (2 * (r / 2) + (1 - r mod 2))%nat) rr) as C.
  assert (P : sumn (2 * n) (fun r => Rsqr (z (2 * (r / 2) + (1 - r mod 2))%nat)) = Z2).
  { unfold Z2. rewrite !sumn_pairs. apply sumn_ext. intros i Hi. cbn [sumn].
    destruct (half_of i 0 ltac:(lia)) as [E1 E2]. destruct (half_of i 1 ltac:(lia)) as [E3 E4]. rewrite E1, E2, E3, E4. cbn [Nat.sub]. ring. }
  cbv beta in C. rewrite P, <- HR in C.
  set (S := sumn (2 * n) (fun r => z (2 * (r / 2) + (1 - r mod 2))%nat * rr r)) in *.
  assert (K : lam * Z2 <= S) by lra. clear B F L.
  apply Rsqr_incr_0_var; [|apply sqrt_pos]. rewrite Rsqr_mult, Rsqr_sqrt, Rsqr_sqrt by assumption.
  assert (0 <= lam * Z2) by nra. assert (Rsqr (lam * Z2) <= Z2 * R2). { eapply Rle_trans; [|exact C]. apply Rsqr_incr_1; lra. }
  destruct (Req_dec Z2 0) as [E0|E0]. { rewrite E0. lra. }
  assert (0 < Z2) by lra. rewrite Rsqr_mult in H0. unfold Rsqr in *. apply (Rmult_le_reg_l Z2); nra.
Qed.

Lemma error_bound : forall rhs x y, solves mag a rhs x -> length y = (2 * n)%nat ->
  (forall k, In k (lvd_of mag) -> nth k y 0 = 0) ->
  lam * distance (2 * n) y x <= residual (2 * n) a (lvd_of mag) rhs y.
Proof.
  intros rhs x y [Lx Sx] Ly Hy. unfold distance, residual.
  rewrite (sumn_ext (2 * n) (fun i => if masked (lvd_of mag) i then 0 else Rsqr (nth i rhs 0 - sumn (2 * n) (fun j => a i j * nth j y 0)))
    (fun r => if nth (r / 2) mag false then Rsqr (nth r rhs 0 - sumn (2 * n) (fun j => a r j * nth j y 0)) else 0)).
  2: { intros r Hr. rewrite masked_mag by exact Hr. destruct (nth (r / 2) mag false); reflexivity. }
  replace (sumn (2 * n) (fun r => if nth (r / 2) mag false then Rsqr (nth r rhs 0 - sumn (2 * n) (fun j => a r j * nth j y 0)) else 0))
    with (sumn (2 * n) (fun r => if nth (r / 2) mag false then Rsqr (- (nth r rhs 0 - sumn (2 * n) (fun j => a r j * nth j y 0))) else 0)).
  2: { apply sumn_ext. intros r _. rewrite <- Rsqr_neg. reflexivity. }
  apply (stability (fun k => nth k y 0 - nth k x 0) (fun r => - (nth r rhs 0 - sumn (2 * n) (fun j => a r j * nth j y 0)))).
  - intros r Hr Em. specialize (Sx r Hr). rewrite Em in Sx. rewrite Sx, Hy; [ring|]. apply lvd_in. exists (r / 2)%nat.
    destruct (half r). split; [apply half_lt; exact Hr|]. split; auto. lia.
  - intros r Hr Em. specialize (Sx r Hr). rewrite Em in Sx. rewrite <- Sx.
    rewrite (sumn_ext (2 * n) _ (fun c => a r c * nth c y 0 - a r c * nth c x 0)) by (intros; ring). rewrite sumn_minus. ring.
Qed.

Lemma solution_exists : forall rhs, exists x, solves mag a rhs x.
Proof.
  intros rhs. destruct (injective_solvable (2 * n) a (fun r => if nth (r / 2) mag false then nth r rhs 0 else 0)) as [x Hx].
  - intros z Hz.
    assert (Z0 : forall r, (r < 2 * n)%nat -> nth (r / 2) mag false = false -> z r = 0).
    { intros r Hr Em. specialize (Hz r Hr). unfold system_matrix in Hz. rewrite Em in Hz.
      rewrite <- Hz. rewrite <- (gather (2 * n) r z Hr). apply sumn_ext. intros c _. destruct (r =? c)%nat; ring. }
    pose proof (stability z (fun _ => 0) Z0 (fun r Hr _ => Hz r Hr)) as S. cbv beta in S.
    rewrite (sumn_zero (2 * n) (fun r => if nth (r / 2) mag false then Rsqr 0 else 0)) in S.
    2: { intros r _. destruct (nth (r / 2) mag false); auto. apply Rsqr_0. }
    rewrite sqrt_0 in S. set (Q := sumn (2 * n) (fun r => Rsqr (z r))) in *.
    assert (Q0 : 0 <= Q) by (apply sumn_nonneg; intros; apply Rle_0_sqr).
    pose proof (sqrt_pos Q). assert (E : sqrt Q = 0) by nra. apply sqrt_eq_0 in E; auto.
    intros r Hr. apply Rsqr_0_uniq.
    assert (P : forall m, sumn m (fun r => Rsqr (z r)) = 0 -> forall r, (r < m)%nat -> Rsqr (z r) = 0).
    { induction m as [|m IH]; intros H0 k Hk; [lia|]. cbn [sumn] in H0.
      pose proof (Rle_0_sqr (z m)). assert (0 <= sumn m (fun r => Rsqr (z r))) by (apply sumn_nonneg; intros; apply Rle_0_sqr).
      destruct (Nat.eq_dec k m) as [->|]; [lra|]. apply IH; [lra|lia]. }
    exact (P _ E r Hr).
  - exists (map x (seq 0 (2 * n))). split. { rewrite map_length, seq_length. reflexivity. }
    assert (Ex : forall k, (k < 2 * n)%nat -> nth k (map x (seq 0 (2 * n))) 0 = x k).
    { intros k Hk. rewrite (nth_indep _ 0 (x 0%nat)) by (rewrite map_length, seq_length; exact Hk). rewrite map_nth, seq_nth by exact Hk. reflexivity. }
    intros r Hr. specialize (Hx r Hr). rewrite (sumn_ext (2 * n) _ (fun c => a r c * x c)) by (intros; rewrite Ex by assumption; reflexivity).
    destruct (nth (r / 2) mag false) eqn:Em; auto. rewrite Ex by exact Hr. unfold system_matrix in Hx. rewrite Em in Hx.
    rewrite <- Hx. rewrite <- (gather (2 * n) r x Hr). apply sumn_ext. intros c _. destruct (r =? c)%nat; ring.
Qed.
End unique.

Lemma min_mass : forall n mag (m : nat -> R), (forall i, (i < n)%nat -> nth i mag false = true -> 0 < m i) ->
  exists lam, 0 < lam /\ forall i, (i < n)%nat -> nth i mag false = true -> lam <= m i.
Proof.
  induction n as [|n IH]; intros mag m H. { exists 1. split; [lra|]. intros; lia. }
  destruct (IH mag m) as (l & H1 & H2). { intros i Hi. apply H. lia. }
  destruct (nth n mag false) eqn:Em.
  - exists (Rmin l (m n)). split. { apply Rmin_pos; auto. }
    intros i Hi Ei. destruct (Nat.eq_dec i n) as [->|]. { apply Rmin_r. } eapply Rle_trans; [apply Rmin_l|]. apply H2; auto. lia.
  - exists l. split; auto. intros i Hi Ei. destruct (Nat.eq_dec i n) as [->|]. { congruence. } apply H2; auto. lia.
Qed.

(** For every right-hand side the system of a time step has exactly one solution. *)
Theorem C77_unique_solution : forall gamma0 dt mag p u ep eq ds rhs,
  llg_problem gamma0 dt mag p u ep eq ds ->
  let a := system_matrix mag (map (llg_elem gamma0 dt p u ep eq) ds) in
  exists x, solves mag a rhs x /\ forall y, solves mag a rhs y -> y = x.
Proof.
  intros gamma0 dt mag p u ep eq ds rhs HP a.
  destruct (min_mass (length mag) mag (node_mass p ds)) as (lam & H1 & H2).
  { intros i Hi Em. apply (node_mass_pos gamma0 dt mag p u ep eq ds HP); auto. }
  destruct (solution_exists gamma0 dt mag p u ep eq ds HP lam H1 H2 rhs) as (x & Hx). exists x. split; auto.
  intros y [Ly Hy].
  pose proof (error_bound gamma0 dt mag p u ep eq ds HP lam H1 H2 rhs x y Hx Ly) as B. fold a in B.
  assert (R0 : residual (2 * length mag) a (lvd_of mag) rhs y = 0).
  { unfold residual. rewrite sumn_zero; [apply sqrt_0|]. intros r Hr. rewrite masked_mag by exact Hr. specialize (Hy r Hr).
    destruct (nth (r / 2) mag false); auto. cbn [negb]. rewrite Hy. replace (_ - _) with 0 by ring. apply Rsqr_0. }
  rewrite R0 in B.
  assert (Z : forall k, In k (lvd_of mag) -> nth k y 0 = 0).
  { intros k Hk. apply lvd_in in Hk. destruct Hk as (i & Hi & Em & Hk). assert (Hk2 : (k < 2 * length mag)%nat) by lia.
    specialize (Hy k Hk2). replace (k / 2)%nat with i in Hy. { rewrite Em in Hy. exact Hy. }
    destruct (half k). lia. }
  specialize (B Z). unfold distance in B. set (Q := sumn _ _) in B. pose proof (sqrt_pos Q).
  assert (Q0 : 0 <= Q) by (apply sumn_nonneg; intros; apply Rle_0_sqr).
  assert (E : sqrt Q = 0) by nra. apply sqrt_eq_0 in E; auto. unfold Q in E.
  destruct Hx as [Lx _]. apply (nth_ext y x 0 0); [congruence|]. rewrite Ly. intros k Hk.
  assert (P : forall m, sumn m (fun k => Rsqr (nth k y 0 - nth k x 0)) = 0 -> forall r, (r < m)%nat -> Rsqr (nth r y 0 - nth r x 0) = 0).
  { induction m as [|m IH]; intros H0 j Hj; [lia|]. cbn [sumn] in H0.
    pose proof (Rle_0_sqr (nth m y 0 - nth m x 0)).
    assert (0 <= sumn m (fun k => Rsqr (nth k y 0 - nth k x 0))) by (apply sumn_nonneg; intros; apply Rle_0_sqr).
    destruct (Nat.eq_dec j m) as [->|]; [lra|]. apply IH; [lra|lia]. }
  pose proof (P _ E k Hk) as Pk. apply Rsqr_0_uniq in Pk. lra.
Qed.

Theorem C77_error_bound : forall gamma0 dt mag p u ep eq ds rhs lam x y,
  llg_problem gamma0 dt mag p u ep eq ds -> 0 < lam ->
  (forall i, (i < length mag)%nat -> nth i mag false = true ->
     lam <= lsum (map (fun d => if has_node i d then 52 / 275 * td_alpha d * tet_vol p (td_tet d) else 0) ds)) ->
  let a := system_matrix mag (map (llg_elem gamma0 dt p u ep eq) ds) in
  solves mag a rhs x -> length y = (2 * length mag)%nat -> (forall k, In k (lvd_of mag) -> nth k y 0 = 0) ->
  lam * distance (2 * length mag) y x <= residual (2 * length mag) a (lvd_of mag) rhs y.
Proof. intros. eapply error_bound; eauto. Qed.

(** ** C32: a step that is not refused has been computed with a good solution of the right system *)
Theorem C32_solution : forall (N : Type) (upd : num XA -> num XA -> N -> N) gamma0 dt passes mag (it : iteration XA) K (proj : nat -> R * R)
    p u ep eq ds (work : list (list tdata)) sched (tris : list (elem R)) (nodes : list N) o edges tol lam,
  let tet_elem := llg_elem gamma0 dt p u ep eq in
  let tets := map tet_elem ds in
  let a := system_matrix mag tets in
  let n2 := (2 * length mag)%nat in
  llg_problem gamma0 dt mag p u ep eq ds ->
  mesh_system 2 (length mag) edges (mag_filter mag) tets ->
  (forall e i, In e tris -> In i (e_ind e) -> (i < length mag)%nat) ->
  matrix_of_shape (build_shape 2 (length mag) edges (mag_filter mag)) K ->
  Permutation (concat work) ds -> (0 < length mag)%nat -> resmax it = (Fin tol : num XA) ->
  0 < lam ->
  (forall i, (i < length mag)%nat -> nth i mag false = true ->
     lam <= lsum (map (fun d => if has_node i d then 52 / 275 * td_alpha d * tet_vol p (td_tet d) else 0) ds)) ->
  lin_solve upd (Fin gamma0 : num XA) passes mag it K (fun i => (Fin (fst (proj i)) : num XA, Fin (snd (proj i)) : num XA))
    (map (map (fun d => xelem (tet_elem d))) work) sched (map xelem tets) (map xelem tris) nodes = Some o ->
  o_fail _ o = false ->
  exists rhs x y,
    (forall i d, (i < length mag)%nat -> (d < 2)%nat -> nth (2 * i + d) rhs 0 =
       lsum (map (fun e => loading e i d) tets) + lsum (map (fun e => loading e i d) tris)) /\
    solves mag a rhs x /\
    lam * distance n2 y x <= tol * residual n2 a (lvd_of mag) rhs (repeat 0 n2) /\
    (forall i nd, nth_error nodes i = Some nd -> (i < length mag)%nat ->
       nth_error (o_nodes _ o) i = Some (if nth i mag false then upd (Fin (nth (2 * i) y 0) : num XA) (Fin (nth (2 * i + 1) y 0) : num XA) nd else nd)).
Proof.
  intros N upd gamma0 dt passes mag it K proj p u ep eq ds work sched tris nodes o edges tol lam tet_elem tets a n2
    HP Hms Htri HK Hw Hn Ht Hl Hm Hrun Hok.
  destruct (C32_solve_outcome XA XA_laws N upd _ passes mag it K _ _ sched _ _ nodes o Hrun) as (S1 & S2 & _ & S4).
  specialize (S4 Hok). destruct S4 as (_ & S4 & _).
  assert (Hst : status (o_iter _ o) = CONVERGED).
  { destruct S1 as [S|[S|S]]; auto; exfalso; rewrite (proj2 S2) in Hok; [discriminate|auto|discriminate|auto]. }
  rewrite <- (map_map (map tet_elem) (map xelem)) in Hrun || idtac.
  replace (map (map (fun d => xelem (tet_elem d))) work) with (map (map xelem) (map (map tet_elem) work)) in Hrun.
  2: { rewrite map_map. apply map_ext. intros l. rewrite map_map. reflexivity. }
  destruct (solve_exact upd gamma0 passes mag it K proj (map (map tet_elem) work) sched tets tris nodes o edges tol Hrun) as (L & y & [HL1 HL2] & Ey & Ly & Hr & Hy); auto.
  - pose proof (lp_gamma _ _ _ _ _ _ _ _ HP). lra.
  - rewrite <- concat_map. apply Permutation_map. exact Hw.
  - intros e i He Hi. unfold tets in He. apply in_map_iff in He. destruct He as (d & <- & Hd).
    apply (lp_mag _ _ _ _ _ _ _ _ HP). { eapply (lp_nodes _ _ _ _ _ _ _ _ HP); eauto. } eauto.
  - intros i d Hi Hd Em. destruct (C33_magnetic_diagonal gamma0 dt mag p u ep eq ds i HP Hi Em) as (D1 & D2 & D3).
    unfold system_matrix in D1, D2.
    destruct (half_of i 0 ltac:(lia)) as [E1 E2]. destruct (half_of i 1 ltac:(lia)) as [E3 E4]. rewrite Nat.add_0_r in E1, E2.
    rewrite E1, E2, Em in D1. rewrite E3, E4, Em in D2. unfold tets, tet_elem.
    destruct d as [|[|d]]; [rewrite D1; lra|rewrite D2; lra|lia].
  - destruct (solution_exists gamma0 dt mag p u ep eq ds HP lam Hl Hm L) as (x & Hx).
    exists L, x, y. split; auto. split; auto. split.
    + eapply Rle_trans; [|exact Hr]. apply (error_bound gamma0 dt mag p u ep eq ds HP lam Hl Hm L x y Hx Ly Hy).
    + intros i nd Hi Hin. rewrite (S4 i nd Hi). rewrite Ey.
      destruct (isv_vF _ y Ly) as [_ Y]. rewrite !Y by lia. reflexivity.
Qed.

(** a mesh of one magnetic tetrahedron and one isolated node, magnetized along z *)
Definition ex_pos (i : nat) : vec := nth i [V 0 0 0; V 1 0 0; V 0 1 0; V 0 0 1] (V 5 5 5).
Definition ex_td : tdata := mkTdata (mkTet 0 1 2 3 0) (1 / 2) (fun _ => 3) 7 (fun k => INR k).
Definition ex_mag : list bool := [true; true; true; true; false].
Definition ex_edges6 : list (nat * nat) := [(0, 1); (0, 2); (0, 3); (1, 2); (1, 3); (2, 3)]%nat.

Example C77_nonvacuous :
  let p := ex_pos in let u := fun _ : nat => V 0 0 1 in let ep := fun _ : nat => V 1 0 0 in let eq := fun _ : nat => V 0 1 0 in
  llg_problem 1 (1 / 10) ex_mag p u ep eq [ex_td] /\
  mesh_system 2 5 ex_edges6 (mag_filter ex_mag) (map (llg_elem 1 (1 / 10) p u ep eq) [ex_td]) /\
  (forall i, (i < 5)%nat -> nth i ex_mag false = true ->
     52 / 275 * (1 / 2) * / 6 <= lsum (map (fun d => if has_node i d then 52 / 275 * td_alpha d * tet_vol p (td_tet d) else 0) [ex_td])) /\
  node_volume p [ex_td] 2 = / 24 /\ node_volume p [ex_td] 4 = 0.
Proof.
  intros p u ep eq.
  assert (D : detJ (corner p (td_tet ex_td)) = 1).
  { unfold detJ, det3, jac, edge1, edge2, edge3, corner, p, ex_pos, vsub. simpl. ring. }
  assert (Vv : tet_vol p (td_tet ex_td) = / 6). { unfold tet_vol. rewrite vol_det, D. lra. }
  split; [|split; [|split; [|split]]].
  - constructor; try lra.
    + intros d [<-|[]]. rewrite D. cbn [td_alpha td_pref ex_td]. repeat split; try lra.
      unfold tet_nodes. cbn. repeat constructor; simpl; intuition lia.
    + intros d i [<-|[]] Hi. cbn in Hi |- *. lia.
    + intros i Hi. split.
      * intros Hm. exists ex_td. split; [left; reflexivity|]. do 4 (destruct i as [|i]; [cbn; tauto|]). destruct i as [|i]; [discriminate|cbn in Hi; lia].
      * intros (d & [<-|[]] & Hi'). cbn in Hi'. repeat (destruct Hi' as [<-|Hi']; [reflexivity|]). contradiction.
    + intros i _ _. unfold u, ep, eq, orthonormal, unitary. repeat split; try (unfold dot; cbn [vx vy vz]; ring). unfold cross. cbn [vx vy vz]. f_equal; ring.
  - constructor.
    + intros q Hq. repeat (destruct Hq as [<-|Hq]; [simpl; lia|]). contradiction.
    + intros e i [<-|[]] Hi. cbn in Hi. lia.
    + intros e [<-|[]] x y Hx Hy Hxy. cbn in Hx, Hy.
      repeat (destruct Hx as [<-|Hx]; [repeat (destruct Hy as [<-|Hy]; [|])|]); try contradiction; try congruence;
      first [exists (0, 1)%nat; split; [simpl; tauto|split; [reflexivity|tauto]] | exists (0, 2)%nat; split; [simpl; tauto|split; [reflexivity|tauto]]
            | exists (1, 2)%nat; split; [simpl; tauto|split; [reflexivity|tauto]] | exists (1, 3)%nat; split; [simpl; tauto|split; [reflexivity|tauto]]
            | exists (2, 3)%nat; split; [simpl; tauto|split; [reflexivity|tauto]] | exists (0, 3)%nat; split; [simpl; tauto|split; [reflexivity|tauto]]].
  - intros i Hi Hm. cbn [map lsum]. replace (has_node i ex_td) with true. { rewrite Vv. cbn [td_alpha ex_td]. lra. }
    unfold has_node. destruct (in_dec _ _ _) as [H|H]; auto. exfalso. apply H.
    do 4 (destruct i as [|i]; [cbn; tauto|]). destruct i as [|i]; [discriminate|cbn in Hi; lia].
  - unfold node_volume. cbn [map lsum]. change (has_node 2 ex_td) with true. cbv iota. rewrite Vv. lra.
  - unfold node_volume. cbn [map lsum]. change (has_node 4 ex_td) with false. cbv iota. lra.
Qed.

Print Assumptions C33_magnetic_diagonal.
Print Assumptions C77_unique_solution.
Print Assumptions C77_error_bound.
Print Assumptions C32_solution.
