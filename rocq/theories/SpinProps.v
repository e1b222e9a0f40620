(** * C71, C88: the spin accumulation *)
From Coq Require Import Reals String List ZArith Arith Bool Lia Lra Permutation Relations FunctionalExtensionality.
From Verif Require Import Arith ArithLaws Vec Sums LinAlg SparseModel SparseProof ConcModel ConcProof SparseProps
  IterModel IterProof Ieee IterMask IterExact IterProps CgProof CgProps StdModel MeshModel MeshProof MeshProps ElemModel ElemProof AvgModel ElemProps
  AsmModel AsmProof AsmProps LlgProps TransportModel TransportProof BoundaryProps ElectroProps.
From Verif Require SettingsModel.
From Verif Require Import TextModel.
Import ListNotations.
Local Open Scope R_scope.

(** ** Specification *)
(** integral over a tetrahedron, values at the nodes, by the rule that gives each node a quarter of the volume *)
Definition nodal_integral (p : nat -> vec) (t : tet) (f : nat -> R) : R := tet_vol p t / 4 * lsum (map f (tet_nodes t)).
(** coefficients of a region *)
Record medium := mkMedium { md_D : R; md_flip : R; md_prec : R; md_source : R }.
(** Left side minus right side of the weak form of

      D laplacian s = s / tau_flip + (s x m) / tau_prec + source grad V . grad m

    tested by [w], on one tetrahedron: the three components of [s] diffuse, each node relaxes at the rate [md_flip] and
    precesses around the magnetization at the rate [md_prec], and the current polarizes along the magnetization. *)
Definition spin_cell (p : nat -> vec) (c : medium) (pot : nat -> R) (m s w : nat -> vec) (t : tet) : R :=
  md_D c * tet_vol p t * sumn 3 (fun k => dot (grad_on p (fun i => comp k (s i)) t) (grad_on p (fun i => comp k (w i)) t))
  + nodal_integral p t (fun i => md_flip c * dot (s i) (w i) + md_prec c * dot (cross (s i) (m i)) (w i))
  - md_source c * tet_vol p t * dot (grad_on p pot t) (grad_on p (fun i => dot (m i) (w i)) t).
Definition vec_norm (n : nat) (w : nat -> vec) : R := sqrt (sumn n (fun i => dot (w i) (w i))).

(** ** the element matrix and vector *)
Lemma spin_row : forall D0 lsf lsd mag q m (S : nat -> vec) d ie, (d < 3)%nat -> (ie < 4)%nat ->
  sumn 4 (fun je => sumn 3 (fun d' => spin_Ke D0 lsf lsd mag q m d d' ie je * comp d' (S je))) =
  D0 * calc_vol q * dot (da q ie) (calc_gradV q (fun j => comp d (S j)))
  + calc_vol q / 4 * (D0 / (lsf * lsf) * comp d (S ie) + (if mag then D0 / (lsd * lsd) else 0) * comp d (cross (S ie) (m ie))).
Proof.
  intros D0 lsf lsd mag q m S d ie Hd Hi. unfold spin_Ke, diag_block, calc_gradV, vsumn. rewrite (a_w_vol q ie Hi).
  generalize (calc_vol q) (D0 / (lsf * lsf)) (D0 / (lsd * lsd)). intros vol f g. unfold dot, cross, vscale.
  generalize (da q). intros a.
  destruct mag, d as [|[|[|d]]]; try lia; destruct ie as [|[|[|[|ie]]]]; try lia; cbn [sumn comp vx vy vz Nat.eqb]; field.
Qed.

Lemma spin_load : forall mub e P sigma mag q x m k i,
  spin_Le mub e P sigma mag q x m k i = (if mag then mub * P * sigma / e else 0) * calc_vol q * dot (calc_gradV q x) (da q i) * comp k (m i).
Proof.
  intros mub e P sigma mag q x m k i. unfold spin_Le. destruct mag; [|ring].
  rewrite (sumn_ext NPI _ (fun npi => (mub * P * sigma / e * dot (calc_gradV q x) (da q i) * comp k (m i)) * weight q npi)).
  - rewrite sumn_scale. fold (calc_vol q). ring.
  - intros npi _. unfold dot, vscale. cbn [vx vy vz]. ring.
Qed.

(** one tetrahedron, corner by corner *)
Lemma cell_algebra : forall q vol D f g (Y Z M : nat -> vec),
  sumn 3 (fun d => sumn 4 (fun ie => comp d (Y ie) *
     (D * vol * dot (da q ie) (calc_gradV q (fun j => comp d (Z j))) + vol / 4 * (f * comp d (Z ie) + g * comp d (cross (Z ie) (M ie)))))) =
  D * vol * sumn 3 (fun k => dot (calc_gradV q (fun j => comp k (Z j))) (calc_gradV q (fun j => comp k (Y j))))
  + vol / 4 * sumn 4 (fun ie => f * dot (Z ie) (Y ie) + g * dot (cross (Z ie) (M ie)) (Y ie)).
Proof.
  intros q vol D f g Y Z M.
  set (G := fun d => calc_gradV q (fun j => comp d (Z j))).
  assert (F : forall d, (d < 3)%nat -> dot (G d) (calc_gradV q (fun j => comp d (Y j))) = sumn 4 (fun ie => comp d (Y ie) * dot (da q ie) (G d))).
  { intros d _. generalize (G d). intros u. unfold calc_gradV, vsumn, dot, vscale. cbn [sumn vx vy vz]. ring. }
  rewrite (sumn_ext 3 (fun k => dot (calc_gradV q (fun j => comp k (Z j))) (calc_gradV q (fun j => comp k (Y j)))) _ (fun d Hd => F d Hd)).
  rewrite (sumn_ext 3 _ (fun d => D * vol * sumn 4 (fun ie => comp d (Y ie) * dot (da q ie) (G d))
    + vol / 4 * sumn 4 (fun ie => comp d (Y ie) * (f * comp d (Z ie) + g * comp d (cross (Z ie) (M ie)))))).
  - rewrite sumn_plus, !sumn_scale. f_equal. f_equal. rewrite sumn_exchange. apply sumn_ext. intros ie _. unfold dot, cross. cbn [sumn comp vx vy vz]. ring.
  - intros d _. fold (G d). rewrite <- !sumn_scale, <- sumn_plus. apply sumn_ext. intros; ring.
Qed.
Lemma source_algebra : forall q c (x : nat -> R) (Y M : nat -> vec),
  sumn 3 (fun d => sumn 4 (fun ie => comp d (Y ie) * (c * dot (calc_gradV q x) (da q ie) * comp d (M ie)))) =
  c * dot (calc_gradV q x) (calc_gradV q (fun j => dot (M j) (Y j))).
Proof.
  intros q c x Y M. generalize (calc_gradV q x). intros G. unfold calc_gradV, vsumn, dot, vscale. cbn [sumn vx vy vz comp]. ring.
Qed.
Lemma nodal_corner : forall p t f, nodal_integral p t f = tet_vol p t / 4 * sumn 4 (fun ie => f (nth ie (tet_nodes t) 0%nat)).
Proof. intros. unfold nodal_integral, tet_nodes. cbn [sumn map lsum nth]. ring. Qed.

(** ** numbering of the unknowns: component d of node i is the unknown 3i+d *)
Definition flat (w : nat -> vec) (r : nat) : R := comp (r mod 3) (w (r / 3)%nat).
Definition unflat (z : nat -> R) (i : nat) : vec := V (z (3 * i)%nat) (z (3 * i + 1)%nat) (z (3 * i + 2)%nat).
Lemma flat_at : forall w i d, (d < 3)%nat -> flat w (3 * i + d) = comp d (w i).
Proof. intros w i d Hd. unfold flat. destruct (split_of 3 i d Hd) as [-> ->]. reflexivity. Qed.
Lemma comp_unflat : forall z i d, (d < 3)%nat -> comp d (unflat z i) = z (3 * i + d)%nat.
Proof. intros z i d Hd. destruct d as [|[|[|d]]]; [| | |lia]; cbn; f_equal; lia. Qed.
Lemma unflat_flat : forall w i, unflat (flat w) i = w i.
Proof.
  intros w i. unfold unflat. rewrite <- (Nat.add_0_r (3 * i)) at 1. rewrite !flat_at by lia. destruct (w i). reflexivity.
Qed.
Lemma unflat_flat_fun : forall w, unflat (flat w) = w.
Proof. intros w. apply functional_extensionality. apply unflat_flat. Qed.
Lemma flat_unflat : forall z r, flat (unflat z) r = z r.
Proof.
  intros z r. unfold flat. assert (H : (r mod 3 < 3)%nat) by (apply Nat.mod_upper_bound; lia). rewrite comp_unflat by exact H.
  f_equal. symmetry. apply Nat.div_mod. lia.
Qed.
Lemma flat_norm : forall n w, sumn (3 * n) (fun r => Rsqr (flat w r)) = sumn n (fun i => dot (w i) (w i)).
Proof.
  intros n w. rewrite (sumn_blocks 3 n). apply sumn_ext. intros i _. cbn [sumn]. rewrite !flat_at by lia. unfold dot, Rsqr. cbn [comp]. ring.
Qed.

(** ** averages of magnetizations *)
Definition mean (ms : list (nat -> vec)) (i : nat) : vec :=
  vscale (/ INR (length ms)) (V (lsum (map (fun m => vx (m i)) ms)) (lsum (map (fun m => vy (m i)) ms)) (lsum (map (fun m => vz (m i)) ms))).
Definition affine (F : (nat -> vec) -> R) : Prop := forall ms, ms <> [] -> lsum (map F ms) = INR (length ms) * F (mean ms).

Lemma INR_length_pos : forall {X} (l : list X), l <> [] -> 0 < INR (length l).
Proof. intros X [|a l] H; [congruence|]. apply lt_0_INR. cbn. lia. Qed.
Lemma aff_ext : forall F G, (forall m, F m = G m) -> affine F -> affine G.
Proof. intros F G H HF ms Hne. rewrite <- H, <- HF by exact Hne. apply lsum_map_ext. intros; auto. Qed.
Lemma aff_const : forall c, affine (fun _ => c).
Proof.
  intros c ms _. induction ms as [|m ms IH]; [cbn; ring|]. change (length (m :: ms)) with (S (length ms)). rewrite S_INR. cbn [map lsum]. rewrite IH. ring.
Qed.
Lemma aff_comp : forall d i, affine (fun m => comp d (m i)).
Proof.
  intros d i ms Hne. pose proof (INR_length_pos ms Hne). unfold mean.
  destruct d as [|[|d]]; cbn [comp vscale vx vy vz]; field; lra.
Qed.
Lemma aff_plus : forall F G, affine F -> affine G -> affine (fun m => F m + G m).
Proof. intros F G HF HG ms Hne. rewrite lsum_map_plus, HF, HG by exact Hne. ring. Qed.
Lemma aff_scale : forall k F, affine F -> affine (fun m => k * F m).
Proof. intros k F HF ms Hne. rewrite lsum_map_scale, HF by exact Hne. ring. Qed.
Lemma aff_sumn : forall N (F : nat -> (nat -> vec) -> R), (forall i, (i < N)%nat -> affine (F i)) -> affine (fun m => sumn N (fun i => F i m)).
Proof.
  induction N as [|N IH]; intros F H; cbn [sumn]. { apply aff_const. } apply aff_plus; [apply IH; intros; apply H; lia|apply H; lia].
Qed.
Lemma aff_lsum : forall {X} (l : list X) (F : X -> (nat -> vec) -> R), (forall x, In x l -> affine (F x)) -> affine (fun m => lsum (map (fun x => F x m) l)).
Proof.
  intros X. induction l as [|a l IH]; intros F H; cbn [map lsum]. { apply aff_const. }
  apply aff_plus; [apply H; left; reflexivity|apply IH; intros; apply H; right; auto].
Qed.
Lemma spin_Ke_affine : forall D0 lsf lsd mag q m k l i j,
  spin_Ke D0 lsf lsd mag q m k l i j = spin_Ke D0 lsf lsd mag q (fun _ => vzero) k l i j +
    sumn 3 (fun d => (spin_Ke D0 lsf lsd mag q (fun _ => V (if (d =? 0)%nat then 1 else 0) (if (d =? 1)%nat then 1 else 0) (if (d =? 2)%nat then 1 else 0)) k l i j
       - spin_Ke D0 lsf lsd mag q (fun _ => vzero) k l i j) * comp d (m i)).
Proof.
  intros. unfold spin_Ke. generalize (diag_block q D0 (fun i => D0 / (lsf * lsf) * a_w q i) i j). intros b. cbn [sumn Nat.eqb].
  unfold vzero. destruct mag, (i =? j)%nat; destruct k as [|[|[|k]]], l as [|[|[|l]]]; cbn [comp vx vy vz]; ring.
Qed.

Lemma lsum_nodes : forall n l (f : nat -> R), NoDup l -> (forall i, In i l -> (i < n)%nat) ->
  lsum (map f l) = sumn n (fun i => if in_dec Nat.eq_dec i l then f i else 0).
Proof.
  intros n l f. induction l as [|a l IH]; intros ND Hn.
  - cbn [map lsum]. symmetry. apply sumn_zero. intros i _. destruct (in_dec Nat.eq_dec i []) as [[]|]; auto.
  - inversion ND as [|? ? H1 H2]; subst. cbn [map lsum]. rewrite IH by (auto; intros; apply Hn; right; auto).
    rewrite <- (sumn_delta n a f (Hn a (or_introl eq_refl))), <- sumn_plus. apply sumn_ext. intros i _.
    destruct (i =? a)%nat eqn:E; [apply Nat.eqb_eq in E; subst i|apply Nat.eqb_neq in E].
    + destruct (in_dec Nat.eq_dec a l); [contradiction|]. destruct (in_dec Nat.eq_dec a (a :: l)) as [I|I]; [ring|]. exfalso. apply I. left. reflexivity.
    + destruct (in_dec Nat.eq_dec i l) as [J|J]; destruct (in_dec Nat.eq_dec i (a :: l)) as [I|I]; try ring.
      * exfalso. apply I. right. exact J.
      * exfalso. destruct I as [I|I]; [apply E; congruence|contradiction].
Qed.

Section spin.
Variables (n : nat) (p : nat -> vec) (edges : list (nat * nat)) (tets : list tet) (tris : list tri)
  (vols : list (vol_prm XA)) (surfs : list (surf_prm XA)) (mub e : R) (pot : nat -> R).

(** the coefficients of a tetrahedron: D = 2 sigma / (e^2 N0); only magnetic regions (Ms > 0) precess and polarize *)
Definition medium_of (t : tet) : medium :=
  let prm := vol_of vols t in
  let sigma := real (SettingsModel.t_sigma prm) in
  let D := 2 * sigma / (e * e * real (SettingsModel.t_N0 prm)) in
  let mag := is_magnetic prm in
  mkMedium D (D / (real (SettingsModel.t_lsf prm) * real (SettingsModel.t_lsf prm)))
    (if mag then D / (real (SettingsModel.t_lsd prm) * real (SettingsModel.t_lsd prm)) else 0)
    (if mag then mub * real (SettingsModel.t_P prm) * sigma / e else 0).
Definition spin_balance (m s w : nat -> vec) : R := lsum (map (fun t => spin_cell p (medium_of t) pot m s w t) tets).
(** the nodes of the surfaces that impose a value *)
Definition imposed_node (i : nat) : Prop := exists t v, In t tris /\ In i (tri_nodes t) /\ imposes (mub / e) (surf_of surfs t) v.

(** a function of the nodes that is null where a value is imposed *)
Definition null_there (w : nat -> vec) : Prop := forall i, imposed_node i -> w i = vzero.
(** the imposed values: on a node of several surfaces, that of the last triangle *)
Definition imposed_values (s : nat -> vec) : Prop :=
  forall l1 t l2 i v, tris = l1 ++ t :: l2 -> In i (tri_nodes t) -> imposes (mub / e) (surf_of surfs t) v ->
    (forall t' v', In t' l2 -> In i (tri_nodes t') -> ~ imposes (mub / e) (surf_of surfs t') v') ->
    v = (Fin (vx (s i)), Fin (vy (s i)), Fin (vz (s i))).
(** the numbers of the nodes, as the program stores them *)
Definition stored (s : nat -> vec) : list (num XA * num XA * num XA) := map (fun i => (Fin (vx (s i)), Fin (vy (s i)), Fin (vz (s i)))) (seq 0 n).
(** [out] solves the diffusion problem of the magnetization [m] up to the relative tolerance [tol]: the imposed values are
    exact and the balance at the other nodes is small relatively to what it is for the starting values *)
Definition solves_within (tol : R) (m : nat -> vec) (out : list (num XA * num XA * num XA)) : Prop :=
  exists s start : nat -> vec, out = stored s /\ imposed_values s /\ imposed_values start /\
    (forall i, ~ imposed_node i -> start i = vzero) /\
    forall B, 0 <= B -> (forall w, null_there w -> Rabs (spin_balance m start w) <= B * vec_norm n w) ->
      forall w, null_there w -> Rabs (spin_balance m s w) <= tol * B * vec_norm n w.
(** the exact solution *)
Definition spin_solution (m s : nat -> vec) : Prop := imposed_values s /\ forall w, null_there w -> spin_balance m s w = 0.

Lemma imposes_dec : forall q, (exists v, imposes (mub / e) q v) \/ ~ (exists v, imposes (mub / e) q v).
Proof.
  intros q. destruct (spin_value (Fin (mub / e) : num XA) q) as [v|] eqn:E.
  - left. exists v. apply spin_value_spec. exact E.
  - right. intros [v Hv]. apply spin_value_spec in Hv. congruence.
Qed.
Lemma imposed_dec : forall i, imposed_node i \/ ~ imposed_node i.
Proof.
  intros i. unfold imposed_node. induction tris as [|t l IH]. { right. intros (t & v & [] & _). }
  destruct IH as [(t' & v & H1 & H2 & H3)|IH]. { left. exists t', v. split; [right|]; auto. }
  destruct (in_dec Nat.eq_dec i (tri_nodes t)) as [Hi|Hi].
  - destruct (imposes_dec (surf_of surfs t)) as [[v Hv]|Hv].
    + left. exists t, v. split; [left|]; auto.
    + right. intros (t' & v & [<-|H1] & H2 & H3); [apply Hv; eauto|apply IH; eauto].
  - right. intros (t' & v & [<-|H1] & H2 & H3); [contradiction|apply IH; eauto].
Qed.

Record spin_problem : Prop := mkSpinProblem {
  sp_edges : edges_result tets edges;
  sp_distinct : forall t, In t tets -> NoDup (tet_nodes t);
  sp_tets : forall t i, In t tets -> In i (tet_nodes t) -> (i < n)%nat;
  sp_tris : forall t i, In t tris -> In i (tri_nodes t) -> (i < n)%nat;
  sp_oriented : forall t, In t tets -> 0 < detJ (corner p t);
  sp_cover : forall i, (i < n)%nat -> exists t, In t tets /\ In i (tet_nodes t);
  sp_charge : e <> 0;
  (* finite parameters, positive conductivities and densities of states, diffusion lengths that are not zero *)
  sp_regions : forall t, In t tets -> let prm := vol_of vols t in
    exists sigma N0 P lsf lsd, SettingsModel.t_sigma prm = Fin sigma /\ SettingsModel.t_N0 prm = Fin N0 /\ SettingsModel.t_P prm = Fin P /\
      SettingsModel.t_lsf prm = Fin lsf /\ SettingsModel.t_lsd prm = Fin lsd /\
      0 < sigma /\ 0 < N0 /\ lsf <> 0 /\ (is_magnetic prm = true -> lsd <> 0);
  (* a surface has nothing, a current density and its polarization, or a spin vector *)
  sp_surfaces : forall t, In t tris -> let q := surf_of surfs t in
    (SettingsModel.s_jn q = NaN /\ has_nan (SettingsModel.s_s q)) \/
    (finite (SettingsModel.s_jn q) /\ has_nan (SettingsModel.s_s q) /\ finite3 (SettingsModel.s_uP q)) \/
    (SettingsModel.s_jn q = NaN /\ finite3 (SettingsModel.s_s q)) }.

Definition els (m : nat -> vec) : list (elem R) := map (spin_tet mub e p pot m vols) tets.
Definition bnd : list (elem R) := map (spin_tri (mub / e) p surfs) tris.

Section with_problem.
Hypothesis HP : spin_problem.

Lemma sels_nodes : forall m el a, In el (els m) -> In a (e_ind el) -> (a < n)%nat.
Proof. intros m el a He Ha. apply in_map_iff in He. destruct He as (t & <- & Ht). eapply (sp_tets HP); eauto. Qed.
Lemma sbnd_nodes : forall el a, In el bnd -> In a (e_ind el) -> (a < n)%nat.
Proof. intros el a He Ha. apply in_map_iff in He. destruct He as (t & <- & Ht). eapply (sp_tris HP); eauto. Qed.

Lemma s_edges_bound : forall ed, In ed edges -> (fst ed < n)%nat /\ (snd ed < n)%nat.
Proof.
  destruct (C36_edges tets edges (sp_edges HP) (sp_distinct HP)) as [_ HIn].
  intros [i j] Hp. apply HIn in Hp. destruct Hp as (_ & t' & H1 & H2 & H3). split; eapply (sp_tets HP); eauto.
Qed.

Lemma spin_system : forall m, mesh_system 3 n edges (fun _ => true) (els m).
Proof.
  intros m. destruct (C36_edges tets edges (sp_edges HP) (sp_distinct HP)) as [_ HIn].
  constructor.
  - exact s_edges_bound.
  - apply sels_nodes.
  - intros el He a b Ha Hb Hab. apply in_map_iff in He. destruct He as (t & <- & Ht). cbn [spin_tet e_ind] in Ha, Hb.
    destruct (Nat.lt_ge_cases a b).
    + exists (a, b). split; [apply HIn; split; auto; exists t; auto|]. auto.
    + exists (b, a). split; [apply HIn; split; [lia|]; exists t; auto|]. auto.
Qed.

(** the forms of one tetrahedron *)
Definition cell_form (m s w : nat -> vec) (t : tet) : R :=
  md_D (medium_of t) * tet_vol p t * sumn 3 (fun k => dot (grad_on p (fun i => comp k (s i)) t) (grad_on p (fun i => comp k (w i)) t))
  + nodal_integral p t (fun i => md_flip (medium_of t) * dot (s i) (w i) + md_prec (medium_of t) * dot (cross (s i) (m i)) (w i)).
Definition cell_source (m w : nat -> vec) (t : tet) : R :=
  md_source (medium_of t) * tet_vol p t * dot (grad_on p pot t) (grad_on p (fun i => dot (m i) (w i)) t).

Lemma assembled_form : forall m (y z : nat -> R),
  sumn (3 * n) (fun r => y r * sumn (3 * n) (fun c => total 3 (els m) r c * z c)) = lsum (map (cell_form m (unflat z) (unflat y)) tets).
Proof.
  intros m y z. rewrite (total_form 3 n (els m) y z (sels_nodes m)). unfold els. rewrite map_map. apply lsum_map_ext. intros t Ht.
  change (e_N (spin_tet mub e p pot m vols t)) with 4%nat. unfold cell_form. rewrite nodal_corner.
  symmetry. etransitivity; [symmetry; apply (cell_algebra (corner p t) (tet_vol p t) (md_D (medium_of t)) (md_flip (medium_of t)) (md_prec (medium_of t))
    (corner (unflat y) t) (corner (unflat z) t) (corner m t))|].
  apply sumn_ext. intros d Hd. apply sumn_ext. intros ie Hie. f_equal.
  { unfold corner. rewrite comp_unflat by exact Hd. reflexivity. }
  unfold medium_of. cbn [md_D md_flip md_prec]. unfold tet_vol. rewrite <- (spin_row _ _ _ _ (corner p t) (corner m t) (corner (unflat z) t) d ie Hd Hie).
  unfold elem_row. change (e_N (spin_tet mub e p pot m vols t)) with 4%nat.
  apply sumn_ext. intros je Hje. apply sumn_ext. intros d' Hd'.
  f_equal. 2: { unfold corner. rewrite comp_unflat by exact Hd'. reflexivity. }
  cbn [spin_tet e_Ke]. rewrite (Nat.mul_comm d 4), (Nat.mul_comm d' 4).
  destruct (split_of 4 d ie Hie) as [-> ->]. destruct (split_of 4 d' je Hje) as [-> ->]. reflexivity.
Qed.

Lemma assembled_load : forall m (y : nat -> R),
  sumn (3 * n) (fun r => y r * loads 3 (els m) r) = lsum (map (cell_source m (unflat y)) tets).
Proof.
  intros m y. rewrite (loads_form 3 n (els m) y (sels_nodes m)). unfold els. rewrite map_map. apply lsum_map_ext. intros t Ht.
  change (e_N (spin_tet mub e p pot m vols t)) with 4%nat. unfold cell_source.
  symmetry. etransitivity; [symmetry; apply (source_algebra (corner p t) (md_source (medium_of t) * tet_vol p t) (corner pot t) (corner (unflat y) t) (corner m t))|].
  apply sumn_ext. intros d Hd. apply sumn_ext. intros ie Hie. f_equal.
  { unfold corner. rewrite comp_unflat by exact Hd. reflexivity. }
  cbn [spin_tet e_Le]. rewrite (Nat.mul_comm d 4). destruct (split_of 4 d ie Hie) as [-> ->]. rewrite spin_load. reflexivity.
Qed.

(** ** relaxation makes the problem coercive *)
Lemma s_vol_pos : forall t, In t tets -> 0 < tet_vol p t.
Proof. intros t Ht. unfold tet_vol. rewrite vol_det. pose proof (sp_oriented HP t Ht). lra. Qed.
Lemma s_D_pos : forall t, In t tets -> 0 < md_D (medium_of t).
Proof.
  intros t Ht. destruct (sp_regions HP t Ht) as (sg & N0 & P & f & d & E1 & E2 & _ & _ & _ & H1 & H2 & _).
  unfold medium_of. cbn [md_D]. rewrite E1, E2. cbn [real]. pose proof (sp_charge HP).
  assert (0 < e * e) by (apply Rsqr_pos_lt; assumption). apply Rdiv_lt_0_compat; [lra|]. apply Rmult_lt_0_compat; assumption.
Qed.
Lemma s_flip_pos : forall t, In t tets -> 0 < md_flip (medium_of t).
Proof.
  intros t Ht. pose proof (s_D_pos t Ht) as HD. destruct (sp_regions HP t Ht) as (sg & N0 & P & f & d & E1 & E2 & E3 & E4 & E5 & _ & _ & H1 & _).
  unfold medium_of in *. cbn [md_D md_flip] in *. rewrite E4. cbn [real]. apply Rdiv_lt_0_compat; [exact HD|]. apply Rsqr_pos_lt. exact H1.
Qed.

(** the rate at which a node loses its spin accumulation *)
Definition relaxation (i : nat) : R :=
  lsum (map (fun t => if in_dec Nat.eq_dec i (tet_nodes t) then md_flip (medium_of t) * tet_vol p t / 4 else 0) tets).

Lemma relaxation_pos : forall i, (i < n)%nat -> 0 < relaxation i.
Proof.
  intros i Hi. destruct (sp_cover HP i Hi) as (t & Ht & Hin). unfold relaxation.
  set (f := fun t => if in_dec Nat.eq_dec i (tet_nodes t) then md_flip (medium_of t) * tet_vol p t / 4 else 0).
  assert (NN : forall t, In t tets -> 0 <= f t).
  { intros t' Ht'. unfold f. destruct (in_dec Nat.eq_dec i (tet_nodes t')); [|lra]. pose proof (s_vol_pos t' Ht'). pose proof (s_flip_pos t' Ht').
    assert (0 < md_flip (medium_of t') * tet_vol p t') by (apply Rmult_lt_0_compat; assumption). lra. }
  assert (F : 0 < f t).
  { unfold f. destruct (in_dec Nat.eq_dec i (tet_nodes t)); [|contradiction]. pose proof (s_vol_pos t Ht). pose proof (s_flip_pos t Ht).
    assert (0 < md_flip (medium_of t) * tet_vol p t) by (apply Rmult_lt_0_compat; assumption). lra. }
  clearbody f. clear Hin. revert NN Ht. generalize tets as l. induction l as [|a l IH]; intros NN Ht; [destruct Ht|]. cbn [map lsum].
  pose proof (NN a (or_introl eq_refl)). pose proof (lsum_nonneg f l (fun x Hx => NN x (or_intror Hx))).
  destruct Ht as [->|Ht]; [lra|]. specialize (IH (fun x Hx => NN x (or_intror Hx)) Ht). lra.
Qed.

Lemma form_relaxes : forall m s, sumn n (fun i => relaxation i * dot (s i) (s i)) <= lsum (map (cell_form m s s) tets).
Proof.
  intros m s.
  rewrite (sumn_ext n _ (fun i => lsum (map (fun t => if in_dec Nat.eq_dec i (tet_nodes t) then md_flip (medium_of t) * tet_vol p t / 4 * dot (s i) (s i) else 0) tets))).
  2: { intros i _. unfold relaxation. rewrite Rmult_comm, <- lsum_map_scale. apply lsum_map_ext. intros t _. destruct (in_dec Nat.eq_dec i (tet_nodes t)); ring. }
  rewrite (sumn_lsum_swap n (fun t i => if in_dec Nat.eq_dec i (tet_nodes t) then md_flip (medium_of t) * tet_vol p t / 4 * dot (s i) (s i) else 0)).
  assert (LE : forall (f g : tet -> R) l, (forall t, In t l -> f t <= g t) -> lsum (map f l) <= lsum (map g l)).
  { intros f g l. induction l as [|a l IH]; intros H; cbn [map lsum]; [lra|]. pose proof (H a (or_introl eq_refl)). specialize (IH (fun t Ht => H t (or_intror Ht))). lra. }
  apply LE. intros t Ht. rewrite <- (lsum_nodes n (tet_nodes t) (fun i => md_flip (medium_of t) * tet_vol p t / 4 * dot (s i) (s i)) (sp_distinct HP t Ht)).
  2: { intros i Hi. eapply (sp_tets HP); eauto. }
  unfold cell_form, nodal_integral.
  assert (G : 0 <= sumn 3 (fun k => dot (grad_on p (fun i => comp k (s i)) t) (grad_on p (fun i => comp k (s i)) t))).
  { apply sumn_nonneg. intros. apply dot_self_nonneg. }
  pose proof (s_vol_pos t Ht) as HV. pose proof (s_D_pos t Ht) as HD.
  assert (0 <= md_D (medium_of t) * tet_vol p t * sumn 3 (fun k => dot (grad_on p (fun i => comp k (s i)) t) (grad_on p (fun i => comp k (s i)) t))).
  { apply Rmult_le_pos; [apply Rmult_le_pos; lra|exact G]. }
  rewrite <- lsum_map_scale.
  rewrite (lsum_map_ext (fun i => tet_vol p t / 4 * (md_flip (medium_of t) * dot (s i) (s i) + md_prec (medium_of t) * dot (cross (s i) (m i)) (s i)))
    (fun i => md_flip (medium_of t) * tet_vol p t / 4 * dot (s i) (s i)) (tet_nodes t)).
  - lra.
  - intros i _. rewrite (dot_comm (cross (s i) (m i))), cross_dot_l. field.
Qed.

Lemma spin_coercive : forall m lam, (forall i, (i < n)%nat -> lam <= relaxation i) -> forall z,
  lam * sumn (3 * n) (fun r => Rsqr (z r)) <= sumn (3 * n) (fun r => z r * sumn (3 * n) (fun c => total 3 (els m) r c * z c)).
Proof.
  intros m lam Hl z. rewrite assembled_form. eapply Rle_trans; [|apply form_relaxes].
  rewrite (sumn_ext (3 * n) _ (fun r => Rsqr (flat (unflat z) r))) by (intros; rewrite flat_unflat; reflexivity).
  rewrite flat_norm, <- sumn_scale. apply sumn_le. intros i Hi. apply Rmult_le_compat_r; [apply dot_self_nonneg|]. apply Hl. exact Hi.
Qed.

Lemma slowest : exists lam, 0 < lam /\ forall i, (i < n)%nat -> lam <= relaxation i.
Proof.
  assert (H : forall k, (k <= n)%nat -> exists lam, 0 < lam /\ forall i, (i < k)%nat -> lam <= relaxation i).
  { induction k as [|k IH]; intros Hk. { exists 1. split; [lra|]. intros; lia. }
    destruct IH as (l & L1 & L2); [lia|]. pose proof (relaxation_pos k ltac:(lia)) as Hp.
    exists (Rmin l (relaxation k)). split. { apply Rmin_glb_lt; assumption. }
    intros i Hi. destruct (Nat.eq_dec i k) as [->|]. { apply Rmin_r. } eapply Rle_trans; [apply Rmin_l|]. apply L2. lia. }
  apply (H n). lia.
Qed.

Lemma spin_diagonal : forall m r, (r < 3 * n)%nat -> 0 < total 3 (els m) r r.
Proof.
  intros m r Hr. destruct slowest as (lam & L1 & L2).
  pose proof (spin_coercive m lam L2 (fun c => if (c =? r)%nat then 1 else 0)) as H. cbv beta in H.
  rewrite (sumn_ext (3 * n) _ (fun c => if (c =? r)%nat then 1 else 0)) in H.
  2: { intros c _. destruct (c =? r)%nat; unfold Rsqr; ring. }
  rewrite (sumn_delta (3 * n) r (fun _ => 1) Hr) in H.
  rewrite (sumn_ext (3 * n) _ (fun q => if (q =? r)%nat then total 3 (els m) q r else 0)) in H.
  { rewrite (sumn_delta (3 * n) r (fun q => total 3 (els m) q r) Hr) in H. lra. }
  intros q _. destruct (q =? r)%nat; [|ring].
  rewrite (sumn_ext (3 * n) _ (fun c => if (c =? r)%nat then total 3 (els m) q c else 0)).
  { rewrite (sumn_delta (3 * n) r (fun c => total 3 (els m) q c) Hr). ring. }
  intros c _. destruct (c =? r)%nat; ring.
Qed.

(** ** the triangles *)
Lemma dead_triangle : forall t i, In t tris -> In i (tri_nodes t) -> ~ imposed_node i -> spin_surface_value (mub / e) (surf_of surfs t) = None.
Proof.
  intros t i Ht Hi Hn. unfold spin_surface_value. destruct (sp_surfaces HP t Ht) as [[E1 E2]|[[E1 [E2 E3]]|[E1 E2]]].
  - rewrite E1. change (isfinite (NaN : num XA)) with false. cbn [andb].
    destruct (isfinite (norm3 (SettingsModel.s_s (surf_of surfs t)))) eqn:F; auto. exfalso. apply norm3_finite in F.
    destruct (SettingsModel.s_s (surf_of surfs t)) as [[x y] z]. destruct F as ([? F1] & [? F2] & [? F3]). cbn in E2. subst.
    destruct E2 as [E2|[E2|E2]]; discriminate.
  - exfalso. apply Hn. destruct E1 as [j E1]. destruct (SettingsModel.s_uP (surf_of surfs t)) as [[x y] z] eqn:Eu.
    exists t, (xmul (Fin (- j * (mub / e))) x, xmul (Fin (- j * (mub / e))) y, xmul (Fin (- j * (mub / e))) z). split; auto. split; auto. left. split; auto.
    exists j. split; auto. rewrite Eu. reflexivity.
  - exfalso. apply Hn. exists t, (SettingsModel.s_s (surf_of surfs t)). split; auto. split; auto. right. auto.
Qed.

Lemma bnd_tested : forall y, (forall r, (r < 3 * n)%nat -> imposed_node (r / 3) -> y r = 0) -> sumn (3 * n) (fun r => y r * loads 3 bnd r) = 0.
Proof.
  intros y Hy. rewrite (loads_form 3 n bnd y sbnd_nodes). apply lsum_zero. intros el Hel. apply in_map_iff in Hel. destruct Hel as (t & <- & Ht).
  change (e_N (spin_tri (mub / e) p surfs t)) with 3%nat. apply sumn_zero. intros d Hd. apply sumn_zero. intros ie Hie.
  assert (Hi : In (e_nod (spin_tri (mub / e) p surfs t) ie) (tri_nodes t)) by (apply nth_In; exact Hie).
  set (i := e_nod (spin_tri (mub / e) p surfs t) ie) in *.
  assert (Dc : imposed_node i \/ ~ imposed_node i) by apply imposed_dec.
  destruct Dc as [Dc|Dc].
  - rewrite Hy; [ring| |].
    + pose proof (sp_tris HP t i Ht Hi). lia.
    + destruct (split_of 3 i d Hd) as [-> _]. exact Dc.
  - cbn [spin_tri e_Le]. rewrite (dead_triangle t i Ht Hi Dc). cbn [spin_surface_Le]. ring.
Qed.

(** ** the matrix and the vector are affine in the magnetization *)
Lemma total_affine : forall r c, affine (fun m => total 3 (els m) r c).
Proof.
  intros r c.
  apply (aff_ext (fun m => lsum (map (fun t => sumn 4 (fun ie => sumn 4 (fun je =>
     if (nth ie (tet_nodes t) 0 =? r / 3)%nat && (nth je (tet_nodes t) 0 =? c / 3)%nat
     then e_Ke (spin_tet mub e p pot m vols t) (r mod 3 * 4 + ie)%nat (c mod 3 * 4 + je)%nat else 0))) tets))).
  { intros m. unfold total, els. rewrite map_map. reflexivity. }
  apply aff_lsum. intros t _. apply aff_sumn. intros ie _. apply aff_sumn. intros je _.
  destruct ((nth ie (tet_nodes t) 0 =? r / 3)%nat && (nth je (tet_nodes t) 0 =? c / 3)%nat); [|apply aff_const].
  unfold spin_tet. cbn [e_Ke].
  eapply aff_ext. { intros m. symmetry. apply spin_Ke_affine. }
  apply aff_plus; [apply aff_const|]. apply aff_sumn. intros d _. apply aff_scale. apply aff_comp.
Qed.
Lemma loads_affine : forall r, affine (fun m => loads 3 (els m) r).
Proof.
  intros r.
  apply (aff_ext (fun m => lsum (map (fun t => sumn 4 (fun ie =>
     if (nth ie (tet_nodes t) 0 =? r / 3)%nat then e_Le (spin_tet mub e p pot m vols t) (r mod 3 * 4 + ie)%nat else 0)) tets))).
  { intros m. unfold loads, els. rewrite map_map. reflexivity. }
  apply aff_lsum. intros t _. apply aff_sumn. intros ie _.
  destruct (nth ie (tet_nodes t) 0 =? r / 3)%nat; [|apply aff_const]. unfold spin_tet. cbn [e_Le].
  eapply aff_ext. { intros m. symmetry. apply spin_load. }
  apply aff_scale. apply aff_comp.
Qed.

Lemma imposes_finite : forall t v, In t tris -> imposes (mub / e) (surf_of surfs t) v -> exists u, v = (Fin (vx u), Fin (vy u), Fin (vz u)).
Proof.
  intros t v Ht [[H1 (j & Ej & Hu)]|[H1 [H2 ->]]].
  - destruct (sp_surfaces HP t Ht) as [[E1 _]|[[_ [_ E3]]|[E1 _]]]; [congruence| |congruence].
    destruct (SettingsModel.s_uP (surf_of surfs t)) as [[x y] z]. destruct E3 as ([x' ->] & [y' ->] & [z' ->]).
    exists (V (- j * (mub / e) * x') (- j * (mub / e) * y') (- j * (mub / e) * z')). exact Hu.
  - destruct (SettingsModel.s_s (surf_of surfs t)) as [[x y] z]. destruct H1 as ([x' ->] & [y' ->] & [z' ->]). exists (V x' y' z'). reflexivity.
Qed.

Lemma last_imposing : forall i, imposed_node i -> exists u l1 t l2, tris = l1 ++ t :: l2 /\ In i (tri_nodes t) /\ imposes (mub / e) (surf_of surfs t) (Fin (vx u), Fin (vy u), Fin (vz u)) /\
     (forall t' v', In t' l2 -> In i (tri_nodes t') -> ~ imposes (mub / e) (surf_of surfs t') v').
Proof.
  intros i (t & v & Ht & Hi & Hv).
    destruct (last_with (fun t => In i (tri_nodes t) /\ exists v, imposes (mub / e) (surf_of surfs t) v) tris) as (l1 & t' & l2 & Et & [P1 [v' P2]] & N).
    - intros x. destruct (in_dec Nat.eq_dec i (tri_nodes x)); [|right; tauto]. destruct (imposes_dec (surf_of surfs x)); [left|right]; tauto.
    - exists t. split; auto. split; eauto.
    - assert (Ht' : In t' tris) by (rewrite Et; apply in_app_iff; right; left; reflexivity).
      destruct (imposes_finite t' v' Ht' P2) as [u ->]. exists u, l1, t', l2. split; auto. split; auto. split; auto.
      intros t2 v2 I2 Hi2 Hv2. apply (N t2 I2). split; eauto.
Qed.

(** the values given to the solver *)
Lemma spin_values : exists xd, snd (spin_dirichlet (Fin (mub / e) : num XA) n surfs tris) = vF xd /\ length xd = (3 * n)%nat /\
  (forall r, In r (fst (spin_dirichlet (Fin (mub / e) : num XA) n surfs tris)) <-> imposed_node (r / 3)) /\
  imposed_values (unflat (fun r => nth r xd 0)) /\ (forall i, ~ imposed_node i -> unflat (fun r => nth r xd 0) i = vzero).
Proof.
  destruct (spin_dirichlet (Fin (mub / e) : num XA) n surfs tris) as [idx vals] eqn:E. cbn [fst snd].
  destruct (C69_dirichlet (mub / e) n surfs tris idx vals (sp_tris HP) E) as (_ & H2 & H3 & H4 & H5).
  assert (Hld : forall r, In r idx <-> imposed_node (r / 3)).
  { intros r. rewrite H2. split.
    - intros (i & d & -> & Hd & H). destruct (split_of 3 i d Hd) as [-> _]. exact H.
    - intros H. destruct (split_at 3 r ltac:(lia)) as [E1 E2]. exists (r / 3)%nat, (r mod 3). auto. }
  assert (Hf : forall r, nth r vals (Fin 0) = Fin (real (nth r vals (Fin 0)))).
  { intros r. destruct (split_at 3 r ltac:(lia)) as [E1 E2]. destruct (imposed_dec (r / 3)) as [D|D].
    - destruct (last_imposing _ D) as (u & l1 & t & l2 & Et & Hi & Hv & N). rewrite E1.
      rewrite (H5 l1 t l2 _ _ _ Et Hi E2 Hv N). destruct (r mod 3) as [|[|[|]]]; reflexivity.
    - rewrite E1. rewrite (H4 _ _ D E2). reflexivity. }
  set (f := fun r => real (nth r vals (Fin 0))) in *.
  assert (Hl : forall i, nth i (map f (seq 0 (3 * n))) 0 = f i).
  { intros i. destruct (Nat.lt_ge_cases i (3 * n)) as [L|L].
    - rewrite (nth_indep _ 0 (f 0%nat)) by (rewrite map_length, seq_length; exact L). rewrite map_nth, seq_nth by exact L. reflexivity.
    - rewrite nth_overflow by (rewrite map_length, seq_length; exact L). unfold f. rewrite nth_overflow by (rewrite H3; exact L). reflexivity. }
  exists (map f (seq 0 (3 * n))). split; [|split; [|split; [|split]]]; auto.
  - apply isv_vF_inv. split; auto. intros i Hi. rewrite (nth_indep _ n0 (Fin 0 : num XA)) by lia. apply Hf.
  - rewrite map_length, seq_length. reflexivity.
  - intros l1 t l2 i v Et Hi Hv N. unfold unflat. rewrite !Hl. cbn [vx vy vz]. unfold f.
    pose proof (H5 l1 t l2 i 0%nat v Et Hi ltac:(lia) Hv N) as Q0. pose proof (H5 l1 t l2 i 1%nat v Et Hi ltac:(lia) Hv N) as Q1.
    pose proof (H5 l1 t l2 i 2%nat v Et Hi ltac:(lia) Hv N) as Q2. rewrite Nat.add_0_r in Q0. rewrite Q0, Q1, Q2.
    assert (Ht : In t tris) by (rewrite Et; apply in_app_iff; right; left; reflexivity).
    destruct (imposes_finite t v Ht Hv) as [u ->]. reflexivity.
  - intros i Hi. unfold unflat. rewrite !Hl. unfold f.
    pose proof (H4 i 0%nat Hi ltac:(lia)) as Q0. pose proof (H4 i 1%nat Hi ltac:(lia)) as Q1. pose proof (H4 i 2%nat Hi ltac:(lia)) as Q2.
    rewrite Nat.add_0_r in Q0. rewrite Q0, Q1, Q2. reflexivity.
Qed.

Lemma spin_rows : forall m s w, null_there w ->
  sumn (3 * n) (fun r => flat w r * (sumn (3 * n) (fun c => total 3 (els m) r c * flat s c) - (loads 3 (els m) r + loads 3 bnd r))) = spin_balance m s w.
Proof.
  intros m s w Hw.
  rewrite (sumn_ext (3 * n) _ (fun r => flat w r * sumn (3 * n) (fun c => total 3 (els m) r c * flat s c) - (flat w r * loads 3 (els m) r + flat w r * loads 3 bnd r))) by (intros; ring).
  rewrite sumn_minus, sumn_plus, assembled_form, assembled_load, bnd_tested.
  2: { intros r _ Hi. unfold flat. rewrite (Hw _ Hi). destruct (r mod 3) as [|[|k]]; reflexivity. }
  rewrite !unflat_flat_fun, Rplus_0_r. unfold spin_balance.
  rewrite (lsum_map_ext (fun t => spin_cell p (medium_of t) pot m s w t) (fun t => cell_form m s w t + -1 * cell_source m w t)).
  - rewrite lsum_map_plus, lsum_map_scale. change (map (fun t => cell_form m s w t) tets) with (map (cell_form m s w) tets).
    change (map (fun t => cell_source m w t) tets) with (map (cell_source m w) tets). ring.
  - intros t _. unfold spin_cell, cell_form, cell_source. ring.
Qed.

(** ** one call after others *)
(** the object after the calls made with the magnetizations [past] *)
Record spin_past (past : list (nat -> vec)) (st : spin_state XA) : Prop := mkPast {
  pa_shape : matrix_of_shape (build_shape 3 n edges (fun _ => true)) (ss_K st);
  pa_K : forall r c, (r < 3 * n)%nat -> mget (ss_K st) r c = Some (Fin (lsum (map (fun m => total 3 (els m) r c) past)) : num XA);
  pa_L : exists L, ss_L st = vF L /\ length L = (3 * n)%nat /\
    forall r, (r < 3 * n)%nat -> nth r L 0 = lsum (map (fun m => loads 3 (els m) r) past) + INR (length past) * loads 3 bnd r }.

Lemma fresh_past : forall it, spin_past [] (spin_fresh it n edges).
Proof.
  intros it. destruct (fresh_ok 3 n edges s_edges_bound) as [F1 F2]. constructor.
  - exact F1.
  - exact F2.
  - exists (repeat 0 (3 * n)). split; [symmetry; apply vF_repeat|]. split; [apply repeat_length|].
    intros r _. rewrite nth_repeat. cbn [map lsum length INR]. ring.
Qed.

Lemma bicg_resmax : forall passes (it it' : iteration XA) M x rhs xd ld X, bicg_dir passes it M x rhs xd ld = Some (it', X) -> resmax it' = resmax it.
Proof.
  intros passes it it' M x rhs xd ld X H. destruct (C26_solvers_stop XA BicgDir it M x rhs xd ld) as (it1 & x1 & H1 & _ & _ & _ & H2).
  set (k := S (Nat.max passes (Nat.max 1 (Z.to_nat (maxiter it - nit it))))). specialize (H1 k ltac:(lia)).
  assert (E : bicg_dir k it M x rhs xd ld = Some (it', X)).
  { clear H1. revert H. unfold bicg_dir. cbv zeta. 
    match goal with |- match bicg_loop _ ?M ?ld ?D ?r ?st with _ => _ end = _ -> _ => destruct (bicg_loop passes M ld D r st) as [[i y]|] eqn:EB; [|discriminate];
      rewrite (bicg_loop_fuel M ld D r passes k st _ EB) by lia end. auto. }
  change (IterProps.solve BicgDir k it M x rhs xd ld) with (bicg_dir k it M x rhs xd ld) in H1. rewrite E in H1. injection H1 as -> _. exact H2.
Qed.

Lemma lsum_snoc : forall {X} (f : X -> R) l x, lsum (map f (l ++ [x])) = lsum (map f l) + f x.
Proof. intros X f l x. induction l as [|a l IH]; cbn [app map lsum]; [ring|]. rewrite IH. ring. Qed.

(** the system that the solver receives: as many times the one of the mean magnetization as there were calls *)
Lemma spin_ready : forall past m st, spin_past past st -> let all := past ++ [m] in let k := INR (length all) in
  0 < k /\ exists K L xd ld,
    (forall passes, spin_compute passes n (map lift (els m)) (map lift bnd) (spin_dirichlet (Fin (mub / e) : num XA) n surfs tris) st =
       match IterProps.solve BicgDir passes (reset (ss_it st)) K (repeat n0 (3 * n)) (vF L) (vF xd) ld with
       | Some (it, X) => Some (match status it with CONVERGED => true | _ => false end,
           mkSpinState it K (vF L) (match status it with CONVERGED => triples n X | _ => repeat (n0, n0, n0) n end))
       | None => None
       end) /\
    (forall it out, spin_past all (mkSpinState it K (vF L) out)) /\
    square_matrix K (3 * n) (fun r c => k * total 3 (els (mean all)) r c) ld /\ (forall i r, nth_error K i = Some r -> In i (indices r)) /\
    length L = (3 * n)%nat /\ (forall r, (r < 3 * n)%nat -> nth r L 0 = k * (loads 3 (els (mean all)) r + loads 3 bnd r)) /\
    length xd = (3 * n)%nat /\ (forall r, In r ld <-> imposed_node (r / 3)) /\
    imposed_values (unflat (fun r => nth r xd 0)) /\ (forall i, ~ imposed_node i -> unflat (fun r => nth r xd 0) i = vzero).
Proof.
  intros past m st [P1 P2 (L0 & P3 & P4 & P5)] all k.
  destruct (build_ok 3 n edges (els m) (ss_K st) _ ltac:(lia) (spin_system m) P1 P2) as (K & EK & K1 & K2).
  destruct (loads_ok 3 n (els m) L0 ltac:(lia) (sels_nodes m) P4) as (L1 & EL1 & LL1 & HL1).
  destruct (loads_ok 3 n bnd L1 ltac:(lia) sbnd_nodes LL1) as (L & EL & LL & HL).
  destruct spin_values as (xd & Exd & Lxd & Hld & Hiv & Hz).
  assert (Hne : all <> []) by (unfold all; destruct past; discriminate).
  pose proof (INR_length_pos all Hne) as Hk. fold k in Hk.
  assert (Ek : k = INR (length past) + 1). { unfold k, all. rewrite app_length, plus_INR. reflexivity. }
  assert (K3 : forall r c, (r < 3 * n)%nat -> mget K r c = Some (Fin (k * total 3 (els (mean all)) r c) : num XA)).
  { intros r c Hr. rewrite K2 by exact Hr. rewrite <- (lsum_snoc (fun m => total 3 (els m) r c)). fold all.
    rewrite (total_affine r c all Hne). reflexivity. }
  assert (L3 : forall r, (r < 3 * n)%nat -> nth r L 0 = k * (loads 3 (els (mean all)) r + loads 3 bnd r)).
  { intros r Hr. rewrite HL, HL1, P5 by exact Hr.
    replace (lsum (map (fun m0 => loads 3 (els m0) r) past) + INR (length past) * loads 3 bnd r + loads 3 (els m) r + loads 3 bnd r)
      with (lsum (map (fun m0 => loads 3 (els m0) r) past) + loads 3 (els m) r + k * loads 3 bnd r) by (rewrite Ek; ring).
    rewrite <- (lsum_snoc (fun m => loads 3 (els m) r)). fold all. rewrite (loads_affine r all Hne). fold k. ring. }
  assert (PA : forall it out, spin_past all (mkSpinState it K (vF L) out)).
  { intros it out. constructor; cbn [ss_K ss_L].
    - exact K1.
    - intros r c Hr. rewrite K2 by exact Hr. unfold all. rewrite lsum_snoc. reflexivity.
    - exists L. split; auto. split; auto. intros r Hr. rewrite HL, HL1, P5 by exact Hr. fold k. rewrite Ek. unfold all. rewrite lsum_snoc. ring. }
  split; [exact Hk|]. exists K, L, xd, (fst (spin_dirichlet (Fin (mub / e) : num XA) n surfs tris)).
  destruct (square_ok 3 n edges K (fun r c => k * total 3 (els (mean all)) r c) (fst (spin_dirichlet (Fin (mub / e) : num XA) n surfs tris)) ltac:(lia) s_edges_bound K1 K3) as [SQ SD].
  { intros r Hr _. pose proof (spin_diagonal (mean all) r Hr). apply Rgt_not_eq. apply Rmult_lt_0_compat; assumption. }
  split; [|split; [|split; [|split; [|split; [|split; [|split; [|split; [|split]]]]]]]]; auto.
  intros passes. unfold spin_compute, spin_solve. change (@lift) with (xelem). rewrite EK, P3, EL1, EL, Exd.
  change (IterProps.solve BicgDir passes (reset (ss_it st)) K (repeat n0 (3 * n)) (vF L) (vF xd)) with (bicg_dir passes (reset (ss_it st)) K (repeat n0 (3 * n)) (vF L) (vF xd)).
  destruct (bicg_dir passes (reset (ss_it st)) K (repeat n0 (3 * n)) (vF L) (vF xd) (fst (spin_dirichlet (Fin (mub / e) : num XA) n surfs tris))) as [[it X]|]; auto.
  destruct (status it); reflexivity.
Qed.

Lemma spin_step : forall passes past m st tol b st', (0 < n)%nat -> 0 <= tol -> spin_past past st -> resmax (ss_it st) = (Fin tol : num XA) ->
  spin_compute passes n (map lift (els m)) (map lift bnd) (spin_dirichlet (Fin (mub / e) : num XA) n surfs tris) st = Some (b, st') ->
  spin_past (past ++ [m]) st' /\ resmax (ss_it st') = (Fin tol : num XA) /\
  (b = true -> solves_within tol (mean (past ++ [m])) (ss_s st')) /\
  (b = false -> ss_s st' = repeat (Fin 0 : num XA, Fin 0 : num XA, Fin 0 : num XA) n).
Proof.
  intros passes past m st tol b st' Hn Htol HPa Ht Hrun.
  destruct (spin_ready past m st HPa) as (Hk & K & L & xd & ld & ES & PA & SQ & SD & LL & L3 & Lxd & Hld & Hiv & Hz).
  set (all := past ++ [m]) in *. set (k := INR (length all)) in *.
  rewrite ES in Hrun.
  destruct (IterProps.solve BicgDir passes (reset (ss_it st)) K (repeat n0 (3 * n)) (vF L) (vF xd) ld) as [[it' X]|] eqn:EB; [|discriminate].
  pose proof (bicg_resmax _ _ _ _ _ _ _ _ _ EB) as Rm. cbn [reset resmax] in Rm.
  pose proof (f_equal (option_map snd) Hrun) as E2. cbn [option_map snd] in E2.
  assert (E3 : st' = mkSpinState it' K (vF L) (match status it' with CONVERGED => triples n X | _ => repeat (n0, n0, n0) n end)) by congruence.
  pose proof (f_equal (option_map fst) Hrun) as E1. cbn [option_map fst] in E1.
  assert (E4 : b = match status it' with CONVERGED => true | _ => false end) by congruence. clear E1 E2 Hrun. rewrite E3.
  split; [apply PA|]. split; [cbn [ss_it]; congruence|]. cbn [ss_s].
  destruct (status it') eqn:Est; subst b; (split; [try discriminate|try discriminate; intros _; rewrite <- xn0; reflexivity]).
  intros _. clear E3.
  destruct (dir_solved BicgDir passes (reset (ss_it st)) it' K (3 * n) _ L xd ld tol X (or_intror eq_refl) SQ SD ltac:(lia) LL Lxd Ht EB Est) as (y & Ey & Ly & Yd & Yr).
  exists (unflat (fun r => nth r y 0)), (unflat (fun r => nth r xd 0)). split; [|split; [|split; [|split]]]; auto.
  - subst X. unfold triples, stored. apply map_ext_in. intros i Hi. apply in_seq in Hi. unfold unflat. cbn [vx vy vz]. rewrite xn0.
    assert (NF : forall j, nth j (vF y) (Fin 0 : num XA) = Fin (nth j y 0)) by (intros j; unfold vF; apply (map_nth (fun x => Fin x : num XA) y 0 j)).
    rewrite !NF. reflexivity.
  - intros l1 t l2 i v Et Hi Hv N. rewrite (Hiv l1 t l2 i v Et Hi Hv N).
    assert (Q : forall d, (d < 3)%nat -> nth (3 * i + d) y 0 = nth (3 * i + d) xd 0).
    { intros d Hd. apply Yd.
      - apply Hld. destruct (split_of 3 i d Hd) as [-> _]. exists t, v. split; auto. rewrite Et. apply in_app_iff. right. left. reflexivity.
      - assert (In t tris) by (rewrite Et; apply in_app_iff; right; left; reflexivity). pose proof (sp_tris HP t i H Hi). lia. }
    unfold unflat. cbn [vx vy vz]. pose proof (Q 0%nat ltac:(lia)) as Q0. rewrite Nat.add_0_r in Q0. rewrite Q0, (Q 1%nat), (Q 2%nat) by lia. reflexivity.
  - intros B HB HBw w Hw.
    assert (SC : forall (z : list R) w, null_there w -> 
      sumn (3 * n) (fun r => flat w r * (sumn (3 * n) (fun c => k * total 3 (els (mean all)) r c * nth c z 0) - nth r L 0)) =
      k * spin_balance (mean all) (unflat (fun r => nth r z 0)) w).
    { intros z w' Hw'. rewrite <- (spin_rows (mean all) _ w' Hw'), <- sumn_scale. apply sumn_ext. intros r Hr. rewrite L3 by exact Hr.
      rewrite (sumn_ext (3 * n) (fun c => total 3 (els (mean all)) r c * flat (unflat (fun r => nth r z 0)) c) (fun c => total 3 (els (mean all)) r c * nth c z 0)).
      - rewrite (sumn_ext (3 * n) (fun c => k * total 3 (els (mean all)) r c * nth c z 0) (fun c => k * (total 3 (els (mean all)) r c * nth c z 0))) by (intros; ring).
        rewrite sumn_scale. ring.
      - intros c _. rewrite flat_unflat. reflexivity. }
    assert (NV : forall w, vec_norm n w = sqrt (sumn (3 * n) (fun r => Rsqr (flat w r)))) by (intros w'; unfold vec_norm; rewrite flat_norm; reflexivity).
    assert (RB : residual (3 * n) (fun r c => k * total 3 (els (mean all)) r c) ld L xd <= k * B).
    { apply residual_best. { apply Rmult_le_pos; lra. }
      intros w' Hw'. assert (Nw : null_there (unflat w')).
      { intros i Hi. unfold unflat. assert (Z : forall d, (d < 3)%nat -> w' (3 * i + d)%nat = 0).
        { intros d Hd. apply Hw'. apply Hld. destruct (split_of 3 i d Hd) as [-> _]. exact Hi. }
        pose proof (Z 0%nat ltac:(lia)) as Z0. rewrite Nat.add_0_r in Z0. rewrite Z0, (Z 1%nat), (Z 2%nat) by lia. reflexivity. }
      pose proof (SC xd (unflat w') Nw) as S0. pose proof (HBw _ Nw) as B0. rewrite NV in B0.
      replace (flat (unflat w')) with w' in S0, B0 by (apply functional_extensionality; intros; symmetry; apply flat_unflat).
      rewrite S0, Rabs_mult, (Rabs_pos_eq k), Rmult_assoc by lra. apply Rmult_le_compat_l; [lra|exact B0]. }
    assert (Fw : forall r, In r ld -> flat w r = 0).
    { intros r Hr. unfold flat. rewrite (Hw _ (proj1 (Hld r) Hr)). destruct (r mod 3) as [|[|d]]; reflexivity. }
    pose proof (residual_tested (3 * n) (fun r c => k * total 3 (els (mean all)) r c) ld L y (flat w) Fw) as T. rewrite SC in T by exact Hw.
    rewrite <- NV, Rabs_mult, (Rabs_pos_eq k) in T by lra.
    apply (Rmult_le_reg_l k); [exact Hk|]. eapply Rle_trans; [exact T|].
    replace (k * (tol * B * vec_norm n w)) with (tol * (k * B) * vec_norm n w) by ring. apply Rmult_le_compat_r; [apply sqrt_pos|].
    eapply Rle_trans; [exact Yr|]. apply Rmult_le_compat_l; assumption.
Qed.

(** ** the exact solution *)
Lemma imposed_agree : forall s1 s2 i, imposed_values s1 -> imposed_values s2 -> imposed_node i -> s1 i = s2 i.
Proof.
  intros s1 s2 i H1 H2 Hi. destruct (last_imposing i Hi) as (u & l1 & t & l2 & Et & Hin & Hv & N).
  pose proof (H1 l1 t l2 i _ Et Hin Hv N) as E1. pose proof (H2 l1 t l2 i _ Et Hin Hv N) as E2. rewrite E1 in E2.
  assert (E : vx (s1 i) = vx (s2 i) /\ vy (s1 i) = vy (s2 i) /\ vz (s1 i) = vz (s2 i)) by (repeat split; congruence).
  destruct E as (? & ? & ?). apply vec_eq; assumption.
Qed.
Lemma imposed_bound : forall i, imposed_node i -> (i < n)%nat.
Proof. intros i (t & v & Ht & Hi & _). eapply (sp_tris HP); eauto. Qed.

Lemma solution_constrained : forall m s ld xd, (forall r, In r ld <-> imposed_node (r / 3)) -> imposed_values (unflat xd) ->
  spin_solution m s -> constrained (3 * n) (total 3 (els m)) ld (fun r => loads 3 (els m) r + loads 3 bnd r) xd (flat s).
Proof.
  intros m s ld xd Hld Hxd [S1 S2] r Hr. destruct (masked ld r) eqn:M.
  - apply masked_in in M. apply Hld in M. rewrite <- (flat_unflat xd r). unfold flat. rewrite (imposed_agree s (unflat xd) _ S1 Hxd M). reflexivity.
  - assert (M' : ~ imposed_node (r / 3)). { rewrite <- Hld. rewrite <- masked_in. rewrite M. discriminate. }
    set (w := unflat (fun c => if (c =? r)%nat then 1 else 0)).
    assert (Hw : null_there w).
    { intros i Hi. unfold w, unflat. assert (Z : forall d, (d < 3)%nat -> (3 * i + d =? r)%nat = false).
      { intros d Hd. apply Nat.eqb_neq. intros E. apply M'. rewrite <- E. destruct (split_of 3 i d Hd) as [-> _]. exact Hi. }
      pose proof (Z 0%nat ltac:(lia)) as Z0. rewrite Nat.add_0_r in Z0. rewrite Z0, (Z 1%nat), (Z 2%nat) by lia. reflexivity. }
    specialize (S2 w Hw). rewrite <- (spin_rows m s w Hw) in S2.
    rewrite (sumn_ext (3 * n) _ (fun c => if (c =? r)%nat then sumn (3 * n) (fun c' => total 3 (els m) c c' * flat s c') - (loads 3 (els m) c + loads 3 bnd c) else 0)) in S2.
    + rewrite (sumn_delta (3 * n) r (fun c => sumn (3 * n) (fun c' => total 3 (els m) c c' * flat s c') - (loads 3 (els m) c + loads 3 bnd c)) Hr) in S2. lra.
    + intros c _. unfold w. rewrite flat_unflat. destruct (c =? r)%nat; ring.
Qed.

Lemma constrained_solution : forall m z ld xd, (forall r, In r ld <-> imposed_node (r / 3)) -> imposed_values (unflat xd) ->
  constrained (3 * n) (total 3 (els m)) ld (fun r => loads 3 (els m) r + loads 3 bnd r) xd z -> spin_solution m (unflat z).
Proof.
  intros m z ld xd Hld Hxd Hz. split.
  - intros l1 t l2 i v Et Hi Hv N. rewrite (Hxd l1 t l2 i v Et Hi Hv N).
    assert (Im : imposed_node i). { exists t, v. split; auto. rewrite Et. apply in_app_iff. right. left. reflexivity. }
    assert (Q : forall d, (d < 3)%nat -> z (3 * i + d)%nat = xd (3 * i + d)%nat).
    { intros d Hd. pose proof (imposed_bound i Im). specialize (Hz (3 * i + d)%nat ltac:(lia)).
      replace (masked ld (3 * i + d)) with true in Hz; auto. symmetry. apply masked_in. apply Hld. destruct (split_of 3 i d Hd) as [-> _]. exact Im. }
    unfold unflat. cbn [vx vy vz]. pose proof (Q 0%nat ltac:(lia)) as Q0. rewrite Nat.add_0_r in Q0. rewrite Q0, (Q 1%nat), (Q 2%nat) by lia. reflexivity.
  - intros w Hw. rewrite <- (spin_rows m _ w Hw). apply sumn_zero. intros r Hr. specialize (Hz r Hr). destruct (masked ld r) eqn:M.
    + apply masked_in in M. apply Hld in M. unfold flat at 1. rewrite (Hw _ M). destruct (r mod 3) as [|[|d]]; cbn [comp vzero vx vy vz]; ring.
    + rewrite (sumn_ext (3 * n) _ (fun c => total 3 (els m) r c * z c)) by (intros; rewrite flat_unflat; reflexivity). rewrite Hz. ring.
Qed.

Lemma spin_exact : forall m, (exists s, spin_solution m s) /\ (forall s1 s2, spin_solution m s1 -> spin_solution m s2 -> forall i, (i < n)%nat -> s1 i = s2 i).
Proof.
  intros m. destruct spin_values as (xd & _ & _ & Hld & Hiv & _). set (ld := fst (spin_dirichlet (Fin (mub / e) : num XA) n surfs tris)) in *.
  destruct slowest as (lam & L1 & L2).
  pose proof (coercive_injective (3 * n) (total 3 (els m)) ld lam L1 (fun z _ => spin_coercive m lam L2 z)) as Inj.
  split.
  - destruct (constrained_exists (3 * n) (total 3 (els m)) ld Inj (fun r => loads 3 (els m) r + loads 3 bnd r) (fun r => nth r xd 0)) as [z Hz].
    exists (unflat z). eapply constrained_solution; eauto.
  - intros s1 s2 H1 H2 i Hi.
    pose proof (constrained_unique (3 * n) (total 3 (els m)) ld Inj _ _ _ _ (solution_constrained m s1 ld _ Hld Hiv H1) (solution_constrained m s2 ld _ Hld Hiv H2)) as U.
    assert (Q : forall d, (d < 3)%nat -> comp d (s1 i) = comp d (s2 i)).
    { intros d Hd. rewrite <- !flat_at by exact Hd. apply U. lia. }
    apply vec_eq; [apply (Q 0%nat)|apply (Q 1%nat)|apply (Q 2%nat)]; lia.
Qed.

Lemma spin_error : forall m s exact C lam, spin_solution m exact -> imposed_values s -> 0 <= C ->
  (forall w, null_there w -> Rabs (spin_balance m s w) <= C * vec_norm n w) ->
  0 < lam -> (forall i, (i < n)%nat -> lam <= relaxation i) ->
  lam * vec_norm n (fun i => vsub (s i) (exact i)) <= C.
Proof.
  intros m s exact C lam HE HS HC HB L1 L2. destruct spin_values as (xd & _ & _ & Hld & Hiv & _). set (ld := fst (spin_dirichlet (Fin (mub / e) : num XA) n surfs tris)) in *.
  pose proof (solution_constrained m exact ld _ Hld Hiv HE) as HX.
  pose proof (coercive_error (3 * n) (total 3 (els m)) ld lam L1 (fun z _ => spin_coercive m lam L2 z) _ _ (flat exact) (flat s) HX) as CE.
  assert (H1 : forall r, (r < 3 * n)%nat -> In r ld -> flat s r = nth r xd 0).
  { intros r Hr Hin. rewrite <- (flat_unflat (fun r => nth r xd 0) r). unfold flat. rewrite (imposed_agree s _ _ HS Hiv (proj1 (Hld r) Hin)). reflexivity. }
  specialize (CE H1).
  unfold vec_norm. rewrite <- flat_norm.
  rewrite (sumn_ext (3 * n) _ (fun r => Rsqr (flat s r - flat exact r))).
  2: { intros r _. unfold flat. f_equal. destruct (r mod 3) as [|[|d]]; reflexivity. }
  eapply Rle_trans; [exact CE|].
  set (yl := map (flat s) (seq 0 (3 * n))). set (rl := map (fun r => loads 3 (els m) r + loads 3 bnd r) (seq 0 (3 * n))).
  assert (NL : forall f r, (r < 3 * n)%nat -> nth r (map f (seq 0 (3 * n))) 0 = f r).
  { intros f r Hr. rewrite (nth_indep _ 0 (f 0%nat)) by (rewrite map_length, seq_length; exact Hr). rewrite map_nth, seq_nth by exact Hr. reflexivity. }
  assert (RB : residual (3 * n) (total 3 (els m)) ld rl yl <= C).
  { apply residual_best; auto. intros w' Hw'.
    assert (Nw : null_there (unflat w')).
    { intros i Hi. unfold unflat. assert (Z : forall d, (d < 3)%nat -> w' (3 * i + d)%nat = 0).
      { intros d Hd. apply Hw'. apply Hld. destruct (split_of 3 i d Hd) as [-> _]. exact Hi. }
      pose proof (Z 0%nat ltac:(lia)) as Z0. rewrite Nat.add_0_r in Z0. rewrite Z0, (Z 1%nat), (Z 2%nat) by lia. reflexivity. }
    pose proof (HB _ Nw) as B0. rewrite <- (spin_rows m s _ Nw) in B0. unfold vec_norm in B0. rewrite <- flat_norm in B0.
    replace (flat (unflat w')) with w' in B0 by (apply functional_extensionality; intros; symmetry; apply flat_unflat).
    erewrite sumn_ext; [exact B0|]. intros r Hr. cbv beta. unfold rl. rewrite (NL _ r Hr). f_equal. f_equal.
    apply sumn_ext. intros c Hc. unfold yl. rewrite (NL _ c Hc). reflexivity. }
  eapply Rle_trans; [|exact RB]. unfold residual. apply Req_le. f_equal. apply sumn_ext. intros r Hr. destruct (masked ld r); [unfold Rsqr; ring|].
  unfold rl. rewrite (NL _ r Hr). f_equal. f_equal. apply sumn_ext. intros c Hc. unfold yl. rewrite (NL _ c Hc). reflexivity.
Qed.

(** the solver ends *)
Lemma spin_ends : forall past m st, spin_past past st -> exists b st', resmax (ss_it st') = resmax (ss_it st) /\ maxiter (ss_it st') = maxiter (ss_it st) /\
  forall passes, (Nat.max 1 (Z.to_nat (maxiter (ss_it st))) < passes)%nat ->
    spin_compute passes n (map lift (els m)) (map lift bnd) (spin_dirichlet (Fin (mub / e) : num XA) n surfs tris) st = Some (b, st').
Proof.
  intros past m st HPa. destruct (spin_ready past m st HPa) as (_ & K & L & xd & ld & ES & _).
  destruct (C26_solvers_stop XA BicgDir (reset (ss_it st)) K (repeat n0 (3 * n)) (vF L) (vF xd) ld) as (it' & X & E & _ & _ & Em & Er).
  do 2 eexists. split; [|split; [|intros passes Hp; rewrite ES, E; [reflexivity|]]].
  - exact Er.
  - exact Em.
  - cbn [reset maxiter nit]. rewrite Z.sub_0_r. exact Hp.
Qed.

(** the balance of any field is bounded *)
Lemma spin_bounded : forall m s, exists B, 0 <= B /\ forall w, null_there w -> Rabs (spin_balance m s w) <= B * vec_norm n w.
Proof.
  intros m s. set (yl := map (flat s) (seq 0 (3 * n))). set (rl := map (fun r => loads 3 (els m) r + loads 3 bnd r) (seq 0 (3 * n))).
  assert (NL : forall f r, (r < 3 * n)%nat -> nth r (map f (seq 0 (3 * n))) 0 = f r).
  { intros f r Hr. rewrite (nth_indep _ 0 (f 0%nat)) by (rewrite map_length, seq_length; exact Hr). rewrite map_nth, seq_nth by exact Hr. reflexivity. }
  exists (residual (3 * n) (total 3 (els m)) [] rl yl). split; [apply residual_pos|]. intros w Hw.
  pose proof (residual_tested (3 * n) (total 3 (els m)) [] rl yl (flat w) ltac:(intros r [])) as T.
  unfold vec_norm. rewrite <- flat_norm, <- (spin_rows m s w Hw). erewrite sumn_ext; [exact T|].
  intros r Hr. cbv beta. unfold rl. rewrite (NL _ r Hr). f_equal. f_equal. apply sumn_ext. intros c Hc. unfold yl. rewrite (NL _ c Hc). reflexivity.
Qed.
End with_problem.
End spin.

(** ** C88 *)
Section statements.
Variables (passes n : nat) (p : nat -> vec) (edges : list (nat * nat)) (tets : list tet) (tris : list tri)
  (vols : list (vol_prm XA)) (surfs : list (surf_prm XA)) (mub e : R) (pot : nat -> R).
(** one call of compute with the magnetization [m] *)
Definition call (m : nat -> vec) (st : spin_state XA) : option (bool * spin_state XA) :=
  spin_compute passes n (map (fun t => lift (spin_tet mub e p pot m vols t)) tets) (map (fun t => lift (spin_tri (mub / e) p surfs t)) tris)
    (spin_dirichlet (Fin (mub / e) : num XA) n surfs tris) st.
(** successive calls; the answer is that of the last one *)
Definition calls (ms : list (nat -> vec)) (st : spin_state XA) : option (bool * spin_state XA) :=
  spin_calls passes n (map (fun m => map (fun t => lift (spin_tet mub e p pot m vols t)) tets) ms) (map (fun t => lift (spin_tri (mub / e) p surfs t)) tris)
    (spin_dirichlet (Fin (mub / e) : num XA) n surfs tris) st.
End statements.
Lemma call_els : forall passes n p tets tris vols surfs mub e pot m st,
  call passes n p tets tris vols surfs mub e pot m st =
  spin_compute passes n (map lift (els p tets vols mub e pot m)) (map lift (bnd p tris surfs mub e)) (spin_dirichlet (Fin (mub / e) : num XA) n surfs tris) st.
Proof. intros. unfold call, els, bnd. rewrite !map_map. reflexivity. Qed.

(** When the solver answers that it has converged, what it stores solves the diffusion problem to the tolerance. *)
Theorem C88_accumulation : forall passes n p edges tets tris vols surfs mub e pot m (it : iteration XA) tol st,
  spin_problem n p edges tets tris vols surfs e -> (0 < n)%nat -> resmax it = (Fin tol : num XA) -> 0 <= tol ->
  call passes n p tets tris vols surfs mub e pot m (spin_fresh it n edges) = Some (true, st) ->
  solves_within n p tets tris vols surfs mub e pot tol m (ss_s st).
Proof.
  intros passes n p edges tets tris vols surfs mub e pot m it tol st HP Hn Ht Htol Hrun. rewrite call_els in Hrun.
  destruct (spin_step n p edges tets tris vols surfs mub e pot HP passes [] m (spin_fresh it n edges) tol true st Hn Htol
    (fresh_past n p edges tets tris vols surfs mub e pot HP it) Ht Hrun) as (_ & _ & H & _).
  specialize (H eq_refl). cbn [app] in H. replace (mean [m]) with m in H; auto.
  apply functional_extensionality. intros i. unfold mean. cbn [length map lsum INR]. apply vec_eq; cbn [vscale vx vy vz]; field.
Qed.

(** When it does not, zero is stored everywhere. *)
Theorem C88_failure : forall passes n p edges tets tris vols surfs mub e pot m (it : iteration XA) tol st,
  spin_problem n p edges tets tris vols surfs e -> (0 < n)%nat -> resmax it = (Fin tol : num XA) -> 0 <= tol ->
  call passes n p tets tris vols surfs mub e pot m (spin_fresh it n edges) = Some (false, st) ->
  ss_s st = stored n (fun _ => vzero).
Proof.
  intros passes n p edges tets tris vols surfs mub e pot m it tol st HP Hn Ht Htol Hrun. rewrite call_els in Hrun.
  destruct (spin_step n p edges tets tris vols surfs mub e pot HP passes [] m (spin_fresh it n edges) tol false st Hn Htol
    (fresh_past n p edges tets tris vols surfs mub e pot HP it) Ht Hrun) as (_ & _ & _ & H).
  rewrite (H eq_refl). unfold stored.
  assert (G : forall k a, repeat (Fin 0 : num XA, Fin 0 : num XA, Fin 0 : num XA) k = map (fun _ => (Fin 0 : num XA, Fin 0 : num XA, Fin 0 : num XA)) (seq a k)).
  { induction k as [|k IH]; intros a; cbn [repeat seq map]; auto. rewrite <- IH. reflexivity. }
  apply G.
Qed.

(** For every magnetization there is exactly one exact solution, *)
Theorem C88_unique : forall n p edges tets tris vols surfs mub e pot m,
  spin_problem n p edges tets tris vols surfs e ->
  (exists s, spin_solution p tets tris vols surfs mub e pot m s) /\
  (forall s1 s2, spin_solution p tets tris vols surfs mub e pot m s1 -> spin_solution p tets tris vols surfs mub e pot m s2 ->
     forall i, (i < n)%nat -> s1 i = s2 i).
Proof. intros n p edges tets tris vols surfs mub e pot m HP. apply (spin_exact n p edges tets tris vols surfs mub e pot HP). Qed.

(** and a field with the imposed values is close to it when its balance is small: the distance is at most the imbalance
    divided by the slowest relaxation rate of the nodes. *)
Theorem C88_error : forall n p edges tets tris vols surfs mub e pot m s exact C lam,
  spin_problem n p edges tets tris vols surfs e ->
  spin_solution p tets tris vols surfs mub e pot m exact -> imposed_values tris surfs mub e s -> 0 <= C ->
  (forall w, null_there tris surfs mub e w -> Rabs (spin_balance p tets vols mub e pot m s w) <= C * vec_norm n w) ->
  0 < lam -> (forall i, (i < n)%nat -> lam <= relaxation p tets vols mub e i) ->
  vec_norm n (fun i => vsub (s i) (exact i)) <= C / lam.
Proof.
  intros n p edges tets tris vols surfs mub e pot m s exact C lam HP HE HS HC HB L1 L2.
  apply (Rmult_le_reg_l lam); auto. replace (lam * (C / lam)) with C by (field; lra).
  eapply (spin_error n p edges tets tris vols surfs mub e pot HP); eauto.
Qed.

(** ** The start of a run with spin accumulation (the constructor of spinAcc) *)
(** the potential [y] has the given values on the held nodes, and its imbalance elsewhere is within the tolerance of the one
    of the starting potential *)
Definition potential_within (n : nat) (p : nat -> vec) (tets : list tet) (tris : list tri) (vols : list (vol_prm XA)) (surfs : list (surf_prm XA))
    (tol : R) (y : nat -> R) : Prop :=
  (forall t i v, In t tris -> In i (tri_nodes t) -> SettingsModel.s_V (surf_of surfs t) = Fin v -> y i = v) /\
  exists start : nat -> R,
    (forall t i v, In t tris -> In i (tri_nodes t) -> SettingsModel.s_V (surf_of surfs t) = Fin v -> start i = v) /\
    (forall i, ~ held tris surfs i -> start i = 0) /\
    forall B, 0 <= B ->
      (forall w, vanishes tris surfs w -> Rabs (imbalance p tets tris vols surfs start w) <= B * nodal_norm n w) ->
      (forall w, vanishes tris surfs w -> Rabs (imbalance p tets tris vols surfs y w) <= tol * B * nodal_norm n w).

(** When the run starts, it has a potential that solves the electrostatic problem, and a spin accumulation that solves the
    diffusion problem for that potential and the magnetization of the moment. *)
Theorem C88_start : forall passes n p edges tets tris vols surfs mub e m (it_e it_s : iteration XA) tol_e tol_s X st,
  conductor n p edges tets tris vols surfs -> spin_problem n p edges tets tris vols surfs e -> (0 < n)%nat ->
  resmax it_e = (Fin tol_e : num XA) -> 0 <= tol_e -> resmax it_s = (Fin tol_s : num XA) -> 0 <= tol_s ->
  spin_start passes it_e it_s mub e p m n edges tets tris vols surfs = Some (Some (X, st)) ->
  exists y : list R, X = vF y /\ length y = n /\
    potential_within n p tets tris vols surfs tol_e (fun i => nth i y 0) /\
    solves_within n p tets tris vols surfs mub e (fun i => nth i y 0) tol_s m (ss_s st).
Proof.
  intros passes n p edges tets tris vols surfs mub e m it_e it_s tol_e tol_s X st HC HP Hn He He0 Hs Hs0 H. unfold spin_start in H.
  destruct (spin_check vols surfs); [|discriminate]. destruct (elec_check surfs) eqn:Ck; [|discriminate].
  destruct (elec_solve _ _ _ _ _ _ _) as [[it' X']|] eqn:EE in H; [|discriminate]. destruct (status it') eqn:St; try discriminate.
  destruct (C87_potential passes it_e it' n p edges tets tris vols surfs tol_e X' HC Ck Hn He He0 EE St) as (y & start & -> & Ly & V1 & V2 & V3).
  match type of H with context [spin_compute ?a ?b ?c ?d ?f ?g] => destruct (spin_compute a b c d f g) as [[[|] st']|] eqn:ES end; try discriminate.
  injection H as <- <-. exists y. split; [reflexivity|]. split; [exact Ly|]. split.
  - split; [intros t i v A1 A2 A3; apply (V1 t i v A1 A2 A3)|]. exists (fun i => nth i start 0).
    split; [intros t i v A1 A2 A3; apply (V1 t i v A1 A2 A3)|]. split; [exact V2|]. intros B HB HH. apply (V3 B HB HH).
  - apply (C88_accumulation passes n p edges tets tris vols surfs mub e _ m it_s tol_s st' HP Hn Hs Hs0). rewrite <- ES. unfold call.
    do 2 f_equal. apply functional_extensionality. intros t. do 3 f_equal. apply functional_extensionality. intros i.
    rewrite xn0. unfold vF. rewrite (map_nth (fun x => Fin x : num XA) y 0 i). reflexivity.
Qed.

(** It does not start when one of the checks of the settings fails, *)
Theorem C88_not_started : forall passes n p edges tets tris vols surfs mub e m (it_e it_s : iteration XA),
  spin_check vols surfs = false \/ elec_check surfs = false ->
  spin_start passes it_e it_s mub e p m n edges tets tris vols surfs = Some None.
Proof. intros. unfold spin_start. destruct H as [->| ->]; [reflexivity|]. destruct (spin_check vols surfs); reflexivity. Qed.

(** ** C71 *)
Lemma calls_step : forall passes n p edges tets tris vols surfs mub e pot tol, spin_problem n p edges tets tris vols surfs e -> (0 < n)%nat -> 0 <= tol ->
  forall ms past st b st', ms <> [] -> spin_past n p edges tets tris vols surfs mub e pot past st -> resmax (ss_it st) = (Fin tol : num XA) ->
  calls passes n p tets tris vols surfs mub e pot ms st = Some (b, st') ->
  spin_past n p edges tets tris vols surfs mub e pot (past ++ ms) st' /\
  (b = true -> solves_within n p tets tris vols surfs mub e pot tol (mean (past ++ ms)) (ss_s st')).
Proof.
  intros passes n p edges tets tris vols surfs mub e pot tol HP Hn Htol. induction ms as [|m ms IH]; intros past st b st' Hne HPa Ht Hrun; [congruence|].
  assert (EC : calls passes n p tets tris vols surfs mub e pot (m :: ms) st =
    match ms with [] => call passes n p tets tris vols surfs mub e pot m st
    | _ => match call passes n p tets tris vols surfs mub e pot m st with Some (_, st1) => calls passes n p tets tris vols surfs mub e pot ms st1 | None => None end end).
  { destruct ms; reflexivity. }
  rewrite EC in Hrun. clear EC.
  assert (One : forall b1 st1, call passes n p tets tris vols surfs mub e pot m st = Some (b1, st1) ->
    spin_past n p edges tets tris vols surfs mub e pot (past ++ [m]) st1 /\ resmax (ss_it st1) = (Fin tol : num XA) /\
    (b1 = true -> solves_within n p tets tris vols surfs mub e pot tol (mean (past ++ [m])) (ss_s st1))).
  { intros b1 st1 H1. rewrite call_els in H1.
    destruct (spin_step n p edges tets tris vols surfs mub e pot HP passes past m st tol b1 st1 Hn Htol HPa Ht H1) as (Q1 & Q2 & Q3 & _). auto. }
  destruct ms as [|m2 ms].
  - destruct (One _ _ Hrun) as (Q1 & _ & Q3). auto.
  - destruct (call passes n p tets tris vols surfs mub e pot m st) as [[b1 st1]|] eqn:E1; [|discriminate].
    destruct (One _ _ eq_refl) as (Q1 & Q2 & _).
    replace (past ++ m :: m2 :: ms) with ((past ++ [m]) ++ m2 :: ms) by (rewrite <- app_assoc; reflexivity).
    apply (IH _ st1); auto. discriminate.
Qed.

(** Whatever the calls before, the answer is that of the mean of all the magnetizations since the construction of the object,
    not that of the last one. *)
Theorem C71_mean_of_the_calls : forall passes n p edges tets tris vols surfs mub e pot ms (it : iteration XA) tol st,
  spin_problem n p edges tets tris vols surfs e -> (0 < n)%nat -> resmax it = (Fin tol : num XA) -> 0 <= tol -> ms <> [] ->
  calls passes n p tets tris vols surfs mub e pot ms (spin_fresh it n edges) = Some (true, st) ->
  solves_within n p tets tris vols surfs mub e pot tol (mean ms) (ss_s st).
Proof.
  intros passes n p edges tets tris vols surfs mub e pot ms it tol st HP Hn Ht Htol Hne Hrun.
  destruct (calls_step passes n p edges tets tris vols surfs mub e pot tol HP Hn Htol ms [] (spin_fresh it n edges) true st Hne
    (fresh_past n p edges tets tris vols surfs mub e pot HP it) Ht Hrun) as [_ H]. apply H. reflexivity.
Qed.

(** Any number of calls with one magnetization: the answer solves the problem of this magnetization. Missing: the linear
    system is not the same one, it is multiplied by the number of calls. *)
Theorem C71_same_magnetization_partial : forall passes n p edges tets tris vols surfs mub e pot m k (it : iteration XA) tol st,
  spin_problem n p edges tets tris vols surfs e -> (0 < n)%nat -> resmax it = (Fin tol : num XA) -> 0 <= tol ->
  calls passes n p tets tris vols surfs mub e pot (repeat m (S k)) (spin_fresh it n edges) = Some (true, st) ->
  solves_within n p tets tris vols surfs mub e pot tol m (ss_s st).
Proof.
  intros passes n p edges tets tris vols surfs mub e pot m k it tol st HP Hn Ht Htol Hrun.
  assert (Hm : mean (repeat m (S k)) = m).
  { apply functional_extensionality. intros i. unfold mean. rewrite repeat_length.
    assert (H : forall (f : (nat -> vec) -> R), lsum (map f (repeat m (S k))) = INR (S k) * f m).
    { intros f. generalize (S k). induction n0 as [|j IH]; [cbn; ring|]. rewrite S_INR. cbn [repeat map lsum]. rewrite IH. ring. }
    rewrite !(H (fun m => _)). assert (INR (S k) <> 0) by (apply not_0_INR; discriminate). apply vec_eq; cbn [vscale vx vy vz]; field; assumption. }
  rewrite <- Hm. eapply C71_mean_of_the_calls; eauto. discriminate.
Qed.

(** the system of the second call is twice that of the first one *)
Theorem C71_system_grows : forall passes n p edges tets tris vols surfs mub e pot m (it : iteration XA) b1 st1 b2 st2,
  spin_problem n p edges tets tris vols surfs e ->
  (exists tol, 0 <= tol /\ resmax it = (Fin tol : num XA)) -> (0 < n)%nat ->
  call passes n p tets tris vols surfs mub e pot m (spin_fresh it n edges) = Some (b1, st1) ->
  call passes n p tets tris vols surfs mub e pot m st1 = Some (b2, st2) ->
  (forall r c, (r < 3 * n)%nat -> exists a, mget (ss_K st1) r c = Some (Fin a : num XA) /\ mget (ss_K st2) r c = Some (Fin (2 * a) : num XA) /\ (r = c -> 0 < a)) /\
  (forall r, (r < 3 * n)%nat -> exists a, nth r (ss_L st1) n0 = (Fin a : num XA) /\ nth r (ss_L st2) n0 = (Fin (2 * a) : num XA)).
Proof.
  intros passes n p edges tets tris vols surfs mub e pot m it b1 st1 b2 st2 HP (tol & Htol & Ht) Hn H1 H2. rewrite call_els in H1, H2.
  destruct (spin_step n p edges tets tris vols surfs mub e pot HP passes [] m (spin_fresh it n edges) tol b1 st1 Hn Htol
    (fresh_past n p edges tets tris vols surfs mub e pot HP it) Ht H1) as (P1 & T1 & _).
  destruct (spin_step n p edges tets tris vols surfs mub e pot HP passes _ m st1 tol b2 st2 Hn Htol P1 T1 H2) as (P2 & _).
  cbn [app] in P1, P2. destruct P1 as [_ K1 (L1 & E1 & N1 & V1)]. destruct P2 as [_ K2 (L2 & E2 & N2 & V2)].
  split.
  - intros r c Hr. exists (total 3 (els p tets vols mub e pot m) r c). rewrite K1, K2 by exact Hr. cbn [map lsum].
    split; [|split].
    + f_equal. f_equal. ring.
    + replace (total 3 (els p tets vols mub e pot m) r c + (total 3 (els p tets vols mub e pot m) r c + 0)) with (2 * total 3 (els p tets vols mub e pot m) r c) by ring. reflexivity.
    + intros <-. apply (spin_diagonal n p edges tets tris vols surfs mub e pot HP m r Hr).
  - intros r Hr. exists (nth r L1 0). rewrite E1, E2, xn0.
    assert (NF : forall y j, nth j (vF y) (Fin 0 : num XA) = Fin (nth j y 0)) by (intros y j; unfold vF; apply (map_nth (fun x => Fin x : num XA) y 0 j)).
    rewrite !NF, V1, V2 by exact Hr. split; auto. cbn [map lsum length INR].
    match goal with |- Fin ?x = Fin ?y => replace x with y by ring end. reflexivity.
Qed.

(** ** two tetrahedra: nodes 0 to 3 carry imposed values, node 4 is free *)
Definition two_pos (i : nat) : vec := match i with O => V 0 0 0 | S O => V 1 0 0 | S (S O) => V 0 1 0 | S (S (S O)) => V 0 0 1 | _ => V 1 1 1 end.
Definition two_tets : list tet := [mkTet 0 1 2 3 0; mkTet 1 2 3 4 0].
Definition two_tris : list tri := [mkTri 0 2 1 2; mkTri 0 1 3 1].
Definition two_edges : list edge := [(0, 1); (0, 2); (0, 3); (1, 2); (1, 3); (1, 4); (2, 3); (2, 4); (3, 4)]%nat.
Definition null3 : num XA * num XA * num XA := (Fin 0 : num XA, Fin 0 : num XA, Fin 0 : num XA).
(** a current density with the polarization [u] on one surface, a spin vector on the other *)
Definition two_surfs (u s : num XA * num XA * num XA) : list (surf_prm XA) :=
  [SettingsModel.mkTri (txt "__default__") false (Fin 0 : num XA) nan3 (NaN : num XA) (NaN : num XA) nan3 nan3;
   SettingsModel.mkTri (txt "in") false (Fin 0 : num XA) nan3 (NaN : num XA) (Fin 1 : num XA) u nan3;
   SettingsModel.mkTri (txt "out") false (Fin 0 : num XA) nan3 (Fin 2 : num XA) (NaN : num XA) nan3 s].
(** a magnetic metal: Ms = 1, P = 1/2, N0 = 1, sigma = 6, l_sd = 2, l_sf = 3 *)
Definition two_vol : vol_prm XA :=
  SettingsModel.mkTetra (txt "metal") (Fin 0 : num XA) (Fin 0 : num XA) (Fin 1 : num XA) (Fin 0 : num XA) nan3 (Fin 0 : num XA) nan3 nan3 nan3
    (Fin (1 / 2) : num XA) (Fin 1 : num XA) (Fin 6 : num XA) (Fin 2 : num XA) (Fin 3 : num XA).

Lemma two_magnetic : is_magnetic two_vol = true.
Proof. unfold is_magnetic. cbn [SettingsModel.t_Ms two_vol]. rewrite xn0. cbn [nlt XA xlt]. apply Raux.Rlt_bool_true. exact Rlt_0_1. Qed.

Lemma two_problem : forall u s, finite3 u -> finite3 s -> spin_problem 5 two_pos two_edges two_tets two_tris [two_vol] (two_surfs u s) 1.
Proof.
  intros u s Hu Hs. constructor.
  - eexists. split.
    + apply (isort_ok edge_ltb).
      * intros a b H. apply not_true_is_false. rewrite edge_ltb_iff in *. unfold edge_lt in *. lia.
      * intros a b c H K. apply not_true_is_false. apply not_true_iff_false in H, K. rewrite edge_ltb_iff in *. unfold edge_lt in *. lia.
    + reflexivity.
  - intros t [<-|[<-|[]]]; unfold tet_nodes; cbn [t0 t1 t2 t3]; repeat constructor; cbn [In]; intuition discriminate.
  - intros t i [<-|[<-|[]]] Hi; cbn in Hi; lia.
  - intros t i [<-|[<-|[]]] Hi; cbn in Hi; lia.
  - intros t [<-|[<-|[]]]; rewrite detJ_mixed; unfold mixed_prod, edge1, edge2, edge3, corner, two_pos; vsimpl; cbn; lra.
  - intros i Hi. destruct (Nat.eq_dec i 4) as [->|]. { exists (mkTet 1 2 3 4 0). split; [right; left; reflexivity|]. cbn; tauto. }
    exists (mkTet 0 1 2 3 0). split; [left; reflexivity|]. cbn. lia.
  - intros H; lra.
  - intros t Ht. exists 6, 1, (1 / 2), 3, 2. assert (E : vol_of [two_vol] t = two_vol) by (destruct Ht as [<-|[<-|[]]]; reflexivity). rewrite E.
    repeat split; try reflexivity; try (intros; lra); try (intros H; lra); intros _ H; lra.
  - intros t [<-|[<-|[]]]; cbn.
    + right. right. split; auto.
    + right. left. split; [exists 1; reflexivity|]. split; [left; reflexivity|exact Hu].
Qed.

Lemma two_free : forall u s mub i, finite3 u -> finite3 s -> imposed_node two_tris (two_surfs u s) mub 1 i <-> (i < 4)%nat.
Proof.
  intros u s mub i Hu Hs. split.
  - intros (t & v & [<-|[<-|[]]] & Hi & _); cbn in Hi; lia.
  - intros Hi. destruct (Nat.eq_dec i 3) as [->|].
    + destruct u as [[x y] z]. exists (mkTri 0 1 3 1). eexists. split; [right; left; reflexivity|]. split; [cbn; tauto|]. left. split; [left; reflexivity|].
      exists 1. split; reflexivity.
    + exists (mkTri 0 2 1 2), s. split; [left; reflexivity|]. split; [cbn; lia|]. right. split; [exact Hs|]. split; reflexivity.
Qed.

(** The hypotheses of C88 with a tolerance of 1 and values that are not zero *)
Example C88_nonvacuous : forall m, exists st,
  call 2 5 two_pos two_tets two_tris [two_vol] (two_surfs (Fin 0, Fin 0, Fin 1) (Fin 1, Fin 0, Fin 0)) 1 1 (fun i => vx (two_pos i)) m
    (spin_fresh (new_iter (Fin 1 : num XA) false 4) 5 two_edges) = Some (true, st) /\
  solves_within 5 two_pos two_tets two_tris [two_vol] (two_surfs (Fin 0, Fin 0, Fin 1) (Fin 1, Fin 0, Fin 0)) 1 1 (fun i => vx (two_pos i)) 1 m (ss_s st).
Proof.
  intros m. set (surfs := two_surfs (Fin 0, Fin 0, Fin 1) (Fin 1, Fin 0, Fin 0)).
  assert (HP : spin_problem 5 two_pos two_edges two_tets two_tris [two_vol] surfs 1).
  { apply two_problem; repeat split; eexists; reflexivity. }
  set (it := new_iter (Fin 1 : num XA) false 4).
  destruct (spin_ready 5 two_pos two_edges two_tets two_tris [two_vol] surfs 1 1 (fun i => vx (two_pos i)) HP [] m (spin_fresh it 5 two_edges)
    (fresh_past 5 two_pos two_edges two_tets two_tris [two_vol] surfs 1 1 (fun i => vx (two_pos i)) HP it)) as (_ & K & L & xd & ld & ES & _ & SQ & SD & LL & _ & Lxd & _).
  assert (Hr : resmax it = (Fin 1 : num XA)) by reflexivity.
  destruct (C29_good_guess_untouched BicgDir 1 (reset it) K (3 * 5) _ (repeat 0 (3 * 5)) L xd ld 1 SQ ltac:(lia) (repeat_length 0 (3 * 5)) LL Lxd Hr) as (it' & E & St & _).
  { cbn [imposed origin guess with_values]. rewrite Rmult_1_l. apply Req_le. f_equal. unfold lplus.
    assert (G : forall (l : list R), map (fun q => fst q + snd q) (combine (repeat 0 (length l)) l) = l).
    { induction l as [|a l IH]; cbn [length repeat combine map fst snd]; auto. rewrite IH. f_equal. ring. }
    rewrite <- Lxd at 1. apply G. }
  rewrite vF_repeat in E. pose proof (ES 2%nat) as E2. cbn [spin_fresh ss_it] in E2. rewrite E, St in E2. rewrite <- call_els in E2.
  eexists. split; [exact E2|].
  eapply (C88_accumulation 2 5 two_pos two_edges two_tets two_tris [two_vol] surfs 1 1 _ m it 1); eauto; [lia|lra].
Qed.

(** A run that starts: the default region and the metal, one surface with a polarized current, one with a potential and a spin *)
Definition start_tets : list tet := [mkTet 0 1 2 3 1; mkTet 1 2 3 4 1].
Definition start_vols : list (vol_prm XA) :=
  [SettingsModel.mkTetra (txt "__default__") (Fin 0 : num XA) (Fin 0 : num XA) (Fin 0 : num XA) (Fin 0 : num XA) nan3 (Fin 0 : num XA) nan3 nan3 nan3
     (Fin 0 : num XA) (Fin 0 : num XA) (Fin 0 : num XA) (Fin 0 : num XA) (Fin 0 : num XA); two_vol].
Definition start_surfs : list (surf_prm XA) := two_surfs (Fin 0, Fin 0, Fin 1) (Fin 1, Fin 0, Fin 0).

Lemma start_conductor : conductor 5 two_pos two_edges start_tets two_tris start_vols start_surfs.
Proof.
  constructor.
  - eexists. split.
    + apply (isort_ok edge_ltb).
      * intros a b H. apply not_true_is_false. rewrite edge_ltb_iff in *. unfold edge_lt in *. lia.
      * intros a b c H K. apply not_true_is_false. apply not_true_iff_false in H, K. rewrite edge_ltb_iff in *. unfold edge_lt in *. lia.
    + reflexivity.
  - intros t [<-|[<-|[]]]; unfold tet_nodes; cbn [t0 t1 t2 t3]; repeat constructor; cbn [In]; intuition discriminate.
  - intros t i [<-|[<-|[]]] Hi; cbn in Hi; lia.
  - intros t i [<-|[<-|[]]] Hi; cbn in Hi; lia.
  - intros t [<-|[<-|[]]]; cbn; lia.
  - intros t [<-|[<-|[]]]; rewrite detJ_mixed; unfold mixed_prod, edge1, edge2, edge3, corner, two_pos; vsimpl; cbn; lra.
  - intros t [<-|[<-|[]]]; exists 6; split; try reflexivity; lra.
  - intros t [<-|[<-|[]]]; cbn; [right; exists 2; reflexivity|left; reflexivity].
  - intros i Hi. destruct (Nat.eq_dec i 4) as [->|]. { exists (mkTet 1 2 3 4 1). split; [right; left; reflexivity|]. cbn; tauto. }
    exists (mkTet 0 1 2 3 1). split; [left; reflexivity|]. cbn. lia.
Qed.
Lemma start_problem : spin_problem 5 two_pos two_edges start_tets two_tris start_vols start_surfs 1.
Proof.
  assert (HC := start_conductor). constructor; try apply HC.
  - intros H; lra.
  - intros t Ht. exists 6, 1, (1 / 2), 3, 2. assert (E : vol_of start_vols t = two_vol) by (destruct Ht as [<-|[<-|[]]]; reflexivity). rewrite E.
    repeat split; try reflexivity; try (intros; lra); try (intros H; lra); intros _ H; lra.
  - intros t [<-|[<-|[]]]; cbn.
    + right. right. split; [reflexivity|repeat split; eexists; reflexivity].
    + right. left. split; [exists 1; reflexivity|]. split; [left; reflexivity|repeat split; eexists; reflexivity].
Qed.

Lemma start_runs : forall passes n p edges tets tris vols surfs mub e m (it_e it_s it' : iteration XA) X st,
  spin_check vols surfs = true -> elec_check surfs = true ->
  elec_solve passes it_e (new_matrix (build_shape 1 n edges (fun _ => true))) n
    (map (fun t => lift (elec_tet p vols t)) tets) (map (fun t => lift (elec_tri p surfs t)) tris) (elec_dirichlet n surfs tris) = Some (it', X) ->
  status it' = CONVERGED ->
  call passes n p tets tris vols surfs mub e (fun i => real (nth i X n0)) m (spin_fresh it_s n edges) = Some (true, st) ->
  spin_start passes it_e it_s mub e p m n edges tets tris vols surfs = Some (Some (X, st)).
Proof. intros passes n p edges tets tris vols surfs mub e m it_e it_s it' X st C1 C2 E S H. unfold spin_start. rewrite C1, C2, E, S. unfold call in H. rewrite H. reflexivity. Qed.
Lemma start_call : forall pot m, exists st,
  call 6 5 two_pos start_tets two_tris start_vols start_surfs 1 1 pot m (spin_fresh (new_iter (Fin 1 : num XA) false 4) 5 two_edges) = Some (true, st).
Proof.
  intros pot m. set (it := new_iter (Fin 1 : num XA) false 4).
  destruct (spin_ready 5 two_pos two_edges start_tets two_tris start_vols start_surfs 1 1 pot start_problem [] m (spin_fresh it 5 two_edges)
    (fresh_past 5 two_pos two_edges start_tets two_tris start_vols start_surfs 1 1 pot start_problem it)) as (_ & K & L & xd & ld & ES & _ & SQ & SD & LL & _ & Lxd & _).
  assert (Hr : resmax it = (Fin 1 : num XA)) by reflexivity.
  destruct (C29_good_guess_untouched BicgDir 5 (reset it) K (3 * 5) _ (repeat 0 (3 * 5)) L xd ld 1 SQ ltac:(lia) (repeat_length 0 (3 * 5)) LL Lxd Hr) as (it2 & E2 & St & _).
  { cbn [imposed origin guess with_values]. rewrite Rmult_1_l. apply Req_le. f_equal. unfold lplus.
    assert (G : forall (l : list R), map (fun q => fst q + snd q) (combine (repeat 0 (length l)) l) = l).
    { induction l as [|a l IH]; cbn [length repeat combine map fst snd]; auto. rewrite IH. f_equal. ring. }
    rewrite <- Lxd at 1. apply G. }
  rewrite vF_repeat in E2. pose proof (ES 6%nat) as E3. cbn [spin_fresh ss_it] in E3. rewrite E2, St in E3. rewrite <- call_els in E3.
  eexists. exact E3.
Qed.

Example C88_start_nonvacuous : forall m, exists X st,
  spin_start 6 (new_iter (Fin (1 / 1000) : num XA) false 5) (new_iter (Fin 1 : num XA) false 4) 1 1 two_pos m 5 two_edges start_tets two_tris start_vols start_surfs
  = Some (Some (X, st)).
Proof.
  intros m.
  assert (C1 : spin_check start_vols start_surfs = true).
  { apply C68_spin_partial.
    - exists []. eexists. eexists. split; [reflexivity|]. split; [reflexivity|]. intros y [<-|[]]. discriminate.
    - split; [|split].
      + eexists [_]. eexists. eexists. split; [reflexivity|]. split; [split; [discriminate|exists 1; reflexivity]|].
        intros y [<-|[<-|[]]] [_ [r H2]]; discriminate H2.
      + eexists [_; _]. eexists. eexists. split; [reflexivity|]. split; [split; [discriminate|repeat split; eexists; reflexivity]|].
        intros y [<-|[<-|[]]] [_ [[r H2] _]]; discriminate H2.
      + intros q [<-|[<-|[]]] Hq; [exfalso; apply Hq; reflexivity|]. split; eexists; (split; [reflexivity|lra]). }
  assert (C2 : elec_check start_surfs = true).
  { apply C68_electrostatic. split.
    - eexists [_]. eexists. eexists. split; [reflexivity|]. split; [exists 1; reflexivity|]. intros y [<-|[<-|[]]] [r H2]; discriminate H2.
    - eexists [_; _]. eexists. eexists. split; [reflexivity|]. split; [exists 2; reflexivity|]. intros y [<-|[<-|[]]] [r H2]; discriminate H2. }
  destruct (C87_solved 6 (new_iter (Fin (1 / 1000) : num XA) false 5) 5 two_pos two_edges start_tets two_tris start_vols start_surfs (1 / 1000)
    start_conductor C2) as (it' & X & E & S).
  - assert (H1 : forall i, (i < 5)%nat -> clos_refl_trans nat (together start_tets) 1%nat i /\ clos_refl_trans nat (together start_tets) i 1%nat).
    { intros i Hi. split; apply rt_step.
      - destruct (Nat.eq_dec i 4) as [->|]; [exists (mkTet 1 2 3 4 1); split; [right; left; reflexivity|cbn; lia]|].
        exists (mkTet 0 1 2 3 1). split; [left; reflexivity|cbn; lia].
      - destruct (Nat.eq_dec i 4) as [->|]; [exists (mkTet 1 2 3 4 1); split; [right; left; reflexivity|cbn; lia]|].
        exists (mkTet 0 1 2 3 1). split; [left; reflexivity|cbn; lia]. }
    intros i j Hi Hj. eapply rt_trans; [apply (H1 i Hi)|apply (H1 j Hj)].
  - exists 0%nat, (mkTri 0 2 1 2), 2. split; [left; reflexivity|]. split; [left; reflexivity|reflexivity].
  - reflexivity. - lra. - cbn. lia. - lia.
  - destruct (start_call (fun i => real (nth i X n0)) m) as [st H]. exists X, st. eapply start_runs; eassumption.
Qed.

Lemma gradV_same : forall q (f g : nat -> R), (forall i, (i < 4)%nat -> f i = g i) -> calc_gradV q f = calc_gradV q g.
Proof. intros q f g H. unfold calc_gradV, vsumn. cbn [sumn]. rewrite (H 0%nat), (H 1%nat), (H 2%nat), (H 3%nat) by lia. reflexivity. Qed.

(** a quantity that contracts relatively to every bound is null *)
Lemma contracted : forall (X : Type) (f N : X -> R) (P : X -> Prop) tol, 0 <= tol < 1 ->
  (exists B, 0 <= B /\ forall w, P w -> Rabs (f w) <= B * N w) ->
  (forall B, 0 <= B -> (forall w, P w -> Rabs (f w) <= B * N w) -> forall w, P w -> Rabs (f w) <= tol * B * N w) ->
  forall w, P w -> f w = 0.
Proof.
  intros X f N P tol Ht (B & HB & H0) H w Hw.
  assert (K : forall k, 0 <= tol ^ k * B /\ forall w, P w -> Rabs (f w) <= tol ^ k * B * N w).
  { induction k as [|k [IH1 IH2]]. { cbn [pow]. rewrite Rmult_1_l. auto. }
    split. { cbn [pow]. rewrite Rmult_assoc. apply Rmult_le_pos; lra. }
    intros w' Hw'. cbn [pow]. rewrite (Rmult_assoc tol). apply H; auto. }
  destruct (Req_dec (f w) 0) as [|Hne]; auto. exfalso.
  assert (Ha : 0 < Rabs (f w)) by (apply Rabs_pos_lt; exact Hne).
  destruct (Rle_or_lt (B * N w) 0) as [Hn|Hp]. { pose proof (H0 w Hw). lra. }
  destruct (pow_lt_1_zero tol ltac:(rewrite Rabs_pos_eq; lra) (Rabs (f w) / (B * N w))) as [k Hk].
  { apply Rdiv_lt_0_compat; assumption. }
  specialize (Hk k (le_n k)). destruct (K k) as [_ Hw2]. specialize (Hw2 w Hw). rewrite Rabs_pos_eq in Hk by (apply pow_le; lra).
  apply (Rmult_lt_compat_r (B * N w)) in Hk; auto. unfold Rdiv in Hk. rewrite Rmult_assoc, Rinv_l, Rmult_1_r in Hk by lra. lra.
Qed.

Lemma calls_two : forall passes n p tets tris vols surfs mub e pot m1 m2 st,
  calls passes n p tets tris vols surfs mub e pot [m1; m2] st =
  match call passes n p tets tris vols surfs mub e pot m1 st with
  | Some (_, st') => call passes n p tets tris vols surfs mub e pot m2 st'
  | None => None
  end.
Proof. reflexivity. Qed.

Lemma loads_null : forall p tets vols mub e pot r, loads 3 (els p tets vols mub e pot (fun _ => vzero)) r = 0.
Proof.
  intros p tets vols mub e pot r. unfold loads, els. rewrite map_map. apply lsum_zero. intros t _. unfold loading.
  apply sumn_zero. intros ie _. destruct (e_nod (spin_tet mub e p pot (fun _ => vzero) vols t) ie =? r / 3)%nat; auto.
  unfold spin_tet. cbn [e_Le]. rewrite spin_load. unfold corner. destruct ((r mod 3 * _ + ie) / 4)%nat as [|[|k]]; cbn [comp vzero vx vy vz]; ring.
Qed.

(** The answer depends on the calls made before: after a call with the opposite magnetization, the solver answers that it has
    converged and stores zero, which is not the spin accumulation of the magnetization it is given, whatever the tolerance. *)
Theorem C71_history_refuted : forall tol, 0 <= tol < 1 ->
  exists passes n p edges tets tris vols surfs mub e pot m1 m2 st,
  spin_problem n p edges tets tris vols surfs e /\ (0 < n)%nat /\
  calls passes n p tets tris vols surfs mub e pot [m1; m2] (spin_fresh (new_iter (Fin tol : num XA) false 4) n edges) = Some (true, st) /\
  ~ solves_within n p tets tris vols surfs mub e pot tol m2 (ss_s st).
Proof.
  intros tol Ht.
  set (surfs := two_surfs null3 null3). set (m := fun _ : nat => V 0 0 1). set (m' := fun _ : nat => V 0 0 (-1)). set (pot := fun i => vx (two_pos i)).
  assert (F3 : finite3 null3) by (repeat split; eexists; reflexivity).
  pose proof (two_problem null3 null3 F3 F3) as HP. fold surfs in HP.
  set (it := new_iter (Fin tol : num XA) false 4).
  pose proof (fresh_past 5 two_pos two_edges two_tets two_tris [two_vol] surfs 1 1 pot HP it) as P0.
  destruct (spin_ends 5 two_pos two_edges two_tets two_tris [two_vol] surfs 1 1 pot HP [] m' _ P0) as (b1 & st1 & R1 & M1 & E1).
  cbn [spin_fresh ss_it] in R1, M1, E1. change (maxiter it) with 4%Z in M1, E1. change (resmax it) with (Fin tol : num XA) in R1.
  specialize (E1 6%nat ltac:(vm_compute; lia)).
  destruct (spin_step 5 two_pos two_edges two_tets two_tris [two_vol] surfs 1 1 pot HP 6 [] m' _ tol b1 st1 ltac:(lia) (proj1 Ht) P0 eq_refl E1) as (P1 & _).
  cbn [app] in P1.
  destruct (spin_ready 5 two_pos two_edges two_tets two_tris [two_vol] surfs 1 1 pot HP [m'] m st1 P1) as (_ & K & L & xd & ld & ES & _ & SQ & SD & LL & HL & Lxd & Hld & Hiv & Hz).
  cbn [app] in *.
  assert (Hm : mean [m'; m] = fun _ => vzero).
  { apply functional_extensionality. intros i. unfold mean, m, m', vzero. cbn [length map lsum INR vx vy vz]. apply vec_eq; cbn [vscale vx vy vz]; field. }
  rewrite Hm in *.
  assert (Z0 : imposed_values two_tris surfs 1 1 (fun _ => vzero)).
  { intros l1 t l2 i v Et Hi Hv _.
    assert (It : In t two_tris) by (rewrite Et; apply in_app_iff; right; left; reflexivity).
    destruct It as [<-|[<-|[]]].
    - destruct Hv as [[[Q|[Q|Q]] _]|[_ [_ ->]]]; [discriminate|discriminate|discriminate|]. reflexivity.
    - destruct Hv as [[_ (j & Ej & Hv)]|[[[? Q] _] _]]; [|discriminate]. cbn in Hv. subst v. unfold vzero. cbn [vx vy vz].
      rewrite Rmult_0_r. reflexivity. }
  assert (Xz : forall i, unflat (fun r => nth r xd 0) i = vzero).
  { intros i. destruct (imposed_dec two_tris surfs 1 1 i) as [D|D]; [|apply Hz; exact D].
    apply (imposed_agree 5 two_pos two_edges two_tets two_tris [two_vol] surfs 1 1 pot HP _ (fun _ => vzero) i Hiv Z0 D). }
  assert (Xr : forall r, nth r xd 0 = 0).
  { intros r. rewrite <- (flat_unflat (fun r => nth r xd 0) r). unfold flat. rewrite Xz. destruct (r mod 3) as [|[|d]]; reflexivity. }
  assert (LP : lplus (repeat 0 (3 * 5)) xd = xd).
  { unfold lplus. assert (G : forall (l : list R), map (fun q => fst q + snd q) (combine (repeat 0 (length l)) l) = l).
    { induction l as [|a l IH]; cbn [length repeat combine map fst snd]; auto. rewrite IH. f_equal. ring. }
    rewrite <- Lxd. apply G. }
  destruct (C29_good_guess_untouched BicgDir 5 (reset (ss_it st1)) K (3 * 5) _ (repeat 0 (3 * 5)) L xd ld tol SQ ltac:(lia) (repeat_length 0 (3 * 5)) LL Lxd R1) as (it' & E & St & _).
  { cbn [imposed origin guess with_values]. rewrite LP.
    match goal with |- ?R <= _ => replace R with 0 end. { rewrite Rmult_0_r. lra. }
    unfold residual. rewrite sumn_zero. { symmetry. apply sqrt_0. }
    intros r Hr. destruct (masked ld r) eqn:Mr; auto.
    rewrite (sumn_zero (3 * 5) (fun c => _ * nth c xd 0)) by (intros c _; rewrite Xr; ring).
    rewrite HL by exact Hr. rewrite loads_null.
    assert (Nr : ~ imposed_node two_tris surfs 1 1 (r / 3)). { rewrite <- Hld, <- masked_in, Mr. discriminate. }
    assert (Lb : loads 3 (bnd two_pos two_tris surfs 1 1) r = 0).
    { rewrite <- (sumn_delta (3 * 5) r (fun c => loads 3 (bnd two_pos two_tris surfs 1 1) c) Hr).
      etransitivity; [|apply (bnd_tested 5 two_pos two_edges two_tets two_tris [two_vol] surfs 1 1 HP (fun c => if (c =? r)%nat then 1 else 0))].
      - apply sumn_ext. intros c _. destruct (c =? r)%nat; ring.
      - intros c _ Hc. destruct (c =? r)%nat eqn:Ec; auto. apply Nat.eqb_eq in Ec. subst c. contradiction. }
    rewrite Lb. unfold Rsqr. ring. }
  cbn [guess with_values] in E. rewrite LP, vF_repeat in E.
  pose proof (ES 6%nat) as E2. rewrite E, St in E2.
  eexists 6%nat, 5%nat, two_pos, two_edges, two_tets, two_tris, [two_vol], surfs, 1, 1, pot, m', m, _.
  split; [exact HP|]. split; [lia|]. split.
  - rewrite calls_two, call_els. fold it. rewrite E1, call_els. exact E2.
  - cbn [ss_s]. intros (s & start & Hs & _ & Hst & Hst0 & HB).
    assert (S0 : forall i, (i < 5)%nat -> s i = vzero).
    { assert (NF : forall y j, nth j (vF y) (Fin 0 : num XA) = Fin (nth j y 0)) by (intros y j; unfold vF; apply (map_nth (fun x => Fin x : num XA) y 0 j)).
      intros i Hi. unfold triples, stored in Hs. rewrite xn0 in Hs.
      pose proof (f_equal (fun l => nth_error l i) Hs) as G. cbv beta in G.
      rewrite !nth_error_map in G. rewrite (nth_error_nth' (seq 0 5) 0%nat) in G by (rewrite seq_length; exact Hi).
      rewrite seq_nth in G by exact Hi. cbn [option_map Nat.add] in G. rewrite !NF, !Xr in G.
      apply vec_eq; cbn [vzero vx vy vz]; congruence. }
    assert (T0 : forall i, start i = vzero).
    { intros i. destruct (imposed_dec two_tris surfs 1 1 i) as [D|D]; [|apply Hst0; exact D].
      apply (imposed_agree 5 two_pos two_edges two_tets two_tris [two_vol] surfs 1 1 pot HP _ (fun _ => vzero) i Hst Z0 D). }
    assert (T1 : start = fun _ => vzero) by (apply functional_extensionality; exact T0). subst start.
    set (f := fun w => spin_balance two_pos two_tets [two_vol] 1 1 pot m (fun _ => vzero) w).
    assert (Sf : forall w, spin_balance two_pos two_tets [two_vol] 1 1 pot m s w = f w).
    { intros w. unfold f, spin_balance, two_tets. cbn [map lsum]. unfold spin_cell, nodal_integral, grad_on, tet_nodes. cbn [map lsum t0 t1 t2 t3 sumn].
      unfold corner, tet_nodes. cbn [t0 t1 t2 t3].
      assert (G : forall k q (l : list nat), length l = 4%nat -> (forall i, In i l -> (i < 5)%nat) ->
         calc_gradV q (fun i => comp k (s (nth i l 0%nat))) = calc_gradV q (fun _ => comp k vzero)).
      { intros k q l Hl Hlt. apply gradV_same. intros i Hi. rewrite S0; auto. apply Hlt. apply nth_In. lia. }
      rewrite !G by (try reflexivity; cbn; lia). rewrite !S0 by lia. reflexivity. }
    pose proof (contracted (nat -> vec) f (vec_norm 5) (null_there two_tris surfs 1 1) tol Ht
      (spin_bounded 5 two_pos two_edges two_tets two_tris [two_vol] surfs 1 1 pot HP m (fun _ => vzero))) as Ct.
    set (w := fun i : nat => if (i =? 4)%nat then V 0 0 1 else vzero).
    assert (Hw : null_there two_tris surfs 1 1 w).
    { intros i Hi. apply (two_free null3 null3 1 i F3 F3) in Hi. unfold w. replace (i =? 4)%nat with false; auto. symmetry. apply Nat.eqb_neq. lia. }
    assert (Fw : f w = 0).
    { apply Ct; auto. intros B HB0 HBw w' Hw'. rewrite <- Sf. apply HB; auto. }
    assert (Fv : f w = - (1 / 2)); [|lra].
    unfold f, spin_balance, two_tets. cbn [map lsum]. unfold spin_cell.
    assert (C0 : forall k t, grad_on two_pos (fun i => comp k vzero) t = vzero) by (intros; unfold grad_on; apply (gradV_const _ _ (comp k vzero)); intros; reflexivity).
    assert (D1 : detJ (corner two_pos (mkTet 1 2 3 4 0)) <> 0).
    { pose proof (sp_oriented _ _ _ _ _ _ _ _ HP (mkTet 1 2 3 4 0) (or_intror (or_introl eq_refl))). lra. }
    assert (D2 : detJ (corner two_pos (mkTet 1 2 3 4 0)) = 2).
    { rewrite detJ_mixed. unfold mixed_prod, edge1, edge2, edge3, corner, two_pos. vsimpl. cbn. ring. }
    assert (N0 : forall t g, nodal_integral two_pos t (fun i => md_flip (medium_of [two_vol] 1 1 t) * dot vzero (w i) + md_prec (medium_of [two_vol] 1 1 t) * dot (cross vzero (m i)) (w i)) = g * 0).
    { intros t g. rewrite Rmult_0_r. unfold nodal_integral. rewrite lsum_zero; [ring|]. intros i _. generalize (w i) (m i) (md_flip (medium_of [two_vol] 1 1 t)) (md_prec (medium_of [two_vol] 1 1 t)). intros [a1 a2 a3] [g1 g2 g3] c d. vsimpl. ring. }
    rewrite !(N0 _ 0). 
    assert (S3 : forall t, sumn 3 (fun k => dot (grad_on two_pos (fun _ => comp k vzero) t) (grad_on two_pos (fun i => comp k (w i)) t)) = 0).
    { intros t. apply sumn_zero. intros k _. rewrite C0. unfold dot, vzero. cbn [vx vy vz]. ring. }
    rewrite !S3.
    assert (G1 : grad_on two_pos (fun i => dot (m i) (w i)) (mkTet 0 1 2 3 0) = vzero).
    { unfold grad_on. apply (gradV_const _ _ 0). intros i Hi. unfold corner, tet_nodes, w, m. cbn [t0 t1 t2 t3].
      destruct i as [|[|[|[|i]]]]; [| | | |lia]; cbn [nth Nat.eqb]; vsimpl; ring. }
    assert (G2 : grad_on two_pos (fun i => dot (m i) (w i)) (mkTet 1 2 3 4 0) = V (1 / 2) (1 / 2) (1 / 2)).
    { unfold grad_on. rewrite <- (gradV_affine (corner two_pos (mkTet 1 2 3 4 0)) (- (1 / 2)) (V (1 / 2) (1 / 2) (1 / 2)) D1). apply gradV_same.
      intros i Hi. unfold corner, tet_nodes, w, m. cbn [t0 t1 t2 t3].
      destruct i as [|[|[|[|i]]]]; [| | | |lia]; cbn [nth Nat.eqb two_pos]; vsimpl; field. }
    assert (G3 : grad_on two_pos pot (mkTet 1 2 3 4 0) = V 1 0 0).
    { unfold grad_on. rewrite <- (gradV_affine (corner two_pos (mkTet 1 2 3 4 0)) 0 (V 1 0 0) D1). apply gradV_same.
      intros i Hi. unfold corner, pot. vsimpl. ring. }
    rewrite G1, G2, G3. generalize (grad_on two_pos pot (mkTet 0 1 2 3 0)). intros [g1 g2 g3]. unfold tet_vol. rewrite !vol_det, D2.
    generalize (detJ (corner two_pos (mkTet 0 1 2 3 0))). intros dt.
    unfold medium_of. change (vol_of [two_vol] (mkTet 1 2 3 4 0)) with two_vol. change (vol_of [two_vol] (mkTet 0 1 2 3 0)) with two_vol.
    rewrite two_magnetic. cbn [md_D md_source md_flip md_prec two_vol SettingsModel.t_sigma SettingsModel.t_N0 SettingsModel.t_P SettingsModel.t_lsd SettingsModel.t_lsf real].
    cbn [sumn]. vsimpl. field.
Qed.

(** non-vacuity of the theorems of C71: two calls of the previous example *)
Example C71_nonvacuous : exists b1 st1 b2 st2 m,
  let call := call 6 5 two_pos two_tets two_tris [two_vol] (two_surfs null3 null3) 1 1 (fun i => vx (two_pos i)) in
  call m (spin_fresh (new_iter (Fin (1 / 2) : num XA) false 4) 5 two_edges) = Some (b1, st1) /\ call m st1 = Some (b2, st2).
Proof.
  assert (F3 : finite3 null3) by (repeat split; eexists; reflexivity).
  pose proof (two_problem null3 null3 F3 F3) as HP. set (surfs := two_surfs null3 null3) in *. set (pot := fun i => vx (two_pos i)).
  set (it := new_iter (Fin (1 / 2) : num XA) false 4). set (m := fun _ : nat => V 0 0 1).
  pose proof (fresh_past 5 two_pos two_edges two_tets two_tris [two_vol] surfs 1 1 pot HP it) as P0.
  destruct (spin_ends 5 two_pos two_edges two_tets two_tris [two_vol] surfs 1 1 pot HP [] m _ P0) as (b1 & st1 & R1 & M1 & E1).
  cbn [spin_fresh ss_it] in R1, M1, E1. change (maxiter it) with 4%Z in M1, E1. change (resmax it) with (Fin (1 / 2) : num XA) in R1.
  specialize (E1 6%nat ltac:(vm_compute; lia)).
  destruct (spin_step 5 two_pos two_edges two_tets two_tris [two_vol] surfs 1 1 pot HP 6 [] m _ (1 / 2) b1 st1 ltac:(lia) ltac:(lra) P0 eq_refl E1) as (P1 & _).
  destruct (spin_ends 5 two_pos two_edges two_tets two_tris [two_vol] surfs 1 1 pot HP _ m _ P1) as (b2 & st2 & _ & _ & E2).
  exists b1, st1, b2, st2, m. cbv zeta. rewrite !call_els. split; [exact E1|]. apply E2. rewrite M1. vm_compute. lia.
Qed.

Print Assumptions C88_accumulation.
Print Assumptions C88_failure.
Print Assumptions C88_unique.
Print Assumptions C88_error.
Print Assumptions C88_start.
Print Assumptions C88_not_started.
Print Assumptions C71_mean_of_the_calls.
Print Assumptions C71_same_magnetization_partial.
Print Assumptions C71_system_grows.
Print Assumptions C71_history_refuted.
