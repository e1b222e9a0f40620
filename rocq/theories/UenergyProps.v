(** * The energies written for a uniformly magnetized sample (C111) *)
From Coq Require Import String List ZArith Arith Bool Lia Reals Lra Permutation.
From Flocq Require Import Core.
From Verif Require Import Arith ArithLaws Vec Sums LinAlg SparseModel SparseProof ConcModel ConcProof SparseProps
  IterModel IterProof Ieee IterMask IterExact IterProps StdModel MeshModel MeshProof MeshProps ElemModel ElemProof AvgModel ElemProps
  EnergyModel EnergyProps CtrlModel CtrlProof CtrlSpec CtrlFace CtrlMain CtrlProps ChargeProps
  AsmModel AsmProof AsmProps LlgProps WeakProps NodeModel NodeProps CgProof DissipProps PrecessProps ConvProps SecondProps RelaxProps.
Import ListNotations.
Local Open Scope R_scope.
Local Open Scope list_scope.

(** ** Specification *)
Section spec.
Variables (prms : list tprm) (dprm : tprm) (sprms : list sprm) (dsprm : sprm) (p : nat -> vec) (tets : list tet) (tris : list tri).
(** the material, the volume of the k-th tetrahedron; the surface parameters and the area of the k-th triangle *)
Definition material k := nth (t_reg (the_tet tets k)) prms dprm.
Definition volume k := calc_vol (corner p (the_tet tets k)).
Definition surface k := nth (r_reg (the_tri tris k)) sprms dsprm.
Definition area k := calc_surf (tri_corner p (the_tri tris k)).
(** the magnetic moment of the sample at saturation *)
Definition saturation_moment (magTet : list nat) : R := lsum (map (fun k => p_Ms (material k) * volume k) magTet).
(** density of anisotropy energy of a direction m: an easy axis, three easy axes *)
Definition easy_axis (K : R) (uk m : vec) : R := - K * (dot uk m * dot uk m).
Definition three_axes (K3 : R) (ex ey ez m : vec) : R :=
  let x := dot m ex in let y := dot m ey in let z := dot m ez in K3 * (x * x * (y * y) + y * y * (z * z) + z * z * (x * x)).
End spec.

(** ** Lemmas *)
Lemma tinterp_const : forall u (c : vec) j, (forall i, (i < 3)%nat -> u i = c) -> tinterpV u j = c.
Proof.
  intros u c j H. unfold tinterpV, vsumn. cbn [sumn]. rewrite !H by lia. unfold tsh. destruct c as [a b d]. vsimpl. f_equal; ring.
Qed.
Lemma tweight_sum : forall q c, sumn tNPI (fun j => tweight q j * c) = calc_surf q * c.
Proof. intros q c. unfold tweight. change tNPI with 4%nat. cbn [sumn]. unfold tpds. cbn [nth]. field. Qed.

Lemma corner_uniform : forall (u : nat -> vec) m t, (forall i, In i (tet_nodes t) -> u i = m) -> forall i, (i < 4)%nat -> corner u t i = m.
Proof. intros u m t H i Hi. unfold corner. apply H. apply nth_In. exact Hi. Qed.
Lemma mean4_const : forall u (m : vec), (forall i, (i < 4)%nat -> u i = m) -> mean4 u = m.
Proof. intros u m H. unfold mean4, vsumn. cbn [sumn]. rewrite !H by lia. destruct m as [a b c]. vsimpl. f_equal; field. Qed.

Section uniform.
Context {P : Type}.
Variables (names : list string) (prms : list tprm) (dprm : tprm) (sprms : list sprm) (dsprm : sprm) (dflt : P) (rest : list (string * P)).
Variables (tets : list tet) (tris0 : list tri) (sorted : list basic) (o : @control_out P) (p : nat -> vec) (n : nat) (suppress : list bool).
Notation MsL := (map p_Ms prms).
Notation tris := (c_tris o).
Notation magTet := (magTet_of MsL n tets).
Notation magTri := (magTri_of (magNode_of MsL n tets) suppress tris).

Lemma mag_in : forall k, In k magTet -> In (the_tet tets k) tets /\ (t_reg (the_tet tets k) < length prms)%nat /\ 0 < p_Ms (material prms dprm tets k).
Proof.
  intros k Hk. apply C53_magnetic_only in Hk. destruct Hk as [L Hm]. split; [apply nth_In; exact L|].
  destruct (Nat.lt_ge_cases (t_reg (the_tet tets k)) (length prms)) as [Hl|Hl].
  - split; [exact Hl|]. unfold material. rewrite (nth_indep _ 0 (p_Ms dprm)) in Hm by (rewrite map_length; exact Hl). rewrite map_nth in Hm. exact Hm.
  - rewrite nth_overflow in Hm by (rewrite map_length; exact Hl). lra.
Qed.

Lemma tri_mag : forall k i, In k magTri -> In i (tri_nodes (the_tri tris k)) -> exists k', In k' magTet /\ In i (tet_nodes (the_tet tets k')).
Proof.
  intros k i Hk Hi. apply (proj1 (magTri_spec _ _ _)) in Hk. destruct Hk as (f & E & Hm & _). unfold the_tri in Hi. rewrite (nth_error_nth _ _ _ E) in Hi.
  destruct (mark_spec MsL n tets) as (L & N & T & _).
  assert (B : nth i (magNode_of MsL n tets) false = true).
  { unfold mag_tri in Hm. apply andb_prop in Hm. destruct Hm as [Hm B3]. apply andb_prop in Hm. destruct Hm as [B1 B2].
    unfold tri_nodes in Hi. destruct Hi as [<-|[<-|[<-|[]]]]; assumption. }
  assert (Li : (i < n)%nat). { destruct (Nat.lt_ge_cases i n) as [A|A]; [exact A|]. rewrite nth_overflow in B by lia. discriminate. }
  apply (N i Li) in B. destruct B as (t & It & Mt & In_). apply In_nth_error in It. destruct It as (k' & Ek). exists k'. split.
  - apply T. exists t. auto.
  - unfold the_tet. rewrite (nth_error_nth _ _ _ Ek). exact In_.
Qed.

Hypothesis Hmesh : mesh_ok names MsL dflt rest tets tris0 sorted o p n suppress.
Variables (mu0 : R) (u : nat -> vec) (phi : nat -> R) (m H Hd : vec).
Hypothesis Hu : forall k i, In k magTet -> In i (tet_nodes (the_tet tets k)) -> u i = m.
Hypothesis Hphi : forall k, In k magTet -> interp_field (corner p (the_tet tets k)) (corner phi (the_tet tets k)) = Hd.
Notation mat := (material prms dprm tets).
Notation vol := (volume p tets).
Notation moment := (saturation_moment prms dprm p tets magTet).

Lemma nodes_of : forall k, In k magTet -> forall i, (i < 4)%nat -> corner u (the_tet tets k) i = m.
Proof. intros k Hk. apply corner_uniform. intros i. apply Hu. exact Hk. Qed.

Lemma uniform_exchange : lsum (map (t_ex prms dprm p u tets) magTet) = 0.
Proof.
  apply lsum_zero. intros k Hk. unfold t_ex, exchangeEnergy. rewrite !(deriv_const _ _ m) by (apply nodes_of; exact Hk).
  rewrite wdot_const. unfold sqn. replace (dot vzero vzero) with 0 by (unfold dot, vzero; cbn [vx vy vz]; ring). ring.
Qed.

Lemma uniform_aniso : lsum (map (t_an prms dprm p u tets) magTet) =
  lsum (map (fun k => vol k * (easy_axis (p_K (mat k)) (p_uk (mat k)) m + three_axes (p_K3 (mat k)) (p_ex (mat k)) (p_ey (mat k)) (p_ez (mat k)) m)) magTet).
Proof.
  apply lsum_map_ext. intros k Hk. unfold t_an, uniaxialEnergy, cubicEnergy. cbv zeta. change (prm_of prms dprm tets k) with (mat k).
  rewrite (wdot_ext _ _ (fun _ => dot (p_uk (mat k)) m * dot (p_uk (mat k)) m)).
  2: { intros j Hj. rewrite (ElemProof.interp_const _ m j Hj) by (apply nodes_of; exact Hk). reflexivity. }
  rewrite (wdot_ext _ (fun j => dot (interpV (corner u (the_tet tets k)) j) (p_ex (mat k)) * _ * _ + _ + _) (fun _ => (dot m (p_ex (mat k)) * dot m (p_ey (mat k))) * (dot m (p_ex (mat k)) * dot m (p_ey (mat k))) +
    (dot m (p_ey (mat k)) * dot m (p_ez (mat k))) * (dot m (p_ey (mat k)) * dot m (p_ez (mat k))) + (dot m (p_ez (mat k)) * dot m (p_ex (mat k))) * (dot m (p_ez (mat k)) * dot m (p_ex (mat k))))).
  2: { intros j Hj. rewrite (ElemProof.interp_const _ m j Hj) by (apply nodes_of; exact Hk). reflexivity. }
  rewrite !wdot_const. fold (vol k). unfold easy_axis, three_axes. ring.
Qed.

Lemma uniform_zeeman : lsum (map (t_ze_uniform mu0 prms dprm p u tets H) magTet) = - mu0 * moment * dot m H.
Proof.
  unfold saturation_moment. replace (- mu0 * lsum (map (fun k => p_Ms (mat k) * vol k) magTet) * dot m H) with
    (- mu0 * dot m H * lsum (map (fun k => p_Ms (mat k) * vol k) magTet)) by ring. rewrite <- lsum_map_scale.
  apply lsum_map_ext. intros k Hk. unfold t_ze_uniform, zeemanEnergy. change (prm_of prms dprm tets k) with (mat k).
  rewrite (wdot_ext _ _ (fun _ => dot m H)). 2: { intros j Hj. rewrite (ElemProof.interp_const _ m j Hj) by (apply nodes_of; exact Hk). reflexivity. }
  rewrite wdot_const. fold (vol k). ring.
Qed.

Lemma uniform_surface : lsum (map (s_an sprms dsprm p u tris) magTri) =
  lsum (map (fun k => area p tris k * easy_axis (s_Ks (surface sprms dsprm tris k)) (s_uk (surface sprms dsprm tris k)) m) magTri).
Proof.
  apply lsum_map_ext. intros k Hk. unfold s_an, tri_anisotropyEnergy. change (sprm_of sprms dsprm tris k) with (surface sprms dsprm tris k).
  rewrite (sumn_ext tNPI _ (fun j => tweight (tri_corner p (the_tri tris k)) j * (dot m (s_uk (surface sprms dsprm tris k)) * dot m (s_uk (surface sprms dsprm tris k))))).
  2: { intros j _. rewrite (tinterp_const _ m j); [reflexivity|]. intros i Hi. unfold tri_corner.
    assert (In_ : In (nth i (tri_nodes (the_tri tris k)) 0%nat) (tri_nodes (the_tri tris k))) by (apply nth_In; exact Hi).
    destruct (tri_mag k _ Hk In_) as (k' & Hk' & In'). exact (Hu k' _ Hk' In'). }
  rewrite tweight_sum. fold (area p tris k). unfold easy_axis. rewrite (dot_comm m). ring.
Qed.

Lemma uniform_demag : lsum (map (t_de mu0 prms dprm p u phi tets) magTet) + lsum (map (s_de mu0 p u phi tris (c_dMs o)) magTri) = - (1 / 2) * mu0 * moment * dot m Hd.
Proof.
  set (d0 := mkTprm 0 0 0 0 vzero 0 vzero vzero vzero).
  assert (HP : forall r, p_Ms (nth r prms d0) = nth r MsL 0) by (intros r; rewrite <- (map_nth p_Ms); reflexivity).
  pose proof (C78_demag_energy names MsL dflt rest tets tris0 sorted o p n suppress u phi mu0 (fun r => nth r prms d0) Hmesh HP) as C.
  assert (Em : forall k, In k magTet -> nth (t_reg (the_tet tets k)) prms d0 = mat k).
  { intros k Hk. unfold material. apply nth_indep. apply mag_in. exact Hk. }
  unfold nth_tets in C. rewrite !map_map in C. eapply eq_trans; [|eapply eq_trans; [exact C|]].
  - f_equal. apply lsum_map_ext. intros k Hk. change (nth k tets (mkTet 0 0 0 0 0)) with (the_tet tets k). rewrite (Em k Hk). reflexivity.
  - unfold saturation_moment. replace (- (1 / 2) * mu0 * lsum (map (fun k => p_Ms (mat k) * vol k) magTet) * dot m Hd) with
    (- (1 / 2) * mu0 * dot m Hd * lsum (map (fun k => p_Ms (mat k) * vol k) magTet)) by ring. rewrite <- lsum_map_scale. clear C.
    apply lsum_map_ext. intros k Hk. change (nth k tets (mkTet 0 0 0 0 0)) with (the_tet tets k).
    rewrite (mean4_const _ m (nodes_of k Hk)), (Hphi k Hk). rewrite <- HP, (Em k Hk). fold (vol k). ring.
Qed.
End uniform.

(** ** C111 *)
(** The four energies of a sample magnetized along m everywhere, in the applied field H and a demagnetizing field that is Hd everywhere, do not depend on the mesh
    but through the moment at saturation, the volumes and the areas. *)
Theorem C111_energies : forall {P : Type} names prms dprm sprms dsprm (dflt : P) rest tets tris0 sorted o p n suppress mu0 u phi m H Hd,
  mesh_ok names (map p_Ms prms) dflt rest tets tris0 sorted o p n suppress ->
  let magTet := magTet_of (map p_Ms prms) n tets in
  let magTri := magTri_of (magNode_of (map p_Ms prms) n tets) suppress (c_tris o) in
  let moment := saturation_moment prms dprm p tets magTet in
  let mat := material prms dprm tets in
  let srf := surface sprms dsprm (c_tris o) in
  (forall k i, In k magTet -> In i (tet_nodes (the_tet tets k)) -> u i = m) ->
  (forall k, In k magTet -> interp_field (corner p (the_tet tets k)) (corner phi (the_tet tets k)) = Hd) ->
  exists E, energy mu0 prms sprms dprm dsprm p u phi tets (c_tris o) (c_dMs o) magTet magTri (RtoR3 H) [] = Some E /\
    E_ex E = 0 /\
    E_aniso E = lsum (map (fun k => volume p tets k * (easy_axis (p_K (mat k)) (p_uk (mat k)) m + three_axes (p_K3 (mat k)) (p_ex (mat k)) (p_ey (mat k)) (p_ez (mat k)) m)) magTet) +
      lsum (map (fun k => area p (c_tris o) k * easy_axis (s_Ks (srf k)) (s_uk (srf k)) m) magTri) /\
    E_demag E = - (1 / 2) * mu0 * moment * dot m Hd /\
    E_zeeman E = Some (- mu0 * moment * dot m H).
Proof.
  intros P names prms dprm sprms dsprm dflt rest tets tris0 sorted o p n suppress mu0 u phi m H Hd Hmesh magTet magTri moment mat srf Hu Hphi.
  unfold energy. rewrite (tets_sum mu0 prms dprm p u phi tets (RtoR3 H) [] magTet E_zero); [|discriminate|discriminate]. rewrite tris_sum.
  cbn [E_ex E_aniso E_demag E_zeeman E_zero]. rewrite !Rplus_0_l. eexists. split; [reflexivity|]. cbn [E_ex E_aniso E_demag E_zeeman].
  split; [exact (uniform_exchange prms dprm tets p n u m Hu)|]. split; [|split].
  - unfold magTet. rewrite (uniform_aniso prms dprm tets p n u m Hu). f_equal. exact (uniform_surface prms sprms dsprm tets o p n suppress u m Hu).
  - exact (uniform_demag names prms dprm dflt rest tets tris0 sorted o p n suppress Hmesh mu0 u phi m Hd Hu Hphi).
  - f_equal. exact (uniform_zeeman prms dprm tets p n mu0 u m H Hu).
Qed.

(** the magnetic tetrahedrons with their materials, as the solver of the time step sees them *)
Definition magnetic_body (prms : list tprm) (dprm : tprm) (tets : list tet) (n : nat) : material_body :=
  map (fun k => (the_tet tets k, material prms dprm tets k)) (magTet_of (map p_Ms prms) n tets).

(** what the program writes as total energy of the magnetization u with the potential phi, in a uniform applied field H *)
Definition writes_total (mu0 : R) (prms : list tprm) (dprm : tprm) (sprms : list sprm) (dsprm : sprm) (p : nat -> vec) (tets : list tet) (tris : list tri)
    (dMs : list R) (n : nat) (suppress : list bool) (H : vec) (u : nat -> vec) (phi : nat -> R) (e : R) : Prop :=
  exists E, energy mu0 prms sprms dprm dsprm p u phi tets tris dMs (magTet_of (map p_Ms prms) n tets)
      (magTri_of (magNode_of (map p_Ms prms) n tets) suppress tris) (RtoR3 H) [] = Some E /\ total_result E (Some e).

(** With an easy axis and no surface anisotropy, the total is the energy of one moment. *)
Theorem C111_total : forall {P : Type} names prms dprm sprms dsprm (dflt : P) rest tets tris0 sorted o p n suppress mu0 alpha hk uk u phi m H D,
  mesh_ok names (map p_Ms prms) dflt rest tets tris0 sorted o p n suppress -> mu0 <> 0 ->
  same_anisotropy mu0 alpha hk uk (magnetic_body prms dprm tets n) ->
  (forall k, In k (magTri_of (magNode_of (map p_Ms prms) n tets) suppress (c_tris o)) -> s_Ks (surface sprms dsprm (c_tris o) k) = 0) ->
  (forall b i, In b (magnetic_body prms dprm tets n) -> In i (tet_nodes (fst b)) -> u i = m) ->
  (forall b, In b (magnetic_body prms dprm tets n) -> interp_field (corner p (fst b)) (corner phi (fst b)) = D m) ->
  forall e, writes_total mu0 prms dprm sprms dsprm p tets (c_tris o) (c_dMs o) n suppress H u phi e <->
    e = mu0 * saturation_moment prms dprm p tets (magTet_of (map p_Ms prms) n tets) * moment_energy H D hk uk m.
Proof.
  intros P names prms dprm sprms dsprm dflt rest tets tris0 sorted o p n suppress mu0 alpha hk uk u phi m H D Hmesh Hmu Ha Hs Hu Hphi e.
  assert (Ib : forall k, In k (magTet_of (map p_Ms prms) n tets) -> In (the_tet tets k, material prms dprm tets k) (magnetic_body prms dprm tets n)).
  { intros k Hk. unfold magnetic_body. exact (in_map (fun k => (the_tet tets k, material prms dprm tets k)) _ _ Hk). }
  destruct (C111_energies names prms dprm sprms dsprm dflt rest tets tris0 sorted o p n suppress mu0 u phi m H (D m) Hmesh) as (E & E0 & E1 & E2 & E3 & E4).
  { intros k i Hk Hi. exact (Hu _ i (Ib k Hk) Hi). }
  { intros k Hk. exact (Hphi _ (Ib k Hk)). }
  assert (A : E_aniso E = - mu0 * hk / 2 * (dot uk m * dot uk m) * saturation_moment prms dprm p tets (magTet_of (map p_Ms prms) n tets)).
  { rewrite E2. rewrite (lsum_zero _ (magTri_of _ _ _)).
    2: { intros k Hk. rewrite (Hs k Hk). unfold easy_axis. ring. }
    rewrite Rplus_0_r. unfold saturation_moment. rewrite <- lsum_map_scale. apply lsum_map_ext. intros k Hk.
    destruct (Ha _ (Ib k Hk)) as (_ & A1 & A2 & A3). cbn [snd] in A1, A2, A3. rewrite A2, A3.
    destruct (mag_in prms dprm tets n k Hk) as (_ & _ & MsP). assert (K : p_K (material prms dprm tets k) = hk * (mu0 * p_Ms (material prms dprm tets k)) / 2).
    { rewrite <- A1. field. split; [lra|exact Hmu]. }
    rewrite K. unfold easy_axis, three_axes. field. }
  unfold writes_total. rewrite E0. unfold total_result.
  transitivity (exists r, reduce_result Rplus 0 [E_ex E; E_aniso E; E_demag E; - mu0 * saturation_moment prms dprm p tets (magTet_of (map p_Ms prms) n tets) * dot m H] r /\ e = r).
  - split.
    + intros (E' & Eq & Ht). inversion Eq; subst E'. rewrite E4 in Ht. destruct Ht as (r & R1 & R2). inversion R2; subst r. eauto.
    + intros (r & R1 & ->). exists E. split; [reflexivity|]. rewrite E4. eauto.
  - assert (Tot : E_ex E + (E_aniso E + (E_demag E + (- mu0 * saturation_moment prms dprm p tets (magTet_of (map p_Ms prms) n tets) * dot m H + 0))) =
      mu0 * saturation_moment prms dprm p tets (magTet_of (map p_Ms prms) n tets) * moment_energy H D hk uk m).
    { rewrite E1, A, E3. unfold moment_energy. rewrite (dot_comm H m). field. }
    split.
    + intros (r & Hr & ->). apply reduce_sum in Hr. cbn [lsum] in Hr. rewrite Rplus_0_l in Hr. rewrite Hr. exact Tot.
    + intros ->. eexists. split; [|reflexivity]. eapply eq_rect; [apply reduce_exists|]. cbn [fold_left]. rewrite <- Tot. ring.
Qed.

(** In a run, the total energy that the program writes never increases: the warning on the energy is not printed. *)
Theorem C111_run : forall first_order gamma0 theta alpha hk uk d H0 D,
  0 < gamma0 -> 0 <= theta <= 1 -> 0 < alpha -> linear D d -> (forall x y, dot x (D y) = dot (D x) y) ->
  exists h0, 0 < h0 /\
  forall (P : Type) names prms dprm sprms dsprm (dflt : P) rest tets tris0 sorted o n suppress mu0 pref paranoid l fs m0 h,
  let p i := n_p (nd l i) in
  mesh_ok names (map p_Ms prms) dflt rest tets tris0 sorted o p n suppress -> 0 < mu0 ->
  (forall k, In k (magTri_of (magNode_of (map p_Ms prms) n tets) suppress (c_tris o)) -> s_Ks (surface sprms dsprm (c_tris o) k) = 0) ->
  0 <= h <= h0 -> uniform_run first_order gamma0 theta alpha hk uk H0 D h mu0 pref paranoid (magnetic_body prms dprm tets n) l fs m0 ->
  forall fs1 fs2 fs3, fs = fs1 ++ fs2 ++ fs3 ->
  let l1 := run_trials paranoid (map f_trial fs1) l in
  let l2 := run_trials paranoid (map f_trial (fs1 ++ fs2)) l in
  forall phi1 phi2 e1 e2,
  (forall b i, In b (magnetic_body prms dprm tets n) -> In i (tet_nodes (fst b)) -> interp_field (corner p (fst b)) (corner phi1 (fst b)) = D (u_of l1 i)) ->
  (forall b i, In b (magnetic_body prms dprm tets n) -> In i (tet_nodes (fst b)) -> interp_field (corner p (fst b)) (corner phi2 (fst b)) = D (u_of l2 i)) ->
  writes_total mu0 prms dprm sprms dsprm p tets (c_tris o) (c_dMs o) n suppress H0 (u_of l1) phi1 e1 ->
  writes_total mu0 prms dprm sprms dsprm p tets (c_tris o) (c_dMs o) n suppress H0 (u_of l2) phi2 e2 ->
  e2 <= e1 /\ forall verbose, fst (monitor verbose (Was (Some e1)) (Some e2)) = false.
Proof.
  intros fo gamma0 theta alpha hk uk d H0 D Hg Hth Hal HD Hsy.
  destruct (gentle_exists gamma0 alpha hk d uk H0 D Hg Hal HD) as (h0 & Hh0 & Gen).
  exists h0. split; [exact Hh0|].
  intros P names prms dprm sprms dsprm dflt rest tets tris0 sorted o n suppress mu0 pref paranoid l fs m0 h p Hmesh Hmu Hks Hh (Hp & Hm & Hs & Hu & H1 & Hr & Hi).
  intros fs1 fs2 fs3 Hfs l1 l2 phi1 phi2 e1 e2 F1 F2 W1 W2. specialize (Gen h Hh).
  set (body := magnetic_body prms dprm tets n) in *.
  (* the state after a part of the run is uniform; its energy does not increase *)
  assert (Go : forall fsa fsb l s, sample mu0 l body -> uniform_state l s -> settled gamma0 alpha hk uk H0 D s -> run_of mu0 gamma0 theta pref paranoid body l (fsa ++ fsb) ->
    in_field fo gamma0 theta alpha hk h uk H0 D (fsa ++ fsb) s ->
    exists s', let l' := run_trials paranoid (map f_trial fsa) l in sample mu0 l' body /\ uniform_state l' s' /\ settled gamma0 alpha hk uk H0 D s' /\
      run_of mu0 gamma0 theta pref paranoid body l' fsb /\ in_field fo gamma0 theta alpha hk h uk H0 D fsb s' /\ length l' = length l /\
      (forall i, (i < length l)%nat -> fst (nth i l' (false, no_node)) = fst (nth i l (false, no_node))) /\
      moment_energy H0 D hk uk (fst s') <= moment_energy H0 D hk uk (fst s)).
  { clear - Hg Hth Hal HD Hsy Gen Hp Hm. induction fsa as [|f fsa IH]; intros fsb l s Hs Hu Se Hr Hi.
    - exists s. cbn [map]. unfold run_trials. cbn [flat_map fold_left]. cbn [app] in Hr, Hi. repeat (split; [first [assumption|reflexivity]|]). lra.
    - cbn [app] in Hr, Hi.
      destruct (run_state fo gamma0 theta alpha hk uk H0 D d h mu0 pref paranoid body Hg Hth Hal HD Hsy Gen Hp Hm f (fsa ++ fsb) l s Hs Hu Se Hr Hi) as (A1 & A2 & A3 & A4 & A5 & A6 & A7).
      destruct (IH fsb _ _ A1 A2 A3 A4 A5) as (s' & B1 & B2 & B3 & B4 & B5 & B6 & B7 & B8). exists s'. cbv zeta. rewrite run_trials_cons.
      split; [exact B1|]. split; [exact B2|]. split; [exact B3|]. split; [exact B4|]. split; [exact B5|].
      assert (Le : length (run_trials paranoid [f_trial f] l) = length l) by apply pass_length.
      split; [rewrite B6; exact Le|]. split.
      + intros i Li. rewrite B7 by (rewrite Le; exact Li). apply (pass_nd paranoid (f_trial f) l i Li).
      + pose proof (rate_pos gamma0 alpha Hg Hal) as Rp. set (r := torque H0 D hk uk (fst s)) in *.
        assert (0 <= rate_of_loss gamma0 alpha * elapsed [f] * (r * r)) by (apply Rmult_le_pos; nra). lra. }
  pose proof (start_settled gamma0 alpha hk uk H0 D m0 H1) as Se. subst fs.
  destruct (Go fs1 (fs2 ++ fs3) l (m0, vzero) Hs Hu Se Hr Hi) as (s1 & A1 & A2 & A3 & A4 & A5 & A6 & A7 & A8).
  destruct (Go fs2 fs3 _ s1 A1 A2 A3 A4 A5) as (s2 & B1 & B2 & B3 & B4 & B5 & B6 & B7 & B8).
  assert (El : run_trials paranoid (map f_trial fs2) (run_trials paranoid (map f_trial fs1) l) = l2).
  { unfold l2, run_trials. rewrite map_app, flat_map_app, fold_left_app. reflexivity. }
  rewrite El in B1, B2, B6, B7. fold l1 in A1, A2, A6, A7, B6, B7.
  assert (U1 : forall b i, In b body -> In i (tet_nodes (fst b)) -> u_of l1 i = fst s1).
  { intros b i Hb Hi'. assert (Li : (i < length l1)%nat) by exact (sp_nodes mu0 l1 body A1 b i Hb Hi').
    rewrite <- (A2 i Li); [reflexivity|]. apply (sp_mag mu0 l1 body A1 i Li). eauto. }
  assert (U2 : forall b i, In b body -> In i (tet_nodes (fst b)) -> u_of l2 i = fst s2).
  { intros b i Hb Hi'. assert (Li : (i < length l2)%nat) by exact (sp_nodes mu0 l2 body B1 b i Hb Hi').
    rewrite <- (B2 i Li); [reflexivity|]. apply (sp_mag mu0 l2 body B1 i Li). eauto. }
  assert (D1 : forall b, In b body -> interp_field (corner p (fst b)) (corner phi1 (fst b)) = D (fst s1)).
  { intros b Hb. rewrite <- (U1 b (t0 (fst b)) Hb (or_introl eq_refl)). apply (F1 b (t0 (fst b)) Hb). left; reflexivity. }
  assert (D2 : forall b, In b body -> interp_field (corner p (fst b)) (corner phi2 (fst b)) = D (fst s2)).
  { intros b Hb. rewrite <- (U2 b (t0 (fst b)) Hb (or_introl eq_refl)). apply (F2 b (t0 (fst b)) Hb). left; reflexivity. }
  apply (C111_total names prms dprm sprms dsprm dflt rest tets tris0 sorted o p n suppress mu0 alpha hk uk (u_of l1) phi1 (fst s1) H0 D Hmesh ltac:(lra) Hm Hks U1 D1) in W1.
  apply (C111_total names prms dprm sprms dsprm dflt rest tets tris0 sorted o p n suppress mu0 alpha hk uk (u_of l2) phi2 (fst s2) H0 D Hmesh ltac:(lra) Hm Hks U2 D2) in W2.
  assert (Mp : 0 <= saturation_moment prms dprm p tets (magTet_of (map p_Ms prms) n tets)).
  { unfold saturation_moment. apply Sums.lsum_nonneg. intros k Hk. destruct (mag_in prms dprm tets n k Hk) as (I & _ & MsP). apply Rmult_le_pos; [lra|].
    unfold volume. rewrite vol_det. destruct Hmesh as (_ & _ & _ & _ & Hd & _). specialize (Hd _ I). rewrite <- det4_detJ in Hd. lra. }
  assert (Le : e2 <= e1). { rewrite W1, W2. apply Rmult_le_compat_l; [apply Rmult_le_pos; lra|exact B8]. }
  split; [exact Le|]. intros verbose. unfold monitor. cbn [fst exceeds]. rewrite Rlt_bool_false by exact Le. apply andb_false_r.
Qed.

(** ** The hypotheses are met: the two tetrahedra of C107 to C110, with the surfaces that the program adds, in the runs of any length of C110 *)
Definition ex_prms : list tprm := [mkTprm (1 / 2) 1 1 (1 / 2) (V 0 0 1) 0 vzero vzero vzero; mkTprm (1 / 2) 3 2 1 (V 0 0 1) 0 vzero vzero vzero].
Definition ex_tets : list tet := [mkTet 0 1 2 3 0; mkTet 0 2 1 4 1].
Definition ex_dprm : tprm := mkTprm 0 0 0 0 vzero 0 vzero vzero vzero.

Lemma ex_magTet : magTet_of (map p_Ms ex_prms) 5 ex_tets = [0; 1]%nat.
Proof.
  unfold magTet_of, mark, mark_tet, mag_tet, ex_prms, ex_tets. cbn [map p_Ms fold_left combine seq length snd fst t_reg nth]. rewrite !Rlt_bool_true by lra. reflexivity.
Qed.
Lemma ex_magnetic : magnetic_body ex_prms ex_dprm ex_tets 5 = ex_body 1.
Proof. unfold magnetic_body. rewrite ex_magTet. reflexivity. Qed.

Lemma ex_mesh_ok : exists o, mesh_ok ["a"; "b"]%string (map p_Ms ex_prms) tt [] ex_tets [] (isort basic_ltb (all_tri ex_tets [])) o two_pos 5 [].
Proof.
  assert (R : exists o, controlTriangles ["a"; "b"]%string (fun r => nth r (map p_Ms ex_prms) 0) [("__default__"%string, tt)] ex_tets [] (isort basic_ltb (all_tri ex_tets [])) = Some o).
  { unfold controlTriangles. cbn [fst String.eqb].
    assert (W : exists miss, walk_all (isort basic_ltb (all_tri ex_tets [])) = Some miss /\ length miss = 7%nat).
    { vm_compute. eexists. split; reflexivity. }
    destruct W as (miss & W & L). rewrite W. unfold ex_tets at 1.
    destruct (create_regions_spec ["a"; "b"]%string ("__default__"%string, tt) (map snd miss) [("__default__"%string, tt)] []) as (more & m & E & _); [discriminate|discriminate|].
    cbn [Ascii.eqb Bool.eqb]. rewrite E. eexists. reflexivity. }
  destruct R as (o & Ho). exists o.
  unfold mesh_ok. split; [|split; [|split; [|split; [|split; [|split; [|split]]]]]].
  + intros t [<-|[<-|[]]]; unfold tet_nodes; cbn [t0 t1 t2 t3]; repeat constructor; simpl; lia.
  + intros t i [<-|[<-|[]]]; unfold tet_nodes; cbn [t0 t1 t2 t3]; simpl; lia.
  + apply sorted_exists.
  + exact Ho.
  + intros t [<-|[<-|[]]]; unfold det4; cbn [t0 t1 t2 t3]; unfold two_pos; cbn [nth]; vsimpl; lra.
  + intros f t t' E.
    assert (F : face_of (mkTet 0 1 2 3 0) f = true /\ face_of (mkTet 0 2 1 4 1) f = true /\ t = mkTet 0 1 2 3 0 /\ t' = mkTet 0 2 1 4 1).
    { unfold adjacent, ex_tets in E. cbn [filter] in E. destruct (face_of (mkTet 0 1 2 3 0) f); destruct (face_of (mkTet 0 2 1 4 1) f); inversion E; auto. }
    destruct F as (F1 & F2 & -> & ->). apply face_of_iff in F1, F2. destruct F1 as (L1 & N1 & I1), F2 as (_ & _ & I2).
    destruct (three f L1) as (a & b & c & ->). unfold tet_nodes in I1, I2. cbn [t0 t1 t2 t3] in I1, I2.
    assert (Q : forall x, In x [a; b; c] -> x = 0%nat \/ x = 1%nat \/ x = 2%nat).
    { intros x Hx. specialize (I1 x Hx). specialize (I2 x Hx). simpl in I1, I2. lia. }
    pose proof (Q a ltac:(simpl; auto)) as Qa. pose proof (Q b ltac:(simpl; auto)) as Qb. pose proof (Q c ltac:(simpl; auto)) as Qc.
    inversion N1 as [|? ? Na N2]; subst. inversion N2 as [|? ? Nb N3]; subst. simpl in Na, Nb.
    assert (NE : a <> b /\ a <> c /\ b <> c) by (repeat split; intros ->; tauto). clear - Qa Qb Qc NE.
    destruct Qa as [->|[->| ->]], Qb as [->|[->| ->]], Qc as [->|[->| ->]]; try lia; clear NE;
    unfold side, area_vec, opposite, tet_nodes, two_pos; cbn -[Rlt IZR Rmult Rplus Rminus Rdiv dot cross vsub vscale]; vsimpl; lra.
  + intros [|[|r]]; cbn [map p_Ms ex_prms nth]; try lra. destruct r; lra.
  + intros [|r]; reflexivity.
Qed.

Lemma mesh_at_pos : forall m, (fun i => n_p (nd (mesh_at m) i)) = two_pos.
Proof.
  intros m. apply FunctionalExtensionality.functional_extensionality. intros i. do 5 (destruct i as [|i]; [reflexivity|]). destruct i; reflexivity.
Qed.

Example C111_nonvacuous : forall first_order h N, 0 < h -> exists o,
  mesh_ok ["a"; "b"]%string (map p_Ms ex_prms) tt [] ex_tets [] (isort basic_ltb (all_tri ex_tets [])) o (fun i => n_p (nd (mesh_at (relax 0)) i)) 5 [] /\
  saturation_moment ex_prms ex_dprm two_pos ex_tets (magTet_of (map p_Ms ex_prms) 5 ex_tets) = 1 / 2 /\
  (forall Hd, exists phi, forall k, In k (magTet_of (map p_Ms ex_prms) 5 ex_tets) -> interp_field (corner two_pos (the_tet ex_tets k)) (corner phi (the_tet ex_tets k)) = Hd) /\
  exists fs, uniform_run first_order 1 (1 / 2) (1 / 2) 1 (V 0 0 1) vzero (fun _ => vzero) h 1 1 false (magnetic_body ex_prms ex_dprm ex_tets 5) (mesh_at (relax 0)) fs (relax 0) /\
    elapsed fs = INR N * h /\
    forall e, writes_total 1 ex_prms ex_dprm [] (mkSprm 0 vzero) two_pos ex_tets (c_tris o) (c_dMs o) 5 [] vzero (u_of (mesh_at (relax 0))) (fun _ => 0) e <->
      e = - (1 / 4) * (vz (relax 0) * vz (relax 0)).
Proof.
  intros fo h N Hh. destruct ex_mesh_ok as (o & Ho). exists o. rewrite mesh_at_pos. split; [exact Ho|].
  assert (D0 : detJ (corner two_pos (mkTet 0 1 2 3 0)) = 1) by (rewrite det4_detJ; unfold det4, two_pos; cbn [t0 t1 t2 t3 nth]; vsimpl; ring).
  assert (D1 : detJ (corner two_pos (mkTet 0 2 1 4 1)) = 1) by (rewrite det4_detJ; unfold det4, two_pos; cbn [t0 t1 t2 t3 nth]; vsimpl; ring).
  assert (Mo : saturation_moment ex_prms ex_dprm two_pos ex_tets (magTet_of (map p_Ms ex_prms) 5 ex_tets) = 1 / 2).
  { rewrite ex_magTet. unfold saturation_moment, material, volume, the_tet, ex_tets, ex_prms. cbn [map lsum nth t_reg p_Ms]. rewrite !vol_det, D0, D1. field. }
  split; [exact Mo|]. split.
  - intros Hd. exists (fun i => 0 + dot (vscale (-1) Hd) (two_pos i)). intros k Hk. rewrite ex_magTet in Hk.
    assert (Dk : detJ (corner two_pos (the_tet ex_tets k)) <> 0). { destruct Hk as [<-|[<-|[]]]; unfold the_tet, ex_tets; cbn [nth]; rewrite ?D0, ?D1; lra. }
    pose proof (proj1 (proj2 (C46_gradient_affine (corner two_pos (the_tet ex_tets k)) 0 (vscale (-1) Hd) Dk))) as E. cbv zeta in E.
    etransitivity; [exact E|]. clear. vring.
  - destruct (C110_nonvacuous fo h N Hh) as (_ & _ & fs & R & E & _). exists fs. rewrite ex_magnetic. split; [exact R|]. split; [exact E|].
    assert (Um : forall i, (i < 5)%nat -> u_of (mesh_at (relax 0)) i = relax 0) by (intros i Hi; do 5 (destruct i as [|i]; [reflexivity|]); lia).
    intros e. rewrite (C111_total ["a"; "b"]%string ex_prms ex_dprm [] (mkSprm 0 vzero) tt [] ex_tets [] (isort basic_ltb (all_tri ex_tets [])) o two_pos 5 [] 1 (1 / 2) 1 (V 0 0 1)
      (u_of (mesh_at (relax 0))) (fun _ => 0) (relax 0) vzero (fun _ => vzero) Ho ltac:(lra)).
    + rewrite Mo. unfold moment_energy. replace (dot (V 0 0 1) (relax 0)) with (vz (relax 0)) by (unfold dot; cbn [vx vy vz]; ring).
      unfold vzero, dot. cbn [vx vy vz]. split; intros ->; field.
    + rewrite ex_magnetic. apply ex_anisotropy.
    + intros k _. unfold surface. rewrite nth_overflow by (cbn; lia). reflexivity.
    + rewrite ex_magnetic. intros b i [<-|[<-|[]]] Hi; apply Um; unfold tet_nodes in Hi; cbn [fst t0 t1 t2 t3] in Hi; simpl in Hi; lia.
    + rewrite ex_magnetic. intros b Hb. unfold interp_field. replace (vsumn 4 _) with vzero; [vring|]. symmetry. unfold vsumn. cbn [sumn]. unfold corner, vzero. f_equal; vsimpl; ring.
Qed.

Print Assumptions C111_energies.
Print Assumptions C111_total.
Print Assumptions C111_run.
