(** * Property C99: what the spin accumulation loses by precession, the magnetization receives *)
From Coq Require Import Reals String List ZArith Arith Bool Lia Lra Permutation FunctionalExtensionality.
From Flocq Require Import Core.
From Verif Require Import Arith ArithLaws Vec Sums LinAlg SparseModel SparseProof ConcModel ConcProof SparseProps
  IterModel IterProof Ieee IterMask IterExact IterProps CgProof StdModel MeshModel MeshProof MeshProps ElemModel ElemProof AvgModel ElemProps
  AsmModel AsmProof AsmProps LlgProps WeakProps NodeModel NodeProps DissipProps TransportModel TransportProof BoundaryProps ElectroProps SpinProps RotProps StModel.
From Verif Require SettingsModel.
Import ListNotations.
Local Open Scope R_scope.

(** ** Specification *)
(** sum of f i j over the six edges i < j of a tetrahedron *)
Definition over_edges (f : nat -> nat -> vec) : vec :=
  vadd (vadd (vadd (f 0 1)%nat (f 0 2)%nat) (vadd (f 0 3)%nat (f 1 2)%nat)) (vadd (f 1 3)%nat (f 2 3)%nat).

(** the spin accumulation that a tetrahedron loses per unit of time because of the magnetization [m]: what the element
    matrix of the diffusion problem, applied to [s] and summed over the corners, gives more than the matrix without
    magnetization *)
Definition spin_lost (mub e : R) (p : nat -> vec) (pot : nat -> R) (vols : list (vol_prm XA)) (m s : nat -> vec) (t : tet) : vec :=
  let K mm r c := e_Ke (spin_tet mub e p pot mm vols t) r c in
  let row k i := sumn 4 (fun j => sumn 3 (fun l =>
    (K m (k * 4 + i)%nat (l * 4 + j)%nat - K (fun _ => vzero) (k * 4 + i)%nat (l * 4 + j)%nat) * comp l (corner s t j))) in
  V (sumn 4 (row 0%nat)) (sumn 4 (row 1%nat)) (sumn 4 (row 2%nat)).

(** the torque that the spin accumulation [s] exerts on the magnetization of a tetrahedron: - gamma0 Ms m x H, where H is
    what the accumulation adds to the load of each corner in the equation of motion *)
Definition torque_received (mu0 gamma0 theta dt e : R) (Hext : tet -> nat -> vec) (p m v : nat -> vec) (phi phiv : nat -> R)
    (vols : list (vol_prm XA)) (s : list (num XA * num XA * num XA)) (b : tet * tprm) : vec :=
  let t := fst b in
  let nod := mkTnod (corner m t) (corner v t) (corner phi t) (corner phiv t) in
  let load H i := BE mu0 gamma0 theta (snd b) dt (Hext t) H None 0 (corner p t) nod i in
  vsumn 4 (fun i => vscale (- (gamma0 * p_Ms (snd b)))
    (cross (corner m t i) (vsub (load (extra_field gamma0 e vols s t) i) (load (fun _ => vzero) i)))).

(** the same material in both problems; the lengths and the density of states of a metal *)
Definition same_metal (e : R) (vols : list (vol_prm XA)) (b : tet * tprm) : Prop :=
  SettingsModel.t_Ms (vol_of vols (fst b)) = (Fin (p_Ms (snd b)) : num XA) /\ 0 < p_Ms (snd b).

(** ** The element *)
Lemma mass_exact : forall q i j, (i < 4)%nat -> (j < 4)%nat ->
  sumn NPI (fun k => weight q k * sh i k * sh j k) = calc_vol q / 20 * (if Nat.eqb i j then 2 else 1).
Proof.
  intros q i j Hi Hj. rewrite vol_det. unfold weight. generalize (detJ q). intros d.
  destruct i as [|[|[|[|i]]]]; try lia; destruct j as [|[|[|[|j]]]]; try lia; unfold NPI, pds, sh, gu, gv, gw; cbn [sumn nth Nat.eqb]; field.
Qed.

Lemma extra_load : forall mu0 gamma0 theta prm dt Hext c s q nod i, (i < 4)%nat -> (forall k, n_v nod k = vzero) ->
  vsub (BE mu0 gamma0 theta prm dt Hext (calc_Hst c s) None 0 q nod i) (BE mu0 gamma0 theta prm dt Hext (fun _ => vzero) None 0 q nod i) =
  vscale (c * (calc_vol q / 20)) (vadd (vsumn 4 s) (s i)).
Proof.
  intros mu0 gamma0 theta prm dt Hext c s q nod i Hi Hv. unfold BE, vsumn, drift_BE.
  assert (GV : forall j, gV nod j = vzero). { intros j. unfold gV, interpV, vsumn. apply vec_eq; cbn [vx vy vz vzero sumn]; rewrite !Hv; cbn [vscale vx vy vz vzero]; ring. }
  assert (F : forall (g1 g2 : nat -> vec) (f : nat -> vec),
    (forall j, vsub (g1 j) (g2 j) = f j) ->
    vsub (vadd vzero (V (sumn NPI (fun k => vx (g1 k))) (sumn NPI (fun k => vy (g1 k))) (sumn NPI (fun k => vz (g1 k)))))
         (vadd vzero (V (sumn NPI (fun k => vx (g2 k))) (sumn NPI (fun k => vy (g2 k))) (sumn NPI (fun k => vz (g2 k))))) =
    V (sumn NPI (fun k => vx (f k))) (sumn NPI (fun k => vy (f k))) (sumn NPI (fun k => vz (f k)))).
  { intros g1 g2 f H.
    assert (HX : forall j, vx (f j) = vx (g1 j) - vx (g2 j)) by (intros; rewrite <- H; reflexivity).
    assert (HY : forall j, vy (f j) = vy (g1 j) - vy (g2 j)) by (intros; rewrite <- H; reflexivity).
    assert (HZ : forall j, vz (f j) = vz (g1 j) - vz (g2 j)) by (intros; rewrite <- H; reflexivity).
    apply vec_eq; cbn [vsub vadd vzero vx vy vz].
    - rewrite (sumn_ext NPI (fun k => vx (f k)) _ (fun j _ => HX j)), sumn_minus. ring.
    - rewrite (sumn_ext NPI (fun k => vy (f k)) _ (fun j _ => HY j)), sumn_minus. ring.
    - rewrite (sumn_ext NPI (fun k => vz (f k)) _ (fun j _ => HZ j)), sumn_minus. ring. }
  rewrite (F _ _ (fun j => vscale (weight q j * sh i j * c) (interpV s j))).
  2: { intros j. rewrite GV. unfold calc_Hst. generalize (interpV s j) (H_aniso mu0 gamma0 theta prm dt nod j). intros [a1 a2 a3] h.
       vring. }
  assert (G : forall x : nat -> R, sumn NPI (fun j => weight q j * sh i j * c * sumn 4 (fun k => sh k j * x k)) = c * (calc_vol q / 20) * (sumn 4 x + x i)).
  { intros x. rewrite (sumn_ext NPI _ (fun j => sumn 4 (fun k => c * x k * (weight q j * sh i j * sh k j)))).
    2: { intros j _. rewrite <- sumn_scale. apply sumn_ext. intros; ring. }
    rewrite sumn_exchange. rewrite (sumn_ext 4 _ (fun k => c * x k * (calc_vol q / 20 * (if Nat.eqb i k then 2 else 1)))).
    2: { intros k Hk. rewrite sumn_scale, mass_exact by assumption. reflexivity. }
    destruct i as [|[|[|[|i]]]]; try lia; cbn [sumn Nat.eqb]; ring. }
  apply vec_eq; cbn [vscale vadd vx vy vz]; unfold interpV, vsumn; cbn [vx vy vz vscale].
  - apply (G (fun k => vx (s k))).
  - apply (G (fun k => vy (s k))).
  - apply (G (fun k => vz (s k))).
Qed.

Lemma lost_precession : forall mub e p pot vols m s t, is_magnetic (vol_of vols t) = true ->
  spin_lost mub e p pot vols m s t =
  vscale (md_prec (medium_of vols mub e t) * (tet_vol p t / 4)) (vsumn 4 (fun i => cross (corner s t i) (corner m t i))).
Proof.
  intros mub e p pot vols m s t Hm. unfold spin_lost.
  set (prm := vol_of vols t) in *. unfold medium_of. fold prm. cbn [md_prec]. rewrite Hm.
  set (D := 2 * real (SettingsModel.t_sigma prm) / (e * e * real (SettingsModel.t_N0 prm))).
  set (g := D / (real (SettingsModel.t_lsd prm) * real (SettingsModel.t_lsd prm))).
  assert (K : forall mm k l i j, (i < 4)%nat -> (j < 4)%nat ->
    e_Ke (spin_tet mub e p pot mm vols t) (k * 4 + i) (l * 4 + j) =
    spin_Ke D (real (SettingsModel.t_lsf prm)) (real (SettingsModel.t_lsd prm)) true (corner p t) (corner mm t) k l i j).
  { intros mm k l i j Hi Hj. unfold spin_tet. fold prm. cbn [e_Ke]. rewrite Hm.
    destruct (idx4 k i Hi) as [-> ->]. destruct (idx4 l j Hj) as [-> ->]. reflexivity. }
  assert (R0 : forall k, (k < 3)%nat ->
    sumn 4 (fun i => sumn 4 (fun j => sumn 3 (fun l =>
      (e_Ke (spin_tet mub e p pot m vols t) (k * 4 + i) (l * 4 + j) - e_Ke (spin_tet mub e p pot (fun _ => vzero) vols t) (k * 4 + i) (l * 4 + j)) * comp l (corner s t j)))) =
    g * (tet_vol p t / 4) * sumn 4 (fun i => comp k (cross (corner s t i) (corner m t i)))).
  { intros k Hk. rewrite <- sumn_scale. apply sumn_ext. intros i Hi.
    rewrite (sumn_ext 4 _ (fun j => sumn 3 (fun l => spin_Ke D (real (SettingsModel.t_lsf prm)) (real (SettingsModel.t_lsd prm)) true (corner p t) (corner m t) k l i j * comp l (corner s t j))
       - sumn 3 (fun l => spin_Ke D (real (SettingsModel.t_lsf prm)) (real (SettingsModel.t_lsd prm)) true (corner p t) (corner (fun _ => vzero) t) k l i j * comp l (corner s t j)))).
    2: { intros j Hj. rewrite <- sumn_minus. apply sumn_ext. intros l Hl. rewrite !K by assumption. ring. }
    rewrite sumn_minus. rewrite (spin_row _ _ _ true (corner p t) (corner m t) (corner s t) k i Hk Hi).
    rewrite (spin_row _ _ _ true (corner p t) (corner (fun _ => vzero) t) (corner s t) k i Hk Hi).
    fold g. change (calc_vol (corner p t)) with (tet_vol p t).
    assert (Z : comp k (cross (corner s t i) (corner (fun _ => vzero) t i)) = 0).
    { unfold corner. destruct k as [|[|k]]; cbn; ring. }
    rewrite Z. ring. }
  apply vec_eq; cbn [vx vy vz vscale vsumn].
  - exact (R0 0%nat ltac:(lia)).
  - exact (R0 1%nat ltac:(lia)).
  - exact (R0 2%nat ltac:(lia)).
Qed.

(** ** C99 *)
(** A tetrahedron whose nodes are at rest (the first order of the time scheme): the torque received by the magnetization
    is the spin that the diffusion problem loses, up to the product of the variations of s and m along the edges, which
    the two discretizations do not see alike. *)
Theorem C99_torque : forall mu0 gamma0 theta dt mub e Hext p m phi phiv pot vols s b,
  gamma0 <> 0 -> same_metal e vols b ->
  let t := fst b in
  let prec := md_prec (medium_of vols mub e t) in
  let ds i j := vsub (corner (s_at s) t i) (corner (s_at s) t j) in
  let dm i j := vsub (corner m t i) (corner m t j) in
  torque_received mu0 gamma0 theta dt e Hext p m (fun _ => vzero) phi phiv vols s b =
  vsub (spin_lost mub e p pot vols m (s_at s) t) (vscale (prec * tet_vol p t / 20) (over_edges (fun i j => cross (ds i j) (dm i j)))).
Proof.
  intros mu0 gamma0 theta dt mub e Hext p m phi phiv pot vols s [t prm] Hg [Hms Hpos] t0 prec ds dm. subst t0. cbn [fst snd] in Hms, Hpos, prec, ds, dm |- *.
  assert (Hm : is_magnetic (vol_of vols t) = true).
  { unfold is_magnetic. rewrite Hms, xn0. cbn [nlt XA xlt]. apply Raux.Rlt_bool_true. exact Hpos. }
  rewrite lost_precession by exact Hm. fold prec. unfold torque_received. cbn [fst snd].
  assert (EF : extra_field gamma0 e vols s t = calc_Hst (st_prefactor gamma0 e (vol_of vols t)) (corner (s_at s) t)).
  { apply functional_extensionality. intros j. unfold extra_field. rewrite Hm. reflexivity. }
  rewrite EF. set (c := st_prefactor gamma0 e (vol_of vols t)).
  assert (Ec : gamma0 * p_Ms prm * c = prec).
  { unfold c, prec, st_prefactor, medium_of, diffusion_cst. cbn [md_prec]. rewrite Hm, Hms. cbn [real].
    set (D := 2 * _ / _). set (l := real (SettingsModel.t_lsd _)).
    destruct (Req_dec l 0) as [->|Hl]. { rewrite !Rmult_0_l. unfold Rdiv. rewrite RIneq.Rinv_0. ring. }
    field. repeat split; auto. lra. }
  assert (L : forall i, (i < 4)%nat -> vsub (BE mu0 gamma0 theta prm dt (Hext t) (calc_Hst c (corner (s_at s) t)) None 0 (corner p t)
      {| n_u := corner m t; n_v := corner (fun _ => vzero) t; n_phi := corner phi t; n_phiv := corner phiv t |} i)
     (BE mu0 gamma0 theta prm dt (Hext t) (fun _ => vzero) None 0 (corner p t)
      {| n_u := corner m t; n_v := corner (fun _ => vzero) t; n_phi := corner phi t; n_phiv := corner phiv t |} i) =
     vscale (c * (tet_vol p t / 20)) (vadd (vsumn 4 (corner (s_at s) t)) (corner (s_at s) t i))).
  { intros i Hi. apply extra_load; [exact Hi|reflexivity]. }
  rewrite (vsumn_ext 4 _ _ (fun i Hi => f_equal (fun x => vscale (- (gamma0 * p_Ms prm)) (cross (corner m t i) x)) (L i Hi))).
  unfold ds, dm. rewrite <- Ec. generalize (corner (s_at s) t) (corner m t) (tet_vol p t) (gamma0 * p_Ms prm). clear.
  intros S M vol g. unfold over_edges, vsumn, cross, vsub, vadd, vscale. cbn [sumn vx vy vz].
  apply vec_eq; cbn [vx vy vz]; field.
Qed.

(** Where the magnetization or the spin accumulation is uniform in the tetrahedron, the two agree. *)
Theorem C99_torque_uniform : forall mu0 gamma0 theta dt mub e Hext p m phi phiv pot vols s b,
  gamma0 <> 0 -> same_metal e vols b ->
  (forall i j, (i < 4)%nat -> (j < 4)%nat -> corner m (fst b) i = corner m (fst b) j) \/
  (forall i j, (i < 4)%nat -> (j < 4)%nat -> corner (s_at s) (fst b) i = corner (s_at s) (fst b) j) ->
  torque_received mu0 gamma0 theta dt e Hext p m (fun _ => vzero) phi phiv vols s b = spin_lost mub e p pot vols m (s_at s) (fst b).
Proof.
  intros mu0 gamma0 theta dt mub e Hext p m phi phiv pot vols s b Hg Hs HU.
  rewrite (C99_torque mu0 gamma0 theta dt mub e Hext p m phi phiv pot vols s b Hg Hs). cbv zeta.
  assert (Z : over_edges (fun i j => cross (vsub (corner (s_at s) (fst b) i) (corner (s_at s) (fst b) j)) (vsub (corner m (fst b) i) (corner m (fst b) j))) = vzero).
  { assert (C : forall i j, (i < 4)%nat -> (j < 4)%nat ->
      cross (vsub (corner (s_at s) (fst b) i) (corner (s_at s) (fst b) j)) (vsub (corner m (fst b) i) (corner m (fst b) j)) = vzero).
    { intros i j Hi Hj. destruct HU as [HU|HU]; rewrite (HU i j Hi Hj); vring. }
    unfold over_edges. rewrite !C by lia. vring. }
  rewrite Z. vring.
Qed.

(** In general the difference is bounded by the variations of s and m in the tetrahedron. *)
Lemma cross_bound : forall a b x y, vnorm a <= x -> vnorm b <= y -> vnorm (cross a b) <= x * y.
Proof.
  intros a b x y Ha Hb. pose proof (vnorm_pos a). pose proof (vnorm_pos b). pose proof (vnorm_pos (cross a b)).
  apply Rle_trans with (vnorm a * vnorm b); [|nra].
  apply Rsqr_incr_0_var; [|nra]. unfold Rsqr. rewrite vnorm_sq.
  replace (vnorm a * vnorm b * (vnorm a * vnorm b)) with (vnorm a * vnorm a * (vnorm b * vnorm b)) by ring.
  rewrite !vnorm_sq. rewrite lagrange. pose proof (Rle_0_sqr (dot a b)). unfold Rsqr in *. lra.
Qed.
Lemma norm_add : forall a b, vnorm (vadd a b) <= vnorm a + vnorm b.
Proof.
  intros a b. pose proof (vnorm_pos a). pose proof (vnorm_pos b). apply Rsqr_incr_0_var; [|lra]. unfold Rsqr. rewrite vnorm_sq.
  assert (C : dot a b <= vnorm a * vnorm b).
  { apply Rsqr_incr_0_var; [|nra]. unfold Rsqr. replace (vnorm a * vnorm b * (vnorm a * vnorm b)) with (vnorm a * vnorm a * (vnorm b * vnorm b)) by ring.
    rewrite !vnorm_sq. pose proof (lagrange a b). pose proof (dot_self_nonneg (cross a b)). lra. }
  replace (dot (vadd a b) (vadd a b)) with (dot a a + 2 * dot a b + dot b b) by (unfold dot, vadd; cbn [vx vy vz]; ring).
  replace ((vnorm a + vnorm b) * (vnorm a + vnorm b)) with (vnorm a * vnorm a + 2 * (vnorm a * vnorm b) + vnorm b * vnorm b) by ring.
  rewrite !vnorm_sq. lra.
Qed.
Theorem C99_torque_bound : forall mu0 gamma0 theta dt mub e Hext p m phi phiv pot vols s b vs vm,
  gamma0 <> 0 -> same_metal e vols b -> 0 <= tet_vol p (fst b) -> 0 <= md_prec (medium_of vols mub e (fst b)) ->
  (forall i j, (i < 4)%nat -> (j < 4)%nat -> vnorm (vsub (corner (s_at s) (fst b) i) (corner (s_at s) (fst b) j)) <= vs /\
                                            vnorm (vsub (corner m (fst b) i) (corner m (fst b) j)) <= vm) ->
  vnorm (vsub (torque_received mu0 gamma0 theta dt e Hext p m (fun _ => vzero) phi phiv vols s b) (spin_lost mub e p pot vols m (s_at s) (fst b))) <=
  3 / 10 * md_prec (medium_of vols mub e (fst b)) * tet_vol p (fst b) * vs * vm.
Proof.
  intros mu0 gamma0 theta dt mub e Hext p m phi phiv pot vols s b vs vm Hg Hs Hv Hp HB.
  rewrite (C99_torque mu0 gamma0 theta dt mub e Hext p m phi phiv pot vols s b Hg Hs). cbv zeta.
  set (L := spin_lost _ _ _ _ _ _ _ _). set (O := over_edges _).
  set (k := md_prec (medium_of vols mub e (fst b)) * tet_vol p (fst b) / 20).
  assert (Hk : 0 <= k) by (unfold k; nra).
  replace (vsub (vsub L (vscale k O)) L) with (vscale (- k) O) by vring.
  assert (N : vnorm (vscale (- k) O) = k * vnorm O).
  { pose proof (vnorm_pos O). pose proof (vnorm_pos (vscale (- k) O)). apply Rsqr_inj; [lra|nra|]. unfold Rsqr.
    replace (k * vnorm O * (k * vnorm O)) with (k * k * (vnorm O * vnorm O)) by ring. rewrite !vnorm_sq. unfold dot, vscale. cbn [vx vy vz]. ring. }
  rewrite N. replace (3 / 10 * md_prec (medium_of vols mub e (fst b)) * tet_vol p (fst b) * vs * vm) with (k * (6 * (vs * vm))) by (unfold k; field).
  apply Rmult_le_compat_l; [exact Hk|].
  assert (C : forall i j, (i < 4)%nat -> (j < 4)%nat ->
      vnorm (cross (vsub (corner (s_at s) (fst b) i) (corner (s_at s) (fst b) j)) (vsub (corner m (fst b) i) (corner m (fst b) j))) <= vs * vm).
  { intros i j Hi Hj. destruct (HB i j Hi Hj) as [H1 H2]. apply cross_bound; assumption. }
  unfold O, over_edges.
  pose proof (C 0 1)%nat as C1. pose proof (C 0 2)%nat as C2. pose proof (C 0 3)%nat as C3. pose proof (C 1 2)%nat as C4. pose proof (C 1 3)%nat as C5. pose proof (C 2 3)%nat as C6.
  specialize (C1 ltac:(lia) ltac:(lia)). specialize (C2 ltac:(lia) ltac:(lia)). specialize (C3 ltac:(lia) ltac:(lia)).
  specialize (C4 ltac:(lia) ltac:(lia)). specialize (C5 ltac:(lia) ltac:(lia)). specialize (C6 ltac:(lia) ltac:(lia)).
  eapply Rle_trans; [apply norm_add|]. eapply Rle_trans; [apply Rplus_le_compat_r, norm_add|].
  eapply Rle_trans; [apply Rplus_le_compat; [apply Rplus_le_compat; [|]|]; apply norm_add|].
  lra.
Qed.

(** ** The field in the time step *)
(** The effective field of the accumulation acts as an external field would, except for one term: it is proportional to
    the time step and to the velocity of the previous step, and it is absent when the field is external. *)
Theorem C99_as_external : forall mu0 gamma0 theta prm dt Hext Hst dir drift q nod,
  (forall j, uHeff mu0 gamma0 theta prm dt Hext Hst q nod j =
             uHeff mu0 gamma0 theta prm dt (fun j => vadd (Hext j) (Hst j)) (fun _ => vzero) q nod j) /\
  (forall i, BE mu0 gamma0 theta prm dt Hext Hst dir drift q nod i =
     vsub (BE mu0 gamma0 theta prm dt (fun j => vadd (Hext j) (Hst j)) (fun _ => vzero) dir drift q nod i)
          (vscale (theta * dt * gamma0) (vsumn NPI (fun j => vscale (weight q j * sh i j * dot (Hst j) (interpV (n_u nod) j)) (interpV (n_v nod) j))))).
Proof.
  intros mu0 gamma0 theta prm dt Hext Hst dir drift q nod. split.
  - intros j. unfold uHeff. f_equal. unfold dot, vadd, vzero. cbn [vx vy vz]. ring.
  - intros i. unfold BE.
    change (drift_BE gamma0 theta prm dt dir drift q nod i) with (drift_BE gamma0 theta prm dt dir drift q nod i).
    set (d := drift_BE _ _ _ _ _ _ _ _ _).
    set (f := fun j => vadd (vadd _ (vscale (weight q j * sh i j) _)) (vscale _ (gV nod j))) at 1.
    match goal with |- _ = vsub (vadd d (vsumn NPI ?g)) (vscale ?k (vsumn NPI ?h)) =>
      rewrite (vsumn_ext NPI f (fun j => vsub (g j) (vscale k (h j)))) end.
    + apply vec_eq; unfold vsumn; cbn [vx vy vz vadd vsub vscale]; rewrite sumn_minus, sumn_scale; ring.
    + intros j _. unfold f, s_dt, gU, gV.
      generalize (H_aniso mu0 gamma0 theta prm dt nod j) (interpV (n_u nod) j) (interpV (n_v nod) j) (deriv q (n_u nod)) (Abis mu0 prm) (Hd q nod) (Hv q nod) (Hst j) (Hext j).
      intros h U W D A H1 H2 H3 H4. vring.
Qed.

(** With the nodes at rest the step is the one of the external field Hext + Hst, in the whole sample. *)
Theorem C99_step_as_external : forall mu0 gamma0 theta dt pref mag p u phi phiv Hext e vols s ep eq body faces y,
  let Hst := extra_field gamma0 e vols s in
  step_solution mu0 gamma0 theta dt pref mag p u (fun _ => vzero) phi phiv Hext Hst ep eq body faces y <->
  step_solution mu0 gamma0 theta dt pref mag p u (fun _ => vzero) phi phiv (fun t j => vadd (Hext t j) (Hst t j)) (fun _ _ => vzero) ep eq body faces y.
Proof.
  intros mu0 gamma0 theta dt pref mag p u phi phiv Hext e vols s ep eq body faces y Hst.
  assert (E : tet_data mu0 gamma0 theta dt pref p u (fun _ => vzero) phi phiv Hext Hst ep eq =
              tet_data mu0 gamma0 theta dt pref p u (fun _ => vzero) phi phiv (fun t j => vadd (Hext t j) (Hst t j)) (fun _ _ => vzero) ep eq).
  { apply functional_extensionality. intros [t prm]. unfold tet_data.
    set (nod := mkTnod (corner u t) (corner (fun _ => vzero) t) (corner phi t) (corner phiv t)).
    destruct (C99_as_external mu0 gamma0 theta prm dt (Hext t) (Hst t) None 0 (corner p t) nod) as [H1 H2].
    rewrite (functional_extensionality _ _ H1). f_equal. apply functional_extensionality. intros r. unfold tet_Lp. rewrite H2.
    match goal with |- context [vsub ?a (vscale _ (vsumn NPI ?f))] => assert (Z : vsub a (vscale (theta * dt * gamma0) (vsumn NPI f)) = a) end.
    2: { rewrite Z. reflexivity. }
    assert (Z : forall j, interpV (n_v nod) j = vzero). { intros j. unfold nod, interpV, vsumn, corner. cbn [n_v]. apply vec_eq; cbn; ring. }
    rewrite (vsumn_ext NPI _ (fun _ => vzero)). 2: { intros j _. rewrite Z. vring. }
    apply vec_eq; unfold vsumn; cbn [vx vy vz vsub vscale vzero NPI sumn]; ring. }
  unfold step_solution. rewrite E. reflexivity.
Qed.

(** When the diffusion problem was not solved (zero is stored), or outside the magnetic regions, nothing is added. *)
Theorem C99_no_accumulation : forall gamma0 e vols n t j,
  extra_field gamma0 e vols (stored n (fun _ => vzero)) t j = vzero /\
  (forall s, is_magnetic (vol_of vols t) = false -> extra_field gamma0 e vols s t j = vzero).
Proof.
  intros gamma0 e vols n t j. split.
  - assert (Z : forall i, s_at (stored n (fun _ => vzero)) i = vzero).
    { intros i. unfold s_at, stored.
      assert (G : forall k a i, real3 (nth i (map (fun i => (Fin (vx vzero) : num XA, Fin (vy vzero) : num XA, Fin (vz vzero) : num XA)) (seq a k)) (n0, n0, n0)) = vzero).
      { induction k as [|k IH]; intros a [|i']; cbn [seq map nth]; try (rewrite xn0); try reflexivity. rewrite <- xn0. apply IH. }
      apply G. }
    unfold extra_field. destruct (is_magnetic _); [|reflexivity]. unfold calc_Hst, interpV, vsumn, corner. apply vec_eq; cbn [vx vy vz vscale vzero sumn]; rewrite !Z; cbn [vx vy vz vzero]; ring.
  - intros s H. unfold extra_field. rewrite H. reflexivity.
Qed.

(** The field turns with the spin accumulation, as C97 asks of the extra field. *)
Definition turned_list (Q : rotation) (s s' : list (num XA * num XA * num XA)) : Prop := forall i, s_at s' i = turn Q (s_at s i).
Theorem C99_turns : forall Q gamma0 e vols s s', turned_list Q s s' ->
  extra_field gamma0 e vols s' = turned_at Q (extra_field gamma0 e vols s).
Proof.
  intros Q gamma0 e vols s s' H. apply functional_extensionality. intros t. apply functional_extensionality. intros j.
  unfold turned_at, extra_field. destruct (is_magnetic _); [|symmetry; apply turn_zero].
  unfold calc_Hst. rewrite turn_scale. f_equal. unfold interpV. rewrite turn_sumn. apply vsumn_ext. intros i _. rewrite turn_scale. f_equal. apply H.
Qed.

(** ** A case: one tetrahedron of metal (Ms = 1, P = 1/2, l_sd = 2), magnetization along z, spin accumulation along x at one node *)
Example C99_nonvacuous :
  let b := (mkTet 0 1 2 3 0, mkTprm (1 / 2) 1 1 0 vzero 0 vzero vzero vzero) in
  let s := [(Fin 1 : num XA, Fin 0 : num XA, Fin 0 : num XA); null3; null3; null3; null3] in
  same_metal 1 [two_vol] b /\
  torque_received 1 2 (1 / 2) (1 / 10) 1 (fun _ _ => vzero) two_pos uz (fun _ => vzero) no_phi no_phi [two_vol] s b = V 0 (- (1 / 8)) 0.
Proof.
  intros b s. assert (HS : same_metal 1 [two_vol] b). { split; [reflexivity|cbn; lra]. }
  split; [exact HS|].
  rewrite (C99_torque_uniform 1 2 (1 / 2) (1 / 10) 0 1 (fun _ _ => vzero) two_pos uz no_phi no_phi no_phi [two_vol] s b).
  - rewrite lost_precession by exact two_magnetic.
    assert (P : md_prec (medium_of [two_vol] 0 1 (fst b)) = 3).
    { unfold medium_of. change (vol_of [two_vol] (fst b)) with two_vol. rewrite two_magnetic.
      cbn [md_prec two_vol SettingsModel.t_sigma SettingsModel.t_N0 SettingsModel.t_lsd real]. field. }
    assert (D : tet_vol two_pos (fst b) = 1 / 6).
    { unfold tet_vol. rewrite vol_det. unfold detJ, det3, jac, edge1, edge2, edge3, corner, two_pos, vsub; simpl; field. }
    rewrite P, D. unfold vsumn. apply vec_eq; cbn [vx vy vz vscale sumn corner b fst tet_nodes nth uz cross s_at s null3 real3 real]; cbn; field.
  - lra.
  - exact HS.
  - left. intros i j _ _. reflexivity.
Qed.

Print Assumptions C99_torque.
Print Assumptions C99_torque_uniform.
Print Assumptions C99_torque_bound.
Print Assumptions C99_as_external.
Print Assumptions C99_step_as_external.
Print Assumptions C99_no_accumulation.
Print Assumptions C99_turns.
