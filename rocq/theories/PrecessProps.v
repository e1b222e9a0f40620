(** * A uniformly magnetized sample follows the equation of a single moment (C107) *)
From Coq Require Import List ZArith Arith Bool Lia Reals Lra Permutation.
From Flocq Require Import Core.
From Verif Require Import Arith ArithLaws Vec Sums LinAlg SparseModel SparseProof ConcModel ConcProof SparseProps
  IterModel IterProof Ieee IterMask IterExact IterProps StdModel MeshModel MeshProof MeshProps ElemModel ElemProof AvgModel ElemProps
  AsmModel AsmProof AsmProps LlgProps WeakProps NodeModel NodeProps CgProof DissipProps.
Import ListNotations.
Local Open Scope R_scope.

(** ** Specification *)
(** the equation of Landau, Lifshitz and Gilbert for one moment m, of velocity w, in a field H: dm/dt = - gamma0 m x H + a m x dm/dt *)
Definition gilbert (gamma0 a : R) (m H w : vec) : Prop :=
  w = vadd (vscale (- gamma0) (cross m H)) (vscale a (cross m w)).
(** uniaxial anisotropy field of a moment, of constant [hk] = 2 K / (mu0 Ms) and axis [uk] *)
Definition axis_field (hk : R) (uk m : vec) : vec := vscale (hk * dot uk m) uk.

(** all tetrahedra have the same damping, anisotropy field and axis (the exchange constants and Ms may differ), no cubic anisotropy *)
Definition same_anisotropy (mu0 alpha hk : R) (uk : vec) (body : material_body) : Prop := forall b, In b body ->
  p_alpha (snd b) = alpha /\ 2 * p_K (snd b) / (mu0 * p_Ms (snd b)) = hk /\ p_uk (snd b) = uk /\ p_K3 (snd b) = 0.
(** the applied field and the demagnetizing field add to the same field everywhere; the demagnetizing field changes everywhere at the same rate *)
Definition uniform_fields (p : nat -> vec) (phi phiv : nat -> R) (Hext : tet -> nat -> vec) (H Hdot : vec) (body : material_body) : Prop :=
  forall b, In b body ->
    (forall j, (j < NPI)%nat -> vadd (interp_field (corner p (fst b)) (corner phi (fst b))) (Hext (fst b) j) = H) /\
    interp_field (corner p (fst b)) (corner phiv (fst b)) = Hdot.
(** what the moment is after a time dt at velocity w: moved, then normalized (Node::make_evol) *)
Definition next_moment (dt : R) (m w : vec) : vec := vnormalize (vadd m (vscale dt w)).

(** ** The equation *)
(** the solution of the equation *)
Definition precession (gamma0 a : R) (m H : vec) : vec :=
  vscale (/ (1 + a * a)) (vadd (vscale (- gamma0) (cross m H)) (vscale (- (gamma0 * a)) (cross m (cross m H)))).

Lemma one_aa : forall a : R, 1 + a * a <> 0.
Proof. intros a. nra. Qed.

Lemma precession_tangent : forall gamma0 a m H, dot m (precession gamma0 a m H) = 0.
Proof. intros. unfold precession. vsimpl. ring. Qed.

Lemma unit_cross : forall m w, dot m m = 1 -> cross m (cross m w) = vsub (vscale (dot m w) m) w.
Proof. intros m w Hm. rewrite cross_cross, Hm. vring. Qed.

(** the equation has one solution, which is this one *)
Theorem C107_equation : forall gamma0 a m H w, dot m m = 1 -> (gilbert gamma0 a m H w <-> w = precession gamma0 a m H).
Proof.
  intros g a m H w Hm. pose proof (one_aa a) as Ha. unfold gilbert, precession. split; intros E.
  - assert (D : dot m w = 0). { rewrite E, dot_add_r, !dot_scale_r, !cross_dot_l. ring. }
    assert (C : cross m w = vadd (vscale (- g) (cross m (cross m H))) (vscale (- a) w)).
    { rewrite E at 1. replace (cross m (vadd (vscale (- g) (cross m H)) (vscale a (cross m w)))) with
        (vadd (vscale (- g) (cross m (cross m H))) (vscale a (cross m (cross m w)))) by vring.
      rewrite (unit_cross m w Hm), D. vring. }
    rewrite C in E.
    assert (E2 : vscale (1 + a * a) w = vadd (vscale (- g) (cross m H)) (vscale (- (g * a)) (cross m (cross m H)))).
    { rewrite (f_equal (vscale (1 + a * a)) E). 
      replace (vscale (1 + a * a) (vadd (vscale (- g) (cross m H)) (vscale a (vadd (vscale (- g) (cross m (cross m H))) (vscale (- a) w)))))
        with (vsub (vscale (1 + a * a) (vadd (vscale (- g) (cross m H)) (vscale (- (g * a)) (cross m (cross m H))))) (vscale (a * a) (vscale (1 + a * a) w))) by vring.
      assert (F : vscale (1 + a * a) w = vadd (vadd (vscale (- g) (cross m H)) (vscale (- (g * a)) (cross m (cross m H)))) vzero).
      { assert (F : vsub w (vscale (- (a * a)) w) = vadd (vscale (- g) (cross m H)) (vscale (- (g * a)) (cross m (cross m H)))).
        { rewrite E at 1. vring. }
        rewrite <- F. vring. }
      rewrite F. vring. }
    rewrite <- E2. apply vec_eq; vsimpl; field; exact Ha.
  - subst w. replace (cross m (vscale (/ (1 + a * a)) (vadd (vscale (- g) (cross m H)) (vscale (- (g * a)) (cross m (cross m H))))))
      with (vscale (/ (1 + a * a)) (vadd (vscale (- g) (cross m (cross m H))) (vscale (- (g * a)) (cross m (cross m (cross m H)))))) by vring.
    rewrite (unit_cross m (cross m H) Hm), cross_dot_l. apply vec_eq; vsimpl; field; exact Ha.
Qed.

Lemma precession_force : forall g a m H, dot m m = 1 ->
  vadd (vscale a (precession g a m H)) (cross m (precession g a m H)) = vscale g (vsub H (vscale (dot m H) m)).
Proof.
  intros g a m H Hm. pose proof (one_aa a) as Ha. unfold precession.
  replace (cross m (vscale (/ (1 + a * a)) (vadd (vscale (- g) (cross m H)) (vscale (- (g * a)) (cross m (cross m H))))))
      with (vscale (/ (1 + a * a)) (vadd (vscale (- g) (cross m (cross m H))) (vscale (- (g * a)) (cross m (cross m (cross m H)))))) by vring.
  rewrite (unit_cross m (cross m H) Hm), cross_dot_l, (unit_cross m H Hm). apply vec_eq; vsimpl; field; exact Ha.
Qed.

Lemma precession_scale : forall g a m H, vscale g (precession 1 a m H) = precession g a m H.
Proof. intros. unfold precession. vring. Qed.

(** ** One tetrahedron *)
Lemma vsumn_ext : forall n (f g : nat -> vec), (forall j, (j < n)%nat -> f j = g j) -> vsumn n f = vsumn n g.
Proof. intros n f g H. unfold vsumn. f_equal; apply sumn_ext; intros j Hj; rewrite H by exact Hj; reflexivity. Qed.

(** the matrix applied to a uniform velocity *)
Lemma lumping_uniform : forall q al c (u : nat -> vec) m (V : vec) a k i, (k < 3)%nat -> (i < 4)%nat ->
  u i = m -> (forall j, (j < NPI)%nat -> al j = a) ->
  sumn 3 (fun l => sumn 4 (fun j => lumping q al c u k l i j * comp l V)) = a_w q i * comp k (vadd (vscale a V) (cross m V)).
Proof.
  intros q al c u m V a k i Hk Hi Hu Hal.
  assert (Hc : contrib q al i = a * a_w q i).
  { unfold contrib, a_w. rewrite <- sumn_scale. apply sumn_ext. intros j Hj. rewrite (Hal j Hj). ring. }
  assert (Dg : sumn 4 (fun j => diag_block q c (contrib q al) i j) = a * a_w q i).
  { unfold diag_block. rewrite sumn_plus, <- Hc. cbn [sumn].
    assert (S : dot (da q i) (da q 0) + dot (da q i) (da q 1) + dot (da q i) (da q 2) + dot (da q i) (da q 3) = 0).
    { rewrite (da_0 q). generalize (da q 1) (da q 2) (da q 3) (da q i). intros. vsimpl. ring. }
    match type of S with ?s = 0 => match goal with |- ?x + ?y = ?z => replace x with (s * (c * calc_vol q)) by ring; rewrite S end end.
    destruct (four_cases i Hi) as [->|[->|[->| ->]]]; cbn [Nat.eqb]; ring. }
  assert (Od : forall (f : nat -> R), (forall j, (j < 4)%nat -> f j = if Nat.eqb i j then f i else 0) -> sumn 4 f = f i).
  { intros f Hf. rewrite (sumn_ext 4 f (fun j => if Nat.eqb i j then f j else 0)).
    - rewrite <- (sumn_delta 4 i f Hi). apply sumn_ext. intros j _. rewrite Nat.eqb_sym. destruct (Nat.eqb j i) eqn:E; auto.
    - intros j Hj. rewrite (Hf j Hj). destruct (Nat.eqb i j) eqn:E; auto. }
  assert (Dg' : forall x, sumn 4 (fun j => diag_block q c (contrib q al) i j * x) = a * a_w q i * x).
  { intros x. rewrite <- Dg. rewrite Rmult_comm, <- sumn_scale. apply sumn_ext. intros; ring. }
  assert (Od' : forall s d x, (forall y, s y = y \/ s y = - y) -> sumn 4 (fun j => s (if Nat.eqb i j then a_w q i * comp d (u i) else 0) * x) = s (a_w q i * comp d m) * x).
  { intros s d x Hs. rewrite (Od (fun j => s (if Nat.eqb i j then a_w q i * comp d (u i) else 0) * x)).
    - rewrite Nat.eqb_refl, Hu. reflexivity.
    - intros j Hj. rewrite Nat.eqb_refl. destruct (Nat.eqb i j); auto. destruct (Hs 0) as [->| ->]; ring. }
  pose proof (fun d x => Od' (fun y => y) d x ltac:(auto)) as P. pose proof (fun d x => Od' (fun y => - y) d x ltac:(auto)) as N. cbv beta in P, N.
  destruct k as [|[|[|k]]]; [| | |lia]; change (sumn 3 ?f) with (0 + f 0%nat + f 1%nat + f 2%nat); cbv beta;
    unfold lumping; cbv zeta; rewrite Dg', ?P, ?N; unfold comp, vadd, vscale, cross; cbn [vx vy vz]; ring.
Qed.

(** the field of the scheme: at time t + theta dt, with the current rates of change *)
Definition scheme_field (theta dt hk : R) (uk H Hdot m v : vec) : vec :=
  vadd (vadd H (vscale (theta * dt) Hdot)) (axis_field hk uk (vadd m (vscale (theta * dt) v))).
(** the damping of the scheme (C48), for the field of the current moment *)
Definition scheme_damping (gamma0 dt alpha hk : R) (uk H m : vec) : R :=
  alpha_eff gamma0 dt alpha (dot m (vadd H (axis_field hk uk m))).

Section element.
Variables (mu0 gamma0 theta dt alpha hk : R) (uk H Hdot m v : vec) (prm : tprm) (q : nat -> vec) (nod : tnod) (Hext : nat -> vec).
Hypothesis Hg : gamma0 <> 0.
Hypothesis Hu : forall k, (k < 4)%nat -> n_u nod k = m.
Hypothesis Hv : forall k, (k < 4)%nat -> n_v nod k = v.
Hypothesis HH : forall j, (j < NPI)%nat -> vadd (interp_field q (n_phi nod)) (Hext j) = H.
Hypothesis Hdv : interp_field q (n_phiv nod) = Hdot.
Hypothesis Ha : p_alpha prm = alpha.
Hypothesis Hk : 2 * p_K prm / (mu0 * p_Ms prm) = hk.
Hypothesis Huk : p_uk prm = uk.
Hypothesis HK3 : p_K3 prm = 0.

Lemma aniso_uniform : forall j, (j < NPI)%nat ->
  H_aniso mu0 gamma0 theta prm dt nod j = (axis_field hk uk (vadd m (vscale (theta * dt) v)), hk * (dot m uk * dot m uk)).
Proof.
  intros j Hj. unfold H_aniso. rewrite HK3, (Req_bool_true 0 0 eq_refl). unfold gU, gV.
  rewrite (interp_const _ m j Hj Hu), (interp_const _ v j Hj Hv).
  assert (Es : s_dt gamma0 theta dt / gamma0 = theta * dt) by (unfold s_dt; field; exact Hg). rewrite Es.
  destruct (Req_bool_spec (p_K prm) 0) as [E|E].
  - assert (hk = 0) as ->. { rewrite <- Hk, E. unfold Rdiv. ring. } unfold axis_field. f_equal; [vring|ring].
  - unfold aniso_uniax. rewrite Hk, Huk. unfold axis_field. f_equal; [vring|ring].
Qed.

Lemma damping_uniform : forall j, (j < NPI)%nat ->
  alpha_eff gamma0 dt (p_alpha prm) (uHeff mu0 gamma0 theta prm dt Hext (fun _ => vzero) q nod j) = scheme_damping gamma0 dt alpha hk uk H m.
Proof.
  intros j Hj. unfold scheme_damping. rewrite Ha. f_equal. unfold uHeff. rewrite (aniso_uniform j Hj). cbn [snd].
  rewrite !(deriv_const q (n_u nod) m) by exact Hu. unfold gU. rewrite (interp_const _ m j Hj Hu). unfold Hd. rewrite (HH j Hj).
  unfold axis_field. rewrite !dot_add_r, !dot_scale_r. rewrite (dot_comm uk m). unfold sqn. vsimpl. ring.
Qed.

Lemma BE_uniform : forall i, BE mu0 gamma0 theta prm dt Hext (fun _ => vzero) None 0 q nod i =
  vscale (a_w q i) (scheme_field theta dt hk uk H Hdot m v).
Proof.
  intros i. unfold BE, drift_BE. rewrite !(deriv_const q (n_u nod) m) by exact Hu.
  rewrite (vsumn_ext NPI _ (fun j => vscale (sh i j * weight q j) (scheme_field theta dt hk uk H Hdot m v))).
  - unfold a_w, vsumn. generalize (scheme_field theta dt hk uk H Hdot m v). intros F.
    apply vec_eq; unfold vadd, vscale, vzero; cbn [vx vy vz]; rewrite Rplus_0_l, Rmult_comm, <- sumn_scale; apply sumn_ext; intros; ring.
  - intros j Hj. cbv zeta. rewrite (aniso_uniform j Hj). cbn [fst]. unfold Hd. rewrite (HH j Hj). unfold ElemModel.Hv. rewrite Hdv.
    assert (Es : s_dt gamma0 theta dt / gamma0 = theta * dt) by (unfold s_dt; field; exact Hg). rewrite Es.
    unfold scheme_field. generalize (axis_field hk uk (vadd m (vscale (theta * dt) v))). intros F. vring.
Qed.
End element.

(** ** The assembled system *)
(** one row of one element *)
Lemma row_form : forall n (e : elem R) (x : nat -> nat -> R) i b, (forall a, In a (e_ind e) -> (a < n)%nat) -> (i < n)%nat -> (b < 2)%nat ->
  sumn n (fun j => sumn 2 (fun b' => coupling e i b j b' * x j b')) =
  sumn (e_N e) (fun ie => if (e_nod e ie =? i)%nat then
    sumn (e_N e) (fun je => sumn 2 (fun b' => e_Ke e (b * e_N e + ie) (b' * e_N e + je) * x (e_nod e je) b')) else 0).
Proof.
  intros n e x i b Hn Hi Hb.
  pose proof (elem_form (repeat true n) e (fun i' d => if (i' =? i)%nat && (d =? b)%nat then 1 else 0) x) as F. rewrite repeat_length in F.
  specialize (F Hn).
  assert (D : forall (k : nat) (f : nat -> R), sumn 2 (fun d => (if (k =? i)%nat && (d =? b)%nat then 1 else 0) * f d) = if (k =? i)%nat then f b else 0).
  { intros k f. destruct (k =? i)%nat; cbn [andb].
    - destruct b as [|[|b]]; [| |lia]; cbn [sumn Nat.eqb]; ring.
    - apply sumn_zero. intros; ring. }
  rewrite (sumn_ext n _ (fun i' => if (i' =? i)%nat then sumn n (fun j => sumn 2 (fun b' => coupling e i' b j b' * x j b')) else 0)) in F.
  2: { intros k _. apply (D k (fun d => sumn n (fun j => sumn 2 (fun d' => coupling e k d j d' * x j d')))). }
  rewrite (sumn_delta n i (fun i' => sumn n (fun j => sumn 2 (fun b' => coupling e i' b j b' * x j b')))) in F by exact Hi.
  rewrite F. apply sumn_ext. intros ie _. apply (D (e_nod e ie)).
Qed.

Section uniform.
Variables (mu0 gamma0 theta dt pref alpha hk : R) (uk H Hdot m v0 : vec) (mag : list bool) (p u v : nat -> vec) (phi phiv : nat -> R)
  (Hext : tet -> nat -> vec) (ep eq : nat -> vec) (body : material_body) (rhs y : list R).
Notation n := (length mag).
Notation datum := (step_data mu0 gamma0 theta dt pref p u v phi phiv Hext ep eq).
Notation ds := (map datum body).
Notation els := (map (llg_elem gamma0 dt p u ep eq) ds).
Notation a := (system_matrix mag els).
Hypothesis HP : llg_problem gamma0 dt mag p u ep eq ds.
Hypothesis Hu : forall i, (i < n)%nat -> nth i mag false = true -> u i = m /\ v i = v0.
Hypothesis Hmat : same_anisotropy mu0 alpha hk uk body.
Hypothesis Hfld : uniform_fields p phi phiv Hext H Hdot body.
Hypothesis Hrhs : loads n els rhs.

Let F := scheme_field theta dt hk uk H Hdot m v0.
Let al := scheme_damping gamma0 dt alpha hk uk H m.
Let W := precession 1 al m F.
Let x (i b : nat) : R := if nth i mag false then dot W (match b with O => ep i | _ => eq i end) else 0.
Let y0 : list R := map (fun r => x (r / 2) (r mod 2)) (seq 0 (2 * n)).

Lemma y0_nth : forall i b, (i < n)%nat -> (b < 2)%nat -> nth (2 * i + b) y0 0 = x i b.
Proof.
  intros i b Hi Hb. unfold y0. rewrite (nth_indep _ 0 ((fun r => x (r / 2) (r mod 2)) 0%nat)) by (rewrite map_length, seq_length; lia).
  rewrite (map_nth (fun r => x (r / 2) (r mod 2))), seq_nth by lia. cbn [plus]. destruct (half_of i b Hb) as [-> ->]. reflexivity.
Qed.

Lemma basis_of : forall i, (i < n)%nat -> nth i mag false = true ->
  dot m m = 1 /\ dot (ep i) m = 0 /\ dot (eq i) m = 0 /\ tangent (ep i) (eq i) (x i 0%nat) (x i 1%nat) = W.
Proof.
  intros i Hi Em. destruct (lp_basis _ _ _ _ _ _ _ _ HP i Hi Em) as [(B1 & B2 & B3 & B4 & B5 & B6) B7].
  rewrite (proj1 (Hu i Hi Em)) in *. unfold unitary in *.
  assert (E1 : dot (ep i) m = 0) by (rewrite dot_comm; assumption). assert (E2 : dot (eq i) m = 0) by (first [assumption | rewrite dot_comm; assumption]).
  split; [assumption|]. split; [exact E1|]. split; [exact E2|].
  unfold x. rewrite Em. unfold tangent.
  assert (OB : Vec.orthonormal m (ep i) (eq i)) by (rewrite <- B7; apply orthonormal_intro; assumption).
  pose proof (expand m (ep i) (eq i) W OB) as X. 
  assert (Z : dot m W = 0) by apply precession_tangent.
  rewrite X at 3. rewrite ?(dot_comm W m), Z. vring.
Qed.

Lemma tet_magnetic : forall t prm k, In (t, prm) body -> (k < 4)%nat ->
  (nth k (tet_nodes t) 0 < n)%nat /\ nth (nth k (tet_nodes t) 0%nat) mag false = true.
Proof.
  intros t prm k Hb Hk. assert (Hi : In (nth k (tet_nodes t) 0%nat) (tet_nodes t)) by (apply nth_In; exact Hk).
  assert (Hd : In (datum (t, prm)) ds) by (apply in_map; exact Hb).
  assert (Hl : (nth k (tet_nodes t) 0 < n)%nat) by (apply (lp_nodes _ _ _ _ _ _ _ _ HP (datum (t, prm))); [exact Hd|exact Hi]).
  split; [exact Hl|]. apply (lp_mag _ _ _ _ _ _ _ _ HP _ Hl). exists (datum (t, prm)). split; [exact Hd|exact Hi].
Qed.

Lemma elem_row : forall t prm i b, In (t, prm) body -> (i < n)%nat -> (b < 2)%nat ->
  let e := llg_elem gamma0 dt p u ep eq (datum (t, prm)) in
  sumn n (fun j => sumn 2 (fun b' => coupling e i b j b' * x j b')) = loading e i b.
Proof.
  intros t prm i b Hin Hi Hb e.
  assert (Hg : gamma0 <> 0) by (pose proof (lp_gamma _ _ _ _ _ _ _ _ HP); lra).
  assert (Hc : forall k, (k < 4)%nat -> corner u t k = m /\ corner v t k = v0).
  { intros k Hk. destruct (tet_magnetic t prm k Hin Hk) as [H1 H2]. apply Hu; assumption. }
  destruct (Hmat _ Hin) as (M1 & M2 & M3 & M4). destruct (Hfld _ Hin) as (F1 & F2). cbn [fst snd] in *.
  set (nod := mkTnod (corner u t) (corner v t) (corner phi t) (corner phiv t)).
  rewrite (row_form n e x i b).
  2: { intros k Hk. apply (lp_nodes _ _ _ _ _ _ _ _ HP (datum (t, prm))); [apply in_map; exact Hin|exact Hk]. }
  2, 3: assumption.
  unfold loading. change (e_N e) with 4%nat. apply sumn_ext. intros ie Hie. destruct (e_nod e ie =? i)%nat; [|reflexivity].
  set (xx := fun k b' => x (nth k (tet_nodes t) 0%nat) b').
  set (ae := fun j => alpha_eff gamma0 dt (p_alpha prm) (uHeff mu0 gamma0 theta prm dt (Hext t) (fun _ => vzero) (corner p t) nod j)).
  set (c := pref * s_dt gamma0 theta dt * Abis mu0 prm).
  assert (B : sumn 4 (fun je => sumn 2 (fun b' => e_Ke e (b * 4 + ie) (b' * 4 + je) * x (e_nod e je) b')) =
    sumn 3 (fun k => comp k (match b with O => corner eq t ie | _ => corner ep t ie end) *
      sumn 3 (fun l => sumn 4 (fun j => lumping (corner p t) ae c (corner u t) k l ie j * comp l W)))).
  { refine (eq_trans _ (eq_trans (Kp_apply (corner p t) ae c (corner u t) (corner ep t) (corner eq t) b ie xx Hb) _)).
    - apply sumn_ext. intros je Hje. apply sumn_ext. intros b' _. unfold e. rewrite llg_Ke by assumption. reflexivity.
    - apply sumn_ext. intros k _. f_equal. apply sumn_ext. intros l _. apply sumn_ext. intros j Hj. f_equal. f_equal.
      destruct (tet_magnetic t prm j Hin Hj) as [H1 H2]. apply (basis_of _ H1 H2). }
  rewrite B. clear B.
  assert (Hal : forall j, (j < NPI)%nat -> ae j = al).
  { intros j Hj. apply (damping_uniform mu0 gamma0 theta dt alpha hk uk H m v0 prm (corner p t) nod (Hext t) Hg); auto.
    all: intros k Hk; apply (Hc k Hk). }
  rewrite (sumn_ext 3 _ (fun k => comp k (match b with O => corner eq t ie | _ => corner ep t ie end) * (a_w (corner p t) ie * comp k (vadd (vscale al W) (cross m W))))).
  2: { intros k Hk. f_equal. apply lumping_uniform; auto. apply (Hc ie Hie). }
  unfold e. cbn [llg_elem e_Le step_data td_Le]. destruct (idx4 b ie Hie) as [-> ->]. unfold tet_Lp.
  fold nod. rewrite (BE_uniform mu0 gamma0 theta dt hk uk H Hdot m v0 prm (corner p t) nod (Hext t) Hg); auto.
  2, 3: intros k Hk; apply (Hc k Hk).
  fold F. destruct (tet_magnetic t prm ie Hin Hie) as [H1 H2]. destruct (basis_of _ H1 H2) as (Um & O1 & O2 & _).
  unfold W. rewrite (precession_force 1 al m F Um).
  assert (Z : forall ev, dot ev m = 0 -> sumn 3 (fun k => comp k ev * (a_w (corner p t) ie * comp k (vscale 1 (vsub F (vscale (dot m F) m))))) =
    sumn 3 (fun k => comp k ev * comp k (vscale (a_w (corner p t) ie) F))).
  { intros ev Hev. transitivity (a_w (corner p t) ie * (dot ev F - dot m F * dot ev m)).
    - generalize (dot m F). intros s. unfold dot. cbn [sumn]. unfold comp, vsub, vscale. cbn [vx vy vz]. ring.
    - rewrite Hev. unfold dot. cbn [sumn]. unfold comp, vscale. cbn [vx vy vz]. ring. }
  destruct b as [|[|b]]; [| |lia]; cbn [perm]; unfold matP; apply Z; assumption.
Qed.

Lemma y0_solves : solves mag a rhs y0.
Proof.
  split. { unfold y0. rewrite map_length, seq_length. reflexivity. }
  intros r Hr. destruct (half r) as [Er Hb]. set (i := (r / 2)%nat) in *. set (b := (r mod 2)%nat) in *.
  assert (Hi : (i < n)%nat) by lia. destruct (nth i mag false) eqn:Em.
  - rewrite sumn_pairs. rewrite Er. rewrite (Hrhs i b Hi Hb).
    rewrite (sumn_ext n _ (fun j => sumn 2 (fun b' => lsum (map (fun bd => coupling (llg_elem gamma0 dt p u ep eq (datum bd)) i b j b') body) * x j b'))).
    + rewrite row_over, !map_map. apply lsum_map_ext. intros [t prm] Hin. apply elem_row; assumption.
    + intros j Hj. apply sumn_ext. intros b' Hb'. rewrite y0_nth by assumption. unfold system_matrix.
      destruct (half_of i b Hb) as [-> ->]. destruct (half_of j b' Hb') as [-> ->]. rewrite Em, !map_map. reflexivity.
  - rewrite Er, y0_nth by assumption. unfold x. rewrite Em. reflexivity.
Qed.

Lemma uniform_velocity : solves mag a rhs y -> forall i, (i < n)%nat -> nth i mag false = true -> dot m m = 1 /\ vscale gamma0 (velocity ep eq y i) = precession gamma0 al m F.
Proof.
  intros Hy i Hi Em. destruct (C77_unique_solution gamma0 dt mag p u ep eq ds rhs HP) as (z & _ & Hz).
  assert (y = y0) as -> by (rewrite (Hz y Hy), (Hz y0 y0_solves); reflexivity).
  destruct (basis_of i Hi Em) as (B1 & _ & _ & B4). split; [exact B1|].
  unfold velocity. pose proof (y0_nth i 0%nat Hi ltac:(lia)) as Y0. rewrite Nat.add_0_r in Y0. rewrite Y0, (y0_nth i 1%nat Hi ltac:(lia)), B4.
  apply precession_scale.
Qed.
End uniform.

(** ** C107 *)
(** Whatever the mesh (any tetrahedra, of any exchange constants): where the magnetization, its velocity and the fields are the same at every
    node, the solution of the assembled system gives every node the velocity of one moment in that field, by the equation of
    Landau, Lifshitz and Gilbert; with the damping of the scheme, which is within a tenth of alpha. *)
Theorem C107_macrospin : forall mu0 gamma0 theta dt pref alpha hk uk H Hdot m v0 mag p u v phi phiv Hext ep eq body rhs y,
  let ds := map (step_data mu0 gamma0 theta dt pref p u v phi phiv Hext ep eq) body in
  let els := map (llg_elem gamma0 dt p u ep eq) ds in
  llg_problem gamma0 dt mag p u ep eq ds ->
  (forall i, (i < length mag)%nat -> nth i mag false = true -> u i = m /\ v i = v0) ->
  same_anisotropy mu0 alpha hk uk body ->
  uniform_fields p phi phiv Hext H Hdot body ->
  loads (length mag) els rhs -> solves mag (system_matrix mag els) rhs y ->
  forall i, (i < length mag)%nat -> nth i mag false = true ->
  let w := vscale gamma0 (velocity ep eq y i) in
  let F := scheme_field theta dt hk uk H Hdot m v0 in
  let a := scheme_damping gamma0 dt alpha hk uk H m in
  gilbert gamma0 a m F w /\ (forall w', gilbert gamma0 a m F w' -> w' = w) /\
  0 < alpha /\ alpha / (1 + 1 / 10) <= a <= alpha * (1 + 1 / 10).
Proof.
  intros mu0 gamma0 theta dt pref alpha hk uk H Hdot m v0 mag p u v phi phiv Hext ep eq body rhs y ds els HP Hu Hm Hf Hl Hs i Hi Em w F a.
  destruct (uniform_velocity mu0 gamma0 theta dt pref alpha hk uk H Hdot m v0 mag p u v phi phiv Hext ep eq body rhs y HP Hu Hm Hf Hl Hs i Hi Em) as [Um E].
  fold w F a in E.
  split. { apply C107_equation; assumption. }
  split. { intros w' H'. apply C107_equation in H'; [|assumption]. rewrite H', E. reflexivity. }
  assert (Ha : 0 < alpha).
  { destruct (proj1 (lp_mag _ _ _ _ _ _ _ _ HP i Hi) Em) as (d & Hd & _). destruct (lp_tet _ _ _ _ _ _ _ _ HP d Hd) as (_ & Hal & _).
    unfold ds in Hd. apply in_map_iff in Hd. destruct Hd as ([t prm] & <- & Hb). cbn [step_data td_alpha] in Hal.
    rewrite (proj1 (Hm _ Hb) : p_alpha prm = alpha) in Hal. exact Hal. }
  split; [exact Ha|]. apply C48_alpha_eff; auto. apply (lp_gamma _ _ _ _ _ _ _ _ HP). apply (lp_dt _ _ _ _ _ _ _ _ HP).
Qed.

(** Then the moment turns about the field, in the direction of - m x F, approaches it, and is at rest only where m x F = 0. *)
Theorem C107_sense : forall gamma0 a m F w, 0 < gamma0 -> 0 < a -> dot m m = 1 -> gilbert gamma0 a m F w ->
  dot w m = 0 /\
  dot w (cross m F) = - (gamma0 / (1 + a * a) * sqn (cross m F)) /\
  dot w F = gamma0 * a / (1 + a * a) * sqn (cross m F) /\
  sqn w = gamma0 * gamma0 / (1 + a * a) * sqn (cross m F).
Proof.
  intros g a m F w Hg Ha Hm E. apply C107_equation in E; [|assumption]. subst w. pose proof (one_aa a) as Hn.
  assert (D0 : dot (precession g a m F) m = 0) by (rewrite dot_comm; apply precession_tangent).
  split; [exact D0|].
  assert (P1 : dot (cross m F) (cross m F) = dot F F - dot m F * dot m F) by (rewrite lagrange, Hm; ring).
  assert (P2 : cross m (cross m F) = vsub (vscale (dot m F) m) F) by (apply unit_cross; exact Hm).
  unfold precession. rewrite P2. unfold sqn.
  split; [|split].
  - rewrite dot_scale_l, dot_add_l, !dot_scale_l, dot_sub_l, dot_scale_l, cross_dot_l, cross_dot_r. field. exact Hn.
  - rewrite P1, dot_scale_l, dot_add_l, !dot_scale_l, dot_sub_l, dot_scale_l. rewrite (dot_comm (cross m F) F), cross_dot_r. field. exact Hn.
  - rewrite !dot_scale_l, !dot_scale_r, !dot_add_l, !dot_add_r, !dot_scale_l, !dot_scale_r, !dot_sub_l, !dot_sub_r, !dot_scale_l, !dot_scale_r.
    rewrite (dot_comm (cross m F) m), (dot_comm (cross m F) F), cross_dot_l, cross_dot_r, (dot_comm F m), Hm, P1. field. exact Hn.
Qed.

(** ** A whole run *)
(** nothing *)
Definition no_data : dataNode := mkData vzero vzero 0 0.
Definition no_node : node := mkNode vzero vzero vzero no_data no_data.
(** node i of the mesh *)
Definition nd (l : mesh_nodes) (i : nat) : node := snd (nth i l (false, no_node)).
(** its current values *)
Definition u_of l i := d_u (cur (nd l i)).
Definition v_of l i := d_v (cur (nd l i)).
Definition phi_of l i := d_phi (cur (nd l i)).
Definition phiv_of l i := d_phiv (cur (nd l i)).

(** a mesh and its materials: well-formed tetrahedra, whose corners are the magnetic nodes *)
Record sample (mu0 : R) (l : mesh_nodes) (body : material_body) : Prop := mkSample {
  sp_tet : forall b, In b body -> 0 < detJ (corner (fun i => n_p (nd l i)) (fst b)) /\ NoDup (tet_nodes (fst b)) /\
    0 < p_alpha (snd b) /\ 0 <= p_A (snd b) /\ 0 < mu0 * p_Ms (snd b);
  sp_nodes : forall b i, In b body -> In i (tet_nodes (fst b)) -> (i < length l)%nat;
  sp_mag : forall i, (i < length l)%nat -> (fst (nth i l (false, no_node)) = true <-> exists b, In b body /\ In i (tet_nodes (fst b))) }.

(** a pass of the time loop, with the applied field at that time; the demagnetizing and applied fields then add to [f_H], and the
    demagnetizing field changes at the rate [f_Hdot] *)
Record pass := mkPass { f_trial : trial; f_Hext : tet -> nat -> vec; f_H : vec; f_Hdot : vec }.

Section run.
Variables (mu0 gamma0 theta pref alpha hk : R) (uk : vec) (paranoid : bool) (body : material_body).

(** what the pass f does in the state l: the solver either fails or returns the solution of the system assembled on the nodes after
    setBasis, the fields are uniform *)
Definition pass_of (l : mesh_nodes) (f : pass) : Prop :=
  t_gamma0 (f_trial f) = gamma0 /\ 0 < t_dt (f_trial f) /\
  match t_solution (f_trial f) with
  | None => True
  | Some X =>
    let l' := do_op paranoid (OpBasis (t_angle (f_trial f))) l in
    let p i := n_p (nd l i) in
    let ep i := NodeModel.ep (nd l' i) in let eq i := NodeModel.eq_ (nd l' i) in
    let els := map (llg_elem gamma0 (t_dt (f_trial f)) p (u_of l) ep eq)
      (map (step_data mu0 gamma0 theta (t_dt (f_trial f)) pref p (u_of l) (v_of l) (phi_of l) (phiv_of l) (f_Hext f) ep eq) body) in
    exists rhs y, loads (length l) els rhs /\ solves (map fst l) (system_matrix (map fst l) els) rhs y /\
      (forall i, X i = (nth (2 * i) y 0, nth (2 * i + 1) y 0)) /\
      uniform_fields p (phi_of l) (phiv_of l) (f_Hext f) (f_H f) (f_Hdot f) body
  end.

(** a run: every pass starts from what the previous one left *)
Fixpoint run_of (l : mesh_nodes) (fs : list pass) : Prop :=
  match fs with
  | [] => True
  | f :: fs' => pass_of l f /\ run_of (run_trials paranoid [f_trial f] l) fs'
  end.

(** the same run for one moment m of velocity v: an accepted pass gives it the velocity of the equation of Gilbert (C107_equation) and moves it *)
Definition moment_pass (s : vec * vec) (f : pass) : vec * vec :=
  let '(m, v) := s in
  match t_solution (f_trial f) with
  | Some _ => if t_accepted (f_trial f) then
      let dt := t_dt (f_trial f) in
      let w := precession gamma0 (scheme_damping gamma0 dt alpha hk uk (f_H f) m) m (scheme_field theta dt hk uk (f_H f) (f_Hdot f) m v) in
      (next_moment dt m w, w)
    else s
  | None => s
  end.
Definition moment_run (fs : list pass) (s : vec * vec) : vec * vec := fold_left moment_pass fs s.

(** all the magnetic nodes have this magnetization and this velocity *)
Definition uniform_state (l : mesh_nodes) (s : vec * vec) : Prop :=
  forall i, (i < length l)%nat -> fst (nth i l (false, no_node)) = true -> (u_of l i, v_of l i) = s.

(** what a pass does to node i *)
Definition after_pass (t : trial) (i : nat) (b : bool) (n : node) : node :=
  let n1 := setBasis paranoid (t_angle t) n in
  match t_solution t with
  | None => n1
  | Some X =>
    let n2 := if b then make_evol (fst (X i) * t_gamma0 t) (snd (X i) * t_gamma0 t) (t_dt t) n1 else n1 in
    if t_accepted t then evolution (if b then set_phiv (t_phiv t i) (set_phi (t_phi t i) n2) else n2) else n2
  end.

Lemma pass_node : forall t l i x, nth_error l i = Some x -> nth_error (run_trials paranoid [t] l) i = Some (fst x, after_pass t i (fst x) (snd x)).
Proof.
  intros t l i [b n] H. unfold run_trials. cbn [flat_map]. rewrite app_nil_r. unfold trial_ops, after_pass. cbn [fold_left fst snd].
  assert (H1 : nth_error (do_op paranoid (OpBasis (t_angle t)) l) i = Some (b, setBasis paranoid (t_angle t) n)).
  { cbn [do_op]. rewrite nth_error_map, H. reflexivity. }
  destruct (t_solution t) as [X|]; cbn [fold_left]; [|exact H1].
  assert (H2 : nth_error (do_op paranoid (OpUpdate (t_gamma0 t) (t_dt t) X) (do_op paranoid (OpBasis (t_angle t)) l)) i =
    Some (b, if b then make_evol (fst (X i) * t_gamma0 t) (snd (X i) * t_gamma0 t) (t_dt t) (setBasis paranoid (t_angle t) n) else setBasis paranoid (t_angle t) n)).
  { cbn [do_op] in *. rewrite nth_mapi, H1. cbn. destruct b; reflexivity. }
  destruct (t_accepted t); cbn [fold_left]; [|exact H2].
  cbn [do_op] in *. rewrite nth_error_map, nth_mapi, H2. cbn. destruct b; reflexivity.
Qed.

Lemma mapi_length : forall {X Y} (g : nat -> X -> Y) l k, length (mapi_from g k l) = length l.
Proof. induction l as [|x l IH]; intros k; cbn; auto. Qed.

Lemma pass_length : forall t l, length (run_trials paranoid [t] l) = length l.
Proof.
  intros t l. unfold run_trials. cbn [flat_map]. rewrite app_nil_r. unfold trial_ops. cbn [fold_left].
  destruct (t_solution t) as [X|]; cbn [fold_left do_op]; [|apply map_length].
  destruct (t_accepted t); cbn [fold_left do_op]; rewrite ?map_length, ?mapi_length, ?map_length; reflexivity.
Qed.

Lemma pass_nd : forall t l i, (i < length l)%nat ->
  fst (nth i (run_trials paranoid [t] l) (false, no_node)) = fst (nth i l (false, no_node)) /\
  nd (run_trials paranoid [t] l) i = after_pass t i (fst (nth i l (false, no_node))) (nd l i).
Proof.
  intros t l i Hi. pose proof (pass_node t l i (nth i l (false, no_node)) (nth_error_nth' l _ Hi)) as E.
  apply (nth_error_nth _ _ (false, no_node)) in E. unfold nd. rewrite E. split; reflexivity.
Qed.

Lemma basis_nd : forall r l i, (i < length l)%nat -> nd (do_op paranoid (OpBasis r) l) i = setBasis paranoid r (nd l i).
Proof.
  intros r l i Hi. unfold nd. cbn [do_op]. rewrite (nth_indep _ (false, no_node) ((fun x : bool * node => (fst x, setBasis paranoid r (snd x))) (false, no_node))) by (rewrite map_length; exact Hi).
  rewrite (map_nth (fun x : bool * node => (fst x, setBasis paranoid r (snd x)))). reflexivity.
Qed.

Lemma after_p : forall t i b n, n_p (after_pass t i b n) = n_p n.
Proof.
  intros t i b n. assert (E : n_p (setBasis paranoid (t_angle t) n) = n_p n) by (unfold setBasis; cbv zeta; destruct paranoid; reflexivity).
  unfold after_pass. destruct (t_solution t); [|exact E]. destruct (t_accepted t), b; exact E.
Qed.

Lemma pass_sample : forall t l, sample mu0 l body -> sample mu0 (run_trials paranoid [t] l) body.
Proof.
  intros t l [S1 S2 S3]. constructor.
  - intros b Hb. destruct (S1 b Hb) as (A1 & A2). split; [|exact A2].
    assert (E : forall k, (k < 4)%nat -> corner (fun i => n_p (nd (run_trials paranoid [t] l) i)) (fst b) k = corner (fun i => n_p (nd l i)) (fst b) k).
    { intros k Hk. unfold corner. rewrite (proj2 (pass_nd t l _ (S2 b _ Hb (nth_In (tet_nodes (fst b)) 0%nat Hk)))). apply after_p. }
    unfold detJ, det3, jac, edge1, edge2, edge3 in *. rewrite !E by lia. exact A1.
  - intros b i Hb Hi. rewrite pass_length. apply (S2 b i Hb Hi).
  - intros i Hi. rewrite pass_length in Hi. rewrite (proj1 (pass_nd t l i Hi)). apply S3. exact Hi.
Qed.

Hypothesis Hgam : 0 < gamma0.
Hypothesis Hth : 0 <= theta.
Hypothesis Hpref : 0 <= pref.
Hypothesis Hmat : same_anisotropy mu0 alpha hk uk body.

Lemma flag_nth : forall (l : mesh_nodes) i, nth i (map fst l) false = fst (nth i l (false, no_node)).
Proof. intros l i. change false with (fst (false, no_node)) at 1. apply map_nth. Qed.

Lemma pass_problem : forall l m v0 dt r Hext, 0 < dt -> sample mu0 l body -> uniform_state l (m, v0) -> dot m m = 1 ->
  let l' := do_op paranoid (OpBasis r) l in
  let p i := n_p (nd l i) in let ep i := NodeModel.ep (nd l' i) in let eq i := NodeModel.eq_ (nd l' i) in
  llg_problem gamma0 dt (map fst l) p (u_of l) ep eq
    (map (step_data mu0 gamma0 theta dt pref p (u_of l) (v_of l) (phi_of l) (phiv_of l) Hext ep eq) body).
Proof.
  intros l m v0 dt r Hext Hdt [S1 S2 S3] Hu Hm l' p ep eq. constructor; auto.
  - intros d Hd. apply in_map_iff in Hd. destruct Hd as ([t prm] & <- & Hb). destruct (S1 _ Hb) as (A1 & A2 & A3 & A4 & A5). cbn [fst snd] in *.
    cbn [step_data td_tet td_alpha td_pref]. split; [exact A1|]. split; [exact A3|]. split; [|exact A2].
    unfold s_dt, Abis. apply Rmult_le_pos. { apply Rmult_le_pos; [exact Hpref|]. apply Rmult_le_pos; [apply Rmult_le_pos|]; lra. }
    apply Rmult_le_pos; [lra|]. apply Rlt_le, Rinv_0_lt_compat, A5.
  - intros d i Hd Hi. apply in_map_iff in Hd. destruct Hd as ([t prm] & <- & Hb). rewrite map_length. apply (S2 _ i Hb Hi).
  - intros i Hi. rewrite map_length in Hi. rewrite flag_nth, (S3 i Hi). split.
    + intros ([t prm] & Hb & Hi'). exists (step_data mu0 gamma0 theta dt pref p (u_of l) (v_of l) (phi_of l) (phiv_of l) Hext ep eq (t, prm)).
      split; [apply in_map; exact Hb|exact Hi'].
    + intros (d & Hd & Hi'). apply in_map_iff in Hd. destruct Hd as ([t prm] & <- & Hb). exists (t, prm). split; [exact Hb|exact Hi'].
  - intros i Hi Em. rewrite map_length in Hi. rewrite flag_nth in Em. pose proof (Hu i Hi Em) as E. injection E as E1 _.
    assert (Hc : dot (d_u (cur (nd l i))) (d_u (cur (nd l i))) = 1) by (unfold u_of in E1; rewrite E1; exact Hm).
    destruct (setBasis_orthonormal paranoid r (nd l i) Hc) as (O1 & O2 & O3 & O4 & O5 & O6 & O7).
    unfold ep, eq, l'. rewrite !basis_nd by exact Hi. unfold u_of. split; [|symmetry; exact O7].
    unfold ElemProps.orthonormal, unitary. repeat split; try assumption. rewrite dot_comm. exact O5.
Qed.

Lemma next_unit : forall dt m w, dot m m = 1 -> dot w m = 0 -> dot (next_moment dt m w) (next_moment dt m w) = 1.
Proof.
  intros dt m w Hm Hw. unfold next_moment. apply normalize_unit.
  rewrite !dot_add_l, !dot_add_r, !dot_scale_l, !dot_scale_r, (dot_comm m w), Hw, Hm. pose proof (dot_self_nonneg w). nra.
Qed.

Lemma pass_uniform : forall l f s, sample mu0 l body -> uniform_state l s -> dot (fst s) (fst s) = 1 -> pass_of l f ->
  uniform_state (run_trials paranoid [f_trial f] l) (moment_pass s f) /\ dot (fst (moment_pass s f)) (fst (moment_pass s f)) = 1.
Proof.
  intros l f [m v0] Hsp Hu Hm (Hg & Hdt & Hsol). cbn [fst] in Hm. unfold moment_pass. destruct (t_solution (f_trial f)) as [X|] eqn:EX.
  2: { split; [|exact Hm]. intros i Hi Em. rewrite pass_length in Hi. destruct (pass_nd (f_trial f) l i Hi) as [P1 P2]. rewrite P1 in Em.
       rewrite <- (Hu i Hi Em). unfold u_of, v_of. rewrite P2. unfold after_pass. rewrite EX, cur_setBasis. reflexivity. }
  cbv zeta in Hsol. set (dt := t_dt (f_trial f)) in *. set (r := t_angle (f_trial f)) in *.
  destruct (t_accepted (f_trial f)) eqn:EA.
  2: { split; [|exact Hm]. intros i Hi Em. rewrite pass_length in Hi. destruct (pass_nd (f_trial f) l i Hi) as [P1 P2]. rewrite P1 in Em.
       rewrite <- (Hu i Hi Em). unfold u_of, v_of. rewrite P2. unfold after_pass. rewrite EX, EA, Em. cbn [make_evol cur]. rewrite cur_setBasis. reflexivity. }
  cbn [fst]. split.
  2: { apply next_unit; [exact Hm|]. rewrite dot_comm. apply precession_tangent. }
  destruct Hsol as (rhs & y & Hl & Hs & HX & Hf).
  intros i Hi Em. rewrite pass_length in Hi. destruct (pass_nd (f_trial f) l i Hi) as [P1 P2]. rewrite P1 in Em.
  pose proof (pass_problem l m v0 dt r (f_Hext f) Hdt Hsp Hu Hm) as HP. cbv zeta in HP.
  assert (Hu' : forall k, (k < length (map fst l))%nat -> nth k (map fst l) false = true -> u_of l k = m /\ v_of l k = v0).
  { intros k Hk Ek. rewrite map_length in Hk. rewrite flag_nth in Ek. pose proof (Hu k Hk Ek) as E. injection E as E1 E2. split; assumption. }
  assert (Hl' := Hl). rewrite <- (map_length fst l) in Hl'.
  destruct (uniform_velocity mu0 gamma0 theta dt pref alpha hk uk (f_H f) (f_Hdot f) m v0 (map fst l) _ (u_of l) (v_of l) (phi_of l) (phiv_of l) (f_Hext f) _ _ body rhs y
    HP Hu' Hmat Hf Hl' Hs i) as [_ E].
  { rewrite map_length. exact Hi. } { rewrite flag_nth. exact Em. }
  unfold velocity, tangent in E. rewrite basis_nd in E by exact Hi.
  unfold u_of, v_of. rewrite P2. unfold after_pass. rewrite EX, EA, Em, Hg, (HX i). fold r dt.
  unfold evolution, set_phiv, set_phi, make_evol. cbn [fst snd cur nxt d_u d_v]. rewrite cur_setBasis.
  pose proof (Hu i Hi Em) as E0. injection E0 as E1 _. unfold u_of in E1. rewrite E1. unfold next_moment.
  rewrite <- E.
  replace (vadd (vscale (nth (2 * i) y 0 * gamma0) (ep (setBasis paranoid r (nd l i)))) (vscale (nth (2 * i + 1) y 0 * gamma0) (eq_ (setBasis paranoid r (nd l i)))))
    with (vscale gamma0 (vadd (vscale (nth (2 * i) y 0) (ep (setBasis paranoid r (nd l i)))) (vscale (nth (2 * i + 1) y 0) (eq_ (setBasis paranoid r (nd l i)))))) by vring.
  reflexivity.
Qed.
End run.

(** However many passes the run makes, with whatever time steps, failures and refused trials: as long as the fields are uniform, a sample whose
    nodes all have the same unit magnetization keeps one magnetization, and it is the one of a single moment. *)
Theorem C107_run : forall mu0 gamma0 theta pref alpha hk uk paranoid body fs l m v0,
  0 < gamma0 -> 0 <= theta -> 0 <= pref -> same_anisotropy mu0 alpha hk uk body ->
  sample mu0 l body -> uniform_state l (m, v0) -> dot m m = 1 ->
  run_of mu0 gamma0 theta pref paranoid body l fs ->
  uniform_state (run_trials paranoid (map f_trial fs) l) (moment_run gamma0 theta alpha hk uk fs (m, v0)).
Proof.
  intros mu0 gamma0 theta pref alpha hk uk paranoid body fs. induction fs as [|f fs IH]; intros l m v0 Hg Ht Hp Hm Hs Hu H1 Hr.
  - exact Hu.
  - destruct Hr as [Hf Hr].
    destruct (pass_uniform mu0 gamma0 theta pref alpha hk uk paranoid body Hg Ht Hp Hm l f (m, v0) Hs Hu H1 Hf) as [U N].
    unfold moment_run. cbn [map fold_left]. destruct (moment_pass gamma0 theta alpha hk uk (m, v0) f) as [m' v'] eqn:E.
    assert (Er : run_trials paranoid (f_trial f :: map f_trial fs) l = run_trials paranoid (map f_trial fs) (run_trials paranoid [f_trial f] l)).
    { unfold run_trials. cbn [flat_map]. rewrite app_nil_r, fold_left_app. reflexivity. }
    rewrite Er. apply (IH _ m' v'); auto. apply pass_sample. exact Hs.
Qed.

(** ** The hypotheses are met by runs of any length: two tetrahedra of different Ms and exchange, with the same anisotropy field along z,
    the moment being along x at first, in any field; in a field along y it moves *)
Definition ex_body (k : R) : material_body :=
  [(mkTet 0 1 2 3 0, mkTprm (1 / 2) 1 1 (k / 2) (V 0 0 1) 0 vzero vzero vzero); (mkTet 0 2 1 4 1, mkTprm (1 / 2) 3 2 k (V 0 0 1) 0 vzero vzero vzero)].
Definition ex_mesh : mesh_nodes := map (fun i => (true, mkNode (two_pos i) vzero vzero (mkData (V 1 0 0) vzero 0 0) no_data)) (seq 0 5).
Definition no_potential (l : mesh_nodes) : Prop := forall i, (i < length l)%nat -> fst (nth i l (false, no_node)) = true -> phi_of l i = 0 /\ phiv_of l i = 0.

Lemma ex_anisotropy : forall k, same_anisotropy 1 (1 / 2) k (V 0 0 1) (ex_body k).
Proof. intros k b [<-|[<-|[]]]; cbn [snd p_alpha p_K p_Ms p_uk p_K3]; repeat split; field. Qed.

Lemma ex_sample : forall k, sample 1 ex_mesh (ex_body k).
Proof.
  intros k. constructor.
  - intros b [<-|[<-|[]]]; cbn [fst snd p_alpha p_A p_Ms].
    + split. { unfold detJ, det3, jac, edge1, edge2, edge3, corner, vsub, nd. simpl. lra. } split; [|lra].
      unfold tet_nodes. cbn. repeat constructor; simpl; intuition lia.
    + split. { unfold detJ, det3, jac, edge1, edge2, edge3, corner, vsub, nd. simpl. lra. } split; [|lra].
      unfold tet_nodes. cbn. repeat constructor; simpl; intuition lia.
  - intros b i [<-|[<-|[]]] Hi; cbn in Hi |- *; lia.
  - intros i Hi. split.
    + intros _. cbn in Hi. do 4 (destruct i as [|i]; [eexists; split; [left; reflexivity|cbn; tauto]|]).
      destruct i as [|i]; [eexists; split; [right; left; reflexivity|cbn; tauto]|lia].
    + intros _. cbn in Hi. do 5 (destruct i as [|i]; [reflexivity|]). lia.
Qed.

Definition ex_trial (dt : R) (X : nat -> R * R) : trial := mkTrial 0 (Some X) 1 dt true (fun _ => 0) (fun _ => 0).
Definition ex_pass (dt : R) (H : vec) (X : nat -> R * R) : pass := mkPass (ex_trial dt X) (fun _ _ => H) H vzero.

Lemma ex_runs : forall k dt H N l m v0, 0 < dt -> sample 1 l (ex_body k) -> uniform_state l (m, v0) -> dot m m = 1 -> no_potential l ->
  exists Xs, length Xs = N /\ run_of 1 1 (1 / 2) 1 false (ex_body k) l (map (ex_pass dt H) Xs).
Proof.
  intros k dt H. induction N as [|N IH]; intros l m v0 Hdt Hs Hu Hm Hp.
  - exists []. split; [reflexivity|exact I].
  - pose proof (pass_problem 1 1 (1 / 2) 1 false (ex_body k) ltac:(lra) ltac:(lra) ltac:(lra) l m v0 dt 0 (fun _ _ => H) Hdt Hs Hu Hm) as HP.
    cbv zeta in HP.
    match type of HP with llg_problem _ _ _ ?p ?u ?ep ?eq ?ds => set (els := map (llg_elem 1 dt p u ep eq) ds) end.
    destruct (C77_unique_solution _ _ _ _ _ _ _ _ (rhs_list (length l) els) HP) as (y & Hy & _).
    set (X := fun i => (nth (2 * i) y 0, nth (2 * i + 1) y 0)).
    assert (Hf : pass_of 1 1 (1 / 2) 1 false (ex_body k) l (ex_pass dt H X)).
    { unfold pass_of. cbn [ex_pass f_trial ex_trial t_gamma0 t_dt t_solution t_angle f_Hext f_H f_Hdot]. split; [reflexivity|]. split; [exact Hdt|].
      exists (rhs_list (length l) els), y. split; [apply rhs_list_loads|]. split; [exact Hy|]. split; [reflexivity|].
      intros b Hb.
      assert (Z : forall g, (forall i, (i < length l)%nat -> fst (nth i l (false, no_node)) = true -> g i = 0) -> interp_field (corner (fun i => n_p (nd l i)) (fst b)) (corner g (fst b)) = vzero).
      { intros g G. unfold interp_field. fold (calc_gradV (corner (fun i => n_p (nd l i)) (fst b)) (corner g (fst b))). rewrite (gradV_const _ _ 0). { vring. }
        intros j Hj. unfold corner. assert (Hin : In (nth j (tet_nodes (fst b)) 0%nat) (tet_nodes (fst b))) by (apply nth_In; exact Hj).
        pose proof (sp_nodes _ _ _ Hs b _ Hb Hin) as Hi. apply G; [exact Hi|]. apply (sp_mag _ _ _ Hs _ Hi). exists b. split; assumption. }
      split; [intros j _|]; rewrite Z by (intros i Hi Em; apply (Hp i Hi Em)); [vring|reflexivity]. }
    destruct (pass_uniform 1 1 (1 / 2) 1 (1 / 2) k (V 0 0 1) false (ex_body k) ltac:(lra) ltac:(lra) ltac:(lra) (ex_anisotropy k) l (ex_pass dt H X) (m, v0) Hs Hu Hm Hf) as [U1 U2].
    destruct (moment_pass 1 (1 / 2) (1 / 2) k (V 0 0 1) (m, v0) (ex_pass dt H X)) as [m' v'].
    destruct (IH (run_trials false [ex_trial dt X] l) m' v') as (Xs & L & R); auto.
    + apply pass_sample. exact Hs.
    + intros i Hi Em. rewrite pass_length in Hi. destruct (pass_nd false (ex_trial dt X) l i Hi) as [P1 P2]. rewrite P1 in Em.
      unfold phi_of, phiv_of. rewrite P2, Em. split; reflexivity.
    + exists (X :: Xs). split; [cbn; lia|]. split; [exact Hf|exact R].
Qed.

Example C107_nonvacuous : forall k dt H N, 0 < dt -> exists Xs, length Xs = N /\
  same_anisotropy 1 (1 / 2) k (V 0 0 1) (ex_body k) /\ sample 1 ex_mesh (ex_body k) /\ uniform_state ex_mesh (V 1 0 0, vzero) /\
  run_of 1 1 (1 / 2) 1 false (ex_body k) ex_mesh (map (ex_pass dt H) Xs).
Proof.
  intros k dt H N Hdt. assert (U : uniform_state ex_mesh (V 1 0 0, vzero)).
  { intros i Hi _. cbn in Hi. do 5 (destruct i as [|i]; [reflexivity|]). lia. }
  destruct (ex_runs k dt H N ex_mesh (V 1 0 0) vzero Hdt (ex_sample k) U) as (Xs & L & R).
  - unfold dot. cbn [vx vy vz]. ring.
  - intros i Hi _. cbn in Hi. do 5 (destruct i as [|i]; [split; reflexivity|]). lia.
  - exists Xs. split; [exact L|]. split; [apply ex_anisotropy|]. split; [apply ex_sample|]. split; [exact U|exact R].
Qed.

Example C107_moves : forall X, vz (snd (moment_run 1 (1 / 2) (1 / 2) 1 (V 0 0 1) [ex_pass (1 / 10) (V 0 (1 / 10) 0) X] (V 1 0 0, vzero))) < 0.
Proof.
  intros X. unfold moment_run, moment_pass. cbn [fold_left ex_pass f_trial ex_trial t_solution t_accepted t_dt f_H f_Hdot snd].
  generalize (scheme_damping 1 (1 / 10) (1 / 2) 1 (V 0 0 1) (V 0 (1 / 10) 0) (V 1 0 0)). intros a.
  assert (P : 0 < / (1 + a * a)) by (apply Rinv_0_lt_compat; nra).
  unfold precession, scheme_field, axis_field. vsimpl. nra.
Qed.

Print Assumptions C107_macrospin.
Print Assumptions C107_equation.
Print Assumptions C107_sense.
Print Assumptions C107_run.
