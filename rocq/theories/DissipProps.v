(** * Energy balance of a time step (C95) *)
From Coq Require Import List ZArith Arith Bool Lia Reals Lra Permutation.
From Flocq Require Import Core.
From Verif Require Import Arith ArithLaws Vec Sums LinAlg SparseModel SparseProof ConcModel ConcProof SparseProps
  IterModel IterProof Ieee IterMask IterExact IterProps StdModel MeshModel MeshProof MeshProps ElemModel ElemProof AvgModel ElemProps
  AsmModel AsmProof AsmProps LlgProps WeakProps NodeModel CgProof.
Import ListNotations.
Local Open Scope R_scope.

(** ** Specification vocabulary *)
(** a magnetic body: its tetrahedra, each with its material *)
Definition material_body := list (tet * tprm).
(** energy of the body in a given applied field (at the Gauss points of each tetrahedron) and a given demagnetizing potential:
    exchange, anisotropies, fields *)
Definition body_energy (mu0 : R) (p : nat -> vec) (Hext : tet -> nat -> vec) (phi : nat -> R) (body : material_body) (u : nat -> vec) : R :=
  lsum (map (fun m => exchangeEnergy (snd m) (corner p (fst m)) (corner u (fst m))
    + local_energy mu0 (snd m) (corner p (fst m)) (Hext (fst m)) (corner phi (fst m)) (corner u (fst m))) body).
(** the squared gradient of a nodal field, integrated over a tetrahedron *)
Definition grad_sq (q w : nat -> vec) : R := calc_vol q * (sqn (deriv q w 0) + sqn (deriv q w 1) + sqn (deriv q w 2)).
(** what the solver is given for a tetrahedron: Tet::integrales (ElemModel), without drift nor spin transfer *)
Definition step_data (mu0 gamma0 theta dt pref : R) (p u v : nat -> vec) (phi phiv : nat -> R) (Hext : tet -> nat -> vec) (ep eq : nat -> vec) (m : tet * tprm) : tdata :=
  let '(t, prm) := m in
  let nod := mkTnod (corner u t) (corner v t) (corner phi t) (corner phiv t) in
  mkTdata t (p_alpha prm) (uHeff mu0 gamma0 theta prm dt (Hext t) (fun _ => vzero) (corner p t) nod) (pref * s_dt gamma0 theta dt * Abis mu0 prm)
    (fun r => tet_Lp mu0 gamma0 theta prm dt (Hext t) (fun _ => vzero) None 0 (corner p t) nod (corner ep t) (corner eq t) (r / 4) (r mod 4)).

(** The system of these data is the one of the code: the matrix and the vector of the element are the ones of Tet::integrales (tetra.cpp
    lines 210-307), as in C49 and C84. *)
Theorem C95_element : forall mu0 gamma0 theta dt pref p u v phi phiv Hext ep eq t prm b b' i j, (i < 4)%nat -> (j < 4)%nat ->
  let nod := mkTnod (corner u t) (corner v t) (corner phi t) (corner phiv t) in
  let e := llg_elem gamma0 dt p u ep eq (step_data mu0 gamma0 theta dt pref p u v phi phiv Hext ep eq (t, prm)) in
  e_Ke e (b * 4 + i) (b' * 4 + j) =
    tet_Kp mu0 gamma0 theta prm dt pref (Hext t) (fun _ => vzero) (corner p t) nod (corner ep t) (corner eq t) b b' i j /\
  e_Le e (b * 4 + i) = tet_Lp mu0 gamma0 theta prm dt (Hext t) (fun _ => vzero) None 0 (corner p t) nod (corner ep t) (corner eq t) b i.
Proof.
  intros. split.
  - unfold e. rewrite llg_Ke by assumption. reflexivity.
  - cbn [e llg_elem e_Le step_data td_Le]. destruct (idx4 b i ltac:(assumption)) as [-> ->]. reflexivity.
Qed.

(** ** One tetrahedron *)
Definition kdot (q : nat -> vec) (uk : vec) (a b : nat -> vec) : R := wdot q (fun j => dot uk (interpV a j) * dot uk (interpV b j)).

Lemma exchange_moved : forall prm q u w s, exchangeEnergy prm q (moved u w s) = exchangeEnergy prm q u
  + s * (2 * p_A prm * calc_vol q * (dot (deriv q u 0) (deriv q w 0) + dot (deriv q u 1) (deriv q w 1) + dot (deriv q u 2) (deriv q w 2)))
  + s * s * (p_A prm * grad_sq q w).
Proof.
  intros prm q u w s. unfold exchangeEnergy, grad_sq. rewrite !wdot_const, !deriv_moved. unfold sqn.
  rewrite !dot_add_l, !dot_add_r, !dot_scale_l, !dot_scale_r.
  rewrite !(dot_comm (deriv q w 0) (deriv q u 0)), !(dot_comm (deriv q w 1) (deriv q u 1)), !(dot_comm (deriv q w 2) (deriv q u 2)). ring.
Qed.

Lemma wdot_moved1 : forall q (h : nat -> vec) u w s, wdot q (fun j => dot (interpV (moved u w s) j) (h j)) =
  wdot q (fun j => dot (interpV u j) (h j)) + s * wdot q (fun j => dot (h j) (interpV w j)).
Proof.
  intros. rewrite <- wdot_scale, <- wdot_plus. apply wdot_ext. intros j _. rewrite interpV_moved, dot_add_l, dot_scale_l, (dot_comm (interpV w j)). ring.
Qed.

Lemma uniaxial_moved : forall prm q u w s, uniaxialEnergy prm q (interpV (moved u w s)) = uniaxialEnergy prm q (interpV u)
  - 2 * s * p_K prm * kdot q (p_uk prm) u w - s * s * p_K prm * kdot q (p_uk prm) w w.
Proof.
  intros. unfold uniaxialEnergy, kdot.
  rewrite (wdot_ext q (fun j => dot (p_uk prm) (interpV (moved u w s) j) * dot (p_uk prm) (interpV (moved u w s) j))
    (fun j => dot (p_uk prm) (interpV u j) * dot (p_uk prm) (interpV u j) + (2 * s * (dot (p_uk prm) (interpV u j) * dot (p_uk prm) (interpV w j))
      + s * s * (dot (p_uk prm) (interpV w j) * dot (p_uk prm) (interpV w j))))).
  - rewrite !wdot_plus, !wdot_scale. ring.
  - intros j _. rewrite interpV_moved, dot_add_r, dot_scale_r. ring.
Qed.

Lemma element_energy : forall mu0 gamma0 theta dt prm q Hext nod w s, mu0 <> 0 -> gamma0 <> 0 -> p_Ms prm <> 0 -> p_K3 prm = 0 ->
  let E u := exchangeEnergy prm q u + local_energy mu0 prm q Hext (fun i => n_phi nod i + theta * dt * n_phiv nod i) u in
  E (moved (n_u nod) w s) = E (n_u nod) - s * (mu0 * p_Ms prm * paired 4 (BE mu0 gamma0 theta prm dt Hext (fun _ => vzero) None 0 q nod) w)
    + s * s * (p_A prm * grad_sq q w)
    + p_K prm * (2 * s * (theta * dt) * kdot q (p_uk prm) (n_v nod) w - s * s * kdot q (p_uk prm) w w).
Proof.
  intros mu0 gamma0 theta dt prm q Hext nod w s Hmu Hg HMs HK3 E. unfold E, local_energy. rewrite exchange_moved, uniaxial_moved.
  assert (C : forall U, cubicEnergy prm q U = 0) by (intros U; unfold cubicEnergy; rewrite HK3; ring). rewrite !C. clear C.
  unfold zeemanEnergy_space, zeemanEnergy. rewrite (wdot_moved1 q Hext), (wdot_moved1 q (fun _ => interp_field q (fun i => n_phi nod i + theta * dt * n_phiv nod i))).
  rewrite interp_field_moved. fold (Hd q nod). fold (Hv q nod).
  assert (Es : s_dt gamma0 theta dt / gamma0 = theta * dt) by (unfold s_dt; field; exact Hg).
  assert (T : mu0 * p_Ms prm * paired 4 (BE mu0 gamma0 theta prm dt Hext (fun _ => vzero) None 0 q nod) w =
    - (2 * p_A prm * calc_vol q * (dot (deriv q (n_u nod) 0) (deriv q w 0) + dot (deriv q (n_u nod) 1) (deriv q w 1) + dot (deriv q (n_u nod) 2) (deriv q w 2)))
    + mu0 * p_Ms prm * wdot q (fun j => dot (Hext j) (interpV w j))
    + mu0 * p_Ms prm * wdot q (fun j => dot (vadd (Hd q nod) (vscale (theta * dt) (Hv q nod))) (interpV w j))
    + 2 * p_K prm * kdot q (p_uk prm) (n_u nod) w + 2 * p_K prm * (theta * dt) * kdot q (p_uk prm) (n_v nod) w).
  { rewrite BE_tested, Es. unfold kdot.
    assert (Ha : forall j, fst (H_aniso mu0 gamma0 theta prm dt nod j) =
      vscale (2 * p_K prm / (mu0 * p_Ms prm) * (dot (p_uk prm) (gU nod j) + theta * dt * dot (p_uk prm) (gV nod j))) (p_uk prm)).
    { intros j. unfold H_aniso. rewrite HK3. rewrite (Req_bool_true 0 0) by reflexivity.
      destruct (Req_bool_spec (p_K prm) 0) as [EK|EK].
      - rewrite EK. cbn [fst]. apply vec_eq; vsimpl; field; auto.
      - unfold aniso_uniax. cbn [fst]. rewrite Es. rewrite dot_add_r, dot_scale_r. apply vec_eq; vsimpl; ring. }
    rewrite <- wdot_scale.
    rewrite (wdot_ext q _ (fun j => - (2 * p_A prm) * (dot (deriv q (n_u nod) 0) (deriv q w 0) + dot (deriv q (n_u nod) 1) (deriv q w 1) + dot (deriv q (n_u nod) 2) (deriv q w 2))
      + (mu0 * p_Ms prm * dot (Hext j) (interpV w j) + (mu0 * p_Ms prm * dot (vadd (Hd q nod) (vscale (theta * dt) (Hv q nod))) (interpV w j)
      + (2 * p_K prm * (dot (p_uk prm) (gU nod j) * dot (p_uk prm) (interpV w j)) + 2 * p_K prm * (theta * dt) * (dot (p_uk prm) (gV nod j) * dot (p_uk prm) (interpV w j))))))).
    - rewrite !wdot_plus, !wdot_scale, wdot_const. unfold gU, gV. ring.
    - intros j _. rewrite Ha. unfold Abis. rewrite !dot_add_l, !dot_sub_l, !dot_scale_l.
      replace (dot vzero (interpV w j)) with 0 by (vsimpl; ring). replace (dot vzero (gU nod j)) with 0 by (vsimpl; ring). field. auto. }
  rewrite T. clear T. ring.
Qed.

(** ** The assembled system *)
(** the velocities of the nodes (divided by gamma0) for a solution y *)
Definition velocity (ep eq : nat -> vec) (y : list R) (i : nat) : vec := tangent (ep i) (eq i) (nth (2 * i) y 0) (nth (2 * i + 1) y 0).

Lemma element_form : forall n gamma0 dt p u ep eq d (x : nat -> nat -> R) (wn : nat -> vec), (forall a, In a (tet_nodes (td_tet d)) -> (a < n)%nat) ->
  (forall i, wn i = tangent (ep i) (eq i) (x i 0%nat) (x i 1%nat)) ->
  let w := corner wn (td_tet d) in
  sumn n (fun i => sumn 2 (fun b => x i (1 - b)%nat * sumn n (fun j => sumn 2 (fun b' => coupling (llg_elem gamma0 dt p u ep eq d) i b j b' * x j b')))) =
  td_pref d * grad_sq (corner p (td_tet d)) w
  + sumn 4 (fun k => contrib (corner p (td_tet d)) (fun j => alpha_eff gamma0 dt (td_alpha d) (td_h d j)) k * sqn (w k)).
Proof.
  intros n gamma0 dt p u ep eq d x wn Hn Hwn w.
  pose proof (elem_form (repeat true n) (llg_elem gamma0 dt p u ep eq d) (fun i b => x i (1 - b)%nat) x) as Fm. rewrite repeat_length in Fm.
  rewrite Fm by exact Hn. clear Fm.
  change (e_N (llg_elem gamma0 dt p u ep eq d)) with 4%nat. set (t := td_tet d) in *.
  assert (En : forall k, e_nod (llg_elem gamma0 dt p u ep eq d) k = nth k (tet_nodes t) 0%nat) by reflexivity.
  set (xx := fun k b => x (nth k (tet_nodes t) 0%nat) b).
  set (al := fun j => alpha_eff gamma0 dt (td_alpha d) (td_h d j)).
  set (AE := lumping (corner p t) al (td_pref d) (corner u t)).
  unfold grad_sq. rewrite <- Rmult_assoc, <- (quad_lumping (corner p t) al (td_pref d) (corner u t) w), <- form_quad. fold AE.
  unfold form. rewrite (sumn_exchange 3 4). apply sumn_ext. intros ie Hie.
  assert (B : forall b, (b < 2)%nat -> sumn 4 (fun je => sumn 2 (fun d' => e_Ke (llg_elem gamma0 dt p u ep eq d) (b * 4 + ie) (d' * 4 + je) * x (e_nod (llg_elem gamma0 dt p u ep eq d) je) d')) =
    sumn 3 (fun k => comp k (match b with O => corner eq t ie | _ => corner ep t ie end) * sumn 3 (fun l => sumn 4 (fun j => AE k l ie j * comp l (w j))))).
  { intros b Hb. refine (eq_trans _ (eq_trans (Kp_apply (corner p t) al (td_pref d) (corner u t) (corner ep t) (corner eq t) b ie xx Hb) _)).
    - apply sumn_ext. intros je Hje. apply sumn_ext. intros b' _. rewrite llg_Ke by assumption. reflexivity.
    - apply sumn_ext. intros k _. f_equal. apply sumn_ext. intros l _. apply sumn_ext. intros j _. f_equal. f_equal. unfold w, corner. rewrite Hwn. reflexivity. }
  change (sumn 2 ?f) with (0 + f 0%nat + f 1%nat). cbv beta. rewrite (B 0%nat), (B 1%nat) by lia. clear B. rewrite !En. cbn [Nat.sub].
  fold (xx ie 1%nat). fold (xx ie 0%nat).
  assert (Ew : w ie = tangent (corner ep t ie) (corner eq t ie) (xx ie 0%nat) (xx ie 1%nat)) by (unfold w, corner; rewrite Hwn; reflexivity). rewrite Ew.
  generalize (fun k => sumn 3 (fun l => sumn 4 (fun j => AE k l ie j * comp l (w j)))). intros r.
  unfold tangent, vadd, vscale. cbn [sumn comp vx vy vz]. ring.
Qed.

Lemma element_load : forall n (e : elem R) (x : nat -> nat -> R), (forall a, In a (e_ind e) -> (a < n)%nat) ->
  sumn n (fun i => sumn 2 (fun b => x i (1 - b)%nat * loading e i b)) =
  sumn (e_N e) (fun k => sumn 2 (fun b => x (e_nod e k) (1 - b)%nat * e_Le e (b * e_N e + k)%nat)).
Proof.
  intros n e x Hn.
  rewrite (sumn_ext n _ (fun i => sumn (e_N e) (fun k => if (e_nod e k =? i)%nat then sumn 2 (fun b => x i (1 - b)%nat * e_Le e (b * e_N e + k)%nat) else 0))).
  - rewrite sumn_exchange. apply sumn_ext. intros k Hk. apply (gather n (e_nod e k) (fun i => sumn 2 (fun b => x i (1 - b)%nat * e_Le e (b * e_N e + k)%nat))).
    apply Hn. apply nod_in. exact Hk.
  - intros i _. rewrite (sumn_ext 2 _ (fun b => sumn (e_N e) (fun k => if (e_nod e k =? i)%nat then x i (1 - b)%nat * e_Le e (b * e_N e + k)%nat else 0))).
    + rewrite sumn_exchange. apply sumn_ext. intros k _. destruct (e_nod e k =? i)%nat; auto. apply sumn_zero. reflexivity.
    + intros b _. unfold loading. rewrite <- sumn_scale. apply sumn_ext. intros k _. destruct (e_nod e k =? i)%nat; ring.
Qed.

Lemma sum_over : forall {X} (l : list X) n (g : X -> nat -> nat -> R) (x : nat -> nat -> R),
  sumn n (fun i => sumn 2 (fun b => x i (1 - b)%nat * lsum (map (fun d => g d i b) l))) =
  lsum (map (fun d => sumn n (fun i => sumn 2 (fun b => x i (1 - b)%nat * g d i b))) l).
Proof.
  induction l as [|d l IH]; intros n g x; cbn [map lsum].
  - apply sumn_zero. intros i _. apply sumn_zero. intros b _. ring.
  - rewrite <- IH, <- sumn_plus. apply sumn_ext. intros i _. rewrite <- sumn_plus. apply sumn_ext. intros b _. ring.
Qed.

Lemma row_over : forall {X} (l : list X) n (g : X -> nat -> nat -> R) (z : nat -> nat -> R),
  sumn n (fun j => sumn 2 (fun b' => lsum (map (fun d => g d j b') l) * z j b')) =
  lsum (map (fun d => sumn n (fun j => sumn 2 (fun b' => g d j b' * z j b'))) l).
Proof.
  induction l as [|d l IH]; intros n g z; cbn [map lsum].
  - apply sumn_zero. intros i _. apply sumn_zero. intros b _. ring.
  - rewrite <- IH, <- sumn_plus. apply sumn_ext. intros i _. rewrite <- sumn_plus. apply sumn_ext. intros b _. ring.
Qed.

(** all tetrahedra have the same saturation magnetization Ms > 0, no cubic anisotropy *)
Definition one_material (Ms : R) (body : material_body) : Prop := forall m, In m body -> p_Ms (snd m) = Ms /\ p_K3 (snd m) = 0.
(** the right-hand side assembled from the tetrahedra *)
Definition loads (n : nat) (els : list (elem R)) (rhs : list R) : Prop :=
  forall i d, (i < n)%nat -> (d < 2)%nat -> nth (2 * i + d) rhs 0 = lsum (map (fun e => loading e i d) els).
(** what the residual of the linear system does to the energy *)
Definition defect (mag : list bool) (a : nat -> nat -> R) (rhs y : list R) : R :=
  sumn (length mag) (fun i => if nth i mag false then
    sumn 2 (fun b => nth (2 * i + (1 - b)) y 0 * (nth (2 * i + b) rhs 0 - sumn (2 * length mag) (fun c => a (2 * i + b)%nat c * nth c y 0))) else 0).
(** what the damping takes: the mass lumped at the corners, with the damping of the code (alpha_eff, C46) *)
Definition damping_loss (gamma0 dt : R) (p : nat -> vec) (ds : list tdata) (w : nat -> vec) : R :=
  lsum (map (fun d => sumn 4 (fun k => contrib (corner p (td_tet d)) (fun j => alpha_eff gamma0 dt (td_alpha d) (td_h d j)) k * sqn (corner w (td_tet d) k))) ds).
Definition exchange_stiffness (p : nat -> vec) (body : material_body) (w : nat -> vec) : R :=
  lsum (map (fun m => p_A (snd m) * grad_sq (corner p (fst m)) (corner w (fst m))) body).
Definition uniaxial_rest (p : nat -> vec) (body : material_body) (s tau : R) (v w : nat -> vec) : R :=
  lsum (map (fun m => p_K (snd m) * (2 * s * tau * kdot (corner p (fst m)) (p_uk (snd m)) (corner v (fst m)) (corner w (fst m))
    - s * s * kdot (corner p (fst m)) (p_uk (snd m)) (corner w (fst m)) (corner w (fst m)))) body).

Section step.
Variables (mu0 gamma0 theta dt pref Ms : R) (mag : list bool) (p u v : nat -> vec) (phi phiv : nat -> R) (Hext : tet -> nat -> vec)
  (ep eq : nat -> vec) (body : material_body) (rhs y : list R).
Notation n := (length mag).
Notation datum := (step_data mu0 gamma0 theta dt pref p u v phi phiv Hext ep eq).
Notation ds := (map datum body).
Notation els := (map (llg_elem gamma0 dt p u ep eq) ds).
Notation a := (system_matrix mag els).
Notation w := (velocity ep eq y).
Notation E := (body_energy mu0 p Hext (fun i => phi i + theta * dt * phiv i) body).
Hypothesis Hmu : 0 < mu0.
Hypothesis HMs : 0 < Ms.
Hypothesis HP : llg_problem gamma0 dt mag p u ep eq ds.
Hypothesis Hone : one_material Ms body.
Hypothesis Hrhs : loads n els rhs.
Hypothesis Hy : forall k, In k (lvd_of mag) -> nth k y 0 = 0.

Lemma datum_tet : forall m, td_tet (datum m) = fst m.
Proof. intros [t prm]. reflexivity. Qed.

Lemma datum_nodes : forall m i, In m body -> In i (tet_nodes (fst m)) -> (i < n)%nat.
Proof.
  intros m i Hm Hi. apply (lp_nodes _ _ _ _ _ _ _ _ HP (datum m) i). { apply in_map. exact Hm. } rewrite datum_tet. exact Hi.
Qed.

Let x (i b : nat) : R := nth (2 * i + b) y 0.

Lemma w_x : forall i, w i = tangent (ep i) (eq i) (x i 0%nat) (x i 1%nat).
Proof. intros i. unfold velocity, x. rewrite Nat.add_0_r. reflexivity. Qed.

(** work of the right-hand side *)
Lemma work : lsum (map (fun m => paired 4 (BE mu0 gamma0 theta (snd m) dt (Hext (fst m)) (fun _ => vzero) None 0 (corner p (fst m))
      (mkTnod (corner u (fst m)) (corner v (fst m)) (corner phi (fst m)) (corner phiv (fst m)))) (corner w (fst m))) body) =
  sumn n (fun i => sumn 2 (fun b => x i (1 - b)%nat * nth (2 * i + b) rhs 0)).
Proof.
  rewrite (sumn_ext n _ (fun i => sumn 2 (fun b => x i (1 - b)%nat * lsum (map (fun m => loading (llg_elem gamma0 dt p u ep eq (datum m)) i b) body)))).
  2: { intros i Hi. apply sumn_ext. intros b Hb. f_equal. rewrite Hrhs by assumption. rewrite !map_map. reflexivity. }
  rewrite sum_over. apply lsum_map_ext. intros m Hm.
  rewrite (element_load n (llg_elem gamma0 dt p u ep eq (datum m)) x).
  2: { intros i Hi. cbn [llg_elem e_ind] in Hi. rewrite datum_tet in Hi. eapply datum_nodes; eauto. }
  change (e_N (llg_elem gamma0 dt p u ep eq (datum m))) with 4%nat. destruct m as [t prm]. cbn [fst snd]. unfold paired. apply sumn_ext. intros k Hk.
  change (e_nod (llg_elem gamma0 dt p u ep eq (datum (t, prm))) k) with (nth k (tet_nodes t) 0%nat). cbn [llg_elem e_Le step_data td_Le].
  change (sumn 2 ?f) with (0 + f 0%nat + f 1%nat). cbv beta.
  destruct (idx4 0 k Hk) as [-> ->]. destruct (idx4 1 k Hk) as [-> ->].
  rewrite !(proj1 (C84_rows _ _ _ _ _ _ _ _ _ _ _ 0 0 vzero _ _ _ _)). cbn [row_vector Nat.sub]. 
  set (i := nth k (tet_nodes t) 0%nat). change (corner w t k) with (w i). rewrite w_x. change (corner eq t k) with (eq i). change (corner ep t k) with (ep i).
  unfold tangent. rewrite dot_add_r, !dot_scale_r. ring.
Qed.

(** the same work, through the matrix *)
Lemma work_matrix : sumn n (fun i => sumn 2 (fun b => x i (1 - b)%nat * nth (2 * i + b) rhs 0)) =
  lsum (map (fun m => td_pref (datum m) * grad_sq (corner p (fst m)) (corner w (fst m))) body)
  + damping_loss gamma0 dt p ds w + defect mag a rhs y.
Proof.
  assert (F : sumn n (fun i => sumn 2 (fun b => x i (1 - b)%nat * sumn n (fun j => sumn 2 (fun b' => lsum (map (fun m => coupling (llg_elem gamma0 dt p u ep eq (datum m)) i b j b') body) * x j b')))) =
    lsum (map (fun m => td_pref (datum m) * grad_sq (corner p (fst m)) (corner w (fst m))) body) + damping_loss gamma0 dt p ds w).
  { rewrite (sumn_ext n _ (fun i => sumn 2 (fun b => x i (1 - b)%nat * lsum (map (fun m => sumn n (fun j => sumn 2 (fun b' => coupling (llg_elem gamma0 dt p u ep eq (datum m)) i b j b' * x j b'))) body)))).
    2: { intros i Hi. apply sumn_ext. intros b Hb. f_equal. apply row_over. }
    rewrite sum_over. unfold damping_loss. rewrite map_map, <- lsum_map_plus. apply lsum_map_ext. intros m Hm.
    rewrite (element_form n gamma0 dt p u ep eq (datum m) x w).
    - rewrite datum_tet. reflexivity.
    - intros i Hi. rewrite datum_tet in Hi. eapply datum_nodes; eauto.
    - exact w_x. }
  rewrite <- F. unfold defect. rewrite <- sumn_plus. apply sumn_ext. intros i Hi. destruct (nth i mag false) eqn:Em.
  - rewrite <- sumn_plus. apply sumn_ext. intros b Hb. fold (x i (1 - b)%nat).
    enough (S : sumn n (fun j => sumn 2 (fun b' => lsum (map (fun m => coupling (llg_elem gamma0 dt p u ep eq (datum m)) i b j b') body) * x j b')) =
      sumn (2 * n) (fun c => a (2 * i + b)%nat c * nth c y 0)) by (rewrite S; ring).
    rewrite sumn_pairs. apply sumn_ext. intros j Hj. apply sumn_ext. intros b' Hb'. unfold system_matrix.
    destruct (half_of i b Hb) as [-> ->]. destruct (half_of j b' Hb') as [-> ->]. rewrite Em, !map_map. reflexivity.
  - rewrite Rplus_0_r. apply sumn_ext. intros b Hb.
    assert (Z : x i (1 - b)%nat = 0). { apply Hy. apply lvd_in. exists i. split; auto. split; auto. destruct b as [|[|b]]; lia. }
    rewrite Z. ring.
Qed.

Lemma balance : let s := gamma0 * dt in
  E (moved u w s) = E u - s * mu0 * Ms * damping_loss gamma0 dt p ds w
    - (2 * theta * pref - 1) * (s * s) * exchange_stiffness p body w
    + uniaxial_rest p body s (theta * dt) v w
    - s * mu0 * Ms * defect mag a rhs y.
Proof.
  intros s. pose proof (lp_gamma _ _ _ _ _ _ _ _ HP) as Hg.
  assert (B : E (moved u w s) = E u
    - s * (mu0 * Ms * lsum (map (fun m => paired 4 (BE mu0 gamma0 theta (snd m) dt (Hext (fst m)) (fun _ => vzero) None 0 (corner p (fst m))
        (mkTnod (corner u (fst m)) (corner v (fst m)) (corner phi (fst m)) (corner phiv (fst m)))) (corner w (fst m))) body))
    + s * s * exchange_stiffness p body w + uniaxial_rest p body s (theta * dt) v w).
  { unfold body_energy, exchange_stiffness, uniaxial_rest. clear HP Hrhs.
    revert Hone. induction body as [|m l IH]; intros H1; cbn [map lsum]. { ring. }
    rewrite IH by (intros m' Hm'; apply H1; right; exact Hm'). destruct (H1 m (or_introl eq_refl)) as [EM EK].
    pose proof (element_energy mu0 gamma0 theta dt (snd m) (corner p (fst m)) (Hext (fst m))
      (mkTnod (corner u (fst m)) (corner v (fst m)) (corner phi (fst m)) (corner phiv (fst m))) (corner w (fst m)) s
      ltac:(lra) ltac:(lra) ltac:(lra) EK) as L. cbv zeta in L. cbn [n_u n_v n_phi n_phiv] in L.
    change (moved (corner u (fst m)) (corner w (fst m)) s) with (corner (moved u w s) (fst m)) in L.
    change (fun i => corner phi (fst m) i + theta * dt * corner phiv (fst m) i) with (corner (fun i => phi i + theta * dt * phiv i) (fst m)) in L.
    rewrite EM in L. rewrite L. ring. }
  rewrite B, work, work_matrix.
  assert (T : mu0 * Ms * lsum (map (fun m => td_pref (datum m) * grad_sq (corner p (fst m)) (corner w (fst m))) body) = 2 * theta * pref * s * exchange_stiffness p body w).
  { unfold exchange_stiffness. rewrite <- !lsum_map_scale. apply lsum_map_ext. intros [t prm] Hm. destruct (Hone _ Hm) as [EM _]. cbn [fst snd] in *.
    cbn [step_data td_pref]. unfold Abis, s_dt, s. rewrite EM. field. split; lra. }
  transitivity (E u - s * (mu0 * Ms * lsum (map (fun m => td_pref (datum m) * grad_sq (corner p (fst m)) (corner w (fst m))) body)
    + mu0 * Ms * damping_loss gamma0 dt p ds w + mu0 * Ms * defect mag a rhs y) + s * s * exchange_stiffness p body w + uniaxial_rest p body s (theta * dt) v w).
  { ring. }
  rewrite T. ring.
Qed.
End step.

(** ** C95: the energy along a step *)
(** A step moves the magnetization by s = gamma0 dt times the solution of the system. The energy in the applied field and in
    the potential phi + theta dt phiv then changes by exactly: minus what the damping takes, minus the exchange energy of the
    increment times (2 theta prefactor - 1), plus a term of the uniaxial anisotropy. *)
Theorem C95_energy_balance_partial : forall mu0 gamma0 theta dt pref Ms mag p u v phi phiv Hext ep eq body rhs y,
  0 < mu0 -> 0 < Ms ->
  let ds := map (step_data mu0 gamma0 theta dt pref p u v phi phiv Hext ep eq) body in
  let els := map (llg_elem gamma0 dt p u ep eq) ds in
  llg_problem gamma0 dt mag p u ep eq ds -> one_material Ms body -> loads (length mag) els rhs -> solves mag (system_matrix mag els) rhs y ->
  let w := velocity ep eq y in let s := gamma0 * dt in
  let E := body_energy mu0 p Hext (fun i => phi i + theta * dt * phiv i) body in
  E (moved u w s) = E u - s * mu0 * Ms * damping_loss gamma0 dt p ds w
    - (2 * theta * pref - 1) * (s * s) * exchange_stiffness p body w
    + uniaxial_rest p body s (theta * dt) v w.
Proof.
  intros mu0 gamma0 theta dt pref Ms mag p u v phi phiv Hext ep eq body rhs y Hmu HMs ds els HP Hone Hrhs [Ly Hs] w s E.
  assert (Hy : forall k, In k (lvd_of mag) -> nth k y 0 = 0).
  { intros k Hk. apply lvd_in in Hk. destruct Hk as (i & Hi & Em & Hk). specialize (Hs k ltac:(lia)).
    replace (k / 2)%nat with i in Hs. { rewrite Em in Hs. exact Hs. } destruct (half k). lia. }
  unfold E, w, s. rewrite (balance mu0 gamma0 theta dt pref Ms mag p u v phi phiv Hext ep eq body rhs y Hmu HMs HP Hone Hrhs Hy).
  fold ds. fold els. replace (defect mag (system_matrix mag els) rhs y) with 0; [ring|].
  symmetry. unfold defect. apply sumn_zero. intros i Hi. destruct (nth i mag false) eqn:Em; auto. apply sumn_zero. intros b Hb.
  specialize (Hs (2 * i + b)%nat ltac:(lia)). rewrite (proj1 (half_of i b Hb)), Em in Hs. rewrite Hs. ring.
Qed.

Definition norm2 (n : nat) (y : list R) : R := sqrt (sumn n (fun k => Rsqr (nth k y 0))).

Lemma lsum_nonneg : forall {X} (f : X -> R) l, (forall z, In z l -> 0 <= f z) -> 0 <= lsum (map f l).
Proof.
  induction l as [|z l IH]; intros H; cbn [map lsum]. { lra. } pose proof (H z (or_introl eq_refl)). specialize (IH (fun z' H' => H z' (or_intror H'))). lra.
Qed.
Lemma lsum_le : forall {X} (f g : X -> R) l, (forall z, In z l -> f z <= g z) -> lsum (map f l) <= lsum (map g l).
Proof.
  induction l as [|z l IH]; intros H; cbn [map lsum]. { lra. } pose proof (H z (or_introl eq_refl)). specialize (IH (fun z' H' => H z' (or_intror H'))). lra.
Qed.

Lemma grad_sq_nonneg : forall q w, 0 < detJ q -> 0 <= grad_sq q w.
Proof.
  intros q w H. unfold grad_sq. assert (0 < calc_vol q) by (rewrite vol_det; lra). apply Rmult_le_pos. { lra. }
  unfold sqn. pose proof (dot_self_nonneg (deriv q w 0)). pose proof (dot_self_nonneg (deriv q w 1)). pose proof (dot_self_nonneg (deriv q w 2)). lra.
Qed.

Lemma velocity_sq : forall gamma0 dt mag p u ep eq ds y i, llg_problem gamma0 dt mag p u ep eq ds -> (i < length mag)%nat -> nth i mag false = true ->
  sqn (velocity ep eq y i) = Rsqr (nth (2 * i) y 0) + Rsqr (nth (2 * i + 1) y 0) /\ dot (u i) (velocity ep eq y i) = 0.
Proof.
  intros gamma0 dt mag p u ep eq ds y i HP Hi Em. destruct (lp_basis _ _ _ _ _ _ _ _ HP i Hi Em) as [(_ & B1 & B2 & B4 & B3 & B5) _].
  unfold velocity, tangent, sqn. split.
  - rewrite dot_add_l, !dot_add_r, !dot_scale_l, !dot_scale_r. rewrite (dot_comm (eq i) (ep i)), B3. unfold unitary in B1, B2. rewrite B1, B2. unfold Rsqr. ring.
  - rewrite dot_add_r, !dot_scale_r. first [rewrite B4, B5 | rewrite B4, (dot_comm (u i)), B5 | rewrite (dot_comm (u i) (ep i)), B4, B5]; ring.
Qed.

(** the damping takes at least the lumped mass times the squared velocity *)
Lemma damping_loss_node : forall gamma0 dt mag p u ep eq ds w, llg_problem gamma0 dt mag p u ep eq ds ->
  sumn (length mag) (fun i => node_mass p ds i * sqn (w i)) <= damping_loss gamma0 dt p ds w.
Proof.
  intros gamma0 dt mag p u ep eq ds w HP.
  assert (M : sumn (length mag) (fun i => node_mass p ds i * sqn (w i)) =
    lsum (map (fun d => 52 / 275 * td_alpha d * tet_vol p (td_tet d) * lsum (map (fun i => sqn (w i)) (tet_nodes (td_tet d)))) ds)).
  { unfold node_mass. pose proof (lp_nodes _ _ _ _ _ _ _ _ HP) as Hl. pose proof (lp_tet _ _ _ _ _ _ _ _ HP) as Ht. clear HP.
    induction ds as [|d l IH]; cbn [map lsum]. { apply sumn_zero. intros; ring. }
    rewrite <- IH; [|intros; eapply Hl; [right|]; eauto|intros; apply Ht; right; assumption].
    rewrite (sum_nodes mag (tet_nodes (td_tet d)) (fun i => sqn (w i))).
    + rewrite <- sumn_scale, <- sumn_plus. apply sumn_ext. intros i _. unfold has_node. destruct (in_dec Nat.eq_dec i (tet_nodes (td_tet d))); ring.
    + apply Ht. left. reflexivity.
    + intros z. apply Hl. left. reflexivity. }
  rewrite M. unfold damping_loss. apply lsum_le. intros d Hd. destruct (lp_tet _ _ _ _ _ _ _ _ HP d Hd) as (H1 & H2 & H3 & _).
  assert (K : forall k, (k < 4)%nat -> 52 / 275 * td_alpha d * calc_vol (corner p (td_tet d)) <=
    contrib (corner p (td_tet d)) (fun j => alpha_eff gamma0 dt (td_alpha d) (td_h d j)) k).
  { intros k Hk. apply contrib_bound; auto. intros j _. apply alpha_eff_bounds; auto. apply (lp_gamma _ _ _ _ _ _ _ _ HP). apply (lp_dt _ _ _ _ _ _ _ _ HP). }
  assert (S4 : forall k, (k < 4)%nat -> 52 / 275 * td_alpha d * tet_vol p (td_tet d) * sqn (corner w (td_tet d) k) <=
    contrib (corner p (td_tet d)) (fun j => alpha_eff gamma0 dt (td_alpha d) (td_h d j)) k * sqn (corner w (td_tet d) k)).
  { intros k Hk. apply Rmult_le_compat_r. { apply dot_self_nonneg. } apply K. exact Hk. }
  pose proof (S4 0%nat ltac:(lia)) as A0. pose proof (S4 1%nat ltac:(lia)) as A1. pose proof (S4 2%nat ltac:(lia)) as A2. pose proof (S4 3%nat ltac:(lia)) as A3.
  unfold tet_nodes in *. cbn [map lsum]. cbn [sumn]. unfold corner in A0, A1, A2, A3 |- *. unfold tet_nodes in *. cbn [nth] in *. lra.
Qed.

Lemma defect_bound : forall mag a rhs y, (forall k, In k (lvd_of mag) -> nth k y 0 = 0) ->
  Rabs (defect mag a rhs y) <= norm2 (2 * length mag) y * residual (2 * length mag) a (lvd_of mag) rhs y.
Proof.
  intros mag a rhs y Hy. set (n := length mag).
  set (rr := fun r => if nth (r / 2) mag false then nth r rhs 0 - sumn (2 * n) (fun c => a r c * nth c y 0) else 0).
  assert (D : defect mag a rhs y = sumn (2 * n) (fun r => nth (2 * (r / 2) + (1 - r mod 2)) y 0 * rr r)).
  { unfold defect. fold n. rewrite sumn_pairs. apply sumn_ext. intros i Hi. destruct (nth i mag false) eqn:Em.
    - apply sumn_ext. intros b Hb. unfold rr. destruct (half_of i b Hb) as [-> ->]. rewrite Em. reflexivity.
    - symmetry. apply sumn_zero. intros b Hb. unfold rr. rewrite (proj1 (half_of i b Hb)), Em. ring. }
  assert (Rr : residual (2 * n) a (lvd_of mag) rhs y = sqrt (sumn (2 * n) (fun r => Rsqr (rr r)))).
  { unfold residual. f_equal. apply sumn_ext. intros r Hr. unfold rr. rewrite masked_mag by exact Hr. destruct (nth (r / 2) mag false); cbn [negb]; auto. symmetry. apply Rsqr_0. }
  assert (P : sumn (2 * n) (fun r => Rsqr (nth (2 * (r / 2) + (1 - r mod 2)) y 0)) = sumn (2 * n) (fun r => Rsqr (nth r y 0))).
  { rewrite !sumn_pairs. apply sumn_ext. intros i Hi. cbn [sumn].
    destruct (half_of i 0 ltac:(lia)) as [E1 E2]. destruct (half_of i 1 ltac:(lia)) as [E3 E4]. rewrite E1, E2, E3, E4. cbn [Nat.sub]. ring. }
  pose proof (cauchy_schwarz (2 * n) (fun r => nth (2 * (r / 2) + (1 - r mod 2)) y 0) rr) as C. cbv beta in C. rewrite P, <- D in C.
  rewrite Rr. unfold norm2. rewrite <- sqrt_mult by (apply sumn_nonneg; intros; apply Rle_0_sqr).
  rewrite <- sqrt_Rsqr_abs. apply sqrt_le_1_alt. exact C.
Qed.

(** Without anisotropy, with theta and the prefactor of the code (theta = 1/2, prefactor >= 1): however inaccurate the solution of
    the system, the energy does not increase by more than what its residual explains; an exact solution decreases it by at least
    the lumped damping. *)
Theorem C95_energy_decreases : forall mu0 gamma0 theta dt pref Ms mag p u v phi phiv Hext ep eq body rhs y lam,
  0 < mu0 -> 0 < Ms -> 1 <= 2 * theta * pref ->
  let ds := map (step_data mu0 gamma0 theta dt pref p u v phi phiv Hext ep eq) body in
  let els := map (llg_elem gamma0 dt p u ep eq) ds in
  let a := system_matrix mag els in let n2 := (2 * length mag)%nat in
  llg_problem gamma0 dt mag p u ep eq ds -> one_material Ms body ->
  (forall m, In m body -> p_K (snd m) = 0 /\ 0 <= p_A (snd m)) ->
  (forall i, (i < length mag)%nat -> nth i mag false = true ->
     lam <= lsum (map (fun d => if has_node i d then 52 / 275 * td_alpha d * tet_vol p (td_tet d) else 0) ds)) ->
  loads (length mag) els rhs -> (forall k, In k (lvd_of mag) -> nth k y 0 = 0) ->
  let s := gamma0 * dt in
  let E := body_energy mu0 p Hext (fun i => phi i + theta * dt * phiv i) body in
  E (moved u (velocity ep eq y) s) + s * mu0 * Ms * lam * Rsqr (norm2 n2 y) <=
  E u + s * mu0 * Ms * (norm2 n2 y * residual n2 a (lvd_of mag) rhs y).
Proof.
  intros mu0 gamma0 theta dt pref Ms mag p u v phi phiv Hext ep eq body rhs y lam Hmu HMs Ht ds els a n2 HP Hone HK Hlam Hrhs Hy s E.
  unfold E, s. rewrite (balance mu0 gamma0 theta dt pref Ms mag p u v phi phiv Hext ep eq body rhs y Hmu HMs HP Hone Hrhs Hy).
  fold ds. fold els. fold a. set (w := velocity ep eq y). set (s' := gamma0 * dt).
  assert (Hs : 0 < s'). { unfold s'. apply Rmult_lt_0_compat. apply (lp_gamma _ _ _ _ _ _ _ _ HP). apply (lp_dt _ _ _ _ _ _ _ _ HP). }
  assert (Hc : 0 < s' * mu0 * Ms) by (apply Rmult_lt_0_compat; [apply Rmult_lt_0_compat|]; assumption).
  assert (U : uniaxial_rest p body s' (theta * dt) v w = 0).
  { unfold uniaxial_rest. apply lsum_zero. intros m Hm. rewrite (proj1 (HK m Hm)). ring. }
  assert (G : 0 <= exchange_stiffness p body w).
  { unfold exchange_stiffness. apply lsum_nonneg. intros m Hm. apply Rmult_le_pos. { apply HK. exact Hm. }
    apply grad_sq_nonneg. destruct (lp_tet _ _ _ _ _ _ _ _ HP (step_data mu0 gamma0 theta dt pref p u v phi phiv Hext ep eq m)) as (H1 & _).
    { unfold ds. apply in_map. exact Hm. } rewrite datum_tet in H1. exact H1. }
  assert (L : lam * Rsqr (norm2 n2 y) <= damping_loss gamma0 dt p ds w).
  { eapply Rle_trans; [|apply (damping_loss_node gamma0 dt mag p u ep eq ds w HP)].
    unfold norm2. rewrite Rsqr_sqrt by (apply sumn_nonneg; intros; apply Rle_0_sqr). unfold n2. rewrite sumn_pairs, <- sumn_scale.
    apply sumn_le. intros i Hi. change (sumn 2 ?f) with (0 + f 0%nat + f 1%nat). cbv beta. rewrite Nat.add_0_r. destruct (nth i mag false) eqn:Em.
    - destruct (velocity_sq gamma0 dt mag p u ep eq ds y i HP Hi Em) as [Q _]. unfold w. rewrite Q. unfold node_mass.
      specialize (Hlam i Hi Em). pose proof (Rle_0_sqr (nth (2 * i) y 0)). pose proof (Rle_0_sqr (nth (2 * i + 1) y 0)). nra.
    - assert (Z : nth (2 * i) y 0 = 0 /\ nth (2 * i + 1) y 0 = 0). { split; apply Hy; apply lvd_in; exists i; auto. }
      destruct Z as [Z1 Z2]. unfold w, velocity. rewrite Z1, Z2. unfold sqn, tangent. rewrite dot_add_l, !dot_scale_l, Rsqr_0. lra. }
  pose proof (defect_bound mag a rhs y Hy) as DB. fold n2 in DB. apply Rabs_le_inv in DB. destruct DB as [DB _].
  rewrite U.
  assert (X1 : 0 <= (2 * theta * pref - 1) * (s' * s') * exchange_stiffness p body w).
  { apply Rmult_le_pos; auto. apply Rmult_le_pos; nra. }
  assert (X2 : s' * mu0 * Ms * (lam * Rsqr (norm2 n2 y)) <= s' * mu0 * Ms * damping_loss gamma0 dt p ds w) by (apply Rmult_le_compat_l; lra).
  assert (X3 : s' * mu0 * Ms * - (norm2 n2 y * residual n2 a (lvd_of mag) rhs y) <= s' * mu0 * Ms * defect mag a rhs y) by (apply Rmult_le_compat_l; lra).
  lra.
Qed.

(** ** The renormalization *)
Lemma unit_contraction : forall a b : vec, 1 <= sqn a -> 1 <= sqn b ->
  sqn (vsub (vnormalize a) (vnormalize b)) <= sqn (vsub a b).
Proof.
  intros a b Ha Hb. unfold vnormalize, sqn in *.
  destruct (Rlt_dec 0 (dot a a)) as [_|N]; [|exfalso; lra]. destruct (Rlt_dec 0 (dot b b)) as [_|N]; [|exfalso; lra].
  set (x := sqrt (dot a a)) in *. set (z := sqrt (dot b b)) in *.
  assert (X1 : 1 <= x). { unfold x. rewrite <- sqrt_1. apply sqrt_le_1_alt. exact Ha. }
  assert (Z1 : 1 <= z). { unfold z. rewrite <- sqrt_1. apply sqrt_le_1_alt. exact Hb. }
  assert (X2 : dot a a = x * x). { unfold x. symmetry. apply sqrt_def. lra. }
  assert (Z2 : dot b b = z * z). { unfold z. symmetry. apply sqrt_def. lra. }
  assert (C : dot a b <= x * z).
  { pose proof (dot_self_nonneg (vsub (vscale z a) (vscale x b))) as Q. rewrite dot_sub_l, !dot_sub_r, !dot_scale_l, !dot_scale_r, X2, Z2, (dot_comm b a) in Q.
    assert (0 < x * z) by nra. nra. }
  rewrite !dot_sub_l, !dot_sub_r, !dot_scale_l, !dot_scale_r, X2, Z2, (dot_comm b a).
  set (c := dot a b) in *.
  replace (/ x * (/ x * (x * x)) - / x * (/ z * c) - (/ z * (/ x * c) - / z * (/ z * (z * z)))) with (2 - 2 * (c / (x * z))) by (field; lra).
  assert (Q : c / (x * z) <= 1). { apply (Rmult_le_reg_r (x * z)). { nra. } replace (c / (x * z) * (x * z)) with c by (field; lra). lra. }
  replace c with (c / (x * z) * (x * z)) at 2 3 by (field; lra). set (k := c / (x * z)) in *.
  assert (0 <= (x - z) * (x - z)) by apply Rle_0_sqr. assert (0 <= (x * z - 1) * (1 - k)) by (apply Rmult_le_pos; nra). nra.
Qed.

(** no obtuse angle: the usual condition on the mesh (gradients of two shape functions never at an acute angle) *)
Definition nonobtuse (q : nat -> vec) : Prop := forall i j, (i < 4)%nat -> (j < 4)%nat -> i <> j -> dot (da q i) (da q j) <= 0.

Lemma grad_edges : forall q u, sqn (deriv q u 0) + sqn (deriv q u 1) + sqn (deriv q u 2) =
  - (dot (da q 0) (da q 1) * sqn (vsub (u 0%nat) (u 1%nat)) + dot (da q 0) (da q 2) * sqn (vsub (u 0%nat) (u 2%nat))
   + dot (da q 0) (da q 3) * sqn (vsub (u 0%nat) (u 3%nat)) + dot (da q 1) (da q 2) * sqn (vsub (u 1%nat) (u 2%nat))
   + dot (da q 1) (da q 3) * sqn (vsub (u 1%nat) (u 3%nat)) + dot (da q 2) (da q 3) * sqn (vsub (u 2%nat) (u 3%nat))).
Proof.
  intros q u. unfold deriv, vsumn, sqn. cbn [sumn]. rewrite da_0. generalize (da q 1) (da q 2) (da q 3) (u 0%nat) (u 1%nat) (u 2%nat) (u 3%nat).
  intros [a1 a2 a3] [b1 b2 b3] [c1 c2 c3] [x1 x2 x3] [y1 y2 y3] [z1 z2 z3] [t1 t2 t3]. unfold dot, vsub, vadd, vscale, vzero. cbn [vx vy vz comp]. ring.
Qed.

Lemma exchange_normalized : forall prm q m, 0 <= p_A prm -> 0 < detJ q -> nonobtuse q -> (forall i, (i < 4)%nat -> 1 <= sqn (m i)) ->
  exchangeEnergy prm q (fun i => vnormalize (m i)) <= exchangeEnergy prm q m.
Proof.
  intros prm q m HA Hd Hq Hm. unfold exchangeEnergy. rewrite !wdot_const. assert (0 < calc_vol q) by (rewrite vol_det; lra).
  apply Rmult_le_compat_l; auto.
  assert (X : forall i j, (i < 4)%nat -> (j < 4)%nat -> i <> j ->
    dot (da q i) (da q j) * sqn (vsub (m i) (m j)) <= dot (da q i) (da q j) * sqn (vsub (vnormalize (m i)) (vnormalize (m j)))).
  { intros i j Hi Hj Hij. pose proof (Hq i j Hi Hj Hij). pose proof (unit_contraction (m i) (m j) (Hm i Hi) (Hm j Hj)). nra. }
  pose proof (X 0%nat 1%nat ltac:(lia) ltac:(lia) ltac:(lia)). pose proof (X 0%nat 2%nat ltac:(lia) ltac:(lia) ltac:(lia)).
  pose proof (X 0%nat 3%nat ltac:(lia) ltac:(lia) ltac:(lia)). pose proof (X 1%nat 2%nat ltac:(lia) ltac:(lia) ltac:(lia)).
  pose proof (X 1%nat 3%nat ltac:(lia) ltac:(lia) ltac:(lia)). pose proof (X 2%nat 3%nat ltac:(lia) ltac:(lia) ltac:(lia)). clear X Hq Hm.
  rewrite !grad_edges. apply Rmult_le_compat_r; [lra|] || apply Rmult_le_compat_l; lra.
Qed.

(** what the renormalization moves *)
Lemma normalized_shift : forall u w s, dot u u = 1 -> dot u w = 0 ->
  let m := vadd u (vscale s w) in
  sqn m = 1 + s * s * sqn w /\ vnorm (vsub (vnormalize m) m) <= s * s * sqn w / 2.
Proof.
  intros u w s Hu Hw m.
  assert (Em : sqn m = 1 + s * s * sqn w).
  { unfold m, sqn. rewrite dot_add_l, !dot_add_r, !dot_scale_l, !dot_scale_r, (dot_comm w u), Hu, Hw. ring. }
  split; auto. assert (Q : 0 <= s * s * sqn w). { apply Rmult_le_pos. apply Rle_0_sqr. apply dot_self_nonneg. }
  unfold vnormalize. unfold sqn in Em at 1. destruct (Rlt_dec 0 (dot m m)) as [_|N]; [|lra].
  set (r := sqrt (dot m m)). assert (R1 : 1 <= r). { unfold r. rewrite <- sqrt_1. apply sqrt_le_1_alt. lra. }
  assert (R2 : dot m m = r * r). { unfold r. symmetry. apply sqrt_def. lra. }
  assert (D : dot (vsub (vscale (/ r) m) m) (vsub (vscale (/ r) m) m) = Rsqr (r - 1)).
  { rewrite dot_sub_l, !dot_sub_r, !dot_scale_l, !dot_scale_r, R2. unfold Rsqr. field. lra. }
  unfold vnorm. rewrite D, sqrt_Rsqr by lra. nra.
Qed.

Lemma cauchy : forall a b : vec, Rabs (dot a b) <= vnorm a * vnorm b.
Proof.
  intros a b. unfold vnorm. rewrite <- sqrt_mult by apply dot_self_nonneg. rewrite <- sqrt_Rsqr_abs. apply sqrt_le_1_alt.
  pose proof (lagrange a b). pose proof (dot_self_nonneg (cross a b)). unfold Rsqr. lra.
Qed.

Definition gauss_field (q : nat -> vec) (Hext : nat -> vec) (phi : nat -> R) (j : nat) : vec := vadd (Hext j) (interp_field q phi).

Lemma local_linear : forall mu0 prm q Hext phi u, p_K prm = 0 -> p_K3 prm = 0 ->
  local_energy mu0 prm q Hext phi u = - mu0 * p_Ms prm * sumn 4 (fun i => sumn NPI (fun j => weight q j * sh i j * dot (u i) (gauss_field q Hext phi j))).
Proof.
  intros mu0 prm q Hext phi u HK HK3. unfold local_energy, uniaxialEnergy, cubicEnergy, zeemanEnergy_space, zeemanEnergy, gauss_field. rewrite HK, HK3, sumn_exchange.
  transitivity (- mu0 * p_Ms prm * wdot q (fun j => dot (vadd (Hext j) (interp_field q phi)) (interpV u j))).
  - rewrite (wdot_ext q (fun j => dot (vadd (Hext j) (interp_field q phi)) (interpV u j)) (fun j => dot (interpV u j) (Hext j) + dot (interpV u j) (interp_field q phi))).
    + rewrite (wdot_plus q (fun j => dot (interpV u j) (Hext j))). ring.
    + intros j _. rewrite dot_comm, dot_add_r. ring.
  - f_equal. unfold wdot. apply sumn_ext. intros j _. rewrite <- test_shape, <- sumn_scale. apply sumn_ext. intros i _. rewrite (dot_comm (u i)). ring.
Qed.

Lemma abs_weights : forall q i, 0 < detJ q -> (i < 4)%nat -> sumn NPI (fun j => Rabs (weight q j * sh i j)) = 13 / 20 * calc_vol q.
Proof.
  intros q i Hd Hi. rewrite vol_det. unfold weight.
  assert (A : forall k, Rabs (detJ q * k) = detJ q * Rabs k). { intros k. rewrite Rabs_mult, (Rabs_right (detJ q)) by lra. reflexivity. }
  rewrite (sumn_ext NPI _ (fun j => detJ q * Rabs (pds j * sh i j))). 2: { intros j _. rewrite Rmult_assoc, A. reflexivity. }
  rewrite sumn_scale.
  assert (W : sumn NPI (fun j => Rabs (pds j * sh i j)) = 13 / 120); [|rewrite W; field].
  assert (N : forall x, x < 0 -> Rabs x = - x) by (intros; apply Rabs_left; assumption).
  assert (P : forall x, 0 <= x -> Rabs x = x) by (intros; apply Rabs_pos_eq; assumption).
  destruct i as [|[|[|[|i]]]]; [| | | |lia]; unfold NPI, pds, sh, gu, gv, gw; cbn [sumn nth];
    rewrite N by lra; rewrite !P by lra; field.
Qed.

Lemma local_normalized : forall mu0 prm q Hext phi u w s hmax, 0 < mu0 -> 0 < p_Ms prm -> p_K prm = 0 -> p_K3 prm = 0 -> 0 < detJ q ->
  (forall i, (i < 4)%nat -> dot (u i) (u i) = 1 /\ dot (u i) (w i) = 0) ->
  (forall j, (j < NPI)%nat -> vnorm (gauss_field q Hext phi j) <= hmax) ->
  local_energy mu0 prm q Hext phi (fun i => vnormalize (moved u w s i)) <=
  local_energy mu0 prm q Hext phi (moved u w s) + mu0 * p_Ms prm * (13 / 40 * hmax * (s * s)) * sumn 4 (fun i => calc_vol q * sqn (w i)).
Proof.
  intros mu0 prm q Hext phi u w s hmax Hmu HMs HK HK3 Hd Hu Hh. rewrite !local_linear by assumption.
  assert (Hc : 0 < mu0 * p_Ms prm) by (apply Rmult_lt_0_compat; assumption).
  assert (Hv : 0 < calc_vol q) by (rewrite vol_det; lra).
  assert (H0 : 0 <= hmax). { eapply Rle_trans; [apply vnorm_pos|apply (Hh 0%nat); unfold NPI; lia]. }
  set (g := gauss_field q Hext phi) in *.
  enough (B : sumn 4 (fun i => sumn NPI (fun j => weight q j * sh i j * dot (moved u w s i) (g j))) - sumn 4 (fun i => sumn NPI (fun j => weight q j * sh i j * dot (vnormalize (moved u w s i)) (g j))) <=
    13 / 40 * hmax * (s * s) * sumn 4 (fun i => calc_vol q * sqn (w i))).
  { apply (Rmult_le_compat_l (mu0 * p_Ms prm)) in B; [|lra]. lra. }
  rewrite <- sumn_minus, <- sumn_scale. apply sumn_le. intros i Hi. rewrite <- sumn_minus.
  destruct (Hu i Hi) as [U1 U2]. destruct (normalized_shift (u i) (w i) s U1 U2) as [_ S]. fold (moved u w s i) in S. cbv zeta in S.
  set (m := moved u w s i) in *. set (d := vnorm (vsub (vnormalize m) m)) in *.
  assert (Hd0 : 0 <= d) by apply vnorm_pos.
  apply Rle_trans with (sumn NPI (fun j => d * hmax * Rabs (weight q j * sh i j))).
  - apply sumn_le. intros j Hj. replace (weight q j * sh i j * dot m (g j) - weight q j * sh i j * dot (vnormalize m) (g j))
      with (- (weight q j * sh i j * dot (vsub (vnormalize m) m) (g j))) by (rewrite dot_sub_l; ring).
    eapply Rle_trans; [apply Rle_abs|]. rewrite Rabs_Ropp, Rabs_mult. rewrite Rmult_comm. apply Rmult_le_compat_r; [apply Rabs_pos|].
    eapply Rle_trans; [apply cauchy|]. fold d. apply Rmult_le_compat_l; auto.
  - rewrite sumn_scale, abs_weights by assumption.
    assert (d * hmax <= s * s * sqn (w i) / 2 * hmax) by (apply Rmult_le_compat_r; assumption).
    apply Rle_trans with (s * s * sqn (w i) / 2 * hmax * (13 / 20 * calc_vol q)). { apply Rmult_le_compat_r; lra. } lra.
Qed.

(** the magnetization that Node::make_evol writes *)
Definition stepped (gamma0 dt : R) (u ep eq : nat -> vec) (y : list R) (i : nat) : vec :=
  d_u (nxt (make_evol (nth (2 * i) y 0 * gamma0) (nth (2 * i + 1) y 0 * gamma0) dt
    (mkNode vzero (ep i) (eq i) (mkData (u i) vzero 0 0) (mkData vzero vzero 0 0)))).

Lemma stepped_moved : forall gamma0 dt u ep eq y i, stepped gamma0 dt u ep eq y i = vnormalize (moved u (velocity ep eq y) (gamma0 * dt) i).
Proof.
  intros. unfold stepped, make_evol. cbn [nxt d_u cur NodeModel.ep eq_]. f_equal. unfold moved, velocity, tangent. f_equal. vring.
Qed.

(** A whole step, renormalization included: no anisotropy, a mesh without obtuse angles, an exact solution of the system and a time step that is
    short before the field, gamma0 dt |H| <= 32/55 alpha. The energy in the applied field and the potential of the step then
    decreases, strictly as soon as a node moves. *)
Theorem C95_full_step_partial : forall mu0 gamma0 theta dt pref Ms mag p u v phi phiv Hext ep eq body rhs y hmax,
  0 < mu0 -> 0 < Ms -> 1 <= 2 * theta * pref ->
  let ds := map (step_data mu0 gamma0 theta dt pref p u v phi phiv Hext ep eq) body in
  let els := map (llg_elem gamma0 dt p u ep eq) ds in
  let potential := fun i => phi i + theta * dt * phiv i in
  llg_problem gamma0 dt mag p u ep eq ds -> one_material Ms body ->
  (forall m, In m body -> p_K (snd m) = 0 /\ 0 <= p_A (snd m) /\ nonobtuse (corner p (fst m)) /\
     gamma0 * dt * hmax <= 32 / 55 * p_alpha (snd m) /\
     forall j, (j < NPI)%nat -> vnorm (vadd (Hext (fst m) j) (interp_field (corner p (fst m)) (corner potential (fst m)))) <= hmax) ->
  loads (length mag) els rhs -> solves mag (system_matrix mag els) rhs y ->
  let E := body_energy mu0 p Hext potential body in
  E (stepped gamma0 dt u ep eq y) + gamma0 * dt * mu0 * Ms *
      lsum (map (fun m => (52 / 275 * p_alpha (snd m) - 13 / 40 * (gamma0 * dt * hmax)) * tet_vol p (fst m)
        * lsum (map (fun i => sqn (velocity ep eq y i)) (tet_nodes (fst m)))) body) <= E u.
Proof.
  intros mu0 gamma0 theta dt pref Ms mag p u v phi phiv Hext ep eq body rhs y hmax Hmu HMs Ht ds els potential HP Hone HB Hrhs Hs E.
  pose proof (C95_energy_balance_partial mu0 gamma0 theta dt pref Ms mag p u v phi phiv Hext ep eq body rhs y Hmu HMs HP Hone Hrhs Hs) as B.
  cbv zeta in B. fold ds in B. fold potential in B. fold E in B. set (w := velocity ep eq y) in *. set (s := gamma0 * dt) in *.
  assert (Hsp : 0 < s). { unfold s. apply Rmult_lt_0_compat. apply (lp_gamma _ _ _ _ _ _ _ _ HP). apply (lp_dt _ _ _ _ _ _ _ _ HP). }
  assert (U : uniaxial_rest p body s (theta * dt) v w = 0).
  { unfold uniaxial_rest. apply lsum_zero. intros m Hm. rewrite (proj1 (HB m Hm)). ring. }
  assert (T : forall m, In m body -> 0 < detJ (corner p (fst m)) /\ 0 < p_alpha (snd m)).
  { intros m Hm. destruct (lp_tet _ _ _ _ _ _ _ _ HP (step_data mu0 gamma0 theta dt pref p u v phi phiv Hext ep eq m)) as (H1 & H2 & _).
    { unfold ds. apply in_map. exact Hm. } rewrite datum_tet in H1. split; auto. destruct m. exact H2. }
  assert (G : 0 <= exchange_stiffness p body w).
  { unfold exchange_stiffness. apply lsum_nonneg. intros m Hm. apply Rmult_le_pos. { apply HB. exact Hm. } apply grad_sq_nonneg. apply T. exact Hm. }
  assert (X1 : 0 <= (2 * theta * pref - 1) * (s * s) * exchange_stiffness p body w).
  { apply Rmult_le_pos; auto. apply Rmult_le_pos; nra. }
  assert (C : forall m i, In m body -> (i < 4)%nat -> dot (corner u (fst m) i) (corner u (fst m) i) = 1 /\ dot (corner u (fst m) i) (corner w (fst m) i) = 0).
  { intros m i Hm Hi. unfold corner. set (k := nth i (tet_nodes (fst m)) 0%nat).
    assert (Hk : In k (tet_nodes (fst m))) by (apply nth_In; exact Hi).
    assert (Hin : In (step_data mu0 gamma0 theta dt pref p u v phi phiv Hext ep eq m) ds) by (apply in_map; exact Hm).
    assert (Hb : (k < length mag)%nat). { apply (lp_nodes _ _ _ _ _ _ _ _ HP _ k Hin). rewrite datum_tet. exact Hk. }
    assert (Em : nth k mag false = true). { apply (lp_mag _ _ _ _ _ _ _ _ HP k Hb). eexists. split; [exact Hin|]. rewrite datum_tet. exact Hk. }
    split. { apply (lp_basis _ _ _ _ _ _ _ _ HP k Hb Em). } apply (velocity_sq gamma0 dt mag p u ep eq ds y k HP Hb Em). }
  assert (N : E (stepped gamma0 dt u ep eq y) <= E (moved u w s)
    + lsum (map (fun m => mu0 * Ms * (13 / 40 * hmax * (s * s)) * sumn 4 (fun i => calc_vol (corner p (fst m)) * sqn (corner w (fst m) i))) body)).
  { unfold E, body_energy. rewrite <- lsum_map_plus. apply lsum_le. intros m Hm. destruct (HB m Hm) as (HK & HA & Ho & _ & Hh).
    destruct (T m Hm) as [Hd Ha]. destruct (Hone m Hm) as [EM EK3].
    pose proof (local_normalized mu0 (snd m) (corner p (fst m)) (Hext (fst m)) (corner potential (fst m)) (corner u (fst m)) (corner w (fst m)) s hmax
      Hmu ltac:(lra) HK EK3 Hd (fun i Hi => C m i Hm Hi) Hh) as L. rewrite EM in L.
    pose proof (exchange_normalized (snd m) (corner p (fst m)) (moved (corner u (fst m)) (corner w (fst m)) s) HA Hd Ho) as X.
    assert (M1 : forall i, (i < 4)%nat -> 1 <= sqn (moved (corner u (fst m)) (corner w (fst m)) s i)).
    { intros i Hi. destruct (C m i Hm Hi) as [C1 C2]. destruct (normalized_shift _ _ s C1 C2) as [Q _]. fold (moved (corner u (fst m)) (corner w (fst m)) s i) in Q. rewrite Q.
      assert (0 <= s * s * sqn (corner w (fst m) i)). { apply Rmult_le_pos. nra. apply dot_self_nonneg. } lra. }
    specialize (X M1).
    change (moved (corner u (fst m)) (corner w (fst m)) s) with (corner (moved u w s) (fst m)) in L, X.
    assert (Q1 : exchangeEnergy (snd m) (corner p (fst m)) (corner (stepped gamma0 dt u ep eq y) (fst m)) = exchangeEnergy (snd m) (corner p (fst m)) (fun i => vnormalize (corner (moved u w s) (fst m) i))).
    { unfold exchangeEnergy, deriv, vsumn, corner. cbn [sumn]. rewrite !stepped_moved. reflexivity. }
    assert (Q2 : local_energy mu0 (snd m) (corner p (fst m)) (Hext (fst m)) (corner potential (fst m)) (corner (stepped gamma0 dt u ep eq y) (fst m)) =
       local_energy mu0 (snd m) (corner p (fst m)) (Hext (fst m)) (corner potential (fst m)) (fun i => vnormalize (corner (moved u w s) (fst m) i))).
    { rewrite !local_linear by assumption. f_equal. apply sumn_ext. intros i _. apply sumn_ext. intros j _. unfold corner. rewrite stepped_moved. reflexivity. }
    rewrite Q1, Q2. lra. }
  rewrite B, U in N.
  assert (D : s * mu0 * Ms * lsum (map (fun m => (52 / 275 * p_alpha (snd m) - 13 / 40 * (s * hmax)) * tet_vol p (fst m) * lsum (map (fun i => sqn (w i)) (tet_nodes (fst m)))) body)
    + lsum (map (fun m => mu0 * Ms * (13 / 40 * hmax * (s * s)) * sumn 4 (fun i => calc_vol (corner p (fst m)) * sqn (corner w (fst m) i))) body)
    <= s * mu0 * Ms * damping_loss gamma0 dt p ds w).
  { unfold damping_loss, ds. rewrite map_map, <- !lsum_map_scale, <- lsum_map_plus. apply lsum_le. intros m Hm. rewrite datum_tet.
    destruct (T m Hm) as [Hd Ha].
    assert (Hcc : 0 < s * mu0 * Ms) by (apply Rmult_lt_0_compat; [apply Rmult_lt_0_compat|]; assumption).
    assert (K : forall k, (k < 4)%nat -> 52 / 275 * p_alpha (snd m) * tet_vol p (fst m) * sqn (corner w (fst m) k) <=
      contrib (corner p (fst m)) (fun j => alpha_eff gamma0 dt (td_alpha (step_data mu0 gamma0 theta dt pref p u v phi phiv Hext ep eq m)) (td_h (step_data mu0 gamma0 theta dt pref p u v phi phiv Hext ep eq m) j)) k * sqn (corner w (fst m) k)).
    { intros k Hk. apply Rmult_le_compat_r. { apply dot_self_nonneg. } apply contrib_bound; auto. intros j _. destruct m as [t prm]. apply alpha_eff_bounds; auto.
      apply (lp_gamma _ _ _ _ _ _ _ _ HP). apply (lp_dt _ _ _ _ _ _ _ _ HP). }
    pose proof (K 0%nat ltac:(lia)) as A0. pose proof (K 1%nat ltac:(lia)) as A1. pose proof (K 2%nat ltac:(lia)) as A2. pose proof (K 3%nat ltac:(lia)) as A3. clear K.
    set (cc := contrib _ _) in *. 
    match goal with |- ?l <= _ => replace l with (s * mu0 * Ms * sumn 4 (fun k => 52 / 275 * p_alpha (snd m) * tet_vol p (fst m) * sqn (corner w (fst m) k))) end.
    - apply Rmult_le_compat_l; [lra|]. cbn [sumn]. lra.
    - unfold tet_vol, tet_nodes, corner, tet_nodes. cbn [sumn map lsum nth]. ring. }
  fold w. lra.
Qed.

(** ** Cases *)
Lemma all_zero_dec : forall m (f : nat -> R), (forall k, (k < m)%nat -> f k = 0) \/ exists k, (k < m)%nat /\ f k <> 0.
Proof.
  induction m as [|m IH]; intros f. { left. intros; lia. }
  destruct (Req_dec (f m) 0) as [E|E]; [|right; exists m; auto]. destruct (IH f) as [H|(k & Hk & H)]; [|right; exists k; auto].
  left. intros k Hk. destruct (Nat.eq_dec k m) as [->|]; auto. apply H. lia.
Qed.

Lemma moving_node : forall gamma0 dt mag p u ep eq ds rhs y r, llg_problem gamma0 dt mag p u ep eq ds ->
  solves mag (system_matrix mag (map (llg_elem gamma0 dt p u ep eq) ds)) rhs y -> (r < 2 * length mag)%nat -> nth (r / 2) mag false = true -> nth r rhs 0 <> 0 ->
  exists i, (i < length mag)%nat /\ nth i mag false = true /\ velocity ep eq y i <> vzero.
Proof.
  intros gamma0 dt mag p u ep eq ds rhs y r HP [Ly Hs] Hr Em Hne.
  destruct (all_zero_dec (2 * length mag) (fun k => nth k y 0)) as [Z|(k & Hk & Nz)].
  - exfalso. apply Hne. specialize (Hs r Hr). rewrite Em in Hs. rewrite <- Hs. apply sumn_zero. intros c Hc. rewrite Z by exact Hc. ring.
  - exists (k / 2)%nat. pose proof (half_lt k _ Hk) as Hi. destruct (half k) as [Ek Lk]. split; auto.
    destruct (nth (k / 2) mag false) eqn:Em2. 2: { specialize (Hs k Hk). rewrite Em2 in Hs. contradiction. }
    split; auto. intros V0. destruct (velocity_sq gamma0 dt mag p u ep eq ds y (k / 2) HP Hi Em2) as [Q _].
    rewrite V0 in Q. unfold sqn in Q. replace (dot vzero vzero) with 0 in Q by (vsimpl; ring).
    pose proof (Rle_0_sqr (nth (2 * (k / 2)) y 0)) as A1. pose proof (Rle_0_sqr (nth (2 * (k / 2) + 1) y 0)) as A2.
    apply Nz. apply Rsqr_0_uniq. destruct (k mod 2)%nat as [|[|z]] eqn:Er; [| |lia].
    + replace k with (2 * (k / 2))%nat at 1 by lia. lra.
    + replace k with (2 * (k / 2) + 1)%nat at 1 by lia. lra.
Qed.

(** Two regions with the same exchange constant and different saturation magnetizations, 1 and 2. The magnetization is uniform, and
    the applied field is a polynomial of z whose energy is stationary. *)
Definition two_pos (i : nat) : vec := nth i [V 0 0 0; V 1 0 0; V 0 1 0; V 0 0 1; V 0 0 (-1)] vzero.
Definition two_prm (Ms : R) : tprm := mkTprm (1 / 2) 1 Ms 0 vzero 0 vzero vzero vzero.
Definition two_body : material_body := [(mkTet 0 1 2 3 0, two_prm 1); (mkTet 0 2 1 4 1, two_prm 2)].
Definition two_field (z : R) : vec := V 0 (-29 - 750 * z + 145 * (z * z) + 2880 * (z * z * z)) 0.
Definition two_Hext (t : tet) (j : nat) : vec := two_field (vz (interpV (corner two_pos t) j)).
Definition two_mag : list bool := [true; true; true; true; true].
Definition ux (_ : nat) : vec := V 1 0 0.
Definition uy (_ : nat) : vec := V 0 1 0.
Definition uz (_ : nat) : vec := V 0 0 1.
Definition no_phi (_ : nat) : R := 0.
Definition two_ds : list tdata := map (step_data 1 1 (1 / 2) (1 / 10) 1 two_pos ux (fun _ => vzero) no_phi no_phi two_Hext uy uz) two_body.

Lemma two_problem : llg_problem 1 (1 / 10) two_mag two_pos ux uy uz two_ds.
Proof.
  constructor; try lra.
  - intros d [<-|[<-|[]]]; cbn [step_data td_tet td_alpha td_pref two_prm p_alpha].
    + split. { unfold detJ, det3, jac, edge1, edge2, edge3, corner, two_pos, vsub. simpl. lra. } split; [lra|]. split.
      * unfold s_dt, Abis. cbn [p_A p_Ms two_prm]. lra.
      * unfold tet_nodes. cbn. repeat constructor; simpl; intuition lia.
    + split. { unfold detJ, det3, jac, edge1, edge2, edge3, corner, two_pos, vsub. simpl. lra. } split; [lra|]. split.
      * unfold s_dt, Abis. cbn [p_A p_Ms two_prm]. lra.
      * unfold tet_nodes. cbn. repeat constructor; simpl; intuition lia.
  - intros d i [<-|[<-|[]]] Hi; cbn in Hi |- *; lia.
  - intros i Hi. split.
    + intros _. cbn in Hi. do 4 (destruct i as [|i]; [eexists; split; [left; reflexivity|cbn; tauto]|]).
      destruct i as [|i]; [eexists; split; [right; left; reflexivity|cbn; tauto]|lia].
    + intros _. cbn in Hi. do 5 (destruct i as [|i]; [reflexivity|]). lia.
  - intros i _ _. unfold ux, uy, uz, orthonormal, unitary. repeat split; try (unfold dot; cbn [vx vy vz]; ring). unfold cross. cbn [vx vy vz]. f_equal; ring.
Qed.

Lemma two_node_moment : forall k i, (k = 0 \/ k = 1)%nat -> (i < 4)%nat ->
  let t := fst (nth k two_body (mkTet 0 0 0 0 0, two_prm 1)) in
  sumn NPI (fun j => weight (corner two_pos t) j * sh i j * vy (two_Hext t j)) =
  (match k with O => - (29 / 9) | _ => 29 / 18 end) * (if (i <? 3)%nat then 1 else 0).
Proof.
  intros k i Hk Hi t.
  assert (D : detJ (corner two_pos t) = 1).
  { unfold t. destruct Hk as [-> | ->]; unfold detJ, det3, jac, edge1, edge2, edge3, corner, two_pos, vsub; simpl; ring. }
  rewrite (sumn_ext NPI _ (fun j => pds j * sh i j * vy (two_Hext t j))).
  2: { intros j _. unfold weight. rewrite D. ring. }
  unfold two_Hext, two_field, interpV, vsumn. cbn [vx vy vz].
  unfold t. clear D t. destruct Hk as [-> | ->]; destruct i as [|[|[|[|i]]]]; try (exfalso; lia);
    unfold corner, two_pos, tet_nodes, NPI, pds, sh, gu, gv, gw, vscale; cbn [nth two_body fst sumn vx vy vz t0 t1 t2 t3 Nat.ltb Nat.leb]; field.
Qed.

Lemma two_moment : forall k (u : nat -> vec), (k = 0 \/ k = 1)%nat ->
  let t := fst (nth k two_body (mkTet 0 0 0 0 0, two_prm 1)) in
  sumn 4 (fun i => sumn NPI (fun j => weight (corner two_pos t) j * sh i j * dot (u i) (gauss_field (corner two_pos t) (two_Hext t) (corner (fun i => no_phi i + 1 / 2 * (1 / 10) * no_phi i) t) j))) =
  (match k with O => - (29 / 9) | _ => 29 / 18 end) * (vy (u 0%nat) + vy (u 1%nat) + vy (u 2%nat)).
Proof.
  intros k u Hk t.
  assert (G : forall j, gauss_field (corner two_pos t) (two_Hext t) (corner (fun i => no_phi i + 1 / 2 * (1 / 10) * no_phi i) t) j = two_Hext t j).
  { intros j. unfold gauss_field, interp_field, corner, no_phi. apply vec_eq; unfold vsumn; cbn [sumn]; vsimpl; ring. }
  rewrite (sumn_ext 4 _ (fun i => vy (u i) * ((match k with O => - (29 / 9) | _ => 29 / 18 end) * (if (i <? 3)%nat then 1 else 0)))).
  - cbn [sumn Nat.ltb Nat.leb]. ring.
  - intros i Hi. rewrite <- (two_node_moment k i Hk Hi). fold t. rewrite <- sumn_scale. apply sumn_ext. intros j _. rewrite G. unfold two_Hext, two_field, dot. cbn [vx vy vz]. ring.
Qed.

Notation two_E := (body_energy 1 two_pos two_Hext (fun i => no_phi i + 1 / 2 * (1 / 10) * no_phi i) two_body).
Lemma two_energy : forall u, two_E u = exchangeEnergy (two_prm 1) (corner two_pos (mkTet 0 1 2 3 0)) (corner u (mkTet 0 1 2 3 0))
  + exchangeEnergy (two_prm 2) (corner two_pos (mkTet 0 2 1 4 1)) (corner u (mkTet 0 2 1 4 1)).
Proof.
  intros u. unfold body_energy. cbn [map two_body lsum fst snd].
  rewrite !local_linear by reflexivity. pose proof (two_moment 0 (corner u (mkTet 0 1 2 3 0)) ltac:(auto)) as M0. pose proof (two_moment 1 (corner u (mkTet 0 2 1 4 1)) ltac:(auto)) as M1.
  cbv zeta in M0, M1. cbn [nth two_body fst] in M0, M1. rewrite M0, M1. unfold corner, tet_nodes. cbn [nth t0 t1 t2 t3 p_Ms two_prm]. lra.
Qed.

Lemma two_minimum : forall u, two_E ux <= two_E u.
Proof.
  intros u. rewrite !two_energy.
  assert (Z : forall Ms t, exchangeEnergy (two_prm Ms) (corner two_pos t) (corner ux t) = 0).
  { intros Ms t. unfold exchangeEnergy. rewrite wdot_const, grad_edges. unfold corner, ux, sqn. replace (vsub (V 1 0 0) (V 1 0 0)) with vzero by vring.
    replace (dot vzero vzero) with 0 by (vsimpl; ring). ring. }
  rewrite !Z.
  assert (P : forall Ms t, 0 < detJ (corner two_pos t) -> 0 <= exchangeEnergy (two_prm Ms) (corner two_pos t) (corner u t)).
  { intros Ms t Hd. unfold exchangeEnergy. rewrite wdot_const. pose proof (grad_sq_nonneg (corner two_pos t) (corner u t) Hd) as Q. unfold grad_sq in Q. cbn [p_A two_prm]. lra. }
  pose proof (lp_tet _ _ _ _ _ _ _ _ two_problem) as Ht.
  pose proof (P 1 _ (proj1 (Ht _ (or_introl eq_refl)))) as P1. pose proof (P 2 _ (proj1 (Ht _ (or_intror (or_introl eq_refl))))) as P2.
  cbn [step_data td_tet] in P1, P2. lra.
Qed.

(** the right-hand side as a list *)
Definition rhs_list (n : nat) (els : list (elem R)) : list R := map (fun r => lsum (map (fun e => loading e (r / 2) (r mod 2)) els)) (seq 0 (2 * n)).
Lemma rhs_list_loads : forall n els, loads n els (rhs_list n els).
Proof.
  intros n els i d Hi Hd. unfold rhs_list. rewrite (nth_indep _ 0 ((fun r => lsum (map (fun e => loading e (r / 2) (r mod 2)) els)) 0%nat)) by (rewrite map_length, seq_length; lia).
  rewrite (map_nth (fun r => lsum (map (fun e => loading e (r / 2) (r mod 2)) els))), seq_nth by lia. cbn [plus]. destruct (half_of i d Hd) as [-> ->]. reflexivity.
Qed.

(** with a uniform magnetization the right-hand side of a tetrahedron is the field *)
Lemma uniform_BE : forall mu0 gamma0 theta prm dt Hext q (u0 : vec) i, p_K prm = 0 -> p_K3 prm = 0 ->
  BE mu0 gamma0 theta prm dt Hext (fun _ => vzero) None 0 q (mkTnod (fun _ => u0) (fun _ => vzero) (fun _ => 0) (fun _ => 0)) i =
  vsumn NPI (fun j => vscale (weight q j * sh i j) (Hext j)).
Proof.
  intros mu0 gamma0 theta prm dt Hext q u0 i HK HK3. unfold BE, drift_BE.
  assert (D : forall k, deriv q (fun _ => u0) k = vzero).
  { intros k. unfold deriv, vsumn. cbn [sumn]. rewrite da_0. destruct k as [|[|k]]; unfold comp, vsub, vadd, vzero, vscale; cbn [vx vy vz]; apply vec_eq; cbn [vx vy vz]; ring. }
  assert (Hd0 : Hd q (mkTnod (fun _ => u0) (fun _ => vzero) (fun _ => 0) (fun _ => 0)) = vzero) by (unfold Hd, interp_field, vsumn; cbn [n_phi sumn]; apply vec_eq; vsimpl; ring).
  assert (Hv0 : Hv q (mkTnod (fun _ => u0) (fun _ => vzero) (fun _ => 0) (fun _ => 0)) = vzero) by (unfold Hv, interp_field, vsumn; cbn [n_phiv sumn]; apply vec_eq; vsimpl; ring).
  rewrite Hd0, Hv0. cbn [n_u]. rewrite !D. unfold H_aniso. rewrite HK, HK3, Req_bool_true by reflexivity. cbn [fst].
  assert (E : forall (a b : nat -> vec), (forall j, (j < NPI)%nat -> a j = b j) -> vsumn NPI a = vsumn NPI b).
  { intros a b H. unfold vsumn. f_equal; apply sumn_ext; intros j Hj; rewrite H by exact Hj; reflexivity. }
  rewrite (E _ (fun j => vscale (weight q j * sh i j) (Hext j))).
  - unfold vsumn. apply vec_eq; vsimpl; ring.
  - intros j _. apply vec_eq; vsimpl; ring.
Qed.

Lemma two_rhs : nth 1 (rhs_list 5 (map (llg_elem 1 (1 / 10) two_pos ux uy uz) two_ds)) 0 = - (29 / 18).
Proof.
  change 1%nat with (2 * 0 + 1)%nat. rewrite (rhs_list_loads 5 _ 0%nat 1%nat) by lia. unfold two_ds. rewrite map_map. cbn [map two_body lsum].
  unfold loading. change (e_N ?e) with 4%nat. cbn [sumn].
  change (e_nod (llg_elem 1 (1 / 10) two_pos ux uy uz ?d) ?k) with (nth k (tet_nodes (td_tet d)) 0%nat). cbn [step_data td_tet tet_nodes nth t0 t1 t2 t3 Nat.eqb].
  cbn [llg_elem e_Le td_Le]. destruct (idx4 1 0 ltac:(lia)) as [-> ->].
  rewrite !(proj1 (C84_rows _ _ _ _ _ _ _ _ _ _ _ 0 0 vzero _ _ _ _)). cbn [row_vector].
  pose proof (two_node_moment 0 0 ltac:(auto) ltac:(lia)) as M0. pose proof (two_node_moment 1 0 ltac:(auto) ltac:(lia)) as M1.
  cbv zeta in M0, M1. cbn [nth two_body fst Nat.ltb Nat.leb] in M0, M1.
  pose proof (uniform_BE 1 1 (1 / 2) (two_prm 1) (1 / 10) (two_Hext (mkTet 0 1 2 3 0)) (corner two_pos (mkTet 0 1 2 3 0)) (V 1 0 0) 0 eq_refl eq_refl) as U0.
  pose proof (uniform_BE 1 1 (1 / 2) (two_prm 2) (1 / 10) (two_Hext (mkTet 0 2 1 4 1)) (corner two_pos (mkTet 0 2 1 4 1)) (V 1 0 0) 0 eq_refl eq_refl) as U1.
  repeat match goal with |- context [mkTnod ?x1 ?x2 ?x3 ?x4] =>
    lazymatch x1 with (fun _ => V 1 0 0) => fail | _ => change (mkTnod x1 x2 x3 x4) with (mkTnod (fun _ => V 1 0 0) (fun _ => vzero) (fun _ => 0) (fun _ => 0)) end end.
  rewrite U0, U1. clear U0 U1. rewrite !vsumn_dot.
  assert (W : forall q H, (forall j, vx (H j) = 0 /\ vz (H j) = 0) -> sumn NPI (fun j => dot (vscale (weight q j * sh 0 j) (H j)) (V 0 1 0)) = sumn NPI (fun j => weight q j * sh 0 j * vy (H j))).
  { intros q H _. apply sumn_ext. intros j _. unfold dot, vscale. cbn [vx vy vz]. ring. }
  change (corner uy ?t 0%nat) with (V 0 1 0). rewrite !W by (intros j; split; reflexivity). rewrite M0, M1. lra.
Qed.

(** When the saturation magnetization is not the same everywhere: the magnetization is the one of least energy among all, and yet the
    step moves it. The equations of the elements are divided by their Ms before they are added at the nodes of the interface. *)
Theorem C95_two_materials_refuted : exists rhs y,
  llg_problem 1 (1 / 10) two_mag two_pos ux uy uz two_ds /\
  loads 5 (map (llg_elem 1 (1 / 10) two_pos ux uy uz) two_ds) rhs /\
  solves two_mag (system_matrix two_mag (map (llg_elem 1 (1 / 10) two_pos ux uy uz) two_ds)) rhs y /\
  (forall u, body_energy 1 two_pos two_Hext (fun i => no_phi i + 1 / 2 * (1 / 10) * no_phi i) two_body ux <=
             body_energy 1 two_pos two_Hext (fun i => no_phi i + 1 / 2 * (1 / 10) * no_phi i) two_body u) /\
  exists i, (i < 5)%nat /\ velocity uy uz y i <> vzero.
Proof.
  set (rhs := rhs_list 5 (map (llg_elem 1 (1 / 10) two_pos ux uy uz) two_ds)).
  destruct (C77_unique_solution 1 (1 / 10) two_mag two_pos ux uy uz two_ds rhs two_problem) as (y & Hy & _).
  exists rhs, y. split; [exact two_problem|]. split; [apply rhs_list_loads|]. split; [exact Hy|]. split; [exact two_minimum|].
  destruct (moving_node 1 (1 / 10) two_mag two_pos ux uy uz two_ds rhs y 1 two_problem Hy) as (i & Hi & _ & Nz).
  - cbn. lia.
  - reflexivity.
  - unfold rhs. rewrite two_rhs. lra.
  - exists i. auto.
Qed.

(** ** The hypotheses are met: the upper tetrahedron alone, in a field along y of amplitude 1/10; the magnetization moves *)
Definition one_body : material_body := [(mkTet 0 1 2 3 0, two_prm 1)].
Definition one_Hext (t : tet) (j : nat) : vec := V 0 (1 / 10) 0.
Definition one_mag : list bool := [true; true; true; true; false].
Definition one_ds : list tdata := map (step_data 1 1 (1 / 2) (1 / 10) 1 two_pos ux (fun _ => vzero) no_phi no_phi one_Hext uy uz) one_body.

Example C95_nonvacuous : exists rhs y,
  llg_problem 1 (1 / 10) one_mag two_pos ux uy uz one_ds /\ one_material 1 one_body /\
  (forall m, In m one_body -> p_K (snd m) = 0 /\ 0 <= p_A (snd m) /\ nonobtuse (corner two_pos (fst m)) /\ 1 * (1 / 10) * (1 / 10) <= 32 / 55 * p_alpha (snd m) /\
     forall j, (j < NPI)%nat -> vnorm (vadd (one_Hext (fst m) j) (interp_field (corner two_pos (fst m)) (corner (fun i => no_phi i + 1 / 2 * (1 / 10) * no_phi i) (fst m)))) <= 1 / 10) /\
  loads 5 (map (llg_elem 1 (1 / 10) two_pos ux uy uz) one_ds) rhs /\
  solves one_mag (system_matrix one_mag (map (llg_elem 1 (1 / 10) two_pos ux uy uz) one_ds)) rhs y /\
  exists i, (i < 5)%nat /\ nth i one_mag false = true /\ velocity uy uz y i <> vzero.
Proof.
  assert (P : llg_problem 1 (1 / 10) one_mag two_pos ux uy uz one_ds).
  { destruct two_problem as [A1 A2 A3 A4 A5 A6]. constructor; auto.
    - intros d [<-|[]]. pose proof (A3 _ (or_introl eq_refl)) as A. exact A.
    - intros d i [<-|[]] Hi. cbn in Hi |- *. lia.
    - intros i Hi. split.
      + intros Em. exists (step_data 1 1 (1 / 2) (1 / 10) 1 two_pos ux (fun _ => vzero) no_phi no_phi one_Hext uy uz (mkTet 0 1 2 3 0, two_prm 1)).
        split; [left; reflexivity|]. cbn in Hi. do 4 (destruct i as [|i]; [cbn; tauto|]). destruct i as [|i]; [discriminate|lia].
      + intros (d & [<-|[]] & Hin). cbn in Hin. repeat (destruct Hin as [<-|Hin]; [reflexivity|]). contradiction. 
    - intros i Hi _. apply A6. { exact Hi. } cbn in Hi. do 5 (destruct i as [|i]; [reflexivity|]). lia. }
  assert (D : detJ (corner two_pos (mkTet 0 1 2 3 0)) = 1).
  { unfold detJ, det3, jac, edge1, edge2, edge3, corner, two_pos, vsub; simpl; ring. }
  set (rhs := rhs_list 5 (map (llg_elem 1 (1 / 10) two_pos ux uy uz) one_ds)).
  destruct (C77_unique_solution 1 (1 / 10) one_mag two_pos ux uy uz one_ds rhs P) as (y & Hy & _).
  exists rhs, y. split; [exact P|]. split. { intros m [<-|[]]. split; reflexivity. }
  split; [|split; [apply rhs_list_loads|split; [exact Hy|]]].
  - intros m [<-|[]]. cbn [fst snd two_prm p_K p_A p_alpha]. split; [reflexivity|]. split; [lra|]. split; [|split; [lra|]].
    + assert (Q1 : da (corner two_pos (mkTet 0 1 2 3 0)) 1 = V 1 0 0) by (rewrite da_1, D; apply vec_eq; unfold edge2, edge3, corner, two_pos; vsimpl; field).
      assert (Q2 : da (corner two_pos (mkTet 0 1 2 3 0)) 2 = V 0 1 0) by (rewrite da_2, D; apply vec_eq; unfold edge1, edge3, corner, two_pos; vsimpl; field).
      assert (Q3 : da (corner two_pos (mkTet 0 1 2 3 0)) 3 = V 0 0 1) by (rewrite da_3, D; apply vec_eq; unfold edge1, edge2, corner, two_pos; vsimpl; field).
      assert (Q0 : da (corner two_pos (mkTet 0 1 2 3 0)) 0 = V (-1) (-1) (-1)) by (rewrite da_0, Q1, Q2, Q3; apply vec_eq; vsimpl; ring).
      intros i j Hi Hj Hij. destruct i as [|[|[|[|i]]]]; destruct j as [|[|[|[|j]]]]; try (exfalso; lia); rewrite ?Q0, ?Q1, ?Q2, ?Q3; vsimpl; lra.
    + intros j Hj. replace (vadd _ _) with (V 0 (1 / 10) 0). 2: { unfold one_Hext, interp_field, corner, no_phi, vsumn. cbn [sumn]. apply vec_eq; vsimpl; ring. }
      unfold vnorm, dot. cbn [vx vy vz]. replace (0 * 0 + 1 / 10 * (1 / 10) + 0 * 0) with (1 / 10 * (1 / 10)) by ring. rewrite sqrt_square; lra.
  - apply (moving_node 1 (1 / 10) one_mag two_pos ux uy uz one_ds rhs y 1 P Hy).
    + cbn. lia.
    + reflexivity.
    + unfold rhs. change 1%nat with (2 * 0 + 1)%nat. rewrite (rhs_list_loads 5 _ 0%nat 1%nat) by lia. unfold one_ds. rewrite map_map. cbn [map one_body lsum].
      unfold loading. change (e_N ?e) with 4%nat. cbn [sumn].
      change (e_nod (llg_elem 1 (1 / 10) two_pos ux uy uz ?d) ?k) with (nth k (tet_nodes (td_tet d)) 0%nat). cbn [step_data td_tet tet_nodes nth t0 t1 t2 t3 Nat.eqb].
      cbn [llg_elem e_Le td_Le]. destruct (idx4 1 0 ltac:(lia)) as [-> ->].
      rewrite !(proj1 (C84_rows _ _ _ _ _ _ _ _ _ _ _ 0 0 vzero _ _ _ _)). cbn [row_vector].
      pose proof (uniform_BE 1 1 (1 / 2) (two_prm 1) (1 / 10) (one_Hext (mkTet 0 1 2 3 0)) (corner two_pos (mkTet 0 1 2 3 0)) (V 1 0 0) 0 eq_refl eq_refl) as U0.
      repeat match goal with |- context [mkTnod ?x1 ?x2 ?x3 ?x4] =>
        lazymatch x1 with (fun _ => V 1 0 0) => fail | _ => change (mkTnod x1 x2 x3 x4) with (mkTnod (fun _ => V 1 0 0) (fun _ => vzero) (fun _ => 0) (fun _ => 0)) end end.
      rewrite U0, vsumn_dot. change (corner uy ?t 0%nat) with (V 0 1 0).
      rewrite (sumn_ext NPI _ (fun j => / 10 * (sh 0 j * weight (corner two_pos (mkTet 0 1 2 3 0)) j))).
      2: { intros j _. unfold dot, vscale, one_Hext. cbn [vx vy vz]. field. }
      rewrite sumn_scale. fold (a_w (corner two_pos (mkTet 0 1 2 3 0)) 0). rewrite a_w_vol by lia. rewrite vol_det, D. lra.
Qed.

Print Assumptions C95_element.
Print Assumptions C95_energy_balance_partial.
Print Assumptions C95_energy_decreases.
Print Assumptions C95_full_step_partial.
Print Assumptions C95_two_materials_refuted.
