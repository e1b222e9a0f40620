(** * Complements of C35, C41, C54, C74 and C88: facts on constants and small functions of the program that those properties rest on *)
From Coq Require Import Ascii String ZArith NArith Arith Bool Lia Reals Lra.
From Coq Require Import List.
From Flocq Require Import Core IEEE754.Binary IEEE754.Bits.
From Verif Require Import Arith Vec Sums LinAlg SparseModel ConcModel IterModel IterExact StdModel MeshModel ElemModel AvgModel ElemProps
  AsmModel AsmProof SettingsModel TransportModel WeakProps.
From Verif Require TextModel RecenterModel SolModel IterProps SpinProps.
Import ListNotations.
Local Open Scope R_scope.

(** ** C35: the two bounds of the loops over the nodes are the largest finite double and the smallest positive normal one *)
Theorem C35_bounds :
  (forall x : binary64, Rabs (B2R 53 1024 x) <= DBL_MAX) /\ (exists x : binary64, B2R 53 1024 x = DBL_MAX) /\
  (exists x : binary64, B2R 53 1024 x = DBL_MIN) /\ DBL_MIN * 2 ^ 1022 = 1.
Proof.
  assert (E : DBL_MAX = bpow radix2 1024 - bpow radix2 (1024 - 53)).
  { unfold DBL_MAX. rewrite <- !IZR_Zpower by lia. rewrite <- minus_IZR. f_equal. }
  split; [|split; [|split]].
  - intros x. rewrite E. apply (abs_B2R_le_emax_minus_prec 53 1024). reflexivity.
  - exists (B754_finite 53 1024 false 9007199254740991 971 eq_refl). unfold B2R, F2R. cbn [Fnum Fexp cond_Zopp]. unfold DBL_MAX. rewrite mult_IZR. f_equal.
  - exists (B754_finite 53 1024 false 4503599627370496 (-1074) eq_refl). unfold B2R, F2R. cbn [Fnum Fexp cond_Zopp]. unfold DBL_MIN.
    change (IZR (Z.pos 4503599627370496)) with (IZR (Zpower radix2 52)). rewrite IZR_Zpower by lia. rewrite <- bpow_plus. reflexivity.
  - unfold DBL_MIN. rewrite pow_IZR. change (IZR (2 ^ Z.of_nat 1022)) with (IZR (Zpower radix2 1022)). rewrite IZR_Zpower by lia. rewrite <- bpow_plus. reflexivity.
Qed.

(** ** C54: the two points where the magnetization is read are the middles of the two faces of the box across the axis *)
Theorem C54_ends : forall c l a,
  coord a (RecenterModel.left_pt c l a) = coord a c - coord a l / 2 /\
  coord a (RecenterModel.right_pt c l a) = coord a c + coord a l / 2 /\
  forall b, b <> a -> coord b (RecenterModel.left_pt c l a) = coord b c /\ coord b (RecenterModel.right_pt c l a) = coord b c.
Proof.
  intros [cx cy cz] [lx ly lz] a. unfold RecenterModel.left_pt, RecenterModel.right_pt.
  split; [|split; [|intros b Hb; split]]; destruct a; try destruct b; try congruence;
    cbv [RecenterModel.unit_of coord vx vy vz vadd vsub vscale]; field.
Qed.

(** ** C74: the second order term of the cubic anisotropy, component by component. The component c uses the coordinate c of the first axis
    where the c-th axis is expected: with the axes of the mesh only the first component is corrected. *)
Theorem C74_cubic_correction : forall ex ey ez k s U W,
  let d := vsub (fst (aniso_cub ex ey ez k s U W)) (fst (aniso_cub ex ey ez k 0 U W)) in
  vx d = - k * s * (dot ex W * vx ex * (1 - 3 * (dot ex U)²)) /\
  vy d = - k * s * (dot ey W * vy ex * (1 - 3 * (dot ey U)²)) /\
  vz d = - k * s * (dot ez W * vz ex * (1 - 3 * (dot ez U)²)).
Proof.
  intros ex ey ez k s U W d. unfold d, aniso_cub, cwise. cbv zeta. cbn [fst]. generalize (dot ex U) (dot ey U) (dot ez U) (dot ex W) (dot ey W) (dot ez W). intros a b c a' b' c'.
  unfold vsub, vadd, vscale, Rsqr. cbn [vx vy vz]. repeat split; ring.
Qed.
(** with the axes of the mesh: the first component is the derivative of the field along the velocity *)
Theorem C74_cubic_first_component : forall k s U W, exists rate,
  derivable_pt_lim (fun t => vx (fst (aniso_cub (V 1 0 0) (V 0 1 0) (V 0 0 1) k 0 (vadd U (vscale t W)) W))) 0 rate /\
  vx (fst (aniso_cub (V 1 0 0) (V 0 1 0) (V 0 0 1) k s U W)) = vx (fst (aniso_cub (V 1 0 0) (V 0 1 0) (V 0 0 1) k 0 U W)) + s * rate.
Proof.
  intros k s [a b c] [d e f]. exists (- k * (d * (1 - 3 * (a * a)))).
  assert (F : forall t a d b c e f, vx (fst (aniso_cub (V 1 0 0) (V 0 1 0) (V 0 0 1) k t (V a b c) (V d e f))) = - k * (a * (1 - a * a) + t * (d * (1 - 3 * (a * a))))).
  { clear. intros. cbv [aniso_cub uuu cwise fst vz vscale vadd vsub dot vx vy]. ring. }
  split.
  - apply poly_deriv. exists (3 * k * a * d * d), (k * d * d * d), 0. intros t. unfold vadd, vscale. cbn [vx vy vz]. rewrite !F. ring.
  - rewrite !F. ring.
Qed.

(** ** C88: the elements of the spin diffusion problem, and the failure of the first resolution *)
Theorem C88_elements : forall mub e ratio p x m vols surfs t f b b' i j, (i < 4)%nat -> (j < 4)%nat ->
  let prm := vol_of vols t in let sigma := real (SettingsModel.t_sigma prm) in
  e_Ke (spin_tet mub e p x m vols t) (b * 4 + i) (b' * 4 + j) =
    spin_Ke (diffusion_cst e sigma (real (SettingsModel.t_N0 prm))) (real (SettingsModel.t_lsf prm)) (real (SettingsModel.t_lsd prm)) (is_magnetic prm) (corner p t) (corner m t) b b' i j /\
  e_Le (spin_tet mub e p x m vols t) (b * 4 + i) = spin_Le mub e (real (SettingsModel.t_P prm)) sigma (is_magnetic prm) (corner p t) (corner x t) (corner m t) b i /\
  ((i < 3)%nat -> e_Le (spin_tri ratio p surfs f) (b * 3 + i) = spin_surface_Le (spin_surface_value ratio (surf_of surfs f)) (corner3 p f) b i).
Proof.
  assert (A : forall n b i, (i < n)%nat -> ((b * n + i) / n = b)%nat /\ ((b * n + i) mod n = i)%nat).
  { intros n b i H. split; [rewrite Nat.div_add_l, Nat.div_small by lia; lia|rewrite Nat.add_comm, Nat.mod_add, Nat.mod_small by lia; lia]. }
  intros mub e ratio p x m vols surfs t f b b' i j Hi Hj prm sigma. destruct (A 4%nat b i Hi) as [E1 E2]. destruct (A 4%nat b' j Hj) as [E3 E4].
  unfold spin_tet. cbn [e_Ke e_Le]. rewrite E1, E2, E3, E4. split; [reflexivity|]. split; [reflexivity|].
  intros H3. destruct (A 3%nat b i H3) as [E5 E6]. unfold spin_tri. cbn [e_Le]. rewrite E5, E6. reflexivity.
Qed.

(** When the first resolution of the spin problem fails the program stops, and so it does when the potential is not found. *)
Theorem C88_start_fails : forall passes n p edges tets tris vols surfs mub e m (it_e it_s it : iteration XA) X,
  spin_check vols surfs = true -> elec_check surfs = true ->
  elec_solve passes it_e (new_matrix (build_shape 1 n edges (fun _ => true))) n
    (map (fun t => lift (elec_tet p vols t)) tets) (map (fun t => lift (elec_tri p surfs t)) tris) (elec_dirichlet n surfs tris) = Some (it, X) ->
  (status it <> CONVERGED \/
   exists st, spin_compute passes n (map (fun t => lift (spin_tet mub e p (fun i => real (nth i X n0)) m vols t)) tets)
     (map (fun t => lift (spin_tri (mub / e) p surfs t)) tris) (spin_dirichlet (Fin (mub / e) : num XA) n surfs tris) (spin_fresh it_s n edges) = Some (false, st)) ->
  spin_start passes it_e it_s mub e p m n edges tets tris vols surfs = Some None.
Proof.
  intros passes n p edges tets tris vols surfs mub e m it_e it_s it X C1 C2 E H. unfold spin_start. rewrite C1, C2, E. destruct H as [H|(st & H)].
  - destruct (status it); try reflexivity. congruence.
  - destruct (status it); try reflexivity. rewrite H. reflexivity.
Qed.

Import IterProps SpinProps.
(** a case: the program starts with the tolerance 1 (C88_start_nonvacuous); it stops when the tolerance of the spin problem is not a number *)
Lemma nan_finished : forall (it : iteration XA) y, resmax it = (NaN : num XA) -> status it <> CONVERGED ->
  fst (finished it y) = false /\ resmax (snd (finished it y)) = (NaN : num XA) /\ status (snd (finished it y)) <> CONVERGED.
Proof.
  assert (C : forall (it : iteration XA) y, resmax it = (NaN : num XA) -> status it <> CONVERGED ->
    fst (converged it y) = false /\ resmax (snd (converged it y)) = (NaN : num XA) /\ status (snd (converged it y)) <> CONVERGED).
  { intros [r mx no ni re wr st rm] y H S. cbn [resmax status] in H, S. subst rm. unfold converged, converged0. cbn [rhsn maxiter noise nit IterModel.res written status resmax].
    destruct (nisnan (nabs y)); [cbn; repeat split; discriminate|].
    replace (nle (nabs y) (nmul r (NaN : num XA))) with false; [cbn; auto|]. cbn. unfold xmul. destruct r; destruct y; reflexivity. }
  intros it y H S. unfold finished. destruct (noise it && negb (written it)); [|apply C; assumption].
  destruct (C it y H S) as (_ & H2 & S2). apply C; assumption.
Qed.
Lemma nan_bicg : forall passes M ld D rt (s : bstate XA) it x, resmax (b_it s) = (NaN : num XA) -> status (b_it s) <> CONVERGED ->
  bicg_loop passes M ld D rt s = Some (it, x) -> status it <> CONVERGED.
Proof.
  induction passes as [|k IH]; intros M ld D rt s it x H S E; [discriminate|]. cbn [bicg_loop] in E. unfold bicg_pass in E.
  destruct (nan_finished (b_it s) (vnorm2 (b_r s)) H S) as (F1 & H1 & S1). destruct (finished (b_it s) (vnorm2 (b_r s))) as [fin it1]. cbn [fst snd] in F1, H1, S1. subst fin. cbn zeta iota in E.
  destruct ((0 <? nit it1)%Z && (neq (b_rho2 s) n0 || neq (b_omega s) n0)). { injection E as <- _. cbn. discriminate. }
  match type of E with context [finished it1 ?y] => destruct (nan_finished it1 y H1 S1) as (F2 & H2 & S2); destruct (finished it1 y) as [fin2 it2] end.
  cbn [fst snd] in F2, H2, S2. subst fin2. destruct (is_stop (status it2)). { injection E as <- _. exact S2. }
  apply IH in E; cbn [b_it]; auto; unfold incr; destruct (_ <=? _)%Z; cbn; auto; discriminate.
Qed.
Lemma nan_solve : forall passes (it it' : iteration XA) M x rhs xd ld x', resmax it = (NaN : num XA) -> status it <> CONVERGED ->
  solve BicgDir passes it M x rhs xd ld = Some (it', x') -> status it' <> CONVERGED.
Proof.
  intros passes it it' M x rhs xd ld x' H S E. cbn [solve] in E. unfold bicg_dir in E.
  match type of E with context [bicg_loop ?a ?b ?c ?d ?e ?f] => destruct (bicg_loop a b c d e f) as [[i y]|] eqn:L; [|discriminate] end.
  injection E as <- _. eapply nan_bicg; [| |exact L]; cbn; auto.
Qed.
Lemma started : forall passes n p edges tets tris vols surfs mub e m (it_e it_s : iteration XA) X st,
  spin_start passes it_e it_s mub e p m n edges tets tris vols surfs = Some (Some (X, st)) ->
  spin_check vols surfs = true /\ elec_check surfs = true /\ exists it X',
  elec_solve passes it_e (new_matrix (build_shape 1 n edges (fun _ => true))) n
    (map (fun t => lift (elec_tet p vols t)) tets) (map (fun t => lift (elec_tri p surfs t)) tris) (elec_dirichlet n surfs tris) = Some (it, X').
Proof.
  intros passes n p edges tets tris vols surfs mub e m it_e it_s X st H. unfold spin_start in H.
  destruct (spin_check vols surfs); [|discriminate]. destruct (elec_check surfs); [|discriminate].
  match type of H with context [elec_solve ?a ?b ?c ?d ?e ?f ?g] => destruct (elec_solve a b c d e f g) as [[it X']|]; [|discriminate] end.
  split; [reflexivity|]. split; [reflexivity|]. exists it, X'. reflexivity.
Qed.
Lemma fails_call : forall pot m, exists st,
  call 6 5 two_pos start_tets two_tris start_vols start_surfs 1 1 pot m (spin_fresh (new_iter (NaN : num XA) false 4) 5 two_edges) = Some (false, st).
Proof.
  intros pot m. set (it_s := new_iter (NaN : num XA) false 4).
  destruct (spin_ready 5 two_pos two_edges start_tets two_tris start_vols start_surfs 1 1 pot start_problem [] m (spin_fresh it_s 5 two_edges)
    (fresh_past 5 two_pos two_edges start_tets two_tris start_vols start_surfs 1 1 pot start_problem it_s)) as (_ & K & L & xd & ld & ES & _).
  destruct (C26_solvers_stop XA BicgDir (reset it_s) K (repeat n0 (3 * 5)) (vF L) (vF xd) ld) as (it2 & x2 & G & _).
  specialize (G 6%nat ltac:(apply Nat.max_lub_lt; [lia|]; replace (maxiter (reset it_s) - nit (reset it_s))%Z with 4%Z by reflexivity; lia)).
  assert (N : status it2 <> CONVERGED). { eapply nan_solve; [| |exact G]; cbn; [reflexivity|discriminate]. }
  pose proof (ES 6%nat) as E3. cbn [spin_fresh ss_it] in E3. rewrite G in E3. rewrite <- call_els in E3.
  destruct (status it2) eqn:Z2; try (exfalso; apply N; reflexivity); eexists; exact E3.
Qed.
Lemma start_fails : forall passes n p edges tets tris vols surfs mub e m (it_e it_s it : iteration XA) X,
  spin_check vols surfs = true -> elec_check surfs = true ->
  elec_solve passes it_e (new_matrix (build_shape 1 n edges (fun _ => true))) n
    (map (fun t => lift (elec_tet p vols t)) tets) (map (fun t => lift (elec_tri p surfs t)) tris) (elec_dirichlet n surfs tris) = Some (it, X) ->
  (exists st, call passes n p tets tris vols surfs mub e (fun i => real (nth i X n0)) m (spin_fresh it_s n edges) = Some (false, st)) ->
  spin_start passes it_e it_s mub e p m n edges tets tris vols surfs = Some None.
Proof. intros. eapply C88_start_fails; eauto. Qed.
Example C88_start_fails_nonvacuous : forall m,
  spin_start 6 (new_iter (Fin (1 / 1000) : num XA) false 5) (new_iter (NaN : num XA) false 4) 1 1 two_pos m 5 two_edges start_tets two_tris start_vols start_surfs
  = Some None.
Proof.
  intros m. destruct (C88_start_nonvacuous m) as (X & st & H). apply started in H. destruct H as (C1 & C2 & it & X' & E).
  eapply start_fails; [exact C1|exact C2|exact E|apply fails_call].
Qed.

(** ** C41: the characters skipped before a number are exactly the six white spaces of the C locale *)
Theorem C41_white_space : forall c, SolModel.is_space c = true <-> In (nat_of_ascii c) [9; 10; 11; 12; 13; 32]%nat.
Proof. intros [[] [] [] [] [] [] [] []]; vm_compute; intuition discriminate. Qed.

(** ** C41: what is stored when a number cannot be read: +0 when there is none, the largest double of its sign when it is too large *)
Theorem C41_failed_read : forall s v, SolModel.read_double s = (v, None) -> v = BinarySingleNaN.B754_zero false \/ v = SolModel.max64 false \/ v = SolModel.max64 true.
Proof.
  intros s v. unfold SolModel.read_double. destruct (SolModel.scan_mantissa (SolModel.skip_ws s)) as [[[[sg a] k] r]|]; [|intros H; injection H as <-; auto].
  assert (F : forall k (r : TextModel.text), (if BinarySingleNaN.is_finite (SolModel.of_decimal sg a k) then (SolModel.of_decimal sg a k, Some r) else (SolModel.max64 sg, None)) = (v, None) ->
    v = SolModel.max64 false \/ v = SolModel.max64 true).
  { intros k0 r0 H. destruct (BinarySingleNaN.is_finite (SolModel.of_decimal sg a k0)); [discriminate|]. injection H as <-. destruct sg; auto. }
  cbv zeta. destruct r as [|c r]; [intros H; right; eapply F; exact H|]. destruct (SolModel.is_e c); [|intros H; right; eapply F; exact H].
  destruct (SolModel.take_sign r) as [se r1]. destruct (SolModel.span r1) as [ex r2]. destruct ex; [intros H; injection H as <-; auto|intros H; right; eapply F; exact H].
Qed.
Example C41_failed_read_nonvacuous : SolModel.read_double (list_ascii_of_string "1e+"%string) = (BinarySingleNaN.B754_zero false, None).
Proof. reflexivity. Qed.

Print Assumptions C35_bounds.
Print Assumptions C54_ends.
Print Assumptions C74_cubic_correction.
Print Assumptions C74_cubic_first_component.
Print Assumptions C88_elements.
Print Assumptions C88_start_fails.
Print Assumptions C41_white_space.
Print Assumptions C41_failed_read.
