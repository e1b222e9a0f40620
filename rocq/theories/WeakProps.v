(** * Properties of the right-hand side of the time step and of the Thiele length: C84, C85 *)
From Coq Require Import Reals List Arith Bool Lia Lra Permutation.
From Flocq Require Import Core.
From Verif Require Import Vec Sums StdModel MeshModel MeshProof ElemModel ElemProof AvgModel ElemProps.
Import ListNotations.
Local Open Scope R_scope.

(** ** Specification vocabulary *)
(** the magnetization [u] of the nodes moved by [s] along [d] *)
Definition moved (u d : nat -> vec) (s : R) (i : nat) : vec := vadd (u i) (vscale s (d i)).
(** energy of one element in a given demagnetizing potential: anisotropies, applied field, field - grad phi *)
Definition local_energy (mu0 : R) (prm : tprm) (q : nat -> vec) (Hext : nat -> vec) (phi : nat -> R) (u : nat -> vec) : R :=
  uniaxialEnergy prm q (interpV u) + cubicEnergy prm q (interpV u)
  + zeemanEnergy_space mu0 prm 1 q Hext (interpV u) + zeemanEnergy mu0 prm q (interp_field q phi) (interpV u).
(** pairing of a nodal right-hand side with a nodal direction *)
Definition paired (n : nat) (B d : nat -> vec) : R := sumn n (fun i => dot (B i) (d i)).

(** ** Lemmas *)
Lemma vsumn_dot : forall n f d, dot (vsumn n f) d = sumn n (fun j => dot (f j) d).
Proof.
  intros n f d. unfold vsumn, dot. cbn [vx vy vz]. induction n as [|n IH]; cbn [sumn]; [ring|]. rewrite <- IH. ring.
Qed.

Lemma test_shape : forall H d j, sumn 4 (fun i => sh i j * dot H (d i)) = dot H (interpV d j).
Proof. intros H d j. unfold interpV, vsumn. cbn [sumn]. vsimpl. ring. Qed.

Lemma test_grad : forall q k G d, sumn 4 (fun i => comp k (da q i) * dot G (d i)) = dot G (deriv q d k).
Proof. intros q k G d. unfold deriv, vsumn. cbn [sumn]. vsimpl. ring. Qed.

Lemma interpV_moved : forall u d s j, interpV (moved u d s) j = vadd (interpV u j) (vscale s (interpV d j)).
Proof. intros. unfold interpV, moved, vsumn. cbn [sumn]. vring. Qed.

Lemma deriv_moved : forall q u d s k, deriv q (moved u d s) k = vadd (deriv q u k) (vscale s (deriv q d k)).
Proof. intros. unfold deriv, moved, vsumn. cbn [sumn]. vring. Qed.

Lemma interp_field_moved : forall q x y s, interp_field q (fun i => x i + s * y i) = vadd (interp_field q x) (vscale s (interp_field q y)).
Proof. intros. unfold interp_field, vsumn. cbn [sumn]. vring. Qed.

Lemma wdot_plus : forall q f g, wdot q (fun j => f j + g j) = wdot q f + wdot q g.
Proof. intros. unfold wdot. rewrite <- sumn_plus. apply sumn_ext. intros. ring. Qed.
Lemma wdot_scale : forall q k f, wdot q (fun j => k * f j) = k * wdot q f.
Proof. intros. unfold wdot. rewrite <- sumn_scale. apply sumn_ext. intros. ring. Qed.

Lemma wdot_poly : forall q s c0 c1 c2 c3 c4, wdot q (fun j => c0 j + (s * c1 j + (s * s * c2 j + (s * s * s * c3 j + s * s * s * s * c4 j)))) =
  wdot q c0 + s * wdot q c1 + s * s * wdot q c2 + s * s * s * wdot q c3 + s * s * s * s * wdot q c4.
Proof. intros. rewrite !wdot_plus, !wdot_scale. ring. Qed.

Lemma orthonormal_parseval : forall a b c m, orthonormal a b c ->
  dot m m = dot m a * dot m a + dot m b * dot m b + dot m c * dot m c.
Proof.
  intros a b c m (A & B & C & O1 & O2 & O3). unfold unitary in *.
  pose proof (Vec.orthonormal_intro a b A B O1) as ON.
  set (n := cross a b) in *. assert (Hn : dot n n = 1) by apply ON.
  set (k := dot c n). assert (W : vsub c (vscale k n) = vzero).
  { apply (orth_zero _ a b); auto; fold n.
    - rewrite dot_sub_l, dot_scale_l, O3. replace (dot n a) with 0 by (unfold n; vsimpl; ring). ring.
    - rewrite dot_sub_l, dot_scale_l, (dot_comm c b), O2. replace (dot n b) with 0 by (unfold n; vsimpl; ring). ring.
    - rewrite dot_sub_l, dot_scale_l, Hn. unfold k. ring. }
  assert (Ec : c = vscale k n).
  { transitivity (vadd (vsub c (vscale k n)) (vscale k n)); [vring|]. rewrite W. vring. }
  assert (Hk : k * k = 1). { rewrite Ec, dot_scale_l, dot_scale_r, Hn in C. lra. }
  rewrite (Vec.expand a b n m ON) at 2. rewrite !dot_add_r, !dot_scale_r.
  rewrite Ec, dot_scale_r.
  replace (k * dot m n * (k * dot m n)) with (k * k * (dot m n * dot m n)) by ring. rewrite Hk. ring.
Qed.

(** the right-hand side tested against a direction *)
Lemma BE_tested : forall mu0 gamma0 theta prm dt Hext Hst q nod d,
  paired 4 (BE mu0 gamma0 theta prm dt Hext Hst None 0 q nod) d =
  wdot q (fun j =>
    - Abis mu0 prm * (dot (deriv q (n_u nod) 0) (deriv q d 0) + dot (deriv q (n_u nod) 1) (deriv q d 1) + dot (deriv q (n_u nod) 2) (deriv q d 2))
    + dot (vadd (vadd (Hd q nod) (Hext j)) (vadd (fst (H_aniso mu0 gamma0 theta prm dt nod j)) (vscale (s_dt gamma0 theta dt / gamma0) (Hv q nod)))) (interpV d j)
    + dot (vsub (Hst j) (vscale (dot (Hst j) (gU nod j) * s_dt gamma0 theta dt) (gV nod j))) (interpV d j)).
Proof.
  intros. unfold paired, BE. cbn [drift_BE].
  rewrite (sumn_ext 4 _ (fun i => sumn NPI (fun j => weight q j * (
     - Abis mu0 prm * (comp 0 (da q i) * dot (deriv q (n_u nod) 0) (d i) + comp 1 (da q i) * dot (deriv q (n_u nod) 1) (d i) + comp 2 (da q i) * dot (deriv q (n_u nod) 2) (d i))
     + sh i j * dot (vadd (vadd (Hd q nod) (Hext j)) (vadd (fst (H_aniso mu0 gamma0 theta prm dt nod j)) (vscale (s_dt gamma0 theta dt / gamma0) (Hv q nod)))) (d i)
     + sh i j * dot (vsub (Hst j) (vscale (dot (Hst j) (gU nod j) * s_dt gamma0 theta dt) (gV nod j))) (d i))))).
  2: { intros i _. rewrite dot_add_l. unfold drift_BE. replace (dot vzero (d i)) with 0 by (vsimpl; ring).
    rewrite Rplus_0_l, vsumn_dot. apply sumn_ext. intros j _.
    rewrite !dot_add_l, !dot_scale_l, !dot_add_l, !dot_sub_l, !dot_scale_l. ring. }
  rewrite sumn_exchange. unfold wdot. apply sumn_ext. intros j _. rewrite sumn_scale. f_equal.
  rewrite !sumn_plus, sumn_scale, !sumn_plus, !test_shape, !test_grad. reflexivity.
Qed.

(** ** C84: outside of the drift and of the spin transfer terms, the right-hand side is minus the gradient of the
    energy, the exchange being taken at the present magnetization and the other terms at the predicted
    magnetization u + theta dt v and potential phi + theta dt phiv. For the cubic term, which is partly wrong (C74),
    the velocity is taken to be zero and the interpolated magnetization to be of length one. *)
Theorem C84_energy_gradient_partial : forall (mu0 gamma0 theta dt : R) (prm : tprm) (q : nat -> vec) (nod : tnod) (Hext : nat -> vec) (d : nat -> vec),
  mu0 <> 0 -> gamma0 <> 0 -> p_Ms prm <> 0 ->
  p_K3 prm = 0 \/ orthonormal (p_ex prm) (p_ey prm) (p_ez prm) /\
    (forall i, (i < 4)%nat -> n_v nod i = vzero) /\ (forall j, (j < 5)%nat -> unitary (interpV (n_u nod) j)) ->
  exists D_exchange D_others,
    derivable_pt_lim (fun s => exchangeEnergy prm q (moved (n_u nod) d s)) 0 D_exchange /\
    derivable_pt_lim (fun s => local_energy mu0 prm q Hext (fun i => n_phi nod i + theta * dt * n_phiv nod i)
      (moved (moved (n_u nod) (n_v nod) (theta * dt)) d s)) 0 D_others /\
    mu0 * p_Ms prm * paired 4 (BE mu0 gamma0 theta prm dt Hext (fun _ => vzero) None 0 q nod) d = - (D_exchange + D_others).
Proof.
  intros mu0 gamma0 theta dt prm q nod Hext d Hmu Hg HMs HK3.
  set (tau := theta * dt).
  assert (Es : s_dt gamma0 theta dt / gamma0 = tau) by (unfold s_dt, tau; field; exact Hg).
  set (U j := interpV (moved (n_u nod) (n_v nod) tau) j).
  assert (EU : forall j, U j = vadd (gU nod j) (vscale tau (gV nod j))) by (intros; unfold U, gU, gV; apply interpV_moved).
  set (D j := interpV d j).
  set (a j k := dot (U j) k). set (x j := dot (U j) (p_ex prm)). set (y j := dot (U j) (p_ey prm)). set (z j := dot (U j) (p_ez prm)).
  set (xd j := dot (D j) (p_ex prm)). set (yd j := dot (D j) (p_ey prm)). set (zd j := dot (D j) (p_ez prm)).
  exists (2 * p_A prm * wdot q (fun _ => dot (deriv q (n_u nod) 0) (deriv q d 0) + dot (deriv q (n_u nod) 1) (deriv q d 1) + dot (deriv q (n_u nod) 2) (deriv q d 2))).
  exists (- 2 * p_K prm * wdot q (fun j => dot (p_uk prm) (U j) * dot (p_uk prm) (D j))
    + p_K3 prm * wdot q (fun j => 2 * (x j * y j * (xd j * y j + x j * yd j) + y j * z j * (yd j * z j + y j * zd j) + z j * x j * (zd j * x j + z j * xd j)))
    + - mu0 * p_Ms prm * 1 * wdot q (fun j => dot (D j) (Hext j))
    + - mu0 * p_Ms prm * wdot q (fun j => dot (D j) (vadd (Hd q nod) (vscale tau (Hv q nod))))).
  split; [|split].
  - apply poly_deriv. exists (p_A prm * wdot q (fun _ => sqn (deriv q d 0) + sqn (deriv q d 1) + sqn (deriv q d 2))), 0, 0.
    intros s. unfold exchangeEnergy. rewrite !wdot_const. rewrite !deriv_moved. unfold sqn.
    rewrite !dot_add_l, !dot_add_r, !dot_scale_l, !dot_scale_r.
    rewrite !(dot_comm (deriv q d 0) (deriv q (n_u nod) 0)), !(dot_comm (deriv q d 1) (deriv q (n_u nod) 1)), !(dot_comm (deriv q d 2) (deriv q (n_u nod) 2)). ring.
  - apply poly_deriv. unfold local_energy.
    exists (- p_K prm * wdot q (fun j => dot (p_uk prm) (D j) * dot (p_uk prm) (D j))
       + p_K3 prm * wdot q (fun j => (xd j * y j + x j * yd j) * (xd j * y j + x j * yd j) + 2 * (x j * y j * (xd j * yd j))
           + (yd j * z j + y j * zd j) * (yd j * z j + y j * zd j) + 2 * (y j * z j * (yd j * zd j))
           + (zd j * x j + z j * xd j) * (zd j * x j + z j * xd j) + 2 * (z j * x j * (zd j * xd j)))).
    exists (p_K3 prm * wdot q (fun j => 2 * ((xd j * y j + x j * yd j) * (xd j * yd j) + (yd j * z j + y j * zd j) * (yd j * zd j) + (zd j * x j + z j * xd j) * (zd j * xd j)))).
    exists (p_K3 prm * wdot q (fun j => (xd j * yd j) * (xd j * yd j) + (yd j * zd j) * (yd j * zd j) + (zd j * xd j) * (zd j * xd j))).
    assert (Em : forall s j, interpV (moved (moved (n_u nod) (n_v nod) tau) d s) j = vadd (U j) (vscale s (D j))) by (intros; apply interpV_moved).
    assert (E1 : forall s, uniaxialEnergy prm q (interpV (moved (moved (n_u nod) (n_v nod) tau) d s)) =
       - p_K prm * wdot q (fun j => dot (p_uk prm) (U j) * dot (p_uk prm) (U j))
       + s * (- 2 * p_K prm * wdot q (fun j => dot (p_uk prm) (U j) * dot (p_uk prm) (D j)))
       + s * s * (- p_K prm * wdot q (fun j => dot (p_uk prm) (D j) * dot (p_uk prm) (D j)))).
    { intros s. unfold uniaxialEnergy.
      rewrite (wdot_ext q _ (fun j => (dot (p_uk prm) (U j) * dot (p_uk prm) (U j) + (2 * s) * (dot (p_uk prm) (U j) * dot (p_uk prm) (D j)))
        + (s * s) * (dot (p_uk prm) (D j) * dot (p_uk prm) (D j)))).
      2: { intros j _. rewrite Em, dot_add_r, dot_scale_r. ring. }
      rewrite !wdot_plus, !wdot_scale. ring. }
    assert (E2 : forall s, cubicEnergy prm q (interpV (moved (moved (n_u nod) (n_v nod) tau) d s)) = cubicEnergy prm q U
       + s * (p_K3 prm * wdot q (fun j => 2 * (x j * y j * (xd j * y j + x j * yd j) + y j * z j * (yd j * z j + y j * zd j) + z j * x j * (zd j * x j + z j * xd j))))
       + s * s * (p_K3 prm * wdot q (fun j => (xd j * y j + x j * yd j) * (xd j * y j + x j * yd j) + 2 * (x j * y j * (xd j * yd j))
           + (yd j * z j + y j * zd j) * (yd j * z j + y j * zd j) + 2 * (y j * z j * (yd j * zd j))
           + (zd j * x j + z j * xd j) * (zd j * x j + z j * xd j) + 2 * (z j * x j * (zd j * xd j))))
       + s * s * s * (p_K3 prm * wdot q (fun j => 2 * ((xd j * y j + x j * yd j) * (xd j * yd j) + (yd j * z j + y j * zd j) * (yd j * zd j) + (zd j * x j + z j * xd j) * (zd j * xd j))))
       + s * s * s * s * (p_K3 prm * wdot q (fun j => (xd j * yd j) * (xd j * yd j) + (yd j * zd j) * (yd j * zd j) + (zd j * xd j) * (zd j * xd j)))).
    { intros s. unfold cubicEnergy. cbv zeta.
      match goal with |- _ = _ + s * (_ * wdot q ?c1) + s * s * (_ * wdot q ?c2) + s * s * s * (_ * wdot q ?c3) + s * s * s * s * (_ * wdot q ?c4) =>
        transitivity (p_K3 prm * (wdot q (fun j => x j * y j * (x j * y j) + y j * z j * (y j * z j) + z j * x j * (z j * x j)) +
          s * wdot q c1 + s * s * wdot q c2 + s * s * s * wdot q c3 + s * s * s * s * wdot q c4)) end.
      - rewrite <- wdot_poly. f_equal. apply wdot_ext. intros j _. cbv beta. rewrite Em, !dot_add_l, !dot_scale_l.
        fold (x j) (y j) (z j) (xd j) (yd j) (zd j). ring.
      - unfold x, y, z. ring. }
    assert (E3 : forall s, zeemanEnergy_space mu0 prm 1 q Hext (interpV (moved (moved (n_u nod) (n_v nod) tau) d s)) =
       zeemanEnergy_space mu0 prm 1 q Hext U + s * (- mu0 * p_Ms prm * 1 * wdot q (fun j => dot (D j) (Hext j)))).
    { intros s. unfold zeemanEnergy_space.
      rewrite (wdot_ext q _ (fun j => dot (U j) (Hext j) + s * dot (D j) (Hext j))).
      2: { intros j _. rewrite Em, dot_add_l, dot_scale_l. ring. }
      rewrite wdot_plus, wdot_scale. ring. }
    assert (E4 : forall s, zeemanEnergy mu0 prm q (interp_field q (fun i => n_phi nod i + tau * n_phiv nod i)) (interpV (moved (moved (n_u nod) (n_v nod) tau) d s)) =
       zeemanEnergy mu0 prm q (interp_field q (fun i => n_phi nod i + tau * n_phiv nod i)) U
       + s * (- mu0 * p_Ms prm * wdot q (fun j => dot (D j) (vadd (Hd q nod) (vscale tau (Hv q nod)))))).
    { intros s. unfold zeemanEnergy. rewrite interp_field_moved. fold (Hd q nod) (Hv q nod).
      rewrite (wdot_ext q _ (fun j => dot (U j) (vadd (Hd q nod) (vscale tau (Hv q nod))) + s * dot (D j) (vadd (Hd q nod) (vscale tau (Hv q nod))))).
      2: { intros j _. rewrite Em, dot_add_l, dot_scale_l. ring. }
      rewrite wdot_plus, wdot_scale. ring. }
    intros s. fold tau. rewrite (E1 s), (E2 s), (E3 s), (E4 s), (E1 0), (E2 0), (E3 0), (E4 0). ring.
  - rewrite BE_tested. rewrite Es.
    transitivity (wdot q (fun j => - 2 * p_A prm * (dot (deriv q (n_u nod) 0) (deriv q d 0) + dot (deriv q (n_u nod) 1) (deriv q d 1) + dot (deriv q (n_u nod) 2) (deriv q d 2))
      + (2 * p_K prm * (dot (p_uk prm) (U j) * dot (p_uk prm) (D j))
      + (- p_K3 prm * (2 * (x j * y j * (xd j * y j + x j * yd j) + y j * z j * (yd j * z j + y j * zd j) + z j * x j * (zd j * x j + z j * xd j)))
      + (mu0 * p_Ms prm * dot (D j) (Hext j) + mu0 * p_Ms prm * dot (D j) (vadd (Hd q nod) (vscale tau (Hv q nod)))))))).
    + rewrite <- wdot_scale. apply wdot_ext. intros j Hj. unfold H_aniso. rewrite Es.
      replace (dot (vsub vzero _) _) with 0 by (vsimpl; ring). fold (D j).
      assert (H1 : forall h e, mu0 * p_Ms prm * dot (fst (let '(h1, e1) := if Req_bool (p_K prm) 0 then (vzero, 0) else
         aniso_uniax (p_uk prm) (2 * p_K prm / (mu0 * p_Ms prm)) tau (gU nod j) (gV nod j) in (vadd h1 h, e1 + e))) (D j) =
         2 * p_K prm * (dot (p_uk prm) (U j) * dot (p_uk prm) (D j)) + mu0 * p_Ms prm * dot h (D j)).
      { intros h e. destruct (Req_bool_spec (p_K prm) 0) as [E|E].
        - rewrite E. cbn [fst]. vsimpl. ring.
        - unfold aniso_uniax. cbn [fst]. rewrite dot_add_l, dot_scale_l, EU. field. split; assumption. }
      assert (H2 : exists h e, (if Req_bool (p_K3 prm) 0 then (vzero, 0) else
          aniso_cub (p_ex prm) (p_ey prm) (p_ez prm) (2 * p_K3 prm / (mu0 * p_Ms prm)) tau (gU nod j) (gV nod j)) = (h, e) /\
          mu0 * p_Ms prm * dot h (D j) = - p_K3 prm * (2 * (x j * y j * (xd j * y j + x j * yd j) + y j * z j * (yd j * z j + y j * zd j) + z j * x j * (zd j * x j + z j * xd j)))).
      { destruct (Req_bool_spec (p_K3 prm) 0) as [E|E].
        - rewrite E. exists vzero, 0. split; auto. vsimpl. ring.
        - destruct HK3 as [HK3|(Ho & Hv0 & Hu)]; [contradiction|].
          assert (V0 : gV nod j = vzero) by (unfold gV; apply interp_const; auto).
          assert (U1 : U j = gU nod j) by (rewrite EU, V0; vring).
          destruct (aniso_cub (p_ex prm) (p_ey prm) (p_ez prm) (2 * p_K3 prm / (mu0 * p_Ms prm)) tau (gU nod j) (gV nod j)) as [h e] eqn:Ec.
          exists h, e. split; auto.
          assert (S : x j * x j + y j * y j + z j * z j = 1).
          { specialize (Hu j Hj). fold (gU nod j) in Hu. rewrite <- U1 in Hu. unfold x, y, z. generalize (U j) Hu. intros m Hm.
            destruct Ho as (A & B & C & O1 & O2 & O3).
            transitivity (dot m m); [|exact Hm]. symmetry.
            rewrite (orthonormal_parseval (p_ex prm) (p_ey prm) (p_ez prm) m); auto.
            repeat split; auto. }
          injection Ec as <- _. rewrite V0, <- U1. rewrite dot_scale_l, !dot_add_l, !dot_scale_l.
          rewrite (dot_comm (p_ex prm) (U j)), (dot_comm (p_ey prm) (U j)), (dot_comm (p_ez prm) (U j)).
          rewrite (dot_comm (p_ex prm) (D j)), (dot_comm (p_ey prm) (D j)), (dot_comm (p_ez prm) (D j)).
          fold (x j) (y j) (z j) (xd j) (yd j) (zd j).
          replace (dot (cwise _ _) (D j)) with 0 by (unfold cwise; vsimpl; ring). unfold uuu.
          replace (1 - x j * x j) with (y j * y j + z j * z j) by lra. replace (1 - y j * y j) with (x j * x j + z j * z j) by lra.
          replace (1 - z j * z j) with (x j * x j + y j * y j) by lra. field. split; assumption. }
      destruct H2 as (h & e & Eh & H2). rewrite Eh.
      rewrite !dot_add_l. specialize (H1 h e). rewrite H2 in H1.
      rewrite (dot_comm (D j) (Hext j)), (dot_comm (D j) (vadd _ _)), dot_add_l. unfold Abis.
      rewrite !Rmult_plus_distr_l, H1. field. split; assumption.
    + repeat (rewrite wdot_plus || rewrite wdot_scale). ring.
Qed.

Lemma ref_deriv_x : forall u, deriv ref_tet u 0 = vsub (u 1%nat) (u 0%nat).
Proof.
  intros u.
  assert (D1 : da ref_tet 1 = V 1 0 0).
  { rewrite da_1, ref_det. unfold edge2, edge3, ref_tet, four. apply vec_eq; cbn [nth vscale cross vsub vx vy vz]; field. }
  assert (D2 : da ref_tet 2 = V 0 1 0).
  { rewrite da_2, ref_det. unfold edge1, edge3, ref_tet, four. apply vec_eq; cbn [nth vscale cross vsub vx vy vz]; field. }
  assert (D3 : da ref_tet 3 = V 0 0 1).
  { rewrite da_3, ref_det. unfold edge1, edge2, ref_tet, four. apply vec_eq; cbn [nth vscale cross vsub vx vy vz]; field. }
  unfold deriv, vsumn. cbn [sumn]. rewrite da_0, D1, D2, D3. apply vec_eq; cbn [comp vsub vadd vscale vzero vx vy vz]; ring.
Qed.

(** the hypotheses are met by a non-uniform magnetization that moves *)
Example C84_nonvacuous :
  let prm := mkTprm 1 1 1 2 (V 0 0 1) 0 (V 1 0 0) (V 0 1 0) (V 0 0 1) in
  let nod := mkTnod (four (V 1 0 0) (V 0 1 0) (V 0 0 1) (V 1 0 0)) (four (V 0 1 0) (V 1 0 0) (V 1 0 0) (V 0 0 1)) (fun _ => 0) (fun _ => 0) in
  p_Ms prm <> 0 /\ p_K3 prm = 0 /\ sqn (deriv ref_tet (n_u nod) 0) = 2.
Proof.
  cbn [p_Ms p_K3 n_u]. split; [lra|]. split; [reflexivity|].
  set (u := four _ _ _ _).
  assert (Du : deriv ref_tet u 0 = V (-1) 1 0).
  { rewrite ref_deriv_x. unfold u, four. apply vec_eq; cbn [nth vsub vx vy vz]; ring. }
  rewrite Du. unfold sqn, dot. cbn [vx vy vz]. ring.
Qed.
(** and by a uniform magnetization at rest for the cubic term *)
Example C84_cubic_nonvacuous : orthonormal (p_ex ex_prm) (p_ey ex_prm) (p_ez ex_prm) /\ p_K3 ex_prm <> 0 /\
  (forall j, (j < 5)%nat -> unitary (interpV (fun _ => V (3/5) (4/5) 0) j)).
Proof.
  split; [|split].
  - unfold ex_prm, orthonormal, unitary, dot; simpl; repeat split; ring.
  - simpl; lra.
  - intros j Hj. rewrite (interp_const _ (V (3/5) (4/5) 0)) by auto. unfold unitary, dot. simpl. field.
Qed.

(** Surface anisotropy: the right-hand side is minus the gradient of the energy divided by the jump of the
    magnetization ... *)
Lemma tinterpV_moved : forall u d s j, tinterpV (moved u d s) j = vadd (tinterpV u j) (vscale s (tinterpV d j)).
Proof. intros. unfold tinterpV, moved, vsumn. cbn [sumn]. vring. Qed.

Theorem C84_surface : forall (Ks dMs : R) (uk : vec) (q u d : nat -> vec), dMs <> 0 ->
  exists D, derivable_pt_lim (fun s => tri_anisotropyEnergy Ks uk q (tinterpV (moved u d s))) 0 D /\
    dMs * paired 3 (tri_BE Ks dMs uk q u) d = - D.
Proof.
  intros Ks dMs uk q u d HM.
  exists (- 2 * Ks * sumn tNPI (fun j => tweight q j * (dot (tinterpV u j) uk * dot (tinterpV d j) uk))). split.
  - apply poly_deriv. exists (- Ks * sumn tNPI (fun j => tweight q j * (dot (tinterpV d j) uk * dot (tinterpV d j) uk))), 0, 0.
    intros s. unfold tri_anisotropyEnergy.
    assert (E : forall s, sumn tNPI (fun j => tweight q j * (dot (tinterpV (moved u d s) j) uk * dot (tinterpV (moved u d s) j) uk)) =
      sumn tNPI (fun j => tweight q j * (dot (tinterpV u j) uk * dot (tinterpV u j) uk))
      + (2 * s) * sumn tNPI (fun j => tweight q j * (dot (tinterpV u j) uk * dot (tinterpV d j) uk))
      + (s * s) * sumn tNPI (fun j => tweight q j * (dot (tinterpV d j) uk * dot (tinterpV d j) uk))).
    { intros s'. rewrite <- !sumn_scale, <- !sumn_plus. apply sumn_ext. intros j _. rewrite tinterpV_moved, !dot_add_l, !dot_scale_l. ring. }
    rewrite (E s), (E 0). ring.
  - unfold paired, tri_BE.
    rewrite (sumn_ext 3 _ (fun i => sumn tNPI (fun j => (2 * Ks / dMs) * (tweight q j * dot uk (tinterpV u j) * (tsh i j * dot uk (d i)))))).
    2: { intros i _. rewrite vsumn_dot. apply sumn_ext. intros j _. rewrite dot_scale_l. ring. }
    rewrite sumn_exchange.
    rewrite (sumn_ext tNPI _ (fun j => (2 * Ks / dMs) * (tweight q j * (dot (tinterpV u j) uk * dot (tinterpV d j) uk)))).
    2: { intros j _. rewrite !sumn_scale, (dot_comm uk). replace (sumn 3 (fun i => tsh i j * dot uk (d i))) with (dot (tinterpV d j) uk).
      - ring.
      - unfold tinterpV, vsumn. cbn [sumn]. vsimpl. ring. }
    rewrite sumn_scale. field. exact HM.
Qed.

(** ... Finding (triangle.cpp line 8 against tetra.cpp lines 216, 239): the volume terms are divided by mu0 Ms, the
    surface term by dMs only. Whenever mu0 is not 1 the surface anisotropy field is not minus the gradient of
    the energy divided by mu0 dMs: it is too small by the factor mu0. *)
Definition flat : nat -> vec := four (V 0 0 0) (V 1 0 0) (V 0 1 0) vzero.
Theorem C84_surface_factor_refuted : forall mu0, mu0 <> 1 -> exists (Ks dMs : R) (uk : vec) (q u d : nat -> vec) (D : R),
  0 < dMs /\ unitary uk /\ (forall i, unitary (u i)) /\
  derivable_pt_lim (fun s => tri_anisotropyEnergy Ks uk q (tinterpV (moved u d s))) 0 D /\
  mu0 * dMs * paired 3 (tri_BE Ks dMs uk q u) d <> - D.
Proof.
  intros mu0 Hmu.
  destruct (C84_surface 1 1 (V 0 0 1) flat (fun _ => V 0 0 1) (fun _ => V 0 0 1)) as (D & HD & E); [lra|].
  exists 1, 1, (V 0 0 1), flat, (fun _ => V 0 0 1), (fun _ => V 0 0 1), D.
  split; [lra|]. split. { unfold unitary, dot; simpl; ring. } split. { intros _. unfold unitary, dot; simpl; ring. }
  split; [exact HD|]. rewrite Rmult_1_r. rewrite <- E. rewrite Rmult_1_l.
  assert (P : paired 3 (tri_BE 1 1 (V 0 0 1) flat (fun _ => V 0 0 1)) (fun _ => V 0 0 1) = 1).
  { assert (S : calc_surf flat = 1 / 2).
    { unfold calc_surf, normal_vect, flat, four, vnorm. cbn [nth]. replace (dot _ _) with 1 by (vsimpl; ring). rewrite sqrt_1. ring. }
    unfold paired, tri_BE, tweight. rewrite S. unfold vsumn, tinterpV, vsumn, tsh, tu, tv, tpds, tNPI. cbn [sumn nth]. vsimpl. field. }
  rewrite P. lra.
Qed.

Example C84_surface_nonvacuous : (1 <> 0) /\ paired 3 (tri_BE 1 1 (V 0 0 1) flat (fun _ => V 0 0 1)) (fun _ => V 0 0 1) = 2 * calc_surf flat.
Proof.
  split; [lra|]. unfold paired, tri_BE, tweight. generalize (calc_surf flat). intros a.
  unfold vsumn, tinterpV, vsumn, tsh, tu, tv, tpds, tNPI. cbn [sumn nth]. vsimpl. field.
Qed.

(** The rows of a node: the first one is the product with its vector eq, the second one with its vector ep, in the volume
    and in the surface right-hand sides as in the matrix (LlgProps.Kp_apply) *)
Definition row_vector (ep eq : nat -> vec) (b i : nat) : vec := match b with O => eq i | _ => ep i end.
Theorem C84_rows : forall mu0 gamma0 theta prm dt Hext Hst idx_dir Vdrift q nod Ks dMs uk ep eq b i,
  tet_Lp mu0 gamma0 theta prm dt Hext Hst idx_dir Vdrift q nod ep eq b i =
    dot (BE mu0 gamma0 theta prm dt Hext Hst idx_dir Vdrift q nod i) (row_vector ep eq b i) /\
  tri_Lp Ks dMs uk q (n_u nod) ep eq b i = dot (tri_BE Ks dMs uk q (n_u nod) i) (row_vector ep eq b i) /\
  forall al c (x : nat -> nat -> R),
    sumn 4 (fun j => sumn 2 (fun b' => Kp q al c (n_u nod) ep eq b b' i j * x j b')) =
    dot (V (sumn 3 (fun l => sumn 4 (fun j => lumping q al c (n_u nod) 0 l i j * comp l (vadd (vscale (x j 0%nat) (ep j)) (vscale (x j 1%nat) (eq j))))))
           (sumn 3 (fun l => sumn 4 (fun j => lumping q al c (n_u nod) 1 l i j * comp l (vadd (vscale (x j 0%nat) (ep j)) (vscale (x j 1%nat) (eq j))))))
           (sumn 3 (fun l => sumn 4 (fun j => lumping q al c (n_u nod) 2 l i j * comp l (vadd (vscale (x j 0%nat) (ep j)) (vscale (x j 1%nat) (eq j)))))))
      (row_vector ep eq b i).
Proof.
  intros. split; [|split].
  - unfold tet_Lp. generalize (BE mu0 gamma0 theta prm dt Hext Hst idx_dir Vdrift q nod i). intros B.
    unfold matP, row_vector, perm, dot. destruct b; cbn [sumn comp]; ring.
  - unfold tri_Lp. generalize (tri_BE Ks dMs uk q (n_u nod) i). intros B.
    unfold matP, row_vector, perm, dot. destruct b; cbn [sumn comp]; ring.
  - intros al c x. unfold Kp. generalize (lumping q al c (n_u nod)). intros lu.
    unfold matP, row_vector, perm, dot, vadd, vscale. destruct b; cbn [sumn comp vx vy vz]; ring.
Qed.

(** Spin transfer and drift. [transfer] is the torque field added for the spin accumulation field Hst; [drifting]
    is what a frame moving at speed one along the coordinate adds. *)
Definition transfer (Hst u v : vec) (step : R) : vec := vsub Hst (vscale (step * dot Hst u) v).
Definition drifting (alpha : R) (u du : vec) : vec := vadd (vscale alpha du) (cross u du).

Lemma drift_tested : forall gamma0 theta prm dt k Vdrift q nod d,
  paired 4 (drift_BE gamma0 theta prm dt (Some k) Vdrift q nod) d =
  Vdrift * wdot q (fun j => dot (vadd (drifting (p_alpha prm) (gU nod j) (deriv q (n_u nod) k))
     (vscale (s_dt gamma0 theta dt) (vadd (drifting (p_alpha prm) (gU nod j) (deriv q (n_v nod) k)) (cross (gV nod j) (deriv q (n_u nod) k))))) (interpV d j)).
Proof.
  intros. unfold paired, drift_BE. cbv zeta.
  rewrite (sumn_ext 4 _ (fun i => sumn NPI (fun j => Vdrift * (weight q j * (sh i j * dot (vadd (drifting (p_alpha prm) (gU nod j) (deriv q (n_u nod) k))
     (vscale (s_dt gamma0 theta dt) (vadd (drifting (p_alpha prm) (gU nod j) (deriv q (n_v nod) k)) (cross (gV nod j) (deriv q (n_u nod) k))))) (d i)))))).
  2: { intros i _. rewrite vsumn_dot. apply sumn_ext. intros j _. unfold drifting. rewrite !dot_scale_l. ring. }
  rewrite sumn_exchange. unfold wdot. rewrite <- sumn_scale. apply sumn_ext. intros j _. rewrite !sumn_scale, test_shape. reflexivity.
Qed.

Lemma BE_split : forall mu0 gamma0 theta prm dt Hext Hst idx Vdrift q nod d,
  paired 4 (BE mu0 gamma0 theta prm dt Hext Hst idx Vdrift q nod) d =
  paired 4 (drift_BE gamma0 theta prm dt idx Vdrift q nod) d + paired 4 (BE mu0 gamma0 theta prm dt Hext Hst None 0 q nod) d.
Proof.
  intros. unfold paired. rewrite <- sumn_plus. apply sumn_ext. intros i _. unfold BE. rewrite !dot_add_l.
  cbn [drift_BE]. replace (dot vzero (d i)) with 0 by (vsimpl; ring). ring.
Qed.

(** the field Hst enters at first order, minus its component along u at the second order; the drift enters through the
    value of [drifting] at the present magnetization and its exact rate of change along the velocity, multiplied
    by theta dt gamma0 *)
Theorem C84_transfer_and_drift : forall (mu0 gamma0 theta dt Vdrift : R) (prm : tprm) (q : nat -> vec) (nod : tnod) (Hext Hst d : nat -> vec),
  let u s j := interpV (moved (n_u nod) (n_v nod) s) j in
  let du s k := deriv q (moved (n_u nod) (n_v nod) s) k in
  let plain := paired 4 (BE mu0 gamma0 theta prm dt Hext (fun _ => vzero) None 0 q nod) d in
  let torque := wdot q (fun j => dot (transfer (Hst j) (interpV (n_u nod) j) (interpV (n_v nod) j) (theta * dt * gamma0)) (interpV d j)) in
  paired 4 (BE mu0 gamma0 theta prm dt Hext Hst None Vdrift q nod) d = plain + torque /\
  forall k, exists rate,
    (forall j, derivable_pt_lim (fun s => dot (drifting (p_alpha prm) (u s j) (du s k)) (interpV d j)) 0 (rate j)) /\
    paired 4 (BE mu0 gamma0 theta prm dt Hext Hst (Some k) Vdrift q nod) d = plain + torque +
      Vdrift * wdot q (fun j => dot (drifting (p_alpha prm) (u 0 j) (du 0 k)) (interpV d j) + theta * dt * gamma0 * rate j).
Proof.
  intros mu0 gamma0 theta dt Vdrift prm q nod Hext Hst d u du plain torque.
  assert (P : paired 4 (BE mu0 gamma0 theta prm dt Hext Hst None 0 q nod) d = plain + torque).
  { unfold plain, torque. rewrite !BE_tested, <- wdot_plus. apply wdot_ext. intros j _.
    replace (dot (vsub vzero _) (interpV d j)) with 0 by (vsimpl; ring). rewrite Rplus_0_r. f_equal.
    unfold transfer, s_dt, gU, gV. rewrite !dot_sub_l, !dot_scale_l. ring. }
  split.
  - rewrite BE_split, P. unfold paired. rewrite (sumn_zero 4 (fun i => dot (drift_BE _ _ _ _ None _ _ _ i) (d i))). { ring. }
    intros i _. unfold drift_BE. vsimpl. ring.
  - intros k. exists (fun j => dot (vadd (drifting (p_alpha prm) (gU nod j) (deriv q (n_v nod) k)) (cross (gV nod j) (deriv q (n_u nod) k))) (interpV d j)).
    assert (E : forall s j, dot (drifting (p_alpha prm) (u s j) (du s k)) (interpV d j) =
       dot (drifting (p_alpha prm) (gU nod j) (deriv q (n_u nod) k)) (interpV d j)
       + s * dot (vadd (drifting (p_alpha prm) (gU nod j) (deriv q (n_v nod) k)) (cross (gV nod j) (deriv q (n_u nod) k))) (interpV d j)
       + s * s * dot (cross (gV nod j) (deriv q (n_v nod) k)) (interpV d j)).
    { intros s j. unfold u, du. rewrite interpV_moved, deriv_moved. fold (gU nod j) (gV nod j).
      generalize (gU nod j) (gV nod j) (deriv q (n_u nod) k) (deriv q (n_v nod) k) (interpV d j). intros a b a' b' c.
      unfold drifting. vsimpl. ring. }
    split.
    + intros j. apply poly_deriv. exists (dot (cross (gV nod j) (deriv q (n_v nod) k)) (interpV d j)), 0, 0. intros s. rewrite (E s j), (E 0 j). ring.
    + rewrite BE_split, P, drift_tested. rewrite (Rplus_comm _ (plain + torque)). f_equal. f_equal. apply wdot_ext. intros j _.
      rewrite (E 0 j), dot_add_l, dot_scale_l. unfold s_dt. ring.
Qed.

(** the field along the magnetization, from which the effective damping is computed: minus the rate of change of the
    energy when the magnetization is stretched *)
Theorem C84_field_along_m : forall (mu0 gamma0 theta dt : R) (prm : tprm) (q : nat -> vec) (nod : tnod) (Hext Hst : nat -> vec),
  mu0 <> 0 -> p_Ms prm <> 0 ->
  p_K3 prm = 0 \/ orthonormal (p_ex prm) (p_ey prm) (p_ez prm) /\ (forall j, (j < 5)%nat -> unitary (interpV (n_u nod) j)) ->
  let U := interpV (n_u nod) in
  let h := uHeff mu0 gamma0 theta prm dt Hext Hst q nod in
  (forall j, (j < 5)%nat -> mu0 * p_Ms prm * h j =
     - 2 * p_A prm * (sqn (deriv q (n_u nod) 0) + sqn (deriv q (n_u nod) 1) + sqn (deriv q (n_u nod) 2))
     - 2 * uniax_density (p_K prm) (p_uk prm) (U j) - 4 * cubic_density (p_K3 prm) (p_ex prm) (p_ey prm) (p_ez prm) (U j)
     + mu0 * p_Ms prm * dot (U j) (vadd (vadd (interp_field q (n_phi nod)) (Hext j)) (Hst j))) /\
  ((forall j, Hst j = vzero) -> mu0 * p_Ms prm * wdot q h =
     - (2 * exchangeEnergy prm q (n_u nod) + 2 * uniaxialEnergy prm q U + 4 * cubicEnergy prm q U
        + zeemanEnergy_space mu0 prm 1 q Hext U + zeemanEnergy mu0 prm q (interp_field q (n_phi nod)) U)).
Proof.
  intros mu0 gamma0 theta dt prm q nod Hext Hst Hmu HMs HK U h.
  assert (P : forall j, (j < 5)%nat -> mu0 * p_Ms prm * h j =
     - 2 * p_A prm * (sqn (deriv q (n_u nod) 0) + sqn (deriv q (n_u nod) 1) + sqn (deriv q (n_u nod) 2))
     - 2 * uniax_density (p_K prm) (p_uk prm) (U j) - 4 * cubic_density (p_K3 prm) (p_ex prm) (p_ey prm) (p_ez prm) (U j)
     + mu0 * p_Ms prm * dot (U j) (vadd (vadd (interp_field q (n_phi nod)) (Hext j)) (Hst j))).
  { intros j Hj. unfold h, uHeff. fold (U j) (Hd q nod).
    assert (A : mu0 * p_Ms prm * snd (H_aniso mu0 gamma0 theta prm dt nod j) =
      - 2 * uniax_density (p_K prm) (p_uk prm) (U j) - 4 * cubic_density (p_K3 prm) (p_ex prm) (p_ey prm) (p_ez prm) (U j)).
    { unfold H_aniso. change (gU nod j) with (U j).
      assert (A1 : mu0 * p_Ms prm * snd (if Req_bool (p_K prm) 0 then (vzero, 0) else
         aniso_uniax (p_uk prm) (2 * p_K prm / (mu0 * p_Ms prm)) (s_dt gamma0 theta dt / gamma0) (U j) (gV nod j)) = - 2 * uniax_density (p_K prm) (p_uk prm) (U j)).
      { destruct (Req_bool_spec (p_K prm) 0) as [E|E].
        - rewrite E. unfold uniax_density. cbn [snd]. ring.
        - unfold aniso_uniax, uniax_density. cbn [snd]. rewrite (dot_comm (U j)). field. split; assumption. }
      assert (A2 : mu0 * p_Ms prm * snd (if Req_bool (p_K3 prm) 0 then (vzero, 0) else
         aniso_cub (p_ex prm) (p_ey prm) (p_ez prm) (2 * p_K3 prm / (mu0 * p_Ms prm)) (s_dt gamma0 theta dt / gamma0) (U j) (gV nod j)) =
         - 4 * cubic_density (p_K3 prm) (p_ex prm) (p_ey prm) (p_ez prm) (U j)).
      { destruct (Req_bool_spec (p_K3 prm) 0) as [E|E].
        - rewrite E. unfold cubic_density. cbn [snd]. ring.
        - destruct HK as [HK|[Ho Hu]]; [contradiction|]. specialize (Hu j Hj). fold (U j) in Hu. unfold unitary in Hu.
          rewrite (orthonormal_parseval _ _ _ (U j) Ho) in Hu. unfold aniso_cub, cubic_density. cbn [snd].
          rewrite (dot_comm (p_ex prm)), (dot_comm (p_ey prm)), (dot_comm (p_ez prm)).
          set (x := dot (U j) (p_ex prm)) in *. set (y := dot (U j) (p_ey prm)) in *. set (z := dot (U j) (p_ez prm)) in *.
          unfold dot. cbn [vx vy vz]. unfold uuu.
          replace (1 - x * x) with (y * y + z * z) by lra. replace (1 - y * y) with (x * x + z * z) by lra.
          replace (1 - z * z) with (x * x + y * y) by lra. field. split; assumption. }
      destruct (if Req_bool (p_K prm) 0 then _ else _) as [h1 e1]. destruct (if Req_bool (p_K3 prm) 0 then _ else _) as [h2 e2].
      cbn [snd] in *. rewrite Rmult_plus_distr_l, A1, A2. ring. }
    rewrite (Rmult_plus_distr_l _ (_ + _)), (Rmult_plus_distr_l _ _ (snd _)), A. unfold Abis. change (gU nod j) with (U j). field. split; assumption. }
  split; [exact P|]. intros H0. rewrite <- wdot_scale. rewrite (wdot_ext q _ _ P).
  unfold exchangeEnergy, uniaxialEnergy, cubicEnergy, zeemanEnergy_space, zeemanEnergy. cbv zeta.
  transitivity (wdot q (fun j => - 2 * p_A prm * (sqn (deriv q (n_u nod) 0) + sqn (deriv q (n_u nod) 1) + sqn (deriv q (n_u nod) 2))
    + (2 * p_K prm * (dot (p_uk prm) (U j) * dot (p_uk prm) (U j))
    + (- 4 * p_K3 prm * (dot (U j) (p_ex prm) * dot (U j) (p_ey prm) * (dot (U j) (p_ex prm) * dot (U j) (p_ey prm)) +
             dot (U j) (p_ey prm) * dot (U j) (p_ez prm) * (dot (U j) (p_ey prm) * dot (U j) (p_ez prm)) +
             dot (U j) (p_ez prm) * dot (U j) (p_ex prm) * (dot (U j) (p_ez prm) * dot (U j) (p_ex prm)))
    + (mu0 * p_Ms prm * dot (U j) (Hext j) + mu0 * p_Ms prm * dot (U j) (interp_field q (n_phi nod))))))).
  - apply wdot_ext. intros j _. rewrite H0. unfold uniax_density, cubic_density. rewrite !dot_add_r. replace (dot (U j) vzero) with 0 by (unfold dot, vzero; cbn [vx vy vz]; ring). ring.
  - repeat (rewrite wdot_plus || rewrite wdot_scale). ring.
Qed.

Example C84_along_nonvacuous : uHeff 1 1 (1/2) ex_prm 1 (fun _ => V 0 0 7) (fun _ => vzero) ref_tet (rest (V 0 0 1)) 0 = 11 /\
  (forall j, (j < 5)%nat -> unitary (interpV (n_u (rest (V 0 0 1))) j)).
Proof.
  assert (HU : forall j, (j < 5)%nat -> interpV (n_u (rest (V 0 0 1))) j = V 0 0 1) by (intros j Hj; apply interp_const; auto).
  assert (O : orthonormal (p_ex ex_prm) (p_ey ex_prm) (p_ez ex_prm)) by (unfold ex_prm, orthonormal, unitary, dot; simpl; repeat split; ring).
  assert (Hu : forall j, (j < 5)%nat -> unitary (interpV (n_u (rest (V 0 0 1))) j)) by (intros j Hj; rewrite HU by exact Hj; unfold unitary, dot; simpl; ring).
  split; [|exact Hu].
  destruct (C84_field_along_m 1 1 (1/2) 1 ex_prm ref_tet (rest (V 0 0 1)) (fun _ => V 0 0 7) (fun _ => vzero)) as [H _]; try (simpl; lra); auto.
  specialize (H 0%nat ltac:(lia)). rewrite HU in H by lia. cbn [p_Ms ex_prm] in H. rewrite !Rmult_1_l in H. rewrite H.
  rewrite !(deriv_const ref_tet (n_u (rest (V 0 0 1))) (V 0 0 1)) by auto.
  replace (interp_field ref_tet (n_phi (rest (V 0 0 1)))) with vzero.
  - unfold sqn, uniax_density, cubic_density, ex_prm. cbn [p_A p_K p_K3 p_uk p_ex p_ey p_ez]. vsimpl. ring.
  - unfold interp_field. fold (calc_gradV ref_tet (n_phi (rest (V 0 0 1)))). rewrite (gradV_const ref_tet _ 3) by auto. vring.
Qed.

(** Finding (tetra.cpp lines 163-165, 300): the anisotropy and the demagnetizing field are predicted at
    u + theta dt v, but the drift and spin transfer terms use theta dt gamma0 although v is already a rate of
    change (mesh.h line 186 multiplies it by gamma0): whenever gamma0 is not 1 the drift is not the first order
    expansion of the drift at the predicted magnetization. *)
Theorem C84_drift_step_refuted : forall gamma0, gamma0 <> 1 ->
  exists (theta dt Vdrift : R) (prm : tprm) (q : nat -> vec) (nod : tnod) (Hext d : nat -> vec) (k : nat) (rate : nat -> R),
  let u s j := interpV (moved (n_u nod) (n_v nod) s) j in
  let du s k := deriv q (moved (n_u nod) (n_v nod) s) k in
  0 < detJ q /\ (forall i, unitary (n_u nod i) /\ dot (n_u nod i) (n_v nod i) = 0) /\
  (forall j, derivable_pt_lim (fun s => dot (drifting (p_alpha prm) (u s j) (du s k)) (interpV d j)) 0 (rate j)) /\
  paired 4 (BE 1 gamma0 theta prm dt Hext (fun _ => vzero) (Some k) Vdrift q nod) d <>
    paired 4 (BE 1 gamma0 theta prm dt Hext (fun _ => vzero) None 0 q nod) d +
    Vdrift * wdot q (fun j => dot (drifting (p_alpha prm) (u 0 j) (du 0 k)) (interpV d j) + theta * dt * rate j).
Proof.
  intros gamma0 Hg.
  set (nod := mkTnod (fun _ => V 1 0 0) (four vzero (V 0 1 0) vzero vzero) (fun _ => 0) (fun _ => 0)).
  destruct (C84_transfer_and_drift 1 gamma0 (1/2) 1 1 ex_prm ref_tet nod (fun _ => vzero) (fun _ => vzero) (fun _ => V 0 1 0)) as [_ H].
  destruct (H 0%nat) as (rate & Hr & E). clear H.
  exists (1/2), 1, 1, ex_prm, ref_tet, nod, (fun _ => vzero), (fun _ => V 0 1 0), 0%nat, rate. cbv zeta.
  split. { rewrite ref_det. lra. }
  split. { intros i. split; [unfold unitary, dot; simpl; ring|].
    destruct i as [|[|[|[|i]]]]; unfold nod, four, dot; cbn [n_u n_v nth vx vy vz vzero]; try ring.
    destruct i; cbn [nth vx vy vz vzero]; ring. }
  split; [exact Hr|]. rewrite E.
  set (plain := paired 4 _ _).
  assert (Du : deriv ref_tet (n_u nod) 0 = vzero) by (apply (deriv_const _ _ (V 1 0 0)); auto).
  assert (Dv : deriv ref_tet (n_v nod) 0 = V 0 1 0).
  { rewrite ref_deriv_x. unfold nod, four. apply vec_eq; cbn [n_v nth vsub vzero vx vy vz]; ring. }
  assert (R1 : forall j, (j < 5)%nat -> rate j = 1).
  { intros j Hj. eapply uniqueness_limite; [apply Hr|]. apply poly_deriv.
    exists (dot (cross (gV nod j) (V 0 1 0)) (V 0 1 0)), 0, 0. intros s.
    assert (G : forall s, dot (drifting (p_alpha ex_prm) (interpV (moved (n_u nod) (n_v nod) s) j) (deriv ref_tet (moved (n_u nod) (n_v nod) s) 0)) (interpV (fun _ => V 0 1 0) j) = s + s * s * dot (cross (gV nod j) (V 0 1 0)) (V 0 1 0)).
    { intros s'. rewrite deriv_moved, Du, Dv, interpV_moved. rewrite (interp_const (n_u nod) (V 1 0 0)), (interp_const (fun _ => V 0 1 0) (V 0 1 0)) by auto.
      fold (gV nod j). generalize (gV nod j). intros g. unfold drifting, ex_prm. cbn [p_alpha]. vsimpl. ring. }
    rewrite (G s), (G 0). ring. }
  assert (T : wdot ref_tet (fun j => dot (transfer vzero (interpV (n_u nod) j) (interpV (n_v nod) j) (1 / 2 * 1 * gamma0)) (interpV (fun _ => V 0 1 0) j)) = 0).
  { unfold wdot. apply sumn_zero. intros j _. unfold transfer. vsimpl. ring. }
  rewrite T.
  assert (W : forall c, wdot ref_tet (fun j => dot (drifting (p_alpha ex_prm) (interpV (moved (n_u nod) (n_v nod) 0) j) (deriv ref_tet (moved (n_u nod) (n_v nod) 0) 0)) (interpV (fun _ => V 0 1 0) j) + c * rate j) = c / 6).
  { intros c. rewrite (wdot_ext _ _ (fun _ => c)).
    - rewrite wdot_const, vol_det, ref_det. field.
    - intros j Hj. rewrite (R1 j Hj), deriv_moved, Du, Dv, (interp_const (fun _ => V 0 1 0) (V 0 1 0)) by auto.
      generalize (interpV (moved (n_u nod) (n_v nod) 0) j). intros g. unfold drifting. vsimpl. ring. }
  rewrite !W. lra.
Qed.

(** ** C85: the Thiele length *)
(** in tetrahedron [t] the nodal values of [u] are those of an affine function whose derivative along z is [gz] *)
Definition slope_z (p u : nat -> vec) (t : tet) (gz : vec) : Prop :=
  exists u0 gx gy, forall i, In i (tet_nodes t) ->
    u i = vadd u0 (vadd (vscale (vx (p i)) gx) (vadd (vscale (vy (p i)) gy) (vscale (vz (p i)) gz))).

Lemma deriv_z_affine : forall q u u0 gx gy gz, detJ q <> 0 ->
  (forall i, (i < 4)%nat -> u i = vadd u0 (vadd (vscale (vx (q i)) gx) (vadd (vscale (vy (q i)) gy) (vscale (vz (q i)) gz)))) ->
  deriv q u 2 = gz.
Proof.
  intros q u u0 gx gy gz H E.
  destruct (C46_derivatives_affine q u0 (V (vx gx) (vx gy) (vx gz)) (V (vy gx) (vy gy) (vy gz)) (V (vz gx) (vz gy) (vz gz)) H) as (_ & _ & D).
  cbv zeta in D. transitivity (V (vx gz) (vy gz) (vz gz)); [|destruct gz; reflexivity].
  cbn [vx vy vz] in D. rewrite <- D. unfold deriv, vsumn. cbn [sumn]. rewrite !E by lia. vring.
Qed.

(** the tetrahedrons of the region (or all the magnetic ones), and the volume the code divides by *)
Lemma selected_volume : forall Ms p nregions nnodes tets region,
  (forall t, In t tets -> (t_reg t < nregions)%nat) ->
  (forall r, region = Some r -> 0 < nth r Ms 0) ->
  (exists t, In t tets /\ selected Ms region t) ->
  exists sel, (forall t, In t sel <-> In t tets /\ selected Ms region t) /\
    avg_volume (volumes Ms (tet_vol p) nregions tets) region = lsum (map (tet_vol p) sel) /\
    forall f : tet -> R, lsum (map (fun t => if in_reg region t then f t else 0) (nth_tets tets (magTet_of Ms nnodes tets))) = lsum (map f sel).
Proof.
  intros Ms p nregions nnodes tets region Hr Hreg Hex.
  set (sel := filter (in_reg region) (filter (mag_tet Ms) tets)). exists sel.
  assert (HM : forall t, mag_tet Ms t = true <-> 0 < nth (t_reg t) Ms 0).
  { intros t. unfold mag_tet. destruct (Rlt_bool_spec 0 (nth (t_reg t) Ms 0)); split; intros; auto; try discriminate; lra. }
  split; [|split].
  - intros t. unfold sel, selected. rewrite !filter_In, HM. unfold in_reg. destruct region as [r|].
    + rewrite Nat.eqb_eq. split.
      * intros [[H1 H2] H3]. split; auto. split; auto. intros r' E. congruence.
      * intros (H1 & H2 & H3). split; auto.
    + split; [|tauto]. intros [[H1 H2] _]. split; auto. split; auto. discriminate.
  - destruct (volumes_spec Ms (tet_vol p) nregions tets Hr) as (_ & V1 & V2). unfold avg_volume. destruct region as [r|].
    + destruct Hex as (t & H1 & H2 & H3). specialize (H3 r eq_refl). rewrite V1 by (rewrite <- H3; auto).
      unfold sel. f_equal. f_equal. clear - Hreg HM. specialize (Hreg r eq_refl).
      induction tets as [|t' l IH]; auto. cbn [filter]. unfold in_reg at 1.
      destruct (mag_tet Ms t') eqn:M; cbn [filter in_reg].
      * rewrite IH. reflexivity.
      * destruct (t_reg t' =? r)%nat eqn:E; auto. apply Nat.eqb_eq in E.
        assert (mag_tet Ms t' = true) by (apply HM; rewrite E; exact Hreg). congruence.
    + rewrite V2. unfold sel. f_equal. f_equal. clear. induction (filter (mag_tet Ms) tets) as [|t l IH]; auto.
      cbn [filter in_reg]. rewrite <- IH. reflexivity.
  - intros f. rewrite nth_magTets. unfold sel. generalize (filter (mag_tet Ms) tets). clear.
    induction l as [|t l IH]; auto. cbn [map lsum filter]. rewrite IH. destruct (in_reg region t); cbn [map lsum]; [reflexivity|ring].
Qed.

(** the length reported is twice the mean cross-section of the region, divided by the integral of |du/dz|^2 over it *)
Theorem C85_thiele : forall (Ms : list R) (p u : nat -> vec) (nregions nnodes : nat) (tets : list tet) (region : option nat) (lz : R)
    (gz : tet -> vec),
  (forall t, In t tets -> (t_reg t < nregions)%nat) ->
  (forall t, In t tets -> 0 < detJ (corner p t)) ->
  (forall r, region = Some r -> 0 < nth r Ms 0) ->
  (exists t, In t tets /\ selected Ms region t /\ gz t <> vzero) ->
  0 < lz ->
  (forall t, In t tets -> selected Ms region t -> slope_z p u t (gz t)) ->
  exists sel : list tet,
    (forall t, In t sel <-> In t tets /\ selected Ms region t) /\
    let integral := lsum (map (fun t => tet_vol p t * dot (gz t) (gz t)) sel) in
    0 < integral /\
    forall r, thiele_result p u tets (magTet_of Ms nnodes tets) (volumes Ms (tet_vol p) nregions tets) lz region r ->
      r = 2 * (lsum (map (tet_vol p) sel) / lz) / integral.
Proof.
  intros Ms p u nregions nnodes tets region lz gz Hr Hd Hreg Hex Hlz Hs.
  destruct (selected_volume Ms p nregions nnodes tets region Hr Hreg) as (sel & H1 & H2 & H3).
  { destruct Hex as (t & A & B & _). eauto. }
  exists sel. split; auto. cbv zeta.
  assert (Hp : forall t, In t sel -> 0 < tet_vol p t).
  { intros t Ht. apply H1 in Ht. unfold tet_vol. rewrite vol_det. specialize (Hd t (proj1 Ht)). lra. }
  split.
  - destruct Hex as (t & A & B & C). assert (Ht : In t sel) by (apply H1; auto).
    apply in_split in Ht. destruct Ht as (l1 & l2 & E). rewrite E in *. rewrite map_app, lsum_app. cbn [map lsum].
    assert (N : forall l, (forall t, In t l -> 0 < tet_vol p t) -> 0 <= lsum (map (fun t => tet_vol p t * dot (gz t) (gz t)) l)).
    { intros l Hl. apply lsum_nonneg. intros x Hx. apply Rmult_le_pos; [apply Rlt_le; auto | apply dot_self_nonneg]. }
    assert (0 <= lsum (map (fun t => tet_vol p t * dot (gz t) (gz t)) l1)) by (apply N; intros; apply Hp, in_or_app; auto).
    assert (0 <= lsum (map (fun t => tet_vol p t * dot (gz t) (gz t)) l2)) by (apply N; intros; apply Hp, in_or_app; simpl; auto).
    assert (0 < tet_vol p t) by (apply Hp, in_or_app; simpl; auto).
    assert (0 < dot (gz t) (gz t)).
    { pose proof (dot_self_nonneg (gz t)). destruct (Req_dec (dot (gz t) (gz t)) 0) as [Z|Z]; [|lra]. apply dot_self_zero in Z. contradiction. }
    assert (0 < tet_vol p t * dot (gz t) (gz t)) by (apply Rmult_lt_0_compat; assumption). lra.
  - intros r (sum & Hsum & ->). apply reduce_sum in Hsum. rewrite Rplus_0_l in Hsum. rewrite Hsum, H2.
    unfold thiele_term. rewrite H3. f_equal. apply lsum_map_ext. intros t Ht. apply H1 in Ht. destruct Ht as [A B].
    rewrite wdot_const. unfold tet_vol, sqn. f_equal. destruct (Hs t A B) as (u0 & gx & gy & E).
    rewrite (deriv_z_affine (corner p t) (corner u t) u0 gx gy (gz t)); auto.
    { specialize (Hd t A). lra. }
    intros i Hi. unfold corner. apply E. apply nth_In. unfold tet_nodes. cbn [length]. lia.
Qed.

(** one tetrahedron with u = z e_x: the length is 2 for lz = 1 *)
Example C85_nonvacuous :
  let p := four (V 0 0 0) (V 1 0 0) (V 0 1 0) (V 0 0 1) in
  let u := four vzero vzero vzero (V 1 0 0) in
  slope_z p u (mkTet 0 1 2 3 0) (V 1 0 0) /\ selected [1] (Some 0%nat) (mkTet 0 1 2 3 0) /\
  exists r, thiele_result p u [mkTet 0 1 2 3 0] (magTet_of [1] 4 [mkTet 0 1 2 3 0]) (volumes [1] (tet_vol p) 1 [mkTet 0 1 2 3 0]) 1 (Some 0%nat) r.
Proof.
  cbv zeta. split; [|split].
  - exists vzero, vzero, vzero. intros i Hi. cbn [tet_nodes In t0 t1 t2 t3] in Hi.
    destruct Hi as [<-|[<-|[<-|[<-|[]]]]]; unfold four; cbn [nth]; vring.
  - split. { cbn. lra. } intros r E. injection E as <-. reflexivity.
  - eexists. eexists. split. { apply reduce_exists. } reflexivity.
Qed.

Print Assumptions C84_energy_gradient_partial.
Print Assumptions C84_surface.
Print Assumptions C84_rows.
Print Assumptions C84_surface_factor_refuted.
Print Assumptions C84_transfer_and_drift.
Print Assumptions C84_field_along_m.
Print Assumptions C84_drift_step_refuted.
Print Assumptions C85_thiele.
