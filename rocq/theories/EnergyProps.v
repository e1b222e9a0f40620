(** * Properties of the energies: C53 *)
From Coq Require Import Reals List Arith Bool Lia Lra Permutation Sorted.
From Flocq Require Import Core.
From Verif Require Import Vec Sums StdModel MeshModel MeshProof MeshProps ElemModel ElemProof AvgModel ElemProps EnergyModel.
Import ListNotations.
Local Open Scope R_scope.

Definition the_tet (tets : list tet) (k : nat) : tet := nth k tets (mkTet 0 0 0 0 0).
Definition the_tri (tris : list tri) (k : nat) : tri := nth k tris (mkTri 0 0 0 0).

Lemma uniax_zero : forall prm q U, p_K prm = 0 -> uniaxialEnergy prm q U = 0.
Proof. intros prm q U H. unfold uniaxialEnergy. rewrite H. ring. Qed.
Lemma cubic_zero : forall prm q U, p_K3 prm = 0 -> cubicEnergy prm q U = 0.
Proof. intros prm q U H. unfold cubicEnergy. rewrite H. ring. Qed.
Lemma tri_aniso_zero : forall Ks uk q U, Ks = 0 -> tri_anisotropyEnergy Ks uk q U = 0.
Proof. intros Ks uk q U H. unfold tri_anisotropyEnergy. rewrite H. ring. Qed.

Section sums.
Variables (mu0 : R) (prms : list tprm) (sprms : list sprm) (dprm : tprm) (dsprm : sprm).
Variables (p u : nat -> vec) (phi : nat -> R).
Variables (tets : list tet) (tris : list tri) (dMs : list R).

(** the terms of one element *)
Definition prm_of k := nth (t_reg (the_tet tets k)) prms dprm.
Definition t_ex k := exchangeEnergy (prm_of k) (corner p (the_tet tets k)) (corner u (the_tet tets k)).
Definition t_an k := uniaxialEnergy (prm_of k) (corner p (the_tet tets k)) (interpV (corner u (the_tet tets k))) +
                     cubicEnergy (prm_of k) (corner p (the_tet tets k)) (interpV (corner u (the_tet tets k))).
Definition t_de k := tet_demagEnergy mu0 (prm_of k) (corner p (the_tet tets k)) (corner u (the_tet tets k)) (interp (corner phi (the_tet tets k))).
Definition t_ze_uniform H k := zeemanEnergy mu0 (prm_of k) (corner p (the_tet tets k)) H (interpV (corner u (the_tet tets k))).
(** in the field amp * space(x) *)
Definition t_ze_space amp (space : vec -> vec) k :=
  zeemanEnergy_space mu0 (prm_of k) amp (corner p (the_tet tets k)) (fun j => space (interpV (corner p (the_tet tets k)) j)) (interpV (corner u (the_tet tets k))).
Definition sprm_of k := nth (r_reg (the_tri tris k)) sprms dsprm.
Definition s_an k := tri_anisotropyEnergy (s_Ks (sprm_of k)) (s_uk (sprm_of k)) (tri_corner p (the_tri tris k)) (tinterpV (tri_corner u (the_tri tris k))).
Definition s_de k := tri_demagEnergy mu0 (nth k dMs 0) (tri_corner p (the_tri tris k)) (tinterpV (tri_corner u (the_tri tris k))) (tinterp (tri_corner phi (the_tri tris k))).

Lemma tris_sum : forall l E, fold_left (tri_energy mu0 sprms dsprm p u phi tris dMs) l E =
  mkE (E_ex E) (E_aniso E + lsum (map s_an l)) (E_demag E + lsum (map s_de l)) (E_zeeman E).
Proof.
  induction l as [|k l IH]; intros E; cbn [fold_left map lsum].
  - rewrite !Rplus_0_r. destruct E; reflexivity.
  - rewrite IH. unfold tri_energy at 1 2 3 4. cbn [E_ex E_aniso E_demag E_zeeman]. f_equal.
    + unfold s_an at 2, sprm_of, the_tri. destruct (Req_bool_spec (s_Ks (nth (r_reg (nth k tris (mkTri 0 0 0 0))) sprms dsprm)) 0) as [Z|Z]; [|ring].
      rewrite (tri_aniso_zero _ _ _ _ Z). ring.
    + unfold s_de at 2, the_tri. ring.
Qed.

Lemma tet_aniso_eq : forall k a,
  (if Req_bool (p_K3 (prm_of k)) 0
   then (if Req_bool (p_K (prm_of k)) 0 then a else a + uniaxialEnergy (prm_of k) (corner p (the_tet tets k)) (interpV (corner u (the_tet tets k))))
   else (if Req_bool (p_K (prm_of k)) 0 then a else a + uniaxialEnergy (prm_of k) (corner p (the_tet tets k)) (interpV (corner u (the_tet tets k)))) +
        cubicEnergy (prm_of k) (corner p (the_tet tets k)) (interpV (corner u (the_tet tets k)))) = a + t_an k.
Proof.
  intros k a. unfold t_an.
  destruct (Req_bool_spec (p_K3 (prm_of k)) 0) as [Z3|Z3], (Req_bool_spec (p_K (prm_of k)) 0) as [Z|Z];
  rewrite ?(uniax_zero _ _ _ Z), ?(cubic_zero _ _ _ Z3); ring.
Qed.

Definition zeeman_of (f : field) (ext : list (nat -> vec)) (k : nat) : R :=
  match f with
  | RtoR3 H => t_ze_uniform H k
  | R4toR3 amp => zeemanEnergy_space mu0 (prm_of k) amp (corner p (the_tet tets k)) (nth k ext (fun _ => vzero)) (interpV (corner u (the_tet tets k)))
  | UNDEF => 0
  end.

Lemma tet_energy_eq : forall f ext E k, (forall amp, f = R4toR3 amp -> (k < length ext)%nat) -> f <> UNDEF ->
  tet_energy mu0 prms dprm p u phi tets f ext E k =
  Some (mkE (E_ex E + t_ex k) (E_aniso E + t_an k) (E_demag E + t_de k) (nan_add (E_zeeman E) (zeeman_of f ext k))).
Proof.
  intros f ext E k Hk Hf. unfold tet_energy. fold (the_tet tets k). fold (prm_of k). rewrite tet_aniso_eq.
  destruct f as [H|amp|]; [reflexivity| |contradiction].
  rewrite (nth_error_nth' ext (fun _ => vzero) (Hk amp eq_refl)). reflexivity.
Qed.

Lemma tets_sum : forall f ext l E, (forall amp k, f = R4toR3 amp -> In k l -> (k < length ext)%nat) -> f <> UNDEF ->
  tets_energy mu0 prms dprm p u phi tets f ext l (Some E) =
  Some (mkE (E_ex E + lsum (map t_ex l)) (E_aniso E + lsum (map t_an l)) (E_demag E + lsum (map t_de l))
            (match E_zeeman E with Some z => Some (z + lsum (map (zeeman_of f ext) l)) | None => None end)).
Proof.
  intros f ext. unfold tets_energy. induction l as [|k l IH]; intros E Hk Hf; cbn [fold_left map lsum].
  - rewrite !Rplus_0_r. destruct E as [a b c [z|]]; cbn [E_ex E_aniso E_demag E_zeeman]; [rewrite Rplus_0_r|]; reflexivity.
  - rewrite tet_energy_eq; auto. 2: { intros amp Ha. apply (Hk amp k Ha). left; auto. }
    rewrite IH; auto. 2: { intros amp k' Ha Hin. apply (Hk amp k' Ha). right; auto. }
    cbn [E_ex E_aniso E_demag E_zeeman]. rewrite !Rplus_assoc. destruct (E_zeeman E) as [z|]; cbn [nan_add]; [rewrite Rplus_assoc|]; reflexivity.
Qed.

Lemma tets_undefined : forall amp ext l E, (exists k, In k l /\ (length ext <= k)%nat) ->
  tets_energy mu0 prms dprm p u phi tets (R4toR3 amp) ext l E = None.
Proof.
  intros amp ext. unfold tets_energy. induction l as [|k l IH]; intros E (k' & Hin & Hk); [contradiction|]. cbn [fold_left].
  assert (N : forall l, fold_left (fun E k => match E with Some E => tet_energy mu0 prms dprm p u phi tets (R4toR3 amp) ext E k | None => None end) l None = None).
  { induction l0; auto. }
  destruct Hin as [->|Hin].
  - replace (match E with Some E => _ | None => None end) with (@None energies); [apply N|].
    destruct E as [E|]; auto. unfold tet_energy. apply nth_error_None in Hk. rewrite Hk. reflexivity.
  - apply IH. eauto.
Qed.
End sums.

Lemma nth_ext_field : forall space p tets magTet k, magTet = seq 0 (length magTet) -> (k < length magTet)%nat ->
  nth k (ext_space_field space p tets magTet) (fun _ => vzero) = (fun j => space (interpV (corner p (the_tet tets k)) j)).
Proof.
  intros space p tets magTet k E Hk. unfold ext_space_field, nth_tets. rewrite map_map.
  set (g := fun x (j : nat) => space (interpV (corner p (nth x tets (mkTet 0 0 0 0 0))) j)).
  rewrite (nth_indep _ (fun _ => vzero) (g 0%nat)) by (rewrite map_length; auto). rewrite (map_nth g magTet 0%nat k).
  rewrite E, seq_nth by exact Hk. reflexivity.
Qed.

(** C53. The four terms are the sums over the magnetic elements; the total is their sum. For a field that
    varies in space this needs the magnetic tetrahedrons to come first in the mesh (see C53_space_field_refuted). *)
Theorem C53_energy_partial : forall mu0 prms sprms dprm dsprm p u phi tets tris dMs n suppress f space,
  let magTet := magTet_of (map p_Ms prms) n tets in
  let magTri := magTri_of (magNode_of (map p_Ms prms) n tets) suppress tris in
  match f with RtoR3 _ => True | R4toR3 _ => magTet = seq 0 (length magTet) | UNDEF => False end ->
  exists E z, energy mu0 prms sprms dprm dsprm p u phi tets tris dMs magTet magTri f (ext_space_field space p tets magTet) = Some E /\
    E_ex E = lsum (map (t_ex prms dprm p u tets) magTet) /\
    E_aniso E = lsum (map (t_an prms dprm p u tets) magTet) + lsum (map (s_an sprms dsprm p u tris) magTri) /\
    E_demag E = lsum (map (t_de mu0 prms dprm p u phi tets) magTet) + lsum (map (s_de mu0 p u phi tris dMs) magTri) /\
    E_zeeman E = Some z /\
    z = lsum (map (match f with
                   | RtoR3 H => t_ze_uniform mu0 prms dprm p u tets H
                   | R4toR3 amp => t_ze_space mu0 prms dprm p u tets amp space
                   | UNDEF => fun _ => 0 end) magTet) /\
    forall Etot, total_result E Etot <-> Etot = Some (E_ex E + E_aniso E + E_demag E + z).
Proof.
  intros mu0 prms sprms dprm dsprm p u phi tets tris dMs n suppress f space magTet magTri Hf.
  set (ext := ext_space_field space p tets magTet).
  assert (Le : length ext = length magTet) by (unfold ext, ext_space_field, nth_tets; rewrite !map_length; reflexivity).
  assert (H1 : forall amp k, f = R4toR3 amp -> In k magTet -> (k < length ext)%nat).
  { intros amp k -> Hk. cbv iota beta in Hf. rewrite Hf in Hk. apply in_seq in Hk. lia. }
  assert (H2 : f <> UNDEF) by (intros ->; exact Hf).
  unfold energy. rewrite (tets_sum mu0 prms dprm p u phi tets f ext magTet E_zero H1 H2). rewrite tris_sum.
  cbn [E_ex E_aniso E_demag E_zeeman E_zero]. rewrite !Rplus_0_l.
  eexists. exists (lsum (map (zeeman_of mu0 prms dprm p u tets f ext) magTet)). split; [reflexivity|].
  cbn [E_ex E_aniso E_demag E_zeeman]. rewrite ?Rplus_0_l. split; [reflexivity|]. split; [reflexivity|]. split; [reflexivity|]. split; [reflexivity|].
  split.
  - apply lsum_map_ext. intros k Hk. destruct f as [H|amp|]; [reflexivity| |contradiction].
    unfold zeeman_of, t_ze_space. unfold ext. rewrite nth_ext_field; auto. cbv iota beta in Hf. rewrite Hf in Hk. apply in_seq in Hk. lia.
  - intros Etot. unfold total_result. cbn [E_ex E_aniso E_demag E_zeeman]. rewrite ?Rplus_0_l. split.
    + intros (r & Hr & ->). apply reduce_sum in Hr. cbn [lsum] in Hr. rewrite Hr. f_equal. ring.
    + intros ->. eexists. split; [|reflexivity]. eapply eq_rect; [apply reduce_exists|]. cbn [fold_left]. ring.
Qed.

(** the elements concerned are the magnetic ones: see C37_marking for the lists magTet and magTri.
    A tetrahedron of another region does not contribute, whatever its parameters *)
Theorem C53_magnetic_only : forall prms n tets k,
  In k (magTet_of (map p_Ms prms) n tets) <-> (k < length tets)%nat /\ 0 < nth (t_reg (the_tet tets k)) (map p_Ms prms) 0.
Proof.
  intros prms n tets k. destruct (C37_marking (map p_Ms prms) n tets [] []) as (_ & (_ & H) & _). rewrite H. unfold the_tet. split.
  - intros (t & Ht & Hm). split. { apply nth_error_Some. rewrite Ht. discriminate. } rewrite (nth_error_nth _ _ _ Ht). exact Hm.
  - intros (Hk & Hm). eexists. split; [apply nth_error_nth'; exact Hk|exact Hm].
Qed.

(** with a field that varies in space, the code reads past the end of the stored field as soon as a tetrahedron
    that is not magnetic precedes a magnetic one *)
Theorem C53_space_field_refuted : forall mu0 prms sprms dprm dsprm p u phi tets tris dMs n magTri amp space i j,
  let magTet := magTet_of (map p_Ms prms) n tets in
  (i < j)%nat -> ~ In i magTet -> In j magTet ->
  energy mu0 prms sprms dprm dsprm p u phi tets tris dMs magTet magTri (R4toR3 amp) (ext_space_field space p tets magTet) = None.
Proof.
  intros mu0 prms sprms dprm dsprm p u phi tets tris dMs n magTri amp space i j magTet Hij Hi Hj.
  unfold energy. rewrite tets_undefined; auto.
  assert (L : length (ext_space_field space p tets magTet) = length magTet) by (unfold ext_space_field, nth_tets; rewrite !map_length; reflexivity).
  rewrite L. destruct (mark_spec (map p_Ms prms) n tets) as (_ & _ & _ & S0). fold magTet in S0.
  assert (K : forall l a b, StronglySorted lt l -> In b l -> ~ In a l -> (a < b)%nat -> (forall x, In x l -> (x <= b)%nat) -> (length l <= b)%nat).
  { intros l a b Hso Hb Ha Hab Hmax. assert (I : incl l (remove Nat.eq_dec a (seq 0 (S b)))).
    { intros x Hx. apply in_in_remove. { intros ->. contradiction. } apply in_seq. specialize (Hmax x Hx). lia. }
    assert (ND : NoDup l). { clear - Hso. induction Hso as [|x l _ IH F]; constructor; auto. intros Hx. rewrite Forall_forall in F. specialize (F x Hx). lia. }
    apply NoDup_incl_length in I; auto.
    assert (R : (length (remove Nat.eq_dec a (seq 0 (S b))) < S b)%nat).
    { pose proof (remove_length_lt Nat.eq_dec (seq 0 (S b)) a) as Q. rewrite seq_length in Q. apply Q. apply in_seq. lia. }
    lia. }
  (* the last magnetic tetrahedron *)
  assert (M : exists b, In b magTet /\ (j <= b)%nat /\ forall x, In x magTet -> (x <= b)%nat).
  { clear - Hj. revert Hj. generalize magTet. intros l. revert j. induction l as [|x l IH]; intros j Hj; [contradiction|].
    destruct l as [|y l].
    - exists x. split; [left; auto|]. destruct Hj as [->|[]]. split; [lia|]. intros z [<-|[]]. lia.
    - destruct (IH y (or_introl eq_refl)) as (b & B1 & B2 & B3). destruct (le_lt_dec x b) as [H|H].
      + exists b. split; [right; auto|]. split. { destruct Hj as [<-|Hj]; auto. } intros z [<-|Hz]; auto.
      + exists x. split; [left; auto|]. split. { destruct Hj as [<-|Hj]; [lia|]. specialize (B3 j Hj). lia. }
        intros z [<-|Hz]; [lia|]. specialize (B3 z Hz). lia. }
  destruct M as (b & B1 & B2 & B3). exists b. split; auto. apply (K magTet i b); auto. lia.
Qed.

(** the warning *)
Theorem C53_warning : forall verbose l k, (k < length l)%nat ->
  (nth k (warnings verbose Infinite l) false = true <->
   verbose = true /\ exists k' e e', k = S k' /\ nth k' l None = Some e /\ nth k l None = Some e' /\ e < e').
Proof.
  intros verbose. assert (G : forall l E0 k, (k < length l)%nat ->
    (nth k (warnings verbose E0 l) false = true <-> verbose = true /\ exceeds (nth k l None) (match k with O => E0 | S k' => Was (nth k' l None) end) = true)).
  { induction l as [|e l IH]; intros E0 k Hk; cbn [length] in Hk; [lia|]. cbn [warnings monitor]. destruct k as [|k]; cbn [nth].
    - rewrite andb_true_iff. reflexivity.
    - rewrite IH by lia. destruct k; reflexivity. }
  intros l k Hk. rewrite G by exact Hk. destruct k as [|k].
  - split. { intros [_ H]. destruct (nth 0 l None); discriminate. } intros (_ & k' & e & e' & H & _). discriminate.
  - split; intros [V H]; split; auto.
    + unfold exceeds in H. destruct (nth k l None) as [e|] eqn:Ek; [|discriminate]. destruct (nth (S k) l None) as [e'|] eqn:Ek'; [|discriminate].
      exists k, e, e'. repeat split; auto. destruct (Rlt_bool_spec e e'); [assumption|discriminate].
    + destruct H as (k' & e & e' & Hk' & H1 & H2 & H3). inversion Hk'; subst k'. rewrite H1, H2. unfold exceeds. apply Rlt_bool_true. exact H3.
Qed.

(** the energies of a line are those at the beginning of its last time step, not at the time of the line *)
Lemma last_default : forall {X} (m : list X) x d d', last (x :: m) d = last (x :: m) d'.
Proof. induction m as [|y m IH]; intros x d d'; [reflexivity|]. exact (IH y d d'). Qed.

Theorem C53_evaluation_time : forall {X} (eval : R -> X) t_initial steps,
  energies_line eval t_initial steps = (last steps t_initial, eval (last (removelast (t_initial :: steps)) t_initial)).
Proof.
  intros X eval t_initial steps. unfold energies_line.
  assert (G : forall steps t0 E, energies_at eval t0 E steps =
    (last steps t0, match steps with [] => E | _ => eval (last (removelast (t0 :: steps)) t0) end)).
  { induction steps0 as [|t1 l IH]; intros t0 E; [reflexivity|]. cbn [energies_at]. rewrite IH. destruct l as [|t2 l]; [reflexivity|].
    f_equal; [|f_equal].
    - change (last (t1 :: t2 :: l) t0) with (last (t2 :: l) t0). apply last_default.
    - change (removelast (t0 :: t1 :: t2 :: l)) with (t0 :: removelast (t1 :: t2 :: l)).
      change (removelast (t1 :: t2 :: l)) with (t1 :: removelast (t2 :: l)).
      change (last (t0 :: t1 :: removelast (t2 :: l)) t0) with (last (t1 :: removelast (t2 :: l)) t0).
      apply last_default. }
  rewrite G. destruct steps; reflexivity.
Qed.

Theorem C53_line_time_refuted : exists (field_at : R -> R) t_initial steps,
  let '(t, E) := energies_line field_at t_initial steps in E <> field_at t.
Proof. exists (fun t => t), 0, [1]. cbn. lra. Qed.

(** a non-trivial case: two magnetic tetrahedrons followed by one that is not, in a field varying in space *)
Example C53_nonvacuous :
  let prms := [mkTprm 0 0 0 0 vzero 0 vzero vzero vzero; mkTprm (1/10) 1 2 0 vzero 0 vzero vzero vzero; mkTprm 0 0 0 0 vzero 0 vzero vzero vzero] in
  let tets := [mkTet 0 1 2 3 1; mkTet 1 2 3 4 1; mkTet 2 3 4 5 2] in
  let magTet := magTet_of (map p_Ms prms) 6 tets in
  magTet = seq 0 (length magTet) /\ length magTet = 2%nat.
Proof.
  cbv zeta. unfold magTet_of, mark, mark_tet, mag_tet. cbn [map p_Ms length seq combine fold_left snd fst t_reg nth].
  rewrite !(Rlt_bool_true 0 2) by lra. rewrite !(Rlt_bool_false 0 0) by lra. split; reflexivity.
Qed.
Example C53_warning_nonvacuous : nth 2 (warnings true Infinite [Some 3; Some 1; Some 2]) false = true.
Proof. cbn [warnings monitor exceeds nth andb]. apply Rlt_bool_true. lra. Qed.

Print Assumptions C53_energy_partial.
Print Assumptions C53_space_field_refuted.
Print Assumptions C53_warning.
Print Assumptions C53_evaluation_time.

Example C53_space_field_nonvacuous :
  let prms := [mkTprm 0 0 0 0 vzero 0 vzero vzero vzero; mkTprm (1/10) 1 2 0 vzero 0 vzero vzero vzero; mkTprm 0 0 0 0 vzero 0 vzero vzero vzero] in
  let tets := [mkTet 2 3 4 5 2; mkTet 0 1 2 3 1] in
  let magTet := magTet_of (map p_Ms prms) 6 tets in
  (0 < 1)%nat /\ ~ In 0%nat magTet /\ In 1%nat magTet.
Proof.
  cbv zeta. unfold magTet_of, mark, mark_tet, mag_tet. cbn [map p_Ms length seq combine fold_left snd fst t_reg nth].
  rewrite !(Rlt_bool_true 0 2) by lra. rewrite !(Rlt_bool_false 0 0) by lra. cbn. split; [lia|]. split; [|auto]. intros [H|[]]. discriminate.
Qed.
