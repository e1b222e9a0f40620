(** * The time loop ends in binary64 when min(dt) is not negligible before the times *)
From Coq Require Import ZArith List Bool Lia Reals Lra Psatz.
From Flocq Require Import Core BinarySingleNaN Relative.
From Verif Require Import Arith ArithLaws TimeModel TimeSpec TimeProof TimeNum TimeTerm TimeMain TimeProps.
Import ListNotations.
Local Open Scope R_scope.

#[local] Opaque propose.
Notation L := B64_laws.

Lemma err64 : forall x, Rabs (rnd64 x - x) <= bpow radix2 (-53) * Rabs x + bpow radix2 (-1075).
Proof.
  intros x. unfold rnd64. pose proof (bpow_gt_0 radix2 (-1075)) as P1. pose proof (bpow_gt_0 radix2 (-53)) as P2. pose proof (Rabs_pos x) as Px.
  destruct (Rle_or_lt (bpow radix2 (-1022)) (Rabs x)) as [H|H].
  - pose proof (relative_error_N_FLT radix2 (-1074) 53 ltac:(lia) (fun x => negb (Z.even x)) x) as E.
    change (-1074 + 53 - 1)%Z with (-1022)%Z in E. specialize (E H).
    change (/ 2 * bpow radix2 (- (53) + 1)) with (/ 2 * bpow radix2 (-52)) in E.
    replace (/ 2 * bpow radix2 (-52)) with (bpow radix2 (-53)) in E by (change (-52)%Z with (-53 + 1)%Z; rewrite bpow_plus; cbn [bpow]; simpl (IZR _); lra).
    eapply Rle_trans; [exact E|]. lra.
  - pose proof (error_le_half_ulp radix2 (FLT_exp (-1074) 53) (fun x => negb (Z.even x)) x) as E.
    rewrite (ulp_FLT_small radix2 (-1074) 53) in E; [|eapply Rlt_le_trans; [exact H|apply bpow_le; lia]].
    replace (/ 2 * bpow radix2 (-1074)) with (bpow radix2 (-1075)) in E by (change (-1074)%Z with (-1075 + 1)%Z; rewrite bpow_plus; cbn [bpow]; simpl (IZR _); lra).
    eapply Rle_trans; [exact E|]. nra.
Qed.

Definition q : R := 25 / 24.

Lemma lit95 : is_finite (@nlit B64 95 100 : b64) = true /\ 0 <= B2R (@nlit B64 95 100 : b64) <= 951 / 1000.
Proof.
  destruct (b64_of_Z_correct 95 ltac:(lia)) as [F1 V1]. destruct (b64_of_Z_correct 100 ltac:(lia)) as [F2 V2].
  assert (E95 : @nlit B64 95 100 = Bdiv mode_NE (b64_of_Z 95) (b64_of_Z 100)) by reflexivity. rewrite E95.
  pose proof (err64 (95 / 100)) as E. rewrite (Rabs_pos_eq (95 / 100)) in E by lra.
  assert (S : bpow radix2 (-53) * (95/100) + bpow radix2 (-1075) <= / 1000).
  { apply Rle_trans with (/ 2048 * (95/100) + / 2048); [|lra].
    change (/2048) with (bpow radix2 (-11)). apply Rplus_le_compat; [apply Rmult_le_compat_r; [lra|]|]; apply bpow_le; lia. }
  apply Rabs_le_inv in E.
  destruct (Bdiv64 (b64_of_Z 95) (b64_of_Z 100) F1 F2) as [F V].
  - rewrite V2. lra.
  - rewrite V1, V2. apply ok64_small. rewrite Rabs_pos_eq by lra. apply Rle_trans with (bpow radix2 0); [cbn; lra|apply bpow_le; lia].
  - rewrite V1, V2 in V. split; [exact F|]. rewrite V. lra.
Qed.

Lemma small_part : forall d e, bpow radix2 (-1000) <= d -> 0 <= e <= 951 / 1000 * d -> rnd64 e <= 24 / 25 * d /\ 0 <= rnd64 e.
Proof.
  intros d e Hd He. split.
  - pose proof (err64 e) as E. rewrite (Rabs_pos_eq e) in E by lra. apply Rabs_le_inv in E.
    assert (S1 : bpow radix2 (-53) <= / 2048) by (change (/2048) with (bpow radix2 (-11)); apply bpow_le; lia).
    assert (S2 : bpow radix2 (-1075) <= / 2048 * d).
    { apply Rle_trans with (/ 2048 * bpow radix2 (-1000)); [|lra]. change (/2048) with (bpow radix2 (-11)). rewrite <- bpow_plus. apply bpow_le. lia. }
    pose proof (bpow_gt_0 radix2 (-53)). nra.
  - rewrite <- rnd64_0. apply rnd64_mono. lra.
Qed.

Lemma half64 : forall d : b64, is_finite d = true -> bpow radix2 (-1000) <= B2R d ->
  is_finite (Bdiv mode_NE d (b64_of_Z 2)) = true /\ B2R (Bdiv mode_NE d (b64_of_Z 2)) <= 24 / 25 * B2R d.
Proof.
  intros d Fd Hd. destruct (b64_of_Z_correct 2 ltac:(lia)) as [F2 V2]. pose proof (bpow_gt_0 radix2 (-1000)).
  destruct (Bdiv64 d (b64_of_Z 2) Fd F2) as [F V].
  - rewrite V2. lra.
  - rewrite V2. apply ok64_mono with (B2R d).
    + rewrite !Rabs_pos_eq; lra.
    + unfold ok64. rewrite rnd64_val. apply abs_B2R_lt_emax.
  - rewrite V2 in V. split; [exact F|]. rewrite V. apply small_part; lra.
Qed.

Lemma pos_sign : forall d : b64, 0 < B2R d -> Bsign d = false.
Proof.
  intros [s|[]| |s m e H]; cbn [B2R Bsign]; intros P; try lra; try reflexivity.
  destruct s; [|reflexivity]. exfalso.
  assert (F2R (Float radix2 (Z.neg m) e) < 0) by (apply F2R_lt_0; reflexivity). change (F2R (Float radix2 (Z.neg m) e)) with (F2R (Float radix2 (cond_Zopp true (Zpos m)) e)) in *. lra.
Qed.

(** a step refused because d v > u: the new limit is below 24/25 of d *)
Lemma large64 : forall u d v : b64, Bltb (b64_of_Z 0) u = true -> is_finite d = true -> bpow radix2 (-1000) <= B2R d ->
  Bltb u (Bmult mode_NE d v) = true ->
  let l := Bmult mode_NE (Bdiv mode_NE u v) (@nlit B64 95 100 : b64) in
  is_finite l = true /\ B2R l <= 24 / 25 * B2R d.
Proof.
  intros u d v Hu Fd Hd Hl. pose proof (bpow_gt_0 radix2 (-1000)) as P.
  rewrite Bltb_xof in Hu, Hl.
  destruct (b64_of_Z_correct 0 ltac:(lia)) as [F0 V0]. rewrite (xof_fin _ F0), V0 in Hu.
  assert (Fu : is_finite u = true).
  { destruct u as [s|[]| |s m e H]; try reflexivity; cbn in Hu; try discriminate. cbn in Hl. destruct (xof (Bmult mode_NE d v)); discriminate. }
  rewrite (xof_fin u Fu) in Hu, Hl. cbn [xlt] in Hu. apply Rlt_bool_iff in Hu.
  destruct lit95 as [Fl Vl]. destruct (is_finite v) eqn:Fv.
  - assert (Hv : 0 < B2R v /\ B2R u < B2R d * B2R v).
    { pose proof (Bmult_correct 53 1024 prec53 emax1024 mode_NE d v) as M.
      fold (rnd64 (B2R d * B2R v)) in M. change (round radix2 fexp64 (round_mode mode_NE) (B2R d * B2R v)) with (rnd64 (B2R d * B2R v)) in M.
      destruct (Rlt_bool_spec (Rabs (rnd64 (B2R d * B2R v))) (bpow radix2 1024)) as [O|O].
      - destruct M as (V & F & _). rewrite Fd, Fv in F. cbn in F. rewrite (xof_fin _ F), V in Hl. cbn [xlt] in Hl. apply Rlt_bool_iff in Hl.
        assert (Hdv : B2R u < B2R d * B2R v).
        { apply Rnot_le_lt. intros C. apply rnd64_mono in C. rewrite rnd64_val in C. lra. }
        split; [|exact Hdv]. apply Rnot_le_lt. intros C. nra.
      - assert (S : Bsign v = false /\ Bsign d = false).
        { assert (Sd : Bsign d = false).
          { apply pos_sign. lra. }
          split; [|exact Sd]. rewrite Sd in M. cbn [xorb] in M. destruct (Bsign v); [|reflexivity]. exfalso.
          cbn in M. destruct (Bmult mode_NE d v) as [s|[]| |s m e H] eqn:E; cbn in M; try discriminate M.
          cbn in Hl. discriminate. }
        destruct S as [Sv Sd].
        assert (Hv : 0 <= B2R v).
        { destruct v as [s|[]| |s m e H]; cbn in Sv |- *; subst; try lra. apply F2R_ge_0. cbn. lia. }
        assert (Hdv : B2R u < B2R d * B2R v).
        { apply Rnot_le_lt. intros C. apply rnd64_mono in C. rewrite rnd64_val in C.
          pose proof (abs_B2R_lt_emax _ _ u) as B. rewrite Rabs_pos_eq in B by lra.
          rewrite Rabs_pos_eq in O; [lra|]. rewrite <- rnd64_0. apply rnd64_mono. nra. }
        split; [|exact Hdv]. destruct Hv as [Hv|Hv]; [exact Hv|]. rewrite <- Hv in Hdv. lra. }
    destruct Hv as [Hv Hdv].
    assert (Q : 0 <= B2R u / B2R v <= B2R d).
    { split. { apply Rlt_le, Rdiv_lt_0_compat; lra. } apply Rmult_le_reg_r with (B2R v); [exact Hv|]. unfold Rdiv. rewrite Rmult_assoc, Rinv_l by lra. lra. }
    assert (Od : ok64 (B2R d)) by (unfold ok64; rewrite rnd64_val; apply abs_B2R_lt_emax).
    destruct (Bdiv64 u v Fu Fv) as [Fq Vq]; [lra| |].
    { apply ok64_mono with (B2R d); [rewrite !Rabs_pos_eq; lra|exact Od]. }
    assert (Q2 : 0 <= B2R (Bdiv mode_NE u v) <= B2R d).
    { rewrite Vq. split; [rewrite <- rnd64_0; apply rnd64_mono; lra|]. rewrite <- (rnd64_val d). apply rnd64_mono. lra. }
    destruct (Bmul64 (Bdiv mode_NE u v) (@nlit B64 95 100) Fq Fl) as [Fr Vr].
    { assert (H1 : 0 <= B2R (Bdiv mode_NE u v) * B2R (@nlit B64 95 100 : b64)) by (apply Rmult_le_pos; apply Q2 || apply Vl).
      assert (H2 : B2R (Bdiv mode_NE u v) * B2R (@nlit B64 95 100 : b64) <= B2R d * (951 / 1000)) by (apply Rmult_le_compat; (apply Q2 || apply Vl)).
      apply ok64_mono with (B2R d); [rewrite !Rabs_pos_eq; lra|exact Od]. }
    assert (H1 : 0 <= B2R (Bdiv mode_NE u v) * B2R (@nlit B64 95 100 : b64)) by (apply Rmult_le_pos; apply Q2 || apply Vl).
    assert (H2 : B2R (Bdiv mode_NE u v) * B2R (@nlit B64 95 100 : b64) <= B2R d * (951 / 1000)) by (apply Rmult_le_compat; (apply Q2 || apply Vl)).
    intros l. split; [exact Fr|]. unfold l. rewrite Vr. apply small_part; [exact Hd|]. lra.
  - destruct v as [s|s| |s m e H]; try discriminate.
    + assert (Es : s = false).
      { destruct s; [|reflexivity]. exfalso. pose proof (pos_sign d ltac:(lra)) as Sd. destruct d as [s'|[]| |s' m' e' H']; try discriminate; cbn [Bsign] in Sd; subst s'; cbn in Hl; discriminate. }
      subst s. intros l. unfold l. clear l.
      assert (Z : exists s', Bdiv mode_NE u (B754_infinity false) = B754_zero s').
      { destruct u as [s'|s'| |s' m' e' H']; try discriminate; cbn; eauto. }
      destruct Z as [s' ->]. destruct (Bmul64 (B754_zero s') (@nlit B64 95 100) eq_refl Fl) as [Fr Vr].
      { cbn [B2R]. rewrite Rmult_0_l. unfold ok64. rewrite rnd64_0, Rabs_R0. apply bpow_gt_0. }
      split; [exact Fr|]. rewrite Vr. cbn [B2R]. rewrite Rmult_0_l, rnd64_0. lra.
    + exfalso. destruct d as [s'|[]| |s' m' e' H']; try discriminate; cbn in Hl; discriminate.
Qed.

(** ** The loop *)
Section Term.
Context {C : Type}.
Variable p : params B64.
Variable o : oracles B64 C.
Variable B : R.
Notation m := (B2R (DTMIN p : b64)).
Notation V x := (B2R (x : b64)).
Notation F x := (is_finite (x : b64) = true).
Hypothesis Fmin : F (DTMIN p).
Hypothesis Hsub : bpow radix2 (-1000) <= m.
Hypothesis Hres : bpow radix2 (-50) * B <= m.
Hypothesis Hbig : B <= bpow radix2 1010.
Hypothesis Hdu : nlt n0 (DUMAX p) = true.

Lemma m_pos : 0 < m.
Proof. pose proof (bpow_gt_0 radix2 (-1000)). lra. Qed.

Lemma lt64 : forall x y : num B64, F x -> F y -> (nlt x y = true <-> V x < V y).
Proof. intros x y Fx Fy. apply (lt_fin B64 L x y Fx Fy). Qed.

Lemma diff_ok : forall tau t, - B <= t -> t <= tau -> tau <= B -> ok64 (tau - t).
Proof.
  intros tau t H1 H2 H3. apply ok64_small. rewrite Rabs_pos_eq by lra.
  apply Rle_trans with (bpow radix2 1011); [|apply bpow_le; lia].
  change 1011%Z with (1010 + 1)%Z. rewrite bpow_plus. change (bpow radix2 1) with 2. lra.
Qed.

Lemma soft_limited64 : forall (st : stepper B64) (l : num B64), nisnan (soft_max st) = false ->
  nlt l (soft_max (set_soft_limit st l)) = false.
Proof.
  intros st l Hn. cbn [set_soft_limit soft_max]. unfold std_min. destruct (nlt l (soft_max st)) eqn:E; [apply (lt_irrefl B64 L)|exact E].
Qed.

Lemma step_le_bound64 : forall (st : stepper B64) stride (b : num B64), nisnan (soft_max st) = false ->
  nlt b (soft_max st) = false -> nlt b (fst (stepper_call st stride)) = false.
Proof.
  intros st stride b Hn Hb. pose proof (call_le_soft L st stride Hn) as Hc.
  destruct (nlt b (fst (stepper_call st stride))) eqn:E; auto.
  rewrite (lt_neg_trans _ L _ _ _ Hn Hb E) in Hc. discriminate.
Qed.

(** an accepted step advances the time by half of min(dt) at least, or reaches the target *)
Lemma advance64 : forall (t tau d : num B64) st, F t -> F tau -> F d -> - B <= V t -> V t < V tau -> V tau <= B ->
  m <= V d -> d = fst (stepper_call st (nsub tau t)) ->
  let t' := if neq d (nsub tau t) then tau else nadd t d in
  F t' /\ V t <= V t' <= V tau /\ (t' = tau \/ V t + m / 2 <= V t').
Proof.
  intros t tau d st Ft Ftau Fd H1 H2 H3 H4 Ec t'. pose proof m_pos as Hm.
  pose proof (diff_ok (V tau) (V t) H1 ltac:(lra) H3) as Ok.
  destruct (advance L t tau d st Ft Ftau Fd Ok H2 ltac:(change (0 <= V d); lra) Ec) as [Ft' Ht'].
  split; [exact Ft'|]. split; [exact Ht'|]. unfold t' in *. clear t'.
  destruct (neq d (nsub tau t)) eqn:E; [left; reflexivity|right].
  destruct (sub_fin B64 L tau t Ftau Ft Ok) as [Fs Vs].
  destruct (fin_step L st (nsub tau t) d Fs Fd) as (_ & _ & H5). { rewrite <- Ec. apply (lt_irrefl B64 L). }
  rewrite <- Ec in H5. specialize (H5 E). change (V d < V (nsub tau t)) in H5. change (V (nsub tau t) = rnd64 (V tau - V t)) in Vs.
  assert (H6 : V d <= V tau - V t).
  { apply Rnot_lt_le. intros H7. rewrite Vs in H5. pose proof (rnd64_mono (V tau - V t) (V d) ltac:(lra)) as H6. rewrite rnd64_val in H6. lra. }
  assert (Ok2 : ok64 (V t + V d)).
  { apply ok64_small. apply Rle_trans with (bpow radix2 1010); [|apply bpow_le; lia]. apply Rabs_le. lra. }
  destruct (Badd64 t d Ft Fd Ok2) as [Fa Va]. change (V t + m / 2 <= B2R (Bplus mode_NE t d)). rewrite Va.
  pose proof (err64 (V t + V d)) as Er. apply Rabs_le_inv in Er.
  assert (H7 : Rabs (V t + V d) <= B) by (apply Rabs_le; lra).
  assert (H8 : bpow radix2 (-53) * Rabs (V t + V d) <= / 8 * m).
  { apply Rle_trans with (bpow radix2 (-53) * B); [apply Rmult_le_compat_l; [apply bpow_ge_0|exact H7]|].
    change (-53)%Z with (-3 + -50)%Z. rewrite bpow_plus. change (bpow radix2 (-3)) with (/ 8). lra. }
  assert (H9 : bpow radix2 (-1075) <= / 8 * m).
  { apply Rle_trans with (bpow radix2 (-3) * bpow radix2 (-1000)); [rewrite <- bpow_plus; apply bpow_le; lia|]. change (bpow radix2 (-3)) with (/ 8). lra. }
  lra.
Qed.

Lemma stride64 : forall t tau : num B64, F t -> F tau -> - B <= V t -> V t < V tau -> V tau <= B ->
  F (nsub tau t) /\ V (nsub tau t) = rnd64 (V tau - V t) /\ V (nsub tau t) <= rnd64 (2 * B).
Proof.
  intros t tau Ft Ftau H1 H2 H3. pose proof (diff_ok (V tau) (V t) H1 ltac:(lra) H3) as Ok.
  destruct (Bsub64 tau t Ftau Ft Ok) as [Fs Vs]. split; [exact Fs|]. split; [exact Vs|].
  change (B2R (Bminus mode_NE tau t) <= rnd64 (2 * B)). rewrite Vs. apply rnd64_mono. lra.
Qed.

Definition bounded_by (k : nat) (tau : num B64) (s : state B64 C) : Prop :=
  exists b : num B64, F b /\ V b < m * q ^ k /\ (b = nsub tau (time s) \/ nlt b (soft_max (stp s)) = false).

Lemma inner_ends64 : forall (tau : num B64) K, F tau -> V tau <= B -> rnd64 (2 * B) < m * q ^ K ->
  forall fuel n k (s : state B64 C), F (time s) -> - B <= V (time s) -> nisnan (soft_max (stp s)) = false ->
  V tau - V (time s) <= INR n * (m / 2) -> (V (time s) < V tau -> bounded_by k tau s) ->
  (n * S K + k <= fuel)%nat ->
  forall s', inner fuel p o tau s <> IFuel s'.
Proof.
  intros tau K Ftau Htau HK. pose proof m_pos as Hm.
  induction fuel as [|f IH]; intros n k s Ft Hlo Hn Hrem Hbd Hf s'.
  - cbn [inner]. destruct (nlt (time s) tau) eqn:E; try discriminate.
    exfalso. apply lt64 in E; auto. assert (n = O) by nia. subst n. cbn in Hrem. lra.
  - cbn [inner]. destruct (nlt (time s) tau) eqn:E; try discriminate. apply lt64 in E; auto.
    assert (Hn1 : exists n', n = S n') by (destruct n as [|n']; [exfalso; cbn in Hrem; lra|eauto]).
    destruct Hn1 as [n' En]. destruct (Hbd E) as (b & Fb & Hb & Hbs). clear Hbd.
    assert (Hq : 0 < q) by (unfold q; lra).
    destruct (stride64 (time s) tau Ft Ftau Hlo E Htau) as (Fs & Vs & Hs).
    generalize (attempt_ok p o tau s). destruct (attempt p o tau s) as [s2|s2|s2|s2]; intros Ha; try discriminate.
    assert (Ed : dt (propose tau s) = fst (stepper_call (stp s) (nsub tau (time s)))) by apply propose_dt.
    assert (Est : stp (propose tau s) = snd (stepper_call (stp s) (nsub tau (time s)))) by apply propose_stp.
    assert (Hstep : nlt (dt (propose tau s)) (DTMIN p) = false -> F (dt (propose tau s)) /\ m <= V (dt (propose tau s)) /\ V (dt (propose tau s)) <= V b).
    { intros Hd. destruct (fin_step L (stp s) (nsub tau (time s)) (DTMIN p) Fs Fmin) as (Fd & H2 & _); [rewrite <- Ed; exact Hd|].
      rewrite <- Ed in Fd, H2. change (m <= V (dt (propose tau s)) <= V (nsub tau (time s))) in H2.
      split; [exact Fd|]. split; [apply H2|]. destruct Hbs as [-> |H]; [apply H2|].
      pose proof (step_le_bound64 (stp s) (nsub tau (time s)) b Hn H) as H3. rewrite <- Ed in H3.
      apply Rnot_lt_le. intros H4. apply (lt64 b (dt (propose tau s)) Fb Fd) in H4. congruence. }
    assert (Hn2 : nisnan (soft_max (stp (propose tau s))) = false).
    { rewrite Est. cbn [stepper_call snd soft_max]. apply (max_notnan L). exact Hn. }
    assert (Hqk : nlt (dt (propose tau s)) (DTMIN p) = false -> exists k', k = S k').
    { intros Hd. destruct (Hstep Hd) as (_ & H1 & H2). destruct k as [|k']; eauto. exfalso. cbn in Hb. lra. }
    inversion Ha as [ | | s1 vm Hsg H1 Hd Hso | s1 c vm Hsg H1 Hd Hso Hl | |
                    s1 s3 c vm c' n'' Hsg H1 Hd Hso Hl H2 Hr1 Hr2 ]; subst s2; clear Ha.
    + (* failure *)
      destruct (Hstep Hd) as (Fd & Hd1 & Hd2). destruct (Hqk Hd) as [k' ->].
      assert (Et : time (solver_failed vm s1) = time s) by (subst s1; cbn [time solver_failed add_event]; apply propose_time).
      apply (IH n k'); rewrite ?Et; auto; [| |lia].
      * subst s1. cbn [stp solver_failed add_event set_soft_limit soft_max]. apply (min_notnan L). exact Hn2.
      * intros _. destruct (half64 (dt (propose tau s)) Fd ltac:(lra)) as [Fh Vh].
        exists (ndiv (dt (propose tau s)) (nZ 2)). split; [exact Fh|]. split.
        { change (B2R (Bdiv mode_NE (dt (propose tau s)) (b64_of_Z 2)) < m * q ^ k'). cbn [pow] in Hb. unfold q in *.
          assert (0 < (25/24) ^ k') by (apply pow_lt; lra). lra. }
        right. subst s1. cbn [stp solver_failed add_event dt]. apply soft_limited64. exact Hn2.
    + (* too large *)
      destruct (Hstep Hd) as (Fd & Hd1 & Hd2). destruct (Hqk Hd) as [k' ->].
      assert (Et : time (too_large (solver_done p c vm s1)) = time s) by (subst s1; cbn [time too_large solver_done add_event]; apply propose_time).
      apply (IH n k'); rewrite ?Et; auto; [| |lia].
      * subst s1. cbn [stp too_large solver_done add_event set_soft_limit soft_max]. apply (min_notnan L). exact Hn2.
      * intros _. destruct (large64 (DUMAX p) (dt (propose tau s)) vm Hdu Fd ltac:(lra) Hl) as [Fh Vh].
        exists (nmul (ndiv (DUMAX p) vm) (nlit 95 100)). split; [exact Fh|]. split.
        { eapply Rle_lt_trans; [exact Vh|]. cbn [pow] in Hb. unfold q in *. assert (0 < (25/24) ^ k') by (apply pow_lt; lra). lra. }
        right. subst s1. cbn [stp too_large solver_done add_event dt]. apply soft_limited64. exact Hn2.
    + (* accepted *)
      destruct (Hstep Hd) as (Fd & Hd1 & Hd2).
      pose proof (advance64 (time s) tau (dt (propose tau s)) (stp s) Ft Ftau Fd Hlo E Htau Hd1 Ed) as Hadv. cbv zeta in Hadv.
      assert (Et : time (log_accepted (recentered c' n'' s3)) = if neq (dt (propose tau s)) (nsub tau (time s)) then tau else nadd (time s) (dt (propose tau s))).
      { subst s3 s1. cbn [time dt log_accepted recentered accept compute_all solver_done add_event]. rewrite propose_time. reflexivity. }
      set (t' := if neq (dt (propose tau s)) (nsub tau (time s)) then tau else nadd (time s) (dt (propose tau s))) in *.
      destruct Hadv as (Ft' & Ht' & Hp).
      apply (IH n' K); rewrite ?Et; auto.
      * lra.
      * subst s3 s1. cbn [stp log_accepted recentered accept compute_all solver_done add_event set_soft_limit soft_max]. apply (min_notnan L). exact Hn2.
      * rewrite En, S_INR in Hrem. pose proof (pos_INR n'). destruct Hp as [-> |Hp]; [|lra].
        assert (0 <= INR n' * (m / 2)) by (apply Rmult_le_pos; lra). lra.
      * intros Hlt. destruct (stride64 t' tau Ft' Ftau ltac:(lra) Hlt Htau) as (Fs' & Vs' & Hs').
        exists (nsub tau t'). split; [exact Fs'|]. split; [lra|]. left. rewrite Et. reflexivity.
      * lia.
Qed.

Lemma inner_done64 : forall (tau : num B64) fuel (s s' : state B64 C), F tau -> V tau <= B ->
  F (time s) -> - B <= V (time s) -> nisnan (soft_max (stp s)) = false ->
  inner fuel p o tau s = IDone s' -> F (time s') /\ - B <= V (time s') /\ nisnan (soft_max (stp s')) = false.
Proof.
  intros tau fuel s s' Ftau Htau Ft Hlo Hn Hi. pose proof m_pos as Hm.
  pose proof (inner_inv p o (fun s => F (time s) /\ - B <= V (time s) /\ nisnan (soft_max (stp s)) = false) tau) as H.
  specialize (fun Hp => H Hp fuel s (conj Ft (conj Hlo Hn))). rewrite Hi in H. apply H. clear H Hi s s' Ft Hlo Hn.
  intros s s' (Ft & Hlo & Hn) E Ha. apply lt64 in E; auto.
  assert (Hn2 : nisnan (soft_max (stp (propose tau s))) = false).
  { rewrite propose_stp. cbn [stepper_call snd soft_max]. apply (max_notnan L). exact Hn. }
  inversion Ha as [ | | s1 vm Hsg H1 Hd Hso | s1 c vm Hsg H1 Hd Hso Hl | |
                    s1 s3 c vm c' n'' Hsg H1 Hd Hso Hl H2 Hr1 Hr2 ]; subst s'; clear Ha.
  - assert (Et : time (solver_failed vm s1) = time s) by (subst s1; cbn [time solver_failed add_event]; apply propose_time).
    rewrite Et. split; [exact Ft|]. split; [exact Hlo|]. subst s1. cbn [stp solver_failed add_event set_soft_limit soft_max]. apply (min_notnan L). exact Hn2.
  - assert (Et : time (too_large (solver_done p c vm s1)) = time s) by (subst s1; cbn [time too_large solver_done add_event]; apply propose_time).
    rewrite Et. split; [exact Ft|]. split; [exact Hlo|]. subst s1. cbn [stp too_large solver_done add_event set_soft_limit soft_max]. apply (min_notnan L). exact Hn2.
  - destruct (stride64 (time s) tau Ft Ftau Hlo E Htau) as (Fs & Vs & Hs).
    destruct (fin_step L (stp s) (nsub tau (time s)) (DTMIN p) Fs Fmin) as (Fd & H3 & _); [rewrite <- propose_dt; exact Hd|].
    rewrite <- propose_dt in Fd, H3.
    pose proof (advance64 (time s) tau (dt (propose tau s)) (stp s) Ft Ftau Fd Hlo E Htau (proj1 H3) (propose_dt tau s)) as Hadv. cbv zeta in Hadv.
    assert (Et : time (log_accepted (recentered c' n'' s3)) = if neq (dt (propose tau s)) (nsub tau (time s)) then tau else nadd (time s) (dt (propose tau s))).
    { subst s3 s1. cbn [time dt log_accepted recentered accept compute_all solver_done add_event]. rewrite propose_time. reflexivity. }
    rewrite Et. destruct Hadv as (Ft' & Ht' & _). split; [exact Ft'|]. split; [lra|].
    subst s3 s1. cbn [stp log_accepted recentered accept compute_all solver_done add_event set_soft_limit soft_max]. apply (min_notnan L). exact Hn2.
Qed.

Lemma outer_ends64 : forall K nb, rnd64 (2 * B) < m * q ^ K -> 2 * B <= INR nb * (m / 2) ->
  forall (t0 : num B64) fuel, (nb * S K + K <= fuel)%nat ->
  forall n k (s : state B64 C), F (time s) -> - B <= V (time s) -> nisnan (soft_max (stp s)) = false ->
  (forall j, (k <= j < k + Z.of_nat n)%Z -> F (target_time p t0 j) /\ V (target_time p t0 j) <= B) ->
  forall s', outer fuel p o t0 n k s <> Running s'.
Proof.
  intros K nb HK Hnb t0 fuel Hf. induction n as [|n IH]; intros k s Ft Hlo Hn HT s'; cbn [outer]. { discriminate. }
  destruct (HT k ltac:(lia)) as (Ftau & Htau). set (tau := target_time p t0 k) in *.
  assert (Hno : forall s2, inner fuel p o tau s <> IFuel s2).
  { apply (inner_ends64 tau K Ftau Htau HK fuel nb K s); auto; try lra.
    intros Hlt. destruct (stride64 (time s) tau Ft Ftau Hlo Hlt Htau) as (Fs & Vs & Hs).
    exists (nsub tau (time s)). split; [exact Fs|]. split; [lra|]. left. reflexivity. }
  destruct (inner fuel p o tau s) as [s1|s1|s1|s1|s1] eqn:Ei; try discriminate.
  - destruct (inner_done64 tau fuel s s1 Ftau Htau Ft Hlo Hn Ei) as (E1 & E2 & E3).
    assert (Es : time (saver_events p k s1) = time s1 /\ stp (saver_events p k s1) = stp s1).
    { unfold saver_events. destruct (snapshot_due (save_period p) k); split; reflexivity. }
    destruct Es as [Es1 Es2].
    apply (IH (k + 1)%Z); rewrite ?Es1, ?Es2; auto. intros j Hj. apply HT. lia.
  - exfalso. apply (Hno s1). reflexivity.
Qed.

End Term.

(** the output times are at most 2 (|t0| + N time_step) + 2^-1070 *)
Lemma target_bound : forall (p : params B64) (t0 : num B64) N k, b64_params p t0 -> step_count p t0 = Some N -> (0 <= k <= N)%Z ->
  is_finite (target_time p t0 k : b64) = true /\
  B2R (target_time p t0 k : b64) <= 2 * (Rabs (B2R (t0 : b64)) + IZR N * B2R (t_step p : b64)) + bpow radix2 (-1070).
Proof.
  intros p t0 N k Hp HN Hk. split. { destruct (b64_targets p t0 Hp) as (_ & _ & _ & H). destruct (H N HN) as [H1 _]. apply (H1 k Hk). }
  destruct Hp as (F0 & Fs & Fm & Hs & Hm & Ht & Hb). specialize (Hb N HN). pose proof (step_count_bound p t0 N HN) as HNb.
  set (ts := B2R (t_step p : b64)) in *. set (a := B2R (t0 : b64)) in *.
  assert (Hk2 : 0 <= IZR k <= IZR N) by (split; [apply (IZR_le 0)|apply IZR_le]; lia).
  assert (Hkt : 0 <= IZR k * ts <= IZR N * ts) by (split; [apply Rmult_le_pos; lra|apply Rmult_le_compat_r; lra]).
  assert (Fk : is_finite (@nZ B64 k : b64) = true) by (apply (int_lit L); lia). assert (Vk : B2R (@nZ B64 k : b64) = IZR k) by (apply (int_val L); lia).
  assert (S1 : 0 < bpow radix2 (-53) <= / 2048) by (split; [apply bpow_gt_0|change (/2048) with (bpow radix2 (-11)); apply bpow_le; lia]).
  assert (S2 : 0 < bpow radix2 (-1075) <= / 32 * bpow radix2 (-1070)).
  { split; [apply bpow_gt_0|]. change (/ 32) with (bpow radix2 (-5)). rewrite <- bpow_plus. apply bpow_le. lia. }
  assert (S3 : bpow radix2 (-1070) <= bpow radix2 1000) by (apply bpow_le; lia).
  assert (P : 0 < bpow radix2 1000) by apply bpow_gt_0.
  assert (Big : 8 * bpow radix2 1000 <= bpow radix2 1023).
  { change 8 with (bpow radix2 3). rewrite <- bpow_plus. apply bpow_le. lia. }
  assert (Hpr : 0 <= rnd64 (IZR k * ts) <= (1 + / 2048) * (IZR N * ts) + / 32 * bpow radix2 (-1070)).
  { split; [rewrite <- rnd64_0; apply rnd64_mono; lra|]. pose proof (err64 (IZR k * ts)) as E. rewrite (Rabs_pos_eq (IZR k * ts)) in E by lra.
    apply Rabs_le_inv in E. nra. }
  destruct (Bmul64 (@nZ B64 k) (t_step p) Fk Fs) as [Fp Vp].
  { rewrite Vk. fold ts. apply ok64_small. rewrite Rabs_pos_eq by lra. lra. }
  rewrite Vk in Vp. fold ts in Vp.
  pose proof (Rabs_pos a) as Pa.
  assert (Hsum : Rabs (a + rnd64 (IZR k * ts)) <= Rabs a + rnd64 (IZR k * ts)).
  { eapply Rle_trans; [apply Rabs_triang|]. rewrite (Rabs_pos_eq (rnd64 _)); lra. }
  destruct (Badd64 t0 (Bmult mode_NE (@nZ B64 k) (t_step p)) F0 Fp) as [Fa Va].
  { rewrite Vp. fold a. apply ok64_small. lra. }
  change (B2R (Bplus mode_NE t0 (Bmult mode_NE (@nZ B64 k) (t_step p))) <= 2 * (Rabs a + IZR N * ts) + bpow radix2 (-1070)).
  rewrite Va, Vp. fold a. pose proof (err64 (a + rnd64 (IZR k * ts))) as E. apply Rabs_le_inv in E.
  pose proof (RRle_abs (a + rnd64 (IZR k * ts))). nra.
Qed.

(** ** C07, binary64.  The refuted case is the only one: as soon as min(dt) is at least 2^-48 (about
    4e-15) of the largest time of the run, and at least 2^-1000, the loop ends, for every behaviour
    of the solver (failures, any velocity, infinite or NaN, signals, recentering), after a number of
    passes that depends on the parameters only. *)
Theorem C07_time_loop_ends_b64_partial : forall (p : params B64) (t0 dt0 : num B64),
  b64_params p t0 -> nlt n0 (DUMAX p) = true -> nisnan dt0 = false ->
  bpow radix2 (-1000) <= B2R (DTMIN p : b64) ->
  (forall N, step_count p t0 = Some N ->
     bpow radix2 (-48) * (Rabs (B2R (t0 : b64)) + IZR N * B2R (t_step p : b64)) <= B2R (DTMIN p : b64)) ->
  exists F, forall (C : Type) (o : oracles B64 C) v0 c0 c1 fuel, (F <= fuel)%nat ->
  forall s, time_integration fuel p o t0 dt0 v0 c0 c1 <> Running s.
Proof.
  intros p t0 dt0 Hp Hdu Hd0 Hsub Hres.
  destruct (step_count p t0) as [N|] eqn:HN.
  2: { exists 0%nat. intros. unfold time_integration. cbn [time compute_all]. simpl time. rewrite HN. discriminate. }
  specialize (Hres N eq_refl).
  destruct (Z_lt_le_dec N 0) as [Hneg|Hpos].
  { exists 0%nat. intros. unfold time_integration. cbn [time compute_all]. simpl time. rewrite HN. replace (Z.to_nat (N + 1)) with O by lia. cbn [outer]. discriminate. }
  set (S := Rabs (B2R (t0 : b64)) + IZR N * B2R (t_step p : b64)) in *.
  set (m := B2R (DTMIN p : b64)) in *.
  pose proof (bpow_gt_0 radix2 (-1000)) as P0. assert (Hm : 0 < m) by lra.
  assert (HS : 0 <= S).
  { destruct Hp as (_ & _ & _ & Hs & _). apply Rplus_le_le_0_compat; [apply Rabs_pos|]. apply Rmult_le_pos; [apply (IZR_le 0); lia|exact Hs]. }
  set (B := 2 * S + bpow radix2 (-1070)).
  assert (Hres' : bpow radix2 (-50) * B <= m).
  { unfold B. rewrite Rmult_plus_distr_l. rewrite <- bpow_plus.
    assert (H1 : bpow radix2 (-50 + -1070) <= / 2 * m).
    { apply Rle_trans with (bpow radix2 (-1) * bpow radix2 (-1000)); [rewrite <- bpow_plus; apply bpow_le; lia|]. change (bpow radix2 (-1)) with (/ 2). lra. }
    replace (bpow radix2 (-50)) with (/ 4 * bpow radix2 (-48)) by (change (/ 4) with (bpow radix2 (-2)); rewrite <- bpow_plus; reflexivity). lra. }
  assert (Hbig : B <= bpow radix2 1010).
  { destruct Hp as (_ & _ & _ & _ & _ & Ht & Hb). specialize (Hb N HN). unfold B.
    assert (bpow radix2 (-1070) <= bpow radix2 1000) by (apply bpow_le; lia). apply Rle_trans with (bpow radix2 3 * bpow radix2 1000); [|rewrite <- bpow_plus; apply bpow_le; lia].
    change (bpow radix2 3) with 8. unfold S. pose proof (bpow_gt_0 radix2 1000). lra. }
  destruct (exists_INR_above (2 * B / (m / 2))) as [nb Hnb].
  destruct (Pow_x_infinity q) with (b := (Rabs (rnd64 (2 * B)) / m + 1)) as [K HK].
  { unfold q. rewrite Rabs_pos_eq; lra. }
  specialize (HK K (Nat.le_refl K)).
  assert (Hq : 0 < q ^ K) by (apply pow_lt; unfold q; lra). rewrite Rabs_pos_eq in HK by lra.
  assert (Hb1 : 2 * B <= INR nb * (m / 2)).
  { replace (2 * B) with (2 * B / (m / 2) * (m / 2)) by (field; lra). apply Rmult_le_compat_r; lra. }
  assert (Hb2 : rnd64 (2 * B) < m * q ^ K).
  { apply Rle_lt_trans with (Rabs (rnd64 (2 * B))); [apply RRle_abs|]. replace (Rabs (rnd64 (2 * B))) with (m * (Rabs (rnd64 (2 * B)) / m)) by (field; lra). apply Rmult_lt_compat_l; lra. }
  exists (nb * Datatypes.S K + K)%nat. intros C o v0 c0 c1 fuel Hf s.
  assert (Fmin : is_finite (DTMIN p : b64) = true) by apply Hp.
  unfold time_integration. cbn [time compute_all]. simpl time. rewrite HN.
  apply (outer_ends64 p o B Fmin Hsub Hres' Hbig Hdu K nb Hb2 Hb1 t0 fuel Hf).
  - apply Hp.
  - cbn [time compute_all]. assert (Rabs (B2R (t0 : b64)) <= B).
    { unfold B. assert (Rabs (B2R (t0 : b64)) <= S).
      { unfold S. assert (0 <= IZR N * B2R (t_step p : b64)); [|lra]. destruct Hp as (_ & _ & _ & Hs & _). apply Rmult_le_pos; [apply (IZR_le 0); lia|exact Hs]. }
      pose proof (bpow_gt_0 radix2 (-1070)). lra. }
    apply Rabs_le_inv in H. apply H.
  - cbn [stp compute_all stepper_new soft_max]. exact Hd0.
  - intros j Hj. apply (target_bound p t0 N j Hp HN). lia.
Qed.

(** the example of TimeProps: four outputs from 0 to 1, min(dt) = 2^-10 *)
Example C07_b64_nonvacuous : b64_params ex_params (b64_of 0 0) /\ nlt n0 (DUMAX ex_params) = true /\
  nisnan ex_dt0 = false /\ bpow radix2 (-1000) <= B2R (DTMIN ex_params : b64) /\
  (forall N, step_count ex_params (b64_of 0 0) = Some N ->
     bpow radix2 (-48) * (Rabs (B2R (b64_of 0 0 : b64)) + IZR N * B2R (t_step ex_params : b64)) <= B2R (DTMIN ex_params : b64)).
Proof.
  assert (Hs : B2R (t_step ex_params : b64) = 1 / 4).
  { rewrite <- SF2R_B2SF. replace (B2SF (t_step ex_params : b64)) with (SpecFloat.S754_finite false 4503599627370496 (-54)) by (vm_compute; reflexivity).
    unfold SF2R, F2R. simpl. lra. }
  assert (Hm : B2R (DTMIN ex_params : b64) = 1 / 1024).
  { rewrite <- SF2R_B2SF. replace (B2SF (DTMIN ex_params : b64)) with (SpecFloat.S754_finite false 4503599627370496 (-62)) by (vm_compute; reflexivity).
    unfold SF2R, F2R. simpl. lra. }
  assert (H0 : B2R (b64_of 0 0 : b64) = 0).
  { rewrite <- SF2R_B2SF. replace (B2SF (b64_of 0 0 : b64)) with (SpecFloat.S754_zero false) by (vm_compute; reflexivity). reflexivity. }
  split; [exact ex_b64_params|]. split; [vm_compute; reflexivity|]. split; [vm_compute; reflexivity|]. split.
  - rewrite Hm. apply Rle_trans with (bpow radix2 (-10)); [apply bpow_le; lia|]. change (bpow radix2 (-10)) with (/ 1024). lra.
  - intros N HN. replace (step_count ex_params (b64_of 0 0)) with (Some 4%Z) in HN by (vm_compute; reflexivity). injection HN as <-.
    rewrite Hm, H0, Hs, Rabs_R0. apply Rle_trans with (bpow radix2 (-10) * (0 + 4 * (1 / 4))); [apply Rmult_le_compat_r; [lra|apply bpow_le; lia]|].
    change (bpow radix2 (-10)) with (/ 1024). lra.
Qed.

Print Assumptions C07_time_loop_ends_b64_partial.
