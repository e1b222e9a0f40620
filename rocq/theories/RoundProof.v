(** * Proofs on the rounded step of a node *)
From Coq Require Import Reals ZArith Bool List Lra Lia Psatz.
From Flocq Require Import Core BinarySingleNaN.
From Verif Require Import Arith ArithLaws RoundModel.
From Verif Require TimeB64.
Local Open Scope R_scope.

Notation uu := (bpow radix2 (-53)).
Notation ee := (bpow radix2 (-1075)).

Lemma uu_small : 0 < uu <= / 1000000.
Proof.
  split; [apply bpow_gt_0|]. apply Rle_trans with (bpow radix2 (-20)); [apply bpow_le; lia|]. cbn. lra.
Qed.

Lemma up_low : forall x, 0 <= x -> x * (1 - uu) - ee <= rnd64 x <= x * (1 + uu) + ee.
Proof. intros x Hx. pose proof (TimeB64.err64 x) as E. rewrite (Rabs_pos_eq x) in E by exact Hx. apply Rabs_le_inv in E. lra. Qed.

Lemma rnd_pos : forall x, 0 <= x -> 0 <= rnd64 x.
Proof. intros x H. rewrite <- rnd64_0. apply rnd64_mono. exact H. Qed.

(** two products, two sums: relative error of the squared norm *)
Lemma sum3_error : forall u e X Y Z p1 p2 p3 t s, 0 < u <= / 1000000 -> 0 < e -> 0 <= X -> 0 <= Y -> 0 <= Z ->
  e <= u * u * (X + Y + Z) / 100 ->
  X * (1 - u) - e <= p1 <= X * (1 + u) + e -> Y * (1 - u) - e <= p2 <= Y * (1 + u) + e ->
  Z * (1 - u) - e <= p3 <= Z * (1 + u) + e ->
  (p1 + p2) * (1 - u) - e <= t <= (p1 + p2) * (1 + u) + e ->
  (t + p3) * (1 - u) - e <= s <= (t + p3) * (1 + u) + e -> 0 <= p1 -> 0 <= p2 -> 0 <= p3 -> 0 <= t ->
  (X + Y + Z) * (1 - 301/100 * u) <= s <= (X + Y + Z) * (1 + 301/100 * u).
Proof.
  intros u e X Y Z p1 p2 p3 t s Hu He HX HY HZ Hs H1 H2 H3 Ht Hss P1 P2 P3 Pt.
  assert (A1 : (X + Y) * ((1 - u) * (1 - u)) - 3 * e <= t <= (X + Y) * ((1 + u) * (1 + u)) + 4 * e).
  { split.
    - assert ((X + Y) * (1 - u) - 2 * e <= p1 + p2) by lra.
      assert (((X + Y) * (1 - u) - 2 * e) * (1 - u) <= (p1 + p2) * (1 - u)) by (apply Rmult_le_compat_r; lra). first [lra | nra].
    - assert (p1 + p2 <= (X + Y) * (1 + u) + 2 * e) by lra.
      assert ((p1 + p2) * (1 + u) <= ((X + Y) * (1 + u) + 2 * e) * (1 + u)) by (apply Rmult_le_compat_r; lra). first [lra | nra]. }
  assert (A2 : (X + Y + Z) * ((1 - u) * (1 - u)) - 4 * e <= t + p3 <= (X + Y + Z) * ((1 + u) * (1 + u)) + 5 * e).
  { split.
    - assert (Z * ((1 - u) * (1 - u)) <= Z * (1 - u)) by (apply Rmult_le_compat_l; first [lra | nra]). lra.
    - assert (Z * (1 + u) <= Z * ((1 + u) * (1 + u))) by (apply Rmult_le_compat_l; first [lra | nra]). lra. }
  set (q := X + Y + Z) in *. assert (Hq : 0 <= q) by (unfold q; lra).
  split.
  - assert ((q * ((1 - u) * (1 - u)) - 4 * e) * (1 - u) <= (t + p3) * (1 - u)) by (apply Rmult_le_compat_r; lra).
    assert (q * ((1 - u) * (1 - u)) * (1 - u) - 5 * e <= s) by first [lra | nra].
    assert (1 - 3 * u <= (1 - u) * (1 - u) * (1 - u)) by first [lra | nra].
    assert (q * (1 - 3 * u) <= q * ((1 - u) * (1 - u) * (1 - u))) by (apply Rmult_le_compat_l; lra). first [lra | nra].
  - assert ((t + p3) * (1 + u) <= (q * ((1 + u) * (1 + u)) + 5 * e) * (1 + u)) by (apply Rmult_le_compat_r; lra).
    assert (s <= q * ((1 + u) * (1 + u) * (1 + u)) + 7 * e) by first [lra | nra].
    assert ((1 + u) * (1 + u) * (1 + u) <= 1 + 3 * u + 4 * (u * u)) by first [lra | nra].
    assert (q * ((1 + u) * (1 + u) * (1 + u)) <= q * (1 + 3 * u + 4 * (u * u))) by (apply Rmult_le_compat_l; lra).
    assert (q * (u * u) * 5 <= q * (1/100 * u)) by first [lra | nra]. first [lra | nra].
Qed.

(** the division of the components *)
Lemma quot_error : forall u e t w, 0 < u <= / 1000000 -> 0 < e -> Rabs (w - t) <= u * Rabs t + e -> Rabs t <= 2 -> e <= u * u / 1000 ->
  Rabs (w * w - t * t) <= 201/100 * u * (t * t) + u / 1000.
Proof.
  intros u e t w Hu He H Ht Hs.
  replace (w * w - t * t) with ((w - t) * (w + t)) by ring. rewrite Rabs_mult.
  assert (H2 : Rabs (w + t) <= (2 + u) * Rabs t + e).
  { replace (w + t) with ((w - t) + 2 * t) by ring. eapply Rle_trans; [apply Rabs_triang|]. rewrite Rabs_mult, (Rabs_pos_eq 2) by lra. lra. }
  assert (T : t * t = Rabs t * Rabs t) by (rewrite <- Rabs_mult; symmetry; apply Rabs_pos_eq; first [lra | nra]).
  rewrite T. set (a := Rabs t) in *. assert (Ha : 0 <= a) by apply Rabs_pos.
  assert (B : Rabs (w - t) * Rabs (w + t) <= (u * a + e) * ((2 + u) * a + e)) by (apply Rmult_le_compat; auto; apply Rabs_pos).
  eapply Rle_trans; [exact B|].
  assert ((u * a + e) * ((2 + u) * a + e) = (2 * u + u * u) * (a * a) + e * (u * a + (2 + u) * a + e)) by ring.
  assert (e * (u * a + (2 + u) * a + e) <= e * 10) by (apply Rmult_le_compat_l; first [lra | nra]).
  assert ((2 * u + u * u) * (a * a) <= 201/100 * u * (a * a)) by (apply Rmult_le_compat_r; first [lra | nra]). first [lra | nra].
Qed.

Lemma final_error : forall u q s g r w, 0 < u <= / 1000000 -> 0 < q -> 0 < s -> g * g = s -> 0 < g ->
  q * (1 - 301/100 * u) <= s <= q * (1 + 301/100 * u) -> g * (1 - 101/100 * u) <= r <= g * (1 + 101/100 * u) ->
  Rabs (w - q / (r * r)) <= 201/100 * u * (q / (r * r)) + 3 * (u / 1000) ->
  Rabs (w - 1) <= 71/10 * u.
Proof.
  intros u q s g r w Hu Hq Hs Eg Hg Hsq Hr Hw.
  assert (R1 : s * (1 - 202/100 * u) <= r * r <= s * (1 + 203/100 * u)).
  { rewrite <- Eg. assert (0 < g * (1 - 101/100 * u)) by first [lra | nra]. split.
    - assert (g * (1 - 101/100 * u) * (g * (1 - 101/100 * u)) <= r * r) by first [lra | nra]. assert (0 < g * g) by first [lra | nra]. first [lra | nra].
    - assert (r * r <= g * (1 + 101/100 * u) * (g * (1 + 101/100 * u))) by first [lra | nra]. assert (0 < g * g) by first [lra | nra].
      assert (g * g * (u * u) * 2 <= g * g * (1/100 * u)) by first [lra | nra]. first [lra | nra]. }
  assert (R2 : q * (1 - 504/100 * u) <= r * r <= q * (1 + 505/100 * u)).
  { split.
    - assert (q * (1 - 301/100 * u) * (1 - 202/100 * u) <= s * (1 - 202/100 * u)) by (apply Rmult_le_compat_r; lra). first [lra | nra].
    - assert (s * (1 + 203/100 * u) <= q * (1 + 301/100 * u) * (1 + 203/100 * u)) by (apply Rmult_le_compat_r; lra).
      assert (q * (u * u) * 7 <= q * (1/100 * u)) by first [lra | nra]. first [lra | nra]. }
  assert (Hrr : 0 < r * r) by first [lra | nra]. set (k := q / (r * r)) in *.
  assert (Ek : k * (r * r) = q) by (unfold k; field; first [lra | nra]).
  assert (K : 1 - 505/100 * u <= k <= 1 + 506/100 * u).
  { split; apply Rnot_lt_le; intro C.
    - assert (k * (r * r) < (1 - 505/100 * u) * (r * r)) by (apply Rmult_lt_compat_r; lra).
      assert ((1 - 505/100 * u) * (r * r) <= (1 - 505/100 * u) * (q * (1 + 505/100 * u))) by (apply Rmult_le_compat_l; lra). first [lra | nra].
    - assert ((1 + 506/100 * u) * (r * r) < k * (r * r)) by (apply Rmult_lt_compat_r; lra).
      assert ((1 + 506/100 * u) * (q * (1 - 504/100 * u)) <= (1 + 506/100 * u) * (r * r)) by (apply Rmult_le_compat_l; lra).
      assert (q * (u * u) * 26 <= q * (1/100 * u)) by first [lra | nra]. first [lra | nra]. }
  apply Rabs_le_inv in Hw. apply Rabs_le. first [lra | nra].
Qed.

Definition fin3 (a : vec3 B64) : Prop := is_finite (cx a : b64) = true /\ is_finite (cy a : b64) = true /\ is_finite (cz a : b64) = true.
Definition sq3 (a : vec3 B64) : R :=
  B2R (cx a : b64) * B2R (cx a : b64) + B2R (cy a : b64) * B2R (cy a : b64) + B2R (cz a : b64) * B2R (cz a : b64).

Lemma small_ok : forall x, 0 <= x <= bpow radix2 600 -> ok64 x.
Proof. intros x H. apply ok64_small. rewrite Rabs_pos_eq by lra. apply Rle_trans with (bpow radix2 600); [lra|apply bpow_le; lia]. Qed.

Lemma mul_self : forall x : b64, is_finite x = true -> B2R x * B2R x <= bpow radix2 502 ->
  is_finite (Bmult mode_NE x x) = true /\ B2R (Bmult mode_NE x x) = rnd64 (B2R x * B2R x) /\
  0 <= B2R (Bmult mode_NE x x) <= bpow radix2 503.
Proof.
  intros x F H. assert (P : 0 <= B2R x * B2R x) by first [lra | nra].
  assert (B : bpow radix2 502 <= bpow radix2 600) by (apply bpow_le; lia).
  destruct (Bmul64 x x F F) as [F1 V1]; [apply small_ok; lra|].
  repeat split; auto; rewrite V1; [apply rnd_pos; exact P|].
  destruct (up_low _ P) as [_ U]. pose proof uu_small as Hu.
  assert (E : ee <= bpow radix2 501) by (apply bpow_le; lia).
  replace (bpow radix2 503) with (2 * bpow radix2 502) by (change 503%Z with (1 + 502)%Z; rewrite bpow_plus; reflexivity).
  assert (E5 : bpow radix2 502 = 2 * bpow radix2 501) by (change 502%Z with (1 + 501)%Z; rewrite bpow_plus; reflexivity).
  pose proof (bpow_gt_0 radix2 501). first [lra | nra].
Qed.

Lemma add_pos : forall (x y : b64) (b : Z), (b < 600)%Z -> (-1000 < b)%Z -> is_finite x = true -> is_finite y = true ->
  0 <= B2R x <= bpow radix2 b -> 0 <= B2R y <= bpow radix2 b ->
  is_finite (Bplus mode_NE x y) = true /\ B2R (Bplus mode_NE x y) = rnd64 (B2R x + B2R y) /\
  0 <= B2R (Bplus mode_NE x y) <= bpow radix2 (b + 2).
Proof.
  intros x y b Hb Hb' Fx Fy Hx Hy.
  assert (B : bpow radix2 b + bpow radix2 b <= bpow radix2 600).
  { replace (bpow radix2 b + bpow radix2 b) with (bpow radix2 (1 + b)) by (rewrite bpow_plus; simpl (bpow radix2 1); lra). apply bpow_le. lia. }
  destruct (Badd64 x y Fx Fy) as [F V]; [apply small_ok; lra|].
  repeat split; auto; rewrite V; [apply rnd_pos; lra|].
  assert (P : 0 <= B2R x + B2R y) by lra. destruct (up_low _ P) as [_ U]. pose proof uu_small as Hu.
  assert (E : ee <= bpow radix2 b) by (apply bpow_le; lia).
  replace (bpow radix2 (b + 2)) with (4 * bpow radix2 b) by (rewrite bpow_plus; simpl (bpow radix2 2); lra). first [lra | nra].
Qed.

Lemma ee_q : forall q, bpow radix2 (-500) <= q -> ee <= uu * uu * q / 100.
Proof.
  intros q H. assert (0 < uu) by apply bpow_gt_0.
  apply Rle_trans with (uu * uu * bpow radix2 (-500) / 128).
  - replace (uu * uu * bpow radix2 (-500) / 128) with (bpow radix2 (-613)); [apply bpow_le; lia|].
    rewrite <- !bpow_plus. change (-613)%Z with (-53 + -53 + -500 + -7)%Z. rewrite bpow_plus. cbn [bpow]. simpl (Z.pow_pos _ _). lra.
  - assert (0 < uu * uu) by first [lra | nra]. assert (0 < bpow radix2 (-500)) by apply bpow_gt_0. first [lra | nra].
Qed.

Lemma squared_norm64 : forall left a, fin3 a -> bpow radix2 (-500) <= sq3 a <= bpow radix2 502 ->
  is_finite (squared_norm left a : b64) = true /\
  sq3 a * (1 - 301/100 * uu) <= B2R (squared_norm left a : b64) <= sq3 a * (1 + 301/100 * uu).
Proof.
  intros left [x y z] (Fx & Fy & Fz) Hq. unfold sq3, squared_norm in *. cbn [cx cy cz] in *.
  assert (SX : 0 <= B2R (x : b64) * B2R (x : b64)) by first [lra | nra]. assert (SY : 0 <= B2R (y : b64) * B2R (y : b64)) by first [lra | nra].
  assert (SZ : 0 <= B2R (z : b64) * B2R (z : b64)) by first [lra | nra].
  destruct (mul_self x Fx ltac:(lra)) as (F1 & V1 & P1). destruct (mul_self y Fy ltac:(lra)) as (F2 & V2 & P2).
  destruct (mul_self z Fz ltac:(lra)) as (F3 & V3 & P3).
  cbn [nmul nadd B64]. pose proof uu_small as Hu. pose proof (bpow_gt_0 radix2 (-1075)) as He.
  assert (P3' : bpow radix2 503 <= bpow radix2 505) by (apply bpow_le; lia).
  destruct left.
  - destruct (add_pos _ _ 503 ltac:(lia) ltac:(lia) F1 F2 P1 P2) as (F4 & V4 & P4).
    destruct (add_pos _ _ 505 ltac:(lia) ltac:(lia) F4 F3 P4 ltac:(lra)) as (F5 & V5 & P5).
    split; [exact F5|].
    eapply sum3_error with (e := ee); [exact Hu|exact He|exact SX|exact SY|exact SZ|apply ee_q; lra| | | | | | | | |].
    + pose proof (up_low _ SX) as U. rewrite <- V1 in U. exact U.
    + pose proof (up_low _ SY) as U. rewrite <- V2 in U. exact U.
    + pose proof (up_low _ SZ) as U. rewrite <- V3 in U. exact U.
    + pose proof (up_low _ (Rplus_le_le_0_compat _ _ (proj1 P1) (proj1 P2))) as U. rewrite <- V4 in U. exact U.
    + pose proof (up_low _ (Rplus_le_le_0_compat _ _ (proj1 P4) (proj1 P3))) as U. rewrite <- V5 in U. exact U.
    + exact (proj1 P1). + exact (proj1 P2). + exact (proj1 P3). + exact (proj1 P4).
  - destruct (add_pos _ _ 503 ltac:(lia) ltac:(lia) F2 F3 P2 P3) as (F4 & V4 & P4).
    destruct (add_pos _ _ 505 ltac:(lia) ltac:(lia) F1 F4 ltac:(lra) P4) as (F5 & V5 & P5).
    split; [exact F5|].
    replace (B2R (x : b64) * B2R (x : b64) + B2R (y : b64) * B2R (y : b64) + B2R (z : b64) * B2R (z : b64))
      with (B2R (y : b64) * B2R (y : b64) + B2R (z : b64) * B2R (z : b64) + B2R (x : b64) * B2R (x : b64)) in Hq |- * by ring.
    eapply sum3_error with (e := ee); [exact Hu|exact He|exact SY|exact SZ|exact SX|apply ee_q; lra| | | | | | | | |].
    + pose proof (up_low _ SY) as U. rewrite <- V2 in U. exact U.
    + pose proof (up_low _ SZ) as U. rewrite <- V3 in U. exact U.
    + pose proof (up_low _ SX) as U. rewrite <- V1 in U. exact U.
    + pose proof (up_low _ (Rplus_le_le_0_compat _ _ (proj1 P2) (proj1 P3))) as U. rewrite <- V4 in U. exact U.
    + pose proof (up_low _ (Rplus_le_le_0_compat _ _ (proj1 P1) (proj1 P4))) as U.
      rewrite <- V5, (Rplus_comm (B2R (Bmult mode_NE x x))) in U. exact U.
    + exact (proj1 P2). + exact (proj1 P3). + exact (proj1 P1). + exact (proj1 P4).
Qed.

Lemma Rle_div_l' : forall a b c, 0 < b -> a <= c * b -> a / b <= c.
Proof. intros a b c Hb H. apply Rmult_le_reg_r with b; [exact Hb|]. replace (a / b * b) with a by (field; lra). exact H. Qed.

Lemma Rabs_sqr_le : forall a b, 0 <= b -> a * a <= b * b -> Rabs a <= b.
Proof. intros a b Hb H. apply Rabs_le. split; apply Rnot_lt_le; intro C; nra. Qed.

Lemma quot64 : forall (x r : b64) (u0 : R), u0 = uu -> is_finite x = true -> is_finite r = true -> 0 < B2R r -> Rabs (B2R x / B2R r) <= 2 ->
  is_finite (Bdiv mode_NE x r) = true /\
  Rabs (B2R (Bdiv mode_NE x r) * B2R (Bdiv mode_NE x r) - B2R x / B2R r * (B2R x / B2R r))
    <= 201/100 * u0 * (B2R x / B2R r * (B2R x / B2R r)) + u0 / 1000.
Proof.
  intros x r u0 E0 Fx Fr Hr Ht.
  destruct (Bdiv64 x r Fx Fr) as [F V]; [lra| |].
  - apply ok64_small. apply Rle_trans with (1 := Ht). change 2 with (bpow radix2 1). apply bpow_le. lia.
  - split; [exact F|]. rewrite V. set (t := B2R x / B2R r) in *.
    subst u0. apply quot_error with (e := ee); [exact uu_small|apply bpow_gt_0|apply TimeB64.err64|exact Ht|].
    apply Rle_trans with (uu * uu / 1024); [|pose proof uu_small; nra].
    rewrite <- bpow_plus. replace (bpow radix2 (-53 + -53) / 1024) with (bpow radix2 (-53 + -53) * bpow radix2 (-10)) by (simpl (bpow radix2 (-10)); lra).
    rewrite <- bpow_plus. apply bpow_le. lia.
Qed.

Lemma normalize64 : forall left a, fin3 a -> bpow radix2 (-500) <= sq3 a <= bpow radix2 502 ->
  fin3 (normalize left a) /\ Rabs (sq3 (normalize left a) - 1) <= 71/10 * uu.
Proof.
  intros left a Fa Hq. destruct (squared_norm64 left a Fa Hq) as [Fs Hs].
  unfold normalize. cbv zeta. set (s := squared_norm left a : b64) in *. change (squared_norm left a) with s.
  pose proof uu_small as Hu. pose proof (bpow_gt_0 radix2 (-500)) as H500.
  assert (Ps : 0 < B2R s) by nra.
  assert (L : nlt (n0 : num B64) s = true).
  { cbn [nlt B64]. destruct (B64_int 0 ltac:(lia)) as [F0 V0]. unfold n0. change (nlit 0 1 : num B64) with (nZ 0 : num B64).
    rewrite Bltb_correct; [|exact F0|exact Fs]. apply Rlt_bool_true. rewrite V0. exact Ps. }
  rewrite L. cbn [nsqrt ndiv B64].
  destruct (Bsqrt_correct 53 1024 _ _ mode_NE s) as (Vr & Fr & _).
  assert (Fr' : is_finite (Bsqrt mode_NE s) = true).
  { rewrite Fr. clear - Ps Fs. destruct s as [?|?| |[] m e H]; try discriminate; auto.
    exfalso. simpl in Ps. apply Rlt_not_le in Ps. apply Ps. apply F2R_le_0. simpl. lia. }
  set (r := Bsqrt mode_NE s) in *. clear Fr.
  change (round radix2 _ _ (sqrt (B2R s))) with (rnd64 (sqrt (B2R s))) in Vr.
  set (g := sqrt (B2R s)) in *.
  assert (Eg : g * g = B2R s) by (apply sqrt_sqrt; lra).
  assert (Pg : 0 < g) by (apply sqrt_lt_R0; exact Ps).
  assert (Hg : bpow radix2 (-500) <= g).
  { apply Rnot_lt_le. intro C. assert (bpow radix2 (-500) <= / 4) by (change (/4) with (bpow radix2 (-2)); apply bpow_le; lia).
    assert (g * g < bpow radix2 (-500) * / 4) by nra. nra. }
  pose proof (up_low g ltac:(lra)) as Ur. pose proof (ee_q g Hg) as Hee. rewrite <- Vr in Ur.
  assert (Br : g * (1 - 101/100 * uu) <= B2R r <= g * (1 + 101/100 * uu)).
  { set (u := uu) in *. assert (g * (u * u) <= g * (1/100 * u)) by (apply Rmult_le_compat_l; nra). lra. }
  assert (Pr : 0 < B2R r) by nra.
  destruct a as [x y z]. destruct Fa as (Fx & Fy & Fz). cbn [cx cy cz] in *. unfold sq3 in *. cbn [cx cy cz] in *.
  assert (B4 : forall w : b64, B2R w * B2R w <= B2R (x : b64) * B2R (x : b64) + B2R (y : b64) * B2R (y : b64) + B2R (z : b64) * B2R (z : b64) -> Rabs (B2R w / B2R r) <= 2).
  { intros w Hw. apply Rabs_sqr_le; [lra|].
    replace (B2R w / B2R r * (B2R w / B2R r)) with (B2R w * B2R w / (B2R r * B2R r)) by (field; lra).
    apply Rle_div_l'; [nra|].
    set (q := B2R (x : b64) * B2R (x : b64) + B2R (y : b64) * B2R (y : b64) + B2R (z : b64) * B2R (z : b64)) in *.
    set (u := uu) in *. clearbody q u.
    assert (q * (1/2) <= B2R s) by nra.
    assert (g * (3/4) <= B2R r) by nra. assert (g * g * (1/2) <= B2R r * B2R r) by nra. lra. }
  destruct (quot64 x r uu eq_refl Fx Fr' Pr) as [Gx Ex]; [apply B4; nra|].
  destruct (quot64 y r uu eq_refl Fy Fr' Pr) as [Gy Ey]; [apply B4; nra|].
  destruct (quot64 z r uu eq_refl Fz Fr' Pr) as [Gz Ez]; [apply B4; nra|].
  split; [split; [exact Gx|split; [exact Gy|exact Gz]]|].
  eapply final_error with (g := g) (r := B2R r) (s := B2R s); [exact Hu| |exact Ps|exact Eg|exact Pg|exact Hs|exact Br|].
  - lra.
  - apply Rabs_le_inv in Ex. apply Rabs_le_inv in Ey. apply Rabs_le_inv in Ez.
    assert (E : (B2R (x : b64) * B2R (x : b64) + B2R (y : b64) * B2R (y : b64) + B2R (z : b64) * B2R (z : b64)) / (B2R r * B2R r) =
      B2R (x : b64) / B2R r * (B2R (x : b64) / B2R r) + B2R (y : b64) / B2R r * (B2R (y : b64) / B2R r) + B2R (z : b64) / B2R r * (B2R (z : b64) / B2R r)) by (field; lra).
    rewrite E. apply Rabs_le. lra.
Qed.
