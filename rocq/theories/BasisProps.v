(** * Property C96: the rounded local basis is orthogonal to the magnetization, and no history of steps leaves the unit sphere *)
From Coq Require Import Reals ZArith Bool List Lra Lia Psatz Floats.SpecFloat.
From Flocq Require Import Core BinarySingleNaN.
From Verif Require Import Arith ArithLaws Vec NodeModel RoundModel RoundProof RoundProps.
From Verif Require TimeB64.
Import ListNotations.
Local Open Scope R_scope.

(** ** operations on numbers below 4: absolute error *)
Notation hh := (5 * uu).
Notation val x := (B2R (x : b64)).
Lemma ee_uu : ee <= uu / 2.
Proof. replace (uu / 2) with (bpow radix2 (-54)); [apply bpow_le; lia|]. change (-54)%Z with (-53 + -1)%Z. rewrite bpow_plus. simpl (bpow radix2 (-1)). lra. Qed.
Lemma rnd_abs : forall x, Rabs x <= 4 -> Rabs (rnd64 x - x) <= hh.
Proof.
  intros x H. apply Rle_trans with (1 := TimeB64.err64 x). pose proof ee_uu. pose proof uu_small. nra.
Qed.
Lemma four_ok : forall x, Rabs x <= 4 -> ok64 x.
Proof. intros x H. apply ok64_small. apply Rle_trans with (1 := H). change 4 with (bpow radix2 2). apply bpow_le. lia. Qed.
Lemma add4 : forall x y : b64, is_finite x = true -> is_finite y = true -> Rabs (B2R x + B2R y) <= 4 ->
  is_finite (nadd (x : num B64) y : b64) = true /\ Rabs (val (nadd (x : num B64) y) - (B2R x + B2R y)) <= hh.
Proof. intros x y Fx Fy H. destruct (Badd64 x y Fx Fy (four_ok _ H)) as [F E]. split; [exact F|]. cbn [nadd B64]. rewrite E. apply rnd_abs. exact H. Qed.
Lemma sub4 : forall x y : b64, is_finite x = true -> is_finite y = true -> Rabs (B2R x - B2R y) <= 4 ->
  is_finite (nsub (x : num B64) y : b64) = true /\ Rabs (val (nsub (x : num B64) y) - (B2R x - B2R y)) <= hh.
Proof. intros x y Fx Fy H. destruct (Bsub64 x y Fx Fy (four_ok _ H)) as [F E]. split; [exact F|]. cbn [nsub B64]. rewrite E. apply rnd_abs. exact H. Qed.
Lemma mul4 : forall x y : b64, is_finite x = true -> is_finite y = true -> Rabs (B2R x * B2R y) <= 4 ->
  is_finite (nmul (x : num B64) y : b64) = true /\ Rabs (val (nmul (x : num B64) y) - B2R x * B2R y) <= hh.
Proof. intros x y Fx Fy H. destruct (Bmul64 x y Fx Fy (four_ok _ H)) as [F E]. split; [exact F|]. cbn [nmul B64]. rewrite E. apply rnd_abs. exact H. Qed.

Lemma mul_abs : forall a b x y, Rabs a <= x -> Rabs b <= y -> Rabs (a * b) <= x * y.
Proof. intros a b x y Ha Hb. rewrite Rabs_mult. apply Rmult_le_compat; auto using Rabs_pos. Qed.
Lemma sum_abs : forall a b x y, Rabs a <= x -> Rabs b <= y -> Rabs (a + b) <= x + y.
Proof. intros a b x y Ha Hb. eapply Rle_trans; [apply Rabs_triang|lra]. Qed.

(** a combination c x + s y of numbers: two products and a sum (or a difference) *)
Lemma comb_add : forall c x s y : b64, is_finite c = true -> is_finite x = true -> is_finite s = true -> is_finite y = true ->
  Rabs (B2R c * B2R x) + Rabs (B2R s * B2R y) <= 7/2 ->
  is_finite (nadd (nmul (c : num B64) x) (nmul (s : num B64) y) : b64) = true /\
  Rabs (val (nadd (nmul (c : num B64) x) (nmul (s : num B64) y)) - (B2R c * B2R x + B2R s * B2R y)) <= 3 * hh.
Proof.
  intros c x s y Fc Fx Fs Fy H. pose proof (Rabs_pos (B2R c * B2R x)). pose proof (Rabs_pos (B2R s * B2R y)). pose proof uu_small as Hu.
  destruct (mul4 c x Fc Fx ltac:(lra)) as [F1 E1]. destruct (mul4 s y Fs Fy ltac:(lra)) as [F2 E2].
  set (p := nmul (c : num B64) x) in *. set (q := nmul (s : num B64) y) in *.
  set (P := B2R c * B2R x) in *. set (Q := B2R s * B2R y) in *. clearbody P Q.
  destruct (add4 p q F1 F2) as [F3 E3].
  - set (u := uu) in *. clearbody u. replace (val p + val q) with ((val p - P) + (val q - Q) + (P + Q)) by ring.
    eapply Rle_trans; [apply sum_abs; [apply sum_abs; [exact E1|exact E2]|apply Rabs_triang]|]. lra.
  - split; [exact F3|]. set (u := uu) in *. clearbody u.
    replace (val (nadd p q) - (P + Q)) with ((val (nadd p q) - (val p + val q)) + ((val p - P) + (val q - Q))) by ring.
    eapply Rle_trans; [apply sum_abs; [exact E3|apply sum_abs; [exact E1|exact E2]]|]. lra.
Qed.
Lemma comb_sub : forall c x s y : b64, is_finite c = true -> is_finite x = true -> is_finite s = true -> is_finite y = true ->
  Rabs (B2R c * B2R x) + Rabs (B2R s * B2R y) <= 7/2 ->
  is_finite (nsub (nmul (c : num B64) x) (nmul (s : num B64) y) : b64) = true /\
  Rabs (val (nsub (nmul (c : num B64) x) (nmul (s : num B64) y)) - (B2R c * B2R x - B2R s * B2R y)) <= 3 * hh.
Proof.
  intros c x s y Fc Fx Fs Fy H. pose proof (Rabs_pos (B2R c * B2R x)). pose proof (Rabs_pos (B2R s * B2R y)). pose proof uu_small as Hu.
  destruct (mul4 c x Fc Fx ltac:(lra)) as [F1 E1]. destruct (mul4 s y Fs Fy ltac:(lra)) as [F2 E2].
  set (p := nmul (c : num B64) x) in *. set (q := nmul (s : num B64) y) in *.
  set (P := B2R c * B2R x) in *. set (Q := B2R s * B2R y) in *. clearbody P Q.
  destruct (sub4 p q F1 F2) as [F3 E3].
  - set (u := uu) in *. clearbody u. apply Rabs_le_inv in E1. apply Rabs_le_inv in E2.
    assert (A : - Rabs P <= P <= Rabs P) by (apply Rabs_le_inv; lra). assert (B : - Rabs Q <= Q <= Rabs Q) by (apply Rabs_le_inv; lra). apply Rabs_le. lra.
  - split; [exact F3|]. set (u := uu) in *. clearbody u. apply Rabs_le_inv in E1. apply Rabs_le_inv in E2. apply Rabs_le_inv in E3. apply Rabs_le. lra.
Qed.

(** ** the normalization divides by one number *)
Lemma normalize_quot : forall left a, fin3 a -> 1/2 <= sq3 a <= 2 -> exists r, 7/10 <= r <= 3/2 /\
  Rabs (val (cx (normalize left a)) - val (cx a) / r) <= hh /\ Rabs (val (cy (normalize left a)) - val (cy a) / r) <= hh /\
  Rabs (val (cz (normalize left a)) - val (cz a) / r) <= hh.
Proof.
  intros left a Fa Hq.
  assert (B1 : bpow radix2 (-500) <= sq3 a). { apply Rle_trans with (bpow radix2 (-1)); [apply bpow_le; lia|]. simpl (bpow radix2 (-1)). lra. }
  assert (B2 : sq3 a <= bpow radix2 502). { apply Rle_trans with (bpow radix2 1); [simpl (bpow radix2 1); lra|apply bpow_le; lia]. }
  destruct (squared_norm64 left a Fa (conj B1 B2)) as [Fs Hs].
  unfold normalize. cbv zeta. set (s := squared_norm left a : b64) in *. change (squared_norm left a) with s.
  pose proof uu_small as Hu.
  assert (Ps : 0 < B2R s) by nra.
  assert (L : nlt (n0 : num B64) s = true).
  { cbn [nlt B64]. destruct (B64_int 0 ltac:(lia)) as [F0 V0]. unfold n0. change (nlit 0 1 : num B64) with (nZ 0 : num B64).
    rewrite Bltb_correct; [|exact F0|exact Fs]. apply Rlt_bool_true. rewrite V0. exact Ps. }
  rewrite L. cbn [cx cy cz]. cbn [nsqrt ndiv B64].
  destruct (Bsqrt_correct 53 1024 _ _ mode_NE s) as (Vr & Fr & _).
  assert (Fr' : is_finite (Bsqrt mode_NE s) = true).
  { rewrite Fr. clear - Ps Fs. destruct s as [?|?| |[] m e H]; try discriminate; auto.
    exfalso. simpl in Ps. apply Rlt_not_le in Ps. apply Ps. apply F2R_le_0. simpl. lia. }
  set (r := Bsqrt mode_NE s) in *. clear Fr.
  change (round radix2 _ _ (sqrt (B2R s))) with (rnd64 (sqrt (B2R s))) in Vr.
  set (g := sqrt (B2R s)) in *.
  assert (Eg : g * g = B2R s) by (apply sqrt_sqrt; lra).
  assert (Pg : 0 < g) by (apply sqrt_lt_R0; exact Ps).
  assert (Bs : 4999/10000 <= B2R s <= 20001/10000) by (split; nra).
  assert (Bg : 705/1000 <= g <= 142/100) by (split; apply Rnot_lt_le; intro C; nra).
  assert (Br : 7/10 <= B2R r <= 3/2).
  { pose proof (rnd_abs g ltac:(rewrite Rabs_pos_eq by lra; lra)) as E. rewrite <- Vr in E. apply Rabs_le_inv in E. lra. }
  exists (B2R r). split; [exact Br|].
  destruct a as [x y z]. destruct Fa as (Fx & Fy & Fz). cbn [cx cy cz] in *. unfold sq3 in *. cbn [cx cy cz] in *.
  assert (D : forall w : b64, is_finite w = true -> B2R w * B2R w <= 2 -> Rabs (B2R (Bdiv mode_NE w r) - B2R w / B2R r) <= hh).
  { intros w Fw Hw. assert (T : Rabs (B2R w / B2R r) <= 4).
    { apply Rabs_sqr_le; [lra|]. replace (B2R w / B2R r * (B2R w / B2R r)) with (B2R w * B2R w / (B2R r * B2R r)) by (field; lra).
      apply Rle_div_l'; nra. }
    destruct (Bdiv64 w r Fw Fr') as [_ V]; [lra|apply four_ok; exact T|]. rewrite V. apply rnd_abs. exact T. }
  split; [apply D; [exact Fx|nra]|]. split; [apply D; [exact Fy|nra]|apply D; [exact Fz|nra]].
Qed.

(** ** the Gram-Schmidt vector *)
Definition box (k : R) (a : vec3 B64) : Prop := finite3 a /\ Rabs (val (cx a)) <= k /\ Rabs (val (cy a)) <= k /\ Rabs (val (cz a)) <= k.
Lemma dot_error : forall left a u, box 1 a -> box (101/100) u ->
  is_finite (dot3 left a u : b64) = true /\ Rabs (val (dot3 left a u) - dot (value a) (value u)) <= 5 * hh.
Proof.
  intros left [a1 a2 a3] [u1 u2 u3] ((Fa1 & Fa2 & Fa3) & A1 & A2 & A3) ((Fu1 & Fu2 & Fu3) & U1 & U2 & U3).
  unfold dot, value. cbn [cx cy cz vx vy vz] in *. pose proof uu_small as Hu.
  pose proof (mul_abs _ _ _ _ A1 U1) as P1. pose proof (mul_abs _ _ _ _ A2 U2) as P2. pose proof (mul_abs _ _ _ _ A3 U3) as P3.
  destruct (mul4 a1 u1 Fa1 Fu1 ltac:(lra)) as [F1 E1]. destruct (mul4 a2 u2 Fa2 Fu2 ltac:(lra)) as [F2 E2]. destruct (mul4 a3 u3 Fa3 Fu3 ltac:(lra)) as [F3 E3].
  unfold dot3. cbn [cx cy cz].
  set (p1 := nmul (a1 : num B64) u1) in *. set (p2 := nmul (a2 : num B64) u2) in *. set (p3 := nmul (a3 : num B64) u3) in *.
  set (q1 := val a1 * val u1) in *. set (q2 := val a2 * val u2) in *. set (q3 := val a3 * val u3) in *. clearbody q1 q2 q3.
  apply Rabs_le_inv in P1. apply Rabs_le_inv in P2. apply Rabs_le_inv in P3. apply Rabs_le_inv in E1. apply Rabs_le_inv in E2. apply Rabs_le_inv in E3.
  destruct left.
  - destruct (add4 p1 p2 F1 F2) as [F4 E4]. { apply Rabs_le. lra. }
    apply Rabs_le_inv in E4. destruct (add4 _ p3 F4 F3) as [F5 E5]. { apply Rabs_le. lra. }
    split; [exact F5|]. apply Rabs_le_inv in E5. apply Rabs_le. lra.
  - destruct (add4 p2 p3 F2 F3) as [F4 E4]. { apply Rabs_le. lra. }
    apply Rabs_le_inv in E4. destruct (add4 p1 _ F1 F4) as [F5 E5]. { apply Rabs_le. lra. }
    split; [exact F5|]. apply Rabs_le_inv in E5. apply Rabs_le. lra.
Qed.

(** one coefficient a - k u of the Gram-Schmidt vector *)
Lemma gs_coeff : forall (a k u : b64) (k0 : R), is_finite a = true -> is_finite k = true -> is_finite u = true ->
  Rabs (B2R a) <= 1 -> Rabs (B2R u) <= 101/100 -> Rabs k0 <= 6/10 -> Rabs (B2R k - k0) <= 5 * hh ->
  is_finite (nsub (a : num B64) (nmul (k : num B64) u) : b64) = true /\
  Rabs (val (nsub (a : num B64) (nmul (k : num B64) u)) - (B2R a - k0 * B2R u)) <= 8 * hh.
Proof.
  intros a k u k0 Fa Fk Fu Ha Hu0 Hk0 Hk. pose proof uu_small as Hu.
  pose proof (mul_abs _ _ _ _ Hk Hu0) as D. pose proof (mul_abs _ _ _ _ Hk0 Hu0) as D0.
  assert (Ek : B2R k * B2R u = (B2R k - k0) * B2R u + k0 * B2R u) by ring.
  set (d := (B2R k - k0) * B2R u) in *. set (d0 := k0 * B2R u) in *. clearbody d d0.
  apply Rabs_le_inv in D. apply Rabs_le_inv in D0. apply Rabs_le_inv in Ha.
  destruct (mul4 k u Fk Fu) as [F1 E1]. { rewrite Ek. apply Rabs_le. lra. }
  rewrite Ek in E1. apply Rabs_le_inv in E1.
  destruct (sub4 a _ Fa F1) as [F2 E2]. { apply Rabs_le. lra. }
  split; [exact F2|]. apply Rabs_le_inv in E2. apply Rabs_le. lra.
Qed.

(** ** the smallest coefficient *)
Lemma B64_lt_abs : forall x y : b64, is_finite x = true -> is_finite y = true -> nlt (nabs (x : num B64)) (nabs (y : num B64)) = Rlt_bool (Rabs (B2R x)) (Rabs (B2R y)).
Proof.
  intros x y Fx Fy. cbn [nlt nabs B64]. rewrite Bltb_correct.
  - rewrite !B2R_Babs. reflexivity.
  - rewrite is_finite_Babs. exact Fx.
  - rewrite is_finite_Babs. exact Fy.
Qed.
Lemma unit_values : value (@unit_vector B64 0) = V 1 0 0 /\ value (@unit_vector B64 1) = V 0 1 0 /\ value (@unit_vector B64 2) = V 0 0 1 /\
  finite3 (@unit_vector B64 0) /\ finite3 (@unit_vector B64 1) /\ finite3 (@unit_vector B64 2).
Proof.
  destruct (B64_int 0 ltac:(lia)) as [F0 V0]. destruct (B64_int 1 ltac:(lia)) as [F1 V1].
  unfold value, finite3, unit_vector. cbn [cx cy cz]. rewrite V0, V1. repeat split; auto.
Qed.
Lemma smallest : forall u, finite3 u -> dot (value u) (value u) <= 101/100 ->
  let a := unit_vector (min_index u) in box 1 a /\ dot (value a) (value a) = 1 /\ Rabs (dot (value a) (value u)) <= 6/10.
Proof.
  intros [x y z] (Fx & Fy & Fz) H. cbn [cx cy cz] in *. unfold min_index. cbn [cx cy cz]. cbv zeta. rewrite !B64_lt_abs by assumption.
  destruct unit_values as (V0 & V1 & V2 & G0 & G1 & G2). unfold value in H. cbn [cx cy cz] in H.
  unfold dot in H. cbn [vx vy vz] in H.
  assert (S : forall a, Rabs a * Rabs a = a * a) by (intros a; rewrite <- Rabs_mult; apply Rabs_pos_eq; nra).
  pose proof (S (val x)) as SX. pose proof (S (val y)) as SY. pose proof (S (val z)) as SZ.
  pose proof (Rabs_pos (val x)) as PX. pose proof (Rabs_pos (val y)) as PY. pose proof (Rabs_pos (val z)) as PZ.
  assert (BX : forall i a, value (@unit_vector B64 i) = a -> finite3 (@unit_vector B64 i) -> (a = V 1 0 0 \/ a = V 0 1 0 \/ a = V 0 0 1) -> box 1 (@unit_vector B64 i) /\ dot a a = 1).
  { intros i a <- G C. assert (E : Rabs 0 <= 1) by (rewrite Rabs_R0; lra). assert (E1 : Rabs 1 <= 1) by (rewrite Rabs_R1; lra).
    split; [split; [exact G|]|]; unfold value in *; destruct C as [C|[C|C]]; injection C as -> -> ->; auto; unfold dot; cbn [vx vy vz]; ring. }
  assert (K : exists i, (if Rlt_bool (Rabs (val y)) (Rabs (val x)) then if Rlt_bool (Rabs (val z)) (Rabs (val y)) then 2%nat else 1%nat
     else if Rlt_bool (Rabs (val z)) (Rabs (val x)) then 2%nat else 0%nat) = i /\
     ((i = 0%nat /\ Rabs (val x) <= 6/10) \/ (i = 1%nat /\ Rabs (val y) <= 6/10) \/ (i = 2%nat /\ Rabs (val z) <= 6/10))).
  { destruct (Rlt_bool_spec (Rabs (val y)) (Rabs (val x))) as [C1|C1]; [destruct (Rlt_bool_spec (Rabs (val z)) (Rabs (val y))) as [C2|C2]|destruct (Rlt_bool_spec (Rabs (val z)) (Rabs (val x))) as [C2|C2]];
      eexists; (split; [reflexivity|]); [right; right|right; left|right; right|left]; (split; [reflexivity|]); apply Rnot_lt_le; intro C; nra. }
  destruct K as (i & -> & C). destruct C as [[-> C]|[[-> C]|[-> C]]]; rewrite ?V0, ?V1, ?V2.
  - destruct (BX _ _ V0 G0 ltac:(auto)) as [B D]. split; [exact B|]. split; [exact D|]. unfold dot, value. cbn [vx vy vz cx cy cz]. replace (1 * val x + 0 * val y + 0 * val z) with (val x) by ring. exact C.
  - destruct (BX _ _ V1 G1 ltac:(auto)) as [B D]. split; [exact B|]. split; [exact D|]. unfold dot, value. cbn [vx vy vz cx cy cz]. replace (0 * val x + 1 * val y + 0 * val z) with (val y) by ring. exact C.
  - destruct (BX _ _ V2 G2 ltac:(auto)) as [B D]. split; [exact B|]. split; [exact D|]. unfold dot, value. cbn [vx vy vz cx cy cz]. replace (0 * val x + 0 * val y + 1 * val z) with (val z) by ring. exact C.
Qed.

(** ** vectors close to each other, coefficient by coefficient *)
Definition within (e : R) (a b : vec) : Prop := Rabs (vx a - vx b) <= e /\ Rabs (vy a - vy b) <= e /\ Rabs (vz a - vz b) <= e.
Definition below (k : R) (a : vec) : Prop := Rabs (vx a) <= k /\ Rabs (vy a) <= k /\ Rabs (vz a) <= k.
Lemma dot_within : forall k e U a b, below k U -> within e a b -> Rabs (dot U a - dot U b) <= 3 * (k * e).
Proof.
  intros k e [u1 u2 u3] [a1 a2 a3] [b1 b2 b3] (U1 & U2 & U3) (E1 & E2 & E3). unfold dot. cbn [vx vy vz] in *.
  replace (u1 * a1 + u2 * a2 + u3 * a3 - (u1 * b1 + u2 * b2 + u3 * b3)) with (u1 * (a1 - b1) + u2 * (a2 - b2) + u3 * (a3 - b3)) by ring.
  eapply Rle_trans; [apply sum_abs; [apply sum_abs; apply mul_abs; eassumption|apply mul_abs; eassumption]|]. lra.
Qed.
Lemma below_within : forall k e a b, below k b -> within e a b -> below (k + e) a.
Proof.
  intros k e [a1 a2 a3] [b1 b2 b3] (U1 & U2 & U3) (E1 & E2 & E3). unfold below. cbn [vx vy vz] in *.
  repeat split; apply Rabs_le; [apply Rabs_le_inv in U1, E1|apply Rabs_le_inv in U2, E2|apply Rabs_le_inv in U3, E3]; lra.
Qed.
Lemma below_le : forall k k' a, k <= k' -> below k a -> below k' a.
Proof. intros k k' a H (A & B & C). repeat split; lra. Qed.
Lemma below_dot : forall k a, 0 <= k -> dot a a <= k * k -> below k a.
Proof. intros k [a1 a2 a3] P H. unfold dot in H. cbn [vx vy vz] in H. repeat split; cbn [vx vy vz]; apply Rabs_sqr_le; first [exact P|nra]. Qed.
Lemma sq_within : forall k e a b, below k b -> within e a b -> 0 <= e <= k -> Rabs (dot a a - dot b b) <= 9 * (k * e).
Proof.
  intros k e [a1 a2 a3] [b1 b2 b3] (U1 & U2 & U3) (E1 & E2 & E3) He. unfold dot. cbn [vx vy vz] in *.
  assert (S : forall x y, Rabs y <= k -> Rabs (x - y) <= e -> Rabs (x * x - y * y) <= 3 * (k * e)).
  { intros x y Hy Hx. replace (x * x - y * y) with ((x - y) * (x + y)) by ring. rewrite Rabs_mult.
    assert (Rabs (x + y) <= 3 * k). { apply Rabs_le_inv in Hy. apply Rabs_le_inv in Hx. apply Rabs_le. lra. }
    pose proof (Rabs_pos (x - y)). pose proof (Rabs_pos (x + y)). nra. }
  replace (a1 * a1 + a2 * a2 + a3 * a3 - (b1 * b1 + b2 * b2 + b3 * b3)) with ((a1 * a1 - b1 * b1) + (a2 * a2 - b2 * b2) + (a3 * a3 - b3 * b3)) by ring.
  eapply Rle_trans; [apply sum_abs; [apply sum_abs; apply S; eassumption|apply S; eassumption]|]. lra.
Qed.

(** ** Specification: a basis that is orthonormal, together with u, up to [e] *)
Definition near_orthonormal (e : R) (u p q : vec) : Prop :=
  Rabs (dot u p) <= e /\ Rabs (dot u q) <= e /\ Rabs (dot p q) <= e /\ Rabs (dot p p - 1) <= e /\ Rabs (dot q q - 1) <= e.
(** two doubles that are the cosine and the sine of some angle, each to one unit in the last place at 1 *)
Definition rotation (c s : num B64) : Prop :=
  is_finite (c : b64) = true /\ is_finite (s : b64) = true /\ exists r, Rabs (val c - cos r) <= / 2 ^ 52 /\ Rabs (val s - sin r) <= / 2 ^ 52.

Lemma unit_square : forall u, unit64 u -> Rabs (dot (value u) (value u) - 1) <= 2 * hh.
Proof.
  intros u [F H]. rewrite uu_51 in H. pose proof uu_small as Hu. apply Rabs_le_inv in H.
  unfold vnorm in H. assert (P : 0 <= dot (value u) (value u)) by (unfold dot; nra).
  pose proof (sqrt_sqrt _ P) as E. set (n := sqrt (dot (value u) (value u))) in *. rewrite <- E.
  set (w := uu) in *. clearbody w n. apply Rabs_le. split; nra.
Qed.
Lemma rotation_square : forall c s, rotation c s -> Rabs (val c * val c + val s * val s - 1) <= 2 * hh /\ Rabs (val c) <= 101/100 /\ Rabs (val s) <= 101/100.
Proof.
  intros c s (Fc & Fs & r & Hc & Hs). assert (E : / 2 ^ 52 = 2 * uu).
  { rewrite <- bpow_neg_nat. change (- Z.of_nat 52)%Z with (1 + -53)%Z. rewrite bpow_plus. simpl (bpow radix2 1). reflexivity. }
  rewrite E in *. pose proof uu_small as Hu. set (u := uu) in *. clearbody u.
  pose proof (sin2_cos2 r) as S. unfold Rsqr in S. pose proof (COS_bound r) as C1. pose proof (SIN_bound r) as S1.
  set (a := cos r) in *. set (b := sin r) in *. set (x := val c) in *. set (y := val s) in *. clearbody a b x y. clear E Fc Fs.
  apply Rabs_le_inv in Hc. apply Rabs_le_inv in Hs. repeat split; apply Rabs_le; try lra.
  assert (A : - (4 * u + 4 * u * u) <= x * x - a * a <= 4 * u + 4 * u * u).
  { replace (x * x - a * a) with (2 * a * (x - a) + (x - a) * (x - a)) by ring. split; nra. }
  assert (B : - (4 * u + 4 * u * u) <= y * y - b * b <= 4 * u + 4 * u * u).
  { replace (y * y - b * b) with (2 * b * (y - b) + (y - b) * (y - b)) by ring. split; nra. }
  split; nra.
Qed.

(** ** stage A: the vector before the normalization *)
Lemma stage_a : forall left u, unit64 u -> let a := unit_vector (min_index u) in let t := minus3 a (times3 (dot3 left a u) u) in
  finite3 t /\ 1/2 <= dot (value t) (value t) <= 2 /\ Rabs (dot (value u) (value t)) <= 26 * hh.
Proof.
  intros left u Hu a t. pose proof (unit_square u Hu) as Q. pose proof uu_small as Hs. destruct Hu as [Fu _].
  set (N := dot (value u) (value u)) in *.
  assert (QN : 99/100 <= N <= 101/100) by (apply Rabs_le_inv in Q; lra).
  destruct (smallest u Fu) as (Ba & Da & Ka); [fold N; lra|]. fold a in Ba, Da, Ka.
  assert (BU : below (101/100) (value u)) by (apply below_dot; fold N; lra).
  destruct (dot_error left a u Ba (conj Fu BU)) as [Fk Ek].
  set (k := dot3 left a u) in *. set (k0 := dot (value a) (value u)) in *.
  destruct Ba as ((Fa1 & Fa2 & Fa3) & A1 & A2 & A3). destruct Fu as (Fu1 & Fu2 & Fu3). pose proof BU as (U1 & U2 & U3).
  destruct (gs_coeff (cx a) k (cx u) k0 Fa1 Fk Fu1 A1 U1 Ka Ek) as [G1 E1].
  destruct (gs_coeff (cy a) k (cy u) k0 Fa2 Fk Fu2 A2 U2 Ka Ek) as [G2 E2].
  destruct (gs_coeff (cz a) k (cz u) k0 Fa3 Fk Fu3 A3 U3 Ka Ek) as [G3 E3].
  set (T := vsub (value a) (vscale k0 (value u))).
  assert (W : within (8 * hh) (value t) T).
  { unfold within, T, t, value, minus3, times3, vsub, vadd, vscale. cbn [cx cy cz vx vy vz]. repeat split; assumption. }
  assert (DT : dot T T = 1 - k0 * k0 * (2 - N)).
  { rewrite <- Da. unfold T, k0, N, dot, vsub, vscale. cbn [vx vy vz]. ring. }
  assert (UT : dot (value u) T = k0 * (1 - N)).
  { unfold T, k0, N, dot, vsub, vscale. cbn [vx vy vz]. ring. }
  split; [repeat split; assumption|].
  assert (K2 : 0 <= k0 * k0 <= 36/100) by (apply Rabs_le_inv in Ka; split; nra).
  assert (BT : below (11/10) T). { apply below_dot; [lra|]. rewrite DT. nra. }
  split.
  - pose proof (sq_within _ _ _ _ BT W ltac:(lra)) as S. apply Rabs_le_inv in S. rewrite DT in S.
    set (D := dot (value t) (value t)) in *. clearbody D. nra.
  - pose proof (dot_within _ _ _ _ _ BU W) as S. rewrite UT in S.
    assert (M : Rabs (k0 * (1 - N)) <= 6/10 * (2 * hh)). { apply mul_abs; [exact Ka|]. rewrite Rabs_minus_sym. exact Q. }
    set (x := dot (value u) (value t)) in *. set (y := k0 * (1 - N)) in *. clearbody x y.
    apply Rabs_le_inv in S. apply Rabs_le_inv in M. apply Rabs_le. lra.
Qed.

(** ** stage B: after it *)
Lemma stage_b : forall left u, unit64 u -> let a := unit_vector (min_index u) in let e := normalize left (minus3 a (times3 (dot3 left a u) u)) in
  finite3 e /\ Rabs (dot (value e) (value e) - 1) <= 2 * hh /\ Rabs (dot (value u) (value e)) <= 42 * hh.
Proof.
  intros left u Hu a e. destruct (stage_a left u Hu) as (Ft & Qt & Ut). fold a in Ft, Qt, Ut.
  set (t := minus3 a (times3 (dot3 left a u) u)) in *. pose proof uu_small as Hs.
  assert (BU : below (101/100) (value u)). { apply below_dot; [lra|]. pose proof (unit_square u Hu) as Q. apply Rabs_le_inv in Q. lra. }
  destruct (normalize64 left t Ft) as [Fe Ee].
  { rewrite <- value_sq. split.
    - apply Rle_trans with (bpow radix2 (-1)); [apply bpow_le; lia|]. simpl (bpow radix2 (-1)). lra.
    - apply Rle_trans with (bpow radix2 1); [simpl (bpow radix2 1); lra|apply bpow_le; lia]. }
  fold e in Fe, Ee. split; [exact Fe|]. split; [rewrite value_sq; lra|].
  destruct (normalize_quot left t Ft Qt) as (r & Hr & E1 & E2 & E3). fold e in E1, E2, E3.
  assert (W : within hh (value e) (vscale (/ r) (value t))).
  { unfold within, value, vscale. cbn [vx vy vz]. unfold Rdiv in E1, E2, E3. rewrite (Rmult_comm _ (/ r)) in E1. rewrite (Rmult_comm _ (/ r)) in E2. rewrite (Rmult_comm _ (/ r)) in E3. repeat split; assumption. }
  pose proof (dot_within _ _ _ _ _ BU W) as S.
  assert (X : dot (value u) (vscale (/ r) (value t)) = / r * dot (value u) (value t)) by (unfold dot, vscale; cbn [vx vy vz]; ring).
  rewrite X in S.
  assert (R1 : Rabs (/ r) <= 10/7). { rewrite Rabs_pos_eq by (left; apply Rinv_0_lt_compat; lra). apply Rmult_le_reg_l with r; [lra|]. rewrite Rinv_r by lra. lra. }
  pose proof (mul_abs _ _ _ _ R1 Ut) as M.
  set (y := / r * dot (value u) (value t)) in *. set (x := dot (value u) (value e)) in *. clearbody x y.
  apply Rabs_le_inv in S. apply Rabs_le_inv in M. apply Rabs_le. lra.
Qed.

(** ** stage C: the cross product *)
Lemma stage_c : forall u e, unit64 u -> finite3 e -> Rabs (dot (value e) (value e) - 1) <= 2 * hh -> Rabs (dot (value u) (value e)) <= 42 * hh ->
  let q := cross3 u e in finite3 q /\ Rabs (dot (value q) (value q) - 1) <= 45 * hh /\ Rabs (dot (value u) (value q)) <= 10 * hh /\
  Rabs (dot (value e) (value q)) <= 10 * hh.
Proof.
  intros u e Hu Fe De Ue q. pose proof uu_small as Hs. pose proof (unit_square u Hu) as Q. destruct Hu as [Fu _].
  set (N := dot (value u) (value u)) in *. set (M := dot (value e) (value e)) in *.
  apply Rabs_le_inv in Q. apply Rabs_le_inv in De.
  assert (BU : below (101/100) (value u)) by (apply below_dot; fold N; lra).
  assert (BE : below (101/100) (value e)) by (apply below_dot; fold M; lra).
  set (C := cross (value u) (value e)).
  destruct Fu as (Fu1 & Fu2 & Fu3). destruct Fe as (Fe1 & Fe2 & Fe3). pose proof BU as (U1 & U2 & U3). pose proof BE as (E1 & E2 & E3).
  unfold value in U1, U2, U3, E1, E2, E3. cbn [vx vy vz] in U1, U2, U3, E1, E2, E3.
  assert (P : forall a b c d : b64, Rabs (B2R a) <= 101/100 -> Rabs (B2R b) <= 101/100 -> Rabs (B2R c) <= 101/100 -> Rabs (B2R d) <= 101/100 ->
     Rabs (B2R a * B2R b) + Rabs (B2R c * B2R d) <= 7/2).
  { intros a b c d Ha Hb Hc Hd. pose proof (mul_abs _ _ _ _ Ha Hb). pose proof (mul_abs _ _ _ _ Hc Hd). lra. }
  destruct (comb_sub (cy u) (cz e) (cz u) (cy e) Fu2 Fe3 Fu3 Fe2 ltac:(apply P; assumption)) as [G1 W1].
  destruct (comb_sub (cz u) (cx e) (cx u) (cz e) Fu3 Fe1 Fu1 Fe3 ltac:(apply P; assumption)) as [G2 W2].
  destruct (comb_sub (cx u) (cy e) (cy u) (cx e) Fu1 Fe2 Fu2 Fe1 ltac:(apply P; assumption)) as [G3 W3].
  assert (W : within (3 * hh) (value q) C).
  { unfold within, C, q, value, cross3, cross. cbn [cx cy cz vx vy vz]. repeat split; assumption. }
  assert (DC : dot C C = N * M - dot (value u) (value e) * dot (value u) (value e)).
  { unfold C, N, M, dot, cross. cbn [vx vy vz]. ring. }
  assert (UC : dot (value u) C = 0) by (unfold C, dot, cross; cbn [vx vy vz]; ring).
  assert (EC : dot (value e) C = 0) by (unfold C, dot, cross; cbn [vx vy vz]; ring).
  set (x := dot (value u) (value e)) in *.
  assert (X2 : 0 <= x * x <= hh). { apply Rabs_le_inv in Ue. split; nra. }
  split; [repeat split; assumption|]. split; [|split].
  - assert (BC : below (102/100) C). { apply below_dot; [lra|]. rewrite DC. nra. }
    pose proof (sq_within _ _ _ _ BC W ltac:(lra)) as S. rewrite DC in S. apply Rabs_le_inv in S.
    assert (NM : 1 - 5 * hh <= N * M <= 1 + 5 * hh) by (split; nra).
    set (p := N * M) in *. set (z := x * x) in *. set (D := dot (value q) (value q)) in *. clearbody p z D. apply Rabs_le. lra.
  - pose proof (dot_within _ _ _ _ _ BU W) as S. rewrite UC, Rminus_0_r in S. lra.
  - pose proof (dot_within _ _ _ _ _ BE W) as S. rewrite EC, Rminus_0_r in S. lra.
Qed.

(** ** stage D: the rotation *)
Lemma stage_d : forall u e q c s, unit64 u -> rotation c s -> finite3 e -> finite3 q ->
  Rabs (dot (value e) (value e) - 1) <= 2 * hh -> Rabs (dot (value u) (value e)) <= 42 * hh ->
  Rabs (dot (value q) (value q) - 1) <= 45 * hh -> Rabs (dot (value u) (value q)) <= 10 * hh -> Rabs (dot (value e) (value q)) <= 10 * hh ->
  let p1 := minus3 (times3 c e) (times3 s q) in let p2 := plus3 (times3 s e) (times3 c q) in
  finite3 p1 /\ finite3 p2 /\ near_orthonormal (200 * hh) (value u) (value p1) (value p2).
Proof.
  intros u e q c s Hu Hr Fe Fq De Ue Dq Uq Eq p1 p2. pose proof uu_small as Hs. pose proof (unit_square u Hu) as Q.
  destruct (rotation_square c s Hr) as (R2 & Rc & Rs). destruct Hr as (Fc & Fs & _).
  assert (BU : below (101/100) (value u)). { apply below_dot; [lra|]. apply Rabs_le_inv in Q. lra. }
  assert (BE : below (101/100) (value e)). { apply below_dot; [lra|]. apply Rabs_le_inv in De. lra. }
  assert (BQ : below (101/100) (value q)). { apply below_dot; [lra|]. apply Rabs_le_inv in Dq. lra. }
  destruct Fe as (Fe1 & Fe2 & Fe3). destruct Fq as (Fq1 & Fq2 & Fq3). pose proof BE as (E1 & E2 & E3). pose proof BQ as (Q1 & Q2 & Q3).
  unfold value in Q1, Q2, Q3, E1, E2, E3. cbn [vx vy vz] in Q1, Q2, Q3, E1, E2, E3.
  assert (P : forall a b c d : b64, Rabs (B2R a) <= 101/100 -> Rabs (B2R b) <= 101/100 -> Rabs (B2R c) <= 101/100 -> Rabs (B2R d) <= 101/100 ->
     Rabs (B2R a * B2R b) + Rabs (B2R c * B2R d) <= 7/2).
  { intros a b c0 d Ha Hb Hc Hd. pose proof (mul_abs _ _ _ _ Ha Hb). pose proof (mul_abs _ _ _ _ Hc Hd). lra. }
  destruct (comb_sub c (cx e) s (cx q) Fc Fe1 Fs Fq1 ltac:(apply P; assumption)) as [G1 W1].
  destruct (comb_sub c (cy e) s (cy q) Fc Fe2 Fs Fq2 ltac:(apply P; assumption)) as [G2 W2].
  destruct (comb_sub c (cz e) s (cz q) Fc Fe3 Fs Fq3 ltac:(apply P; assumption)) as [G3 W3].
  destruct (comb_add s (cx e) c (cx q) Fs Fe1 Fc Fq1 ltac:(apply P; assumption)) as [G4 W4].
  destruct (comb_add s (cy e) c (cy q) Fs Fe2 Fc Fq2 ltac:(apply P; assumption)) as [G5 W5].
  destruct (comb_add s (cz e) c (cz q) Fs Fe3 Fc Fq3 ltac:(apply P; assumption)) as [G6 W6].
  set (x := val c) in *. set (y := val s) in *.
  set (X1 := vsub (vscale x (value e)) (vscale y (value q))). set (X2 := vadd (vscale y (value e)) (vscale x (value q))).
  assert (V1 : within (3 * hh) (value p1) X1).
  { unfold within, X1, p1, value, minus3, times3, vsub, vscale. cbn [cx cy cz vx vy vz]. repeat split; assumption. }
  assert (V2 : within (3 * hh) (value p2) X2).
  { unfold within, X2, p2, value, plus3, times3, vadd, vscale. cbn [cx cy cz vx vy vz]. repeat split; assumption. }
  assert (UX1 : dot (value u) X1 = x * dot (value u) (value e) - y * dot (value u) (value q)) by (unfold X1, dot, vsub, vscale; cbn [vx vy vz]; ring).
  assert (UX2 : dot (value u) X2 = y * dot (value u) (value e) + x * dot (value u) (value q)) by (unfold X2, dot, vadd, vscale; cbn [vx vy vz]; ring).
  set (M := dot (value e) (value e)) in *. set (K := dot (value q) (value q)) in *. set (L := dot (value e) (value q)) in *.
  assert (D1 : dot X1 X1 = x * x * M + y * y * K - 2 * (x * y * L)) by (unfold X1, M, K, L, dot, vsub, vscale; cbn [vx vy vz]; ring).
  assert (D2 : dot X2 X2 = y * y * M + x * x * K + 2 * (x * y * L)) by (unfold X2, M, K, L, dot, vadd, vscale; cbn [vx vy vz]; ring).
  assert (D12 : dot X1 X2 = x * y * (M - K) + (x * x - y * y) * L) by (unfold X1, X2, M, K, L, dot, vadd, vsub, vscale; cbn [vx vy vz]; ring).
  set (ue := dot (value u) (value e)) in *. set (uq := dot (value u) (value q)) in *.
  apply Rabs_le_inv in De. apply Rabs_le_inv in Dq. apply Rabs_le_inv in R2.
  assert (XY : Rabs (x * y) <= 6/10). { pose proof (Rle_0_sqr (x - y)) as H1. pose proof (Rle_0_sqr (x + y)) as H2. unfold Rsqr in H1, H2. apply Rabs_le. lra. }
  assert (X0 : 0 <= x * x) by (apply Rle_0_sqr). assert (Y0 : 0 <= y * y) by (apply Rle_0_sqr).
  assert (XX : 0 <= x * x <= 11/10) by lra. assert (YY : 0 <= y * y <= 11/10) by lra.
  assert (T1 : Rabs (x * y * L) <= 6/10 * (10 * hh)) by (apply mul_abs; assumption).
  assert (AX : Rabs (x * x) <= 11/10) by (apply Rabs_le; lra). assert (AY : Rabs (y * y) <= 11/10) by (apply Rabs_le; lra).
  assert (AM : Rabs (M - 1) <= 2 * hh) by (apply Rabs_le; lra). assert (AK : Rabs (K - 1) <= 45 * hh) by (apply Rabs_le; lra).
  pose proof (mul_abs _ _ _ _ AX AM) as O1. pose proof (mul_abs _ _ _ _ AY AK) as O2. pose proof (mul_abs _ _ _ _ AY AM) as O3. pose proof (mul_abs _ _ _ _ AX AK) as O4.
  apply Rabs_le_inv in O1. apply Rabs_le_inv in O2. apply Rabs_le_inv in O3. apply Rabs_le_inv in O4.
  assert (T2 : - (52 * hh) <= x * x * (M - 1) + y * y * (K - 1) <= 52 * hh) by lra.
  assert (T3 : - (52 * hh) <= y * y * (M - 1) + x * x * (K - 1) <= 52 * hh) by lra.
  assert (Z1 : Rabs (dot X1 X1 - 1) <= 68 * hh).
  { rewrite D1. replace (x * x * M + y * y * K - 2 * (x * y * L) - 1) with ((x * x * (M - 1) + y * y * (K - 1)) + (x * x + y * y - 1) - 2 * (x * y * L)) by ring.
    set (a := x * y * L) in *. set (b := x * x * (M - 1) + y * y * (K - 1)) in *. set (d := x * x + y * y - 1) in *. clearbody a b d. apply Rabs_le_inv in T1. apply Rabs_le. lra. }
  assert (Z2 : Rabs (dot X2 X2 - 1) <= 68 * hh).
  { rewrite D2. replace (y * y * M + x * x * K + 2 * (x * y * L) - 1) with ((y * y * (M - 1) + x * x * (K - 1)) + (x * x + y * y - 1) + 2 * (x * y * L)) by ring.
    set (a := x * y * L) in *. set (b := y * y * (M - 1) + x * x * (K - 1)) in *. set (d := x * x + y * y - 1) in *. clearbody a b d. apply Rabs_le_inv in T1. apply Rabs_le. lra. }
  assert (Z12 : Rabs (dot X1 X2) <= 68 * hh).
  { rewrite D12. assert (MK : Rabs (M - K) <= 47 * hh) by (apply Rabs_le; lra). pose proof (mul_abs _ _ _ _ XY MK) as S1.
    assert (XD : Rabs (x * x - y * y) <= 11/10) by (apply Rabs_le; lra). pose proof (mul_abs _ _ _ _ XD Eq) as S2.
    eapply Rle_trans; [apply sum_abs; eassumption|]. lra. }
  assert (B1 : below (101/100) X1). { apply below_dot; [lra|]. apply Rabs_le_inv in Z1. lra. }
  assert (B2 : below (101/100) X2). { apply below_dot; [lra|]. apply Rabs_le_inv in Z2. lra. }
  assert (B1' : below (102/100) (value p1)). { eapply below_le; [|apply (below_within _ _ _ _ B1 V1)]. lra. }
  split; [repeat split; assumption|]. split; [repeat split; assumption|].
  split; [|split; [|split; [|split]]].
  - pose proof (dot_within _ _ _ _ _ BU V1) as S. rewrite UX1 in S. pose proof (mul_abs _ _ _ _ Rc Ue) as S1. pose proof (mul_abs _ _ _ _ Rs Uq) as S2.
    set (a := x * ue) in *. set (b := y * uq) in *. set (d := dot (value u) (value p1)) in *. clearbody a b d.
    apply Rabs_le_inv in S. apply Rabs_le_inv in S1. apply Rabs_le_inv in S2. apply Rabs_le. lra.
  - pose proof (dot_within _ _ _ _ _ BU V2) as S. rewrite UX2 in S. pose proof (mul_abs _ _ _ _ Rs Ue) as S1. pose proof (mul_abs _ _ _ _ Rc Uq) as S2.
    set (a := y * ue) in *. set (b := x * uq) in *. set (d := dot (value u) (value p2)) in *. clearbody a b d.
    apply Rabs_le_inv in S. apply Rabs_le_inv in S1. apply Rabs_le_inv in S2. apply Rabs_le. lra.
  - pose proof (dot_within _ _ _ _ _ B1' V2) as S1. pose proof (dot_within _ _ _ _ _ B2 V1) as S2.
    assert (Cm : forall a b, dot a b = dot b a) by (intros a b; unfold dot; ring). rewrite (Cm X2 (value p1)), (Cm X2 X1) in S2.
    set (a := dot (value p1) (value p2)) in *. set (b := dot (value p1) X2) in *. set (d := dot X1 X2) in *. clearbody a b d.
    apply Rabs_le_inv in Z12. apply Rabs_le_inv in S1. apply Rabs_le_inv in S2. apply Rabs_le. lra.
  - pose proof (sq_within _ _ _ _ B1 V1 ltac:(lra)) as S.
    set (a := dot (value p1) (value p1)) in *. set (b := dot X1 X1) in *. clearbody a b. apply Rabs_le_inv in S. apply Rabs_le_inv in Z1. apply Rabs_le. lra.
  - pose proof (sq_within _ _ _ _ B2 V2 ltac:(lra)) as S.
    set (a := dot (value p2) (value p2)) in *. set (b := dot X2 X2) in *. clearbody a b. apply Rabs_le_inv in S. apply Rabs_le_inv in Z2. apply Rabs_le. lra.
Qed.

Lemma uu_43 : / 2 ^ 43 = 1024 * uu.
Proof. rewrite <- bpow_neg_nat. change (- Z.of_nat 43)%Z with (10 + -53)%Z. rewrite bpow_plus. simpl (bpow radix2 10). reflexivity. Qed.

(** Node::setBasis in double precision: for every unit vector u and every angle, the two vectors are
    without infinity or NaN and form with u an orthonormal basis up to 2^-43, whichever way sums are ordered. *)
Theorem C96_basis : forall left u c s, unit64 u -> rotation c s ->
  finite3 (fst (set_basis left u c s)) /\ finite3 (snd (set_basis left u c s)) /\
  near_orthonormal (/ 2 ^ 43) (value u) (value (fst (set_basis left u c s))) (value (snd (set_basis left u c s))).
Proof.
  intros left u c s Hu Hr. destruct (stage_b left u Hu) as (Fe & De & Ue).
  destruct (stage_c u _ Hu Fe De Ue) as (Fq & Dq & Uq & Eq).
  destruct (stage_d u _ _ c s Hu Hr Fe Fq De Ue Dq Uq Eq) as (F1 & F2 & (N1 & N2 & N3 & N4 & N5)).
  split; [exact F1|]. split; [exact F2|]. rewrite uu_43. pose proof uu_small as Hs.
  unfold set_basis. cbn [fst snd]. repeat split; (eapply Rle_trans; [eassumption|lra]).
Qed.

(** ** the displacement *)
Lemma triple_error : forall u e dt g k a b s d D, 0 < u <= / 1000000 -> 0 < e -> Rabs dt <= 1 ->
  Rabs (a - g) <= u * Rabs g + e -> Rabs (b - k) <= u * Rabs k + e -> Rabs (s - (a + b)) <= u * Rabs (a + b) + e ->
  Rabs (d - dt * s) <= u * Rabs (dt * s) + e -> Rabs dt * Rabs g + Rabs dt * Rabs k <= D ->
  Rabs (d - dt * (g + k)) <= 7/2 * u * D + 5 * e.
Proof.
  intros u e dt g k a b s d D Hu He Ht Ea Eb Es Ed HD.
  assert (N1 : Rabs (a + b) <= (Rabs g + Rabs k) * (1 + u) + 2 * e).
  { replace (a + b) with ((a - g) + (b - k) + (g + k)) by ring. eapply Rle_trans; [apply sum_abs; [apply sum_abs; eassumption|apply Rabs_triang]|]. lra. }
  assert (N2' : Rabs (s - (g + k)) <= (Rabs g + Rabs k) * (201/100 * u) + 301/100 * e).
  { replace (s - (g + k)) with ((s - (a + b)) + ((a - g) + (b - k))) by ring. eapply Rle_trans; [apply sum_abs; [exact Es|apply sum_abs; eassumption]|].
    pose proof (Rabs_pos g) as P1. pose proof (Rabs_pos k) as P2. pose proof (Rabs_pos (a + b)) as P3.
    assert (u * Rabs (a + b) <= u * ((Rabs g + Rabs k) * (1 + u) + 2 * e)) by (apply Rmult_le_compat_l; lra).
    set (G := Rabs g) in *. set (K := Rabs k) in *. clearbody G K.
    assert (0 <= u * (G + K) * (/ 1000000 - u)) by (apply Rmult_le_pos; [apply Rmult_le_pos|]; lra). assert (0 <= e * (/ 1000000 - u)) by (apply Rmult_le_pos; lra).
    assert (0 <= u * (G + K)) by (apply Rmult_le_pos; lra). lra. }
  assert (N3 : Rabs (dt * s - dt * (g + k)) <= D * (201/100 * u) + 301/100 * e).
  { replace (dt * s - dt * (g + k)) with (dt * (s - (g + k))) by ring. rewrite Rabs_mult.
    pose proof (Rabs_pos dt) as P0. pose proof (Rabs_pos g) as P1. pose proof (Rabs_pos k) as P2.
    apply Rle_trans with (Rabs dt * ((Rabs g + Rabs k) * (201/100 * u) + 301/100 * e)); [apply Rmult_le_compat_l; assumption|].
    set (G := Rabs g) in *. set (K := Rabs k) in *. set (T := Rabs dt) in *. clearbody G K T.
    assert (0 <= u * (D - (T * G + T * K))) by (apply Rmult_le_pos; lra). assert (0 <= e * (1 - T)) by (apply Rmult_le_pos; lra). lra. }
  assert (N4 : Rabs (dt * (g + k)) <= D).
  { rewrite Rabs_mult. pose proof (Rabs_triang g k). pose proof (Rabs_pos dt). apply Rle_trans with (Rabs dt * (Rabs g + Rabs k)); [apply Rmult_le_compat_l; assumption|lra]. }
  assert (PD : 0 <= D) by (pose proof (Rabs_pos (dt * (g + k))); lra).
  assert (N5 : Rabs (dt * s) <= D * (1 + 201/100 * u) + 301/100 * e).
  { replace (dt * s) with ((dt * s - dt * (g + k)) + dt * (g + k)) by ring. eapply Rle_trans; [apply sum_abs; eassumption|]. lra. }
  replace (d - dt * (g + k)) with ((d - dt * s) + (dt * s - dt * (g + k))) by ring.
  eapply Rle_trans; [apply sum_abs; eassumption|].
  assert (u * Rabs (dt * s) <= u * (D * (1 + 201/100 * u) + 301/100 * e)) by (apply Rmult_le_compat_l; lra).
  set (X := Rabs (dt * s)) in *. clearbody X. clear - H Hu He PD.
  assert (0 <= u * D * (/ 1000000 - u)) by (apply Rmult_le_pos; [apply Rmult_le_pos|]; lra). assert (0 <= e * (/ 1000000 - u)) by (apply Rmult_le_pos; lra).
  assert (0 <= u * D) by (apply Rmult_le_pos; lra). lra.
Qed.

Lemma comp_error : forall (vp p vq q dt : b64), is_finite vp = true -> is_finite p = true -> is_finite vq = true -> is_finite q = true -> is_finite dt = true ->
  Rabs (B2R p) <= 101/100 -> Rabs (B2R q) <= 101/100 -> Rabs (B2R vp) <= bpow radix2 1000 -> Rabs (B2R vq) <= bpow radix2 1000 -> Rabs (B2R dt) <= 1 ->
  let d := nmul (dt : num B64) (nadd (nmul (vp : num B64) p) (nmul (vq : num B64) q)) in
  is_finite (d : b64) = true /\
  Rabs (val d - B2R dt * (B2R vp * B2R p + B2R vq * B2R q)) <= 4 * uu * (Rabs (B2R dt * B2R vp) + Rabs (B2R dt * B2R vq)) + 5 * ee.
Proof.
  intros vp p vq q dt Fvp Fp Fvq Fq Ft Hp Hq Hvp Hvq Ht d. pose proof uu_small as Hu.
  assert (He : 0 < ee <= / 1000). { split; [apply bpow_gt_0|]. apply Rle_trans with (bpow radix2 (-10)); [apply bpow_le; lia|simpl; lra]. }
  assert (B3 : bpow radix2 1003 = 8 * bpow radix2 1000) by (change 1003%Z with (3 + 1000)%Z; rewrite bpow_plus; reflexivity).
  assert (B1 : 1 <= bpow radix2 1000) by (change 1 with (bpow radix2 0); apply bpow_le; lia).
  assert (OK : forall x, Rabs x <= bpow radix2 1003 -> ok64 x) by (intros x H; apply ok64_small; apply Rle_trans with (1 := H); apply bpow_le; lia).
  rewrite B3 in OK. set (b := bpow radix2 1000) in *. clearbody b.
  pose proof (mul_abs _ _ _ _ Hvp Hp) as M1. pose proof (mul_abs _ _ _ _ Hvq Hq) as M2.
  destruct (Bmul64 vp p Fvp Fp) as [F1 V1]; [apply OK; lra|]. destruct (Bmul64 vq q Fvq Fq) as [F2 V2]; [apply OK; lra|].
  pose proof (TimeB64.err64 (B2R vp * B2R p)) as E1. pose proof (TimeB64.err64 (B2R vq * B2R q)) as E2.
  rewrite <- V1 in E1. rewrite <- V2 in E2. fold uu ee in E1, E2.
  unfold d. cbn [nmul nadd B64]. set (x := Bmult mode_NE vp p) in *. set (y := Bmult mode_NE vq q) in *.
  set (g := B2R vp * B2R p) in *. set (k := B2R vq * B2R q) in *.
  assert (X : Rabs (B2R x) <= 2 * b).
  { replace (B2R x) with ((B2R x - g) + g) by ring. eapply Rle_trans; [apply sum_abs; eassumption|]. pose proof (Rabs_pos g). nra. }
  assert (Y : Rabs (B2R y) <= 2 * b).
  { replace (B2R y) with ((B2R y - k) + k) by ring. eapply Rle_trans; [apply sum_abs; eassumption|]. pose proof (Rabs_pos k). nra. }
  pose proof (sum_abs _ _ _ _ X Y) as XY.
  destruct (Badd64 x y F1 F2) as [F3 V3]; [apply OK; lra|]. pose proof (TimeB64.err64 (B2R x + B2R y)) as E3. rewrite <- V3 in E3.
  set (z := Bplus mode_NE x y) in *.
  assert (Z : Rabs (B2R z) <= 6 * b).
  { replace (B2R z) with ((B2R z - (B2R x + B2R y)) + (B2R x + B2R y)) by ring. eapply Rle_trans; [apply sum_abs; eassumption|].
    pose proof (Rabs_pos (B2R x + B2R y)). change (bpow radix2 (-53)) with uu. change (bpow radix2 (-1075)) with ee. nra. }
  pose proof (mul_abs _ _ _ _ Ht Z) as TZ.
  destruct (Bmul64 dt z Ft F3) as [F4 V4]; [apply OK; lra|]. pose proof (TimeB64.err64 (B2R dt * B2R z)) as E4. rewrite <- V4 in E4.
  split; [exact F4|].
  set (P := Rabs (B2R dt * B2R vp)). set (Q := Rabs (B2R dt * B2R vq)).
  pose proof (triple_error uu ee (B2R dt) g k (B2R x) (B2R y) (B2R z) (B2R (Bmult mode_NE dt z)) (101/100 * (P + Q)) Hu (proj1 He) Ht E1 E2 E3 E4) as T.
  assert (HD : Rabs (B2R dt) * Rabs g + Rabs (B2R dt) * Rabs k <= 101/100 * (P + Q)).
  { rewrite <- !Rabs_mult. unfold g, k.
    replace (B2R dt * (B2R vp * B2R p)) with ((B2R dt * B2R vp) * B2R p) by ring. replace (B2R dt * (B2R vq * B2R q)) with ((B2R dt * B2R vq) * B2R q) by ring.
    rewrite (Rabs_mult (B2R dt * B2R vp)), (Rabs_mult (B2R dt * B2R vq)). fold P Q.
    assert (0 <= P) by apply Rabs_pos. assert (0 <= Q) by apply Rabs_pos. nra. }
  specialize (T HD). apply Rle_trans with (1 := T).
  assert (0 <= P) by apply Rabs_pos. assert (0 <= Q) by apply Rabs_pos. set (w := uu) in *. clearbody w P Q. nra.
Qed.

(** ** Specification: what one step is asked *)
(** the projections of the velocity and the time step are finite, the cosine and the sine are those of an
    angle, the time step is at most one second and the displacement at most 2^39 (5e11) radians *)
Definition moderate (k : kick B64) : Prop :=
  rotation (k_c k) (k_s k) /\ is_finite (k_vp k : b64) = true /\ is_finite (k_vq k : b64) = true /\ is_finite (k_dt k : b64) = true /\
  Rabs (val (k_dt k)) <= 1 /\ Rabs (val (k_vp k)) <= 2 ^ 1000 /\ Rabs (val (k_vq k)) <= 2 ^ 1000 /\
  Rabs (val (k_dt k) * val (k_vp k)) <= 2 ^ 39 /\ Rabs (val (k_dt k) * val (k_vq k)) <= 2 ^ 39.

Lemma drawn_ordinary : forall left u k, unit64 u -> moderate k -> ordinary (drawn left u k) u.
Proof.
  intros left u k Hu (Hr & Fp & Fq & Ft & Ht & Hp & Hq & Dp & Dq).
  destruct (C96_basis left u _ _ Hu Hr) as (FE & FQ & (N1 & N2 & _ & N4 & N5)).
  pose proof (unit_square u Hu) as QU. pose proof uu_small as Hs.
  assert (BU : below (101/100) (value u)). { apply below_dot; [lra|]. apply Rabs_le_inv in QU. lra. }
  assert (U43 : / 2 ^ 43 <= / 1000).
  { apply Rinv_le; [lra|]. replace 1000 with (2 ^ 10 - 24) by lra. assert (2 ^ 10 <= 2 ^ 43) by (apply Rle_pow; [lra|lia]). lra. }
  assert (P39 : 2 ^ 39 = bpow radix2 39) by (rewrite <- bpow_nat; reflexivity). rewrite P39 in Dp, Dq.
  assert (P40 : bpow radix2 39 * uu = / 16384). { rewrite <- bpow_plus. simpl. reflexivity. }
  assert (He : 0 < ee <= / 1000). { split; [apply bpow_gt_0|]. apply Rle_trans with (bpow radix2 (-10)); [apply bpow_le; lia|simpl; lra]. }
  assert (P248 : 2 ^ 248 = bpow radix2 209 * bpow radix2 39) by (rewrite <- bpow_plus, <- bpow_nat; reflexivity).
  assert (P209 : 4 <= bpow radix2 209) by (change 4 with (bpow radix2 2); apply bpow_le; lia).
  rewrite <- bpow_nat in Hp, Hq. change (Z.of_nat 1000) with 1000%Z in Hp, Hq.
  unfold ordinary, displacement, drawn. cbn [m_dt m_vp m_vq m_ep m_eq].
  set (p := fst (set_basis left u (k_c k) (k_s k))) in *. set (q := snd (set_basis left u (k_c k) (k_s k))) in *. clearbody p q.
  assert (BP : below (101/100) (value p)). { apply below_dot; [lra|]. apply Rabs_le_inv in N4. lra. }
  assert (BQ : below (101/100) (value q)). { apply below_dot; [lra|]. apply Rabs_le_inv in N5. lra. }
  pose proof BP as (P1 & P2 & P3). pose proof BQ as (Q1 & Q2 & Q3). unfold value in P1, P2, P3, Q1, Q2, Q3. cbn [vx vy vz] in P1, P2, P3, Q1, Q2, Q3.
  destruct FE as (FE1 & FE2 & FE3). destruct FQ as (FQ1 & FQ2 & FQ3).
  set (vp := k_vp k) in *. set (vq := k_vq k) in *. set (dt := k_dt k) in *.
  destruct (comp_error vp (cx p) vq (cx q) dt Fp FE1 Fq FQ1 Ft P1 Q1 Hp Hq Ht) as [G1 E1].
  destruct (comp_error vp (cy p) vq (cy q) dt Fp FE2 Fq FQ2 Ft P2 Q2 Hp Hq Ht) as [G2 E2].
  destruct (comp_error vp (cz p) vq (cz q) dt Fp FE3 Fq FQ3 Ft P3 Q3 Hp Hq Ht) as [G3 E3].
  set (d := times3 dt (step_v vp vq p q)) in *.
  set (D := vadd (vscale (val dt * val vp) (value p)) (vscale (val dt * val vq) (value q))).
  set (x := val dt * val vp) in *. set (y := val dt * val vq) in *.
  set (b := bpow radix2 39) in *.
  assert (Err : 4 * uu * (Rabs x + Rabs y) + 5 * ee <= / 100).
  { assert (uu * (Rabs x + Rabs y) <= uu * (2 * b)) by (apply Rmult_le_compat_l; lra). lra. }
  assert (W : within (/ 100) (value d) D).
  { unfold within, D, d, value, times3, step_v, plus3, times3, vadd, vscale. cbn [cx cy cz vx vy vz]. unfold x, y.
    rewrite !Rmult_assoc, <- !Rmult_plus_distr_l. repeat split; (eapply Rle_trans; [eassumption|exact Err]). }
  assert (BD : below (203/100 * b) D).
  { assert (A : forall a c, Rabs a <= 101/100 -> Rabs c <= 101/100 -> Rabs (x * a + y * c) <= 203/100 * b).
    { intros a c Ha Hc. assert (0 < b) by apply bpow_gt_0. eapply Rle_trans; [apply sum_abs; [exact (mul_abs _ _ _ _ Dp Ha)|exact (mul_abs _ _ _ _ Dq Hc)]|]. lra. }
    unfold below, D, vadd, vscale, value. cbn [vx vy vz]. repeat split; apply A; assumption. }
  pose proof (below_within _ _ _ _ BD W) as Bd.
  assert (LB : 203/100 * b + / 100 <= 2 ^ 248).
  { rewrite P248. assert (1 <= b) by (change 1 with (bpow radix2 0); apply bpow_le; lia). set (c := bpow radix2 209) in *. clearbody b c. nra. }
  destruct (below_le _ _ _ LB Bd) as (L1 & L2 & L3).
  split; [repeat split; assumption|]. split; [exact L1|]. split; [exact L2|]. split; [exact L3|].
  pose proof (dot_within _ _ _ _ _ BU W) as S.
  assert (UD : dot (value u) D = x * dot (value u) (value p) + y * dot (value u) (value q)) by (unfold D, dot, vadd, vscale; cbn [vx vy vz]; ring).
  rewrite UD in S. pose proof (mul_abs _ _ _ _ Dp N1) as S1. pose proof (mul_abs _ _ _ _ Dq N2) as S2.
  assert (B43 : b * / 2 ^ 43 = / 16). { rewrite uu_43. replace (b * (1024 * uu)) with (1024 * (b * uu)) by ring. rewrite P40. lra. }
  rewrite B43 in S1, S2. apply Rabs_le_inv in S. apply Rabs_le_inv in S1. apply Rabs_le_inv in S2. lra.
Qed.

(** One step of a run: the basis is computed from the magnetization, the solution of the linear system is arbitrary. *)
Theorem C96_kick_partial : forall left u k, unit64 u -> moderate k -> unit64 (moved left (drawn left u k) u).
Proof. intros left u k Hu Hk. apply C96_step_partial; [exact Hu|]. apply drawn_ordinary; assumption. Qed.

(** Any number of steps. *)
Theorem C96_run_partial : forall left ks u, unit64 u -> Forall moderate ks -> unit64 (run left ks u).
Proof.
  intros left ks. induction ks as [|k r IH]; intros u Hu H; [exact Hu|].
  inversion H as [|k' r' Hk Hr E]; subst. cbn [run]. apply IH; [|exact Hr]. apply C96_kick_partial; assumption.
Qed.

(** A run is a history in the sense of [C96_history_partial], with the bases of [set_basis]. *)
Theorem C96_run_history : forall left ks u, exists ms, length ms = length ks /\ run left ks u = history left ms u /\
  Forall (fun m => exists w c s, (m_ep m, m_eq m) = @set_basis B64 left w c s) ms.
Proof.
  intros left ks. induction ks as [|k r IH]; intros u.
  - exists []. repeat split. constructor.
  - destruct (IH (moved left (drawn left u k) u)) as (ms & L & E & F). exists (drawn left u k :: ms). cbn [run history length].
    split; [f_equal; exact L|]. split; [exact E|]. constructor; [|exact F]. exists u, (k_c k), (k_s k). unfold drawn. cbn [m_ep m_eq]. symmetry. apply surjective_pairing.
Qed.

(** With exact arithmetic the same text is [NodeModel.setBasis], the basis of C16-C19. *)
Lemma exact_normalize : forall left w, @normalize XA left (exact3 w) = exact3 (vnormalize w).
Proof.
  intros left w. pose proof (exact_step left w vzero 0) as E. unfold step_u in E.
  assert (P : @plus3 XA (exact3 w) (@times3 XA (Fin 0) (exact3 vzero)) = exact3 w).
  { unfold plus3, times3, exact3, vzero. cbn [cx cy cz vx vy vz nmul nadd XA xmul xadd]. rewrite Rmult_0_r, !Rplus_0_r. reflexivity. }
  rewrite P in E. rewrite E. f_equal. f_equal. destruct w as [a b c]. unfold vadd, vscale, vzero. cbn [vx vy vz]. rewrite Rmult_0_r, !Rplus_0_r. reflexivity.
Qed.
Lemma exact_unit : forall u, @unit_vector XA (min_index (exact3 u)) = exact3 (unit_far u).
Proof.
  intros [x y z]. unfold min_index, exact3, unit_far. cbn [cx cy cz vx vy vz nabs XA xabs]. cbv zeta.
  assert (L : forall a b, nlt (Fin a : num XA) (Fin b) = if Rlt_dec a b then true else false).
  { intros a b. cbn [nlt XA xlt]. destruct (Rlt_dec a b) as [H|H]; [apply Rlt_bool_true; exact H|apply Rlt_bool_false; lra]. }
  assert (U : forall k l m : Z, @mkV3 XA (nZ k) (nZ l) (nZ m) = @mkV3 XA (Fin (IZR k)) (Fin (IZR l)) (Fin (IZR m))).
  { intros k l m. unfold nZ. cbn [nlit XA]. replace (IZR k / 1) with (IZR k) by field. replace (IZR l / 1) with (IZR l) by field. replace (IZR m / 1) with (IZR m) by field. reflexivity. }
  change (@nlt XA) with xlt in *. rewrite !L. destruct (Rlt_dec (Rabs y) (Rabs x)); [destruct (Rlt_dec (Rabs z) (Rabs y))|destruct (Rlt_dec (Rabs z) (Rabs x))]; cbn [unit_vector]; rewrite U; reflexivity.
Qed.
Theorem C96_same_basis : forall left n r,
  @set_basis XA left (exact3 (d_u (cur n))) (Fin (cos r)) (Fin (sin r)) = (exact3 (ep (setBasis false r n)), exact3 (eq_ (setBasis false r n))).
Proof.
  intros left n r. unfold set_basis, setBasis. cbn [ep eq_]. cbv zeta. set (u := d_u (cur n)). rewrite exact_unit. set (a := unit_far u).
  assert (D : @dot3 XA left (exact3 a) (exact3 u) = (Fin (dot a u) : num XA)).
  { unfold dot3, dot, exact3. cbn [cx cy cz nmul nadd XA xmul xadd]. destruct left; f_equal; ring. }
  rewrite D.
  assert (G : @minus3 XA (exact3 a) (@times3 XA (Fin (dot a u)) (exact3 u)) = exact3 (vsub a (vscale (dot a u) u))) by reflexivity.
  rewrite G, exact_normalize. set (e := vnormalize (vsub a (vscale (dot a u) u))). reflexivity.
Qed.

(** ** Non-vacuity: a quarter of a turn (cosine 0, sine 1), and 1e9 rad/s during 2^-30 s *)
Definition spin : kick B64 := @mkKick B64 (b64_of_Z 1000000000) (b64_of_Z (-3)) (b64_of_Z 0) (b64_of_Z 1) (@nlit B64 1 1073741824).
Lemma quarter : rotation (b64_of_Z 0) (b64_of_Z 1).
Proof.
  destruct (B64_int 0 ltac:(lia)) as [F0 V0]. destruct (B64_int 1 ltac:(lia)) as [F1 V1].
  assert (P : 0 <= / 2 ^ 52) by (left; apply Rinv_0_lt_compat; apply pow_lt; lra).
  split; [exact F0|]. split; [exact F1|]. exists (PI / 2). rewrite cos_PI2, sin_PI2. cbn [nZ nlit B64] in V0, V1.
  rewrite (proj2 (b64_of_Z_correct 0 ltac:(lia))), (proj2 (b64_of_Z_correct 1 ltac:(lia))).
  split; match goal with |- Rabs ?x <= _ => replace x with 0 by ring end; rewrite Rabs_R0; exact P.
Qed.
Example C96_run_nonvacuous : unit64 (z3 1 0 0) /\ Forall moderate [spin; spin; spin] /\
  let r := run true [spin; spin; spin] (z3 1 0 0) in Bltb (cx r : b64) (b64_of_Z 1) = true /\ Bltb (Babs (cy r : b64)) (b64_of_Z 1) = true.
Proof.
  split; [exact unit_x|]. split.
  - assert (M : moderate spin).
    { unfold moderate, spin. cbn [k_c k_s k_vp k_vq k_dt]. split; [exact quarter|].
      destruct (b64_of_Z_correct 1000000000 ltac:(lia)) as [F1 V1]. destruct (b64_of_Z_correct (-3) ltac:(lia)) as [F2 V2].
      assert (VT : val (@nlit B64 1 1073741824) = / 1073741824).
      { b2r (S754_finite false 4503599627370496 (-82)). unfold SF2R, F2R. cbn [Fnum Fexp cond_Zopp].
        change (bpow radix2 (-82)) with (/ IZR (Z.pow_pos 2 82)). change (Z.pow_pos 2 82) with (4503599627370496 * 1073741824)%Z. rewrite mult_IZR. field. }
      assert (FT : is_finite (@nlit B64 1 1073741824 : b64) = true) by (vm_compute; reflexivity).
      assert (P : 2 ^ 35 <= 2 ^ 1000) by (apply Rle_pow; [lra|lia]). assert (P' : 2 ^ 35 <= 2 ^ 39) by (apply Rle_pow; [lra|lia]).
      assert (P0 : 1000000000 <= 2 ^ 35) by lra.
      rewrite V1, V2, VT. repeat split; try assumption; apply Rabs_le; lra. }
    apply Forall_cons; [exact M|]. apply Forall_cons; [exact M|]. apply Forall_cons; [exact M|apply Forall_nil].
  - split; vm_compute; reflexivity.
Qed.

Print Assumptions C96_basis.
Print Assumptions C96_kick_partial.
Print Assumptions C96_run_partial.
Print Assumptions C96_run_history.
Print Assumptions C96_same_basis.
