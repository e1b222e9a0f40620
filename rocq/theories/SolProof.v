(** * Lemmas about printed numbers *)
From Coq Require Import String Ascii Reals ZArith Bool List Lia Lra.
From Flocq Require Import Core BinarySingleNaN.
From Flocq Require Calc.Div Calc.Bracket.
From Verif Require Import Arith ArithLaws TextModel SolModel.
Import ListNotations.
Open Scope Z_scope.

(** ** digits *)
Lemma digit_ok d : 0 <= d < 10 -> is_digit (digit d) = true /\ digit_val (digit d) = d /\ is_space (digit d) = false
  /\ Ascii.eqb (digit d) "-"%char = false /\ Ascii.eqb (digit d) "+"%char = false /\ Ascii.eqb (digit d) "#"%char = false /\ Ascii.eqb (digit d) NL = false.
Proof.
  intros H. assert (D : d = 0 \/ d = 1 \/ d = 2 \/ d = 3 \/ d = 4 \/ d = 5 \/ d = 6 \/ d = 7 \/ d = 8 \/ d = 9) by lia.
  repeat destruct D as [D|D]; subst d; repeat split; reflexivity.
Qed.

Lemma digits_length n : forall z, List.length (digits n z) = n.
Proof. induction n as [|n IH]; intros z; [reflexivity|]. cbn [digits]. rewrite app_length, IH. cbn. lia. Qed.

Lemma digits_Forall n : forall z, Forall (fun c => is_digit c = true) (digits n z).
Proof.
  induction n as [|n IH]; intros z; [constructor|]. cbn [digits]. apply Forall_app. split; [apply IH|]. constructor; [|constructor].
  apply digit_ok. apply Z.mod_pos_bound. lia.
Qed.

Lemma digits_val_app s t : digits_val (s ++ t) = digits_val s * 10 ^ Z.of_nat (List.length t) + digits_val t.
Proof.
  unfold digits_val. rewrite fold_left_app. generalize (fold_left (fun v c => 10 * v + digit_val c) s 0). intros v.
  assert (G : forall t v w, fold_left (fun v c => 10 * v + digit_val c) t (v + w) = v * 10 ^ Z.of_nat (List.length t) + fold_left (fun v c => 10 * v + digit_val c) t w).
  { clear. induction t as [|c t IH]; intros v w; cbn [fold_left List.length]. { change (10 ^ Z.of_nat 0) with 1. lia. }
    replace (10 * (v + w) + digit_val c) with (10 * v + (10 * w + digit_val c)) by ring. rewrite IH.
    rewrite Nat2Z.inj_succ, Z.pow_succ_r by lia. ring. }
  rewrite <- (Z.add_0_r v) at 1. apply G.
Qed.

Lemma digits_val_digits n : forall z, 0 <= z -> digits_val (digits n z) = z mod 10 ^ Z.of_nat n.
Proof.
  induction n as [|n IH]; intros z Hz. { cbn. symmetry. apply Z.mod_1_r. }
  cbn [digits]. rewrite digits_val_app. rewrite IH by (apply Z.div_pos; lia). cbn [List.length]. change (10 ^ Z.of_nat 1) with 10.
  replace (digits_val [digit (z mod 10)]) with (z mod 10).
  2:{ unfold digits_val. cbn [fold_left]. rewrite (proj1 (proj2 (digit_ok (z mod 10) (Z.mod_pos_bound z 10 ltac:(lia))))). lia. }
  rewrite Nat2Z.inj_succ, Z.pow_succ_r by lia. rewrite Z.rem_mul_r by lia. ring.
Qed.

Definition stops (s : text) : Prop := match s with c :: _ => is_digit c = false | [] => True end.

Lemma span_app ds s : Forall (fun c => is_digit c = true) ds -> stops s -> span (ds ++ s) = (ds, s).
Proof.
  intros H Hs. induction H as [|c ds Hc H IH]; cbn [app span].
  - destruct s as [|c s]; [reflexivity|]. cbn in Hs. cbn [span]. now rewrite Hs.
  - rewrite Hc, IH. reflexivity.
Qed.

Lemma span_digits n z s : stops s -> span (digits n z ++ s) = (digits n z, s).
Proof. intros H. apply span_app; [apply digits_Forall|exact H]. Qed.

Lemma ndigits_pos z : (0 < ndigits z)%nat.
Proof. unfold ndigits. lia. Qed.

Lemma ndigits_bound z : 0 <= z -> z < 10 ^ Z.of_nat (ndigits z).
Proof.
  intros H. unfold ndigits. rewrite Z2Nat.id by lia. pose proof (Zdigits_correct radix10 z) as (_ & K).
  rewrite Z.abs_eq in K by exact H. eapply Z.lt_le_trans; [exact K|]. change (Zpower radix10 (Zdigits radix10 z)) with (10 ^ (Zdigits radix10 z)).
  apply Z.pow_le_mono_r; lia.
Qed.

Lemma digits_head n z : (0 < n)%nat -> exists c l, digits n z = c :: l /\ is_digit c = true /\ is_space c = false
  /\ Ascii.eqb c "-"%char = false /\ Ascii.eqb c "+"%char = false /\ Ascii.eqb c "#"%char = false /\ Ascii.eqb c NL = false.
Proof.
  revert z. induction n as [|n IH]; intros z Hn; [lia|]. cbn [digits]. destruct n as [|n].
  - exists (digit (z mod 10)), []. destruct (digit_ok (z mod 10) (Z.mod_pos_bound z 10 ltac:(lia))) as (H1 & _ & H). cbn [digits app]. tauto.
  - destruct (IH (z / 10)) as (c & l & E & H); [lia|]. rewrite E. cbn [app]. eauto.
Qed.

(** ** integers *)
Lemma read_unsigned_print i s : 0 <= i < 2 ^ 32 -> stops s -> read_unsigned (print_nat i ++ s) = (i, Some s).
Proof.
  intros Hi Hs. unfold read_unsigned, print_nat. destruct (digits_head (ndigits i) i (ndigits_pos i)) as (c & l & E & H1 & H2 & H3 & H4 & _).
  assert (W : skip_ws (digits (ndigits i) i ++ s) = digits (ndigits i) i ++ s) by (rewrite E; cbn [app skip_ws]; now rewrite H2).
  rewrite W. assert (T : take_sign (digits (ndigits i) i ++ s) = (false, digits (ndigits i) i ++ s)) by (rewrite E; cbn [app take_sign]; now rewrite H3, H4).
  rewrite T, span_digits by exact Hs. rewrite digits_val_digits by lia. rewrite Z.mod_small by (split; [lia|apply ndigits_bound; lia]).
  rewrite E. replace (i <? 2 ^ 32) with true by (symmetry; apply Z.ltb_lt; lia). reflexivity.
Qed.

(** ** rounding to nearest *)
Lemma rdiv_spec a b : 0 < b -> rdiv a b = ZnearestE (IZR a / IZR b).
Proof.
  intros Hb. assert (Hb' : (0 < IZR b)%R) by (now apply IZR_lt). unfold rdiv, Znearest.
  assert (F : Zfloor (IZR a / IZR b) = a / b) by (apply Zfloor_div; lia).
  assert (D : (IZR a / IZR b - IZR (a / b) = IZR (a mod b) / IZR b)%R).
  { pose proof (Z.div_mod a b ltac:(lia)) as E. apply (f_equal IZR) in E. rewrite plus_IZR, mult_IZR in E. rewrite E at 1. field. lra. }
  assert (C : Rcompare (IZR a / IZR b - IZR (Zfloor (IZR a / IZR b))) (/ 2) = Z.compare (2 * (a mod b)) b).
  { rewrite F, D. rewrite <- (Rcompare_mult_r (2 * IZR b)) by lra.
    replace (IZR (a mod b) / IZR b * (2 * IZR b))%R with (IZR (2 * (a mod b))) by (rewrite mult_IZR; field; lra).
    replace (/ 2 * (2 * IZR b))%R with (IZR b) by field. apply Rcompare_IZR. }
  assert (Ce : (2 * (a mod b) ?= b) <> Lt -> Zceil (IZR a / IZR b) = a / b + 1).
  { intros H. rewrite Zceil_floor_neq; [now rewrite F|]. rewrite F. intros K. apply H. rewrite Z.compare_lt_iff.
    assert (M0 : a mod b = 0); [|rewrite M0; lia]. apply eq_IZR. replace (IZR (a mod b)) with (IZR (a mod b) / IZR b * IZR b)%R by (field; lra). rewrite <- D, <- K. ring. }
  rewrite C, F. clear C. destruct (2 * (a mod b) ?= b) eqn:E.
  - rewrite Ce by discriminate. destruct (Z.even (a / b)); reflexivity.
  - reflexivity.
  - now rewrite Ce by discriminate.
Qed.

Lemma pow10_bpow k : 0 <= k -> IZR (pow10 k) = bpow radix10 k.
Proof. intros H. unfold pow10. now rewrite IZR_Zpower. Qed.

Lemma pow10_pos k : 0 <= k -> 0 < pow10 k.
Proof. intros H. unfold pow10. apply Zpower_gt_0. exact H. Qed.

Lemma ilog10_spec a b : 0 < a -> 0 < b -> (bpow radix10 (ilog10 a b) <= IZR a / IZR b < bpow radix10 (ilog10 a b + 1))%R.
Proof.
  intros Ha Hb. assert (Ha' : (0 < IZR a)%R) by now apply IZR_lt. assert (Hb' : (0 < IZR b)%R) by now apply IZR_lt.
  unfold ilog10. set (da := Zdigits radix10 a). set (db := Zdigits radix10 b). set (d := da - db).
  destruct (Zdigits_correct radix10 a) as (A1 & A2). destruct (Zdigits_correct radix10 b) as (B1 & B2).
  rewrite Z.abs_eq in A1, A2, B1, B2 by lia. fold da in A1, A2. fold db in B1, B2.
  assert (Pa : 0 < da) by (apply Zdigits_gt_0; lia). assert (Pb : 0 < db) by (apply Zdigits_gt_0; lia).
  apply IZR_le in A1, B1. apply IZR_lt in A2, B2. rewrite IZR_Zpower in A1, A2, B1, B2 by lia.
  assert (U : (IZR a / IZR b < bpow radix10 (d + 1))%R).
  { apply (Rmult_lt_reg_r (IZR b)); [exact Hb'|]. replace (IZR a / IZR b * IZR b)%R with (IZR a) by (field; lra).
    eapply Rlt_le_trans; [exact A2|]. replace da with ((d + 1) + (db - 1)) by (unfold d; lia). rewrite bpow_plus.
    apply Rmult_le_compat_l; [apply bpow_ge_0|exact B1]. }
  assert (L : (bpow radix10 (d - 1) < IZR a / IZR b)%R).
  { apply (Rmult_lt_reg_r (IZR b)); [exact Hb'|]. replace (IZR a / IZR b * IZR b)%R with (IZR a) by (field; lra).
    eapply Rlt_le_trans; [|exact A1]. replace (da - 1) with ((d - 1) + db) by (unfold d; lia). rewrite bpow_plus.
    apply Rmult_lt_compat_l; [apply bpow_gt_0|exact B2]. }
  assert (T : (if 0 <=? d then b * pow10 d <=? a else b <=? a * pow10 (- d)) = Rle_bool (bpow radix10 d) (IZR a / IZR b)).
  { destruct (Z.leb_spec 0 d) as [H|H].
    - destruct (Z.leb_spec (b * pow10 d) a) as [K|K]; symmetry.
      + apply Rle_bool_true. apply IZR_le in K. rewrite mult_IZR, pow10_bpow in K by exact H.
        apply (Rmult_le_reg_r (IZR b)); [exact Hb'|]. replace (IZR a / IZR b * IZR b)%R with (IZR a) by (field; lra). lra.
      + apply Rle_bool_false. apply IZR_lt in K. rewrite mult_IZR, pow10_bpow in K by exact H.
        apply (Rmult_lt_reg_r (IZR b)); [exact Hb'|]. replace (IZR a / IZR b * IZR b)%R with (IZR a) by (field; lra). lra.
    - assert (P : (0 < bpow radix10 (- d))%R) by apply bpow_gt_0. replace d with (- - d) at 2 by lia. rewrite (bpow_opp radix10 (- d)).
      destruct (Z.leb_spec b (a * pow10 (- d))) as [K|K]; symmetry.
      + apply Rle_bool_true. apply IZR_le in K. rewrite mult_IZR, pow10_bpow in K by lia.
        apply (Rmult_le_reg_r (IZR b * bpow radix10 (- d))); [nra|].
        replace (/ bpow radix10 (- d) * (IZR b * bpow radix10 (- d)))%R with (IZR b) by (field; lra).
        replace (IZR a / IZR b * (IZR b * bpow radix10 (- d)))%R with (IZR a * bpow radix10 (- d))%R by (field; lra). exact K.
      + apply Rle_bool_false. apply IZR_lt in K. rewrite mult_IZR, pow10_bpow in K by lia.
        apply (Rmult_lt_reg_r (IZR b * bpow radix10 (- d))); [nra|].
        replace (/ bpow radix10 (- d) * (IZR b * bpow radix10 (- d)))%R with (IZR b) by (field; lra).
        replace (IZR a / IZR b * (IZR b * bpow radix10 (- d)))%R with (IZR a * bpow radix10 (- d))%R by (field; lra). exact K. }
  rewrite T. destruct (Rle_bool_spec (bpow radix10 d) (IZR a / IZR b)) as [H|H]; [lra|].
  replace (d - 1 + 1) with d by lia. lra.
Qed.

(** rounding to [q] significant decimal digits *)
Definition rnd10 (q : Z) (x : R) : R := round radix10 (FLX_exp q) ZnearestE x.

Lemma sig_digits_spec p a b n k : 0 <= p -> 0 < a -> 0 < b -> sig_digits p a b = (n, k) ->
  pow10 p <= n < pow10 (p + 1) /\ (IZR n * bpow radix10 (k - p) = rnd10 (p + 1) (IZR a / IZR b))%R.
Proof.
  intros Hp Ha Hb. assert (Ha' : (0 < IZR a)%R) by now apply IZR_lt. assert (Hb' : (0 < IZR b)%R) by now apply IZR_lt.
  unfold sig_digits. set (l := ilog10 a b). destruct (ilog10_spec a b Ha Hb) as (L1 & L2). fold l in L1, L2.
  set (x := (IZR a / IZR b)%R) in *.
  set (m := if 0 <=? p - l then rdiv (a * pow10 (p - l)) b else rdiv a (b * pow10 (l - p))).
  assert (Em : m = ZnearestE (x * bpow radix10 (p - l))).
  { unfold m. destruct (Z.leb_spec 0 (p - l)) as [H|H].
    - rewrite rdiv_spec by exact Hb. f_equal. unfold x. rewrite mult_IZR, pow10_bpow by exact H. field. lra.
    - assert (Pp : 0 < pow10 (l - p)) by (apply pow10_pos; lia).
      rewrite rdiv_spec by nia. f_equal. unfold x. rewrite mult_IZR, pow10_bpow by lia. replace (p - l) with (- (l - p)) by lia.
      rewrite bpow_opp. pose proof (bpow_gt_0 radix10 (l - p)). field. lra. }
  assert (Hx : (0 < x)%R) by (unfold x; apply Rdiv_lt_0_compat; assumption).
  assert (Mg : mag radix10 x = (l + 1)%Z :> Z). { apply mag_unique_pos. replace (l + 1 - 1) with l by lia. split; assumption. }
  assert (Er : (rnd10 (p + 1) x = IZR m * bpow radix10 (l - p))%R).
  { unfold rnd10, round, F2R, scaled_mantissa, cexp, FLX_exp. cbn [Fnum Fexp]. rewrite Mg. replace (l + 1 - (p + 1)) with (l - p) by lia.
    replace (- (l - p)) with (p - l) by lia. now rewrite <- Em. }
  assert (B : (bpow radix10 p <= x * bpow radix10 (p - l) < bpow radix10 (p + 1))%R).
  { pose proof (bpow_gt_0 radix10 (p - l)) as P. split.
    - replace p with (l + (p - l)) at 1 by lia. rewrite bpow_plus. apply Rmult_le_compat_r; lra.
    - replace (p + 1) with ((l + 1) + (p - l)) by lia. rewrite bpow_plus. apply Rmult_lt_compat_r; lra. }
  assert (Bm : pow10 p <= m <= pow10 (p + 1)).
  { rewrite Em. split.
    - rewrite <- (Zrnd_IZR ZnearestE (pow10 p)). apply Zrnd_le; [typeclasses eauto|]. rewrite pow10_bpow by lia. apply B.
    - rewrite <- (Zrnd_IZR ZnearestE (pow10 (p + 1))). apply Zrnd_le; [typeclasses eauto|]. rewrite pow10_bpow by lia. apply Rlt_le, B. }
  destruct (Z.eqb_spec m (pow10 (p + 1))) as [E|E]; intros H; injection H as <- <-.
  - split. { split; [lia|]. unfold pow10. apply Zpower_lt; lia. }
    rewrite Er, E. rewrite !pow10_bpow by lia. rewrite <- !bpow_plus. f_equal. lia.
  - split; [lia|]. now rewrite Er.
Qed.

(** ** the nearest double *)
Lemma sf_to_b64_ok z (H : SpecFloat.valid_binary 53 1024 z = true) : sf_to_b64 z = SF2B z H.
Proof.
  unfold sf_to_b64.
  assert (G : forall b (E : SpecFloat.valid_binary 53 1024 z = b), b = true ->
    (match b as b0 return SpecFloat.valid_binary 53 1024 z = b0 -> b64 with true => fun H0 => SF2B z H0 | false => fun _ => B754_nan end E) = SF2B z H).
  { intros b E Hb. destruct b; [|discriminate]. f_equal. apply Eqdep_dec.UIP_dec. apply bool_dec. }
  apply G. exact H.
Qed.

Lemma of_decimal_spec s a k : 0 <= a -> let r := (IZR a * bpow radix10 k)%R in ok64 r ->
  is_finite (of_decimal s a k) = true /\ B2R (of_decimal s a k) = (if s then - rnd64 r else rnd64 r)%R /\ Bsign (of_decimal s a k) = s.
Proof.
  intros Ha r Hr. unfold of_decimal. destruct (Z.eqb_spec a 0) as [->|Hn].
  - unfold r. rewrite Rmult_0_l, rnd64_0. cbn. destruct s; repeat split; lra.
  - set (x := Float radix2 (a * (if 0 <=? k then pow10 k else 1)) 0). set (y := Float radix2 (if 0 <=? k then 1 else pow10 (- k)) 0).
    assert (Fx : F2R x = IZR (a * (if 0 <=? k then pow10 k else 1))) by (unfold x, F2R; cbn [Fnum Fexp bpow]; ring).
    assert (Fy : F2R y = IZR (if 0 <=? k then 1 else pow10 (- k))) by (unfold y, F2R; cbn [Fnum Fexp bpow]; ring).
    assert (Px : (0 < F2R x)%R). { rewrite Fx. apply IZR_lt. destruct (Z.leb_spec 0 k); [pose proof (pow10_pos k)|]; nia. }
    assert (Py : (0 < F2R y)%R). { rewrite Fy. apply IZR_lt. destruct (Z.leb_spec 0 k); [lia|]. apply pow10_pos. lia. }
    assert (E : (F2R x / F2R y = r)%R).
    { rewrite Fx, Fy. unfold r. destruct (Z.leb_spec 0 k) as [K|K].
      - rewrite mult_IZR, pow10_bpow by exact K. field.
      - rewrite Z.mul_1_r. rewrite pow10_bpow by lia. rewrite bpow_opp. field. pose proof (bpow_gt_0 radix10 k). lra. }
    pose proof (Flocq.Calc.Div.Fdiv_correct fexp64 x y Px Py) as C. destruct (Flocq.Calc.Div.Fdiv fexp64 x y) as ((m, e), l).
    rewrite E in C. destruct C as (C1 & C2). assert (Rp : (0 < r)%R) by (rewrite <- E; apply Rdiv_lt_0_compat; assumption).
    set (r' := (if s then - r else r)%R).
    assert (Sg : Rlt_bool r' 0 = s) by (unfold r'; destruct s; [apply Rlt_bool_true|apply Rlt_bool_false]; lra).
    assert (Ab : Rabs r' = r) by (unfold r'; destruct s; [rewrite Rabs_Ropp|]; apply Rabs_pos_eq; lra).
    pose proof (binary_round_aux_correct' 53 1024 prec53 emax1024 mode_NE r' m e l) as Q. cbv zeta in Q. rewrite Sg in Q.
    destruct Q as (Q1 & Q2); [unfold r'; destruct s; lra|rewrite Ab; exact C2|rewrite <- cexp_abs, Ab; exact C1|].
    rewrite Rlt_bool_true in Q2.
    2:{ change (Rabs (rnd64 r') < bpow radix2 1024)%R. rewrite rnd64_abs, Ab. unfold ok64 in Hr. rewrite rnd64_abs, (Rabs_pos_eq r) in Hr by lra. exact Hr. }
    destruct Q2 as (Q2 & Q3 & Q4). rewrite (sf_to_b64_ok _ Q1). rewrite is_finite_SF2B, B2R_SF2B, Bsign_SF2B. split; [exact Q3|]. split; [|exact Q4].
    rewrite Q2. change (round_mode mode_NE) with ZnearestE. fold (rnd64 r'). unfold r'. destruct s; [apply rnd64_opp|reflexivity].
Qed.

(** ** printed numbers read back *)
Lemma mantissa_val p n : 0 <= n < pow10 (Z.of_nat p + 1) ->
  digits_val (digits 1 (n / pow10 (Z.of_nat p)) ++ digits p n) = n.
Proof.
  intros H. assert (P : 0 < pow10 (Z.of_nat p)) by (apply pow10_pos; lia).
  assert (E : pow10 (Z.of_nat p + 1) = 10 * pow10 (Z.of_nat p)).
  { unfold pow10. rewrite Zpower_plus by lia. change (Zpower radix10 1) with 10. ring. }
  assert (Q : 0 <= n / pow10 (Z.of_nat p)) by (apply Z.div_pos; lia).
  rewrite digits_val_app, digits_length, (digits_val_digits 1) by exact Q. rewrite (digits_val_digits p) by lia.
  change (10 ^ Z.of_nat 1) with 10. change (10 ^ Z.of_nat p) with (pow10 (Z.of_nat p)).
  rewrite (Z.mod_small (n / pow10 (Z.of_nat p))). 2:{ split; [exact Q|]. apply Z.div_lt_upper_bound; [exact P|]. rewrite Z.mul_comm, <- E. apply H. }
  rewrite Z.mul_comm. symmetry. apply Z.div_mod. lia.
Qed.

Lemma scan_print s p n rest : 0 <= n < pow10 (Z.of_nat p + 1) ->
  scan_mantissa (print_sign s ++ print_mantissa p n ++ "e"%char :: rest) = Some (s, n, - Z.of_nat p, "e"%char :: rest).
Proof.
  intros H. unfold scan_mantissa. set (M := print_mantissa p n ++ "e"%char :: rest).
  set (d := digits 1 (n / pow10 (Z.of_nat p))).
  assert (EM : M = d ++ match p with O => "e"%char :: rest | _ => "."%char :: digits p n ++ "e"%char :: rest end).
  { unfold M, print_mantissa. rewrite <- app_assoc. destruct p; [reflexivity|]. cbn [app]. reflexivity. }
  assert (T : take_sign (print_sign s ++ M) = (s, M)).
  { destruct s; [reflexivity|]. destruct (digits_head 1 (n / pow10 (Z.of_nat p)) ltac:(lia)) as (c & l & E & _ & _ & H3 & H4 & _).
    fold d in E. rewrite EM, E. cbn [print_sign app take_sign]. now rewrite H3, H4. }
  rewrite T, EM. rewrite span_app; [|apply digits_Forall|destruct p; reflexivity].
  pose proof (mantissa_val p n H) as V. fold d in V. destruct p as [|p].
  - change (Ascii.eqb "e"%char "."%char) with false. cbv iota. cbn [digits] in V.
    destruct (d ++ []) eqn:E. { unfold d in E. discriminate. } rewrite V. reflexivity.
  - change (Ascii.eqb "."%char "."%char) with true. cbv iota. rewrite span_digits by reflexivity.
    destruct (d ++ digits (S p) n) eqn:E. { unfold d in E. cbn in E. discriminate. } rewrite V, digits_length. reflexivity.
Qed.

Lemma skip_print s p n t : skip_ws (print_sign s ++ print_mantissa p n ++ t) = print_sign s ++ print_mantissa p n ++ t.
Proof.
  destruct s; [reflexivity|]. unfold print_mantissa. destruct (digits_head 1 (n / pow10 (Z.of_nat p)) ltac:(lia)) as (c & l & E & _ & H2 & _).
  rewrite E. cbn [print_sign app skip_ws]. now rewrite H2.
Qed.

Lemma exp_print k s : stops s ->
  let '(se, s1) := take_sign (tl (print_exp k ++ s)) in
  let '(ex, s2) := span s1 in
  ex <> [] /\ s2 = s /\ (if se then - digits_val ex else digits_val ex) = k.
Proof.
  intros Hs. unfold print_exp. cbn [app tl].
  assert (T : take_sign ((if k <? 0 then "-"%char else "+"%char) :: digits (Nat.max 2 (ndigits (Z.abs k))) (Z.abs k) ++ s)
     = (k <? 0, digits (Nat.max 2 (ndigits (Z.abs k))) (Z.abs k) ++ s)) by (destruct (k <? 0); reflexivity).
  rewrite T, span_digits by exact Hs. split.
  - intros E. apply (f_equal (@List.length _)) in E. rewrite digits_length in E. change (List.length (@nil ascii)) with 0%nat in E. lia.
  - split; [reflexivity|]. rewrite digits_val_digits by lia. rewrite Z.mod_small.
    2:{ split; [lia|]. eapply Z.lt_le_trans; [apply ndigits_bound; lia|]. apply Z.pow_le_mono_r; lia. }
    destruct (Z.ltb_spec k 0); lia.
Qed.

Lemma read_shape sg p n k s : 0 <= n < pow10 (Z.of_nat p + 1) -> stops s ->
  let r := (IZR n * bpow radix10 (k - Z.of_nat p))%R in ok64 r ->
  exists y, read_double (print_sign sg ++ print_mantissa p n ++ print_exp k ++ s) = (y, Some s)
    /\ is_finite y = true /\ B2R y = (if sg then - rnd64 r else rnd64 r)%R /\ Bsign y = sg.
Proof.
  intros Hn Hs r Hr. unfold read_double. rewrite skip_print. pose proof (exp_print k s Hs) as X. unfold print_exp in *. cbn [app tl] in X.
  cbn [app]. rewrite scan_print by exact Hn. change (is_e "e"%char) with true. cbv iota.
  destruct (take_sign _) as (se, s1). destruct (span s1) as (ex, s2). destruct X as (X1 & -> & X3). destruct ex as [|c ex]; [congruence|].
  rewrite X3. replace (- Z.of_nat p + k) with (k - Z.of_nat p) by lia. destruct (of_decimal_spec sg n (k - Z.of_nat p)) as (F & V & G); [lia|exact Hr|].
  cbv zeta. rewrite F. eauto.
Qed.

Lemma finite_ratio m e : let a := Zpos m * (if 0 <=? e then 2 ^ e else 1) in let b := if 0 <=? e then 1 else 2 ^ (- e) in
  0 < a /\ 0 < b /\ (IZR a / IZR b = F2R (Float radix2 (Zpos m) e))%R.
Proof.
  cbv zeta. destruct (Z.leb_spec 0 e) as [H|H].
  - assert (0 < 2 ^ e) by (apply Z.pow_pos_nonneg; lia). split; [lia|]. split; [lia|]. unfold F2R. cbn [Fnum Fexp].
    rewrite mult_IZR. change (2 ^ e) with (Zpower radix2 e). rewrite IZR_Zpower by exact H. field.
  - assert (0 < 2 ^ (- e)) by (apply Z.pow_pos_nonneg; lia). split; [lia|]. split; [lia|]. unfold F2R. cbn [Fnum Fexp].
    rewrite Z.mul_1_r. change (2 ^ (- e)) with (Zpower radix2 (- e)). rewrite IZR_Zpower by lia. rewrite bpow_opp. field.
    pose proof (bpow_gt_0 radix2 e). lra.
Qed.

Lemma rnd10_opp q x : rnd10 q (- x) = (- rnd10 q x)%R.
Proof. apply round_NE_opp. Qed.

Definition rnd10_0 q : rnd10 q 0 = 0%R.
Proof. unfold rnd10. apply round_0. typeclasses eauto. Qed.

Lemma ok64_opp r : ok64 (- r) <-> ok64 r.
Proof. unfold ok64. rewrite rnd64_opp, Rabs_Ropp. reflexivity. Qed.

(** the shape of a printed finite number *)
Lemma print_finite p x : is_finite x = true -> exists n k,
  print_sci p x = print_sign (Bsign x) ++ print_mantissa p n ++ print_exp k /\ 0 <= n < pow10 (Z.of_nat p + 1) /\
  (IZR n * bpow radix10 (k - Z.of_nat p) = Rabs (rnd10 (Z.of_nat p + 1) (B2R x)))%R /\
  (B2R x <> 0%R -> pow10 (Z.of_nat p) <= n) /\ (B2R x = 0%R -> n = 0 /\ k = 0).
Proof.
  destruct x as [s|s| |s m e Hb]; intros F; try discriminate.
  - exists 0, 0. split; [reflexivity|]. split. { split; [lia|]. apply pow10_pos. lia. } split; [|split; [intros []; reflexivity|auto]].
    cbn [B2R]. rewrite rnd10_0, Rabs_R0. ring.
  - cbn [print_sci Bsign]. destruct (finite_ratio m e) as (Ha & Hb' & E). cbv zeta in *.
    set (a := Zpos m * _) in *. set (b := if 0 <=? e then 1 else _) in *.
    destruct (sig_digits (Z.of_nat p) a b) as (n, k) eqn:Sg. exists n, k. split; [reflexivity|].
    destruct (sig_digits_spec _ _ _ _ _ (Nat2Z.is_nonneg p) Ha Hb' Sg) as (N1 & N2).
    assert (P : 0 < pow10 (Z.of_nat p)) by (apply pow10_pos; lia). split; [lia|].
    assert (Px : (0 < F2R (Float radix2 (Zpos m) e))%R) by (now apply F2R_gt_0).
    assert (Hx : B2R (B754_finite s m e Hb) = (if s then - F2R (Float radix2 (Zpos m) e) else F2R (Float radix2 (Zpos m) e))%R).
    { cbn [B2R]. destruct s; cbn [cond_Zopp]; [|reflexivity]. rewrite <- F2R_Zopp. reflexivity. }
    split; [|split].
    + rewrite N2, E, Hx. assert (P' : (0 <= rnd10 (Z.of_nat p + 1) (F2R (Float radix2 (Zpos m) e)))%R).
      { rewrite <- (rnd10_0 (Z.of_nat p + 1)). apply round_le; [apply FLX_exp_valid; unfold Prec_gt_0; lia|typeclasses eauto|lra]. }
      destruct s; [rewrite rnd10_opp, Rabs_Ropp|]; symmetry; apply Rabs_pos_eq; exact P'.
    + intros _. lia.
    + intros K. exfalso. rewrite Hx in K. destruct s; lra.
Qed.

Lemma rnd10_sign p (x : b64) : is_finite x = true ->
  rnd10 (Z.of_nat p + 1) (B2R x) = (if Bsign x then - Rabs (rnd10 (Z.of_nat p + 1) (B2R x)) else Rabs (rnd10 (Z.of_nat p + 1) (B2R x)))%R.
Proof.
  intros F. assert (V : Valid_exp (FLX_exp (Z.of_nat p + 1))) by (apply FLX_exp_valid; unfold Prec_gt_0; lia).
  destruct x as [s|s| |s m e Hb]; try discriminate.
  - cbn [B2R]. rewrite rnd10_0, Rabs_R0. destruct (Bsign _); ring.
  - cbn [Bsign]. destruct s.
    + rewrite Rabs_left1; [ring|]. rewrite <- (rnd10_0 (Z.of_nat p + 1)). apply round_le; [exact V|typeclasses eauto|].
      cbn [B2R]. apply Rlt_le. now apply F2R_lt_0.
    + rewrite Rabs_pos_eq; [reflexivity|]. rewrite <- (rnd10_0 (Z.of_nat p + 1)). apply round_le; [exact V|typeclasses eauto|].
      cbn [B2R]. apply Rlt_le. now apply F2R_gt_0.
Qed.

Lemma ok64_abs r : ok64 (Rabs r) <-> ok64 r.
Proof. unfold ok64. rewrite !rnd64_abs, Rabs_Rabsolu. reflexivity. Qed.

(** [y] is what a file with p digits after the point gives back for [x] *)
Definition reread (p : nat) (x y : b64) : Prop :=
  is_finite y = true /\ B2R y = rnd64 (rnd10 (Z.of_nat p + 1) (B2R x)) /\ Bsign y = Bsign x.

Lemma read_print p (x : b64) s : is_finite x = true -> ok64 (rnd10 (Z.of_nat p + 1) (B2R x)) -> stops s ->
  exists y, read_double (print_sci p x ++ s) = (y, Some s) /\ reread p x y.
Proof.
  intros F O Hs. destruct (print_finite p x F) as (n & k & E & Hn & V & _). rewrite E, <- !app_assoc.
  destruct (read_shape (Bsign x) p n k s Hn Hs) as (y & Y1 & Y2 & Y3 & Y4). { rewrite V. now apply ok64_abs. }
  exists y. split; [exact Y1|]. split; [exact Y2|]. split; [|exact Y4]. rewrite Y3, V. pose proof (rnd10_sign p x F) as G.
  destruct (Bsign x); rewrite G at 2; [now rewrite rnd64_opp|reflexivity].
Qed.

Lemma reread_fun p x y y' : reread p x y -> reread p x y' -> y = y'.
Proof.
  intros (F & V & G) (F' & V' & G'). apply B2R_Bsign_inj; congruence.
Qed.

(** ** the header is read to its end *)
Lemma getline_short s : s <> [] -> (List.length (snd (getline s)) < List.length s)%nat.
Proof.
  induction s as [|c s IH]; intros H; [congruence|]. cbn [getline]. destruct (Ascii.eqb c NL); cbn [snd List.length]; [lia|].
  destruct (getline s) as (l, r) eqn:E. cbn [snd]. destruct s as [|d s]; [injection E as <- <-; cbn; lia|].
  assert (K : (List.length (snd (l, r)) < List.length (d :: s))%nat) by (apply IH; discriminate). cbn [snd] in K. lia.
Qed.

Lemma read_header_enough : forall fuel fuel' s t, (List.length s < fuel)%nat -> (List.length s < fuel')%nat ->
  read_header fuel s t = read_header fuel' s t.
Proof.
  induction fuel as [|f IH]; intros fuel' s t H H'; [lia|]. destruct fuel' as [|f']; [lia|]. cbn [read_header].
  destruct s as [|c s]; [reflexivity|]. destruct (Ascii.eqb c "#"%char || Ascii.eqb c NL); [|reflexivity].
  pose proof (getline_short (c :: s) ltac:(discriminate)) as G. destruct (getline (c :: s)) as (l, r). cbn [snd List.length] in *.
  destruct (find_first time_tag l) as [k|]; [|apply IH; lia]. destruct (stod _); [apply IH; lia|reflexivity].
Qed.
