(** * C90: the mathematical functions given to the scripts of the user (/repo/src/expression_parser.cpp lines 9-31)

    The functions the library adds to those of the object Math are written here over the real numbers: the functions
    abs, exp, log, sqrt, hypot, sign of the interpreter are the real functions.  What is proved is about the formulas
    and the places where they are cut; the rounding of the operations is not modelled. *)
From Coq Require Import Reals Lra Lia.
Open Scope R_scope.

Definition LN2 : R := ln 2.
Definition ltb (a b : R) : bool := if Rlt_dec a b then true else false.
Definition sgn (x : R) : R := if Rlt_dec x 0 then -1 else if Rlt_dec 0 x then 1 else 0.
Definition hypot (a b : R) : R := sqrt (a * a + b * b).

(** lines 16-17 *)
Definition js_expm1 (x : R) : R := if ltb (Rabs x) (2 / 10 ^ 8) then x else exp x - 1.
Definition js_log1p (x : R) : R := if ltb (Rabs x) (2 / 10 ^ 8) then x else ln (1 + x).
(** lines 20-22 *)
Definition js_cosh (x : R) : R := exp (x - LN2) + exp (- x - LN2).
Definition js_sinh (x : R) : R := if ltb (Rabs x) (1 / 10 ^ 5) then x else exp (x - LN2) - exp (- x - LN2).
Definition js_tanh (x : R) : R := if ltb 20 (Rabs x) then sgn x else js_expm1 (2 * x) / (exp (2 * x) + 1).
(** lines 25-27 *)
Definition js_acosh (x : R) : R := if ltb (10 ^ 8) x then ln x + LN2 else ln (x + sqrt (x * x - 1)).
Definition js_asinh (x : R) : R := if ltb (Rabs x) (1 / 10 ^ 5) then x else sgn x * (ln (Rabs x / 2 + hypot 1 x / 2) + LN2).
Definition js_atanh (x : R) : R := if ltb (Rabs x) (1 / 10 ^ 5) then x else ln ((1 + x) / (1 - x)) / 2.

(** ** Specification: the hyperbolic functions of the standard library, and being within a relative error *)
Definition within (eps a b : R) : Prop := Rabs (a - b) <= eps * Rabs b.

Ltac cut_at H := unfold ltb; match goal with |- context [Rlt_dec ?a ?b] => destruct (Rlt_dec a b) as [H|H] end.

Lemma within_refl eps x : 0 <= eps -> within eps x x.
Proof. intros H. unfold within. replace (x - x) with 0 by ring. rewrite Rabs_R0. apply Rmult_le_pos; [exact H|apply Rabs_pos]. Qed.

Lemma exp_above x : 1 + x <= exp x.
Proof. apply exp_ineq1_le. Qed.
Lemma exp_below x : x < 1 -> exp x <= / (1 - x).
Proof.
  intros H. pose proof (exp_above (- x)) as E. rewrite exp_Ropp in E. pose proof (exp_pos x) as P.
  rewrite <- (Rinv_inv (exp x)). apply Rinv_le_contravar; lra.
Qed.

Lemma exp_le_inv a b : exp a <= exp b -> a <= b.
Proof. intros H. apply Rnot_lt_le. intros L. apply exp_increasing in L. lra. Qed.

Lemma exp_second x : Rabs x < 1 -> 0 <= exp x - 1 - x <= x * x / (1 - x).
Proof.
  intros H. apply Rabs_def2 in H. split; [pose proof (exp_above x); lra|].
  pose proof (exp_below x ltac:(lra)) as B. replace (x * x / (1 - x)) with (/ (1 - x) - 1 - x) by (field; lra). lra.
Qed.

Lemma expm1_error x : within (1 / 10 ^ 7) (js_expm1 x) (exp x - 1).
Proof.
  unfold js_expm1. cut_at H; [|apply within_refl; lra]. unfold within.
  assert (B : -(2 / 10 ^ 8) < x < 2 / 10 ^ 8) by (apply Rabs_def2 in H; lra).
  pose proof (exp_second x ltac:(lra)) as [E1 E2]. rewrite Rabs_left1 by lra.
  assert (Q : x * x / (1 - x) <= 2 * (x * x)).
  { unfold Rdiv. rewrite (Rmult_comm 2). apply Rmult_le_compat_l; [nra|]. rewrite <- (Rinv_inv 2). apply Rinv_le_contravar; lra. }
  destruct (Rle_dec 0 x) as [P|P].
  - rewrite Rabs_right by lra. nra.
  - rewrite (Rabs_left1 (exp x - 1)) by nra. nra.
Qed.

Lemma log1p_error x : -1 < x -> within (1 / 10 ^ 7) (js_log1p x) (ln (1 + x)).
Proof.
  intros D. unfold js_log1p. cut_at H; [|apply within_refl; lra]. unfold within.
  assert (B : -(2 / 10 ^ 8) < x < 2 / 10 ^ 8) by (apply Rabs_def2 in H; lra).
  assert (U : ln (1 + x) <= x). { apply exp_le_inv. rewrite exp_ln by lra. apply exp_above. }
  assert (L : x - x * x / (1 + x) <= ln (1 + x)).
  { replace (x - x * x / (1 + x)) with (- (/ (1 + x) - 1)) by (field; lra).
    cut (ln (/ (1 + x)) <= / (1 + x) - 1). { rewrite ln_Rinv by lra. lra. }
    apply exp_le_inv. rewrite exp_ln by (apply Rinv_0_lt_compat; lra). pose proof (exp_above (/ (1 + x) - 1)). lra. }
  assert (Q : x * x / (1 + x) <= 2 * (x * x)).
  { unfold Rdiv. rewrite (Rmult_comm 2). apply Rmult_le_compat_l; [nra|]. rewrite <- (Rinv_inv 2). apply Rinv_le_contravar; lra. }
  rewrite Rabs_right by lra. destruct (Rle_dec 0 x) as [P|P].
  - rewrite Rabs_right by nra. nra.
  - rewrite (Rabs_left1 (ln (1 + x))) by lra. nra.
Qed.

Lemma exp_LN2 x : exp (x - LN2) = exp x / 2.
Proof. unfold Rminus, LN2. rewrite exp_plus, exp_Ropp, exp_ln by lra. field. Qed.

Lemma cosh_exact x : js_cosh x = cosh x.
Proof. unfold js_cosh, cosh. rewrite !exp_LN2. field. Qed.

Lemma cosh_even x : cosh (- x) = cosh x.
Proof. unfold cosh. rewrite Ropp_involutive. field. Qed.
Lemma sinh_odd x : sinh (- x) = - sinh x.
Proof. unfold sinh. rewrite Ropp_involutive. field. Qed.
Lemma cosh_ge1 x : 1 <= cosh x.
Proof.
  unfold cosh. pose proof (exp_pos x) as P. pose proof (exp_pos (- x)) as Q. assert (E : exp x * exp (- x) = 1) by (rewrite <- exp_plus, Rplus_opp_r; apply exp_0).
  assert (H : 0 <= exp (- x) * ((exp x - 1) * (exp x - 1))) by (apply Rmult_le_pos; [apply Rlt_le; exact Q|apply Rle_0_sqr]).
  replace (exp (- x) * ((exp x - 1) * (exp x - 1))) with (exp x * (exp x * exp (- x)) - 2 * (exp x * exp (- x)) + exp (- x)) in H by ring. rewrite E in H. lra.
Qed.
Lemma cosh_sq x : cosh x * cosh x - sinh x * sinh x = 1.
Proof. unfold cosh, sinh. assert (E : exp x * exp (- x) = 1) by (rewrite <- exp_plus, Rplus_opp_r; apply exp_0).
  transitivity (exp x * exp (- x)); [field|exact E]. Qed.

(** sinh x is x times cosh of something between 0 and x *)
Lemma sinh_mean x : 0 < x -> exists c, sinh x = x * cosh c /\ 0 < c < x.
Proof.
  intros H. destruct (MVT_cor2 sinh cosh 0 x H) as (c & E & C); [intros; apply derivable_pt_lim_sinh|].
  exists c. rewrite sinh_0 in E. split; [lra|exact C].
Qed.
Lemma cosh_mono x y : 0 <= x <= y -> cosh x <= cosh y.
Proof.
  intros [H K]. destruct (Rle_lt_or_eq_dec _ _ K) as [L|<-]; [|lra].
  destruct (MVT_cor2 cosh sinh x y L) as (c & E & C); [intros; apply derivable_pt_lim_cosh|].
  destruct (sinh_mean c ltac:(lra)) as (d & D & _). pose proof (cosh_ge1 d). assert (0 <= sinh c) by nra. nra.
Qed.
Lemma sinh_pos x : 0 < x -> x <= sinh x.
Proof. intros H. destruct (sinh_mean x H) as (c & -> & _). pose proof (cosh_ge1 c). nra. Qed.

Lemma cosh_small x : 0 <= x < 1 / 10 -> cosh x - 1 <= x * x.
Proof.
  intros [H K]. pose proof (cosh_ge1 x). pose proof (cosh_sq x) as Q.
  destruct (Rle_lt_or_eq_dec _ _ H) as [L|<-]; [|rewrite cosh_0; lra].
  destruct (sinh_mean x L) as (c & S & C). pose proof (cosh_mono c x ltac:(lra)) as M. pose proof (cosh_ge1 c).
  (* cosh x <= 1.2 *)
  assert (U : cosh x <= 6 / 5).
  { unfold cosh. pose proof (exp_below x ltac:(lra)) as B. pose proof (exp_below (- x) ltac:(lra)) as B'.
    assert (/ (1 - x) <= 10 / 9) by (rewrite <- (Rinv_inv (10 / 9)); apply Rinv_le_contravar; lra).
    assert (/ (1 - - x) <= 1) by (rewrite <- Rinv_1 at 2; apply Rinv_le_contravar; lra). lra. }
  assert (sinh x * sinh x <= x * x * (36 / 25)).
  { rewrite S. assert (cosh c * cosh c <= 36 / 25) by nra. assert (0 <= x * x) by nra. nra. }
  assert (cosh x * cosh x - 1 >= 2 * (cosh x - 1)) by nra. nra.
Qed.

Lemma sinh_error x : within (1 / 10 ^ 9) (js_sinh x) (sinh x).
Proof.
  unfold js_sinh. cut_at H. 2: { rewrite !exp_LN2. unfold sinh. replace (exp x / 2 - exp (- x) / 2) with ((exp x - exp (- x)) / 2) by field. apply within_refl. lra. }
  assert (P : forall x, 0 <= x < 1 / 10 ^ 5 -> within (1 / 10 ^ 9) x (sinh x)).
  { clear. intros x [H K]. destruct (Rle_lt_or_eq_dec _ _ H) as [L|<-]; [|rewrite sinh_0; apply within_refl; lra].
    destruct (sinh_mean x L) as (c & S & C). pose proof (cosh_ge1 c). pose proof (cosh_small c ltac:(lra)).
    unfold within. assert (x <= sinh x) by (now apply sinh_pos). rewrite (Rabs_left1 (x - sinh x)), (Rabs_right (sinh x)) by lra. rewrite S. nra. }
  apply Rabs_def2 in H. destruct (Rle_dec 0 x) as [Q|Q]; [apply P; lra|].
  pose proof (P (- x) ltac:(lra)) as W. unfold within in *. rewrite sinh_odd, Rabs_Ropp in W. rewrite <- Rabs_Ropp.
  replace (- (x - sinh x)) with (- x - - sinh x) by ring. exact W.
Qed.

(** ** tanh *)
Lemma tanh_exp x : tanh x = (exp (2 * x) - 1) / (exp (2 * x) + 1).
Proof.
  unfold tanh, sinh, cosh. rewrite exp_Ropp. replace (2 * x) with (x + x) by ring. rewrite exp_plus. pose proof (exp_pos x). field. split; nra.
Qed.
Lemma tanh_odd x : tanh (- x) = - tanh x.
Proof. unfold tanh. rewrite sinh_odd, cosh_even. unfold Rdiv. ring. Qed.

Lemma exp_pow x n : exp (INR n * x) = exp x ^ n.
Proof. induction n as [|n IH]; [rewrite Rmult_0_l; apply exp_0|]. rewrite S_INR. replace ((INR n + 1) * x) with (x + INR n * x) by ring. rewrite exp_plus, IH. reflexivity. Qed.

Lemma exp_40 : 2 * 10 ^ 16 <= exp 40.
Proof.
  replace 40 with (INR 400 * (1 / 10)) by (rewrite INR_IZR_INZ; simpl; lra). rewrite exp_pow.
  apply Rle_trans with ((11 / 10) ^ 400).
  - unfold Rdiv. rewrite Rpow_mult_distr, pow_inv. apply Rmult_le_reg_r with (10 ^ 400); [apply pow_lt; lra|].
    rewrite (Rmult_assoc (11 ^ 400)), Rinv_l by (apply pow_nonzero; lra). rewrite Rmult_1_r, Rmult_assoc, <- pow_add. rewrite !pow_IZR, <- mult_IZR. apply IZR_le.
    vm_compute. discriminate.
  - apply pow_incr. split; [lra|]. pose proof (exp_above (1 / 10)). lra.
Qed.

Lemma tanh_far x : 20 < x -> 0 < 1 - tanh x <= 1 / 10 ^ 16.
Proof.
  intros H. rewrite tanh_exp. assert (E : 2 * 10 ^ 16 <= exp (2 * x)) by (apply Rle_trans with (exp 40); [apply exp_40|apply Rlt_le, exp_increasing; lra]).
  replace (1 - (exp (2 * x) - 1) / (exp (2 * x) + 1)) with (2 / (exp (2 * x) + 1)) by (field; lra). split.
  - apply Rdiv_lt_0_compat; lra.
  - apply Rmult_le_reg_r with (exp (2 * x) + 1); [lra|]. unfold Rdiv at 1. rewrite Rmult_assoc, Rinv_l by lra. lra.
Qed.

Lemma tanh_error x : within (1 / 10 ^ 7) (js_tanh x) (tanh x).
Proof.
  unfold js_tanh. cut_at H.
  - destruct (Rle_dec 0 x) as [P|P].
    + rewrite Rabs_right in H by lra. unfold sgn. destruct (Rlt_dec x 0); [lra|]. destruct (Rlt_dec 0 x); [|lra].
      pose proof (tanh_far x H). unfold within. rewrite !Rabs_right by lra. lra.
    + rewrite Rabs_left1 in H by lra. unfold sgn. destruct (Rlt_dec x 0); [|lra]. pose proof (tanh_far (- x) H) as T. rewrite tanh_odd in T.
      unfold within. rewrite !Rabs_left1 by lra. lra.
  - rewrite tanh_exp. pose proof (expm1_error (2 * x)) as W. unfold within in *. pose proof (exp_pos (2 * x)) as P. unfold Rdiv.
    rewrite <- Rmult_minus_distr_r, !Rabs_mult. rewrite <- Rmult_assoc. apply Rmult_le_compat_r; [apply Rabs_pos|exact W].
Qed.

(** ** The inverse functions: what they give on the value of the direct function *)
Lemma sinh_sgn y : (y < 0 -> sinh y < 0) /\ (0 < y -> 0 < sinh y).
Proof.
  split; intros H; [|pose proof (sinh_pos y H); lra]. pose proof (sinh_pos (- y) ltac:(lra)) as P. rewrite sinh_odd in P. lra.
Qed.

Lemma asinh_pos y : 0 < y -> within (1 / 10 ^ 9) (js_asinh (sinh y)) y.
Proof.
  intros H. pose proof (sinh_pos y H) as S. unfold js_asinh. rewrite Rabs_right by lra. cut_at K.
  - destruct (sinh_mean y H) as (c & E & C). pose proof (cosh_ge1 c). pose proof (cosh_small c ltac:(lra)). unfold within.
    rewrite (Rabs_right (sinh y - y)), (Rabs_right y) by lra. rewrite E. nra.
  - unfold sgn. destruct (Rlt_dec (sinh y) 0); [lra|]. destruct (Rlt_dec 0 (sinh y)); [|lra].
    replace (hypot 1 (sinh y)) with (cosh y).
    2: { unfold hypot. pose proof (cosh_sq y). pose proof (cosh_ge1 y). replace (1 * 1 + sinh y * sinh y) with (cosh y * cosh y) by lra. rewrite sqrt_square; lra. }
    replace (sinh y / 2 + cosh y / 2) with (exp y / 2) by (unfold sinh, cosh; field).
    unfold Rdiv at 2. rewrite ln_mult, ln_exp, ln_Rinv by (try apply exp_pos; lra). unfold LN2.
    replace (1 * (y + - ln 2 + ln 2)) with y by ring. apply within_refl. lra.
Qed.
Lemma js_asinh_odd x : js_asinh (- x) = - js_asinh x.
Proof.
  unfold js_asinh. rewrite Rabs_Ropp. cut_at K; [reflexivity|]. replace (hypot 1 (- x)) with (hypot 1 x) by (unfold hypot; f_equal; ring).
  replace (sgn (- x)) with (- sgn x); [ring|]. unfold sgn. destruct (Rlt_dec x 0), (Rlt_dec (- x) 0), (Rlt_dec 0 x), (Rlt_dec 0 (- x)); lra.
Qed.
Lemma asinh_error y : within (1 / 10 ^ 9) (js_asinh (sinh y)) y.
Proof.
  destruct (Rtotal_order y 0) as [H|[->|H]].
  - pose proof (asinh_pos (- y) ltac:(lra)) as W. rewrite sinh_odd, js_asinh_odd in W. unfold within in *. rewrite Rabs_Ropp in W.
    rewrite <- Rabs_Ropp. replace (- (js_asinh (sinh y) - y)) with (- js_asinh (sinh y) - - y) by ring. exact W.
  - rewrite sinh_0. unfold js_asinh. rewrite Rabs_R0. cut_at K; [apply within_refl|]; lra.
  - now apply asinh_pos.
Qed.

Lemma acosh_error y : 0 <= y -> Rabs (js_acosh (cosh y) - y) <= 1 / 10 ^ 15.
Proof.
  intros H. pose proof (cosh_ge1 y) as C. pose proof (cosh_sq y) as Q.
  assert (S : 0 <= sinh y) by (destruct (Rle_lt_or_eq_dec _ _ H) as [L|<-]; [pose proof (sinh_pos y L); lra|rewrite sinh_0; lra]).
  unfold js_acosh. cut_at K.
  - unfold LN2. rewrite <- ln_mult by lra.
    (* 2 cosh y = exp y (1 + exp (-2 y)) *)
    replace (cosh y * 2) with (exp y * (1 + exp (- (2 * y)))).
    2: { unfold cosh. rewrite Rmult_plus_distr_l, <- exp_plus. replace (y + - (2 * y)) with (- y) by ring. field. }
    pose proof (exp_pos (- (2 * y))) as P. rewrite ln_mult, ln_exp by (try apply exp_pos; lra).
    replace (y + ln (1 + exp (- (2 * y))) - y) with (ln (1 + exp (- (2 * y)))) by ring.
    assert (L0 : 0 <= ln (1 + exp (- (2 * y)))). { rewrite <- ln_1. apply Rlt_le, ln_increasing; lra. }
    rewrite Rabs_right by lra.
    apply Rle_trans with (exp (- (2 * y))). { apply exp_le_inv. rewrite exp_ln by lra. apply exp_above. }
    assert (E : 10 ^ 8 <= exp y). { unfold cosh in K. pose proof (exp_above y). assert (exp (- y) <= exp y); [|lra].
      destruct (Rle_lt_or_eq_dec _ _ H) as [L|<-]; [apply Rlt_le, exp_increasing; lra|rewrite Ropp_0; lra]. }
    replace (- (2 * y)) with (- y + - y) by ring. rewrite exp_plus, exp_Ropp.
    assert (/ exp y <= / 10 ^ 8) by (apply Rinv_le_contravar; lra). assert (0 < / exp y) by (apply Rinv_0_lt_compat; lra).
    assert (/ exp y * / exp y <= / 10 ^ 8 * / 10 ^ 8) by (apply Rmult_le_compat; lra). lra.
  - replace (cosh y * cosh y - 1) with (sinh y * sinh y) by lra. rewrite sqrt_square by exact S.
    replace (cosh y + sinh y) with (exp y) by (unfold cosh, sinh; field). rewrite ln_exp. replace (y - y) with 0 by ring. rewrite Rabs_R0. lra.
Qed.

Lemma tanh_bounds y : -1 < tanh y < 1.
Proof.
  rewrite tanh_exp. pose proof (exp_pos (2 * y)). split.
  - apply Rmult_lt_reg_r with (exp (2 * y) + 1); [lra|]. unfold Rdiv. rewrite Rmult_assoc, Rinv_l by lra. lra.
  - apply Rmult_lt_reg_r with (exp (2 * y) + 1); [lra|]. unfold Rdiv. rewrite Rmult_assoc, Rinv_l by lra. lra.
Qed.

Lemma atanh_exact y : ln ((1 + tanh y) / (1 - tanh y)) / 2 = y.
Proof.
  rewrite tanh_exp. pose proof (exp_pos (2 * y)). replace ((1 + (exp (2 * y) - 1) / (exp (2 * y) + 1)) / (1 - (exp (2 * y) - 1) / (exp (2 * y) + 1))) with (exp (2 * y)) by (field; lra).
  rewrite ln_exp. field.
Qed.

Lemma atanh_pos y : 0 < y -> within (1 / 10 ^ 9) (js_atanh (tanh y)) y.
Proof.
  intros H. unfold js_atanh. cut_at K; [|rewrite atanh_exact; apply within_refl; lra].
  pose proof (sinh_pos y H) as S. pose proof (cosh_ge1 y) as C.
  assert (T : 0 < tanh y) by (unfold tanh; apply Rdiv_lt_0_compat; lra). rewrite Rabs_right in K by lra.
  (* y is small: sinh y = tanh y cosh y and cosh y^2 = 1/(1 - tanh y^2) *)
  assert (E : sinh y = tanh y * cosh y) by (unfold tanh; field; lra). pose proof (cosh_sq y) as Q. rewrite E in Q.
  assert (C2 : cosh y * cosh y * (1 - tanh y * tanh y) = 1) by lra.
  assert (CU : cosh y <= 2). { apply Rnot_lt_le. intros L. assert (4 < cosh y * cosh y) by nra. assert (tanh y * tanh y < 1 / 10 ^ 10) by nra. nra. }
  assert (Y : y <= 2 / 10 ^ 5) by nra.
  pose proof (cosh_small y ltac:(lra)) as CS. unfold within.
  assert (U : tanh y <= y). { destruct (sinh_mean y H) as (c & Sc & Cc). pose proof (cosh_mono c y ltac:(lra)). apply Rmult_le_reg_r with (cosh y); [lra|]. rewrite <- E, Sc. nra. }
  rewrite (Rabs_left1 (tanh y - y)), (Rabs_right y) by lra.
  assert (y <= tanh y * cosh y) by lra. nra.
Qed.
Lemma js_atanh_odd x : -1 < x < 1 -> js_atanh (- x) = - js_atanh x.
Proof.
  intros B. unfold js_atanh. rewrite Rabs_Ropp. cut_at K; [reflexivity|].
  replace ((1 + - x) / (1 - - x)) with (/ ((1 + x) / (1 - x))) by (field; lra). rewrite ln_Rinv by (apply Rdiv_lt_0_compat; lra). field.
Qed.
Lemma atanh_error y : within (1 / 10 ^ 9) (js_atanh (tanh y)) y.
Proof.
  destruct (Rtotal_order y 0) as [H|[->|H]].
  - pose proof (atanh_pos (- y) ltac:(lra)) as W. rewrite tanh_odd, js_atanh_odd in W by apply tanh_bounds. unfold within in *. rewrite Rabs_Ropp in W.
    rewrite <- Rabs_Ropp. replace (- (js_atanh (tanh y) - y)) with (- js_atanh (tanh y) - - y) by ring. exact W.
  - unfold tanh. rewrite sinh_0. unfold Rdiv. rewrite Rmult_0_l. unfold js_atanh. rewrite Rabs_R0. cut_at K; [apply within_refl|]; lra.
  - now apply atanh_pos.
Qed.

(** ** C90 *)
Theorem C90_functions : forall x : R,
  within (1 / 10 ^ 7) (js_expm1 x) (exp x - 1) /\
  (-1 < x -> within (1 / 10 ^ 7) (js_log1p x) (ln (1 + x))) /\
  js_cosh x = cosh x /\
  within (1 / 10 ^ 9) (js_sinh x) (sinh x) /\
  within (1 / 10 ^ 7) (js_tanh x) (tanh x).
Proof. intros x. split; [apply expm1_error|]. split; [apply log1p_error|]. split; [apply cosh_exact|]. split; [apply sinh_error|apply tanh_error]. Qed.

Theorem C90_inverses : forall y : R,
  within (1 / 10 ^ 9) (js_asinh (sinh y)) y /\
  within (1 / 10 ^ 9) (js_atanh (tanh y)) y /\
  (0 <= y -> Rabs (js_acosh (cosh y) - y) <= 1 / 10 ^ 15).
Proof. intros y. split; [apply asinh_error|]. split; [apply atanh_error|apply acosh_error]. Qed.

(** the inverse functions are defined everywhere they should be: every real is a sinh, every number of ]-1, 1[ a tanh,
    every number from 1 on a cosh of a nonnegative number *)
Theorem C90_all_values : forall x : R,
  (exists y, x = sinh y) /\ (-1 < x < 1 -> exists y, x = tanh y) /\ (1 <= x -> exists y, 0 <= y /\ x = cosh y).
Proof.
  intros x. split; [exists (arcsinh x); symmetry; apply sinh_arcsinh|]. split.
  - intros B. exists (ln ((1 + x) / (1 - x)) / 2). rewrite tanh_exp. replace (2 * (ln ((1 + x) / (1 - x)) / 2)) with (ln ((1 + x) / (1 - x))) by field.
    rewrite exp_ln by (apply Rdiv_lt_0_compat; lra). field. lra.
  - intros B. exists (ln (x + sqrt (x * x - 1))). assert (S : 0 <= sqrt (x * x - 1)) by apply sqrt_pos.
    assert (Q : sqrt (x * x - 1) * sqrt (x * x - 1) = x * x - 1) by (apply sqrt_sqrt; nra). split.
    + rewrite <- ln_1. destruct (Rle_lt_or_eq_dec 1 (x + sqrt (x * x - 1)) ltac:(lra)) as [L|<-]; [apply Rlt_le, ln_increasing; lra|lra].
    + unfold cosh. rewrite exp_Ropp, exp_ln by lra. replace (/ (x + sqrt (x * x - 1))) with (x - sqrt (x * x - 1)); [field|].
      apply Rmult_eq_reg_r with (x + sqrt (x * x - 1)); [|lra]. rewrite Rinv_l by lra. nra.
Qed.

Example C90_nonvacuous : js_sinh (1 / 10 ^ 6) = 1 / 10 ^ 6 /\ js_tanh 21 = 1 /\ js_tanh 0 = 0 /\ js_acosh 1 = 0 /\ js_expm1 1 = exp 1 - 1.
Proof.
  split. { unfold js_sinh. rewrite Rabs_right by lra. cut_at H; [reflexivity|lra]. }
  split. { unfold js_tanh. rewrite Rabs_right by lra. cut_at H; [|lra]. unfold sgn. destruct (Rlt_dec 21 0); [lra|]. destruct (Rlt_dec 0 21); lra. }
  split. { unfold js_tanh. rewrite Rabs_R0. cut_at H; [lra|]. rewrite Rmult_0_r. unfold js_expm1. rewrite Rabs_R0. cut_at K; [|lra]. unfold Rdiv. ring. }
  split. { unfold js_acosh. cut_at H; [lra|]. replace (1 * 1 - 1) with 0 by ring. rewrite sqrt_0, Rplus_0_r. apply ln_1. }
  unfold js_expm1. rewrite Rabs_right by lra. cut_at H; [lra|reflexivity].
Qed.

Print Assumptions C90_functions.
Print Assumptions C90_inverses.
Print Assumptions C90_all_values.
