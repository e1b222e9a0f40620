(** * Laws of rounded arithmetic shared by the exact instance [XA] and by binary64 [B64]

    [fl_laws A] packages what the proofs on the time loop use: on finite numbers operations are the
    exact ones followed by a monotone rounding as long as they do not overflow; comparisons of finite
    numbers are those of their values; infinities and NaN compare as in IEEE-754. Both [XA] and [B64]
    are shown to satisfy them. *)

From Coq Require Import Reals ZArith Bool Lra Lia.
From Flocq Require Import Core BinarySingleNaN.
From Verif Require Import Arith.

Local Open Scope R_scope.

Record fl_laws (A : arith) : Type := mkLaws {
  fin : num A -> Prop;
  val : num A -> R;
  rnd : R -> R;
  ok : R -> Prop;
  rnd_mono : forall x y, x <= y -> rnd x <= rnd y;
  rnd_val : forall x, fin x -> rnd (val x) = val x;
  ok_fin : forall x, fin x -> ok (val x);
  ok_mono : forall x y, Rabs x <= Rabs y -> ok y -> ok x;
  lt_fin : forall x y, fin x -> fin y -> (nlt x y = true <-> val x < val y);
  le_fin : forall x y, fin x -> fin y -> (nle x y = true <-> val x <= val y);
  eq_fin : forall x y, fin x -> fin y -> (neq x y = true <-> val x = val y);
  add_fin : forall x y, fin x -> fin y -> ok (val x + val y) ->
              fin (nadd x y) /\ val (nadd x y) = rnd (val x + val y);
  sub_fin : forall x y, fin x -> fin y -> ok (val x - val y) ->
              fin (nsub x y) /\ val (nsub x y) = rnd (val x - val y);
  mul_fin : forall x y, fin x -> fin y -> ok (val x * val y) ->
              fin (nmul x y) /\ val (nmul x y) = rnd (val x * val y);
  div_fin : forall x y, fin x -> fin y -> val y <> 0 -> ok (val x / val y) ->
              fin (ndiv x y) /\ val (ndiv x y) = rnd (val x / val y);
  lt_irrefl : forall x : num A, nlt x x = false;
  lt_trans : forall x y z : num A, nlt x y = true -> nlt y z = true -> nlt x z = true;
  lt_below : forall x y, fin y -> nlt x y = true -> fin x \/ forall z, fin z -> nlt x z = true;
  lt_neg_trans : forall x y z : num A, nisnan y = false -> nlt x y = false -> nlt x z = true ->
                   nlt y z = true;
  lt_notnan : forall x y : num A, nlt x y = true -> nisnan x = false /\ nisnan y = false;
  fin_notnan : forall x, fin x -> nisnan x = false;
  int_fin : forall z, (Z.abs z <= 2147483648)%Z -> fin (nZ z) /\ val (nZ z) = IZR z
}.

Arguments fin {A} _ _.
Arguments val {A} _ _.
Arguments rnd {A} _ _.
Arguments ok {A} _ _.

(** ** XA *)
Definition xfin (x : xr) : Prop := match x with Fin _ => True | _ => False end.
Definition xval (x : xr) : R := match x with Fin r => r | _ => 0 end.

Lemma Rlt_bool_iff : forall x y, Rlt_bool x y = true <-> x < y.
Proof. intros x y. destruct (Rlt_bool_spec x y); split; intros; try lra; try discriminate; auto. Qed.
Lemma Rlt_bool_iff_false : forall x y, Rlt_bool x y = false <-> y <= x.
Proof. intros x y. destruct (Rlt_bool_spec x y); split; intros; try lra; try discriminate; auto. Qed.
Lemma Req_bool_iff : forall x y, Req_bool x y = true <-> x = y.
Proof. intros x y. destruct (Req_bool_spec x y); split; intros; try lra; try discriminate; auto. Qed.

Lemma xlt_irrefl : forall x, xlt x x = false.
Proof. intros [r| | |]; simpl; auto. apply Rlt_bool_iff_false. lra. Qed.

Lemma xlt_trans : forall x y z, xlt x y = true -> xlt y z = true -> xlt x z = true.
Proof.
  intros [a| | |] [b| | |] [c| | |]; simpl; try discriminate; auto.
  rewrite !Rlt_bool_iff. lra.
Qed.

Lemma xlt_neg_trans : forall x y z, xisnan y = false -> xlt x y = false -> xlt x z = true ->
  xlt y z = true.
Proof.
  intros [a| | |] [b| | |] [c| | |]; simpl; try discriminate; auto.
  rewrite !Rlt_bool_iff, Rlt_bool_iff_false. lra.
Qed.

Lemma xlt_notnan : forall x y, xlt x y = true -> xisnan x = false /\ xisnan y = false.
Proof. intros [a| | |] [b| | |]; simpl; try discriminate; auto. Qed.

Lemma xlt_below : forall x y, xfin y -> xlt x y = true ->
  xfin x \/ forall z, xfin z -> xlt x z = true.
Proof.
  intros [a| | |] [b| | |]; simpl; try discriminate; try contradiction; auto.
  intros _ _. right. intros [c| | |]; simpl; auto; contradiction.
Qed.

Lemma xle_fin : forall x y, xfin x -> xfin y -> (xle x y = true <-> xval x <= xval y).
Proof.
  intros [a| | |] [b| | |]; simpl; try contradiction. intros _ _.
  unfold xle; simpl. rewrite orb_true_iff, Rlt_bool_iff, Req_bool_iff. lra.
Qed.

Definition XA_laws : fl_laws XA.
Proof.
  refine {| fin := (xfin : num XA -> Prop); val := (xval : num XA -> R); rnd := fun r => r;
            ok := fun _ => True |}; simpl; auto.
  - intros [a| | |] [b| | |]; simpl; try contradiction. intros _ _. apply Rlt_bool_iff.
  - apply xle_fin.
  - intros [a| | |] [b| | |]; simpl; try contradiction. intros _ _. apply Req_bool_iff.
  - intros [a| | |] [b| | |]; simpl; try contradiction; auto.
  - intros [a| | |] [b| | |]; simpl; try contradiction; auto.
  - intros [a| | |] [b| | |]; simpl; try contradiction; auto.
  - intros [a| | |] [b| | |]; simpl; try contradiction. intros _ _ Hb _.
    rewrite Req_bool_false by exact Hb. simpl. auto.
  - apply xlt_irrefl.
  - apply xlt_trans.
  - apply xlt_below.
  - apply xlt_neg_trans.
  - apply xlt_notnan.
  - intros [a| | |]; simpl; auto; contradiction.
  - intros z _. split; auto. field.
Defined.

(** ** B64 *)
Definition xof (x : b64) : xr :=
  match x with
  | B754_zero _ => Fin 0
  | B754_infinity false => PInf
  | B754_infinity true => NInf
  | B754_nan => NaN
  | B754_finite _ _ _ _ => Fin (B2R x)
  end.

Lemma xof_fin : forall x : b64, is_finite x = true -> xof x = Fin (B2R x).
Proof. intros [s|[]| |s m e H]; simpl; intros; try discriminate; auto. Qed.

Lemma Bltb_xof : forall x y : b64, Bltb x y = xlt (xof x) (xof y).
Proof.
  intros x y.
  destruct (is_finite x) eqn:Fx; destruct (is_finite y) eqn:Fy.
  - rewrite (xof_fin x Fx), (xof_fin y Fy). simpl. apply Bltb_correct; auto.
  - destruct x as [s|[]| |s m e H]; try discriminate; destruct y as [s'|[]| |s' m' e' H'];
      try discriminate; try (destruct s); try reflexivity.
  - destruct x as [s|[]| |s m e H]; try discriminate; destruct y as [s'|[]| |s' m' e' H'];
      try discriminate; try (destruct s'); try reflexivity.
  - destruct x as [s|[]| |s m e H]; try discriminate; destruct y as [s'|[]| |s' m' e' H'];
      try discriminate; try reflexivity.
Qed.

Lemma is_nan_xof : forall x : b64, is_nan x = xisnan (xof x).
Proof. intros [s|[]| |s m e H]; reflexivity. Qed.

Notation fexp64 := (SpecFloat.fexp 53 1024).
Definition rnd64 (r : R) : R := round radix2 fexp64 ZnearestE r.

Lemma rnd64_mono : forall x y, x <= y -> rnd64 x <= rnd64 y.
Proof. intros. apply round_le; auto; typeclasses eauto. Qed.

Lemma rnd64_opp : forall x, rnd64 (- x) = - rnd64 x.
Proof. intros. apply round_NE_opp. Qed.

Lemma rnd64_0 : rnd64 0 = 0.
Proof. unfold rnd64. apply round_0. typeclasses eauto. Qed.

Lemma rnd64_val : forall x : b64, rnd64 (B2R x) = B2R x.
Proof.
  intros. unfold rnd64. apply round_generic; try typeclasses eauto. apply generic_format_B2R.
Qed.

Lemma rnd64_abs : forall x, Rabs (rnd64 x) = rnd64 (Rabs x).
Proof.
  intros x. unfold Rabs at 2. destruct (Rcase_abs x) as [H|H].
  - rewrite rnd64_opp. apply Rabs_left1. rewrite <- rnd64_0. apply rnd64_mono. lra.
  - apply Rabs_pos_eq. rewrite <- rnd64_0. apply rnd64_mono. lra.
Qed.

Definition ok64 (r : R) : Prop := Rabs (rnd64 r) < bpow radix2 1024.

Lemma ok64_mono : forall x y, Rabs x <= Rabs y -> ok64 y -> ok64 x.
Proof.
  intros x y H Hy. unfold ok64 in *. rewrite rnd64_abs in *.
  apply Rle_lt_trans with (2 := Hy). apply rnd64_mono; auto.
Qed.

(** a sufficient condition for no overflow *)
Lemma ok64_small : forall r, Rabs r <= bpow radix2 1023 -> ok64 r.
Proof.
  intros r H. unfold ok64. rewrite rnd64_abs.
  apply Rle_lt_trans with (bpow radix2 1023).
  - replace (bpow radix2 1023) with (rnd64 (bpow radix2 1023)).
    + apply rnd64_mono; auto.
    + apply round_generic; try typeclasses eauto. apply generic_format_bpow.
      unfold fexp64, SpecFloat.fexp, SpecFloat.emin. lia.
  - apply bpow_lt. lia.
Qed.

Lemma b64_of_Z_correct : forall z, (Z.abs z <= 2147483648)%Z ->
  is_finite (b64_of_Z z) = true /\ B2R (b64_of_Z z) = IZR z.
Proof.
  intros z Hz. unfold b64_of_Z.
  assert (E : F2R (Float radix2 z 0) = IZR z).
  { unfold F2R; simpl. ring. }
  assert (G : generic_format radix2 fexp64 (IZR z)).
  { rewrite <- E. apply generic_format_F2R. intros Hz0. unfold cexp.
    rewrite mag_F2R by exact Hz0. unfold fexp64, SpecFloat.fexp, SpecFloat.emin.
    assert (mag radix2 (IZR z) <= 32)%Z.
    { apply mag_le_bpow. { apply IZR_neq. exact Hz0. }
      rewrite <- abs_IZR. apply Rle_lt_trans with (IZR 2147483648). { apply IZR_le; lia. }
      rewrite <- (IZR_Zpower radix2) by lia. apply IZR_lt. reflexivity. }
    lia. }
  assert (Rn : round radix2 fexp64 (round_mode mode_NE) (F2R (Float radix2 z 0)) = IZR z).
  { rewrite E. apply round_generic; auto. simpl. typeclasses eauto. }
  generalize (binary_normalize_correct 53 1024 prec53 emax1024 mode_NE z 0 false).
  cbv zeta. rewrite Rn. rewrite Rlt_bool_true.
  - intros (H1 & H2 & _). auto.
  - rewrite <- abs_IZR. apply Rle_lt_trans with (IZR 2147483648). { apply IZR_le; lia. }
    apply Rlt_trans with (bpow radix2 60). 2: apply bpow_lt; lia.
    rewrite <- (IZR_Zpower radix2) by lia. apply IZR_lt. reflexivity.
Qed.

Lemma Badd64 : forall x y : b64, is_finite x = true -> is_finite y = true -> ok64 (B2R x + B2R y) ->
  is_finite (Bplus mode_NE x y) = true /\ B2R (Bplus mode_NE x y) = rnd64 (B2R x + B2R y).
Proof.
  intros x y Fx Fy O. generalize (Bplus_correct 53 1024 prec53 emax1024 mode_NE x y Fx Fy).
  simpl round_mode. unfold ok64, rnd64 in *. rewrite Rlt_bool_true by exact O.
  intros (H1 & H2 & _). auto.
Qed.

Lemma Bsub64 : forall x y : b64, is_finite x = true -> is_finite y = true -> ok64 (B2R x - B2R y) ->
  is_finite (Bminus mode_NE x y) = true /\ B2R (Bminus mode_NE x y) = rnd64 (B2R x - B2R y).
Proof.
  intros x y Fx Fy O. generalize (Bminus_correct 53 1024 prec53 emax1024 mode_NE x y Fx Fy).
  simpl round_mode. unfold ok64, rnd64 in *. rewrite Rlt_bool_true by exact O.
  intros (H1 & H2 & _). auto.
Qed.

Lemma Bmul64 : forall x y : b64, is_finite x = true -> is_finite y = true -> ok64 (B2R x * B2R y) ->
  is_finite (Bmult mode_NE x y) = true /\ B2R (Bmult mode_NE x y) = rnd64 (B2R x * B2R y).
Proof.
  intros x y Fx Fy O. generalize (Bmult_correct 53 1024 prec53 emax1024 mode_NE x y).
  simpl round_mode. unfold ok64, rnd64 in *. rewrite Rlt_bool_true by exact O.
  intros (H1 & H2 & _). rewrite Fx, Fy in H2. auto.
Qed.

Lemma Bdiv64 : forall x y : b64, is_finite x = true -> is_finite y = true -> B2R y <> 0 ->
  ok64 (B2R x / B2R y) ->
  is_finite (Bdiv mode_NE x y) = true /\ B2R (Bdiv mode_NE x y) = rnd64 (B2R x / B2R y).
Proof.
  intros x y Fx Fy Hy O. generalize (Bdiv_correct 53 1024 prec53 emax1024 mode_NE x y Hy).
  simpl round_mode. unfold ok64, rnd64 in *. rewrite Rlt_bool_true by exact O.
  intros (H1 & H2 & _). rewrite Fx in H2. auto.
Qed.

Lemma B64_int : forall z, (Z.abs z <= 2147483648)%Z ->
  is_finite (@nZ B64 z : b64) = true /\ B2R (@nZ B64 z : b64) = IZR z.
Proof.
  intros z Hz. change (@nZ B64 z : b64) with (Bdiv mode_NE (b64_of_Z z) (b64_of_Z 1)).
  destruct (b64_of_Z_correct z Hz) as [F1 V1].
  destruct (b64_of_Z_correct 1 ltac:(lia)) as [F2 V2].
  assert (E : IZR z / 1 = IZR z) by field.
  assert (R1 : rnd64 (IZR z) = IZR z) by (rewrite <- V1; apply rnd64_val).
  destruct (Bdiv64 (b64_of_Z z) (b64_of_Z 1) F1 F2) as [F3 V3].
  - rewrite V2. apply R1_neq_R0.
  - rewrite V1, V2, E. unfold ok64. rewrite R1, <- V1. apply abs_B2R_lt_emax.
  - split; auto. rewrite V3, V1, V2, E. exact R1.
Qed.

Definition B64_laws : fl_laws B64.
Proof.
  refine {| fin := (fun x => is_finite (x : b64) = true) : num B64 -> Prop;
            val := (@B2R 53 1024 : num B64 -> R); rnd := rnd64; ok := ok64 |}; simpl.
  - apply rnd64_mono.
  - intros x _. apply rnd64_val.
  - intros x _. unfold ok64. rewrite rnd64_val. apply abs_B2R_lt_emax.
  - apply ok64_mono.
  - intros x y Fx Fy. rewrite Bltb_correct by assumption. apply Rlt_bool_iff.
  - intros x y Fx Fy. rewrite Bleb_correct by assumption.
    destruct (Rle_bool_spec (B2R x) (B2R y)); split; intros; try lra; try discriminate; auto.
  - intros x y Fx Fy. rewrite Beqb_correct by assumption. apply Req_bool_iff.
  - apply Badd64.
  - apply Bsub64.
  - apply Bmul64.
  - apply Bdiv64.
  - intros x. rewrite Bltb_xof. apply xlt_irrefl.
  - intros x y z. rewrite !Bltb_xof. apply xlt_trans.
  - intros x y Fy. rewrite Bltb_xof. intros H.
    destruct (xlt_below (xof x) (xof y)) as [H1|H1]; auto.
    + rewrite (xof_fin y Fy). exact I.
    + left. destruct x as [s|[]| |s m e Hx]; simpl in *; auto; contradiction.
    + right. intros z Fz. rewrite Bltb_xof. apply H1. rewrite (xof_fin z Fz). exact I.
  - intros x y z. rewrite !Bltb_xof, is_nan_xof. apply xlt_neg_trans.
  - intros x y. rewrite Bltb_xof, !is_nan_xof. apply xlt_notnan.
  - intros [s|[]| |s m e H]; simpl; auto.
  - apply B64_int.
Defined.

(** ** Consequences used by several files *)
Section Laws.
Context {A : arith} (L : fl_laws A).

Lemma lt_fin_false : forall x y, fin L x -> fin L y -> (nlt x y = false <-> val L y <= val L x).
Proof.
  intros x y Fx Fy. destruct (nlt x y) eqn:E.
  - apply (lt_fin A L) in E; auto. split; intros; try discriminate. lra.
  - split; auto. intros _. apply Rnot_lt_le. intros H. apply (lt_fin A L) in H; auto. congruence.
Qed.

Lemma eq_fin_false : forall x y, fin L x -> fin L y -> (neq x y = false <-> val L x <> val L y).
Proof.
  intros x y Fx Fy. destruct (neq x y) eqn:E.
  - apply (eq_fin A L) in E; auto. split; intros; try discriminate. contradiction.
  - split; auto. intros _ H. apply (eq_fin A L) in H; auto. congruence.
Qed.

Lemma int_lit : forall z, (Z.abs z <= 2147483648)%Z -> fin L (nZ z).
Proof. intros. apply (int_fin A L); auto. Qed.

Lemma int_val : forall z, (Z.abs z <= 2147483648)%Z -> val L (nZ z) = IZR z.
Proof. intros. apply (int_fin A L); auto. Qed.

End Laws.
