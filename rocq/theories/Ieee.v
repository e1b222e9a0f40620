(** * IEEE rules on zeros, NaNs and non-finite numbers, for both arithmetics *)
From Coq Require Import Reals ZArith Bool Lra Lia.
From Flocq Require Import Core BinarySingleNaN.
From Verif Require Import Arith ArithLaws IterModel.

Record ieee (A : arith) : Type := mkIeee {
  fin : num A -> Prop;
  zer : num A -> Prop;
  fin_dec : forall x : num A, {fin x} + {~ fin x};
  zer_n0 : zer n0;
  zer_fin : forall x : num A, zer x -> fin x;
  zer_eq : forall a b : num A, neq a b = true -> zer b -> zer a;
  add_zz : forall a b : num A, zer a -> zer b -> zer (nadd a b);
  sub_zz : forall a b : num A, zer a -> zer b -> zer (nsub a b);
  mul_zf : forall a b : num A, zer a -> fin b -> zer (nmul a b);
  mul_fz : forall a b : num A, fin a -> zer b -> zer (nmul a b);
  mul_zn : forall a b : num A, zer a -> ~ fin b -> nisnan (nmul a b) = true;
  mul_nz : forall a b : num A, ~ fin a -> zer b -> nisnan (nmul a b) = true;
  div_zz : forall a b : num A, zer a -> zer b -> nisnan (ndiv a b) = true;
  div_nf : forall a b : num A, ~ fin b -> zer (ndiv a b) \/ ~ fin (ndiv a b);
  opp_fin : forall a : num A, fin a -> fin (nopp a);
  nan_fin : forall a : num A, nisnan a = true -> ~ fin a;
  nan_add_l : forall a b : num A, nisnan a = true -> nisnan (nadd a b) = true;
  nan_add_r : forall a b : num A, nisnan b = true -> nisnan (nadd a b) = true;
  nan_sub_l : forall a b : num A, nisnan a = true -> nisnan (nsub a b) = true;
  nan_sub_r : forall a b : num A, nisnan b = true -> nisnan (nsub a b) = true;
  nan_mul_l : forall a b : num A, nisnan a = true -> nisnan (nmul a b) = true;
  nan_mul_r : forall a b : num A, nisnan b = true -> nisnan (nmul a b) = true;
  nan_div_r : forall a b : num A, nisnan b = true -> nisnan (ndiv a b) = true;
  nan_abs : forall a : num A, nisnan a = true -> nisnan (nabs a) = true;
  nan_sqrt : forall a : num A, nisnan a = true -> nisnan (nsqrt a) = true;
  nf_add_l : forall a b : num A, ~ fin a -> ~ fin (nadd a b);
  nf_add_r : forall a b : num A, ~ fin b -> ~ fin (nadd a b);
  nf_sub_l : forall a b : num A, ~ fin a -> ~ fin (nsub a b);
  nf_mul_l : forall a b : num A, ~ fin a -> ~ fin (nmul a b);
  nf_mul_r : forall a b : num A, ~ fin b -> ~ fin (nmul a b);
  eq_refl_fin : forall a : num A, fin a -> neq a a = true;
  eq_add_z : forall a b z : num A, neq a b = true -> zer z -> neq (nadd a z) b = true;
  eq_z_add : forall z c : num A, zer z -> fin c -> neq (nadd z c) c = true
}.

Arguments fin {_} _ _. Arguments zer {_} _ _.

Local Open Scope R_scope.

(** ** Exact arithmetic *)
Definition xzer (x : xr) : Prop := x = Fin 0.

Lemma inf_times_0 : forall p, inf_times p 0 = NaN.
Proof. intros p. unfold inf_times. rewrite !Rlt_bool_false by lra. reflexivity. Qed.
Lemma inf_times_nf : forall p r, ~ xfin (inf_times p r).
Proof. intros p r. unfold inf_times. destruct (Rlt_bool 0 r), (Rlt_bool r 0), p; simpl; auto. Qed.

Ltac xcases := repeat match goal with
  | x : xr |- _ => destruct x
  end.
Ltac xt := intros; unfold xzer in *; subst; xcases; simpl in *; try tauto; try discriminate; try congruence;
  try (rewrite inf_times_0; reflexivity); try apply inf_times_nf; auto.

Definition XA_ieee : ieee XA.
Proof.
  refine {| fin := xfin : num XA -> Prop; zer := xzer : num XA -> Prop |}.
  - intros [r| | |]; simpl; auto.
  - unfold xzer, n0. cbn. f_equal. lra.
  - intros x ->. exact I.
  - intros a b H ->. unfold xzer. destruct a; simpl in H; try discriminate. apply Req_bool_iff in H. subst. reflexivity.
  - intros a b -> ->. unfold xzer. cbn. f_equal. lra.
  - intros a b -> ->. unfold xzer. cbn. f_equal. lra.
  - intros a b -> H. unfold xzer. destruct b; simpl in H; try tauto. cbn. f_equal. lra.
  - intros a b H ->. unfold xzer. destruct a; simpl in H; try tauto. cbn. f_equal. lra.
  - intros a b -> H. destruct b; simpl in H; try tauto; cbn; try rewrite inf_times_0; reflexivity.
  - intros a b H ->. destruct a; simpl in H; try tauto; cbn; try rewrite inf_times_0; reflexivity.
  - intros a b -> ->. cbn. rewrite !Req_bool_true by reflexivity. reflexivity.
  - intros a b H. destruct b; simpl in H; try tauto; destruct a; cbn; auto; left; reflexivity.
  - intros a H. destruct a; simpl in H; try tauto; exact I.
  - intros a H. destruct a; simpl in H; try discriminate. simpl. auto.
  - intros a b H. destruct a, b; simpl in *; auto; discriminate.
  - intros a b H. destruct a, b; simpl in *; auto; discriminate.
  - intros a b H. destruct a, b; simpl in *; auto; discriminate.
  - intros a b H. destruct a, b; simpl in *; auto; discriminate.
  - intros a b H. destruct a, b; simpl in *; auto; discriminate.
  - intros a b H. destruct a, b; simpl in *; auto; discriminate.
  - intros a b H. destruct a, b; simpl in *; auto; discriminate.
  - intros a H. destruct a; simpl in *; auto; discriminate.
  - intros a H. destruct a; simpl in *; auto; discriminate.
  - intros a b H. destruct a, b; simpl in *; auto.
  - intros a b H. destruct a, b; simpl in *; auto.
  - intros a b H. destruct a, b; simpl in *; auto.
  - intros a b H. destruct a, b; simpl in *; auto; apply inf_times_nf.
  - intros a b H. destruct a, b; simpl in *; auto; apply inf_times_nf.
  - intros a H. destruct a; simpl in *; try tauto. apply Req_bool_true. reflexivity.
  - intros a b z H ->. destruct a, b; simpl in *; try discriminate; auto.
    apply Req_bool_iff in H. apply Req_bool_true. lra.
  - intros z c -> H. destruct c; simpl in *; try tauto. apply Req_bool_true. lra.
Defined.

(** ** binary64 *)
Definition bfin (x : b64) : Prop := is_finite x = true.
Definition bzer (x : b64) : Prop := match x with B754_zero _ => True | _ => False end.

Ltac bc a := destruct a as [? | ? | | ? ? ? ?].

Lemma opp64_fin : forall a : b64, bfin a -> bfin (nopp (A := B64) a).
Proof.
  intros a H. unfold nopp, bfin. cbn [nmul B64].
  destruct (B64_int (-1) ltac:(lia)) as [F1 V1].
  destruct (Bmul64 (nZ (A := B64) (-1)) a F1 H) as [F _].
  - rewrite V1. replace (-1 * B2R a) with (- B2R a) by lra.
    unfold ok64. rewrite rnd64_opp, Rabs_Ropp, rnd64_val. apply abs_B2R_lt_emax.
  - exact F.
Qed.

Lemma Beqb_refl : forall a : b64, bfin a -> Beqb a a = true.
Proof. intros a H. rewrite Beqb_correct by exact H. apply Req_bool_true. reflexivity. Qed.

Definition B64_ieee : ieee B64.
Proof.
  refine {| fin := bfin : num B64 -> Prop; zer := bzer : num B64 -> Prop |}.
  - intros x. unfold bfin. destruct (is_finite x); auto.
  - exact I.
  - intros x H. destruct x; simpl in H; try tauto. reflexivity.
  - intros a b H Hz. destruct b; simpl in Hz; try tauto. destruct a as [ | [] | | [] ? ? ?]; cbn in H; try discriminate. exact I.
  - intros a b Ha Hb. destruct a, b; simpl in *; try tauto. destruct s, s0; exact I.
  - intros a b Ha Hb. destruct a, b; simpl in *; try tauto. destruct s, s0; exact I.
  - intros a b Ha Hb. unfold bfin in Hb. destruct a, b; simpl in *; try tauto; discriminate.
  - intros a b Ha Hb. unfold bfin in Ha. destruct a, b; simpl in *; try tauto; discriminate.
  - intros a b Ha Hb. unfold bfin in Hb. destruct a, b; simpl in *; try tauto.
  - intros a b Ha Hb. unfold bfin in Ha. destruct a, b; simpl in *; try tauto.
  - intros a b Ha Hb. destruct a, b; simpl in *; try tauto.
  - intros a b Hb. unfold bfin in *. destruct a, b; simpl in *; try tauto; auto; right; discriminate.
  - exact opp64_fin.
  - intros a H. unfold bfin. destruct a; simpl in *; discriminate.
  - intros a b H. destruct a, b; simpl in *; auto; discriminate.
  - intros a b H. destruct a, b; simpl in *; auto; discriminate.
  - intros a b H. destruct a, b; simpl in *; auto; discriminate.
  - intros a b H. destruct a, b; simpl in *; auto; discriminate.
  - intros a b H. destruct a, b; simpl in *; auto; discriminate.
  - intros a b H. destruct a, b; simpl in *; auto; discriminate.
  - intros a b H. destruct a, b; simpl in *; auto; discriminate.
  - intros a H. destruct a; simpl in *; auto; discriminate.
  - intros a H. destruct a; simpl in *; auto; discriminate.
  - intros a b H. unfold bfin in *. destruct a as [?|[]| |? ? ? ?], b as [?|[]| |? ? ? ?]; simpl in *; try tauto; discriminate.
  - intros a b H. unfold bfin in *. destruct a as [?|[]| |? ? ? ?], b as [?|[]| |? ? ? ?]; simpl in *; try tauto; discriminate.
  - intros a b H. unfold bfin in *. destruct a as [?|[]| |? ? ? ?], b as [?|[]| |? ? ? ?]; simpl in *; try tauto; discriminate.
  - intros a b H. unfold bfin in *. destruct a as [?|[]| |? ? ? ?], b as [?|[]| |? ? ? ?]; simpl in *; try tauto; discriminate.
  - intros a b H. unfold bfin in *. destruct a as [?|[]| |? ? ? ?], b as [?|[]| |? ? ? ?]; simpl in *; try tauto; discriminate.
  - exact Beqb_refl.
  - intros a b z H Hz. destruct z; simpl in Hz; try tauto.
    destruct a as [s0|[]| |? ? ? ?]; try exact H.
    destruct s0, s; exact H.
  - intros z c Hz Hc. destruct z; simpl in Hz; try tauto.
    destruct c as [s0|s0| |s0 m e He]; try (unfold bfin in Hc; simpl in Hc; discriminate).
    + destruct s, s0; reflexivity.
    + exact (Beqb_refl (B754_finite s0 m e He) Hc).
Defined.
