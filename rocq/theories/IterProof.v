(** * Facts on the solvers that hold in any arithmetic *)
From Coq Require Import List ZArith Bool Lia.
From Verif Require Import Arith SparseModel SparseProof IterModel.
Import ListNotations.

Ltac dnan H := match type of H with context [nisnan ?a] => destruct (nisnan a) end.

Section proof.
Context {A : arith}.
Notation vect := (list (num A)).
Implicit Types (it : iteration A) (nr : num A).

(** the residual test *)
Definition small it nr : bool := negb (nisnan (nabs nr)) && nle (nabs nr) (nmul (rhsn it) (resmax it)).

Record same_params it it' : Prop := mkSame {
  sp_rhsn : rhsn it' = rhsn it; sp_max : maxiter it' = maxiter it; sp_noise : noise it' = noise it;
  sp_resmax : resmax it' = resmax it }.

Lemma same_refl : forall it, same_params it it.
Proof. constructor; reflexivity. Qed.
Lemma same_trans : forall a b c, same_params a b -> same_params b c -> same_params a c.
Proof. intros a b c H K. destruct H, K. constructor; congruence. Qed.

Lemma finished_spec : forall it nr b it', finished it nr = (b, it') ->
  b = small it nr /\ same_params it it' /\ nit it' = nit it /\ res it' = nabs nr /\
  status it' = (if nisnan (nabs nr) then CANNOT_CONVERGE else if b then CONVERGED else status it).
Proof.
  intros it nr b it' H. unfold finished, converged, converged0, small in *.
  destruct it as [rh mx no ni re wr st rm].
  cbn [rhsn maxiter noise nit res written status resmax set_status snd negb andb] in *.
  destruct (nisnan (nabs nr)) eqn:En; cbn [negb andb].
  - destruct (no && negb wr); cbn [rhsn maxiter noise nit res written status resmax set_status snd] in H; rewrite ?En in H;
      inversion H; subst; repeat split; reflexivity.
  - destruct (nle (nabs nr) (nmul rh rm)) eqn:Ec;
      (destruct (no && negb wr); cbn [rhsn maxiter noise nit res written status resmax set_status snd] in H;
       rewrite ?En, ?Ec in H; inversion H; subst; repeat split; reflexivity).
Qed.

Lemma incr_spec : forall it, same_params it (incr it) /\ nit (incr it) = (nit it + 1)%Z /\
  status (incr it) = if (maxiter it <=? nit it + 1)%Z then ITER_OVERFLOW else status it.
Proof.
  intros [rh mx no ni re wr st rm]. unfold incr. cbn. destruct (mx <=? ni + 1)%Z; cbn; repeat split.
Qed.

(** ** bicg *)
Section bicg_sec.
Variables (M : matrix A) (ld : list nat) (D rt : vect).

Lemma bicg_pass_stop : forall s it x, bicg_pass M ld D rt s = Stop it x ->
  same_params (b_it s) it /\ nit it = nit (b_it s) /\
  (status it = CONVERGED \/ status it = ITER_OVERFLOW \/ status it = CANNOT_CONVERGE).
Proof.
  intros s it x H. unfold bicg_pass in H.
  destruct (finished (b_it s) (vnorm2 (b_r s))) as [f1 it1] eqn:E1.
  apply finished_spec in E1. destruct E1 as (B1 & P1 & N1 & R1 & S1).
  destruct f1.
  - inversion H; subst. repeat split; auto; try apply P1. rewrite S1.
    destruct (nisnan (nabs (vnorm2 (b_r s)))); auto.
  - cbv zeta in H. destruct ((0 <? nit it1)%Z && _).
    + inversion H; subst. simpl. repeat split; auto; apply P1.
    + destruct (finished it1 _) as [f2 it2] eqn:E2. apply finished_spec in E2.
      destruct E2 as (B2 & P2 & N2 & R2 & S2). pose proof (same_trans _ _ _ P1 P2) as P.
      destruct f2.
      * inversion H; subst it x. split; [exact P|split; [congruence|]]. rewrite S2.
        match goal with |- context [nisnan ?a] => destruct (nisnan a) end; auto.
      * destruct (is_stop (status it2)) eqn:Es; [|discriminate]. inversion H; subst it x.
        split; [exact P|split; [congruence|]]. destruct (status it2); simpl in Es; auto; discriminate.
Qed.

Lemma bicg_pass_next : forall s s', bicg_pass M ld D rt s = Next s' ->
  same_params (b_it s) (b_it s') /\ nit (b_it s') = (nit (b_it s) + 1)%Z /\
  status (b_it s) <> ITER_OVERFLOW /\
  ((maxiter (b_it s) <= nit (b_it s'))%Z -> status (b_it s') = ITER_OVERFLOW).
Proof.
  intros s s' H. unfold bicg_pass in H.
  destruct (finished (b_it s) (vnorm2 (b_r s))) as [f1 it1] eqn:E1.
  apply finished_spec in E1. destruct E1 as (B1 & P1 & N1 & R1 & S1).
  destruct f1; [discriminate|].
  cbv zeta in H. destruct ((0 <? nit it1)%Z && _); [discriminate|].
  destruct (finished it1 _) as [f2 it2] eqn:E2. apply finished_spec in E2.
  destruct E2 as (B2 & P2 & N2 & R2 & S2). pose proof (same_trans _ _ _ P1 P2) as P.
  destruct f2; [discriminate|]. destruct (is_stop (status it2)) eqn:Es; [discriminate|].
  inversion H; subst s'; clear H. cbn [b_it]. destruct (incr_spec it2) as (P3 & N3 & S3).
  split; [|split; [|split]].
  - exact (same_trans _ _ _ P P3).
  - lia.
  - intros Eo. rewrite S2 in Es. dnan Es; simpl in Es; [discriminate|].
    rewrite S1 in Es. dnan Es; simpl in Es; [discriminate|]. rewrite Eo in Es. discriminate.
  - intros Hle. rewrite S3. rewrite N3 in Hle. rewrite (sp_max _ _ P). destruct (Z.leb_spec (maxiter (b_it s)) (nit it2 + 1)); auto. lia.
Qed.

Lemma bicg_loop_ends : forall k s fuel,
  (Z.to_nat (maxiter (b_it s) - nit (b_it s)) <= k)%nat ->
  (S (Nat.max 1 k) <= fuel)%nat \/ (status (b_it s) = ITER_OVERFLOW /\ (1 <= fuel)%nat) ->
  exists it x, bicg_loop fuel M ld D rt s = Some (it, x) /\ same_params (b_it s) it /\
    (nit (b_it s) <= nit it <= Z.max (nit (b_it s) + 1) (maxiter (b_it s)))%Z /\
    (status it = CONVERGED \/ status it = ITER_OVERFLOW \/ status it = CANNOT_CONVERGE) /\
    (status (b_it s) = ITER_OVERFLOW -> nit it = nit (b_it s)).
Proof.
  induction k as [|k IH]; intros s fuel Hk Hf; (destruct fuel as [|fuel]; [exfalso; lia|]);
    cbn [bicg_loop]; destruct (bicg_pass M ld D rt s) as [it x|s'] eqn:E.
  - apply bicg_pass_stop in E. destruct E as (P & N & S). exists it, x. split; auto. split; auto. split; [lia|]. auto.
  - destruct (bicg_pass_next _ _ E) as (P & N & S & O).
    assert (Ho : status (b_it s') = ITER_OVERFLOW) by (apply O; lia).
    destruct fuel as [|fuel]. { exfalso. destruct Hf as [Hf|[Hf _]]; [lia|contradiction]. }
    cbn [bicg_loop]. destruct (bicg_pass M ld D rt s') as [it x|s''] eqn:E'.
    + apply bicg_pass_stop in E'. destruct E' as (P' & N' & S'). exists it, x. split; auto.
      split. { exact (same_trans _ _ _ P P'). } split; [lia|]. split; auto. intros K. contradiction.
    + apply bicg_pass_next in E'. destruct E' as (_ & _ & S' & _). contradiction.
  - apply bicg_pass_stop in E. destruct E as (P & N & S). exists it, x. split; auto. split; auto. split; [lia|]. auto.
  - destruct (bicg_pass_next _ _ E) as (P & N & S & O).
    destruct (IH s' fuel) as (it & x & F & P' & N' & S' & K).
    + rewrite (sp_max _ _ P), N. lia.
    + destruct Hf as [Hf|[Hf _]]; [|contradiction]. destruct k as [|k].
      * right. split; [apply O|]; lia.
      * left. lia.
    + exists it, x. split; auto. split. { exact (same_trans _ _ _ P P'). }
      split. { rewrite (sp_max _ _ P) in N'.
        destruct (Z_le_gt_dec (maxiter (b_it s)) (nit (b_it s'))) as [Hle|Hgt].
        - rewrite K by (apply O; exact Hle). lia.
        - lia. }
      split; auto. intros Q. contradiction.
Qed.

Lemma bicg_loop_fuel : forall fuel fuel' s r, bicg_loop fuel M ld D rt s = Some r -> (fuel <= fuel')%nat ->
  bicg_loop fuel' M ld D rt s = Some r.
Proof.
  induction fuel as [|fuel IH]; intros fuel' s r H Hl; [discriminate|].
  destruct fuel' as [|fuel']; [lia|]. cbn [bicg_loop] in *.
  destruct (bicg_pass M ld D rt s); auto. apply IH; auto. lia.
Qed.
End bicg_sec.

(** ** cg *)
Section cg_sec.
Variables (M : matrix A) (ld : list nat) (D : vect).

Lemma cg_pass_stop : forall s it x, cg_pass M ld D s = Stop it x ->
  same_params (c_it s) it /\ nit it = nit (c_it s) /\
  (status it = CONVERGED \/ status it = ITER_OVERFLOW \/ status it = CANNOT_CONVERGE).
Proof.
  intros s it x H. unfold cg_pass in H.
  destruct (finished (c_it s) (vnorm2 (c_r s))) as [f1 it1] eqn:E1.
  apply finished_spec in E1. destruct E1 as (B1 & P1 & N1 & R1 & S1).
  destruct (f1 || is_stop (status it1)) eqn:Ef.
  - inversion H; subst it x. repeat split; try apply P1; auto. apply orb_prop in Ef. destruct Ef as [->|Es].
    + rewrite S1. match goal with |- context [nisnan ?a] => destruct (nisnan a) end; auto.
    + destruct (status it1); simpl in Es; auto; discriminate.
  - destruct (if (0 <? nit it1)%Z then _ else _) as [p rho].
    cbv zeta in H. destruct (neq _ n0); [|discriminate]. inversion H; subst it x. simpl.
    repeat split; try apply P1; auto.
Qed.

Lemma cg_pass_next : forall s s', cg_pass M ld D s = Next s' ->
  same_params (c_it s) (c_it s') /\ nit (c_it s') = (nit (c_it s) + 1)%Z /\
  status (c_it s) <> ITER_OVERFLOW /\
  ((maxiter (c_it s) <= nit (c_it s'))%Z -> status (c_it s') = ITER_OVERFLOW).
Proof.
  intros s s' H. unfold cg_pass in H.
  destruct (finished (c_it s) (vnorm2 (c_r s))) as [f1 it1] eqn:E1.
  apply finished_spec in E1. destruct E1 as (B1 & P1 & N1 & R1 & S1).
  destruct (f1 || is_stop (status it1)) eqn:Ef; [discriminate|].
  destruct (if (0 <? nit it1)%Z then _ else _) as [p rho].
  cbv zeta in H. destruct (neq _ n0); [discriminate|]. inversion H; subst s'; clear H. cbn [c_it].
  destruct (incr_spec it1) as (P3 & N3 & S3). apply orb_false_elim in Ef. destruct Ef as [-> Es].
  split; [|split; [|split]].
  - exact (same_trans _ _ _ P1 P3).
  - lia.
  - intros Eo. rewrite S1 in Es. dnan Es; simpl in Es; [discriminate|]. rewrite Eo in Es. discriminate.
  - intros Hle. rewrite S3. rewrite N3 in Hle. rewrite (sp_max _ _ P1). destruct (Z.leb_spec (maxiter (c_it s)) (nit it1 + 1)); auto. lia.
Qed.

Lemma cg_loop_ends : forall k s fuel,
  (Z.to_nat (maxiter (c_it s) - nit (c_it s)) <= k)%nat ->
  (S (Nat.max 1 k) <= fuel)%nat \/ (status (c_it s) = ITER_OVERFLOW /\ (1 <= fuel)%nat) ->
  exists it x, cg_loop fuel M ld D s = Some (it, x) /\ same_params (c_it s) it /\
    (nit (c_it s) <= nit it <= Z.max (nit (c_it s) + 1) (maxiter (c_it s)))%Z /\
    (status it = CONVERGED \/ status it = ITER_OVERFLOW \/ status it = CANNOT_CONVERGE) /\
    (status (c_it s) = ITER_OVERFLOW -> nit it = nit (c_it s)).
Proof.
  induction k as [|k IH]; intros s fuel Hk Hf; (destruct fuel as [|fuel]; [exfalso; lia|]);
    cbn [cg_loop]; destruct (cg_pass M ld D s) as [it x|s'] eqn:E.
  - apply cg_pass_stop in E. destruct E as (P & N & S). exists it, x. split; auto. split; auto. split; [lia|]. auto.
  - destruct (cg_pass_next _ _ E) as (P & N & S & O).
    assert (Ho : status (c_it s') = ITER_OVERFLOW) by (apply O; lia).
    destruct fuel as [|fuel]. { exfalso. destruct Hf as [Hf|[Hf _]]; [lia|contradiction]. }
    cbn [cg_loop]. destruct (cg_pass M ld D s') as [it x|s''] eqn:E'.
    + apply cg_pass_stop in E'. destruct E' as (P' & N' & S'). exists it, x. split; auto.
      split. { exact (same_trans _ _ _ P P'). } split; [lia|]. split; auto. intros K. contradiction.
    + apply cg_pass_next in E'. destruct E' as (_ & _ & S' & _). contradiction.
  - apply cg_pass_stop in E. destruct E as (P & N & S). exists it, x. split; auto. split; auto. split; [lia|]. auto.
  - destruct (cg_pass_next _ _ E) as (P & N & S & O).
    destruct (IH s' fuel) as (it & x & F & P' & N' & S' & K).
    + rewrite (sp_max _ _ P), N. lia.
    + destruct Hf as [Hf|[Hf _]]; [|contradiction]. destruct k as [|k].
      * right. split; [apply O|]; lia.
      * left. lia.
    + exists it, x. split; auto. split. { exact (same_trans _ _ _ P P'). }
      split. { rewrite (sp_max _ _ P) in N'.
        destruct (Z_le_gt_dec (maxiter (c_it s)) (nit (c_it s'))) as [Hle|Hgt].
        - rewrite K by (apply O; exact Hle). lia.
        - lia. }
      split; auto. intros Q. contradiction.
Qed.

Lemma cg_loop_fuel : forall fuel fuel' s r, cg_loop fuel M ld D s = Some r -> (fuel <= fuel')%nat ->
  cg_loop fuel' M ld D s = Some r.
Proof.
  induction fuel as [|fuel IH]; intros fuel' s r H Hl; [discriminate|].
  destruct fuel' as [|fuel']; [lia|]. cbn [cg_loop] in *.
  destruct (cg_pass M ld D s); auto. apply IH; auto. lia.
Qed.
End cg_sec.
End proof.
