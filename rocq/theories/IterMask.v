(** * Masked unknowns are never changed, unless the solver reports CANNOT_CONVERGE *)
From Coq Require Import List ZArith Arith Bool Lia.
From Verif Require Import Arith SparseModel SparseProof IterModel IterProof Ieee.
Import ListNotations.

Section vect_lemmas.
Context {A : arith}.
Notation vect := (list (num A)).
Implicit Types (X Y : vect).

Lemma zip_length : forall f X Y, length Y = length X -> length (zip_with f X Y) = length X.
Proof. induction X; destruct Y; simpl; intros; try discriminate; auto. Qed.

Lemma zip_nth : forall f X Y i, length Y = length X -> i < length X ->
  nth i (zip_with f X Y) n0 = f (nth i X n0) (nth i Y n0).
Proof. induction X; destruct Y, i; simpl; intros; try lia; auto. apply IHX; lia. Qed.

Lemma mask_length : forall ld X, length (applyMask ld X) = length X.
Proof.
  unfold applyMask. induction ld as [|i ld IH]; intros X; simpl; auto. rewrite IH. apply set_nth_length.
Qed.

Lemma mask_nth_out : forall ld X i, ~ In i ld -> nth i (applyMask ld X) n0 = nth i X n0.
Proof.
  unfold applyMask. induction ld as [|j ld IH]; intros X i H; simpl; auto.
  rewrite IH by (simpl in H; tauto).
  destruct (Nat.lt_ge_cases j (length X)) as [Hl|Hl].
  - rewrite set_nth_nth by exact Hl. destruct (j =? i) eqn:E; auto. apply Nat.eqb_eq in E. simpl in H. tauto.
  - assert (E : set_nth j n0 X = X).
    { clear -Hl. revert j Hl. induction X; destruct j; simpl; intros; auto; try lia. f_equal. apply IHX. lia. }
    rewrite E. reflexivity.
Qed.

Lemma mask_nth_in : forall ld X i, In i ld -> i < length X -> nth i (applyMask ld X) n0 = n0.
Proof.
  intros ld. induction ld as [|j ld IH]; intros X i H Hi. { destruct H. }
  change (applyMask (j :: ld) X) with (applyMask ld (set_nth j n0 X)).
  destruct (in_dec Nat.eq_dec i ld) as [Hin|Hn].
  - apply IH; auto. rewrite set_nth_length. exact Hi.
  - destruct H as [->|H]; [|contradiction]. rewrite mask_nth_out by exact Hn.
    rewrite set_nth_nth by exact Hi. rewrite Nat.eqb_refl. reflexivity.
Qed.

Lemma scaled_nth : forall a X i, i < length X -> nth i (scaled a X) n0 = nmul (nth i X n0) a.
Proof.
  intros a X i H. unfold scaled. rewrite (nth_indep _ n0 (nmul n0 a)) by (rewrite map_length; exact H).
  apply (map_nth (fun y => nmul y a)).
Qed.

Lemma mmult_nth : forall (M : matrix A) X i r, nth_error M i = Some r -> nth i (mmult M X) n0 = row_dot r X.
Proof.
  intros M X i r H. unfold mmult. apply nth_error_nth. rewrite nth_error_map, H. reflexivity.
Qed.

Lemma mmult_length : forall (M : matrix A) X, length (mmult M X) = length M.
Proof. intros. unfold mmult. apply map_length. Qed.

Lemma diag_length : forall M : matrix A, length (diag_precond M) = length M.
Proof. intros. unfold diag_precond. rewrite map_length, seq_length. reflexivity. Qed.

Lemma len_zip : forall k f X Y, length X = k -> length Y = k -> length (zip_with f X Y) = k.
Proof. intros. rewrite zip_length; congruence. Qed.
Lemma len_scaled : forall k a X, length X = k -> length (scaled a X) = k.
Proof. intros. unfold scaled. rewrite map_length. assumption. Qed.
Lemma len_mask : forall k ld X, length X = k -> length (applyMask ld X) = k.
Proof. intros. rewrite mask_length. assumption. Qed.
End vect_lemmas.

Ltac len := unfold vadd_to, vsub_from, scaled_add, p_direct; repeat first
  [ assumption | reflexivity | apply len_zip | apply len_scaled | apply len_mask | apply mmult_length | apply diag_length ].
(** [nth i (zip_with f X Y)] for vectors of the size of the matrix *)
Lemma zip_nth' : forall {A : arith} k f (X Y : list (num A)) i, length X = k -> length Y = k -> i < k ->
  nth i (zip_with f X Y) n0 = f (nth i X n0) (nth i Y n0).
Proof. intros. apply zip_nth; lia. Qed.
Lemma scaled_nth' : forall {A : arith} k a (X : list (num A)) i, length X = k -> i < k ->
  nth i (scaled a X) n0 = nmul (nth i X n0) a.
Proof. intros. apply scaled_nth; lia. Qed.

Section ieee_sec.
Context {A : arith} (L : ieee A).
Notation vect := (list (num A)).
Notation isnan x := (nisnan x = true).
Notation fin := (fin L). Notation zer := (zer L).
Implicit Types (X Y : vect).

(** absorbing terms in an accumulation *)
Lemma fold_nf : forall {T} (g : T -> num A) l acc, (exists y, In y l /\ ~ fin (g y)) \/ ~ fin acc ->
  ~ fin (fold_left (fun a y => nadd a (g y)) l acc).
Proof.
  intros T g. induction l as [|y l IH]; intros acc H; simpl.
  - destruct H as [(y & [] & _)|H]; auto.
  - apply IH. destruct H as [(z & [->|Hz] & Hn)|H].
    + right. apply nf_add_r. exact Hn.
    + left. eauto.
    + right. apply nf_add_l. exact H.
Qed.

Lemma fold_nan : forall {T} (g : T -> num A) l acc, (exists y, In y l /\ isnan (g y)) \/ isnan acc ->
  isnan (fold_left (fun a y => nadd a (g y)) l acc).
Proof.
  intros T g. induction l as [|y l IH]; intros acc H; simpl.
  - destruct H as [(y & [] & _)|H]; auto.
  - apply IH. destruct H as [(z & [->|Hz] & Hn)|H].
    + right. apply (nan_add_r A L). exact Hn.
    + left. eauto.
    + right. apply (nan_add_l A L). exact H.
Qed.

Lemma fold_zer : forall {T} (g : T -> num A) l acc, (forall y, In y l -> zer (g y)) -> zer acc ->
  zer (fold_left (fun a y => nadd a (g y)) l acc).
Proof.
  intros T g. induction l as [|y l IH]; intros acc H Ha; simpl; auto.
  apply IH. { intros. apply H. simpl. auto. } apply add_zz; auto. apply H. simpl. auto.
Qed.

Lemma combine_nth_in : forall X Y i, length Y = length X -> i < length X -> In (nth i X n0, nth i Y n0) (combine X Y).
Proof.
  induction X; destruct Y, i; simpl; intros; try lia; auto. right. apply IHX; lia.
Qed.

Lemma dot_nf : forall X Y i, length Y = length X -> i < length X -> ~ fin (nmul (nth i X n0) (nth i Y n0)) ->
  ~ fin (vdot X Y).
Proof.
  intros X Y i Hl Hi H. unfold vdot. apply (fold_nf (fun xy => nmul (fst xy) (snd xy))). left.
  exists (nth i X n0, nth i Y n0). split; auto. apply combine_nth_in; auto.
Qed.

Lemma dot_nan : forall X Y i, length Y = length X -> i < length X -> isnan (nmul (nth i X n0) (nth i Y n0)) ->
  isnan (vdot X Y).
Proof.
  intros X Y i Hl Hi H. unfold vdot. apply (fold_nan (fun xy => nmul (fst xy) (snd xy))). left.
  exists (nth i X n0, nth i Y n0). split; auto. apply combine_nth_in; auto.
Qed.

Lemma dot_zer : forall X Y, length Y = length X -> (forall i, i < length X -> zer (nth i X n0) /\ zer (nth i Y n0)) ->
  zer (vdot X Y).
Proof.
  intros X Y Hl H. unfold vdot. apply (fold_zer (fun xy => nmul (fst xy) (snd xy))).
  - intros [x y] Hxy. apply (In_nth _ _ (n0, n0)) in Hxy. destruct Hxy as (i & Hi & E).
    rewrite combine_length, Hl, Nat.min_id in Hi. rewrite combine_nth in E by congruence.
    inversion E; subst. destruct (H i Hi) as [Hx Hy]. apply mul_zf; auto. apply zer_fin. exact Hy.
  - apply zer_n0.
Qed.

Lemma norm_nan : forall X i, i < length X -> isnan (nth i X n0) -> isnan (nabs (vnorm2 X)).
Proof.
  intros X i Hi H. unfold vnorm2. apply (nan_abs A L), (nan_sqrt A L), (nan_abs A L).
  eapply dot_nan; eauto. apply (nan_mul_l A L). exact H.
Qed.

Lemma finished_nan : forall it X i b it', i < length X -> isnan (nth i X n0) ->
  finished it (vnorm2 X) = (b, it') -> b = false /\ status it' = CANNOT_CONVERGE.
Proof.
  intros it X i b it' Hi Hn H. apply finished_spec in H. destruct H as (Hb & _ & _ & _ & Hs).
  pose proof (norm_nan _ _ Hi Hn) as Hnn. unfold small in Hb. rewrite Hnn in Hb, Hs. simpl in Hb. auto.
Qed.

Lemma row_nf : forall (r : srow A) X k, length (values r) = length (indices r) -> In k (indices r) ->
  ~ fin (nth k X n0) -> ~ fin (row_dot r X).
Proof.
  intros r X k Hl Hk Hn. unfold row_dot.
  apply (fold_nf (fun kv => nmul (snd kv) (nth (fst kv) X n0))). left.
  apply In_nth with (d := 0) in Hk. destruct Hk as (p & Hp & E).
  exists (k, nth p (values r) n0). split.
  - rewrite <- E. assert (Hc : In (nth p (combine (indices r) (values r)) (0, n0)) (combine (indices r) (values r))).
    { apply nth_In. rewrite combine_length. lia. }
    rewrite combine_nth in Hc by congruence. exact Hc.
  - apply (nf_mul_r A L). exact Hn.
Qed.

Section loop.
Variables (M : matrix A) (ld : list nat) (D rt x0 : vect).
Notation n := (length M).
Hypothesis HD : length D = n.
Hypothesis Hrt : length rt = n.
Hypothesis Hx0 : length x0 = n.
Hypothesis HDm : forall m, In m ld -> m < n -> nth m D n0 = n0.
Hypothesis Hrtm : forall m, In m ld -> m < n -> zer (nth m rt n0).
(** the diagonal of the rows that are not masked belongs to the shape *)
Hypothesis Hdiag : forall i r, nth_error M i = Some r -> ~ In i ld -> In i (indices r).
Hypothesis HwfM : wf M.
(** there is a masked unknown *)
Variable m0 : nat.
Hypothesis Hm0 : In m0 ld.
Hypothesis Hm0n : m0 < n.

Definition keep (x : vect) : Prop := forall m, In m ld -> m < n -> fin (nth m x0 n0) -> neq (nth m x n0) (nth m x0 n0) = true.

(** ** bicg *)
Record bgood (s : bstate A) : Prop := mkBgood {
  bg_r : forall m, In m ld -> m < n -> zer (nth m (b_r s) n0);
  bg_p : forall m, In m ld -> m < n -> zer (nth m (b_p s) n0);
  bg_v : neq (b_rho2 s) n0 = true \/ (fin (b_omega s) /\ forall m, In m ld -> m < n -> zer (nth m (b_v s) n0));
  bg_x : keep (b_x s) }.

Record binv (s : bstate A) : Prop := mkBinv {
  bi_lx : length (b_x s) = n; bi_lr : length (b_r s) = n; bi_lp : length (b_p s) = n; bi_lv : length (b_v s) = n;
  bi_or : bgood s \/ exists m, m < n /\ isnan (nth m (b_r s) n0) }.

Lemma keep_add : forall x y a, keep x -> length x = n -> length y = n ->
  (forall m, In m ld -> m < n -> zer (nmul a (nth m y n0))) -> keep (scaled_add y a x).
Proof.
  intros x y a H Hx Hy Hz m Hm Hl Hf. unfold scaled_add. rewrite zip_nth by congruence.
  apply eq_add_z with (i := L); auto.
Qed.

Lemma bicg_pass_inv : forall s, binv s ->
  match bicg_pass M ld D rt s with
  | Stop it x => length x = n /\ (status it = CANNOT_CONVERGE \/ keep x)
  | Next s' => binv s'
  end.
Proof.
  intros s [Lx Lr Lp Lv Hor]. unfold bicg_pass.
  destruct (finished (b_it s) (vnorm2 (b_r s))) as [f1 it1] eqn:E1.
  destruct Hor as [G|(m & Hm & Hn)].
  2: { destruct (finished_nan _ _ m _ _ (eq_ind_r (fun k => m < k) Hm Lr) Hn E1) as [-> S1]. cbv zeta.
       destruct ((0 <? nit it1)%Z && _). { split; auto. }
       match goal with |- context [finished it1 (vnorm2 ?v)] => set (ss := v) end.
       destruct (finished it1 (vnorm2 ss)) as [f2 it2] eqn:E2.
       assert (Hls : length ss = n). { unfold ss. len. }
       assert (Hss : isnan (nth m ss n0)).
       { unfold ss, scaled_add. rewrite (zip_nth' n) by (auto; len).
         apply (nan_add_l A L). exact Hn. }
       destruct (finished_nan _ _ m _ _ (eq_ind_r (fun k => m < k) Hm Hls) Hss E2) as [-> S2]. rewrite S2. simpl. auto. }
  destruct f1. { split; auto. right. apply G. }
  cbv zeta. destruct ((0 <? nit it1)%Z && (neq (b_rho2 s) n0 || neq (b_omega s) n0)) eqn:Ec. { split; auto. }
  set (rho1 := vdot rt (b_r s)).
  match goal with |- context [p_direct D ?q] => set (p := q) end.
  set (phat := p_direct D p). set (v := applyMask ld (mmult M phat)).
  set (alpha := ndiv rho1 (vdot v rt)). set (ss := scaled_add v (nopp alpha) (b_r s)).
  assert (Hlp : length p = n).
  { unfold p. destruct (0 <? nit it1)%Z; auto. len. }
  assert (Hlph : length phat = n) by (unfold phat; len).
  assert (Hlv : length v = n) by (unfold v; len).
  assert (Hls : length ss = n) by (unfold ss; len).
  assert (Hvm : forall m, In m ld -> m < n -> nth m v n0 = n0).
  { intros m Hm Hl. unfold v. apply mask_nth_in; auto. rewrite mmult_length. exact Hl. }
  assert (Hsm : forall m, m < n -> nth m ss n0 = nadd (nth m (b_r s) n0) (nmul (nopp alpha) (nth m v n0))).
  { intros m Hl. unfold ss, scaled_add. rewrite (zip_nth' n) by (auto; len); reflexivity. }
  assert (Hphm : forall m, m < n -> nth m phat n0 = nmul (nth m D n0) (nth m p n0)).
  { intros m Hl. unfold phat, p_direct. rewrite (zip_nth' n) by (auto; len); reflexivity. }
  (* either ss has a NaN, or everything is as it should be *)
  assert (Hkey : (exists m, m < n /\ isnan (nth m ss n0)) \/
     (fin alpha /\ forall m, In m ld -> m < n -> zer (nth m p n0))).
  { destruct (fin_dec A L alpha) as [Fa|Na].
    2: { left. exists m0. split; auto. rewrite Hsm by exact Hm0n. apply (nan_add_r A L). rewrite Hvm by auto.
         apply (mul_nz A L); [|apply zer_n0]. unfold nopp. apply (nf_mul_r A L). exact Na. }
    unfold p at 1. destruct (0 <? nit it1)%Z eqn:En. 2: { right. split; auto. apply G. }
    cbn [andb] in Ec. apply orb_false_elim in Ec. destruct Ec as [Ec1 Ec2].
    destruct (bg_v s G) as [Hv|[Fo Hv]]; [congruence|].
    set (beta := nmul (ndiv rho1 (b_rho2 s)) (ndiv (b_alpha s) (b_omega s))).
    assert (Hp : forall m, m < n -> nth m p n0 =
      nadd (nmul (nsub (nth m (b_p s) n0) (nmul (nth m (b_v s) n0) (b_omega s))) beta) (nth m (b_r s) n0)).
    { intros m Hl. unfold p. fold beta. unfold vadd_to, vsub_from.
      rewrite (zip_nth' n) by (auto; len). rewrite (scaled_nth' n) by (auto; len).
      rewrite (zip_nth' n) by (auto; len). rewrite (scaled_nth' n) by (auto; len). reflexivity. }
    destruct (fin_dec A L beta) as [Fb|Nb].
    - right. split; auto. intros m Hm Hl. cbv zeta. fold beta.
      change (vadd_to (b_r s) (scaled beta (vsub_from (scaled (b_omega s) (b_v s)) (b_p s)))) with p.
      rewrite Hp by exact Hl. apply add_zz; [|apply G; auto]. apply mul_zf; auto. apply sub_zz; [apply G; auto|].
      apply mul_zf; auto.
    - left.
      destruct (Exists_dec (fun k => ~ In k ld) (seq 0 n)) as [Hk|Hk].
      { intros k. destruct (in_dec Nat.eq_dec k ld); [right|left]; auto. }
      + apply Exists_exists in Hk. destruct Hk as (k & Hk & Hnk). apply in_seq in Hk.
        assert (Hkn : k < n) by lia. destruct (nth_error M k) as [r|] eqn:Er.
        2: { apply nth_error_None in Er. lia. }
        destruct (wf_row _ _ _ HwfM Er) as [_ Hlr].
        assert (Npk : ~ fin (nth k p n0)).
        { rewrite Hp by exact Hkn. apply (nf_add_l A L). apply (nf_mul_r A L). exact Nb. }
        assert (Nvk : ~ fin (nth k v n0)).
        { unfold v. rewrite mask_nth_out by exact Hnk. rewrite (mmult_nth _ _ _ _ Er).
          apply row_nf with (k := k); eauto. rewrite Hphm by exact Hkn. apply (nf_mul_r A L). exact Npk. }
        assert (Nd : ~ fin (vdot v rt)).
        { apply dot_nf with (i := k); try lia. apply (nf_mul_l A L). exact Nvk. }
        destruct (div_nf A L rho1 _ Nd) as [Z|N]; [|contradiction].
        exists k. split; auto. rewrite Hsm by exact Hkn. apply (nan_add_r A L). apply (mul_zn A L); auto.
        unfold nopp. apply (mul_fz A L); auto. destruct (fin_dec A L (nlit (-1) 1)) as [F|N]; auto.
        exfalso. pose proof (opp_fin A L alpha Fa) as F. unfold nopp in F. apply (nf_mul_l A L (nlit (-1) 1) alpha N F).
      + (* every unknown is masked *)
        assert (Hall : forall k, k < n -> In k ld).
        { intros k Hkn. destruct (in_dec Nat.eq_dec k ld) as [|Hno]; auto. exfalso. apply Hk. apply Exists_exists.
          exists k. split; auto. apply in_seq. lia. }
        exfalso. apply (nan_fin A L alpha); auto. unfold alpha. apply (div_zz A L).
        * unfold rho1. apply dot_zer; [congruence|]. intros k Hkn. rewrite Hrt in Hkn. split; [apply Hrtm|apply G]; auto.
        * apply dot_zer; [congruence|]. intros k Hkn. rewrite Hlv in Hkn. split; [|apply Hrtm; auto].
          rewrite Hvm by auto. apply zer_n0. }
  destruct (finished it1 (vnorm2 ss)) as [f2 it2] eqn:E2.
  destruct Hkey as [(m & Hm & Hnan)|[Fa Hp]].
  { destruct (finished_nan _ _ m _ _ (eq_ind_r (fun k => m < k) Hm Hls) Hnan E2) as [-> S2]. rewrite S2. simpl. auto. }
  assert (Hph0 : forall m, In m ld -> m < n -> zer (nth m phat n0)).
  { intros m Hm Hl. rewrite Hphm by exact Hl. rewrite HDm by auto. apply mul_zf; [apply zer_n0|]. apply zer_fin. auto. }
  assert (Hx1 : keep (scaled_add phat alpha (b_x s))).
  { apply keep_add; auto. { apply G. } intros m Hm Hl. apply mul_fz; auto. }
  assert (Lx1 : length (scaled_add phat alpha (b_x s)) = n) by len.
  destruct f2. { auto. }
  destruct (is_stop (status it2)). { split; auto. right. apply G. }
  assert (Hss0 : forall m, In m ld -> m < n -> zer (nth m ss n0)).
  { intros m Hm Hl. rewrite Hsm by exact Hl. apply add_zz; [apply G; auto|]. rewrite Hvm by auto.
    apply mul_fz; [|apply zer_n0]. apply opp_fin. exact Fa. }
  set (shat := p_direct D ss). set (t := applyMask ld (mmult M shat)). set (omega := ndiv (vdot t ss) (vdot t t)).
  assert (Lsh : length shat = n) by (unfold shat; len).
  assert (Lt : length t = n) by (unfold t; len).
  assert (Htm : forall m, In m ld -> m < n -> nth m t n0 = n0).
  { intros m Hm Hl. unfold t. apply mask_nth_in; auto. rewrite mmult_length. exact Hl. }
  assert (Hr' : forall m, m < n -> nth m (vsub_from (scaled omega t) ss) n0 = nsub (nth m ss n0) (nmul (nth m t n0) omega)).
  { intros m Hl. unfold vsub_from. rewrite (zip_nth' n) by (auto; len).
    rewrite (scaled_nth' n) by (auto; len). reflexivity. }
  constructor; cbn [b_x b_r b_p b_v]; auto.
  - len.
  - len.
  - destruct (fin_dec A L omega) as [Fo|No].
    + left. constructor; cbn [b_x b_r b_p b_v b_rho2 b_omega]; auto.
      * intros m Hm Hl. rewrite Hr' by exact Hl. apply sub_zz; auto. rewrite Htm by auto. apply mul_zf; auto. apply zer_n0.
      * right. split; auto. intros m Hm Hl. rewrite Hvm by auto. apply zer_n0.
      * apply keep_add; auto. intros m Hm Hl. apply mul_fz; auto. unfold shat, p_direct.
        rewrite (zip_nth' n) by (auto; len). rewrite HDm by auto. apply mul_zf; [apply zer_n0|]. apply zer_fin. auto.
    + right. exists m0. split; auto. rewrite Hr' by exact Hm0n. apply (nan_sub_r A L). rewrite Htm by auto.
      apply (mul_zn A L); auto. apply zer_n0.
Qed.

Lemma bicg_loop_keep : forall fuel s it x, binv s -> bicg_loop fuel M ld D rt s = Some (it, x) ->
  length x = n /\ (status it = CANNOT_CONVERGE \/ keep x).
Proof.
  induction fuel as [|fuel IH]; intros s it x H E; [discriminate|]. cbn [bicg_loop] in E.
  pose proof (bicg_pass_inv s H) as K. destruct (bicg_pass M ld D rt s) as [it' x'|s'].
  - inversion E; subst. exact K.
  - eauto.
Qed.

(** ** cg *)
Record cgood (s : cstate A) : Prop := mkCgood {
  cg_r : forall m, In m ld -> m < n -> zer (nth m (c_r s) n0);
  cg_p : forall m, In m ld -> m < n -> zer (nth m (c_p s) n0);
  cg_x : keep (c_x s) }.

Record cinv (s : cstate A) : Prop := mkCinv {
  ci_lx : length (c_x s) = n; ci_lr : length (c_r s) = n; ci_lp : length (c_p s) = n;
  ci_or : cgood s \/ exists m, m < n /\ isnan (nth m (c_r s) n0) }.

Lemma cg_pass_inv : forall s, cinv s ->
  match cg_pass M ld D s with
  | Stop it x => length x = n /\ (status it = CANNOT_CONVERGE \/ keep x)
  | Next s' => cinv s'
  end.
Proof.
  intros s [Lx Lr Lp Hor]. unfold cg_pass.
  destruct (finished (c_it s) (vnorm2 (c_r s))) as [f1 it1] eqn:E1.
  destruct Hor as [G|(m & Hm & Hn)].
  2: { destruct (finished_nan _ _ m _ _ (eq_ind_r (fun k => m < k) Hm Lr) Hn E1) as [-> S1]. rewrite S1. simpl. auto. }
  destruct (f1 || is_stop (status it1)). { split; auto. right. apply G. }
  set (z := p_direct D (c_r s)).
  assert (Lz : length z = n) by (unfold z; len).
  assert (Hz : forall m, In m ld -> m < n -> zer (nth m z n0)).
  { intros m Hm Hl. unfold z, p_direct. rewrite (zip_nth' n) by (auto; len). rewrite HDm by auto.
    apply mul_zf; [apply zer_n0|]. apply zer_fin. apply G; auto. }
  set (ratio := ndiv (vdot z (c_r s)) (c_rho1 s)).
  assert (Hor : forall p rho, (if (0 <? nit it1)%Z then
       (vadd_to z (scaled ratio (c_p s)), vdot z (c_r s)) else (c_p s, c_rho s)) = (p, rho) ->
       length p = n /\ ((forall m, In m ld -> m < n -> zer (nth m p n0)) \/ isnan (nth m0 p n0))).
  { intros p rho E. destruct (0 <? nit it1)%Z; inversion E; subst.
    - assert (Hp : forall m, m < n -> nth m (vadd_to z (scaled ratio (c_p s))) n0 = nadd (nmul (nth m (c_p s) n0) ratio) (nth m z n0)).
      { intros m Hl. unfold vadd_to. rewrite (zip_nth' n) by (auto; len).
        rewrite (scaled_nth' n) by (auto; len). reflexivity. }
      split. { len. }
      destruct (fin_dec A L ratio) as [F|N].
      + left. intros m Hm Hl. rewrite Hp by exact Hl. apply add_zz; auto. apply mul_zf; auto. apply G; auto.
      + right. rewrite Hp by exact Hm0n. apply (nan_add_l A L). apply (mul_zn A L); auto. apply G; auto.
    - split; auto. left. apply G. }
  destruct (if (0 <? nit it1)%Z then _ else _) as [p rho] eqn:E. cbv zeta in E. fold z ratio in E.
  destruct (Hor p rho eq_refl) as [Hlp Hp]. clear Hor E. cbv zeta.
  set (q := applyMask ld (mmult M p)).
  assert (Hlq : length q = n) by (unfold q; len).
  assert (Hqm : forall m, In m ld -> m < n -> nth m q n0 = n0).
  { intros m Hm Hl. unfold q. apply mask_nth_in; auto. rewrite mmult_length. exact Hl. }
  destruct (neq (vdot q p) n0). { split; auto. }
  set (a := ndiv rho (vdot q p)).
  assert (Hr' : forall m, m < n -> nth m (scaled_add q (nopp a) (c_r s)) n0 = nadd (nth m (c_r s) n0) (nmul (nopp a) (nth m q n0))).
  { intros m Hl. unfold scaled_add. rewrite (zip_nth' n) by (auto; len); reflexivity. }
  assert (Hbad : ~ fin a -> isnan (nth m0 (scaled_add q (nopp a) (c_r s)) n0)).
  { intros N. rewrite Hr' by exact Hm0n. apply (nan_add_r A L). rewrite Hqm by auto.
    apply (mul_nz A L); [|apply zer_n0]. unfold nopp. apply (nf_mul_r A L). exact N. }
  constructor; cbn [c_x c_r c_p]; auto.
  - len.
  - len.
  - destruct Hp as [Hp|Hp].
    + destruct (fin_dec A L a) as [F|N]; [|right; eauto].
      left. constructor; cbn [c_x c_r c_p]; auto.
      * intros m Hm Hl. rewrite Hr' by exact Hl. apply add_zz; [apply G; auto|]. rewrite Hqm by auto.
        apply mul_fz; [apply opp_fin; exact F|apply zer_n0].
      * apply keep_add; auto. { apply G. } intros m Hm Hl. apply mul_fz; auto.
    + right. exists m0. split; auto. apply Hbad. unfold a. apply (nan_fin A L). apply (nan_div_r A L).
      apply dot_nan with (i := m0); try lia. apply (nan_mul_r A L). exact Hp.
Qed.

Lemma cg_loop_keep : forall fuel s it x, cinv s -> cg_loop fuel M ld D s = Some (it, x) ->
  length x = n /\ (status it = CANNOT_CONVERGE \/ keep x).
Proof.
  induction fuel as [|fuel IH]; intros s it x H E; [discriminate|]. cbn [cg_loop] in E.
  pose proof (cg_pass_inv s H) as K. destruct (cg_pass M ld D s) as [it' x'|s'].
  - inversion E; subst. exact K.
  - eauto.
Qed.
End loop.
End ieee_sec.
