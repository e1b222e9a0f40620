(** * Lemmas about strings *)
From Coq Require Import String Ascii List Arith Bool ZArith Lia.
From Verif Require Import TextModel.
Import ListNotations.

(** [r] is [s] with every occurrence of [x], scanned from the left without overlap, replaced by [y] *)
Inductive Subst (x y : text) : text -> text -> Prop :=
| Sub_end : Subst x y [] []
| Sub_hit : forall s r, Subst x y s r -> Subst x y (x ++ s) (y ++ r)
| Sub_skip : forall c s r, ~ (exists s', c :: s = x ++ s') -> Subst x y s r -> Subst x y (c :: s) (c :: r).

Lemma prefixb_spec : forall x s, prefixb x s = true <-> exists s', s = x ++ s'.
Proof.
  induction x as [|c x IH]; intros s; cbn.
  - split; [eauto|reflexivity].
  - destruct s as [|d s]. { split; [discriminate|]. intros (s' & E). discriminate. }
    destruct (Ascii.eqb_spec c d) as [->|Hn]; cbn.
    + rewrite IH. split; intros (s' & E); exists s'; congruence.
    + split; [discriminate|]. intros (s' & E). congruence.
Qed.

Lemma prefixb_false x s : prefixb x s = false -> ~ exists s', s = x ++ s'.
Proof. intros H K. apply prefixb_spec in K. congruence. Qed.

Lemma find_first_some x : forall s k, find_first x s = Some k ->
  exists pre post, s = pre ++ x ++ post /\ List.length pre = k /\
    forall a c b, pre = a ++ c :: b -> ~ exists s', c :: b ++ x ++ post = x ++ s'.
Proof.
  induction s as [|c s IH]; intros k; cbn [find_first].
  - destruct (prefixb x []) eqn:E; [|discriminate]. intros H. injection H as <-. apply prefixb_spec in E as (s' & E).
    exists [], s'. split; [exact E|]. split; [reflexivity|]. intros a d b H. destruct a; discriminate.
  - destruct (prefixb x (c :: s)) eqn:E.
    + intros H. injection H as <-. apply prefixb_spec in E as (s' & E). exists [], s'. split; [exact E|]. split; [reflexivity|].
      intros a d b H. destruct a; discriminate.
    + destruct (find_first x s) as [k'|] eqn:F; [|discriminate]. cbn. intros H. injection H as <-.
      destruct (IH k' eq_refl) as (pre & post & E1 & E2 & E3). exists (c :: pre), post. split; [cbn; congruence|]. split; [cbn; congruence|].
      intros a d b H. destruct a as [|a0 a].
      * injection H as -> ->. apply prefixb_false. congruence.
      * injection H as -> ->. eapply E3. reflexivity.
Qed.

Lemma find_first_none x : x <> [] -> forall s y, find_first x s = None -> Subst x y s s.
Proof.
  intros Hx. induction s as [|c s IH]; intros y; cbn [find_first].
  - constructor.
  - destruct (prefixb x (c :: s)) eqn:E; [discriminate|]. destruct (find_first x s); [discriminate|]. intros _.
    constructor; [now apply prefixb_false|]. now apply IH.
Qed.

Lemma subst_prefix x y : forall pre post r, Subst x y (x ++ post) r ->
  (forall a c b, pre = a ++ c :: b -> ~ exists s', c :: b ++ x ++ post = x ++ s') ->
  Subst x y (pre ++ x ++ post) (pre ++ r).
Proof.
  induction pre as [|c pre IH]; intros post r H K; [exact H|]. cbn [app]. constructor.
  - apply (K [] c pre). reflexivity.
  - apply IH; [exact H|]. intros a d b E. apply (K (c :: a) d b). cbn. congruence.
Qed.

Lemma replace_loop_ok x y : x <> [] -> forall fuel pre rest, List.length rest < fuel ->
  exists r, replace_loop fuel x y (pre ++ rest) (List.length pre) = Some (pre ++ r) /\ Subst x y rest r.
Proof.
  intros Hx. induction fuel as [|f IH]; intros pre rest Hf; [lia|]. cbn [replace_loop]. unfold find_from.
  replace (List.length pre <=? List.length (pre ++ rest)) with true by (symmetry; apply Nat.leb_le; rewrite app_length; lia).
  rewrite skipn_app, skipn_all, Nat.sub_diag. cbn [app skipn].
  destruct (find_first x rest) as [k|] eqn:E; cbn [option_map].
  - destruct (find_first_some x rest k E) as (p & post & E1 & E2 & E3).
    assert (Er : replace_at (pre ++ rest) (List.length pre + k) (List.length x) y = (pre ++ p ++ y) ++ post).
    { unfold replace_at. subst rest. rewrite <- E2, <- app_length.
      replace (pre ++ p ++ x ++ post) with ((pre ++ p) ++ x ++ post) by (rewrite <- app_assoc; reflexivity).
      rewrite firstn_app, firstn_all, Nat.sub_diag. cbn [firstn]. rewrite app_nil_r.
      rewrite skipn_app. rewrite skipn_all2 by lia.
      replace (List.length (pre ++ p) + List.length x - List.length (pre ++ p)) with (List.length x) by lia.
      rewrite skipn_app, skipn_all, Nat.sub_diag. cbn [skipn app]. now rewrite !app_assoc. }
    rewrite Er. replace (List.length pre + k + List.length y) with (List.length (pre ++ p ++ y)) by (rewrite !app_length; lia).
    destruct (IH (pre ++ p ++ y) post) as (r & H1 & H2).
    { subst rest. rewrite !app_length in Hf. destruct x; [congruence|]. cbn in Hf. lia. }
    exists (p ++ y ++ r). rewrite H1. split; [now rewrite <- !app_assoc|]. subst rest. apply subst_prefix; [now constructor|exact E3].
  - exists rest. split; [reflexivity|]. now apply find_first_none.
Qed.

Lemma subst_fun x y : x <> [] -> forall s r, Subst x y s r -> forall r', Subst x y s r' -> r = r'.
Proof.
  intros Hx s r H. induction H as [|s r H IH|c s r Hn H IH]; intros r' H'.
  - inversion H'; subst; auto. destruct x; [congruence|discriminate].
  - inversion H' as [E|s' r1 H1 E|c s' r1 Hn H1 E]; subst.
    + destruct x; [congruence|discriminate].
    + apply app_inv_head in E. subst. f_equal. now apply IH.
    + exfalso. apply Hn. exists s. congruence.
  - inversion H' as [E|s' r1 H1 E|c' s' r1 Hn1 H1 E]; subst.
    + exfalso. apply Hn. exists s'. congruence.
    + f_equal. now apply IH.
Qed.

Lemma back_spec s c : back s = Some c <-> exists s', s = s' ++ [c].
Proof.
  split.
  - revert c. induction s as [|d s IH]; intros c; [discriminate|]. destruct s as [|e s].
    + cbn. intros H. injection H as ->. now exists [].
    + intros H. change (back (e :: s) = Some c) in H. destruct (IH c H) as (s' & E). exists (d :: s'). cbn. congruence.
  - intros (s' & ->). induction s' as [|d s' IH]; [reflexivity|]. cbn [app back]. destruct (s' ++ [c]) eqn:E; [|exact IH].
    destruct s'; discriminate.
Qed.

Lemma drop_last_app s c : drop_last (s ++ [c]) = s.
Proof. unfold drop_last. rewrite app_length. cbn. rewrite Nat.add_sub. rewrite firstn_app, firstn_all, Nat.sub_diag. cbn. apply app_nil_r. Qed.

Lemma back_none s : back s = None <-> s = [].
Proof.
  split; [|intros ->; reflexivity]. intros H. destruct s as [|c s] using rev_ind; [reflexivity|].
  assert (back (s ++ [c]) = Some c) by (apply back_spec; eauto). congruence.
Qed.

Lemma rfind_some c : forall s k, rfind c s = Some k -> exists a b, s = a ++ c :: b /\ List.length a = k /\ ~ In c b.
Proof.
  induction s as [|d s IH]; intros k; cbn; [discriminate|]. destruct (rfind c s) as [k'|] eqn:E.
  - intros H. injection H as <-. destruct (IH k' eq_refl) as (a & b & -> & <- & Hb). exists (d :: a), b. auto.
  - destruct (Ascii.eqb_spec c d) as [->|Hn]; [|discriminate]. intros H. injection H as <-. exists [], s. split; [reflexivity|]. split; [reflexivity|].
    clear IH. revert E. induction s as [|e s IH]; cbn; [tauto|]. destruct (rfind d s) eqn:F; [discriminate|].
    destruct (Ascii.eqb_spec d e) as [->|Hn]; [discriminate|]. intros _ [->|H]; [congruence|]. now apply IH.
Qed.

Lemma rfind_none c : forall s, rfind c s = None -> ~ In c s.
Proof.
  induction s as [|e s IH]; cbn; [tauto|]. destruct (rfind c s) eqn:F; [discriminate|].
  destruct (Ascii.eqb_spec c e) as [->|Hn]; [discriminate|]. intros _ [->|H]; [congruence|]. now apply IH.
Qed.

Lemma text_eqb_spec s t : text_eqb s t = true <-> s = t.
Proof. unfold text_eqb. destruct (list_eq_dec ascii_dec s t); split; congruence. Qed.
