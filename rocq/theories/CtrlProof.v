(** * Lemmas on the control of the triangles *)
From Coq Require Import String Reals List Arith Bool ZArith DecimalString DecimalNat Lia Lra Permutation Sorted.
From Verif Require Import Vec Sums StdModel MeshModel ElemModel CtrlModel.
Import ListNotations.
Local Open Scope nat_scope.

(** ** Sorted triples *)
Lemma sort3_ok : forall l, sort_result (fun a b => (a <? b) = true) l (sort3 l).
Proof.
  intros l. apply isort_ok.
  - intros a b H. apply Nat.ltb_lt in H. apply Nat.ltb_ge. lia.
  - intros a b c H1 H2. rewrite Nat.ltb_ge in *. lia.
Qed.

Lemma sort3_perm : forall l, Permutation l (sort3 l).
Proof. intros l. apply sort3_ok. Qed.

Lemma sorted_unique : forall l l' : list nat, StronglySorted (fun a b => ~ (b <? a) = true) l -> StronglySorted (fun a b => ~ (b <? a) = true) l' ->
  Permutation l l' -> l = l'.
Proof.
  induction l as [|x l IH]; intros l' H H' P. { apply Permutation_nil in P. auto. }
  destruct l' as [|y l']. { apply Permutation_sym, Permutation_nil in P. discriminate. }
  inversion H as [|? ? H1 H2]; subst. inversion H' as [|? ? H1' H2']; subst. rewrite Forall_forall in *.
  assert (E : x = y).
  { destruct (Permutation_in x P (or_introl eq_refl)) as [?|I]; auto. destruct (Permutation_in y (Permutation_sym P) (or_introl eq_refl)) as [?|I']; auto.
    specialize (H2 y I'). specialize (H2' x I). rewrite Nat.ltb_lt in *. lia. }
  subst y. f_equal. apply IH; auto. apply Permutation_cons_inv in P. exact P.
Qed.

Lemma sort3_eq : forall l l', sort3 l = sort3 l' <-> Permutation l l'.
Proof.
  intros l l'. split; intros H.
  - rewrite (sort3_perm l), H, <- sort3_perm. reflexivity.
  - apply sorted_unique; [apply sort3_ok..|]. rewrite <- !sort3_perm. exact H.
Qed.

Lemma nodes_eqb_true : forall l l', nodes_eqb l l' = true <-> l = l'.
Proof. intros l l'. unfold nodes_eqb. destruct (list_eq_dec _ l l'); split; congruence. Qed.
Lemma nodes_eqb_refl : forall l, nodes_eqb l l = true.
Proof. intros. apply nodes_eqb_true. reflexivity. Qed.
Lemma nodes_eqb_sym : forall l l', nodes_eqb l l' = nodes_eqb l' l.
Proof. intros. unfold nodes_eqb. destruct (list_eq_dec _ l l'), (list_eq_dec _ l' l); congruence. Qed.

(** ** The order of arrays *)
Lemma lex_irrefl : forall l, lex_ltb l l = false.
Proof. induction l as [|x l IH]; simpl; auto. rewrite Nat.ltb_irrefl. exact IH. Qed.
Lemma lex_total : forall l l', lex_ltb l l' = false -> lex_ltb l' l = false -> l = l'.
Proof.
  induction l as [|x l IH]; destruct l' as [|y l']; simpl; intros H H'; try discriminate; auto.
  apply orb_false_iff in H. apply orb_false_iff in H'. destruct H as [H1 H2], H' as [H1' H2'].
  rewrite H1' in H2. rewrite H1 in H2'. cbn in H2, H2'. rewrite Nat.ltb_ge in *.
  f_equal; [lia|]. auto.
Qed.
Lemma lex_trans : forall l l' l'', lex_ltb l l' = true -> lex_ltb l' l'' = true -> lex_ltb l l'' = true.
Proof.
  induction l as [|x l IH]; destruct l' as [|y l'], l'' as [|z l'']; simpl; intros H H'; try discriminate; auto.
  apply orb_true_iff in H. apply orb_true_iff in H'. apply orb_true_iff.
  rewrite andb_true_iff, negb_true_iff in *. rewrite Nat.ltb_lt, Nat.ltb_ge in *.
  destruct H as [H|[H1 H2]], H' as [H'|[H1' H2']]; try (left; lia).
  destruct (Nat.eq_dec x z); [|left; lia]. right. split; [lia|]. eauto.
Qed.
Lemma lex_asym : forall l l', lex_ltb l l' = true -> lex_ltb l' l = false.
Proof.
  intros l l' H. destruct (lex_ltb l' l) eqn:E; auto. pose proof (lex_trans _ _ _ H E) as K. rewrite lex_irrefl in K. discriminate.
Qed.
Lemma lex_negtrans : forall a b c, lex_ltb b a = false -> lex_ltb c b = false -> lex_ltb c a = false.
Proof.
  intros a b c H1 H2. destruct (lex_ltb c a) eqn:E; auto.
  destruct (lex_ltb a b) eqn:E2. { pose proof (lex_trans _ _ _ E E2). congruence. }
  rewrite (lex_total a b E2 H1) in E. congruence.
Qed.

Lemma sorted_exists : forall tets tris, all_sorted tets tris (isort basic_ltb (all_tri tets tris)).
Proof.
  intros tets tris. apply isort_ok; unfold basic_ltb.
  - intros a b. apply lex_asym.
  - intros a b c. apply lex_negtrans.
Qed.

Definition lsorted : list basic -> Prop := StronglySorted (fun x y => ~ basic_ltb y x = true).

(** ** The groups of equal triangles *)
Definition key_is (k : list nat) (x : basic) : bool := nodes_eqb (b_nodes x) k.
Definition group (k : list nat) (l : list basic) : list basic := filter (key_is k) l.

Fixpoint runs (l : list basic) : list (list basic) :=
  match l with
  | [] => []
  | x :: l' => match runs l' with
               | (y :: g) :: gs => if same_nodes x y then (x :: y :: g) :: gs else [x] :: (y :: g) :: gs
               | gs => [x] :: gs
               end
  end.
Definition run_key (g : list basic) : list nat := match g with x :: _ => b_nodes x | [] => [] end.

Lemma group_none : forall k l, (forall x, In x l -> b_nodes x <> k) -> group k l = [].
Proof.
  intros k. induction l as [|x l IH]; intros H; simpl; auto. unfold key_is at 1.
  destruct (nodes_eqb (b_nodes x) k) eqn:E. { apply nodes_eqb_true in E. exfalso. apply (H x); simpl; auto. }
  apply IH. intros y Hy. apply H. right. exact Hy.
Qed.

Lemma runs_spec : forall l, lsorted l ->
  NoDup (map run_key (runs l)) /\
  (forall g, In g (runs l) -> g <> [] /\ g = group (run_key g) l) /\
  (forall x, In x l -> In (b_nodes x) (map run_key (runs l))).
Proof.
  induction l as [|x l IH]; intros S. { simpl. repeat split; try constructor; intros; contradiction. }
  inversion S as [|? ? S1 S2]; subst. destruct (IH S1) as (I1 & I2 & I3). rewrite Forall_forall in S2. cbn [runs].
  destruct (runs l) as [|[|y g] gs] eqn:Er.
  - destruct l as [|z l]. 2: { destruct (I3 z (or_introl eq_refl)). }
    cbn. split; [repeat constructor; auto|]. split.
    + intros g' [<-|[]]. split; [discriminate|]. unfold run_key, key_is. rewrite nodes_eqb_refl. reflexivity.
    + intros z [<-|[]]. auto.
  - exfalso. apply (proj1 (I2 [] (or_introl eq_refl))). reflexivity.
  - destruct (I2 (y :: g) (or_introl eq_refl)) as [_ Ey]. cbn [run_key] in Ey.
    assert (Yin : In y l). { assert (In y (y :: g)) by (left; auto). rewrite Ey in H. apply filter_In in H. tauto. }
    unfold same_nodes. destruct (nodes_eqb (b_nodes x) (b_nodes y)) eqn:E.
    + apply nodes_eqb_true in E. cbn [map run_key] in *. rewrite E. split; auto. split.
      * intros g' [<-|Hg].
        -- split; [discriminate|]. cbn [run_key group filter]. unfold key_is at 1. rewrite nodes_eqb_refl. f_equal. rewrite E. exact Ey.
        -- destruct (I2 g' (or_intror Hg)) as [J1 J2]. split; auto. cbn [group filter]. unfold key_is at 1.
           destruct (nodes_eqb (b_nodes x) (run_key g')) eqn:E'; auto. apply nodes_eqb_true in E'.
           exfalso. inversion I1 as [|? ? N1 N2]; subst. apply N1. rewrite <- E, E'. apply in_map. exact Hg.
      * intros z [<-|Hz]; [left; auto|]. apply I3. exact Hz.
    + assert (Lt : forall z, In z l -> b_nodes z <> b_nodes x).
      { (* x is strictly below everything *)
        assert (Hd : exists l', l = y :: l').
        { destruct l as [|y' l']; [contradiction|]. exists l'. f_equal. cbn [runs] in Er.
          destruct (runs l') as [|[|a b] c]; [inversion Er; auto|inversion Er; auto|destruct (same_nodes y' a); inversion Er; auto]. }
        destruct Hd as [l' ->]. inversion S1 as [|? ? T1 T2]; subst. rewrite Forall_forall in T2.
        intros z Hz Ez. assert (A : lex_ltb (b_nodes x) (b_nodes y) = true).
        { destruct (lex_ltb (b_nodes x) (b_nodes y)) eqn:Q; auto. exfalso.
          assert (lex_ltb (b_nodes y) (b_nodes x) = false). { apply not_true_is_false. apply (S2 y). left. auto. }
          rewrite (lex_total _ _ Q H) in E. rewrite nodes_eqb_refl in E. discriminate. }
        destruct Hz as [<-|Hz]. { rewrite Ez, lex_irrefl in A. discriminate. }
        specialize (T2 z Hz). apply T2. unfold basic_ltb. rewrite Ez. exact A. }
      cbn [map run_key] in *. split; [|split].
      * constructor; auto. intros Hin. change (b_nodes y :: map run_key gs) with (map run_key ((y :: g) :: gs)) in Hin.
        apply in_map_iff in Hin. destruct Hin as (g' & Hk & Hg). destruct (I2 g' Hg) as [J1 J2]. destruct g' as [|z g'']; [contradiction|].
        cbn [run_key] in Hk. assert (In z l). { assert (In z (z :: g'')) by (left; auto). rewrite J2 in H. apply filter_In in H. tauto. }
        exact (Lt z H Hk).
      * intros g' [<-|Hg].
        -- split; [discriminate|]. cbn [run_key group filter]. unfold key_is at 1. rewrite nodes_eqb_refl.
           f_equal. symmetry. apply group_none. exact Lt.
        -- destruct (I2 g' Hg) as [J1 J2]. split; auto. cbn [group filter]. unfold key_is at 1.
           destruct (nodes_eqb (b_nodes x) (run_key g')) eqn:E'; auto. apply nodes_eqb_true in E'. exfalso.
           destruct g' as [|z g'']; [contradiction|]. cbn [run_key] in E'.
           assert (In z l). { assert (In z (z :: g'')) by (left; auto). rewrite J2 in H. apply filter_In in H. tauto. }
           apply (Lt z H). congruence.
      * intros z [<-|Hz]; [left; auto|]. right. apply I3. exact Hz.
Qed.

(** the loop handles the runs one after the other *)
Fixpoint handle (gs : list (list basic)) (acc : list missing) : option (list missing) :=
  match gs with [] => Some acc | g :: gs' => match diff_tri_handler g acc with None => None | Some acc' => handle gs' acc' end end.

Lemma runs_app : forall g y rest, (forall x, In x (y :: g) -> b_nodes x = b_nodes y) ->
  runs ((y :: g) ++ rest) = match runs rest with
    | (z :: h) :: gs => if nodes_eqb (b_nodes y) (b_nodes z) then ((y :: g) ++ z :: h) :: gs else (y :: g) :: (z :: h) :: gs
    | gs => (y :: g) :: gs end.
Proof.
  induction g as [|x g IH]; intros y rest H.
  - cbn [app runs]. reflexivity.
  - assert (Exy : b_nodes x = b_nodes y) by (apply H; right; left; auto).
    change ((y :: x :: g) ++ rest) with (y :: ((x :: g) ++ rest)). cbn [runs].
    rewrite IH. 2: { intros z [<-|Hz]; auto. rewrite Exy. apply H. right. right. exact Hz. }
    destruct (runs rest) as [|[|z h] gs].
    + unfold same_nodes. rewrite <- Exy, nodes_eqb_refl. reflexivity.
    + unfold same_nodes. rewrite <- Exy, nodes_eqb_refl. reflexivity.
    + rewrite <- Exy. destruct (nodes_eqb (b_nodes x) (b_nodes z)); cbn [app]; unfold same_nodes; rewrite <- Exy, nodes_eqb_refl; reflexivity.
Qed.

Lemma runs_nonempty : forall l, ~ In [] (runs l).
Proof.
  induction l as [|x l IH]; simpl; auto. destruct (runs l) as [|[|y g] gs].
  - intros [H|[]]. discriminate.
  - intros [H|H]; [discriminate|]. apply IH. exact H.
  - destruct (same_nodes x y); simpl in *; intros [H|H]; try discriminate; auto.
Qed.

Lemma runs_head : forall x l, exists g gs, runs (x :: l) = (x :: g) :: gs.
Proof.
  intros x l. cbn [runs]. destruct (runs l) as [|[|y g] gs]; eauto. destruct (same_nodes x y); eauto.
Qed.

Lemma walk_runs : forall rest y g acc, (forall x, In x (y :: g) -> b_nodes x = b_nodes y) ->
  walk (y :: g) rest acc = handle (runs ((y :: g) ++ rest)) acc.
Proof.
  induction rest as [|x rest IH]; intros y g acc H.
  - rewrite runs_app by exact H. cbn. destruct (diff_tri_handler (y :: g) acc); auto.
  - cbn [walk]. unfold same_nodes. destruct (nodes_eqb (b_nodes x) (b_nodes y)) eqn:E.
    + apply nodes_eqb_true in E. change ((y :: g) ++ [x]) with (y :: (g ++ [x])). rewrite IH.
      * f_equal. f_equal. cbn [app]. rewrite <- app_assoc. reflexivity.
      * intros z [<-|Hz]; auto. apply in_app_iff in Hz. destruct Hz as [Hz|[<-|[]]]; auto. apply H. right. exact Hz.
    + rewrite runs_app by exact H. destruct (runs_head x rest) as (h & gs & Er). rewrite Er. rewrite nodes_eqb_sym, E.
      cbn [handle]. destruct (diff_tri_handler (y :: g) acc) as [acc'|]; auto.
      rewrite IH. { cbn [app]. rewrite Er. reflexivity. } intros z [<-|[]]. reflexivity.
Qed.

Lemma walk_all_runs : forall l, walk_all l = handle (runs l) [].
Proof.
  intros [|x l]; auto. unfold walk_all. rewrite walk_runs. { reflexivity. } intros y [<-|[]]. reflexivity.
Qed.

Lemma handle_spec : forall gs acc r, handle gs acc = Some r <->
  (forall g, In g gs -> no_error (group_stats g) = true) /\ r = acc ++ flat_map to_add gs.
Proof.
  induction gs as [|g gs IH]; intros acc r; cbn [handle flat_map].
  - rewrite app_nil_r. split; [intros H; inversion H; subst; split; [intros ? []|auto]|intros [_ ->]; auto].
  - unfold diff_tri_handler. destruct (no_error (group_stats g)) eqn:E.
    + rewrite IH, <- app_assoc. split; intros [H1 H2]; split; auto.
      * intros g' [<-|Hg]; auto.
      * intros g' Hg. apply H1. right. exact Hg.
    + split; [discriminate|]. intros [H _]. rewrite (H g (or_introl eq_refl)) in E. discriminate.
Qed.

Lemma handle_none : forall gs acc, (exists g, In g gs /\ no_error (group_stats g) = false) -> handle gs acc = None.
Proof.
  intros gs acc (g & Hg & E). destruct (handle gs acc) as [r|] eqn:H; auto. apply handle_spec in H. rewrite (proj1 H g Hg) in E. discriminate.
Qed.
