(** * Facts on the mesh construction *)
From Coq Require Import Reals List Arith Bool Lia Lra Permutation Sorted.
From Flocq Require Import Core.
From Verif Require Import Vec Sums SparseModel SparseProof StdModel ArithLaws MeshModel.
Import ListNotations.

(** ** node_index *)
Lemma fill_length : forall perm i index, length (fill_index i perm index) = length index.
Proof. induction perm; simpl; intros; auto. rewrite IHperm, set_nth_length. reflexivity. Qed.

Lemma fill_other : forall perm i index q, ~ In q perm -> nth q (fill_index i perm index) 0 = nth q index 0.
Proof.
  induction perm as [|p perm IH]; simpl; intros i index q H; auto.
  rewrite IH by tauto. destruct (nth_error index q) eqn:E.
  - assert (E' : nth_error (set_nth p i index) q = nth_error index q).
    { rewrite set_nth_other; auto. }
    rewrite E in E'. rewrite (nth_error_nth _ _ 0 E), (nth_error_nth _ _ 0 E'). reflexivity.
  - apply nth_error_None in E. rewrite !nth_overflow; auto. rewrite set_nth_length. exact E.
Qed.

Lemma fill_hit : forall perm i index k, NoDup perm -> (forall p, In p perm -> p < length index) -> k < length perm ->
  nth (nth k perm 0) (fill_index i perm index) 0 = i + k.
Proof.
  induction perm as [|p perm IH]; intros i index k Hn Hl Hk; simpl in Hk; [lia|].
  inversion Hn as [|? ? Hp Hn']; subst. destruct k as [|k]; simpl.
  - rewrite fill_other by exact Hp. rewrite Nat.add_0_r. apply nth_error_nth.
    apply set_nth_same. apply Hl. simpl. auto.
  - rewrite IH; auto. { lia. } { intros q Hq. rewrite set_nth_length. apply Hl. simpl. auto. } lia.
Qed.

Section perm.
Variables (n : nat) (perm : list nat).
Hypothesis Hperm : Permutation (seq 0 n) perm.

Lemma perm_length : length perm = n.
Proof. rewrite <- (Permutation_length Hperm). apply seq_length. Qed.
Lemma perm_nodup : NoDup perm.
Proof. eapply Permutation_NoDup; [exact Hperm|]. apply seq_NoDup. Qed.
Lemma perm_in : forall i, In i perm <-> i < n.
Proof.
  intros i. split; intros H.
  - apply (Permutation_in _ (Permutation_sym Hperm)), in_seq in H. lia.
  - apply (Permutation_in _ Hperm), in_seq. lia.
Qed.

Lemma index_length : length (node_index perm) = n.
Proof. unfold node_index. rewrite fill_length, repeat_length. apply perm_length. Qed.

Lemma index_perm : forall k, k < n -> nth (nth k perm 0) (node_index perm) 0 = k.
Proof.
  intros k Hk. unfold node_index. rewrite fill_hit; auto.
  - apply perm_nodup.
  - intros p Hp. rewrite repeat_length, perm_length. apply perm_in. exact Hp.
  - rewrite perm_length. exact Hk.
Qed.

Lemma perm_index : forall q, q < n -> nth q (node_index perm) 0 < n /\ nth (nth q (node_index perm) 0) perm 0 = q.
Proof.
  intros q Hq. apply perm_in in Hq. apply (In_nth _ _ 0) in Hq. destruct Hq as (k & Hk & E).
  rewrite perm_length in Hk. rewrite <- E at 1 2. rewrite index_perm by exact Hk. auto.
Qed.

Lemma index_permutation : Permutation (seq 0 n) (node_index perm).
Proof.
  apply NoDup_Permutation_bis.
  - apply seq_NoDup.
  - rewrite seq_length, index_length. lia.
  - intros k Hk. apply in_seq in Hk. assert (H : k < n) by lia.
    rewrite <- (index_perm k H). apply nth_In. rewrite index_length. apply perm_in. apply nth_In. rewrite perm_length. exact H.
Qed.

Lemma permuted_nth : forall {X} (nodes : list X) d k, k < n -> nth k (permuted perm nodes d) d = nth (nth k perm 0) nodes d.
Proof.
  intros X nodes d k Hk. unfold permuted. apply nth_error_nth.
  rewrite nth_error_map, (nth_error_nth_d _ _ 0) by (rewrite perm_length; exact Hk). reflexivity.
Qed.

Lemma permuted_length : forall {X} (nodes : list X) d, length (permuted perm nodes d) = n.
Proof. intros. unfold permuted. rewrite map_length. apply perm_length. Qed.

Lemma permuted_index : forall {X} (nodes : list X) d q, q < n ->
  nth (nth q (node_index perm) 0) (permuted perm nodes d) d = nth q nodes d.
Proof.
  intros X nodes d q Hq. destruct (perm_index q Hq) as [H1 H2]. rewrite permuted_nth by exact H1. rewrite H2. reflexivity.
Qed.

Lemma permuted_perm : forall {X} (nodes : list X) d, length nodes = n -> Permutation nodes (permuted perm nodes d).
Proof.
  intros X nodes d Hl. unfold permuted. rewrite <- Hperm.
  replace (map (fun p => nth p nodes d) (seq 0 n)) with nodes; auto.
  apply (nth_ext _ _ d d). { rewrite map_length, seq_length. exact Hl. }
  intros i Hi. symmetry. apply nth_error_nth. rewrite nth_error_map, (nth_error_nth_d _ _ 0) by (rewrite seq_length; lia).
  rewrite seq_nth by lia. reflexivity.
Qed.
End perm.

(** ** edges *)
Lemma minmax_spec : forall a b i j, minmax a b = (i, j) -> a <> b -> i < j /\ ((i = a /\ j = b) \/ (i = b /\ j = a)).
Proof.
  intros a b i j H Hn. unfold minmax in H. destruct (b <? a) eqn:E; inversion H; subst.
  - apply Nat.ltb_lt in E. auto.
  - apply Nat.ltb_ge in E. split; auto. lia.
Qed.

Lemma in_minmax : forall a b, minmax a b = (Nat.min a b, Nat.max a b).
Proof.
  intros a b. unfold minmax. destruct (b <? a) eqn:E.
  - apply Nat.ltb_lt in E. f_equal; lia.
  - apply Nat.ltb_ge in E. f_equal; lia.
Qed.

Lemma tet_edges_spec : forall t i j, NoDup (tet_nodes t) ->
  (In (i, j) (tet_edges t) <-> i < j /\ In i (tet_nodes t) /\ In j (tet_nodes t)).
Proof.
  intros [a b c d r] i j H. unfold tet_nodes, tet_edges in *. simpl in *.
  assert (Hn : a <> b /\ a <> c /\ a <> d /\ b <> c /\ b <> d /\ c <> d).
  { inversion H as [|? ? H1 H2]; subst. inversion H2 as [|? ? H3 H4]; subst. inversion H4 as [|? ? H5 H6]; subst.
    simpl in *. repeat split; intros ->; tauto. }
  destruct Hn as (N1 & N2 & N3 & N4 & N5 & N6). split.
  - intros K. repeat (destruct K as [K|K]; [apply minmax_spec in K; [|assumption];
      destruct K as (K1 & [[-> ->]|[-> ->]]); (split; [exact K1|]); split; simpl; auto|]). contradiction.
  - intros (K1 & K2 & K3).
    assert (E : forall x y, x < y -> minmax x y = (x, y) /\ minmax y x = (x, y)).
    { intros x y Hxy. rewrite !in_minmax. split; f_equal; lia. }
    destruct (E _ _ K1) as [E1 E2]. clear E.
    destruct K2 as [<-|[<-|[<-|[<-|[]]]]]; destruct K3 as [<-|[<-|[<-|[<-|[]]]]]; try lia; rewrite ?E1, ?E2; simpl; auto 7.
Qed.

Definition edge_lt (e f : edge) : Prop := fst e < fst f \/ (fst e = fst f /\ snd e < snd f).

Lemma edge_ltb_iff : forall e f, edge_ltb e f = true <-> edge_lt e f.
Proof.
  intros [a b] [c d]. unfold edge_ltb, edge_lt. simpl. rewrite orb_true_iff, andb_true_iff, negb_true_iff.
  rewrite !Nat.ltb_lt, Nat.ltb_ge. lia.
Qed.

Lemma edge_eqb_iff : forall e f, edge_eqb e f = true <-> e = f.
Proof.
  intros [a b] [c d]. unfold edge_eqb. simpl. rewrite andb_true_iff, !Nat.eqb_eq. split; intros H; [destruct H; subst; auto|inversion H; auto].
Qed.

Lemma edge_trich : forall e f, ~ edge_lt e f -> ~ edge_lt f e -> e = f.
Proof. intros [a b] [c d]. unfold edge_lt. simpl. intros H K. f_equal; lia. Qed.

Lemma edge_lt_trans : forall e f g, edge_lt e f -> edge_lt f g -> edge_lt e g.
Proof. intros [a b] [c d] [x y]. unfold edge_lt. simpl. lia. Qed.

Lemma unique_in : forall l e, In e (unique edge_eqb l) <-> In e l.
Proof.
  induction l as [|x l IH]; intros e; [reflexivity|]. cbn [unique]. destruct l as [|y l]; [reflexivity|].
  destruct (edge_eqb x y) eqn:E.
  - apply edge_eqb_iff in E. subst. rewrite IH. simpl. tauto.
  - simpl In. rewrite IH. simpl. tauto.
Qed.

Lemma unique_sorted : forall l, StronglySorted (fun a b => ~ edge_lt b a) l -> StronglySorted edge_lt (unique edge_eqb l).
Proof.
  induction l as [|x l IH]; intros H; [constructor|]. inversion H as [|? ? H1 H2]; subst. cbn [unique].
  destruct l as [|y l]. { repeat constructor. }
  destruct (edge_eqb x y) eqn:E; auto. constructor; auto.
  rewrite Forall_forall in *. intros e He. rewrite unique_in in He.
  inversion H1 as [|? ? H3 H4]; subst. rewrite Forall_forall in H4.
  assert (Hxy : edge_lt x y).
  { destruct (edge_ltb x y) eqn:L. { apply edge_ltb_iff. exact L. }
    exfalso. assert (x = y). { apply edge_trich. { rewrite <- edge_ltb_iff, L. discriminate. } apply H2. simpl. auto. }
    apply edge_eqb_iff in H0. congruence. }
  destruct He as [<-|He]; auto.
  specialize (H4 e He). destruct (edge_ltb y e) eqn:L. { apply edge_ltb_iff in L. eapply edge_lt_trans; eauto. }
  assert (y = e). { apply edge_trich; auto. rewrite <- edge_ltb_iff, L. discriminate. } subst. exact Hxy.
Qed.

(** ** marking *)
Lemma set_true_nth : forall l i (m : list bool), i < length m ->
  nth i (fold_left (fun m k => set_nth k true m) l m) false = true <-> nth i m false = true \/ In i l.
Proof.
  induction l as [|k l IH]; intros i m Hi; simpl. { tauto. }
  rewrite IH by (rewrite set_nth_length; exact Hi).
  destruct (Nat.eq_dec k i) as [->|Hn].
  - assert (E : nth i (set_nth i true m) false = true). { apply nth_error_nth. apply set_nth_same. exact Hi. }
    rewrite E. tauto.
  - assert (E : nth i (set_nth k true m) false = nth i m false).
    { destruct (nth_error m i) as [x|] eqn:Em. 2: { apply nth_error_None in Em. lia. }
      rewrite (nth_error_nth m i false Em). apply nth_error_nth. rewrite set_nth_other; auto. }
    rewrite E. tauto.
Qed.

Lemma set_true_length : forall l (m : list bool), length (fold_left (fun m k => set_nth k true m) l m) = length m.
Proof. induction l; simpl; intros; auto. rewrite IHl, set_nth_length. reflexivity. Qed.

Lemma combine_app_eq : forall {X Y} (l1 l1' : list X) (l2 l2' : list Y), length l1 = length l2 ->
  combine (l1 ++ l1') (l2 ++ l2') = combine l1 l2 ++ combine l1' l2'.
Proof. induction l1; destruct l2; simpl; intros; try discriminate; auto. rewrite IHl1; auto. Qed.

Lemma combine_seq_snoc : forall {X} (l : list X) x, combine (seq 0 (length (l ++ [x]))) (l ++ [x]) =
  combine (seq 0 (length l)) l ++ [(length l, x)].
Proof.
  intros X l x. rewrite app_length. simpl length. rewrite Nat.add_1_r, seq_S. simpl.
  rewrite combine_app_eq by apply seq_length. reflexivity.
Qed.

Lemma mark_spec : forall Ms n tets,
  length (magNode_of Ms n tets) = n /\
  (forall i, i < n -> nth i (magNode_of Ms n tets) false = true <-> exists t, In t tets /\ mag_tet Ms t = true /\ In i (tet_nodes t)) /\
  (forall k, In k (magTet_of Ms n tets) <-> exists t, nth_error tets k = Some t /\ mag_tet Ms t = true) /\
  StronglySorted lt (magTet_of Ms n tets).
Proof.
  intros Ms n. induction tets as [|t tets IH] using rev_ind.
  - unfold magNode_of, magTet_of, mark. simpl. rewrite repeat_length. split; auto. split; [|split].
    + intros i Hi. rewrite nth_repeat. split; [discriminate|]. intros (t & [] & _).
    + intros k. split; [tauto|]. intros (t & E & _). destruct k; discriminate.
    + constructor.
  - destruct IH as (L & N & T & S0). unfold magNode_of, magTet_of, mark in *. rewrite combine_seq_snoc, fold_left_app. cbn [fold_left].
    set (st := fold_left (mark_tet Ms) (combine (seq 0 (length tets)) tets) (repeat false n, [])) in *. clearbody st.
    unfold mark_tet. cbn [fst snd]. destruct (mag_tet Ms t) eqn:Em; cbn [fst snd].
    + rewrite set_true_length. split; auto. split; [|split].
      * intros i Hi. rewrite set_true_nth by lia. rewrite N by exact Hi. split.
        -- intros [(t' & H1 & H2 & H3)|H].
           ++ exists t'. rewrite in_app_iff. auto.
           ++ exists t. rewrite in_app_iff. simpl. auto.
        -- intros (t' & H1 & H2 & H3). apply in_app_iff in H1. destruct H1 as [H1|[<-|[]]]; eauto.
      * intros k. rewrite in_app_iff, T. simpl. split.
        -- intros [(t' & H1 & H2)|[<-|[]]].
           ++ exists t'. rewrite nth_error_app1; auto. apply nth_error_Some. congruence.
           ++ exists t. rewrite nth_error_app2 by lia. rewrite Nat.sub_diag. auto.
        -- intros (t' & H1 & H2). destruct (Nat.lt_ge_cases k (length tets)).
           ++ rewrite nth_error_app1 in H1 by assumption. eauto.
           ++ rewrite nth_error_app2 in H1 by assumption. destruct (k - length tets) eqn:E.
              ** right. left. lia.
              ** simpl in H1. destruct n0; discriminate.
      * assert (Hlt : forall k, In k (snd st) -> k < length tets).
        { intros k Hk. apply T in Hk. destruct Hk as (t' & H1 & _). apply nth_error_Some. congruence. }
        revert S0 Hlt. generalize (snd st). induction l as [|a l IHl]; simpl; intros S0 Hlt. { repeat constructor. }
        inversion S0; subst. constructor; auto. rewrite Forall_app. split; auto.
    + split; auto. split; [|split]; auto.
      * intros i Hi. rewrite N by exact Hi. split.
        -- intros (t' & H1 & H2 & H3). exists t'. rewrite in_app_iff. auto.
        -- intros (t' & H1 & H2 & H3). apply in_app_iff in H1. destruct H1 as [H1|[<-|[]]]; eauto. congruence.
      * intros k. rewrite T. split.
        -- intros (t' & H1 & H2). exists t'. rewrite nth_error_app1; auto. apply nth_error_Some. congruence.
        -- intros (t' & H1 & H2). destruct (Nat.lt_ge_cases k (length tets)).
           ++ rewrite nth_error_app1 in H1 by assumption. eauto.
           ++ rewrite nth_error_app2 in H1 by assumption. destruct (k - length tets) eqn:E.
              ** simpl in H1. inversion H1; subst. congruence.
              ** simpl in H1. destruct n0; discriminate.
Qed.

Lemma magTri_spec : forall mn sup tris,
  (forall k, In k (magTri_of mn sup tris) <-> exists f, nth_error tris k = Some f /\ mag_tri mn f = true /\ nth (r_reg f) sup false = false) /\
  StronglySorted lt (magTri_of mn sup tris).
Proof.
  intros mn sup. induction tris as [|t tris IH] using rev_ind.
  - unfold magTri_of. simpl. split; [|constructor]. intros k. split; [tauto|]. intros (f & E & _). destruct k; discriminate.
  - destruct IH as (T & S0). unfold magTri_of in *. rewrite combine_seq_snoc, fold_left_app. cbn [fold_left].
    set (st := fold_left _ (combine (seq 0 (length tris)) tris) []) in *. cbn [fst snd].
    assert (Hsnoc : forall k f, nth_error (tris ++ [t]) k = Some f <-> nth_error tris k = Some f \/ (k = length tris /\ f = t)).
    { intros k f. destruct (Nat.lt_ge_cases k (length tris)).
      - rewrite nth_error_app1 by assumption. split; auto. intros [|[? _]]; auto; lia.
      - rewrite nth_error_app2 by assumption. destruct (k - length tris) eqn:E; simpl.
        + assert (k = length tris) by lia. split; [intros K; inversion K; auto|]. intros [K|[_ ->]]; auto.
          apply nth_error_Some_bound_index in K || (assert (k < length tris) by (apply nth_error_Some; congruence); lia).
        + split; [destruct n; discriminate|]. intros [K|[K _]]; [|lia].
          assert (k < length tris) by (apply nth_error_Some; congruence). lia. }
    destruct (mag_tri mn t && negb (nth (r_reg t) sup false)) eqn:Eb.
    + apply andb_prop in Eb. destruct Eb as [E1 E2]. apply negb_true_iff in E2. split.
      * intros k. rewrite in_app_iff, T. simpl. split.
        -- intros [(f & H1 & H2)|[<-|[]]].
           ++ exists f. rewrite Hsnoc. auto.
           ++ exists t. rewrite Hsnoc. auto.
        -- intros (f & H1 & H2). apply Hsnoc in H1. destruct H1 as [H1|[-> ->]]; eauto.
      * assert (Hlt : forall k, In k st -> k < length tris).
        { intros k Hk. apply T in Hk. destruct Hk as (t' & H1 & _). apply nth_error_Some. congruence. }
        revert S0 Hlt. generalize st as l. induction l as [|a l IHl]; simpl; intros S0 Hlt. { repeat constructor. }
        inversion S0; subst. constructor; auto. rewrite Forall_app. split; auto.
    + split; auto. intros k. rewrite T. split.
      * intros (f & H1 & H2). exists f. rewrite Hsnoc. auto.
      * intros (f & H1 & H2 & H3). apply Hsnoc in H1. destruct H1 as [H1|[-> ->]]; eauto.
        rewrite H2, H3 in Eb. discriminate.
Qed.

(** ** volumes *)
Lemma volumes_spec : forall Ms vol regions tets, (forall t, In t tets -> t_reg t < regions) ->
  length (fst (volumes Ms vol regions tets)) = regions /\
  (forall r, r < regions -> nth r (fst (volumes Ms vol regions tets)) 0%R =
     lsum (map vol (filter (fun t => t_reg t =? r) tets))) /\
  snd (volumes Ms vol regions tets) = lsum (map vol (filter (mag_tet Ms) tets)).
Proof.
  intros Ms vol regions. induction tets as [|t tets IH] using rev_ind; intros H.
  - unfold volumes. simpl. rewrite repeat_length. split; [|split]; auto. intros r Hr. rewrite nth_repeat. reflexivity.
  - destruct IH as (L & V0 & T). { intros t' Ht'. apply H. apply in_or_app. auto. }
    assert (Ht : t_reg t < regions) by (apply H; apply in_or_app; simpl; auto).
    unfold volumes in *. rewrite fold_left_app. cbn [fold_left].
    set (st := fold_left (add_volume Ms vol) tets (repeat 0%R regions, 0%R)) in *.
    unfold add_volume. cbn [fst snd]. rewrite set_nth_length. split; auto. split.
    + intros r Hr. rewrite filter_app, map_app, lsum_app. simpl.
      destruct (t_reg t =? r) eqn:E.
      * apply Nat.eqb_eq in E. subst r. simpl. rewrite <- V0 by exact Hr. rewrite Rplus_0_r.
        apply nth_error_nth. apply set_nth_same. lia.
      * apply Nat.eqb_neq in E. simpl. rewrite Rplus_0_r, <- V0 by exact Hr.
        apply nth_error_nth. rewrite set_nth_other by exact E. apply nth_error_nth_d. lia.
    + rewrite filter_app, map_app, lsum_app, T. simpl. destruct (mag_tet Ms t); simpl; lra.
Qed.
