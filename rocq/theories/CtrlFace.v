(** * The faces of a tetrahedron, as sorted triples and as oriented triangles *)
From Coq Require Import Reals List Arith Bool ZArith Lia Lra Permutation Sorted.
From Flocq Require Import Core.
From Verif Require Import Vec Sums StdModel MeshModel CtrlModel CtrlProof CtrlSpec.
Import ListNotations.
Local Open Scope nat_scope.

Lemma mem_in : forall x l, mem x l = true <-> In x l.
Proof.
  intros x l. unfold mem. rewrite existsb_exists. split.
  - intros (y & Hy & E). apply Nat.eqb_eq in E. subst. exact Hy.
  - intros H. exists x. split; auto. apply Nat.eqb_refl.
Qed.
Lemma distinct_nodup : forall l, distinct l = true <-> NoDup l.
Proof.
  induction l as [|x l IH]; simpl. { split; auto. constructor. }
  rewrite andb_true_iff, negb_true_iff, IH. rewrite <- not_true_iff_false, mem_in. split.
  - intros [H1 H2]. constructor; auto.
  - intros H. inversion H; auto.
Qed.

Lemma face_of_iff : forall t f, face_of t f = true <-> length f = 3 /\ NoDup f /\ incl f (tet_nodes t).
Proof.
  intros t f. unfold face_of. rewrite !andb_true_iff, Nat.eqb_eq, distinct_nodup, forallb_forall. unfold incl.
  setoid_rewrite mem_in. tauto.
Qed.

Lemma face_perm : forall t f g, Permutation f g -> face_of t f = face_of t g.
Proof.
  intros t f g P. apply eq_true_iff_eq. rewrite !face_of_iff. rewrite (Permutation_length P).
  split; intros (H1 & H2 & H3); split; auto; split.
  - eapply Permutation_NoDup; eauto.
  - intros x Hx. apply H3. apply (Permutation_in _ (Permutation_sym P)). exact Hx.
  - eapply Permutation_NoDup; [apply Permutation_sym|]; eauto.
  - intros x Hx. apply H3. apply (Permutation_in _ P). exact Hx.
Qed.
Lemma adjacent_perm : forall tets f g, Permutation f g -> adjacent tets f = adjacent tets g.
Proof. intros tets f g P. unfold adjacent. apply filter_ext. intros t. apply face_perm. exact P. Qed.

Lemma key_true : forall l l', Permutation l l' -> nodes_eqb (sort3 l) (sort3 l') = true.
Proof. intros l l' H. apply nodes_eqb_true. apply sort3_eq. exact H. Qed.
Lemma key_false : forall o l l', In o l -> ~ In o l' -> nodes_eqb (sort3 l) (sort3 l') = false.
Proof.
  intros o l l' H1 H2. apply not_true_is_false. rewrite nodes_eqb_true, sort3_eq. intros P. apply H2. apply (Permutation_in _ P H1).
Qed.

Lemma three : forall f : list nat, length f = 3 -> exists x y z, f = [x; y; z].
Proof. intros [|x [|y [|z [|]]]]; try discriminate. eauto. Qed.

(** the sign of the order of the nodes *)
Definition sg (flip : bool) : R := if flip then (-1)%R else 1%R.

Lemma area_sorted : forall p a b c,
  area_vec p [a; b; c] = vscale (sg (Nat.odd (inversions a b c))) (area_vec p (sort3 [a; b; c])).
Proof.
  intros p a b c. unfold sort3, isort, inversions. cbn [fold_right insert_sorted].
  destruct (c <? b) eqn:E1; cbn [insert_sorted];
  [destruct (c <? a) eqn:E2; cbn [insert_sorted]; [destruct (b <? a) eqn:E3|] | destruct (b <? a) eqn:E3; cbn [insert_sorted]; [destruct (c <? a) eqn:E2|]];
  rewrite ?Nat.ltb_lt, ?Nat.ltb_ge in *;
  repeat match goal with |- context [?x <? ?y] => destruct (x <? y) eqn:?; rewrite ?Nat.ltb_lt, ?Nat.ltb_ge in *; try (exfalso; lia) end;
  unfold area_vec, sg; cbn [nth Nat.odd Nat.even negb Nat.add]; generalize (p a) (p b) (p c); intros [] [] []; apply vec_eq; vsimpl; ring.
Qed.

(** the nodes of the face of the tetrahedron, as the code orders them *)
Definition oriented (t : tet) : list (list nat) :=
  [[t0 t; t2 t; t1 t]; [t1 t; t2 t; t3 t]; [t2 t; t0 t; t3 t]; [t3 t; t0 t; t1 t]].
Definition basic_list (f : list nat) (reg : nat) : basic := basic_tri (nth 0 f 0) (nth 1 f 0) (nth 2 f 0) reg false.
Lemma basic_of_tet_oriented : forall t, basic_of_tet t = map (fun f => basic_list f (t_reg t)) (oriented t).
Proof. reflexivity. Qed.

Ltac solve_perm := apply NoDup_Permutation; [repeat constructor; simpl; intuition congruence | repeat constructor; simpl; intuition congruence | intros ?; simpl; tauto].

Lemma key_filter : forall f r l, (forall g, In g l -> length g = 3) ->
  filter (key_is (sort3 f)) (map (fun g => basic_list g r) l) = map (fun g => basic_list g r) (filter (fun g => nodes_eqb (sort3 g) (sort3 f)) l).
Proof.
  intros f r. induction l as [|g l IH]; intros H; auto. cbn [map filter]. rewrite IH by (intros; apply H; right; auto).
  destruct (three g (H g (or_introl eq_refl))) as (x & y & z & ->).
  change (key_is (sort3 f) (basic_list [x; y; z] r)) with (nodes_eqb (sort3 [x; y; z]) (sort3 f)).
  destruct (nodes_eqb _ _); reflexivity.
Qed.

Lemma oriented_length : forall t g, In g (oriented t) -> length g = 3.
Proof. intros t g H. simpl in H. repeat (destruct H as [<-|H]; [reflexivity|]). contradiction. Qed.
Lemma oriented_incl : forall t g, In g (oriented t) -> incl g (tet_nodes t).
Proof.
  intros t g H x Hx. simpl in H. repeat (destruct H as [<-|H]; [simpl in Hx |- *; intuition auto|]). contradiction.
Qed.

Ltac nodes_cases t f Hn Hf :=
  destruct t as [a b c d r]; unfold tet_nodes in *; cbn [t0 t1 t2 t3 t_reg] in *;
  assert (Nab : a <> b /\ a <> c /\ a <> d /\ b <> c /\ b <> d /\ c <> d) by
    (inversion Hn as [|? ? N1 M1]; subst; inversion M1 as [|? ? N2 M2]; subst; inversion M2 as [|? ? N3 M3]; subst; simpl in *; intuition congruence);
  destruct (three f Hf) as (x & y & z & ->).

Lemma tet_face : forall t f, NoDup (tet_nodes t) -> length f = 3 ->
  if face_of t f
  then exists g, filter (fun g => nodes_eqb (sort3 g) (sort3 f)) (oriented t) = [g] /\ In g (oriented t) /\ Permutation f g
  else filter (fun g => nodes_eqb (sort3 g) (sort3 f)) (oriented t) = [].
Proof.
  intros t f Hn Hf. destruct (face_of t f) eqn:E.
  - apply face_of_iff in E. destruct E as (_ & Hd & Hi). nodes_cases t f Hn Hf.
    assert (Nxy : x <> y /\ x <> z /\ y <> z) by
      (inversion Hd as [|? ? N1 M1]; subst; inversion M1 as [|? ? N2 M2]; subst; simpl in *; intuition congruence).
    pose proof (Hi x ltac:(simpl; auto)) as Hx. pose proof (Hi y ltac:(simpl; auto)) as Hy. pose proof (Hi z ltac:(simpl; auto)) as Hz.
    clear Hi Hd Hn Hf. simpl in Hx, Hy, Hz. unfold oriented. cbn [t0 t1 t2 t3 filter].
    destruct Hx as [<-|[<-|[<-|[<-|[]]]]]; destruct Hy as [<-|[<-|[<-|[<-|[]]]]]; try (exfalso; tauto);
    destruct Hz as [<-|[<-|[<-|[<-|[]]]]]; try (exfalso; tauto);
    repeat match goal with |- context [nodes_eqb (sort3 ?l) (sort3 ?l')] =>
      first [rewrite (key_true l l') by (solve [solve_perm])
            | rewrite (key_false a l l') by (simpl; intuition congruence)
            | rewrite (key_false b l l') by (simpl; intuition congruence)
            | rewrite (key_false c l l') by (simpl; intuition congruence)
            | rewrite (key_false d l l') by (simpl; intuition congruence)] end;
    (eexists; split; [reflexivity|]; split; [simpl; tauto|solve_perm]).
  - destruct (filter _ (oriented t)) as [|g l] eqn:F; auto. exfalso.
    assert (H : In g (filter (fun g => nodes_eqb (sort3 g) (sort3 f)) (oriented t))) by (rewrite F; left; auto).
    apply filter_In in H. destruct H as [H1 H2]. apply nodes_eqb_true, sort3_eq in H2.
    rewrite (face_perm t f g) in E by (apply Permutation_sym; exact H2).
    assert (face_of t g = true); [|congruence]. apply face_of_iff. split. { eapply oriented_length; eauto. }
    split; [|apply oriented_incl; exact H1].
    clear F H2 E f Hf. destruct t as [a b c d r]. unfold tet_nodes in Hn. cbn in Hn, H1.
    inversion Hn as [|? ? N1 M1]; subst; inversion M1 as [|? ? N2 M2]; subst; inversion M2 as [|? ? N3 M3]; subst. simpl in N1, N2, N3.
    repeat (destruct H1 as [<-|H1]; [repeat constructor; simpl; intuition congruence|]). contradiction.
Qed.

(** the face as the code orders it is oriented outwards when the tetrahedron is *)
Lemma out_oriented : forall p t f g, NoDup (tet_nodes t) -> (0 < det4 p t)%R -> In g (oriented t) -> Permutation f g ->
  out_area p t f = area_vec p g.
Proof.
  intros p t f g Hn Hd Hg P.
  assert (Hf : length f = 3) by (rewrite (Permutation_length P); eapply oriented_length; eauto).
  assert (Nf : NoDup f).
  { eapply Permutation_NoDup; [apply Permutation_sym; exact P|]. clear - Hn Hg. destruct t as [a b c d r]. unfold tet_nodes in Hn. cbn in Hn, Hg.
    inversion Hn as [|? ? N1 M1]; subst; inversion M1 as [|? ? N2 M2]; subst; inversion M2 as [|? ? N3 M3]; subst. simpl in N1, N2, N3.
    repeat (destruct Hg as [<-|Hg]; [repeat constructor; simpl; intuition congruence|]). contradiction. }
  nodes_cases t f Hn Hf. unfold det4 in Hd. cbn [t0 t1 t2 t3] in Hd.
  assert (Nxy : x <> y /\ x <> z /\ y <> z) by
      (inversion Nf as [|? ? N1 M1]; subst; inversion M1 as [|? ? N2 M2]; subst; simpl in *; intuition congruence).
  pose proof (Permutation_in x P ltac:(simpl; auto)) as Hx. pose proof (Permutation_in y P ltac:(simpl; auto)) as Hy. pose proof (Permutation_in z P ltac:(simpl; auto)) as Hz.
  clear P Nf Hf Hn. unfold oriented in Hg. cbn [t0 t1 t2 t3] in Hg.
  assert (Q : forall i j, i <> j -> (i =? j) = false) by (intros; apply Nat.eqb_neq; auto).
  destruct Nab as (N1 & N2 & N3 & N4 & N5 & N6). pose proof (not_eq_sym N1). pose proof (not_eq_sym N2). pose proof (not_eq_sym N3).
  pose proof (not_eq_sym N4). pose proof (not_eq_sym N5). pose proof (not_eq_sym N6).
  destruct Hg as [<-|[<-|[<-|[<-|[]]]]]; simpl in Hx, Hy, Hz;
     destruct Hx as [<-|[<-|[<-|[]]]]; destruct Hy as [<-|[<-|[<-|[]]]]; try (exfalso; tauto);
     destruct Hz as [<-|[<-|[<-|[]]]]; try (exfalso; tauto);
     unfold out_area, side, opposite, mem, tet_nodes; cbn [t0 t1 t2 t3 filter existsb];
     rewrite ?Nat.eqb_refl; rewrite ?Q by assumption; cbn [orb negb hd];
     unfold area_vec; cbn [nth]; clear Q; revert Hd; generalize (p a) (p b) (p c) (p d); intros [] [] [] [] Hd;
     match goal with |- (if Rlt_bool ?X 0 then _ else _) = _ => destruct (Rlt_bool_spec X 0) as [S|S] end;
      first [solve [apply vec_eq; vsimpl; ring] | exfalso; vsimpl; lra].
Qed.

Lemma tet_group : forall t f, NoDup (tet_nodes t) -> length f = 3 ->
  group (sort3 f) (basic_of_tet t) =
  if face_of t f then match filter (fun g => nodes_eqb (sort3 g) (sort3 f)) (oriented t) with g :: _ => [basic_list g (t_reg t)] | [] => [] end else [].
Proof.
  intros t f Hn Hf. rewrite basic_of_tet_oriented. unfold group. rewrite key_filter by apply oriented_length.
  pose proof (tet_face t f Hn Hf) as T. destruct (face_of t f).
  - destruct T as (g & -> & _). reflexivity.
  - rewrite T. reflexivity.
Qed.
