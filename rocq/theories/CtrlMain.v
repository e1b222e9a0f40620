(** * Lemmas on the control of the triangles: the groups of the mesh, the missing triangles, the regions *)
From Coq Require Import String Reals List Arith Bool ZArith DecimalString DecimalNat Lia Lra Permutation Sorted.
From Flocq Require Import Core.
From Verif Require Import Vec Sums StdModel MeshModel CtrlModel CtrlProof CtrlSpec CtrlFace.
Import ListNotations.
Local Open Scope nat_scope.
Local Open Scope list_scope.

Lemma filter_perm : forall {X} (f : X -> bool) l l', Permutation l l' -> Permutation (filter f l) (filter f l').
Proof.
  intros X f l l' P. induction P; simpl; auto.
  - destruct (f x); auto.
  - destruct (f x), (f y); auto. apply perm_swap.
  - eapply perm_trans; eauto.
Qed.
Lemma filter_flat_map : forall {X Y} (f : Y -> bool) (h : X -> list Y) l, filter f (flat_map h l) = flat_map (fun x => filter f (h x)) l.
Proof. intros X Y f h. induction l as [|x l IH]; simpl; auto. rewrite filter_app, IH. reflexivity. Qed.
Lemma filter_map : forall {X Y} (f : Y -> bool) (h : X -> Y) l, filter f (map h l) = map h (filter (fun x => f (h x)) l).
Proof. intros X Y f h. induction l as [|x l IH]; simpl; auto. rewrite IH. destruct (f (h x)); reflexivity. Qed.
Lemma flat_map_filter : forall {X Y} (h : X -> Y) (f : X -> bool) l, flat_map (fun x => if f x then [h x] else []) l = map h (filter f l).
Proof. intros X Y h f. induction l as [|x l IH]; simpl; auto. rewrite IH. destruct (f x); reflexivity. Qed.

Lemma filter_all : forall {X} (f : X -> bool) l, (forall x, In x l -> f x = true) -> filter f l = l.
Proof.
  intros X f. induction l as [|x l IH]; intros H; simpl; auto. rewrite (H x (or_introl eq_refl)), IH; auto. intros y Hy. apply H. right. exact Hy.
Qed.
Lemma filter_none : forall {X} (f : X -> bool) l, (forall x, In x l -> f x = false) -> filter f l = [].
Proof.
  intros X f. induction l as [|x l IH]; intros H; simpl; auto. rewrite (H x (or_introl eq_refl)), IH; auto. intros y Hy. apply H. right. exact Hy.
Qed.

(** ** Statistics of a group *)
Definition faces_of (g : list basic) : list basic := filter (fun x => negb (b_surf x)) g.
Definition surfs_of (g : list basic) : list basic := filter b_surf g.
Definition reg_step (p : Z * Z) (r : nat) : Z * Z :=
  if (fst p <? Z.of_nat r)%Z then (Z.of_nat r, fst p) else (fst p, Z.of_nat r).

Lemma stats_gen : forall g a b p, fold_left stat_step g (mkStats a b p) =
  mkStats (a + length (faces_of g)) (b + length (surfs_of g)) (fold_left reg_step (map b_reg (faces_of g)) p).
Proof.
  induction g as [|x g IH]; intros a b p. { simpl. rewrite !Nat.add_0_r. reflexivity. }
  cbn [fold_left]. unfold stat_step at 2. unfold faces_of, surfs_of. cbn [filter]. destruct (b_surf x); cbn [negb nbTetraFaces nbSurfTri volRegs].
  - rewrite IH. cbn [length]. unfold faces_of, surfs_of. f_equal. lia.
  - rewrite IH. cbn [length map fold_left]. unfold faces_of, surfs_of. f_equal. lia.
Qed.
Lemma group_stats_eq : forall g, group_stats g =
  mkStats (length (faces_of g)) (length (surfs_of g)) (fold_left reg_step (map b_reg (faces_of g)) (-1, -1)%Z).
Proof. intros g. unfold group_stats. rewrite stats_gen. reflexivity. Qed.

(** the pair of regions of one or two tetrahedrons: the larger index first *)
Definition pair_of (regs : list nat) : Z * Z :=
  match regs with
  | [r] => (Z.of_nat r, -1)%Z
  | [r; r'] => (Z.of_nat (Nat.max r r'), Z.of_nat (Nat.min r r'))
  | _ => (-1, -1)%Z
  end.
Lemma pair_of_fold : forall regs, 1 <= length regs <= 2 -> fold_left reg_step regs (-1, -1)%Z = pair_of regs.
Proof.
  intros [|r [|r' [|]]] H; simpl in H; try lia; unfold reg_step; cbn [fold_left fst snd pair_of].
  - destruct (-1 <? Z.of_nat r)%Z eqn:E; auto. apply Z.ltb_ge in E. lia.
  - destruct (-1 <? Z.of_nat r)%Z eqn:E; [|apply Z.ltb_ge in E; lia]. cbn [fst].
    destruct (Z.of_nat r <? Z.of_nat r')%Z eqn:E'; [apply Z.ltb_lt in E'|apply Z.ltb_ge in E']; cbn [fst snd]; f_equal; lia.
Qed.
Lemma pair_of_perm : forall l l', Permutation l l' -> pair_of l = pair_of l'.
Proof.
  intros l l' P. pose proof (Permutation_length P) as E.
  destruct l as [|a [|b [|c l]]], l' as [|a' [|b' [|c' l']]]; try discriminate; auto.
  - apply Permutation_length_1 in P. subst. reflexivity.
  - apply Permutation_length_2 in P. destruct P as [[-> ->]|[-> ->]]; simpl; auto. f_equal; lia.
Qed.

Section mesh_groups.
Variables (tets : list tet) (tris : list tri) (sorted : list basic).
Hypothesis Hnodup : forall t, In t tets -> NoDup (tet_nodes t).
Hypothesis Hsort : all_sorted tets tris sorted.

(** the user's triangles on the face f *)
Definition on_nodes (f : list nat) (x : tri) : bool := nodes_eqb (sort3 (tri_nodes x)) (sort3 f).
Definition given (f : list nat) : list tri := filter (on_nodes f) tris.

Definition face_basic (f : list nat) (t : tet) : basic :=
  match filter (fun g => nodes_eqb (sort3 g) (sort3 f)) (oriented t) with g :: _ => basic_list g (t_reg t) | [] => basic_list [] 0 end.

Lemma tets_group : forall f, length f = 3 -> group (sort3 f) (flat_map basic_of_tet tets) = map (face_basic f) (adjacent tets f).
Proof.
  intros f Hf. unfold group. rewrite filter_flat_map. unfold adjacent. rewrite <- flat_map_filter.
  revert Hnodup. generalize tets as l. induction l as [|t l IH]; intros H; auto. cbn [flat_map]. rewrite IH by (intros; apply H; right; auto). f_equal.
  change (filter (key_is (sort3 f)) (basic_of_tet t)) with (group (sort3 f) (basic_of_tet t)).
  rewrite (tet_group t f (H t (or_introl eq_refl)) Hf). unfold face_basic.
  pose proof (tet_face t f (H t (or_introl eq_refl)) Hf) as T. destruct (face_of t f); auto.
  destruct T as (g & -> & _). reflexivity.
Qed.

Lemma tris_group : forall f, group (sort3 f) (map basic_of_tri tris) = map basic_of_tri (given f).
Proof. intros f. unfold group. rewrite filter_map. reflexivity. Qed.

Lemma face_basic_surf : forall f t, b_surf (face_basic f t) = false.
Proof. intros f t. unfold face_basic. destruct (filter _ _); reflexivity. Qed.
Lemma face_basic_reg : forall f t, In t (adjacent tets f) -> length f = 3 -> b_reg (face_basic f t) = t_reg t.
Proof.
  intros f t Ht Hf. apply filter_In in Ht. destruct Ht as [H1 H2]. unfold face_basic.
  pose proof (tet_face t f (Hnodup t H1) Hf) as T. rewrite H2 in T. destruct T as (g & -> & _). reflexivity.
Qed.

Lemma faces_in_group : forall f, length f = 3 ->
  Permutation (faces_of (group (sort3 f) sorted)) (map (face_basic f) (adjacent tets f)) /\
  Permutation (surfs_of (group (sort3 f) sorted)) (map basic_of_tri (given f)).
Proof.
  intros f Hf. destruct Hsort as [P _]. unfold group.
  pose proof (filter_perm (key_is (sort3 f)) _ _ P) as Q. unfold all_tri in Q. rewrite filter_app in Q.
  change (filter (key_is (sort3 f)) (flat_map basic_of_tet tets)) with (group (sort3 f) (flat_map basic_of_tet tets)) in Q.
  change (filter (key_is (sort3 f)) (map basic_of_tri tris)) with (group (sort3 f) (map basic_of_tri tris)) in Q.
  rewrite tets_group, tris_group in Q by exact Hf.
  assert (A1 : forall l, faces_of (map (face_basic f) l) = map (face_basic f) l /\ surfs_of (map (face_basic f) l) = []).
  { unfold faces_of, surfs_of. induction l as [|t l [I1 I2]]; auto. cbn [map filter]. rewrite face_basic_surf, I1, I2. auto. }
  assert (A2 : forall l, faces_of (map basic_of_tri l) = [] /\ surfs_of (map basic_of_tri l) = map basic_of_tri l).
  { unfold faces_of, surfs_of. induction l as [|t l [I1 I2]]; auto. cbn [map filter]. rewrite I1, I2. auto. }
  split.
  - pose proof (filter_perm (fun x => negb (b_surf x)) _ _ Q) as K. rewrite filter_app in K.
    fold (faces_of (map (face_basic f) (adjacent tets f))) in K. fold (faces_of (map basic_of_tri (given f))) in K.
    rewrite (proj1 (A1 _)), (proj1 (A2 _)), app_nil_r in K. apply Permutation_sym. exact K.
  - pose proof (filter_perm b_surf _ _ Q) as K. rewrite filter_app in K.
    fold (surfs_of (map (face_basic f) (adjacent tets f))) in K. fold (surfs_of (map basic_of_tri (given f))) in K.
    rewrite (proj2 (A1 _)), (proj2 (A2 _)) in K. apply Permutation_sym. exact K.
Qed.

Lemma group_stat : forall f, length f = 3 ->
  let s := group_stats (group (sort3 f) sorted) in
  nbTetraFaces s = length (adjacent tets f) /\ nbSurfTri s = length (given f) /\
  (1 <= length (adjacent tets f) <= 2 -> volRegs s = pair_of (map t_reg (adjacent tets f))).
Proof.
  intros f Hf. cbv zeta. rewrite group_stats_eq. cbn [nbTetraFaces nbSurfTri volRegs]. destruct (faces_in_group f Hf) as [P1 P2].
  split. { rewrite (Permutation_length P1), map_length. reflexivity. }
  split. { rewrite (Permutation_length P2), map_length. reflexivity. }
  intros H. rewrite pair_of_fold. 2: { rewrite map_length, (Permutation_length P1), map_length. exact H. }
  rewrite (pair_of_perm _ _ (Permutation_map b_reg P1)), map_map. f_equal. apply map_ext_in. intros t Ht. apply face_basic_reg; auto.
Qed.

(** outer face, or between two regions *)
Definition boundary (adj : list tet) : bool :=
  match adj with [_] => true | [t; t'] => negb (t_reg t =? t_reg t') | _ => false end.
Definition good_face (f : list nat) : Prop :=
  match given f with
  | [] => 1 <= length (adjacent tets f) <= 2
  | [_] => boundary (adjacent tets f) = true
  | _ => False
  end.

Lemma pair_neq : forall t t', (fst (pair_of (map t_reg [t; t'])) =? snd (pair_of (map t_reg [t; t'])))%Z = (t_reg t =? t_reg t').
Proof.
  intros t t'. cbn [map pair_of fst snd]. apply eq_true_iff_eq. rewrite Z.eqb_eq, Nat.eqb_eq. lia.
Qed.

Lemma group_good : forall f, length f = 3 -> no_error (group_stats (group (sort3 f) sorted)) = true <-> good_face f.
Proof.
  intros f Hf. destruct (group_stat f Hf) as (E1 & E2 & E3). unfold no_error, good_face. rewrite E1, E2.
  destruct (given f) as [|x [|y l]]; cbn [length Nat.ltb Nat.leb].
  - rewrite andb_false_r, andb_false_l. destruct (Nat.eqb_spec (length (adjacent tets f)) 0); [split; [discriminate|lia]|].
    destruct (length (adjacent tets f)) as [|[|[|m]]] eqn:L; cbn; split; try discriminate; try lia; auto.
  - rewrite andb_true_r. destruct (adjacent tets f) as [|t [|t' [|t'' l]]]; cbn [length Nat.eqb Nat.leb Nat.ltb boundary]; try (split; congruence). { split; reflexivity. }
    rewrite E3 by (simpl; lia). rewrite pair_neq, andb_true_l. destruct (t_reg t =? t_reg t'); cbn; split; congruence.
  - split; [discriminate|contradiction].
Qed.

Lemma in_group : forall f x, In x (group (sort3 f) sorted) -> b_nodes x = sort3 f.
Proof. intros f x H. apply filter_In in H. apply nodes_eqb_true. apply H. Qed.

Lemma group_add : forall f, length f = 3 -> good_face f ->
  to_add (group (sort3 f) sorted) =
  match given f with [] => if boundary (adjacent tets f) then [(sort3 f, pair_of (map t_reg (adjacent tets f)))] else [] | _ => [] end.
Proof.
  intros f Hf Hg. destruct (group_stat f Hf) as (E1 & E2 & E3). unfold to_add. rewrite E1, E2. unfold good_face in Hg.
  destruct (given f) as [|x [|y l]] eqn:Eg; [|reflexivity..]. rewrite E3 by exact Hg.
  assert (Ne : group (sort3 f) sorted <> []).
  { intros K. rewrite K in E1. cbn in E1. lia. }
  destruct (group (sort3 f) sorted) as [|b g] eqn:G; [contradiction|].
  assert (Eb : b_nodes b = sort3 f). { apply in_group. rewrite G. left. auto. } rewrite Eb.
  destruct (adjacent tets f) as [|t [|t' [|t'' l]]]; cbn [length] in *; try lia; [reflexivity|].
  rewrite pair_neq. cbn [Nat.eqb orb andb boundary]. reflexivity.
Qed.

(** every triangle of the vector is a face of a tetrahedron or one of the user's *)
Lemma sorted_key : forall x, In x sorted -> exists f, length f = 3 /\ b_nodes x = sort3 f /\
  ((exists t, In t tets /\ In f (oriented t)) \/ exists y, In y tris /\ f = tri_nodes y).
Proof.
  intros x H. destruct Hsort as [P _]. apply (Permutation_in _ (Permutation_sym P)) in H. apply in_app_iff in H. destruct H as [H|H].
  - apply in_flat_map in H. destruct H as (t & Ht & H). rewrite basic_of_tet_oriented in H. apply in_map_iff in H. destruct H as (g & <- & Hg).
    exists g. pose proof (oriented_length t g Hg) as L. split; auto. split.
    + destruct (three g L) as (a & b & c & ->). reflexivity.
    + left. eauto.
  - apply in_map_iff in H. destruct H as (y & <- & Hy). exists (tri_nodes y). split; [reflexivity|]. split; [reflexivity|]. right. eauto.
Qed.

Lemma oriented_face : forall t g, In t tets -> In g (oriented t) -> face_of t g = true.
Proof.
  intros t g Ht Hg. pose proof (tet_face t g (Hnodup t Ht) (oriented_length t g Hg)) as T. destruct (face_of t g); auto.
  assert (In g (filter (fun g0 => nodes_eqb (sort3 g0) (sort3 g)) (oriented t))).
  { apply filter_In. split; auto. apply nodes_eqb_refl. }
  rewrite T in H. contradiction.
Qed.

Lemma run_of : forall g, In g (runs sorted) -> exists f, length f = 3 /\ g = group (sort3 f) sorted /\ run_key g = sort3 f /\
  ((exists t, In t tets /\ In f (oriented t)) \/ exists y, In y tris /\ f = tri_nodes y).
Proof.
  intros g Hg. destruct Hsort as [_ S]. destruct (runs_spec sorted S) as (_ & R & _). destruct (R g Hg) as [N E].
  destruct g as [|x g]; [contradiction|]. cbn [run_key] in E.
  assert (Hx : In x sorted). { assert (In x (x :: g)) by (left; auto). rewrite E in H. apply filter_In in H. tauto. }
  destruct (sorted_key x Hx) as (f & Hf & Ef & C). exists f. split; auto. cbn [run_key]. rewrite <- Ef. auto.
Qed.

Lemma key_run : forall f, group (sort3 f) sorted <> [] -> In (group (sort3 f) sorted) (runs sorted).
Proof.
  intros f H. destruct Hsort as [_ S]. destruct (runs_spec sorted S) as (_ & R & C).
  destruct (group (sort3 f) sorted) as [|x g] eqn:G; [contradiction|].
  assert (Hx : In x (group (sort3 f) sorted)) by (rewrite G; left; auto). pose proof (in_group f x Hx) as Ex.
  apply filter_In in Hx. destruct Hx as [Hx _]. specialize (C x Hx). apply in_map_iff in C. destruct C as (g' & Eg & Hg').
  destruct (R g' Hg') as [_ E]. rewrite Eg, Ex in E. rewrite <- G, <- E. exact Hg'.
Qed.

Lemma walk_ok : (exists miss, walk_all sorted = Some miss) <->
  (forall t f, In t tets -> face_of t f = true -> good_face f) /\ (forall x, In x tris -> good_face (tri_nodes x)).
Proof.
  rewrite walk_all_runs. split.
  - intros (miss & H). apply handle_spec in H. destruct H as [H _].
    assert (G : forall f, length f = 3 -> (adjacent tets f <> [] \/ given f <> []) -> good_face f).
    { intros f Hf C. apply (group_good f Hf). apply H. apply key_run. intros K. destruct (group_stat f Hf) as (E1 & E2 & _). rewrite K in E1, E2.
      cbn in E1, E2. destruct C as [C|C]; apply C; apply length_zero_iff_nil; auto. }
    split.
    + intros t f Ht E. apply G. { apply face_of_iff in E. tauto. } left. intros K.
      assert (In t (adjacent tets f)) by (apply filter_In; auto). rewrite K in H0. contradiction.
    + intros x Hx. apply G; [reflexivity|]. right. intros K. assert (In x (given (tri_nodes x))).
      { apply filter_In. split; auto. apply nodes_eqb_refl. } rewrite K in H0. contradiction.
  - intros [H1 H2]. destruct (handle (runs sorted) []) as [m|] eqn:E; eauto. exfalso.
    assert (K : handle (runs sorted) [] = Some ([] ++ flat_map to_add (runs sorted))).
    { apply handle_spec. split; auto. intros g Hg. destruct (run_of g Hg) as (f & Hf & -> & _ & [(t & Ht & Ho)|(y & Hy & ->)]).
      - apply group_good; auto. apply (H1 t f Ht). apply oriented_face; auto.
      - apply group_good; auto. }
    congruence.
Qed.

Lemma good_perm : forall f g, Permutation f g -> good_face f -> good_face g.
Proof.
  intros f g P H. unfold good_face, given, on_nodes in *. rewrite <- (adjacent_perm tets f g P).
  replace (sort3 g) with (sort3 f) by (apply sort3_eq; exact P). exact H.
Qed.

Lemma flat_map_filter_key : forall (gs : list (list basic)) k,
  (forall g a, In g gs -> In a (to_add g) -> fst a = run_key g) -> NoDup (map run_key gs) ->
  (forall g, In g gs -> run_key g = k -> filter (fun a : missing => nodes_eqb (fst a) k) (flat_map to_add gs) = to_add g) /\
  (~ In k (map run_key gs) -> filter (fun a : missing => nodes_eqb (fst a) k) (flat_map to_add gs) = []).
Proof.
  induction gs as [|g gs IH]; intros k H N. { split; [intros g []|reflexivity]. }
  inversion N as [|? ? N1 N2]; subst. destruct (IH k (fun g' a Hg' => H g' a (or_intror Hg')) N2) as [I1 I2].
  assert (A : run_key g = k -> filter (fun a : missing => nodes_eqb (fst a) k) (to_add g) = to_add g).
  { intros E. apply filter_all. intros a Ha. apply nodes_eqb_true. rewrite <- E. apply H; simpl; auto. }
  assert (B : run_key g <> k -> filter (fun a : missing => nodes_eqb (fst a) k) (to_add g) = []).
  { intros E. apply filter_none. intros a Ha. destruct (nodes_eqb (fst a) k) eqn:Q; auto. apply nodes_eqb_true in Q. exfalso. apply E. rewrite <- Q. symmetry. apply H; simpl; auto. }
  cbn [flat_map]. rewrite filter_app. split.
  - intros g' [<-|Hg'] E.
    + rewrite A by exact E. rewrite I2. { apply app_nil_r. } rewrite <- E. exact N1.
    + rewrite B. { apply I1; auto. } intros E'. apply N1. rewrite E', <- E. apply in_map. exact Hg'.
  - intros K. rewrite B by (intros E; apply K; left; exact E). apply I2. intros K'. apply K. right. exact K'.
Qed.

Lemma miss_spec : forall miss, walk_all sorted = Some miss ->
  (forall a, In a miss -> exists t f, In t tets /\ face_of t f = true /\ fst a = sort3 f) /\
  (forall f, length f = 3 ->
    filter (fun a : missing => nodes_eqb (fst a) (sort3 f)) miss =
    match given f with [] => if boundary (adjacent tets f) then [(sort3 f, pair_of (map t_reg (adjacent tets f)))] else [] | _ => [] end).
Proof.
  intros miss H. assert (W := proj1 walk_ok (ex_intro _ miss H)). destruct W as [W1 W2].
  rewrite walk_all_runs in H. apply handle_spec in H. destruct H as [_ ->]. cbn [app].
  destruct (runs_spec sorted (proj2 Hsort)) as (N & _ & _).
  assert (Good : forall f, (exists t, In t tets /\ In f (oriented t)) \/ (exists y, In y tris /\ f = tri_nodes y) -> good_face f).
  { intros f [(t & Ht & Ho)|(y & Hy & ->)]; auto. apply (W1 t f Ht). apply oriented_face; auto. }
  assert (Add : forall g a, In g (runs sorted) -> In a (to_add g) -> fst a = run_key g).
  { intros g a _ Ha. unfold to_add in Ha. destruct (_ && _); [|contradiction]. destruct g as [|x g]; [contradiction|]. destruct Ha as [<-|[]]. reflexivity. }
  split.
  - intros a Ha. apply in_flat_map in Ha. destruct Ha as (g & Hg & Ha). pose proof (Add g a Hg Ha) as Ek.
    destruct (run_of g Hg) as (f & Hf & Eg & Er & C). rewrite Eg in Ha. rewrite group_add in Ha by auto.
    destruct (given f) eqn:G; [|contradiction]. destruct C as [(t & Ht & Ho)|(y & Hy & E)].
    + exists t, f. split; auto. split. { apply oriented_face; auto. } congruence.
    + exfalso. assert (In y (given f)). { apply filter_In. split; auto. rewrite E. apply nodes_eqb_refl. } rewrite G in H. contradiction.
  - intros f Hf. destruct (flat_map_filter_key (runs sorted) (sort3 f) Add N) as [F1 F2].
    destruct (group (sort3 f) sorted) as [|x g] eqn:G.
    + rewrite F2.
      * destruct (group_stat f Hf) as (E1 & E2 & _). rewrite G in E1, E2. cbn in E1, E2. symmetry in E1, E2.
        apply length_zero_iff_nil in E1, E2. rewrite E1, E2. reflexivity.
      * intros K. apply in_map_iff in K. destruct K as (g & Eg & Hg). destruct (runs_spec sorted (proj2 Hsort)) as (_ & R & _).
        destruct (R g Hg) as [R1 R2]. rewrite Eg, G in R2. contradiction.
    + assert (Hg : In (group (sort3 f) sorted) (runs sorted)) by (apply key_run; rewrite G; discriminate).
      destruct (run_of _ Hg) as (f' & Hf' & Eg & Er & C).
      assert (Ek : run_key (group (sort3 f) sorted) = sort3 f).
      { rewrite G. cbn [run_key]. apply in_group. rewrite G. left. auto. }
      rewrite (F1 _ Hg Ek). apply group_add; auto. apply (good_perm f'); auto. apply sort3_eq. congruence.
Qed.
End mesh_groups.

(** ** Names *)
Lemma append_length : forall a b : string, String.length (a ++ b)%string = String.length a + String.length b.
Proof. induction a as [|c a IH]; intros b; simpl; auto. Qed.
Lemma append_inj_l : forall a b c : string, (a ++ b)%string = (a ++ c)%string -> b = c.
Proof. induction a as [|x a IH]; simpl; intros b c H; auto. inversion H. auto. Qed.
Lemma to_string_inj : forall i j, to_string i = to_string j -> i = j.
Proof.
  intros i j H. unfold to_string in H. apply (f_equal NilEmpty.uint_of_string) in H. rewrite !NilEmpty.usu in H. inversion H.
  apply Unsigned.to_uint_inj. assumption.
Qed.
Lemma nth_name_inj : forall base i j, nth_name base i = nth_name base j -> i = j.
Proof.
  intros base i j H. destruct i as [|i], j as [|j]; auto; unfold nth_name in H.
  - apply (f_equal String.length) in H. rewrite append_length in H. simpl in H. lia.
  - apply (f_equal String.length) in H. rewrite append_length in H. simpl in H. lia.
  - apply append_inj_l in H. apply append_inj_l in H. apply to_string_inj in H. exact H.
Qed.

Section names.
Context {P : Type}.
Notation prm := (@surf_prm P).

Lemma name_used_in : forall (params : list prm) n, name_used params n = true <-> In n (map fst params).
Proof.
  intros params n. unfold name_used. rewrite existsb_exists, in_map_iff. split.
  - intros (r & Hr & E). apply String.eqb_eq in E. eauto.
  - intros (r & E & Hr). exists r. split; auto. apply String.eqb_eq. exact E.
Qed.

Lemma find_name_spec : forall (params : list prm) base,
  exists i, find_name (S (List.length params)) 0 base params = Some (nth_name base i) /\
    ~ In (nth_name base i) (map fst params) /\ forall j, j < i -> In (nth_name base j) (map fst params).
Proof.
  intros params base.
  assert (G : forall fuel i, (forall j, j < i -> In (nth_name base j) (map fst params)) ->
    (exists k, find_name fuel i base params = Some (nth_name base k) /\ ~ In (nth_name base k) (map fst params) /\
        forall j, j < k -> In (nth_name base j) (map fst params)) \/
    (forall j, j < fuel + i -> In (nth_name base j) (map fst params))).
  { induction fuel as [|fuel IH]; intros i H. { right. exact H. }
    cbn [find_name]. destruct (name_used params (nth_name base i)) eqn:E.
    - apply name_used_in in E. destruct (IH (S i)) as [K|K].
      + intros j Hj. destruct (Nat.eq_dec j i) as [->|]; auto. apply H. lia.
      + left. exact K.
      + right. intros j Hj. apply K. lia.
    - left. exists i. split; auto. split; auto. rewrite <- name_used_in. congruence. }
  destruct (G (S (List.length params)) 0) as [K|K]; [intros; lia|exact K|].
  exfalso. assert (N : NoDup (map (nth_name base) (seq 0 (S (List.length params))))).
  { apply FinFun.Injective_map_NoDup; [intros i j; apply nth_name_inj|apply seq_NoDup]. }
  assert (I : incl (map (nth_name base) (seq 0 (S (List.length params)))) (map fst params)).
  { intros n Hn. apply in_map_iff in Hn. destruct Hn as (j & <- & Hj). apply in_seq in Hj. apply K. lia. }
  pose proof (NoDup_incl_length N I) as L. rewrite !map_length, seq_length in L. unfold surf_prm in *. lia.
Qed.

Lemma pair_eqb_eq : forall a b, pair_eqb a b = true <-> a = b.
Proof.
  intros [a1 a2] [b1 b2]. unfold pair_eqb. cbn [fst snd]. rewrite andb_true_iff, !Z.eqb_eq. split; [intros [-> ->]; auto|intros H; inversion H; auto].
Qed.

Lemma lookup_app : forall m m' k, lookup (m ++ m') k = match lookup m k with Some i => Some i | None => lookup m' k end.
Proof.
  intros m m' k. unfold lookup. induction m as [|e m IH]; cbn [app find]; auto. destruct (pair_eqb (fst e) k); auto.
Qed.

(** map and regions grow together *)
Lemma create_regions_spec : forall names (dflt : prm) pairs params m,
  (forall k i, lookup m k = Some i -> i < List.length params) ->
  (forall k k' i, lookup m k = Some i -> lookup m k' = Some i -> k = k') ->
  exists news m', create_regions names dflt pairs params m = Some (params ++ news, m') /\
    (forall k, In k pairs -> exists i, lookup m' k = Some i) /\
    (forall k i, lookup m k = Some i -> lookup m' k = Some i) /\
    (forall k i, lookup m' k = Some i -> i < List.length (params ++ news)) /\
    (forall k k' i, lookup m' k = Some i -> lookup m' k' = Some i -> k = k') /\
    (forall k i, lookup m' k = Some i -> lookup m k = None -> In k pairs /\ List.length params <= i /\
       exists j, nth_error (params ++ news) i = Some (nth_name (base_name names k) j, snd dflt)) /\
    (NoDup (map fst params) -> NoDup (map fst (params ++ news))) /\
    (forall i, List.length params <= i < List.length (params ++ news) -> exists k, In k pairs /\ lookup m' k = Some i).
Proof.
  intros names dflt. induction pairs as [|k pairs IH]; intros params m B J.
  - exists [], m. rewrite app_nil_r. cbn [create_regions]. split; auto. split. { intros k []. } split; auto. split; auto. split; auto.
    split. { intros k i H1 H2. congruence. } split; auto. intros; lia.
  - cbn [create_regions]. destruct (lookup m k) as [i0|] eqn:E.
    + destruct (IH params m B J) as (news & m' & H1 & H2 & H3 & H4 & H5 & H6 & H7 & H8). exists news, m'. split; auto.
      split. { intros k' [<-|Hk]; eauto. } split; auto. split; auto. split; auto.
      split. { intros k' i Hk Hn. destruct (H6 k' i Hk Hn) as (? & ? & ?). split; auto. right. auto. }
      split; auto. intros i Hi. destruct (H8 i Hi) as (k' & ? & ?). exists k'. split; auto. right. auto.
    + destruct (find_name_spec params (base_name names k)) as (j & F & Nu & _). rewrite F.
      set (params1 := params ++ [(nth_name (base_name names k) j, snd dflt)]). set (m1 := m ++ [(k, List.length params)]).
      assert (L1 : List.length params1 = S (List.length params)) by (unfold params1; rewrite app_length; simpl; lia).
      assert (M1 : forall k', lookup m1 k' = match lookup m k' with Some i => Some i | None => if pair_eqb k k' then Some (List.length params) else None end).
      { intros k'. unfold m1. rewrite lookup_app. destruct (lookup m k'); auto. unfold lookup. cbn [find fst]. destruct (pair_eqb k k'); reflexivity. }
      destruct (IH params1 m1) as (news & m' & H1 & H2 & H3 & H4 & H5 & H6 & H7 & H8).
      { intros k' i. rewrite M1. destruct (lookup m k') eqn:Q. { intros H; inversion H; subst. apply B in Q. lia. }
        destruct (pair_eqb k k'); [|discriminate]. intros H; inversion H; subst. lia. }
      { intros k1 k2 i. rewrite !M1. destruct (lookup m k1) eqn:Q1, (lookup m k2) eqn:Q2.
        - intros A C. apply (J k1 k2 i); congruence.
        - destruct (pair_eqb k k2) eqn:Z2; [|discriminate]. intros A C. inversion A; inversion C; subst. apply B in Q1. lia.
        - destruct (pair_eqb k k1) eqn:Z1; [|discriminate]. intros A C. inversion A; inversion C; subst. apply B in Q2. lia.
        - destruct (pair_eqb k k1) eqn:Z1; [|discriminate]. destruct (pair_eqb k k2) eqn:Z2; [|discriminate].
          apply pair_eqb_eq in Z1. apply pair_eqb_eq in Z2. congruence. }
      assert (EA : params1 ++ news = params ++ ((nth_name (base_name names k) j, snd dflt) :: news)) by (unfold params1; rewrite <- app_assoc; reflexivity).
      exists ((nth_name (base_name names k) j, snd dflt) :: news), m'. rewrite <- EA. split; auto.
      assert (Lk : lookup m1 k = Some (List.length params)).
      { rewrite M1, E. replace (pair_eqb k k) with true; auto. symmetry. apply pair_eqb_eq. auto. }
      assert (Lk' := H3 _ _ Lk).
      split. { intros k' [<-|Hk]; eauto. }
      split. { intros k' i Hk. apply H3. rewrite M1, Hk. reflexivity. }
      split; auto. split; auto. split; [|split].
      * intros k' i Hk Hn. destruct (pair_eqb k k') eqn:Z.
        -- apply pair_eqb_eq in Z. subst k'. rewrite Lk' in Hk. inversion Hk; subst i. split; [left; auto|]. split; [lia|]. exists j.
           rewrite EA, nth_error_app2, Nat.sub_diag by lia. reflexivity.
        -- destruct (H6 k' i Hk) as (A1 & A2 & A3). { rewrite M1, Hn, Z. reflexivity. } split; [right; auto|]. split; [lia|exact A3].
      * intros N. apply H7. unfold params1. rewrite map_app. cbn [map fst].
        apply (Permutation_NoDup (l := nth_name (base_name names k) j :: map fst params)). { apply Permutation_cons_append. }
        constructor; auto.
      * intros i Hi. destruct (Nat.eq_dec i (List.length params)) as [->|]. { exists k. split; [left; auto|exact Lk']. }
        destruct (H8 i) as (k' & A & C). { lia. } exists k'. split; auto. right. exact A.
Qed.
End names.
