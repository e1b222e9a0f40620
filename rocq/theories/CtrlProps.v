(** * Properties of the surface triangles: C38, C39, C40, C78 *)
From Coq Require Import String Reals List Arith Bool ZArith Lia Lra Permutation Sorted.
From Flocq Require Import Core.
From Verif Require Import Vec Sums StdModel MeshModel MeshProof MeshProps ElemModel ElemProof AvgModel ElemProps.
From Verif Require Import CtrlModel CtrlProof CtrlSpec CtrlFace CtrlMain.
Import ListNotations.
Local Open Scope nat_scope.
Local Open Scope list_scope.

(** two triangles with the same nodes *)
Definition same_face (f g : list nat) : bool := forallb (fun x => mem x g) f && forallb (fun x => mem x f) g.
(** a face that must carry a triangle: on the outside, or between two regions *)
Definition is_boundary (tets : list tet) (f : list nat) : bool :=
  match adjacent tets f with [_] => true | [t; t'] => negb (t_reg t =? t_reg t') | _ => false end.

(** ** C38: which meshes are accepted *)
Lemma given_le1 : forall tris, (forall i j x y, i < j -> nth_error tris i = Some x -> nth_error tris j = Some y -> ~ Permutation (tri_nodes x) (tri_nodes y)) ->
  forall f, length (given tris f) <= 1.
Proof.
  induction tris as [|x tris IH]; intros H f; unfold given; cbn [filter]. { simpl. lia. }
  assert (I : forall f, length (given tris f) <= 1).
  { apply IH. intros i j y z Hij Hi Hj. apply (H (S i) (S j)); auto. lia. }
  destruct (on_nodes f x) eqn:E; [|apply I]. cbn [length]. replace (filter (on_nodes f) tris) with (@nil tri); [simpl; lia|].
  symmetry. apply filter_none. intros y Hy. destruct (on_nodes f y) eqn:E'; auto. exfalso.
  apply In_nth_error in Hy. destruct Hy as [j Hj]. apply (H 0 (S j) x y); auto; [lia|].
  unfold on_nodes in *. apply nodes_eqb_true in E. apply nodes_eqb_true in E'. apply sort3_eq. congruence.
Qed.

Lemma given_two : forall tris i j x y, i < j -> nth_error tris i = Some x -> nth_error tris j = Some y -> Permutation (tri_nodes x) (tri_nodes y) ->
  2 <= length (given tris (tri_nodes x)).
Proof.
  induction tris as [|z tris IH]; intros i j x y Hij Hi Hj P; [destruct i; discriminate|].
  destruct j as [|j]; [lia|]. cbn in Hj. unfold given. cbn [filter]. destruct i as [|i].
  - cbn in Hi. inversion Hi; subst z. unfold on_nodes at 1. rewrite nodes_eqb_refl. cbn [length].
    assert (In y (filter (on_nodes (tri_nodes x)) tris)).
    { apply filter_In. split; [eapply nth_error_In; eauto|]. unfold on_nodes. apply nodes_eqb_true, sort3_eq. apply Permutation_sym. exact P. }
    destruct (filter _ tris); [contradiction|]. simpl. lia.
  - cbn in Hi. specialize (IH i j x y ltac:(lia) Hi Hj P). unfold given in IH. destruct (on_nodes (tri_nodes x) z); simpl; lia.
Qed.

Lemma adjacent_face : forall tets f t, In t (adjacent tets f) -> In t tets /\ face_of t f = true.
Proof. intros tets f t H. apply filter_In in H. exact H. Qed.

Theorem C38_accepted : forall {P : Type} names Ms (dflt : P) rest tets tris sorted,
  (forall t, In t tets -> NoDup (tet_nodes t)) -> all_sorted tets tris sorted ->
  ((exists o, controlTriangles names Ms (("__default__"%string, dflt) :: rest) tets tris sorted = Some o) <->
   tets <> [] /\
   (forall f, length (adjacent tets f) <= 2) /\
   (forall x, In x tris -> match adjacent tets (tri_nodes x) with [_] => True | [t; t'] => t_reg t <> t_reg t' | _ => False end) /\
   (forall i j x y, i < j -> nth_error tris i = Some x -> nth_error tris j = Some y -> ~ Permutation (tri_nodes x) (tri_nodes y))).
Proof.
  intros P names Ms dflt rest tets tris sorted Hn Hs.
  assert (C : (exists o, controlTriangles names Ms (("__default__"%string, dflt) :: rest) tets tris sorted = Some o) <->
     tets <> [] /\ exists miss, walk_all sorted = Some miss).
  { unfold controlTriangles. destruct tets as [|t0 tets']. { split; [intros [o H]; discriminate|intros [H _]; contradiction]. }
    destruct (walk_all sorted) as [miss|]. 2: { split; [intros [o H]; discriminate|intros [_ [m H]]; discriminate]. }
    cbn [fst String.eqb]. cbn.
    destruct (create_regions_spec names ("__default__"%string, dflt) (map snd miss) (("__default__"%string, dflt) :: rest) []) as (news & m' & E & _);
      [discriminate|discriminate|]. rewrite E. split; [intros _; split; [discriminate|eauto]|eauto]. }
  rewrite C, (walk_ok tets tris sorted Hn Hs). clear C. split.
  - intros (Hne & W1 & W2). split; auto. split; [|split].
    + intros f. destruct (adjacent tets f) as [|t l] eqn:E; [simpl; lia|].
      destruct (adjacent_face tets f t) as [A1 A2]; [rewrite E; left; auto|]. specialize (W1 t f A1 A2). unfold good_face in W1. rewrite E in W1.
      destruct (given tris f) as [|y0 [|y1 ly]]; [lia| |contradiction]. destruct l as [|t' [|t'' lt]]; try discriminate; simpl; lia.
    + intros x Hx. specialize (W2 x Hx). unfold good_face in W2.
      assert (In x (given tris (tri_nodes x))) by (apply filter_In; split; auto; apply nodes_eqb_refl).
      destruct (given tris (tri_nodes x)) as [|y0 [|y1 ly]]; [contradiction| |contradiction].
      destruct (adjacent tets (tri_nodes x)) as [|t [|t' [|t'' lt]]]; try discriminate; auto. cbn in W2.
      apply negb_true_iff, Nat.eqb_neq in W2. exact W2.
    + intros i j x y Hij Hi Hj Pm. pose proof (given_two tris i j x y Hij Hi Hj Pm) as G.
      specialize (W2 x (nth_error_In _ _ Hi)). unfold good_face in W2. destruct (given tris (tri_nodes x)) as [|y0 [|y1 ly]]; simpl in G; try lia; contradiction.
  - intros (Hne & W1 & W2 & W3). split; auto. pose proof (given_le1 tris W3) as G.
    assert (K : forall f, (adjacent tets f <> [] \/ exists x, In x tris /\ f = tri_nodes x) -> good_face tets tris f).
    { intros f Hc. unfold good_face. specialize (G f). destruct (given tris f) as [|x [|]] eqn:E; [| |simpl in G; lia].
      - specialize (W1 f). destruct (adjacent tets f) as [|t l] eqn:A; [|simpl in *; lia].
        destruct Hc as [?|(x & Hx & ->)]; [contradiction|]. exfalso.
        assert (In x (given tris (tri_nodes x))) by (apply filter_In; split; auto; apply nodes_eqb_refl). rewrite E in H. contradiction.
      - assert (Hx : In x (given tris f)) by (rewrite E; left; auto). apply filter_In in Hx. destruct Hx as [Hx Ex].
        apply nodes_eqb_true, sort3_eq in Ex. rewrite <- (adjacent_perm tets _ _ Ex). specialize (W2 x Hx).
        destruct (adjacent tets (tri_nodes x)) as [|t [|t' [|t'' lt]]]; try contradiction; auto. cbn. apply negb_true_iff, Nat.eqb_neq. exact W2. }
    split.
    + intros t f Ht Hf. apply K. left. intros A. assert (In t (adjacent tets f)) by (apply filter_In; auto). rewrite A in H. contradiction.
    + intros x Hx. apply K. right. eauto.
Qed.

(** what std::sort may leave exists, so the theorem is about real runs *)
Example C38_nonvacuous :
  let tets := [mkTet 0 1 2 3 1; mkTet 1 2 3 4 2] in
  (forall t, In t tets -> NoDup (tet_nodes t)) /\
  (exists o, controlTriangles ["__default__"; "a"; "b"]%string (fun _ => 1%R) [("__default__"%string, tt)] tets [mkTri 3 1 2 0]
    (isort basic_ltb (all_tri tets [mkTri 3 1 2 0])) = Some o) /\
  controlTriangles ["__default__"; "a"; "b"]%string (fun _ => 1%R) [("__default__"%string, tt)] tets [mkTri 0 1 4 0]
    (isort basic_ltb (all_tri tets [mkTri 0 1 4 0])) = None.
Proof.
  cbv zeta. split; [|split].
  - intros t [<-|[<-|[]]]; repeat constructor; simpl; lia.
  - vm_compute. eauto.
  - vm_compute. reflexivity.
Qed.

(** ** C39: the missing triangles *)
Section accepted.
Context {P : Type}.
Variables (names : list string) (Ms : nat -> R) (dflt : P) (rest : list (string * P)) (tets : list tet) (tris : list tri) (sorted : list basic).
Hypothesis Hn : forall t, In t tets -> NoDup (tet_nodes t).
Hypothesis Hs : all_sorted tets tris sorted.
Notation params := (("__default__"%string, dflt) :: rest).
Variable o : @control_out P.
Hypothesis Hrun : controlTriangles names Ms params tets tris sorted = Some o.

Lemma run_parts : exists miss more m,
  walk_all sorted = Some miss /\
  create_regions names ("__default__"%string, dflt) (map snd miss) params [] = Some (params ++ more, m) /\
  c_tris o = tris ++ map (new_tri m) miss /\ c_params o = params ++ more /\ c_dMs o = map (dMs_of Ms sorted) (c_tris o).
Proof.
  unfold controlTriangles in Hrun. destruct tets as [|t l]; [discriminate|]. destruct (walk_all sorted) as [miss|]; [|discriminate].
  cbn [fst] in Hrun. rewrite String.eqb_refl in Hrun.
  destruct (create_regions_spec names ("__default__"%string, dflt) (map snd miss) params []) as (more & m & E & _); [discriminate|discriminate|].
  rewrite E in Hrun. inversion Hrun; subst o. exists miss, more, m. repeat split; auto.
Qed.

Lemma sort3_length : forall l, length (sort3 l) = length l.
Proof. intros l. symmetry. apply Permutation_length. apply sort3_perm. Qed.

Lemma new_tri_nodes : forall miss m a, walk_all sorted = Some miss -> In a miss -> tri_nodes (new_tri m a) = fst a /\ length (fst a) = 3 /\ sort3 (fst a) = fst a /\ NoDup (fst a).
Proof.
  intros miss m a Hw Ha. destruct (proj1 (miss_spec tets tris sorted Hn Hs miss Hw) a Ha) as (t & f & Ht & Hf & E).
  apply face_of_iff in Hf. destruct Hf as (L & N & I). assert (L' : length (fst a) = 3) by (rewrite E, sort3_length; exact L).
  split. { unfold new_tri, tri_nodes. cbn [r0 r1 r2]. destruct (three _ L') as (x & y & z & Q). rewrite Q. reflexivity. }
  split; auto. split. { rewrite E. apply sort3_eq. apply Permutation_sym, sort3_perm. }
  rewrite E. eapply Permutation_NoDup; [apply sort3_perm|exact N].
Qed.

Lemma same_face_nodup : forall f g, length f = 3 -> length g = 3 -> NoDup g -> same_face f g = nodes_eqb (sort3 g) (sort3 f).
Proof.
  intros f g Lf Lg N. apply eq_true_iff_eq. unfold same_face. rewrite andb_true_iff, !forallb_forall, nodes_eqb_true, sort3_eq.
  setoid_rewrite mem_in. split.
  - intros [H1 H2]. apply NoDup_Permutation_bis; auto. lia.
  - intros Q. split; intros x Hx; [apply (Permutation_in x (Permutation_sym Q))|apply (Permutation_in x Q)]; exact Hx.
Qed.

Lemma user_nodup : forall x, In x tris -> NoDup (tri_nodes x).
Proof.
  intros x Hx. destruct (C38_accepted names Ms dflt rest tets tris sorted Hn Hs) as [A _]. destruct (A (ex_intro _ o Hrun)) as (_ & _ & A3 & _).
  specialize (A3 x Hx). destruct (adjacent tets (tri_nodes x)) as [|t l] eqn:E; [contradiction|].
  destruct (adjacent_face tets (tri_nodes x) t) as [_ F]; [rewrite E; left; auto|]. apply face_of_iff in F. tauto.
Qed.

Lemma all_nodup : forall x, In x (c_tris o) -> NoDup (tri_nodes x).
Proof.
  intros x Hx. destruct run_parts as (miss & more & m & W & _ & E & _). rewrite E in Hx. apply in_app_iff in Hx. destruct Hx as [Hx|Hx].
  - apply user_nodup. exact Hx.
  - apply in_map_iff in Hx. destruct Hx as (a & <- & Ha). destruct (new_tri_nodes miss m a W Ha) as (Q & _ & _ & N). rewrite Q. exact N.
Qed.

Lemma carried : forall f, length f = 3 -> length (filter (on_nodes f) (c_tris o)) = if is_boundary tets f then 1 else 0.
Proof.
  intros f Hf. destruct run_parts as (miss & more & m & W & _ & E & _). rewrite E, filter_app, app_length.
  destruct (miss_spec tets tris sorted Hn Hs miss W) as [M1 M2]. specialize (M2 f Hf).
  assert (EN : filter (on_nodes f) (map (new_tri m) miss) = map (new_tri m) (filter (fun a : missing => nodes_eqb (fst a) (sort3 f)) miss)).
  { rewrite filter_map. f_equal. apply filter_ext_in. intros a Ha. destruct (new_tri_nodes miss m a W Ha) as (Q1 & _ & Q2 & _).
    unfold on_nodes. rewrite Q1, Q2. reflexivity. }
  rewrite EN, M2, map_length. fold (given tris f).
  assert (G : length (given tris f) <= 1).
  { destruct (C38_accepted names Ms dflt rest tets tris sorted Hn Hs) as [A _]. destruct (A (ex_intro _ o Hrun)) as (_ & _ & _ & A4). apply given_le1. exact A4. }
  unfold is_boundary. destruct (given tris f) as [|x [|]] eqn:Eg; cbn [length] in *; [| |lia].
  - fold (boundary (adjacent tets f)). destruct (boundary (adjacent tets f)); reflexivity.
  - assert (Hx : In x (given tris f)) by (rewrite Eg; left; auto). apply filter_In in Hx. destruct Hx as [Hx Ex].
    apply nodes_eqb_true, sort3_eq in Ex. rewrite <- (adjacent_perm tets _ _ Ex).
    destruct (C38_accepted names Ms dflt rest tets tris sorted Hn Hs) as [A _]. destruct (A (ex_intro _ o Hrun)) as (_ & _ & A3 & _). specialize (A3 x Hx).
    destruct (adjacent tets (tri_nodes x)) as [|t [|t' [|t'' lt]]]; try contradiction; auto. apply Nat.eqb_neq in A3. rewrite A3. reflexivity.
Qed.
End accepted.

(** the name a new region starts with *)
Definition region_name (names : list string) (adj : list tet) : string :=
  let name r := nth r names ""%string in
  match adj with
  | [t] => "surface(" ++ name (t_reg t) ++ ")"
  | [t; t'] => "interface(" ++ name (Nat.max (t_reg t) (t_reg t')) ++ ", " ++ name (Nat.min (t_reg t) (t_reg t')) ++ ")"
  | _ => ""
  end%string.

Lemma string_app_assoc : forall a b c : string, ((a ++ b) ++ c = a ++ (b ++ c))%string.
Proof. induction a as [|x a IH]; intros b c; simpl; auto. rewrite IH. reflexivity. Qed.

Lemma base_name_region : forall names adj, boundary adj = true -> base_name names (pair_of (map t_reg adj)) = region_name names adj.
Proof.
  intros names adj H. destruct adj as [|t [|t' [|t'' lt]]]; try discriminate; unfold base_name, region_name; cbn [map pair_of fst snd].
  - rewrite Z.eqb_refl, Nat2Z.id. apply string_app_assoc.
  - replace (Z.of_nat (Nat.min (t_reg t) (t_reg t')) =? -1)%Z with false by (symmetry; apply Z.eqb_neq; lia).
    rewrite !Nat2Z.id, !string_app_assoc. reflexivity.
Qed.

Lemma pair_of_inj : forall adj adj', boundary adj = true -> boundary adj' = true ->
  (pair_of (map t_reg adj) = pair_of (map t_reg adj') <-> Permutation (map t_reg adj) (map t_reg adj')).
Proof.
  intros adj adj' H H'. split; [|apply pair_of_perm].
  destruct adj as [|t [|t' [|t'' lt]]], adj' as [|s [|s' [|s'' ls]]]; try discriminate; cbn [map pair_of]; intros E; pose proof (f_equal fst E) as E1; pose proof (f_equal snd E) as E2; cbn [fst snd] in E1, E2.
  - apply Nat2Z.inj in E1. rewrite E1. auto.
  - lia.
  - lia.
  - apply Nat2Z.inj in E1. apply Nat2Z.inj in E2.
    assert ((t_reg t = t_reg s /\ t_reg t' = t_reg s') \/ (t_reg t = t_reg s' /\ t_reg t' = t_reg s)) by lia.
    destruct H0 as [[-> ->]|[-> ->]]; auto. apply perm_swap.
Qed.

Theorem C39_triangles : forall {P : Type} names Ms (dflt : P) rest tets tris sorted o,
  (forall t, In t tets -> NoDup (tet_nodes t)) -> all_sorted tets tris sorted ->
  controlTriangles names Ms (("__default__"%string, dflt) :: rest) tets tris sorted = Some o ->
  exists news, c_tris o = tris ++ news /\
  (forall f, length f = 3 ->
     length (filter (fun x => same_face f (tri_nodes x)) (c_tris o)) = if is_boundary tets f then 1 else 0) /\
  (forall x, In x news -> NoDup (tri_nodes x) /\ is_boundary tets (tri_nodes x) = true).
Proof.
  intros P names Ms dflt rest tets tris sorted o Hn Hs Hrun.
  destruct (run_parts names Ms dflt rest tets tris sorted Hn Hs o Hrun) as (miss & more & m & W & _ & E & _).
  exists (map (new_tri m) miss). split; auto.
  assert (C : forall f, length f = 3 -> length (filter (fun x => same_face f (tri_nodes x)) (c_tris o)) = if is_boundary tets f then 1 else 0).
  { intros f Hf. rewrite <- (carried names Ms dflt rest tets tris sorted Hn Hs o Hrun f Hf). f_equal. apply filter_ext_in.
    intros x Hx. unfold on_nodes. apply same_face_nodup; auto. eapply all_nodup; eauto. }
  split; auto.
  intros x Hx. assert (Hx' : In x (c_tris o)) by (rewrite E; apply in_app_iff; auto).
  assert (N : NoDup (tri_nodes x)) by (eapply all_nodup; eauto). split; auto.
  specialize (C (tri_nodes x) eq_refl).
  assert (In x (filter (fun y => same_face (tri_nodes x) (tri_nodes y)) (c_tris o))).
  { apply filter_In. split; auto. rewrite same_face_nodup; auto. apply nodes_eqb_refl. }
  destruct (is_boundary tets (tri_nodes x)); auto. apply length_zero_iff_nil in C. rewrite C in H. contradiction.
Qed.

(** the region of a new triangle: a copy of the default one under a new name *)
Theorem C39_regions : forall {P : Type} names Ms (dflt : P) rest tets tris sorted o news,
  (forall t, In t tets -> NoDup (tet_nodes t)) -> all_sorted tets tris sorted ->
  let params := ("__default__"%string, dflt) :: rest in
  controlTriangles names Ms params tets tris sorted = Some o ->
  c_tris o = tris ++ news ->
  (exists more, c_params o = params ++ more) /\
  (NoDup (map fst params) -> NoDup (map fst (c_params o))) /\
  (forall x, In x news -> exists name, nth_error (c_params o) (r_reg x) = Some (name, dflt) /\ length params <= r_reg x /\
     (let base := region_name names (adjacent tets (tri_nodes x)) in
      name = base \/ exists k, 1 <= k /\ name = (base ++ "." ++ to_string k)%string)) /\
  (forall x y, In x news -> In y news ->
     (r_reg x = r_reg y <-> Permutation (map t_reg (adjacent tets (tri_nodes x))) (map t_reg (adjacent tets (tri_nodes y))))) /\
  (forall i, length params <= i < length (c_params o) -> exists x, In x news /\ r_reg x = i).
Proof.
  intros P names Ms dflt rest tets tris sorted o news Hn Hs params Hrun Enews.
  destruct (run_parts names Ms dflt rest tets tris sorted Hn Hs o Hrun) as (miss & more & m & W & CR & E & Ep & _).
  rewrite E in Enews. apply app_inv_head in Enews. subst news.
  destruct (create_regions_spec names ("__default__"%string, dflt) (map snd miss) params []) as (more' & m' & CR' & R1 & _ & _ & R4 & R5 & R6 & R7);
    [discriminate|discriminate|]. fold params in CR. rewrite CR' in CR. inversion CR as [[Q1 Q2]]. apply app_inv_head in Q1. subst more' m'. clear CR.
  assert (A : forall a, In a miss -> exists i, lookup m (snd a) = Some i /\ r_reg (new_tri m a) = i /\
    tri_nodes (new_tri m a) = fst a /\ boundary (adjacent tets (fst a)) = true /\ snd a = pair_of (map t_reg (adjacent tets (fst a)))).
  { intros a Ha. destruct (R1 (snd a) (in_map snd _ _ Ha)) as (i & Hi). exists i. split; auto.
    split. { unfold new_tri. rewrite Hi. reflexivity. }
    destruct (new_tri_nodes tets tris sorted Hn Hs miss m a W Ha) as (N1 & N2 & N3 & _). split; auto.
    destruct (miss_spec tets tris sorted Hn Hs miss W) as [_ M2]. specialize (M2 (fst a) N2).
    assert (In a (filter (fun b : missing => nodes_eqb (fst b) (sort3 (fst a))) miss)).
    { apply filter_In. split; auto. rewrite N3. apply nodes_eqb_refl. }
    rewrite M2 in H. destruct (given tris (fst a)); [|contradiction]. destruct (boundary (adjacent tets (fst a))); [|contradiction].
    destruct H as [<-|[]]. cbn [fst snd]. split; auto. rewrite N3. reflexivity. }
  split. { eexists; exact Ep. }
  split. { rewrite Ep. exact R6. }
  split; [|split].
  - intros x Hx. apply in_map_iff in Hx. destruct Hx as (a & <- & Ha). destruct (A a Ha) as (i & Hi & Er & En & Hb & Ep').
    destruct (R5 (snd a) i Hi eq_refl) as (_ & Hl & j & Hj). exists (nth_name (base_name names (snd a)) j).
    rewrite Er, Ep, En. split; [exact Hj|]. split; auto. cbv zeta. rewrite Ep', (base_name_region names _ Hb).
    destruct j as [|j]; [left; reflexivity|]. right. exists (S j). split; [lia|]. reflexivity.
  - intros x y Hx Hy. apply in_map_iff in Hx. destruct Hx as (a & <- & Ha). apply in_map_iff in Hy. destruct Hy as (b & <- & Hb).
    destruct (A a Ha) as (i & Hi & Er & En & Hb1 & Ep1). destruct (A b Hb) as (j & Hj & Er' & En' & Hb2 & Ep2).
    rewrite Er, Er', En, En'. rewrite <- pair_of_inj by assumption. rewrite <- Ep1, <- Ep2. split.
    + intros ->. apply (R4 _ _ j); auto.
    + intros Q. rewrite Q in Hi. congruence.
  - intros i Hi. rewrite Ep in Hi. destruct (R7 i Hi) as (k & Hk & Hl). apply in_map_iff in Hk. destruct Hk as (a & <- & Ha).
    exists (new_tri m a). split; [apply in_map; exact Ha|]. destruct (A a Ha) as (j & Hj & Er & _). congruence.
Qed.

Example C39_nonvacuous :
  let tets := [mkTet 0 1 2 3 1; mkTet 1 2 3 4 2] in
  exists o, controlTriangles ["__default__"; "a"; "b"]%string (fun _ => 1%R) [("__default__"%string, tt); ("surface(a)"%string, tt)] tets [mkTri 0 1 2 1]
    (isort basic_ltb (all_tri tets [mkTri 0 1 2 1])) = Some o /\
  map fst (c_params o) = ["__default__"; "surface(a)"; "surface(a).1"; "interface(b, a)"; "surface(b)"]%string /\
  length (c_tris o) = 7 /\ is_boundary tets [1; 2; 3] = true /\ is_boundary tets [0; 1; 4] = false.
Proof. vm_compute. eexists. repeat split; reflexivity. Qed.

Print Assumptions C38_accepted.
Print Assumptions C39_triangles.
Print Assumptions C39_regions.
