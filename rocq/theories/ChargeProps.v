(** * Properties of the magnetization jump and of the charges of a whole mesh: C40, C78 *)
From Coq Require Import String Reals List Arith Bool ZArith Lia Lra Permutation Sorted.
From Flocq Require Import Core.
From Verif Require Import Vec Sums StdModel MeshModel MeshProof MeshProps ElemModel ElemProof AvgModel ElemProps.
From Verif Require Import CtrlModel CtrlProof CtrlSpec CtrlFace CtrlMain CtrlProps.
Import ListNotations.
Local Open Scope R_scope.
Local Open Scope list_scope.

(** ** dMs as a sum over the faces of the group *)
Definition jump_term (Ms : nat -> R) (x f : basic) : R := if xorb (b_flip x) (b_flip f) then - Ms (b_reg f) else Ms (b_reg f).

Lemma jump_group : forall Ms x l d, lsorted l ->
  jump Ms x (lower_bound x l) d = d + lsum (map (jump_term Ms x) (faces_of (group (b_nodes x) l))).
Proof.
  intros Ms x. assert (T : forall l d, lsorted l -> (forall y, In y l -> basic_ltb y x = false) ->
    jump Ms x l d = d + lsum (map (jump_term Ms x) (faces_of (group (b_nodes x) l)))).
  { induction l as [|y l IH]; intros d S H. { simpl. ring. }
    inversion S as [|? ? S1 S2]; subst. rewrite Forall_forall in S2. cbn [jump]. unfold group. cbn [filter]. unfold key_is at 1, same_nodes.
    destruct (nodes_eqb (b_nodes y) (b_nodes x)) eqn:E.
    - rewrite IH by (auto; intros z Hz; apply H; right; auto). unfold faces_of, group. cbn [filter]. destruct (b_surf y); cbn [negb map lsum].
      + reflexivity.
      + unfold jump_term at 2. ring.
    - replace (filter (key_is (b_nodes x)) l) with (@nil basic). { simpl. ring. }
      symmetry. apply filter_none. intros z Hz. unfold key_is. destruct (nodes_eqb (b_nodes z) (b_nodes x)) eqn:E'; auto. exfalso.
      apply nodes_eqb_true in E'. pose proof (S2 z Hz) as K. apply not_true_is_false in K. unfold basic_ltb in K. rewrite E' in K.
      specialize (H y (or_introl eq_refl)). unfold basic_ltb in H. rewrite (lex_total _ _ H K), nodes_eqb_refl in E. discriminate. }
  induction l as [|y l IH]; intros d S. { simpl. ring. }
  cbn [lower_bound]. destruct (basic_ltb y x) eqn:E.
  - inversion S; subst. rewrite IH by assumption. unfold group. cbn [filter]. unfold key_is at 2.
    destruct (nodes_eqb (b_nodes y) (b_nodes x)) eqn:E'; auto. apply nodes_eqb_true in E'. unfold basic_ltb in E. rewrite E', lex_irrefl in E. discriminate.
  - apply T; auto. intros z Hz. destruct Hz as [<-|Hz]; auto. inversion S as [|? ? S1 S2]; subst. rewrite Forall_forall in S2.
    pose proof (S2 z Hz) as K. apply not_true_is_false in K. unfold basic_ltb in *. eapply lex_negtrans; eauto.
Qed.

Lemma sg_xor : forall a b, sg (xorb a b) * sg a = sg b.
Proof. intros [] []; unfold sg; cbn [xorb]; ring. Qed.
Lemma jump_term_sg : forall Ms x f, jump_term Ms x f = sg (xorb (b_flip x) (b_flip f)) * Ms (b_reg f).
Proof. intros. unfold jump_term, sg. destruct (xorb _ _); ring. Qed.

Lemma area_tri : forall p x, area_vec p (tri_nodes x) = vscale (sg (b_flip (basic_of_tri x))) (area_vec p (sort3 (tri_nodes x))).
Proof. intros p x. exact (area_sorted p (r0 x) (r1 x) (r2 x)). Qed.
Lemma area_list : forall p g r, length g = 3%nat -> area_vec p g = vscale (sg (b_flip (basic_list g r))) (area_vec p (sort3 g)).
Proof.
  intros p g r H. destruct (three g H) as (a & b & c & ->). exact (area_sorted p a b c).
Qed.

(** a perm-invariant weight on the triples of nodes, and its flux through the face of each BasicTri *)
Definition flux (p : nat -> vec) (w : list nat -> vec) (f : list nat) : R := dot (w f) (area_vec p f).

Section mesh_flux.
Variables (Ms : nat -> R) (p : nat -> vec) (w : list nat -> vec) (tets : list tet) (tris : list tri) (sorted : list basic).
Hypothesis Hw : forall f g, Permutation f g -> w f = w g.
Hypothesis Hn : forall t, In t tets -> NoDup (tet_nodes t).
Hypothesis Hs : all_sorted tets tris sorted.

Definition G (b : basic) : R := Ms (b_reg b) * (sg (b_flip b) * flux p w (b_nodes b)).

Lemma G_list : forall g r, length g = 3%nat -> G (basic_list g r) = Ms r * flux p w g.
Proof.
  intros g r H. unfold G, flux. destruct (three g H) as (a & b & c & ->).
  unfold basic_list. cbn [nth basic_tri b_reg b_flip b_nodes]. rewrite (area_sorted p a b c), dot_scale_r.
  rewrite (Hw [a; b; c] (sort3 [a; b; c])) by apply sort3_perm. reflexivity.
Qed.

Lemma tri_flux : forall x, dMs_of Ms sorted x * flux p w (tri_nodes x) =
  lsum (map G (faces_of (group (sort3 (tri_nodes x)) sorted))).
Proof.
  intros x. unfold dMs_of. rewrite jump_group by apply Hs. rewrite Rplus_0_l.
  change (b_nodes (basic_of_tri x)) with (sort3 (tri_nodes x)).
  rewrite Rmult_comm, <- lsum_map_scale. apply lsum_map_ext. intros b Hb.
  apply filter_In in Hb. destruct Hb as [Hb _]. apply (in_group) in Hb.
  unfold G, flux. rewrite area_tri, dot_scale_r, jump_term_sg, Hb. rewrite (Hw (tri_nodes x) (sort3 (tri_nodes x))) by apply sort3_perm.
  rewrite <- (sg_xor (b_flip (basic_of_tri x)) (b_flip b)). ring.
Qed.
End mesh_flux.

(** the face of an adjacent tetrahedron *)
Lemma face_basic_out : forall p t f, NoDup (tet_nodes t) -> 0 < det4 p t -> length f = 3%nat -> face_of t f = true ->
  b_nodes (face_basic f t) = sort3 f /\
  vscale (sg (b_flip (face_basic f t))) (area_vec p (sort3 f)) = out_area p t f.
Proof.
  intros p t f N D L F. pose proof (tet_face t f N L) as T. rewrite F in T. destruct T as (g & E & Hg & Pm).
  unfold face_basic. rewrite E. assert (Lg : length g = 3%nat) by (eapply oriented_length; eauto).
  assert (K : sort3 f = sort3 g) by (apply sort3_eq; exact Pm).
  split. { destruct (three g Lg) as (a & b & c & ->). rewrite K. reflexivity. }
  rewrite K, <- area_list by exact Lg. symmetry. apply out_oriented; auto.
Qed.

(** ** C40 *)
Theorem C40_jump : forall {P : Type} names Ms (dflt : P) rest tets tris sorted o (p : nat -> vec),
  (forall t, In t tets -> NoDup (tet_nodes t)) -> all_sorted tets tris sorted ->
  controlTriangles names Ms (("__default__"%string, dflt) :: rest) tets tris sorted = Some o ->
  (forall t, In t tets -> 0 < det4 p t) ->
  length (c_dMs o) = length (c_tris o) /\
  forall i x d, nth_error (c_tris o) i = Some x -> nth_error (c_dMs o) i = Some d ->
    vscale d (area_vec p (tri_nodes x)) =
    vsum (map (fun t => vscale (Ms (t_reg t)) (out_area p t (tri_nodes x))) (adjacent tets (tri_nodes x))).
Proof.
  intros P names Ms dflt rest tets tris sorted o p Hn Hs Hrun Hd.
  destruct (run_parts names Ms dflt rest tets tris sorted Hn Hs o Hrun) as (miss & more & m & _ & _ & _ & _ & Ed).
  rewrite Ed. split. { apply map_length. }
  intros i x d Hi Hdi. rewrite nth_error_map, Hi in Hdi. cbn [option_map] in Hdi. inversion Hdi; subst d. clear Hdi.
  set (f := tri_nodes x). assert (L : length f = 3%nat) by reflexivity.
  unfold dMs_of. rewrite jump_group by apply Hs. rewrite Rplus_0_l. change (b_nodes (basic_of_tri x)) with (sort3 f).
  destruct (faces_in_group tets tris sorted Hn Hs f L) as [Pm _].
  rewrite (lsum_perm _ _ (Permutation_map (jump_term Ms (basic_of_tri x)) Pm)), map_map.
  assert (Q : forall l, (forall t, In t l -> In t (adjacent tets f)) ->
    vscale (lsum (map (fun t => jump_term Ms (basic_of_tri x) (face_basic f t)) l)) (area_vec p f) =
    vsum (map (fun t => vscale (Ms (t_reg t)) (out_area p t f)) l)).
  { induction l as [|t l IH]; intros Hl. { cbn. vring. }
    cbn [map lsum vsum fold_right]. fold (vsum (map (fun t => vscale (Ms (t_reg t)) (out_area p t f)) l)).
    rewrite <- IH by (intros; apply Hl; right; auto).
    pose proof (Hl t (or_introl eq_refl)) as Ha. destruct (adjacent_face tets f t Ha) as [H1 H2].
    destruct (face_basic_out p t f (Hn t H1) (Hd t H1) L H2) as [E1 E2].
    rewrite jump_term_sg, (face_basic_reg tets Hn f t Ha L), <- E2. pose proof (area_tri p x) as AT. fold f in AT. rewrite AT.
    rewrite <- (sg_xor (b_flip (basic_of_tri x)) (b_flip (face_basic f t))).
    generalize (sg (xorb (b_flip (basic_of_tri x)) (b_flip (face_basic f t)))) (sg (b_flip (basic_of_tri x))) (area_vec p (sort3 f)) (lsum (map (fun t => jump_term Ms (basic_of_tri x) (face_basic f t)) l)) (Ms (t_reg t)).
    intros s1 s2 [a1 a2 a3] s3 s4. vring. }
  apply Q. auto.
Qed.

(** the charge carried by a triangle does not depend on the order in which its nodes are given *)
Theorem C40_order_of_nodes : forall {P : Type} names Ms (dflt : P) rest tets tris tris' sorted sorted' o o' (p u : nat -> vec),
  (forall t, In t tets -> NoDup (tet_nodes t)) -> (forall t, In t tets -> 0 < det4 p t) ->
  all_sorted tets tris sorted -> all_sorted tets tris' sorted' ->
  controlTriangles names Ms (("__default__"%string, dflt) :: rest) tets tris sorted = Some o ->
  controlTriangles names Ms (("__default__"%string, dflt) :: rest) tets tris' sorted' = Some o' ->
  forall i j x y d d', nth_error (c_tris o) i = Some x -> nth_error (c_dMs o) i = Some d ->
    nth_error (c_tris o') j = Some y -> nth_error (c_dMs o') j = Some d' -> Permutation (tri_nodes x) (tri_nodes y) ->
    vscale d (area_vec p (tri_nodes x)) = vscale d' (area_vec p (tri_nodes y)) /\
    let charge d z := sumn 4 (tri_charges d (fun k => p (nth k (tri_nodes z) 0%nat)) (fun k => u (nth k (tri_nodes z) 0%nat))) in
    charge d x = charge d' y.
Proof.
  intros P names Ms dflt rest tets tris tris' sorted sorted' o o' p u Hn Hd Hs Hs' Hr Hr' i j x y d d' Hx Hdx Hy Hdy Pm.
  assert (E : vscale d (area_vec p (tri_nodes x)) = vscale d' (area_vec p (tri_nodes y))).
  { rewrite (proj2 (C40_jump names Ms dflt rest tets tris sorted o p Hn Hs Hr Hd) i x d Hx Hdx).
    rewrite (proj2 (C40_jump names Ms dflt rest tets tris' sorted' o' p Hn Hs' Hr' Hd) j y d' Hy Hdy).
    rewrite <- (adjacent_perm tets _ _ Pm). f_equal. apply map_ext_in. intros t Ht. f_equal.
    destruct (adjacent_face _ _ _ Ht) as [H1 H2]. pose proof (tet_face t (tri_nodes x) (Hn t H1) eq_refl) as T. rewrite H2 in T.
    destruct T as (g & _ & Hg & Pg). rewrite (out_oriented p t (tri_nodes x) g) by auto.
    symmetry. apply out_oriented; auto. rewrite <- Pm. exact Pg. }
  split; auto. cbv beta zeta. change (sumn 4) with (sumn tNPI). rewrite !tri_charges_sum.
  assert (Q : forall k z, k * (dot (vadd (vadd (u (nth 0 (tri_nodes z) 0%nat)) (u (nth 1 (tri_nodes z) 0%nat))) (u (nth 2 (tri_nodes z) 0%nat)))
      (normal_vect (fun k => p (nth k (tri_nodes z) 0%nat))) / 6) =
    dot (vsum (map u (tri_nodes z))) (vscale k (area_vec p (tri_nodes z))) / 3).
  { intros k z. unfold normal_vect, area_vec, tri_nodes, vsum. cbn [nth map fold_right].
    generalize (u (r0 z)) (u (r1 z)) (u (r2 z)) (p (r0 z)) (p (r1 z)) (p (r2 z)). intros [] [] [] [] [] []. vsimpl. field. }
  rewrite !Q, E. f_equal. f_equal.
  assert (V : forall l l', Permutation l l' -> vsum l = vsum l').
  { unfold vsum. induction 1 as [|a l l' _ IH|a b l|l l1 l2 _ I1 _ I2]; cbn [fold_right]; auto; [rewrite IH; auto|vring|congruence]. }
  apply V. apply Permutation_map. exact Pm.
Qed.

(** ** C78: balance of the fluxes in a conforming mesh *)
(** the two tetrahedrons that share a face lie on its two sides *)
Definition conforming (p : nat -> vec) (tets : list tet) : Prop :=
  forall f t t', adjacent tets f = [t; t'] -> side p f (p (opposite t f)) * side p f (p (opposite t' f)) < 0.

Lemma conforming_out : forall p tets f t t', conforming p tets -> adjacent tets f = [t; t'] -> out_area p t f = vscale (-1) (out_area p t' f).
Proof.
  intros p tets f t t' C A. specialize (C f t t' A). unfold out_area.
  destruct (Rlt_bool_spec (side p f (p (opposite t f))) 0), (Rlt_bool_spec (side p f (p (opposite t' f))) 0); try nra;
  generalize (area_vec p f); intros []; vring.
Qed.

Lemma zero_by_keys : forall (H : basic -> R) l, (forall b, In b l -> lsum (map H (group (b_nodes b) l)) = 0) -> lsum (map H l) = 0.
Proof.
  intros H l. remember (length l) as n eqn:En. revert l En. induction n as [n IH] using lt_wf_ind. intros l -> Hk.
  destruct l as [|b l]; [reflexivity|].
  assert (S : forall (f : basic -> bool) l, lsum (map H l) = lsum (map H (filter f l)) + lsum (map H (filter (fun x => negb (f x)) l))).
  { intros f. induction l0 as [|x l0 IHl]; cbn [filter map lsum]. { ring. } rewrite IHl. destruct (f x); cbn [negb map lsum]; ring. }
  rewrite (S (key_is (b_nodes b))). fold (group (b_nodes b) (b :: l)). rewrite Hk by (left; auto). rewrite Rplus_0_l.
  assert (F : filter (fun x => negb (key_is (b_nodes b) x)) (b :: l) = filter (fun x => negb (key_is (b_nodes b) x)) l).
  { cbn [filter]. unfold key_is at 1. rewrite nodes_eqb_refl. reflexivity. }
  set (l' := filter (fun x => negb (key_is (b_nodes b) x)) (b :: l)) in *.
  apply (IH (length l')).
  - rewrite F. cbn [length]. apply Nat.lt_succ_r. clear. induction l as [|x l IH]; cbn [filter length]; auto. destruct (negb _); cbn [length]; lia.
  - reflexivity.
  - intros c Hc. unfold l' in Hc. apply filter_In in Hc. destruct Hc as [Hc Nc]. rewrite <- (Hk c Hc). f_equal. f_equal.
    unfold group, l'. clear - Nc. apply negb_true_iff in Nc. generalize (b :: l). intros m. induction m as [|x m IHm]; cbn [filter]; auto.
    destruct (key_is (b_nodes b) x) eqn:E; cbn [negb].
    + rewrite IHm. destruct (key_is (b_nodes c) x) eqn:E'; auto. exfalso. unfold key_is in *. apply nodes_eqb_true in E. apply nodes_eqb_true in E'.
      rewrite <- E, E', nodes_eqb_refl in Nc. discriminate.
    + cbn [filter]. rewrite IHm. reflexivity.
Qed.

Lemma lsum_exchange : forall {X Y} (f : X -> Y -> R) l m, lsum (map (fun x => lsum (map (f x) m)) l) = lsum (map (fun y => lsum (map (fun x => f x y) l)) m).
Proof.
  intros X Y f l m. induction l as [|x l IH]; cbn [map lsum].
  - symmetry. apply lsum_zero. intros. reflexivity.
  - rewrite IH, <- lsum_map_plus. reflexivity.
Qed.

Lemma lsum_filter : forall {X} (f : X -> bool) (g : X -> R) l, lsum (map g (filter f l)) = lsum (map (fun x => if f x then g x else 0) l).
Proof. intros X f g. induction l as [|x l IH]; cbn [filter map lsum]; auto. destruct (f x); cbn [map lsum]; rewrite IH; ring. Qed.

Lemma lsum_count : forall {X} (f : X -> bool) c (l : list X), lsum (map (fun x => if f x then c else 0) l) = INR (length (filter f l)) * c.
Proof.
  intros X f c. induction l as [|x l IH]; cbn [filter map lsum length]. { simpl. ring. }
  rewrite IH. destruct (f x); cbn [length]; [rewrite S_INR|]; ring.
Qed.

Lemma lsum_flat_map : forall {X Y} (h : X -> list Y) (g : Y -> R) l, lsum (map g (flat_map h l)) = lsum (map (fun x => lsum (map g (h x))) l).
Proof. intros X Y h g. induction l as [|x l IH]; cbn [flat_map map lsum]; auto. rewrite map_app, lsum_app, IH. reflexivity. Qed.

Theorem flux_balance : forall {P : Type} names Ms (dflt : P) rest tets tris sorted o (p : nat -> vec) (w : list nat -> vec),
  (forall f g, Permutation f g -> w f = w g) ->
  (forall t, In t tets -> NoDup (tet_nodes t)) -> all_sorted tets tris sorted ->
  controlTriangles names Ms (("__default__"%string, dflt) :: rest) tets tris sorted = Some o ->
  (forall t, In t tets -> 0 < det4 p t) -> conforming p tets ->
  lsum (map (fun t => Ms (t_reg t) * lsum (map (flux p w) (oriented t))) tets) =
  lsum (map (fun x => dMs_of Ms sorted x * flux p w (tri_nodes x)) (c_tris o)).
Proof.
  intros P names Ms dflt rest tets tris sorted o p w Hw Hn Hs Hrun Hd Hc.
  set (F := flat_map basic_of_tet tets).
  assert (EL : lsum (map (fun t => Ms (t_reg t) * lsum (map (flux p w) (oriented t))) tets) = lsum (map (G Ms p w) F)).
  { unfold F. rewrite lsum_flat_map. apply lsum_map_ext. intros t Ht. rewrite basic_of_tet_oriented, map_map, <- lsum_map_scale.
    apply lsum_map_ext. intros g Hg. symmetry. apply G_list; auto. eapply oriented_length; eauto. }
  assert (Gr : forall f, length f = 3%nat -> Permutation (faces_of (group (sort3 f) sorted)) (group (sort3 f) F)).
  { intros f Hf. unfold F. rewrite (tets_group tets Hn f Hf). apply (proj1 (faces_in_group tets tris sorted Hn Hs f Hf)). }
  assert (ER : lsum (map (fun x => dMs_of Ms sorted x * flux p w (tri_nodes x)) (c_tris o)) =
    lsum (map (fun b => INR (length (filter (fun x => nodes_eqb (b_nodes b) (sort3 (tri_nodes x))) (c_tris o))) * G Ms p w b) F)).
  { transitivity (lsum (map (fun x => lsum (map (fun b => if nodes_eqb (b_nodes b) (sort3 (tri_nodes x)) then G Ms p w b else 0) F)) (c_tris o))).
    - apply lsum_map_ext. intros x _. rewrite (tri_flux Ms p w tets tris sorted Hw Hs).
      rewrite (lsum_perm _ _ (Permutation_map (G Ms p w) (Gr (tri_nodes x) eq_refl))). unfold group. rewrite lsum_filter. reflexivity.
    - rewrite lsum_exchange. apply lsum_map_ext. intros b _. apply (lsum_count (fun x => nodes_eqb (b_nodes b) (sort3 (tri_nodes x)))). }
  rewrite EL, ER. apply Rminus_diag_uniq.
  assert (M : forall (f g : basic -> R) l, lsum (map f l) - lsum (map g l) = lsum (map (fun b => f b - g b) l)).
  { intros f g. induction l as [|b l IH]; cbn [map lsum]; [ring|]. rewrite <- IH. ring. }
  rewrite M. apply zero_by_keys. intros b Hb.
  assert (Hf : exists f, length f = 3%nat /\ b_nodes b = sort3 f).
  { unfold F in Hb. apply in_flat_map in Hb. destruct Hb as (t & Ht & Hb). rewrite basic_of_tet_oriented in Hb. apply in_map_iff in Hb.
    destruct Hb as (g & <- & Hg). exists g. pose proof (oriented_length t g Hg) as L. split; auto. destruct (three g L) as (x & y & z & ->). reflexivity. }
  destruct Hf as (f & Lf & Ef). rewrite Ef.
  transitivity (lsum (map (fun c => (1 - (if is_boundary tets f then 1 else 0)) * G Ms p w c) (group (sort3 f) F))).
  { apply lsum_map_ext. intros c Hc'. apply filter_In in Hc'. destruct Hc' as [_ Kc]. unfold key_is in Kc. apply nodes_eqb_true in Kc. rewrite Kc.
    assert (E : length (filter (fun x => nodes_eqb (sort3 f) (sort3 (tri_nodes x))) (c_tris o)) = if is_boundary tets f then 1%nat else 0%nat).
    { rewrite <- (carried names Ms dflt rest tets tris sorted Hn Hs o Hrun f Lf). f_equal. apply filter_ext. intros x. unfold on_nodes. apply nodes_eqb_sym. }
    rewrite E. destruct (is_boundary tets f); simpl; ring. }
  rewrite lsum_map_scale. destruct (is_boundary tets f) eqn:Bd; [ring|].
  replace (lsum (map (G Ms p w) (group (sort3 f) F))) with 0; [ring|]. symmetry.
  unfold F. rewrite (tets_group tets Hn f Lf), map_map.
  assert (GO : forall t, In t (adjacent tets f) -> G Ms p w (face_basic f t) = Ms (t_reg t) * dot (w (sort3 f)) (out_area p t f)).
  { intros t Ht. destruct (adjacent_face tets f t Ht) as [H1 H2]. destruct (face_basic_out p t f (Hn t H1) (Hd t H1) Lf H2) as [E1 E2].
    unfold G, flux. rewrite (face_basic_reg tets Hn f t Ht Lf), E1, <- E2, dot_scale_r. ring. }
  assert (A2 : (length (adjacent tets f) <= 2)%nat).
  { destruct (C38_accepted names Ms dflt rest tets tris sorted Hn Hs) as [A _]. destruct (A (ex_intro _ o Hrun)) as (_ & A2 & _). apply A2. }
  unfold is_boundary in Bd. destruct (adjacent tets f) as [|t [|t' [|t'' lt]]] eqn:Ea; try discriminate; cbn [length] in A2; try lia.
  - reflexivity.
  - cbn [map lsum]. rewrite !GO by (simpl; auto). apply negb_false_iff, Nat.eqb_eq in Bd. rewrite Bd.
    rewrite (conforming_out p tets f t t' Hc Ea), dot_scale_r. ring.
Qed.

Lemma nth_magTris : forall mn sup tris, map (fun k => nth k tris (mkTri 0 0 0 0)) (magTri_of mn sup tris) =
  filter (fun x => mag_tri mn x && negb (nth (r_reg x) sup false)) tris.
Proof.
  intros mn sup tris. unfold magTri_of.
  assert (Q : forall l (st : list nat) pre, (forall k, In k st -> (k < length pre)%nat) ->
    map (fun k => nth k (pre ++ l) (mkTri 0 0 0 0)) (fold_left (fun l (it : nat * tri) =>
      if mag_tri mn (snd it) && negb (nth (r_reg (snd it)) sup false) then l ++ [fst it] else l) (combine (seq (length pre) (length l)) l) st) =
    map (fun k => nth k (pre ++ l) (mkTri 0 0 0 0)) st ++ filter (fun x => mag_tri mn x && negb (nth (r_reg x) sup false)) l).
  { induction l as [|t l IH]; intros st pre Hst; cbn [length seq combine fold_left filter].
    - symmetry. apply app_nil_r.
    - replace (pre ++ t :: l) with ((pre ++ [t]) ++ l) by (rewrite <- app_assoc; reflexivity).
      replace (S (length pre)) with (length (pre ++ [t])) by (rewrite app_length; simpl; lia).
      cbn [fst snd]. rewrite IH.
      + destruct (mag_tri mn t && negb (nth (r_reg t) sup false)); auto.
        rewrite map_app, <- app_assoc. cbn [map]. f_equal. cbn [app]. f_equal.
        rewrite <- app_assoc, app_nth2 by lia. rewrite Nat.sub_diag. reflexivity.
      + destruct (mag_tri mn t && negb (nth (r_reg t) sup false)); intros k Hk; rewrite app_length; simpl.
        * apply in_app_or in Hk. destruct Hk as [Hk|[<-|[]]]; [specialize (Hst k Hk)|]; lia.
        * specialize (Hst k Hk). lia. }
  specialize (Q tris [] []). cbn [length app map] in Q. apply Q. intros k [].
Qed.

(** the values of a field at the nodes of a triangle *)
Definition tcorner {X} (x : nat -> X) (t : tri) (i : nat) : X := x (nth i (tri_nodes t) 0%nat).

Section mesh_sum.
Variables (P : Type) (names : list string) (MsL : list R) (dflt : P) (rest : list (@surf_prm P)) (tets : list tet) (tris : list tri)
  (sorted : list basic) (o : @control_out P) (p : nat -> vec) (n : nat) (suppress : list bool).
Let Ms (r : nat) := nth r MsL 0.
Hypothesis Hn : forall t, In t tets -> NoDup (tet_nodes t).
Hypothesis Hi : forall t i, In t tets -> In i (tet_nodes t) -> (i < n)%nat.
Hypothesis Hs : all_sorted tets tris sorted.
Hypothesis Hrun : controlTriangles names Ms (("__default__"%string, dflt) :: rest) tets tris sorted = Some o.
Hypothesis Hd : forall t, In t tets -> 0 < det4 p t.
Hypothesis Hc : conforming p tets.
Hypothesis HM : forall r, 0 <= nth r MsL 0.
Hypothesis Hsup : forall r, nth r suppress false = false.

Lemma mesh_sum : forall (w : list nat -> vec) (a : tet -> R) (b : R -> tri -> R) (e : tet -> R),
  (forall f g, Permutation f g -> w f = w g) ->
  (forall d x, b d x = d * flux p w (tri_nodes x)) ->
  (forall t, In t tets -> a t + Ms (t_reg t) * lsum (map (flux p w) (oriented t)) = e t) ->
  lsum (map a (nth_tets tets (magTet_of MsL n tets))) +
  lsum (map (fun k => b (nth k (c_dMs o) 0) (nth k (c_tris o) (mkTri 0 0 0 0))) (magTri_of (magNode_of MsL n tets) suppress (c_tris o))) =
  lsum (map e (nth_tets tets (magTet_of MsL n tets))).
Proof.
  intros w a b e Hw Hb He.
  set (mn := magNode_of MsL n tets).
  destruct (run_parts names Ms dflt rest tets tris sorted Hn Hs o Hrun) as (miss & more & m & _ & _ & _ & _ & Ed).
  assert (E1 : lsum (map (fun k => b (nth k (c_dMs o) 0) (nth k (c_tris o) (mkTri 0 0 0 0))) (magTri_of mn suppress (c_tris o))) =
    lsum (map (fun x => dMs_of Ms sorted x * flux p w (tri_nodes x)) (filter (fun x => mag_tri mn x && negb (nth (r_reg x) suppress false)) (c_tris o)))).
  { rewrite <- nth_magTris, map_map. apply lsum_map_ext. intros k Hk. apply (proj1 (magTri_spec mn suppress (c_tris o)) k) in Hk.
    destruct Hk as (f & Hf & _). rewrite Hb. f_equal. rewrite Ed. apply nth_error_nth.
    rewrite nth_error_map, Hf. cbn [option_map]. rewrite (nth_error_nth _ _ _ Hf). reflexivity. }
  assert (E2 : lsum (map (fun x => dMs_of Ms sorted x * flux p w (tri_nodes x)) (filter (fun x => mag_tri mn x && negb (nth (r_reg x) suppress false)) (c_tris o))) =
    lsum (map (fun x => dMs_of Ms sorted x * flux p w (tri_nodes x)) (c_tris o))).
  { rewrite lsum_filter. apply lsum_map_ext. intros x Hx. rewrite Hsup. cbn [negb]. rewrite andb_true_r.
    destruct (mag_tri mn x) eqn:Em; auto. symmetry. rewrite (tri_flux Ms p w tets tris sorted Hw Hs).
    destruct (faces_in_group tets tris sorted Hn Hs (tri_nodes x) eq_refl) as [Pm _].
    rewrite (lsum_perm _ _ (Permutation_map (G Ms p w) Pm)), map_map. apply lsum_zero. intros t Ht.
    unfold G. rewrite (face_basic_reg tets Hn (tri_nodes x) t Ht eq_refl).
    replace (Ms (t_reg t)) with 0; [ring|]. destruct (adjacent_face tets _ t Ht) as [H1 H2].
    destruct (Rlt_dec 0 (Ms (t_reg t))) as [Pos|Npos]; [|specialize (HM (t_reg t)); unfold Ms in *; lra]. exfalso.
    assert (K : forall i, In i (tri_nodes x) -> nth i mn false = true).
    { intros i Hin. apply face_of_iff in H2. destruct H2 as (_ & _ & Hinc). apply (proj1 (C37_marking MsL n tets tris suppress)).
      - apply (Hi t); auto.
      - exists t. auto. }
    unfold mag_tri in Em. rewrite !K in Em; [discriminate| | |]; unfold tri_nodes; simpl; auto. }
  rewrite E1, E2, <- (flux_balance names Ms dflt rest tets tris sorted o p w Hw Hn Hs Hrun Hd Hc). rewrite !nth_magTets.
  replace (lsum (map (fun t => Ms (t_reg t) * lsum (map (flux p w) (oriented t))) tets)) with
    (lsum (map (fun t => Ms (t_reg t) * lsum (map (flux p w) (oriented t))) (filter (mag_tet MsL) tets))).
  - rewrite <- lsum_map_plus. apply lsum_map_ext. intros t Ht. apply filter_In in Ht. apply He. tauto.
  - rewrite lsum_filter. apply lsum_map_ext. intros t _. unfold mag_tet. destruct (Rlt_bool_spec 0 (nth (t_reg t) MsL 0)) as [|Hz]; auto.
    replace (Ms (t_reg t)) with 0; [ring|]. specialize (HM (t_reg t)). unfold Ms in *. lra.
Qed.
End mesh_sum.

Lemma vsum_perm : forall l l', Permutation l l' -> vsum l = vsum l'.
Proof. unfold vsum. induction 1 as [|a l l' _ IH|a b l|l l1 l2 _ I1 _ I2]; cbn [fold_right]; auto; [rewrite IH; auto|vring|congruence]. Qed.

Lemma det4_detJ : forall p t, detJ (corner p t) = det4 p t.
Proof.
  intros p t. rewrite detJ_mixed. unfold mixed_prod, det4, edge1, edge2, edge3, corner, tet_nodes. cbn [nth].
  generalize (p (t0 t)) (p (t1 t)) (p (t2 t)) (p (t3 t)). intros [] [] [] []. vsimpl. ring.
Qed.

(** the hypotheses on the mesh: a conforming mesh of oriented tetrahedrons, accepted by the control of the triangles,
    and no surface whose charges the user suppressed *)
Definition mesh_ok {P : Type} (names : list string) (MsL : list R) (dflt : P) rest tets tris sorted (o : @control_out P) (p : nat -> vec) (n : nat) (suppress : list bool) : Prop :=
  (forall t, In t tets -> NoDup (tet_nodes t)) /\ (forall t i, In t tets -> In i (tet_nodes t) -> (i < n)%nat) /\
  all_sorted tets tris sorted /\
  controlTriangles names (fun r => nth r MsL 0) (("__default__"%string, dflt) :: rest) tets tris sorted = Some o /\
  (forall t, In t tets -> 0 < det4 p t) /\ conforming p tets /\ (forall r, 0 <= nth r MsL 0) /\ (forall r, nth r suppress false = false).

(** C78: the charges of the tetrahedrons and of the triangles of a mesh add up to zero *)
Theorem C78_neutral : forall {P : Type} names MsL (dflt : P) rest tets tris sorted o p n suppress (u : nat -> vec),
  mesh_ok names MsL dflt rest tets tris sorted o p n suppress ->
  lsum (map (fun t => sumn 5 (tet_charges (nth (t_reg t) MsL 0) (corner p t) (corner u t))) (nth_tets tets (magTet_of MsL n tets))) +
  lsum (map (fun k => let x := nth k (c_tris o) (mkTri 0 0 0 0) in sumn 4 (tri_charges (nth k (c_dMs o) 0) (tcorner p x) (tcorner u x)))
    (magTri_of (magNode_of MsL n tets) suppress (c_tris o))) = 0.
Proof.
  intros P names MsL dflt rest tets tris sorted o p n suppress u (Hn & Hi & Hs & Hrun & Hd & Hc & HM & Hsup).
  set (w := fun f => vscale (1 / 3) (vsum (map u f))).
  refine (eq_trans (mesh_sum P names MsL dflt rest tets tris sorted o p n suppress Hn Hi Hs Hrun Hd Hc HM Hsup w
    (fun t => sumn 5 (tet_charges (nth (t_reg t) MsL 0) (corner p t) (corner u t)))
    (fun d x => sumn 4 (tri_charges d (tcorner p x) (tcorner u x))) (fun _ => 0) _ _ _) _).
  - intros f g Pm. unfold w. rewrite (vsum_perm (map u f) (map u g)); auto. apply Permutation_map. exact Pm.
  - intros d x. change (sumn 4) with (sumn tNPI). rewrite tri_charges_sum. f_equal. unfold tcorner, flux, w, normal_vect, area_vec, tri_nodes, vsum.
    cbn [nth map fold_right]. generalize (u (r0 x)) (u (r1 x)) (u (r2 x)) (p (r0 x)) (p (r1 x)) (p (r2 x)). intros [] [] [] [] [] []. vsimpl. field.
  - intros t Ht. pose proof (C51_charges_sum (nth (t_reg t) MsL 0) (corner p t) (corner u t)) as C. rewrite det4_detJ in C. specialize (C (Hd t Ht)).
    refine (eq_trans (f_equal2 Rplus eq_refl _) C). unfold faces, oriented. cbn [map lsum]. change (sumn 4) with (sumn tNPI). rewrite !tri_charges_sum.
    unfold on_face, corner, flux, w, normal_vect, area_vec, tet_nodes, vsum. cbn [nth map fold_right].
    generalize (u (t0 t)) (u (t1 t)) (u (t2 t)) (u (t3 t)) (p (t0 t)) (p (t1 t)) (p (t2 t)) (p (t3 t)). intros [] [] [] [] [] [] [] []. vsimpl. field.
  - apply lsum_zero. intros. reflexivity.
Qed.

(** the demagnetizing energies of the tetrahedrons and of the triangles of a mesh add up to the energy of the magnetization
    in the field deriving from the potential *)
Theorem C78_demag_energy : forall {P : Type} names MsL (dflt : P) rest tets tris sorted o p n suppress (u : nat -> vec) (phi : nat -> R)
    (mu0 : R) (prm : nat -> tprm),
  mesh_ok names MsL dflt rest tets tris sorted o p n suppress -> (forall r, p_Ms (prm r) = nth r MsL 0) ->
  lsum (map (fun t => tet_demagEnergy mu0 (prm (t_reg t)) (corner p t) (corner u t) (interp (corner phi t))) (nth_tets tets (magTet_of MsL n tets))) +
  lsum (map (fun k => let x := nth k (c_tris o) (mkTri 0 0 0 0) in
      tri_demagEnergy mu0 (nth k (c_dMs o) 0) (tcorner p x) (tinterpV (tcorner u x)) (tinterp (tcorner phi x)))
    (magTri_of (magNode_of MsL n tets) suppress (c_tris o))) =
  lsum (map (fun t => - (1 / 2) * mu0 * nth (t_reg t) MsL 0 * calc_vol (corner p t) * dot (mean4 (corner u t)) (interp_field (corner p t) (corner phi t)))
    (nth_tets tets (magTet_of MsL n tets))).
Proof.
  intros P names MsL dflt rest tets tris sorted o p n suppress u phi mu0 prm (Hn & Hi & Hs & Hrun & Hd & Hc & HM & Hsup) HP.
  set (w := fun f => vscale (mu0 / 24) (vadd (vsum (map (fun i => vscale (phi i) (u i)) f)) (vscale (lsum (map phi f)) (vsum (map u f))))).
  refine (mesh_sum P names MsL dflt rest tets tris sorted o p n suppress Hn Hi Hs Hrun Hd Hc HM Hsup w
    (fun t => tet_demagEnergy mu0 (prm (t_reg t)) (corner p t) (corner u t) (interp (corner phi t)))
    (fun d x => tri_demagEnergy mu0 d (tcorner p x) (tinterpV (tcorner u x)) (tinterp (tcorner phi x))) _ _ _ _).
  - intros f g Pm. unfold w. rewrite (vsum_perm (map u f) (map u g)) by (apply Permutation_map; exact Pm).
    rewrite (vsum_perm (map (fun i => vscale (phi i) (u i)) f) (map (fun i => vscale (phi i) (u i)) g)) by (apply Permutation_map; exact Pm).
    rewrite (lsum_perm _ _ (Permutation_map phi Pm)). reflexivity.
  - intros d x. rewrite tri_demag_sum. unfold tcorner, flux, w, normal_vect, area_vec, tri_nodes, vsum.
    cbn [nth map fold_right lsum]. generalize (u (r0 x)) (u (r1 x)) (u (r2 x)) (p (r0 x)) (p (r1 x)) (p (r2 x)). intros [] [] [] [] [] []. vsimpl. field.
  - intros t Ht. pose proof (C75_demag_energy mu0 (prm (t_reg t)) (corner p t) (corner u t) (corner phi t)) as C. rewrite det4_detJ in C.
    specialize (C (Hd t Ht)). rewrite HP in C.
    refine (eq_trans (f_equal2 Rplus eq_refl _) C). unfold faces, oriented. cbn [map lsum]. rewrite !tri_demag_sum.
    unfold on_face, corner, flux, w, normal_vect, area_vec, tet_nodes, vsum. cbn [nth map fold_right lsum].
    generalize (u (t0 t)) (u (t1 t)) (u (t2 t)) (u (t3 t)) (p (t0 t)) (p (t1 t)) (p (t2 t)) (p (t3 t)). intros [] [] [] [] [] [] [] []. vsimpl. field.
Qed.

(** two tetrahedrons of different regions sharing a face, and one triangle given by the user on that face *)
Example C78_nonvacuous :
  let tets := [mkTet 0 1 2 3 1; mkTet 1 2 3 4 2] in
  let tris := [mkTri 3 2 1 1] in
  let p i := nth i [V 0 0 0; V 1 0 0; V 0 1 0; V 0 0 1; V 1 1 1] vzero in
  exists o, mesh_ok ["__default__"; "a"; "b"]%string [0; 2; 5] tt [("s"%string, tt)] tets tris (isort basic_ltb (all_tri tets tris)) o p 5 [] /\
    nth 0 (c_dMs o) 0 = 3 /\ length (c_tris o) = 7%nat /\ magTet_of [0; 2; 5] 5 tets = [0; 1]%nat.
Proof.
  cbv zeta. set (tets := [mkTet 0 1 2 3 1; mkTet 1 2 3 4 2]). set (tris := [mkTri 3 2 1 1]).
  set (p := fun i => nth i [V 0 0 0; V 1 0 0; V 0 1 0; V 0 0 1; V 1 1 1] vzero).
  assert (R : exists o, controlTriangles ["__default__"; "a"; "b"]%string (fun r => nth r [0; 2; 5] 0) [("__default__"%string, tt); ("s"%string, tt)] tets tris
    (isort basic_ltb (all_tri tets tris)) = Some o /\ c_dMs o = map (dMs_of (fun r => nth r [0; 2; 5] 0) (isort basic_ltb (all_tri tets tris))) (c_tris o) /\
    length (c_tris o) = 7%nat /\ nth 0 (c_tris o) (mkTri 0 0 0 0) = mkTri 3 2 1 1).
  { unfold controlTriangles. cbn [fst String.eqb]. 
    assert (W : exists miss, walk_all (isort basic_ltb (all_tri tets tris)) = Some miss /\ length miss = 6%nat).
    { vm_compute. eexists. split; reflexivity. }
    destruct W as (miss & W & L). rewrite W. unfold tets at 1.
    destruct (create_regions_spec ["__default__"; "a"; "b"]%string ("__default__"%string, tt) (map snd miss) [("__default__"%string, tt); ("s"%string, tt)] []) as (more & m & E & _); [discriminate|discriminate|].
    cbn [Ascii.eqb Bool.eqb]. rewrite E. eexists. split; [reflexivity|]. cbn [c_dMs c_tris]. split; [reflexivity|]. split; [|reflexivity].
    rewrite app_length, map_length, L. reflexivity. }
  destruct R as (o & Ho & Hd & L & H0). exists o.
  assert (Hn : forall t, In t tets -> NoDup (tet_nodes t)).
  { intros t [<-|[<-|[]]]; unfold tet_nodes; cbn [t0 t1 t2 t3]; repeat constructor; simpl; lia. }
  split; [|split; [|split]].
  - unfold mesh_ok. split; [|split; [|split; [|split; [|split; [|split; [|split]]]]]].
    + exact Hn.
    + intros t i [<-|[<-|[]]]; unfold tet_nodes; cbn [t0 t1 t2 t3]; simpl; lia.
    + apply sorted_exists.
    + exact Ho.
    + intros t [<-|[<-|[]]]; unfold det4; cbn [t0 t1 t2 t3]; unfold p; cbn [nth]; vsimpl; lra.
    + intros f t t' E.
      assert (A : incl [t; t'] tets). { rewrite <- E. intros x Hx. apply adjacent_face in Hx. tauto. }
      assert (F : face_of (mkTet 0 1 2 3 1) f = true /\ face_of (mkTet 1 2 3 4 2) f = true /\ t = mkTet 0 1 2 3 1 /\ t' = mkTet 1 2 3 4 2).
      { unfold adjacent, tets in E. cbn [filter] in E. destruct (face_of (mkTet 0 1 2 3 1) f); destruct (face_of (mkTet 1 2 3 4 2) f); inversion E; auto. }
      destruct F as (F1 & F2 & -> & ->). apply face_of_iff in F1, F2. destruct F1 as (L1 & N1 & I1), F2 as (_ & _ & I2).
      destruct (three f L1) as (a & b & c & ->). unfold tet_nodes in I1, I2. cbn [t0 t1 t2 t3] in I1, I2.
      assert (Q : forall x, In x [a; b; c] -> x = 1%nat \/ x = 2%nat \/ x = 3%nat).
      { intros x Hx. specialize (I1 x Hx). specialize (I2 x Hx). simpl in I1, I2. lia. }
      pose proof (Q a ltac:(simpl; auto)) as Qa. pose proof (Q b ltac:(simpl; auto)) as Qb. pose proof (Q c ltac:(simpl; auto)) as Qc.
      inversion N1 as [|? ? Na N2]; subst. inversion N2 as [|? ? Nb N3]; subst. simpl in Na, Nb.
      assert (NE : a <> b /\ a <> c /\ b <> c) by (repeat split; intros ->; tauto). clear - Qa Qb Qc NE.
      destruct Qa as [->|[->| ->]], Qb as [->|[->| ->]], Qc as [->|[->| ->]]; try lia; clear NE;
      unfold side, area_vec, opposite, tet_nodes, p; cbn -[Rlt IZR Rmult Rplus Rminus Rdiv dot cross vsub vscale]; vsimpl; lra.
    + intros [|[|[|r]]]; simpl; try lra. destruct r; lra.
    + intros [|r]; reflexivity.
  - rewrite Hd. rewrite (nth_indep _ 0 (dMs_of (fun r => nth r [0; 2; 5] 0) (isort basic_ltb (all_tri tets tris)) (mkTri 0 0 0 0))) by (rewrite map_length, L; lia).
    rewrite map_nth, H0. unfold dMs_of.
    assert (B : exists l, lower_bound (basic_of_tri (mkTri 3 2 1 1)) (isort basic_ltb (all_tri tets tris)) = l /\
      jump (fun r => nth r [0; 2; 5] 0) (basic_of_tri (mkTri 3 2 1 1)) l 0 = 3).
    { eexists. split; [vm_compute; reflexivity|]. cbn -[Rplus Rminus IZR]. ring. }
    destruct B as (l & -> & B). exact B.
  - exact L.
  - unfold magTet_of, mark, mark_tet, mag_tet. cbn [fold_left combine seq length snd fst t_reg nth tets].
    rewrite !Rlt_bool_true by lra. reflexivity.
Qed.

Print Assumptions C40_jump.
Print Assumptions C40_order_of_nodes.
Print Assumptions C78_neutral.
Print Assumptions C78_demag_energy.
