(** * Reading the mesh file: C91 *)
From Coq Require Import Reals String Ascii List Arith Bool ZArith Lia Lra Permutation.
From Flocq Require Import Core.
From Verif Require Import Vec Sums SparseModel SparseProof TextModel TextProof TextProps StdModel MeshModel MeshProof MeshProps ElemModel ElemProps ReadModel.
Import ListNotations.
Local Open Scope nat_scope.

(** ** Specification vocabulary *)
(** the region of the settings with the name [g]: the first one *)
Definition region_named (regions : list text) (g : text) (r : nat) : Prop :=
  nth_error regions r = Some g /\ forall j, j < r -> nth_error regions j <> Some g.
(** the elements, each with its region, that the entities of a file contribute: an entity contributes all its elements
    once for each of its groups whose name is a region of the settings *)
Inductive from_groups (regions : list text) (elements : list (list nat)) : list text -> list (list nat * nat) -> Prop :=
| no_group : from_groups regions elements [] []
| other_group : forall g gs l, ~ In g regions -> from_groups regions elements gs l -> from_groups regions elements (g :: gs) l
| a_region : forall g gs l r, region_named regions g r -> from_groups regions elements gs l ->
    from_groups regions elements (g :: gs) (map (fun c => (c, r)) elements ++ l).
Inductive from_entities (regions : list text) (elements : entity -> list (list nat)) : list entity -> list (list nat * nat) -> Prop :=
| no_entity : from_entities regions elements [] []
| an_entity : forall e es l l', from_groups regions (elements e) (en_groups e) l -> from_entities regions elements es l' ->
    from_entities regions elements (e :: es) (l ++ l').
(** [e] is an entity in the API of gmsh with the elements [elements] of [size] nodes and of the type [type] *)
Definition entity_of (type : Z) (size : nat) (e : entity) (elements : list (list nat)) : Prop :=
  en_types e = [type] /\ en_tags e = [concat elements] /\ forall c, In c elements -> length c = size.

(** what the file must be: three-dimensional, made of tetrahedrons and triangles, with a group for each region *)
Definition suitable (regs3 regs2 : list text) (f : msh) : Prop :=
  m_dim f = 3%Z /\ m_types3 f = [4%Z] /\ (m_types2 f = [] \/ m_types2 f = [2%Z]) /\
  (forall r, In r regs3 -> r <> txt "__default__" -> In r (m_names3 f)) /\
  (forall r, In r regs2 -> r <> txt "__default__" -> In r (m_names2 f)).
(** the position of the node with that tag *)
Definition node_at (f : msh) (scale : R) (tag : nat) (p : vec) : Prop := exists c, In (tag, c) (m_nodes f) /\ p = vscale scale c.

(** ** Lemmas *)
Lemma check_named_spec : forall regions names,
  check_named regions names = true <-> forall r, In r regions -> r <> txt "__default__" -> In r names.
Proof.
  intros regions names. unfold check_named. rewrite forallb_forall. split; intros H r Hr.
  - intros Hn. specialize (H r Hr). apply orb_prop in H as [H|H].
    + apply text_eqb_spec in H. contradiction.
    + apply existsb_exists in H as (n & Hn' & E). apply text_eqb_spec in E. subst. exact Hn'.
  - destruct (text_eqb r (txt "__default__")) eqn:E; [reflexivity|]. cbn [orb]. apply existsb_exists. exists r. split.
    + apply H; [exact Hr|]. intros ->. assert (X : text_eqb (txt "__default__") (txt "__default__") = true) by (apply text_eqb_spec; reflexivity).
      congruence.
    + apply text_eqb_spec. reflexivity.
Qed.

Lemma check_file_spec : forall regs3 regs2 f,
  (check_file regs3 regs2 f = Ok tt /\ suitable regs3 regs2 f) \/ (check_file regs3 regs2 f = Exit /\ ~ suitable regs3 regs2 f).
Proof.
  intros regs3 regs2 f. unfold check_file, suitable, TETRAEDRON, TRIANGLE.
  destruct (m_dim f =? 3)%Z eqn:E1; cbn [negb]; [apply Z.eqb_eq in E1|apply Z.eqb_neq in E1; right; split; [reflexivity|]; intros (H & _); contradiction].
  assert (T3 : (match m_types3 f with [t] => (t =? 4)%Z | _ => false end) = true <-> m_types3 f = [4%Z]).
  { destruct (m_types3 f) as [|t [|? ?]]; try (split; discriminate). rewrite Z.eqb_eq. split; congruence. }
  assert (T2 : (match m_types2 f with [] => true | [t] => (t =? 2)%Z | _ => false end) = true <-> m_types2 f = [] \/ m_types2 f = [2%Z]).
  { destruct (m_types2 f) as [|t [|? ?]]; [tauto| |split; [discriminate|intros [H|H]; discriminate]]. rewrite Z.eqb_eq. split; [intros ->; auto|intros [H|H]; congruence]. }
  destruct (match m_types3 f with [t] => (t =? 4)%Z | _ => false end) eqn:B3; cbn [negb].
  2: { right. split; [reflexivity|]. intros (_ & H & _). apply T3 in H. discriminate. }
  destruct (match m_types2 f with [] => true | [t] => (t =? 2)%Z | _ => false end) eqn:B2; cbn [negb].
  2: { right. split; [reflexivity|]. intros (_ & _ & H & _). apply T2 in H. discriminate. }
  pose proof (check_named_spec regs2 (m_names2 f)) as N2. pose proof (check_named_spec regs3 (m_names3 f)) as N3.
  destruct (check_named regs2 (m_names2 f)), (check_named regs3 (m_names3 f)); cbn [andb];
    [left|right|right|right]; (split; [reflexivity|]); [|intros (_ & _ & _ & H3 & H2)..].
  - repeat split; tauto.
  - apply N3 in H3. discriminate.
  - apply N2 in H2. discriminate.
  - apply N2 in H2. discriminate.
Qed.

(** the nodes: the last entry of a tag wins *)
Lemma read_nodes_inv : forall scale l nodes nodes', read_nodes scale l nodes = Ok nodes' ->
  length nodes' = length nodes /\ (forall t p, In (t, p) l -> 1 <= t <= length nodes) /\
  (forall j, ~ In (S j) (map fst l) -> nth_error nodes' j = nth_error nodes j) /\
  (NoDup (map fst l) -> forall t p, In (t, p) l -> nth_error nodes' (t - 1) = Some (Some (vscale scale p))).
Proof.
  induction l as [|[t p] l IH]; intros nodes nodes' H; cbn [read_nodes] in H.
  - injection H as <-. repeat split; auto; intros; contradiction.
  - destruct t as [|j]; [discriminate|]. destruct (Nat.ltb_spec j (length nodes)) as [Hj|]; [|discriminate].
    apply IH in H as (L & B & K & N). rewrite set_nth_length in *. split; [exact L|]. split; [|split].
    + intros t q [E|Hq]; [injection E as <- <-; lia|apply (B t q Hq)].
    + intros i Hi. cbn [map fst In] in Hi. rewrite K by tauto. apply set_nth_other. intros ->. tauto.
    + intros ND t q Hq. cbn [map fst] in ND. inversion ND as [|? ? Hn ND']; subst. destruct Hq as [E|Hq].
      * injection E as <- <-. replace (S j - 1) with j by lia. rewrite K by exact Hn. apply set_nth_same. exact Hj.
      * apply N; assumption.
Qed.
Lemma read_nodes_ok : forall scale l nodes, (forall t p, In (t, p) l -> 1 <= t <= length nodes) -> exists nodes', read_nodes scale l nodes = Ok nodes'.
Proof.
  induction l as [|[t p] l IH]; intros nodes H; cbn [read_nodes]; [eexists; reflexivity|].
  pose proof (H t p (or_introl eq_refl)) as Ht. destruct t as [|j]; [lia|]. destruct (Nat.ltb_spec j (length nodes)); [|lia].
  apply IH. intros t q Hq. rewrite set_nth_length. apply (H t q). right. exact Hq.
Qed.
Lemma read_nodes_exit : forall scale l nodes, read_nodes scale l nodes <> UB.
Proof. induction l as [|[[|j] p] l IH]; intros nodes; cbn [read_nodes]; try discriminate. destruct (j <? length nodes); [apply IH|discriminate]. Qed.

Section elements.
Context (size : nat) (type : Z) (regions : list text) (make : nat -> list nat -> outcome elt).
Context (Hsize : 0 < size).
Lemma read_elements_ok : forall (P : list nat -> elt -> Prop) (mk : list nat -> outcome elt) (rows : list (list nat)),
  (forall c, In c rows -> length c = size /\ exists e, mk c = Ok e /\ P c e) ->
  forall fuel acc, length (concat rows) <= fuel ->
  exists l, read_elements fuel size mk (concat rows) acc = Ok (acc ++ l) /\ Forall2 P rows l.
Proof.
  intros P mk. induction rows as [|c rows IH]; intros H fuel acc Hf; cbn [concat].
  - exists []. destruct fuel; cbn [read_elements]; rewrite app_nil_r; split; auto.
  - destruct (H c (or_introl eq_refl)) as (Lc & e & E & Pe). cbn [concat] in Hf. rewrite app_length in Hf.
    destruct fuel as [|k]; [lia|]. cbn [read_elements].
    destruct c as [|x c]; [cbn [length] in Lc; lia|]. set (w := x :: c) in *.
    assert (Ew : exists y z, w ++ concat rows = y :: z) by (unfold w; cbn [app]; eauto). destruct Ew as (y & z & Ew). rewrite Ew, <- Ew.
    assert (X : (length (w ++ concat rows) <? size) = false) by (rewrite app_length; apply Nat.ltb_ge; lia). rewrite X.
    assert (F : firstn size (w ++ concat rows) = w) by (rewrite <- Lc, firstn_app, firstn_all, Nat.sub_diag; cbn [firstn]; apply app_nil_r).
    assert (S : skipn size (w ++ concat rows) = concat rows) by (rewrite <- Lc, skipn_app, skipn_all, Nat.sub_diag; reflexivity).
    rewrite F, S, E. cbn [bind]. destruct (IH (fun c Hc => H c (or_intror Hc)) k (acc ++ [e]) ltac:(lia)) as (l & Hl & F2).
    exists (e :: l). rewrite Hl. rewrite <- app_assoc. split; [reflexivity|constructor; assumption].
Qed.

Lemma read_groups_ok : forall (P : list nat * nat -> elt -> Prop) e rows,
  entity_of type size e rows ->
  forall gs l,
  from_groups regions rows gs l ->
  (forall g r c, In g gs -> region_named regions g r -> In c rows -> exists x, make r c = Ok x /\ P (c, r) x) ->
  forall acc, exists l', read_groups size type regions make e gs acc = Ok (acc ++ l') /\ Forall2 P l l'.
Proof.
  intros P e rows (Ht & Hg & Hl) gs l H. induction H as [|g gs l Hn H IH|g gs l r Hr H IH]; intros Hm acc; cbn [read_groups].
  - exists []. rewrite app_nil_r. split; auto.
  - apply C62_find_region in Hn. rewrite Hn. apply IH. intros; eapply Hm; eauto. right. assumption.
  - pose proof Hr as E. apply C62_find_region in E. rewrite E.
    unfold all_elems_are. rewrite Ht. cbn [forallb]. rewrite Z.eqb_refl. cbn [andb]. rewrite Hg.
    destruct (read_elements_ok (fun c => P (c, r)) (make r) rows) with (fuel := length (concat rows)) (acc := acc) as (l1 & E1 & F1).
    { intros c Hc. split; [apply Hl; exact Hc|]. apply (Hm g r c (or_introl eq_refl) Hr Hc). }
    { lia. }
    rewrite E1. cbn [bind]. destruct (IH (fun g r c Hg => Hm g r c (or_intror Hg)) (acc ++ l1)) as (l2 & E2 & F2).
    exists (l1 ++ l2). rewrite E2, <- app_assoc. split; [reflexivity|]. apply Forall2_app; [|exact F2].
    clear -F1. induction F1; cbn [map]; constructor; auto.
Qed.

Lemma read_entities_ok : forall (P : list nat * nat -> elt -> Prop) elements es l,
  from_entities regions elements es l ->
  (forall e, In e es -> entity_of type size e (elements e)) ->
  (forall e g r c, In e es -> In g (en_groups e) -> region_named regions g r -> In c (elements e) -> exists x, make r c = Ok x /\ P (c, r) x) ->
  forall acc, exists l', read_entities size type regions make es acc = Ok (acc ++ l') /\ Forall2 P l l'.
Proof.
  intros P elements es l H. induction H as [|e es l l' Hg H IH]; intros He Hm acc; cbn [read_entities].
  - exists []. rewrite app_nil_r. split; auto.
  - destruct (read_groups_ok P e (elements e) (He e (or_introl eq_refl)) _ _ Hg) with (acc := acc) as (l1 & E1 & F1).
    { intros g r c. apply (Hm e g r c (or_introl eq_refl)). }
    rewrite E1. cbn [bind]. destruct (IH (fun e h => He e (or_intror h)) (fun e g r c h => Hm e g r c (or_intror h)) (acc ++ l1)) as (l2 & E2 & F2).
    exists (l1 ++ l2). rewrite E2, <- app_assoc. split; [reflexivity|]. apply Forall2_app; assumption.
Qed.

End elements.

(** every file has such a list *)
Section contributed.
Context (regions : list text).
Lemma from_groups_exists : forall rows gs, exists l, from_groups regions rows gs l.
Proof.
  intros rows. induction gs as [|g gs (l & IH)]; [eexists; constructor|].
  destruct (find_region regions g) as [r|] eqn:E.
  - apply C62_find_region in E. eexists. apply a_region; [exact E|exact IH].
  - apply C62_find_region in E. eexists. apply other_group; [exact E|exact IH].
Qed.
Lemma from_entities_exists : forall elements es, exists l, from_entities regions elements es l.
Proof.
  intros elements. induction es as [|e es (l & IH)]; [eexists; constructor|].
  destruct (from_groups_exists (elements e) (en_groups e)) as (l1 & H1). eexists. constructor; eassumption.
Qed.
Lemma from_groups_fun : forall rows gs l, from_groups regions rows gs l -> forall l', from_groups regions rows gs l' -> l = l'.
Proof.
  intros rows gs l H. induction H as [|g gs l Hn H IH|g gs l r Hr H IH]; intros l' H'; inversion H'; subst; auto.
  - exfalso. apply Hn. match goal with h : region_named _ _ _ |- _ => apply (nth_error_In regions _ (proj1 h)) end.
  - exfalso. match goal with h : ~ In _ _ |- _ => apply h; apply (nth_error_In regions _ (proj1 Hr)) end.
  - match goal with h : region_named _ _ ?r' |- _ => assert (r = r') as -> end.
    + apply C62_find_region in Hr. match goal with h : region_named _ _ ?r' |- _ => apply C62_find_region in h end. congruence.
    + f_equal. apply IH. assumption.
Qed.
Lemma from_entities_fun : forall elements es l, from_entities regions elements es l -> forall l', from_entities regions elements es l' -> l = l'.
Proof.
  intros elements es l H. induction H as [|e es l l1 Hg H IH]; intros l' H'; inversion H'; subst; auto.
  f_equal; [eapply from_groups_fun; eassumption|apply IH; assumption].
Qed.
Lemma from_groups_in : forall rows gs l c r, from_groups regions rows gs l ->
  (In (c, r) l <-> In c rows /\ exists g, In g gs /\ region_named regions g r).
Proof.
  intros rows gs l c r H. induction H as [|g gs l Hn H IH|g gs l r' Hr H IH].
  - split; [intros []|intros (_ & g & [] & _)].
  - rewrite IH. split; intros (Hc & g' & Hg & Hr); (split; [exact Hc|]).
    + exists g'. split; [right; exact Hg|exact Hr].
    + destruct Hg as [<-|Hg]; [exfalso; apply Hn, (nth_error_In regions r (proj1 Hr))|]. exists g'. split; assumption.
  - rewrite in_app_iff, in_map_iff, IH. split.
    + intros [(x & E & Hx)|(Hc & g' & Hg & Hr')].
      * injection E as <- <-. split; [exact Hx|]. exists g. split; [left; reflexivity|exact Hr].
      * split; [exact Hc|]. exists g'. split; [right; exact Hg|exact Hr'].
    + intros (Hc & g' & [<-|Hg] & Hr').
      * left. exists c. split; [|exact Hc]. f_equal. apply C62_find_region in Hr, Hr'. congruence.
      * right. split; [exact Hc|]. exists g'. split; assumption.
Qed.
Lemma from_entities_in : forall elements es l c r, from_entities regions elements es l ->
  (In (c, r) l <-> exists e g, In e es /\ In c (elements e) /\ In g (en_groups e) /\ region_named regions g r).
Proof.
  intros elements es l c r H. induction H as [|e es l l' Hg H IH].
  - split; [intros []|intros (e & g & [] & _)].
  - rewrite in_app_iff, IH, (from_groups_in _ _ _ c r Hg). split.
    + intros [(Hc & g & Hg' & Hr)|(e' & g & He & X)]; [exists e, g|exists e', g]; cbn [In]; tauto.
    + intros (e' & g & [<-|He] & Hc & Hg' & Hr); [left; split; [exact Hc|exists g; tauto]|right; exists e', g; tauto].
Qed.
End contributed.

Section inversion.
Context (size : nat) (type : Z) (regions : list text) (make : nat -> list nat -> outcome elt).
Context (Hsize : 0 < size).
Lemma read_elements_inv : forall (mk : list nat -> outcome elt) (rows : list (list nat)),
  (forall c, In c rows -> length c = size) ->
  forall fuel acc, length (concat rows) <= fuel ->
  (forall l, read_elements fuel size mk (concat rows) acc = Ok l -> forall c, In c rows -> exists e, mk c = Ok e) /\
  ((forall c, In c rows -> mk c <> UB) -> read_elements fuel size mk (concat rows) acc <> UB).
Proof.
  intros mk. induction rows as [|c rows IH]; intros H fuel acc Hf; cbn [concat].
  - split; [intros l _ c []|]. intros _. destruct fuel; discriminate.
  - pose proof (H c (or_introl eq_refl)) as Lc. cbn [concat] in Hf. rewrite app_length in Hf.
    destruct fuel as [|k]; [lia|]. cbn [read_elements].
    destruct c as [|x c]; [cbn [length] in Lc; lia|]. set (w := x :: c) in *.
    assert (Ew : exists y z, w ++ concat rows = y :: z) by (unfold w; cbn [app]; eauto). destruct Ew as (y & z & Ew). rewrite Ew, <- Ew.
    assert (X : (length (w ++ concat rows) <? size) = false) by (rewrite app_length; apply Nat.ltb_ge; lia). rewrite X.
    assert (F : firstn size (w ++ concat rows) = w) by (rewrite <- Lc, firstn_app, firstn_all, Nat.sub_diag; cbn [firstn]; apply app_nil_r).
    assert (S : skipn size (w ++ concat rows) = concat rows) by (rewrite <- Lc, skipn_app, skipn_all, Nat.sub_diag; reflexivity).
    rewrite F, S. destruct (mk w) as [e| |] eqn:E; cbn [bind].
    + destruct (IH (fun c Hc => H c (or_intror Hc)) k (acc ++ [e]) ltac:(lia)) as (I1 & I2). split.
      * intros l Hl c' [<-|Hc]; [eauto|apply (I1 l Hl c' Hc)].
      * intros Hm. apply I2. intros c' Hc. apply Hm. right. exact Hc.
    + split; [discriminate|intros _; discriminate].
    + split; [discriminate|]. intros Hm. exfalso. apply (Hm w (or_introl eq_refl) E).
Qed.

Lemma read_groups_inv : forall e rows, entity_of type size e rows ->
  forall gs acc,
  (forall l, read_groups size type regions make e gs acc = Ok l ->
     forall g r c, In g gs -> region_named regions g r -> In c rows -> exists x, make r c = Ok x) /\
  ((forall g r c, In g gs -> region_named regions g r -> In c rows -> make r c <> UB) -> read_groups size type regions make e gs acc <> UB).
Proof.
  intros e rows (Ht & Hg & Hl). induction gs as [|g gs IH]; intros acc; cbn [read_groups].
  - split; [intros l _ g r c []|]. intros _. discriminate.
  - destruct (find_region regions g) as [r|] eqn:E.
    + pose proof E as Hr. apply C62_find_region in Hr.
      unfold all_elems_are. rewrite Ht. cbn [forallb]. rewrite Z.eqb_refl. cbn [andb]. rewrite Hg.
      destruct (read_elements_inv (make r) rows Hl (length (concat rows)) acc ltac:(lia)) as (J1 & J2).
      destruct (read_elements (length (concat rows)) size (make r) (concat rows) acc) as [acc1| |]; cbn [bind].
      * destruct (IH acc1) as (I1 & I2). split.
        -- intros l Hl' g' r' c [<-|Hg'] Hr' Hc; [|apply (I1 l Hl' g' r' c Hg' Hr' Hc)].
           assert (r' = r) as -> by (apply C62_find_region in Hr'; congruence). apply (J1 acc1 eq_refl c Hc).
        -- intros Hm. apply I2. intros g' r' c Hg'. apply Hm. right. exact Hg'.
      * split; [discriminate|intros _; discriminate].
      * split; [discriminate|]. intros Hm. exfalso. apply J2; [|reflexivity]. intros c Hc. apply (Hm g r c (or_introl eq_refl) Hr Hc).
    + apply C62_find_region in E. destruct (IH acc) as (I1 & I2). split.
      * intros l Hl' g' r' c [<-|Hg'] Hr' Hc; [exfalso; apply E, (nth_error_In regions _ (proj1 Hr'))|apply (I1 l Hl' g' r' c Hg' Hr' Hc)].
      * intros Hm. apply I2. intros g' r' c Hg'. apply Hm. right. exact Hg'.
Qed.

Lemma read_entities_inv : forall elements es, (forall e, In e es -> entity_of type size e (elements e)) ->
  forall acc,
  (forall l, read_entities size type regions make es acc = Ok l ->
     forall e g r c, In e es -> In g (en_groups e) -> region_named regions g r -> In c (elements e) -> exists x, make r c = Ok x) /\
  ((forall e g r c, In e es -> In g (en_groups e) -> region_named regions g r -> In c (elements e) -> make r c <> UB) ->
     read_entities size type regions make es acc <> UB).
Proof.
  intros elements. induction es as [|e es IH]; intros He acc; cbn [read_entities].
  - split; [intros l _ e g r c []|]. intros _. discriminate.
  - destruct (read_groups_inv e (elements e) (He e (or_introl eq_refl)) (en_groups e) acc) as (J1 & J2).
    destruct (read_groups size type regions make e (en_groups e) acc) as [acc1| |]; cbn [bind].
    + destruct (IH (fun e h => He e (or_intror h)) acc1) as (I1 & I2). split.
      * intros l Hl e' g r c [<-|He']; [apply (J1 acc1 eq_refl g r c)|apply (I1 l Hl e' g r c He')].
      * intros Hm. apply I2. intros e' g r c He'. apply Hm. right. exact He'.
    + split; [discriminate|intros _; discriminate].
    + split; [discriminate|]. intros Hm. exfalso. apply J2; [|reflexivity]. intros g r c. apply (Hm e g r c (or_introl eq_refl)).
Qed.
End inversion.

(** ** The files written by gmsh *)
(** each tag from 1 to the number of nodes is that of one node; each entity has elements of its dimension only, whose
    nodes exist; [tetras], [triangles]: the elements of an entity *)
Definition regular (f : msh) (tetras triangles : entity -> list (list nat)) : Prop :=
  Permutation (seq 1 (length (m_nodes f))) (map fst (m_nodes f)) /\
  (forall e, In e (m_vols f) -> entity_of 4 4 e (tetras e) /\ forall c t, In c (tetras e) -> In t c -> 1 <= t <= length (m_nodes f)) /\
  (forall e, In e (m_surfs f) -> entity_of 2 3 e (triangles e) /\ forall c t, In c (triangles e) -> In t c -> 1 <= t <= length (m_nodes f)).
(** a tetrahedron of a region of the settings whose volume is below epsilon / 6 *)
Definition has_flat (epsilon scale : R) (regs3 : list text) (f : msh) (tetras : entity -> list (list nat)) : Prop :=
  exists e g a b c d pa pb pc pd, In e (m_vols f) /\ In g (en_groups e) /\ In g regs3 /\ In [a; b; c; d] (tetras e) /\
    node_at f scale a pa /\ node_at f scale b pb /\ node_at f scale c pc /\ node_at f scale d pd /\
    (volume4 pa pb pc pd < epsilon / 6)%R.

Lemma in_regions : forall regions g, In g regions <-> exists r, region_named regions g r.
Proof.
  intros regions g. split.
  - intros H. destruct (find_region regions g) as [r|] eqn:E; [exists r; apply C62_find_region, E|]. apply C62_find_region in E. contradiction.
  - intros (r & H & _). apply (nth_error_In regions r H).
Qed.

Lemma regular_nodes : forall f scale tetras triangles, regular f tetras triangles ->
  exists ps, read_nodes scale (m_nodes f) (repeat None (length (m_nodes f))) = Ok (map Some ps) /\
    length ps = length (m_nodes f) /\ (forall t p, node_at f scale t p -> nth_error ps (t - 1) = Some p) /\
    (forall t, 1 <= t <= length (m_nodes f) -> exists p, node_at f scale t p).
Proof.
  intros f scale tetras triangles (HP & _ & _).
  assert (B : forall t, In t (map fst (m_nodes f)) <-> 1 <= t <= length (m_nodes f)).
  { intros t. split; intros H.
    - apply (Permutation_in t (Permutation_sym HP)), in_seq in H. lia.
    - apply (Permutation_in t HP), in_seq. lia. }
  assert (ND : NoDup (map fst (m_nodes f))) by (apply (Permutation_NoDup HP), seq_NoDup).
  assert (Ex : forall t, 1 <= t <= length (m_nodes f) -> exists p, node_at f scale t p).
  { intros t Ht. apply B in Ht. apply in_map_iff in Ht as ([t' c] & <- & Hc). exists (vscale scale c), c. split; [exact Hc|reflexivity]. }
  destruct (read_nodes_ok scale (m_nodes f) (repeat None (length (m_nodes f)))) as (nodes & E).
  { intros t p H. rewrite repeat_length. apply B. apply in_map_iff. exists (t, p). split; [reflexivity|exact H]. }
  apply read_nodes_inv in E as Hn. destruct Hn as (L & _ & _ & N). rewrite repeat_length in L. specialize (N ND).
  set (ps := map (fun o => match o with Some p => p | None => vzero end) nodes).
  assert (Hps : nodes = map Some ps).
  { apply list_eq_nth_error. intros i. destruct (Nat.lt_ge_cases i (length nodes)) as [Hi|Hi].
    - destruct (Ex (S i) ltac:(lia)) as (p & c & Hc & ->). apply N in Hc. replace (S i - 1) with i in Hc by lia.
      unfold ps. rewrite map_map. rewrite (map_nth_error _ _ _ Hc). exact Hc.
    - rewrite (proj2 (nth_error_None nodes i) Hi). symmetry. apply nth_error_None. unfold ps. rewrite !map_length. exact Hi. }
  exists ps. rewrite E, Hps. split; [f_equal; f_equal; unfold ps; rewrite map_map, <- Hps; reflexivity|]. split; [unfold ps; rewrite map_length; exact L|]. split; [|exact Ex].
  intros t p (c & Hc & ->). apply N in Hc. unfold ps. rewrite (map_nth_error _ _ _ Hc). reflexivity.
Qed.

Lemma exist_nodes_ok : forall n c, (forall t, In t c -> 1 <= t <= n) -> exist_nodes n (zero_based c) = true.
Proof.
  intros n c H. unfold exist_nodes, zero_based. apply forallb_forall. intros i Hi. apply in_map_iff in Hi as (t & <- & Ht).
  apply H in Ht. apply andb_true_intro. split; [apply Z.leb_le|apply Z.ltb_lt]; lia.
Qed.
Lemma positions_ok : forall ps c, (forall t, In t c -> 1 <= t <= length ps) ->
  forallb (fun i => match position (map Some ps) (Z.to_nat i) with Some _ => true | None => false end) (zero_based c) = true.
Proof.
  intros ps c H. apply forallb_forall. intros i Hi. apply in_map_iff in Hi as (t & <- & Ht). apply H in Ht.
  unfold position. destruct (nth_error (map Some ps) (Z.to_nat (Z.of_nat t - 1))) as [[p|]|] eqn:E; [reflexivity| |].
  - rewrite nth_error_map in E. destruct (nth_error ps (Z.to_nat (Z.of_nat t - 1))); discriminate.
  - apply nth_error_None in E. rewrite map_length in E. lia.
Qed.
Lemma known_at : forall ps i, known (map Some ps) i = nth i ps vzero.
Proof.
  intros ps i. unfold known, position. rewrite nth_error_map. destruct (nth_error ps i) as [p|] eqn:E; cbn [option_map].
  - symmetry. apply nth_error_nth. exact E.
  - apply nth_error_None in E. symmetry. apply nth_overflow. exact E.
Qed.
Lemma zero_based_nat : forall c, map Z.to_nat (zero_based c) = map (fun t => t - 1) c.
Proof. intros c. unfold zero_based. rewrite map_map. apply map_ext. intros t. lia. Qed.

(** a tetrahedron as read: region and corners of the file, positively oriented *)
Definition tetra_read (ps : list vec) (x : list nat * nat) (t : elt) : Prop :=
  el_reg t = snd x /\ exists ind, el_ind t = map Z.of_nat ind /\ Permutation (map (fun t => t - 1) (fst x)) ind /\
    (0 < detJ (fun i => nth (nth i ind O) ps vzero))%R.
(** a triangle: its corners in the same order *)
Definition triangle_read (x : list nat * nat) (t : elt) : Prop :=
  el_reg t = snd x /\ el_ind t = map (fun t => (Z.of_nat t - 1)%Z) (fst x).

Lemma new_tet_spec : forall eps ps r a b c d pa pb pc pd, (0 < eps)%R ->
  (forall t, In t [a; b; c; d] -> 1 <= t <= length ps) ->
  nth_error ps (a - 1) = Some pa -> nth_error ps (b - 1) = Some pb -> nth_error ps (c - 1) = Some pc -> nth_error ps (d - 1) = Some pd ->
  ((volume4 pa pb pc pd < eps / 6)%R -> new_tet eps (map Some ps) r [a; b; c; d] = Exit) /\
  ((eps / 6 <= volume4 pa pb pc pd)%R -> exists t, new_tet eps (map Some ps) r [a; b; c; d] = Ok t /\ tetra_read ps ([a; b; c; d], r) t).
Proof.
  intros eps ps r a b c d pa pb pc pd He Hin Ea Eb Ec Ed. unfold new_tet. rewrite map_length, exist_nodes_ok, positions_ok, zero_based_nat by exact Hin.
  assert (K : forall i p, nth_error ps i = Some p -> known (map Some ps) i = p) by (intros i p E; rewrite known_at; apply nth_error_nth; exact E).
  cbn [map]. destruct (C45_orientation eps (known (map Some ps)) (a - 1) (b - 1) (c - 1) (d - 1) He) as (N & S).
  rewrite (K _ _ Ea), (K _ _ Eb), (K _ _ Ec), (K _ _ Ed) in N, S. split; intros V.
  - apply N in V. rewrite V. reflexivity.
  - destruct (orientate eps (known (map Some ps)) [a - 1; b - 1; c - 1; d - 1]) as [ind|] eqn:E.
    + destruct (S ind eq_refl) as (P & D & _). eexists. split; [reflexivity|]. split; [reflexivity|]. exists ind. split; [reflexivity|].
      split; [exact P|]. cbn beta in D.
      unfold detJ, det3, jac, edge1, edge2, edge3 in *. rewrite !known_at in D. exact D.
    + exfalso. assert (V' := proj1 N eq_refl). lra.
Qed.

Lemma new_tri_spec : forall ps r c, (forall t, In t c -> 1 <= t <= length ps) ->
  exists t, new_tri (map Some ps) r c = Ok t /\ triangle_read (c, r) t.
Proof.
  intros ps r c H. unfold new_tri. rewrite map_length, exist_nodes_ok, positions_ok by exact H. eexists. split; [reflexivity|]. split; reflexivity.
Qed.

Lemma of_length4 : forall (c : list nat), length c = 4 -> exists a b d e, c = [a; b; d; e].
Proof. intros [|a [|b [|d [|e [|? ?]]]]] H; try discriminate. exists a, b, d, e. reflexivity. Qed.

(** ** The elements that the entities of a file contribute: there is exactly one such list *)
Theorem C91_contributed : forall regions elements es,
  (exists l, from_entities regions elements es l) /\
  forall l, from_entities regions elements es l ->
  (forall l', from_entities regions elements es l' -> l' = l) /\
  forall c r, In (c, r) l <-> exists e g, In e es /\ In c (elements e) /\ In g (en_groups e) /\ region_named regions g r.
Proof.
  intros regions elements es. split; [apply from_entities_exists|]. intros l H. split.
  - intros l' H'. symmetry. eapply from_entities_fun; eassumption.
  - intros c r. eapply from_entities_in; eassumption.
Qed.

(** ** C91: the mesh is that of the file *)
Theorem C91_mesh : forall (epsilon scale : R) (regs3 regs2 : list text) (f : msh) (tetras triangles : entity -> list (list nat)),
  (0 < epsilon)%R -> regular f tetras triangles ->
  (* what the file contributes *)
  forall wanted3 wanted2, from_entities regs3 tetras (m_vols f) wanted3 -> from_entities regs2 triangles (m_surfs f) wanted2 ->
  (* it is read if it is suitable and has no flat tetrahedron, and else refused *)
  (~ suitable regs3 regs2 f \/ has_flat epsilon scale regs3 f tetras -> read_mesh epsilon scale regs3 regs2 f = Exit) /\
  (suitable regs3 regs2 f -> ~ has_flat epsilon scale regs3 f tetras ->
   exists ps tets tris, read_mesh epsilon scale regs3 regs2 f = Ok (map Some ps, tets, tris) /\
     length ps = length (m_nodes f) /\
     (forall tag p, node_at f scale tag p -> nth_error ps (tag - 1) = Some p) /\
     Forall2 (tetra_read ps) wanted3 tets /\ Forall2 triangle_read wanted2 tris).
Proof.
  intros eps scale regs3 regs2 f tetras triangles He Hreg wanted3 wanted2 W3 W2.
  destruct (regular_nodes f scale tetras triangles Hreg) as (ps & En & Lp & Hp & Hex).
  destruct Hreg as (HP & HV & HS). unfold read_mesh.
  destruct (check_file_spec regs3 regs2 f) as [(Ec & Hs)|(Ec & Hs)]; rewrite Ec; cbn [bind].
  2: { split; [reflexivity|]. intros H. contradiction. }
  rewrite En. cbn [bind].
  assert (HT : forall e c, In e (m_vols f) -> In c (tetras e) -> exists a b d g pa pb pd pg, c = [a; b; d; g] /\
    (forall t, In t c -> 1 <= t <= length ps) /\ node_at f scale a pa /\ node_at f scale b pb /\ node_at f scale d pd /\ node_at f scale g pg).
  { intros e c Hine Hc. destruct (HV e Hine) as ((_ & _ & L4) & B). pose proof (L4 c Hc) as L. apply of_length4 in L as (a & b & d & g & ->).
    assert (B' : forall t, In t [a; b; d; g] -> 1 <= t <= length ps) by (intros t Ht; rewrite Lp; eapply B; eassumption).
    destruct (Hex a) as (pa & Pa); [rewrite <- Lp; apply B'; cbn [In]; tauto|].
    destruct (Hex b) as (pb & Pb); [rewrite <- Lp; apply B'; cbn [In]; tauto|].
    destruct (Hex d) as (pd & Pd); [rewrite <- Lp; apply B'; cbn [In]; tauto|].
    destruct (Hex g) as (pg & Pg); [rewrite <- Lp; apply B'; cbn [In]; tauto|].
    exists a, b, d, g, pa, pb, pd, pg. repeat split; auto; eapply B'; eassumption. }
  split.
  - intros [H|H]; [contradiction|]. destruct H as (e & g & a & b & c & d & pa & pb & pc & pd & Hine & Hg & Hr & Hc & Na & Nb & Nc & Nd & Hv).
    apply in_regions in Hr as (r & Hr).
    destruct (read_entities_inv 4 TETRAEDRON regs3 (new_tet eps (map Some ps)) ltac:(lia) tetras (m_vols f) (fun e h => proj1 (HV e h)) []) as (I1 & I2).
    destruct (read_entities 4 TETRAEDRON regs3 (new_tet eps (map Some ps)) (m_vols f) []) as [l| |]; cbn [bind].
    + exfalso. destruct (I1 l eq_refl e g r [a; b; c; d] Hine Hg Hr Hc) as (x & Ex).
      assert (B : forall t, In t [a; b; c; d] -> 1 <= t <= length ps) by (intros t Ht; rewrite Lp; eapply (proj2 (HV e Hine)); eassumption).
      destruct (new_tet_spec eps ps r a b c d pa pb pc pd He B (Hp _ _ Na) (Hp _ _ Nb) (Hp _ _ Nc) (Hp _ _ Nd)) as (F & _).
      rewrite (F Hv) in Ex. discriminate.
    + reflexivity.
    + exfalso. apply I2; [|reflexivity]. intros e' g' r' c' He' Hg' Hr' Hc'.
      destruct (HT e' c' He' Hc') as (a' & b' & d' & h' & qa & qb & qd & qh & -> & B & Qa & Qb & Qd & Qh).
      destruct (new_tet_spec eps ps r' a' b' d' h' qa qb qd qh He B (Hp _ _ Qa) (Hp _ _ Qb) (Hp _ _ Qd) (Hp _ _ Qh)) as (F1 & F2).
      destruct (Rlt_le_dec (volume4 qa qb qd qh) (eps / 6)) as [V|V]; [rewrite (F1 V); discriminate|].
      destruct (F2 V) as (t & -> & _). discriminate.
  - intros _ Hflat.
    destruct (read_entities_ok 4 TETRAEDRON regs3 (new_tet eps (map Some ps)) ltac:(lia) (tetra_read ps) tetras (m_vols f) wanted3 W3
      (fun e h => proj1 (HV e h))) with (acc := @nil elt) as (tets & Et & Ft).
    { intros e g r c Hine Hg Hr Hc. destruct (HT e c Hine Hc) as (a' & b' & d' & h' & qa & qb & qd & qh & -> & B & Qa & Qb & Qd & Qh).
      destruct (new_tet_spec eps ps r a' b' d' h' qa qb qd qh He B (Hp _ _ Qa) (Hp _ _ Qb) (Hp _ _ Qd) (Hp _ _ Qh)) as (_ & F2).
      apply F2. apply Rnot_lt_le. intros V. apply Hflat. exists e, g, a', b', d', h', qa, qb, qd, qh.
      repeat (split; [first [assumption|apply in_regions; exists r; assumption]|]). assumption. }
    rewrite Et. cbn [bind app].
    destruct (read_entities_ok 3 TRIANGLE regs2 (new_tri (map Some ps)) ltac:(lia) triangle_read triangles (m_surfs f) wanted2 W2
      (fun e h => proj1 (HS e h))) with (acc := @nil elt) as (tris & Er & Fr).
    { intros e g r c Hine Hg Hr Hc. apply new_tri_spec. intros t Ht. rewrite Lp. eapply (proj2 (HS e Hine)); eassumption. }
    rewrite Er. cbn [bind app]. exists ps, tets, tris. repeat split; assumption.
Qed.

(** whatever the entities are: a file that is not suitable is refused, and one with a node tag out of range *)
Theorem C91_refused : forall (epsilon scale : R) (regs3 regs2 : list text) (f : msh),
  ~ suitable regs3 regs2 f \/ (exists tag p, In (tag, p) (m_nodes f) /\ ~ 1 <= tag <= length (m_nodes f)) ->
  read_mesh epsilon scale regs3 regs2 f = Exit.
Proof.
  intros eps scale regs3 regs2 f H. unfold read_mesh.
  destruct (check_file_spec regs3 regs2 f) as [(Ec & Hs)|(Ec & Hs)]; rewrite Ec; cbn [bind]; [|reflexivity].
  destruct H as [H|(tag & p & Hin & Ht)]; [contradiction|].
  destruct (read_nodes scale (m_nodes f) (repeat None (length (m_nodes f)))) as [nodes| |] eqn:E; cbn [bind]; [|reflexivity|].
  - exfalso. apply read_nodes_inv in E as (_ & B & _). apply B in Hin. rewrite repeat_length in Hin. contradiction.
  - exfalso. apply (read_nodes_exit _ _ _ E).
Qed.

(** ** The mesh after the renumbering of mesh::sortNodes: the corners of the k-th tetrahedron are, up to their order,
       the points of the file of its four tags *)
(** the elements with valid indices, as in the model of the mesh *)
Definition as_tet (t : elt) : tet :=
  mkTet (Z.to_nat (nth 0 (el_ind t) 0%Z)) (Z.to_nat (nth 1 (el_ind t) 0%Z)) (Z.to_nat (nth 2 (el_ind t) 0%Z)) (Z.to_nat (nth 3 (el_ind t) 0%Z)) (el_reg t).
Definition as_tri (t : elt) : tri :=
  mkTri (Z.to_nat (nth 0 (el_ind t) 0%Z)) (Z.to_nat (nth 1 (el_ind t) 0%Z)) (Z.to_nat (nth 2 (el_ind t) 0%Z)) (el_reg t).

Lemma Forall2_map_r : forall {X Y Z} (P : X -> Z -> Prop) (h : Y -> Z) l l', Forall2 (fun x y => P x (h y)) l l' -> Forall2 P l (map h l').
Proof. intros X Y Z P h l l' H. induction H; cbn [map]; constructor; auto. Qed.
Lemma Forall2_trans' : forall {X Y Z} (P : X -> Y -> Prop) (Q : Y -> Z -> Prop) (S : X -> Z -> Prop),
  (forall x y z, P x y -> Q y z -> S x z) -> forall l1 l2 l3, Forall2 P l1 l2 -> Forall2 Q l2 l3 -> Forall2 S l1 l3.
Proof. intros X Y Z P Q S H l1 l2 l3 F. revert l3. induction F; intros l3 G; inversion G; subst; constructor; eauto. Qed.
Lemma Forall2_in_r : forall {X Y} (P : X -> Y -> Prop) l l', Forall2 P l l' -> forall y, In y l' -> exists x, In x l /\ P x y.
Proof. intros X Y P l l' H. induction H as [|x y l l' Hp H IH]; intros z Hz; [contradiction|]. destruct Hz as [<-|Hz]; [exists x; split; [left; reflexivity|exact Hp]|]. destruct (IH z Hz) as (u & Hu & Pu). exists u. split; [right; exact Hu|exact Pu]. Qed.

Lemma detJ_ext : forall p q, (forall i, i < 4 -> p i = q i) -> detJ p = detJ q.
Proof. intros p q H. unfold detJ, det3, jac, edge1, edge2, edge3. rewrite !(H 0), !(H 1), !(H 2), !(H 3) by lia. reflexivity. Qed.

Theorem C91_final_mesh : forall (epsilon scale : R) (regs3 regs2 : list text) (f : msh) (tetras triangles : entity -> list (list nat)),
  (0 < epsilon)%R -> regular f tetras triangles ->
  forall wanted3 wanted2, from_entities regs3 tetras (m_vols f) wanted3 -> from_entities regs2 triangles (m_surfs f) wanted2 ->
  forall ps tets tris, read_mesh epsilon scale regs3 regs2 f = Ok (map Some ps, tets, tris) ->
  (* the nodes are sorted along an axis and the elements renumbered *)
  forall a perm, sorted_permutation a ps perm ->
  let final := permuted perm ps vzero in
  let at_ i := nth i final vzero in
  Forall2 (fun x t => t_reg t = snd x /\ (0 < detJ (fun i => at_ (nth i (tet_nodes t) O)))%R /\
      exists corners, Forall2 (node_at f scale) (fst x) corners /\ Permutation corners (map at_ (tet_nodes t)))
    wanted3 (map (renumber_tet (node_index perm)) (map as_tet tets)) /\
  Forall2 (fun x t => r_reg t = snd x /\ Forall2 (node_at f scale) (fst x) (map at_ (tri_nodes t)))
    wanted2 (map (renumber_tri (node_index perm)) (map as_tri tris)).
Proof.
  intros eps scale regs3 regs2 f tetras triangles He Hreg wanted3 wanted2 W3 W2 ps tets tris E a perm Hperm final at_.
  destruct (C91_mesh eps scale regs3 regs2 f tetras triangles He Hreg wanted3 wanted2 W3 W2) as (M1 & M2).
  assert (Hs : suitable regs3 regs2 f).
  { destruct (check_file_spec regs3 regs2 f) as [(_ & Hs)|(_ & Hs)]; [exact Hs|]. rewrite M1 in E by (left; exact Hs). discriminate. }
  assert (Hf : ~ has_flat eps scale regs3 f tetras) by (intros Hf; rewrite M1 in E by (right; exact Hf); discriminate).
  destruct (M2 Hs Hf) as (ps' & tets' & tris' & E' & Lp & Hp & F3 & F2). rewrite E in E'.
  assert (X : map Some ps = map Some ps' /\ tets = tets' /\ tris = tris') by (inversion E'; auto). destruct X as (X & <- & <-).
  assert (ps = ps') as <-.
  { apply (f_equal (map (fun o => match o with Some p => p | None => vzero end))) in X. rewrite !map_map, !map_id in X. exact X. }
  clear X E' M1 M2.
  destruct (regular_nodes f scale tetras triangles Hreg) as (_ & _ & _ & _ & Hex). destruct Hreg as (_ & HV & HS).
  (* the wanted elements have 4 and 3 existing nodes *)
  assert (B3 : forall x, In x wanted3 -> length (fst x) = 4 /\ forall t, In t (fst x) -> 1 <= t <= length ps).
  { intros [c r] Hx. apply (from_entities_in regs3 tetras (m_vols f) wanted3 c r W3) in Hx as (e & g & Hine & Hc & _).
    cbn [fst]. destruct (HV e Hine) as ((_ & _ & L) & B). split; [apply L; exact Hc|]. intros t Ht. rewrite Lp. eapply B; eassumption. }
  assert (B2 : forall x, In x wanted2 -> length (fst x) = 3 /\ forall t, In t (fst x) -> 1 <= t <= length ps).
  { intros [c r] Hx. apply (from_entities_in regs2 triangles (m_surfs f) wanted2 c r W2) in Hx as (e & g & Hine & Hc & _).
    cbn [fst]. destruct (HS e Hine) as ((_ & _ & L) & B). split; [apply L; exact Hc|]. intros t Ht. rewrite Lp. eapply B; eassumption. }
  assert (Pos : forall c, (forall t, In t c -> 1 <= t <= length ps) -> Forall2 (node_at f scale) c (map (fun i => nth i ps vzero) (map (fun t => t - 1) c))).
  { induction c as [|t c IH]; intros Hc; cbn [map]; constructor.
    - destruct (Hex t) as (p & Np). { rewrite <- Lp. apply Hc. left. reflexivity. } pose proof (Hp t p Np) as Ep.
      rewrite (nth_error_nth _ _ _ Ep). exact Np.
    - apply IH. intros t' Ht'. apply Hc. right. exact Ht'. }
  (* the elements of the model *)
  assert (G3 : Forall2 (fun x t => t_reg t = snd x /\ Permutation (map (fun t => t - 1) (fst x)) (tet_nodes t) /\
     (0 < detJ (fun i => nth (nth i (tet_nodes t) O) ps vzero))%R) wanted3 (map as_tet tets)).
  { apply Forall2_map_r. clear -F3 B3. induction F3 as [|x t l l' H F IH]; constructor; [|apply IH; intros y Hy; apply B3; right; exact Hy].
    destruct H as (Hr & ind & Hi & P & D). destruct (B3 x (or_introl eq_refl)) as (L & _).
    pose proof (Permutation_length P) as Li. rewrite map_length, L in Li. symmetry in Li. apply of_length4 in Li as (u & v & w & z & ->).
    unfold as_tet, tet_nodes. cbn [t0 t1 t2 t3 t_reg]. rewrite Hi. cbn [map nth]. rewrite !Nat2Z.id. auto. }
  assert (G2 : Forall2 (fun x t => r_reg t = snd x /\ tri_nodes t = map (fun t => t - 1) (fst x)) wanted2 (map as_tri tris)).
  { apply Forall2_map_r. clear -F2 B2. induction F2 as [|x t l l' H F IH]; constructor; [|apply IH; intros y Hy; apply B2; right; exact Hy].
    destruct H as (Hr & Hi). destruct (B2 x (or_introl eq_refl)) as (L & _). destruct x as [c r]. cbn [fst snd] in *.
    destruct c as [|u [|v [|w [|? ?]]]]; try discriminate. unfold as_tri, tri_nodes. cbn [r0 r1 r2 r_reg]. rewrite Hi. cbn [map nth].
    split; [exact Hr|]. repeat f_equal; lia. }
  destruct (C34_renumbering a ps (map as_tet tets) (map as_tri tris) perm Hperm) as (_ & _ & _ & R3 & R2).
  { intros t i Ht Hi. destruct (Forall2_in_r _ _ _ G3 t Ht) as (x & Hx & _ & P & _). apply (Permutation_in i (Permutation_sym P)) in Hi.
    apply in_map_iff in Hi as (k & <- & Hk). apply (proj2 (B3 x Hx)) in Hk. lia. }
  { intros t i Ht Hi. destruct (Forall2_in_r _ _ _ G2 t Ht) as (x & Hx & _ & P). rewrite P in Hi.
    apply in_map_iff in Hi as (k & <- & Hk). apply (proj2 (B2 x Hx)) in Hk. lia. }
  assert (A3 : Forall2 (fun x t => (t_reg t = snd x /\ Permutation (map (fun t => t - 1) (fst x)) (tet_nodes t) /\
     (0 < detJ (fun i => nth (nth i (tet_nodes t) O) ps vzero))%R) /\ forall k, In k (fst x) -> 1 <= k <= length ps) wanted3 (map as_tet tets)).
  { clear -G3 B3. induction G3; constructor; [split; [assumption|apply (B3 x (or_introl eq_refl))]|apply IHG3; intros z Hz; apply B3; right; exact Hz]. }
  assert (A2 : Forall2 (fun x t => (r_reg t = snd x /\ tri_nodes t = map (fun t => t - 1) (fst x)) /\ forall k, In k (fst x) -> 1 <= k <= length ps) wanted2 (map as_tri tris)).
  { clear -G2 B2. induction G2; constructor; [split; [assumption|apply (B2 x (or_introl eq_refl))]|apply IHG2; intros z Hz; apply B2; right; exact Hz]. }
  split.
  - eapply Forall2_trans'; [|exact A3|exact R3]. intros x t t' ((Hr & P & D) & B) (Hr' & Hm & _). split; [congruence|].
    split.
    + erewrite detJ_ext; [exact D|]. intros i Hi. fold final in Hm. unfold at_.
      assert (Q : forall i, i < 4 -> nth (nth i (tet_nodes t') O) final vzero = nth (nth i (tet_nodes t) O) ps vzero); [|apply Q; exact Hi].
      intros j Hj. unfold tet_nodes in *. cbn [map] in Hm. injection Hm as Q0 Q1 Q2 Q3.
      destruct j as [|[|[|[|j]]]]; cbn [nth]; [assumption..|lia].
    + exists (map (fun i => nth i ps vzero) (map (fun t => t - 1) (fst x))). split; [apply Pos; exact B|].
      unfold at_, final. rewrite Hm. apply Permutation_map. exact P.
  - eapply Forall2_trans'; [|exact A2|exact R2]. intros x t t' ((Hr & P) & B) (Hr' & Hm & _). split; [congruence|].
    unfold at_, final. rewrite Hm, P. apply Pos. exact B.
Qed.

(** ** A file: one tetrahedron, badly oriented, and one triangle; the tags of the nodes are not in order *)
Definition corner_nodes : list (nat * vec) := [(2, V 1 0 0); (1, V 0 0 0); (4, V 0 0 1); (3, V 0 1 0)].
Definition one_tetra (groups : list text) (tags : list nat) : msh :=
  mkMsh 3 [4%Z] [2%Z] [txt "left"; txt "all"] [txt "top"] corner_nodes
    [mkEntity groups [4%Z] [tags]] [mkEntity [txt "top"; txt "other"] [2%Z] [[3; 1; 2]]].
Definition two_regions : list text := [txt "__default__"; txt "left"].
Definition one_surface : list text := [txt "__default__"; txt "top"].

Lemma corner_positions : read_nodes 2 corner_nodes (repeat None 4) = Ok (map Some [vscale 2 (V 0 0 0); vscale 2 (V 1 0 0); vscale 2 (V 0 1 0); vscale 2 (V 0 0 1)])%R.
Proof. reflexivity. Qed.

Lemma corner_tetra : forall r,
  new_tet (1 / 1000) (map Some [vscale 2 (V 0 0 0); vscale 2 (V 1 0 0); vscale 2 (V 0 1 0); vscale 2 (V 0 0 1)])%R r [1; 2; 4; 3]
  = Ok (mkElt [0; 1; 2; 3]%Z r).
Proof.
  intros r. unfold new_tet. cbn [map length zero_based]. cbn [Z.of_nat Pos.of_succ_nat Pos.succ Z.sub Z.add Z.opp Z.pos_sub Pos.pred_double].
  change (exist_nodes 4 (map (fun t : nat => (Z.of_nat t - 1)%Z) [1; 2; 4; 3])) with true. cbv iota.
  match goal with |- (if ?b then _ else _) = _ => change b with true end. cbv iota.
  change (map Z.to_nat _) with [0; 1; 3; 2].
  unfold orientate. match goal with |- context [mixed_prod ?q] => assert (M : mixed_prod q = (-8)%R) end.
  { unfold mixed_prod, edge1, edge2, edge3. cbn [nth]. unfold known, position. cbn [nth_error]. vsimpl. ring. }
  rewrite M. rewrite Rabs_left by lra. rewrite Rlt_bool_false by lra. rewrite Rlt_bool_true by lra. reflexivity.
Qed.

Lemma corner_read : forall make x, make 1 [1; 2; 4; 3] = Ok x ->
  read_entities 4 TETRAEDRON two_regions make (m_vols (one_tetra [txt "all"; txt "left"] [1; 2; 4; 3])) [] = Ok [x].
Proof. intros make x H. lazy. rewrite H. reflexivity. Qed.
Lemma corner_read_twice : forall make x y, make 2 [1; 2; 4; 3] = Ok x -> make 1 [1; 2; 4; 3] = Ok y ->
  read_entities 4 TETRAEDRON [txt "__default__"; txt "left"; txt "all"] make (m_vols (one_tetra [txt "all"; txt "left"] [1; 2; 4; 3])) [] = Ok [x; y].
Proof. intros make x y H H'. lazy. rewrite H, H'. reflexivity. Qed.

Example C91_nonvacuous :
  let f := one_tetra [txt "all"; txt "left"] [1; 2; 4; 3] in
  (exists tetras triangles, regular f tetras triangles /\ suitable two_regions one_surface f /\
     from_entities two_regions tetras (m_vols f) [([1; 2; 4; 3], 1)] /\ from_entities one_surface triangles (m_surfs f) [([3; 1; 2], 1)]) /\
  read_mesh (1 / 1000) 2 two_regions one_surface f =
    Ok (map Some [vscale 2 (V 0 0 0); vscale 2 (V 1 0 0); vscale 2 (V 0 1 0); vscale 2 (V 0 0 1)]%R,
        [mkElt [0; 1; 2; 3]%Z 1], [mkElt [2; 0; 1]%Z 1]).
Proof.
  cbv zeta. split.
  - exists (fun _ => [[1; 2; 4; 3]]), (fun _ => [[3; 1; 2]]). split; [|split; [|split]].
    + split; [|split].
      * cbn [length m_nodes one_tetra corner_nodes seq map fst].
        apply NoDup_Permutation; [repeat constructor; cbn [In]; intuition lia|repeat constructor; cbn [In]; intuition lia|cbn [In]; intuition lia].
      * intros e [<-|[]]. split; [split; [reflexivity|split; [reflexivity|intros c [<-|[]]; reflexivity]]|].
        intros c t [<-|[]] Ht. cbn [length m_nodes one_tetra corner_nodes]. cbn [In] in Ht. lia.
      * intros e [<-|[]]. split; [split; [reflexivity|split; [reflexivity|intros c [<-|[]]; reflexivity]]|].
        intros c t [<-|[]] Ht. cbn [length m_nodes one_tetra corner_nodes]. cbn [In] in Ht. lia.
    + destruct (check_file_spec two_regions one_surface (one_tetra [txt "all"; txt "left"] [1; 2; 4; 3])) as [(_ & H)|(H & _)]; [exact H|].
      vm_compute in H. discriminate.
    + apply (an_entity _ _ _ [] [([1; 2; 4; 3], 1)] []); [|constructor]. cbn [en_groups m_vols one_tetra].
      apply other_group; [apply C62_find_region; reflexivity|].
      apply (a_region two_regions [[1; 2; 4; 3]] (txt "left") [] [] 1); [apply C62_find_region; reflexivity|constructor].
    + apply (an_entity _ _ _ [] [([3; 1; 2], 1)] []); [|constructor]. cbn [en_groups m_surfs one_tetra].
      apply (a_region one_surface [[3; 1; 2]] (txt "top") [txt "other"] [] 1); [apply C62_find_region; reflexivity|].
      apply other_group; [apply C62_find_region; reflexivity|constructor].
  - unfold read_mesh. change (check_file two_regions one_surface _) with (Ok tt). cbn [bind m_nodes one_tetra length corner_nodes]. fold corner_nodes.
    rewrite corner_positions. cbn [bind]. 
    rewrite (corner_read _ _ (corner_tetra 1)). reflexivity.
Qed.

(** findings.  A volume in two groups which both are regions: its tetrahedrons are in the mesh twice *)
Theorem C91_two_groups_refuted :
  let f := one_tetra [txt "all"; txt "left"] [1; 2; 4; 3] in
  let regions := [txt "__default__"; txt "left"; txt "all"] in
  suitable regions one_surface f /\
  exists ps tris, read_mesh (1 / 1000) 2 regions one_surface f = Ok (ps, [mkElt [0; 1; 2; 3]%Z 2; mkElt [0; 1; 2; 3]%Z 1], tris).
Proof.
  cbv zeta. split.
  - match goal with |- suitable ?a ?b ?c => destruct (check_file_spec a b c) as [(_ & H)|(H & _)]; [exact H|vm_compute in H; discriminate] end.
  - eexists. eexists. unfold read_mesh. change (check_file _ one_surface _) with (Ok tt). cbn [bind m_nodes one_tetra length corner_nodes]. fold corner_nodes.
    rewrite corner_positions. cbn [bind].
    rewrite (corner_read_twice _ _ _ (corner_tetra 2) (corner_tetra 1)). reflexivity.
Qed.

(** a tetrahedron whose fourth node is not in the file is in the mesh, with an index out of bounds *)
Theorem C91_missing_node_refuted :
  let f := one_tetra [txt "left"] [1; 2; 3; 9] in
  suitable two_regions one_surface f /\
  exists ps tris, read_mesh (1 / 1000) 2 two_regions one_surface f = Ok (ps, [mkElt [0; 1; 2; 8]%Z 1], tris) /\ length ps = 4.
Proof.
  cbv zeta. split.
  - match goal with |- suitable ?a ?b ?c => destruct (check_file_spec a b c) as [(_ & H)|(H & _)]; [exact H|vm_compute in H; discriminate] end.
  - eexists. eexists. split; [reflexivity|]. reflexivity.
Qed.

(** a volume without elements in a group which is a region: the elements of the empty answer are read *)
Theorem C91_empty_volume_refuted :
  let f := mkMsh 3 [4%Z] [] [txt "left"] [] corner_nodes [mkEntity [txt "left"] [] []; mkEntity [] [4%Z] [[1; 2; 4; 3]]] [] in
  suitable two_regions [txt "__default__"] f /\ read_mesh (1 / 1000) 2 two_regions [txt "__default__"] f = UB.
Proof.
  cbv zeta. split.
  - match goal with |- suitable ?a ?b ?c => destruct (check_file_spec a b c) as [(_ & H)|(H & _)]; [exact H|vm_compute in H; discriminate] end.
  - reflexivity.
Qed.

Print Assumptions C91_contributed.
Print Assumptions C91_mesh.
Print Assumptions C91_refused.
Print Assumptions C91_final_mesh.
