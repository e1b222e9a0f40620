(** * Lemmas on the assembly *)
From Coq Require Import List ZArith Arith Bool Lia Reals Lra Permutation Sorted.
From Verif Require Import Arith Sums SparseModel SparseProof ConcModel ConcProof SparseProps IterModel AsmModel.
Import ListNotations.

(** ** shapes *)
Lemma set_insert_in : forall x l y, In y (set_insert x l) <-> y = x \/ In y l.
Proof.
  induction l as [|z l IH]; intros y; cbn [set_insert]. { simpl. intuition. }
  destruct (x <? z) eqn:E1. { simpl. intuition. }
  destruct (z <? x) eqn:E2. { simpl. rewrite IH. intuition. }
  apply Nat.ltb_ge in E1, E2. assert (x = z) by lia. subst. simpl. intuition.
Qed.

Lemma set_insert_sorted : forall x l, sorted l -> sorted (set_insert x l).
Proof.
  induction l as [|z l IH]; intros H; cbn [set_insert]. { repeat constructor. }
  inversion H as [|? ? Hs Hf]; subst.
  destruct (x <? z) eqn:E1.
  - apply Nat.ltb_lt in E1. constructor; auto. constructor; auto. eapply Forall_impl; [|exact Hf]. intros; lia.
  - destruct (z <? x) eqn:E2; auto. apply Nat.ltb_lt in E2. constructor. { apply IH. exact Hs. }
    apply Forall_forall. intros y Hy. apply set_insert_in in Hy. rewrite Forall_forall in Hf. destruct Hy as [->|Hy]; auto.
Qed.

Definition good_shape (n : nat) (sh : shape) : Prop := length sh = n /\ Forall sorted sh.

Lemma in_shape_nth : forall sh i j, in_shape sh i j <-> i < length sh /\ In j (nth i sh []).
Proof.
  intros sh i j. split.
  - intros (row & E & H). split. { apply nth_error_Some. rewrite E. discriminate. }
    rewrite (nth_error_nth _ _ _ E). exact H.
  - intros [H1 H2]. exists (nth i sh []). split; auto. apply nth_error_nth_d. exact H1.
Qed.

Lemma insert_spec : forall n sh ij, good_shape n sh -> fst ij < n ->
  good_shape n (shape_insert sh ij) /\
  forall i j, in_shape (shape_insert sh ij) i j <-> in_shape sh i j \/ (i, j) = ij.
Proof.
  intros n sh [r c] [Hl Hs] Hr. cbn [fst] in Hr. unfold shape_insert. cbn [fst snd]. split.
  - split. { rewrite set_nth_length. exact Hl. }
    apply Forall_forall. intros row Hrow. apply In_nth_error in Hrow. destruct Hrow as [k E].
    rewrite Forall_forall in Hs. destruct (Nat.eq_dec r k) as [<-|Hn].
    + rewrite set_nth_same in E by lia. inversion E. apply set_insert_sorted. apply Hs. apply nth_In. lia.
    + rewrite set_nth_other in E by exact Hn. apply Hs. eapply nth_error_In. exact E.
  - intros i j. rewrite !in_shape_nth. rewrite set_nth_length, set_nth_nth by lia.
    destruct (r =? i) eqn:E.
    + apply Nat.eqb_eq in E. subst i. rewrite set_insert_in. split.
      * intros [H [->|H']]; auto.
      * intros [[H H']|H]; auto. inversion H; subst. auto.
    + apply Nat.eqb_neq in E. split; [tauto|]. intros [H|H]; auto. inversion H; subst. congruence.
Qed.

Lemma inserts_spec : forall n ps sh, good_shape n sh -> (forall p, In p ps -> fst p < n) ->
  good_shape n (fold_left shape_insert ps sh) /\
  forall i j, in_shape (fold_left shape_insert ps sh) i j <-> in_shape sh i j \/ In (i, j) ps.
Proof.
  induction ps as [|p ps IH]; intros sh H Hp; cbn [fold_left]. { split; auto. intros; simpl; tauto. }
  destruct (insert_spec n sh p H (Hp p (or_introl eq_refl))) as [H1 H2].
  destruct (IH (shape_insert sh p) H1 (fun q Hq => Hp q (or_intror Hq))) as [H3 H4]. split; auto.
  intros i j. rewrite H4, H2. simpl. intuition.
Qed.

Lemma block_in : forall D i j r c, In (r, c) (block D i j) <->
  exists k l, k < D /\ l < D /\ r = D * i + k /\ c = D * j + l.
Proof.
  intros D i j r c. unfold block. rewrite in_flat_map. split.
  - intros (k & Hk & H). apply in_map_iff in H. destruct H as (l & E & Hl). apply in_seq in Hk, Hl.
    inversion E; subst. exists k, l. repeat split; lia.
  - intros (k & l & Hk & Hl & -> & ->). exists k. split. { apply in_seq. lia. }
    apply in_map_iff. exists l. split; auto. apply in_seq. lia.
Qed.

Lemma pos_lt : forall D n i k, i < n -> k < D -> D * i + k < D * n.
Proof. intros. nia. Qed.

Lemma pos_inj : forall D i k j l, k < D -> l < D -> D * i + k = D * j + l -> i = j /\ k = l.
Proof.
  intros D i k j l Hk Hl H. assert (i = j) by nia. subst. split; auto. lia.
Qed.

Lemma diag_blocks : forall (D n : nat) (l : list nat) (sh : shape), good_shape (D * n) sh -> (forall i, In i l -> i < n) ->
  let sh' := fold_left (fun sh i => fold_left shape_insert (block D i i) sh) l sh in
  good_shape (D * n) sh' /\
  forall r c, in_shape sh' r c <-> in_shape sh r c \/ exists i, In i l /\ In (r, c) (block D i i).
Proof.
  intros D n l. induction l as [|a l IH]; intros sh H Hl; cbn [fold_left]; cbv zeta.
  - split; auto. intros r c. split; auto. intros [K|(i & [] & _)]; auto.
  - destruct (inserts_spec (D * n) (block D a a) sh H) as [H1 H2].
    { intros [r c] Hp. apply block_in in Hp. destruct Hp as (k & m & Hk & _ & -> & _). apply pos_lt; auto. apply Hl. left. reflexivity. }
    destruct (IH _ H1 (fun i Hi => Hl i (or_intror Hi))) as [H3 H4]. split; auto.
    intros r c. rewrite H4, H2. split.
    + intros [[K|K]|(i & Hi & K)]; auto. { right. exists a. simpl. auto. } right. exists i. simpl. auto.
    + intros [K|(i & [<-|Hi] & K)]; auto. right. eauto.
Qed.

Lemma edge_blocks : forall (D n : nat) (f : nat * nat -> bool) (l : list (nat * nat)) (sh : shape), good_shape (D * n) sh -> (forall e, In e l -> fst e < n /\ snd e < n) ->
  let sh' := fold_left (fun sh (e : nat * nat) => if f e
    then fold_left shape_insert (block D (snd e) (fst e)) (fold_left shape_insert (block D (fst e) (snd e)) sh)
    else sh) l sh in
  good_shape (D * n) sh' /\
  forall r c, in_shape sh' r c <-> in_shape sh r c \/ exists e, In e l /\ f e = true /\
    (In (r, c) (block D (fst e) (snd e)) \/ In (r, c) (block D (snd e) (fst e))).
Proof.
  intros D n f l. induction l as [|e l IH]; intros sh H Hl; cbn [fold_left]; cbv zeta.
  - split; auto. intros r c. split; auto. intros [K|(i & [] & _)]; auto.
  - destruct (Hl e (or_introl eq_refl)) as [L1 L2].
    destruct (f e) eqn:Ef.
    + destruct (inserts_spec (D * n) (block D (fst e) (snd e)) sh H) as [H1 H2].
      { intros [r c] Hp. apply block_in in Hp. destruct Hp as (k & m & Hk & _ & -> & _). apply pos_lt; auto. }
      destruct (inserts_spec (D * n) (block D (snd e) (fst e)) _ H1) as [H3 H4].
      { intros [r c] Hp. apply block_in in Hp. destruct Hp as (k & m & Hk & _ & -> & _). apply pos_lt; auto. }
      destruct (IH _ H3 (fun i Hi => Hl i (or_intror Hi))) as [H5 H6]. split; auto.
      intros r c. rewrite H6, H4, H2. split.
      * intros [[[K|K]|K]|(i & Hi & K)]; auto; right; [exists e|exists e|exists i]; simpl; tauto.
      * intros [K|(i & [<-|Hi] & K)]; auto. { tauto. } right. eauto.
    + destruct (IH _ H (fun i Hi => Hl i (or_intror Hi))) as [H5 H6]. split; auto.
      intros r c. rewrite H6. split.
      * intros [K|(i & Hi & K)]; auto. right. exists i. simpl. auto.
      * intros [K|(i & [<-|Hi] & K & K')]; auto. { congruence. } right. eauto.
Qed.

Lemma build_shape_spec : forall D n (edges : list (nat * nat)) f, (forall e, In e edges -> fst e < n /\ snd e < n) ->
  good_shape (D * n) (build_shape D n edges f) /\
  forall r c, in_shape (build_shape D n edges f) r c <->
    exists i k j l, k < D /\ l < D /\ r = D * i + k /\ c = D * j + l /\
      ((i = j /\ i < n) \/ exists e, In e edges /\ f e = true /\ (e = (i, j) \/ e = (j, i))).
Proof.
  intros D n edges f He. unfold build_shape.
  assert (H0 : good_shape (D * n) (repeat [] (D * n))).
  { split. { apply repeat_length. } apply Forall_forall. intros x Hx. apply repeat_spec in Hx. subst. constructor. }
  assert (E0 : forall r c, ~ in_shape (repeat [] (D * n)) r c).
  { intros r c (row & E & H). apply nth_error_In, repeat_spec in E. subst. contradiction. }
  destruct (diag_blocks D n (seq 0 n) _ H0) as [H1 H2]. { intros i Hi. apply in_seq in Hi. lia. }
  destruct (edge_blocks D n f edges _ H1 He) as [H3 H4]. split; auto.
  intros r c. rewrite H4, H2. split.
  - intros [[K|(i & Hi & K)]|(e & Hi & Hf & [K|K])].
    + destruct (E0 _ _ K).
    + apply block_in in K. destruct K as (k & l & Hk & Hl & -> & ->). apply in_seq in Hi. exists i, k, i, l. repeat split; auto.
      left. split; auto. lia.
    + apply block_in in K. destruct K as (k & l & Hk & Hl & -> & ->). exists (fst e), k, (snd e), l. repeat split; auto.
      right. exists e. destruct e; auto.
    + apply block_in in K. destruct K as (k & l & Hk & Hl & -> & ->). exists (snd e), k, (fst e), l. repeat split; auto.
      right. exists e. destruct e; auto.
  - intros (i & k & j & l & Hk & Hl & -> & -> & [[<- Hi]|(e & Hi & Hf & [-> | ->])]).
    + left. right. exists i. split. { apply in_seq. lia. } apply block_in. exists k, l. auto.
    + right. exists (i, j). split; auto. split; auto. left. apply block_in. exists k, l. auto.
    + right. exists (j, i). split; auto. split; auto. right. apply block_in. exists k, l. auto.
Qed.

(** ** calls *)
Lemma mat_calls_in : forall {V} D (e : elem V) r c v, In (r, c, v) (mat_calls D e) ->
  exists ie je di dj, ie < e_N e /\ je < e_N e /\ di < D /\ dj < D /\
    r = D * e_nod e ie + di /\ c = D * e_nod e je + dj /\ v = e_Ke e (di * e_N e + ie) (dj * e_N e + je).
Proof.
  intros V D e r c v H. unfold mat_calls in H.
  apply in_flat_map in H. destruct H as (ie & H1 & H). apply in_flat_map in H. destruct H as (je & H2 & H).
  apply in_flat_map in H. destruct H as (di & H3 & H). apply in_map_iff in H. destruct H as (dj & E & H4).
  apply in_seq in H1, H2, H3, H4. inversion E; subst. exists ie, je, di, dj. repeat split; lia.
Qed.

Lemma nod_in : forall {V} (e : elem V) k, k < e_N e -> In (e_nod e k) (e_ind e).
Proof. intros V e k H. apply nth_In. exact H. Qed.

(** every pair of distinct nodes of an element is joined by an accepted edge *)
Definition edge_ok {V} (edges : list (nat * nat)) (f : nat * nat -> bool) (e : elem V) : Prop :=
  forall a b, In a (e_ind e) -> In b (e_ind e) -> a <> b ->
    exists p, In p edges /\ f p = true /\ (p = (a, b) \/ p = (b, a)).

Lemma calls_in_shape : forall {V} D n edges f (e : elem V) r c v,
  (forall e, In e edges -> fst e < n /\ snd e < n) -> edge_ok edges f e -> (forall a, In a (e_ind e) -> a < n) ->
  In (r, c, v) (mat_calls D e) -> in_shape (build_shape D n edges f) r c.
Proof.
  intros V D n edges f e r c v He Hok Hn H.
  apply mat_calls_in in H. destruct H as (ie & je & di & dj & H1 & H2 & H3 & H4 & -> & -> & _).
  apply build_shape_spec; auto. exists (e_nod e ie), di, (e_nod e je), dj. repeat split; auto.
  pose proof (nod_in e ie H1). pose proof (nod_in e je H2).
  destruct (Nat.eq_dec (e_nod e ie) (e_nod e je)) as [E|E]; [left|right]; auto.
Qed.

Definition emap {V W} (f : V -> W) (e : elem V) : elem W :=
  mkElem (e_ind e) (fun r c => f (e_Ke e r c)) (fun r => f (e_Le e r)).

Lemma map_flat_map : forall {X Y Z} (g : Y -> Z) (f : X -> list Y) l, map g (flat_map f l) = flat_map (fun x => map g (f x)) l.
Proof. induction l; simpl; auto. rewrite map_app, IHl. reflexivity. Qed.

Lemma mat_calls_emap : forall D (e : elem R), mat_calls D (emap (fun x => Fin x : num XA) e) = map fcall (mat_calls D e).
Proof.
  intros D e. unfold mat_calls. rewrite map_flat_map. apply flat_map_ext. intros ie. rewrite map_flat_map.
  apply flat_map_ext. intros je. rewrite map_flat_map. apply flat_map_ext. intros di. rewrite map_map.
  apply map_ext. intros dj. reflexivity.
Qed.

Lemma vect_calls_emap : forall D (e : elem R), vect_calls D (emap (fun x => Fin x : num XA) e) =
  map (fun c => (fst c, Fin (snd c) : num XA)) (vect_calls D e).
Proof.
  intros D e. unfold vect_calls. rewrite map_flat_map. apply flat_map_ext. intros ie. rewrite map_map.
  apply map_ext. intros dj. reflexivity.
Qed.

Local Open Scope R_scope.

(** ** sums *)
Lemma added_app : forall i j l l', added i j (l ++ l') = added i j l + added i j l'.
Proof. intros. unfold added. rewrite map_app, lsum_app. reflexivity. Qed.

Lemma added_flat_map : forall {X} i j (f : X -> list (nat * nat * R)) l,
  added i j (flat_map f l) = lsum (map (fun x => added i j (f x)) l).
Proof. induction l; simpl; auto. rewrite added_app, IHl. reflexivity. Qed.

Lemma lsum_seq : forall n f, lsum (map f (seq 0 n)) = sumn n f.
Proof. intros. rewrite sumn_lsum. reflexivity. Qed.

(** what an element adds at row (node i, component di) and column (node j, component dj) *)
Definition coupling (e : elem R) (i di j dj : nat) : R :=
  sumn (e_N e) (fun ie => sumn (e_N e) (fun je =>
    if (e_nod e ie =? i)%nat && (e_nod e je =? j)%nat then e_Ke e (di * e_N e + ie)%nat (dj * e_N e + je)%nat else 0)).

Lemma added_calls : forall D (e : elem R) i di j dj, (di < D)%nat -> (dj < D)%nat ->
  added (D * i + di) (D * j + dj) (mat_calls D e) = coupling e i di j dj.
Proof.
  intros D e i di j dj Hi Hj. unfold mat_calls, coupling. rewrite added_flat_map, lsum_seq.
  apply sumn_ext. intros ie _. rewrite added_flat_map, lsum_seq. apply sumn_ext. intros je _.
  rewrite added_flat_map, lsum_seq.
  rewrite (sumn_ext D _ (fun d => if (d =? di)%nat then
    (if (e_nod e ie =? i)%nat && (e_nod e je =? j)%nat then e_Ke e (di * e_N e + ie)%nat (dj * e_N e + je)%nat else 0) else 0)).
  { rewrite sumn_delta by exact Hi. reflexivity. }
  intros d Hd. unfold added. rewrite map_map, lsum_seq.
  rewrite (sumn_ext D _ (fun d' => if (d' =? dj)%nat then (if (d =? di)%nat then
    (if (e_nod e ie =? i)%nat && (e_nod e je =? j)%nat then e_Ke e (d * e_N e + ie)%nat (d' * e_N e + je)%nat else 0) else 0) else 0)).
  { rewrite sumn_delta by exact Hj. destruct (d =? di)%nat eqn:E; auto. apply Nat.eqb_eq in E. subst. reflexivity. }
  intros d' Hd'.
  destruct (D * e_nod e ie + d =? D * i + di)%nat eqn:E1; destruct (D * e_nod e je + d' =? D * j + dj)%nat eqn:E2; cbn [andb].
  - apply Nat.eqb_eq in E1, E2. apply pos_inj in E1, E2; auto. destruct E1 as [-> ->], E2 as [-> ->]. rewrite !Nat.eqb_refl. reflexivity.
  - apply Nat.eqb_neq in E2. destruct (d' =? dj)%nat eqn:E3; auto. destruct (d =? di)%nat eqn:E4; auto.
    apply Nat.eqb_eq in E3. subst. destruct (e_nod e je =? j)%nat eqn:E5. { apply Nat.eqb_eq in E5. subst. congruence. }
    rewrite andb_false_r. reflexivity.
  - apply Nat.eqb_neq in E1. destruct (d' =? dj)%nat eqn:E3; auto. destruct (d =? di)%nat eqn:E4; auto.
    apply Nat.eqb_eq in E4. subst. destruct (e_nod e ie =? i)%nat eqn:E5. { apply Nat.eqb_eq in E5. subst. congruence. }
    reflexivity.
  - apply Nat.eqb_neq in E1. destruct (d' =? dj)%nat eqn:E3; auto. destruct (d =? di)%nat eqn:E4; auto.
    apply Nat.eqb_eq in E4. subst. destruct (e_nod e ie =? i)%nat eqn:E5. { apply Nat.eqb_eq in E5. subst. congruence. }
    reflexivity.
Qed.

(** ** the right-hand side *)
Definition vadded (k : nat) (cs : list (nat * R)) : R :=
  lsum (map (fun c => if (fst c =? k)%nat then snd c else 0) cs).

Definition loading (e : elem R) (i di : nat) : R :=
  sumn (e_N e) (fun ie => if (e_nod e ie =? i)%nat then e_Le e (di * e_N e + ie)%nat else 0).

Lemma vadded_calls : forall D (e : elem R) i di, (di < D)%nat -> vadded (D * i + di) (vect_calls D e) = loading e i di.
Proof.
  intros D e i di Hi. unfold vect_calls, loading, vadded. rewrite map_flat_map.
  assert (E : forall (g : nat -> list R) l, lsum (flat_map g l) = lsum (map (fun x => lsum (g x)) l)).
  { intros g. induction l; simpl; auto. rewrite lsum_app, IHl. reflexivity. }
  rewrite E, lsum_seq. apply sumn_ext. intros ie _. rewrite map_map, lsum_seq. cbn [fst snd].
  rewrite (sumn_ext D _ (fun d => if (d =? di)%nat then (if (e_nod e ie =? i)%nat then e_Le e (di * e_N e + ie)%nat else 0) else 0)).
  { rewrite sumn_delta by exact Hi. reflexivity. }
  intros d Hd. destruct (D * e_nod e ie + d =? D * i + di)%nat eqn:E1.
  - apply Nat.eqb_eq in E1. apply pos_inj in E1; auto. destruct E1 as [-> ->]. rewrite !Nat.eqb_refl. reflexivity.
  - apply Nat.eqb_neq in E1. destruct (d =? di)%nat eqn:E4; auto.
    apply Nat.eqb_eq in E4. subst. destruct (e_nod e ie =? i)%nat eqn:E5; auto. apply Nat.eqb_eq in E5. subst. congruence.
Qed.

Lemma vect_fold : forall (cs : list (nat * R)) (xs : list R),
  (forall c, In c cs -> (fst c < length xs)%nat) ->
  exists ys, length ys = length xs /\
    fold_left vect_add (map (fun c => (fst c, Fin (snd c) : num XA)) cs) (map (fun x => Fin x : num XA) xs) =
      map (fun x => Fin x : num XA) ys /\
    forall k, (k < length xs)%nat -> nth k ys 0 = nth k xs 0 + vadded k cs.
Proof.
  induction cs as [|[p v] cs IH]; intros xs H; cbn [map fold_left].
  - exists xs. split; auto. split; auto. intros. unfold vadded. simpl. ring.
  - assert (Hp : (p < length xs)%nat) by (apply (H (p, v)); left; reflexivity).
    destruct (IH (set_nth p (nth p xs 0 + v) xs)) as (ys & H1 & H2 & H3).
    { intros c Hc. rewrite set_nth_length. apply H. right. exact Hc. }
    rewrite set_nth_length in *. exists ys. split; auto. split.
    + rewrite <- H2. f_equal. unfold vect_add. cbn [fst snd].
      assert (E : nth p (map (fun x => Fin x : num XA) xs) n0 = Fin (nth p xs 0)).
      { rewrite (nth_indep _ n0 (Fin 0 : num XA)) by (rewrite map_length; exact Hp). rewrite (map_nth (fun x => Fin x : num XA)). reflexivity. }
      rewrite E. change (nadd (a := XA) (Fin (nth p xs 0)) (Fin v)) with (Fin (nth p xs 0 + v) : num XA).
      generalize (nth p xs 0 + v). clear. revert p. induction xs as [|x xs IH]; destruct p; intros; cbn [set_nth map]; auto.
      f_equal. apply IH.
    + intros k Hk. rewrite H3 by exact Hk. rewrite set_nth_nth by exact Hp. unfold vadded. cbn [map lsum fst snd].
      destruct (p =? k)%nat eqn:E; try ring. apply Nat.eqb_eq in E. subst. ring.
Qed.

Lemma vect_calls_bound : forall {V} D n (e : elem V) c, (forall a, In a (e_ind e) -> (a < n)%nat) -> In c (vect_calls D e) -> (fst c < D * n)%nat.
Proof.
  intros V D n e c Hn H. unfold vect_calls in H. apply in_flat_map in H. destruct H as (ie & H1 & H).
  apply in_map_iff in H. destruct H as (di & <- & H2). apply in_seq in H1, H2. cbn [fst]. apply pos_lt; [|lia].
  apply Hn. apply nod_in. lia.
Qed.

Lemma buildVect_fold : forall D n (es : list (elem R)) (xs : list R), length xs = (D * n)%nat ->
  (forall e a, In e es -> In a (e_ind e) -> (a < n)%nat) ->
  exists ys, length ys = (D * n)%nat /\
    fold_left (buildVect D) (map (emap (fun x => Fin x : num XA)) es) (map (fun x => Fin x : num XA) xs) = map (fun x => Fin x : num XA) ys /\
    forall i di, (i < n)%nat -> (di < D)%nat ->
      nth (D * i + di) ys 0 = nth (D * i + di) xs 0 + lsum (map (fun e => loading e i di) es).
Proof.
  intros D n. induction es as [|e es IH]; intros xs Hl Hn; cbn [map fold_left].
  - exists xs. split; auto. split; auto. intros. cbn [lsum]. ring.
  - unfold buildVect at 2. rewrite vect_calls_emap.
    destruct (vect_fold (vect_calls D e) xs) as (ys & H1 & H2 & H3).
    { intros c Hc. rewrite Hl. eapply vect_calls_bound; [|exact Hc]. intros a Ha. apply (Hn e a); [left; reflexivity|exact Ha]. }
    rewrite H2. destruct (IH ys) as (zs & H4 & H5 & H6). { lia. } { intros; eapply Hn; [right|]; eauto. }
    exists zs. split; auto. split; auto. intros i di Hi Hd. rewrite H6 by auto.
    rewrite H3 by (rewrite Hl; apply pos_lt; auto). rewrite vadded_calls by exact Hd. cbn [lsum]. ring.
Qed.

(** ** the loops of the end of the solve *)
Lemma update_from_nth : forall {A : arith} {N} (upd : num A -> num A -> N -> N) mag X nodes k i,
  nth_error (update_from upd mag X k nodes) i =
  match nth_error nodes i with
  | Some nd => Some (if nth (k + i) mag false then upd (nth (2 * (k + i)) X n0) (nth (2 * (k + i) + 1) X n0) nd else nd)
  | None => None
  end.
Proof.
  intros A N upd mag X. induction nodes as [|nd l IH]; intros k i; cbn [update_from]. { destruct i; reflexivity. }
  destruct i as [|i]; cbn [nth_error]. { rewrite Nat.add_0_r. reflexivity. }
  rewrite IH. replace (S k + i)%nat with (k + S i)%nat by lia. reflexivity.
Qed.

Lemma lvd_in : forall mag k, In k (lvd_of mag) <-> exists i, (i < length mag)%nat /\ nth i mag false = false /\ (k = 2 * i \/ k = 2 * i + 1)%nat.
Proof.
  intros mag k. unfold lvd_of. rewrite in_flat_map. split.
  - intros (i & Hi & H). apply in_seq in Hi. destruct (nth i mag false) eqn:E; [contradiction|].
    exists i. split; [lia|]. split; auto. simpl in H. lia.
  - intros (i & Hi & E & H). exists i. split. { apply in_seq. lia. } rewrite E. simpl. lia.
Qed.

Lemma set_diag_ok : forall {A : arith} l (K : matrix A), wf K -> (forall i, In i l -> in_shape (shape_of K) i i) ->
  exists K', set_diag K l = Some K' /\ wf K' /\ shape_of K' = shape_of K /\
    (forall i j, mget K' i j = if (if in_dec Nat.eq_dec i l then true else false) && (i =? j)%nat then Some n1 else mget K i j).
Proof.
  intros A. induction l as [|a l IH]; intros K Hw Hs; cbn [set_diag].
  - exists K. split; auto.
  - destruct (update_ok K a a (fun _ => n1) Hw (Hs a (or_introl eq_refl))) as (K1 & v & E & W & S & _ & G1 & G2).
    unfold mset. rewrite E. destruct (IH K1 W) as (K' & E' & W' & S' & G').
    { intros i Hi. rewrite S. apply Hs. right. exact Hi. }
    exists K'. split; auto. split; auto. split; [congruence|]. intros i j. rewrite G'.
    destruct (in_dec Nat.eq_dec i l) as [Hi|Hi]; destruct (in_dec Nat.eq_dec i (a :: l)) as [Hi'|Hi']; cbn [andb].
    + destruct (i =? j)%nat eqn:Ej; auto. apply Nat.eqb_neq in Ej. apply G2. congruence.
    + exfalso. apply Hi'. right. exact Hi.
    + destruct Hi' as [->|Hi']; [|contradiction]. destruct (i =? j)%nat eqn:Ej.
      * apply Nat.eqb_eq in Ej. subst. exact G1.
      * apply Nat.eqb_neq in Ej. apply G2. congruence.
    + destruct (Nat.eq_dec a i) as [->|Hn]. { exfalso. apply Hi'. left. reflexivity. } apply G2. congruence.
Qed.

Lemma done_b_iff : forall {A : arith} (g : gstate A), done_b g = true <-> all_done g.
Proof.
  intros A g. unfold done_b, all_done. rewrite forallb_forall, Forall_forall. split; intros H th Hth; specialize (H th Hth).
  - destruct (prog th); auto. discriminate.
  - rewrite H. reflexivity.
Qed.

Lemma run_shape : forall {A : arith} (m : matrix A) progs sched,
  wf m -> (forall p i j v, In p progs -> In (i, j, v) p -> in_shape (shape_of m) i j) ->
  wf (g_mat (crun (start m progs) sched)) /\ shape_of (g_mat (crun (start m progs) sched)) = shape_of m.
Proof.
  intros A m progs sched Hw Hc.
  destruct (inv_run m progs sched (start m progs) [] (inv_start m progs Hw Hc)) as [log []]. auto.
Qed.
