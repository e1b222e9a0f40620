(** * Lemmas about the bookkeeping of the demagnetizing potential *)
From Coq Require Import Reals List Arith Bool Permutation Lia Lra.
From Verif Require Import Vec Sums SparseModel SparseProof StdModel MeshModel ElemModel ElemProof AvgModel EnergyModel DemagModel.
Import ListNotations.
Local Open Scope R_scope.

Fixpoint numbered {X} (k : nat) (l : list X) : list (nat * X) :=
  match l with [] => [] | x :: l' => (k, x) :: numbered (S k) l' end.

Lemma numbered_app : forall {X} (l l' : list X) k, numbered k (l ++ l') = numbered k l ++ numbered (k + length l) l'.
Proof.
  induction l as [|x l IH]; intros l' k; cbn [app numbered length].
  - rewrite Nat.add_0_r. reflexivity.
  - rewrite IH. rewrite <- Nat.add_succ_comm. reflexivity.
Qed.

Lemma numbered_map : forall {X Y} (f : X -> Y) l k, numbered k (map f l) = map (fun ix => (fst ix, f (snd ix))) (numbered k l).
Proof. induction l as [|x l IH]; intros k; cbn [map numbered fst snd]; auto. rewrite IH. reflexivity. Qed.

Lemma numbered_nth : forall {X} (l : list X) k i x, In (i, x) (numbered k l) -> (k <= i < k + length l)%nat /\ nth_error l (i - k) = Some x.
Proof.
  induction l as [|y l IH]; intros k i x H; cbn [numbered In length] in *; [contradiction|]. destruct H as [E|H].
  - injection E as -> ->. split; [lia|]. rewrite Nat.sub_diag. reflexivity.
  - apply IH in H. destruct H as [H1 H2]. split; [lia|]. replace (i - k)%nat with (S (i - S k)) by lia. exact H2.
Qed.

(** ** the particles of the sources *)
Definition points (NPI : nat) (gauss : nat -> nat -> vec) (charge : nat -> nat -> R) (l : list nat) : list (vec * R) :=
  flat_map (fun e => map (fun j => (gauss e j, charge e j)) (seq 0 NPI)) l.

Lemma points_length : forall NPI gauss charge l, length (points NPI gauss charge l) = (length l * NPI)%nat.
Proof.
  intros. unfold points. induction l as [|e l IH]; auto. cbn [flat_map length]. rewrite app_length, map_length, seq_length, IH. lia.
Qed.

Definition particle_of (norm : R) (c : vec) (ix : nat * (vec * R)) : particle := mkParticle (fst ix) (scaled norm c (fst (snd ix))).

Lemma insert_spec : forall norm c NPI gauss charge l acc idx,
  insertCharges norm c NPI gauss l (acc, idx) =
  (acc ++ map (particle_of norm c) (numbered idx (points NPI gauss charge l)), (idx + length l * NPI)%nat).
Proof.
  intros norm c NPI gauss charge. unfold insertCharges.
  assert (B : forall m s e acc idx, fold_left (fun st j => (fst st ++ [mkParticle (snd st) (scaled norm c (gauss e j))], S (snd st))) (seq s m) (acc, idx) =
    (acc ++ map (particle_of norm c) (numbered idx (map (fun j => (gauss e j, charge e j)) (seq s m))), (idx + m)%nat)).
  { induction m as [|m IH]; intros s e acc idx; cbn [seq fold_left map numbered].
    - rewrite app_nil_r, Nat.add_0_r. reflexivity.
    - cbn [fst snd]. rewrite IH, <- app_assoc. cbn [app]. rewrite <- Nat.add_succ_comm. reflexivity. }
  induction l as [|e l IH]; intros acc idx; cbn [fold_left length].
  - cbn [points flat_map numbered map]. rewrite app_nil_r. f_equal. lia.
  - rewrite B, IH. unfold points. cbn [flat_map]. rewrite numbered_app, map_app, app_assoc, map_length, seq_length. f_equal. lia.
Qed.

Lemma sources_spec : forall p norm c tets tris nodes magTet magTri tc fc,
  sources p norm c tets tris nodes magTet magTri =
  map (particle_of norm c) (numbered nodes (points NPI (tet_gauss p tets) tc magTet ++ points tNPI (tri_gauss p tris) fc magTri)).
Proof.
  intros. unfold sources. rewrite (insert_spec norm c NPI _ tc), (insert_spec norm c tNPI _ fc). cbn [fst].
  rewrite numbered_app, map_app, points_length. reflexivity.
Qed.

(** ** the charges *)
Lemma set_nth_at : forall {X} (a : list X) x y b, set_nth (length a) x (a ++ y :: b) = a ++ x :: b.
Proof. induction a as [|z a IH]; intros; cbn [length app set_nth]; auto. rewrite IH. reflexivity. Qed.

Lemma fill_block : forall (f : nat -> R) m s n a b, length a = (n + s)%nat -> (m <= length b)%nat ->
  fold_left (fun d i => set_nth (n + i) (f i) d) (seq s m) (a ++ b) = a ++ map f (seq s m) ++ skipn m b.
Proof.
  intros f. induction m as [|m IH]; intros s n a b Ha Hb; cbn [seq fold_left map skipn app]; auto.
  destruct b as [|y b]; cbn [length] in Hb; [lia|]. rewrite <- Ha, set_nth_at.
  replace (a ++ f s :: b) with ((a ++ [f s]) ++ b) by (rewrite <- app_assoc; reflexivity).
  rewrite IH; [|rewrite app_length; cbn [length]; lia|lia]. rewrite <- app_assoc. reflexivity.
Qed.

Lemma skipn_skipn_add : forall {X} n m (l : list X), skipn n (skipn m l) = skipn (m + n) l.
Proof.
  intros X n m. induction m as [|m IH]; intros l; auto. destruct l as [|x l]; cbn [skipn Nat.add]; auto. apply skipn_nil.
Qed.

Lemma fill_spec : forall NPI gauss charge l a b, (length l * NPI <= length b)%nat ->
  fold_left (fill_src NPI charge) l (a ++ b, length a) =
  (a ++ map snd (points NPI gauss charge l) ++ skipn (length l * NPI) b, (length a + length l * NPI)%nat).
Proof.
  intros NPI gauss charge. induction l as [|e l IH]; intros a b H; cbn [fold_left length].
  - rewrite Nat.mul_0_l, Nat.add_0_r. reflexivity.
  - cbn [length] in H. unfold fill_src at 2. cbn [fst snd].
    rewrite (fill_block (charge e) NPI 0 (length a) a b) by lia.
    rewrite app_assoc. set (a' := a ++ map (charge e) (seq 0 NPI)).
    assert (La : length a' = (length a + NPI)%nat) by (unfold a'; rewrite app_length, map_length, seq_length; reflexivity).
    rewrite <- La, IH by (rewrite skipn_length; lia). f_equal; [|lia].
    unfold points. cbn [flat_map]. rewrite map_app, map_map. cbn [snd]. unfold a'. rewrite <- !app_assoc. rewrite skipn_skipn_add. reflexivity.
Qed.

Lemma charges_spec : forall p tets tris Ms dMs nodes u magTet magTri,
  fst (calc_charges p tets tris Ms dMs nodes u magTet magTri) =
  map snd (points NPI (tet_gauss p tets) (tet_charge p tets Ms u) magTet ++ points tNPI (tri_gauss p tris) (tri_charge p tris dMs u) magTri) /\
  snd (calc_charges p tets tris Ms dMs nodes u magTet magTri) = fold_left (correction p tris dMs u) magTri (repeat 0 nodes).
Proof.
  intros. unfold calc_charges.
  pose proof (fill_spec NPI (tet_gauss p tets) (tet_charge p tets Ms u) magTet [] (repeat 0 (length magTri * tNPI + length magTet * NPI))) as E.
  cbn [app length] in E. rewrite E by (rewrite repeat_length; lia). clear E.
  set (a := map snd (points NPI (tet_gauss p tets) (tet_charge p tets Ms u) magTet)).
  assert (La : length a = (0 + length magTet * NPI)%nat) by (unfold a; rewrite map_length, points_length; reflexivity).
  rewrite <- La. rewrite (fill_spec tNPI (tri_gauss p tris)).
  - cbn [fst snd]. split; auto. rewrite map_app. fold a. f_equal.
    rewrite skipn_all2, app_nil_r; auto. rewrite skipn_length, repeat_length. lia.
  - rewrite skipn_length, repeat_length. lia.
Qed.

(** ** the values given to the particles *)
Definition value_at (norm : R) (c : vec) (xq : vec * R) : vec * R := (scaled norm c (fst xq), snd xq).

Lemma physical_some : forall nodes srcDen l, (forall s, In s l -> (nodes <= pt_index s < nodes + length srcDen)%nat) ->
  physical_values nodes srcDen l = Some (map (fun s => (pt_pos s, nth (pt_index s - nodes) srcDen 0)) l).
Proof.
  intros nodes srcDen. induction l as [|s l IH]; intros H; cbn [physical_values map]; auto.
  pose proof (H s (or_introl eq_refl)) as Hs. replace (pt_index s <? nodes)%nat with false by (symmetry; apply Nat.ltb_ge; lia).
  rewrite IH by (intros; apply H; right; auto).
  destruct (nth_error srcDen (pt_index s - nodes)) as [v|] eqn:E.
  - rewrite (nth_error_nth srcDen _ 0 E). reflexivity.
  - apply nth_error_None in E. lia.
Qed.

Lemma values_in_order : forall norm c L nodes,
  map (fun s => (pt_pos s, nth (pt_index s - nodes) (map snd L) 0)) (map (particle_of norm c) (numbered nodes L)) = map (value_at norm c) L.
Proof.
  intros norm c L nodes. rewrite map_map.
  assert (G : forall L2 L1, map (fun ix => (pt_pos (particle_of norm c ix), nth (pt_index (particle_of norm c ix) - nodes) (map snd (L1 ++ L2)) 0)) (numbered (nodes + length L1) L2) =
    map (value_at norm c) L2).
  { induction L2 as [|x L2 IH]; intros L1; cbn [numbered map]; auto. f_equal.
    - unfold particle_of, value_at. cbn [pt_pos pt_index fst snd]. f_equal.
      replace (nodes + length L1 - nodes)%nat with (length (map (@snd vec R) L1)) by (rewrite map_length; lia).
      rewrite map_app, app_nth2 by lia. rewrite Nat.sub_diag. reflexivity.
    - specialize (IH (L1 ++ [x])). rewrite <- app_assoc in IH. cbn [app] in IH. rewrite app_length in IH. cbn [length] in IH.
      replace (S (nodes + length L1)) with (nodes + (length L1 + 1))%nat by lia. exact IH. }
  specialize (G L []). cbn [app length] in G. rewrite Nat.add_0_r in G. exact G.
Qed.

(** ** the corrections *)
Section corr.
Variables (p : nat -> vec) (tris : list tri) (dMs : list R) (u : nat -> vec).

Definition corr_at (k i : nat) : R :=
  vertex_potential p tris dMs u k i -
  sumn tNPI (fun j => tri_charge p tris dMs u k j / vnorm (vsub (p (nth i (tri_nodes (the_tri tris k)) 0%nat)) (tri_gauss p tris k j))).

Lemma nth_set : forall i a (x : R) l, (i < length l)%nat -> nth a (set_nth i x l) 0 = if Nat.eqb a i then x else nth a l 0.
Proof.
  intros i a x l H. destruct (Nat.eqb_spec a i) as [->|N].
  - apply nth_error_nth. apply set_nth_same. exact H.
  - destruct (nth_error l a) as [y|] eqn:E.
    + rewrite (nth_error_nth l a 0 E). apply nth_error_nth. rewrite set_nth_other by auto. exact E.
    + rewrite !nth_overflow; auto. { apply nth_error_None; exact E. } rewrite set_nth_length. apply nth_error_None. exact E.
Qed.

Lemma minus_fold : forall (f : nat -> R) i l a s m, (i < length l)%nat ->
  let l' := fold_left (fun corr j => set_nth i (nth i corr 0 - f j) corr) (seq s m) l in
  length l' = length l /\ nth a l' 0 = if Nat.eqb a i then nth i l 0 - lsum (map f (seq s m)) else nth a l 0.
Proof.
  intros f i l a s m. revert l s. induction m as [|m IH]; intros l s H; cbn [seq fold_left map lsum].
  - split; auto. destruct (Nat.eqb_spec a i) as [->|]; auto. ring.
  - cbv zeta in IH. destruct (IH (set_nth i (nth i l 0 - f s) l) (S s)) as [L E]. { rewrite set_nth_length. exact H. }
    rewrite L, E, set_nth_length, !nth_set by exact H. rewrite Nat.eqb_refl. split; auto. destruct (a =? i)%nat; auto. ring.
Qed.

Lemma correction_spec : forall k l a, (forall i, In i (tri_nodes (the_tri tris k)) -> (i < length l)%nat) ->
  length (correction p tris dMs u l k) = length l /\
  nth a (correction p tris dMs u l k) 0 =
  nth a l 0 + lsum (map (fun i => if Nat.eqb a (nth i (tri_nodes (the_tri tris k)) 0%nat) then corr_at k i else 0) (seq 0 3)).
Proof.
  intros k l a H. unfold correction.
  assert (G : forall is l, (forall i, In i is -> (i < 3)%nat) -> (forall i, In i (tri_nodes (the_tri tris k)) -> (i < length l)%nat) ->
    let l' := fold_left (fun corr i =>
      let i_ := nth i (tri_nodes (the_tri tris k)) 0%nat in
      let corr := fold_left (fun corr j =>
        set_nth i_ (nth i_ corr 0 - tri_charge p tris dMs u k j / vnorm (vsub (p i_) (tri_gauss p tris k j))) corr) (seq 0 tNPI) corr in
      set_nth i_ (nth i_ corr 0 + vertex_potential p tris dMs u k i) corr) is l in
    length l' = length l /\ nth a l' 0 = nth a l 0 + lsum (map (fun i => if Nat.eqb a (nth i (tri_nodes (the_tri tris k)) 0%nat) then corr_at k i else 0) is)).
  { induction is as [|i is IH]; intros l0 Hi Hl; cbn [fold_left map lsum]. { split; auto. ring. }
    cbv zeta. set (i_ := nth i (tri_nodes (the_tri tris k)) 0%nat).
    assert (Hi_ : (i_ < length l0)%nat). { apply Hl. unfold i_. apply nth_In. unfold tri_nodes. cbn [length]. apply Hi. left. reflexivity. }
    set (f j := tri_charge p tris dMs u k j / vnorm (vsub (p i_) (tri_gauss p tris k j))).
    destruct (minus_fold f i_ l0 a 0 tNPI Hi_) as [L1 E1]. destruct (minus_fold f i_ l0 i_ 0 tNPI Hi_) as [_ E2].
    unfold f in L1, E1, E2. cbv zeta beta in L1, E1, E2.
    set (l1 := fold_left _ (seq 0 tNPI) l0) in *.
    cbv zeta in IH. destruct (IH (set_nth i_ (nth i_ l1 0 + vertex_potential p tris dMs u k i) l1)) as [L2 E3].
    - intros; apply Hi; right; auto.
    - intros j Hj. rewrite set_nth_length, L1. auto.
    - rewrite L2, E3, set_nth_length, L1. split; auto. rewrite nth_set by lia. rewrite E1, E2, Nat.eqb_refl.
      unfold corr_at. fold i_. rewrite sumn_lsum. destruct (a =? i_)%nat eqn:Ea; [|ring].
      apply Nat.eqb_eq in Ea. rewrite Ea. ring. }
  apply G; auto. intros i Hi. apply in_seq in Hi. lia.
Qed.

Lemma corrections_spec : forall ks l a, (forall k i, In k ks -> In i (tri_nodes (the_tri tris k)) -> (i < length l)%nat) ->
  nth a (fold_left (correction p tris dMs u) ks l) 0 =
  nth a l 0 + lsum (map (fun k => lsum (map (fun i => if Nat.eqb a (nth i (tri_nodes (the_tri tris k)) 0%nat) then corr_at k i else 0) (seq 0 3))) ks).
Proof.
  induction ks as [|k ks IH]; intros l a H; cbn [fold_left map lsum]; [ring|].
  destruct (correction_spec k l a) as [L E]. { intros i Hi. apply (H k); auto. left. reflexivity. }
  rewrite IH.
  - rewrite E. ring.
  - intros k' i Hk' Hi. rewrite L. apply (H k'); auto. right. exact Hk'.
Qed.
End corr.

(** ** the potentials written *)
Lemma writes_spec : forall (val : particle -> R) ts phi a, NoDup (map pt_index ts) -> (forall t, In t ts -> (pt_index t < length phi)%nat) ->
  let phi' := fold_left (fun phi t => set_nth (pt_index t) (val t) phi) ts phi in
  length phi' = length phi /\
  (forall t, In t ts -> pt_index t = a -> nth a phi' 0 = val t) /\
  ((forall t, In t ts -> pt_index t <> a) -> nth a phi' 0 = nth a phi 0).
Proof.
  intros val. induction ts as [|t ts IH]; intros phi a Hn Hl; cbn [fold_left map].
  - split; auto. split; auto. intros t [].
  - cbn [map] in Hn. inversion Hn as [|x l Hx Hn']; subst.
    cbv zeta in IH. destruct (IH (set_nth (pt_index t) (val t) phi) a Hn') as (L & E1 & E2).
    { intros t' Ht'. rewrite set_nth_length. apply Hl. right. exact Ht'. }
    rewrite set_nth_length in L. split; auto.
    assert (Ht : (pt_index t < length phi)%nat) by (apply Hl; left; reflexivity).
    split.
    + intros t' [<-|Ht'] E.
      * rewrite E2. { rewrite nth_set by exact Ht. rewrite <- E, Nat.eqb_refl. reflexivity. }
        intros t' Ht' E'. apply Hx. rewrite E, <- E'. apply in_map. exact Ht'.
      * apply E1; auto.
    + intros N. rewrite E2 by (intros; apply N; right; auto). rewrite nth_set by exact Ht.
      destruct (Nat.eqb_spec a (pt_index t)) as [E|]; auto. exfalso. apply (N t); auto. left. reflexivity.
Qed.

Lemma targets_in : forall p norm c magNode t, In t (targets p norm c magNode) <->
  exists i, (i < length magNode)%nat /\ nth i magNode false = true /\ t = mkParticle i (scaled norm c (p i)).
Proof.
  intros p norm c magNode t. unfold targets. rewrite in_flat_map. split.
  - intros (i & Hi & H). apply in_seq in Hi. destruct (nth i magNode false) eqn:E; [|destruct H]. destruct H as [<-|[]].
    exists i. repeat split; auto. lia.
  - intros (i & Hi & E & ->). exists i. split; [apply in_seq; lia|]. rewrite E. left. reflexivity.
Qed.

Lemma targets_nodup : forall p norm c magNode, NoDup (map pt_index (targets p norm c magNode)).
Proof.
  intros p norm c magNode. unfold targets. generalize (seq_NoDup (length magNode) 0). generalize (seq 0 (length magNode)).
  induction l as [|i l IH]; intros H; cbn [flat_map map]; [constructor|]. inversion H as [|x l' Hx Hl]; subst.
  rewrite map_app. destruct (nth i magNode false); cbn [map app pt_index]; auto. constructor; auto.
  intros Hin. apply Hx. apply in_map_iff in Hin. destruct Hin as (t & E & Ht). apply in_flat_map in Ht. destruct Ht as (j & Hj & Ht).
  destruct (nth j magNode false); [|destruct Ht]. destruct Ht as [<-|[]]. cbn [pt_index] in E. subst. exact Hj.
Qed.
