(** * C54: recentering *)
From Coq Require Import Reals List Arith Bool ZArith Lra Lia.
From Flocq Require Import Core.
From Verif Require Import Vec MeshModel RecenterModel.
Import ListNotations.
Local Open Scope R_scope.

Definition dist2 (p q : vec) : R := dot (vsub p q) (vsub p q).
(** the contract of the kd-tree: the answer is a node, and no node is closer to the point *)
Definition nearest_ok (nodes : list rnode) (nearest : vec -> nat) : Prop :=
  forall q, (nearest q < length nodes)%nat /\
            forall n, In n nodes -> dist2 (rn_p (nth (nearest q) nodes dnode)) q <= dist2 (rn_p n) q.
Definition unit_norm (u : option vec) : Prop := exists w, u = Some w /\ dot w w = 1.

(** Below the threshold nothing changes *)
Theorem C54_below : forall c l nearest avg nodes thres dir,
  (Rabs (avg (dir_of_char dir)) < Rabs thres <-> recenter c l nearest avg nodes thres dir = Unchanged).
Proof.
  intros. unfold recenter. destruct (Rlt_bool_spec (Rabs (avg (dir_of_char dir))) (Rabs thres)) as [H|H].
  - tauto.
  - split; [lra|]. repeat match goal with |- context [match ?x with _ => _ end] => destruct x end; discriminate.
Qed.

(** Otherwise, on a mesh whose nodes are all magnetic: either both ends point the same way and the program stops, or
    every node keeps its place and its pending magnetization, gets the magnetization of a node and a zero velocity *)
Theorem C54_recenter_partial : forall c l nearest avg nodes thres dir,
  nearest_ok nodes nearest -> (forall n, In n nodes -> unit_norm (rn_u n)) ->
  Rabs thres <= Rabs (avg (dir_of_char dir)) ->
  recenter c l nearest avg nodes thres dir = NoWall \/
  exists nodes', recenter c l nearest avg nodes thres dir = Recentered nodes' /\ length nodes' = length nodes /\
    forall i, (i < length nodes)%nat ->
      let n := nth i nodes dnode in let n' := nth i nodes' dnode in
      rn_p n' = rn_p n /\ rn_u n' = rn_u n /\ rn_v n' = Some vzero /\ unit_norm (rn_u0 n') /\
      exists j, (j < length nodes)%nat /\ rn_u0 n' = rn_u (nth j nodes dnode).
Proof.
  intros c l nearest avg nodes thres dir HN HU HT. unfold recenter.
  rewrite Rlt_bool_false by assumption.
  assert (K : forall q, exists w, node_u nodes (nearest q) = Some w /\ dot w w = 1).
  { intros q. destruct (HN q) as [Hq _]. apply (HU (nth (nearest q) nodes dnode)). apply nth_In, Hq. }
  destruct (K (left_pt c l (dir_of_char dir))) as (uL & EL & _). destruct (K (right_pt c l (dir_of_char dir))) as (uR & ER & _).
  rewrite EL, ER. destruct (Rlt_bool _ _); [left; reflexivity|right].
  eexists. split; [reflexivity|]. split; [apply map_length|]. intros i Hi. cbv zeta.
  set (D := avg _ * _ * _ * _).
  rewrite (nth_indep _ dnode (recenter_node c l nearest nodes (dir_of_char dir) D dnode)) by (rewrite map_length; exact Hi).
  rewrite map_nth. cbn [recenter_node rn_p rn_u rn_v rn_u0].
  destruct (K (shifted c l (dir_of_char dir) D (rn_p (nth i nodes dnode)))) as (w & Ew & Hw).
  repeat split; auto. { exists w; auto. }
  eexists. split; [apply (HN (shifted c l (dir_of_char dir) D (rn_p (nth i nodes dnode))))|]. reflexivity.
Qed.

(** When the program stops: both ends point to the same side *)
Theorem C54_no_wall : forall c l nearest avg nodes thres dir,
  recenter c l nearest avg nodes thres dir = NoWall <->
  (Rabs thres <= Rabs (avg (dir_of_char dir)) /\
   exists uL uR, rn_u (nth (nearest (left_pt c l (dir_of_char dir))) nodes dnode) = Some uL /\
                 rn_u (nth (nearest (right_pt c l (dir_of_char dir))) nodes dnode) = Some uR /\
                 0 < coord (dir_of_char dir) uL * coord (dir_of_char dir) uR).
Proof.
  intros. unfold recenter. fold (node_u nodes (nearest (left_pt c l (dir_of_char dir)))).
  fold (node_u nodes (nearest (right_pt c l (dir_of_char dir)))).
  destruct (Rlt_bool_spec (Rabs (avg (dir_of_char dir))) (Rabs thres)) as [H|H].
  - split; [discriminate|]. intros [H1 _]. lra.
  - destruct (node_u nodes (nearest (left_pt c l (dir_of_char dir)))) as [uL|];
    destruct (node_u nodes (nearest (right_pt c l (dir_of_char dir)))) as [uR|].
    + destruct (Rlt_bool_spec 0 (coord (dir_of_char dir) uL * coord (dir_of_char dir) uR)) as [H1|H1].
      * split; [|reflexivity]. intros _. split; [exact H|]. exists uL, uR. auto.
      * split; [discriminate|]. intros (_ & a & b & Ea & Eb & Hab). injection Ea as ->. injection Eb as ->. lra.
    + split; [discriminate|]. intros (_ & a & b & Ea & Eb & _). discriminate.
    + split; [discriminate|]. intros (_ & a & b & Ea & Eb & _). discriminate.
    + split; [discriminate|]. intros (_ & a & b & Ea & Eb & _). discriminate.
Qed.

(** the searched point never leaves the slab occupied by the mesh *)
Theorem C54_inside : forall c l a D p, 0 <= coord a l -> Rabs (coord a (shifted c l a D p) - coord a c) <= 1 / 2 * coord a l.
Proof.
  intros c l a D p Hl. unfold shifted.
  set (p1 := vadd p _).
  destruct (Rlt_bool_spec (1 / 2 * coord a l) (coord a p1 - coord a c)) as [H|H].
  - rewrite Rlt_bool_false; destruct a; cbn in *; try apply Rabs_le; lra.
  - destruct (Rlt_bool_spec (coord a p1 - coord a c) (- (1 / 2) * coord a l)) as [H1|H1].
    + destruct a; cbn in *; apply Rabs_le; lra.
    + apply Rabs_le; lra.
Qed.

Lemma dist2_self p : dist2 p p = 0.
Proof. unfold dist2, dot, vsub. destruct p as [a b c]; cbn [vx vy vz]. ring. Qed.

Lemma dist2_zero p q : dist2 p q <= 0 -> p = q.
Proof.
  unfold dist2, dot, vsub. destruct p as [a b c], q as [d e f]. cbn [vx vy vz]. intros H.
  pose proof (Rle_0_sqr (a - d)) as A. pose proof (Rle_0_sqr (b - e)) as B. pose proof (Rle_0_sqr (c - f)) as C. unfold Rsqr in *.
  assert ((a - d) * (a - d) = 0) by lra. assert ((b - e) * (b - e) = 0) by lra. assert ((c - f) * (c - f) = 0) by lra.
  f_equal; apply Rminus_diag_uniq; now apply Rsqr_0_uniq.
Qed.

(** a node whose shifted position is occupied by a node receives the magnetization found there *)
Lemma shifted_node : forall c l nearest nodes a D n,
  nearest_ok nodes nearest -> (exists m, In m nodes /\ rn_p m = shifted c l a D (rn_p n)) ->
  exists j, (j < length nodes)%nat /\ rn_p (nth j nodes dnode) = shifted c l a D (rn_p n) /\
            rn_u0 (recenter_node c l nearest nodes a D n) = rn_u (nth j nodes dnode).
Proof.
  intros c l nearest nodes a D n HN (m & Hm & Em).
  destruct (HN (shifted c l a D (rn_p n))) as [H1 H2].
  exists (nearest (shifted c l a D (rn_p n))). split; [exact H1|]. split; [|reflexivity].
  apply dist2_zero. eapply Rle_trans; [apply (H2 m Hm)|]. rewrite Em. rewrite dist2_self. lra.
Qed.

(** The purpose of recentering. A sharp wall sits at abscissa [coord c + x] on the axis, with magnetization [s e] on
    its left and [- s e] on its right (s = 1 or -1), so that the mean component is [s 2 x / l]; every shifted node falls
    on a node. After recentering the wall sits at the centre. *)
Theorem C54_wall_centred : forall c l nearest avg nodes thres dir s x,
  let a := dir_of_char dir in
  nearest_ok nodes nearest ->
  s = 1 \/ s = -1 -> Rabs x < 1 / 2 * coord a l ->
  (forall n, In n nodes -> coord a (rn_p n) < coord a c + x -> rn_u n = Some (vscale s (unit_of a))) ->
  (forall n, In n nodes -> coord a c + x < coord a (rn_p n) -> rn_u n = Some (vscale (- s) (unit_of a))) ->
  (exists m, In m nodes /\ rn_p m = left_pt c l a) -> (exists m, In m nodes /\ rn_p m = right_pt c l a) ->
  (forall n, In n nodes -> exists m, In m nodes /\ rn_p m = shifted c l a x (rn_p n)) ->
  avg a = s * (2 * x / coord a l) -> Rabs thres <= Rabs (avg a) ->
  exists nodes', recenter c l nearest avg nodes thres dir = Recentered nodes' /\
    (forall n, In n nodes' -> coord a (rn_p n) < coord a c -> rn_u0 n = Some (vscale s (unit_of a))) /\
    (forall n, In n nodes' -> coord a c < coord a (rn_p n) -> rn_u0 n = Some (vscale (- s) (unit_of a))).
Proof.
  intros c l nearest avg nodes thres dir s x a HN Hs Hx HL HR (mL & HmL & EmL) (mR & HmR & EmR) HS HA HT.
  assert (Hl : 0 < coord a l) by (pose proof (Rabs_pos x); lra).
  assert (Hxx : - (1 / 2 * coord a l) < x < 1 / 2 * coord a l) by (apply Rabs_def2 in Hx; lra).
  assert (at_ : forall q m, In m nodes -> rn_p m = q -> rn_p (nth (nearest q) nodes dnode) = q /\ In (nth (nearest q) nodes dnode) nodes).
  { intros q m Hm Em. destruct (HN q) as [H1 H2]. split; [|apply nth_In, H1]. apply dist2_zero. eapply Rle_trans; [apply (H2 m Hm)|].
    rewrite Em. rewrite dist2_self. lra. }
  destruct (at_ _ _ HmL EmL) as [PL IL]. destruct (at_ _ _ HmR EmR) as [PR IR].
  assert (UL : node_u nodes (nearest (left_pt c l a)) = Some (vscale s (unit_of a))).
  { apply HL; [exact IL|]. rewrite PL. unfold left_pt. destruct a; cbn in *; lra. }
  assert (UR : node_u nodes (nearest (right_pt c l a)) = Some (vscale (- s) (unit_of a))).
  { apply HR; [exact IR|]. rewrite PR. unfold right_pt. destruct a; cbn in *; lra. }
  unfold recenter. fold a. rewrite Rlt_bool_false by exact HT. rewrite UL, UR.
  assert (S1 : coord a (vscale s (unit_of a)) = s) by (destruct a; cbn; ring).
  assert (S2 : coord a (vscale (- s) (unit_of a)) = - s) by (destruct a; cbn; ring).
  assert (SS : s * s = 1) by (destruct Hs; subst; lra).
  rewrite S1, S2, Rlt_bool_false by lra.
  assert (ED : avg a * (1 / 2) * coord a l * s = x).
  { rewrite HA. transitivity (s * s * x); [field; lra|]. rewrite SS; ring. }
  rewrite ED. eexists. split; [reflexivity|].
  assert (SH : forall n, In n nodes -> coord a (rn_p n) < coord a c -> coord a (shifted c l a x (rn_p n)) < coord a c + x).
  { intros n _ H. unfold shifted. destruct (Rlt_bool_spec (1 / 2 * coord a l) (coord a (vadd (rn_p n) (vscale x (unit_of a))) - coord a c)) as [K|K].
    - exfalso. destruct a; cbn in *; lra.
    - destruct (Rlt_bool_spec (coord a (vadd (rn_p n) (vscale x (unit_of a))) - coord a c) (- (1 / 2) * coord a l)) as [K1|K1]; destruct a; cbn in *; lra. }
  assert (SH' : forall n, In n nodes -> coord a c < coord a (rn_p n) -> coord a c + x < coord a (shifted c l a x (rn_p n))).
  { intros n _ H. unfold shifted. destruct (Rlt_bool_spec (1 / 2 * coord a l) (coord a (vadd (rn_p n) (vscale x (unit_of a))) - coord a c)) as [K|K].
    - rewrite Rlt_bool_false; destruct a; cbn in *; lra.
    - rewrite Rlt_bool_false; destruct a; cbn in *; lra. }
  split; intros n' Hn' Hp; apply in_map_iff in Hn'; destruct Hn' as (n & <- & Hn); cbn [recenter_node rn_p] in Hp;
    destruct (shifted_node c l nearest nodes a x n HN (HS n Hn)) as (j & Hj & Pj & ->).
  - apply HL; [apply nth_In, Hj|]. rewrite Pj. auto.
  - apply HR; [apply nth_In, Hj|]. rewrite Pj. auto.
Qed.

(** The direction asked for in the settings is ignored: whatever it is, the wall is looked for along z *)
Theorem C54_direction_refuted : forall d, dir_of_char (index_of d) = AZ.
Proof. destruct d; reflexivity. Qed.

(** a search that meets the contract: the first of the closest nodes *)
Fixpoint closest_from (best : nat) (bd : R) (i : nat) (l : list rnode) (q : vec) : nat :=
  match l with
  | [] => best
  | n :: l' => if Rlt_bool (dist2 (rn_p n) q) bd then closest_from i (dist2 (rn_p n) q) (S i) l' q
               else closest_from best bd (S i) l' q
  end.
Definition closest (nodes : list rnode) (q : vec) : nat :=
  match nodes with [] => 0%nat | n :: l' => closest_from 0 (dist2 (rn_p n) q) 1 l' q end.

Lemma closest_from_ok nodes q : forall l best bd i, (best < length nodes)%nat -> dist2 (rn_p (nth best nodes dnode)) q = bd ->
  skipn i nodes = l -> (forall n, In n (firstn i nodes) -> bd <= dist2 (rn_p n) q) ->
  (closest_from best bd i l q < length nodes)%nat /\
  forall n, In n nodes -> dist2 (rn_p (nth (closest_from best bd i l q) nodes dnode)) q <= dist2 (rn_p n) q.
Proof.
  induction l as [|m l IH]; intros best bd i Hb Eb Es Hf.
  - cbn [closest_from]. split; [exact Hb|]. intros n Hn. rewrite Eb. apply Hf. rewrite <- (firstn_skipn i nodes), Es, app_nil_r in Hn. exact Hn.
  - assert (Hi : (i < length nodes)%nat).
    { destruct (le_lt_dec (length nodes) i); [|assumption]. rewrite skipn_all2 in Es by assumption. discriminate. }
    assert (Em : nth i nodes dnode = m).
    { rewrite <- (firstn_skipn i nodes), Es. rewrite app_nth2; rewrite firstn_length_le; try lia. now rewrite Nat.sub_diag. }
    assert (Es' : skipn (S i) nodes = l).
    { pose proof (firstn_skipn i nodes) as F. rewrite Es in F. rewrite <- F. rewrite skipn_app. rewrite firstn_length_le by lia.
      replace (S i - i)%nat with 1%nat by lia. rewrite skipn_all2 by (rewrite firstn_length_le; lia). reflexivity. }
    assert (F : forall n, In n (firstn (S i) nodes) -> In n (firstn i nodes) \/ n = m).
    { intros n Hn. pose proof (firstn_skipn i nodes) as F. rewrite Es in F. rewrite <- F in Hn. rewrite firstn_app in Hn.
      rewrite firstn_length_le in Hn by lia. replace (S i - i)%nat with 1%nat in Hn by lia. apply in_app_or in Hn as [Hn|Hn]; [|right; destruct Hn as [Hn|[]]; congruence].
      left. rewrite firstn_firstn in Hn. now replace (Nat.min (S i) i) with i in Hn by lia. }
    cbn [closest_from]. destruct (Rlt_bool_spec (dist2 (rn_p m) q) bd) as [H|H].
    + apply IH; auto. { now rewrite Em. } intros n Hn. destruct (F n Hn) as [H1| ->]; [|lra]. specialize (Hf n H1). lra.
    + apply IH; auto. intros n Hn. destruct (F n Hn) as [H1| ->]; [|lra]. auto.
Qed.

Lemma closest_ok nodes : nodes <> [] -> nearest_ok nodes (closest nodes).
Proof.
  intros H q. destruct nodes as [|n l]; [congruence|]. unfold closest. apply closest_from_ok; cbn; auto. lia.
  intros m [<-|[]]. lra.
Qed.

Ltac decide_dist := unfold dist2, dot, vsub, vadd, vscale, left_pt, right_pt; cbn; lra.
Ltac closest_node :=
  repeat match goal with |- context [if Rlt_bool ?a ?b then _ else _] =>
    first [rewrite (Rlt_bool_true a b) by decide_dist | rewrite (Rlt_bool_false a b) by decide_dist] end; reflexivity.

(** A magnetic node may receive the undefined magnetization of a non-magnetic node: the search runs over all the nodes.
    Nodes 0 to 2 are magnetic and the wall is at z = 1/2; node 3 stands closer to the point searched for node 1. *)
Theorem C54_nan_refuted :
  exists c l avg nodes, let nearest := closest nodes in
    nearest_ok nodes nearest /\ (forall i, (i < 3)%nat -> unit_norm (rn_u (nth i nodes dnode))) /\
    exists nodes', recenter c l nearest avg nodes 0 90 = Recentered nodes' /\ rn_u0 (nth 1 nodes' dnode) = None.
Proof.
  exists vzero, (V 0 0 2), (fun _ => 1 / 2).
  exists [mkR (V 0 0 (-1)) (Some (V 0 0 1)) (Some (V 0 0 1)) (Some vzero); mkR (V 0 0 0) (Some (V 0 0 1)) (Some (V 0 0 1)) (Some vzero);
          mkR (V 0 0 1) (Some (V 0 0 (-1))) (Some (V 0 0 (-1))) (Some vzero); mkR (V 0 0 (1 / 2)) None None None].
  cbv zeta. split; [apply closest_ok; discriminate|]. split.
  - intros i Hi. assert (i = 0 \/ i = 1 \/ i = 2)%nat as [->|[->| ->]] by lia; eexists; (split; [reflexivity|]); unfold dot; cbn; ring.
  - unfold recenter. rewrite Rlt_bool_false by (rewrite !Rabs_pos_eq; lra).
    set (nodes := [_; _; _; _]).
    assert (L : closest nodes (left_pt vzero (V 0 0 2) (dir_of_char 90)) = 0%nat).
    { unfold closest, nodes. cbn [closest_from rn_p]. closest_node. }
    assert (R : closest nodes (right_pt vzero (V 0 0 2) (dir_of_char 90)) = 2%nat).
    { unfold closest, nodes. cbn [closest_from rn_p]. closest_node. }
    rewrite L, R. unfold node_u at 1 2. unfold nodes at 1 2. cbn [nth rn_u]. rewrite Rlt_bool_false by (cbn; lra).
    eexists. split; [reflexivity|].
    set (D := _ * _ * _ * _). change (node_u nodes (closest nodes (shifted vzero (V 0 0 2) AZ D (V 0 0 0))) = None).
    assert (M : closest nodes (shifted vzero (V 0 0 2) AZ D (V 0 0 0)) = 3%nat).
    { unfold shifted, D. cbn -[closest nodes]. rewrite !(Rlt_bool_false (1 / 2 * 2)) by lra. rewrite Rlt_bool_false by (cbn; lra).
      unfold closest, nodes. cbn [closest_from rn_p]. closest_node. }
    rewrite M. reflexivity.
Qed.

(** and if the node found at the left frontier is not magnetic the behaviour is undefined *)
Theorem C54_frontier_refuted : forall c l nearest avg nodes thres dir,
  rn_u (nth (nearest (left_pt c l (dir_of_char dir))) nodes dnode) = None -> Rabs thres <= Rabs (avg (dir_of_char dir)) ->
  recenter c l nearest avg nodes thres dir = UndefinedBehaviour.
Proof.
  intros c l nearest avg nodes thres dir H HT. unfold recenter. rewrite Rlt_bool_false by assumption. unfold node_u at 1. now rewrite H.
Qed.

Lemma shifted_in c l a D p :
  - (1 / 2) * coord a l <= coord a (vadd p (vscale D (unit_of a))) - coord a c <= 1 / 2 * coord a l ->
  shifted c l a D p = vadd p (vscale D (unit_of a)).
Proof. intros H. unfold shifted. rewrite (Rlt_bool_false (1 / 2 * coord a l)) by lra. now rewrite Rlt_bool_false by lra. Qed.

(** a chain of five nodes, wall at z = 1 *)
Example C54_nonvacuous :
  let up := Some (V 0 0 1) in let down := Some (V 0 0 (-1)) in
  let nodes := map (fun zu => mkR (V 0 0 (fst zu)) up (snd zu) (Some vzero)) [(-2, up); (-1, up); (0, up); (1, down); (2, down)] in
  nearest_ok nodes (closest nodes) /\
  (forall n, In n nodes -> unit_norm (rn_u n)) /\
  exists nodes', recenter vzero (V 0 0 4) (closest nodes) (fun _ => 1 / 2) nodes (1 / 4) 90 = Recentered nodes' /\
    (forall n, In n nodes' -> vz (rn_p n) < 0 -> rn_u0 n = up) /\ (forall n, In n nodes' -> 0 < vz (rn_p n) -> rn_u0 n = down).
Proof.
  cbv zeta. set (nodes := map _ _).
  assert (HN : nearest_ok nodes (closest nodes)) by (apply closest_ok; discriminate).
  assert (IN : forall n, In n nodes -> n = nth 0 nodes dnode \/ n = nth 1 nodes dnode \/ n = nth 2 nodes dnode \/ n = nth 3 nodes dnode \/ n = nth 4 nodes dnode).
  { unfold nodes. cbn. intuition auto. }
  split; [exact HN|]. split.
  { intros n Hn. destruct (IN n Hn) as [->|[->|[->|[->| ->]]]]; eexists; (split; [reflexivity|]); unfold dot; cbn; ring. }
  destruct (C54_wall_centred vzero (V 0 0 4) (closest nodes) (fun _ => 1 / 2) nodes (1 / 4) 90 1 1) as (nodes' & E & HL & HR).
  - exact HN.
  - auto.
  - cbn. rewrite Rabs_pos_eq; lra.
  - intros n Hn. destruct (IN n Hn) as [->|[->|[->|[->| ->]]]]; cbn; intros; try lra; unfold vscale; cbn; repeat f_equal; ring.
  - intros n Hn. destruct (IN n Hn) as [->|[->|[->|[->| ->]]]]; cbn; intros; try lra; unfold vscale; cbn; repeat f_equal; ring.
  - exists (nth 0 nodes dnode). split; [apply nth_In; cbn; lia|]. cbn. unfold left_pt, vsub, vscale. cbn. f_equal; field.
  - exists (nth 4 nodes dnode). split; [apply nth_In; cbn; lia|]. cbn. unfold right_pt, vadd, vscale. cbn. f_equal; field.
  - intros n Hn. destruct (IN n Hn) as [->|[->|[->|[->| ->]]]].
    + exists (nth 1 nodes dnode). split; [apply nth_In; cbn; lia|]. rewrite shifted_in by (cbn; lra). unfold vadd, vscale; cbn. f_equal; ring.
    + exists (nth 2 nodes dnode). split; [apply nth_In; cbn; lia|]. rewrite shifted_in by (cbn; lra). unfold vadd, vscale; cbn. f_equal; ring.
    + exists (nth 3 nodes dnode). split; [apply nth_In; cbn; lia|]. rewrite shifted_in by (cbn; lra). unfold vadd, vscale; cbn. f_equal; ring.
    + exists (nth 4 nodes dnode). split; [apply nth_In; cbn; lia|]. rewrite shifted_in by (cbn; lra). unfold vadd, vscale; cbn. f_equal; ring.
    + exists (nth 4 nodes dnode). split; [apply nth_In; cbn; lia|]. unfold shifted. rewrite (Rlt_bool_true (1 / 2 * coord _ _)) by (cbn; lra). rewrite Rlt_bool_false by (cbn; lra). unfold vadd, vscale; cbn. f_equal; field.
  - cbn. field.
  - rewrite !Rabs_pos_eq; lra.
  - exists nodes'. split; [exact E|]. split; intros n Hn Hz.
    + rewrite (HL n Hn) by exact Hz. cbn. unfold vscale; cbn. f_equal. f_equal; ring.
    + rewrite (HR n Hn) by exact Hz. cbn. unfold vscale; cbn. f_equal. f_equal; ring.
Qed.

Print Assumptions C54_recenter_partial.
Print Assumptions C54_wall_centred.
Print Assumptions C54_nan_refuted.
