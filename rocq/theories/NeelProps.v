(** * C112, surface anisotropy on a surface between two materials of the same magnetization at saturation *)
From Coq Require Import Reals ZArith List Arith Bool Lia Lra.
From Flocq Require Import Core BinarySingleNaN.
From Verif Require Import Arith ArithLaws Sums Vec SparseModel SparseProof ConcModel IterModel Ieee IterMask AsmModel AsmProof AsmProps ElemModel FiniteProps NeelModel.
Import ListNotations.
Local Open Scope nat_scope.

(** ** The arithmetic model is the real one when the jump is not zero *)
Lemma acc_fin : forall n (g : nat -> R), acc (A := XA) n (fun k => Fin (g k) : num XA) = Fin (sumn n g).
Proof.
  intros n g. unfold acc. induction n as [|n IH]. { cbn. f_equal. lra. }
  rewrite seq_S, fold_left_app, IH. cbn [Nat.add fold_left sumn nadd XA xadd]. reflexivity.
Qed.

Lemma acc_ext : forall {A : arith} n (g h : nat -> num A), (forall k, k < n -> g k = h k) -> acc n g = acc n h.
Proof.
  intros A n g h. unfold acc. induction n as [|n IH]; intros H; auto.
  rewrite seq_S, !fold_left_app. cbn [Nat.add fold_left]. rewrite IH, H by (intros; try apply H; lia). reflexivity.
Qed.

Definition fvec (v : vec) (k : nat) : num XA := Fin (comp k v).

Theorem C112_exact : forall Ks dMs uk (q u ep eq : nat -> vec) b i, dMs <> 0%R -> b < 2 -> i < 3 ->
  neel_Lp (A := XA) (fun j => Fin (tweight q j)) (fun i j => Fin (tsh i j)) (Fin Ks) (Fin dMs) (fvec uk)
    (fun i => fvec (u i)) (fun i => fvec (ep i)) (fun i => fvec (eq i)) (3 * b + i) = Fin (tri_Lp Ks dMs uk q u ep eq b i).
Proof.
  intros Ks dMs uk q u ep eq b i Hd Hb Hi.
  assert (HU : forall npi k, k < 3 -> neel_u (A := XA) (fun i j => Fin (tsh i j)) (fun i => fvec (u i)) npi k = Fin (comp k (tinterpV u npi))).
  { intros npi k Hk. unfold neel_u, fvec. cbn [nmul XA xmul]. rewrite acc_fin. f_equal. unfold tinterpV, vsumn.
    destruct k as [|[|[|k]]]; [| | |lia]; cbn [comp vx vy vz]; apply sumn_ext; intros m _; unfold vscale; cbn [vx vy vz]; ring. }
  assert (HK : neel_Kbis (A := XA) (Fin Ks) (Fin dMs) = Fin (2 * Ks / dMs)%R).
  { unfold neel_Kbis. cbn [nlit nmul ndiv XA xmul xdiv]. rewrite Req_bool_false by exact Hd. f_equal. field. exact Hd. }
  assert (HB : forall k m, k < 3 -> neel_BE (A := XA) (fun j => Fin (tweight q j)) (fun i j => Fin (tsh i j)) (Fin Ks) (Fin dMs) (fvec uk)
    (fun i => fvec (u i)) k m = Fin (comp k (tri_BE Ks dMs uk q u m))).
  { intros k m Hk. unfold neel_BE, neel_prefactor. rewrite HK.
    rewrite (acc_ext 4 _ (fun npi => Fin (tweight q npi * (2 * Ks / dMs) * dot uk (tinterpV u npi) * tsh m npi * comp k uk)%R : num XA)).
    - rewrite acc_fin. f_equal. unfold tri_BE, vsumn, tNPI. destruct k as [|[|[|k]]]; [| | |lia]; cbn [comp vx vy vz]; reflexivity.
    - intros npi _. rewrite (acc_ext 3 _ (fun c => Fin (comp c uk * comp c (tinterpV u npi))%R : num XA)).
      + rewrite acc_fin. unfold fvec. cbn [nmul XA xmul sumn]. f_equal. unfold dot. cbn [comp]. ring.
      + intros c Hc. rewrite HU by exact Hc. reflexivity. }
  unfold neel_Lp.
  rewrite (acc_ext 9 _ (fun c => Fin ((if i =? c mod 3 then matP ep eq (perm b) (c / 3) (c mod 3) else 0) * comp (c / 3) (tri_BE Ks dMs uk q u (c mod 3)))%R : num XA)).
  - rewrite acc_fin. f_equal. unfold tri_Lp. destruct i as [|[|[|i]]]; [| | |lia]; cbn [sumn Nat.modulo Nat.div Nat.divmod fst snd Nat.sub Nat.eqb]; ring.
  - intros c Hc. rewrite HB by (apply Nat.div_lt_upper_bound; lia). unfold neel_P.
    assert (Hr : ((3 * b + i + 3) mod 6) mod 3 = i /\ ((3 * b + i + 3) mod 6 <? 3) = (b =? 1)).
    { destruct b as [|[|b]]; [| |lia]; destruct i as [|[|[|i]]]; try lia; split; reflexivity. }
    destruct Hr as [-> ->].
    replace (matP ep eq (perm b) (c / 3) (c mod 3)) with (comp (c / 3) (if b =? 1 then ep (c mod 3) else eq (c mod 3))).
    2: { unfold matP, perm. destruct b as [|[|b]]; [| |lia]; reflexivity. }
    unfold fvec. destruct (i =? c mod 3), (b =? 1); cbn [nmul XA xmul]; try reflexivity; unfold n0; cbn [nlit XA xmul]; f_equal; lra.
Qed.

(** ** A jump equal to zero *)
Section zero_jump.
Context {A : arith} (L : ieee A) (HM : ieee_more L).
Variables (w : nat -> num A) (a : nat -> nat -> num A).

Lemma acc_nf : forall n (g : nat -> num A) k, k < n -> ~ fin L (g k) -> ~ fin L (acc n g).
Proof. intros n g k Hk H. unfold acc. apply (fold_nf L g). left. exists k. split; auto. apply in_seq. lia. Qed.
Lemma acc_nan : forall n (g : nat -> num A) k, k < n -> nisnan (g k) = true -> nisnan (acc n g) = true.
Proof. intros n g k Hk H. unfold acc. apply (fold_nan L g). left. exists k. split; auto. apply in_seq. lia. Qed.

Lemma Lp_nan : forall Ks dMs uk u ep eq r, zer L dMs -> r < 6 -> nisnan (neel_Lp w a Ks dMs uk u ep eq r) = true.
Proof.
  intros Ks dMs uk u ep eq r Hz Hr. unfold neel_Lp.
  assert (Hc : exists c, c < 9 /\ neel_P ep eq ((r + 3) mod 6) c = n0).
  { destruct r as [|[|[|[|[|[|r]]]]]]; try lia; [exists 1|exists 0|exists 0|exists 1|exists 0|exists 0]; split; auto; lia. }
  destruct Hc as (c & Hc & HP). apply (acc_nan _ _ c Hc). rewrite HP. apply (mul_zn A L). { apply zer_n0. }
  unfold neel_BE. apply (acc_nf _ _ 0); [lia|]. apply nf_mul_l, nf_mul_l. unfold neel_prefactor. apply nf_mul_l, nf_mul_r.
  unfold neel_Kbis. apply div_z; auto.
Qed.
End zero_jump.

(** Finding. A surface with an anisotropy, between two materials of the same magnetization at saturation (or drawn
    inside one material): the jump is zero, line 8 of triangle.cpp divides by it, and every time step is refused,
    whatever the magnetization, the field, the time step and the schedule of the threads. In double precision, as in
    exact arithmetic. *)
Theorem C112_interface_refuted : forall (A : arith) (L : ieee A), fl_laws A -> ieee_more L ->
  forall (N : Type) upd gamma0 passes mag (it : iteration A) K proj work sched tets tris (nodes : list N) (o : solve_out (A := A) N) edges
    w a ind Ks dMs uk u ep eq,
  lin_solve upd gamma0 passes mag it K proj work sched tets tris nodes = Some o ->
  mesh_system 2 (length mag) edges (mag_filter mag) (concat work) ->
  wf K -> shape_of K = build_shape 2 (length mag) edges (mag_filter mag) ->
  fin L (resmax it) ->
  In (neel_elem w a true ind Ks dMs uk u ep eq) tris -> length ind = 3 -> (forall i, In i ind -> nth i mag false = true) ->
  neq Ks n0 = false -> zer L dMs ->
  o_fail _ o = true /\ o_nodes _ o = nodes.
Proof.
  intros A L laws HM N upd gamma0 passes mag it K proj work sched tets tris nodes o edges w a ind Ks dMs uk u ep eq
    Hrun Hms Hwf Hsh Hres Hin Hl Hmag HK Hz.
  eapply (C113_refused A L laws HM); eauto. intros [_ F _].
  pose (e := neel_elem w a true ind Ks dMs uk u ep eq).
  assert (HN : e_N e = 3) by exact Hl.
  assert (Hx : fin L (e_Le e (0 * e_N e + 0))).
  { apply F; try lia. { apply in_or_app. right. exact Hin. } apply Hmag. unfold e, e_nod. cbn [e_ind neel_elem]. apply nth_In. lia. }
  revert Hx. apply nan_fin. unfold e, neel_elem. cbn [e_Le]. rewrite HK. cbn [andb negb]. apply (Lp_nan L HM); auto. rewrite Nat.mul_0_l. lia.
Qed.

(** ** C112: a triangle that is not magnetic, or whose surface anisotropy is zero, has no effect *)
Theorem C112_without_anisotropy : forall {A : arith} w a magnetic ind (Ks dMs : num A) uk u ep eq,
  magnetic = false \/ neq Ks n0 = true -> forall i j,
  e_Le (neel_elem w a magnetic ind Ks dMs uk u ep eq) i = n0 /\ e_Ke (neel_elem w a magnetic ind Ks dMs uk u ep eq) i j = n0.
Proof. intros A w a magnetic ind Ks dMs uk u ep eq H i j. unfold neel_elem. cbn [e_Le e_Ke]. destruct H as [->| ->]; rewrite ?andb_false_r; auto. Qed.
(** both cases on one triangle in double precision, and a triangle that has an effect *)
Example C112_without_anisotropy_nonvacuous : neq (n0 : num B64) n0 = true /\ neq (nZ 1 : num B64) n0 = false.
Proof. vm_compute. auto. Qed.

(** the hypotheses are met: one tetrahedron's worth of nodes in double precision; with a jump the step is accepted *)
Local Notation b z := (nZ (A := B64) z%Z).
Definition nl_mag := [true; true; true; true].
Definition nl_edges : list (nat * nat) := [(0, 1); (0, 2); (0, 3); (1, 2); (1, 3); (2, 3)].
Definition nl_tet : elem (num B64) := mkElem [0; 1; 2; 3] (fun r c => if r =? c then b 2 else b 0) (fun r => b (Z.of_nat r)).
Definition nl_tri (dMs : num B64) : elem (num B64) :=
  neel_elem (fun _ => b 1) (fun _ _ => b 1) true [0; 1; 2] (b 1) dMs (fun k => b (Z.of_nat k)) (fun _ k => if k =? 2 then b 1 else b 0)
    (fun _ k => if k =? 0 then b 1 else b 0) (fun _ k => if k =? 1 then b 1 else b 0).
Definition nl_run (dMs : num B64) := lin_solve (N := num B64 * num B64) (fun x y _ => (x, y)) (b 10) 12 nl_mag (new_iter (A := B64) (nlit 1 1000) false 10%Z)
  (new_matrix (build_shape 2 4 nl_edges (mag_filter nl_mag))) (fun _ => (b 0, b 0)) [[nl_tet]; []] (repeat 0 256) [nl_tet] [nl_tri dMs]
  (repeat (b 0, b 0) 4).
Example C112_interface_nonvacuous :
  mesh_system 2 (length nl_mag) nl_edges (mag_filter nl_mag) (concat [[nl_tet]; []]) /\
  match nl_run (nsub (b 5) (b 5)) with Some o => o_fail _ o | None => false end = true /\
  match nl_run (nsub (b 7) (b 5)) with Some o => o_fail _ o | None => true end = false.
Proof.
  split. 2: { vm_compute. auto. }
  constructor.
  - intros p Hp. repeat (destruct Hp as [<-|Hp]; [simpl; lia|]). contradiction.
  - intros e x [<-|[]] Hx. simpl in Hx. change (length nl_mag) with 4. lia.
  - intros e [<-|[]] x y Hx Hy Hxy. simpl in Hx, Hy.
    repeat (destruct Hx as [<-|Hx]; [|]); repeat (destruct Hy as [<-|Hy]; [|]); try contradiction; try congruence;
      (eexists; split; [|split; [|]]; [| |left; reflexivity]; [simpl; tauto|reflexivity]) ||
      (eexists; split; [|split; [|]]; [| |right; reflexivity]; [simpl; tauto|reflexivity]).
Qed.

Print Assumptions C112_exact.
Print Assumptions C112_interface_refuted.
Print Assumptions C112_without_anisotropy.
