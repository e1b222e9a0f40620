(** * C47: the quadrature rules of the elements are exact for polynomials of degree three *)
From Coq Require Import Reals List Arith Bool Lia Lra Factorial.
From Coquelicot Require Import Coquelicot.
From Verif Require Import Vec Sums ElemModel ElemProof.
Import ListNotations.
Local Open Scope R_scope.

(** ** Specification: polynomials of degree at most three, integrals over the reference simplices and over an element *)
(** [c a b d] is the coefficient of x^a y^b z^d *)
Definition poly3 (c : nat -> nat -> nat -> R) (x y z : R) : R :=
  sumn 4 (fun a => sumn (4 - a) (fun b => sumn (4 - a - b) (fun d => c a b d * (x ^ a * y ^ b * z ^ d)))).
Definition poly3_2 (c : nat -> nat -> R) (x y : R) : R :=
  sumn 4 (fun a => sumn (4 - a) (fun b => c a b * (x ^ a * y ^ b))).
(** integrals over { u, v, w >= 0, u+v+w <= 1 } and over { u, v >= 0, u+v <= 1 } *)
Definition integral3 (f : R -> R -> R -> R) : R :=
  RInt (fun u => RInt (fun v => RInt (fun w => f u v w) 0 (1 - u - v)) 0 (1 - u)) 0 1.
Definition integral2 (f : R -> R -> R) : R := RInt (fun u => RInt (fun v => f u v) 0 (1 - u)) 0 1.
(** the point of the tetrahedron with reference coordinates u, v, w *)
Definition at_ref (q : nat -> vec) (u v w : R) : vec :=
  vadd (vadd (vadd (vscale (1 - u - v - w) (q 0%nat)) (vscale u (q 1%nat))) (vscale v (q 2%nat))) (vscale w (q 3%nat)).
Definition at_ref2 (q : nat -> vec) (u v : R) : vec :=
  vadd (vadd (vscale (1 - u - v) (q 0%nat)) (vscale u (q 1%nat))) (vscale v (q 2%nat)).
(** integral over the tetrahedron, by change of variables (6 volumes is the Jacobian), and over the triangle *)
Definition tet_integral (q : nat -> vec) (f : vec -> R) : R := 6 * calc_vol q * integral3 (fun u v w => f (at_ref q u v w)).
Definition tri_integral (q : nat -> vec) (f : vec -> R) : R := 2 * calc_surf q * integral2 (fun u v => f (at_ref2 q u v)).

(** ** Beta integrals *)
Fixpoint antid (b c : nat) (h x : R) : R :=
  match c with
  | O => x ^ (S b) / INR (S b)
  | S c' => (x ^ (S b) * (h - x) ^ (S c') + INR (S c') * antid (S b) c' h x) / INR (S b)
  end.
Lemma antid_deriv : forall c b h x, is_derive (antid b c h) x (x ^ b * (h - x) ^ c).
Proof.
  induction c as [|c IH]; intros b h x.
  - apply (is_derive_ext (fun x => (/ INR (S b)) * x ^ (S b))).
    { intros t. apply Rmult_comm. }
    replace (x ^ b * (h - x) ^ 0) with (/ INR (S b) * (INR (S b) * x ^ b)).
    2: { assert (INR (S b) <> 0) by (apply not_0_INR; lia). rewrite pow_O. field. exact H. }
    apply is_derive_scal. auto_derive; auto. change (match b with O => 1 | S _ => INR b + 1 end) with (INR (S b)). ring.
  - specialize (IH (S b) h x).
    apply (is_derive_ext (fun x => (/ INR (S b)) * (x ^ (S b) * (h - x) ^ (S c) + INR (S c) * antid (S b) c h x))).
    { intros t. apply Rmult_comm. }
    replace (x ^ b * (h - x) ^ (S c)) with
      (/ INR (S b) * ((INR (S b) * x ^ b * (h - x) ^ (S c) - INR (S c) * x ^ (S b) * (h - x) ^ c) + INR (S c) * (x ^ (S b) * (h - x) ^ c))).
    2: { assert (INR (S b) <> 0) by (apply not_0_INR; lia). field. exact H. }
    apply is_derive_scal. apply @is_derive_plus.
    + auto_derive; auto. change (match b with O => 1 | S _ => INR b + 1 end) with (INR (S b)). change (match c with O => 1 | S _ => INR c + 1 end) with (INR (S c)).
      replace (h + - x) with (h - x) by ring. generalize (INR (S b)) (INR (S c)). intros kb kc. cbn [pow]. ring.
    + apply is_derive_scal. exact IH.
Qed.
Lemma beta_RInt : forall b c h, is_RInt (fun x => x ^ b * (h - x) ^ c) 0 h (antid b c h h - antid b c h 0).
Proof.
  intros b c h. apply (is_RInt_derive (antid b c h)).
  - intros x _. apply antid_deriv.
  - intros x _. apply (ex_derive_continuous (fun x => x ^ b * (h - x) ^ c)). auto_derive. auto.
Qed.
Lemma antid_0 : forall c b h, antid b c h 0 = 0.
Proof.
  induction c as [|c IH]; intros b h; cbn [antid]; rewrite pow_i by lia; [unfold Rdiv; ring|]. rewrite IH. unfold Rdiv. ring.
Qed.
Lemma antid_h : forall c b h, antid b c h h = INR (fact b) * INR (fact c) / INR (fact (S (b + c))) * h ^ (S (b + c)).
Proof.
  induction c as [|c IH]; intros b h; cbn [antid].
  - rewrite Nat.add_0_r. replace (fact (S b)) with (S b * fact b)%nat by reflexivity. rewrite mult_INR.
    assert (INR (fact b) <> 0) by apply INR_fact_neq_0. assert (INR (S b) <> 0) by (apply not_0_INR; lia). simpl (fact 0). simpl (INR 1). field. auto.
  - rewrite IH. replace (h - h) with 0 by ring. rewrite pow_i by lia.
    replace (S (b + S c)) with (S (S b + c)) by lia.
    replace (fact (S b)) with (S b * fact b)%nat by reflexivity. replace (fact (S c)) with (S c * fact c)%nat by reflexivity. rewrite !mult_INR.
    assert (INR (S b) <> 0) by (apply not_0_INR; lia). assert (INR (fact (S (S b + c))) <> 0) by apply INR_fact_neq_0. field. auto.
Qed.
Definition beta (b c : nat) : R := INR (fact b) * INR (fact c) / INR (fact (S (b + c))).
Lemma beta_int : forall b c h, is_RInt (fun x => x ^ b * (h - x) ^ c) 0 h (beta b c * h ^ (S (b + c))).
Proof. intros b c h. pose proof (beta_RInt b c h) as H. rewrite antid_0, antid_h, Rminus_0_r in H. exact H. Qed.

(** ** Iterated integrals as a relation *)
Definition is_I3 (f : R -> R -> R -> R) (r : R) : Prop :=
  exists G H, (forall u v, is_RInt (fun w => f u v w) 0 (1 - u - v) (G u v)) /\ (forall u, is_RInt (G u) 0 (1 - u) (H u)) /\ is_RInt H 0 1 r.
Definition is_I2 (f : R -> R -> R) (r : R) : Prop :=
  exists H, (forall u, is_RInt (fun v => f u v) 0 (1 - u) (H u)) /\ is_RInt H 0 1 r.

Lemma is_I3_unique : forall f r, is_I3 f r -> integral3 f = r.
Proof.
  intros f r (G & H & HG & HH & HR). unfold integral3.
  rewrite (RInt_ext _ H). { apply is_RInt_unique. exact HR. }
  intros u _. rewrite (RInt_ext _ (G u)). { apply is_RInt_unique, HH. }
  intros v _. apply is_RInt_unique, HG.
Qed.
Lemma is_I2_unique : forall f r, is_I2 f r -> integral2 f = r.
Proof.
  intros f r (H & HH & HR). unfold integral2. rewrite (RInt_ext _ H). { apply is_RInt_unique. exact HR. }
  intros u _. apply is_RInt_unique, HH.
Qed.
Lemma is_I3_ext : forall f g r, (forall u v w, f u v w = g u v w) -> is_I3 f r -> is_I3 g r.
Proof.
  intros f g r E (G & H & HG & HH & HR). exists G, H. split; auto. intros u v.
  apply (is_RInt_ext (fun w => f u v w)); auto.
Qed.
Lemma is_I2_ext : forall f g r, (forall u v, f u v = g u v) -> is_I2 f r -> is_I2 g r.
Proof. intros f g r E (H & HH & HR). exists H. split; auto. intros u. apply (is_RInt_ext (fun v => f u v)); auto. Qed.
Lemma is_I3_plus : forall f g r s, is_I3 f r -> is_I3 g s -> is_I3 (fun u v w => f u v w + g u v w) (r + s).
Proof.
  intros f g r s (G & H & HG & HH & HR) (G' & H' & HG' & HH' & HR'). exists (fun u v => G u v + G' u v), (fun u => H u + H' u).
  split; [|split]; intros; apply @is_RInt_plus; auto.
Qed.
Lemma is_I2_plus : forall f g r s, is_I2 f r -> is_I2 g s -> is_I2 (fun u v => f u v + g u v) (r + s).
Proof. intros f g r s (H & HH & HR) (H' & HH' & HR'). exists (fun u => H u + H' u). split; intros; apply @is_RInt_plus; auto. Qed.
Lemma is_I3_scal : forall k f r, is_I3 f r -> is_I3 (fun u v w => k * f u v w) (k * r).
Proof.
  intros k f r (G & H & HG & HH & HR). exists (fun u v => k * G u v), (fun u => k * H u).
  split; [|split]; intros; apply @is_RInt_scal; auto.
Qed.
Lemma is_I2_scal : forall k f r, is_I2 f r -> is_I2 (fun u v => k * f u v) (k * r).
Proof. intros k f r (H & HH & HR). exists (fun u => k * H u). split; intros; apply @is_RInt_scal; auto. Qed.
Lemma is_I3_zero : is_I3 (fun _ _ _ => 0) 0.
Proof.
  exists (fun _ _ => 0), (fun _ => 0). split; [|split]; intros;
    match goal with |- is_RInt _ ?a ?b _ => pose proof (@is_RInt_const R_NormedModule a b 0) as Z end;
    cbn in Z; unfold mult in Z; cbn in Z; rewrite Rmult_0_r in Z; exact Z.
Qed.
Lemma is_I2_zero : is_I2 (fun _ _ => 0) 0.
Proof.
  exists (fun _ => 0). split; intros;
    match goal with |- is_RInt _ ?a ?b _ => pose proof (@is_RInt_const R_NormedModule a b 0) as Z end;
    cbn in Z; unfold mult in Z; cbn in Z; rewrite Rmult_0_r in Z; exact Z.
Qed.

Lemma is_RInt_extR : forall (f g : R -> R) (a b l : R), (forall x : R, f x = g x) -> is_RInt f a b l -> is_RInt g a b l.
Proof. intros f g a b l H. apply is_RInt_ext. intros x _. apply H. Qed.
Definition dirichlet3 (a b c : nat) : R := beta c 0 * beta b (S c) * beta a (S (b + S c)).
Definition dirichlet2 (a b : nat) : R := beta b 0 * beta a (S b).
Lemma monomial3 : forall a b c, is_I3 (fun u v w => u ^ a * v ^ b * w ^ c) (dirichlet3 a b c).
Proof.
  intros a b c.
  exists (fun u v => u ^ a * v ^ b * (beta c 0 * (1 - u - v) ^ (S c))),
    (fun u => u ^ a * beta c 0 * (beta b (S c) * (1 - u) ^ (S (b + S c)))).
  split; [|split].
  - intros u v. apply @is_RInt_scal. pose proof (beta_int c 0 (1 - u - v)) as B. rewrite Nat.add_0_r in B.
    apply (is_RInt_extR (fun x => x ^ c * (1 - u - v - x) ^ 0)); [intros x; simpl; ring|exact B].
  - intros u. apply (is_RInt_extR (fun v => u ^ a * beta c 0 * (v ^ b * ((1 - u) - v) ^ (S c)))); [intros x; ring|].
    apply @is_RInt_scal. apply beta_int.
  - apply (is_RInt_extR (fun u => beta c 0 * beta b (S c) * (u ^ a * (1 - u) ^ (S (b + S c))))); [intros x; ring|].
    unfold dirichlet3. apply @is_RInt_scal. pose proof (beta_int a (S (b + S c)) 1) as B. rewrite pow1, Rmult_1_r in B. exact B.
Qed.
Lemma monomial2 : forall a b, is_I2 (fun u v => u ^ a * v ^ b) (dirichlet2 a b).
Proof.
  intros a b. exists (fun u => u ^ a * (beta b 0 * (1 - u) ^ (S b))). split.
  - intros u. apply @is_RInt_scal. pose proof (beta_int b 0 (1 - u)) as B. rewrite Nat.add_0_r in B.
    apply (is_RInt_extR (fun x => x ^ b * (1 - u - x) ^ 0)); [intros x; simpl; ring|exact B].
  - apply (is_RInt_extR (fun u => beta b 0 * (u ^ a * (1 - u) ^ (S b)))); [intros x; ring|].
    unfold dirichlet2. apply @is_RInt_scal. pose proof (beta_int a (S b) 1) as B. rewrite pow1, Rmult_1_r in B. exact B.
Qed.

Lemma is_I3_sumn : forall n f r, (forall i, (i < n)%nat -> is_I3 (f i) (r i)) -> is_I3 (fun u v w => sumn n (fun i => f i u v w)) (sumn n r).
Proof.
  induction n as [|n IH]; intros f r H; cbn [sumn]. { apply is_I3_zero. }
  apply is_I3_plus; auto.
Qed.
Lemma is_I2_sumn : forall n f r, (forall i, (i < n)%nat -> is_I2 (f i) (r i)) -> is_I2 (fun u v => sumn n (fun i => f i u v)) (sumn n r).
Proof.
  induction n as [|n IH]; intros f r H; cbn [sumn]. { apply is_I2_zero. }
  apply is_I2_plus; auto.
Qed.
Lemma poly3_I3 : forall c, is_I3 (poly3 c)
  (sumn 4 (fun a => sumn (4 - a) (fun b => sumn (4 - a - b) (fun d => c a b d * dirichlet3 a b d)))).
Proof.
  intros c. unfold poly3. apply is_I3_sumn. intros a _. apply is_I3_sumn. intros b _. apply is_I3_sumn. intros d _.
  apply (is_I3_scal (c a b d)), monomial3.
Qed.
Lemma poly3_I2 : forall c, is_I2 (poly3_2 c) (sumn 4 (fun a => sumn (4 - a) (fun b => c a b * dirichlet2 a b))).
Proof.
  intros c. unfold poly3_2. apply is_I2_sumn. intros a _. apply is_I2_sumn. intros b _.
  apply (is_I2_scal (c a b)), monomial2.
Qed.

(** the rule on the reference element *)
Lemma quad_exact3 : forall c, sumn NPI (fun j => pds j * poly3 c (gu j) (gv j) (gw j)) = integral3 (poly3 c).
Proof.
  intros c. rewrite (is_I3_unique _ _ (poly3_I3 c)). unfold poly3, dirichlet3, beta. tabs. cbn [sumn Nat.sub Nat.add fact pow].
  rewrite ?INR_IZR_INZ. simpl IZR. field.
Qed.
Lemma quad_exact2 : forall c, sumn tNPI (fun j => tpds j * poly3_2 c (tu j) (tv j)) = integral2 (poly3_2 c).
Proof.
  intros c. rewrite (is_I2_unique _ _ (poly3_I2 c)). unfold poly3_2, dirichlet2, beta. tabs. cbn [sumn Nat.sub Nat.add fact pow].
  rewrite ?INR_IZR_INZ. simpl IZR. field.
Qed.

(** ** Polynomials of degree three after an affine change of variables *)
Definition isP3 (f : R -> R -> R -> R) : Prop := exists c, forall u v w, f u v w = poly3 c u v w.
Definition isP2 (f : R -> R -> R) : Prop := exists c, forall u v, f u v = poly3_2 c u v.
Lemma isP3_plus : forall f g, isP3 f -> isP3 g -> isP3 (fun u v w => f u v w + g u v w).
Proof.
  intros f g (c & Hc) (d & Hd). exists (fun i j k => c i j k + d i j k). intros u v w. rewrite Hc, Hd. unfold poly3. cbn [sumn Nat.sub]. ring.
Qed.
Lemma isP3_scal : forall k f, isP3 f -> isP3 (fun u v w => k * f u v w).
Proof. intros k f (c & Hc). exists (fun i j l => k * c i j l). intros u v w. rewrite Hc. unfold poly3. cbn [sumn Nat.sub]. ring. Qed.
Lemma isP2_plus : forall f g, isP2 f -> isP2 g -> isP2 (fun u v => f u v + g u v).
Proof. intros f g (c & Hc) (d & Hd). exists (fun i j => c i j + d i j). intros u v. rewrite Hc, Hd. unfold poly3_2. cbn [sumn Nat.sub]. ring. Qed.
Lemma isP2_scal : forall k f, isP2 f -> isP2 (fun u v => k * f u v).
Proof. intros k f (c & Hc). exists (fun i j => k * c i j). intros u v. rewrite Hc. unfold poly3_2. cbn [sumn Nat.sub]. ring. Qed.
Lemma isP3_sumn : forall n f, (forall i, (i < n)%nat -> isP3 (f i)) -> isP3 (fun u v w => sumn n (fun i => f i u v w)).
Proof.
  induction n as [|n IH]; intros f H; cbn [sumn].
  - exists (fun _ _ _ => 0). intros. unfold poly3. cbn [sumn Nat.sub]. ring.
  - apply isP3_plus; auto.
Qed.
Lemma isP2_sumn : forall n f, (forall i, (i < n)%nat -> isP2 (f i)) -> isP2 (fun u v => sumn n (fun i => f i u v)).
Proof.
  induction n as [|n IH]; intros f H; cbn [sumn].
  - exists (fun _ _ => 0). intros. unfold poly3_2. cbn [sumn Nat.sub]. ring.
  - apply isP2_plus; auto.
Qed.
Lemma isP3_affine3 : forall a b c d a' b' c' d' a'' b'' c'' d'',
  isP3 (fun u v w => (a + b * u + c * v + d * w) * (a' + b' * u + c' * v + d' * w) * (a'' + b'' * u + c'' * v + d'' * w)).
Proof.
  intros.
  exists (fun i j k => match i, j, k with
    | 0, 0, 0 => a * a' * a''
    | 1, 0, 0 => b * a' * a'' + a * b' * a'' + a * a' * b''
    | 0, 1, 0 => c * a' * a'' + a * c' * a'' + a * a' * c''
    | 0, 0, 1 => d * a' * a'' + a * d' * a'' + a * a' * d''
    | 2, 0, 0 => b * b' * a'' + b * a' * b'' + a * b' * b''
    | 0, 2, 0 => c * c' * a'' + c * a' * c'' + a * c' * c''
    | 0, 0, 2 => d * d' * a'' + d * a' * d'' + a * d' * d''
    | 1, 1, 0 => b * c' * a'' + c * b' * a'' + b * a' * c'' + c * a' * b'' + a * b' * c'' + a * c' * b''
    | 1, 0, 1 => b * d' * a'' + d * b' * a'' + b * a' * d'' + d * a' * b'' + a * b' * d'' + a * d' * b''
    | 0, 1, 1 => c * d' * a'' + d * c' * a'' + c * a' * d'' + d * a' * c'' + a * c' * d'' + a * d' * c''
    | 3, 0, 0 => b * b' * b''
    | 0, 3, 0 => c * c' * c''
    | 0, 0, 3 => d * d' * d''
    | 2, 1, 0 => b * b' * c'' + b * c' * b'' + c * b' * b''
    | 2, 0, 1 => b * b' * d'' + b * d' * b'' + d * b' * b''
    | 1, 2, 0 => c * c' * b'' + c * b' * c'' + b * c' * c''
    | 0, 2, 1 => c * c' * d'' + c * d' * c'' + d * c' * c''
    | 1, 0, 2 => d * d' * b'' + d * b' * d'' + b * d' * d''
    | 0, 1, 2 => d * d' * c'' + d * c' * d'' + c * d' * d''
    | 1, 1, 1 => b * c' * d'' + b * d' * c'' + c * b' * d'' + c * d' * b'' + d * b' * c'' + d * c' * b''
    | _, _, _ => 0 end).
  intros u v w. unfold poly3. cbn [sumn Nat.sub pow]. ring.
Qed.
Lemma isP3_ext : forall f g, (forall u v w, f u v w = g u v w) -> isP3 f -> isP3 g.
Proof. intros f g E (c & Hc). exists c. intros. rewrite <- E. apply Hc. Qed.
Lemma isP2_of_P3 : forall f, isP3 (fun u v _ => f u v) -> isP2 f.
Proof.
  intros f (c & Hc). exists (fun i j => c i j 0%nat). intros u v. rewrite (Hc u v 0). unfold poly3, poly3_2. cbn [sumn Nat.sub pow]. ring.
Qed.

(** a product of at most three coordinates of an affine function *)
Lemma isP3_monomial : forall X Y Z : R -> R -> R -> R,
  (exists a b c d, forall u v w, X u v w = a + b * u + c * v + d * w) ->
  (exists a b c d, forall u v w, Y u v w = a + b * u + c * v + d * w) ->
  (exists a b c d, forall u v w, Z u v w = a + b * u + c * v + d * w) ->
  forall a b c, (a + b + c <= 3)%nat -> isP3 (fun u v w => X u v w ^ a * Y u v w ^ b * Z u v w ^ c).
Proof.
  intros X Y Z (x0 & x1 & x2 & x3 & HX) (y0 & y1 & y2 & y3 & HY) (z0 & z1 & z2 & z3 & HZ) a b c H.
  apply (isP3_ext (fun u v w => (x0 + x1 * u + x2 * v + x3 * w) ^ a * (y0 + y1 * u + y2 * v + y3 * w) ^ b * (z0 + z1 * u + z2 * v + z3 * w) ^ c)).
  { intros. rewrite HX, HY, HZ. reflexivity. }
  Local Ltac tri p0 p1 p2 p3 q0 q1 q2 q3 r0 r1 r2 r3 :=
    eapply isP3_ext; [|apply (isP3_affine3 p0 p1 p2 p3 q0 q1 q2 q3 r0 r1 r2 r3)]; intros; cbn [pow]; ring.
  destruct a as [|[|[|[|a]]]]; [| | | |lia]; (destruct b as [|[|[|[|b]]]]; [| | | |lia]); (destruct c as [|[|[|[|c]]]]; [| | | |lia]); try lia.
  - tri 1 0 0 0 1 0 0 0 1 0 0 0.
  - tri z0 z1 z2 z3 1 0 0 0 1 0 0 0.
  - tri z0 z1 z2 z3 z0 z1 z2 z3 1 0 0 0.
  - tri z0 z1 z2 z3 z0 z1 z2 z3 z0 z1 z2 z3.
  - tri y0 y1 y2 y3 1 0 0 0 1 0 0 0.
  - tri y0 y1 y2 y3 z0 z1 z2 z3 1 0 0 0.
  - tri y0 y1 y2 y3 z0 z1 z2 z3 z0 z1 z2 z3.
  - tri y0 y1 y2 y3 y0 y1 y2 y3 1 0 0 0.
  - tri y0 y1 y2 y3 y0 y1 y2 y3 z0 z1 z2 z3.
  - tri y0 y1 y2 y3 y0 y1 y2 y3 y0 y1 y2 y3.
  - tri x0 x1 x2 x3 1 0 0 0 1 0 0 0.
  - tri x0 x1 x2 x3 z0 z1 z2 z3 1 0 0 0.
  - tri x0 x1 x2 x3 z0 z1 z2 z3 z0 z1 z2 z3.
  - tri x0 x1 x2 x3 y0 y1 y2 y3 1 0 0 0.
  - tri x0 x1 x2 x3 y0 y1 y2 y3 z0 z1 z2 z3.
  - tri x0 x1 x2 x3 y0 y1 y2 y3 y0 y1 y2 y3.
  - tri x0 x1 x2 x3 x0 x1 x2 x3 1 0 0 0.
  - tri x0 x1 x2 x3 x0 x1 x2 x3 z0 z1 z2 z3.
  - tri x0 x1 x2 x3 x0 x1 x2 x3 y0 y1 y2 y3.
  - tri x0 x1 x2 x3 x0 x1 x2 x3 x0 x1 x2 x3.
Qed.
Lemma isP3_comp : forall c X Y Z,
  (exists a b c d, forall u v w, X u v w = a + b * u + c * v + d * w) ->
  (exists a b c d, forall u v w, Y u v w = a + b * u + c * v + d * w) ->
  (exists a b c d, forall u v w, Z u v w = a + b * u + c * v + d * w) ->
  isP3 (fun u v w => poly3 c (X u v w) (Y u v w) (Z u v w)).
Proof.
  intros c X Y Z HX HY HZ. unfold poly3. apply isP3_sumn. intros a Ha. apply isP3_sumn. intros b Hb. apply isP3_sumn. intros d Hd.
  apply (isP3_scal (c a b d)). apply isP3_monomial; auto. lia.
Qed.

(** The shape functions sum to one, and the integral of every polynomial of degree at most three over a
    tetrahedron (a triangle) is the weighted sum of its values at the interpolated Gauss points. *)
Theorem C47_quadrature : forall (c : nat -> nat -> nat -> R),
  let f (x : vec) := poly3 c (vx x) (vy x) (vz x) in
  (forall q, sumn 5 (fun j => weight q j * f (interpV q j)) = tet_integral q f) /\
  (forall q, sumn 4 (fun j => tweight q j * f (tinterpV q j)) = tri_integral q f) /\
  (forall j, (j < 5)%nat -> sumn 4 (fun i => sh i j) = 1) /\
  (forall j, (j < 4)%nat -> sumn 3 (fun i => tsh i j) = 1).
Proof.
  intros c f. split; [|split; [|split]].
  - intros q. unfold tet_integral. replace (6 * calc_vol q) with (detJ q) by (rewrite vol_det; field).
    destruct (isP3_comp c (fun u v w => vx (at_ref q u v w)) (fun u v w => vy (at_ref q u v w)) (fun u v w => vz (at_ref q u v w))) as (d & Hd).
    + exists (vx (q 0%nat)), (vx (q 1%nat) - vx (q 0%nat)), (vx (q 2%nat) - vx (q 0%nat)), (vx (q 3%nat) - vx (q 0%nat)).
      intros. unfold at_ref. vsimpl. ring.
    + exists (vy (q 0%nat)), (vy (q 1%nat) - vy (q 0%nat)), (vy (q 2%nat) - vy (q 0%nat)), (vy (q 3%nat) - vy (q 0%nat)).
      intros. unfold at_ref. vsimpl. ring.
    + exists (vz (q 0%nat)), (vz (q 1%nat) - vz (q 0%nat)), (vz (q 2%nat) - vz (q 0%nat)), (vz (q 3%nat) - vz (q 0%nat)).
      intros. unfold at_ref. vsimpl. ring.
    + assert (E : integral3 (fun u v w => f (at_ref q u v w)) = integral3 (poly3 d)).
      { transitivity (sumn 4 (fun a => sumn (4 - a) (fun b => sumn (4 - a - b) (fun e => d a b e * dirichlet3 a b e)))).
        - apply is_I3_unique. apply (is_I3_ext (poly3 d)); [intros; symmetry; apply Hd|]. apply poly3_I3.
        - symmetry. apply is_I3_unique, poly3_I3. }
      rewrite E, <- quad_exact3, <- sumn_scale. apply sumn_ext. intros j _. unfold weight.
      rewrite <- Hd. unfold f. replace (at_ref q (gu j) (gv j) (gw j)) with (interpV q j).
      * ring.
      * unfold interpV, at_ref, vsumn. cbn [sumn]. unfold sh. apply vec_eq; vsimpl; ring.
  - intros q. unfold tri_integral.
    destruct (isP2_of_P3 (fun u v => f (at_ref2 q u v))) as (d & Hd).
    { apply (isP3_comp c (fun u v _ => vx (at_ref2 q u v)) (fun u v _ => vy (at_ref2 q u v)) (fun u v _ => vz (at_ref2 q u v))).
      + exists (vx (q 0%nat)), (vx (q 1%nat) - vx (q 0%nat)), (vx (q 2%nat) - vx (q 0%nat)), 0. intros. unfold at_ref2. vsimpl. ring.
      + exists (vy (q 0%nat)), (vy (q 1%nat) - vy (q 0%nat)), (vy (q 2%nat) - vy (q 0%nat)), 0. intros. unfold at_ref2. vsimpl. ring.
      + exists (vz (q 0%nat)), (vz (q 1%nat) - vz (q 0%nat)), (vz (q 2%nat) - vz (q 0%nat)), 0. intros. unfold at_ref2. vsimpl. ring. }
    assert (E : integral2 (fun u v => f (at_ref2 q u v)) = integral2 (poly3_2 d)).
    { transitivity (sumn 4 (fun a => sumn (4 - a) (fun b => d a b * dirichlet2 a b))).
      - apply is_I2_unique. apply (is_I2_ext (poly3_2 d)); [intros; symmetry; apply Hd|]. apply poly3_I2.
      - symmetry. apply is_I2_unique, poly3_I2. }
    rewrite E, <- quad_exact2, <- sumn_scale. apply sumn_ext. intros j _. unfold tweight.
    rewrite <- Hd. replace (at_ref2 q (tu j) (tv j)) with (tinterpV q j).
    + ring.
    + unfold tinterpV, at_ref2, vsumn. cbn [sumn]. unfold tsh. apply vec_eq; vsimpl; ring.
  - intros j _. cbn [sumn]. unfold sh. ring.
  - intros j _. cbn [sumn]. unfold tsh. ring.
Qed.

(** a cubic with a non zero integral; and the rule is not exact for degree four: u^4 *)
Example C47_nonvacuous : integral3 (fun u v w => u * v * w) = / 720.
Proof.
  apply is_I3_unique. apply (is_I3_ext (fun u v w => u ^ 1 * v ^ 1 * w ^ 1)). { intros. ring. }
  replace (/ 720) with (dirichlet3 1 1 1). { apply monomial3. }
  unfold dirichlet3, beta. cbn [Nat.add fact]. rewrite ?INR_IZR_INZ. simpl IZR. field.
Qed.
Example C47_degree_three_only : sumn NPI (fun j => pds j * (gu j) ^ 4) <> integral3 (fun u _ _ => u ^ 4).
Proof.
  rewrite (is_I3_unique (fun u _ _ => u ^ 4) (dirichlet3 4 0 0)).
  - unfold dirichlet3, beta. tabs. cbn [Nat.add fact sumn]. rewrite ?INR_IZR_INZ. simpl IZR. lra.
  - apply (is_I3_ext (fun u v w => u ^ 4 * v ^ 0 * w ^ 0)). { intros. ring. } apply monomial3.
Qed.

Print Assumptions C47_quadrature.
