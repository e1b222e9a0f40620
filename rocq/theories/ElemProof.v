(** * Facts on the elements *)
From Coq Require Import Reals List Arith Bool Lia Lra Psatz.
From Flocq Require Import Core.
From Verif Require Import Vec Sums ElemModel.
Import ListNotations.
Local Open Scope R_scope.

Ltac tabs := unfold sh, gu, gv, gw, pds, tsh, tu, tv, tpds, NPI, tNPI; cbn [nth sumn].

Lemma detJ_mixed : forall q, detJ q = mixed_prod q.
Proof.
  intros q. unfold detJ, det3, jac, mixed_prod, dot, cross. simpl. ring.
Qed.

Lemma vol_det : forall q, calc_vol q = detJ q / 6.
Proof. intros q. unfold calc_vol, weight. tabs. field. Qed.

Lemma da_1 : forall q, da q 1 = vscale (/ detJ q) (cross (edge2 q) (edge3 q)).
Proof.
  intros q. unfold da, da_entry, inv3. change (det3 (jac q)) with (detJ q). generalize (detJ q) as d. intros d.
  apply vec_eq; cbn [sumn dadu nth vx vy vz vscale cross jac comp nxt]; unfold dadu; cbn [nth]; unfold Rdiv; ring.
Qed.
Lemma da_2 : forall q, da q 2 = vscale (/ detJ q) (cross (edge3 q) (edge1 q)).
Proof.
  intros q. unfold da, da_entry, inv3. change (det3 (jac q)) with (detJ q). generalize (detJ q) as d. intros d.
  apply vec_eq; cbn [sumn dadu nth vx vy vz vscale cross jac comp nxt]; unfold dadu; cbn [nth]; unfold Rdiv; ring.
Qed.
Lemma da_3 : forall q, da q 3 = vscale (/ detJ q) (cross (edge1 q) (edge2 q)).
Proof.
  intros q. unfold da, da_entry, inv3. change (det3 (jac q)) with (detJ q). generalize (detJ q) as d. intros d.
  apply vec_eq; cbn [sumn dadu nth vx vy vz vscale cross jac comp nxt]; unfold dadu; cbn [nth]; unfold Rdiv; ring.
Qed.
Lemma da_0 : forall q, da q 0 = vsub vzero (vadd (vadd (da q 1) (da q 2)) (da q 3)).
Proof.
  intros q. unfold da, da_entry. unfold dadu. cbn [sumn nth]. apply vec_eq; vsimpl; ring.
Qed.

(** the gradients are dual to the edges *)
Lemma grad_dual : forall q (g : vec), detJ q <> 0 ->
  vadd (vadd (vscale (dot g (edge1 q)) (da q 1)) (vscale (dot g (edge2 q)) (da q 2))) (vscale (dot g (edge3 q)) (da q 3)) = g.
Proof.
  intros q g H. rewrite da_1, da_2, da_3. rewrite detJ_mixed in *. unfold mixed_prod in *.
  destruct (edge1 q) as [a1 a2 a3], (edge2 q) as [b1 b2 b3], (edge3 q) as [c1 c2 c3], g as [g1 g2 g3].
  vsimpl. apply vec_eq; simpl; field; exact H.
Qed.

Lemma gradV_edges : forall q x, calc_gradV q x =
  vadd (vadd (vscale (x 1%nat - x 0%nat) (da q 1)) (vscale (x 2%nat - x 0%nat) (da q 2))) (vscale (x 3%nat - x 0%nat) (da q 3)).
Proof. intros q x. unfold calc_gradV, vsumn. cbn [sumn]. rewrite da_0. apply vec_eq; vsimpl; ring. Qed.

Lemma gradV_affine : forall q c g, detJ q <> 0 -> calc_gradV q (fun i => c + dot g (q i)) = g.
Proof.
  intros q c g H. rewrite gradV_edges.
  assert (E : forall k, c + dot g (q k) - (c + dot g (q 0%nat)) = dot g (vsub (q k) (q 0%nat))).
  { intros k. rewrite dot_sub_r. ring. }
  rewrite !E. apply grad_dual. exact H.
Qed.

(** the components of the derivatives are gradients of the components *)
Lemma deriv_grad : forall q u k, deriv q u k =
  V (comp k (calc_gradV q (fun i => vx (u i)))) (comp k (calc_gradV q (fun i => vy (u i)))) (comp k (calc_gradV q (fun i => vz (u i)))).
Proof.
  intros q u k. unfold deriv, calc_gradV, vsumn. cbn [sumn].
  destruct k as [|[|k]]; apply vec_eq; vsimpl; ring.
Qed.

(** weighted sums of interpolated values *)
Lemma wdot_linear : forall q x, wdot q (interp x) = calc_vol q * ((x 0%nat + x 1%nat + x 2%nat + x 3%nat) / 4).
Proof. intros q x. rewrite vol_det. unfold wdot, interp, weight. generalize (detJ q). intros d. tabs. field. Qed.

Lemma wdot_square : forall q x, wdot q (fun j => interp x j * interp x j) =
  calc_vol q * (((x 0%nat)² + (x 1%nat)² + (x 2%nat)² + (x 3%nat)² + (x 0%nat + x 1%nat + x 2%nat + x 3%nat)²) / 20).
Proof. intros q x. rewrite vol_det. unfold wdot, interp, weight, Rsqr. generalize (detJ q). intros d. tabs. field. Qed.

Lemma wdot_product : forall q x y, wdot q (fun j => interp x j * interp y j) =
  calc_vol q * ((x 0%nat * y 0%nat + x 1%nat * y 1%nat + x 2%nat * y 2%nat + x 3%nat * y 3%nat +
    (x 0%nat + x 1%nat + x 2%nat + x 3%nat) * (y 0%nat + y 1%nat + y 2%nat + y 3%nat)) / 20).
Proof. intros q x y. rewrite vol_det. unfold wdot, interp, weight. generalize (detJ q). intros d. tabs. field. Qed.

Lemma wdot_const : forall q c, wdot q (fun _ => c) = calc_vol q * c.
Proof. intros q c. rewrite vol_det. unfold wdot, weight. tabs. field. Qed.

Lemma wdot_ext : forall q f g, (forall j, (j < 5)%nat -> f j = g j) -> wdot q f = wdot q g.
Proof. intros q f g H. unfold wdot. apply sumn_ext. intros j Hj. rewrite H; auto. Qed.

Lemma interp_dot : forall u n j, dot n (interpV u j) = interp (fun i => dot n (u i)) j.
Proof. intros u n j. unfold interpV, interp, vsumn. cbn [sumn]. vsimpl. ring. Qed.
Lemma interp_const : forall u (c : vec) j, (j < 5)%nat -> (forall i, (i < 4)%nat -> u i = c) -> interpV u j = c.
Proof.
  intros u c j Hj H. unfold interpV, vsumn. cbn [sumn]. rewrite !H by lia. unfold sh. apply vec_eq; vsimpl; ring.
Qed.

(** ** effective damping *)
Lemma alpha_eff_cases : forall gamma0 dt alpha h, 0 < gamma0 -> 0 < dt -> 0 < alpha ->
  let r := gamma0 * dt in let M := 2 * alpha * (1 / 10) / r in
  (M < h -> alpha_eff gamma0 dt alpha h = alpha + alpha / 10) /\
  (0 <= h <= M -> alpha_eff gamma0 dt alpha h = alpha + r / 2 * h) /\
  (- M <= h <= 0 -> alpha_eff gamma0 dt alpha h = alpha * alpha / (alpha - r / 2 * h)) /\
  (h < - M -> alpha_eff gamma0 dt alpha h = alpha / (11 / 10)).
Proof.
  intros g dt al h Hg Hd Ha r M. assert (Hr : 0 < r) by (unfold r; apply Rmult_lt_0_compat; assumption).
  assert (HM : 0 < M). { unfold M. apply Rdiv_lt_0_compat; lra. }
  assert (E : r / 2 * M = al / 10). { unfold M. field. lra. }
  unfold alpha_eff. fold r. fold M.
  split; [|split; [|split]]; intros H.
  - rewrite !Rlt_bool_true by lra. rewrite E. reflexivity.
  - destruct (Req_dec h 0) as [->|Hn].
    + rewrite (Rlt_bool_false 0 0) by lra. rewrite Rlt_bool_false by lra. field. lra.
    + rewrite (Rlt_bool_true 0 h) by lra. rewrite Rlt_bool_false by lra. reflexivity.
  - assert (0 < al - r / 2 * h). { assert (r / 2 * h <= 0) by nra. lra. }
    rewrite (Rlt_bool_false 0 h) by lra. rewrite Rlt_bool_false by lra. field. split; lra.
  - rewrite (Rlt_bool_false 0 h) by lra. rewrite Rlt_bool_true by lra. f_equal.
    replace (r / (2 * al) * M) with (r / 2 * M / al) by (field; lra). rewrite E. field. lra.
Qed.

(** the increment of alpha_eff between two fields *)
Lemma alpha_eff_incr : forall gamma0 dt alpha h h', 0 < gamma0 -> 0 < dt -> 0 < alpha -> h <= h' ->
  0 <= alpha_eff gamma0 dt alpha h' - alpha_eff gamma0 dt alpha h <= gamma0 * dt / 2 * (h' - h).
Proof.
  intros g dt al h h' Hg Hd Ha Hle. set (r := g * dt). assert (Hr : 0 < r) by (unfold r; apply Rmult_lt_0_compat; assumption).
  set (M := 2 * al * (1 / 10) / r). assert (HM : 0 < M). { unfold M. apply Rdiv_lt_0_compat; lra. }
  assert (E : r / 2 * M = al / 10). { unfold M. field. lra. }
  set (f := alpha_eff g dt al).
  (* chaining the property through an intermediate point *)
  assert (chain : forall a b c, (0 <= f b - f a <= r / 2 * (b - a)) -> (0 <= f c - f b <= r / 2 * (c - b)) ->
    0 <= f c - f a <= r / 2 * (c - a)).
  { intros a b c H1 H2. nra. }
  assert (cs : forall x, _) by (intros x; exact (alpha_eff_cases g dt al x Hg Hd Ha)).
  cbv zeta in cs. fold r in cs. fold M in cs. fold f in cs.
  assert (p1 : forall a b, a <= b -> b <= - M -> 0 <= f b - f a <= r / 2 * (b - a)).
  { intros a b H1 H2. assert (K : forall x, x <= - M -> f x = al / (11 / 10)).
    { intros x Hx. destruct (Req_dec x (- M)) as [->|Hn].
      - rewrite (proj1 (proj2 (proj2 (cs (- M))))) by lra.
        replace (r / 2 * - M) with (- (al / 10)) by (rewrite <- E; ring). field. lra.
      - apply (cs x). lra. }
    rewrite !K by lra. nra. }
  assert (p2 : forall a b, - M <= a -> a <= b -> b <= 0 -> 0 <= f b - f a <= r / 2 * (b - a)).
  { intros a b H0 H1 H2. rewrite (proj1 (proj2 (proj2 (cs a)))) by lra. rewrite (proj1 (proj2 (proj2 (cs b)))) by lra.
    set (x := - (r / 2 * a)). set (y := - (r / 2 * b)).
    assert (Hy : 0 <= y) by (unfold y; nra). assert (Hxy : y <= x) by (unfold x, y; nra).
    replace (al - r / 2 * b) with (al + y) by (unfold y; ring). replace (al - r / 2 * a) with (al + x) by (unfold x; ring).
    replace (r / 2 * (b - a)) with (x - y) by (unfold x, y; ring).
    replace (al * al / (al + y) - al * al / (al + x)) with ((x - y) * (al * al / ((al + y) * (al + x)))) by (field; lra).
    assert (0 <= al * al / ((al + y) * (al + x)) <= 1).
    { split.
      - apply Rlt_le. apply Rdiv_lt_0_compat; nra.
      - apply Rmult_le_reg_r with ((al + y) * (al + x)). { nra. }
        unfold Rdiv. rewrite Rmult_assoc, Rinv_l by nra. nra. }
    nra. }
  assert (p3 : forall a b, 0 <= a -> a <= b -> b <= M -> 0 <= f b - f a <= r / 2 * (b - a)).
  { intros a b H0 H1 H2. rewrite (proj1 (proj2 (cs a))) by lra. rewrite (proj1 (proj2 (cs b))) by lra. nra. }
  assert (p4 : forall a b, M <= a -> a <= b -> 0 <= f b - f a <= r / 2 * (b - a)).
  { intros a b H1 H2. assert (K : forall x, M <= x -> f x = al + al / 10).
    { intros x Hx. destruct (Req_dec x M) as [->|Hn].
      - rewrite (proj1 (proj2 (cs M))) by lra. rewrite E. reflexivity.
      - apply (cs x). lra. }
    rewrite !K by lra. nra. }
  assert (q3 : forall a b, 0 <= a -> a <= b -> 0 <= f b - f a <= r / 2 * (b - a)).
  { intros a b H1 H2. destruct (Rle_dec b M). { apply p3; lra. } destruct (Rle_dec M a). { apply p4; lra. }
    apply (chain a M b); [apply p3|apply p4]; lra. }
  assert (q2 : forall a b, - M <= a -> a <= b -> 0 <= f b - f a <= r / 2 * (b - a)).
  { intros a b H1 H2. destruct (Rle_dec b 0). { apply p2; lra. } destruct (Rle_dec 0 a). { apply q3; lra. }
    apply (chain a 0 b); [apply p2|apply q3]; lra. }
  destruct (Rle_dec h' (- M)). { apply p1; lra. } destruct (Rle_dec (- M) h). { apply q2; lra. }
  apply (chain h (- M) h'); [apply p1|apply q2]; lra.
Qed.

Lemma alpha_eff_zero : forall gamma0 dt alpha, 0 < gamma0 -> 0 < dt -> 0 < alpha -> alpha_eff gamma0 dt alpha 0 = alpha.
Proof.
  intros g dt al Hg Hd Ha. assert (Hr : 0 < g * dt) by (apply Rmult_lt_0_compat; assumption).
  assert (HM : 0 < 2 * al * (1 / 10) / (g * dt)). { apply Rdiv_lt_0_compat; lra. }
  rewrite (proj1 (proj2 (alpha_eff_cases g dt al 0 Hg Hd Ha))); lra.
Qed.

Lemma alpha_eff_bounds : forall gamma0 dt alpha h, 0 < gamma0 -> 0 < dt -> 0 < alpha ->
  alpha / (11 / 10) <= alpha_eff gamma0 dt alpha h <= alpha * (11 / 10).
Proof.
  intros g dt al h Hg Hd Ha. assert (Hr : 0 < g * dt) by (apply Rmult_lt_0_compat; assumption).
  set (M := 2 * al * (1 / 10) / (g * dt)). assert (HM : 0 < M). { unfold M. apply Rdiv_lt_0_compat; lra. }
  set (lo := Rmin h (- M - 1)). set (hi := Rmax h (M + 1)).
  pose proof (alpha_eff_incr g dt al lo h Hg Hd Ha (Rmin_l _ _)) as [H1 _].
  pose proof (alpha_eff_incr g dt al h hi Hg Hd Ha (Rmax_l _ _)) as [H2 _].
  pose proof (alpha_eff_cases g dt al lo Hg Hd Ha) as (_ & _ & _ & L). pose proof (alpha_eff_cases g dt al hi Hg Hd Ha) as (U & _).
  fold M in L, U. rewrite L in H1. 2: { pose proof (Rmin_r h (- M - 1)). fold lo in H. lra. }
  rewrite U in H2. 2: { pose proof (Rmax_r h (M + 1)). fold hi in H. lra. }
  lra.
Qed.

(** ** element matrix *)
(** the quadratic form of the matrix AE *)
Definition quad (AE : nat -> nat -> nat -> nat -> R) (x : nat -> vec) : R :=
  sumn 3 (fun k => sumn 3 (fun l => sumn 4 (fun i => sumn 4 (fun j => comp k (x i) * AE k l i j * comp l (x j))))).

Lemma quad_lumping : forall q al c u x,
  quad (lumping q al c u) x =
  c * calc_vol q * (sqn (deriv q x 0) + sqn (deriv q x 1) + sqn (deriv q x 2)) + sumn 4 (fun i => contrib q al i * sqn (x i)).
Proof.
  intros q al c u x. unfold quad, lumping, diag_block, sqn, deriv, vsumn. cbn [sumn Nat.eqb].
  generalize (contrib q al 0) (contrib q al 1) (contrib q al 2) (contrib q al 3) (calc_vol q)
    (a_w q 0) (a_w q 1) (a_w q 2) (a_w q 3). intros c0 c1 c2 c3 vol w0 w1 w2 w3.
  unfold dot, vscale. cbn [comp vx vy vz]. ring.
Qed.

(** the mass terms are positive although one Gauss weight is negative *)
Lemma contrib_bound : forall q al alpha i, 0 < detJ q -> 0 < alpha -> (i < 4)%nat ->
  (forall j, (j < 5)%nat -> alpha / (11 / 10) <= al j <= alpha * (11 / 10)) ->
  52 / 275 * alpha * calc_vol q <= contrib q al i.
Proof.
  intros q al alpha i Hd Ha Hi H. rewrite vol_det. unfold contrib, weight.
  pose proof (H 0%nat ltac:(lia)) as H0. pose proof (H 1%nat ltac:(lia)) as H1. pose proof (H 2%nat ltac:(lia)) as H2.
  pose proof (H 3%nat ltac:(lia)) as H3. pose proof (H 4%nat ltac:(lia)) as H4. clear H.
  assert (E : exists e, sumn NPI (fun j => sh i j * (detJ q * pds j * al j)) = detJ q * e /\ 26 / 825 * alpha <= e).
  { destruct i as [|[|[|[|i]]]]; [| | | |lia].
    - exists (-1/30 * al 0%nat + 3/80 * al 1%nat + 1/80 * al 2%nat + 1/80 * al 3%nat + 1/80 * al 4%nat).
      split; [tabs; field|lra].
    - exists (-1/30 * al 0%nat + 1/80 * al 1%nat + 1/80 * al 2%nat + 1/80 * al 3%nat + 3/80 * al 4%nat). split; [tabs; field|lra].
    - exists (-1/30 * al 0%nat + 1/80 * al 1%nat + 1/80 * al 2%nat + 3/80 * al 3%nat + 1/80 * al 4%nat). split; [tabs; field|lra].
    - exists (-1/30 * al 0%nat + 1/80 * al 1%nat + 3/80 * al 2%nat + 1/80 * al 3%nat + 1/80 * al 4%nat). split; [tabs; field|lra]. }
  destruct E as (e & -> & He).
  replace (52 / 275 * alpha * (detJ q / 6)) with (detJ q * (26 / 825 * alpha)) by field.
  apply Rmult_le_compat_l; lra.
Qed.
