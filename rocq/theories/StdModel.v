(** * What the C++ standard library guarantees of the algorithms the code calls

    [std::sort] is not stable and its result is not unique: the theorems hold for every result that its
    specification allows. The same for the order of the operations of [std::reduce]. *)
From Coq Require Import List Arith Bool Permutation Sorted Lia Reals Lra.
From Verif Require Import Sums.
Import ListNotations.

(** std::sort(first, last, comp): a permutation of the range in which no element is less than an earlier one *)
Definition sort_result {X} (lt : X -> X -> Prop) (l l' : list X) : Prop :=
  Permutation l l' /\ StronglySorted (fun a b => ~ lt b a) l'.

(** an executable sort, to show that the specification can be met *)
Fixpoint insert_sorted {X} (ltb : X -> X -> bool) (x : X) (l : list X) : list X :=
  match l with [] => [x] | y :: l' => if ltb y x then y :: insert_sorted ltb x l' else x :: l end.
Definition isort {X} (ltb : X -> X -> bool) (l : list X) : list X := fold_right (insert_sorted ltb) [] l.

Section isort_sec.
Context {X : Type} (ltb : X -> X -> bool).
Hypothesis asym : forall a b, ltb a b = true -> ltb b a = false.
Hypothesis negtrans : forall a b c, ltb b a = false -> ltb c b = false -> ltb c a = false.

Lemma insert_perm : forall x l, Permutation (x :: l) (insert_sorted ltb x l).
Proof.
  intros x. induction l as [|y l IH]; simpl; auto. destruct (ltb y x); auto.
  rewrite perm_swap. apply perm_skip. exact IH.
Qed.

Lemma insert_ok : forall x l, StronglySorted (fun a b => ltb b a <> true) l ->
  StronglySorted (fun a b => ltb b a <> true) (insert_sorted ltb x l).
Proof.
  intros x. induction l as [|y l IH]; simpl; intros H.
  - repeat constructor.
  - inversion H as [|? ? H1 H2]; subst. destruct (ltb y x) eqn:E.
    + constructor; auto. rewrite Forall_forall in *. intros z Hz.
      apply (Permutation_in _ (Permutation_sym (insert_perm x l))) in Hz. destruct Hz as [<-|Hz]; auto.
      rewrite asym by exact E. discriminate.
    + constructor; auto. constructor. { rewrite E. discriminate. }
      rewrite Forall_forall in *. intros z Hz. specialize (H2 z Hz). apply not_true_is_false in H2.
      rewrite (negtrans x y z); auto.
Qed.

Lemma isort_ok : forall l, sort_result (fun a b => ltb a b = true) l (isort ltb l).
Proof.
  intros l. split.
  - induction l as [|x l IH]; simpl; auto. rewrite <- insert_perm. apply perm_skip. exact IH.
  - induction l as [|x l IH]; simpl; [constructor|]. apply insert_ok. exact IH.
Qed.
End isort_sec.

(** std::unique followed by erase: one element of each run of equal elements *)
Fixpoint unique {X} (eqb : X -> X -> bool) (l : list X) : list X :=
  match l with
  | [] => []
  | x :: l' => match l' with
               | [] => [x]
               | y :: _ => if eqb x y then unique eqb l' else x :: unique eqb l'
               end
  end.

(** std::reduce and std::transform_reduce (with or without an execution policy): the values and the initial
    value are combined in any order and grouping *)
Inductive grouping {X} (op : X -> X -> X) : list X -> X -> Prop :=
| grp_one : forall x, grouping op [x] x
| grp_node : forall l1 l2 r1 r2, grouping op l1 r1 -> grouping op l2 r2 -> grouping op (l1 ++ l2) (op r1 r2).

Definition reduce_result {X} (op : X -> X -> X) (init : X) (l : list X) (r : X) : Prop :=
  exists l', Permutation (init :: l) l' /\ grouping op l' r.

Lemma grouping_sum : forall l r, grouping Rplus l r -> r = lsum l.
Proof.
  induction 1; simpl. { ring. } rewrite lsum_app. congruence.
Qed.

(** with a sum of real numbers the result is unique *)
Lemma reduce_sum : forall a l r, reduce_result Rplus a l r -> r = (a + lsum l)%R.
Proof.
  intros a l r (l' & P & G). apply grouping_sum in G. rewrite G, <- (lsum_perm _ _ P). reflexivity.
Qed.

Lemma reduce_exists : forall {X} (op : X -> X -> X) a l, reduce_result op a l (fold_left op l a).
Proof.
  intros X op a l. exists (a :: l). split; auto.
  cut (forall pre r, grouping op pre r -> grouping op (pre ++ l) (fold_left op l r)).
  { intros H. apply (H [a] a). constructor. }
  induction l as [|x l IH]; intros pre r H; simpl. { rewrite app_nil_r. exact H. }
  replace (pre ++ x :: l) with ((pre ++ [x]) ++ l) by (rewrite <- app_assoc; reflexivity).
  apply IH. constructor; auto. constructor.
Qed.
