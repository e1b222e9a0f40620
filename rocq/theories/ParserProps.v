(** * C65: evaluating the functions given by the user *)
From Coq Require Import String Ascii List Arith Bool ZArith Lia.
From Verif Require Import TextModel Arith SettingsModel SettingsProps ParserModel.
Import ListNotations.

(** ** Specification: what the uses of a parser mean, without any stack *)
Section Spec.
Context {N : Type} (E : engine N).
Notation value := (value N (obj E)).

(** the number a value is: NaN if it is not a number *)
Definition as_number (v : value) : N := match v with Num x => x | _ => nan E end.

(** reading the three components of what a function returned, in order *)
Inductive components (h : heap E) (v : value) : N -> N -> N -> heap E -> Prop :=
  components_intro h0 h1 h2 x y z :
    property E h v 0 = (h0, Some (true, x)) -> property E h0 v 1 = (h1, Some (true, y)) ->
    property E h1 v 2 = (h2, Some (true, z)) -> components h v (as_number x) (as_number y) (as_number z) h2.

(** the arguments the function is called with, for the uses which call it *)
Definition call_of (u : use) : option (list value) :=
  match u with
  | Scalar a => Some [Num a]
  | VectorT t => Some [Num t]
  | VectorP x y z => Some [Num x; Num y; Num z]
  | VectorR x y z regions => Some [Num x; Num y; Num z; Arr (map (fun r => Str (c_str r)) regions)]
  | _ => None
  end.
Definition wants_vector (u : @use N) : bool := match u with VectorT _ | VectorP _ _ _ | VectorR _ _ _ _ => true | _ => false end.
(** the source of the function, for the uses which set it *)
Definition source_of (u : @use N) : option text :=
  match u with
  | SetFunction f => Some f
  | SetExpressions p x y z =>
      Some (txt "function(" ++ p ++ txt ") { return [(" ++ x ++ txt "), (" ++ y ++ txt "), (" ++ z ++ txt ")]; }")
  | _ => None
  end.

(** [means h f u a h' f']: with the interpreter in the state h and the function f (None: no function was set), the
    use u gives the answer a, and leaves h' and f' *)
Inductive means : heap E -> option value -> use -> answer -> heap E -> option value -> Prop :=
  | means_set h f u src h' g : source_of u = Some src -> compile E h (c_str src) = (h', inl g) -> means h f u Nothing h' (Some g)
  | means_count h f : means h f Count (AnsCount (match f with Some g => arity E h g | None => 0 end)) h f
  | means_scalar h f a v h' : apply E h f [Num a] = (h', inl v) -> means h (Some f) (Scalar a) (AnsScalar (as_number v)) h' (Some f)
  | means_vector h f u args v h1 h2 x y z :
      wants_vector u = true -> call_of u = Some args -> apply E h f args = (h1, inl v) -> components h1 v x y z h2 ->
      means h (Some f) u (AnsVector x y z) h2 (Some f).

Inductive history : heap E -> option value -> list use -> list answer -> heap E -> option value -> Prop :=
  | history_nil h f : history h f [] [] h f
  | history_cons h f u a h1 f1 us l h2 f2 :
      means h f u a h1 f1 -> history h1 f1 us l h2 f2 -> history h f (u :: us) (a :: l) h2 f2.

(** the uses which end the program with a message and the failure status: the source does not compile, the function
    throws, or what it returned lacks one of the three components *)
Inductive rejected : heap E -> option value -> use -> Prop :=
  | rejected_source h f u src h' e : source_of u = Some src -> compile E h (c_str src) = (h', inr e) -> rejected h f u
  | rejected_call h f u args h' e : call_of u = Some args -> apply E h f args = (h', inr e) -> rejected h (Some f) u
  | rejected_vector h f u args h1 v : wants_vector u = true -> call_of u = Some args -> apply E h f args = (h1, inl v) ->
      (exists h0 x, property E h1 v 0 = (h0, Some (false, x))) \/
      (exists h0 x h2 y, property E h1 v 0 = (h0, Some (true, x)) /\ property E h0 v 1 = (h2, Some (false, y))) \/
      (exists h0 x h2 y h3 z, property E h1 v 0 = (h0, Some (true, x)) /\ property E h0 v 1 = (h2, Some (true, y)) /\
         property E h2 v 2 = (h3, Some (false, z))) -> rejected h (Some f) u.

(** the uses which make Duktape abort: no function was set, or reading a component throws *)
Inductive aborted : heap E -> option value -> use -> Prop :=
  | aborted_unset h u args : call_of u = Some args -> aborted h None u
  | aborted_read h f u args h1 v : wants_vector u = true -> call_of u = Some args -> apply E h f args = (h1, inl v) ->
      (exists h0, property E h1 v 0 = (h0, None)) \/
      (exists h0 x h2, property E h1 v 0 = (h0, Some (true, x)) /\ property E h0 v 1 = (h2, None)) \/
      (exists h0 x h2 y h3, property E h1 v 0 = (h0, Some (true, x)) /\ property E h0 v 1 = (h2, Some (true, y)) /\
         property E h2 v 2 = (h3, None)) -> aborted h (Some f) u.

(** a stack which holds the function and nothing else *)
Definition holding (h : heap E) (f : option value) : state E := mkState h (match f with Some g => [g] | None => [] end).
End Spec.

(** ** Proof *)
Section Proof.
Context {N : Type} (E : engine N).
Notation value := (value N (obj E)).
Hypothesis room : 7 <= capacity E.

Lemma push_ok v s : length (stack s) < 7 -> push E v s = Done tt (mkState (mem s) (v :: stack s)).
Proof. intros H. unfold push. destruct (Nat.ltb_spec (length (stack s)) (capacity E)); [reflexivity|lia]. Qed.

Lemma push_regions_ok h (f : value) x y z regions l :
  push_regions E (length l) regions (mkState h (Arr l :: Num z :: Num y :: Num x :: [f; f]))
  = Done tt (mkState h (Arr (l ++ map (fun r => Str (c_str r)) regions) :: Num z :: Num y :: Num x :: [f; f])).
Proof.
  revert l. induction regions as [|r regions IH]; intros l; cbn [push_regions map]; [now rewrite app_nil_r|].
  rewrite push_ok by (cbn; lia). cbn [bind mem stack]. unfold put_prop_index. cbn [stack]. rewrite Nat.eqb_refl. cbn [bind mem].
  replace (S (length l)) with (length (l ++ [Str (c_str r)] : list value)) by (rewrite app_length; cbn; lia).
  rewrite IH, <- app_assoc. reflexivity.
Qed.

(** the calls of compute_vector, on a stack ready for the call *)
Lemma vector_cases h (f : value) args n : n = length args -> n <= 4 ->
  (forall h1 v x y z h2, apply E h f args = (h1, inl v) -> components E h1 v x y z h2 ->
     compute_vector E n (mkState h (rev args ++ [f; f])) = Done (x, y, z) (mkState h2 [f])).
Proof.
  intros -> L h1 v x y z h2 A C. unfold compute_vector, pcall. cbn [stack mem].
  rewrite <- (rev_length args), skipn_app, Nat.sub_diag, skipn_all. cbn [skipn app]. rewrite firstn_app, Nat.sub_diag, firstn_all. cbn [firstn].
  rewrite app_nil_r, rev_involutive, A. cbn [bind die_if_error].
  destruct C as [h0 h1' h2 x y z P0 P1 P2].
  unfold get_vector_component, get_prop.
  rewrite push_ok by (cbn; lia). cbn [bind stack mem]. rewrite P0. cbn [bind pop stack mem get_number].
  rewrite push_ok by (cbn; lia). cbn [bind stack mem]. rewrite P1. cbn [bind pop stack mem get_number].
  rewrite push_ok by (cbn; lia). cbn [bind stack mem]. rewrite P2. cbn [bind pop stack mem get_number]. reflexivity.
Qed.

Lemma vector_all h (f : value) args n : n = length args -> n <= 4 ->
  (exists h1 v x y z h2, apply E h f args = (h1, inl v) /\ components E h1 v x y z h2 /\
     compute_vector E n (mkState h (rev args ++ [f; f])) = Done (x, y, z) (mkState h2 [f])) \/
  ((exists h' e, apply E h f args = (h', inr e)) \/ (exists h1 v, apply E h f args = (h1, inl v) /\ (
     (exists h0 x, property E h1 v 0 = (h0, Some (false, x))) \/
      (exists h0 x h2 y, property E h1 v 0 = (h0, Some (true, x)) /\ property E h0 v 1 = (h2, Some (false, y))) \/
      (exists h0 x h2 y h3 z, property E h1 v 0 = (h0, Some (true, x)) /\ property E h0 v 1 = (h2, Some (true, y)) /\
         property E h2 v 2 = (h3, Some (false, z)))))) /\ compute_vector E n (mkState h (rev args ++ [f; f])) = Exit \/
  (exists h1 v, apply E h f args = (h1, inl v) /\ (
      (exists h0, property E h1 v 0 = (h0, None)) \/
      (exists h0 x h2, property E h1 v 0 = (h0, Some (true, x)) /\ property E h0 v 1 = (h2, None)) \/
      (exists h0 x h2 y h3, property E h1 v 0 = (h0, Some (true, x)) /\ property E h0 v 1 = (h2, Some (true, y)) /\
         property E h2 v 2 = (h3, None)))) /\ compute_vector E n (mkState h (rev args ++ [f; f])) = Abort.
Proof.
  intros Hn L. pose proof (vector_cases h f args n Hn L) as V. subst n. revert V. unfold compute_vector, pcall. cbn [stack mem].
  rewrite <- (rev_length args), skipn_app, Nat.sub_diag, skipn_all. cbn [skipn app]. rewrite firstn_app, Nat.sub_diag, firstn_all. cbn [firstn].
  rewrite app_nil_r, rev_involutive. destruct (apply E h f args) as [h1 [v|e]] eqn:A.
  2: { intros _. right. left. split; [left; eauto|reflexivity]. }
  intros V. cbn [bind die_if_error] in *. unfold get_vector_component, get_prop in *.
  rewrite push_ok in * by (cbn; lia). cbn [bind stack mem] in *.
  destruct (property E h1 v 0) as [h2 [[[] x]|]] eqn:P0.
  2: { right. left. split; [right; exists h1, v; split; eauto|reflexivity]. }
  2: { right. right. split; [exists h1, v; split; eauto|reflexivity]. }
  cbn [bind pop stack mem] in *. rewrite push_ok in * by (cbn; lia). cbn [bind stack mem] in *.
  destruct (property E h2 v 1) as [h3 [[[] y]|]] eqn:P1.
  2: { right. left. split; [right; exists h1, v; split; eauto 8|reflexivity]. }
  2: { right. right. split; [exists h1, v; split; eauto 8|reflexivity]. }
  cbn [bind pop stack mem] in *. rewrite push_ok in * by (cbn; lia). cbn [bind stack mem] in *.
  destruct (property E h3 v 2) as [h4 [[[] z]|]] eqn:P2.
  2: { right. left. split; [right; exists h1, v; split; eauto 12|reflexivity]. }
  2: { right. right. split; [exists h1, v; split; eauto 12|reflexivity]. }
  left. exists h1, v, (as_number E x), (as_number E y), (as_number E z), h4.
  assert (C : components E h1 v (as_number E x) (as_number E y) (as_number E z) h4) by (econstructor; eassumption).
  split; [reflexivity|]. split; [exact C|]. exact (V _ _ _ _ _ _ eq_refl C).
Qed.

(** the arguments of the three forms of get_vector are in place when compute_vector is called *)
Lemma vector_call h (f : value) u args : wants_vector u = true -> call_of E u = Some args ->
  perform E u (holding E h (Some f)) =
  bind E (compute_vector E (length args) (mkState h (rev args ++ [f; f]))) (fun r s => Done (let '(x, y, z) := r in AnsVector x y z) s).
Proof.
  destruct u as [| | | |t|x y z|x y z regions]; try discriminate; intros _ H; injection H as <-; cbn [perform]; f_equal.
  - unfold get_vector_t, holding, dup. cbn [stack]. rewrite push_ok by (cbn; lia). cbn [bind stack mem]. rewrite push_ok by (cbn; lia). reflexivity.
  - unfold get_vector_p, holding, dup. cbn [stack]. do 4 (rewrite push_ok by (cbn; lia); cbn [bind stack mem]). reflexivity.
  - unfold get_vector_r, holding, dup. cbn [stack]. do 5 (rewrite push_ok by (cbn; lia); cbn [bind stack mem]).
    pose proof (push_regions_ok h f x y z regions []) as P. cbn [length app] in P. rewrite P. reflexivity.
Qed.

Lemma set_all h f src :
  (exists h' g, compile E h (c_str src) = (h', inl g) /\ set_function E src (holding E h f) = Done tt (holding E h' (Some g))) \/
  (exists h' e, compile E h (c_str src) = (h', inr e)) /\ set_function E src (holding E h f) = Exit.
Proof.
  unfold set_function, clear, pcompile. cbn [bind stack mem holding]. destruct (compile E h (c_str src)) as [h' [g|e]].
  - left. exists h', g. split; [reflexivity|]. rewrite push_ok by (cbn; lia). reflexivity.
  - right. split; [eauto|]. rewrite push_ok by (cbn; lia). reflexivity.
Qed.

Theorem perform_all h f u :
  (exists a h' f', means E h f u a h' f' /\ perform E u (holding E h f) = Done a (holding E h' f')) \/
  (rejected E h f u /\ perform E u (holding E h f) = Exit) \/
  (aborted E h f u /\ perform E u (holding E h f) = Abort).
Proof.
  destruct (source_of u) as [src|] eqn:S.
  { replace (perform E u (holding E h f)) with (bind E (set_function E src (holding E h f)) (fun _ s => Done (@Nothing N) s))
      by (destruct u; try discriminate; injection S as <-; reflexivity).
    destruct (set_all h f src) as [(h' & g & C & ->)|[(h' & e & C) ->]].
    - left. exists Nothing, h', (Some g). split; [econstructor; eassumption|reflexivity].
    - right. left. split; [econstructor; eassumption|reflexivity]. }
  destruct (call_of E u) as [args|] eqn:C.
  2: { destruct u; try discriminate. left. eexists _, h, f. split; [constructor|]. destruct f; reflexivity. }
  destruct f as [f|].
  2: { right. right. split; [econstructor; eassumption|]. destruct u; try discriminate; reflexivity. }
  destruct (wants_vector u) eqn:W.
  - assert (L : length args <= 4) by (destruct u; try discriminate; injection C as <-; cbn; lia).
    rewrite (vector_call h f u args W C).
    destruct (vector_all h f args _ eq_refl L) as [(h1 & v & x & y & z & h2 & A & K & ->)|[[B ->]|[(h1 & v & A & B) ->]]].
    + left. exists (AnsVector x y z), h2, (Some f). split; [econstructor; eassumption|reflexivity].
    + right. left. split; [|reflexivity]. destruct B as [(h' & e & A)|(h1 & v & A & B)]; [econstructor 2; eassumption|econstructor 3; eassumption].
    + right. right. split; [econstructor; eassumption|reflexivity].
  - destruct u; try discriminate. injection C as <-. cbn [perform]. unfold get_scalar, dup, holding. cbn [stack].
    do 2 (rewrite push_ok by (cbn; lia); cbn [bind stack mem]). unfold pcall. cbn [stack mem skipn firstn rev app].
    destruct (apply E h f [Num a]) as [h' [v|e]] eqn:A.
    + left. exists (AnsScalar (as_number E v)), h', (Some f). split; [now constructor|reflexivity].
    + right. left. split; [econstructor 2; [reflexivity|eassumption]|reflexivity].
Qed.

Ltac clash := repeat match goal with
  | H : ?a = _, K : ?a = _ |- _ => rewrite H in K; first [discriminate | injection K; clear K; intros; subst]
  | H : Some _ = Some _ |- _ => injection H; clear H; intros; subst
  | H : exists _, _ |- _ => destruct H
  | H : _ /\ _ |- _ => destruct H
  | H : _ \/ _ |- _ => destruct H
  end; try discriminate.

Lemma source_call (u : use) src args : source_of u = Some src -> call_of E u = Some args -> False.
Proof. destruct u; discriminate. Qed.
Lemma source_vector (u : @use N) src : source_of u = Some src -> wants_vector u = true -> False.
Proof. destruct u; discriminate. Qed.

Lemma components_fun h v x y z h' x' y' z' h'' : components E h v x y z h' -> components E h v x' y' z' h'' -> (x, y, z, h') = (x', y', z', h'').
Proof. intros A B. inversion A; inversion B; subst. clash. reflexivity. Qed.

(** the meaning of a use is unique, and excludes an end of the program *)
Lemma means_perform h f u a h' f' : means E h f u a h' f' -> perform E u (holding E h f) = Done a (holding E h' f').
Proof.
  intros M. destruct M as [h f u src h' g S C|h f|h f a v h' A|h f u args v h1 h2 x y z W C A K].
  - replace (perform E u (holding E h f)) with (bind E (set_function E src (holding E h f)) (fun _ s => Done (@Nothing N) s))
      by (destruct u; try discriminate; injection S as <-; reflexivity).
    destruct (set_all h f src) as [(h2 & g2 & C2 & ->)|[(h2 & e & C2) _]]; rewrite C in C2; [|discriminate]. injection C2 as <- <-. reflexivity.
  - destruct f; reflexivity.
  - cbn [perform]. unfold get_scalar, dup, holding. cbn [stack].
    do 2 (rewrite push_ok by (cbn; lia); cbn [bind stack mem]). unfold pcall. cbn [stack mem skipn firstn rev app]. rewrite A. reflexivity.
  - rewrite (vector_call h f u args W C), (vector_cases h f args _ eq_refl) with (h1 := h1) (v := v) (x := x) (y := y) (z := z) (h2 := h2); auto.
    destruct u; try discriminate; injection C as <-; cbn; lia.
Qed.
Lemma rejected_perform h f u : rejected E h f u -> perform E u (holding E h f) = Exit.
Proof.
  intros R. destruct (perform_all h f u) as [(a & h' & f' & M & _)|[[_ P]|[B P]]]; [exfalso|exact P|exfalso].
  - destruct R as [h f u src h1 e S C|h f u args h1 e C A|h f u args h1 v W C A B]; inversion M; subst; try discriminate; cbn in *;
      try (match goal with H : components _ _ _ _ _ _ _ |- _ => inversion H; subst end); clash;
      solve [eauto using source_call, source_vector | exfalso; eauto using source_call, source_vector].
  - destruct R as [h f u src h1 e S C|h f u args h1 e C A|h f u args h1 v W C A B']; inversion B; subst; clash; eauto using source_call, source_vector.
Qed.
Lemma aborted_perform h f u : aborted E h f u -> perform E u (holding E h f) = Abort.
Proof.
  intros R. destruct (perform_all h f u) as [(a & h' & f' & M & _)|[[B P]|[_ P]]]; [exfalso|exfalso|exact P].
  - destruct R as [h u args C|h f u args h1 v W C A B]; inversion M; subst; try discriminate; cbn in *;
      try (match goal with H : components _ _ _ _ _ _ _ |- _ => inversion H; subst end); clash;
      solve [eauto using source_call, source_vector | exfalso; eauto using source_call, source_vector].
  - destruct R as [h u args C|h f u args h1 v W C A B']; inversion B; subst; clash; eauto using source_call, source_vector.
Qed.
End Proof.

Lemma history_inv {N} (E : engine N) h f u us L h2 f2 : history E h f (u :: us) L h2 f2 ->
  exists a l h1 f1, L = a :: l /\ means E h f u a h1 f1 /\ history E h1 f1 us l h2 f2.
Proof. intros H. inversion H; subst. eauto 10. Qed.

(** ** C65 *)
(** Every history of uses of a parser gives, answer by answer, what the function set last returns for the given
    arguments; the stack then holds that function and nothing else (or nothing, if none was set).  Conversely a session
    ends normally only so. *)
Theorem C65_evaluations : forall (N : Type) (E : engine N) s0 us answers s',
  7 <= capacity E -> create E = Done tt s0 ->
  (session E us s0 = Done answers s' <->
   exists h f, history E (mem s0) None us answers h f /\ mem s' = h /\ stack s' = match f with Some g => [g] | None => [] end).
Proof.
  intros N E s0 us answers s' room C.
  assert (S0 : s0 = holding E (mem s0) None) by (unfold create in C; destruct (library E (started E)); [|discriminate]; injection C as <-; reflexivity).
  rewrite S0 at 1. generalize (mem s0), (@None (value N (obj E))). clear S0 C s0. intros h f. revert h f answers.
  induction us as [|u us IH]; intros h f answers; cbn [session].
  - split.
    + intros H. injection H as <- <-. exists h, f. split; [constructor|]. split; reflexivity.
    + intros (h' & f' & H & M & S). inversion H; subst. destruct s' as [m k]; cbn in *; subst. reflexivity.
  - split.
    + intros H. destruct (perform_all E room h f u) as [(a & h1 & f1 & M & P)|[[_ P]|[_ P]]]; rewrite P in H; try discriminate. cbn [bind] in H.
      destruct (session E us (holding E h1 f1)) as [l s| |] eqn:Q; try discriminate. cbn [bind] in H. injection H as <- <-.
      apply IH in Q as (h2 & f2 & H & M2 & S2). exists h2, f2. split; [econstructor; eassumption|]. auto.
    + intros (h2 & f2 & H & M2 & S2). apply history_inv in H as (a & l & h1 & f1 & -> & H3 & H4). rewrite (means_perform E room _ _ _ _ _ _ H3). cbn [bind].
      erewrite (proj2 (IH _ _ _)); [reflexivity|]. eauto.
Qed.

(** the history of the last function: when the last use that sets a function is u, the stack holds what it compiled *)
Definition sets {N} (u : @use N) : bool := match source_of u with Some _ => true | None => false end.
Lemma history_keeps {N} (E : engine N) g us h l h2 f2 : Forall (fun v => sets v = false) us -> history E h (Some g) us l h2 f2 -> f2 = Some g.
Proof.
  intros F. revert h l. induction F as [|u us S F IH]; intros h l H; [now inversion H|].
  apply history_inv in H as (a & l' & h1 & f1 & -> & M & H). inversion M; subst; try (eapply IH; eassumption).
  unfold sets in S. rewrite H0 in S. discriminate.
Qed.
Theorem C65_sole_element : forall (N : Type) (E : engine N) s0 before u after answers s' src,
  7 <= capacity E -> create E = Done tt s0 ->
  source_of u = Some src -> Forall (fun v => sets v = false) after ->
  session E (before ++ u :: after) s0 = Done answers s' ->
  exists h h' g, compile E h (c_str src) = (h', inl g) /\ stack s' = [g].
Proof.
  intros N E s0 before u after answers s' src room C U F H.
  apply (C65_evaluations N E s0 _ _ _ room C) in H as (h & f & H & _ & S). revert H. generalize (mem s0), (@None (value N (obj E))). intros h0 f0 H.
  assert (exists h1 h2 g, compile E h1 (c_str src) = (h2, inl g) /\ f = Some g) as (h1 & h2 & g & K & ->).
  { clear S. revert h0 f0 answers H. induction before as [|b before IH]; intros h0 f0 answers H; cbn [app] in H; apply history_inv in H as (a & l & h1 & f1 & -> & H3 & H9); [|eapply IH; eassumption].
    assert (exists h1' g, compile E h0 (c_str src) = (h1', inl g) /\ f1 = Some g) as (h1' & g & K & ->).
    { inversion H3; subst; try discriminate; try (destruct u; discriminate).
      - match goal with A : source_of u = Some ?s |- _ => rewrite U in A; injection A as <- end. eauto. }
    exists h0, h1', g. split; [exact K|]. exact (history_keeps E _ _ _ _ _ _ F H9). }
  exists h1, h2, g. split; [exact K|exact S].
Qed.

(** errors end the program: a session ends with the failure status exactly when some use is rejected (its source does
    not compile, the function throws, a component is missing), and with the abort of the interpreter exactly when some
    use needs a function that was never set, or reading a component throws; the uses before it were answered *)
Theorem C65_errors : forall (N : Type) (E : engine N) s0 us,
  7 <= capacity E -> create E = Done tt s0 ->
  (session E us s0 = Exit <-> exists before u after answers h f,
     us = before ++ u :: after /\ history E (mem s0) None before answers h f /\ rejected E h f u) /\
  (session E us s0 = Abort <-> exists before u after answers h f,
     us = before ++ u :: after /\ history E (mem s0) None before answers h f /\ aborted E h f u).
Proof.
  intros N E s0 us room C.
  assert (S0 : s0 = holding E (mem s0) None) by (unfold create in C; destruct (library E (started E)); [|discriminate]; injection C as <-; reflexivity).
  rewrite S0. change (mem (holding E (mem s0) None)) with (mem s0). generalize (mem s0), (@None (value N (obj E))). clear S0 C s0. intros h f. revert h f.
  induction us as [|u us IH]; intros h f; cbn [session].
  { split; (split; [discriminate|intros ([|] & ? & ? & ? & ? & ? & Q & _); discriminate]). }
  split.
  - split.
    + intros H. destruct (perform_all E room h f u) as [(a & h1 & f1 & M & P)|[[R P]|[_ P]]]; rewrite P in H; cbn [bind] in H; try discriminate.
      * destruct (session E us (holding E h1 f1)) as [l s| |] eqn:Q; try discriminate. apply IH in Q as (b & v & af & l & h2 & f2 & -> & K & R).
        exists (u :: b), v, af, (a :: l), h2, f2. split; [reflexivity|]. split; [econstructor; eassumption|exact R].
      * exists [], u, us, [], h, f. split; [reflexivity|]. split; [constructor|exact R].
    + intros (b & v & af & l & h2 & f2 & Q & K & R). destruct b as [|b bs]; cbn in Q; injection Q as <- ->.
      * inversion K; subst. now rewrite (rejected_perform E room _ _ _ R).
      * apply history_inv in K as (a & l' & h1 & f1 & -> & H2 & K). rewrite (means_perform E room _ _ _ _ _ _ H2). cbn [bind].
        rewrite (proj2 (proj1 (IH _ _))); [reflexivity|]. eauto 10.
  - split.
    + intros H. destruct (perform_all E room h f u) as [(a & h1 & f1 & M & P)|[[_ P]|[R P]]]; rewrite P in H; cbn [bind] in H; try discriminate.
      * destruct (session E us (holding E h1 f1)) as [l s| |] eqn:Q; try discriminate. apply IH in Q as (b & v & af & l & h2 & f2 & -> & K & R).
        exists (u :: b), v, af, (a :: l), h2, f2. split; [reflexivity|]. split; [econstructor; eassumption|exact R].
      * exists [], u, us, [], h, f. split; [reflexivity|]. split; [constructor|exact R].
    + intros (b & v & af & l & h2 & f2 & Q & K & R). destruct b as [|b bs]; cbn in Q; injection Q as <- ->.
      * inversion K; subst. now rewrite (aborted_perform E room _ _ _ R).
      * apply history_inv in K as (a & l' & h1 & f1 & -> & H2 & K). rewrite (means_perform E room _ _ _ _ _ _ H2). cbn [bind].
        rewrite (proj2 (proj2 (IH _ _))); [reflexivity|]. eauto 10.
Qed.

(** a function which changes nothing in the interpreter is a function of its arguments: in any history of evaluations,
    the same evaluation has the same answer *)
Theorem C65_repeatable : forall (N : Type) (E : engine N) s0 src us answers s',
  7 <= capacity E -> create E = Done tt s0 ->
  (forall h f args, fst (apply E h f args) = h) -> (forall h v i, fst (property E h v i) = h) ->
  Forall (fun u => sets u = false) us ->
  session E (SetFunction src :: us) s0 = Done answers s' ->
  forall i j, nth_error us i = nth_error us j -> nth_error (tl answers) i = nth_error (tl answers) j.
Proof.
  intros N E s0 src us answers s' room C PA PP F H. apply (C65_evaluations N E s0 _ _ _ room C) in H as (h & f & H & _). apply history_inv in H as (a0 & l & h1 & f1 & -> & H3 & H9). cbn [tl].
  inversion H3; subst; try discriminate. clear H3 H H0.
  assert (G : forall (u : @use N) a h2 f2, sets u = false -> means E h1 (Some g) u a h2 f2 -> h2 = h1 /\ f2 = Some g).
  { intros u a h2 f2 S M. inversion M; subst; [unfold sets in S; rewrite H in S; discriminate|auto| |].
    - match goal with H : apply E h1 g ?b = _ |- _ => pose proof (PA h1 g b) as Q; rewrite H in Q end. auto.
    - match goal with H : apply E h1 g ?b = _ |- _ => pose proof (PA h1 g b) as Q; rewrite H in Q end. cbn in Q. subst.
      match goal with H : components _ _ _ _ _ _ _ |- _ => inversion H; subst end.
      repeat match goal with H : property E ?h ?v ?i = (?h', _) |- _ => assert (h' = h) by (pose proof (PP h v i) as Z; rewrite H in Z; exact Z); clear H end.
      subst. auto. }
  assert (K : forall i, match nth_error us i, nth_error l i with
    | Some u, Some a => means E h1 (Some g) u a h1 (Some g) | None, None => True | _, _ => False end).
  { revert l H9. induction F as [|u us S F IH]; intros l H; [inversion H; subst; intros []; exact I|]. apply history_inv in H as (a & l' & h2 & f2 & -> & H3 & H10).
    pose proof (G _ _ _ _ S H3) as [-> ->]. intros [|i]; [exact H3|]. exact (IH _ H10 i). }
  intros i j Q. pose proof (K i) as Ki. pose proof (K j) as Kj. rewrite Q in Ki. destruct (nth_error us j) as [u|].
  - destruct (nth_error l i) as [a|], (nth_error l j) as [b|]; try contradiction. f_equal.
    apply (means_perform E room) in Ki, Kj. rewrite Ki in Kj. now injection Kj.
  - destruct (nth_error l i), (nth_error l j); tauto.
Qed.

(** the regions are given to a function with four parameters, all of them, in order; a function with fewer parameters
    is called with the position alone *)
Theorem C65_regions : forall (N : Type) (E : engine N) h f x y z regions,
  7 <= capacity E ->
  let s := mkState h [f] in
  let args := if arity E h f <? 4 then [Num x; Num y; Num z]
              else [Num x; Num y; Num z; Arr (map (fun r => Str (c_str r)) regions)] in
  forall h1 v, apply E h f args = (h1, inl v) ->
  forall a b c h2, components E h1 v a b c h2 -> magnetization_of E x y z regions s = Done (a, b, c) (mkState h2 [f]).
Proof.
  intros N E h f x y z regions room s args h1 v A a b c h2 K. unfold magnetization_of, parameter_count, s. cbn [stack mem]. subst args.
  destruct (arity E h f <? 4).
  - assert (M : means E h (Some f) (VectorP x y z) (AnsVector a b c) h2 (Some f)) by (econstructor; [reflexivity|reflexivity|eassumption|eassumption]).
    apply (means_perform E room) in M. cbn [perform] in M. unfold holding in M. cbn in M.
    destruct (get_vector_p E x y z (mkState h [f])) as [[[p q] r] s'| |]; cbn [bind] in M; try discriminate. injection M as <- <- <- <-. reflexivity.
  - assert (M : means E h (Some f) (VectorR x y z regions) (AnsVector a b c) h2 (Some f)) by (econstructor; [reflexivity|reflexivity|eassumption|eassumption]).
    apply (means_perform E room) in M. cbn [perform] in M. unfold holding in M. cbn in M.
    destruct (get_vector_r E x y z regions (mkState h [f])) as [[[p q] r] s'| |]; cbn [bind] in M; try discriminate. injection M as <- <- <- <-. reflexivity.
Qed.

(** Not every wrong function is an error: a component (or a scalar) which is not a number is NaN and the program goes
    on; and a function which returns nothing does not meet the message of the program, Duktape aborts *)
Theorem C65_not_a_number : forall (N : Type) (E : engine N) h f a h' v,
  7 <= capacity E -> apply E h f [Num a] = (h', inl v) -> (forall x, v <> Num x) ->
  get_scalar E a (mkState h [f]) = Done (nan E) (mkState h' [f]).
Proof.
  intros N E h f a h' v room A V. pose proof (means_perform E room _ _ _ _ _ _ (means_scalar E h f a v h' A)) as P. cbn [perform] in P.
  unfold holding in P. destruct (get_scalar E a (mkState h [f])) as [r s| |]; cbn [bind] in P; try discriminate. injection P as Hr ->. rewrite Hr.
  f_equal. destruct v; try reflexivity. now destruct (V x).
Qed.
Theorem C65_no_value : forall (N : Type) (E : engine N) h f u args h1 h2,
  7 <= capacity E -> wants_vector u = true -> call_of E u = Some args -> apply E h f args = (h1, inl Undefined) ->
  property E h1 Undefined 0 = (h2, None) (* "cannot read property of undefined" *) ->
  perform E u (mkState h [f]) = Abort.
Proof.
  intros N E h f u args h1 h2 room W C A P. apply (aborted_perform E room h (Some f) u). econstructor; eauto.
Qed.

(** ** A concrete interpreter: [f(t)] gives t plus the number of calls made so far, [g] the vector of its three last
    arguments, [r] the vector (number of regions, 0, 0), [bad] throws, [none] returns nothing *)
Inductive demo_obj := Fn (n : nat) | Vec (l : list nat).
Definition demo_apply (h : nat) (f : value nat demo_obj) (args : list (value nat demo_obj)) : nat * (value nat demo_obj + value nat demo_obj) :=
  match f, args with
  | Ref (Fn 0), [Num a] => (S h, inl (Num (a + h)))
  | Ref (Fn 1), [Num x; Num y; Num z] => (h, inl (Ref (Vec [x; y; z])))
  | Ref (Fn 2), [Num x; Num y; Num z; Arr l] => (h, inl (Ref (Vec [length l; 0; 0])))
  | Ref (Fn 3), _ => (h, inr (Str (txt "Error")))
  | _, _ => (h, inl Undefined)
  end.
Definition tiny : engine nat := mkEngine nat nat demo_obj 0 Some
  (fun h src => if text_eqb src (txt "f") then (h, inl (Ref (Fn 0))) else if text_eqb src (txt "g") then (h, inl (Ref (Fn 1)))
     else if text_eqb src (txt "r") then (h, inl (Ref (Fn 2))) else if text_eqb src (txt "bad") then (h, inl (Ref (Fn 3)))
     else if text_eqb src (txt "none") then (h, inl (Ref (Fn 4))) else (h, inr (Str (txt "SyntaxError"))))
  demo_apply
  (fun h v i => match v with
     | Ref (Vec l) => (h, Some (match nth_error l i with Some x => (true, Num x) | None => (false, Undefined) end))
     | Undefined | Null => (h, None)
     | _ => (h, Some (false, Undefined)) end)
  (fun h v => match v with Ref (Fn 0) => 1 | Ref (Fn 2) => 4 | Ref (Fn _) => 3 | _ => 0 end) (fun n => n) 99 64.

Example C65_nonvacuous : create tiny = Done tt (mkState (E := tiny) 0 []) /\
  session tiny [SetFunction (txt "f"); Scalar 5; Scalar 5; SetFunction (txt "g"); VectorP 1 2 3; Count; SetFunction (txt "r");
    VectorR 1 2 3 [txt "a"; txt "b"]] (mkState (E := tiny) 0 [])
  = Done [Nothing; AnsScalar 5; AnsScalar 6; Nothing; AnsVector 1 2 3; AnsCount 3; Nothing; AnsVector 2 0 0] (mkState (E := tiny) 2 [Ref (Fn 2)]) /\
  session tiny [SetFunction (txt "f"); Scalar 5; SetFunction (txt "bad"); Scalar 5; Scalar 6] (mkState (E := tiny) 0 []) = Exit /\
  session tiny [SetFunction (txt "none"); VectorT 5] (mkState (E := tiny) 0 []) = Abort /\
  session tiny [SetFunction (txt "none"); Scalar 5] (mkState (E := tiny) 0 []) = Done [Nothing; AnsScalar 99] (mkState (E := tiny) 0 [Ref (Fn 4)]) /\
  session tiny [Scalar 5] (mkState (E := tiny) 0 []) = Abort /\
  session tiny [SetFunction (txt "+")] (mkState (E := tiny) 0 []) = Exit.
Proof. repeat split; reflexivity. Qed.

(** ** The parsers of the settings *)
(** what the reading of the settings does to a parser (settings.cpp lines 465, 475, 505, 515, 527, 532) *)
Definition uses_of {N} (p : source) : list (@use N) :=
  match p with NoSource => [] | FunctionSource f => [SetFunction f] | Expressions ps x y z => [SetExpressions ps x y z] end.

(** A vector of three expressions is accepted as the space part of the applied field, as it is for the field itself,
    but no function is set: the first evaluation of the field aborts the program. *)
Theorem C65_space_expressions_refuted : exists s',
  read_all SettingsProps.demo num1 4 start [YMap [(txt "Bext", YMap [(txt "space", YSeq [YScalar (txt "0"); YScalar (txt "0"); YScalar (txt "z")]);
                                                                     (txt "time", YScalar (txt "function(t) { return t; }"))])]] = Ok s' /\
  f_kind (field s') = R4toR3 /\
  forall (N : Type) (E : engine N) s0 x y z, create E = Done tt s0 ->
    session E (uses_of (f_space_parser (field s')) ++ [VectorP x y z]) s0 = Abort.
Proof.
  eexists. split; [reflexivity|]. split; [reflexivity|]. intros N E s0 x y z C. cbn [f_space_parser field uses_of app session perform].
  unfold create in C. destruct (library E (started E)); [|discriminate]. injection C as <-. reflexivity.
Qed.

Print Assumptions C65_evaluations.
Print Assumptions C65_sole_element.
Print Assumptions C65_errors.
Print Assumptions C65_repeatable.
Print Assumptions C65_regions.
Print Assumptions C65_not_a_number.
Print Assumptions C65_no_value.
Print Assumptions C65_space_expressions_refuted.
