(** ein/backend/array_backend.py:104-155: the pairwise tree reduction of the
    array backends.

    Simplification: the batch axis is a list of elements and the batched
    application of [xy] (one call on whole arrays) is its application to each
    pair of elements; [op] may raise. *)
From Verif Require Import Base.

Section Tree.
Context {A : Type} (op : A -> A -> res A).

(** Python slicing of the batch axis: [s[::2]] *)
Fixpoint every_other (l : list A) : list A :=
  match l with
  | [] => []
  | [x] => [x]
  | x :: _ :: l => x :: every_other l
  end.

(** [idx(slice(None, -1, 2))] (138) and [idx(slice(1, None, 2))] *)
Definition slice_even (l : list A) : list A := every_other (removelast l).
Definition slice_odd (l : list A) : list A := every_other (tl l).

(** The batched call [get(xs, ys)] (133-136) *)
Fixpoint map2M (xs ys : list A) : res (list A) :=
  match xs, ys with
  | [], [] => Ok []
  | x :: xs, y :: ys => let* z := op x y in let* zs := map2M xs ys in Ok (z :: zs)
  | _, _ => Err EShape
  end.

(** The last element, [idx([-1])] *)
Definition last_of (l : list A) : res A := of_opt EShape (nth_error l (length l - 1)).

(** The loop (138-142) and the final combination (143-145), [n] being the
    Python variable [n] and [fuel] bounding the number of halvings. *)
Fixpoint tree_loop (fuel n : nat) (vals : list A) (acc : A) : res A :=
  match fuel with
  | 0 => Err EFuel
  | S fuel =>
      if 1 <? n then
        let* acc := (if Nat.odd n then let* z := last_of vals in op z acc else Ok acc) in
        let* vals := map2M (slice_even vals) (slice_odd vals) in
        tree_loop fuel (n / 2) vals acc
      else if n =? 0 then Ok acc
      else let* z := of_opt EShape (hd_error vals) in op z acc
  end.

Definition tree_reduce (vals : list A) (acc : A) : res A :=
  tree_loop (S (length vals)) (length vals) vals acc.

(** * Correctness *)
Variable P : A -> Prop.
Variable f : A -> A -> A.
Hypothesis op_ok : forall a b, P a -> P b -> op a b = Ok (f a b) /\ P (f a b).
Hypothesis f_assoc : forall a b c, P a -> P b -> P c -> f a (f b c) = f (f a b) c.

Fixpoint pairs_up (l : list A) : list A :=
  match l with
  | x :: y :: l => f x y :: pairs_up l
  | _ => []
  end.

Fixpoint list_ind2 (Q : list A -> Prop) (H0 : Q []) (H1 : forall x, Q [x])
  (H2 : forall x y l, Q l -> Q (x :: y :: l)) (l : list A) : Q l :=
  match l with
  | [] => H0
  | [x] => H1 x
  | x :: y :: l => H2 x y l (list_ind2 Q H0 H1 H2 l)
  end.

Lemma slice_even_cons x y l : slice_even (x :: y :: l) = x :: slice_even l.
Proof. unfold slice_even. destruct l as [|z l]; auto. Qed.
Lemma slice_odd_cons x y l : slice_odd (x :: y :: l) = y :: slice_odd l.
Proof. unfold slice_odd. destruct l; auto. Qed.

Lemma batch_ok l : Forall P l ->
  map2M (slice_even l) (slice_odd l) = Ok (pairs_up l) /\ Forall P (pairs_up l).
Proof.
  induction l as [|x|x y l IH] using list_ind2; intros H.
  - split; [reflexivity|constructor].
  - split; [reflexivity|constructor].
  - inversion H; subst. inversion H3; subst. destruct (IH H5) as [IH1 IH2].
    rewrite slice_even_cons, slice_odd_cons. simpl.
    destruct (op_ok x y) as [E Pxy]; auto. rewrite E. simpl. rewrite IH1. simpl. auto.
Qed.

Lemma pairs_up_length l : length (pairs_up l) = length l / 2.
Proof.
  induction l as [|x|x y l IH] using list_ind2; auto.
  cbn [pairs_up length]. rewrite IH.
  replace (S (S (length l))) with (length l + 1 * 2) by lia. rewrite Nat.div_add by lia. lia.
Qed.

Lemma P_fold_right l acc : Forall P l -> P acc -> P (fold_right f acc l).
Proof. induction 1; simpl; auto. intros. apply op_ok; auto. Qed.

Lemma last_of_snoc l x : last_of (l ++ [x]) = Ok x.
Proof.
  unfold last_of. rewrite app_length. simpl.
  rewrite nth_error_app2 by lia. replace (length l + 1 - 1 - length l) with 0 by lia. reflexivity.
Qed.

Lemma pairs_up_fold l acc : Forall P l -> P acc -> Nat.even (length l) = true ->
  fold_right f acc (pairs_up l) = fold_right f acc l.
Proof.
  intros H Ha. revert H. induction l as [|x|x y l IH] using list_ind2; intros H He; auto.
  - discriminate He.
  - inversion H; subst. inversion H3; subst. simpl. rewrite IH; auto.
    symmetry. apply f_assoc; auto. apply P_fold_right; auto.
Qed.

Lemma pairs_up_snoc l x : Nat.even (length l) = true -> pairs_up (l ++ [x]) = pairs_up l.
Proof.
  induction l as [|y|y z l IH] using list_ind2; simpl; intros H; auto; try discriminate.
  f_equal. auto.
Qed.

(** Without any assumption on the accumulator: v0 · v1 · ... · v(n-1) · acc. *)
Lemma tree_loop_ok fuel : forall n vals acc, n < fuel -> n = length vals ->
  Forall P vals -> P acc ->
  tree_loop fuel n vals acc = Ok (fold_right f acc vals).
Proof.
  induction fuel as [|fuel IH]; intros n vals acc Hf Hn Hv Ha; [lia|].
  cbn [tree_loop]. destruct (1 <? n) eqn:E1.
  - apply Nat.ltb_lt in E1.
    destruct (batch_ok vals Hv) as [B1 B2].
    assert (Hd : n / 2 < fuel).
    { assert (n / 2 < n) by (apply Nat.div_lt; lia). lia. }
    destruct (Nat.odd n) eqn:Eo.
    + destruct vals as [|v vals] using rev_ind; [simpl in Hn; lia|]. clear IHvals.
      rewrite last_of_snoc. cbn [bind].
      apply Forall_app in Hv as [Hv1 Hv2]. inversion Hv2; subst.
      destruct (op_ok v acc) as [E Pv]; auto. rewrite E. cbn [bind]. rewrite B1. cbn [bind].
      rewrite IH; auto; [|rewrite pairs_up_length; auto].
      assert (Hev : Nat.even (length vals) = true).
      { rewrite app_length in Eo. simpl in Eo. rewrite Nat.add_comm in Eo. simpl in Eo.
        rewrite Nat.odd_succ in Eo. exact Eo. }
      rewrite pairs_up_snoc by auto. rewrite pairs_up_fold; auto.
      rewrite fold_right_app. reflexivity.
    + cbn [bind]. rewrite B1. cbn [bind]. rewrite IH; auto; [|rewrite pairs_up_length; congruence].
      rewrite pairs_up_fold; auto. rewrite <- Hn. rewrite <- Nat.negb_odd, Eo. reflexivity.
  - apply Nat.ltb_ge in E1. destruct vals as [|v [|w vals]]; simpl in Hn; try lia; subst n; simpl; auto.
    inversion Hv; subst. apply op_ok; auto.
Qed.

Lemma tree_reduce_right vals acc : Forall P vals -> P acc ->
  tree_reduce vals acc = Ok (fold_right f acc vals).
Proof. intros. apply tree_loop_ok; auto. Qed.

(** With an identity the order of the accumulator does not matter. *)
Lemma fold_left_right vals e :
  P e -> (forall a, P a -> f e a = a /\ f a e = a) -> Forall P vals ->
  fold_left f vals e = fold_right f e vals.
Proof.
  intros Pe Id H.
  assert (G : forall l a, Forall P l -> P a -> fold_left f l a = f a (fold_right f e l)).
  { induction l as [|x l IH]; intros a Hl Ha; simpl.
    - symmetry. apply Id; auto.
    - inversion Hl; subst. rewrite IH; auto; [|apply op_ok; auto].
      symmetry. apply f_assoc; auto. apply P_fold_right; auto. }
  rewrite G; auto. apply Id. apply P_fold_right; auto.
Qed.

(** The sequential loop of the reference interpreter (naive.py:36-48). *)
Fixpoint seq_reduce (vals : list A) (acc : A) : res A :=
  match vals with
  | [] => Ok acc
  | v :: vals => let* acc := op acc v in seq_reduce vals acc
  end.

Lemma seq_reduce_left vals acc : Forall P vals -> P acc ->
  seq_reduce vals acc = Ok (fold_left f vals acc).
Proof.
  intros H. revert acc. induction H as [|v vals Hv H IH]; intros acc Ha; simpl; auto.
  destruct (op_ok acc v) as [E Pv]; auto. rewrite E. simpl. apply IH; auto.
Qed.

Lemma tree_eq_seq vals e :
  P e -> (forall a, P a -> f e a = a /\ f a e = a) -> Forall P vals ->
  tree_reduce vals e = seq_reduce vals e.
Proof.
  intros Pe Id H. rewrite tree_reduce_right, seq_reduce_left by auto. f_equal. symmetry.
  apply fold_left_right; auto.
Qed.

End Tree.
