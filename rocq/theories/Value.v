(** Equality and hashing of embedded constants: ein/value.py:25-71. *)
From Verif Require Import Base Scalar Tensor.

Section Value.
Context {FO : FloatOps}.

(** A [Value] object with its identity [vid]; its [.value] object has the
    identity [cid] and is a numpy array, a pair of [Value]s or an array of
    another library.  Simplification: element types are the three kinds. *)
Inductive vobj : Type := VObj (vid cid : nat) (c : content)
with content : Type :=
| CArr (a : arr)
| CPair (l r : vobj)
| COther.

Definition vid (v : vobj) := let (i, _, _) := v in i.
Definition cid (v : vobj) := let (_, i, _) := v in i.
Definition cont (v : vobj) := let (_, _, c) := v in c.

(** value.py:25-26, with [big] the constant BIG_DATA_SIZE; [len(value.data)] is
    the first dimension. *)
Definition data_is_small (big : nat) (a : arr) : bool :=
  match ashape a with [] => true | n :: _ => n <? big end.

(** numpy's element equality with equal_nan *)
Definition isnan (f : F) : bool := negb (feqb f f).
Definition num_eq (a b : scalar) : bool :=
  match a, b with
  | SB a, SB b => Bool.eqb a b
  | SI a, SI b => (a =? b)%Z
  | SF a, SF b => feqb a b || (isnan a && isnan b)
  | _, _ => false
  end.

Fixpoint all2 (p : scalar -> scalar -> bool) (l r : list scalar) : bool :=
  match l, r with
  | [], [] => true
  | a :: l, b :: r => p a b && all2 p l r
  | _, _ => false
  end.

(** numpy.array_equal(a, b, equal_nan=True) *)
Definition array_equal (a b : arr) : bool :=
  list_nat_eqb (ashape a) (ashape b) && all2 num_eq (adata a) (adata b).

(** value.py:50-64 *)
Definition veqb (big : nat) (x y : vobj) : bool :=
  match cont x, cont y with
  | CArr a, CArr b =>
      if (size_of (ashape a) =? size_of (ashape b)) && kind_eqb (akind a) (akind b) then
        if data_is_small big a then array_equal a b else vid x =? vid y
      else false
  | CArr _, _ => false
  | _, _ => cid x =? cid y
  end.

(** Identities identify: objects with the same identity are the same. *)
Definition heap (W : list vobj) : Prop :=
  (forall x y, In x W -> In y W -> vid x = vid y -> x = y) /\
  (forall x y, In x W -> In y W -> cid x = cid y -> cont x = cont y).

Lemma all2_Forall2 p l r : all2 p l r = true <-> Forall2 (fun a b => p a b = true) l r.
Proof.
  revert r. induction l as [|a l IH]; intros [|b r]; simpl.
  - split; auto.
  - split; [discriminate|intros H; inversion H].
  - split; [discriminate|intros H; inversion H].
  - rewrite andb_true_iff, IH. split; [intros []; constructor; auto|intros H; inversion H; auto].
Qed.

Lemma num_eq_refl a : num_eq a a = true.
Proof.
  destruct a; simpl; [apply eqb_reflx|apply Z.eqb_refl|]. unfold isnan. destruct (feqb f f); auto.
Qed.

Definition feq_laws : Prop :=
  (forall a b, feqb a b = true -> feqb b a = true) /\
  (forall a b c, feqb a b = true -> feqb b c = true -> feqb a c = true).

Lemma num_eq_sym a b : feq_laws -> num_eq a b = true -> num_eq b a = true.
Proof.
  intros [S _]. destruct a, b; simpl; try discriminate.
  - intros H. apply eqb_prop in H. subst. apply eqb_reflx.
  - intros H. apply Z.eqb_eq in H. subst. apply Z.eqb_refl.
  - intros H. apply orb_true_iff in H as [H|H]; [rewrite (S _ _ H); auto|].
    rewrite (andb_comm (isnan f0)), H. apply orb_true_r.
Qed.

Lemma num_eq_trans a b c : feq_laws -> num_eq a b = true -> num_eq b c = true -> num_eq a c = true.
Proof.
  intros [S T]. destruct a, b; simpl; try discriminate; destruct c; simpl; try discriminate.
  - intros H1 H2. apply eqb_prop in H1, H2. subst. apply eqb_reflx.
  - intros H1 H2. apply Z.eqb_eq in H1, H2. subst. apply Z.eqb_refl.
  - intros H1 H2. apply orb_true_iff in H1, H2.
    assert (N : forall x y, feqb x y = true -> feqb x x = true) by (intros; eapply T; eauto).
    unfold isnan in *.
    destruct H1 as [H1|H1], H2 as [H2|H2].
    + rewrite (T _ _ _ H1 H2). reflexivity.
    + apply andb_true_iff in H2 as [H2 _]. rewrite (N f0 f) in H2; [discriminate|auto].
    + apply andb_true_iff in H1 as [_ H1]. rewrite (N f0 f1) in H1; [discriminate|auto].
    + apply andb_true_iff in H1 as [H1 _], H2 as [_ H2]. rewrite H1, H2. apply orb_true_r.
Qed.

Lemma list_nat_eqb_refl l : list_nat_eqb l l = true.
Proof. apply list_nat_eqb_eq. reflexivity. Qed.

Lemma array_equal_refl a : array_equal a a = true.
Proof.
  unfold array_equal. rewrite list_nat_eqb_refl. simpl.
  induction (adata a); simpl; auto. rewrite num_eq_refl. auto.
Qed.

Lemma veqb_refl big x : veqb big x x = true.
Proof.
  unfold veqb. destruct (cont x).
  - rewrite Nat.eqb_refl, kind_eqb_refl. simpl. destruct (data_is_small big a); [apply array_equal_refl|apply Nat.eqb_refl].
  - apply Nat.eqb_refl.
  - apply Nat.eqb_refl.
Qed.

(** What equality of two objects in a heap means. *)
Lemma veqb_spec big W x y : heap W -> In x W -> In y W -> veqb big x y = true ->
  match cont x, cont y with
  | CArr a, CArr b => akind a = akind b /\ ashape a = ashape b /\ Forall2 (fun s t => num_eq s t = true) (adata a) (adata b)
       /\ (data_is_small big a = false -> x = y)
  | CArr _, _ | _, CArr _ => False
  | c, d => c = d /\ cid x = cid y
  end.
Proof.
  intros [H1 H2] Ix Iy. unfold veqb.
  destruct (cont x) as [a|l r|] eqn:Cx, (cont y) as [b|l' r'|] eqn:Cy; try discriminate.
  - destruct (size_of (ashape a) =? size_of (ashape b)); [|discriminate].
    destruct (kind_eqb (akind a) (akind b)) eqn:K; [|discriminate]. apply kind_eqb_eq in K. simpl.
    destruct (data_is_small big a).
    + unfold array_equal. intros H. apply andb_true_iff in H as [A B].
      apply list_nat_eqb_eq in A. apply all2_Forall2 in B. split; auto. split; auto. split; auto. discriminate.
    + intros H. apply Nat.eqb_eq in H. apply H1 in H; auto. subst y. rewrite Cx in Cy. injection Cy as <-.
      split; auto. split; auto. split; auto. clear. induction (adata a); constructor; auto. apply num_eq_refl.
  - intros H. apply Nat.eqb_eq in H. pose proof (H2 _ _ Ix Iy H). congruence.
  - intros H. apply Nat.eqb_eq in H. pose proof (H2 _ _ Ix Iy H) as C. rewrite Cx, Cy in C. split; auto.
  - intros H. apply Nat.eqb_eq in H. pose proof (H2 _ _ Ix Iy H). congruence.
  - intros H. apply Nat.eqb_eq in H. pose proof (H2 _ _ Ix Iy H). congruence.
  - intros H. apply Nat.eqb_eq in H. pose proof (H2 _ _ Ix Iy H). congruence.
  - intros H. apply Nat.eqb_eq in H. auto.
Qed.

Lemma veqb_sym big W x y : feq_laws -> heap W -> In x W -> In y W -> veqb big x y = true -> veqb big y x = true.
Proof.
  intros FL HW Ix Iy H. pose proof (veqb_spec big W x y HW Ix Iy H) as S.
  destruct (cont x) as [a|l r|] eqn:Cx, (cont y) as [b|l' r'|] eqn:Cy; cbv iota zeta in S; try tauto.
  - destruct S as (K & Sh & D & B). destruct (data_is_small big a) eqn:Q.
    + unfold veqb. rewrite Cx, Cy, Sh, K, Nat.eqb_refl, kind_eqb_refl. simpl.
      unfold data_is_small in *. rewrite <- Sh, Q. unfold array_equal. rewrite Sh, list_nat_eqb_refl. simpl.
      apply all2_Forall2. clear - D FL. induction D; constructor; auto. apply num_eq_sym; auto.
    + rewrite <- B by auto. apply veqb_refl.
  - unfold veqb. rewrite Cx, Cy. destruct S as [_ S]. rewrite S. apply Nat.eqb_refl.
  - destruct S; discriminate.
  - destruct S; discriminate.
  - unfold veqb. rewrite Cx, Cy. destruct S as [_ S]. rewrite S. apply Nat.eqb_refl.
Qed.

Lemma veqb_trans big W x y z : feq_laws -> heap W -> In x W -> In y W -> In z W ->
  veqb big x y = true -> veqb big y z = true -> veqb big x z = true.
Proof.
  intros FL HW Ix Iy Iz H1 H2.
  pose proof (veqb_spec big W x y HW Ix Iy H1) as S1. pose proof (veqb_spec big W y z HW Iy Iz H2) as S2.
  destruct (cont x) as [a|l r|] eqn:Cx, (cont y) as [b|l' r'|] eqn:Cy; cbv iota zeta in S1; try tauto;
    destruct (cont z) as [c|l'' r''|] eqn:Cz; cbv iota zeta in S2; try tauto; try (destruct S1; discriminate); try (destruct S2; discriminate).
  - destruct S1 as (K & Sh & D & B), S2 as (K' & Sh' & D' & B').
    destruct (data_is_small big a) eqn:Q; [|rewrite B by auto; auto].
    unfold veqb. rewrite Cx, Cz, Sh, Sh', K, K', Nat.eqb_refl, kind_eqb_refl. simpl. rewrite Q.
    unfold array_equal. rewrite Sh, Sh', list_nat_eqb_refl. simpl. apply all2_Forall2.
    clear - D D' FL. revert D'. generalize (adata c). induction D; intros l0 D'; inversion D'; subst; constructor; auto.
    eapply num_eq_trans; eauto.
  - unfold veqb. rewrite Cx, ?Cz. destruct S1 as [_ ->], S2 as [_ ->]. apply Nat.eqb_refl.
  - unfold veqb. rewrite Cx, ?Cz. destruct S1 as [_ ->], S2 as [_ ->]. apply Nat.eqb_refl.
Qed.

(** value.py:66-71; [h_data] hashes the element type and the bytes, [h_id] an
    identity, [h_pair] a tuple. *)
Variables (h_data : kind -> list scalar -> Z) (h_id : nat -> Z) (h_pair : Z -> Z -> Z).
Fixpoint vhash (big : nat) (x : vobj) : Z :=
  let (_, c, k) := x in
  match k with
  | CArr a => if data_is_small big a then h_data (akind a) (adata a) else h_id c
  | COther => h_id c
  | CPair l r => h_pair (vhash big l) (vhash big r)
  end.

(** Equal objects hash alike when numerically equal elements have equal bytes. *)
Lemma vhash_eq big W x y : heap W -> In x W -> In y W ->
  (forall a b s t, cont x = CArr a -> cont y = CArr b -> In s (adata a) -> In t (adata b) -> num_eq s t = true -> s = t) ->
  veqb big x y = true -> vhash big x = vhash big y.
Proof.
  intros HW Ix Iy Z H. pose proof (veqb_spec big W x y HW Ix Iy H) as S.
  destruct x as [i c k], y as [j d m]. cbn [cont cid] in *.
  destruct k as [a|l r|], m as [b|l' r'|]; cbv iota zeta in S; try tauto; try (destruct S; discriminate).
  - destruct S as (K & Sh & D & B). simpl. destruct (data_is_small big a) eqn:Q.
    + replace (data_is_small big b) with true by (unfold data_is_small in *; rewrite <- Sh; auto).
      rewrite K. f_equal. assert (G : forall s t, In s (adata a) -> In t (adata b) -> num_eq s t = true -> s = t) by eauto.
      clear - D G. induction D; auto. f_equal; [apply G; simpl; auto|apply IHD; intros; apply G; simpl; auto].
    + assert (E := B eq_refl). injection E as <- <- <-. rewrite Q. reflexivity.
  - destruct S as [S _]. injection S as <- <-. reflexivity.
  - destruct S as [_ ->]. reflexivity.
Qed.

End Value.
