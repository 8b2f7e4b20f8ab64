(** Common definitions: results with classified errors, list utilities. *)
From Coq Require Export List Arith ZArith Bool Lia PeanoNat.
Export ListNotations.

(** Python exceptions are values.  The tag records which kind of exception
    the modelled code would raise. *)
Inductive err : Type :=
| EType      (* TypeError, or a value of the wrong form reached a primitive *)
| EAssert    (* a failing [assert] / AssertEq *)
| EJagged    (* numpy.array on ragged nested data *)
| EUnbound   (* KeyError: symbol not in the environment *)
| EShape     (* IndexError/ValueError: axis out of range, shapes that do not match *)
| EValue     (* ValueError raised on an argument *)
| EFuel.     (* model artefact: fuel exhausted (never a Python exception) *)

Inductive res (A : Type) : Type :=
| Ok (a : A)
| Err (e : err).
Arguments Ok {A} a.
Arguments Err {A} e.

Definition bind {A B} (m : res A) (k : A -> res B) : res B :=
  match m with Ok a => k a | Err e => Err e end.

Notation "'let*' x ':=' m 'in' k" := (bind m (fun x => k))
  (at level 200, x pattern, m at level 100, k at level 200).

Definition guard (b : bool) (e : err) : res unit :=
  if b then Ok tt else Err e.

Definition of_opt {A} (e : err) (o : option A) : res A :=
  match o with Some a => Ok a | None => Err e end.

Section MapM.
Context {A B : Type} (f : A -> res B).
Fixpoint mapM (l : list A) : res (list B) :=
  match l with
  | [] => Ok []
  | x :: xs => let* y := f x in let* ys := mapM xs in Ok (y :: ys)
  end.
End MapM.

Definition is_ok {A} (m : res A) : bool :=
  match m with Ok _ => true | Err _ => false end.

Lemma bind_ok {A B} (m : res A) (k : A -> res B) b :
  bind m k = Ok b -> exists a, m = Ok a /\ k a = Ok b.
Proof. destruct m; simpl; intros; [eauto | discriminate]. Qed.

Lemma guard_ok b e u : guard b e = Ok u -> b = true.
Proof. destruct b; simpl; congruence. Qed.

Lemma of_opt_ok {A} e (o : option A) a : of_opt e o = Ok a -> o = Some a.
Proof. destruct o; simpl; congruence. Qed.

(** Decompose every [bind ... = Ok _] hypothesis. *)
Ltac inv_bind :=
  repeat match goal with
  | H : bind _ _ = Ok _ |- _ =>
      let a := fresh "a" in let H1 := fresh "Hb" in let H2 := fresh "Hk" in
      apply bind_ok in H; destruct H as (a & H1 & H2)
  | H : Ok _ = Ok _ |- _ => injection H as H; try subst
  | H : Err _ = Ok _ |- _ => discriminate H
  | H : guard _ _ = Ok ?u |- _ => apply guard_ok in H
  | H : of_opt _ _ = Ok _ |- _ => apply of_opt_ok in H
  end.

Lemma mapM_length {A B} (f : A -> res B) l ys :
  mapM f l = Ok ys -> length ys = length l.
Proof.
  revert ys. induction l as [|x xs IH]; simpl; intros ys H; inv_bind; simpl; auto.
Qed.

Lemma mapM_Forall2 {A B} (f : A -> res B) l ys :
  mapM f l = Ok ys <-> Forall2 (fun x y => f x = Ok y) l ys.
Proof.
  revert ys. induction l as [|x xs IH]; simpl; intros ys; split; intros H.
  - inv_bind. constructor.
  - inversion H; subst; reflexivity.
  - inv_bind. constructor; auto. apply IH; auto.
  - inversion H; subst. rewrite H2. simpl. apply IH in H4. rewrite H4. reflexivity.
Qed.

Lemma mapM_ext {A B} (f g : A -> res B) l :
  (forall x, In x l -> f x = g x) -> mapM f l = mapM g l.
Proof.
  induction l as [|x xs IH]; simpl; intros H; auto.
  rewrite (H x) by auto. destruct (g x); simpl; auto.
  rewrite IH by auto. reflexivity.
Qed.

Lemma mapM_map {A B C} (f : B -> res C) (g : A -> B) l :
  mapM f (map g l) = mapM (fun x => f (g x)) l.
Proof. induction l; simpl; auto. destruct (f (g a)); simpl; auto. rewrite IHl; auto. Qed.

Lemma mapM_Ok {A B} (f : A -> B) l : mapM (fun x => Ok (f x)) l = Ok (map f l).
Proof. induction l; simpl; auto. rewrite IHl. reflexivity. Qed.

Lemma mapM_nth {A B} (f : A -> res B) l ys k dx dy :
  mapM f l = Ok ys -> k < length l -> f (nth k l dx) = Ok (nth k ys dy).
Proof.
  intros H. apply mapM_Forall2 in H. revert k. induction H; simpl; intros k Hk; [lia|].
  destruct k; auto. apply IHForall2. lia.
Qed.

Lemma mapM_app {A B} (f : A -> res B) l1 l2 :
  mapM f (l1 ++ l2) = (let* a := mapM f l1 in let* b := mapM f l2 in Ok (a ++ b)).
Proof.
  induction l1; simpl; auto.
  - destruct (mapM f l2); reflexivity.
  - destruct (f a); simpl; auto. rewrite IHl1. destruct (mapM f l1); simpl; auto.
    destruct (mapM f l2); reflexivity.
Qed.

(** [set_nth k x l] *)
Fixpoint set_nth {A} (k : nat) (x : A) (l : list A) : list A :=
  match l, k with
  | [], _ => []
  | _ :: t, 0 => x :: t
  | h :: t, S k => h :: set_nth k x t
  end.

Lemma set_nth_length {A} k (x : A) l : length (set_nth k x l) = length l.
Proof. revert k. induction l; destruct k; simpl; auto. Qed.

Lemma nth_set_nth {A} k j (x : A) l d :
  k < length l -> nth j (set_nth k x l) d = if j =? k then x else nth j l d.
Proof.
  revert j k. induction l; simpl; intros j k Hk; [lia|].
  destruct k, j; simpl; auto. apply IHl. lia.
Qed.

Fixpoint index_of (x : nat) (l : list nat) : option nat :=
  match l with
  | [] => None
  | y :: t => if x =? y then Some 0 else option_map S (index_of x t)
  end.

Definition mem (x : nat) (l : list nat) : bool := existsb (Nat.eqb x) l.

Lemma mem_In x l : mem x l = true <-> In x l.
Proof.
  unfold mem. rewrite existsb_exists. split.
  - intros (y & Hy & E). apply Nat.eqb_eq in E. subst; auto.
  - intros H. exists x. split; auto. apply Nat.eqb_refl.
Qed.

Lemma mem_not_In x l : mem x l = false <-> ~ In x l.
Proof. rewrite <- mem_In. destruct (mem x l); split; congruence. Qed.

Lemma index_of_Some x l k : index_of x l = Some k -> k < length l /\ nth k l 0 = x.
Proof.
  revert k. induction l as [|y t IH]; simpl; intros k H; [discriminate|].
  destruct (x =? y) eqn:E.
  - injection H as <-. apply Nat.eqb_eq in E. split; [lia|auto].
  - destruct (index_of x t) eqn:E2; simpl in H; [|discriminate]. injection H as <-.
    destruct (IH _ eq_refl). split; [lia|auto].
Qed.

Lemma index_of_In x l : In x l -> exists k, index_of x l = Some k.
Proof.
  induction l as [|y t IH]; simpl; intros H; [tauto|].
  destruct (x =? y) eqn:E; [eauto|].
  destruct H as [->|H]; [rewrite Nat.eqb_refl in E; discriminate|].
  destruct (IH H) as [k ->]. simpl; eauto.
Qed.

Lemma index_of_None x l : index_of x l = None -> ~ In x l.
Proof.
  intros H I. destruct (index_of_In _ _ I) as [k E]. congruence.
Qed.

Lemma index_of_nth_nodup l k : NoDup l -> k < length l -> index_of (nth k l 0) l = Some k.
Proof.
  revert k. induction l as [|y t IH]; simpl; intros k ND Hk; [lia|].
  inversion ND; subst. destruct k; [rewrite Nat.eqb_refl; auto|].
  destruct (nth k t 0 =? y) eqn:E.
  - apply Nat.eqb_eq in E. exfalso. apply H1. rewrite <- E. apply nth_In. lia.
  - rewrite IH by (auto; lia). reflexivity.
Qed.

Lemma nth_ext_len {A} (l1 l2 : list A) d :
  length l1 = length l2 -> (forall k, k < length l1 -> nth k l1 d = nth k l2 d) -> l1 = l2.
Proof.
  revert l2. induction l1 as [|x l1 IH]; destruct l2 as [|y l2]; simpl; intros L H; try lia; auto.
  f_equal. { apply (H 0); lia. }
  apply IH; [lia|]. intros k Hk. apply (H (S k)). lia.
Qed.

Lemma nth_map_seq {A} (f : nat -> A) n k d :
  k < n -> nth k (map f (seq 0 n)) d = f k.
Proof.
  intros H. rewrite (nth_indep _ d (f 0)) by (rewrite map_length, seq_length; auto).
  rewrite map_nth. rewrite seq_nth by auto. reflexivity.
Qed.

Lemma Forall2_len {A B} (R : A -> B -> Prop) l1 l2 : Forall2 R l1 l2 -> length l1 = length l2.
Proof. induction 1; simpl; auto. Qed.

Lemma Forall2_nth {A B} (R : A -> B -> Prop) l1 l2 k d1 d2 :
  Forall2 R l1 l2 -> k < length l1 -> R (nth k l1 d1) (nth k l2 d2).
Proof.
  intros H. revert k. induction H; simpl; intros k Hk; [lia|].
  destruct k; auto. apply IHForall2. lia.
Qed.

Lemma Forall2_of_nth {A B} (R : A -> B -> Prop) l1 l2 d1 d2 :
  length l1 = length l2 ->
  (forall k, k < length l1 -> R (nth k l1 d1) (nth k l2 d2)) -> Forall2 R l1 l2.
Proof.
  revert l2. induction l1; destruct l2; simpl; intros L H; try lia; constructor.
  - apply (H 0). lia.
  - apply IHl1; [lia|]. intros k Hk. apply (H (S k)). lia.
Qed.
