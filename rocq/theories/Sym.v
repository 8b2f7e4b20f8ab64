(** ein/symbols.py: symbols, and environments mapping them to values. *)
From Verif Require Import Base.

(** ein/symbols.py: [Variable] and [Index] are compared by identity. *)
Inductive sym : Type :=
| SV (x : nat)    (* Variable *)
| SX (i : nat).   (* Index *)

Definition sym_eqb (a b : sym) : bool :=
  match a, b with
  | SV x, SV y => x =? y
  | SX x, SX y => x =? y
  | _, _ => false
  end.

Lemma sym_eqb_eq a b : sym_eqb a b = true <-> a = b.
Proof.
  destruct a, b; simpl; split; intros H; try discriminate;
    try (apply Nat.eqb_eq in H; congruence); injection H as ->; apply Nat.eqb_refl.
Qed.

Lemma sym_eqb_refl a : sym_eqb a a = true.
Proof. apply sym_eqb_eq; auto. Qed.

Lemma sym_eqb_neq a b : sym_eqb a b = false <-> a <> b.
Proof. rewrite <- sym_eqb_eq. destruct (sym_eqb a b); split; congruence. Qed.

Lemma sym_eq_dec (a b : sym) : {a = b} + {a <> b}.
Proof.
  destruct (sym_eqb a b) eqn:E; [left; apply sym_eqb_eq|right; apply sym_eqb_neq]; auto.
Defined.

Definition smem (s : sym) (l : list sym) : bool := existsb (sym_eqb s) l.

Lemma smem_In s l : smem s l = true <-> In s l.
Proof.
  unfold smem. rewrite existsb_exists. split.
  - intros (y & Hy & E). apply sym_eqb_eq in E. subst; auto.
  - intros H. exists s. split; auto. apply sym_eqb_refl.
Qed.

Lemma smem_not_In s l : smem s l = false <-> ~ In s l.
Proof. rewrite <- smem_In. destruct (smem s l); split; congruence. Qed.

Definition is_index (s : sym) : bool := match s with SX _ => true | SV _ => false end.

Definition sremove (cs l : list sym) : list sym := filter (fun s => negb (smem s cs)) l.

Lemma sremove_In cs l s : In s (sremove cs l) <-> In s l /\ ~ In s cs.
Proof.
  unfold sremove. rewrite filter_In, negb_true_iff, smem_not_In. tauto.
Qed.

Lemma sremove_nil l : sremove [] l = l.
Proof. unfold sremove, smem. simpl. induction l; simpl; congruence. Qed.

(** Environments (Python dicts from symbols to values). *)
Section Env.
Context {V : Type}.
Definition genv : Type := sym -> option V.
Definition upd (E : genv) (s : sym) (v : V) : genv :=
  fun s' => if sym_eqb s' s then Some v else E s'.
Definition empty_env : genv := fun _ => None.

Lemma upd_eq E s v : upd E s v s = Some v.
Proof. unfold upd. rewrite sym_eqb_refl. reflexivity. Qed.

Lemma upd_neq E s s' v : s' <> s -> upd E s v s' = E s'.
Proof. intros H. unfold upd. apply sym_eqb_neq in H. rewrite H. reflexivity. Qed.

(** [env_eq l E1 E2]: the environments agree on the symbols of [l]. *)
Definition env_eq (l : list sym) (E1 E2 : genv) : Prop := forall s, In s l -> E1 s = E2 s.
End Env.
Arguments genv V : clear implicits.
