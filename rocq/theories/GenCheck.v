(** Boolean checkers for the side conditions of the generic results, for any
    term language; used to exhibit concrete programs that satisfy them. *)
From Verif Require Import Base Sym Term Lining Outline Dominators.

Section GenCheck.
Context {T : Type} {O : TermOps T} {L : TermLaws T}.

Definition gnodes (p : T) : list T := fst (cse_build (tsize p) ([], []) p).

Lemma gnodes_spec p n : In n (gnodes p) <-> sub_of n p.
Proof.
  unfold gnodes. destruct (cse_build (tsize p) ([], []) p) as [nodes order] eqn:E.
  destruct (cse_build_nodes p nodes order E) as (_ & H & _). apply H.
Qed.

Fixpoint gfreeb (fuel : nat) (s : sym) (t : T) : bool :=
  match fuel with
  | 0 => false
  | S fuel =>
      match symof t with Some s' => sym_eqb s s' | None => false end ||
      existsb (fun p => negb (smem s (snd p)) && gfreeb fuel s (fst p)) (combine (subs t) (scopes t))
  end.

Lemma nth_error_combine {A B} (l : list A) (m : list B) k a b :
  nth_error l k = Some a -> nth_error m k = Some b -> In (a, b) (combine l m).
Proof.
  revert m k. induction l as [|x l IH]; intros [|y m] [|k] H1 H2; simpl in *; try discriminate.
  - left. congruence.
  - right. eauto.
Qed.

Lemma gfreeb_spec fuel s : forall t, tsize t <= fuel -> isfree s t -> gfreeb fuel s t = true.
Proof.
  induction fuel as [|fuel IH]; intros t Ht H.
  - pose proof (tsize_pos t). lia.
  - cbn [gfreeb]. apply orb_true_iff. inversion H as [t' Hs|t' k c sc Hk Hsc Hf Hn]; subst.
    + left. rewrite Hs. apply sym_eqb_eq. reflexivity.
    + right. apply existsb_exists. exists (c, sc). split; [eapply nth_error_combine; eauto|].
      simpl. apply andb_true_iff. split.
      * apply negb_true_iff. apply not_true_iff_false. intros Hm. apply smem_In in Hm. auto.
      * apply IH; auto. apply nth_error_In in Hk. apply tsize_sub in Hk. lia.
Qed.

Definition gdistinctb (p : T) : bool :=
  forallb (fun n => forallb (fun s => negb (gfreeb (tsize p) s p) &&
      forallb (fun n' => implb (smem s (capt n')) (teqb n' n)) (gnodes p))
    (capt n)) (gnodes p).

Lemma gdistinctb_sound p : gdistinctb p = true -> distinct_binders p.
Proof.
  unfold gdistinctb. rewrite forallb_forall. intros H n s Hn Hs.
  specialize (H n (proj2 (gnodes_spec p n) Hn)). rewrite forallb_forall in H.
  specialize (H s Hs). apply andb_true_iff in H as [H1 H2]. rewrite forallb_forall in H2. split.
  - intros Hf. apply (gfreeb_spec (tsize p)) in Hf; auto. rewrite Hf in H1. discriminate.
  - intros n' Hn' Hs'. specialize (H2 n' (proj2 (gnodes_spec p n') Hn')).
    assert (Hm : smem s (capt n') = true) by (apply smem_In; auto).
    rewrite Hm in H2. simpl in H2. apply teqb_eq; auto.
Qed.

Definition gaboveb (nxt : nat) (p : T) : bool :=
  forallb (fun n => forallb (fun s => match s with SV x => x <? nxt | SX _ => true end)
    (capt n ++ match symof n with Some s => [s] | None => [] end)) (gnodes p).

Lemma gaboveb_sound nxt p : gaboveb nxt p = true -> above nxt p.
Proof.
  unfold gaboveb. rewrite forallb_forall. intros H n x Hn Hs.
  specialize (H n (proj2 (gnodes_spec p n) Hn)). rewrite forallb_forall in H.
  specialize (H (SV x)). apply Nat.ltb_lt, H, in_app_iff.
  destruct Hs as [Hs|Hs]; [left; exact Hs|right]. rewrite Hs. simpl. auto.
Qed.
End GenCheck.
